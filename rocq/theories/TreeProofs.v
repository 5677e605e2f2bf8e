(** Proofs about whole expression trees (C08). *)
From stdpp Require Import prelude gmap fin_maps.
From Coq Require Import ZArith Lia Znumtheory Zpow_facts.
From Verif Require Import ModArithModel ModArithProofs AlgebraModel AlgebraSpec AlgebraProofs.
Open Scope Z_scope.

Lemma centre_comparable p v : 2 < p -> Z.odd p = true -> centre p (v mod p) = comparable_element v p.
Proof.
  intros Hp Ho. destruct (comparable_spec v p Hp Ho) as [A B].
  pose proof (Z.mod_pos_bound v p ltac:(lia)).
  apply (centered_unique _ _ v p Hp Ho); auto.
  - apply Z.odd_spec in Ho. destruct Ho as [h Hh]. unfold centre.
    assert (p / 2 = h) as -> by (symmetry; apply Z.div_unique with 1; lia).
    assert ((p - 1) / 2 = h) as -> by (symmetry; apply Z.div_unique with 0; lia).
    destruct (Z.leb_spec (v mod p) h); lia.
  - pose proof (Z.div_mod v p ltac:(lia)). unfold centre. destruct (_ <=? _).
    + apply Z.mod_divide; [lia|]. exists (- (v / p)). lia.
    + apply Z.mod_divide; [lia|]. exists (- (v / p) - 1). lia.
Qed.
Lemma bits_log2 p : 0 < p -> Z.log2 p + 1 = bits p.
Proof. intros. unfold bits. destruct p; try lia. rewrite Z.abs_eq by lia. reflexivity. Qed.

Lemma b2z_b01 b : b2z b = b01 b.
Proof. reflexivity. Qed.
Lemma b2z_range b p : 2 < p -> 0 <= b2z b < p.
Proof. destruct b; cbn; lia. Qed.

Lemma num2_inv f l r ρ v : aval ρ (num2 f l r) = Some v ->
  exists x y, l = Number x /\ r = Number y /\ v = f x y.
Proof. destruct l, r; cbn; intros; try discriminate. simplify_eq. eauto. Qed.
Lemma num2r_inv f l r ρ e v : num2r f l r = Ok e -> aval ρ e = Some v ->
  exists x y, l = Number x /\ r = Number y /\ f x y = Ok v.
Proof.
  destruct l, r; cbn; intros; simplify_eq; try discriminate.
  destruct (f value value0) as [w| |] eqn:E; cbn in *; try discriminate.
  match goal with H : Ok _ = Ok _ |- _ => injection H as <- end. cbn in *. simplify_eq. eauto.
Qed.
Lemma num1_inv f e ρ v : aval ρ (num1 f e) = Some v -> exists x, e = Number x /\ v = f x.
Proof. destruct e; cbn; intros; try discriminate. simplify_eq. eauto. Qed.

Lemma shift_den p l k v (d : bool) : 2 < p -> 0 <= l < p -> 0 <= k < p -> shift 2 d l k p = Ok v ->
  v = (if d then (if k <=? p / 2 then shl p l k else shr l (p - k))
            else (if k <=? p / 2 then shr l k else shl p l (p - k))) /\ 0 <= v < p.
Proof.
  intros Hp Hl Hk E.
  assert (Hb : forall m b, 0 <= m -> shift 1 b l m p = Ok v \/ shift 2 b l m p = Ok v -> m <= p / 2 ->
     v = (if b then shl p l m else shr l m) /\ 0 <= v < p).
  { intros m b Hm HE Hle.
    destruct (Z.ltb_spec m (2 ^ 64)) as [Hs|Hs].
    - rewrite !shift_base in HE by lia. destruct HE as [HE|HE]; injection HE as <-;
       (split; [unfold shl, shr, shl_val, shr_val; rewrite bits_log2 by lia; reflexivity|]);
       destruct b; try apply shl_val_range; try apply shr_val_range; lia.
    - rewrite !shift_too_big in HE by lia. destruct HE; discriminate. }
  destruct (Z.leb_spec k (p / 2)).
  - destruct (Hb k d ltac:(lia) ltac:(auto) ltac:(lia)) as [-> ?]. split; [destruct d; reflexivity|assumption].
  - rewrite shift_mirror in E by lia. pose proof (half_mirror p k ltac:(lia) ltac:(lia)).
    destruct (Hb (p - k) (negb d) ltac:(lia) ltac:(auto) ltac:(lia)) as [-> ?].
    split; [destruct d; reflexivity|assumption].
Qed.

Definition pure2 (op : infix_op) : option (Z -> Z -> Z -> Z) :=
  match op with
  | LesserEq => Some lesser_eq | GreaterEq => Some greater_eq | Lesser => Some lesser
  | Greater => Some greater | Eq => Some ModArithModel.eq | NotEq => Some not_eq
  | BoolOr => Some bool_or | BoolAnd => Some bool_and | BitOr => Some bit_or
  | BitAnd => Some bit_and | BitXor => Some bit_xor
  | _ => None
  end.
Lemma pure2_den p op f x y : 2 < p -> Z.odd p = true -> pure2 op = Some f -> 0 <= x < p -> 0 <= y < p ->
  infix_den p op x y (f x y p).
Proof.
  intros Hp Ho Hf Hx Hy.
  destruct (cmp_all x y p Hp Ho) as (A & B & C & D & E & F).
  assert (Cx : comparable_element x p = centre p x)
    by (rewrite <- (centre_comparable p x), Z.mod_small; auto; lia).
  assert (Cy : comparable_element y p = centre p y)
    by (rewrite <- (centre_comparable p y), Z.mod_small; auto; lia).
  rewrite Cx, Cy in *.
  assert (Hxy : (centre p x =? centre p y) = (x =? y)).
  { unfold centre. apply Z.odd_spec in Ho. destruct Ho as [h Hh].
    assert (p / 2 = h) as -> by (symmetry; apply Z.div_unique with 1; lia).
    destruct (Z.eqb_spec x y) as [->|]; [apply Z.eqb_refl|]. apply Z.eqb_neq.
    destruct (Z.leb_spec x h), (Z.leb_spec y h); lia. }
  rewrite Hxy in *.
  destruct op; cbn in Hf; try discriminate; injection Hf as <-; unfold infix_den.
  - rewrite B. split; [apply b2z_range; assumption|reflexivity].
  - rewrite D. split; [apply b2z_range; assumption|reflexivity].
  - rewrite A. split; [apply b2z_range; assumption|reflexivity].
  - rewrite C. split; [apply b2z_range; assumption|reflexivity].
  - rewrite E. split; [apply b2z_range; assumption|reflexivity].
  - rewrite F. split; [apply b2z_range; assumption|reflexivity].
  - rewrite bool_or_spec, !Z.mod_small by lia. split; [apply b2z_range; assumption|reflexivity].
  - rewrite bool_and_spec, !Z.mod_small by lia. split; [apply b2z_range; assumption|reflexivity].
  - unfold bit_or. rewrite modulus_mod by lia. split; [apply Z.mod_pos_bound; lia|reflexivity].
  - unfold bit_and. rewrite modulus_mod by lia.
    assert (H : 0 <= Z.land x y <= x).
    { split; [apply Z.land_nonneg; lia|].
      assert (Z.land x y = x - Z.ldiff x y) as ->.
      { pose proof (Z.sub_nocarry_ldiff x (Z.ldiff x y)) as Hs. rewrite Hs.
        - apply Z.bits_inj. intros i. rewrite Z.land_spec, !Z.ldiff_spec.
          destruct (Z.testbit x i), (Z.testbit y i); reflexivity.
        - apply Z.bits_inj. intros i. rewrite !Z.ldiff_spec, Z.bits_0.
          destruct (Z.testbit x i), (Z.testbit y i); reflexivity. }
      assert (0 <= Z.ldiff x y) by (apply Z.ldiff_nonneg; lia). lia. }
    split; [apply Z.mod_pos_bound; lia|]. apply Z.mod_small. lia.
  - unfold bit_xor. rewrite modulus_mod by lia. split; [apply Z.mod_pos_bound; lia|reflexivity].
Qed.

Lemma pure2_sound p op f l r ρ v : prime p -> 2 < p -> Z.odd p = true -> canon_expr p l -> canon_expr p r ->
  pure2 op = Some f ->
  wf_expr (num2 (fun x y => f x y p) l r) /\ canon_expr p (num2 (fun x y => f x y p) l r) /\
  (aval ρ (num2 (fun x y => f x y p) l r) = Some v -> exists x y, aval ρ l = Some x /\ aval ρ r = Some y /\
     infix_den p op (x mod p) (y mod p) (v mod p)).
Proof.
  intros Hp Hp2 Ho Cl Cr Hf.
  destruct l as [x| | | |], r as [y| | | |]; cbn [num2]; try (split; [exact I|]; split; [exact I|]; discriminate).
  cbn in Cl, Cr. pose proof (pure2_den p op f x y Hp2 Ho Hf Cl Cr) as H.
  split; [exact I|]. split; [apply H|]. intros [= <-]. exists x, y.
  split; [reflexivity|]. split; [reflexivity|]. rewrite (Z.mod_small (f x y p)) by apply H.
  rewrite !Z.mod_small by lia. exact H.
Qed.
Lemma infix_sound p op l r e ρ v :
  prime p -> 2 < p -> wf_expr l -> wf_expr r -> canon_expr p l -> canon_expr p r ->
  execute_infix_op op l r p = Ok e ->
  wf_expr e /\ canon_expr p e /\
  (aval ρ e = Some v -> exists x y, aval ρ l = Some x /\ aval ρ r = Some y /\
     infix_den p op (x mod p) (y mod p) (v mod p)).
Proof.
  intros Hp Hp2 Wl Wr Cl Cr E.
  assert (Ho : Z.odd p = true).
  { rewrite Z.odd_spec. destruct (Z.Even_or_Odd p) as [[h Hh]|]; [|assumption]. exfalso.
    apply prime_divisors with (a := 2) in Hp; [|exists h; lia]. lia. }
  assert (Hmp : forall z, 0 <= z mod p < p) by (intros; apply Z.mod_pos_bound; lia).
  assert (Hn2r : forall f, num2r f l r = Ok e -> (forall x y w, l = Number x -> r = Number y -> f x y = Ok w -> infix_den p op x y w) ->
     wf_expr e /\ canon_expr p e /\
     (aval ρ e = Some v -> exists x y, aval ρ l = Some x /\ aval ρ r = Some y /\ infix_den p op (x mod p) (y mod p) (v mod p))).
  { intros f Ef Hd.
    assert (Hd' : e = NonQuadratic \/ exists x y w, l = Number x /\ r = Number y /\ e = Number w /\ f x y = Ok w).
    { destruct l, r; cbn in Ef; simplify_eq; try (left; reflexivity).
      destruct (f value value0) eqn:Ef'; cbn in Ef; simplify_eq. right. naive_solver. }
    destruct Hd' as [->|(x & y & w & -> & -> & -> & Ew)]; [split_and!; try exact I; discriminate|].
    cbn in Cl, Cr. pose proof (Hd x y w eq_refl eq_refl Ew) as Hd1.
    assert (0 <= w < p) by apply Hd1.
    split; [exact I|]. split; [assumption|]. intros [= <-]. exists x, y.
    split; [reflexivity|]. split; [reflexivity|]. rewrite !Z.mod_small by lia. assumption. }
  destruct op; cbn [execute_infix_op] in E.
  - (* Mul *) injection E as <-. split; [apply amul_wf; auto; lia|]. split; [apply amul_canon; auto; lia|].
    intros Hv. destruct (aval ρ l) as [x|] eqn:El; [|rewrite (amul_none_l _ _ _ _ El) in Hv; discriminate].
    destruct (aval ρ r) as [y|] eqn:Er; [|rewrite (amul_none_r _ _ _ _ Er) in Hv; discriminate].
    exists x, y. split; [assumption || reflexivity|]. split; [assumption || reflexivity|]. split; [apply Hmp|].
    destruct (amul_sound p l r ρ x y ltac:(lia) Wl Wr El Er) as (_ & _ & HV).
    rewrite <- Z.mul_mod by lia. apply (HV v Hv).
  - (* Div *) destruct (aval ρ l) as [x|] eqn:El.
    2:{ assert (e = NonQuadratic) as -> by (destruct l; cbn in El; try discriminate; cbn in E; congruence).
        split_and!; try exact I. discriminate. }
    destruct r as [y| | | |]; try (assert (e = NonQuadratic) as -> by (destruct l; cbn in E; congruence); split_and!; try exact I; discriminate).
    destruct (adiv_sound p l y e ρ x Hp Wl El E) as (Hy & We & Ce & w & Hw & Hwy).
    split; [assumption|]. split; [auto|]. intros Hv. rewrite Hv in Hw. injection Hw as <-.
    exists x, y. split; [assumption || reflexivity|]. split; [assumption || reflexivity|]. split; [apply Hmp|].
    split.
    + intros H0. apply Hy. unfold cong. rewrite H0, Z.mod_0_l by lia. reflexivity.
    + rewrite <- Z.mul_mod by lia. exact Hwy.
  - (* Add *) destruct (aadd_wf_canon p l r ltac:(lia) Wl Wr) as (e' & E' & We & Ce). rewrite E' in E; injection E as <-.
    split; [assumption|]. split; [auto|]. intros Hv.
    destruct (aval ρ l) as [x|] eqn:El; [|rewrite (aadd_none_l _ _ _ _ El) in E'; injection E' as <-; discriminate].
    destruct (aval ρ r) as [y|] eqn:Er; [|rewrite (aadd_none_r _ _ _ _ Er) in E'; injection E' as <-; discriminate].
    exists x, y. split; [assumption || reflexivity|]. split; [assumption || reflexivity|]. split; [apply Hmp|].
    destruct (aadd_sound p l r ρ x y ltac:(lia) Wl Wr El Er) as (e'' & E'' & _ & _ & HV).
    rewrite E' in E''; injection E'' as <-. rewrite <- Z.add_mod by lia. apply (HV v Hv).
  - (* Sub *) destruct (asub_wf_canon p l r ltac:(lia) Wl Wr) as (e' & E' & We & Ce). rewrite E' in E; injection E as <-.
    split; [assumption|]. split; [auto|]. intros Hv.
    destruct (aval ρ l) as [x|] eqn:El; [|rewrite (asub_none p l r ρ) in E' by auto; injection E' as <-; discriminate].
    destruct (aval ρ r) as [y|] eqn:Er; [|rewrite (asub_none p l r ρ) in E' by auto; injection E' as <-; discriminate].
    exists x, y. split; [assumption || reflexivity|]. split; [assumption || reflexivity|]. split; [apply Hmp|].
    destruct (asub_sound p l r ρ x y ltac:(lia) Wl Wr El Er) as (e'' & E'' & _ & _ & HV).
    rewrite E' in E''; injection E'' as <-. rewrite <- Zminus_mod. apply (HV v Hv).
  - (* Pow *) destruct (aval ρ l) as [x|] eqn:El.
    2:{ assert (e = NonQuadratic) as -> by (destruct l; cbn in El; try discriminate; cbn in E; congruence).
        split_and!; try exact I. discriminate. }
    destruct r as [y| | | |]; try (assert (e = NonQuadratic) as -> by (destruct l; cbn in E; congruence); split_and!; try exact I; discriminate).
    cbn in Cr. destruct (apow_sound p l y e ρ x ltac:(lia) Wl El ltac:(lia) E) as (We & Ce & HV).
    split; [assumption|]. split; [auto|]. intros Hv. exists x, y. split; [assumption || reflexivity|]. split; [assumption || reflexivity|]. split; [apply Hmp|]. rewrite (Z.mod_small y) by lia. rewrite <- Zpower_mod by lia. apply (HV v Hv).
  - (* IntDiv *) apply (Hn2r _ E). intros x y w -> -> Ew. cbn in Cl, Cr. unfold infix_den.
    destruct (idiv_spec x y p ltac:(lia)) as [A B]. rewrite (Z.mod_small y p) in A, B by lia. rewrite (Z.mod_small x p) in B by lia.
    destruct (Z.eq_dec y 0) as [->|Hy]; [rewrite A in Ew by reflexivity; discriminate|].
    rewrite B in Ew by assumption. injection Ew as <-.
    split; [|auto]. split; [apply Z.div_pos; lia|apply Z.div_lt_upper_bound; nia].
  - (* Mod *) apply (Hn2r _ E). intros x y w -> -> Ew. cbn in Cl, Cr. unfold infix_den.
    destruct (mod_op_spec x y p ltac:(lia)) as [A B]. rewrite (Z.mod_small y p) in A, B by lia. rewrite (Z.mod_small x p) in B by lia.
    destruct (Z.eq_dec y 0) as [->|Hy]; [rewrite A in Ew by reflexivity; discriminate|].
    rewrite B in Ew by assumption. injection Ew as <-.
    split; [|auto]. pose proof (Z.mod_pos_bound x y ltac:(lia)). lia.
  - apply (Hn2r _ E). intros x y w -> -> Ew. cbn in Cl, Cr. unfold infix_den.
    destruct (shift_den p x y w true Hp2 Cl Cr Ew) as [-> ?]. auto.
  - apply (Hn2r _ E). intros x y w -> -> Ew. cbn in Cl, Cr. unfold infix_den.
    destruct (shift_den p x y w false Hp2 Cl Cr Ew) as [-> ?]. auto.
  - injection E as <-. apply (pure2_sound p LesserEq lesser_eq l r ρ v Hp Hp2 Ho Cl Cr eq_refl).
  - injection E as <-. apply (pure2_sound p GreaterEq greater_eq l r ρ v Hp Hp2 Ho Cl Cr eq_refl).
  - injection E as <-. apply (pure2_sound p Lesser lesser l r ρ v Hp Hp2 Ho Cl Cr eq_refl).
  - injection E as <-. apply (pure2_sound p Greater greater l r ρ v Hp Hp2 Ho Cl Cr eq_refl).
  - injection E as <-. apply (pure2_sound p Eq ModArithModel.eq l r ρ v Hp Hp2 Ho Cl Cr eq_refl).
  - injection E as <-. apply (pure2_sound p NotEq not_eq l r ρ v Hp Hp2 Ho Cl Cr eq_refl).
  - injection E as <-. apply (pure2_sound p BoolOr bool_or l r ρ v Hp Hp2 Ho Cl Cr eq_refl).
  - injection E as <-. apply (pure2_sound p BoolAnd bool_and l r ρ v Hp Hp2 Ho Cl Cr eq_refl).
  - injection E as <-. apply (pure2_sound p BitOr bit_or l r ρ v Hp Hp2 Ho Cl Cr eq_refl).
  - injection E as <-. apply (pure2_sound p BitAnd bit_and l r ρ v Hp Hp2 Ho Cl Cr eq_refl).
  - injection E as <-. apply (pure2_sound p BitXor bit_xor l r ρ v Hp Hp2 Ho Cl Cr eq_refl).
Qed.

Lemma prefix_sound p op e ρ v :
  prime p -> 2 < p -> wf_expr e -> canon_expr p e ->
  wf_expr (execute_prefix_op op e p) /\ canon_expr p (execute_prefix_op op e p) /\
  (aval ρ (execute_prefix_op op e p) = Some v ->
     exists x, aval ρ e = Some x /\ prefix_den p op (x mod p) (v mod p)).
Proof.
  intros Hp Hp2 We Ce.
  assert (Hmp : forall z, 0 <= z mod p < p) by (intros; apply Z.mod_pos_bound; lia).
  destruct op; cbn [execute_prefix_op]; unfold aneg, anot, acomplement, prefix_den.
  - split; [apply amul_wf; [lia|assumption|exact I]|].
    assert (Hc : canon_expr p (amul e (Number (-1)) p)).
    { destruct e; cbn [amul canon_expr] in *; solve_canon. }
    split; [exact Hc|]. intros Hv.
    destruct (aval ρ e) as [x|] eqn:Ee; [|rewrite (amul_none_l _ _ _ _ Ee) in Hv; discriminate].
    exists x. split; [reflexivity|]. split; [apply Hmp|].
    destruct (amul_sound p e (Number (-1)) ρ x (-1) ltac:(lia) We I Ee eq_refl) as (_ & _ & HV).
    pose proof (HV v Hv) as HH. unfold cong in HH. rewrite HH.
    replace (- (x mod p)) with ((x mod p) * -1) by lia. rewrite Z.mul_mod_idemp_l by lia. reflexivity.
  - assert (HR : forall x, 0 <= ModArithModel.not x p < p) by (intros; rewrite not_spec by lia; destruct (_ =? _); lia).
    split; [destruct e; exact I|]. split; [destruct e; cbn; auto|].
    intros Hv. apply num1_inv in Hv. destruct Hv as (x & -> & ->). cbn in Ce.
    exists x. split; [reflexivity|]. split; [apply Hmp|].
    rewrite (Z.mod_small (ModArithModel.not x p)) by apply HR. rewrite not_spec by lia. unfold nz.
    rewrite negb_involutive. reflexivity.
  - assert (HS : forall x, e = Number x -> complement x p = (2 ^ (Z.log2 p + 1) - 1 - x) mod p).
    { intros x ->. cbn in Ce. rewrite bits_log2 by lia. pose proof (bits_lt p ltac:(lia)). apply complement_spec; lia. }
    split; [destruct e; exact I|].
    split; [destruct e; cbn; auto; rewrite (HS value) by reflexivity; apply Hmp|].
    intros Hv. apply num1_inv in Hv. destruct Hv as (x & Ee & ->). exists x.
    split; [rewrite Ee; reflexivity|]. split; [apply Hmp|]. rewrite (HS x Ee).
    subst e. cbn in Ce. rewrite Z.mod_mod by lia. rewrite (Z.mod_small x) by lia. reflexivity.
Qed.

Lemma res_bind_ok {A B} (x : res A) (f : A -> res B) b :
  res_bind x f = Ok b -> exists a, x = Ok a /\ f a = Ok b.
Proof. destruct x; cbn; intros; try discriminate; eauto. Qed.

Lemma tree_sound p t e ρ : prime p -> 2 < p -> reduced_literals p t -> exec_tree p t = Ok e ->
  wf_expr e /\ canon_expr p e /\ forall v, aval ρ e = Some v -> den p ρ t (v mod p).
Proof.
  intros Hp Hp2. revert e. induction t as [v|s|op l IHl r IHr|op t IH]; intros e HL E; cbn in HL, E.
  - injection E as <-. cbn. split; [exact I|]. split; [assumption|]. intros ? [= <-]. reflexivity.
  - injection E as <-. cbn. split; [exact I|]. split; [exact I|]. intros ? [= <-]. reflexivity.
  - apply res_bind_ok in E. destruct E as (el & El & E). apply res_bind_ok in E. destruct E as (er & Er & E).
    destruct (IHl el ltac:(tauto) El) as (Wl & Cl & Vl). destruct (IHr er ltac:(tauto) Er) as (Wr & Cr & Vr).
    destruct (infix_sound p op el er e ρ 0 Hp Hp2 Wl Wr Cl Cr E) as (W & C & _).
    split; [assumption|]. split; [assumption|]. intros v Hv.
    destruct (infix_sound p op el er e ρ v Hp Hp2 Wl Wr Cl Cr E) as (_ & _ & V).
    destruct (V Hv) as (x & y & Hx & Hy & Hd). cbn. exists (x mod p), (y mod p). auto.
  - apply res_bind_ok in E. destruct E as (el & El & E). injection E as <-.
    destruct (IH el HL El) as (Wl & Cl & Vl).
    destruct (prefix_sound p op el ρ 0 Hp Hp2 Wl Cl) as (W & C & _).
    split; [assumption|]. split; [assumption|]. intros v Hv.
    destruct (prefix_sound p op el ρ v Hp Hp2 Wl Cl) as (_ & _ & V).
    destruct (V Hv) as (x & Hx & Hd). cbn. exists (x mod p). auto.
Qed.

Lemma infix_no_panic p op l r : prime p -> 2 < p -> wf_expr l -> wf_expr r -> canon_expr p l -> canon_expr p r ->
  op <> Mod -> execute_infix_op op l r p <> Panic.
Proof.
  intros Hp Hp2 Wl Wr Cl Cr Hop. destruct op; cbn [execute_infix_op]; try discriminate; try contradiction.
  - destruct (aval (fun _ => 0) l) as [x|] eqn:El; [|destruct l; cbn in El; try discriminate].
    destruct r as [y| | | |]; try (destruct l; discriminate).
    destruct (adiv_error p l y _ x Hp El) as [_ H]. exact H.
  - destruct (aadd_wf_canon p l r ltac:(lia) Wl Wr) as (e & -> & _). discriminate.
  - destruct (asub_wf_canon p l r ltac:(lia) Wl Wr) as (e & -> & _). discriminate.
  - destruct l, r; cbn; try discriminate; try (destruct (_ =? 2); discriminate).
    cbn in Cr. rewrite pow_spec by lia. discriminate.
  - destruct l, r; cbn; try discriminate. destruct (idiv_spec value value0 p ltac:(lia)) as [A B].
    destruct (Z.eq_dec (value0 mod p) 0) as [E|E]; [rewrite (A E)|rewrite (B E)]; discriminate.
  - destruct l, r; cbn [ashift_l num2r]; try discriminate. cbn in Cl, Cr.
    assert (Hs : shift_l 2 value value0 p <> Panic); [|destruct (shift_l 2 value value0 p); cbn; congruence].
    unfold shift_l. destruct (Z.leb_spec value0 (p / 2)).
    + destruct (Z.ltb_spec value0 (2 ^ 64)); [rewrite shift_base by lia|rewrite shift_too_big by lia]; discriminate.
    + rewrite shift_mirror by lia. pose proof (half_mirror p value0 ltac:(lia) ltac:(lia)).
      destruct (Z.ltb_spec (p - value0) (2 ^ 64)); [rewrite shift_base by lia|rewrite shift_too_big by lia]; discriminate.
  - destruct l, r; cbn [ashift_r num2r]; try discriminate. cbn in Cl, Cr.
    assert (Hs : shift_r 2 value value0 p <> Panic); [|destruct (shift_r 2 value value0 p); cbn; congruence].
    unfold shift_r. destruct (Z.leb_spec value0 (p / 2)).
    + destruct (Z.ltb_spec value0 (2 ^ 64)); [rewrite shift_base by lia|rewrite shift_too_big by lia]; discriminate.
    + rewrite shift_mirror by lia. pose proof (half_mirror p value0 ltac:(lia) ltac:(lia)).
      destruct (Z.ltb_spec (p - value0) (2 ^ 64)); [rewrite shift_base by lia|rewrite shift_too_big by lia]; discriminate.
Qed.
Lemma tree_no_panic p t : prime p -> 2 < p -> reduced_literals p t -> no_remainder t -> exec_tree p t <> Panic.
Proof.
  intros Hp Hp2. induction t as [v|s|op l IHl r IHr|op t IH]; intros HL HM; cbn in *; try discriminate.
  - destruct HL as [HL1 HL2]. destruct HM as (HM & HM1 & HM2).
    specialize (IHl HL1 HM1). specialize (IHr HL2 HM2).
    destruct (exec_tree p l) as [el| |] eqn:El; cbn; try congruence.
    destruct (exec_tree p r) as [er| |] eqn:Er; cbn; try congruence.
    destruct (tree_sound p l el (fun _ => 0) Hp Hp2 HL1 El) as (? & ? & _).
    destruct (tree_sound p r er (fun _ => 0) Hp Hp2 HL2 Er) as (? & ? & _).
    apply infix_no_panic; assumption.
  - specialize (IH HL HM). destruct (exec_tree p t); cbn; congruence.
Qed.

(** [den] is a partial function *)
Lemma infix_den_fun p op a b x x' : prime p -> 0 <= a < p -> 0 <= b < p ->
  infix_den p op a b x -> infix_den p op a b x' -> x = x'.
Proof.
  intros Hp Ha Hb [Hx H] [Hx' H']. pose proof (prime_ge_2 p Hp).
  destruct op; try (rewrite H, H'; reflexivity); try (rewrite (proj2 H), (proj2 H'); reflexivity).
  destruct H as [Hn H], H' as [_ H'].
  apply (mul_cancel_mod x x' b p Hp); auto; try lia.
  rewrite Z.mod_small; lia.
Qed.
Lemma den_range p ρ t x : 0 < p -> den p ρ t x -> 0 <= x < p.
Proof.
  intros Hp. destruct t; cbn.
  - intros ->. apply Z.mod_pos_bound; lia.
  - intros ->. apply Z.mod_pos_bound; lia.
  - intros (a & b & _ & _ & H & _). exact H.
  - intros (a & _ & H & _). exact H.
Qed.
Lemma den_fun p ρ t : forall x x', prime p -> den p ρ t x -> den p ρ t x' -> x = x'.
Proof.
  induction t as [v|s|op l IHl r IHr|op t IH]; intros x x' Hp; cbn; try congruence.
  - intros (a & b & Ha & Hb & H) (a' & b' & Ha' & Hb' & H').
    pose proof (prime_ge_2 p Hp).
    assert (a = a') as <- by eauto. assert (b = b') as <- by eauto.
    apply (infix_den_fun p op a b); auto; eapply den_range; eauto; lia.
  - intros (a & Ha & H) (a' & Ha' & H'). assert (a = a') as <- by eauto.
    destruct op; destruct H as [_ ->], H' as [_ ->]; reflexivity.
Qed.
