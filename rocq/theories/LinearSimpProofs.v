(** Proofs about LinearSimpModel: elimination (both heuristics), normalisation, non-overlap. *)
From stdpp Require Import prelude gmap fin_maps sorting.
From Coq Require Import ZArith Lia Znumtheory.
From Verif Require Import ModArithModel ModArithProofs AlgebraModel AlgebraSpec AlgebraProofs LinearSimpModel LinearSpec.
Open Scope Z_scope.

Lemma res_bind_ok_inv {A B} (x : res A) (f : A -> res B) b :
  res_bind x f = Ok b -> exists a, x = Ok a /\ f a = Ok b.
Proof. destruct x; cbn; intros; try discriminate; eauto. Qed.

(** ** expressions of degree at most one *)
Definition lin_expr (e : aexpr) : Prop :=
  match e with Number _ | Signal _ | Linear _ => True | _ => False end.
Definition ekey (j : nat) (e : aexpr) : Prop :=
  match e with
  | Signal s => j = s
  | Linear m => is_Some (m !! j)
  | _ => False
  end.

Lemma hashmap_into_arith_spec m :
  lin_expr (hashmap_into_arith m) /\ wf_expr (hashmap_into_arith m) /\
  (forall ρ, aval ρ (hashmap_into_arith m) = Some (leval ρ m)) /\
  (forall j, ekey j (hashmap_into_arith m) -> j = 0%nat \/ is_Some (m !! j)).
Proof.
  unfold hashmap_into_arith.
  assert (HL : lin_expr (Linear (init_expr m)) /\ wf_expr (Linear (init_expr m)) /\
    (forall ρ, aval ρ (Linear (init_expr m)) = Some (leval ρ m)) /\
    (forall j, ekey j (Linear (init_expr m)) -> j = 0%nat \/ is_Some (m !! j))).
  { split; [exact I|]. split; [apply init_expr_has|]. split; [intros; cbn; rewrite leval_init; reflexivity|].
    intros j H. apply keys_init in H. tauto. }
  destruct (map_to_list m) as [|[k v] [|]] eqn:E; try exact HL.
  assert (Em : m = {[ k := v ]}).
  { rewrite <- (list_to_map_to_list m), E. reflexivity. }
  unfold cc. destruct (Nat.eqb_spec k 0) as [->|Hk].
  - split; [exact I|]. split; [exact I|]. split; [|intros j []].
    intros ρ. rewrite Em, leval_singleton. cbn. f_equal; lia.
  - destruct (Z.eqb_spec v 1) as [->|]; [|exact HL].
    split; [exact I|]. split; [exact I|]. split.
    + intros ρ. rewrite Em, leval_singleton. cbn. f_equal. lia.
    + intros j ->. right. rewrite Em, lookup_singleton. eauto.
Qed.

Lemma keys_add_symbol p s k m i : is_Some (add_symbol s k m p !! i) <-> i = s \/ is_Some (m !! i).
Proof.
  unfold add_symbol. rewrite lookup_insert_is_Some'. naive_solver.
Qed.
Lemma keys_init_empty i : is_Some (init_empty !! i) <-> i = 0%nat.
Proof. unfold init_empty. rewrite keys_init, lookup_empty, is_Some_alt. naive_solver. Qed.

Lemma amul_number_lin p v e : 0 < p -> lin_expr e -> wf_expr e ->
  lin_expr (amul (Number v) e p) /\ wf_expr (amul (Number v) e p) /\ canon_expr p (amul (Number v) e p) /\
  (forall j, ekey j (amul (Number v) e p) -> j = 0%nat \/ ekey j e).
Proof.
  intros Hp HL HW. destruct e as [w|s|m| |]; cbn in HL; try contradiction; cbn [amul lin_expr wf_expr canon_expr ekey].
  - split; [exact I|]. split; [exact I|]. split; [apply mul_range; lia|intros j []].
  - split; [exact I|]. split; [apply has_cc_add_symbol, has_cc_init_empty|].
    split; [apply canon_add_symbol; [lia|apply canon_init_empty; lia]|].
    intros j H. apply keys_add_symbol in H. rewrite keys_init_empty in H. tauto.
  - split; [exact I|]. split; [apply has_cc_mul_const; exact HW|]. split; [apply canon_mul_const; lia|].
    intros j H. rewrite keys_mul_const in H. auto.
Qed.
Lemma amul_lin_number p v e : amul e (Number v) p = amul (Number v) e p \/ exists w, e = Number w.
Proof. destruct e; cbn; eauto. Qed.

Lemma aadd_lin p l r e : 0 < p -> lin_expr l -> lin_expr r -> wf_expr l -> wf_expr r -> aadd l r p = Ok e ->
  lin_expr e /\ forall j, ekey j e -> j = 0%nat \/ ekey j l \/ ekey j r.
Proof.
  intros Hp HL HR WL WR E.
  destruct l as [vl|sl|ml| |], r as [vr|sr|mr| |]; cbn in HL, HR; try contradiction; cbn [aadd wf_expr] in *; revert E;
    try (destruct (add_constant_ok p vl init_empty has_cc_init_empty) as (m1 & -> & ->));
    try (destruct (add_constant_ok p vr init_empty has_cc_init_empty) as (m1 & -> & ->));
    try (destruct (add_constant_ok p vl mr WR) as (m1 & -> & ->));
    try (destruct (add_constant_ok p vr ml WL) as (m1 & -> & ->));
    cbn [res_map res_bind]; injection 1 as <-; (split; [exact I|]); cbn [ekey]; intros j H;
    rewrite ?keys_add_coeffs, ?keys_add_symbol, ?keys_init_empty in H; unfold cc in H; tauto.
Qed.

Lemma to_constraint_lin p e c : 0 < p -> lin_expr e -> to_constraint e p = Some c ->
  c_a c = init_empty /\ c_b c = init_empty /\ (forall j, is_Some (c_c c !! j) -> j = 0%nat \/ ekey j e).
Proof.
  intros Hp HL E. destruct e as [v|s|m| |]; cbn in HL; try contradiction; cbn in E; injection E as <-; cbn.
  - split; [reflexivity|]. split; [reflexivity|]. intros j H. rewrite keys_mul_const in H.
    apply lookup_insert_is_Some' in H. rewrite keys_init_empty in H. unfold cc in H. left. naive_solver.
  - split; [reflexivity|]. split; [reflexivity|]. intros j H. rewrite keys_mul_const in H.
    apply lookup_insert_is_Some' in H. rewrite keys_init_empty in H. naive_solver.
  - split; [reflexivity|]. split; [reflexivity|]. intros j H. rewrite keys_mul_const in H. auto.
Qed.
Lemma remove_zeros_init_empty : remove_zeros init_empty = ∅.
Proof. apply map_eq. intros i. destruct (remove_zeros init_empty !! i) eqn:E; [|rewrite lookup_empty; reflexivity].
  apply remove_zeros_lookup in E. destruct E as [E Hz]. unfold init_empty in E. rewrite init_expr_lookup, lookup_empty in E.
  destruct (Nat.eqb i 0); [injection E as <-; contradiction|discriminate]. Qed.

Lemma lin_ok_holds p c ρ : 0 < p -> lin_ok p c -> (holds p ρ c <-> leval ρ (c_c c) =[p]= 0).
Proof.
  intros Hp (A & B & _). unfold holds. rewrite A, B, leval_empty. split; intros H.
  - transitivity (-(0 * 0 - leval ρ (c_c c))); [apply cong_eq; lia|]. rewrite H. reflexivity.
  - transitivity (-(leval ρ (c_c c))); [apply cong_eq; lia|]. rewrite H. reflexivity.
Qed.

Lemma merge_conflict_spec p coef sub coef_r sub_r :
  0 < p ->
  exists c, merge_conflict coef sub coef_r sub_r p = Ok c /\ lin_ok p c /\
    (forall ρ, holds p ρ c <-> coef_r * leval ρ (s_to sub) =[p]= coef * leval ρ (s_to sub_r)) /\
    (forall j, is_Some (c_c c !! j) -> j = 0%nat \/ is_Some (s_to sub !! j) \/ is_Some (s_to sub_r !! j)).
Proof.
  intros Hp. unfold merge_conflict, decompose; cbn [snd].
  destruct (hashmap_into_arith_spec (s_to sub)) as (LL & WL & VL & KL).
  destruct (hashmap_into_arith_spec (s_to sub_r)) as (LR & WR & VR & KR).
  set (l := hashmap_into_arith (s_to sub)) in *. set (r := hashmap_into_arith (s_to sub_r)) in *.
  destruct (amul_number_lin p coef_r l Hp LL WL) as (L1 & W1 & C1 & K1).
  destruct (amul_number_lin p coef r Hp LR WR) as (L2 & W2 & C2 & K2).
  set (x := amul (Number coef_r) l p) in *. set (y := amul (Number coef) r p) in *.
  destruct (amul_number_lin p (-1) y Hp L2 W2) as (L3 & W3 & C3 & K3).
  destruct (asub_wf_canon p x y Hp W1 W2) as (e & E & We & Ce). rewrite E. cbn [res_bind].
  destruct (aadd_lin p x _ e Hp L1 L3 W1 W3 E) as (Le & Ke).
  destruct (to_constraint e p) as [c|] eqn:Ec; [|destruct e; cbn in Le, Ec; try contradiction; discriminate].
  destruct (to_constraint_lin p e c Hp Le Ec) as (A & B & Kc).
  pose proof (to_constraint_canon p e c Hp (Ce C1 C2) Ec) as (_ & _ & Cc).
  cbn. eexists. split; [reflexivity|].
  assert (HO : lin_ok p (c_remove_zeros c)).
  { unfold lin_ok, c_remove_zeros; cbn. rewrite A, B, remove_zeros_init_empty.
    split_and!; auto using canon_remove_zeros, remove_zeros_nonzero. }
  split; [exact HO|]. split.
  - intros ρ.
    destruct (amul_sound p (Number coef_r) l ρ _ _ Hp I WL eq_refl (VL ρ)) as (_ & _ & V1).
    destruct (amul_sound p (Number coef) r ρ _ _ Hp I WR eq_refl (VR ρ)) as (_ & _ & V2).
    fold x in V1. fold y in V2.
    destruct (amul_num_value p coef_r l ρ _ (VL ρ)) as [zx Zx]. destruct (amul_num_value p coef r ρ _ (VR ρ)) as [zy Zy].
    fold x in Zx. fold y in Zy.
    destruct (asub_sound p x y ρ zx zy Hp W1 W2 Zx Zy) as (e' & E' & _ & _ & V3).
    assert (e' = e) as -> by congruence.
    destruct (aval ρ e) as [ze|] eqn:Ze; [|destruct e; cbn in Le, Ze; try contradiction; discriminate].
    assert (Hh : holds p ρ (c_remove_zeros c) <-> holds p ρ c).
    { unfold holds, c_remove_zeros; cbn. rewrite !leval_remove_zeros. reflexivity. }
    rewrite Hh, (to_constraint_sound p e c ρ ze Hp Ze Ec), (V3 ze eq_refl), (V1 zx Zx), (V2 zy Zy).
    rewrite cong_0_sub by lia. reflexivity.
  - intros j [v Hj]. cbn in Hj. apply remove_zeros_lookup in Hj. destruct Hj as [Hj _].
    destruct (Kc j ltac:(eauto)) as [|Hk]; [auto|]. apply Ke in Hk. destruct Hk as [|[Hk|Hk]]; [auto| |].
    + apply K1 in Hk. destruct Hk as [|Hk]; [auto|]. apply KL in Hk. tauto.
    + apply K3 in Hk. destruct Hk as [|Hk]; [auto|]. apply K2 in Hk. destruct Hk as [|Hk]; [auto|]. apply KR in Hk. tauto.
Qed.

Lemma valid_order_in o (m : lin) k : valid_order o -> (k ∈ o m <-> is_Some (m !! k)).
Proof. intros Ho. rewrite (Ho m). rewrite elem_of_elements, elem_of_dom. reflexivity. Qed.

Lemma take_signal_3_aux forb ks : forall ret,
  (forall v, ret = Some v -> v ∉ forb) ->
  match foldl (fun ret k => if can_be_taken forb k then Some (match ret with None => k | Some v => Nat.max k v end) else ret) ret ks with
  | None => ret = None /\ forall k, k ∈ ks -> k ∈ forb
  | Some out => (ret = Some out \/ out ∈ ks) /\ out ∉ forb /\ (forall k, k ∈ ks -> k ∈ forb \/ (k <= out)%nat) /\
                (forall v, ret = Some v -> (v <= out)%nat)
  end.
Proof.
  induction ks as [|k ks IH]; intros ret Hr; cbn [foldl].
  - destruct ret as [v|].
    + split; [auto|]. split; [auto|]. split; [intros k Hk; inversion Hk|]. intros w [= <-]. lia.
    + split; [reflexivity|]. intros k Hk; inversion Hk.
  - specialize (IH (if can_be_taken forb k then Some (match ret with None => k | Some v => Nat.max k v end) else ret)).
    unfold can_be_taken in *. destruct (decide (k ∈ forb)) as [Hf|Hf].
    + rewrite bool_decide_eq_false_2 in * by (intros H; exact (H Hf)). specialize (IH Hr).
      destruct (foldl _ ret ks).
      * destruct IH as (A & B & C & D). split; [destruct A; [auto|right; right; assumption]|].
        split; [assumption|]. split; [|assumption]. intros k' Hk'. apply elem_of_cons in Hk'. destruct Hk' as [->|]; auto.
      * destruct IH as (A & B). split; [assumption|]. intros k' Hk'. apply elem_of_cons in Hk'. destruct Hk' as [->|]; auto.
    + rewrite bool_decide_eq_true_2 in * by assumption.
      assert (HH : forall v, Some (match ret with None => k | Some v => Nat.max k v end) = Some v -> v ∉ forb).
      { intros v [= <-]. destruct ret as [w|]; [|assumption]. destruct (Nat.max_spec k w) as [[_ ->]|[_ ->]]; auto. }
      specialize (IH HH). destruct (foldl _ _ ks).
      * destruct IH as (A & B & C & D). specialize (D _ eq_refl).
        split; [destruct A as [[= <-]|A]; [|right; right; assumption]|].
        { destruct ret as [w|]; [|right; left; fail || apply elem_of_cons; auto].
          destruct (Nat.max_spec k w) as [[_ ->]|[_ ->]]; [left; reflexivity|right; apply elem_of_cons; auto]. }
        split; [assumption|]. split.
        -- intros k' Hk'. apply elem_of_cons in Hk'. destruct Hk' as [->|]; [|auto]. right. destruct ret; lia.
        -- intros w ->. lia.
      * destruct IH as [IH _]. discriminate.
Qed.
Lemma take_signal_3_spec forb ks :
  match take_signal_3 forb ks with
  | None => forall k, k ∈ ks -> k ∈ forb
  | Some out => out ∈ ks /\ out ∉ forb /\ (forall k, k ∈ ks -> k ∈ forb \/ (k <= out)%nat)
  end.
Proof.
  unfold take_signal_3. pose proof (take_signal_3_aux forb ks None ltac:(discriminate)) as H.
  destruct (foldl _ None ks); [|apply H]. destruct H as (A & B & C & _).
  split; [destruct A; [discriminate|assumption]|]. auto.
Qed.

(** ** elimination state *)
(** what every recorded (coefficient, substitution) satisfies; [U] is any set of signals containing
    the ones of the input *)
Definition sub_ok (p : Z) (forb U : gset nat) (k : nat) (e : Z * substitution) : Prop :=
  s_from e.2 = k /\ k ∉ forb /\ k ∈ U /\ canon p (s_to e.2) /\ 0 < e.1 < p /\ s_to e.2 !! k = None /\
  (forall j, is_Some (s_to e.2 !! j) -> j ∈ U).
Definition entry_holds (p : Z) (ρ : assignment) (k : nat) (e : Z * substitution) : Prop :=
  e.1 * sv ρ k =[p]= leval ρ (s_to e.2).
Definition holder_holds (p : Z) (ρ : assignment) (h : holder) : Prop := map_Forall (entry_holds p ρ) h.
Definition in_set (c : constraint) (U : gset nat) : Prop := forall j, is_Some (c_c c !! j) -> j ∈ U.
Definition lconst_ok (p : Z) (forb U : gset nat) (l : list constraint) : Prop :=
  Forall (fun c => lin_ok p c /\ in_set c forb /\ in_set c U) l.

(** one elimination step on a constraint that has signal [out] *)
Lemma clear_step p forb U work out :
  prime p -> lin_ok p work -> in_set work U -> 0%nat ∈ forb -> 0%nat ∈ U -> out ∉ forb -> is_Some (c_c work !! out) ->
  exists coef sub, clear_signal_from_linear_nn work out p = Ok (coef, sub) /\ s_from sub = out /\
    sub_ok p forb U out (coef, sub) /\
    (forall j, is_Some (s_to sub !! j) <-> j = 0%nat \/ (j <> out /\ is_Some (c_c work !! j))) /\
    (forall ρ, holds p ρ work <-> entry_holds p ρ out (coef, sub)).
Proof.
  intros Hp HL HU H0 H0U Hout [v Hv]. pose proof (prime_ge_2 p Hp). pose proof HL as (A & B & C & N).
  assert (Hnz : v <> 0) by (apply (N out v Hv)).
  assert (Hout0 : out <> 0%nat) by (intros ->; contradiction).
  destruct (clear_signal_nn_ok p (c_c work) out ltac:(eauto)) as (v' & Hv' & E).
  assert (S := fun ρ => clear_signal_nn_sound p (c_c work) out _ _ ρ ltac:(lia) E).
  unfold clear_signal_from_linear_nn. rewrite E. cbn. do 2 eexists. split; [reflexivity|]. cbn.
  destruct (S (fun _ => 0)) as (_ & Hq & Hn & Hj & Hcc & _). destruct (Hcc C) as [Hto Hq0].
  split; [reflexivity|]. split.
  { unfold sub_ok; cbn. split_and!; auto.
    - assert (mul v' (-1) p <> 0) by (intros H'; apply Hq0; rewrite H'; reflexivity). lia.
    - lia.
    - intros j Hj'. apply Hj in Hj'. destruct Hj' as [->|[_ Hj']]; auto. }
  split; [exact Hj|].
  intros ρ. rewrite lin_ok_holds by (assumption || lia). destruct (S ρ) as (_ & _ & _ & _ & _ & F). exact F.
Qed.

(** the conflict step is an equivalence *)
Lemma merge_equiv p out coef sub coef_r sub_r c ρ :
  prime p -> 0 < coef_r < p ->
  (holds p ρ c <-> coef_r * leval ρ (s_to sub) =[p]= coef * leval ρ (s_to sub_r)) ->
  entry_holds p ρ out (coef_r, sub_r) ->
  (entry_holds p ρ out (coef, sub) <-> holds p ρ c).
Proof.
  intros Hp Hc Hh Hr. rewrite Hh. unfold entry_holds in *; cbn in *. rewrite <- Hr. clear Hr Hh.
  assert (Hn : ~ coef_r =[p]= 0) by (intros H; apply cong_small in H; lia).
  rewrite <- (prime_cong_cancel p coef_r (coef * sv ρ out)) by assumption.
  replace (coef_r * (coef * sv ρ out)) with (coef * (coef_r * sv ρ out)) by lia.
  split; intros H; symmetry; exact H.
Qed.

(** ** process 3 *)
Definition sub_lt (forb : gset nat) (k : nat) (e : Z * substitution) : Prop :=
  forall j, is_Some (s_to e.2 !! j) -> j ∈ forb \/ (j < k)%nat.
Definition inv3 (p : Z) (forb U : gset nat) (subs : holder) (lconst : list constraint) : Prop :=
  map_Forall (sub_ok p forb U) subs /\ map_Forall (sub_lt forb) subs /\ lconst_ok p forb U lconst.

Lemma treat_constraint_3_spec p forb U ord : prime p -> 0%nat ∈ forb -> 0%nat ∈ U -> (forall n, valid_order (ord n)) ->
  forall fuel b work subs lconst,
  inv3 p forb U subs lconst -> lin_ok p work -> in_set work U ->
  (forall j, is_Some (c_c work !! j) -> j ∈ forb \/ (j < b)%nat) -> (b < fuel)%nat ->
  exists subs' lconst', treat_constraint_3 fuel ord forb p subs lconst work = Ok (subs', lconst') /\
    inv3 p forb U subs' lconst' /\
    forall ρ, (holder_holds p ρ subs' /\ Forall (holds p ρ) lconst') <->
              (holder_holds p ρ subs /\ Forall (holds p ρ) lconst /\ holds p ρ work).
Proof.
  intros Hp H0 H0U Hord. pose proof (prime_ge_2 p Hp).
  induction fuel as [|f IH]; intros b work subs lconst (I1 & I2 & I3) HL HU Hb Hf; [lia|].
  cbn [treat_constraint_3]. destruct (is_empty work) eqn:Ee.
  { do 2 eexists. split; [reflexivity|]. split; [split; auto|]. intros ρ.
    assert (holds p ρ work); [|tauto]. apply lin_ok_holds; [lia|assumption|].
    unfold is_empty in Ee. rewrite !andb_true_iff, !is_empty_map_true in Ee. destruct Ee as [_ ->].
    rewrite leval_empty. reflexivity. }
  pose proof (take_signal_3_spec forb (ord f (c_c work))) as HT.
  destruct (take_signal_3 forb (ord f (c_c work))) as [out|].
  2:{ do 2 eexists. split; [reflexivity|]. split.
      - split; [assumption|]. split; [assumption|]. apply Forall_app. split; [assumption|].
        constructor; [|constructor]. split; [assumption|]. split; [|assumption].
        intros j Hj. apply HT. apply valid_order_in; auto.
      - intros ρ. rewrite Forall_app, Forall_singleton. tauto. }
  destruct HT as (Hin & Hnf & Hmax). apply valid_order_in in Hin; [|auto].
  destruct (clear_step p forb U work out Hp HL HU H0 H0U Hnf Hin) as (coef & sub & -> & Hfrom & Hok & Hkeys & Heq).
  cbn [res_bind]. rewrite Hfrom.
  assert (Hlt : sub_lt forb out (coef, sub)).
  { intros j Hj. cbn in Hj. apply Hkeys in Hj. destruct Hj as [->|[Hne Hj]]; [auto|].
    apply (valid_order_in (ord f)) in Hj; [|auto]. destruct (Hmax j Hj); [auto|right; lia]. }
  destruct (subs !! out) as [[coef_r sub_r]|] eqn:Er.
  - destruct (merge_conflict_spec p coef sub coef_r sub_r ltac:(lia)) as (c & -> & HLc & Hhc & Hkc). cbn [res_bind].
    pose proof (I1 out _ Er) as Hokr. pose proof (I2 out _ Er) as Hltr. cbn in Hltr.
    assert (Hob : (out < b)%nat).
    { destruct (Hb out Hin); [contradiction|assumption]. }
    destruct (IH out c subs lconst ltac:(split; auto) HLc) as (subs' & lconst' & E' & Inv' & Eq').
    + intros j Hj. apply Hkc in Hj. destruct Hj as [->|[Hj|Hj]]; [assumption| |].
      * destruct Hok as (_ & _ & _ & _ & _ & _ & HH). apply HH. assumption.
      * destruct Hokr as (_ & _ & _ & _ & _ & _ & HH). apply HH. assumption.
    + intros j Hj. apply Hkc in Hj. destruct Hj as [->|[Hj|Hj]]; [auto| |].
      * apply Hlt. assumption.
      * apply Hltr. assumption.
    + lia.
    + rewrite E'. do 2 eexists. split; [reflexivity|]. split; [assumption|].
      intros ρ. rewrite Eq'. rewrite Heq.
      assert (Hr : holder_holds p ρ subs -> (entry_holds p ρ out (coef, sub) <-> holds p ρ c)).
      { intros Hh. apply (merge_equiv p out coef sub coef_r sub_r c ρ Hp).
        - destruct Hokr as (_ & _ & _ & _ & HH & _). exact HH.
        - apply Hhc.
        - exact (Hh out _ Er). }
      tauto.
  - do 2 eexists. split; [reflexivity|]. split.
    + split; [apply map_Forall_insert_2; assumption|]. split; [apply map_Forall_insert_2; assumption|assumption].
    + intros ρ. unfold holder_holds. rewrite map_Forall_insert by assumption. rewrite Heq. tauto.
Qed.

Lemma process_3_loop_spec p forb U ord : prime p -> 0%nat ∈ forb -> 0%nat ∈ U -> (forall n m, valid_order (ord n m)) ->
  forall fuel cs subs lconst,
  inv3 p forb U subs lconst -> Forall (fun c => lin_ok p c /\ in_set c U) cs ->
  (forall j, j ∈ U -> (S j < fuel)%nat) ->
  exists subs' lconst', process_3_loop fuel ord forb p subs lconst cs = Ok (subs', lconst') /\
    inv3 p forb U subs' lconst' /\
    forall ρ, (holder_holds p ρ subs' /\ Forall (holds p ρ) lconst') <->
              (holder_holds p ρ subs /\ Forall (holds p ρ) lconst /\ Forall (holds p ρ) cs).
Proof.
  intros Hp H0 H0U Hord fuel. induction cs as [|c cs IH]; intros subs lconst HI HC Hf; cbn [process_3_loop].
  - do 2 eexists. split; [reflexivity|]. split; [assumption|]. intros ρ.
    split; [intros [? ?]; split_and!; auto|tauto].
  - apply Forall_cons in HC. destruct HC as [[HL HU] HC].
    destruct (treat_constraint_3_spec p forb U (ord (length cs)) Hp H0 H0U (Hord _) fuel (pred fuel) c subs lconst HI HL HU)
      as (s1 & l1 & -> & I1 & E1).
    + intros j Hj. right. specialize (Hf j (HU j Hj)). lia.
    + specialize (Hf 0%nat H0U). lia.
    + cbn [res_bind]. destruct (IH s1 l1 I1 HC Hf) as (s2 & l2 & -> & I2 & E2).
      do 2 eexists. split; [reflexivity|]. split; [assumption|]. intros ρ. rewrite E2, Forall_cons.
      specialize (E1 ρ). tauto.
Qed.

Lemma process_3_spec p forb U ord fuel cs : prime p -> 0%nat ∈ forb -> 0%nat ∈ U -> (forall n m, valid_order (ord n m)) ->
  Forall (fun c => lin_ok p c /\ in_set c U) cs -> (forall j, j ∈ U -> (S j < fuel)%nat) ->
  exists subs lconst, substitution_process_3 fuel ord forb p cs = Ok (subs, lconst) /\
    inv3 p forb U subs lconst /\
    forall ρ, (holder_holds p ρ subs /\ Forall (holds p ρ) lconst) <-> Forall (holds p ρ) cs.
Proof.
  intros Hp H0 H0U Hord HC Hf. unfold substitution_process_3.
  destruct (process_3_loop_spec p forb U ord Hp H0 H0U Hord fuel (rev cs) ∅ []) as (s & l & E & I & Eq).
  - split; [apply map_Forall_empty|]. split; [apply map_Forall_empty|constructor].
  - rewrite <- Permutation_rev. assumption.
  - assumption.
  - exists s, l. split; [assumption|]. split; [assumption|]. intros ρ. rewrite Eq.
    rewrite <- Permutation_rev. unfold holder_holds.
    split; [tauto|]. intros. split; [apply map_Forall_empty|]. split; [constructor|assumption].
Qed.

(** ** traversals *)
Lemma asc_keys_perm {A} (m : gmap nat A) : asc_keys m ≡ₚ elements (dom m).
Proof. apply merge_sort_Permutation. Qed.
Lemma asc_keys_in {A} (m : gmap nat A) k : k ∈ asc_keys m <-> is_Some (m !! k).
Proof. rewrite asc_keys_perm, elem_of_elements, elem_of_dom. reflexivity. Qed.
Lemma asc_keys_NoDup {A} (m : gmap nat A) : NoDup (asc_keys m).
Proof. rewrite asc_keys_perm. apply NoDup_elements. Qed.
Lemma asc_keys_sorted {A} (m : gmap nat A) : StronglySorted Nat.le (asc_keys m).
Proof. unfold asc_keys. apply StronglySorted_merge_sort; [apply _|]. intros x y. lia. Qed.
Lemma asc_entries_fst {A} (m : gmap nat A) : (asc_entries m).*1 = asc_keys m.
Proof.
  unfold asc_entries. assert (H : Forall (fun k => is_Some (m !! k)) (asc_keys m)).
  { apply Forall_forall. intros k. apply asc_keys_in. }
  induction (asc_keys m) as [|k l IH]; [reflexivity|]. apply Forall_cons in H. destruct H as [[v Hv] H].
  cbn. rewrite Hv. cbn. f_equal. auto.
Qed.
Lemma asc_entries_in {A} (m : gmap nat A) k v : (k, v) ∈ asc_entries m <-> m !! k = Some v.
Proof.
  unfold asc_entries. rewrite elem_of_list_omap. split.
  - intros (x & _ & Hx). destruct (m !! x) eqn:E; cbn in Hx; [|discriminate]. injection Hx as -> ->. assumption.
  - intros H. exists k. split; [apply asc_keys_in; eauto|]. rewrite H. reflexivity.
Qed.

(** ** normalisation *)
Lemma amul_number_comm p e v : amul e (Number v) p = amul (Number v) e p.
Proof. destruct e; cbn; try reflexivity. unfold mul. rewrite Z.mul_comm. reflexivity. Qed.
Lemma subst_new_spec p k e : 0 < p -> lin_expr e -> ~ ekey k e ->
  exists s, subst_new k e = Some s /\ s_from s = k /\ (forall ρ, aval ρ e = Some (leval ρ (s_to s))) /\
    (forall j, is_Some (s_to s !! j) -> j = 0%nat \/ ekey j e) /\ (1 < p -> canon_expr p e -> canon p (s_to s)).
Proof.
  intros Hp HL HK. destruct e as [v|x|m| |]; cbn in HL; try contradiction; cbn [subst_new ekey aval canon_expr] in *.
  - eexists; split; [reflexivity|]. cbn [s_from s_to]. split; [reflexivity|]. split; [intros; rewrite leval_singleton; f_equal; cbn; lia|].
    split; [intros j [w Hw]; apply lookup_singleton_Some in Hw; unfold cc in Hw; naive_solver|]. intros _ Hc. unfold canon. apply map_Forall_singleton. exact Hc.
  - eexists; split; [reflexivity|]. cbn [s_from s_to]. split; [reflexivity|]. split; [intros; rewrite leval_singleton; f_equal; lia|].
    split; [intros j [w Hw]; apply lookup_singleton_Some in Hw; naive_solver|]. intros Hp1 Hc. unfold canon. apply map_Forall_singleton. lia.
  - destruct (m !! k) eqn:E; [destruct HK; eauto|].
    eexists; split; [reflexivity|]. cbn [s_from s_to]. split; [reflexivity|]. split; [reflexivity|].
    split; [auto|]. auto.
Qed.
(** a normalised substitution *)
Definition nsub_ok (p : Z) (forb U : gset nat) (k : nat) (s : substitution) : Prop :=
  s_from s = k /\ k ∉ forb /\ k ∈ U /\ canon p (s_to s) /\ s_to s !! k = None /\
  (forall j, is_Some (s_to s !! j) -> j ∈ U).

Lemma normalize_entry p forb U k q s inv : prime p -> 0%nat ∈ forb -> 0%nat ∈ U -> sub_ok p forb U k (q, s) ->
  (inv * q) mod p = 1 ->
  exists s', subst_new k (amul (hashmap_into_arith (s_to s)) (Number inv) p) = Some s' /\ nsub_ok p forb U k s' /\
    (forall j, is_Some (s_to s' !! j) -> j = 0%nat \/ is_Some (s_to s !! j)) /\
    (forall ρ, sub_holds p ρ s' <-> entry_holds p ρ k (q, s)).
Proof.
  intros Hp H0 H0U (Hf & Hnf & HU & Hc & Hq & Hk & Hkeys) Hinv. pose proof (prime_ge_2 p Hp). cbn in *.
  assert (Hk0 : k <> 0%nat) by (intros ->; contradiction).
  destruct (hashmap_into_arith_spec (s_to s)) as (LL & WL & VL & KL). rewrite amul_number_comm.
  set (e := hashmap_into_arith (s_to s)) in *.
  destruct (amul_number_lin p inv e ltac:(lia) LL WL) as (L1 & W1 & C1 & K1).
  assert (KK : forall j, ekey j (amul (Number inv) e p) -> j = 0%nat \/ is_Some (s_to s !! j)).
  { intros j Hj. apply K1 in Hj. destruct Hj as [|Hj]; [auto|]. apply KL in Hj. auto. }
  destruct (subst_new_spec p k (amul (Number inv) e p) ltac:(lia) L1) as (s' & Es & Fs & Vs & Ks & Cs).
  { intros HH. apply KK in HH. rewrite Hk in HH. destruct HH as [|[? ?]]; [contradiction|discriminate]. }
  exists s'. split; [assumption|].
  assert (Kall : forall j, is_Some (s_to s' !! j) -> j = 0%nat \/ is_Some (s_to s !! j)).
  { intros j Hj. apply Ks in Hj. destruct Hj; auto. }
  split; [|split; [assumption|]].
  - unfold nsub_ok. split_and!; auto.
    + apply Cs; [lia|assumption].
    + destruct (s_to s' !! k) eqn:E; [|reflexivity]. destruct (Kall k ltac:(eauto)) as [|HH]; [contradiction|].
      rewrite Hk in HH. destruct HH; discriminate.
    + intros j Hj. apply Kall in Hj. destruct Hj as [->|]; auto.
  - intros ρ. destruct (amul_sound p (Number inv) e ρ _ _ ltac:(lia) I WL eq_refl (VL ρ)) as (_ & _ & V1).
    unfold sub_holds, entry_holds; cbn. rewrite Fs, (V1 _ (Vs ρ)).
    assert (Hi : inv * q =[p]= 1) by (unfold cong; rewrite Hinv, Z.mod_small; lia).
    rewrite <- (prime_cong_cancel p q (sv ρ k)) by (try assumption; intros HH; apply cong_small in HH; lia).
    rewrite Z.mul_assoc, (Z.mul_comm q inv), Hi, Z.mul_1_l. reflexivity.
Qed.

(** what normalisation of the whole map gives *)
Definition norm_rel (p : Z) (forb U : gset nat) (k : nat) (e : Z * substitution) (s' : substitution) : Prop :=
  nsub_ok p forb U k s' /\ (forall j, is_Some (s_to s' !! j) -> j = 0%nat \/ is_Some (s_to e.2 !! j)) /\
  (forall ρ, sub_holds p ρ s' <-> entry_holds p ρ k e).

Lemma normalize_loop_spec p forb U : prime p -> 0%nat ∈ forb -> 0%nat ∈ U -> forall l inverses tree,
  NoDup l.*1 -> Forall (fun e => sub_ok p forb U e.1 e.2) l -> (length l <= length inverses)%nat ->
  (forall i, (i < length l)%nat -> (nth i inverses 0 * nth i (map (fun e => e.2.1) l) 0) mod p = 1) ->
  exists tree', normalize_loop p l inverses tree = Ok tree' /\
    (forall k, k ∉ l.*1 -> tree' !! k = tree !! k) /\
    (forall k e, (k, e) ∈ l -> exists s', tree' !! k = Some s' /\ norm_rel p forb U k e s').
Proof.
  intros Hp H0 H0U. induction l as [|[k [q s]] l IH]; intros inverses tree HN HF HLn Hinv; cbn [normalize_loop].
  - exists tree. split; [reflexivity|]. split; [auto|]. intros k e He. inversion He.
  - destruct inverses as [|inv inverses]; [cbn in HLn; lia|].
    apply Forall_cons in HF. destruct HF as [Hs HF]. cbn in HN. apply NoDup_cons in HN. destruct HN as [HNk HN].
    destruct (normalize_entry p forb U k q s inv Hp H0 H0U Hs) as (s' & -> & Hok & Hkeys & Hh).
    { apply (Hinv 0%nat). cbn. lia. }
    cbn [lift res_bind].
    destruct (IH inverses (<[k:=s']> tree) HN HF) as (tree' & E & Hout & Hin).
    { cbn in HLn. lia. }
    { intros i Hi. apply (Hinv (S i)). cbn. lia. }
    exists tree'. split; [assumption|]. split.
    + intros j Hj. cbn in Hj. rewrite not_elem_of_cons in Hj. destruct Hj as [Hj1 Hj2]. rewrite Hout by assumption.
      apply lookup_insert_ne. congruence.
    + intros j e He. apply elem_of_cons in He. destruct He as [He|He]; [|auto].
      injection He as -> ->. exists s'. split.
      * rewrite Hout by assumption. apply lookup_insert.
      * split; [assumption|]. split; assumption.
Qed.

Lemma normalize_spec p forb U subs : prime p -> 0%nat ∈ forb -> 0%nat ∈ U -> map_Forall (sub_ok p forb U) subs ->
  exists tree, normalize_substitutions subs p = Ok tree /\
    (forall k, is_Some (tree !! k) <-> is_Some (subs !! k)) /\
    (forall k e s', subs !! k = Some e -> tree !! k = Some s' -> norm_rel p forb U k e s') /\
    (forall ρ, map_Forall (fun _ => sub_holds p ρ) tree <-> holder_holds p ρ subs).
Proof.
  intros Hp H0 H0U HF. pose proof (prime_ge_2 p Hp). unfold normalize_substitutions.
  assert (HFl : Forall (fun e => sub_ok p forb U e.1 e.2) (asc_entries subs)).
  { apply Forall_forall. intros [k e] He. apply asc_entries_in in He. exact (HF k e He). }
  destruct (multi_inv_ok ((fun e => e.2.1) <$> asc_entries subs) p Hp) as (inverses & -> & Hlen & Hinv).
  { apply Forall_fmap. eapply Forall_impl; [exact HFl|]. intros [k [q s]] (_ & _ & _ & _ & Hq & _). cbn in *.
    rewrite Z.mod_small; lia. }
  cbn [res_bind]. rewrite fmap_length in Hlen, Hinv.
  destruct (normalize_loop_spec p forb U Hp H0 H0U (asc_entries subs) inverses ∅) as (tree & E & Hout & Hin).
  - rewrite asc_entries_fst. apply asc_keys_NoDup.
  - assumption.
  - assumption.
  - intros i Hi. apply Hinv. assumption.
  - rewrite asc_entries_fst in Hout.
    assert (HD : forall k, is_Some (tree !! k) <-> is_Some (subs !! k)).
    { intros k. destruct (subs !! k) as [e|] eqn:Ek.
      - destruct (Hin k e) as (s' & -> & _); [apply asc_entries_in; assumption|]. split; eauto.
      - rewrite Hout; [rewrite lookup_empty; split; intros [? ?]; discriminate|]. rewrite asc_keys_in, Ek. intros [? ?]; discriminate. }
    assert (HR : forall k e s', subs !! k = Some e -> tree !! k = Some s' -> norm_rel p forb U k e s').
    { intros k e s' Hk Hs'. destruct (Hin k e) as (s'' & E'' & R); [apply asc_entries_in; assumption|].
      rewrite Hs' in E''. injection E'' as <-. assumption. }
    exists tree. split; [assumption|]. split; [assumption|]. split; [assumption|].
    intros ρ. unfold holder_holds, map_Forall. split.
    + intros H' k e Hk. assert (Ht : is_Some (tree !! k)) by (apply HD; eauto). destruct Ht as [s' Hs'].
      destruct (HR k e s' Hk Hs') as (_ & _ & Hh). apply Hh, (H' k s' Hs').
    + intros H' k s' Hs'. assert (Ht : is_Some (subs !! k)) by (apply HD; eauto). destruct Ht as [e He].
      destruct (HR k e s' He Hs') as (_ & _ & Hh). apply Hh, (H' k e He).
Qed.

(** ** removing overlaps *)
Lemma apply_all_from s ts p : s_from (apply_all s ts p) = s_from s.
Proof. unfold apply_all. revert s. induction ts as [|t ts IH]; intros s; [reflexivity|]. cbn. rewrite IH. reflexivity. Qed.
Lemma apply_all_canon s ts p : 0 < p -> canon p (s_to s) -> canon p (s_to (apply_all s ts p)).
Proof.
  intros Hp. unfold apply_all. revert s. induction ts as [|t ts IH]; intros s Hs; [exact Hs|]. cbn.
  apply IH. cbn. apply canon_raw_subst; [lia|assumption].
Qed.
Lemma apply_all_sound ts p ρ : 0 < p -> Forall (sub_holds p ρ) ts -> forall s,
  (sub_holds p ρ (apply_all s ts p) <-> sub_holds p ρ s).
Proof.
  intros Hp. unfold apply_all. induction 1 as [|t ts Ht Hts IH]; intros s; [reflexivity|]. cbn.
  rewrite IH. unfold sub_holds at 1 2; cbn. rewrite leval_raw_subst by assumption. reflexivity.
Qed.
Lemma apply_all_keys (P : nat -> Prop) ts p j : P 0%nat ->
  Forall (fun t => s_from t <> 0%nat /\ forall j, is_Some (s_to t !! j) -> P j) ts -> forall s,
  is_Some (s_to (apply_all s ts p) !! j) ->
  P j \/ (is_Some (s_to s !! j) /\ forall t, t ∈ ts -> j <> s_from t).
Proof.
  intros P0. unfold apply_all. induction 1 as [|t ts [Ht0 HtP] Hts IH]; intros s Hj; cbn in Hj.
  - right. split; [assumption|]. intros t Ht. inversion Ht.
  - apply IH in Hj. destruct Hj as [|[Hj Hn]]; [auto|]. cbn in Hj. apply keys_raw_subst in Hj.
    destruct Hj as [->|[[Hj Hne]|[[_ Hj]|[_ Hj]]]]; auto.
    + right. split; [assumption|]. intros t' Ht'. apply elem_of_cons in Ht'. destruct Ht' as [->|]; auto.
    + contradiction.
Qed.

Lemma nonoverlap_loop_spec p forb U (E : gset nat) ord : 0 < p -> 0%nat ∈ forb -> 0%nat ∈ U -> 0%nat ∉ E ->
  (forall n, valid_order (ord n)) -> forall l tree no,
  NoDup l ->
  (forall k, k ∈ l -> k ∈ E /\ no !! k = None /\ is_Some (tree !! k)) ->
  (forall k s, k ∈ l -> tree !! k = Some s -> nsub_ok p forb U k s) ->
  (forall l1 k l2 s, l = l1 ++ k :: l2 -> tree !! k = Some s -> forall j, is_Some (s_to s !! j) -> j ∉ k :: l2) ->
  (forall k s, k ∈ l -> tree !! k = Some s -> forall j, is_Some (s_to s !! j) -> j ∈ E -> is_Some (no !! j) \/ j ∈ l) ->
  (forall k s, no !! k = Some s -> nsub_ok p forb U k s /\ forall j, is_Some (s_to s !! j) -> j ∉ E) ->
  exists no', nonoverlap_loop ord p l tree no = Ok no' /\
    (forall k, is_Some (no' !! k) <-> is_Some (no !! k) \/ k ∈ l) /\
    (forall k s, no' !! k = Some s -> nsub_ok p forb U k s /\ forall j, is_Some (s_to s !! j) -> j ∉ E) /\
    (forall ρ, map_Forall (fun _ => sub_holds p ρ) no' <->
       map_Forall (fun _ => sub_holds p ρ) no /\ forall k s, k ∈ l -> tree !! k = Some s -> sub_holds p ρ s).
Proof.
  intros Hp H0 H0U H0E Hord. induction l as [|k l IH]; intros tree no HN HE Hok Htri Hdone Hno; cbn [nonoverlap_loop].
  - exists no. split; [reflexivity|]. split; [intros; rewrite elem_of_nil; tauto|]. split; [assumption|].
    intros ρ. split; [intros H; split; [assumption|intros k s Hk; inversion Hk]|tauto].
  - apply NoDup_cons in HN. destruct HN as [Hkl HN].
    destruct (HE k ltac:(left)) as (HkE & Hnok & [sub Hsub]). rewrite Hsub. cbn [lift res_bind].
    set (ts := to_be_applied (ord (length l)) no sub). set (sub' := apply_all sub ts p).
    assert (Hts : forall t, t ∈ ts <-> exists j, is_Some (s_to sub !! j) /\ no !! j = Some t).
    { intros t. unfold ts, to_be_applied. rewrite elem_of_list_omap.
      split; intros (j & Hj & Ht); exists j; (split; [|assumption]); apply (valid_order_in (ord (length l))); auto. }
    assert (HtsF : Forall (fun t => s_from t <> 0%nat /\ forall j, is_Some (s_to t !! j) -> j ∈ U /\ j ∉ E) ts).
    { apply Forall_forall. intros t Ht. apply Hts in Ht. destruct Ht as (j & Hj & Ht). destruct (Hno j t Ht) as ((F1 & F2 & _ & _ & _ & F3) & F4).
      split; [rewrite F1; intros ->; contradiction|]. intros i Hi. auto. }
    pose proof (Hok k sub ltac:(left) Hsub) as (S1 & S2 & S3 & S4 & S5 & S6).
    assert (Hk' : forall j, is_Some (s_to sub' !! j) -> j ∈ U /\ j ∉ E).
    { intros j Hj. apply (apply_all_keys (fun j => j ∈ U /\ j ∉ E)) in Hj; [|auto|assumption].
      destruct Hj as [|[Hj Hne]]; [assumption|]. split; [auto|]. intros HjE.
      assert (HjN : j ∉ k :: l) by (apply (Htri [] k l sub eq_refl Hsub); assumption).
      destruct (Hdone k sub ltac:(left) Hsub j Hj HjE) as [[t Ht]|Hjl].
      - apply (Hne t); [apply Hts; eauto|]. destruct (Hno j t Ht) as ((F1 & _) & _). congruence.
      - contradiction. }
    assert (Hok' : nsub_ok p forb U k sub').
    { unfold nsub_ok. split_and!; auto.
      - unfold sub'. rewrite apply_all_from. assumption.
      - apply apply_all_canon; [lia|assumption].
      - destruct (s_to sub' !! k) eqn:Ek; [|reflexivity]. destruct (Hk' k ltac:(eauto)) as [_ HH]. contradiction.
      - intros j Hj. apply Hk'. assumption. }
    assert (Htree : forall k', k' ∈ l -> delete k tree !! k' = tree !! k').
    { intros k' Hk''. apply lookup_delete_ne. intros ->. contradiction. }
    destruct (IH (delete k tree) (<[k := sub']> no)) as (no' & E' & D' & O' & Q').
    + assumption.
    + intros k' Hk''. destruct (HE k' ltac:(right; assumption)) as (A & B & C). split; [assumption|].
      rewrite Htree by assumption. split; [|assumption]. rewrite lookup_insert_ne by (intros ->; contradiction). assumption.
    + intros k' s Hk'' Hs. rewrite Htree in Hs by assumption. apply Hok; [right; assumption|assumption].
    + intros l1 k' l2 s -> Hs. assert (Hin : k' ∈ l1 ++ k' :: l2) by (apply elem_of_app; right; left).
      rewrite Htree in Hs by assumption. apply (Htri (k :: l1) k' l2 s eq_refl Hs).
    + intros k' s Hk'' Hs j Hj HjE. rewrite Htree in Hs by assumption.
      destruct (Hdone k' s ltac:(right; assumption) Hs j Hj HjE) as [HH|HH].
      * left. rewrite lookup_insert_is_Some'. auto.
      * apply elem_of_cons in HH. destruct HH as [->|HH]; [left; rewrite lookup_insert; eauto|auto].
    + intros k' s Hs. destruct (decide (k = k')) as [<-|Hne].
      * rewrite lookup_insert in Hs. injection Hs as <-. split; [assumption|]. intros j Hj. apply Hk'. assumption.
      * rewrite lookup_insert_ne in Hs by assumption. auto.
    + exists no'. split; [assumption|]. split.
      { intros k'. rewrite D', lookup_insert_is_Some', elem_of_cons. naive_solver. }
      split; [assumption|]. intros ρ. rewrite Q', map_Forall_insert by assumption.
      assert (HS : map_Forall (fun _ => sub_holds p ρ) no -> (sub_holds p ρ sub' <-> sub_holds p ρ sub)).
      { intros Hh. apply apply_all_sound; [assumption|]. apply Forall_forall. intros t Ht. apply Hts in Ht.
        destruct Ht as (j & _ & Ht). exact (Hh j t Ht). }
      split.
      * intros [[Hs' Hn] Hr]. split; [assumption|]. intros k' s Hk'' Hs. apply elem_of_cons in Hk''. destruct Hk'' as [->|Hk''].
        -- rewrite Hsub in Hs. injection Hs as <-. tauto.
        -- apply (Hr k'); [assumption|]. rewrite Htree by assumption. assumption.
      * intros [Hn Hr]. split; [split; [|assumption]; apply (HS Hn), (Hr k); [left|assumption]|].
        intros k' s Hk'' Hs. rewrite Htree in Hs by assumption. apply (Hr k'); [right; assumption|assumption].
Qed.

(** ** process 4 *)
Lemma take_signal_4_spec forb del oc : forall ks ret,
  (forall k, k ∈ ks -> k ∉ forb -> k ∉ del -> is_Some (oc !! k)) ->
  (forall x, ret = Some x -> x.1 ∉ forb) ->
  exists out, take_signal_4 forb del oc ret ks = Ok out /\
    match out with
    | None => ret = None /\ forall k, k ∈ ks -> k ∈ forb
    | Some o => o ∉ forb /\ (o ∈ ks \/ (fst <$> ret) = Some o) /\
                (o ∈ del \/ forall k, k ∈ ks -> k ∉ forb -> k ∉ del)
    end.
Proof.
  induction ks as [|k ks IH]; intros ret Hoc Hret; cbn [take_signal_4].
  - eexists; split; [reflexivity|]. destruct ret as [[k0 n0]|]; cbn.
    + split; [apply (Hret _ eq_refl)|]. split; [auto|]. right. intros k Hk. inversion Hk.
    + split; [reflexivity|]. intros k Hk. inversion Hk.
  - assert (Hoc' : forall k', k' ∈ ks -> k' ∉ forb -> k' ∉ del -> is_Some (oc !! k')).
    { intros k' Hk'. apply Hoc. right. assumption. }
    unfold can_be_taken. destruct (decide (k ∈ forb)) as [Hf|Hf].
    + rewrite bool_decide_eq_false_2 by (intros H; exact (H Hf)).
      destruct (IH ret Hoc' Hret) as (out & E & S). exists out. split; [assumption|]. destruct out as [o|].
      * destruct S as (A & B & C). split; [assumption|]. split; [destruct B; [left; right; assumption|auto]|].
        destruct C as [C|C]; [auto|]. right. intros k' Hk'. apply elem_of_cons in Hk'. destruct Hk' as [->|]; [contradiction|auto].
      * destruct S as (A & B). split; [assumption|]. intros k' Hk'. apply elem_of_cons in Hk'. destruct Hk' as [->|]; auto.
    + rewrite bool_decide_eq_true_2 by assumption. destruct (decide (k ∈ del)) as [Hd|Hd].
      * rewrite bool_decide_eq_true_2 by assumption. eexists; split; [reflexivity|]. cbn.
        split; [assumption|]. split; [left; left|auto].
      * rewrite bool_decide_eq_false_2 by assumption. destruct (Hoc k ltac:(left) Hf Hd) as [n Hn]. rewrite Hn.
        assert (Step : forall ret', (exists x, ret' = Some x /\ x.1 ∉ forb /\ (x.1 = k \/ ret = Some x)) ->
          exists out, take_signal_4 forb del oc ret' ks = Ok out /\
          match out with
          | None => ret = None /\ forall k', k' ∈ k :: ks -> k' ∈ forb
          | Some o => o ∉ forb /\ (o ∈ k :: ks \/ (fst <$> ret) = Some o) /\
                (o ∈ del \/ forall k', k' ∈ k :: ks -> k' ∉ forb -> k' ∉ del)
          end).
        { intros ret' (x & -> & Hx & Hor). destruct (IH (Some x) Hoc') as (out & E & S).
          { intros y [= <-]. assumption. }
          exists out. split; [assumption|]. destruct out as [o|]; [|destruct S; discriminate].
          destruct S as (A & B & C). split; [assumption|]. split.
          - destruct B as [B|B]; [left; right; assumption|]. cbn in B. injection B as <-.
            destruct Hor as [->| ->]; [left; left|right; reflexivity].
          - destruct C as [C|C]; [auto|]. right. intros k' Hk'. apply elem_of_cons in Hk'. destruct Hk' as [->|]; [auto|auto]. }
        destruct ret as [[k0 n0]|].
        -- destruct (n <? n0)%nat; [apply Step; exists (k, n); cbn; auto|].
           destruct (_ && _); [apply Step; exists (k, n0); cbn; auto|].
           apply Step. exists (k0, n0). split; [reflexivity|]. split; [apply (Hret _ eq_refl)|auto].
        -- apply Step. exists (k, n). cbn; auto.
Qed.

(** number of constraints mentioning a signal *)
Definition has (k : nat) (c : constraint) : Prop := is_Some (c_c c !! k).
Global Instance has_dec k c : Decision (has k c).
Proof. unfold has. apply _. Defined.
Definition cnt (k : nat) (cs : list constraint) : nat := length (filter (has k) cs).
Lemma cnt_cons k c cs : cnt k (c :: cs) = ((if decide (has k c) then 1 else 0) + cnt k cs)%nat.
Proof. unfold cnt. rewrite filter_cons. destruct (decide (has k c)); reflexivity. Qed.
Lemma cnt_app k l1 l2 : cnt k (l1 ++ l2) = (cnt k l1 + cnt k l2)%nat.
Proof. unfold cnt. rewrite filter_app, app_length. reflexivity. Qed.
Lemma cnt_perm k l1 l2 : l1 ≡ₚ l2 -> cnt k l1 = cnt k l2.
Proof. intros H. unfold cnt. rewrite H. reflexivity. Qed.
Lemma cnt_0 k cs c : cnt k cs = 0%nat -> c ∈ cs -> ~ has k c.
Proof.
  intros H Hc Hk. unfold cnt in H. apply nil_length_inv in H.
  assert (HH : c ∈ filter (has k) cs) by (apply elem_of_list_filter; auto). rewrite H in HH. inversion HH.
Qed.
Lemma has_empty k : ~ has k c_empty.
Proof. unfold has, c_empty; cbn. rewrite lookup_empty. intros [? ?]; discriminate. Qed.
Lemma holds_empty p ρ : holds p ρ c_empty.
Proof. unfold holds, c_empty; cbn. reflexivity. Qed.
Lemma lin_ok_empty p : lin_ok p c_empty.
Proof. unfold lin_ok, c_empty; cbn. split_and!; auto using canon_empty, nonzero_empty. Qed.
Lemma lin_ok_is_empty p c : lin_ok p c -> is_empty c = true -> c = c_empty.
Proof.
  intros (A & B & _) H. unfold is_empty in H. rewrite !andb_true_iff, !is_empty_map_true in H.
  destruct c as [a b c]; cbn in *. destruct H as [_ ->]. subst. reflexivity.
Qed.
Lemma lin_ok_not_empty c k : has k c -> is_empty c = false.
Proof.
  intros Hk. destruct (is_empty c) eqn:E; [|reflexivity]. unfold is_empty in E.
  rewrite !andb_true_iff, !is_empty_map_true in E. destruct E as [_ E]. unfold has in Hk. rewrite E, lookup_empty in Hk.
  destruct Hk; discriminate.
Qed.

Lemma remove_constraint_aux (forb : gset nat) : forall ks (oc : gmap nat nat), NoDup ks ->
  (forall k, k ∈ ks -> k ∉ forb -> oc !! k <> Some 0%nat) ->
  exists oc' : gmap nat nat, foldl (fun acc k => res_bind acc (fun oc : gmap nat nat =>
      if can_be_taken forb k then match oc !! k with
        | Some (S n) => Ok (<[k := n]> oc) | Some O => Panic | None => Ok oc end
      else Ok oc)) (Ok oc) ks = Ok oc' /\
    forall k, oc' !! k = (if decide (k ∈ ks /\ k ∉ forb) then pred <$> oc !! k else oc !! k).
Proof.
  induction ks as [|k ks IH]; intros oc HN Hz; cbn [foldl res_bind].
  - exists oc. split; [reflexivity|]. intros k. rewrite decide_False; [reflexivity|]. intros [H _]. inversion H.
  - apply NoDup_cons in HN. destruct HN as [Hk HN]. unfold can_be_taken at 2.
    destruct (decide (k ∈ forb)) as [Hf|Hf].
    + rewrite bool_decide_eq_false_2 by (intros H; exact (H Hf)).
      destruct (IH oc HN) as (oc' & E & S); [intros; apply Hz; [right|]; assumption|].
      exists oc'. split; [assumption|]. intros k'. rewrite S. destruct (decide (k' = k)) as [->|Hne].
      * rewrite !decide_False by naive_solver. reflexivity.
      * apply decide_ext. rewrite elem_of_cons. naive_solver.
    + rewrite bool_decide_eq_true_2 by assumption.
      specialize (Hz k ltac:(left) Hf) as Hzk.
      destruct (oc !! k) as [[|n]|] eqn:Ek; [contradiction| |].
      * destruct (IH (<[k:=n]> oc) HN) as (oc' & E & S).
        { intros k' Hk' Hf'. rewrite lookup_insert_ne by (intros ->; contradiction). apply Hz; [right|]; assumption. }
        exists oc'. split; [assumption|]. intros k'. rewrite S. destruct (decide (k' = k)) as [->|Hne].
        -- rewrite decide_False by naive_solver. rewrite decide_True by (split; [left|assumption]).
           rewrite lookup_insert, Ek. reflexivity.
        -- rewrite lookup_insert_ne by congruence. apply decide_ext. rewrite elem_of_cons. naive_solver.
      * destruct (IH oc HN) as (oc' & E & S); [intros; apply Hz; [right|]; assumption|].
        exists oc'. split; [assumption|]. intros k'. rewrite S. destruct (decide (k' = k)) as [->|Hne].
        -- rewrite decide_False by naive_solver. rewrite decide_True by (split; [left|assumption]). rewrite Ek. reflexivity.
        -- apply decide_ext. rewrite elem_of_cons. naive_solver.
Qed.
Lemma remove_constraint_spec forb c oc :
  (forall k, has k c -> k ∉ forb -> oc !! k <> Some 0%nat) ->
  exists oc', remove_constraint forb c oc = Ok oc' /\
    forall k, oc' !! k = (if decide (has k c /\ k ∉ forb) then pred <$> oc !! k else oc !! k).
Proof.
  intros Hz. destruct (remove_constraint_aux forb (elements (dom (c_c c))) oc) as (oc' & E & S).
  - apply NoDup_elements.
  - intros k Hk. apply Hz. apply elem_of_elements, elem_of_dom in Hk. assumption.
  - exists oc'. split; [exact E|]. intros k. rewrite S. apply decide_ext.
    rewrite elem_of_elements, elem_of_dom. reflexivity.
Qed.

(** the state between two constraints; [rem] are the constraints still to be treated *)
Definition inv4 (p : Z) (forb U : gset nat) (st : state4) (rem : list constraint) : Prop :=
  map_Forall (sub_ok p forb U) (subs4 st) /\
  (forall k, is_Some (subs4 st !! k) <-> k ∈ order st) /\
  (forall k, k ∈ deleted st <-> k ∈ order st) /\
  NoDup (order st) /\
  (forall l1 k l2 e, order st = l1 ++ k :: l2 -> subs4 st !! k = Some e ->
     forall j, is_Some (s_to e.2 !! j) -> j ∉ k :: l2) /\
  lconst_ok p forb U (lconst4 st) /\
  (forall k, k ∈ U -> k ∉ forb -> k ∉ deleted st -> occ st !! k = Some (cnt k rem)) /\
  (forall k, k ∈ deleted st -> occ st !! k = None).
Definition st_holds (p : Z) (ρ : assignment) (st : state4) : Prop :=
  holder_holds p ρ (subs4 st) /\ Forall (holds p ρ) (lconst4 st).

(** recording a new substitution *)
Lemma inv4_record p forb U st rem out coef sub oc' :
  0%nat ∈ forb ->
  inv4 p forb U (State4 (deleted st) (order st) oc' (subs4 st) (lconst4 st)) rem ->
  sub_ok p forb U out (coef, sub) -> out ∉ deleted st ->
  (forall j, is_Some (s_to sub !! j) -> j ∉ forb -> j ∉ deleted st) ->
  inv4 p forb U (State4 ({[ out ]} ∪ deleted st) (out :: order st) (delete out oc')
                        (<[out := (coef, sub)]> (subs4 st)) (lconst4 st)) rem.
Proof.
  intros H0 (I1 & I2 & I3 & I4 & I5 & I6 & I7 & I8) Hok Hout Hkeys. cbn in *.
  assert (Hnf : forall j, j ∈ order st -> j ∉ forb).
  { intros j Hj. apply I2 in Hj. destruct Hj as [e He]. exact (proj1 (proj2 (I1 j e He))). }
  unfold inv4; cbn. split_and!.
  - apply map_Forall_insert_2; assumption.
  - intros k. rewrite lookup_insert_is_Some', elem_of_cons, I2. naive_solver.
  - intros k. rewrite elem_of_union, elem_of_singleton, elem_of_cons, I3. reflexivity.
  - apply NoDup_cons. split; [|assumption]. rewrite <- I3. assumption.
  - intros l1 k l2 e Ho He j Hj. destruct l1 as [|x l1]; cbn in Ho; injection Ho as -> Ho.
    + rewrite lookup_insert in He. injection He as <-. cbn in Hj. rewrite not_elem_of_cons. subst l2. split.
      * intros ->. destruct Hok as (_ & _ & _ & _ & _ & Hn & _). cbn in Hn. rewrite Hn in Hj. destruct Hj; discriminate.
      * intros Hjo. apply (Hkeys j Hj); [apply Hnf; assumption|apply I3; assumption].
    + assert (x <> k).
      { intros ->. apply Hout, I3. rewrite Ho. apply elem_of_app. right. left. }
      rewrite lookup_insert_ne in He by assumption. apply (I5 l1 k l2 e Ho He j Hj).
  - assumption.
  - intros k HU Hf Hd. rewrite not_elem_of_union, not_elem_of_singleton in Hd. destruct Hd as [Hd1 Hd2].
    rewrite lookup_delete_ne by congruence. apply I7; assumption.
  - intros k Hk. apply elem_of_union in Hk. destruct Hk as [Hk|Hk].
    + apply elem_of_singleton in Hk. subst. apply lookup_delete.
    + destruct (decide (out = k)) as [->|]; [apply lookup_delete|]. rewrite lookup_delete_ne by assumption. auto.
Qed.

(** the termination measure of the conflict loop: the eliminated signals still present in the
    constraint, read as a binary number whose most significant digit is the oldest elimination *)
Fixpoint weight (P : nat -> Prop) `{forall k, Decision (P k)} (l : list nat) : nat :=
  match l with [] => 0%nat | k :: l => ((if decide (P k) then 1 else 0) + 2 * weight P l)%nat end.
Lemma weight_bound P `{forall k, Decision (P k)} l : (weight P l < 2 ^ length l)%nat.
Proof. induction l as [|k l IH]; cbn [weight length]; [cbn; lia|]. rewrite Nat.pow_succ_r'. destruct (decide (P k)); lia. Qed.
Lemma weight_mono P Q `{forall k, Decision (P k)} `{forall k, Decision (Q k)} l :
  (forall k, k ∈ l -> P k -> Q k) -> (weight P l <= weight Q l)%nat.
Proof.
  induction l as [|k l IH]; intros Hs; cbn [weight]; [lia|].
  assert (weight P l <= weight Q l)%nat by (apply IH; intros k' Hk'; apply Hs; right; assumption).
  specialize (Hs k ltac:(left)). destruct (decide (P k)), (decide (Q k)); try lia. tauto.
Qed.
Lemma weight_lt P Q `{forall k, Decision (P k)} `{forall k, Decision (Q k)} l1 out l2 :
  Q out -> ~ P out -> (forall k, k ∈ l2 -> P k -> Q k) ->
  (weight P (l1 ++ out :: l2) < weight Q (l1 ++ out :: l2))%nat.
Proof.
  intros HQ HP Hs. induction l1 as [|k l1 IH]; cbn [weight app].
  - rewrite (decide_False (P:=P out)), (decide_True (P:=Q out)) by assumption.
    pose proof (weight_mono P Q l2 Hs). lia.
  - destruct (decide (P k)), (decide (Q k)); lia.
Qed.

Lemma treat_constraint_4_spec p forb U rem ord : prime p -> 0%nat ∈ forb -> 0%nat ∈ U -> (forall n, valid_order (ord n)) ->
  forall fuel work st,
  inv4 p forb U st rem -> lin_ok p work -> in_set work U ->
  (weight (fun k => has k work) (order st) < fuel)%nat ->
  exists st', treat_constraint_4 fuel ord forb p st work = Ok st' /\ inv4 p forb U st' rem /\
    forall ρ, st_holds p ρ st' <-> (st_holds p ρ st /\ holds p ρ work).
Proof.
  intros Hp H0 H0U Hord. pose proof (prime_ge_2 p Hp).
  induction fuel as [|f IH]; intros work st Hinv HL HU Hf; [lia|].
  cbn [treat_constraint_4]. destruct (is_empty work) eqn:Ee.
  { exists st. split; [reflexivity|]. split; [assumption|]. intros ρ.
    assert (holds p ρ work); [|tauto]. rewrite (lin_ok_is_empty p work HL Ee). apply holds_empty. }
  pose proof Hinv as (I1 & I2 & I3 & I4 & I5 & I6 & I7 & I8).
  destruct (take_signal_4_spec forb (deleted st) (occ st) (ord f (c_c work)) None) as (out & -> & S).
  { intros k Hk Hnf Hnd. apply valid_order_in in Hk; [|auto]. eexists. apply I7; auto. }
  { intros x [=]. }
  cbn [res_bind]. destruct out as [out|].
  2:{ destruct S as [_ S]. eexists. split; [reflexivity|]. split.
      - unfold inv4; cbn. split_and!; auto. apply Forall_app. split; [assumption|].
        constructor; [|constructor]. split; [assumption|]. split; [|assumption].
        intros j Hj. apply S. apply valid_order_in; auto.
      - intros ρ. unfold st_holds; cbn. rewrite Forall_app, Forall_singleton. tauto. }
  destruct S as (Hnf & Hin & Hdel). destruct Hin as [Hin|]; [|discriminate].
  apply valid_order_in in Hin; [|auto].
  destruct (clear_step p forb U work out Hp HL HU H0 H0U Hnf Hin) as (coef & sub & -> & Hfrom & Hok & Hkeys & Heq).
  cbn [res_bind]. rewrite Hfrom.
  destruct (subs4 st !! out) as [[coef_r sub_r]|] eqn:Er.
  - destruct (merge_conflict_spec p coef sub coef_r sub_r ltac:(lia)) as (c & -> & HLc & Hhc & Hkc). cbn [res_bind].
    pose proof (I1 out _ Er) as Hokr.
    assert (Hord' : out ∈ order st) by (apply I2; eauto).
    apply elem_of_list_split in Hord'. destruct Hord' as (l1 & l2 & Ho).
    pose proof (I5 l1 out l2 _ Ho Er) as Htri. cbn in Htri.
    assert (Hf0 : forall k, k ∈ order st -> k <> 0%nat).
    { intros k Hk ->. apply I2 in Hk. destruct Hk as [e He]. apply (proj1 (proj2 (I1 _ _ He))). assumption. }
    destruct (IH c st Hinv HLc) as (st' & E' & Inv' & Eq').
    + intros j Hj. apply Hkc in Hj. destruct Hj as [->|[Hj|Hj]]; [assumption| |].
      * destruct Hok as (_ & _ & _ & _ & _ & _ & HH). apply HH. assumption.
      * destruct Hokr as (_ & _ & _ & _ & _ & _ & HH). apply HH. assumption.
    + enough (weight (fun k => has k c) (order st) < weight (fun k => has k work) (order st))%nat by lia.
      rewrite Ho. apply weight_lt.
      * exact Hin.
      * intros Hh. apply Hkc in Hh. destruct Hh as [Hh|[Hh|Hh]].
        -- rewrite Hh in Hnf. contradiction.
        -- apply Hkeys in Hh. destruct Hh as [Hh|[Hh _]]; [rewrite Hh in Hnf; contradiction|contradiction].
        -- apply Htri in Hh. apply Hh. left.
      * intros k Hk Hh. assert (Hko : k ∈ order st) by (rewrite Ho; apply elem_of_app; right; right; assumption).
        apply Hkc in Hh. destruct Hh as [Hh|[Hh|Hh]].
        -- destruct (Hf0 k Hko Hh).
        -- apply Hkeys in Hh. destruct Hh as [Hh|[_ Hh]]; [destruct (Hf0 k Hko Hh)|assumption].
        -- apply Htri in Hh. destruct Hh. right. assumption.
    + rewrite E'. eexists. split; [reflexivity|]. split; [assumption|].
      intros ρ. rewrite Eq', Heq.
      assert (Hr : st_holds p ρ st -> (entry_holds p ρ out (coef, sub) <-> holds p ρ c)).
      { intros [Hh _]. apply (merge_equiv p out coef sub coef_r sub_r c ρ Hp).
        - destruct Hokr as (_ & _ & _ & _ & HH & _). exact HH.
        - apply Hhc.
        - exact (Hh out _ Er). }
      tauto.
  - assert (Hnd : out ∉ deleted st).
    { rewrite I3, <- I2, Er. intros [? ?]; discriminate. }
    destruct Hdel as [Hdel|Hdel]; [contradiction|].
    eexists. split; [reflexivity|]. split.
    + apply inv4_record; [assumption| |assumption|assumption|].
      * destruct st; exact Hinv.
      * intros j Hj Hjf. apply Hkeys in Hj. destruct Hj as [->|[_ Hj]]; [contradiction|].
        apply Hdel; [|assumption]. apply valid_order_in; auto.
    + intros ρ. unfold st_holds, holder_holds; cbn. rewrite map_Forall_insert by assumption. rewrite Heq. tauto.
Qed.

Lemma order_length p forb U st rem : inv4 p forb U st rem -> (length (order st) <= size U)%nat.
Proof.
  intros (I1 & I2 & _ & I4 & _).
  assert (Hs : (list_to_set (order st) : gset nat) ⊆ U).
  { intros k Hk. apply elem_of_list_to_set in Hk. apply I2 in Hk. destruct Hk as [e He].
    exact (proj1 (proj2 (proj2 (I1 k e He)))). }
  rewrite <- (size_list_to_set (C:=gset nat) (order st)) by assumption. apply subseteq_size. assumption.
Qed.

Lemma inv4_pop p forb U st c rest : inv4 p forb U st (c :: rest) -> in_set c U ->
  exists oc', remove_constraint forb c (occ st) = Ok oc' /\
    inv4 p forb U (State4 (deleted st) (order st) oc' (subs4 st) (lconst4 st)) rest.
Proof.
  intros (I1 & I2 & I3 & I4 & I5 & I6 & I7 & I8) HU.
  destruct (remove_constraint_spec forb c (occ st)) as (oc' & E & S).
  { intros k Hk Hf. destruct (decide (k ∈ deleted st)) as [Hd|Hd]; [rewrite I8 by assumption; discriminate|].
    rewrite I7 by auto. rewrite cnt_cons, decide_True by assumption. discriminate. }
  exists oc'. split; [assumption|]. unfold inv4; cbn. split_and!; auto.
  - intros k Hk Hf Hd. rewrite S, (I7 k Hk Hf Hd), cnt_cons.
    destruct (decide (has k c)); [rewrite decide_True by auto; reflexivity|rewrite decide_False by tauto; reflexivity].
  - intros k Hd. rewrite S, (I8 k Hd). destruct (decide _); reflexivity.
Qed.

Lemma process_4_loop_spec p forb U ord fuel : prime p -> 0%nat ∈ forb -> 0%nat ∈ U ->
  (forall n m, valid_order (ord n m)) -> (2 ^ size U <= fuel)%nat -> forall cs st,
  inv4 p forb U st cs -> Forall (fun c => lin_ok p c /\ in_set c U) cs ->
  exists st', process_4_loop fuel ord forb p cs st = Ok st' /\ inv4 p forb U st' [] /\
    forall ρ, st_holds p ρ st' <-> (st_holds p ρ st /\ Forall (holds p ρ) cs).
Proof.
  intros Hp H0 H0U Hord Hfuel. induction cs as [|c cs IH]; intros st Hinv HC; cbn [process_4_loop].
  - exists st. split; [reflexivity|]. split; [assumption|]. intros ρ. split; [auto|tauto].
  - apply Forall_cons in HC. destruct HC as [[HL HU] HC].
    destruct (inv4_pop _ _ _ _ _ _ Hinv HU) as (oc' & -> & Hinv'). cbn [res_bind].
    destruct (treat_constraint_4_spec p forb U cs (ord (length cs)) Hp H0 H0U (Hord _) fuel c _ Hinv' HL HU) as (st1 & -> & I1 & E1).
    { pose proof (weight_bound (fun k => has k c) (order st)). pose proof (order_length _ _ _ _ _ Hinv).
      assert (2 ^ length (order st) <= 2 ^ size U)%nat by (apply Nat.pow_le_mono_r; lia). cbn. lia. }
    cbn [res_bind]. destruct (IH st1 I1 HC) as (st2 & -> & I2 & E2).
    exists st2. split; [reflexivity|]. split; [assumption|]. intros ρ. rewrite E2, E1, Forall_cons.
    unfold st_holds; cbn. tauto.
Qed.

(** signals with one occurrence *)
Lemma cnt_replace k vec i c : vec !! i = Some c ->
  cnt k vec = ((if decide (has k c) then 1 else 0) + cnt k (<[i := c_empty]> vec))%nat.
Proof.
  intros Hi. pose proof (take_drop_middle vec i c Hi) as E.
  assert (Hl : (i < length vec)%nat) by (apply lookup_lt_is_Some; eauto).
  rewrite insert_take_drop by assumption. rewrite <- E at 1.
  rewrite !cnt_app, !cnt_cons. rewrite (decide_False (P:=has k c_empty)) by apply has_empty.
  destruct (decide (has k c)); lia.
Qed.
Lemma Forall_replace (P : constraint -> Prop) vec i c : P c_empty -> vec !! i = Some c ->
  (Forall P vec <-> P c /\ Forall P (<[i := c_empty]> vec)).
Proof.
  intros HP Hi. pose proof (take_drop_middle vec i c Hi) as E.
  assert (Hl : (i < length vec)%nat) by (apply lookup_lt_is_Some; eauto).
  rewrite insert_take_drop by assumption. rewrite <- E at 1.
  rewrite !Forall_app, !Forall_cons. tauto.
Qed.

Lemma uniques_loop_spec p forb U : prime p -> 0%nat ∈ forb -> 0%nat ∈ U -> forall us vec st,
  inv4 p forb U st vec -> Forall (fun c => lin_ok p c /\ in_set c U) vec ->
  (forall k, k ∈ deleted st -> cnt k vec = 0%nat) ->
  NoDup us.*1 ->
  (forall k i, (k, i) ∈ us -> k ∉ forb /\ k ∉ deleted st /\ (cnt k vec <= 1)%nat /\
     exists c, vec !! i = Some c /\ (c = c_empty \/ has k c)) ->
  exists vec' st', uniques_loop forb p us vec st = Ok (vec', st') /\
    inv4 p forb U st' vec' /\ Forall (fun c => lin_ok p c /\ in_set c U) vec' /\
    forall ρ, (st_holds p ρ st' /\ Forall (holds p ρ) vec') <-> (st_holds p ρ st /\ Forall (holds p ρ) vec).
Proof.
  intros Hp H0 H0U. induction us as [|[k i] us IH]; intros vec st Hinv HC Hdel HN Hus; cbn [uniques_loop].
  - do 2 eexists. split; [reflexivity|]. split; [assumption|]. split; [assumption|]. reflexivity.
  - cbn in HN. apply NoDup_cons in HN. destruct HN as [Hk HN].
    destruct (Hus k i ltac:(left)) as (Hkf & Hkd & Hkc & c & Hi & Hc). rewrite Hi.
    destruct Hc as [->|Hc].
    { change (is_empty c_empty) with true. cbn match. apply IH; auto. intros. apply Hus. right. assumption. }
    rewrite (lin_ok_not_empty c k Hc).
    assert (HCc : lin_ok p c /\ in_set c U) by (apply (proj1 (Forall_lookup _ _) HC i c Hi)). destruct HCc as [HL HU].
    set (vec' := <[i := c_empty]> vec).
    assert (Hinv1 : inv4 p forb U st (c :: vec')).
    { destruct Hinv as (I1 & I2 & I3 & I4 & I5 & I6 & I7 & I8). unfold inv4. split_and!; auto.
      intros k' A B C. rewrite I7 by assumption. rewrite cnt_cons. f_equal. apply cnt_replace. assumption. }
    destruct (inv4_pop _ _ _ _ _ _ Hinv1 HU) as (oc' & -> & Hinv2). cbn [res_bind].
    unfold treat_unique_constraint_4; cbn [deleted order occ subs4 lconst4].
    destruct (clear_step p forb U c k Hp HL HU H0 H0U Hkf Hc) as (coef & sub & -> & Hfrom & Hok & Hkeys & Heq).
    cbn [res_bind]. rewrite Hfrom.
    assert (Hcd : forall j, j ∈ deleted st -> ~ has j c).
    { intros j Hj. apply (cnt_0 j vec c); [auto|]. apply elem_of_list_lookup. eauto. }
    assert (Hvle : forall j, (cnt j vec' <= cnt j vec)%nat).
    { intros j. rewrite (cnt_replace j vec i c Hi). fold vec'. lia. }
    destruct (IH vec' (State4 ({[ k ]} ∪ deleted st) (k :: order st) (delete k oc')
        (<[k := (coef, sub)]> (subs4 st)) (lconst4 st))) as (vec2 & st2 & E & I2 & C2 & Q2).
    + apply inv4_record; auto. intros j Hj Hjf Hjd. apply Hkeys in Hj. destruct Hj as [->|[_ Hj]]; [contradiction|].
      apply (Hcd j Hjd Hj).
    + apply (Forall_replace (fun c => lin_ok p c /\ in_set c U) vec i c); [|assumption|assumption].
      split; [apply lin_ok_empty|]. intros j Hj. destruct (has_empty j Hj).
    + cbn. intros j Hj. apply elem_of_union in Hj. destruct Hj as [Hj|Hj].
      * apply elem_of_singleton in Hj. subst j. pose proof (cnt_replace k vec i c Hi) as Hcr.
        rewrite decide_True in Hcr by assumption. fold vec' in Hcr. lia.
      * specialize (Hdel j Hj). specialize (Hvle j). lia.
    + assumption.
    + cbn. intros k' i' Hin'. destruct (Hus k' i' ltac:(right; assumption)) as (A & B & C & c' & D & F).
      assert (k' <> k).
      { intros ->. apply Hk. apply elem_of_list_fmap. exists (k, i'). auto. }
      split; [assumption|]. split; [rewrite not_elem_of_union, not_elem_of_singleton; auto|].
      split; [specialize (Hvle k'); lia|].
      unfold vec'. destruct (decide (i = i')) as [<-|Hne].
      * exists c_empty. split; [|auto]. apply list_lookup_insert. apply lookup_lt_is_Some; eauto.
      * exists c'. rewrite list_lookup_insert_ne by assumption. auto.
    + exists vec2, st2. split; [assumption|]. split; [assumption|]. split; [assumption|].
      intros ρ. rewrite Q2, (Forall_replace (holds p ρ) vec i c (holds_empty p ρ) Hi). fold vec'.
      unfold st_holds, holder_holds; cbn.
      assert (Hnk : subs4 st !! k = None).
      { destruct Hinv as (_ & J2 & J3 & _). destruct (subs4 st !! k) eqn:Ek; [|reflexivity].
        destruct Hkd. apply J3, J2. eauto. }
      rewrite map_Forall_insert by assumption. rewrite Heq. tauto.
Qed.

(** the occurrence table *)
Definition info_inv (forb : gset nat) (all : list constraint) (st : gmap nat nat * gmap nat nat) : Prop :=
  (forall k, k ∉ forb -> default 0%nat (st.1 !! k) = cnt k all) /\
  (forall k, st.1 !! k <> Some 0%nat) /\
  (forall k, is_Some (st.1 !! k) -> k ∉ forb /\ exists i c, st.2 !! k = Some i /\ all !! i = Some c /\ has k c).

Lemma count_constraint_spec forb all c st : info_inv forb all st ->
  info_inv forb (all ++ [c]) (count_constraint forb (length all) c st).
Proof.
  intros (A & B & C). unfold count_constraint.
  set (f := fun '(oc, rep) k => if can_be_taken forb k then
      match oc !! k with Some n => (<[k := S n]> oc, rep) | None => (<[k := 1%nat]> oc, <[k := length all]> rep) end
    else (oc, rep)).
  assert (G : forall ks (st' : gmap nat nat * gmap nat nat), NoDup ks -> (forall k, k ∈ ks -> has k c) ->
    (forall k, k ∉ forb -> default 0%nat (st'.1 !! k) = (cnt k all + (if decide (has k c /\ k ∉ ks) then 1 else 0))%nat) ->
    (forall k, st'.1 !! k <> Some 0%nat) ->
    (forall k, is_Some (st'.1 !! k) -> k ∉ forb /\ exists i c', st'.2 !! k = Some i /\ (all ++ [c]) !! i = Some c' /\ has k c') ->
    info_inv forb (all ++ [c]) (foldl f st' ks)).
  { induction ks as [|k ks IH]; intros [oc rep] HN Hks A' B' C'; cbn [foldl].
    - split; [|split]; [|assumption|assumption]. intros k Hk. cbn in A'. cbn. rewrite A' by assumption.
      rewrite cnt_app, cnt_cons. change (cnt k []) with 0%nat.
      destruct (decide (has k c)); [rewrite decide_True by (split; [assumption|apply not_elem_of_nil]); lia|].
      rewrite decide_False by tauto. lia.
    - apply NoDup_cons in HN. destruct HN as [Hk HN]. cbn [fst snd] in *.
      assert (Hksk : forall k', k' ∈ ks -> has k' c) by (intros; apply Hks; right; assumption).
      assert (Hlast : (all ++ [c]) !! length all = Some c) by (apply list_lookup_middle; reflexivity).
      unfold f at 2. unfold can_be_taken. destruct (decide (k ∈ forb)) as [Hf|Hf].
      + rewrite bool_decide_eq_false_2 by (intros H; exact (H Hf)). apply IH; cbn [fst snd]; auto.
        intros k' Hk'. rewrite A' by assumption. f_equal. apply decide_ext. rewrite elem_of_cons. naive_solver.
      + rewrite bool_decide_eq_true_2 by assumption.
        pose proof (A' k Hf) as Ak. rewrite decide_False in Ak by (rewrite elem_of_cons; tauto).
        destruct (oc !! k) as [n|] eqn:Ek.
        * apply IH; cbn [fst snd]; auto.
          -- intros k' Hk'. destruct (decide (k' = k)) as [->|Hne].
             ++ rewrite lookup_insert. rewrite decide_True by (split; [apply Hks; left|assumption]). cbn in *. lia.
             ++ rewrite lookup_insert_ne by congruence. rewrite A' by assumption. f_equal. apply decide_ext.
                rewrite elem_of_cons. naive_solver.
          -- intros k'. destruct (decide (k' = k)) as [->|Hne]; [rewrite lookup_insert; discriminate|].
             rewrite lookup_insert_ne by congruence. apply B'.
          -- intros k' Hk'. apply C'. apply lookup_insert_is_Some' in Hk'. destruct Hk' as [<-|]; [rewrite Ek; eauto|assumption].
        * apply IH; cbn [fst snd]; auto.
          -- intros k' Hk'. destruct (decide (k' = k)) as [->|Hne].
             ++ rewrite lookup_insert. rewrite decide_True by (split; [apply Hks; left|assumption]). cbn in *. lia.
             ++ rewrite lookup_insert_ne by congruence. rewrite A' by assumption. f_equal. apply decide_ext.
                rewrite elem_of_cons. naive_solver.
          -- intros k'. destruct (decide (k' = k)) as [->|Hne]; [rewrite lookup_insert; discriminate|].
             rewrite lookup_insert_ne by congruence. apply B'.
          -- intros k' Hk'. destruct (decide (k' = k)) as [->|Hne].
             ++ split; [assumption|]. exists (length all), c. rewrite lookup_insert. split; [reflexivity|].
                split; [assumption|]. apply Hks. left.
             ++ rewrite lookup_insert_ne in Hk' by congruence. rewrite lookup_insert_ne by congruence. apply C'. assumption. }
  apply G.
  - apply NoDup_elements.
  - intros k Hk. apply elem_of_elements, elem_of_dom in Hk. exact Hk.
  - intros k Hk. rewrite A by assumption. rewrite decide_False; [lia|]. intros [Hh Hn]. apply Hn.
    apply elem_of_elements, elem_of_dom. exact Hh.
  - assumption.
  - intros k Hk. destruct (C k Hk) as (F & i & c' & D & E & G'). split; [assumption|]. exists i, c'. split; [assumption|].
    split; [|assumption]. apply lookup_app_l_Some. assumption.
Qed.
Lemma info_new_loop_spec forb cs : forall all st, info_inv forb all st ->
  info_inv forb (all ++ cs) (info_new_loop forb (length all) cs st).
Proof.
  induction cs as [|c cs IH]; intros all st Hst; cbn [info_new_loop]; [rewrite app_nil_r; assumption|].
  specialize (IH (all ++ [c]) _ (count_constraint_spec forb all c st Hst)).
  rewrite app_length, Nat.add_comm, <- app_assoc in IH. exact IH.
Qed.

Lemma sigs_0 cs : 0%nat ∈ sigs cs.
Proof. unfold sigs. set_solver. Qed.
Lemma sigs_in cs k : k ∈ sigs cs <-> k = 0%nat \/ exists c, c ∈ cs /\ has k c.
Proof.
  unfold sigs. rewrite elem_of_union, elem_of_singleton, elem_of_union_list. split.
  - intros [->|(X & HX & Hk)]; [auto|]. apply elem_of_list_fmap in HX. destruct HX as (c & -> & Hc).
    right. exists c. split; [assumption|]. apply elem_of_dom in Hk. exact Hk.
  - intros [->|(c & Hc & Hk)]; [auto|]. right. exists (dom (c_c c)). split; [|apply elem_of_dom; exact Hk].
    apply elem_of_list_fmap. eauto.
Qed.
Lemma sigs_set cs c : c ∈ cs -> in_set c (sigs cs).
Proof. intros Hc j Hj. apply sigs_in. right. exists c. auto. Qed.
Lemma cnt_pos k cs c : c ∈ cs -> has k c -> (0 < cnt k cs)%nat.
Proof.
  intros Hc Hk. destruct (cnt k cs) eqn:E; [|lia]. destruct (cnt_0 k cs c E Hc Hk).
Qed.

Lemma process_4_spec p forb ord fuel cs : prime p -> 0%nat ∈ forb -> (forall n m, valid_order (ord n m)) ->
  Forall (lin_ok p) cs -> (2 ^ size (sigs cs) <= fuel)%nat ->
  exists st, substitution_process_4 fuel ord forb p cs = Ok st /\ inv4 p forb (sigs cs) st [] /\
    forall ρ, st_holds p ρ st <-> Forall (holds p ρ) cs.
Proof.
  intros Hp H0 Hord HC Hf. pose proof (sigs_0 cs) as H0U. set (U := sigs cs) in *.
  assert (HCU : Forall (fun c => lin_ok p c /\ in_set c U) cs).
  { apply Forall_forall. intros c Hc. split; [apply (proj1 (Forall_forall _ _) HC c Hc)|apply sigs_set; assumption]. }
  unfold substitution_process_4, info_new.
  pose proof (info_new_loop_spec forb cs [] (∅, ∅)) as HI.
  destruct (info_new_loop forb 0 cs (∅, ∅)) as [oc rep] eqn:EI.
  destruct HI as (A & B & C).
  { split; [|split]; cbn.
    - intros k _. rewrite lookup_empty. reflexivity.
    - intros k. rewrite lookup_empty. discriminate.
    - intros k. rewrite lookup_empty. intros [? ?]; discriminate. }
  cbn [length] in *. rewrite EI in A, B, C. cbn [app fst snd] in A, B, C.
  set (us := (fun k => (k, default 0%nat (rep !! k))) <$> _).
  assert (Hinv : inv4 p forb U (State4 ∅ [] oc ∅ []) cs).
  { unfold inv4; cbn. split_and!.
    - apply map_Forall_empty.
    - intros k. rewrite lookup_empty, elem_of_nil. split; [intros [? ?]; discriminate|tauto].
    - intros k. rewrite elem_of_nil. set_solver.
    - constructor.
    - intros l1 k l2 e He. destruct l1; discriminate.
    - constructor.
    - intros k HU Hnf _. specialize (A k Hnf). destruct (oc !! k) as [n|]; [cbn in A; f_equal; exact A|]. cbn in A.
      apply sigs_in in HU. destruct HU as [->|(c & Hc & Hk)]; [contradiction|].
      pose proof (cnt_pos k cs c Hc Hk). lia.
    - intros k Hk. set_solver. }
  destruct (uniques_loop_spec p forb U Hp H0 H0U us cs (State4 ∅ [] oc ∅ []) Hinv HCU) as (vec & st1 & -> & I1 & C1 & Q1).
  { cbn. intros k Hk. set_solver. }
  { unfold us. rewrite <- list_fmap_compose. rewrite (list_fmap_ext _ id) by reflexivity.
    rewrite list_fmap_id. apply asc_keys_NoDup. }
  { intros k i Hki. unfold us in Hki. apply elem_of_list_fmap in Hki. destruct Hki as (k' & Hk' & Hin).
    injection Hk' as <- ->. apply asc_keys_in in Hin. destruct Hin as [n Hn]. apply map_filter_lookup_Some in Hn.
    destruct Hn as [Hn Hn1]. cbn in Hn1. subst n. destruct (C k ltac:(eauto)) as (Hnf & i & c & Hr & Hi & Hc).
    split; [assumption|]. split; [cbn; set_solver|]. split.
    - specialize (A k Hnf). rewrite Hn in A. cbn in A. lia.
    - exists c. rewrite Hr. cbn. auto. }
  cbn [res_bind].
  destruct (process_4_loop_spec p forb U ord fuel Hp H0 H0U Hord Hf (rev vec) st1) as (st & E & I2 & Q2).
  - destruct I1 as (J1 & J2 & J3 & J4 & J5 & J6 & J7 & J8). unfold inv4. split_and!; auto.
    intros k K1 K2 K3. rewrite J7 by assumption. f_equal. apply cnt_perm, Permutation_rev.
  - rewrite <- Permutation_rev. assumption.
  - exists st. split; [assumption|]. split; [assumption|]. intros ρ. rewrite Q2, <- Permutation_rev, Q1.
    unfold st_holds, holder_holds; cbn. split; [tauto|]. intros Hh. split; [split; [apply map_Forall_empty|constructor]|assumption].
Qed.

(** ** the whole linear simplification *)
Lemma sorted_split (l l1 l2 : list nat) k : StronglySorted Nat.le l -> l = l1 ++ k :: l2 -> forall j, j ∈ k :: l2 -> (k <= j)%nat.
Proof.
  intros HS -> j Hj. apply StronglySorted_app_inv_r in HS. apply elem_of_cons in Hj. destruct Hj as [->|Hj]; [lia|].
  apply StronglySorted_inv in HS. destruct HS as [_ HF]. apply (proj1 (Forall_forall _ _) HF j Hj).
Qed.

(** nothing mentions an eliminated signal, nothing forbidden is eliminated, same solutions *)
Definition simplified_ok (p : Z) (forb U : gset nat) (cs : list constraint) (out : simplified) : Prop :=
  out_removed out = s_from <$> out_substitutions out /\
  NoDup (out_removed out) /\
  Forall (fun s => nsub_ok p forb U (s_from s) s /\ forall j, is_Some (s_to s !! j) -> j ∉ out_removed out)
    (out_substitutions out) /\
  Forall (fun c => lin_ok p c /\ in_set c forb /\ in_set c U) (out_constraints out) /\
  forall ρ, Forall (holds p ρ) cs <->
    Forall (holds p ρ) (out_constraints out) /\ Forall (sub_holds p ρ) (out_substitutions out).

Lemma finish_ok p forb U cs lconst no (E : gset nat) :
  (forall k, is_Some (no !! k) <-> k ∈ E) ->
  (forall k s, no !! k = Some s -> nsub_ok p forb U k s /\ forall j, is_Some (s_to s !! j) -> j ∉ E) ->
  lconst_ok p forb U lconst ->
  (forall ρ, map_Forall (fun _ => sub_holds p ρ) no /\ Forall (holds p ρ) lconst <-> Forall (holds p ρ) cs) ->
  simplified_ok p forb U cs (Simplified lconst (snd <$> map_to_list no) (fst <$> map_to_list no)).
Proof.
  intros HE Hno Hl Heq. unfold simplified_ok; cbn [out_removed out_substitutions out_constraints].
  assert (Hrem : forall k, k ∈ (map_to_list no).*1 <-> k ∈ E).
  { intros k. rewrite elem_of_list_fmap, <- HE. split.
    - intros ([k' s] & -> & Hin). apply elem_of_map_to_list in Hin. cbn. eauto.
    - intros [s Hs]. exists (k, s). split; [reflexivity|]. apply elem_of_map_to_list. assumption. }
  assert (Hfor : forall P : substitution -> Prop, Forall P (map_to_list no).*2 <-> map_Forall (fun _ => P) no).
  { intros P. rewrite map_Forall_to_list, Forall_fmap. apply Forall_proper; [|reflexivity]. intros [k s]. reflexivity. }
  split_and!.
  - rewrite <- list_fmap_compose. apply list_fmap_ext. intros i [k s] Hi. cbn.
    apply elem_of_list_lookup_2, elem_of_map_to_list in Hi. destruct (Hno k s Hi) as [[F _] _]. congruence.
  - apply NoDup_fst_map_to_list.
  - apply Hfor. intros k s Hs. destruct (Hno k s Hs) as [A B]. pose proof A as [F _]. rewrite F.
    split; [assumption|]. intros j Hj. rewrite Hrem. auto.
  - assumption.
  - intros ρ. rewrite Hfor, <- Heq. tauto.
Qed.

Lemma full_simplification_spec p forb ord ord2 fuel use_old cs :
  prime p -> 0%nat ∈ forb -> (forall n m, valid_order (ord n m)) -> (forall n, valid_order (ord2 n)) ->
  Forall (lin_ok p) cs ->
  (forall j, j ∈ sigs cs -> (S j < fuel)%nat) -> (2 ^ size (sigs cs) <= fuel)%nat ->
  exists out, full_simplification fuel ord ord2 forb use_old p cs = Ok out /\ simplified_ok p forb (sigs cs) cs out.
Proof.
  intros Hp H0 Hord Hord2 HC Hf1 Hf2. pose proof (prime_ge_2 p Hp). pose proof (sigs_0 cs) as H0U.
  set (U := sigs cs) in *. unfold full_simplification.
  destruct (use_heuristic_4 (length cs) use_old).
  - destruct (process_4_spec p forb ord fuel cs Hp H0 Hord HC Hf2) as (st & -> & I & Q). cbn [res_bind]. fold U in I.
    destruct I as (I1 & I2 & I3 & I4 & I5 & I6 & _ & _).
    destruct (normalize_spec p forb U (subs4 st) Hp H0 H0U I1) as (tree & -> & D & R & N). cbn [res_bind].
    assert (Hmem : forall k, k ∈ (list_to_set (order st) : gset nat) <-> k ∈ order st) by (intros; apply elem_of_list_to_set).
    assert (Hnf : forall k, k ∈ order st -> k ∉ forb).
    { intros k Hk. apply I2 in Hk. destruct Hk as [e He]. exact (proj1 (proj2 (I1 k e He))). }
    assert (Hrel : forall k s, tree !! k = Some s -> exists e, subs4 st !! k = Some e /\ norm_rel p forb U k e s).
    { intros k s Hs. assert (He : is_Some (subs4 st !! k)) by (apply D; eauto). destruct He as [e He]. eauto. }
    destruct (nonoverlap_loop_spec p forb U (list_to_set (order st)) ord2 ltac:(lia) H0 H0U) with (l := order st) (tree := tree) (no := ∅ : sh)
      as (no & -> & D' & O' & Q').
    + rewrite Hmem. intros H0'. apply (Hnf _ H0' H0).
    + assumption.
    + assumption.
    + intros k Hk. rewrite Hmem, lookup_empty. split; [assumption|]. split; [reflexivity|]. apply D, I2. assumption.
    + intros k s _ Hs. destruct (Hrel k s Hs) as (e & _ & (A & _)). assumption.
    + intros l1 k l2 s Hl Hs j Hj. destruct (Hrel k s Hs) as (e & He & (_ & K & _)).
      apply K in Hj. destruct Hj as [->|Hj]; [|apply (I5 l1 k l2 e Hl He j Hj)].
      intros Hin. apply (Hnf 0%nat); [|assumption]. rewrite Hl. apply elem_of_app. right. assumption.
    + intros k s _ _ j _ Hj. right. apply Hmem. assumption.
    + intros k s. rewrite lookup_empty. discriminate.
    + eexists; split; [reflexivity|]. eapply finish_ok; [|exact O'|assumption|].
      * intros k. rewrite D', lookup_empty, Hmem. split; [intros [[? ?]|]; [discriminate|assumption]|auto].
      * intros ρ. rewrite Q', <- Q. unfold st_holds. rewrite <- N. split.
        -- intros [[_ A] B]. split; [|assumption]. intros k s Hs. apply (A k); [|assumption].
           apply I2, D. eauto.
        -- intros [A B]. split; [|assumption]. split; [apply map_Forall_empty|]. intros k s _ Hs. exact (A k s Hs).
  - destruct (process_3_spec p forb U ord fuel cs Hp H0 H0U Hord) as (subs & lconst & -> & (I1 & I2 & I3) & Q).
    { apply Forall_forall. intros c Hc. split; [apply (proj1 (Forall_forall _ _) HC c Hc)|apply sigs_set; assumption]. }
    { assumption. }
    cbn [res_bind].
    destruct (normalize_spec p forb U subs Hp H0 H0U I1) as (tree & -> & D & R & N). cbn [res_bind].
    assert (Hrel : forall k s, tree !! k = Some s -> exists e, subs !! k = Some e /\ norm_rel p forb U k e s).
    { intros k s Hs. assert (He : is_Some (subs !! k)) by (apply D; eauto). destruct He as [e He]. eauto. }
    assert (Hnf : forall k, is_Some (tree !! k) -> k ∉ forb).
    { intros k [s Hs]. destruct (Hrel k s Hs) as (e & _ & ((_ & A & _) & _)). assumption. }
    destruct (nonoverlap_loop_spec p forb U (dom tree) ord2 ltac:(lia) H0 H0U) with (l := asc_keys tree) (tree := tree) (no := ∅ : sh)
      as (no & -> & D' & O' & Q').
    + rewrite elem_of_dom. intros H0'. apply (Hnf _ H0' H0).
    + assumption.
    + apply asc_keys_NoDup.
    + intros k Hk. rewrite asc_keys_in in Hk. rewrite elem_of_dom, lookup_empty. auto.
    + intros k s _ Hs. destruct (Hrel k s Hs) as (e & _ & (A & _)). assumption.
    + intros l1 k l2 s Hl Hs j Hj Hin. destruct (Hrel k s Hs) as (e & He & (_ & K & _)).
      pose proof (sorted_split _ _ _ _ (asc_keys_sorted tree) Hl j Hin) as Hle.
      assert (Hjt : is_Some (tree !! j)).
      { apply asc_keys_in. rewrite Hl. apply elem_of_app. right. assumption. }
      apply K in Hj. destruct Hj as [->|Hj]; [apply (Hnf _ Hjt H0)|].
      destruct (I2 k e He j Hj) as [Hj'|Hj']; [apply (Hnf _ Hjt Hj')|lia].
    + intros k s _ _ j _ Hj. right. apply asc_keys_in. apply elem_of_dom in Hj. assumption.
    + intros k s. rewrite lookup_empty. discriminate.
    + eexists; split; [reflexivity|]. eapply finish_ok; [|exact O'|assumption|].
      * intros k. rewrite D', lookup_empty, elem_of_dom, asc_keys_in. split; [intros [[? ?]|]; [discriminate|assumption]|auto].
      * intros ρ. rewrite Q', <- Q. rewrite <- N. split.
        -- intros [[_ A] B]. split; [|assumption]. intros k s Hs. apply (A k); [|assumption].
           apply asc_keys_in. eauto.
        -- intros [A B]. split; [|assumption]. split; [apply map_Forall_empty|]. intros k s _ Hs. exact (A k s Hs).
Qed.

(** ** extending a solution of the remaining constraints to the eliminated signals *)
Lemma leval_agree ρ ρ' m : (forall j, is_Some (m !! j) -> sv ρ j = sv ρ' j) -> leval ρ m = leval ρ' m.
Proof.
  induction m as [|k v m Hk IH] using map_ind; intros Ha; [reflexivity|].
  rewrite !leval_insert_new by assumption. rewrite (Ha k) by (rewrite lookup_insert; eauto). f_equal.
  apply IH. intros j Hj. apply Ha. apply lookup_insert_is_Some'. auto.
Qed.
Fixpoint extend (ρ : assignment) (ss : list substitution) : assignment :=
  match ss with [] => ρ | s :: ss => fun i => if Nat.eqb i (s_from s) then leval ρ (s_to s) else extend ρ ss i end.
Lemma extend_other ρ ss i : i ∉ (s_from <$> ss) -> extend ρ ss i = ρ i.
Proof.
  induction ss as [|s ss IH]; intros Hi; [reflexivity|]. cbn in Hi. rewrite not_elem_of_cons in Hi. cbn.
  destruct (Nat.eqb_spec i (s_from s)); [tauto|]. tauto.
Qed.
Lemma extend_in ρ ss s : NoDup (s_from <$> ss) -> s ∈ ss -> extend ρ ss (s_from s) = leval ρ (s_to s).
Proof.
  induction ss as [|s' ss IH]; intros HN Hs; [inversion Hs|]. cbn in HN. apply NoDup_cons in HN. destruct HN as [HN1 HN2].
  apply elem_of_cons in Hs. cbn. destruct Hs as [->|Hs]; [rewrite Nat.eqb_refl; reflexivity|].
  destruct (Nat.eqb_spec (s_from s) (s_from s')) as [E|]; [|auto].
  destruct HN1. rewrite <- E. apply elem_of_list_fmap. eauto.
Qed.
Lemma sv_agree ρ ρ' j : (j <> 0%nat -> ρ j = ρ' j) -> sv ρ j = sv ρ' j.
Proof. destruct j; cbn; [reflexivity|]. auto. Qed.
