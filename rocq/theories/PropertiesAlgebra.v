(** Property theorems C08-C12: circom_algebra/src/algebra.rs.  Vocabulary in AlgebraSpec.v. *)
From stdpp Require Import prelude gmap fin_maps.
From Coq Require Import ZArith Lia Znumtheory.
From Verif Require Import ModArithModel ModArithProofs AlgebraModel AlgebraSpec AlgebraProofs TreeProofs.
Open Scope Z_scope.

Lemma prime_7 : prime 7.
Proof. apply prime_intro; [lia|]. intros n Hn. apply Zgcd_1_rel_prime.
  assert (n = 1 \/ n = 2 \/ n = 3 \/ n = 4 \/ n = 5 \/ n = 6) as [->|[->|[->|[->|[->| ->]]]]] by lia; reflexivity. Qed.

(** ** C08 *)
(** For every expression tree over literals, signals and all operators, and every assignment:
    the value of the symbolic result is the field value of the tree; coefficients stay canonical
    and the constant key stays present. *)
Theorem C08_symbolic_evaluation_exact : forall p t e r, prime p -> 2 < p -> reduced_literals p t ->
  exec_tree p t = Ok e ->
  wf_expr e /\ canon_expr p e /\
  forall v, aval r e = Some v -> den p r t (v mod p) /\ forall x, den p r t x -> x = v mod p.
Proof.
  intros p t e r Hp Hp2 HL E. destruct (tree_sound p t e r Hp Hp2 HL E) as (A & B & C).
  split; [exact A|]. split; [exact B|]. intros v Hv. split; [exact (C v Hv)|].
  intros x Hx. exact (den_fun p r t x (v mod p) Hp Hx (C v Hv)).
Qed.
Print Assumptions C08_symbolic_evaluation_exact.
(** (s1 + 3) * (s2 - s1) / 2 in the field 7 is quadratic and its literals are reduced. *)
Example C08_ex : let t := TInfix Div (TInfix Mul (TInfix Add (TSig 1) (TNum 3)) (TInfix Sub (TSig 2) (TSig 1))) (TNum 2) in
  reduced_literals 7 t /\ exists e v, exec_tree 7 t = Ok e /\ aval (fun s => Z.of_nat s) e = Some v /\ v mod 7 = 2.
Proof. split; [cbn; lia|]. do 2 eexists. split; [vm_compute; reflexivity|]. split; vm_compute; reflexivity. Qed.

(** No operator crashes on such trees, the remainder excepted (C04). *)
Theorem C08_no_crash : forall p t, prime p -> 2 < p -> reduced_literals p t -> no_remainder t ->
  exec_tree p t <> Panic.
Proof. exact tree_no_panic. Qed.
Print Assumptions C08_no_crash.
Example C08_no_crash_ex : no_remainder (TInfix Div (TSig 1) (TNum 0)) /\ exec_tree 7 (TInfix Div (TSig 1) (TNum 0)) = DivisionByZero.
Proof. split; [cbn; naive_solver|vm_compute; reflexivity]. Qed.

(** A sum is flagged non-quadratic exactly when an operand is, or both carry a product; a product
    exactly when the degrees of the operands add up to more than two. *)
Definition degree (e : aexpr) : nat :=
  match e with Number _ => 0 | Signal _ | Linear _ => 1 | Quadratic _ _ _ => 2 | NonQuadratic => 3 end.
Theorem C08_flagging : forall p l r,
  (amul l r p = NonQuadratic <-> (2 < degree l + degree r)%nat) /\
  (wf_expr l -> wf_expr r ->
     (aadd l r p = Ok NonQuadratic <->
      l = NonQuadratic \/ r = NonQuadratic \/ (degree l = 2 /\ degree r = 2)%nat)).
Proof.
  intros p l r. split.
  - destruct l, r; cbn; split; intros H; try discriminate; try lia; reflexivity.
  - intros Wl Wr. destruct l, r; cbn [aadd degree]; unfold res_map, add_constant, init_empty, init_expr, cc in *;
      cbn [wf_expr] in Wl, Wr; unfold has_cc in *; destruct_and?;
      repeat match goal with H : is_Some _ |- _ => destruct H as [? H]; rewrite ?H end;
      rewrite ?lookup_empty, ?lookup_insert; cbn [res_bind];
      (split; [intros HN; try discriminate; tauto|]);
      intros [HN|[HN|[HN HN']]]; try discriminate; reflexivity.
Qed.
Print Assumptions C08_flagging.
Example C08_flagging_ex : wf_expr (Linear {[0%nat := 0; 1%nat := 1]}) /\
  amul (Linear {[0%nat := 0; 1%nat := 1]}) (Signal 2) 7 <> NonQuadratic.
Proof. split; [cbn; eexists; reflexivity|discriminate]. Qed.

(** Literals are not reduced when they are read (execute.rs:962-966); with a literal of at least
    the prime the power operator does not compute the field value of its reduced operands. *)
Theorem C08_unreduced_literal_refuted : exists p b k, prime p /\ 0 <= b < p /\ p <= k /\
  exec_tree p (TInfix Pow (TNum b) (TNum k)) = Ok (Number ((b ^ k) mod p)) /\
  (b ^ k) mod p <> (b ^ (k mod p)) mod p.
Proof. exists 7, 3, 8. split; [apply prime_7|]. split; [lia|]. split; [lia|]. split; [vm_compute; reflexivity|]. vm_compute. discriminate. Qed.
Print Assumptions C08_unreduced_literal_refuted.

(** ** C09 *)
Theorem C09_constraint_form_equivalent : forall p e, 0 < p ->
  (to_constraint e p = None <-> e = NonQuadratic) /\
  forall c, to_constraint e p = Some c ->
    (canon_expr p e -> canon_c p c) /\
    forall r v, aval r e = Some v -> (holds p r c <-> v mod p = 0).
Proof.
  intros p e Hp. split; [destruct e; cbn; split; congruence|].
  intros c Hc. split; [intros Ce; eapply to_constraint_canon; eauto|].
  intros r v Hv. rewrite (to_constraint_sound p e c r v Hp Hv Hc). unfold cong.
  rewrite Z.mod_0_l by lia. reflexivity.
Qed.
Print Assumptions C09_constraint_form_equivalent.
Example C09_ex : exists c, to_constraint (Quadratic {[0%nat:=0;1%nat:=1]} {[0%nat:=0;2%nat:=1]} {[0%nat:=0;3%nat:=6]}) 7 = Some c
  /\ canon_c 7 c /\ holds 7 (fun s => match s with 1%nat => 2 | 2%nat => 3 | _ => 6 end) c.
Proof.
  eexists. split; [reflexivity|]. split; [|vm_compute; reflexivity].
  decide_now.
Qed.

(** ** C10 *)
Theorem C10_normalisation : forall p c, 0 < p -> canon_c p c ->
  exists c', fix_constraint c p = Ok c' /\ canon_c p c' /\
    (forall r, holds p r c' <-> holds p r c) /\
    (forall s, in_c s c' -> in_c s c) /\
    nonzero_c c' /\
    (* either linear, or both factors mention a signal *)
    ((c_a c' = ∅ /\ c_b c' = ∅) \/ ((exists s, in_lin s (c_a c')) /\ exists s, in_lin s (c_b c'))) /\
    fix_constraint c' p = Ok c'.
Proof.
  intros p c Hp Hc. destruct (fix_constraint_sound p c Hp Hc) as (c' & E & A & N & B & C).
  exists c'. split; [exact E|]. split; [exact A|]. split; [exact B|]. split; [exact C|].
  pose proof (fix_constraint_idem p c' N) as I. destruct N as [N1 N2].
  split; [exact N1|]. split; [|exact I].
  destruct N2 as [N2|(Ha & Hb & Ca & Cb)]; [left; exact N2|right].
  assert (G : forall m : lin, m <> ∅ -> ~ (exists k, m = {[0%nat := k]}) -> exists s, in_lin s m).
  { intros m Hm Hk. destruct (decide (delete 0%nat m = ∅)) as [Hd|Hd].
    - exfalso. destruct (m !! 0%nat) as [k|] eqn:E0.
      + apply Hk. exists k. rewrite <- (insert_delete m 0%nat k E0), Hd. reflexivity.
      + apply Hm. rewrite <- Hd. symmetry. apply delete_notin. exact E0.
    - apply map_choose in Hd. destruct Hd as (s & v & Hs). apply lookup_delete_Some in Hs.
      exists s. split; [intros ->; apply (proj1 Hs); reflexivity|]. exists v. apply Hs. }
  split; apply G; assumption.
Qed.
Print Assumptions C10_normalisation.
(** (3)*(s1 + 0*s2) - s3 = 0 becomes the linear 0*0 - (s3 - 3*s1) = 0. *)
Example C10_ex : let c := Constraint {[0%nat:=3]} {[0%nat:=0;1%nat:=1;2%nat:=0]} {[3%nat:=1]} in
  canon_c 7 c /\ fix_constraint c 7 = Ok (Constraint ∅ ∅ {[1%nat:=4;3%nat:=1]}).
Proof.
  split; [|vm_compute; reflexivity].
  decide_now.
Qed.

(** ** C11 *)
Theorem C11_solving_for_a_signal : forall p m x k, prime p -> canon p m -> x <> 0%nat ->
  m !! x = Some k -> k <> 0 ->
  let c := Constraint ∅ ∅ m in
  exists s, clear_signal_from_linear c x p = Ok s /\ s_from s = x /\ canon p (s_to s) /\
    s_to s !! x = None /\
    (forall y, in_lin y (s_to s) -> in_lin y m) /\
    (forall r, holds p r c <-> sub_holds p r s).
Proof.
  intros p m x k Hp Hc Hx Hk Hz c.
  destruct (clear_signal_sound p m x k Hp Hc Hk Hz) as (to & E & A & B & C & D & F).
  exists (Substitution x to). unfold clear_signal_from_linear, c. cbn [c_c]. rewrite E.
  split; [reflexivity|]. split; [reflexivity|]. split; [exact A|]. split; [exact (C Hx)|].
  split; [intros y [Hy Hy']; cbn in Hy'; destruct (D y Hy') as [|[? ?]]; [contradiction|split; assumption]|].
  intros r. unfold sub_holds; cbn. rewrite <- F. unfold holds; cbn. rewrite leval_empty.
  pose proof (prime_ge_2 p Hp). split; intros H0.
  - transitivity (-(0 * 0 - leval r m)); [apply cong_eq; lia|]. rewrite H0. reflexivity.
  - transitivity (-(leval r m)); [apply cong_eq; lia|]. rewrite H0. reflexivity.
Qed.
Print Assumptions C11_solving_for_a_signal.
Example C11_ex : let m : lin := {[0%nat:=3;1%nat:=2;2%nat:=5]} in
  canon 7 m /\ m !! 1%nat = Some 2 /\ exists s, clear_signal_from_linear (Constraint ∅ ∅ m) 1 7 = Ok s /\ s_to s = {[0%nat:=2;2%nat:=1]}.
Proof. split; [decide_now|]. split; [reflexivity|]. eexists. split; [vm_compute; reflexivity|]. decide_now. Qed.

(** the un-normalised form: coefficient and rest with coefficient * x = rest *)
Theorem C11_unnormalised_form : forall p m x k, prime p -> canon p m -> x <> 0%nat ->
  m !! x = Some k -> k <> 0 ->
  let c := Constraint ∅ ∅ m in
  exists q s, clear_signal_from_linear_nn c x p = Ok (q, s) /\ s_from s = x /\ canon p (s_to s) /\
    0 < q < p /\ s_to s !! x = None /\
    (forall y, in_lin y (s_to s) <-> in_lin y m /\ y <> x) /\
    (forall r, holds p r c <-> (q * sv r x) mod p = leval r (s_to s) mod p).
Proof.
  intros p m x k Hp Hc Hx Hk Hz c. pose proof (prime_ge_2 p Hp).
  destruct (clear_signal_nn_ok p m x ltac:(eauto)) as (v & Hv & E).
  unfold clear_signal_from_linear_nn, c; cbn [c_c]. rewrite E. cbn.
  do 2 eexists. split; [reflexivity|]. cbn.
  assert (S := fun r => clear_signal_nn_sound p m x _ _ r ltac:(lia) E).
  destruct (S (fun _ => 0)) as (_ & Hq & Hn & Hj & Hcc & _). destruct (Hcc Hc) as [Hto Hq0].
  split; [reflexivity|]. split; [exact Hto|].
  split.
  { assert (mul v (-1) p <> 0) by (intros H0; apply Hq0; rewrite H0; reflexivity). lia. }
  split; [exact (Hn Hx)|].
  split; [intros y; unfold in_lin; rewrite Hj; naive_solver|].
  intros r. destruct (S r) as (_ & _ & _ & _ & _ & F). unfold cong in F. rewrite <- F.
  unfold holds; cbn. rewrite leval_empty. change (leval r m mod p = 0 mod p) with (leval r m =[p]= 0).
  split; intros H0.
  - transitivity (-(0 * 0 - leval r m)); [apply cong_eq; lia|]. rewrite H0. reflexivity.
  - transitivity (-(leval r m)); [apply cong_eq; lia|]. rewrite H0. reflexivity.
Qed.
Print Assumptions C11_unnormalised_form.
Example C11_unnormalised_ex : exists s, clear_signal_from_linear_nn (Constraint ∅ ∅ {[0%nat:=3;1%nat:=2;2%nat:=5]}) 1 7 = Ok (5, s) /\ s_to s = {[0%nat:=3;2%nat:=5]}.
Proof. eexists. split; [reflexivity|]. decide_now. Qed.

(** ** C12 *)
Theorem C12_substitution_in_constraint : forall p c s, 0 < p -> s_from s <> 0%nat ->
  (forall r, sub_holds p r s -> (holds p r (c_subst c s p) <-> holds p r c)) /\
  (s_to s !! s_from s = None -> ~ in_c (s_from s) (c_subst c s p)) /\
  (forall y, in_c y (c_subst c s p) -> in_c y c \/ (in_c (s_from s) c /\ in_lin y (s_to s))) /\
  (canon_c p c -> canon_c p (c_subst c s p)).
Proof.
  intros p c s Hp Hs. split; [intros r Hr; apply holds_c_subst; assumption|].
  assert (G : forall m y, in_lin y (raw_substitution m s p) -> in_lin y m \/ (in_lin (s_from s) m /\ in_lin y (s_to s))).
  { intros m y [Hy H]. apply keys_raw_subst in H. unfold in_lin. naive_solver. }
  split.
  { intros Ht. unfold in_c, in_lin. cbn. rewrite !raw_subst_gone by assumption.
    intros [[_ [? H]]|[[_ [? H]]|[_ [? H]]]]; discriminate. }
  split.
  { intros y. unfold in_c. cbn. intros [H|[H|H]]; apply G in H; tauto. }
  intros (A & B & C). unfold canon_c; cbn. split_and!; apply canon_raw_subst; assumption.
Qed.
Print Assumptions C12_substitution_in_constraint.
Example C12_ex : let s := Substitution 2 {[1%nat := 3]} in
  sub_holds 7 (fun k => match k with 1%nat => 2 | _ => 6 end) s /\ s_to s !! s_from s = None.
Proof. split; vm_compute; reflexivity. Qed.

Theorem C12_substitution_in_expression : forall p e s, 0 < p -> s_from s <> 0%nat ->
  (forall r, sub_holds p r s ->
    (aval r e = None <-> aval r (asubst e s p) = None) /\
    forall x y, aval r e = Some x -> aval r (asubst e s p) = Some y -> x mod p = y mod p) /\
  (s_to s !! s_from s = None -> ~ in_expr (s_from s) (asubst e s p)) /\
  (forall y, y <> 0%nat -> in_expr y (asubst e s p) -> in_expr y e \/ (in_expr (s_from s) e /\ in_lin y (s_to s))).
Proof.
  intros p e s Hp Hs. split.
  { intros r Hr. pose proof (asubst_sound p e s r Hp Hr Hs) as H.
    destruct (aval r e), (aval r (asubst e s p)); try contradiction; split; intros; try split; try congruence. }
  assert (Z : forall m y, in_lin y (remove_zeros m) -> in_lin y m).
  { intros m y [Hy [v Hv]]. apply remove_zeros_lookup in Hv. split; [assumption|]. eexists. apply Hv. }
  assert (G : forall m y, in_lin y (raw_substitution m s p) -> in_lin y m \/ (in_lin (s_from s) m /\ in_lin y (s_to s))).
  { intros m y [Hy H]. apply keys_raw_subst in H. unfold in_lin. naive_solver. }
  split.
  - intros Ht.
    assert (N : forall m, ~ in_lin (s_from s) (remove_zeros (raw_substitution m s p))).
    { intros m H. apply Z in H. destruct H as [_ [v H]]. rewrite raw_subst_gone in H by assumption. discriminate. }
    destruct e as [v|x|m|a b c|]; cbn [asubst in_expr]; try tauto.
    + destruct (Nat.eqb_spec x (s_from s)) as [->|Hn]; cbn; [|congruence]. intros [_ [v H]]. rewrite Ht in H. discriminate.
    + apply N.
    + intros [H|[H|H]]; exact (N _ H).
  - intros y Hy. destruct e as [v|x|m|a b c|]; cbn [asubst in_expr]; try tauto.
    + destruct (Nat.eqb_spec x (s_from s)) as [->|Hn]; cbn; tauto.
    + intros H. apply Z, G in H. tauto.
    + intros [H|[H|H]]; apply Z, G in H; tauto.
Qed.
Print Assumptions C12_substitution_in_expression.
Example C12_expr_ex : asubst (Linear {[0%nat:=1;2%nat:=2]}) (Substitution 2 {[1%nat := 3]}) 7 = Linear {[0%nat:=1;1%nat:=6]}.
Proof. vm_compute. reflexivity. Qed.

Theorem C12_substitution_in_substitution : forall p t s, 0 < p -> s_from s <> 0%nat ->
  s_from (subst_apply t s p) = s_from t /\
  (forall r, sub_holds p r s -> (sub_holds p r (subst_apply t s p) <-> sub_holds p r t)) /\
  (s_to s !! s_from s = None -> s_to (subst_apply t s p) !! s_from s = None).
Proof.
  intros p t s Hp Hs. split; [reflexivity|]. split.
  - intros r Hr. unfold sub_holds. cbn. rewrite leval_raw_subst by assumption. reflexivity.
  - intros Ht. apply raw_subst_gone; assumption.
Qed.
Print Assumptions C12_substitution_in_substitution.
Example C12_subst_ex : subst_apply (Substitution 3 {[2%nat := 2]}) (Substitution 2 {[1%nat := 3]}) 7 = Substitution 3 {[0%nat := 0; 1%nat := 6]}.
Proof. decide_now. Qed.
