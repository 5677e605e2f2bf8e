(** C13-C15: linear simplification. *)
From stdpp Require Import prelude gmap fin_maps sorting.
From Coq Require Import ZArith Lia Znumtheory.
From Verif Require Import ModArithModel ModArithProofs AlgebraModel AlgebraSpec AlgebraProofs LinearSimpModel LinearSpec LinearSimpProofs PropertiesAlgebra.
Open Scope Z_scope.

(** C13: simplifying a linear system keeps its solutions.  For every prime field, every list of
    linear constraints in normal form, every set of protected signals containing the constant,
    both heuristics and every hash order: the run ends, and an assignment satisfies the input
    constraints exactly when it satisfies the remaining constraints and the substitutions. *)
Theorem C13_linear_simplification_equivalent :
  forall p cs forb use_old ord ord2 fuel,
  prime p -> Forall (lin_ok p) cs -> 0%nat ∈ forb ->
  (forall n m, valid_order (ord n m)) -> (forall n, valid_order (ord2 n)) -> enough_steps cs fuel ->
  exists out, full_simplification fuel ord ord2 forb use_old p cs = Ok out /\
    forall ρ, Forall (holds p ρ) cs <->
      Forall (holds p ρ) (out_constraints out) /\ Forall (sub_holds p ρ) (out_substitutions out).
Proof.
  intros p cs forb use_old ord ord2 fuel Hp HC H0 Ho Ho2 [F1 F2].
  destruct (full_simplification_spec p forb ord ord2 fuel use_old cs Hp H0 Ho Ho2 HC F1 F2) as (out & E & S).
  exists out. split; [assumption|]. apply S.
Qed.
Print Assumptions C13_linear_simplification_equivalent.

(** C13, seen from the signals that are left: every assignment satisfying the remaining
    constraints can be completed on the eliminated signals, without touching the others, into a
    solution of the input; and two solutions of the input that agree on the signals that are left
    agree everywhere on the input's signals (as field elements). *)
Theorem C13_solutions_determined_by_remaining_signals :
  forall p cs forb use_old ord ord2 fuel out,
  prime p -> Forall (lin_ok p) cs -> 0%nat ∈ forb ->
  (forall n m, valid_order (ord n m)) -> (forall n, valid_order (ord2 n)) -> enough_steps cs fuel ->
  full_simplification fuel ord ord2 forb use_old p cs = Ok out ->
  (forall ρ, Forall (holds p ρ) (out_constraints out) ->
     exists ρ', (forall k, k ∉ out_removed out -> ρ' k = ρ k) /\ Forall (holds p ρ') cs) /\
  (forall ρ1 ρ2, Forall (holds p ρ1) cs -> Forall (holds p ρ2) cs ->
     (forall k, k ∉ out_removed out -> ρ1 k = ρ2 k) -> forall k, ρ1 k =[p]= ρ2 k).
Proof.
  intros p cs forb use_old ord ord2 fuel out Hp HC H0 Ho Ho2 [F1 F2] E.
  destruct (full_simplification_spec p forb ord ord2 fuel use_old cs Hp H0 Ho Ho2 HC F1 F2) as (out' & E' & S).
  rewrite E in E'. injection E' as <-. destruct S as (R & N & SS & LC & EQ).
  pose proof (proj1 (Forall_forall _ _) SS) as SS2; pose proof (proj1 (Forall_forall _ _) LC) as LC2; clear SS LC; rename SS2 into SS; rename LC2 into LC. split.
  - intros ρ Hρ. exists (extend ρ (out_substitutions out)).
    split; [intros k Hk; apply extend_other; rewrite <- R; assumption|].
    apply EQ. split.
    + apply Forall_forall. intros c Hc. destruct (LC c Hc) as (HL & HF & _).
      apply (proj1 (Forall_forall _ _)) with (x:=c) in Hρ; [|exact Hc]. pose proof (prime_ge_2 p Hp).
      rewrite lin_ok_holds in Hρ |- * by (assumption || lia).
      rewrite (leval_agree _ ρ); [assumption|]. intros j Hj. apply sv_agree. intros _. apply extend_other.
      intros Hin. apply elem_of_list_fmap in Hin. destruct Hin as (s & -> & Hs).
      destruct (SS s Hs) as ((_ & Hnf & _) & _). apply Hnf, HF. assumption.
    + apply Forall_forall. intros s Hs. destruct (SS s Hs) as ((_ & Hnf & _) & Hk). unfold sub_holds.
      assert (Hs0 : s_from s <> 0%nat) by (intros HH; rewrite HH in Hnf; contradiction).
      transitivity (extend ρ (out_substitutions out) (s_from s)); [destruct (s_from s); [contradiction|reflexivity]|].
      rewrite extend_in by (try rewrite <- R; assumption).
      rewrite (leval_agree ρ (extend ρ (out_substitutions out))); [reflexivity|].
      intros j Hj. apply sv_agree. intros _. symmetry. apply extend_other. rewrite <- R. apply Hk. assumption.
  - intros ρ1 ρ2 H1 H2 Ha k. apply EQ in H1, H2. destruct H1 as [_ H1], H2 as [_ H2].
    pose proof (proj1 (Forall_forall _ _) H1) as H1b; pose proof (proj1 (Forall_forall _ _) H2) as H2b; clear H1 H2; rename H1b into H1; rename H2b into H2.
    destruct (decide (k ∈ out_removed out)) as [Hk|Hk]; [|rewrite Ha by assumption; reflexivity].
    rewrite R in Hk. apply elem_of_list_fmap in Hk. destruct Hk as (s & -> & Hs).
    destruct (SS s Hs) as ((_ & Hnf & _) & Hk).
    assert (Hs0 : s_from s <> 0%nat) by (intros HH; rewrite HH in Hnf; contradiction).
    specialize (H1 s Hs). specialize (H2 s Hs). unfold sub_holds in H1, H2.
    assert (Hsv : forall ρ, sv ρ (s_from s) = ρ (s_from s)) by (intros; destruct (s_from s); [contradiction|reflexivity]).
    rewrite Hsv in H1, H2. rewrite H1, H2. rewrite (leval_agree ρ1 ρ2); [reflexivity|].
    intros j Hj. apply sv_agree. intros _. apply Ha, Hk. assumption.
Qed.
Print Assumptions C13_solutions_determined_by_remaining_signals.

(** C14: the shape of the output.  Eliminated signals are pairwise different, none is protected
    and each occurs in the input; no right-hand side and no remaining constraint mentions an
    eliminated signal (or a signal foreign to the input); remaining constraints are linear and
    mention protected signals only; coefficients are canonical field elements. *)
Theorem C14_output_is_solved_form :
  forall p cs forb use_old ord ord2 fuel out,
  prime p -> Forall (lin_ok p) cs -> 0%nat ∈ forb ->
  (forall n m, valid_order (ord n m)) -> (forall n, valid_order (ord2 n)) -> enough_steps cs fuel ->
  full_simplification fuel ord ord2 forb use_old p cs = Ok out ->
  out_removed out = s_from <$> out_substitutions out /\
  NoDup (out_removed out) /\
  (forall k, k ∈ out_removed out -> k <> 0%nat /\ k ∉ forb /\ exists c, c ∈ cs /\ mentions (c_c c) k) /\
  (forall s k, s ∈ out_substitutions out -> mentions (s_to s) k ->
     k ∉ out_removed out /\ (k = 0%nat \/ exists c, c ∈ cs /\ mentions (c_c c) k)) /\
  (forall s, s ∈ out_substitutions out -> canon p (s_to s)) /\
  (forall c, c ∈ out_constraints out -> lin_ok p c /\
     forall k, mentions (c_c c) k -> k ∈ forb /\ k ∉ out_removed out /\
       (k = 0%nat \/ exists c', c' ∈ cs /\ mentions (c_c c') k)).
Proof.
  intros p cs forb use_old ord ord2 fuel out Hp HC H0 Ho Ho2 [F1 F2] E.
  destruct (full_simplification_spec p forb ord ord2 fuel use_old cs Hp H0 Ho Ho2 HC F1 F2) as (out' & E' & S).
  rewrite E in E'. injection E' as <-. destruct S as (R & N & SS & LC & _).
  pose proof (proj1 (Forall_forall _ _) SS) as SS2; pose proof (proj1 (Forall_forall _ _) LC) as LC2; clear SS LC; rename SS2 into SS; rename LC2 into LC.
  assert (RR : forall k, k ∈ out_removed out -> k <> 0%nat /\ k ∉ forb /\ exists c, c ∈ cs /\ mentions (c_c c) k).
  { intros k Hk. rewrite R in Hk. apply elem_of_list_fmap in Hk. destruct Hk as (s & -> & Hs).
    destruct (SS s Hs) as ((_ & Hnf & HU & _) & _).
    assert (s_from s <> 0%nat) by (intros HH; rewrite HH in Hnf; contradiction).
    apply sigs_in in HU. destruct HU as [|HU]; [contradiction|]. auto. }
  split; [assumption|]. split; [assumption|]. split; [assumption|]. split.
  { intros s k Hs Hk. destruct (SS s Hs) as ((_ & _ & _ & _ & _ & HU) & Hr). split; [apply Hr; assumption|].
    apply sigs_in, HU. assumption. }
  split; [intros s Hs; apply (SS s Hs)|].
  intros c Hc. destruct (LC c Hc) as (HL & HF & HU). split; [assumption|]. intros k Hk.
  split; [apply HF; assumption|]. split; [|apply sigs_in, HU; assumption].
  intros Hr. destruct (RR k Hr) as (_ & Hnf & _). apply Hnf, HF. assumption.
Qed.
Print Assumptions C14_output_is_solved_form.

(** C15: linear simplification always ends without crashing, whatever the system, the protected
    signals, the heuristic and the hash orders: there is a number of loop steps, depending on the
    system only, that is never exceeded ([Panic] is also the value of a loop that does not end). *)
Theorem C15_linear_simplification_terminates :
  forall p cs, prime p -> Forall (lin_ok p) cs ->
  exists bound, forall forb use_old ord ord2 fuel,
    0%nat ∈ forb -> (forall n m, valid_order (ord n m)) -> (forall n, valid_order (ord2 n)) ->
    (bound <= fuel)%nat ->
    exists out, full_simplification fuel ord ord2 forb use_old p cs = Ok out.
Proof.
  intros p cs Hp HC.
  exists (foldr Nat.max 0 ((fun j => S (S j)) <$> elements (sigs cs)) + 2 ^ size (sigs cs))%nat.
  intros forb use_old ord ord2 fuel H0 Ho Ho2 Hb.
  destruct (full_simplification_spec p forb ord ord2 fuel use_old cs Hp H0 Ho Ho2 HC) as (out & E & _).
  - intros j Hj. enough (S (S j) <= foldr Nat.max 0 ((fun j => S (S j)) <$> elements (sigs cs)))%nat by lia.
    clear Hb. apply elem_of_elements in Hj. induction (elements (sigs cs)) as [|x l IH]; [inversion Hj|].
    apply elem_of_cons in Hj. cbn. destruct Hj as [->|Hj]; [lia|]. specialize (IH Hj). cbn in IH. lia.
  - lia.
  - eauto.
Qed.
Print Assumptions C15_linear_simplification_terminates.

(** Concrete systems over the field with seven elements: signals 1 (protected), 2, 3, 4. *)
Definition ex_lin : list constraint :=
  [ Constraint ∅ ∅ {[ 1%nat := 1; 2%nat := 6; 3%nat := 2 ]};
    Constraint ∅ ∅ {[ 2%nat := 3; 3%nat := 1; 0%nat := 4 ]};
    Constraint ∅ ∅ {[ 4%nat := 1; 2%nat := 6 ]};
    Constraint ∅ ∅ {[ 4%nat := 1; 1%nat := 5; 3%nat := 1 ]} ].
Definition ex_ord : nat -> nat -> key_order := fun n m lin => if Nat.even (n + m) then rev (elements (dom lin)) else elements (dom lin).
Lemma ex_ord_ok : (forall n m, valid_order (ex_ord n m)) /\ (forall n, valid_order (ex_ord n n)).
Proof.
  assert (H : forall n m, valid_order (ex_ord n m)).
  { intros n m lin. unfold ex_ord. destruct (Nat.even (n + m)); [symmetry; apply Permutation_rev|reflexivity]. }
  auto.
Qed.
Lemma lin_ok_dec p c : Decision (lin_ok p c).
Proof. unfold lin_ok. apply _. Defined.
Global Existing Instance lin_ok_dec.
Example C13_C14_C15_example :
  prime 7 /\ Forall (lin_ok 7) ex_lin /\ enough_steps ex_lin 32 /\
  exists out, full_simplification 32 ex_ord (fun n => ex_ord n n) {[ 0%nat; 1%nat ]} false 7 ex_lin = Ok out /\
    length (out_removed out) = 3%nat /\ length (out_constraints out) = 1%nat.
Proof.
  split; [exact prime_7|]. split; [decide_now|]. split.
  - split; [|assert (E : size (sigs ex_lin) = 5%nat) by (vm_compute; reflexivity); rewrite E; cbn; lia].
    intros j Hj. assert (HF : Forall (fun j => S j < 32)%nat (elements (sigs ex_lin))) by decide_now.
    apply (proj1 (Forall_forall _ _) HF). apply elem_of_elements. assumption.
  - eexists. split; [vm_compute; reflexivity|]. vm_compute. auto.
Qed.
(** 356 constraints: the second heuristic *)
Definition ex_lin_big : list constraint := ex_lin ++ concat (repeat ex_lin 88).
Example C13_C14_C15_example_heuristic_4 :
  use_heuristic_4 (length ex_lin_big) false = true /\
  Forall (lin_ok 7) ex_lin_big /\ enough_steps ex_lin_big 32 /\
  exists out, full_simplification 32 ex_ord (fun n => ex_ord n n) {[ 0%nat; 1%nat ]} false 7 ex_lin_big = Ok out /\
    length (out_removed out) = 3%nat /\ length (out_constraints out) = 89%nat.
Proof.
  split; [vm_compute; reflexivity|]. split; [decide_now|]. split.
  - split; [|assert (E : size (sigs ex_lin_big) = 5%nat) by (vm_compute; reflexivity); rewrite E; cbn; lia].
    intros j Hj. assert (HF : Forall (fun j => S j < 32)%nat (elements (sigs ex_lin_big))) by decide_now.
    apply (proj1 (Forall_forall _ _) HF). apply elem_of_elements. assumption.
  - eexists. split; [vm_compute; reflexivity|]. vm_compute. auto.
Qed.
