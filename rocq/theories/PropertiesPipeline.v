(** C17-C22: the simplification of a whole constraint system. *)
From stdpp Require Import prelude gmap fin_maps sorting.
From Coq Require Import ZArith Lia Znumtheory.
From Verif Require Import ModArithModel ModArithProofs AlgebraModel AlgebraSpec AlgebraProofs LinearSimpModel LinearSpec LinearSimpProofs
  ClusterModel ClusterSpec PipelineModel PipelineSpec EqSimpProofs RewriteProofs PipelineProofs ScheduleProofs PropertiesAlgebra PropertiesLinear.
Open Scope Z_scope.

(** C17: signal equalities.  For every list of constraints recognised as [x = y], every protected
    set and every schedule and hash order: the run succeeds; an assignment satisfies the equalities
    exactly when it satisfies the retained constraints and the renamings; each signal is renamed at
    most once, never a protected one, always to a single signal that is not renamed itself and that
    is protected or has a smaller number; retained constraints mention protected signals only. *)
Theorem C17_equality_simplification_equivalent :
  forall p forb o eqs no_vars,
  prime p -> valid_oracle o ->
  Forall (fun c => canon_c p c /\ nonzero_c c /\ is_equality c p = true) eqs ->
  (forall k, occurs k eqs -> (k < no_vars)%nat) ->
  exists subs kept, eq_simplification o eqs forb no_vars p = Ok (subs, kept) /\
    (forall ρ, satisfies p ρ eqs <-> satisfies p ρ kept /\ Forall (sub_holds p ρ) subs) /\
    NoDup (eliminated subs) /\
    (forall s, s ∈ subs -> s_from s ∉ forb /\ occurs (s_from s) eqs /\
       exists y, s_to s = {[ y := 1 ]} /\ occurs y eqs /\ y ∉ eliminated subs /\ (y ∈ forb \/ (y < s_from s)%nat)) /\
    (forall c k, c ∈ kept -> in_c k c -> k ∈ forb).
Proof.
  intros p forb o eqs no_vars Hp Ho HE HV.
  destruct (eq_simplification_spec p forb o eqs no_vars Hp Ho) as (subs & kept & E & [PE PN PS PR] & PY).
  { eapply Forall_impl; [exact HE|]. intros c (A & B & C). split_and!; assumption. }
  { assumption. }
  exists subs, kept. split; [assumption|]. split; [assumption|]. split; [assumption|]. split.
  - intros s Hs. destruct (PS s Hs) as (A & B & C & D & K). split; [assumption|]. split; [assumption|].
    destruct (PY s Hs) as (y & Ey & sg & S1 & [R1 R2] & R3). exists y. split; [rewrite Ey; reflexivity|]. split; [apply R3; assumption|].
    assert (Hy : y <> 0%nat) by (destruct (R3 y R1) as (c & _ & Q); eapply in_c_nz; exact Q).
    assert (Hn : y ∉ eliminated subs).
    { destruct (K y) as [|[_ Q]]; [rewrite Ey; cbn [s_to]; rewrite lookup_singleton; eauto|contradiction|exact Q]. }
    split; [assumption|]. destruct R2 as [[R _]|[R R']]; [auto|]. right. specialize (R' _ S1).
    assert (y <> s_from s); [|lia]. intros ->. apply Hn. apply elem_of_list_fmap. eauto.
  - intros c k Hc Hk. destruct (PR c Hc) as [_ Q]. apply Q. assumption.
Qed.
Print Assumptions C17_equality_simplification_equivalent.

(** C18: signal = constant.  Read as equations, the constants produced and the constraints retained
    are equivalent to the input, for every input.  Only protected signals stay in retained
    constraints and every other signal of the input gets a constant. *)
Theorem C18_constant_equations_equivalent :
  forall p forb cs,
  prime p -> Forall (fun c => canon_c p c /\ nonzero_c c /\ is_constant_equality c = true) cs ->
  exists subs kept, constant_eq_simplification cs forb p = Ok (subs, kept) /\
    (forall ρ, satisfies p ρ cs <-> satisfies p ρ kept /\ Forall (sub_holds p ρ) subs) /\
    (forall s, s ∈ subs -> s_from s ∉ forb /\ occurs (s_from s) cs /\ forall j, mentions (s_to s) j -> j = 0%nat) /\
    (forall c, c ∈ kept -> c ∈ cs /\ forall k, in_c k c -> k ∈ forb) /\
    (forall k, occurs k cs -> k ∉ forb -> k ∈ eliminated subs).
Proof.
  intros p forb cs Hp HC. assert (HC' : Forall (const_ok p) cs).
  { eapply Forall_impl; [exact HC|]. intros c (A & B & C). apply is_constant_equality_spec; assumption. }
  destruct (constant_eq_spec p forb cs Hp HC') as (subs & kept & E & A & B & C & D).
  exists subs, kept. split; [assumption|]. split; [assumption|]. split; [|split].
  - intros s Hs. destruct (B s Hs) as (_ & B1 & B2 & _ & _ & B3). auto.
  - intros c Hc. destruct (C c Hc) as (_ & C1 & C2). auto.
  - intros k (c & Hc & Hk) Hf. eapply D; eassumption.
Qed.
Print Assumptions C18_constant_equations_equivalent.

(** C18, with the table the later rewriting uses (one expression per signal): it is equivalent to
    the input when the input has a solution at all. *)
Theorem C18_constant_table_equivalent_when_consistent :
  forall p forb cs subs kept,
  prime p -> Forall (fun c => canon_c p c /\ nonzero_c c /\ is_constant_equality c = true) cs ->
  constant_eq_simplification cs forb p = Ok (subs, kept) ->
  (exists ρ, satisfies p ρ cs) ->
  forall ρ, satisfies p ρ cs <->
    satisfies p ρ kept /\ forall k e, build_encoded subs !! k = Some e -> exists v, aval ρ e = Some v /\ ρ k =[p]= v.
Proof.
  intros p forb cs subs kept Hp HC E [ρ0 H0]. assert (HC' : Forall (const_ok p) cs).
  { eapply Forall_impl; [exact HC|]. intros c (A & B & C). apply is_constant_equality_spec; assumption. }
  destruct (constant_eq_spec p forb cs Hp HC') as (subs' & kept' & E' & A & B & C & D).
  rewrite E in E'. injection E' as <- <-. apply A in H0. destruct H0 as [_ H0].
  pose proof (const_subs_functional p cs forb subs ρ0 Hp B H0) as HF.
  assert (Hsv : forall ρ k, k ∈ froms subs -> sv ρ k = ρ k).
  { intros ρ k Hk. apply elem_of_list_fmap in Hk. destruct Hk as (s & -> & Hs). destruct (B s Hs) as [Q _]. destruct (s_from s); [contradiction|reflexivity]. }
  intros ρ. unfold satisfies. rewrite (A ρ). split.
  - intros [H1 H2]. split; [assumption|]. intros k e He. apply (build_encoded_holds p ρ) in H2. destruct (H2 k e He) as (v & V1 & V2).
    exists v. split; [assumption|]. rewrite Hsv in V2; [assumption|]. apply build_encoded_dom. eauto.
  - intros [H1 H2]. split; [assumption|]. apply Forall_forall. intros s Hs.
    assert (Hd : s_from s ∈ froms subs) by (apply elem_of_list_fmap; eauto).
    pose proof Hd as Hd'. apply build_encoded_dom in Hd'. destruct Hd' as [e He]. destruct (H2 _ _ He) as (v & V1 & V2).
    destruct (build_encoded_lookup _ _ _ He) as (t & Ht & Ef & ->). rewrite (HF t s Ht Hs Ef) in V1.
    destruct (hashmap_into_arith_spec (s_to s)) as (_ & _ & HV & _). rewrite HV in V1. injection V1 as <-.
    unfold sub_holds. rewrite Hsv by assumption. exact V2.
Qed.
Print Assumptions C18_constant_table_equivalent_when_consistent.

(** Examples: hash orders that differ from use to use, and arrivals in reverse. *)
Definition ex_oracle : oracle := Oracle
  (fun n m X => if Nat.even (n + m) then elements X else rev (elements X)) (fun n X => if Nat.even n then rev (elements X) else elements X)
  (fun n l => if Nat.even n then rev l else l) (fun n m X => if Nat.even (n + m) then elements X else rev (elements X))
  (fun a b c d => ex_ord (a + b) (c + d)) (fun a b c => ex_ord (a + b) c) (fun a b l => rev l).
Lemma ex_oracle_ok : valid_oracle ex_oracle.
Proof.
  split; cbn; intros; try (intros X); try (destruct (Nat.even _)); try reflexivity; try (symmetry; apply Permutation_rev); apply (proj1 ex_ord_ok).
Qed.
(** Seven elements; protected: 0, 1 (output), 2 (public input); 3 private input; 4-9 intermediate.
    4 = 2, 5 = 4, 7 = 6; 8 = 3; linear: 9 = 4 + 3 + 1; products 6*8 = 1 and 9*4 = 7. *)
Definition ex_sm : simplifier :=
  {| sm_field := 7; sm_non_linear := [ Constraint {[ 6%nat := 1 ]} {[ 8%nat := 1 ]} {[ 1%nat := 1 ]};
                                        Constraint {[ 9%nat := 1 ]} {[ 4%nat := 1 ]} {[ 7%nat := 1 ]};
                                        Constraint {[ 8%nat := 2; 0%nat := 1 ]} {[ 5%nat := 1 ]} {[ 10%nat := 1 ]} ];
     sm_no_public_inputs := 1; sm_no_public_outputs := 1; sm_no_private_inputs := 1; sm_forbidden := {[ 0%nat; 1%nat; 2%nat ]};
     sm_cons_equalities := [ Constraint ∅ ∅ {[ 8%nat := 1; 0%nat := 4 ]} ];
     sm_equalities := [ Constraint ∅ ∅ {[ 4%nat := 1; 2%nat := 6 ]}; Constraint ∅ ∅ {[ 5%nat := 1; 4%nat := 6 ]}; Constraint ∅ ∅ {[ 7%nat := 6; 6%nat := 1 ]} ];
     sm_linear := [ Constraint ∅ ∅ {[ 9%nat := 6; 4%nat := 1; 3%nat := 1; 0%nat := 1 ]} ];
     sm_max_signal := 11; sm_no_rounds := 10; sm_flag_s := false; sm_flag_old_heuristics := false |}.
Lemma canon_c_dec p c : Decision (canon_c p c). Proof. unfold canon_c, canon. apply _. Defined.
Lemma nonzero_c_dec c : Decision (nonzero_c c). Proof. unfold nonzero_c, nonzero. apply _. Defined.
Global Existing Instance canon_c_dec.
Global Existing Instance nonzero_c_dec.
Lemma occurs_bound cs n : Forall (fun c => Forall (fun s => s < n)%nat (elements (take_signals c))) cs -> forall k, occurs k cs -> (k < n)%nat.
Proof.
  intros H k (c & Hc & Hk). apply in_take_signals in Hk. pose proof (proj1 (Forall_forall _ _) H c Hc) as H'.
  apply (proj1 (Forall_forall _ _) H'). apply elem_of_elements. assumption.
Qed.
Lemma ex_sm_ok : simplifier_ok ex_sm.
Proof.
  split.
  - exact prime_7.
  - decide_now.
  - decide_now.
  - decide_now.
  - decide_now.
  - decide_now.
  - apply occurs_bound. decide_now.
  - cbn. intros k Hk. assert (k = 2%nat) as -> by lia. decide_now.
Qed.
Example C17_example : exists subs kept,
  eq_simplification ex_oracle (sm_equalities ex_sm) {[ 0%nat; 1%nat; 2%nat; 6%nat; 7%nat ]} 11 7 = Ok (subs, kept) /\
  length subs = 2%nat /\ length kept = 1%nat.
Proof. eexists _, _. split; [vm_compute; reflexivity|]. auto. Qed.
Example C18_example : exists subs kept ρ,
  constant_eq_simplification (sm_cons_equalities ex_sm) (sm_forbidden ex_sm) 7 = Ok (subs, kept) /\ length subs = 1%nat /\
  satisfies 7 ρ (sm_cons_equalities ex_sm).
Proof.
  eexists _, _, (fun _ => 3). split; [vm_compute; reflexivity|]. split; [reflexivity|]. constructor; [|constructor]. vm_compute. reflexivity.
Qed.

(** C18 fails without that condition, and so does C19: signal 1 is set to 1 and to 2.  No assignment
    satisfies the circuit; the simplified circuit is satisfied by every assignment. *)
Definition ex_conflict : simplifier :=
  {| sm_field := 7; sm_non_linear := []; sm_no_public_inputs := 0; sm_no_public_outputs := 0; sm_no_private_inputs := 1; sm_forbidden := {[ 0%nat ]};
     sm_cons_equalities := [ Constraint ∅ ∅ {[ 1%nat := 1; 0%nat := 6 ]}; Constraint ∅ ∅ {[ 1%nat := 1; 0%nat := 5 ]} ];
     sm_equalities := []; sm_linear := []; sm_max_signal := 2; sm_no_rounds := 10; sm_flag_s := false; sm_flag_old_heuristics := false |}.
Theorem C18_conflicting_constants_survive_refuted :
  exists sm o fuel r, simplifier_ok sm /\ valid_oracle o /\ enough (sm_max_signal sm) fuel /\ simplification fuel o sm = Ok r /\
    (forall ρ, ~ satisfies (sm_field sm) ρ (original sm)) /\ (forall ρ, satisfies (sm_field sm) ρ (r_constraints r)).
Proof.
  exists ex_conflict, ex_oracle, 10%nat. eexists. split; [|split; [exact ex_oracle_ok|split; [unfold enough; cbn; lia|split; [vm_compute; reflexivity|split]]]].
  - split.
    + exact prime_7.
    + decide_now.
    + decide_now.
    + decide_now.
    + decide_now.
    + decide_now.
    + apply occurs_bound. decide_now.
    + cbn. intros k Hk. lia.
  - intros ρ H. unfold satisfies, original in H. cbn in H. rewrite !Forall_cons in H. destruct H as (H1 & H2 & _).
    unfold holds, cong, leval in H1, H2. cbn [c_a c_b c_c] in H1, H2.
    assert (E1 : map_to_list ({[1%nat := 1; 0%nat := 6]} : lin) ≡ₚ [(1%nat, 1); (0%nat, 6)]) by (vm_compute; repeat constructor).
    assert (E2 : map_to_list ({[1%nat := 1; 0%nat := 5]} : lin) ≡ₚ [(1%nat, 1); (0%nat, 5)]) by (vm_compute; repeat constructor).
    change (0 * 0 - lsum ρ (map_to_list ({[1%nat := 1; 0%nat := 6]} : lin)) =[7]= 0) in H1.
    change (0 * 0 - lsum ρ (map_to_list ({[1%nat := 1; 0%nat := 5]} : lin)) =[7]= 0) in H2.
    rewrite (lsum_perm _ _ _ E1) in H1. rewrite (lsum_perm _ _ _ E2) in H2. cbn in H1, H2.
    apply cong_iff_div in H1, H2; [|lia|lia]. destruct H1 as [a H1], H2 as [b H2]. lia.
  - intros ρ. constructor.
Qed.
Print Assumptions C18_conflicting_constants_survive_refuted.

(** C19: for every constraint system handed over by the compiler, every schedule and hash order and
    every setting of the flags, the simplification succeeds, and an assignment satisfies the
    original system exactly when it satisfies the simplified one and the substitutions made. *)
Theorem C19_simplification_equivalent :
  forall fuel o sm, simplifier_ok sm -> valid_oracle o -> enough (sm_max_signal sm) fuel ->
  exists r, simplification fuel o sm = Ok r /\
    (forall ρ, satisfies (sm_field sm) ρ (original sm) <->
       satisfies (sm_field sm) ρ (r_constraints r) /\ Forall (sub_holds (sm_field sm) ρ) (r_log r)) /\
    (forall c, c ∈ r_constraints r -> canon_c (sm_field sm) c /\ c <> c_empty) /\
    (forall k, occurs k (r_constraints r) -> k ∉ eliminated (r_log r) /\ is_Some (r_map r !! k)).
Proof.
  intros fuel o sm H1 H2 H3. destruct (simplification_spec fuel o sm H1 H2 H3) as (r & E & R). exists r.
  split; [assumption|]. split; [apply R|]. split; [|apply R]. intros c Hc. destruct (ro_good _ _ R c Hc) as [[A _] B]. auto.
Qed.
Print Assumptions C19_simplification_equivalent.

(** C19, the witnesses: when the equalities and constants are not contradictory by themselves (C18),
    every solution of the simplified system can be completed on the eliminated signals, leaving the
    other signals alone, to a solution of the original one; and two solutions of the original that
    agree on the signals not eliminated agree on all. *)
Theorem C19_solutions_extend_uniquely :
  forall fuel o sm r, simplifier_ok sm -> valid_oracle o -> enough (sm_max_signal sm) fuel ->
  simplification fuel o sm = Ok r ->
  (exists ρ, satisfies (sm_field sm) ρ (sm_equalities sm ++ sm_cons_equalities sm)) ->
  (forall ρ, satisfies (sm_field sm) ρ (r_constraints r) ->
     exists ρ', (forall k, k ∉ eliminated (r_log r) -> ρ' k = ρ k) /\ satisfies (sm_field sm) ρ' (original sm)) /\
  (forall ρ1 ρ2, satisfies (sm_field sm) ρ1 (original sm) -> satisfies (sm_field sm) ρ2 (original sm) ->
     (forall k, k <> 0%nat -> k ∉ eliminated (r_log r) -> ρ1 k =[sm_field sm]= ρ2 k) ->
     forall k, k <> 0%nat -> ρ1 k =[sm_field sm]= ρ2 k).
Proof.
  intros fuel o sm r H1 H2 H3 E HG. destruct (simplification_spec fuel o sm H1 H2 H3) as (r' & E' & R).
  rewrite E in E'. injection E' as <-. split.
  - intros ρ Hρ. exists (solve (r_log r) ρ). split; [intros k Hk; apply solve_other; assumption|].
    apply (ro_equiv _ _ R). split.
    + apply Forall_forall. intros c Hc. pose proof (proj1 (Forall_forall _ _) Hρ c Hc) as Hh. unfold holds in *.
      assert (Q : forall m, (forall k, in_lin k m -> in_c k c) -> leval (solve (r_log r) ρ) m =[sm_field sm]= leval ρ m).
      { intros m Hm. apply leval_cong. intros j Hj. destruct j as [|j]; [reflexivity|]. cbn [sv]. rewrite solve_other; [reflexivity|].
        apply (ro_used _ _ R). exists c. split; [assumption|]. apply Hm. split; [discriminate|assumption]. }
      pose proof (Q (c_a c)) as QA. pose proof (Q (c_b c)) as QB. pose proof (Q (c_c c)) as QC.
      rewrite QA, QB, QC by (intros k Hk; unfold in_c; auto). assumption.
    + apply solve_holds; [apply R|apply (ro_fun _ _ R HG)|]. intros s Hs. apply (ro_froms _ _ R s Hs).
  - intros ρ1 ρ2 S1 S2 Ha. apply (ro_equiv _ _ R) in S1, S2. destruct S1 as [_ S1], S2 as [_ S2].
    eapply solve_unique; [exact S1|exact S2|apply R|exact Ha].
Qed.
Print Assumptions C19_solutions_extend_uniquely.

(** C19 in terms of satisfiability: nothing is gained or lost. *)
Theorem C19_satisfiability_preserved :
  forall fuel o sm r, simplifier_ok sm -> valid_oracle o -> enough (sm_max_signal sm) fuel ->
  simplification fuel o sm = Ok r ->
  (exists ρ, satisfies (sm_field sm) ρ (sm_equalities sm ++ sm_cons_equalities sm)) ->
  forall public : nat -> Z,
  (exists ρ, (forall k, k ∈ sm_forbidden sm -> ρ k = public k) /\ satisfies (sm_field sm) ρ (original sm)) <->
  (exists ρ, (forall k, k ∈ sm_forbidden sm -> ρ k = public k) /\ satisfies (sm_field sm) ρ (r_constraints r)).
Proof.
  intros fuel o sm r H1 H2 H3 E HG public. destruct (C19_solutions_extend_uniquely fuel o sm r H1 H2 H3 E HG) as [X _].
  destruct (simplification_spec fuel o sm H1 H2 H3) as (r' & E' & R). rewrite E in E'. injection E' as <-. split; intros (ρ & P & S).
  - exists ρ. split; [assumption|]. apply (ro_equiv _ _ R) in S. tauto.
  - destruct (X ρ S) as (ρ' & A & B). exists ρ'. split; [|assumption]. intros k Hk. rewrite A; [apply P; assumption|].
    intros Q. apply elem_of_list_fmap in Q. destruct Q as (s & -> & Hs). apply (ro_froms _ _ R) in Hs. tauto.
Qed.
Print Assumptions C19_satisfiability_preserved.

Lemma enough_pow n k : (n <= k)%nat -> enough n (2 ^ S k + 2).
Proof. intros H. unfold enough. pose proof (Nat.pow_le_mono_r 2 (S n) (S k)). lia. Qed.
Example C19_example : simplifier_ok ex_sm /\ valid_oracle ex_oracle /\ enough (sm_max_signal ex_sm) (2 ^ 12 + 2) /\
  (exists ρ, satisfies 7 ρ (sm_equalities ex_sm ++ sm_cons_equalities ex_sm)) /\
  exists r, simplification (2 ^ 12 + 2) ex_oracle ex_sm = Ok r /\ length (r_constraints r) = 1%nat /\ length (r_log r) = 7%nat /\
    r_map r = {[ 0%nat := 0%nat; 1%nat := 1%nat; 2%nat := 2%nat; 3%nat := 3%nat ]}.
Proof.
  split; [exact ex_sm_ok|]. split; [exact ex_oracle_ok|]. split; [apply enough_pow; cbn; lia|]. split.
  - exists (fun _ => 3). repeat (constructor; [vm_compute; reflexivity|]). constructor.
  - eexists. split; [vm_compute; reflexivity|]. split; [reflexivity|]. split; [reflexivity|]. decide_now.
Qed.

(** C20: two runs with the same hash orders whose worker threads answer in any two orders.  The
    equality phase keeps the same constraints and produces the same renamings, hence the same table
    for the rewriting. *)
Theorem C20_equality_phase_any_arrival :
  forall p forb o o' eqs no_vars,
  prime p -> valid_oracle o -> valid_oracle o' -> same_hashing o o' ->
  Forall (fun c => canon_c p c /\ nonzero_c c /\ is_equality c p = true) eqs -> (forall k, occurs k eqs -> (k < no_vars)%nat) ->
  exists subs subs' kept, eq_simplification o eqs forb no_vars p = Ok (subs, kept) /\ eq_simplification o' eqs forb no_vars p = Ok (subs', kept) /\
    subs ≡ₚ subs' /\ build_encoded subs = build_encoded subs'.
Proof.
  intros p forb o o' eqs no_vars Hp Ho Ho' HH HE HV.
  destruct (eq_simplification_spec p forb o eqs no_vars Hp Ho) as (subs & kept & E & [_ PN _ _] & _).
  { eapply Forall_impl; [exact HE|]. intros c (A & B & C). split_and!; assumption. }
  { assumption. }
  destruct (eq_arrival _ _ _ _ _ _ _ _ Ho Ho' HH E) as (subs' & E' & HP). exists subs, subs', kept.
  split; [assumption|]. split; [assumption|]. split; [symmetry; assumption|]. apply build_encoded_perm; [symmetry; assumption|assumption].
Qed.
Print Assumptions C20_equality_phase_any_arrival.

(** C20, the linear phase: the same constraints up to order, the same substitutions up to order,
    the same table, and applying the substitutions one after the other gives the same constraint. *)
Theorem C20_linear_phase_any_arrival :
  forall p forb fuel o o' ph linear no_labels use_old,
  prime p -> 0%nat ∈ forb -> valid_oracle o -> valid_oracle o' -> same_hashing o o' ->
  Forall (lin_ok p) linear -> (forall k, occurs k linear -> (k < no_labels)%nat) -> enough no_labels fuel ->
  exists subs subs' kept kept', linear_simplification fuel o ph linear forb no_labels p use_old = Ok (subs, kept) /\
    linear_simplification fuel o' ph linear forb no_labels p use_old = Ok (subs', kept') /\
    subs ≡ₚ subs' /\ kept ≡ₚ kept' /\ build_encoded subs = build_encoded subs' /\
    forall c, foldl (fun c s => c_subst c s p) c subs = foldl (fun c s => c_subst c s p) c subs'.
Proof.
  intros p forb fuel o o' ph linear no_labels use_old Hp H0 Ho Ho' HH HL HV HF.
  destruct (linear_simplification_spec p forb o ph fuel linear no_labels use_old Hp H0 Ho HL HV HF) as (subs & kept & E & PO & _).
  destruct (linear_arrival _ _ _ _ _ _ _ _ _ _ _ Ho Ho' HH E) as (subs' & kept' & E' & HP & HK).
  exists subs, subs', kept, kept'. split; [assumption|]. split; [assumption|]. split; [symmetry; assumption|]. split; [symmetry; assumption|].
  split; [apply build_encoded_perm; [symmetry; assumption|apply PO]|]. intros c. apply foldl_c_subst_perm.
  - pose proof (prime_ge_2 p Hp). lia.
  - symmetry. assumption.
  - eapply part_ok_solved. exact PO.
Qed.
Print Assumptions C20_linear_phase_any_arrival.

(** C20, the whole run without linear elimination (--O1): identical output, the log up to order. *)
Theorem C20_whole_run_any_arrival_no_linear :
  forall fuel o o' sm, simplifier_ok sm -> valid_oracle o -> valid_oracle o' -> same_hashing o o' -> enough (sm_max_signal sm) fuel ->
  sm_flag_s sm = true ->
  exists r r', simplification fuel o sm = Ok r /\ simplification fuel o' sm = Ok r' /\
    r_constraints r' = r_constraints r /\ r_map r' = r_map r /\ r_no_private r' = r_no_private r /\ r_deleted r' = r_deleted r /\ r_log r' ≡ₚ r_log r.
Proof.
  intros fuel o o' sm H1 H2 H2' HH H3 Hs. destruct (simplification_spec fuel o sm H1 H2 H3) as (r & E & _).
  destruct (simplification_schedule fuel o o' sm r H1 H2 H2' HH Hs E) as (r' & E' & Q). exists r, r'. auto.
Qed.
Print Assumptions C20_whole_run_any_arrival_no_linear.

(** C20, the whole run with any flags, and even any hash orders: the outputs with their
    substitutions have the same solutions. *)
Theorem C20_whole_run_same_solutions :
  forall fuel o o' sm r r', simplifier_ok sm -> valid_oracle o -> valid_oracle o' -> enough (sm_max_signal sm) fuel ->
  simplification fuel o sm = Ok r -> simplification fuel o' sm = Ok r' ->
  forall ρ, satisfies (sm_field sm) ρ (r_constraints r) /\ Forall (sub_holds (sm_field sm) ρ) (r_log r) <->
            satisfies (sm_field sm) ρ (r_constraints r') /\ Forall (sub_holds (sm_field sm) ρ) (r_log r').
Proof.
  intros fuel o o' sm r r' H1 H2 H2' H3 E E' ρ.
  destruct (simplification_spec fuel o sm H1 H2 H3) as (r0 & E0 & R). destruct (simplification_spec fuel o' sm H1 H2' H3) as (r0' & E0' & R').
  rewrite E in E0. injection E0 as <-. rewrite E' in E0'. injection E0' as <-.
  rewrite <- (ro_equiv _ _ R), <- (ro_equiv _ _ R'). reflexivity.
Qed.
Print Assumptions C20_whole_run_same_solutions.

Definition ex_oracle2 : oracle := Oracle (o_cluster ex_oracle) (o_remove ex_oracle) (fun _ l => l) (o_fast ex_oracle) (o_lin ex_oracle) (o_lin2 ex_oracle) (o_subs ex_oracle).
Example C20_example : same_hashing ex_oracle ex_oracle2 /\ valid_oracle ex_oracle2 /\
  exists a b, linear_simplification (2 ^ 12 + 2) ex_oracle 2 (ex_lin ++ sm_equalities ex_sm) {[ 0%nat ]} 11 7 false = Ok a /\
    linear_simplification (2 ^ 12 + 2) ex_oracle2 2 (ex_lin ++ sm_equalities ex_sm) {[ 0%nat ]} 11 7 false = Ok b /\ a <> b.
Proof.
  split; [split_and!; reflexivity|]. split.
  - destruct ex_oracle_ok. split; try assumption. intros; reflexivity.
  - eexists _, _. split; [vm_compute; reflexivity|]. split; [vm_compute; reflexivity|]. vm_compute. discriminate.
Qed.

(** C21: the renumbering of signals, for every number of signals and every set of deleted,
    protected and used ones: defined exactly on the signals that stay, strictly increasing, and
    onto 0..n-1 for n the number of signals that stay. *)
Theorem C21_renumbering_is_compact_and_increasing :
  forall n deleted forb used,
  let m := w_map (rebuild_witness n deleted forb used true) in
  (forall k, is_Some (m !! k) <-> (k < n)%nat /\ k ∉ deleted /\ (k ∈ forb \/ k ∈ used)) /\
  (forall k k' v v', m !! k = Some v -> m !! k' = Some v' -> ((k < k')%nat <-> (v < v')%nat)) /\
  (forall v, (v < size m)%nat <-> exists k, m !! k = Some v).
Proof.
  intros n deleted forb used m. destruct (rebuild_witness_spec deleted forb used n _ eq_refl) as (_ & _ & WM). fold m in WM.
  apply (renumber_facts deleted forb used n m WM).
Qed.
Print Assumptions C21_renumbering_is_compact_and_increasing.

(** C21, on the simplification's result: besides, the constant one has position 0 and, if the
    signals 0..f are all protected (the constant, the outputs and the public inputs of main), they
    keep their numbers. *)
Theorem C21_witness_positions_of_the_result :
  forall fuel o sm r, simplifier_ok sm -> valid_oracle o -> enough (sm_max_signal sm) fuel ->
  simplification fuel o sm = Ok r ->
  (forall k k' v v', r_map r !! k = Some v -> r_map r !! k' = Some v' -> ((k < k')%nat <-> (v < v')%nat)) /\
  (forall v, (v < size (r_map r))%nat <-> exists k, r_map r !! k = Some v) /\
  (forall f, (f < sm_max_signal sm)%nat -> (forall k, (k <= f)%nat -> k ∈ sm_forbidden sm) -> forall k, (k <= f)%nat -> r_map r !! k = Some k).
Proof.
  intros fuel o sm r H1 H2 H3 E. destruct (simplification_spec fuel o sm H1 H2 H3) as (r' & E' & R). rewrite E in E'. injection E' as <-.
  destruct (ro_map _ _ R) as (deleted & used & HD & WM).
  destruct (renumber_facts deleted (sm_forbidden sm) used (sm_max_signal sm) (r_map r) WM) as (_ & A & B).
  split; [assumption|]. split; [assumption|]. intros f Hf Hp k Hk. apply WM.
  assert (Hkeep : forall j, (j <= f)%nat -> keeps deleted (sm_forbidden sm) used j).
  { intros j Hj. split; [|left; apply Hp; assumption]. intros Q. apply HD in Q. apply elem_of_list_fmap in Q. destruct Q as (s & -> & Hs).
    apply (ro_froms _ _ R) in Hs. destruct Hs as (_ & Q & _). apply Q, Hp, Hj. }
  split; [split; [apply Hkeep; assumption|lia]|]. symmetry. clear -Hkeep Hk. induction k as [|k IH]; [reflexivity|].
  rewrite kept_upto_S, decide_True by (apply Hkeep; lia). rewrite app_length, IH by lia. cbn. lia.
Qed.
Print Assumptions C21_witness_positions_of_the_result.

Example C21_example :
  w_map (rebuild_witness 8 {[ 2%nat; 5%nat ]} {[ 0%nat; 1%nat ]} {[ 3%nat; 7%nat; 5%nat ]} true) = {[ 0%nat := 0%nat; 1%nat := 1%nat; 3%nat := 2%nat; 7%nat := 3%nat ]}.
Proof. decide_now. Qed.

(** C22: a protected signal always keeps a witness position and is never substituted.  (That the
    outputs and public inputs of main and the signals of custom gates are protected is the other
    half, see PropertiesDag.) *)
Theorem C22_protected_signals_keep_a_position :
  forall fuel o sm r, simplifier_ok sm -> valid_oracle o -> enough (sm_max_signal sm) fuel ->
  simplification fuel o sm = Ok r ->
  forall k, k ∈ sm_forbidden sm -> (k < sm_max_signal sm)%nat -> is_Some (r_map r !! k) /\ k ∉ eliminated (r_log r) /\ k ∉ r_deleted r.
Proof.
  intros fuel o sm r H1 H2 H3 E k Hk Hn. destruct (simplification_spec fuel o sm H1 H2 H3) as (r' & E' & R). rewrite E in E'. injection E' as <-.
  assert (Hf : k ∉ froms (r_log r)).
  { intros Q. apply elem_of_list_fmap in Q. destruct Q as (s & -> & Hs). apply (ro_froms _ _ R) in Hs. tauto. }
  destruct (ro_map _ _ R) as (deleted & used & HD & WM).
  assert (Hm : is_Some (r_map r !! k)).
  { eexists. apply WM. split; [|reflexivity]. split; [|assumption]. split; [rewrite HD; assumption|auto]. }
  split; [assumption|]. split; [assumption|]. rewrite (ro_deleted _ _ R). intros [Q|[_ Q]]; [contradiction|]. rewrite Q in Hm. destruct Hm. discriminate.
Qed.
Print Assumptions C22_protected_signals_keep_a_position.
