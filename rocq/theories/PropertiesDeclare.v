(** C73: accepted templates declare each signal and component at most once, and accepted custom templates make no
    constraints and no components. *)
From stdpp Require Import prelude gmap strings.
From Verif Require Import TypeModel DeclareModel DeclareSpec DeclareProofs.
Open Scope list_scope.
Open Scope nat_scope.
Open Scope string_scope.

(** No execution of an accepted template meets a declaration of signals or components twice. *)
Theorem C73_declared_at_most_once D : parsed (Block (body D)) = true -> check_signal_correctness D = true ->
  forall tr, execution D tr -> NoDup (declared tr).
Proof. intros HP HC tr HR. apply Nat.eqb_eq in HC. exact (proj1 runs_once _ _ _ HR HP HC). Qed.
Print Assumptions C73_declared_at_most_once.

(** The check refuses only templates with a path that meets a declaration twice. *)
Theorem C73_refused_declares_twice D : check_signal_correctness D = false -> exists tr, execution D tr /\ ~ NoDup (declared tr).
Proof. intros HC. apply Nat.eqb_neq in HC. exact (refused_twice (Block (body D)) HC []). Qed.
Print Assumptions C73_refused_declares_twice.

(** A custom template is accepted exactly if no path through it meets a constraint or a declaration of a component. *)
Theorem C73_custom_has_no_constraints D : is_Some (custom_gate_analysis D) <->
  forall tr q e, execution D tr -> (q, e) ∈ tr -> forbidden e = false.
Proof.
  split.
  - intros [w Hw] tr q e HR He. apply custom_accepted in Hw. destruct (simple e) eqn:Hs; [|destruct e; try discriminate; reflexivity].
    apply (proj1 Hw). exact (proj1 met_leaf _ _ _ HR (q, e) He Hs).
  - intros H. eexists. apply custom_accepted. split; [|reflexivity]. intros e He. destruct (leaf_met _ e He []) as (tr & q & HR & Hq). exact (H tr q e HR Hq).
Qed.
Print Assumptions C73_custom_has_no_constraints.

(** The warnings about an accepted custom template name exactly its intermediate signals. *)
Theorem C73_custom_warnings D w : custom_gate_analysis D = Some w ->
  forall x, x ∈ w <-> exists tr q dims, execution D tr /\ (q, Declaration (KSignal Intermediate) x dims) ∈ tr.
Proof.
  intros Hw x. apply custom_accepted in Hw. destruct Hw as [_ ->]. rewrite elem_of_list_omap. split.
  - intros (e & He & E). destruct e as [| | | |[|[]|] y dims| | | | | |]; try discriminate E. injection E as ->.
    destruct (leaf_met _ _ He []) as (tr & q & HR & Hq). eauto.
  - intros (tr & q & dims & HR & Hq). eexists. split; [exact (proj1 met_leaf _ _ _ HR _ Hq eq_refl)|reflexivity].
Qed.
Print Assumptions C73_custom_warnings.

(** Examples: declarations in a branch, and in a loop in a branch. *)
Definition ex_declare : stmt := InitializationBlock (KSignal Intermediate) [Declaration (KSignal Intermediate) "s" []; Substitution "s" [] None AssignSignal (Number 1)].
Definition ex_good : def := Def [] [IfThenElse (Number 1) (Block [ex_declare; While (Number 0) (Block [Assert (Number 1)])]) (Some ex_declare)].
Definition ex_bad : def := Def [] [IfThenElse (Number 1) (Block [While (Number 0) (Block [ex_declare])]) None].
Definition ex_constraint : def := Def [] [ex_declare; While (Number 0) (UnderscoreSubstitution AssignConstraintSignal (Number 1))].
Example C73_example : parsed (Block (body ex_good)) = true /\ check_signal_correctness ex_good = true /\ check_signal_correctness ex_bad = false /\
  custom_gate_analysis ex_good = Some ["s"; "s"] /\ custom_gate_analysis ex_constraint = None /\
  (exists tr, execution ex_good tr /\ declared tr = [[0; 0; 0]]).
Proof.
  split_and!; try reflexivity. eexists. split.
  - apply r_block. econstructor; [|constructor]. apply r_then. apply r_block. econstructor.
    + apply r_init. econstructor; [apply r_simple; reflexivity|]. econstructor; [apply r_simple; reflexivity|]. constructor.
    + econstructor; [apply r_leave|constructor].
  - reflexivity.
Qed.
