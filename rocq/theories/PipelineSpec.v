(** Vocabulary of the statements about the whole simplification. *)
From stdpp Require Import prelude gmap fin_maps.
From Coq Require Import ZArith Znumtheory.
From Verif Require Import ModArithModel AlgebraModel AlgebraSpec LinearSimpModel LinearSpec ClusterModel ClusterSpec PipelineModel.
Open Scope Z_scope.

(** an assignment satisfies all the constraints *)
Definition satisfies (p : Z) (ρ : assignment) (cs : list constraint) : Prop := Forall (holds p ρ) cs.
(** the constraints before simplification *)
Definition original (sm : simplifier) : list constraint :=
  sm_equalities sm ++ sm_cons_equalities sm ++ sm_linear sm ++ sm_non_linear sm.
(** a signal occurs in one of the constraints *)
Definition occurs (k : nat) (cs : list constraint) : Prop := exists c, c ∈ cs /\ in_c k c.

(** what [map_to_constraint_list] (dag/src/map_to_constraint_list.rs:6-50) hands over: classified
    constraints with canonical coefficients, signals numbered below [max_signal], the constant one
    and the public signals among the protected ones. *)
Record simplifier_ok (sm : simplifier) : Prop := {
  so_prime : prime (sm_field sm);
  so_one : 0%nat ∈ sm_forbidden sm;
  so_equalities : Forall (fun c => canon_c (sm_field sm) c /\ nonzero_c c /\ is_equality c (sm_field sm) = true) (sm_equalities sm);
  so_cons_equalities : Forall (fun c => canon_c (sm_field sm) c /\ nonzero_c c /\ is_constant_equality c = true) (sm_cons_equalities sm);
  so_linear : Forall (lin_ok (sm_field sm)) (sm_linear sm);
  so_non_linear : Forall (canon_c (sm_field sm)) (sm_non_linear sm);
  so_signals : forall k, occurs k (original sm) -> (k < sm_max_signal sm)%nat;
  so_public : forall k, (sm_no_public_outputs sm < k <= sm_no_public_outputs sm + sm_no_public_inputs sm)%nat -> k ∈ sm_forbidden sm;
}.

(** every unspecified traversal or arrival order is a reordering *)
Record valid_oracle (o : oracle) : Prop := {
  vo_cluster : forall n m, valid_set_order (o_cluster o n m);
  vo_remove : forall n, valid_set_order (o_remove o n);
  vo_arrive : forall n l, o_arrive o n l ≡ₚ l;
  vo_fast : forall n m, valid_set_order (o_fast o n m);
  vo_lin : forall a b c d, valid_order (o_lin o a b c d);
  vo_lin2 : forall a b c, valid_order (o_lin2 o a b c);
  vo_subs : forall a b l, o_subs o a b l ≡ₚ l;
}.
(** a number of loop steps that is always enough (the code has no bound) *)
Definition enough (no_labels fuel : nat) : Prop := (2 ^ S no_labels + 2 <= fuel)%nat.

(** the signals a list of substitutions eliminates *)
Definition eliminated (subs : list substitution) : list nat := s_from <$> subs.

(** two schedules: the same hash orders, any arrival orders *)
Definition same_hashing (o o' : oracle) : Prop :=
  o_cluster o = o_cluster o' /\ o_remove o = o_remove o' /\ o_fast o = o_fast o' /\ o_lin o = o_lin o' /\ o_lin2 o = o_lin2 o' /\ o_subs o = o_subs o'.
