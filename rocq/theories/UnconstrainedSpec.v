(** What a warning about unconstrained signals must say. *)
From stdpp Require Import prelude gmap fin_maps strings.
From Coq Require Import ZArith.
From Verif Require Import ModArithModel AlgebraModel AlgebraSpec PipelineModel DagModel DagSpec UnconstrainedModel.
Open Scope nat_scope.

(** the signals a template can name: its own, and the inputs and outputs of its components *)
Definition visible (d : dag) (i k : nat) : Prop :=
  (exists n, d_nodes d !! i = Some n /\ k ∈ n_locals n) \/
  exists es e t j, d_adjacency d !! i = Some es /\ e ∈ es /\ d_nodes d !! e_goes_to e = Some t /\ j ∈ n_io t /\ k = e_in e + j.
(** constraints and [_ <== ..] of a template are about such signals *)
Definition in_sight (d : dag) (o : dag_op) : Prop :=
  match o with
  | OpConstraint c => forall k, in_c k c -> visible d (length (d_nodes d) - 1) k
  | OpUnderscored k => visible d (length (d_nodes d) - 1) k
  | _ => True
  end.
(** how the compiler makes its calls *)
Definition as_compiled (p : Z) (d : dag) (o : dag_op) : Prop := well_formed p d o /\ well_named d o /\ in_sight d o.

(** signal [k] is used by constraint [c] *)
Definition uses (c : constraint) (k : nat) : Prop :=
  exists v, v <> 0%Z /\ (c_a c !! k = Some v \/ c_b c !! k = Some v \/ c_c c !! k = Some v).
(** [s] is the name of signal [k] of template [i], which no constraint of this template and no [_ <== ..] uses *)
Definition unconstrained_signal (d : dag) (i : nat) (s : string) (k : nat) : Prop :=
  exists n, d_nodes d !! i = Some n /\ n_corr n !! s = Some k /\ visible d i k /\
    (forall c, c ∈ n_constraints n -> ~ uses c k) /\ k ∉ n_underscored n.
Definition unconstrained (d : dag) (i : nat) (s : string) : Prop := exists k, unconstrained_signal d i s k.
(** a signal of the template itself, or of one of its components *)
Definition of_type (d : dag) (i : nat) (s : string) (t : signal_type) : Prop :=
  exists n k, d_nodes d !! i = Some n /\ n_corr n !! s = Some k /\ (t = Local <-> k ∈ n_locals n).

(** [a] is [s] without the indexes at its end: [c[1].x[2][0]] is an element of [c[1].x] *)
Fixpoint no_bracket (s : string) : Prop := match s with EmptyString => True | String c s => c <> bracket /\ no_bracket s end.
Definition element_of (s a : string) : Prop := exists front base indexes,
  a = (front +:+ base)%string /\ s = (a +:+ indexes)%string /\
  (front = EmptyString \/ exists q, front = (q +:+ String dot EmptyString)%string) /\
  no_dot base /\ no_bracket base /\ no_dot indexes /\ (indexes = EmptyString \/ exists r, indexes = String bracket r).

(** the templates whose signals are examined: not custom, and without a namesake before them *)
Definition examined (d : dag) (i : nat) : Prop := exists n, d_nodes d !! i = Some n /\ n_custom n = false /\
  forall j m, j < i -> d_nodes d !! j = Some m -> n_custom m = false -> n_template m <> n_template n.
(** what a warning says is true of template [i] *)
Definition correct (d : dag) (i : nat) (w : warning) : Prop :=
  exists n, d_nodes d !! i = Some n /\
  match w with
  | Single t template s => template = n_template n /\ unconstrained d i s /\ of_type d i s t /\
      forall s' a, unconstrained d i s' -> element_of s a -> element_of s' a -> s' = s
  | Several t template a total e1 e2 => template = n_template n /\
      exists l, NoDup l /\ length l = total /\ e1 ∈ l /\ e2 ∈ l /\ e1 <> e2 /\
        (forall s, s ∈ l <-> unconstrained d i s /\ element_of s a) /\ (forall s, s ∈ l -> of_type d i s t)
  end.
(** the warning is about signal [s] of template [i] *)
Definition about (d : dag) (i : nat) (s : string) (w : warning) : Prop :=
  exists n, d_nodes d !! i = Some n /\
  match w with
  | Single _ template s' => template = n_template n /\ s' = s
  | Several _ template a _ _ _ => template = n_template n /\ element_of s a
  end.
