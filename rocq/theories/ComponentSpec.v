(** Inputs of components: vocabulary of the statements. *)
From stdpp Require Import prelude strings gmap numbers list.
From Verif Require Import MemSliceModel MemSliceSpec FlowModel ComponentModel.
Open Scope nat_scope.

(** The assignment designates part of an array with these dimensions, and its value has the dimensions of
    that part. *)
Definition fits (dims : list nat) (a : assignment) : Prop :=
  length (a_access a) <= length dims /\
  (forall i k m, a_access a !! i = Some k -> dims !! i = Some m -> k < m) /\
  a_route a = drop (length (a_access a)) dims.
(** It assigns the signal of [x] at the path [p]. *)
Definition covers (x : string) (p : list nat) (a : assignment) : Prop := a_input a = x /\ a_access a `prefix_of` p.
Global Instance covers_dec x p a : Decision (covers x p a) := _.
(** How many assignments of [h] assign this signal. *)
Definition times (h : list assignment) (x : string) (p : list nat) : nat := length (filter (covers x p) h).

(** The tags that come with an assignment: those of the value, if it is a constraint assignment [<==]. *)
Definition value_tags (a : assignment) : tagvals :=
  match a_constraint a, a_tags a with true, Some tags => tags | _, _ => ∅ end.
(** Every value given to a tagged input has the tags, and with these values.  [tv] says nothing else:
    its inputs are those of the template, its tags those of the input. *)
Definition tags_agree (t : interface) (tv : gmap string tagvals) (h : list assignment) : Prop :=
  (dom tv = dom (t_inputs t) /\ forall x vals tags, tv !! x = Some vals -> t_inputs t !! x = Some tags -> dom vals = tags) /\
  forall a vals tag v, a ∈ h -> tv !! a_input a = Some vals -> vals !! tag = Some v -> value_tags a !! tag = Some v.
(** Every input with tags is assigned (even one without signals). *)
Definition tags_given (t : interface) (h : list assignment) : Prop :=
  forall x tags, t_inputs t !! x = Some tags -> tags <> ∅ -> exists a, a ∈ h /\ a_input a = x.

(** [h] are correct assignments for the component that results from executing the template with the
    tags [tv], as far as they go. *)
Definition correct (t : interface) (exec : gmap string tagvals -> option node) (h : list assignment) (tv : gmap string tagvals) (n : node) : Prop :=
  tags_agree t tv h /\ tags_given t h /\ exec tv = Some n /\
  (forall a, a ∈ h -> exists dims, n_inputs n !! a_input a = Some dims /\ fits dims a).
Definition at_most_once (n : node) (h : list assignment) : Prop :=
  forall x dims p, n_inputs n !! x = Some dims -> p ∈ paths dims -> times h x p <= 1.
Definition at_least_once (n : node) (h : list assignment) : Prop :=
  forall x dims p, n_inputs n !! x = Some dims -> p ∈ paths dims -> 1 <= times h x p.
Definition exactly_once (n : node) (h : list assignment) : Prop :=
  forall x dims p, n_inputs n !! x = Some dims -> p ∈ paths dims -> times h x p = 1.

(** No assignment is under a condition that the compiler does not know. *)
Definition unconditional (h : list assignment) : Prop := forall a, a ∈ h -> a_conds a = [].
(** No two assignments designate a common signal of an instance. *)
Definition no_overlap (exec : gmap string tagvals -> option node) (h : list assignment) : Prop :=
  forall tv n, exec tv = Some n -> at_most_once n h.

(** What the type checker guarantees: each input has a number of dimensions, in every instance, and the
    access and the value together have that number.  The inputs of an instance are declared in the
    template, and are not its outputs. *)
Definition well_typed (t : interface) (exec : gmap string tagvals -> option node) (h : list assignment) : Prop :=
  (exists rank : string -> nat,
    (forall tv n x dims, exec tv = Some n -> n_inputs n !! x = Some dims -> length dims = rank x) /\
    (forall a, a ∈ h -> length (a_access a) + length (a_route a) = rank (a_input a))) /\
  forall tv n, exec tv = Some n -> dom (n_inputs n) ⊆ dom (t_inputs t) /\ dom (n_outputs n) ## dom (t_inputs t).

(** A choice for the conditions under which the assignment happens. *)
Definition happens (v : nat -> bool) (a : assignment) : Prop := forall i b, (i, b) ∈ a_conds a -> v i = b.
Global Instance happens_dec v a : Decision (happens v a).
Proof.
  refine (cast_if (decide (Forall (fun ib => v ib.1 = ib.2) (a_conds a)))).
  - intros i b Hin. rewrite Forall_forall in f. exact (f (i, b) Hin).
  - intros H. apply n. apply Forall_forall. intros [i b] Hin. exact (H i b Hin).
Defined.
