(** Multi-dimensional arrays: vocabulary of the statements. *)
From stdpp Require Import prelude.
From Verif Require Import MemSliceModel.
Open Scope nat_scope.

(** all index paths of an array with these dimensions, in row-major order *)
Fixpoint paths (dims : list nat) : list (list nat) :=
  match dims with
  | [] => [[]]
  | n :: dims => concat ((fun i => (fun p => i :: p) <$> paths dims) <$> seq 0 n)
  end.
(** one value per path *)
Definition shaped {C} (s : slice C) : Prop := length (values s) = length (paths (route s)).
(** the array holds [v] at path [p] *)
Definition holds_at {C} (s : slice C) (p : list nat) (v : C) : Prop :=
  exists i, paths (route s) !! i = Some p /\ values s !! i = Some v.
(** an access (the first indices of a path) within the dimensions *)
Definition in_bounds {C} (s : slice C) (a : list nat) : Prop :=
  length a <= length (route s) /\ forall i x n, a !! i = Some x -> route s !! i = Some n -> x < n.
(** the dimensions of what an access designates *)
Definition rest_of {C} (s : slice C) (a : list nat) : list nat := drop (length a) (route s).
