(** Vocabulary of the statements about clusters. *)
From stdpp Require Import prelude gmap fin_maps relations.
From Coq Require Import ZArith.
From Verif Require Import ModArithModel AlgebraModel.

(** two signals occur together in one of the constraints *)
Definition linked (cs : list constraint) (x y : nat) : Prop :=
  exists c, c ∈ cs /\ x ∈ take_signals c /\ y ∈ take_signals c.
(** any two signals of the constraints are joined by a chain of shared constraints *)
Definition connected (cs : list constraint) : Prop :=
  forall x y, (exists c, c ∈ cs /\ x ∈ take_signals c) -> (exists c, c ∈ cs /\ y ∈ take_signals c) -> rtc (linked cs) x y.
(** a traversal of a hash set lists its elements in some order *)
Definition valid_set_order (o : gset nat -> list nat) : Prop := forall X, o X ≡ₚ elements X.
