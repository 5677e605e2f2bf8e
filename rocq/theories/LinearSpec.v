(** Vocabulary of the statements about linear simplification. *)
From stdpp Require Import prelude gmap fin_maps.
From Coq Require Import ZArith.
From Verif Require Import ModArithModel AlgebraModel AlgebraSpec LinearSimpModel.
Open Scope Z_scope.

(** a linear constraint as the elimination receives it *)
Definition lin_ok (p : Z) (c : constraint) : Prop :=
  c_a c = ∅ /\ c_b c = ∅ /\ canon p (c_c c) /\ nonzero (c_c c).
(** an oracle returns the keys in some order *)
Definition valid_order (o : key_order) : Prop := forall m : lin, o m ≡ₚ elements (dom m).
(** the signals of a list of linear constraints, with the constant *)
Definition sigs (cs : list constraint) : gset nat := {[ 0%nat ]} ∪ ⋃ ((fun c => dom (c_c c)) <$> cs).

(** a linear expression mentions a signal *)
Definition mentions (m : lin) (k : nat) : Prop := is_Some (m !! k).

(** a number of loop steps that is always enough (the code has no such bound: its loops end by
    themselves, which is what the theorems say) *)
Definition enough_steps (cs : list constraint) (fuel : nat) : Prop :=
  (forall j, j ∈ sigs cs -> (S j < fuel)%nat) /\ (2 ^ size (sigs cs) <= fuel)%nat.

