(** What the storage is supposed to be: a list of constraints. *)
From stdpp Require Import prelude gmap fin_maps.
From Coq Require Import ZArith.
From Verif Require Import ModArithModel AlgebraModel StorageModel.

(** one call of the storage's interface *)
Inductive storage_op : Type :=
| OpAdd (c : constraint)
| OpReplace (id : nat) (c : constraint)
| OpExtract (f : constraint -> bool).
(** its effect on a plain list *)
Definition list_op (o : storage_op) (l : list constraint) : list constraint :=
  match o with
  | OpAdd c => l ++ [c]
  | OpReplace id c => <[id := c]> l
  | OpExtract f => filter (fun c => f c = false) l
  end.
(** what it returns: the new id, nothing, the removed constraints *)
Definition list_answer (o : storage_op) (l : list constraint) : nat * list constraint :=
  match o with
  | OpAdd c => (length l, [])
  | OpReplace id c => (0%nat, [])
  | OpExtract f => (0%nat, filter (fun c => f c = true) l)
  end.
(** the effect in the model; [ord] is the hash order at that moment *)
Definition storage_step (ord : entry_order) (o : storage_op) (st : storage) : res (nat * list constraint * storage) :=
  match o with
  | OpAdd c => let '(id, st) := add_constraint ord c st in Ok (id, [], st)
  | OpReplace id c => Ok (0%nat, [], storage_replace ord id c st)
  | OpExtract f => res_map (fun '(removed, st) => (0%nat, removed, st)) (extract_with f st)
  end.
(** every hash order lists the entries *)
Definition valid_entries (ord : entry_order) : Prop := forall m : lin, ord m ≡ₚ map_to_list m.

(** a history of calls: the answers and the final contents *)
Fixpoint storage_run (h : list (entry_order * storage_op)) (st : storage) : res (list (nat * list constraint) * storage) :=
  match h with
  | [] => Ok ([], st)
  | (ord, o) :: h => res_bind (storage_step ord o st) (fun '(a, removed, st) =>
      res_map (fun '(l, st) => ((a, removed) :: l, st)) (storage_run h st))
  end.
Fixpoint list_run (h : list (entry_order * storage_op)) (l : list constraint) : list (nat * list constraint) * list constraint :=
  match h with
  | [] => ([], l)
  | (_, o) :: h => let '(al, l') := list_run h (list_op o l) in (list_answer o l :: al, l')
  end.
