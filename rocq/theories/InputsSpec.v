(** Executions of a template body, as far as the inputs of its subcomponents are concerned (C56). *)
From stdpp Require Import prelude numbers list gmap.
From Verif Require Import IrModel InputsModel.
Local Open Scope Z_scope.

(** One store to an input of component [e_cmp]. *)
Record event : Type := Event { e_cmp : nat; e_size : nat; e_info : input_info }.

Section Paths.
(** The name of the symbol that holds each component. *)
Context (name : nat -> nat).

(** The components a store may assign: one whose index is computed may assign any component of its
    symbol. *)
Definition assigns (t : target) (k : nat) : Prop :=
  match t with
  | Known k' _ => k = k'
  | Dynamic n | Anon n => name k = n
  end.

(** The sequences of stores of all executions: any branch, any number of iterations, any component
    for computed indexes. *)
Inductive path : node -> list event -> Prop :=
| path_store t size info k : assigns t k -> path (NStore t size info) [Event k (size_for size k) info]
| path_then l1 l2 tr : path_list l1 tr -> path (NBranch l1 l2) tr
| path_else l1 l2 tr : path_list l2 tr -> path (NBranch l1 l2) tr
| path_end l : path (NLoop l) []
| path_iter l tr1 tr2 : path_list l tr1 -> path (NLoop l) tr2 -> path (NLoop l) (tr1 ++ tr2)
| path_other : path NOther []
with path_list : list node -> list event -> Prop :=
| path_nil : path_list [] []
| path_cons i l tr1 tr2 : path i tr1 -> path_list l tr2 -> path_list (i :: l) (tr1 ++ tr2).

(** Every store that may assign component [k] assigns at least one element of it, carries the name of
    its symbol, and is not a store to an anonymous component. *)
Fixpoint sized (k : nat) (i : node) : Prop :=
  match i with
  | NStore t size _ => assigns t k -> (1 <= size_for size k)%nat /\ match t with Anon _ => False | Known _ n => n = name k | _ => True end
  | NBranch l1 l2 =>
      foldr (fun i P => sized k i /\ P) True l1 /\ foldr (fun i P => sized k i /\ P) True l2
  | NLoop l => foldr (fun i P => sized k i /\ P) True l
  | NOther => True
  end.
End Paths.

(** The stores to component [k]. *)
Definition events_of (k : nat) (tr : list event) : list event := filter (fun e => e_cmp e = k) tr.
Definition total (tr : list event) : Z := foldr (fun e z => Z.of_nat (e_size e) + z) 0 tr.

(** For each store whether it runs the component, from counter [c]. *)
Fixpoint fired (sanity : nat) (tr : list event) (c : Z) : option (list bool) :=
  match tr with
  | [] => Some []
  | e :: tr => '(c', b) ← fire sanity (e_info e) (e_size e) c; r ← fired sanity tr c'; Some (b :: r)
  end.
(** The component runs once, at the last of [n] stores. *)
Definition once_at_the_end (n : nat) : list bool := replicate (n - 1) false ++ [true].

(** The stores to the symbol [a], in the order of the text. *)
Fixpoint stores_to (a : nat) (i : node) : list (ssize * input_info) :=
  match i with
  | NStore (Anon n) size info => if decide (n = a) then [(size, info)] else []
  | NStore _ _ _ => []
  | NBranch l1 l2 => concat (stores_to a <$> l1) ++ concat (stores_to a <$> l2)
  | NLoop l => concat (stores_to a <$> l)
  | NOther => []
  end.
(** The stores to [a] are not zero sized, and no branch has stores to [a] on both sides: the parser
    puts the stores of an anonymous component one after the other in one block. *)
Fixpoint one_place (a : nat) (i : node) : Prop :=
  match i with
  | NStore t size _ => t = Anon a -> size <> Single 0
  | NBranch l1 l2 =>
      foldr (fun i P => one_place a i /\ P) True l1 /\ foldr (fun i P => one_place a i /\ P) True l2 /\
      (concat (stores_to a <$> l1) = [] \/ concat (stores_to a <$> l2) = [])
  | NLoop l => foldr (fun i P => one_place a i /\ P) True l
  | NOther => True
  end.
