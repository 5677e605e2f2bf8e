(** What can happen when the program runs (C41, C42). *)
From stdpp Require Import prelude numbers list gmap.
From Verif Require Import FlowModel.

(** [run s r]: an execution of [s] that ends, with a return ([r = true]) or not. *)
Inductive run : rstmt -> bool -> Prop :=
| run_return : run RReturn true
| run_simple : run RSimple false
| run_while_end b : run (RWhile b) false
| run_while_return b : run b true -> run (RWhile b) true
| run_while_again b r : run b false -> run (RWhile b) r -> run (RWhile b) r
| run_then a b r : run a r -> run (RIf a b) r
| run_else a b r : run b r -> run (RIf a (Some b)) r
| run_no_else a : run (RIf a None) false
| run_nil : run (RBlock []) false
| run_stop s l : run s true -> run (RBlock (s :: l)) true
| run_next s l r : run s false -> run (RBlock l) r -> run (RBlock (s :: l)) r.

(** [writes l tr]: an execution of [l] assigns the signals [tr], in this order.  An unknown condition
    may have either value; a loop runs the iterations that the compiler knows, then, if its condition
    becomes unknown, any number of others. *)
Inductive writes : list fstmt -> list nat -> Prop :=
| writes_nil : writes [] []
| writes_cons s l t1 t2 : writes1 s t1 -> writes l t2 -> writes (s :: l) (t1 ++ t2)
with writes1 : fstmt -> list nat -> Prop :=
| writes_write x : writes1 (LWrite x) [x]
| writes_then a b t : writes a t -> writes1 (LIf a b) t
| writes_else a b t : writes b t -> writes1 (LIf a (Some b)) t
| writes_no_else a : writes1 (LIf a None) []
| writes_loop bodies tail t1 t2 : writes_all bodies t1 -> writes_tail tail t2 -> writes1 (LLoop bodies tail) (t1 ++ t2)
with writes_all : list (list fstmt) -> list nat -> Prop :=
| writes_all_nil : writes_all [] []
| writes_all_cons b l t1 t2 : writes b t1 -> writes_all l t2 -> writes_all (b :: l) (t1 ++ t2)
with writes_tail : option (list fstmt * list fstmt) -> list nat -> Prop :=
| writes_known : writes_tail None []
| writes_none a b : writes_tail (Some (a, b)) []
| writes_some a b t1 t2 : writes a t1 -> writes_many b t2 -> writes_tail (Some (a, b)) (t1 ++ t2)
with writes_many : list fstmt -> list nat -> Prop :=
| writes_many_nil b : writes_many b []
| writes_many_cons b t1 t2 : writes b t1 -> writes_many b t2 -> writes_many b (t1 ++ t2).

(** Inside an unknown condition every variable that is assigned becomes unknown (execute.rs:1588-1591),
    so that at most one iteration of a loop has a condition that is known.  [s] is a statement inside
    an unknown condition, or one that is not. *)
Fixpoint reachable (inside : bool) (s : fstmt) : bool :=
  match s with
  | LWrite _ => true
  | LIf a b => forallb (reachable true) a && match b with Some b => forallb (reachable true) b | None => true end
  | LLoop bodies tail =>
      (negb inside || (length bodies <=? 1)) && forallb (forallb (reachable inside)) bodies &&
      match tail with Some (a, b) => forallb (reachable true) a && forallb (reachable true) b | None => true end
  end.

(** Without loops. *)
Fixpoint loop_free (s : fstmt) : bool :=
  match s with
  | LWrite _ => true
  | LIf a b => forallb loop_free a && match b with Some b => forallb loop_free b | None => true end
  | LLoop _ _ => false
  end.
(** No loop is in the [else] branch of an unknown condition, and the compiler sees the same statements
    in both executions of the body of an unknown loop. *)
Fixpoint plain (s : fstmt) : Prop :=
  let all := foldr (fun s P => plain s /\ P) True in
  match s with
  | LWrite _ => True
  | LIf a b => all a /\ match b with Some b => forallb loop_free b = true | None => True end
  | LLoop bodies tail =>
      foldr (fun b P => all b /\ P) True bodies /\ match tail with Some (a, b) => a = b /\ all a | None => True end
  end.
Definition count (x : nat) (tr : list nat) : nat := length (filter (fun y => y = x) tr).
