(** Which statements an execution of a template meets. *)
From stdpp Require Import prelude gmap strings.
From Verif Require Import TypeModel.
Open Scope list_scope.
Open Scope nat_scope.

(** the place of a statement in the text: the numbers of the statements around it *)
Notation place := (list nat).
Notation trace := (list (place * stmt)).
Definition simple (s : stmt) : bool :=
  match s with IfThenElse _ _ _ | While _ _ | InitializationBlock _ _ | Block _ => false | _ => true end.
(** [runs p s tr]: some execution of the statement [s] at [p] meets the statements [tr], in this order.  Conditions may have any value, each time they are met *)
Inductive runs : place -> stmt -> trace -> Prop :=
| r_simple p s : simple s = true -> runs p s [(p, s)]
| r_then p c t f tr : runs (p ++ [0]) t tr -> runs p (IfThenElse c t f) tr
| r_else p c t f tr : runs (p ++ [1]) f tr -> runs p (IfThenElse c t (Some f)) tr
| r_no_else p c t : runs p (IfThenElse c t None) []
| r_leave p c s : runs p (While c s) []
| r_again p c s tr tr' : runs (p ++ [0]) s tr -> runs p (While c s) tr' -> runs p (While c s) (tr ++ tr')
| r_init p k l tr : runs_all p 0 l tr -> runs p (InitializationBlock k l) ((p, InitializationBlock k l) :: tr)
| r_block p l tr : runs_all p 0 l tr -> runs p (Block l) tr
with runs_all : place -> nat -> list stmt -> trace -> Prop :=
| r_nil p i : runs_all p i [] []
| r_cons p i s l tr tr' : runs (p ++ [i]) s tr -> runs_all p (S i) l tr' -> runs_all p i (s :: l) (tr ++ tr').
(** executions of a template *)
Definition execution (D : def) (tr : trace) : Prop := runs [] (Block (body D)) tr.

(** declarations of signals and components, and their places *)
Definition declares (s : stmt) : bool := match s with InitializationBlock KVar _ => false | InitializationBlock _ _ => true | _ => false end.
Definition declared (tr : trace) : list place := omap (fun ev => if declares ev.2 then Some ev.1 else None) tr.
(** the parser puts declarations and initial values into one statement, not further such statements *)
Fixpoint no_declarations (s : stmt) : bool :=
  match s with
  | IfThenElse _ t f => no_declarations t && match f with Some f => no_declarations f | None => true end
  | While _ s => no_declarations s
  | InitializationBlock _ _ => false
  | Block l => forallb no_declarations l
  | _ => true
  end.
Fixpoint parsed (s : stmt) : bool :=
  match s with
  | IfThenElse _ t f => parsed t && match f with Some f => parsed f | None => true end
  | While _ s => parsed s
  | InitializationBlock _ l => forallb no_declarations l
  | Block l => forallb parsed l
  | _ => true
  end.

(** statements that make constraints, or components *)
Definition forbidden (s : stmt) : bool :=
  match s with
  | Substitution _ _ _ AssignConstraintSignal _ | UnderscoreSubstitution AssignConstraintSignal _ | ConstraintEquality _ _ => true
  | Declaration (KComponent _) _ _ => true
  | _ => false
  end.
