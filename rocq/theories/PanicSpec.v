(** What the grammar and the analyses before the check of types guarantee. *)
From stdpp Require Import prelude gmap strings.
From Verif Require Import TypeModel.
Open Scope list_scope.

(** arrays have elements (parser/src/lang.lalrpop:579-587, 737) *)
Fixpoint written_e (e : expr) : bool :=
  match e with
  | Number _ => true
  | ArrayInLine l => match l with [] => false | _ => forallb written_e l end
  | UniformArray a b | InfixOp _ a b => written_e a && written_e b
  | PrefixOp _ e | ParallelOp e => written_e e
  | InlineSwitch c t f => written_e c && written_e t && written_e f
  | VariableOf _ idx field => forallb written_e idx && match field with None => true | Some (_, l) => forallb written_e l end
  | Call _ args => forallb written_e args
  end.
(** declarations with their initial values: no conditions, loops and returns
    (program_structure/src/abstract_syntax_tree/ast_shortcuts.rs:52-141) *)
Fixpoint initial (s : stmt) : bool :=
  match s with
  | Declaration _ _ _ | Substitution _ _ _ _ _ | UnderscoreSubstitution _ _ => true
  | Block l | InitializationBlock _ l => forallb initial l
  | _ => false
  end.
Fixpoint written (s : stmt) : bool :=
  match s with
  | IfThenElse c t f => written_e c && written t && match f with Some f => written f | None => true end
  | While c s => written_e c && written s
  | Return e | UnderscoreSubstitution _ e | Assert e => written_e e
  | InitializationBlock _ l => forallb initial l && forallb written l
  | Declaration _ _ ds => forallb written_e ds
  | Substitution _ idx field _ e =>
    forallb written_e idx && match field with None => true | Some (_, l) => forallb written_e l end && written_e e
  | ConstraintEquality l r => written_e l && written_e r
  | LogCall l => forallb written_e l
  | Block l => forallb written l
  end.
Definition written_program (P : program) : Prop :=
  (forall f D, functions P !! f = Some D -> forallb written (body D) = true) /\
  (forall f D, templates P !! f = Some D -> forallb written (body D) = true) /\
  written_e (main P) = true.

(** ** The templates of components *)
(** the declarations and assignments of a statement in the order of the text *)
Fixpoint in_order (s : stmt) : list stmt :=
  match s with
  | IfThenElse _ t f => in_order t ++ match f with Some f => in_order f | None => [] end
  | While _ s => in_order s
  | Block l | InitializationBlock _ l => flat_map in_order l
  | Declaration _ _ _ | Substitution _ _ _ _ _ => [s]
  | _ => []
  end.
Definition is_simple (s : stmt) : bool := match s with Declaration _ _ _ | Substitution _ _ _ _ _ => true | _ => false end.
(** the template that an expression instantiates: [T(…)], [parallel T(…)], [c ? T(…) : …] *)
Fixpoint instantiated (P : program) (e : expr) : option string :=
  match e with
  | Call f _ => match templates P !! f with Some _ => Some f | None => None end
  | ParallelOp e => instantiated P e
  | InlineSwitch _ t f => match instantiated P t with Some t => Some t | None => instantiated P f end
  | _ => None
  end.
(** the template assigned to [x] *)
Definition instance_of (P : program) (x : string) (s : stmt) : option string :=
  match s with Substitution y _ _ _ e => if decide (x = y) then instantiated P e else None | _ => None end.
