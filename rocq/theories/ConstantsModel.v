(** The constants of functions: which variables of a function never change, the check that the lengths of
    arrays are such constants, and the replacement of these variables by their values in the code.

    Simplifications.  Only functions (the decorator of templates is not called; buses are left out).  File
    locations are dropped, and so are texts in [log].  Operators of templates, tuples and
    anonymous components do not reach functions. *)
From stdpp Require Import prelude gmap strings.
From Coq Require Import ZArith.
Open Scope string_scope.
Open Scope list_scope.
Open Scope nat_scope.

(** ** Functions *)
(** program_structure/src/abstract_syntax_tree/ast.rs:287-358 *)
Inductive expr :=
| Number (z : Z)
| InfixOp (o : string) (l r : expr)
| PrefixOp (o : string) (e : expr)
| InlineSwitch (c t f : expr)
| VariableOf (x : string) (idx : list expr)
| Call (f : string) (args : list expr)
| ArrayInLine (values : list expr)
| UniformArray (value dimension : expr).
(** ast.rs:201-270; [is_constant] of a declaration is computed here, the parser writes [false] *)
Inductive stmt :=
| IfThenElse (c : expr) (t : stmt) (f : option stmt)
| While (c : expr) (s : stmt)
| Return (e : expr)
| InitializationBlock (l : list stmt)
| Declaration (x : string) (dims : list expr) (is_constant : bool)
| Substitution (x : string) (idx : list expr) (e : expr)
| LogCall (args : list expr)
| Assert (e : expr)
| Block (l : list stmt).
(** program_structure/src/program_library/function_data.rs:8-16; the body is the block of these statements *)
Record def := Def { params : list string; body : list stmt }.

(** ** Environments *)
(** program_structure/src/utils/environment.rs:36-48, the variables only: the blocks, innermost first *)
Notation env A := (list (gmap string A)).
(** environment.rs:122-132, 179-186 *)
Fixpoint get_variable {A} (E : env A) (x : string) : option A :=
  match E with [] => None | b :: E => match b !! x with Some a => Some a | None => get_variable E x end end.
(** environment.rs:154-158 *)
Definition add_variable {A} (E : env A) (x : string) (a : A) : env A :=
  match E with [] => [] | b :: E => <[x := a]> b :: E end.
(** environment.rs:201-230: [None] is the panic of [get_mut_variable_or_break] *)
Fixpoint set_variable {A} (E : env A) (x : string) (a : A) : option (env A) :=
  match E with
  | [] => None
  | b :: E => match b !! x with Some _ => Some (<[x := a]> b :: E) | None => E' ← set_variable E x a; Some (b :: E') end
  end.

(** ** Which expressions are constant *)
(** constants_handler.rs:231-293; [None]: the panic of [get_variable_or_break].  The indexes of a variable are not
    examined *)
Fixpoint has_constant_value (E : env bool) (e : expr) : option bool :=
  match e with
  | Number _ => Some true
  | InfixOp _ l r => c ← has_constant_value E l; if (c : bool) then has_constant_value E r else Some false
  | PrefixOp _ e => has_constant_value E e
  | InlineSwitch c t f =>
    a ← has_constant_value E c;
    if (a : bool) then b ← has_constant_value E t; if (b : bool) then has_constant_value E f else Some false
    else Some false
  | VariableOf x _ => get_variable E x
  | Call _ args =>
    (fix go l := match l with
     | [] => Some true
     | e :: l => c ← has_constant_value E e; if (c : bool) then go l else Some false
     end) args
  | ArrayInLine _ => Some false
  | UniformArray _ _ => Some false
  end.

(** ** Which variables are constant *)
(** constants_handler.rs:83-101: the variables with an initial value in this block *)
Definition initialized (l : list stmt) : gset string :=
  list_to_set (omap (fun s => match s with Substitution x _ _ => Some x | _ => None end) l).
(** constants_handler.rs:93-100 *)
Definition initialization_block_constant_inference (E : env bool) (l : list stmt) : env bool :=
  foldl (fun E s => match s with
    | Declaration x dims _ => add_variable E x (match dims with [] => true | _ => false end && bool_decide (x ∈ initialized l))
    | _ => E
    end) E l.
(** constants_handler.rs:122-130 *)
Fixpoint infer_initial (E : env bool) (l : list stmt) : option (env bool) :=
  match l with
  | [] => Some E
  | Substitution x _ e :: l =>
    was ← get_variable E x; remains ← has_constant_value E e; E ← set_variable E x (was && remains); infer_initial E l
  | _ :: l => infer_initial E l
  end.
(** constants_handler.rs:131-136 *)
Fixpoint mark (E : env bool) (l : list stmt) : option (list stmt) :=
  match l with
  | [] => Some []
  | Declaration x dims _ :: l => c ← get_variable E x; l ← mark E l; Some (Declaration x dims c :: l)
  | s :: l => l ← mark E l; Some (s :: l)
  end.
(** constants_handler.rs:120-137 *)
Definition apply_inference (E : env bool) (l : list stmt) : option (env bool * list stmt) :=
  E ← infer_initial E l; l ← mark E l; Some (E, l).
(** constants_handler.rs:145-149 *)
Fixpoint apply_inferences (E : env bool) (l : list stmt) : option (env bool * list stmt) :=
  match l with
  | [] => Some (E, [])
  | InitializationBlock i :: l =>
    '(E, i) ← apply_inference E i; '(E, l) ← apply_inferences E l; Some (E, InitializationBlock i :: l)
  | s :: l => '(E, l) ← apply_inferences E l; Some (E, s :: l)
  end.
(** the statements of a block one after the other *)
Definition each {A B} (f : A -> B -> option (A * B)) : A -> list B -> option (A * list B) :=
  fix go E l := match l with
  | [] => Some (E, [])
  | s :: l => match f E s with
    | Some (E, s) => match go E l with Some (E, l) => Some (E, s :: l) | None => None end
    | None => None
    end
  end.
(** constants_handler.rs:60-118, 139-151 *)
Fixpoint statement_constant_inference (E : env bool) (s : stmt) {struct s} : option (env bool * stmt) :=
  match s with
  | IfThenElse c t f =>
    '(E, t) ← statement_constant_inference E t;
    match f with
    | Some f => '(E, f) ← statement_constant_inference E f; Some (E, IfThenElse c t (Some f))
    | None => Some (E, IfThenElse c t None)
    end
  | Substitution x idx e => E ← set_variable E x false; Some (E, s)
  | InitializationBlock l => Some (initialization_block_constant_inference E l, s)
  | While c s => '(E, s) ← statement_constant_inference E s; Some (E, While c s)
  | Block l =>
    '(E, l) ← each statement_constant_inference (∅ :: E) l;
    '(E, l) ← apply_inferences E l;
    Some (tail E, Block l)
  | _ => Some (E, s)
  end.

(** ** The check of the lengths of arrays *)
(** constants_handler.rs:172-183: the number of reports *)
Fixpoint declaration_invariant_check (E : env bool) (dims : list expr) : option nat :=
  match dims with
  | [] => Some 0
  | d :: dims => c ← has_constant_value E d; n ← declaration_invariant_check E dims; Some (if (c : bool) then n else S n)
  end.
(** constants_handler.rs:185-204: all lengths first, then the new variables *)
Fixpoint initialization_invariant_check (E : env bool) (l : list stmt) : option nat :=
  match l with
  | [] => Some 0
  | Declaration _ dims _ :: l =>
    m ← declaration_invariant_check E dims; n ← initialization_invariant_check E l; Some (m + n)
  | _ :: l => initialization_invariant_check E l
  end.
Definition add_constants (E : env bool) (l : list stmt) : env bool :=
  foldl (fun E s => match s with Declaration x _ c => add_variable E x c | _ => E end) E l.
Definition count {A B} (f : A -> B -> option (A * nat)) : A -> list B -> option (A * nat) :=
  fix go E l := match l with
  | [] => Some (E, 0)
  | s :: l => match f E s with
    | Some (E, m) => match go E l with Some (E, n) => Some (E, m + n) | None => None end
    | None => None
    end
  end.
(** constants_handler.rs:155-170, 206-229 *)
Fixpoint statement_invariant_check (E : env bool) (s : stmt) : option (env bool * nat) :=
  match s with
  | InitializationBlock l => n ← initialization_invariant_check E l; Some (add_constants E l, n)
  | IfThenElse _ t f =>
    '(E, m) ← statement_invariant_check E t;
    match f with
    | Some f => '(E, n) ← statement_invariant_check E f; Some (E, m + n)
    | None => Some (E, m)
    end
  | While _ s => statement_invariant_check E s
  | Block l =>
    '(E, n) ← count statement_invariant_check (∅ :: E) l;
    Some (tail E, n)
  | _ => Some (E, 0)
  end.

(** ** The replacement *)
(** constants_handler.rs:414-434 with 436-560; the indexes of a constant are not replaced with it *)
Fixpoint expand_expression (H : env expr) (e : expr) : expr :=
  match e with
  | Number z => Number z
  | InfixOp o l r => InfixOp o (expand_expression H l) (expand_expression H r)
  | PrefixOp o e => PrefixOp o (expand_expression H e)
  | InlineSwitch c t f => InlineSwitch (expand_expression H c) (expand_expression H t) (expand_expression H f)
  | VariableOf x idx =>
    match get_variable H x, idx with
    | Some e, [] => e
    | _, _ => VariableOf x (expand_expression H <$> idx)
    end
  | Call f args => Call f (expand_expression H <$> args)
  | ArrayInLine l => ArrayInLine (expand_expression H <$> l)
  | UniformArray v d => UniformArray (expand_expression H v) (expand_expression H d)
  end.
(** constants_handler.rs:345-352 *)
Definition constants (l : list stmt) : gset string :=
  list_to_set (omap (fun s => match s with Declaration x _ true => Some x | _ => None end) l).
(** constants_handler.rs:353-359 *)
Definition add_expressions (H : env expr) (K : gset string) (l : list stmt) : env expr :=
  foldl (fun H s => match s with
    | Substitution x _ e => if bool_decide (x ∈ K) then add_variable H x e else H
    | _ => H
    end) H l.
Definition thread {A B} (f : A -> B -> A * B) : A -> list B -> A * list B :=
  fix go E l := match l with
  | [] => (E, [])
  | s :: l => let '(E, s) := f E s in let '(E, l) := go E l in (E, s :: l)
  end.
(** constants_handler.rs:296-412 *)
Fixpoint expand_statement (H : env expr) (s : stmt) : env expr * stmt :=
  match s with
  | IfThenElse c t f =>
    let c := expand_expression H c in
    let '(H, t) := expand_statement H t in
    match f with
    | Some f => let '(H, f) := expand_statement H f in (H, IfThenElse c t (Some f))
    | None => (H, IfThenElse c t None)
    end
  | While c s => let c := expand_expression H c in let '(H, s) := expand_statement H s in (H, While c s)
  | Return e => (H, Return (expand_expression H e))
  | InitializationBlock l =>
    let '(H, l) := thread expand_statement H l in
    (add_expressions H (constants l) l, InitializationBlock l)
  | Declaration x dims c => (H, Declaration x (expand_expression H <$> dims) c)
  | Substitution x idx e => (H, Substitution x (expand_expression H <$> idx) (expand_expression H e))
  | LogCall args => (H, LogCall (expand_expression H <$> args))
  | Assert e => (H, Assert (expand_expression H e))
  | Block l =>
    let '(H, l) := thread expand_statement (∅ :: H) l in
    (tail H, Block l)
  end.

(** constants_handler.rs:15-25: the new function and the number of arrays of variable length; [None]: a panic *)
Definition handle_function_constants (D : def) : option (def * nat) :=
  let E := foldl (fun E x => add_variable E x false) [∅] (params D) in
  '(E, s) ← statement_constant_inference E (Block (body D));
  '(_, n) ← statement_invariant_check E s;
  match expand_statement [∅] s with
  | (_, Block l) => Some (Def (params D) l, n)
  | _ => None
  end.
