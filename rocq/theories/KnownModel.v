(** Model of type_analysis/src/analyzers/unknown_known_analysis.rs: the static analysis that looks for
    constraints, declarations and tags that depend on values unknown when constraints are generated.

    The statements are those that reach the analysis (no tuples and no anonymous components).  The
    positions of the reports are dropped.  Variables live in the environment of EnvModel; signals and
    buses are not looked up by the analysis and are not stored. *)
From stdpp Require Import prelude gmap strings.
From Coq Require Import ZArith.
From Verif Require Import EnvModel.
Open Scope nat_scope.

(** ** Syntax *)
(** program_structure/src/abstract_syntax_tree/ast.rs:401-408 [TypeReduction]: what a name with its
    accesses denotes *)
Inductive kind := KVar | KSignal | KBus | KComponent | KTag.
(** program_structure/src/abstract_syntax_tree/ast.rs:287-352 [Expression], [Access]: the operators, calls,
    arrays and inline conditions, which the analysis treats alike, are one constructor [Op] with a label *)
Inductive expr :=
| Lit (z : Z)
| Var (k : kind) (x : string) (acc : list access)
| Op (o : string) (args : list expr)
with access :=
| Idx (e : expr)
| Fld (f : string).
Inductive assign_op := AssignVar | AssignSignal | AssignConstraint.
(** program_structure/src/abstract_syntax_tree/ast.rs [VariableType] without the properties of signals *)
Inductive decl := DVar | DSignal | DBus | DComponent | DAnonymous.
(** program_structure/src/abstract_syntax_tree/ast.rs [Statement]; [Other]: assert, log, return *)
Inductive stmt :=
| Declare (k : decl) (x : string) (dims : list expr)
| Assign (k : kind) (op : assign_op) (x : string) (acc : list access) (rhe : expr)
| Underscore (op : assign_op) (rhe : expr)
| Equal (lhe rhe : expr)
| If (c : expr) (t : stmt) (f : option stmt)
| While (c : expr) (body : stmt)
| Block (l : list stmt)
| Init (l : list stmt)
| Other.

(** ** Tags *)
(** unknown_known_analysis.rs:24-28 [Tag] *)
Inductive tag := Known | Unknown.
Global Instance tag_eq_dec : EqDecision tag. Proof. solve_decision. Defined.
Definition tmax (a b : tag) : tag := match a with Unknown => Unknown | Known => b end.
(** the derived order on pairs of a tag and a boolean *)
Definition pmax (a b : tag * bool) : tag * bool :=
  match a.1, b.1 with
  | Known, Unknown => b
  | Unknown, Known => a
  | _, _ => (a.1, a.2 || b.2)
  end.
(** unknown_known_analysis.rs:39 [Environment] *)
Notation env := (EnvModel.env tag tag (tag * bool) tag).

(** A result, a failed lookup ([..._or_break]), or the bound on the rounds of a loop was too small *)
Inductive res (A : Type) := Done (a : A) | Panic | Fuel.
Arguments Done {A} a. Arguments Panic {A}. Arguments Fuel {A}.
Global Instance res_bind : MBind res := fun A B f x => match x with Done a => f a | Panic => Panic | Fuel => Fuel end.
Definition found {A} (o : option A) : res A := match o with Some a => Done a | None => Panic end.

(** unknown_known_analysis.rs:397-444 [tag] and :469-482 [expression_iterator]; accesses are not looked
    at; the maximum over the operands is computed from left to right *)
Fixpoint tag_of (E : env) (e : expr) : res tag :=
  match e with
  | Lit _ => Done Known
  | Var KVar x _ => v ← found (get_variable E x); Done (if (v.2 : bool) then Known else v.1)
  | Var KSignal _ _ => Done Unknown
  | Var KBus _ _ => Done Unknown
  | Var KComponent x _ => found (components E !! x)
  | Var KTag _ _ => Done Known
  | Op _ args =>
    (fix go l := match l with [] => Done Known | a :: l => t ← tag_of E a; match t with Unknown => Done Unknown | Known => go l end end) args
  end.
Fixpoint tags_of (E : env) (l : list expr) : res tag :=
  match l with [] => Done Known | a :: l => t ← tag_of E a; match t with Unknown => Done Unknown | Known => tags_of E l end end.
(** unknown_known_analysis.rs:154-166: the tag of the indexes of an assignment *)
Fixpoint access_tag (E : env) (acc : list access) : res tag :=
  match acc with
  | [] => Done Known
  | Fld _ :: acc => access_tag E acc
  | Idx e :: acc => t ← tag_of E e; match t with Unknown => Done Unknown | Known => access_tag E acc end
  end.
(** unknown_known_analysis.rs:486-539 [is_non_quadratic], [unknown_index] *)
Fixpoint unknown_index (E : env) (e : expr) : res bool :=
  match e with
  | Lit _ => Done false
  | Var _ _ acc => t ← access_tag E acc; Done (bool_decide (t = Unknown))
  | Op _ args =>
    (fix go l := match l with [] => Done false | a :: l => b ← unknown_index E a; if (b : bool) then Done true else go l end) args
  end.

(** ** Statements *)
Inductive report := UnknownDimension | UnknownTemplate | UnknownBus | NonQuadratic | NonValidTagAssignment
  | UnknownTemplateAssignment | UnreachableConstraints | UnreachableTags | UnreachableSignals.
Global Instance report_eq_dec : EqDecision report. Proof. solve_decision. Defined.
(** unknown_known_analysis.rs:15-22 [ExitInformation] *)
Record exit := Exit {
  reports : list report;
  environment : env;
  constraints_declared : bool;
  tags_modified : bool;
  signals_declared : bool;
  modified_variables : gset string }.
Definition when (b : bool) (r : report) : list report := if b then [r] else [].
Definition unk (t : tag) : bool := bool_decide (t = Unknown).

(** unknown_known_analysis.rs:138-149: the dimensions of a declaration *)
Fixpoint dims_reports (E : env) (dims : list expr) : res (list report) :=
  match dims with
  | [] => Done []
  | d :: dims => t ← tag_of E d; r ← dims_reports E dims; Done (when (unk t) UnknownDimension ++ r)
  end.
(** unknown_known_analysis.rs:447-466 [check_modified]; the variables are visited in the order [elements] *)
Fixpoint check_modified (initial : env) (final : env) (vars : list string) : bool * env :=
  match vars with
  | [] => (false, final)
  | v :: vars =>
    match get_variable initial v, get_variable final v with
    | Some i, Some f =>
      if bool_decide (i = f) then check_modified initial final vars
      else let '(m, e) := check_modified initial (default final (set_variable v (pmax i f) final)) vars in
           (bool_decide (f.1 = Unknown) || m, e)
    | _, _ => check_modified initial final vars
    end
  end.
(** unknown_known_analysis.rs:281-289, 336-343: after an unknown condition *)
Fixpoint set_unknown (E : env) (vars : list string) : env :=
  match vars with
  | [] => E
  | v :: vars =>
    set_unknown (match get_variable E v with Some c => default E (set_variable v (Unknown, c.2) E) | None => E end) vars
  end.
(** unknown_known_analysis.rs:82-106 [iterate_statements] *)
Definition iterate (f : env -> stmt -> res exit) : env -> list stmt -> res exit :=
  fix go E l :=
  match l with
  | [] => Done (Exit [] E false false false ∅)
  | s :: l =>
    x ← f E s;
    y ← go (environment x) l;
    Done (Exit (reports x ++ reports y) (environment y) (constraints_declared x || constraints_declared y)
      (tags_modified x || tags_modified y) (signals_declared x || signals_declared y) (modified_variables x ∪ modified_variables y))
  end.
(** unknown_known_analysis.rs:315-327: the rounds of the analysis of a loop; the exit of the last one,
    with the environment after [check_modified] *)
Fixpoint rounds (fuel : nat) (f : env -> res exit) (E : env) : res exit :=
  match fuel with
  | O => Fuel
  | S fuel =>
    x ← f E;
    let '(m, E') := check_modified E (environment x) (elements (modified_variables x)) in
    if (m : bool) then rounds fuel f E'
    else Done (Exit (reports x) E' (constraints_declared x) (tags_modified x) (signals_declared x) (modified_variables x))
  end.
Definition quiet_exit (E : env) : exit := Exit [] E false false false ∅.
(** unknown_known_analysis.rs:290-313, 345-368 *)
Definition unreachable (t : tag) (c g s : bool) : list report :=
  when (unk t && c) UnreachableConstraints ++ when (unk t && g) UnreachableTags ++ when (unk t && s) UnreachableSignals.
(** unknown_known_analysis.rs:78-395 [analyze] *)
Fixpoint analyze (fuel : nat) (E : env) (s : stmt) {struct s} : res exit :=
  match s with
  (* :114-151; signals and buses are not stored *)
  | Declare DVar x dims =>
    E' ← found (add_variable x (Known, bool_decide (0 < length dims)) E);
    r ← dims_reports E' dims;
    Done (Exit r E' false false false {[ x ]})
  | Declare k x dims =>
    let E' := match k with DComponent | DAnonymous => add_component x Unknown E | _ => E end in
    r ← match k with DAnonymous => Done [] | _ => dims_reports E' dims end;
    Done (Exit r E' false false true ∅)
  (* :152-227 *)
  | Assign k op x acc rhe =>
    t ← tag_of E rhe;
    a ← access_tag E acc;
    match k with
    | KVar =>
      c ← found (get_variable E x);
      let c' := if negb c.2 then (tmax t a, c.2) else match c.1 with Known => (tmax t a, c.2) | Unknown => c end in
      E' ← found (set_variable x c' E);
      Done (Exit [] E' false false false {[ x ]})
    | KComponent => Done (Exit (when (unk t) UnknownTemplate ++ when (unk a) UnknownTemplate) E true false false ∅)
    | KBus =>
      match op with
      | AssignVar => Done (Exit (when (unk t) UnknownBus) E false false false ∅)
      | AssignSignal => Done (quiet_exit E)
      | AssignConstraint =>
        n ← unknown_index E rhe;
        Done (Exit (when n NonQuadratic ++ when (unk a) NonQuadratic) E true false false ∅)
      end
    | KTag => Done (Exit (when (unk t) NonValidTagAssignment ++ when (unk a) NonValidTagAssignment) E false true false ∅)
    | KSignal =>
      match op with
      | AssignConstraint =>
        n ← unknown_index E rhe;
        Done (Exit (when n NonQuadratic ++ when (unk a) NonQuadratic) E true false false ∅)
      | _ => Done (Exit (when (bool_decide (is_Some (components E !! x)) && unk a) UnknownTemplateAssignment) E false false false ∅)
      end
    end
  (* :228-236 *)
  | Underscore op rhe =>
    _ ← tag_of E rhe;
    match op with
    | AssignConstraint => n ← unknown_index E rhe; Done (Exit (when n NonQuadratic) E true false false ∅)
    | _ => Done (quiet_exit E)
    end
  (* :237-245 *)
  | Equal lhe rhe =>
    n ← unknown_index E lhe;
    m ← unknown_index E rhe;
    Done (Exit (when n NonQuadratic ++ when m NonQuadratic) E true false false ∅)
  (* :246-313 *)
  | If c t f =>
    tc ← tag_of E c;
    x ← analyze fuel E t;
    y ← match f with Some f => analyze fuel E f | None => Done (quiet_exit E) end;
    let vars := modified_variables x ∪ modified_variables y in
    let E' := merge (environment x) (environment y) pmax in
    let E' := if unk tc then set_unknown E' (elements vars) else E' in
    let cd := constraints_declared y || constraints_declared x in
    let tm := tags_modified y || tags_modified x in
    let sd := signals_declared y || signals_declared x in
    Done (Exit (reports x ++ reports y ++ unreachable tc cd tm sd) E' cd tm sd vars)
  (* :314-369; the variables that the body modifies are not handed on *)
  | While c body =>
    x ← rounds fuel (fun E => analyze fuel E body) E;
    tc ← tag_of (environment x) c;
    let E' := if unk tc then set_unknown (environment x) (elements (modified_variables x)) else environment x in
    Done (Exit (reports x ++ unreachable tc (constraints_declared x) (tags_modified x) (signals_declared x)) E'
      (constraints_declared x) (tags_modified x) (signals_declared x) ∅)
  (* :370-380 *)
  | Block l =>
    x ← iterate (fun E s => analyze fuel E s) (add_variable_block E) l;
    E' ← found (remove_variable_block (environment x));
    Done (Exit (reports x) E' (constraints_declared x) (tags_modified x) (signals_declared x) (modified_variables x))
  (* :381-389 *)
  | Init l => iterate (fun E s => analyze fuel E s) E l
  | Other => Done (quiet_exit E)
  end.
(** unknown_known_analysis.rs:41-76 [unknown_known_analysis]: parameters are arrays, perhaps *)
Definition analysis (fuel : nat) (params : list string) (body : stmt) : res (list report) :=
  E ← found (foldl (fun E x => E ≫= add_variable x (Known, true)) (Some env_new) params);
  x ← analyze fuel E body;
  Done (reports x).
