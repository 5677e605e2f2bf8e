(** Model of the symbolic execution of templates (constraint_generation/src/execute.rs), of the
    analysis it records (execution_data/analysis.rs) and of the two filters that rewrite the code
    of a template with it (execution_data/filters.rs).

    Modelled: the statements and expressions over variables (scalars and arrays with every index
    given), signals, function calls with scalar arguments, conditions, loops, returns, asserts and
    logs.  A template instance is executed alone: components, buses, tags, anonymous components and
    parallel operators are left out.
    Simplifications.
    - Names are numbers.  A signal cell is given its number by the oracle [wire]; in the code the
      symbol is a string made of the name and the indexes (execute.rs:1543-1562 [create_symbol]).
      Number [k] is the key [S k] of symbolic expressions, key 0 being the constant.
    - A slice is a map from complete index lists to values.  Reading or writing a part of an array
      is an error of the model ([None]), as is every panic and every reported error of the code.
    - The record of assigned signals is not kept here (FlowModel models it), so the model accepts
      more programs than the code. *)
From stdpp Require Import prelude gmap list.
From Coq Require Import ZArith.
From Verif Require Import ModArithModel AlgebraModel.
Open Scope Z_scope.

(** ** Code.  program_structure/src/abstract_syntax_tree/ast.rs; the first argument of every node
    is its [elem_id]. *)
Inductive expr :=
| ENum (id : nat) (v : Z)
| EVar (id : nat) (x : nat) (idx : list expr)
| ESig (id : nat) (s : nat) (idx : list expr)
| EInfix (id : nat) (op : infix_op) (l r : expr)
| EPrefix (id : nat) (op : prefix_op) (e : expr)
| ESwitch (id : nat) (c t f : expr)
| ECall (id : nat) (f : nat) (args : list expr).

(** [SFill x dims e] is the assignment [x = UniformArray(e; dims)] to a whole array that the parser
    adds to the declaration of every array (ast_shortcuts.rs:76-85).
    [SSignal true] is [<==], [SSignal false] is [<--]. *)
Inductive stmt :=
| SInit (id : nat) (l : list stmt)
| SDecl (id : nat) (x : nat) (dims : list expr)
| SAssign (id : nat) (x : nat) (idx : list expr) (e : expr)
| SFill (id : nat) (x : nat) (dims : list expr) (e : expr)
| SSignal (id : nat) (eq : bool) (s : nat) (idx : list expr) (e : expr)
| SEqual (id : nat) (l r : expr)
| SIf (id : nat) (c : expr) (t : stmt) (f : option stmt)
| SWhile (id : nat) (c : expr) (b : stmt)
| SBlock (id : nat) (l : list stmt)
| SReturn (id : nat) (e : expr)
| SAssert (id : nat) (e : expr)
| SLog (id : nat) (es : list expr).

(** ast.rs [get_meta().elem_id] *)
Definition eid (e : expr) : nat :=
  match e with
  | ENum i _ | EVar i _ _ | ESig i _ _ | EInfix i _ _ _ | EPrefix i _ _ | ESwitch i _ _ _ | ECall i _ _ => i
  end.
Definition sid (s : stmt) : nat :=
  match s with
  | SInit i _ | SDecl i _ _ | SAssign i _ _ _ | SFill i _ _ _ | SSignal i _ _ _ _ | SEqual i _ _
  | SIf i _ _ _ | SWhile i _ _ | SBlock i _ | SReturn i _ | SAssert i _ | SLog i _ => i
  end.

(** Functions: parameters and body (program_archive function data). *)
Definition funs := nat -> option (list nat * list stmt).

(** ** Environments.  environment_utils/environment.rs; the innermost block first.  Shared by the
    symbolic and the concrete execution. *)
Notation arr A := (gmap (list Z) A).
Notation env A := (list (gmap nat (gmap (list Z) A))).

Fixpoint get {A} (x : nat) (e : env A) : option (arr A) :=
  match e with
  | [] => None
  | b :: r => match b !! x with Some a => Some a | None => get x r end
  end.
Fixpoint put {A} (x : nat) (a : arr A) (e : env A) : env A :=
  match e with
  | [] => []
  | b :: r => match b !! x with Some _ => <[x := a]> b :: r | None => b :: put x a r end
  end.
(** A second declaration in the same block is refused by the earlier symbol analysis. *)
Definition declare {A} (x : nat) (a : arr A) (e : env A) : option (env A) :=
  match e with
  | [] => None
  | b :: r => match b !! x with Some _ => None | None => Some (<[x := a]> b :: r) end
  end.
(** all the complete index lists of an array *)
Fixpoint cells (dims : list Z) : list (list Z) :=
  match dims with
  | [] => [[]]
  | d :: r => flat_map (fun i => (fun l => i :: l) <$> cells r) (seqZ 0 d)
  end.
(** memory_slice.rs [new_with_route] *)
Definition full {A} (dims : list Z) (v : A) : arr A := list_to_map ((fun i => (i, v)) <$> cells dims).
Definition scalar {A} (v : A) : arr A := {[ [] := v ]}.
(** execute.rs:1281-1323 [execute_call]: parameters bound to the values of the arguments *)
Definition bind_args {A} (xs : list nat) (vs : list A) : env A :=
  [list_to_map (zip xs (scalar <$> vs))].

#[global] Instance aexpr_eq_dec : EqDecision aexpr.
Proof. solve_decision. Defined.

(** ** Analysis.  execution_data/analysis.rs *)
Inductive known := Val (v : Z) | Top.
(** [a_reached], [a_computed]: the two maps of the code; an absent key is [Bottom].
    [a_skipped], [a_stable]: ghosts, used only to state theorems.  [a_skipped] lists the branches of
    inline conditions ([c ? t : f]) that were not executed because the condition was unknown;
    [a_stable] says that in every loop whose condition was unknown the second pass over the body
    changed nothing. *)
Record analysis := Analysis {
  a_reached : gset nat;
  a_computed : gmap nat known;
  a_skipped : list expr;
  a_stable : bool }.
Definition analysis0 : analysis := Analysis ∅ ∅ [] true.

(** analysis.rs:49-56 [least_upper_bound] *)
Definition lub (a : option known) (b : known) : known :=
  match a, b with
  | None, b => b
  | Some (Val x), Val y => if x =? y then Val x else Top
  | Some _, _ => Top
  end.
(** analysis.rs:23-31 [computed] *)
Definition computed (id : nat) (v : aexpr) (a : analysis) : analysis :=
  let k := match v with Number z => Val z | _ => Top end in
  Analysis (a_reached a) (<[id := lub (a_computed a !! id) k]> (a_computed a)) (a_skipped a) (a_stable a).
(** analysis.rs:16-18 [reached] *)
Definition reached (id : nat) (a : analysis) : analysis :=
  Analysis ({[id]} ∪ a_reached a) (a_computed a) (a_skipped a) (a_stable a).
Definition skip (es : list expr) (a : analysis) : analysis :=
  Analysis (a_reached a) (a_computed a) (es ++ a_skipped a) (a_stable a).
Definition note_stable (b : bool) (a : analysis) : analysis :=
  Analysis (a_reached a) (a_computed a) (a_skipped a) (a_stable a && b).

(** ** Symbolic execution *)
(** algebra.rs:635-645 [get_boolean_equivalence] *)
Definition bool_of (v : aexpr) (p : Z) : option bool :=
  match v with Number z => Some (as_bool z p) | _ => None end.

(** execute.rs:3698-3731, 3771-3795 [treat_indexing], [cast_index], [treat_accessing]: an index that
    is a number outside [usize] is an error, an index that is not a number makes the access
    undefined. *)
Inductive access := AccError | AccUnknown | AccKnown (l : list Z).
Definition usize_max : Z := 2 ^ 64.
Fixpoint access_of (vs : list aexpr) : access :=
  match vs with
  | [] => AccKnown []
  | Number z :: r =>
      if (0 <=? z) && (z <? usize_max) then
        match access_of r with AccKnown l => AccKnown (z :: l) | x => x end
      else AccError
  | _ :: r => match access_of r with AccError => AccError | _ => AccUnknown end
  end.

(** What the execution of a statement leaves: the returned value, whether the enclosing call may be
    simplified, the constraints added, the environment and the analysis. *)
Record outcome := Out {
  o_ret : option aexpr;
  o_simp : bool;
  o_cs : list constraint;
  o_env : env aexpr;
  o_an : analysis }.

Definition of_res {A} (r : res A) : option A := match r with Ok a => Some a | _ => None end.

(** a list of expressions, from left to right *)
Fixpoint sall (f : analysis -> expr -> option (aexpr * analysis)) (a : analysis) (l : list expr)
  : option (list aexpr * analysis) :=
  match l with
  | [] => Some ([], a)
  | e :: r => '(v, a1) ← f a e; '(vs, a2) ← sall f a1 r; Some (v :: vs, a2)
  end.

(** execute.rs:2705-2725 [execute_sequence_of_statements]: stops at the first statement that returns
    a value. *)
Fixpoint sseq (f : env aexpr -> analysis -> stmt -> option outcome) (E : env aexpr) (a : analysis)
  (l : list stmt) : option outcome :=
  match l with
  | [] => Some (Out None true [] E a)
  | s :: r =>
      o ← f E a s;
      match o_ret o with
      | Some _ => Some o
      | None =>
          o2 ← sseq f (o_env o) (o_an o) r;
          Some (Out (o_ret o2) (o_simp o && o_simp o2) (o_cs o ++ o_cs o2) (o_env o2) (o_an o2))
      end
  end.

(** execute.rs:2630-2703 [execute_conditional_statement].  [fs unk] executes a branch; inside an
    unknown condition the block type is [Unknown].  When both branches return, the code keeps the
    value of the first one unless the second is a larger array. *)
Definition scond (p : Z) (fe : analysis -> expr -> option (aexpr * analysis))
  (fs : bool -> env aexpr -> analysis -> stmt -> option outcome)
  (unk : bool) (E : env aexpr) (a : analysis) (c : expr) (t : stmt) (f : option stmt)
  : option (outcome * option bool) :=
  '(v, a1) ← fe a c;
  match bool_of v p with
  | Some true => o ← fs unk E a1 t; Some (o, Some true)
  | Some false =>
      match f with
      | Some s => o ← fs unk E a1 s; Some (o, Some false)
      | None => Some (Out None true [] E a1, Some false)
      end
  | None =>
      o1 ← fs true E a1 t;
      match f with
      | None => Some (o1, None)
      | Some s =>
          o2 ← fs true (o_env o1) (o_an o1) s;
          Some (Out (match o_ret o1 with Some v => Some v | None => o_ret o2 end)
                    (o_simp o1 && o_simp o2) (o_cs o1 ++ o_cs o2) (o_env o2) (o_an o2), None)
      end
  end.

(** [AExpr::default()] (algebra.rs:83-87), the value of the cells of a variable that is only
    declared (environment.rs:178-185). *)
Definition undefined_cell : aexpr := NonQuadratic.

Section Exec.
Context (p : Z) (wire : nat -> list Z -> option nat) (F : funs).

(** execute.rs:953-1270 [execute_expression]; the last lines record the value of the node when it is
    a single value and the node can be simplified.
    - variables: execute.rs:2837-2872 [execute_variable];
    - signals: execute.rs:2874-2960 [execute_signal];
    - operators: execute.rs:3636-3697;
    - calls: execute.rs:1281-1323 [execute_call], 3357-3376 [execute_function_call]: the body runs in
      a fresh environment and in a [Known] block. *)
Fixpoint sexpr (n : nat) (E : env aexpr) (a : analysis) (e : expr) : option (aexpr * analysis) :=
  match n with
  | O => None
  | S n =>
      match e with
      | ENum id v => Some (Number v, computed id (Number v) a)
      | EVar id x idx =>
          '(vs, a1) ← sall (sexpr n E) a idx;
          match access_of vs with
          | AccError => None
          | AccUnknown => Some (NonQuadratic, computed id NonQuadratic a1)
          | AccKnown l => c ← get x E; v ← c !! l; Some (v, computed id v a1)
          end
      | ESig id s idx =>
          '(vs, a1) ← sall (sexpr n E) a idx;
          match access_of vs with
          | AccError => None
          | AccUnknown => Some (NonQuadratic, computed id NonQuadratic a1)
          | AccKnown l => k ← wire s l; Some (Signal (S k), computed id (Signal (S k)) a1)
          end
      | EInfix id op l r =>
          '(x, a1) ← sexpr n E a l;
          '(y, a2) ← sexpr n E a1 r;
          v ← of_res (execute_infix_op op x y p);
          Some (v, computed id v a2)
      | EPrefix id op e1 =>
          '(x, a1) ← sexpr n E a e1;
          let v := execute_prefix_op op x p in
          Some (v, computed id v a1)
      | ESwitch id c t f =>
          '(x, a1) ← sexpr n E a c;
          match bool_of x p with
          | Some b =>
              '(v, a2) ← sexpr n E a1 (if b then t else f);
              Some (v, computed id v a2)
          | None => Some (NonQuadratic, computed id NonQuadratic (skip [t; f] a1))
          end
      | ECall id f args =>
          '(vs, a1) ← sall (sexpr n E) a args;
          '(xs, body) ← F f;
          if bool_decide (length xs = length vs) then
            o ← sseq (sstmt n true false) (bind_args xs vs) a1 body;
            v ← o_ret o;
            Some (v, if o_simp o then computed id v (o_an o) else o_an o)
          else None
      end
  end
(** execute.rs:233-855 [execute_statement].  [fn]: inside a function; [unk]: the block type is
    [Unknown]. *)
with sstmt (n : nat) (fn unk : bool) (E : env aexpr) (a : analysis) (s : stmt) : option outcome :=
  match n with
  | O => None
  | S n =>
      let a := reached (sid s) a in
      match s with
      | SInit _ l =>
          o ← sseq (sstmt n fn unk) E a l;
          Some (Out (o_ret o) true (o_cs o) (o_env o) (o_an o))
      | SDecl _ x dims =>
          '(vs, a1) ← sall (sexpr n E) a dims;
          match access_of vs with
          | AccKnown ds => E1 ← declare x (full ds undefined_cell) E; Some (Out None true [] E1 a1)
          | _ => None
          end
      | SAssign _ x idx e =>
          '(vs, a1) ← sall (sexpr n E) a idx;
          '(v, a2) ← sexpr n E a1 e;
          c ← get x E;
          match access_of vs with
          | AccError => None
          | AccUnknown => Some (Out None true [] (put x ((fun _ => NonQuadratic) <$> c) E) a2)
          | AccKnown l =>
              _ ← c !! l;
              Some (Out None true [] (put x (<[l := if unk then NonQuadratic else v]> c) E) a2)
          end
      | SFill _ x dims e =>
          '(vs, a1) ← sall (sexpr n E) a dims;
          '(v, a2) ← sexpr n E a1 e;
          c ← get x E;
          match access_of vs with
          | AccKnown ds =>
              let w := full ds (if unk then NonQuadratic else v) in
              if bool_decide (dom c = dom w) then Some (Out None true [] (put x w E) a2) else None
          | _ => None
          end
      | SSignal _ eq s idx e =>
          '(vs, a1) ← sall (sexpr n E) a idx;
          '(v, a2) ← sexpr n E a1 e;
          if fn then None else
          match access_of vs with
          | AccKnown l =>
              k ← wire s l;
              if eq then
                if unk then None else
                d ← of_res (asub (Signal (S k)) v p);
                c ← to_constraint d p;
                Some (Out None true [c] E a2)
              else Some (Out None true [] E a2)
          | _ => None
          end
      | SEqual _ l r =>
          if fn || unk then None else
          '(x, a1) ← sexpr n E a l;
          '(y, a2) ← sexpr n E a1 r;
          d ← of_res (asub x y p);
          c ← to_constraint d p;
          Some (Out None true [c] E a2)
      | SIf _ c t f =>
          '(o, _) ← scond p (sexpr n E) (sstmt n fn) unk E a c t f;
          Some o
      | SWhile id c b =>
          '(o, k) ← scond p (sexpr n E) (sstmt n fn) unk E a c b None;
          match k, o_ret o with
          | Some false, _ => Some o
          | _, Some _ => Some o
          | Some true, None =>
              o2 ← sstmt n fn unk (o_env o) (o_an o) (SWhile id c b);
              Some (Out (o_ret o2) (o_simp o && o_simp o2) (o_cs o ++ o_cs o2) (o_env o2) (o_an o2))
          | None, None =>
              '(o2, _) ← scond p (sexpr n (o_env o)) (sstmt n fn) unk (o_env o) (o_an o) c b None;
              Some (Out (o_ret o2) (o_simp o) (o_cs o ++ o_cs o2) (o_env o2)
                        (note_stable (bool_decide (o_env o2 = o_env o)) (o_an o2)))
          end
      | SBlock _ l =>
          o ← sseq (sstmt n fn unk) (∅ :: E) a l;
          Some (Out (o_ret o) (o_simp o) (o_cs o) (tail (o_env o)) (o_an o))
      | SReturn _ e =>
          if fn then
            '(v, a1) ← sexpr n E a e;
            Some (Out (Some (if unk then NonQuadratic else v)) true [] E a1)
          else None
      | SAssert _ e =>
          '(v, a1) ← sexpr n E a e;
          match bool_of v p with
          | Some true => Some (Out None true [] E a1)
          | Some false => None
          | None => Some (Out None false [] E a1)
          end
      | SLog _ es =>
          '(_, a1) ← sall (sexpr n E) a es;
          Some (Out None false [] E a1)
      end
  end.

(** execute.rs:3379-3470 [execute_template_call]: the statements of the body, in an environment
    with the values of the parameters and with a fresh analysis.  Parameters are known numbers. *)
Definition exec_template (n : nat) (xs : list nat) (vs : list Z) (body : list stmt) : option outcome :=
  sseq (sstmt n false false) (bind_args xs (Number <$> vs)) analysis0 body.
End Exec.

(** ** The filters *)
(** analysis.rs:20-22, 33-38 [is_reached], [read_computed] *)
Definition read_computed (A : analysis) (id : nat) : option Z :=
  match a_computed A !! id with Some (Val v) => Some v | _ => None end.
Definition is_reached (A : analysis) (id : nat) : bool := bool_decide (id ∈ a_reached A).

(** filters.rs:135-199 [computed_or_original] followed by [apply_computed_expr]. *)
Fixpoint known_expr (A : analysis) (e : expr) : expr :=
  match read_computed A (eid e) with
  | Some v => ENum (eid e) v
  | None =>
      match e with
      | ENum id v => ENum id v
      | EVar id x idx => EVar id x (known_expr A <$> idx)
      | ESig id s idx => ESig id s (known_expr A <$> idx)
      | EInfix id op l r => EInfix id op (known_expr A l) (known_expr A r)
      | EPrefix id op e => EPrefix id op (known_expr A e)
      | ESwitch id c t f => ESwitch id (known_expr A c) (known_expr A t) (known_expr A f)
      | ECall id f args => ECall id f (known_expr A <$> args)
      end
  end.

(** filters.rs:51-108 [apply_computed] *)
Fixpoint apply_computed (A : analysis) (s : stmt) : stmt :=
  match s with
  | SInit id l => SInit id (apply_computed A <$> l)
  | SDecl id x dims => SDecl id x (known_expr A <$> dims)
  | SAssign id x idx e => SAssign id x (known_expr A <$> idx) (known_expr A e)
  | SFill id x dims e => SFill id x (known_expr A <$> dims) (known_expr A e)
  | SSignal id b s idx e => SSignal id b s (known_expr A <$> idx) (known_expr A e)
  | SEqual id l r => SEqual id (known_expr A l) (known_expr A r)
  | SIf id c t f => SIf id (known_expr A c) (apply_computed A t) (apply_computed A <$> f)
  | SWhile id c b => SWhile id (known_expr A c) (apply_computed A b)
  | SBlock id l => SBlock id (apply_computed A <$> l)
  | SReturn id e => SReturn id (known_expr A e)
  | SAssert id e => SAssert id (known_expr A e)
  | SLog id es => SLog id (known_expr A <$> es)
  end.

(** filters.rs:8-49 [clean_dead_code]: the cleaned statement and whether it is empty. *)
Fixpoint clean (p : Z) (A : analysis) (s : stmt) : stmt * bool :=
  match s with
  | SWhile id c b => let '(b', e) := clean p A b in (SWhile id c b', e)
  | SIf id c t f =>
      let '(t', et) := clean p A t in
      let fe := clean p A <$> f in
      let ef := match fe with Some (_, x) => x | None => true end in
      let f' := if ef then None else fst <$> fe in
      let s' := match read_computed A (eid c) with
                | Some v => if as_bool v p then t' else default (SBlock id []) f'
                | None => SIf id c t' f'
                end in
      (s', et && ef)
  | SBlock id l =>
      let l' := flat_map (fun w => if is_reached A (sid w) then
                                     let '(w', e) := clean p A w in if e then [] else [w']
                                   else []) l in
      (SBlock id l', match l' with [] => true | _ => false end)
  | s => (s, false)
  end.

(** executed_program.rs:105-112: the code of a template instance handed to the later phases.  The
    code of a template is a block. *)
Definition filter_code (p : Z) (A : analysis) (s : stmt) : stmt :=
  apply_computed A (fst (clean p A s)).
