(** The check of types: which numbers of dimensions the variables, signals and expressions of a program
    have, and which programs are refused because of them.

    Simplifications.  Buses, tags and anonymous components (removed before) are left out; so are file
    locations.  An access is a list of indexes, then at most one signal of a component with its own
    indexes: without buses and tags every longer access is an error.  Texts in [log] are dropped, they are
    not examined.  Numbers are not inspected.  Reports are the names of their codes. *)
From stdpp Require Import prelude gmap strings.
From Coq Require Import ZArith.
Open Scope string_scope.
Open Scope list_scope.
Open Scope nat_scope.

(** ** Programs *)
(** program_structure/src/abstract_syntax_tree/ast.rs:287-358; an access is [x[i][j].f[k]] *)
Inductive expr :=
| Number (z : Z)
| ArrayInLine (values : list expr)
| UniformArray (value dimension : expr)
| InfixOp (o : string) (l r : expr)
| PrefixOp (o : string) (e : expr)
| ParallelOp (e : expr)
| InlineSwitch (c t f : expr)
| VariableOf (x : string) (idx : list expr) (field : option (string * list expr))
| Call (f : string) (args : list expr).

Inductive skind := Input | Output | Intermediate.
(** ast.rs:278-285; a component carries the template found by the decorator before
    (decorators/component_type_inference.rs:12-26) *)
Inductive kind := KVar | KSignal (k : skind) | KComponent (inferred : option string).
Inductive assign_op := AssignVar | AssignSignal | AssignConstraintSignal.
(** ast.rs:201-270 *)
Inductive stmt :=
| IfThenElse (c : expr) (t : stmt) (f : option stmt)
| While (c : expr) (s : stmt)
| Return (e : expr)
| InitializationBlock (k : kind) (l : list stmt)
| Declaration (k : kind) (x : string) (dims : list expr)
| Substitution (x : string) (idx : list expr) (field : option (string * list expr)) (o : assign_op) (e : expr)
| UnderscoreSubstitution (o : assign_op) (e : expr)
| ConstraintEquality (l r : expr)
| LogCall (args : list expr)
| Block (l : list stmt)
| Assert (e : expr).

(** program_structure/src/program_library/function_data.rs:8-16, template_data.rs:13-27: parameters and
    body.  The body is a block; [get_body_as_vec] gives its statements *)
Record def := Def { params : list string; body : list stmt }.
(** program_structure/src/program_library/program_archive.rs:13-30 *)
Record program := Program { functions : gmap string def; templates : gmap string def; main : expr }.

(** ** Results *)
(** type_check.rs:31-75: the dimensions of an arithmetic value, or a template *)
Inductive ty := Arith (d : nat) | Templ (t : string).
(** type_check.rs:46-48 *)
Definition is_template (t : ty) : bool := match t with Templ _ => true | Arith _ => false end.
(** type_check.rs:55-63 *)
Definition dim (t : ty) : nat := match t with Arith d => d | Templ _ => 0 end.
(** type_check.rs:64-75 *)
Definition same_type (l r : ty) : bool :=
  match l, r with
  | Templ a, Templ b => bool_decide (a = b)
  | Arith a, Arith b => a =? b
  | _, _ => false
  end.

(** type_register.rs:15-60: the instances of functions and templates examined so far, by name and
    dimensions of the arguments, with the dimensions of what they return *)
Notation register := (gmap (string * list nat) nat).
Definition report : Type := string.
(** The result of a part of the check: a value, the register after it and the reports it adds; or a panic;
    or calls nested deeper than the bound *)
Inductive res (A : Type) := Done (a : A) (r : register) (p : list report) | Panic | Deep.
Arguments Done {A} a r p. Arguments Panic {A}. Arguments Deep {A}.
Definition M (A : Type) : Type := register -> res A.
Global Instance M_ret : MRet M := fun A a r => Done a r [].
Global Instance M_bind : MBind M := fun A B k m r =>
  match m r with
  | Done a r1 p1 => match k a r1 with Done b r2 p2 => Done b r2 (p1 ++ p2) | Panic => Panic | Deep => Deep end
  | Panic => Panic
  | Deep => Deep
  end.
(** type_check.rs:1470-1564 *)
Definition add_report (c : report) : M unit := fun r => Done tt r [c].
(** type_check.rs:1461-1468; [None] is [Err(())] *)
Definition add_report_and_end {A} (c : report) : M (option A) := _ ← add_report c; mret None.
Definition panic {A} : M A := fun _ => Panic.
(** a report in some cases *)
Definition report_if (b : bool) (c : report) : M unit := if b then add_report c else mret tt.

(** ** Environments *)
(** program_structure/src/utils/environment.rs:36-48: the blocks of variables (innermost first), and the
    signals and components of the template, which do not belong to blocks *)
Record env := Env {
  blocks : list (gmap string nat);
  inputs : gmap string nat;
  outputs : gmap string nat;
  intermediates : gmap string nat;
  components : gmap string (option string * nat) }.
(** environment.rs:50-66 *)
Definition empty_env : env := Env [∅] ∅ ∅ ∅ ∅.
(** environment.rs:122-132, 163-170 *)
Fixpoint get_variable (bs : list (gmap string nat)) (x : string) : option nat :=
  match bs with [] => None | b :: bs => match b !! x with Some d => Some d | None => get_variable bs x end end.
(** environment.rs:368-378 *)
Definition get_signal (E : env) (x : string) : option nat :=
  match inputs E !! x with
  | Some d => Some d
  | None => match outputs E !! x with Some d => Some d | None => intermediates E !! x end
  end.
(** environment.rs:154-158: into the innermost block *)
Definition add_variable (E : env) (x : string) (d : nat) : env :=
  match blocks E with
  | [] => E
  | b :: bs => Env (<[x := d]> b :: bs) (inputs E) (outputs E) (intermediates E) (components E)
  end.
(** environment.rs:147-153 *)
Definition add_block (E : env) : env := Env (∅ :: blocks E) (inputs E) (outputs E) (intermediates E) (components E).
Definition remove_block (E : env) : env :=
  Env (tail (blocks E)) (inputs E) (outputs E) (intermediates E) (components E).
(** type_check.rs:205-224 *)
Definition declare (E : env) (k : kind) (x : string) (d : nat) : env :=
  match k with
  | KVar => add_variable E x d
  | KSignal Input => Env (blocks E) (<[x := d]> (inputs E)) (outputs E) (intermediates E) (components E)
  | KSignal Output => Env (blocks E) (inputs E) (<[x := d]> (outputs E)) (intermediates E) (components E)
  | KSignal Intermediate => Env (blocks E) (inputs E) (outputs E) (<[x := d]> (intermediates E)) (components E)
  | KComponent t => Env (blocks E) (inputs E) (outputs E) (intermediates E) (<[x := (t, d)]> (components E))
  end.
(** type_check.rs:307-311: the template of a component without one *)
Definition set_component (E : env) (x : string) (t : string) (d : nat) : env :=
  Env (blocks E) (inputs E) (outputs E) (intermediates E) (<[x := (Some t, d)]> (components E)).

(** template_data.rs:160-245: the inputs and outputs declared anywhere in a template; a later declaration
    replaces an earlier one *)
Definition wires : Type := gmap string nat * gmap string nat.
Fixpoint fill_inputs_and_outputs (s : stmt) (w : wires) {struct s} : wires :=
  let fills := fix go l w := match l with [] => w | s :: l => go l (fill_inputs_and_outputs s w) end in
  match s with
  | IfThenElse _ t f =>
    let w := fill_inputs_and_outputs t w in
    match f with Some f => fill_inputs_and_outputs f w | None => w end
  | Block l => fills l w
  | While _ s => fill_inputs_and_outputs s w
  | InitializationBlock _ l => fills l w
  | Declaration (KSignal Input) x ds => (<[x := length ds]> w.1, w.2)
  | Declaration (KSignal Output) x ds => (w.1, <[x := length ds]> w.2)
  | _ => w
  end.
Definition template_wires (t : def) : wires := foldl (fun w s => fill_inputs_and_outputs s w) (∅, ∅) (body t).
(** type_check.rs:1246-1254 ([get_input_info], [get_output_info]: template_data.rs:118-123) *)
Definition wire (t : def) (f : string) : option nat :=
  match (template_wires t).1 !! f with Some d => Some d | None => (template_wires t).2 !! f end.

(** ** Symbols *)
(** type_check.rs:1066-1072 *)
Inductive symbol_information := SComponent (t : option string) | SVar (d : nat) | SSignal (d : nat).

Section program.
Context (P : program).

(** type_check.rs:1074-1185, for one field and no tags.  The subtraction of usize numbers in line 1095
    wraps around: the numbers are compared *)
Definition check_if_it_is_a_tag (E : env) (x : string) (n : nat) (field : option (string * nat)) : M (option unit) :=
  match field with
  | None => mret (Some tt)
  | Some _ =>
    match components E !! x with
    | Some (_, d) => if d =? n then mret (Some tt) else add_report_and_end "InvalidPartialArray"
    | None =>
      match get_variable (blocks E) x with
      | Some _ => mret (Some tt)
      | None => match get_signal E x with Some _ => add_report_and_end "InvalidTagAccess" | None => panic end
      end
    end
  end.

(** type_check.rs:1188-1352: the access has [n] indexes, then perhaps a signal with some indexes *)
Definition apply_access_to_symbol (E : env) (x : string) (n : nat) (field : option (string * nat))
  : M (option symbol_information) :=
  ok ← check_if_it_is_a_tag E x n field;
  match ok with
  | None => mret None
  | Some _ =>
    let dimension :=
      match components E !! x with
      | Some (_, d) => Some d
      | None => match get_signal E x with Some d => Some d | None => get_variable (blocks E) x end
      end in
    match dimension with
    | None => panic
    | Some d =>
      if d <? n then add_report_and_end "InvalidArrayAccess"
      else
        let d := d - n in
        match field with
        | Some (f, k) =>
          if 0 <? d then add_report_and_end "InvalidArrayAccess"
          else
            match components E !! x with
            | Some (None, _) => add_report_and_end "UninitializedComponent"
            | Some (Some t, _) =>
              match templates P !! t with
              | None => panic
              | Some t =>
                match wire t f with
                | None => add_report_and_end "InvalidSignalAccess"
                | Some d => if d <? k then add_report_and_end "InvalidArrayAccess" else mret (Some (SSignal (d - k)))
                end
              end
            | None => add_report_and_end "InvalidTagAccess"
            end
        | None =>
          match get_variable (blocks E) x, get_signal E x, components E !! x with
          | Some _, _, _ => mret (Some (SVar d))
          | None, Some _, _ => mret (Some (SSignal d))
          | None, None, Some (t, _) =>
            if d =? 0 then mret (Some (SComponent t)) else add_report_and_end "InvalidPartialArray"
          | None, None, None => add_report_and_end "InvalidPartialArray"
          end
        end
    end
  end.

(** ** Expressions *)
Section calls.
(** what a call with arguments of these dimensions gives (below) *)
Context (call : string -> list nat -> M (option ty)).

(** type_check.rs:1355-1375: all are examined, also after an error *)
Definition type_array (te : expr -> M (option ty)) : list expr -> M (option (list ty)) :=
  fix go l := match l with
  | [] => mret (Some [])
  | e :: l =>
    t ← te e;
    ts ← go l;
    mret (match t, ts with Some t, Some ts => Some (t :: ts) | _, _ => None end)
  end.
(** lengths and indexes: type_check.rs:180-203, 1018-1043 *)
Definition check_size (t : ty) : M unit :=
  if is_template t then add_report "InvalidArraySizeT" else report_if (0 <? dim t) "InvalidArraySize".
Definition check_sizes : list ty -> M unit :=
  fix go l := match l with [] => mret tt | t :: l => _ ← check_size t; go l end.
(** conditions and arguments of log and assert: type_check.rs:500-520, 566-587 *)
Definition check_single (t : ty) : M unit :=
  if is_template t then add_report "MustBeSingleArithmeticT" else report_if (0 <? dim t) "MustBeSingleArithmetic".
(** type_check.rs:1013-1063: an index without a type is skipped *)
Definition treat_indexes (te : expr -> M (option ty)) : list expr -> M unit :=
  fix go l := match l with
  | [] => mret tt
  | e :: l => t ← te e; _ ← match t with Some t => check_size t | None => mret tt end; go l
  end.
Definition treat_access (te : expr -> M (option ty)) (idx : list expr) (field : option (string * list expr))
  : M (nat * option (string * nat)) :=
  _ ← treat_indexes te idx;
  match field with
  | None => mret (length idx, None)
  | Some (f, l) => _ ← treat_indexes te l; mret (length idx, Some (f, length l))
  end.
(** type_check.rs:659-693 *)
Definition check_elements (d : nat) : list ty -> M unit :=
  fix go l := match l with
  | [] => mret tt
  | t :: l =>
    _ ← (if is_template t then add_report "InvalidArrayType" else report_if (negb (d =? dim t)) "NonHomogeneousArray");
    go l
  end.
(** operands: type_check.rs:739-756, 761 *)
Definition not_number (t : ty) : bool := is_template t || (0 <? dim t).
(** type_check.rs:873-888 *)
Definition check_arguments : list ty -> M bool :=
  fix go l := match l with
  | [] => mret true
  | t :: l => _ ← report_if (is_template t) "InvalidArgumentInCall"; b ← go l; mret (negb (is_template t) && b)
  end.

(** type_check.rs:645-985 *)
Fixpoint type_expression (E : env) (e : expr) {struct e} : M (option ty) :=
  match e with
  | Number _ => mret (Some (Arith 0))
  | ArrayInLine values =>
    ts ← type_array (type_expression E) values;
    match ts with
    | None => mret None
    | Some [] => add_report_and_end "EmptyArrayInlineDeclaration"
    | Some (t :: ts) => _ ← check_elements (dim t) (t :: ts); mret (Some (Arith (dim t + 1)))
    end
  | UniformArray value dimension =>
    t ← type_expression E value;
    match t with
    | None => mret None
    | Some t =>
      _ ← report_if (is_template t) "InvalidArrayType";
      n ← type_expression E dimension;
      match n with
      | None => mret None
      | Some n => _ ← report_if (not_number n) "InvalidArrayType"; mret (Some (Arith (dim t + 1)))
      end
    end
  | InfixOp _ l r =>
    l ← type_expression E l;
    r ← type_expression E r;
    match l, r with
    | Some l, Some r =>
      _ ← report_if (not_number l) "InfixOperatorWithWrongTypes";
      _ ← report_if (not_number r) "InfixOperatorWithWrongTypes";
      mret (if not_number l || not_number r then None else Some (Arith 0))
    | _, _ => mret None
    end
  | PrefixOp _ e =>
    t ← type_expression E e;
    match t with
    | None => mret None
    | Some t => if not_number t then add_report_and_end "PrefixOperatorWithWrongTypes" else mret (Some (Arith 0))
    end
  | ParallelOp e =>
    t ← type_expression E e;
    match t with
    | None => mret None
    | Some t => if is_template t then mret (Some t) else add_report_and_end "ParallelOperatorWithWrongTypes"
    end
  | InlineSwitch c t f =>
    c ← type_expression E c;
    t ← type_expression E t;
    f ← type_expression E f;
    match t with
    | None => mret None
    | Some t =>
      match c with
      | None => mret (Some t)
      | Some c =>
        _ ← check_single c;
        match f with
        | None => mret (Some t)
        | Some f => _ ← report_if (negb (same_type t f)) "NonCompatibleBranchTypes"; mret (Some t)
        end
      end
    end
  | VariableOf x idx field =>
    '(n, field) ← treat_access (type_expression E) idx field;
    s ← apply_access_to_symbol E x n field;
    match s with
    | None => mret None
    | Some (SComponent (Some t)) => mret (Some (Templ t))
    | Some (SComponent None) => add_report_and_end "UninitializedSymbolInExpression"
    | Some (SVar d) | Some (SSignal d) => mret (Some (Arith d))
    end
  | Call f args =>
    ts ← type_array (type_expression E) args;
    match ts with
    | None => mret (match templates P !! f with Some _ => Some (Templ f) | None => None end)
    | Some ts =>
      ok ← check_arguments ts;
      if (ok : bool) then call f (dim <$> ts)
      else mret (match templates P !! f with Some _ => Some (Templ f) | None => None end)
    end
  end.

(** ** Statements *)
(** the operator of an assignment: type_check.rs:271-312 *)
Definition operator_error (s : symbol_information) (o : assign_op) : option report :=
  match s, o with
  | SSignal _, AssignConstraintSignal | SSignal _, AssignSignal => None
  | SVar _, AssignVar | SComponent _, AssignVar => None
  | SSignal _, AssignVar => Some "WrongTypesInAssignOperationOperatorSignal"
  | _, _ => Some "WrongTypesInAssignOperationOperatorNoSignal"
  end.
(** type_check.rs:313-427 *)
Definition type_substitution (E : env) (x : string) (s : symbol_information) (t : ty) : M env :=
  match s with
  | SComponent c =>
    match t, c with
    | Templ t, None =>
      match components E !! x with Some (_, d) => mret (set_component E x t d) | None => panic end
    | Templ t, Some c => _ ← report_if (negb (bool_decide (c = t))) "WrongTypesInAssignOperationArrayTemplates"; mret E
    | Arith _, _ => _ ← add_report "WrongTypesInAssignOperationTemplate"; mret E
    end
  | SSignal d | SVar d =>
    _ ← (if is_template t then add_report "WrongTypesInAssignOperationExpression"
         else report_if (negb (d =? dim t)) "WrongTypesInAssignOperationDims");
    mret E
  end.
(** type_check.rs:484-511: the first argument without a type ends the examination *)
Definition type_log (te : expr -> M (option ty)) : list expr -> M unit :=
  fix go l := match l with
  | [] => mret tt
  | e :: l => t ← te e; match t with None => mret tt | Some t => _ ← check_single t; go l end
  end.

(** type_check.rs:166-643; [ret]: the dimensions of what the function returns *)
Fixpoint type_statement (ret : option nat) (E : env) (s : stmt) {struct s} : M env :=
  let type_statements := fix go E l :=
    match l with [] => mret E | s :: l => E ← type_statement ret E s; go E l end in
  match s with
  | InitializationBlock _ l => type_statements E l
  | Declaration k x ds =>
    ts ← type_array (type_expression E) ds;
    _ ← check_sizes (default [] ts);
    mret (declare E k x (length ds))
  | Substitution x idx field o e =>
    t ← type_expression E e;
    match t with
    | None => mret E
    | Some t =>
      '(n, field) ← treat_access (type_expression E) idx field;
      s ← apply_access_to_symbol E x n field;
      match s with
      | None => mret E
      | Some s =>
        match operator_error s o with
        | Some c => _ ← add_report c; mret E
        | None => type_substitution E x s t
        end
      end
    end
  | ConstraintEquality l r =>
    l ← type_expression E l;
    r ← type_expression E r;
    match l, r with
    | Some l, Some r =>
      _ ← report_if (is_template l) "MustBeArithmetic";
      _ ← report_if (is_template r) "MustBeArithmetic";
      _ ← report_if (negb (dim r =? dim l)) "MustBeSameDimension";
      mret E
    | _, _ => mret E
    end
  | LogCall args => _ ← type_log (type_expression E) args; mret E
  | Assert e =>
    t ← type_expression E e;
    _ ← match t with None => mret tt | Some t => check_single t end;
    mret E
  | Return e =>
    t ← type_expression E e;
    match t with
    | None => mret E
    | Some t =>
      match ret with
      | None => panic
      | Some d => _ ← report_if (negb (d =? dim t)) "ExpectedDimDiffGotDim"; mret E
      end
    end
  | IfThenElse c t f =>
    c ← type_expression E c;
    E ← type_statement ret E t;
    E ← match f with Some f => type_statement ret E f | None => mret E end;
    _ ← match c with None => mret tt | Some c => check_single c end;
    mret E
  | While c s =>
    c ← type_expression E c;
    E ← type_statement ret E s;
    _ ← match c with None => mret tt | Some c => check_single c end;
    mret E
  | Block l => E ← type_statements (add_block E) l; mret (remove_block E)
  | UnderscoreSubstitution _ e =>
    t ← type_expression E e;
    _ ← match t with None => mret tt | Some t => report_if (is_template t) "MustBeArithmetic" end;
    mret E
  end.
(** type_check.rs:988-996 *)
Definition treat_sequence (ret : option nat) : env -> list stmt -> M env :=
  fix go E l := match l with [] => mret E | s :: l => E ← type_statement ret E s; go E l end.
End calls.

(** ** The dimensions of what a function returns, from its first return *)
(** type_given_function.rs:8-17: [None]: a panic or calls nested deeper than the bound *)
Definition obind {A B} (x : option A) (k : A -> option B) : option B := match x with Some a => k a | None => None end.
Local Notation "p <~ x ; k" := (obind x (fun p => k)) (at level 20, x at level 100, k at level 200, right associativity).
Local Notation "' p <~ x ; k" := (obind x (fun p => k)) (at level 20, p pattern, x at level 100, k at level 200, right associativity).
Section given.
(** type_given_function.rs:45-66, below *)
Context (start : string -> gset string -> list nat -> option (option nat * gset string)).
(** type_given_function.rs:197-323; the functions explored so far are returned too *)
Definition given_arguments (look : expr -> gset string -> option (option nat * gset string))
  : list expr -> gset string -> option (option (list nat) * gset string) :=
  fix go l X := match l with
  | [] => Some (Some [], X)
  | e :: l =>
    '(t, X) <~ look e X;
    match t with
    | None => Some (None, X)
    | Some t => '(ts, X) <~ go l X; Some ((cons t) <$> ts, X)
    end
  end.
Fixpoint look_for_type (bs : list (gmap string nat)) (e : expr) (X : gset string) {struct e}
  : option (option nat * gset string) :=
  match e with
  | InfixOp _ l r =>
    '(t, X) <~ look_for_type bs l X;
    match t with Some t => Some (Some t, X) | None => look_for_type bs r X end
  | PrefixOp _ e | ParallelOp e => look_for_type bs e X
  | InlineSwitch _ t f =>
    '(t, X) <~ look_for_type bs t X;
    match t with Some t => Some (Some t, X) | None => look_for_type bs f X end
  | VariableOf x idx field =>
    d <~ get_variable bs x;
    let n := length idx + match field with None => 0 | Some (_, l) => 1 + length l end in
    Some (if d <? n then None else Some (d - n), X)
  | Number _ => Some (Some 0, X)
  | ArrayInLine values =>
    match values with
    | [] => None
    | e :: _ => '(t, X) <~ look_for_type bs e X; Some (S <$> t, X)
    end
  | UniformArray e _ => '(t, X) <~ look_for_type bs e X; Some (S <$> t, X)
  | Call f args =>
    if decide (f ∈ X) then Some (None, X)
    else
      '(ts, X) <~ given_arguments (look_for_type bs) args X;
      match ts with None => Some (None, X) | Some ts => start f X ts end
  end.
(** type_given_function.rs:91-195: the blocks after the statement are returned too *)
Fixpoint look_for_return (bs : list (gmap string nat)) (s : stmt) (X : gset string) {struct s}
  : option (option nat * list (gmap string nat) * gset string) :=
  match s with
  | IfThenElse _ t f =>
    '(d, bs, X) <~ look_for_return bs t X;
    match d, f with
    | None, Some f => look_for_return bs f X
    | _, _ => Some (d, bs, X)
    end
  | While _ s => look_for_return bs s X
  | Return e => '(d, X) <~ look_for_type bs e X; Some (d, bs, X)
  | InitializationBlock _ l =>
    '(bs, X) <~ (fix go bs l X := match l with
      | [] => Some (bs, X)
      | s :: l => '(_, bs, X) <~ look_for_return bs s X; go bs l X
      end) bs l X;
    Some (None, bs, X)
  | Declaration _ x ds => match bs with [] => None | b :: bs => Some (None, <[x := length ds]> b :: bs, X) end
  | Block l =>
    '(d, bs, X) <~ (fix go bs l X := match l with
      | [] => Some (None, bs, X)
      | s :: l =>
        '(d, bs, X) <~ look_for_return bs s X;
        match d with Some d => Some (Some d, bs, X) | None => go bs l X end
      end) (∅ :: bs) l X;
    Some (d, tail bs, X)
  | _ => Some (None, bs, X)
  end.
(** type_given_function.rs:68-90 *)
Definition look_for_return_value : list (gmap string nat) -> list stmt -> gset string -> option (option nat * gset string) :=
  fix go bs l X := match l with
  | [] => Some (None, X)
  | s :: l => '(d, bs, X) <~ look_for_return bs s X; match d with Some d => Some (Some d, X) | None => go bs l X end
  end.
End given.
(** the parameters with the dimensions of the arguments: type_given_function.rs:55-58, type_check.rs:1395-1398 *)
Definition bind_parameters (xs : list string) (ds : list nat) : gmap string nat :=
  foldl (fun b '(x, d) => <[x := d]> b) ∅ (zip xs ds).
(** type_given_function.rs:45-66 *)
Fixpoint start (n : nat) (f : string) (X : gset string) (ds : list nat) : option (option nat * gset string) :=
  match n with
  | O => None
  | S n =>
    F <~ functions P !! f;
    look_for_return_value (start n) [bind_parameters (params F) ds] (body F) ({[f]} ∪ X)
  end.
(** type_given_function.rs:10-17.  Each call explores one more function: more calls than functions are
    never nested *)
Definition type_given_function (f : string) (ds : list nat) : option (option nat) :=
  fst <$> start (S (size (functions P))) f ∅ ds.

(** ** Calls *)
(** type_check.rs:1377-1399 *)
Definition call_environment (xs : list string) (ds : list nat) : env :=
  Env [bind_parameters xs ds] ∅ ∅ ∅ ∅.
(** type_check.rs:889-921, 1402-1416, 1428-1458.  [n] bounds the depth of the calls.  The dimensions
    returned are only set in functions, which call no templates: inside templates there are none *)
Fixpoint call (n : nat) (f : string) (ds : list nat) {struct n} : M (option ty) :=
  match n with
  | O => fun _ => Deep
  | S n =>
    match functions P !! f with
    | Some F =>
      if negb (length ds =? length (params F)) then _ ← add_report "WrongNumberOfArguments"; mret (Some (Templ f))
      else fun r =>
        match r !! (f, ds) with
        | Some d => Done (Some (Arith d)) r []
        | None =>
          match type_given_function f ds with
          | None => Panic
          | Some None => add_report_and_end "UnableToTypeFunction" r
          | Some (Some d) =>
            (_ ← treat_sequence (call n) (Some d) (call_environment (params F) ds) (body F); mret (Some (Arith d)) : M (option ty))
              (<[(f, ds) := d]> r)
          end
        end
    | None =>
      match templates P !! f with
      | None => panic
      | Some T =>
        if negb (length ds =? length (params T)) then _ ← add_report "WrongNumberOfArguments"; mret (Some (Templ f))
        else fun r =>
          match r !! (f, ds) with
          | Some _ => Done (Some (Templ f)) r []
          | None =>
            (_ ← treat_sequence (call n) None (call_environment (params T) ds) (body T); mret (Some (Templ f)) : M (option ty))
              (<[(f, ds) := 0]> r)
          end
      end
    end
  end.

(** type_check.rs:108-140: without tags *)
Definition check_main : M unit :=
  match main P with
  | Call f _ => match templates P !! f with Some _ => mret tt | None => add_report "IllegalMainExpression" end
  | _ => add_report "IllegalMainExpression"
  end.
(** type_check.rs:82-106 *)
Definition type_check (n : nat) : res unit :=
  (t ← type_expression (call n) empty_env (main P);
   match t with None => mret tt | Some _ => check_main end : M unit) ∅.

(** ** Two checks before *)
(** functions_free_of_template_elements.rs:134-230: is there no report? *)
Definition is_function (f : string) : bool := match functions P !! f with Some _ => true | None => false end.
Fixpoint free_expr (e : expr) {struct e} : bool :=
  match e with
  | Number _ => true
  | ArrayInLine l => forallb free_expr l
  | UniformArray a b | InfixOp _ a b => free_expr a && free_expr b
  | PrefixOp _ e | ParallelOp e => free_expr e
  | InlineSwitch c t f => free_expr c && free_expr t && free_expr f
  | VariableOf _ idx field => forallb free_expr idx && match field with None => true | Some _ => false end
  | Call f args => is_function f && forallb free_expr args
  end.
(** ast.rs:361-365 and [is_signal_operator], program_structure/src/abstract_syntax_tree/assign_op_impl.rs:4-10 *)
Definition is_signal_operator (o : assign_op) : bool := match o with AssignVar => false | _ => true end.
(** functions_free_of_template_elements.rs:22-132: is there no report? *)
Fixpoint free_of_template_elements (s : stmt) {struct s} : bool :=
  match s with
  | IfThenElse c t f =>
    free_expr c && free_of_template_elements t && match f with Some f => free_of_template_elements f | None => true end
  | While c s => free_expr c && free_of_template_elements s
  | Block l => forallb free_of_template_elements l
  | InitializationBlock k l => match k with KSignal _ => false | _ => forallb free_of_template_elements l end
  | Declaration k _ ds => match k with KVar => forallb free_expr ds | _ => false end
  | Substitution _ idx field o e =>
    negb (is_signal_operator o) && forallb free_expr idx && match field with None => true | Some _ => false end
      && free_expr e
  | ConstraintEquality _ _ => false
  | LogCall args => forallb free_expr args
  | Assert e | Return e => free_expr e
  | UnderscoreSubstitution o e => negb (is_signal_operator o) && free_expr e
  end.
(** no_returns_in_template.rs:19-52: is there no report? *)
Fixpoint free_of_returns (s : stmt) {struct s} : bool :=
  match s with
  | IfThenElse _ t f => free_of_returns t && match f with Some f => free_of_returns f | None => true end
  | While _ s => free_of_returns s
  | Block l => forallb free_of_returns l
  | Return _ => false
  | _ => true
  end.
(** check_types.rs:7-60, 94-135: these parts of the checks, in this order; true: no reports *)
Definition accepted (n : nat) : bool :=
  forallb (fun '(_, t) => forallb free_of_returns (body t)) (map_to_list (templates P)) &&
  forallb (fun '(_, f) => forallb free_of_template_elements (body f)) (map_to_list (functions P)) &&
  match type_check n with Done _ _ [] => true | _ => false end.
End program.
