(** Model of type_analysis/src/analyzers/symbol_analysis.rs (which names are declared and used where) and of the
    environment of the execution (program_structure/src/utils/environment.rs).

    Simplifications.  Positions in the source and report texts are left out.  Anonymous components and tuples are
    removed before (parser/src/syntax_sugar_remover.rs); types, operators and values are left out. *)
From stdpp Require Import prelude gmap numbers list strings.
Local Open Scope nat_scope.

(** ** Programs (program_structure/src/abstract_syntax_tree/ast.rs) *)
Inductive io := Input | Output | Intermediate.
Inductive kind := KVar | KSignal (t : io) | KComponent | KBus (t : io) (b : string) (tags : list string).
Inductive expr :=
| Number
| InfixOp (l r : expr)
| PrefixOp (e : expr)
| ParallelOp (e : expr)
| Switch (c t f : expr)
| VariableOf (x : string) (acc : list access)
| Call (f : string) (args : list expr)
| BusCall (b : string) (args : list expr)
| ArrayInLine (l : list expr)
| UniformArray (v d : expr)
with access := ArrayAccess (e : expr) | ComponentAccess (f : string).
Inductive stmt :=
| Return (e : expr)
| Underscore (e : expr)
| Substitution (x : string) (acc : list access) (e : expr)
| Equality (l r : expr)
| Initialization (l : list stmt)
| Declaration (k : kind) (x : string) (dims : list expr)
| Log (args : list (option expr))
| Assert (e : expr)
| Block (l : list stmt)
| While (c : expr) (s : stmt)
| If (c : expr) (t : stmt) (f : option stmt).
(** definitions: parameters and body *)
Record def := Def { params : list string; body : list stmt }.
(** functions, templates (with the names of their inputs), buses (with the names of their fields); the call of the main
    component and the list of public inputs *)
Record program := Program {
  functions : gmap string def; templates : gmap string (def * gset string); buses : gmap string (def * gset string);
  main : expr; public : list string }.

(** ** Analysis *)
Inductive report := Twice (x : string) | ParametersTwice | TagIsField (t : string) | Undeclared (x : string)
  | UnknownCall (f : string) | WrongArguments (f : string) | InvalidPublic (x : string).
(** symbol_analysis.rs:10-11: the last block first *)
Definition env := list (gset string).
(** symbol_analysis.rs:147-154 [symbol_in_environment] *)
Definition symbol_in_environment (E : env) (x : string) : bool := existsb (fun b => bool_decide (x ∈ b)) E.
(** symbol_analysis.rs:156-163 [add_symbol_to_block] *)
Definition add_symbol_to_block (E : env) (x : string) : env * bool :=
  match E with
  | [] => (E, false)
  | b :: E' => if decide (x ∈ b) then (E, false) else (({[x]} ∪ b) :: E', true)
  end.
Section analysis.
Context (P : program).
(** symbol_analysis.rs:381-396: the number of parameters; functions first *)
Definition parameters_of (f : string) : option nat :=
  match functions P !! f with
  | Some d => Some (length (params d))
  | None => match templates P !! f with Some d => Some (length (params d.1)) | None => None end
  end.
(** symbol_analysis.rs:334-508 [analyze_expression], with 299-332 [treat_variable]; the environment does not change *)
Fixpoint analyze_expression (E : env) (e : expr) : list report :=
  match e with
  | Number => []
  | InfixOp l r => analyze_expression E l ++ analyze_expression E r
  | PrefixOp e => analyze_expression E e
  | ParallelOp e => analyze_expression E e
  | Switch c t f => analyze_expression E c ++ analyze_expression E t ++ analyze_expression E f
  | VariableOf x acc =>
    (if symbol_in_environment E x then [] else [Undeclared x]) ++
    (fix go acc := match acc with
     | [] => []
     | ArrayAccess e :: acc => analyze_expression E e ++ go acc
     | ComponentAccess _ :: acc => go acc
     end) acc
  | Call f args =>
    match parameters_of f with
    | None => [UnknownCall f]
    | Some n =>
      if decide (length args = n) then (fix go l := match l with [] => [] | e :: l => analyze_expression E e ++ go l end) args
      else [WrongArguments f]
    end
  | BusCall b args =>
    match buses P !! b with
    | None => [UnknownCall b]
    | Some d =>
      if decide (length args = length (params d.1)) then (fix go l := match l with [] => [] | e :: l => analyze_expression E e ++ go l end) args
      else [WrongArguments b]
    end
  | ArrayInLine l => (fix go l := match l with [] => [] | e :: l => analyze_expression E e ++ go l end) l
  | UniformArray v d => analyze_expression E v ++ analyze_expression E d
  end.
(** symbol_analysis.rs:223-231, 239-241, ...: expressions one after the other *)
Definition analyze_expressions (E : env) (l : list expr) : list report := concat (analyze_expression E <$> l).
(** symbol_analysis.rs:243-259: a tag with the name of a field of the bus *)
Definition tag_reports (k : kind) : list report :=
  match k with
  | KBus _ b tags =>
    match buses P !! b with
    | Some d => TagIsField <$> filter (fun t => t ∈ d.2) tags
    | None => []
    end
  | _ => []
  end.
(** symbol_analysis.rs:165-297 [analyze_statement] *)
Fixpoint analyze_statement (s : stmt) (E : env) : env * list report :=
  let sequence := fix go (l : list stmt) (E : env) : env * list report :=
    match l with
    | [] => (E, [])
    | s :: l => let '(E1, r1) := analyze_statement s E in let '(E2, r2) := go l E1 in (E2, r1 ++ r2)
    end in
  match s with
  | Return e => (E, analyze_expression E e)
  | Underscore e => (E, analyze_expression E e)
  | Substitution x acc e => (E, analyze_expression E e ++ analyze_expression E (VariableOf x acc))
  | Equality l r => (E, analyze_expression E l ++ analyze_expression E r)
  | Initialization l => sequence l E
  | Declaration k x dims =>
    let r := analyze_expressions E dims in
    let '(E', success) := add_symbol_to_block E x in
    (E', r ++ (if success then [] else [Twice x]) ++ tag_reports k)
  | Log args => (E, analyze_expressions E (omap id args))
  | Assert e => (E, analyze_expression E e)
  | Block l => let '(E', r) := sequence l (∅ :: E) in (tl E', r)
  | While c s =>
    let r1 := analyze_expression E c in
    let '(E', r2) := analyze_statement s E in
    (E', r1 ++ r2)
  | If c t f =>
    let r1 := analyze_expression E c in
    let '(E1, r2) := analyze_statement t E in
    match f with
    | None => (E1, r1 ++ r2)
    | Some f => let '(E2, r3) := analyze_statement f E1 in (E2, r1 ++ r2 ++ r3)
    end
  end.
Fixpoint analyze_sequence (l : list stmt) (E : env) : env * list report :=
  match l with
  | [] => (E, [])
  | s :: l => let '(E1, r1) := analyze_statement s E in let '(E2, r2) := analyze_sequence l E1 in (E2, r1 ++ r2)
  end.
(** symbol_analysis.rs:110-120: whether a parameter occurs twice *)
Fixpoint add_parameters (ps : list string) (E : env) : env * bool :=
  match ps with
  | [] => (E, false)
  | p :: ps =>
    let '(E1, success) := add_symbol_to_block E p in
    let '(E2, collision) := add_parameters ps E1 in
    (E2, negb success || collision)
  end.
(** symbol_analysis.rs:107-145 [analyze_symbols] *)
Definition analyze_symbols (d : def) : list report :=
  let '(E, collision) := add_parameters (params d) [∅] in
  (if collision : bool then [ParametersTwice] else []) ++ (analyze_sequence (body d) E).2.
(** symbol_analysis.rs:68-105 [analyze_main] *)
Definition analyze_main : list report :=
  match main P with
  | Call f _ =>
    match templates P !! f with
    | Some d => InvalidPublic <$> filter (fun x => x ∉ d.2) (public P)
    | None => []
    end
  | _ => []
  end ++ analyze_expression [] (main P).
(** symbol_analysis.rs:13-66 [check_naming_correctness]; accepted: no reports.  The order of the definitions is that of
    a hash map, here that of a finite map. *)
Definition check_naming_correctness : list report :=
  analyze_main ++
  concat (analyze_symbols <$> ((map_to_list (templates P)).*2.*1 ++ (map_to_list (functions P)).*2 ++ (map_to_list (buses P)).*2.*1)).
End analysis.

(** ** The environment of the execution *)
(** what the execution does with names, in order: [Open] and [Close] for blocks (execute.rs:722-727); the calls of
    functions, templates and buses with their numbers of arguments *)
Inductive event := Open | Close | Declare (k : kind) (x : string) | Read (x : string) | Write (x : string)
  | CallTo (f : string) (n : nat) | BusOf (b : string) (n : nat).
(** environment.rs:39-49 [RawEnvironment]: only variables are kept by blocks (the last block first).  Contents are here
    the position of the declaration in the list of events. *)
Record environment := Environment {
  variables : list (gmap string nat);
  signal_inputs : gmap string nat; signal_outputs : gmap string nat; signal_intermediates : gmap string nat;
  bus_inputs : gmap string nat; bus_outputs : gmap string nat; bus_intermediates : gmap string nat;
  components : gmap string nat }.
(** environment.rs:50-64 *)
Definition new_environment : environment := Environment [∅] ∅ ∅ ∅ ∅ ∅ ∅ ∅.
(** environment.rs:147-160 [add_variable_block], [remove_variable_block], [add_variable] ([None]: the assertion fails),
    221-223, 256-272, 420-437 [add_component], [add_input], ...; declarations: execute.rs:258-379, 1359-1542 *)
Definition step (n : nat) (v : event) (E : environment) : option environment :=
  let 'Environment vs si so sm bi bo bm cs := E in
  match v with
  | Open => Some (Environment (∅ :: vs) si so sm bi bo bm cs)
  | Close => match vs with [] => None | _ :: vs => Some (Environment vs si so sm bi bo bm cs) end
  | Declare KVar x => match vs with [] => None | b :: vs => Some (Environment (<[x := n]> b :: vs) si so sm bi bo bm cs) end
  | Declare (KSignal Input) x => Some (Environment vs (<[x := n]> si) so sm bi bo bm cs)
  | Declare (KSignal Output) x => Some (Environment vs si (<[x := n]> so) sm bi bo bm cs)
  | Declare (KSignal Intermediate) x => Some (Environment vs si so (<[x := n]> sm) bi bo bm cs)
  | Declare (KBus Input _ _) x => Some (Environment vs si so sm (<[x := n]> bi) bo bm cs)
  | Declare (KBus Output _ _) x => Some (Environment vs si so sm bi (<[x := n]> bo) bm cs)
  | Declare (KBus Intermediate _ _) x => Some (Environment vs si so sm bi bo (<[x := n]> bm) cs)
  | Declare KComponent x => Some (Environment vs si so sm bi bo bm (<[x := n]> cs))
  | Read _ | Write _ | CallTo _ _ | BusOf _ _ => Some E
  end.
Fixpoint steps (n : nat) (tr : list event) (E : environment) : option environment :=
  match tr with [] => Some E | v :: tr => E' ← step n v E; steps (S n) tr E' end.
(** environment.rs:121-131, 165-172 [get_variable] *)
Fixpoint get_variable_in (vs : list (gmap string nat)) (x : string) : option nat :=
  match vs with [] => None | b :: vs => match b !! x with Some j => Some j | None => get_variable_in vs x end end.
Definition get_variable (E : environment) (x : string) : option nat := get_variable_in (variables E) x.
Definition first_of (a b : option nat) : option nat := match a with Some j => Some j | None => b end.
(** environment.rs:352-362 [get_signal], 516-526 [get_bus], 230-232 [get_component] *)
Definition get_signal (E : environment) (x : string) : option nat :=
  first_of (signal_inputs E !! x) (first_of (signal_outputs E !! x) (signal_intermediates E !! x)).
Definition get_bus (E : environment) (x : string) : option nat :=
  first_of (bus_inputs E !! x) (first_of (bus_outputs E !! x) (bus_intermediates E !! x)).
Definition get_component (E : environment) (x : string) : option nat := components E !! x.
(** execute.rs:967-979: a name that is read ([None]: unreachable) *)
Definition when_read (E : environment) (x : string) : option nat :=
  first_of (get_signal E x) (first_of (get_component E x) (first_of (get_variable E x) (get_bus E x))).
(** execute.rs:1569, 1625, 1763, 2133 [perform_assign]: a name that is assigned *)
Definition when_written (E : environment) (x : string) : option nat :=
  first_of (get_variable E x) (first_of (get_signal E x) (first_of (get_component E x) (get_bus E x))).
(** type_check.rs:1341-1351: the type of a name without accesses *)
Definition when_typed (E : environment) (x : string) : option nat :=
  first_of (get_variable E x) (first_of (get_signal E x) (first_of (get_bus E x) (get_component E x))).
(** type_reduction.rs:230-238: the memory of the generated code; otherwise a variable *)
Definition when_translated (E : environment) (x : string) : option nat :=
  first_of (get_signal E x) (first_of (get_component E x) (first_of (get_bus E x) (get_variable E x))).
(** dag/src/lib.rs:179-214 [add_input], [add_output], [add_intermediate]: numbers from 1 on; constraints look up the
    number of a name *)
Fixpoint correspondence (n : nat) (names : list string) (m : gmap string nat) : gmap string nat :=
  match names with [] => m | x :: names => correspondence (S n) names (<[x := S n]> m) end.
(** executed_template.rs:148-191 [add_input], [add_output], [add_intermediate]: the signals declared by an execution, in
    order, with their kinds; 270-311 [build_wires]: outputs, public inputs, other inputs, intermediates.  Here without
    dimensions and without buses. *)
Definition signals_of (t : io) (tr : list event) : list string :=
  omap (fun v => match v, t with
    | Declare (KSignal Input) x, Input => Some x
    | Declare (KSignal Output) x, Output => Some x
    | Declare (KSignal Intermediate) x, Intermediate => Some x
    | _, _ => None
    end) tr.
Definition build_wires (pub : list string) (tr : list event) : list string :=
  signals_of Output tr ++ filter (.∈ pub) (signals_of Input tr) ++ filter (.∉ pub) (signals_of Input tr) ++ signals_of Intermediate tr.
