(** Model of the pass that removes anonymous components and tuples
    ([parser/src/syntax_sugar_remover.rs]), with the part of the syntax tree
    it works on and the shortcuts it calls.

    Strings are Coq strings.  Of the [Meta] of a node only the start position
    is kept, on the two nodes whose position is used: anonymous components
    and loops.  All reports are one value, [Rejected]; [unreachable!()] and
    an index out of range are [Panicked]. *)
From Coq Require Import ZArith.
From stdpp Require Import base list strings pretty gmap.

(** ast.rs:361-365 [AssignOp]. *)
Inductive aop := AssignVar | AssignSignal | AssignConstraintSignal.
#[global] Instance aop_eq : EqDecision aop.
Proof. solve_decision. Defined.

(** ast.rs:368-389 [ExpressionInfixOpcode]. *)
Inductive infix :=
| Mul | Div | Add | Sub | Pow | IntDiv | Mod | ShiftL | ShiftR | LesserEq
| GreaterEq | Lesser | Greater | Eq | NotEq | BoolOr | BoolAnd | BitOr
| BitAnd | BitXor.

(** ast.rs:392-396 [ExpressionPrefixOpcode]. *)
Inductive prefix := PSub | BoolNot | Complement.

(** ast.rs:349-352 [Access], over a type of expressions. *)
Inductive access (E : Type) := ComponentAccess (s : string) | ArrayAccess (e : E).
Arguments ComponentAccess {E} s.
Arguments ArrayAccess {E} e.

(** ast.rs:287-346 [Expression]. *)
Inductive exp :=
| Infix (l : exp) (op : infix) (r : exp)
| Prefix (op : prefix) (r : exp)
| Switch (c a b : exp)
| Parallel (r : exp)
| Var (x : string) (acc : list (access exp))
| Num (z : Z)
| Call (id : string) (args : list exp)
| BusCall (id : string) (args : list exp)
| Anon (pos : N) (id : string) (par : bool) (params signals : list exp)
    (names : option (list (aop * string)))
| ArrayInLine (vs : list exp)
| Tuple (vs : list exp)
| UniformArray (v d : exp).

(** ast.rs:268-284 [SignalType], [VariableType]; the tags of a signal or bus
    are not kept, the pass never looks at them. *)
Inductive stype := Output | Input | Intermediate.
Inductive xtype :=
| XVar | XSignal (t : stype) | XComponent | XAnonymousComponent
| XBus (name : string) (t : stype).

(** ast.rs:410-413 [LogArgument]. *)
Inductive logarg := LogStr (s : string) | LogExp (e : exp).

(** ast.rs:201-265 [Statement]; the flag [is_constant] of a declaration is not
    kept. *)
Inductive stmt :=
| IfThenElse (c : exp) (a : stmt) (b : option stmt)
| While (pos : N) (c : exp) (s : stmt)
| Return (e : exp)
| InitializationBlock (t : xtype) (l : list stmt)
| Declaration (t : xtype) (x : string) (dims : list exp) (anonymous : bool)
| Substitution (x : string) (acc : list (access exp)) (op : aop) (e : exp)
| MultSubstitution (l : exp) (op : aop) (r : exp)
| UnderscoreSubstitution (op : aop) (e : exp)
| ConstraintEquality (l r : exp)
| LogCall (args : list logarg)
| Block (l : list stmt)
| Assert (e : exp).

(** The results of the pass. *)
Inductive res (A : Type) := Ok (a : A) | Rejected | Panicked.
Arguments Ok {A} a.
Arguments Rejected {A}.
Arguments Panicked {A}.

Definition rbind {A B} (r : res A) (f : A -> res B) : res B :=
  match r with Ok a => f a | Rejected => Rejected | Panicked => Panicked end.
Notation "'do' p <- r ; k" := (rbind r (fun x => match x with p => k end))
  (at level 200, p pattern, r at level 100, k at level 200).

(** A [for] with [?] in its body. *)
Fixpoint collect {A} (l : list (res A)) : res (list A) :=
  match l with
  | [] => Ok []
  | r :: l' => do a <- r; do as' <- collect l'; Ok (a :: as')
  end.

Definition reject_if (b : bool) : res unit := if b then Rejected else Ok tt.

(** expression_impl.rs:164-195 [contains_anonymous_comp]. *)
Fixpoint contains_anonymous_comp (e : exp) : bool :=
  match e with
  | Infix l _ r | UniformArray l r => contains_anonymous_comp l || contains_anonymous_comp r
  | Prefix _ r | Parallel r => contains_anonymous_comp r
  | Switch c a b =>
      contains_anonymous_comp c || contains_anonymous_comp a || contains_anonymous_comp b
  | BusCall _ args | Call _ args | Tuple args | ArrayInLine args =>
      existsb contains_anonymous_comp args
  | Anon _ _ _ _ _ _ => true
  | Var _ acc =>
      existsb (fun a => match a with
                        | ComponentAccess _ => false
                        | ArrayAccess e => contains_anonymous_comp e end) acc
  | Num _ => false
  end.

(** expression_impl.rs:197-240 [contains_tuple]. *)
Fixpoint contains_tuple (e : exp) : bool :=
  match e with
  | Infix l _ r | UniformArray l r => contains_tuple l || contains_tuple r
  | Prefix _ r | Parallel r => contains_tuple r
  | Switch c a b => contains_tuple c || contains_tuple a || contains_tuple b
  | BusCall _ args | Call _ args | ArrayInLine args => existsb contains_tuple args
  | Anon _ _ _ params signals _ => existsb contains_tuple params || existsb contains_tuple signals
  | Var _ acc =>
      existsb (fun a => match a with
                        | ComponentAccess _ => false
                        | ArrayAccess e => contains_tuple e end) acc
  | Num _ => false
  | Tuple _ => true
  end.

(** expression_impl.rs:69-76, 96-103, 114-121, 142-149. *)
Definition is_tuple (e : exp) : bool := match e with Tuple _ => true | _ => false end.
Definition is_call (e : exp) : bool := match e with Call _ _ => true | _ => false end.
Definition is_anonymous_comp (e : exp) : bool :=
  match e with Anon _ _ _ _ _ _ => true | _ => false end.

(** The loops over accesses at syntax_sugar_remover.rs:147-158 and 188-200. *)
Definition access_contains (f : exp -> bool) (acc : list (access exp)) : bool :=
  existsb (fun a => match a with
                    | ComponentAccess _ => false | ArrayAccess e => f e end) acc.

(** statement_impl.rs:129-203 [contains_anonymous_comp]. *)
Fixpoint stmt_contains_anonymous_comp (s : stmt) : bool :=
  match s with
  | IfThenElse c a b =>
      contains_anonymous_comp c || stmt_contains_anonymous_comp a ||
      match b with None => false | Some b' => stmt_contains_anonymous_comp b' end
  | While _ c s => contains_anonymous_comp c || stmt_contains_anonymous_comp s
  | Return e | Assert e | UnderscoreSubstitution _ e => contains_anonymous_comp e
  | InitializationBlock _ l | Block l => existsb stmt_contains_anonymous_comp l
  | Declaration _ _ dims _ => existsb contains_anonymous_comp dims
  | Substitution _ acc _ e =>
      access_contains contains_anonymous_comp acc || contains_anonymous_comp e
  | MultSubstitution l _ r | ConstraintEquality l r =>
      contains_anonymous_comp l || contains_anonymous_comp r
  | LogCall args =>
      existsb (fun a => match a with LogStr _ => false
                                | LogExp e => contains_anonymous_comp e end) args
  end.

(** syntax_sugar_remover.rs:172-274 [check_anonymous_components_expression]. *)
Fixpoint check_anonymous_exp (e : exp) : res unit :=
  match e with
  | UniformArray v d => reject_if (contains_anonymous_comp v || contains_anonymous_comp d)
  | Num _ => Ok tt
  | Var _ acc => reject_if (access_contains contains_anonymous_comp acc)
  | Infix l _ r => reject_if (contains_anonymous_comp l || contains_anonymous_comp r)
  | Prefix _ r => reject_if (contains_anonymous_comp r)
  | Switch c a b =>
      reject_if (contains_anonymous_comp c || contains_anonymous_comp a
                 || contains_anonymous_comp b)
  | Call _ args | BusCall _ args => reject_if (existsb contains_anonymous_comp args)
  | Anon _ _ _ params signals _ =>
      do _ <- reject_if (existsb contains_anonymous_comp params);
      do _ <- collect (map check_anonymous_exp signals); Ok tt
  | Tuple vs | ArrayInLine vs => do _ <- collect (map check_anonymous_exp vs); Ok tt
  | Parallel r =>
      if negb (is_call r) && negb (is_anonymous_comp r) && contains_anonymous_comp r
      then Rejected
      else if is_call r && contains_anonymous_comp r then Rejected else Ok tt
  end.

(** syntax_sugar_remover.rs:55-170 [check_anonymous_components_statement]. *)
Fixpoint check_anonymous_stmt (s : stmt) : res unit :=
  match s with
  | MultSubstitution l op r =>
      if contains_anonymous_comp l then Rejected
      else if contains_anonymous_comp r && bool_decide (op = AssignSignal) then Rejected
      else check_anonymous_exp r
  | IfThenElse c a b =>
      if contains_anonymous_comp c then Rejected
      else do _ <- check_anonymous_stmt a;
           match b with None => Ok tt | Some b' => check_anonymous_stmt b' end
  | While _ c s => if contains_anonymous_comp c then Rejected else check_anonymous_stmt s
  | LogCall args =>
      reject_if (existsb (fun a => match a with LogStr _ => false
                                          | LogExp e => contains_anonymous_comp e end) args)
  | Assert e | Return e => reject_if (contains_anonymous_comp e)
  | ConstraintEquality l r => reject_if (contains_anonymous_comp l || contains_anonymous_comp r)
  | Declaration _ _ dims _ => reject_if (existsb contains_anonymous_comp dims)
  | InitializationBlock _ l | Block l => do _ <- collect (map check_anonymous_stmt l); Ok tt
  | Substitution _ acc op e =>
      if access_contains contains_anonymous_comp acc then Rejected
      else if contains_anonymous_comp e && bool_decide (op = AssignSignal) then Rejected
      else check_anonymous_exp e
  | UnderscoreSubstitution _ _ => Panicked
  end.

(** template_data.rs:160-238 [fill_inputs_and_outputs]: the names of the
    inputs, or of the outputs, in the order of their declarations.  The
    number of dimensions and the tags are not kept. *)
Fixpoint declared (t : stype -> bool) (s : stmt) : list string :=
  match s with
  | IfThenElse _ a b =>
      declared t a ++ match b with None => [] | Some b' => declared t b' end
  | Block l | InitializationBlock _ l => concat (map (declared t) l)
  | While _ _ s => declared t s
  | Declaration (XSignal k) x _ _ | Declaration (XBus _ k) x _ _ => if t k then [x] else []
  | _ => []
  end.

(** template_data.rs:140-145 [get_declaration_inputs], [get_declaration_outputs]. *)
Definition declaration_inputs (body : stmt) : list string :=
  declared (fun k => match k with Input => true | _ => false end) body.
Definition declaration_outputs (body : stmt) : list string :=
  declared (fun k => match k with Output => true | _ => false end) body.

(** [get_inputs] (template_data.rs:134-136) is the hash table of the same
    names: a name declared twice is in it once. *)
Definition inputs_len (body : stmt) : nat := size (list_to_set (C := gset string) (declaration_inputs body)).

(** [BTreeMap::insert]: the keys are kept in increasing order, an equal key is
    overwritten. *)
Fixpoint btree_insert {A} (k : string) (v : A) (l : list (string * A)) : list (string * A) :=
  match l with
  | [] => [(k, v)]
  | (k', v') :: r =>
      match String.compare k k' with
      | Lt => (k, v) :: l
      | Datatypes.Eq => (k, v) :: r
      | Gt => (k', v') :: btree_insert k v r
      end
  end.

(** syntax_sugar_remover.rs:498-535: the map from input names to the operator
    and the expression assigned.  [vals] stands for [signals]. *)
Definition insert_named {A} (body : stmt) (m : list (aop * string)) (vals : list A)
  : res (list (string * (aop * A))) :=
  let ins := declaration_inputs body in
  if negb (bool_decide (inputs_len body = length m)) then Rejected
  else
    do ia <- (fix go (m : list (aop * string)) (vals : list A) (ia : list (string * (aop * A))) :=
       match m with
       | [] => Ok ia
       | (op, name) :: m' =>
           if negb (bool_decide (op = AssignConstraintSignal)) then Rejected
           else if bool_decide (name ∈ ins)
                then match vals with
                     | [] => Panicked
                     | v :: vals' => go m' vals' (btree_insert name (op, v) ia)
                     end
                else Rejected
       end) m vals [];
    if bool_decide (inputs_len body = length ia) then Ok ia else Rejected.

Definition insert_positional {A} (body : stmt) (vals : list A)
  : res (list (string * (aop * A))) :=
  let ins := declaration_inputs body in
  if negb (bool_decide (length ins = length vals)) then Rejected
  else Ok (foldl (fun ia nv => btree_insert nv.1 (AssignConstraintSignal, nv.2) ia) []
             (zip ins vals)).

Definition inputs_to_assignments {A} (body : stmt) (names : option (list (aop * string)))
    (vals : list A) : res (list (string * (aop * A))) :=
  match names with
  | Some m => insert_named body m vals
  | None => insert_positional body vals
  end.

Section pass.
  (** The bodies of the templates of the program, and [get_line]: the line of
      a position of the file of the template. *)
  Variable templates : gmap string stmt.
  Variable line : N -> N.

  (** syntax_sugar_remover.rs:453. *)
  Definition anon_name (id : string) (pos : N) : string :=
    id +:+ "_" +:+ pretty (line pos) +:+ "_" +:+ pretty pos.

  (** syntax_sugar_remover.rs:319. *)
  Definition counter_name (pos : N) : string :=
    "anon_var_" +:+ pretty (line pos) +:+ "_" +:+ pretty pos.

  (** The access [\[var_access\]] inside a loop, no access outside
      (syntax_sugar_remover.rs:482-486, 540-544, 562-566, 575-579). *)
  Definition loop_access (va : option exp) : list (access exp) :=
    match va with None => [] | Some v => [ArrayAccess v] end.

  (** syntax_sugar_remover.rs:281 [UpdatedExpression]. *)
  Definition uexp : Type := list stmt * list stmt * exp.

  (** The loop over the values of a tuple or array, 427-443 and 589-605. *)
  Definition join_values (l : list uexp) : list stmt * list stmt * list exp :=
    (concat (map (fun u => u.1.1) l), concat (map (fun u => u.1.2) l), map snd l).

  (** syntax_sugar_remover.rs:418-618 [remove_anonymous_from_expression].
      [par] is set under a [parallel] operator, where the code rebuilds the
      anonymous component with [make_anonymous_parallel].  The arguments are
      treated in the order of the map, after it has been built; here each
      argument is treated first and the map is over the results, which
      changes neither the result nor whether it is rejected. *)
  Fixpoint remove_anonymous_exp (va : option exp) (par : bool) (e : exp) : res uexp :=
    match e with
    | ArrayInLine vs =>
        do us <- collect (map (remove_anonymous_exp va false) vs);
        let '(ds, ss, es) := join_values us in Ok (ds, ss, ArrayInLine es)
    | Tuple vs =>
        do us <- collect (map (remove_anonymous_exp va false) vs);
        let '(ds, ss, es) := join_values us in Ok (ds, ss, Tuple es)
    | Parallel r =>
        if is_anonymous_comp r then remove_anonymous_exp va true r else Ok ([], [], e)
    | Anon pos id is_par params signals names =>
        match templates !! id with
        | None => Rejected
        | Some body =>
            let tmp := anon_name id pos in
            let decl :=
              match va with
              | None => Declaration XComponent tmp [] true
              | Some v => Declaration XAnonymousComponent tmp [v] true
              end in
            let call := Call id params in
            let create :=
              Substitution tmp (loop_access va) AssignVar
                (if is_par || par then Parallel call else call) in
            do ia <- inputs_to_assignments body names
                       (map (remove_anonymous_exp va false) signals);
            do us <- collect (map (fun '(name, (op, r)) =>
                        do (ds, ss, e') <- r;
                        Ok (ds, ss ++ [Substitution tmp
                                         (loop_access va ++ [ComponentAccess name]) op e'])) ia);
            let ds := concat (map fst us) in
            let ss := concat (map snd us) in
            let out x := Var tmp (loop_access va ++ [ComponentAccess x]) in
            let e' := match declaration_outputs body with
                      | [o] => out o
                      | os => Tuple (map out os)
                      end in
            Ok (decl :: ds, [Block (create :: ss)], e')
        end
    | _ => Ok ([], [], e)
    end.

  (** syntax_sugar_remover.rs:278 [UpdatedStatement]: the body, the components
      and the variables to declare, the substitutions to make first. *)
  Definition ustmt : Type := stmt * list stmt * list stmt * list stmt.

  Definition join_stmts (l : list ustmt) : list stmt * list stmt * list stmt * list stmt :=
    (map (fun u => u.1.1.1) l, concat (map (fun u => u.1.1.2) l),
     concat (map (fun u => u.1.2) l), concat (map snd l)).

  (** syntax_sugar_remover.rs:283-415 [remove_anonymous_from_statement]. *)
  Fixpoint remove_anonymous_stmt (va : option exp) (s : stmt) : res ustmt :=
    match s with
    | MultSubstitution l op r =>
        do (cs, ss, r') <- remove_anonymous_exp va false r;
        let sub := MultSubstitution l op r' in
        Ok (match ss with [] => sub | _ => Block (ss ++ [sub]) end, cs, [], [])
    | IfThenElse c a b =>
        do (a', cs, vs, ss) <- remove_anonymous_stmt va a;
        match b with
        | None => Ok (IfThenElse c a' None, cs, vs, ss)
        | Some b =>
            do (b', cs', vs', ss') <- remove_anonymous_stmt va b;
            Ok (IfThenElse c a' (Some b'), cs ++ cs', vs ++ vs', ss ++ ss')
        end
    | While pos c s =>
        let x := counter_name pos in
        do (body, cs, vs, ss) <- remove_anonymous_stmt (Some (Var x [])) s;
        match cs with
        | [] => Ok (While pos c body, cs, [], [])
        | _ =>
            Ok (While pos c
                  (Block [body; Substitution x [] AssignVar (Infix (Var x []) Add (Num 1))]),
                cs,
                Declaration XVar x [] false :: vs,
                ss ++ [Substitution x [] AssignVar (Num 0)])
        end
    | InitializationBlock t l =>
        do us <- collect (map (remove_anonymous_stmt va) l);
        let '(l', cs, vs, ss) := join_stmts us in
        Ok (InitializationBlock t l', cs, vs, ss)
    | Block l =>
        do us <- collect (map (remove_anonymous_stmt va) l);
        let '(l', cs, vs, ss) := join_stmts us in
        Ok (Block l', cs, vs, ss)
    | Substitution x acc op e =>
        do (cs, ss, e') <- remove_anonymous_exp va false e;
        let sub := Substitution x acc op e' in
        Ok (match ss with [] => sub | _ => Block (ss ++ [sub]) end, cs, [], [])
    | UnderscoreSubstitution _ _ => Panicked
    | _ => Ok (s, [], [], [])
    end.

  (** syntax_sugar_remover.rs:726-814 [check_tuples_expression]. *)
  Fixpoint check_tuples_exp (e : exp) : res unit :=
    match e with
    | ArrayInLine vs => reject_if (existsb contains_tuple vs)
    | UniformArray v d => reject_if (contains_tuple v || contains_tuple d)
    | Num _ => Ok tt
    | Var _ acc => reject_if (access_contains contains_tuple acc)
    | Infix l _ r => reject_if (contains_tuple l || contains_tuple r)
    | Prefix _ r => reject_if (contains_tuple r)
    | Switch c a b => reject_if (contains_tuple c || contains_tuple a || contains_tuple b)
    | Call _ args | BusCall _ args => reject_if (existsb contains_tuple args)
    | Anon _ _ _ _ _ _ => Panicked
    | Tuple vs => do _ <- collect (map check_tuples_exp vs); Ok tt
    | Parallel r => reject_if (contains_tuple r)
    end.

  (** syntax_sugar_remover.rs:621-723 [check_tuples_statement]. *)
  Fixpoint check_tuples_stmt (s : stmt) : res unit :=
    match s with
    | MultSubstitution l _ r => do _ <- check_tuples_exp l; check_tuples_exp r
    | IfThenElse c a b =>
        if contains_tuple c then Rejected
        else do _ <- check_tuples_stmt a;
             match b with None => Ok tt | Some b' => check_tuples_stmt b' end
    | While _ c s => if contains_tuple c then Rejected else check_tuples_stmt s
    | LogCall args =>
        do _ <- collect (map (fun a => match a with LogStr _ => Ok tt
                                               | LogExp e => check_tuples_exp e end) args);
        Ok tt
    | Assert e | Return e => reject_if (contains_tuple e)
    | ConstraintEquality l r => reject_if (contains_tuple l || contains_tuple r)
    | Declaration _ _ dims _ => reject_if (existsb contains_tuple dims)
    | InitializationBlock _ l | Block l => do _ <- collect (map check_tuples_stmt l); Ok tt
    | Substitution _ acc _ e =>
        if access_contains contains_tuple acc then Rejected else check_tuples_exp e
    | UnderscoreSubstitution _ _ => Panicked
    end.

  (** syntax_sugar_remover.rs:940-960 [remove_tuple_from_expression]. *)
  Fixpoint remove_tuple_exp (e : exp) : res exp :=
    match e with
    | Anon _ _ _ _ _ _ => Panicked
    | Tuple vs =>
        do es <- collect (map remove_tuple_exp vs);
        Ok (Tuple (concat (map (fun e => match e with Tuple vs2 => vs2 | _ => [e] end) es)))
    | _ => Ok e
    end.

  (** The loop at syntax_sugar_remover.rs:825-838. *)
  Fixpoint zip_substitutions (op : aop) (ls rs : list exp) : res (list stmt) :=
    match ls, rs with
    | Var x acc :: ls', r :: rs' =>
        do ss <- zip_substitutions op ls' rs';
        Ok ((if bool_decide (x = "_") then UnderscoreSubstitution op r
             else Substitution x acc op r) :: ss)
    | [], _ => Ok []
    | _ :: _, _ => Rejected
    end.

  (** syntax_sugar_remover.rs:923-937 [separate_tuple_for_logcall], one value. *)
  Fixpoint separate_tuple (e : exp) : list logarg :=
    match e with
    | Tuple vs => LogStr "(" :: concat (map separate_tuple vs) ++ [LogStr ")"]
    | _ => [LogExp e]
    end.

  (** syntax_sugar_remover.rs:816-921 [remove_tuples_from_statement].  The
      strings of a log call are not split again: the parser has already cut
      them ([build_log_call], statement_builders.rs:57-78). *)
  Fixpoint remove_tuples_stmt (s : stmt) : res stmt :=
    match s with
    | MultSubstitution l op r =>
        do l' <- remove_tuple_exp l;
        do r' <- remove_tuple_exp r;
        match l', r' with
        | Tuple ls, Tuple rs =>
            if bool_decide (length ls = length rs)
            then do ss <- zip_substitutions op ls rs; Ok (Block ss)
            else Rejected
        | _, _ => Rejected
        end
    | IfThenElse c a b =>
        do a' <- remove_tuples_stmt a;
        match b with
        | None => Ok (IfThenElse c a' None)
        | Some b => do b' <- remove_tuples_stmt b; Ok (IfThenElse c a' (Some b'))
        end
    | While pos c s => do s' <- remove_tuples_stmt s; Ok (While pos c s')
    | LogCall args =>
        Ok (LogCall (concat (map (fun a => match a with LogStr t => [LogStr t]
                                                   | LogExp e => separate_tuple e end) args)))
    | InitializationBlock t l =>
        do l' <- collect (map remove_tuples_stmt l); Ok (InitializationBlock t l')
    | Block l => do l' <- collect (map remove_tuples_stmt l); Ok (Block l')
    | Substitution x acc op e =>
        do e' <- remove_tuple_exp e;
        if is_tuple e' then Rejected
        else if bool_decide (x = "_") then Ok (UnderscoreSubstitution op e')
             else Ok (Substitution x acc op e')
    | UnderscoreSubstitution _ _ => Panicked
    | _ => Ok s
    end.

  (** syntax_sugar_remover.rs:21-39: the new body of a template. *)
  Definition desugar_template (old_body : stmt) : res stmt :=
    do _ <- check_anonymous_stmt old_body;
    do (new_body, cs, vs, ss) <- remove_anonymous_stmt None old_body;
    match new_body with
    | Block stmts =>
        let b := Block ([InitializationBlock XVar vs; InitializationBlock XComponent cs]
                          ++ ss ++ stmts) in
        do _ <- check_tuples_stmt b;
        remove_tuples_stmt b
    | _ => Panicked
    end.

  (** syntax_sugar_remover.rs:41-50: the new body of a function. *)
  Definition desugar_function (old_body : stmt) : res stmt :=
    if stmt_contains_anonymous_comp old_body then Rejected
    else do _ <- check_tuples_stmt old_body; remove_tuples_stmt old_body.
End pass.
