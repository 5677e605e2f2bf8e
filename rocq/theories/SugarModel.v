(** Model of compiler/src/hir/sugar_cleaner.rs: before the code of a template or function is translated,
    nested calls, inline conditions and inline arrays are replaced by temporary variables. *)
From stdpp Require Import prelude strings.
From Coq Require Import ZArith.
Open Scope nat_scope.

(** ** Syntax *)
(** Names: those of the program, the temporaries [{n}_auto] (sugar_cleaner.rs:19-23 [produce_id]) and the
    temporaries [{n}] of returned values (sugar_cleaner.rs:579-599).  Names of the program do not start with a
    digit, so the three kinds do not overlap. *)
Inductive name := User (x : string) | Auto (n : nat) | Ret (n : nat).
Global Instance name_eq_dec : EqDecision name. Proof. solve_decision. Defined.
(** infix operators; the cleaner only looks for powers *)
Inductive iop := Add | Pow | OtherOp (o : string).
(** program_structure/src/abstract_syntax_tree/ast.rs:287-352 [Expression]: variables, calls, inline conditions and arrays carry
    the dimensions that the type inference has written in their metadata.  [Pre]: prefix operators and [parallel]. *)
Inductive expr :=
| Num (z : Z)
| Var (ds : list nat) (x : name) (acc : list access)
| Call (ds : list nat) (f : string) (args : list expr)
| Pre (o : string) (e : expr)
| Inf (o : iop) (l r : expr)
| Switch (ds : list nat) (c t f : expr)
| Arr (ds : list nat) (values : list expr)
| Uni (ds : list nat) (value dimension : expr)
with access :=
| Idx (e : expr)
| Fld (f : string).
(** program_structure/src/abstract_syntax_tree/ast.rs [Statement]; the operator of an assignment does not
    matter to the cleaner and is kept as it is.  [ds]: the dimensions in the metadata of a declaration. *)
Inductive stmt :=
| Decl (x : name) (ds : list nat)
| Assign (x : name) (acc : list access) (op : string) (rhe : expr)
| Equal (l r : expr)
| If (c : expr) (t : stmt) (f : option stmt)
| While (c : expr) (b : stmt)
| Block (l : list stmt)
| Init (l : list stmt)
| Return (e : expr)
| Log (args : list (string + expr))
| Assert (e : expr).

(** ** Expressions *)
(** A step takes the next fresh number; [None]: the compiler panics. *)
Definition M (A : Type) : Type := nat -> option (A * nat).
Definition ret {A} (a : A) : M A := fun k => Some (a, k).
Definition bnd {A B} (x : M A) (f : A -> M B) : M B := fun k => match x k with Some (a, k) => f a k | None => None end.
Notation "'let!' p := x 'in' y" := (bnd x (fun p => y)) (at level 200, p pattern, x at level 100, y at level 200).

Definition is_call e := match e with Call _ _ _ => true | _ => false end.
Definition is_switch e := match e with Switch _ _ _ _ => true | _ => false end.
Definition is_array e := match e with Arr _ _ | Uni _ _ _ => true | _ => false end.
(** the dimensions in the metadata *)
Definition dims_of (e : expr) : list nat :=
  match e with Var ds _ _ | Call ds _ _ | Switch ds _ _ _ | Arr ds _ | Uni ds _ _ => ds | _ => [] end.
(** sugar_cleaner.rs:478-507 [rmv_sugar], with the name from [produce_id] *)
Definition rmv_sugar (e : expr) (inits : list stmt) : M (expr * list stmt) := fun k =>
  Some ((Var (dims_of e) (Auto k) [], inits ++ [Decl (Auto k) (dims_of e); Assign (Auto k) [] "=" e]), S k).
(** sugar_cleaner.rs:464-476 [sugar_filter] *)
Fixpoint sugar_filter (elems : list expr) (inits : list stmt) : M (list expr * list stmt) :=
  match elems with
  | [] => ret ([], inits)
  | e :: elems =>
    let! (e, inits) := if is_call e || is_switch e || is_array e then rmv_sugar e inits else ret (e, inits) in
    let! (elems, inits) := sugar_filter elems inits in
    ret (e :: elems, inits)
  end.
Definition sugar_filter1 (e : expr) (inits : list stmt) : M (expr * list stmt) :=
  let! (l, inits) := sugar_filter [e] inits in
  match l with [e] => ret (e, inits) | _ => fun _ => None end.
Definition sugar_filter2 (a b : expr) (inits : list stmt) : M (expr * expr * list stmt) :=
  let! (l, inits) := sugar_filter [a; b] inits in
  match l with [a; b] => ret (a, b, inits) | _ => fun _ => None end.
(** sugar_cleaner.rs:325-359: [x ** x] becomes [x ** (0 + x)] *)
Definition fix_pow (o : iop) (l r : expr) : expr :=
  match o with
  | Pow =>
    match r, l with
    | Var _ x _, Var _ y _ => if bool_decide (x = y) then Inf Add (Num 0) r else r
    | Num a, Num b => if bool_decide (a = b) then Inf Add (Num 0) r else r
    | _, _ => r
    end
  | _ => r
  end.
(** sugar_cleaner.rs:412-421: an array of zeros, and what [extend_expression] makes of it *)
Fixpoint zero_array (ds : list nat) : expr :=
  match ds with [] => Num 0 | d :: ds => Uni (d :: ds) (zero_array ds) (Num (Z.of_nat d)) end.
Fixpoint extend_zeros (ds : list nat) : M (expr * list stmt) :=
  match ds with
  | [] => ret (Num 0, [])
  | d :: ds' =>
    let! (v, i) := extend_zeros ds' in
    let! (v, n, i) := sugar_filter2 v (Num (Z.of_nat d)) i in
    ret (Uni ds v n, i)
  end.
(** loops over expressions and accesses, in order: sugar_cleaner.rs:399-403, 451-454 and 152-160, 254-263 *)
Definition extend_list (f : expr -> M (expr * list stmt)) : list expr -> M (list expr * list stmt) :=
  fix go l := match l with
  | [] => ret ([], [])
  | e :: l => let! (e, i) := f e in let! (l, i') := go l in ret (e :: l, i ++ i')
  end.
Definition extend_accesses (f : expr -> M (expr * list stmt)) : list access -> M (list access * list stmt) :=
  fix go l := match l with
  | [] => ret ([], [])
  | Fld s :: l => let! (l, i) := go l in ret (Fld s :: l, i)
  | Idx e :: l =>
    let! (e, i) := f e in
    let! (e, i) := sugar_filter1 e i in
    let! (l, i') := go l in
    ret (Idx e :: l, i ++ i')
  end.

Section mixed.
(** the components of the template whose instances are of different templates: sugar_cleaner.rs:39-44 *)
Context (mixed : name -> bool).
(** sugar_cleaner.rs:217-460 [extend_expression] and the functions it calls.  [inside]: the field
    [inside_mixed_component] of the state.  [ov]: the dimensions in the metadata have been replaced by
    these (sugar_cleaner.rs:400). *)
Fixpoint extend_expression (inside : bool) (ov : option (list nat)) (e : expr) : M (expr * list stmt) :=
  match e with
  | Num z => ret (Num z, [])
  | Var ds x acc =>
    let! (acc, i) := extend_accesses (fun e => extend_expression (inside || mixed x) None e) acc in
    if inside && mixed x then rmv_sugar (Var (default ds ov) x acc) i else ret (Var (default ds ov) x acc, i)
  | Call ds f args =>
    let! (args, i) := extend_list (fun e => extend_expression inside None e) args in
    let! (args, i) := sugar_filter args i in
    ret (Call (default ds ov) f args, i)
  | Pre o e =>
    let! (e, i) := extend_expression inside None e in
    let! (e, i) := sugar_filter1 e i in
    ret (Pre o e, i)
  | Inf o l r =>
    let! (l, i) := extend_expression inside None l in
    let! (r, i') := extend_expression inside None r in
    let! (l, r, i) := sugar_filter2 l r (i ++ i') in
    ret (Inf o l (fix_pow o l r), i)
  | Switch ds c t f =>
    let! (t, i) := extend_expression inside None t in
    let! (f, i') := extend_expression inside None f in
    let! (t, f, i) := sugar_filter2 t f (i ++ i') in
    ret (Switch (default ds ov) c t f, i)
  | Arr ds values =>
    match default ds ov with
    | [] => fun _ => None
    | n :: real_size =>
      let! (vs, i) := extend_list (fun e => extend_expression inside (Some real_size) e) values in
      let! (vs, i) :=
        if length vs <? n then let! (z, i') := extend_zeros real_size in ret (vs ++ replicate (n - length vs) z, i ++ i')
        else ret (vs, i) in
      let! (vs, i) := sugar_filter vs i in
      ret (Arr (n :: real_size) vs, i)
    end
  | Uni ds v d =>
    let! (v, i) := extend_expression inside None v in
    let! (d, i') := extend_expression inside None d in
    let! (v, d, i) := sugar_filter2 v d (i ++ i') in
    ret (Uni (default ds ov) v d, i)
  end.
Notation extend := (extend_expression false None).

(** ** Lists of statements *)
(** sugar_cleaner.rs:673-727 [rhe_array_case] *)
Fixpoint element_assigns (x : name) (acc : list access) (op : string) (i : Z) (vs : list expr) : list stmt :=
  match vs with [] => [] | v :: vs => Assign x (acc ++ [Idx (Num i)]) op v :: element_assigns x acc op (i + 1) vs end.
(** sugar_cleaner.rs:620-661 [into_single_substitution], [rhe_switch_case] *)
Definition into_single_substitution (x : name) (acc : list access) (op : string) (rhe : expr) : option (list stmt) :=
  match rhe with
  | Switch _ c t f => Some [If c (Block [Assign x acc op t]) (Some (Block [Assign x acc op f]))]
  | Arr _ vs => Some (element_assigns x acc op 0 vs)
  | Uni _ v (Num d) => if (d <? 0)%Z then None else Some (element_assigns x acc op 0 (replicate (Z.to_nat d) v))
  | Uni _ _ _ => None
  | _ => Some [Assign x acc op rhe]
  end.
(** sugar_cleaner.rs:531-540 [map_substitutions] *)
Fixpoint map_substitutions (l : list stmt) : option (list stmt) :=
  match l with
  | [] => Some []
  | s :: l =>
    a ← match s with Assign x acc op rhe => into_single_substitution x acc op rhe | _ => Some [s] end;
    b ← map_substitutions l;
    Some (a ++ b)
  end.
(** sugar_cleaner.rs:747-792 [lhe_array_ce]; the dimensions in the metadata of the new variables are those of
    the whole array in the code, but are not used *)
Fixpoint equal_elements (ls rs : list expr) : option (list stmt) :=
  match ls, rs with
  | [], _ => Some []
  | l :: ls, r :: rs => cons (Equal l r) <$> equal_elements ls rs
  | _ :: _, [] => None
  end.
Fixpoint elements_of (ds : list nat) (x : name) (acc : list access) (i : Z) (n : nat) : list expr :=
  match n with O => [] | S n => Var ds x (acc ++ [Idx (Num i)]) :: elements_of ds x acc (i + 1) n end.
Definition lhe_array_ce (a other : expr) : option (list stmt) :=
  match a with
  | Arr _ ls =>
    match other with
    | Arr _ rs => equal_elements ls rs
    | Uni _ v _ => equal_elements ls (replicate (length ls) v)
    | Var ds x acc => equal_elements ls (elements_of (tail ds) x acc 0 (length ls))
    | _ => Some []
    end
  | _ => None
  end.
(** sugar_cleaner.rs:729-745 [into_single_constraint_equality] and :542-551 [map_constraint_equalities] *)
Definition into_single_constraint_equality (l r : expr) : option (list stmt) :=
  if is_array l then lhe_array_ce l r else if is_array r then lhe_array_ce r l else Some [Equal l r].
Fixpoint map_constraint_equalities (l : list stmt) : option (list stmt) :=
  match l with
  | [] => Some []
  | s :: l =>
    a ← match s with Equal lhe rhe => into_single_constraint_equality lhe rhe | _ => Some [s] end;
    b ← map_constraint_equalities l;
    Some (a ++ b)
  end.
(** sugar_cleaner.rs:553-618 [map_returns], [split_return] *)
Fixpoint map_returns (l : list stmt) (id : nat) : option (list stmt) :=
  match l with
  | [] => Some []
  | Return e :: l =>
    if is_array e || is_switch e || is_call e then
      a ← into_single_substitution (Ret id) [] "=" e;
      b ← map_returns l (S id);
      Some (Decl (Ret id) (dims_of e) :: a ++ Return (Var (dims_of e) (Ret id) []) :: b)
    else cons (Return e) <$> map_returns l id
  | s :: l => cons s <$> map_returns l id
  end.

(** ** Statements *)
Fixpoint extend_log (args : list (string + expr)) : M (list (string + expr) * list stmt) :=
  match args with
  | [] => ret ([], [])
  | inl s :: args => let! (args, i) := extend_log args in ret (inl s :: args, i)
  | inr e :: args => let! (e, i) := extend e in let! (args, i') := extend_log args in ret (inr e :: args, i ++ i')
  end.
(** sugar_cleaner.rs:510-529 [map_init_blocks], [map_stmts_with_sugar] in one pass *)
Definition map_stmts_with_sugar (f : stmt -> M (stmt * list stmt)) : list stmt -> M (list stmt) :=
  let one s := let! (s, i) := f s in ret (i ++ [s]) in
  fix go l := match l with
  | [] => ret []
  | s :: l =>
    let! a := match s with
              | Init ss => (fix each ss := match ss with [] => ret [] | s :: ss => let! a := one s in let! b := each ss in ret (a ++ b) end) ss
              | s => one s
              end in
    let! b := go l in
    ret (a ++ b)
  end.
(** sugar_cleaner.rs:56-215 [extend_statement] and the functions it calls; the statements to put in front *)
Fixpoint extend_statement (s : stmt) : M (stmt * list stmt) :=
  match s with
  | Decl x ds => ret (Decl x ds, [])
  (* :142-166 *)
  | Assign x acc op rhe =>
    let! (rhe, i) := extend rhe in
    let! (acc, i') := extend_accesses (fun e => extend e) acc in
    ret (Assign x acc op rhe, i ++ i')
  (* :168-181 *)
  | Equal l r =>
    let! (l, i) := extend l in
    let! (r, i') := extend r in
    ret (Equal l r, i ++ i')
  (* :119-140 *)
  | If c t f =>
    let! (t, i) := extend_statement t in
    let! (f, i1) := match f with Some f => let! (f, i) := extend_statement f in ret (Some f, i) | None => ret (None, []) end in
    let! (c, i2) := extend c in
    let! (c, i) := sugar_filter1 c (i ++ i1 ++ i2) in
    ret (If c t f, i)
  (* :104-117 *)
  | While c b =>
    let! (b, i) := extend_statement b in
    let! (c, i1) := extend c in
    let! (c, i) := sugar_filter1 c (i ++ i1) in
    ret (While c b, i)
  (* :88-102; the numbers of the temporaries are free again after the block *)
  | Block l => fun k =>
    match map_stmts_with_sugar (fun s => extend_statement s) l k with
    | None => None
    | Some (l, k1) =>
      l ← map_substitutions l;
      l ← map_constraint_equalities l;
      l ← map_returns l k1;
      Some ((Block l, []), k)
    end
  | Init _ => fun _ => None
  | Return e => let! (e, i) := extend e in ret (Return e, i)
  | Log args => let! (args, i) := extend_log args in ret (Log args, i)
  | Assert e => let! (e, i) := extend e in ret (Assert e, i)
  end.
(** sugar_cleaner.rs:36-54 [clean_sugar], for one body *)
Definition clean_sugar (body : stmt) : option stmt :=
  match extend_statement body 0 with
  | Some ((s, []), _) => Some s
  | _ => None
  end.
End mixed.
