(** Model of compiler/src/intermediate_representation/translate.rs: from the code of a template or function,
    without nested calls, inline conditions and arrays (SugarModel.v), to the instructions of IrModel.v.

    Simplifications.  Components, buses and tags are left out (an access by name is a panic here); code
    positions are left out.  Declarations of signals and components are removed from the code before
    (compiler/src/hir/component_preprocess.rs), so every declaration is that of a variable. *)
From stdpp Require Import prelude numbers list strings.
From Verif Require Import DatModel IrModel.
From Verif Require SugarModel.
Import SugarModel (name, User, Auto, Ret, iop, Add, Pow, OtherOp, expr, Num, Var, Call, Pre, Inf, Switch, Arr, Uni,
  access, Idx, Fld, Decl, Assign, Equal, If, While, Block, Init, Return, Log, Assert).
Local Open Scope nat_scope.

(** ** State *)
(** translate.rs:18-28 [SymbolInfo]: [access_instruction] is the literal [s_addr]. *)
Record info := Info { s_addr : nat; s_dims : list nat; s_size : nat }.
(** translate.rs:130-146 [State]: the open blocks, innermost first (program_structure/src/utils/environment.rs:39-49);
    constants (constant_tracking: a number for each constant, in order); strings. *)
Record state := State {
  env : list (list (name * info)); consts : list Z; strings : list string; vstack : nat; vmax : nat }.
(** [None]: the compiler panics. *)
Definition T (A : Type) : Type := state -> option (A * state).
Definition ret {A} (a : A) : T A := fun st => Some (a, st).
Definition panic {A} : T A := fun _ => None.
Definition bnd {A B} (x : T A) (f : A -> T B) : T B := fun st => match x st with Some (a, st) => f a st | None => None end.
Notation "'let!' p := x 'in' y" := (bnd x (fun p => y)) (at level 200, p pattern, x at level 100, y at level 200).
Definition liftT {A} (o : option A) : T A := match o with Some a => ret a | None => panic end.

Fixpoint assoc (x : name) (b : list (name * info)) : option info :=
  match b with [] => None | (y, i) :: b => if decide (x = y) then Some i else assoc x b end.
(** environment.rs:121-131 [block_with_variable_symbol], 156-165 [get_variable] *)
Fixpoint lookup (l : list (list (name * info))) (x : name) : option info :=
  match l with [] => None | b :: l => match assoc x b with Some i => Some i | None => lookup l x end end.
(** environment.rs:147-157 [add_variable] *)
Definition bind (x : name) (i : info) (l : list (list (name * info))) : option (list (list (name * info))) :=
  match l with [] => None | b :: l => Some (((x, i) :: b) :: l) end.
Definition size_of (ds : list nat) : nat := fold_left Nat.mul ds 1.

(** translate.rs:998-1003 [bigint_to_cid]; the table gives each constant one number *)
Fixpoint position {A} `{EqDecision A} (z : A) (l : list A) : option nat :=
  match l with [] => None | y :: l => if decide (z = y) then Some 0 else S <$> position z l end.
Definition cid (z : Z) : T nat := fun st =>
  match position z (consts st) with
  | Some k => Some (k, st)
  | None => Some (length (consts st), State (env st) (consts st ++ [z]) (strings st) (vstack st) (vmax st))
  end.
(** translate.rs:752-783: the number of a string *)
Definition sid (s : string) : T nat := fun st =>
  match position s (strings st) with
  | Some k => Some (k, st)
  | None => Some (length (strings st), State (env st) (consts st) (strings st ++ [s]) (vstack st) (vmax st))
  end.
Definition symbol (x : name) : T info := fun st => match lookup (env st) x with Some i => Some (i, st) | None => None end.

(** ** Operators *)
(** translate.rs:963-996 [translate_infix_operator], [translate_prefix_operator]; the numbers are positions in
    [OperatorType] (compute_bucket.rs:7-34).  "==" is [Eq], which has its own constructor. *)
Definition infix_number (o : iop) : option nat :=
  match o with
  | Add => Some 2
  | Pow => Some 4
  | OtherOp s =>
    if decide (s = "*") then Some 0 else if decide (s = "/") then Some 1 else if decide (s = "-") then Some 3
    else if decide (s = "\") then Some 5 else if decide (s = "%") then Some 6 else if decide (s = "<<") then Some 7
    else if decide (s = ">>") then Some 8 else if decide (s = "<=") then Some 9 else if decide (s = ">=") then Some 10
    else if decide (s = "<") then Some 11 else if decide (s = ">") then Some 12 else if decide (s = "!=") then Some 14
    else if decide (s = "||") then Some 15 else if decide (s = "&&") then Some 16 else if decide (s = "|") then Some 17
    else if decide (s = "&") then Some 18 else if decide (s = "^") then Some 19 else None
  end.
Definition is_eq (o : iop) : bool := match o with OtherOp s => bool_decide (s = "==") | _ => false end.
Definition prefix_number (o : string) : option nat :=
  if decide (o = "-") then Some 20 else if decide (o = "!") then Some 21 else if decide (o = "~") then Some 22 else None.

(** ** Indexes *)
(** translate.rs:1666-1728 [check_if_possible_to_usize_single], [.._multiple]: whether the instructions of an index
    can be replaced by operations on addresses, and whether it is a literal below 100. *)
Fixpoint possible_to_usize (cs : list Z) (i : fexpr) : bool * bool :=
  match i with
  | FValue _ c =>
    match cs !! c with
    | Some z => if decide (0 <= z < 2 ^ 64)%Z then (true, bool_decide (z < 100)%Z) else (false, false)
    | None => (false, false)
    end
  | FOp2 _ op a b =>
    let '(ua, sa) := possible_to_usize cs a in
    let '(ub, sb) := possible_to_usize cs b in
    if decide (op = 2) then (ua && ub, false)
    else if decide (op = 0) then (ua && ub && (sa || sb), false)
    else (false, false)
  | FOp1 _ _ _ | FEq _ _ _ _ => (false, false)
  | FLoadVar _ | FLoadSig _ | FLoadSub _ _ => (true, false)
  end.
(** translate.rs:1730-1795 [convert_to_usize_single], [.._multiple] *)
Fixpoint convert_to_usize (cs : list Z) (i : fexpr) : option aexpr :=
  match i with
  | FValue _ c => z ← cs !! c; if decide (0 <= z < 2 ^ 64)%Z then Some (AValue z) else None
  | FOp2 _ op a b =>
    a' ← convert_to_usize cs a; b' ← convert_to_usize cs b;
    if decide (op = 2) then Some (AAdd a' b') else if decide (op = 0) then Some (AMul a' b') else None
  | FOp1 _ _ _ | FEq _ _ _ _ => None
  | FLoadVar _ | FLoadSig _ | FLoadSub _ _ => Some (AToAddr i)
  end.
(** translate.rs:1638-1664 [indexing_instructions_filter] *)
Definition index_filter (i : fexpr) : T aexpr := fun st =>
  if (possible_to_usize (consts st) i).1 then match convert_to_usize (consts st) i with Some a => Some (a, st) | None => None end
  else Some (AToAddr i, st).
Fixpoint filters (l : list fexpr) : T (list aexpr) :=
  match l with [] => ret [] | i :: l => let! a := index_filter i in let! l := filters l in ret (a :: l) end.

(** ** Addresses *)
(** translate.rs:1565-1590: the terms of the address; a dimension of size 0 divides by zero *)
Fixpoint jumps (linear : nat) (ds : list nat) (l : list aexpr) : option (list aexpr) :=
  match l with
  | [] => Some []
  | i :: l =>
    match ds with
    | [] => None
    | d :: ds =>
      if decide (d = 0) then None
      else r ← jumps (linear `div` d) ds l; Some (AMul (AValue (Z.of_nat (linear `div` d))) i :: r)
    end
  end.
(** translate.rs:1797-1811 [fold], of a stack that is not empty, its last element first *)
Fixpoint fold_add (last : aexpr) (rev_rest : list aexpr) : aexpr :=
  match rev_rest with [] => last | a :: r => AAdd (fold_add a r) last end.
(** translate.rs:1548-1636 [compute_full_address] *)
Definition full_address (i : info) (indexes : list fexpr) : T aexpr :=
  let! l := filters indexes in
  let! js := liftT (jumps (s_size i) (s_dims i) l) in
  ret (fold_add (AValue (Z.of_nat (s_addr i))) (rev js)).

(** translate.rs:1086-1100 [ProcessedSymbol]: name, symbol, indexes and length of the part accessed *)
Record processed := Processed { p_name : name; p_info : info; p_indexes : list fexpr; p_length : nat }.
(** translate.rs:1142-1157: the indexes *)
Definition accesses_with (f : expr -> T fexpr) : list nat -> nat -> list access -> T (list fexpr * nat) :=
  fix go ds n acc {struct acc} := match acc with
  | [] => ret ([], n)
  | Fld _ :: _ => panic
  | Idx e :: acc =>
    match ds with
    | [] => panic
    | d :: ds => if decide (d = 0) then panic else
      let! i := f e in
      let! (l, n) := go ds (n `div` d) acc in
      ret (i :: l, n)
    end
  end.

Section template.
(** the names of the signals of the template (compared with the names of all blocks:
    type_analysis/src/decorators/type_reduction.rs:230-238), and which of them are outputs *)
Context (sigs outs : name -> bool).
(** the numbers of the functions *)
Context (fid : string -> nat).

(** translate.rs:1103-1354 [ProcessedSymbol::new], without components and buses *)
Definition processed_with (f : expr -> T fexpr) (x : name) (acc : list access) : T processed :=
  let! i := symbol x in
  let! (l, n) := accesses_with f (s_dims i) (s_size i) acc in
  ret (Processed x i l n).
(** translate.rs:1492-1545 [into_load]: what the type reduction says decides which memory is read *)
Definition into_load (s : processed) : T fexpr :=
  let! a := full_address (p_info s) (p_indexes s) in
  ret (if sigs (p_name s) then FLoadSig a else FLoadVar a).
(** translate.rs:1356-1490 [into_call_assign], [into_store]: the destination *)
Definition destination (s : processed) : T dest :=
  let! a := full_address (p_info s) (p_indexes s) in
  ret (if sigs (p_name s) then DSig a (outs (p_name s)) else DVar a).

(** translate.rs:806-828 [translate_expression], 854-895 [translate_infix], [translate_prefix], 923-961
    [translate_variable], [translate_number]; a call inside an expression is not modelled *)
Fixpoint tr_e (e : expr) : T fexpr :=
  match e with
  | Num z => let! c := cid z in ret (FValue 0 c)
  | Var _ x acc => let! s := processed_with (fun e => tr_e e) x acc in into_load s
  | Pre o e =>
    let! i := tr_e e in
    let! k := liftT (prefix_number o) in
    ret (FOp1 0 k i)
  | Inf o l r =>
    let! i := tr_e l in
    let! j := tr_e r in
    if is_eq o then ret (FEq 0 1 i j) else let! k := liftT (infix_number o) in ret (FOp2 0 k i j)
  | Call _ _ _ | Switch _ _ _ _ | Arr _ _ | Uni _ _ _ => panic
  end.
Definition process := processed_with tr_e.
(** translate.rs:1839-1898 [get_expression_size], [get_variable_size] *)
Definition expression_size (e : expr) : T nat :=
  match e with
  | Num _ | Pre _ _ | Inf _ _ _ => ret 1
  | Var _ x acc => let! s := process x acc in ret (p_length s)
  | Call _ _ _ | Switch _ _ _ _ | Arr _ _ | Uni _ _ _ => panic
  end.
(** translate.rs:1817-1837 [translate_call_arguments]: the lengths are those of the metadata *)
Fixpoint tr_args (l : list expr) : T (list (fexpr * nat)) :=
  match l with
  | [] => ret []
  | e :: l => let! i := tr_e e in let! l := tr_args l in ret ((i, size_of (SugarModel.dims_of e)) :: l)
  end.
(** translate.rs:752-783 [translate_log] *)
Fixpoint tr_logs (l : list (string + expr)) : T (list log_arg) :=
  match l with
  | [] => ret []
  | inl s :: l => let! k := sid s in let! l := tr_logs l in ret (LogStr k :: l)
  | inr e :: l => let! i := tr_e e in let! l := tr_logs l in ret (LogExp i :: l)
  end.

(** ** Statements *)
(** translate.rs:173-185 [reserve_variable] *)
Definition reserve (n : nat) : T nat := fun st =>
  Some (vstack st, State (env st) (consts st) (strings st) (vstack st + n) (vmax st `max` (vstack st + n))).
Definition add_symbol (x : name) (i : info) : T unit := fun st =>
  match bind x i (env st) with
  | Some e => Some (tt, State e (consts st) (strings st) (vstack st) (vmax st))
  | None => None
  end.
Definition open_block : T nat := fun st =>
  Some (vstack st, State ([] :: env st) (consts st) (strings st) (vstack st) (vmax st)).
Definition close_block (saved : nat) : T unit := fun st =>
  match env st with
  | [] => None
  | _ :: e => Some (tt, State e (consts st) (strings st) saved (vmax st))
  end.
Definition tr_list (f : SugarModel.stmt -> T (list stmt)) : list SugarModel.stmt -> T (list stmt) :=
  fix go l := match l with
  | [] => ret []
  | s :: l => let! a := f s in let! b := go l in ret (a ++ b)
  end.
(** translate.rs:513-537 [translate_statement] and the functions it calls: 539-580 (conditions, loops), 582-626
    (assignments), 631-658 (declarations), 660-673 (blocks), 675-735 (equalities), 737-750 (assertions), 785-804 (returns) *)
Fixpoint tr_s (s : SugarModel.stmt) : T (list stmt) :=
  match s with
  | Decl x ds =>
    let! a := reserve (size_of ds) in
    let! _ := add_symbol x (Info a ds (size_of ds)) in
    ret []
  | Assign x acc _ rhe =>
    let! s := process x acc in
    match rhe with
    | Call _ f args =>
      let! l := tr_args args in
      let! d := destination s in
      ret [SCall (fid f) l d (p_length s)]
    | _ =>
      let! n := expression_size rhe in
      let! i := tr_e rhe in
      let! d := destination s in
      ret [SStore d (p_length s) n i]
    end
  | Equal l r =>
    let! n := match r with Var _ x acc => let! s := process x acc in ret (p_length s) | _ => ret 1 end in
    let! i := tr_e l in
    let! j := tr_e r in
    ret [SAssert true (FEq 0 n i j)]
  | If c t f =>
    let! i := tr_e c in
    let! l1 := tr_s t in
    let! l2 := match f with Some f => tr_s f | None => ret [] end in
    ret [SBranch i l1 l2]
  | While c b =>
    let! i := tr_e c in
    let! l := tr_s b in
    ret [SLoop i l]
  | Block l =>
    let! saved := open_block in
    let! l := tr_list tr_s l in
    let! _ := close_block saved in
    ret l
  | Init _ => panic
  | Return e =>
    let! n := expression_size e in
    let! i := tr_e e in
    ret [SReturn n i]
  | Log args => let! l := tr_logs args in ret [SLog l]
  | Assert e => let! i := tr_e e in ret [SAssert false i]
  end.

(** ** Whole code *)
(** translate.rs:299-337 [initialize_signals], from address [a] on *)
Fixpoint signals (a : nat) (ws : list (name * list nat)) : T nat :=
  match ws with
  | [] => ret a
  | (x, ds) :: ws => let! _ := add_symbol x (Info a ds (size_of ds)) in signals (a + size_of ds) ws
  end.
(** translate.rs:231-297 [initialize_constants]: the values of the parameters of a template *)
Fixpoint constant_stores (a : nat) (k : nat) (vs : list Z) : T (list stmt) :=
  match vs with
  | [] => ret []
  | z :: vs =>
    let! c := cid z in
    let! l := constant_stores a (S k) vs in
    ret (SStore (DVar (AAdd (AValue (Z.of_nat a)) (AValue (Z.of_nat k)))) 1 1 (FValue 0 c) :: l)
  end.
Fixpoint constants (cs : list (name * list nat * list Z)) : T (list stmt) :=
  match cs with
  | [] => ret []
  | (x, ds, vs) :: cs =>
    let! a := reserve (size_of ds) in
    let! _ := add_symbol x (Info a ds (size_of ds)) in
    let! l1 := constant_stores a 0 vs in
    let! l2 := constants cs in
    ret (l1 ++ l2)
  end.
(** translate.rs:205-229 [initialize_parameters] *)
Fixpoint parameters (ps : list (name * list nat)) : T unit :=
  match ps with
  | [] => ret tt
  | (x, ds) :: ps =>
    let! a := reserve (size_of ds) in
    let! _ := add_symbol x (Info a ds (size_of ds)) in
    parameters ps
  end.
(** translate.rs:1936-1981 [translate_code], before the passes of IrModel.v: instructions, number of signals;
    [vmax] of the final state is [stack_depth].  [cs0], [ss0]: constants and strings of the code translated before. *)
Definition translate_code (ws : list (name * list nat)) (cs : list (name * list nat * list Z)) (ps : list (name * list nat))
    (body : SugarModel.stmt) (cs0 : list Z) (ss0 : list string) : option (list stmt * nat * state) :=
  match (let! n := signals 0 ws in
         let! l1 := constants cs in
         let! _ := parameters ps in
         let! l2 := tr_s body in
         ret (l1 ++ l2, n)) (State [[]] cs0 ss0 0 0) with
  | Some ((l, n), st) => Some (l, n, st)
  | None => None
  end.
End template.
