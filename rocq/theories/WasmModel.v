(** Model of the WebAssembly code of templates and functions: the [produce_wasm] methods of
    compiler/src/intermediate_representation/*_bucket.rs, applied to the instructions of IrModel.v
    (numbered by [build]), and the meaning of that code.

    Simplifications.  As in IrModel.v, sizes are single sizes and calls are not nested in
    expressions.  32-bit integers are unbounded.  Addresses carry the region of the memory they
    point into: the regions of code_producers/src/wasm_elements/mod.rs (constants, signals, component
    tree, tables, stack) are disjoint and never overrun; an address that is not the start of a field
    element or of an entry where one is expected is [Bad].  Texts of messages are left out.  What is
    behind a call of a function, of [_run] or of the creation of subcomponents is an oracle
    ([w_call], [w_run], [w_create] of IrModel.v); a failure of one of the first two is the error
    code 1. *)
From stdpp Require Import prelude numbers list.
From Verif Require Import DatModel IrModel.
Local Open Scope Z_scope.

(** ** Instructions *)

(** Where addresses point: local variables, signals, constants, temporaries of expressions, the top
    of the stack (arguments of calls), the destination of the result of a function; the block of the
    component being run, the block of its subcomponent [c]; the table from templates to signals
    (one word per template), the list of one template (one word per signal), the description of a
    signal; the same for buses. *)
Inductive region : Type :=
| RVars | RSigs | RConst | RAux | RArgs | RResult
| ROwn | RBlock (c : Z)
| RTpl | RSignals (t : Z) | RSignal (t : Z) (code : nat)
| RBus | RFields (b : Z) | RField (b : Z) (field : nat).
Inductive wval : Type := Int (z : Z) | Ptr (r : region) (o : Z).

(** Locals of the generated functions (code_producers/src/wasm_elements/mod.rs:119-143). *)
Inductive local : Type :=
| LLvar | LSignals | LExpaux | LOffset | LSub | LSubLoad | LInfo | LAux0 | LAux1 | LAux2 | LCounter
| LStore1 | LStore2 | LCopy | LCall | LError | LResult | LSize | LStack.
Global Instance local_eq_dec : EqDecision local.
Proof. solve_decision. Defined.

(** [IAddr r o]: the constant [start of r + o].  [ILoad (Some r) o]: a load whose static offset is
    [start of r + o].  [ICall fn n]: a call of a function with [n] field elements as arguments.
    [IRun true]: the indirect call through [$runsmap].  [IMessage]: the four instructions that print
    the message of an error.  [IPrint], [IPrintStr]: the calls that print a value, a string or
    ([None]) an end of line. *)
Inductive instr : Type :=
| IConst (z : Z) | IAddr (r : region) (o : Z)
| IGet (l : local) | ISet (l : local) | ITee (l : local)
| IAdd | ISub | IMul | IEqz
| ILoad (base : option region) (o : Z) | IStore (o : Z)
| IOp1 (op : nat) | IOp2 (op : nat) | IEq | ICopy | IIsTrue | IToInt
| ICall (fn nargs : nat) | IRun (indirect : bool) | ICreate (id : nat)
| IPrint | IPrintStr (id : option nat) | IMessage
| IIf (l1 l2 : list instr) | IBlock (l : list instr) | ILoop (l : list instr)
| IBr (n : nat) | IBrIf (n : nat) | IReturn.

(** ** Generated code *)

Section Gen.
(** Bytes of a field element: code_producers/src/wasm_elements/mod.rs:416-418, times 4. *)
Context (fs : Z).

(** load_bucket.rs:74-84, 104-114; store_bucket.rs:96-107; call_bucket.rs:186-197: the block of a
    subcomponent, [c] being the code of its index. *)
Definition code_block (c : list instr) : list instr :=
  [IGet LOffset; IConst 12; IAdd] ++ c ++ [IConst 4; IMul; IAdd; ILoad None 0].

(** load_bucket.rs:163-176: the product of the sizes of the dimensions that are not indexed, from
    the word [k] of the description on. *)
Fixpoint rest_sizes (k : Z) (n : nat) : list instr :=
  match n with O => [] | S n => [IGet LInfo; ILoad None (4 * k); IMul] ++ rest_sizes (k + 1) n end.
Definition missing (k : Z) (diff : nat) : list instr :=
  match diff with O => [] | S n => [IGet LInfo; ILoad None (4 * k)] ++ rest_sizes (k + 1) n end.

(** load_bucket.rs:125-138: from the address of the description of the signal to its offset, and to
    the bus when the first access is to a field. *)
Definition first_access (acc : accesses) : list instr :=
  match acc with
  | XNil => [ILoad None 0]
  | XIdx _ _ _ => [ITee LInfo; ILoad None 0]
  | XQual _ _ => [ITee LInfo; ILoad None 0; IGet LInfo; ILoad None 4]
  end.

(** value_bucket.rs:50-73, load_bucket.rs:48-244, compute_bucket.rs:137-310. *)
Fixpoint code_f (e : fexpr) : list instr :=
  match e with
  | FValue _ c => [IAddr RConst (Z.of_nat c * fs)]
  | FLoadVar a => code_a a ++ [IConst fs; IMul; IGet LLvar; IAdd]
  | FLoadSig a => code_a a ++ [IConst fs; IMul; IGet LSignals; IAdd]
  | FLoadSub cmp l => code_l (code_block (code_a cmp)) l
  | FOp1 aux op a =>
      [IGet LExpaux; IConst (Z.of_nat aux * fs); IAdd] ++ code_f a ++ [IOp1 op] ++
      [IGet LExpaux; IConst (Z.of_nat aux * fs); IAdd]
  | FOp2 aux op a b =>
      [IGet LExpaux; IConst (Z.of_nat aux * fs); IAdd] ++ code_f a ++ code_f b ++ [IOp2 op] ++
      [IGet LExpaux; IConst (Z.of_nat aux * fs); IAdd]
  | FEq aux n a b =>
      [IGet LExpaux; IConst (Z.of_nat aux * fs); IAdd] ++ code_f a ++ code_f b ++
      (if decide (n = 1)%nat then [IEq] else
       [IConst (Z.of_nat n); ISet LCounter; ISet LAux2; ISet LAux1; ISet LAux0;
        IBlock [ILoop
          [IGet LAux0; IGet LAux1; IGet LAux2; IEq; IGet LAux0; IIsTrue; IEqz; IBrIf 1;
           IGet LCounter; IConst 1; ISub; ITee LCounter; IEqz; IBrIf 1;
           IGet LAux1; IConst fs; IAdd; ISet LAux1; IGet LAux2; IConst fs; IAdd; ISet LAux2; IBr 0]]]) ++
      [IGet LExpaux; IConst (Z.of_nat aux * fs); IAdd]
  end
with code_a (e : aexpr) : list instr :=
  match e with
  | AValue v => [IConst v]
  | AAdd a b => code_a a ++ code_a b ++ [IAdd]
  | AMul a b => code_a a ++ code_a b ++ [IMul]
  | AToAddr f => code_f f ++ [IToInt]
  end
with code_as (k : Z) (l : aexprs) : list instr :=
  (* load_bucket.rs:147-157: the position among the elements, from index [k] on *)
  match l with
  | ANil => []
  | ACons a r =>
      (if decide (k = 0) then code_a a else [IGet LInfo; ILoad None (4 * k); IMul] ++ code_a a ++ [IAdd])
      ++ code_as (k + 1) r
  end
with code_l (block : list instr) (l : locat) : list instr :=
  match l with
  | Indexed a => code_a a ++ [IConst fs; IMul] ++ block ++ [IConst 4; IAdd; ILoad None 0; IAdd]
  | Mapped code acc =>
      block ++
      [ITee LSubLoad; ILoad None 4; IGet LSubLoad; ILoad None 0; IConst 4; IMul; ILoad (Some RTpl) 0;
       ILoad None (4 * Z.of_nat code)] ++ first_access acc ++ code_x acc ++ [IAdd]
  end
with code_x (acc : accesses) : list instr :=
  (* load_bucket.rs:139-228; the accesses that fail its assertions are excluded by [shape_x] *)
  match acc with
  | XNil => []
  | XIdx ixs dim r =>
      let n := as_length ixs in
      let diff := (dim - n)%nat in
      let k := Z.of_nat n + Z.of_nat diff in
      code_as 0 ixs ++ missing (Z.of_nat n) diff ++
      [IConst fs; IGet LInfo; ILoad None (4 * k); IMul] ++
      (if decide (0 < diff)%nat then [IMul] else []) ++ [IMul; IAdd] ++
      (match r with XNil => [] | _ => [IGet LInfo; ILoad None (4 * (k + 1))] end) ++ code_x r
  | XQual field r =>
      [IConst 4; IMul; ILoad (Some RBus) 0; ILoad None (4 * Z.of_nat field)] ++
      (match r with XNil => [] | _ => [ITee LInfo] end) ++ [ILoad None 0; IAdd] ++
      (match r with XQual _ _ => [IGet LInfo; ILoad None 4] | _ => [] end) ++ code_x r
  end.

(** store_bucket.rs:80-262, call_bucket.rs:170-353: the address of a destination. *)
Definition code_dest (d : dest) : list instr :=
  match d with
  | DVar a => code_a a ++ [IConst fs; IMul; IGet LLvar; IAdd]
  | DSig a _ => code_a a ++ [IConst fs; IMul; IGet LSignals; IAdd]
  | DSub cmp (Indexed a) _ =>
      code_a a ++ [IConst fs; IMul] ++ code_block (code_a cmp) ++
      [ITee LSub; IConst 4; IAdd; ILoad None 0; IAdd]
  | DSub cmp (Mapped code acc) _ =>
      code_block (code_a cmp) ++
      [ITee LSub; ILoad None 0; IConst 4; IMul; ILoad (Some RTpl) 0; ILoad None (4 * Z.of_nat code)] ++
      first_access acc ++ code_x acc ++ [IGet LSub; IConst 4; IAdd; ILoad None 0; IAdd]
  end.

(** store_bucket.rs:321-343, call_bucket.rs:114-137: copy of [$copy_counter] elements. *)
Definition copy_loop : list instr :=
  [IBlock [ILoop
    [IGet LCopy; IEqz; IBrIf 1; IGet LStore1; IGet LStore2; ICopy;
     IGet LCopy; IConst 1; ISub; ISet LCopy;
     IGet LStore1; IConst fs; IAdd; ISet LStore1; IGet LStore2; IConst fs; IAdd; ISet LStore2; IBr 0]]].

(** store_bucket.rs:393-403: an error code other than 0 is returned. *)
Definition code_error : list instr := [ITee LError; IIf [IMessage; IGet LError; IReturn] []].

(** store_bucket.rs:345-430, call_bucket.rs:384-456: the input counter decreases by [n], and the
    subcomponent runs when it becomes 0. *)
Definition code_trigger (d : dest) (n : nat) : list instr :=
  match d with
  | DSub _ l _ =>
      [IGet LSub; IGet LSub; ILoad None 8; IConst (Z.of_nat n); ISub; IStore 8;
       IGet LSub; ILoad None 8; IEqz;
       IIf ([IGet LSub] ++
            match l with Indexed _ => [IRun false] | Mapped _ _ => [IGet LSub; ILoad None 0; IRun true] end ++
            code_error) []]
  | _ => []
  end.

(** call_bucket.rs:75-144: the arguments, copied one after the other from byte [count] on. *)
Fixpoint code_args (count : Z) (args : list (fexpr * nat)) : list instr :=
  match args with
  | [] => []
  | (e, n) :: r =>
      [IGet LCall; IConst count; IAdd] ++ (if decide (1 < n)%nat then [ISet LStore1] else []) ++ code_f e ++
      (if decide (n = 1)%nat then [ICopy]
       else [ISet LStore2; IConst (Z.of_nat n); ISet LCopy] ++ copy_loop) ++
      code_args (count + Z.of_nat n * fs) r
  end.
Definition total (args : list (fexpr * nat)) : nat := foldr (fun x k => x.2 + k)%nat 0%nat args.

(** log_bucket.rs:72-89. *)
Definition code_log (x : log_arg) : list instr :=
  match x with LogExp e => code_f e ++ [IPrint] | LogStr s => [IPrintStr (Some s)] end.

(** store_bucket.rs:55-440, call_bucket.rs:69-464, branch_bucket.rs:55-98, loop_bucket.rs:48-74,
    assert_bucket.rs:44-68, return_bucket.rs:45-94, log_bucket.rs:66-103,
    create_component_bucket.rs:75-84. *)
Fixpoint code_s (i : stmt) : list instr :=
  match i with
  | SStore d n1 n2 e =>
      if decide (n1 = 0 \/ n2 = 0)%nat then [] else
      code_dest d ++
      (if decide (n1 = 1 \/ n2 = 1)%nat then code_f e ++ [ICopy] ++ code_trigger d 1
       else [ISet LStore1; IConst (Z.of_nat (n1 `min` n2)); ISet LCopy] ++ code_f e ++ [ISet LStore2] ++
            copy_loop ++ code_trigger d (n1 `min` n2))
  | SCall fn args d n =>
      (match args with [] => [] | _ => [IConst 0; ILoad None 0; ISet LCall] ++ code_args 0 args end) ++
      code_dest d ++ [IConst (Z.of_nat n); ICall fn (total args)] ++ code_error ++ code_trigger d n
  | SBranch c l1 l2 =>
      match l1, l2 with
      | [], [] => []
      | [], _ => code_f c ++ [IIsTrue; IEqz; IIf (concat (code_s <$> l2)) []]
      | _, _ => code_f c ++ [IIsTrue; IIf (concat (code_s <$> l1)) (concat (code_s <$> l2))]
      end
  | SLoop c l => [IBlock [ILoop (code_f c ++ [IIsTrue; IEqz; IBrIf 1] ++ concat (code_s <$> l) ++ [IBr 0])]]
  | SAssert _ e => code_f e ++ [IIsTrue; IEqz; IIf [IMessage; IConst 4; IReturn] []]
  | SReturn n e =>
      (if decide (n = 1)%nat then [IGet LResult] ++ code_f e ++ [ICopy]
       else code_f e ++
         [ISet LStore2;
          IBlock [ILoop
            [IGet LSize; IEqz; IBrIf 1; IGet LResult; IGet LStore2; ICopy;
             IGet LSize; IConst 1; ISub; ISet LSize;
             IGet LResult; IConst fs; IAdd; ISet LResult; IGet LStore2; IConst fs; IAdd; ISet LStore2; IBr 0]]]) ++
      (* free_stack: code_producers/src/wasm_elements/wasm_code_generator.rs:848-854 *)
      [IConst 0; IGet LStack; IStore 0; IConst 0; IReturn]
  | SLog args => concat (code_log <$> args) ++ [IPrintStr None]
  | SCreate id a => [IGet LOffset; IConst 12; IAdd] ++ code_a a ++ [IConst 4; IMul; IAdd; ICreate id]
  end.
Definition code (l : list stmt) : list instr := concat (code_s <$> l).
End Gen.

(** ** Meaning of the code *)

(** Which of the optional words the description of a signal or field has. *)
Record shape : Type := Shape { sh_array : bool; sh_bus : bool }.

Record wstate (V : Type) : Type := WState {
  t_mem : mem V; t_aux : nat -> V; t_args : Z -> V; t_result : Z -> V;
  t_loc : local -> wval; t_top : wval; t_stack : list wval }.
Arguments WState {V}. Arguments t_mem {V}. Arguments t_aux {V}. Arguments t_args {V}. Arguments t_result {V}.
Arguments t_loc {V}. Arguments t_top {V}. Arguments t_stack {V}.

(** [Next]: goes on; [Brk n]: branches to the [n]-th enclosing block; [Ret]: the function returns this
    code; [Trap]: the program stops; [Bad]: the code is not valid or leaves the model; [NoFuel]: the
    bound was reached. *)
Inductive out (V : Type) : Type :=
| Next (s : wstate V) | Brk (n : nat) (s : wstate V) | Ret (code : wval) (s : wstate V) | Trap | Bad | NoFuel.
Arguments Next {V}. Arguments Brk {V}. Arguments Ret {V}. Arguments Trap {V}. Arguments Bad {V}. Arguments NoFuel {V}.

Section Run.
Context {V : Type} (w : world V) (fs : Z) (depth : nat) (sio sbus : Z -> nat -> shape).

(** wasm_code_generator.rs:337-381 and 418-456: the words of a description. *)
Definition words (d : io_field) (h : shape) : list Z :=
  i_offset d * fs :: (if sh_array h then i_lengths d ++ [i_size d] else []) ++ (if sh_bus h then [i_bus d] else []).

(** A 32-bit word of the memory.  The block of a component (circuit_design/template.rs:60-108):
    template, start of the signals, input counter, blocks of the subcomponents. *)
Definition word (s : wstate V) (r : region) (o : Z) : option wval :=
  let m := t_mem s in
  let k := o / 4 in
  if decide (o mod 4 = 0) then
    match r with
    | ROwn => if decide (3 <= k) then Some (Ptr (RBlock (k - 3)) 0) else None
    | RBlock c =>
        if decide (k = 0) then Some (Int (m_tpl m c))
        else if decide (k = 1) then Some (Ptr RSigs (m_start m c * fs))
        else if decide (k = 2) then Some (Int (m_count m c)) else None
    | RTpl => Some (Ptr (RSignals k) 0)
    | RBus => Some (Ptr (RFields k) 0)
    | RSignals t => if decide (0 <= k) then Some (Ptr (RSignal t (Z.to_nat k)) 0) else None
    | RFields b => if decide (0 <= k) then Some (Ptr (RField b (Z.to_nat k)) 0) else None
    | RSignal t c => if decide (0 <= k) then Int <$> words (w_io w t c) (sio t c) !! Z.to_nat k else None
    | RField b f => if decide (0 <= k) then Int <$> words (w_bus w b f) (sbus b f) !! Z.to_nat k else None
    | _ => None
    end
  else None.

(** A field element. *)
Definition element (s : wstate V) (p : wval) : option V :=
  match p with
  | Ptr r o =>
      if decide (o mod fs = 0) then
        let k := o / fs in
        match r with
        | RVars => Some (m_vars (t_mem s) k)
        | RSigs => Some (m_sigs (t_mem s) k)
        | RConst => if decide (0 <= k) then Some (w_const w (Z.to_nat k)) else None
        | RAux => if decide (0 <= k < Z.of_nat depth) then Some (t_aux s (Z.to_nat k)) else None
        | RArgs => Some (t_args s k)
        | _ => None
        end
      else None
  | Int _ => None
  end.
Definition set_mem (s : wstate V) (m : mem V) : wstate V :=
  WState m (t_aux s) (t_args s) (t_result s) (t_loc s) (t_top s) (t_stack s).
Definition set_stack (s : wstate V) (st : list wval) : wstate V :=
  WState (t_mem s) (t_aux s) (t_args s) (t_result s) (t_loc s) (t_top s) st.
Definition set_loc (s : wstate V) (l : local) (v : wval) : wstate V :=
  WState (t_mem s) (t_aux s) (t_args s) (t_result s) (fun k => if decide (k = l) then v else t_loc s k) (t_top s) (t_stack s).
Definition set_element (s : wstate V) (p : wval) (v : V) : option (wstate V) :=
  match p with
  | Ptr r o =>
      if decide (o mod fs = 0) then
        let k := o / fs in
        match r with
        | RVars => Some (set_mem s (write (t_mem s) (LVar k) [v]))
        | RSigs => Some (set_mem s (write (t_mem s) (LSig k) [v]))
        | RAux =>
            if decide (0 <= k < Z.of_nat depth)
            then Some (WState (t_mem s) (fun j => if decide (j = Z.to_nat k) then v else t_aux s j) (t_args s) (t_result s)
                              (t_loc s) (t_top s) (t_stack s)) else None
        | RArgs =>
            Some (WState (t_mem s) (t_aux s) (upd (t_args s) k v) (t_result s) (t_loc s) (t_top s) (t_stack s))
        | RResult =>
            Some (WState (t_mem s) (t_aux s) (t_args s) (upd (t_result s) k v) (t_loc s) (t_top s) (t_stack s))
        | _ => None
        end
      else None
  | Int _ => None
  end.

Definition add (x y : wval) : option wval :=
  match x, y with
  | Int a, Int b => Some (Int (a + b))
  | Ptr r o, Int b => Some (Ptr r (o + b))
  | Int a, Ptr r o => Some (Ptr r (a + o))
  | Ptr _ _, Ptr _ _ => None
  end.

(** The address of a load or store, and the word 0 of the memory: the top of the stack. *)
Definition address (base : option region) (o : Z) (p : wval) : option (region * Z) :=
  match base, p with
  | Some r, Int z => Some (r, z + o)
  | None, Ptr r z => Some (r, z + o)
  | _, _ => None
  end.
Definition load (s : wstate V) (base : option region) (o : Z) (p : wval) : option wval :=
  match base, p with
  | None, Int z => if decide (z + o = 0) then Some (t_top s) else None
  | _, _ => '(r, a) ← address base o p; word s r a
  end.
Definition store (s : wstate V) (o : Z) (p v : wval) : option (wstate V) :=
  match p, v with
  | Int z, _ =>
      if decide (z + o = 0)
      then Some (WState (t_mem s) (t_aux s) (t_args s) (t_result s) (t_loc s) v (t_stack s)) else None
  | Ptr (RBlock c) z, Int n =>
      if decide (z + o = 8) then
        let m := t_mem s in
        Some (set_mem s (Mem (m_vars m) (m_sigs m) (m_base m) (m_start m) (m_tpl m) (upd (m_count m) c n) (m_set m) (m_log m)))
      else None
  | _, _ => None
  end.

(** [false] when an operand of a field operation is the temporary where its result goes. *)
Definition distinct (r p : wval) : bool :=
  match r, p with Ptr RAux o, Ptr RAux o' => bool_decide (o <> o') | _, _ => true end.

Definition of_opt (x : option (wstate V)) : out V := match x with Some s => Next s | None => Bad end.
Definition push (s : wstate V) (st : list wval) (x : option wval) : out V :=
  match x with Some v => Next (set_stack s (v :: st)) | None => Bad end.

(** Instructions without control flow. *)
Definition simple (i : instr) (s : wstate V) : out V :=
  match i, t_stack s with
  | IConst z, st => Next (set_stack s (Int z :: st))
  | IAddr r o, st => Next (set_stack s (Ptr r o :: st))
  | IGet l, st => Next (set_stack s (t_loc s l :: st))
  | ISet l, v :: st => Next (set_stack (set_loc s l v) st)
  | ITee l, v :: st => Next (set_loc s l v)
  | IAdd, y :: x :: st => push s st (add x y)
  | ISub, Int y :: Int x :: st => Next (set_stack s (Int (x - y) :: st))
  | IMul, Int y :: Int x :: st => Next (set_stack s (Int (x * y) :: st))
  | IEqz, Int x :: st => Next (set_stack s (Int (if decide (x = 0) then 1 else 0) :: st))
  | ILoad base o, p :: st => push s st (load s base o p)
  | IStore o, v :: p :: st => of_opt (s' ← store s o p v; Some (set_stack s' st))
  | IOp1 op, p :: r :: st =>
      match element s p with
      | Some x =>
          if distinct r p then
            match w_op1 w op x with
            | Some v => of_opt (s' ← set_element s r v; Some (set_stack s' st))
            | None => Trap
            end
          else Bad
      | None => Bad
      end
  | IOp2 op, q :: p :: r :: st =>
      match element s p, element s q with
      | Some x, Some y =>
          if distinct r p && distinct r q then
            match w_op2 w op x y with
            | Some v => of_opt (s' ← set_element s r v; Some (set_stack s' st))
            | None => Trap
            end
          else Bad
      | _, _ => Bad
      end
  | IEq, q :: p :: r :: st =>
      match element s p, element s q with
      | Some x, Some y =>
          if distinct r p && distinct r q
          then of_opt (s' ← set_element s r (w_bool w (w_eq w x y)); Some (set_stack s' st)) else Bad
      | _, _ => Bad
      end
  | ICopy, p :: r :: st => of_opt (v ← element s p; s' ← set_element s r v; Some (set_stack s' st))
  | IIsTrue, p :: st => push s st (v ← element s p; Some (Int (if w_true w v then 1 else 0)))
  | IToInt, p :: st =>
      match element s p with
      | Some v => match w_toint w v with Some z => Next (set_stack s (Int z :: st)) | None => Trap end
      | None => Bad
      end
  | ICall fn nargs, Int n :: p :: st =>
      match w_call w fn ((fun k => t_args s (Z.of_nat k)) <$> seq 0 nargs) (Z.to_nat n) with
      | Some vs =>
          match p with
          | Ptr RVars o =>
              if decide (o mod fs = 0)
              then Next (set_stack (set_mem s (write (t_mem s) (LVar (o / fs)) vs)) (Int 0 :: st)) else Bad
          | Ptr RSigs o =>
              if decide (o mod fs = 0)
              then Next (set_stack (set_mem s (write (t_mem s) (LSig (o / fs)) vs)) (Int 0 :: st)) else Bad
          | _ => Bad
          end
      | None => Next (set_stack s (Int 1 :: st))
      end
  | IRun false, Ptr (RBlock c) o :: st =>
      if decide (o = 0) then
        match w_run w c (t_mem s) with
        | Some m => Next (set_stack (set_mem s m) (Int 0 :: st))
        | None => Next (set_stack s (Int 1 :: st))
        end
      else Bad
  | IRun true, Int t :: Ptr (RBlock c) o :: st =>
      if decide (o = 0 /\ t = m_tpl (t_mem s) c) then
        match w_run w c (t_mem s) with
        | Some m => Next (set_stack (set_mem s m) (Int 0 :: st))
        | None => Next (set_stack s (Int 1 :: st))
        end
      else Bad
  | ICreate id, Ptr ROwn o :: st =>
      if decide (o mod 4 = 0 /\ 12 <= o) then
        match w_create w id (o / 4 - 3) (t_mem s) with
        | Some m => Next (set_stack (set_mem s m) st)
        | None => Trap
        end
      else Bad
  | IPrint, p :: st =>
      of_opt (v ← element s p; Some (set_stack (set_mem s (print (t_mem s) (inl v))) st))
  | IPrintStr id, st => Next (set_mem s (print (t_mem s) (inr id)))
  | IMessage, st => Next s
  | IBr n, _ => Brk n s
  | IBrIf n, Int z :: st => if decide (z = 0) then Next (set_stack s st) else Brk n (set_stack s st)
  | IReturn, v :: st => Ret v (set_stack s st)
  | _, _ => Bad
  end.

Definition run_list (f : instr -> wstate V -> out V) : list instr -> wstate V -> out V :=
  fix go l s := match l with
                | [] => Next s
                | i :: r => match f i s with Next s' => go r s' | o => o end
                end.

(** The end of a block that was entered with stack [st]: nothing may be left on the stack. *)
Definition leave (st : list wval) (o : out V) : out V :=
  match o with
  | Next s => match t_stack s with [] => Next (set_stack s st) | _ => Bad end
  | Brk O s => Next (set_stack s st)
  | Brk (S n) s => Brk n s
  | o => o
  end.

(** [fuel] bounds the nesting of blocks and iterations. *)
Fixpoint run (fuel : nat) (i : instr) (s : wstate V) {struct fuel} : out V :=
  match i with
  | IIf l1 l2 =>
      match t_stack s with
      | Int z :: st =>
          match fuel with
          | O => NoFuel
          | S fuel => leave st (run_list (run fuel) (if decide (z = 0) then l2 else l1) (set_stack s []))
          end
      | _ => Bad
      end
  | IBlock l =>
      match fuel with
      | O => NoFuel
      | S fuel => leave (t_stack s) (run_list (run fuel) l (set_stack s []))
      end
  | ILoop l =>
      match fuel with
      | O => NoFuel
      | S fuel =>
          match run_list (run fuel) l (set_stack s []) with
          | Brk O s' => run fuel (ILoop l) (set_stack s' (t_stack s))
          | o => leave (t_stack s) o
          end
      end
  | _ => simple i s
  end.
End Run.
