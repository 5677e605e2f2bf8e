(** Model of the last steps of code generation for templates and functions: the folding of
    constant addresses (compiler/src/ir_processing/reduce_stack.rs), the numbering of the
    temporaries [expaux] (compiler/src/ir_processing/build_stack.rs) and the C++ code of each
    instruction (the [produce_c] methods of compiler/src/intermediate_representation/*_bucket.rs),
    with the meaning of that C++ code.

    Simplifications.  The field is not Goldilocks (the code for that prime keeps values instead of
    pointers).  Instructions are typed here: field expressions and address expressions are two
    types, so that the [unreachable!] cases of build_stack.rs (an address operator among field
    operators and the reverse) cannot be written; translate.rs builds only such instructions.
    Sizes are single sizes ([SizeOption::Single]); subcomponents are not parallel
    ([uniform_parallel_value = Some(false)]), while the template being compiled may be.
    [cmp_index_ref_load], which only serves multiple sizes and parallel subcomponents, is left out.
    C++ integers are unbounded, and array accesses outside [expaux] are not checked. *)
From stdpp Require Import prelude numbers list.
From Verif Require Import DatModel.
Local Open Scope Z_scope.

(** ** Instructions *)

(** ValueBucket, LoadBucket, ComputeBucket (compiler/src/intermediate_representation/value_bucket.rs:7-13,
    load_bucket.rs:7-14, compute_bucket.rs:7-35 and 92-98, location_rule.rs:4-36, address_type.rs:36-46).
    [FValue] and [FOp*] carry [op_aux_no]; [FEq] is [OperatorType::Eq(Single(size))]. *)
Inductive fexpr : Type :=
| FValue (aux c : nat)
| FLoadVar (loc : aexpr)
| FLoadSig (loc : aexpr)
| FLoadSub (cmp : aexpr) (loc : locat)
| FOp1 (aux op : nat) (a : fexpr)
| FOp2 (aux op : nat) (a b : fexpr)
| FEq (aux size : nat) (a b : fexpr)
with aexpr : Type :=
| AValue (v : Z)
| AAdd (a b : aexpr)
| AMul (a b : aexpr)
| AToAddr (f : fexpr)
with aexprs : Type :=
| ANil
| ACons (a : aexpr) (l : aexprs)
with locat : Type :=
| Indexed (a : aexpr)
| Mapped (code : nat) (acc : accesses)
with accesses : Type :=
| XNil
| XIdx (ixs : aexprs) (dim : nat) (rest : accesses)
| XQual (field : nat) (rest : accesses).

(** address_type.rs:4-14: what a store to an input of a subcomponent has to do next. *)
Inductive status : Type := Last | NoLast | Unknown.
Record input_info : Type := InputInfo { i_status : status; i_decrement : bool }.

(** The destination of a store or call: [dest_address_type], [dest] and [dest_is_output]
    (store_bucket.rs:7-19, call_bucket.rs:7-30). *)
Inductive dest : Type :=
| DVar (loc : aexpr)
| DSig (loc : aexpr) (is_output : bool)
| DSub (cmp : aexpr) (loc : locat) (info : input_info).

(** LogBucketArg (log_bucket.rs:8-12). *)
Inductive log_arg : Type := LogExp (e : fexpr) | LogStr (id : nat).

(** StoreBucket, CallBucket (with [ReturnType::Final]; calls inside expressions are removed before
    this stage), BranchBucket, LoopBucket, AssertBucket, ReturnBucket, LogBucket, CreateCmpBucket. *)
Inductive stmt : Type :=
| SStore (d : dest) (dsize ssize : nat) (src : fexpr)
| SCall (fn : nat) (args : list (fexpr * nat)) (d : dest) (size : nat)
| SBranch (c : fexpr) (l1 l2 : list stmt)
| SLoop (c : fexpr) (body : list stmt)
| SAssert (is_constraint : bool) (e : fexpr)
| SReturn (size : nat) (e : fexpr)
| SLog (args : list log_arg)
| SCreate (id : nat) (sub_cmp_id : aexpr).

(** ** Folding of constant addresses *)

(** [usize] arithmetic; an overflow is [None] (a panic in a debug build). *)
Definition usize (x : Z) : option Z := if decide (0 <= x < 2 ^ 64) then Some x else None.

(** reduce_stack.rs:57-70: two literals. *)
Definition operands (a b : aexpr) : option (Z * Z) :=
  match a, b with AValue x, AValue y => Some (x, y) | _, _ => None end.

(** reduce_stack.rs:28-55 and 120-124, 143-189.  [None] is the overflow. *)
Fixpoint reduce_f (e : fexpr) : option fexpr :=
  match e with
  | FValue aux c => Some (FValue aux c)
  | FLoadVar a => a' ← reduce_a a; Some (FLoadVar a')
  | FLoadSig a => a' ← reduce_a a; Some (FLoadSig a')
  | FLoadSub cmp l => cmp' ← reduce_a cmp; l' ← reduce_l l; Some (FLoadSub cmp' l')
  | FOp1 aux op a => a' ← reduce_f a; Some (FOp1 aux op a')
  | FOp2 aux op a b => a' ← reduce_f a; b' ← reduce_f b; Some (FOp2 aux op a' b')
  | FEq aux n a b => a' ← reduce_f a; b' ← reduce_f b; Some (FEq aux n a' b')
  end
with reduce_a (e : aexpr) : option aexpr :=
  match e with
  | AValue v => Some (AValue v)
  | AAdd a b =>
      a' ← reduce_a a; b' ← reduce_a b;
      match operands a' b' with Some (x, y) => z ← usize (x + y); Some (AValue z) | None => Some (AAdd a' b') end
  | AMul a b =>
      a' ← reduce_a a; b' ← reduce_a b;
      match operands a' b' with Some (x, y) => z ← usize (x * y); Some (AValue z) | None => Some (AMul a' b') end
  | AToAddr f => f' ← reduce_f f; Some (AToAddr f')
  end
with reduce_as (l : aexprs) : option aexprs :=
  match l with
  | ANil => Some ANil
  | ACons a r => a' ← reduce_a a; r' ← reduce_as r; Some (ACons a' r')
  end
with reduce_l (l : locat) : option locat :=
  match l with
  | Indexed a => a' ← reduce_a a; Some (Indexed a')
  | Mapped code acc => acc' ← reduce_x acc; Some (Mapped code acc')
  end
with reduce_x (acc : accesses) : option accesses :=
  match acc with
  | XNil => Some XNil
  | XIdx ixs dim r => ixs' ← reduce_as ixs; r' ← reduce_x r; Some (XIdx ixs' dim r')
  | XQual field r => r' ← reduce_x r; Some (XQual field r')
  end.

(** reduce_stack.rs:126-141, 143-153. *)
Definition reduce_dest (d : dest) : option dest :=
  match d with
  | DVar a => a' ← reduce_a a; Some (DVar a')
  | DSig a o => a' ← reduce_a a; Some (DSig a' o)
  | DSub cmp l i => cmp' ← reduce_a cmp; l' ← reduce_l l; Some (DSub cmp' l' i)
  end.

Definition reduce_arg (x : fexpr * nat) : option (fexpr * nat) := e ← reduce_f x.1; Some (e, x.2).
Definition reduce_log (x : log_arg) : option log_arg :=
  match x with LogExp e => e' ← reduce_f e; Some (LogExp e') | LogStr s => Some (LogStr s) end.

(** reduce_stack.rs:3-26, 72-141. *)
Fixpoint reduce_s (i : stmt) : option stmt :=
  match i with
  | SStore d n1 n2 e => d' ← reduce_dest d; e' ← reduce_f e; Some (SStore d' n1 n2 e')
  | SCall fn args d n => args' ← mapM reduce_arg args; d' ← reduce_dest d; Some (SCall fn args' d' n)
  | SBranch c l1 l2 => c' ← reduce_f c; l1' ← mapM reduce_s l1; l2' ← mapM reduce_s l2; Some (SBranch c' l1' l2')
  | SLoop c l => c' ← reduce_f c; l' ← mapM reduce_s l; Some (SLoop c' l')
  | SAssert k e => e' ← reduce_f e; Some (SAssert k e')
  | SReturn n e => e' ← reduce_f e; Some (SReturn n e')
  | SLog args => args' ← mapM reduce_log args; Some (SLog args')
  | SCreate id a => a' ← reduce_a a; Some (SCreate id a')
  end.

(** ** Numbering of the temporaries *)

(** build_stack.rs:59-98 ([build_instruction_compute], [build_compute], [build_load]) and 139-222.
    From the next free number to the numbered instruction, the depth and the next free number. *)
Fixpoint build_f (fresh : nat) (e : fexpr) : fexpr * nat * nat :=
  match e with
  | FValue _ c => (FValue fresh c, S fresh, S fresh)
  | FLoadVar a => let '(a', d, f) := build_a fresh a in (FLoadVar a', fresh `max` d, f)%nat
  | FLoadSig a => let '(a', d, f) := build_a fresh a in (FLoadSig a', fresh `max` d, f)%nat
  | FLoadSub cmp l =>
      let '(cmp', d0, f0) := build_a fresh cmp in
      let '(l', d1, f1) := build_l f0 l in
      (FLoadSub cmp' l', (fresh `max` d0) `max` d1, f1)%nat
  | FOp1 _ op a =>
      let '(a', d, _) := build_f (S fresh) a in (FOp1 fresh op a', S fresh `max` d, S fresh)%nat
  | FOp2 _ op a b =>
      let '(a', d0, f0) := build_f (S fresh) a in
      let '(b', d1, _) := build_f f0 b in
      (FOp2 fresh op a' b', (S fresh `max` d0) `max` d1, S fresh)%nat
  | FEq _ n a b =>
      let '(a', d0, f0) := build_f (S fresh) a in
      let '(b', d1, _) := build_f f0 b in
      (FEq fresh n a' b', (S fresh `max` d0) `max` d1, S fresh)%nat
  end
with build_a (fresh : nat) (e : aexpr) : aexpr * nat * nat :=
  match e with
  | AValue v => (AValue v, 0%nat, fresh)
  | AAdd a b =>
      let '(a', d0, f0) := build_a fresh a in
      let '(b', d1, f1) := build_a f0 b in
      (AAdd a' b', (fresh `max` d0) `max` d1, f1)%nat
  | AMul a b =>
      let '(a', d0, f0) := build_a fresh a in
      let '(b', d1, f1) := build_a f0 b in
      (AMul a' b', (fresh `max` d0) `max` d1, f1)%nat
  | AToAddr e => let '(e', d, f) := build_f fresh e in (AToAddr e', fresh `max` d, f)%nat
  end
with build_as (fresh : nat) (l : aexprs) : aexprs * nat * nat :=
  match l with
  | ANil => (ANil, 0%nat, fresh)
  | ACons a r =>
      let '(a', d0, f0) := build_a fresh a in
      let '(r', d1, f1) := build_as f0 r in
      (ACons a' r', d0 `max` d1, f1)%nat
  end
with build_l (fresh : nat) (l : locat) : locat * nat * nat :=
  match l with
  | Indexed a => let '(a', d, f) := build_a fresh a in (Indexed a', d, f)
  | Mapped code acc => let '(acc', d, f) := build_x fresh acc in (Mapped code acc', fresh `max` d, f)%nat
  end
with build_x (fresh : nat) (acc : accesses) : accesses * nat * nat :=
  match acc with
  | XNil => (XNil, 0%nat, fresh)
  | XIdx ixs dim r =>
      let '(ixs', d0, f0) := build_as fresh ixs in
      let '(r', d1, f1) := build_x f0 r in
      (XIdx ixs' dim r', d0 `max` d1, f1)%nat
  | XQual field r => let '(r', d, f) := build_x fresh r in (XQual field r', d, f)
  end.

(** build_stack.rs:132-137 and 44-48: location and component address of a destination are numbered
    from the same number. *)
Definition build_dest (fresh : nat) (d : dest) : dest * nat :=
  match d with
  | DVar a => let '(a', d, _) := build_a fresh a in (DVar a', d `max` fresh)%nat
  | DSig a o => let '(a', d, _) := build_a fresh a in (DSig a' o, d `max` fresh)%nat
  | DSub cmp l i =>
      let '(l', d0, _) := build_l fresh l in
      let '(cmp', d1, _) := build_a fresh cmp in
      (DSub cmp' l' i, d0 `max` (fresh `max` d1))%nat
  end.

(** build_stack.rs:50-54: one more number is skipped before each argument. *)
Fixpoint build_args (fresh : nat) (args : list (fexpr * nat)) : list (fexpr * nat) * nat :=
  match args with
  | [] => ([], 0%nat)
  | (e, n) :: r =>
      let '(e', d, _) := build_f (S fresh) e in
      let '(r', d') := build_args (S fresh) r in
      ((e', n) :: r', d `max` d')%nat
  end.

(** build_stack.rs:114-126. *)
Fixpoint build_logs (fresh : nat) (args : list log_arg) : list log_arg * nat :=
  match args with
  | [] => ([], 0%nat)
  | LogExp e :: r =>
      let '(e', d, _) := build_f fresh e in
      let '(r', d') := build_logs fresh r in (LogExp e' :: r', d `max` d')%nat
  | LogStr s :: r => let '(r', d') := build_logs fresh r in (LogStr s :: r', d')
  end.

(** build_stack.rs:3-10: every instruction of a list starts from the same number. *)
Definition build_list (b : stmt -> stmt * nat) : list stmt -> list stmt * nat :=
  fix go l := match l with
              | [] => ([], 0%nat)
              | i :: r => let '(i', d) := b i in let '(r', d') := go r in (i' :: r', d `max` d')%nat
              end.

(** build_stack.rs:12-56, 100-137. *)
Fixpoint build_s (fresh : nat) (i : stmt) : stmt * nat :=
  match i with
  | SStore d n1 n2 e =>
      let '(e', d0, _) := build_f fresh e in
      let '(d', d1) := build_dest fresh d in (SStore d' n1 n2 e', d0 `max` d1)%nat
  | SCall fn args d n =>
      let '(d', d0) := build_dest fresh d in
      let '(args', d1) := build_args fresh args in (SCall fn args' d' n, d0 `max` d1)%nat
  | SBranch c l1 l2 =>
      let '(c', d0, _) := build_f fresh c in
      let '(l1', d1) := build_list (build_s fresh) l1 in
      let '(l2', d2) := build_list (build_s fresh) l2 in (SBranch c' l1' l2', d0 `max` (d1 `max` d2))%nat
  | SLoop c l =>
      let '(c', d0, _) := build_f fresh c in
      let '(l', d1) := build_list (build_s fresh) l in (SLoop c' l', d0 `max` d1)%nat
  | SAssert k e => let '(e', d, _) := build_f fresh e in (SAssert k e', d)
  | SReturn n e => let '(e', d, _) := build_f fresh e in (SReturn n e', d)
  | SLog args => let '(args', d) := build_logs fresh args in (SLog args', d)
  | SCreate id a => let '(a', d, _) := build_a fresh a in (SCreate id a', d)
  end.

(** compiler/src/ir_processing/mod.rs:12-14: the number of temporaries declared for the code. *)
Definition build (l : list stmt) : list stmt * nat := build_list (build_s 0) l.

(** ** C++ code *)

(** Expressions of the generated code.  [CSum] and [CProd] are written without parentheses;
    [CParen] writes them.  [cint]: integers; [cdef]: an [IOFieldDef] of the tables of the data
    file; [cptr]: pointers to field elements. *)
Inductive cint : Type :=
| CNum (z : Z)
| CSum (a b : cint)
| CProd (a b : cint)
| CParen (a : cint)
| CToInt (p : cptr)              (* Fr_toInt(p) *)
| CCmp                           (* cmp_index_ref *)
| CIdx (k : nat)                 (* map_index_aux[k] *)
| CAcc (k : nat)                 (* map_accesses_aux[k] *)
| COff (d : cdef)                (* d.offset *)
| CLen (d : cdef) (i : nat)      (* d.lengths[i] *)
| CSize (d : cdef)               (* d.size *)
with cdef : Type :=
| DTpl (cmp : cint) (code : nat) (* templateInsId2IOSignalInfo[template of cmp].defs[code] *)
| DBus (d : cdef) (field : nat)  (* busInsId2FieldInfo[d.busId].defs[field] *)
| DCur                           (* *cur_def *)
with cptr : Type :=
| PConst (c : nat)               (* &circuitConstants[c] *)
| PVar (i : cint)                (* &lvar[i] *)
| PSig (i : cint)                (* &signalValues[mySignalStart + i] *)
| PSub (cmp i : cint)            (* &ctx->signalValues[...[mySubcomponents[cmp]].signalStart + i] *)
| PAux (n : nat).                (* &expaux[n] *)

(** The text [t*f]: in C++ the product takes the last summand of an unparenthesised sum. *)
Fixpoint times (t f : cint) : cint :=
  match t with CSum a b => CSum a (times b f) | _ => CProd t f end.

Inductive cstmt : Type :=
| COp1 (aux op : nat) (p : cptr)
| COp2 (aux op : nat) (p q : cptr)
| CEqN (aux size : nat) (p q : cptr)
| CSetCmp (i : cint)             (* uint cmp_index_ref = i; *)
| CSetDef (d : cdef)             (* cur_def = &d; *)
| CSetIdx (k : nat) (i : cint)   (* map_index_aux[k] = i; *)
| CSetAcc (k : nat) (i : cint)   (* map_accesses_aux[k] = i; *)
| CSetDest (p : cptr)            (* FrElement* aux_dest = p; *)
| CCopy (n : nat) (p : cptr)     (* Fr_copyn(aux_dest, p, n), Fr_copy when n = 1 *)
| CNotify (i : cint) (n : nat)   (* outputIsSet[i + ..] = true for n positions *)
| CTrigger (info : input_info) (n : nat)
| CArg (pos n : nat) (p : cptr)  (* copy of an argument of a call into lvarcall[pos] *)
| CCall (fn nargs : nat) (p : cptr) (n : nat)
| CIf (p : cptr) (l1 l2 : list cstmt)
| CWhile (p : cptr) (l : list cstmt)
| CAssert (p : cptr)
| CReturn (n : nat) (p : cptr)   (* copy to the destination of the function, return *)
| CPrint (p : cptr)
| CPrintStr (id : option nat)    (* a string of the table; [None]: a space or the end of line *)
| CCreate (id : nat) (i : cint).

(** load_bucket.rs:298-301: multiplication by the dimensions that are not indexed. *)
Fixpoint rest_dims (cur : cdef) (i n : nat) (t : cint) : cint :=
  match n with O => t | S n => rest_dims cur (S i) n (times t (CLen cur (i - 1))) end.

Fixpoint as_length (l : aexprs) : nat := match l with ANil => 0 | ACons _ r => S (as_length r) end.

(** value_bucket.rs:75-91, load_bucket.rs:247-420, compute_bucket.rs:312-422: the code to run first
    (prologue) and the expression of the result.  The dimensions of an indexed access are assumed
    to be at least as many as its indexes (assertion in load_bucket.rs:293), and its indexes at
    least one. *)
Fixpoint gen_f (e : fexpr) : list cstmt * cptr :=
  match e with
  | FValue _ c => ([], PConst c)
  | FLoadVar a => let '(pre, i) := gen_a a in (pre, PVar i)
  | FLoadSig a => let '(pre, i) := gen_a a in (pre, PSig i)
  | FLoadSub cmp l =>
      let '(pre, c) := gen_a cmp in
      let '(pre', i) := gen_l c l in (pre ++ pre', PSub c i)
  | FOp1 aux op a => let '(pre, p) := gen_f a in (pre ++ [COp1 aux op p], PAux aux)
  | FOp2 aux op a b =>
      let '(pre, p) := gen_f a in
      let '(pre', q) := gen_f b in (pre ++ pre' ++ [COp2 aux op p q], PAux aux)
  | FEq aux n a b =>
      let '(pre, p) := gen_f a in
      let '(pre', q) := gen_f b in (pre ++ pre' ++ [CEqN aux n p q], PAux aux)
  end
with gen_a (e : aexpr) : list cstmt * cint :=
  match e with
  | AValue v => ([], CNum v)
  | AAdd a b =>
      let '(pre, x) := gen_a a in
      let '(pre', y) := gen_a b in (pre ++ pre', CParen (CSum x y))
  | AMul a b =>
      let '(pre, x) := gen_a a in
      let '(pre', y) := gen_a b in (pre ++ pre', CParen (CProd x y))
  | AToAddr e => let '(pre, p) := gen_f e in (pre, CToInt p)
  end
with gen_as (cur : cdef) (k : nat) (t : cint) (l : aexprs) : list cstmt * cint :=
  (* load_bucket.rs:285-292, from index [k] on; [t] is [map_index] *)
  match l with
  | ANil => ([], t)
  | ACons a r =>
      let '(pre, x) := gen_a a in
      let t' := if decide (k = 0)%nat then x
                else CSum (CProd (CParen t) (CParen (CLen cur (k - 1)))) x in
      let '(pre', t'') := gen_as cur (S k) t' r in (pre ++ pre', t'')
  end
with gen_l (cmp : cint) (l : locat) : list cstmt * cint :=
  match l with
  | Indexed a => gen_a a
  | Mapped code acc => gen_x (DTpl cmp code) (COff (DTpl cmp code)) acc
  end
with gen_x (cur : cdef) (access : cint) (acc : accesses) : list cstmt * cint :=
  (* load_bucket.rs:278-316 *)
  match acc with
  | XNil => ([], access)
  | XIdx ixs dim r =>
      let '(pre, t) := gen_as cur 0 (CNum 0) ixs in
      let n := as_length ixs in
      let t' := rest_dims cur n (dim - n) t in
      let '(pre', access') := gen_x cur (CSum access (CProd (CParen t') (CSize cur))) r in
      (pre ++ pre', access')
  | XQual field r =>
      let cur' := DBus cur field in
      gen_x cur' (CSum access (COff cur')) r
  end.

(** store_bucket.rs:527-537, call_bucket.rs:581-595: the indexes of a destination are kept in
    [map_index_aux]. *)
Fixpoint gen_das (k : nat) (t : cint) (l : aexprs) : list cstmt * cint :=
  match l with
  | ANil => ([], t)
  | ACons a r =>
      let '(pre, x) := gen_a a in
      let t' := if decide (k = 0)%nat then CIdx 0
                else CSum (CProd (CParen t) (CLen DCur (k - 1))) (CIdx k) in
      let '(pre', t'') := gen_das (S k) t' r in (pre ++ CSetIdx k x :: pre', t'')
  end.

(** store_bucket.rs:517-563, call_bucket.rs:577-621. *)
Fixpoint gen_dx (pos : nat) (access : cint) (acc : accesses) : list cstmt * cint :=
  match acc with
  | XNil => ([], access)
  | XIdx ixs dim r =>
      let '(pre, t) := gen_das 0 (CNum 0) ixs in
      let n := as_length ixs in
      let t' := rest_dims DCur n (dim - n) t in
      let '(pre', access') := gen_dx (S pos) (CSum access (CAcc pos)) r in
      (pre ++ CSetAcc pos (times t' (CSize DCur)) :: pre', access')
  | XQual field r =>
      let '(pre', access') := gen_dx (S pos) (CSum access (CAcc pos)) r in
      (CSetDef (DBus DCur field) :: CSetAcc pos (COff DCur) :: pre', access')
  end.

(** store_bucket.rs:495-570. *)
Definition gen_dl (l : locat) : list cstmt * cint :=
  match l with
  | Indexed a => gen_a a
  | Mapped code acc =>
      let '(pre, i) := gen_dx 0 (COff (DTpl CCmp code)) acc in
      (match acc with XNil => pre | _ => CSetDef (DTpl CCmp code) :: pre end, i)
  end.

(** store_bucket.rs:452-456, 495-599 and call_bucket.rs:538-660. *)
Definition gen_dest (d : dest) : list cstmt * cptr :=
  match d with
  | DVar a => let '(pre, i) := gen_a a in (pre, PVar i)
  | DSig a _ => let '(pre, i) := gen_a a in (pre, PSig i)
  | DSub cmp l _ =>
      let '(pre, c) := gen_a cmp in
      let '(pre', i) := gen_dl l in (pre ++ CSetCmp c :: pre', PSub CCmp i)
  end.

(** [dest_index], kept as text ([aux_dest_index], store_bucket.rs:600-606, 627-655;
    call_bucket.rs:667-690): the positions of the outputs to be marked as set, when the template is
    parallel and the destination is one of its outputs. *)
Definition gen_notify (parallel : bool) (d : dest) (n : nat) : list cstmt :=
  match d with
  | DSig a true => if parallel then [CNotify (gen_a a).2 n] else []
  | _ => []
  end.

(** store_bucket.rs:660-840, call_bucket.rs:692-870: counters and run of the subcomponent. *)
Definition gen_trigger (d : dest) (n : nat) : list cstmt :=
  match d with DSub _ _ info => [CTrigger info n] | _ => [] end.

(** store_bucket.rs:620-656: size 0 is copied like size 1. *)
Definition copy_size (n : nat) : nat := if decide (n = 0)%nat then 1%nat else n.

(** call_bucket.rs:480-516. *)
Fixpoint gen_args (count : nat) (args : list (fexpr * nat)) : list cstmt * nat :=
  match args with
  | [] => ([], count)
  | (e, n) :: r =>
      let '(pre, p) := gen_f e in
      let '(rest, total) := gen_args (count + n) r in
      (pre ++ CArg count (copy_size n) p :: rest, total)
  end.

(** log_bucket.rs:105-162. *)
Fixpoint gen_logs (args : list log_arg) : list cstmt :=
  match args with
  | [] => []
  | x :: r =>
      match x with
      | LogExp e => let '(pre, p) := gen_f e in pre ++ [CPrint p]
      | LogStr s => [CPrintStr (Some s)]
      end ++ (match r with [] => [] | _ => [CPrintStr None] end) ++ gen_logs r
  end.

(** store_bucket.rs:442-852, call_bucket.rs:466-888, branch_bucket.rs:100-123, loop_bucket.rs:76-92,
    assert_bucket.rs:70-89, return_bucket.rs:96-120, log_bucket.rs:105-162,
    create_component_bucket.rs:204-352.  [sanity]: [sanity_check_style]. *)
Fixpoint gen_s (parallel : bool) (sanity : nat) (i : stmt) : list cstmt :=
  match i with
  | SStore d n1 n2 e =>
      let n := (n1 `min` n2)%nat in
      let '(pre, p) := gen_dest d in
      let '(pre', q) := gen_f e in
      pre ++ CSetDest p :: pre' ++ CCopy (copy_size n) q
          :: gen_notify parallel d (copy_size n) ++ gen_trigger d n
  | SCall fn args d n =>
      let '(pre, total) := gen_args 0 args in
      let '(pre', p) := gen_dest d in
      pre ++ pre' ++ CCall fn total p n :: gen_notify parallel d (copy_size n) ++ gen_trigger d n
  | SBranch c l1 l2 =>
      let '(pre, p) := gen_f c in
      pre ++ [CIf p (concat (gen_s parallel sanity <$> l1)) (concat (gen_s parallel sanity <$> l2))]
  | SLoop c l =>
      let '(pre, p) := gen_f c in
      pre ++ [CWhile p (concat (gen_s parallel sanity <$> l) ++ pre)]
  | SAssert k e =>
      if negb k || bool_decide (1 <= sanity)%nat then let '(pre, p) := gen_f e in pre ++ [CAssert p] else []
  | SReturn n e => let '(pre, p) := gen_f e in pre ++ [CReturn n p]
  | SLog args => gen_logs args ++ [CPrintStr None]
  | SCreate id a => let '(pre, i) := gen_a a in pre ++ [CCreate id i]
  end.

Definition gen (parallel : bool) (sanity : nat) (l : list stmt) : list cstmt :=
  concat (gen_s parallel sanity <$> l).

(** ** Meaning of the C++ code *)

(** The memory a component can see: local variables, its signals and those of its subcomponents
    (absolute positions: its own signals start at [m_base]), and for each subcomponent where its
    signals start, its template and its input counter; the outputs marked as set; what was
    printed. *)
Record mem (V : Type) : Type := Mem {
  m_vars : Z -> V; m_sigs : Z -> V; m_base : Z;
  m_start : Z -> Z; m_tpl : Z -> Z; m_count : Z -> Z;
  m_set : list Z; m_log : list (V + option nat) }.
Arguments Mem {V}. Arguments m_vars {V}. Arguments m_sigs {V}. Arguments m_base {V}.
Arguments m_start {V}. Arguments m_tpl {V}. Arguments m_count {V}. Arguments m_set {V}.
Arguments m_log {V}.

(** What the generated code relies on: the field library (fr.cpp; [None]: it stops the program),
    the constants and tables of the data file, the other functions of the program, the run of a
    subcomponent and the creation of subcomponents. *)
Record world (V : Type) : Type := World {
  w_op1 : nat -> V -> option V; w_op2 : nat -> V -> V -> option V;
  w_eq : V -> V -> bool; w_bool : bool -> V; w_true : V -> bool; w_toint : V -> option Z;
  w_const : nat -> V;
  w_io : Z -> nat -> io_field; w_bus : Z -> nat -> io_field;
  w_call : nat -> list V -> nat -> option (list V);
  w_run : Z -> mem V -> option (mem V);
  w_create : nat -> Z -> mem V -> option (mem V) }.
Arguments World {V}. Arguments w_op1 {V}. Arguments w_op2 {V}. Arguments w_eq {V}. Arguments w_bool {V}.
Arguments w_true {V}. Arguments w_toint {V}. Arguments w_const {V}. Arguments w_io {V}.
Arguments w_bus {V}. Arguments w_call {V}. Arguments w_run {V}. Arguments w_create {V}.

(** [Abort]: the program stops (failed assertion).  [Wild]: a temporary outside the declared array
    is used, or an operation of the field library is given the same temporary as operand and as
    result.  [Fuel]: the bound on the number of iterations was reached. *)
Inductive res (A : Type) : Type := Ok (a : A) | Abort | Wild | Fuel.
Arguments Ok {A}. Arguments Abort {A}. Arguments Wild {A}. Arguments Fuel {A}.
Definition res_bind {A B} (x : res A) (f : A -> res B) : res B :=
  match x with Ok a => f a | Abort => Abort | Wild => Wild | Fuel => Fuel end.
Definition lift {A} (x : option A) : res A := match x with Some a => Ok a | None => Abort end.
Notation "x <-- a ; b" := (res_bind a (fun x => b)) (at level 100, a at next level, right associativity).

(** Positions of field elements. *)
Inductive mloc : Type := LVar (z : Z) | LSig (z : Z).
Inductive cloc : Type := CMem (l : mloc) | CConst (c : nat) | CAux (n : nat).

Definition upd {V} (f : Z -> V) (z : Z) (v : V) : Z -> V := fun y => if decide (y = z) then v else f y.
Fixpoint upds {V} (f : Z -> V) (z : Z) (l : list V) : Z -> V :=
  match l with [] => f | v :: l => upds (upd f z v) (z + 1) l end.
Definition write {V} (m : mem V) (l : mloc) (vs : list V) : mem V :=
  match l with
  | LVar z => Mem (upds (m_vars m) z vs) (m_sigs m) (m_base m) (m_start m) (m_tpl m) (m_count m) (m_set m) (m_log m)
  | LSig z => Mem (m_vars m) (upds (m_sigs m) z vs) (m_base m) (m_start m) (m_tpl m) (m_count m) (m_set m) (m_log m)
  end.
Definition read {V} (m : mem V) (l : mloc) (k : nat) : V :=
  match l with LVar z => m_vars m (z + Z.of_nat k) | LSig z => m_sigs m (z + Z.of_nat k) end.
Definition print {V} (m : mem V) (x : V + option nat) : mem V :=
  Mem (m_vars m) (m_sigs m) (m_base m) (m_start m) (m_tpl m) (m_count m) (m_set m) (m_log m ++ [x]).
Definition mark {V} (m : mem V) (l : list Z) : mem V :=
  Mem (m_vars m) (m_sigs m) (m_base m) (m_start m) (m_tpl m) (m_count m) (m_set m ++ l) (m_log m).
Definition decrease {V} (m : mem V) (cmp n : Z) : mem V :=
  Mem (m_vars m) (m_sigs m) (m_base m) (m_start m) (m_tpl m)
      (upd (m_count m) cmp (m_count m cmp - n)) (m_set m) (m_log m).
Definition positions (z : Z) (n : nat) : list Z := (fun k => z + Z.of_nat k) <$> seq 0 n.

(** The state of the generated code.  [s_arena]: the array [lvarcall] of a call. *)
Record cstate (V : Type) : Type := CState {
  s_mem : mem V; s_aux : nat -> V; s_cmp : Z; s_def : io_field;
  s_idx : nat -> Z; s_acc : nat -> Z; s_dest : cloc; s_arena : Z -> V }.
Arguments CState {V}. Arguments s_mem {V}. Arguments s_aux {V}. Arguments s_cmp {V}. Arguments s_def {V}.
Arguments s_idx {V}. Arguments s_acc {V}. Arguments s_dest {V}. Arguments s_arena {V}.

Section Run.
Context {V : Type} (w : world V) (depth sanity rsize : nat).

(** A cell from a pointer on. *)
Definition cell (s : cstate V) (l : cloc) (k : nat) : res V :=
  match l with
  | CMem l => Ok (read (s_mem s) l k)
  | CConst c => Ok (w_const w (c + k))
  | CAux n => if decide (n + k < depth)%nat then Ok (s_aux s (n + k)%nat) else Wild
  end.
Fixpoint cells (s : cstate V) (l : cloc) (k n : nat) : res (list V) :=
  match n with
  | O => Ok []
  | S n => v <-- cell s l k; r <-- cells s l (S k) n; Ok (v :: r)
  end.

Fixpoint eval_i (s : cstate V) (i : cint) : res Z :=
  match i with
  | CNum z => Ok z
  | CSum a b => x <-- eval_i s a; y <-- eval_i s b; Ok (x + y)
  | CProd a b => x <-- eval_i s a; y <-- eval_i s b; Ok (x * y)
  | CParen a => eval_i s a
  | CToInt p => l <-- eval_p s p; v <-- cell s l 0; lift (w_toint w v)
  | CCmp => Ok (s_cmp s)
  | CIdx k => Ok (s_idx s k)
  | CAcc k => Ok (s_acc s k)
  | COff d => x <-- eval_d s d; Ok (i_offset x)
  | CLen d i => x <-- eval_d s d; Ok (nth i (i_lengths x) 0)
  | CSize d => x <-- eval_d s d; Ok (i_size x)
  end
with eval_d (s : cstate V) (d : cdef) : res io_field :=
  match d with
  | DTpl cmp code => x <-- eval_i s cmp; Ok (w_io w (m_tpl (s_mem s) x) code)
  | DBus d field => x <-- eval_d s d; Ok (w_bus w (i_bus x) field)
  | DCur => Ok (s_def s)
  end
with eval_p (s : cstate V) (p : cptr) : res cloc :=
  match p with
  | PConst c => Ok (CConst c)
  | PVar i => x <-- eval_i s i; Ok (CMem (LVar x))
  | PSig i => x <-- eval_i s i; Ok (CMem (LSig (m_base (s_mem s) + x)))
  | PSub cmp i => c <-- eval_i s cmp; x <-- eval_i s i; Ok (CMem (LSig (m_start (s_mem s) c + x)))
  | PAux n => if decide (n < depth)%nat then Ok (CAux n) else Wild
  end.

Definition set_aux (s : cstate V) (n : nat) (v : V) : res (cstate V) :=
  if decide (n < depth)%nat
  then Ok (CState (s_mem s) (fun k => if decide (k = n) then v else s_aux s k) (s_cmp s) (s_def s)
                  (s_idx s) (s_acc s) (s_dest s) (s_arena s))
  else Wild.
Definition set_mem (s : cstate V) (m : mem V) : cstate V :=
  CState m (s_aux s) (s_cmp s) (s_def s) (s_idx s) (s_acc s) (s_dest s) (s_arena s).

(** The operand of an operation that writes [expaux[aux]]. *)
Definition operand (s : cstate V) (aux : nat) (p : cptr) : res cloc :=
  l <-- eval_p s p; match l with CAux n => if decide (n = aux) then Wild else Ok l | _ => Ok l end.

(** compute_bucket.rs:391-402: [while (index < size && Fr_isTrue(res)) Fr_eq(res, a + index, b + index)]. *)
Fixpoint eq_loop (s : cstate V) (l1 l2 : cloc) (k n : nat) (r : V) : res V :=
  match n with
  | O => Ok r
  | S n => if w_true w r
           then x <-- cell s l1 k; y <-- cell s l2 k; eq_loop s l1 l2 (S k) n (w_bool w (w_eq w x y))
           else Ok r
  end.

(** store_bucket.rs:660-735 for a subcomponent that is not parallel. *)
Definition trigger (info : input_info) (cmp : Z) (n : nat) (m : mem V) : option (mem V) :=
  let m' := decrease m cmp (Z.of_nat n) in
  match i_status info with
  | NoLast =>
      if i_decrement info || bool_decide (2 <= sanity)%nat then
        if decide (2 <= sanity)%nat then (if decide (0 < m_count m' cmp) then Some m' else None) else Some m'
      else Some m
  | Unknown => if decide (m_count m' cmp = 0) then w_run w cmp m' else Some m'
  | Last =>
      if decide (2 <= sanity)%nat
      then (if decide (m_count m' cmp = 0) then w_run w cmp m' else None)
      else w_run w cmp m
  end.

Definition simple (c : cstmt) (s : cstate V) : res (cstate V * option (list V)) :=
  match c with
  | COp1 aux op p =>
      l <-- operand s aux p; v <-- cell s l 0; r <-- lift (w_op1 w op v);
      s' <-- set_aux s aux r; Ok (s', None)
  | COp2 aux op p q =>
      l1 <-- operand s aux p; l2 <-- operand s aux q; x <-- cell s l1 0; y <-- cell s l2 0;
      r <-- lift (w_op2 w op x y); s' <-- set_aux s aux r; Ok (s', None)
  | CEqN aux n p q =>
      l1 <-- operand s aux p; l2 <-- operand s aux q; x <-- cell s l1 0; y <-- cell s l2 0;
      r <-- eq_loop s l1 l2 1 (n - 1) (w_bool w (w_eq w x y));
      s' <-- set_aux s aux r; Ok (s', None)
  | CSetCmp i =>
      x <-- eval_i s i;
      Ok (CState (s_mem s) (s_aux s) x (s_def s) (s_idx s) (s_acc s) (s_dest s) (s_arena s), None)
  | CSetDef d =>
      x <-- eval_d s d;
      Ok (CState (s_mem s) (s_aux s) (s_cmp s) x (s_idx s) (s_acc s) (s_dest s) (s_arena s), None)
  | CSetIdx k i =>
      x <-- eval_i s i;
      Ok (CState (s_mem s) (s_aux s) (s_cmp s) (s_def s)
                 (fun j => if decide (j = k) then x else s_idx s j) (s_acc s) (s_dest s) (s_arena s), None)
  | CSetAcc k i =>
      x <-- eval_i s i;
      Ok (CState (s_mem s) (s_aux s) (s_cmp s) (s_def s) (s_idx s)
                 (fun j => if decide (j = k) then x else s_acc s j) (s_dest s) (s_arena s), None)
  | CSetDest p =>
      l <-- eval_p s p;
      Ok (CState (s_mem s) (s_aux s) (s_cmp s) (s_def s) (s_idx s) (s_acc s) l (s_arena s), None)
  | CCopy n p =>
      l <-- eval_p s p; vs <-- cells s l 0 n;
      match s_dest s with CMem d => Ok (set_mem s (write (s_mem s) d vs), None) | _ => Wild end
  | CNotify i n => x <-- eval_i s i; Ok (set_mem s (mark (s_mem s) (positions x n)), None)
  | CTrigger info n => m <-- lift (trigger info (s_cmp s) n (s_mem s)); Ok (set_mem s m, None)
  | CArg pos n p =>
      l <-- eval_p s p; vs <-- cells s l 0 n;
      Ok (CState (s_mem s) (s_aux s) (s_cmp s) (s_def s) (s_idx s) (s_acc s) (s_dest s)
                 (upds (s_arena s) (Z.of_nat pos) vs), None)
  | CCall fn nargs p n =>
      l <-- eval_p s p;
      vs <-- lift (w_call w fn ((fun k => s_arena s (Z.of_nat k)) <$> seq 0 nargs) n);
      match l with CMem d => Ok (set_mem s (write (s_mem s) d vs), None) | _ => Wild end
  | CAssert p => l <-- eval_p s p; v <-- cell s l 0; if w_true w v then Ok (s, None) else Abort
  | CReturn n p =>
      l <-- eval_p s p;
      vs <-- cells s l 0 (if decide (1 < n)%nat then n `min` rsize else 1)%nat; Ok (s, Some vs)
  | CPrint p => l <-- eval_p s p; v <-- cell s l 0; Ok (set_mem s (print (s_mem s) (inl v)), None)
  | CPrintStr id => Ok (set_mem s (print (s_mem s) (inr id)), None)
  | CCreate id i =>
      x <-- eval_i s i; m <-- lift (w_create w id x (s_mem s)); Ok (set_mem s m, None)
  | CIf _ _ _ | CWhile _ _ => Wild
  end.

(** A list of statements stops at a [return]. *)
Definition run_list (f : cstmt -> cstate V -> res (cstate V * option (list V))) :
  list cstmt -> cstate V -> res (cstate V * option (list V)) :=
  fix go l s := match l with
                | [] => Ok (s, None)
                | c :: r => x <-- f c s; match x.2 with None => go r x.1 | Some _ => Ok x end
                end.

Fixpoint run (fuel : nat) (c : cstmt) (s : cstate V) {struct fuel} : res (cstate V * option (list V)) :=
  match c with
  | CIf p l1 l2 =>
      l <-- eval_p s p; v <-- cell s l 0;
      match fuel with
      | O => Fuel
      | S fuel => run_list (run fuel) (if w_true w v then l1 else l2) s
      end
  | CWhile p l =>
      x <-- eval_p s p; v <-- cell s x 0;
      match fuel with
      | O => Fuel
      | S fuel =>
          if w_true w v
          then x <-- run_list (run fuel) l s;
               match x.2 with None => run fuel (CWhile p l) x.1 | Some _ => Ok x end
          else Ok (s, None)
      end
  | _ => simple c s
  end.

End Run.
