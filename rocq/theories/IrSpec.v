(** What the instructions of a template or function mean, without temporaries: expressions denote
    values, addresses denote integers, statements change the memory.  Used to state that the
    generated C++ code does the same (C39, C40) and where signals accessed through the tables of
    the data file are (C55). *)
From stdpp Require Import prelude numbers list.
From Verif Require Import DatModel IrModel.
Local Open Scope Z_scope.

(** What a field expression denotes: an array in memory, an array of constants, or one value. *)
Inductive src (V : Type) : Type := SrcMem (l : mloc) | SrcConst (c : nat) | SrcVal (v : V).
Arguments SrcMem {V}. Arguments SrcConst {V}. Arguments SrcVal {V}.

(** Row-major position of the element with indexes [ixs] (the first element of the slice, when
    there are fewer indexes than dimensions) in an array with [dim] dimensions; [len t] is the
    size of dimension [t]. *)
Definition stride (len : nat -> Z) (dim j : nat) : Z :=
  foldr Z.mul 1 (len <$> seq (S j) (dim - S j)).
Fixpoint row_major (len : nat -> Z) (dim j : nat) (ixs : list Z) : Z :=
  match ixs with [] => 0 | i :: r => i * stride len dim j + row_major len dim (S j) r end.

(** The tables keep the sizes of all dimensions but the first. *)
Definition dim_size (d : io_field) (t : nat) : Z := nth (t - 1) (i_lengths d) 0.

Section Eval.
Context {V : Type} (w : world V) (m : mem V).

Definition src_cell (x : src V) (k : nat) : V :=
  match x with SrcMem l => read m l k | SrcConst c => w_const w (c + k) | SrcVal v => v end.

Fixpoint den_f (e : fexpr) : option (src V) :=
  match e with
  | FValue _ c => Some (SrcConst c)
  | FLoadVar a => x ← den_a a; Some (SrcMem (LVar x))
  | FLoadSig a => x ← den_a a; Some (SrcMem (LSig (m_base m + x)))
  | FLoadSub cmp l => c ← den_a cmp; x ← den_l c l; Some (SrcMem (LSig (m_start m c + x)))
  | FOp1 _ op a => x ← den_f a; v ← w_op1 w op (src_cell x 0); Some (SrcVal v)
  | FOp2 _ op a b =>
      x ← den_f a; y ← den_f b; v ← w_op2 w op (src_cell x 0) (src_cell y 0); Some (SrcVal v)
  | FEq _ n a b =>
      x ← den_f a; y ← den_f b;
      Some (SrcVal (w_bool w (forallb (fun k => w_eq w (src_cell x k) (src_cell y k)) (seq 0 n))))
  end
with den_a (e : aexpr) : option Z :=
  match e with
  | AValue v => Some v
  | AAdd a b => x ← den_a a; y ← den_a b; Some (x + y)
  | AMul a b => x ← den_a a; y ← den_a b; Some (x * y)
  | AToAddr f => x ← den_f f; w_toint w (src_cell x 0)
  end
with den_as (l : aexprs) : option (list Z) :=
  match l with
  | ANil => Some []
  | ACons a r => x ← den_a a; xs ← den_as r; Some (x :: xs)
  end
with den_l (cmp : Z) (l : locat) : option Z :=
  match l with
  | Indexed a => den_a a
  | Mapped code acc => let d := w_io w (m_tpl m cmp) code in x ← den_x d acc; Some (i_offset d + x)
  end
with den_x (d : io_field) (acc : accesses) : option Z :=
  (* the position relative to the symbol described by [d]: an access by indexes selects an
     element or a slice of an array, an access by name a field of a bus *)
  match acc with
  | XNil => Some 0
  | XIdx ixs dim r =>
      xs ← den_as ixs; y ← den_x d r;
      Some (row_major (dim_size d) dim 0 xs * i_size d + y)
  | XQual field r =>
      let d' := w_bus w (i_bus d) field in y ← den_x d' r; Some (i_offset d' + y)
  end.

Definition den_dest (d : dest) : option mloc :=
  match d with
  | DVar a => x ← den_a a; Some (LVar x)
  | DSig a _ => x ← den_a a; Some (LSig (m_base m + x))
  | DSub cmp l _ => c ← den_a cmp; x ← den_l c l; Some (LSig (m_start m c + x))
  end.

(** The first [n] cells. *)
Definition den_cells (e : fexpr) (n : nat) : option (list V) := x ← den_f e; Some (src_cell x <$> seq 0 n).

End Eval.

(** Statements.  [Ok (m, None)]: goes on with memory [m]; [Ok (m, Some vs)]: the function returned
    [vs].  Never [Wild]. *)
Section Exec.
Context {V : Type} (w : world V) (parallel : bool) (sanity rsize : nat).

(** After a store of [n] cells to [d] (evaluated in [m]) that left [m']: the outputs are marked in a
    parallel template, and a subcomponent is told. *)
Definition after_store (d : dest) (n : nat) (m m' : mem V) : option (mem V) :=
  match d with
  | DVar _ => Some m'
  | DSig a o => if parallel && o then x ← den_a w m a; Some (mark m' (positions x n)) else Some m'
  | DSub cmp _ info => c ← den_a w m cmp; trigger w sanity info c n m'
  end.

Fixpoint exec_logs (args : list log_arg) (m : mem V) : option (mem V) :=
  match args with
  | [] => Some m
  | x :: r =>
      m1 ← match x with
           | LogExp e => v ← den_f w m e; Some (print m (inl (src_cell w m v 0)))
           | LogStr s => Some (print m (inr (Some s)))
           end;
      exec_logs r (match r with [] => m1 | _ => print m1 (inr None) end)
  end.

(** Statements without control flow. *)
Definition exec_simple (i : stmt) (m : mem V) : option (mem V * option (list V)) :=
  match i with
  | SStore d n1 n2 e =>
      let n := (n1 `min` n2)%nat in
      l ← den_dest w m d; vs ← den_cells w m e n; m' ← after_store d n m (write m l vs); Some (m', None)
  | SCall fn args d n =>
      vss ← mapM (fun x : fexpr * nat => den_cells w m x.1 x.2) args; l ← den_dest w m d;
      vs ← w_call w fn (concat vss) n;
      m' ← after_store d n m (write m l vs); Some (m', None)
  | SAssert k e =>
      if negb k || bool_decide (1 <= sanity)%nat
      then x ← den_f w m e; if w_true w (src_cell w m x 0) then Some (m, None) else None
      else Some (m, None)
  | SReturn n e => vs ← den_cells w m e (n `min` rsize)%nat; Some (m, Some vs)
  | SLog args => m' ← exec_logs args m; Some (print m' (inr None), None)
  | SCreate id a => x ← den_a w m a; m' ← w_create w id x m; Some (m', None)
  | SBranch _ _ _ | SLoop _ _ => None
  end.

Definition exec_list (f : stmt -> mem V -> res (mem V * option (list V))) :
  list stmt -> mem V -> res (mem V * option (list V)) :=
  fix go l m := match l with
                | [] => Ok (m, None)
                | i :: r => x <-- f i m; match x.2 with None => go r x.1 | Some _ => Ok x end
                end.

(** [fuel] bounds the number of branches and iterations passed. *)
Fixpoint exec (fuel : nat) (i : stmt) (m : mem V) {struct fuel} : res (mem V * option (list V)) :=
  match i with
  | SBranch c l1 l2 =>
      v <-- lift (den_f w m c);
      match fuel with
      | O => Fuel
      | S fuel => exec_list (exec fuel) (if w_true w (src_cell w m v 0) then l1 else l2) m
      end
  | SLoop c l =>
      v <-- lift (den_f w m c);
      match fuel with
      | O => Fuel
      | S fuel =>
          if w_true w (src_cell w m v 0)
          then x <-- exec_list (exec fuel) l m;
               match x.2 with None => exec fuel (SLoop c l) x.1 | Some _ => Ok x end
          else Ok (m, None)
      end
  | _ => lift (exec_simple i m)
  end.
End Exec.

(** ** Conditions on the instructions *)

(** Only loads and constants denote arrays. *)
Definition array_like (e : fexpr) : Prop :=
  match e with FOp1 _ _ _ | FOp2 _ _ _ _ | FEq _ _ _ _ => False | _ => True end.
Definition size_ok (e : fexpr) (n : nat) : Prop := (1 <= n)%nat /\ ((1 < n)%nat -> array_like e).

(** Accesses through the tables that the generated code computes as intended: an access by indexes
    has one index, or as many as dimensions (C55). *)
Definition indexes_ok (ixs : aexprs) (dim : nat) : Prop :=
  (1 <= as_length ixs <= dim)%nat /\ (as_length ixs = 1%nat \/ as_length ixs = dim).
(** For a destination: one index, or as many as dimensions and elements of size one. *)
Definition dest_indexes_ok {V} (w : world V) (ixs : aexprs) (dim : nat) : Prop :=
  (1 <= as_length ixs <= dim)%nat /\
  (as_length ixs = 1%nat \/
   (as_length ixs = dim /\ (forall t c, i_size (w_io w t c) = 1) /\ (forall b f, i_size (w_bus w b f) = 1))).

Fixpoint wf_f (e : fexpr) : Prop :=
  match e with
  | FValue _ _ => True
  | FLoadVar a | FLoadSig a => wf_a a
  | FLoadSub cmp l => wf_a cmp /\ wf_l l
  | FOp1 _ _ a => wf_f a
  | FOp2 _ _ a b => wf_f a /\ wf_f b
  | FEq _ n a b => wf_f a /\ wf_f b /\ size_ok a n /\ size_ok b n
  end
with wf_a (e : aexpr) : Prop :=
  match e with
  | AValue _ => True
  | AAdd a b | AMul a b => wf_a a /\ wf_a b
  | AToAddr f => wf_f f
  end
with wf_as (l : aexprs) : Prop :=
  match l with ANil => True | ACons a r => wf_a a /\ wf_as r end
with wf_l (l : locat) : Prop :=
  match l with Indexed a => wf_a a | Mapped _ acc => wf_x acc end
with wf_x (acc : accesses) : Prop :=
  match acc with
  | XNil => True
  | XIdx ixs dim r => wf_as ixs /\ indexes_ok ixs dim /\ wf_x r
  | XQual _ r => wf_x r
  end.

Fixpoint wf_dx {V} (w : world V) (acc : accesses) : Prop :=
  match acc with
  | XNil => True
  | XIdx ixs dim r => wf_as ixs /\ dest_indexes_ok w ixs dim /\ wf_dx w r
  | XQual _ r => wf_dx w r
  end.
Definition wf_dl {V} (w : world V) (l : locat) : Prop :=
  match l with Indexed a => wf_a a | Mapped _ acc => wf_dx w acc end.

(** An address computed from literals and variables only, without operations of the field. *)
Fixpoint plain_a (e : aexpr) : Prop :=
  match e with
  | AValue _ => True
  | AAdd a b | AMul a b => plain_a a /\ plain_a b
  | AToAddr (FLoadVar a) => plain_a a
  | AToAddr _ => False
  end.

(** [parallel]: in a parallel template the address of an output is plain. *)
Definition wf_dest {V} (w : world V) (parallel : bool) (d : dest) : Prop :=
  match d with
  | DVar a => wf_a a
  | DSig a o => wf_a a /\ (parallel = true -> o = true -> plain_a a)
  | DSub cmp l _ => wf_a cmp /\ wf_dl w l
  end.

Fixpoint wf_s {V} (w : world V) (parallel : bool) (i : stmt) : Prop :=
  match i with
  | SStore d n1 n2 e => wf_dest w parallel d /\ wf_f e /\ size_ok e (n1 `min` n2)
  | SCall _ args d n =>
      Forall (fun x : fexpr * nat => wf_f x.1 /\ size_ok x.1 x.2) args /\ wf_dest w parallel d /\ (1 <= n)%nat
  | SBranch c l1 l2 =>
      wf_f c /\ foldr (fun i P => wf_s w parallel i /\ P) True l1 /\ foldr (fun i P => wf_s w parallel i /\ P) True l2
  | SLoop c l => wf_f c /\ foldr (fun i P => wf_s w parallel i /\ P) True l
  | SAssert _ e => wf_f e
  | SReturn n e => wf_f e /\ size_ok e n
  | SLog args => Forall (fun x => match x with LogExp e => wf_f e | LogStr _ => True end) args
  | SCreate _ a => wf_a a
  end.
Definition wf_program {V} (w : world V) (parallel : bool) (l : list stmt) : Prop :=
  foldr (fun i P => wf_s w parallel i /\ P) True l.

(** Outcome of the generated code, against the outcome of the instructions: both go on with the
    same memory, return the same values, stop, or loop. *)
Definition agrees {V} (x : res (mem V * option (list V))) (y : res (cstate V * option (list V))) : Prop :=
  match x with
  | Ok (m, r) => exists s, y = Ok (s, r) /\ s_mem s = m
  | Abort => y = Abort
  | Fuel => y = Fuel
  | Wild => False
  end.
