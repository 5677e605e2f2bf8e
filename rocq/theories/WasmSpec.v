(** What the WebAssembly code of a template or function should do, in terms of the meaning of its
    instructions (IrSpec.v): the statements of that code, and the conditions under which C62 holds. *)
From stdpp Require Import prelude numbers list.
From Verif Require Import DatModel IrModel IrSpec WasmModel.
Local Open Scope Z_scope.

(** ** Conditions that depend on the memory *)

(** An access through the tables must fit the description of the signal that the subcomponent has at
    that moment: indexes on an array with the number of dimensions announced by the instruction, a
    field of a bus (not of an array of buses); subcomponents have indexes from 0 on. *)
Section Fits.
Context {V : Type} (w : world V) (sio sbus : Z -> nat -> shape) (m : mem V).

Fixpoint fits_f (e : fexpr) : bool :=
  match e with
  | FValue _ _ => true
  | FLoadVar a | FLoadSig a => fits_a a
  | FLoadSub cmp l =>
      fits_a cmp && match l with Indexed a => fits_a a | Mapped _ _ => true end &&
      match den_a w m cmp with Some c => bool_decide (0 <= c) && fits_l c l | None => true end
  | FOp1 _ _ a => fits_f a
  | FOp2 _ _ a b | FEq _ _ a b => fits_f a && fits_f b
  end
with fits_a (e : aexpr) : bool :=
  match e with
  | AValue _ => true
  | AAdd a b | AMul a b => fits_a a && fits_a b
  | AToAddr f => fits_f f
  end
with fits_as (l : aexprs) : bool :=
  match l with ANil => true | ACons a r => fits_a a && fits_as r end
with fits_l (cmp : Z) (l : locat) : bool :=
  match l with
  | Indexed a => fits_a a
  | Mapped code acc => fits_x (w_io w (m_tpl m cmp) code) (sio (m_tpl m cmp) code) false acc
  end
with fits_x (d : io_field) (h : shape) (indexed : bool) (acc : accesses) : bool :=
  match acc with
  | XNil => true
  | XIdx ixs dim r =>
      fits_as ixs && sh_array h && negb indexed && bool_decide (dim = S (length (i_lengths d))) && fits_x d h true r
  | XQual field r =>
      sh_bus h && (negb (sh_array h) || indexed) &&
      fits_x (w_bus w (i_bus d) field) (sbus (i_bus d) field) false r
  end.

Definition fits_dest (d : dest) : bool :=
  match d with
  | DVar a | DSig a _ => fits_a a
  | DSub cmp l _ =>
      fits_a cmp && match l with Indexed a => fits_a a | Mapped _ _ => true end &&
      match den_a w m cmp with Some c => bool_decide (0 <= c) && fits_l c l | None => true end
  end.

(** The destination of a copy of [n] elements does not start inside the source. *)
Definition copy_safe (l : mloc) (x : src V) (n : nat) : bool :=
  match l, x with
  | LVar d, SrcMem (LVar a) | LSig d, SrcMem (LSig a) => bool_decide (d <= a \/ a + Z.of_nat n <= d)
  | _, _ => true
  end.
End Fits.

(** ** Statements *)

(** [Ok (m, None)]: goes on with memory [m]; [Ok (m, Some vs)]: the function returned [vs]; [Abort]: a
    failed assertion, an operation that stops the program, or the failure of a call or of a
    subcomponent; [Wild]: one of the conditions above is not met, nothing is claimed. *)
Section Exec.
Context {V : Type} (w : world V) (sio sbus : Z -> nat -> shape) (rsize : nat).

(** [n] inputs of a subcomponent were stored: it runs when no input is missing. *)
Definition notify (d : dest) (n : nat) (m m' : mem V) : option (mem V) :=
  match d with
  | DSub cmp _ _ =>
      c ← den_a w m cmp;
      let m2 := decrease m' c (Z.of_nat n) in if decide (m_count m2 c = 0) then w_run w c m2 else Some m2
  | _ => Some m'
  end.

Definition provided {A} (b : bool) (x : res A) : res A := if b then x else Wild.

Fixpoint logs (args : list log_arg) (m : mem V) : res (mem V) :=
  match args with
  | [] => Ok (print m (inr None))
  | LogExp e :: r => provided (fits_f w sio sbus m e) (x <-- lift (den_f w m e); logs r (print m (inl (src_cell w m x 0))))
  | LogStr s :: r => logs r (print m (inr (Some s)))
  end.

Definition wexec_simple (i : stmt) (m : mem V) : res (mem V * option (list V)) :=
  match i with
  | SStore d n1 n2 e =>
      let n := (n1 `min` n2)%nat in
      if decide (n = 0)%nat then Ok (m, None) else
      provided (fits_dest w sio sbus m d && fits_f w sio sbus m e)
        (l <-- lift (den_dest w m d); x <-- lift (den_f w m e);
         provided (copy_safe l x n)
           (m' <-- lift (notify d n m (write m l (src_cell w m x <$> seq 0 n))); Ok (m', None)))
  | SCall fn args d n =>
      provided (forallb (fun x : fexpr * nat => fits_f w sio sbus m x.1) args && fits_dest w sio sbus m d)
        (vss <-- lift (mapM (fun x : fexpr * nat => den_cells w m x.1 x.2) args); l <-- lift (den_dest w m d);
         vs <-- lift (w_call w fn (concat vss) n);
         m' <-- lift (notify d n m (write m l vs)); Ok (m', None))
  | SAssert _ e =>
      provided (fits_f w sio sbus m e)
        (x <-- lift (den_f w m e); if w_true w (src_cell w m x 0) then Ok (m, None) else Abort)
  | SReturn n e =>
      provided (fits_f w sio sbus m e) (vs <-- lift (den_cells w m e (n `min` rsize)%nat); Ok (m, Some vs))
  | SLog args => m' <-- logs args m; Ok (m', None)
  | SCreate id a =>
      provided (fits_a w sio sbus m a)
        (x <-- lift (den_a w m a); provided (bool_decide (0 <= x)) (m' <-- lift (w_create w id x m); Ok (m', None)))
  | SBranch _ _ _ | SLoop _ _ => Wild
  end.

(** [fuel] bounds the number of branches and iterations passed. *)
Fixpoint wexec (fuel : nat) (i : stmt) (m : mem V) {struct fuel} : res (mem V * option (list V)) :=
  match i with
  | SBranch c l1 l2 =>
      match l1, l2 with
      | [], [] => Ok (m, None)
      | _, _ =>
          provided (fits_f w sio sbus m c)
            (v <-- lift (den_f w m c);
             match fuel with
             | O => Fuel
             | S fuel => exec_list (wexec fuel) (if w_true w (src_cell w m v 0) then l1 else l2) m
             end)
      end
  | SLoop c l =>
      provided (fits_f w sio sbus m c)
        (v <-- lift (den_f w m c);
         match fuel with
         | O => Fuel
         | S fuel =>
             if w_true w (src_cell w m v 0)
             then x <-- exec_list (wexec fuel) l m;
                  match x.2 with None => wexec fuel (SLoop c l) x.1 | Some _ => Ok x end
             else Ok (m, None)
         end)
  | _ => wexec_simple i m
  end.
End Exec.

(** ** Conditions on the instructions *)

(** No access by indexes or fields through the tables. *)
Fixpoint quiet_f (e : fexpr) : bool :=
  match e with
  | FValue _ _ => true
  | FLoadVar a | FLoadSig a => quiet_a a
  | FLoadSub cmp l => quiet_a cmp && quiet_l l
  | FOp1 _ _ a => quiet_f a
  | FOp2 _ _ a b | FEq _ _ a b => quiet_f a && quiet_f b
  end
with quiet_a (e : aexpr) : bool :=
  match e with AValue _ => true | AAdd a b | AMul a b => quiet_a a && quiet_a b | AToAddr f => quiet_f f end
with quiet_l (l : locat) : bool :=
  match l with Indexed a => quiet_a a | Mapped _ XNil => true | Mapped _ _ => false end.
Fixpoint quiet_as (l : aexprs) : bool := match l with ANil => true | ACons a r => quiet_a a && quiet_as r end.

(** [ok_x]: an access by indexes has at least one index and at most as many as dimensions; with
    fewer it is the last access; and no index of it is read through the tables by indexes or
    fields.  [ok_f]: only loads and constants are compared as arrays. *)
Fixpoint ok_f (e : fexpr) : Prop :=
  match e with
  | FValue _ _ => True
  | FLoadVar a | FLoadSig a => ok_a a
  | FLoadSub cmp l => ok_a cmp /\ ok_l l
  | FOp1 _ _ a => ok_f a
  | FOp2 _ _ a b => ok_f a /\ ok_f b
  | FEq _ n a b => ok_f a /\ ok_f b /\ size_ok a n /\ size_ok b n
  end
with ok_a (e : aexpr) : Prop :=
  match e with
  | AValue _ => True
  | AAdd a b | AMul a b => ok_a a /\ ok_a b
  | AToAddr f => ok_f f
  end
with ok_as (l : aexprs) : Prop :=
  match l with ANil => True | ACons a r => ok_a a /\ ok_as r end
with ok_l (l : locat) : Prop :=
  match l with Indexed a => ok_a a | Mapped _ acc => ok_x acc end
with ok_x (acc : accesses) : Prop :=
  match acc with
  | XNil => True
  | XIdx ixs dim r =>
      ok_as ixs /\ quiet_as ixs = true /\ (1 <= as_length ixs <= dim)%nat /\
      ((as_length ixs < dim)%nat -> r = XNil) /\ ok_x r
  | XQual _ r => ok_x r
  end.

Definition ok_dest (d : dest) : Prop :=
  match d with
  | DVar a | DSig a _ => ok_a a
  | DSub cmp l _ => ok_a cmp /\ ok_l l
  end.

(** Several elements are copied only from arrays; arguments of calls have at least one element; a
    value returned has one element or at least as many as its destination. *)
Fixpoint ok_s (rsize : nat) (i : stmt) : Prop :=
  match i with
  | SStore d n1 n2 e => ok_dest d /\ ok_f e /\ ((1 < n1 `min` n2)%nat -> array_like e)
  | SCall _ args d _ => Forall (fun x : fexpr * nat => ok_f x.1 /\ size_ok x.1 x.2) args /\ ok_dest d
  | SBranch c l1 l2 =>
      ok_f c /\ foldr (fun i P => ok_s rsize i /\ P) True l1 /\ foldr (fun i P => ok_s rsize i /\ P) True l2
  | SLoop c l => ok_f c /\ foldr (fun i P => ok_s rsize i /\ P) True l
  | SAssert _ e => ok_f e
  | SReturn n e => ok_f e /\ (n = 1%nat \/ (array_like e /\ (rsize <= n)%nat))
  | SLog args => Forall (fun x => match x with LogExp e => ok_f e | LogStr _ => True end) args
  | SCreate _ a => ok_a a
  end.
Definition ok_program (rsize : nat) (l : list stmt) : Prop := foldr (fun i P => ok_s rsize i /\ P) True l.

(** ** Agreement *)

(** The registers at the start of the code (circuit_design/template.rs:109-145, function.rs:54-75):
    local variables, own signals, temporaries, block of the component, top of the stack, destination
    of the result and its number of elements. *)
Definition ready {V} (fs : Z) (rsize : nat) (s : wstate V) : Prop :=
  t_loc s LLvar = Ptr RVars 0 /\ t_loc s LSignals = Ptr RSigs (m_base (t_mem s) * fs) /\
  t_loc s LExpaux = Ptr RAux 0 /\ t_loc s LOffset = Ptr ROwn 0 /\ t_top s = Ptr RArgs 0 /\
  t_loc s LResult = Ptr RResult 0 /\ t_loc s LSize = Int (Z.of_nat rsize).

(** Outcome [y] of the generated code from state [s], against the outcome [x] of the instructions:
    both go on with the same memory (and the stack of the machine is as before); or the function
    returns 0, has written the values to its destination and nothing else there, and has given back
    its part of the stack; or both stop, the code with a trap or an error code that is not 0. *)
Definition wagrees {V} (fs : Z) (rsize : nat) (x : res (mem V * option (list V))) (s : wstate V) (y : out V) : Prop :=
  match x with
  | Ok (m, None) =>
      exists s', y = Next s' /\ t_mem s' = m /\ t_stack s' = t_stack s /\ ready fs rsize s' /\
        (forall k, t_result s' k = t_result s k) /\ t_loc s' LStack = t_loc s LStack
  | Ok (m, Some vs) =>
      exists s', y = Ret (Int 0) s' /\ t_mem s' = m /\ t_top s' = t_loc s LStack /\
        (forall k, 0 <= k < Z.of_nat (length vs) -> Some (t_result s' k) = vs !! Z.to_nat k) /\
        (forall k, ~ 0 <= k < Z.of_nat (length vs) -> t_result s' k = t_result s k)
  | Abort => y = Trap \/ exists c s', y = Ret (Int c) s' /\ c <> 0
  | Wild => True
  | Fuel => False
  end.

(** Runs and creations of subcomponents leave the place of the component's own signals alone. *)
Definition keeps_base {V} (w : world V) : Prop :=
  (forall c m m', w_run w c m = Some m' -> m_base m' = m_base m) /\
  (forall id c m m', w_create w id c m = Some m' -> m_base m' = m_base m).

(** ** Both code generators *)

(** Instructions for which IrSpec.v (the C++ code) and [wexec] have the same meaning: stores are not
    empty, a subcomponent is told about an input by its counter, a log has at most one argument (the
    C++ code separates them), and a branch is not empty on both sides. *)
Definition portable_dest (d : dest) : Prop :=
  match d with DSub _ _ info => i_status info = Unknown | _ => True end.
Fixpoint portable (i : stmt) : Prop :=
  match i with
  | SStore d n1 n2 _ => portable_dest d /\ (1 <= n1 `min` n2)%nat
  | SCall _ _ d _ => portable_dest d
  | SBranch c l1 l2 =>
      (l1 <> [] \/ l2 <> []) /\ foldr (fun i P => portable i /\ P) True l1 /\ foldr (fun i P => portable i /\ P) True l2
  | SLoop c l => foldr (fun i P => portable i /\ P) True l
  | SLog args => (length args <= 1)%nat
  | SAssert _ _ | SReturn _ _ | SCreate _ _ => True
  end.
Definition portable_program (l : list stmt) : Prop := foldr (fun i P => portable i /\ P) True l.

(** The outcome of the C++ code, without its local state. *)
Definition outcome {V} (y : res (cstate V * option (list V))) : res (mem V * option (list V)) :=
  x <-- y; Ok (s_mem x.1, x.2).
