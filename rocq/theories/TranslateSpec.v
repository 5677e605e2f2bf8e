(** What the translation of the code of a template or function must preserve: the values of signals and
    variables as arrays in memory, and the conditions on the program. *)
From stdpp Require Import prelude gmap numbers list strings.
From Verif Require Import IrModel IrSpec.
From Verif Require SugarModel SugarSpec.
Import SugarModel (name, User, Auto, Ret, iop, Add, Pow, OtherOp, expr, Num, Var, Call, Pre, Inf, Switch, Arr, Uni,
  access, Idx, Fld, Decl, Assign, Equal, If, While, Block, Init, Return, Log, Assert).
Import SugarSpec (val, Leaf, Node, Rec, has_shape, zeros, select, eval, path, look, condition, sequence, event, key,
  At, Field, den1, den2, call, Next, Returned, OutOfFuel).
Local Open Scope nat_scope.

(** ** Values in memory *)
(** the numbers of a value, row by row *)
Fixpoint contents (v : val) : list Z :=
  match v with Leaf z => [z] | Node l => (fix go l := match l with [] => [] | v :: l => contents v ++ go l end) l | Rec _ => [] end.
(** no record *)
Fixpoint numeric (v : val) : Prop :=
  match v with Leaf _ => True | Node l => (fix go l := match l with [] => True | v :: l => numeric v /\ go l end) l | Rec _ => False end.
(** an array of numbers with the dimensions [ds] *)
Definition array (ds : list nat) (v : val) : Prop := has_shape ds v = true /\ numeric v.
(** the number of elements *)
Fixpoint elements (ds : list nat) : nat := match ds with [] => 1 | d :: ds => d * elements ds end.
(** [m] has the numbers [l] from [loc] on *)
Definition holds (m : mem Z) (loc : mloc) (l : list Z) : Prop := forall k z, l !! k = Some z -> read m loc k = z.
(** The symbols [xs], one after the other from [loc a] on, have in memory the values that [b] gives to them. *)
Fixpoint stored (m : mem Z) (loc : Z -> mloc) (a : nat) (xs : list (name * list nat)) (b : gmap name val) : Prop :=
  match xs with
  | [] => True
  | (x, ds) :: xs =>
    (exists v, b !! x = Some v /\ array ds v /\ holds m (loc (Z.of_nat a)) (contents v)) /\ stored m loc (a + elements ds) xs b
  end.
(** values given by literals *)
Definition given (cs : list (name * list nat * list Z)) (b : gmap name val) : Prop :=
  Forall (fun '(x, ds, zs) => exists v, b !! x = Some v /\ array ds v /\ contents v = zs) cs.
Definition total (xs : list (list nat)) : nat := foldr (fun ds n => elements ds + n) 0 xs.

(** ** Operators *)
(** the operators of the language and those of the instructions (compute_bucket.rs:7-35, in their order) *)
Definition infix_table : list (iop * nat) :=
  [(OtherOp "*", 0); (OtherOp "/", 1); (Add, 2); (OtherOp "-", 3); (Pow, 4); (OtherOp "\", 5); (OtherOp "%", 6);
   (OtherOp "<<", 7); (OtherOp ">>", 8); (OtherOp "<=", 9); (OtherOp ">=", 10); (OtherOp "<", 11); (OtherOp ">", 12);
   (OtherOp "!=", 14); (OtherOp "||", 15); (OtherOp "&&", 16); (OtherOp "|", 17); (OtherOp "&", 18); (OtherOp "^", 19)].
Definition prefix_table : list (string * nat) := [("-", 20); ("!", 21); ("~", 22)].
(** The two levels have the same arithmetic and the same functions; [table]: the constants of the program.
    A function gets the numbers of its arguments one after the other, and returns those of its result. *)
Record linked (W : SugarSpec.world) (w : world Z) (fid : string -> nat) (table : list Z) : Prop := Linked {
  l_infix : forall o k a b, (o, k) ∈ infix_table -> w_op2 w k a b = den2 W o a b;
  l_prefix : forall o k a, (o, k) ∈ prefix_table -> w_op1 w k a = den1 W o a;
  l_total : forall o a b, o = Add \/ o = OtherOp "*" -> is_Some (den2 W o a b);
  l_eq : forall a b, den2 W (OtherOp "==") a b = Some (w_bool w (w_eq w a b));
  l_same : forall a b, w_eq w a b = bool_decide (a = b);
  l_bool : forall c, w_true w (w_bool w c) = c;
  l_true : forall a, w_true w a = bool_decide (a <> 0%Z);
  l_const : forall k z, table !! k = Some z -> w_const w k = z;
  l_call : forall f vs n, match call W f vs with
    | Some v => numeric v /\ w_call w (fid f) (concat (contents <$> vs)) n = Some (take n (contents v))
    | None => w_call w (fid f) (concat (contents <$> vs)) n = None
    end }.

(** ** What is printed *)
(** a [log]: its arguments, separated by spaces, and the end of the line *)
Inductive shows (strings : list string) : event -> list (Z + option nat) -> Prop :=
| shows_nil : shows strings [] [inr None]
| shows_one a x : shows_arg strings a x -> shows strings [a] [x; inr None]
| shows_cons a x b l t : shows_arg strings a x -> shows strings (b :: l) t -> shows strings (a :: b :: l) (x :: inr None :: t)
with shows_arg (strings : list string) : string + val -> Z + option nat -> Prop :=
| shows_string s k : strings !! k = Some s -> shows_arg strings (inl s) (inr (Some k))
| shows_number z : shows_arg strings (inr (Leaf z)) (inl z).
Inductive shown (strings : list string) : list event -> list (Z + option nat) -> Prop :=
| shown_nil : shown strings [] []
| shown_cons e es t ts : shows strings e t -> shown strings es ts -> shown strings (e :: es) (t ++ ts).

(** ** Conditions *)
Section conditions.
Context (W : SugarSpec.world) (sigs : name -> bool).
(** how the generated code turns a number of the field into an address; [None]: it stops *)
Context (toint : Z -> option Z).

(** indexes that the generated code computes with addresses: literals, variables, sums, and products
    with a literal below 100 *)
Fixpoint on_addresses (e : expr) : bool :=
  match e with
  | Num z => bool_decide (0 <= z < 2 ^ 64)%Z
  | Var _ _ _ => true
  | Inf Add l r => on_addresses l && on_addresses r
  | Inf (OtherOp o) l r =>
    bool_decide (o = "*") && on_addresses l && on_addresses r &&
    match l, r with
    | Num a, Num b => bool_decide (a < 100 \/ b < 100)%Z
    | Num a, _ | _, Num a => bool_decide (a < 100)%Z
    | _, _ => false
    end
  | _ => false
  end.
(** the integer that such an index is *)
Fixpoint reading (σ : SugarSpec.state) (e : expr) : option Z :=
  match e with
  | Num z => Some z
  | Inf Add l r => a ← reading σ l; b ← reading σ r; Some (a + b)%Z
  | Inf _ l r => a ← reading σ l; b ← reading σ r; Some (a * b)%Z
  | _ => match eval W σ None e with SugarSpec.Ok (Leaf z) => toint z | _ => None end
  end.
(** the address computed from an index is its value *)
Definition index_ok (σ : SugarSpec.state) (e : expr) : Prop :=
  forall z, eval W σ None e = SugarSpec.Ok (Leaf z) -> (if on_addresses e then reading σ e else toint z) = Some z.
(** no index is out of range *)
Definition in_range (σ : SugarSpec.state) (x : name) (acc : list access) : Prop :=
  forall p v, path W σ acc = SugarSpec.Ok p -> look σ x = Some v -> select v p <> SugarSpec.Fail.
(** the indexes in an expression are in range and are computed right *)
Fixpoint fits (σ : SugarSpec.state) (e : expr) : Prop :=
  match e with
  | Var _ x acc =>
    (fix go acc := match acc with [] => True | Fld _ :: acc => go acc | Idx e :: acc => fits σ e /\ index_ok σ e /\ go acc end) acc
    /\ in_range σ x acc
  | Call _ _ args => (fix go l := match l with [] => True | e :: l => fits σ e /\ go l end) args
  | Pre _ e => fits σ e
  | Inf _ l r => fits σ l /\ fits σ r
  | _ => True
  end.
Fixpoint fits_accesses (σ : SugarSpec.state) (acc : list access) : Prop :=
  match acc with [] => True | Fld _ :: acc => fits_accesses σ acc | Idx e :: acc => fits σ e /\ index_ok σ e /\ fits_accesses σ acc end.
(** [v] is stored over [old]: the rows have the same length *)
Definition rows_match (v old : val) : Prop :=
  exists ds, (has_shape ds v = true /\ has_shape ds old = true) \/
  exists d d', has_shape (d :: ds) v = true /\ has_shape (d' :: ds) old = true.
Definition is_decl (s : SugarModel.stmt) : bool := match s with Decl _ _ => true | _ => false end.
(** the body of a condition or loop is not a declaration (the grammar: parser/src/lang.lalrpop:460-560) *)
Fixpoint bodies_ok (s : SugarModel.stmt) : bool :=
  match s with
  | If _ t f => negb (is_decl t) && bodies_ok t && match f with Some f => negb (is_decl f) && bodies_ok f | None => true end
  | While _ b => negb (is_decl b) && bodies_ok b
  | Block l | Init l => (fix go l := match l with [] => true | s :: l => bodies_ok s && go l end) l
  | _ => true
  end.

(** At each step of the run of [s] from [σ]: indexes are in range and computed right, assigned arrays have the rows
    of their destination, logged values are numbers, declared variables do not have the name of a signal, and
    the value that a declared variable has at first does not matter. *)
Fixpoint safe (n : nat) (s : SugarModel.stmt) (σ : SugarSpec.state) {struct s} : Prop :=
  match s with
  | Decl x _ => sigs x = false
  | Assign x acc _ rhe =>
    fits σ rhe /\ fits_accesses σ acc /\ in_range σ x acc /\
    forall v p old slot, eval W σ None rhe = SugarSpec.Ok v -> path W σ acc = SugarSpec.Ok p -> look σ x = Some old ->
      select old p = SugarSpec.Ok slot -> rows_match v slot
  | Equal l r => fits σ l /\ fits σ r
  | If c t f =>
    fits σ c /\
    forall z, condition W σ c = SugarSpec.Ok z ->
      if bool_decide (z = 0%Z) then match f with Some f => safe n f σ | None => True end else safe n t σ
  | While c b =>
    (fix go k σ := match k with
      | O => True
      | S k => fits σ c /\ forall z, condition W σ c = SugarSpec.Ok z -> z <> 0%Z ->
          safe n b σ /\ forall σ' t, SugarSpec.exec W n b σ = SugarSpec.Ok (σ', t, Next) -> go k σ'
      end) n σ
  | Block l =>
    (fix go l σ := match l with
      | [] => True
      | s :: l => safe n s σ /\
        match s with
        | Decl x ds => forall b σ' v, σ = b :: σ' -> array ds v ->
            sequence (SugarSpec.exec W n) l (<[x := v]> b :: σ') = sequence (SugarSpec.exec W n) l (<[x := zeros ds]> b :: σ') /\
            go l (<[x := v]> b :: σ')
        | _ => forall σ' t, SugarSpec.exec W n s σ = SugarSpec.Ok (σ', t, Next) -> go l σ'
        end
      end) l (∅ :: σ)
  | Init l => True
  | Return e | Assert e => fits σ e
  | Log args => Forall (fun a => match a with inl _ => True | inr e => fits σ e /\
      forall v, eval W σ None e = SugarSpec.Ok v -> exists z, v = Leaf z end) args
  end.
End conditions.

(** ** The outcome *)
(** the positions of the outputs, from the first signal on *)
Fixpoint output_cell (outs : name -> bool) (a : nat) (ws : list (name * list nat)) (z : Z) : Prop :=
  match ws with
  | [] => False
  | (x, ds) :: ws => (outs x = true /\ Z.of_nat a <= z < Z.of_nat (a + elements ds))%Z \/ output_cell outs (a + elements ds) ws z
  end.
(** The generated code ends as the run of the program does: with the same values of the signals, the same
    returned values (as many as expected) and the same output; or it stops.  It leaves other cells as they were.
    In a parallel template it marks only outputs as set, and all outputs that have changed. *)
Definition run_agrees (outs : name -> bool) (W : SugarSpec.world) (w : world Z) (parallel : bool) (sanity rsize : nat) (code : list stmt) (m : mem Z)
    (ws : list (name * list nat)) (depth nsig : nat) (strings : list string) (o : SugarSpec.R SugarSpec.outcome) : Prop :=
  match o with
  | SugarSpec.Ok (σ, evs, r) =>
    r <> OutOfFuel ->
    exists m' fuel0,
      (forall fuel, fuel0 <= fuel -> exec_list (exec w parallel sanity rsize fuel) code m =
         Ok (m', match r with Returned v => Some (take rsize (contents v)) | _ => None end)) /\
      (exists b, σ = [b] /\ stored m' (fun a => LSig (m_base m + a)) 0 ws b) /\
      (exists t, shown strings evs t /\ m_log m' = m_log m ++ t) /\
      (exists l, m_set m' = m_set m ++ l /\ (forall z, z ∈ l -> parallel = true /\ output_cell outs 0 ws z) /\
        (parallel = true -> forall z, output_cell outs 0 ws z -> m_sigs m' (m_base m + z)%Z <> m_sigs m (m_base m + z)%Z -> z ∈ l)) /\
      m_base m' = m_base m /\ m_start m' = m_start m /\ m_tpl m' = m_tpl m /\ m_count m' = m_count m /\
      (forall a, (a < 0 \/ Z.of_nat depth <= a)%Z -> m_vars m' a = m_vars m a) /\
      (forall a, (a < m_base m \/ m_base m + Z.of_nat nsig <= a)%Z -> m_sigs m' a = m_sigs m a)
  | SugarSpec.Fail =>
    1 <= sanity ->
    exists fuel0, forall fuel, fuel0 <= fuel -> exec_list (exec w parallel sanity rsize fuel) code m = Abort
  | SugarSpec.Ill => True
  end.
