(** The meaning of code before and after the removal of nested calls, inline conditions and arrays: one
    evaluator for both, over arbitrary operators and functions.

    Functions of the program have no effect but their result.  Components are records of signals; that
    a component runs when its last input is assigned is not part of this semantics. *)
From stdpp Require Import prelude gmap strings.
From Coq Require Import ZArith.
From Verif Require Import SugarModel.
Open Scope nat_scope.

(** ** Values *)
Inductive val := Leaf (z : Z) | Node (l : list val) | Rec (l : list (string * val)).
(** literals are numbers of the field *)
Record world := World {
  den1 : string -> Z -> option Z;                     (* prefix operators *)
  den2 : iop -> Z -> Z -> option Z;                   (* infix operators; [None]: a failure at run time *)
  call : string -> list val -> option val }.          (* functions; [None]: they fail or do not end *)

(** Outcomes: a failure at run time (a failed assertion, an index out of range, a function that fails); or
    an operation on values of the wrong shape or an unknown name, which the compiler refuses earlier. *)
Inductive R (A : Type) := Ok (a : A) | Fail | Ill.
Arguments Ok {A} a. Arguments Fail {A}. Arguments Ill {A}.
Global Instance R_bind : MBind R := fun A B f x => match x with Ok a => f a | Fail => Fail | Ill => Ill end.
(** two evaluations, none of which depends on the other *)
Definition both {A B} (x : R A) (y : R B) : R (A * B) :=
  match x, y with
  | Ill, _ | _, Ill => Ill
  | Fail, _ | _, Fail => Fail
  | Ok a, Ok b => Ok (a, b)
  end.
Definition all {A} : list (R A) -> R (list A) :=
  fix go l := match l with [] => Ok [] | x :: l => '(a, l) ← both x (go l); Ok (a :: l) end.
Definition or_fail {A} (o : option A) : R A := match o with Some a => Ok a | None => Fail end.
Definition or_ill {A} (o : option A) : R A := match o with Some a => Ok a | None => Ill end.

(** arrays with the dimensions [ds] of numbers (or records) *)
Fixpoint has_shape (ds : list nat) (v : val) : bool :=
  match ds, v with
  | [], Node _ => false
  | [], _ => true
  | d :: ds, Node l => (length l =? d) && forallb (has_shape ds) l
  | _ :: _, _ => false
  end.
Fixpoint zeros (ds : list nat) : val := match ds with [] => Leaf 0 | d :: ds => Node (replicate d (zeros ds)) end.
Definition shaped (ds : list nat) (v : val) : R val := if has_shape ds v then Ok v else Ill.

(** positions in a value *)
Inductive key := At (i : Z) | Field (f : string).
Definition nth_key {A} (l : list A) (i : Z) : option A := if (i <? 0)%Z then None else l !! Z.to_nat i.
Fixpoint assoc (f : string) (l : list (string * val)) : option val :=
  match l with [] => None | (g, v) :: l => if bool_decide (f = g) then Some v else assoc f l end.
Fixpoint select (v : val) (p : list key) : R val :=
  match p with
  | [] => Ok v
  | At i :: p => match v with Node l => w ← or_fail (nth_key l i); select w p | _ => Ill end
  | Field f :: p => match v with Rec l => w ← or_ill (assoc f l); select w p | _ => Ill end
  end.
(** storing [v] over [old]: an array may be shorter than the one it is stored in *)
Fixpoint overlay (v old : val) : option val :=
  match v, old with
  | Node vs, Node os =>
    Node <$> (fix go vs os := match vs, os with
      | [], _ => Some os
      | v :: vs, o :: os => w ← overlay v o; ws ← go vs os; Some (w :: ws)
      | _ :: _, [] => None
      end) vs os
  | Node _, _ | _, Node _ => None
  | _, _ => Some v
  end.
Fixpoint assoc_set (f : string) (w : val) (l : list (string * val)) : list (string * val) :=
  match l with [] => [] | (g, v) :: l => if bool_decide (f = g) then (g, w) :: l else (g, v) :: assoc_set f w l end.
Fixpoint update (old : val) (p : list key) (v : val) : R val :=
  match p with
  | [] => or_ill (overlay v old)
  | At i :: p =>
    match old with Node l => w ← or_fail (nth_key l i); w ← update w p v; Ok (Node (<[Z.to_nat i := w]> l)) | _ => Ill end
  | Field f :: p =>
    match old with Rec l => w ← or_ill (assoc f l); w ← update w p v; Ok (Rec (assoc_set f w l)) | _ => Ill end
  end.
Fixpoint val_eqb (v w : val) : bool :=
  match v, w with
  | Leaf a, Leaf b => (a =? b)%Z
  | Node vs, Node ws => (fix go vs ws := match vs, ws with [], [] => true | v :: vs, w :: ws => val_eqb v w && go vs ws | _, _ => false end) vs ws
  | Rec vs, Rec ws => (fix go vs ws := match vs, ws with [], [] => true | (f, v) :: vs, (g, w) :: ws => bool_decide (f = g) && val_eqb v w && go vs ws | _, _ => false end) vs ws
  | _, _ => false
  end.
Fixpoint same_shape (v w : val) : bool :=
  match v, w with
  | Node vs, Node ws => (fix go vs ws := match vs, ws with [], [] => true | v :: vs, w :: ws => same_shape v w && go vs ws | _, _ => false end) vs ws
  | Node _, _ | _, Node _ => false
  | _, _ => true
  end.

(** ** Expressions *)
Global Instance name_countable : Countable name.
Proof.
  refine (inj_countable (fun n => match n with User x => inl x | Auto k => inr (inl k) | Ret k => inr (inr k) end)
    (fun s => Some match s with inl x => User x | inr (inl k) => Auto k | inr (inr k) => Ret k end) _). intros []; reflexivity.
Defined.
(** variables and signals: the open blocks, innermost first *)
Definition state : Type := list (gmap name val).
Fixpoint look (σ : state) (x : name) : option val :=
  match σ with [] => None | b :: σ => match b !! x with Some v => Some v | None => look σ x end end.
Fixpoint store (σ : state) (x : name) (v : val) : option state :=
  match σ with
  | [] => None
  | b :: σ => match b !! x with Some _ => Some (<[x := v]> b :: σ) | None => cons b <$> store σ x v end
  end.
Definition number (v : val) : R Z := match v with Leaf z => Ok z | _ => Ill end.

Section world.
Context (W : world).
(** the value of an expression; [ov]: the dimensions that an enclosing inline array prescribes.  An inline
    array with fewer elements than its dimensions say is filled with zeros. *)
Fixpoint eval (σ : state) (ov : option (list nat)) (e : expr) : R val :=
  match e with
  | Num z => Ok (Leaf z)
  | Var ds x acc =>
    '(p, v) ← both
       (all ((fix go acc := match acc with
         | [] => []
         | Fld f :: acc => Ok (Field f) :: go acc
         | Idx e :: acc => (v ← eval σ None e; z ← number v; Ok (At z)) :: go acc
         end) acc))
       (or_ill (look σ x));
    v ← select v p;
    shaped (default ds ov) v
  | Call ds f args =>
    vs ← all ((fix go l := match l with [] => [] | e :: l => eval σ None e :: go l end) args);
    v ← or_fail (call W f vs);
    shaped (default ds ov) v
  | Pre o e => v ← eval σ None e; z ← number v; z ← or_fail (den1 W o z); Ok (Leaf z)
  | Inf o l r =>
    '(v, w) ← both (v ← eval σ None l; number v) (w ← eval σ None r; number w);
    z ← or_fail (den2 W o v w);
    Ok (Leaf z)
  | Switch ds c t f =>
    v ← eval σ None c;
    z ← number v;
    v ← (if (z =? 0)%Z then eval σ None f else eval σ None t);
    shaped (default ds ov) v
  | Arr ds values =>
    match default ds ov with
    | [] => Ill
    | n :: rest =>
      vs ← all ((fix go l := match l with [] => [] | e :: l => eval σ (Some rest) e :: go l end) values);
      shaped (n :: rest) (Node (vs ++ replicate (n - length vs) (zeros rest)))
    end
  | Uni ds value dim =>
    '(v, d) ← both (eval σ None value) (d ← eval σ None dim; number d);
    shaped (default ds ov) (Node (replicate (Z.to_nat d) v))
  end.
Definition path (σ : state) (acc : list access) : R (list key) :=
  all ((fun a => match a with Fld f => Ok (Field f) | Idx e => v ← eval σ None e; z ← number v; Ok (At z) end) <$> acc).
Definition evals (σ : state) (es : list expr) : R (list val) := all (eval σ None <$> es).

(** ** Statements *)
(** what is printed *)
Definition event : Type := list (string + val).
(** how the execution of a statement ends; [OutOfFuel]: a loop has reached the bound on its iterations *)
Inductive control := Next | Returned (v : val) | OutOfFuel.
Definition outcome : Type := state * list event * control.
Definition log_args (σ : state) (args : list (string + expr)) : R event :=
  all ((fun a => match a with inl s => Ok (inl s) | inr e => v ← eval σ None e; Ok (inr v) end) <$> args).
(** statements in sequence, until one returns *)
Definition andthen (x : R outcome) (f : state -> R outcome) : R outcome :=
  '(σ1, t, r) ← x;
  match r with
  | Next => '(σ2, t', r) ← f σ1; Ok (σ2, t ++ t', r)
  | _ => Ok (σ1, t, r)
  end.
Definition sequence (f : stmt -> state -> R outcome) : list stmt -> state -> R outcome :=
  fix go l σ := match l with
  | [] => Ok (σ, [], Next)
  | s :: l => andthen (f s σ) (go l)
  end.
(** at most [n] iterations *)
Fixpoint loop (n : nat) (cond : state -> R Z) (f : state -> R outcome) (σ : state) : R outcome :=
  match n with
  | O => Ok (σ, [], OutOfFuel)
  | S n => z ← cond σ; if (z =? 0)%Z then Ok (σ, [], Next) else andthen (f σ) (loop n cond f)
  end.
Definition condition (σ : state) (c : expr) : R Z := v ← eval σ None c; number v.
Fixpoint exec (n : nat) (s : stmt) (σ : state) : R outcome :=
  match s with
  | Decl x ds => match σ with [] => Ill | b :: σ => Ok (<[x := zeros ds]> b :: σ, [], Next) end
  | Assign x acc _ rhe =>
    '(v, p) ← both (eval σ None rhe) (path σ acc);
    old ← or_ill (look σ x);
    w ← update old p v;
    σ ← or_ill (store σ x w);
    Ok (σ, [], Next)
  | Equal l r =>
    '(v, w) ← both (eval σ None l) (eval σ None r);
    if same_shape v w then if val_eqb v w then Ok (σ, [], Next) else Fail else Ill
  | If c t f =>
    z ← condition σ c;
    if (z =? 0)%Z then match f with Some f => exec n f σ | None => Ok (σ, [], Next) end else exec n t σ
  | While c b => loop n (fun σ => condition σ c) (exec n b) σ
  | Block l =>
    '(σ, t, r) ← sequence (exec n) l (∅ :: σ);
    match σ with [] => Ill | _ :: σ => Ok (σ, t, r) end
  | Init l => sequence (exec n) l σ
  | Return e => v ← eval σ None e; Ok (σ, [], Returned v)
  | Log args => t ← log_args σ args; Ok (σ, [t], Next)
  | Assert e => z ← condition σ e; if (z =? 0)%Z then Fail else Ok (σ, [], Next)
  end.
End world.

(** ** Conditions *)
(** names in an expression *)
Fixpoint names (e : expr) : list name :=
  match e with
  | Num _ => []
  | Var _ x acc => x :: (fix go acc := match acc with [] => [] | Fld _ :: acc => go acc | Idx e :: acc => names e ++ go acc end) acc
  | Call _ _ args => (fix go l := match l with [] => [] | e :: l => names e ++ go l end) args
  | Pre _ e => names e
  | Inf _ l r => names l ++ names r
  | Switch _ c t f => names c ++ names t ++ names f
  | Arr _ l => (fix go l := match l with [] => [] | e :: l => names e ++ go l end) l
  | Uni _ v d => names v ++ names d
  end.
Definition access_names (acc : list access) : list name := flat_map (fun a => match a with Fld _ => [] | Idx e => names e end) acc.
(** names in an expression outside of calls, inline conditions and arrays *)
Fixpoint direct (e : expr) : list name :=
  match e with
  | Var _ x acc => x :: (fix go acc := match acc with [] => [] | Fld _ :: acc => go acc | Idx e :: acc => direct e ++ go acc end) acc
  | Pre _ e => direct e
  | Inf _ l r => direct l ++ direct r
  | _ => []
  end.
Definition direct_accesses (acc : list access) : list name := flat_map (fun a => match a with Fld _ => [] | Idx e => direct e end) acc.
Section mixed.
Context (mixed : name -> bool).
(** no call, inline condition or array, and no mixed component in an index of a mixed component *)
Fixpoint flat (inside : bool) (e : expr) : bool :=
  match e with
  | Num _ => true
  | Var _ x acc => negb (inside && mixed x) &&
    (fix go acc := match acc with [] => true | Fld _ :: acc => go acc | Idx e :: acc => flat (inside || mixed x) e && go acc end) acc
  | Pre _ e => flat inside e
  | Inf _ l r => flat inside l && flat inside r
  | _ => false
  end.
(** the branches of inline conditions are flat, and uniform arrays have elements *)
Fixpoint lazy (inside : bool) (e : expr) : bool :=
  match e with
  | Num _ => true
  | Var _ x acc => (fix go acc := match acc with [] => true | Fld _ :: acc => go acc | Idx e :: acc => lazy (inside || mixed x) e && go acc end) acc
  | Call _ _ args => (fix go l := match l with [] => true | e :: l => lazy inside e && go l end) args
  | Pre _ e => lazy inside e
  | Inf _ l r => lazy inside l && lazy inside r
  | Switch _ c t f => flat inside t && flat inside f
  | Arr _ l => (fix go l := match l with [] => true | e :: l => lazy inside e && go l end) l
  | Uni _ v d => lazy inside v && lazy inside d && match d with Num z => (0 <? z)%Z | _ => true end
  end.
Definition is_user (x : name) : bool := match x with User _ => true | _ => false end.
(** an expression of the program *)
Definition source (e : expr) : Prop := forallb is_user (names e) = true /\ lazy false e = true.
Definition source_accesses (acc : list access) : Prop := Forall (fun a => match a with Fld _ => True | Idx e => source e end) acc.
(** An array is not assigned to a variable that one of its elements reads, except in a call, an inline
    condition or an array, or that is read in the indexes of the assignment; an empty array is assigned to a whole variable. *)
Definition apart (x : name) (acc : list access) (vs : list expr) : Prop :=
  x ∉ flat_map direct vs /\ x ∉ direct_accesses acc /\ (vs = [] -> acc = []).
Definition array_apart (x : name) (acc : list access) (rhe : expr) : Prop :=
  match rhe with
  | Arr (n :: _) vs => apart x acc (vs ++ replicate (n - length vs) (Num 0))
  | Uni _ v (Num d) => apart x acc (replicate (Z.to_nat d) v)
  | _ => True
  end.
(** the number of elements of an array, with those that are filled with zeros *)
Definition size (e : expr) : nat :=
  match e with Arr (n :: _) vs => length vs + (n - length vs) | Uni _ _ (Num d) => Z.to_nat d | _ => 0 end.
(** An array is compared with an array of the same size or, unless it is empty, with a variable. *)
Definition comparable (l r : expr) : Prop :=
  match l, r with
  | Arr _ _, Arr _ _ => size l = size r
  | Arr _ _, Uni _ _ _ => size l = size r /\ size r <> 0
  | Arr _ _, Var _ _ _ => size l <> 0
  | Var _ _ _, Arr _ _ => size r <> 0
  | _, _ => is_array l = false /\ is_array r = false
  end.
Definition is_block (s : stmt) : bool := match s with Block _ => true | _ => false end.
(** The programs for which the cleaner is right: branches of inline conditions are flat, conditions of loops
    are flat, bodies are blocks, and arrays are used as above. *)
Fixpoint tame (s : stmt) : Prop :=
  match s with
  | Decl x _ => is_user x = true
  | Assign x acc _ rhe => is_user x = true /\ source rhe /\ source_accesses acc /\ array_apart x acc rhe
  | Equal l r => source l /\ source r /\ comparable l r
  | If c t f => source c /\ is_block t = true /\ tame t /\ match f with Some f => is_block f = true /\ tame f | None => True end
  | While c b => source c /\ flat false c = true /\ is_block b = true /\ tame b
  | Block l | Init l => (fix go l := match l with [] => True | s :: l => tame s /\ go l end) l
  | Return e | Assert e => source e
  | Log args => Forall (fun a => match a with inl _ => True | inr e => source e end) args
  end.
End mixed.

(** ** What the translation accepts *)
(** translate.rs:806-826: no inline condition and no array in an expression *)
Fixpoint plain (e : expr) : bool :=
  match e with
  | Num _ => true
  | Var _ _ acc => (fix go acc := match acc with [] => true | Fld _ :: acc => go acc | Idx e :: acc => plain e && go acc end) acc
  | Call _ _ args => (fix go l := match l with [] => true | e :: l => plain e && go l end) args
  | Pre _ e => plain e
  | Inf _ l r => plain l && plain r
  | Switch _ _ _ _ | Arr _ _ | Uni _ _ _ => false
  end.
Definition plain_accesses (acc : list access) : bool := forallb (fun a => match a with Fld _ => true | Idx e => plain e end) acc.
(** translate.rs:513-537, 1839-1858: no initialisation block, only plain expressions, and no call in a return *)
Fixpoint translatable (s : stmt) : bool :=
  match s with
  | Decl _ _ => true
  | Assign _ acc _ rhe => plain_accesses acc && plain rhe
  | Equal l r => plain l && plain r
  | If c t f => plain c && translatable t && match f with Some f => translatable f | None => true end
  | While c b => plain c && translatable b
  | Block l => (fix go l := match l with [] => true | s :: l => translatable s && go l end) l
  | Init _ => false
  | Return e => plain e && negb (is_call e)
  | Log args => forallb (fun a => match a with inl _ => true | inr e => plain e end) args
  | Assert e => plain e
  end.
(** inline conditions whose condition is plain *)
Fixpoint clear (e : expr) : bool :=
  match e with
  | Num _ => true
  | Var _ _ acc => (fix go acc := match acc with [] => true | Fld _ :: acc => go acc | Idx e :: acc => clear e && go acc end) acc
  | Call _ _ args => (fix go l := match l with [] => true | e :: l => clear e && go l end) args
  | Pre _ e => clear e
  | Inf _ l r => clear l && clear r
  | Switch _ c t f => plain c && clear t && clear f
  | Arr _ l => (fix go l := match l with [] => true | e :: l => clear e && go l end) l
  | Uni _ v d => clear v && clear d
  end.
Definition clear_accesses (acc : list access) : bool := forallb (fun a => match a with Fld _ => true | Idx e => clear e end) acc.
(** The programs whose inline conditions and arrays disappear: an argument of [log] or [assert] is not an inline
    condition or an array, a side of [===] is not an inline condition, and a body that is not a block
    ([loose]) is not an assignment, an equality or a return of an array or an inline condition, nor the return of a call. *)
Fixpoint removable (loose : bool) (s : stmt) : bool :=
  match s with
  | Decl _ _ => true
  | Assign _ acc _ e => clear_accesses acc && clear e && negb (loose && (is_switch e || is_array e))
  | Equal l r => clear l && clear r && negb (is_switch l || is_switch r) && negb (loose && (is_array l || is_array r))
  | If c t f => clear c && removable true t && match f with Some f => removable true f | None => true end
  | While c b => clear c && removable true b
  | Block l | Init l => (fix go l := match l with [] => true | s :: l => removable false s && go l end) l
  | Return e => clear e && negb (loose && (is_switch e || is_array e || is_call e))
  | Log args => forallb (fun a => match a with inl _ => true | inr e => clear e && negb (is_switch e || is_array e) end) args
  | Assert e => clear e && negb (is_switch e || is_array e)
  end.
