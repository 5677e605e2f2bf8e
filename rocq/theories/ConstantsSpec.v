(** What functions return and what they log, independently of the analysis of constants; and the functions for
    which variables may be replaced by their values. *)
From stdpp Require Import prelude gmap strings.
From Coq Require Import ZArith.
From Verif Require Import ConstantsModel.
Open Scope string_scope.
Open Scope list_scope.
Open Scope nat_scope.

(** ** Values *)
Inductive val := Leaf (z : Z) | Node (l : list val).
Definition number (v : val) : option Z := match v with Leaf z => Some z | Node _ => None end.
Definition element {A} (l : list A) (i : Z) : option A := if (i <? 0)%Z then None else l !! Z.to_nat i.
Fixpoint select (v : val) (p : list Z) : option val :=
  match p with
  | [] => Some v
  | i :: p => match v with Node l => v ← element l i; select v p | Leaf _ => None end
  end.
(** an array of these lengths, filled with zeros *)
Fixpoint zeros (ns : list Z) : option val :=
  match ns with
  | [] => Some (Leaf 0)
  | n :: ns => if (n <? 0)%Z then None else v ← zeros ns; Some (Node (repeat v (Z.to_nat n)))
  end.
(** storing [v] over [old]: an array may be shorter than the one it is stored in *)
Fixpoint overlay (v old : val) : option val :=
  match v, old with
  | Leaf _, Leaf _ => Some v
  | Node vs, Node os =>
    Node <$> (fix go vs os := match vs, os with
      | [], _ => Some os
      | v :: vs, o :: os => w ← overlay v o; ws ← go vs os; Some (w :: ws)
      | _ :: _, [] => None
      end) vs os
  | _, _ => None
  end.
Fixpoint update (old : val) (p : list Z) (v : val) : option val :=
  match p with
  | [] => overlay v old
  | i :: p =>
    match old with
    | Node l => w ← element l i; w ← update w p v; Some (Node (<[Z.to_nat i := w]> l))
    | Leaf _ => None
    end
  end.

(** ** Variables: the open blocks, innermost first *)
Notation state := (list (gmap string val)).
Fixpoint get (σ : state) (x : string) : option val :=
  match σ with [] => None | b :: σ => match b !! x with Some v => Some v | None => get σ x end end.
Fixpoint put (σ : state) (x : string) (v : val) : option state :=
  match σ with
  | [] => None
  | b :: σ => match b !! x with Some _ => Some (<[x := v]> b :: σ) | None => σ' ← put σ x v; Some (b :: σ') end
  end.
Definition new (σ : state) (x : string) (v : val) : option state :=
  match σ with [] => None | b :: σ => Some (<[x := v]> b :: σ) end.

(** ** Effects: an execution may fail and may log *)
Record effects (M : Type -> Type) := Effects {
  done : forall {A}, A -> M A;
  next : forall {A B}, M A -> (A -> M B) -> M B;
  fail : forall {A}, M A;
  say : list Z -> M unit }.
Arguments done {M} _ {A} a. Arguments next {M} _ {A B} m k. Arguments fail {M} _ {A}. Arguments say {M} _ l.
(** only the result; [None]: an error (an index out of range, a failed assertion, ...), or more steps than the bound *)
Definition results : effects option :=
  Effects option (fun _ a => Some a) (fun _ _ m k => match m with Some a => k a | None => None end) (fun _ => None) (fun _ => Some tt).
(** the result and the lines logged *)
Definition logged (A : Type) : Type := option A * list (list Z).
Definition lines : effects logged :=
  Effects logged (fun _ a => (Some a, []))
    (fun _ _ m k => match m.1 with Some a => let r := k a in (r.1, m.2 ++ r.2) | None => (None, m.2) end)
    (fun _ => (None, [])) (fun l => (Some tt, [l])).

Section effects.
Context {M : Type -> Type} (W : effects M).
Notation "p <- x ; k" := (next W x (fun p => k)) (at level 20, x at level 100, k at level 200, right associativity).
Notation "' p <- x ; k" := (next W x (fun p => k)) (at level 20, p pattern, x at level 100, k at level 200, right associativity).
Definition lift {A} (o : option A) : M A := match o with Some a => done W a | None => fail W end.
Definition all {A B} (f : A -> M B) : list A -> M (list B) :=
  fix go l := match l with [] => done W [] | a :: l => b <- f a; bs <- go l; done W (b :: bs) end.
(** operators ([None]: an error such as a division by zero); calls *)
Context (den1 : string -> Z -> option Z) (den2 : string -> Z -> Z -> option Z).
Section calls.
Context (call : string -> list val -> M val).

Fixpoint eval (σ : state) (e : expr) : M val :=
  match e with
  | Number z => done W (Leaf z)
  | InfixOp o l r =>
    l <- eval σ l; l <- lift (number l); r <- eval σ r; r <- lift (number r); z <- lift (den2 o l r); done W (Leaf z)
  | PrefixOp o e => v <- eval σ e; z <- lift (number v); z <- lift (den1 o z); done W (Leaf z)
  | InlineSwitch c t f => v <- eval σ c; z <- lift (number v); if (z =? 0)%Z then eval σ f else eval σ t
  | VariableOf x idx => is <- all (fun e => v <- eval σ e; lift (number v)) idx; v <- lift (get σ x); lift (select v is)
  | Call f args => vs <- all (eval σ) args; call f vs
  | ArrayInLine l => vs <- all (eval σ) l; done W (Node vs)
  | UniformArray e n =>
    v <- eval σ e; n <- eval σ n; n <- lift (number n);
    if (n <? 0)%Z then fail W else done W (Node (repeat v (Z.to_nat n)))
  end.
Definition numbers (σ : state) (l : list expr) : M (list Z) := all (fun e => v <- eval σ e; lift (number v)) l.

(** [Some v]: the function has returned *)
Definition outcome : Type := state * option val.
Definition sequence (f : state -> stmt -> M outcome) : state -> list stmt -> M outcome :=
  fix go σ l := match l with
  | [] => done W (σ, None)
  | s :: l => o <- f σ s; match o.2 with None => go o.1 l | Some v => done W o end
  end.
(** at most [n] times *)
Fixpoint loop (n : nat) (c : state -> M Z) (f : state -> M outcome) (σ : state) : M outcome :=
  match n with
  | O => fail W
  | S n =>
    z <- c σ;
    if (z =? 0)%Z then done W (σ, None)
    else o <- f σ; match o.2 with None => loop n c f o.1 | Some v => done W o end
  end.
Fixpoint exec (n : nat) (σ : state) (s : stmt) {struct s} : M outcome :=
  match s with
  | IfThenElse c t f =>
    v <- eval σ c; z <- lift (number v);
    if (z =? 0)%Z then match f with Some f => exec n σ f | None => done W (σ, None) end else exec n σ t
  | While c s => loop n (fun σ => v <- eval σ c; lift (number v)) (fun σ => exec n σ s) σ
  | Return e => v <- eval σ e; done W (σ, Some v)
  | InitializationBlock l => sequence (exec n) σ l
  | Declaration x dims _ => ns <- numbers σ dims; v <- lift (zeros ns); σ <- lift (new σ x v); done W (σ, None)
  | Substitution x idx e =>
    v <- eval σ e; is <- numbers σ idx; old <- lift (get σ x); w <- lift (update old is v);
    σ <- lift (put σ x w); done W (σ, None)
  | LogCall args => zs <- numbers σ args; _ <- say W zs; done W (σ, None)
  | Assert e => v <- eval σ e; z <- lift (number v); if (z =? 0)%Z then fail W else done W (σ, None)
  | Block l => o <- sequence (exec n) (∅ :: σ) l; done W (tail o.1, o.2)
  end.
End calls.

(** [n] bounds the depth of calls and the iterations of each loop *)
Fixpoint run (P : gmap string def) (n : nat) (f : string) (vs : list val) : M val :=
  match n with
  | O => fail W
  | S n =>
    match P !! f with
    | None => fail W
    | Some D =>
      if length vs =? length (params D) then
        o <- exec (run P n) n [list_to_map (zip (params D) vs)] (Block (body D)); lift o.2
      else fail W
    end
  end.
End effects.

(** ** Functions without shadowing *)
(** The names visible at a point, each with the information whether it was declared without dimensions *)
Notation names := (list (string * bool)).
Definition fresh (N : names) (x : string) : bool := negb (existsb (fun p => bool_decide (p.1 = x)) N).
(** every name is declared, and a variable declared without dimensions has no indexes *)
Fixpoint uses (N : names) (e : expr) : bool :=
  match e with
  | Number _ => true
  | InfixOp _ l r | UniformArray l r => uses N l && uses N r
  | PrefixOp _ e => uses N e
  | InlineSwitch c t f => uses N c && uses N t && uses N f
  | VariableOf x idx =>
    existsb (fun p => bool_decide (p.1 = x) && (match idx with [] => true | _ => false end || negb p.2)) N && forallb (uses N) idx
  | Call _ l | ArrayInLine l => forallb (uses N) l
  end.
(** Declarations as the parser writes them
    (program_structure/src/abstract_syntax_tree/ast_shortcuts.rs:52-95): a variable without dimensions is followed
    by its one initial value, which does not mention it; an array by one or two initial values ([A]: the arrays of
    this declaration).  No visible name is declared again *)
Fixpoint declares (N : names) (A : list string) (l : list stmt) : option names :=
  match l with
  | [] => Some N
  | Declaration x dims _ :: l =>
    if fresh N x && forallb (uses N) dims then
      match dims, l with
      | [], Substitution y [] e :: l => if bool_decide (x = y) && uses N e then declares ((x, true) :: N) A l else None
      | [], _ => None
      | _, _ => declares ((x, false) :: N) (x :: A) l
      end
    else None
  | Substitution y [] e :: l => if bool_decide (y ∈ A) && uses N e then declares N A l else None
  | _ => None
  end.
Definition in_sequence (f : names -> stmt -> option names) : names -> list stmt -> option names :=
  fix go N l := match l with [] => Some N | s :: l => match f N s with Some N => go N l | None => None end end.
Definition declaring (s : stmt) : bool := match s with Declaration _ _ _ | InitializationBlock _ => true | _ => false end.
(** the names visible after a statement; [None]: something is declared again, or not declared *)
Fixpoint scoped (N : names) (s : stmt) : option names :=
  match s with
  | IfThenElse c t f =>
    if uses N c && negb (declaring t) then
      match scoped N t, f with
      | None, _ => None
      | _, None => Some N
      | _, Some f => if declaring f then None else match scoped N f with Some _ => Some N | None => None end
      end
    else None
  | While c s => if uses N c && negb (declaring s) then match scoped N s with Some _ => Some N | None => None end else None
  | Return e | Assert e => if uses N e then Some N else None
  | InitializationBlock l => declares N [] l
  | Declaration _ _ _ => None
  | Substitution x idx e =>
    if negb (fresh N x) && forallb (uses N) idx && uses N e then Some N else None
  | LogCall l => if forallb (uses N) l then Some N else None
  | Block l => match in_sequence scoped N l with Some _ => Some N | None => None end
  end.
(** a function where no declaration hides another one *)
Definition no_shadowing (D : def) : bool :=
  match scoped ((fun x => (x, false)) <$> params D) (Block (body D)) with Some _ => true | None => false end.

(** ** Lengths of arrays *)
(** the names in the lengths of arrays are declared in earlier statements, not in the same one *)
Fixpoint lengths (N : names) (s : stmt) : option names :=
  match s with
  | InitializationBlock l =>
    if forallb (fun s => match s with Declaration _ dims _ => forallb (uses N) dims | _ => true end) l then
      Some (foldl (fun N s => match s with Declaration x _ _ => (x, false) :: N | _ => N end) N l)
    else None
  | IfThenElse _ t f =>
    match lengths N t, f with
    | None, _ => None
    | _, None => Some N
    | _, Some f => match lengths N f with Some _ => Some N | None => None end
    end
  | While _ s => match lengths N s with Some _ => Some N | None => None end
  | Block l => match in_sequence lengths N l with Some _ => Some N | None => None end
  | _ => Some N
  end.
Definition lengths_before (D : def) : bool :=
  match lengths ((fun x => (x, false)) <$> params D) (Block (body D)) with Some _ => true | None => false end.
(** the lengths of all arrays of a function *)
Fixpoint array_lengths (s : stmt) : list expr :=
  match s with
  | IfThenElse _ t f => array_lengths t ++ match f with Some f => array_lengths f | None => [] end
  | While _ s => array_lengths s
  | InitializationBlock l | Block l => flat_map array_lengths l
  | Declaration _ dims _ => dims
  | _ => []
  end.
(** [x] is in [e], not counting the indexes of variables *)
Fixpoint direct (x : string) (e : expr) : bool :=
  match e with
  | Number _ => false
  | InfixOp _ l r | UniformArray l r => direct x l || direct x r
  | PrefixOp _ e => direct x e
  | InlineSwitch c t f => direct x c || direct x t || direct x f
  | VariableOf y _ => bool_decide (x = y)
  | Call _ l | ArrayInLine l => existsb (direct x) l
  end.
