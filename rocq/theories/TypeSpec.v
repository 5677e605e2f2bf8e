(** What a program does, with every wrong use of a value made visible: an evaluator that stops with [Ill]
    when an array is used as a number, when an index is applied to a number, when an array is stored in a
    number, when a component is used as a value, and so on.

    A template runs when it is instantiated; the values its signals have are arbitrary. *)
From stdpp Require Import prelude gmap strings.
From Coq Require Import ZArith.
From Verif Require Import TypeModel.
Open Scope string_scope.
Open Scope list_scope.
Open Scope nat_scope.

(** ** Values *)
(** numbers, arrays, a component before its instantiation, and an instance of a template with its inputs and
    outputs *)
Inductive val := Leaf (z : Z) | Node (l : list val) | Empty | Inst (t : string) (sigs : list (string * val)).
(** arrays of numbers with [d] dimensions *)
Fixpoint dims (d : nat) (v : val) : bool :=
  match d, v with
  | O, Leaf _ => true
  | S d, Node l => forallb (dims d) l
  | _, _ => false
  end.

(** How an evaluation ends: with a value; with an error that is not one of types (an index out of range, a
    division by zero, a name that is not declared, a function without return, a component assigned twice);
    with a use of a value of the wrong type; or after more steps than the bound *)
Inductive R (A : Type) := Ok (a : A) | Fail | Ill | OutOfFuel.
Arguments Ok {A} a. Arguments Fail {A}. Arguments Ill {A}. Arguments OutOfFuel {A}.
Definition rbind {A B} (x : R A) (k : A -> R B) : R B :=
  match x with Ok a => k a | Fail => Fail | Ill => Ill | OutOfFuel => OutOfFuel end.
Notation "p <- x ; k" := (rbind x (fun p => k)) (at level 20, x at level 100, k at level 200, right associativity).
Notation "' p <- x ; k" := (rbind x (fun p => k)) (at level 20, p pattern, x at level 100, k at level 200, right associativity).
Definition rmap {A B} (f : A -> R B) : list A -> R (list B) :=
  fix go l := match l with [] => Ok [] | a :: l => b <- f a; bs <- go l; Ok (b :: bs) end.
Definition or_fail {A} (o : option A) : R A := match o with Some a => Ok a | None => Fail end.
Definition require (b : bool) : R unit := if b then Ok tt else Ill.

Definition number (v : val) : R Z := match v with Leaf z => Ok z | _ => Ill end.
(** a number or an array, not a component *)
Definition value (v : val) : R val := match v with Leaf _ | Node _ => Ok v | _ => Ill end.
Definition instance (v : val) : R val := match v with Inst _ _ => Ok v | _ => Ill end.
(** the element [i] *)
Definition element {A} (l : list A) (i : Z) : R A := or_fail (if (i <? 0)%Z then None else l !! Z.to_nat i).
Definition select1 (v : val) (i : Z) : R val := match v with Node l => element l i | _ => Ill end.
Fixpoint select (v : val) (p : list Z) : R val :=
  match p with [] => Ok v | i :: p => w <- select1 v i; select w p end.
(** the arrays are nested to the same depth *)
Fixpoint same_depth (v w : val) : bool :=
  match v, w with
  | Leaf _, Leaf _ => true
  | Node l, Node m => forallb (fun v => forallb (same_depth v) m) l
  | _, _ => false
  end.
(** an array of [n] times [v] *)
Definition array (n : Z) (v : val) : R val := if (n <? 0)%Z then Fail else Ok (Node (repeat v (Z.to_nat n))).
(** an array of these lengths, filled by [f] at each position *)
Fixpoint fill (f : list nat -> val) (ns : list Z) : R val :=
  match ns with
  | [] => Ok (f [])
  | n :: ns =>
    if (n <? 0)%Z then Fail
    else l <- rmap (fun i => fill (fun p => f (i :: p)) ns) (seq 0 (Z.to_nat n)); Ok (Node l)
  end.

(** storing [v] over [old]: an array may be shorter than the one it is stored in *)
Fixpoint overlay (v old : val) : R val :=
  match v, old with
  | Leaf _, Leaf _ => Ok v
  | Node vs, Node os =>
    l <- (fix go vs os := match vs, os with
      | [], _ => Ok os
      | v :: vs, o :: os => w <- overlay v o; ws <- go vs os; Ok (w :: ws)
      | _ :: _, [] => Fail
      end) vs os;
    Ok (Node l)
  | _, _ => Ill
  end.
(** changing what is at a position *)
Fixpoint update (old : val) (p : list Z) (f : val -> R val) : R val :=
  match p with
  | [] => f old
  | i :: p =>
    match old with
    | Node l => w <- element l i; w <- update w p f; Ok (Node (<[Z.to_nat i := w]> l))
    | _ => Ill
    end
  end.
(** instantiating a component: its place must be empty *)
Definition instantiate (v old : val) : R val := match old with Empty => Ok v | Inst _ _ => Fail | _ => Ill end.
(** the templates of the instances in an array of components *)
Fixpoint instances (v : val) : list string :=
  match v with Inst t _ => [t] | Node l => flat_map instances l | _ => [] end.
Definition one_template (v : val) : bool :=
  match instances v with [] => true | t :: ts => forallb (fun u => bool_decide (t = u)) ts end.

Fixpoint assoc (f : string) (l : list (string * val)) : option val :=
  match l with [] => None | (g, v) :: l => if bool_decide (f = g) then Some v else assoc f l end.
Fixpoint assoc_set (f : string) (w : val) (l : list (string * val)) : list (string * val) :=
  match l with [] => [] | (g, v) :: l => if bool_decide (f = g) then (g, w) :: l else (g, v) :: assoc_set f w l end.

(** ** Declarations *)
(** all declarations in a statement *)
Fixpoint declarations (s : stmt) : list (kind * string * nat) :=
  match s with
  | IfThenElse _ t f => declarations t ++ match f with Some f => declarations f | None => [] end
  | While _ s => declarations s
  | InitializationBlock _ l | Block l => flat_map declarations l
  | Declaration k x ds => [(k, x, length ds)]
  | _ => []
  end.
Definition all_declarations (D : def) : list (kind * string * nat) :=
  ((fun x => (KVar, x, 0)) <$> params D) ++ flat_map declarations (body D).
Definition is_wire (k : kind) : bool := match k with KSignal Input | KSignal Output => true | _ => false end.
(** the template has an input or output of this name *)
Definition has_wire (D : def) (f : string) : bool :=
  existsb (fun '(k, x, _) => is_wire k && bool_decide (x = f)) (all_declarations D).

(** ** States *)
Record state := State { vars : list (gmap string val); signals : gmap string val; comps : gmap string val }.
Fixpoint get (bs : list (gmap string val)) (x : string) : option val :=
  match bs with [] => None | b :: bs => match b !! x with Some v => Some v | None => get bs x end end.
Fixpoint put (bs : list (gmap string val)) (x : string) (v : val) : list (gmap string val) :=
  match bs with
  | [] => []
  | b :: bs => match b !! x with Some _ => <[x := v]> b :: bs | None => b :: put bs x v end
  end.
Definition bind_values (xs : list string) (vs : list val) : gmap string val :=
  foldl (fun b '(x, v) => <[x := v]> b) ∅ (zip xs vs).

Section program.
Context (P : program).
(** operators; [None]: an error such as a division by zero *)
Context (den1 : string -> Z -> option Z) (den2 : string -> Z -> Z -> option Z).
(** the values of signals: by template, its arguments, signal and position *)
Context (sv : string -> list val -> string -> list nat -> Z).

Section calls.
(** the running function or template ([inside]: in a template?) and its arguments; calls *)
Context (inside : bool) (here : string) (args : list val) (run : string -> list val -> R val).

(** ** Expressions *)
(** reading: signals, components, variables *)
Definition read (σ : state) (x : string) (idx : list Z) (field : option (string * list Z)) : R val :=
  match signals σ !! x, comps σ !! x, get (vars σ) x with
  | Some v, _, _ | None, None, Some v => match field with Some _ => Ill | None => select v idx end
  | None, Some v, _ =>
    v <- select v idx;
    match v with
    | Empty => Fail
    | Inst t sigs =>
      match field with
      | None => Ok v
      | Some (f, idx) =>
        match assoc f sigs with
        | Some v => select v idx
        | None => match templates P !! t with Some D => if has_wire D f then Fail else Ill | None => Ill end
        end
      end
    | _ => Ill
    end
  | None, None, None => Fail
  end.
Fixpoint eval (σ : state) (e : expr) {struct e} : R val :=
  match e with
  | Number z => Ok (Leaf z)
  | ArrayInLine l =>
    vs <- rmap (fun e => v <- eval σ e; value v) l;
    _ <- require (forallb (fun v => forallb (same_depth v) vs) vs);
    Ok (Node vs)
  | UniformArray e n => v <- eval σ e; v <- value v; n <- eval σ n; n <- number n; array n v
  | InfixOp o l r => l <- eval σ l; l <- number l; r <- eval σ r; r <- number r; z <- or_fail (den2 o l r); Ok (Leaf z)
  | PrefixOp o e => v <- eval σ e; z <- number v; z <- or_fail (den1 o z); Ok (Leaf z)
  | ParallelOp e => v <- eval σ e; instance v
  | InlineSwitch c t f => v <- eval σ c; z <- number v; if (z =? 0)%Z then eval σ f else eval σ t
  | VariableOf x idx field =>
    is <- rmap (fun e => v <- eval σ e; number v) idx;
    field <- match field with
      | None => Ok None
      | Some (f, l) => js <- rmap (fun e => v <- eval σ e; number v) l; Ok (Some (f, js))
      end;
    read σ x is field
  | Call f es => vs <- rmap (fun e => v <- eval σ e; value v) es; run f vs
  end.

(** ** Statements *)
(** assigning: variables, signals, components *)
Definition assign (σ : state) (x : string) (idx : list Z) (field : option (string * list Z)) (o : assign_op) (v : val)
  : R state :=
  match get (vars σ) x, signals σ !! x, comps σ !! x with
  | Some old, _, _ =>
    match field, o with
    | None, AssignVar => w <- update old idx (overlay v); Ok (State (put (vars σ) x w) (signals σ) (comps σ))
    | _, _ => Ill
    end
  | None, Some old, _ =>
    match field, o with
    | None, AssignSignal | None, AssignConstraintSignal =>
      w <- update old idx (overlay v); Ok (State (vars σ) (<[x := w]> (signals σ)) (comps σ))
    | _, _ => Ill
    end
  | None, None, Some old =>
    w <- match field, o with
      | None, AssignVar =>
        v <- instance v; w <- update old idx (instantiate v); _ <- require (one_template w); Ok w
      | Some (f, js), AssignSignal | Some (f, js), AssignConstraintSignal =>
        update old idx (fun c =>
          match c with
          | Empty => Fail
          | Inst t sigs =>
            match assoc f sigs with
            | Some old => w <- update old js (overlay v); Ok (Inst t (assoc_set f w sigs))
            | None => match templates P !! t with Some D => if has_wire D f then Fail else Ill | None => Ill end
            end
          | _ => Ill
          end)
      | _, _ => Ill
      end;
    Ok (State (vars σ) (signals σ) (<[x := w]> (comps σ)))
  | None, None, None => Fail
  end.
(** functions declare variables only *)
Definition declare_value (σ : state) (k : kind) (x : string) (ns : list Z) : R state :=
  match k with
  | KVar =>
    v <- fill (fun _ => Leaf 0) ns;
    match vars σ with [] => Fail | b :: bs => Ok (State (<[x := v]> b :: bs) (signals σ) (comps σ)) end
  | KSignal _ =>
    _ <- require inside;
    v <- fill (fun p => Leaf (sv here args x p)) ns;
    Ok (State (vars σ) (<[x := v]> (signals σ)) (comps σ))
  | KComponent _ =>
    _ <- require inside;
    v <- fill (fun _ => Empty) ns;
    Ok (State (vars σ) (signals σ) (<[x := v]> (comps σ)))
  end.
(** [Some v]: a function has returned *)
Definition outcome : Type := state * option val.
Definition sequence (f : state -> stmt -> R outcome) : state -> list stmt -> R outcome :=
  fix go σ l := match l with
  | [] => Ok (σ, None)
  | s :: l => '(σ, r) <- f σ s; match r with None => go σ l | Some v => Ok (σ, Some v) end
  end.
(** at most [n] times *)
Fixpoint loop (n : nat) (c : state -> R Z) (f : state -> R outcome) (σ : state) : R outcome :=
  match n with
  | O => OutOfFuel
  | S n =>
    z <- c σ;
    if (z =? 0)%Z then Ok (σ, None)
    else '(σ, r) <- f σ; match r with None => loop n c f σ | Some v => Ok (σ, Some v) end
  end.
Definition close (o : outcome) : outcome := (State (tail (vars o.1)) (signals o.1) (comps o.1), o.2).
Fixpoint exec (n : nat) (σ : state) (s : stmt) {struct s} : R outcome :=
  match s with
  | IfThenElse c t f =>
    v <- eval σ c; z <- number v;
    if (z =? 0)%Z then match f with Some f => exec n σ f | None => Ok (σ, None) end else exec n σ t
  | While c s => loop n (fun σ => v <- eval σ c; number v) (fun σ => exec n σ s) σ
  | Return e => _ <- require (negb inside); v <- eval σ e; v <- value v; Ok (σ, Some v)
  | InitializationBlock _ l => sequence (exec n) σ l
  | Declaration k x ds => ns <- rmap (fun e => v <- eval σ e; number v) ds; σ <- declare_value σ k x ns; Ok (σ, None)
  | Substitution x idx field o e =>
    v <- eval σ e;
    is <- rmap (fun e => v <- eval σ e; number v) idx;
    field <- match field with
      | None => Ok None
      | Some (f, l) => js <- rmap (fun e => v <- eval σ e; number v) l; Ok (Some (f, js))
      end;
    σ <- assign σ x is field o v;
    Ok (σ, None)
  | UnderscoreSubstitution o e => v <- eval σ e; _ <- value v; Ok (σ, None)
  | ConstraintEquality l r =>
    _ <- require inside;
    v <- eval σ l; v <- value v; w <- eval σ r; w <- value w;
    _ <- require (same_depth v w);
    Ok (σ, None)
  | LogCall es => _ <- rmap (fun e => v <- eval σ e; number v) es; Ok (σ, None)
  | Block l => o <- sequence (exec n) (State (∅ :: vars σ) (signals σ) (comps σ)) l; Ok (close o)
  | Assert e => v <- eval σ e; z <- number v; if (z =? 0)%Z then Fail else Ok (σ, None)
  end.
End calls.

(** ** Calls *)
(** the inputs and outputs of an instance *)
Definition wires_of (D : def) (σ : state) : list (string * val) :=
  filter (fun '(f, _) => has_wire D f = true) (map_to_list (signals σ)).
(** [n] bounds the depth of calls and the iterations of each loop; functions call functions only *)
Fixpoint run (n : nat) (inside : bool) (f : string) (vs : list val) : R val :=
  match n with
  | O => OutOfFuel
  | S n =>
    match functions P !! f with
    | Some D =>
      _ <- require (length vs =? length (params D));
      '(_, r) <- sequence (exec false f vs (run n false) n) (State [bind_values (params D) vs] ∅ ∅) (body D);
      match r with Some v => Ok v | None => Fail end
    | None =>
      match templates P !! f with
      | Some D =>
        _ <- require inside;
        _ <- require (length vs =? length (params D));
        '(σ, _) <- sequence (exec true f vs (run n true) n) (State [bind_values (params D) vs] ∅ ∅) (body D);
        Ok (Inst f (wires_of D σ))
      | None => Ill
      end
    end
  end.
(** the main component: an instance of a template *)
Definition run_program (n : nat) : R val :=
  v <- eval (run n true) (State [∅] ∅ ∅) (main P); instance v.
End program.

(** ** Conditions *)
(** the branches of conditionals and the bodies of loops are not declarations: the grammar has declarations
    in blocks only *)
Definition no_declaration (s : stmt) : bool :=
  match s with Declaration _ _ _ | InitializationBlock _ _ => false | _ => true end.
Fixpoint parsed (s : stmt) : bool :=
  match s with
  | IfThenElse _ t f =>
    parsed t && no_declaration t && match f with Some f => parsed f && no_declaration f | None => true end
  | While _ s => parsed s && no_declaration s
  | InitializationBlock _ l | Block l => forallb parsed l
  | _ => true
  end.
(** two declarations of the same name: both of variables, both of signals with as many dimensions, or both of
    arrays of components of the same template with as many dimensions *)
Definition compatible (a b : kind * string * nat) : Prop :=
  a.1.2 = b.1.2 ->
  match a.1.1, b.1.1 with
  | KVar, KVar => True
  | KSignal _, KSignal _ => a.2 = b.2
  | KComponent (Some t), KComponent (Some u) => t = u /\ a.2 = b.2
  | _, _ => False
  end.
(** names are not used for different things in one template or function (C67), and the template of every
    component is known from an instantiation *)
Definition consistent (D : def) : Prop :=
  forallb parsed (body D) = true /\
  forall a b, a ∈ all_declarations D -> b ∈ all_declarations D -> compatible a b.
(** no function and template have the same name: the parser refuses them
    (program_structure/src/program_library/program_merger.rs:30-100) *)
Definition consistent_program (P : program) : Prop :=
  (forall f D, functions P !! f = Some D -> consistent D /\ templates P !! f = None) /\
  (forall t D, templates P !! t = Some D -> consistent D).
