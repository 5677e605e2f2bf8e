(** What the code of a template means, independently of the compiler: the values of expressions, the
    effect of statements and the observable events of a run. *)
From stdpp Require Import prelude gmap list.
From Coq Require Import ZArith.
From Verif Require Import ModArithModel AlgebraModel AlgebraSpec SymModel.
Open Scope Z_scope.

(** Events in the order in which they happen: a signal receives a value; two values are required to
    be equal, by [<==] (flag [true]) or by [===] (flag [false]); values are logged; a condition is
    asserted. *)
Inductive event :=
| EvSet (k : nat) (v : Z)
| EvEq (own : bool) (l r : Z)
| EvLog (vs : list Z)
| EvAssert (ok : bool).

(** Where signals come from: how they are read and what an assignment does. *)
Record mode := Mode {
  st : Type;
  rd : st -> nat -> Z -> Prop;
  wr : st -> nat -> Z -> st -> Prop }.

(** Every signal has a value from the start (an assignment [φ], wire [k] at key [S k]). *)
Definition given (p : Z) (φ : assignment) : mode :=
  Mode unit (fun _ k v => v = φ (S k) mod p) (fun _ _ _ _ => True).
(** Signals are computed: each is assigned once, and read only after that. *)
Definition computing : mode :=
  Mode (gmap nat Z) (fun σ k v => σ !! k = Some v)
       (fun σ k v σ' => σ !! k = None /\ σ' = <[k := v]> σ).

Section Sem.
Context (p : Z) (wire : nat -> list Z -> option nat) (F : funs) (M : mode).

Fixpoint ev_all (E : expr -> Z -> list event -> Prop) (l : list expr) (vs : list Z) (tr : list event) : Prop :=
  match l with
  | [] => vs = [] /\ tr = []
  | e :: r => exists v ws t1 t2, E e v t1 /\ ev_all E r ws t2 /\ vs = v :: ws /\ tr = t1 ++ t2
  end.

(** a sequence of statements, left at the first return *)
Fixpoint run_seq (R : env Z -> st M -> stmt -> list event -> option Z -> env Z -> st M -> Prop)
  (E : env Z) (σ : st M) (l : list stmt) (tr : list event) (r : option Z) (E' : env Z) (σ' : st M) : Prop :=
  match l with
  | [] => tr = [] /\ r = None /\ E' = E /\ σ' = σ
  | s :: l =>
      exists t1 r1 E1 σ1, R E σ s t1 r1 E1 σ1 /\
        match r1 with
        | Some v => tr = t1 /\ r = Some v /\ E' = E1 /\ σ' = σ1
        | None => exists t2, run_seq R E1 σ1 l t2 r E' σ' /\ tr = t1 ++ t2
        end
  end.

(** [ev n E σ e v tr]: the expression has the value [v] and causes the events [tr] (of the functions
    it calls).  [run n E σ s tr r E' σ']: the statement causes the events [tr], returns [r] (if it
    returns) and leaves the variables [E'] and the signals [σ'].  [n] bounds the depth of the
    derivation. *)
Fixpoint ev (n : nat) (E : env Z) (σ : st M) (e : expr) (v : Z) (tr : list event) : Prop :=
  match n with
  | O => False
  | S n =>
      match e with
      | ENum _ z => v = z mod p /\ tr = []
      | EVar _ x idx => exists is c, ev_all (ev n E σ) idx is tr /\ get x E = Some c /\ c !! is = Some v
      | ESig _ s idx => exists is k, ev_all (ev n E σ) idx is tr /\ wire s is = Some k /\ rd M σ k v
      | EInfix _ op l r => exists x y t1 t2,
          ev n E σ l x t1 /\ ev n E σ r y t2 /\ infix_den p op x y v /\ tr = t1 ++ t2
      | EPrefix _ op e => exists x, ev n E σ e x tr /\ prefix_den p op x v
      | ESwitch _ c t f => exists b t1 t2,
          ev n E σ c b t1 /\ ev n E σ (if b =? 0 then f else t) v t2 /\ tr = t1 ++ t2
      | ECall _ f args => exists xs body vs t1 t2 E',
          F f = Some (xs, body) /\ ev_all (ev n E σ) args vs t1 /\ length xs = length vs /\
          run_seq (run n) (bind_args xs vs) σ body t2 (Some v) E' σ /\ tr = t1 ++ t2
      end
  end
with run (n : nat) (E : env Z) (σ : st M) (s : stmt) (tr : list event) (r : option Z) (E' : env Z) (σ' : st M) : Prop :=
  match n with
  | O => False
  | S n =>
      match s with
      | SInit _ l => run_seq (run n) E σ l tr r E' σ'
      | SDecl _ x dims => exists ds, ev_all (ev n E σ) dims ds tr /\
          declare x (full ds 0) E = Some E' /\ r = None /\ σ' = σ
      | SAssign _ x idx e => exists is v c t1 t2,
          ev_all (ev n E σ) idx is t1 /\ ev n E σ e v t2 /\ get x E = Some c /\ is_Some (c !! is) /\
          E' = put x (<[is := v]> c) E /\ tr = t1 ++ t2 /\ r = None /\ σ' = σ
      | SFill _ x dims e => exists ds v c t1 t2,
          ev_all (ev n E σ) dims ds t1 /\ ev n E σ e v t2 /\ get x E = Some c /\ dom c = dom (full ds v) /\
          E' = put x (full ds v) E /\ tr = t1 ++ t2 /\ r = None /\ σ' = σ
      | SSignal _ eq s idx e => exists is v k t1 t2,
          ev_all (ev n E σ) idx is t1 /\ ev n E σ e v t2 /\ wire s is = Some k /\ wr M σ k v σ' /\
          E' = E /\ r = None /\
          if eq then exists l, rd M σ' k l /\ tr = t1 ++ t2 ++ [EvSet k v; EvEq true l v]
          else tr = t1 ++ t2 ++ [EvSet k v]
      | SEqual _ l r0 => exists x y t1 t2,
          ev n E σ l x t1 /\ ev n E σ r0 y t2 /\ tr = t1 ++ t2 ++ [EvEq false x y] /\
          r = None /\ E' = E /\ σ' = σ
      | SIf _ c t f => exists b t1 t2, ev n E σ c b t1 /\ tr = t1 ++ t2 /\
          if b =? 0 then
            match f with
            | Some f => run n E σ f t2 r E' σ'
            | None => t2 = [] /\ r = None /\ E' = E /\ σ' = σ
            end
          else run n E σ t t2 r E' σ'
      | SWhile id c b => exists v t1 t2, ev n E σ c v t1 /\ tr = t1 ++ t2 /\
          if v =? 0 then t2 = [] /\ r = None /\ E' = E /\ σ' = σ
          else exists t3 r1 E1 σ1, run n E σ b t3 r1 E1 σ1 /\
            match r1 with
            | Some x => t2 = t3 /\ r = Some x /\ E' = E1 /\ σ' = σ1
            | None => exists t4, run n E1 σ1 (SWhile id c b) t4 r E' σ' /\ t2 = t3 ++ t4
            end
      | SBlock _ l => exists E1, run_seq (run n) (∅ :: E) σ l tr r E1 σ' /\ E' = tail E1
      | SReturn _ e => exists v, ev n E σ e v tr /\ r = Some v /\ E' = E /\ σ' = σ
      | SAssert _ e => exists v t, ev n E σ e v t /\ tr = t ++ [EvAssert (negb (v =? 0))] /\
          r = None /\ E' = E /\ σ' = σ
      | SLog _ es => exists vs t, ev_all (ev n E σ) es vs t /\ tr = t ++ [EvLog vs] /\
          r = None /\ E' = E /\ σ' = σ
      end
  end.

(** A run of a template instance with the given values of the parameters. *)
Definition runs (xs : list nat) (vs : list Z) (body : list stmt) (σ : st M) (tr : list event)
  (r : option Z) (E' : env Z) (σ' : st M) : Prop :=
  exists n, run_seq (run n) (bind_args xs vs) σ body tr r E' σ'.
End Sem.

(** The pairs of values that a run requires to be equal, in order. *)
Definition equations (tr : list event) : list (Z * Z) :=
  omap (fun e => match e with EvEq _ l r => Some (l, r) | _ => None end) tr.
(** Those of [===] alone. *)
Definition checks (tr : list event) : list (Z * Z) :=
  omap (fun e => match e with EvEq false l r => Some (l, r) | _ => None end) tr.

(** ** Conditions on the code *)
Fixpoint all_expr (P : expr -> bool) (e : expr) : bool :=
  P e &&
  match e with
  | ENum _ _ => true
  | EVar _ _ l | ESig _ _ l | ECall _ _ l => forallb (all_expr P) l
  | EInfix _ _ a b => all_expr P a && all_expr P b
  | EPrefix _ _ a => all_expr P a
  | ESwitch _ a b c => all_expr P a && all_expr P b && all_expr P c
  end.
(** [P] of every statement and [Q] of every expression in it *)
Fixpoint all_stmt (P : stmt -> bool) (Q : expr -> bool) (s : stmt) : bool :=
  P s &&
  match s with
  | SInit _ l | SBlock _ l => forallb (all_stmt P Q) l
  | SDecl _ _ l | SLog _ l => forallb (all_expr Q) l
  | SAssign _ _ l e | SFill _ _ l e | SSignal _ _ _ l e => forallb (all_expr Q) l && all_expr Q e
  | SEqual _ a b => all_expr Q a && all_expr Q b
  | SIf _ c a b => all_expr Q c && all_stmt P Q a && match b with Some b => all_stmt P Q b | None => true end
  | SWhile _ c b => all_expr Q c && all_stmt P Q b
  | SReturn _ e | SAssert _ e => all_expr Q e
  end.

Definition simple (s : stmt) : bool :=
  match s with SDecl _ _ _ | SAssign _ _ _ _ | SFill _ _ _ _ | SSignal _ _ _ _ _ => true | _ => false end.
Definition declares (s : stmt) : bool :=
  match s with SDecl _ _ _ | SInit _ _ => true | _ => false end.
(** What the grammar guarantees: the branches of a condition and the body of a loop are not
    declarations (lang.lalrpop), and an initialization block holds declarations and assignments. *)
Definition shaped (s : stmt) : bool :=
  match s with
  | SInit _ l => forallb simple l
  | SIf _ _ a b => negb (declares a) && match b with Some b => negb (declares b) | None => true end
  | SWhile _ _ b => negb (declares b)
  | _ => true
  end.
(** Literals are field elements (the parser reduces the literals of circom programs except some
    cases, see C08). *)
Definition reduced (p : Z) (e : expr) : bool :=
  match e with ENum _ v => (0 <=? v) && (v <? p) | _ => true end.
Definition well_formed (p : Z) (s : stmt) : bool := all_stmt shaped (reduced p) s.

(** Functions hold no signals (functions_free_of_template_elements.rs). *)
Definition no_signal (s : stmt) : bool :=
  match s with SSignal _ _ _ _ _ | SEqual _ _ _ => false | _ => true end.
(** The code says nothing: no log and no assert. *)
Definition silent (s : stmt) : bool :=
  match s with SLog _ _ | SAssert _ _ => false | _ => true end.
Definition always {A} (_ : A) : bool := true.
(** [P] of the bodies of all functions *)
Definition all_funs (P : stmt -> bool) (F : funs) : Prop :=
  forall f xs body, F f = Some (xs, body) -> forallb P body = true.
Definition good_funs (p : Z) (F : funs) : Prop :=
  all_funs (well_formed p) F /\ all_funs (all_stmt no_signal always) F.
