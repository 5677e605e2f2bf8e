(** Semantics of symbolic expressions and constraints, independent of the code:
    an assignment gives every signal an integer; key 0 stands for the constant 1. *)
From stdpp Require Import prelude gmap fin_maps.
From Coq Require Import ZArith.
From Verif Require Import ModArithModel AlgebraModel.
Open Scope Z_scope.

Definition assignment := nat -> Z.
(** value of a key *)
Definition sv (r : assignment) (k : nat) : Z := match k with O => 1 | _ => r k end.
(** value of a linear expression: the sum of coefficient * signal over its entries *)
Definition leval (r : assignment) (m : lin) : Z :=
  foldr Z.add 0 ((fun kv => kv.2 * sv r kv.1) <$> map_to_list m).
(** congruence modulo p *)
Definition cong (p x y : Z) : Prop := x mod p = y mod p.
Notation "x =[ p ]= y" := (cong p x y) (at level 70, p at level 0, format "x  =[ p ]=  y").

(** value of an expression ([None] for non-quadratic ones) *)
Definition aval (r : assignment) (e : aexpr) : option Z :=
  match e with
  | Number v => Some v
  | Signal s => Some (sv r s)
  | Linear m => Some (leval r m)
  | Quadratic a b c => Some (leval r a * leval r b + leval r c)
  | NonQuadratic => None
  end.

(** an assignment satisfies A*B - C = 0 in the field *)
Definition holds (p : Z) (r : assignment) (c : constraint) : Prop :=
  leval r (c_a c) * leval r (c_b c) - leval r (c_c c) =[p]= 0.
(** an assignment satisfies a substitution read as an equation *)
Definition sub_holds (p : Z) (r : assignment) (s : substitution) : Prop :=
  sv r (s_from s) =[p]= leval r (s_to s).

(** every coefficient is a canonical field element *)
Definition canon (p : Z) (m : lin) : Prop := map_Forall (fun _ v => 0 <= v < p) m.
Definition nonzero (m : lin) : Prop := map_Forall (fun _ v => v <> 0) m.
Definition canon_c (p : Z) (c : constraint) : Prop := canon p (c_a c) /\ canon p (c_b c) /\ canon p (c_c c).
Definition nonzero_c (c : constraint) : Prop := nonzero (c_a c) /\ nonzero (c_b c) /\ nonzero (c_c c).
(** the invariant the code comments demand: the constant key is present *)
Definition has_cc (m : lin) : Prop := is_Some (m !! 0%nat).
Definition wf_expr (e : aexpr) : Prop :=
  match e with
  | Linear m => has_cc m
  | Quadratic a b c => has_cc a /\ has_cc b /\ has_cc c
  | _ => True
  end.
Definition canon_expr (p : Z) (e : aexpr) : Prop :=
  match e with
  | Number v => 0 <= v < p
  | Linear m => canon p m
  | Quadratic a b c => canon p a /\ canon p b /\ canon p c
  | _ => True
  end.
(** signals of an expression or constraint (the constant excluded) *)
Definition in_lin (s : nat) (m : lin) : Prop := s <> 0%nat /\ is_Some (m !! s).
Definition in_c (s : nat) (c : constraint) : Prop := in_lin s (c_a c) \/ in_lin s (c_b c) \/ in_lin s (c_c c).
Definition in_expr (k : nat) (e : aexpr) : Prop :=
  match e with
  | Signal x => k = x
  | Linear m => in_lin k m
  | Quadratic a b c => in_lin k a \/ in_lin k b \/ in_lin k c
  | _ => False
  end.

(** ** Field semantics of whole expressions.  Everything below is on canonical representatives
    in [0,p). *)
(** the representative in [-(p-1)/2, (p-1)/2] of a canonical value *)
Definition centre (p a : Z) : Z := if a <=? p / 2 then a else a - p.
Definition b2z (b : bool) : Z := if b then 1 else 0.
Definition nz (a : Z) : bool := negb (a =? 0).
Definition shl (p a k : Z) : Z := ((a * 2 ^ k) mod 2 ^ (Z.log2 p + 1)) mod p.
Definition shr (a k : Z) : Z := a / 2 ^ k.
(** [infix_den p op a b x]: x is the value of [a op b] *)
Definition infix_den (p : Z) (op : infix_op) (a b x : Z) : Prop :=
  0 <= x < p /\
  match op with
  | Mul => x = (a * b) mod p
  | Div => b <> 0 /\ (x * b) mod p = a
  | Add => x = (a + b) mod p
  | Sub => x = (a - b) mod p
  | Pow => x = (a ^ b) mod p
  | IntDiv => b <> 0 /\ x = a / b
  | Mod => b <> 0 /\ x = a mod b
  | ShiftL => x = if b <=? p / 2 then shl p a b else shr a (p - b)
  | ShiftR => x = if b <=? p / 2 then shr a b else shl p a (p - b)
  | LesserEq => x = b2z (centre p a <=? centre p b)
  | GreaterEq => x = b2z (centre p b <=? centre p a)
  | Lesser => x = b2z (centre p a <? centre p b)
  | Greater => x = b2z (centre p b <? centre p a)
  | Eq => x = b2z (a =? b)
  | NotEq => x = b2z (negb (a =? b))
  | BoolOr => x = b2z (nz a || nz b)
  | BoolAnd => x = b2z (nz a && nz b)
  | BitOr => x = Z.lor a b mod p
  | BitAnd => x = Z.land a b
  | BitXor => x = Z.lxor a b mod p
  end.
Definition prefix_den (p : Z) (op : prefix_op) (a x : Z) : Prop :=
  0 <= x < p /\
  match op with
  | PSub => x = (- a) mod p
  | BoolNot => x = b2z (negb (nz a))
  | Complement => x = (2 ^ (Z.log2 p + 1) - 1 - a) mod p
  end.
Fixpoint den (p : Z) (r : assignment) (t : tree) (x : Z) : Prop :=
  match t with
  | TNum v => x = v mod p
  | TSig s => x = sv r s mod p
  | TInfix op t1 t2 => exists a b, den p r t1 a /\ den p r t2 b /\ infix_den p op a b x
  | TPrefix op t => exists a, den p r t a /\ prefix_den p op a x
  end.
(** literals below the prime *)
Fixpoint reduced_literals (p : Z) (t : tree) : Prop :=
  match t with
  | TNum v => 0 <= v < p
  | TSig _ => True
  | TInfix _ t1 t2 => reduced_literals p t1 /\ reduced_literals p t2
  | TPrefix _ t => reduced_literals p t
  end.
Fixpoint no_remainder (t : tree) : Prop :=
  match t with
  | TNum _ | TSig _ => True
  | TInfix op t1 t2 => op <> Mod /\ no_remainder t1 /\ no_remainder t2
  | TPrefix _ t => no_remainder t
  end.
