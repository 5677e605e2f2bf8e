(** What an element of the run-time library stands for, independently of how the library computes. *)
From Coq Require Import ZArith.
From Verif Require Import FrModel.
Open Scope Z_scope.

(** the number of 64-bit words of the prime and the Montgomery radix *)
Definition words (p : Z) : Z := (Z.log2 p + 1 + 63) / 64.
Definition radix (p : Z) : Z := 2 ^ (64 * words p).

(** [represents p e x]: the element [e] stands for the member [x] of the field.  A short element is a 32-bit integer
    with sign, a long one a number below the prime; the Montgomery form of [x] is [x * radix] modulo [p].  A short
    Montgomery element has both. *)
Definition represents (p : Z) (e : fr) (x : Z) : Prop :=
  0 <= x < p /\
  match f_type e with
  | SHORT => - 2 ^ 31 <= f_short e < 2 ^ 31 /\ x = f_short e mod p
  | SHORTMONTGOMERY => - 2 ^ 31 <= f_short e < 2 ^ 31 /\ x = f_short e mod p /\ f_long e = (x * radix p) mod p
  | LONG => f_long e = x
  | LONGMONTGOMERY => f_long e = (x * radix p) mod p
  end.

(** [yields p m r m' x]: going from [m] to [m'] the operation leaves [x] in [r] and touches nothing else *)
Definition yields (p : Z) (m : memory) (r : addr) (m' : memory) (x : Z) : Prop :=
  represents p (m' r) x /\ forall c, c <> r -> m' c = m c.

(** The primes the library is sound for: odd, more than 62 bits (and less than 2^31), and not in the topmost part of
    their last word *)
Definition usable (p : Z) : Prop :=
  Z.odd p = true /\ 2 ^ 62 < p /\ Z.log2 p < 2 ^ 31 /\ p * (2 ^ 64 + 1) <= radix p * 2 ^ 64.
