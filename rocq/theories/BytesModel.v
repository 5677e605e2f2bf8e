(** Byte strings and the num-bigint-dig conversions used by the writers.  A byte is a [Z] in
    [0,256).  num-bigint-dig is an external crate: these definitions follow its documentation
    (trusted base). *)
From stdpp Require Import prelude.
From Coq Require Import ZArith.
From Verif Require Import ModArithModel.
Open Scope Z_scope.

Notation bytes := (list Z).
(** little-endian digits of a natural number, no leading zeros; one digit for 0..255 *)
Fixpoint digits (fuel : nat) (x : Z) : bytes :=
  match fuel with
  | O => [x mod 256]
  | S f => if x <? 256 then [x] else x mod 256 :: digits f (x / 256)
  end.
(** [BigInt::to_bytes_le] (magnitude part; [0] for zero) *)
Definition to_bytes_le (x : Z) : bytes := digits (Z.to_nat (Z.log2 (Z.abs x))) (Z.abs x).
(** [BigInt::from_bytes_le(Sign::Plus, _)] *)
Fixpoint from_bytes_le (b : bytes) : Z :=
  match b with
  | [] => 0
  | d :: b => d + 256 * from_bytes_le b
  end.
(** [n] little-endian digits of x modulo 256^n *)
Fixpoint le_bytes (n : nat) (x : Z) : bytes :=
  match n with
  | O => []
  | S n => x mod 256 :: le_bytes n (x / 256)
  end.

(** [BigInt::to_signed_bytes_le]: the shortest two's complement *)
Definition signed_len (x : Z) : nat := Z.to_nat (bits (if x <? 0 then - x - 1 else x) / 8 + 1).
Definition to_signed_bytes_le (x : Z) : bytes := le_bytes (signed_len x) x.
(** [BigInt::from_signed_bytes_le] *)
Definition from_signed_bytes_le (b : bytes) : Z :=
  match last b with
  | None => 0
  | Some d => if 127 <? d then from_bytes_le b - 256 ^ Z.of_nat (length b) else from_bytes_le b
  end.
