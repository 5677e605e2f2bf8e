(** Model of code_producers/src/c_elements/goldilocks/fr.hpp: the field library of the C++ witness calculator
    for the prime of 64 bits.  An element is a [uint64_t]: a number below 2^64. *)
From Coq Require Import ZArith List Bool.
From Verif Require Import ModArithModel.
Import ListNotations.
Open Scope Z_scope.

(** fr.hpp:10-13 [Fr_prime], [Fr_half] *)
Definition gold : Z := 18446744069414584321.
Definition half : Z := 9223372034707292160.
(** [uint64_t] arithmetic *)
Definition u64 (x : Z) : Z := x mod 2 ^ 64.
(** conversions to [uint32_t] and [int] *)
Definition u32 (x : Z) : Z := x mod 2 ^ 32.
Definition to_i32 (x : Z) : Z := let y := x mod 2 ^ 32 in if y <? 2 ^ 31 then y else y - 2 ^ 32.

(** fr.hpp:25-28 [Fr_toInt]; [None]: negating the smallest [int] overflows *)
Definition g_to_int (a : Z) : option Z :=
  if half <? a then let i := to_i32 (u64 (gold - a)) in if i =? - 2 ^ 31 then None else Some (- i) else Some (to_i32 a).
(** fr.hpp:43-55 [Fr_add] *)
Definition g_add (a b : Z) : Z :=
  if a <=? half then
    if half <? b then let bn := u64 (gold - b) in if bn <=? a then u64 (a - bn) else u64 (a + b) else u64 (a + b)
  else
    let an := u64 (gold - a) in if b <? an then u64 (a + b) else u64 (b - an).
(** fr.hpp:57-59 [Fr_sub] *)
Definition g_sub (a b : Z) : Z := if b <=? a then u64 (a - b) else u64 (gold - u64 (b - a)).
(** fr.hpp:64-88 [Fr_mul] *)
Definition g_mul (a b : Z) : Z :=
  let a0 := u32 a in
  let a1 := Z.shiftr a 32 in
  let b0 := u32 b in
  let b1 := Z.shiftr b 32 in
  let a0b0 := u64 (a0 * b0) in
  let a0b1 := u64 (a0 * b1) in
  let a1b0 := u64 (a1 * b0) in
  let a1b1 := u64 (a1 * b1) in
  let res32 := g_add (g_add a1b1 a1b0) a0b1 in
  let res0 := g_sub a0b0 a1b1 in
  let res32_0 := u32 res32 in
  let res32_1 := Z.shiftr res32 32 in
  let res32_1_aux := u64 (Z.shiftl res32_1 32) in
  let res32_0 := u64 (Z.shiftl res32_0 32) in
  let aux := g_sub (g_add res32_1_aux res32_0) res32_1 in
  g_add aux res0.
(** fr.hpp:90-112 [Fr_inv]: [mpz_invert] is the inverse of ModArithModel; [junk]: what it leaves in the result if there is none *)
Definition g_inv (junk : Z) (a : Z) : Z :=
  let a0 := u32 a in
  let a1 := u32 (Z.shiftr a 32) in
  let ma := a1 * 2 ^ 32 + a0 in
  let mr := match mod_inverse ma gold with Some i => i | None => junk end in
  u64 (u64 (Z.shiftl (u32 (Z.shiftr mr 32)) 32) + u32 mr).
(** fr.hpp:114-117 [Fr_div] *)
Definition g_div (junk a b : Z) : Z := g_mul a (g_inv junk b).
(** fr.hpp:119-125 [Fr_idiv], [Fr_mod]; [None]: the processor stops at a division by zero *)
Definition g_idiv (a b : Z) : option Z := if b =? 0 then None else Some (a / b).
Definition g_mod (a b : Z) : option Z := if b =? 0 then None else Some (a mod b).
(** fr.hpp:127-141 [Fr_pow]; [None]: more iterations than [fuel] *)
Fixpoint g_pow_loop (fuel : nat) (p ao bo : Z) : option Z :=
  match fuel with
  | O => None
  | S fuel =>
    if 0 <? bo then
      if bo mod 2 =? 0 then g_pow_loop fuel p (g_mul ao ao) (bo / 2) else g_pow_loop fuel (g_mul p ao) ao (bo - 1)
    else Some p
  end.
Definition g_pow (fuel : nat) (a b : Z) : option Z := g_pow_loop fuel 1 a b.
(** fr.hpp:145-150, 169-175 [Fr_shl], [Fr_shr], mutually recursive; [None]: more calls than [fuel] *)
Fixpoint g_shift (fuel : nat) (left_dir : bool) (a b : Z) : option Z :=
  match fuel with
  | O => None
  | S fuel =>
    if half <? b then g_shift fuel (negb left_dir) a (u64 (gold - b))
    else if 64 <=? b then Some 0
    else if left_dir then let s := u64 (Z.shiftl a b) in Some (if s <? gold then s else u64 (s - gold))
    else Some (Z.shiftr a b)
  end.
Definition g_shl (fuel : nat) (a b : Z) : option Z := g_shift fuel true a b.
Definition g_shr (fuel : nat) (a b : Z) : option Z := g_shift fuel false a b.
(** fr.hpp:177-215 [Fr_leq], [Fr_geq], [Fr_lt], [Fr_gt] *)
Definition g_leq (a b : Z) : Z :=
  if a <=? half then if b <=? half then Z.b2z (a <=? b) else 0 else if b <=? half then 1 else Z.b2z (a <=? b).
Definition g_geq (a b : Z) : Z :=
  if a <=? half then if b <=? half then Z.b2z (b <=? a) else 1 else if b <=? half then 0 else Z.b2z (b <=? a).
Definition g_lt (a b : Z) : Z :=
  if a <=? half then if b <=? half then Z.b2z (a <? b) else 0 else if b <=? half then 1 else Z.b2z (a <? b).
Definition g_gt (a b : Z) : Z :=
  if a <=? half then if b <=? half then Z.b2z (b <? a) else 1 else if b <=? half then 0 else Z.b2z (b <? a).
(** fr.hpp:217-230 [Fr_eq], [Fr_neq] and [Fr_eq] of [n] elements *)
Definition g_eq (a b : Z) : Z := Z.b2z (a =? b).
Fixpoint g_eq_n (a b : list Z) (n : nat) : Z :=
  match n, a, b with
  | S n, x :: a, y :: b => if x =? y then g_eq_n a b n else 0
  | _, _, _ => 1
  end.
Definition g_neq (a b : Z) : Z := Z.b2z (negb (a =? b)).
(** fr.hpp:232-238 [Fr_lor], [Fr_land] *)
Definition g_lor (a b : Z) : Z := if (a =? 0) && (b =? 0) then 0 else 1.
Definition g_land (a b : Z) : Z := if (a =? 0) || (b =? 0) then 0 else 1.
(** fr.hpp:240-252 [Fr_bor], [Fr_band], [Fr_bxor] *)
Definition g_bor (a b : Z) : Z := let bor := Z.lor a b in if bor <? gold then bor else u64 (bor - gold).
Definition g_band (a b : Z) : Z := Z.land a b.
Definition g_bxor (a b : Z) : Z := let bxor := Z.lxor a b in if bxor <? gold then bxor else u64 (bxor - gold).
(** fr.hpp:254-270 [Fr_neg], [Fr_lnot], [Fr_isTrue], [Fr_bnot] *)
Definition g_neg (a : Z) : Z := if a =? 0 then a else u64 (gold - a).
Definition g_lnot (a : Z) : Z := if a =? 0 then 1 else 0.
Definition g_is_true (a : Z) : Z := if a =? 0 then 0 else 1.
Definition g_bnot (a : Z) : Z := let bnot := 2 ^ 64 - 1 - a in if bnot <? gold then bnot else u64 (bnot - gold).
(** common64/main.cpp:137-146 [str2u64], for a text that denotes the integer [v]: [mpz_fdiv_r] *)
Definition g_of_integer (v : Z) : Z := u64 (v mod gold).
(** common64/main.cpp:247-265 [loadBinary]: an input is copied from the file as it is *)
Definition g_of_binary (v : Z) : Z := v.
