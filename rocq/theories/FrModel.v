(** Model of the run-time field library generated for the C++ calculator without assembly
    (code_producers/src/c_elements/generic/fr.cpp, lines 1-2915) and of its parameters
    (code_producers/src/c_elements/c_code_generator.rs:1076-1150 [generate_fr_cpp_file]).
    - A [FrRawElement], [Fr_N64] words of 64 bits, is the number it stands for, below [2^(64 n)].  The functions
      of GMP ([mpn_*], [mpz_*]) are what its manual says.
    - Elements are in a memory, so that a result may be written over an operand.  The objects of a
      function are values; what they contain before they are written is [junk].
    - [None] is a failed assertion, a division by zero inside of GMP or the undefined result of [mpz_invert]. *)
From Coq Require Import ZArith List Bool.
From Verif Require Import ModArithModel.
Import ListNotations.
Open Scope Z_scope.

(** generic/fr.hpp:16-20: the four types; no other one is ever stored *)
Inductive ftype : Type := SHORT | SHORTMONTGOMERY | LONG | LONGMONTGOMERY.
(** [type & Fr_LONG] *)
Definition is_long (t : ftype) : bool := match t with LONG | LONGMONTGOMERY => true | _ => false end.
(** [type & Fr_MONTGOMERY] *)
Definition is_mont (t : ftype) : bool := match t with SHORTMONTGOMERY | LONGMONTGOMERY => true | _ => false end.
Definition is_longmont (t : ftype) : bool := match t with LONGMONTGOMERY => true | _ => false end.
(** generic/fr.hpp:24-28 [FrElement] *)
Record fr : Type := Fr { f_short : Z; f_type : ftype; f_long : Z }.

(** ** Parameters *)
(** [n64] is the number of words, [cannot] the flag [cannotOptimize], [lbo] the mask of the last word *)
Record params : Type := Params { q : Z; n64 : nat; np : Z; r2 : Z; r3 : Z; half : Z; lbo : Z; qbits : Z; cannot : bool }.
Definition B : Z := 2 ^ 64.
(** c_code_generator.rs:1085-1129 [generate_fr_cpp_file]; no inverse is the failed [unwrap] *)
Definition fr_params (p : Z) : option params :=
  let pbits := bits p in
  match mod_inverse p B with
  | None => None
  | Some inv =>
      let n := (pbits + 63) / 64 in
      let nbits := n * 64 in
      Some (Params p (Z.to_nat n) (B - inv) ((2 ^ (nbits * 2)) mod p) ((2 ^ (nbits * 3)) mod p) (p / 2)
                   (B / 2 ^ (nbits - pbits) - 1) pbits (2 ^ 63 - 2 <? p / 2 ^ ((n - 1) * 64)))
  end.

Section fr.
Context (P : params) (junk : fr).
(** the number of values of an [n]-word and of an [n+1]-word object *)
Definition W : Z := B ^ Z.of_nat (n64 P).
Definition W1 : Z := W * B.

(** ** Raw elements *)
(** fr.cpp:19-27 [Fr_rawAdd]: [mpn_add_n] with its carry, one subtraction of q *)
Definition raw_add (a b : Z) : Z :=
  let carry := (a + b) / W in
  let r := (a + b) mod W in
  if negb (carry =? 0) || (q P <=? r) then (r - q P) mod W else r.
(** fr.cpp:29-37 [Fr_rawAddLS]; [rawB] is one word *)
Definition raw_add_ls (a b : Z) : Z :=
  let carry := (a + b) / W in
  let r := (a + b) mod W in
  if negb (carry =? 0) || (q P <=? r) then (r - q P) mod W else r.
(** fr.cpp:39-47 [Fr_rawSub] *)
Definition raw_sub (a b : Z) : Z :=
  let r := (a - b) mod W in
  if a <? b then (r + q P) mod W else r.
(** fr.cpp:49-52 [Fr_rawSubRegular] *)
Definition raw_sub_regular (a b : Z) : Z := (a - b) mod W.
(** fr.cpp:54-64 [Fr_rawSubSL] *)
Definition raw_sub_sl (a b : Z) : Z :=
  let r := (a - b) mod W in
  if a <? b then (r + q P) mod W else r.
(** fr.cpp:66-74 [Fr_rawSubLS] *)
Definition raw_sub_ls (a b : Z) : Z :=
  let r := (a - b) mod W in
  if a <? b then (r + q P) mod W else r.
(** fr.cpp:76-86 [Fr_rawNeg] *)
Definition raw_neg (a : Z) : Z := if negb (a =? 0) then (q P - a) mod W else 0.
(** fr.cpp:89-98 [Fr_rawNegLS] *)
Definition raw_neg_ls (a b : Z) : Z :=
  let carry1 := q P <? b in
  let r := (q P - b) mod W in
  let carry2 := r <? a in
  let r := (r - a) mod W in
  if carry1 || carry2 then (r + q P) mod W else r.

(** [mpn_addmul_1] on [m] words ([Wm = 2^(64 m)]): the words and the carry *)
Definition addmul_1 (Wm r u v : Z) : Z * Z := ((r + u * v) mod Wm, (r + u * v) / Wm).
(** the word [i] of a raw element *)
Definition word (a : Z) (i : nat) : Z := (a / B ^ Z.of_nat i) mod B.
(** [np0 = Fr_np * product[0]] on 64 bits *)
Definition np0 (product : Z) : Z := (np P * (product mod B)) mod B.
(** fr.cpp:147-163, 192-208, 238-254: the end of [Fr_rawMMul], [Fr_rawMMul1] and [Fr_rawFromMontgomery]; [c] is the carry so far *)
Definition raw_reduce (product c : Z) : Z :=
  let '(product, carry) := addmul_1 W1 product (q P) (np0 product) in
  let r := product / B in
  if cannot P then
    let c := (c + carry) mod B in
    if negb (c =? 0) || (q P <=? r) then (r - q P) mod W else r
  else if q P <=? r then (r - q P) mod W else r.
(** fr.cpp:123-146: the steps of [Fr_rawMMul]; [product] is [product{i}], the words [n+1].  In the branch
    [cannotOptimize] the carry of [mpn_add] is stored in the last word of the product after the next one,
    which the next step overwrites, except for the last step where it is kept in [c]. *)
Fixpoint mmul_steps (steps : nat) (i : nat) (a b product c : Z) : Z * Z :=
  match steps with
  | O => (product, c)
  | S steps =>
      let '(product, carry) := addmul_1 W1 product (q P) (np0 product) in
      let '(low, carry2) := addmul_1 W 0 b (word a (S i)) in
      let top := if cannot P then (carry + carry2) mod B else carry2 in
      let sum := low + W * top + product / B in
      mmul_steps steps (S i) a b (sum mod W1) (sum / W1)
  end.
(** fr.cpp:110-164 [Fr_rawMMul] *)
Definition raw_mmul (a b : Z) : Z :=
  let '(low, carry) := ((b * word a 0) mod W, (b * word a 0) / W) in
  let '(product, c) := mmul_steps (n64 P - 1) 0 a b (low + W * carry) 0 in
  raw_reduce product (if cannot P then c else 0).
(** fr.cpp:166-169 [Fr_rawMSquare] *)
Definition raw_msquare (a : Z) : Z := raw_mmul a a.
(** fr.cpp:183-191, 229-237: without [cannotOptimize] the carry goes to the word 1 *)
Fixpoint redc_steps (steps : nat) (product : Z) : Z :=
  match steps with
  | O => product
  | S steps =>
      let '(product, carry) := addmul_1 W1 product (q P) (np0 product) in
      let next := if cannot P then W * carry else B * carry in
      redc_steps steps ((next + product / B) mod W1)
  end.
(** fr.cpp:171-209 [Fr_rawMMul1]; [b] is one word *)
Definition raw_mmul1 (a b : Z) : Z :=
  let '(low, carry) := ((a * b) mod W, (a * b) / W) in
  raw_reduce (redc_steps (n64 P - 1) (low + W * carry)) 0.
(** fr.cpp:211-214 [Fr_rawToMontgomery] *)
Definition raw_to_montgomery (a : Z) : Z := raw_mmul a (r2 P).
(** fr.cpp:216-255 [Fr_rawFromMontgomery] *)
Definition raw_from_montgomery (a : Z) : Z := raw_reduce (redc_steps (n64 P - 1) a) 0.
(** fr.cpp:277-291 [Fr_rawCopyS2L]; [val] has 64 bits with sign *)
Definition raw_copy_s2l (v : Z) : Z := if v <? 0 then (v mod W + q P) mod W else v.

(** fr.cpp:297-302, 309-314, 321-326, 343-348, 370-375: [pRawResult[n64-1] &= lboMask] and the subtraction of q *)
Definition mask_reduce (r : Z) : Z :=
  let high := B ^ Z.of_nat (n64 P - 1) in
  let r := r mod high + high * Z.land (r / high) (lbo P) in
  if q P <=? r then (r - q P) mod W else r.
(** fr.cpp:293-327 [Fr_rawAnd], [Fr_rawOr], [Fr_rawXor] *)
Definition raw_and (a b : Z) : Z := mask_reduce (Z.land a b).
Definition raw_or (a b : Z) : Z := mask_reduce (Z.lor a b).
Definition raw_xor (a b : Z) : Z := mask_reduce (Z.lxor a b).
(** fr.cpp:329-349 [Fr_rawShl] *)
Definition raw_shl (a b : Z) : Z :=
  let bit_shift := b mod 64 in
  let word_shift := b / 64 in
  let word_count := Z.of_nat (n64 P) - word_shift in
  let r := (a mod B ^ word_count) * B ^ word_shift in
  let r := if negb (bit_shift =? 0) then (r * 2 ^ bit_shift) mod W else r in
  mask_reduce r.
(** fr.cpp:351-364 [Fr_rawShr] *)
Definition raw_shr (a b : Z) : Z :=
  let bit_shift := b mod 64 in
  let word_shift := b / 64 in
  let r := a / B ^ word_shift in
  if negb (bit_shift =? 0) then r / 2 ^ bit_shift else r.
(** fr.cpp:366-376 [Fr_rawNot] *)
Definition raw_not (a : Z) : Z := mask_reduce (W - 1 - a).

(** ** Elements *)
Definition set_short (e : fr) (v : Z) : fr := Fr v (f_type e) (f_long e).
Definition set_type (e : fr) (t : ftype) : fr := Fr (f_short e) t (f_long e).
Definition set_long (e : fr) (v : Z) : fr := Fr (f_short e) (f_type e) v.
(** the conversion to [int32_t] *)
Definition int32 (v : Z) : Z := (v + 2 ^ 31) mod 2 ^ 32 - 2 ^ 31.

(** In the following three the result [r] is another object than the operand. *)
(** fr.cpp:384-395 [Fr_toNormal] *)
Definition to_normal (r a : fr) : fr :=
  if is_longmont (f_type a) then Fr (f_short r) LONG (raw_from_montgomery (f_long a)) else a.
(** fr.cpp:639-659 [Fr_toLongNormal] *)
Definition to_long_normal (r a : fr) : fr :=
  if is_long (f_type a) then
    if is_mont (f_type a) then Fr (f_short r) LONG (raw_from_montgomery (f_long a)) else a
  else Fr 0 LONG (raw_copy_s2l (f_short a)).
(** fr.cpp:661-689 [Fr_toMontgomery] *)
Definition to_montgomery (r a : fr) : fr :=
  if is_mont (f_type a) then a
  else if is_long (f_type a) then Fr (f_short a) LONGMONTGOMERY (raw_mmul (f_long a) (r2 P))
  else if f_short a <? 0 then Fr (f_short r) SHORTMONTGOMERY (raw_neg (raw_mmul1 (r2 P) (- f_short a)))
  else Fr (f_short r) SHORTMONTGOMERY (raw_mmul1 (r2 P) (f_short a)).

(** ** The memory *)
(** [Tmp] is the address of the object [tmp] of [Fr_div]. *)
Inductive addr : Type := Mem (i : nat) | Tmp.
Definition addr_eqb (x y : addr) : bool := match x, y with Mem i, Mem j => Nat.eqb i j | Tmp, Tmp => true | _, _ => false end.
Definition memory : Type := addr -> fr.
Definition store (m : memory) (r : addr) (e : fr) : memory := fun x => if addr_eqb x r then e else m x.
Definition store_short (m : memory) (r : addr) (v : Z) : memory := store m r (set_short (m r) v).
Definition store_type (m : memory) (r : addr) (t : ftype) : memory := store m r (set_type (m r) t).
Definition store_long (m : memory) (r : addr) (v : Z) : memory := store m r (set_long (m r) v).
(** [r->shortVal = v; r->type = Fr_SHORT], in any order *)
Definition store_bool (m : memory) (r : addr) (v : bool) : memory := store_type (store_short m r (Z.b2z v)) r SHORT.

(** ** Multiplication *)
(** fr.cpp:397-407 [has_mul32_overflow] *)
Definition has_mul32_overflow (v : Z) : bool :=
  let sign := Z.shiftr v 31 in
  negb ((if negb (sign =? 0) then Z.lnot sign else sign) =? 0).
Definition store_long_product (m : memory) (r : addr) (v : Z) : memory :=
  store_short (store_type (store_long m r (raw_copy_s2l v)) r LONG) r 0.
(** fr.cpp:409-439 [mul_s1s2] *)
Definition mul_s1s2 (m : memory) (r a b : addr) : memory :=
  let result := f_short (m a) * f_short (m b) in
  if has_mul32_overflow result then store_long_product m r result
  else
    let m := store_short m r (int32 result) in
    let m := store_type m r SHORT in
    store_long_product m r result.
(** fr.cpp:441-447 [mul_l1nl2n] *)
Definition mul_l1nl2n (m : memory) (r a b : addr) : memory :=
  let m := store_type m r LONGMONTGOMERY in
  let m := store_long m r (raw_mmul (f_long (m a)) (f_long (m b))) in
  store_long m r (raw_mmul (f_long (m r)) (r3 P)).
(** fr.cpp:449-453, 461-465, 535-539, 553-557: [mul_l1nl2m], [mul_l1ml2n], [mul_l1ns2m], [mul_s1ml2n] *)
Definition mul_to_long (m : memory) (r a b : addr) : memory :=
  let m := store_type m r LONG in
  store_long m r (raw_mmul (f_long (m a)) (f_long (m b))).
(** fr.cpp:455-459, 541-551: [mul_l1ml2m], [mul_l1ms2m], [mul_s1ml2m] *)
Definition mul_to_mont (m : memory) (r a b : addr) : memory :=
  let m := store_type m r LONGMONTGOMERY in
  store_long m r (raw_mmul (f_long (m a)) (f_long (m b))).
(** fr.cpp:467-483, 485-501: [mul_l1ns2n], and [mul_s1nl2n] with the operands exchanged *)
Definition mul_l1ns2n (m : memory) (r a b : addr) : memory :=
  let m := store_type m r LONGMONTGOMERY in
  let m :=
    if f_short (m b) <? 0 then
      let m := store_long m r (raw_mmul1 (f_long (m a)) (- f_short (m b))) in
      store_long m r (raw_neg (f_long (m r)))
    else store_long m r (raw_mmul1 (f_long (m a)) (f_short (m b))) in
  store_long m r (raw_mmul (f_long (m r)) (r3 P)).
(** fr.cpp:503-517, 519-533: [mul_l1ms2n], and [mul_s1nl2m] with the operands exchanged *)
Definition mul_l1ms2n (m : memory) (r a b : addr) : memory :=
  let m := store_type m r LONG in
  if f_short (m b) <? 0 then
    let m := store_long m r (raw_mmul1 (f_long (m a)) (- f_short (m b))) in
    store_long m r (raw_neg (f_long (m r)))
  else store_long m r (raw_mmul1 (f_long (m a)) (f_short (m b))).
(** fr.cpp:559-637 [Fr_mul] *)
Definition fr_mul (m : memory) (r a b : addr) : memory :=
  let ta := f_type (m a) in
  let tb := f_type (m b) in
  if is_long ta then
    if is_long tb then
      if is_mont ta then (if is_mont tb then mul_to_mont m r a b else mul_to_long m r a b)
      else (if is_mont tb then mul_to_long m r a b else mul_l1nl2n m r a b)
    else if is_mont ta then (if is_mont tb then mul_to_mont m r a b else mul_l1ms2n m r a b)
    else (if is_mont tb then mul_to_long m r a b else mul_l1ns2n m r a b)
  else if is_long tb then
    if is_mont ta then (if is_mont tb then mul_to_mont m r a b else mul_to_long m r a b)
    else (if is_mont tb then mul_l1ms2n m r b a else mul_l1ns2n m r b a)
  else mul_s1s2 m r a b.

(** fr.cpp:2309-2349 [Fr_square] *)
Definition fr_square (m : memory) (r a : addr) : memory :=
  if is_long (f_type (m a)) then
    if is_longmont (f_type (m a)) then
      let m := store_type m r LONGMONTGOMERY in store_long m r (raw_msquare (f_long (m a)))
    else
      let m := store_type m r LONGMONTGOMERY in
      let m := store_long m r (raw_msquare (f_long (m a))) in
      store_long m r (raw_mmul (f_long (m r)) (r3 P))
  else mul_s1s2 m r a a.

(** ** Addition and subtraction *)
(** fr.cpp:696-701 [has_add32_overflow] *)
Definition has_add32_overflow (v : Z) : bool := let signs := Z.land (Z.shiftr v 31) 3 in (signs =? 1) || (signs =? 2).
(** fr.cpp:716-726, 906-916, 1386-1396: the common end of [sub_s1s2], [add_s1s2] and [Fr_neg] *)
Definition store_short_result (m : memory) (r : addr) (v : Z) : memory :=
  if has_add32_overflow v then store_short (store_type (store_long m r (raw_copy_s2l v)) r LONG) r 0
  else store_short (store_type m r SHORT) r (int32 v).
(** fr.cpp:703-727 [sub_s1s2] *)
Definition sub_s1s2 (m : memory) (r a b : addr) : memory := store_short_result m r (f_short (m a) - f_short (m b)).
(** fr.cpp:729-734 [sub_l1nl2n] *)
Definition sub_l1nl2n (m : memory) (r a b : addr) : memory :=
  let m := store_type m r LONG in store_long m r (raw_sub (f_long (m a)) (f_long (m b))).
(** fr.cpp:736-744, 788-796: [sub_l1nl2m], [sub_s1nl2m] *)
Definition sub_am (m : memory) (r a b : addr) : memory :=
  let m := store_type m r LONGMONTGOMERY in
  let a_m := to_montgomery junk (m a) in
  store_long m r (raw_sub (f_long a_m) (f_long (m b))).
(** fr.cpp:746-751, 813-825: [sub_l1ml2m], [sub_l1ms2m], [sub_s1ml2m] *)
Definition sub_l1ml2m (m : memory) (r a b : addr) : memory :=
  let m := store_type m r LONGMONTGOMERY in store_long m r (raw_sub (f_long (m a)) (f_long (m b))).
(** fr.cpp:753-761, 778-786: [sub_l1ml2n], [sub_l1ms2n] *)
Definition sub_bm (m : memory) (r a b : addr) : memory :=
  let m := store_type m r LONGMONTGOMERY in
  let b_m := to_montgomery junk (m b) in
  store_long m r (raw_sub (f_long (m a)) (f_long b_m)).
(** fr.cpp:763-776 [sub_s1l2n] *)
Definition sub_s1l2n (m : memory) (r a b : addr) : memory :=
  let m := store_type m r LONG in
  if 0 <=? f_short (m a) then store_long m r (raw_sub_sl (f_short (m a)) (f_long (m b)))
  else store_long m r (raw_neg_ls (f_long (m b)) (- f_short (m a))).
(** fr.cpp:798-811 [sub_l1ns2] *)
Definition sub_l1ns2 (m : memory) (r a b : addr) : memory :=
  let m := store_type m r LONG in
  if f_short (m b) <? 0 then store_long m r (raw_add_ls (f_long (m a)) (- f_short (m b)))
  else store_long m r (raw_sub_ls (f_long (m a)) (f_short (m b))).
(** fr.cpp:827-891 [Fr_sub] *)
Definition fr_sub (m : memory) (r a b : addr) : memory :=
  let ta := f_type (m a) in
  let tb := f_type (m b) in
  if is_long ta then
    if is_long tb then
      if is_mont ta then (if is_mont tb then sub_l1ml2m m r a b else sub_bm m r a b)
      else (if is_mont tb then sub_am m r a b else sub_l1nl2n m r a b)
    else if is_mont ta then (if is_mont tb then sub_l1ml2m m r a b else sub_bm m r a b)
    else sub_l1ns2 m r a b
  else if is_long tb then
    if is_mont tb then (if is_mont ta then sub_l1ml2m m r a b else sub_am m r a b)
    else sub_s1l2n m r a b
  else sub_s1s2 m r a b.

(** fr.cpp:893-917 [add_s1s2] *)
Definition add_s1s2 (m : memory) (r a b : addr) : memory := store_short_result m r (f_short (m a) + f_short (m b)).
(** fr.cpp:919-924 [add_l1nl2n] *)
Definition add_l1nl2n (m : memory) (r a b : addr) : memory :=
  let m := store_type m r LONG in store_long m r (raw_add (f_long (m a)) (f_long (m b))).
(** fr.cpp:926-934, 978-986: [add_l1nl2m], [add_s1nl2m] *)
Definition add_am (m : memory) (r a b : addr) : memory :=
  let m := store_type m r LONGMONTGOMERY in
  let a_m := to_montgomery junk (m a) in
  store_long m r (raw_add (f_long a_m) (f_long (m b))).
(** fr.cpp:936-940, 1003-1015: [add_l1ml2m], [add_l1ms2m], [add_s1ml2m] *)
Definition add_l1ml2m (m : memory) (r a b : addr) : memory :=
  let m := store_type m r LONGMONTGOMERY in store_long m r (raw_add (f_long (m a)) (f_long (m b))).
(** fr.cpp:942-950, 967-976: [add_l1ml2n], [add_l1ms2n] *)
Definition add_bm (m : memory) (r a b : addr) : memory :=
  let m := store_type m r LONGMONTGOMERY in
  let b_m := to_montgomery junk (m b) in
  store_long m r (raw_add (f_long (m a)) (f_long b_m)).
(** fr.cpp:952-965, 988-1001: [add_s1l2n] and, with the operands exchanged, [add_l1ns2] *)
Definition add_s1l2n (m : memory) (r a b : addr) : memory :=
  let m := store_type m r LONG in
  if 0 <=? f_short (m a) then store_long m r (raw_add_ls (f_long (m b)) (f_short (m a)))
  else store_long m r (raw_sub_ls (f_long (m b)) (- f_short (m a))).
(** fr.cpp:1017-1084 [Fr_add] *)
Definition fr_add (m : memory) (r a b : addr) : memory :=
  let ta := f_type (m a) in
  let tb := f_type (m b) in
  if is_long ta then
    if is_long tb then
      if is_mont ta then (if is_mont tb then add_l1ml2m m r a b else add_bm m r a b)
      else (if is_mont tb then add_am m r a b else add_l1nl2n m r a b)
    else if is_mont ta then (if is_mont tb then add_l1ml2m m r a b else add_bm m r a b)
    else add_s1l2n m r b a
  else if is_long tb then
    if is_mont tb then (if is_mont ta then add_l1ml2m m r a b else add_am m r a b)
    else add_s1l2n m r a b
  else add_s1s2 m r a b.
(** fr.cpp:1365-1398 [Fr_neg] *)
Definition fr_neg (m : memory) (r a : addr) : memory :=
  if is_long (f_type (m a)) then
    let m := store_type m r (f_type (m a)) in
    let m := store_short m r (f_short (m a)) in
    store_long m r (raw_neg (f_long (m a)))
  else store_short_result m r (- f_short (m a)).

(** ** Comparisons *)
(** fr.cpp:1086-1100 [Fr_isTrue] *)
Definition fr_is_true (e : fr) : bool := if is_long (f_type e) then negb (f_long e =? 0) else negb (f_short e =? 0).
(** fr.cpp:1102-1121 [Fr_longNeg] *)
Definition int64 (v : Z) : Z := (v + 2 ^ 63) mod 2 ^ 64 - 2 ^ 63.
Definition fr_long_neg (e : fr) : option Z :=
  if q P <=? f_long e then None
  else
    let result := int64 (f_long e mod B - q P mod B) in
    if negb (Z.shiftr result 31 + 1 =? 0) then None else Some (int32 result).
(** fr.cpp:1123-1143 [Fr_longNormal] *)
Definition fr_long_normal (e : fr) : option Z :=
  let result := f_long e mod B in
  if negb (Z.shiftr result 31 =? 0) then fr_long_neg e
  else if negb (f_long e / B =? 0) then fr_long_neg e
  else Some (int32 result).
(** fr.cpp:1146-1170 [Fr_toInt] *)
Definition fr_to_int (e : fr) : option Z :=
  if is_long (f_type e) then
    if is_mont (f_type e) then fr_long_normal (to_normal junk e) else fr_long_normal e
  else Some (f_short e).
(** fr.cpp:1172-1218: [rlt_s1s2], [rltL1L2] and its helpers *)
Definition rlt_l1l2 (a b : Z) : bool :=
  if half P <? a then (if half P <? b then a <? b else true)
  else (if half P <? b then false else a <? b).
(** fr.cpp:1220-1348 [Fr_rlt]: long operands are brought to the normal form, short ones to the
    long normal form if the other one is long *)
Definition normal_long (e : fr) : Z :=
  if is_long (f_type e) then (if is_mont (f_type e) then f_long (to_normal junk e) else f_long e) else f_long (to_long_normal junk e).
Definition fr_rlt (a b : fr) : bool :=
  if is_long (f_type a) || is_long (f_type b) then rlt_l1l2 (normal_long a) (normal_long b) else f_short a <? f_short b.
(** fr.cpp:1350-1363 [Fr_lt], [Fr_geq] *)
Definition fr_lt (m : memory) (r a b : addr) : memory := store_bool m r (fr_rlt (m a) (m b)).
Definition fr_geq (m : memory) (r a b : addr) : memory := store_bool m r (negb (fr_rlt (m a) (m b))).
(** fr.cpp:1588-1627 [rgtL1L2] and its helpers, 1583-1586, 1629-1753 [Fr_rgt] *)
Definition rgt_l1l2 (a b : Z) : bool :=
  if half P <? a then (if half P <? b then b <? a else false)
  else (if half P <? b then true else b <? a).
Definition fr_rgt (a b : fr) : bool :=
  if is_long (f_type a) || is_long (f_type b) then rgt_l1l2 (normal_long a) (normal_long b) else f_short b <? f_short a.
(** fr.cpp:1755-1768 [Fr_gt], [Fr_leq] *)
Definition fr_gt (m : memory) (r a b : addr) : memory := store_bool m r (fr_rgt (m a) (m b)).
Definition fr_leq (m : memory) (r a b : addr) : memory := store_bool m r (negb (fr_rgt (m a) (m b))).
(** fr.cpp:1400-1523 [Fr_req] and its cases: both operands in the Montgomery form if a long one is *)
Definition fr_req (a b : fr) : bool :=
  if is_long (f_type a) then
    if is_long (f_type b) then
      if is_mont (f_type a) then (if is_mont (f_type b) then f_long b =? f_long a else f_long (to_montgomery junk b) =? f_long a)
      else (if is_mont (f_type b) then f_long b =? f_long (to_montgomery junk a) else f_long b =? f_long a)
    else if is_mont (f_type a) then f_long (to_montgomery junk b) =? f_long a
    else f_long (to_long_normal junk b) =? f_long a
  else if is_long (f_type b) then
    if is_mont (f_type b) then f_long b =? f_long (to_montgomery junk a) else f_long b =? f_long (to_long_normal junk a)
  else f_short a =? f_short b.
(** fr.cpp:1525-1537 [Fr_eq], [Fr_neq] *)
Definition fr_eq (m : memory) (r a b : addr) : memory := store_bool m r (fr_req (m a) (m b)).
Definition fr_neq (m : memory) (r a b : addr) : memory := store_bool m r (negb (fr_req (m a) (m b))).
(** fr.cpp:1540-1580 [Fr_lor], [Fr_lnot], 1771-1797 [Fr_land] *)
Definition fr_lor (m : memory) (r a b : addr) : memory := store_bool m r (fr_is_true (m a) || fr_is_true (m b)).
Definition fr_land (m : memory) (r a b : addr) : memory := store_bool m r (fr_is_true (m a) && fr_is_true (m b)).
Definition fr_lnot (m : memory) (r a : addr) : memory := store_bool m r (negb (fr_is_true (m a))).

(** ** Bits *)
(** fr.cpp:1799-1988 [and_*], [Fr_band]; 2351-2539 [or_*], [Fr_bor]; 2541-2728 [xor_*], [Fr_bxor].  [short_op] is
    the operation on [int32_t], [raw_op] on raw elements.  The type of the result is set before the operands
    are read a second time.  Beside a long operand a short one that is not negative becomes
    [{0, 0, {shortVal}}]. *)
Definition fr_bits (short_op raw_op : Z -> Z -> Z) (m : memory) (r a b : addr) : memory :=
  if negb (is_long (f_type (m a))) && negb (is_long (f_type (m b))) && (0 <=? f_short (m a)) && (0 <=? f_short (m b)) then
    store_type (store_short m r (short_op (f_short (m a)) (f_short (m b)))) r SHORT
  else
    let ta := f_type (m a) in
    let tb := f_type (m b) in
    let m := store_type m r LONG in
    (* the case is chosen by the types found before the store *)
    let operand (t : ftype) (e : fr) : Z :=
      if is_long t then (if is_mont t then f_long (to_normal junk e) else f_long e)
      else if negb (is_long ta) && negb (is_long tb) then f_long (to_long_normal junk e)
      else if 0 <=? f_short e then f_short e else f_long (to_long_normal junk e) in
    store_long m r (raw_op (operand ta (m a)) (operand tb (m b))).
Definition fr_band (m : memory) (r a b : addr) : memory := fr_bits Z.land raw_and m r a b.
Definition fr_bor (m : memory) (r a b : addr) : memory := fr_bits Z.lor raw_or m r a b.
Definition fr_bxor (m : memory) (r a b : addr) : memory := fr_bits Z.lxor raw_xor m r a b.
(** fr.cpp:2730-2755 [Fr_bnot]; the type of [a] is read after the store *)
Definition fr_bnot (m : memory) (r a : addr) : memory :=
  let m := store_type m r LONG in
  match f_type (m a) with
  | LONG => store_long m r (raw_not (f_long (m a)))
  | _ => store_long m r (raw_not (f_long (to_long_normal junk (m a))))
  end.

(** ** Shifts *)
(** fr.cpp:1990-2027 [rawShl], [rawShr] *)
Definition raw_shl_any (a b : Z) : Z := if b =? 0 then a else if qbits P <=? b then 0 else raw_shl a b.
Definition raw_shr_any (a b : Z) : Z := if b =? 0 then a else if qbits P <=? b then 0 else raw_shr a b.
(** fr.cpp:2029-2033 [Fr_setzero] *)
Definition set_zero (m : memory) (r : addr) : memory := store_short (store_type m r SHORT) r 0.
(** fr.cpp:2035-2042 [do_shlcl] *)
Definition do_shlcl (m : memory) (r a : addr) (b : Z) : memory :=
  let a_long := to_long_normal junk (m a) in
  store_long (store_type m r LONG) r (raw_shl_any (f_long a_long) b).
(** fr.cpp:2044-2099 [do_shlln], [do_shl] *)
Definition do_shl (m : memory) (r a : addr) (b : Z) : memory :=
  if is_long (f_type (m a)) then
    if is_longmont (f_type (m a)) then
      let a_long := to_normal junk (m a) in
      store_long (store_type m r LONG) r (raw_shl_any (f_long a_long) b)
    else let m := store_type m r LONG in store_long m r (raw_shl_any (f_long (m a)) b)
  else
    let a_short := f_short (m a) in
    if a_short =? 0 then set_zero m r
    else if a_short <? 0 then do_shlcl m r a b
    else if 31 <=? b then do_shlcl m r a b
    else
      let a_short := Z.shiftl a_short b in
      if negb (Z.shiftr a_short 31 =? 0) then do_shlcl m r a b
      else store_short (store_type m r SHORT) r (int32 a_short).
(** fr.cpp:2101-2120 [do_shrln], [do_shrl]; [e] is the object pointed to by [a] *)
Definition do_shrl (m : memory) (r : addr) (e : fr) (b : Z) : memory :=
  if is_longmont (f_type e) then store_long (store_type m r LONG) r (raw_shr_any (f_long (to_normal junk e)) b)
  else store_long (store_type m r LONG) r (raw_shr_any (f_long e) b).
(** fr.cpp:2122-2155 [do_shr] *)
Definition do_shr (m : memory) (r a : addr) (b : Z) : memory :=
  if is_long (f_type (m a)) then do_shrl m r (m a) b
  else
    let a_short := f_short (m a) in
    if a_short =? 0 then set_zero m r
    else if a_short <? 0 then do_shrl m r (to_long_normal junk (m a)) b
    else if 31 <=? b then set_zero m r
    else store_type (store_short m r (int32 (Z.shiftr a_short b))) r SHORT.
(** fr.cpp:2157-2231 [Fr_shr] and 2233-2307 [Fr_shl]: [same] is the direction asked for, [other] the opposite one *)
Definition fr_shift (same other : memory -> addr -> addr -> Z -> memory) (m : memory) (r a b : addr) : memory :=
  if is_long (f_type (m b)) then
    let b_long := f_long (if is_longmont (f_type (m b)) then to_normal junk (m b) else m b) in
    if qbits P <=? b_long then
      let s := raw_sub_regular (q P) b_long in
      if qbits P <=? s then set_zero m r else other m r a (s mod B)
    else same m r a (b_long mod B)
  else
    let b_short := f_short (m b) in
    if b_short <? 0 then
      (if qbits P <=? - b_short then set_zero m r else other m r a (- b_short))
    else if qbits P <=? b_short then set_zero m r
    else same m r a b_short.
Definition fr_shl (m : memory) (r a b : addr) : memory := fr_shift do_shl do_shr m r a b.
Definition fr_shr (m : memory) (r a b : addr) : memory := fr_shift do_shr do_shl m r a b.

(** ** Operations of GMP *)
(** fr.cpp:2766-2777 [Fr_toMpz] *)
Definition to_mpz (e : fr) : Z :=
  let tmp := to_normal junk e in
  if negb (is_long (f_type tmp)) then (if f_short tmp <? 0 then f_short tmp + q P else f_short tmp)
  else f_long tmp.
(** fr.cpp:2779-2788 [Fr_fromMpz] *)
Definition from_mpz (m : memory) (r : addr) (v : Z) : memory :=
  if (- 2 ^ 31 <=? v) && (v <? 2 ^ 31) then store_short (store_type m r SHORT) r v
  else store_long (store_type m r LONG) r v.
(** fr.cpp:2805-2811 [Fr_str2element] after the conversion of the string *)
Definition fr_of_integer (m : memory) (r : addr) (v : Z) : memory := from_mpz m r (v mod q P).
(** fr.cpp:2813-2833 [Fr_element2str]: the number that is printed *)
Definition fr_to_integer (e : fr) : Z :=
  if negb (is_long (f_type e)) then (if 0 <=? f_short e then f_short e else f_short e + q P)
  else f_long (to_normal junk e).
(** fr.cpp:2835-2857 [Fr_idiv] *)
Definition fr_idiv (m : memory) (r a b : addr) : option memory :=
  let mb := to_mpz (m b) in
  if mb =? 0 then None else Some (from_mpz m r (to_mpz (m a) / mb)).
(** fr.cpp:2859-2875 [Fr_mod] *)
Definition fr_mod (m : memory) (r a b : addr) : option memory :=
  let mb := to_mpz (m b) in
  if mb =? 0 then None else Some (from_mpz m r (to_mpz (m a) mod mb)).
(** fr.cpp:2877-2893 [Fr_pow] *)
Definition fr_pow (m : memory) (r a b : addr) : memory := from_mpz m r ((to_mpz (m a) ^ to_mpz (m b)) mod q P).
(** fr.cpp:2895-2906 [Fr_inv]; the inverse of GMP is the one in [0, q) *)
Definition fr_inv (m : memory) (r a : addr) : option memory :=
  match mod_inverse (to_mpz (m a)) (q P) with
  | None => None
  | Some i => Some (from_mpz m r i)
  end.
(** fr.cpp:2908-2912 [Fr_div] *)
Definition fr_div (m : memory) (r a b : addr) : option memory :=
  match fr_inv (store m Tmp junk) Tmp b with
  | None => None
  | Some m' => Some (store (fr_mul m' r a Tmp) Tmp (m Tmp)) (* the end of the life of [tmp] *)
  end.
End fr.
