(** Model of circom_algebra/src/modular_arithmetic.rs (whole file, lines 1-215).
    [BigInt] is [Z].  Rust's [%] and [/] on BigInt truncate towards zero: [Z.rem], [Z.quot].
    [Result<_, ArithmeticError>] is [res]; a panic is the explicit value [Panic]. *)
From Coq Require Import ZArith List Bool.
Import ListNotations.
Open Scope Z_scope.

(** modular_arithmetic.rs:4-7 [ArithmeticError] (BitOverFlowInShift is never produced). *)
Inductive res (A : Type) : Type :=
| Ok (a : A)
| DivisionByZero
| Panic.
Arguments Ok {A} a.
Arguments DivisionByZero {A}.
Arguments Panic {A}.

(** modular_arithmetic.rs:9-11 [modulus]. *)
Definition modulus (a b : Z) : Z := Z.rem (Z.rem a b + b) b.

(** num-bigint-dig [BigInt::bits]: bit length of the magnitude (0 for 0). *)
Definition bits (x : Z) : Z := match x with 0 => 0 | _ => Z.log2 (Z.abs x) + 1 end.

(** modular_arithmetic.rs:14-16 [bit_representation]: sign and little-endian binary digits.
    [to_radix_le(2)] returns the single digit [0] for zero.  The sign is kept by the caller. *)
Fixpoint pos_bits (x : positive) : list bool :=
  match x with
  | xH => [true]
  | xO y => false :: pos_bits y
  | xI y => true :: pos_bits y
  end.
Definition bit_repr (x : Z) : list bool :=
  match x with
  | Z0 => [false]
  | Zpos q => pos_bits q
  | Zneg q => pos_bits q
  end.
(** num-bigint [from_radix_le(_, _, 2)], magnitude. *)
Fixpoint of_bits (l : list bool) : Z :=
  match l with
  | [] => 0
  | b :: r => Z.b2z b + 2 * of_bits r
  end.

(** modular_arithmetic.rs:18-23 [mask]: 2^(number of binary digits of field) - 1. *)
Definition mask (field : Z) : Z := 2 ^ Z.of_nat (length (bit_repr field)) - 1.

(** modular_arithmetic.rs:26-40 [add], [mul], [sub]. *)
Definition add (l r field : Z) : Z := modulus (l + r) field.
Definition mul (l r field : Z) : Z := modulus (l * r) field.
Definition sub (l r field : Z) : Z := modulus (l - r) field.

(** num-bigint-dig [ModInverse::mod_inverse] (external crate): the inverse in [0,m), when
    gcd(a,m) = 1.  Written here as the extended Euclidean algorithm the crate implements;
    invariant: r_i = s_i * a (mod m).  The fuel is a bound on the number of division steps. *)
Fixpoint egcd_loop (fuel : nat) (r0 r1 s0 s1 : Z) : Z * Z :=
  match fuel with
  | O => (r0, s0)
  | S f => if r1 =? 0 then (r0, s0)
           else let q := r0 / r1 in egcd_loop f r1 (r0 - q * r1) s1 (s0 - q * s1)
  end.
Definition egcd_fuel (m : Z) : nat := Z.to_nat (2 * bits m + 2).
Definition mod_inverse (a m : Z) : option Z :=
  let '(g, s) := egcd_loop (egcd_fuel m) m (a mod m) 0 1 in
  if g =? 1 then Some (s mod m) else None.

(** modular_arithmetic.rs:41-47 [div]. *)
Definition div (l r field : Z) : res Z :=
  match mod_inverse r field with
  | None => DivisionByZero
  | Some i => Ok (mul l i field)
  end.

(** modular_arithmetic.rs:48-57 [idiv]. *)
Definition idiv (l r field : Z) : res Z :=
  let l := modulus l field in
  let r := modulus r field in
  if r =? 0 then DivisionByZero else Ok (Z.quot l r).

(** modular_arithmetic.rs:58-62 [mod_op]: [modulus(&left,&right)] divides by [right]
    without a zero test, and BigInt division by zero panics. *)
Definition mod_op (l r field : Z) : res Z :=
  let l := modulus l field in
  let r := modulus r field in
  if r =? 0 then Panic else Ok (modulus l r).

(** num-bigint-dig [BigInt::modpow] (external): panics on a negative exponent and on a zero
    modulus; otherwise base^exp reduced into [0, m) (for m > 0).  Square-and-multiply on the
    bits of the exponent. *)
Fixpoint modpow_pos (b : Z) (e : positive) (m : Z) : Z :=
  match e with
  | xH => b mod m
  | xO e' => let h := modpow_pos b e' m in (h * h) mod m
  | xI e' => let h := modpow_pos b e' m in (((h * h) mod m) * b) mod m
  end.
(** modular_arithmetic.rs:63-65 [pow]. *)
Definition pow (b e field : Z) : res Z :=
  if field =? 0 then Panic else
  match e with
  | Z0 => Ok (1 mod field)
  | Zpos q => Ok (modpow_pos b q field)
  | Zneg _ => Panic
  end.

(** modular_arithmetic.rs:66-69 [prefix_sub]. *)
Definition prefix_sub (e field : Z) : Z := mul e (-1) field.

(** modular_arithmetic.rs:74-79, first loop of [multi_inv]: the vector of prefix products.
    [prefixes acc values] lists the elements pushed after [acc]. *)
Fixpoint prefixes (acc : Z) (values : list Z) (field : Z) : list Z :=
  match values with
  | [] => []
  | v :: vs => let acc' := mul acc v field in acc' :: prefixes acc' vs field
  end.
(** modular_arithmetic.rs:83-89, the backward [while i > 0] loop of [multi_inv];
    [partials] and [outputs] are indexed with a default only where the Rust index is in range. *)
Fixpoint list_set (l : list Z) (i : nat) (v : Z) : list Z :=
  match l, i with
  | [], _ => []
  | _ :: r, O => v :: r
  | x :: r, S j => x :: list_set r j v
  end.
Fixpoint multi_inv_back (i : nat) (partials values outputs : list Z) (inverse field : Z)
  : list Z :=
  match i with
  | O => outputs
  | S j =>
      let outputs := list_set outputs j (mul (nth j partials 0) inverse field) in
      let inverse := mul inverse (nth j values 0) field in
      multi_inv_back j partials values outputs inverse field
  end.
(** modular_arithmetic.rs:71-91 [multi_inv]; [.ok().unwrap()] on a failed division panics. *)
Definition multi_inv (values : list Z) (field : Z) : res (list Z) :=
  let partials := 1 :: prefixes 1 values field in
  match div 1 (nth (length partials - 1) partials 0) field with
  | Ok inverse =>
      Ok (multi_inv_back (length values) partials values
                         (repeat 0 (length partials)) inverse field)
  | _ => Panic
  end.

(** modular_arithmetic.rs:94-109 [complement]: the binary digits, cut or padded with zeros to
    [field.bits()] digits, flipped; [from_radix_le] with [Sign::Minus] negates the magnitude. *)
Definition complement (e field : Z) : Z :=
  let nbits := Z.to_nat (bits field) in
  let br := bit_repr e in
  let br := firstn nbits br ++ repeat false (nbits - length br) in
  let cp := of_bits (map negb br) in
  let cp := if e <? 0 then - cp else cp in
  modulus cp field.

(** num-traits [ToPrimitive::to_usize] on a 64-bit machine. *)
Definition to_usize (x : Z) : option Z := if (0 <=? x) && (x <? 2 ^ 64) then Some x else None.

(** modular_arithmetic.rs:111-136 [shift_l] and [shift_r], mutually recursive.  [left_dir] says
    which of the two is running.  Running out of fuel is [Panic] (a stack overflow in Rust). *)
Fixpoint shift (fuel : nat) (left_dir : bool) (l r field : Z) : res Z :=
  match fuel with
  | O => Panic
  | S f =>
      let top := Z.quot field 2 in
      if r <=? top then
        match to_usize r with
        | None => DivisionByZero
        | Some k =>
            if left_dir then Ok (modulus (Z.land (l * 2 ^ k) (mask field)) field)
            else Ok (Z.quot l (2 ^ k))
        end
      else shift f (negb left_dir) l (field - r) field
  end.
Definition shift_l (fuel : nat) (l r field : Z) : res Z := shift fuel true l r field.
Definition shift_r (fuel : nat) (l r field : Z) : res Z := shift fuel false l r field.

(** modular_arithmetic.rs:137-145 [bit_or], [bit_and], [bit_xor]; BigInt bit operations are
    those of the infinite two's complement representation, as [Z.lor], [Z.land], [Z.lxor]. *)
Definition bit_or (l r field : Z) : Z := modulus (Z.lor l r) field.
Definition bit_and (l r field : Z) : Z := modulus (Z.land l r) field.
Definition bit_xor (l r field : Z) : Z := modulus (Z.lxor l r) field.

(** modular_arithmetic.rs:154-161 [val]. *)
Definition val (e field : Z) : Z :=
  let c := Z.quot field 2 + 1 in
  if (c <=? e) && (e <? field) then e - field else e.
(** modular_arithmetic.rs:162-164 [comparable_element]. *)
Definition comparable_element (e field : Z) : Z := val (modulus e field) field.
(** modular_arithmetic.rs:165-173 [normalize]. *)
Definition normalize (e field : Z) : Z := if comparable_element e field =? 0 then 0 else 1.
(** modular_arithmetic.rs:174-176 [as_bool]. *)
Definition as_bool (e field : Z) : bool := negb (normalize e field =? 0).
(** modular_arithmetic.rs:177-179 [not]. *)
Definition not (e field : Z) : Z := Z.rem (normalize e field + 1) 2.
(** modular_arithmetic.rs:183-185 [bool_and]. *)
Definition bool_and (l r field : Z) : Z := normalize l field * normalize r field.
(** modular_arithmetic.rs:180-182 [bool_or]. *)
Definition bool_or (l r field : Z) : Z :=
  Z.rem (normalize l field + normalize r field + bool_and l r field) 2.
(** modular_arithmetic.rs:186-194 [eq]. *)
Definition eq (l r field : Z) : Z := if modulus l field =? modulus r field then 1 else 0.
(** modular_arithmetic.rs:195-203 [lesser]. *)
Definition lesser (l r field : Z) : Z :=
  if comparable_element l field <? comparable_element r field then 1 else 0.
(** modular_arithmetic.rs:204-206 [not_eq]. *)
Definition not_eq (l r field : Z) : Z := not (eq l r field) field.
(** modular_arithmetic.rs:207-209 [lesser_eq]. *)
Definition lesser_eq (l r field : Z) : Z := bool_or (lesser l r field) (eq l r field) field.
(** modular_arithmetic.rs:210-212 [greater]. *)
Definition greater (l r field : Z) : Z := not (lesser_eq l r field) field.
(** modular_arithmetic.rs:213-215 [greater_eq]. *)
Definition greater_eq (l r field : Z) : Z := bool_or (greater l r field) (eq l r field) field.
