(** Property theorems C01-C07: circom_algebra/src/modular_arithmetic.rs. *)
From Coq Require Import ZArith List Bool Lia Znumtheory.
From Verif Require Import ModArithModel ModArithProofs.
Import ListNotations.
Open Scope Z_scope.

(** Specification vocabulary. [is_rep p x v]: [x] is the canonical representative of [v]. *)
Definition is_rep (p x v : Z) : Prop := 0 <= x < p /\ exists k, v = x + k * p.
(** [centred p c v]: [c] is the representative of [v] in [-(p-1)/2, (p-1)/2]. *)
Definition centred (p c v : Z) : Prop :=
  - ((p - 1) / 2) <= c <= (p - 1) / 2 /\ exists k, v = c + k * p.

Lemma mod_is_rep p v : 0 < p -> is_rep p (v mod p) v.
Proof.
  intros. split; [apply Z.mod_pos_bound; lia|]. exists (v / p).
  pose proof (Z.div_mod v p ltac:(lia)). lia.
Qed.

(** ** C01 *)
Theorem C01_ring_ops_exact : forall p l r, 0 < p ->
  is_rep p (add l r p) (l + r) /\ is_rep p (sub l r p) (l - r) /\
  is_rep p (mul l r p) (l * r) /\ is_rep p (prefix_sub l p) (- l).
Proof.
  intros p l r Hp. rewrite add_mod, sub_mod, mul_mod, prefix_sub_mod by lia.
  repeat split; try (apply mod_is_rep; lia).
  all: try (apply Z.mod_pos_bound; lia).
Qed.
Print Assumptions C01_ring_ops_exact.
Example C01_ring_ops_ex : 0 < 257 /\ add 300 (-1) 257 = 42 /\ sub 0 1 257 = 256.
Proof. vm_compute; auto. Qed.

Theorem C01_division_exact : forall p l r, prime p ->
  (div l r p = DivisionByZero <-> exists k, r = k * p) /\
  (forall q, div l r p = Ok q ->
     0 <= q < p /\ (q * r) mod p = l mod p /\
     forall q', 0 <= q' < p -> (q' * r) mod p = l mod p -> q' = q) /\
  div l r p <> Panic.
Proof.
  intros p l r Hp. pose proof (prime_ge_2 p Hp). destruct (div_spec l r p Hp) as [H0 H1].
  assert (Hdiv : (exists k, r = k * p) <-> r mod p = 0)
    by (rewrite Z.mod_divide by lia; reflexivity).
  rewrite Hdiv. destruct (Z.eq_dec (r mod p) 0) as [E|E].
  - rewrite (H0 E). repeat split; intros; congruence.
  - destruct (H1 E) as (q & Eq & A & B & C). rewrite Eq.
    split; [split; intros; congruence|]. split; [|discriminate].
    intros q0 [= <-]. auto.
Qed.
Print Assumptions C01_division_exact.
Example C01_division_ex : div 1 2 257 = Ok 129 /\ (129 * 2) mod 257 = 1 /\ div 5 257 257 = DivisionByZero.
Proof. vm_compute; auto. Qed.

(** Exponentiation is iterated multiplication (C01, operator [**]). *)
Theorem C01_power_exact : forall p b e, 0 < p -> 0 <= e ->
  exists v, pow b e p = Ok v /\ is_rep p v (b ^ e).
Proof.
  intros p b e Hp He. exists ((b ^ e) mod p). split; [apply pow_spec; lia|apply mod_is_rep; lia].
Qed.
Print Assumptions C01_power_exact.
Example C01_power_ex : pow 3 5 257 = Ok 243 /\ pow (-2) 3 257 = Ok 249.
Proof. vm_compute; auto. Qed.

(** ** C02 *)
Theorem C02_signed_order : forall p l r L R, 2 < p -> Z.odd p = true ->
  centred p L l -> centred p R r ->
  lesser l r p = (if L <? R then 1 else 0) /\
  lesser_eq l r p = (if L <=? R then 1 else 0) /\
  greater l r p = (if L >? R then 1 else 0) /\
  greater_eq l r p = (if L >=? R then 1 else 0) /\
  eq l r p = (if L =? R then 1 else 0) /\
  not_eq l r p = (if L =? R then 0 else 1).
Proof.
  intros p l r L R Hp Ho [HL [kL EL]] [HR [kR ER]].
  assert (L = comparable_element l p) as ->.
  { destruct (comparable_spec l p Hp Ho) as [A B].
    apply (centered_unique _ _ l p Hp Ho); auto.
    apply Z.mod_divide; [lia|]. exists (-kL). lia. }
  assert (R = comparable_element r p) as ->.
  { destruct (comparable_spec r p Hp Ho) as [A B].
    apply (centered_unique _ _ r p Hp Ho); auto.
    apply Z.mod_divide; [lia|]. exists (-kR). lia. }
  destruct (cmp_all l r p Hp Ho) as (A & B & C & D & E & F).
  rewrite A, B, C, D, E, F. rewrite Z.gtb_ltb, Z.geb_leb. unfold b01.
  destruct (comparable_element l p =? comparable_element r p); repeat split.
Qed.
Print Assumptions C02_signed_order.
Example C02_ex : centred 257 (-1) 256 /\ centred 257 128 128 /\ lesser 256 128 257 = 1 /\ lesser 129 128 257 = 1.
Proof.
  split; [|split; [|vm_compute; auto]]; (split; [vm_compute; split; discriminate|]).
  - exists 1; reflexivity.
  - exists 0; reflexivity.
Qed.
(** Every integer has a centred representative, so C02_signed_order applies to all operands. *)
Theorem C02_centred_exists : forall p v, 2 < p -> Z.odd p = true -> exists c, centred p c v.
Proof.
  intros p v Hp Ho. exists (comparable_element v p).
  destruct (comparable_spec v p Hp Ho) as [A B]. split; [exact A|].
  apply Z.mod_divide in B; [|lia]. destruct B as [k Hk]. exists (-k). lia.
Qed.
Print Assumptions C02_centred_exists.
Example C02_centred_ex : 2 < 257 /\ Z.odd 257 = true.
Proof. vm_compute; auto. Qed.

(** ** C03 *)
Theorem C03_boolean_tables : forall p l r, 2 < p ->
  let T v := negb (v mod p =? 0) in
  let num (b : bool) := if b then 1 else 0 in
  not l p = num (negb (T l)) /\ bool_and l r p = num (T l && T r) /\
  bool_or l r p = num (T l || T r) /\ as_bool l p = T l.
Proof.
  intros p l r Hp. cbv zeta. rewrite not_spec, bool_and_spec, bool_or_spec, as_bool_spec by lia.
  rewrite negb_involutive. repeat split.
Qed.
Print Assumptions C03_boolean_tables.
Example C03_ex : bool_or 257 0 257 = 0 /\ bool_or 5 7 257 = 1 /\ bool_and 5 (-257) 257 = 0.
Proof. vm_compute; auto. Qed.

(** ** C04 *)
Theorem C04_quotient_remainder : forall p l r L R, 0 < p -> is_rep p L l -> is_rep p R r ->
  R <> 0 ->
  exists q m, idiv l r p = Ok q /\ mod_op l r p = Ok m /\ L = R * q + m /\ 0 <= m < R /\ 0 <= q < p.
Proof.
  intros p l r L R Hp [HL [kL EL]] [HR [kR ER]] Hz.
  assert (EL' : l mod p = L) by (subst l; rewrite Z.mod_add by lia; apply Z.mod_small; lia).
  assert (ER' : r mod p = R) by (subst r; rewrite Z.mod_add by lia; apply Z.mod_small; lia).
  destruct (idiv_spec l r p Hp) as [_ A]. destruct (mod_op_spec l r p Hp) as [_ B].
  rewrite EL', ER' in A, B. exists (L / R), (L mod R).
  split; [apply A; assumption|]. split; [apply B; assumption|].
  split; [apply Z.div_mod; assumption|]. split; [apply Z.mod_pos_bound; lia|].
  split; [apply Z.div_pos; lia|]. apply Z.div_lt_upper_bound; nia.
Qed.
Print Assumptions C04_quotient_remainder.
Example C04_ex : is_rep 257 256 (-1) /\ is_rep 257 7 7 /\ idiv (-1) 7 257 = Ok 36 /\ mod_op (-1) 7 257 = Ok 4.
Proof. split; [split; [lia|exists (-1); reflexivity]|]. split; [split; [lia|exists 0; reflexivity]|]. vm_compute; auto. Qed.

Theorem C04_quotient_by_zero_is_an_error : forall p l r, 0 < p ->
  (idiv l r p = DivisionByZero <-> (p | r)) /\ idiv l r p <> Panic.
Proof.
  intros p l r Hp. destruct (idiv_spec l r p Hp) as [A B].
  rewrite <- Z.mod_divide by lia.
  destruct (Z.eq_dec (r mod p) 0) as [E|E]; [rewrite (A E)|rewrite (B E)];
    repeat split; intros; congruence.
Qed.
Print Assumptions C04_quotient_by_zero_is_an_error.
Example C04_zero_ex : idiv 5 514 257 = DivisionByZero.
Proof. vm_compute; auto. Qed.

(** The remainder by zero does not report an error: it crashes, for every left operand. *)
Theorem C04_remainder_by_zero_is_an_error_refuted :
  exists p, prime p /\ forall l, mod_op l 0 p = Panic.
Proof.
  exists 2. split; [apply prime_2|]. intros l. destruct (mod_op_spec l 0 2 ltac:(lia)) as [A _].
  apply A; reflexivity.
Qed.
Print Assumptions C04_remainder_by_zero_is_an_error_refuted.
Theorem C04_remainder_crashes_exactly_on_zero : forall p l r, 0 < p ->
  (mod_op l r p = Panic <-> (p | r)).
Proof.
  intros p l r Hp. destruct (mod_op_spec l r p Hp) as [A B]. rewrite <- Z.mod_divide by lia.
  destruct (Z.eq_dec (r mod p) 0) as [E|E]; [rewrite (A E)|rewrite (B E)];
    repeat split; intros; congruence.
Qed.
Print Assumptions C04_remainder_crashes_exactly_on_zero.
Example C04_rem_ex : mod_op 5 257 257 = Panic /\ mod_op 5 3 257 = Ok 2.
Proof. vm_compute; auto. Qed.

(** ** C05 *)
Theorem C05_shifts_exact : forall fuel p l k, (2 <= fuel)%nat -> 0 < p -> 0 <= l < p -> 0 <= k < p ->
  let b := Z.log2 p + 1 in
  let m := if k <=? p / 2 then k else p - k in          (* shift amount *)
  let up l := ((l * 2 ^ m) mod 2 ^ b) mod p in
  let down l := l / 2 ^ m in
  shift_l fuel l k p = (if m <? 2 ^ 64 then Ok (if k <=? p / 2 then up l else down l) else DivisionByZero) /\
  shift_r fuel l k p = (if m <? 2 ^ 64 then Ok (if k <=? p / 2 then down l else up l) else DivisionByZero).
Proof.
  intros fuel p l k Hf Hp Hl Hk. cbv zeta.
  assert (Hbits : Z.log2 p + 1 = bits p) by (unfold bits; destruct p; try lia; rewrite Z.abs_eq by lia; reflexivity).
  rewrite Hbits. destruct fuel as [|[|fuel]]; [lia|lia|]. unfold shift_l, shift_r.
  destruct (Z.leb_spec k (p / 2)) as [Hle|Hgt].
  - destruct (Z.ltb_spec k (2 ^ 64)).
    + rewrite !shift_base by lia. split; reflexivity.
    + rewrite !shift_too_big by lia. split; reflexivity.
  - pose proof (half_mirror p k Hp ltac:(lia)) as Hh.
    rewrite !(shift_mirror (S fuel)) by lia.
    destruct (Z.ltb_spec (p - k) (2 ^ 64)).
    + rewrite !shift_base by lia. split; reflexivity.
    + rewrite !shift_too_big by lia. split; reflexivity.
Qed.
Print Assumptions C05_shifts_exact.
Example C05_ex : shift_l 2 100 4 257 = Ok (1600 mod 512 mod 257) /\ shift_l 2 100 255 257 = Ok 25 /\ shift_r 2 100 255 257 = Ok (400 mod 512 mod 257).
Proof. vm_compute; auto. Qed.

Theorem C05_shifts_canonical_and_mirrored : forall fuel p l k v, (2 <= fuel)%nat -> 2 < p -> Z.odd p = true -> 0 <= l < p -> 0 < k < p ->
  (shift_l fuel l k p = shift_r fuel l (p - k) p) /\
  (shift_l fuel l k p = Ok v \/ shift_r fuel l k p = Ok v -> 0 <= v < p) /\
  shift_l fuel l k p <> Panic /\ shift_r fuel l k p <> Panic.
Proof.
  intros fuel p l k v Hf Hp Ho Hl Hk.
  destruct (C05_shifts_exact fuel p l k Hf ltac:(lia) Hl ltac:(lia)) as [E1 E2].
  destruct (C05_shifts_exact fuel p l (p - k) Hf ltac:(lia) Hl ltac:(lia)) as [E3 E4].
  assert (Hodd : forall m, (m <=? p / 2) = negb (p - m <=? p / 2)).
  { intros m. apply Z.odd_spec in Ho. destruct Ho as [h Hh].
    assert (p / 2 = h) as -> by (symmetry; apply Z.div_unique with 1; lia).
    destruct (Z.leb_spec m h), (Z.leb_spec (p - m) h); cbn; try reflexivity; lia. }
  assert (Hm : (if p - k <=? p / 2 then p - k else p - (p - k)) = (if k <=? p / 2 then k else p - k)).
  { rewrite (Hodd k). destruct (p - k <=? p / 2); cbn [negb]; lia. }
  rewrite Hm in E3, E4.
  assert (H0 : 0 <= (if k <=? p / 2 then k else p - k)) by (destruct (k <=? p / 2); lia).
  split; [|split; [|split]].
  - rewrite E1, E4. rewrite (Hodd k). destruct (p - k <=? p / 2); reflexivity.
  - rewrite E1, E2. intros Hv.
    set (m := if k <=? p / 2 then k else p - k) in *.
    destruct (m <? 2 ^ 64); [|destruct Hv; discriminate].
    assert (A : 0 <= (l * 2 ^ m) mod 2 ^ (Z.log2 p + 1) mod p < p) by (apply Z.mod_pos_bound; lia).
    assert (B : 0 <= l / 2 ^ m < p) by (apply (shr_val_range l m p); lia).
    destruct (k <=? p / 2); destruct Hv as [Hv|Hv]; injection Hv as <-; assumption.
  - rewrite E1. destruct (_ <? 2 ^ 64); discriminate.
  - rewrite E2. destruct (_ <? 2 ^ 64); discriminate.
Qed.
Print Assumptions C05_shifts_canonical_and_mirrored.
Example C05_mirror_ex : shift_l 2 100 3 257 = Ok 31 /\ shift_r 2 100 254 257 = Ok 31.
Proof. vm_compute; auto. Qed.

(** ** C06 *)
Theorem C06_complement : forall p x, 1 < p -> 0 <= x < p ->
  is_rep p (complement x p) (2 ^ (Z.log2 p + 1) - 1 - x) /\ complement (complement x p) p = x.
Proof.
  intros p x Hp Hx. split; [|apply complement_involutive; assumption].
  pose proof (bits_lt p ltac:(lia)). rewrite complement_spec by lia.
  assert (Hbits : Z.log2 p + 1 = bits p) by (unfold bits; destruct p; try lia; rewrite Z.abs_eq by lia; reflexivity).
  rewrite Hbits. apply mod_is_rep; lia.
Qed.
Print Assumptions C06_complement.
Example C06_ex : complement 5 257 = 249 /\ complement 249 257 = 5.
Proof. vm_compute; auto. Qed.

(** The in-tree test of complement uses the non-canonical 1234 in the field 257; for
    non-canonical inputs the double complement is not the reduction modulo the field. *)
Theorem C06_complement_noncanonical_refuted : exists p x, prime p /\ 0 <= x /\
  complement (complement x p) p <> x mod p.
Proof.
  exists 3, 4. split; [apply prime_3|]. split; [lia|]. vm_compute. discriminate.
Qed.
Print Assumptions C06_complement_noncanonical_refuted.
Example C06_in_tree_test_value : complement (complement 1234 257) 257 = 210 /\ 1234 mod 257 = 206.
Proof. vm_compute; auto. Qed.

(** Bitwise operators act bit by bit, then reduce; [&] needs no reduction. *)
Theorem C06_bitwise : forall p l r, 1 < p -> 0 <= l < p -> 0 <= r < p ->
  (exists v, is_rep p (bit_and l r p) v /\ forall i, 0 <= i -> Z.testbit v i = Z.testbit l i && Z.testbit r i) /\
  (exists v, is_rep p (bit_or l r p) v /\ forall i, 0 <= i -> Z.testbit v i = Z.testbit l i || Z.testbit r i) /\
  (exists v, is_rep p (bit_xor l r p) v /\ forall i, 0 <= i -> Z.testbit v i = xorb (Z.testbit l i) (Z.testbit r i)) /\
  (forall i, 0 <= i -> Z.testbit (bit_and l r p) i = Z.testbit l i && Z.testbit r i).
Proof.
  intros p l r Hp Hl Hr. unfold bit_and, bit_or, bit_xor. rewrite !modulus_mod by lia.
  split; [|split; [|split]].
  - exists (Z.land l r). split; [apply mod_is_rep; lia|]. intros; apply Z.land_spec.
  - exists (Z.lor l r). split; [apply mod_is_rep; lia|]. intros; apply Z.lor_spec.
  - exists (Z.lxor l r). split; [apply mod_is_rep; lia|]. intros; apply Z.lxor_spec.
  - assert (0 <= Z.land l r <= l).
    { split; [apply Z.land_nonneg; lia|].
      assert (E : l = Z.land l r + Z.ldiff l r).
      { rewrite Z.add_nocarry_lxor.
        - apply Z.bits_inj'. intros n _. rewrite Z.lxor_spec, Z.land_spec, Z.ldiff_spec.
          destruct (Z.testbit l n), (Z.testbit r n); reflexivity.
        - apply Z.bits_inj'. intros n _. rewrite !Z.land_spec, Z.ldiff_spec, Z.bits_0.
          destruct (Z.testbit l n), (Z.testbit r n); reflexivity. }
      assert (0 <= Z.ldiff l r) by (apply Z.ldiff_nonneg; lia). lia. }
    intros i Hi. rewrite Z.mod_small by lia. apply Z.land_spec.
Qed.
Print Assumptions C06_bitwise.
Example C06_bitwise_ex : bit_or 255 256 257 = 511 mod 257 /\ bit_and 12 10 257 = 8 /\ bit_xor 12 10 257 = 6.
Proof. vm_compute; auto. Qed.

(** ** C07 *)
Theorem C07_batch_inversion : forall p vs, prime p ->
  (Forall (fun v => ~ (p | v)) vs ->
   exists out, multi_inv vs p = Ok out /\ (length vs <= length out)%nat /\
     forall i, (i < length vs)%nat ->
       0 <= nth i out 0 < p /\ (nth i out 0 * nth i vs 0) mod p = 1) /\
  (multi_inv vs p = Panic <-> Exists (fun v => (p | v)) vs).
Proof.
  intros p vs Hp. pose proof (prime_ge_2 p Hp). split.
  - intros Hf. apply multi_inv_ok; [assumption|]. eapply Forall_impl; [|exact Hf].
    intros a Ha. cbn in Ha. rewrite <- Z.mod_divide in Ha by lia. exact Ha.
  - rewrite multi_inv_panic by assumption.
    split; apply Exists_impl; intros a; rewrite Z.mod_divide by lia; auto.
Qed.
Print Assumptions C07_batch_inversion.
Example C07_ex : multi_inv [2; 3; 5] 257 = Ok [129; 86; 103; 0] /\ multi_inv [2; 0] 257 = Panic.
Proof. vm_compute; auto. Qed.
