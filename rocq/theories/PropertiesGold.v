(** C61: the field library of 64 bits (the prime Goldilocks) computes what the compiler computes.
    An element of the C++ program is a [uint64_t]; it stands for itself, and it is canonical if it is below the prime.
    The operations of the compiler are those of ModArithModel (circom_algebra/src/modular_arithmetic.rs), with the prime [gold]. *)
From Coq Require Import ZArith Znumtheory Zpow_facts List Bool Lia.
From Verif Require Import ModArithModel ModArithProofs PropertiesArith GoldModel GoldProofs.
Import ListNotations.
Open Scope Z_scope.

Definition canonical (x : Z) : Prop := 0 <= x < gold.

Lemma gold_pos : 0 < gold. Proof. reflexivity. Qed.
Lemma gold_big : 2 < gold. Proof. reflexivity. Qed.
Lemma gold_odd : Z.odd gold = true. Proof. reflexivity. Qed.
Lemma canonical_mod x : canonical (x mod gold).
Proof. apply Z.mod_pos_bound. exact gold_pos. Qed.
Lemma small x : canonical x -> x mod gold = x.
Proof. apply Z.mod_small. Qed.

(** *** The prime itself: the numbers written in the header are the prime of the compiler and the half of it *)
Theorem C61_constants : gold = 2 ^ 64 - 2 ^ 32 + 1 /\ half = (gold - 1) / 2.
Proof. split; reflexivity. Qed.
Print Assumptions C61_constants.

Theorem C61_ring_operations : forall a b, canonical a -> canonical b ->
  g_add a b = add a b gold /\ g_sub a b = sub a b gold /\ g_mul a b = mul a b gold /\ g_neg a = prefix_sub a gold.
Proof.
  intros a b Ha Hb. rewrite add_mod, sub_mod, mul_mod, prefix_sub_mod by exact gold_pos.
  rewrite g_add_spec, g_sub_spec, g_mul_spec by assumption. split; [reflexivity|]. split; [reflexivity|]. split; [reflexivity|].
  unfold g_neg, u64, canonical in *. num. destruct (Z.eqb_spec a 0) as [->|Hn].
  - reflexivity.
  - rewrite (mod_one (- a) (-1)) by lia. rewrite Z.mod_small by lia. lia.
Qed.
Print Assumptions C61_ring_operations.

Lemma comparable_gold x : canonical x -> comparable_element x gold = if x <=? half then x else x - gold.
Proof.
  intros Hx. unfold comparable_element. rewrite modulus_mod by exact gold_pos. rewrite small by exact Hx. unfold val.
  change (Z.quot gold 2 + 1) with 9223372034707292161. unfold canonical in *. num.
  destruct (Z.leb_spec 9223372034707292161 x), (Z.ltb_spec x gold), (Z.leb_spec x half); cbn [andb]; try reflexivity; lia.
Qed.
Theorem C61_comparisons_and_logic : forall a b, canonical a -> canonical b ->
  g_lt a b = lesser a b gold /\ g_leq a b = lesser_eq a b gold /\ g_gt a b = greater a b gold /\ g_geq a b = greater_eq a b gold /\
  g_eq a b = eq a b gold /\ g_neq a b = not_eq a b gold /\
  g_land a b = bool_and a b gold /\ g_lor a b = bool_or a b gold /\ g_lnot a = not a gold /\ g_is_true a = Z.b2z (as_bool a gold).
Proof.
  intros a b Ha Hb. pose proof (cmp_all a b gold gold_big gold_odd) as H. cbv zeta in H.
  destruct H as (E1 & E2 & E3 & E4 & E5 & E6). rewrite E1, E2, E3, E4, E5, E6. rewrite !comparable_gold by assumption.
  rewrite bool_and_spec, bool_or_spec, not_spec, as_bool_spec by exact gold_big. rewrite !small by assumption.
  unfold g_lt, g_leq, g_gt, g_geq, g_eq, g_neq, g_land, g_lor, g_lnot, g_is_true, b01, Z.b2z, canonical in *. num.
  destruct (Z.eqb_spec a 0), (Z.eqb_spec b 0); cbn [negb andb orb];
  destruct (Z.leb_spec a half), (Z.leb_spec b half);
    repeat match goal with |- context [?x <? ?y] => destruct (Z.ltb_spec x y) | |- context [?x <=? ?y] => destruct (Z.leb_spec x y) | |- context [?x =? ?y] => destruct (Z.eqb_spec x y) end;
    cbn [negb]; repeat split; try reflexivity; lia.
Qed.
Print Assumptions C61_comparisons_and_logic.
(** the comparison of arrays: 1 exactly if the first [n] elements are the same *)
Theorem C61_array_equality : forall n a b, (n <= length a)%nat -> (n <= length b)%nat ->
  (g_eq_n a b n = 1 <-> firstn n a = firstn n b) /\ (g_eq_n a b n = 0 <-> firstn n a <> firstn n b).
Proof.
  induction n as [|n IH]; intros [|x a] [|y b] Ha Hb; cbn [length g_eq_n firstn] in *; try lia; try (split; split; congruence).
  destruct (Z.eqb_spec x y) as [->|Hn].
  - destruct (IH a b ltac:(lia) ltac:(lia)) as [I1 I2]. split; [rewrite I1|rewrite I2]; split; congruence.
  - split; split; congruence.
Qed.
Print Assumptions C61_array_equality.

Lemma bits_gold : bits gold = 64. Proof. reflexivity. Qed.
Lemma below64 x : (forall i, 64 <= i -> Z.testbit x i = false) -> 0 <= x -> x < 2 ^ 64.
Proof.
  intros H Hx. destruct (Z.lt_ge_cases x (2 ^ 64)) as [|Hge]; [assumption|exfalso].
  assert (0 < x) by (apply Z.lt_le_trans with (2 ^ 64); [reflexivity|assumption]).
  assert (64 <= Z.log2 x) by (apply Z.log2_le_pow2; assumption).
  pose proof (Z.bit_log2 x ltac:(assumption)). rewrite H in * by assumption. discriminate.
Qed.
Lemma high_bits x i : 0 <= x < 2 ^ 64 -> 64 <= i -> Z.testbit x i = false.
Proof.
  intros Hx Hi. destruct (Z.eq_dec x 0) as [->|]; [apply Z.bits_0|]. apply Z.bits_above_log2; [lia|].
  assert (Z.log2 x < 64) by (apply Z.log2_lt_pow2; lia). lia.
Qed.
Lemma wrap x : 0 <= x < 2 ^ 64 -> (if x <? gold then x else u64 (x - gold)) = x mod gold.
Proof.
  intros Hx. unfold u64. num. destruct (Z.ltb_spec x gold).
  - rewrite Z.mod_small by lia. reflexivity.
  - rewrite (mod_one x 1) by lia. rewrite Z.mod_small by lia. lia.
Qed.
Lemma canonical64 x : canonical x -> 0 <= x < 2 ^ 64.
Proof. unfold canonical. num. lia. Qed.
Theorem C61_bit_operations : forall a b, canonical a -> canonical b ->
  g_bor a b = bit_or a b gold /\ g_band a b = bit_and a b gold /\ g_bxor a b = bit_xor a b gold /\ g_bnot a = complement a gold.
Proof.
  intros a b Ha Hb. pose proof (canonical64 _ Ha) as Ha'. pose proof (canonical64 _ Hb) as Hb'.
  unfold bit_or, bit_and, bit_xor. rewrite !modulus_mod by exact gold_pos. unfold g_bor, g_bxor, g_band, g_bnot.
  split; [|split; [|split]].
  - apply wrap. split; [apply Z.lor_nonneg; lia|]. apply below64; [|apply Z.lor_nonneg; lia].
    intros i Hi. rewrite Z.lor_spec, !high_bits by assumption. reflexivity.
  - rewrite Z.mod_small; [reflexivity|]. split; [apply Z.land_nonneg; lia|].
    destruct Ha as [Ha0 Ha1]. eapply Z.le_lt_trans; [|exact Ha1].
    assert (Hs : a = Z.land a b + Z.ldiff a b).
    { rewrite Z.add_nocarry_lxor.
      - apply Z.bits_inj'. intros i Hi. rewrite Z.lxor_spec, Z.ldiff_spec, Z.land_spec. destruct (Z.testbit a i), (Z.testbit b i); reflexivity.
      - apply Z.bits_inj'. intros i Hi. rewrite Z.land_spec, Z.ldiff_spec, Z.land_spec, Z.bits_0. destruct (Z.testbit a i), (Z.testbit b i); reflexivity. }
    assert (0 <= Z.ldiff a b) by (apply Z.ldiff_nonneg; lia). lia.
  - apply wrap. split; [apply Z.lxor_nonneg; lia|]. apply below64; [|apply Z.lxor_nonneg; lia].
    intros i Hi. rewrite Z.lxor_spec, !high_bits by assumption. reflexivity.
  - rewrite complement_spec by (rewrite ?bits_gold; exact gold_big || lia). rewrite bits_gold. apply wrap. lia.
Qed.
Print Assumptions C61_bit_operations.

Theorem C61_shifts : forall fuel a b, (2 <= fuel)%nat -> canonical a -> canonical b ->
  (exists v, g_shl fuel a b = Some v /\ shift_l fuel a b gold = Ok v) /\
  (exists v, g_shr fuel a b = Some v /\ shift_r fuel a b gold = Ok v).
Proof.
  intros fuel a b Hf Ha Hb. destruct (C05_shifts_exact fuel gold a b Hf gold_pos Ha Hb) as [E1 E2]. rewrite E1, E2. clear E1 E2.
  change (gold / 2) with half. change (Z.log2 gold + 1) with 64. destruct fuel as [|[|fuel]]; [lia|lia|]. unfold g_shl, g_shr.
  assert (K : forall f d k, 0 <= k <= half -> g_shift (S f) d a k = Some (if d then ((a * 2 ^ k) mod 2 ^ 64) mod gold else a / 2 ^ k)).
  { intros f d k Hk. cbn [g_shift]. destruct (Z.ltb_spec half k); [lia|]. pose proof (canonical64 _ Ha) as Ha'. destruct (Z.leb_spec 64 k).
    - f_equal. destruct d.
      + replace (2 ^ k) with (2 ^ (k - 64) * 2 ^ 64) by (rewrite <- Z.pow_add_r by lia; f_equal; lia).
        rewrite Z.mul_assoc, Z.mod_mul by discriminate. reflexivity.
      + symmetry. apply Z.div_small. split; [lia|]. eapply Z.lt_le_trans; [apply Ha'|]. apply Z.pow_le_mono_r; lia.
    - destruct d.
      + rewrite wrap by (apply Z.mod_pos_bound; reflexivity). unfold u64. rewrite Z.shiftl_mul_pow2 by lia. reflexivity.
      + rewrite Z.shiftr_div_pow2 by lia. reflexivity. }
  unfold canonical in *. destruct (Z.leb_spec b half).
  - assert (b < 2 ^ 64) by (num; lia). destruct (Z.ltb_spec b (2 ^ 64)); [|lia].
    rewrite !K by lia. split; eexists; split; reflexivity.
  - assert (gold - b < 2 ^ 64) by (num; lia). destruct (Z.ltb_spec (gold - b) (2 ^ 64)); [|lia].
    assert (E : forall d, g_shift (S (S fuel)) d a b = g_shift (S fuel) (negb d) a (gold - b)).
    { intros d. change (g_shift (S (S fuel)) d a b) with (if half <? b then g_shift (S fuel) (negb d) a (u64 (gold - b)) else if 64 <=? b then Some 0
        else if d then let s := u64 (Z.shiftl a b) in Some (if s <? gold then s else u64 (s - gold)) else Some (Z.shiftr a b)).
      destruct (Z.ltb_spec half b); [|lia]. rewrite u64_small by lia. reflexivity. }
    rewrite !E. cbn [negb]. rewrite !K by (num; lia). split; eexists; split; reflexivity.
Qed.
Print Assumptions C61_shifts.

(** A zero divisor stops both; the theorem also says that the calculator does not stop in any other case. *)
Theorem C61_quotient_and_remainder : forall a b, canonical a -> canonical b ->
  (b <> 0 -> exists v w, g_idiv a b = Some v /\ idiv a b gold = Ok v /\ g_mod a b = Some w /\ mod_op a b gold = Ok w) /\
  (b = 0 -> g_idiv a b = None /\ g_mod a b = None /\ (forall v, idiv a b gold <> Ok v) /\ (forall v, mod_op a b gold <> Ok v)).
Proof.
  intros a b Ha Hb. destruct (idiv_spec a b gold gold_pos) as [I1 I2]. destruct (mod_op_spec a b gold gold_pos) as [M1 M2].
  rewrite small in I1, I2, M1, M2 by exact Hb. rewrite small in I2, M2 by exact Ha. unfold g_idiv, g_mod. split.
  - intros Hn. destruct (Z.eqb_spec b 0); [contradiction|]. exists (a / b), (a mod b). repeat split; auto.
  - intros ->. split; [reflexivity|]. split; [reflexivity|]. rewrite I1, M1 by reflexivity. split; discriminate.
Qed.
Print Assumptions C61_quotient_and_remainder.

(** The power ends (within 130 rounds of its loop) and agrees. *)
Lemma pow_loop_ok fuel : forall p ao bo (k : nat), canonical p -> canonical ao -> 0 <= bo < 2 ^ Z.of_nat k -> (2 * k + 1 <= fuel)%nat ->
  g_pow_loop fuel p ao bo = Some ((p * ao ^ bo) mod gold).
Proof.
  induction fuel as [fuel IH] using (well_founded_induction lt_wf). intros p ao bo k Hp Ha Hb Hf.
  destruct fuel as [|fuel]; [lia|]. cbn [g_pow_loop]. destruct (Z.ltb_spec 0 bo) as [Hpos|].
  2:{ assert (bo = 0) as -> by lia. rewrite Z.pow_0_r, Z.mul_1_r, small by exact Hp. reflexivity. }
  destruct k as [|k]; [cbn in Hb; lia|]. rewrite Nat2Z.inj_succ, Z.pow_succ_r in Hb by lia.
  assert (Hsq : forall ao c, canonical ao -> 0 <= c -> forall q, (q * (g_mul ao ao) ^ c) mod gold = (q * ao ^ (2 * c)) mod gold).
  { intros x c Hx Hc q. rewrite g_mul_spec by exact Hx. rewrite <- Z.mul_mod_idemp_r by discriminate. rewrite <- Zpower_mod by exact gold_pos.
    rewrite Z.mul_mod_idemp_r by discriminate. rewrite Z.pow_mul_r by lia. rewrite Z.pow_2_r. reflexivity. }
  assert (Hm : forall x y, canonical x -> canonical y -> canonical (g_mul x y)).
  { intros x y Hx Hy. rewrite g_mul_spec by assumption. apply canonical_mod. }
  destruct (Z.eqb_spec (bo mod 2) 0) as [He|Ho].
  - rewrite (IH fuel ltac:(lia) _ _ _ k); [|assumption|auto| |lia].
    + rewrite Hsq by (try assumption; apply Z.div_pos; lia). replace (2 * (bo / 2)) with bo by (pose proof (Z.div_mod bo 2 ltac:(lia)); lia). reflexivity.
    + split; [apply Z.div_pos; lia|]. apply Z.div_lt_upper_bound; lia.
  - assert (Hodd : bo mod 2 = 1) by (pose proof (Z.mod_pos_bound bo 2); lia).
    destruct fuel as [|fuel]; [lia|]. cbn [g_pow_loop].
    assert (E : bo - 1 = 2 * (bo / 2)) by (pose proof (Z.div_mod bo 2 ltac:(lia)); lia).
    assert (Hh : (bo - 1) / 2 = bo / 2) by (rewrite E, Z.mul_comm, Z.div_mul by lia; reflexivity).
    assert (Hz : (bo - 1) mod 2 = 0) by (rewrite E, Z.mul_comm, Z.mod_mul by lia; reflexivity).
    assert (Hq : forall c, 0 <= c -> bo - 1 = c -> (g_mul p ao * ao ^ c) mod gold = (p * ao ^ bo) mod gold).
    { intros c Hc Ec. rewrite g_mul_spec by assumption. rewrite Z.mul_mod_idemp_l by discriminate.
      replace bo with (Z.succ c) by lia. rewrite Z.pow_succ_r by lia. f_equal. ring. }
    destruct (Z.ltb_spec 0 (bo - 1)).
    + rewrite Hz. cbn [Z.eqb]. rewrite Hh. rewrite (IH fuel ltac:(lia) _ _ _ k); [|auto|auto| |lia].
      * rewrite Hsq by (try assumption; apply Z.div_pos; lia). f_equal. apply Hq; [|exact E]. pose proof (Z.div_pos bo 2). lia.
      * split; [apply Z.div_pos; lia|]. apply Z.div_lt_upper_bound; lia.
    + f_equal. rewrite <- (Hq 0) by lia. rewrite Z.pow_0_r, Z.mul_1_r, small by auto. reflexivity.
Qed.
Theorem C61_power : forall fuel a b, (129 <= fuel)%nat -> canonical a -> canonical b ->
  exists v, g_pow fuel a b = Some v /\ pow a b gold = Ok v.
Proof.
  intros fuel a b Hf Ha Hb. exists ((a ^ b) mod gold). split; [|apply pow_spec; [exact gold_pos|apply Hb]].
  unfold g_pow. rewrite (pow_loop_ok _ _ _ _ 64); [rewrite Z.mul_1_l; reflexivity| |exact Ha| |lia].
  - split; reflexivity || discriminate.
  - apply canonical64 in Hb. exact Hb.
Qed.
Print Assumptions C61_power.

Theorem C61_division : forall junk a b v, canonical a -> canonical b -> div a b gold = Ok v -> g_div junk a b = v.
Proof.
  intros junk a b v Ha Hb. unfold div, g_div, g_inv. destruct (mod_inverse b gold) as [i|] eqn:E; [|discriminate].
  intros H. assert (Hv : v = mul a i gold) by congruence. subst v.
  assert (Ht : forall x, 0 <= x < 2 ^ 64 -> u32 (Z.shiftr x 32) * 2 ^ 32 + u32 x = x).
  { intros x Hx. pose proof (hi_range x Hx) as Hh. unfold u32 at 1. rewrite (Z.mod_small (Z.shiftr x 32)) by exact Hh. symmetry. apply split32. }
  rewrite Ht by (apply canonical64; exact Hb). rewrite E.
  pose proof (mod_inverse_some b gold i) as Hi.
  assert (Hc : canonical i) by (apply Hi; [reflexivity|exact E]). pose proof (canonical64 _ Hc) as Hc'.
  rewrite Z.shiftl_mul_pow2 by lia. rewrite (u64_small (_ * 2 ^ 32)).
  2:{ pose proof (lo_range (Z.shiftr i 32)). num. lia. }
  rewrite Ht by exact Hc'. rewrite u64_small by exact Hc'. apply C61_ring_operations; assumption.
Qed.
Print Assumptions C61_division.

(** The conversion to an [int] (an index, a loop bound) is exact for the values of 32 bits. *)
Theorem C61_to_int : forall i, - 2 ^ 31 < i < 2 ^ 31 -> g_to_int (i mod gold) = Some i.
Proof.
  intros i Hi. unfold g_to_int, to_i32, u64. num. destruct (Z.lt_ge_cases i 0).
  - rewrite (mod_one i (-1)) by lia. destruct (Z.ltb_spec half (i - -1 * gold)); [|lia].
    rewrite (Z.mod_small (gold - _)) by lia. replace (gold - (i - -1 * gold)) with (- i) by lia. rewrite (Z.mod_small (- i)) by lia.
    destruct (Z.ltb_spec (- i) 2147483648); [|lia]. destruct (Z.eqb_spec (- i) (- (2147483648))); [lia|]. f_equal. lia.
  - rewrite (Z.mod_small i gold) by lia. destruct (Z.ltb_spec half i); [lia|]. rewrite (Z.mod_small i) by lia.
    destruct (Z.ltb_spec i 2147483648); [reflexivity|lia].
Qed.
Print Assumptions C61_to_int.
(** A value read from a JSON file is the residue of the integer that is written there. *)
Theorem C61_text : forall v, g_of_integer v = v mod gold /\ canonical (g_of_integer v).
Proof.
  intros v. unfold g_of_integer. rewrite u64_small by (apply canonical64, canonical_mod). split; [reflexivity|apply canonical_mod].
Qed.
Print Assumptions C61_text.
Lemma shift_canonical fuel a b v : (2 <= fuel)%nat -> canonical a -> canonical b ->
  shift_l fuel a b gold = Ok v \/ shift_r fuel a b gold = Ok v -> canonical v.
Proof.
  intros Hf Ha Hb H. destruct (C05_shifts_exact fuel gold a b Hf gold_pos Ha Hb) as [E1 E2]. rewrite E1, E2 in H. clear E1 E2.
  cbv zeta in H. set (m := if b <=? gold / 2 then b else gold - b) in *.
  assert (Hm : 0 <= m) by (unfold m, canonical in *; destruct (b <=? gold / 2); lia). clearbody m.
  assert (D : canonical (a / 2 ^ m)).
  { unfold canonical in *. assert (0 < 2 ^ m) by (apply Z.pow_pos_nonneg; lia). split; [apply Z.div_pos; lia|].
    apply Z.le_lt_trans with a; [|lia]. apply Z.div_le_upper_bound; [lia|]. nia. }
  destruct (m <? 2 ^ 64); [|destruct H; discriminate].
  destruct (b <=? gold / 2); destruct H as [H|H]; match type of H with Ok ?x = Ok v => assert (v = x) as -> by congruence end;
    first [exact D|apply canonical_mod].
Qed.
(** Every operation returns a canonical element. *)
Theorem C61_results_are_canonical : forall fuel junk a b v, canonical a -> canonical b ->
  canonical (g_add a b) /\ canonical (g_sub a b) /\ canonical (g_mul a b) /\ canonical (g_neg a) /\
  canonical (g_bor a b) /\ canonical (g_band a b) /\ canonical (g_bxor a b) /\ canonical (g_bnot a) /\
  (g_idiv a b = Some v \/ g_mod a b = Some v \/ g_pow (129 + fuel) a b = Some v \/ g_shl (2 + fuel) a b = Some v \/ g_shr (2 + fuel) a b = Some v -> canonical v) /\
  (b <> 0 -> prime gold -> canonical (g_div junk a b)).
Proof.
  intros fuel junk a b v Ha Hb. destruct (C61_ring_operations a b Ha Hb) as (-> & -> & -> & ->).
  destruct (C61_bit_operations a b Ha Hb) as (-> & -> & -> & ->).
  rewrite add_mod, sub_mod, mul_mod, prefix_sub_mod by exact gold_pos. unfold bit_or, bit_and, bit_xor. rewrite !modulus_mod by exact gold_pos.
  rewrite complement_spec by (rewrite ?bits_gold; try exact gold_big; try apply canonical64; try exact Ha; reflexivity).
  split; [apply canonical_mod|]. split; [apply canonical_mod|]. split; [apply canonical_mod|]. split; [apply canonical_mod|].
  split; [apply canonical_mod|]. split; [apply canonical_mod|]. split; [apply canonical_mod|]. split; [apply canonical_mod|]. split.
  - unfold g_idiv, g_mod, canonical in *. intros [H|[H|[H|[H|H]]]].
    + destruct (Z.eqb_spec b 0); [discriminate|]. assert (v = a / b) as -> by congruence. split; [apply Z.div_pos; lia|].
      apply Z.le_lt_trans with a; [|lia]. apply Z.div_le_upper_bound; [lia|]. nia.
    + destruct (Z.eqb_spec b 0); [discriminate|]. assert (v = a mod b) as -> by congruence. pose proof (Z.mod_pos_bound a b). lia.
    + destruct (C61_power (129 + fuel) a b ltac:(lia) Ha Hb) as (w & E & F). rewrite pow_spec in F by (exact gold_pos || apply Hb).
      assert (w = (a ^ b) mod gold) by congruence. assert (v = w) as -> by congruence. subst w. apply canonical_mod.
    + destruct (C61_shifts (2 + fuel) a b ltac:(lia) Ha Hb) as [(w & E & F) _]. assert (v = w) as -> by congruence.
      eapply shift_canonical; [|exact Ha|exact Hb|left; exact F]. lia.
    + destruct (C61_shifts (2 + fuel) a b ltac:(lia) Ha Hb) as [_ (w & E & F)]. assert (v = w) as -> by congruence.
      eapply shift_canonical; [|exact Ha|exact Hb|right; exact F]. lia.
  - intros Hn Hp. destruct (div_spec a b gold Hp) as [_ D]. rewrite small in D by exact Hb. destruct (D Hn) as (q & E & Hq & _).
    rewrite (C61_division junk a b q Ha Hb E). exact Hq.
Qed.
Print Assumptions C61_results_are_canonical.

(** *** A concrete case: -1, 2^40 + 3 and a divisor; every operation has a value that is not trivial *)
Example C61_hypotheses_met :
  let a := gold - 1 in let b := 2 ^ 40 + 3 in
  canonical a /\ canonical b /\ g_add a b = 2 ^ 40 + 2 /\ g_mul a b = gold - b /\ g_lt a b = 1 /\ g_bnot b = 2 ^ 64 - 1 - b /\
  g_shl 2 b (gold - 2) = Some (2 ^ 38) /\ g_pow 129 a b = Some (gold - 1) /\ g_idiv a b = Some 16777215 /\
  match div a b gold with Ok v => g_mul v b = a /\ g_div 0 a b = v | _ => False end /\ g_to_int (gold - 5) = Some (-5) /\ g_of_integer (-5) = gold - 5.
Proof. vm_compute. repeat split; try discriminate; reflexivity. Qed.

(** *** What does not hold *)
(** A division by zero is an error for the compiler; the calculator continues with whatever GMP left in the result. *)
Theorem C61_division_by_zero_stops_refuted : exists a b, canonical a /\ canonical b /\ div a b gold = DivisionByZero /\
  forall w, canonical w -> exists junk, g_div junk a b = w.
Proof.
  exists 1, 0. split; [split; [discriminate|reflexivity]|]. split; [split; [discriminate|reflexivity]|]. split; [vm_compute; reflexivity|].
  intros w Hw. exists w. pose proof (canonical64 _ Hw) as Hw'. unfold g_div, g_inv.
  change (mod_inverse (u32 (Z.shiftr 0 32) * 2 ^ 32 + u32 0) gold) with (mod_inverse 0 gold).
  replace (mod_inverse 0 gold) with (@None Z) by (vm_compute; reflexivity).
  pose proof (hi_range w Hw') as Hh. pose proof (split32 w) as Hs. pose proof (lo_range w) as Hl.
  unfold u32 at 1. rewrite (Z.mod_small (Z.shiftr w 32)) by exact Hh. rewrite Z.shiftl_mul_pow2 by lia.
  rewrite (u64_small (_ * 2 ^ 32)) by (num; lia). rewrite <- Hs, u64_small by exact Hw'.
  rewrite g_mul_spec; [|split; [discriminate|reflexivity]|exact Hw]. rewrite Z.mul_1_l. apply small. exact Hw.
Qed.
Print Assumptions C61_division_by_zero_stops_refuted.
(** An element that is no [int] is cut to 32 bits instead of being rejected: 2^32 becomes the index 0. *)
Theorem C61_to_int_rejects_large_values_refuted : exists a, canonical a /\ (forall i, - 2 ^ 31 <= i < 2 ^ 31 -> a <> i mod gold) /\ g_to_int a = Some 0.
Proof.
  exists (2 ^ 32). split; [split; [discriminate|reflexivity]|]. split; [|vm_compute; reflexivity].
  intros i Hi E. num. destruct (Z.lt_ge_cases i 0).
  - rewrite (mod_one i (-1)) in E by lia. lia.
  - rewrite Z.mod_small in E by lia. lia.
Qed.
Print Assumptions C61_to_int_rejects_large_values_refuted.
(** A binary input is not reduced: the prime itself is accepted for 0, it is true, it is not equal to 0, and it is odd. *)
Theorem C61_binary_input_is_reduced_refuted : exists v, 0 <= v < 2 ^ 64 /\ v mod gold = 0 /\
  g_is_true (g_of_binary v) = 1 /\ g_eq (g_of_binary v) 0 = 0 /\ g_mod (g_of_binary v) 2 = Some 1.
Proof. exists gold. repeat split; try discriminate; vm_compute; reflexivity. Qed.
Print Assumptions C61_binary_input_is_reduced_refuted.
