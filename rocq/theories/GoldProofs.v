(** The 64-bit field library computes in the field (for the theorem C61). *)
From Coq Require Import ZArith List Bool Lia Znumtheory.
From Verif Require Import ModArithModel ModArithProofs PropertiesArith GoldModel.
Import ListNotations.
Open Scope Z_scope.

Lemma u64_small x : 0 <= x < 2 ^ 64 -> u64 x = x.
Proof. apply Z.mod_small. Qed.
Lemma gold_eq : gold = 2 ^ 64 - 2 ^ 32 + 1. Proof. reflexivity. Qed.
Lemma half_eq : half = (gold - 1) / 2. Proof. reflexivity. Qed.
Lemma gold_bits : bits gold = 64. Proof. reflexivity. Qed.
Lemma gold_val : gold = 18446744069414584321. Proof. reflexivity. Qed.
Lemma half_val : half = 9223372034707292160. Proof. reflexivity. Qed.
Ltac num := pose proof gold_val; pose proof half_val; change (2 ^ 64) with 18446744073709551616 in *; change (2 ^ 32) with 4294967296 in *; change (2 ^ 31) with 2147483648 in *.
Lemma mod_one x k : 0 <= x - k * gold < gold -> x mod gold = x - k * gold.
Proof. intros H. symmetry. apply (Z.mod_unique x gold k); lia. Qed.
Lemma g_add_spec a b : 0 <= a < gold -> 0 <= b < gold -> g_add a b = (a + b) mod gold.
Proof.
  intros Ha Hb. unfold g_add, u64. num. destruct (Z.leb_spec a half).
  - destruct (Z.ltb_spec half b).
    + rewrite (Z.mod_small (gold - b)) by lia. destruct (Z.leb_spec (gold - b) a).
      * rewrite (mod_one (a + b) 1) by lia. rewrite Z.mod_small by lia. lia.
      * rewrite (Z.mod_small (a + b) gold) by lia. apply Z.mod_small. lia.
    + rewrite (Z.mod_small (a + b) gold) by lia. apply Z.mod_small. lia.
  - rewrite (Z.mod_small (gold - a)) by lia. destruct (Z.ltb_spec b (gold - a)).
    + rewrite (Z.mod_small (a + b) gold) by lia. apply Z.mod_small. lia.
    + rewrite (mod_one (a + b) 1) by lia. rewrite Z.mod_small by lia. lia.
Qed.
Lemma g_sub_spec a b : 0 <= a < gold -> 0 <= b < gold -> g_sub a b = (a - b) mod gold.
Proof.
  intros Ha Hb. unfold g_sub, u64. num. destruct (Z.leb_spec b a).
  - rewrite (Z.mod_small (a - b) gold) by lia. apply Z.mod_small. lia.
  - rewrite (Z.mod_small (b - a)) by lia. rewrite (mod_one (a - b) (-1)) by lia. rewrite Z.mod_small by lia. lia.
Qed.
Lemma mod_range x : 0 <= x mod gold < gold.
Proof. apply Z.mod_pos_bound. reflexivity. Qed.
Lemma split32 a : a = Z.shiftr a 32 * 2 ^ 32 + u32 a.
Proof. unfold u32. rewrite Z.shiftr_div_pow2 by lia. pose proof (Z.div_mod a (2 ^ 32)). num. lia. Qed.
Lemma hi_range a : 0 <= a < 2 ^ 64 -> 0 <= Z.shiftr a 32 < 2 ^ 32.
Proof. intros H. rewrite Z.shiftr_div_pow2 by lia. split; [apply Z.div_pos; num; lia|]. apply Z.div_lt_upper_bound; num; lia. Qed.
Lemma lo_range a : 0 <= u32 a < 2 ^ 32.
Proof. apply Z.mod_pos_bound. reflexivity. Qed.
Lemma prod_range a b : 0 <= a < 2 ^ 32 -> 0 <= b < 2 ^ 32 -> 0 <= a * b < gold.
Proof. intros. num. nia. Qed.
Lemma congr x y k : x = y + k * gold -> x mod gold = y mod gold.
Proof. intros ->. apply Z.mod_add. discriminate. Qed.
Lemma g_mul_spec a b : 0 <= a < gold -> 0 <= b < gold -> g_mul a b = (a * b) mod gold.
Proof.
  intros Ha Hb. unfold g_mul.
  pose proof (hi_range a ltac:(num; lia)) as Ha1. pose proof (lo_range a) as Ha0. pose proof (split32 a) as Ea.
  pose proof (hi_range b ltac:(num; lia)) as Hb1. pose proof (lo_range b) as Hb0. pose proof (split32 b) as Eb.
  set (a1 := Z.shiftr a 32) in *. set (a0 := u32 a) in *. set (b1 := Z.shiftr b 32) in *. set (b0 := u32 b) in *.
  pose proof (prod_range a0 b0 Ha0 Hb0). pose proof (prod_range a0 b1 Ha0 Hb1). pose proof (prod_range a1 b0 Ha1 Hb0). pose proof (prod_range a1 b1 Ha1 Hb1).
  rewrite !(u64_small (_ * _)) by (num; lia).
  rewrite (g_add_spec (a1 * b1)) by assumption. rewrite (g_add_spec (_ mod _)) by (assumption || apply mod_range). rewrite (g_sub_spec (a0 * b0)) by assumption.
  set (res32 := ((a1 * b1 + a1 * b0) mod gold + a0 * b1) mod gold).
  assert (Hr : 0 <= res32 < gold) by apply mod_range.
  assert (Er : exists k, res32 = a1 * b1 + a1 * b0 + a0 * b1 + k * gold).
  { unfold res32. rewrite Z.add_mod_idemp_l by discriminate. exists (- ((a1 * b1 + a1 * b0 + a0 * b1) / gold)). pose proof (Z.div_mod (a1 * b1 + a1 * b0 + a0 * b1) gold ltac:(discriminate)). lia. }
  clearbody res32. destruct Er as [k Er].
  pose proof (hi_range res32 ltac:(num; lia)) as Hh. pose proof (lo_range res32) as Hl. pose proof (split32 res32) as Es.
  set (h := Z.shiftr res32 32) in *. set (l := u32 res32) in *. rewrite !Z.shiftl_mul_pow2 by lia.
  rewrite !(u64_small (_ * 2 ^ 32)) by (num; lia).
  rewrite (g_add_spec (h * 2 ^ 32)) by (num; lia). rewrite (g_sub_spec (_ mod _)) by (apply mod_range || num; lia). rewrite g_add_spec by apply mod_range.
  rewrite Zplus_mod_idemp_r, Zplus_mod_idemp_l.
  transitivity ((h * 2 ^ 32 + l * 2 ^ 32 - h + (a0 * b0 - a1 * b1)) mod gold).
  { rewrite <- (Zplus_mod_idemp_l (_ - h)), Zminus_mod_idemp_l, Zplus_mod_idemp_l. reflexivity. }
  apply (congr _ _ (2 ^ 32 * k - h - a1 * b1)). rewrite Ea, Eb. rewrite gold_eq. rewrite gold_eq in Er. replace (2 ^ 64) with (2 ^ 32 * 2 ^ 32) in * by reflexivity. set (t := 2 ^ 32) in *.
  replace (h * t + l * t - h + (a0 * b0 - a1 * b1)) with ((h * t + l) * t - h * (t * t - t + 1) + (a0 * b0 - a1 * b1)) by ring.
  rewrite <- Es, Er. ring.
Qed.
