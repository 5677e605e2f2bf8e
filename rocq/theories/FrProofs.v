(** Proofs about the run-time field library. *)
From Coq Require Import ZArith List Bool Lia Znumtheory Zpow_facts.
From Verif Require Import ModArithModel ModArithProofs FrModel FrSpec.
Open Scope Z_scope.

(** ** Raw elements *)
Section raw.
Context (P : params) (p w : Z).
Hypothesis Hq : q P = p.
Hypothesis Hw : W P = w.
Hypothesis Hp : 2 ^ 62 < p.
Hypothesis Hpw : p < w.
Hypothesis Hn : (1 <= n64 P)%nat.

Lemma B_pos : 0 < B. Proof. reflexivity. Qed.
Lemma W_split : w = B ^ Z.of_nat (n64 P - 1) * B.
Proof.
  rewrite <- Hw. unfold W. rewrite <- (Z.pow_1_r B) at 3. rewrite <- Z.pow_add_r by lia. f_equal. lia.
Qed.
Lemma B_le_w : B <= w.
Proof. rewrite W_split. assert (0 < B ^ Z.of_nat (n64 P - 1)) by (apply Z.pow_pos_nonneg; [reflexivity|lia]). pose proof B_pos. nia. Qed.

Lemma mod_shift a k : a = k + p -> 0 <= k < p -> a mod p = k.
Proof. intros -> H. replace (k + p) with (k + 1 * p) by lia. rewrite Z.mod_add by lia. apply Z.mod_small; lia. Qed.

Lemma raw_add_spec a b : 0 <= a < p -> 0 <= b < p -> raw_add P a b = (a + b) mod p.
Proof.
  intros Ha Hb. unfold raw_add. rewrite Hw, Hq.
  destruct (Z.lt_ge_cases (a + b) w) as [H|H].
  - rewrite (Z.div_small (a + b) w), (Z.mod_small (a + b) w) by lia. cbn [negb orb Z.eqb].
    destruct (Z.leb_spec p (a + b)).
    + rewrite Z.mod_small by lia. symmetry. apply mod_shift; lia.
    + rewrite Z.mod_small by lia. reflexivity.
  - assert ((a + b) / w = 1) as -> by (symmetry; apply Z.div_unique with (a + b - w); lia).
    assert ((a + b) mod w = a + b - w) as -> by (symmetry; apply Z.mod_unique with 1; lia).
    cbn [negb orb Z.eqb]. replace (a + b - w - p) with (a + b - p + (-1) * w) by lia.
    rewrite Z.mod_add by lia. rewrite Z.mod_small by lia. symmetry. apply mod_shift; lia.
Qed.
Lemma raw_add_ls_spec a b : 0 <= a < p -> 0 <= b < p -> raw_add_ls P a b = (a + b) mod p.
Proof. apply raw_add_spec. Qed.
Lemma raw_sub_spec a b : 0 <= a < p -> 0 <= b < p -> raw_sub P a b = (a - b) mod p.
Proof.
  intros Ha Hb. unfold raw_sub. rewrite Hw, Hq. destruct (Z.ltb_spec a b).
  - assert ((a - b) mod w = a - b + w) as -> by (symmetry; apply Z.mod_unique with (-1); lia).
    replace (a - b + w + p) with (a - b + p + 1 * w) by lia. rewrite Z.mod_add, Z.mod_small by lia.
    apply Z.mod_unique with (-1); lia.
  - rewrite !Z.mod_small by lia. reflexivity.
Qed.
Lemma raw_sub_sl_spec a b : 0 <= a < p -> 0 <= b < p -> raw_sub_sl P a b = (a - b) mod p.
Proof. apply raw_sub_spec. Qed.
Lemma raw_sub_ls_spec a b : 0 <= a < p -> 0 <= b < p -> raw_sub_ls P a b = (a - b) mod p.
Proof. apply raw_sub_spec. Qed.
Lemma raw_neg_spec a : 0 <= a < p -> raw_neg P a = (- a) mod p.
Proof.
  intros Ha. unfold raw_neg. rewrite Hw, Hq. destruct (Z.eqb_spec a 0) as [->|]; cbn [negb].
  - reflexivity.
  - rewrite Z.mod_small by lia. apply Z.mod_unique with (-1); lia.
Qed.
Lemma raw_neg_ls_spec a b : 0 <= a < p -> 0 < b < p -> raw_neg_ls P a b = (- b - a) mod p.
Proof.
  intros Ha Hb. unfold raw_neg_ls. rewrite Hw, Hq.
  destruct (Z.ltb_spec p b); [lia|]. cbn [orb]. rewrite (Z.mod_small (p - b)) by lia.
  destruct (Z.ltb_spec (p - b) a).
  - assert ((p - b - a) mod w = p - b - a + w) as -> by (symmetry; apply Z.mod_unique with (-1); lia).
    replace (p - b - a + w + p) with (p - b - a + p + 1 * w) by lia. rewrite Z.mod_add, Z.mod_small by lia.
    apply Z.mod_unique with (-2); lia.
  - rewrite Z.mod_small by lia. apply Z.mod_unique with (-1); lia.
Qed.
Lemma raw_copy_s2l_spec v : - 2 ^ 62 <= v <= 2 ^ 62 -> raw_copy_s2l P v = v mod p.
Proof.
  intros Hv. unfold raw_copy_s2l. rewrite Hw, Hq. destruct (Z.ltb_spec v 0).
  - assert (v mod w = v + w) as -> by (symmetry; apply Z.mod_unique with (-1); lia).
    replace (v + w + p) with (v + p + 1 * w) by lia. rewrite Z.mod_add, Z.mod_small by lia.
    apply Z.mod_unique with (-1); lia.
  - rewrite Z.mod_small by lia. reflexivity.
Qed.
(** *** Montgomery products *)
Hypothesis Hnp : exists k, np P * p + 1 = k * B.
Hypothesis Hfit : p * (B + 1) <= w * B.
Hypothesis Hopt : cannot P = false -> 2 * p <= w.

Lemma np0_spec t : 0 <= t -> exists u, t + p * np0 P t = u * B /\ 0 <= np0 P t < B.
Proof.
  intros Ht. destruct Hnp as [k Hk]. unfold np0. pose proof B_pos.
  pose proof (Z.mod_pos_bound (np P * (t mod B)) B ltac:(lia)).
  assert ((t + p * ((np P * (t mod B)) mod B)) mod B = 0) as E.
  { rewrite Z.add_mod, Z.mul_mod_idemp_r, Z.mul_assoc, Z.mul_mod_idemp_r, <- Z.add_mod by lia.
    replace (t + p * np P * t) with (t * (np P * p + 1)) by ring. rewrite Hk.
    replace (t * (k * B)) with (t * k * B) by ring. apply Z.mod_mul; lia. }
  apply Z.mod_divide in E; [|lia]. destruct E as [u E]. exists u. lia.
Qed.

(** one reduction step on the number [t]: the words, the carry and the quotient *)
Lemma redc_step t : 0 <= t < p * (B + 1) ->
  exists u m, u * B = t + p * m /\ 0 <= u < 2 * p /\ 0 <= m < B /\ np0 P t = m /\
    match addmul_1 (W1 P) t (q P) m with (product, carry) =>
    product / B + w * carry = u /\ 0 <= carry <= 1 /\ 0 <= product / B < w /\ (cannot P = false -> carry = 0) end.
Proof.
  intros Ht. destruct (np0_spec t ltac:(lia)) as (u & Hu & Hm). exists u, (np0 P t).
  set (m := np0 P t) in *. pose proof B_pos. pose proof B_le_w.
  assert (0 <= u < 2 * p) as Hub by nia.
  split; [lia|]. split; [exact Hub|]. split; [exact Hm|]. split; [reflexivity|].
  unfold addmul_1, W1. rewrite Hw, Hq, Hu.
  assert ((u * B) mod (w * B) = (u mod w) * B) as -> by (rewrite (Z.mul_comm u), (Z.mul_comm w), Z.mul_mod_distr_l by lia; lia).
  assert ((u * B) / (w * B) = u / w) as -> by (apply Z.div_mul_cancel_r; lia).
  rewrite Z.div_mul by lia. pose proof (Z.div_mod u w ltac:(lia)). pose proof (Z.mod_pos_bound u w ltac:(lia)).
  split; [lia|]. split; [split; [apply Z.div_pos; lia|]|].
  - assert (u / w < 2) by (apply Z.div_lt_upper_bound; lia). lia.
  - split; [lia|]. intros Hc. apply Z.div_small. specialize (Hopt Hc). lia.
Qed.

Lemma raw_reduce_spec t : 0 <= t < p * (B + 1) ->
  exists m, 0 <= raw_reduce P t 0 < p /\ exists j, raw_reduce P t 0 * B = t + p * m + p * j.
Proof.
  intros Ht. destruct (redc_step t Ht) as (u & m & Hu & Hub & Hm & Em & Hs). exists m.
  unfold raw_reduce. rewrite Em. destruct (addmul_1 (W1 P) t (q P) m) as [product carry].
  destruct Hs as (E & Hc & Hr & Ho). rewrite Hw, Hq. pose proof B_le_w. pose proof B_pos.
  assert (Hfin : forall r, r = u \/ (r = u - p) -> exists j, r * B = t + p * m + p * j).
  { intros r [->| ->]; [exists 0; lia|exists (- B); lia]. }
  destruct (cannot P) eqn:Ec.
  - rewrite Z.add_0_l. rewrite (Z.mod_small carry B) by (unfold B; lia).
    destruct (Z.eqb_spec carry 0) as [E0|E0]; cbn [negb orb].
    + destruct (Z.leb_spec p (product / B)).
      * rewrite Z.mod_small by lia. split; [lia|apply Hfin; lia].
      * split; [lia|apply Hfin; lia].
    + assert (carry = 1) as -> by lia.
      assert ((product / B - p) mod w = u - p) as ->.
      { symmetry. apply Z.mod_unique with (-1); lia. }
      split; [lia|apply Hfin; lia].
  - rewrite (Ho eq_refl) in E. specialize (Hopt eq_refl). destruct (Z.leb_spec p (product / B)).
    + rewrite Z.mod_small by lia. split; [lia|apply Hfin; lia].
    + split; [lia|apply Hfin; lia].
Qed.

Lemma redc_steps_spec k : forall t, 0 <= t < p * (B + 1) ->
  exists m, 0 <= redc_steps P k t < p * (B + 1) /\ redc_steps P k t * B ^ Z.of_nat k = t + p * m.
Proof.
  induction k as [|k IH]; intros t Ht.
  - exists 0. cbn [redc_steps]. change (B ^ Z.of_nat 0) with 1. lia.
  - destruct (redc_step t Ht) as (u & m & Hu & Hub & Hm & Em & Hs).
    cbn [redc_steps]. rewrite Em. destruct (addmul_1 (W1 P) t (q P) m) as [product carry].
    destruct Hs as (E & Hc & Hr & Ho). pose proof B_le_w. pose proof B_pos.
    assert ((if cannot P then W P * carry else B * carry) + product / B = u) as ->.
    { rewrite Hw. destruct (cannot P); [lia|]. rewrite (Ho eq_refl) in *. lia. }
    unfold W1. rewrite Hw, Z.mod_small by nia.
    destruct (IH u ltac:(nia)) as (m' & Hb & Hm'). exists (m + B * m'). split; [exact Hb|].
    rewrite Nat2Z.inj_succ, Z.pow_succ_r by lia. nia.
Qed.

Lemma word_spec a i : 0 <= a -> a mod B ^ Z.of_nat (S i) = a mod B ^ Z.of_nat i + B ^ Z.of_nat i * word a i.
Proof.
  intros Ha. unfold word. rewrite Nat2Z.inj_succ, Z.pow_succ_r by lia. rewrite (Z.mul_comm B).
  apply Z.rem_mul_r. apply Z.pow_nonzero; [discriminate|lia]. reflexivity.
Qed.

Lemma mmul_steps_spec k : forall i a b t, 0 <= a -> 0 <= b < p -> 0 <= t < p * (B + 1) ->
  (exists m, t * B ^ Z.of_nat i = b * (a mod B ^ Z.of_nat (S i)) + p * m) ->
  let '(product, c) := mmul_steps P k i a b t 0 in
  0 <= product < p * (B + 1) /\ c = 0 /\
  exists m, product * B ^ Z.of_nat (i + k) = b * (a mod B ^ Z.of_nat (S (i + k))) + p * m.
Proof.
  induction k as [|k IH]; intros i a b t Ha Hb Ht [m0 Hm0].
  - cbn [mmul_steps]. rewrite Nat.add_0_r. split; [exact Ht|]. split; [reflexivity|]. exists m0. exact Hm0.
  - destruct (redc_step t Ht) as (u & m & Hu & Hub & Hm & Em & Hs).
    cbn [mmul_steps]. rewrite Em. destruct (addmul_1 (W1 P) t (q P) m) as [product carry].
    destruct Hs as (E & Hc & Hr & Ho). pose proof B_le_w. pose proof B_pos.
    unfold addmul_1 at 1. rewrite Z.add_0_l, Hw.
    assert (0 <= word a (S i) < B) as Hwd by (apply Z.mod_pos_bound; reflexivity).
    set (wd := word a (S i)) in *.
    pose proof (Z.div_mod (b * wd) w ltac:(lia)) as Hdm.
    pose proof (Z.mod_pos_bound (b * wd) w ltac:(lia)) as Hmp.
    assert (0 <= (b * wd) / w) by (apply Z.div_pos; nia).
    assert (1 < B) by reflexivity.
    assert (b * wd <= (w - 1) * (B - 1)) by (apply Z.mul_le_mono_nonneg; lia).
    assert ((b * wd) / w < B - 1) by (apply Z.div_lt_upper_bound; lia).
    assert ((b * wd) mod w + w * (if cannot P then (carry + b * wd / w) mod B else b * wd / w) + product / B = b * wd + u) as ->.
    { destruct (cannot P).
      - rewrite (Z.mod_small (carry + _)) by lia. lia.
      - rewrite (Ho eq_refl) in *. lia. }
    assert (0 <= b * wd + u < p * (B + 1)) as Hn' by nia.
    unfold W1. rewrite Hw. rewrite (Z.mod_small (b * wd + u)), (Z.div_small (b * wd + u)) by lia.
    replace (i + S k)%nat with (S i + k)%nat by lia. apply IH; [exact Ha|exact Hb|exact Hn'|].
    exists (m0 + m * B ^ Z.of_nat i). rewrite (word_spec a (S i) Ha). fold wd.
    rewrite Nat2Z.inj_succ, Z.pow_succ_r in Hm0 |- * by lia.
    set (r := a mod _) in *. set (bi := B ^ Z.of_nat i) in *.
    replace ((b * wd + u) * (B * bi)) with (b * (B * bi * wd) + u * B * bi) by ring.
    rewrite Hu. replace ((t + p * m) * bi) with (t * bi + p * m * bi) by ring. rewrite Hm0. ring.
Qed.

Lemma raw_mmul_spec a b : 0 <= a < w -> 0 <= b < p ->
  0 <= raw_mmul P a b < p /\ (raw_mmul P a b * w) mod p = (a * b) mod p.
Proof.
  intros Ha Hb. unfold raw_mmul. pose proof B_le_w. pose proof B_pos. rewrite Hw.
  assert (0 <= word a 0 < B) as Hwd by (apply Z.mod_pos_bound; reflexivity).
  assert ((b * word a 0) mod w + w * (b * word a 0 / w) = b * word a 0) as ->.
  { pose proof (Z.div_mod (b * word a 0) w ltac:(lia)). lia. }
  pose proof (mmul_steps_spec (n64 P - 1) 0 a b (b * word a 0) ltac:(lia) Hb) as S.
  destruct (mmul_steps P (n64 P - 1) 0 a b (b * word a 0) 0) as [product c].
  destruct S as (Hb2 & -> & m & Hm).
  - nia.
  - exists 0. rewrite (word_spec a 0) by lia. change (B ^ Z.of_nat 0) with 1. rewrite Z.mod_1_r. lia.
  - assert ((if cannot P then 0 else 0) = 0) as -> by (destruct (cannot P); reflexivity).
    destruct (raw_reduce_spec product Hb2) as (m' & Hr & j & Hj). split; [exact Hr|].
    rewrite Nat.add_0_l in Hm. replace (S (n64 P - 1)) with (n64 P) in Hm by lia.
    change (B ^ Z.of_nat (n64 P)) with (W P) in Hm. rewrite Hw, (Z.mod_small a) in Hm by lia.
    rewrite W_split. set (bn := B ^ Z.of_nat (n64 P - 1)) in *.
    replace (raw_reduce P product 0 * (bn * B)) with (raw_reduce P product 0 * B * bn) by ring.
    rewrite Hj. replace ((product + p * m' + p * j) * bn) with (product * bn + (m' + j) * bn * p) by ring.
    rewrite Hm. replace (b * a + p * m + (m' + j) * bn * p) with (a * b + (m + (m' + j) * bn) * p) by ring.
    apply Z.mod_add. lia.
Qed.

Lemma redc_all t : 0 <= t < p * (B + 1) ->
  let v := raw_reduce P (redc_steps P (n64 P - 1) t) 0 in 0 <= v < p /\ (v * w) mod p = t mod p.
Proof.
  intros Ht. cbv zeta. destruct (redc_steps_spec (n64 P - 1) t Ht) as (m & Hb2 & Hm).
  destruct (raw_reduce_spec _ Hb2) as (m' & Hr & j & Hj). split; [exact Hr|].
  rewrite W_split. set (bn := B ^ Z.of_nat (n64 P - 1)) in *. set (pr := redc_steps P (n64 P - 1) t) in *.
  replace (raw_reduce P pr 0 * (bn * B)) with (raw_reduce P pr 0 * B * bn) by ring.
  rewrite Hj. replace ((pr + p * m' + p * j) * bn) with (pr * bn + (m' + j) * bn * p) by ring.
  rewrite Hm. replace (t + p * m + (m' + j) * bn * p) with (t + (m + (m' + j) * bn) * p) by ring.
  apply Z.mod_add. lia.
Qed.
Lemma raw_mmul1_spec a b : 0 <= a < p -> 0 <= b < B ->
  0 <= raw_mmul1 P a b < p /\ (raw_mmul1 P a b * w) mod p = (a * b) mod p.
Proof.
  intros Ha Hb. unfold raw_mmul1. pose proof B_le_w. pose proof B_pos. rewrite Hw.
  assert ((a * b) mod w + w * (a * b / w) = a * b) as ->.
  { pose proof (Z.div_mod (a * b) w ltac:(lia)). lia. }
  apply redc_all. nia.
Qed.
Lemma raw_from_montgomery_spec a : 0 <= a < p ->
  0 <= raw_from_montgomery P a < p /\ (raw_from_montgomery P a * w) mod p = a mod p.
Proof. intros Ha. unfold raw_from_montgomery. apply redc_all. pose proof B_pos. nia. Qed.

(** *** Bits *)
Context (nb : Z).
Hypothesis Hnb : 64 * Z.of_nat (n64 P - 1) < nb <= 64 * Z.of_nat (n64 P).
Hypothesis Hlbo : lbo P = 2 ^ (nb - 64 * Z.of_nat (n64 P - 1)) - 1.
Hypothesis Hnbp : 2 ^ (nb - 1) <= p < 2 ^ nb.
Lemma B_pow n : 0 <= n -> B ^ n = 2 ^ (64 * n).
Proof. intros. unfold B. rewrite <- Z.pow_mul_r by lia. reflexivity. Qed.
Lemma mask_reduce_spec r : 0 <= r -> mask_reduce P r = (r mod 2 ^ nb) mod p.
Proof.
  intros Hr. unfold mask_reduce. rewrite Hlbo, Hq, Hw.
  set (k := 64 * Z.of_nat (n64 P - 1)) in *.
  rewrite B_pow by lia. fold k.
  replace (2 ^ (nb - k) - 1) with (Z.ones (nb - k)) by (rewrite Z.ones_equiv; lia).
  rewrite Z.land_ones by lia.
  assert (r mod 2 ^ k + 2 ^ k * ((r / 2 ^ k) mod 2 ^ (nb - k)) = r mod 2 ^ nb) as ->.
  { replace (2 ^ nb) with (2 ^ k * 2 ^ (nb - k)) by (rewrite <- Z.pow_add_r by lia; f_equal; lia).
    symmetry. apply Z.rem_mul_r; [apply Z.pow_nonzero; lia|apply Z.pow_pos_nonneg; lia]. }
  pose proof (Z.mod_pos_bound r (2 ^ nb) ltac:(lia)) as Hb.
  assert (2 ^ nb = 2 * 2 ^ (nb - 1)) by (rewrite <- Z.pow_succ_r by lia; f_equal; lia).
  destruct (Z.leb_spec p (r mod 2 ^ nb)).
  - rewrite (Z.mod_small (_ - p)) by lia. symmetry. apply mod_shift; lia.
  - rewrite (Z.mod_small (_ mod _)) by lia. reflexivity.
Qed.
Lemma w_pow : w = 2 ^ (64 * Z.of_nat (n64 P)).
Proof. rewrite <- Hw. unfold W. apply B_pow. lia. Qed.
Lemma raw_shl_spec a b : 0 <= a < w -> 0 <= b < nb -> raw_shl P a b = ((a * 2 ^ b) mod 2 ^ nb) mod p.
Proof.
  intros Ha Hb. unfold raw_shl. set (n := Z.of_nat (n64 P)) in *.
  pose proof (Z.div_mod b 64 ltac:(lia)) as Hdm. pose proof (Z.mod_pos_bound b 64 ltac:(lia)) as Hmb.
  assert (0 <= b / 64 <= n) as Hws by (split; [apply Z.div_pos; lia|apply Z.lt_le_incl, Z.div_lt_upper_bound; lia]).
  assert (forall x, 0 <= x -> (x mod w) mod 2 ^ nb = x mod 2 ^ nb) as Hmm.
  { intros x Hx. rewrite w_pow. fold n. symmetry.
    replace (2 ^ (64 * n)) with (2 ^ nb * 2 ^ (64 * n - nb)) by (rewrite <- Z.pow_add_r by lia; f_equal; lia).
    rewrite Z.rem_mul_r by (try apply Z.pow_nonzero; try apply Z.pow_pos_nonneg; lia).
    rewrite (Z.mul_comm (2 ^ nb)), Z.mod_add by (apply Z.pow_nonzero; lia). rewrite Z.mod_mod by (apply Z.pow_nonzero; lia). reflexivity. }
  assert ((a mod B ^ (n - b / 64)) * B ^ (b / 64) = (a * 2 ^ (64 * (b / 64))) mod w) as ->.
  { rewrite w_pow. fold n. rewrite !B_pow by lia.
    replace (2 ^ (64 * n)) with (2 ^ (64 * (n - b / 64)) * 2 ^ (64 * (b / 64))) by (rewrite <- Z.pow_add_r by lia; f_equal; lia).
    rewrite Z.mul_mod_distr_r by (apply Z.pow_nonzero; lia). reflexivity. }
  assert (2 ^ b = 2 ^ (64 * (b / 64)) * 2 ^ (b mod 64)) as Eb by (rewrite <- Z.pow_add_r by lia; f_equal; lia).
  destruct (Z.eqb_spec (b mod 64) 0) as [E|E]; cbn [negb].
  - rewrite mask_reduce_spec by (apply Z.mod_pos_bound; lia). rewrite Hmm by nia.
    rewrite Eb, E, Z.mul_1_r. reflexivity.
  - rewrite mask_reduce_spec by (rewrite ?Hw; apply Z.mod_pos_bound; lia). rewrite Hw.
    rewrite Z.mul_mod_idemp_l by lia. rewrite Hmm by nia. rewrite Eb, Z.mul_assoc. reflexivity.
Qed.
Lemma raw_shr_spec a b : 0 <= a < w -> 0 <= b -> raw_shr a b = a / 2 ^ b.
Proof.
  intros Ha Hb. unfold raw_shr.
  pose proof (Z.div_mod b 64 ltac:(lia)) as Hdm. pose proof (Z.mod_pos_bound b 64 ltac:(lia)) as Hmb.
  assert (0 <= b / 64) by (apply Z.div_pos; lia). rewrite B_pow by lia.
  assert (2 ^ b = 2 ^ (64 * (b / 64)) * 2 ^ (b mod 64)) as Eb by (rewrite <- Z.pow_add_r by lia; f_equal; lia).
  destruct (Z.eqb_spec (b mod 64) 0) as [E|E]; cbn [negb].
  - rewrite Eb, E, Z.mul_1_r. reflexivity.
  - rewrite Eb. apply Z.div_div; [apply Z.pow_nonzero; lia|apply Z.pow_pos_nonneg; lia].
Qed.
Lemma raw_not_spec a : 0 <= a < p -> raw_not P a = (2 ^ nb - 1 - a) mod p.
Proof.
  intros Ha. unfold raw_not. rewrite Hw, mask_reduce_spec by lia. f_equal.
  assert (exists k, w = k * 2 ^ nb) as [k Hk].
  { exists (2 ^ (64 * Z.of_nat (n64 P) - nb)). rewrite w_pow, <- Z.pow_add_r by lia. f_equal. lia. }
  rewrite Hk. replace (k * 2 ^ nb - 1 - a) with (2 ^ nb - 1 - a + (k - 1) * 2 ^ nb) by ring.
  rewrite Z.mod_add by lia. apply Z.mod_small. lia.
Qed.
End raw.

(** ** The parameters *)
Lemma bits_log2 p : 0 < p -> bits p = Z.log2 p + 1.
Proof. intros. unfold bits. destruct p; try lia. rewrite Z.abs_eq by lia. reflexivity. Qed.
Lemma pow2_gcd p k : Z.odd p = true -> 0 <= k -> Z.gcd p (2 ^ k) = 1.
Proof.
  intros Ho Hk. apply Zgcd_1_rel_prime. apply rel_prime_Zpower_r; [lia|].
  apply Zgcd_1_rel_prime. apply Z.odd_spec in Ho. destruct Ho as [h ->].
  rewrite Z.gcd_comm, <- Z.gcd_mod by lia. rewrite Z.add_comm, (Z.mul_comm 2), Z.mod_add by lia. reflexivity.
Qed.
Record facts (p : Z) (P : params) : Prop := {
  F_q : q P = p;
  F_w : W P = radix p;
  F_n : (1 <= n64 P)%nat;
  F_pw : p < radix p;
  F_np : exists k, np P * p + 1 = k * B;
  F_fit : p * (B + 1) <= radix p * B;
  F_opt : cannot P = false -> 2 * p <= radix p;
  F_r2 : r2 P = (radix p * radix p) mod p;
  F_r3 : r3 P = (radix p * radix p * radix p) mod p;
  F_half : half P = p / 2;
  F_qbits : qbits P = bits p;
  F_nb : 64 * Z.of_nat (n64 P - 1) < bits p <= 64 * Z.of_nat (n64 P);
  F_lbo : lbo P = 2 ^ (bits p - 64 * Z.of_nat (n64 P - 1)) - 1;
  F_nbp : 2 ^ (bits p - 1) <= p < 2 ^ bits p }.
Lemma params_exist p : usable p -> exists P, fr_params p = Some P.
Proof.
  intros (Ho & Hp & _ & _). unfold fr_params.
  destruct (mod_inverse_complete p B) as [i ->]; [reflexivity|apply pow2_gcd; [exact Ho|lia]|].
  eexists. reflexivity.
Qed.
Lemma params_facts p P : usable p -> fr_params p = Some P -> facts p P.
Proof.
  intros (Ho & Hp & _ & Hfit) HP. unfold fr_params in HP.
  destruct (mod_inverse p B) as [inv|] eqn:Ei; [|discriminate HP].
  apply (f_equal (fun o => match o with Some x => x | None => P end)) in HP. cbv beta iota zeta in HP. subst P.
  apply mod_inverse_some in Ei; [|reflexivity]. destruct Ei as [Hi Ei].
  pose proof (bits_log2 p ltac:(lia)) as Hb. pose proof (Z.log2_spec p ltac:(lia)) as Hl.
  assert (62 <= Z.log2 p) by (apply Z.log2_le_pow2; lia).
  assert (radix p = 2 ^ (64 * ((bits p + 63) / 64))) as HR by (unfold radix, words; rewrite Hb; reflexivity).
  set (n := (bits p + 63) / 64) in *.
  pose proof (Z.div_mod (bits p + 63) 64 ltac:(lia)) as Hdm. pose proof (Z.mod_pos_bound (bits p + 63) 64 ltac:(lia)) as Hmb. fold n in Hdm.
  assert (1 <= n) by lia.
  assert (Z.of_nat (Z.to_nat n) = n) as En by lia.
  assert (Z.of_nat (Z.to_nat n - 1) = n - 1) as En1 by lia.
  assert (2 ^ bits p <= radix p) as Hbr by (rewrite HR; apply Z.pow_le_mono_r; lia).
  assert (2 ^ (bits p - 1) <= p < 2 ^ bits p) as Hpp by (rewrite Hb, Z.add_simpl_r; exact Hl).
  assert (2 ^ (64 * n) = 2 ^ (64 * (n - 1)) * 2 ^ 64) as Hsp by (rewrite <- Z.pow_add_r by lia; f_equal; lia).
  constructor; cbn [q n64 np r2 r3 half lbo qbits cannot]; try reflexivity.
  - unfold W. cbn [n64]. rewrite En, HR. unfold B. rewrite <- Z.pow_mul_r by lia. reflexivity.
  - lia.
  - lia.
  - exists (p - inv * p / B). pose proof (Z.div_mod (inv * p) B ltac:(discriminate)). lia.
  - exact Hfit.
  - intros Hc. apply Z.ltb_ge in Hc. rewrite HR, Hsp. replace ((n - 1) * 64) with (64 * (n - 1)) in Hc by lia.
    set (h := 2 ^ (64 * (n - 1))) in *. assert (0 < h) by (apply Z.pow_pos_nonneg; lia).
    pose proof (Z.div_mod p h ltac:(lia)). pose proof (Z.mod_pos_bound p h ltac:(lia)). nia.
  - rewrite HR, <- Z.pow_add_r by lia. f_equal. f_equal. lia.
  - rewrite HR, <- !Z.pow_add_r by lia. f_equal. f_equal. lia.
  - rewrite En, En1. lia.
  - rewrite En1. unfold B. replace (n * 64 - bits p) with (64 - (bits p - 64 * (n - 1))) by lia.
    rewrite <- Z.pow_sub_r by lia. do 2 f_equal. lia.
  - exact Hpp.
Qed.

(** ** Elements *)
Lemma addr_eqb_refl x : addr_eqb x x = true.
Proof. destruct x; [apply Nat.eqb_refl|reflexivity]. Qed.
Lemma addr_eqb_ne x y : x <> y -> addr_eqb x y = false.
Proof.
  destruct x, y; intros H; cbn; try reflexivity; [|congruence].
  apply Nat.eqb_neq. congruence.
Qed.
Lemma store_same m r e : store m r e r = e.
Proof. unfold store. rewrite addr_eqb_refl. reflexivity. Qed.
Lemma store_other m r e c : c <> r -> store m r e c = m c.
Proof. intros. unfold store. rewrite addr_eqb_ne by assumption. reflexivity. Qed.

Section elem.
Context (p : Z) (P : params) (junk : fr).
Hypothesis HF : facts p P.
Hypothesis Ho : Z.odd p = true.
Hypothesis Hp : 2 ^ 62 < p.
Notation R := (radix p).

Lemma R_pos : 0 < R.
Proof. pose proof (F_pw _ _ HF). lia. Qed.
Lemma radix_inverse : exists i, (R * i) mod p = 1.
Proof.
  destruct (mod_inverse_complete R p) as [i Hi]; [lia| |].
  - rewrite Z.gcd_comm. unfold radix. apply pow2_gcd; [exact Ho|]. unfold words.
    assert (0 <= (Z.log2 p + 1 + 63) / 64) by (apply Z.div_pos; pose proof (Z.log2_nonneg p); lia). lia.
  - apply mod_inverse_some in Hi; [|lia]. exists i. rewrite Z.mul_comm. apply Hi.
Qed.
Lemma cancel z v : 0 <= z < p -> (z * R) mod p = (v * R) mod p -> z = v mod p.
Proof.
  intros Hz E. destruct radix_inverse as [i Hi].
  assert (forall x, ((x * R) mod p * i) mod p = x mod p) as Hx.
  { intros x. rewrite Z.mul_mod_idemp_l by lia. replace (x * R * i) with (x * (R * i)) by ring.
    rewrite Z.mul_mod, Hi, Z.mul_1_r, Z.mod_mod by lia. reflexivity. }
  rewrite <- (Z.mod_small z p) by lia. rewrite <- (Hx z), E. apply Hx.
Qed.
Lemma mod_range x : 0 <= x mod p < p.
Proof. apply Z.mod_pos_bound. lia. Qed.

Ltac raw := first
  [ exact (F_q _ _ HF) | exact (F_w _ _ HF) | exact (F_n _ _ HF) | exact (F_pw _ _ HF) | exact (F_np _ _ HF)
  | exact (F_fit _ _ HF) | exact (F_opt _ _ HF) | exact (F_nb _ _ HF) | exact (F_lbo _ _ HF) | exact (F_nbp _ _ HF)
  | exact Hp ].
Lemma e_add a b : 0 <= a < p -> 0 <= b < p -> raw_add P a b = (a + b) mod p.
Proof. apply (raw_add_spec P p R); raw. Qed.
Lemma e_add_ls a b : 0 <= a < p -> 0 <= b < p -> raw_add_ls P a b = (a + b) mod p.
Proof. apply (raw_add_ls_spec P p R); raw. Qed.
Lemma e_sub a b : 0 <= a < p -> 0 <= b < p -> raw_sub P a b = (a - b) mod p.
Proof. apply (raw_sub_spec P p R); raw. Qed.
Lemma e_sub_ls a b : 0 <= a < p -> 0 <= b < p -> raw_sub_ls P a b = (a - b) mod p.
Proof. apply (raw_sub_ls_spec P p R); raw. Qed.
Lemma e_sub_sl a b : 0 <= a < p -> 0 <= b < p -> raw_sub_sl P a b = (a - b) mod p.
Proof. apply (raw_sub_sl_spec P p R); raw. Qed.
Lemma e_neg a : 0 <= a < p -> raw_neg P a = (- a) mod p.
Proof. apply (raw_neg_spec P p R); raw. Qed.
Lemma e_neg_ls a b : 0 <= a < p -> 0 < b < p -> raw_neg_ls P a b = (- b - a) mod p.
Proof. apply (raw_neg_ls_spec P p R); raw. Qed.
Lemma e_s2l v : - 2 ^ 62 <= v <= 2 ^ 62 -> raw_copy_s2l P v = v mod p.
Proof. apply (raw_copy_s2l_spec P p R); raw. Qed.
Lemma e_mmul a b : 0 <= a < p -> 0 <= b < p ->
  0 <= raw_mmul P a b < p /\ (raw_mmul P a b * R) mod p = (a * b) mod p.
Proof. intros. apply (raw_mmul_spec P p R); try raw; pose proof (F_pw _ _ HF); lia. Qed.
Lemma e_mmul1 a b : 0 <= a < p -> 0 <= b < B ->
  0 <= raw_mmul1 P a b < p /\ (raw_mmul1 P a b * R) mod p = (a * b) mod p.
Proof. apply (raw_mmul1_spec P p R); raw. Qed.
Lemma e_from a : 0 <= a < p ->
  0 <= raw_from_montgomery P a < p /\ (raw_from_montgomery P a * R) mod p = a mod p.
Proof. apply (raw_from_montgomery_spec P p R); raw. Qed.
Lemma e_mask r : 0 <= r -> mask_reduce P r = (r mod 2 ^ bits p) mod p.
Proof. apply (mask_reduce_spec P p R) with (nb := bits p); raw. Qed.
Lemma e_shl a b : 0 <= a < p -> 0 <= b < bits p -> raw_shl P a b = ((a * 2 ^ b) mod 2 ^ bits p) mod p.
Proof. intros. apply (raw_shl_spec P p R) with (nb := bits p); try raw; pose proof (F_pw _ _ HF); lia. Qed.
Lemma e_shr a b : 0 <= a < p -> 0 <= b -> raw_shr a b = a / 2 ^ b.
Proof. intros. apply (raw_shr_spec P p R) with (nb := bits p); try raw; pose proof (F_pw _ _ HF); lia. Qed.
Lemma e_not a : 0 <= a < p -> raw_not P a = (2 ^ bits p - 1 - a) mod p.
Proof. apply (raw_not_spec P p R) with (nb := bits p); raw. Qed.

(** *** Products in the two forms; [x] and [y] are members of the field *)
Notation "x ~ y" := (x mod p = y mod p) (at level 70).
Lemma mm_mod a b : (a mod p * b) mod p = (a * b) mod p. Proof. apply Z.mul_mod_idemp_l; lia. Qed.
Lemma mm_mod_r a b : (a * (b mod p)) mod p = (a * b) mod p. Proof. apply Z.mul_mod_idemp_r; lia. Qed.
(** the product is [v] if [a * b] is [v * R] *)
Lemma mmul_val a b v : 0 <= a < p -> 0 <= b < p -> (a * b) mod p = (v * R) mod p -> raw_mmul P a b = v mod p.
Proof. intros Ha Hb E. destruct (e_mmul a b Ha Hb) as [H1 H2]. apply cancel; [exact H1|congruence]. Qed.
Lemma mmul1_val a b v : 0 <= a < p -> 0 <= b < B -> (a * b) mod p = (v * R) mod p -> raw_mmul1 P a b = v mod p.
Proof. intros Ha Hb E. destruct (e_mmul1 a b Ha Hb) as [H1 H2]. apply cancel; [exact H1|congruence]. Qed.
Lemma from_val a v : 0 <= a < p -> a = (v * R) mod p -> raw_from_montgomery P a = v mod p.
Proof.
  intros Ha E. destruct (e_from a Ha) as [H1 H2]. apply cancel; [exact H1|].
  rewrite H2, E, Z.mod_mod by lia. reflexivity.
Qed.

(** *** Conversions *)
Definition short_ok (s : Z) : Prop := - 2 ^ 31 <= s < 2 ^ 31.
Lemma rep_range e x : represents p e x -> 0 <= x < p.
Proof. intros [H _]. exact H. Qed.
Lemma rep_short e x : represents p e x -> is_long (f_type e) = false -> short_ok (f_short e) /\ x = f_short e mod p.
Proof. intros [H1 H2] H. destruct e as [s t l]; cbn [f_short f_type f_long] in *. unfold short_ok.
  destruct t; cbn [is_long is_mont] in H; try discriminate H; repeat split; apply H2. Qed.
Lemma rep_normal e x : represents p e x -> is_long (f_type e) = true -> is_mont (f_type e) = false -> f_long e = x.
Proof. intros [H1 H2] H H'. destruct e as [s t l]; cbn [f_short f_type f_long] in *.
  destruct t; cbn [is_long is_mont] in H, H'; try discriminate; exact H2. Qed.
Lemma rep_mont e x : represents p e x -> is_mont (f_type e) = true -> f_long e = (x * R) mod p.
Proof. intros [H1 H2] H. destruct e as [s t l]; cbn [f_short f_type f_long] in *. unfold short_ok.
  destruct t; cbn [is_long is_mont] in H; try discriminate H; repeat split; apply H2. Qed.
Ltac fields := cbn [is_long is_mont is_longmont f_short f_type f_long] in *.
Lemma to_normal_long e x : represents p e x -> is_long (f_type e) = true ->
  f_long (to_normal P junk e) = x /\ f_type (to_normal P junk e) = LONG.
Proof.
  intros [H1 H2] H. destruct e as [s t l]; unfold to_normal; fields. destruct t; fields; try discriminate H.
  - auto.
  - split; [|reflexivity]. rewrite (from_val l x); [apply Z.mod_small; lia|rewrite H2; apply mod_range|exact H2].
Qed.
Lemma to_long_normal_spec e x : represents p e x ->
  f_long (to_long_normal P junk e) = x /\ f_type (to_long_normal P junk e) = LONG.
Proof.
  intros [H1 H2]. destruct e as [s t l]; unfold to_long_normal; fields. destruct t; fields.
  - rewrite e_s2l by lia. split; [symmetry; apply H2|reflexivity].
  - rewrite e_s2l by lia. split; [symmetry; apply H2|reflexivity].
  - auto.
  - split; [|reflexivity]. rewrite (from_val l x); [apply Z.mod_small; lia|rewrite H2; apply mod_range|exact H2].
Qed.
Lemma r2_range : 0 <= r2 P < p. Proof. rewrite (F_r2 _ _ HF). apply mod_range. Qed.
Lemma r3_range : 0 <= r3 P < p. Proof. rewrite (F_r3 _ _ HF). apply mod_range. Qed.
Lemma mul_r2 x : (x * r2 P) mod p = (x * R * R) mod p.
Proof. rewrite (F_r2 _ _ HF), mm_mod_r. f_equal. ring. Qed.
Lemma mul_r3 x : (x * r3 P) mod p = (x * R * R * R) mod p.
Proof. rewrite (F_r3 _ _ HF), mm_mod_r. f_equal. ring. Qed.
Lemma short_B s : short_ok s -> 0 <= s -> 0 <= s < B.
Proof. unfold short_ok, B. lia. Qed.
Lemma short_B_neg s : short_ok s -> s < 0 -> 0 <= - s < B.
Proof. unfold short_ok, B. lia. Qed.
Lemma neg_mod a : (- (a mod p)) mod p = (- a) mod p.
Proof.
  replace (- (a mod p)) with ((a mod p) * -1) by ring. rewrite mm_mod. f_equal. ring.
Qed.
Lemma to_montgomery_spec e x : represents p e x -> f_long (to_montgomery P junk e) = (x * R) mod p.
Proof.
  intros [H1 H2]. destruct e as [s t l]; unfold to_montgomery; fields. destruct t; fields; try tauto.
  - destruct H2 as [Hs Hx]. destruct (Z.ltb_spec s 0); fields.
    + rewrite (mmul1_val _ _ (- s * R)).
      * rewrite e_neg by apply mod_range. rewrite neg_mod, Hx, mm_mod. f_equal. ring.
      * apply r2_range.
      * apply short_B_neg; assumption.
      * rewrite Z.mul_comm, mul_r2. reflexivity.
    + rewrite (mmul1_val _ _ (s * R)).
      * rewrite Hx, mm_mod. reflexivity.
      * apply r2_range.
      * apply short_B; assumption.
      * rewrite Z.mul_comm, mul_r2. reflexivity.
  - subst l. apply mmul_val; [lia|apply r2_range|]. apply mul_r2.
Qed.

(** *** What is left in the memory *)
Ltac mem := unfold store_long_product, store_bool, store_short, store_type, store_long in *; cbv zeta;
  repeat first [rewrite store_same | rewrite store_other by congruence]; cbn [set_short set_type set_long f_short f_type f_long].
Ltac frame := let c := fresh "c" in let Hc := fresh "Hc" in intros c Hc; mem; reflexivity.
Lemma rep_of_long s v x : 0 <= x < p -> v = x -> represents p (Fr s LONG v) x.
Proof. intros H ->. split; [exact H|reflexivity]. Qed.
Lemma rep_of_mont s v x : 0 <= x < p -> v = (x * R) mod p -> represents p (Fr s LONGMONTGOMERY v) x.
Proof. intros H ->. split; [exact H|reflexivity]. Qed.
Lemma rep_of_short s v x : short_ok s -> x = s mod p -> represents p (Fr s SHORT v) x.
Proof. intros H ->. split; [apply mod_range|split; [exact H|reflexivity]]. Qed.

Lemma y_mul_to_long m r a b v : r <> a -> r <> b -> 0 <= f_long (m a) < p -> 0 <= f_long (m b) < p ->
  (f_long (m a) * f_long (m b)) mod p = (v * R) mod p -> yields p m r (mul_to_long P m r a b) (v mod p).
Proof.
  intros Ha Hb Ra Rb E. split; [|unfold mul_to_long; frame].
  unfold mul_to_long. mem. apply rep_of_long; [apply mod_range|]. apply mmul_val; assumption.
Qed.
Lemma y_mul_to_mont m r a b v : r <> a -> r <> b -> 0 <= f_long (m a) < p -> 0 <= f_long (m b) < p ->
  (f_long (m a) * f_long (m b)) mod p = (v * R * R) mod p -> yields p m r (mul_to_mont P m r a b) (v mod p).
Proof.
  intros Ha Hb Ra Rb E. split; [|unfold mul_to_mont; frame].
  unfold mul_to_mont. mem. apply rep_of_mont; [apply mod_range|]. rewrite mm_mod. apply mmul_val; assumption.
Qed.
(** the second product by R3 *)
Lemma mmul_r3 v u : 0 <= u < p -> (u * R) mod p = v mod p -> raw_mmul P u (r3 P) = (v * R) mod p.
Proof.
  intros Hu E. apply mmul_val; [exact Hu|apply r3_range|].
  rewrite mul_r3. replace (u * R * R * R) with ((u * R) * (R * R)) by ring.
  rewrite <- mm_mod, E, mm_mod. f_equal. ring.
Qed.
Lemma y_mul_l1nl2n m r a b v : r <> a -> r <> b -> 0 <= f_long (m a) < p -> 0 <= f_long (m b) < p ->
  (f_long (m a) * f_long (m b)) mod p = v mod p -> yields p m r (mul_l1nl2n P m r a b) (v mod p).
Proof.
  intros Ha Hb Ra Rb E. split; [|unfold mul_l1nl2n; frame].
  unfold mul_l1nl2n. mem. apply rep_of_mont; [apply mod_range|]. rewrite mm_mod.
  destruct (e_mmul (f_long (m a)) (f_long (m b)) Ra Rb) as [H1 H2]. apply mmul_r3; [exact H1|]. congruence.
Qed.
(** the product with a short factor, of any sign *)
Definition mmul1_signed (a s : Z) : Z := if s <? 0 then raw_neg P (raw_mmul1 P a (- s)) else raw_mmul1 P a s.
Lemma mmul1_signed_spec a s : 0 <= a < p -> short_ok s ->
  0 <= mmul1_signed a s < p /\ (mmul1_signed a s * R) mod p = (a * s) mod p.
Proof.
  intros Ha Hs. unfold mmul1_signed. destruct (Z.ltb_spec s 0).
  - destruct (e_mmul1 a (- s) Ha (short_B_neg s Hs H)) as [H1 H2]. rewrite e_neg by exact H1.
    split; [apply mod_range|]. rewrite mm_mod. replace (- raw_mmul1 P a (- s) * R) with ((raw_mmul1 P a (- s) * R) * -1) by ring.
    rewrite <- mm_mod, H2, mm_mod. f_equal. ring.
  - exact (e_mmul1 a s Ha (short_B s Hs H)).
Qed.
Lemma y_mul_l1ns2n m r a b v : r <> a -> r <> b -> 0 <= f_long (m a) < p -> short_ok (f_short (m b)) ->
  (f_long (m a) * f_short (m b)) mod p = v mod p -> yields p m r (mul_l1ns2n P m r a b) (v mod p).
Proof.
  intros Ha Hb Ra Rb E. destruct (mmul1_signed_spec _ _ Ra Rb) as [H1 H2].
  assert (raw_mmul P (mmul1_signed (f_long (m a)) (f_short (m b))) (r3 P) = (v * R) mod p) as K.
  { apply mmul_r3; [exact H1|]. congruence. }
  unfold mmul1_signed in K. split.
  - unfold mul_l1ns2n. mem. destruct (f_short (m b) <? 0); mem; (apply rep_of_mont; [apply mod_range|]; rewrite mm_mod; exact K).
  - unfold mul_l1ns2n. intros c Hc. mem. destruct (f_short (m b) <? 0); mem; reflexivity.
Qed.
Lemma y_mul_l1ms2n m r a b v : r <> a -> r <> b -> 0 <= f_long (m a) < p -> short_ok (f_short (m b)) ->
  (f_long (m a) * f_short (m b)) mod p = (v * R) mod p -> yields p m r (mul_l1ms2n P m r a b) (v mod p).
Proof.
  intros Ha Hb Ra Rb E. destruct (mmul1_signed_spec _ _ Ra Rb) as [H1 H2].
  assert (mmul1_signed (f_long (m a)) (f_short (m b)) = v mod p) as K.
  { apply cancel; [exact H1|]. congruence. }
  unfold mmul1_signed in K. split.
  - unfold mul_l1ms2n. mem. destruct (f_short (m b) <? 0); mem; (apply rep_of_long; [apply mod_range|]; exact K).
  - unfold mul_l1ms2n. intros c Hc. mem. destruct (f_short (m b) <? 0); mem; reflexivity.
Qed.
Lemma y_long_product m r v : - 2 ^ 62 <= v <= 2 ^ 62 -> yields p m r (store_long_product P m r v) (v mod p).
Proof.
  intros Hv. split; [|frame]. mem. apply rep_of_long; [apply mod_range|]. apply e_s2l. exact Hv.
Qed.
Lemma y_mul_s1s2 m r a b : short_ok (f_short (m a)) -> short_ok (f_short (m b)) ->
  yields p m r (mul_s1s2 P m r a b) ((f_short (m a) * f_short (m b)) mod p).
Proof.
  intros Ha Hb. unfold mul_s1s2. cbv zeta. unfold short_ok in *.
  assert (- 2 ^ 62 <= f_short (m a) * f_short (m b) <= 2 ^ 62) as Hr by nia.
  destruct (has_mul32_overflow _); [apply y_long_product, Hr|].
  destruct (y_long_product (store_type (store_short m r (int32 (f_short (m a) * f_short (m b)))) r SHORT) r _ Hr) as [A B].
  split; [exact A|]. intros c Hc. rewrite (B c Hc). mem. reflexivity.
Qed.

Lemma long_range e x : represents p e x -> is_long (f_type e) = true \/ is_mont (f_type e) = true -> 0 <= f_long e < p.
Proof.
  intros [H1 H2] H. destruct e as [s t l]; fields. destruct t; fields.
  - destruct H; discriminate.
  - destruct H2 as (_ & _ & ->). apply mod_range.
  - lia.
  - rewrite H2. apply mod_range.
Qed.
Lemma fr_mul_ok m r a b x y : r <> a -> r <> b -> represents p (m a) x -> represents p (m b) y ->
  yields p m r (fr_mul P m r a b) ((x * y) mod p).
Proof.
  intros Ha Hb Ra Rb. unfold fr_mul.
  pose proof (rep_short _ _ Ra) as Sa. pose proof (rep_normal _ _ Ra) as Na. pose proof (rep_mont _ _ Ra) as Ma. pose proof (long_range _ _ Ra) as La.
  pose proof (rep_short _ _ Rb) as Sb. pose proof (rep_normal _ _ Rb) as Nb. pose proof (rep_mont _ _ Rb) as Mb. pose proof (long_range _ _ Rb) as Lb.
  destruct (is_long (f_type (m a))) eqn:La1, (is_long (f_type (m b))) eqn:Lb1; cbv zeta.
  - destruct (is_mont (f_type (m a))) eqn:Ma1, (is_mont (f_type (m b))) eqn:Mb1.
    + apply y_mul_to_mont; auto. rewrite Ma, Mb, mm_mod, mm_mod_r by reflexivity. f_equal. ring.
    + apply y_mul_to_long; auto. rewrite Ma, Nb, mm_mod by reflexivity. f_equal. ring.
    + apply y_mul_to_long; auto. rewrite Na, Mb, mm_mod_r by reflexivity. f_equal. ring.
    + apply y_mul_l1nl2n; auto. rewrite Na, Nb by reflexivity. reflexivity.
  - destruct (Sb eq_refl) as [Sb1 Sb2]. destruct (is_mont (f_type (m a))) eqn:Ma1, (is_mont (f_type (m b))) eqn:Mb1.
    + apply y_mul_to_mont; auto. rewrite Ma, Mb, mm_mod, mm_mod_r by reflexivity. f_equal. ring.
    + apply y_mul_l1ms2n; auto. rewrite Ma, mm_mod by reflexivity. rewrite Sb2.
      replace (x * R * f_short (m b)) with (x * R * f_short (m b)) by ring.
      replace (x * (f_short (m b) mod p) * R) with (x * R * (f_short (m b) mod p)) by ring. rewrite mm_mod_r. reflexivity.
    + apply y_mul_to_long; auto. rewrite Na, Mb, mm_mod_r by reflexivity. f_equal. ring.
    + apply y_mul_l1ns2n; auto. rewrite Na by reflexivity. rewrite Sb2, mm_mod_r. reflexivity.
  - destruct (Sa eq_refl) as [Sa1 Sa2]. destruct (is_mont (f_type (m a))) eqn:Ma1, (is_mont (f_type (m b))) eqn:Mb1.
    + apply y_mul_to_mont; auto. rewrite Ma, Mb, mm_mod, mm_mod_r by reflexivity. f_equal. ring.
    + apply y_mul_to_long; auto. rewrite Ma, Nb, mm_mod by reflexivity. f_equal. ring.
    + apply y_mul_l1ms2n; auto. rewrite Mb, mm_mod by reflexivity. rewrite Sa2.
      replace (f_short (m a) mod p * y * R) with (y * R * (f_short (m a) mod p)) by ring. rewrite mm_mod_r. reflexivity.
    + apply y_mul_l1ns2n; auto. rewrite Nb by reflexivity. rewrite Sa2, mm_mod. f_equal. ring.
  - destruct (Sa eq_refl) as [Sa1 Sa2]. destruct (Sb eq_refl) as [Sb1 Sb2].
    rewrite Sa2, Sb2, mm_mod, mm_mod_r. apply y_mul_s1s2; assumption.
Qed.
Lemma fr_square_ok m r a x : r <> a -> represents p (m a) x -> yields p m r (fr_square P m r a) ((x * x) mod p).
Proof.
  intros Ha Ra. pose proof (fr_mul_ok m r a a x x Ha Ha Ra Ra) as H. unfold fr_mul in H. unfold fr_square.
  destruct (f_type (m a)); cbn [is_long is_mont is_longmont] in *; exact H.
Qed.

(** *** Additions *)
Lemma add_overflow v : - 2 ^ 32 <= v <= 2 ^ 32 - 1 -> has_add32_overflow v = false -> short_ok v.
Proof.
  intros Hv. unfold has_add32_overflow, short_ok. rewrite Z.shiftr_div_pow2 by lia.
  change 3 with (Z.ones 2). rewrite Z.land_ones by lia. change (2 ^ 2) with 4.
  assert (-2 <= v / 2 ^ 31 <= 1) as Hd.
  { split; [apply Z.div_le_lower_bound; lia|]. assert (v / 2 ^ 31 < 2) by (apply Z.div_lt_upper_bound; lia). lia. }
  pose proof (Z.div_mod v (2 ^ 31) ltac:(lia)). pose proof (Z.mod_pos_bound v (2 ^ 31) ltac:(lia)).
  assert (v / 2 ^ 31 = -2 \/ v / 2 ^ 31 = -1 \/ v / 2 ^ 31 = 0 \/ v / 2 ^ 31 = 1) as [E|[E|[E|E]]] by lia;
    rewrite E in *; intros K; try discriminate; lia.
Qed.
Lemma int32_small v : short_ok v -> int32 v = v.
Proof. unfold short_ok, int32. intros. rewrite Z.mod_small by lia. lia. Qed.
Lemma y_short_result m r v : - 2 ^ 32 <= v <= 2 ^ 32 - 1 -> yields p m r (store_short_result P m r v) (v mod p).
Proof.
  intros Hv. unfold store_short_result. destruct (has_add32_overflow v) eqn:E.
  - split; [|frame]. mem. apply rep_of_long; [apply mod_range|]. apply e_s2l. lia.
  - pose proof (add_overflow v Hv E) as Hs. split; [|frame]. mem. rewrite int32_small by exact Hs.
    apply rep_of_short; [exact Hs|reflexivity].
Qed.
Lemma add_mod2 a b : (a mod p + b mod p) mod p = (a + b) mod p. Proof. symmetry. apply Z.add_mod. lia. Qed.
Lemma sub_mod2 a b : (a mod p - b mod p) mod p = (a - b) mod p. Proof. symmetry. apply Zminus_mod. Qed.
Lemma add_mod_r a b : (a + b mod p) mod p = (a + b) mod p. Proof. apply Z.add_mod_idemp_r. lia. Qed.
Lemma sub_mod_l a b : (a mod p - b) mod p = (a - b) mod p. Proof. apply Zminus_mod_idemp_l. Qed.
Lemma sub_mod_r a b : (a - b mod p) mod p = (a - b) mod p. Proof. apply Zminus_mod_idemp_r. Qed.

Lemma short_p s : short_ok s -> 0 <= s -> 0 <= s < p.
Proof. unfold short_ok. lia. Qed.
Lemma fr_add_ok m r a b x y : r <> a -> r <> b -> represents p (m a) x -> represents p (m b) y ->
  yields p m r (fr_add P junk m r a b) ((x + y) mod p).
Proof.
  intros Ha Hb Ra Rb. unfold fr_add.
  pose proof (rep_short _ _ Ra) as Sa. pose proof (rep_normal _ _ Ra) as Na. pose proof (rep_mont _ _ Ra) as Ma. pose proof (long_range _ _ Ra) as La.
  pose proof (rep_short _ _ Rb) as Sb. pose proof (rep_normal _ _ Rb) as Nb. pose proof (rep_mont _ _ Rb) as Mb. pose proof (long_range _ _ Rb) as Lb.
  assert (Dist : ((x + y) mod p * R) mod p = (x * R + y * R) mod p) by (rewrite mm_mod; f_equal; ring).
  assert (Kmm : is_mont (f_type (m a)) = true -> is_mont (f_type (m b)) = true -> yields p m r (add_l1ml2m P m r a b) ((x + y) mod p)).
  { intros A1 A2. split; [|unfold add_l1ml2m; frame]. unfold add_l1ml2m. mem.
    apply rep_of_mont; [apply mod_range|]. rewrite Dist, e_add by auto. rewrite Ma, Mb by assumption. apply add_mod2. }
  assert (Kam : is_mont (f_type (m b)) = true -> yields p m r (add_am P junk m r a b) ((x + y) mod p)).
  { intros A1. split; [|unfold add_am; frame]. unfold add_am. mem.
    apply rep_of_mont; [apply mod_range|]. rewrite (to_montgomery_spec _ x) by assumption.
    rewrite Dist, e_add by (auto; apply mod_range). rewrite Mb by assumption. apply add_mod2. }
  assert (Kbm : is_mont (f_type (m a)) = true -> yields p m r (add_bm P junk m r a b) ((x + y) mod p)).
  { intros A1. split; [|unfold add_bm; frame]. unfold add_bm. mem.
    apply rep_of_mont; [apply mod_range|]. rewrite (to_montgomery_spec _ y) by assumption.
    rewrite Dist, e_add by (auto; apply mod_range). rewrite Ma by assumption. apply add_mod2. }
  assert (Ksl : forall u v xu xv, r <> u -> r <> v -> short_ok (f_short (m u)) -> xu = f_short (m u) mod p -> 0 <= f_long (m v) < p -> f_long (m v) = xv ->
    yields p m r (add_s1l2n P m r u v) ((xu + xv) mod p)).
  { intros u v xu xv Hu Hv S1 S2 L1 L2. split.
    - unfold add_s1l2n. mem. destruct (Z.leb_spec 0 (f_short (m u))); mem.
      + apply rep_of_long; [apply mod_range|]. rewrite e_add_ls by (auto using short_p). rewrite L2, S2, Z.add_comm.
        rewrite Z.add_mod_idemp_l by lia. reflexivity.
      + apply rep_of_long; [apply mod_range|]. rewrite e_sub_ls by (unfold short_ok in *; lia). rewrite L2, S2.
        rewrite Z.add_mod_idemp_l by lia. f_equal. lia.
    - unfold add_s1l2n. intros c Hc. mem. destruct (0 <=? f_short (m u)); mem; reflexivity. }
  destruct (is_long (f_type (m a))) eqn:La1, (is_long (f_type (m b))) eqn:Lb1; cbv zeta.
  - destruct (is_mont (f_type (m a))) eqn:Ma1, (is_mont (f_type (m b))) eqn:Mb1; auto.
    split; [|unfold add_l1nl2n; frame]. unfold add_l1nl2n. mem. apply rep_of_long; [apply mod_range|].
    rewrite e_add by auto. rewrite Na, Nb by reflexivity. reflexivity.
  - destruct (Sb eq_refl) as [Sb1 Sb2]. destruct (is_mont (f_type (m a))) eqn:Ma1, (is_mont (f_type (m b))) eqn:Mb1; auto.
    all: rewrite (Z.add_comm x); apply Ksl; auto.
  - destruct (Sa eq_refl) as [Sa1 Sa2]. destruct (is_mont (f_type (m a))) eqn:Ma1, (is_mont (f_type (m b))) eqn:Mb1; auto.
  - destruct (Sa eq_refl) as [Sa1 Sa2]. destruct (Sb eq_refl) as [Sb1 Sb2]. rewrite Sa2, Sb2, add_mod2.
    unfold add_s1s2. apply y_short_result. unfold short_ok in *. lia.
Qed.
Lemma fr_sub_ok m r a b x y : r <> a -> r <> b -> represents p (m a) x -> represents p (m b) y ->
  yields p m r (fr_sub P junk m r a b) ((x - y) mod p).
Proof.
  intros Ha Hb Ra Rb. unfold fr_sub.
  pose proof (rep_short _ _ Ra) as Sa. pose proof (rep_normal _ _ Ra) as Na. pose proof (rep_mont _ _ Ra) as Ma. pose proof (long_range _ _ Ra) as La.
  pose proof (rep_short _ _ Rb) as Sb. pose proof (rep_normal _ _ Rb) as Nb. pose proof (rep_mont _ _ Rb) as Mb. pose proof (long_range _ _ Rb) as Lb.
  assert (Dist : ((x - y) mod p * R) mod p = (x * R - y * R) mod p) by (rewrite mm_mod; f_equal; ring).
  assert (Kmm : is_mont (f_type (m a)) = true -> is_mont (f_type (m b)) = true -> yields p m r (sub_l1ml2m P m r a b) ((x - y) mod p)).
  { intros A1 A2. split; [|unfold sub_l1ml2m; frame]. unfold sub_l1ml2m. mem.
    apply rep_of_mont; [apply mod_range|]. rewrite Dist, e_sub by auto. rewrite Ma, Mb by assumption. apply sub_mod2. }
  assert (Kam : is_mont (f_type (m b)) = true -> yields p m r (sub_am P junk m r a b) ((x - y) mod p)).
  { intros A1. split; [|unfold sub_am; frame]. unfold sub_am. mem.
    apply rep_of_mont; [apply mod_range|]. rewrite (to_montgomery_spec _ x) by assumption.
    rewrite Dist, e_sub by (auto; apply mod_range). rewrite Mb by assumption. apply sub_mod2. }
  assert (Kbm : is_mont (f_type (m a)) = true -> yields p m r (sub_bm P junk m r a b) ((x - y) mod p)).
  { intros A1. split; [|unfold sub_bm; frame]. unfold sub_bm. mem.
    apply rep_of_mont; [apply mod_range|]. rewrite (to_montgomery_spec _ y) by assumption.
    rewrite Dist, e_sub by (auto; apply mod_range). rewrite Ma by assumption. apply sub_mod2. }
  destruct (is_long (f_type (m a))) eqn:La1, (is_long (f_type (m b))) eqn:Lb1; cbv zeta.
  - destruct (is_mont (f_type (m a))) eqn:Ma1, (is_mont (f_type (m b))) eqn:Mb1; auto.
    split; [|unfold sub_l1nl2n; frame]. unfold sub_l1nl2n. mem. apply rep_of_long; [apply mod_range|].
    rewrite e_sub by auto. rewrite Na, Nb by reflexivity. reflexivity.
  - destruct (Sb eq_refl) as [Sb1 Sb2].
    assert (is_mont (f_type (m a)) = false -> yields p m r (sub_l1ns2 P m r a b) ((x - y) mod p)) as K.
    { intros A1. split.
      - unfold sub_l1ns2. mem. destruct (Z.ltb_spec (f_short (m b)) 0); mem; (apply rep_of_long; [apply mod_range|]).
        + rewrite e_add_ls by (try (apply La; auto); unfold short_ok in *; lia). rewrite Na, Sb2, sub_mod_r by auto; f_equal; lia.
        + rewrite e_sub_ls by (try (apply La; auto); unfold short_ok in *; lia). rewrite Na, Sb2, sub_mod_r by auto. reflexivity.
      - unfold sub_l1ns2. intros c Hc. mem. destruct (f_short (m b) <? 0); mem; reflexivity. }
    destruct (is_mont (f_type (m a))) eqn:Ma1, (is_mont (f_type (m b))) eqn:Mb1; auto.
  - destruct (Sa eq_refl) as [Sa1 Sa2].
    assert (is_mont (f_type (m b)) = false -> yields p m r (sub_s1l2n P m r a b) ((x - y) mod p)) as K.
    { intros A1. split.
      - unfold sub_s1l2n. mem. destruct (Z.leb_spec 0 (f_short (m a))); mem; (apply rep_of_long; [apply mod_range|]).
        + rewrite e_sub_sl by (try (apply Lb; auto); unfold short_ok in *; lia). rewrite Nb, Sa2, sub_mod_l by auto. reflexivity.
        + rewrite e_neg_ls by (try (apply Lb; auto); unfold short_ok in *; lia). rewrite Nb, Sa2, sub_mod_l by auto; f_equal; lia.
      - unfold sub_s1l2n. intros c Hc. mem. destruct (0 <=? f_short (m a)); mem; reflexivity. }
    destruct (is_mont (f_type (m a))) eqn:Ma1, (is_mont (f_type (m b))) eqn:Mb1; auto.
  - destruct (Sa eq_refl) as [Sa1 Sa2]. destruct (Sb eq_refl) as [Sb1 Sb2]. rewrite Sa2, Sb2, sub_mod2.
    unfold sub_s1s2. apply y_short_result. unfold short_ok in *. lia.
Qed.
Lemma fr_neg_ok m r a x : r <> a -> represents p (m a) x -> yields p m r (fr_neg P m r a) ((- x) mod p).
Proof.
  intros Ha Ra. unfold fr_neg.
  pose proof (rep_short _ _ Ra) as Sa. pose proof (rep_normal _ _ Ra) as Na. pose proof (rep_mont _ _ Ra) as Ma. pose proof (long_range _ _ Ra) as La.
  destruct (is_long (f_type (m a))) eqn:La1.
  - split; [|frame]. mem. rewrite e_neg by auto. destruct (f_type (m a)); try discriminate; cbn [is_mont] in *.
    + apply rep_of_long; [apply mod_range|]. rewrite Na by reflexivity. reflexivity.
    + apply rep_of_mont; [apply mod_range|]. rewrite Ma by reflexivity. rewrite neg_mod, mm_mod. f_equal. ring.
  - destruct (Sa eq_refl) as [Sa1 Sa2]. rewrite Sa2, neg_mod. apply y_short_result. unfold short_ok in *. lia.
Qed.

Lemma rep_set_short e s x : short_ok s -> x = s mod p -> represents p (set_type (set_short e s) SHORT) x.
Proof. apply rep_of_short. Qed.
Lemma rep_set_short' e s x : short_ok s -> x = s mod p -> represents p (set_short (set_type e SHORT) s) x.
Proof. apply rep_of_short. Qed.
Ltac set_short_tac := lazymatch goal with
  | |- represents _ (set_type _ _) _ => apply rep_set_short
  | _ => apply rep_set_short' end.
(** *** Comparisons *)
Definition ctr (x : Z) : Z := if p / 2 <? x then x - p else x.
Lemma ctr_comparable x : 0 <= x < p -> comparable_element x p = ctr x.
Proof.
  intros Hx. unfold comparable_element, val, ctr. rewrite modulus_id, quot2 by lia.
  destruct (Z.leb_spec (p / 2 + 1) x), (Z.ltb_spec (p / 2) x), (Z.ltb_spec x p); cbn [andb]; lia.
Qed.
Lemma half_bounds : 2 * (p / 2) < p <= 2 * (p / 2) + 1.
Proof.
  pose proof (Z.div_mod p 2 ltac:(lia)). pose proof (Z.mod_pos_bound p 2 ltac:(lia)).
  apply Z.odd_spec in Ho. destruct Ho as [h Hh]. assert (p mod 2 = 1) by (rewrite Hh, Z.add_comm, Z.mul_comm, Z.mod_add by lia; reflexivity). lia.
Qed.
Lemma ctr_short s : short_ok s -> ctr (s mod p) = s.
Proof.
  unfold short_ok, ctr. intros Hs. pose proof half_bounds. destruct (Z.lt_ge_cases s 0).
  - assert (s mod p = s + p) as -> by (symmetry; apply Z.mod_unique with (-1); lia).
    destruct (Z.ltb_spec (p / 2) (s + p)); lia.
  - rewrite Z.mod_small by lia. destruct (Z.ltb_spec (p / 2) s); lia.
Qed.
Lemma normal_long_spec e x : represents p e x -> normal_long P junk e = x.
Proof.
  intros Re. unfold normal_long. destruct (is_long (f_type e)) eqn:El.
  - destruct (is_mont (f_type e)) eqn:Em.
    + apply to_normal_long; assumption.
    + apply rep_normal; assumption.
  - apply to_long_normal_spec. exact Re.
Qed.
Lemma rlt_spec x y : 0 <= x < p -> 0 <= y < p -> rlt_l1l2 P x y = (ctr x <? ctr y).
Proof.
  intros Hx Hy. unfold rlt_l1l2, ctr. rewrite (F_half _ _ HF).
  destruct (Z.ltb_spec (p / 2) x), (Z.ltb_spec (p / 2) y); try (symmetry; apply Z.ltb_lt; lia); try (symmetry; apply Z.ltb_ge; lia).
  - destruct (Z.ltb_spec x y), (Z.ltb_spec (x - p) (y - p)); lia.
  - reflexivity.
Qed.
Lemma rgt_spec x y : 0 <= x < p -> 0 <= y < p -> rgt_l1l2 P x y = (ctr y <? ctr x).
Proof.
  intros Hx Hy. unfold rgt_l1l2, ctr. rewrite (F_half _ _ HF).
  destruct (Z.ltb_spec (p / 2) x), (Z.ltb_spec (p / 2) y); try (symmetry; apply Z.ltb_lt; lia); try (symmetry; apply Z.ltb_ge; lia).
  - destruct (Z.ltb_spec y x), (Z.ltb_spec (y - p) (x - p)); lia.
  - reflexivity.
Qed.
Lemma short_ctr e x : represents p e x -> is_long (f_type e) = false -> f_short e = ctr x.
Proof. intros Re El. destruct (rep_short _ _ Re El) as [S1 ->]. symmetry. apply ctr_short. exact S1. Qed.
Lemma fr_rlt_spec a b x y : represents p a x -> represents p b y -> fr_rlt P junk a b = (ctr x <? ctr y).
Proof.
  intros Ra Rb. unfold fr_rlt. rewrite (normal_long_spec a x Ra), (normal_long_spec b y Rb).
  rewrite rlt_spec by (eapply rep_range; eassumption).
  destruct (is_long (f_type a)) eqn:Ea; [reflexivity|]. destruct (is_long (f_type b)) eqn:Eb; [reflexivity|]. cbn [orb].
  rewrite (short_ctr a x Ra Ea), (short_ctr b y Rb Eb). reflexivity.
Qed.
Lemma fr_rgt_spec a b x y : represents p a x -> represents p b y -> fr_rgt P junk a b = (ctr y <? ctr x).
Proof.
  intros Ra Rb. unfold fr_rgt. rewrite (normal_long_spec a x Ra), (normal_long_spec b y Rb).
  rewrite rgt_spec by (eapply rep_range; eassumption).
  destruct (is_long (f_type a)) eqn:Ea; [reflexivity|]. destruct (is_long (f_type b)) eqn:Eb; [reflexivity|]. cbn [orb].
  rewrite (short_ctr a x Ra Ea), (short_ctr b y Rb Eb). reflexivity.
Qed.
Lemma mont_eqb x y : 0 <= x < p -> 0 <= y < p -> ((x * R) mod p =? (y * R) mod p) = (x =? y).
Proof.
  intros Hx Hy. destruct (Z.eqb_spec x y) as [->|N]; [apply Z.eqb_refl|].
  apply Z.eqb_neq. intros E. apply N. rewrite <- (Z.mod_small y p) by lia. apply cancel; assumption.
Qed.
Lemma ctr_eqb x y : 0 <= x < p -> 0 <= y < p -> (ctr x =? ctr y) = (x =? y).
Proof.
  intros Hx Hy. unfold ctr. destruct (Z.ltb_spec (p / 2) x), (Z.ltb_spec (p / 2) y);
    match goal with |- (?u =? ?v) = (?s =? ?t) => destruct (Z.eqb_spec u v), (Z.eqb_spec s t); lia end.
Qed.
Lemma fr_req_spec a b x y : represents p a x -> represents p b y -> fr_req P junk a b = (y =? x).
Proof.
  intros Ra Rb. unfold fr_req. pose proof (rep_range _ _ Ra) as Hx. pose proof (rep_range _ _ Rb) as Hy.
  rewrite (to_montgomery_spec a x Ra), (to_montgomery_spec b y Rb).
  destruct (to_long_normal_spec a x Ra) as [-> _]. destruct (to_long_normal_spec b y Rb) as [-> _].
  pose proof (rep_normal _ _ Ra) as Na. pose proof (rep_mont _ _ Ra) as Ma.
  pose proof (rep_normal _ _ Rb) as Nb. pose proof (rep_mont _ _ Rb) as Mb.
  destruct (is_long (f_type a)) eqn:La1, (is_long (f_type b)) eqn:Lb1.
  - destruct (is_mont (f_type a)) eqn:Ma1, (is_mont (f_type b)) eqn:Mb1;
      try rewrite (Ma eq_refl); try rewrite (Mb eq_refl); try rewrite (Na eq_refl eq_refl); try rewrite (Nb eq_refl eq_refl);
      try (apply mont_eqb; assumption); reflexivity.
  - destruct (is_mont (f_type a)) eqn:Ma1; try rewrite (Ma eq_refl); try rewrite (Na eq_refl eq_refl);
      try (apply mont_eqb; assumption); reflexivity.
  - destruct (is_mont (f_type b)) eqn:Mb1; try rewrite (Mb eq_refl); try rewrite (Nb eq_refl eq_refl);
      try (apply mont_eqb; assumption); reflexivity.
  - rewrite (short_ctr a x Ra La1), (short_ctr b y Rb Lb1), ctr_eqb by assumption. apply Z.eqb_sym.
Qed.
Lemma fr_is_true_spec e x : represents p e x -> fr_is_true e = negb (x =? 0).
Proof.
  intros Re. unfold fr_is_true. pose proof (rep_range _ _ Re) as Hx. destruct (is_long (f_type e)) eqn:El.
  - destruct (is_mont (f_type e)) eqn:Em.
    + rewrite (rep_mont e x Re Em). f_equal. pose proof (mont_eqb x 0 Hx ltac:(lia)) as K.
      rewrite Z.mul_0_l, Z.mod_0_l in K by lia. exact K.
    + rewrite (rep_normal e x Re El Em). reflexivity.
  - rewrite (short_ctr e x Re El). f_equal. exact (ctr_eqb x 0 Hx ltac:(lia)) || idtac.
    pose proof (ctr_eqb x 0 Hx ltac:(lia)) as K. unfold ctr at 2 in K. pose proof half_bounds.
    destruct (Z.ltb_spec (p / 2) 0); [lia|exact K].
Qed.
Lemma y_bool m r v : yields p m r (store_bool m r v) (b01 v).
Proof.
  split; [|frame]. mem. set_short_tac. { destruct v; unfold short_ok; cbn [Z.b2z]; split; try reflexivity; try discriminate. }
  destruct v; cbn [b01 Z.b2z]; symmetry; [apply Z.mod_small|apply Z.mod_0_l]. all: lia.
Qed.

(** *** Bits *)
Lemma pow_bound k : 0 <= k -> 0 < 2 ^ k. Proof. intros. apply Z.pow_pos_nonneg; lia. Qed.
Definition closed_op (op : Z -> Z -> Z) : Prop := forall k a b, 0 <= k -> 0 <= a < 2 ^ k -> 0 <= b < 2 ^ k -> 0 <= op a b < 2 ^ k.
Lemma lt_pow2_log a k : 0 <= a -> 0 <= k -> (a < 2 ^ k <-> (a = 0 \/ Z.log2 a < k)).
Proof.
  intros Ha Hk. destruct (Z.eq_dec a 0) as [->|N].
  - split; [auto|]. intros _. apply pow_bound. exact Hk.
  - rewrite <- Z.log2_lt_pow2 by lia. lia.
Qed.
Lemma closed_by_bits op : (forall a b, 0 <= a -> 0 <= b -> 0 <= op a b) ->
  (forall a b i, 0 <= i -> Z.testbit a i = false -> Z.testbit b i = false -> Z.testbit (op a b) i = false) -> closed_op op.
Proof.
  intros Hn Hb k a b Hk Ha Hbb. split; [apply Hn; lia|].
  assert (forall c, 0 <= c -> (forall i, k <= i -> Z.testbit c i = false) -> c < 2 ^ k) as Hlt.
  { intros c Hc Hi. apply lt_pow2_log; [exact Hc|exact Hk|]. destruct (Z.eq_dec c 0) as [->|N]; [auto|right].
    destruct (Z.lt_ge_cases (Z.log2 c) k) as [H|H]; [exact H|]. exfalso.
    pose proof (Z.bit_log2 c ltac:(lia)) as K. rewrite (Hi _ H) in K. discriminate. }
  assert (forall c i, 0 <= c < 2 ^ k -> k <= i -> Z.testbit c i = false) as Hge.
  { intros c i Hc Hi. destruct (Z.eq_dec c 0) as [->|N]; [apply Z.bits_0|]. apply Z.bits_above_log2; [lia|].
    assert (c < 2 ^ k) as K by lia. apply lt_pow2_log in K; lia. }
  apply Hlt; [apply Hn; lia|]. intros i Hi. apply Hb; [lia| |]; apply Hge; lia.
Qed.
Lemma land_closed : closed_op Z.land.
Proof. apply closed_by_bits; intros; [apply Z.land_nonneg; auto|rewrite Z.land_spec; rewrite H0; reflexivity]. Qed.
Lemma lor_closed : closed_op Z.lor.
Proof. apply closed_by_bits; intros; [apply Z.lor_nonneg; auto|rewrite Z.lor_spec, H0, H1; reflexivity]. Qed.
Lemma lxor_closed : closed_op Z.lxor.
Proof. apply closed_by_bits; intros; [apply Z.lxor_nonneg; tauto|rewrite Z.lxor_spec, H0, H1; reflexivity]. Qed.
Lemma fr_bits_ok op raw m r a b x y : closed_op op -> (forall u v, raw u v = mask_reduce P (op u v)) ->
  r <> a -> r <> b -> represents p (m a) x -> represents p (m b) y ->
  yields p m r (fr_bits P junk op raw m r a b) (op x y mod p).
Proof.
  intros Hop Hraw Ha Hb Ra Rb. pose proof (rep_range _ _ Ra) as Hx. pose proof (rep_range _ _ Rb) as Hy.
  unfold fr_bits.
  destruct (negb (is_long (f_type (m a))) && negb (is_long (f_type (m b))) && (0 <=? f_short (m a)) && (0 <=? f_short (m b))) eqn:E.
  - apply andb_prop in E as [E E4]. apply andb_prop in E as [E E3]. apply andb_prop in E as [E1 E2].
    apply negb_true_iff in E1, E2. apply Z.leb_le in E3, E4.
    destruct (rep_short _ _ Ra E1) as [S1 S2]. destruct (rep_short _ _ Rb E2) as [S3 S4].
    unfold short_ok in S1, S3. rewrite Z.mod_small in S2, S4 by lia. subst x y.
    pose proof (Hop 31 (f_short (m a)) (f_short (m b)) ltac:(lia) ltac:(lia) ltac:(lia)).
    split; [|frame]. mem. set_short_tac; [unfold short_ok; lia|reflexivity].
  - cbv zeta. mem. split; [|frame].
    assert (forall (k : bool) e z, represents p e z ->
      (if is_long (f_type e) then (if is_mont (f_type e) then f_long (to_normal P junk e) else f_long e)
       else if k then f_long (to_long_normal P junk e)
       else if 0 <=? f_short e then f_short e else f_long (to_long_normal P junk e)) = z) as Hoper.
    { intros k e z Re. pose proof (rep_short _ _ Re) as Se.
      destruct (to_long_normal_spec e z Re) as [-> _].
      destruct (is_long (f_type e)) eqn:El.
      - destruct (is_mont (f_type e)) eqn:Em; [apply to_normal_long; assumption|apply rep_normal; assumption].
      - destruct k; [reflexivity|]. destruct (Z.leb_spec 0 (f_short e)); [|reflexivity].
        destruct (Se eq_refl) as [S1 ->]. symmetry. apply Z.mod_small. unfold short_ok in S1. lia. }
    rewrite (Hoper _ _ _ Ra), (Hoper _ _ _ Rb). mem. apply rep_of_long; [apply mod_range|].
    pose proof (F_nbp _ _ HF). pose proof (bits_nonneg p).
    pose proof (Hop (bits p) x y ltac:(lia) ltac:(lia) ltac:(lia)).
    rewrite Hraw, e_mask by lia. rewrite (Z.mod_small _ (2 ^ bits p)) by lia. reflexivity.
Qed.
Lemma fr_bnot_ok m r a x : r <> a -> represents p (m a) x -> yields p m r (fr_bnot P junk m r a) ((2 ^ bits p - 1 - x) mod p).
Proof.
  intros Ha Ra. pose proof (rep_range _ _ Ra) as Hx. unfold fr_bnot. mem.
  assert (f_long (to_long_normal P junk (m a)) = x) as -> by (apply to_long_normal_spec; exact Ra).
  split.
  - destruct (f_type (m a)) eqn:Et; mem; (apply rep_of_long; [apply mod_range|]); try (apply e_not; exact Hx).
    rewrite (rep_normal _ _ Ra) by (rewrite Et; reflexivity). apply e_not; exact Hx.
  - intros c Hc. destruct (f_type (m a)); mem; reflexivity.
Qed.

(** *** Shifts *)
Lemma bits_p : 63 <= bits p.
Proof. rewrite bits_log2 by lia. assert (62 <= Z.log2 p) by (apply Z.log2_le_pow2; lia). lia. Qed.
Lemma shl_any x k : 0 <= x < p -> 0 <= k -> raw_shl_any P x k = shl_val x k p.
Proof.
  intros Hx Hk. unfold raw_shl_any, shl_val. rewrite (F_qbits _ _ HF). pose proof (F_nbp _ _ HF). pose proof bits_p.
  destruct (Z.eqb_spec k 0) as [->|].
  - change (2 ^ 0) with 1. rewrite Z.mul_1_r, !Z.mod_small by (rewrite ?Z.mod_small; lia). reflexivity.
  - destruct (Z.leb_spec (bits p) k).
    + replace (2 ^ k) with (2 ^ (k - bits p) * 2 ^ bits p) by (rewrite <- Z.pow_add_r by lia; f_equal; lia).
      rewrite Z.mul_assoc, Z.mod_mul by lia. rewrite Z.mod_0_l by lia. reflexivity.
    + apply e_shl; lia.
Qed.
Lemma shr_any x k : 0 <= x < p -> 0 <= k -> raw_shr_any P x k = shr_val x k.
Proof.
  intros Hx Hk. unfold raw_shr_any, shr_val. rewrite (F_qbits _ _ HF). pose proof (F_nbp _ _ HF). pose proof bits_p.
  destruct (Z.eqb_spec k 0) as [->|].
  - change (2 ^ 0) with 1. rewrite Z.div_1_r. reflexivity.
  - destruct (Z.leb_spec (bits p) k).
    + symmetry. apply Z.div_small. assert (2 ^ bits p <= 2 ^ k) by (apply Z.pow_le_mono_r; lia). lia.
    + apply e_shr; lia.
Qed.
Lemma y_zero m r x : x = 0 -> yields p m r (set_zero m r) x.
Proof.
  intros ->. split; [|unfold set_zero; frame]. unfold set_zero. mem. set_short_tac; [unfold short_ok; lia|].
  symmetry. apply Z.mod_0_l. lia.
Qed.
Lemma shl_range x k : 0 <= shl_val x k p < p. Proof. apply shl_val_range. lia. Qed.
Lemma shr_range x k : 0 <= x < p -> 0 <= k -> 0 <= shr_val x k < p. Proof. intros. apply shr_val_range; lia. Qed.
Lemma y_shlcl m r a x k : represents p (m a) x -> 0 <= k -> yields p m r (do_shlcl P junk m r a k) (shl_val x k p).
Proof.
  intros Ra Hk. pose proof (rep_range _ _ Ra). split; [|unfold do_shlcl; frame]. unfold do_shlcl. mem.
  apply rep_of_long; [apply shl_range|]. destruct (to_long_normal_spec _ _ Ra) as [-> _]. apply shl_any; assumption.
Qed.
Lemma do_shl_ok m r a x k : r <> a -> represents p (m a) x -> 0 <= k -> yields p m r (do_shl P junk m r a k) (shl_val x k p).
Proof.
  intros Ha Ra Hk. pose proof (rep_range _ _ Ra) as Hx. unfold do_shl.
  destruct (is_long (f_type (m a))) eqn:El.
  - destruct (is_longmont (f_type (m a))) eqn:Em; cbv zeta.
    + split; [|frame]. mem. apply rep_of_long; [apply shl_range|].
      destruct (to_normal_long _ _ Ra El) as [-> _]. apply shl_any; assumption.
    + split; [|frame]. mem. apply rep_of_long; [apply shl_range|].
      rewrite (rep_normal _ _ Ra El) by (destruct (f_type (m a)); try reflexivity; discriminate). apply shl_any; assumption.
  - destruct (rep_short _ _ Ra El) as [S1 S2]. cbv zeta.
    destruct (Z.eqb_spec (f_short (m a)) 0) as [E0|E0].
    + apply y_zero. rewrite E0, Z.mod_0_l in S2 by lia. subst x. unfold shl_val. rewrite Z.mul_0_l, !Z.mod_0_l by (try apply Z.pow_nonzero; pose proof bits_p; lia). reflexivity.
    + destruct (Z.ltb_spec (f_short (m a)) 0); [apply y_shlcl; assumption|].
      destruct (Z.leb_spec 31 k); [apply y_shlcl; assumption|].
      destruct (Z.eqb_spec (Z.shiftr (Z.shiftl (f_short (m a)) k) 31) 0) as [Es|Es]; cbn [negb]; [|apply y_shlcl; assumption].
      unfold short_ok in S1. rewrite Z.mod_small in S2 by lia. rewrite S2.
      rewrite Z.shiftl_mul_pow2 in * by lia. rewrite Z.shiftr_div_pow2 in Es by lia.
      set (v := f_short (m a) * 2 ^ k) in *.
      assert (0 <= v) by (apply Z.mul_nonneg_nonneg; [lia|apply Z.pow_nonneg; lia]).
      assert (v < 2 ^ 31) by (apply Z.div_small_iff in Es; lia).
      pose proof (F_nbp _ _ HF). split; [|frame]. mem. rewrite int32_small by (unfold short_ok; lia).
      set_short_tac; [unfold short_ok; lia|]. unfold shl_val. fold v. rewrite !Z.mod_small by (rewrite ?Z.mod_small; lia). reflexivity.
Qed.
Lemma y_shrl m r e x k : represents p e x -> is_long (f_type e) = true -> 0 <= k -> yields p m r (do_shrl P junk m r e k) (shr_val x k).
Proof.
  intros Re El Hk. pose proof (rep_range _ _ Re) as Hx. unfold do_shrl. destruct (is_longmont (f_type e)) eqn:Em.
  - split; [|frame]. mem. apply rep_of_long; [apply shr_range; assumption|].
    destruct (to_normal_long _ _ Re El) as [-> _]. apply shr_any; assumption.
  - split; [|frame]. mem. apply rep_of_long; [apply shr_range; assumption|].
    rewrite (rep_normal _ _ Re El) by (destruct (f_type e); try reflexivity; discriminate). apply shr_any; assumption.
Qed.
Lemma do_shr_ok m r a x k : r <> a -> represents p (m a) x -> 0 <= k -> yields p m r (do_shr P junk m r a k) (shr_val x k).
Proof.
  intros Ha Ra Hk. pose proof (rep_range _ _ Ra) as Hx. unfold do_shr.
  destruct (is_long (f_type (m a))) eqn:El; [apply y_shrl; assumption|].
  destruct (rep_short _ _ Ra El) as [S1 S2]. cbv zeta.
  destruct (Z.eqb_spec (f_short (m a)) 0) as [E0|E0].
  - apply y_zero. rewrite E0, Z.mod_0_l in S2 by lia. subst x. apply Z.div_0_l. apply Z.pow_nonzero; lia.
  - destruct (Z.ltb_spec (f_short (m a)) 0).
    + destruct (to_long_normal_spec _ _ Ra) as [E1 E2]. apply y_shrl; [|rewrite E2; reflexivity|exact Hk].
      split; [exact Hx|]. rewrite E2. exact E1.
    + unfold short_ok in S1. rewrite Z.mod_small in S2 by lia. destruct (Z.leb_spec 31 k).
      * apply y_zero. apply Z.div_small. assert (2 ^ 31 <= 2 ^ k) by (apply Z.pow_le_mono_r; lia). lia.
      * rewrite Z.shiftr_div_pow2 by lia. rewrite S2. unfold shr_val. set (v := f_short (m a) / 2 ^ k).
        assert (0 <= v < 2 ^ 31).
        { split; [apply Z.div_pos; [lia|apply pow_bound; lia]|]. apply Z.div_lt_upper_bound; [apply pow_bound; lia|].
          pose proof (pow_bound k Hk). nia. }
        split; [|frame]. mem. rewrite int32_small by (unfold short_ok; lia). set_short_tac; [unfold short_ok; lia|].
        symmetry. apply Z.mod_small. lia.
Qed.
Hypothesis Hlog : Z.log2 p < 2 ^ 31.
Lemma bits_small : bits p <= p / 2 /\ bits p < B /\ bits p <= 2 ^ 31.
Proof.
  rewrite bits_log2 by lia. split; [|unfold B; lia].
  assert (p / 4 * 4 <= p) by (pose proof (Z.div_mod p 4 ltac:(lia)); pose proof (Z.mod_pos_bound p 4 ltac:(lia)); lia).
  assert (Z.log2 p = Z.log2 (p / 4) + 2) as ->.
  { change 4 with (2 ^ 2). rewrite <- Z.shiftr_div_pow2, Z.log2_shiftr by lia.
    assert (62 <= Z.log2 p) by (apply Z.log2_le_pow2; lia). lia. }
  assert (2 ^ 60 <= p / 4) by (apply Z.div_le_lower_bound; lia).
  pose proof (Z.log2_lt_lin (p / 4) ltac:(lia)). assert (2 * (p / 4) <= p / 2) by (apply Z.div_le_lower_bound; lia). lia.
Qed.
(** the amount [k] and the direction of the shift asked for *)
Lemma fr_shift_ok same other S O m r a b x y :
  (forall k, 0 <= k < bits p -> yields p m r (same m r a k) (S k)) ->
  (forall k, 0 <= k < bits p -> yields p m r (other m r a k) (O k)) ->
  (forall k, bits p <= k -> S k = 0) -> (forall k, bits p <= k -> O k = 0) ->
  represents p (m b) y -> 0 <= x < p ->
  yields p m r (fr_shift P junk same other m r a b) (if y <=? p / 2 then S y else O (p - y)).
Proof.
  intros HS HO HS0 HO0 Rb Hx. pose proof (rep_range _ _ Rb) as Hy. unfold fr_shift. rewrite (F_qbits _ _ HF).
  pose proof bits_small as (B1 & B2 & B3). pose proof half_bounds as Hh. pose proof bits_p as B4.
  destruct (is_long (f_type (m b))) eqn:El.
  - assert (f_long (if is_longmont (f_type (m b)) then to_normal P junk (m b) else m b) = y) as ->.
    { destruct (is_longmont (f_type (m b))) eqn:Em; [apply to_normal_long; assumption|].
      apply rep_normal; try assumption. destruct (f_type (m b)); try reflexivity; discriminate. }
    cbv zeta. unfold raw_sub_regular. rewrite (F_w _ _ HF), (F_q _ _ HF).
    pose proof (F_pw _ _ HF). rewrite (Z.mod_small (p - y)) by lia.
    destruct (Z.leb_spec (bits p) y) as [Hby|Hby].
    + destruct (Z.leb_spec (bits p) (p - y)) as [Hbs|Hbs].
      * apply y_zero. destruct (Z.leb_spec y (p / 2)); [apply HS0; lia|apply HO0; lia].
      * destruct (Z.leb_spec y (p / 2)); [lia|]. rewrite (Z.mod_small (p - y)) by lia. apply HO. lia.
    + destruct (Z.leb_spec y (p / 2)); [|lia]. rewrite Z.mod_small by lia. apply HS. lia.
  - destruct (rep_short _ _ Rb El) as [S1 S2]. cbv zeta. unfold short_ok in S1.
    destruct (Z.ltb_spec (f_short (m b)) 0).
    + assert (y = f_short (m b) + p) as Ey by (rewrite S2; symmetry; apply Z.mod_unique with (-1); lia).
      destruct (Z.leb_spec y (p / 2)); [lia|]. replace (p - y) with (- f_short (m b)) by lia.
      destruct (Z.leb_spec (bits p) (- f_short (m b))); [apply y_zero, HO0; lia|apply HO; lia].
    + rewrite Z.mod_small in S2 by lia. subst y. destruct (Z.leb_spec (f_short (m b)) (p / 2)); [|lia].
      destruct (Z.leb_spec (bits p) (f_short (m b))); [apply y_zero, HS0; lia|apply HS; lia].
Qed.
Lemma shl_val_0 x k : bits p <= k -> shl_val x k p = 0.
Proof.
  intros H. unfold shl_val. pose proof bits_p. pose proof (F_nbp _ _ HF).
  replace (2 ^ k) with (2 ^ (k - bits p) * 2 ^ bits p) by (rewrite <- Z.pow_add_r by lia; f_equal; lia).
  rewrite Z.mul_assoc, Z.mod_mul by lia. apply Z.mod_0_l. lia.
Qed.
Lemma shr_val_0 x k : 0 <= x < p -> bits p <= k -> shr_val x k = 0.
Proof.
  intros Hx H. apply Z.div_small. pose proof (F_nbp _ _ HF). pose proof bits_p.
  assert (2 ^ bits p <= 2 ^ k) by (apply Z.pow_le_mono_r; lia). lia.
Qed.
Lemma fr_shl_ok m r a b x y : r <> a -> represents p (m a) x -> represents p (m b) y ->
  yields p m r (fr_shl P junk m r a b) (if y <=? p / 2 then shl_val x y p else shr_val x (p - y)).
Proof.
  intros Ha Ra Rb. pose proof (rep_range _ _ Ra) as Hx.
  apply (fr_shift_ok _ _ (fun k => shl_val x k p) (fun k => shr_val x k)) with (x := x); auto using shl_val_0, shr_val_0.
  - intros k Hk. apply do_shl_ok; auto; lia.
  - intros k Hk. apply do_shr_ok; auto; lia.
Qed.
Lemma fr_shr_ok m r a b x y : r <> a -> represents p (m a) x -> represents p (m b) y ->
  yields p m r (fr_shr P junk m r a b) (if y <=? p / 2 then shr_val x y else shl_val x (p - y) p).
Proof.
  intros Ha Ra Rb. pose proof (rep_range _ _ Ra) as Hx.
  apply (fr_shift_ok _ _ (fun k => shr_val x k) (fun k => shl_val x k p)) with (x := x); auto using shl_val_0, shr_val_0.
  - intros k Hk. apply do_shr_ok; auto; lia.
  - intros k Hk. apply do_shl_ok; auto; lia.
Qed.

(** *** GMP *)
Lemma to_mpz_spec e x : represents p e x -> to_mpz P junk e = x.
Proof.
  intros Re. unfold to_mpz. cbv zeta. destruct (is_long (f_type e)) eqn:El.
  - destruct (to_normal_long e x Re El) as [-> ->]. reflexivity.
  - destruct (rep_short _ _ Re El) as [S1 S2].
    assert (to_normal P junk e = e) as -> by (unfold to_normal; destruct (f_type e); try discriminate El; reflexivity).
    rewrite El. cbn [negb]. rewrite (F_q _ _ HF). unfold short_ok in S1.
    destruct (Z.ltb_spec (f_short e) 0).
    + rewrite S2. apply Z.mod_unique with (-1); lia.
    + rewrite S2. symmetry. apply Z.mod_small. lia.
Qed.
Lemma to_integer_spec e x : represents p e x -> fr_to_integer P junk e = x.
Proof.
  intros Re. unfold fr_to_integer. destruct (is_long (f_type e)) eqn:El; cbn [negb].
  - apply to_normal_long; assumption.
  - destruct (rep_short _ _ Re El) as [S1 S2]. rewrite (F_q _ _ HF). unfold short_ok in S1.
    destruct (Z.leb_spec 0 (f_short e)).
    + rewrite S2. symmetry. apply Z.mod_small. lia.
    + rewrite S2. apply Z.mod_unique with (-1); lia.
Qed.
Lemma from_mpz_ok m r v : 0 <= v < p -> yields p m r (from_mpz m r v) v.
Proof.
  intros Hv. unfold from_mpz. destruct (Z.leb_spec (- 2 ^ 31) v); [|lia]. destruct (Z.ltb_spec v (2 ^ 31)); cbn [andb].
  - split; [|frame]. mem. set_short_tac; [unfold short_ok; lia|]. symmetry. apply Z.mod_small. lia.
  - split; [|frame]. mem. apply rep_of_long; [exact Hv|reflexivity].
Qed.
(** *** Conversion to [int] *)
Lemma int64_small v : - 2 ^ 63 <= v < 2 ^ 63 -> int64 v = v.
Proof. unfold int64. intros. rewrite Z.mod_small by lia. lia. Qed.
Lemma long_normal_spec e x : f_long e = x -> 0 <= x < p -> short_ok (ctr x) -> fr_long_normal P e = Some (ctr x).
Proof.
  intros E Hx Hs. unfold fr_long_normal. rewrite E. pose proof half_bounds as Hh.
  pose proof (Z.div_mod x B ltac:(discriminate)) as D. pose proof (Z.mod_pos_bound x B ltac:(reflexivity)) as M.
  rewrite Z.shiftr_div_pow2 by lia. unfold ctr in *. destruct (Z.ltb_spec (p / 2) x) as [Hn|Hn].
  - assert (fr_long_neg P e = Some (x - p)) as K.
    { unfold fr_long_neg. rewrite E, (F_q _ _ HF). destruct (Z.leb_spec p x); [lia|]. cbv zeta.
      assert (int64 (x mod B - p mod B) = x - p) as ->.
      { unfold int64. change (2 ^ 64) with B.
        replace (x mod B - p mod B + 2 ^ 63) with (x - p + 2 ^ 63 + (p / B - x / B) * B).
        - rewrite Z.mod_add by discriminate. unfold short_ok in Hs. rewrite Z.mod_small by (unfold B; lia). lia.
        - pose proof (Z.div_mod p B ltac:(discriminate)). lia. }
      unfold short_ok in Hs. rewrite Z.shiftr_div_pow2 by lia.
      assert ((x - p) / 2 ^ 31 = -1) as -> by (symmetry; apply Z.div_unique with (x - p + 2 ^ 31); lia).
      cbn [Z.add Z.eqb negb Z.pos_sub]. rewrite int32_small by (unfold short_ok; lia). reflexivity. }
    destruct (Z.eqb_spec (x mod B / 2 ^ 31) 0) as [E1|E1]; cbn [negb]; [|exact K].
    destruct (Z.eqb_spec (x / B) 0) as [E2|E2]; cbn [negb]; [|exact K].
    exfalso. apply Z.div_small_iff in E1; [|lia]. unfold short_ok in Hs. lia.
  - unfold short_ok in Hs.
    assert (x mod B = x) as -> by (apply Z.mod_small; unfold B; lia).
    rewrite (Z.div_small x (2 ^ 31)) by lia. rewrite (Z.div_small x B) by (unfold B; lia).
    cbn [Z.eqb negb]. rewrite int32_small by (unfold short_ok; lia). reflexivity.
Qed.
Lemma fr_to_int_spec e x : represents p e x -> short_ok (ctr x) -> fr_to_int P junk e = Some (ctr x).
Proof.
  intros Re Hs. pose proof (rep_range _ _ Re) as Hx. unfold fr_to_int. destruct (is_long (f_type e)) eqn:El.
  - destruct (is_mont (f_type e)) eqn:Em.
    + apply long_normal_spec; auto. apply to_normal_long; assumption.
    + apply long_normal_spec; auto. apply rep_normal; assumption.
  - f_equal. apply short_ctr; assumption.
Qed.
End elem.
