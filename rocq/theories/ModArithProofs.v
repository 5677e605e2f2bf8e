(** Lemmas about ModArithModel. *)
From Coq Require Import ZArith List Bool Lia Znumtheory Zpow_facts ZifyBool.
From Verif Require Import ModArithModel.
Import ListNotations.
Open Scope Z_scope.

Lemma modulus_mod a p : 0 < p -> modulus a p = a mod p.
Proof.
  intros Hp. unfold modulus.
  pose proof (Z.rem_bound_abs a p ltac:(lia)) as Hb.
  rewrite Z.rem_mod_nonneg by lia.
  pose proof (Z.quot_rem' a p) as E.
  replace (Z.rem a p + p) with (a + (1 - Z.quot a p) * p) by lia.
  apply Z.mod_add; lia.
Qed.

Lemma modulus_range a p : 0 < p -> 0 <= modulus a p < p.
Proof. intros; rewrite modulus_mod by lia; apply Z.mod_pos_bound; lia. Qed.

Lemma modulus_id a p : 0 <= a < p -> modulus a p = a.
Proof. intros; rewrite modulus_mod by lia; apply Z.mod_small; lia. Qed.

Lemma add_mod l r p : 0 < p -> add l r p = (l + r) mod p.
Proof. intros; unfold add; apply modulus_mod; lia. Qed.
Lemma mul_mod l r p : 0 < p -> mul l r p = (l * r) mod p.
Proof. intros; unfold mul; apply modulus_mod; lia. Qed.
Lemma sub_mod l r p : 0 < p -> sub l r p = (l - r) mod p.
Proof. intros; unfold sub; apply modulus_mod; lia. Qed.
Lemma prefix_sub_mod e p : 0 < p -> prefix_sub e p = (- e) mod p.
Proof. intros; unfold prefix_sub; rewrite mul_mod by lia; f_equal; lia. Qed.

(** Extended Euclid. *)
Lemma egcd_loop_inv f r0 r1 s0 s1 a m :
  0 < m -> (r0 - s0 * a) mod m = 0 -> (r1 - s1 * a) mod m = 0 ->
  let '(g, s) := egcd_loop f r0 r1 s0 s1 in (g - s * a) mod m = 0.
Proof.
  intros Hm. revert r0 r1 s0 s1.
  induction f as [|f IH]; intros r0 r1 s0 s1 H0 H1; cbn [egcd_loop]; [exact H0|].
  destruct (Z.eqb_spec r1 0); [exact H0|].
  apply IH; [exact H1|].
  rewrite Z.mod_divide in * by lia.
  destruct H0 as [x Hx], H1 as [y Hy].
  exists (x - r0 / r1 * y). nia.
Qed.

Lemma egcd_loop_gcd f r0 r1 s0 s1 :
  0 <= r1 < r0 -> r0 * r1 < 2 ^ Z.of_nat f ->
  fst (egcd_loop f r0 r1 s0 s1) = Z.gcd r0 r1.
Proof.
  revert r0 r1 s0 s1.
  induction f as [|f IH]; intros r0 r1 s0 s1 Hr Hf.
  - cbn in *. assert (r1 = 0) by nia. subst. rewrite Z.gcd_0_r. lia.
  - cbn [egcd_loop]. destruct (Z.eqb_spec r1 0) as [->|Hn].
    + cbn. rewrite Z.gcd_0_r. lia.
    + replace (r0 - r0 / r1 * r1) with (r0 mod r1)
        by (rewrite Z.mod_eq by lia; lia).
      pose proof (Z.mod_pos_bound r0 r1 ltac:(lia)) as Hm.
      rewrite IH.
      * rewrite (Z.gcd_comm r1), Z.gcd_mod by lia. apply Z.gcd_comm.
      * lia.
      * rewrite Nat2Z.inj_succ, Z.pow_succ_r in Hf by lia.
        assert (r1 * (r0 mod r1) * 2 <= r0 * r1); [|nia].
        assert (2 * (r0 mod r1) <= r0); [|nia].
        pose proof (Z.div_mod r0 r1 ltac:(lia)).
        assert (1 <= r0 / r1) by (apply Z.div_le_lower_bound; lia).
        nia.
Qed.

Lemma bits_lt m : 0 < m -> m < 2 ^ bits m.
Proof.
  intros Hm. unfold bits. destruct m as [|q|q]; try lia.
  rewrite Z.abs_eq by lia. pose proof (Z.log2_spec (Zpos q) ltac:(lia)).
  unfold Z.succ in *. lia.
Qed.
Lemma bits_nonneg m : 0 <= bits m.
Proof. unfold bits; destruct m; try lia; pose proof (Z.log2_nonneg (Z.abs (Z.pos p))); pose proof (Z.log2_nonneg (Z.abs (Z.neg p))); lia. Qed.

Lemma mod_inverse_some a m i :
  1 < m -> mod_inverse a m = Some i -> 0 <= i < m /\ (i * a) mod m = 1.
Proof.
  intros Hm. unfold mod_inverse.
  pose proof (egcd_loop_inv (egcd_fuel m) m (a mod m) 0 1 a m ltac:(lia)) as H.
  destruct (egcd_loop _ _ _ _ _) as [g s] eqn:E.
  destruct (Z.eqb_spec g 1) as [->|]; [|discriminate].
  intros [= <-]. split; [apply Z.mod_pos_bound; lia|].
  rewrite Z.mul_mod_idemp_l by lia.
  assert (H' : (1 - s * a) mod m = 0).
  { apply H.
    - rewrite Z.mul_0_l, Z.sub_0_r, Z.mod_same by lia; reflexivity.
    - rewrite Z.mul_1_l, Zminus_mod_idemp_l, Z.sub_diag. apply Z.mod_0_l; lia. }
  rewrite Z.mod_divide in H' by lia. destruct H' as [k Hk].
  replace (s * a) with (1 + (-k) * m) by lia.
  rewrite Z.mod_add by lia. apply Z.mod_small; lia.
Qed.

Lemma mod_inverse_complete a m :
  1 < m -> Z.gcd a m = 1 -> exists i, mod_inverse a m = Some i.
Proof.
  intros Hm Hg. unfold mod_inverse.
  pose proof (egcd_loop_gcd (egcd_fuel m) m (a mod m) 0 1) as H.
  destruct (egcd_loop _ _ _ _ _) as [g s] eqn:E. cbn [fst] in H.
  rewrite H.
  - rewrite Z.gcd_comm, Z.gcd_mod by lia. rewrite Z.gcd_comm, Hg. cbn. eauto.
  - apply Z.mod_pos_bound; lia.
  - pose proof (bits_lt m ltac:(lia)) as Hb. pose proof (bits_nonneg m).
    unfold egcd_fuel. rewrite Z2Nat.id by lia.
    replace (2 * bits m + 2) with (bits m + bits m + 2) by lia.
    rewrite !Z.pow_add_r by lia.
    pose proof (Z.mod_pos_bound a m ltac:(lia)).
    assert (m * (a mod m) < 2 ^ bits m * 2 ^ bits m) by nia. lia.
Qed.

Lemma prime_gcd a p : prime p -> a mod p <> 0 -> Z.gcd a p = 1.
Proof.
  intros Hp Ha. pose proof (prime_ge_2 _ Hp).
  rewrite Z.gcd_comm. apply Zgcd_1_rel_prime. apply prime_rel_prime; [assumption|].
  intros Hd. apply Ha. apply Z.mod_divide; [lia|assumption].
Qed.

Lemma mod_inverse_prime_none a p :
  prime p -> (mod_inverse a p = None <-> a mod p = 0).
Proof.
  intros Hp. pose proof (prime_ge_2 _ Hp). split.
  - intros Hn. destruct (Z.eq_dec (a mod p) 0) as [|Hd]; [assumption|].
    destruct (mod_inverse_complete a p ltac:(lia) (prime_gcd _ _ Hp Hd)) as [i Hi]. congruence.
  - intros Hz. destruct (mod_inverse a p) as [i|] eqn:E; [|reflexivity].
    apply mod_inverse_some in E; [|lia]. destruct E as [_ E].
    rewrite Z.mul_mod, Hz, Z.mul_0_r, Z.mod_0_l in E by lia. lia.
Qed.

Lemma mul_cancel_mod q q' r p :
  prime p -> 0 <= q < p -> 0 <= q' < p -> r mod p <> 0 ->
  (q * r) mod p = (q' * r) mod p -> q = q'.
Proof.
  intros Hp Hq Hq' Hr E. pose proof (prime_ge_2 _ Hp).
  assert (Hd : (p | (q - q') * r)).
  { apply Z.mod_divide; [lia|]. rewrite Z.mul_sub_distr_r, Zminus_mod, E, Z.sub_diag.
    apply Z.mod_0_l; lia. }
  apply prime_mult in Hd; [|assumption]. destruct Hd as [Hd|Hd].
  - destruct Hd as [k Hk]. assert (k = 0) by nia. nia.
  - exfalso. apply Hr. apply Z.mod_divide; [lia|assumption].
Qed.

Lemma div_spec l r p :
  prime p ->
  (r mod p = 0 -> div l r p = DivisionByZero) /\
  (r mod p <> 0 ->
   exists q, div l r p = Ok q /\ 0 <= q < p /\ (q * r) mod p = l mod p /\
             forall q', 0 <= q' < p -> (q' * r) mod p = l mod p -> q' = q).
Proof.
  intros Hp. pose proof (prime_ge_2 _ Hp). unfold div. split.
  - intros Hz. apply (mod_inverse_prime_none r p Hp) in Hz. rewrite Hz. reflexivity.
  - intros Hz. destruct (mod_inverse r p) as [i|] eqn:E.
    2:{ apply (mod_inverse_prime_none r p Hp) in E. contradiction. }
    apply mod_inverse_some in E; [|lia]. destruct E as [Hi E].
    exists (mul l i p). rewrite mul_mod by lia.
    assert (Hq : ((l * i) mod p * r) mod p = l mod p).
    { rewrite Z.mul_mod_idemp_l by lia.
      rewrite <- Z.mul_assoc, Z.mul_mod, E, Z.mul_1_r, Z.mod_mod by lia. reflexivity. }
    split; [reflexivity|]. split; [apply Z.mod_pos_bound; lia|]. split; [exact Hq|].
    intros q' Hq' E'. apply (mul_cancel_mod q' _ r p); auto.
    + apply Z.mod_pos_bound; lia.
    + rewrite E', Hq. reflexivity.
Qed.

(** Centred representative. *)
Lemma comparable_spec e p :
  2 < p -> Z.odd p = true ->
  let c := comparable_element e p in
  - ((p - 1) / 2) <= c <= (p - 1) / 2 /\ (c - e) mod p = 0.
Proof.
  intros Hp Ho. cbv zeta. unfold comparable_element, val.
  rewrite modulus_mod by lia.
  pose proof (Z.mod_pos_bound e p ltac:(lia)) as Hb.
  apply Z.odd_spec in Ho. destruct Ho as [h Hh].
  assert (Hq : Z.quot p 2 = h) by (rewrite Z.quot_div_nonneg by lia; subst p;
     symmetry; apply Z.div_unique with 1; lia).
  assert (Hq' : (p - 1) / 2 = h).
  { subst p. replace (2 * h + 1 - 1) with (h * 2) by lia. apply Z.div_mul; lia. }
  rewrite Hq, Hq'.
  destruct (Z.leb_spec (h + 1) (e mod p)), (Z.ltb_spec (e mod p) p); cbn [andb]; try lia.
  - split; [lia|]. rewrite <- Zminus_mod_idemp_r.
    replace (e mod p - p - e mod p) with ((-1) * p) by lia. apply Z.mod_mul; lia.
  - split; [lia|]. rewrite <- Zminus_mod_idemp_r, Z.sub_diag. apply Z.mod_0_l; lia.
Qed.

Lemma centered_unique c c' e p :
  2 < p -> Z.odd p = true ->
  - ((p - 1) / 2) <= c <= (p - 1) / 2 -> (c - e) mod p = 0 ->
  - ((p - 1) / 2) <= c' <= (p - 1) / 2 -> (c' - e) mod p = 0 -> c = c'.
Proof.
  intros Hp Ho Hc H1 Hc' H2.
  apply Z.odd_spec in Ho. destruct Ho as [h Hh].
  assert (Hq' : (p - 1) / 2 = h).
  { subst p. replace (2 * h + 1 - 1) with (h * 2) by lia. apply Z.div_mul; lia. }
  rewrite Hq' in *.
  rewrite Z.mod_divide in * by lia. destruct H1 as [x Hx], H2 as [y Hy].
  assert (x = y) by nia. nia.
Qed.

Lemma modulus_eq_iff l r p : 0 < p -> (modulus l p = modulus r p <-> (l - r) mod p = 0).
Proof.
  intros Hp. rewrite !modulus_mod by lia. split; intros E.
  - rewrite Zminus_mod, E, Z.sub_diag. apply Z.mod_0_l; lia.
  - rewrite Z.mod_divide in E by lia. destruct E as [k Hk].
    replace l with (r + k * p) by lia. apply Z.mod_add; lia.
Qed.

Lemma comparable_eq_iff l r p :
  2 < p -> Z.odd p = true ->
  (comparable_element l p = comparable_element r p <-> (l - r) mod p = 0).
Proof.
  intros Hp Ho.
  destruct (comparable_spec l p Hp Ho) as [H1 H2].
  destruct (comparable_spec r p Hp Ho) as [H3 H4].
  split; intros E.
  - rewrite E in H2. rewrite Z.mod_divide in * by lia.
    destruct H2 as [x Hx], H4 as [y Hy]. exists (y - x). lia.
  - apply (centered_unique _ _ r p); auto.
    rewrite Z.mod_divide in * by lia.
    destruct H2 as [x Hx], E as [y Hy]. exists (x + y). lia.
Qed.

Lemma normalize_spec e p :
  2 < p -> normalize e p = (if e mod p =? 0 then 0 else 1).
Proof.
  intros Hp. unfold normalize, comparable_element, val. rewrite modulus_mod by lia.
  pose proof (Z.mod_pos_bound e p ltac:(lia)).
  assert (0 <= Z.quot p 2) by (apply Z.quot_pos; lia).
  destruct (Z.leb_spec (Z.quot p 2 + 1) (e mod p)), (Z.ltb_spec (e mod p) p);
    cbn [andb]; try lia;
    destruct (Z.eqb_spec (e mod p) 0); destruct (Z.eqb_spec (e mod p - p) 0);
    try lia; reflexivity.
Qed.

Lemma not_spec e p : 2 < p -> not e p = (if e mod p =? 0 then 1 else 0).
Proof.
  intros Hp. unfold not. rewrite normalize_spec by lia.
  destruct (Z.eqb_spec (e mod p) 0); reflexivity.
Qed.
Lemma bool_and_spec l r p :
  2 < p -> bool_and l r p = (if (negb (l mod p =? 0)) && negb (r mod p =? 0) then 1 else 0).
Proof.
  intros Hp. unfold bool_and. rewrite !normalize_spec by lia.
  destruct (Z.eqb_spec (l mod p) 0), (Z.eqb_spec (r mod p) 0); reflexivity.
Qed.
Lemma bool_or_spec l r p :
  2 < p -> bool_or l r p = (if (negb (l mod p =? 0)) || negb (r mod p =? 0) then 1 else 0).
Proof.
  intros Hp. unfold bool_or. rewrite bool_and_spec, !normalize_spec by lia.
  destruct (Z.eqb_spec (l mod p) 0), (Z.eqb_spec (r mod p) 0); reflexivity.
Qed.
Lemma as_bool_spec e p : 2 < p -> as_bool e p = negb (e mod p =? 0).
Proof.
  intros Hp. unfold as_bool. rewrite normalize_spec by lia.
  destruct (Z.eqb_spec (e mod p) 0); reflexivity.
Qed.

Lemma mod01 (b : bool) p : 2 < p -> (if b then 1 else 0) mod p = (if b then 1 else 0).
Proof. intros. destruct b; apply Z.mod_small; lia. Qed.

Definition b01 (b : bool) : Z := if b then 1 else 0.
Lemma b01_mod_eq0 b p : 2 < p -> (b01 b mod p =? 0) = negb b.
Proof. intros. unfold b01. rewrite mod01 by lia. destruct b; reflexivity. Qed.

Lemma eq_spec l r p : 0 < p -> eq l r p = b01 ((l - r) mod p =? 0).
Proof.
  intros Hp. unfold eq. pose proof (modulus_eq_iff l r p Hp) as H.
  destruct (Z.eqb_spec (modulus l p) (modulus r p)), (Z.eqb_spec ((l - r) mod p) 0); tauto.
Qed.
Lemma lesser_spec l r p : lesser l r p = b01 (comparable_element l p <? comparable_element r p).
Proof. reflexivity. Qed.

Lemma cmp_all l r p :
  2 < p -> Z.odd p = true ->
  let L := comparable_element l p in let R := comparable_element r p in
  lesser l r p = b01 (L <? R) /\ lesser_eq l r p = b01 (L <=? R) /\
  greater l r p = b01 (R <? L) /\ greater_eq l r p = b01 (R <=? L) /\
  eq l r p = b01 (L =? R) /\ not_eq l r p = b01 (negb (L =? R)).
Proof.
  intros Hp Ho L R.
  assert (He : eq l r p = b01 (L =? R)).
  { rewrite eq_spec by lia. f_equal. unfold L, R.
    pose proof (comparable_eq_iff l r p Hp Ho).
    destruct (Z.eqb_spec ((l - r) mod p) 0),
             (Z.eqb_spec (comparable_element l p) (comparable_element r p)); tauto. }
  assert (Hl : lesser l r p = b01 (L <? R)) by reflexivity.
  assert (Hle : lesser_eq l r p = b01 (L <=? R)).
  { unfold lesser_eq. rewrite bool_or_spec, Hl, He, !b01_mod_eq0, !negb_involutive by lia.
    unfold b01. destruct (Z.ltb_spec L R), (Z.eqb_spec L R), (Z.leb_spec L R);
      try lia; reflexivity. }
  assert (Hg : greater l r p = b01 (R <? L)).
  { unfold greater. rewrite not_spec, Hle, b01_mod_eq0 by lia. unfold b01.
    destruct (Z.leb_spec L R), (Z.ltb_spec R L); try lia; reflexivity. }
  repeat split; auto.
  - unfold greater_eq. rewrite bool_or_spec, Hg, He, !b01_mod_eq0, !negb_involutive by lia.
    unfold b01. destruct (Z.ltb_spec R L), (Z.eqb_spec L R), (Z.leb_spec R L);
      try lia; reflexivity.
  - unfold not_eq. rewrite not_spec, He, b01_mod_eq0 by lia. reflexivity.
Qed.

(** Quotient and remainder. *)
Lemma idiv_spec l r p :
  0 < p ->
  (r mod p = 0 -> idiv l r p = DivisionByZero) /\
  (r mod p <> 0 -> idiv l r p = Ok ((l mod p) / (r mod p))).
Proof.
  intros Hp. unfold idiv. rewrite !modulus_mod by lia.
  pose proof (Z.mod_pos_bound l p Hp). pose proof (Z.mod_pos_bound r p Hp).
  destruct (Z.eqb_spec (r mod p) 0); split; intros; try contradiction; auto.
  rewrite Z.quot_div_nonneg by lia. reflexivity.
Qed.
Lemma mod_op_spec l r p :
  0 < p ->
  (r mod p = 0 -> mod_op l r p = Panic) /\
  (r mod p <> 0 -> mod_op l r p = Ok ((l mod p) mod (r mod p))).
Proof.
  intros Hp. unfold mod_op. rewrite !(modulus_mod _ p) by lia.
  pose proof (Z.mod_pos_bound l p Hp). pose proof (Z.mod_pos_bound r p Hp).
  destruct (Z.eqb_spec (r mod p) 0); split; intros; try contradiction; auto.
  rewrite modulus_mod by lia. reflexivity.
Qed.

(** Power. *)
Lemma modpow_pos_spec b e m : 0 < m -> modpow_pos b e m = (b ^ Zpos e) mod m.
Proof.
  intros Hm. revert b. induction e as [e IH|e IH|]; intros b; cbn [modpow_pos].
  - rewrite IH. rewrite Pos2Z.inj_xI.
    rewrite Z.pow_add_r, Z.pow_1_r by lia.
    replace (2 * Z.pos e) with (Z.pos e + Z.pos e) by lia. rewrite Z.pow_add_r by lia.
    rewrite <- (Z.mul_mod (b ^ Z.pos e)) by lia.
    rewrite Z.mul_mod_idemp_l by lia. reflexivity.
  - rewrite IH. rewrite Pos2Z.inj_xO.
    replace (2 * Z.pos e) with (Z.pos e + Z.pos e) by lia. rewrite Z.pow_add_r by lia.
    rewrite <- Z.mul_mod by lia. reflexivity.
  - rewrite Z.pow_1_r. reflexivity.
Qed.
Lemma pow_spec b e p : 0 < p -> 0 <= e -> pow b e p = Ok ((b ^ e) mod p).
Proof.
  intros Hp He. unfold pow. destruct (Z.eqb_spec p 0); [lia|].
  destruct e as [|q|q]; [reflexivity| |lia].
  rewrite modpow_pos_spec by lia. reflexivity.
Qed.

(** Bit representation. *)
Lemma of_bits_pos q : of_bits (pos_bits q) = Zpos q.
Proof. induction q as [q IH|q IH|]; cbn [pos_bits of_bits Z.b2z]; [rewrite IH; lia|rewrite IH; lia|reflexivity]. Qed.
Lemma length_pos_bits q : Z.of_nat (length (pos_bits q)) = Z.log2 (Zpos q) + 1.
Proof.
  induction q as [q IH|q IH|]; cbn [pos_bits length]; [| |reflexivity].
  - rewrite Nat2Z.inj_succ, IH. rewrite Pos2Z.inj_xI, Z.log2_succ_double by lia. lia.
  - rewrite Nat2Z.inj_succ, IH. rewrite Pos2Z.inj_xO, Z.log2_double by lia. lia.
Qed.
Lemma length_bit_repr x : 0 < x -> Z.of_nat (length (bit_repr x)) = bits x.
Proof.
  intros. destruct x as [|q|q]; try lia. cbn [bit_repr].
  rewrite length_pos_bits. unfold bits. rewrite Z.abs_eq by lia. reflexivity.
Qed.
Lemma mask_spec p : 0 < p -> mask p = 2 ^ bits p - 1.
Proof. intros. unfold mask. rewrite length_bit_repr by lia. reflexivity. Qed.
Lemma mask_ones p : 0 < p -> mask p = Z.ones (bits p).
Proof. intros. rewrite mask_spec, Z.ones_equiv by lia. lia. Qed.

Lemma of_bits_app l r : of_bits (l ++ r) = of_bits l + 2 ^ Z.of_nat (length l) * of_bits r.
Proof.
  induction l as [|b l IH]; cbn [app of_bits length]; [lia|].
  rewrite IH, Nat2Z.inj_succ, Z.pow_succ_r by lia. lia.
Qed.
Lemma of_bits_repeat_false n : of_bits (repeat false n) = 0.
Proof. induction n as [|n IH]; cbn [repeat of_bits]; [reflexivity|rewrite IH; reflexivity]. Qed.
Lemma of_bits_negb l : of_bits (map negb l) = 2 ^ Z.of_nat (length l) - 1 - of_bits l.
Proof.
  induction l as [|b l IH]; cbn [map of_bits length]; [reflexivity|].
  rewrite IH, Nat2Z.inj_succ, Z.pow_succ_r by lia. destruct b; cbn [negb Z.b2z]; lia.
Qed.
Lemma of_bits_repr x : 0 <= x -> of_bits (bit_repr x) = x.
Proof. intros; destruct x as [|q|q]; [reflexivity|apply of_bits_pos|lia]. Qed.

Lemma length_bit_repr_le x n : 0 <= x < 2 ^ n -> 0 < n -> Z.of_nat (length (bit_repr x)) <= n.
Proof.
  intros Hx Hn. destruct x as [|q|q]; [cbn; lia| |lia].
  cbn [bit_repr]. rewrite length_pos_bits.
  assert (Z.log2 (Zpos q) < n) by (apply Z.log2_lt_pow2; lia). lia.
Qed.

Lemma complement_spec x p :
  1 < p -> 0 <= x < 2 ^ bits p -> complement x p = (2 ^ bits p - 1 - x) mod p.
Proof.
  intros Hp Hx. unfold complement.
  destruct (Z.ltb_spec x 0); [lia|].
  rewrite modulus_mod by lia. f_equal.
  rewrite of_bits_negb.
  assert (0 < bits p) by (unfold bits; destruct p; try lia; pose proof (Z.log2_nonneg (Z.abs (Z.pos p))); lia).
  assert (Hl : Z.of_nat (length (bit_repr x)) <= bits p) by (apply length_bit_repr_le; lia).
  rewrite firstn_all2 by lia.
  rewrite of_bits_app, of_bits_repeat_false, of_bits_repr by lia.
  rewrite app_length, repeat_length.
  replace (Z.of_nat (length (bit_repr x) + (Z.to_nat (bits p) - length (bit_repr x))))
    with (bits p) by lia.
  lia.
Qed.

Lemma complement_involutive x p :
  1 < p -> 0 <= x < p -> complement (complement x p) p = x.
Proof.
  intros Hp Hx. pose proof (bits_lt p ltac:(lia)).
  rewrite (complement_spec x) by lia.
  pose proof (Z.mod_pos_bound (2 ^ bits p - 1 - x) p ltac:(lia)).
  rewrite complement_spec by lia.
  rewrite Zminus_mod_idemp_r.
  replace (2 ^ bits p - 1 - (2 ^ bits p - 1 - x)) with x by lia.
  apply Z.mod_small; lia.
Qed.

(** Shifts. *)
Lemma quot2 p : 0 < p -> Z.quot p 2 = p / 2.
Proof. intros; apply Z.quot_div_nonneg; lia. Qed.

Definition shl_val l k p := ((l * 2 ^ k) mod 2 ^ bits p) mod p.
Definition shr_val l k := l / 2 ^ k.

Lemma land_mask l p : 0 < p -> Z.land l (mask p) = l mod 2 ^ bits p.
Proof. intros. rewrite mask_ones, Z.land_ones by (try apply bits_nonneg; lia). reflexivity. Qed.

Lemma shift_base f d l k p :
  0 < p -> 0 <= l -> 0 <= k <= p / 2 -> k < 2 ^ 64 ->
  shift (S f) d l k p = Ok (if d then shl_val l k p else shr_val l k).
Proof.
  intros Hp Hl Hk Hu. cbn [shift]. rewrite quot2 by lia.
  destruct (Z.leb_spec k (p / 2)); [|lia].
  unfold to_usize. destruct (Z.leb_spec 0 k); [|lia]. destruct (Z.ltb_spec k (2 ^ 64)); [|lia].
  cbn [andb]. destruct d.
  - rewrite land_mask, modulus_mod by lia. reflexivity.
  - rewrite Z.quot_div_nonneg by (try apply Z.pow_pos_nonneg; lia). reflexivity.
Qed.
Lemma shift_too_big f d l k p :
  0 < p -> 2 ^ 64 <= k <= p / 2 -> shift (S f) d l k p = DivisionByZero.
Proof.
  intros Hp Hk. cbn [shift]. rewrite quot2 by lia.
  destruct (Z.leb_spec k (p / 2)); [|lia].
  unfold to_usize. destruct (Z.ltb_spec k (2 ^ 64)); [lia|]. rewrite andb_false_r. reflexivity.
Qed.
Lemma shift_mirror f d l k p :
  0 < p -> p / 2 < k -> shift (S f) d l k p = shift f (negb d) l (p - k) p.
Proof.
  intros Hp Hk. cbn [shift]. rewrite quot2 by lia.
  destruct (Z.leb_spec k (p / 2)); [lia|reflexivity].
Qed.

Lemma half_mirror p k : 0 < p -> p / 2 < k <= p -> 0 <= p - k <= p / 2.
Proof. intros Hp Hk. pose proof (Z.div_mod p 2 ltac:(lia)). pose proof (Z.mod_pos_bound p 2 ltac:(lia)). lia. Qed.

Lemma shl_val_range l k p : 0 < p -> 0 <= shl_val l k p < p.
Proof. intros; unfold shl_val; apply Z.mod_pos_bound; lia. Qed.
Lemma shr_val_range l k p : 0 <= l < p -> 0 <= k -> 0 <= shr_val l k < p.
Proof.
  intros; unfold shr_val. split; [apply Z.div_pos; try apply Z.pow_pos_nonneg; lia|].
  apply Z.le_lt_trans with l; [|lia]. apply Z.div_le_upper_bound; [apply Z.pow_pos_nonneg; lia|].
  assert (1 <= 2 ^ k) by (change 1 with (2 ^ 0); apply Z.pow_le_mono_r; lia). nia.
Qed.

(** Batch inversion. *)
Fixpoint prodm (l : list Z) : Z := match l with [] => 1 | x :: r => x * prodm r end.

Lemma length_prefixes acc vs p : length (prefixes acc vs p) = length vs.
Proof. revert acc; induction vs as [|v vs IH]; intros acc; cbn; [reflexivity|rewrite IH; reflexivity]. Qed.

Lemma prefixes_nth acc vs p i :
  0 < p -> acc mod p = acc -> (i <= length vs)%nat ->
  nth i (acc :: prefixes acc vs p) 0 = (acc * prodm (firstn i vs)) mod p.
Proof.
  intros Hp. revert acc i. induction vs as [|v vs IH]; intros acc i Hacc Hi.
  - assert (i = 0%nat) by (cbn in Hi; lia). subst. cbn. rewrite Z.mul_1_r. congruence.
  - destruct i as [|i]; [cbn; rewrite Z.mul_1_r; congruence|].
    cbn [prefixes]. cbn [nth]. cbn [firstn prodm].
    change (match i with 0%nat => mul acc v p | S m => nth m (prefixes (mul acc v p) vs p) 0 end)
      with (nth i (mul acc v p :: prefixes (mul acc v p) vs p) 0).
    rewrite IH; [|rewrite mul_mod by lia; apply Z.mod_mod; lia|cbn in Hi; lia].
    rewrite mul_mod, Z.mul_mod_idemp_l by lia. f_equal. lia.
Qed.

Lemma list_set_length l i v : length (list_set l i v) = length l.
Proof. revert i; induction l as [|x l IH]; intros [|i]; cbn; auto. Qed.
Lemma list_set_nth l i v j :
  (i < length l)%nat -> nth j (list_set l i v) 0 = if Nat.eqb j i then v else nth j l 0.
Proof.
  revert i j; induction l as [|x l IH]; intros [|i] [|j] H; cbn in *; try lia; auto.
  apply IH; lia.
Qed.

Lemma firstn_S_nth (l : list Z) i : (i < length l)%nat -> firstn (S i) l = firstn i l ++ [nth i l 0].
Proof.
  revert i; induction l as [|x l IH]; intros [|i] H; cbn [length] in *; try lia; [reflexivity|].
  cbn [firstn nth app]. f_equal. apply IH; lia.
Qed.
Lemma prodm_app l r : prodm (l ++ r) = prodm l * prodm r.
Proof. induction l as [|x l IH]; cbn [app prodm]; [lia|rewrite IH; lia]. Qed.

Lemma multi_inv_back_spec i vs outs inv p :
  1 < p -> (i <= length vs)%nat -> (length vs <= length outs)%nat ->
  (inv * prodm (firstn i vs)) mod p = 1 ->
  let partials := 1 :: prefixes 1 vs p in
  let out := multi_inv_back i partials vs outs inv p in
  length out = length outs /\
  (forall j, (i <= j)%nat -> nth j out 0 = nth j outs 0) /\
  (forall j, (j < i)%nat -> 0 <= nth j out 0 < p /\ (nth j out 0 * nth j vs 0) mod p = 1).
Proof.
  intros Hp. revert outs inv. induction i as [|i IH]; intros outs inv Hi Ho Hinv.
  - cbn. repeat split; auto; lia.
  - cbn zeta. cbn [multi_inv_back].
    set (o := mul (nth i (1 :: prefixes 1 vs p) 0) inv p).
    set (inv' := mul inv (nth i vs 0) p).
    assert (Ho' : o = (prodm (firstn i vs) * inv) mod p).
    { unfold o. rewrite prefixes_nth by (try (apply Z.mod_small; lia); lia).
      rewrite mul_mod, Z.mul_mod_idemp_l by lia. f_equal. lia. }
    assert (HS : (inv * prodm (firstn i vs) * nth i vs 0) mod p = 1).
    { rewrite firstn_S_nth, prodm_app in Hinv by lia. cbn [prodm] in Hinv.
      rewrite <- Hinv. f_equal. lia. }
    assert (Hinv' : (inv' * prodm (firstn i vs)) mod p = 1).
    { unfold inv'. rewrite mul_mod, Z.mul_mod_idemp_l by lia. rewrite <- HS. f_equal. lia. }
    destruct (IH (list_set outs i o) inv' ltac:(lia) ltac:(rewrite list_set_length; lia) Hinv')
      as (HL & HA & HB).
    rewrite list_set_length in HL. split; [exact HL|]. split.
    + intros j Hj. rewrite HA by lia. rewrite list_set_nth by lia.
      destruct (Nat.eqb_spec j i); [lia|reflexivity].
    + intros j Hj. destruct (Nat.eq_dec j i) as [->|Hn].
      * rewrite HA by lia. rewrite list_set_nth, Nat.eqb_refl by lia.
        rewrite Ho'. split; [apply Z.mod_pos_bound; lia|].
        rewrite Z.mul_mod_idemp_l by lia. rewrite <- HS. f_equal. lia.
      * apply HB; lia.
Qed.

Lemma prod_nonzero vs p :
  prime p -> (Forall (fun v => v mod p <> 0) vs <-> prodm vs mod p <> 0).
Proof.
  intros Hp. pose proof (prime_ge_2 _ Hp). induction vs as [|v vs IH]; cbn [prodm].
  - split; [intros _|constructor]. rewrite Z.mod_small by lia. lia.
  - rewrite Forall_cons_iff, IH. rewrite !Z.mod_divide by lia. split.
    + intros [H1 H2] Hd. apply prime_mult in Hd; [tauto|assumption].
    + intros Hn. split; intros Hd; apply Hn; [apply Z.divide_mul_l|apply Z.divide_mul_r]; assumption.
Qed.

Lemma multi_inv_ok vs p :
  prime p -> Forall (fun v => v mod p <> 0) vs ->
  exists out, multi_inv vs p = Ok out /\
    (length vs <= length out)%nat /\
    forall i, (i < length vs)%nat ->
      0 <= nth i out 0 < p /\ (nth i out 0 * nth i vs 0) mod p = 1.
Proof.
  intros Hp Hv. pose proof (prime_ge_2 _ Hp).
  unfold multi_inv.
  set (partials := 1 :: prefixes 1 vs p).
  assert (HL : length partials = S (length vs)) by (unfold partials; cbn [length]; rewrite length_prefixes; reflexivity).
  rewrite HL. replace (S (length vs) - 1)%nat with (length vs) by lia.
  assert (Hlast : nth (length vs) partials 0 = prodm vs mod p).
  { unfold partials. rewrite prefixes_nth by (try (apply Z.mod_small; lia); lia).
    rewrite firstn_all, Z.mul_1_l. reflexivity. }
  rewrite Hlast.
  apply (prod_nonzero vs p Hp) in Hv.
  destruct (div_spec 1 (prodm vs mod p) p Hp) as [_ Hd].
  destruct (Hd ltac:(rewrite Z.mod_mod by lia; assumption)) as (q & Eq & Hq & Hqm & _).
  rewrite Eq. eexists; split; [reflexivity|].
  destruct (multi_inv_back_spec (length vs) vs (repeat 0 (S (length vs))) q p) as (A & _ & B).
  - lia.
  - lia.
  - rewrite repeat_length; lia.
  - rewrite firstn_all. rewrite Z.mul_mod_idemp_r in Hqm by lia.
    rewrite Hqm. apply Z.mod_small; lia.
  - fold partials in A, B. rewrite A, repeat_length. split; [lia|]. exact B.
Qed.

Lemma multi_inv_panic vs p :
  prime p -> (multi_inv vs p = Panic <-> Exists (fun v => v mod p = 0) vs).
Proof.
  intros Hp. pose proof (prime_ge_2 _ Hp).
  assert (Hneg : Exists (fun v => v mod p = 0) vs <-> ~ Forall (fun v => v mod p <> 0) vs).
  { split.
    - intros He Hf. rewrite Exists_exists in He. destruct He as (x & Hx & E).
      rewrite Forall_forall in Hf. exact (Hf x Hx E).
    - intros Hf. apply Exists_exists.
      induction vs as [|v vs IH]; [exfalso; apply Hf; constructor|].
      destruct (Z.eq_dec (v mod p) 0) as [E|E]; [exists v; split; [left; reflexivity|assumption]|].
      destruct IH as (x & Hx & Ex); [intros Hf'; apply Hf; constructor; assumption|].
      exists x; split; [right; assumption|assumption]. }
  rewrite Hneg. split.
  - intros HP Hf. destruct (multi_inv_ok vs p Hp Hf) as (out & E & _). congruence.
  - intros Hf. unfold multi_inv.
    set (partials := 1 :: prefixes 1 vs p).
    assert (HL : length partials = S (length vs)) by (unfold partials; cbn [length]; rewrite length_prefixes; reflexivity).
    rewrite HL. replace (S (length vs) - 1)%nat with (length vs) by lia.
    assert (Hlast : nth (length vs) partials 0 = prodm vs mod p).
    { unfold partials. rewrite prefixes_nth by (try (apply Z.mod_small; lia); lia).
      rewrite firstn_all, Z.mul_1_l. reflexivity. }
    rewrite Hlast.
    assert (Hz : prodm vs mod p = 0).
    { destruct (Z.eq_dec (prodm vs mod p) 0); [assumption|].
      exfalso; apply Hf; apply prod_nonzero; assumption. }
    rewrite Hz. destruct (div_spec 1 0 p Hp) as [Hd _]. rewrite Hd; [reflexivity|].
    apply Z.mod_0_l; lia.
Qed.
