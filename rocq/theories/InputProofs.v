(** Proofs about the table of input names and the assignment protocol. *)
From stdpp Require Import prelude list.
From Verif Require Import InputModel.
Open Scope Z_scope.

Definition occ (t : list entry) (p : nat) : Prop := exists e, t !! p = Some e /\ e_signalid e <> 0%nat.
Definition slot (n : nat) (h : Z) (j : nat) : nat := ((start_slot n h + j) mod n)%nat.

Lemma start_slot_lt n h : (0 < n)%nat -> (start_slot n h < n)%nat.
Proof. intros H. unfold start_slot. pose proof (Z.mod_pos_bound h (Z.of_nat n)). lia. Qed.
Lemma slot_lt n h j : (0 < n)%nat -> (slot n h j < n)%nat.
Proof. intros H. unfold slot. apply Nat.mod_upper_bound. lia. Qed.
Lemma slot_0 n h : (0 < n)%nat -> slot n h 0 = start_slot n h.
Proof. intros H. unfold slot. rewrite Nat.add_0_r. apply Nat.mod_small, start_slot_lt, H. Qed.
Lemma slot_S n h j : (0 < n)%nat -> ((slot n h j + 1) mod n)%nat = slot n h (S j).
Proof. intros H. unfold slot. rewrite Nat.add_mod_idemp_l by lia. f_equal. lia. Qed.
Lemma slot_ex n h p : (p < n)%nat -> exists j, (j < n)%nat /\ slot n h j = p.
Proof.
  intros H. pose proof (start_slot_lt n h ltac:(lia)) as S.
  destruct (decide (start_slot n h <= p)%nat).
  - exists (p - start_slot n h)%nat. split; [lia|]. unfold slot.
    replace (start_slot n h + (p - start_slot n h))%nat with p by lia. apply Nat.mod_small. lia.
  - exists (p + n - start_slot n h)%nat. split; [lia|]. unfold slot.
    replace (start_slot n h + (p + n - start_slot n h))%nat with (p + 1 * n)%nat by lia.
    rewrite Nat.mod_add by lia. apply Nat.mod_small. lia.
Qed.
Lemma slot_inj n h i j : (i < n)%nat -> (j < n)%nat -> slot n h i = slot n h j -> i = j.
Proof.
  intros Hi Hj H. unfold slot in H. pose proof (start_slot_lt n h ltac:(lia)) as S.
  set (s := start_slot n h) in *.
  assert (forall k, (k < n)%nat -> ((s + k) mod n = if decide (s + k < n) then s + k else s + k - n)%nat) as Q.
  { intros k Hk. case_decide. { apply Nat.mod_small. done. }
    replace (s + k)%nat with ((s + k - n) + 1 * n)%nat at 1 by lia. rewrite Nat.mod_add by lia. apply Nat.mod_small. lia. }
  rewrite !Q in H by done. repeat case_decide; lia.
Qed.

(** *** Searching a free slot *)
Lemma free_slot_sound t h : forall fuel k q, (0 < length t)%nat ->
  free_slot fuel t (slot (length t) h k) = Some q ->
  exists k', (k <= k' < k + fuel)%nat /\ q = slot (length t) h k' /\ (forall j, (k <= j < k')%nat -> occ t (slot (length t) h j)) /\
    exists e, t !! q = Some e /\ e_signalid e = 0%nat.
Proof.
  induction fuel as [|fuel IH]; intros k q Hn H; simpl in H; [done|].
  destruct (t !! slot (length t) h k) as [e|] eqn:E; [|done].
  destruct (e_signalid e =? 0)%nat eqn:Z0.
  - inversion H; subst. exists k. split_and!; [lia|lia|done|intros; lia|]. exists e. split; [done|]. by apply Nat.eqb_eq.
  - rewrite slot_S in H by done. destruct (IH _ _ Hn H) as (k' & Hk & -> & Ho & He).
    exists k'. split_and!; [lia|lia|done| |done]. intros j Hj.
    destruct (decide (j = k)) as [->|]; [|apply Ho; lia]. exists e. split; [done|]. by apply Nat.eqb_neq.
Qed.
Lemma free_slot_complete t h d : (d < length t)%nat ->
  (exists e, t !! slot (length t) h d = Some e /\ e_signalid e = 0%nat) ->
  forall fuel k, (k <= d)%nat -> (d - k < fuel)%nat -> is_Some (free_slot fuel t (slot (length t) h k)).
Proof.
  intros Hd (e0 & He0 & Hz). induction fuel as [|fuel IH]; intros k Hk Hf; [lia|]. simpl.
  destruct (lookup_lt_is_Some_2 t (slot (length t) h k)) as [e E]. { apply slot_lt. lia. }
  rewrite E. destruct (e_signalid e =? 0)%nat eqn:Z0; [eauto|].
  assert (k <> d) as N. { intros ->. rewrite He0 in E. inversion E; subst. apply Nat.eqb_neq in Z0. done. }
  rewrite slot_S by lia. apply IH; lia.
Qed.

(** *** The invariant of the table *)
Definition isocc (e : entry) : Prop := e_signalid e <> 0%nat.
Global Instance isocc_dec e : Decision (isocc e).
Proof. unfold isocc. apply _. Defined.
Record table_inv (t : list entry) (done : list entry) : Prop := {
  ti_empty : forall p e, t !! p = Some e -> e_signalid e = 0%nat -> e = no_entry;
  ti_content : forall e, isocc e -> e ∈ t <-> e ∈ done;
  ti_inj : forall p q e e', t !! p = Some e -> t !! q = Some e' -> isocc e -> isocc e' -> e_hash e = e_hash e' -> p = q;
  ti_path : forall p e, t !! p = Some e -> isocc e ->
    exists k, (k < length t)%nat /\ p = slot (length t) (e_hash e) k /\ forall j, (j < k)%nat -> occ t (slot (length t) (e_hash e) j);
  ti_count : length (filter isocc t) = length done }.

Lemma table_inv_new size : table_inv (replicate size no_entry) [].
Proof.
  assert (forall p e, replicate size no_entry !! p = Some e -> e = no_entry) as R.
  { intros p e H. apply lookup_replicate in H. tauto. }
  split.
  - eauto.
  - intros e He. split; intros H; [|by apply elem_of_nil in H].
    apply elem_of_list_lookup in H as [p H]. apply R in H. subst. done.
  - intros p q e e' H _ He. apply R in H. subst. done.
  - intros p e H He. apply R in H. subst. done.
  - induction size as [|size IH]; [done|]. cbn [replicate]. rewrite filter_cons_False by (intros Q; by apply Q).
    apply IH. intros p e H. apply lookup_replicate in H. tauto.
Qed.
Lemma filter_insert_new t p e e0 : t !! p = Some e0 -> ~ isocc e0 -> isocc e ->
  length (filter isocc (<[p := e]> t)) = S (length (filter isocc t)).
Proof.
  intros H H0 He. rewrite insert_take_drop by (apply lookup_lt_Some in H; done).
  rewrite <- (take_drop_middle t p e0 H) at 3.
  rewrite !filter_app, filter_cons_True, filter_cons_False by done. rewrite !app_length. simpl. lia.
Qed.
Lemma table_inv_insert t done e p k : table_inv t done -> isocc e -> e_hash e ∉ (e_hash <$> done) ->
  (0 < length t)%nat -> (k < length t)%nat -> p = slot (length t) (e_hash e) k ->
  (forall j, (j < k)%nat -> occ t (slot (length t) (e_hash e) j)) ->
  (exists e0, t !! p = Some e0 /\ e_signalid e0 = 0%nat) ->
  table_inv (<[p := e]> t) (done ++ [e]).
Proof.
  intros [I1 I2 I3 I4 I5] He Hh Hn Hk Hp Ho (e0 & He0 & Hz).
  assert (p < length t)%nat as Hlt by (apply lookup_lt_Some in He0; auto).
  assert (forall q x, <[p := e]> t !! q = Some x -> (q = p /\ x = e) \/ (q <> p /\ t !! q = Some x)) as L.
  { intros q x H. destruct (decide (q = p)) as [->|N].
    - rewrite list_lookup_insert in H by done. left. by inversion H.
    - rewrite list_lookup_insert_ne in H by done. auto. }
  assert (forall q x, t !! q = Some x -> isocc x -> e_hash x <> e_hash e) as Nh.
  { intros q x H Hx E. apply Hh. rewrite <- E. apply elem_of_list_fmap. exists x. split; [done|].
    apply I2; [done|]. by eapply elem_of_list_lookup_2. }
  assert (forall q, occ t q -> occ (<[p := e]> t) q) as M.
  { intros q (x & Hx & Hx'). destruct (decide (q = p)) as [->|N].
    - exists e. rewrite list_lookup_insert by done. done.
    - exists x. rewrite list_lookup_insert_ne by done. done. }
  split.
  - intros q x H Hx. destruct (L _ _ H) as [[-> ->]|[_ H']]; [done|eauto].
  - intros x Hx. rewrite elem_of_app, elem_of_list_singleton. split.
    + intros H. apply elem_of_list_lookup in H as [q H]. destruct (L _ _ H) as [[-> ->]|[_ H']]; [auto|].
      left. apply I2; [done|]. by eapply elem_of_list_lookup_2.
    + intros [H| ->].
      * apply I2 in H; [|done]. apply elem_of_list_lookup in H as [q H]. eapply (elem_of_list_lookup_2 _ q).
        rewrite list_lookup_insert_ne; [done|]. intros <-. rewrite He0 in H. inversion H; subst. done.
      * eapply (elem_of_list_lookup_2 _ p). by apply list_lookup_insert.
  - intros q r x y Hq Hr Hx Hy E. destruct (L _ _ Hq) as [[-> ->]|[N1 Hq']], (L _ _ Hr) as [[-> ->]|[N2 Hr']].
    + done.
    + exfalso. eapply Nh; eauto.
    + exfalso. eapply Nh; eauto.
    + eapply I3; eauto.
  - rewrite insert_length. intros q x H Hx. destruct (L _ _ H) as [[-> ->]|[_ H']].
    + exists k. split_and!; eauto.
    + destruct (I4 _ _ H' Hx) as (k' & ? & ? & ?). exists k'. split_and!; eauto.
  - rewrite app_length. simpl. rewrite (filter_insert_new _ _ _ e0); [lia|done| |done]. intros Q. done.
Qed.

Lemma some_free t done : table_inv t done -> (length done < length t)%nat -> exists p e, t !! p = Some e /\ e_signalid e = 0%nat.
Proof.
  intros I Hl. rewrite <- (ti_count _ _ I) in Hl. clear I. induction t as [|x t IH]; [simpl in Hl; lia|].
  destruct (decide (isocc x)) as [Hx|Hx].
  - rewrite filter_cons_True in Hl by done. simpl in Hl. destruct IH as (p & e & ? & ?); [lia|]. exists (S p), e. done.
  - exists 0%nat, x. split; [done|]. unfold isocc in Hx. lia.
Qed.

Lemma insert_all_inv : forall inputs t done, table_inv t done ->
  NoDup (e_hash <$> (done ++ inputs)) -> Forall isocc inputs -> (length done + length inputs <= length t)%nat ->
  exists t', insert_all t inputs = Some t' /\ length t' = length t /\ table_inv t' (done ++ inputs).
Proof.
  induction inputs as [|e inputs IH]; intros t done I Hnd Ho Hl.
  - exists t. rewrite app_nil_r. done.
  - simpl in Hl. cbn [insert_all]. inversion Ho; subst.
    destruct (some_free _ _ I) as (q & e0 & Hq & Hz); [lia|].
    assert (q < length t)%nat as Hqlt by (by eapply lookup_lt_Some).
    destruct (slot_ex _ (e_hash e) q Hqlt) as (d & Hd & Hdq). subst q.
    rewrite <- slot_0 by lia.
    destruct (free_slot_complete t (e_hash e) d Hd (ex_intro _ e0 (conj Hq Hz)) (length t) 0%nat ltac:(lia) ltac:(lia)) as [p Hp].
    rewrite Hp. destruct (free_slot_sound t (e_hash e) _ _ _ ltac:(lia) Hp) as (k & Hk & Hpk & Hocc & Hfree).
    destruct (IH (<[p := e]> t) (done ++ [e])) as (t' & E & L & I').
    + assert (e_hash e ∉ (e_hash <$> done)) as Hni.
      { rewrite fmap_app, fmap_cons in Hnd. apply NoDup_app in Hnd as (_ & Hd' & _). intros Hin. apply (Hd' _ Hin). left. }
      apply (table_inv_insert t done e p k I H1 Hni); [lia|lia|done| |done]. intros j Hj. apply Hocc. lia.
    + by rewrite <- app_assoc.
    + done.
    + rewrite insert_length, app_length. simpl. lia.
    + exists t'. rewrite E, L, insert_length, <- app_assoc in *. done.
Qed.

(** *** Lookups *)
Lemma cpp_probe_found t h p e : (0 < length t)%nat -> forall fuel j k, (0 < j <= k)%nat -> (k < length t)%nat -> (k - j < fuel)%nat ->
  p = slot (length t) h k -> t !! p = Some e -> e_hash e = h ->
  (forall i, (i < k)%nat -> exists x, t !! slot (length t) h i = Some x /\ e_signalid x <> 0%nat /\ e_hash x <> h) ->
  cpp_probe fuel t h (slot (length t) h 0) (slot (length t) h j) = Some p.
Proof.
  intros Hn. induction fuel as [|fuel IH]; intros j k Hj Hk Hf Hp He Hh Ho; [lia|]. cbn [cpp_probe].
  destruct (slot (length t) h j =? slot (length t) h 0)%nat eqn:W.
  { apply Nat.eqb_eq in W. apply slot_inj in W; lia. }
  destruct (decide (j = k)) as [->|N].
  - rewrite <- Hp, He, Hh, Z.eqb_refl. done.
  - destruct (Ho j) as (x & Hx & Hx1 & Hx2); [lia|]. rewrite Hx.
    replace (e_hash x =? h) with false by (symmetry; by apply Z.eqb_neq).
    replace (e_signalid x =? 0)%nat with false by (symmetry; by apply Nat.eqb_neq).
    rewrite slot_S by done. eapply IH; eauto; lia.
Qed.
Lemma path_others t done e p : table_inv t done -> t !! p = Some e -> isocc e -> (0 < length t)%nat ->
  exists k, (k < length t)%nat /\ p = slot (length t) (e_hash e) k /\
    forall i, (i < k)%nat -> exists x, t !! slot (length t) (e_hash e) i = Some x /\ e_signalid x <> 0%nat /\ e_hash x <> e_hash e.
Proof.
  intros I Hp He Hn. destruct (ti_path _ _ I _ _ Hp He) as (k & Hk & Hpk & Ho).
  exists k. split_and!; [done..|]. intros i Hi. destruct (Ho i Hi) as (x & Hx & Hx'). exists x. split_and!; [done..|].
  intros E. assert (slot (length t) (e_hash e) i = p) as Q by (eapply ti_inj; eauto).
  rewrite Hpk in Q. apply slot_inj in Q; lia.
Qed.
Lemma cpp_lookup_found t done e : table_inv t done -> e ∈ done -> isocc e ->
  exists p, t !! p = Some e /\ cpp_lookup t (e_hash e) = Some p.
Proof.
  intros I Hin He. apply (ti_content _ _ I e He) in Hin. apply elem_of_list_lookup in Hin as [p Hp]. exists p. split; [done|].
  assert (0 < length t)%nat as Hn by (apply lookup_lt_Some in Hp; lia).
  destruct (path_others _ _ _ _ I Hp He Hn) as (k & Hk & Hpk & Ho).
  unfold cpp_lookup. rewrite <- slot_0 by done. destruct (decide (k = 0%nat)) as [->|N].
  - rewrite <- Hpk, Hp, Z.eqb_refl. done.
  - destruct (Ho 0%nat) as (x & Hx & Hx1 & Hx2); [lia|]. rewrite Hx.
    replace (e_hash x =? e_hash e) with false by (symmetry; by apply Z.eqb_neq).
    rewrite slot_S by done. apply (cpp_probe_found t (e_hash e) p e Hn _ 1 k); auto; lia.
Qed.
Lemma cpp_probe_unknown t h : (forall p e, t !! p = Some e -> e_hash e <> h) -> forall fuel a b, cpp_probe fuel t h a b = None.
Proof.
  intros H. induction fuel as [|fuel IH]; intros a b; [done|]. cbn [cpp_probe]. destruct (b =? a)%nat; [done|].
  destruct (t !! b) as [e|] eqn:E; [|done]. replace (e_hash e =? h) with false by (symmetry; apply Z.eqb_neq; eauto).
  destruct (e_signalid e =? 0)%nat; eauto.
Qed.
Lemma unknown_hash t done h : table_inv t done -> h <> 0 -> h ∉ (e_hash <$> done) -> forall p e, t !! p = Some e -> e_hash e <> h.
Proof.
  intros I Hz Hh p e Hp E. destruct (decide (isocc e)) as [He|He].
  - apply Hh. rewrite <- E. apply elem_of_list_fmap_1, (ti_content _ _ I e He). by eapply elem_of_list_lookup_2.
  - rewrite (ti_empty _ _ I _ _ Hp) in E; [simpl in E; congruence|]. unfold isocc in He. lia.
Qed.
Lemma cpp_lookup_unknown t h : (forall p e, t !! p = Some e -> e_hash e <> h) -> cpp_lookup t h = None.
Proof.
  intros H. unfold cpp_lookup. destruct (t !! start_slot (length t) h) as [e|] eqn:E; [|done].
  replace (e_hash e =? h) with false by (symmetry; apply Z.eqb_neq; eauto). by apply cpp_probe_unknown.
Qed.
(** What a successful lookup returns *)
Lemma cpp_probe_hash t h : forall fuel a b p, cpp_probe fuel t h a b = Some p -> exists e, t !! p = Some e /\ e_hash e = h.
Proof.
  induction fuel as [|fuel IH]; intros a b p H; [done|]. cbn [cpp_probe] in H. destruct (b =? a)%nat; [done|].
  destruct (t !! b) as [e|] eqn:E; [|done]. destruct (e_hash e =? h) eqn:Q.
  - inversion H; subst. exists e. split; [done|]. by apply Z.eqb_eq.
  - destruct (e_signalid e =? 0)%nat; [done|eauto].
Qed.
Lemma cpp_lookup_hash t h p : cpp_lookup t h = Some p -> exists e, t !! p = Some e /\ e_hash e = h.
Proof.
  unfold cpp_lookup. destruct (t !! start_slot (length t) h) as [e|] eqn:E; [|done]. destruct (e_hash e =? h) eqn:Q; intros H.
  - inversion H; subst. exists e. split; [done|]. by apply Z.eqb_eq.
  - by eapply cpp_probe_hash.
Qed.

(** *** WebAssembly *)
Lemma wasm_slot (k : nat) x : (k <= 32)%nat -> 0 <= x ->
  Z.to_nat (Z.land (x mod 2 ^ 32) (Z.of_nat (2 ^ k)%nat - 1)) = Z.to_nat (x mod Z.of_nat (2 ^ k)%nat).
Proof.
  intros Hk Hx. f_equal. rewrite Nat2Z.inj_pow. change (Z.of_nat 2) with 2.
  replace (2 ^ Z.of_nat k - 1) with (Z.ones (Z.of_nat k)) by (rewrite Z.ones_equiv; lia).
  rewrite Z.land_ones by lia.
  replace (2 ^ 32) with (2 ^ (32 - Z.of_nat k) * 2 ^ Z.of_nat k) by (rewrite <- Z.pow_add_r by lia; f_equal; lia).
  rewrite Z.mul_comm, Z.rem_mul_r by (try apply Z.pow_nonzero; try apply Z.pow_pos_nonneg; lia).
  rewrite Z.mul_comm, Z.mod_add by (apply Z.pow_nonzero; lia). rewrite Z.mod_mod; [done|]. apply Z.pow_nonzero; lia.
Qed.
Lemma wasm_start (t : list entry) k h : length t = (2 ^ k)%nat -> (k <= 32)%nat -> 0 <= h ->
  Z.to_nat (Z.land (h mod 2 ^ 32) (Z.of_nat (length t) - 1)) = slot (length t) h 0.
Proof. intros E Hk Hh. rewrite E, wasm_slot by done. rewrite slot_0; [done|]. pose proof (Nat.pow_nonzero 2 k). lia. Qed.
Lemma wasm_next (t : list entry) k h j : length t = (2 ^ k)%nat -> (k <= 32)%nat ->
  Z.to_nat (Z.land ((Z.of_nat (slot (length t) h j) + 1) mod 2 ^ 32) (Z.of_nat (length t) - 1)) = slot (length t) h (S j).
Proof.
  intros E Hk. assert (0 < length t)%nat by (rewrite E; pose proof (Nat.pow_nonzero 2 k); lia).
  rewrite <- slot_S by done. rewrite E. rewrite wasm_slot by lia. rewrite <- E.
  rewrite <- (Nat2Z.id ((slot (length t) h j + 1) mod length t)%nat). f_equal. rewrite Nat2Z.inj_mod, Nat2Z.inj_add. done.
Qed.
Lemma wasm_probe_found t (kk : nat) h p e : length t = (2 ^ kk)%nat -> (kk <= 32)%nat -> forall fuel j k, (j <= k)%nat -> (k < length t)%nat ->
  (k - j < fuel)%nat -> p = slot (length t) h k -> t !! p = Some e -> e_hash e = h ->
  (forall i, (i < k)%nat -> exists x, t !! slot (length t) h i = Some x /\ e_hash x <> 0 /\ e_hash x <> h) ->
  wasm_probe fuel t h (slot (length t) h 0) (slot (length t) h j) = Some p.
Proof.
  intros Hl Hkk. induction fuel as [|fuel IH]; intros j k Hj Hk Hf Hp He Hh Ho; [lia|]. cbn [wasm_probe].
  destruct (decide (j = k)) as [->|N].
  - rewrite <- Hp, He, Hh, Z.eqb_refl. done.
  - destruct (Ho j) as (x & Hx & Hx1 & Hx2); [lia|]. rewrite Hx.
    replace (e_hash x =? h) with false by (symmetry; by apply Z.eqb_neq).
    replace (e_hash x =? 0) with false by (symmetry; by apply Z.eqb_neq).
    cbv zeta. rewrite (wasm_next _ kk) by done.
    destruct (slot (length t) h (S j) =? slot (length t) h 0)%nat eqn:W.
    { apply Nat.eqb_eq in W. apply slot_inj in W; lia. }
    apply (IH (S j) k); auto; lia.
Qed.
Lemma wasm_lookup_found t (kk : nat) done e : table_inv t done -> length t = (2 ^ kk)%nat -> (kk <= 32)%nat ->
  Forall (fun e => 0 < e_hash e) done -> e ∈ done -> isocc e ->
  exists p, t !! p = Some e /\ wasm_lookup t (e_hash e) = Some p.
Proof.
  intros I Hl Hkk Hpos Hin He. pose proof (proj1 (Forall_forall _ _) Hpos) as Hp0. pose proof (Hp0 _ Hin) as Hh. cbv beta in Hh.
  apply (ti_content _ _ I e He) in Hin. apply elem_of_list_lookup in Hin as [p Hp]. exists p. split; [done|].
  assert (0 < length t)%nat as Hn by (apply lookup_lt_Some in Hp; lia).
  destruct (path_others _ _ _ _ I Hp He Hn) as (k & Hk & Hpk & Ho).
  unfold wasm_lookup. rewrite (wasm_start _ kk) by (done || lia).
  apply (wasm_probe_found t kk (e_hash e) p e Hl Hkk _ 0 k); auto; try lia.
  intros i Hi. destruct (Ho i Hi) as (x & Hx & Hx1 & Hx2). exists x. split_and!; [done| |done].
  assert (x ∈ done) as Hxd by (apply (ti_content _ _ I x Hx1); by eapply elem_of_list_lookup_2).
  specialize (Hp0 _ Hxd). simpl in Hp0. lia.
Qed.
Lemma wasm_probe_unknown t h : (forall p e, t !! p = Some e -> e_hash e <> h) -> forall fuel a b, wasm_probe fuel t h a b = None.
Proof.
  intros H. induction fuel as [|fuel IH]; intros a b; [done|]. cbn [wasm_probe].
  destruct (t !! b) as [e|] eqn:E; [|done]. replace (e_hash e =? h) with false by (symmetry; apply Z.eqb_neq; eauto).
  destruct (e_hash e =? 0); [done|]. cbv zeta. case_match; eauto.
Qed.

(** ** The assignment protocol *)
From Verif Require Import InputSpec.
Section protocol_proofs.
Context {F : Type} (inputs : list entry) (size start count : nat) (table : list entry).
Hypothesis V : valid_inputs inputs start count.
Hypothesis T : generate_hash_map inputs size = Some table.

Lemma valid_isocc : Forall isocc inputs.
Proof.
  pose proof (vi_start _ _ _ V). pose proof (proj1 (Forall_forall _ _) (vi_ranges _ _ _ V)) as R.
  apply Forall_forall. intros e He. apply R in He. unfold isocc. lia.
Qed.
Lemma generate_inv : table_inv table inputs /\ length table = size.
Proof.
  unfold generate_hash_map in T. destruct (length inputs <=? size)%nat eqn:L; [|done]. apply Nat.leb_le in L.
  destruct (insert_all_inv inputs (replicate size no_entry) []) as (t' & E & L' & I).
  - apply table_inv_new.
  - apply (vi_hashes _ _ _ V).
  - apply valid_isocc.
  - rewrite replicate_length. done.
  - rewrite T in E. inversion E; subst. rewrite replicate_length in *. done.
Qed.
Lemma inputs_hash_inj e e' : e ∈ inputs -> e' ∈ inputs -> e_hash e = e_hash e' -> e = e'.
Proof.
  intros H H' E. pose proof (proj1 (Forall_forall _ _) valid_isocc) as O. destruct generate_inv as [I _].
  apply (ti_content _ _ I _ (O _ H)) in H as G. apply (ti_content _ _ I _ (O _ H')) in H' as G'.
  apply elem_of_list_lookup in G as [p G]. apply elem_of_list_lookup in G' as [q G'].
  assert (p = q) as -> by (eapply (ti_inj _ _ I); eauto). congruence.
Qed.
Lemma denotes_fun h i p q : denotes inputs h i p -> denotes inputs h i q -> p = q.
Proof. intros (e & H & Eh & _ & ->) (e' & H' & Eh' & _ & ->). f_equal. f_equal. apply inputs_hash_inj; congruence. Qed.
Lemma denotes_range h i p : denotes inputs h i p -> (start <= p < start + count)%nat.
Proof.
  intros (e & H & Eh & L & ->). pose proof (proj1 (Forall_forall _ _) (vi_ranges _ _ _ V) _ H) as R. simpl in R. lia.
Qed.
(** The lookup of an assignment, as the specification sees it *)
Lemma lookup_denotes h pos e i : cpp_lookup table h = Some pos -> table !! pos = Some e -> (i < e_size e)%nat ->
  denotes inputs h i (e_signalid e + i).
Proof.
  intros L P Hi. destruct generate_inv as [I _]. destruct (cpp_lookup_hash _ _ _ L) as (e' & P' & Eh). rewrite P in P'. inversion P'; subst e'.
  destruct (decide (isocc e)) as [O|O].
  - exists e. split_and!; [|done..]. apply (ti_content _ _ I _ O). by eapply elem_of_list_lookup_2.
  - rewrite (ti_empty _ _ I _ _ P) in Hi; [simpl in Hi; lia|]. unfold isocc in O. lia.
Qed.
Lemma denotes_lookup h i p : denotes inputs h i p ->
  exists pos e, cpp_lookup table h = Some pos /\ table !! pos = Some e /\ (i < e_size e)%nat /\ p = (e_signalid e + i)%nat.
Proof.
  intros (e & H & <- & L & ->). destruct generate_inv as [I _].
  destruct (cpp_lookup_found _ _ _ I H) as (pos & P & Q). { by apply (proj1 (Forall_forall _ _) valid_isocc). }
  eauto 10.
Qed.
Lemma size_spec e : e ∈ inputs -> get_input_signal_size table (e_hash e) = Some (e_size e).
Proof.
  intros H. destruct generate_inv as [I _]. unfold get_input_signal_size.
  destruct (cpp_lookup_found _ _ _ I H) as (pos & P & Q). { by apply (proj1 (Forall_forall _ _) valid_isocc). }
  rewrite Q, P. done.
Qed.

(** The state after an accepted history *)
Record calc_inv (initial : list F) (ws : history F) (c : calc (F := F)) : Prop := {
  ci_count : (counter c + length ws = count)%nat;
  ci_len : length (assigned c) = count;
  ci_slen : length (signals c) = length initial;
  ci_assigned : forall p, (start <= p < start + count)%nat -> assigned c !! (p - start)%nat = Some true <-> written inputs ws p;
  ci_signals : forall p v, wrote inputs ws p v -> signals c !! p = Some v;
  ci_other : forall p, ~ written inputs ws p -> signals c !! p = initial !! p;
  ci_all : forall w, w ∈ ws -> exists p, denotes inputs w.1.1 w.1.2 p;
  ci_num : length (filter (fun b => b = true) (assigned c)) = length ws;
  ci_runs : runs c = if decide (length ws = count) then (if decide (count = 0)%nat then [] else [signals c]) else [] }.

Lemma written_app ws h i (v : F) p : written inputs (ws ++ [(h, i, v)]) p <-> written inputs ws p \/ denotes inputs h i p.
Proof.
  unfold written, wrote. setoid_rewrite elem_of_app. setoid_rewrite elem_of_list_singleton. split.
  - intros (v' & h' & i' & [H|H] & D). { eauto 10. } inversion H; subst. auto.
  - intros [(v' & h' & i' & H & D)|D]; eauto 10.
Qed.
Lemma wrote_app ws h i (v : F) p v' : wrote inputs (ws ++ [(h, i, v)]) p v' <-> wrote inputs ws p v' \/ (denotes inputs h i p /\ v' = v).
Proof.
  unfold wrote. setoid_rewrite elem_of_app. setoid_rewrite elem_of_list_singleton. split.
  - intros (h' & i' & [H|H] & D). { eauto 10. } inversion H; subst. auto.
  - intros [(h' & i' & H & D)|[D ->]]; eauto 10.
Qed.
Lemma filter_true_insert l p : l !! p = Some false -> length (filter (fun b => b = true) (<[p := true]> l)) = S (length (filter (fun b => b = true) l)).
Proof.
  intros H. rewrite insert_take_drop by (apply lookup_lt_Some in H; done).
  rewrite <- (take_drop_middle l p false H) at 3.
  rewrite !filter_app, filter_cons_True, filter_cons_False by done. rewrite !app_length. simpl. lia.
Qed.
Lemma filter_true_le l : (length (filter (fun b => b = true) l) <= length l)%nat.
Proof.
  induction l as [|[] l IH]; [simpl; lia| |]. { rewrite filter_cons_True by done. cbn [length]. lia. }
  rewrite filter_cons_False by done. cbn [length]. lia.
Qed.
Lemma filter_true_all l : length (filter (fun b => b = true) l) = length l -> forall p, (p < length l)%nat -> l !! p = Some true.
Proof.
  induction l as [|[] l IH]; intros H p Hp; [simpl in Hp; lia| |].
  - rewrite filter_cons_True in H by done. cbn [length] in *. destruct p as [|p]; [done|]. apply IH; lia.
  - rewrite filter_cons_False in H by done. pose proof (filter_true_le l). cbn [length] in H. lia.
Qed.

Lemma calc_inv_new initial : calc_inv initial [] (calc_new count initial).
Proof.
  split; simpl.
  - lia.
  - apply replicate_length.
  - done.
  - intros p Hp. rewrite lookup_replicate. split; [intros [? _]; done|]. intros (v & h & i & H & _). by apply elem_of_nil in H.
  - intros p v (h & i & H & _). by apply elem_of_nil in H.
  - done.
  - intros w H. by apply elem_of_nil in H.
  - clear. induction count as [|n IH]; [done|]. cbn [replicate]. rewrite filter_cons_False by done. done.
  - repeat case_decide; try done.
Qed.

Lemma set_accepts initial ws c h i v : calc_inv initial ws c ->
  (exists c', set_input_signal table start h i v c = Some c') <-> exists p, denotes inputs h i p /\ ~ written inputs ws p.
Proof.
  intros C. split.
  - intros (c' & H). unfold set_input_signal in H. destruct (counter c =? 0)%nat; [done|].
    destruct (cpp_lookup table h) as [pos|] eqn:L; [|done]. destruct (table !! pos) as [e|] eqn:P; [|done].
    destruct (e_size e <=? i)%nat eqn:S; [done|]. apply Nat.leb_gt in S. cbv zeta in H.
    pose proof (lookup_denotes _ _ _ _ L P S) as D. pose proof (denotes_range _ _ _ D) as R.
    destruct (assigned c !! (e_signalid e + i - start)%nat) as [[]|] eqn:A; try done.
    exists (e_signalid e + i)%nat. split; [done|]. intros W. apply (ci_assigned _ _ _ C _ R) in W. congruence.
  - intros (p & D & NW). pose proof (denotes_range _ _ _ D) as R.
    destruct (denotes_lookup _ _ _ D) as (pos & e & L & P & S & ->). unfold set_input_signal.
    assert (assigned c !! (e_signalid e + i - start)%nat = Some false) as A.
    { destruct (lookup_lt_is_Some_2 (assigned c) (e_signalid e + i - start)%nat) as [[] A]; [|exfalso|done].
      - rewrite (ci_len _ _ _ C). lia.
      - apply NW. by apply (ci_assigned _ _ _ C _ R). }
    destruct (counter c =? 0)%nat eqn:Z0.
    { apply Nat.eqb_eq in Z0. pose proof (ci_count _ _ _ C). pose proof (ci_num _ _ _ C). pose proof (ci_len _ _ _ C).
      rewrite (filter_true_all (assigned c)) in A; [done|lia|lia]. }
    rewrite L, P. replace (e_size e <=? i)%nat with false by (symmetry; apply Nat.leb_gt; lia). cbv zeta. rewrite A. eauto.
Qed.

Lemma set_inv initial ws c h i v c' : (start + count <= length initial)%nat -> calc_inv initial ws c ->
  set_input_signal table start h i v c = Some c' -> calc_inv initial (ws ++ [(h, i, v)]) c'.
Proof.
  intros Hlen C H. destruct (proj1 (set_accepts _ _ _ h i v C) (ex_intro _ _ H)) as (p & D & NW).
  pose proof (denotes_range _ _ _ D) as R. destruct (denotes_lookup _ _ _ D) as (pos & e & L & P & S & ->).
  unfold set_input_signal in H. destruct (counter c =? 0)%nat eqn:Z0; [done|]. apply Nat.eqb_neq in Z0.
  rewrite L, P in H. replace (e_size e <=? i)%nat with false in H by (symmetry; apply Nat.leb_gt; lia). cbv zeta in H.
  destruct (assigned c !! (e_signalid e + i - start)%nat) as [[]|] eqn:A; try done.
  set (p := (e_signalid e + i)%nat) in *. set (c1 := Calc (counter c - 1) (<[(p - start)%nat := true]> (assigned c)) (<[p := v]> (signals c)) (runs c)) in *.
  inversion H; subst c'; clear H.
  assert (counter (try_run c1) = counter c1 /\ assigned (try_run c1) = assigned c1 /\ signals (try_run c1) = signals c1) as (E1 & E2 & E3).
  { unfold try_run. destruct (counter c1 =? 0)%nat; done. }
  destruct C as [C1 C2 C3 C4 C5 C6 C7 C8 C9].
  split; rewrite ?E1, ?E2, ?E3; unfold c1; cbn [counter assigned signals].
  - rewrite app_length. simpl. lia.
  - rewrite insert_length. done.
  - rewrite insert_length. done.
  - intros q Hq. rewrite written_app. destruct (decide (q = p)) as [->|N].
    + rewrite list_lookup_insert by lia. tauto.
    + rewrite list_lookup_insert_ne by lia. rewrite C4 by done. split; [auto|]. intros [?|D']; [done|].
      exfalso. apply N. eapply denotes_fun; eauto.
  - intros q v'. rewrite wrote_app. intros [W|[D' ->]].
    + destruct (decide (q = p)) as [->|N]. { exfalso. apply NW. by exists v'. }
      rewrite list_lookup_insert_ne by congruence. auto.
    + rewrite (denotes_fun _ _ _ _ D' D). rewrite list_lookup_insert; [done|]. rewrite C3. lia.
  - intros q. rewrite written_app. intros W. rewrite list_lookup_insert_ne by (intros <-; tauto). apply C6. tauto.
  - intros w. rewrite elem_of_app, elem_of_list_singleton. intros [Hw| ->]; eauto.
  - rewrite filter_true_insert by done. rewrite app_length. simpl. lia.
  - rewrite app_length. cbn [length]. unfold try_run. fold c1. destruct (counter c1 =? 0)%nat eqn:Z1.
    + apply Nat.eqb_eq in Z1. simpl in Z1. cbn [runs]. unfold c1 at 1. cbn [runs]. rewrite C9.
      rewrite decide_False by lia. rewrite decide_True by lia. rewrite decide_False by lia. done.
    + apply Nat.eqb_neq in Z1. simpl in Z1. unfold c1 at 1. cbn [runs]. rewrite C9.
      rewrite decide_False by lia. rewrite decide_False by lia. done.
Qed.

Lemma accepted_inv initial ws c : (start + count <= length initial)%nat ->
  accepted (set_input_signal table start) (calc_new count initial) ws c -> calc_inv initial ws c.
Proof.
  intros Hlen H. remember (calc_new count initial) as c0 eqn:E. induction H as [c|c ws c' h i v c'' A IH S]; subst.
  - apply calc_inv_new.
  - eapply set_inv; eauto.
Qed.
Lemma calc_inv_all initial ws c : calc_inv initial ws c -> counter c = 0%nat ->
  forall p, (start <= p < start + count)%nat -> written inputs ws p.
Proof.
  intros C Z0 p Hp. apply (ci_assigned _ _ _ C p Hp). apply filter_true_all; pose proof (ci_num _ _ _ C); pose proof (ci_count _ _ _ C); pose proof (ci_len _ _ _ C); lia.
Qed.

Lemma accepted_app set : forall ws2 (c c' : calc (F := F)) ws c'', accepted set c ws c' -> accepted set c' ws2 c'' -> accepted set c (ws ++ ws2) c''.
Proof.
  intros ws2 c c' ws c'' H1 H2. induction H2 as [|c' ws2 c1 h i v c2 A IH S]. { by rewrite app_nil_r. }
  rewrite app_assoc. econstructor; eauto.
Qed.
Lemma accepted_one set h i v (c c' : calc (F := F)) : set h i v c = Some c' -> accepted set c [(h, i, v)] c'.
Proof. intros H. change [(h, i, v)] with ([] ++ [(h, i, v)]). econstructor; [constructor|done]. Qed.
Lemma accepted_cons_inv set : forall ws (c : calc (F := F)) h i v c'', accepted set c ((h, i, v) :: ws) c'' ->
  exists c', set h i v c = Some c' /\ accepted set c' ws c''.
Proof.
  intros ws c h i v c'' H. remember ((h, i, v) :: ws) as l eqn:E. revert h i v ws E.
  induction H as [c|c l c1 h' i' v' c2 A IH S]; intros h i v ws E; [done|].
  destruct l as [|w l]; simpl in E; inversion E; subst.
  - inversion A as [|? ws' ? ? ? ? ? ? ? Q]; subst; [|by destruct ws']. exists c2. split; [done|constructor].
  - destruct (IH _ _ _ _ eq_refl) as (c' & S' & A'). exists c'. split; [done|]. econstructor; eauto.
Qed.
Lemma set_values_accepted h : forall (vals : list F) k c c',
  set_values table start h k vals c = Some c' <-> accepted (set_input_signal table start) c (imap (fun i v => (h, (k + i)%nat, v)) vals) c'.
Proof.
  induction vals as [|v vals IH]; intros k c c'; cbn [set_values imap].
  - split; [intros [= ->]; constructor|]. intros H. inversion H; subst; [done|]. by destruct ws.
  - rewrite (imap_ext _ (fun i v => (h, (S k + i)%nat, v))) by (intros; simpl; do 2 f_equal; lia).
    rewrite Nat.add_0_r. destruct (set_input_signal table start h k v c) as [c1|] eqn:S.
    + rewrite IH. split; intros H.
      * change ((h, k, v) :: ?l) with ([(h, k, v)] ++ l). eapply accepted_app; [by apply accepted_one|done].
      * apply accepted_cons_inv in H as (c2 & S2 & A). congruence.
    + split; [done|]. intros H. apply accepted_cons_inv in H as (c2 & S2 & A). congruence.
Qed.
Lemma accepted_app_inv set : forall ws1 ws2 (c : calc (F := F)) c'', accepted set c (ws1 ++ ws2) c'' ->
  exists c', accepted set c ws1 c' /\ accepted set c' ws2 c''.
Proof.
  induction ws1 as [|[[h i] v] ws1 IH]; intros ws2 c c'' H; simpl in *. { exists c. split; [constructor|done]. }
  apply accepted_cons_inv in H as (c1 & S1 & A). apply IH in A as (c2 & A1 & A2). exists c2. split; [|done].
  change ((h, i, v) :: ws1) with ([(h, i, v)] ++ ws1). eapply accepted_app; [by apply accepted_one|done].
Qed.
Lemma load_items_accepted : forall (items : list (Z * list F)) c c', Forall (fun it => it.1 <> 0) items ->
  load_items table start items c = Some c' <-> well_sized inputs items /\ accepted (set_input_signal table start) c (writes_of items) c'.
Proof.
  induction items as [|it items IH]; intros c c' NZ; cbn [load_items].
  - unfold writes_of. simpl. split.
    + intros [= ->]. split; [|constructor]. intros it H. by apply elem_of_nil in H.
    + intros [_ H]. inversion H; subst; [done|]. by destruct ws.
  - inversion NZ; subst. unfold writes_of. rewrite fmap_cons. cbn [concat]. fold (writes_of items). unfold load_item.
    split.
    + intros L. destruct (get_input_signal_size table it.1) as [n|] eqn:G; [|done].
      destruct (length it.2 =? n)%nat eqn:Ln; [|done]. apply Nat.eqb_eq in Ln.
      destruct (set_values table start it.1 0 it.2 c) as [c1|] eqn:S; [|done].
      apply IH in L as [W A]; [|done]. apply set_values_accepted in S. split.
      * intros it' Hin. apply elem_of_cons in Hin as [->|Hin]; [|by apply W].
        unfold get_input_signal_size in G. destruct (cpp_lookup table it.1) as [pos|] eqn:P; [|done].
        destruct (cpp_lookup_hash _ _ _ P) as (e & Pe & Eh). rewrite Pe in G. simpl in G. inversion G; subst.
        destruct generate_inv as [I _]. exists e. split_and!; [|done..].
        assert (isocc e) as O. { destruct (decide (isocc e)) as [|O]; [done|]. rewrite (ti_empty _ _ I _ _ Pe) in Eh; [simpl in Eh; congruence|]. unfold isocc in O. lia. }
        apply (ti_content _ _ I _ O). by eapply elem_of_list_lookup_2.
      * eapply accepted_app; eauto.
    + intros [W A]. destruct (W it) as (e & He & Eh & Es); [left|]. rewrite <- Eh, (size_spec _ He), Es, Nat.eqb_refl, Eh.
      apply accepted_app_inv in A as (c1 & A1 & A2). apply (set_values_accepted it.1 it.2 0) in A1. rewrite A1.
      apply IH; [done|]. split; [|done]. intros it' Hin. apply W. by right.
Qed.
(** Accepted histories are those to pairwise different signals *)
Lemma targets_written ws ps (p : nat) : targets (F := F) inputs ws ps -> written inputs ws p <-> p ∈ ps.
Proof.
  intros H. induction H as [|[[h i] v] q ws ps D H IH].
  - split; [intros (v & h & i & Q & _)|intros Q]; by apply elem_of_nil in Q.
  - rewrite elem_of_cons, <- IH. unfold written, wrote. setoid_rewrite elem_of_cons. split.
    + intros (v' & h' & i' & [Q|Q] & D'); [|eauto 10]. inversion Q; subst. left. eapply denotes_fun; eauto.
    + intros [->|(v' & h' & i' & Q & D')]; eauto 10.
Qed.
Lemma accepted_iff (initial : list F) : (start + count <= length initial)%nat -> forall ws,
  (exists c, accepted (set_input_signal table start) (calc_new count initial) ws c) <-> exists ps, targets inputs ws ps /\ NoDup ps.
Proof.
  intros Hlen ws. induction ws as [|[[h i] v] ws IH] using rev_ind.
  - split; intros _; [exists []|eexists]; [split; constructor|constructor].
  - split.
    + intros (c & A). apply accepted_app_inv in A as (c1 & A1 & A2). destruct (proj1 IH (ex_intro _ _ A1)) as (ps & Tp & Np).
      apply accepted_cons_inv in A2 as (c2 & S & _).
      destruct (proj1 (set_accepts _ _ _ h i v (accepted_inv _ _ _ Hlen A1)) (ex_intro _ _ S)) as (p & D & NW).
      exists (ps ++ [p]). split. { apply Forall2_app; [done|]. repeat constructor. done. }
      apply NoDup_app. split_and!; [done| |apply NoDup_singleton]. intros q Hq Hq'. apply elem_of_list_singleton in Hq' as ->.
      apply NW. by apply (targets_written _ _ _ Tp).
    + intros (ps & Tp & Np). apply Forall2_app_inv_l in Tp as (ps1 & ps2 & T1 & T2 & ->).
      apply NoDup_app in Np as (N1 & N12 & _). destruct (proj2 IH (ex_intro _ ps1 (conj T1 N1))) as (c & A).
      inversion T2 as [|? p ? ? D T3]; subst. inversion T3; subst. simpl in D.
      destruct (proj2 (set_accepts _ _ _ h i v (accepted_inv _ _ _ Hlen A))) as (c' & S).
      * exists p. split; [done|]. intros W. apply (targets_written _ _ _ T1) in W. apply (N12 _ W). left.
      * exists c'. econstructor; eauto.
Qed.
Lemma targets_range ws ps : targets (F := F) inputs ws ps -> forall p, p ∈ ps -> (start <= p < start + count)%nat.
Proof. intros H p Hp. apply (targets_written _ _ p H) in Hp as (v & h & i & _ & D). by eapply denotes_range. Qed.
Lemma targets_full ws ps : targets (F := F) inputs ws ps -> NoDup ps -> length ps = count <-> ps ≡ₚ seq start count.
Proof.
  intros Tp Np. split.
  - intros L. apply submseteq_Permutation_length_eq; [rewrite seq_length; lia|].
    apply NoDup_submseteq; [done|]. intros p Hp. apply elem_of_seq. by eapply targets_range.
  - intros ->. apply seq_length.
Qed.
End protocol_proofs.
