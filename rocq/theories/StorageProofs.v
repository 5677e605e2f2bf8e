From stdpp Require Import prelude gmap fin_maps.
From Coq Require Import ZArith Lia.
From Verif Require Import ModArithModel AlgebraModel BytesModel StorageModel StorageSpec.
Open Scope Z_scope.

(** ** bytes *)
Definition byte (d : Z) : Prop := 0 <= d < 256.
Lemma le_bytes_length n x : length (le_bytes n x) = n.
Proof. revert x. induction n as [|n IH]; intros x; cbn; [reflexivity|]. rewrite IH. reflexivity. Qed.
Lemma le_bytes_byte n x : Forall byte (le_bytes n x).
Proof. revert x. induction n as [|n IH]; intros x; cbn [le_bytes]; constructor; [apply Z.mod_pos_bound; lia|apply IH]. Qed.
Lemma le_bytes_from n x : from_bytes_le (le_bytes n x) = x mod 256 ^ Z.of_nat n.
Proof.
  revert x. induction n as [|n IH]; intros x; cbn [le_bytes from_bytes_le].
  - cbn. rewrite Z.mod_1_r. reflexivity.
  - rewrite IH, Nat2Z.inj_succ, Z.pow_succ_r by lia. rewrite Z.rem_mul_r by lia. lia.
Qed.
Lemma from_bytes_range b : Forall byte b -> 0 <= from_bytes_le b < 256 ^ Z.of_nat (length b).
Proof.
  induction 1 as [|d b Hd _ IH]; cbn [from_bytes_le length]; [cbn; lia|]. rewrite Nat2Z.inj_succ, Z.pow_succ_r by lia. unfold byte in Hd. lia.
Qed.
Lemma from_bytes_inj b b' : Forall byte b -> Forall byte b' -> length b = length b' -> from_bytes_le b = from_bytes_le b' -> b = b'.
Proof.
  intros Hb. revert b'. induction Hb as [|d b Hd Hb IH]; intros b' Hb' HL HE.
  - destruct b'; [reflexivity|discriminate].
  - destruct b' as [|d' b']; [discriminate|]. apply Forall_cons in Hb'. destruct Hb' as [Hd' Hb']. cbn in HL, HE. unfold byte in *.
    assert (d = d' /\ from_bytes_le b = from_bytes_le b') as [-> HE']; [|f_equal; apply IH; auto; lia].
    assert (d = d'); [|lia]. pose proof (Z.mod_unique (d + 256 * from_bytes_le b) 256 (from_bytes_le b) d ltac:(lia) ltac:(lia)).
    pose proof (Z.mod_unique (d + 256 * from_bytes_le b) 256 (from_bytes_le b') d' ltac:(lia) ltac:(lia)). congruence.
Qed.
Lemma digits_spec fuel : forall x, 0 <= x -> x < 256 * 2 ^ Z.of_nat fuel -> from_bytes_le (digits fuel x) = x /\ Forall byte (digits fuel x).
Proof.
  induction fuel as [|f IH]; intros x H0 Hx.
  - cbn [digits from_bytes_le]. cbn in Hx. rewrite Z.mod_small by lia. split; [lia|]. repeat constructor; unfold byte; lia.
  - cbn [digits]. destruct (Z.ltb_spec x 256).
    + cbn [from_bytes_le]. split; [lia|]. repeat constructor; unfold byte; lia.
    + rewrite Nat2Z.inj_succ, Z.pow_succ_r in Hx by lia. destruct (IH (x / 256)) as [E F].
      * apply Z.div_pos; lia.
      * apply Z.div_lt_upper_bound; [lia|]. lia.
      * cbn [from_bytes_le]. rewrite E. split; [pose proof (Z.div_mod x 256 ltac:(lia)); lia|]. constructor; [apply Z.mod_pos_bound; lia|assumption].
Qed.
Lemma log2_fuel x : 0 <= x -> x < 256 * 2 ^ Z.of_nat (Z.to_nat (Z.log2 x)).
Proof.
  intros H. destruct (Z.eq_dec x 0) as [->|Hn]; [cbn; lia|]. pose proof (Z.log2_spec x ltac:(lia)) as [_ Q]. rewrite Z2Nat.id by apply Z.log2_nonneg.
  rewrite Z.pow_succ_r in Q by apply Z.log2_nonneg. lia.
Qed.
Lemma to_bytes_from x : from_bytes_le (to_bytes_le x) = Z.abs x.
Proof. apply digits_spec; [lia|]. apply log2_fuel. lia. Qed.
Lemma to_bytes_byte x : Forall byte (to_bytes_le x).
Proof. apply digits_spec; [lia|]. apply log2_fuel. lia. Qed.
Lemma digits_length fuel : forall x n, 0 <= x -> (1 <= n)%nat -> x < 256 ^ Z.of_nat n -> (length (digits fuel x) <= n)%nat.
Proof.
  induction fuel as [|f IH]; intros x n H0 Hn Hx; cbn [digits length]; [lia|].
  destruct (Z.ltb_spec x 256); cbn [length]; [lia|]. destruct n as [|[|n]]; [lia| |].
  - cbn in Hx. lia.
  - pose proof (IH (x / 256) (S n)). rewrite (Nat2Z.inj_succ (S n)), Z.pow_succ_r in Hx by lia.
    assert (x / 256 < 256 ^ Z.of_nat (S n)) by (apply Z.div_lt_upper_bound; lia). assert (0 <= x / 256) by (apply Z.div_pos; lia). lia.
Qed.
Lemma to_bytes_length x n : (1 <= n)%nat -> Z.abs x < 256 ^ Z.of_nat n -> (length (to_bytes_le x) <= n)%nat.
Proof. intros Hn Hx. apply digits_length; lia. Qed.
Lemma to_bytes_inj x y : 0 <= x -> 0 <= y -> to_bytes_le x = to_bytes_le y -> x = y.
Proof. intros Hx Hy E. apply (f_equal from_bytes_le) in E. rewrite !to_bytes_from in E. lia. Qed.

(** two's complement *)
Lemma bits_bound x : 0 <= x -> x < 2 ^ bits x.
Proof.
  intros H. unfold bits. destruct x as [|x|x]; [cbn; lia| |lia]. rewrite Z.abs_eq by lia. apply (Z.log2_spec (Z.pos x)); lia.
Qed.
Lemma bits_nonneg x : 0 <= bits x.
Proof. unfold bits. destruct x; [lia| |]; pose proof (Z.log2_nonneg (Z.abs (Z.pos p))); pose proof (Z.log2_nonneg (Z.abs (Z.neg p))); lia. Qed.
Lemma signed_len_bound x : let n := Z.of_nat (signed_len x) in 1 <= n /\ - (256 ^ n) <= 2 * x < 256 ^ n.
Proof.
  cbv zeta. unfold signed_len. set (y := if x <? 0 then - x - 1 else x). assert (Hy : 0 <= y) by (unfold y; destruct (Z.ltb_spec x 0); lia).
  pose proof (bits_nonneg y) as Hb. pose proof (Z.div_pos (bits y) 8 Hb ltac:(lia)) as Hd. rewrite Z2Nat.id by lia. split; [lia|].
  assert (Hlt : 2 * y < 256 ^ (bits y / 8 + 1)).
  { change 256 with (2 ^ 8). rewrite <- Z.pow_mul_r by lia. apply Z.lt_le_trans with (2 ^ (bits y + 1)).
    - rewrite Z.pow_add_r by lia. pose proof (bits_bound y Hy). lia.
    - apply Z.pow_le_mono_r; [lia|]. pose proof (Z.div_mod (bits y) 8 ltac:(lia)). pose proof (Z.mod_pos_bound (bits y) 8 ltac:(lia)). lia. }
  unfold y in *. destruct (Z.ltb_spec x 0); [|lia]. set (m := 256 ^ _) in *. split; [|lia].
  enough (2 * (- x) <> m + 1) by lia. unfold m. intros Q. apply (f_equal Z.odd) in Q.
  rewrite Z.odd_mul, Z.odd_add in Q. rewrite Z.odd_pow in Q by lia. cbn in Q. discriminate.
Qed.
Lemma from_bytes_app a b : from_bytes_le (a ++ b) = from_bytes_le a + 256 ^ Z.of_nat (length a) * from_bytes_le b.
Proof.
  induction a as [|d a IH]; cbn [app from_bytes_le length]; [cbn [Z.of_nat]; lia|]. rewrite IH, Nat2Z.inj_succ, Z.pow_succ_r by lia. lia.
Qed.
Lemma signed_roundtrip x : from_signed_bytes_le (to_signed_bytes_le x) = x.
Proof.
  unfold from_signed_bytes_le, to_signed_bytes_le. set (n := signed_len x). destruct (signed_len_bound x) as [H1 H2]. fold n in H1, H2.
  pose proof (le_bytes_byte n x) as HB. pose proof (le_bytes_length n x) as HL. pose proof (le_bytes_from n x) as HF.
  destruct (last (le_bytes n x)) as [d|] eqn:Ed; [|apply last_None in Ed; rewrite Ed in HL; cbn in HL; lia].
  apply last_Some in Ed. destruct Ed as [l El]. rewrite HF, HL. rewrite El in HF, HB, HL. rewrite from_bytes_app in HF.
  apply Forall_app in HB. destruct HB as [HB Hd]. apply Forall_cons in Hd. destruct Hd as [Hd _]. unfold byte in Hd. rewrite app_length in HL. cbn in HL.
  pose proof (from_bytes_range l HB) as HR. cbn [from_bytes_le] in HF.
  assert (HP : 256 ^ Z.of_nat n = 256 * 256 ^ Z.of_nat (length l)).
  { rewrite <- Z.pow_succ_r by lia. f_equal. lia. }
  set (m := 256 ^ Z.of_nat (length l)) in *. assert (0 < m) by (apply Z.pow_pos_nonneg; lia). set (M := 256 ^ Z.of_nat n) in *.
  destruct (Z.ltb_spec 127 d).
  - assert (x < 0). { destruct (Z.lt_ge_cases x 0); [assumption|]. rewrite Z.mod_small in HF by lia. nia. }
    rewrite <- (Z.mod_unique x M (-1) (x + M)); lia.
  - assert (0 <= x). { destruct (Z.lt_ge_cases x 0) as [Q|Q]; [|assumption]. rewrite <- (Z.mod_unique x M (-1) (x + M)) in HF by lia. nia. }
    apply Z.mod_small. lia.
Qed.
Lemma signed_inj x y : to_signed_bytes_le x = to_signed_bytes_le y -> x = y.
Proof. intros E. apply (f_equal from_signed_bytes_le) in E. rewrite !signed_roundtrip in E. assumption. Qed.

(** ** the tracker *)
Section Tracker.
Context {C : Type} `{Countable C}.
Definition tracker_ok (t : tracker C) : Prop := forall c id, t_lookup t !! c = Some id <-> t_constants t !! id = Some c.
Lemma tracker_new_ok : tracker_ok (tracker_new : tracker C).
Proof. intros c id. unfold tracker_new. cbn. rewrite lookup_empty, lookup_nil. split; discriminate. Qed.
Lemma tracker_get_spec (t : tracker C) id : get_constant t id = t_constants t !! id.
Proof.
  unfold get_constant. destruct (Nat.ltb_spec id (length (t_constants t))); [reflexivity|]. symmetry. apply lookup_ge_None_2. assumption.
Qed.
Lemma tracker_insert_spec (t : tracker C) c : tracker_ok t -> let '(id, t') := tracker_insert t c in
  tracker_ok t' /\ get_constant t' id = Some c /\ (exists l, t_constants t' = t_constants t ++ l) /\ (forall d, d ∈ t_constants t' <-> d ∈ t_constants t \/ d = c).
Proof.
  intros Ht. unfold tracker_insert, get_id. destruct (t_lookup t !! c) as [id|] eqn:E.
  - split; [assumption|]. rewrite tracker_get_spec. pose proof (proj1 (Ht c id) E) as E'. split; [assumption|]. split; [exists []; rewrite app_nil_r; reflexivity|].
    intros d. split; [auto|]. intros [?|Hd]; [assumption|subst d]. eapply elem_of_list_lookup_2. exact E'.
  - split; [|split; [|split]].
    + intros d id. cbn [t_lookup t_constants].
      assert (Hnew : forall i, t_constants t !! i <> Some c) by (intros i Hi; apply Ht in Hi; congruence).
      destruct (decide (c = d)) as [<-|Hne].
      * rewrite lookup_insert. split.
        -- intros [= <-]. rewrite lookup_app_r by lia. rewrite Nat.sub_diag. reflexivity.
        -- intros Hi. rewrite lookup_app in Hi. destruct (t_constants t !! id) eqn:Ei; [congruence|].
           apply lookup_ge_None in Ei. f_equal. destruct (id - length (t_constants t))%nat eqn:Es; [lia|]. cbn in Hi. discriminate.
      * rewrite lookup_insert_ne by assumption. rewrite (Ht d id). rewrite lookup_app. destruct (t_constants t !! id) eqn:Ei; [reflexivity|].
        split; [discriminate|]. destruct (id - length (t_constants t))%nat; cbn; [congruence|discriminate].
    + rewrite tracker_get_spec. cbn [t_constants]. rewrite lookup_app_r, Nat.sub_diag by lia. reflexivity.
    + cbn. eauto.
    + intros d. cbn. rewrite elem_of_app, elem_of_list_singleton. reflexivity.
Qed.
End Tracker.

(** ** the storage *)
Lemma decode_entries_grow e t t' m r : (exists l, t_constants t' = t_constants t ++ l) -> decode_entries e t m = Ok r -> decode_entries e t' m = Ok r.
Proof.
  intros [l El]. revert m. induction e as [|[id var] e IH]; intros m; cbn [decode_entries]; [auto|].
  rewrite !tracker_get_spec. destruct (t_constants t !! id) eqn:E; [|discriminate]. rewrite El, (lookup_app_l_Some _ _ _ _ E). apply IH.
Qed.
Lemma decode_grow z t t' c : (exists l, t_constants t' = t_constants t ++ l) -> decode_constraint z t = Ok c -> decode_constraint z t' = Ok c.
Proof.
  intros Hg. destruct z as [[a b] d]. unfold decode_constraint, decode_expr.
  destruct (decode_entries a t ∅) as [ra| |] eqn:Ea; cbn [res_bind]; try discriminate.
  destruct (decode_entries b t ∅) as [rb| |] eqn:Eb; cbn [res_bind]; try discriminate.
  destruct (decode_entries d t ∅) as [rd| |] eqn:Ed; cbn [res_map]; try discriminate. intros [= <-].
  rewrite (decode_entries_grow _ _ _ _ _ Hg Ea), (decode_entries_grow _ _ _ _ _ Hg Eb), (decode_entries_grow _ _ _ _ _ Hg Ed). reflexivity.
Qed.
Lemma code_entries_spec l : forall t, tracker_ok t -> let '(e, t') := code_entries l t in
  tracker_ok t' /\ (exists k, t_constants t' = t_constants t ++ k) /\ forall m, decode_entries e t' m = Ok (foldl (fun m kv => <[kv.1 := kv.2]> m) m l).
Proof.
  induction l as [|[var coeff] l IH]; intros t Ht; cbn [code_entries].
  - split; [assumption|]. split; [exists []; rewrite app_nil_r; reflexivity|]. reflexivity.
  - pose proof (tracker_insert_spec t (to_signed_bytes_le coeff) Ht) as HI. destruct (tracker_insert t (to_signed_bytes_le coeff)) as [id t1].
    destruct HI as (H1 & H2 & [k1 H3] & _). specialize (IH t1 H1). destruct (code_entries l t1) as [e t2]. destruct IH as (I1 & [k2 I2] & I3).
    split; [assumption|]. split; [exists (k1 ++ k2); rewrite I2, H3, app_assoc; reflexivity|].
    intros m. cbn [decode_entries foldl fst snd]. rewrite tracker_get_spec in *. rewrite I2, (lookup_app_l_Some _ _ _ _ H2), signed_roundtrip. apply I3.
Qed.
Lemma foldl_insert_perm (l : list (nat * Z)) : forall m : lin, NoDup l.*1 ->
  foldl (fun (m : lin) kv => <[kv.1 := kv.2]> m) m l = list_to_map l ∪ m.
Proof.
  induction l as [|[k v] l IH]; intros m HN; cbn [foldl].
  - cbn. rewrite map_empty_union. reflexivity.
  - cbn in HN. apply NoDup_cons in HN. destruct HN as [Hk HN]. rewrite IH by assumption. cbn [list_to_map foldr fst snd].
    rewrite <- insert_union_l, insert_union_r; [reflexivity|]. apply not_elem_of_list_to_map_1. assumption.
Qed.
Lemma code_expression_spec ord m t : valid_entries ord -> tracker_ok t -> let '(e, t') := code_expression ord m t in
  tracker_ok t' /\ (exists k, t_constants t' = t_constants t ++ k) /\ decode_expr e t' = Ok m.
Proof.
  intros Ho Ht. unfold code_expression. pose proof (code_entries_spec (ord m) t Ht) as H. destruct (code_entries (ord m) t) as [e t'].
  destruct H as (H1 & H2 & H3). split; [assumption|]. split; [assumption|]. unfold decode_expr. rewrite H3, foldl_insert_perm.
  - rewrite map_union_empty. f_equal. rewrite <- (list_to_map_to_list m) at 2. apply list_to_map_proper; [|apply Ho].
    rewrite (Ho m). apply NoDup_fst_map_to_list.
  - rewrite (Ho m). apply NoDup_fst_map_to_list.
Qed.
Lemma code_constraint_spec ord c t : valid_entries ord -> tracker_ok t -> let '(z, t') := code_constraint ord c t in
  tracker_ok t' /\ (exists k, t_constants t' = t_constants t ++ k) /\ decode_constraint z t' = Ok c.
Proof.
  intros Ho Ht. unfold code_constraint.
  pose proof (code_expression_spec ord (c_a c) t Ho Ht) as HA. destruct (code_expression ord (c_a c) t) as [a t1]. destruct HA as (A1 & [ka A2] & A3).
  pose proof (code_expression_spec ord (c_b c) t1 Ho A1) as HB. destruct (code_expression ord (c_b c) t1) as [b t2]. destruct HB as (B1 & [kb B2] & B3).
  pose proof (code_expression_spec ord (c_c c) t2 Ho B1) as HC. destruct (code_expression ord (c_c c) t2) as [d t3]. destruct HC as (C1 & [kc C2] & C3).
  split; [assumption|]. split; [exists (ka ++ kb ++ kc); rewrite C2, B2, A2, <- !app_assoc; reflexivity|].
  unfold decode_constraint, decode_expr in *. rewrite (decode_entries_grow a t1 t3 ∅ (c_a c)); [| |assumption]; cbn [res_bind].
  2:{ exists (kb ++ kc). rewrite C2, B2, app_assoc. reflexivity. }
  rewrite (decode_entries_grow b t2 t3 ∅ (c_b c)); [| |assumption]; cbn [res_bind].
  2:{ exists kc. assumption. }
  rewrite C3. destruct c. reflexivity.
Qed.

(** the storage represents a list of constraints *)
Definition represents (st : storage) (l : list constraint) : Prop :=
  tracker_ok (st_tracker st) /\ Forall2 (fun z c => decode_constraint z (st_tracker st) = Ok c) (st_constraints st) l.
Lemma represents_new : represents storage_new [].
Proof. split; [apply tracker_new_ok|]. constructor. Qed.
Lemma extract_spec f t zs l : Forall2 (fun z c => decode_constraint z t = Ok c) zs l ->
  exists rest, extract_loop f t zs = Ok (filter (fun c => f c = true) l, rest) /\ Forall2 (fun z c => decode_constraint z t = Ok c) rest (filter (fun c => f c = false) l).
Proof.
  induction 1 as [|z c zs l Hz HF (rest & E & HR)]; [exists []; split; [reflexivity|constructor]|].
  cbn [extract_loop]. rewrite Hz, E. cbn [res_bind res_map]. rewrite !filter_cons. destruct (f c) eqn:Ef.
  - exists rest. rewrite decide_True, decide_False by congruence. auto.
  - exists (z :: rest). rewrite decide_False, decide_True by congruence. split; [reflexivity|]. constructor; assumption.
Qed.
Lemma storage_step_spec ord o st l : valid_entries ord -> represents st l ->
  exists st', storage_step ord o st = Ok ((list_answer o l).1, (list_answer o l).2, st') /\ represents st' (list_op o l).
Proof.
  intros Ho [HT HF]. pose proof (Forall2_length _ _ _ HF) as HL. destruct o as [c|id c|f]; cbn [storage_step list_answer list_op fst snd].
  - unfold add_constraint. pose proof (code_constraint_spec ord c (st_tracker st) Ho HT) as HC. destruct (code_constraint ord c (st_tracker st)) as [z t].
    destruct HC as (C1 & C2 & C3). eexists. rewrite HL. split; [reflexivity|]. split; [assumption|]. cbn [st_tracker st_constraints].
    apply Forall2_app; [|constructor; [assumption|constructor]]. eapply Forall2_impl; [exact HF|]. intros z' c'. apply decode_grow. assumption.
  - unfold storage_replace. eexists. split; [reflexivity|]. destruct (Nat.ltb_spec id (length (st_constraints st))) as [Hi|Hi].
    + pose proof (code_constraint_spec ord c (st_tracker st) Ho HT) as HC. destruct (code_constraint ord c (st_tracker st)) as [z t].
      destruct HC as (C1 & C2 & C3). split; [assumption|]. cbn [st_tracker st_constraints].
      apply Forall2_insert; [|assumption]. eapply Forall2_impl; [exact HF|]. intros z' c'. apply decode_grow. assumption.
    + rewrite list_insert_ge by lia. split; assumption.
  - destruct (extract_spec f _ _ _ HF) as (rest & E & HR). unfold extract_with. rewrite E. cbn [res_map]. eexists. split; [reflexivity|]. split; assumption.
Qed.
Lemma storage_run_spec h : Forall (fun x => valid_entries x.1) h -> forall st l, represents st l ->
  exists st', storage_run h st = Ok ((list_run h l).1, st') /\ represents st' (list_run h l).2.
Proof.
  induction 1 as [|[ord o] h Ho _ IH]; intros st l HR; [eexists; split; [reflexivity|assumption]|].
  cbn [storage_run list_run]. destruct (storage_step_spec ord o st l Ho HR) as (st1 & -> & HR1). cbn [res_bind].
  destruct (IH st1 _ HR1) as (st2 & -> & HR2). cbn [res_map]. destruct (list_run h (list_op o l)) as [al l'] eqn:E. cbn [fst snd] in *.
  eexists. split; [|exact HR2]. destruct (list_answer o l); reflexivity.
Qed.
