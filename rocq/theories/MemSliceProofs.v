(** Proofs about memory slices. *)
From stdpp Require Import prelude.
From Verif Require Import MemSliceModel MemSliceSpec.
Open Scope nat_scope.

Definition prod (l : list nat) : nat := foldr Nat.mul 1 l.
(** row-major number of a path, and the number of the first path with a given beginning *)
Fixpoint rank (dims p : list nat) : nat :=
  match dims, p with n :: dims, i :: p => i * prod dims + rank dims p | _, _ => 0 end.
Notation valid := (Forall2 (fun (n i : nat) => i < n)).

Lemma foldl_mul l a : foldl Nat.mul a l = a * prod l.
Proof. revert a. induction l as [|x l IH]; intros a; cbn [foldl]; [unfold prod; cbn; lia|]. rewrite IH. unfold prod. cbn [foldr]. lia. Qed.
Lemma prod_app a b : prod (a ++ b) = prod a * prod b.
Proof. unfold prod. induction a as [|x a IH]; cbn [app foldr]; [lia|]. rewrite IH. lia. Qed.

(** concatenation of blocks of equal length *)
Lemma concat_lookup {A} (m : nat) (L : list (list A)) i j : Forall (fun l => length l = m) L -> j < m -> concat L !! (i * m + j) = L !! i ≫= (.!! j).
Proof.
  intros H Hj. revert i. induction H as [|l L Hl _ IH]; intros i; [rewrite lookup_nil; reflexivity|]. cbn [concat]. destruct i as [|i].
  - rewrite lookup_app_l by lia. reflexivity.
  - rewrite lookup_app_r by lia. cbn. rewrite <- IH. f_equal. lia.
Qed.
Lemma concat_length {A} (m : nat) (L : list (list A)) : Forall (fun l => length l = m) L -> length (concat L) = length L * m.
Proof. induction 1 as [|l L Hl _ IH]; [reflexivity|]. cbn. rewrite app_length, IH, Hl. lia. Qed.
Lemma paths_length dims : length (paths dims) = prod dims.
Proof.
  induction dims as [|n dims IH]; [reflexivity|]. cbn [paths]. rewrite (concat_length (prod dims)).
  - rewrite fmap_length, seq_length. reflexivity.
  - apply Forall_fmap, Forall_forall. intros i _. unfold compose. rewrite fmap_length. assumption.
Qed.
Lemma rank_bound dims p : valid dims p -> rank dims p < prod dims.
Proof.
  induction 1 as [|n i dims p Hi H IH]; [cbn; lia|]. cbn [rank prod foldr]. fold (prod dims). nia.
Qed.
Lemma paths_rank dims p : valid dims p -> paths dims !! rank dims p = Some p.
Proof.
  induction 1 as [|n i dims p Hi H IH]; [reflexivity|]. cbn [paths rank]. rewrite (concat_lookup (prod dims)).
  - rewrite list_lookup_fmap, lookup_seq_lt by assumption. cbn. rewrite list_lookup_fmap, IH. reflexivity.
  - apply Forall_fmap, Forall_forall. intros j _. unfold compose. rewrite fmap_length. apply paths_length.
  - apply rank_bound. assumption.
Qed.
Lemma paths_valid dims p : p ∈ paths dims -> valid dims p.
Proof.
  revert p. induction dims as [|n dims IH]; intros p; cbn [paths].
  - rewrite elem_of_list_singleton. intros ->. constructor.
  - intros H. apply elem_of_list_In, in_concat in H. destruct H as (l & Hl & Hp). apply elem_of_list_In in Hl, Hp. apply elem_of_list_fmap in Hl. destruct Hl as (i & -> & Hi).
    apply elem_of_list_fmap in Hp. destruct Hp as (q & -> & Hq). apply elem_of_seq in Hi. constructor; [lia|auto].
Qed.
Lemma paths_lookup dims i p : paths dims !! i = Some p <-> valid dims p /\ i = rank dims p.
Proof.
  split; [|intros [H ->]; apply paths_rank; assumption]. revert i p. induction dims as [|n dims IH]; intros i p; cbn [paths].
  - destruct i; [|discriminate]. intros [= <-]. split; [constructor|reflexivity].
  - intros H. destruct (decide (prod dims = 0)) as [E0|E0].
    + apply lookup_lt_Some in H. rewrite (concat_length (prod dims)) in H; [lia|]. apply Forall_fmap, Forall_forall. intros j _. unfold compose. rewrite fmap_length. apply paths_length.
    + rewrite (Nat.div_mod i (prod dims)) in H by assumption. rewrite (Nat.mul_comm (prod dims)) in H. rewrite (concat_lookup (prod dims)) in H.
      * rewrite list_lookup_fmap in H. destruct (seq 0 n !! (i `div` prod dims)) as [k|] eqn:Ek; [|discriminate]. apply lookup_seq in Ek. destruct Ek as [-> Hk]. cbn in H.
        rewrite list_lookup_fmap in H. destruct (paths dims !! (i `mod` prod dims)) as [q|] eqn:Eq; [|discriminate]. injection H as <-. apply IH in Eq. destruct Eq as [V Eq].
        split; [constructor; [lia|assumption]|]. cbn [rank]. rewrite <- Eq. pose proof (Nat.div_mod i (prod dims) E0). lia.
      * apply Forall_fmap, Forall_forall. intros j _. unfold compose. rewrite fmap_length. apply paths_length.
      * apply Nat.mod_upper_bound. assumption.
Qed.
Lemma rank_zeros dims q : valid dims q -> rank dims q = 0 -> q = (fun _ => 0) <$> dims.
Proof.
  intros H. revert dims q H. refine (fun dims q H => _). induction H as [|n i dims q Hi H IH]; [reflexivity|]. cbn [rank]. intros E. pose proof (rank_bound dims q H).
  assert (i = 0) by nia. subst i. cbn. f_equal. apply IH. lia.
Qed.
Lemma rank_app dims a q : length a <= length dims -> rank dims (a ++ q) = rank dims a * 0 + rank (take (length a) dims) a * prod (drop (length a) dims) + rank (drop (length a) dims) q.
Proof.
  revert dims. induction a as [|x a IH]; intros dims H; [cbn; destruct dims; cbn; lia|]. destruct dims as [|n dims]; [cbn in H; lia|]. cbn [length app rank take drop].
  rewrite IH by (cbn in H; lia). rewrite <- (take_drop (length a) dims) at 1. rewrite prod_app. lia.
Qed.

Section slice.
Context {C : Type}.
Implicit Types (s new : slice C).

Lemma shaped_prod s : shaped s <-> length (values s) = prod (route s).
Proof. unfold shaped. rewrite paths_length. reflexivity. Qed.
Lemma holds_at_rank s p v : holds_at s p v <-> valid (route s) p /\ values s !! rank (route s) p = Some v.
Proof.
  unfold holds_at. split.
  - intros (i & H & Hv). apply paths_lookup in H. destruct H as [H ->]. auto.
  - intros [H Hv]. exists (rank (route s) p). split; [apply paths_rank; assumption|assumption].
Qed.
(** first cell of an access *)
Definition start (dims a : list nat) : nat := rank (take (length a) dims) a * prod (drop (length a) dims).
Lemma rank_split dims a q : length a <= length dims -> rank dims (a ++ q) = start dims a + rank (drop (length a) dims) q.
Proof. intros H. rewrite rank_app by assumption. unfold start. lia. Qed.
Lemma start_cons n dims x a : start (n :: dims) (x :: a) = x * prod dims + start dims a.
Proof. unfold start. cbn [length take drop rank]. assert (E : prod dims = prod (take (length a) dims) * prod (drop (length a) dims)) by (rewrite <- prod_app, take_drop; reflexivity). rewrite E. lia. Qed.

Lemma in_bounds_valid s a : in_bounds s a <-> length a <= length (route s) /\ valid (take (length a) (route s)) a.
Proof.
  unfold in_bounds. split.
  - intros [H1 H2]. split; [assumption|]. apply Forall2_same_length_lookup_2; [rewrite take_length; lia|].
    intros i n x Hn Hx. pose proof (lookup_lt_Some _ _ _ Hx). rewrite lookup_take in Hn by assumption. eauto.
  - intros [H1 H2]. split; [assumption|]. intros i x n Hx Hn. pose proof (lookup_lt_Some _ _ _ Hx). assert (Hn' : take (length a) (route s) !! i = Some n) by (rewrite lookup_take by assumption; assumption).
    exact (Forall2_lookup_lr _ _ _ _ _ _ H2 Hn' Hx).
Qed.
Lemma in_bounds_dec s a : {in_bounds s a} + {~ in_bounds s a}.
Proof.
  assert (D : Decision (length a <= length (route s) /\ valid (take (length a) (route s)) a)) by apply _.
  destruct D as [H|H]; [left|right]; rewrite in_bounds_valid; assumption.
Qed.

Lemma initial_cell_loop_ok r a cell jump : length a <= length r -> valid (take (length a) r) a -> jump = prod r ->
  initial_cell_loop r a cell jump = MOk (cell + start r a).
Proof.
  revert r cell jump. induction a as [|x a IH]; intros r cell jump HL HV ->.
  - unfold start. cbn. rewrite Nat.add_0_r. destruct r; reflexivity.
  - destruct r as [|n r]; [cbn in HL; lia|]. cbn [take length] in HV. inversion HV as [|? ? ? ? Hx HV']; subst. cbn [initial_cell_loop]. destruct (Nat.leb_spec n x); [lia|].
    assert (E : prod (n :: r) / n = prod r). { cbn [prod foldr]. fold (prod r). rewrite Nat.mul_comm. apply Nat.div_mul. lia. }
    rewrite E, IH; [|cbn in HL; lia|assumption|reflexivity]. rewrite start_cons. f_equal. lia.
Qed.
Lemma initial_cell_loop_err r a cell jump : length a <= length r -> ~ valid (take (length a) r) a -> initial_cell_loop r a cell jump = MErr OutOfBoundsError.
Proof.
  revert r cell jump. induction a as [|x a IH]; intros r cell jump HL HV.
  - exfalso. apply HV. cbn. constructor.
  - destruct r as [|n r]; [cbn in HL; lia|]. cbn [initial_cell_loop]. destruct (Nat.leb_spec n x); [reflexivity|]. apply IH; [cbn in HL; lia|]. intros Q. apply HV. cbn. constructor; assumption.
Qed.
Lemma get_initial_cell_ok s a : shaped s -> in_bounds s a -> get_initial_cell s a = MOk (start (route s) a).
Proof.
  intros HS HB. apply in_bounds_valid in HB. destruct HB as [HL HV]. unfold get_initial_cell. destruct (Nat.ltb_spec (length (route s)) (length a)); [lia|].
  rewrite initial_cell_loop_ok; [reflexivity|assumption|assumption|]. apply shaped_prod. assumption.
Qed.
Lemma get_initial_cell_err s a : ~ in_bounds s a -> get_initial_cell s a = MErr OutOfBoundsError.
Proof.
  intros HB. unfold get_initial_cell. destruct (Nat.ltb_spec (length (route s)) (length a)); [reflexivity|]. apply initial_cell_loop_err; [lia|]. intros HV. apply HB, in_bounds_valid. split; [lia|assumption].
Qed.
Lemma start_bound s a : in_bounds s a -> start (route s) a + prod (rest_of s a) <= prod (route s).
Proof.
  intros HB. apply in_bounds_valid in HB. destruct HB as [HL HV]. unfold start, rest_of. pose proof (rank_bound _ _ HV). assert (E : prod (route s) = prod (take (length a) (route s)) * prod (drop (length a) (route s))) by (rewrite <- prod_app, take_drop; reflexivity). rewrite E. nia.
Qed.
Lemma copy_cells_ok (vs : list C) cell n : cell + n <= length vs -> copy_cells vs cell n = MOk (take n (drop cell vs)).
Proof.
  revert cell. induction n as [|n IH]; intros cell H; [rewrite take_0; reflexivity|]. cbn [copy_cells]. unfold mindex. destruct (vs !! cell) as [v|] eqn:E; [|apply lookup_ge_None in E; lia].
  cbn [mr_bind]. rewrite IH by lia. cbn [mr_bind]. rewrite (drop_S vs v cell E). reflexivity.
Qed.
Lemma valid_app (dims a q : list nat) : length a <= length dims -> valid dims (a ++ q) <-> valid (take (length a) dims) a /\ valid (drop (length a) dims) q.
Proof.
  intros H. split.
  - intros HV. rewrite <- (take_drop (length a) dims) in HV. apply Forall2_app_inv in HV; [assumption|]. rewrite take_length. lia.
  - intros [H1 H2]. rewrite <- (take_drop (length a) dims). apply Forall2_app; assumption.
Qed.
Lemma access_values_ok s a : shaped s -> in_bounds s a -> access_values s a = MOk (Slice (rest_of s a) (take (prod (rest_of s a)) (drop (start (route s) a) (values s)))).
Proof.
  intros HS HB. pose proof (start_bound s a HB) as SB. assert (SP : length (values s) = prod (route s)) by (apply shaped_prod; assumption). destruct a as [|x a].
  - cbn [access_values]. replace (start (route s) []) with 0 by (unfold start; destruct (route s); reflexivity). replace (rest_of s []) with (route s) by reflexivity.
    rewrite drop_0, take_ge by lia. destruct s; reflexivity.
  - cbn [access_values]. unfold generate_new_route. pose proof HB as [HL _]. destruct (Nat.ltb_spec (length (route s)) (length (x :: a))); [lia|]. cbn [mr_bind].
    rewrite get_initial_cell_ok by assumption. cbn [mr_bind]. rewrite foldl_mul, Nat.mul_1_l. fold (rest_of s (x :: a)). rewrite copy_cells_ok by lia. reflexivity.
Qed.
Lemma access_values_err s a : ~ in_bounds s a -> access_values s a = MErr OutOfBoundsError.
Proof.
  intros HB. destruct a as [|x a].
  - exfalso. apply HB. split; [cbn; lia|]. intros i y n Hy. rewrite lookup_nil in Hy. discriminate.
  - cbn [access_values]. unfold generate_new_route. destruct (Nat.ltb_spec (length (route s)) (length (x :: a))); [reflexivity|]. cbn [mr_bind]. rewrite get_initial_cell_err by assumption. reflexivity.
Qed.
Lemma access_holds s a q v : shaped s -> in_bounds s a ->
  holds_at (Slice (rest_of s a) (take (prod (rest_of s a)) (drop (start (route s) a) (values s)))) q v <-> holds_at s (a ++ q) v.
Proof.
  intros HS HB. rewrite !holds_at_rank. cbn [route values]. pose proof HB as HB'. apply in_bounds_valid in HB. destruct HB as [HL HV]. rewrite valid_app by assumption.
  unfold rest_of. rewrite rank_split by assumption. split.
  - intros [V E]. pose proof (rank_bound _ _ V). rewrite lookup_take, lookup_drop in E by assumption. auto.
  - intros [[V1 V2] E]. pose proof (rank_bound _ _ V2). rewrite lookup_take, lookup_drop by assumption. auto.
Qed.
Lemma shaped_access s a : shaped s -> in_bounds s a -> shaped (Slice (rest_of s a) (take (prod (rest_of s a)) (drop (start (route s) a) (values s)))).
Proof.
  intros HS HB. apply shaped_prod. cbn [route values]. pose proof (start_bound s a HB). apply shaped_prod in HS. rewrite take_length, drop_length. lia.
Qed.

(** ** writing *)
Lemma write_cells_ok (vs new : list C) cell : cell + length new <= length vs -> exists vs', write_cells vs cell new = MOk vs' /\ length vs' = length vs /\
  forall i, vs' !! i = if decide (cell <= i < cell + length new) then new !! (i - cell) else vs !! i.
Proof.
  revert vs cell. induction new as [|v new IH]; intros vs cell H.
  - exists vs. split; [reflexivity|]. split; [reflexivity|]. intros i. destruct (decide _) as [D|D]; [cbn in D; lia|reflexivity].
  - cbn [write_cells]. cbn [length] in H. destruct (Nat.ltb_spec cell (length vs)); [|lia]. destruct (IH (<[cell := v]> vs) (S cell)) as (vs' & E & L & Q); [rewrite insert_length; lia|].
    exists vs'. split; [assumption|]. split; [rewrite L; apply insert_length|]. intros i. rewrite Q. cbn [length]. destruct (decide (S cell <= i < S cell + length new)) as [D|D].
    + rewrite decide_True by lia. replace (i - cell) with (S (i - S cell)) by lia. reflexivity.
    + destruct (decide (i = cell)) as [->|D2].
      * rewrite decide_True by lia. rewrite Nat.sub_diag. cbn. apply list_lookup_insert. assumption.
      * rewrite decide_False by lia. apply list_lookup_insert_ne. lia.
Qed.
Lemma check_access_loop_ok r a : length a <= length r -> check_access_loop r a = if decide (valid (take (length a) r) a) then MOk tt else MErr OutOfBoundsError.
Proof.
  revert r. induction a as [|x a IH]; intros r H.
  - cbn [length take check_access_loop]. rewrite decide_True by constructor. destruct r; reflexivity.
  - destruct r as [|n r]; [cbn in H; lia|]. cbn [check_access_loop length take]. destruct (Nat.leb_spec n x).
    + rewrite decide_False; [reflexivity|]. intros Q. inversion Q; subst. lia.
    + rewrite IH by (cbn in H; lia). destruct (decide (valid (take (length a) r) a)) as [D|D].
      * rewrite decide_True by (constructor; assumption). reflexivity.
      * rewrite decide_False; [reflexivity|]. intros Q. inversion Q; subst. contradiction.
Qed.
Lemma check_dims_loop_ok nr r strict : length nr <= length r ->
  (nr `prefix_of` r /\ check_dims_loop nr r strict = MOk tt) \/
  (~ nr `prefix_of` r /\ exists n m, n <> m /\ check_dims_loop nr r strict = MErr (if strict then MismatchedDimensions n m else MismatchedDimensionsWeak n m)).
Proof.
  revert r. induction nr as [|n nr IH]; intros r H.
  - left. split; [apply prefix_nil|destruct r; reflexivity].
  - destruct r as [|m r]; [cbn in H; lia|]. cbn [check_dims_loop]. destruct (Nat.ltb_spec n m); [|destruct (Nat.ltb_spec m n)].
    + right. split; [intros Q; apply prefix_cons_inv_1 in Q; lia|]. exists n, m. split; [lia|destruct strict; reflexivity].
    + right. split; [intros Q; apply prefix_cons_inv_1 in Q; lia|]. exists n, m. split; [lia|destruct strict; reflexivity].
    + assert (n = m) as -> by lia. destruct (IH r) as [[P E]|[P (a & b & Q & E)]]; [cbn in H; lia| |].
      * left. split; [apply prefix_cons; assumption|assumption].
      * right. split; [intros Q'; apply P; apply prefix_cons_inv_2 in Q'; assumption|eauto].
Qed.
Lemma check_correct_dims_ok s a new strict :
  (in_bounds s a /\ route new `prefix_of` rest_of s a /\ check_correct_dims s a new strict = MOk tt) \/
  (in_bounds s a /\ length a + length (route new) <= length (route s) /\ ~ route new `prefix_of` rest_of s a /\
     exists n m, n <> m /\ check_correct_dims s a new strict = MErr (if strict then MismatchedDimensions n m else MismatchedDimensionsWeak n m)) \/
  ((~ in_bounds s a \/ length (route s) < length a + length (route new)) /\ check_correct_dims s a new strict = MErr OutOfBoundsError).
Proof.
  unfold check_correct_dims. destruct (Nat.ltb_spec (length (route s)) (length a + length (route new))); [right; right; auto|].
  rewrite check_access_loop_ok by lia. destruct (decide _) as [D|D]; cbn [mr_bind].
  - assert (HB : in_bounds s a) by (apply in_bounds_valid; split; [lia|assumption]).
    destruct (check_dims_loop_ok (route new) (drop (length a) (route s)) strict) as [[P E]|[P (n & m & Q & E)]]; [rewrite drop_length; lia| |].
    + left. auto.
    + right. left. split_and!; eauto.
  - right. right. split; [|reflexivity]. left. rewrite in_bounds_valid. tauto.
Qed.

(** the effect of a write of [new] at [a] on the common part of the two *)
Definition overlaid s a new s' : Prop :=
  shaped s' /\ route s' = route s /\
  (forall q v, valid (rest_of s a) q -> valid (route new) q -> holds_at s' (a ++ q) v <-> holds_at new q v) /\
  (forall p v, ~ (exists q, p = a ++ q /\ valid (rest_of s a) q /\ valid (route new) q) -> holds_at s' p v <-> holds_at s p v).

Lemma insert_full fuel s a new strict : shaped s -> shaped new -> in_bounds s a -> route new = rest_of s a ->
  exists s', insert_values_rec (S fuel) s a new strict = (s', MOk tt) /\ overlaid s a new s'.
Proof.
  intros HS HN HB HR. cbn [insert_values_rec]. destruct (check_correct_dims_ok s a new strict) as [(_ & _ & E)|[(_ & _ & P & _)|([Q|Q] & _)]].
  - rewrite E. rewrite get_initial_cell_ok by assumption. cbn [mr_bind]. pose proof (start_bound s a HB) as SB. pose proof (proj1 (shaped_prod s) HS) as SP. pose proof (proj1 (shaped_prod new) HN) as NP.
    rewrite HR in NP. destruct (write_cells_ok (values s) (values new) (start (route s) a)) as (vs' & -> & L & Q); [lia|]. eexists. split; [reflexivity|].
    pose proof HB as HB'. apply in_bounds_valid in HB. destruct HB as [HL HV]. split_and!.
    + apply shaped_prod. cbn [route values]. lia.
    + reflexivity.
    + intros q v V1 _. rewrite !holds_at_rank. cbn [route values]. rewrite valid_app by assumption. rewrite rank_split by assumption. fold (rest_of s a). rewrite HR. pose proof (rank_bound _ _ V1).
      rewrite Q, decide_True by lia. replace (start (route s) a + rank (rest_of s a) q - start (route s) a) with (rank (rest_of s a) q) by lia. tauto.
    + intros p v NE. rewrite !holds_at_rank. cbn [route values]. assert (K : valid (route s) p -> vs' !! rank (route s) p = values s !! rank (route s) p); [|split; intros [V E']; split; try assumption; [rewrite <- K|rewrite K]; assumption].
      intros V. rewrite Q. rewrite decide_False; [reflexivity|]. intros D. apply NE.
      assert (HLp : length p = length (route s)) by (symmetry; eapply Forall2_length; exact V).
      exists (drop (length a) p). assert (Ep : p = take (length a) p ++ drop (length a) p) by (symmetry; apply take_drop).
      assert (TL : length (take (length a) p) = length a) by (rewrite take_length; lia).
      rewrite Ep in V. rewrite valid_app in V by (rewrite TL; assumption). rewrite TL in V. destruct V as [V1 V2]. rewrite Ep in D. rewrite rank_split in D by (rewrite TL; assumption).
      unfold start in D. rewrite TL in D. fold (rest_of s a) in D, V2. pose proof (rank_bound _ _ V2) as RB. rewrite NP in D.
      assert (E1 : rank (take (length a) (route s)) (take (length a) p) = rank (take (length a) (route s)) a) by nia.
      assert (E2 : take (length a) p = a). { apply paths_rank in V1, HV. rewrite E1 in V1. congruence. }
      split; [rewrite <- E2 at 1; rewrite take_drop; reflexivity|]. rewrite HR. auto.
  - exfalso. apply P. rewrite HR. reflexivity.
  - contradiction.
  - rewrite HR in Q. unfold rest_of in Q. rewrite drop_length in Q. destruct HB. lia.
Qed.

(** what the first [k] turns of the loop over the first dimension have done *)
Definition below (k : nat) (q : list nat) : Prop := exists i q', q = i :: q' /\ i < k.
Definition overlaid_upto k s a new s' : Prop :=
  shaped s' /\ route s' = route s /\
  (forall q v, valid (rest_of s a) q -> valid (route new) q -> below k q -> holds_at s' (a ++ q) v <-> holds_at new q v) /\
  (forall p v, ~ (exists q, p = a ++ q /\ valid (rest_of s a) q /\ valid (route new) q /\ below k q) -> holds_at s' p v <-> holds_at s p v).
Lemma in_bounds_route s s' a : route s' = route s -> in_bounds s a -> in_bounds s' a.
Proof. unfold in_bounds. intros ->. auto. Qed.
Lemma rest_of_cons s a m r k : rest_of s a = m :: r -> rest_of s (a ++ [k]) = r.
Proof. unfold rest_of. intros H. rewrite app_length. cbn [length]. rewrite <- drop_drop, H. reflexivity. Qed.
Lemma in_bounds_snoc s a m r k : in_bounds s a -> rest_of s a = m :: r -> in_bounds s (a ++ [k]) <-> k < m.
Proof.
  intros [HL HB] HR. assert (Hm : route s !! length a = Some m). { unfold rest_of in HR. rewrite <- (Nat.add_0_r (length a)), <- lookup_drop, HR. reflexivity. }
  split.
  - intros [_ Q]. apply (Q (length a) k m); [|assumption]. rewrite lookup_app_r, Nat.sub_diag by lia. reflexivity.
  - intros Hk. split; [rewrite app_length; cbn; apply lookup_lt_Some in Hm; lia|]. intros i x n Hx Hn. destruct (decide (i < length a)) as [D|D].
    + rewrite lookup_app_l in Hx by assumption. eauto.
    + pose proof (lookup_lt_Some _ _ _ Hx) as D2. rewrite app_length in D2. cbn in D2. assert (i = length a) as -> by lia. rewrite lookup_app_r, Nat.sub_diag in Hx by lia. injection Hx as <-. congruence.
Qed.
Lemma insert_oob fuel s a new strict : ~ in_bounds s a -> insert_values_rec (S fuel) s a new strict = (s, MErr OutOfBoundsError).
Proof.
  intros H. cbn [insert_values_rec]. destruct (check_correct_dims_ok s a new strict) as [(Q & _)|[(Q & _)|(_ & ->)]]; [contradiction|contradiction|reflexivity].
Qed.
Lemma insert_weak fuel s a new : shaped s -> shaped new -> in_bounds s a -> length a + length (route new) = length (route s) -> length (route new) < fuel ->
  exists s' r, insert_values_rec fuel s a new false = (s', r) /\ overlaid s a new s' /\
    ((route new = rest_of s a /\ r = MOk tt) \/ (route new <> rest_of s a /\ exists n m, n <> m /\ r = MErr (MismatchedDimensionsWeak n m))).
Proof.
  revert s a new. induction fuel as [|fuel IH]; intros s a new HS HN HB HL HF; [lia|]. destruct (decide (route new = rest_of s a)) as [ER|ER].
  - destruct (insert_full fuel s a new false HS HN HB ER) as (s' & E & O). exists s', (MOk tt). auto.
  - cbn [insert_values_rec]. destruct (check_correct_dims_ok s a new false) as [(_ & P & _)|[(_ & _ & _ & d1 & d2 & D & ->)|([Q|Q] & _)]]; [| |contradiction|lia].
    { exfalso. apply ER. destruct P as [k Ek]. assert (H : length (rest_of s a) = length (route new)) by (unfold rest_of; rewrite drop_length; lia). rewrite Ek, app_length in H. destruct k; [|cbn in H; lia]. rewrite app_nil_r in Ek. congruence. }
    assert (LR : length (rest_of s a) = length (route new)) by (unfold rest_of; rewrite drop_length; lia).
    destruct (route new) as [|n nr] eqn:EN; [exfalso; apply ER; destruct (rest_of s a); [reflexivity|discriminate]|].
    destruct (rest_of s a) as [|m r] eqn:ERR; [discriminate|].
    match goal with |- context [foldl ?F _ _] => set (f := F) end.
    assert (LOOP : forall k, k <= n -> exists s', foldl f (s, MErr (MismatchedDimensionsWeak d1 d2)) (seq 0 k) = (s', MErr (MismatchedDimensionsWeak d1 d2)) /\ overlaid_upto k s a new s').
    { induction k as [|k IHk]; intros Hk.
      - exists s. split; [reflexivity|]. split_and!; try assumption; try reflexivity. intros q v _ _ (i & q' & _ & Hi). lia.
      - destruct IHk as (s1 & E1 & (S1 & R1 & A1 & B1)); [lia|]. rewrite seq_S, foldl_app, E1, Nat.add_0_l. cbn [foldl]. unfold f at 1.
        assert (HBk : in_bounds new [k]). { split; [rewrite EN; cbn; lia|]. intros i x y Hx Hy. rewrite EN in Hy. destruct i; [|discriminate]. cbn in Hx, Hy. injection Hx as <-. injection Hy as <-. lia. }
        rewrite access_values_ok by assumption. set (part := Slice _ _). assert (RP : route part = nr) by (cbn; unfold rest_of; rewrite EN; reflexivity).
        assert (SP : shaped part) by (apply shaped_access; assumption). assert (HP : forall q v, holds_at part q v <-> holds_at new ([k] ++ q) v) by (intros q v; apply access_holds; assumption).
        assert (RS1 : rest_of s1 a = m :: r) by (unfold rest_of; rewrite R1; exact ERR). assert (HB1 : in_bounds s1 a) by (eapply in_bounds_route; [exact R1|assumption]).
        destruct (decide (k < m)) as [Hkm|Hkm].
        + assert (HB2 : in_bounds s1 (a ++ [k])) by (eapply in_bounds_snoc; eassumption).
          destruct (IH s1 (a ++ [k]) part S1 SP HB2) as (s2 & res & E2 & (S2 & R2 & A2 & B2) & RES).
          { rewrite app_length, RP, R1. cbn in HL |- *. lia. } { rewrite RP. cbn in HF. lia. }
          rewrite E2. exists s2. split; [destruct RES as [[_ ->]|(_ & x & y & _ & ->)]; reflexivity|].
          rewrite (rest_of_cons s1 a m r k RS1), RP in A2, B2. split_and!.
          * assumption.
          * congruence.
          * rewrite ERR, EN. intros q v V1 V2 (i & q' & -> & Hi). inversion V1 as [|? ? ? ? Hi1 V1']; subst. inversion V2 as [|? ? ? ? Hi2 V2']; subst.
            destruct (decide (i = k)) as [->|Hne].
            -- change (a ++ k :: q') with (a ++ [k] ++ q'). rewrite app_assoc. rewrite A2 by assumption. apply HP.
            -- rewrite B2.
               ++ apply A1; [rewrite ERR; constructor; assumption|rewrite EN; constructor; assumption|]. exists i, q'. split; [reflexivity|lia].
               ++ intros (q2 & Eq & _). rewrite <- app_assoc in Eq. apply app_inv_head in Eq. cbn in Eq. congruence.
          * rewrite ERR, EN. intros p v NE. rewrite B2.
            -- apply B1. rewrite ERR, EN. intros (q & -> & V1 & V2 & (i & q' & -> & Hi)). apply NE. exists (i :: q'). split_and!; try assumption; [reflexivity|]. exists i, q'. split; [reflexivity|lia].
            -- intros (q2 & -> & V1 & V2). apply NE. exists (k :: q2). split_and!; [rewrite <- app_assoc; reflexivity|constructor; [lia|assumption]|constructor; [lia|assumption]|]. exists k, q2. split; [reflexivity|lia].
        + destruct fuel as [|fuel]; [cbn in HF; lia|]. rewrite insert_oob; [|intros Q; apply (in_bounds_snoc s1 a m r k HB1 RS1) in Q; lia].
          exists s1. split; [reflexivity|]. split_and!; try assumption.
          * intros q v V1 V2 (i & q' & -> & Hi). apply A1; try assumption. rewrite ERR in V1. inversion V1; subst. exists i, q'. split; [reflexivity|lia].
          * intros p v NE. apply B1. intros (q & -> & V1 & V2 & (i & q' & -> & Hi)). apply NE. exists (i :: q'). split_and!; try assumption; [reflexivity|]. exists i, q'. split; [reflexivity|lia]. }
    destruct (LOOP n ltac:(lia)) as (s' & E & (S' & R' & A' & B')). exists s', (MErr (MismatchedDimensionsWeak d1 d2)). split; [exact E|]. split.
    + split_and!; try assumption.
      * intros q v V1 V2. apply A'; try assumption. rewrite EN in V2. inversion V2; subst. eexists _, _. split; [reflexivity|]. assumption.
      * intros p v NE. apply B'. intros (q & -> & V1 & V2 & _). apply NE. eauto.
    + right. split; [assumption|eauto].
Qed.
Lemma insert_strict s a new : shaped s -> shaped new -> ~ (in_bounds s a /\ route new `prefix_of` rest_of s a) ->
  exists e, insert_values s a new true = (s, MErr e).
Proof.
  intros HS HN H. unfold insert_values. cbn [insert_values_rec]. destruct (check_correct_dims_ok s a new true) as [(? & ? & _)|[(_ & _ & _ & n & m & _ & ->)|(_ & ->)]]; [exfalso; auto|eauto|eauto].
Qed.
Lemma access_index_loop_ok dims i : i < prod dims -> exists p, access_index_loop dims (prod dims) i = MOk p /\ valid dims p /\ rank dims p = i.
Proof.
  revert i. induction dims as [|n dims IH]; intros i H.
  - exists []. cbn in H |- *. split; [reflexivity|]. split; [constructor|]. unfold prod in H. cbn in H. lia.
  - cbn [access_index_loop]. cbn [prod foldr] in H |- *. fold (prod dims) in H |- *. destruct (Nat.eqb_spec n 0); [lia|]. rewrite (Nat.mul_comm n), Nat.div_mul by assumption.
    destruct (Nat.eqb_spec (prod dims) 0); [lia|]. destruct (IH (i mod prod dims)) as (p & E & V & R); [apply Nat.mod_upper_bound; assumption|]. rewrite E. cbn [mr_bind].
    eexists. split; [reflexivity|]. split; [constructor; [|assumption]|].
    + apply Nat.div_lt_upper_bound; [assumption|lia].
    + cbn [rank]. rewrite R. pose proof (Nat.div_mod i (prod dims) n1). lia.
Qed.
End slice.
