(** Property theorems: arrays of the compile-time interpreter (C29, C30). *)
From stdpp Require Import prelude.
From Verif Require Import MemSliceModel MemSliceSpec MemSliceProofs.
Open Scope nat_scope.

(** ** C29 *)
(** Reading returns the sub-array: the remaining dimensions and, at every path, what the array holds
    below the access; it fails exactly out of bounds. *)
Theorem C29_read : forall C (s : slice C) a, shaped s ->
  (in_bounds s a -> exists r, access_values s a = MOk r /\ shaped r /\ route r = rest_of s a /\ forall q v, holds_at r q v <-> holds_at s (a ++ q) v) /\
  (~ in_bounds s a -> access_values s a = MErr OutOfBoundsError).
Proof.
  intros C s a HS. split; [|apply access_values_err]. intros HB. rewrite access_values_ok by assumption. eexists. split; [reflexivity|]. split; [apply shaped_access; assumption|].
  split; [reflexivity|]. intros q v. apply access_holds; assumption.
Qed.
Print Assumptions C29_read.
(** A fresh array holds the initial value everywhere. *)
Theorem C29_new : forall C (dims : list nat) (x : C), shaped (new_with_route dims x) /\ forall p v, holds_at (new_with_route dims x) p v <-> p ∈ paths dims /\ v = x.
Proof.
  intros C dims x. assert (E : length (values (new_with_route dims x)) = prod dims) by (cbn; rewrite replicate_length, foldl_mul; lia). split; [apply shaped_prod; exact E|].
  intros p v. unfold holds_at. cbn [route values new_with_route]. split.
  - intros (i & Hp & Hv). apply lookup_replicate in Hv. destruct Hv as [-> _]. split; [eapply elem_of_list_lookup_2; exact Hp|reflexivity].
  - intros [Hp ->]. apply elem_of_list_lookup in Hp. destruct Hp as [i Hi]. exists i. split; [assumption|]. apply lookup_replicate. split; [reflexivity|].
    apply lookup_lt_Some in Hi. rewrite paths_length in Hi. rewrite foldl_mul. lia.
Qed.
Print Assumptions C29_new.
(** A write of a value with the dimensions of the target: afterwards the target holds the value, all
    other paths hold what they held, the dimensions are the same. *)
Theorem C29_write : forall C (s new : slice C) a strict, shaped s -> shaped new -> in_bounds s a -> route new = rest_of s a ->
  exists s', insert_values s a new strict = (s', MOk tt) /\ shaped s' /\ route s' = route s /\
    (forall q v, holds_at s' (a ++ q) v <-> holds_at new q v) /\
    (forall p v, ~ a `prefix_of` p -> holds_at s' p v <-> holds_at s p v).
Proof.
  intros C s new a strict HS HN HB HR. destruct (insert_full (length (route new)) s a new strict HS HN HB HR) as (s' & E & (S' & R' & A & B)). exists s'. split; [exact E|].
  split; [assumption|]. split; [assumption|]. split.
  - intros q v. destruct (decide (Forall2 (fun n i : nat => i < n) (route new) q)) as [V|V].
    + apply A; [rewrite <- HR|]; assumption.
    + rewrite !holds_at_rank. split; intros [V' _]; exfalso; apply V; [|assumption]. rewrite R' in V'. apply valid_app in V'; [|apply HB]. rewrite HR. apply V'.
  - intros p v NP. apply B. intros (q & -> & _). apply NP. exists q. reflexivity.
Qed.
Print Assumptions C29_write.
(** Reading back at the same access returns the value written. *)
Theorem C29_read_after_write : forall C (s new : slice C) a strict s', shaped s -> shaped new -> in_bounds s a -> route new = rest_of s a ->
  insert_values s a new strict = (s', MOk tt) -> access_values s' a = MOk new.
Proof.
  intros C s new a strict s' HS HN HB HR E. destruct (C29_write C s new a strict HS HN HB HR) as (s2 & E2 & S2 & R2 & A & _). rewrite E in E2. injection E2 as <-.
  assert (HB' : in_bounds s' a) by (eapply in_bounds_route; eassumption). destruct (proj1 (C29_read C s' a S2) HB') as (r & Er & Sr & Rr & Hr). rewrite Er. f_equal.
  assert (RR : route r = route new) by (rewrite Rr, HR; unfold rest_of; rewrite R2; reflexivity). destruct r as [rr rv], new as [nr nv]. cbn in RR. subst rr. f_equal.
  apply list_eq_same_length with (n := prod nr); [apply shaped_prod in HN; exact HN|apply shaped_prod in Sr; exact Sr|]. intros i x y Hi Hx Hy.
  destruct (lookup_lt_is_Some_2 (paths nr) i) as [p Hp]; [rewrite paths_length; assumption|].
  assert (H1 : holds_at (Slice nr rv) p x) by (exists i; auto). apply Hr, A in H1. destruct H1 as (j & Hj & Hv). cbn in Hj, Hv. apply paths_lookup in Hj, Hp. destruct Hj as [_ ->], Hp as [_ ->]. congruence.
Qed.
Print Assumptions C29_read_after_write.
(** Signals (strict assignments): everything else is an error and changes nothing. *)
Theorem C29_rejected_write_changes_nothing : forall C (s new : slice C) a, shaped s -> shaped new ->
  ~ (in_bounds s a /\ route new `prefix_of` rest_of s a) -> exists e, insert_values s a new true = (s, MErr e).
Proof. intros. apply insert_strict; assumption. Qed.
Print Assumptions C29_rejected_write_changes_nothing.
(** Variables (non-strict): an array of other sizes but as many dimensions overwrites exactly the common
    part, and the mismatch is reported. *)
Theorem C29_weak_write : forall C (s new : slice C) a, shaped s -> shaped new -> in_bounds s a -> length a + length (route new) = length (route s) -> route new <> rest_of s a ->
  exists s' n m, insert_values s a new false = (s', MErr (MismatchedDimensionsWeak n m)) /\ n <> m /\ shaped s' /\ route s' = route s /\
    (forall q v, q ∈ paths (rest_of s a) -> q ∈ paths (route new) -> holds_at s' (a ++ q) v <-> holds_at new q v) /\
    (forall p v, ~ (exists q, p = a ++ q /\ q ∈ paths (rest_of s a) /\ q ∈ paths (route new)) -> holds_at s' p v <-> holds_at s p v).
Proof.
  intros C s new a HS HN HB HL HR. destruct (insert_weak (S (length (route new))) s a new HS HN HB HL ltac:(lia)) as (s' & r & E & (S' & R' & A & B) & [[Q _]|(_ & n & m & D & ->)]); [contradiction|].
  assert (PV : forall dims q, q ∈ paths dims <-> Forall2 (fun n i : nat => i < n) dims q).
  { intros dims q. split; [apply paths_valid|]. intros V. eapply elem_of_list_lookup_2. apply paths_rank. exact V. }
  exists s', n, m. split; [exact E|]. split_and!; try assumption.
  - intros q v V1 V2. apply PV in V1, V2. apply A; assumption.
  - intros p v NE. apply B. intros (q & -> & V1 & V2). apply NE. exists q. split; [reflexivity|]. split; apply PV; assumption.
Qed.
Print Assumptions C29_weak_write.
(** Single cells, and the cells behind mutable references. *)
Theorem C29_single_value : forall C (s : slice C) a v, shaped s -> in_bounds s a -> length a = length (route s) ->
  (exists x, get_single_value s a = MOk x /\ holds_at s a x) /\
  exists s', set_single_value s a v = (s', MOk tt) /\ shaped s' /\ route s' = route s /\ holds_at s' a v /\ forall p x, p <> a -> holds_at s' p x <-> holds_at s p x.
Proof.
  intros C s a v HS HB HL. pose proof (proj1 (in_bounds_valid s a) HB) as [_ HV]. rewrite HL, firstn_all in HV. pose proof (rank_bound _ _ HV) as RB.
  pose proof (proj1 (shaped_prod s) HS) as SP. assert (ST : start (route s) a = rank (route s) a) by (unfold start; rewrite HL, firstn_all, drop_all; cbn; lia).
  unfold get_single_value, set_single_value. rewrite HL, Nat.eqb_refl, get_initial_cell_ok by assumption. rewrite ST. split.
  - cbn [mr_bind]. destruct (lookup_lt_is_Some_2 (values s) (rank (route s) a)) as [x Hx]; [lia|]. exists x. unfold mindex. rewrite Hx. split; [reflexivity|]. apply holds_at_rank. auto.
  - destruct (Nat.ltb_spec (rank (route s) a) (length (values s))); [|lia]. eexists. split; [reflexivity|]. split; [apply shaped_prod; cbn; rewrite insert_length; assumption|]. split; [reflexivity|]. split.
    + apply holds_at_rank. cbn. split; [assumption|]. apply list_lookup_insert. assumption.
    + intros p x NE. rewrite !holds_at_rank. cbn. assert (K : Forall2 (fun n i : nat => i < n) (route s) p -> rank (route s) p <> rank (route s) a).
      { intros V E. apply NE. apply paths_rank in V, HV. rewrite E in V. congruence. }
      split; intros [V Hx]; (split; [assumption|]); [rewrite list_lookup_insert_ne in Hx by (exact (fun Q => K V (eq_sym Q))); assumption|rewrite list_lookup_insert_ne by (exact (fun Q => K V (eq_sym Q))); assumption].
Qed.
Print Assumptions C29_single_value.
Theorem C29_mutable_references : forall C (s : slice C) a, shaped s -> in_bounds s a ->
  exists cells, mut_references s a = MOk cells /\ NoDup cells /\ forall i, i ∈ cells <-> exists p, paths (route s) !! i = Some p /\ a `prefix_of` p.
Proof.
  intros C s a HS HB. pose proof (start_bound s a HB) as SB. pose proof (proj1 (shaped_prod s) HS) as SP. pose proof (proj1 (in_bounds_valid s a) HB) as [HL HV].
  assert (K : forall i, start (route s) a <= i < start (route s) a + prod (rest_of s a) <-> exists p, paths (route s) !! i = Some p /\ a `prefix_of` p).
  { intros i. split.
    - intros D. destruct (lookup_lt_is_Some_2 (paths (rest_of s a)) (i - start (route s) a)) as [q Hq]; [rewrite paths_length; lia|]. apply paths_lookup in Hq. destruct Hq as [Vq Eq].
      exists (a ++ q). split; [|exists q; reflexivity]. apply paths_lookup. split; [apply valid_app; auto|]. rewrite rank_split by assumption. unfold rest_of in Eq. lia.
    - intros (p & Hp & [q ->]). apply paths_lookup in Hp. destruct Hp as [V ->]. rewrite valid_app in V by assumption. rewrite rank_split by assumption. destruct V as [_ V]. pose proof (rank_bound _ _ V). unfold rest_of. lia. }
  destruct a as [|x a].
  - exists (seq 0 (length (values s))). split; [reflexivity|]. split; [apply NoDup_seq|]. intros i. rewrite elem_of_seq, <- K. replace (start (route s) []) with 0 by (unfold start; destruct (route s); reflexivity).
    replace (rest_of s []) with (route s) by reflexivity. lia.
  - exists (filter (fun index => start (route s) (x :: a) <= index /\ index < start (route s) (x :: a) + prod (rest_of s (x :: a))) (seq 0 (length (values s)))). split; [|split; [apply NoDup_filter, NoDup_seq|]].
    + unfold mut_references, generate_new_route. destruct (Nat.ltb_spec (length (route s)) (length (x :: a))); [lia|]. cbn [mr_bind]. rewrite get_initial_cell_ok by assumption. cbn [mr_bind].
      rewrite foldl_mul, Nat.mul_1_l. reflexivity.
    + intros i. rewrite elem_of_list_filter, elem_of_seq, <- K. lia.
Qed.
Print Assumptions C29_mutable_references.
(** Not every accepted write has the dimensions of its target: a value with fewer dimensions is accepted
    and overwrites only the first cells of the target. *)
Theorem C29_short_value_is_accepted_refuted : exists (s new s' : slice nat), shaped s /\ shaped new /\ in_bounds s [1] /\ route new <> rest_of s [1] /\
  insert_values s [1] new true = (s', MOk tt) /\ values s' = [0; 0; 7; 0].
Proof.
  exists (new_with_route [2; 2] 0), (new_with_route [] 7). eexists. split; [reflexivity|]. split; [reflexivity|]. split; [|split; [discriminate|split; [vm_compute; reflexivity|reflexivity]]].
  split; [cbn; lia|]. intros [|i] x n Hx Hn; [|discriminate]. cbn in Hx, Hn. injection Hx as <-. injection Hn as <-. lia.
Qed.
Print Assumptions C29_short_value_is_accepted_refuted.

Definition ex_slice : slice nat := Slice [2; 3; 2] [0; 1; 2; 3; 4; 5; 6; 7; 8; 9; 10; 11].
Definition ex_part : slice nat := Slice [3; 2] [20; 21; 22; 23; 24; 25].
Definition ex_small : slice nat := Slice [4; 1] [30; 31; 32; 33].
Lemma ex_bounds : in_bounds ex_slice [1].
Proof. split; [cbn; lia|]. intros [|i] x n Hx Hn; [|discriminate]. cbn in Hx, Hn. injection Hx as <-. injection Hn as <-. lia. Qed.
Example C29_example : shaped ex_slice /\ shaped ex_part /\ shaped ex_small /\ in_bounds ex_slice [1] /\ ~ in_bounds ex_slice [1; 3] /\ holds_at ex_slice [1; 0; 1] 7 /\
  insert_values ex_slice [1] ex_part true = (Slice [2; 3; 2] [0; 1; 2; 3; 4; 5; 20; 21; 22; 23; 24; 25], MOk tt) /\
  insert_values ex_slice [1] ex_small true = (ex_slice, MErr (MismatchedDimensions 4 3)) /\
  insert_values ex_slice [1] ex_small false = (Slice [2; 3; 2] [0; 1; 2; 3; 4; 5; 30; 7; 31; 9; 32; 11], MErr (MismatchedDimensionsWeak 4 3)) /\
  access_values ex_slice [1; 2] = MOk (Slice [2] [10; 11]) /\ mut_references ex_slice [0; 1] = MOk [2; 3].
Proof.
  split; [reflexivity|]. split; [reflexivity|]. split; [reflexivity|]. split; [exact ex_bounds|]. split; [intros [_ Q]; specialize (Q 1 3 3 eq_refl eq_refl); lia|].
  split; [exists 7; split; reflexivity|]. split_and!; vm_compute; reflexivity.
Qed.

(** ** C30 *)
(** The cell numbered [i] is the [i]-th path in row-major order, and the conversion back gives [i]. *)
Theorem C30_index_and_path_are_inverse : forall C (s : slice C) i, shaped s -> i < length (values s) ->
  exists p, paths (route s) !! i = Some p /\ get_access_index s i = MOk p /\ get_initial_cell s p = MOk i /\
    exists v, access_value_by_index s i = MOk v /\ get_single_value s p = MOk v.
Proof.
  intros C s i HS Hi. pose proof (proj1 (shaped_prod s) HS) as SP. destruct (access_index_loop_ok (route s) i) as (p & E & V & R); [lia|].
  assert (HL : length p = length (route s)) by (symmetry; eapply Forall2_length; exact V).
  assert (HB : in_bounds s p) by (apply in_bounds_valid; rewrite HL, firstn_all; split; [lia|assumption]).
  assert (ST : start (route s) p = i) by (unfold start; rewrite HL, firstn_all, drop_all, R; cbn; lia).
  exists p. split; [apply paths_lookup; auto|]. split. { unfold get_access_index. destruct (Nat.ltb_spec (length (values s)) i); [lia|]. rewrite SP. exact E. }
  split; [rewrite get_initial_cell_ok, ST by assumption; reflexivity|]. destruct (lookup_lt_is_Some_2 (values s) i Hi) as [v Hv]. exists v. split.
  - unfold access_value_by_index. destruct (Nat.ltb_spec (length (values s)) i); [lia|]. unfold mindex. rewrite Hv. reflexivity.
  - unfold get_single_value. rewrite HL, Nat.eqb_refl, get_initial_cell_ok, ST by assumption. cbn. unfold mindex. rewrite Hv. reflexivity.
Qed.
Print Assumptions C30_index_and_path_are_inverse.
Theorem C30_path_and_index_are_inverse : forall C (s : slice C) p, shaped s -> p ∈ paths (route s) -> exists i, get_initial_cell s p = MOk i /\ i < length (values s) /\ get_access_index s i = MOk p.
Proof.
  intros C s p HS Hp. apply elem_of_list_lookup in Hp. destruct Hp as [i Hi]. exists i. assert (L : i < length (values s)) by (rewrite HS; eapply lookup_lt_Some; exact Hi).
  destruct (C30_index_and_path_are_inverse C s i HS L) as (q & Hq & E1 & E2 & _). rewrite Hi in Hq. injection Hq as <-. auto.
Qed.
Print Assumptions C30_path_and_index_are_inverse.
(** Writing by index is writing at the path of the index. *)
Theorem C30_write_by_index : forall C (s : slice C) i v p, shaped s -> paths (route s) !! i = Some p ->
  insert_value_by_index s i v = set_single_value s p v /\
  exists s', insert_value_by_index s i v = (s', MOk tt) /\ holds_at s' p v /\ forall q x, q <> p -> holds_at s' q x <-> holds_at s q x.
Proof.
  intros C s i v p HS Hp. assert (L : i < length (values s)) by (rewrite HS; eapply lookup_lt_Some; exact Hp).
  destruct (C30_index_and_path_are_inverse C s i HS L) as (q & Hq & _ & E & _). rewrite Hp in Hq. injection Hq as <-.
  apply paths_lookup in Hp. destruct Hp as [V _]. assert (HL : length p = length (route s)) by (symmetry; eapply Forall2_length; exact V).
  assert (HB : in_bounds s p) by (apply in_bounds_valid; rewrite HL, firstn_all; split; [lia|assumption]).
  assert (Q : insert_value_by_index s i v = set_single_value s p v).
  { unfold insert_value_by_index, set_single_value. rewrite HL, Nat.eqb_refl, E. destruct (Nat.ltb_spec (length (values s)) i); [lia|reflexivity]. }
  split; [exact Q|]. destruct (C29_single_value C s p v HS HB HL) as (_ & s' & E' & _ & _ & A & B). exists s'. rewrite Q. auto.
Qed.
Print Assumptions C30_write_by_index.
(** Beyond the end: an error, but not at the first index past the end, where the conversion to a path
    returns a path outside of the array and reading or writing panics. *)
Theorem C30_far_index_is_an_error : forall C (s : slice C) i v, length (values s) < i ->
  get_access_index s i = MErr OutOfBoundsError /\ access_value_by_index s i = MErr OutOfBoundsError /\ insert_value_by_index s i v = (s, MErr OutOfBoundsError).
Proof.
  intros C s i v H. unfold get_access_index, access_value_by_index, insert_value_by_index. destruct (Nat.ltb_spec (length (values s)) i); [auto|lia].
Qed.
Print Assumptions C30_far_index_is_an_error.
Theorem C30_index_past_the_end_is_an_error_refuted : exists (s : slice nat) p, shaped s /\ length (values s) = 4 /\
  get_access_index s 4 = MOk p /\ ~ p ∈ paths (route s) /\ access_value_by_index s 4 = MPanic /\ insert_value_by_index s 4 9 = (s, MPanic).
Proof.
  exists (new_with_route [2; 2] 0), [2; 0]. split_and!; try reflexivity. vm_compute. intros Q. repeat (apply elem_of_cons in Q; destruct Q as [Q|Q]; [discriminate|]). apply elem_of_nil in Q. assumption.
Qed.
Print Assumptions C30_index_past_the_end_is_an_error_refuted.
Theorem C30_empty_dimension_panics_refuted : exists (s : slice nat), shaped s /\ get_access_index s 0 = MPanic.
Proof. exists (new_with_route [0] 0). split; reflexivity. Qed.
Print Assumptions C30_empty_dimension_panics_refuted.
Example C30_example : shaped ex_slice /\ 9 < length (values ex_slice) /\ get_access_index ex_slice 9 = MOk [1; 1; 1] /\ get_initial_cell ex_slice [1; 1; 1] = MOk 9 /\ [1; 1; 1] ∈ paths (route ex_slice).
Proof. split; [reflexivity|]. split; [cbn; lia|]. split; [reflexivity|]. split; [reflexivity|]. eapply (elem_of_list_lookup_2 _ 9). reflexivity. Qed.
