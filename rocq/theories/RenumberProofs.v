(** Renumbering the signals of constraints: offsets and correspondences. *)
From stdpp Require Import prelude gmap fin_maps.
From Coq Require Import ZArith Lia.
From Verif Require Import ModArithModel ModArithProofs AlgebraModel AlgebraSpec AlgebraProofs PipelineModel PipelineSpec.
Open Scope Z_scope.

(** [m'] is [m] with its keys renamed by [g] *)
Definition renamed (g : nat -> option nat) (m m' : lin) : Prop :=
  forall k' v, m' !! k' = Some v <-> exists k, g k = Some k' /\ m !! k = Some v.
Definition inj_on (g : nat -> option nat) (m : lin) : Prop :=
  forall k1 k2 k', is_Some (m !! k1) -> is_Some (m !! k2) -> g k1 = Some k' -> g k2 = Some k' -> k1 = k2.

Lemma renamed_leval g m m' ρ ρ' :
  renamed g m m' -> inj_on g m -> (forall k, is_Some (m !! k) -> exists k', g k = Some k' /\ sv ρ' k' = sv ρ k) ->
  leval ρ' m' = leval ρ m.
Proof.
  revert m'. induction m as [|k v m Hk IH] using map_ind; intros m' R I S.
  - assert (m' = ∅) as ->.
    { apply map_eq. intros i. rewrite lookup_empty. destruct (m' !! i) as [v|] eqn:E; [|reflexivity].
      apply R in E. destruct E as (k & _ & E). rewrite lookup_empty in E. discriminate. }
    reflexivity.
  - destruct (S k) as (k' & Gk & Sk). { rewrite lookup_insert. eauto. }
    assert (E' : m' !! k' = Some v). { apply R. exists k. rewrite lookup_insert. auto. }
    rewrite leval_insert_new by assumption. rewrite (leval_lookup ρ' m' k' v E'). rewrite Sk. f_equal.
    apply IH.
    + intros j w. split.
      * intros E. apply lookup_delete_Some in E. destruct E as [NE E]. apply R in E. destruct E as (i & Gi & Ei).
        exists i. split; [assumption|]. rewrite lookup_insert_ne in Ei; [assumption|]. intros ->. congruence.
      * intros (i & Gi & Ei). apply lookup_delete_Some. split.
        -- intros <-. assert (i = k); [|subst; congruence].
           eapply I; [| |exact Gi|exact Gk]; [rewrite lookup_insert_ne; [eauto|intros ->; congruence]|rewrite lookup_insert; eauto].
        -- apply R. exists i. split; [assumption|]. rewrite lookup_insert_ne; [assumption|]. intros ->. congruence.
    + intros k1 k2 j H1 H2 G1 G2. eapply I; [| |exact G1|exact G2].
      * destruct (decide (k = k1)) as [->|]; [rewrite lookup_insert; eauto|rewrite lookup_insert_ne; auto].
      * destruct (decide (k = k2)) as [->|]; [rewrite lookup_insert; eauto|rewrite lookup_insert_ne; auto].
    + intros j Hj. apply S. destruct (decide (k = j)) as [->|]; [rewrite lookup_insert; eauto|rewrite lookup_insert_ne; auto].
Qed.
Lemma renamed_size g m m' :
  renamed g m m' -> inj_on g m -> (forall k, is_Some (m !! k) -> is_Some (g k)) -> size m' = size m.
Proof.
  revert m'. induction m as [|k v m Hk IH] using map_ind; intros m' R I S.
  - assert (m' = ∅) as ->; [|reflexivity].
    apply map_eq. intros i. rewrite lookup_empty. destruct (m' !! i) as [v|] eqn:E; [|reflexivity].
    apply R in E. destruct E as (k & _ & E). rewrite lookup_empty in E. discriminate.
  - destruct (S k) as (k' & Gk). { rewrite lookup_insert. eauto. }
    assert (E' : m' !! k' = Some v). { apply R. exists k. rewrite lookup_insert. auto. }
    rewrite map_size_insert_None by assumption. rewrite <- (insert_delete m' k' v E').
    rewrite map_size_insert_None by apply lookup_delete. f_equal.
    apply IH.
    + intros j w. split.
      * intros E. apply lookup_delete_Some in E. destruct E as [NE E]. apply R in E. destruct E as (i & Gi & Ei).
        exists i. split; [assumption|]. rewrite lookup_insert_ne in Ei; [assumption|]. intros ->. congruence.
      * intros (i & Gi & Ei). apply lookup_delete_Some. split.
        -- intros <-. assert (i = k); [|subst; congruence].
           eapply I; [| |exact Gi|exact Gk]; [rewrite lookup_insert_ne; [eauto|intros ->; congruence]|rewrite lookup_insert; eauto].
        -- apply R. exists i. split; [assumption|]. rewrite lookup_insert_ne; [assumption|]. intros ->. congruence.
    + intros k1 k2 j H1 H2 G1 G2. eapply I; [| |exact G1|exact G2].
      * destruct (decide (k = k1)) as [->|]; [rewrite lookup_insert; eauto|rewrite lookup_insert_ne; auto].
      * destruct (decide (k = k2)) as [->|]; [rewrite lookup_insert; eauto|rewrite lookup_insert_ne; auto].
    + intros j Hj. apply S. destruct (decide (k = j)) as [->|]; [rewrite lookup_insert; eauto|rewrite lookup_insert_ne; auto].
Qed.

(** ** offsets *)
Definition shift (off k : nat) : nat := if Nat.eqb k cc then k else (k + off)%nat.
Lemma shift_inj off k1 k2 : shift off k1 = shift off k2 -> k1 = k2.
Proof. unfold shift, cc. destruct (Nat.eqb_spec k1 0), (Nat.eqb_spec k2 0); lia. Qed.
Lemma raw_offset_renamed m off : renamed (fun k => Some (shift off k)) m (raw_offset m off).
Proof.
  unfold raw_offset. apply (map_fold_ind (fun r m => renamed (fun k => Some (shift off k)) m r)).
  - intros k' v. rewrite lookup_empty. split; [discriminate|]. intros (k & _ & E). rewrite lookup_empty in E. discriminate.
  - intros k v m' r Hk IH k' w. fold (shift off k). split.
    + intros E. apply lookup_insert_Some in E. destruct E as [(<- & <-)|(NE & E)].
      * exists k. rewrite lookup_insert. auto.
      * apply IH in E. destruct E as (i & Gi & Ei). exists i. split; [assumption|]. rewrite lookup_insert_ne; [assumption|]. intros ->. congruence.
    + intros (i & Gi & Ei). apply lookup_insert_Some in Ei. destruct Ei as [(<- & <-)|(NE & Ei)].
      * injection Gi as <-. rewrite lookup_insert. reflexivity.
      * injection Gi as <-. rewrite lookup_insert_ne; [apply IH; eauto|]. intros E. apply shift_inj in E. congruence.
Qed.
Lemma inj_on_shift off m : inj_on (fun k => Some (shift off k)) m.
Proof. intros k1 k2 k' _ _ E1 E2. apply (shift_inj off). congruence. Qed.
Lemma leval_raw_offset ρ m off : leval ρ (raw_offset m off) = leval (fun k => ρ (k + off)%nat) m.
Proof.
  eapply renamed_leval; [apply raw_offset_renamed|apply inj_on_shift|].
  intros k _. exists (shift off k). split; [reflexivity|]. destruct k; reflexivity.
Qed.
Lemma raw_offset_lookup m off k v : m !! k = Some v -> raw_offset m off !! shift off k = Some v.
Proof. intros E. apply raw_offset_renamed. eauto. Qed.
Lemma raw_offset_0 m : raw_offset m 0 = m.
Proof.
  apply map_eq. intros i. destruct (m !! i) as [v|] eqn:E.
  - apply (raw_offset_lookup _ 0) in E. unfold shift in E. rewrite Nat.add_0_r in E. destruct (Nat.eqb i cc); assumption.
  - destruct (raw_offset m 0 !! i) as [v|] eqn:E'; [|reflexivity]. apply raw_offset_renamed in E'.
    destruct E' as (k & Gk & Ek). unfold shift in Gk. rewrite Nat.add_0_r in Gk. destruct (Nat.eqb k cc); congruence.
Qed.
Lemma c_offset_0 c : c_offset c 0 = c.
Proof. destruct c as [a b c]. unfold c_offset. cbn [c_a c_b c_c]. rewrite !raw_offset_0. reflexivity. Qed.
Lemma raw_offset_empty m off : is_empty_map (raw_offset m off) = is_empty_map m.
Proof.
  unfold is_empty_map. apply bool_decide_ext. rewrite <- !map_size_empty_iff.
  rewrite (renamed_size _ m _ (raw_offset_renamed m off) (inj_on_shift off m)); [reflexivity|]. eauto.
Qed.
Lemma raw_offset_size m off : size (raw_offset m off) = size m.
Proof. apply (renamed_size _ m _ (raw_offset_renamed m off) (inj_on_shift off m)). eauto. Qed.
Lemma is_linear_offset c off : is_linear (c_offset c off) = is_linear c.
Proof. unfold is_linear, c_offset. cbn [c_a c_b]. rewrite !raw_offset_empty. reflexivity. Qed.
Lemma is_empty_offset c off : is_empty (c_offset c off) = is_empty c.
Proof. unfold is_empty, c_offset. cbn [c_a c_b c_c]. rewrite !raw_offset_empty. reflexivity. Qed.
Lemma holds_offset p ρ c off : holds p ρ (c_offset c off) <-> holds p (fun k => ρ (k + off)%nat) c.
Proof. unfold holds, c_offset. cbn [c_a c_b c_c]. rewrite !leval_raw_offset. reflexivity. Qed.
Lemma in_lin_offset k m off : in_lin k (raw_offset m off) <-> exists i, in_lin i m /\ k = (i + off)%nat.
Proof.
  unfold in_lin. split.
  - intros (Hk & v & E). apply raw_offset_renamed in E. destruct E as (i & Gi & Ei). injection Gi as <-.
    unfold shift, cc in *. destruct (Nat.eqb_spec i 0); [congruence|]. exists i. eauto.
  - intros (i & (Hi & v & E) & ->). split; [lia|]. apply (raw_offset_lookup _ off) in E. unfold shift, cc in E.
    destruct (Nat.eqb_spec i 0); [congruence|]. eauto.
Qed.
Lemma in_c_offset k c off : in_c k (c_offset c off) <-> exists i, in_c i c /\ k = (i + off)%nat.
Proof.
  unfold in_c, c_offset. cbn [c_a c_b c_c]. rewrite !in_lin_offset. split.
  - intros [(i & H & E)|[(i & H & E)|(i & H & E)]]; exists i; tauto.
  - intros (i & [H|[H|H]] & E); [left|right; left|right; right]; exists i; tauto.
Qed.
Lemma canon_offset p m off : canon p m -> canon p (raw_offset m off).
Proof. intros H k v E. apply raw_offset_renamed in E. destruct E as (i & _ & E). exact (H i v E). Qed.
Lemma nonzero_offset m off : nonzero m -> nonzero (raw_offset m off).
Proof. intros H k v E. apply raw_offset_renamed in E. destruct E as (i & _ & E). exact (H i v E). Qed.
Lemma canon_c_offset p c off : canon_c p c -> canon_c p (c_offset c off).
Proof. intros (A & B & C). split_and!; apply canon_offset; assumption. Qed.
Lemma nonzero_c_offset c off : nonzero_c c -> nonzero_c (c_offset c off).
Proof. intros (A & B & C). split_and!; apply nonzero_offset; assumption. Qed.

(** ** correspondences *)
Definition corr_key (corr : gmap nat nat) (k : nat) : option nat := if Nat.eqb k cc then Some cc else corr !! k.
Lemma raw_correspondence_spec corr m :
  (forall k, in_lin k m -> exists k', corr !! k = Some k' /\ k' <> 0%nat) ->
  (forall k1 k2 k', in_lin k1 m -> in_lin k2 m -> corr !! k1 = Some k' -> corr !! k2 = Some k' -> k1 = k2) ->
  exists m', raw_correspondence m corr = Ok m' /\ renamed (corr_key corr) m m' /\ inj_on (corr_key corr) m.
Proof.
  intros HS HI.
  assert (INJ : inj_on (corr_key corr) m).
  { intros k1 k2 k' S1 S2. unfold corr_key, cc. destruct (Nat.eqb_spec k1 0) as [->|N1], (Nat.eqb_spec k2 0) as [->|N2]; intros G1 G2; [reflexivity| | |].
    - destruct (HS k2) as (j & Ej & Nj); [split; assumption|]. congruence.
    - destruct (HS k1) as (j & Ej & Nj); [split; assumption|]. congruence.
    - eapply HI; [split; [exact N1|exact S1]|split; [exact N2|exact S2]|exact G1|exact G2]. }
  enough (G : m ⊆ m -> exists m', raw_correspondence m corr = Ok m' /\ renamed (corr_key corr) m m').
  { destruct (G ltac:(reflexivity)) as (m' & E & R). eauto. }
  unfold raw_correspondence.
  apply (map_fold_ind (fun (x : res lin) (m0 : lin) => m0 ⊆ m -> exists m' : lin, x = Ok m' /\ renamed (corr_key corr) m0 m')).
  - intros _. exists ∅. split; [reflexivity|]. intros k' v. rewrite lookup_empty. split; [discriminate|]. intros (k & _ & E). rewrite lookup_empty in E. discriminate.
  - intros k v m0 r Hk IH Hsub.
    assert (Hm0 : m0 ⊆ m). { etransitivity; [|exact Hsub]. apply insert_subseteq. assumption. }
    assert (Hkm : m !! k = Some v). { eapply lookup_weaken; [apply lookup_insert|exact Hsub]. }
    destruct (IH Hm0) as (m1 & -> & R). cbn [res_bind].
    assert (exists k', corr_key corr k = Some k') as (k' & Gk).
    { unfold corr_key, cc. destruct (Nat.eqb_spec k 0); [eauto|]. destruct (HS k) as (j & Ej & _); [split; [assumption|]; eauto|]. eauto. }
    exists (<[k' := v]> m1). split.
    + unfold corr_key in Gk. destruct (Nat.eqb k cc); [injection Gk as <-; reflexivity|]. rewrite Gk. reflexivity.
    + intros j w. split.
      * intros E. apply lookup_insert_Some in E. destruct E as [(<- & <-)|(NE & E)].
        -- exists k. rewrite lookup_insert. auto.
        -- apply R in E. destruct E as (i & Gi & Ei). exists i. split; [assumption|]. rewrite lookup_insert_ne; [assumption|]. intros ->. congruence.
      * intros (i & Gi & Ei). apply lookup_insert_Some in Ei. destruct Ei as [(<- & <-)|(NE & Ei)].
        -- assert (j = k') as -> by congruence. rewrite lookup_insert. reflexivity.
        -- rewrite lookup_insert_ne; [apply R; eauto|]. intros ->. apply NE. symmetry. eapply (INJ i k j).
           ++ exists w. eapply lookup_weaken; [exact Ei|exact Hm0].
           ++ eauto.
           ++ assumption.
           ++ assumption.
Qed.
