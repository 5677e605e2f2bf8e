(** C16: grouping constraints into clusters. *)
From stdpp Require Import prelude gmap fin_maps relations.
From Coq Require Import ZArith Lia.
From Verif Require Import ModArithModel AlgebraModel AlgebraSpec AlgebraProofs LinearSimpModel ClusterModel ClusterSpec ClusterProofs.
Open Scope Z_scope.

(** The clusters partition the constraints that have a term, every cluster is linked by shared
    signals, and two different clusters share no signal: whatever order the signals of a constraint
    are visited in. *)
Theorem C16_clusters_partition_by_shared_signals :
  forall ord linear no_vars,
  (forall n, valid_set_order (ord n)) ->
  (forall c s, c ∈ linear -> s ∈ take_signals c -> (s < no_vars)%nat) ->
  exists clusters, build_clusters ord linear no_vars = Ok clusters /\
    concat (cl_constraints <$> clusters) ≡ₚ filter (fun c => c <> c_empty) linear /\
    (forall cl, cl ∈ clusters -> cl_constraints cl <> [] /\ connected (cl_constraints cl)) /\
    (forall i j cl cl' c c' s, clusters !! i = Some cl -> clusters !! j = Some cl' ->
       c ∈ cl_constraints cl -> c' ∈ cl_constraints cl' -> s ∈ take_signals c -> s ∈ take_signals c' -> i = j).
Proof.
  intros ord linear no_vars Ho Hv. destruct (build_clusters_spec ord linear no_vars Ho Hv) as (cls & E & HP & HC & HD).
  exists cls. split; [assumption|]. split; [|split].
  - rewrite HP. clear. apply Permutation_refl'. apply list_filter_iff. intros c. unfold nonempty.
    destruct (is_empty c) eqn:E; cbn.
    + split; [intros []|]. intros H. apply H. unfold is_empty in E. rewrite !andb_true_iff, !is_empty_map_true in E.
      destruct c as [a b c]. cbn in E. destruct E as [[-> ->] ->]. reflexivity.
    + split; [|intros _; exact I]. intros _ ->. cbn in E. discriminate.
  - assumption.
  - intros i j cl cl' c c' s Hi Hj Hc Hc' Hs Hs'. eapply (HD i j cl cl' s); eauto; unfold clsigs; eauto.
Qed.
Print Assumptions C16_clusters_partition_by_shared_signals.

Definition ex_cl : list constraint :=
  [ Constraint ∅ ∅ {[ 1%nat := 1; 2%nat := 6 ]}; Constraint ∅ ∅ {[ 3%nat := 1; 4%nat := 6 ]}; c_empty;
    Constraint ∅ ∅ {[ 5%nat := 1; 6%nat := 6 ]}; Constraint ∅ ∅ {[ 4%nat := 1; 2%nat := 6; 0%nat := 1 ]} ].
Example C16_example :
  (forall c s, c ∈ ex_cl -> s ∈ take_signals c -> (s < 7)%nat) /\
  exists cls, build_clusters (fun n X => if Nat.even n then elements X else rev (elements X)) ex_cl 7 = Ok cls /\
    length <$> (cl_constraints <$> cls) = [1%nat; 3%nat].
Proof.
  split.
  - intros c s Hc Hs. assert (HF : Forall (fun c => Forall (fun s => s < 7)%nat (elements (take_signals c))) ex_cl) by decide_now.
    pose proof (proj1 (Forall_forall _ _) HF c Hc) as HF'. apply (proj1 (Forall_forall _ _) HF'). apply elem_of_elements. assumption.
  - eexists. split; [vm_compute; reflexivity|]. vm_compute. reflexivity.
Qed.
