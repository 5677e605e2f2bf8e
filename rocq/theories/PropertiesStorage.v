(** C27, C28: the constraint storage and the constant table. *)
From stdpp Require Import prelude gmap fin_maps.
From Coq Require Import ZArith Lia.
From Verif Require Import ModArithModel AlgebraModel BytesModel StorageModel StorageSpec StorageProofs.
Open Scope Z_scope.

(** ** C27 *)
(** Whatever calls are made and whatever the hash orders are, the storage gives the answers of a
    plain list of constraints, never panics, and reading it gives that list. *)
Theorem C27_storage_behaves_like_a_list : forall h : list (entry_order * storage_op),
  Forall (fun x => valid_entries x.1) h ->
  exists st, storage_run h storage_new = Ok ((list_run h []).1, st) /\
    get_ids st = seq 0 (length (list_run h []).2) /\
    forall id, read_constraint st id = (list_run h []).2 !! id ≫= fun c => Some (Ok c).
Proof.
  intros h Hh. destruct (storage_run_spec h Hh storage_new [] represents_new) as (st & E & HT & HF). exists st. split; [assumption|].
  split; [unfold get_ids; rewrite (Forall2_length _ _ _ HF); reflexivity|].
  intros id. unfold read_constraint. destruct (st_constraints st !! id) as [z|] eqn:Ez.
  - destruct (Forall2_lookup_l _ _ _ _ _ HF Ez) as (c & -> & Hc). cbn. rewrite Hc. reflexivity.
  - apply lookup_ge_None in Ez. rewrite (Forall2_length _ _ _ HF) in Ez. rewrite (lookup_ge_None_2 _ _ Ez). reflexivity.
Qed.
Print Assumptions C27_storage_behaves_like_a_list.
(** The interned form of a coefficient decodes to that coefficient, negative ones included. *)
Theorem C27_interned_coefficients_decode : forall x y,
  from_signed_bytes_le (to_signed_bytes_le x) = x /\ Forall (fun d => 0 <= d < 256) (to_signed_bytes_le x) /\
  (to_signed_bytes_le x = to_signed_bytes_le y -> x = y).
Proof. intros x y. split; [apply signed_roundtrip|]. split; [apply le_bytes_byte|apply signed_inj]. Qed.
Print Assumptions C27_interned_coefficients_decode.

Definition ex_c1 : constraint := Constraint {[1%nat := 3; 0%nat := -1]} {[2%nat := 300]} ∅.
Definition ex_c2 : constraint := Constraint ∅ ∅ {[1%nat := 128; 5%nat := 3]}.
Definition ex_c3 : constraint := Constraint ∅ ∅ {[7%nat := 1]}.
Definition ex_history : list (entry_order * storage_op) :=
  [(map_to_list, OpAdd ex_c1); ((fun m => reverse (map_to_list m)), OpAdd ex_c2); (map_to_list, OpReplace 0 ex_c3);
   (map_to_list, OpAdd ex_c1); (map_to_list, OpExtract (fun c => bool_decide (c_a c = ∅))); (map_to_list, OpReplace 9 ex_c2)].
Example ex_history_valid : Forall (fun x => valid_entries x.1) ex_history.
Proof. repeat (apply Forall_cons_2; [intros m; cbn; first [reflexivity|apply reverse_Permutation]|]). apply Forall_nil_2. Qed.
Example ex_history_result : (list_run ex_history []).2 = [ex_c1] /\
  option_map (fun x => x) (read_constraint (match storage_run ex_history storage_new with Ok x => x.2 | _ => storage_new end) 0) = Some (Ok ex_c1).
Proof. vm_compute. auto. Qed.

(** ** C28 *)
(** the ids given to a history of insertions *)
Fixpoint insert_all {C} `{Countable C} (t : tracker C) (cs : list C) : list nat * tracker C :=
  match cs with
  | [] => ([], t)
  | c :: cs => let '(id, t) := tracker_insert t c in let '(ids, t) := insert_all t cs in (id :: ids, t)
  end.
Lemma insert_all_spec {C} `{Countable C} (cs : list C) : forall t : tracker C, tracker_ok t -> let '(ids, t') := insert_all t cs in
  tracker_ok t' /\ (exists l, t_constants t' = t_constants t ++ l) /\ Forall2 (fun c id => t_constants t' !! id = Some c) cs ids /\
  (forall d, d ∈ t_constants t' <-> d ∈ t_constants t \/ d ∈ cs).
Proof.
  induction cs as [|c cs IH]; intros t Ht; cbn [insert_all].
  - split; [assumption|]. split; [exists []; rewrite app_nil_r; reflexivity|]. split; [constructor|]. intros d. rewrite elem_of_nil. tauto.
  - pose proof (tracker_insert_spec t c Ht) as HI. destruct (tracker_insert t c) as [id t1]. destruct HI as (H1 & H2 & [l1 H3] & H4).
    specialize (IH t1 H1). destruct (insert_all t1 cs) as [ids t2]. destruct IH as (I1 & [l2 I2] & I3 & I4).
    split; [assumption|]. split; [exists (l1 ++ l2); rewrite I2, H3, app_assoc; reflexivity|]. split.
    + constructor; [|assumption]. rewrite tracker_get_spec in H2. rewrite I2. apply lookup_app_l_Some. assumption.
    + intros d. rewrite I4, H4, elem_of_cons. tauto.
Qed.
(** After any history of insertions: every id that was ever handed out still denotes the constant
    it was handed out for (both ways), equal constants got equal ids and distinct ones distinct
    ids, and the ids are exactly 0..next_id-1, each for an inserted constant. *)
Theorem C28_constant_ids_stable_unique_dense : forall (C : Type) (E : EqDecision C) (K : Countable C) (cs : list C),
  let '(ids, t) := insert_all (tracker_new : tracker C) cs in
  length ids = length cs /\
  (forall i c id, cs !! i = Some c -> ids !! i = Some id -> get_constant t id = Some c /\ get_id t c = Some id) /\
  (forall i j c d x y, cs !! i = Some c -> cs !! j = Some d -> ids !! i = Some x -> ids !! j = Some y -> (x = y <-> c = d)) /\
  (forall id, (id < next_id t)%nat <-> id ∈ ids) /\
  (forall c, get_id t c = None <-> c ∉ cs) /\ (forall id, get_constant t id = None <-> (next_id t <= id)%nat).
Proof.
  intros C E K cs. pose proof (insert_all_spec cs tracker_new tracker_new_ok) as HI. destruct (insert_all tracker_new cs) as [ids t].
  destruct HI as (HT & _ & HF & HD).
  assert (HL : forall i c id, cs !! i = Some c -> ids !! i = Some id -> get_constant t id = Some c /\ get_id t c = Some id).
  { intros i c id Hc Hi. pose proof (Forall2_lookup_lr _ _ _ _ _ _ HF Hc Hi) as Q. cbn in Q. rewrite tracker_get_spec. split; [assumption|]. apply HT. assumption. }
  split; [symmetry; apply (Forall2_length _ _ _ HF)|]. split; [exact HL|]. split; [|split; [|split]].
  - intros i j c d x y Hc Hd Hx Hy. destruct (HL _ _ _ Hc Hx) as [Q1 Q2], (HL _ _ _ Hd Hy) as [Q3 Q4]. split; congruence.
  - intros id. unfold next_id. split.
    + intros Hid. apply lookup_lt_is_Some_2 in Hid. destruct Hid as [c Hc]. pose proof (elem_of_list_lookup_2 _ _ _ Hc) as Hin. apply HD in Hin.
      destruct Hin as [Hin|Hin]; [apply elem_of_nil in Hin; contradiction|]. apply elem_of_list_lookup in Hin. destruct Hin as [i Hi].
      destruct (Forall2_lookup_l _ _ _ _ _ HF Hi) as (id' & Hid' & Q). apply HT in Q, Hc. assert (id = id') by congruence. subst id'.
      eapply elem_of_list_lookup_2. exact Hid'.
    + intros Hin. apply elem_of_list_lookup in Hin. destruct Hin as [i Hi]. destruct (Forall2_lookup_r _ _ _ _ _ HF Hi) as (c & Hc & Q).
      eapply lookup_lt_Some. exact Q.
  - intros c. unfold get_id. split.
    + intros Hn Hin. apply elem_of_list_lookup in Hin. destruct Hin as [i Hi]. destruct (Forall2_lookup_l _ _ _ _ _ HF Hi) as (id' & Hid' & Q).
      apply HT in Q. congruence.
    + intros Hin. destruct (t_lookup t !! c) eqn:Ec; [|reflexivity]. apply HT in Ec. apply elem_of_list_lookup_2, HD in Ec.
      destruct Ec as [Ec|Ec]; [apply elem_of_nil in Ec; contradiction|contradiction].
  - intros id. rewrite tracker_get_spec. unfold next_id. apply lookup_ge_None.
Qed.
Print Assumptions C28_constant_ids_stable_unique_dense.
Example ex_tracker : (insert_all (tracker_new : tracker Z) [5; 7; 5; -3; 7]).1 = [0; 1; 0; 2; 1]%nat.
Proof. vm_compute. reflexivity. Qed.
