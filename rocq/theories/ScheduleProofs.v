(** Independence of message arrival order (C20). *)
From stdpp Require Import prelude gmap fin_maps.
From Coq Require Import ZArith Lia Znumtheory.
From Verif Require Import ModArithModel ModArithProofs AlgebraModel AlgebraSpec AlgebraProofs LinearSimpModel LinearSpec ClusterModel ClusterSpec
  PipelineModel PipelineSpec EqSimpProofs RewriteProofs PipelineProofs.
Open Scope Z_scope.

Lemma has_cc_raw p m s : s_from s <> 0%nat -> has_cc (raw_substitution m s p).
Proof.
  intros H. unfold raw_substitution. destruct (init_expr m !! s_from s); [|apply init_expr_has]. apply has_cc_add_coeffs.
  unfold has_cc. rewrite lookup_delete_ne by assumption. apply init_expr_has.
Qed.
Lemma raw_lookup p m s k : raw_substitution m s p !! k =
  match init_expr m !! s_from s with
  | None => init_expr m !! k
  | Some v => match init_expr (s_to s) !! k with
              | Some t => Some (add (default 0 (delete (s_from s) (init_expr m) !! k)) (mul t v p) p)
              | None => delete (s_from s) (init_expr m) !! k
              end
  end.
Proof.
  unfold raw_substitution. destruct (init_expr m !! s_from s); [|reflexivity].
  rewrite add_coeffs_lookup. unfold mul_const. rewrite lookup_fmap. destruct (init_expr (s_to s) !! k); reflexivity.
Qed.
Lemma add_swap p x a b : 0 < p -> add (add x a p) b p = add (add x b p) a p.
Proof. intros Hp. unfold add. rewrite !modulus_mod, !Zplus_mod_idemp_l by assumption. f_equal. lia. Qed.

Lemma raw_commute p m s t : 0 < p -> s_from s <> 0%nat -> t.(s_from) <> 0%nat -> s_from s <> s_from t ->
  s_to s !! s_from s = None -> s_to s !! s_from t = None -> s_to t !! s_from s = None -> s_to t !! s_from t = None ->
  raw_substitution (raw_substitution m s p) t p = raw_substitution (raw_substitution m t p) s p.
Proof.
  intros Hp Hs Ht Hne Hss Hst Hts Htt.
  assert (HI : forall to k, k <> 0%nat -> to !! k = None -> init_expr to !! k = None).
  { intros to k Hk E. rewrite init_expr_lookup, E. destruct (Nat.eqb_spec k 0); [contradiction|reflexivity]. }
  apply map_eq. intros k. rewrite !(raw_lookup p (raw_substitution _ _ _)).
  rewrite !(init_expr_id (raw_substitution _ _ _)) by (apply has_cc_raw; assumption).
  assert (Et : raw_substitution m s p !! s_from t = init_expr m !! s_from t).
  { rewrite raw_lookup. destruct (init_expr m !! s_from s); [|reflexivity].
    rewrite HI by assumption. apply lookup_delete_ne. assumption. }
  assert (Es : raw_substitution m t p !! s_from s = init_expr m !! s_from s).
  { rewrite raw_lookup. destruct (init_expr m !! s_from t); [|reflexivity].
    rewrite HI by assumption. apply lookup_delete_ne. congruence. }
  rewrite Et, Es.
  destruct (decide (k = s_from s)) as [->|Hks]; [|destruct (decide (k = s_from t)) as [->|Hkt]].
  - rewrite (HI (s_to t)), (HI (s_to s)), !lookup_delete by assumption. rewrite (lookup_delete_ne _ (s_from t)) by congruence.
    rewrite Es. pose proof (raw_lookup p m s (s_from s)) as R. rewrite (HI (s_to s)), lookup_delete in R by assumption. rewrite R.
    destruct (init_expr m !! s_from s); destruct (init_expr m !! s_from t); reflexivity.
  - rewrite (HI (s_to t)), (HI (s_to s)), !lookup_delete by assumption. rewrite (lookup_delete_ne _ (s_from s)) by congruence.
    rewrite Et. pose proof (raw_lookup p m t (s_from t)) as R. rewrite (HI (s_to t)), lookup_delete in R by assumption. rewrite R.
    destruct (init_expr m !! s_from s); destruct (init_expr m !! s_from t); reflexivity.
  - rewrite !lookup_delete_ne by congruence. rewrite !raw_lookup. rewrite !lookup_delete_ne by congruence.
    destruct (init_expr m !! s_from s); destruct (init_expr m !! s_from t); try reflexivity;
      destruct (init_expr (s_to s) !! k); destruct (init_expr (s_to t) !! k); try reflexivity.
    cbn [default]. f_equal. apply add_swap. assumption.
Qed.

Definition apart (s t : substitution) : Prop :=
  s_from s <> 0%nat /\ s_from t <> 0%nat /\ s_from s <> s_from t /\
  s_to s !! s_from s = None /\ s_to s !! s_from t = None /\ s_to t !! s_from s = None /\ s_to t !! s_from t = None.
Lemma c_subst_commute p c s t : 0 < p -> apart s t -> c_subst (c_subst c s p) t p = c_subst (c_subst c t p) s p.
Proof.
  intros Hp (A & B & C & D & E & F & G). unfold c_subst. cbn [c_a c_b c_c]. f_equal; apply raw_commute; assumption.
Qed.

(** right-hand sides mention no eliminated signal, eliminated signals are distinct *)
Definition solved (subs : list substitution) : Prop :=
  NoDup (froms subs) /\ forall s, s ∈ subs -> s_from s <> 0%nat /\ forall t, t ∈ subs -> s_to s !! s_from t = None.
Lemma solved_perm subs subs' : subs ≡ₚ subs' -> solved subs -> solved subs'.
Proof.
  intros HP [HN HS]. split; [rewrite <- HP; assumption|]. intros s Hs. rewrite <- HP in Hs. destruct (HS s Hs) as [A B].
  split; [assumption|]. intros t Ht. apply B. rewrite HP. assumption.
Qed.
Lemma solved_tail s subs : solved (s :: subs) -> solved subs.
Proof.
  intros [HN HS]. rewrite fmap_cons, NoDup_cons in HN. split; [tauto|]. intros t Ht. destruct (HS t) as [A B]; [right; assumption|].
  split; [assumption|]. intros u Hu. apply B. right. assumption.
Qed.
Lemma part_ok_solved p forb sg cs subs rest : part_ok p forb sg cs subs rest -> solved subs.
Proof.
  intros [_ HN HS _]. split; [assumption|]. intros s Hs. destruct (HS s Hs) as (_ & A & _ & _ & K). split; [assumption|].
  intros t Ht. destruct (s_to s !! s_from t) eqn:E; [|reflexivity]. exfalso.
  destruct (HS t Ht) as (_ & Ht0 & _). destruct (K (s_from t)) as [|[_ Q]]; [eauto|contradiction|]. apply Q.
  apply elem_of_list_fmap. eauto.
Qed.
Lemma foldl_c_subst_perm p subs subs' : 0 < p -> subs ≡ₚ subs' -> solved subs ->
  forall c, foldl (fun c s => c_subst c s p) c subs = foldl (fun c s => c_subst c s p) c subs'.
Proof.
  intros Hp. induction 1 as [|s l l' HP IH|s t l|l l' l'' HP1 IH1 HP2 IH2]; intros HS c.
  - reflexivity.
  - cbn [foldl]. apply IH. eapply solved_tail. exact HS.
  - cbn [foldl]. f_equal. apply c_subst_commute; [assumption|]. destruct HS as [HN HS]. cbn in HN. rewrite !NoDup_cons in HN.
    destruct (HS s) as [A B]; [right; left|]. destruct (HS t) as [A' B']; [left|].
    destruct HN as [HN _]. unfold apart. split_and!; try assumption.
    + intros Q. apply HN. rewrite Q. left.
    + apply B'. left.
    + apply B'. right. left.
    + apply B. left.
    + apply B. right. left.
  - rewrite IH1 by assumption. apply IH2. eapply solved_perm; eassumption.
Qed.
Lemma build_encoded_perm subs subs' : subs ≡ₚ subs' -> NoDup (froms subs) -> build_encoded subs = build_encoded subs'.
Proof.
  intros HP HN. assert (HN' : NoDup (froms subs')) by (rewrite <- HP; assumption). apply map_eq. intros k.
  destruct (build_encoded subs !! k) as [e|] eqn:E.
  - destruct (build_encoded_lookup _ _ _ E) as (s & Hs & <- & ->). rewrite HP in Hs. symmetry. apply build_encoded_in; assumption.
  - symmetry. apply build_encoded_none. apply build_encoded_none in E. rewrite <- HP. assumption.
Qed.

Lemma concat_fmap_perm {A B} (f : A -> list B) l l' : l ≡ₚ l' -> concat (f <$> l) ≡ₚ concat (f <$> l').
Proof. intros HP. rewrite HP. reflexivity. Qed.

Lemma eq_arrival p forb o o' eqs n subs kept : valid_oracle o -> valid_oracle o' -> same_hashing o o' ->
  eq_simplification o eqs forb n p = Ok (subs, kept) ->
  exists subs', eq_simplification o' eqs forb n p = Ok (subs', kept) /\ subs' ≡ₚ subs.
Proof.
  intros Ho Ho' (E1 & E2 & _). unfold eq_simplification. rewrite <- E1, <- E2.
  destruct (build_clusters _ _ _) as [cls| |]; cbn [res_bind]; [|discriminate|discriminate].
  destruct (res_imap _ _ _) as [rs| |]; cbn [res_bind]; [|discriminate|discriminate].
  intros [= <- <-]. eexists. split; [reflexivity|]. apply concat_fmap_perm. apply Permutation_app; [reflexivity|].
  rewrite (vo_arrive _ Ho), (vo_arrive _ Ho'). reflexivity.
Qed.
Lemma linear_arrival fuel p forb o o' ph cs n old subs kept : valid_oracle o -> valid_oracle o' -> same_hashing o o' ->
  linear_simplification fuel o ph cs forb n p old = Ok (subs, kept) ->
  exists subs' kept', linear_simplification fuel o' ph cs forb n p old = Ok (subs', kept') /\ subs' ≡ₚ subs /\ kept' ≡ₚ kept.
Proof.
  intros Ho Ho' (E1 & E2 & E3 & E4 & E5 & E6). unfold linear_simplification. rewrite <- E1, <- E4, <- E5, <- E6.
  destruct (build_clusters _ _ _) as [cls| |]; cbn [res_bind]; [|discriminate|discriminate].
  destruct (res_imap _ _ _) as [rs| |]; cbn [res_bind]; [|discriminate|discriminate].
  intros [= <- <-]. eexists _, _. split; [reflexivity|]. split; apply concat_fmap_perm; rewrite (vo_arrive _ Ho), (vo_arrive _ Ho'); reflexivity.
Qed.

Lemma res_imap_ext {A B} (f g : nat -> A -> res B) l : forall i, (forall i a, f i a = g i a) -> res_imap f i l = res_imap g i l.
Proof. induction l as [|a l IH]; intros i H; [reflexivity|]. cbn [res_imap]. rewrite H, (IH _ H). reflexivity. Qed.
Lemma rewrite_frames_hashing o o' p i : same_hashing o o' -> forall fr ph c, rewrite_frames o ph i fr p c = rewrite_frames o' ph i fr p c.
Proof.
  intros (_ & _ & E & _). induction fr as [|enc fr IH]; intros ph c; [reflexivity|]. cbn [rewrite_frames]. rewrite E.
  destruct (fast_constraint_subst _ _ _ _) as [[c' b]| |]; [apply IH|reflexivity|reflexivity].
Qed.
Lemma obtain_hashing o o' p fr ph : same_hashing o o' -> forall l i, obtain_non_linear o ph i fr p l = obtain_non_linear o' ph i fr p l.
Proof.
  intros H. induction l as [|c l IH]; intros i; [reflexivity|]. cbn [obtain_non_linear]. rewrite (rewrite_frames_hashing _ _ _ _ H), IH. reflexivity.
Qed.

(** without linear elimination the whole result is independent of the schedule *)
Lemma simplification_schedule fuel o o' sm r : simplifier_ok sm -> valid_oracle o -> valid_oracle o' -> same_hashing o o' -> sm_flag_s sm = true ->
  simplification fuel o sm = Ok r ->
  exists r', simplification fuel o' sm = Ok r' /\ r_constraints r' = r_constraints r /\ r_map r' = r_map r /\
    r_no_private r' = r_no_private r /\ r_deleted r' = r_deleted r /\ r_log r' ≡ₚ r_log r.
Proof.
  intros Hsm Ho Ho' HH Hs E. pose proof HH as (H1 & H2 & H3 & H4 & H5 & H6).
  destruct (eq_simplification_spec (sm_field sm) (sm_forbidden sm) o (sm_equalities sm) (sm_max_signal sm)) as (eq_subs & eq_cons & E1 & [_ EN _ _] & _); [apply Hsm|assumption| | |].
  { eapply Forall_impl; [apply Hsm|]. intros c (A & B & C). split_and!; assumption. }
  { intros k Hk. apply (so_signals sm Hsm). destruct Hk as (c & Hc & Hk). exists c. split; [|assumption]. unfold original. apply elem_of_app. auto. }
  destruct (eq_arrival _ _ _ _ _ _ _ _ Ho Ho' HH E1) as (eq_subs' & E1' & EP).
  unfold simplification in *. rewrite Hs in *. cbn [negb] in *. rewrite E1 in E. rewrite E1'. cbn [res_bind] in *.
  rewrite (build_encoded_perm eq_subs' eq_subs) by (try assumption; rewrite EP; assumption).
  unfold rewrite_list in *. rewrite <- H3.
  destruct (res_imap _ 0 (sm_linear sm)) as [lin1| |]; cbn [res_bind] in *; [|discriminate|discriminate].
  destruct (res_imap _ 0 (sm_cons_equalities sm)) as [ce1| |]; cbn [res_bind] in *; [|discriminate|discriminate].
  destruct (constant_eq_simplification _ _ _) as [[ct_subs ct_cons]| |]; cbn [res_bind] in *; [|discriminate|discriminate].
  destruct (res_imap _ 0 lin1) as [lin2| |]; cbn [res_bind] in *; [|discriminate|discriminate].
  rewrite <- (obtain_hashing o o' _ _ _ HH).
  destruct (obtain_non_linear _ _ _ _ _ _) as [[nlin storage]| |]; cbn [res_bind rs_lconst rs_storage rs_map rs_linear rs_deleted rs_log] in *; [|discriminate|discriminate].
  destruct (res_imap _ 0 _) as [lc| |]; cbn [res_bind] in *; [|discriminate|discriminate].
  destruct (foldl add_to_storage _ _) as [fin m].
  destruct (_ <=? _)%nat; [|discriminate]. injection E as <-. eexists. split; [reflexivity|]. cbn.
  split; [reflexivity|]. split; [reflexivity|]. split; [reflexivity|]. split; [reflexivity|]. rewrite EP. reflexivity.
Qed.
