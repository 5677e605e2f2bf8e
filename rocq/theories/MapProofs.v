(** From the DAG to the simplifier and to the files. *)
From stdpp Require Import prelude gmap fin_maps sorting strings.
From Coq Require Import ZArith Lia Znumtheory.
From Verif Require Import ModArithModel ModArithProofs AlgebraModel AlgebraSpec AlgebraProofs LinearSimpModel LinearSpec PipelineModel PipelineSpec
  R1csModel RenumberProofs DagModel DagSpec DagProofs WalkProofs FlattenProofs.
Open Scope nat_scope.

Lemma walk_fuel kids f1 f2 x : descending kids -> i_node x < f1 -> i_node x < f2 -> walk kids f1 x = walk kids f2 x.
Proof.
  intros HD. revert f2 x. induction f1 as [|f1 IH]; intros f2 x H1 H2; [lia|]. destruct f2 as [|f2]; [lia|]. cbn [walk]. f_equal.
  assert (HK : forall e, e ∈ kids (i_node x) -> e_goes_to e < f1 /\ e_goes_to e < f2). { intros e He. apply HD in He. lia. }
  revert HK. generalize (kids (i_node x)). intros ks. generalize 0 as j. induction ks as [|e ks IHk]; intros j HK; [reflexivity|]. cbn [flat_imap]. f_equal.
  - apply IH; cbn [child i_node]; apply HK; left.
  - apply IHk. intros e' He. apply HK. right. assumption.
Qed.
Lemma walk_all d fuel : numbered d -> d_nodes d <> [] -> length (d_nodes d) <= fuel -> walk (edges_of d) fuel (root d) = all_instances d.
Proof.
  intros HU HE HF. destruct (main_node d HE) as (n & _ & _ & HL & _). apply walk_fuel; [apply numbered_descending; assumption|lia|assumption].
Qed.
(** the constraints of the circuit, instance by instance *)
Definition flat_constraints (d : dag) : list constraint := concat (inst_constraints d <$> all_instances d).
Lemma tree_steps_holder d st l :
  (ms_holder (foldl (tree_step d) st l), ms_no (foldl (tree_step d) st l)) =
  foldl (classify (d_field d)) (ms_holder st, ms_no st) (concat (inst_constraints d <$> l)).
Proof.
  revert st. induction l as [|x l IH]; intros st; [reflexivity|]. cbn [foldl]. rewrite IH, fmap_cons. cbn [concat]. rewrite foldl_app. f_equal.
  unfold tree_step. destruct (foldl _ _ (inst_constraints d x)) as [h no]. reflexivity.
Qed.
Lemma tree_steps_witness d st l : ms_witness (foldl (tree_step d) st l) = ms_witness st ++ concat (inst_signals d <$> l).
Proof.
  revert st. induction l as [|x l IH]; intros st; [cbn; rewrite app_nil_r; reflexivity|]. cbn [foldl]. rewrite IH, fmap_cons. cbn [concat].
  unfold tree_step. destruct (foldl _ _ (inst_constraints d x)) as [h no]. cbn [ms_witness]. rewrite app_assoc. reflexivity.
Qed.
Lemma tree_steps_forbidden d st l k :
  k ∈ ms_forbidden (foldl (tree_step d) st l) <-> k ∈ ms_forbidden st \/ exists x, x ∈ l /\ n_custom (node_at d (i_node x)) = true /\ k ∈ inst_signals d x.
Proof.
  revert st. induction l as [|x l IH]; intros st; cbn [foldl].
  - split; [auto|]. intros [H|(x & H & _)]; [assumption|]. apply elem_of_nil in H. contradiction.
  - rewrite IH. assert (E : k ∈ ms_forbidden (tree_step d st x) <-> k ∈ ms_forbidden st \/ (n_custom (node_at d (i_node x)) = true /\ k ∈ inst_signals d x)).
    { unfold tree_step. destruct (foldl _ _ (inst_constraints d x)) as [h no]. cbn [ms_forbidden]. destruct (n_custom (node_at d (i_node x))).
      - rewrite elem_of_union, elem_of_list_to_set. tauto.
      - split; [auto|]. intros [|[? _]]; [assumption|discriminate]. }
    rewrite E. split.
    + intros [[H|H]|(y & A & B)]; [auto|right; exists x; split; [left|assumption]|right; exists y; split; [right; assumption|assumption]].
    + intros [H|(y & A & B)]; [auto|]. apply elem_of_cons in A. destruct A as [->|A]; [auto|]. right. eauto.
Qed.
Lemma filter_fmap_offset (P : constraint -> Prop) `{forall c, Decision (P c)} (l : list constraint) (off : nat) :
  (forall c, P (c_offset c off) <-> P c) -> filter P ((fun c => c_offset c off) <$> l) = (fun c => c_offset c off) <$> filter P l.
Proof.
  intros HP. induction l as [|c l IH]; [reflexivity|]. rewrite fmap_cons, !filter_cons. destruct (decide (P c)) as [p|p].
  - rewrite decide_True by (apply HP; assumption). rewrite fmap_cons, IH. reflexivity.
  - rewrite decide_False by (rewrite HP; assumption). assumption.
Qed.
Lemma non_linear_not_empty c : is_linear c = false -> is_empty c = false.
Proof. unfold is_linear, is_empty. intros ->. reflexivity. Qed.
Lemma inst_non_linear_spec d x : filter is_non (inst_constraints d x) = inst_non_linear d x.
Proof.
  unfold inst_constraints, inst_non_linear. rewrite filter_fmap_offset by (intros c; unfold is_non; rewrite is_linear_offset; reflexivity). f_equal.
  destruct (bool_decide (i_pos x = [])); [reflexivity|]. rewrite list_filter_filter. apply list_filter_iff. intros c. unfold is_non. split; [tauto|].
  intros H. split; [assumption|]. apply non_linear_not_empty. assumption.
Qed.
Lemma filter_concat {A} (P : A -> Prop) `{forall x, Decision (P x)} (ls : list (list A)) : filter P (concat ls) = concat (filter P <$> ls).
Proof. induction ls as [|l ls IH]; [reflexivity|]. cbn [concat]. rewrite filter_app, fmap_cons, IH. reflexivity. Qed.
Lemma flat_non_linear d l : filter is_non (concat (inst_constraints d <$> l)) = concat (inst_non_linear d <$> l).
Proof.
  rewrite filter_concat, <- list_fmap_compose. f_equal. apply list_fmap_ext. intros i x _. apply inst_non_linear_spec.
Qed.
Record mapped (d : dag) (fl : flags) (sm : simplifier) (enc : encoding) : Prop := {
  mp_field : sm_field sm = d_field d;
  mp_non_linear : sm_non_linear sm = filter is_non (flat_constraints d);
  mp_constant : sm_cons_equalities sm = filter is_cons (flat_constraints d);
  mp_equalities : sm_equalities sm = filter (is_eq (d_field d)) (flat_constraints d);
  mp_linear : sm_linear sm = filter (is_lin (d_field d)) (flat_constraints d);
  mp_forbidden : forall k, k ∈ sm_forbidden sm <-> k ∈ n_forbidden (node_at d (length (d_nodes d) - 1)) \/
    exists x, instance d x /\ n_custom (node_at d (i_node x)) = true /\ k ∈ inst_signals d x;
  mp_max : sm_max_signal sm = S (total_signals d);
  mp_public_inputs : sm_no_public_inputs sm = n_public_inputs (node_at d (length (d_nodes d) - 1));
  mp_public_outputs : sm_no_public_outputs sm = n_outputs (node_at d (length (d_nodes d) - 1));
  mp_private_inputs : sm_no_private_inputs sm = private_inputs (node_at d (length (d_nodes d) - 1));
  mp_flags : sm_no_rounds sm = f_no_rounds fl /\ sm_flag_s sm = f_flag_s fl /\ sm_flag_old_heuristics sm = f_old_heuristics fl;
  mp_encodes : encodes d enc;
  mp_no : enc_no enc = length (sm_non_linear sm);
}.
Lemma map_to_simplifier_spec fuel ko d fl : valid_corr_order ko -> numbered d -> named d -> all_nodes ordered_ok d -> d_nodes d <> [] -> length (d_nodes d) <= fuel ->
  exists sm enc, map_to_simplifier fuel ko d fl = Ok (sm, enc) /\ mapped d fl sm enc.
Proof.
  intros Hko HU HN HO HE HF. unfold map_to_simplifier.
  assert (main_id d = Ok (length (d_nodes d) - 1)) as ->. { unfold main_id. destruct (d_nodes d); [contradiction|reflexivity]. } cbn [res_bind].
  destruct (main_node d HE) as (n & EL & Hn & HL & EN & ET). unfold get_main. rewrite EL. cbn [res_bind].
  destruct (tree_new_spec ko d Hko HU HN HE) as (t & -> & HT & _). cbn [res_bind].
  rewrite (map_tree_spec ko d Hko HU HN fuel t (root d) _ HT) by lia. cbn [res_bind]. rewrite (walk_all d fuel HU HE HF).
  set (st := foldl (tree_step d) (MState [0] (Holder [] [] []) (n_forbidden n) 0) (all_instances d)).
  destruct (produce_encoding_spec ko d (ms_no st) Hko HN HO) as (enc & -> & EE & ENo). cbn [res_bind].
  destruct (iterator_new_spec d enc HU EE HE) as (it & -> & HI). cbn [res_bind].
  rewrite (visit_non_linear_spec d enc HU EE fuel it (root d) HI) by lia. cbn [res_bind]. rewrite (walk_all d fuel HU HE HF).
  pose proof (tree_steps_holder d (MState [0] (Holder [] [] []) (n_forbidden n) 0) (all_instances d)) as SH. fold st in SH. cbn [ms_holder ms_no] in SH.
  rewrite classify_spec in SH. injection SH as SH1 SH2. cbn [h_linear h_equalities h_constant app Nat.add] in SH1, SH2.
  eexists _, enc. split; [reflexivity|]. constructor; cbn [sm_field sm_non_linear sm_cons_equalities sm_equalities sm_linear sm_forbidden sm_max_signal sm_no_public_inputs sm_no_public_outputs sm_no_private_inputs sm_no_rounds sm_flag_s sm_flag_old_heuristics].
  - reflexivity.
  - unfold flat_constraints. rewrite flat_non_linear. reflexivity.
  - rewrite SH1. reflexivity.
  - rewrite SH1. reflexivity.
  - rewrite SH1. reflexivity.
  - intros k. unfold st. rewrite tree_steps_forbidden. cbn [ms_forbidden]. rewrite EN.
    split; (intros [H|(x & A & B)]; [auto|]; right; exists x; split; [apply (all_instances_spec d x HU HE); assumption|assumption]).
  - unfold st. rewrite tree_steps_witness. cbn [ms_witness app length]. f_equal. rewrite (all_signals_perm d HU HN HE), seq_length. reflexivity.
  - rewrite EN. reflexivity.
  - rewrite EN. reflexivity.
  - rewrite EN. reflexivity.
  - auto.
  - assumption.
  - rewrite ENo, SH2. rewrite flat_non_linear. reflexivity.
Qed.
Lemma original_perm d fl sm enc : mapped d fl sm enc -> original sm ≡ₚ flat_constraints d.
Proof.
  intros M. unfold original. rewrite (mp_equalities _ _ _ _ M), (mp_constant _ _ _ _ M), (mp_linear _ _ _ _ M), (mp_non_linear _ _ _ _ M). apply classes_partition.
Qed.
Lemma elem_of_concat_fmap {A B} (f : A -> list B) l b : b ∈ concat (f <$> l) <-> exists x, x ∈ l /\ b ∈ f x.
Proof.
  rewrite elem_of_list_In, in_concat. split.
  - intros (y & H1 & H2). apply elem_of_list_In in H1, H2. apply elem_of_list_fmap in H1. destruct H1 as (x & -> & H1). eauto.
  - intros (x & H1 & H2). exists (f x). split; apply elem_of_list_In; [apply elem_of_list_fmap; eauto|assumption].
Qed.
Lemma elem_of_inst_constraints d x c : c ∈ inst_constraints d x -> exists c0, c0 ∈ n_constraints (node_at d (i_node x)) /\ c = c_offset c0 (i_off x).
Proof.
  unfold inst_constraints. intros H. apply elem_of_list_fmap in H. destruct H as (c0 & -> & H). exists c0. split; [|reflexivity].
  destruct (bool_decide (i_pos x = [])); [assumption|]. apply elem_of_list_filter in H. tauto.
Qed.
Lemma empty_holds p ρ c : is_empty c = true -> holds p ρ c.
Proof.
  unfold is_empty. intros H. apply andb_prop in H. destruct H as [H H3]. apply andb_prop in H. destruct H as [H1 H2].
  unfold is_empty_map in *. apply bool_decide_eq_true in H1, H2, H3. unfold holds. rewrite H1, H2, H3. reflexivity.
Qed.
Lemma inst_constraints_hold p d x ρ n : d_nodes d !! i_node x = Some n ->
  (satisfies p ρ (inst_constraints d x) <-> satisfies p (seen_by x ρ) (template_constraints d (i_node x))).
Proof.
  intros Hn. unfold satisfies, inst_constraints, template_constraints. rewrite Hn, (node_at_lookup _ _ _ Hn). rewrite Forall_fmap.
  assert (E : forall c, (holds p ρ ∘ (fun c => c_offset c (i_off x))) c <-> holds p (seen_by x ρ) c).
  { intros c. unfold compose. rewrite holds_offset. reflexivity. }
  split; intros H; apply Forall_forall; intros c Hc.
  - apply E. destruct (is_empty c) eqn:EM; [apply E; apply empty_holds; assumption|]. apply (proj1 (Forall_forall _ _) H).
    destruct (bool_decide (i_pos x = [])); [assumption|]. apply elem_of_list_filter. auto.
  - apply E. apply (proj1 (Forall_forall _ _) H). destruct (bool_decide (i_pos x = [])); [assumption|]. apply elem_of_list_filter in Hc. tauto.
Qed.
Lemma flat_constraints_hold p d ρ : numbered d -> d_nodes d <> [] -> (satisfies p ρ (flat_constraints d) <-> circuit_holds p d ρ).
Proof.
  intros HU HE. unfold flat_constraints, circuit_holds. split.
  - intros H x Hx. destruct (instance_node d x HU Hx) as (n & es & Hn & _). apply (inst_constraints_hold p d x ρ n Hn). apply Forall_forall. intros c Hc.
    apply (proj1 (Forall_forall _ _) H). apply elem_of_concat_fmap. exists x. split; [apply (all_instances_spec d x HU HE); assumption|assumption].
  - intros H. apply Forall_forall. intros c Hc. apply elem_of_concat_fmap in Hc. destruct Hc as (x & Hx & Hc). rewrite (all_instances_spec d x HU HE) in Hx.
    destruct (instance_node d x HU Hx) as (n & es & Hn & _). pose proof (proj2 (inst_constraints_hold p d x ρ n Hn) (H x Hx)) as H'.
    exact (proj1 (Forall_forall _ _) H' c Hc).
Qed.
Lemma inst_range d x n : numbered d -> instance d x -> d_nodes d !! i_node x = Some n -> i_off x + n_signals n <= total_signals d.
Proof.
  intros HU H. revert n. induction H as [m H|x es j e H IH He Hj]; intros n Hn; cbn [i_off i_node] in *.
  - unfold total_signals. rewrite H. apply last_nonempty in H. destruct H as [H _]. rewrite H in Hn. injection Hn as ->. lia.
  - destruct (lookup_lt_is_Some_2 (d_nodes d) (i_node x)) as [m Hm]. { rewrite <- (nu_length _ HU). eapply lookup_lt_Some. eassumption. }
    destruct (nn_edge _ _ _ _ (nu_node _ HU _ _ _ Hm He) e (elem_of_list_lookup_2 _ _ _ Hj)) as (A & B & t & C & D).
    rewrite Hn in C. injection C as <-. specialize (IH _ Hm). lia.
Qed.
Lemma mapped_ok p d fl sm enc : prime p -> d_field d = p -> numbered d -> named d -> compact d -> scoped d -> all_nodes (clean_ok p) d -> d_nodes d <> [] -> mapped d fl sm enc -> simplifier_ok sm.
Proof.
  intros Hp Hf HU HN HC HS HCl HE M. destruct (main_node d HE) as (n & EL & Hn & HL & EN & ET).
  destruct (lookup_lt_is_Some_2 (d_adjacency d) (i_node (root d))) as [es Hes]; [rewrite (nu_length _ HU); assumption|].
  assert (HF : forall c, c ∈ flat_constraints d -> canon_c p c /\ nonzero_c c).
  { intros c Hc. apply elem_of_concat_fmap in Hc. destruct Hc as (x & Hx & Hc). rewrite (all_instances_spec d x HU HE) in Hx.
    destruct (instance_node d x HU Hx) as (m & es' & Hm & _). apply elem_of_inst_constraints in Hc. destruct Hc as (c0 & Hc & ->).
    rewrite (node_at_lookup _ _ _ Hm) in Hc. destruct (proj1 (Forall_forall _ _) (HCl _ _ Hm) c0 Hc) as (A & B & _).
    split; [apply canon_c_offset|apply nonzero_c_offset]; assumption. }
  constructor; rewrite ?(mp_field _ _ _ _ M), ?Hf.
  - assumption.
  - apply (mp_forbidden _ _ _ _ M). left. rewrite EN. apply (nn_zero _ _ _ _ (nu_node _ HU _ _ _ Hn Hes)).
  - rewrite (mp_equalities _ _ _ _ M). apply Forall_forall. intros c Hc. apply elem_of_list_filter in Hc. destruct Hc as [[_ H] Hc]. destruct (HF c Hc).
    rewrite Hf in H. auto.
  - rewrite (mp_constant _ _ _ _ M). apply Forall_forall. intros c Hc. apply elem_of_list_filter in Hc. destruct Hc as [H Hc]. destruct (HF c Hc). auto.
  - rewrite (mp_linear _ _ _ _ M). apply Forall_forall. intros c Hc. apply elem_of_list_filter in Hc. destruct Hc as [(_ & _ & H) Hc]. destruct (HF c Hc) as [HC1 HC2].
    unfold is_linear in H. apply andb_prop in H. destruct H as [H1 H2]. unfold is_empty_map in *. apply bool_decide_eq_true in H1, H2.
    unfold lin_ok. split_and!; try assumption; [apply HC1|apply HC2].
  - rewrite (mp_non_linear _ _ _ _ M). apply Forall_forall. intros c Hc. apply elem_of_list_filter in Hc. apply HF. tauto.
  - rewrite (mp_max _ _ _ _ M). intros k (c & Hc & Hk). rewrite (original_perm _ _ _ _ M) in Hc. apply elem_of_concat_fmap in Hc. destruct Hc as (x & Hx & Hc).
    rewrite (all_instances_spec d x HU HE) in Hx. destruct (instance_node d x HU Hx) as (m & es' & Hm & _). apply elem_of_inst_constraints in Hc. destruct Hc as (c0 & Hc & ->).
    apply in_c_offset in Hk. destruct Hk as (i & Hi & ->). rewrite (node_at_lookup _ _ _ Hm) in Hc. pose proof (HS _ _ _ _ Hm Hc Hi). pose proof (inst_range d x m HU Hx Hm). lia.
  - rewrite (mp_public_inputs _ _ _ _ M), (mp_public_outputs _ _ _ _ M), EN. intros k Hk. apply (mp_forbidden _ _ _ _ M). left. rewrite EN.
    destruct (HC _ _ _ Hn Hes) as (_ & _ & HFb & _). apply HFb. lia.
Qed.
