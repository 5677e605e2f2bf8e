(** What holds of the DAG when the compiler has built it; used by PropertiesDag. *)
From stdpp Require Import prelude gmap fin_maps sorting strings.
From Coq Require Import ZArith Znumtheory Lia.
From Verif Require Import ModArithModel AlgebraModel AlgebraSpec AlgebraProofs LinearSimpModel RewriteProofs PipelineModel PipelineSpec PipelineProofs R1csModel
  DagModel DagSpec RenumberProofs DagProofs WalkProofs FlattenProofs MapProofs PortProofs NameProofs.
Open Scope nat_scope.

Record compiled_ok (p : Z) (d : dag) : Prop := {
  co_numbered : numbered d;
  co_named : named d;
  co_compact : compact d;
  co_scoped : scoped d;
  co_ordered : all_nodes ordered_ok d;
  co_clean : all_nodes (clean_ok p) d;
  co_field : d_field d = p;
  co_nonempty : d_nodes d <> [];
  co_sub : sub_named d;
}.
Lemma well_formed_clean p d0 : built_with (well_formed p) p d0 -> d_nodes d0 <> [] -> compiled_ok p (clean_constraints d0).
Proof.
  intros H HE. assert (B : built p d0) by (eapply built_with_built; exact H).
  assert (F : built_with fresh p d0) by (eapply built_with_mono; [|exact H]; intros ? ? Q; apply Q).
  constructor.
  - apply numbered_clean. eapply built_numbered. exact B.
  - apply named_clean. eapply built_named. exact F.
  - apply compact_clean. eapply built_compact. eapply built_with_mono; [|exact H]; intros ? ? Q; apply Q.
  - apply scoped_clean. eapply built_scoped. eapply built_with_mono; [|exact H]; intros ? ? Q; apply Q.
  - apply ordered_clean. eapply built_ordered. eapply built_with_mono; [|exact H]; intros ? ? Q; split; apply Q.
  - apply canon_clean. eapply built_canon. eapply built_with_mono; [|exact H]; intros ? ? Q; apply Q.
  - apply (built_field p d0 B).
  - unfold clean_constraints. cbn [d_nodes]. intros Q. apply fmap_nil_inv in Q. contradiction.
  - apply sub_named_clean. eapply built_sub_named. exact F.
Qed.
Lemma compiled_facts p d : compiled p d -> compiled_ok p d.
Proof. intros (d0 & H & HE & ->). apply well_formed_clean; assumption. Qed.

(** ** cleaning changes nothing *)
Lemma instance_clean d x : instance (clean_constraints d) x <-> instance d x.
Proof.
  assert (EL : length (d_nodes (clean_constraints d)) = length (d_nodes d)) by apply fmap_length.
  split; induction 1 as [n H|x es j e H IH He Hj].
  - rewrite EL. unfold clean_constraints in H. cbn [d_nodes] in H. rewrite fmap_last in H. apply fmap_Some in H. destruct H as (n0 & H & _). eapply inst_main. exact H.
  - econstructor; [exact IH|exact He|exact Hj].
  - rewrite <- EL. eapply inst_main. unfold clean_constraints. cbn [d_nodes]. rewrite fmap_last, H. reflexivity.
  - econstructor; [exact IH|exact He|exact Hj].
Qed.
Lemma holds_remove_zeros p ρ c : holds p ρ (c_remove_zeros c) <-> holds p ρ c.
Proof. unfold holds, c_remove_zeros. cbn [c_a c_b c_c]. rewrite !leval_remove_zeros. reflexivity. Qed.
Lemma clean_holds p d i ρ : satisfies p ρ (template_constraints (clean_constraints d) i) <-> satisfies p ρ (template_constraints d i).
Proof.
  unfold template_constraints, clean_constraints. cbn [d_nodes]. rewrite list_lookup_fmap. destruct (d_nodes d !! i) as [n|]; cbn [fmap option_fmap option_map]; [|reflexivity].
  unfold satisfies. rewrite !Forall_forall. split; intros H c Hc.
  - apply holds_remove_zeros. destruct (is_empty (c_remove_zeros c)) eqn:E; [apply empty_holds; assumption|]. apply H. apply elem_of_clean. split; [assumption|]. exists c. auto.
  - apply elem_of_clean in Hc. destruct Hc as (_ & c0 & Hc & ->). apply holds_remove_zeros. apply H. assumption.
Qed.
Lemma circuit_holds_clean p d ρ : circuit_holds p (clean_constraints d) ρ <-> circuit_holds p d ρ.
Proof. unfold circuit_holds. setoid_rewrite instance_clean. setoid_rewrite clean_holds. reflexivity. Qed.
Lemma total_clean d : total_signals (clean_constraints d) = total_signals d.
Proof. unfold total_signals, clean_constraints. cbn [d_nodes]. rewrite fmap_last. destruct (last (d_nodes d)); reflexivity. Qed.

(** ** order of the walk *)
Lemma pos_lt_app a b c : pos_lt (a ++ b) (a ++ c) <-> pos_lt b c.
Proof. induction a as [|x a IH]; cbn; [reflexivity|]. rewrite IH. split; [intros [H|[_ H]]; [lia|assumption]|auto]. Qed.
Lemma StronglySorted_app {A} (R : A -> A -> Prop) l1 l2 : StronglySorted R l1 -> StronglySorted R l2 -> (forall a b, a ∈ l1 -> b ∈ l2 -> R a b) -> StronglySorted R (l1 ++ l2).
Proof.
  induction l1 as [|a l1 IH]; intros H1 H2 H; [assumption|]. apply StronglySorted_inv in H1. destruct H1 as [H1 HF]. cbn. constructor.
  - apply IH; [assumption..|]. intros x y Hx Hy. apply H; [right; assumption|assumption].
  - apply Forall_app. split; [assumption|]. apply Forall_forall. intros y Hy. apply H; [left|assumption].
Qed.
Lemma walk_pos_sorted kids fuel : forall x, StronglySorted pos_lt (i_pos <$> walk kids fuel x).
Proof.
  induction fuel as [|fuel IH]; intros x; [constructor|]. cbn [walk]. rewrite fmap_cons. constructor.
  - generalize (kids (i_node x)). intros es. generalize 0. induction es as [|e es IHe]; intros j; cbn [flat_imap]; [constructor|].
    rewrite fmap_app. apply StronglySorted_app; [apply IH|apply IHe|]. intros a b Ha Hb. apply elem_of_list_fmap in Ha, Hb.
    destruct Ha as (y & -> & Hy), Hb as (z & -> & Hz). apply elem_of_flat_imap in Hz. destruct Hz as (i & e' & _ & Hz).
    apply walk_below, below_pos in Hy, Hz. destruct Hy as [l ->], Hz as [l' ->]. cbn [child i_pos]. rewrite <- !app_assoc. apply pos_lt_app. cbn. left. lia.
  - apply Forall_forall. intros a Ha. apply elem_of_list_fmap in Ha. destruct Ha as (y & -> & Hy). apply elem_of_flat_imap in Hy. destruct Hy as (i & e & _ & Hy).
    apply walk_below, below_pos in Hy. destruct Hy as [l ->]. cbn [child i_pos]. rewrite <- app_assoc. rewrite <- (app_nil_r (i_pos x)) at 1. apply pos_lt_app. exact I.
Qed.
Lemma all_instances_enumerates d : numbered d -> d_nodes d <> [] -> enumerates (instance d) (all_instances d).
Proof. intros HU HE. constructor; [intros x; apply all_instances_spec; assumption|apply walk_pos_sorted]. Qed.
Lemma pos_lt_irrefl a : ~ pos_lt a a.
Proof. induction a as [|x a IH]; cbn; [auto|]. intros [H|[_ H]]; [lia|auto]. Qed.

(** ** shifted constraints *)
Lemma raw_offset_shifted m off : shifted_lin off m (raw_offset m off).
Proof.
  pose proof (raw_offset_renamed m off) as R. unfold renamed in R. assert (X : forall k k', shift off k = k' -> raw_offset m off !! k' = m !! k).
  { intros k k' <-. apply option_eq. intros v. rewrite R. split.
    - intros (k2 & E & H). injection E as E. apply shift_inj in E. subst. assumption.
    - intros H. eauto. }
  unfold shifted_lin. split_and!.
  - apply X. reflexivity.
  - intros k Hk. apply X. unfold shift, cc. destruct (Nat.eqb_spec k 0); [contradiction|reflexivity].
  - intros k Hk. destruct (raw_offset m off !! k) as [v|] eqn:E; [|reflexivity]. apply R in E. destruct E as (k2 & E & _). injection E as E. unfold shift, cc in E. destruct (Nat.eqb_spec k2 0); lia.
Qed.
Lemma c_offset_shifted c off : shifted off c (c_offset c off).
Proof. unfold shifted, c_offset. cbn [c_a c_b c_c]. split_and!; apply raw_offset_shifted. Qed.
Lemma flat_flattens p d : all_nodes (clean_ok p) d -> numbered d -> d_nodes d <> [] -> flattens d (all_instances d) (flat_constraints d).
Proof.
  intros HC HU HE. exists (inst_constraints d <$> all_instances d). split; [reflexivity|]. apply Forall2_fmap_r, Forall_Forall2_diag, Forall_forall. intros x Hx.
  rewrite (all_instances_spec d x HU HE) in Hx. destruct (instance_node d x HU Hx) as (n & es & Hn & _). unfold compose, inst_constraints, template_constraints. rewrite Hn, (node_at_lookup _ _ _ Hn).
  assert (E : (if bool_decide (i_pos x = []) then n_constraints n else filter (fun c => is_empty c = false) (n_constraints n)) = n_constraints n).
  { destruct (bool_decide (i_pos x = [])); [reflexivity|]. pose proof (proj1 (Forall_forall _ _) (HC _ _ Hn)) as HF. clear -HF. induction (n_constraints n) as [|c l IH]; [reflexivity|].
    rewrite filter_cons_True by (apply (HF c); left). rewrite IH; [reflexivity|]. intros c' Hc'. apply HF. right. assumption. }
  rewrite E. apply Forall2_fmap_r, Forall_Forall2_diag, Forall_forall. intros c _. apply c_offset_shifted.
Qed.

(** ** shapes *)
Lemma map_size_1_inv (m : lin) : size m = 1 -> exists k v, m = {[ k := v ]}.
Proof.
  intros H. destruct (decide (m = ∅)) as [->|HE]; [rewrite map_size_empty in H; discriminate|]. apply map_choose in HE. destruct HE as (k & v & Hk). exists k, v.
  assert (E : delete k m = ∅). { apply map_size_empty_inv. rewrite map_size_delete, Hk, H. reflexivity. }
  rewrite <- (insert_delete m k v Hk), E. reflexivity.
Qed.
Lemma cons_shape p c : canon_c p c -> nonzero_c c -> is_cons c -> shape_constant c.
Proof.
  unfold is_cons, is_constant_equality. intros _ _ H. rewrite !andb_true_iff, !is_empty_map_true in H. destruct H as [[Ha Hb] H]. split; [assumption|]. split; [assumption|].
  unfold cc in H. destruct (c_c c !! 0) as [w|] eqn:E0.
  - apply Nat.eqb_eq in H. assert (S1 : size (delete 0 (c_c c)) = 1) by (rewrite map_size_delete, E0, H; reflexivity).
    apply map_size_1_inv in S1. destruct S1 as (k & v & S1). exists k, v. assert (Hk : k <> 0). { intros ->. pose proof (lookup_delete (c_c c) 0) as Q. rewrite S1, lookup_singleton in Q. discriminate. }
    split; [assumption|]. right. exists w. rewrite <- (insert_delete (c_c c) 0 w E0), S1. apply insert_commute. auto.
  - apply Nat.eqb_eq in H. apply map_size_1_inv in H. destruct H as (k & v & H). exists k, v. split; [|left; assumption]. intros ->. rewrite H, lookup_singleton in E0. discriminate.
Qed.
Lemma eq_shape p c : (0 < p)%Z -> canon_c p c -> is_eq p c -> shape_equality p c.
Proof. intros Hp Hc [_ H]. apply is_equality_spec in H; [|assumption|assumption]. exact H. Qed.
Lemma lin_shape p c : is_lin p c -> shape_linear c.
Proof. intros (_ & _ & H). unfold is_linear in H. rewrite andb_true_iff, !is_empty_map_true in H. exact H. Qed.
Lemma non_shape c : is_non c -> shape_product c.
Proof.
  unfold is_non, is_linear. intros H. apply andb_false_iff in H. unfold is_empty_map in H. rewrite !bool_decide_eq_false in H. exact H.
Qed.
Lemma flat_ok p d c : compiled_ok p d -> c ∈ flat_constraints d -> canon_c p c /\ nonzero_c c.
Proof.
  intros K Hc. apply elem_of_concat_fmap in Hc. destruct Hc as (x & Hx & Hc). rewrite (all_instances_spec d x (co_numbered _ _ K) (co_nonempty _ _ K)) in Hx.
  destruct (instance_node d x (co_numbered _ _ K) Hx) as (m & es' & Hm & _). apply elem_of_inst_constraints in Hc. destruct Hc as (c0 & Hc & ->).
  rewrite (node_at_lookup _ _ _ Hm) in Hc. destruct (proj1 (Forall_forall _ _) (co_clean _ _ K _ _ Hm) c0 Hc) as (A & B & _).
  split; [apply canon_c_offset|apply nonzero_c_offset]; assumption.
Qed.

(** ** the constraint list *)
Record list_of (p : Z) (d : dag) (fl : flags) (sm : simplifier) (r : simplification_result) (l : constraint_list) : Prop := {
  lo_mapped : mapped d fl sm (cl_encoding l);
  lo_ok : simplifier_ok sm;
  lo_result : result_ok sm r;
  lo_field : cl_field l = p;
  lo_outputs : cl_no_public_outputs l = sm_no_public_outputs sm;
  lo_public : cl_no_public_inputs l = sm_no_public_inputs sm;
  lo_private : cl_no_private_inputs l = sm_no_private_inputs sm;
  lo_labels : cl_no_labels l = S (total_signals d);
  lo_constraints : cl_constraints l = r_constraints r;
  lo_map : cl_map l = r_map r;
  lo_wires : wire_map (r_map r);
  lo_protected : forall k, k ∈ sm_forbidden sm -> k <= total_signals d -> is_Some (r_map r !! k);
  lo_keep : forall k, k <= cl_no_public_outputs l + cl_no_public_inputs l -> r_map r !! k = Some k;
  lo_range : forall k v, r_map r !! k = Some v -> k <= total_signals d;
}.

Lemma map_to_list_spec p d fl fuel steps ko o : compiled_ok p d -> prime p -> valid_corr_order ko -> valid_oracle o ->
  length (d_nodes d) <= fuel -> enough (S (total_signals d)) steps ->
  exists sm r l, map_to_list_ fuel steps ko o d fl = Ok l /\ simplification steps o sm = Ok r /\ list_of p d fl sm r l.
Proof.
  intros K Hp Hko Ho HF HS. destruct K as [HU HN HC HSc HO HCl Hf HE HSN] eqn:EK.
  destruct (map_to_simplifier_spec fuel ko d fl Hko HU HN HO HE HF) as (sm & enc & E & M).
  pose proof (mapped_ok p d fl sm enc Hp Hf HU HN HC HSc HCl HE M) as OK. rewrite <- (mp_max _ _ _ _ M) in HS.
  destruct (simplification_spec steps o sm OK Ho HS) as (r & ER & R). destruct (main_node d HE) as (n & EL & Hn & HL & EN & ET).
  destruct (lookup_lt_is_Some_2 (d_adjacency d) (i_node (root d))) as [es Hes]; [rewrite (nu_length _ HU); assumption|].
  exists sm, r, (ConstraintList (sm_field sm) enc (sm_no_public_outputs sm) (sm_no_public_inputs sm) (sm_no_private_inputs sm) (r_no_private r) (sm_max_signal sm) (r_constraints r) (r_map r)).
  split; [unfold map_to_list_; rewrite E; cbn [res_bind]; rewrite ER; reflexivity|]. split; [assumption|].
  destruct (ro_map _ _ R) as (deleted & used & HD & WM).
  destruct (renumber_facts deleted (sm_forbidden sm) used (sm_max_signal sm) (r_map r) WM) as (_ & A & B).
  assert (FD : forall k, k ∈ sm_forbidden sm -> k ∉ deleted).
  { intros k Hk Q. apply HD in Q. apply elem_of_list_fmap in Q. destruct Q as (s & -> & Hs). apply (ro_froms _ _ R) in Hs. tauto. }
  assert (PR : forall k, k ∈ sm_forbidden sm -> k <= total_signals d -> is_Some (r_map r !! k)).
  { intros k Hk Hr. eexists. apply WM. split; [|reflexivity]. rewrite (mp_max _ _ _ _ M). split; [|lia]. split; [apply FD; assumption|auto]. }
  assert (KP : forall k, k <= sm_no_public_outputs sm + sm_no_public_inputs sm -> r_map r !! k = Some k).
  { rewrite (mp_public_inputs _ _ _ _ M), (mp_public_outputs _ _ _ _ M), EN. intros k Hk.
    destruct (HC _ _ _ Hn Hes) as (HLc & _ & HFb & _). pose proof (nu_node _ HU _ _ _ Hn Hes) as NN. destruct (nn_kinds _ _ _ _ NN) as [NK1 NK2]. pose proof (nn_count _ _ _ _ NN).
    assert (Hkeep : forall j, j <= k -> keeps deleted (sm_forbidden sm) used j).
    { intros j Hj. assert (Q : j ∈ sm_forbidden sm) by (apply (mp_forbidden _ _ _ _ M); left; rewrite EN; apply HFb; lia). split; [apply FD; assumption|auto]. }
    apply WM. split; [split; [apply Hkeep; lia|rewrite (mp_max _ _ _ _ M), ET; lia]|]. symmetry. clear -Hkeep. induction k as [|k IH]; [reflexivity|].
    rewrite kept_upto_S, decide_True by (apply Hkeep; lia). rewrite app_length, IH by (intros j Hj; apply Hkeep; lia). cbn. lia. }
  constructor; cbn [cl_encoding cl_field cl_no_public_outputs cl_no_public_inputs cl_no_private_inputs cl_no_labels cl_constraints cl_map]; try assumption; try reflexivity.
  - rewrite (mp_field _ _ _ _ M). assumption.
  - apply (mp_max _ _ _ _ M).
  - constructor; [apply KP; lia|assumption|assumption].
  - intros k v H. apply WM in H. destruct H as [[_ H] _]. rewrite (mp_max _ _ _ _ M) in H. lia.
Qed.

(** ** custom gates *)
Lemma visited_below d x : numbered d -> visited d x -> below (pruned d) (root d) x /\ instance d x.
Proof.
  intros HU. induction 1 as [n H|x n es j e H [IH1 IH2] Hn Hc He Hj].
  - split; [constructor|eapply inst_main; eassumption].
  - split; [|econstructor; eassumption]. change (Inst (i_pos x ++ [j]) (e_goes_to e) (i_off x + e_in e) (dotted (i_path x) (e_label e))) with (child x j e).
    econstructor; [exact IH1|]. unfold pruned. rewrite (node_at_lookup _ _ _ Hn), Hc. unfold edges_of. rewrite He. exact Hj.
Qed.
Lemma below_visited d x : numbered d -> d_nodes d <> [] -> below (pruned d) (root d) x -> visited d x.
Proof.
  intros HU HE. induction 1 as [|x j e H IH Hj].
  - destruct (main_node d HE) as (n & HL & _). eapply vis_main. exact HL.
  - destruct (visited_below d x HU IH) as [_ HI]. destruct (instance_node d x HU HI) as (n & es & Hn & Hes).
    unfold pruned in Hj. rewrite (node_at_lookup _ _ _ Hn) in Hj. destruct (n_custom n) eqn:EC; [rewrite lookup_nil in Hj; discriminate|].
    unfold edges_of in Hj. rewrite Hes in Hj. eapply vis_sub; [exact IH|exact Hn|exact EC|exact Hes|exact Hj].
Qed.
Lemma gates_enumerates d : numbered d -> d_nodes d <> [] -> enumerates (gate_instance d) (gates d).
Proof.
  intros HU HE. destruct (main_node d HE) as (n0 & _ & _ & HL & _). constructor.
  - intros x. unfold gates. rewrite elem_of_list_filter. unfold gate_instance, is_gate, visited_instances. split.
    + intros [H1 H2]. apply walk_below in H2. pose proof (below_visited d x HU HE H2) as V. split; [assumption|].
      destruct (visited_below d x HU V) as [_ HI]. destruct (instance_node d x HU HI) as (n & es & Hn & Hes). rewrite (node_at_lookup _ _ _ Hn) in H1. eauto.
    + intros [V (n & Hn & Hc)]. split; [rewrite (node_at_lookup _ _ _ Hn); assumption|]. apply below_walk; [apply pruned_descending; assumption|assumption|]. apply visited_below; assumption.
  - unfold gates. pose proof (walk_pos_sorted (pruned d) (length (d_nodes d)) (root d)) as S. fold (visited_instances d) in S. revert S. generalize (visited_instances d). intros l.
    induction l as [|x l IH]; intros S; [constructor|]. rewrite fmap_cons in S. apply StronglySorted_inv in S. destruct S as [S SF]. destruct (decide (is_gate d x)).
    + rewrite filter_cons_True by assumption. rewrite fmap_cons. constructor; [apply IH; assumption|]. apply Forall_fmap, Forall_forall. intros y Hy. apply elem_of_list_filter in Hy.
      apply (proj1 (Forall_forall _ _) SF). apply elem_of_list_fmap. exists y. tauto.
    + rewrite filter_cons_False by assumption. apply IH. assumption.
Qed.
Lemma pop_parenthesis_spec r : parenthesis ∈ r -> exists front back, pop_parenthesis r = Ok front /\ r = back ++ [parenthesis] ++ front /\ parenthesis ∉ back.
Proof.
  induction r as [|c r IH]; intros H; [apply elem_of_nil in H; contradiction|]. cbn [pop_parenthesis]. fold parenthesis. destruct (Ascii.eqb_spec c parenthesis) as [->|Hc].
  - exists r, []. split_and!; [reflexivity|reflexivity|apply not_elem_of_nil].
  - apply elem_of_cons in H. destruct H as [H|H]; [congruence|]. destruct (IH H) as (f & b & -> & -> & Hb). exists f, (c :: b). split_and!; [reflexivity|reflexivity|]. apply not_elem_of_cons. auto.
Qed.
Lemma gate_name_spec s : has_parenthesis s -> exists name, gate_name s = Ok name /\ gate_named s name.
Proof.
  unfold has_parenthesis, gate_name. intros H. destruct (pop_parenthesis_spec (reverse (String.list_ascii_of_string s))) as (f & b & -> & E & Hb); [rewrite elem_of_reverse; assumption|].
  eexists. split; [reflexivity|]. exists (reverse f), (reverse b). split_and!; [|rewrite elem_of_reverse; assumption|reflexivity].
  rewrite <- (reverse_involutive (String.list_ascii_of_string s)), E, !reverse_app, reverse_singleton, app_assoc. reflexivity.
Qed.
Lemma gate_named_fun s n n' : gate_named s n -> gate_named s n' -> n = n'.
Proof.
  intros (f & b & E & Hb & ->) (f' & b' & E' & Hb' & ->). f_equal. rewrite E in E'. clear E. revert f' E'. induction f as [|c f IH]; intros f' E'; destruct f' as [|c' f'].
  - reflexivity.
  - cbn in E'. injection E' as _ E. exfalso. apply Hb. rewrite E. apply elem_of_app. right. left.
  - cbn in E'. injection E' as _ E. exfalso. apply Hb'. rewrite <- E. apply elem_of_app. right. left.
  - cbn in E'. injection E' as -> E. f_equal. apply IH. exact E.
Qed.

Lemma filter_fmap' {A B} (f : A -> B) (P : B -> Prop) `{PD : !forall x, Decision (P x)} (Q : A -> Prop) `{QD : !forall x, Decision (Q x)} (l : list A) :
  (forall x, P (f x) <-> Q x) -> filter P (f <$> l) = f <$> filter Q l.
Proof.
  intros HPQ. induction l as [|a l IH]; [reflexivity|]. rewrite fmap_cons. destruct (decide (Q a)).
  - rewrite (filter_cons_True P) by (apply HPQ; assumption). rewrite (filter_cons_True Q) by assumption. rewrite fmap_cons, IH. reflexivity.
  - rewrite (filter_cons_False P) by (rewrite HPQ; assumption). rewrite (filter_cons_False Q) by assumption. assumption.
Qed.
Lemma gates_ok d (ns : list (bool * string * list Z)) : ns = (fun n => (n_custom n, n_template n, n_parameters n)) <$> d_nodes d ->
  (forall n, n ∈ custom_nodes d -> has_parenthesis (n_template n)) ->
  exists used order, gate_usage ns = Ok (used, order) /\ order = n_template <$> custom_nodes d /\ gate_table d used.
Proof.
  intros -> HP. unfold gate_usage.
  destruct (gate_usage_spec ((fun n => (n_custom n, n_template n, n_parameters n)) <$> d_nodes d) ([], [])) as (used & E & HF).
  - intros b s ps H ->. apply elem_of_list_fmap in H. destruct H as (n & E & Hn). injection E as E1 -> ->. destruct (gate_name_spec (n_template n)) as (r & Hr & _); [|eauto].
    apply HP. apply elem_of_list_filter. auto.
  - rewrite E. cbn [fst snd app].
    rewrite (filter_fmap' (fun n => (n_custom n, n_template n, n_parameters n)) (fun x => x.1.1 = true) (fun n => n_custom n = true)) in HF |- * by reflexivity.
    fold (custom_nodes d) in HF |- *. eexists used, _. split; [reflexivity|]. split; [rewrite <- list_fmap_compose; reflexivity|].
    unfold gate_table. apply Forall2_fmap_l in HF. eapply Forall2_impl; [exact HF|]. intros n u [H1 H2]. cbn in H1, H2. split; [|assumption].
    destruct (gate_name_spec (n_template n)) as (r & Hr & Hn).
    + unfold has_parenthesis. unfold gate_name in H1. destruct (pop_parenthesis (reverse (String.list_ascii_of_string (n_template n)))) eqn:EP; try discriminate.
      rewrite <- elem_of_reverse. clear -EP. revert EP. generalize (reverse (String.list_ascii_of_string (n_template n))). intros l. induction l as [|c l IH]; cbn [pop_parenthesis]; [discriminate|].
      destruct (Ascii.eqb_spec c (Ascii.ascii_of_nat 40)) as [->|]; intros H; [left|right; apply IH; assumption].
    + rewrite H1 in Hr. injection Hr as <-. exact Hn.
Qed.
Lemma applied_ok d (wire : nat -> option nat) : numbered d -> d_nodes d <> [] -> all_nodes ordered_ok d ->
  (forall x k, instance d x -> is_gate d x -> k ∈ gate_signals d x -> is_Some (wire k)) ->
  exists applied, find_indexes (n_template <$> custom_nodes d)
     ((fun x => (n_template (node_at d (i_node x)), (fun k => default 0 (wire k)) <$> gate_signals d x)) <$> gates d) = Ok applied /\
    Forall2 (gate_applied d (fun k w => wire k = Some w)) (gates d) applied.
Proof.
  intros HU HE HO HW. unfold find_indexes.
  assert (HG : forall x, x ∈ gates d -> exists n, d_nodes d !! i_node x = Some n /\ n_custom n = true /\ instance d x).
  { intros x Hx. apply (en_all _ _ (gates_enumerates d HU HE)) in Hx. destruct Hx as [V (n & Hn & Hc)]. exists n. split_and!; [assumption|assumption|]. eapply visited_below; eassumption. }
  destruct (find_indexes_spec (n_template <$> custom_nodes d) ((fun x => (n_template (node_at d (i_node x)), (fun k => default 0 (wire k)) <$> gate_signals d x)) <$> gates d) []) as (applied & E & HF).
  - intros name l H. apply elem_of_list_fmap in H. destruct H as (x & H & Hx). injection H as -> _. destruct (HG x Hx) as (n & Hn & Hc & _). rewrite (node_at_lookup _ _ _ Hn).
    apply elem_of_list_fmap. exists n. split; [reflexivity|]. apply elem_of_list_filter. split; [assumption|]. eapply elem_of_list_lookup_2. eassumption.
  - exists applied. split; [exact E|]. apply Forall2_fmap_l in HF. apply Forall2_same_length_lookup_2; [eapply Forall2_length; exact HF|]. intros k x a Hx Ha.
    pose proof (Forall2_lookup_lr _ _ _ _ _ _ HF Hx Ha) as H. cbn in H. destruct H as (i & -> & H1 & H2). pose proof (elem_of_list_lookup_2 _ _ _ Hx) as HxG. destruct (HG x HxG) as (n & Hn & Hc & HI).
    assert (IG : is_gate d x) by (unfold is_gate; rewrite (node_at_lookup _ _ _ Hn); assumption).
    rewrite (node_at_lookup _ _ _ Hn) in H1, H2. exists n, i. split_and!.
    + assumption.
    + reflexivity.
    + rewrite list_lookup_fmap in H1. apply fmap_Some in H1. destruct H1 as (m & H1 & ->). eauto.
    + intros j m Hj Hm Q. apply (H2 j Hj). rewrite list_lookup_fmap, Hm. cbn. f_equal. assumption.
    + cbn [snd]. specialize (HW x). unfold gate_signals in HW |- *. rewrite (node_at_lookup _ _ _ Hn) in HW |- *. rewrite <- !list_fmap_compose. apply Forall2_fmap_r, Forall_Forall2_diag, Forall_forall. intros s Hs.
      destruct (HO _ _ Hn s Hs) as (id & Hid & _). destruct (HW (global x id) HI IG) as [w Hw]; [apply elem_of_list_fmap; exists s; rewrite Hid; auto|].
      exists id, w. unfold compose. rewrite Hid. change (default 0 (Some id)) with id. rewrite Hw. auto.
Qed.

Definition gates_written (d : dag) (wire : nat -> option nat) (custom : bool) (g : option (list (list Z * list Z) * list (Z * list Z))) : Prop :=
  if custom then exists used applied, g = Some (used, applied) /\ gate_table d used /\ Forall2 (gate_applied d (fun k w => wire k = Some w)) (gates d) applied else g = None.
Definition triple (c : constraint) : r1cs_row := (c_a c, c_b c, c_c c).
Lemma row_triple c : row (triple c) = c.
Proof. destruct c. reflexivity. Qed.
Lemma dag_r1cs_spec p d fuel ko custom : compiled_ok p d -> valid_corr_order ko -> length (d_nodes d) <= fuel ->
  (custom = true -> forall n, n ∈ custom_nodes d -> has_parenthesis (n_template n)) ->
  exists main g, last (d_nodes d) = Some main /\ dag_r1cs fuel ko d custom = Ok (R1csInput
      (HeaderData p (Z.of_nat (S (total_signals d))) (Z.of_nat (n_outputs main)) (Z.of_nat (n_public_inputs main)) (Z.of_nat (private_inputs main))
         (Z.of_nat (S (total_signals d))) (Z.of_nat (length (flat_constraints d))))
      (triple <$> flat_constraints d) (Z.of_nat <$> seq 0 (S (total_signals d))) g) /\ gates_written d Some custom g.
Proof.
  intros K Hko HF HP. destruct K as [HU HN HC HSc HO HCl Hf HE HSN]. destruct (main_node d HE) as (n & EL & Hn & HL & EN & ET). exists n.
  destruct (tree_new_spec ko d Hko HU HN HE) as (t & Et & HT & _). unfold dag_r1cs. rewrite Et. cbn [res_bind]. unfold get_main. rewrite EL. cbn [res_bind].
  rewrite (write_constraint_spec ko d Hko HU HN fuel t (root d) HT) by lia. cbn [res_bind]. rewrite (walk_all d fuel HU HE HF). fold (flat_constraints d).
  rewrite (all_signals_seq d HU HN HC HE), seq_length, Nat.add_1_r, Hf. destruct custom.
  - destruct (gates_ok d _ eq_refl (HP eq_refl)) as (used & order & -> & -> & GT). cbn [res_bind].
    rewrite (traverse_tree_spec d HU HO ko t HN HE Hko HT fuel HF). cbn [res_bind].
    destruct (applied_ok d Some HU HE HO) as (applied & EA & HA); [intros; eauto|].
    assert (EG : forall x, (fun k : nat => default 0 (Some k)) <$> gate_signals d x = gate_signals d x) by (intros x; apply list_fmap_id).
    replace ((fun x => (n_template (node_at d (i_node x)), gate_signals d x)) <$> gates d) with ((fun x => (n_template (node_at d (i_node x)), (fun k : nat => default 0 (Some k)) <$> gate_signals d x)) <$> gates d)
      by (apply list_fmap_ext; intros; rewrite EG; reflexivity).
    rewrite EA. cbn [res_bind]. eexists. split; [reflexivity|]. split; [reflexivity|]. exists used, applied. auto.
  - exists None. split; [reflexivity|]. split; reflexivity.
Qed.
Lemma res_imap_Forall2 {A B} (f : A -> res B) (R : A -> B -> Prop) l : (forall a, a ∈ l -> exists b, f a = Ok b /\ R a b) -> forall k, exists l', res_imap (fun _ => f) k l = Ok l' /\ Forall2 R l l'.
Proof.
  induction l as [|a l IH]; intros H k; [exists []; split; [reflexivity|constructor]|]. destruct (H a (elem_of_list_here _ _)) as (b & E & HR).
  destruct (IH (fun a' Ha => H a' (elem_of_list_further _ _ _ Ha)) (S k)) as (l' & E' & HF). exists (b :: l'). split; [|constructor; assumption]. cbn [res_imap]. rewrite E. cbn [res_bind]. rewrite E'. reflexivity.
Qed.
Definition renumbered (p : Z) (m : gmap nat nat) (c c' : constraint) : Prop :=
  canon_c p c' /\ (forall k', in_c k' c' <-> exists k, in_c k c /\ m !! k = Some k') /\
  (forall ρ ρ', (forall k k', in_c k c -> m !! k = Some k' -> ρ' k' = ρ k) -> (holds p ρ' c' <-> holds p ρ c)) /\ is_empty c' = is_empty c.
Lemma port_r1cs_spec p d fl sm r l fuel mo custom : compiled_ok p d -> list_of p d fl sm r l -> (forall m : gmap nat nat, mo m ≡ₚ map_to_list m) -> length (d_nodes d) <= fuel ->
  (custom = true -> forall n, n ∈ custom_nodes d -> has_parenthesis (n_template n)) ->
  exists main cs ws g, last (d_nodes d) = Some main /\ port_r1cs fuel mo l custom = Ok (R1csInput
      (HeaderData p (Z.of_nat (length ws)) (Z.of_nat (n_outputs main)) (Z.of_nat (n_public_inputs main)) (Z.of_nat (private_inputs main))
         (Z.of_nat (S (total_signals d))) (Z.of_nat (length cs)))
      (triple <$> cs) (Z.of_nat <$> ws) g) /\
    Forall2 (renumbered p (r_map r)) (r_constraints r) cs /\ length ws = size (r_map r) /\ (forall v k, ws !! v = Some k <-> r_map r !! k = Some v) /\
    gates_written d (fun k => r_map r !! k) custom g.
Proof.
  intros K L Hmo HF HP. destruct K as [HU HN HC HSc HO HCl Hf HE HSN]. destruct (main_node d HE) as (n & EL & Hn & HL & EN & ET).
  pose proof (lo_mapped _ _ _ _ _ _ L) as M. pose proof (lo_result _ _ _ _ _ _ L) as R. pose proof (lo_wires _ _ _ _ _ _ L) as W.
  assert (Hp : sm_field sm = p) by (rewrite (mp_field _ _ _ _ M); assumption).
  unfold port_r1cs. rewrite (lo_map _ _ _ _ _ _ L), (lo_constraints _ _ _ _ _ _ L).
  destruct (res_imap_Forall2 (fun c => c_correspondence c (r_map r)) (renumbered p (r_map r)) (r_constraints r)) with (k := 0) as (cs & Ecs & Hcs).
  { intros c Hc. destruct (c_correspondence_spec p (r_map r) c W) as (c' & E1 & E2).
    - intros k Hk. apply (ro_used _ _ R). exists c. auto.
    - rewrite <- Hp. destruct (ro_good _ _ R c Hc) as [[Q _] _]. exact Q.
    - exists c'. split; [assumption|exact E2]. }
  rewrite Ecs. cbn [res_bind]. destruct (witness_vec_spec mo (r_map r) Hmo W) as (ws & Ews & Lws & Hws). rewrite Ews. cbn [res_bind].
  rewrite (lo_field _ _ _ _ _ _ L), (lo_outputs _ _ _ _ _ _ L), (lo_public _ _ _ _ _ _ L), (lo_private _ _ _ _ _ _ L), (lo_labels _ _ _ _ _ _ L).
  rewrite (mp_public_inputs _ _ _ _ M), (mp_public_outputs _ _ _ _ M), (mp_private_inputs _ _ _ _ M), EN.
  exists n, cs, ws. rewrite <- Lws. destruct custom.
  - pose proof (mp_encodes _ _ _ _ M) as EC.
    assert (EN' : (fun n => (en_custom n, en_name n, en_parameters n)) <$> enc_nodes (cl_encoding l) = (fun n => (n_custom n, n_template n, n_parameters n)) <$> d_nodes d).
    { apply list_eq. intros i. rewrite !list_lookup_fmap. destruct (d_nodes d !! i) as [m|] eqn:Hi.
      - destruct (ec_node _ _ EC i m Hi) as (en & -> & (_ & A & B & _ & _ & _ & C)). cbn. rewrite A, B, C. reflexivity.
      - apply lookup_ge_None in Hi. rewrite <- (ec_length _ _ EC) in Hi. apply lookup_ge_None in Hi. rewrite Hi. reflexivity. }
    destruct (gates_ok d _ EN' (HP eq_refl)) as (used & order & -> & -> & GT). cbn [res_bind].
    destruct (iterator_new_spec d (cl_encoding l) HU EC HE) as (it & -> & HI). cbn [res_bind].
    assert (HW : forall x k, instance d x -> is_gate d x -> k ∈ gate_signals d x -> is_Some (r_map r !! k)).
    { intros x k Hx HG Hk. destruct (instance_node d x HU Hx) as (m & es & Hm & Hes). destruct (gate_signal_local d HO x m k Hm Hk) as (id & Hid & ->).
      apply (lo_protected _ _ _ _ _ _ L).
      - apply (mp_forbidden _ _ _ _ M). right. exists x. split; [assumption|]. split; [assumption|]. apply (elem_of_inst_signals d x _ m HN Hm). eauto.
      - pose proof (inst_range d x m HU Hx Hm). pose proof (nn_local _ _ _ _ (nu_node _ HU _ _ _ Hm Hes) _ Hid). unfold global. lia. }
    rewrite (iterate_gates_spec d HU (cl_encoding l) (r_map r) it HE EC HI HW fuel HF). cbn [res_bind].
    destruct (applied_ok d (fun k => r_map r !! k) HU HE HO HW) as (applied & -> & HA). cbn [res_bind].
    eexists. split; [assumption|]. split; [reflexivity|]. split_and!; try assumption; try reflexivity. exists used, applied. auto.
  - exists None. split; [assumption|]. split; [reflexivity|]. split_and!; try assumption; try reflexivity.
Qed.

(** ** shapes and offsets *)
Lemma raw_offset_at m off k : raw_offset m off !! shift off k = m !! k.
Proof.
  destruct (raw_offset_shifted m off) as (A & B & _). unfold shift, cc. destruct (Nat.eqb_spec k 0) as [->|H]; [assumption|apply B; assumption].
Qed.
Lemma raw_offset_key m off x v : raw_offset m off !! x = Some v -> x <> 0 -> exists k, k <> 0 /\ x = k + off.
Proof.
  intros H Hx. destruct (raw_offset_shifted m off) as (_ & _ & C). destruct (decide (x <= off)); [rewrite C in H by lia; discriminate|]. exists (x - off). lia.
Qed.
Lemma shift_pos off k : k <> 0 -> shift off k = k + off.
Proof. unfold shift, cc. destruct (Nat.eqb_spec k 0); [contradiction|reflexivity]. Qed.
Lemma shape_equality_offset p c off : shape_equality p (c_offset c off) -> shape_equality p c.
Proof.
  intros (A & B & x & y & v & w & Hx & Hy & Hxy & E & Hs). cbn [c_offset c_a c_b c_c] in *.
  assert (Ha : c_a c = ∅). { apply (proj1 (is_empty_map_true _)). rewrite <- (raw_offset_empty _ off). apply is_empty_map_true. assumption. }
  assert (Hb : c_b c = ∅). { apply (proj1 (is_empty_map_true _)). rewrite <- (raw_offset_empty _ off). apply is_empty_map_true. assumption. }
  split; [assumption|]. split; [assumption|].
  destruct (raw_offset_key (c_c c) off x v) as (k & Hk & ->); [rewrite E; apply lookup_insert|assumption|].
  destruct (raw_offset_key (c_c c) off y w) as (j & Hj & ->); [rewrite E, lookup_insert_ne by assumption; apply lookup_singleton|assumption|].
  exists k, j, v, w. split_and!; try assumption; [lia|]. apply map_eq. intros i. rewrite <- (raw_offset_at (c_c c) off i), E.
  destruct (decide (i = k)) as [->|H1]; [rewrite (shift_pos off k Hk), !lookup_insert; reflexivity|].
  destruct (decide (i = j)) as [->|H2]; [rewrite (shift_pos off j Hj), !lookup_insert_ne, !lookup_singleton by lia; reflexivity|].
  rewrite <- (shift_pos off k Hk), <- (shift_pos off j Hj). rewrite !lookup_insert_ne, !lookup_singleton_ne; [reflexivity|auto|intros Q; apply shift_inj in Q; auto|auto|intros Q; apply shift_inj in Q; auto].
Qed.
Lemma shape_constant_offset c off : shape_constant (c_offset c off) -> shape_constant c.
Proof.
  intros (A & B & x & v & Hx & E). cbn [c_offset c_a c_b c_c] in *.
  assert (Ha : c_a c = ∅). { apply (proj1 (is_empty_map_true _)). rewrite <- (raw_offset_empty _ off). apply is_empty_map_true. assumption. }
  assert (Hb : c_b c = ∅). { apply (proj1 (is_empty_map_true _)). rewrite <- (raw_offset_empty _ off). apply is_empty_map_true. assumption. }
  split; [assumption|]. split; [assumption|]. destruct (raw_offset_key (c_c c) off x v) as (k & Hk & ->); [|assumption|].
  { destruct E as [E|[w E]]; rewrite E; [apply lookup_singleton|apply lookup_insert]. }
  exists k, v. split; [assumption|]. destruct E as [E|[w E]]; [left|right; exists w]; apply map_eq; intros i; rewrite <- (raw_offset_at (c_c c) off i), E.
  - destruct (decide (i = k)) as [->|H1]; [rewrite (shift_pos off k Hk), !lookup_singleton; reflexivity|].
    rewrite <- (shift_pos off k Hk). rewrite !lookup_singleton_ne; [reflexivity|auto|intros Q; apply shift_inj in Q; auto].
  - destruct (decide (i = k)) as [->|H1]; [rewrite (shift_pos off k Hk), !lookup_insert; reflexivity|].
    destruct (decide (i = 0)) as [->|H2]; [change (shift off 0) with 0; rewrite !lookup_insert_ne, !lookup_singleton by lia; reflexivity|].
    rewrite <- (shift_pos off k Hk). rewrite !lookup_insert_ne, !lookup_singleton_ne; [reflexivity|auto|rewrite (shift_pos off i H2); lia|auto|intros Q; apply shift_inj in Q; auto].
Qed.
Lemma shape_constant_is_cons c : shape_constant c -> is_cons c.
Proof.
  intros (A & B & k & v & Hk & E). unfold is_cons, is_constant_equality. rewrite !andb_true_iff, !is_empty_map_true. split; [auto|]. unfold cc. destruct E as [E|[w E]]; rewrite E.
  - rewrite lookup_singleton_ne by assumption. apply Nat.eqb_eq. apply map_size_singleton.
  - rewrite lookup_insert_ne, lookup_singleton by assumption. apply Nat.eqb_eq. rewrite map_size_insert_None, map_size_singleton; [reflexivity|]. apply lookup_singleton_ne. auto.
Qed.
Lemma shape_equality_is_eq p c : (0 < p)%Z -> canon_c p c -> shape_equality p c -> is_constant_equality c = false /\ is_equality c p = true.
Proof.
  intros Hp Hc H. split; [|apply is_equality_spec; assumption]. destruct H as (A & B & x & y & v & w & Hx & Hy & Hxy & E & _).
  unfold is_constant_equality. apply andb_false_iff. right. unfold cc. rewrite E. rewrite lookup_insert_ne, lookup_singleton_ne by auto. apply Nat.eqb_neq.
  rewrite map_size_insert_None, map_size_singleton; [lia|]. apply lookup_singleton_ne. auto.
Qed.

(** ** the symbols *)
Lemma inst_syms_originals d w x : se_original <$> inst_syms d w x = Z.of_nat <$> inst_signals d x.
Proof. unfold inst_syms, inst_signals, sorted_ids. rewrite <- !list_fmap_compose. reflexivity. Qed.
Lemma syms_originals d w : numbered d -> named d -> compact d -> d_nodes d <> [] ->
  se_original <$> concat (inst_syms d w <$> all_instances d) = Z.of_nat <$> seq 1 (total_signals d).
Proof.
  intros HU HN HC HE. rewrite <- (all_signals_seq d HU HN HC HE). generalize (all_instances d). intros l. induction l as [|x l IH]; [reflexivity|].
  rewrite !fmap_cons. cbn [concat]. rewrite !fmap_app, IH, inst_syms_originals. reflexivity.
Qed.
Lemma elem_of_syms d w e : numbered d -> named d -> d_nodes d <> [] ->
  (e ∈ concat (inst_syms d w <$> all_instances d) <-> exists x n s k, instance d x /\ d_nodes d !! i_node x = Some n /\ n_corr n !! s = Some k /\ k ∈ n_locals n /\
     e = SymElem (Z.of_nat (global x k)) (w (global x k)) (Z.of_nat (i_node x)) (full_name x s)).
Proof.
  intros HU HN HE. rewrite elem_of_concat_fmap. split.
  - intros (x & Hx & H). rewrite (all_instances_spec d x HU HE) in Hx. destruct (instance_node d x HU Hx) as (n & es & Hn & _). unfold inst_syms in H. rewrite (node_at_lookup _ _ _ Hn) in H.
    apply elem_of_list_fmap in H. destruct H as ([s k] & -> & H). apply elem_of_local_names in H. exists x, n, s, k. tauto.
  - intros (x & n & s & k & Hx & Hn & Hs & Hk & ->). exists x. split; [apply (all_instances_spec d x HU HE); assumption|]. unfold inst_syms. rewrite (node_at_lookup _ _ _ Hn).
    apply elem_of_list_fmap. exists (s, k). split; [reflexivity|]. apply elem_of_local_names. auto.
Qed.
Lemma sym_position_some m k w : wire_map m -> m !! k = Some w -> sym_position m k = Z.of_nat w.
Proof.
  intros W H. unfold sym_position. rewrite H. cbn [default from_option]. assert (w < size m) by (apply (wm_onto _ W); eauto). unfold id. destruct (Nat.eqb_spec w (size m)); [lia|reflexivity].
Qed.
Lemma sym_position_none m k : m !! k = None -> sym_position m k = (-1)%Z.
Proof. intros H. unfold sym_position. rewrite H. cbn. rewrite Nat.eqb_refl. reflexivity. Qed.
Lemma port_sym_spec p d fl sm r l fuel : compiled_ok p d -> list_of p d fl sm r l -> length (d_nodes d) <= fuel ->
  port_sym fuel l = Ok (concat (inst_syms d (sym_position (r_map r)) <$> all_instances d)).
Proof.
  intros K L HF. destruct K as [HU HN HC HSc HO HCl Hf HE HSN]. pose proof (mp_encodes _ _ _ _ (lo_mapped _ _ _ _ _ _ L)) as EC. unfold port_sym.
  destruct (iterator_new_spec d (cl_encoding l) HU EC HE) as (it & -> & HI). cbn [res_bind]. destruct (main_node d HE) as (n & _ & _ & HL & _).
  rewrite (signal_iteration_spec d (cl_encoding l) HU EC (cl_map l) fuel it (root d) [] HI) by lia. rewrite (walk_all d fuel HU HE HF), (lo_map _ _ _ _ _ _ L). reflexivity.
Qed.
Lemma dag_sym_spec p d fuel ko : compiled_ok p d -> valid_corr_order ko -> length (d_nodes d) <= fuel -> dag_sym fuel ko d = Ok (concat (inst_syms d Z.of_nat <$> all_instances d)).
Proof.
  intros K Hko HF. destruct K as [HU HN HC HSc HO HCl Hf HE HSN]. destruct (tree_new_spec ko d Hko HU HN HE) as (t & Et & HT & _). unfold dag_sym. rewrite Et. cbn [res_bind].
  destruct (main_node d HE) as (n & _ & _ & HL & _). rewrite (visit_tree_spec ko d Hko HU HN fuel t (root d) [] HT) by lia. rewrite (walk_all d fuel HU HE HF). reflexivity.
Qed.
Lemma symbols_nodup d w : numbered d -> named d -> compact d -> d_nodes d <> [] -> labelled d -> NoDup (se_symbol <$> concat (inst_syms d w <$> all_instances d)).
Proof.
  intros HU HN HC HE HL. apply nodup_fmap_inj.
  - intros a b Ha Hb E. rewrite (elem_of_syms d w a HU HN HE) in Ha. rewrite (elem_of_syms d w b HU HN HE) in Hb.
    destruct Ha as (x & n & s & k & Hx & Hn & Hs & Hk & ->), Hb as (y & n' & s' & k' & Hy & Hn' & Hs' & Hk' & ->). cbn [se_symbol] in E.
    destruct (full_names_unique d HU HL x y n n' s s' k k' Hx Hy Hn Hn' Hs Hk Hs' Hk' E) as [-> ->]. rewrite Hn in Hn'. injection Hn' as <-. rewrite Hs in Hs'. injection Hs' as <-. reflexivity.
  - apply (NoDup_fmap_1 se_original). rewrite (syms_originals d w HU HN HC HE). apply NoDup_fmap_2; [apply _|apply NoDup_seq].
Qed.
