(** C22 (circuit side), C23, C24, C25, C44, C45, C50, C51: the circuit DAG and what is written from it. *)
From stdpp Require Import prelude gmap fin_maps sorting strings.
From Coq Require Import ZArith Znumtheory Lia.
From Verif Require Import ModArithModel AlgebraModel AlgebraSpec AlgebraProofs LinearSimpModel LinearSpec PipelineModel PipelineSpec PipelineProofs PropertiesPipeline
  BytesModel R1csModel R1csSpec PropertiesR1cs DagModel DagSpec RenumberProofs DagProofs WalkProofs FlattenProofs MapProofs PortProofs NameProofs CompiledProofs DagExamples PropertiesAlgebra.
Open Scope nat_scope.

(** ** C23 *)
(** After any sequence of calls, in every template: the numbers 1..n are split between the signals of
    the template and one interval per sub-component; the interval of a sub-component is as wide as the
    number of signals of its template, which was declared before. *)
Theorem C23_ranges : forall p d i n es, built p d -> d_nodes d !! i = Some n -> d_adjacency d !! i = Some es ->
  (forall x, 1 <= x <= n_signals n <-> (x ∈ n_locals n \/ exists e, e ∈ es /\ e_in e < x <= e_out e)) /\
  (forall x e, x ∈ n_locals n -> e ∈ es -> ~ (e_in e < x <= e_out e)) /\
  (forall j j' e e' x, es !! j = Some e -> es !! j' = Some e' -> e_in e < x <= e_out e -> e_in e' < x <= e_out e' -> j = j') /\
  (forall e, e ∈ es -> e_goes_to e < i /\ exists t, d_nodes d !! e_goes_to e = Some t /\ e_out e = e_in e + n_signals t) /\
  size (n_locals n) = n_outputs n + n_inputs n + n_intermediates n.
Proof.
  intros p d i n es HB Hn Hes. destruct (nu_node _ (built_numbered p d HB) _ _ _ Hn Hes) as [_ _ _ HE HL HC HD1 HD2 _ [HK _] _ _]. split_and!.
  - intros x. split; [apply HC|]. intros [H|(e & He & H)]; [apply HL; assumption|]. destruct (HE e He) as (_ & Q & _). lia.
  - intros x e Hx He H. exact (HD1 x e Hx He H).
  - intros j j' e e' x H1 H2 H3 H4. exact (HD2 j j' e e' x H1 H2 H3 H4).
  - intros e He. destruct (HE e He) as (A & _ & B). auto.
  - lia.
Qed.
Print Assumptions C23_ranges.

(** If names are not reused, names and numbers correspond one to one, every signal of the template
    has a name, and a signal of a sub-component is named after the component and has its own number
    moved by the offset of the component. *)
Theorem C23_names : forall p d i n es, built_with fresh p d -> d_nodes d !! i = Some n -> d_adjacency d !! i = Some es ->
  (forall s id, n_corr n !! s = Some id -> 1 <= id <= n_signals n) /\
  (forall s s' id, n_corr n !! s = Some id -> n_corr n !! s' = Some id -> s = s') /\
  (forall id, id ∈ n_locals n -> exists s, n_corr n !! s = Some id) /\
  (forall e t s id, e ∈ es -> d_nodes d !! e_goes_to e = Some t -> n_corr t !! s = Some id -> id ∈ n_locals t ->
     n_corr n !! dotted (e_label e) s = Some (e_in e + id)).
Proof.
  intros p d i n es HB Hn Hes. destruct (built_named p d HB i n Hn) as [A B C]. split_and!; [exact A|exact C|exact B|].
  intros e t s id He Ht Hs Hl. eapply (built_sub_named p d HB); eassumption.
Qed.
Print Assumptions C23_names.

(** If moreover the calls come in the order the compiler uses, the signals of the template are
    1..k, numbered by kind (outputs, public inputs, other inputs, intermediates) and within a kind in
    the order of declaration, and the sub-components follow one another without gap. *)
Theorem C23_declaration_order : forall p ops d n es, history (fun d o => fresh d o /\ in_order d o) p ops d ->
  last (d_nodes d) = Some n -> last (d_adjacency d) = Some es ->
  let names := outputs_of (current ops) ++ public_inputs_of (current ops) ++ private_inputs_of (current ops) ++ intermediates_of (current ops) in
  (forall j s, names !! j = Some s -> n_corr n !! s = Some (S j)) /\
  (forall x, x ∈ n_locals n <-> 1 <= x <= length names) /\
  (forall j e, es !! j = Some e -> e_in e = match j with 0 => length names | S i => match es !! i with Some e' => e_out e' | None => 0 end end) /\
  n_signals n = match last es with Some e => e_out e | None => length names end /\
  n_outputs n = length (outputs_of (current ops)) /\ n_public_inputs n = length (public_inputs_of (current ops)) /\
  n_inputs n = length (public_inputs_of (current ops)) + length (private_inputs_of (current ops)).
Proof.
  intros p ops d n es HH Hn Hes names. destruct (history_kinds p ops d HH n Hn) as [A1 A2 A3 A4 A5]. apply history_built in HH.
  assert (HU : numbered d) by (eapply built_numbered, built_with_built; exact HH).
  assert (HC : compact d) by (eapply built_compact, (built_with_mono _ _ _ _ (fun d o H => proj2 H)); exact HH).
  apply last_nonempty in Hn, Hes. destruct Hn as [Hn _], Hes as [Hes _]. rewrite (nu_length _ HU) in Hes. destruct (HC _ _ _ Hn Hes) as (HL & HCh & _).
  destruct (nn_kinds _ _ _ _ (nu_node _ HU _ _ _ Hn Hes)) as [HK _].
  assert (ES : size (n_locals n) = length names) by (unfold names; rewrite !app_length; lia). rewrite ES in HL, HCh. split_and!; try assumption.
  - clear -HCh. revert HCh. generalize (length names). induction es as [|e0 es IH]; intros a H j e Hj; [rewrite lookup_nil in Hj; discriminate|].
    destruct H as (E & _ & H). destruct j as [|j]; [injection Hj as <-; assumption|]. change (es !! j = Some e) in Hj. rewrite (IH _ H j e Hj). destruct j; reflexivity.
  - clear -HCh. revert HCh. generalize (length names). induction es as [|e0 es IH]; intros a H; [symmetry; assumption|]. destruct H as (_ & _ & H). rewrite (IH _ H). destruct es as [|e1 es]; [reflexivity|]. change (last (e0 :: e1 :: es)) with (last (e1 :: es)). destruct (last (e1 :: es)) eqn:Q; [reflexivity|]. apply last_None in Q. discriminate.
Qed.
Print Assumptions C23_declaration_order.

(** No call can fail, except adding a component when no template has been declared. *)
Theorem C23_calls_succeed : forall p ko d o, built p d -> valid_corr_order ko ->
  (exists d', dag_step ko d o = Ok d') \/ (d_nodes d = [] /\ exists to label par, o = OpEdge to label par).
Proof.
  intros p ko d o HB Hko. destruct o as [tn ps par cus|name pub|name|name|name|to label par|c|s|k]; try (left; eexists; reflexivity).
  destruct (decide (d_nodes d = [])) as [E|E]; [right; eauto|left]. cbn [dag_step].
  destruct (add_edge_spec ko d to label par Hko E) as [(_ & s & t & co & re & _ & _ & _ & -> & _)|[_ ->]]; eauto.
Qed.
Print Assumptions C23_calls_succeed.

(** ** C24 *)
(** Every signal number of the circuit belongs to exactly one signal of exactly one instance. *)
Theorem C24_every_number_has_one_owner : forall p d id, compiled p d -> 1 <= id <= total_signals d ->
  exists x n k, (instance d x /\ d_nodes d !! i_node x = Some n /\ k ∈ n_locals n /\ id = global x k) /\
    forall x' n' k', instance d x' -> d_nodes d !! i_node x' = Some n' -> k' ∈ n_locals n' -> id = global x' k' -> x' = x /\ k' = k.
Proof.
  intros p d id H Hid. apply compiled_facts in H. destruct H as [HU HN HC HSc HO HCl Hf HE HSN]. destruct (signal_owner d id HU HN HE Hid) as (x & n & k & A & B & C & D).
  exists x, n, k. split; [auto|]. intros x' n' k' A' B' C' D'. eapply signal_owner_unique; try eassumption. congruence.
Qed.
Print Assumptions C24_every_number_has_one_owner.
(** ... and the numbers of an instance's signals lie in the interval its parent reserved. *)
Theorem C24_numbers_stay_in_the_range : forall p d x n es j e t k, compiled p d -> instance d x -> d_nodes d !! i_node x = Some n -> d_adjacency d !! i_node x = Some es ->
  es !! j = Some e -> d_nodes d !! e_goes_to e = Some t -> 1 <= k <= n_signals t ->
  let y := Inst (i_pos x ++ [j]) (e_goes_to e) (i_off x + e_in e) (dotted (i_path x) (e_label e)) in
  instance d y /\ global x (e_in e) < global y k <= global x (e_out e).
Proof.
  intros p d x n es j e t k H Hx Hn Hes Hj Ht Hk y. apply compiled_facts in H. destruct H as [HU HN HC HSc HO HCl Hf HE HSN]. split; [econstructor; eassumption|].
  destruct (nn_edge _ _ _ _ (nu_node _ HU _ _ _ Hn Hes) e (elem_of_list_lookup_2 _ _ _ Hj)) as (_ & _ & t' & Ht' & E). rewrite Ht in Ht'. injection Ht' as <-.
  unfold global, y. cbn [i_off]. lia.
Qed.
Print Assumptions C24_numbers_stay_in_the_range.
(** The unsimplified R1CS lists, for every instance, depth first and once, the constraints of its
    template moved to its offset; labels are the signal numbers themselves. *)
Theorem C24_r1cs_is_the_flattened_circuit : forall p d ko fuel, compiled p d -> valid_corr_order ko -> length (d_nodes d) <= fuel ->
  exists l i, enumerates (instance d) l /\ dag_r1cs fuel ko d false = Ok i /\ flattens d l (row <$> i_constraints i) /\
    i_signals i = Z.of_nat <$> seq 0 (S (total_signals d)) /\
    h_total_wires (i_header i) = Z.of_nat (S (total_signals d)) /\ h_number_of_labels (i_header i) = Z.of_nat (S (total_signals d)) /\
    h_number_of_constraints (i_header i) = Z.of_nat (length (i_constraints i)) /\ h_field (i_header i) = p.
Proof.
  intros p d ko fuel H Hko HF. apply compiled_facts in H. destruct (dag_r1cs_spec p d fuel ko false H Hko HF) as (main & g & EL & E & _); [discriminate|].
  destruct H as [HU HN HC HSc HO HCl Hf HE HSN]. exists (all_instances d). eexists. split; [apply all_instances_enumerates; assumption|]. split; [exact E|].
  cbn [i_constraints i_signals i_header h_total_wires h_number_of_labels h_number_of_constraints h_field]. split_and!; try reflexivity.
  - rewrite <- list_fmap_compose. replace ((row ∘ triple) <$> flat_constraints d) with (flat_constraints d); [eapply flat_flattens; eassumption|].
    rewrite <- (list_fmap_id (flat_constraints d)) at 1. apply list_fmap_ext. intros i c _. unfold compose. rewrite row_triple. reflexivity.
  - rewrite fmap_length. reflexivity.
Qed.
Print Assumptions C24_r1cs_is_the_flattened_circuit.
(** An assignment satisfies the rows exactly when it satisfies, in every instance, the constraints
    the template was given (before they were cleaned). *)
Theorem C24_rows_hold_iff_the_circuit_holds : forall p d0 ko fuel i, built_with (well_formed p) p d0 -> d_nodes d0 <> [] ->
  valid_corr_order ko -> length (d_nodes d0) <= fuel -> dag_r1cs fuel ko (clean_constraints d0) false = Ok i ->
  forall ρ, satisfies p ρ (row <$> i_constraints i) <-> circuit_holds p d0 ρ.
Proof.
  intros p d0 ko fuel i H HE Hko HF E ρ. pose proof (well_formed_clean p d0 H HE) as K.
  destruct (dag_r1cs_spec p (clean_constraints d0) fuel ko false K Hko) as (main & g & EL & E' & _); [cbn; rewrite fmap_length; assumption|discriminate|].
  rewrite E in E'. injection E' as ->. cbn [i_constraints]. rewrite <- circuit_holds_clean, <- (flat_constraints_hold p _ ρ (co_numbered _ _ K) (co_nonempty _ _ K)).
  unfold satisfies. rewrite !Forall_fmap. apply Forall_iff. intros c. unfold compose. rewrite row_triple. reflexivity.
Qed.
Print Assumptions C24_rows_hold_iff_the_circuit_holds.

(** ** C25 *)
(** The witness lists the constant, then main's outputs, public inputs, private inputs and
    intermediates in the order of declaration, then the signals of the sub-components; each once. *)
Theorem C25_witness_order : forall p ops d0 ko fuel n, history (well_formed p) p ops d0 -> last (d_nodes d0) = Some n ->
  valid_corr_order ko -> length (d_nodes d0) <= fuel ->
  exists w, produce_witness fuel ko (clean_constraints d0) = Ok w /\ w !! 0 = Some 0 /\ w = seq 0 (S (total_signals d0)) /\
    forall j s, (outputs_of (current ops) ++ public_inputs_of (current ops) ++ private_inputs_of (current ops) ++ intermediates_of (current ops)) !! j = Some s ->
      exists id, n_corr n !! s = Some id /\ id ∈ n_locals n /\ w !! S j = Some id.
Proof.
  intros p ops d0 ko fuel n HH Hn Hko HF. assert (HE : d_nodes d0 <> []) by (intros Q; rewrite Q in Hn; discriminate).
  pose proof (well_formed_clean p d0 (history_built _ _ _ _ HH) HE) as K. destruct K as [HU HN HC HSc HO HCl Hf HE' HSN].
  destruct (tree_new_spec ko _ Hko HU HN HE') as (t & Et & HT & _). destruct (main_node _ HE') as (n' & EL & Hn' & HL & EN & ET).
  exists (seq 0 (S (total_signals d0))). split.
  - unfold produce_witness. rewrite Et. cbn [res_bind]. assert (HF' : length (d_nodes (clean_constraints d0)) <= fuel) by (cbn; rewrite fmap_length; assumption).
    rewrite (produce_tree_witness_spec ko _ Hko HU HN fuel t (root (clean_constraints d0)) [0] HT) by lia.
    rewrite (walk_all _ fuel HU HE' HF'), (all_signals_seq _ HU HN HC HE'), total_clean. reflexivity.
  - split; [reflexivity|]. split; [reflexivity|]. intros j s Hj.
    assert (HH' : history (fun d o => fresh d o /\ in_order d o) p ops d0). { clear -HH. induction HH as [|ko ops d o d' H1 H2 IH H3 H4]; econstructor; try eassumption. split; apply H3. }
    destruct (lookup_lt_is_Some_2 (d_adjacency d0) (length (d_nodes d0) - 1)) as [es Hes].
    { pose proof (nu_length _ HU) as Q. cbn in Q. rewrite fmap_length in Q. rewrite Q. apply last_nonempty in Hn. lia. }
    assert (LA : last (d_adjacency d0) = Some es). { rewrite last_lookup, <- Hes. f_equal. pose proof (nu_length _ HU) as Q. cbn in Q. rewrite fmap_length in Q. lia. }
    destruct (C23_declaration_order p ops d0 n es HH' Hn LA) as (A & B & _). exists (S j). split; [apply A; assumption|]. apply lookup_lt_Some in Hj. split; [apply B; lia|].
    apply lookup_seq. split; [reflexivity|]. rewrite <- total_clean, ET. pose proof (nn_count _ _ _ _ (nu_node _ HU _ _ _ Hn' ltac:(cbn; rewrite fmap_length; exact Hes))) as Q.
    assert (En : n' = clean_node n). { cbn in EL. rewrite fmap_last, Hn in EL. injection EL as <-. reflexivity. }
    rewrite En in Q |- *. cbn in Q |- *. assert (S1 : size (n_locals n) = length (outputs_of (current ops) ++ public_inputs_of (current ops) ++ private_inputs_of (current ops) ++ intermediates_of (current ops))).
    { assert (EQ : n_locals n ≡ list_to_set (C := gset nat) (seq 1 (length (outputs_of (current ops) ++ public_inputs_of (current ops) ++ private_inputs_of (current ops) ++ intermediates_of (current ops))))).
      { intros x. rewrite B, elem_of_list_to_set, elem_of_seq. lia. }
      rewrite EQ, size_list_to_set, seq_length; [reflexivity|apply NoDup_seq]. }
    lia.
Qed.
Print Assumptions C25_witness_order.
(** Whatever the order of the calls, as long as names are not reused, the witness lists the constant
    first and every signal of the circuit exactly once. *)
Theorem C25_every_signal_once : forall p d ko fuel, built_with fresh p d -> d_nodes d <> [] -> valid_corr_order ko -> length (d_nodes d) <= fuel ->
  exists w, produce_witness fuel ko d = Ok (0 :: w) /\ w ≡ₚ seq 1 (total_signals d).
Proof.
  intros p d ko fuel H HE Hko HF. pose proof (built_numbered p d (built_with_built _ _ _ H)) as HU. pose proof (built_named p d H) as HN.
  destruct (tree_new_spec ko _ Hko HU HN HE) as (t & Et & HT & _). destruct (main_node _ HE) as (n' & EL & Hn' & HL & EN & ET).
  unfold produce_witness. rewrite Et. cbn [res_bind]. rewrite (produce_tree_witness_spec ko _ Hko HU HN fuel t (root d) [0] HT) by lia.
  rewrite (walk_all _ fuel HU HE HF). eexists. split; [reflexivity|]. apply all_signals_perm; assumption.
Qed.
Print Assumptions C25_every_signal_once.

(** ** C45 *)
(** The four classes together are the constraints of the flattened circuit, and each class has its
    shape; the classes exclude one another. *)
Theorem C45_classification_is_a_partition : forall p d ko fuel fl, compiled p d -> (0 < p)%Z -> valid_corr_order ko -> length (d_nodes d) <= fuel ->
  exists l rows sm enc, enumerates (instance d) l /\ flattens d l rows /\ map_to_simplifier fuel ko d fl = Ok (sm, enc) /\
    sm_equalities sm ++ sm_cons_equalities sm ++ sm_linear sm ++ sm_non_linear sm ≡ₚ rows /\
    Forall (shape_equality p) (sm_equalities sm) /\ Forall shape_constant (sm_cons_equalities sm) /\
    Forall (fun c => shape_linear c /\ ~ shape_equality p c /\ ~ shape_constant c) (sm_linear sm) /\ Forall shape_product (sm_non_linear sm).
Proof.
  intros p d ko fuel fl H Hp Hko HF. apply compiled_facts in H. pose proof H as K. destruct H as [HU HN HC HSc HO HCl Hf HE HSN].
  destruct (map_to_simplifier_spec fuel ko d fl Hko HU HN HO HE HF) as (sm & enc & E & M). exists (all_instances d), (flat_constraints d), sm, enc. split_and!.
  - apply all_instances_enumerates; assumption.
  - eapply flat_flattens; eassumption.
  - assumption.
  - exact (original_perm _ _ _ _ M).
  - rewrite (mp_equalities _ _ _ _ M), Hf. apply Forall_forall. intros c Hc. apply elem_of_list_filter in Hc. destruct Hc as [H1 H2]. apply eq_shape; [assumption| |assumption]. eapply flat_ok; eassumption.
  - rewrite (mp_constant _ _ _ _ M). apply Forall_forall. intros c Hc. apply elem_of_list_filter in Hc. destruct Hc as [H1 H2]. destruct (flat_ok p d c K H2). eapply cons_shape; eassumption.
  - rewrite (mp_linear _ _ _ _ M), Hf. apply Forall_forall. intros c Hc. apply elem_of_list_filter in Hc. destruct Hc as [H1 H2]. split; [eapply lin_shape; eassumption|].
    destruct (flat_ok p d c K H2) as [HcC _]. destruct H1 as (Q1 & Q2 & Q3). split.
    + intros S. apply (shape_equality_is_eq p c Hp HcC) in S. destruct S. congruence.
    + intros S. apply shape_constant_is_cons in S. unfold is_cons in S. congruence.
  - rewrite (mp_non_linear _ _ _ _ M). apply Forall_forall. intros c Hc. apply elem_of_list_filter in Hc. apply non_shape. tauto.
Qed.
Print Assumptions C45_classification_is_a_partition.

(** ** C22 *)
(** At every optimisation level the outputs and public inputs of main keep a wire, even their number,
    and the signals of custom gates keep a wire. *)
Theorem C22_public_signals_keep_their_wire : forall p ops d0 n fuel steps ko o fl,
  prime p -> history (well_formed p) p ops d0 -> last (d_nodes d0) = Some n -> valid_corr_order ko -> valid_oracle o ->
  length (d_nodes d0) <= fuel -> enough (S (total_signals d0)) steps ->
  exists l, map_to_list_ fuel steps ko o (clean_constraints d0) fl = Ok l /\
    (forall j s, (outputs_of (current ops) ++ public_inputs_of (current ops)) !! j = Some s -> n_corr n !! s = Some (S j) /\ cl_map l !! S j = Some (S j)) /\
    (forall x m k, instance d0 x -> d_nodes d0 !! i_node x = Some m -> n_custom m = true -> k ∈ n_locals m -> is_Some (cl_map l !! global x k)).
Proof.
  intros p ops d0 n fuel steps ko o fl Hp HH Hn Hko Ho HF HS. assert (HE : d_nodes d0 <> []) by (intros Q; rewrite Q in Hn; discriminate).
  pose proof (well_formed_clean p d0 (history_built _ _ _ _ HH) HE) as K. rewrite <- (total_clean d0) in HS.
  destruct (map_to_list_spec p (clean_constraints d0) fl fuel steps ko o K Hp Hko Ho) as (sm & r & l & E & ER & L); [cbn; rewrite fmap_length; assumption|assumption|].
  exists l. split; [assumption|]. rewrite (lo_map _ _ _ _ _ _ L). pose proof (lo_mapped _ _ _ _ _ _ L) as M. pose proof (co_numbered _ _ K) as HU. pose proof (co_named _ _ K) as HN. split.
  - intros j s Hj. assert (HH' : history (fun d o => fresh d o /\ in_order d o) p ops d0). { clear -HH. induction HH as [|ko ops d o d' H1 H2 IH H3 H4]; econstructor; try eassumption. split; apply H3. }
    destruct (history_kinds p ops d0 HH' n Hn) as [A1 A2 A3 A4 A5]. split.
    + apply A5. unfold declared. rewrite app_assoc. apply lookup_app_l_Some. assumption.
    + apply (lo_keep _ _ _ _ _ _ L). rewrite (lo_outputs _ _ _ _ _ _ L), (lo_public _ _ _ _ _ _ L), (mp_public_inputs _ _ _ _ M), (mp_public_outputs _ _ _ _ M).
      destruct (main_node _ (co_nonempty _ _ K)) as (n' & EL & Hn' & HL & EN & ET). assert (En : n' = clean_node n). { cbn in EL. rewrite fmap_last, Hn in EL. injection EL as <-. reflexivity. }
      rewrite EN, En. cbn. rewrite A1, A2. apply lookup_lt_Some in Hj. rewrite app_length in Hj. lia.
  - intros x m k Hx Hm Hc Hk. apply instance_clean in Hx.
    assert (Hm' : d_nodes (clean_constraints d0) !! i_node x = Some (clean_node m)) by (cbn; rewrite list_lookup_fmap, Hm; reflexivity).
    apply (lo_protected _ _ _ _ _ _ L).
    + apply (mp_forbidden _ _ _ _ M). right. exists x. split; [assumption|]. rewrite (node_at_lookup _ _ _ Hm'). split; [assumption|]. apply (elem_of_inst_signals _ x _ _ HN Hm'). eauto.
    + destruct (instance_node _ x HU Hx) as (m' & es & Q & Hes). pose proof (inst_range _ x _ HU Hx Hm'). pose proof (nn_local _ _ _ _ (nu_node _ HU _ _ _ Hm' Hes) k Hk). unfold global. lia.
Qed.
Print Assumptions C22_public_signals_keep_their_wire.

(** ** C44 *)
Lemma syms_agree d w i : numbered d -> named d -> compact d -> d_nodes d <> [] ->
  (forall k, (exists v, w k = Z.of_nat v /\ is_wire i k v) \/ (w k = (-1)%Z /\ forall v, ~ is_wire i k v)) ->
  (forall k v v', is_wire i k v -> is_wire i k v' -> v = v') ->
  (forall v label, i_signals i !! v = Some label -> (v = 0 /\ label = 0%Z) \/ exists k, 1 <= k <= total_signals d /\ label = Z.of_nat k) ->
  sym_agrees d (concat (inst_syms d w <$> all_instances d)) i.
Proof.
  intros HU HN HC HE HW HI HL. constructor.
  - apply syms_originals; assumption.
  - intros e. rewrite (elem_of_syms d w e HU HN HE). split.
    + intros (x & n & s & k & Hx & Hn & Hs & Hk & ->). exists x, n, s, k. cbn [se_original se_witness se_node se_symbol]. split_and!; try assumption; try reflexivity. apply HW.
    + intros (x & n & s & k & Hx & Hn & Hs & Hk & E1 & E2 & E3 & E4). exists x, n, s, k. split_and!; try assumption. destruct e as [a b c f]. cbn [se_original se_witness se_node se_symbol] in *. subst a c f. f_equal.
      destruct E4 as [(v & -> & Hv)|[-> Hv]], (HW (global x k)) as [(v' & -> & Hv')|[-> Hv']].
      * f_equal. eapply HI; eassumption.
      * exfalso. eapply Hv'. eassumption.
      * exfalso. eapply Hv. eassumption.
      * reflexivity.
  - intros v label Hv. destruct (HL v label Hv) as [Q|(k & Hk & ->)]; [auto|]. right. destruct (signal_owner d k HU HN HE Hk) as (x & n & id & Hx & Hn & Hid & ->).
    destruct (na_local _ (HN _ _ Hn) _ Hid) as [s Hs]. exists (SymElem (Z.of_nat (global x id)) (w (global x id)) (Z.of_nat (i_node x)) (full_name x s)).
    split; [apply (elem_of_syms d w _ HU HN HE); exists x, n, s, id; auto|]. split; [reflexivity|]. cbn [se_witness].
    destruct (HW (global x id)) as [(v' & -> & Hv')|[_ Q]]; [|exfalso; exact (Q v Hv)]. f_equal. exact (HI _ _ _ Hv' Hv).
Qed.
Lemma port_wires i ws : Z.of_nat <$> ws = i_signals i -> forall k v, is_wire i k v <-> ws !! v = Some k.
Proof.
  intros E k v. unfold is_wire. rewrite <- E, list_lookup_fmap. split.
  - intros H. apply fmap_Some in H. destruct H as (k' & H & Q). apply Nat2Z.inj in Q. subst. assumption.
  - intros ->. reflexivity.
Qed.
(** At every optimisation level, the symbol file says ([sym_agrees], DagSpec): one line per signal, in
    the order of the numbers, with its full name; the position is the wire that has this signal as its
    label in the R1CS file, or -1 if there is none; and every wire but the constant has its line. *)
Theorem C44_symbols_agree_with_labels : forall p d fuel steps ko o mo fl, prime p -> compiled p d -> valid_corr_order ko -> valid_oracle o -> (forall m : gmap nat nat, mo m ≡ₚ map_to_list m) ->
  length (d_nodes d) <= fuel -> enough (S (total_signals d)) steps ->
  exists l lines i, map_to_list_ fuel steps ko o d fl = Ok l /\ port_sym fuel l = Ok lines /\ port_r1cs fuel mo l false = Ok i /\ sym_agrees d lines i.
Proof.
  intros p d fuel steps ko o mo fl Hp H Hko Ho Hmo HF HS. apply compiled_facts in H. destruct (map_to_list_spec p d fl fuel steps ko o H Hp Hko Ho HF HS) as (sm & r & l & E & ER & L).
  destruct (port_r1cs_spec p d fl sm r l fuel mo false H L Hmo HF) as (main & cs & ws & g & EL & EP & _ & Lws & Hws & _); [discriminate|].
  exists l. eexists _, _. split; [assumption|]. split; [eapply port_sym_spec; eassumption|]. split; [exact EP|]. pose proof (lo_wires _ _ _ _ _ _ L) as W. destruct H as [HU HN HC HSc HO HCl Hf HE HSN].
  match goal with |- sym_agrees _ _ ?i => assert (PW : forall k v, is_wire i k v <-> r_map r !! k = Some v) by (intros k v; rewrite (port_wires i ws eq_refl); apply Hws) end.
  apply syms_agree; try assumption.
  - intros k. destruct (r_map r !! k) as [v|] eqn:Ek; [left|right].
    + exists v. split; [apply sym_position_some; assumption|]. apply PW. assumption.
    + split; [apply sym_position_none; assumption|]. intros v Q. apply PW in Q. congruence.
  - intros k v v' H1 H2. apply PW in H1, H2. congruence.
  - intros v label Hv. cbn [i_signals] in Hv. rewrite list_lookup_fmap in Hv. apply fmap_Some in Hv. destruct Hv as (k & Hk & ->). apply Hws in Hk.
    destruct (decide (k = 0)) as [->|Hk0]; [left; rewrite (wm_zero _ W) in Hk; injection Hk as <-; auto|]. right. exists k. split; [|reflexivity]. apply (lo_range _ _ _ _ _ _ L) in Hk. lia.
Qed.
Print Assumptions C44_symbols_agree_with_labels.
(** Without simplification: every signal is a wire, with its own number. *)
Theorem C44_symbols_agree_without_simplification : forall p d fuel ko, compiled p d -> valid_corr_order ko -> length (d_nodes d) <= fuel ->
  exists lines i, dag_sym fuel ko d = Ok lines /\ dag_r1cs fuel ko d false = Ok i /\
    (forall e, e ∈ lines -> se_witness e = se_original e) /\ sym_agrees d lines i.
Proof.
  intros p d fuel ko H Hko HF. apply compiled_facts in H. destruct (dag_r1cs_spec p d fuel ko false H Hko HF) as (main & g & EL & E & _); [discriminate|].
  eexists _, _. split; [eapply dag_sym_spec; eassumption|]. split; [exact E|]. destruct H as [HU HN HC HSc HO HCl Hf HE HSN]. split.
  { intros e He. rewrite (elem_of_syms d _ e HU HN HE) in He. destruct He as (x & n & s & k & _ & _ & _ & _ & ->). reflexivity. }
  match goal with |- sym_agrees _ _ ?i => assert (PW : forall k v, is_wire i k v <-> v = k /\ k <= total_signals d) by (intros k v; rewrite (port_wires i (seq 0 (S (total_signals d))) eq_refl); rewrite lookup_seq; lia) end.
  assert (QQ : sym_agrees d (concat (inst_syms d (fun k => if decide (k <= total_signals d) then Z.of_nat k else (-1)%Z) <$> all_instances d))
     (R1csInput (HeaderData p (Z.of_nat (S (total_signals d))) (Z.of_nat (n_outputs main)) (Z.of_nat (n_public_inputs main)) (Z.of_nat (private_inputs main))
         (Z.of_nat (S (total_signals d))) (Z.of_nat (length (flat_constraints d))))
      (triple <$> flat_constraints d) (Z.of_nat <$> seq 0 (S (total_signals d))) g)).
  { apply syms_agree; try assumption.
    - intros k. destruct (decide (k <= total_signals d)); [left; exists k; split; [reflexivity|apply PW; auto]|right; split; [reflexivity|intros v Q; apply PW in Q; lia]].
    - intros k v v' H1 H2. apply PW in H1, H2. lia.
    - intros v label Hv. cbn [i_signals] in Hv. rewrite list_lookup_fmap in Hv. apply fmap_Some in Hv. destruct Hv as (k & Hk & ->). apply lookup_seq in Hk. destruct Hk as [-> Hk].
      destruct (decide (v = 0)) as [->|]; [left; auto|right]. exists v. split; [lia|f_equal; lia]. }
  assert (EQ : inst_syms d Z.of_nat <$> all_instances d = inst_syms d (fun k => if decide (k <= total_signals d) then Z.of_nat k else (-1)%Z) <$> all_instances d).
  { apply list_fmap_ext. intros j x Hx. apply elem_of_list_lookup_2 in Hx. rewrite (all_instances_spec d x HU HE) in Hx. destruct (instance_node d x HU Hx) as (n & es & Hn & Hes).
    unfold inst_syms. rewrite (node_at_lookup _ _ _ Hn). apply list_fmap_ext. intros j' [s k] Hs. apply elem_of_list_lookup_2, elem_of_local_names in Hs. cbn [fst snd].
    pose proof (inst_range d x n HU Hx Hn). pose proof (nn_local _ _ _ _ (nu_node _ HU _ _ _ Hn Hes) k ltac:(tauto)). rewrite decide_True; [reflexivity|unfold global; lia]. }
  rewrite EQ. exact QQ.
Qed.
Print Assumptions C44_symbols_agree_without_simplification.
(** Under the naming rules of the language, the full names are pairwise distinct. *)
Theorem C44_full_names_are_unique : forall p d0 fuel steps ko o fl, prime p -> built_with (fun d o => well_formed p d o /\ well_named d o) p d0 -> d_nodes d0 <> [] ->
  valid_corr_order ko -> valid_oracle o -> length (d_nodes d0) <= fuel -> enough (S (total_signals d0)) steps ->
  exists l lines, map_to_list_ fuel steps ko o (clean_constraints d0) fl = Ok l /\ port_sym fuel l = Ok lines /\ NoDup (se_symbol <$> lines).
Proof.
  intros p d0 fuel steps ko o fl Hp HB HE Hko Ho HF HS. assert (HW : built_with (well_formed p) p d0) by (eapply built_with_mono; [|exact HB]; intros ? ? Q; apply Q).
  pose proof (well_formed_clean p d0 HW HE) as K. rewrite <- (total_clean d0) in HS. assert (HF' : length (d_nodes (clean_constraints d0)) <= fuel) by (cbn; rewrite fmap_length; assumption).
  destruct (map_to_list_spec p (clean_constraints d0) fl fuel steps ko o K Hp Hko Ho HF' HS) as (sm & r & l & E & ER & L).
  exists l. eexists. split; [assumption|]. split; [eapply port_sym_spec; eassumption|].
  assert (HL : labelled (clean_constraints d0)). { apply labelled_clean. eapply built_labelled. eapply built_with_mono; [|exact HB]. intros d o' [Q1 Q2]. split; [apply Q1|assumption]. }
  destruct K as [HU HN HC HSc HO HCl Hf HE' HSN]. apply symbols_nodup; assumption.
Qed.
Print Assumptions C44_full_names_are_unique.

(** ** C50 *)
(** From the declarations to the R1CS: at every optimisation level, (1) a solution of the circuit,
    read along the labels, solves the rows; (2) if the constraints read as definitions are not
    contradictory (C18), a solution of the rows comes from a solution of the circuit that has the
    same value on every wire; (3) the rows mention existing wires only, with canonical coefficients;
    (4) the constant, the outputs and the public inputs of main are the first wires, labelled with
    their own numbers; (5) the header counts. *)
Theorem C50_r1cs_is_equivalent_to_the_circuit : forall p d0 main fuel steps ko o mo fl,
  prime p -> built_with (well_formed p) p d0 -> last (d_nodes d0) = Some main -> valid_corr_order ko -> valid_oracle o -> (forall m : gmap nat nat, mo m ≡ₚ map_to_list m) ->
  length (d_nodes d0) <= fuel -> enough (S (total_signals d0)) steps ->
  exists l i, map_to_list_ fuel steps ko o (clean_constraints d0) fl = Ok l /\ port_r1cs fuel mo l false = Ok i /\
    (forall ρ ρ', (forall w k, is_wire i k w -> k <> 0 -> ρ' w = ρ k) -> circuit_holds p d0 ρ -> satisfies p ρ' (row <$> i_constraints i)) /\
    (consistent p (clean_constraints d0) -> forall ρ', satisfies p ρ' (row <$> i_constraints i) ->
       exists ρ, circuit_holds p d0 ρ /\ forall w k, is_wire i k w -> k <> 0 -> ρ k = ρ' w) /\
    Forall (fun c => canon_c p c /\ forall w, in_c w c -> w < length (i_signals i)) (row <$> i_constraints i) /\
    (forall k, k <= n_outputs main + n_public_inputs main -> is_wire i k k) /\
    i_header i = HeaderData p (Z.of_nat (length (i_signals i))) (Z.of_nat (n_outputs main)) (Z.of_nat (n_public_inputs main)) (Z.of_nat (n_inputs main - n_public_inputs main))
      (Z.of_nat (S (total_signals d0))) (Z.of_nat (length (i_constraints i))).
Proof.
  intros p d0 main fuel steps ko o mo fl Hp HW Hmain Hko Ho Hmo HF HS. assert (HE : d_nodes d0 <> []) by (intros Q; rewrite Q in Hmain; discriminate).
  pose proof (well_formed_clean p d0 HW HE) as K. rewrite <- (total_clean d0) in HS. assert (HF' : length (d_nodes (clean_constraints d0)) <= fuel) by (cbn; rewrite fmap_length; assumption).
  destruct (map_to_list_spec p (clean_constraints d0) fl fuel steps ko o K Hp Hko Ho HF' HS) as (sm & r & l & E & ER & L).
  destruct (port_r1cs_spec p _ fl sm r l fuel mo false K L Hmo HF') as (main' & cs & ws & g & EL & EP & HR & Lws & Hws & _); [discriminate|].
  assert (Em : main' = clean_node main). { cbn in EL. rewrite fmap_last, Hmain in EL. injection EL as <-. reflexivity. }
  exists l. eexists. split; [assumption|]. split; [exact EP|]. cbn [i_constraints i_signals i_header].
  match goal with |- context [is_wire ?i _ _] => assert (PW : forall k v, is_wire i k v <-> r_map r !! k = Some v) by (intros k v; rewrite (port_wires i ws eq_refl); apply Hws) end.
  pose proof (lo_wires _ _ _ _ _ _ L) as W. pose proof (lo_result _ _ _ _ _ _ L) as R. pose proof (lo_mapped _ _ _ _ _ _ L) as M. pose proof (lo_ok _ _ _ _ _ _ L) as OK.
  assert (Hfp : sm_field sm = p) by (rewrite (mp_field _ _ _ _ M); apply (co_field _ _ K)).
  assert (RT : row <$> (triple <$> cs) = cs). { rewrite <- list_fmap_compose. rewrite <- (list_fmap_id cs) at 2. apply list_fmap_ext. intros i c _. unfold compose. rewrite row_triple. reflexivity. }
  rewrite RT.
  assert (EQV : forall ρ ρ', (forall w k, r_map r !! k = Some w -> k <> 0 -> ρ' w = ρ k) -> (satisfies p ρ' cs <-> satisfies p ρ (r_constraints r))).
  { intros ρ ρ' HA. unfold satisfies. clear -HR HA W. induction HR as [|c c' l l' (_ & _ & HH & _) HR IH]; [rewrite !Forall_nil; tauto|]. rewrite !Forall_cons, IH.
    rewrite (HH ρ ρ'); [tauto|]. intros k k' Hk Hm. apply HA; [assumption|]. destruct Hk as [Hk|[Hk|Hk]]; apply Hk. }
  assert (ORG : forall ρ, satisfies p ρ (original sm) <-> circuit_holds p d0 ρ).
  { intros ρ. rewrite <- circuit_holds_clean, <- (flat_constraints_hold p _ ρ (co_numbered _ _ K) (co_nonempty _ _ K)). unfold satisfies. rewrite (original_perm _ _ _ _ M). reflexivity. }
  split_and!.
  - intros ρ ρ' HA HC. apply (EQV ρ ρ'); [intros w k Hk; apply HA, PW; assumption|]. apply ORG in HC. rewrite <- Hfp in HC |- *. apply (ro_equiv _ _ R) in HC. tauto.
  - intros [ρ0 Hcon] ρ' HC.
    set (ρ1 := fun k => default 0%Z (ρ' <$> (r_map r !! k))).
    assert (H1 : satisfies p ρ1 (r_constraints r)). { apply (EQV ρ1 ρ'); [|assumption]. intros w k Hk _. unfold ρ1. rewrite Hk. reflexivity. }
    assert (HG : exists ρ, satisfies (sm_field sm) ρ (sm_equalities sm ++ sm_cons_equalities sm)).
    { exists ρ0. rewrite Hfp. pose proof (co_numbered _ _ K) as HU. pose proof (co_nonempty _ _ K) as HE'. pose proof (prime_ge_2 p Hp) as Hp2.
      assert (ALL : forall c, c ∈ flat_constraints (clean_constraints d0) -> shape_constant c \/ shape_equality p c -> holds p ρ0 c).
      { intros c Hc Hsh. apply elem_of_concat_fmap in Hc. destruct Hc as (x & Hx & Hc). rewrite (all_instances_spec _ x HU HE') in Hx.
        apply elem_of_inst_constraints in Hc. destruct Hc as (c0 & Hc & ->). destruct (instance_node _ x HU Hx) as (n & es & Hn & _). rewrite (node_at_lookup _ _ _ Hn) in Hc.
        apply holds_offset. apply (Hcon x c0 Hx); [unfold template_constraints; rewrite Hn; assumption|]. destruct Hsh as [Q|Q]; [left; eapply shape_constant_offset; exact Q|right; eapply shape_equality_offset; exact Q]. }
      apply Forall_app. split; apply Forall_forall; intros c Hc.
      - rewrite (mp_equalities _ _ _ _ M), (co_field _ _ K) in Hc. apply elem_of_list_filter in Hc. destruct Hc as [Q1 Q2]. apply ALL; [assumption|]. right. apply eq_shape; [lia| |assumption]. eapply flat_ok; eassumption.
      - rewrite (mp_constant _ _ _ _ M) in Hc. apply elem_of_list_filter in Hc. destruct Hc as [Q1 Q2]. apply ALL; [assumption|]. left. destruct (flat_ok p _ c K Q2). eapply cons_shape; eassumption. }
    rewrite <- (mp_max _ _ _ _ M) in HS. destruct (C19_solutions_extend_uniquely steps o sm r OK Ho HS ER HG) as [X _]. rewrite Hfp in X.
    destruct (X ρ1 H1) as (ρ & HA & HB). exists ρ. split; [apply ORG; assumption|]. intros w k Hk _. apply PW in Hk. rewrite HA; [unfold ρ1; rewrite Hk; reflexivity|].
    destruct (ro_map _ _ R) as (deleted & used & HD & WM). intros Q. apply (proj2 (HD k)) in Q. apply WM in Hk. destruct Hk as [[[Hk _] _] _]. contradiction.
  - apply Forall_forall. intros c Hc. rewrite fmap_length. apply elem_of_list_lookup_1 in Hc. destruct Hc as [i Hc]. destruct (Forall2_lookup_r _ _ _ _ _ HR Hc) as (c0 & Hc0 & (A & B & _)).
    split; [assumption|]. intros w Hw. apply B in Hw. destruct Hw as (k & _ & Hk). rewrite Lws. apply (wm_onto _ W). eauto.
  - intros k Hk. apply PW. apply (lo_keep _ _ _ _ _ _ L). rewrite (lo_outputs _ _ _ _ _ _ L), (lo_public _ _ _ _ _ _ L), (mp_public_inputs _ _ _ _ M), (mp_public_outputs _ _ _ _ M).
    destruct (main_node _ (co_nonempty _ _ K)) as (n' & EL' & Hn' & HL & EN & ET). rewrite EN. rewrite EL in EL'. injection EL' as <-. rewrite Em. cbn. lia.
  - rewrite !fmap_length, Em, total_clean. reflexivity.
Qed.
Print Assumptions C50_r1cs_is_equivalent_to_the_circuit.
Lemma lin_size_bound (m : lin) (N : nat) : (forall k v, m !! k = Some v -> k < N) -> size m <= N.
Proof.
  intros H. rewrite <- size_dom. transitivity (size (list_to_set (seq 0 N) : gset nat)).
  - apply subseteq_size. intros k Hk. apply elem_of_dom in Hk. destruct Hk as [v Hv]. apply elem_of_list_to_set, elem_of_seq. specialize (H k v Hv). lia.
  - rewrite size_list_to_set by apply NoDup_seq. rewrite seq_length. lia.
Qed.
Lemma lin_fits_bound p (m : lin) N : (1 < p)%Z -> (Z.of_nat N < 256 ^ 4)%Z -> 0 < N -> canon p m -> (forall k, in_lin k m -> k < N) -> lin_fits (port_field_size p) m.
Proof.
  intros Hp HN H0 HC HK. assert (HK' : forall k v, m !! k = Some v -> k < N).
  { intros k v Hk. destruct (decide (k = 0)) as [->|]; [assumption|]. apply HK. split; [assumption|eauto]. }
  split.
  - pose proof (lin_size_bound m N HK'). unfold fits. change (Z.of_nat 4) with 4%Z. lia.
  - intros k v Hk. specialize (HK' k v Hk). split; [unfold fits; change (Z.of_nat 4) with 4%Z; lia|]. destruct (C26_field_width_is_enough p Hp) as (_ & _ & Q). apply Q. pose proof (map_Forall_lookup_1 _ _ _ _ HC Hk) as B. cbv beta in B. lia.
Qed.
(** ... and the file written for it is read back as the same system: so what (1)-(5) say of the rows
    they say of the contents of the file.  The limits are those of the format: at most 2^32-1 wires
    and rows. *)
Theorem C50_file_reads_back : forall p d0 fuel steps ko o mo fl ord utf8 l i,
  prime p -> built_with (well_formed p) p d0 -> d_nodes d0 <> [] -> valid_corr_order ko -> valid_oracle o -> (forall m : gmap nat nat, mo m ≡ₚ map_to_list m) -> valid_keys ord ->
  length (d_nodes d0) <= fuel -> enough (S (total_signals d0)) steps ->
  map_to_list_ fuel steps ko o (clean_constraints d0) fl = Ok l -> port_r1cs fuel mo l false = Ok i ->
  (Z.of_nat (S (total_signals d0)) < 2 ^ 32)%Z -> (Z.of_nat (length (i_constraints i)) < 2 ^ 32)%Z -> fits 4 (Z.of_nat (port_field_size p)) ->
  (Z.of_nat (length (write_r1cs ord (port_field_size p) i)) < 2 ^ 63)%Z ->
  parse_r1cs utf8 (write_r1cs ord (port_field_size p) i) =
  IoOk (R1csData (Z.of_nat (port_field_size p)) (i_header i) (i_constraints i) (i_signals i) None None).
Proof.
  intros p d0 fuel steps ko o mo fl ord utf8 l i Hp HW HE Hko Ho Hmo Hord HF HS El Ei HT HR Hfs HL. pose proof (prime_ge_2 p Hp) as Hp2.
  destruct (last (d_nodes d0)) as [main|] eqn:Hmain; [|apply last_None in Hmain; contradiction].
  destruct (C50_r1cs_is_equivalent_to_the_circuit p d0 main fuel steps ko o mo fl Hp HW Hmain Hko Ho Hmo HF HS) as (l' & i' & El' & Ei' & _ & _ & HC & HK & HH).
  rewrite El in El'. injection El' as <-. rewrite Ei in Ei'. injection Ei' as <-.
  pose proof (well_formed_clean p d0 HW HE) as K. rewrite <- (total_clean d0) in HS. assert (HF' : length (d_nodes (clean_constraints d0)) <= fuel) by (cbn; rewrite fmap_length; assumption).
  destruct (map_to_list_spec p (clean_constraints d0) fl fuel steps ko o K Hp Hko Ho HF' HS) as (sm & r & l' & El' & ER & L). rewrite El in El'. injection El' as <-.
  destruct (port_r1cs_spec p _ fl sm r l fuel mo false K L Hmo HF') as (main' & cs & ws & g & EL & EP & _ & Lws & Hws & HG); [discriminate|]. rewrite Ei in EP. cbn in HG. subst g. injection EP as Ei'.
  assert (ES : i_signals i = Z.of_nat <$> ws) by (rewrite Ei'; reflexivity). assert (EG : i_gates i = None) by (rewrite Ei'; reflexivity).
  assert (WB : forall w k, ws !! w = Some k -> k <= total_signals d0). { intros w k Hk. apply Hws in Hk. apply (lo_range _ _ _ _ _ _ L) in Hk. rewrite total_clean in Hk. assumption. }
  assert (WL : length ws <= S (total_signals d0)).
  { assert (ND : NoDup ws). { apply NoDup_alt. intros a b k Ha Hb. apply Hws in Ha, Hb. congruence. }
    rewrite <- (seq_length (S (total_signals d0)) 0). apply submseteq_length, NoDup_submseteq; [assumption|]. intros k Hk. apply elem_of_list_lookup_1 in Hk. destruct Hk as [w Hk]. apply elem_of_seq. specialize (WB w k Hk). lia. }
  assert (LS : length (i_signals i) = length ws) by (rewrite ES, fmap_length; reflexivity).
  assert (L0 : 0 < length ws). { rewrite <- LS. eapply lookup_lt_Some. apply (HK 0). lia. }
  assert (MB : n_outputs main + n_inputs main <= total_signals d0 /\ n_public_inputs main <= n_inputs main).
  { pose proof (built_numbered p d0 (built_with_built _ _ _ HW)) as HU. destruct (main_node d0 HE) as (m & EM & Hm & HLm & _ & ET). rewrite Hmain in EM. injection EM as <-.
    destruct (lookup_lt_is_Some_2 (d_adjacency d0) (i_node (root d0))) as [es Hes]; [rewrite (nu_length _ HU); assumption|]. pose proof (nu_node _ HU _ _ _ Hm Hes) as NN.
    pose proof (nn_count _ _ _ _ NN). pose proof (nn_kinds _ _ _ _ NN). rewrite ET. lia. }
  destruct (C26_field_width_is_enough p ltac:(lia)) as (FS1 & FS2 & FS3).
  assert (F4 : forall n : nat, n <= S (total_signals d0) -> fits 4 (Z.of_nat n)) by (intros n Hn; unfold fits; change (Z.of_nat 4) with 4%Z; lia).
  rewrite (C26_reading_back_gives_the_same_system ord utf8 (port_field_size p) i Hord); [rewrite EG; reflexivity| |assumption].
  constructor.
  - auto.
  - rewrite HH. unfold header_fits. cbn [h_field h_total_wires h_public_outputs h_public_inputs h_private_inputs h_number_of_labels h_number_of_constraints]. split_and!.
    + apply FS3. lia.
    + apply F4. lia.
    + apply F4. lia.
    + apply F4. lia.
    + apply F4. lia.
    + unfold fits. change (Z.of_nat 8) with 8%Z. lia.
    + unfold fits. change (Z.of_nat 4) with 4%Z. lia.
  - rewrite HH. reflexivity.
  - rewrite HH. reflexivity.
  - apply Forall_forall. intros [[a b] c] Hc. assert (Q : row (a, b, c) ∈ row <$> i_constraints i) by (apply elem_of_list_fmap; eauto).
    destruct (proj1 (Forall_forall _ _) HC _ Q) as [(Ca & Cb & Cc) HB]. cbn [row c_a c_b c_c fst snd] in Ca, Cb, Cc. rewrite LS in HB.
    split_and!; (eapply (lin_fits_bound p _ (length ws)); [lia|lia|assumption|assumption|]); intros k Hk; apply HB; unfold in_c; cbn; auto.
  - rewrite ES. apply Forall_fmap, Forall_forall. intros k Hk. apply elem_of_list_lookup_1 in Hk. destruct Hk as [w Hk]. apply WB in Hk. unfold compose, fits. change (Z.of_nat 8) with 8%Z. lia.
  - intros used applied Q. rewrite EG in Q. discriminate.
Qed.
Print Assumptions C50_file_reads_back.

(** ** C51 *)
(** The custom gates of the R1CS: the table lists the gate templates with their parameters, under the
    name up to the last parenthesis; the applications list, depth first, every gate instance reached
    without entering another gate, with the place in the table of its template's name, and the wires
    of its signals in the order of declaration. *)
Theorem C51_custom_gates : forall p d fuel steps ko o mo fl, prime p -> compiled p d -> valid_corr_order ko -> valid_oracle o -> (forall m : gmap nat nat, mo m ≡ₚ map_to_list m) ->
  length (d_nodes d) <= fuel -> enough (S (total_signals d)) steps -> (forall n, n ∈ custom_nodes d -> has_parenthesis (n_template n)) ->
  exists g l i used applied, enumerates (gate_instance d) g /\ map_to_list_ fuel steps ko o d fl = Ok l /\ port_r1cs fuel mo l true = Ok i /\
    i_gates i = Some (used, applied) /\ gate_table d used /\ Forall2 (gate_applied d (is_wire i)) g applied.
Proof.
  intros p d fuel steps ko o mo fl Hp H Hko Ho Hmo HF HS HP. apply compiled_facts in H. destruct (map_to_list_spec p d fl fuel steps ko o H Hp Hko Ho HF HS) as (sm & r & l & E & ER & L).
  destruct (port_r1cs_spec p d fl sm r l fuel mo true H L Hmo HF) as (main & cs & ws & g & EL & EP & _ & Lws & Hws & (used & applied & -> & GT & GA)); [auto|].
  exists (gates d), l. eexists _, used, applied. split; [apply gates_enumerates; apply H|]. split; [assumption|]. split; [exact EP|]. split; [reflexivity|]. split; [assumption|].
  eapply Forall2_impl; [exact GA|]. intros x a (n & i & A1 & A2 & A3 & A4 & A5). exists n, i. split_and!; try assumption.
  eapply Forall2_impl; [exact A5|]. intros s w (k & w' & B1 & B2 & B3). exists k, w'. split_and!; try assumption. match goal with |- is_wire ?i _ _ => apply (port_wires i ws eq_refl) end. apply Hws. assumption.
Qed.
Print Assumptions C51_custom_gates.
Theorem C51_custom_gates_without_simplification : forall p d fuel ko, compiled p d -> valid_corr_order ko -> length (d_nodes d) <= fuel ->
  (forall n, n ∈ custom_nodes d -> has_parenthesis (n_template n)) ->
  exists g i used applied, enumerates (gate_instance d) g /\ dag_r1cs fuel ko d true = Ok i /\
    i_gates i = Some (used, applied) /\ gate_table d used /\ Forall2 (gate_applied d (is_wire i)) g applied.
Proof.
  intros p d fuel ko H Hko HF HP. apply compiled_facts in H. destruct (dag_r1cs_spec p d fuel ko true H Hko HF) as (main & g & EL & E & (used & applied & -> & GT & GA)); [auto|].
  exists (gates d). eexists _, used, applied. split; [apply gates_enumerates; apply H|]. split; [exact E|]. split; [reflexivity|]. split; [assumption|].
  pose proof (gates_enumerates d (co_numbered _ _ H) (co_nonempty _ _ H)) as GE.
  apply Forall2_same_length_lookup_2; [eapply Forall2_length; exact GA|]. intros j x a Hx Ha. pose proof (Forall2_lookup_lr _ _ _ _ _ _ GA Hx Ha) as (n & i & A1 & A2 & A3 & A4 & A5).
  apply elem_of_list_lookup_2 in Hx. apply (en_all _ _ GE) in Hx. destruct Hx as [V _]. destruct (visited_below d x (co_numbered _ _ H) V) as [_ HI].
  exists n, i. split_and!; try assumption. eapply Forall2_impl; [exact A5|]. intros s w (k & w' & B1 & B2 & B3). exists k, w'. split_and!; try assumption.
  match goal with |- is_wire ?i _ _ => apply (port_wires i (seq 0 (S (total_signals d))) eq_refl) end. injection B2 as <-. apply lookup_seq. split; [reflexivity|].
  pose proof (inst_range d x n (co_numbered _ _ H) HI A1). pose proof (na_range _ (co_named _ _ H _ _ A1) _ _ B1). unfold global. lia.
Qed.
Print Assumptions C51_custom_gates_without_simplification.

(** ** Examples *)
(** The header counts the private inputs declared, also those the simplification removed: here main has
    the private inputs 3 and 4, of which only 3 is a wire. *)
Definition ex_list : constraint_list := match map_to_list_ 3 (2 ^ 23 + 2) ko0 ex_oracle ex_clean ex_flags with Ok l => l | _ => ConstraintList 0 (Encoding 0 0 [] []) 0 0 0 0 0 [] ∅ end.
Lemma ex_list_ok : map_to_list_ 3 (2 ^ 23 + 2) ko0 ex_oracle ex_clean ex_flags = Ok ex_list.
Proof. vm_compute. reflexivity. Qed.
Definition no_r1cs : r1cs_input := R1csInput (HeaderData 0 0 0 0 0 0 0) [] [] None.
Definition ex_r1cs (b : bool) : r1cs_input := match port_r1cs 3 map_to_list ex_list b with Ok i => i | _ => no_r1cs end.
Lemma ex_r1cs_ok b : port_r1cs 3 map_to_list ex_list b = Ok (ex_r1cs b).
Proof. destruct b; vm_compute; reflexivity. Qed.
Lemma ex_enough : enough (S (total_signals ex_dag)) (2 ^ 23 + 2) /\ enough (S (total_signals ex_clean)) (2 ^ 23 + 2).
Proof.
  assert (E : total_signals ex_dag = 21) by (vm_compute; reflexivity). assert (E' : total_signals ex_clean = 21) by (vm_compute; reflexivity).
  rewrite E, E'. unfold enough. split; apply Nat.le_refl.
Qed.
Lemma mo_ok : forall m : gmap nat nat, map_to_list m ≡ₚ map_to_list m.
Proof. reflexivity. Qed.

Definition ex_main : node := default (node_new 0 "" [] false false) (last (d_nodes ex_dag)).
Definition ex_edges : list edge := default [] (last (d_adjacency ex_dag)).

Theorem C50_private_inputs_in_header_refuted :
  exists d0 main l i, built_with (well_formed 7) 7 d0 /\ last (d_nodes d0) = Some main /\
    map_to_list_ 3 (2 ^ 23 + 2) ko0 ex_oracle (clean_constraints d0) ex_flags = Ok l /\ port_r1cs 3 map_to_list l false = Ok i /\
    h_private_inputs (i_header i) = 2%Z /\ n_corr main !! "unused"%string = Some 4 /\ 4 ∈ n_locals main /\ forall w, ~ is_wire i 4 w.
Proof.
  exists ex_dag, ex_main, ex_list, (ex_r1cs false). split; [exact ex_well_formed|]. split; [vm_compute; reflexivity|].
  split; [exact ex_list_ok|]. split; [apply ex_r1cs_ok|]. split; [vm_compute; reflexivity|]. split; [vm_compute; reflexivity|]. split; [decide_now|].
  intros w Hw. unfold is_wire in Hw. assert (Q : (4%Z : Z) ∈ i_signals (ex_r1cs false)) by (eapply elem_of_list_lookup_2; exact Hw). revert Q. decide_now.
Qed.
Print Assumptions C50_private_inputs_in_header_refuted.

Definition ex_values (l : list (nat * Z)) : assignment := fun k => default 0%Z ((list_to_map l : gmap nat Z) !! k).
Example C23_example : exists n es, built 7 ex_dag /\ built_with fresh 7 ex_dag /\ history (fun d o => fresh d o /\ in_order d o) 7 ex_ops ex_dag /\
  d_nodes ex_dag !! 2 = Some n /\ d_adjacency ex_dag !! 2 = Some es /\ last (d_nodes ex_dag) = Some n /\ last (d_adjacency ex_dag) = Some es /\
  n_signals n = 21 /\ length es = 3 /\ ((fun e => (e_label e, e_in e, e_out e)) <$> es) = [("b[0]"%string, 5, 12); ("b[1]"%string, 12, 19); ("g"%string, 19, 21)] /\
  n_corr n !! "b[1].r"%string = Some 13.
Proof.
  exists ex_main, ex_edges. split; [eapply built_with_built; exact ex_fresh|]. split; [exact ex_fresh|]. split; [eapply history_mono; [|exact ex_history]; intros ? ? [[? [? [? ?]]] _]; auto|].
  repeat (split; [vm_compute; reflexivity|]). vm_compute; reflexivity.
Qed.
Example C24_example : compiled 7 ex_clean /\ valid_corr_order ko0 /\ length (d_nodes ex_clean) <= 3 /\ total_signals ex_clean = 21 /\
  (exists x, instance ex_clean x /\ i_pos x = [1; 0] /\ i_off x = 17 /\ i_path x = "main.b[1].a"%string) /\
  exists i, dag_r1cs 3 ko0 ex_clean false = Ok i /\ length (i_constraints i) = 14 /\ satisfies 7 (ex_values [(1, 4%Z); (10, 3%Z); (17, 3%Z)]) (row <$> i_constraints i).
Proof.
  split; [exact ex_compiled|]. split; [exact ko0_ok|]. split; [vm_compute; lia|]. split; [vm_compute; reflexivity|]. split.
  - eexists. split; [eapply inst_sub with (j := 0); [eapply inst_sub with (j := 1); [eapply inst_main|..]|..]|]; try (vm_compute; reflexivity).
    split_and!; vm_compute; reflexivity.
  - eexists. split; [vm_compute; reflexivity|]. split; [reflexivity|]. repeat (apply Forall_cons_2; [vm_compute; reflexivity|]). apply Forall_nil_2.
Qed.
Example C25_example : exists w, produce_witness 3 ko0 ex_clean = Ok w /\ w = seq 0 22 /\ history (well_formed 7) 7 ex_ops ex_dag /\
  outputs_of (current ex_ops) = ["out"%string] /\ public_inputs_of (current ex_ops) = ["p"%string] /\ private_inputs_of (current ex_ops) = ["q"; "unused"]%string.
Proof.
  exists (seq 0 22). split; [vm_compute; reflexivity|]. split; [reflexivity|]. split; [eapply history_mono; [|exact ex_history]; intros ? ? [? ?]; assumption|]. split_and!; reflexivity.
Qed.
Example C45_example : exists sm enc, map_to_simplifier 3 ko0 ex_clean ex_flags = Ok (sm, enc) /\
  length (sm_equalities sm) = 8 /\ length (sm_cons_equalities sm) = 2 /\ length (sm_linear sm) = 1 /\ length (sm_non_linear sm) = 3.
Proof. eexists _, _. split; [vm_compute; reflexivity|]. split_and!; reflexivity. Qed.
Example C22_example : prime 7 /\ valid_oracle ex_oracle /\ enough (S (total_signals ex_dag)) (2 ^ 23 + 2) /\
  cl_map ex_list !! 1 = Some 1 /\ cl_map ex_list !! 2 = Some 2 /\ cl_map ex_list !! 5 = None /\ cl_map ex_list !! 18 = Some 8.
Proof. split; [exact prime_7|]. split; [exact ex_oracle_ok|]. split; [exact (proj1 ex_enough)|]. split_and!; vm_compute; reflexivity. Qed.
Example C44_example : prime 7 /\ compiled 7 ex_clean /\ built_with (fun d o => well_formed 7 d o /\ well_named d o) 7 ex_dag /\
  valid_oracle ex_oracle /\ enough (S (total_signals ex_clean)) (2 ^ 23 + 2) /\
  exists lines, port_sym 3 ex_list = Ok lines /\ sym_line <$> lines =
    ["1,1,2,main.out"; "2,2,2,main.p"; "3,3,2,main.q"; "4,-1,2,main.unused"; "5,-1,2,main.m"; "6,-1,1,main.b[0].r";
     "7,-1,1,main.b[0].x"; "8,-1,1,main.b[0].y"; "9,-1,1,main.b[0].t"; "10,-1,1,main.b[0].u"; "11,4,0,main.b[0].a.o"; "12,5,0,main.b[0].a.i";
     "13,6,1,main.b[1].r"; "14,-1,1,main.b[1].x"; "15,7,1,main.b[1].y"; "16,-1,1,main.b[1].t"; "17,-1,1,main.b[1].u"; "18,8,0,main.b[1].a.o";
     "19,9,0,main.b[1].a.i"; "20,10,0,main.g.o"; "21,11,0,main.g.i"]%string.
Proof.
  split; [exact prime_7|]. split; [exact ex_compiled|]. split; [exact ex_built|]. split; [exact ex_oracle_ok|]. split; [exact (proj2 ex_enough)|]. eexists. split; vm_compute; reflexivity.
Qed.
Definition ex_bytes : bytes := write_r1cs (fun m => elements (dom m)) (port_field_size 7) (ex_r1cs false).
Example C50_example : i_signals (ex_r1cs false) = [0; 1; 2; 3; 11; 12; 13; 15; 18; 19; 20; 21]%Z /\
  length (i_constraints (ex_r1cs false)) = 6 /\ fits 4 (Z.of_nat (port_field_size 7)) /\ length ex_bytes = 460 /\ (Z.of_nat (length ex_bytes) < 2 ^ 63)%Z /\
  satisfies 7 (ex_values [(1, 4%Z)]) (row <$> i_constraints (ex_r1cs false)).
Proof.
  split; [vm_compute; reflexivity|]. split; [vm_compute; reflexivity|]. split; [vm_compute; split; [discriminate|reflexivity]|]. split; [vm_compute; reflexivity|]. split; [vm_compute; reflexivity|].
  assert (E : exists rows, row <$> i_constraints (ex_r1cs false) = rows /\ satisfies 7 (ex_values [(1, 4%Z)]) rows); [|destruct E as (? & -> & ?); assumption].
  eexists. split; [vm_compute; reflexivity|]. repeat (apply Forall_cons_2; [vm_compute; reflexivity|]). apply Forall_nil_2.
Qed.
Lemma ex_consistent_rows : exists ρ, circuit_holds 7 ex_dag ρ.
Proof.
  destruct C24_example as (_ & _ & _ & _ & _ & i & E & _ & S). eexists. eapply (C24_rows_hold_iff_the_circuit_holds 7 ex_dag ko0 3 i ex_well_formed); [vm_compute; discriminate|exact ko0_ok|vm_compute; lia|exact E|exact S].
Qed.
(** the hypothesis of (2): the definitions of this circuit can be satisfied together *)
Example C50_consistent_example : consistent 7 ex_clean.
Proof.
  destruct ex_consistent_rows as [ρ H]. exists ρ. intros x c Hx Hc _. apply (circuit_holds_clean 7 ex_dag) in H.
  specialize (H x Hx). exact (proj1 (Forall_forall _ _) H c Hc).
Qed.
Example C51_example : (forall n, n ∈ custom_nodes ex_clean -> has_parenthesis (n_template n)) /\ length (custom_nodes ex_clean) = 1 /\
  i_gates (ex_r1cs true) = Some ([([65], [3])], [(0, [5; 4]); (0, [9; 8]); (0, [11; 10])])%Z.
Proof.
  split; [|split; vm_compute; reflexivity]. assert (Q : Forall (fun n => has_parenthesis (n_template n)) (custom_nodes ex_clean)); [|apply Forall_forall; exact Q].
  assert (E : exists l, custom_nodes ex_clean = l /\ Forall (fun n => has_parenthesis (n_template n)) l); [|destruct E as (? & -> & ?); assumption].
  eexists. split; [vm_compute; reflexivity|]. apply Forall_cons_2; [|apply Forall_nil_2]. unfold has_parenthesis. cbn. decide_now.
Qed.
