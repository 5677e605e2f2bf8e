(** What the walks over the circuit produce: witness order, flattened constraints, classification. *)
From stdpp Require Import prelude gmap fin_maps sorting strings.
From Coq Require Import ZArith Lia.
From Verif Require Import ModArithModel ModArithProofs AlgebraModel AlgebraSpec AlgebraProofs LinearSimpModel LinearSpec PipelineModel PipelineSpec
  RenumberProofs DagModel DagSpec DagProofs WalkProofs.
Open Scope nat_scope.

(** ** more invariants of the construction *)
Definition all_nodes (Q : node -> Prop) (d : dag) : Prop := forall i n, d_nodes d !! i = Some n -> Q n.
Lemma all_nodes_on_main Q d f : all_nodes Q d -> (forall n, last (d_nodes d) = Some n -> Q n -> Q (f n)) -> all_nodes Q (on_main f d).
Proof.
  intros HN HF i n. unfold on_main. cbn [d_nodes]. destruct (decide (i = length (d_nodes d) - 1)) as [->|].
  - rewrite list_lookup_alter. intros H. apply fmap_Some in H. destruct H as (n0 & H & ->). apply HF; [|eapply HN; eassumption].
    rewrite last_lookup, <- H. f_equal. lia.
  - rewrite list_lookup_alter_ne by lia. apply HN.
Qed.
Lemma all_nodes_add Q d tn ps par cus : all_nodes Q d -> Q (node_new (length (d_nodes d)) tn ps par cus) -> all_nodes Q (add_node tn ps par cus d).
Proof.
  intros HN H0 i n. unfold add_node. cbn [d_nodes]. intros Hn. apply lookup_app_Some in Hn. destruct Hn as [Hn|[Li Hn]]; [eapply HN; eassumption|].
  apply list_lookup_singleton_Some in Hn. destruct Hn as [_ <-]. assumption.
Qed.
Definition ordered_ok (n : node) : Prop := forall s, s ∈ n_ordered n -> exists id, n_corr n !! s = Some id /\ id ∈ n_locals n.
Lemma ordered_signal n n' name id : ordered_ok n -> n_corr n !! name = None -> n_ordered n' = n_ordered n -> n_corr n' = <[name := id]> (n_corr n) ->
  n_locals n ⊆ n_locals n' -> ordered_ok n'.
Proof.
  intros H HF E1 E2 E3 s Hs. rewrite E1 in Hs. destruct (H s Hs) as (i & A & B). exists i. rewrite E2, lookup_insert_ne by congruence. auto.
Qed.
Lemma ordered_step ko d o d' : valid_corr_order ko -> all_nodes ordered_ok d -> fresh d o -> in_scope d o -> dag_step ko d o = Ok d' -> all_nodes ordered_ok d'.
Proof.
  intros Hko HN. destruct o as [tn ps par cus|name pub|name|name|name|to label par|c|s|k]; cbn [dag_step in_scope fresh]; intros FR F E.
  - injection E as <-. apply all_nodes_add; [assumption|]. intros s Hs. apply elem_of_nil in Hs. contradiction.
  - injection E as <-. apply all_nodes_on_main; [assumption|]. intros n L H. rewrite L in FR. eapply (ordered_signal n _ name); [assumption|assumption|reflexivity|reflexivity|cbn; set_solver].
  - injection E as <-. apply all_nodes_on_main; [assumption|]. intros n L H. rewrite L in FR. eapply (ordered_signal n _ name); [assumption|assumption|reflexivity|reflexivity|cbn; set_solver].
  - injection E as <-. apply all_nodes_on_main; [assumption|]. intros n L H. rewrite L in FR. eapply (ordered_signal n _ name); [assumption|assumption|reflexivity|reflexivity|cbn; set_solver].
  - injection E as <-. apply all_nodes_on_main; [assumption|]. intros n L H s Hs. rewrite L in F. cbn in Hs |- *. apply elem_of_app in Hs.
    destruct Hs as [Hs|Hs]; [apply H; assumption|]. apply elem_of_list_singleton in Hs. subst s. assumption.
  - assert (HNE : d_nodes d <> []). { intros Z. unfold add_edge, main_id in E. rewrite Z in E. discriminate. }
    destruct (add_edge_spec ko d to label par Hko HNE) as [(Hto & source & t & corr & reach & L & Hs & Ht & EA & HC & _)|[_ EA]];
      rewrite EA in E; injection E as <-; [|assumption]. rewrite L in FR.
    intros i n. cbn [d_nodes]. intros Hn. destruct (decide (i = length (d_nodes d) - 1)) as [->|].
    2: { rewrite list_lookup_insert_ne in Hn by lia. eapply HN; eassumption. }
    rewrite list_lookup_insert in Hn by (eapply lookup_lt_Some; eassumption). injection Hn as <-.
    intros s Hin. cbn [with_sub n_ordered n_corr n_locals] in Hin |- *. destruct (HN _ _ Hs s Hin) as (v & Hv & Hl). exists v. split; [|assumption].
    apply HC. right. split; [|assumption]. intros s' id H1 H2 ->. rewrite (FR t s' id Ht H1 H2) in Hv. discriminate.
  - injection E as <-. apply all_nodes_on_main; [assumption|]. intros n _ H s Hs. apply H. exact Hs.
  - injection E as <-. apply all_nodes_on_main; [assumption|]. intros n _ H s0 Hs. apply H. exact Hs.
  - injection E as <-. apply all_nodes_on_main; [assumption|]. intros n _ H s0 Hs. apply H. exact Hs.
Qed.
Lemma all_nodes_new Q p : all_nodes Q (dag_new p).
Proof. intros i n H. cbn in H. rewrite lookup_nil in H. discriminate. Qed.
Lemma built_ordered p d : built_with (fun d o => fresh d o /\ in_scope d o) p d -> all_nodes ordered_ok d.
Proof. induction 1 as [|ko d o d' Hko H IH [F S] E]; [apply all_nodes_new|eapply ordered_step; eassumption]. Qed.
Definition canon_node (p : Z) (n : node) : Prop := Forall (canon_c p) (n_constraints n).
Lemma canon_step p ko d o d' : valid_corr_order ko -> all_nodes (canon_node p) d -> canonical p o -> dag_step ko d o = Ok d' -> all_nodes (canon_node p) d'.
Proof.
  intros Hko HN. destruct o as [tn ps par cus|name pub|name|name|name|to label par|c|s|k]; cbn [dag_step canonical]; intros F E;
    try (injection E as <-; apply all_nodes_on_main; [assumption|]; intros n _ H; exact H).
  - injection E as <-. apply all_nodes_add; [assumption|]. apply Forall_nil_2.
  - assert (HNE : d_nodes d <> []). { intros Z. unfold add_edge, main_id in E. rewrite Z in E. discriminate. }
    destruct (add_edge_spec ko d to label par Hko HNE) as [(Hto & source & t & corr & reach & L & Hs & Ht & EA & _ & _)|[_ EA]];
      rewrite EA in E; injection E as <-; [|assumption].
    intros i n. cbn [d_nodes]. intros Hn. destruct (decide (i = length (d_nodes d) - 1)) as [->|].
    2: { rewrite list_lookup_insert_ne in Hn by lia. eapply HN; eassumption. }
    rewrite list_lookup_insert in Hn by (eapply lookup_lt_Some; eassumption). injection Hn as <-. exact (HN _ _ Hs).
  - injection E as <-. apply all_nodes_on_main; [assumption|]. intros n _ H. unfold canon_node. cbn. apply Forall_app_2; [exact H|]. apply Forall_cons_2; [assumption|apply Forall_nil_2].
Qed.
Lemma built_canon p d : built_with (fun _ => canonical p) p d -> all_nodes (canon_node p) d.
Proof. induction 1; [apply all_nodes_new|eapply canon_step; eassumption]. Qed.
Lemma built_field p d : built p d -> d_field d = p.
Proof.
  induction 1 as [|ko d o d' Hko H IH E]; [reflexivity|]. rewrite <- IH. clear IH H.
  destruct o as [tn ps par cus|name pub|name|name|name|to label par|c|s|k]; cbn [dag_step] in E; try (injection E as <-; reflexivity).
  assert (HNE : d_nodes d <> []). { intros Z. unfold add_edge, main_id in E. rewrite Z in E. discriminate. }
  destruct (add_edge_spec ko d to label par Hko HNE) as [(Hto & source & t & corr & reach & L & Hs & Ht & EA & _ & _)|[_ EA]];
    rewrite EA in E; injection E as <-; reflexivity.
Qed.
Lemma ordered_clean d : all_nodes ordered_ok d -> all_nodes ordered_ok (clean_constraints d).
Proof.
  intros HN i n. cbn [clean_constraints d_nodes]. rewrite list_lookup_fmap. intros H. apply fmap_Some in H. destruct H as (n0 & H & ->).
  exact (HN _ _ H).
Qed.
Lemma remove_zeros_canon p m : canon p m -> canon p (remove_zeros m).
Proof. intros H k v E. apply map_filter_lookup_Some in E. eapply H. apply E. Qed.
Lemma remove_zeros_nonzero m : nonzero (remove_zeros m).
Proof. intros k v E. apply map_filter_lookup_Some in E. apply E. Qed.
(** the constraints after cleaning *)
Definition clean_ok (p : Z) (n : node) : Prop :=
  Forall (fun c => canon_c p c /\ nonzero_c c /\ is_empty c = false) (n_constraints n).
Lemma canon_clean p d : all_nodes (canon_node p) d -> all_nodes (clean_ok p) (clean_constraints d).
Proof.
  intros HN i n. cbn [clean_constraints d_nodes]. rewrite list_lookup_fmap. intros H. apply fmap_Some in H. destruct H as (n0 & H & ->).
  apply Forall_forall. intros c Hc. apply elem_of_clean in Hc. destruct Hc as (He & c0 & Hc & ->).
  destruct (proj1 (Forall_forall _ _) (HN _ _ H) c0 Hc) as (A & B & C). split; [|split; [|assumption]].
  - unfold canon_c. cbn [c_remove_zeros c_a c_b c_c]. split_and!; apply remove_zeros_canon; assumption.
  - unfold nonzero_c. cbn [c_remove_zeros c_a c_b c_c]. split_and!; apply remove_zeros_nonzero.
Qed.

(** ** the signal numbers of the instances *)
Lemma concat_flat_imap {A B C} (f : B -> list C) (g : nat -> A -> list B) j l :
  concat (f <$> flat_imap g j l) = flat_imap (fun j a => concat (f <$> g j a)) j l.
Proof. revert j. induction l as [|a l IH]; intros j; [reflexivity|]. cbn [flat_imap]. rewrite fmap_app, concat_app, IH. reflexivity. Qed.
Lemma NoDup_flat_imap {A B} (g : nat -> A -> list B) j l :
  (forall i a, l !! i = Some a -> NoDup (g (j + i) a)) ->
  (forall i i' a a' b, l !! i = Some a -> l !! i' = Some a' -> b ∈ g (j + i) a -> b ∈ g (j + i') a' -> i = i') ->
  NoDup (flat_imap g j l).
Proof.
  revert j. induction l as [|a l IH]; intros j HN HD; [constructor|]. cbn [flat_imap]. apply NoDup_app. split; [|split].
  - rewrite <- (Nat.add_0_r j). apply (HN 0 a eq_refl).
  - intros b H1 H2. apply elem_of_flat_imap in H2. destruct H2 as (i & a' & H2 & H3). rewrite <- (Nat.add_0_r j) in H1.
    replace (S j + i) with (j + S i) in H3 by lia. pose proof (HD 0 (S i) a a' b eq_refl H2 H1 H3). discriminate.
  - apply IH.
    + intros i a' H. replace (S j + i) with (j + S i) by lia. apply HN. assumption.
    + intros i i' a1 a2 b H1 H2 H3 H4. replace (S j + i) with (j + S i) in H3 by lia. replace (S j + i') with (j + S i') in H4 by lia.
      pose proof (HD (S i) (S i') a1 a2 b H1 H2 H3 H4). lia.
Qed.
Definition width_of (d : dag) (x : inst) : nat := n_signals (node_at d (i_node x)).
Lemma elem_of_inst_signals d x id n : named d -> d_nodes d !! i_node x = Some n -> (id ∈ inst_signals d x <-> exists k, k ∈ n_locals n /\ id = global x k).
Proof.
  intros HN Hn. unfold inst_signals. rewrite (node_at_lookup _ _ _ Hn), elem_of_list_fmap. split.
  - intros (k & -> & H). rewrite elem_of_sorted_ids in H by (eapply HN; eassumption). eauto.
  - intros (k & H & ->). exists k. split; [reflexivity|]. rewrite elem_of_sorted_ids by (eapply HN; eassumption). assumption.
Qed.
Section numbers.
  Context (d : dag) (HU : numbered d) (HN : named d).
  Lemma node_edges i n : d_nodes d !! i = Some n -> node_num (d_nodes d) i n (edges_of d i).
  Proof.
    intros Hn. unfold edges_of. destruct (lookup_lt_is_Some_2 (d_adjacency d) i) as [es Hes]. { rewrite (nu_length _ HU). eapply lookup_lt_Some. eassumption. }
    rewrite Hes. exact (nu_node _ HU _ _ _ Hn Hes).
  Qed.
  Lemma walk_signal_range fuel x n id : i_node x < fuel -> d_nodes d !! i_node x = Some n ->
    (id ∈ concat (inst_signals d <$> walk (edges_of d) fuel x) <-> i_off x < id <= i_off x + n_signals n).
  Proof.
    revert x n. induction fuel as [|fuel IH]; intros x n HF Hn; [lia|]. cbn [walk]. rewrite fmap_cons. cbn [concat]. rewrite elem_of_app, concat_flat_imap.
    rewrite (elem_of_inst_signals d x id n HN Hn), elem_of_flat_imap. pose proof (node_edges _ _ Hn) as NN.
    assert (HC : forall j e, edges_of d (i_node x) !! j = Some e ->
      (id ∈ concat (inst_signals d <$> walk (edges_of d) fuel (child x j e)) <-> i_off x + e_in e < id <= i_off x + e_out e)).
    { intros j e Hj. destruct (nn_edge _ _ _ _ NN e (elem_of_list_lookup_2 _ _ _ Hj)) as (A & B & t & C & D).
      rewrite (IH (child x j e) t); cbn [child i_node i_off]; [|lia|assumption]. rewrite D. lia. }
    split.
    - intros [(k & Hk & ->)|(j & e & Hj & H)].
      + pose proof (nn_local _ _ _ _ NN k Hk). unfold global. lia.
      + cbn [Nat.add] in H. rewrite (HC j e Hj) in H. destruct (nn_edge _ _ _ _ NN e (elem_of_list_lookup_2 _ _ _ Hj)) as (A & B & t & C & D). lia.
    - intros H. destruct (nn_cover _ _ _ _ NN (id - i_off x)) as [Hl|(e & He & HR)]; [lia| |].
      + left. exists (id - i_off x). split; [assumption|]. unfold global. lia.
      + right. apply elem_of_list_lookup in He. destruct He as [j Hj]. exists j, e. split; [assumption|]. cbn [Nat.add]. rewrite (HC j e Hj).
        unfold in_range in HR. lia.
  Qed.
  Lemma walk_signal_nodup fuel x n : i_node x < fuel -> d_nodes d !! i_node x = Some n -> NoDup (concat (inst_signals d <$> walk (edges_of d) fuel x)).
  Proof.
    revert x n. induction fuel as [|fuel IH]; intros x n HF Hn; [lia|]. cbn [walk]. rewrite fmap_cons. cbn [concat]. rewrite concat_flat_imap.
    pose proof (node_edges _ _ Hn) as NN.
    assert (HC : forall j e id, edges_of d (i_node x) !! j = Some e -> id ∈ concat (inst_signals d <$> walk (edges_of d) fuel (child x j e)) -> in_range e (id - i_off x)).
    { intros j e id Hj H. destruct (nn_edge _ _ _ _ NN e (elem_of_list_lookup_2 _ _ _ Hj)) as (A & B & t & C & D).
      rewrite (walk_signal_range fuel (child x j e) t) in H; cbn [child i_node i_off] in *; [|lia|assumption]. unfold in_range. lia. }
    apply NoDup_app. split; [|split].
    - unfold inst_signals. apply nodup_fmap_inj; [intros a b _ _; unfold global; lia|]. rewrite (node_at_lookup _ _ _ Hn). apply nodup_sorted_ids. eapply HN. eassumption.
    - intros id H1 H2. rewrite (elem_of_inst_signals d x id n HN Hn) in H1. destruct H1 as (k & Hk & ->). apply elem_of_flat_imap in H2. destruct H2 as (j & e & Hj & H2).
      apply (HC j e _ Hj) in H2. replace (global x k - i_off x) with k in H2 by (unfold global; lia).
      exact (nn_disj1 _ _ _ _ NN k e Hk (elem_of_list_lookup_2 _ _ _ Hj) H2).
    - apply NoDup_flat_imap.
      + intros j e Hj. destruct (nn_edge _ _ _ _ NN e (elem_of_list_lookup_2 _ _ _ Hj)) as (A & B & t & C & D). cbn [Nat.add].
        eapply IH; [|cbn [child i_node]; eassumption]. cbn [child i_node]. lia.
      + intros j j' e e' id Hj Hj' H1 H2. cbn [Nat.add] in H1, H2. apply (HC _ _ _ Hj) in H1. apply (HC _ _ _ Hj') in H2.
        exact (nn_disj2 _ _ _ _ NN _ _ _ _ _ Hj Hj' H1 H2).
  Qed.
  Lemma walk_signal_seq (HC : compact d) fuel x n : i_node x < fuel -> d_nodes d !! i_node x = Some n ->
    concat (inst_signals d <$> walk (edges_of d) fuel x) = seq (i_off x + 1) (n_signals n).
  Proof.
    revert x n. induction fuel as [|fuel IH]; intros x n HF Hn; [lia|]. cbn [walk]. rewrite fmap_cons. cbn [concat]. rewrite concat_flat_imap.
    pose proof (node_edges _ _ Hn) as NN.
    destruct (lookup_lt_is_Some_2 (d_adjacency d) (i_node x)) as [es Hes]. { rewrite (nu_length _ HU). eapply lookup_lt_Some. eassumption. }
    assert (EE : edges_of d (i_node x) = es) by (unfold edges_of; rewrite Hes; reflexivity). rewrite EE in NN |- *.
    pose proof (HC _ _ _ Hn Hes) as CN.
    assert (E1 : inst_signals d x = seq (i_off x + 1) (size (n_locals n))).
    { unfold inst_signals. rewrite (node_at_lookup _ _ _ Hn). rewrite (sorted_ids_compact n es (HN _ _ Hn) CN).
      apply list_eq. intros i. rewrite list_lookup_fmap. destruct (decide (i < size (n_locals n))).
      - rewrite !lookup_seq_lt by lia. cbn. unfold global. f_equal. lia.
      - rewrite !lookup_seq_ge by lia. reflexivity. }
    rewrite E1. destruct CN as (_ & CH & _).
    assert (G : forall es a b j0, chain a es b -> (forall e, e ∈ es -> e_goes_to e < i_node x /\ exists t, d_nodes d !! e_goes_to e = Some t /\ e_out e = e_in e + n_signals t) ->
      a <= b /\ flat_imap (fun j e => concat (inst_signals d <$> walk (edges_of d) fuel (child x j e))) j0 es = seq (i_off x + a + 1) (b - a)).
    { clear - IH HF. induction es as [|e es IHe]; intros a b j0 Hc He; cbn [chain flat_imap] in *.
      - subst b. split; [lia|]. replace (a - a) with 0 by lia. reflexivity.
      - destruct Hc as (Ha & Hb & Hc). destruct (IHe _ _ (S j0) Hc) as [L ->]; [intros e' H'; apply He; right; assumption|].
        destruct (He e) as (A & t & C & D); [left|]. rewrite (IH (child x j0 e) t); cbn [child i_node i_off]; [|lia|assumption].
        split; [lia|]. replace (b - a) with (n_signals t + (b - e_out e)) by lia. rewrite seq_app. f_equal; f_equal; lia. }
    destruct (G es (size (n_locals n)) (n_signals n) 0 CH) as [L ->].
    { intros e He. destruct (nn_edge _ _ _ _ NN e He) as (A & B & t & C & D). eauto. }
    replace (n_signals n) with (size (n_locals n) + (n_signals n - size (n_locals n))) at 2 by lia.
    rewrite seq_app. f_equal. f_equal. lia.
  Qed.
End numbers.
Lemma main_node d : d_nodes d <> [] -> exists n, last (d_nodes d) = Some n /\ d_nodes d !! i_node (root d) = Some n /\ i_node (root d) < length (d_nodes d) /\ node_at d (length (d_nodes d) - 1) = n /\ total_signals d = n_signals n.
Proof.
  intros HE. destruct (last (d_nodes d)) as [n|] eqn:EL; [|apply last_None in EL; contradiction]. exists n.
  pose proof (last_nonempty _ _ EL) as [Hn HP]. unfold total_signals. rewrite EL. cbn [root i_node]. rewrite (node_at_lookup _ _ _ Hn). split_and!; auto. lia.
Qed.
Lemma all_signals_range d id : numbered d -> named d -> d_nodes d <> [] ->
  (id ∈ concat (inst_signals d <$> all_instances d) <-> 1 <= id <= total_signals d).
Proof.
  intros HU HN HE. destruct (main_node d HE) as (n & _ & Hn & HL & _ & ->). unfold all_instances. rewrite (walk_signal_range d HU HN _ _ n id HL Hn). cbn [root i_off]. lia.
Qed.
Lemma all_signals_nodup d : numbered d -> named d -> d_nodes d <> [] -> NoDup (concat (inst_signals d <$> all_instances d)).
Proof. intros HU HN HE. destruct (main_node d HE) as (n & _ & Hn & HL & _ & _). exact (walk_signal_nodup d HU HN _ _ n HL Hn). Qed.
Lemma all_signals_seq d : numbered d -> named d -> compact d -> d_nodes d <> [] -> concat (inst_signals d <$> all_instances d) = seq 1 (total_signals d).
Proof. intros HU HN HC HE. destruct (main_node d HE) as (n & _ & Hn & HL & _ & ->). exact (walk_signal_seq d HU HN HC _ _ n HL Hn). Qed.
Lemma all_signals_perm d : numbered d -> named d -> d_nodes d <> [] -> concat (inst_signals d <$> all_instances d) ≡ₚ seq 1 (total_signals d).
Proof.
  intros HU HN HE. apply NoDup_Permutation; [apply all_signals_nodup; assumption|apply NoDup_seq|]. intros id.
  rewrite all_signals_range by assumption. rewrite elem_of_seq. lia.
Qed.
Lemma nodup_concat_owner {A B} (f : A -> list B) l x y b : NoDup (concat (f <$> l)) -> x ∈ l -> y ∈ l -> b ∈ f x -> b ∈ f y -> x = y.
Proof.
  induction l as [|a l IH]; intros ND Hx Hy Bx By; [apply elem_of_nil in Hx; contradiction|].
  rewrite fmap_cons in ND. cbn [concat] in ND. apply NoDup_app in ND. destruct ND as (_ & HD & ND).
  assert (K : forall z, z ∈ l -> b ∈ f z -> b ∈ concat (f <$> l)).
  { intros z Hz Hb. apply elem_of_list_In, in_concat. exists (f z). split; apply elem_of_list_In; [apply elem_of_list_fmap; eauto|assumption]. }
  apply elem_of_cons in Hx, Hy. destruct Hx as [->|Hx], Hy as [->|Hy]; [reflexivity| | |].
  - exfalso. exact (HD b Bx (K y Hy By)).
  - exfalso. exact (HD b By (K x Hx Bx)).
  - apply IH; assumption.
Qed.
(** every number belongs to one signal of one instance *)
Lemma signal_owner d id : numbered d -> named d -> d_nodes d <> [] -> 1 <= id <= total_signals d ->
  exists x n k, instance d x /\ d_nodes d !! i_node x = Some n /\ k ∈ n_locals n /\ id = global x k.
Proof.
  intros HU HN HE H. rewrite <- (all_signals_range d id HU HN HE) in H. apply elem_of_list_In, in_concat in H. destruct H as (l & H1 & H2).
  apply elem_of_list_In in H1, H2. apply elem_of_list_fmap in H1. destruct H1 as (x & -> & Hx). rewrite (all_instances_spec d x HU HE) in Hx.
  destruct (instance_node d x HU Hx) as (n & es & Hn & _). rewrite (elem_of_inst_signals d x id n HN Hn) in H2. destruct H2 as (k & Hk & ->). exists x, n, k. auto.
Qed.
Lemma signal_owner_unique d x y n n' k k' : numbered d -> named d -> d_nodes d <> [] -> instance d x -> instance d y ->
  d_nodes d !! i_node x = Some n -> d_nodes d !! i_node y = Some n' -> k ∈ n_locals n -> k' ∈ n_locals n' -> global x k = global y k' -> x = y /\ k = k'.
Proof.
  intros HU HN HE Hx Hy Hn Hn' Hk Hk' E.
  assert (x = y) as ->.
  { eapply (nodup_concat_owner (inst_signals d) (all_instances d) x y (global x k)).
    - apply all_signals_nodup; assumption.
    - apply all_instances_spec; assumption.
    - apply all_instances_spec; assumption.
    - rewrite (elem_of_inst_signals d x _ n HN Hn). eauto.
    - rewrite (elem_of_inst_signals d y _ n' HN Hn'). eauto. }
  split; [reflexivity|]. unfold global in E. lia.
Qed.

(** ** the walks over trees *)
Definition pure_step {A} (f : A -> inst -> A) : A -> inst -> res A := fun a x => Ok (f a x).
Lemma foldl_app_concat {A B} (f : B -> list A) l acc : foldl (fun a x => a ++ f x) acc l = acc ++ concat (f <$> l).
Proof. revert acc. induction l as [|b l IH]; intros acc; cbn [foldl]; [rewrite app_nil_r; reflexivity|]. rewrite IH, fmap_cons. cbn [concat]. rewrite app_assoc. reflexivity. Qed.
Section trees.
  Context (ko : corr_order) (d : dag) (Hko : valid_corr_order ko) (HU : numbered d) (HN : named d).
  Lemma produce_tree_witness_gwalk fuel t w :
    produce_tree_witness fuel ko d t w = gwalk (fun t w => Ok (w ++ t_signals t)) (get_edges d) (go_to_subtree ko d) fuel t w.
  Proof.
    revert t w. induction fuel as [|fuel IH]; intros t w; [reflexivity|]. cbn [produce_tree_witness gwalk res_bind].
    destruct (get_edges d t) as [es| |]; cbn [res_bind]; [|reflexivity|reflexivity]. apply res_foldl_ext. intros a e _.
    destruct (go_to_subtree ko d t e); cbn [res_bind]; [apply IH|reflexivity|reflexivity].
  Qed.
  Lemma produce_tree_witness_spec fuel t x w : tree_of d t x -> i_node x < fuel ->
    produce_tree_witness fuel ko d t w = Ok (w ++ concat (inst_signals d <$> walk (edges_of d) fuel x)).
  Proof.
    intros HT HF. rewrite produce_tree_witness_gwalk.
    rewrite (tree_walk ko d _ (fun w x => Ok (w ++ inst_signals d x)) fuel t x w Hko HU HN HT HF).
    - rewrite (res_foldl_ok (fun w x => w ++ inst_signals d x)), foldl_app_concat. reflexivity.
    - intros t0 x0 a H0. rewrite (to_signals _ _ _ H0). reflexivity.
  Qed.
  (** classification *)
  Definition tree_step (st : map_state) (x : inst) : map_state :=
    let '(h, no) := foldl (classify (d_field d)) (ms_holder st, ms_no st) (inst_constraints d x) in
    MState (ms_witness st ++ inst_signals d x) h
      (if n_custom (node_at d (i_node x)) then list_to_set (inst_signals d x) ∪ ms_forbidden st else ms_forbidden st) no.
  Lemma map_tree_gwalk fuel t st :
    map_tree fuel ko d t st = gwalk (fun t st => res_bind (index (d_nodes d) (t_node t)) (fun n =>
      let '(h, no) := foldl (classify (d_field d)) (ms_holder st, ms_no st) (t_constraints t) in
      Ok (MState (ms_witness st ++ t_signals t) h (if n_custom n then list_to_set (t_signals t) ∪ ms_forbidden st else ms_forbidden st) no)))
      (get_edges d) (go_to_subtree ko d) fuel t st.
  Proof.
    revert t st. induction fuel as [|fuel IH]; intros t st; [reflexivity|]. cbn [map_tree gwalk].
    destruct (index (d_nodes d) (t_node t)) as [n| |]; cbn [res_bind]; [|reflexivity|reflexivity].
    destruct (foldl (classify (d_field d)) (ms_holder st, ms_no st) (t_constraints t)) as [h no]. cbn [res_bind].
    destruct (get_edges d t) as [es| |]; cbn [res_bind]; [|reflexivity|reflexivity]. apply res_foldl_ext. intros a e _.
    destruct (go_to_subtree ko d t e); cbn [res_bind]; [apply IH|reflexivity|reflexivity].
  Qed.
  Lemma map_tree_spec fuel t x st : tree_of d t x -> i_node x < fuel ->
    map_tree fuel ko d t st = Ok (foldl tree_step st (walk (edges_of d) fuel x)).
  Proof.
    intros HT HF. rewrite map_tree_gwalk.
    rewrite (tree_walk ko d _ (fun st x => Ok (tree_step st x)) fuel t x st Hko HU HN HT HF); [apply (res_foldl_ok tree_step)|].
    intros t0 x0 a H0. destruct (instance_node d x0 HU (to_inst _ _ _ H0)) as (n & es & Hn & _).
    rewrite (to_node _ _ _ H0), (index_ok _ _ _ Hn). cbn [res_bind]. unfold tree_step. rewrite (to_constraints _ _ _ H0), (to_signals _ _ _ H0), (node_at_lookup _ _ _ Hn).
    destruct (foldl _ _ _) as [h no]. reflexivity.
  Qed.
  (** the constraints of the unsimplified R1CS *)
  Lemma write_constraint_gwalk fuel t out k :
    res_map (fun '(out, n) => (out, k + n)) (write_constraint_section fuel ko d t out) =
    gwalk (fun t acc => Ok (acc.1 ++ t_constraints t, acc.2 + length (t_signals t))) (get_edges d) (go_to_subtree ko d) fuel t (out, k).
  Proof.
    revert t out k. induction fuel as [|fuel IH]; intros t out k; [reflexivity|]. cbn [write_constraint_section gwalk res_bind fst snd].
    destruct (get_edges d t) as [es| |]; cbn [res_bind res_map]; [|reflexivity|reflexivity].
    generalize (out ++ t_constraints t) as out'. generalize (length (t_signals t)) as m. induction es as [|e es IHe]; intros m out'; [reflexivity|].
    rewrite !res_foldl_cons. cbn [fst snd]. destruct (go_to_subtree ko d t e) as [t'| |]; cbn [res_bind]; [|reflexivity|reflexivity].
    rewrite <- IH. destruct (write_constraint_section fuel ko d t' out') as [[o' n']| |]; cbn [res_map res_bind]; [|reflexivity|reflexivity].
    rewrite IHe. rewrite Nat.add_assoc. reflexivity.
  Qed.
  Lemma foldl_pair l o n : foldl (fun acc x => (acc.1 ++ inst_constraints d x, acc.2 + length (inst_signals d x))) (o, n) l =
    (o ++ concat (inst_constraints d <$> l), n + length (concat (inst_signals d <$> l))).
  Proof.
    revert o n. induction l as [|x l IH]; intros o n; cbn [foldl fst snd].
    - rewrite app_nil_r, Nat.add_0_r. reflexivity.
    - rewrite IH, !fmap_cons. cbn [concat]. rewrite app_length, app_assoc, Nat.add_assoc. reflexivity.
  Qed.
  Lemma write_constraint_spec fuel t x : tree_of d t x -> i_node x < fuel ->
    write_constraint_section fuel ko d t [] = Ok (concat (inst_constraints d <$> walk (edges_of d) fuel x), length (concat (inst_signals d <$> walk (edges_of d) fuel x))).
  Proof.
    intros HT HF. pose proof (write_constraint_gwalk fuel t [] 0) as H.
    rewrite (tree_walk ko d _ (fun acc x => Ok (acc.1 ++ inst_constraints d x, acc.2 + length (inst_signals d x))) fuel t x ([], 0) Hko HU HN HT HF) in H.
    - rewrite (res_foldl_ok (fun acc x => (acc.1 ++ inst_constraints d x, acc.2 + length (inst_signals d x)))), foldl_pair in H. cbn [app Nat.add] in H.
      destruct (write_constraint_section fuel ko d t []) as [[o n]| |]; cbn [res_map] in H; [|discriminate|discriminate]. assumption.
    - intros t0 x0 a H0. rewrite (to_constraints _ _ _ H0), (to_signals _ _ _ H0). reflexivity.
  Qed.
  (** the symbols *)
  Definition inst_syms (w : nat -> Z) (x : inst) : list sym_elem :=
    (fun si => SymElem (Z.of_nat (global x si.2)) (w (global x si.2)) (Z.of_nat (i_node x)) (dotted (i_path x) si.1)) <$> local_names (node_at d (i_node x)).
  Lemma visit_tree_gwalk fuel t out :
    visit_tree fuel ko d t out = gwalk (fun t out => res_foldl (fun out signal =>
        match t_names t !! signal with
        | Some name => Ok (out ++ [SymElem (Z.of_nat signal) (Z.of_nat signal) (Z.of_nat (t_node t)) (dotted (t_path t) name)])
        | None => Panic
        end) out (t_signals t)) (get_edges d) (go_to_subtree ko d) fuel t out.
  Proof.
    revert t out. induction fuel as [|fuel IH]; intros t out; [reflexivity|]. cbn [visit_tree gwalk].
    destruct (res_foldl _ out (t_signals t)) as [o| |]; cbn [res_bind]; [|reflexivity|reflexivity].
    destruct (get_edges d t) as [es| |]; cbn [res_bind]; [|reflexivity|reflexivity]. apply res_foldl_ext. intros a e _.
    destruct (go_to_subtree ko d t e); cbn [res_bind]; [apply IH|reflexivity|reflexivity].
  Qed.
  Lemma visit_tree_spec fuel t x out : tree_of d t x -> i_node x < fuel ->
    visit_tree fuel ko d t out = Ok (out ++ concat (inst_syms Z.of_nat <$> walk (edges_of d) fuel x)).
  Proof.
    intros HT HF. rewrite visit_tree_gwalk.
    rewrite (tree_walk ko d _ (fun out x => Ok (out ++ inst_syms Z.of_nat x)) fuel t x out Hko HU HN HT HF).
    - rewrite (res_foldl_ok (fun out x => out ++ inst_syms Z.of_nat x)), foldl_app_concat. reflexivity.
    - intros t0 x0 a H0. rewrite (to_signals _ _ _ H0). unfold inst_signals, sorted_ids, inst_syms.
      pose proof (to_names _ _ _ H0) as HNm. revert HNm a. generalize (local_names (node_at d (i_node x0))). intros l.
      induction l as [|[s id] l IH]; intros HNm a; [rewrite app_nil_r; reflexivity|]. rewrite !fmap_cons, res_foldl_cons. cbn [fst snd].
      rewrite (HNm s id) by left. cbn [res_bind]. rewrite (IH (fun s' id' H' => HNm s' id' (elem_of_list_further _ _ _ H'))).
      rewrite <- app_assoc, (to_node _ _ _ H0), (to_path _ _ _ H0). reflexivity.
  Qed.
End trees.

(** ** the encoding *)
Definition encoded_node (i : nat) (n : node) (en : encoding_node) : Prop :=
  en_id en = i /\ en_name en = n_template n /\ en_parameters en = n_parameters n /\
  en_signals en = (fun x => SignalInfo x.1 x.2) <$> local_names n /\
  Forall2 (fun s k => n_corr n !! s = Some k) (n_ordered n) (en_ordered en) /\
  en_non_linear en = filter (fun c => is_linear c = false) (n_constraints n) /\ en_custom en = n_custom n.
Lemma ordered_lookup (corr : gmap string nat) l : (forall s, s ∈ l -> is_Some (corr !! s)) -> forall acc,
  exists ks, res_foldl (fun acc signal => match corr !! signal with Some i => Ok (acc ++ [i]) | None => Panic end) acc l = Ok (acc ++ ks) /\
    Forall2 (fun s k => corr !! s = Some k) l ks.
Proof.
  induction l as [|s l IH]; intros H acc.
  - exists []. rewrite app_nil_r. split; [reflexivity|constructor].
  - destruct (H s) as [k Hk]; [left|]. destruct (IH (fun s' H' => H s' (elem_of_list_further _ _ _ H')) (acc ++ [k])) as (ks & E & F).
    exists (k :: ks). split; [|constructor; assumption]. rewrite res_foldl_cons, Hk. cbn [res_bind]. rewrite E, <- app_assoc. reflexivity.
Qed.
Lemma produce_nodes ko : valid_corr_order ko -> forall ns k, (forall n, n ∈ ns -> node_names n /\ ordered_ok n) ->
  exists ens, res_imap (map_node_to_encoding ko) k ns = Ok ens /\ length ens = length ns /\
    forall i n, ns !! i = Some n -> exists en, ens !! i = Some en /\ encoded_node (k + i) n en.
Proof.
  intros Hko. induction ns as [|n ns IH]; intros k H.
  - exists []. split; [reflexivity|]. split; [reflexivity|]. intros i n Hi. rewrite lookup_nil in Hi. discriminate.
  - destruct (H n) as [NA OO]; [left|]. destruct (IH (S k) (fun n' H' => H n' (elem_of_list_further _ _ _ H'))) as (ens & E & HL & HE).
    cbn [res_imap]. unfold map_node_to_encoding at 1. destruct (ordered_lookup (n_corr n) (n_ordered n)) with (acc := @nil nat) as (ks & EO & FO).
    { intros s Hs. destruct (OO s Hs) as (i & A & _). eauto. } rewrite EO. cbn [res_bind app].
    rewrite E. cbn [res_map]. eexists. split; [reflexivity|]. split; [cbn; lia|]. intros [|i] m Hm.
    + injection Hm as <-. eexists. split; [reflexivity|]. unfold encoded_node. cbn. rewrite Nat.add_0_r, (local_names_ko ko n Hko NA). auto 10.
    + destruct (HE i m Hm) as (en & A & B). exists en. split; [exact A|]. replace (k + S i) with (S k + i) by lia. assumption.
Qed.
Record encodes (d : dag) (enc : encoding) : Prop := {
  ec_init : enc_init enc = length (d_nodes d) - 1;
  ec_length : length (enc_nodes enc) = length (d_nodes d);
  ec_node : forall i n, d_nodes d !! i = Some n -> exists en, enc_nodes enc !! i = Some en /\ encoded_node i n en;
  ec_edges : enc_adjacency enc = (fun es : list edge => map_edge_to_encoding <$> es) <$> d_adjacency d;
}.
Lemma produce_encoding_spec ko d no : valid_corr_order ko -> named d -> all_nodes ordered_ok d ->
  exists enc, produce_encoding ko no (length (d_nodes d) - 1) (d_nodes d) (d_adjacency d) = Ok enc /\ encodes d enc /\ enc_no enc = no.
Proof.
  intros Hko HN HO. destruct (produce_nodes ko Hko (d_nodes d) 0) as (ens & E & HL & HE).
  { intros n Hn. apply elem_of_list_lookup in Hn. destruct Hn as [i Hi]. split; [eapply HN|eapply HO]; eassumption. }
  unfold produce_encoding. rewrite E. cbn [res_bind]. eexists. split; [reflexivity|]. split; [|reflexivity]. constructor; auto.
Qed.
Definition inst_non_linear (d : dag) (x : inst) : list constraint :=
  (fun c => c_offset c (i_off x)) <$> filter (fun c => is_linear c = false) (n_constraints (node_at d (i_node x))).
Record iter_of (d : dag) (it : iterator) (x : inst) : Prop := {
  io_inst : instance d x;
  io_node : it_node it = i_node x;
  io_path : it_path it = i_path x;
  io_offset : it_offset it = i_off x;
  io_signals : it_signals it = (fun si => SignalInfo (dotted (i_path x) si.1) (global x si.2)) <$> local_names (node_at d (i_node x));
  io_non_linear : it_non_linear it = inst_non_linear d x;
}.
Lemma build_iterator_spec d enc x : numbered d -> encodes d enc -> instance d x -> exists it, build_iterator enc (i_node x) (i_path x) (i_off x) = Ok it /\ iter_of d it x.
Proof.
  intros HU HE HI. destruct (instance_node d x HU HI) as (n & es & Hn & _). destruct (ec_node _ _ HE _ _ Hn) as (en & He & E1 & E2 & E3 & E4 & E5 & E6 & E7).
  unfold build_iterator. rewrite (index_ok _ _ _ He). cbn [res_bind]. eexists. split; [reflexivity|]. constructor; cbn; try reflexivity; try assumption.
  - rewrite E4, <- list_fmap_compose, (node_at_lookup _ _ _ Hn). reflexivity.
  - unfold inst_non_linear. rewrite E6, (node_at_lookup _ _ _ Hn). reflexivity.
Qed.
Lemma iterator_new_spec d enc : numbered d -> encodes d enc -> d_nodes d <> [] -> exists it, iterator_new enc = Ok it /\ iter_of d it (root d).
Proof.
  intros HU HE HNE. unfold iterator_new. rewrite (ec_init _ _ HE). apply (build_iterator_spec d enc (root d) HU HE). apply below_instance; [assumption|constructor].
Qed.
Lemma iterator_edges_spec d enc it x : numbered d -> encodes d enc -> iter_of d it x ->
  exists es, iterator_edges enc it = Ok es /\ length es = length (edges_of d (i_node x)) /\
    forall j e e0, es !! j = Some e -> edges_of d (i_node x) !! j = Some e0 -> exists it', iterator_next enc it e = Ok it' /\ iter_of d it' (child x j e0).
Proof.
  intros HU HE HI. destruct (instance_node d x HU (io_inst _ _ _ HI)) as (n & es & Hn & Hes).
  unfold iterator_edges, edges_of. rewrite (io_node _ _ _ HI), (ec_edges _ _ HE), Hes. exists (map_edge_to_encoding <$> es).
  split; [unfold index; rewrite list_lookup_fmap, Hes; reflexivity|]. split; [apply fmap_length|]. intros j e e0 H1 H2. change (es !! j = Some e0) in H2.
  rewrite list_lookup_fmap, H2 in H1. injection H1 as <-. unfold iterator_next. rewrite (io_path _ _ _ HI), (io_offset _ _ _ HI).
  apply (build_iterator_spec d enc (child x j e0) HU HE). eapply inst_sub; [apply HI|eassumption|eassumption].
Qed.
Lemma iter_walk {A} d enc (step : iterator -> A -> res A) (step' : A -> inst -> res A) fuel it x a :
  numbered d -> encodes d enc -> iter_of d it x -> i_node x < fuel ->
  (forall it x a, iter_of d it x -> step it a = step' a x) ->
  gwalk step (iterator_edges enc) (iterator_next enc) fuel it a = res_foldl step' a (walk (edges_of d) fuel x).
Proof.
  intros HU HE HT HF HS. apply (gwalk_spec step (iterator_edges enc) (iterator_next enc) (iter_of d) step' (edges_of d)); try assumption.
  - intros t0 x0 H. apply iterator_edges_spec; assumption.
  - apply numbered_descending. assumption.
Qed.
Section iterators.
  Context (d : dag) (enc : encoding) (HU : numbered d) (HE : encodes d enc).
  Lemma visit_non_linear_gwalk fuel it acc :
    res_map (app acc) (visit_non_linear fuel enc it) = gwalk (fun it acc => Ok (acc ++ it_non_linear it)) (iterator_edges enc) (iterator_next enc) fuel it acc.
  Proof.
    revert it acc. induction fuel as [|fuel IH]; intros it acc; [reflexivity|]. cbn [visit_non_linear gwalk res_bind].
    destruct (iterator_edges enc it) as [es| |]; cbn [res_bind res_map]; [|reflexivity|reflexivity].
    generalize (it_non_linear it) as l. induction es as [|e es IHe]; intros l; [reflexivity|].
    rewrite !res_foldl_cons. destruct (iterator_next enc it e) as [it'| |]; cbn [res_bind]; [|reflexivity|reflexivity].
    rewrite <- IH. destruct (visit_non_linear fuel enc it') as [b| |]; cbn [res_map res_bind]; [|reflexivity|reflexivity].
    rewrite IHe, app_assoc. reflexivity.
  Qed.
  Lemma visit_non_linear_spec fuel it x : iter_of d it x -> i_node x < fuel ->
    visit_non_linear fuel enc it = Ok (concat (inst_non_linear d <$> walk (edges_of d) fuel x)).
  Proof.
    intros HI HF. pose proof (visit_non_linear_gwalk fuel it []) as H.
    rewrite (iter_walk d enc _ (fun acc x => Ok (acc ++ inst_non_linear d x)) fuel it x [] HU HE HI HF) in H.
    - rewrite (res_foldl_ok (fun acc x => acc ++ inst_non_linear d x)), foldl_app_concat in H. cbn [app] in H.
      destruct (visit_non_linear fuel enc it) as [b| |]; cbn [res_map] in H; [|discriminate|discriminate]. assumption.
    - intros it0 x0 a H0. rewrite (io_non_linear _ _ _ H0). reflexivity.
  Qed.
  Lemma signal_iteration_gwalk m fuel it out :
    signal_iteration fuel enc m it out = gwalk (fun it out => Ok (out ++ (sym_of_signal m (it_node it) <$> it_signals it))) (iterator_edges enc) (iterator_next enc) fuel it out.
  Proof.
    revert it out. induction fuel as [|fuel IH]; intros it out; [reflexivity|]. cbn [signal_iteration gwalk res_bind].
    destruct (iterator_edges enc it) as [es| |]; cbn [res_bind]; [|reflexivity|reflexivity]. apply res_foldl_ext. intros a e _.
    destruct (iterator_next enc it e); cbn [res_bind]; [apply IH|reflexivity|reflexivity].
  Qed.
  Definition sym_position (m : gmap nat nat) (k : nat) : Z :=
    let w := default (size m) (m !! k) in if Nat.eqb w (size m) then (-1)%Z else Z.of_nat w.
  Lemma signal_iteration_spec m fuel it x out : iter_of d it x -> i_node x < fuel ->
    signal_iteration fuel enc m it out = Ok (out ++ concat (inst_syms d (sym_position m) <$> walk (edges_of d) fuel x)).
  Proof.
    intros HI HF. rewrite signal_iteration_gwalk.
    rewrite (iter_walk d enc _ (fun out x => Ok (out ++ inst_syms d (sym_position m) x)) fuel it x out HU HE HI HF).
    - rewrite (res_foldl_ok (fun out x => out ++ inst_syms d (sym_position m) x)), foldl_app_concat. reflexivity.
    - intros it0 x0 a H0. rewrite (io_signals _ _ _ H0), (io_node _ _ _ H0). unfold inst_syms. rewrite <- list_fmap_compose. reflexivity.
  Qed.
End iterators.

(** ** classification *)
Lemma non_linear_not_others c p : is_linear c = false -> is_constant_equality c = false /\ is_equality c p = false.
Proof.
  unfold is_linear, is_constant_equality, is_equality. intros H. destruct (is_empty_map (c_a c)), (is_empty_map (c_b c)); cbn in *; try discriminate; auto.
Qed.
Definition is_cons (c : constraint) : Prop := is_constant_equality c = true.
Definition is_eq (p : Z) (c : constraint) : Prop := is_constant_equality c = false /\ is_equality c p = true.
Definition is_lin (p : Z) (c : constraint) : Prop := is_constant_equality c = false /\ is_equality c p = false /\ is_linear c = true.
Definition is_non (c : constraint) : Prop := is_linear c = false.
Global Instance is_cons_dec c : Decision (is_cons c). Proof. unfold is_cons. apply _. Defined.
Global Instance is_eq_dec p c : Decision (is_eq p c). Proof. unfold is_eq. apply _. Defined.
Global Instance is_lin_dec p c : Decision (is_lin p c). Proof. unfold is_lin. apply _. Defined.
Global Instance is_non_dec c : Decision (is_non c). Proof. unfold is_non. apply _. Defined.
Lemma classify_spec p cs h no :
  foldl (classify p) (h, no) cs =
  (Holder (h_linear h ++ filter (is_lin p) cs) (h_equalities h ++ filter (is_eq p) cs) (h_constant h ++ filter is_cons cs), no + length (filter is_non cs)).
Proof.
  revert h no. induction cs as [|c cs IH]; intros h no; cbn [foldl].
  - cbn. rewrite !app_nil_r, Nat.add_0_r. destruct h; reflexivity.
  - rewrite !filter_cons. unfold classify at 2. destruct (is_constant_equality c) eqn:E1.
    + rewrite IH. cbn [h_linear h_equalities h_constant]. rewrite (decide_True (P := is_cons c)) by exact E1.
      rewrite (decide_False (P := is_lin p c)) by (unfold is_lin; rewrite E1; intros [? _]; discriminate).
      rewrite (decide_False (P := is_eq p c)) by (unfold is_eq; rewrite E1; intros [? _]; discriminate).
      rewrite (decide_False (P := is_non c)) by (intros H; apply (non_linear_not_others c p) in H; destruct H; congruence).
      rewrite <- app_assoc. reflexivity.
    + rewrite (decide_False (P := is_cons c)) by (unfold is_cons; rewrite E1; discriminate). destruct (is_equality c p) eqn:E2.
      * rewrite IH. cbn [h_linear h_equalities h_constant]. rewrite (decide_True (P := is_eq p c)) by (split; assumption).
        rewrite (decide_False (P := is_lin p c)) by (unfold is_lin; rewrite E2; intros (_ & ? & _); discriminate).
        rewrite (decide_False (P := is_non c)) by (intros H; apply (non_linear_not_others c p) in H; destruct H; congruence).
        rewrite <- app_assoc. reflexivity.
      * rewrite (decide_False (P := is_eq p c)) by (unfold is_eq; rewrite E2; intros [_ ?]; discriminate). destruct (is_linear c) eqn:E3.
        -- rewrite IH. cbn [h_linear h_equalities h_constant]. rewrite (decide_True (P := is_lin p c)) by (unfold is_lin; auto).
           rewrite (decide_False (P := is_non c)) by (unfold is_non; rewrite E3; discriminate). rewrite <- app_assoc. reflexivity.
        -- rewrite IH. rewrite (decide_False (P := is_lin p c)) by (unfold is_lin; rewrite E3; intros (_ & _ & ?); discriminate).
           rewrite (decide_True (P := is_non c)) by exact E3. cbn [length]. f_equal. lia.
Qed.
Lemma classes_partition p cs : filter (is_eq p) cs ++ filter is_cons cs ++ filter (is_lin p) cs ++ filter is_non cs ≡ₚ cs.
Proof.
  induction cs as [|c cs IH]; [reflexivity|]. rewrite !filter_cons. destruct (is_constant_equality c) eqn:E1.
  - rewrite (decide_True (P := is_cons c)) by exact E1.
    rewrite (decide_False (P := is_lin p c)) by (unfold is_lin; rewrite E1; intros [? _]; discriminate).
    rewrite (decide_False (P := is_eq p c)) by (unfold is_eq; rewrite E1; intros [? _]; discriminate).
    rewrite (decide_False (P := is_non c)) by (intros H; apply (non_linear_not_others c p) in H; destruct H; congruence).
    cbn [app]. rewrite <- Permutation_middle. rewrite IH. reflexivity.
  - rewrite (decide_False (P := is_cons c)) by (unfold is_cons; rewrite E1; discriminate). destruct (is_equality c p) eqn:E2.
    + rewrite (decide_True (P := is_eq p c)) by (split; assumption).
      rewrite (decide_False (P := is_lin p c)) by (unfold is_lin; rewrite E2; intros (_ & ? & _); discriminate).
      rewrite (decide_False (P := is_non c)) by (intros H; apply (non_linear_not_others c p) in H; destruct H; congruence).
      cbn [app]. rewrite IH. reflexivity.
    + rewrite (decide_False (P := is_eq p c)) by (unfold is_eq; rewrite E2; intros [_ ?]; discriminate). destruct (is_linear c) eqn:E3.
      * rewrite (decide_True (P := is_lin p c)) by (unfold is_lin; auto).
        rewrite (decide_False (P := is_non c)) by (unfold is_non; rewrite E3; discriminate). cbn [app].
        rewrite (app_assoc (filter (is_eq p) cs)). rewrite <- Permutation_middle. rewrite <- app_assoc, IH. reflexivity.
      * rewrite (decide_False (P := is_lin p c)) by (unfold is_lin; rewrite E3; intros (_ & _ & ?); discriminate).
        rewrite (decide_True (P := is_non c)) by exact E3.
        rewrite !app_assoc. rewrite <- Permutation_middle. rewrite <- !app_assoc, IH. reflexivity.
Qed.
