(** Proofs about the warnings for unconstrained signals. *)
From stdpp Require Import prelude gmap fin_maps sorting strings.
From Coq Require Import ZArith Ascii.
From Verif Require Import ModArithModel AlgebraModel AlgebraSpec AlgebraProofs PipelineModel PipelineSpec DagModel DagSpec DagProofs NameProofs UnconstrainedModel UnconstrainedSpec.
Open Scope nat_scope.

(** ** Names *)
Local Arguments append !_ _ / : simpl nomatch.
Lemma split_on_nonempty c s : split_on c s <> [].
Proof. destruct s; cbn; [discriminate|]. destruct (Ascii.eqb a c); [discriminate|]. destruct (split_on c s); discriminate. Qed.
Lemma join_acc l acc : foldl (fun acc w => acc +:+ w +:+ ".")%string acc l = (acc +:+ foldl (fun acc w => acc +:+ w +:+ ".")%string EmptyString l)%string.
Proof.
  revert acc. induction l as [|w l IH]; intros acc; cbn [foldl].
  - clear. induction acc as [|c acc IH]; [reflexivity|]. change (String c acc +:+ "")%string with (String c (acc +:+ "")%string). f_equal. exact IH.
  - rewrite IH. rewrite (IH (EmptyString +:+ w +:+ ".")%string). rewrite !append_assoc. reflexivity.
Qed.
Fixpoint no_dot_bool (s : string) : bool := match s with EmptyString => true | String c s => negb (Ascii.eqb c "."%char) && no_dot_bool s end.
Lemma no_dot_bool_ok s : no_dot_bool s = true <-> no_dot s.
Proof.
  induction s as [|c s IH]; cbn; [tauto|]. rewrite andb_true_iff, negb_true_iff, Ascii.eqb_neq, IH. reflexivity.
Qed.
Lemma split_no_dot s : no_dot_bool s = true -> split_on "."%char s = [s].
Proof.
  induction s as [|c s IH]; cbn; [reflexivity|]. rewrite andb_true_iff, negb_true_iff. intros [H1 H2]. rewrite H1, (IH H2). reflexivity.
Qed.
Lemma split_dot s : no_dot_bool s = false -> exists w v l, split_on "."%char s = w :: v :: l.
Proof.
  induction s as [|c s IH]; cbn; [discriminate|]. rewrite andb_false_iff, negb_false_iff. intros H.
  destruct (Ascii.eqb c "."%char) eqn:E.
  - destruct (split_on "."%char s) as [|w l] eqn:E'; [exfalso; eapply split_on_nonempty; exact E'|]. eauto.
  - destruct H as [H|H]; [discriminate|]. destruct (IH H) as (w & v & l & ->). eauto.
Qed.
Lemma split_name_cons c s : split_signal_name_index (String c s) =
  if Ascii.eqb c "["%char && no_dot_bool s then EmptyString else String c (split_signal_name_index s).
Proof.
  unfold split_signal_name_index. cbn [split_on]. destruct (Ascii.eqb c "."%char) eqn:E.
  - apply Ascii.eqb_eq in E. subst c. cbn [Ascii.eqb Bool.eqb andb].
    destruct (split_on "."%char s) as [|w l] eqn:E'; [exfalso; eapply split_on_nonempty; exact E'|].
    change (removelast (EmptyString :: w :: l)) with (EmptyString :: removelast (w :: l)). cbn [foldl].
    change (last (EmptyString :: w :: l)) with (last (w :: l)). rewrite join_acc. cbn. reflexivity.
  - destruct (no_dot_bool s) eqn:ED.
    + rewrite (split_no_dot _ ED). rewrite andb_true_r. cbn [removelast foldl last from_option]. unfold id. cbn [append split_on]. destruct (Ascii.eqb c "["%char); [reflexivity|].
      destruct (split_on "["%char s) as [|w l] eqn:E'; [exfalso; eapply split_on_nonempty; exact E'|]. reflexivity.
    + rewrite andb_false_r. destruct (split_dot _ ED) as (w & v & l & ->).
      change (removelast (String c w :: v :: l)) with (String c w :: removelast (v :: l)).
      change (removelast (w :: v :: l)) with (w :: removelast (v :: l)). cbn [foldl].
      change (last (String c w :: v :: l)) with (last (v :: l)). change (last (w :: v :: l)) with (last (v :: l)).
      rewrite join_acc, (join_acc _ (EmptyString +:+ w +:+ ".")%string). cbn. reflexivity.
Qed.
Lemma no_dot_app a b : no_dot (a +:+ b)%string <-> no_dot a /\ no_dot b.
Proof. induction a as [|c a IH]; cbn; [tauto|]. rewrite IH. tauto. Qed.
Lemma no_bracket_app a b : no_bracket (a +:+ b)%string <-> no_bracket a /\ no_bracket b.
Proof. induction a as [|c a IH]; cbn; [tauto|]. rewrite IH. tauto. Qed.
Lemma element_of_split s : element_of s (split_signal_name_index s).
Proof.
  induction s as [|c s IH].
  - exists EmptyString, EmptyString, EmptyString. cbn. repeat split; auto.
  - rewrite split_name_cons. destruct (Ascii.eqb c "["%char && no_dot_bool s) eqn:E.
    + apply andb_true_iff in E. destruct E as [E1 E2]. apply Ascii.eqb_eq in E1. subst c. apply no_dot_bool_ok in E2.
      exists EmptyString, EmptyString, (String "["%char s). cbn. repeat split; eauto; try discriminate.
    + destruct IH as (front & base & indexes & Ha & Hs & HF & H1 & H2 & H3 & H4).
      destruct (decide (c = dot)) as [->|Nd].
      { exists (String dot front), base, indexes. cbn. rewrite Ha. cbn. repeat split; [f_equal; rewrite Hs at 1; rewrite Ha; reflexivity| |assumption..].
        right. destruct HF as [->|[q ->]]; [exists EmptyString; reflexivity|exists (String dot q); reflexivity]. }
      destruct HF as [->|[q ->]].
      * assert (Hc : c <> bracket).
        { intros ->. rewrite andb_false_iff in E. destruct E as [E|E]; [rewrite Ascii.eqb_neq in E; contradiction|].
          assert (no_dot s) as ND. { rewrite Hs, Ha. cbn. rewrite no_dot_app. auto. } apply no_dot_bool_ok in ND. congruence. }
        exists EmptyString, (String c base), indexes. cbn in *. rewrite Ha. repeat split; auto. f_equal. rewrite Hs at 1. rewrite Ha. reflexivity.
      * exists (String c (q +:+ String dot EmptyString)%string), base, indexes. cbn. rewrite Ha. repeat split; auto.
        -- f_equal. rewrite Hs at 1. rewrite Ha. reflexivity.
        -- right. exists (String c q). reflexivity.
Qed.
Lemma element_of_unique s a : element_of s a -> a = split_signal_name_index s.
Proof.
  revert a. induction s as [|c s IH]; intros a (front & base & indexes & Ha & Hs & HF & H1 & H2 & H3 & H4).
  - destruct a; [reflexivity|discriminate].
  - rewrite split_name_cons. destruct a as [|c' a].
    + cbn in Hs. destruct H4 as [->|[r ->]]; [discriminate|]. injection Hs as -> <-. cbn in H3. destruct H3 as [_ H3].
      apply no_dot_bool_ok in H3. rewrite H3. reflexivity.
    + cbn in Hs. injection Hs as <- Hs. assert (E : Ascii.eqb c "["%char && no_dot_bool s = false).
      { apply andb_false_iff. destruct (Ascii.eqb c "["%char) eqn:Ec; [|auto]. right. apply Ascii.eqb_eq in Ec.
        destruct (no_dot_bool s) eqn:ED; [|reflexivity]. exfalso. apply no_dot_bool_ok in ED. rewrite Hs in ED. apply no_dot_app in ED. destruct ED as [ED _].
        destruct HF as [->|[q ->]].
        - cbn in Ha. rewrite <- Ha in H2. cbn in H2. destruct H2 as [H2 _]. apply H2. exact Ec.
        - destruct q as [|x q]; cbn in Ha; injection Ha as Hx Ha; [rewrite Hx in Ec; discriminate|].
          rewrite Ha in ED. rewrite !no_dot_app in ED. cbn in ED. destruct ED as [[_ [ED _]] _]. apply ED. reflexivity. }
      rewrite E. f_equal. apply IH. destruct HF as [->|[q ->]].
      * cbn in Ha. destruct base as [|b base]; [discriminate|]. injection Ha as -> ->. cbn in H1, H2.
        exists EmptyString, base, indexes. repeat split; tauto.
      * destruct q as [|x q]; cbn in Ha; injection Ha as -> ->.
        -- exists EmptyString, base, indexes. repeat split; auto.
        -- exists (q +:+ String dot EmptyString)%string, base, indexes. repeat split; eauto.
Qed.
Lemma element_of_iff s a : element_of s a <-> split_signal_name_index s = a.
Proof. split; [intros H; symmetry; apply element_of_unique, H|intros <-; apply element_of_split]. Qed.
Lemma identifier_element s a : element_of s a -> identifier s = identifier a.
Proof.
  intros (front & base & indexes & -> & -> & HF & H1 & H2 & H3 & H4).
  assert (HB : forall x, no_bracket x -> no_dot x -> (identifier (x +:+ indexes) = identifier x)%string).
  { induction x as [|c x IH]; cbn; intros N M.
    - destruct H4 as [->|[r ->]]; [reflexivity|]. cbn. reflexivity.
    - rewrite IH by tauto. reflexivity. }
  destruct HF as [->|[q ->]]; [cbn; apply HB; assumption|].
  rewrite !append_assoc. change (identifier (dotted q (base +:+ indexes)%string) = identifier (dotted q base)). rewrite !identifier_dotted. reflexivity.
Qed.

(** ** The reachable signals are the visible ones *)
Definition reaches (d : dag) : Prop := forall i n, d_nodes d !! i = Some n -> forall k, k ∈ n_reachables n <-> visible d i k.
(** the part of [visible] about components *)
Definition below (d : dag) (i k : nat) : Prop :=
  exists es e t j, d_adjacency d !! i = Some es /\ e ∈ es /\ d_nodes d !! e_goes_to e = Some t /\ j ∈ n_io t /\ k = e_in e + j.
Lemma below_ext d d' i k :
  numbered d -> i < length (d_nodes d) -> d_adjacency d' !! i = d_adjacency d !! i -> (forall j, j < i -> d_nodes d' !! j = d_nodes d !! j) ->
  below d' i k <-> below d i k.
Proof.
  intros HU Li HA HN. unfold below. rewrite HA. destruct (lookup_lt_is_Some_2 _ _ Li) as [n Hn].
  split; intros (es & e & t & j & Hes & He & Ht & Hj & ->); exists es, e, t, j;
    destruct (nn_edge _ _ _ _ (nu_node _ HU _ _ _ Hn Hes) e He) as (A & _); rewrite HN in * by assumption; auto.
Qed.
Lemma visible_lookup d i n k : d_nodes d !! i = Some n -> visible d i k <-> k ∈ n_locals n \/ below d i k.
Proof.
  intros Hn. unfold visible. split.
  - intros [(n' & Hn' & H)|H]; [|right; exact H]. rewrite Hn in Hn'. injection Hn' as <-. auto.
  - intros [H|H]; [left; eauto|right; exact H].
Qed.
Lemma reaches_on_main d f : numbered d -> reaches d ->
  (forall n, last (d_nodes d) = Some n -> exists P : nat -> Prop,
     (forall k, k ∈ n_reachables (f n) <-> P k \/ k ∈ n_reachables n) /\ (forall k, k ∈ n_locals (f n) <-> P k \/ k ∈ n_locals n)) ->
  reaches (on_main f d).
Proof.
  intros HU HR HF i n Hn k. rewrite (visible_lookup _ _ _ _ Hn).
  assert (Li : i < length (d_nodes d)). { apply lookup_lt_Some in Hn. unfold on_main in Hn. cbn in Hn. rewrite alter_length in Hn. exact Hn. }
  rewrite (below_ext d) by (try assumption; try reflexivity; intros j Hj; unfold on_main; cbn; rewrite list_lookup_alter_ne by lia; reflexivity).
  unfold on_main in Hn. cbn [d_nodes] in Hn. destruct (decide (i = length (d_nodes d) - 1)) as [->|].
  - rewrite list_lookup_alter in Hn. apply fmap_Some in Hn. destruct Hn as (n0 & Hn & ->).
    destruct (HF n0) as (P & H1 & H2); [rewrite last_lookup, <- Hn; f_equal; lia|]. rewrite H1, H2, (HR _ _ Hn), (visible_lookup _ _ _ _ Hn). tauto.
  - rewrite list_lookup_alter_ne in Hn by lia. rewrite (HR _ _ Hn). apply visible_lookup, Hn.
Qed.
Lemma reaches_step ko d o d' : valid_corr_order ko -> numbered d -> named d -> compact d -> reaches d -> dag_step ko d o = Ok d' -> reaches d'.
Proof.
  intros Hko HU HN HCo HR. destruct o as [tn ps par cus|name pub|name|name|name|to label par|c|s|k]; cbn [dag_step]; intros E.
  - injection E as <-. intros i n Hn k. pose proof Hn as Hn0. unfold add_node in Hn. cbn [d_nodes] in Hn. apply lookup_app_Some in Hn. rewrite (visible_lookup _ _ _ _ Hn0). destruct Hn as [Hn|[Li Hn]].
    + rewrite (HR _ _ Hn), (visible_lookup _ _ _ _ Hn). assert (Li : i < length (d_nodes d)) by (eapply lookup_lt_Some; eassumption).
      rewrite (below_ext d (add_node tn ps par cus d)); [reflexivity|assumption..| |].
      * unfold add_node. cbn. rewrite lookup_app_l by (rewrite (nu_length _ HU); assumption). reflexivity.
      * intros j Hj. unfold add_node. cbn. rewrite lookup_app_l by lia. reflexivity.
    + apply list_lookup_singleton_Some in Hn. destruct Hn as [Hi <-]. cbn. split; [intros H; apply elem_of_empty in H; contradiction|].
      intros [H|(es & e & t & j & Hes & He & _)]; [apply elem_of_empty in H; contradiction|]. cbn in Hes.
      rewrite lookup_app_r in Hes by (rewrite (nu_length _ HU); assumption). apply list_lookup_singleton_Some in Hes. destruct Hes as [_ <-]. apply elem_of_nil in He. contradiction.
  - injection E as <-. apply reaches_on_main; [assumption..|]. intros n _. exists (fun k => k = n_signals n + 1). cbn. split; intros k; rewrite elem_of_union, elem_of_singleton; reflexivity.
  - injection E as <-. apply reaches_on_main; [assumption..|]. intros n _. exists (fun k => k = n_signals n + 1). cbn. split; intros k; rewrite elem_of_union, elem_of_singleton; reflexivity.
  - injection E as <-. apply reaches_on_main; [assumption..|]. intros n _. exists (fun k => k = n_signals n + 1). cbn. split; intros k; rewrite elem_of_union, elem_of_singleton; reflexivity.
  - injection E as <-. apply reaches_on_main; [assumption..|]. intros n _. exists (fun _ => False). cbn. split; intros k; tauto.
  - assert (HNE : d_nodes d <> []). { intros Z. unfold add_edge, main_id in E. rewrite Z in E. discriminate. }
    destruct (add_edge_spec ko d to label par Hko HNE) as [(Hto & source & t & corr & reach & L & Hs & Ht & EA & _ & HC)|[_ EA]];
      rewrite EA in E; injection E as <-; [|assumption].
    intros i n Hn k. rewrite (visible_lookup _ _ _ _ Hn). cbn [d_nodes d_adjacency] in *.
    assert (Li : i < length (d_nodes d)) by (apply lookup_lt_Some in Hn; rewrite insert_length in Hn; assumption).
    destruct (decide (i = length (d_nodes d) - 1)) as [->|].
    2: { rewrite list_lookup_insert_ne in Hn by lia. rewrite (HR _ _ Hn), (visible_lookup _ _ _ _ Hn).
         rewrite (below_ext d (Dag _ _ _)); [reflexivity|assumption..| |].
         - cbn. rewrite list_lookup_alter_ne by lia. reflexivity.
         - intros j Hj. cbn. rewrite list_lookup_insert_ne by lia. reflexivity. }
    rewrite list_lookup_insert in Hn by assumption. injection Hn as <-. cbn [with_sub n_reachables n_locals]. rewrite HC, (HR _ _ Hs), (visible_lookup _ _ _ _ Hs).
    destruct (lookup_lt_is_Some_2 (d_adjacency d) (length (d_nodes d) - 1)) as [es0 Hes0]; [rewrite (nu_length _ HU); assumption|].
    destruct (lookup_lt_is_Some_2 (d_adjacency d) to) as [est Hest]; [rewrite (nu_length _ HU); lia|].
    destruct (HCo _ _ _ Ht Hest) as (C1 & _ & _ & C4). destruct (nn_kinds _ _ _ _ (nu_node _ HU _ _ _ Ht Hest)) as [K1 _].
    assert (HIO : forall y, (exists s id, n_corr t !! s = Some id /\ id ∈ n_locals t /\ id <= n_inputs t + n_outputs t /\ y = n_signals source + id) <->
      exists j, j ∈ n_io t /\ y = n_signals source + j).
    { intros y. rewrite C4. split.
      - intros (s & id & H1 & H2 & H3 & ->). exists id. split; [|reflexivity]. apply elem_of_seq. apply C1 in H2. lia.
      - intros (j & H1 & ->). apply elem_of_seq in H1. assert (HL : j ∈ n_locals t) by (apply C1; lia).
        destruct (na_local _ (HN _ _ Ht) _ HL) as [s Hs']. exists s, j. repeat split; [assumption..|lia]. }
    rewrite HIO. unfold below. cbn [d_nodes d_adjacency]. split.
    + intros [[H|(es & e & t' & j & Hes & He & Ht' & Hj & ->)]|(j & Hj & ->)]; [left; exact H| |].
      * right. rewrite Hes0 in Hes. injection Hes as <-. exists (es0 ++ [Edge label to (n_signals source) (n_signals source + n_signals t) (n_components source) (n_components source + n_components t)]), e, t', j.
        destruct (nn_edge _ _ _ _ (nu_node _ HU _ _ _ Hs Hes0) e He) as (A & _).
        rewrite list_lookup_alter, Hes0. rewrite list_lookup_insert_ne by lia. split_and!; try assumption; try reflexivity. apply elem_of_app; auto.
      * right. exists (es0 ++ [Edge label to (n_signals source) (n_signals source + n_signals t) (n_components source) (n_components source + n_components t)]).
        eexists. exists t, j. rewrite list_lookup_alter, Hes0. split; [reflexivity|]. split; [apply elem_of_app; right; apply elem_of_list_singleton; reflexivity|].
        cbn [e_goes_to e_in]. rewrite list_lookup_insert_ne by lia. auto.
    + intros [H|(es & e & t' & j & Hes & He & Ht' & Hj & ->)]; [left; left; exact H|]. rewrite list_lookup_alter, Hes0 in Hes. injection Hes as <-.
      apply elem_of_app in He. destruct He as [He|He].
      * destruct (nn_edge _ _ _ _ (nu_node _ HU _ _ _ Hs Hes0) e He) as (A & _). rewrite list_lookup_insert_ne in Ht' by lia.
        left. right. exists es0, e, t', j. auto.
      * apply elem_of_list_singleton in He. subst e. cbn [e_goes_to e_in] in *. rewrite list_lookup_insert_ne in Ht' by lia. rewrite Ht in Ht'. injection Ht' as <-. right. eauto.
  - injection E as <-. apply reaches_on_main; [assumption..|]. intros n _. exists (fun _ => False). cbn. split; intros j; tauto.
  - injection E as <-. apply reaches_on_main; [assumption..|]. intros n _. exists (fun _ => False). cbn. split; intros j; tauto.
  - injection E as <-. apply reaches_on_main; [assumption..|]. intros n _. exists (fun _ => False). cbn. split; intros j; tauto.
Qed.
Lemma built_reaches p d : built_with (well_formed p) p d -> reaches d.
Proof.
  induction 1 as [|ko d o d' Hko HB IH HI E]; [intros i n H; cbn in H; rewrite lookup_nil in H; discriminate|].
  eapply reaches_step; [exact Hko|eapply built_numbered, built_with_built; exact HB| | |exact IH|exact E].
  - eapply built_named, built_with_mono; [|exact HB]. intros ? ? []. assumption.
  - eapply built_compact, built_with_mono; [|exact HB]. intros ? ? (_ & _ & H & _). exact H.
Qed.

(** ** Constraints are in sight *)
Definition sighted (d : dag) : Prop := forall i n, d_nodes d !! i = Some n ->
  (forall c k, c ∈ n_constraints n -> in_c k c -> k ∈ n_reachables n) /\ (forall k, k ∈ n_underscored n -> k ∈ n_reachables n).
Lemma sighted_on_main d f : sighted d ->
  (forall n, last (d_nodes d) = Some n -> n_reachables n ⊆ n_reachables (f n) /\
     (forall c k, c ∈ n_constraints (f n) -> in_c k c -> c ∈ n_constraints n \/ k ∈ n_reachables n) /\
     (forall k, k ∈ n_underscored (f n) -> k ∈ n_underscored n \/ k ∈ n_reachables n)) ->
  sighted (on_main f d).
Proof.
  intros HS HF i n. unfold on_main. cbn [d_nodes]. destruct (decide (i = length (d_nodes d) - 1)) as [->|].
  - rewrite list_lookup_alter. intros H. apply fmap_Some in H. destruct H as (n0 & H & ->).
    destruct (HF n0) as (H1 & H2 & H3); [rewrite last_lookup, <- H; f_equal; lia|]. destruct (HS _ _ H) as [A B]. split.
    + intros c k Hc Hk. apply H1. destruct (H2 c k Hc Hk) as [Hc'|?]; [|assumption]. eapply A; eassumption.
    + intros k Hk. apply H1. destruct (H3 k Hk) as [Hk'|?]; [|assumption]. apply B. assumption.
  - rewrite list_lookup_alter_ne by lia. apply HS.
Qed.
Lemma sighted_step ko d o d' : valid_corr_order ko -> reaches d -> sighted d -> in_sight d o -> dag_step ko d o = Ok d' -> sighted d'.
Proof.
  intros Hko HR HS. destruct o as [tn ps par cus|name pub|name|name|name|to label par|c|s|k]; cbn [dag_step in_sight]; intros F E.
  - injection E as <-. intros i n. unfold add_node. cbn [d_nodes]. intros Hn. apply lookup_app_Some in Hn. destruct Hn as [Hn|[Li Hn]]; [eapply HS; eassumption|].
    apply list_lookup_singleton_Some in Hn. destruct Hn as [_ <-]. cbn. split; [intros c k Hc|intros k Hc]; apply elem_of_nil in Hc; contradiction.
  - injection E as <-. apply sighted_on_main; [assumption|]. intros n _. cbn. split_and!; [apply union_subseteq_r|auto|auto].
  - injection E as <-. apply sighted_on_main; [assumption|]. intros n _. cbn. split_and!; [apply union_subseteq_r|auto|auto].
  - injection E as <-. apply sighted_on_main; [assumption|]. intros n _. cbn. split_and!; [apply union_subseteq_r|auto|auto].
  - injection E as <-. apply sighted_on_main; [assumption|]. intros n _. cbn. split_and!; [reflexivity|auto|auto].
  - assert (HNE : d_nodes d <> []). { intros Z. unfold add_edge, main_id in E. rewrite Z in E. discriminate. }
    destruct (add_edge_spec ko d to label par Hko HNE) as [(Hto & source & t & corr & reach & L & Hs & Ht & EA & _ & HC)|[_ EA]];
      rewrite EA in E; injection E as <-; [|assumption].
    intros i n. cbn [d_nodes]. intros Hn. destruct (decide (i = length (d_nodes d) - 1)) as [->|].
    2: { rewrite list_lookup_insert_ne in Hn by lia. eapply HS; eassumption. }
    rewrite list_lookup_insert in Hn by (eapply lookup_lt_Some; eassumption). injection Hn as <-. cbn [with_sub n_constraints n_reachables n_underscored].
    destruct (HS _ _ Hs) as [A B]. split; [intros c k Hc Hk|intros k Hk]; apply HC; left; [eapply A; eassumption|apply B; assumption].
  - injection E as <-. apply sighted_on_main; [assumption|]. intros n Hl. cbn. split_and!; [reflexivity| |auto].
    intros c0 k Hc Hk. apply elem_of_app in Hc. destruct Hc as [Hc|Hc]; [auto|]. apply elem_of_list_singleton in Hc. subst c0. right.
    rewrite last_lookup in Hl. eapply HR; [|apply F; exact Hk]. rewrite <- Hl. f_equal. lia.
  - injection E as <-. apply sighted_on_main; [assumption|]. intros n Hl. cbn. split_and!; [reflexivity|auto|].
    intros k Hc. apply elem_of_app in Hc. destruct Hc as [Hc|Hc]; [auto|]. apply elem_of_list_singleton in Hc. subst k. right.
    rewrite last_lookup in Hl. eapply HR; [|exact F]. rewrite <- Hl. f_equal. lia.
  - injection E as <-. apply sighted_on_main; [assumption|]. intros n _. cbn. split_and!; [reflexivity|auto|auto].
Qed.
Lemma built_sighted p d : built_with (as_compiled p) p d -> sighted d.
Proof.
  induction 1 as [|ko d o d' Hko HB IH HI E]; [intros i n H; cbn in H; rewrite lookup_nil in H; discriminate|].
  eapply sighted_step; [exact Hko| |exact IH|apply HI|exact E]. eapply built_reaches, built_with_mono; [|exact HB]. intros ? ? []. assumption.
Qed.

(** ** Counting *)
Lemma bump_list l m : (forall s, s ∈ l -> is_Some (m !! s)) ->
  exists m', res_foldl bump m l = Ok m' /\ forall id, (m !! id = None -> m' !! id = None) /\
    (forall v, m !! id = Some v -> exists v', m' !! id = Some v' /\ (v' = 0 <-> v = 0 /\ id ∉ l)).
Proof.
  revert m. induction l as [|s l IH]; intros m H.
  - exists m. split; [reflexivity|]. intros id. split; [auto|]. intros v Hv. exists v. split; [assumption|]. split; [intros ->; split; [reflexivity|apply not_elem_of_nil]|intros []; assumption].
  - rewrite res_foldl_cons. unfold bump at 1. destruct (H s) as [v Hv]; [left|]. rewrite Hv. cbn [res_bind].
    destruct (IH (<[s := v + 1]> m)) as (m' & E & HM).
    { intros s' Hs'. destruct (decide (s' = s)) as [->|]; [rewrite lookup_insert; eauto|]. rewrite lookup_insert_ne by congruence. apply H. right. assumption. }
    exists m'. split; [exact E|]. intros id. destruct (HM id) as [A B]. destruct (decide (id = s)) as [->|Ne].
    + split; [congruence|]. intros w Hw. destruct (B (v + 1)) as (v' & H1 & H2); [apply lookup_insert|]. exists v'. split; [assumption|]. rewrite H2.
      split; [intros [? _]; lia|]. intros [_ Hn]. exfalso. apply Hn. left.
    + rewrite lookup_insert_ne in A, B by congruence. split; [exact A|]. intros w Hw. destruct (B w Hw) as (v' & H1 & H2). exists v'. split; [assumption|].
      rewrite H2, not_elem_of_cons. tauto.
Qed.
Lemma bump_constraints cs m : (forall c s, c ∈ cs -> s ∈ take_signals c -> is_Some (m !! s)) ->
  exists m', res_foldl (fun m c => res_foldl bump m (elements (take_signals c))) m cs = Ok m' /\ forall id, (m !! id = None -> m' !! id = None) /\
    (forall v, m !! id = Some v -> exists v', m' !! id = Some v' /\ (v' = 0 <-> v = 0 /\ forall c, c ∈ cs -> id ∉ take_signals c)).
Proof.
  revert m. induction cs as [|c cs IH]; intros m H.
  - exists m. split; [reflexivity|]. intros id. split; [auto|]. intros v Hv. exists v. split; [assumption|]. split; [intros ->; split; [reflexivity|]|intros []; assumption].
    intros c Hc. apply elem_of_nil in Hc. contradiction.
  - rewrite res_foldl_cons. destruct (bump_list (elements (take_signals c)) m) as (m1 & E1 & H1).
    { intros s Hs. apply elem_of_elements in Hs. eapply H; [left|exact Hs]. }
    rewrite E1. cbn [res_bind]. destruct (IH m1) as (m' & E & HM).
    { intros c' s Hc Hs. destruct (H c' s) as [v Hv]; [right; assumption|assumption|]. destruct (proj2 (H1 s) v Hv) as (v' & ? & _). eauto. }
    exists m'. split; [exact E|]. intros id. destruct (HM id) as [A B], (H1 id) as [A1 B1]. split; [auto|]. intros v Hv.
    destruct (B1 v Hv) as (v1 & Q1 & Q2). destruct (B v1 Q1) as (v' & R1 & R2). exists v'. split; [assumption|]. rewrite R2, Q2, elem_of_elements.
    split.
    + intros [[? ?] HH]. split; [assumption|]. intros c' Hc'. apply elem_of_cons in Hc'. destruct Hc' as [->|Hc']; auto.
    + intros [? HH]. split; [split; [assumption|apply HH; left]|]. intros c' Hc'. apply HH. right. assumption.
Qed.
Lemma foldl_insert {A V} (g : A -> nat) (h : A -> V) l (m : gmap nat V) : NoDup (g <$> l) -> forall k v,
  foldl (fun m x => <[g x := h x]> m) m l !! k = Some v <-> (exists x, x ∈ l /\ g x = k /\ h x = v) \/ (k ∉ g <$> l /\ m !! k = Some v).
Proof.
  revert m. induction l as [|x l IH]; intros m ND k v; cbn [foldl fmap list_fmap].
  - split; [intros H; right; split; [apply not_elem_of_nil|assumption]|]. intros [(x & Hx & _)|[_ H]]; [apply elem_of_nil in Hx; contradiction|assumption].
  - cbn in ND. apply NoDup_cons in ND. destruct ND as [NX ND]. rewrite (IH _ ND). split.
    + intros [(y & Hy & H1 & H2)|[Hk H]]; [left; exists y; split; [right; assumption|auto]|].
      destruct (decide (g x = k)) as [E|Ne].
      * subst k. rewrite lookup_insert in H. injection H as <-. left. exists x. split; [left|auto].
      * rewrite lookup_insert_ne in H by assumption. right. split; [apply not_elem_of_cons; auto|assumption].
    + intros [(y & Hy & H1 & H2)|[Hk H]].
      * apply elem_of_cons in Hy. destruct Hy as [->|Hy]; [|left; eauto]. subst. right. split; [assumption|apply lookup_insert].
      * apply not_elem_of_cons in Hk. destruct Hk. right. split; [assumption|]. rewrite lookup_insert_ne by congruence. assumption.
Qed.
Lemma collect_ok {A B} (f : A -> res B) l : (forall a, a ∈ l -> exists b, f a = Ok b) -> exists bs, collect f l = Ok bs /\ Forall2 (fun a b => f a = Ok b) l bs.
Proof.
  induction l as [|a l IH]; intros H; [exists []; split; [reflexivity|constructor]|]. destruct (H a) as [b Hb]; [left|].
  destruct IH as (bs & E & HF); [intros a' Ha'; apply H; right; assumption|]. exists (b :: bs). cbn. rewrite Hb. cbn. rewrite E. cbn. split; [reflexivity|constructor; assumption].
Qed.
Lemma Forall2_NoDup {A B C D} (R : A -> B -> Prop) (g : A -> C) (h : B -> D) l bs : Forall2 R l bs ->
  (forall a b a' b', R a b -> R a' b' -> h b = h b' -> g a = g a') -> NoDup (g <$> l) -> NoDup (h <$> bs).
Proof.
  intros HF HI. induction HF as [|a b l bs Hab HF IH]; intros ND; [constructor|]. cbn in *. apply NoDup_cons in ND. destruct ND as [N1 N2].
  constructor; [|auto]. intros H. apply N1. apply elem_of_list_fmap in H. destruct H as (b' & E & Hb'). apply elem_of_list_lookup in Hb'. destruct Hb' as [i Hi].
  destruct (Forall2_lookup_r _ _ _ _ _ HF Hi) as (a' & Ha' & HR). rewrite (HI _ _ _ _ Hab HR E). apply elem_of_list_fmap. exists a'. split; [reflexivity|]. eapply elem_of_list_lookup_2. exact Ha'.
Qed.
Definition type_of (n : node) (k : nat) : signal_type := if bool_decide (k ∈ n_locals n) then Local else IOSubcomponent.
Definition free (n : node) (k : nat) : Prop := (forall c, c ∈ n_constraints n -> k ∉ take_signals c) /\ k ∉ n_underscored n.
Lemma visit_node_ok ko n : valid_corr_order ko -> node_names n ->
  (forall k, k ∈ n_reachables n -> exists s, n_corr n !! s = Some k) ->
  (forall c k, c ∈ n_constraints n -> k ∈ take_signals c -> k ∈ n_reachables n) -> (forall k, k ∈ n_underscored n -> k ∈ n_reachables n) ->
  exists st, visit_node ko n = Ok st /\ NoDup ((fun x => x.1.1) <$> st) /\
    (forall s t v, (s, t, v) ∈ st -> exists k, n_corr n !! s = Some k /\ k ∈ n_reachables n /\ t = type_of n k /\ (v = 0 <-> free n k)) /\
    (forall s k, n_corr n !! s = Some k -> k ∈ n_reachables n -> exists v, (s, type_of n k, v) ∈ st).
Proof.
  intros Hko HN HNm HC HUn. unfold visit_node. set (rl := filter (fun x => x.2 ∈ n_reachables n) (ko (n_corr n))).
  assert (Hrl : forall s k, (s, k) ∈ rl <-> n_corr n !! s = Some k /\ k ∈ n_reachables n).
  { intros s k. unfold rl. rewrite elem_of_list_filter. cbn. rewrite (Hko (n_corr n)), elem_of_map_to_list. tauto. }
  assert (ND : NoDup (snd <$> rl)).
  { apply NoDup_fmap_2_strong.
    - intros [s k] [s' k'] H1 H2 E. cbn in E. subst k'. apply Hrl in H1, H2. f_equal. eapply na_inj; [exact HN|apply H1|apply H2].
    - unfold rl. apply NoDup_filter. rewrite (Hko (n_corr n)). apply NoDup_map_to_list. }
  assert (HRev : forall k s, (foldl (fun m x => <[x.2 := x.1]> m) ∅ rl : gmap nat string) !! k = Some s <-> n_corr n !! s = Some k /\ k ∈ n_reachables n).
  { intros k s. rewrite (foldl_insert snd fst rl ∅ ND). split.
    - intros [([s' k'] & Hx & <- & <-)|[_ H]]; [apply Hrl, Hx|rewrite lookup_empty in H; discriminate].
    - intros H. left. exists (s, k). split; [apply Hrl, H|auto]. }
  assert (HCnt : forall k v, (foldl (fun m x => <[x.2 := 0]> m) ∅ rl : gmap nat nat) !! k = Some v <-> v = 0 /\ k ∈ n_reachables n).
  { intros k v. rewrite (foldl_insert snd (fun _ => 0) rl ∅ ND). split.
    - intros [([s' k'] & Hx & <- & <-)|[_ H]]; [apply Hrl in Hx; tauto|rewrite lookup_empty in H; discriminate].
    - intros [-> H]. left. destruct (HNm k H) as [s Hs]. exists (s, k). split; [apply Hrl; auto|auto]. }
  set (rev := (foldl (fun m x => <[x.2 := x.1]> m) ∅ rl : gmap nat string)) in *. set (cnt := (foldl (fun m x => <[x.2 := 0]> m) ∅ rl : gmap nat nat)) in *.
  destruct (bump_constraints (n_constraints n) cnt) as (m1 & E1 & H1).
  { intros c k Hc Hk. exists 0. apply HCnt. split; [reflexivity|]. eapply HC; eassumption. }
  rewrite E1. cbn [res_bind]. destruct (bump_list (n_underscored n) m1) as (m2 & E2 & H2).
  { intros k Hk. destruct (proj2 (H1 k) 0) as (v' & ? & _); [apply HCnt; auto|]. eauto. }
  rewrite E2. cbn [res_bind].
  assert (HM : forall k v, m2 !! k = Some v -> k ∈ n_reachables n /\ (v = 0 <-> free n k)).
  { intros k v Hv. destruct (cnt !! k) as [v0|] eqn:E0.
    - apply HCnt in E0 as Q. destruct Q as [-> HR]. split; [assumption|]. destruct (proj2 (H1 k) 0 E0) as (v1 & Q1 & Q2). destruct (proj2 (H2 k) v1 Q1) as (v2 & R1 & R2).
      rewrite Hv in R1. injection R1 as <-. rewrite R2, Q2. unfold free. tauto.
    - apply (proj1 (H1 k)), (proj1 (H2 k)) in E0. congruence. }
  assert (HM' : forall k, k ∈ n_reachables n -> is_Some (m2 !! k)).
  { intros k HR. destruct (proj2 (H1 k) 0) as (v1 & Q1 & _); [apply HCnt; auto|]. destruct (proj2 (H2 k) v1 Q1) as (v2 & ? & _). eauto. }
  match goal with |- context [collect ?f ?l] => destruct (collect_ok f l) as (bs & EB & HF) end.
  { intros [k v] Hkv. apply elem_of_map_to_list in Hkv. destruct (HM k v Hkv) as [HR _]. destruct (HNm k HR) as [s Hs].
    rewrite (proj2 (HRev k s)) by auto. eauto. }
  rewrite EB. cbn [res_bind]. exists (merge_sort stat_le bs). split; [reflexivity|]. pose proof (merge_sort_Permutation stat_le bs) as HP. split_and!.
  - rewrite HP. eapply (Forall2_NoDup _ fst); [exact HF| |apply NoDup_fst_map_to_list].
    intros [k v] [[s t] w] [k' v'] [[s' t'] w'] Ha Hb. cbn. intros ->. destruct (rev !! k) as [s|] eqn:E; [|discriminate]. destruct (rev !! k') as [s''|] eqn:E'; [|discriminate].
    injection Ha as -> _ _. injection Hb as -> _ _. apply HRev in E, E'. destruct E as [E _], E' as [E' _]. congruence.
  - intros s t v Hx. rewrite HP in Hx. apply elem_of_list_lookup in Hx. destruct Hx as [i Hi]. destruct (Forall2_lookup_r _ _ _ _ _ HF Hi) as ([k v'] & Hk & E).
    apply elem_of_list_lookup_2, elem_of_map_to_list in Hk. destruct (rev !! k) as [s'|] eqn:Er; [|discriminate]. injection E as -> <- ->. apply HRev in Er. destruct (HM k v Hk) as [_ Hv].
    exists k. split_and!; [apply Er|apply Er|reflexivity|exact Hv].
  - intros s k Hs HR. destruct (HM' k HR) as [v Hv]. apply elem_of_map_to_list, elem_of_list_lookup in Hv. destruct Hv as [i Hi].
    destruct (Forall2_lookup_l _ _ _ _ _ HF Hi) as ([[s' t] v'] & Hb & E). destruct (rev !! k) as [s''|] eqn:Er; [|discriminate]. injection E as -> <- ->. apply HRev in Er. destruct Er as [Er _].
    assert (s' = s) as -> by (eapply na_inj; eassumption). exists v'. rewrite HP. eapply elem_of_list_lookup_2. exact Hb.
Qed.

(** ** Grouping *)
Definition group (a : string) (l : list (string * signal_type * nat)) : list (string * signal_type * nat) :=
  filter (fun x => x.2 = 0 /\ split_signal_name_index x.1.1 = a) l.
Lemma note_group l a : foldl note ∅ l !! a = match group a l with [] => None | x :: r => Some (x.1.2, (fun x => x.1.1) <$> x :: r) end.
Proof.
  induction l as [|[[s t] v] l IH] using rev_ind; [reflexivity|]. rewrite foldl_app. cbn [foldl]. unfold group in *. rewrite filter_app.
  unfold note at 1. destruct (Nat.eqb_spec v 0) as [->|Nv].
  - destruct (decide (split_signal_name_index s = a)) as [Ea|Na].
    + rewrite (filter_cons_True _ (s, t, 0)) by auto. rewrite filter_nil, Ea. destruct (foldl note ∅ l !! a) as [[t0 ex]|] eqn:E; rewrite lookup_insert.
      * destruct (filter _ l) as [|x r] eqn:EF in IH |- *; [discriminate|]. injection IH as -> ->. cbn. rewrite fmap_app. reflexivity.
      * destruct (filter _ l) as [|x r] eqn:EF in IH |- *; [|discriminate]. reflexivity.
    + rewrite (filter_cons_False _ (s, t, 0)) by (cbn; tauto). rewrite filter_nil, app_nil_r.
      destruct (foldl note ∅ l !! split_signal_name_index s) as [[t0 ex]|]; rewrite lookup_insert_ne by assumption; exact IH.
  - rewrite (filter_cons_False _ (s, t, v)) by (cbn; tauto). rewrite filter_nil, app_nil_r. exact IH.
Qed.
Definition expected (T a : string) (g : list (string * signal_type * nat)) : option warning :=
  match g with
  | [] => None
  | [x] => Some (Single x.1.2 T x.1.1)
  | x :: y :: _ => Some (Several x.1.2 T a (length g) x.1.1 y.1.1)
  end.
Definition valid_array_order (wo : array_order) : Prop := forall m, wo m ≡ₚ map_to_list m.
Lemma interpretation_ok wo T st : valid_array_order wo -> exists ws, analysis_interpretation wo T st = Ok ws /\
  forall w, w ∈ ws <-> exists a, expected T a (group a st) = Some w.
Proof.
  intros Hwo. unfold analysis_interpretation.
  assert (HX : forall a t ex, (a, (t, ex)) ∈ wo (foldl note ∅ st) <-> foldl note ∅ st !! a = Some (t, ex)).
  { intros a t ex. rewrite (Hwo _). apply elem_of_map_to_list. }
  assert (HW : forall a t ex, foldl note ∅ st !! a = Some (t, ex) -> exists w, new_warning T (a, (t, ex)) = Ok w /\ expected T a (group a st) = Some w).
  { intros a t ex. rewrite note_group. destruct (group a st) as [|x [|y r]] eqn:E; [discriminate| |]; intros [= <- <-]; cbn; [eauto|]. rewrite fmap_length. eauto. }
  destruct (collect_ok (new_warning T) (wo (foldl note ∅ st))) as (ws & E & HF).
  { intros (a & t & ex) H. apply HX, HW in H. destruct H as (w & ? & _). eauto. }
  exists ws. split; [exact E|]. intros w. split.
  - intros H. apply elem_of_list_lookup in H. destruct H as [i Hi]. destruct (Forall2_lookup_r _ _ _ _ _ HF Hi) as ((a & t & ex) & Ha & HE).
    apply elem_of_list_lookup_2, HX, HW in Ha. destruct Ha as (w' & H1 & H2). rewrite HE in H1. injection H1 as ->. eauto.
  - intros [a Ha]. pose proof (note_group st a) as HG. destruct (group a st) as [|x r] eqn:EG; [discriminate|].
    assert (HI : (a, (x.1.2, (fun x => x.1.1) <$> x :: r)) ∈ wo (foldl note ∅ st)) by (apply HX; exact HG).
    destruct (HW a _ _ HG) as (w' & H1 & H2). rewrite EG, Ha in H2. injection H2 as <-.
    apply elem_of_list_lookup in HI. destruct HI as [i Hi]. destruct (Forall2_lookup_l _ _ _ _ _ HF Hi) as (b & Hb & HE). rewrite H1 in HE. injection HE as ->.
    eapply elem_of_list_lookup_2. exact Hb.
Qed.
Definition says (ko : corr_order) (n : node) (w : warning) : Prop :=
  exists st a, visit_node ko n = Ok st /\ expected (n_template n) a (group a st) = Some w.
Lemma analyse_from_ok ko wo ns vis : valid_array_order wo -> (forall n, n ∈ ns -> exists st, visit_node ko n = Ok st) ->
  exists ws, analyse_from ko wo ns vis = Ok ws /\ forall w, w ∈ ws <-> exists i n, ns !! i = Some n /\ n_custom n = false /\ n_template n ∉ vis /\
    (forall j m, j < i -> ns !! j = Some m -> n_custom m = false -> n_template m <> n_template n) /\ says ko n w.
Proof.
  intros Hwo. revert vis. induction ns as [|n ns IH]; intros vis HV.
  { exists []. split; [reflexivity|]. intros w. split; [intros H; apply elem_of_nil in H; contradiction|]. intros (i & n & H & _). rewrite lookup_nil in H. discriminate. }
  assert (HV' : forall m, m ∈ ns -> exists st, visit_node ko m = Ok st) by (intros m Hm; apply HV; right; assumption).
  cbn [analyse_from]. destruct (n_custom n) eqn:EC; cbn [negb andb].
  - destruct (IH vis HV') as (ws & E & HW). exists ws. split; [exact E|]. intros w. rewrite HW. split.
    + intros (i & m & Hm & H1 & H2 & H3 & H4). exists (S i), m. split_and!; [assumption..| |assumption].
      intros [|j] m' Hj Hm' Hc; [cbn in Hm'; injection Hm' as <-; congruence|]. apply (H3 j m'); [lia|assumption..].
    + intros ([|i] & m & Hm & H1 & H2 & H3 & H4); [cbn in Hm; injection Hm as <-; congruence|]. exists i, m. split_and!; [assumption..| |assumption].
      intros j m' Hj. apply (H3 (S j)). lia.
  - destruct (bool_decide_reflect (n_template n ∈ vis)) as [Hin|Hout]; cbn [negb].
    + destruct (IH vis HV') as (ws & E & HW). exists ws. split; [exact E|]. intros w. rewrite HW. split.
      * intros (i & m & Hm & H1 & H2 & H3 & H4). exists (S i), m. split_and!; [assumption..| |assumption].
        intros [|j] m' Hj Hm' Hc; [cbn in Hm'; injection Hm' as <-; congruence|]. apply (H3 j m'); [lia|assumption..].
      * intros ([|i] & m & Hm & H1 & H2 & H3 & H4); [cbn in Hm; injection Hm as <-; congruence|]. exists i, m. split_and!; [assumption..| |assumption].
        intros j m' Hj. apply (H3 (S j)). lia.
    + destruct (HV n) as [st Hst]; [left|]. rewrite Hst. cbn [res_bind].
      destruct (interpretation_ok wo (n_template n) st Hwo) as (ws1 & E1 & HW1). rewrite E1. cbn [res_bind].
      destruct (IH ({[n_template n]} ∪ vis) HV') as (ws & E & HW). rewrite E. cbn [res_bind]. exists (ws1 ++ ws). split; [reflexivity|].
      intros w. rewrite elem_of_app, HW1, HW. split.
      * intros [[a Ha]|(i & m & Hm & H1 & H2 & H3 & H4)].
        -- exists 0, n. split_and!; [reflexivity|assumption..| |exists st, a; auto]. intros j m Hj. lia.
        -- rewrite not_elem_of_union, not_elem_of_singleton in H2. destruct H2 as [H2 H2']. exists (S i), m. split_and!; [assumption..| |assumption].
           intros [|j] m' Hj Hm' Hc; [cbn in Hm'; injection Hm' as <-; congruence|]. apply (H3 j m'); [lia|assumption..].
      * intros ([|i] & m & Hm & H1 & H2 & H3 & H4).
        -- cbn in Hm. injection Hm as <-. left. destruct H4 as (st' & a & Hst' & Ha). rewrite Hst in Hst'. injection Hst' as <-. eauto.
        -- right. exists i, m. cbn in Hm. split_and!; [assumption..| | |assumption].
           ++ rewrite not_elem_of_union, not_elem_of_singleton. split; [|assumption]. intros Heq. apply (H3 0 n); [lia|reflexivity|assumption|congruence].
           ++ intros j m' Hj. apply (H3 (S j)). lia.
Qed.

(** ** The circuit *)
Lemma in_c_take_signals c k : k ∈ take_signals c <-> in_c k c.
Proof.
  unfold take_signals, keys, in_c, in_lin, cc. rewrite elem_of_difference, !elem_of_union, !elem_of_dom, elem_of_singleton. tauto.
Qed.
Lemma uses_clean c k : k <> 0 -> k ∈ take_signals (c_remove_zeros c) <-> uses c k.
Proof.
  intros Hk. rewrite in_c_take_signals. unfold in_c, in_lin, uses, c_remove_zeros. cbn. split.
  - intros [[_ [v H]]|[[_ [v H]]|[_ [v H]]]]; apply remove_zeros_lookup in H; exists v; tauto.
  - intros (v & Hv & [H|[H|H]]); [left|right; left|right; right]; (split; [assumption|]); exists v; apply remove_zeros_lookup; auto.
Qed.
Lemma free_clean n k : k <> 0 -> free (clean_node n) k <-> (forall c, c ∈ n_constraints n -> ~ uses c k) /\ k ∉ n_underscored n.
Proof.
  intros Hk. unfold free. change (n_underscored (clean_node n)) with (n_underscored n). apply and_iff_compat_r. split.
  - intros H c Hc Hu. apply (uses_clean _ _ Hk) in Hu as Hu'. apply (H (c_remove_zeros c)); [|assumption]. apply elem_of_clean. split; [|eauto].
    apply in_c_take_signals in Hu'. unfold is_empty, is_empty_map. destruct Hu' as [[_ [v E]]|[[_ [v E]]|[_ [v E]]]];
      rewrite !andb_false_iff, !bool_decide_eq_false; [left; left|left; right|right]; intros Z; rewrite Z, lookup_empty in E; discriminate.
  - intros H c Hc Hu. apply elem_of_clean in Hc. destruct Hc as (_ & c0 & Hc0 & ->). apply (uses_clean _ _ Hk) in Hu. exact (H _ Hc0 Hu).
Qed.
Section circuit.
Context (p : Z) (d : dag) (HB : built_with (as_compiled p) p d).
Lemma c_wf : built_with (well_formed p) p d.
Proof. eapply built_with_mono; [|exact HB]. intros ? ? []. assumption. Qed.
Lemma c_numbered : numbered d.
Proof. eapply built_numbered, built_with_built, HB. Qed.
Lemma c_named : named d.
Proof. eapply built_named, built_with_mono; [|exact HB]. intros ? ? [[] _]. assumption. Qed.
Lemma c_compact : compact d.
Proof. eapply built_compact, built_with_mono; [|exact HB]. intros ? ? [(_ & _ & H & _) _]. exact H. Qed.
Lemma c_sub_named : sub_named d.
Proof. eapply built_sub_named, built_with_mono; [|exact HB]. intros ? ? [[] _]. assumption. Qed.
Lemma c_labelled : labelled d.
Proof. eapply built_labelled, built_with_mono; [|exact HB]. intros ? ? [[] [? _]]. auto. Qed.
(** a visible signal that is not local has the name of a component *)
Lemma c_name i n k : d_nodes d !! i = Some n -> visible d i k ->
  (k ∈ n_locals n /\ exists s, n_corr n !! s = Some k) \/
  exists es e s, d_adjacency d !! i = Some es /\ e ∈ es /\ n_corr n !! dotted (e_label e) s = Some k.
Proof.
  intros Hn HV. apply (visible_lookup _ _ _ _ Hn) in HV. destruct HV as [HL|(es & e & t & j & Hes & He & Ht & Hj & ->)].
  - left. split; [assumption|]. exact (na_local _ (c_named _ _ Hn) _ HL).
  - right. exists es, e. destruct (lookup_lt_is_Some_2 (d_adjacency d) (e_goes_to e)) as [est Hest]; [rewrite (nu_length _ c_numbered); eapply lookup_lt_Some; exact Ht|].
    destruct (c_compact _ _ _ Ht Hest) as (C1 & _ & _ & C4). destruct (nn_kinds _ _ _ _ (nu_node _ c_numbered _ _ _ Ht Hest)) as [K1 _].
    rewrite C4 in Hj. apply elem_of_seq in Hj. assert (HL : j ∈ n_locals t) by (apply C1; lia).
    destruct (na_local _ (c_named _ _ Ht) _ HL) as [s Hs]. exists s. split_and!; [assumption..|]. exact (c_sub_named _ _ _ _ _ _ _ Hn Hes He Ht Hs HL).
Qed.
Lemma c_visit ko i n : valid_corr_order ko -> d_nodes d !! i = Some n ->
  exists st, visit_node ko (clean_node n) = Ok st /\ NoDup ((fun x => x.1.1) <$> st) /\
    (forall s t v, (s, t, v) ∈ st -> exists k, n_corr n !! s = Some k /\ visible d i k /\ t = type_of n k /\ (v = 0 <-> unconstrained_signal d i s k)) /\
    (forall s k, n_corr n !! s = Some k -> visible d i k -> exists v, (s, type_of n k, v) ∈ st).
Proof.
  intros Hko Hn. pose proof (built_reaches _ _ c_wf _ _ Hn) as HR. destruct (built_sighted _ _ HB _ _ Hn) as [HS1 HS2]. pose proof (c_named _ _ Hn) as HN.
  destruct (visit_node_ok ko (clean_node n) Hko) as (st & E & ND & H1 & H2).
  - eapply node_names_same; [exact HN|reflexivity..].
  - intros k Hk. apply HR in Hk. destruct (c_name _ _ _ Hn Hk) as [[_ H]|(_ & e & s & _ & _ & H)]; eauto.
  - intros c k Hc Hk. apply elem_of_clean in Hc. destruct Hc as (_ & c0 & Hc0 & ->). apply in_c_take_signals, in_c_remove_zeros in Hk. exact (HS1 _ _ Hc0 Hk).
  - exact HS2.
  - exists st. split_and!; [exact E|exact ND| |].
    + intros s t v Hx. destruct (H1 s t v Hx) as (k & Hs & Hk & -> & Hv). apply HR in Hk. exists k. split_and!; [exact Hs|exact Hk|reflexivity|].
      destruct (na_range _ HN _ _ Hs) as [Hr _]. rewrite Hv, free_clean by lia. split.
      * intros [? ?]. exists n. auto.
      * intros (n' & Hn' & _ & _ & A & B). rewrite Hn in Hn'. injection Hn' as <-. auto.
    + intros s k Hs Hk. apply (H2 s k Hs). apply HR. exact Hk.
Qed.
Lemma type_of_local n k : type_of n k = Local <-> k ∈ n_locals n.
Proof. unfold type_of. destruct (bool_decide_reflect (k ∈ n_locals n)); split; try congruence; try contradiction; auto. Qed.
Lemma same_type i s s' a t t' : unconstrained d i s -> unconstrained d i s' -> element_of s a -> element_of s' a ->
  of_type d i s t -> of_type d i s' t' -> t = t'.
Proof.
  intros (k & n & Hn & Hs & Hk & _) (k' & n' & Hn' & Hs' & Hk' & _) Ha Ha' (n1 & k1 & Hn1 & Hs1 & Ht) (n2 & k2 & Hn2 & Hs2 & Ht').
  rewrite Hn in Hn', Hn1, Hn2. injection Hn' as <-. injection Hn1 as <-. injection Hn2 as <-. rewrite Hs in Hs1. injection Hs1 as <-. rewrite Hs' in Hs2. injection Hs2 as <-.
  assert (HI : identifier s = identifier s') by (rewrite (identifier_element _ _ Ha), (identifier_element _ _ Ha'); reflexivity).
  assert (X : forall x y kx ky, n_corr n !! x = Some kx -> n_corr n !! y = Some ky -> visible d i ky -> identifier x = identifier y -> kx ∈ n_locals n -> ky ∈ n_locals n).
  { intros x y kx ky Hx Hy HV HE HL. destruct (c_name _ _ _ Hn HV) as [[HL' _]|(es & e & s0 & Hes & He & H)]; [assumption|]. exfalso.
    assert (y = dotted (e_label e) s0) as -> by (eapply na_inj; [exact (c_named _ _ Hn)|exact Hy|exact H]).
    apply (nl_kinds _ _ (c_labelled _ _ _ Hn Hes) e x kx He Hx HL). rewrite HE, identifier_dotted. reflexivity. }
  pose proof (X s s' k k' Hs Hs' Hk' HI) as X1. pose proof (X s' s k' k Hs' Hs Hk (eq_sym HI)) as X2.
  destruct t, t'; try reflexivity; exfalso.
  - assert (HL : k ∈ n_locals n) by (apply Ht; reflexivity). apply X1, Ht' in HL. discriminate.
  - assert (HL : k' ∈ n_locals n) by (apply Ht'; reflexivity). apply X2, Ht in HL. discriminate.
Qed.
Lemma group_spec ko i n st : valid_corr_order ko -> d_nodes d !! i = Some n -> visit_node ko (clean_node n) = Ok st ->
  forall a, NoDup ((fun x => x.1.1) <$> group a st) /\
    (forall x, x ∈ group a st -> unconstrained d i x.1.1 /\ element_of x.1.1 a /\ of_type d i x.1.1 x.1.2) /\
    (forall s, unconstrained d i s -> element_of s a -> s ∈ (fun x => x.1.1) <$> group a st).
Proof.
  intros Hko Hn E a. destruct (c_visit ko i n Hko Hn) as (st' & E' & ND & H1 & H2). rewrite E in E'. injection E' as <-. split_and!.
  - apply NoDup_fmap_2_strong; [|unfold group; apply NoDup_filter; eapply NoDup_fmap_1; exact ND].
    intros x y Hx Hy Hxy. unfold group in Hx, Hy. apply elem_of_list_filter in Hx, Hy. destruct Hx as [_ Hx], Hy as [_ Hy].
    apply elem_of_list_lookup in Hx, Hy. destruct Hx as [u Hu], Hy as [v Hv].
    assert (u = v) as ->; [|congruence]. eapply (NoDup_lookup _ _ _ x.1.1 ND); rewrite list_lookup_fmap; [rewrite Hu|rewrite Hv, Hxy]; reflexivity.
  - intros [[s t] v] Hx. unfold group in Hx. apply elem_of_list_filter in Hx. cbn in *. destruct Hx as [[-> <-] Hx]. destruct (H1 _ _ _ Hx) as (k & Hs & Hk & -> & Hv).
    split_and!; [exists k; apply Hv; reflexivity|apply element_of_split|]. exists n, k. split_and!; [assumption..|]. apply type_of_local.
  - intros s (k & HU) Ha. pose proof HU as (n' & Hn' & Hs & Hk & _). rewrite Hn in Hn'. injection Hn' as <-. destruct (H2 s k Hs Hk) as [v Hv].
    apply elem_of_list_fmap. exists (s, type_of n k, v). split; [reflexivity|]. unfold group. apply elem_of_list_filter. cbn. split; [|assumption].
    split; [|apply element_of_iff; assumption]. destruct (H1 _ _ _ Hv) as (k' & Hs' & _ & _ & Hv'). rewrite Hs in Hs'. injection Hs' as <-. apply Hv'. exact HU.
Qed.
Lemma says_correct ko i n w : valid_corr_order ko -> d_nodes d !! i = Some n -> says ko (clean_node n) w -> correct d i w.
Proof.
  intros Hko Hn (st & a & E & HW). destruct (group_spec ko i n st Hko Hn E a) as (ND & H1 & H2). exists n. split; [assumption|].
  change (n_template (clean_node n)) with (n_template n) in HW. destruct (group a st) as [|x [|y r]] eqn:EG; [discriminate| |]; cbn in HW; injection HW as <-.
  - destruct (H1 x) as (A & B & C); [left|]. split_and!; [reflexivity|assumption..|]. intros s' a' HU Ha Ha'.
    assert (a' = a) as ->. { apply element_of_iff in B, Ha. congruence. } specialize (H2 s' HU Ha'). cbn in H2. apply elem_of_list_singleton in H2. exact H2.
  - split; [reflexivity|]. exists ((fun x => x.1.1) <$> x :: y :: r). split_and!; [exact ND|rewrite fmap_length; reflexivity|left|right; left| | |].
    + cbn in ND. apply NoDup_cons in ND. destruct ND as [ND _]. intros EE. apply ND. rewrite EE. left.
    + intros s. split; [|intros [? ?]; auto]. intros Hs. apply elem_of_list_fmap in Hs. destruct Hs as (z & -> & Hz). destruct (H1 z Hz) as (? & ? & _). auto.
    + intros s Hs. apply elem_of_list_fmap in Hs. destruct Hs as (z & -> & Hz). destruct (H1 z Hz) as (A & B & C). destruct (H1 x) as (A' & B' & C'); [left|].
      rewrite (same_type i x.1.1 z.1.1 a x.1.2 z.1.2); assumption.
Qed.
Lemma says_about ko i n s : valid_corr_order ko -> d_nodes d !! i = Some n -> unconstrained d i s ->
  exists w, says ko (clean_node n) w /\ about d i s w /\ forall w', says ko (clean_node n) w' -> about d i s w' -> w' = w.
Proof.
  intros Hko Hn HU. destruct (c_visit ko i n Hko Hn) as (st & E & _). set (a := split_signal_name_index s).
  destruct (group_spec ko i n st Hko Hn E a) as (ND & H1 & H2). specialize (H2 s HU (element_of_split s)).
  assert (HE : exists w, expected (n_template n) a (group a st) = Some w /\ about d i s w).
  { destruct (group a st) as [|x [|y r]] eqn:EG; [apply elem_of_nil in H2; contradiction| |]; eexists; (split; [reflexivity|]); exists n; (split; [assumption|]).
    - split; [reflexivity|]. cbn in H2. apply elem_of_list_singleton in H2. auto.
    - split; [reflexivity|]. apply element_of_split. }
  destruct HE as (w & HW & HA). exists w. split_and!; [exists st, a; auto|exact HA|].
  intros w' (st' & a' & E' & HW') (n' & Hn' & HA'). rewrite E in E'. injection E' as <-. rewrite Hn in Hn'. injection Hn' as <-.
  destruct (group_spec ko i n st Hko Hn E a') as (_ & H1' & _).
  change (n_template (clean_node n)) with (n_template n) in HW'.
  assert (a' = a) as ->; [|rewrite HW in HW'; injection HW' as <-; reflexivity].
  destruct (group a' st) as [|x [|y r]] eqn:EG; [discriminate| |]; cbn in HW'; injection HW' as <-.
  - destruct HA' as [_ HA']. destruct (H1' x) as (_ & B & _); [left|]. apply element_of_iff in B. unfold a. congruence.
  - destruct HA' as [_ HA']. apply element_of_iff in HA'. unfold a. congruence.
Qed.
Lemma examined_unique i j n m : examined d i -> examined d j -> d_nodes d !! i = Some n -> d_nodes d !! j = Some m -> n_template n = n_template m -> i = j.
Proof.
  intros (n' & Hn' & Cn & Hi) (m' & Hm' & Cm & Hj) Hn Hm HT. rewrite Hn in Hn'. injection Hn' as <-. rewrite Hm in Hm'. injection Hm' as <-.
  destruct (Nat.lt_trichotomy i j) as [L|[L|L]]; [|assumption|]; exfalso; [apply (Hj i n L Hn Cn HT)|apply (Hi j m L Hm Cm); congruence].
Qed.
Lemma analysis_ok ko wo : valid_corr_order ko -> valid_array_order wo -> exists ws, constraint_analysis ko wo d = Ok ws /\
  forall w, w ∈ ws <-> exists i n, d_nodes d !! i = Some n /\ examined d i /\ says ko (clean_node n) w.
Proof.
  intros Hko Hwo. unfold constraint_analysis. destruct (analyse_from_ok ko wo (d_nodes (clean_constraints d)) ∅ Hwo) as (ws & E & HW).
  { intros n Hn. cbn in Hn. apply elem_of_list_fmap in Hn. destruct Hn as (n0 & -> & Hn). apply elem_of_list_lookup in Hn. destruct Hn as [i Hi].
    destruct (c_visit ko i n0 Hko Hi) as (st & ? & _). eauto. }
  exists ws. split; [exact E|]. intros w. rewrite HW. split.
  - intros (i & n & Hn & H1 & _ & H3 & H4). cbn in Hn, H3. rewrite list_lookup_fmap in Hn. apply fmap_Some in Hn. destruct Hn as (n0 & Hn & ->).
    exists i, n0. split_and!; [assumption| |assumption]. exists n0. split_and!; [assumption|exact H1|]. intros j m Hj Hm Hc. apply (H3 j (clean_node m) Hj); [|exact Hc].
    rewrite list_lookup_fmap, Hm. reflexivity.
  - intros (i & n & Hn & (n' & Hn' & H1 & H3) & H4). rewrite Hn in Hn'. injection Hn' as <-. exists i, (clean_node n). cbn. split_and!; [|exact H1|apply not_elem_of_empty| |exact H4].
    + rewrite list_lookup_fmap, Hn. reflexivity.
    + intros j m Hj Hm Hc. rewrite list_lookup_fmap in Hm. apply fmap_Some in Hm. destruct Hm as (m0 & Hm & ->). exact (H3 j m0 Hj Hm Hc).
Qed.
End circuit.
