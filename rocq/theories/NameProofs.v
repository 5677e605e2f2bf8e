(** Names: of sub-component signals, of the declared signals, of all the signals of the circuit. *)
From stdpp Require Import prelude gmap fin_maps sorting strings.
From Coq Require Import ZArith Lia.
From Verif Require Import ModArithModel AlgebraModel AlgebraSpec PipelineModel PipelineSpec DagModel DagSpec DagProofs WalkProofs FlattenProofs.
Open Scope nat_scope.

Lemma history_built P p ops d : history P p ops d -> built_with P p d.
Proof. induction 1; [constructor|econstructor; eassumption]. Qed.
Lemma built_history P p d : built_with P p d -> exists ops, history P p ops d.
Proof. induction 1 as [|ko d o d' Hko H [ops IH] HP E]; [exists []; constructor|exists (ops ++ [o]); econstructor; eassumption]. Qed.

(** ** the signals of a sub-component under the name of the component *)
Definition sub_named (d : dag) : Prop := forall i n es e t s id,
  d_nodes d !! i = Some n -> d_adjacency d !! i = Some es -> e ∈ es -> d_nodes d !! e_goes_to e = Some t -> n_corr t !! s = Some id -> id ∈ n_locals t ->
  n_corr n !! dotted (e_label e) s = Some (e_in e + id).
Lemma sub_named_on_main d f : numbered d -> sub_named d -> (forall n, last (d_nodes d) = Some n -> forall s v, n_corr n !! s = Some v -> n_corr (f n) !! s = Some v) ->
  sub_named (on_main f d).
Proof.
  intros HU HS HF i n es e t s id Hn Hes He Ht Hs Hl. unfold on_main in *. cbn [d_nodes d_adjacency] in *.
  assert (Hlt : e_goes_to e < i /\ i <= length (d_nodes d) - 1).
  { assert (Li : i < length (d_nodes d)) by (rewrite <- (nu_length _ HU); eapply lookup_lt_Some; eassumption).
    destruct (lookup_lt_is_Some_2 _ _ Li) as [n0 Hn0]. destruct (nn_edge _ _ _ _ (nu_node _ HU _ _ _ Hn0 Hes) e He) as (A & _). lia. }
  rewrite list_lookup_alter_ne in Ht by lia. destruct (decide (i = length (d_nodes d) - 1)) as [->|].
  - rewrite list_lookup_alter in Hn. apply fmap_Some in Hn. destruct Hn as (n0 & Hn & ->). apply HF; [rewrite last_lookup, <- Hn; f_equal; lia|]. eapply HS; eassumption.
  - rewrite list_lookup_alter_ne in Hn by lia. eapply HS; eassumption.
Qed.
Lemma sub_named_step ko d o d' : valid_corr_order ko -> numbered d -> sub_named d -> fresh d o -> dag_step ko d o = Ok d' -> sub_named d'.
Proof.
  intros Hko HU HS. destruct o as [tn ps par cus|name pub|name|name|name|to label par|c|s|k]; cbn [dag_step fresh]; intros FR E.
  - injection E as <-. intros i n es e t s id Hn Hes He Ht Hs Hl. unfold add_node in *. cbn [d_nodes d_adjacency] in *.
    apply lookup_app_Some in Hes. destruct Hes as [Hes|[_ Hes]].
    + assert (Li : i < length (d_nodes d)) by (rewrite <- (nu_length _ HU); eapply lookup_lt_Some; eassumption).
      rewrite lookup_app_l in Hn by assumption. destruct (nn_edge _ _ _ _ (nu_node _ HU _ _ _ Hn Hes) e He) as (A & _).
      rewrite lookup_app_l in Ht by lia. eapply HS; eassumption.
    + apply list_lookup_singleton_Some in Hes. destruct Hes as [_ <-]. apply elem_of_nil in He. contradiction.
  - injection E as <-. apply sub_named_on_main; [assumption..|]. intros n L s v H. rewrite L in FR. cbn. rewrite lookup_insert_ne by congruence. assumption.
  - injection E as <-. apply sub_named_on_main; [assumption..|]. intros n L s v H. rewrite L in FR. cbn. rewrite lookup_insert_ne by congruence. assumption.
  - injection E as <-. apply sub_named_on_main; [assumption..|]. intros n L s v H. rewrite L in FR. cbn. rewrite lookup_insert_ne by congruence. assumption.
  - injection E as <-. apply sub_named_on_main; [assumption..|]. auto.
  - assert (HNE : d_nodes d <> []). { intros Z. unfold add_edge, main_id in E. rewrite Z in E. discriminate. }
    destruct (add_edge_spec ko d to label par Hko HNE) as [(Hto & source & t & corr & reach & L & Hs & Ht & EA & HC & _)|[_ EA]];
      rewrite EA in E; injection E as <-; [|assumption]. rewrite L in FR.
    intros i n es e t' s id Hn Hes He Ht' Hs' Hl. cbn [d_nodes d_adjacency] in *.
    assert (Li : i < length (d_nodes d)) by (apply lookup_lt_Some in Hn; rewrite insert_length in Hn; assumption).
    destruct (decide (i = length (d_nodes d) - 1)) as [->|].
    2: { rewrite list_lookup_insert_ne in Hn by lia. rewrite list_lookup_alter_ne in Hes by lia.
         destruct (nn_edge _ _ _ _ (nu_node _ HU _ _ _ Hn Hes) e He) as (A & _). rewrite list_lookup_insert_ne in Ht' by lia. eapply HS; eassumption. }
    rewrite list_lookup_insert in Hn by assumption. injection Hn as <-. rewrite list_lookup_alter in Hes. apply fmap_Some in Hes. destruct Hes as (es0 & Hes & ->).
    cbn [with_sub n_corr]. apply HC. apply elem_of_app in He. destruct He as [He|He].
    + destruct (nn_edge _ _ _ _ (nu_node _ HU _ _ _ Hs Hes) e He) as (A & _). rewrite list_lookup_insert_ne in Ht' by lia.
      pose proof (HS _ _ _ _ _ _ _ Hs Hes He Ht' Hs' Hl) as H. right. split; [|assumption]. intros s2 id2 H1 H2 H3. rewrite H3, (FR t s2 id2 Ht H1 H2) in H. discriminate.
    + apply elem_of_list_singleton in He. subst e. cbn [e_goes_to e_label e_in] in *. rewrite list_lookup_insert_ne in Ht' by lia. rewrite Ht in Ht'. injection Ht' as <-.
      left. exists s, id. auto.
  - injection E as <-. apply sub_named_on_main; [assumption..|]. auto.
  - injection E as <-. apply sub_named_on_main; [assumption..|]. auto.
  - injection E as <-. apply sub_named_on_main; [assumption..|]. auto.
Qed.
Lemma built_sub_named p d : built_with fresh p d -> sub_named d.
Proof.
  induction 1 as [|ko d o d' Hko HB IH HI E].
  - intros i n es e t s id H. cbn in H. rewrite lookup_nil in H. discriminate.
  - eapply sub_named_step; [exact Hko|eapply built_numbered, built_with_built; exact HB|exact IH|exact HI|exact E].
Qed.
Lemma sub_named_clean d : sub_named d -> sub_named (clean_constraints d).
Proof.
  intros HS i n es e t s id Hn Hes He Ht Hs Hl. cbn [clean_constraints d_nodes d_adjacency] in *. rewrite list_lookup_fmap in Hn, Ht.
  apply fmap_Some in Hn, Ht. destruct Hn as (n0 & Hn & ->), Ht as (t0 & Ht & ->). cbn [clean_node node_set_constraints n_corr n_locals] in *. eapply HS; eassumption.
Qed.

(** ** the declared signals of the template under construction *)
Lemma current_snoc ops o : current (ops ++ [o]) = match o with OpNode _ _ _ _ => [] | _ => current ops ++ [o] end.
Proof. unfold current. rewrite foldl_app. reflexivity. Qed.
Definition declared (ops : list dag_op) : list string :=
  outputs_of ops ++ public_inputs_of ops ++ private_inputs_of ops ++ intermediates_of ops.
Record kinds_ok (ops : list dag_op) (n : node) : Prop := {
  ko_outputs : n_outputs n = length (outputs_of ops);
  ko_public : n_public_inputs n = length (public_inputs_of ops);
  ko_inputs : n_inputs n = length (public_inputs_of ops) + length (private_inputs_of ops);
  ko_intermediates : n_intermediates n = length (intermediates_of ops);
  ko_ids : forall j s, declared ops !! j = Some s -> n_corr n !! s = Some (S j);
}.
Lemma last_alter {A} (f : A -> A) l : last (alter f (length l - 1) l) = f <$> last l.
Proof. rewrite !last_lookup, alter_length. replace (pred (length l)) with (length l - 1) by lia. apply list_lookup_alter. Qed.
Lemma last_on_main f d : last (d_nodes (on_main f d)) = f <$> last (d_nodes d).
Proof. apply last_alter. Qed.
Lemma history_kinds p ops d : history (fun d o => fresh d o /\ in_order d o) p ops d -> forall n, last (d_nodes d) = Some n -> kinds_ok (current ops) n.
Proof.
  induction 1 as [|ko ops d o d' Hko HH IH [HF HI] E]; intros n Hn; [discriminate|].
  assert (HB : built_with (fun d o => fresh d o /\ in_order d o) p d) by (eapply history_built; exact HH).
  assert (HU : numbered d) by (eapply built_numbered, built_with_built; exact HB).
  assert (HC : compact d) by (eapply built_compact, (built_with_mono _ _ _ _ (fun d o H => proj2 H)); exact HB).
  rewrite current_snoc.
  assert (SAME : forall f, (forall n, n_outputs (f n) = n_outputs n /\ n_public_inputs (f n) = n_public_inputs n /\ n_inputs (f n) = n_inputs n /\ n_intermediates (f n) = n_intermediates n /\ n_corr (f n) = n_corr n) ->
     (declared (current ops ++ [o]) = declared (current ops) /\ outputs_of (current ops ++ [o]) = outputs_of (current ops) /\ public_inputs_of (current ops ++ [o]) = public_inputs_of (current ops) /\
      private_inputs_of (current ops ++ [o]) = private_inputs_of (current ops) /\ intermediates_of (current ops ++ [o]) = intermediates_of (current ops)) ->
     d' = on_main f d -> kinds_ok (current ops ++ [o]) n).
  { intros f Hf (D & D1 & D2 & D3 & D4) ->. rewrite last_on_main in Hn. apply fmap_Some in Hn. destruct Hn as (n0 & Hn & ->). destruct (IH n0 Hn) as [A1 A2 A3 A4 A5].
    destruct (Hf n0) as (F1 & F2 & F3 & F4 & F5). constructor; rewrite ?D, ?D1, ?D2, ?D3, ?D4, ?F1, ?F2, ?F3, ?F4, ?F5; assumption. }
  assert (SNOC : forall n0, last (d_nodes d) = Some n0 -> last (d_adjacency d) = Some [] -> n_signals n0 = length (declared (current ops))).
  { intros n0 Hn0 HA. destruct (IH n0 Hn0) as [A1 A2 A3 A4 A5]. apply last_nonempty in Hn0, HA. destruct Hn0 as [Hn0 _], HA as [HA _]. rewrite (nu_length _ HU) in HA.
    pose proof (nu_node _ HU _ _ _ Hn0 HA) as NN. pose proof (nn_count _ _ _ _ NN) as HCt. destruct (nn_kinds _ _ _ _ NN) as [HK _]. cbn in HCt. unfold declared. rewrite !app_length. lia. }
  destruct o as [tn ps par cus|name pub|name|name|name|to label par|c|s|k]; cbn [dag_step] in E.
  - injection E as <-. unfold add_node in Hn. cbn [d_nodes] in Hn. rewrite last_snoc in Hn. injection Hn as <-.
    constructor; cbn; try reflexivity. intros j s Hj. rewrite lookup_nil in Hj. discriminate.
  - injection E as <-. rewrite last_on_main in Hn. apply fmap_Some in Hn. destruct Hn as (n0 & Hn & ->). destruct (IH n0 Hn) as [A1 A2 A3 A4 A5].
    cbn [fresh in_order] in HF, HI. rewrite Hn in HF, HI. destruct pub.
    + destruct HI as (HA & HI1 & HI2). rewrite A3, A2 in HI1. rewrite A4 in HI2.
      assert (EP : private_inputs_of (current ops) = []) by (apply nil_length_inv; lia). assert (EI : intermediates_of (current ops) = []) by (apply nil_length_inv; lia).
      assert (ED : declared (current ops ++ [OpInput name true]) = declared (current ops) ++ [name]).
      { unfold declared, outputs_of, public_inputs_of, private_inputs_of, intermediates_of in *. rewrite !omap_app. cbn. rewrite EP, EI, !app_nil_r, app_assoc. reflexivity. }
      constructor; cbn [node_add_input n_outputs n_public_inputs n_inputs n_intermediates n_corr].
      * unfold outputs_of in *. rewrite omap_app. cbn. rewrite app_nil_r. assumption.
      * unfold public_inputs_of in *. rewrite omap_app, app_length. cbn. lia.
      * unfold public_inputs_of, private_inputs_of in *. rewrite !omap_app, !app_length. cbn. lia.
      * unfold intermediates_of in *. rewrite omap_app, app_length. cbn. lia.
      * rewrite ED. intros j s Hj. rewrite (SNOC n0 Hn HA). apply lookup_app_Some in Hj. destruct Hj as [Hj|[Lj Hj]].
        -- rewrite lookup_insert_ne; [apply A5; assumption|]. intros ->. rewrite (A5 _ _ Hj) in HF. discriminate.
        -- apply list_lookup_singleton_Some in Hj. destruct Hj as [Hj ->]. rewrite lookup_insert. f_equal. lia.
    + destruct HI as (HA & HI2). rewrite A4 in HI2.
      assert (EI : intermediates_of (current ops) = []) by (apply nil_length_inv; lia).
      assert (ED : declared (current ops ++ [OpInput name false]) = declared (current ops) ++ [name]).
      { unfold declared, outputs_of, public_inputs_of, private_inputs_of, intermediates_of in *. rewrite !omap_app. cbn. rewrite EI, !app_nil_r, !app_assoc. reflexivity. }
      constructor; cbn [node_add_input n_outputs n_public_inputs n_inputs n_intermediates n_corr].
      * unfold outputs_of in *. rewrite omap_app. cbn. rewrite app_nil_r. assumption.
      * unfold public_inputs_of in *. rewrite omap_app, app_length. cbn. lia.
      * unfold public_inputs_of, private_inputs_of in *. rewrite !omap_app, !app_length. cbn. lia.
      * unfold intermediates_of in *. rewrite omap_app, app_length. cbn. lia.
      * rewrite ED. intros j s Hj. rewrite (SNOC n0 Hn HA). apply lookup_app_Some in Hj. destruct Hj as [Hj|[Lj Hj]].
        -- rewrite lookup_insert_ne; [apply A5; assumption|]. intros ->. rewrite (A5 _ _ Hj) in HF. discriminate.
        -- apply list_lookup_singleton_Some in Hj. destruct Hj as [Hj ->]. rewrite lookup_insert. f_equal. lia.
  - injection E as <-. rewrite last_on_main in Hn. apply fmap_Some in Hn. destruct Hn as (n0 & Hn & ->). destruct (IH n0 Hn) as [A1 A2 A3 A4 A5].
    cbn [fresh in_order] in HF, HI. rewrite Hn in HF, HI. destruct HI as (HA & HI1 & HI2). rewrite A3 in HI1. rewrite A4 in HI2.
    assert (EQ : public_inputs_of (current ops) = []) by (apply nil_length_inv; lia).
    assert (EP : private_inputs_of (current ops) = []) by (apply nil_length_inv; lia). assert (EI : intermediates_of (current ops) = []) by (apply nil_length_inv; lia).
    assert (ED : declared (current ops ++ [OpOutput name]) = declared (current ops) ++ [name]).
    { unfold declared, outputs_of, public_inputs_of, private_inputs_of, intermediates_of in *. rewrite !omap_app. cbn. rewrite EQ, EP, EI. cbn. rewrite !app_nil_r. reflexivity. }
    constructor; cbn [node_add_output n_outputs n_public_inputs n_inputs n_intermediates n_corr].
    + unfold outputs_of in *. rewrite omap_app, app_length. cbn. lia.
    + unfold public_inputs_of in *. rewrite omap_app, app_length. cbn. lia.
    + unfold public_inputs_of, private_inputs_of in *. rewrite !omap_app, !app_length. cbn. lia.
    + unfold intermediates_of in *. rewrite omap_app, app_length. cbn. lia.
    + rewrite ED. intros j s Hj. rewrite (SNOC n0 Hn HA). apply lookup_app_Some in Hj. destruct Hj as [Hj|[Lj Hj]].
      * rewrite lookup_insert_ne; [apply A5; assumption|]. intros ->. rewrite (A5 _ _ Hj) in HF. discriminate.
      * apply list_lookup_singleton_Some in Hj. destruct Hj as [Hj ->]. rewrite lookup_insert. f_equal. lia.
  - injection E as <-. rewrite last_on_main in Hn. apply fmap_Some in Hn. destruct Hn as (n0 & Hn & ->). destruct (IH n0 Hn) as [A1 A2 A3 A4 A5].
    cbn [fresh in_order] in HF, HI. rewrite Hn in HF, HI. rename HI into HA.
    assert (ED : declared (current ops ++ [OpIntermediate name]) = declared (current ops) ++ [name]).
    { unfold declared, outputs_of, public_inputs_of, private_inputs_of, intermediates_of in *. rewrite !omap_app. cbn. rewrite !app_nil_r, !app_assoc. reflexivity. }
    constructor; cbn [node_add_intermediate n_outputs n_public_inputs n_inputs n_intermediates n_corr].
    + unfold outputs_of in *. rewrite omap_app, app_length. cbn. lia.
    + unfold public_inputs_of in *. rewrite omap_app, app_length. cbn. lia.
    + unfold public_inputs_of, private_inputs_of in *. rewrite !omap_app, !app_length. cbn. lia.
    + unfold intermediates_of in *. rewrite omap_app, app_length. cbn. lia.
    + rewrite ED. intros j s Hj. rewrite (SNOC n0 Hn HA). apply lookup_app_Some in Hj. destruct Hj as [Hj|[Lj Hj]].
      * rewrite lookup_insert_ne; [apply A5; assumption|]. intros ->. rewrite (A5 _ _ Hj) in HF. discriminate.
      * apply list_lookup_singleton_Some in Hj. destruct Hj as [Hj ->]. rewrite lookup_insert. f_equal. lia.
  - injection E as <-. apply (SAME (node_add_ordered name)); [intros; auto|unfold declared, outputs_of, public_inputs_of, private_inputs_of, intermediates_of; rewrite !omap_app; cbn; rewrite !app_nil_r; auto|reflexivity].
  - assert (HNE : d_nodes d <> []). { intros Z. unfold add_edge, main_id in E. rewrite Z in E. discriminate. }
    assert (DD : declared (current ops ++ [OpEdge to label par]) = declared (current ops) /\ outputs_of (current ops ++ [OpEdge to label par]) = outputs_of (current ops) /\ public_inputs_of (current ops ++ [OpEdge to label par]) = public_inputs_of (current ops) /\
      private_inputs_of (current ops ++ [OpEdge to label par]) = private_inputs_of (current ops) /\ intermediates_of (current ops ++ [OpEdge to label par]) = intermediates_of (current ops)).
    { unfold declared, outputs_of, public_inputs_of, private_inputs_of, intermediates_of; rewrite !omap_app; cbn; rewrite !app_nil_r; auto. }
    destruct DD as (D & D1 & D2 & D3 & D4).
    destruct (add_edge_spec ko d to label par Hko HNE) as [(Hto & source & t & corr & reach & L & Hs & Ht & EA & HCo & _)|[_ EA]]; rewrite EA in E; injection E as <-.
    + cbn [d_nodes] in Hn. rewrite last_lookup, insert_length in Hn. replace (pred (length (d_nodes d))) with (length (d_nodes d) - 1) in Hn by lia.
      rewrite list_lookup_insert in Hn by (eapply lookup_lt_Some; eassumption). injection Hn as <-. destruct (IH _ L) as [A1 A2 A3 A4 A5].
      constructor; rewrite ?D, ?D1, ?D2, ?D3, ?D4; cbn [with_sub n_outputs n_public_inputs n_inputs n_intermediates n_corr]; try assumption.
      intros j s Hj. apply HCo. right. split; [|apply A5; assumption]. intros s' id H1 H2 ->. cbn [fresh] in HF. rewrite L in HF.
      pose proof (HF t s' id Ht H1 H2) as Q. rewrite (A5 _ _ Hj) in Q. discriminate.
    + destruct (IH _ Hn) as [A1 A2 A3 A4 A5]. constructor; rewrite ?D, ?D1, ?D2, ?D3, ?D4; assumption.
  - injection E as <-. apply (SAME (node_add_constraint c)); [intros; cbn; auto|unfold declared, outputs_of, public_inputs_of, private_inputs_of, intermediates_of; rewrite !omap_app; cbn; rewrite !app_nil_r; auto|reflexivity].
  - injection E as <-. apply (SAME (node_add_underscored s)); [intros; cbn; auto|unfold declared, outputs_of, public_inputs_of, private_inputs_of, intermediates_of; rewrite !omap_app; cbn; rewrite !app_nil_r; auto|reflexivity].
  - injection E as <-. apply (SAME (node_set_indexes k)); [intros; cbn; auto|unfold declared, outputs_of, public_inputs_of, private_inputs_of, intermediates_of; rewrite !omap_app; cbn; rewrite !app_nil_r; auto|reflexivity].
Qed.

(** ** full names *)
Lemma identifier_dotted l r : identifier (dotted l r) = identifier l.
Proof.
  unfold dotted. induction l as [|c l IH].
  - change ("" +:+ "." +:+ r)%string with (String dot r). cbn [identifier]. rewrite bool_decide_true by auto. reflexivity.
  - change (String c l +:+ "." +:+ r)%string with (String c (l +:+ "." +:+ r)). cbn [identifier]. rewrite IH. reflexivity.
Qed.
Lemma no_dot_split l l' r r' : no_dot l -> no_dot l' -> dotted l r = dotted l' r' -> l = l' /\ r = r'.
Proof.
  unfold dotted. revert l'. induction l as [|c l IH]; intros l' H H' E; destruct l' as [|c' l'].
  - split; [reflexivity|]. injection E as E. assumption.
  - change ("" +:+ "." +:+ r)%string with (String dot r) in E. change (String c' l' +:+ "." +:+ r')%string with (String c' (l' +:+ "." +:+ r')) in E.
    injection E as E _. destruct H' as [H' _]. congruence.
  - change ("" +:+ "." +:+ r')%string with (String dot r') in E. change (String c l +:+ "." +:+ r)%string with (String c (l +:+ "." +:+ r)) in E.
    injection E as E _. destruct H as [H _]. congruence.
  - change (String c l +:+ "." +:+ r)%string with (String c (l +:+ "." +:+ r)) in E. change (String c' l' +:+ "." +:+ r')%string with (String c' (l' +:+ "." +:+ r')) in E.
    injection E as -> E. destruct H as [_ H], H' as [_ H']. destruct (IH l' H H' E) as [-> ->]. auto.
Qed.
Record node_labels (n : node) (es : list edge) : Prop := {
  nl_dot : forall e, e ∈ es -> no_dot (e_label e);
  nl_distinct : forall j j' e e', es !! j = Some e -> es !! j' = Some e' -> e_label e = e_label e' -> j = j';
  nl_kinds : forall e s id, e ∈ es -> n_corr n !! s = Some id -> id ∈ n_locals n -> identifier s <> identifier (e_label e);
}.
Definition labelled (d : dag) : Prop := forall i n es, d_nodes d !! i = Some n -> d_adjacency d !! i = Some es -> node_labels n es.
Lemma labelled_on_main d f : numbered d -> labelled d -> (forall n es, last (d_nodes d) = Some n -> last (d_adjacency d) = Some es -> node_labels n es -> node_labels (f n) es) -> labelled (on_main f d).
Proof.
  intros HU HL HF i n es Hn Hes. unfold on_main in *. cbn [d_nodes d_adjacency] in *. destruct (decide (i = length (d_nodes d) - 1)) as [->|].
  - rewrite list_lookup_alter in Hn. apply fmap_Some in Hn. destruct Hn as (n0 & Hn & ->). apply HF; [rewrite last_lookup, <- Hn; f_equal; lia| |eapply HL; eassumption].
    rewrite last_lookup, <- Hes. f_equal. rewrite (nu_length _ HU). lia.
  - rewrite list_lookup_alter_ne in Hn by lia. eapply HL; eassumption.
Qed.
Lemma node_labels_signal n n' es name : node_names n -> node_labels n es -> (forall e, e ∈ es -> identifier (e_label e) <> identifier name) ->
  n_locals n' = {[ n_signals n + 1 ]} ∪ n_locals n -> n_corr n' = <[name := n_signals n + 1]> (n_corr n) -> node_labels n' es.
Proof.
  intros NA [A B C] HF E1 E2. constructor; [assumption|assumption|]. intros e s id He Hs Hl. rewrite E2 in Hs. rewrite E1 in Hl.
  apply lookup_insert_Some in Hs. destruct Hs as [[-> <-]|[Hne Hs]].
  - intros Q. exact (HF e He (eq_sym Q)).
  - apply (C e s id He Hs). pose proof (na_range _ NA _ _ Hs). set_solver by lia.
Qed.
Lemma labelled_step ko d o d' : valid_corr_order ko -> numbered d -> named d -> labelled d -> well_named d o -> dag_step ko d o = Ok d' -> labelled d'.
Proof.
  intros Hko HU HN HL. destruct o as [tn ps par cus|name pub|name|name|name|to label par|c|s|k]; cbn [dag_step well_named]; intros FR E.
  - injection E as <-. intros i n es Hn Hes. unfold add_node in *. cbn [d_nodes d_adjacency] in *.
    apply lookup_app_Some in Hes. destruct Hes as [Hes|[_ Hes]].
    + assert (Li : i < length (d_nodes d)) by (rewrite <- (nu_length _ HU); eapply lookup_lt_Some; eassumption).
      rewrite lookup_app_l in Hn by assumption. eapply HL; eassumption.
    + apply list_lookup_singleton_Some in Hes. destruct Hes as [_ <-]. constructor.
      * intros e He. apply elem_of_nil in He. contradiction.
      * intros j j' e e' Hj. rewrite lookup_nil in Hj. discriminate.
      * intros e s id He. apply elem_of_nil in He. contradiction.
  - injection E as <-. apply labelled_on_main; [assumption..|]. intros n es L LA H. rewrite L, LA in FR. eapply (node_labels_signal n _ es name); [|exact H|exact FR|reflexivity|reflexivity].
    apply last_nonempty in L. eapply HN. apply L.
  - injection E as <-. apply labelled_on_main; [assumption..|]. intros n es L LA H. rewrite L, LA in FR. eapply (node_labels_signal n _ es name); [|exact H|exact FR|reflexivity|reflexivity].
    apply last_nonempty in L. eapply HN. apply L.
  - injection E as <-. apply labelled_on_main; [assumption..|]. intros n es L LA H. rewrite L, LA in FR. eapply (node_labels_signal n _ es name); [|exact H|exact FR|reflexivity|reflexivity].
    apply last_nonempty in L. eapply HN. apply L.
  - injection E as <-. apply labelled_on_main; [assumption..|]. intros n es L LA [A B C]. constructor; assumption.
  - assert (HNE : d_nodes d <> []). { intros Z. unfold add_edge, main_id in E. rewrite Z in E. discriminate. }
    destruct (add_edge_spec ko d to label par Hko HNE) as [(Hto & source & t & corr & reach & L & Hs & Ht & EA & HC & _)|[_ EA]];
      rewrite EA in E; injection E as <-; [|assumption].
    intros i n es Hn Hes. cbn [d_nodes d_adjacency] in *. assert (Li : i < length (d_nodes d)) by (apply lookup_lt_Some in Hn; rewrite insert_length in Hn; assumption).
    destruct (decide (i = length (d_nodes d) - 1)) as [->|].
    2: { rewrite list_lookup_insert_ne in Hn by lia. rewrite list_lookup_alter_ne in Hes by lia. eapply HL; eassumption. }
    rewrite list_lookup_insert in Hn by assumption. injection Hn as <-. rewrite list_lookup_alter in Hes. apply fmap_Some in Hes. destruct Hes as (es0 & Hes & ->).
    assert (LA : last (d_adjacency d) = Some es0). { rewrite last_lookup, <- Hes. f_equal. rewrite (nu_length _ HU). lia. }
    rewrite L, LA in FR. destruct FR as (F1 & F2 & F3). destruct (HL _ _ _ Hs Hes) as [A B C]. pose proof (nu_node _ HU _ _ _ Hs Hes) as NN. constructor.
    + intros e He. apply elem_of_app in He. destruct He as [He|He]; [apply A; assumption|]. apply elem_of_list_singleton in He. subst e. assumption.
    + intros j j' e e' Hj Hj' EL. apply lookup_app_Some in Hj, Hj'. destruct Hj as [Hj|[Lj Hj]], Hj' as [Hj'|[Lj' Hj']].
      * eapply B; eassumption.
      * apply list_lookup_singleton_Some in Hj'. destruct Hj' as [_ <-]. exfalso. exact (F2 e (elem_of_list_lookup_2 _ _ _ Hj) EL).
      * apply list_lookup_singleton_Some in Hj. destruct Hj as [_ <-]. exfalso. exact (F2 e' (elem_of_list_lookup_2 _ _ _ Hj') (eq_sym EL)).
      * apply list_lookup_singleton_Some in Hj, Hj'. lia.
    + intros e s id He Hc Hl. cbn [with_sub n_corr n_locals] in Hc, Hl. apply HC in Hc. destruct Hc as [(s' & id' & H1 & H2 & -> & ->)|[_ Hc]].
      * pose proof (nn_local _ _ _ _ NN _ Hl). destruct (lookup_lt_is_Some_2 (d_adjacency d) to) as [et Het]; [rewrite (nu_length _ HU); lia|].
        pose proof (nn_local _ _ _ _ (nu_node _ HU _ _ _ Ht Het) _ H2). lia.
      * apply elem_of_app in He. destruct He as [He|He]; [eapply C; eassumption|]. apply elem_of_list_singleton in He. subst e. eapply F3; eassumption.
  - injection E as <-. apply labelled_on_main; [assumption..|]. intros n es L LA [A B C]. constructor; assumption.
  - injection E as <-. apply labelled_on_main; [assumption..|]. intros n es L LA [A B C]. constructor; assumption.
  - injection E as <-. apply labelled_on_main; [assumption..|]. intros n es L LA [A B C]. constructor; assumption.
Qed.
Lemma built_labelled p d : built_with (fun d o => fresh d o /\ well_named d o) p d -> labelled d.
Proof.
  induction 1 as [|ko d o d' Hko HB IH [HF HW] E].
  - intros i n es H. cbn in H. rewrite lookup_nil in H. discriminate.
  - eapply labelled_step; [exact Hko|eapply built_numbered, built_with_built; exact HB| |exact IH|exact HW|exact E].
    eapply built_named, (built_with_mono _ _ _ _ (fun d o H => proj1 H)). exact HB.
Qed.
Lemma labelled_clean d : labelled d -> labelled (clean_constraints d).
Proof.
  intros HL i n es Hn Hes. cbn [clean_constraints d_nodes d_adjacency] in *. rewrite list_lookup_fmap in Hn. apply fmap_Some in Hn. destruct Hn as (n0 & Hn & ->).
  destruct (HL _ _ _ Hn Hes) as [A B C]. constructor; assumption.
Qed.
Lemma dotted_assoc a b c : dotted (dotted a b) c = dotted a (dotted b c).
Proof. unfold dotted. rewrite !append_assoc. reflexivity. Qed.
Lemma below_full_name kids x y : below kids x y -> forall s, exists r, full_name y s = dotted (i_path x) r.
Proof.
  induction 1 as [|y j e H IH Hj]; intros s; [exists s; reflexivity|]. unfold full_name. cbn [child i_path]. rewrite dotted_assoc. apply IH.
Qed.
Section unique.
  Context (d : dag) (HU : numbered d) (HN : named d) (HL : labelled d).
  Lemma below_names_unique : forall N z, i_node z < N -> d_nodes d !! i_node z <> None -> forall x y n n' s s' k k',
    below (edges_of d) z x -> below (edges_of d) z y -> d_nodes d !! i_node x = Some n -> d_nodes d !! i_node y = Some n' ->
    n_corr n !! s = Some k -> k ∈ n_locals n -> n_corr n' !! s' = Some k' -> k' ∈ n_locals n' -> full_name x s = full_name y s' -> x = y /\ s = s'.
  Proof.
    induction N as [|N IH]; intros z HZ Hz x y n n' s s' k k' Hx Hy Hn Hn' Hs Hk Hs' Hk' E; [lia|].
    destruct (d_nodes d !! i_node z) as [nz|] eqn:Enz; [|contradiction]. clear Hz.
    destruct (lookup_lt_is_Some_2 (d_adjacency d) (i_node z)) as [es Hes]; [rewrite (nu_length _ HU); eapply lookup_lt_Some; eassumption|].
    assert (EE : edges_of d (i_node z) = es) by (unfold edges_of; rewrite Hes; reflexivity).
    destruct (HL _ _ _ Enz Hes) as [A B C]. pose proof (nu_node _ HU _ _ _ Enz Hes) as NN.
    apply below_inv in Hx, Hy. rewrite EE in Hx, Hy. destruct Hx as [->|(j & e & Hj & Hx)], Hy as [->|(j' & e' & Hj' & Hy)].
    - split; [reflexivity|]. eapply dotted_inj. exact E.
    - exfalso. destruct (below_full_name _ _ _ Hy s') as [r Hr]. rewrite Hr in E. unfold full_name in E. cbn [child i_path] in E. rewrite dotted_assoc in E. apply dotted_inj in E. subst s.
      rewrite Hn in Enz. injection Enz as <-. apply (C e' _ _ (elem_of_list_lookup_2 _ _ _ Hj') Hs Hk). apply identifier_dotted.
    - exfalso. destruct (below_full_name _ _ _ Hx s) as [r Hr]. rewrite Hr in E. unfold full_name in E. cbn [child i_path] in E. rewrite dotted_assoc in E. apply dotted_inj in E. subst s'.
      rewrite Hn' in Enz. injection Enz as <-. apply (C e _ _ (elem_of_list_lookup_2 _ _ _ Hj) Hs' Hk'). apply identifier_dotted.
    - destruct (below_full_name _ _ _ Hx s) as [r Hr], (below_full_name _ _ _ Hy s') as [r' Hr']. pose proof E as E'. rewrite Hr, Hr' in E'. cbn [child i_path] in E'.
      rewrite !dotted_assoc in E'. apply dotted_inj in E'. apply no_dot_split in E'; [|apply A; eapply elem_of_list_lookup_2; eassumption|apply A; eapply elem_of_list_lookup_2; eassumption].
      destruct E' as [EL _]. pose proof (B _ _ _ _ Hj Hj' EL). subst j'. rewrite Hj in Hj'. injection Hj' as <-.
      destruct (nn_edge _ _ _ _ NN e (elem_of_list_lookup_2 _ _ _ Hj)) as (G & _ & t & Ht & _).
      eapply (IH (child z j e)); [cbn [child i_node]; lia|cbn [child i_node]; congruence|eassumption..].
  Qed.
  Lemma full_names_unique x y n n' s s' k k' : instance d x -> instance d y -> d_nodes d !! i_node x = Some n -> d_nodes d !! i_node y = Some n' ->
    n_corr n !! s = Some k -> k ∈ n_locals n -> n_corr n' !! s' = Some k' -> k' ∈ n_locals n' -> full_name x s = full_name y s' -> x = y /\ s = s'.
  Proof.
    intros Hx Hy Hn. assert (HNE : d_nodes d <> []). { intros Q. rewrite Q, lookup_nil in Hn. discriminate. }
    destruct (main_node d HNE) as (m & _ & Hm & HLt & _). eapply (below_names_unique (length (d_nodes d)) (root d)); try eassumption.
    - congruence.
    - apply instance_below. assumption.
    - apply instance_below. assumption.
  Qed.
End unique.
