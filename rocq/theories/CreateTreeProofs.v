(** The components of the running witness generator and the instances of the DAG. *)
From stdpp Require Import prelude gmap fin_maps sorting strings pretty.
From Coq Require Import ZArith Lia.
From Verif Require Import ModArithModel AlgebraModel PipelineModel DagModel DagSpec DagProofs WalkProofs CompiledProofs CreateModel CreateSpec CreateProofs.
Open Scope nat_scope.

(** ** the DAG is built by the calls of its interface *)
Lemma built_main ko p (op : string -> dag_op) (g : string -> node -> node) l : valid_corr_order ko -> (forall d s, dag_step ko d (op s) = Ok (on_main (g s) d)) ->
  forall d, built p d -> built p (foldl (fun d s => on_main (g s) d) d l).
Proof. intros Hko H. induction l as [|s l IH]; intros d B; [done|]. cbn [foldl]. apply IH. eapply built_step; [done|exact B|apply H]. Qed.
Lemma built_main' {A} ko p (op : A -> dag_op) (g : A -> node -> node) l : valid_corr_order ko -> (forall d s, dag_step ko d (op s) = Ok (on_main (g s) d)) ->
  forall d, built p d -> built p (foldl (fun d s => on_main (g s) d) d l).
Proof. intros Hko H. induction l as [|s l IH]; intros d B; [done|]. cbn [foldl]. apply IH. eapply built_step; [done|exact B|apply H]. Qed.
Lemma connects_built ko p cs : valid_corr_order ko -> forall d done d' cs', built p d -> res_foldl (connect ko) (d, done) cs = Ok (d', cs') -> built p d'.
Proof.
  intros Hko. induction cs as [|c cs IH]; intros d done d' cs' B E; [by injection E as <- <-|].
  rewrite res_foldl_cons in E. unfold connect at 1 in E. destruct (get_main d) as [n| |] eqn:E1; try done. cbn [res_bind] in E.
  destruct (add_edge ko (k_to c) (k_full c) (k_parallel c) d) as [d1| |] eqn:E2; try done. cbn [res_bind] in E.
  destruct (get_main d1) as [n'| |]; try done. cbn [res_bind] in E. eapply IH; [|exact E]. eapply (built_step _ ko _ (OpEdge _ _ _)); [done|exact B|exact E2].
Qed.
Lemma insert_built ko p x d d' x' : valid_corr_order ko -> built p d -> insert_in_dag ko x d = Ok (d', x') -> built p d'.
Proof.
  intros Hko B E. unfold insert_in_dag, build_connexions in E.
  set (d1 := build_wires x (add_node (x_name x) (x_parameters x) (x_parallel x) (x_custom x) d)) in E.
  assert (B1 : built p d1).
  { unfold d1, build_wires.
    apply (built_main ko p OpOrdered node_add_ordered); [done|done|].
    apply (built_main ko p OpIntermediate node_add_intermediate); [done|done|].
    apply (built_main ko p (fun s => OpInput s false) (fun s => node_add_input s false)); [done|done|].
    apply (built_main ko p (fun s => OpInput s true) (fun s => node_add_input s true)); [done|done|].
    apply (built_main ko p OpOutput node_add_output); [done|done|].
    eapply (built_step _ ko _ (OpNode _ _ _ _)); [done|exact B|reflexivity]. }
  clearbody d1. destruct (filter_used (x_components x) (merge_sort cnn_le (x_connexions x))) as [comps number].
  destruct (res_foldl (connect ko) (d1, []) (merge_sort cnn_le (x_connexions x))) as [[d2 cs]| |] eqn:E2; try done. cbn [res_bind] in E.
  injection E as <- <-. unfold build_constraints. cbn [x_constraints x_underscored].
  apply (built_main' ko p OpUnderscored node_add_underscored); [done|done|].
  apply (built_main' ko p OpConstraint node_add_constraint); [done|done|].
  eapply (built_step _ ko _ (OpIndexes number)); [done|eapply connects_built; [done|exact B1|exact E2]|reflexivity].
Qed.
Lemma insert_all_built ko p model d xs : valid_corr_order ko -> insert_all ko p model = Ok (d, xs) -> built p d.
Proof.
  intros Hko. unfold insert_all.
  enough (G : forall l d0 out, built p d0 -> res_foldl (fun '(d, out) x => res_bind (insert_in_dag ko x d) (fun '(d', x') => Ok (d', out ++ [x']))) (d0, out) l = Ok (d, xs) -> built p d).
  { apply G. constructor. }
  induction l as [|x l IH]; intros d0 out B E; [by injection E as <- _|]. rewrite res_foldl_cons in E.
  destruct (insert_in_dag ko x d0) as [[d1 x1]| |] eqn:E1; try done. cbn [res_bind] in E. eapply IH; [|exact E]. by eapply insert_built.
Qed.

(** ** compiled programs *)
Record circuit (p : Z) (model : list executed) (d : dag) (ts : list instance_info) : Prop := {
  ci_ok : program_ok model;
  ci_as : exists xs, assembled p model d xs;
  ci_len : length ts = length model;
  ci_ex : forall i x, model !! i = Some x -> exists t, ts !! i = Some t /\ exported model (d_nodes d) x t /\
       forall c, c ∈ x_connexions x -> exists t', ts !! k_to c = Some t' /\ marked (k_parallel c) t';
  ci_main : forall t, ts !! (length ts - 1) = Some t -> marked false t;
  ci_built : built p d;
}.
Lemma program_targets model : program_ok model -> targets_ok model.
Proof. intros [_ H] i x c Hx. by apply (eo_targets _ _ (H i x Hx)). Qed.
Lemma program_compiles ko p model : program_ok model -> valid_corr_order ko -> exists d xs ts, insert_all ko p model = Ok (d, xs) /\ export_all xs = Ok ts /\ circuit p model d ts.
Proof.
  intros HP Hko. destruct (insert_all_ok ko p model Hko (program_targets _ HP)) as (d & xs & E & A).
  destruct (export_all_ok (d_nodes d) model (proj2 HP)) as (ts & E2 & L & X & M). exists d, xs, ts. split; [done|]. rewrite (as_xs _ _ _ _ A). split; [done|].
  constructor; try done; [by exists xs|]. by eapply insert_all_built.
Qed.
Lemma compiles_circuit p model d ts : program_ok model -> compiles p model d ts -> circuit p model d ts.
Proof.
  intros HP (ko & xs & Hko & E1 & E2). destruct (program_compiles ko p model HP Hko) as (d' & xs' & ts' & E1' & E2' & C).
  rewrite E1 in E1'. injection E1' as <- <-. rewrite E2 in E2'. by injection E2' as <-.
Qed.

(** ** edges *)
Lemma place_to s c l : forall off coff, k_to <$> place s c off coff l = k_to <$> l.
Proof. induction l as [|k l IH]; intros off coff; [done|]. cbn. f_equal. apply IH. Qed.
Fixpoint cchain (T : nat -> nat) (a : nat) (es : list edge) : Prop :=
  match es with [] => True | e :: es => e_in_component e = a /\ cchain T (a + T (e_goes_to e)) es end.
Lemma place_cchain s c l : forall off coff, cchain c (S coff) (edge_of <$> place s c off coff l).
Proof. induction l as [|k l IH]; intros off coff; [done|]. cbn. split; [done|]. apply (IH _ (coff + c (k_to k))). Qed.

(** ** walks with components *)
Definition kid (nm : nat -> nat -> string) (i : nat) (c : component) (j : nat) (e : edge) : component :=
  Component (e_goes_to e) (o_start c + e_in e) (o_index c + e_in_component e) (dotted (o_name c) (nm i j)).
Section Walk.
  Variables (kids : nat -> list edge) (nm : nat -> nat -> string).
  Fixpoint wwalk (fuel : nat) (x : inst) (c : component) : list (inst * component) :=
    match fuel with
    | O => []
    | S fuel => (x, c) :: flat_imap (fun j e => wwalk fuel (child x j e) (kid nm (i_node x) c j e)) 0 (kids (i_node x))
    end.
  Lemma flat_imap_fmap {A B C} (f : B -> C) (g : nat -> A -> list B) (l : list A) : forall j, f <$> flat_imap g j l = flat_imap (fun j a => f <$> g j a) j l.
  Proof. induction l as [|a l IH]; intros j; [done|]. cbn. by rewrite fmap_app, IH. Qed.
  Lemma flat_imap_ext {A B} (f g : nat -> A -> list B) (l : list A) : (forall j a, f j a = g j a) -> forall j, flat_imap f j l = flat_imap g j l.
  Proof. intros H. induction l as [|a l IH]; intros j; [done|]. cbn. by rewrite H, IH. Qed.
  Lemma wwalk_fst fuel : forall x c, (wwalk fuel x c).*1 = walk kids fuel x.
  Proof.
    induction fuel as [|fuel IH]; intros x c; [done|]. cbn [wwalk walk]. rewrite fmap_cons. cbn [fst]. f_equal. rewrite flat_imap_fmap. apply flat_imap_ext. intros j e. apply IH.
  Qed.
  Inductive pbelow (x : inst) (c : component) : inst -> component -> Prop :=
  | pb_refl : pbelow x c x c
  | pb_step y o j e : pbelow x c y o -> kids (i_node y) !! j = Some e -> pbelow x c (child y j e) (kid nm (i_node y) o j e).
  Lemma pbelow_trans x c y o z q : pbelow x c y o -> pbelow y o z q -> pbelow x c z q.
  Proof. intros H. induction 1; [assumption|by constructor]. Qed.
  Lemma pbelow_inv x c y o : pbelow x c y o -> (y = x /\ o = c) \/ exists j e, kids (i_node x) !! j = Some e /\ pbelow (child x j e) (kid nm (i_node x) c j e) y o.
  Proof.
    induction 1 as [|y o j e H IH Hj]; [by left|]. right. destruct IH as [[-> ->]|(j' & e' & Hj' & IH)].
    - exists j, e. split; [done|constructor].
    - exists j', e'. split; [done|]. by constructor.
  Qed.
  Lemma wwalk_pbelow fuel : forall x c y o, (y, o) ∈ wwalk fuel x c -> pbelow x c y o.
  Proof.
    induction fuel as [|fuel IH]; intros x c y o; cbn [wwalk]; [intros H; by apply elem_of_nil in H|].
    intros [[= -> ->]|H]%elem_of_cons; [constructor|]. apply elem_of_flat_imap in H as (j & e & Hj & H).
    apply IH in H. eapply pbelow_trans; [|exact H]. apply pb_step; [constructor|exact Hj].
  Qed.
  Lemma pbelow_wwalk fuel : descending kids -> forall x c y o, i_node x < fuel -> pbelow x c y o -> (y, o) ∈ wwalk fuel x c.
  Proof.
    intros HD. induction fuel as [|fuel IH]; intros x c y o HF H; [lia|]. cbn [wwalk]. apply elem_of_cons.
    apply pbelow_inv in H as [[-> ->]|(j & e & Hj & H)]; [by left|]. right. apply elem_of_flat_imap. exists j, e. split; [done|].
    apply IH; [|exact H]. cbn [child i_node]. pose proof (HD _ e (elem_of_list_lookup_2 _ _ _ Hj)). lia.
  Qed.
  Lemma wwalk_index (N : nat) (T : nat -> nat) fuel : descending kids -> (forall i, i < N -> T i = S (sum_list (T ∘ e_goes_to <$> kids i))) -> (forall i, i < N -> cchain T 1 (kids i)) ->
    forall x c, i_node x < fuel -> i_node x < N -> o_index <$> (wwalk fuel x c).*2 = seq (o_index c) (T (i_node x)).
  Proof.
    intros HD HT HC. induction fuel as [|fuel IH]; intros x c HF HN; [lia|]. cbn [wwalk]. rewrite !fmap_cons. cbn [snd]. rewrite (HT _ HN). cbn [seq]. f_equal.
    assert (HK : forall e, e ∈ kids (i_node x) -> e_goes_to e < fuel /\ e_goes_to e < N). { intros e He. apply HD in He. lia. }
    replace (S (o_index c)) with (o_index c + 1) by lia. specialize (HC _ HN). revert HK HC. generalize (kids (i_node x)). intros es.
    enough (G : forall a, (forall e, e ∈ es -> e_goes_to e < fuel /\ e_goes_to e < N) -> cchain T a es -> forall j0,
      o_index <$> (flat_imap (fun j e => wwalk fuel (child x j e) (kid nm (i_node x) c j e)) j0 es).*2 = seq (o_index c + a) (sum_list (T ∘ e_goes_to <$> es))).
    { intros HK HC. by apply G. }
    induction es as [|e es IHe]; intros a HK HC j0; [done|]. cbn [flat_imap]. rewrite !fmap_app. cbn [cchain] in HC. destruct HC as [C1 C2]. destruct (HK e) as [K1 K2]; [left|].
    rewrite IH by done. rewrite IHe with (a := a + T (e_goes_to e)); [|intros; apply HK; by right|done]. cbn [kid o_index child i_node].
    rewrite C1.
    rewrite fmap_cons. change (sum_list ((T ∘ e_goes_to) e :: (T ∘ e_goes_to <$> es))) with (T (e_goes_to e) + sum_list (T ∘ e_goes_to <$> es)). rewrite seq_app, Nat.add_assoc. done.
  Qed.
  Lemma walk_sum (N : nat) (f T : nat -> nat) fuel : descending kids -> (forall i, i < N -> T i = f i + sum_list (T ∘ e_goes_to <$> kids i)) ->
    forall x, i_node x < fuel -> i_node x < N -> sum_list (f ∘ i_node <$> walk kids fuel x) = T (i_node x).
  Proof.
    intros HD HT. induction fuel as [|fuel IH]; intros x HF HN; [lia|]. cbn [walk]. rewrite fmap_cons. rewrite (HT _ HN). cbn [sum_list sum_list_with compose]. f_equal.
    assert (HK : forall e, e ∈ kids (i_node x) -> e_goes_to e < fuel /\ e_goes_to e < N). { intros e He. apply HD in He. lia. }
    generalize 0 as j0. revert HK. generalize (kids (i_node x)). intros es. induction es as [|e es IHe]; intros HK j0; [done|]. cbn [flat_imap]. rewrite fmap_app.
    destruct (HK e) as [K1 K2]; [left|]. pose proof (IH (child x j0 e) K1 K2) as E1. cbn [child i_node] in E1.
    assert (S1 : forall l l' : list nat, sum_list (l ++ l') = sum_list l + sum_list l'). { induction l as [|a l IHl]; intros l'; [done|]. cbn. rewrite IHl. lia. }
    rewrite S1, E1, IHe by (intros; apply HK; by right). rewrite fmap_cons. done.
  Qed.
End Walk.

(** ** the circuit *)
Section Circuit.
  Variables (p : Z) (model : list executed) (d : dag) (ts : list instance_info).
  Hypothesis HC : circuit p model d ts.
  Notation ns := (d_nodes d).
  Notation create1 x := (creation_of (pf model) (placed ns x) (used x)).
  Notation wcreate1 x := (wcreation_of (inf model) (placed ns x) (used x)).
  Notation order1 x := (order (placed ns x) (used x)).

  Lemma circuit_numbered : numbered d. Proof. eapply built_numbered, ci_built, HC. Qed.
  Lemma circuit_nodes : length ns = length model. Proof. destruct (ci_as _ _ _ _ HC) as (xs & A). apply (as_nodes _ _ _ _ A). Qed.
  Lemma circuit_nonempty : ns <> [].
  Proof. pose proof (proj1 (ci_ok _ _ _ _ HC)) as H. pose proof circuit_nodes as E. destruct ns; [destruct model; [done|discriminate]|done]. Qed.
  Lemma circuit_node i x : model !! i = Some x -> exists n, ns !! i = Some n /\ node_final ns x n /\ edges_of d i = edge_of <$> placed ns x /\ d_adjacency d !! i = Some (edge_of <$> placed ns x).
  Proof.
    intros Hx. destruct (ci_as _ _ _ _ HC) as (xs & A). destruct (as_node _ _ _ _ A i x Hx) as (n & H1 & H2 & H3). exists n. split_and!; try done. unfold edges_of. by rewrite H3.
  Qed.
  Lemma circuit_model i : i < length ns -> exists x, model !! i = Some x.
  Proof. rewrite circuit_nodes. apply lookup_lt_is_Some_2. Qed.
  Lemma circuit_buckets i x t : model !! i = Some x -> ts !! i = Some t -> exists bs, template_buckets t = Ok bs /\
    (forall start ctx, cpp_children start ctx bs = create1 x start ctx <$> order1 x) /\
    (forall fs off sig, wasm_children fs off sig bs = wcreate1 x fs off sig <$> order1 x) /\ order1 x ≡ₚ placed ns x.
  Proof. eapply buckets_ok; [apply (ci_ok _ _ _ _ HC)|apply (ci_ex _ _ _ _ HC)]. Qed.

  Definition cpp_name (x : executed) (c : connexion) : string := g_name (create1 x 0 0 c).
  Definition nm (i j : nat) : string := match model !! i with Some x => match placed ns x !! j with Some c => cpp_name x c | None => "" end | None => "" end.
  Lemma create1_fields x start ctx c : g_template (create1 x start ctx c) = k_to c /\ g_start (create1 x start ctx c) = start + k_offset c /\
    g_index (create1 x start ctx c) = ctx + S (k_component_offset c) /\ g_name (create1 x start ctx c) = cpp_name x c.
  Proof. unfold cpp_name, creation_of. destruct (default _ _) as [base dims]. done. Qed.
  (** the children the code of a template creates are its edges *)
  Lemma children_edges i x t bs : model !! i = Some x -> ts !! i = Some t -> template_buckets t = Ok bs -> forall c,
    (forall g, g ∈ cpp_children (o_start c) (o_index c) bs -> exists j e, edges_of d i !! j = Some e /\
       Component (g_template g) (g_start g) (g_index g) (dotted (o_name c) (g_name g)) = kid nm i c j e) /\
    (forall j e, edges_of d i !! j = Some e -> exists g, g ∈ cpp_children (o_start c) (o_index c) bs /\
       Component (g_template g) (g_start g) (g_index g) (dotted (o_name c) (g_name g)) = kid nm i c j e).
  Proof.
    intros Hx Ht Eb c. destruct (circuit_buckets i x t Hx Ht) as (bs' & Eb' & A & _ & HO). rewrite Eb in Eb'. injection Eb' as <-.
    destruct (circuit_node i x Hx) as (n & _ & _ & He & _). rewrite A, He. split.
    - intros g (k & -> & Hk)%elem_of_list_fmap. rewrite HO in Hk. apply elem_of_list_lookup in Hk as [j Hj]. exists j, (edge_of k).
      split; [by rewrite list_lookup_fmap, Hj|]. destruct (create1_fields x (o_start c) (o_index c) k) as (-> & -> & -> & ->). unfold kid, nm. rewrite Hx, Hj. done.
    - intros j e Hj. rewrite list_lookup_fmap in Hj. apply fmap_Some in Hj as (k & Hk & ->). exists (create1 x (o_start c) (o_index c) k). split.
      + apply elem_of_list_fmap. exists k. split; [done|]. rewrite HO. by eapply elem_of_list_lookup_2.
      + destruct (create1_fields x (o_start c) (o_index c) k) as (-> & -> & -> & ->). unfold kid, nm. rewrite Hx, Hk. done.
  Qed.
  Definition main_component : component := Component (length ts - 1) 1 0 "main".
  Lemma len_ts : length ts = length ns. Proof. rewrite circuit_nodes. apply (ci_len _ _ _ _ HC). Qed.
  Lemma pbelow_node y o : pbelow (edges_of d) nm (root d) main_component y o -> o_template o = i_node y /\ o_start o = i_off y + 1 /\ i_node y < length ns.
  Proof.
    induction 1 as [|y o j e H (IH1 & IH2 & IH3) Hj].
    - cbn. rewrite len_ts. split_and!; [done|done|]. pose proof circuit_nonempty. destruct ns; [done|cbn; lia].
    - cbn. split_and!; [done|lia|]. pose proof (numbered_descending d circuit_numbered (i_node y) e (elem_of_list_lookup_2 _ _ _ Hj)). lia.
  Qed.
  Lemma comes_pbelow c : comes_to_be ts c <-> exists x, pbelow (edges_of d) nm (root d) main_component x c.
  Proof.
    split.
    - induction 1 as [|c t bs g H (x & IH) Ht Eb Hg]; [exists (root d); constructor|]. destruct (pbelow_node x c IH) as (N1 & N2 & N3).
      destruct (circuit_model (i_node x) N3) as (y & Hy). rewrite N1 in Ht. destruct (children_edges (i_node x) y t bs Hy Ht Eb c) as [A _].
      destruct (A g Hg) as (j & e & Hj & ->). exists (child x j e). by constructor.
    - intros (x & H). induction H as [|y o j e H IH Hj]; [constructor|]. destruct (pbelow_node y o H) as (N1 & N2 & N3).
      destruct (circuit_model (i_node y) N3) as (x & Hx). destruct (ci_ex _ _ _ _ HC _ _ Hx) as (t & Ht & _). destruct (circuit_buckets _ _ _ Hx Ht) as (bs & Eb & _).
      destruct (children_edges _ _ _ _ Hx Ht Eb o) as [_ A]. destruct (A j e Hj) as (g & Hg & <-). eapply cb_sub; [exact IH|by rewrite N1|exact Eb|exact Hg].
  Qed.
  Lemma csz_rec i : i < length ns -> csz ns i = S (sum_list (csz ns ∘ e_goes_to <$> edges_of d i)).
  Proof.
    intros Hi. destruct (circuit_model i Hi) as (x & Hx). destruct (circuit_node i x Hx) as (n & Hn & (_ & F & _) & He & _). unfold csz at 1. rewrite Hn, F, He.
    f_equal. rewrite <- list_fmap_compose. change (csz ns ∘ e_goes_to ∘ edge_of) with (csz ns ∘ k_to). rewrite !(list_fmap_compose k_to). unfold placed. by rewrite place_to.
  Qed.
  Lemma sz_rec i : i < length ns -> sz ns i = match ns !! i with Some n => n_inputs n + n_outputs n + n_intermediates n | None => 0 end + sum_list (sz ns ∘ e_goes_to <$> edges_of d i).
  Proof.
    intros Hi. destruct (circuit_model i Hi) as (x & Hx). destruct (circuit_node i x Hx) as (n & Hn & (F & _ & _ & F2) & He & _). unfold sz at 1. rewrite Hn, F, He, F2.
    f_equal. rewrite <- list_fmap_compose. change (sz ns ∘ e_goes_to ∘ edge_of) with (sz ns ∘ k_to). rewrite !(list_fmap_compose k_to). unfold placed. by rewrite place_to.
  Qed.
  Definition isz (i : nat) : nat := match ns !! i with Some n => n_indexes n | None => 0 end.
  Fixpoint totals (fuel i : nat) : nat := match fuel with O => 0 | S fuel => isz i + sum_list (totals fuel ∘ e_goes_to <$> edges_of d i) end.
  Definition tsz (i : nat) : nat := totals (S i) i.
  Lemma totals_fuel fuel : forall i, i < fuel -> totals fuel i = tsz i.
  Proof.
    induction fuel as [fuel IH] using lt_wf_ind. intros i Hi. destruct fuel as [|fuel]; [lia|]. unfold tsz. cbn [totals]. f_equal. apply sum_ext. intros e He.
    pose proof (numbered_descending d circuit_numbered i e He). cbn [compose]. rewrite (IH fuel) by lia. destruct (decide (i < S fuel)); [|lia].
    destruct (Nat.eq_dec i fuel) as [->|Hn]; [by rewrite (IH fuel) by lia|]. by rewrite (IH i) by lia.
  Qed.
  Lemma tsz_rec i : tsz i = isz i + sum_list (tsz ∘ e_goes_to <$> edges_of d i).
  Proof.
    unfold tsz at 1. cbn [totals]. f_equal. apply sum_ext. intros e He. cbn [compose]. apply totals_fuel. by apply (numbered_descending d circuit_numbered).
  Qed.
  Lemma chain_rec i : i < length ns -> cchain (csz ns) 1 (edges_of d i).
  Proof. intros Hi. destruct (circuit_model i Hi) as (x & Hx). destruct (circuit_node i x Hx) as (n & _ & _ & -> & _). apply place_cchain. Qed.

  Lemma produce_stats_ok : produce_stats d = Ok (sz ns (length ns - 1), csz ns (length ns - 1), tsz (length ns - 1)).
  Proof.
    unfold produce_stats. assert (L : length (d_adjacency d) = length ns) by (apply nu_length, circuit_numbered).
    enough (G : forall k, k <= length ns -> res_foldl (stats_step d) [] (seq 0 k) = Ok ((fun i => (sz ns i, csz ns i, tsz i)) <$> seq 0 k)).
    { rewrite G by lia. cbn [res_bind]. pose proof circuit_nonempty as H. destruct (length ns) as [|m] eqn:E; [destruct ns; [done|discriminate]|].
      rewrite seq_S, fmap_app. cbn [fmap list_fmap]. rewrite last_snoc. cbn [Nat.add]. replace (S m - 1) with m by lia. done. }
    induction k as [|k IH]; intros Hk; [done|]. rewrite seq_S, res_foldl_app, IH by lia. cbn [res_bind]. rewrite res_foldl_cons. unfold stats_step at 1. cbn [Nat.add].
    destruct (lookup_lt_is_Some_2 ns k Hk) as [n Hn]. destruct (lookup_lt_is_Some_2 (d_adjacency d) k) as [es Hes]; [lia|].
    rewrite (index_ok _ _ _ Hn), (index_ok _ _ _ Hes). cbn [res_bind].
    assert (He : edges_of d k = es) by (unfold edges_of; by rewrite Hes).
    assert (GG : forall l a b c, (forall e, e ∈ l -> e_goes_to e < k) ->
      res_foldl (fun '(s, c, i) e => res_bind (index ((fun i => (sz ns i, csz ns i, tsz i)) <$> seq 0 k) (e_goes_to e)) (fun '(s', c', i') => Ok (s + s', c + c', i + i'))) (a, b, c) l =
      Ok (a + sum_list (sz ns ∘ e_goes_to <$> l), b + sum_list (csz ns ∘ e_goes_to <$> l), c + sum_list (tsz ∘ e_goes_to <$> l))).
    { induction l as [|e l IHl]; intros a b c Hl; [cbn; by rewrite !Nat.add_0_r|]. rewrite res_foldl_cons.
      rewrite (index_ok _ _ (sz ns (e_goes_to e), csz ns (e_goes_to e), tsz (e_goes_to e))).
      2: { rewrite list_lookup_fmap, lookup_seq_lt by (apply Hl; left). done. }
      cbn [res_bind]. rewrite IHl by (intros; apply Hl; by right). rewrite !fmap_cons.
      assert (S1 : forall (x : nat) l, sum_list (x :: l) = x + sum_list l) by done. rewrite !S1. cbn [compose]. by rewrite !Nat.add_assoc. }
    rewrite GG. 2: { intros e. rewrite <- He. apply (numbered_descending d circuit_numbered). }
    cbn [res_bind]. rewrite <- He. rewrite fmap_app. cbn [fmap list_fmap]. cbn [res_foldl].
    pose proof (sz_rec k Hk) as R1. pose proof (csz_rec k Hk) as R2. pose proof (tsz_rec k) as R3. unfold isz in R3. rewrite Hn in R1, R3. rewrite R1, R2, R3. done.
  Qed.
  Lemma total_is_sz : total_signals d = sz ns (length ns - 1).
  Proof. unfold total_signals, sz. rewrite last_lookup. replace (pred (length ns)) with (length ns - 1) by lia. done. Qed.
  Lemma block_isz i t : ts !! i = Some t -> block_of ts i = 12 + isz i * 4.
  Proof.
    intros Ht. unfold block_of, isz, wasm_block. rewrite Ht. apply lookup_lt_Some in Ht as Hl. rewrite len_ts in Hl. destruct (circuit_model i Hl) as (x & Hx).
    destruct (circuit_node i x Hx) as (n & -> & (_ & _ & -> & _) & _). destruct (ci_ex _ _ _ _ HC _ _ Hx) as (t' & Ht' & E & _). rewrite Ht in Ht'. injection Ht' as <-. by rewrite (ex_number _ _ _ _ E).
  Qed.
  Definition pairs : list (inst * component) := wwalk (edges_of d) nm (length ns) (root d) main_component.
  Lemma root_lt : i_node (root d) < length ns.
  Proof. cbn. pose proof circuit_nonempty. destruct ns; [done|cbn; lia]. Qed.
  Lemma pairs_enumerates : enumerates (instance d) pairs.*1.
  Proof. unfold pairs. rewrite wwalk_fst. apply all_instances_enumerates; [apply circuit_numbered|apply circuit_nonempty]. Qed.
  Lemma pairs_components c : comes_to_be ts c <-> c ∈ pairs.*2.
  Proof.
    rewrite comes_pbelow. split.
    - intros (x & H). apply elem_of_list_fmap. exists (x, c). split; [done|]. apply pbelow_wwalk; [apply (numbered_descending d circuit_numbered)|apply root_lt|exact H].
    - intros ([x c'] & -> & H)%elem_of_list_fmap. exists x. cbn. by eapply wwalk_pbelow.
  Qed.
  Lemma pairs_length : length pairs = csz ns (length ns - 1).
  Proof.
    rewrite <- (fmap_length fst). unfold pairs. rewrite wwalk_fst.
    pose proof (walk_sum (edges_of d) (length ns) (fun _ => 1) (csz ns) (length ns) (numbered_descending d circuit_numbered)) as W.
    specialize (W (fun i Hi => csz_rec i Hi) (root d) root_lt root_lt). change (i_node (root d)) with (length ns - 1) in W. rewrite <- W. clear W. generalize (walk (edges_of d) (length ns) (root d)). induction l as [|a l IH]; [done|]. cbn. by f_equal.
  Qed.
  Lemma pairs_index : o_index <$> pairs.*2 = seq 0 (length pairs).
  Proof.
    rewrite pairs_length. apply (wwalk_index (edges_of d) nm (length ns) (csz ns)); [apply (numbered_descending d circuit_numbered)|apply csz_rec|apply chain_rec|apply root_lt|apply root_lt].
  Qed.
  Lemma pairs_agree x c : (x, c) ∈ pairs -> o_template c = i_node x /\ o_start c = i_off x + 1 /\ i_node x < length ns.
  Proof. intros H. apply pbelow_node. by eapply wwalk_pbelow. Qed.
  Lemma pairs_blocks : sum_list (block_of ts ∘ o_template <$> pairs.*2) = 4 * (csz ns (length ns - 1) * 3 + tsz (length ns - 1)).
  Proof.
    pose proof (walk_sum (edges_of d) (length ns) isz tsz (length ns) (numbered_descending d circuit_numbered) (fun i _ => tsz_rec i) (root d) root_lt root_lt) as W.
    change (i_node (root d)) with (length ns - 1) in W. rewrite <- W, <- pairs_length. fold (all_instances d). unfold all_instances.
    rewrite <- (wwalk_fst (edges_of d) nm (length ns) (root d) main_component). fold pairs.
    assert (H : forall q, q ∈ pairs -> o_template q.2 = i_node q.1 /\ i_node q.1 < length ns) by (intros [x c] Hq; destruct (pairs_agree x c Hq) as (? & _ & ?); done).
    revert H. generalize pairs. induction l as [|q l IH]; intros H; [done|]. rewrite !fmap_cons. cbn [length].
    assert (S1 : forall (x : nat) l, sum_list (x :: l) = x + sum_list l) by done. rewrite !S1. cbn [compose].
    destruct (H q) as [E1 E2]; [left|]. rewrite E1. rewrite <- len_ts in E2. destruct (lookup_lt_is_Some_2 ts _ E2) as [t Ht]. rewrite (block_isz _ _ Ht).
    rewrite IH by (intros; apply H; by right). lia.
  Qed.
  (** names *)
  Hypothesis HLab : labels_ok model.
  Hypothesis HUnit : no_unit_arrays model.
  Lemma name_ok i x c : model !! i = Some x -> c ∈ placed ns x -> cpp_name x c = k_full c.
  Proof.
    intros Hx Hc. pose proof (proj2 (ci_ok _ _ _ _ HC) i x Hx) as HO. destruct (placed_declared _ _ _ _ HO Hc) as (m & Hm & En & F).
    destruct (elem_placed _ _ _ Hc) as (c0 & H0 & E0 & E1 & _ & E2 & _). rewrite E0, (HLab i x c0 Hx H0), <- E1, <- E2.
    unfold cpp_name, creation_of. apply elem_of_list_lookup in Hm as [j Hj]. rewrite <- En. unfold env. rewrite (env_ok _ _ _ (used_names _ _ HO) Hj). cbn [default].
    cbn [id]. unfold creation. cbn [g_name]. rewrite <- En. destruct (Nat.eqb_spec (product (m_length m)) 1) as [E|E]; [|done].
    assert (m_length m = []) as E3. { destruct (m_length m) as [|a l] eqn:El; [done|]. exfalso. eapply HUnit; [exact Hx|apply elem_used; by eapply elem_of_list_lookup_2|by rewrite El|by rewrite El]. }
    rewrite E3 in F. inversion F as [Q|]; subst. cbn. by rewrite append_nil_r.
  Qed.
  Lemma pbelow_name y o : pbelow (edges_of d) nm (root d) main_component y o -> o_name o = i_path y.
  Proof.
    induction 1 as [|y o j e H IH Hj]; [done|]. cbn. rewrite IH. destruct (pbelow_node y o H) as (_ & _ & Hl). destruct (circuit_model _ Hl) as (x & Hx).
    destruct (circuit_node _ x Hx) as (n & _ & _ & He & _). rewrite He, list_lookup_fmap in Hj. apply fmap_Some in Hj as (c & Hc & ->). unfold nm. rewrite Hx, Hc.
    rewrite (name_ok _ x c Hx) by (by eapply elem_of_list_lookup_2). done.
  Qed.
End Circuit.

(** ** the components of one template *)
Lemma place_same s c l : forall off coff, Forall2 (fun a b => k_full b = k_full a /\ k_name b = k_name a /\ k_parallel b = k_parallel a /\ k_indexed b = k_indexed a /\ k_to b = k_to a) l (place s c off coff l).
Proof. induction l as [|k l IH]; intros off coff; [constructor|]. cbn [place]. constructor; [done|apply IH]. Qed.
Lemma take_total comps j m : comps !! j = Some m -> total (take (S j) comps) = total (take j comps) + product (m_length m).
Proof.
  intros H. rewrite (take_S_r _ _ _ H). unfold total. rewrite fmap_app.
  assert (S1 : forall l l' : list nat, sum_list (l ++ l') = sum_list l + sum_list l'). { induction l as [|a l IHl]; intros l'; [done|]. cbn. rewrite IHl. lia. }
  rewrite S1. cbn. lia.
Qed.
Lemma take_total_le comps j j' : j <= j' -> total (take j comps) <= total (take j' comps).
Proof.
  intros H. replace (take j' comps) with (take j comps ++ take (j' - j) (drop j comps)). 2: { rewrite <- (take_drop j (take j' comps)), take_take, skipn_firstn_comm. by replace (j `min` j') with j by lia. }
  unfold total. rewrite fmap_app.
  assert (S1 : forall l l' : list nat, sum_list (l ++ l') = sum_list l + sum_list l'). { induction l as [|a l IHl]; intros l'; [done|]. cbn. rewrite IHl. lia. }
  rewrite S1. lia.
Qed.
Lemma row_major_surj dims : forall v, v < product dims -> exists idx, Forall2 lt idx dims /\ row_major dims idx = v.
Proof.
  induction dims as [|a dims IH]; intros v Hv.
  - exists []. cbn in *. split; [constructor|lia].
  - rewrite product_cons in Hv. assert (0 < product dims) by nia. destruct (IH (v mod product dims)) as (idx & F & E). { apply Nat.mod_upper_bound. lia. }
    exists (v / product dims :: idx). split.
    + constructor; [|done]. apply Nat.div_lt_upper_bound; lia.
    + cbn [row_major]. rewrite E. pose proof (Nat.div_mod_eq v (product dims)). lia.
Qed.
Lemma nodup_fmap_inj {A B} (f : A -> B) l : (forall a b, a ∈ l -> b ∈ l -> f a = f b -> a = b) -> NoDup l -> NoDup (f <$> l).
Proof.
  intros H. induction 1 as [|a l Hn _ IH]; [constructor|]. cbn. constructor.
  - intros (b & E & Hb)%elem_of_list_fmap. apply Hn. rewrite (H a b); [done|left|by right|done].
  - apply IH. intros. apply H; [by right|by right|done].
Qed.
Section Children.
  Variables (p : Z) (model : list executed) (d : dag) (ts : list instance_info).
  Hypothesis HC : circuit p model d ts.
  Notation ns := (d_nodes d).
  Notation create1 x := (creation_of (pf model) (placed ns x) (used x)).
  Notation wcreate1 x := (wcreation_of (inf model) (placed ns x) (used x)).
  Notation order1 x := (order (placed ns x) (used x)).
  Lemma placed_at i x c : model !! i = Some x -> c ∈ placed ns x -> exists j m, used x !! j = Some m /\ m_name m = k_name c /\ Forall2 lt (k_indexed c) (m_length m) /\
    initialize_components (used x) !! k_name c = Some (total (take j (used x)), m_length m) /\
    (forall start ctx, create1 x start ctx c = creation (pf model) (total (take j (used x))) (m_length m) (byname (k_name c) (placed ns x)) start ctx c) /\
    (forall fs off sig, wcreate1 x fs off sig c = wcreation (inf model) (total (take j (used x))) (m_length m) (byname (k_name c) (placed ns x)) fs off sig c).
  Proof.
    intros Hx Hc. pose proof (proj2 (ci_ok _ _ _ _ HC) i x Hx) as HO. destruct (placed_declared _ _ _ _ HO Hc) as (m & Hm & En & F).
    apply elem_of_list_lookup in Hm as [j Hj]. exists j, m. pose proof (env_ok _ _ _ (used_names _ _ HO) Hj) as E. rewrite En in E. split_and!; try done.
    - intros. unfold creation_of, env. by rewrite E.
    - intros. unfold wcreation_of, env. by rewrite E.
  Qed.
  Lemma children_create i x t bs es : model !! i = Some x -> ts !! i = Some t -> template_buckets t = Ok bs -> d_adjacency d !! i = Some es ->
    exists l : list (connexion * edge), l.*1 ≡ₚ x_connexions x /\ l.*2 ≡ₚ es /\
      forall start ctx, Forall2 (fun g ce => creates model x t start ctx ce.1 ce.2 g) (cpp_children start ctx bs) l.
  Proof.
    intros Hx Ht Eb Hes. destruct (circuit_buckets _ _ _ _ HC i x t Hx Ht) as (bs' & Eb' & A & _ & HO). rewrite Eb in Eb'. injection Eb' as <-.
    destruct (circuit_node _ _ _ _ HC i x Hx) as (n & _ & _ & _ & Ha). rewrite Hes in Ha. injection Ha as ->.
    destruct (ci_ex _ _ _ _ HC i x Hx) as (t' & Ht' & E & _). rewrite Ht in Ht'. injection Ht' as <-.
    pose proof (place_same (sz ns) (csz ns) (sorted x) (own x) 0) as FS. fold (placed ns x) in FS.
    pose proof (Forall2_length _ _ _ FS) as LS.
    assert (Z1 : (zip (sorted x) (placed ns x)).*1 = sorted x) by (apply fst_zip; lia).
    assert (Z2 : (zip (sorted x) (placed ns x)).*2 = placed ns x) by (apply snd_zip; lia).
    assert (HO' : snd <$> zip (sorted x) (placed ns x) ≡ₚ order1 x) by (by rewrite Z2, HO).
    symmetry in HO'. destruct (Permutation_map_inv _ _ HO') as (Z & EZ & PZ).
    exists ((fun q => (q.1, edge_of q.2)) <$> Z). split_and!.
    - rewrite <- list_fmap_compose. change (fst ∘ (fun q : connexion * connexion => (q.1, edge_of q.2))) with (@fst connexion connexion). rewrite <- PZ, Z1. apply merge_sort_Permutation.
    - rewrite <- list_fmap_compose. change (snd ∘ (fun q : connexion * connexion => (q.1, edge_of q.2))) with (edge_of ∘ (@snd connexion connexion)). rewrite list_fmap_compose, <- PZ, Z2. done.
    - intros start ctx. rewrite A. rewrite EZ. change (map snd Z) with (snd <$> Z). rewrite <- list_fmap_compose. apply Forall2_fmap. apply Forall_Forall2_diag. apply Forall_forall.
      intros [c k] Hq. rewrite <- PZ in Hq. cbn [fst snd compose].
      assert (Hk : k ∈ placed ns x). { rewrite <- Z2. apply elem_of_list_fmap. by exists (c, k). }
      apply elem_of_list_lookup in Hq as [j Hj]. apply lookup_zip_with_Some in Hj as (c' & k' & [= <- <-] & J1 & J2).
      destruct (Forall2_lookup_lr _ _ _ _ _ _ FS J1 J2) as (S1 & S2 & S3 & S4 & S5).
      destruct (placed_at i x k Hx Hk) as (j' & m & Hm & En & F & EI & EC & _). rewrite EC. constructor; cbn [creation edge_of e_label e_goes_to e_in e_in_component g_template g_start g_index g_parallel].
      + by rewrite S1, S5.
      + done.
      + done.
      + done.
      + unfold par, status, declared_parallel, pf. by rewrite S3, S5.
      + exists m, (total (take j' (used x))). rewrite <- S2, <- S4, (ex_components _ _ _ _ E). split_and!; try done.
        apply elem_of_list_lookup_2, elem_used in Hm. by destruct Hm.
  Qed.
  Lemma children_table i x t bs start ctx : model !! i = Some x -> ts !! i = Some t -> template_buckets t = Ok bs ->
    NoDup (g_at <$> cpp_children start ctx bs) /\ Forall (fun g => g_at g < ii_number t) (cpp_children start ctx bs).
  Proof.
    intros Hx Ht Eb. destruct (circuit_buckets _ _ _ _ HC i x t Hx Ht) as (bs' & Eb' & A & _ & HO). rewrite Eb in Eb'. injection Eb' as <-. rewrite A.
    destruct (ci_ex _ _ _ _ HC i x Hx) as (t' & Ht' & E & _). rewrite Ht in Ht'. injection Ht' as <-. pose proof (proj2 (ci_ok _ _ _ _ HC) i x Hx) as HX.
    assert (HN : NoDup (order1 x)). { rewrite HO. eapply NoDup_fmap_1. by eapply placed_once. }
    split.
    - rewrite <- list_fmap_compose. apply nodup_fmap_inj; [|done]. intros a b Ha Hb. rewrite HO in Ha, Hb. cbn [compose].
      destruct (placed_at i x a Hx Ha) as (ja & ma & Hma & Ena & Fa & _ & -> & _). destruct (placed_at i x b Hx Hb) as (jb & mb & Hmb & Enb & Fb & _ & -> & _).
      cbn [creation g_at]. intros Eq. pose proof (row_major_lt _ _ Fa). pose proof (row_major_lt _ _ Fb).
      assert (ja = jb).
      { destruct (Nat.lt_trichotomy ja jb) as [L|[L|L]]; [|done|].
        - pose proof (take_total_le (used x) (S ja) jb L). rewrite (take_total _ _ _ Hma) in *. lia.
        - pose proof (take_total_le (used x) (S jb) ja L). rewrite (take_total _ _ _ Hmb) in *. lia. }
      subst jb. rewrite Hma in Hmb. injection Hmb as <-. assert (k_indexed a = k_indexed b) by (eapply row_major_inj; [done|done|lia]).
      apply elem_of_list_lookup in Ha as [ia Hia]. apply elem_of_list_lookup in Hb as [ib Hib].
      assert (ia = ib). { eapply (NoDup_lookup (key <$> placed ns x)); [by eapply placed_once|rewrite list_lookup_fmap, Hia; reflexivity|rewrite list_lookup_fmap, Hib; unfold key; cbn; congruence]. }
      subst ib. congruence.
    - apply Forall_forall. intros g (c & -> & Hc)%elem_of_list_fmap. rewrite HO in Hc. destruct (placed_at i x c Hx Hc) as (j & m & Hm & En & F & _ & -> & _). cbn [creation g_at].
      rewrite (ex_number _ _ _ _ E), filter_used_total. fold (used x). pose proof (row_major_lt _ _ F). pose proof (take_total (used x) j m Hm) as T.
      pose proof (take_total_le (used x) (S j) (length (used x))) as L. rewrite (take_ge (used x) (length (used x))) in L by lia. apply lookup_lt_Some in Hm. lia.
  Qed.
  Lemma children_flags i x t bs start ctx g : model !! i = Some x -> ts !! i = Some t -> template_buckets t = Ok bs -> g ∈ cpp_children start ctx bs ->
    exists c, c ∈ x_connexions x /\ g_template g = k_to c /\ g_parallel g = status model c /\
      ((same_status model x (k_name c) /\ g_flag g = None) \/ (~ same_status model x (k_name c) /\ g_flag g = Some (status model c))).
  Proof.
    intros Hx Ht Eb. destruct (circuit_buckets _ _ _ _ HC i x t Hx Ht) as (bs' & Eb' & A & _ & HO). rewrite Eb in Eb'. injection Eb' as <-. rewrite A.
    intros (k & -> & Hk)%elem_of_list_fmap. rewrite HO in Hk. destruct (placed_at i x k Hx Hk) as (j & m & Hm & En & F & _ & -> & _).
    destruct (elem_placed _ _ _ Hk) as (c & Hc & _ & E1 & E2 & _ & E3). exists c. cbn [creation g_template g_parallel g_flag]. unfold par. split; [done|]. split; [done|].
    assert (HS : forall q q', k_parallel q = k_parallel q' -> k_to q = k_to q' -> par (pf model) q = status model q') by (intros q q' Q1 Q2; unfold par, status, pf, declared_parallel; by rewrite Q1, Q2).
    split; [by apply (HS k c)|]. fold (par (pf model) k). rewrite (HS k c) by done. rewrite E1.
    assert (Hin : k ∈ byname (k_name c) (placed ns x)) by (by apply elem_byname).
    assert (HU : match uniform (par (pf model) <$> byname (k_name c) (placed ns x)) with Some _ => same_status model x (k_name c) | None => ~ same_status model x (k_name c) end).
    { destruct (uniform _) as [v|] eqn:EU.
      - assert (G : forall q, q ∈ x_connexions x -> k_name q = k_name c -> status model q = v).
        { intros q Hq Eq. destruct (placed_elem ns x q Hq) as (q' & Hq' & _ & N1 & N2 & _ & N3). rewrite <- (HS q' q N2 N3). eapply uniform_some; [exact EU|]. apply elem_of_list_fmap_1. apply elem_byname. split; [congruence|done]. }
        intros q q' Hq Hq' N N'. rewrite (G q), (G q'); done.
      - intros HSt. destruct (byname (k_name c) (placed ns x)) as [|b l] eqn:EB; [by apply elem_of_nil in Hin|]. cbn [fmap list_fmap uniform] in EU.
        destruct (forallb _ _) eqn:EF; [done|]. apply Bool.not_true_iff_false in EF. apply EF. apply forallb_forall. intros v Hv. apply elem_of_list_In, elem_of_list_fmap in Hv as (q & -> & Hq).
        assert (G : forall q, q ∈ b :: l -> exists q0, q0 ∈ x_connexions x /\ k_name q0 = k_name c /\ par (pf model) q = status model q0).
        { intros q0 Hq0. rewrite <- EB in Hq0. apply elem_byname in Hq0 as [N0 Hq0]. destruct (elem_placed _ _ _ Hq0) as (q1 & Hq1 & _ & N1 & N2 & _ & N3). exists q1. split; [done|]. split; [congruence|by apply HS]. }
        destruct (G b) as (b0 & B1 & B2 & ->); [left|]. destruct (G q) as (q0 & Q1 & Q2 & ->); [by right|]. rewrite (HSt b0 q0) by done. apply Bool.eqb_reflx. }
    destruct (uniform _); [by left|by right].
  Qed.
  Lemma children_wasm i x t bs fs off signals start ctx : model !! i = Some x -> ts !! i = Some t -> template_buckets t = Ok bs ->
    Forall2 (fun g w => w_template w = g_template g /\ w_at w = off + 12 + 4 * g_at g /\ w_start w = signals + fs * g_start g /\
      (complete_arrays x -> forall t', ts !! g_template g = Some t' -> w_run w = true <-> ii_inputs t' = 0))
      (cpp_children start ctx bs) (wasm_children fs off (signals + fs * start) bs).
  Proof.
    intros Hx Ht Eb. destruct (circuit_buckets _ _ _ _ HC i x t Hx Ht) as (bs' & Eb' & A & B & HO). rewrite Eb in Eb'. injection Eb' as <-. rewrite A, B.
    pose proof (proj2 (ci_ok _ _ _ _ HC) i x Hx) as HX.
    apply Forall2_fmap. apply Forall_Forall2_diag. apply Forall_forall. intros c Hc. rewrite HO in Hc.
    destruct (placed_at i x c Hx Hc) as (j & m & Hm & En & F & _ & -> & ->). cbn [creation wcreation g_template g_at g_start w_template w_at w_start w_run].
    split; [done|]. split; [lia|]. split; [lia|]. intros HCA t' Ht'.
    assert (E1 : inf model (k_to c) = ii_inputs t').
    { destruct (elem_placed _ _ _ Hc) as (c0 & H0 & _ & _ & _ & _ & E0). pose proof (eo_targets _ _ HX c0 H0) as L. apply lookup_lt_Some in Hx as Hl.
      destruct (lookup_lt_is_Some_2 model (k_to c)) as [y Hy]; [lia|]. destruct (ci_ex _ _ _ _ HC _ _ Hy) as (t2 & Ht2 & E & _). rewrite Ht' in Ht2. injection Ht2 as <-. unfold inf. rewrite Hy. by rewrite (ex_inputs _ _ _ _ E). }
    assert (E2 : length (byname (k_name c) (placed ns x)) = product (m_length m)).
    { assert (HR : forall q, q ∈ byname (k_name c) (placed ns x) -> Forall2 lt (k_indexed q) (m_length m)).
      { intros q [Nq Hq]%elem_byname. destruct (placed_at i x q Hx Hq) as (j2 & m2 & Hm2 & En2 & F2 & _).
        assert (j2 = j). { eapply (NoDup_lookup (m_name <$> used x)); [by eapply used_names|rewrite list_lookup_fmap, Hm2; reflexivity|rewrite list_lookup_fmap, Hm; cbn; congruence]. }
        subst j2. rewrite Hm in Hm2. by injection Hm2 as <-. }
      assert (HNd : NoDup (row_major (m_length m) ∘ k_indexed <$> byname (k_name c) (placed ns x))).
      { apply nodup_fmap_inj.
        - intros a b Ha Hb Eq. pose proof (HR a Ha). pose proof (HR b Hb). apply elem_byname in Ha as [Na Ha], Hb as [Nb Hb].
          assert (k_indexed a = k_indexed b) by (by eapply row_major_inj). apply elem_of_list_lookup in Ha as [ia Hia]. apply elem_of_list_lookup in Hb as [ib Hib].
          assert (ia = ib). { eapply (NoDup_lookup (key <$> placed ns x)); [by eapply placed_once|rewrite list_lookup_fmap, Hia; reflexivity|rewrite list_lookup_fmap, Hib; unfold key; cbn; congruence]. }
          subst ib. congruence.
        - apply NoDup_filter. eapply NoDup_fmap_1. by eapply placed_once. }
      assert (HP : (row_major (m_length m) ∘ k_indexed <$> byname (k_name c) (placed ns x)) ≡ₚ seq 0 (product (m_length m))).
      { apply NoDup_Permutation; [done|apply NoDup_seq|]. intros v. rewrite elem_of_seq, elem_of_list_fmap. split.
        - intros (q & -> & Hq). cbn [compose]. pose proof (row_major_lt _ _ (HR q Hq)). lia.
        - intros Hv. destruct (row_major_surj (m_length m) v) as (idx & Fi & <-); [lia|].
          destruct (elem_placed _ _ _ Hc) as (c0 & H0 & _ & N0 & _). apply elem_of_list_lookup_2, elem_used in Hm as [_ Hm].
          destruct (HCA c0 m idx H0 Hm) as (c' & Hc' & N' & I'); [congruence|done|]. destruct (placed_elem ns x c' Hc') as (q & Hq & _ & Nq & _ & Iq & _).
          exists q. split; [cbn; congruence|]. apply elem_byname. split; [congruence|done]. }
      apply Permutation_length in HP. by rewrite fmap_length, seq_length in HP. }
    rewrite E1, E2, Nat.eqb_refl, orb_true_r, andb_true_r. destruct (ii_inputs t'); cbn; split; intros; congruence || lia || done.
  Qed.
  Lemma children_defined i x t bs start ctx g : model !! i = Some x -> ts !! i = Some t -> template_buckets t = Ok bs -> g ∈ cpp_children start ctx bs ->
    exists t', ts !! g_template g = Some t' /\ cpp_defined t' (g_parallel g) = true.
  Proof.
    intros Hx Ht Eb. destruct (circuit_buckets _ _ _ _ HC i x t Hx Ht) as (bs' & Eb' & A & _ & HO). rewrite Eb in Eb'. injection Eb' as <-. rewrite A.
    intros (k & -> & Hk)%elem_of_list_fmap. rewrite HO in Hk. destruct (placed_at i x k Hx Hk) as (j & m & _ & _ & _ & _ & -> & _).
    destruct (elem_placed _ _ _ Hk) as (c & Hc & _ & E1 & E2 & _ & E3). cbn [creation g_template g_parallel].
    destruct (ci_ex _ _ _ _ HC i x Hx) as (t1 & Ht1 & _ & M). destruct (M c Hc) as (t' & Ht' & Mk). rewrite E3. exists t'. split; [done|].
    assert (Hl : k_to c < length model). { rewrite <- (ci_len _ _ _ _ HC). by eapply lookup_lt_Some. }
    destruct (lookup_lt_is_Some_2 model _ Hl) as [y Hy]. destruct (ci_ex _ _ _ _ HC _ _ Hy) as (t2 & Ht2 & E & _). rewrite Ht' in Ht2. injection Ht2 as <-.
    unfold par, pf. rewrite E2, E3, Hy. pose proof (ex_parallel _ _ _ _ E) as EP. unfold cpp_defined. rewrite EP. unfold marked in Mk.
    destruct (k_parallel c); cbn [orb].
    - rewrite Mk. apply orb_true_r.
    - destruct (x_parallel y); [done|]. by rewrite Mk.
  Qed.
End Children.
