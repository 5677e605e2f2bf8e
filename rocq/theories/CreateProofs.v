(** Proofs about the creation of components. *)
From stdpp Require Import prelude gmap fin_maps sorting strings pretty.
From Coq Require Import ZArith.
From Verif Require Import ModArithModel AlgebraModel PipelineModel DagModel DagSpec DagProofs CreateModel CreateSpec.
Open Scope nat_scope.

(** ** orders *)
Lemma lex_refl a : lex_leb a a = true.
Proof. induction a as [|x a IH]; [done|]. cbn [lex_leb]. rewrite Nat.ltb_irrefl. done. Qed.
Lemma lex_total a b : lex_leb a b = true \/ lex_leb b a = true.
Proof.
  revert b. induction a as [|x a IH]; intros [|y b]; cbn [lex_leb]; [auto..|].
  destruct (Nat.ltb_spec x y), (Nat.ltb_spec y x); auto; try lia.
Qed.
Lemma lex_antisym a b : lex_leb a b = true -> lex_leb b a = true -> a = b.
Proof.
  revert b. induction a as [|x a IH]; intros [|y b]; cbn [lex_leb]; [done..|].
  destruct (Nat.ltb_spec x y), (Nat.ltb_spec y x); try done; try lia.
  intros. assert (x = y) by lia. subst. f_equal. by apply IH.
Qed.
Lemma lex_trans a b c : lex_leb a b = true -> lex_leb b c = true -> lex_leb a c = true.
Proof.
  revert b c. induction a as [|x a IH]; intros [|y b] [|z c]; cbn [lex_leb]; try done.
  destruct (Nat.ltb_spec x y), (Nat.ltb_spec y x), (Nat.ltb_spec y z), (Nat.ltb_spec z y), (Nat.ltb_spec x z), (Nat.ltb_spec z x); try done; try lia.
  apply IH.
Qed.
Lemma string_key_inj s s' : string_key s = string_key s' -> s = s'.
Proof.
  unfold string_key. intros H. apply (f_equal (fmap Ascii.ascii_of_nat)) in H.
  rewrite <- !list_fmap_compose in H.
  assert (E : forall l : list Ascii.ascii, (Ascii.ascii_of_nat ∘ Ascii.nat_of_ascii) <$> l = l).
  { induction l as [|x l IH]; [done|]. cbn. rewrite Ascii.ascii_nat_embedding. by f_equal. }
  rewrite !E in H. apply (f_equal String.string_of_list_ascii) in H. by rewrite !String.string_of_list_ascii_of_string in H.
Qed.
Lemma cnn_trans a b c : cnn_le a b -> cnn_le b c -> cnn_le a c.
Proof.
  unfold cnn_le, cnn_leb. repeat case_bool_decide; try congruence; try apply lex_trans.
  - intros A B. exfalso. assert (k_name a = k_name b); [|congruence].
    apply string_key_inj. apply lex_antisym; [done|]. congruence.
Qed.
Global Instance cnn_trans' : Transitive cnn_le := cnn_trans.
Global Instance cnn_total : Total cnn_le.
Proof.
  intros a b. unfold cnn_le, cnn_leb. repeat case_bool_decide; try congruence; apply lex_total.
Qed.

(** ** numbering *)
Lemma on_main_last p ns n adj f : on_main f (Dag p (ns ++ [n]) adj) = Dag p (ns ++ [f n]) adj.
Proof.
  unfold on_main. cbn [d_nodes d_field d_adjacency]. rewrite app_length. cbn [length]. replace (length ns + 1 - 1) with (length ns + 0) by lia.
  by rewrite alter_app_r.
Qed.
Lemma foldl_on_main {A} (g : A -> node -> node) p ns n adj l :
  foldl (fun d s => on_main (g s) d) (Dag p (ns ++ [n]) adj) l = Dag p (ns ++ [foldl (fun n s => g s n) n l]) adj.
Proof. revert n. induction l as [|s l IH]; intros n; [done|]. cbn [foldl]. rewrite on_main_last. apply IH. Qed.
(** a node with its own signals and no sub-components yet *)
Definition wired (i o m : nat) (n : node) : Prop :=
  n_inputs n = i /\ n_outputs n = o /\ n_intermediates n = m /\ n_signals n = i + o + m /\ n_components n = 1 /\
  e_out (n_entry n) = n_signals n /\ e_out_component (n_entry n) = 0.
Lemma wired_outputs l : forall n i o m, wired i o m n -> wired i (o + length l) m (foldl (fun n s => node_add_output s n) n l).
Proof.
  induction l as [|s l IH]; intros n i o m W; cbn [foldl length]; [by rewrite Nat.add_0_r|].
  replace (o + S (length l)) with (S o + length l) by lia. apply IH. destruct W as (?&?&?&?&?&?&?). unfold wired. cbn. split_and!; lia.
Qed.
Lemma wired_inputs b l : forall n i o m, wired i o m n -> wired (i + length l) o m (foldl (fun n s => node_add_input s b n) n l).
Proof.
  induction l as [|s l IH]; intros n i o m W; cbn [foldl length]; [by rewrite Nat.add_0_r|].
  replace (i + S (length l)) with (S i + length l) by lia. apply IH. destruct W as (?&?&?&?&?&?&?). unfold wired. cbn. split_and!; lia.
Qed.
Lemma wired_intermediates l : forall n i o m, wired i o m n -> wired i o (m + length l) (foldl (fun n s => node_add_intermediate s n) n l).
Proof.
  induction l as [|s l IH]; intros n i o m W; cbn [foldl length]; [by rewrite Nat.add_0_r|].
  replace (m + S (length l)) with (S m + length l) by lia. apply IH. destruct W as (?&?&?&?&?&?&?). unfold wired. cbn. split_and!; lia.
Qed.
Lemma wired_ordered l : forall n i o m, wired i o m n -> wired i o m (foldl (fun n s => node_add_ordered s n) n l).
Proof. induction l as [|s l IH]; intros n i o m W; cbn [foldl]; [done|]. apply IH. exact W. Qed.
Lemma build_wires_ok x p ns adj n : wired 0 0 0 n -> exists n',
  build_wires x (Dag p (ns ++ [n]) adj) = Dag p (ns ++ [n']) adj /\
  wired (x_inputs x) (length (x_outputs x)) (length (x_intermediates x)) n'.
Proof.
  intros W. unfold build_wires. rewrite !foldl_on_main. eexists. split; [reflexivity|]. unfold x_inputs.
  apply wired_ordered. apply (wired_intermediates _ _ _ _ 0). apply wired_inputs. apply (wired_inputs _ _ _ 0). by apply (wired_outputs _ _ _ 0).
Qed.

(** where the sub-components go *)
Definition sz (ns : list node) (i : nat) : nat := match ns !! i with Some t => n_signals t | None => 0 end.
Definition csz (ns : list node) (i : nat) : nat := match ns !! i with Some t => n_components t | None => 0 end.
Fixpoint place (s c : nat -> nat) (off coff : nat) (cs : list connexion) : list connexion :=
  match cs with
  | [] => []
  | k :: cs => Connexion (k_full k) (k_name k) (k_parallel k) (k_indexed k) (k_to k) off coff (s (k_to k)) (c (k_to k)) ::
               place s c (off + s (k_to k)) (coff + c (k_to k)) cs
  end.
Definition edge_of (k : connexion) : edge :=
  Edge (k_full k) (k_to k) (k_offset k) (k_offset k + k_jump k) (S (k_component_offset k)) (S (k_component_offset k) + k_component_jump k).
Lemma insert_last {A} (l : list A) x y : <[length l := y]> (l ++ [x]) = l ++ [y].
Proof. replace (length l) with (length l + 0) by lia. by rewrite insert_app_r. Qed.
Lemma alter_last {A} (l : list A) x f : alter f (length l) (l ++ [x]) = l ++ [f x].
Proof. replace (length l) with (length l + 0) by lia. by rewrite alter_app_r. Qed.
Lemma get_main_last p ns n adj : get_main (Dag p (ns ++ [n]) adj) = Ok n.
Proof. unfold get_main. cbn [d_nodes]. by rewrite last_snoc. Qed.
Definition counted (n : node) : Prop := e_out (n_entry n) = n_signals n /\ S (e_out_component (n_entry n)) = n_components n.
Lemma connect_ok ko p ns n adj es c done : valid_corr_order ko -> length adj = length ns -> k_to c < length ns -> counted n ->
  exists n', connect ko (Dag p (ns ++ [n]) (adj ++ [es]), done) c =
      Ok (Dag p (ns ++ [n']) (adj ++ [es ++ (edge_of <$> place (sz ns) (csz ns) (n_signals n) (n_components n - 1) [c])]),
          done ++ place (sz ns) (csz ns) (n_signals n) (n_components n - 1) [c]) /\
    counted n' /\ n_signals n' = n_signals n + sz ns (k_to c) /\ n_components n' = n_components n + csz ns (k_to c) /\
    n_inputs n' = n_inputs n /\ n_outputs n' = n_outputs n /\ n_intermediates n' = n_intermediates n.
Proof.
  intros Hko HL Hto [C1 C2]. unfold connect. rewrite get_main_last. cbn [res_bind].
  destruct (add_edge_spec ko (Dag p (ns ++ [n]) (adj ++ [es])) (k_to c) (k_full c) (k_parallel c) Hko) as [(A & source & t & corr & reach & B1 & B2 & B3 & B4 & _)|[A _]].
  { cbn. by destruct ns. }
  2: { cbn [d_nodes] in A. rewrite app_length in A. cbn in A. lia. }
  cbn [d_nodes d_field d_adjacency] in *. rewrite last_snoc in B1. injection B1 as <-.
  rewrite lookup_app_l in B3 by done.
  rewrite app_length in B4. cbn [length] in B4. replace (length ns + 1 - 1) with (length ns) in B4 by lia.
  rewrite insert_last in B4. rewrite <- HL in B4. rewrite alter_last in B4.
  rewrite B4. cbn [res_bind]. rewrite get_main_last. cbn [res_bind].
  exists (with_sub (k_full c) (k_parallel c) t n corr reach). 
  assert (S1 : sz ns (k_to c) = n_signals t) by (unfold sz; by rewrite B3). assert (S2 : csz ns (k_to c) = n_components t) by (unfold csz; by rewrite B3).
  cbn [place fmap list_fmap]. rewrite S1, S2. unfold edge_of. cbn [k_full k_to k_offset k_jump k_component_offset k_component_jump].
  cbn [with_sub n_entry entry_grow e_out e_out_component n_signals n_components n_inputs n_outputs n_intermediates].
  split_and!; try done.
  - rewrite C1. replace (S (n_components n - 1)) with (n_components n) by lia. replace (e_out_component (n_entry n)) with (n_components n - 1) by lia.
    replace (n_signals n + n_signals t - n_signals n) with (n_signals t) by lia.
    replace (n_components n - 1 + n_components t - (n_components n - 1)) with (n_components t) by lia. done.
  - split; cbn; lia.
Qed.
Lemma place_app s c off coff l l' : place s c off coff (l ++ l') =
  place s c off coff l ++ place s c (off + sum_list (s ∘ k_to <$> l)) (coff + sum_list (c ∘ k_to <$> l)) l'.
Proof.
  revert off coff. induction l as [|k l IH]; intros off coff; cbn; [by rewrite !Nat.add_0_r|]. f_equal. rewrite IH. by rewrite !Nat.add_assoc.
Qed.
Lemma connect_all ko p ns adj cs : valid_corr_order ko -> length adj = length ns -> (forall c, c ∈ cs -> k_to c < length ns) ->
  forall n es done, counted n -> exists n',
    res_foldl (connect ko) (Dag p (ns ++ [n]) (adj ++ [es]), done) cs =
      Ok (Dag p (ns ++ [n']) (adj ++ [es ++ (edge_of <$> place (sz ns) (csz ns) (n_signals n) (n_components n - 1) cs)]),
          done ++ place (sz ns) (csz ns) (n_signals n) (n_components n - 1) cs) /\
    counted n' /\ n_signals n' = n_signals n + sum_list (sz ns ∘ k_to <$> cs) /\ n_components n' = n_components n + sum_list (csz ns ∘ k_to <$> cs) /\
    n_inputs n' = n_inputs n /\ n_outputs n' = n_outputs n /\ n_intermediates n' = n_intermediates n.
Proof.
  intros Hko HL. induction cs as [|c cs IH]; intros Hto n es done C.
  - exists n. cbn. rewrite !app_nil_r, !Nat.add_0_r. done.
  - rewrite res_foldl_cons. destruct (connect_ok ko p ns n adj es c done) as (n1 & E1 & C1 & S1 & K1 & I1 & O1 & M1); [done..|apply Hto; left|done|].
    rewrite E1. cbn [res_bind].
    destruct (IH ltac:(intros; apply Hto; by right) n1 (es ++ (edge_of <$> place (sz ns) (csz ns) (n_signals n) (n_components n - 1) [c]))
                (done ++ place (sz ns) (csz ns) (n_signals n) (n_components n - 1) [c]) C1) as (n2 & E2 & C2 & S2 & K2 & I2 & O2 & M2).
    exists n2. rewrite E2. split_and!; try congruence; try done.
    + rewrite (place_app _ _ _ _ [c] cs : place _ _ _ _ (c :: cs) = _). rewrite fmap_app. rewrite !(assoc_L (++)).
      rewrite S1, K1. cbn. rewrite !Nat.add_0_r. destruct C as [_ C]. replace (n_components n + csz ns (k_to c) - 1) with (n_components n - 1 + csz ns (k_to c)) by lia. done.
    + rewrite S2, S1. cbn. lia.
    + rewrite K2, K1. cbn. lia.
Qed.
Definition sorted (x : executed) : list connexion := merge_sort cnn_le (x_connexions x).
Definition own (x : executed) : nat := x_inputs x + length (x_outputs x) + length (x_intermediates x).
Definition placed (ns : list node) (x : executed) : list connexion := place (sz ns) (csz ns) (own x) 0 (sorted x).
Definition processed (ns : list node) (x : executed) : executed :=
  Executed (x_name x) (x_parallel x) (x_custom x) (x_parameters x) (x_outputs x) (x_public x) (x_private x) (x_intermediates x)
    (x_ordered x) (x_constraints x) (x_underscored x) (filter_used (x_components x) (sorted x)).1 (filter_used (x_components x) (sorted x)).2
    (placed ns x).
Definition node_final (ns : list node) (x : executed) (n : node) : Prop :=
  n_signals n = own x + sum_list (sz ns ∘ k_to <$> sorted x) /\ n_components n = S (sum_list (csz ns ∘ k_to <$> sorted x)) /\
  n_indexes n = (filter_used (x_components x) (sorted x)).2 /\ n_inputs n + n_outputs n + n_intermediates n = own x.
Lemma elem_sorted x c : c ∈ sorted x <-> c ∈ x_connexions x.
Proof. unfold sorted. by rewrite merge_sort_Permutation. Qed.
Lemma final_constraints ns x n l : node_final ns x n -> node_final ns x (foldl (fun n c => node_add_constraint c n) n l).
Proof. revert n. induction l as [|c l IH]; intros n F; cbn [foldl]; [done|]. apply IH. exact F. Qed.
Lemma final_underscored ns x n l : node_final ns x n -> node_final ns x (foldl (fun n c => node_add_underscored c n) n l).
Proof. revert n. induction l as [|c l IH]; intros n F; cbn [foldl]; [done|]. apply IH. exact F. Qed.
Lemma insert_ok ko p ns adj x : valid_corr_order ko -> length adj = length ns -> (forall c, c ∈ x_connexions x -> k_to c < length ns) ->
  exists n, insert_in_dag ko x (Dag p ns adj) = Ok (Dag p (ns ++ [n]) (adj ++ [edge_of <$> placed ns x]), processed ns x) /\ node_final ns x n.
Proof.
  intros Hko HL Hto. unfold insert_in_dag, add_node. cbn [d_nodes d_field d_adjacency].
  destruct (build_wires_ok x p ns (adj ++ [[]]) (node_new (length ns) (x_name x) (x_parameters x) (x_parallel x) (x_custom x))) as (n1 & -> & W).
  { unfold wired. cbn. done. }
  destruct W as (W1 & W2 & W3 & W4 & W5 & W6 & W7).
  unfold build_connexions. destruct (filter_used (x_components x) (merge_sort cnn_le (x_connexions x))) as [comps number] eqn:EF.
  destruct (connect_all ko p ns adj (sorted x) Hko HL) with (n := n1) (es := @nil edge) (done := @nil connexion) as (n2 & E2 & C2 & S2 & K2 & I2 & O2 & M2).
  { intros c Hc. apply Hto. by apply elem_sorted. }
  { split; lia. }
  fold (sorted x). rewrite E2. cbn [res_bind]. rewrite on_main_last. unfold build_constraints. cbn [x_constraints x_underscored]. rewrite !foldl_on_main.
  rewrite W5, W4 in *. replace (1 - 1) with 0 in * by lia. rewrite !app_nil_l.
  eexists. split.
  - unfold processed, placed. fold (sorted x) in EF. rewrite EF. unfold own. reflexivity.
  - apply final_underscored, final_constraints. fold (sorted x) in EF. unfold node_final. rewrite EF. cbn. rewrite S2, K2, I2, O2, M2, W1, W2, W3. unfold own.
    split_and!; done.
Qed.
(** the whole model *)
Lemma sz_app ns ns' i : i < length ns -> sz (ns ++ ns') i = sz ns i.
Proof. intros. unfold sz. by rewrite lookup_app_l. Qed.
Lemma csz_app ns ns' i : i < length ns -> csz (ns ++ ns') i = csz ns i.
Proof. intros. unfold csz. by rewrite lookup_app_l. Qed.
Lemma place_ext s s' c c' off coff l : (forall k, k ∈ l -> s (k_to k) = s' (k_to k) /\ c (k_to k) = c' (k_to k)) -> place s c off coff l = place s' c' off coff l.
Proof.
  revert off coff. induction l as [|k l IH]; intros off coff H; [done|]. cbn. destruct (H k) as [-> ->]; [left|]. f_equal. apply IH. intros. apply H. by right.
Qed.
Lemma placed_app ns ns' x : (forall c, c ∈ x_connexions x -> k_to c < length ns) -> placed (ns ++ ns') x = placed ns x.
Proof. intros H. apply place_ext. intros k Hk%elem_sorted. split; [apply sz_app|apply csz_app]; auto. Qed.
Lemma sum_ext {A} (f g : A -> nat) l : (forall a, a ∈ l -> f a = g a) -> sum_list (f <$> l) = sum_list (g <$> l).
Proof. intros H. f_equal. apply list_fmap_ext. intros i a Ha. apply H. by eapply elem_of_list_lookup_2. Qed.
Lemma final_app ns ns' x n : (forall c, c ∈ x_connexions x -> k_to c < length ns) -> node_final ns x n -> node_final (ns ++ ns') x n.
Proof.
  intros H (A & B & C). split_and!; [rewrite A|rewrite B|apply C..]; f_equal; apply sum_ext; intros k Hk%elem_sorted; cbn; symmetry; [apply sz_app|apply csz_app]; auto.
Qed.
Record assembled (p : Z) (model : list executed) (d : dag) (xs : list executed) : Prop := {
  as_field : d_field d = p;
  as_nodes : length (d_nodes d) = length model;
  as_adj : length (d_adjacency d) = length model;
  as_xs : xs = processed (d_nodes d) <$> model;
  as_node : forall i x, model !! i = Some x -> exists n, d_nodes d !! i = Some n /\ node_final (d_nodes d) x n /\
    d_adjacency d !! i = Some (edge_of <$> placed (d_nodes d) x);
}.
Definition targets_ok (model : list executed) : Prop := forall i x c, model !! i = Some x -> c ∈ x_connexions x -> k_to c < i.
Lemma insert_all_ok ko p model : valid_corr_order ko -> targets_ok model -> exists d xs, insert_all ko p model = Ok (d, xs) /\ assembled p model d xs.
Proof.
  intros Hko. unfold insert_all. induction model as [|x model IH] using rev_ind; intros HT.
  - eexists _, _. split; [reflexivity|]. constructor; done.
  - destruct IH as (d & xs & E & [A1 A2 A3 A4 A5]).
    { intros i y c Hy. apply HT. by apply lookup_app_l_Some. }
    rewrite res_foldl_app, E. cbn [res_bind].
    assert (Hx : forall c, c ∈ x_connexions x -> k_to c < length (d_nodes d)).
    { intros c Hc. rewrite A2. apply (HT _ x); [|done]. by rewrite list_lookup_middle. }
    destruct d as [p' ns adj]. cbn [d_field d_nodes d_adjacency] in *. subst p'.
    destruct (insert_ok ko p ns adj x) as (n & E1 & F); [done|lia|done|].
    rewrite res_foldl_cons. rewrite E1. cbn [res_bind]. eexists _, _. split; [reflexivity|].
    assert (HM : forall i y, model !! i = Some y -> forall c, c ∈ x_connexions y -> k_to c < length ns).
    { intros i y Hy c Hc. apply lookup_lt_Some in Hy as Hl. enough (k_to c < i) by lia. apply (HT _ y); [|done]. by apply lookup_app_l_Some. }
    assert (HP : forall y, (forall c, c ∈ x_connexions y -> k_to c < length ns) -> processed (ns ++ [n]) y = processed ns y).
    { intros y Hy. unfold processed. by rewrite placed_app. }
    constructor; cbn [d_field d_nodes d_adjacency]; [done|rewrite !app_length; cbn; lia..| |].
    + rewrite fmap_app, A4. cbn. rewrite HP by done. f_equal. apply list_fmap_ext. intros i y Hy. symmetry. apply HP. by eapply HM.
    + intros i y Hy. apply lookup_app_Some in Hy as [Hy|[Hi Hy]].
      * destruct (A5 i y Hy) as (m & M1 & M2 & M3). apply lookup_lt_Some in Hy as Hl. exists m. split_and!.
        -- by apply lookup_app_l_Some.
        -- apply final_app; [by eapply HM|done].
        -- rewrite placed_app by (by eapply HM). by apply lookup_app_l_Some.
      * assert (i = length model). { apply lookup_lt_Some in Hy. cbn in Hy. lia. } subst i. rewrite Nat.sub_diag in Hy. injection Hy as <-.
        exists n. rewrite <- A2 at 1. rewrite <- A3. rewrite !list_lookup_middle by done. split_and!; [done|by apply final_app|by rewrite placed_app].
Qed.

(** ** clusters *)
Definition byname (n : string) (cs : list connexion) : list connexion := filter (fun c => k_name c = n) cs.
Definition key (c : connexion) : string * list nat := (k_name c, k_indexed c).
Lemma cnn_le_names a b : cnn_le a b -> lex_leb (string_key (k_name a)) (string_key (k_name b)) = true.
Proof. unfold cnn_le, cnn_leb. case_bool_decide as E; [|done]. intros _. rewrite E. apply lex_refl. Qed.
Lemma byname_none n cs : (forall c, c ∈ cs -> k_name c <> n) -> byname n cs = [].
Proof. induction cs as [|c cs IH]; intros H; [done|]. unfold byname. rewrite filter_cons_False by (apply H; left). apply IH. intros. apply H. by right. Qed.
Lemma run_end_spec n cs e : StronglySorted cnn_le cs -> (forall c, c ∈ cs -> lex_leb (string_key n) (string_key (k_name c)) = true) ->
  run_end n cs e = e + length (byname n cs) /\ exists rest, cs = byname n cs ++ rest /\ forall c, c ∈ rest -> k_name c <> n.
Proof.
  intros HS. revert e. induction HS as [|c cs HS IH HF]; intros e H.
  - split; [cbn; lia|]. exists []. split; [done|]. intros c Hc. by apply elem_of_nil in Hc.
  - cbn [run_end]. case_bool_decide as E.
    + destruct (IH (S e)) as (-> & rest & E' & HR). { intros c' Hc'. apply H. by right. }
      unfold byname in *. rewrite filter_cons_True by done. cbn [length]. split; [lia|]. exists rest. split; [cbn; by f_equal|done].
    + assert (HN : forall c', c' ∈ c :: cs -> k_name c' <> n).
      { intros c' Hc' E'. apply E. apply string_key_inj, lex_antisym; [|apply H; left].
        apply elem_of_cons in Hc' as [->|Hc']; [by rewrite E', lex_refl|]. rewrite <- E'. apply cnn_le_names. rewrite Forall_forall in HF. by apply HF. }
      rewrite byname_none by done. split; [cbn; lia|]. exists (c :: cs). done.
Qed.
Definition is_cluster (cs : list connexion) (n : string) (cl : cluster) : Prop :=
  exists s c l, byname n cs = c :: l /\ cs !! s = Some c /\ take (length (byname n cs)) (drop s cs) = byname n cs /\
    cl = Cluster n s (s + length (byname n cs)) (Uniform (k_jump c) (k_component_jump c)).
Lemma byname_app n l l' : byname n (l ++ l') = byname n l ++ byname n l'.
Proof. apply filter_app. Qed.
Lemma elem_byname n cs c : c ∈ byname n cs <-> k_name c = n /\ c ∈ cs.
Proof. unfold byname. by rewrite elem_of_list_filter. Qed.
Lemma cluster_runs_ok fuel : forall pre rest acc, length rest < fuel -> StronglySorted cnn_le (pre ++ rest) ->
  (forall c c', c ∈ pre -> c' ∈ rest -> k_name c <> k_name c') ->
  exists m, cluster_runs fuel (pre ++ rest) (length pre) acc = Ok m /\
    (forall n, (exists c, c ∈ rest /\ k_name c = n) -> exists cl, m !! n = Some cl /\ is_cluster (pre ++ rest) n cl) /\
    (forall n, (forall c, c ∈ rest -> k_name c <> n) -> m !! n = acc !! n).
Proof.
  induction fuel as [|fuel IH]; intros pre rest acc HF HS HD; [lia|]. cbn [cluster_runs].
  destruct rest as [|c rest].
  - rewrite app_nil_r. rewrite lookup_ge_None_2 by lia. exists acc. split_and!; [done| |done]. intros n (c & Hc & _). by apply elem_of_nil in Hc.
  - rewrite list_lookup_middle by done. rewrite drop_app.
    assert (HS' : StronglySorted cnn_le (c :: rest)). { clear -HS. induction pre as [|q pre IHp]; [done|]. apply IHp. by inversion HS. }
    destruct (run_end_spec (k_name c) (c :: rest) (length pre) HS') as (-> & rest' & ER & HR).
    { intros c' Hc'. apply elem_of_cons in Hc' as [->|Hc']; [apply lex_refl|]. apply cnn_le_names. inversion HS' as [|?? ? HF']; subst. rewrite Forall_forall in HF'. by apply HF'. }
    set (m := byname (k_name c) (c :: rest)) in *.
    assert (Hm : exists l, m = c :: l). { unfold m, byname. rewrite filter_cons_True by done. eauto. }
    destruct Hm as [l Hm].
    replace (length pre + length m) with (length (pre ++ m)) by (by rewrite app_length).
    rewrite ER. rewrite (assoc_L (++)).
    assert (HB : byname (k_name c) ((pre ++ m) ++ rest') = m).
    { rewrite <- (assoc_L (++)), <- ER, byname_app. rewrite (byname_none _ pre); [done|]. intros c' Hc'. apply HD; [done|left]. }
    destruct (IH (pre ++ m) rest' (<[k_name c:=Cluster (k_name c) (length pre) (length (pre ++ m)) (Uniform (k_jump c) (k_component_jump c))]> acc)) as (r & E & R1 & R2).
    { apply (f_equal length) in ER. rewrite app_length, Hm in ER. cbn in ER. cbn in HF. lia. }
    { by rewrite <- (assoc_L (++)), <- ER. }
    { intros c1 c2 [Hc1|Hc1]%elem_of_app Hc2.
      - apply HD; [done|]. rewrite ER. apply elem_of_app. by right.
      - apply elem_byname in Hc1 as [-> _]. intros E'. by apply (HR c2). }
    exists r. split_and!; [done| |].
    + intros n (c' & Hc' & En). apply elem_of_app in Hc' as [Hc'|Hc'].
      * apply elem_byname in Hc' as [En' _]. subst n. rewrite En'. rewrite R2 by done. rewrite lookup_insert.
        eexists. split; [reflexivity|]. exists (length pre), c, l. rewrite HB, <- (assoc_L (++)). rewrite drop_app. split_and!; [done| |by rewrite take_app|].
        -- rewrite Hm. rewrite lookup_app_r by done. by rewrite Nat.sub_diag.
        -- by rewrite app_length.
      * apply R1. eauto.
    + intros n Hn. rewrite R2. 2: { intros c' Hc'. apply Hn. apply elem_of_app. by right. }
      apply lookup_insert_ne. apply Hn. rewrite Hm. left.
Qed.

(** which arrays mix templates *)
Definition mixed_targets (l : list connexion) : bool := match l with [] => false | c :: l => existsb (fun c' => negb (k_to c' =? k_to c)) l end.
Definition lub_all (l : list connexion) : pos := foldl (fun p c => pos_lub p (PK (k_to c))) PB l.
Lemma lub_T l : foldl (fun p c => pos_lub p (PK (k_to c))) PT l = PT.
Proof. induction l as [|c l IH]; [done|]. cbn. exact IH. Qed.
Lemma lub_K v l : foldl (fun p c => pos_lub p (PK (k_to c))) (PK v) l = if existsb (fun c' => negb (k_to c' =? v)) l then PT else PK v.
Proof.
  induction l as [|c l IH]; [done|]. cbn [foldl existsb pos_lub]. rewrite (Nat.eqb_sym v). destruct (Nat.eqb_spec (k_to c) v); cbn [negb orb]; [done|apply lub_T].
Qed.
Lemma lub_spec c l : lub_all (c :: l) = if mixed_targets (c :: l) then PT else PK (k_to c).
Proof. unfold lub_all. cbn [foldl pos_lub mixed_targets]. apply lub_K. Qed.
Lemma init_pos cs : forall (m : gmap string pos) n, foldl (fun m c => <[k_name c := PB]> m) m cs !! n =
  if decide (n ∈ k_name <$> cs) then Some PB else m !! n.
Proof.
  induction cs as [|c cs IH]; intros m n; cbn [foldl fmap list_fmap]; [done|]. rewrite IH.
  destruct (decide (n ∈ k_name <$> cs)) as [H|H]; [rewrite decide_True by (by right); done|].
  destruct (decide (n = k_name c)) as [->|E]; [rewrite lookup_insert, decide_True by left; done|].
  rewrite lookup_insert_ne by done. rewrite decide_False; [done|]. intros [?|?]%elem_of_cons; done.
Qed.
Lemma apply_pos_ok cs : exists m, apply_pos cs = Ok m /\ forall n, n ∈ k_name <$> cs -> m !! n = Some (lub_all (byname n cs)).
Proof.
  unfold apply_pos. set (m0 := foldl _ _ _).
  enough (G : forall post pre (m : gmap string pos), cs = pre ++ post -> (forall n, n ∈ k_name <$> cs -> m !! n = Some (lub_all (byname n pre))) ->
    exists m', res_foldl (fun m c => match m !! k_name c with Some prev => Ok (<[k_name c := pos_lub prev (PK (k_to c))]> (delete (k_name c) m)) | None => Panic end) m post = Ok m' /\
      forall n, n ∈ k_name <$> cs -> m' !! n = Some (lub_all (byname n cs))).
  { apply (G cs [] m0); [done|]. intros n Hn. unfold m0. rewrite init_pos. by rewrite decide_True. }
  induction post as [|c post IH]; intros pre m E H.
  - rewrite app_nil_r in E. subst pre. exists m. done.
  - rewrite res_foldl_cons. rewrite H by (rewrite E, fmap_app, elem_of_app; right; left). cbn [res_bind].
    apply (IH (pre ++ [c])); [by rewrite <- (assoc_L (++))|]. intros n Hn. rewrite byname_app. rewrite insert_delete_insert.
    destruct (decide (n = k_name c)) as [->|Hne].
    + rewrite lookup_insert. assert (byname (k_name c) [c] = [c]) as -> by (unfold byname; by rewrite filter_cons_True). unfold lub_all. rewrite foldl_app. done.
    + rewrite lookup_insert_ne by done. assert (byname n [c] = []) as -> by (unfold byname; by rewrite filter_cons_False). rewrite app_nil_r. by apply H.
Qed.
Lemma cons_is_mixed cs n m : n ∈ k_name <$> cs -> m !! n = Some (lub_all (byname n cs)) -> is_mixed m n = Ok (mixed_targets (byname n cs)).
Proof.
  intros Hn Hm. unfold is_mixed. rewrite Hm. apply elem_of_list_fmap in Hn as (c & -> & Hc).
  assert (c ∈ byname (k_name c) cs) as Hb by (by apply elem_byname). destruct (byname (k_name c) cs) as [|c0 l]; [by apply elem_of_nil in Hb|].
  rewrite lub_spec. by destruct (mixed_targets (c0 :: l)).
Qed.
Definition final_cluster (cs : list connexion) (n : string) (cl : cluster) : Prop :=
  exists cl0, is_cluster cs n cl0 /\ cl = if mixed_targets (byname n cs) then Cluster (cl_name cl0) (cl_start cl0) (cl_end cl0) Mixed else cl0.
Lemma build_clusters_ok comps cs : StronglySorted cnn_le cs -> NoDup (m_name <$> comps) -> (forall m, m ∈ comps -> m_name m ∈ k_name <$> cs) ->
  exists cls, build_clusters comps cs = Ok cls /\ Forall2 (fun m cl => final_cluster cs (m_name m) cl) comps cls.
Proof.
  intros HS HN HC. unfold build_clusters. destruct (apply_pos_ok cs) as (sol & -> & Hsol). cbn [res_bind].
  destruct (cluster_runs_ok (S (length cs)) [] cs ∅) as (cm & Ecm & H1 & _); [lia|done|intros c c' Hc; by apply elem_of_nil in Hc|]. cbn [app length] in *. rewrite Ecm. cbn [res_bind].
  enough (G : forall acc m, (forall n, n ∈ m_name <$> comps -> m !! n = cm !! n) -> exists m' cls, res_foldl (bind_cluster sol) (m, acc) comps = Ok (m', acc ++ cls) /\
     Forall2 (fun m cl => final_cluster cs (m_name m) cl) comps cls).
  { destruct (G [] cm) as (m' & cls & -> & F); [done|]. exists cls. done. }
  clear -HN HC H1 Hsol. induction comps as [|c comps IH]; intros acc m Hm.
  - exists m, []. by rewrite app_nil_r.
  - rewrite res_foldl_cons. unfold bind_cluster at 1. cbn [fst snd]. cbn in HN. apply NoDup_cons in HN as [HN1 HN2].
    assert (Hc : m_name c ∈ k_name <$> cs) by (apply HC; left).
    destruct (H1 (m_name c)) as (cl & Hcl & His). { apply elem_of_list_fmap in Hc as (k & -> & Hk). eauto. }
    rewrite Hm by left. rewrite Hcl. rewrite (cons_is_mixed cs) by auto. cbn [res_bind].
    destruct (IH HN2 ltac:(intros; apply HC; by right)) with (m := delete (m_name c) m)
      (acc := acc ++ [if mixed_targets (byname (m_name c) cs) then Cluster (cl_name cl) (cl_start cl) (cl_end cl) Mixed else cl]) as (m' & cls & E & F).
    { intros n Hn. rewrite lookup_delete_ne by (intros <-; done). apply Hm. by right. }
    rewrite E. eexists m', (_ :: cls). split; [by rewrite <- (assoc_L (++))|]. constructor; [|done]. exists cl. done.
Qed.

(** ** export *)
Definition static (t : instance_info) := (ii_parallel t, ii_inputs t, ii_number t, ii_triggers t, ii_clusters t, ii_components t).
Definition marked (b : bool) (t : instance_info) : Prop := if b then ii_parallel_component t = true else ii_not_parallel_component t = true.
Definition grows (t t' : instance_info) : Prop := static t' = static t /\ forall b, marked b t -> marked b t'.
Lemma grows_refl t : grows t t. Proof. done. Qed.
Lemma grows_trans t t' t'' : grows t t' -> grows t' t'' -> grows t t''.
Proof. intros [A B] [C D]. split; [congruence|auto]. Qed.
Lemma mark_grows b t : grows t (mark b t) /\ marked b (mark b t).
Proof.
  split; [split; [done|]|].
  - intros [] H; cbn in *; by rewrite H.
  - destruct b; cbn; apply orb_true_r.
Qed.
Definition trig (pf : nat -> bool) (inf : nat -> nat) (c : connexion) : trigger :=
  Trigger (k_to c) (k_offset c) (k_component_offset c) (k_name c) (k_indexed c) (0 <? inf (k_to c)) (k_parallel c || pf (k_to c)).
Lemma build_triggers_ok pf inf cs : forall insts trs, (forall c, c ∈ cs -> exists t, insts !! k_to c = Some t /\ ii_parallel t = pf (k_to c) /\ ii_inputs t = inf (k_to c)) ->
  exists insts', res_foldl build_trigger (insts, trs) cs = Ok (insts', trs ++ (trig pf inf <$> cs)) /\ length insts' = length insts /\
    (forall i t, insts !! i = Some t -> exists t', insts' !! i = Some t' /\ grows t t') /\
    (forall c, c ∈ cs -> exists t', insts' !! k_to c = Some t' /\ marked (k_parallel c) t').
Proof.
  induction cs as [|c cs IH]; intros insts trs H.
  - exists insts. rewrite app_nil_r. split_and!; [done..|intros i t Ht; exists t; done|]. intros c Hc. by apply elem_of_nil in Hc.
  - rewrite res_foldl_cons. unfold build_trigger at 1. destruct (H c) as (t & Ht & P1 & P2); [left|]. rewrite Ht. cbn [res_bind].
    pose proof (mark_grows (k_parallel c) t) as [G1 G2]. apply lookup_lt_Some in Ht as Hl.
    destruct (IH (<[k_to c:=mark (k_parallel c) t]> insts) (trs ++ [Trigger (k_to c) (k_offset c) (k_component_offset c) (k_name c) (k_indexed c) (0 <? ii_inputs t) (k_parallel c || ii_parallel t)]))
      as (insts' & E & L & I1 & I2).
    { intros c' Hc'. destruct (H c') as (t' & Ht' & P1' & P2'); [by right|].
      destruct (decide (k_to c' = k_to c)) as [Ec|Ec].
      - rewrite Ec in *. assert (t' = t) by congruence. subst t'. rewrite list_lookup_insert by done. eexists. split; [done|]. done.
      - rewrite list_lookup_insert_ne by done. eauto. }
    rewrite E. exists insts'. split_and!.
    + rewrite <- (assoc_L (++)). cbn. rewrite P1, P2. done.
    + by rewrite insert_length in L.
    + intros i t' Ht'. destruct (decide (i = k_to c)) as [->|Ei].
      * assert (t' = t) by congruence. subst t'. destruct (I1 (k_to c) (mark (k_parallel c) t)) as (t2 & ? & ?); [by rewrite list_lookup_insert|].
        exists t2. split; [done|]. by eapply grows_trans.
      * apply I1. by rewrite list_lookup_insert_ne.
    + intros c' [->|Hc']%elem_of_cons; [|by apply I2]. destruct (I1 (k_to c) (mark (k_parallel c) t)) as (t2 & ? & ? & G); [by rewrite list_lookup_insert|]. exists t2. auto.
Qed.

Lemma cnn_leb_key a b a' b' : key a = key a' -> key b = key b' -> cnn_leb a b = cnn_leb a' b'.
Proof. unfold key, cnn_leb. intros [= E1 E2] [= E3 E4]. by rewrite E1, E2, E3, E4. Qed.
Lemma sorted_key l l' : key <$> l = key <$> l' -> StronglySorted cnn_le l -> StronglySorted cnn_le l'.
Proof.
  intros E HS. revert l' E. induction HS as [|c l HS IH HF]; intros [|c' l'] E; try discriminate; [constructor|]. cbn [fmap list_fmap] in E. injection E as E1 E1' E2.
  assert (Ek : key c = key c') by (unfold key; congruence). clear E1 E1'.
  constructor; [by apply IH|]. rewrite Forall_forall in *. intros y Hy.
  assert (key y ∈ key <$> l) as (z & Ez & Hz)%elem_of_list_fmap. { rewrite E2. by apply elem_of_list_fmap_1. }
  unfold cnn_le. rewrite <- (cnn_leb_key c z c' y) by done. by apply HF.
Qed.
Lemma place_key s c off coff l : key <$> place s c off coff l = key <$> l.
Proof. revert off coff. induction l as [|k l IH]; intros off coff; cbn; [done|]. f_equal. apply IH. Qed.
Lemma placed_key ns x : key <$> placed ns x = key <$> sorted x.
Proof. apply place_key. Qed.
Lemma sorted_sorted x : StronglySorted cnn_le (sorted x).
Proof. apply StronglySorted_merge_sort; apply _. Qed.
Lemma placed_sorted ns x : StronglySorted cnn_le (placed ns x).
Proof. eapply sorted_key; [|apply sorted_sorted]. symmetry. apply placed_key. Qed.
Lemma placed_once ns i x : executed_ok i x -> NoDup (key <$> placed ns x).
Proof. intros H. rewrite placed_key. unfold sorted. rewrite merge_sort_Permutation. apply (eo_once _ _ H). Qed.
Lemma names_of_keys l : k_name <$> l = (key <$> l).*1.
Proof. rewrite <- list_fmap_compose. done. Qed.
Lemma placed_names ns x : k_name <$> placed ns x = k_name <$> sorted x.
Proof. by rewrite !names_of_keys, placed_key. Qed.
Lemma elem_placed ns x c' : c' ∈ placed ns x -> exists c, c ∈ x_connexions x /\ k_full c' = k_full c /\ k_name c' = k_name c /\ k_parallel c' = k_parallel c /\ k_indexed c' = k_indexed c /\ k_to c' = k_to c.
Proof.
  unfold placed. generalize (own x) 0. intros a b H. setoid_rewrite <- elem_sorted. revert a b H. generalize (sorted x). induction l as [|k l IH]; intros a b H; cbn in H; [by apply elem_of_nil in H|].
  apply elem_of_cons in H as [->|H]; [exists k; split; [left|done]|]. destruct (IH _ _ H) as (c & Hc & ?). exists c. split; [by right|done].
Qed.
Lemma placed_elem ns x c : c ∈ x_connexions x -> exists c', c' ∈ placed ns x /\ k_full c' = k_full c /\ k_name c' = k_name c /\ k_parallel c' = k_parallel c /\ k_indexed c' = k_indexed c /\ k_to c' = k_to c.
Proof.
  rewrite <- elem_sorted. unfold placed. generalize (own x) 0. generalize (sorted x). induction l as [|k l IH]; intros a b H; [by apply elem_of_nil in H|]. cbn.
  apply elem_of_cons in H as [->|H]; [eexists; split; [left|done]|]. destruct (IH (a + sz ns (k_to k)) (b + csz ns (k_to k)) H) as (c' & Hc & ?). exists c'. split; [by right|done].
Qed.
Definition used (x : executed) : list component_data := (filter_used (x_components x) (sorted x)).1.
Lemma elem_used x m : m ∈ used x <-> m_name m ∈ k_name <$> sorted x /\ m ∈ x_components x.
Proof. unfold used, filter_used. cbn [fst]. by rewrite elem_of_list_filter. Qed.
Lemma nodup_filter_fmap {A B} (f : A -> B) (P : A -> Prop) `{forall a, Decision (P a)} l : NoDup (f <$> l) -> NoDup (f <$> filter P l).
Proof.
  induction l as [|a l IH]; intros HN; [done|]. cbn [fmap list_fmap] in HN. apply NoDup_cons in HN as [H1 H2]. rewrite filter_cons. destruct (decide (P a)); [|auto].
  cbn [fmap list_fmap]. apply NoDup_cons. split; [|auto]. intros (b & E & Hb)%elem_of_list_fmap. apply elem_of_list_filter in Hb as [_ Hb]. apply H1. rewrite E. by apply elem_of_list_fmap_1.
Qed.
Lemma used_names i x : executed_ok i x -> NoDup (m_name <$> used x).
Proof.
  intros H. apply nodup_filter_fmap. apply (eo_names _ _ H).
Qed.
Definition pf (model : list executed) (i : nat) : bool := match model !! i with Some x => x_parallel x | None => false end.
Definition inf (model : list executed) (i : nat) : nat := match model !! i with Some x => x_inputs x | None => 0 end.
(** the template given to the code generators *)
Record exported (model : list executed) (ns : list node) (x : executed) (t : instance_info) : Prop := {
  ex_parallel : ii_parallel t = x_parallel x;
  ex_inputs : ii_inputs t = x_inputs x;
  ex_number : ii_number t = (filter_used (x_components x) (sorted x)).2;
  ex_components : ii_components t = used x;
  ex_triggers : ii_triggers t = trig (pf model) (inf model) <$> placed ns x;
  ex_clusters : Forall2 (fun m cl => final_cluster (placed ns x) (m_name m) cl) (used x) (ii_clusters t);
}.
Lemma exported_grows model ns x t t' : grows t t' -> exported model ns x t -> exported model ns x t'.
Proof. intros [E _] []. unfold static in E. injection E as E1 E2 E3 E4 E5 E6. constructor; congruence. Qed.
Lemma trig_ext p1 i1 p2 i2 (cs : list connexion) : (forall c, c ∈ cs -> p1 (k_to c) = p2 (k_to c) /\ i1 (k_to c) = i2 (k_to c)) -> trig p1 i1 <$> cs = trig p2 i2 <$> cs.
Proof.
  intros H. apply list_fmap_ext. intros i c Hc%elem_of_list_lookup_2. unfold trig. by destruct (H c Hc) as [-> ->].
Qed.
Lemma exports_ok ns model : (forall i x, model !! i = Some x -> executed_ok i x) ->
  exists ts, res_foldl export_to_circuit [] (processed ns <$> model) = Ok ts /\ length ts = length model /\
    (forall i x, model !! i = Some x -> exists t, ts !! i = Some t /\ exported model ns x t /\
       forall c, c ∈ x_connexions x -> exists t', ts !! k_to c = Some t' /\ marked (k_parallel c) t').
Proof.
  induction model as [|x model IH] using rev_ind; intros H.
  - exists []. done.
  - destruct IH as (ts & E & L & HT). { intros i y Hy. apply H. by apply lookup_app_l_Some. }
    rewrite fmap_app, res_foldl_app, E. cbn [res_bind fmap list_fmap]. rewrite res_foldl_cons. unfold export_to_circuit at 1. cbn [x_components x_connexions processed]. fold (used x).
    assert (Hx : executed_ok (length model) x). { apply H. by rewrite list_lookup_middle. }
    destruct (build_clusters_ok (used x) (placed ns x)) as (cls & -> & HC); [apply placed_sorted|by eapply used_names|intros m Hm%elem_used; rewrite placed_names; apply Hm|].
    cbn [res_bind].
    destruct (build_triggers_ok (pf model) (inf model) (placed ns x) ts []) as (ts' & -> & L' & G1 & G2).
    { intros c' Hc'. apply elem_placed in Hc' as (c & Hc & _ & _ & _ & _ & ->). pose proof (eo_targets _ _ Hx c Hc).
      destruct (lookup_lt_is_Some_2 model (k_to c)) as [y Hy]; [lia|]. destruct (HT _ _ Hy) as (t & Ht & [] & _). exists t. unfold pf, inf. rewrite Hy. done. }
    cbn [res_bind]. eexists. split; [reflexivity|]. split; [rewrite !app_length; cbn; lia|].
    assert (PF : forall i, i < length model -> pf (model ++ [x]) i = pf model i /\ inf (model ++ [x]) i = inf model i).
    { intros i Hi. unfold pf, inf. by rewrite lookup_app_l. }
    intros i y Hy. apply lookup_app_Some in Hy as [Hy|[Hi Hy]].
    + destruct (HT i y Hy) as (t & Ht & EX & HM). destruct (G1 i t Ht) as (t' & Ht' & Hg). exists t'. apply lookup_lt_Some in Hy as Hl. split_and!.
      * by apply lookup_app_l_Some.
      * apply (exported_grows _ _ _ _ _ Hg). destruct EX. constructor; try done. rewrite ex_triggers0. apply trig_ext. intros c' Hc'.
        apply elem_placed in Hc' as (c & Hc & _ & _ & _ & _ & ->). assert (k_to c < i). { eapply eo_targets; [|done]. apply H. by apply lookup_app_l_Some. }
        destruct (PF (k_to c)) as [-> ->]; [lia|done].
      * intros c Hc. destruct (HM c Hc) as (t1 & Ht1 & M1). destruct (G1 _ _ Ht1) as (t2 & Ht2 & _ & M2). exists t2. split; [by apply lookup_app_l_Some|auto].
    + assert (i = length model). { apply lookup_lt_Some in Hy. cbn in Hy. lia. } subst i. rewrite Nat.sub_diag in Hy. injection Hy as <-.
      eexists. split_and!.
      * rewrite <- L, <- L'. by rewrite list_lookup_middle.
      * constructor; cbn; try done. apply trig_ext. intros c' Hc'.
        apply elem_placed in Hc' as (c & Hc & _ & _ & _ & _ & ->). destruct (PF (k_to c)) as [-> ->]; [|done]. by apply (eo_targets _ _ Hx).
      * intros c Hc. destruct (placed_elem ns x c Hc) as (c' & Hc' & _ & _ & Ep & _ & Et). destruct (G2 c' Hc') as (t' & Ht' & M). rewrite Et in Ht'. rewrite Ep in M.
        exists t'. split; [|done]. by apply lookup_app_l_Some.
Qed.
Lemma export_all_ok ns model : (forall i x, model !! i = Some x -> executed_ok i x) ->
  exists ts, export_all (processed ns <$> model) = Ok ts /\ length ts = length model /\
    (forall i x, model !! i = Some x -> exists t, ts !! i = Some t /\ exported model ns x t /\
       forall c, c ∈ x_connexions x -> exists t', ts !! k_to c = Some t' /\ marked (k_parallel c) t') /\
    (forall t, ts !! (length ts - 1) = Some t -> marked false t).
Proof.
  intros H. destruct (exports_ok ns model H) as (ts & E & L & HT). unfold export_all. rewrite E. cbn [res_bind].
  eexists. split; [reflexivity|]. rewrite alter_length. set (f := fun t : instance_info => _ : instance_info).
  assert (G : forall t, grows t (f t)). { intros t. split; [done|]. intros []; cbn; done. }
  assert (G' : forall i t, ts !! i = Some t -> exists t', alter f (length ts - 1) ts !! i = Some t' /\ grows t t').
  { intros i t Ht. destruct (decide (i = length ts - 1)) as [->|Hi].
    - rewrite list_lookup_alter, Ht. eexists. split; [done|apply G].
    - rewrite list_lookup_alter_ne by done. eexists. split; [done|apply grows_refl]. }
  split_and!; [done| |].
  - intros i x Hx. destruct (HT i x Hx) as (t & Ht & EX & HM). destruct (G' i t Ht) as (t' & Ht' & Hg). exists t'. split_and!; [done|by eapply exported_grows|].
    intros c Hc. destruct (HM c Hc) as (t1 & Ht1 & M1). destruct (G' _ _ Ht1) as (t2 & Ht2 & _ & M2). exists t2. auto.
  - intros t Ht. rewrite list_lookup_alter in Ht. apply fmap_Some in Ht as (t0 & _ & ->). done.
Qed.

(** ** the description of the arrays in the code generators *)
Definition uniform (l : list bool) : option bool := match l with [] => None | v :: vs => if forallb (Bool.eqb v) vs then Some v else None end.
Lemma uniform_snoc v l w : uniform ((v :: l) ++ [w]) = match uniform (v :: l) with Some u => if bool_decide (u = w) then Some u else None | None => None end.
Proof.
  cbn [app uniform]. rewrite forallb_app. cbn. destruct (forallb (Bool.eqb v) l); cbn; [|done]. destruct v, w; done.
Qed.
Lemma positions_insert_last pos v m : (forall q, q ∈ m.*1 -> lex_leb q pos = true /\ q <> pos) -> positions_insert pos v m = m ++ [(pos, v)].
Proof.
  induction m as [|[q w] m IH]; intros H; [done|]. cbn [positions_insert]. destruct (H q) as [H1 H2]; [left|].
  rewrite bool_decide_false by done. destruct (lex_leb pos q) eqn:E; [by destruct H2; apply lex_antisym|].
  cbn [app]. f_equal. apply IH. intros. apply H. by right.
Qed.
Section Infos.
  Variables (pfun : nat -> bool) (ifun : nat -> nat).
  Definition par (c : connexion) : bool := k_parallel c || pfun (k_to c).
  Definition info_of (l : list connexion) : parallel_info := ParallelInfo ((fun c => (k_indexed c, par c)) <$> l) (uniform (par <$> l)).
  Lemma parallel_ok cs : StronglySorted cnn_le cs -> NoDup (key <$> cs) -> forall n,
    component_to_parallel (trig pfun ifun <$> cs) !! n = match byname n cs with [] => None | l => Some (info_of l) end.
  Proof.
    induction cs as [|c cs IH] using rev_ind; intros HS HN n; [done|].
    unfold component_to_parallel. rewrite fmap_app, foldl_app. cbn [fmap list_fmap foldl].
    fold (component_to_parallel (trig pfun ifun <$> cs)).
    rewrite fmap_app in HN. apply NoDup_app in HN as (HN1 & HN2 & _).
    specialize (IH (StronglySorted_app_inv_l _ _ _ HS) HN1).
    assert (HB : byname n (cs ++ [c]) = byname n cs ++ (if decide (k_name c = n) then [c] else [])).
    { by rewrite byname_app. }
    rewrite HB. unfold add_parallel. cbn [trig r_name r_indexed r_parallel]. rewrite (IH (k_name c)).
    assert (HO : forall q, q ∈ ((fun c => (k_indexed c, par c)) <$> byname (k_name c) cs).*1 -> lex_leb q (k_indexed c) = true /\ q <> k_indexed c).
    { intros q (y & -> & (c' & -> & Hc')%elem_of_list_fmap)%elem_of_list_fmap. apply elem_byname in Hc' as [En Hc']. cbn [fst]. split.
      - assert (cnn_le c' c) as Hle. { eapply elem_of_StronglySorted_app; [exact HS|done|left]. }
        unfold cnn_le, cnn_leb in Hle. by rewrite bool_decide_true in Hle.
      - intros Ei. apply (HN2 (key c')); [by apply elem_of_list_fmap_1|]. unfold key at 1. rewrite En, Ei. left. }
    destruct (decide (k_name c = n)) as [<-|Hne].
    - destruct (byname (k_name c) cs) as [|c0 l] eqn:El; cbn [app].
      + rewrite lookup_insert. done.
      + rewrite lookup_insert. f_equal. unfold info_of. cbn [pi_positions pi_uniform]. rewrite positions_insert_last by done.
        rewrite (fmap_app _ (c0 :: l) [c] : (fun c => (k_indexed c, par c)) <$> (c0 :: l ++ [c]) = _).
        rewrite (fmap_app _ (c0 :: l) [c] : par <$> (c0 :: l ++ [c]) = _). cbn [fmap list_fmap]. by rewrite uniform_snoc.
    - rewrite app_nil_r. rewrite <- (IH n). destruct (byname (k_name c) cs); by rewrite lookup_insert_ne.
  Qed.
End Infos.

Lemma product_cons a l : product (a :: l) = a * product l.
Proof.
  assert (G : forall l a, foldl Nat.mul a l = a * foldl Nat.mul 1 l).
  { induction l0 as [|x l0 IH]; intros b; cbn [foldl]; [lia|]. rewrite IH. rewrite (IH (1 * x)). lia. }
  unfold product. cbn [foldl]. rewrite G. lia.
Qed.
Lemma jump_ok lengths indexes : Forall2 lt indexes lengths -> forall j, jump_from (product lengths) lengths indexes j = Ok (j + row_major lengths indexes).
Proof.
  intros H. induction H as [|i l indexes lengths Hi H IH]; intros j; cbn [jump_from row_major]; [by rewrite Nat.add_0_r|].
  destruct (Nat.eqb_spec l 0); [lia|]. rewrite product_cons. rewrite (Nat.mul_comm l), Nat.div_mul by done. rewrite IH. f_equal. lia.
Qed.
Lemma compute_jump_ok lengths indexes : Forall2 lt indexes lengths -> compute_jump lengths indexes = Ok (row_major lengths indexes).
Proof. intros H. unfold compute_jump. by rewrite jump_ok. Qed.
Lemma row_major_lt lengths indexes : Forall2 lt indexes lengths -> row_major lengths indexes < product lengths.
Proof.
  intros H. induction H as [|i l indexes lengths Hi H IH]; [cbn; lia|]. cbn [row_major]. rewrite product_cons. nia.
Qed.
Lemma row_major_mono lengths : forall a b, Forall2 lt a lengths -> Forall2 lt b lengths -> lex_leb a b = true -> a <> b -> row_major lengths a < row_major lengths b.
Proof.
  induction lengths as [|l lengths IH]; intros a b Ha Hb; destruct a as [|x a']; destruct b as [|y b']; try (by inversion Ha); try (by inversion Hb); apply Forall2_cons in Ha as [Hx Ha']; apply Forall2_cons in Hb as [Hy Hb'].
  cbn [lex_leb row_major]. pose proof (row_major_lt _ _ Ha'). pose proof (row_major_lt _ _ Hb').
  destruct (Nat.ltb_spec x y); [intros; nia|]. destruct (Nat.ltb_spec y x); [done|]. assert (x = y) by lia. subst y.
  intros Hl Hne. specialize (IH a' b' Ha' Hb' Hl). assert (a' <> b') by congruence. specialize (IH H3). lia.
Qed.
Lemma row_major_inj lengths a b : Forall2 lt a lengths -> Forall2 lt b lengths -> row_major lengths a = row_major lengths b -> a = b.
Proof.
  intros Ha Hb E. destruct (decide (a = b)) as [|Hne]; [done|]. destruct (lex_total a b) as [H|H].
  - pose proof (row_major_mono _ _ _ Ha Hb H Hne). lia.
  - pose proof (row_major_mono _ _ _ Hb Ha H (not_eq_sym Hne)). lia.
Qed.
(** increasing positions that fill the array *)
Lemma increasing_low l a : StronglySorted lt l -> Forall (le a) l -> forall k v, l !! k = Some v -> a + k <= v.
Proof.
  intros HS. revert a. induction HS as [|x l HS IH HF]; intros a Ha k v Hk; [done|]. apply Forall_cons in Ha as [Ha1 Ha2].
  destruct k as [|k]; [injection Hk as <-; lia|]. cbn in Hk. enough (S x + k <= v) by lia. apply (IH (S x)); [|done].
  eapply Forall_impl; [exact HF|]. intros; lia.
Qed.
Lemma increasing_high l b : StronglySorted lt l -> Forall (fun x => x < b) l -> forall k v, l !! k = Some v -> v + (length l - k) <= b.
Proof.
  intros HS Hb. induction HS as [|x l HS IH HF]; intros k v Hk; [done|]. apply Forall_cons in Hb as [Hb1 Hb2]. cbn [length].
  destruct k as [|k].
  - injection Hk as <-. destruct l as [|y l]; [cbn; lia|]. specialize (IH Hb2 0 y eq_refl). apply Forall_cons in HF as [HF _]. cbn in *. lia.
  - cbn in Hk. specialize (IH Hb2 k v Hk). lia.
Qed.
Lemma increasing_full l k v : StronglySorted lt l -> Forall (fun x => x < length l) l -> l !! k = Some v -> v = k.
Proof.
  intros HS Hb Hk. pose proof (increasing_low l 0 HS ltac:(by apply Forall_true; intros; lia) k v Hk). pose proof (increasing_high l _ HS Hb k v Hk).
  apply lookup_lt_Some in Hk. lia.
Qed.
Lemma increasing_length l b : StronglySorted lt l -> Forall (fun x => x < b) l -> length l <= b.
Proof.
  intros HS Hb. destruct l as [|x l]; [cbn; lia|]. pose proof (increasing_high _ b HS Hb 0 x eq_refl). cbn in *. lia.
Qed.
(** names of positions *)
Lemma append_nil_r (s : string) : (s +:+ "" = s)%string.
Proof. induction s as [|c s IH]; [done|]. change (String c (s +:+ "") = String c s)%string. by rewrite IH. Qed.
Lemma bracketed_acc l acc : foldl (fun acc n => (acc +:+ "[" +:+ pretty n +:+ "]")%string) acc l = (acc +:+ bracketed l)%string.
Proof.
  revert acc. induction l as [|n l IH]; intros acc; cbn [foldl]; [by rewrite append_nil_r|].
  unfold bracketed. cbn [foldl]. rewrite IH. rewrite IH. by rewrite !append_assoc.
Qed.
Lemma bracketed_app l l' : bracketed (l ++ l') = (bracketed l +:+ bracketed l')%string.
Proof. unfold bracketed at 1. rewrite foldl_app. apply bracketed_acc. Qed.
Lemma product_app l l' : product (l ++ l') = product l * product l'.
Proof. induction l as [|a l IH]; cbn [app]; [unfold product at 2; cbn; lia|]. rewrite !product_cons, IH. lia. Qed.
Lemma row_major_app lengths indexes l' i' : Forall2 lt indexes lengths -> row_major (lengths ++ l') (indexes ++ i') = row_major lengths indexes * product l' + row_major l' i'.
Proof.
  intros H. induction H as [|i l indexes lengths Hi H IH]; cbn [app row_major]; [lia|]. rewrite IH, product_app. lia.
Qed.
Lemma position_array_ok lengths : forall indexes acc, Forall2 lt indexes lengths ->
  position_array (reverse lengths) (row_major lengths indexes) acc = (bracketed indexes +:+ acc)%string.
Proof.
  induction lengths as [|l lengths IH] using rev_ind; intros indexes acc H.
  - apply Forall2_nil_inv_r in H as ->. done.
  - apply Forall2_app_inv_r in H as (i1 & i2 & H1 & H2 & ->). inversion H2 as [|i ? i2' ? Hi H2']; subst. apply Forall2_nil_inv_r in H2' as ->.
    rewrite reverse_app. cbn [reverse rev_append app position_array]. rewrite row_major_app by done. cbn [row_major].
    change (reverse [l] ++ reverse lengths) with (l :: reverse lengths). cbn [position_array].
    unfold product. cbn [foldl]. replace (row_major lengths i1 * (1 * l) + (i * 1 + 0)) with (i + row_major lengths i1 * l) by lia.
    rewrite Nat.div_add by lia. rewrite Nat.div_small by done. rewrite Nat.mod_add by lia. rewrite Nat.mod_small by done. cbn [Nat.add].
    rewrite IH by done. rewrite bracketed_app. rewrite !append_assoc. replace (bracketed [i]) with ("[" +:+ pretty i +:+ "]")%string by done. by rewrite !append_assoc.
Qed.

(** ** the buckets of a template *)
Definition total (comps : list component_data) : nat := sum_list ((fun m => product (m_length m)) <$> comps).
Lemma filter_used_total comps cs : (filter_used comps cs).2 = total (filter_used comps cs).1.
Proof.
  unfold filter_used, total. cbn [fst snd]. generalize (filter (fun c => m_name c ∈ k_name <$> cs) comps). intros l.
  enough (G : forall a, foldl (fun n c => n + product (m_length c)) a l = a + sum_list ((fun m => product (m_length m)) <$> l)) by apply (G 0).
  induction l as [|m l IH]; intros a; cbn; [lia|]. rewrite IH. lia.
Qed.
Lemma total_cons m comps : total (m :: comps) = product (m_length m) + total comps. Proof. done. Qed.
Lemma env_ok comps j m : NoDup (m_name <$> comps) -> comps !! j = Some m -> initialize_components comps !! m_name m = Some (total (take j comps), m_length m).
Proof.
  unfold initialize_components. 
  enough (G : forall a e, NoDup (m_name <$> comps) ->
    (foldl initialize_component (a, e) comps).1 = a + total comps /\
    (forall n, n ∉ m_name <$> comps -> (foldl initialize_component (a, e) comps).2 !! n = e !! n) /\
    (forall j m, comps !! j = Some m -> (foldl initialize_component (a, e) comps).2 !! m_name m = Some (a + total (take j comps), m_length m))).
  { intros HN Hj. destruct (G 0 ∅ HN) as (_ & _ & H). by rewrite (H j m Hj). }
  induction comps as [|c comps IH]; intros a e HN; cbn [foldl].
  - split_and!; [cbn; lia|done|done].
  - cbn [fmap list_fmap] in HN. apply NoDup_cons in HN as [HN1 HN2]. unfold initialize_component at 2 4 6. cbn [fst snd].
    destruct (IH (a + product (m_length c)) (<[m_name c := (a, m_length c)]> e) HN2) as (H1 & H2 & H3). split_and!.
    + rewrite H1, total_cons. lia.
    + intros n Hn. rewrite H2 by (intros ?; apply Hn; by right). rewrite lookup_insert_ne; [done|]. intros <-. apply Hn. left.
    + intros [|j'] m' Hj'; cbn in Hj'.
      * injection Hj' as <-. rewrite H2 by done. rewrite lookup_insert. cbn. by rewrite Nat.add_0_r.
      * rewrite (H3 _ _ Hj'). cbn [take]. rewrite total_cons. by rewrite Nat.add_assoc.
Qed.
Lemma cpp_loop_lookup b : forall rounds cs aux k, cpp_loop b cs aux rounds !! k = (fun r => cpp_body b (cs + k * b_jump b) (aux + k * b_component_jump b) r.1 r.2) <$> rounds !! k.
Proof.
  induction rounds as [|[i ia] rounds IH]; intros cs aux k; [done|]. cbn [cpp_loop]. destruct k as [|k]; cbn [lookup list_lookup]; [cbn; by rewrite !Nat.add_0_r|].
  rewrite IH. destruct (rounds !! k) as [[i' ia']|]; cbn; [|done]. f_equal. f_equal; lia.
Qed.
Lemma wasm_loop_lookup b fs : forall n sub off k, wasm_loop b fs sub off n !! k = if k <? n then Some (WCreated (sub + 4 * k) (b_template b) (off + k * (b_jump b * fs)) (negb (b_has_inputs b))) else None.
Proof.
  induction n as [|n IH]; intros sub off k; [done|]. cbn [wasm_loop]. destruct k as [|k].
  - cbn. f_equal. f_equal; lia.
  - cbn [lookup list_lookup]. destruct n as [|n]; [done|]. rewrite IH. change (S k <? S (S n)) with (k <? S n).
    destruct (k <? S n); [|done]. f_equal. f_equal; lia.
Qed.
Lemma wasm_sparse_lookup b fs : forall rest sub off prev, StronglySorted lt (prev :: rest) -> forall k,
  wasm_sparse b fs sub off prev rest !! k = (fun p => WCreated (sub + 4 * (p - prev)) (b_template b) (off + S k * (b_jump b * fs)) false) <$> rest !! k.
Proof.
  induction rest as [|p rest IH]; intros sub off prev HS k; [done|]. cbn [wasm_sparse]. inversion HS as [|? ? HS1 HF]; subst. apply Forall_cons in HF as [HF1 HF2].
  destruct k as [|k]; [cbn; f_equal; f_equal; lia|]. cbn [lookup list_lookup]. rewrite IH by done. destruct (rest !! k) as [q|] eqn:Eq; [|done]. cbn [fmap option_fmap option_map]. f_equal.
  assert (p < q). { inversion HS1 as [|? ? ? HF1']; subst. rewrite Forall_forall in HF1'. apply HF1'. by eapply elem_of_list_lookup_2. }
  f_equal; lia.
Qed.
Lemma res_map_ok {A B} (f : A -> res B) (g : A -> B) l : (forall a, a ∈ l -> f a = Ok (g a)) -> res_map f l = Ok (g <$> l).
Proof. induction l as [|a l IH]; intros H; [done|]. cbn [res_map]. rewrite H by left. cbn [res_bind]. rewrite IH by (intros; apply H; by right). done. Qed.

Section Template.
  Variables (pfun : nat -> bool) (ifun : nat -> nat) (cs : list connexion) (comps : list component_data).
  Hypothesis HS : StronglySorted cnn_le cs.
  Hypothesis HN : NoDup (key <$> cs).
  Hypothesis HC : NoDup (m_name <$> comps).
  Hypothesis HR : forall c, c ∈ cs -> exists m, m ∈ comps /\ m_name m = k_name c /\ Forall2 lt (k_indexed c) (m_length m).
  Hypothesis HU : forall m, m ∈ comps -> m_name m ∈ k_name <$> cs.
  Hypothesis Hstep : forall j c c', cs !! j = Some c -> cs !! S j = Some c' -> k_offset c' = k_offset c + k_jump c /\ k_component_offset c' = k_component_offset c + k_component_jump c.
  Hypothesis Hjump : forall c c', c ∈ cs -> c' ∈ cs -> k_to c = k_to c' -> k_jump c = k_jump c' /\ k_component_jump c = k_component_jump c'.

  Definition creation (base : nat) (dims : list nat) (l : list connexion) (start ctx : nat) (c : connexion) : created :=
    Created (base + row_major dims (k_indexed c)) (k_to c) (par pfun c) (start + k_offset c) (ctx + S (k_component_offset c))
      (if product dims =? 1 then k_name c else (k_name c +:+ bracketed (k_indexed c))%string)
      (match uniform (par pfun <$> l) with None => Some (par pfun c) | Some _ => None end).
  Definition wcreation (base : nat) (dims : list nat) (l : list connexion) (fs off sig : nat) (c : connexion) : wcreated :=
    WCreated (off + 12 + 4 * (base + row_major dims (k_indexed c))) (k_to c) (k_offset c * fs + sig)
      (negb (0 <? ifun (k_to c)) && (mixed_targets l || (length l =? product dims))).

  Lemma names_in m c : m ∈ comps -> c ∈ byname (m_name m) cs -> Forall2 lt (k_indexed c) (m_length m).
  Proof.
    intros Hm [En Hc]%elem_byname. destruct (HR c Hc) as (m' & Hm' & En' & F).
    apply elem_of_list_lookup in Hm as [i Hi]. apply elem_of_list_lookup in Hm' as [i' Hi'].
    assert (i = i'). { eapply (NoDup_lookup (m_name <$> comps)); [done|rewrite list_lookup_fmap, Hi; reflexivity|rewrite list_lookup_fmap, Hi'; cbn; congruence]. }
    subst i'. congruence.
  Qed.
  Lemma byname_increasing m : m ∈ comps -> StronglySorted lt (row_major (m_length m) ∘ k_indexed <$> byname (m_name m) cs).
  Proof.
    intros Hm. assert (G : forall c, c ∈ byname (m_name m) cs -> Forall2 lt (k_indexed c) (m_length m)) by (intros; by apply names_in). clear Hm HR HU Hstep Hjump.
    revert HN G. induction HS as [|c l HS' IH HF]; intros HN G; [constructor|]. cbn [fmap list_fmap] in HN. apply NoDup_cons in HN as [HN1 HN2].
    unfold byname in *. rewrite filter_cons. destruct (decide (k_name c = m_name m)) as [En|En].
    - rewrite filter_cons in G. rewrite decide_True in G by done. cbn [fmap list_fmap]. constructor; [apply IH; try done; intros; apply G; by right|].
      apply Forall_forall. intros v (c' & -> & Hc')%elem_of_list_fmap. apply elem_of_list_filter in Hc' as Hc''. destruct Hc'' as [En' Hc''].
      cbn. apply row_major_mono; [apply G; left|apply G; by right| |].
      + rewrite Forall_forall in HF. specialize (HF c' Hc''). unfold cnn_le, cnn_leb in HF. rewrite bool_decide_true in HF by congruence. done.
      + intros Ei. apply HN1. apply elem_of_list_fmap. exists c'. split; [|done]. unfold key. congruence.
    - rewrite filter_cons in G. rewrite decide_False in G by done. by apply IH.
  Qed.
  Lemma slice_lookup m s k : take (length (byname (m_name m) cs)) (drop s cs) = byname (m_name m) cs -> k < length (byname (m_name m) cs) -> byname (m_name m) cs !! k = cs !! (s + k).
  Proof. intros E Hk. rewrite <- E at 1. rewrite lookup_take by done. by rewrite lookup_drop. Qed.
  Lemma slice_offsets m s c0 l : byname (m_name m) cs = c0 :: l -> cs !! s = Some c0 -> take (length (byname (m_name m) cs)) (drop s cs) = byname (m_name m) cs ->
    mixed_targets (byname (m_name m) cs) = false -> forall k c, byname (m_name m) cs !! k = Some c ->
    k_to c = k_to c0 /\ k_offset c = k_offset c0 + k * k_jump c0 /\ k_component_offset c = k_component_offset c0 + k * k_component_jump c0.
  Proof.
    intros El Hs E HM.
    assert (HT : forall c, c ∈ byname (m_name m) cs -> k_to c = k_to c0).
    { intros c Hc. rewrite El in Hc, HM. apply elem_of_cons in Hc as [->|Hc]; [done|]. cbn in HM. destruct (decide (k_to c = k_to c0)); [done|]. exfalso.
      assert (existsb (fun c' => negb (k_to c' =? k_to c0)) l = true); [|congruence]. apply existsb_exists. exists c. split; [by apply elem_of_list_In|].
      by apply negb_true_iff, Nat.eqb_neq. }
    induction k as [|k IH]; intros c Hc.
    - rewrite El in Hc. injection Hc as <-. split_and!; [done|lia..].
    - apply lookup_lt_Some in Hc as Hl. destruct (lookup_lt_is_Some_2 (byname (m_name m) cs) k) as [c1 Hc1]; [lia|].
      destruct (IH c1 Hc1) as (I1 & I2 & I3). pose proof (slice_lookup m s k E ltac:(lia)) as L1. pose proof (slice_lookup m s (S k) E Hl) as L2.
      rewrite Hc1 in L1. rewrite Hc in L2. rewrite Nat.add_succ_r in L2. destruct (Hstep (s + k) c1 c) as [S1 S2]; [done..|].
      destruct (Hjump c1 c0) as [J1 J2]; [by eapply elem_of_list_lookup_2|by eapply elem_of_list_lookup_2|done|].
      split_and!; [apply HT; by eapply elem_of_list_lookup_2|rewrite S1, I2, J1; lia|rewrite S2, I3, J2; lia].
  Qed.

  Lemma uniform_some l v b : uniform l = Some v -> b ∈ l -> b = v.
  Proof.
    destruct l as [|w l]; [done|]. cbn. destruct (forallb (Bool.eqb w) l) eqn:E; [|done]. intros [= ->] [->|Hb]%elem_of_cons; [done|].
    rewrite forallb_forall in E. apply elem_of_list_In in Hb. apply E in Hb. by destruct v, b.
  Qed.
  Lemma assoc_ok l c : c ∈ l -> (forall c', c' ∈ l -> k_indexed c' = k_indexed c -> c' = c) ->
    assoc_pos (k_indexed c) ((fun c => (k_indexed c, par pfun c)) <$> l) = Ok (par pfun c).
  Proof.
    induction l as [|c1 l IH]; intros Hc Hu; [by apply elem_of_nil in Hc|]. cbn [fmap list_fmap assoc_pos]. case_bool_decide as E.
    - rewrite (Hu c1); [done|left|done].
    - apply elem_of_cons in Hc as [->|Hc]; [done|]. apply IH; [done|]. intros. apply Hu; [by right|done].
  Qed.
  Lemma byname_unique n c c' : c ∈ byname n cs -> c' ∈ byname n cs -> k_indexed c' = k_indexed c -> c' = c.
  Proof.
    intros [E1 H1]%elem_byname [E2 H2]%elem_byname Ei. apply elem_of_list_lookup in H1 as [i Hi]. apply elem_of_list_lookup in H2 as [i' Hi'].
    assert (i = i'). { eapply (NoDup_lookup (key <$> cs)); [done|rewrite list_lookup_fmap, Hi; reflexivity|rewrite list_lookup_fmap, Hi'; unfold key; cbn; congruence]. }
    subst i'. congruence.
  Qed.
  Lemma res_map_Forall2 {A B} (f : A -> res B) la lb : Forall2 (fun a b => f a = Ok b) la lb -> res_map f la = Ok lb.
  Proof. induction 1 as [|a b la lb H _ IH]; [done|]. cbn [res_map]. rewrite H. cbn [res_bind]. by rewrite IH. Qed.
  Lemma concat_single {A B} (f : A -> list B) (g : A -> B) l : (forall a, a ∈ l -> f a = [g a]) -> concat (f <$> l) = g <$> l.
  Proof. induction l as [|a l IH]; intros H; [done|]. cbn. rewrite H by left. cbn. f_equal. apply IH. intros. apply H. by right. Qed.

  Definition env := initialize_components comps.
  Definition infos := component_to_parallel (trig pfun ifun <$> cs).
  Definition mixed_bucket (base : nat) (dims : list nat) (l : list connexion) (c : connexion) : bucket :=
    Bucket (k_to c) (base + row_major dims (k_indexed c)) (k_name c +:+ bracketed (k_indexed c))%string [(0, par pfun c)]
      (match uniform (par pfun <$> l) with None => true | Some _ => false end) (Some (par pfun c)) dims (k_offset c) 0 (k_component_offset c) 0 1 (0 <? ifun (k_to c)).
  Definition uniform_bucket (base : nat) (dims : list nat) (l : list connexion) (c : connexion) : bucket :=
    Bucket (k_to c) base (k_name c) ((fun c => (row_major dims (k_indexed c), par pfun c)) <$> l) false (uniform (par pfun <$> l)) dims
      (k_offset c) (k_jump c) (k_component_offset c) (k_component_jump c) (product dims) (0 <? ifun (k_to c)).
  Lemma created_eq a b c d e f g a' d' e' f' g' : a = a' -> d = d' -> e = e' -> f = f' -> g = g' -> Created a b c d e f g = Created a' b c d' e' f' g'.
  Proof. by intros -> -> -> -> ->. Qed.

  Lemma cluster_ok m j cl : comps !! j = Some m -> final_cluster cs (m_name m) cl ->
    let l := byname (m_name m) cs in let base := total (take j comps) in let dims := m_length m in
    exists bs, match cl_type cl with
               | Mixed => create_mixed env infos (trig pfun ifun <$> cs) cl
               | Uniform oj cj => create_uniform env infos (trig pfun ifun <$> cs) cl oj cj
               end = Ok bs /\
      (forall start ctx, cpp_children start ctx bs = creation base dims l start ctx <$> l) /\
      (forall fs off sig, wasm_children fs off sig bs = wcreation base dims l fs off sig <$> l).
  Proof.
    intros Hj (cl0 & (s & c0 & l' & El & Hs & Et & ->) & ->). intros l base dims.
    assert (Hm : m ∈ comps) by (by eapply elem_of_list_lookup_2).
    assert (HE : env !! m_name m = Some (base, dims)) by (by apply env_ok).
    assert (HI : infos !! m_name m = Some (info_of pfun l)).
    { unfold infos. rewrite (parallel_ok pfun ifun cs HS HN). unfold l. by rewrite El. }
    assert (Hin : forall c, c ∈ l -> k_name c = m_name m /\ Forall2 lt (k_indexed c) dims).
    { intros c Hc. split; [by apply elem_byname in Hc as [-> _]|by apply names_in]. }
    assert (Hinc : StronglySorted lt (row_major dims ∘ k_indexed <$> l)) by (by apply byname_increasing).
    assert (Hlt : Forall (fun v => v < product dims) (row_major dims ∘ k_indexed <$> l)).
    { apply Forall_forall. intros v (c & -> & Hc)%elem_of_list_fmap. apply row_major_lt. by apply Hin. }
    pose proof (increasing_length _ _ Hinc Hlt) as Hlen. rewrite fmap_length in Hlen.
    assert (Hl0 : 0 < length l) by (unfold l; rewrite El; cbn; lia).
    assert (Hk : forall k c, l !! k = Some c -> (trig pfun ifun <$> cs) !! (s + k) = Some (trig pfun ifun c)).
    { intros k c Hc. rewrite list_lookup_fmap. rewrite <- (slice_lookup m s k Et) by (by eapply lookup_lt_Some). fold l. by rewrite Hc. }
    destruct (mixed_targets (byname (m_name m) cs)) eqn:EM; cbn [cl_type cl_start cl_end cl_name]; fold l in EM.
    - (* mixed *)
      exists (mixed_bucket base dims l <$> l). split.
      + unfold create_mixed. cbn [cl_start cl_end]. replace (s + length (byname (m_name m) cs) - s) with (length l) by (unfold l; lia).
        apply res_map_Forall2. apply Forall2_same_length_lookup. split; [by rewrite seq_length, fmap_length|].
        intros i a b Ha Hb. apply lookup_seq in Ha as [-> Hi]. rewrite list_lookup_fmap in Hb. apply fmap_Some in Hb as (c & Hc & ->).
        unfold create_mixed_one. rewrite (index_ok _ _ _ (Hk i c Hc)). cbn [res_bind].
        assert (c ∈ l) as Hcl by (by eapply elem_of_list_lookup_2). destruct (Hin c Hcl) as [Hn Hr].
        unfold trig at 1. cbn [r_name]. unfold lookup_res. rewrite Hn, HE. cbn [res_bind]. unfold trig at 1. cbn [r_indexed].
        rewrite compute_jump_ok by done. cbn [res_bind]. unfold trig; cbn [r_name r_indexed r_template r_offset r_component_offset r_has_inputs]. rewrite Hn, HI. cbn [res_bind].
        assert (EP : match pi_uniform (info_of pfun l) with Some v => Ok v | None => assoc_pos (k_indexed c) (pi_positions (info_of pfun l)) end = Ok (par pfun c)).
        { unfold info_of. cbn [pi_uniform pi_positions]. destruct (uniform (par pfun <$> l)) as [v|] eqn:EU.
          - f_equal. symmetry. eapply uniform_some; [exact EU|]. by apply elem_of_list_fmap_1.
          - apply assoc_ok; [done|]. intros c' Hc'. by eapply byname_unique. }
        rewrite EP. cbn [res_bind]. unfold mixed_bucket. rewrite Hn. done.
      + assert (Hp1 : product dims =? 1 = false).
        { apply Nat.eqb_neq. enough (2 <= length l) by lia. unfold l in *. rewrite El in *. destruct l'; [done|]. cbn. lia. }
        split.
        * intros start ctx. unfold cpp_children. rewrite <- list_fmap_compose. apply concat_single. intros c Hc. cbn [compose]. unfold cpp_bucket, mixed_bucket, creation, cpp_body.
          cbn [b_number b_positions b_offset b_component_offset b_sub_cmp b_template b_uniform b_name b_mixed_parallel Nat.eqb]. change (1 <? 1) with false. cbv iota. rewrite Hp1. f_equal. apply created_eq; [lia|lia|lia|done|by destruct (uniform _)].
        * intros fs off sig. unfold wasm_children. rewrite <- list_fmap_compose. apply concat_single. intros c Hc. cbn [compose]. unfold wasm_bucket, mixed_bucket, wcreation. cbn [b_number b_positions b_offset b_sub_cmp b_template b_has_inputs Nat.eqb].
          rewrite EM. rewrite orb_true_l, andb_true_r. f_equal. f_equal. lia.
    - (* uniform *)
      destruct (Hin c0) as [Hn0 Hr0]; [unfold l; rewrite El; left|].
      pose proof (slice_offsets m s c0 l' El Hs Et EM) as Hoff. fold l in Hoff.
      exists [uniform_bucket base dims l c0]. split.
      + unfold create_uniform. cbn [cl_start]. assert (Hs0 : (trig pfun ifun <$> cs) !! s = Some (trig pfun ifun c0)) by (by rewrite list_lookup_fmap, Hs).
        rewrite (index_ok _ _ _ Hs0). cbn [res_bind]. cbn [trig r_name r_offset r_component_offset r_has_inputs r_template]. unfold lookup_res. rewrite Hn0, HE. cbn [res_bind]. rewrite HI. cbn [res_bind].
        unfold info_of at 1. cbn [pi_positions]. rewrite (res_map_Forall2 _ _ ((fun c => (row_major dims (k_indexed c), par pfun c)) <$> l)).
        2: { apply Forall2_fmap. apply Forall_Forall2_diag. apply Forall_forall. intros c Hc. cbn. rewrite compute_jump_ok by (by apply Hin). done. }
        cbn [res_bind]. unfold uniform_bucket. rewrite Hn0. done.
      + assert (Hrow : forall k c, l !! k = Some c -> length l = product dims -> row_major dims (k_indexed c) = k).
        { intros k c Hc E. apply (increasing_full _ k _ Hinc). - rewrite fmap_length, E. done. - by rewrite list_lookup_fmap, Hc. }
        assert (Hname : forall c, c ∈ l -> k_name c = k_name c0) by (intros c Hc; rewrite Hn0; by apply Hin).
        assert (Hstat : forall k c, l !! k = Some c -> match uniform (par pfun <$> l) with Some v => v | None => default false (((fun c => (row_major dims (k_indexed c), par pfun c)) <$> l).*2 !! k) end = par pfun c).
        { intros k c Hc. destruct (uniform (par pfun <$> l)) as [v|] eqn:EU.
          - symmetry. eapply uniform_some; [exact EU|]. apply elem_of_list_fmap_1. by eapply elem_of_list_lookup_2.
          - rewrite !list_lookup_fmap, Hc. done. }
        split.
        * intros start ctx. unfold cpp_children. cbn [fmap list_fmap concat]. rewrite app_nil_r.
          unfold cpp_bucket. change (b_number (uniform_bucket base dims l c0)) with (product dims). change (b_positions (uniform_bucket base dims l c0)) with ((fun c => (row_major dims (k_indexed c), par pfun c)) <$> l).
          destruct (Nat.eqb_spec (product dims) 1) as [E1|E1].
          -- assert (l = [c0]) as E0. { unfold l in *. rewrite El in *. cbn in Hlen. destruct l'; [done|]. cbn in Hlen. lia. }
             assert (EE : creation base dims l start ctx <$> l = [creation base dims l start ctx c0]) by (generalize (creation base dims l start ctx); intros f; by rewrite E0).
             rewrite EE. f_equal. unfold cpp_body, creation. cbn [uniform_bucket b_sub_cmp b_template b_uniform b_positions b_offset b_component_offset b_number b_name b_mixed_parallel].
             rewrite E1. cbn [Nat.eqb]. change (1 <? 1) with false. cbv iota. rewrite (Hstat 0 c0) by (by rewrite E0).
             assert (row_major dims (k_indexed c0) = 0) as ->. { pose proof (row_major_lt _ _ Hr0). lia. }
             apply created_eq; [lia|lia|lia|done|]. rewrite E0. done.
          -- apply list_eq. intros k. rewrite cpp_loop_lookup. rewrite list_lookup_fmap.
             assert (HRo : (if length ((fun c => (row_major dims (k_indexed c), par pfun c)) <$> l) =? product dims then (fun i => (i, i)) <$> seq 0 (product dims)
                else imap (fun i_aux p => (p.1, i_aux)) ((fun c => (row_major dims (k_indexed c), par pfun c)) <$> l)) !! k = (fun c => (row_major dims (k_indexed c), k)) <$> l !! k).
             { rewrite fmap_length. destruct (Nat.eqb_spec (length l) (product dims)) as [E|E].
               - rewrite list_lookup_fmap. destruct (l !! k) as [c|] eqn:Hc.
                 + rewrite lookup_seq_lt by (apply lookup_lt_Some in Hc; lia). cbn. by rewrite (Hrow k c Hc E).
                 + apply lookup_ge_None in Hc. rewrite lookup_seq_ge by lia. done.
               - rewrite list_lookup_imap, list_lookup_fmap. by destruct (l !! k). }
             rewrite HRo. destruct (l !! k) as [c|] eqn:Hc; [|done]. cbn [fmap option_fmap option_map fst snd]. f_equal. unfold cpp_body, creation.
             cbn [uniform_bucket b_sub_cmp b_template b_uniform b_positions b_offset b_component_offset b_number b_name b_mixed_parallel b_jump b_component_jump b_dimensions].
             destruct (Hoff k c Hc) as (O1 & O2 & O3). rewrite (Hstat k c Hc). rewrite O1, O2, O3.
             assert (c ∈ l) as Hcl by (by eapply elem_of_list_lookup_2). rewrite <- (Hname c Hcl).
             destruct (Nat.eqb_spec (product dims) 1); [lia|]. destruct (Nat.ltb_spec 1 (product dims)); [|lia].
             rewrite position_array_ok by (by apply Hin). rewrite append_nil_r. apply created_eq; [lia|lia|lia|done|].
             destruct (uniform (par pfun <$> l)) eqn:EU; [done|]. rewrite !list_lookup_fmap, Hc. done.
        * intros fs off sig. unfold wasm_children. cbn [fmap list_fmap concat]. rewrite app_nil_r.
          unfold wasm_bucket. change (b_number (uniform_bucket base dims l c0)) with (product dims).
          change (b_positions (uniform_bucket base dims l c0)) with ((fun c => (row_major dims (k_indexed c), par pfun c)) <$> l).
          destruct (Nat.eqb_spec (product dims) 1) as [E1|E1].
          -- assert (l = [c0]) as E0. { unfold l in *. rewrite El in *. cbn in Hlen. destruct l'; [done|]. cbn in Hlen. lia. }
             assert (EE : wcreation base dims l fs off sig <$> l = [wcreation base dims l fs off sig c0]) by (generalize (wcreation base dims l fs off sig); intros f; by rewrite E0).
             rewrite EE. f_equal. unfold wcreation. cbn [uniform_bucket b_sub_cmp b_template b_offset b_has_inputs].
             rewrite E0, E1. cbn. rewrite andb_true_r. assert (row_major dims (k_indexed c0) = 0) as ->. { pose proof (row_major_lt _ _ Hr0). lia. }
             f_equal. lia.
          -- rewrite fmap_length. rewrite (Nat.eqb_sym (product dims)). destruct (Nat.eqb_spec (length l) (product dims)) as [E|E].
             ++ apply list_eq. intros k. rewrite wasm_loop_lookup, list_lookup_fmap. destruct (l !! k) as [c|] eqn:Hc.
                ** apply lookup_lt_Some in Hc as Hkl. destruct (Nat.ltb_spec k (product dims)); [|lia]. cbn [fmap option_fmap option_map]. f_equal.
                   destruct (Hoff k c Hc) as (O1 & O2 & O3). unfold wcreation. cbn [uniform_bucket b_sub_cmp b_template b_offset b_has_inputs b_jump]. rewrite O1, O2, (Hrow k c Hc E), E, EM, Nat.eqb_refl, orb_true_r, andb_true_r. f_equal; lia.
                ** apply lookup_ge_None in Hc. destruct (Nat.ltb_spec k (product dims)); [lia|done].
             ++ rewrite <- list_fmap_compose. change ((fst ∘ (fun c => (row_major dims (k_indexed c), par pfun c))) <$> l) with (row_major dims ∘ k_indexed <$> l).
                assert (E0 : l = c0 :: l') by done.
                assert (HW : forall c, wcreation base dims l fs off sig c = WCreated (off + 12 + 4 * (base + row_major dims (k_indexed c))) (k_to c) (k_offset c * fs + sig) false).
                { intros c. unfold wcreation. rewrite EM. apply Nat.eqb_neq in E. rewrite E. cbn. by rewrite andb_false_r. }
                assert (EE : wcreation base dims l fs off sig <$> l = wcreation base dims l fs off sig c0 :: (wcreation base dims l fs off sig <$> l')) by (generalize (wcreation base dims l fs off sig); intros f; by rewrite E0).
                assert (EE2 : row_major dims ∘ k_indexed <$> l = row_major dims (k_indexed c0) :: (row_major dims ∘ k_indexed <$> l')) by (by rewrite E0).
                rewrite EE, EE2. rewrite EE2 in Hinc. f_equal.
                { rewrite HW. cbn [uniform_bucket b_sub_cmp b_template b_offset]. f_equal; cbn; lia. }
                apply list_eq. intros k. rewrite wasm_sparse_lookup by exact Hinc. rewrite !list_lookup_fmap. destruct (l' !! k) as [c|] eqn:Hc; [|done].
                cbn [fmap option_fmap option_map]. f_equal. rewrite HW.
                destruct (Hoff (S k) c) as (O1 & O2 & O3); [by rewrite E0|]. cbn [uniform_bucket b_sub_cmp b_template b_offset b_jump compose]. rewrite O1, O2.
                assert (row_major dims (k_indexed c0) < row_major dims (k_indexed c)).
                { inversion Hinc as [|? ? ? HF]; subst. rewrite Forall_forall in HF. apply HF. apply elem_of_list_fmap. exists c. split; [done|by eapply elem_of_list_lookup_2]. }
                f_equal; lia.
  Qed.

  Definition creation_of (start ctx : nat) (c : connexion) : created :=
    let '(base, dims) := default (0, []) (env !! k_name c) in creation base dims (byname (k_name c) cs) start ctx c.
  Definition wcreation_of (fs off sig : nat) (c : connexion) : wcreated :=
    let '(base, dims) := default (0, []) (env !! k_name c) in wcreation base dims (byname (k_name c) cs) fs off sig c.
  Lemma creation_of_ok j m start ctx : comps !! j = Some m ->
    creation (total (take j comps)) (m_length m) (byname (m_name m) cs) start ctx <$> byname (m_name m) cs = creation_of start ctx <$> byname (m_name m) cs.
  Proof.
    intros Hj. apply list_fmap_ext. intros i c Hc. apply elem_of_list_lookup_2, elem_byname in Hc as [En _]. unfold creation_of. rewrite En.
    unfold env. by rewrite (env_ok comps j m HC Hj).
  Qed.
  Lemma wcreation_of_ok j m fs off sig : comps !! j = Some m ->
    wcreation (total (take j comps)) (m_length m) (byname (m_name m) cs) fs off sig <$> byname (m_name m) cs = wcreation_of fs off sig <$> byname (m_name m) cs.
  Proof.
    intros Hj. apply list_fmap_ext. intros i c Hc. apply elem_of_list_lookup_2, elem_byname in Hc as [En _]. unfold wcreation_of. rewrite En.
    unfold env. by rewrite (env_ok comps j m HC Hj).
  Qed.
  Definition order : list connexion := concat ((fun m => byname (m_name m) cs) <$> comps).
  Lemma nodup_cs : NoDup cs.
  Proof. eapply NoDup_fmap_1. exact HN. Qed.
  Lemma order_ok : order ≡ₚ cs.
  Proof.
    apply NoDup_Permutation; [|apply nodup_cs|].
    - unfold order. clear HR HU. induction comps as [|m l IH]; [constructor|]. cbn in HC. apply NoDup_cons in HC as [HC1 HC2]. cbn [fmap list_fmap concat].
      apply NoDup_app. split; [apply NoDup_filter, nodup_cs|]. split; [|by apply IH]. intros c [En Hc]%elem_byname Hc2.
      apply elem_of_list_In, in_concat in Hc2 as (l' & Hl & Hc2). apply elem_of_list_In, elem_of_list_fmap in Hl as (m' & -> & Hm'). apply elem_of_list_In, elem_byname in Hc2 as [En' _].
      apply HC1. rewrite <- En, En'. by apply elem_of_list_fmap_1.
    - intros c. unfold order. rewrite elem_of_list_In, in_concat. split.
      + intros (l' & Hl & Hc2). apply elem_of_list_In, elem_of_list_fmap in Hl as (m' & -> & Hm'). by apply elem_of_list_In, elem_byname in Hc2 as [_ ?].
      + intros Hc. destruct (HR c Hc) as (m & Hm & En & _). exists (byname (m_name m) cs). split; apply elem_of_list_In.
        * apply elem_of_list_fmap. eauto.
        * by apply elem_byname.
  Qed.
  Lemma template_ok cls : Forall2 (fun m cl => final_cluster cs (m_name m) cl) comps cls ->
    exists bs, create_components env infos (trig pfun ifun <$> cs) cls = Ok bs /\
      (forall start ctx, cpp_children start ctx bs = creation_of start ctx <$> order) /\
      (forall fs off sig, wasm_children fs off sig bs = wcreation_of fs off sig <$> order).
  Proof.
    intros HF. unfold create_components, order.
    enough (G : forall k l, drop k comps = l -> forall cls, Forall2 (fun m cl => final_cluster cs (m_name m) cl) l cls -> exists bss,
      res_map (fun cl => match cl_type cl with Mixed => create_mixed env infos (trig pfun ifun <$> cs) cl | Uniform oj cj => create_uniform env infos (trig pfun ifun <$> cs) cl oj cj end) cls = Ok bss /\
      (forall start ctx, cpp_children start ctx (concat bss) = creation_of start ctx <$> concat ((fun m => byname (m_name m) cs) <$> l)) /\
      (forall fs off sig, wasm_children fs off sig (concat bss) = wcreation_of fs off sig <$> concat ((fun m => byname (m_name m) cs) <$> l))).
    { destruct (G 0 comps eq_refl cls HF) as (bss & E & A & B). exists (concat bss). rewrite E. done. }
    clear cls HF. intros k l. revert k. induction l as [|m l IH]; intros k Hk cls HF.
    - inversion HF; subst. exists []. done.
    - inversion HF as [|? cl ? cls' Hcl HF' E1 E2]; subst. destruct (IH (S k)) with (cls := cls') as (bss & E & A & B); [|done|].
      { replace (S k) with (k + 1) by lia. rewrite <- drop_drop, Hk. done. }
      assert (Hj : comps !! k = Some m). { rewrite <- (Nat.add_0_r k), <- lookup_drop, Hk. done. }
      destruct (cluster_ok m k cl Hj Hcl) as (bs & E1 & A1 & B1). cbn [res_map]. rewrite E1. cbn [res_bind]. rewrite E. cbn [res_bind].
      exists (bs :: bss). split; [done|]. cbn [concat fmap list_fmap]. unfold cpp_children, wasm_children in *. split; intros.
      + rewrite fmap_app, concat_app, A, A1, fmap_app. f_equal. by apply creation_of_ok.
      + rewrite fmap_app, concat_app, B, B1, fmap_app. f_equal. by apply wcreation_of_ok.
  Qed.
End Template.

(** ** the templates of a program *)
Lemma place_step s c l : forall off coff j a b, place s c off coff l !! j = Some a -> place s c off coff l !! S j = Some b ->
  k_offset b = k_offset a + k_jump a /\ k_component_offset b = k_component_offset a + k_component_jump a.
Proof.
  induction l as [|k l IH]; intros off coff j a b Ha Hb; [done|]. cbn [place] in Ha, Hb. destruct j as [|j]; cbn [lookup list_lookup] in Ha, Hb.
  - injection Ha as <-. destruct l as [|k' l]; [done|]. cbn in Hb. injection Hb as <-. done.
  - by eapply IH.
Qed.
Lemma place_jump s c l : forall off coff a, a ∈ place s c off coff l -> k_jump a = s (k_to a) /\ k_component_jump a = c (k_to a).
Proof.
  induction l as [|k l IH]; intros off coff a Ha; [by apply elem_of_nil in Ha|]. cbn [place] in Ha. apply elem_of_cons in Ha as [->|Ha]; [done|]. by eapply IH.
Qed.
Lemma placed_declared ns i x c : executed_ok i x -> c ∈ placed ns x -> exists m, m ∈ used x /\ m_name m = k_name c /\ Forall2 lt (k_indexed c) (m_length m).
Proof.
  intros Hx Hc. destruct (elem_placed _ _ _ Hc) as (c0 & H0 & _ & E1 & _ & E2 & _). destruct (eo_declared _ _ Hx _ H0) as (m & Hm & En & F).
  exists m. rewrite E1, E2. split; [|done]. apply elem_used. split; [|done]. rewrite En. apply elem_of_list_fmap_1. by apply elem_sorted.
Qed.
Section Program.
  Variables (p : Z) (model : list executed) (d : dag) (xs : list executed) (ts : list instance_info).
  Hypothesis HP : program_ok model.
  Hypothesis HA : assembled p model d xs.
  Hypothesis HL : length ts = length model.
  Hypothesis HX : forall i x, model !! i = Some x -> exists t, ts !! i = Some t /\ exported model (d_nodes d) x t /\
       forall c, c ∈ x_connexions x -> exists t', ts !! k_to c = Some t' /\ marked (k_parallel c) t'.
  Hypothesis HM : forall t, ts !! (length ts - 1) = Some t -> marked false t.
  Notation ns := (d_nodes d).
  Notation create1 x := (creation_of (pf model) (placed ns x) (used x)).
  Notation wcreate1 x := (wcreation_of (inf model) (placed ns x) (used x)).
  Notation order1 x := (order (placed ns x) (used x)).

  Lemma buckets_ok i x t : model !! i = Some x -> ts !! i = Some t -> exists bs, template_buckets t = Ok bs /\
    (forall start ctx, cpp_children start ctx bs = create1 x start ctx <$> order1 x) /\
    (forall fs off sig, wasm_children fs off sig bs = wcreate1 x fs off sig <$> order1 x) /\ order1 x ≡ₚ placed ns x.
  Proof.
    intros Hx Ht. destruct (HX i x Hx) as (t' & Ht' & E & _). rewrite Ht in Ht'. injection Ht' as <-.
    pose proof (proj2 HP i x Hx) as HO. unfold template_buckets. rewrite (ex_components _ _ _ _ E), (ex_triggers _ _ _ _ E).
    assert (HR : forall c, c ∈ placed ns x -> exists m, m ∈ used x /\ m_name m = k_name c /\ Forall2 lt (k_indexed c) (m_length m)) by (intros c; by eapply placed_declared).
    destruct (template_ok (pf model) (inf model) (placed ns x) (used x) (placed_sorted _ _) (placed_once _ _ _ HO) (used_names _ _ HO) HR) with (cls := ii_clusters t) as (bs & E1 & A & B).
    - intros j c c'. apply place_step.
    - intros c c' Hc Hc' Ek. apply place_jump in Hc as [-> ->], Hc' as [-> ->]. by rewrite Ek.
    - apply (ex_clusters _ _ _ _ E).
    - exists bs. split; [exact E1|]. split; [exact A|]. split; [exact B|]. apply order_ok; [by eapply placed_once|by eapply used_names|exact HR].
  Qed.
End Program.
