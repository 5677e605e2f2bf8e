(** Walks over the tree of instances of a DAG. *)
From stdpp Require Import prelude gmap fin_maps sorting strings.
From Coq Require Import ZArith Lia.
From Verif Require Import ModArithModel ModArithProofs AlgebraModel AlgebraSpec AlgebraProofs PipelineModel PipelineSpec RenumberProofs DagModel DagSpec DagProofs.
Open Scope nat_scope.

Fixpoint flat_imap {A B} (f : nat -> A -> list B) (j : nat) (l : list A) : list B :=
  match l with [] => [] | a :: l => f j a ++ flat_imap f (S j) l end.
Lemma elem_of_flat_imap {A B} (f : nat -> A -> list B) j l y :
  y ∈ flat_imap f j l <-> exists i a, l !! i = Some a /\ y ∈ f (j + i) a.
Proof.
  revert j. induction l as [|a l IH]; intros j; cbn [flat_imap].
  - split; [intros H; apply elem_of_nil in H; contradiction|]. intros (i & a & H & _). rewrite lookup_nil in H. discriminate.
  - rewrite elem_of_app, IH. split.
    + intros [H|(i & b & H & H')]; [exists 0, a; rewrite Nat.add_0_r; auto|]. exists (S i), b. rewrite Nat.add_succ_r. auto.
    + intros ([|i] & b & H & H'); [injection H as ->; rewrite Nat.add_0_r in H'; auto|]. right. exists i, b. rewrite Nat.add_succ_r in H'. auto.
Qed.

Definition child (x : inst) (j : nat) (e : edge) : inst :=
  Inst (i_pos x ++ [j]) (e_goes_to e) (i_off x + e_in e) (dotted (i_path x) (e_label e)).
(** the instances below [x], parents first *)
Fixpoint walk (kids : nat -> list edge) (fuel : nat) (x : inst) : list inst :=
  match fuel with
  | O => []
  | S fuel => x :: flat_imap (fun j e => walk kids fuel (child x j e)) 0 (kids (i_node x))
  end.
Definition descending (kids : nat -> list edge) : Prop := forall i e, e ∈ kids i -> e_goes_to e < i.

(** the common shape of the recursive walks of the code *)
Section gwalk.
  Context {T E A : Type} (step : T -> A -> res A) (edges : T -> res (list E)) (next : T -> E -> res T).
  Fixpoint gwalk (fuel : nat) (t : T) (a : A) : res A :=
    match fuel with
    | O => Panic
    | S fuel => res_bind (step t a) (fun a => res_bind (edges t) (fun es =>
        res_foldl (fun a e => res_bind (next t e) (fun t => gwalk fuel t a)) a es))
    end.
  Context (R : T -> inst -> Prop) (step' : A -> inst -> res A) (kids : nat -> list edge).
  Hypothesis Hstep : forall t x a, R t x -> step t a = step' a x.
  Hypothesis Hedges : forall t x, R t x -> exists es, edges t = Ok es /\ length es = length (kids (i_node x)) /\
    forall j e e0, es !! j = Some e -> kids (i_node x) !! j = Some e0 -> exists t', next t e = Ok t' /\ R t' (child x j e0).
  Hypothesis Hdesc : descending kids.
  Lemma gwalk_spec fuel t x a : R t x -> i_node x < fuel -> gwalk fuel t a = res_foldl step' a (walk kids fuel x).
  Proof.
    revert t x a. induction fuel as [|fuel IH]; intros t x a HR HF; [lia|]. cbn [gwalk walk].
    rewrite res_foldl_cons. rewrite (Hstep t x a HR). destruct (step' a x) as [a'| |]; cbn [res_bind]; [|reflexivity|reflexivity].
    destruct (Hedges t x HR) as (es & -> & HL & HE). cbn [res_bind].
    assert (HK : forall e0, e0 ∈ kids (i_node x) -> e_goes_to e0 < fuel).
    { intros e0 H0. apply Hdesc in H0. lia. }
    revert HL HE HK. generalize (kids (i_node x)). intros ks.
    enough (G : forall j0 es ks a, length es = length ks ->
      (forall j e e0, es !! j = Some e -> ks !! j = Some e0 -> exists t', next t e = Ok t' /\ R t' (child x (j0 + j) e0)) ->
      (forall e0, e0 ∈ ks -> e_goes_to e0 < fuel) ->
      res_foldl (fun a e => res_bind (next t e) (fun t => gwalk fuel t a)) a es = res_foldl step' a (flat_imap (fun j e => walk kids fuel (child x j e)) j0 ks)).
    { intros HL HE HK. apply (G 0); assumption. }
    clear ks es a a'. intros j0 es. revert j0. induction es as [|e es IHe]; intros j0 ks a HL HE HK; destruct ks as [|k ks]; try discriminate; [reflexivity|].
    cbn [flat_imap]. rewrite res_foldl_cons, res_foldl_app.
    destruct (HE 0 e k eq_refl eq_refl) as (t' & -> & HR'). cbn [res_bind]. rewrite Nat.add_0_r in HR'.
    rewrite (IH t' (child x j0 k) a HR') by (apply HK; left).
    destruct (res_foldl step' a (walk kids fuel (child x j0 k))) as [b| |]; cbn [res_bind]; [|reflexivity|reflexivity].
    apply IHe; [cbn in HL; lia| |intros e0 H0; apply HK; right; assumption].
    intros j e1 e0 H1 H0. destruct (HE (S j) e1 e0 H1 H0) as (t2 & A2 & B2). exists t2. split; [assumption|]. replace (S j0 + j) with (j0 + S j) by lia. assumption.
  Qed.
End gwalk.

(** ** the instances *)
Definition edges_of (d : dag) (i : nat) : list edge := default [] (d_adjacency d !! i).
Definition root (d : dag) : inst := Inst [] (length (d_nodes d) - 1) 0 "main".
Definition all_instances (d : dag) : list inst := walk (edges_of d) (length (d_nodes d)) (root d).
Lemma numbered_descending d : numbered d -> descending (edges_of d).
Proof.
  intros HN i e. unfold edges_of. destruct (d_adjacency d !! i) as [es|] eqn:E; cbn; [|intros H; apply elem_of_nil in H; contradiction].
  intros He. destruct (lookup_lt_is_Some_2 (d_nodes d) i) as [n Hn]. { rewrite <- (nu_length _ HN). eapply lookup_lt_Some. eassumption. }
  exact (proj1 (nn_edge _ _ _ _ (nu_node _ HN _ _ _ Hn E) e He)).
Qed.
(** reachability from an instance *)
Inductive below (kids : nat -> list edge) (x : inst) : inst -> Prop :=
| below_refl : below kids x x
| below_step y j e : below kids x y -> kids (i_node y) !! j = Some e -> below kids x (child y j e).
Lemma below_trans kids x y z : below kids x y -> below kids y z -> below kids x z.
Proof. intros H. induction 1; [assumption|econstructor; eassumption]. Qed.
Lemma walk_below kids fuel x y : y ∈ walk kids fuel x -> below kids x y.
Proof.
  revert x. induction fuel as [|fuel IH]; intros x; cbn [walk]; [intros H; apply elem_of_nil in H; contradiction|].
  intros H. apply elem_of_cons in H. destruct H as [->|H]; [constructor|]. apply elem_of_flat_imap in H. destruct H as (j & e & Hj & H).
  apply IH in H. eapply below_trans; [|exact H]. econstructor; [constructor|exact Hj].
Qed.
Lemma below_inv kids x y : below kids x y -> y = x \/ exists j e, kids (i_node x) !! j = Some e /\ below kids (child x j e) y.
Proof.
  induction 1 as [|y j e H IH Hj]; [auto|]. right. destruct IH as [->|(j' & e' & Hj' & IH)].
  - exists j, e. split; [assumption|constructor].
  - exists j', e'. split; [assumption|]. econstructor; eassumption.
Qed.
Lemma below_walk kids fuel x y : descending kids -> i_node x < fuel -> below kids x y -> y ∈ walk kids fuel x.
Proof.
  intros HD. revert x. induction fuel as [|fuel IH]; intros x HF H; [lia|]. cbn [walk]. apply elem_of_cons.
  apply below_inv in H. destruct H as [->|(j & e & Hj & H)]; [auto|]. right. apply elem_of_flat_imap. exists j, e. split; [assumption|].
  apply IH; [|exact H]. cbn [child i_node]. pose proof (HD _ e (elem_of_list_lookup_2 _ _ _ Hj)). lia.
Qed.
Lemma below_pos kids x y : below kids x y -> exists l, i_pos y = i_pos x ++ l.
Proof.
  induction 1 as [|y j e H (l & IH)]; [exists []; rewrite app_nil_r; reflexivity|]. exists (l ++ [j]). cbn [child i_pos]. rewrite IH, app_assoc. reflexivity.
Qed.
Lemma walk_nodup kids fuel x : NoDup (i_pos <$> walk kids fuel x).
Proof.
  revert x. induction fuel as [|fuel IH]; intros x; cbn [walk]; [constructor|]. rewrite fmap_cons. apply NoDup_cons. split.
  - intros H. apply elem_of_list_fmap in H. destruct H as (y & E & H). apply elem_of_flat_imap in H. destruct H as (j & e & _ & H).
    apply walk_below, below_pos in H. destruct H as (l & H). rewrite H in E. cbn [child i_pos] in E.
    apply (f_equal length) in E. rewrite !app_length in E. cbn in E. lia.
  - generalize (kids (i_node x)). intros ks. enough (G : forall j0, NoDup (i_pos <$> flat_imap (fun j e => walk kids fuel (child x j e)) j0 ks)) by apply G.
    induction ks as [|k ks IHk]; intros j0; [constructor|]. cbn [flat_imap]. rewrite fmap_app. apply NoDup_app. split; [apply IH|]. split; [|apply IHk].
    intros l H1 H2. apply elem_of_list_fmap in H1, H2. destruct H1 as (y & -> & H1), H2 as (z & E & H2). apply walk_below, below_pos in H1. destruct H1 as (l1 & H1).
    apply elem_of_flat_imap in H2. destruct H2 as (j & e & _ & H2). apply walk_below, below_pos in H2. destruct H2 as (l2 & H2).
    rewrite H1, H2 in E. cbn [child i_pos] in E. rewrite <- !app_assoc in E. apply app_inv_head in E. cbn in E. injection E as E _. lia.
Qed.
Lemma last_nonempty {A} (l : list A) x : last l = Some x -> l !! (length l - 1) = Some x /\ 0 < length l.
Proof.
  intros H. rewrite last_lookup in H. replace (length l - 1) with (pred (length l)) by lia. split; [assumption|]. apply lookup_lt_Some in H. lia.
Qed.
Lemma instance_below d x : instance d x -> below (edges_of d) (root d) x.
Proof.
  induction 1 as [n H|x es j e H IH He Hj]; [constructor|]. apply below_step; [assumption|]. unfold edges_of. rewrite He. exact Hj.
Qed.
Lemma below_instance d x : d_nodes d <> [] -> below (edges_of d) (root d) x -> instance d x.
Proof.
  intros HN. induction 1 as [|x j e H IH Hj].
  - destruct (last (d_nodes d)) as [n|] eqn:E; [econstructor; eassumption|]. apply last_None in E. contradiction.
  - unfold edges_of in Hj. destruct (d_adjacency d !! i_node x) as [es|] eqn:E; [|cbn in Hj; rewrite ?lookup_nil in Hj; discriminate].
    eapply inst_sub; eassumption.
Qed.
Lemma all_instances_spec d x : numbered d -> d_nodes d <> [] -> (x ∈ all_instances d <-> instance d x).
Proof.
  intros HN HE. unfold all_instances. split.
  - intros H. apply below_instance; [assumption|]. eapply walk_below. eassumption.
  - intros H. apply below_walk; [apply numbered_descending; assumption| |apply instance_below; assumption].
    cbn [root i_node]. destruct (d_nodes d); [contradiction|cbn; lia].
Qed.
Lemma instance_node d x : numbered d -> instance d x -> exists n es, d_nodes d !! i_node x = Some n /\ d_adjacency d !! i_node x = Some es.
Proof.
  intros HN H.
  assert (exists n, d_nodes d !! i_node x = Some n) as [n Hn].
  { destruct H as [n H|x es j e H He Hj].
    - exists n. cbn [i_node]. apply last_nonempty. assumption.
    - cbn [i_node]. destruct (lookup_lt_is_Some_2 (d_nodes d) (i_node x)) as [n Hn].
      { rewrite <- (nu_length _ HN). eapply lookup_lt_Some. eassumption. }
      destruct (nn_edge _ _ _ _ (nu_node _ HN _ _ _ Hn He) e (elem_of_list_lookup_2 _ _ _ Hj)) as (_ & _ & t & Ht & _). eauto. }
  destruct (lookup_lt_is_Some_2 (d_adjacency d) (i_node x)) as [es Hes]; [rewrite (nu_length _ HN); eapply lookup_lt_Some; eassumption|]. eauto.
Qed.

(** ** the signals of a node in order *)
Definition local_names (n : node) : list (string * nat) := merge_sort id_le (local_signals map_to_list n).
Definition sorted_ids (n : node) : list nat := snd <$> local_names n.
Lemma map_to_list_valid : valid_corr_order map_to_list.
Proof. intros m. reflexivity. Qed.
Lemma elem_of_local_signals ko n s id : valid_corr_order ko -> ((s, id) ∈ local_signals ko n <-> n_corr n !! s = Some id /\ id ∈ n_locals n).
Proof.
  intros Hko. unfold local_signals. rewrite elem_of_list_filter. rewrite (Hko (n_corr n)), elem_of_map_to_list. cbn [snd]. tauto.
Qed.
Lemma local_signals_perm ko n : valid_corr_order ko -> local_signals ko n ≡ₚ local_signals map_to_list n.
Proof. intros Hko. unfold local_signals. rewrite (Hko (n_corr n)). reflexivity. Qed.
Global Instance id_le_trans : Transitive id_le. Proof. intros a b c. unfold id_le. lia. Qed.
Global Instance id_le_total : Total id_le. Proof. intros a b. unfold id_le. lia. Qed.
Lemma StronglySorted_unique_strong {A} (R : relation A) l1 l2 :
  (forall x1 x2, x1 ∈ l1 -> x2 ∈ l2 -> R x1 x2 -> R x2 x1 -> x1 = x2) -> StronglySorted R l1 -> StronglySorted R l2 -> l1 ≡ₚ l2 -> l1 = l2.
Proof.
  intros HA S1. revert l2 HA. induction S1 as [|x1 l1 S1 IH F1]; intros l2 HA S2 HP.
  - symmetry. apply Permutation_nil. assumption.
  - destruct S2 as [|x2 l2 S2 F2]; [symmetry in HP; apply Permutation_nil in HP; discriminate|].
    assert (x1 = x2) as ->.
    { assert (H1 : x1 ∈ x2 :: l2) by (rewrite <- HP; left). assert (H2 : x2 ∈ x1 :: l1) by (rewrite HP; left).
      apply elem_of_cons in H1, H2. destruct H1 as [|H1]; [assumption|]. destruct H2 as [|H2]; [auto|].
      apply HA; [left|left| |].
      - exact (proj1 (Forall_forall _ _) F1 _ H2).
      - exact (proj1 (Forall_forall _ _) F2 _ H1). }
    f_equal. apply IH; [|assumption|apply Permutation_cons_inv in HP; assumption].
    intros a b Ha Hb. apply HA; right; assumption.
Qed.
Lemma local_names_ko ko n : valid_corr_order ko -> node_names n -> merge_sort id_le (local_signals ko n) = local_names n.
Proof.
  intros Hko HN. unfold local_names. apply (StronglySorted_unique_strong id_le).
  - intros [s1 i1] [s2 i2] H1 H2 L1 L2. rewrite (merge_sort_Permutation id_le) in H1, H2.
    apply elem_of_local_signals in H1; [|assumption]. apply elem_of_local_signals in H2; [|apply map_to_list_valid].
    unfold id_le in L1, L2. cbn [snd] in L1, L2. assert (i1 = i2) as -> by lia. f_equal. eapply (na_inj _ HN); [apply H1|apply H2].
  - apply (StronglySorted_merge_sort id_le).
  - apply (StronglySorted_merge_sort id_le).
  - rewrite !(merge_sort_Permutation id_le). apply local_signals_perm. assumption.
Qed.
Lemma elem_of_local_names n s id : (s, id) ∈ local_names n <-> n_corr n !! s = Some id /\ id ∈ n_locals n.
Proof. unfold local_names. rewrite (merge_sort_Permutation id_le). apply elem_of_local_signals, map_to_list_valid. Qed.
Lemma sorted_snd l : StronglySorted id_le l -> Sorted Nat.le (snd <$> l).
Proof.
  intros H. apply StronglySorted_Sorted. induction H as [|x l H IH HF]; constructor; [assumption|]. apply Forall_fmap. eapply Forall_impl; [exact HF|]. cbn. auto.
Qed.
Lemma nodup_fmap_inj {A B} (f : A -> B) l : (forall x y, x ∈ l -> y ∈ l -> f x = f y -> x = y) -> NoDup l -> NoDup (f <$> l).
Proof.
  intros HI. induction l as [|a l IH]; intros ND; [constructor|]. apply NoDup_cons in ND. destruct ND as [Ha ND]. rewrite fmap_cons. apply NoDup_cons. split.
  - intros H. apply elem_of_list_fmap in H. destruct H as (y & E & Hy). apply Ha. rewrite (HI a y); [assumption|left|right; assumption|assumption].
  - apply IH; [|assumption]. intros x y Hx Hy. apply HI; right; assumption.
Qed.
Lemma nodup_local_names n : NoDup (local_names n).
Proof.
  unfold local_names. rewrite (merge_sort_Permutation id_le). unfold local_signals. apply NoDup_filter, NoDup_map_to_list.
Qed.
Lemma nodup_sorted_ids n : node_names n -> NoDup (sorted_ids n).
Proof.
  intros HN. unfold sorted_ids. apply nodup_fmap_inj; [|apply nodup_local_names].
  intros [s1 i1] [s2 i2] H1 H2. cbn [snd]. intros ->. apply elem_of_local_names in H1, H2. f_equal. eapply (na_inj _ HN); [apply H1|apply H2].
Qed.
Lemma elem_of_sorted_ids n x : node_names n -> (x ∈ sorted_ids n <-> x ∈ n_locals n).
Proof.
  intros HN. unfold sorted_ids. rewrite elem_of_list_fmap. split.
  - intros ([s id] & -> & H). apply elem_of_local_names in H. tauto.
  - intros H. destruct (na_local _ HN x H) as [s Hs]. exists (s, x). split; [reflexivity|]. apply elem_of_local_names. auto.
Qed.
Lemma sorted_ids_perm n : node_names n -> sorted_ids n ≡ₚ elements (n_locals n).
Proof.
  intros HN. apply NoDup_Permutation; [apply nodup_sorted_ids; assumption|apply NoDup_elements|].
  intros x. rewrite elem_of_sorted_ids by assumption. rewrite elem_of_elements. reflexivity.
Qed.
Lemma sorted_sorted_ids n : Sorted Nat.le (sorted_ids n).
Proof. apply sorted_snd. apply (StronglySorted_merge_sort id_le). Qed.
Lemma length_sorted_ids n : node_names n -> length (sorted_ids n) = size (n_locals n).
Proof. intros HN. rewrite (sorted_ids_perm n HN). reflexivity. Qed.
Lemma sorted_ids_compact n es : node_names n -> compact_node n es -> sorted_ids n = seq 1 (size (n_locals n)).
Proof.
  intros HN (HL & _). apply (Sorted_unique Nat.le); [apply sorted_sorted_ids|apply sorted_seq|].
  apply NoDup_Permutation; [apply nodup_sorted_ids; assumption|apply NoDup_seq|].
  intros x. rewrite elem_of_sorted_ids by assumption. rewrite (HL x), elem_of_seq. lia.
Qed.
Lemma sort_local_signals ko n off : valid_corr_order ko -> node_names n ->
  merge_sort Nat.le ((fun x => x.2 + off) <$> local_signals ko n) = (fun x => x + off) <$> sorted_ids n.
Proof.
  intros Hko HN. replace ((fun x : string * nat => x.2 + off) <$> local_signals ko n) with ((fun x => x + off) <$> (snd <$> local_signals ko n)) by (rewrite <- list_fmap_compose; reflexivity). rewrite sort_fmap_add. f_equal.
  apply (Sorted_unique Nat.le); [apply (Sorted_merge_sort Nat.le)|apply sorted_sorted_ids|].
  rewrite (merge_sort_Permutation Nat.le). unfold sorted_ids, local_names. rewrite (merge_sort_Permutation id_le).
  rewrite (local_signals_perm ko n Hko). reflexivity.
Qed.

(** ** trees *)
Definition node_at (d : dag) (i : nat) : node := default (node_new 0 "" [] false false) (d_nodes d !! i).
(** the constraints of an instance, as the tree holds them *)
Definition inst_constraints (d : dag) (x : inst) : list constraint :=
  (fun c => c_offset c (i_off x)) <$>
    (if bool_decide (i_pos x = []) then n_constraints (node_at d (i_node x)) else filter (fun c => is_empty c = false) (n_constraints (node_at d (i_node x)))).
Definition inst_signals (d : dag) (x : inst) : list nat := global x <$> sorted_ids (node_at d (i_node x)).
Record tree_of (d : dag) (t : itree) (x : inst) : Prop := {
  to_inst : instance d x;
  to_path : t_path t = i_path x;
  to_offset : t_offset t = i_off x;
  to_node : t_node t = i_node x;
  to_signals : t_signals t = inst_signals d x;
  to_constraints : t_constraints t = inst_constraints d x;
  to_names : forall s id, (s, id) ∈ local_names (node_at d (i_node x)) -> t_names t !! (global x id) = Some s;
}.
Lemma node_at_lookup d i n : d_nodes d !! i = Some n -> node_at d i = n.
Proof. intros H. unfold node_at. rewrite H. reflexivity. Qed.
Lemma foldl_names (f : nat -> nat) l (m : gmap nat string) s id :
  (forall a b, f a = f b -> a = b) -> NoDup (snd <$> l) -> (s, id) ∈ l ->
  foldl (fun m x => <[f x.2 := x.1]> m) m l !! f id = Some s.
Proof.
  intros HF. revert m. induction l as [|[s' id'] l IH]; intros m ND H; [apply elem_of_nil in H; contradiction|].
  rewrite fmap_cons in ND. apply NoDup_cons in ND. destruct ND as [Hi ND]. cbn [foldl]. apply elem_of_cons in H. destruct H as [H|H]; [|apply IH; assumption].
  injection H as -> ->. cbn [fst snd] in *. clear IH ND. 
  assert (G : forall m : gmap nat string, m !! f id' = Some s' -> foldl (fun m x => <[f x.2 := x.1]> m) m l !! f id' = Some s').
  { induction l as [|[s2 id2] l IH]; intros m0 Hm; [assumption|]. cbn [foldl fst snd]. apply IH.
    - intros Hin. apply Hi. rewrite fmap_cons. right. assumption.
    - rewrite lookup_insert_ne; [assumption|]. intros E. apply HF in E. subst id2. apply Hi. rewrite fmap_cons. left. }
  apply G. apply lookup_insert.
Qed.
Lemma nodup_local_ids ko n : valid_corr_order ko -> node_names n -> NoDup (snd <$> local_signals ko n).
Proof.
  intros Hko HN. pose proof (nodup_sorted_ids n HN) as H. unfold sorted_ids, local_names in H.
  rewrite (merge_sort_Permutation id_le) in H. rewrite (local_signals_perm ko n Hko). exact H.
Qed.
Lemma tree_new_spec ko d : valid_corr_order ko -> numbered d -> named d -> d_nodes d <> [] ->
  exists t, tree_new ko d = Ok t /\ tree_of d t (root d) /\ t_forbidden t = n_forbidden (node_at d (length (d_nodes d) - 1)).
Proof.
  intros Hko HU HN HE. destruct (last (d_nodes d)) as [n|] eqn:EL; [|apply last_None in EL; contradiction].
  pose proof (last_nonempty _ _ EL) as [Hn HP]. unfold tree_new, get_main. rewrite EL. cbn [res_bind].
  assert (main_id d = Ok (length (d_nodes d) - 1)) as ->. { unfold main_id. destruct (d_nodes d); [contradiction|reflexivity]. }
  cbn [res_bind]. destruct (lookup_lt_is_Some_2 (d_adjacency d) (length (d_nodes d) - 1)) as [es Hes]; [rewrite (nu_length _ HU); lia|].
  pose proof (nu_node _ HU _ _ _ Hn Hes) as NN. pose proof (HN _ _ Hn) as NA.
  rewrite (nn_in _ _ _ _ NN), (nn_label _ _ _ _ NN). eexists. split; [reflexivity|]. rewrite (node_at_lookup _ _ _ Hn). split.
  - constructor; cbn [t_path t_offset t_node t_signals t_constraints t_names root i_path i_off i_node].
    + econstructor. eassumption.
    + reflexivity.
    + reflexivity.
    + reflexivity.
    + unfold inst_signals. cbn [root i_node]. rewrite (node_at_lookup _ _ _ Hn). rewrite (sort_local_signals ko n 0 Hko NA).
      apply list_fmap_ext. intros i y _. unfold global. cbn [root i_off]. reflexivity.
    + unfold inst_constraints. cbn [root i_pos i_off i_node]. rewrite bool_decide_true by reflexivity. rewrite (node_at_lookup _ _ _ Hn).
      rewrite (list_fmap_ext _ id (n_constraints n)); [rewrite list_fmap_id; reflexivity|]. intros i c _. apply c_offset_0.
    + intros s id H. rewrite (node_at_lookup _ _ _ Hn) in H. unfold global. cbn [root i_off]. rewrite Nat.add_0_r.
      apply (foldl_names (fun x => x)); [auto|apply nodup_local_ids; assumption|]. apply elem_of_local_names in H. apply elem_of_local_signals; assumption.
  - cbn [t_forbidden]. apply set_eq. intros x. rewrite elem_of_map. split; [intros (y & -> & H); rewrite Nat.add_0_r; assumption|]. intros H. exists x. split; [lia|assumption].
Qed.
Lemma subtree_spec ko d t x es j e : valid_corr_order ko -> numbered d -> named d -> tree_of d t x -> d_adjacency d !! i_node x = Some es -> es !! j = Some e ->
  exists t', go_to_subtree ko d t e = Ok t' /\ tree_of d t' (child x j e).
Proof.
  intros Hko HU HN HT Hes Hj. pose proof (to_inst _ _ _ HT) as HI.
  assert (HI' : instance d (child x j e)) by (eapply inst_sub; eassumption).
  destruct (instance_node d _ HU HI') as (n & es' & Hn & Hes'). cbn [child i_node] in Hn, Hes'.
  unfold go_to_subtree. rewrite (index_ok _ _ _ Hn). cbn [res_bind]. eexists. split; [reflexivity|].
  pose proof (HN _ _ Hn) as NA. rewrite (to_offset _ _ _ HT), (to_path _ _ _ HT).
  constructor; cbn [t_path t_offset t_node t_signals t_constraints t_names child i_path i_off i_node].
  - assumption.
  - reflexivity.
  - reflexivity.
  - reflexivity.
  - unfold inst_signals. cbn [child i_node]. rewrite (node_at_lookup _ _ _ Hn). apply (sort_local_signals ko n _ Hko NA).
  - unfold inst_constraints. cbn [child i_pos i_off i_node]. rewrite bool_decide_false by (destruct (i_pos x); discriminate).
    rewrite (node_at_lookup _ _ _ Hn). reflexivity.
  - intros s id H. rewrite (node_at_lookup _ _ _ Hn) in H. unfold global. cbn [child i_off].
    apply (foldl_names (fun y => y + (i_off x + e_in e))); [intros; lia|apply nodup_local_ids; assumption|]. apply elem_of_local_names in H. apply elem_of_local_signals; assumption.
Qed.
Lemma tree_edges ko d t x : valid_corr_order ko -> numbered d -> named d -> tree_of d t x ->
  exists es, get_edges d t = Ok es /\ length es = length (edges_of d (i_node x)) /\
    forall j e e0, es !! j = Some e -> edges_of d (i_node x) !! j = Some e0 -> exists t', go_to_subtree ko d t e = Ok t' /\ tree_of d t' (child x j e0).
Proof.
  intros Hko HU HN HT. destruct (instance_node d x HU (to_inst _ _ _ HT)) as (n & es & Hn & Hes). exists es. unfold get_edges, edges_of.
  rewrite (to_node _ _ _ HT), (index_ok _ _ _ Hes), Hes. cbn [default from_option]. split; [reflexivity|]. split; [reflexivity|].
  intros j e e0 H1 H2. change (es !! j = Some e0) in H2; rewrite H1 in H2. injection H2 as <-. eapply subtree_spec; eassumption.
Qed.

(** every walk of the trees *)
Lemma tree_walk {A} ko d (step : itree -> A -> res A) (step' : A -> inst -> res A) fuel t x a :
  valid_corr_order ko -> numbered d -> named d -> tree_of d t x -> i_node x < fuel ->
  (forall t x a, tree_of d t x -> step t a = step' a x) ->
  gwalk step (get_edges d) (go_to_subtree ko d) fuel t a = res_foldl step' a (walk (edges_of d) fuel x).
Proof.
  intros Hko HU HN HT HF HS. apply (gwalk_spec step (get_edges d) (go_to_subtree ko d) (tree_of d) step' (edges_of d)); try assumption.
  - intros t0 x0 H. apply tree_edges; assumption.
  - apply numbered_descending. assumption.
Qed.
