(** Invariants of the circuit DAG. *)
From stdpp Require Import prelude gmap fin_maps sorting strings.
From Coq Require Import ZArith Lia.
From Verif Require Import ModArithModel ModArithProofs AlgebraModel AlgebraSpec AlgebraProofs PipelineModel PipelineSpec RenumberProofs DagModel DagSpec.
Open Scope nat_scope.

(** ** general facts *)
Lemma res_foldl_cons {A B} (f : A -> B -> res A) a b l : res_foldl f a (b :: l) = res_bind (f a b) (fun a => res_foldl f a l).
Proof.
  unfold res_foldl. cbn [foldl res_bind]. destruct (f a b) as [x| |]; cbn [res_bind]; [reflexivity| |].
  - induction l as [|c l IH]; [reflexivity|]. exact IH.
  - induction l as [|c l IH]; [reflexivity|]. exact IH.
Qed.
Lemma res_foldl_app {A B} (f : A -> B -> res A) a l1 l2 : res_foldl f a (l1 ++ l2) = res_bind (res_foldl f a l1) (fun a => res_foldl f a l2).
Proof.
  revert a. induction l1 as [|b l1 IH]; intros a; [reflexivity|].
  cbn [app]. rewrite !res_foldl_cons. destruct (f a b); cbn [res_bind]; [apply IH|reflexivity|reflexivity].
Qed.
Lemma res_foldl_ok {A B} (f : A -> B -> A) a l : res_foldl (fun a b => Ok (f a b)) a l = Ok (foldl f a l).
Proof. revert a. induction l as [|b l IH]; intros a; [reflexivity|]. rewrite res_foldl_cons. cbn [res_bind foldl]. apply IH. Qed.
Lemma res_foldl_ext {A B} (f g : A -> B -> res A) a l : (forall a b, b ∈ l -> f a b = g a b) -> res_foldl f a l = res_foldl g a l.
Proof.
  revert a. induction l as [|b l IH]; intros a H; [reflexivity|]. rewrite !res_foldl_cons. rewrite H by left.
  destruct (g a b); cbn [res_bind]; [|reflexivity|reflexivity]. apply IH. intros. apply H. right. assumption.
Qed.
Lemma index_ok {A} (l : list A) i x : l !! i = Some x -> index l i = Ok x.
Proof. intros E. unfold index. rewrite E. reflexivity. Qed.

Lemma append_assoc (a b c : string) : ((a +:+ b) +:+ c = a +:+ (b +:+ c))%string.
Proof. induction a as [|x a IH]; [reflexivity|]. change (String x ((a +:+ b) +:+ c) = String x (a +:+ (b +:+ c)))%string. f_equal. exact IH. Qed.
Lemma append_inj_r (a b c : string) : (a +:+ b = a +:+ c)%string -> b = c.
Proof. induction a as [|x a IH]; [exact id|]. intros E. change (String x (a +:+ b) = String x (a +:+ c))%string in E. injection E as E. exact (IH E). Qed.
Lemma dotted_inj a b c : dotted a b = dotted a c -> b = c.
Proof. unfold dotted. intros E. apply append_inj_r, append_inj_r in E. exact E. Qed.

(** sorted lists of numbers *)
Lemma sort_unique (l1 l2 : list nat) : l1 ≡ₚ l2 -> merge_sort Nat.le l1 = merge_sort Nat.le l2.
Proof.
  intros P. apply (Sorted_unique Nat.le); [apply (Sorted_merge_sort Nat.le)|apply (Sorted_merge_sort Nat.le)|].
  rewrite !(merge_sort_Permutation Nat.le). exact P.
Qed.
Lemma sorted_fmap_add (l : list nat) off : Sorted Nat.le l -> Sorted Nat.le ((fun x => x + off) <$> l).
Proof.
  induction 1 as [|x l S IH H]; constructor; [assumption|]. destruct H as [|y l Hxy]; constructor. lia.
Qed.
Lemma sort_fmap_add (l : list nat) off : merge_sort Nat.le ((fun x => x + off) <$> l) = (fun x => x + off) <$> merge_sort Nat.le l.
Proof.
  apply (Sorted_unique Nat.le); [apply (Sorted_merge_sort Nat.le)|apply sorted_fmap_add, (Sorted_merge_sort Nat.le)|].
  rewrite (merge_sort_Permutation Nat.le). rewrite (merge_sort_Permutation Nat.le). reflexivity.
Qed.
Lemma sorted_seq a n : Sorted Nat.le (seq a n).
Proof. revert a. induction n as [|n IH]; intros a; constructor; [apply IH|]. destruct n; constructor. lia. Qed.
Lemma sort_seq l a n : l ≡ₚ seq a n -> merge_sort Nat.le l = seq a n.
Proof.
  intros P. apply (Sorted_unique Nat.le); [apply (Sorted_merge_sort Nat.le)|apply sorted_seq|].
  rewrite (merge_sort_Permutation Nat.le). exact P.
Qed.

(** ** numbering *)
Definition in_range (e : edge) (x : nat) : Prop := e_in e < x <= e_out e.
Definition width (e : edge) : nat := e_out e - e_in e.
Record node_num (ns : list node) (i : nat) (n : node) (es : list edge) : Prop := {
  nn_in : e_in (n_entry n) = 0;
  nn_label : e_label (n_entry n) = "main"%string;
  nn_out : e_out (n_entry n) = n_signals n;
  nn_edge : forall e, e ∈ es -> e_goes_to e < i /\ e_out e <= n_signals n /\
    exists t, ns !! e_goes_to e = Some t /\ e_out e = e_in e + n_signals t;
  nn_local : forall x, x ∈ n_locals n -> 1 <= x <= n_signals n;
  nn_cover : forall x, 1 <= x <= n_signals n -> x ∈ n_locals n \/ exists e, e ∈ es /\ in_range e x;
  nn_disj1 : forall x e, x ∈ n_locals n -> e ∈ es -> ~ in_range e x;
  nn_disj2 : forall j j' e e' x, es !! j = Some e -> es !! j' = Some e' -> in_range e x -> in_range e' x -> j = j';
  nn_count : n_signals n = size (n_locals n) + sum_list (width <$> es);
  nn_kinds : size (n_locals n) = n_inputs n + n_outputs n + n_intermediates n /\ n_public_inputs n <= n_inputs n;
  nn_forbidden : forall x, x ∈ n_forbidden n -> x = 0 \/ x ∈ n_locals n;
  nn_zero : 0 ∈ n_forbidden n;
}.
Record numbered (d : dag) : Prop := {
  nu_length : length (d_adjacency d) = length (d_nodes d);
  nu_node : forall i n es, d_nodes d !! i = Some n -> d_adjacency d !! i = Some es -> node_num (d_nodes d) i n es;
}.

(** nodes below [i] are the only ones that matter *)
Lemma node_num_ext ns ns' i n es : (forall j, j < i -> ns' !! j = ns !! j) -> node_num ns i n es -> node_num ns' i n es.
Proof.
  intros H []. constructor; try assumption. intros e He. destruct (nn_edge0 e He) as (A & B & t & C & D).
  split; [assumption|]. split; [assumption|]. exists t. rewrite H by assumption. auto.
Qed.
(** replacing the last node *)
Lemma numbered_main d ns' adj' :
  numbered d -> length ns' = length (d_nodes d) -> length adj' = length ns' ->
  (forall j, j < length (d_nodes d) - 1 -> ns' !! j = d_nodes d !! j /\ adj' !! j = d_adjacency d !! j) ->
  (forall n es, ns' !! (length ns' - 1) = Some n -> adj' !! (length ns' - 1) = Some es -> node_num (d_nodes d) (length ns' - 1) n es) ->
  numbered (Dag (d_field d) ns' adj').
Proof.
  intros HN L1 L2 HS HM. constructor; cbn [d_nodes d_adjacency]; [lia|].
  intros i n es Hi Hes. pose proof (lookup_lt_Some _ _ _ Hi).
  destruct (decide (i = length ns' - 1)) as [->|].
  - eapply node_num_ext; [|apply HM; eassumption]. intros j Hj. apply HS. lia.
  - destruct (HS i) as [E1 E2]; [lia|]. rewrite E1 in Hi. rewrite E2 in Hes.
    eapply node_num_ext; [|eapply (nu_node _ HN); eassumption]. intros j Hj. apply HS. lia.
Qed.
Lemma numbered_on_main d f :
  numbered d ->
  (forall n es, node_num (d_nodes d) (length (d_nodes d) - 1) n es -> node_num (d_nodes d) (length (d_nodes d) - 1) (f n) es) ->
  numbered (on_main f d).
Proof.
  intros HN HF. unfold on_main. apply numbered_main; [assumption|apply alter_length|rewrite alter_length; apply (nu_length _ HN)| |].
  - intros j Hj. rewrite list_lookup_alter_ne by lia. auto.
  - rewrite alter_length. intros n es Hn Hes. rewrite list_lookup_alter in Hn. apply fmap_Some in Hn. destruct Hn as (n0 & Hn0 & ->).
    apply HF. eapply (nu_node _ HN); eassumption.
Qed.
Lemma in_range_bound ns i n es e x : node_num ns i n es -> e ∈ es -> in_range e x -> x <= n_signals n.
Proof. intros N He [_ Hx]. destruct (nn_edge _ _ _ _ N e He) as (_ & H & _). lia. Qed.

(** declaring a signal *)
Lemma node_num_signal ns i n es n' :
  node_num ns i n es ->
  n_entry n' = entry_grow (n_entry n) 1 0 -> n_signals n' = n_signals n + 1 -> n_locals n' = {[ n_signals n + 1 ]} ∪ n_locals n ->
  n_inputs n' + n_outputs n' + n_intermediates n' = S (n_inputs n + n_outputs n + n_intermediates n) -> n_public_inputs n' <= n_inputs n' ->
  (n_forbidden n' = n_forbidden n \/ n_forbidden n' = {[ n_signals n + 1 ]} ∪ n_forbidden n) ->
  node_num ns i n' es.
Proof.
  intros N E1 E2 E3 E4 E5 E6.
  assert (F : n_signals n + 1 ∉ n_locals n). { intros H. apply (nn_local _ _ _ _ N) in H. lia. }
  constructor.
  - rewrite E1. apply (nn_in _ _ _ _ N).
  - rewrite E1. apply (nn_label _ _ _ _ N).
  - rewrite E1, E2. cbn [e_out entry_grow]. rewrite (nn_out _ _ _ _ N). reflexivity.
  - intros e He. destruct (nn_edge _ _ _ _ N e He) as (A & B & C). split; [assumption|]. split; [lia|assumption].
  - intros x. rewrite E3, E2. intros Hx. apply elem_of_union in Hx. rewrite elem_of_singleton in Hx.
    destruct Hx as [->|Hx]; [lia|]. apply (nn_local _ _ _ _ N) in Hx. lia.
  - intros x. rewrite E3, E2. intros Hx. destruct (decide (x = n_signals n + 1)) as [->|]; [left; set_solver|].
    destruct (nn_cover _ _ _ _ N x) as [H|H]; [lia|left; set_solver|right; assumption].
  - intros x e. rewrite E3. intros Hx He. apply elem_of_union in Hx. rewrite elem_of_singleton in Hx.
    destruct Hx as [->|Hx]; [|apply (nn_disj1 _ _ _ _ N); assumption].
    intros HR. pose proof (in_range_bound _ _ _ _ _ _ N He HR). lia.
  - apply (nn_disj2 _ _ _ _ N).
  - rewrite E2, E3. rewrite size_union by set_solver. rewrite size_singleton. rewrite (nn_count _ _ _ _ N) at 1. lia.
  - split; [|assumption]. rewrite E3. rewrite size_union by set_solver. rewrite size_singleton.
    rewrite (proj1 (nn_kinds _ _ _ _ N)). lia.
  - intros x Hx. rewrite E3. destruct E6 as [E6|E6]; rewrite E6 in Hx.
    + destruct (nn_forbidden _ _ _ _ N x Hx); [auto|set_solver].
    + apply elem_of_union in Hx. destruct Hx as [Hx|Hx]; [set_solver|]. destruct (nn_forbidden _ _ _ _ N x Hx); [auto|set_solver].
  - pose proof (nn_zero _ _ _ _ N). destruct E6 as [-> | ->]; set_solver.
Qed.
(** changes that do not concern the numbering *)
Lemma node_num_same ns i n es n' :
  node_num ns i n es ->
  n_entry n' = n_entry n -> n_signals n' = n_signals n -> n_locals n' = n_locals n -> n_inputs n' = n_inputs n ->
  n_outputs n' = n_outputs n -> n_intermediates n' = n_intermediates n -> n_public_inputs n' = n_public_inputs n -> n_forbidden n' = n_forbidden n ->
  node_num ns i n' es.
Proof.
  intros [] E1 E2 E3 E4 E5 E6 E7 E8. constructor; rewrite ?E1, ?E2, ?E3, ?E4, ?E5, ?E6, ?E7, ?E8; assumption.
Qed.

(** the sub-component's signals as seen from the parent *)
Lemma import_spec label k t l acc :
  NoDup (fst <$> l) ->
  (forall x v, (foldl (import_signal label k t) acc l).1 !! x = Some v <->
    (exists s id, (s, id) ∈ l /\ id ∈ n_locals t /\ x = dotted label s /\ v = k + id) \/
    ((forall s id, (s, id) ∈ l -> id ∈ n_locals t -> x <> dotted label s) /\ acc.1 !! x = Some v)) /\
  (forall y, y ∈ (foldl (import_signal label k t) acc l).2 <->
    y ∈ acc.2 \/ exists s id, (s, id) ∈ l /\ id ∈ n_locals t /\ id <= n_inputs t + n_outputs t /\ y = k + id).
Proof.
  revert acc. induction l as [|[s id] l IH]; intros acc ND; cbn [foldl].
  - split.
    + intros x v. split; [|intros [(s & id & H & _)|[_ H]]; [apply elem_of_nil in H; contradiction|assumption]].
      intros H. right. split; [|assumption]. intros s id Hin. apply elem_of_nil in Hin. contradiction.
    + intros y. split; [auto|]. intros [H|(s & id & H & _)]; [assumption|apply elem_of_nil in H; contradiction].
  - rewrite fmap_cons in ND. apply NoDup_cons in ND. destruct ND as [Hs ND]. cbn [fst] in Hs.
    destruct (IH (import_signal label k t acc (s, id)) ND) as [I1 I2].
    assert (EQ : import_signal label k t acc (s, id) = if decide (id ∈ n_locals t) then
      (<[dotted label s := k + id]> acc.1, if id <=? n_inputs t + n_outputs t then {[ k + id ]} ∪ acc.2 else acc.2) else acc).
    { unfold import_signal. destruct (bool_decide_reflect (id ∈ n_locals t)), (decide (id ∈ n_locals t)); [reflexivity|contradiction|contradiction|reflexivity]. }
    rewrite EQ in I1, I2 |- *.
    assert (Hsl : forall id', (s, id') ∈ l -> False).
    { intros id' H. apply Hs. apply elem_of_list_fmap. exists (s, id'). auto. }
    destruct (decide (id ∈ n_locals t)) as [Hid|Hid]; cbn [fst snd] in I1, I2; split.
    + intros x v. rewrite (I1 x v). split.
      * intros [(s' & id' & A & B & C & D)|[A B]].
        -- left. exists s', id'. split; [right; assumption|auto].
        -- apply lookup_insert_Some in B. destruct B as [(<- & <-)|(NE & B)].
           ++ left. exists s, id. split; [left|auto].
           ++ right. split; [|assumption]. intros s' id' Hin Hl. apply elem_of_cons in Hin. destruct Hin as [Heq|Hin]; [|eapply A; eassumption].
              injection Heq as -> ->. auto.
      * intros [(s' & id' & A & B & C & D)|[A B]].
        -- apply elem_of_cons in A. destruct A as [Heq|A].
           ++ injection Heq as -> ->. right. split.
              ** intros s'' id'' Hin _ E. subst x. apply dotted_inj in E. subst s''. eapply Hsl. eassumption.
              ** subst. apply lookup_insert.
           ++ left. exists s', id'. auto.
        -- right. split.
           ++ intros s' id' Hin Hl. eapply A; [right; eassumption|assumption].
           ++ rewrite lookup_insert_ne; [assumption|]. intros E. eapply A; [left|assumption|auto].
    + intros y. rewrite (I2 y). split.
      * intros [H|(s' & id' & A & B & C & D)].
        -- destruct (Nat.leb_spec id (n_inputs t + n_outputs t)); [|auto]. apply elem_of_union in H. rewrite elem_of_singleton in H.
           destruct H as [->|H]; [|auto]. right. exists s, id. split; [left|auto].
        -- right. exists s', id'. split; [right; assumption|auto].
      * intros [H|(s' & id' & A & B & C & D)].
        -- left. destruct (Nat.leb_spec id (n_inputs t + n_outputs t)); set_solver.
        -- apply elem_of_cons in A. destruct A as [Heq|A]; [|right; eauto 6]. injection Heq as -> ->. left.
           destruct (Nat.leb_spec id (n_inputs t + n_outputs t)); [|lia]. set_solver.
    + intros x v. rewrite (I1 x v). split.
      * intros [(s' & id' & A & B & C & D)|[A B]].
        -- left. exists s', id'. split; [right; assumption|auto].
        -- right. split; [|assumption]. intros s' id' Hin Hl. apply elem_of_cons in Hin. destruct Hin as [Heq|Hin]; [|eapply A; eassumption].
           injection Heq as -> ->. contradiction.
      * intros [(s' & id' & A & B & C & D)|[A B]].
        -- apply elem_of_cons in A. destruct A as [Heq|A]; [injection Heq as -> ->; contradiction|]. left. exists s', id'. auto.
        -- right. split; [|assumption]. intros s' id' Hin Hl. eapply A; [right; eassumption|assumption].
    + intros y. rewrite (I2 y). split.
      * intros [H|(s' & id' & A & B & C & D)]; [auto|]. right. exists s', id'. split; [right; assumption|auto].
      * intros [H|(s' & id' & A & B & C & D)]; [auto|]. apply elem_of_cons in A. destruct A as [Heq|A]; [injection Heq as -> ->; contradiction|].
        right. exists s', id'. auto.
Qed.

(** what [add_edge] does *)
Definition with_sub (label : string) (par : bool) (t source : node) (corr : gmap string nat) (reach : gset nat) : node :=
  Node (entry_grow (n_entry source) (n_signals t) (n_components t)) (n_template source) (n_parameters source)
    (n_signals source + n_signals t) (n_components source + n_components t) (n_intermediates source)
    (n_public_inputs source) (n_inputs source) (n_outputs source)
    corr (n_ordered source) (n_locals source) reach
    (n_forbidden source) (n_io source) (n_constraints source) (n_underscored source)
    (n_parallel source) (n_parallel_sub source || n_parallel t || par) (n_custom source) (n_indexes source).
Lemma add_edge_spec ko d to label par :
  valid_corr_order ko -> d_nodes d <> [] ->
  (to < length (d_nodes d) - 1 /\ exists source t corr reach,
    last (d_nodes d) = Some source /\ d_nodes d !! (length (d_nodes d) - 1) = Some source /\ d_nodes d !! to = Some t /\
    add_edge ko to label par d = Ok (Dag (d_field d)
      (<[length (d_nodes d) - 1 := with_sub label par t source corr reach]> (d_nodes d))
      (alter (fun es => es ++ [Edge label to (n_signals source) (n_signals source + n_signals t)
         (n_components source) (n_components source + n_components t)]) (length (d_nodes d) - 1) (d_adjacency d))) /\
    (forall x v, corr !! x = Some v <->
      (exists s id, n_corr t !! s = Some id /\ id ∈ n_locals t /\ x = dotted label s /\ v = n_signals source + id) \/
      ((forall s id, n_corr t !! s = Some id -> id ∈ n_locals t -> x <> dotted label s) /\ n_corr source !! x = Some v)) /\
    (forall y, y ∈ reach <-> y ∈ n_reachables source \/
      exists s id, n_corr t !! s = Some id /\ id ∈ n_locals t /\ id <= n_inputs t + n_outputs t /\ y = n_signals source + id)) \/
  (length (d_nodes d) - 1 <= to /\ add_edge ko to label par d = Ok d).
Proof.
  intros Hko HN. unfold add_edge.
  assert (EM : main_id d = Ok (length (d_nodes d) - 1)). { unfold main_id. destruct (d_nodes d); [contradiction|reflexivity]. }
  rewrite EM. cbn [res_bind].
  assert (0 < length (d_nodes d)). { destruct (d_nodes d); [contradiction|cbn; lia]. }
  destruct (Nat.ltb_spec to (length (d_nodes d) - 1)) as [Hto|Hto]; [left|right; split; [assumption|reflexivity]].
  split; [assumption|].
  destruct (lookup_lt_is_Some_2 (d_nodes d) (length (d_nodes d) - 1)) as [source Hs]; [lia|].
  destruct (lookup_lt_is_Some_2 (d_nodes d) to) as [t Ht]; [lia|].
  rewrite (index_ok _ _ _ Hs), (index_ok _ _ _ Ht). cbn [res_bind].
  pose proof (import_spec label (n_signals source) t (ko (n_corr t)) (n_corr source, n_reachables source)) as IS.
  destruct (foldl (import_signal label (n_signals source) t) (n_corr source, n_reachables source) (ko (n_corr t))) as [corr reach].
  exists source, t, corr, reach.
  assert (Hin : forall s id, (s, id) ∈ ko (n_corr t) <-> n_corr t !! s = Some id).
  { intros s id. rewrite (Hko (n_corr t)). apply elem_of_map_to_list. }
  destruct IS as [I1 I2]. { rewrite (Hko (n_corr t)). apply NoDup_fst_map_to_list. }
  cbn [fst snd] in I1, I2.
  split_and!; [rewrite last_lookup, <- Hs; f_equal; lia|assumption|assumption|reflexivity| |].
  - intros x v. rewrite (I1 x v). setoid_rewrite Hin. reflexivity.
  - intros y. rewrite (I2 y). setoid_rewrite Hin. reflexivity.
Qed.

Lemma sum_list_snoc l x : sum_list (l ++ [x]) = sum_list l + x.
Proof. induction l as [|y l IH]; cbn; lia. Qed.
(** adding a sub-component *)
Lemma node_num_edge ns i n es to t label corr reach c1 c2 par :
  node_num ns i n es -> to < i -> ns !! to = Some t ->
  node_num ns i (with_sub label par t n corr reach) (es ++ [Edge label to (n_signals n) (n_signals n + n_signals t) c1 c2]).
Proof.
  intros N Hto Ht. constructor; cbn [with_sub n_entry n_signals n_locals n_inputs n_outputs n_intermediates n_public_inputs entry_grow e_in e_out e_label].
  - apply (nn_in _ _ _ _ N).
  - apply (nn_label _ _ _ _ N).
  - rewrite (nn_out _ _ _ _ N). reflexivity.
  - intros e He. apply elem_of_app in He. destruct He as [He|He].
    + destruct (nn_edge _ _ _ _ N e He) as (A & B & C). split; [assumption|]. split; [lia|assumption].
    + apply elem_of_list_singleton in He. subst e. cbn [e_goes_to e_out e_in]. split; [assumption|]. split; [lia|]. eauto.
  - intros x Hx. apply (nn_local _ _ _ _ N) in Hx. lia.
  - intros x Hx. destruct (decide (x <= n_signals n)) as [Hle|Hle].
    + destruct (nn_cover _ _ _ _ N x) as [H|(e & He & HR)]; [lia|left; assumption|]. right. exists e. split; [apply elem_of_app; auto|assumption].
    + right. eexists. split; [apply elem_of_app; right; apply elem_of_list_singleton; reflexivity|]. unfold in_range. cbn [e_in e_out]. lia.
  - intros x e Hx He HR. apply elem_of_app in He. destruct He as [He|He].
    + eapply (nn_disj1 _ _ _ _ N); eassumption.
    + apply elem_of_list_singleton in He. subst e. unfold in_range in HR. cbn [e_in e_out] in HR. apply (nn_local _ _ _ _ N) in Hx. lia.
  - intros j j' e e' x Hj Hj' HR HR'. rewrite lookup_app_Some in Hj, Hj'.
    destruct Hj as [Hj|[Lj Hj]], Hj' as [Hj'|[Lj' Hj']].
    + eapply (nn_disj2 _ _ _ _ N); eassumption.
    + exfalso. apply list_lookup_singleton_Some in Hj'. destruct Hj' as [_ <-]. unfold in_range in HR'. cbn [e_in e_out] in HR'.
      pose proof (in_range_bound _ _ _ _ _ _ N (elem_of_list_lookup_2 _ _ _ Hj) HR). lia.
    + exfalso. apply list_lookup_singleton_Some in Hj. destruct Hj as [_ <-]. unfold in_range in HR. cbn [e_in e_out] in HR.
      pose proof (in_range_bound _ _ _ _ _ _ N (elem_of_list_lookup_2 _ _ _ Hj') HR'). lia.
    + apply list_lookup_singleton_Some in Hj, Hj'. lia.
  - rewrite fmap_app. cbn [fmap list_fmap]. rewrite sum_list_snoc. unfold width at 2. cbn [e_in e_out]. rewrite (nn_count _ _ _ _ N) at 1. lia.
  - apply (nn_kinds _ _ _ _ N).
  - apply (nn_forbidden _ _ _ _ N).
  - apply (nn_zero _ _ _ _ N).
Qed.

Lemma numbered_step ko d o d' : valid_corr_order ko -> numbered d -> dag_step ko d o = Ok d' -> numbered d'.
Proof.
  intros Hko HN. destruct o as [tn ps par cus|name pub|name|name|name|to label par|c|s|k]; cbn [dag_step]; intros E.
  - injection E as <-. unfold add_node. constructor; cbn [d_nodes d_adjacency]; [rewrite !app_length, (nu_length _ HN); reflexivity|].
    intros i n es Hn Hes. apply lookup_app_Some in Hn. destruct Hn as [Hn|[Li Hn]].
    + rewrite lookup_app_l in Hes by (rewrite (nu_length _ HN); eapply lookup_lt_Some; eassumption).
      eapply node_num_ext; [|eapply (nu_node _ HN); eassumption]. intros j Hj. apply lookup_app_l. apply lookup_lt_Some in Hn. lia.
    + apply list_lookup_singleton_Some in Hn. destruct Hn as [Hi <-].
      rewrite lookup_app_r in Hes by (rewrite (nu_length _ HN); lia). apply list_lookup_singleton_Some in Hes. destruct Hes as [_ <-].
      constructor; cbn; try reflexivity; try lia; try set_solver.
  - injection E as <-. apply numbered_on_main; [assumption|]. intros n es Hn. pose proof (nn_kinds _ _ _ _ Hn) as [_ HP].
    eapply node_num_signal; [exact Hn|reflexivity..|cbn; lia|cbn; destruct pub; lia|cbn; destruct pub; auto].
  - injection E as <-. apply numbered_on_main; [assumption|]. intros n es Hn. pose proof (nn_kinds _ _ _ _ Hn) as [_ HP].
    eapply node_num_signal; [exact Hn|reflexivity..|cbn; lia|cbn; lia|cbn; auto].
  - injection E as <-. apply numbered_on_main; [assumption|]. intros n es Hn. pose proof (nn_kinds _ _ _ _ Hn) as [_ HP].
    eapply node_num_signal; [exact Hn|reflexivity..|cbn; lia|cbn; lia|cbn; auto].
  - injection E as <-. apply numbered_on_main; [assumption|]. intros n es Hn. eapply node_num_same; [exact Hn|reflexivity..].
  - assert (HNE : d_nodes d <> []). { intros Z. unfold add_edge, main_id in E. rewrite Z in E. discriminate. }
    destruct (add_edge_spec ko d to label par Hko HNE) as [(Hto & source & t & corr & reach & L & Hs & Ht & EA & _ & _)|[_ EA]];
      rewrite EA in E; injection E as <-; [|assumption].
    apply numbered_main; [assumption|apply insert_length|rewrite alter_length, insert_length; apply (nu_length _ HN)| |].
    + intros j Hj. rewrite list_lookup_insert_ne, list_lookup_alter_ne by lia. auto.
    + rewrite insert_length. intros n es Hn Hes.
      rewrite list_lookup_insert in Hn by (eapply lookup_lt_Some; eassumption). injection Hn as <-.
      rewrite list_lookup_alter in Hes. apply fmap_Some in Hes. destruct Hes as (es0 & Hes0 & ->).
      apply node_num_edge; [|assumption|assumption]. eapply (nu_node _ HN); eassumption.
  - injection E as <-. apply numbered_on_main; [assumption|]. intros n es Hn. eapply node_num_same; [exact Hn|reflexivity..].
  - injection E as <-. apply numbered_on_main; [assumption|]. intros n es Hn. eapply node_num_same; [exact Hn|reflexivity..].
  - injection E as <-. apply numbered_on_main; [assumption|]. intros n es Hn. eapply node_num_same; [exact Hn|reflexivity..].
Qed.
Lemma numbered_new p : numbered (dag_new p).
Proof. constructor; [reflexivity|]. intros i n es H. cbn in H. rewrite lookup_nil in H. discriminate. Qed.
Lemma built_numbered p d : built p d -> numbered d.
Proof. induction 1; [apply numbered_new|eapply numbered_step; eassumption]. Qed.

(** ** names *)
Record node_names (n : node) : Prop := {
  na_range : forall s id, n_corr n !! s = Some id -> 1 <= id <= n_signals n;
  na_local : forall id, id ∈ n_locals n -> exists s, n_corr n !! s = Some id;
  na_inj : forall s s' id, n_corr n !! s = Some id -> n_corr n !! s' = Some id -> s = s';
}.
Definition named (d : dag) : Prop := forall i n, d_nodes d !! i = Some n -> node_names n.

Lemma node_names_signal n n' name :
  node_names n -> n_corr n !! name = None ->
  n_signals n' = n_signals n + 1 -> n_locals n' = {[ n_signals n + 1 ]} ∪ n_locals n -> n_corr n' = <[name := n_signals n + 1]> (n_corr n) ->
  node_names n'.
Proof.
  intros N F E1 E2 E3. constructor.
  - intros s id. rewrite E3, E1. intros H. apply lookup_insert_Some in H. destruct H as [(<- & <-)|[_ H]]; [lia|]. apply (na_range _ N) in H. lia.
  - intros id. rewrite E2, E3. intros H. apply elem_of_union in H. rewrite elem_of_singleton in H. destruct H as [->|H].
    + exists name. apply lookup_insert.
    + destruct (na_local _ N id H) as [s Hs]. exists s. rewrite lookup_insert_ne; [assumption|]. intros ->. congruence.
  - intros s s' id. rewrite E3. intros H H'. apply lookup_insert_Some in H, H'.
    destruct H as [(<- & <-)|[_ H]], H' as [(<- & E)|[_ H']].
    + reflexivity.
    + apply (na_range _ N) in H'. lia.
    + subst id. apply (na_range _ N) in H. lia.
    + eapply (na_inj _ N); eassumption.
Qed.
Lemma node_names_same n n' : node_names n -> n_signals n' = n_signals n -> n_locals n' = n_locals n -> n_corr n' = n_corr n -> node_names n'.
Proof. intros [] E1 E2 E3. constructor; rewrite ?E1, ?E2, ?E3; assumption. Qed.
Lemma named_on_main d f :
  named d -> (forall n, last (d_nodes d) = Some n -> node_names n -> node_names (f n)) -> named (on_main f d).
Proof.
  intros HN HF i n. unfold on_main. cbn [d_nodes]. destruct (decide (i = length (d_nodes d) - 1)) as [->|].
  - rewrite list_lookup_alter. intros H. apply fmap_Some in H. destruct H as (n0 & H & ->). apply HF; [|eapply HN; eassumption].
    rewrite last_lookup, <- H. f_equal. lia.
  - rewrite list_lookup_alter_ne by lia. apply HN.
Qed.
Lemma named_step ko d o d' : valid_corr_order ko -> named d -> fresh d o -> dag_step ko d o = Ok d' -> named d'.
Proof.
  intros Hko HN. destruct o as [tn ps par cus|name pub|name|name|name|to label par|c|s|k]; cbn [dag_step fresh]; intros F E.
  - injection E as <-. intros i n. unfold add_node. cbn [d_nodes]. intros Hn. apply lookup_app_Some in Hn. destruct Hn as [Hn|[Li Hn]]; [eapply HN; eassumption|].
    apply list_lookup_singleton_Some in Hn. destruct Hn as [_ <-]. constructor; cbn.
    + intros s id H. rewrite lookup_empty in H. discriminate.
    + set_solver.
    + intros s s' id H. rewrite lookup_empty in H. discriminate.
  - injection E as <-. apply named_on_main; [assumption|]. intros n Hl Hn. rewrite Hl in F. eapply (node_names_signal n _ name); [assumption|exact F|reflexivity..].
  - injection E as <-. apply named_on_main; [assumption|]. intros n Hl Hn. rewrite Hl in F. eapply (node_names_signal n _ name); [assumption|exact F|reflexivity..].
  - injection E as <-. apply named_on_main; [assumption|]. intros n Hl Hn. rewrite Hl in F. eapply (node_names_signal n _ name); [assumption|exact F|reflexivity..].
  - injection E as <-. apply named_on_main; [assumption|]. intros n Hl Hn. eapply (node_names_same n); [assumption|reflexivity..].
  - assert (HNE : d_nodes d <> []). { intros Z. unfold add_edge, main_id in E. rewrite Z in E. discriminate. }
    destruct (add_edge_spec ko d to label par Hko HNE) as [(Hto & source & t & corr & reach & L & Hs & Ht & EA & HC & _)|[_ EA]];
      rewrite EA in E; injection E as <-; [|assumption].
    rewrite L in F. intros i n. cbn [d_nodes]. intros Hn. destruct (decide (i = length (d_nodes d) - 1)) as [->|].
    2: { rewrite list_lookup_insert_ne in Hn by lia. eapply HN; eassumption. }
    rewrite list_lookup_insert in Hn by (eapply lookup_lt_Some; eassumption). injection Hn as <-.
    pose proof (HN _ _ Hs) as NS. pose proof (HN _ _ Ht) as NT. constructor; cbn [with_sub n_corr n_signals n_locals].
    + intros s id H. apply HC in H. destruct H as [(s' & id' & A & B & C & D)|[_ H]].
      * apply (na_range _ NT) in A. lia.
      * apply (na_range _ NS) in H. lia.
    + intros id H. destruct (na_local _ NS id H) as [s H']. exists s. apply HC. right. split; [|assumption].
      intros s' id' A B ->. pose proof (F t s' id' Ht A B). congruence.
    + intros s s' id H H'. apply HC in H, H'.
      destruct H as [(s1 & id1 & A & B & C & D)|[_ H]], H' as [(s2 & id2 & A' & B' & C' & D')|[_ H']].
      * assert (id1 = id2) as -> by lia. assert (s1 = s2) as -> by (eapply (na_inj _ NT); eassumption). congruence.
      * apply (na_range _ NS) in H'. apply (na_range _ NT) in A. lia.
      * apply (na_range _ NS) in H. apply (na_range _ NT) in A'. lia.
      * eapply (na_inj _ NS); eassumption.
  - injection E as <-. apply named_on_main; [assumption|]. intros n Hl Hn. eapply (node_names_same n); [assumption|reflexivity..].
  - injection E as <-. apply named_on_main; [assumption|]. intros n Hl Hn. eapply (node_names_same n); [assumption|reflexivity..].
  - injection E as <-. apply named_on_main; [assumption|]. intros n Hl Hn. eapply (node_names_same n); [assumption|reflexivity..].
Qed.
Lemma named_new p : named (dag_new p).
Proof. intros i n H. cbn in H. rewrite lookup_nil in H. discriminate. Qed.
Lemma built_with_built P p d : built_with P p d -> built p d.
Proof. induction 1; [constructor|econstructor; eassumption]. Qed.
Lemma built_with_mono (P Q : dag -> dag_op -> Prop) p d : (forall d o, P d o -> Q d o) -> built_with P p d -> built_with Q p d.
Proof. intros H. induction 1; [constructor|econstructor; eauto]. Qed.
Lemma built_named p d : built_with fresh p d -> named d.
Proof. induction 1; [apply named_new|eapply named_step; eassumption]. Qed.

(** ** declaration order: the signals of a node come first *)
Fixpoint chain (a : nat) (es : list edge) (b : nat) : Prop :=
  match es with [] => a = b | e :: es => e_in e = a /\ a <= e_out e /\ chain (e_out e) es b end.
Lemma chain_snoc a es b e : chain a es b -> e_in e = b -> b <= e_out e -> chain a (es ++ [e]) (e_out e).
Proof. revert a. induction es as [|x es IH]; cbn [chain app]; intros a; [intros -> -> H; auto|]. intros (A & B & C) D H. auto. Qed.
Definition compact_node (n : node) (es : list edge) : Prop :=
  (forall x, x ∈ n_locals n <-> 1 <= x <= size (n_locals n)) /\ chain (size (n_locals n)) es (n_signals n) /\
  (forall x, x ∈ n_forbidden n <-> x <= n_outputs n + n_public_inputs n) /\
  (n_io n = seq 1 (n_outputs n + n_inputs n)).
Definition compact (d : dag) : Prop :=
  forall i n es, d_nodes d !! i = Some n -> d_adjacency d !! i = Some es -> compact_node n es.
Lemma compact_on_main d f :
  length (d_adjacency d) = length (d_nodes d) -> compact d ->
  (forall n es, last (d_nodes d) = Some n -> last (d_adjacency d) = Some es -> compact_node n es -> compact_node (f n) es) -> compact (on_main f d).
Proof.
  intros HL HN HF i n es. unfold on_main. cbn [d_nodes d_adjacency]. destruct (decide (i = length (d_nodes d) - 1)) as [->|].
  - rewrite list_lookup_alter. intros H Hes. apply fmap_Some in H. destruct H as (n0 & H & ->).
    apply HF; [rewrite last_lookup, <- H; f_equal; lia|rewrite last_lookup, HL, <- Hes; f_equal; lia|eapply HN; eassumption].
  - rewrite list_lookup_alter_ne by lia. apply HN.
Qed.
Lemma chain_nil n : chain (size (n_locals n)) [] (n_signals n) -> size (n_locals n) = n_signals n.
Proof. exact id. Qed.
(** a signal declared while there are no sub-components *)
Lemma compact_signal n n' pub_or_out io :
  compact_node n [] -> n_signals n' = n_signals n + 1 -> n_locals n' = {[ n_signals n + 1 ]} ∪ n_locals n ->
  (if (pub_or_out : bool) then n_forbidden n' = {[ n_signals n + 1 ]} ∪ n_forbidden n /\ n_outputs n' + n_public_inputs n' = S (n_outputs n + n_public_inputs n)
     /\ n_signals n = n_outputs n + n_public_inputs n
   else n_forbidden n' = n_forbidden n /\ n_outputs n' + n_public_inputs n' = n_outputs n + n_public_inputs n) ->
  (if (io : bool) then n_io n' = n_io n ++ [n_signals n + 1] /\ n_outputs n' + n_inputs n' = S (n_outputs n + n_inputs n) /\ n_signals n = n_outputs n + n_inputs n
   else n_io n' = n_io n /\ n_outputs n' + n_inputs n' = n_outputs n + n_inputs n) ->
  compact_node n' [].
Proof.
  intros (A & B & C & D) E1 E2 E3 E4. cbn [chain] in B.
  assert (S1 : size (n_locals n') = S (size (n_locals n))).
  { rewrite E2, size_union, size_singleton; [reflexivity|]. intros x Hx Hx'. apply elem_of_singleton in Hx. apply A in Hx'. lia. }
  split_and!.
  - intros x. rewrite S1, E2, elem_of_union, elem_of_singleton, (A x). lia.
  - cbn [chain]. lia.
  - intros x. destruct pub_or_out.
    + destruct E3 as (F1 & F2 & F3). rewrite F1, F2, elem_of_union, elem_of_singleton, (C x). lia.
    + destruct E3 as (F1 & F2). rewrite F1, F2. apply C.
  - destruct io.
    + destruct E4 as (F1 & F2 & F3). rewrite F1, F2, D, seq_S. f_equal. f_equal. lia.
    + destruct E4 as (F1 & F2). rewrite F1, F2. exact D.
Qed.
Lemma compact_step ko d o d' : valid_corr_order ko -> numbered d -> compact d -> in_order d o -> dag_step ko d o = Ok d' -> compact d'.
Proof.
  intros Hko HU HN.
  assert (KIND : forall n es, last (d_nodes d) = Some n -> last (d_adjacency d) = Some es ->
    size (n_locals n) = n_inputs n + n_outputs n + n_intermediates n).
  { intros n es Hn Hes. rewrite last_lookup in Hn. rewrite last_lookup in Hes. rewrite (nu_length _ HU) in Hes.
    apply (nn_kinds _ _ _ _ (nu_node _ HU _ _ _ Hn Hes)). }
  destruct o as [tn ps par cus|name pub|name|name|name|to label par|c|s|k]; cbn [dag_step in_order]; intros F E.
  - injection E as <-. intros i n es. unfold add_node. cbn [d_nodes d_adjacency]. intros Hn Hes. apply lookup_app_Some in Hn. destruct Hn as [Hn|[Li Hn]].
    + rewrite lookup_app_l in Hes by (rewrite (nu_length _ HU); eapply lookup_lt_Some; eassumption). eapply HN; eassumption.
    + apply list_lookup_singleton_Some in Hn. destruct Hn as [Hi <-].
      rewrite lookup_app_r in Hes by (rewrite (nu_length _ HU); lia). apply list_lookup_singleton_Some in Hes. destruct Hes as [_ <-].
      split_and!; cbn; [|reflexivity| |reflexivity].
      * intros x. rewrite size_empty. split; [set_solver|lia].
      * intros x. rewrite elem_of_singleton. lia.
  - injection E as <-. apply compact_on_main; [apply (nu_length _ HU)|assumption|]. intros n es Hl Hes Hn. rewrite Hl in F.
    pose proof (KIND n es Hl Hes) as K. destruct pub.
    + destruct F as (F & FI & FM). assert (es = []) as -> by congruence. pose proof (chain_nil n ltac:(apply Hn)).
      apply (compact_signal n _ true true); [assumption|reflexivity|reflexivity| |]; cbn; split_and!; try reflexivity; lia.
    + destruct F as (F & FM). assert (es = []) as -> by congruence. pose proof (chain_nil n ltac:(apply Hn)).
      apply (compact_signal n _ false true); [assumption|reflexivity|reflexivity| |]; cbn; split_and!; try reflexivity; lia.
  - injection E as <-. apply compact_on_main; [apply (nu_length _ HU)|assumption|]. intros n es Hl Hes Hn. rewrite Hl in F.
    pose proof (KIND n es Hl Hes) as K. destruct F as (F & FI & FM). assert (es = []) as -> by congruence. pose proof (chain_nil n ltac:(apply Hn)).
    assert (n_public_inputs n = 0).
    { rewrite last_lookup in Hl. rewrite last_lookup in Hes. rewrite (nu_length _ HU) in Hes. pose proof (proj2 (nn_kinds _ _ _ _ (nu_node _ HU _ _ _ Hl Hes))). lia. }
    apply (compact_signal n _ true true); [assumption|reflexivity|reflexivity| |]; cbn; split_and!; try reflexivity; lia.
  - injection E as <-. apply compact_on_main; [apply (nu_length _ HU)|assumption|]. intros n es Hl Hes Hn. rewrite Hl in F.
    assert (es = []) as -> by congruence.
    apply (compact_signal n _ false false); [assumption|reflexivity|reflexivity| |]; cbn; split_and!; reflexivity.
  - injection E as <-. apply compact_on_main; [apply (nu_length _ HU)|assumption|]. intros n es _ _ Hn. exact Hn.
  - assert (HNE : d_nodes d <> []). { intros Z. unfold add_edge, main_id in E. rewrite Z in E. discriminate. }
    destruct (add_edge_spec ko d to label par Hko HNE) as [(Hto & source & t & corr & reach & L & Hs & Ht & EA & _ & _)|[_ EA]];
      rewrite EA in E; injection E as <-; [|assumption].
    intros i n es. cbn [d_nodes d_adjacency]. intros Hn Hes. destruct (decide (i = length (d_nodes d) - 1)) as [->|].
    2: { rewrite list_lookup_insert_ne in Hn by lia. rewrite list_lookup_alter_ne in Hes by lia. eapply HN; eassumption. }
    rewrite list_lookup_insert in Hn by (eapply lookup_lt_Some; eassumption). injection Hn as <-.
    rewrite list_lookup_alter in Hes. apply fmap_Some in Hes. destruct Hes as (es0 & Hes0 & ->).
    destruct (HN _ _ _ Hs Hes0) as (A & B & C & D). split_and!; cbn [with_sub n_locals n_forbidden n_outputs n_public_inputs n_io n_inputs n_signals]; try assumption.
    eapply chain_snoc in B; [exact B|reflexivity|cbn; lia].
  - injection E as <-. apply compact_on_main; [apply (nu_length _ HU)|assumption|]. intros n es _ _ Hn. exact Hn.
  - injection E as <-. apply compact_on_main; [apply (nu_length _ HU)|assumption|]. intros n es _ _ Hn. exact Hn.
  - injection E as <-. apply compact_on_main; [apply (nu_length _ HU)|assumption|]. intros n es _ _ Hn. exact Hn.
Qed.
Lemma built_compact p d : built_with in_order p d -> compact d.
Proof.
  induction 1 as [|ko d o d' Hko HB IH HI E]; [intros i n es H; cbn in H; rewrite lookup_nil in H; discriminate|].
  eapply compact_step; [exact Hko|eapply built_numbered, built_with_built; exact HB|exact IH|exact HI|exact E].
Qed.

(** ** constraints mention signals that exist *)
Definition scoped (d : dag) : Prop := forall i n c k, d_nodes d !! i = Some n -> c ∈ n_constraints n -> in_c k c -> 1 <= k <= n_signals n.
Lemma scoped_on_main d f :
  scoped d -> (forall n, last (d_nodes d) = Some n ->
    (forall c k, c ∈ n_constraints n -> in_c k c -> 1 <= k <= n_signals n) -> forall c k, c ∈ n_constraints (f n) -> in_c k c -> 1 <= k <= n_signals (f n)) ->
  scoped (on_main f d).
Proof.
  intros HN HF i n c k. unfold on_main. cbn [d_nodes]. destruct (decide (i = length (d_nodes d) - 1)) as [->|].
  - rewrite list_lookup_alter. intros H. apply fmap_Some in H. destruct H as (n0 & H & ->). apply HF.
    + rewrite last_lookup, <- H. f_equal. lia.
    + intros c0 k0. apply (HN _ _ _ _ H).
  - rewrite list_lookup_alter_ne by lia. apply HN.
Qed.
Lemma scoped_step ko d o d' : valid_corr_order ko -> scoped d -> in_scope d o -> dag_step ko d o = Ok d' -> scoped d'.
Proof.
  intros Hko HN. destruct o as [tn ps par cus|name pub|name|name|name|to label par|c|s|k]; cbn [dag_step in_scope]; intros F E.
  - injection E as <-. intros i n c k. unfold add_node. cbn [d_nodes]. intros Hn. apply lookup_app_Some in Hn. destruct Hn as [Hn|[Li Hn]]; [eapply HN; eassumption|].
    apply list_lookup_singleton_Some in Hn. destruct Hn as [_ <-]. cbn. intros Hc. apply elem_of_nil in Hc. contradiction.
  - injection E as <-. apply scoped_on_main; [assumption|]. intros n _ H c k. cbn. intros Hc Hk. pose proof (H c k Hc Hk). lia.
  - injection E as <-. apply scoped_on_main; [assumption|]. intros n _ H c k. cbn. intros Hc Hk. pose proof (H c k Hc Hk). lia.
  - injection E as <-. apply scoped_on_main; [assumption|]. intros n _ H c k. cbn. intros Hc Hk. pose proof (H c k Hc Hk). lia.
  - injection E as <-. apply scoped_on_main; [assumption|]. intros n _ H c k. cbn. apply H.
  - assert (HNE : d_nodes d <> []). { intros Z. unfold add_edge, main_id in E. rewrite Z in E. discriminate. }
    destruct (add_edge_spec ko d to label par Hko HNE) as [(Hto & source & t & corr & reach & L & Hs & Ht & EA & _ & _)|[_ EA]];
      rewrite EA in E; injection E as <-; [|assumption].
    intros i n c k. cbn [d_nodes]. intros Hn. destruct (decide (i = length (d_nodes d) - 1)) as [->|].
    2: { rewrite list_lookup_insert_ne in Hn by lia. eapply HN; eassumption. }
    rewrite list_lookup_insert in Hn by (eapply lookup_lt_Some; eassumption). injection Hn as <-. cbn [with_sub n_constraints n_signals].
    intros Hc Hk. pose proof (HN _ _ _ _ Hs Hc Hk). lia.
  - injection E as <-. apply scoped_on_main; [assumption|]. intros n Hl H c0 k. rewrite Hl in F. cbn. intros Hc Hk.
    apply elem_of_app in Hc. destruct Hc as [Hc|Hc]; [exact (H c0 k Hc Hk)|]. apply elem_of_list_singleton in Hc. subst c0. exact (F k Hk).
  - injection E as <-. apply scoped_on_main; [assumption|]. intros n _ H c0 k0. cbn. apply H.
  - injection E as <-. apply scoped_on_main; [assumption|]. intros n _ H c0 k0. cbn. apply H.
Qed.
Lemma built_scoped p d : built_with in_scope p d -> scoped d.
Proof. induction 1; [intros i n c k H; cbn in H; rewrite lookup_nil in H; discriminate|eapply scoped_step; eassumption]. Qed.

(** ** cleaning *)
Lemma numbered_clean d : numbered d -> numbered (clean_constraints d).
Proof.
  intros HN. unfold clean_constraints. constructor; cbn [d_nodes d_adjacency]; [rewrite fmap_length; apply (nu_length _ HN)|].
  intros i n es Hn Hes. rewrite list_lookup_fmap in Hn. apply fmap_Some in Hn. destruct Hn as (n0 & Hn & ->).
  pose proof (nu_node _ HN _ _ _ Hn Hes) as N. eapply (node_num_same _ _ n0); [|reflexivity..].
  destruct N. constructor; try assumption. intros e He. destruct (nn_edge0 e He) as (A & B & t & C & D).
  split; [assumption|]. split; [assumption|]. exists (clean_node t). rewrite list_lookup_fmap, C. auto.
Qed.
Lemma named_clean d : named d -> named (clean_constraints d).
Proof.
  intros HN i n. cbn [clean_constraints d_nodes]. rewrite list_lookup_fmap. intros H. apply fmap_Some in H. destruct H as (n0 & H & ->).
  eapply (node_names_same n0); [eapply HN; eassumption|reflexivity..].
Qed.
Lemma compact_clean d : compact d -> compact (clean_constraints d).
Proof.
  intros HN i n es. cbn [clean_constraints d_nodes d_adjacency]. rewrite list_lookup_fmap. intros H Hes. apply fmap_Some in H. destruct H as (n0 & H & ->).
  exact (HN _ _ _ H Hes).
Qed.
Lemma remove_zeros_sub k m : in_lin k (remove_zeros m) -> in_lin k m.
Proof. intros (H & v & E). split; [assumption|]. apply map_filter_lookup_Some in E. destruct E as [E _]. eauto. Qed.
Lemma in_c_remove_zeros k c : in_c k (c_remove_zeros c) -> in_c k c.
Proof. unfold in_c. cbn [c_remove_zeros c_a c_b c_c]. intros [H|[H|H]]; apply remove_zeros_sub in H; auto. Qed.
Lemma elem_of_clean c n : c ∈ n_constraints (clean_node n) <-> is_empty c = false /\ exists c0, c0 ∈ n_constraints n /\ c = c_remove_zeros c0.
Proof.
  unfold clean_node. cbn [node_set_constraints n_constraints]. rewrite elem_of_list_filter, elem_of_list_fmap.
  split; [intros (A & c0 & -> & B); eauto|intros (A & c0 & B & ->); eauto].
Qed.
Lemma scoped_clean d : scoped d -> scoped (clean_constraints d).
Proof.
  intros HN i n c k. cbn [clean_constraints d_nodes]. rewrite list_lookup_fmap. intros H. apply fmap_Some in H. destruct H as (n0 & H & ->).
  intros Hc Hk. apply elem_of_clean in Hc. destruct Hc as (_ & c0 & Hc & ->). apply in_c_remove_zeros in Hk. exact (HN _ _ _ _ H Hc Hk).
Qed.
