(** What is handed to the R1CS writer. *)
From stdpp Require Import prelude gmap fin_maps sorting strings.
From Coq Require Import ZArith Lia Znumtheory.
From Verif Require Import ModArithModel ModArithProofs AlgebraModel AlgebraSpec AlgebraProofs LinearSimpModel LinearSpec PipelineModel PipelineSpec
  EqSimpProofs BytesModel R1csModel RenumberProofs DagModel DagSpec DagProofs WalkProofs FlattenProofs MapProofs.
Open Scope nat_scope.

(** ** renaming signals to wires *)
Record wire_map (m : gmap nat nat) : Prop := {
  wm_zero : m !! 0 = Some 0;
  wm_mono : forall k k' v v', m !! k = Some v -> m !! k' = Some v' -> (k < k' <-> v < v');
  wm_onto : forall v, v < size m <-> exists k, m !! k = Some v;
}.
Lemma wm_inj m k k' v : wire_map m -> m !! k = Some v -> m !! k' = Some v -> k = k'.
Proof. intros W H H'. pose proof (wm_mono _ W _ _ _ _ H H'). pose proof (wm_mono _ W _ _ _ _ H' H). lia. Qed.
Lemma wm_pos m k v : wire_map m -> m !! k = Some v -> k <> 0 -> v <> 0.
Proof. intros W H Hk. pose proof (wm_mono _ W _ _ _ _ (wm_zero _ W) H). lia. Qed.
Lemma renamed_canon p g m m' : renamed g m m' -> canon p m -> canon p m'.
Proof. intros HR HC k v H. apply HR in H. destruct H as (k0 & _ & H). eapply HC. exact H. Qed.
Lemma renamed_in m corr m' : renamed (corr_key corr) m m' -> (forall k v, corr !! k = Some v -> k <> 0 -> v <> 0) ->
  forall k', in_lin k' m' <-> exists k, in_lin k m /\ corr !! k = Some k'.
Proof.
  intros HR HP k'. unfold in_lin. split.
  - intros (Hk & v & H). apply HR in H. destruct H as (k & E & H). unfold corr_key in E. destruct (Nat.eqb k cc) eqn:EK; [injection E as <-; contradiction|].
    apply Nat.eqb_neq in EK. exists k. split; [split; [exact EK|eauto]|assumption].
  - intros (k & (Hk & v & H) & E). split; [eapply HP; eassumption|]. exists v. apply HR. exists k. split; [|assumption].
    unfold corr_key. destruct (Nat.eqb k cc) eqn:EK; [apply Nat.eqb_eq in EK; contradiction|assumption].
Qed.
Lemma c_correspondence_spec p m c : wire_map m -> (forall k, in_c k c -> is_Some (m !! k)) -> canon_c p c ->
  exists c', c_correspondence c m = Ok c' /\ canon_c p c' /\
    (forall k', in_c k' c' <-> exists k, in_c k c /\ m !! k = Some k') /\
    (forall ρ ρ', (forall k k', in_c k c -> m !! k = Some k' -> ρ' k' = ρ k) -> (holds p ρ' c' <-> holds p ρ c)) /\
    (is_empty c' = is_empty c).
Proof.
  intros W HM (CA & CB & CC).
  assert (S : forall l, (forall k, in_lin k l -> in_c k c) -> canon p l -> exists l', raw_correspondence l m = Ok l' /\ canon p l' /\
    (forall k', in_lin k' l' <-> exists k, in_lin k l /\ m !! k = Some k') /\
    (forall ρ ρ', (forall k k', in_c k c -> m !! k = Some k' -> ρ' k' = ρ k) -> leval ρ' l' = leval ρ l) /\ size l' = size l).
  { intros l Hl Cl. destruct (raw_correspondence_spec m l) as (l' & E & HR & HI).
    - intros k Hk. destruct (HM k (Hl k Hk)) as [v Hv]. exists v. split; [assumption|]. eapply wm_pos; [eassumption|eassumption|apply Hk].
    - intros k1 k2 k' _ _ H1 H2. eapply wm_inj; eassumption.
    - exists l'. split; [assumption|]. split; [eapply renamed_canon; eassumption|]. split; [|split].
      + apply (renamed_in l m l' HR). intros k v H1 H2. eapply wm_pos; eassumption.
      + intros ρ ρ' HA. eapply renamed_leval; [exact HR|exact HI|]. intros k Hk. unfold corr_key. destruct (Nat.eqb k cc) eqn:EK.
        * apply Nat.eqb_eq in EK. subst k. exists cc. split; reflexivity.
        * apply Nat.eqb_neq in EK. assert (in_lin k l) as Hin by (split; assumption). destruct (HM k (Hl k Hin)) as [v Hv]. exists v. split; [assumption|].
          assert (v <> 0) by (eapply wm_pos; eassumption). unfold sv. destruct v as [|v]; [contradiction|]. destruct k as [|k]; [contradiction|].
          apply HA; [apply Hl; assumption|assumption].
      + eapply renamed_size; [exact HR|exact HI|]. intros k Hk. unfold corr_key. destruct (Nat.eqb k cc) eqn:EK; [eauto|].
        apply Nat.eqb_neq in EK. apply HM, Hl. split; assumption. }
  destruct (S (c_a c)) as (a & EA & KA & IA & VA & SA); [unfold in_c; auto|assumption|].
  destruct (S (c_b c)) as (b & EB & KB & IB & VB & SB); [unfold in_c; auto|assumption|].
  destruct (S (c_c c)) as (e & EC & KC & IC & VC & SC); [unfold in_c; auto|assumption|].
  unfold c_correspondence. rewrite EA, EB, EC. cbn [res_bind]. eexists. split; [reflexivity|]. split; [split_and!; assumption|]. split; [|split].
  - intros k'. unfold in_c. cbn [c_a c_b c_c]. rewrite (IA k'), (IB k'), (IC k'). split.
    + intros [(k & A & B)|[(k & A & B)|(k & A & B)]]; exists k; auto.
    + intros (k & [A|[A|A]] & B); [left|right; left|right; right]; eauto.
  - intros ρ ρ' HA. unfold holds. cbn [c_a c_b c_c]. rewrite (VA ρ ρ' HA), (VB ρ ρ' HA), (VC ρ ρ' HA). reflexivity.
  - assert (Q : forall l l' : lin, size l' = size l -> is_empty_map l' = is_empty_map l).
    { intros l l' Hs. unfold is_empty_map. apply bool_decide_ext. rewrite <- !map_size_empty_iff. rewrite Hs. reflexivity. }
    unfold is_empty. cbn [c_a c_b c_c]. rewrite (Q _ _ SA), (Q _ _ SB), (Q _ _ SC). reflexivity.
Qed.

(** ** the wire-to-label table *)
Lemma fill_spec (l : list (nat * nat)) w : NoDup (snd <$> l) -> (forall k v, (k, v) ∈ l -> v < length w) ->
  exists w', res_foldl (fun witness kv => if kv.2 <? length witness then Ok (<[kv.2 := kv.1]> witness) else Panic) w l = Ok w' /\
    length w' = length w /\ (forall k v, (k, v) ∈ l -> w' !! v = Some k) /\ (forall v, v ∉ (snd <$> l) -> w' !! v = w !! v).
Proof.
  revert w. induction l as [|[k v] l IH]; intros w ND HB.
  - exists w. split; [reflexivity|]. split; [reflexivity|]. split; [intros k v H; apply elem_of_nil in H; contradiction|auto].
  - rewrite fmap_cons in ND. apply NoDup_cons in ND. destruct ND as [Hv ND]. cbn [snd] in Hv. assert (Lv : v < length w) by (eapply HB; left).
    rewrite res_foldl_cons. cbn [fst snd]. rewrite (proj2 (Nat.ltb_lt _ _) Lv). cbn [res_bind].
    destruct (IH (<[v := k]> w) ND) as (w' & E & HL & H1 & H2). { intros k' v' H. rewrite insert_length. eapply HB. right. eassumption. }
    exists w'. split; [assumption|]. split; [rewrite HL, insert_length; reflexivity|]. split.
    + intros k' v' H. apply elem_of_cons in H. destruct H as [H|H]; [|apply H1; assumption]. injection H as -> ->.
      rewrite H2 by assumption. apply list_lookup_insert. assumption.
    + intros v' Hv'. rewrite fmap_cons in Hv'. cbn [snd] in Hv'. apply not_elem_of_cons in Hv'. destruct Hv' as [N1 N2].
      rewrite H2 by assumption. apply list_lookup_insert_ne. auto.
Qed.
Lemma witness_vec_spec mo m : (forall m : gmap nat nat, mo m ≡ₚ map_to_list m) -> wire_map m ->
  exists w, get_witness_as_vec mo m = Ok w /\ length w = size m /\ forall v k, w !! v = Some k <-> m !! k = Some v.
Proof.
  intros Hmo W. unfold get_witness_as_vec.
  assert (HM : forall k v, (k, v) ∈ mo m <-> m !! k = Some v). { intros k v. rewrite (Hmo m). apply elem_of_map_to_list. }
  destruct (fill_spec (mo m) (replicate (size m) 0)) as (w & E & HL & H1 & _).
  - apply nodup_fmap_inj; [|rewrite (Hmo m); apply NoDup_map_to_list]. intros [k v] [k' v'] A B. cbn [snd]. intros ->. apply HM in A, B. f_equal. eapply wm_inj; eassumption.
  - intros k v H. rewrite replicate_length. apply (wm_onto _ W). exists k. apply HM. assumption.
  - rewrite replicate_length in HL. exists w. split; [assumption|]. split; [assumption|]. intros v k. split.
    + intros H. assert (Lv : v < size m) by (rewrite <- HL; eapply lookup_lt_Some; eassumption). apply (wm_onto _ W) in Lv. destruct Lv as [k' Hk'].
      rewrite (H1 k' v (proj2 (HM _ _) Hk')) in H. injection H as <-. assumption.
    + intros H. apply H1, HM. assumption.
Qed.

(** ** custom gates *)
(** the sub-components of a custom gate are not visited *)
Definition pruned (d : dag) (i : nat) : list edge := if n_custom (node_at d i) then [] else edges_of d i.
Lemma pruned_descending d : numbered d -> descending (pruned d).
Proof. intros HU i e. unfold pruned. destruct (n_custom (node_at d i)); [intros H; apply elem_of_nil in H; contradiction|apply numbered_descending; assumption]. Qed.
Definition visited_instances (d : dag) : list inst := walk (pruned d) (length (d_nodes d)) (root d).
(** the gates met by the walk, in order: name and the numbers of the ordered signals *)
Definition gate_signals (d : dag) (x : inst) : list nat :=
  (fun s => global x (default 0 (n_corr (node_at d (i_node x)) !! s))) <$> n_ordered (node_at d (i_node x)).
Definition is_gate (d : dag) (x : inst) : Prop := n_custom (node_at d (i_node x)) = true.
Global Instance is_gate_dec d x : Decision (is_gate d x). Proof. unfold is_gate. apply _. Defined.
Definition gates (d : dag) : list inst := filter (is_gate d) (visited_instances d).
Lemma foldl_gate_concat {B} d (f : inst -> B) l acc :
  foldl (fun acc x => if n_custom (node_at d (i_node x)) then acc ++ [f x] else acc) acc l = acc ++ (f <$> filter (is_gate d) l).
Proof.
  revert acc. induction l as [|x l IH]; intros acc; cbn [foldl]; [rewrite app_nil_r; reflexivity|]. rewrite IH, filter_cons.
  destruct (decide (is_gate d x)) as [e|e]; unfold is_gate in e.
  - rewrite e, fmap_cons, <- app_assoc. reflexivity.
  - destruct (n_custom (node_at d (i_node x))); [contradiction e; reflexivity|]. reflexivity.
Qed.
Lemma map_signals (corr : gmap string nat) off ord ks (m : nat -> option nat) :
  Forall2 (fun s k => corr !! s = Some k) ord ks -> (forall k, k ∈ ks -> is_Some (m (k + off))) -> forall acc,
  res_foldl (fun acc signal => match m (signal + off) with Some w => Ok (acc ++ [w]) | None => Panic end) acc ks =
  Ok (acc ++ ((fun s => default 0 (m (default 0 (corr !! s) + off))) <$> ord)).
Proof.
  induction 1 as [|s k ord ks H HF IH]; intros HM acc; [rewrite app_nil_r; reflexivity|]. rewrite res_foldl_cons. destruct (HM k) as [w Hw]; [left|].
  rewrite Hw. cbn [res_bind]. rewrite IH by (intros k' Hk'; apply HM; right; assumption). rewrite fmap_cons, H. change (default 0 (Some k)) with k. rewrite Hw, <- app_assoc. reflexivity.
Qed.
Section gates.
  Context (d : dag) (HU : numbered d) (HO : all_nodes ordered_ok d).
  Lemma gate_signal_local x n id : d_nodes d !! i_node x = Some n -> id ∈ gate_signals d x -> exists k, k ∈ n_locals n /\ id = global x k.
  Proof.
    intros Hn H. unfold gate_signals in H. rewrite (node_at_lookup _ _ _ Hn) in H. apply elem_of_list_fmap in H. destruct H as (s & -> & Hs).
    destruct (HO _ _ Hn s Hs) as (k & A & B). exists k. rewrite A. auto.
  Qed.
  Lemma iterate_gates_gwalk enc m fuel it data :
    iterate_gates fuel enc m it data = gwalk
      (fun it data => res_bind (index (enc_nodes enc) (it_node it)) (fun n => if en_custom n then
        res_bind (res_foldl (fun acc signal => match m !! (signal + it_offset it) with Some w => Ok (acc ++ [w]) | None => Panic end)
          [] (en_ordered n)) (fun signals => Ok (data ++ [(en_name n, signals)])) else Ok data))
      (fun it => res_bind (index (enc_nodes enc) (it_node it)) (fun n => if en_custom n then Ok [] else iterator_edges enc it))
      (iterator_next enc) fuel it data.
  Proof.
    revert it data. induction fuel as [|fuel IH]; intros it data; [reflexivity|]. cbn [iterate_gates gwalk].
    destruct (index (enc_nodes enc) (it_node it)) as [n| |]; cbn [res_bind]; [|reflexivity|reflexivity]. destruct (en_custom n).
    - destruct (res_foldl _ [] (en_ordered n)); cbn [res_bind]; reflexivity.
    - cbn [res_bind]. destruct (iterator_edges enc it) as [es| |]; cbn [res_bind]; [|reflexivity|reflexivity]. apply res_foldl_ext. intros a e _.
      destruct (iterator_next enc it e); cbn [res_bind]; [apply IH|reflexivity|reflexivity].
  Qed.
  Lemma iterate_gates_spec enc m it : d_nodes d <> [] -> encodes d enc -> iter_of d it (root d) ->
    (forall x k, instance d x -> is_gate d x -> k ∈ gate_signals d x -> is_Some (m !! k)) -> forall fuel, length (d_nodes d) <= fuel ->
    iterate_gates fuel enc m it [] = Ok ((fun x => (n_template (node_at d (i_node x)), (fun k => default 0 (m !! k)) <$> gate_signals d x)) <$> gates d).
  Proof.
    intros HNE HE HI HM fuel HF. destruct (main_node d HNE) as (n0 & _ & _ & HL & _). rewrite iterate_gates_gwalk.
    rewrite (gwalk_spec _ _ _ (iter_of d) (fun acc x => Ok (if n_custom (node_at d (i_node x)) then acc ++ [(n_template (node_at d (i_node x)), (fun k => default 0 (m !! k)) <$> gate_signals d x)] else acc))
      (pruned d)) with (x := root d).
    - rewrite (res_foldl_ok (fun acc x => if n_custom (node_at d (i_node x)) then acc ++ [(n_template (node_at d (i_node x)), (fun k => default 0 (m !! k)) <$> gate_signals d x)] else acc)).
      rewrite (foldl_gate_concat d (fun x => (n_template (node_at d (i_node x)), (fun k => default 0 (m !! k)) <$> gate_signals d x))). cbn [app]. unfold gates, visited_instances.
      rewrite (walk_fuel (pruned d) fuel (length (d_nodes d)) (root d)); [reflexivity|apply pruned_descending; assumption|lia|assumption].
    - intros it0 x a H0. destruct (instance_node d x HU (io_inst _ _ _ H0)) as (n & es & Hn & _). rewrite (io_node _ _ _ H0), (io_offset _ _ _ H0).
      destruct (ec_node _ _ HE _ _ Hn) as (en & He & E1 & E2 & E3 & E4 & E5 & E6 & E7). rewrite (index_ok _ _ _ He). cbn [res_bind]. rewrite E7, (node_at_lookup _ _ _ Hn).
      destruct (n_custom n) eqn:EC; [|reflexivity].
      rewrite (map_signals (n_corr n) (i_off x) (n_ordered n) (en_ordered en) (fun k => m !! k) E5).
      + cbn [app res_bind]. rewrite E2. unfold gate_signals. rewrite (node_at_lookup _ _ _ Hn), <- list_fmap_compose. reflexivity.
      + intros k Hk. apply (HM x); [apply H0|unfold is_gate; rewrite (node_at_lookup _ _ _ Hn); assumption|]. unfold gate_signals. rewrite (node_at_lookup _ _ _ Hn).
        apply elem_of_list_lookup in Hk. destruct Hk as [j Hj]. destruct (Forall2_lookup_r _ _ _ _ _ E5 Hj) as (s & Hs & Hc).
        apply elem_of_list_fmap. exists s. rewrite Hc. split; [reflexivity|]. eapply elem_of_list_lookup_2. eassumption.
    - intros it0 x H0. destruct (instance_node d x HU (io_inst _ _ _ H0)) as (n & es & Hn & _). rewrite (io_node _ _ _ H0).
      destruct (ec_node _ _ HE _ _ Hn) as (en & He & E1 & E2 & E3 & E4 & E5 & E6 & E7). rewrite (index_ok _ _ _ He). cbn [res_bind]. rewrite E7.
      unfold pruned. rewrite (node_at_lookup _ _ _ Hn). destruct (n_custom n).
      + exists []. split; [reflexivity|]. split; [reflexivity|]. intros j e e0 Hj. rewrite lookup_nil in Hj. discriminate.
      + apply iterator_edges_spec; assumption.
    - apply pruned_descending. assumption.
    - assumption.
    - lia.
  Qed.
  Lemma traverse_tree_gwalk ko fuel t data :
    traverse_tree fuel ko d t data = gwalk
      (fun t data => res_bind (index (d_nodes d) (t_node t)) (fun n => if n_custom n then
        res_bind (res_foldl (fun acc signal => match n_corr n !! signal with Some i => Ok (acc ++ [i + t_offset t]) | None => Panic end)
          [] (n_ordered n)) (fun signals => Ok (data ++ [(n_template n, signals)])) else Ok data))
      (fun t => res_bind (index (d_nodes d) (t_node t)) (fun n => if n_custom n then Ok [] else get_edges d t))
      (go_to_subtree ko d) fuel t data.
  Proof.
    revert t data. induction fuel as [|fuel IH]; intros t data; [reflexivity|]. cbn [traverse_tree gwalk].
    destruct (index (d_nodes d) (t_node t)) as [n| |]; cbn [res_bind]; [|reflexivity|reflexivity]. destruct (n_custom n).
    - destruct (res_foldl _ [] (n_ordered n)); cbn [res_bind]; reflexivity.
    - cbn [res_bind]. destruct (get_edges d t) as [es| |]; cbn [res_bind]; [|reflexivity|reflexivity]. apply res_foldl_ext. intros a e _.
      destruct (go_to_subtree ko d t e); cbn [res_bind]; [apply IH|reflexivity|reflexivity].
  Qed.
  Lemma traverse_tree_spec ko t (HN : named d) : d_nodes d <> [] -> valid_corr_order ko -> tree_of d t (root d) -> forall fuel, length (d_nodes d) <= fuel ->
    traverse_tree fuel ko d t [] = Ok ((fun x => (n_template (node_at d (i_node x)), gate_signals d x)) <$> gates d).
  Proof.
    intros HNE Hko HT fuel HF. destruct (main_node d HNE) as (n0 & _ & _ & HL & _). rewrite traverse_tree_gwalk.
    rewrite (gwalk_spec _ _ _ (tree_of d) (fun acc x => Ok (if n_custom (node_at d (i_node x)) then acc ++ [(n_template (node_at d (i_node x)), gate_signals d x)] else acc))
      (pruned d)) with (x := root d).
    - rewrite (res_foldl_ok (fun acc x => if n_custom (node_at d (i_node x)) then acc ++ [(n_template (node_at d (i_node x)), gate_signals d x)] else acc)).
      rewrite (foldl_gate_concat d (fun x => (n_template (node_at d (i_node x)), gate_signals d x))). cbn [app]. unfold gates, visited_instances.
      rewrite (walk_fuel (pruned d) fuel (length (d_nodes d)) (root d)); [reflexivity|apply pruned_descending; assumption|lia|assumption].
    - intros t0 x a H0. destruct (instance_node d x HU (to_inst _ _ _ H0)) as (n & es & Hn & _). rewrite (to_node _ _ _ H0), (to_offset _ _ _ H0), (index_ok _ _ _ Hn).
      cbn [res_bind]. rewrite (node_at_lookup _ _ _ Hn). destruct (n_custom n); [|reflexivity]. unfold gate_signals. rewrite (node_at_lookup _ _ _ Hn).
      assert (G : forall l acc, (forall s, s ∈ l -> s ∈ n_ordered n) ->
        res_foldl (fun acc signal => match n_corr n !! signal with Some i => Ok (acc ++ [i + i_off x]) | None => Panic end) acc l =
        Ok (acc ++ ((fun s => global x (default 0 (n_corr n !! s))) <$> l))).
      { induction l as [|s l IH]; intros acc Hl; [rewrite app_nil_r; reflexivity|]. rewrite res_foldl_cons. destruct (HO _ _ Hn s (Hl s ltac:(left))) as (k & A & _).
        rewrite A. cbn [res_bind]. rewrite IH by (intros s' H'; apply Hl; right; assumption). rewrite fmap_cons, A, <- app_assoc. reflexivity. }
      rewrite (G (n_ordered n) []) by auto. reflexivity.
    - intros t0 x H0. destruct (instance_node d x HU (to_inst _ _ _ H0)) as (n & es & Hn & _). rewrite (to_node _ _ _ H0), (index_ok _ _ _ Hn). cbn [res_bind].
      unfold pruned. rewrite (node_at_lookup _ _ _ Hn). destruct (n_custom n).
      + exists []. split; [reflexivity|]. split; [reflexivity|]. intros j e e0 Hj. rewrite lookup_nil in Hj. discriminate.
      + apply tree_edges; assumption.
    - apply pruned_descending. assumption.
    - assumption.
    - lia.
  Qed.
End gates.
(** the table of gates and the index of each application *)
Lemma gate_usage_spec (ns : list (bool * string * list Z)) acc : 
  (forall b s ps, (b, s, ps) ∈ ns -> b = true -> exists r, gate_name s = Ok r) ->
  exists used, res_foldl (fun acc '(custom, name, params) =>
    if (custom : bool) then res_map (fun n => (acc.1 ++ [(n, params)], acc.2 ++ [name])) (gate_name name) else Ok acc) acc ns =
    Ok (acc.1 ++ used, acc.2 ++ ((fun x => x.1.2) <$> filter (fun x => x.1.1 = true) ns)) /\
    Forall2 (fun x u => gate_name x.1.2 = Ok u.1 /\ u.2 = x.2) (filter (fun x => x.1.1 = true) ns) used.
Proof.
  revert acc. induction ns as [|[[b s] ps] ns IH]; intros acc H.
  - exists []. rewrite !app_nil_r. split; [destruct acc; reflexivity|constructor].
  - rewrite res_foldl_cons, filter_cons. cbn [fst snd]. destruct b.
    + destruct (H true s ps) as [r Hr]; [left|reflexivity|]. rewrite Hr. cbn [res_map res_bind]. rewrite decide_True by reflexivity.
      destruct (IH (acc.1 ++ [(r, ps)], acc.2 ++ [s])) as (used & E & F). { intros b' s' ps' H'. apply (H b' s' ps'). right. assumption. }
      exists ((r, ps) :: used). rewrite E. cbn [fst snd]. rewrite <- !app_assoc. split; [reflexivity|]. constructor; [auto|assumption].
    + rewrite decide_False by discriminate. cbn [res_bind]. apply IH. intros b' s' ps' H'. apply (H b' s' ps'). right. assumption.
Qed.
Lemma find_index_spec order name : name ∈ order -> exists i, find_index order name = Ok i /\ order !! i = Some name /\ forall j, j < i -> order !! j <> Some name.
Proof.
  induction order as [|s order IH]; intros H; [apply elem_of_nil in H; contradiction|]. cbn [find_index]. case_bool_decide as E.
  - exists 0. subst s. split; [reflexivity|]. split; [reflexivity|]. intros j Hj. lia.
  - apply elem_of_cons in H. destruct H as [->|H]; [contradiction|]. destruct (IH H) as (i & -> & A & B). exists (S i). split; [reflexivity|]. split; [assumption|].
    intros [|j] Hj; [cbn; congruence|]. cbn. apply B. lia.
Qed.
Lemma find_indexes_spec order (data : list (string * list nat)) (acc : list (Z * list Z)) : (forall name l, (name, l) ∈ data -> name ∈ order) ->
  exists applied, res_foldl (fun acc '(name, signals) => res_map (fun i => acc ++ [(Z.of_nat i, Z.of_nat <$> signals)]) (find_index order name)) acc data = Ok (acc ++ applied) /\
    Forall2 (fun x a => exists i, a = (Z.of_nat i, Z.of_nat <$> x.2) /\ order !! i = Some x.1 /\ forall j, j < i -> order !! j <> Some x.1) data applied.
Proof.
  revert acc. induction data as [|[name l] data IH]; intros acc H.
  - exists []. rewrite app_nil_r. split; [reflexivity|constructor].
  - destruct (find_index_spec order name) as (i & E & A & B); [eapply H; left|]. rewrite res_foldl_cons, E. cbn [res_map res_bind].
    destruct (IH (acc ++ [(Z.of_nat i, Z.of_nat <$> l)])) as (ap & E' & F). { intros n' l' H'. eapply H. right. eassumption. }
    eexists. rewrite E', <- app_assoc. split; [reflexivity|]. constructor; [|eassumption]. exists i. auto.
Qed.
