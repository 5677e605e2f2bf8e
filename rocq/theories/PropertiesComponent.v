(** C65: the inputs of a component are assigned exactly once, with the tags they require, before its
    outputs are used. *)
From stdpp Require Import prelude strings gmap numbers list.
From Verif Require Import MemSliceModel MemSliceSpec MemSliceProofs PropertiesMem FlowModel ComponentModel ComponentSpec ComponentProofs ComponentRunProofs.
Open Scope nat_scope.

Lemma end_iff checks t exec anon h tv n : well_typed t exec h -> simple exec h ->
  template_end checks exec t (Create anon :: (Assign <$> h)) = COk (Some (ExecNode tv n)) <-> correct t exec h tv n /\ exactly_once n h.
Proof.
  intros HT HM. unfold template_end. destruct (creation_cases checks t exec anon h HT HM) as [(c & -> & HR)|(e & -> & HD)]; cbn [cbind].
  - unfold final_check. destruct HR as [[W Hne]|(tv' & n' & HE & HA)].
    + rewrite (w_pointer _ _ _ W). rewrite bool_decide_false by assumption. cbn. split; [discriminate|]. intros [(_ & HG & _ & _) _]. exfalso. apply Hne.
      apply set_eq. intros x. split; [|intros K; apply elem_of_empty in K as []]. intros Hx. apply (w_untags _ _ _ W) in Hx as (tags & Hx & Hn & HN).
      destruct (HG x tags Hx Hn) as (a & Ha & E). exfalso. exact (HN a Ha E).
    + rewrite (ex_pointer _ _ _ _ HE), (ex_untags _ _ _ _ HE). rewrite bool_decide_true by reflexivity. cbn [andb]. destruct HA as [HC HO]. case_bool_decide as HU.
      * cbn. apply (executed_complete _ _ _ _ HE) in HU. split.
        -- intros [= <- <-]. split; [assumption|]. apply once_split. auto.
        -- intros [(B1 & B2 & B3 & B4) B5]. destruct HC as (C1 & C2 & C3 & C4). assert (tv' = tv) as -> by (eapply tags_unique; eassumption). congruence.
      * cbn. split; [discriminate|]. intros [(B1 & B2 & B3 & B4) B5]. destruct HC as (C1 & C2 & C3 & C4). assert (tv' = tv) as -> by (eapply tags_unique; eassumption). assert (n' = n) as -> by congruence.
        exfalso. apply HU. apply (executed_complete _ _ _ _ HE). apply once_split in B5 as [_ ?]. assumption.
  - split; [discriminate|]. intros [HC HO]. exfalso. apply (HD [] tv n). rewrite app_nil_r. split; [assumption|]. apply once_split in HO as [? _]. assumption.
Qed.

(** A template that creates a component and assigns its inputs, under no unknown condition, is accepted
    exactly if the values carry the tags of the inputs, always with the same values, every assignment
    fits its input, and every signal of every input of the instance is assigned exactly once.  The
    component is then the instance for these tags.  It does not matter which assignments had to wait
    for tags. *)
Theorem C65_exactly_once : forall checks t exec anon h tv n, well_typed t exec h -> unconditional h ->
  template_end checks exec t (Create anon :: (Assign <$> h)) = COk (Some (ExecNode tv n)) <-> correct t exec h tv n /\ exactly_once n h.
Proof. intros. apply end_iff; [assumption|left; assumption]. Qed.
Print Assumptions C65_exactly_once.

(** The same for assignments under unknown conditions, if no two of them designate a common signal. *)
Theorem C65_conditional : forall checks t exec anon h tv n, well_typed t exec h -> no_overlap exec h ->
  template_end checks exec t (Create anon :: (Assign <$> h)) = COk (Some (ExecNode tv n)) <-> correct t exec h tv n /\ exactly_once n h.
Proof. intros. apply end_iff; [assumption|right; assumption]. Qed.
Print Assumptions C65_conditional.

(** All other such templates are rejected with an error. *)
Theorem C65_rejected : forall checks t exec anon h, well_typed t exec h -> unconditional h \/ no_overlap exec h ->
  ~ (exists tv n, correct t exec h tv n /\ exactly_once n h) -> exists e, template_end checks exec t (Create anon :: (Assign <$> h)) = CErr e.
Proof.
  intros checks t exec anon h HT HM HN. assert (K : forall tv n, template_end checks exec t (Create anon :: (Assign <$> h)) <> COk (Some (ExecNode tv n))).
  { intros tv n E. apply HN. exists tv, n. eapply end_iff; eassumption. }
  revert K. unfold template_end. destruct (creation_cases checks t exec anon h HT HM) as [(c & -> & HR)|(e & -> & HD)]; cbn [cbind]; [|eauto]. intros K.
  unfold final_check in *. destruct HR as [[W Hne]|(tv' & n' & HE & HA)].
  - rewrite (w_pointer _ _ _ W). rewrite bool_decide_false by assumption. cbn. eauto.
  - rewrite (ex_pointer _ _ _ _ HE) in *. destruct (_ && _); [|cbn; eauto]. cbn in K. exfalso. exact (K _ _ eq_refl).
Qed.
Print Assumptions C65_rejected.

(** At any point of such a template an output can be read exactly if every signal of every input has been
    assigned (and the index is right). *)
Theorem C65_outputs : forall checks t exec anon h c out access, well_typed t exec h -> unconditional h \/ no_overlap exec h ->
  crun checks exec t default_comp (Create anon :: (Assign <$> h)) = COk c -> out ∉ dom (t_inputs t) ->
  (exists s, get_io_value c out access = COk s) <->
  (exists tv n dims, correct t exec h tv n /\ exactly_once n h /\ n_outputs n !! out = Some dims /\ in_bounds (Slice dims ([] : list unit)) access).
Proof.
  intros checks t exec anon h c out access HT HM HR Ho. destruct (creation_cases checks t exec anon h HT HM) as [(c' & E & HRe)|(e & E & _)]; [|congruence]. assert (c' = c) as -> by congruence. clear E.
  unfold get_io_value, check_initialized_inputs. destruct HRe as [[W Hne]|(tv & n & HE & HC & HO)].
  - rewrite (w_pointer _ _ _ W), (w_outputs _ _ _ W), (w_init _ _ _ W), lookup_empty. rewrite (bool_decide_false (c_untags c = ∅)) by assumption. rewrite bool_decide_false by (intros [? ?]; discriminate). cbn.
    split; [intros [s ?]; discriminate|]. intros (tv & n & dims & (_ & HG & _) & _). exfalso. apply Hne.
    apply set_eq. intros x. split; [|intros K; apply elem_of_empty in K as []]. intros Hx. apply (w_untags _ _ _ W) in Hx as (tags & Hx & Hn & HN).
    destruct (HG x tags Hx Hn) as (a & Ha & E). exfalso. exact (HN a Ha E).
  - rewrite (ex_pointer _ _ _ _ HE), (ex_outputs _ _ _ _ HE), (ex_init _ _ _ _ HE). cbn [negb]. unfold the_outputs. rewrite lookup_fmap.
    assert (HI : c_inputs c !! out = None).
    { apply (ex_none _ _ _ _ HE). apply not_elem_of_dom. intros K. apply Ho. destruct HT as [_ HT]. destruct HC as (_ & _ & C3 & _). destruct (HT _ _ C3) as [K' _]. apply K'. assumption. }
    assert (KU : forall tv' n', correct t exec h tv' n' -> tv' = tv /\ n' = n).
    { intros tv' n' (B1 & B2 & B3 & B4). destruct HC as (C1 & C2 & C3 & C4). assert (tv' = tv) as -> by (eapply tags_unique; eassumption). split; [reflexivity|congruence]. }
    destruct (n_outputs n !! out) as [dims|] eqn:Hd.
    + cbn [fmap option_fmap option_map]. rewrite (bool_decide_true (is_Some _)) by eauto. cbn [andb]. case_bool_decide as HU; cbn [negb cbind].
      * rewrite HI. apply (executed_complete _ _ _ _ HE) in HU. set (s := new_with_route dims (Some [])).
        assert (HB : in_bounds s access <-> in_bounds (Slice dims ([] : list unit)) access) by reflexivity.
        destruct (in_bounds_dec s access) as [B|B].
        -- rewrite access_values_ok by (assumption || apply new_shaped). cbn. split; [|eauto]. intros _. exists tv, n, dims. split; [assumption|]. split; [apply once_split; auto|]. split; [assumption|]. apply HB. assumption.
        -- rewrite access_values_err by assumption. cbn. split; [intros [? ?]; discriminate|]. intros (tv' & n' & dims' & K & _ & Hd' & B'). apply KU in K as [-> ->]. assert (dims' = dims) as -> by congruence. exfalso. apply B, HB. assumption.
      * split; [intros [? ?]; discriminate|]. intros (tv' & n' & dims' & K & O & _). apply KU in K as [-> ->]. exfalso. apply HU. apply (executed_complete _ _ _ _ HE). apply once_split in O as [_ ?]. assumption.
    + cbn [fmap option_fmap option_map]. rewrite (bool_decide_false (is_Some None)) by (intros [? ?]; discriminate). cbn [andb cbind]. rewrite HI.
      split; [intros [? ?]; discriminate|]. intros (tv' & n' & dims' & K & _ & Hd' & _). apply KU in K as [-> ->]. congruence.
Qed.
Print Assumptions C65_outputs.

(** The order of the assignments does not matter. *)
Theorem C65_order : forall checks t exec anon h h' r, well_typed t exec h -> unconditional h \/ no_overlap exec h -> h ≡ₚ h' ->
  template_end checks exec t (Create anon :: (Assign <$> h)) = COk r -> template_end checks exec t (Create anon :: (Assign <$> h')) = COk r.
Proof.
  intros checks t exec anon h h' r HT HM HP HE.
  assert (HTimes : forall x p, times h x p = times h' x p) by (intros x p; unfold times; rewrite HP; reflexivity).
  assert (HT' : well_typed t exec h'). { destruct HT as [(rank & R1 & R2) R3]. split; [|assumption]. exists rank. split; [assumption|]. intros a Ha. apply R2. rewrite HP. assumption. }
  assert (HM' : simple exec h'). { destruct HM as [U|U]; [left; intros a Ha; apply U; rewrite HP; assumption|right]. intros tv n He x dims p Hx Hp. rewrite <- HTimes. eapply U; eassumption. }
  assert (exists tv n, r = Some (ExecNode tv n)) as (tv & n & ->).
  { revert HE. unfold template_end. destruct (creation_cases checks t exec anon h HT HM) as [(c & -> & HR)|(e & -> & HD)]; cbn [cbind]; [|discriminate]. unfold final_check.
    destruct HR as [[W Hne]|(tv' & n' & HEx & HA)]; [rewrite (w_pointer _ _ _ W), bool_decide_false by assumption; discriminate|]. rewrite (ex_pointer _ _ _ _ HEx). destruct (_ && _); [|discriminate]. cbn. intros [= <-]. eauto. }
  apply end_iff in HE as [((A1 & A2) & B & C & D) O]; [|assumption..]. apply end_iff; [assumption..|]. split; [|intros x dims p Hx Hp; rewrite <- HTimes; eapply O; eassumption].
  split; [split; [assumption|]; intros a vals tag v Ha; apply A2; rewrite HP; assumption|]. split; [intros x tags Hx Hn; destruct (B x tags Hx Hn) as (a & Ha & E); exists a; rewrite <- HP; auto|]. split; [assumption|].
  intros a Ha. apply D. rewrite HP. assumption.
Qed.
Print Assumptions C65_order.

(** Nothing can be done with a component before it is created, and one that is not anonymous is created
    once. *)
Theorem C65_create_first : forall checks t exec a x access l, 
  (exists e, crun checks exec t default_comp (Assign a :: l) = CErr e) /\ (exists e, crun checks exec t default_comp (ReadIO x access :: l) = CErr e).
Proof. intros. split; cbn; eauto. Qed.
Print Assumptions C65_create_first.
Theorem C65_create_once : forall checks t exec anon h c l, well_typed t exec h -> unconditional h \/ no_overlap exec h ->
  crun checks exec t default_comp (Create anon :: (Assign <$> h)) = COk c -> crun checks exec t c (Create false :: l) = CErr MultipleAssignmentsComponent.
Proof.
  intros checks t exec anon h c l HT HM HR. destruct (creation_cases checks t exec anon h HT HM) as [(c' & E & HRe)|(e & E & _)]; [|congruence]. assert (c' = c) as -> by congruence.
  cbn [crun cstep]. unfold preinitialize. rewrite bool_decide_true; [reflexivity|]. destruct HRe as [[W _]|(tv & n & HE & _)]; [rewrite (w_pointer _ _ _ W)|rewrite (ex_pointer _ _ _ _ HE)]; eauto.
Qed.
Print Assumptions C65_create_once.

(** * What fails *)

Global Instance mem_error_dec : EqDecision mem_error. Proof. solve_decision. Defined.
Global Instance cerr_dec : EqDecision cerr. Proof. solve_decision. Defined.
Global Instance node_dec : EqDecision node. Proof. solve_decision. Defined.
Global Instance pointer_dec : EqDecision pointer. Proof. solve_decision. Defined.
Global Instance cres_dec {A} `{EqDecision A} : EqDecision (cres A). Proof. solve_decision. Defined.

Definition simple_t : interface := Interface {["a" := ∅]}.
Definition simple_exec (dims : list nat) (tv : gmap string tagvals) : option node := Some (Node {["a" := dims]} {["out" := []]}).
Definition simple_asg (access route : list nat) (cs : conds) : assignment := Asg "a" access route false None cs.
Lemma simple_typed dims h : (forall a, a ∈ h -> a_input a = "a" /\ length (a_access a) + length (a_route a) = length dims) -> well_typed simple_t (simple_exec dims) h.
Proof.
  intros H. split.
  - exists (fun _ => length dims). split; [|intros a Ha; apply H; assumption]. intros tv n x d [= <-] Hd. cbn in Hd. apply lookup_singleton_Some in Hd as [_ <-]. reflexivity.
  - intros tv n [= <-]. cbn. split; [rewrite !dom_singleton_L; reflexivity|]. rewrite !dom_singleton_L. apply disjoint_singleton_l. rewrite elem_of_singleton. discriminate.
Qed.
Lemma filter_in {A} (P Q : A -> Prop) `{forall x, Decision (P x)} `{forall x, Decision (Q x)} (l : list A) : (forall x, x ∈ l -> P x <-> Q x) -> filter P l = filter Q l.
Proof.
  induction l as [|y l IH]; intros E; [reflexivity|]. rewrite !filter_cons, (IH (fun x Hx => E x (elem_of_list_further _ _ _ Hx))). pose proof (E y (elem_of_list_here _ _)).
  destruct (decide (P y)), (decide (Q y)); tauto.
Qed.
Lemma simple_list P (l : list assignment) : Forall P l -> forall a, a ∈ l -> P a.
Proof. rewrite Forall_forall. auto. Qed.

(** With [input a[2]], [if (s == 0) c.a[0] <-- 1; else c.a[0] <-- 2;] counts as the assignment of both
    signals: the template is accepted and the output can be read, though [c.a[1]] is never assigned. *)
Theorem C65_both_branches_refuted : ~ (forall checks t exec anon h tv n, well_typed t exec h ->
  template_end checks exec t (Create anon :: (Assign <$> h)) = COk (Some (ExecNode tv n)) -> at_least_once n h).
Proof.
  intros H. set (h := [simple_asg [0] [] [(0, true)]; simple_asg [0] [] [(0, false)]]).
  specialize (H true simple_t (simple_exec [2]) false h {["a" := ∅]} (Node {["a" := [2]]} {["out" := []]})).
  assert (W : well_typed simple_t (simple_exec [2]) h) by (apply simple_typed, simple_list; repeat (constructor; [split; reflexivity|]); constructor). specialize (H W).
  specialize (H ltac:(apply (bool_decide_unpack _); vm_compute; exact I) "a" [2] [1] eq_refl). assert (K : [1] ∈ paths [2]) by (cbn; right; left).
  specialize (H K). vm_compute in H. lia.
Qed.
Print Assumptions C65_both_branches_refuted.

(** An input assigned in one branch only counts as assigned: there is a choice of the conditions for
    which it gets no value. *)
Theorem C65_one_branch_refuted : ~ (forall checks t exec anon h tv n v, well_typed t exec h ->
  template_end checks exec t (Create anon :: (Assign <$> h)) = COk (Some (ExecNode tv n)) -> at_least_once n (filter (happens v) h)).
Proof.
  intros H. set (h := [simple_asg [] [] [(0, true)]]).
  specialize (H true simple_t (simple_exec []) false h {["a" := ∅]} (Node {["a" := []]} {["out" := []]}) (fun _ => false)).
  assert (W : well_typed simple_t (simple_exec []) h) by (apply simple_typed, simple_list; repeat (constructor; [split; reflexivity|]); constructor). specialize (H W).
  specialize (H ltac:(apply (bool_decide_unpack _); vm_compute; exact I) "a" [] [] eq_refl). assert (K : [] ∈ paths []) by (cbn; left).
  specialize (H K). unfold h in H. rewrite filter_cons, decide_False, filter_nil in H; [vm_compute in H; lia|]. intros N. specialize (N 0 true (elem_of_list_here _ _)). discriminate.
Qed.
Print Assumptions C65_one_branch_refuted.

(** A program in which every choice of the conditions assigns every signal exactly once is not always
    accepted: with [input a[2][2]],
    [if (s == 0) c.a[0][0] <-- 1; else c.a[0][0] <-- 2;  c.a[0][1] <-- 3;  c.a[1] <-- row;]
    makes the number of missing signals negative: the compiler panics if it was compiled with overflow
    checks, and otherwise reports missing inputs. *)
Theorem C65_underflow_refuted : exists t exec h n tv, well_typed t exec h /\ exec tv = Some n /\
  (forall v, exactly_once n (filter (happens v) h)) /\
  template_end true exec t (Create false :: (Assign <$> h)) = CPanic /\ template_end false exec t (Create false :: (Assign <$> h)) = CErr MissingInputs.
Proof.
  set (h := [simple_asg [0; 0] [] [(0, true)]; simple_asg [0; 0] [] [(0, false)]; simple_asg [0; 1] [] []; simple_asg [1] [2] []]).
  exists simple_t, (simple_exec [2; 2]), h, (Node {["a" := [2; 2]]} {["out" := []]}), ∅. split.
  { apply simple_typed, simple_list. repeat (constructor; [split; reflexivity|]). constructor. }
  split; [reflexivity|]. split; [|split; vm_compute; reflexivity].
  assert (K : forall b p, p ∈ paths [2; 2] -> times (filter (happens (fun _ => b)) h) "a" p = 1).
  { intros b p Hp. cbn in Hp. rewrite !elem_of_cons in Hp. destruct Hp as [->|[->|[->|[->|Hp]]]]; [destruct b; vm_compute; reflexivity..|]. apply elem_of_nil in Hp as []. }
  intros v x dims p Hx Hp. cbn [n_inputs] in Hx. apply lookup_singleton_Some in Hx as [<- <-]. rewrite <- (K (v 0) p Hp). unfold times. f_equal. f_equal. apply filter_in. intros a Ha. unfold h in Ha. rewrite !elem_of_cons in Ha.
  destruct Ha as [->|[->|[->|[->|Ha]]]]; unfold happens; cbn [a_conds simple_asg]; [..|apply elem_of_nil in Ha as []];
    split; intros N i b Hin; try (apply elem_of_nil in Hin as []; fail); apply elem_of_list_singleton in Hin as [= -> ->]; apply (N 0); left.
Qed.
Print Assumptions C65_underflow_refuted.

(** An input with tags that is declared in a branch that the instance does not take makes the template
    unusable: [template T(n) { if (n == 1) { signal input {b} x; } signal input y; ... }] with [n = 0].
    All inputs of the instance can be assigned exactly once, and the component is rejected; it is also
    rejected if [x] is assigned. *)
Definition absent_t : interface := Interface {["x" := {["b"]}; "y" := ∅]}.
Definition absent_exec (tv : gmap string tagvals) : option node := Some (Node {["y" := []]} {["out" := []]}).
Theorem C65_absent_input_refuted : ~ (forall checks t exec anon h tv n, well_typed t exec h -> unconditional h ->
  tags_agree t tv h -> exec tv = Some n -> (forall a, a ∈ h -> exists dims, n_inputs n !! a_input a = Some dims /\ fits dims a) -> exactly_once n h ->
  template_end checks exec t (Create anon :: (Assign <$> h)) = COk (Some (ExecNode tv n))).
Proof.
  intros H. set (h := [Asg "y" [] [] false None []]).
  specialize (H true absent_t absent_exec false h {["x" := {["b" := None]}; "y" := ∅]} (Node {["y" := []]} {["out" := []]})).
  assert (E : template_end true absent_exec absent_t (Create false :: (Assign <$> h)) = CErr MissingInputs) by (vm_compute; reflexivity).
  rewrite E in H. assert (D : forall x tags, t_inputs absent_t !! x = Some tags -> x = "x" /\ tags = {["b"]} \/ x = "y" /\ tags = ∅).
  { intros x tags Hx. cbn in Hx. apply lookup_insert_Some in Hx as [[<- <-]|[_ Hx]]; [auto|]. apply lookup_singleton_Some in Hx as [<- <-]. auto. }
  assert (W : well_typed absent_t absent_exec h).
  { split.
    - exists (fun _ => 0). split; [|intros a Ha; apply elem_of_list_singleton in Ha as ->; reflexivity]. intros tv n x d [= <-] Hd. cbn [n_inputs] in Hd. apply lookup_singleton_Some in Hd as [_ <-]. reflexivity.
    - intros tv n [= <-]. clear. cbn [n_inputs n_outputs t_inputs absent_t]. rewrite dom_insert_L, !dom_singleton_L. split; [set_solver|]. apply disjoint_singleton_l. rewrite elem_of_union, !elem_of_singleton. intros [?|?]; discriminate. }
  discriminate H; [assumption|..].
  - intros a Ha. apply elem_of_list_singleton in Ha as ->. reflexivity.
  - split; [split|].
    + apply (bool_decide_unpack _); vm_compute; exact I.
    + intros x vals tags Hx Ht. apply D in Ht as [[-> ->]|[-> ->]]; vm_compute in Hx; injection Hx as <-; apply (bool_decide_unpack _); vm_compute; exact I.
    + intros a vals tag v Ha. apply elem_of_list_singleton in Ha as ->. intros Hx. vm_compute in Hx. injection Hx as <-. intros K. vm_compute in K. discriminate.
  - reflexivity.
  - intros a Ha. apply elem_of_list_singleton in Ha as ->. exists []. split; [reflexivity|]. split; [cbn; lia|]. split; [|reflexivity]. intros i k m Hk. cbn [a_access] in Hk. rewrite lookup_nil in Hk. discriminate.
  - intros x dims p Hx Hp. cbn [n_inputs] in Hx. apply lookup_singleton_Some in Hx as [<- <-]. cbn in Hp. apply elem_of_list_singleton in Hp as ->. vm_compute. reflexivity.
Qed.
Print Assumptions C65_absent_input_refuted.

(** A non-trivial case: [T] has the inputs [a], an array whose first dimension is the value of the tag
    [size] of the input [b], and [b] itself.  The first row of [a] is assigned before [b], so it waits. *)
Definition ex_t : interface := Interface {["a" := ∅; "b" := {["size"]}]}.
Definition ex_exec (tv : gmap string tagvals) : option node :=
  match tv !! "b" ≫= (.!! "size") with
  | Some (Some k) => Some (Node {["a" := [Z.to_nat k; 2]; "b" := []]} {["out" := [3]]})
  | _ => None
  end.
Definition ex_b : assignment := Asg "b" [] [] true (Some {["size" := Some 2%Z; "other" := None]}) [].
Definition ex_row (i : nat) : assignment := Asg "a" [i] [2] true None [].
Definition ex_node : node := Node {["a" := [2; 2]; "b" := []]} {["out" := [3]]}.
Definition ex_tags : gmap string tagvals := {["a" := ∅; "b" := {["size" := Some 2%Z]}]}.
Example C65_hypotheses : well_typed ex_t ex_exec [ex_row 1; ex_b; ex_row 0] /\ unconditional [ex_row 1; ex_b; ex_row 0].
Proof.
  split.
  - split.
    + exists (fun x => if decide (x = "a") then 2 else 0). split.
      * intros tv n x dims He Hd. unfold ex_exec in He. destruct (tv !! "b" ≫= (.!! "size")) as [[k|]|]; [|discriminate..]. injection He as <-. cbn [n_inputs] in Hd.
        apply lookup_insert_Some in Hd as [[<- <-]|[Hne Hd]]; [reflexivity|]. apply lookup_singleton_Some in Hd as [<- <-]. reflexivity.
      * apply simple_list. repeat (constructor; [reflexivity|]). constructor.
    + intros tv n He. unfold ex_exec in He. destruct (tv !! "b" ≫= (.!! "size")) as [[k|]|]; [|discriminate..]. injection He as <-. cbn [n_inputs n_outputs t_inputs ex_t].
      rewrite !dom_insert_L, !dom_singleton_L. split; [reflexivity|]. apply disjoint_singleton_l. rewrite elem_of_union, !elem_of_singleton. intros [?|?]; discriminate.
  - intros a Ha. revert a Ha. apply simple_list. repeat (constructor; [reflexivity|]). constructor.
Qed.
Example C65_example :
  template_end true ex_exec ex_t (Create false :: (Assign <$> [ex_row 1; ex_b; ex_row 0])) = COk (Some (ExecNode ex_tags ex_node)) /\
  template_end true ex_exec ex_t (Create false :: (Assign <$> [ex_row 1; ex_b])) = CErr MissingInputs /\
  template_end true ex_exec ex_t (Create false :: (Assign <$> [ex_row 1; ex_b; ex_row 1])) = CErr MultipleAssignments /\
  template_end true ex_exec ex_t (Create false :: (Assign <$> [ex_row 1; ex_b; ex_row 2])) = CErr (MemoryProblem OutOfBoundsError) /\
  template_end true ex_exec ex_t (Create false :: (Assign <$> [ex_row 1; Asg "b" [] [] false (a_tags ex_b) []; ex_row 0])) = CErr (AssignmentMissingTags "b" "size").
Proof. apply (bool_decide_unpack _). vm_compute. exact I. Qed.
(** and one that meets the hypotheses of [C65_conditional] but not those of [C65_exactly_once] *)
Example C65_conditional_hypotheses : let h := [simple_asg [0] [] [(0, true)]; simple_asg [1] [] [(0, false)]] in
  well_typed simple_t (simple_exec [2]) h /\ no_overlap (simple_exec [2]) h /\ ~ unconditional h.
Proof.
  split; [apply simple_typed, simple_list; repeat (constructor; [split; reflexivity|]); constructor|]. split.
  - intros tv n [= <-] x dims p Hx Hp. cbn [n_inputs] in Hx. apply lookup_singleton_Some in Hx as [<- <-]. cbn in Hp. rewrite !elem_of_cons in Hp. destruct Hp as [->|[->|Hp]]; [vm_compute; lia..|]. apply elem_of_nil in Hp as [].
  - intros U. specialize (U _ (elem_of_list_here _ _)). discriminate.
Qed.
