(** Proofs about the inputs of components: whole histories. *)
From stdpp Require Import prelude strings gmap numbers list.
From Verif Require Import MemSliceModel MemSliceSpec MemSliceProofs PropertiesMem FlowModel ComponentModel ComponentSpec ComponentProofs.
Open Scope nat_scope.

Lemma filter_all {A} (P : A -> Prop) `{forall x, Decision (P x)} (l : list A) : (forall x, x ∈ l -> P x) -> filter P l = l.
Proof. induction l as [|y l IH]; intros H0; [reflexivity|]. rewrite filter_cons, decide_True by (apply H0; left). f_equal. apply IH. intros x Hx. apply H0. right. assumption. Qed.
Lemma filter_none {A} (P : A -> Prop) `{forall x, Decision (P x)} (l : list A) : (forall x, x ∈ l -> ~ P x) -> filter P l = [].
Proof. induction l as [|y l IH]; intros H0; [reflexivity|]. rewrite filter_cons, decide_False by (apply H0; left). apply IH. intros x Hx. apply H0. right. assumption. Qed.

(** * Steps of an executed component *)

Definition slots (n : node) (h : list assignment) : Prop :=
  (forall a, a ∈ h -> exists dims, n_inputs n !! a_input a = Some dims /\ fits dims a) /\ at_most_once n h.
Lemma slots_app n h h' : slots n (h ++ h') -> slots n h.
Proof.
  intros [H1 H2]. split; [intros a Ha; apply H1; apply elem_of_app; auto|]. intros x dims p Hx Hp. specialize (H2 x dims p Hx Hp). rewrite times_app in H2. lia.
Qed.
Lemma fits_dec dims a : Decision (fits dims a).
Proof.
  set (s := Slice dims ([] : list assigned)). destruct (in_bounds_dec s (a_access a)) as [B|B]; [destruct (decide (a_route a = rest_of s (a_access a))) as [R|R]|];
    [left; apply (fits_bounds _ _ s eq_refl); auto|right; intros F; apply (fits_bounds _ _ s eq_refl) in F as [? ?]; contradiction..].
Qed.
Definition mode (n : node) (h : list assignment) : Prop := unconditional h \/ at_most_once n h.
Lemma mode_app n h h' : mode n (h ++ h') -> mode n h.
Proof.
  intros [H|H]; [left; apply unconditional_app in H as [? _]; assumption|right]. intros x dims p Hx Hp. specialize (H x dims p Hx Hp). rewrite times_app in H. lia.
Qed.
Definition ranks_ok (n : node) (h : list assignment) : Prop :=
  forall a dims, a ∈ h -> n_inputs n !! a_input a = Some dims -> length (a_access a) + length (a_route a) = length dims.

Lemma exec_step checks tv n h c a vals given : executed tv n h c -> slots n h -> tv !! a_input a = Some vals -> ranks_ok n [a] -> mode n (h ++ [a]) ->
  (exists c', assign_init checks c (a_input a) (a_access a) (a_route a) given (a_conds a) = COk c' /\ executed tv n (h ++ [a]) c' /\ slots n (h ++ [a]) /\ carries vals given) \/
  (exists e, assign_init checks c (a_input a) (a_access a) (a_route a) given (a_conds a) = CErr e /\ ~ (slots n (h ++ [a]) /\ carries vals given)).
Proof.
  intros HE HS Hvals HL HM.
  assert (HL' : forall dims, n_inputs n !! a_input a = Some dims -> length (a_access a) + length (a_route a) = length dims) by (intros dims; apply HL; left).
  assert (KE : ~ (carries vals given /\ exists dims, n_inputs n !! a_input a = Some dims /\ fits dims a /\
      (unconditional h -> forall p, p ∈ paths dims -> a_access a `prefix_of` p -> times h (a_input a) p = 0)) ->
      exists e, assign_init checks c (a_input a) (a_access a) (a_route a) given (a_conds a) = CErr e) by (apply (assign_exec_err checks tv n h c a vals given); assumption).
  assert (KD : slots n (h ++ [a]) -> forall dims, n_inputs n !! a_input a = Some dims -> fits dims a /\ forall p, p ∈ paths dims -> a_access a `prefix_of` p -> times h (a_input a) p = 0).
  { intros [S1 S2] dims Hd. destruct (S1 a) as (dims' & Hd' & HF); [apply elem_of_app; right; left|]. assert (dims' = dims) as -> by congruence. split; [assumption|].
    intros p Hp P. specialize (S2 _ _ _ Hd Hp). rewrite times_app, times_one, decide_True in S2 by (split; auto). lia. }
  destruct (decide (map_Forall (fun tag v => given !! tag = Some v) vals)) as [Hc|Hc].
  2:{ right. destruct KE as [e He]; [intros [K _]; apply Hc; exact K|]. exists e. split; [assumption|]. intros [_ K]. apply Hc. exact K. }
  destruct (n_inputs n !! a_input a) as [dims|] eqn:Hd.
  2:{ right. destruct KE as [e He]; [intros (_ & d & K & _); discriminate|]. exists e. split; [assumption|].
      intros [[S1 _] _]. destruct (S1 a) as (d & K & _); [apply elem_of_app; right; left|]. congruence. }
  destruct (fits_dec dims a) as [HF|HF].
  2:{ right. destruct KE as [e He]; [intros (_ & d & [= <-] & K & _); contradiction|]. exists e. split; [assumption|]. intros [S _]. destruct (KD S dims eq_refl). contradiction. }
  destruct (decide (Forall (fun p => a_access a `prefix_of` p -> times h (a_input a) p = 0) (paths dims))) as [D|D].
  - left. rewrite Forall_forall in D. destruct (assign_exec_ok checks tv n h c a vals dims given HE Hvals Hc Hd HF D) as (c' & Hc' & HE').
    exists c'. split; [assumption|]. split; [assumption|]. split; [|exact Hc]. destruct HS as [S1 S2]. split.
    + intros b Hb. apply elem_of_app in Hb as [Hb|Hb]; [apply S1; assumption|]. apply elem_of_list_singleton in Hb as ->. eauto.
    + intros x dims' p Hx Hp. rewrite times_app, times_one. destruct (decide (covers x p a)) as [[<- P]|C].
      * assert (dims' = dims) as -> by congruence. rewrite (D p Hp P). lia.
      * specialize (S2 _ _ _ Hx Hp). lia.
  - right. assert (KN : ~ slots n (h ++ [a])). { intros S. apply D. apply Forall_forall. apply (KD S dims eq_refl). }
    destruct HM as [U|U].
    + destruct KE as [e He]; [|exists e; split; [assumption|]; intros [? _]; contradiction]. intros (_ & d & [= <-] & _ & K). apply D. apply Forall_forall. apply K. apply unconditional_app in U as [? _]. assumption.
    + exfalso. apply D. apply Forall_forall. intros p Hp P. specialize (U _ _ _ Hd Hp). rewrite times_app, times_one, decide_True in U by (split; auto). lia.
Qed.

Definition to_queue (a : assignment) : string * list nat * list nat * conds := (a_input a, a_access a, a_route a, a_conds a).
Lemma replay_cases checks tv n q : forall h c, executed tv n h c -> slots n h -> (forall a, a ∈ q -> is_Some (tv !! a_input a)) -> ranks_ok n q -> mode n (h ++ q) ->
  (exists c', replay checks c (to_queue <$> q) = COk c' /\ executed tv n (h ++ q) c' /\ slots n (h ++ q)) \/
  (exists e, replay checks c (to_queue <$> q) = CErr e /\ ~ slots n (h ++ q)).
Proof.
  induction q as [|a q IH]; intros h c HE HS HT HR HM; cbn [fmap list_fmap replay].
  { left. exists c. rewrite app_nil_r. auto. }
  destruct (HT a) as [vals Hvals]; [left|]. cbn [to_queue]. rewrite (ex_tags _ _ _ _ HE), Hvals.
  rewrite (assoc_L app h [a] q : h ++ a :: q = (h ++ [a]) ++ q) in HM |- *.
  destruct (exec_step checks tv n h c a vals vals HE HS Hvals) as [(c' & -> & HE' & HS' & _)|(e & -> & N)].
  { intros b dims Hb. apply HR. apply elem_of_list_singleton in Hb as ->. left. }
  { apply mode_app in HM. assumption. }
  - cbn [cbind]. apply (IH (h ++ [a]) c' HE' HS'); [intros b Hb; apply HT; right; assumption|intros b dims Hb; apply HR; right; assumption|assumption].
  - right. exists e. split; [reflexivity|]. intros S. apply N. split; [apply slots_app in S; assumption|]. intros t v Hv. assumption.
Qed.

(** * Waiting for tags *)

Record waiting (t : interface) (h : list assignment) (c : comp) : Prop := {
  w_pointer : c_pointer c = Some PreNode;
  w_unassigned : c_unassigned c = ∅;
  w_inputs : c_inputs c = ∅;
  w_outputs : c_outputs c = ∅;
  w_init : c_init c = false;
  w_queue : c_queue c = to_queue <$> h;
  w_untags : forall x, x ∈ c_untags c <-> exists tags, t_inputs t !! x = Some tags /\ tags <> ∅ /\ forall a, a ∈ h -> a_input a <> x;
  w_names : forall a, a ∈ h -> is_Some (t_inputs t !! a_input a);
  w_tags : tags_agree t (c_tags c) h }.

Lemma check_tags_no_init_cases x first l given :
  (exists l', check_tags_no_init x first l given = COk l' /\ l'.*1 = l.*1 /\ (forall t v, (t, v) ∈ l' -> given !! t = Some v) /\ (first = false -> l' = l)) \/
  ((exists e, check_tags_no_init x first l given = CErr e) /\ exists t v, (t, v) ∈ l /\ (given !! t = None \/ first = false /\ given !! t <> Some v)).
Proof.
  induction l as [|[t v] l IH]; cbn [check_tags_no_init].
  { left. exists []. split; [reflexivity|]. split; [reflexivity|]. split; [|reflexivity]. intros t v H. apply elem_of_nil in H as []. }
  destruct (given !! t) as [w|] eqn:E.
  2:{ right. split; [eauto|]. exists t, v. split; [left|auto]. }
  destruct first.
  - destruct IH as [(l' & -> & H1 & H2 & _)|[[e ->] (t' & v' & Hin & H)]].
    + left. exists ((t, w) :: l'). split; [reflexivity|]. split; [cbn; congruence|]. split; [|discriminate].
      intros t' v' Hin. apply elem_of_cons in Hin as [[= -> ->]|Hin]; [assumption|apply H2; assumption].
    + right. split; [cbn; eauto|]. exists t', v'. split; [right; assumption|assumption].
  - destruct (decide (v = w)) as [->|Hne].
    + destruct IH as [(l' & -> & H1 & H2 & H3)|[[e ->] (t' & v' & Hin & H)]].
      * left. exists ((t, w) :: l'). split; [reflexivity|]. split; [cbn; congruence|]. split; [|intros _; rewrite H3 by reflexivity; reflexivity].
        intros t' v' Hin. apply elem_of_cons in Hin as [[= -> ->]|Hin]; [assumption|apply H2; assumption].
      * right. split; [cbn; eauto|]. exists t', v'. split; [right; assumption|assumption].
    + right. split; [eauto|]. exists t, v. split; [left|]. right. split; [reflexivity|]. congruence.
Qed.

Lemma tags_agree_app t tv h h' : tags_agree t tv (h ++ h') -> tags_agree t tv h.
Proof. intros [H1 H2]. split; [assumption|]. intros a vals tag v Ha. apply H2. apply elem_of_app. auto. Qed.
Lemma agree_lookup t tv h x tags : tags_agree t tv h -> t_inputs t !! x = Some tags -> exists vals, tv !! x = Some vals /\ dom vals = tags.
Proof.
  intros [[HD HV] _] Hx. assert (is_Some (tv !! x)) as [vals Hvals]. { apply elem_of_dom. rewrite HD. apply elem_of_dom. eauto. }
  exists vals. split; [assumption|]. eapply HV; eauto.
Qed.

Lemma waiting_step t h c a : waiting t h c ->
  (exists c', assign_no_init c (a_input a) (a_access a) (a_route a) (value_tags a) (a_conds a) = COk c' /\ waiting t (h ++ [a]) c') \/
  (exists e, assign_no_init c (a_input a) (a_access a) (a_route a) (value_tags a) (a_conds a) = CErr e /\
     (t_inputs t !! a_input a = None \/ forall tv, ~ tags_agree t tv (h ++ [a]))).
Proof.
  intros W. unfold assign_no_init, handle_tags_no_init. rewrite (w_pointer _ _ _ W). destruct (w_tags _ _ _ W) as [[HD HV] HA].
  destruct (c_tags c !! a_input a) as [vals|] eqn:Hvals.
  2:{ right. cbn. eexists. split; [reflexivity|]. left. apply not_elem_of_dom. rewrite <- HD. apply not_elem_of_dom. assumption. }
  assert (is_Some (t_inputs t !! a_input a)) as [tags Htags]. { apply elem_of_dom. rewrite <- HD. apply elem_of_dom. eauto. }
  destruct (check_tags_no_init_cases (a_input a) (bool_decide (a_input a ∈ c_untags c)) (map_to_list vals) (value_tags a)) as [(l & -> & H1 & H2 & H3)|[[e ->] (tag & v & Hin & Hbad)]].
  - left. cbn [cbind]. eexists. split; [reflexivity|].
    assert (Hdom : dom (list_to_map l : tagvals) = tags).
    { apply set_eq. intros x. rewrite elem_of_dom. assert (N : NoDup l.*1) by (rewrite H1; apply NoDup_fst_map_to_list).
      rewrite <- (HV _ _ _ Hvals Htags). rewrite elem_of_dom. split.
      - intros [w Hw]. apply elem_of_list_to_map_2 in Hw. apply (elem_of_list_fmap_1 fst) in Hw. rewrite H1 in Hw. apply elem_of_list_fmap in Hw as ([x' w'] & E & Hw). cbn in E. subst x'. apply elem_of_map_to_list in Hw. eauto.
      - intros [w Hw]. apply elem_of_map_to_list in Hw. apply (elem_of_list_fmap_1 fst) in Hw. rewrite <- H1 in Hw. apply elem_of_list_fmap in Hw as ([x' w'] & E & Hw). cbn in E. subst x'. exists w'. apply elem_of_list_to_map_1; assumption. }
    assert (Hcar : carries (list_to_map l : tagvals) (value_tags a)) by (intros x w Hw; apply H2; apply elem_of_list_to_map_2; assumption).
    split; cbn [c_pointer c_unassigned c_inputs c_outputs c_init c_queue c_untags c_tags]; try apply W; try reflexivity.
    + rewrite (w_queue _ _ _ W), fmap_app. reflexivity.
    + intros x. rewrite elem_of_difference, elem_of_singleton, (w_untags _ _ _ W). split.
      * intros [(tags' & A & B & C) Hne]. exists tags'. split; [assumption|]. split; [assumption|]. intros b Hb. apply elem_of_app in Hb as [Hb|Hb]; [apply C; assumption|]. apply elem_of_list_singleton in Hb as ->. congruence.
      * intros (tags' & A & B & C). split; [exists tags'; split; [assumption|]; split; [assumption|]; intros b Hb; apply C; apply elem_of_app; auto|]. intros ->. apply (C a); [apply elem_of_app; right; left|reflexivity].
    + intros b Hb. apply elem_of_app in Hb as [Hb|Hb]; [apply W; assumption|]. apply elem_of_list_singleton in Hb as ->. eauto.
    + split; [split|].
      * rewrite dom_insert_L, HD. apply set_eq. intros x. rewrite elem_of_union, elem_of_singleton. split; [intros [->|?]; [apply elem_of_dom; eauto|assumption]|auto].
      * intros x vals' tags' Hx Ht. destruct (decide (x = a_input a)) as [->|Hne]; [rewrite lookup_insert in Hx; congruence|]. rewrite lookup_insert_ne in Hx by congruence. eapply HV; eassumption.
      * intros b vals' tag v Hb Hx Hv. destruct (decide (a_input b = a_input a)) as [Eb|Hne].
        { rewrite Eb, lookup_insert in Hx. injection Hx as <-. apply elem_of_app in Hb as [Hb|Hb]; [|apply elem_of_list_singleton in Hb as ->; apply Hcar; assumption].
          destruct (decide (tags = ∅)) as [->|Hne0].
          { exfalso. assert (K : tag ∈ dom (list_to_map l : tagvals)) by (apply elem_of_dom; eauto). rewrite Hdom in K. apply elem_of_empty in K as []. }
          rewrite H3 in Hv.
          - rewrite list_to_map_to_list in Hv. rewrite <- Eb in Hvals. eapply HA; eassumption.
          - apply bool_decide_eq_false. rewrite (w_untags _ _ _ W). intros (tags' & _ & _ & K). apply (K b Hb). assumption. }
        { rewrite lookup_insert_ne in Hx by congruence. apply elem_of_app in Hb as [Hb|Hb]; [eapply HA; eassumption|]. apply elem_of_list_singleton in Hb as ->. congruence. }
  - right. cbn [cbind]. exists e. split; [reflexivity|]. right. intros tv HT. apply elem_of_map_to_list in Hin.
    destruct (agree_lookup _ _ _ _ _ HT Htags) as (vals' & Hvals' & Hdom'). destruct HT as [_ HT].
    assert (is_Some (vals' !! tag)) as [w Hw]. { apply elem_of_dom. rewrite Hdom', <- (HV _ _ _ Hvals Htags). apply elem_of_dom. eauto. }
    assert (Hg : value_tags a !! tag = Some w) by (apply (HT a vals' tag w); [apply elem_of_app; right; left|assumption..]).
    destruct Hbad as [Hbad|[Hf Hbad]]; [congruence|].
    apply bool_decide_eq_false in Hf. apply Hbad. rewrite Hg. f_equal.
    destruct (decide (Forall (fun b => a_input b <> a_input a) h)) as [D|D].
    { exfalso. apply Hf. apply (w_untags _ _ _ W). exists tags. split; [assumption|]. split; [|rewrite Forall_forall in D; exact D]. intros ->.
      pose proof (HV _ _ _ Hvals Htags) as K. assert (K' : tag ∈ dom vals) by (apply elem_of_dom; eauto). rewrite K in K'. apply elem_of_empty in K' as []. }
    apply not_Forall_Exists in D; [|apply _]. apply Exists_exists in D as (b & Hb & Eb). apply dec_stable in Eb.
    assert (value_tags b !! tag = Some v) by (apply (HA b vals tag v); [assumption|rewrite Eb; assumption|assumption]).
    assert (value_tags b !! tag = Some w) by (apply (HT b vals' tag w); [apply elem_of_app; auto|rewrite Eb; assumption|assumption]). congruence.
Qed.

Lemma tags_unique t tv tv' h : tags_agree t tv h -> tags_agree t tv' h -> tags_given t h -> tv = tv'.
Proof.
  intros H H' HG. apply map_eq. intros x. destruct (t_inputs t !! x) as [tags|] eqn:Hx.
  - destruct (agree_lookup _ _ _ _ _ H Hx) as (vals & Hv & Hd), (agree_lookup _ _ _ _ _ H' Hx) as (vals' & Hv' & Hd'). rewrite Hv, Hv'. f_equal. apply map_eq. intros tag.
    destruct (vals !! tag) as [v|] eqn:E.
    + assert (tag ∈ tags) as Ht by (rewrite <- Hd; apply elem_of_dom; eauto). assert (is_Some (vals' !! tag)) as [v' E'] by (apply elem_of_dom; rewrite Hd'; assumption).
      destruct (HG x tags Hx) as (a & Ha & <-); [intros ->; apply elem_of_empty in Ht as []|]. destruct H as [_ H], H' as [_ H'].
      pose proof (H a vals tag v Ha Hv E). pose proof (H' a vals' tag v' Ha Hv' E'). congruence.
    + symmetry. apply not_elem_of_dom. rewrite Hd', <- Hd. apply not_elem_of_dom. assumption.
  - destruct H as [[HD _] _], H' as [[HD' _] _]. assert (x ∉ dom (t_inputs t)) as N by (apply not_elem_of_dom; assumption).
    transitivity (@None tagvals); [|symmetry]; apply not_elem_of_dom; congruence.
Qed.

Lemma given_value a : given_tags a = value_tags a.
Proof. unfold given_tags, value_tags. destruct (a_constraint a), (a_tags a); reflexivity. Qed.

(** * Histories *)

Definition acceptable (t : interface) (exec : gmap string tagvals -> option node) (h : list assignment) (tv : gmap string tagvals) (n : node) : Prop :=
  correct t exec h tv n /\ at_most_once n h.
Definition dead (t : interface) (exec : gmap string tagvals -> option node) (h : list assignment) : Prop :=
  forall h' tv n, ~ acceptable t exec (h ++ h') tv n.
Definition reached (t : interface) (exec : gmap string tagvals -> option node) (h : list assignment) (c : comp) : Prop :=
  (waiting t h c /\ c_untags c <> ∅) \/ exists tv n, executed tv n h c /\ acceptable t exec h tv n.
Definition simple (exec : gmap string tagvals -> option node) (h : list assignment) : Prop := unconditional h \/ no_overlap exec h.

Lemma dead_app t exec h h' : dead t exec h -> dead t exec (h ++ h').
Proof. intros H h2 tv n. rewrite <- (assoc_L app). apply H. Qed.
Lemma well_typed_app t exec h h' : well_typed t exec (h ++ h') -> well_typed t exec h.
Proof. intros [(rank & H1 & H2) H3]. split; [|assumption]. exists rank. split; [assumption|]. intros a Ha. apply H2. apply elem_of_app. auto. Qed.
Lemma simple_app exec h h' : simple exec (h ++ h') -> simple exec h.
Proof.
  intros [H|H]; [left; apply unconditional_app in H as [? _]; assumption|right]. intros tv n He x dims p Hx Hp. specialize (H tv n He x dims p Hx Hp). rewrite times_app in H. lia.
Qed.
Lemma typed_ranks t exec h tv n : well_typed t exec h -> exec tv = Some n -> ranks_ok n h.
Proof. intros [(rank & H1 & H2) _] He a dims Ha Hd. rewrite (H1 tv n _ _ He Hd). apply H2. assumption. Qed.
Lemma simple_mode exec h tv n : simple exec h -> exec tv = Some n -> mode n h.
Proof. intros [H|H] He; [left; assumption|right; eapply H; eassumption]. Qed.

Lemma new_cell r (v : assigned) p : p ∈ paths r -> holds_at (new_with_route r v) p v.
Proof.
  intros Hp. apply elem_of_list_lookup in Hp as [i Hi]. exists i. cbn. split; [assumption|]. apply lookup_replicate. split; [reflexivity|].
  rewrite foldl_mul, Nat.mul_1_l, <- paths_length. apply lookup_lt_is_Some. eauto.
Qed.
Lemma new_shaped r (v : assigned) : shaped (new_with_route r v).
Proof. unfold shaped. cbn. rewrite replicate_length, foldl_mul, Nat.mul_1_l, paths_length. reflexivity. Qed.

Lemma ready_cases checks t exec h c : waiting t h c -> well_typed t exec h -> simple exec h ->
  (exists c', execute_when_ready checks exec c = COk c' /\ reached t exec h c') \/ (exists e, execute_when_ready checks exec c = CErr e /\ dead t exec h).
Proof.
  intros W HT HM. unfold execute_when_ready. case_bool_decide as Hun.
  2:{ left. exists c. split; [reflexivity|]. left. auto. }
  assert (HG : tags_given t h).
  { intros x tags Hx Hne. destruct (decide (Forall (fun a => a_input a <> x) h)) as [D|D].
    - exfalso. rewrite Forall_forall in D. assert (K : x ∈ c_untags c) by (apply (w_untags _ _ _ W); eauto). rewrite Hun in K. apply elem_of_empty in K as [].
    - apply not_Forall_Exists in D; [|apply _]. apply Exists_exists in D as (a & Ha & E). apply dec_stable in E. eauto. }
  assert (KU : forall h' tv n, acceptable t exec (h ++ h') tv n -> tv = c_tags c /\ exec (c_tags c) = Some n /\ slots n h).
  { intros h' tv n [(A & _ & B & C) D]. assert (tv = c_tags c) as ->. { eapply tags_unique; [eapply tags_agree_app; eassumption|apply W|assumption]. }
    split; [reflexivity|]. split; [assumption|]. apply (slots_app n h h'). split; assumption. }
  destruct (exec (c_tags c)) as [n|] eqn:He.
  2:{ right. eexists. split; [reflexivity|]. intros h' tv n K. apply KU in K as (_ & K & _). discriminate. }
  unfold initialize. set (c0 := Comp _ _ _ _ _ _ _ _).
  assert (HE : executed (c_tags c) n [] c0).
  { split; unfold c0; cbn [c_pointer c_unassigned c_inputs c_outputs c_init c_queue c_untags c_tags]; rewrite ?(w_unassigned _ _ _ W), ?(w_inputs _ _ _ W), ?(w_outputs _ _ _ W), ?map_union_empty; try reflexivity; try assumption.
    - intros x Hx. split; [rewrite lookup_fmap, Hx; reflexivity|]. rewrite lookup_omap, lookup_fmap, Hx. reflexivity.
    - intros x dims Hx. exists (new_with_route dims None). rewrite lookup_fmap, Hx. split; [reflexivity|]. split; [apply new_shaped|]. split; [reflexivity|].
      split; [intros p Hp _; apply new_cell; assumption|]. intros _ p _ K. exfalso. apply K. reflexivity.
    - intros x dims Hx. rewrite lookup_omap, lookup_fmap, Hx. cbn [fmap option_fmap option_map mbind option_bind].
      assert (L : left_of [] x dims = length (values (new_with_route (C := assigned) dims None))).
      { unfold left_of. rewrite new_shaped. cbn [route new_with_route]. rewrite filter_all; [reflexivity|]. intros p _. reflexivity. }
      rewrite L. destruct (Nat.eqb_spec (length (values (new_with_route (C := assigned) dims None))) 0) as [E|E]; [rewrite decide_True by assumption|rewrite decide_False by assumption]; reflexivity. }
  assert (HS0 : slots n []). { split; [intros a Ha; apply elem_of_nil in Ha as []|intros x dims p _ _; unfold times; cbn; lia]. }
  rewrite (w_queue _ _ _ W).
  destruct (replay_cases checks (c_tags c) n h [] c0 HE HS0) as [(c' & -> & HE' & HS')|(e & -> & N)].
  { intros a Ha. apply (w_names _ _ _ W) in Ha. destruct Ha as [tags Htags]. destruct (agree_lookup _ _ _ _ _ (w_tags _ _ _ W) Htags) as (vals & Hv & _). eauto. }
  { eapply typed_ranks; eassumption. }
  { eapply simple_mode; eassumption. }
  - left. exists c'. split; [reflexivity|]. right. exists (c_tags c), n. split; [assumption|]. destruct HS' as [S1 S2]. split; [|assumption].
    split; [apply W|]. split; [assumption|]. split; assumption.
  - right. exists e. split; [reflexivity|]. intros h' tv n' K. apply KU in K as (_ & [= <-] & K). contradiction.
Qed.

Lemma step_cases checks t exec h c a : reached t exec h c -> well_typed t exec (h ++ [a]) -> simple exec (h ++ [a]) ->
  (exists c', cstep checks exec t c (Assign a) = COk c' /\ reached t exec (h ++ [a]) c') \/ (exists e, cstep checks exec t c (Assign a) = CErr e /\ dead t exec (h ++ [a])).
Proof.
  intros [[W Hne]|(tv & n & HE & HA)] HT HM; cbn [cstep]; unfold assign_value; rewrite given_value.
  - rewrite (w_init _ _ _ W). destruct (waiting_step t h c a W) as [(c' & -> & W')|(e & -> & N)].
    + cbn [cbind]. rewrite (w_init _ _ _ W'). apply ready_cases; assumption.
    + right. exists e. split; [reflexivity|]. intros h' tv n [(A & _ & He & C) _]. destruct N as [N|N].
      * destruct (C a) as (dims & Hd & _); [rewrite !elem_of_app; left; right; left|]. destruct HT as [_ HT]. destruct (HT _ _ He) as [K _].
        apply not_elem_of_dom in N. apply N, K, elem_of_dom. eauto.
      * apply (N tv). eapply tags_agree_app. eassumption.
  - rewrite (ex_init _ _ _ _ HE). destruct HA as [(A1 & A2 & A3 & A4) A5].
    destruct (tv !! a_input a) as [vals|] eqn:Hvals.
    2:{ right. assert (N : t_inputs t !! a_input a = None). { apply not_elem_of_dom. destruct A1 as [[<- _] _]. apply not_elem_of_dom. assumption. }
        unfold assign_init. rewrite (ex_pointer _ _ _ _ HE). assert (n_inputs n !! a_input a = None) as Hn.
        { apply not_elem_of_dom. intros K. destruct HT as [_ HT]. destruct (HT _ _ A3) as [K' _]. apply K' in K. apply not_elem_of_dom in N. contradiction. }
        destruct (ex_none _ _ _ _ HE _ Hn) as [-> _]. cbn. eexists. split; [reflexivity|]. intros h' tv' n' [(_ & _ & He & C) _].
        destruct (C a) as (dims & Hd & _); [rewrite !elem_of_app; left; right; left|]. destruct HT as [_ HT]. destruct (HT _ _ He) as [K _].
        apply not_elem_of_dom in N. apply N, K, elem_of_dom. eauto. }
    destruct (exec_step checks tv n h c a vals (value_tags a) HE (conj A4 A5) Hvals) as [(c' & -> & HE' & [S1 S2] & HC)|(e & -> & N)].
    { intros b dims Hb. apply elem_of_list_singleton in Hb as ->. eapply typed_ranks; [eassumption..|apply elem_of_app; right; left]. }
    { eapply simple_mode; eassumption. }
    + left. cbn [cbind]. rewrite (ex_init _ _ _ _ HE'). exists c'. split; [reflexivity|]. right. exists tv, n. split; [assumption|]. split; [|assumption]. split; [|split; [|split; assumption]].
      * destruct A1 as [B1 B2]. split; [assumption|]. intros b vals' tag v Hb Hx Hv. apply elem_of_app in Hb as [Hb|Hb]; [eapply B2; eassumption|].
        apply elem_of_list_singleton in Hb as ->. assert (vals' = vals) as -> by congruence. apply HC. assumption.
      * intros x tags Hx Hne. destruct (A2 x tags Hx Hne) as (b & Hb & Eb). exists b. split; [apply elem_of_app; auto|assumption].
    + right. exists e. split; [reflexivity|]. intros h' tv' n' [(B1 & B2 & B3 & B4) B5].
      assert (tv' = tv) as ->. { eapply tags_unique; [|exact A1|assumption]. rewrite <- (assoc_L app) in B1. eapply tags_agree_app. eassumption. }
      assert (n' = n) as -> by congruence. apply N. split; [apply (slots_app n (h ++ [a]) h'); split; assumption|].
      intros tag v Hv. destruct B1 as [_ B1]. eapply B1; [rewrite !elem_of_app; left; right; left|eassumption..].
Qed.

Lemma run_cases checks t exec h : forall h0 c, reached t exec h0 c -> well_typed t exec (h0 ++ h) -> simple exec (h0 ++ h) ->
  (exists c', crun checks exec t c (Assign <$> h) = COk c' /\ reached t exec (h0 ++ h) c') \/ (exists e, crun checks exec t c (Assign <$> h) = CErr e /\ dead t exec (h0 ++ h)).
Proof.
  induction h as [|a h IH]; intros h0 c HR HT HM; cbn [fmap list_fmap crun].
  { left. exists c. rewrite app_nil_r. auto. }
  rewrite (assoc_L app h0 [a] h : h0 ++ a :: h = (h0 ++ [a]) ++ h) in HT, HM |- *.
  destruct (step_cases checks t exec h0 c a HR) as [(c' & -> & HR')|(e & -> & HD)]; [eapply well_typed_app; eassumption|eapply simple_app; eassumption| |].
  - cbn [cbind]. apply IH; assumption.
  - right. exists e. split; [reflexivity|]. apply dead_app. assumption.
Qed.

Lemma create_waiting t anon c c' : preinitialize t anon c = COk c' -> waiting t [] c'.
Proof.
  unfold preinitialize. destruct (_ && _); [discriminate|]. intros [= <-]. split; cbn [c_pointer c_unassigned c_inputs c_outputs c_init c_queue c_untags c_tags]; try reflexivity.
  - intros x. rewrite elem_of_dom. split.
    + intros [tags Hx]. apply map_filter_lookup_Some in Hx as [Hx Hne]. exists tags. split; [assumption|]. split; [assumption|]. intros a Ha. apply elem_of_nil in Ha as [].
    + intros (tags & Hx & Hne & _). exists tags. apply map_filter_lookup_Some. auto.
  - intros a Ha. apply elem_of_nil in Ha as [].
  - split; [split|intros a vals tag v Ha; apply elem_of_nil in Ha as []]; [apply dom_fmap_L|].
    intros x vals tags Hx Ht. rewrite lookup_fmap, Ht in Hx. injection Hx as <-. apply dom_gset_to_gmap.
Qed.
Lemma creation_cases checks t exec anon h : well_typed t exec h -> simple exec h ->
  (exists c', crun checks exec t default_comp (Create anon :: (Assign <$> h)) = COk c' /\ reached t exec h c') \/
  (exists e, crun checks exec t default_comp (Create anon :: (Assign <$> h)) = CErr e /\ dead t exec h).
Proof.
  intros HT HM. cbn [crun cstep]. destruct (preinitialize t anon default_comp) as [c|e|] eqn:E; [|unfold preinitialize in E; destruct anon; discriminate..].
  apply create_waiting in E. cbn [cbind].
  destruct (ready_cases checks t exec [] c E) as [(c' & -> & HR)|(e & -> & HD)]; [apply (well_typed_app t exec [] h); assumption|apply (simple_app exec [] h); assumption| |].
  - cbn [cbind]. apply (run_cases checks t exec h [] c' HR); assumption.
  - right. exists e. split; [reflexivity|]. apply (dead_app t exec [] h). assumption.
Qed.

Lemma executed_complete tv n h c : executed tv n h c -> c_unassigned c = ∅ <-> at_least_once n h.
Proof.
  intros HE. split.
  - intros HU x dims p Hx Hp. pose proof (ex_left _ _ _ _ HE x dims Hx) as K. rewrite HU, lookup_empty in K. destruct (decide (left_of h x dims = 0)) as [D|D]; [|discriminate].
    unfold left_of in D. apply length_zero_iff_nil in D. destruct (times h x p) eqn:E; [|lia]. exfalso.
    assert (K' : p ∈ filter (fun p => times h x p = 0) (paths dims)) by (apply elem_of_list_filter; auto). rewrite D in K'. apply elem_of_nil in K' as [].
  - intros HL. apply map_eq. intros x. rewrite lookup_empty. destruct (n_inputs n !! x) as [dims|] eqn:Hx; [|apply (ex_none _ _ _ _ HE); assumption].
    rewrite (ex_left _ _ _ _ HE x dims Hx). rewrite decide_True; [reflexivity|]. unfold left_of. rewrite filter_none; [reflexivity|].
    intros p Hp E. specialize (HL x dims p Hx Hp). lia.
Qed.
Lemma once_split n h : exactly_once n h <-> at_most_once n h /\ at_least_once n h.
Proof.
  unfold exactly_once, at_most_once, at_least_once. split; [intros H; split; intros x dims p Hx Hp; rewrite (H x dims p Hx Hp); lia|].
  intros [H1 H2] x dims p Hx Hp. specialize (H1 x dims p Hx Hp). specialize (H2 x dims p Hx Hp). lia.
Qed.
