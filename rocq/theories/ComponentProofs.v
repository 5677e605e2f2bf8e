(** Proofs about the inputs of components. *)
From stdpp Require Import prelude strings gmap numbers list.
From Verif Require Import MemSliceModel MemSliceSpec MemSliceProofs PropertiesMem FlowModel ComponentModel ComponentSpec.
Open Scope nat_scope.

(** * One assignment to one input *)

Lemma fits_bounds dims a (s : slice assigned) : route s = dims -> fits dims a <-> in_bounds s (a_access a) /\ a_route a = rest_of s (a_access a).
Proof. intros <-. unfold fits, in_bounds, rest_of. tauto. Qed.

Lemma assign_cells_ok refs : forall vs cs, NoDup refs -> (forall i, i ∈ refs -> vs !! i = Some None) ->
  exists vs', assign_cells vs refs cs = COk vs' /\ length vs' = length vs /\ forall i, vs' !! i = if decide (i ∈ refs) then Some (Some cs) else vs !! i.
Proof.
  induction refs as [|j refs IH]; intros vs cs HN H; cbn [assign_cells].
  { exists vs. split; [reflexivity|]. split; [reflexivity|]. intros i. rewrite decide_False; [reflexivity|]. apply not_elem_of_nil. }
  apply NoDup_cons in HN as [Hj HN]. rewrite (H j) by left. cbn [assign].
  destruct (IH (<[j := Some cs]> vs) cs HN) as (vs' & -> & HL & HV).
  { intros i Hi. rewrite list_lookup_insert_ne; [apply H; right; assumption|]. intros ->. contradiction. }
  exists vs'. split; [reflexivity|]. rewrite insert_length in HL. split; [assumption|]. intros i. rewrite HV. destruct (decide (i = j)) as [->|Hij].
  - rewrite decide_False by assumption. rewrite (decide_True (P := j ∈ j :: refs)) by left. apply list_lookup_insert. apply lookup_lt_is_Some. rewrite (H j) by left. eauto.
  - rewrite list_lookup_insert_ne by congruence. destruct (decide (i ∈ refs)) as [D|D].
    + rewrite decide_True by (right; assumption). reflexivity.
    + rewrite decide_False; [reflexivity|]. rewrite elem_of_cons. tauto.
Qed.
Lemma assign_cells_err refs : forall vs cs j, j ∈ refs -> (forall i, i ∈ refs -> is_Some (vs !! i)) -> vs !! j = Some (Some []) -> exists e, assign_cells vs refs cs = CErr e.
Proof.
  induction refs as [|k refs IH]; intros vs cs j Hj H Hv; [apply elem_of_nil in Hj as []|]. cbn [assign_cells].
  destruct (H k) as [old Hold]; [left|]. rewrite Hold. destruct (assign old cs) as [new|] eqn:E; [|eauto].
  apply elem_of_cons in Hj. destruct (decide (j = k)) as [->|Hjk].
  - assert (old = Some []) as -> by congruence. cbn [assign] in E. destruct cs; discriminate.
  - destruct Hj as [->|Hj]; [contradiction|]. apply (IH _ cs j Hj).
    + intros i Hi. destruct (decide (i = k)) as [->|?]; [rewrite list_lookup_insert by (apply lookup_lt_is_Some; eauto); eauto|]. rewrite list_lookup_insert_ne by congruence. apply H. right. assumption.
    + rewrite list_lookup_insert_ne by congruence. assumption.
Qed.

(** the cell at a path *)
Lemma shaped_cell {C} (s : slice C) p : shaped s -> p ∈ paths (route s) -> exists v, holds_at s p v.
Proof.
  intros HS Hp. apply elem_of_list_lookup in Hp as [i Hi]. destruct (lookup_lt_is_Some_2 (values s) i) as [v Hv]; [|exists v, i; auto].
  unfold shaped in HS. rewrite HS. apply lookup_lt_is_Some. eauto.
Qed.
Lemma paths_NoDup dims : NoDup (paths dims).
Proof. apply NoDup_alt. intros i j p Hi Hj. apply paths_lookup in Hi as [_ ->], Hj as [_ ->]. reflexivity. Qed.

Lemma perform_ok (s : slice assigned) a : shaped s -> fits (route s) a ->
  (forall p, p ∈ paths (route s) -> a_access a `prefix_of` p -> holds_at s p None) ->
  exists s', perform_signal_assignment s (a_access a) (a_route a) (a_conds a) = COk s' /\ shaped s' /\ route s' = route s /\
    forall p v, holds_at s' p v <-> p ∈ paths (route s) /\ (if decide (a_access a `prefix_of` p) then v = Some (a_conds a) else holds_at s p v).
Proof.
  intros HS HF HN. apply (fits_bounds _ _ s) in HF as [HB HR]; [|reflexivity]. unfold perform_signal_assignment.
  rewrite access_values_ok by assumption. cbn [of_mem cbind]. set (prev := Slice _ _).
  destruct (check_correct_dims_ok prev [] (new_with_route (a_route a) (Some (a_conds a))) true) as [(_ & _ & ->)|[(_ & _ & N & _)|([N|N] & _)]].
  2:{ exfalso. apply N. unfold prev, rest_of at 1. cbn. rewrite HR. reflexivity. }
  2:{ exfalso. apply N. split; [cbn; lia|]. intros i x n Hx. rewrite lookup_nil in Hx. discriminate. }
  2:{ exfalso. unfold prev in N. cbn in N. rewrite HR in N. lia. }
  cbn [of_mem cbind]. destruct (C29_mutable_references _ s (a_access a) HS HB) as (refs & -> & HND & Hrefs). cbn [of_mem cbind].
  destruct (assign_cells_ok refs (values s) (a_conds a) HND) as (vs & -> & HL & HV).
  { intros i Hi. apply Hrefs in Hi as (p & Hp & Hpre). destruct (HN p) as (j & Hj & Hv); [apply elem_of_list_lookup; eauto|assumption|].
    apply paths_lookup in Hj as [_ ->], Hp as [_ ->]. assumption. }
  cbn [cbind]. exists (Slice (route s) vs). split; [reflexivity|]. split; [unfold shaped in *; cbn; congruence|]. split; [reflexivity|].
  intros p v. unfold holds_at at 1. cbn [route values]. split.
  - intros (i & Hi & Hv). split; [apply elem_of_list_lookup; eauto|]. rewrite HV in Hv. destruct (decide (a_access a `prefix_of` p)) as [D|D].
    + rewrite decide_True in Hv by (apply Hrefs; eauto). congruence.
    + rewrite decide_False in Hv; [exists i; auto|]. intros Hin. apply Hrefs in Hin as (q & Hq & Hpre). congruence.
  - intros (Hp & H). apply elem_of_list_lookup in Hp as [i Hi]. exists i. split; [assumption|]. rewrite HV. destruct (decide (a_access a `prefix_of` p)) as [D|D].
    + rewrite decide_True by (apply Hrefs; eauto). congruence.
    + rewrite decide_False; [|intros Hin; apply Hrefs in Hin as (q & Hq & Hpre); congruence]. destruct H as (j & Hj & Hv).
      apply paths_lookup in Hj as [_ ->], Hi as [_ ->]. assumption.
Qed.
Lemma perform_misfit (s : slice assigned) a : shaped s -> length (a_access a) + length (a_route a) = length (route s) -> ~ fits (route s) a ->
  exists e, perform_signal_assignment s (a_access a) (a_route a) (a_conds a) = CErr e.
Proof.
  intros HS HL HF. unfold perform_signal_assignment. destruct (in_bounds_dec s (a_access a)) as [HB|HB]; [|rewrite access_values_err by assumption; cbn; eauto].
  rewrite access_values_ok by assumption. cbn [of_mem cbind]. set (prev := Slice _ _).
  destruct (check_correct_dims_ok prev [] (new_with_route (a_route a) (Some (a_conds a))) true) as [(_ & P & _)|[(_ & _ & N & n & m & _ & ->)|(_ & ->)]]; [|cbn; eauto|cbn; eauto].
  exfalso. apply HF. apply (fits_bounds _ _ s); [reflexivity|]. split; [assumption|]. unfold prev, rest_of in P. cbn in P. destruct P as [k Hk]. rewrite drop_0 in Hk.
  unfold rest_of. rewrite Hk. assert (length k = 0) as K; [|apply length_zero_iff_nil in K; subst k; rewrite app_nil_r; reflexivity].
  apply (f_equal length) in Hk. rewrite drop_length, app_length in Hk. cbn in Hk. lia.
Qed.
Lemma perform_twice (s : slice assigned) a p : shaped s -> fits (route s) a -> p ∈ paths (route s) -> a_access a `prefix_of` p -> holds_at s p (Some []) ->
  exists e, perform_signal_assignment s (a_access a) (a_route a) (a_conds a) = CErr e.
Proof.
  intros HS HF Hp Hpre Hv. apply (fits_bounds _ _ s) in HF as [HB HR]; [|reflexivity]. unfold perform_signal_assignment.
  rewrite access_values_ok by assumption. cbn [of_mem cbind]. set (prev := Slice _ _).
  destruct (check_correct_dims prev [] _ true) as [[]|e|] eqn:E; [|cbn; eauto|]; cbn [of_mem cbind].
  2:{ destruct (check_correct_dims_ok prev [] (new_with_route (a_route a) (Some (a_conds a))) true) as [(_ & _ & ?)|[(_ & _ & N & n & m & _ & ?)|(_ & ?)]]; congruence. }
  destruct (C29_mutable_references _ s (a_access a) HS HB) as (refs & -> & HND & Hrefs). cbn [of_mem cbind].
  destruct Hv as (i & Hi & Hv). destruct (assign_cells_err refs (values s) (a_conds a) i) as [e ->]; [apply Hrefs; eauto| |assumption|cbn; eauto].
  intros j Hj. apply Hrefs in Hj as (q & Hq & _). apply lookup_lt_is_Some. unfold shaped in HS. rewrite HS. apply lookup_lt_is_Some. eauto.
Qed.

(** how many signals an assignment designates *)
Lemma covered_paths dims a : fits dims a -> length (filter (fun p => a_access a `prefix_of` p) (paths dims)) = prod (a_route a).
Proof.
  intros (HL & HB & ->). set (acc := a_access a) in *.
  rewrite (Permutation_length (l' := app acc <$> paths (drop (length acc) dims))); [rewrite fmap_length; apply paths_length|].
  apply NoDup_Permutation; [apply NoDup_filter, paths_NoDup|apply NoDup_fmap_2; [intros x y; apply app_inv_head|apply paths_NoDup]|].
  intros p. rewrite elem_of_list_filter, elem_of_list_fmap.
  assert (V : valid (take (length acc) dims) acc).
  { apply (proj1 (in_bounds_valid (Slice dims ([] : list nat)) acc)). split; assumption. }
  split.
  - intros [[q ->] Hp]. exists q. split; [reflexivity|]. apply elem_of_list_lookup in Hp as [i Hi]. apply paths_lookup in Hi as [Hv _].
    apply valid_app in Hv as [_ Hv]; [|assumption]. apply elem_of_list_lookup. exists (rank (drop (length acc) dims) q). apply paths_rank. assumption.
  - intros (q & -> & Hq). split; [exists q; reflexivity|]. apply elem_of_list_lookup. exists (rank dims (acc ++ q)). apply paths_rank. apply valid_app; [assumption|]. split; [assumption|].
    apply paths_valid. assumption.
Qed.
Lemma filter_split {A} (P Q : A -> Prop) `{forall x, Decision (P x)} `{forall x, Decision (Q x)} (l : list A) :
  (forall x, x ∈ l -> Q x -> P x) -> length (filter P l) = length (filter Q l) + length (filter (fun x => P x /\ ~ Q x) l).
Proof.
  induction l as [|x l IH]; intros HQ; [reflexivity|]. rewrite !filter_cons. specialize (IH (fun y Hy => HQ y (elem_of_list_further _ _ _ Hy))).
  destruct (decide (Q x)) as [D|D].
  - rewrite (decide_True (P := P x)) by (apply HQ; [left|assumption]). rewrite decide_False by tauto. cbn [length]. lia.
  - destruct (decide (P x)) as [D'|D'].
    + rewrite decide_True by tauto. cbn [length]. lia.
    + rewrite decide_False by tauto. assumption.
Qed.

(** * A component that has been executed *)

Definition carries (vals given : tagvals) : Prop := forall tag v, vals !! tag = Some v -> given !! tag = Some v.
Lemma check_tags_init_ok x l given : (forall t v, (t, v) ∈ l -> given !! t = Some v) -> check_tags_init x l given = COk tt.
Proof.
  induction l as [|[t v] l IH]; intros H; cbn [check_tags_init]; [reflexivity|]. rewrite (H t v) by left. rewrite decide_True by reflexivity.
  apply IH. intros t' v' Hin. apply H. right. assumption.
Qed.
Lemma check_tags_init_cases x l given : check_tags_init x l given = COk tt /\ (forall t v, (t, v) ∈ l -> given !! t = Some v) \/ exists e, check_tags_init x l given = CErr e.
Proof.
  induction l as [|[t v] l IH]; cbn [check_tags_init]; [left; split; [reflexivity|]; intros t v H; apply elem_of_nil in H as []|].
  destruct (given !! t) as [w|] eqn:E; [|eauto]. destruct (decide (v = w)) as [->|?]; [|eauto]. destruct IH as [[-> H]|[e ->]]; [|eauto].
  left. split; [reflexivity|]. intros t' v' Hin. apply elem_of_cons in Hin as [[= -> ->]|Hin]; [assumption|]. apply H. assumption.
Qed.
Lemma handle_tags_init_ok c x vals given : c_tags c !! x = Some vals -> carries vals given -> handle_tags_init c x given = COk tt.
Proof. unfold handle_tags_init. intros -> H. apply check_tags_init_ok. intros t v Hin. apply H. apply elem_of_map_to_list. assumption. Qed.
Lemma handle_tags_init_err c x vals given : c_tags c !! x = Some vals -> ~ carries vals given -> exists e, handle_tags_init c x given = CErr e.
Proof.
  unfold handle_tags_init. intros -> H. destruct (check_tags_init_cases x (map_to_list vals) given) as [[_ K]|K]; [|assumption].
  exfalso. apply H. intros t v Hv. apply K. apply elem_of_map_to_list. assumption.
Qed.

(** the signals of an input not assigned yet *)
Definition left_of (h : list assignment) (x : string) (dims : list nat) : nat := length (filter (fun p => times h x p = 0) (paths dims)).
Lemma times_app h h' x p : times (h ++ h') x p = times h x p + times h' x p.
Proof. unfold times. rewrite filter_app, app_length. reflexivity. Qed.
Lemma times_one a x p : times [a] x p = if decide (covers x p a) then 1 else 0.
Proof. unfold times. rewrite filter_cons, filter_nil. destruct (decide (covers x p a)); reflexivity. Qed.
Lemma times_zero h x p : times h x p = 0 <-> forall a, a ∈ h -> ~ covers x p a.
Proof.
  unfold times. split.
  - intros H a Ha C. apply length_zero_iff_nil in H. assert (K : a ∈ filter (covers x p) h) by (apply elem_of_list_filter; auto). rewrite H in K. apply elem_of_nil in K as [].
  - intros H. apply length_zero_iff_nil. destruct (filter (covers x p) h) as [|a l] eqn:E; [reflexivity|]. exfalso.
    assert (K : a ∈ filter (covers x p) h) by (rewrite E; left). apply elem_of_list_filter in K as [K1 K2]. exact (H a K2 K1).
Qed.
Lemma left_snoc h a x dims : x = a_input a -> fits dims a -> (forall p, p ∈ paths dims -> a_access a `prefix_of` p -> times h x p = 0) ->
  left_of h x dims = prod (a_route a) + left_of (h ++ [a]) x dims.
Proof.
  intros -> HF HN. unfold left_of. rewrite (filter_split _ (fun p => a_access a `prefix_of` p)) by (intros p Hp; apply HN; assumption). rewrite covered_paths by assumption.
  f_equal. f_equal. apply list_filter_iff. intros p. rewrite times_app, times_one. unfold covers. destruct (decide _) as [[_ D]|D].
  - split; [intros [_ N]; contradiction|lia].
  - split; [intros [? _]; lia|]. intros ?. split; [lia|]. intros P. apply D. auto.
Qed.
Lemma left_other h a x dims : x <> a_input a -> left_of (h ++ [a]) x dims = left_of h x dims.
Proof.
  intros Hx. unfold left_of. f_equal. apply list_filter_iff. intros p. rewrite times_app, times_one. rewrite decide_False; [rewrite Nat.add_0_r; reflexivity|].
  intros [E _]. congruence.
Qed.

Definition the_outputs (n : node) : gmap string (slice assigned) := (fun r => new_with_route r (Some [])) <$> n_outputs n.
Record executed (tv : gmap string tagvals) (n : node) (h : list assignment) (c : comp) : Prop := {
  ex_pointer : c_pointer c = Some (ExecNode tv n);
  ex_untags : c_untags c = ∅;
  ex_tags : c_tags c = tv;
  ex_outputs : c_outputs c = the_outputs n;
  ex_init : c_init c = true;
  ex_none : forall x, n_inputs n !! x = None -> c_inputs c !! x = None /\ c_unassigned c !! x = None;
  ex_cells : forall x dims, n_inputs n !! x = Some dims -> exists s, c_inputs c !! x = Some s /\ shaped s /\ route s = dims /\
    (forall p, p ∈ paths dims -> times h x p = 0 -> holds_at s p None) /\
    (unconditional h -> forall p, p ∈ paths dims -> times h x p <> 0 -> holds_at s p (Some []));
  ex_left : forall x dims, n_inputs n !! x = Some dims -> c_unassigned c !! x = if decide (left_of h x dims = 0) then None else Some (Z.of_nat (left_of h x dims)) }.

Lemma unconditional_app h h' : unconditional (h ++ h') <-> unconditional h /\ unconditional h'.
Proof. unfold unconditional. split; [intros H; split; intros a Ha; apply H; apply elem_of_app; auto|]. intros [H1 H2] a Ha. apply elem_of_app in Ha as [?|?]; auto. Qed.

Lemma assign_exec_ok checks tv n h c a vals dims given : executed tv n h c -> tv !! a_input a = Some vals -> carries vals given ->
  n_inputs n !! a_input a = Some dims -> fits dims a -> (forall p, p ∈ paths dims -> a_access a `prefix_of` p -> times h (a_input a) p = 0) ->
  exists c', assign_init checks c (a_input a) (a_access a) (a_route a) given (a_conds a) = COk c' /\ executed tv n (h ++ [a]) c'.
Proof.
  intros HE Hvals Hg Hdims HF HN. unfold assign_init. rewrite (ex_pointer _ _ _ _ HE). destruct (ex_cells _ _ _ _ HE _ _ Hdims) as (s & -> & HS & HR & H0 & H1).
  rewrite (handle_tags_init_ok _ _ vals) by (rewrite ?(ex_tags _ _ _ _ HE); assumption). cbn [cbind]. rewrite <- HR in HF.
  destruct (perform_ok s a HS HF) as (s' & -> & HS' & HR' & HV). { rewrite HR. intros p Hp Hpre. apply H0; auto. }
  cbn [cbind]. unfold update_unassigned. cbn [c_unassigned]. rewrite (ex_left _ _ _ _ HE _ _ Hdims).
  assert (HLeft : left_of h (a_input a) dims = prod (a_route a) + left_of (h ++ [a]) (a_input a) dims).
  { apply left_snoc; [reflexivity|rewrite <- HR; assumption|assumption]. }
  assert (Hcells : forall x dims', n_inputs n !! x = Some dims' -> exists s0, <[a_input a := s']> (c_inputs c) !! x = Some s0 /\ shaped s0 /\ route s0 = dims' /\
    (forall p, p ∈ paths dims' -> times (h ++ [a]) x p = 0 -> holds_at s0 p None) /\
    (unconditional (h ++ [a]) -> forall p, p ∈ paths dims' -> times (h ++ [a]) x p <> 0 -> holds_at s0 p (Some []))).
  { intros x dims' Hx. destruct (decide (x = a_input a)) as [->|Hne].
    - assert (dims' = dims) as -> by congruence. exists s'. rewrite lookup_insert. split; [reflexivity|]. split; [assumption|]. split; [congruence|]. rewrite HR in HV. split.
      + intros p Hp Ht. rewrite times_app, times_one in Ht. apply HV. split; [assumption|]. rewrite decide_False; [apply H0; [assumption|lia]|].
        intros P. rewrite decide_True in Ht by (split; auto). lia.
      + intros U p Hp Ht. apply unconditional_app in U as [U1 U2]. rewrite times_app, times_one in Ht. apply HV. split; [assumption|].
        destruct (decide (a_access a `prefix_of` p)) as [P|P]; [rewrite (U2 a) by left; reflexivity|]. rewrite decide_False in Ht by (intros [_ ?]; contradiction).
        apply H1; [assumption..|lia].
    - destruct (ex_cells _ _ _ _ HE _ _ Hx) as (s0 & Hs0 & A1 & A2 & A3 & A4). exists s0. rewrite lookup_insert_ne by congruence. split; [assumption|]. split; [assumption|]. split; [assumption|].
      assert (K : forall p, times (h ++ [a]) x p = times h x p). { intros p. rewrite times_app, times_one, decide_False by (intros [? _]; congruence). lia. }
      split; [intros p Hp; rewrite K; apply A3; assumption|]. intros U p Hp. rewrite K. apply unconditional_app in U as [U1 _]. apply A4; assumption. }
  assert (Hnone : forall x, n_inputs n !! x = None -> <[a_input a := s']> (c_inputs c) !! x = None /\ c_unassigned c !! x = None).
  { intros x Hx. rewrite lookup_insert_ne by congruence. apply (ex_none _ _ _ _ HE). assumption. }
  assert (Hother : forall x dims', n_inputs n !! x = Some dims' -> x <> a_input a -> c_unassigned c !! x = if decide (left_of (h ++ [a]) x dims' = 0) then None else Some (Z.of_nat (left_of (h ++ [a]) x dims'))).
  { intros x dims' Hx Hne. rewrite left_other by assumption. apply (ex_left _ _ _ _ HE). assumption. }
  destruct (decide (left_of h (a_input a) dims = 0)) as [L0|L0].
  - eexists. split; [reflexivity|]. split; cbn [c_pointer c_untags c_tags c_outputs c_init c_inputs c_unassigned]; try apply HE; try assumption; try reflexivity.
    intros x dims' Hx. destruct (decide (x = a_input a)) as [->|Hne]; [|apply Hother; assumption]. assert (dims' = dims) as -> by congruence.
    rewrite (ex_left _ _ _ _ HE _ _ Hdims), L0. rewrite !decide_True by lia. reflexivity.
  - rewrite foldl_mul, Nat.mul_1_l. unfold usize_sub. destruct (Z.leb_spec (Z.of_nat (prod (a_route a))) (Z.of_nat (left_of h (a_input a) dims))); [|lia].
    cbn [cbind]. eexists. split; [reflexivity|]. split; cbn [c_pointer c_untags c_tags c_outputs c_init c_inputs c_unassigned]; try apply HE; try assumption; try reflexivity.
    + intros x Hx. split; [apply Hnone; assumption|]. destruct (_ =? 0)%Z; [rewrite lookup_delete_ne by congruence|rewrite lookup_insert_ne by congruence]; apply Hnone; assumption.
    + intros x dims' Hx. destruct (decide (x = a_input a)) as [->|Hne].
      * assert (dims' = dims) as -> by congruence. destruct (Z.eqb_spec (Z.of_nat (left_of h (a_input a) dims) - Z.of_nat (prod (a_route a))) 0) as [E|E].
        { rewrite lookup_delete, decide_True by lia. reflexivity. }
        { rewrite lookup_insert, decide_False by lia. f_equal. lia. }
      * rewrite <- (Hother x dims' Hx Hne). destruct (_ =? 0)%Z; [rewrite lookup_delete_ne by congruence|rewrite lookup_insert_ne by congruence]; reflexivity.
Qed.

Lemma assign_exec_err checks tv n h c a vals given : executed tv n h c -> tv !! a_input a = Some vals ->
  (forall dims, n_inputs n !! a_input a = Some dims -> length (a_access a) + length (a_route a) = length dims) ->
  ~ (carries vals given /\ exists dims, n_inputs n !! a_input a = Some dims /\ fits dims a /\
      (unconditional h -> forall p, p ∈ paths dims -> a_access a `prefix_of` p -> times h (a_input a) p = 0)) ->
  exists e, assign_init checks c (a_input a) (a_access a) (a_route a) given (a_conds a) = CErr e.
Proof.
  intros HE Hvals HL HN. unfold assign_init. rewrite (ex_pointer _ _ _ _ HE). destruct (n_inputs n !! a_input a) as [dims|] eqn:Hdims.
  2:{ destruct (ex_none _ _ _ _ HE _ Hdims) as [-> _]. eauto. }
  destruct (ex_cells _ _ _ _ HE _ _ Hdims) as (s & -> & HS & HR & H0 & H1).
  destruct (decide (map_Forall (fun tag v => given !! tag = Some v) vals)) as [Hc|Hc].
  2:{ destruct (handle_tags_init_err c (a_input a) vals given) as [e ->]; [rewrite (ex_tags _ _ _ _ HE); assumption|exact Hc|cbn; eauto]. }
  rewrite (handle_tags_init_ok _ _ vals) by (rewrite ?(ex_tags _ _ _ _ HE); assumption). cbn [cbind].
  specialize (HL _ eq_refl).
  assert (DF : Decision (fits dims a)).
  { destruct (in_bounds_dec s (a_access a)) as [B|B]; [destruct (decide (a_route a = rest_of s (a_access a))) as [R|R]|]; [left; apply (fits_bounds _ _ s HR); auto|right; intros F; apply (fits_bounds _ _ s HR) in F as [? ?]; contradiction..]. }
  destruct DF as [HF|HF].
  2:{ destruct (perform_misfit s a HS) as [e ->]; [congruence|rewrite HR; assumption|cbn; eauto]. }
  destruct (decide (Forall (fun p => a_access a `prefix_of` p -> times h (a_input a) p = 0) (paths dims))) as [D|D].
  { exfalso. apply HN. split; [exact Hc|]. exists dims. split; [reflexivity|]. split; [assumption|]. intros _ p Hp. rewrite Forall_forall in D. apply D. assumption. }
  apply not_Forall_Exists in D; [|apply _]. apply Exists_exists in D as (p & Hp & D). 
  destruct (decide (a_access a `prefix_of` p)) as [P|P]; [|exfalso; apply D; intros; contradiction].
  destruct (decide (Forall (fun b => a_conds b = []) h)) as [U|U].
  2:{ exfalso. apply HN. split; [exact Hc|]. exists dims. split; [reflexivity|]. split; [assumption|]. intros U'. exfalso. apply U. apply Forall_forall. exact U'. }
  rewrite Forall_forall in U. destruct (perform_twice s a p HS) as [e ->]; [rewrite HR; assumption|rewrite HR; assumption|assumption| |cbn; eauto].
  apply H1; [exact U|assumption|]. intros T. apply D. auto.
Qed.
