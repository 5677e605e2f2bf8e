(** Proofs for C67: positions on paths. *)
From stdpp Require Import prelude gmap numbers list strings.
From Verif Require Import ScopeModel ScopeSpec ScopeProofs.
Local Open Scope nat_scope.

(** ** Counting blocks *)
Definition total (tr : list event) : Z := foldr (fun v z => weight v + z)%Z 0%Z tr.
Lemma total_app a b : total (a ++ b) = (total a + total b)%Z.
Proof. unfold total. induction a as [|v a IH]; cbn; [done|]. rewrite IH. lia. Qed.
Lemma net_total tr i j : net tr i j = total (take (j - i) (drop i tr)).
Proof. done. Qed.
Lemma net_split tr i j m : i <= j <= m -> net tr i m = (net tr i j + net tr j m)%Z.
Proof.
  intros H. rewrite !net_total, <-total_app. f_equal. replace (m - i) with ((j - i) + (m - j)) by lia.
  rewrite <-(take_take_drop _ (j - i) (m - j)), drop_drop. by replace (i + (j - i)) with j by lia.
Qed.
Lemma net_take tr i j m : j <= m -> net (take m tr) i j = net tr i j.
Proof.
  intros H. rewrite !net_total. f_equal. rewrite skipn_firstn_comm, take_take. f_equal. lia.
Qed.
Lemma net_app tr v i : i <= length tr -> net (tr ++ [v]) i (S (length tr)) = (net tr i (length tr) + weight v)%Z.
Proof.
  intros H. rewrite (net_split _ i (length tr)) by lia. f_equal.
  - rewrite <-(net_take _ i (length tr) (length tr)) by lia. by rewrite take_app.
  - rewrite net_total, drop_app. replace (S (length tr) - length tr) with 1 by lia. cbn. lia.
Qed.
Lemma net_app_before tr v i j : j <= length tr -> net (tr ++ [v]) i j = net tr i j.
Proof. intros H. rewrite <-(net_take _ i j (length tr)) by lia. by rewrite take_app. Qed.
Lemma net_same tr i : net tr i i = 0%Z.
Proof. rewrite net_total, Nat.sub_diag, take_0. done. Qed.
Lemma open_app tr v j : j <= length tr ->
  still_open (tr ++ [v]) j (S (length tr)) <-> still_open tr j (length tr) /\ (0 <= net tr j (length tr) + weight v)%Z.
Proof.
  intros Hj. unfold still_open. split.
  - intros [_ H]. split; [split; [done|]|].
    + intros m Hm. rewrite <-(net_app_before tr v) by lia. apply H. lia.
    + rewrite <-net_app by done. apply H. lia.
  - intros [[_ H] H2]. split; [lia|]. intros m Hm. destruct (decide (m = S (length tr))) as [->|Hne].
    + by rewrite net_app.
    + rewrite net_app_before by lia. apply H. lia.
Qed.
Lemma open_take tr j i : still_open (take i tr) j i <-> still_open tr j i.
Proof.
  unfold still_open. split; intros [H1 H2]; (split; [done|]); intros m Hm; specialize (H2 m Hm); rewrite net_take in *; (lia || done).
Qed.

(** ** The blocks of the analysis *)
Definition at_level (tr : list event) (l : nat) (x : string) : Prop :=
  exists j, declares tr j x /\ still_open tr j (length tr) /\ net tr j (length tr) = Z.of_nat l.
Lemma declares_lt tr j x : declares tr j x -> j < length tr.
Proof. intros [k H]. by eapply lookup_lt_Some. Qed.
Lemma declares_app tr v j x : declares (tr ++ [v]) j x <-> declares tr j x \/ j = length tr /\ exists k, v = Declare k x.
Proof.
  unfold declares. split.
  - intros [k H]. apply lookup_app_Some in H as [H|[Hl H]]; [eauto|]. right. destruct (j - length tr) as [|n] eqn:En; [|by destruct n].
    cbn in H. injection H as ->. split; [lia|eauto].
  - intros [[k H]|[-> [k ->]]]; exists k; [by apply lookup_app_l_Some|]. by rewrite list_lookup_middle.
Qed.
Lemma at_level_app tr v l x : at_level (tr ++ [v]) l x <->
  match v with
  | Open => exists l', l = S l' /\ at_level tr l' x
  | Close => at_level tr (S l) x
  | Declare _ y => at_level tr l x \/ l = 0 /\ x = y
  | _ => at_level tr l x
  end.
Proof.
  assert (at_level (tr ++ [v]) l x <-> (exists j, declares tr j x /\ still_open tr j (length tr) /\ (net tr j (length tr) + weight v)%Z = Z.of_nat l)
    \/ l = 0 /\ exists k, v = Declare k x) as ->.
  { unfold at_level. rewrite app_length. cbn. replace (length tr + 1) with (S (length tr)) by lia. split.
    - intros (j & Hd & Ho & Hn). apply declares_app in Hd as [Hd|[-> [k ->]]].
      + left. exists j. assert (Hl := declares_lt _ _ _ Hd). rewrite net_app in Hn by lia. apply open_app in Ho as [Ho _]; [|lia]. done.
      + right. rewrite net_app, net_same in Hn by lia. cbn in Hn. split; [lia|eauto].
    - intros [(j & Hd & Ho & Hn)|[-> [k ->]]].
      + assert (Hl := declares_lt _ _ _ Hd). exists j. split; [apply declares_app; by left|]. split; [apply open_app; [lia|]; split; [done|lia]|].
        rewrite net_app by lia. done.
      + exists (length tr). split; [apply declares_app; right; split; [done|eauto]|]. split; [apply open_app; [lia|]; split; [|rewrite net_same; done]|].
        * split; [lia|]. intros m Hm. replace m with (length tr) by lia. by rewrite net_same.
        * rewrite net_app, net_same by lia. done. }
  unfold at_level. destruct v; cbn; split.
  all: try (intros [(j & Hd & Ho & Hn)|[-> [k0 Hk]]]; [|try done]); try (intros (j & Hd & Ho & Hn)).
  - assert (0 <= net tr j (length tr))%Z by (apply Ho; destruct Ho; lia). exists (Z.to_nat (net tr j (length tr))). split; [lia|]. exists j. repeat split; [done|apply Ho..|lia].
  - destruct Hn as (Hj1 & Hj2 & Hj3). left. exists Ho. split; [done|]. split; [done|lia].
  - exists j. split; [done|]. split; [done|lia].
  - left. exists j. split; [done|]. split; [done|lia].
  - left. exists j. split; [done|]. split; [done|lia].
  - right. injection Hk as -> ->. done.
  - intros [(j & Hd & Ho & Hn)|[-> ->]]; [left; exists j; split; [done|]; split; [done|lia]|right; eauto].
  - exists j. split; [done|]. split; [done|lia].
  - left. exists j. split; [done|]. split; [done|lia].
  - exists j. split; [done|]. split; [done|lia].
  - left. exists j. split; [done|]. split; [done|lia].
  - exists j. split; [done|]. split; [done|lia].
  - left. exists j. split; [done|]. split; [done|lia].
  - exists j. split; [done|]. split; [done|lia].
  - left. exists j. split; [done|]. split; [done|lia].
Qed.
Lemma at_level_nil l x : ~ at_level [] l x.
Proof. intros (j & [k H] & _). done. Qed.
Definition blank (E : env) : Prop := E = [] \/ E = [∅].
Lemma levels E0 : blank E0 -> forall tr l x, (exists b, after E0 tr !! l = Some b /\ x ∈ b) <-> at_level tr l x.
Proof.
  intros HE0 tr. induction tr as [|v tr IH] using rev_ind; intros l x.
  - split; [|by intros ?%at_level_nil]. intros (b & Hb & Hx). destruct HE0 as [->| ->]; cbn in Hb; [done|].
    destruct l as [|l]; cbn in Hb; [injection Hb as <-; set_solver|done].
  - rewrite after_app, at_level_app. change (after (after E0 tr) [v]) with (next (after E0 tr) v). destruct v; cbn; try apply IH.
    + destruct l as [|l]; cbn; split.
      * intros (b & [= <-] & Hx). set_solver.
      * intros (l' & ? & _). done.
      * intros H. apply IH in H. eauto.
      * intros (l' & [= <-] & H). by apply IH.
    + rewrite <-IH. by destruct (after E0 tr).
    + rewrite <-IH. destruct (after E0 tr) as [|b E]; destruct l as [|l]; cbn; split.
      * intros (b & [= <-] & Hx). right. split; [done|]. set_solver.
      * intros [(b & ? & _)|[_ ->]]; [done|]. eexists. split; [done|]. set_solver.
      * by intros (b & ? & _).
      * by intros [(b & ? & _)|[? _]].
      * intros (b' & [= <-] & Hx). apply elem_of_union in Hx as [Hx|Hx]; [right; split; [done|set_solver]|left; eauto].
      * intros [(b' & [= <-] & Hx)|[_ ->]]; eexists; (split; [done|]); set_solver.
      * intros H. by left.
      * intros [H|[? _]]; done.
Qed.
Lemma visible_level tr i x : i <= length tr -> (exists j, visible tr x j i) <-> exists l, at_level (take i tr) l x.
Proof.
  intros Hi. unfold visible, at_level. rewrite take_length_le by done. split.
  - intros (j & Hj & [k Hk] & Ho). exists (Z.to_nat (net tr j i)), j. split; [|split].
    + exists k. by rewrite lookup_take.
    + by apply open_take.
    + rewrite net_take by lia. rewrite Z2Nat.id; [done|]. apply Ho. lia.
  - intros (l & j & Hd & Ho & _). assert (Hl := declares_lt _ _ _ Hd). rewrite take_length_le in Hl by done. exists j. split; [done|]. split.
    + destruct Hd as [k Hk]. rewrite lookup_take in Hk by done. by exists k.
    + by apply open_take.
Qed.
Lemma same_block_level tr i x : i <= length tr -> (exists j, same_block tr x j i) <-> at_level (take i tr) 0 x.
Proof.
  intros Hi. unfold same_block, visible, at_level. rewrite take_length_le by done. split.
  - intros (j & (Hj & [k Hk] & Ho) & Hn). exists j. split; [|split].
    + exists k. by rewrite lookup_take.
    + by apply open_take.
    + by rewrite net_take by lia.
  - intros (j & Hd & Ho & Hn). assert (Hl := declares_lt _ _ _ Hd). rewrite take_length_le in Hl by done. exists j. split; [split; [done|split]|].
    + destruct Hd as [k Hk]. rewrite lookup_take in Hk by done. by exists k.
    + by apply open_take.
    + by rewrite net_take in Hn by lia.
Qed.
Section names.
Context (P : program).
Lemma good_all tr : forall E, good P E tr <-> forall i v, tr !! i = Some v -> ok P (after E (take i tr)) v.
Proof.
  induction tr as [|v tr IH]; intros E; cbn; [done|]. rewrite IH. split.
  - intros [H1 H2] [|i] w Hw; cbn in *; [by injection Hw as <-|by apply H2].
  - intros H. split; [by apply (H 0)|]. intros i w Hw. by apply (H (S i)).
Qed.
Lemma good_used E0 tr : blank E0 -> good P E0 tr <-> forall i, well_used P tr i.
Proof.
  intros HE. rewrite good_all. unfold well_used. split.
  - intros H i. destruct (tr !! i) as [v|] eqn:Ei; [|done]. specialize (H i v Ei). assert (Hl := lookup_lt_Some _ _ _ Ei). destruct v; cbn in H; try done.
    + destruct H as [H1 H2]. split; [|done]. intros j Hj. apply H1. apply levels; [done|]. apply same_block_level; [lia|eauto].
    + apply visible_level; [lia|]. destruct H as (l & b & Hb & Hx). exists l. apply (levels E0); [done|eauto].
    + apply visible_level; [lia|]. destruct H as (l & b & Hb & Hx). exists l. apply (levels E0); [done|eauto].
  - intros H i v Ei. specialize (H i). rewrite Ei in H. assert (Hl := lookup_lt_Some _ _ _ Ei). destruct v; cbn; try done.
    + destruct H as [H1 H2]. split; [|done]. intros Hb. apply levels in Hb; [|done]. apply same_block_level in Hb as [j Hj]; [|lia]. by apply (H1 j).
    + apply visible_level in H as [l Hl']; [|lia]. apply (levels E0) in Hl' as (b & ? & ?); [|done]. by exists l, b.
    + apply visible_level in H as [l Hl']; [|lia]. apply (levels E0) in Hl' as (b & ? & ?); [|done]. by exists l, b.
Qed.

(** ** Definitions *)
Lemma parameters_check ps : forall b E E' c, add_parameters ps (b :: E) = (E', c) ->
  (exists b', E' = b' :: E) /\ (c = false <-> good P (b :: E) (Declare KVar <$> ps)) /\ (c = false -> after (b :: E) (Declare KVar <$> ps) = E').
Proof.
  induction ps as [|p ps IH]; intros b E E' c H; cbn in H.
  - injection H as <- <-. cbn. split; [eauto|]. done.
  - cbn. destruct (decide (p ∈ b)) as [Hp|Hp]; cbn in H.
    + destruct (add_parameters ps (b :: E)) as [E2 c2] eqn:E2'. injection H as <- <-. destruct (IH _ _ _ _ E2') as (Hb & _ & _). cbn.
      split; [done|]. split; [|done]. split; [done|]. intros [[Hn _] _]. exfalso. apply Hn. by exists b.
    + destruct (add_parameters ps (({[p]} ∪ b) :: E)) as [E2 c2] eqn:E2'. injection H as <- <-. destruct (IH _ _ _ _ E2') as (Hb & Hc & Ha). cbn.
      split; [done|]. split; [|done]. rewrite Hc. split; [|by intros [_ ?]]. intros Hg. split; [|done]. split; [|done]. intros (b' & [= <-] & ?). done.
Qed.
Lemma def_check d : parsed_def d -> (analyze_symbols P d = [] <-> forall tr, path_d d tr -> good P [∅] tr).
Proof.
  intros Hp. unfold analyze_symbols. destruct (add_parameters (params d) [∅]) as [E c] eqn:Ec.
  destruct (parameters_check _ _ _ _ _ Ec) as ([b ->] & Hc & Ha). destruct (analyze_sequence P (body d) [b]) as [E' r] eqn:Er.
  destruct (sequence_check P (body d)) with (b := b) (E := @nil (gset string)) (E' := E') (r := r) as ([C [t T]] & _); [|done|].
  { apply forallb_forall. intros s Hs. apply elem_of_list_In in Hs. by eapply (proj1 (Forall_forall _ _) Hp). }
  cbn. rewrite app_nil_iff. split.
  - intros [H1 ->] tr Ht. inversion Ht; subst. destruct c; [done|]. apply good_app. split; [by apply Hc|]. rewrite Ha by done. by apply C.
  - intros H. assert (c = false) as ->.
    { apply Hc. assert (good P [∅] ((Declare KVar <$> params d) ++ t)) as [? _]%good_app; [|done]. apply H. by constructor. }
    split; [done|]. apply C. intros tr Ht. assert (good P [∅] ((Declare KVar <$> params d) ++ tr)) as [_ Hg]%good_app; [apply H; by constructor|].
    by rewrite Ha in Hg.
Qed.
Lemma concat_nil {A} (l : list (list A)) : concat l = [] <-> forall x, x ∈ l -> x = [].
Proof.
  induction l as [|x l IH]; cbn; [split; [by intros _ y ?%elem_of_nil|done]|]. rewrite app_nil_iff, IH. split.
  - intros [-> H] y [->|Hy]%elem_of_cons; auto.
  - intros H. split; [apply H; left|]. intros y Hy. apply H. by right.
Qed.
Lemma accepted : (forall d, definition P d -> parsed_def d) -> (check_naming_correctness P = [] <-> names_correct P).
Proof.
  intros Hp. unfold check_naming_correctness, names_correct. rewrite app_nil_iff, concat_nil.
  assert ((forall x, x ∈ analyze_symbols P <$> ((map_to_list (templates P)).*2.*1 ++ (map_to_list (functions P)).*2 ++ (map_to_list (buses P)).*2.*1) -> x = [])
    <-> forall d, definition P d -> analyze_symbols P d = []) as ->.
  { split.
    - intros H d Hd. apply H. apply elem_of_list_fmap. exists d. split; [done|]. rewrite !elem_of_app. destruct Hd as [(f & ins & Hd)|[(f & Hd)|(f & ins & Hd)]].
      + left. apply elem_of_list_fmap. exists (d, ins). split; [done|]. apply elem_of_list_fmap. exists (f, (d, ins)). split; [done|]. by apply elem_of_map_to_list.
      + right. left. apply elem_of_list_fmap. exists (f, d). split; [done|]. by apply elem_of_map_to_list.
      + right. right. apply elem_of_list_fmap. exists (d, ins). split; [done|]. apply elem_of_list_fmap. exists (f, (d, ins)). split; [done|]. by apply elem_of_map_to_list.
    - intros H r Hr. apply elem_of_list_fmap in Hr as (d & -> & Hd). apply H. rewrite !elem_of_app in Hd. destruct Hd as [Hd|[Hd|Hd]].
      + apply elem_of_list_fmap in Hd as ([d' ins] & -> & Hd). apply elem_of_list_fmap in Hd as ([f ?] & Heq & Hd). cbn in Heq. subst. apply elem_of_map_to_list in Hd. left. eauto.
      + apply elem_of_list_fmap in Hd as ([f ?] & Heq & Hd). cbn in Heq. subst. apply elem_of_map_to_list in Hd. right. left. eauto.
      + apply elem_of_list_fmap in Hd as ([d' ins] & -> & Hd). apply elem_of_list_fmap in Hd as ([f ?] & Heq & Hd). cbn in Heq. subst. apply elem_of_map_to_list in Hd. right. right. eauto. }
  unfold analyze_main. rewrite app_nil_iff. destruct (e_checks P [] (main P)) as [C _]. rewrite C.
  assert ((match main P with
     | Call f _ => match templates P !! f with Some d => InvalidPublic <$> filter (fun x => x ∉ d.2) (public P) | None => [] end
     | _ => [] end = []) <-> (forall f args d ins x, main P = Call f args -> templates P !! f = Some (d, ins) -> x ∈ public P -> x ∈ ins)) as ->.
  { destruct (main P) as [| | | | | |f args| | |]; try (split; [done|by intros _]).
    destruct (templates P !! f) as [[d ins]|] eqn:Et; [|split; [|done]; intros _ f' args' d ins x [= <- <-]; congruence]. cbn. split.
    - intros H f' args' d' ins' x [= <- <-] Ht Hx. rewrite Et in Ht. injection Ht as <- <-. apply fmap_nil_inv in H. destruct (decide (x ∈ ins)) as [?|Hn]; [done|].
      assert (x ∈ filter (.∉ ins) (public P)) as Hin by (by apply elem_of_list_filter). rewrite H in Hin. by apply elem_of_nil in Hin.
    - intros H. replace (filter (.∉ ins) (public P)) with (@nil string); [done|]. symmetry. apply elem_of_nil_inv. intros x [H1 H2]%elem_of_list_filter. apply H1. by eapply H. }
  split.
  - intros [[H1 H2] H3]. split; [|split; [|done]].
    + intros d tr i Hd Ht. apply (good_used [∅]); [by right|]. revert tr Ht. apply def_check; auto.
    + intros tr i Ht. apply (good_used []); [by left|]. by apply H2.
  - intros (H1 & H2 & H3). split; [split; [done|]|].
    + intros tr Ht. apply good_used; [by left|]. intros i. by apply H2.
    + intros d Hd. apply def_check; [by apply Hp|]. intros tr Ht. apply good_used; [by right|]. intros i. by eapply H1.
Qed.
End names.
