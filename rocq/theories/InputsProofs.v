(** Proofs about the pass that decides which store runs a subcomponent. *)
From stdpp Require Import prelude numbers list gmap.
From Coq Require Import ZArith Lia.
From Verif Require Import IrModel InputsModel InputsSpec.
Local Open Scope Z_scope.

(** [trigger] of IrModel is [fire]. *)
Lemma trigger_fire {V} (w : world V) sanity info cmp n m :
  match fire sanity info n (m_count m cmp) with
  | Some (c, b) => exists m', (m' = m \/ m' = decrease m cmp (Z.of_nat n)) /\ m_count m' cmp = c /\
                     trigger w sanity info cmp n m = if b : bool then w_run w cmp m' else Some m'
  | None => trigger w sanity info cmp n m = None
  end.
Proof.
  unfold trigger, fire.
  assert (Hu : m_count (decrease m cmp (Z.of_nat n)) cmp = m_count m cmp - Z.of_nat n)
      by (cbn; unfold upd; rewrite decide_True by done; done).
  destruct info as [[| |] dec]; cbn [i_status i_decrement].
  - destruct (decide (2 <= sanity)%nat) as [S|S]; [rewrite Hu; case_decide|]; eauto.
  - destruct (dec || _); [|eauto]. destruct (decide (2 <= sanity)%nat) as [S|S]; [rewrite Hu; case_decide|]; eauto.
  - rewrite Hu. exists (decrease m cmp (Z.of_nat n)). split; [by right|]. split; [done|].
    case_decide; [rewrite bool_decide_true by done|rewrite bool_decide_false by done]; done.
Qed.

(** ** What the annotations must satisfy *)

Definition has (k : nat) (tr : list event) : Prop := exists e, e ∈ tr /\ e_cmp e = k.
Definition has_last (k : nat) (tr : list event) : Prop := exists e, e ∈ tr /\ e_cmp e = k /\ i_status (e_info e) = Last.
Definition cond (k : nat) (info : input_info) (b : list event) : Prop :=
  match i_status info with
  | Last => ~ has k b
  | NoLast => if i_decrement info then has k b else has_last k b
  | Unknown => True
  end.
Fixpoint good (k : nat) (tr : list event) : Prop :=
  match tr with [] => True | e :: b => (e_cmp e = k -> cond k (e_info e) b) /\ good k b end.

Lemma has_cons k e b : has k (e :: b) <-> e_cmp e = k \/ has k b.
Proof.
  unfold has. split.
  - intros (x & Hx & E). apply elem_of_cons in Hx as [->|Hx]; [by left|right; eauto].
  - intros [E|(x & Hx & E)]; [exists e; split; [left|done]|exists x; split; [by right|done]].
Qed.
Lemma has_last_cons k e b : has_last k (e :: b) <-> (e_cmp e = k /\ i_status (e_info e) = Last) \/ has_last k b.
Proof.
  unfold has_last. split.
  - intros (x & Hx & E). apply elem_of_cons in Hx as [->|Hx]; [by left|right; eauto].
  - intros [E|(x & Hx & E)]; [exists e; split; [left|done]|exists x; split; [by right|done]].
Qed.
Lemma has_app_r k a b : has k b -> has k (a ++ b).
Proof. intros (e & He & E). exists e. split; [|done]. apply elem_of_app. by right. Qed.
Lemma has_app k a b : has k (a ++ b) <-> has k a \/ has k b.
Proof.
  induction a as [|e a IH]; cbn [app]; [|rewrite !has_cons, IH; tauto]. split; [by right|].
  intros [(e & He & _)|?]; [by apply elem_of_nil in He|done].
Qed.
Lemma has_last_app_r k a b : has_last k b -> has_last k (a ++ b).
Proof. intros (e & He & E). exists e. split; [|done]. apply elem_of_app. by right. Qed.
Lemma has_nil k : ~ has k [].
Proof. intros (e & He & _). by apply elem_of_nil in He. Qed.

Lemma good_filter k tr : good k tr -> good k (events_of k tr).
Proof.
  assert (Hh : forall b, has k b -> has k (events_of k b)).
  { intros b (e & He & E). exists e. split; [|done]. apply elem_of_list_filter. done. }
  assert (Hl : forall b, has_last k b -> has_last k (events_of k b)).
  { intros b (e & He & E & S). exists e. split; [|done]. apply elem_of_list_filter. done. }
  assert (Hn : forall b, has k (events_of k b) -> has k b).
  { intros b (e & He & E). exists e. split; [|done]. apply elem_of_list_filter in He. tauto. }
  induction tr as [|e b IH]; [done|]. intros [Hc Hg]. unfold events_of. cbn [filter list_filter].
  destruct (decide (e_cmp e = k)) as [E|E]; [|by apply IH]. cbn [good]. split; [|by apply IH].
  intros _. specialize (Hc E). unfold cond in *. destruct (e_info e) as [[| |] []]; cbn in *; eauto.
Qed.

Lemma fired_ok sanity k tr c :
  Forall (fun e => e_cmp e = k /\ (1 <= e_size e)%nat) tr -> good k tr -> tr <> [] ->
  (c = total tr \/ (total tr <= c /\ has_last k tr /\ (sanity < 2)%nat)) ->
  fired sanity tr c = Some (once_at_the_end (length tr)).
Proof.
  intros HF. revert c. induction HF as [|e tr [Ek Hs] HF IH]; intros c Hg Hne Hc; [done|].
  destruct Hg as [Hcond Hg]. specialize (Hcond Ek). cbn [fired total foldr] in *. fold (total tr) in *.
  assert (Htot : 0 <= total tr /\ (tr <> [] -> 1 <= total tr)).
  { clear -HF. induction HF as [|e tr [_ H] _ IH]; cbn; [split; [lia|done]|]. fold (total tr). split; [lia|]. intros _. lia. }
  destruct tr as [|e2 tr'].
  - cbn [length once_at_the_end replicate Nat.sub app]. cbn in Hc. unfold cond in Hcond. unfold fire.
    destruct (e_info e) as [[| |] dec] eqn:Ei; cbn [i_status i_decrement] in *.
    + destruct (decide (2 <= sanity)%nat) as [S|S].
      * destruct Hc as [Hc|(_ & _ & ?)]; [|lia]. rewrite decide_True by lia. done.
      * done.
    + exfalso. destruct dec; [by eapply has_nil|]. destruct Hcond as (x & Hx & _). by apply elem_of_nil in Hx.
    + destruct Hc as [Hc|(_ & Hl & _)].
      * rewrite bool_decide_true by lia. done.
      * exfalso. apply has_last_cons in Hl as [[_ Hl]|(x & Hx & _)]; [by rewrite Ei in Hl|by apply elem_of_nil in Hx].
  - set (tr := e2 :: tr') in *. assert (Hne' : tr <> []) by done.
    assert (Hone : once_at_the_end (length (e :: tr)) = false :: once_at_the_end (length tr)).
    { unfold once_at_the_end, tr. cbn [length]. rewrite !Nat.sub_succ, !Nat.sub_0_r. done. }
    rewrite Hone.
    assert (Hk : has k tr). { exists e2. split; [left|]. by apply Forall_inv in HF as [? _]. }
    unfold cond in Hcond. unfold fire.
    destruct (e_info e) as [[| |] dec] eqn:Ei; cbn [i_status i_decrement] in *.
    + done.
    + assert (Hstep : forall c', c' = c - Z.of_nat (e_size e) -> fired sanity tr c' = Some (once_at_the_end (length tr))).
      { intros c' ->. apply IH; [done|done|]. destruct Hc as [Hc|(Hc & Hl & S)]; [left; lia|right].
        split; [lia|]. split; [|done]. apply has_last_cons in Hl as [[_ Hl]|Hl]; [by rewrite Ei in Hl|done]. }
      assert (Hpos : 0 < c - Z.of_nat (e_size e)) by (destruct Htot as [_ H1]; specialize (H1 Hne'); lia).
      destruct (decide (2 <= sanity)%nat) as [S|S].
      * rewrite bool_decide_true, orb_true_r by done. rewrite decide_True by done. cbn [mbind option_bind].
        rewrite Hstep by done. done.
      * rewrite bool_decide_false, orb_false_r by done. destruct dec.
        -- cbn [mbind option_bind]. rewrite Hstep by done. done.
        -- cbn [mbind option_bind]. rewrite IH; [done|done|done|]. right. split; [lia|]. split; [done|lia].
    + assert (Hpos : 0 < c - Z.of_nat (e_size e)) by (destruct Htot as [_ H1]; specialize (H1 Hne'); lia).
      rewrite bool_decide_false by lia. cbn [mbind option_bind]. rewrite IH; [done|done|done|].
      destruct Hc as [Hc|(Hc & Hl & S)]; [left; lia|right].
      split; [lia|]. split; [|done]. apply has_last_cons in Hl as [[_ Hl]|Hl]; [by rewrite Ei in Hl|done].
Qed.

(** ** The pass *)

Lemma node_ind' (P : node -> Prop) :
  (forall i, match i with NBranch l1 l2 => Forall P l1 /\ Forall P l2 | NLoop l => Forall P l | _ => True end -> P i) ->
  forall i, P i.
Proof.
  intros H. fix IH 1. intros i. apply H.
  assert (HL : forall l, Forall P l) by (fix IHl 1; intros [|j l]; constructor; [apply IH|apply IHl]).
  destruct i; try exact I; auto.
Qed.

Scheme path_mind := Minimality for path Sort Prop with path_list_mind := Minimality for path_list Sort Prop.
Combined Scheme path_mutind from path_mind, path_list_mind.

Section Pass.
Context (name : nat -> nat) (k : nat).
Local Notation st x := (a_status x !! inl k).
Local Notation szs := (foldr (fun i P => sized name k i /\ P) True).

Definition weak (x : known) (b : list event) : Prop :=
  (forall dec, st x = Some (dec, true) -> if dec : bool then has k b else has_last k b) /\
  (forall dec, st x = Some (dec, false) -> dec = true).
Definition strong (x : known) (b : list event) : Prop :=
  weak x b /\ (st x = None -> name k ∉ a_unknown x -> ~ has k b).
(** In a loop nothing is found to be last. *)
Definition grows (x y : known) : Prop :=
  (forall dec, st y = Some (dec, true) -> st x = Some (dec, true)) /\
  (forall dec, st y = Some (dec, false) -> dec = true \/ st x = Some (dec, false)) /\
  (st y = None -> st x = None) /\ (a_unknown x ⊆ a_unknown y).
Definition covers (y : known) (t : list event) : Prop := has k t -> st y <> None \/ name k ∈ a_unknown y.

Lemma weak_app x a b : weak x b -> weak x (a ++ b).
Proof.
  intros [H1 H2]. split; [|done]. intros dec E. specialize (H1 dec E).
  destruct dec; [by apply has_app_r|by apply has_last_app_r].
Qed.
Lemma weak_grows x y b : grows x y -> weak x b -> weak y b.
Proof. intros (G1 & G2 & _) [H1 H2]. split; intros dec E; [exact (H1 _ (G1 _ E))|]. destruct (G2 dec E); auto. Qed.
Lemma grows_refl x : grows x x.
Proof. unfold grows. split_and!; auto. Qed.
Lemma grows_trans x y z : grows x y -> grows y z -> grows x z.
Proof.
  intros (A1 & A2 & A3 & A4) (B1 & B2 & B3 & B4). unfold grows. split_and!.
  - auto.
  - intros dec E. destruct (B2 dec E); auto.
  - auto.
  - set_solver.
Qed.
Lemma covers_grows x y t : grows x y -> covers x t -> covers y t.
Proof. intros (_ & _ & G3 & G4) C H. destruct (C H) as [C'|C']; [left; auto|right; set_solver]. Qed.

(** The statement for a node visited inside a loop or branch. *)
Definition loop_ok (i : node) : Prop :=
  forall x level i' y level', visit_node true i (x, level) = (i', (y, level')) -> sized name k i ->
  grows x y /\
  (forall t, path name i' t -> covers y t) /\
  (forall t b, path name i' t -> weak x b -> (k ∈ level -> has k b) -> good k b -> good k (t ++ b)) /\
  (forall t b, path name i' t -> (k ∈ level -> has k b) -> k ∈ level' -> has k (t ++ b)).

Lemma st_insert_ne x j v u : j <> k -> a_status (Know (<[inl j := v]> (a_status x)) u) !! inl k = st x.
Proof. intros H. cbn. rewrite lookup_insert_ne; [done|]. congruence. Qed.
Lemma st_insert x v u : a_status (Know (<[inl k := v]> (a_status x)) u) !! inl k = Some v.
Proof. cbn. by rewrite lookup_insert. Qed.
Lemma st_insert_anon x a v u : a_status (Know (<[inr a := v]> (a_status x)) u) !! inl k = st x.
Proof. cbn. by rewrite lookup_insert_ne. Qed.

(** A store that does not concern [k]. *)
Lemma other_event t size info tr : path name (NStore t size info) tr -> ~ assigns name t k ->
  exists j n, tr = [Event j n info] /\ j <> k.
Proof. intros H. inversion H; subst. intros Hn. eexists _, _. split; [done|]. congruence. Qed.
Lemma other_good b j n info : j <> k -> good k b -> good k ([Event j n info] ++ b).
Proof. intros Hj Hg. cbn. split; [|done]. cbn. intros E. congruence. Qed.
Lemma other_has b j n info : j <> k -> has k ([Event j n info] ++ b) <-> has k b.
Proof. intros Hj. rewrite has_app. split; [|by right]. intros [H|H]; [|done]. apply has_cons in H as [E|H]; [done|by apply has_nil in H]. Qed.
Lemma other_covers y j n info : j <> k -> covers y [Event j n info].
Proof. intros Hj H. apply has_cons in H as [E|H]; [done|by apply has_nil in H]. Qed.

Lemma list_loop_ok l : Forall loop_ok l ->
  forall x level l' y level', visit_list (visit_node true) l (x, level) = (l', (y, level')) -> szs l ->
  grows x y /\
  (forall t, path_list name l' t -> covers y t) /\
  (forall t b, path_list name l' t -> weak x b -> (k ∈ level -> has k b) -> good k b -> good k (t ++ b)) /\
  (forall t b, path_list name l' t -> (k ∈ level -> has k b) -> k ∈ level' -> has k (t ++ b)).
Proof.
  induction 1 as [|i l Hi Hl IH]; intros x level l' y level' E Hs.
  - cbn in E. injection E as <- <- <-. split; [apply grows_refl|]. split_and!.
    + intros t H. inversion H; subst. intros C. by apply has_nil in C.
    + intros t b H. by inversion H; subst.
    + intros t b H. inversion H; subst. auto.
  - destruct Hs as [Hsi Hsl]. cbn [visit_list] in E. fold (visit_list (visit_node true)) in E.
    destruct (visit_list (visit_node true) l (x, level)) as [r' [x1 level1]] eqn:E1.
    destruct (visit_node true i (x1, level1)) as [i' [x2 level2]] eqn:E2. injection E as <- <- <-.
    destruct (IH _ _ _ _ _ E1 Hsl) as (G1 & C1 & P1 & L1). destruct (Hi _ _ _ _ _ E2 Hsi) as (G2 & C2 & P2 & L2).
    split; [by eapply grows_trans|]. split_and!.
    + intros t H. inversion H as [|? ? t1 t2 H1 H2]; subst. intros C. apply has_app in C as [C|C].
      * by apply (C2 t1).
      * by apply (covers_grows _ _ _ G2 (C1 _ H2)).
    + intros t b H W Lv Hg. inversion H as [|? ? t1 t2 H1 H2]; subst. rewrite <- app_assoc. apply P2; auto.
      * eapply weak_grows; [exact G1|]. by apply weak_app.
    + intros t b H Lv Lv'. inversion H as [|? ? t1 t2 H1 H2]; subst. rewrite <- app_assoc. apply L2; auto.
Qed.

Lemma path_loop_inv l t : path name (NLoop l) t ->
  exists ts, Forall (path_list name l) ts /\ t = concat ts.
Proof.
  intros H. remember (NLoop l) as i eqn:Ei. revert Ei.
  apply (path_ind name (fun i t => i = NLoop l -> exists ts, Forall (path_list name l) ts /\ t = concat ts)); try done; clear H i t.
  - intros l0 [= ->]. exists []. split; [constructor|done].
  - intros l0 t1 t2 H1 _ IH [= ->]. destruct (IH eq_refl) as (ts & HF & ->). exists (t1 :: ts). split; [by constructor|done].
Qed.

Lemma visit_other in_loop t x level info' y level' : visit_address in_loop t x level = (info', y, level') ->
  match t with Known j _ => j <> k | _ => True end ->
  st y = st x /\ a_unknown x ⊆ a_unknown y /\ (k ∈ level' -> k ∈ level).
Proof.
  intros E Ht. destruct t as [j nm|nm|nm]; cbn [visit_address] in E.
  - destruct (a_status x !! inl j) as [[dec found]|].
    + destruct found; [injection E as <- <- <-; by split_and!|].
      destruct (decide (j ∈ level)); [injection E as <- <- <-; by split_and!|].
      destruct in_loop; injection E as <- <- <-; (split_and!; [try done; by apply st_insert_ne|done|set_solver]).
    + destruct (decide (nm ∈ a_unknown x)); destruct in_loop; injection E as <- <- <-;
        (split_and!; [by apply st_insert_ne|done|set_solver]).
  - injection E as <- <- <-. split_and!; [done|cbn; set_solver|done].
  - destruct (a_status x !! inr nm); injection E as <- <- <-; (split_and!; [try done; by apply st_insert_anon|done|done]).
Qed.
Lemma visit_store_other in_loop t size info x level i' y level' :
  visit_node in_loop (NStore t size info) (x, level) = (i', (y, level')) -> ~ assigns name t k ->
  exists info', i' = NStore t size info' /\ st y = st x /\ a_unknown x ⊆ a_unknown y /\ (k ∈ level' -> k ∈ level).
Proof.
  intros E Ha. cbn [visit_node] in E.
  assert (Ht : match t with Known j _ => j <> k | _ => True end) by (destruct t; try done; cbn in Ha; congruence).
  destruct size as [[|n]|f]; [injection E as <- <- <-; by exists info| |];
    cbn [fst snd] in E; (destruct (visit_address in_loop t x level) as [[info' st'] lv'] eqn:Ev);
    injection E as <- <- <-; exists info'; (split; [done|]); by eapply visit_other.
Qed.
Lemma visit_store_own in_loop t size info x level : (1 <= size_for size k)%nat ->
  visit_node in_loop (NStore t size info) (x, level) =
  (let '(info', st, level') := visit_address in_loop t x level in (NStore t size info', (st, level'))).
Proof. intros H. cbn [visit_node fst snd]. destruct size as [[|n]|f]; [cbn in H; lia|done..]. Qed.

Lemma own_or_other t : assigns name t k \/ ~ assigns name t k.
Proof. destruct t as [j n|n|n]; cbn; [destruct (decide (k = j))|destruct (decide (name k = n))..]; auto. Qed.

Lemma grows_same x y : st y = st x -> a_unknown x ⊆ a_unknown y -> grows x y.
Proof. intros E U. unfold grows. rewrite E. split_and!; auto. Qed.
Lemma own_event j nm size info tr : path name (NStore (Known j nm) size info) tr -> tr = [Event j (size_for size j) info].
Proof. intros H. inversion H as [? ? ? j' Hj| | | | |]; subst. cbn in Hj. by subst j'. Qed.

Lemma node_loop_ok i : loop_ok i.
Proof.
  induction i as [i IH] using node_ind'. destruct i as [t size info|l1 l2|l|]; intros x level i' y level' E Hs.
  - destruct (own_or_other t) as [Ha'|Ha'].
    + cbn [sized] in Hs. destruct (Hs Ha') as [Hsz Hanon]. rewrite visit_store_own in E by done.
      destruct t as [j n|n|n]; [| |done].
      * cbn in Ha'. subst j n. cbn [visit_address] in E.
        destruct (a_status x !! inl k) as [[dec found]|] eqn:Es.
        -- destruct found.
           ++ injection E as <- <- <-. split; [apply grows_refl|]. split_and!.
              ** intros tr H _. left. by rewrite Es.
              ** intros tr b H W Lv Hg. rewrite (own_event _ _ _ _ _ H). cbn. split; [|done]. intros _. unfold cond. cbn.
                 exact (proj1 W _ Es).
              ** intros tr b H Lv Lv'. apply has_app_r. auto.
           ++ destruct (decide (k ∈ level)) as [Lk|Lk].
              ** injection E as <- <- <-. split; [apply grows_refl|]. split_and!.
                 --- intros tr H _. left. by rewrite Es.
                 --- intros tr b H W Lv Hg. rewrite (own_event _ _ _ _ _ H). cbn. split; [|done]. intros _. unfold cond. cbn. auto.
                 --- intros tr b H Lv Lv'. apply has_app_r. auto.
              ** injection E as <- <- <-. split; [apply grows_refl|]. split_and!.
                 --- intros tr H _. left. by rewrite Es.
                 --- intros tr b H W Lv Hg. rewrite (own_event _ _ _ _ _ H). cbn. split; [|done]. intros _. unfold cond. done.
                 --- intros tr b H Lv Lv'. rewrite (own_event _ _ _ _ _ H). apply has_cons. by left.
        -- assert (E' : (NStore (Known k (name k)) size (InputInfo Unknown true),
                         (Know (<[inl k := (true, false)]> (a_status x)) (a_unknown x), {[k]} ∪ level)) = (i', (y, level'))).
           { destruct (decide (name k ∈ a_unknown x)); exact E. }
           clear E. injection E' as <- <- <-. split.
           { unfold grows. rewrite st_insert. split_and!; try done. intros dec [= <-]. by left. }
           split_and!.
           ++ intros tr H _. left. by rewrite st_insert.
           ++ intros tr b H W Lv Hg. rewrite (own_event _ _ _ _ _ H). cbn. split; [|done]. intros _. unfold cond. done.
           ++ intros tr b H Lv Lv'. rewrite (own_event _ _ _ _ _ H). apply has_cons. by left.
      * cbn [visit_address] in E. injection E as <- <- <-. split.
        { apply grows_same; [done|cbn; set_solver]. }
        split_and!.
        -- intros tr H _. right. cbn. set_solver.
        -- intros tr b H W Lv Hg. inversion H; subst. cbn. split; [|done]. intros _. unfold cond. done.
        -- intros tr b H Lv Lv'. apply has_app_r. auto.
    + destruct (visit_store_other _ _ _ _ _ _ _ _ _ E Ha') as (info' & -> & Est & Eun & Elv).
      split; [by apply grows_same|]. split_and!.
      * intros tr H. destruct (other_event _ _ _ _ H Ha') as (j & n & -> & Hj). by apply other_covers.
      * intros tr b H W Lv Hg. destruct (other_event _ _ _ _ H Ha') as (j & n & -> & Hj). by apply other_good.
      * intros tr b H Lv Lv'. apply has_app_r. auto.
  - destruct IH as [I1 I2]. cbn [visit_node fst snd] in E. destruct Hs as [Hs1 Hs2].
    destruct (visit_list (visit_node true) l1 (x, ∅)) as [l1' [x1 lv1]] eqn:E1.
    destruct (visit_list (visit_node true) l2 (x1, ∅)) as [l2' [x2 lv2]] eqn:E2. injection E as <- <- <-.
    destruct (list_loop_ok l1 I1 _ _ _ _ _ E1 Hs1) as (G1 & C1 & P1 & L1).
    destruct (list_loop_ok l2 I2 _ _ _ _ _ E2 Hs2) as (G2 & C2 & P2 & L2).
    split; [by eapply grows_trans|]. split_and!.
    + intros t H. inversion H; subst; [by eapply covers_grows; [exact G2|apply C1]|by apply C2].
    + intros t b H W Lv Hg. inversion H; subst.
      * apply P1; [done|done|set_solver|done].
      * apply P2; [done|by eapply weak_grows|set_solver|done].
    + intros t b H Lv Lv'. apply has_app_r. auto.
  - cbn [visit_node fst snd] in E. cbn [sized] in Hs.
    destruct (visit_list (visit_node true) l (x, ∅)) as [l1' [x1 lv1]] eqn:E1. injection E as <- <- <-.
    destruct (list_loop_ok l IH _ _ _ _ _ E1 Hs) as (G1 & C1 & P1 & L1).
    split; [done|]. split_and!.
    + intros t H. apply path_loop_inv in H as (ts & HF & ->). clear -HF C1. induction HF as [|t ts Ht _ IHt]; cbn [concat].
      * intros C. by apply has_nil in C.
      * intros C. apply has_app in C as [C|C]; [by apply (C1 t)|auto].
    + intros t b H W Lv Hg. apply path_loop_inv in H as (ts & HF & ->). induction HF as [|t ts Ht _ IHt]; cbn [concat]; [done|].
      rewrite <- app_assoc. apply P1; [done|by apply weak_app|set_solver|done].
    + intros t b H Lv Lv'. apply has_app_r. auto.
  - cbn in E. injection E as <- <- <-. split; [apply grows_refl|].
    assert (Hp : forall t, path name NOther t -> t = []) by (intros t H; by inversion H).
    split_and!.
    + intros t H. rewrite (Hp _ H). intros C. by apply has_nil in C.
    + intros t b H. rewrite (Hp _ H). done.
    + intros t b H Lv Lv'. rewrite (Hp _ H). cbn. auto.
Qed.

(** A node of the body itself. *)
Lemma node_top_ok i x level i' y level' t b :
  visit_node false i (x, level) = (i', (y, level')) -> sized name k i -> k ∉ level -> path name i' t ->
  strong x b -> good k b -> good k (t ++ b) /\ strong y (t ++ b) /\ k ∉ level'.
Proof.
  intros E Hs Hlv Hp [W N] Hg.
  assert (Hloop : match i with NStore _ _ _ => True | _ => visit_node true i (x, level) = (i', (y, level')) /\ level' = level end).
  { destruct i as [|l1 l2|l|]; [done|..]; (split; [exact E|]); cbn [visit_node fst snd] in E.
    - destruct (visit_list (visit_node true) l1 (x, ∅)) as [l1' [x1 lv1]].
      destruct (visit_list (visit_node true) l2 (x1, ∅)) as [l2' [x2 lv2]]. by injection E as <- <- <-.
    - destruct (visit_list (visit_node true) l (x, ∅)) as [l1' [x1 lv1]]. by injection E as <- <- <-.
    - by injection E as <- <- <-. }
  assert (Hgen : visit_node true i (x, level) = (i', (y, level')) /\ level' = level ->
                 good k (t ++ b) /\ strong y (t ++ b) /\ k ∉ level').
  { clear Hloop. intros [E' ->]. destruct (node_loop_ok i _ _ _ _ _ E' Hs) as (G & C & P & L). split_and!.
    - apply P; auto. intros ?; done.
    - split; [eapply weak_grows; [exact G|by apply weak_app]|].
      intros En Eu Hh. destruct G as (_ & _ & G3 & G4). apply has_app in Hh as [Hh|Hh].
      + destruct (C _ Hp Hh); [auto|done].
      + apply N; auto.
    - done. }
  destruct i as [tg size info|l1 l2|l|]; [|by apply Hgen..]. clear Hgen Hloop.
  destruct (own_or_other tg) as [Ha'|Ha'].
  - cbn [sized] in Hs. destruct (Hs Ha') as [Hsz Hanon]. rewrite visit_store_own in E by done.
    destruct tg as [j n|n|n]; [| |done].
    + cbn in Ha'. subst j n. cbn [visit_address] in E.
      assert (Hhas : forall info, has k ([Event k (size_for size k) info] ++ b)) by (intros; apply has_cons; by left).
      destruct (a_status x !! inl k) as [[dec found]|] eqn:Es.
      * destruct found.
        -- injection E as <- <- <-. rewrite (own_event _ _ _ _ _ Hp). split; [|split; [|done]].
           ++ cbn. split; [|done]. intros _. unfold cond. cbn. exact (proj1 W _ Es).
           ++ split; [by apply weak_app|]. rewrite Es. done.
        -- rewrite decide_False in E by done. injection E as <- <- <-. rewrite (own_event _ _ _ _ _ Hp). split; [|split; [|done]].
           ++ cbn. split; [|done]. intros _. unfold cond. done.
           ++ unfold strong, weak. rewrite st_insert. split; [split|]; [|done|done]. intros dec0 [= <-].
              rewrite (proj2 W dec Es). apply Hhas.
      * destruct (decide (name k ∈ a_unknown x)) as [U|U]; injection E as <- <- <-; rewrite (own_event _ _ _ _ _ Hp); (split; [|split; [|done]]).
        -- cbn. split; [|done]. intros _. unfold cond. done.
        -- unfold strong, weak. rewrite st_insert. split; [split|]; [|done|done]. intros dec0 [= <-]. apply Hhas.
        -- cbn. split; [|done]. intros _. unfold cond. cbn. auto.
        -- unfold strong, weak. rewrite st_insert. split; [split|]; [|done|done]. intros dec0 [= <-]. apply has_last_cons. by left.
    + cbn [visit_address] in E. injection E as <- <- <-. inversion Hp as [? ? ? j Hj| | | | |]; subst. split; [|split; [|done]].
      * cbn. split; [|done]. intros _. unfold cond. done.
      * split; [exact (weak_app _ _ _ W)|]. cbn. set_solver.
  - destruct (visit_store_other _ _ _ _ _ _ _ _ _ E Ha') as (info' & -> & Est & Eun & Elv).
    destruct (other_event _ _ _ _ Hp Ha') as (j & n & -> & Hj). split; [by apply other_good|]. split; [|auto].
    split; [apply (weak_grows x); [by apply grows_same|by apply weak_app]|].
    rewrite Est. intros En Eu. rewrite other_has by done. apply N; [done|set_solver].
Qed.

Lemma list_top_ok l : forall x level l' y level' t b,
  visit_list (visit_node false) l (x, level) = (l', (y, level')) -> szs l -> k ∉ level -> path_list name l' t ->
  strong x b -> good k b -> good k (t ++ b) /\ strong y (t ++ b) /\ k ∉ level'.
Proof.
  induction l as [|i l IH]; intros x level l' y level' t b E Hs Hlv Hp S Hg.
  - cbn in E. injection E as <- <- <-. inversion Hp; subst. done.
  - destruct Hs as [Hsi Hsl]. cbn [visit_list] in E. fold (visit_list (visit_node false)) in E.
    destruct (visit_list (visit_node false) l (x, level)) as [r' [x1 level1]] eqn:E1.
    destruct (visit_node false i (x1, level1)) as [i' [x2 level2]] eqn:E2. injection E as <- <- <-.
    inversion Hp as [|? ? t1 t2 H1 H2]; subst. rewrite <- app_assoc.
    destruct (IH _ _ _ _ _ _ _ E1 Hsl Hlv H2 S Hg) as (Hg1 & S1 & L1).
    by eapply node_top_ok.
Qed.

Lemma build_inputs_good l t : szs l -> path_list name (build_inputs l) t -> good k t.
Proof.
  intros Hs Hp. unfold build_inputs in Hp. destruct (visit_list _ l _) as [l' [y lv]] eqn:E. cbn [fst] in Hp.
  rewrite <- (app_nil_r t). eapply (list_top_ok l _ _ _ _ _ t [] E Hs); [set_solver|done| |done].
  split; [split|]; cbn; try (by rewrite lookup_empty). intros _ _ H. by apply has_nil in H.
Qed.

(** Sizes of the events. *)
Lemma path_sizes : (forall i t, path name i t -> sized name k i -> forall e, e ∈ t -> e_cmp e = k -> (1 <= e_size e)%nat) /\
  (forall l t, path_list name l t -> szs l -> forall e, e ∈ t -> e_cmp e = k -> (1 <= e_size e)%nat).
Proof.
  apply path_mutind; cbn [sized foldr].
  - intros t size info j Ha Hs e He Ek. apply elem_of_list_singleton in He as ->. cbn in Ek. subst j. apply (Hs Ha).
  - intros l1 l2 t _ IH [? ?]. auto.
  - intros l1 l2 t _ IH [? ?]. auto.
  - intros l _ e He. by apply elem_of_nil in He.
  - intros l t1 t2 _ IH1 _ IH2 Hs e He. apply elem_of_app in He as [He|He]; auto.
  - intros _ e He. by apply elem_of_nil in He.
  - intros _ e He. by apply elem_of_nil in He.
  - intros i l t1 t2 _ IH1 _ IH2 [? ?] e He. apply elem_of_app in He as [He|He]; auto.
Qed.

(** The pass changes annotations only. *)
Lemma visit_sized b i : forall x i' y, visit_node b i x = (i', y) -> sized name k i -> sized name k i'.
Proof.
  assert (HL : forall l b, Forall (fun i => forall b x i' y, visit_node b i x = (i', y) -> sized name k i -> sized name k i') l ->
    forall x l' y, visit_list (visit_node b) l x = (l', y) -> szs l -> szs l').
  { intros l c. induction 1 as [|i0 l Hi Hl IHl]; intros x l' y E.
    - cbn in E. by injection E as <- <-.
    - cbn [visit_list] in E. fold (visit_list (visit_node c)) in E. destruct (visit_list (visit_node c) l x) as [r' x1] eqn:E1.
      destruct (visit_node c i0 x1) as [i0' x2] eqn:E2. injection E as <- <-. intros [? ?]. cbn. split; eauto. }
  revert b. induction i as [i IH] using node_ind'. intros b x i' y E. destruct i as [t size info|l1 l2|l|]; cbn [visit_node] in E.
  - destruct size as [[|n]|f]; [by injection E as <- <-| |];
      (destruct (visit_address b t x.1 x.2) as [[info' st'] lv']); by injection E as <- <-.
  - destruct IH as [I1 I2]. destruct (visit_list (visit_node true) l1 (x.1, ∅)) as [l1' [x1 lv1]] eqn:E1.
    destruct (visit_list (visit_node true) l2 (x1, ∅)) as [l2' [x2 lv2]] eqn:E2. injection E as <- <-. intros [? ?]. cbn. split; eauto.
  - destruct (visit_list (visit_node true) l (x.1, ∅)) as [l1' [x1 lv1]] eqn:E1. injection E as <- <-. cbn. eauto.
  - by injection E as <- <-.
Qed.
Lemma build_inputs_sized l : szs l -> szs (build_inputs l).
Proof.
  unfold build_inputs. generalize (Know ∅ ∅, (∅ : gset nat)). intros x. revert x.
  assert (HL : forall x l' y, visit_list (visit_node false) l x = (l', y) -> szs l -> szs l').
  { induction l as [|i l IHl]; intros x l' y E.
    - cbn in E. by injection E as <- <-.
    - cbn [visit_list] in E. fold (visit_list (visit_node false)) in E. destruct (visit_list (visit_node false) l x) as [r' x1] eqn:E1.
      destruct (visit_node false i x1) as [i0' x2] eqn:E2. injection E as <- <-. intros [? ?]. cbn. split; eauto using visit_sized. }
  intros x. destruct (visit_list (visit_node false) l x) as [l' y] eqn:E. cbn. eauto.
Qed.

Lemma run_once l t sanity : szs l -> path_list name (build_inputs l) t -> events_of k t <> [] ->
  fired sanity (events_of k t) (total (events_of k t)) = Some (once_at_the_end (length (events_of k t))).
Proof.
  intros Hs Hp Hne. apply (fired_ok _ k); [|apply good_filter; by eapply build_inputs_good|done|by left].
  apply Forall_forall. intros e He. apply elem_of_list_filter in He as [Ek He]. split; [done|].
  eapply (proj2 path_sizes); [exact Hp|by apply build_inputs_sized|done|done].
Qed.
End Pass.

(** ** Anonymous components *)
Section Anonymous.
Context (a : nat).
Local Notation sa x := (a_status x !! inr a).
Local Notation all l := (concat (stores_to a <$> l)).
Local Notation ones := (foldr (fun i P => one_place a i /\ P) True).
Definition nl : input_info := InputInfo NoLast false.
Definition marks (known : bool) (s s' : list (ssize * input_info)) : Prop :=
  fst <$> s' = fst <$> s /\
  (s <> [] -> snd <$> s' = if known then replicate (length s) nl else replicate (length s - 1) nl ++ [InputInfo Last false]).
Definition marked (x : known) (s s' : list (ssize * input_info)) (y : known) : Prop :=
  marks (bool_decide (is_Some (sa x))) s s' /\ (is_Some (sa y) <-> is_Some (sa x) \/ s <> []).

Lemma marked_nil x : marked x [] [] x.
Proof. split; [split; done|]. split; [by left|]. by intros [?|?]. Qed.
Lemma marks_length b s s' : marks b s s' -> length s' = length s.
Proof. intros [E _]. apply (f_equal length) in E. by rewrite !fmap_length in E. Qed.
(** [x] to [y] visits [s2]; [y] to [z] visits [s1]. *)
Lemma marked_app x y z s1 s1' s2 s2' : marked x s2 s2' y -> marked y s1 s1' z -> marked x (s1 ++ s2) (s1' ++ s2') z.
Proof.
  intros [M2 S2] [M1 S1]. pose proof (marks_length _ _ _ M1) as L1. pose proof (marks_length _ _ _ M2) as L2.
  split; [split|].
  - destruct M1 as [E1 _], M2 as [E2 _]. by rewrite !fmap_app, E1, E2.
  - intros Hne. rewrite fmap_app. destruct M1 as [_ M1], M2 as [_ M2].
    destruct (decide (is_Some (sa x))) as [X|X].
    + rewrite bool_decide_true in M2 |- * by done. rewrite bool_decide_true in M1 by tauto. rewrite app_length, replicate_add. f_equal.
      * destruct s1; [by destruct s1'|by apply M1].
      * destruct s2; [by destruct s2'|by apply M2].
    + rewrite bool_decide_false in M2 |- * by done. destruct s2 as [|e2 s2].
      * destruct s2'; [|done]. rewrite bool_decide_false in M1 by tauto. rewrite !app_nil_r. apply M1. by rewrite app_nil_r in Hne.
      * rewrite bool_decide_true in M1 by (apply S2; by right). rewrite M2 by done. rewrite app_assoc. f_equal.
        rewrite app_length. cbn [length]. replace (length s1 + S (length s2) - 1)%nat with (length s1 + (S (length s2) - 1))%nat by lia.
        rewrite replicate_add. f_equal. destruct s1; [by destruct s1'|by apply M1].
  - rewrite S1, S2. destruct s1, s2; cbn; naive_solver.
Qed.

Definition anon_ok (i : node) : Prop := forall c x lv i' y lv', visit_node c i (x, lv) = (i', (y, lv')) ->
  one_place a i -> marked x (stores_to a i) (stores_to a i') y.
Lemma anon_list l : Forall anon_ok l -> forall c x lv l' y lv', visit_list (visit_node c) l (x, lv) = (l', (y, lv')) ->
  ones l -> marked x (all l) (all l') y.
Proof.
  induction 1 as [|i l Hi Hl IHl]; intros c x lv l' y lv' E.
  - cbn in E. injection E as <- <- <-. intros _. apply marked_nil.
  - cbn [visit_list] in E. fold (visit_list (visit_node c)) in E. destruct (visit_list (visit_node c) l (x, lv)) as [r' [x1 lv1]] eqn:E1.
    destruct (visit_node c i (x1, lv1)) as [i' [x2 lv2]] eqn:E2. injection E as <- <- <-. intros [? ?]. cbn.
    eapply marked_app; [by eapply IHl|by eapply Hi].
Qed.
Lemma anon_addr c t x lv info' y lv' : visit_address c t x lv = (info', y, lv') -> t <> Anon a -> sa y = sa x.
Proof.
  intros E Ht. destruct t as [j nm|nm|nm]; cbn [visit_address] in E.
  - repeat (case_match; simplify_eq; try done); cbn; by rewrite lookup_insert_ne.
  - by injection E as <- <- <-.
  - destruct (a_status x !! inr nm); injection E as <- <- <-; [done|]. cbn. rewrite lookup_insert_ne; congruence.
Qed.
Lemma anon_node i : anon_ok i.
Proof.
  induction i as [i IH] using node_ind'. intros c x lv i' y lv' E Ho. destruct i as [t size info|l1 l2|l|].
  - cbn [visit_node fst snd] in E. assert (Ht : t = Anon a \/ t <> Anon a).
    { destruct t as [| |n]; try by right. destruct (decide (n = a)); [left|right]; congruence. }
    destruct Ht as [->|Ht].
    + cbn [one_place] in Ho. specialize (Ho eq_refl).
      assert (E' : (let '(info', st, level') := visit_address c (Anon a) x lv in (NStore (Anon a) size info', (st, level'))) = (i', (y, lv'))).
      { destruct size as [[|n]|f]; [done|exact E..]. } clear E. cbn [visit_address] in E'.
      destruct (sa x) as [v|] eqn:Ex; injection E' as <- <- <-; cbn [stores_to]; rewrite !decide_True by done; (split; [split; [done|]|]).
      * intros _. rewrite bool_decide_true by (rewrite Ex; eauto). done.
      * rewrite Ex. split; [by left|eauto].
      * intros _. rewrite bool_decide_false by (rewrite Ex; by intros [? ?]). done.
      * cbn. rewrite lookup_insert. split; [by right|eauto].
    + assert (Hn : forall inf, stores_to a (NStore t size inf) = []).
      { intros inf. destruct t as [| |n]; cbn; try done. rewrite decide_False; [done|congruence]. }
      assert (exists inf, i' = NStore t size inf /\ sa y = sa x) as (inf & -> & Ey).
      { destruct size as [[|n]|f]; [injection E as <- <- <-; by exists info| |];
          (destruct (visit_address c t x lv) as [[info' st'] lv1] eqn:Ev); injection E as <- <- <-; exists info'; (split; [done|]);
          by eapply anon_addr. }
      rewrite !Hn. destruct (marked_nil x) as [M S]. split; [done|]. rewrite Ey. split; [by left|]. by intros [?|?].
  - destruct IH as [I1 I2]. cbn [visit_node fst snd] in E. destruct Ho as (O1 & O2 & O3).
    destruct (visit_list (visit_node true) l1 (x, ∅)) as [l1' [x1 lv1]] eqn:E1.
    destruct (visit_list (visit_node true) l2 (x1, ∅)) as [l2' [x2 lv2]] eqn:E2. injection E as <- <- <-.
    pose proof (anon_list _ I1 _ _ _ _ _ _ E1 O1) as M1. pose proof (anon_list _ I2 _ _ _ _ _ _ E2 O2) as M2. cbn [stores_to].
    destruct O3 as [O3|O3]; rewrite O3 in *.
    + pose proof (marks_length _ _ _ (proj1 M1)) as Z. destruct (all l1'); [|done]. cbn [app].
      pose proof (marked_app _ _ _ _ _ _ _ M1 M2) as M. by rewrite !app_nil_r in M.
    + pose proof (marks_length _ _ _ (proj1 M2)) as Z. destruct (all l2'); [|done]. rewrite !app_nil_r.
      exact (marked_app _ _ _ _ _ _ _ M1 M2).
  - cbn [visit_node fst snd] in E. destruct (visit_list (visit_node true) l (x, ∅)) as [l1' [x1 lv1]] eqn:E1. injection E as <- <- <-.
    cbn [stores_to]. by eapply anon_list.
  - cbn in E. injection E as <- <- <-. apply marked_nil.
Qed.

Lemma anonymous l : ones l -> marks false (all l) (all (build_inputs l)).
Proof.
  intros Ho. unfold build_inputs. destruct (visit_list _ l _) as [l' [y lv]] eqn:E. cbn [fst].
  assert (HF : Forall anon_ok l) by (apply Forall_forall; intros; apply anon_node).
  destruct (anon_list _ HF _ _ _ _ _ _ E Ho) as [M _]. cbn in M. rewrite lookup_empty in M. done.
Qed.

Lemma good_once k s : (1 <= length s)%nat -> snd <$> s = replicate (length s - 1) nl ++ [InputInfo Last false] ->
  good k ((fun x => Event k (size_for x.1 k) x.2) <$> s) /\ has_last k ((fun x => Event k (size_for x.1 k) x.2) <$> s).
Proof.
  induction s as [|e s IH]; intros Hl E; [cbn in Hl; lia|]. destruct s as [|e2 s].
  - cbn in E. injection E as E. cbn. rewrite E. split; [split; [|done]|].
    + intros _. unfold cond. cbn. apply has_nil.
    + exists (Event k (size_for e.1 k) (InputInfo Last false)). split; [left|done].
  - cbn [length] in *. replace (S (S (length s)) - 1)%nat with (S (S (length s) - 1)) in E by lia.
    cbn [replicate app fmap list_fmap] in E. injection E as E1 E2. destruct IH as [G L]; [lia|exact E2|].
    split; [split; [|exact G]|].
    + intros _. unfold cond. cbn [e_info]. rewrite E1. exact L.
    + destruct L as (x & Hx & L). exists x. split; [by right|done].
Qed.
End Anonymous.

(** ** The executions of the annotated body *)
Section Executions.
Context (name : nat -> nat).
Local Notation proj tr := ((fun e => (e_cmp e, e_size e)) <$> tr).
Definition same_paths (i : node) : Prop := forall c x i' y tr, visit_node c i x = (i', y) -> path name i' tr ->
  exists tr0, path name i tr0 /\ proj tr0 = proj tr.
Lemma same_list l : Forall same_paths l -> forall c x l' y tr, visit_list (visit_node c) l x = (l', y) -> path_list name l' tr ->
  exists tr0, path_list name l tr0 /\ proj tr0 = proj tr.
Proof.
  induction 1 as [|i l Hi Hl IHl]; intros c x l' y tr E Hp.
  - cbn in E. injection E as <- <-. by exists tr.
  - cbn [visit_list] in E. fold (visit_list (visit_node c)) in E. destruct (visit_list (visit_node c) l x) as [r' x1] eqn:E1.
    destruct (visit_node c i x1) as [i' x2] eqn:E2. injection E as <- <-. inversion Hp as [|? ? t1 t2 H1 H2]; subst.
    destruct (Hi _ _ _ _ _ E2 H1) as (a & Ha & Ea). destruct (IHl _ _ _ _ _ E1 H2) as (b & Hb & Eb).
    exists (a ++ b). split; [by apply path_cons|]. by rewrite !fmap_app, Ea, Eb.
Qed.
Lemma same_node i : same_paths i.
Proof.
  induction i as [i IH] using node_ind'. intros c x i' y tr E Hp. destruct i as [t size info|l1 l2|l|]; cbn [visit_node] in E.
  - assert (exists inf, i' = NStore t size inf) as [inf ->].
    { destruct size as [[|n]|f]; [injection E as <- <-; eauto| |]; (destruct (visit_address c t x.1 x.2) as [[? ?] ?]); injection E as <- <-; eauto. }
    inversion Hp; subst. eexists. split; [by apply path_store|done].
  - destruct IH as [I1 I2]. destruct (visit_list (visit_node true) l1 (x.1, ∅)) as [l1' [x1 lv1]] eqn:E1.
    destruct (visit_list (visit_node true) l2 (x1, ∅)) as [l2' [x2 lv2]] eqn:E2. injection E as <- <-. inversion Hp; subst.
    + destruct (same_list _ I1 _ _ _ _ _ E1 ltac:(eassumption)) as (a & Ha & Ea). exists a. split; [by apply path_then|done].
    + destruct (same_list _ I2 _ _ _ _ _ E2 ltac:(eassumption)) as (a & Ha & Ea). exists a. split; [by apply path_else|done].
  - destruct (visit_list (visit_node true) l (x.1, ∅)) as [l1' [x1 lv1]] eqn:E1. injection E as <- <-.
    apply path_loop_inv in Hp as (ts & HF & ->). induction HF as [|t ts Ht _ IHt]; cbn [concat].
    + exists []. split; [apply path_end|done].
    + destruct IHt as (b & Hb & Eb). destruct (same_list _ IH _ _ _ _ _ E1 Ht) as (a & Ha & Ea).
      exists (a ++ b). split; [by apply path_iter|]. by rewrite !fmap_app, Ea, Eb.
  - injection E as <- <-. by exists tr.
Qed.
Lemma build_inputs_paths l tr : path_list name (build_inputs l) tr -> exists tr0, path_list name l tr0 /\ proj tr0 = proj tr.
Proof.
  intros Hp. unfold build_inputs in Hp. destruct (visit_list _ l _) as [l' y] eqn:E.
  eapply same_list; [|exact E|exact Hp]. apply Forall_forall. intros. apply same_node.
Qed.
End Executions.
