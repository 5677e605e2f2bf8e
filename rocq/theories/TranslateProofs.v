(** The translation of expressions: addresses and values are those of the program. *)
From stdpp Require Import prelude gmap numbers list strings.
From Verif Require Import DatModel IrModel IrSpec TranslateModel TranslateSpec.
From Verif Require SugarModel SugarSpec SugarProofs IrProofs.
Import SugarModel (name, User, Auto, Ret, iop, Add, Pow, OtherOp, expr, Num, Var, Call, Pre, Inf, Switch, Arr, Uni,
  access, Idx, Fld, Decl, Assign, Equal, If, While, Block, Init, Return, Log, Assert).
Import SugarSpec (val, Leaf, Node, Rec, has_shape, zeros, select, eval, path, look, store, condition, sequence, event, key,
  At, Field, den1, den2, call, Next, Returned, OutOfFuel, overlay, update, both, all, or_fail, or_ill, number, shaped, nth_key, evals).
Local Open Scope nat_scope.

(** ** Arrays *)
Lemma contents_node l : contents (Node l) = concat (contents <$> l).
Proof. induction l as [|v l IH]; [done|]. cbn in *. by rewrite IH. Qed.
Lemma numeric_node l : numeric (Node l) <-> Forall numeric l.
Proof.
  induction l as [|v l IH]; [done|]. rewrite Forall_cons. split.
  - intros [H1 H2]. split; [done|]. by apply IH.
  - intros [H1 H2]. split; [done|]. by apply IH.
Qed.
Lemma array_leaf v : array [] v <-> exists z, v = Leaf z.
Proof. split; [|intros [z ->]; done]. intros [H1 H2]. destruct v; [eauto|done|done]. Qed.
Lemma array_node d ds v : array (d :: ds) v <-> exists l, v = Node l /\ length l = d /\ Forall (array ds) l.
Proof.
  split.
  - intros [H1 H2]. destruct v as [|l|]; try done. exists l. split; [done|]. cbn in H1. apply andb_prop in H1 as [H1 H3].
    apply Nat.eqb_eq in H1. split; [done|]. apply numeric_node in H2. clear H1. induction l as [|v l IH]; [constructor|].
    cbn in H3. apply andb_prop in H3 as [H3 H4]. apply Forall_cons in H2 as [H2 H5]. constructor; [done|]. by apply IH.
  - intros (l & -> & <- & H). split.
    + cbn. rewrite Nat.eqb_refl. cbn. induction H as [|v l [H _] _ IH]; [done|]. cbn. by rewrite H.
    + apply numeric_node. induction H as [|v l [_ H] _ IH]; constructor; done.
Qed.
Lemma array_length ds : forall v, array ds v -> length (contents v) = elements ds.
Proof.
  induction ds as [|d ds IH]; intros v H.
  - apply array_leaf in H as [z ->]. done.
  - apply array_node in H as (l & -> & <- & H). rewrite contents_node. cbn [elements].
    induction H as [|v l H _ IHl]; [done|]. cbn [fmap list_fmap concat length]. rewrite app_length, IHl, (IH _ H). lia.
Qed.
Lemma fold_left_mul ds : forall n, fold_left Nat.mul ds n = n * elements ds.
Proof. induction ds as [|d ds IH]; intros n; cbn; [lia|]. rewrite IH. lia. Qed.
Lemma size_of_elements ds : size_of ds = elements ds.
Proof. unfold size_of. rewrite fold_left_mul. lia. Qed.
Lemma concat_length ds l : Forall (array ds) l -> length (concat (contents <$> l)) = length l * elements ds.
Proof. intros H. rewrite <- contents_node. by rewrite (array_length (length l :: ds)) by (apply array_node; eauto). Qed.

(** any numbers are an array *)
Lemma array_of ds : forall l, length l = elements ds -> exists v, array ds v /\ contents v = l.
Proof.
  induction ds as [|d ds IH]; intros l Hl; cbn [elements] in Hl.
  - destruct l as [|z [|]]; try done. by exists (Leaf z).
  - assert (exists vs, length vs = d /\ Forall (array ds) vs /\ concat (contents <$> vs) = l) as (vs & H1 & H2 & H3).
    { revert l Hl. induction d as [|d IHd]; intros l Hl.
      - exists []. destruct l; [done|done].
      - destruct (IH (take (elements ds) l)) as (v & Hv & Hc); [rewrite take_length; lia|].
        destruct (IHd (drop (elements ds) l)) as (vs & H1 & H2 & H3); [rewrite drop_length; lia|].
        exists (v :: vs). cbn. rewrite H1, H3, Hc, take_drop. auto. }
    exists (Node vs). rewrite contents_node. split; [apply array_node; eauto|done].
Qed.

(** row-major offset *)
Fixpoint offset (ds ixs : list nat) : nat :=
  match ixs, ds with i :: ixs, d :: ds => i * elements ds + offset ds ixs | _, _ => 0 end.

Lemma nth_key_some {A} (l : list A) i x : nth_key l i = Some x -> (0 <= i)%Z /\ l !! Z.to_nat i = Some x.
Proof. unfold nth_key. destruct (Z.ltb_spec i 0); [done|]. auto. Qed.

Lemma locate ds : forall p v slot, array ds v -> select v p = SugarSpec.Ok slot ->
  exists ixs pre post, p = (fun i => At (Z.of_nat i)) <$> ixs /\ array (drop (length ixs) ds) slot /\
    contents v = pre ++ contents slot ++ post /\ length pre = offset ds ixs /\ length ixs <= length ds /\
    forall u w, update v p u = SugarSpec.Ok w ->
      exists slot', overlay u slot = Some slot' /\
        (array (drop (length ixs) ds) slot' -> array ds w /\ contents w = pre ++ contents slot' ++ post).
Proof.
  induction ds as [|d ds IH]; intros p v slot Ha Hs.
  - apply array_leaf in Ha as Hv. destruct Hv as [z ->]. destruct p as [|[i|f] p]; try done. cbn in Hs. injection Hs as <-.
    exists [], [], []. cbn [contents app length offset drop fmap list_fmap]. split; [done|]. split; [done|]. split; [done|].
    split; [done|]. split; [done|]. intros u w Hu. cbn [update] in Hu. destruct (overlay u (Leaf z)) as [s'|] eqn:E; [|done]. injection Hu as <-.
    exists s'. split; [done|]. intros H. split; [done|]. by rewrite app_nil_r.
  - apply array_node in Ha as Hv. destruct Hv as (l & -> & Hd & Hl). destruct p as [|[i|f] p]; [| |done].
    + cbn in Hs. injection Hs as <-.
      exists [], [], []. cbn [app length offset drop fmap list_fmap]. rewrite app_nil_r. split; [done|]. split; [done|]. split; [done|].
      split; [done|]. split; [lia|]. intros u w Hu. cbn [update] in Hu. destruct (overlay u (Node l)) as [s'|] eqn:E; [|done]. injection Hu as <-.
      exists s'. split; [done|]. intros H. split; [done|]. by rewrite app_nil_r.
    + cbn [select] in Hs. destruct (nth_key l i) as [x|] eqn:Ei; [|done]. cbn in Hs.
      pose proof Ei as Ei'. apply nth_key_some in Ei as [Hi Ei].
      assert (array ds x) as Hx by (eapply Forall_lookup_1; eauto).
      destruct (IH p x slot Hx Hs) as (ixs & pre & post & -> & H2 & H3 & H4 & H5 & H6).
      pose proof (take_drop_middle l (Z.to_nat i) x Ei) as Hsplit.
      set (l1 := take (Z.to_nat i) l) in *. set (l2 := drop (S (Z.to_nat i)) l) in *.
      assert (length l1 = Z.to_nat i) as Hl1. { unfold l1. rewrite take_length. apply lookup_lt_Some in Ei. lia. }
      exists (Z.to_nat i :: ixs), (concat (contents <$> l1) ++ pre), (post ++ concat (contents <$> l2)).
      cbn [fmap list_fmap length drop]. rewrite Z2Nat.id by lia. split; [done|]. split; [done|].
      assert (Forall (array ds) l1) as Hf1 by (by apply Forall_take).
      split. { rewrite contents_node, <- Hsplit, fmap_app, fmap_cons, concat_app. cbn [concat]. rewrite H3. by rewrite <- !app_assoc. }
      split. { rewrite app_length, (concat_length ds) by done. cbn [offset]. lia. }
      split; [lia|]. intros u w Hu. cbn [update] in Hu. rewrite Ei' in Hu. cbn in Hu.
      destruct (update x _ u) as [x'| |] eqn:Eu; cbn in Hu; try done. injection Hu as <-.
      destruct (H6 u x' Eu) as (slot' & Ho & Hok). exists slot'. split; [done|]. intros Hs'. destruct (Hok Hs') as [Hx' Hc].
      assert (<[Z.to_nat i := x']> l = l1 ++ x' :: l2) as Hins.
      { rewrite <- Hsplit. rewrite <- Hl1 at 1. rewrite <- (Nat.add_0_r (length l1)). by rewrite insert_app_r. }
      split.
      * apply array_node. eexists. split; [done|]. rewrite insert_length. split; [done|]. by apply Forall_insert.
      * rewrite contents_node, Hins, fmap_app, fmap_cons, concat_app. cbn [concat]. rewrite Hc. by rewrite <- !app_assoc.
Qed.
Lemma update_fail p : forall v u, update v p u = SugarSpec.Fail -> select v p = SugarSpec.Fail.
Proof.
  induction p as [|[i|f] p IH]; intros v u H; cbn in H.
  - destruct (overlay u v); done.
  - destruct v as [|l|]; try done. cbn. destruct (nth_key l i) as [x|] eqn:E; cbn in *; [|done].
    apply (IH _ u). destruct (update x p u) eqn:E2; cbn in H; done.
  - destruct v as [| |l]; try done. cbn. destruct (SugarSpec.assoc f l) as [x|] eqn:E; cbn in *; [|done].
    apply (IH _ u). destruct (update x p u) eqn:E2; cbn in H; done.
Qed.
Lemma update_select p : forall v u w, update v p u = SugarSpec.Ok w -> exists s, select v p = SugarSpec.Ok s.
Proof.
  induction p as [|[i|f] p IH]; intros v u w H; cbn in H.
  - by exists v.
  - destruct v as [|l|]; try done. cbn. destruct (nth_key l i) as [x|] eqn:E; cbn in *; [|done].
    destruct (update x p u) eqn:E2; cbn in H; try done. by eapply IH.
  - destruct v as [| |l]; try done. cbn. destruct (SugarSpec.assoc f l) as [x|] eqn:E; cbn in *; [|done].
    destruct (update x p u) eqn:E2; cbn in H; try done. by eapply IH.
Qed.

(** storing one array over another *)
Fixpoint overlay_list (vs os : list val) : option (list val) :=
  match vs, os with
  | [], _ => Some os
  | v :: vs, o :: os => w ← overlay v o; ws ← overlay_list vs os; Some (w :: ws)
  | _ :: _, [] => None
  end.
Lemma overlay_node vs os : overlay (Node vs) (Node os) = Node <$> overlay_list vs os.
Proof.
  reflexivity.
Qed.
Lemma overlay_same ds : forall v old, array ds v -> has_shape ds old = true -> overlay v old = Some v.
Proof.
  induction ds as [|d ds IH]; intros v old Hv Ho.
  - apply array_leaf in Hv as [z ->]. destruct old; done.
  - apply array_node in Hv as (l & -> & <- & Hl). destruct old as [|os|]; try done. cbn in Ho.
    apply andb_prop in Ho as [Ho1 Ho2]. apply Nat.eqb_eq in Ho1. rewrite overlay_node.
    revert os Ho1 Ho2. induction Hl as [|v l Hv Hl IHl]; intros [|o os] H1 H2; try done.
    cbn in H2. apply andb_prop in H2 as [H2 H3]. cbn. rewrite (IH v o) by done. cbn. injection H1 as H1.
    specialize (IHl os H1 H3). destruct (overlay_list l os) as [ws|]; [|done]. cbn in *. injection IHl as ->. done.
Qed.
Lemma overlay_rows v old dsl s : array dsl old -> numeric v -> rows_match v old -> overlay v old = Some s ->
  array dsl s /\ contents s = contents v ++ drop (length (contents v)) (contents old).
Proof.
  intros Ho Hn (ds & [[H1 H2]|(d & d' & H1 & H2)]) He.
  - assert (array ds v) as Hv by done. rewrite (overlay_same ds) in He by done. injection He as <-.
    assert (array ds old) as Ho' by (by split; [|apply Ho]).
    rewrite drop_ge. 2:{ rewrite (array_length ds v), (array_length ds old) by done. lia. }
    rewrite app_nil_r. split; [|done].
    split; [|done]. destruct Ho as [Ho _]. clear -H1 H2 Ho. revert dsl v old H1 H2 Ho.
    induction ds as [|d ds IH]; intros dsl v old H1 H2 Ho.
    + destruct v, old; try done; destruct dsl; try done.
    + destruct v as [|vs|], old as [|os|]; try done. destruct dsl as [|d' dsl]; [done|]. cbn in *.
      apply andb_prop in H1 as [H1 H3], H2 as [H2 H4], Ho as [H5 H6]. apply Nat.eqb_eq in H1, H2, H5.
      replace (length vs =? d') with true by (symmetry; apply Nat.eqb_eq; congruence). cbn.
      assert (length vs = length os) as Hl by congruence. clear H1 H2 H5.
      revert os Hl H4 H6. induction vs as [|v vs IHv]; intros [|o os] Hl H4 H6; try done. cbn in *.
      apply andb_prop in H3 as [? ?], H4 as [? ?], H6 as [? ?]. rewrite (IH dsl v o) by done. cbn. apply (IHv H0 os); auto.
  - destruct v as [|vs|]; [done| |done]. destruct old as [|os|]; [done| |done].
    assert (array (d :: ds) (Node vs)) as Hv by done.
    assert (array (d' :: ds) (Node os)) as Ho' by (by split; [|apply Ho]).
    apply array_node in Hv as (? & [= <-] & Hvl & Hv). apply array_node in Ho' as (? & [= <-] & Hol & Ho').
    destruct dsl as [|d'' dsl]. { destruct Ho as [Ho _]. done. }
    apply array_node in Ho as (? & [= <-] & Hol' & Ho).
    rewrite overlay_node in He.
    assert (exists ws, s = Node ws /\ length ws = length os /\ Forall (array dsl) ws /\
      concat (contents <$> ws) = concat (contents <$> vs) ++ drop (length (concat (contents <$> vs))) (concat (contents <$> os))) as (ws & -> & Hw1 & Hw2 & Hw3).
    2:{ split; [apply array_node; exists ws; split; [done|]; split; [lia|done]|]. by rewrite !contents_node. }
    clear Hvl Hol Hol' H1 H2 Hn. revert os s Ho' Ho He. induction Hv as [|v vs Hv Hvs IHv]; intros os s Ho' Ho He.
    + cbn in He. injection He as <-. exists os. cbn. by rewrite drop_0.
    + destruct os as [|o os]; [done|]. apply Forall_cons in Ho' as [Ho1 Ho2], Ho as [Ho3 Ho4]. cbn in He.
      assert (overlay v o = Some v) as E1 by (apply (overlay_same ds); [done|apply Ho1]). rewrite E1 in He. cbn in He.
      destruct (overlay_list vs os) as [ws|] eqn:Ego; [|done]. cbn in He. injection He as <-.
      destruct (IHv os (Node ws) Ho2 Ho4) as (ws' & [= <-] & Hw1 & Hw2 & Hw3). { cbn. by rewrite Ego. }
      exists (v :: ws). split; [done|]. cbn. split; [lia|].
      assert (array dsl v) as Hvd.
      { split; [|apply Hv]. destruct Ho1 as [Ho1 _], Hv as [Hv _], Ho3 as [Ho3 _]. clear -Ho1 Hv Ho3.
        revert dsl v o Hv Ho1 Ho3.
        induction ds as [|d ds IH]; intros dsl v o H1 H2 Ho.
        + destruct v, o; try done; destruct dsl; try done.
        + destruct v as [|vs|], o as [|os|]; try done. destruct dsl as [|d' dsl]; [done|]. cbn in *.
          apply andb_prop in H1 as [H1 H3], H2 as [H2 H4], Ho as [H5 H6]. apply Nat.eqb_eq in H1, H2, H5.
          replace (length vs =? d') with true by (symmetry; apply Nat.eqb_eq; congruence). cbn.
          assert (length vs = length os) as Hl by congruence. clear H1 H2 H5.
          revert os Hl H4 H6. induction vs as [|v vs IHv]; intros [|o os] Hl H4 H6; try done. cbn in *.
          apply andb_prop in H3 as [? ?], H4 as [? ?], H6 as [? ?]. rewrite (IH dsl v o) by done. cbn. apply (IHv H0 os); auto. }
      split; [by constructor|]. rewrite Hw3. rewrite !app_length.
      rewrite (drop_app_ge (contents o)). 2:{ rewrite (array_length ds o), (array_length ds v) by done. lia. }
      rewrite (array_length ds o), (array_length ds v) by done.
      replace (elements ds + length (concat (contents <$> vs)) - elements ds) with (length (concat (contents <$> vs))) by lia.
      by rewrite app_assoc.
Qed.

(** ** The state of the translation *)
Lemma bnd_some {A B} (x : T A) (f : A -> T B) st r : bnd x f st = Some r -> exists a st1, x st = Some (a, st1) /\ f a st1 = Some r.
Proof. unfold bnd. destruct (x st) as [[a st1]|]; [eauto|done]. Qed.
Lemma ret_some {A} (a b : A) st st' : ret a st = Some (b, st') -> a = b /\ st = st'.
Proof. unfold ret. intros [= -> ->]. done. Qed.
Lemma liftT_some {A} (o : option A) b st st' : liftT o st = Some (b, st') -> o = Some b /\ st = st'.
Proof. destruct o; [|done]. intros H. apply ret_some in H as [-> ->]. done. Qed.
(** only constants and strings are added *)
Record stays (st st' : state) : Prop := Stays {
  y_env : env st' = env st; y_vstack : vstack st' = vstack st; y_vmax : vmax st' = vmax st;
  y_consts : consts st `prefix_of` consts st'; y_strings : strings st `prefix_of` strings st' }.
Lemma stays_refl st : stays st st. Proof. by split. Qed.
Lemma stays_trans a b c : stays a b -> stays b c -> stays a c.
Proof. intros [] []. split; try congruence; by etrans. Qed.
Lemma position_some {A} `{EqDecision A} (z : A) l k : position z l = Some k -> l !! k = Some z.
Proof.
  revert k. induction l as [|y l IH]; intros k H; [done|]. cbn in H. destruct (decide (z = y)) as [->|].
  - by injection H as <-.
  - destruct (position z l) as [j|]; [|done]. cbn in H. injection H as <-. cbn. by apply IH.
Qed.
Lemma cid_some z st c st' : cid z st = Some (c, st') -> stays st st' /\ consts st' !! c = Some z.
Proof.
  unfold cid. destruct (position z (consts st)) as [k|] eqn:E.
  - intros [= <- <-]. split; [apply stays_refl|]. by apply position_some.
  - intros [= <- <-]. split; [|by apply list_lookup_middle]. split; cbn; try done. by apply prefix_app_r.
Qed.
Lemma sid_some s st c st' : sid s st = Some (c, st') -> stays st st' /\ strings st' !! c = Some s.
Proof.
  unfold sid. destruct (position s (strings st)) as [k|] eqn:E.
  - intros [= <- <-]. split; [apply stays_refl|]. by apply position_some.
  - intros [= <- <-]. split; [|by apply list_lookup_middle]. split; cbn; try done. by apply prefix_app_r.
Qed.
Lemma symbol_some x st i st' : symbol x st = Some (i, st') -> st' = st /\ lookup (env st) x = Some i.
Proof. unfold symbol. destruct (lookup (env st) x); [|done]. intros [= -> ->]. done. Qed.
Lemma index_filter_same i st a st' : index_filter i st = Some (a, st') -> st' = st.
Proof. unfold index_filter. case_match; [case_match|]; congruence. Qed.
Lemma filters_same l : forall st a st', filters l st = Some (a, st') -> st' = st.
Proof.
  induction l as [|i l IH]; intros st a st' H; cbn in H.
  - by apply ret_some in H as [_ <-].
  - apply bnd_some in H as (b & st1 & H1 & H). apply bnd_some in H as (r & st2 & H2 & H). apply ret_some in H as [_ <-].
    apply index_filter_same in H1 as ->. by apply IH in H2.
Qed.
Lemma full_address_same i l st a st' : full_address i l st = Some (a, st') ->
  st' = st /\ exists as_ js, filters l st = Some (as_, st) /\ jumps (s_size i) (s_dims i) as_ = Some js /\
    a = fold_add (AValue (Z.of_nat (s_addr i))) (rev js).
Proof.
  intros H. apply bnd_some in H as (as_ & st1 & H1 & H). apply bnd_some in H as (js & st2 & H2 & H). apply ret_some in H as [<- <-].
  apply liftT_some in H2 as [H2 <-]. pose proof (filters_same _ _ _ _ H1) as ->. eauto 10.
Qed.

Section sim.
Context (W : SugarSpec.world) (w : world Z) (sigs outs : name -> bool) (fid : string -> nat) (table : list Z).
Context (HL : linked W w fid table).
Notation tr_e := (tr_e sigs).
Notation toint := (w_toint w).

Lemma accesses_stays acc (Hacc : Forall (SugarProofs.acc_all (fun e => forall st i st', tr_e e st = Some (i, st') -> stays st st')) acc) :
  forall ds n st l st', accesses_with (fun e => tr_e e) ds n acc st = Some (l, st') -> stays st st'.
Proof.
  induction Hacc as [|[e|f] acc Ha _ IH]; intros ds n st l st' H; cbn in H.
  - apply ret_some in H as [_ <-]. apply stays_refl.
  - destruct ds as [|d ds]; [done|]. destruct (decide (d = 0)); [done|].
    apply bnd_some in H as (i & st1 & H1 & H). apply bnd_some in H as ([l1 n1] & st2 & H2 & H). apply ret_some in H as [_ <-].
    eapply stays_trans; [by eapply Ha|by eapply IH].
  - done.
Qed.
Lemma into_load_same s st i st' : into_load sigs s st = Some (i, st') -> st' = st.
Proof. intros H. apply bnd_some in H as (a & st1 & H1 & H). apply ret_some in H as [_ <-]. by apply full_address_same in H1 as [-> _]. Qed.
Lemma destination_same s st d st' : destination sigs outs s st = Some (d, st') -> st' = st.
Proof. intros H. apply bnd_some in H as (a & st1 & H1 & H). apply ret_some in H as [_ <-]. by apply full_address_same in H1 as [-> _]. Qed.
Lemma tr_e_stays e : forall st i st', tr_e e st = Some (i, st') -> stays st st'.
Proof.
  induction e as [z|ds x acc IH|ds f args IH|o e IH|o l r IHl IHr|ds c t f IHc IHt IHf|ds vs IH|ds v d IHv IHd] using SugarProofs.expr_ind';
    intros st i st' H; cbn [TranslateModel.tr_e] in H; try done.
  - apply bnd_some in H as (c & st1 & H1 & H). apply ret_some in H as [_ <-]. by apply cid_some in H1 as [H1 _].
  - apply bnd_some in H as (s & st1 & H1 & H). apply into_load_same in H as ->.
    apply bnd_some in H1 as (inf & st2 & H2 & H1). apply symbol_some in H2 as [-> _].
    apply bnd_some in H1 as ([l n] & st2 & H2 & H1). apply ret_some in H1 as [_ <-]. by eapply accesses_stays.
  - apply bnd_some in H as (j & st1 & H1 & H). apply bnd_some in H as (k & st2 & H2 & H). apply ret_some in H as [_ <-].
    apply liftT_some in H2 as [_ <-]. by eapply IH.
  - apply bnd_some in H as (j & st1 & H1 & H). apply bnd_some in H as (k & st2 & H2 & H).
    apply (stays_trans _ st1); [by eapply IHl|]. apply (stays_trans _ st2); [by eapply IHr|].
    destruct (is_eq o); [by apply ret_some in H as [_ <-]|].
    apply bnd_some in H as (q & st3 & H3 & H). apply ret_some in H as [_ <-]. by apply liftT_some in H3 as [_ <-].
Qed.
Lemma process_stays x acc st s st' : process sigs x acc st = Some (s, st') -> stays st st'.
Proof.
  intros H. apply bnd_some in H as (inf & st2 & H2 & H1). apply symbol_some in H2 as [-> _].
  apply bnd_some in H1 as ([l n] & st2 & H2 & H1). apply ret_some in H1 as [_ <-]. eapply (accesses_stays acc); [|done].
  clear. induction acc as [|[e|f] acc IH]; constructor; try done. cbn. apply tr_e_stays.
Qed.
Lemma expression_size_stays e st n st' : expression_size sigs e st = Some (n, st') -> stays st st'.
Proof.
  destruct e; cbn; intros H; try done; try (apply ret_some in H as [_ <-]; apply stays_refl).
  apply bnd_some in H as (s & st1 & H1 & H). apply ret_some in H as [_ <-]. by eapply process_stays.
Qed.

(** ** Memory *)
(** a cell: a variable, or a signal from the first one of the component on *)
Definition cell (m : mem Z) (s : bool) (z : Z) : Z := if s then m_sigs m (m_base m + z) else m_vars m z.
Definition entry (m : mem Z) (x : name) (v : val) (i : info) : Prop :=
  array (s_dims i) v /\ s_size i = elements (s_dims i) /\
  forall k z, contents v !! k = Some z -> cell m (sigs x) (Z.of_nat (s_addr i) + Z.of_nat k) = z.
Definition block_rel (m : mem Z) (b : gmap name val) (bl : list (name * info)) : Prop :=
  forall x, match b !! x, assoc x bl with Some v, Some i => entry m x v i | None, None => True | _, _ => False end.
Definition mrel (σ : SugarSpec.state) (e : list (list (name * info))) (m : mem Z) : Prop := Forall2 (block_rel m) σ e.
Lemma mrel_look σ e m x : mrel σ e m ->
  match look σ x, lookup e x with Some v, Some i => entry m x v i | None, None => True | _, _ => False end.
Proof.
  induction 1 as [|b bl σ e Hb _ IH]; [done|]. cbn. specialize (Hb x). destruct (b !! x), (assoc x bl); try done.
Qed.

(** ** Addresses *)
Definition den_l (m : mem Z) (l : list aexpr) : option (list Z) := mapM (den_a w m) l.
Definition sum (l : list Z) : Z := foldr Z.add 0%Z l.
Lemma fold_add_some m r : forall x xs y, den_l m r = Some xs -> den_a w m x = Some y -> den_a w m (fold_add x r) = Some (y + sum xs)%Z.
Proof.
  induction r as [|a r IH]; intros x xs y Hr Hx; cbn in *.
  - injection Hr as <-. rewrite Hx. cbn. f_equal. lia.
  - destruct (den_a w m a) as [z|] eqn:Ea; [|done]. cbn in Hr. unfold den_l in *. destruct (mapM (den_a w m) r) as [zs|] eqn:Er; [|done].
    cbn in Hr. injection Hr as <-. rewrite (IH a zs z) by done. cbn [mbind option_bind]. rewrite Hx. cbn [mbind option_bind]. f_equal. unfold sum. cbn [foldr]. lia.
Qed.
Lemma fold_add_none m r : forall x, Exists (fun a => den_a w m a = None) r -> den_a w m (fold_add x r) = None.
Proof.
  induction r as [|a r IH]; intros x H; [by apply Exists_nil in H|]. cbn. apply Exists_cons in H as [H|H].
  - destruct r as [|b r]; cbn; [by rewrite H|]. rewrite H. by destruct (den_a w m (fold_add b r)).
  - by rewrite (IH a H).
Qed.
Lemma fold_add_none_here m x r : den_a w m x = None -> den_a w m (fold_add x r) = None.
Proof. intros H. destruct r as [|a r]; cbn; [done|]. rewrite H. by destruct (den_a w m (fold_add a r)). Qed.
Lemma den_l_rev m l xs : den_l m l = Some xs -> den_l m (rev l) = Some (rev xs).
Proof.
  unfold den_l. rewrite !mapM_Some. intros H. 
  induction H as [|a x l xs Ha _ IH]; [constructor|]. cbn. apply Forall2_app; [done|]. by repeat constructor.
Qed.
Lemma sum_app a b : sum (a ++ b) = (sum a + sum b)%Z.
Proof. unfold sum. induction a as [|x a IH]; cbn [foldr app]; [done|]. rewrite IH. lia. Qed.
Lemma sum_rev l : sum (rev l) = sum l.
Proof. induction l as [|x l IH]; [done|]. cbn [rev]. rewrite sum_app, IH. unfold sum. cbn [foldr]. lia. Qed.
Lemma jumps_some m ds : forall l zs js, den_l m l = Some zs -> jumps (elements ds) ds l = Some js ->
  exists xs, den_l m js = Some xs /\ length zs <= length ds /\
    forall ixs, zs = Z.of_nat <$> ixs -> sum xs = Z.of_nat (offset ds ixs).
Proof.
  induction ds as [|d ds IH]; intros l zs js Hl Hj.
  - destruct l as [|i l]; [|done]. cbn in *. injection Hl as <-. injection Hj as <-. exists []. split; [done|]. split; [done|].
    intros [|]; done.
  - destruct l as [|i l]; cbn in *.
    + injection Hl as <-. injection Hj as <-. exists []. split; [done|]. split; [cbn; lia|]. intros [|]; done.
    + destruct (decide (d = 0)) as [|Hd]; [done|].
      rewrite Nat.mul_comm, Nat.div_mul in Hj by done.
      destruct (den_a w m i) as [z|] eqn:Ei; [|done]. cbn in Hl. unfold den_l in *.
      destruct (mapM (den_a w m) l) as [zs'|] eqn:El; [|done]. cbn in Hl. injection Hl as <-.
      destruct (jumps (elements ds) ds l) as [js'|] eqn:Ej; [|done]. cbn in Hj. injection Hj as <-.
      destruct (IH l zs' js' El Ej) as (xs & H1 & H2 & H3). cbn. rewrite Ei. cbn. rewrite H1. cbn.
      exists (Z.of_nat (elements ds) * z :: xs)%Z. split; [done|]. split; [lia|]. intros [|ix ixs] He; [done|]. injection He as -> He.
      cbn [sum foldr offset]. fold (sum xs). rewrite (H3 ixs He). lia.
Qed.
Lemma jumps_none m ds : forall n l js, Exists (fun a => den_a w m a = None) l -> jumps n ds l = Some js ->
  Exists (fun a => den_a w m a = None) js.
Proof.
  induction ds as [|d ds IH]; intros n l js Hl Hj; (destruct l as [|i l]; [by apply Exists_nil in Hl|]); cbn in Hj; [done|].
  destruct (decide (d = 0)) as [|Hd]; [done|]. destruct (jumps (n `div` d) ds l) as [js'|] eqn:Ej; [|done]. cbn in Hj. injection Hj as <-.
  apply Exists_cons in Hl as [H|H]; [left; cbn; by rewrite H|right]. by eapply IH.
Qed.

(** ** Expressions *)
Lemma infix_known o k : infix_number o = Some k -> (o, k) ∈ infix_table.
Proof.
  destruct o as [| |s]; cbn [infix_number].
  - intros [= <-]. apply elem_of_list_In. cbn. tauto.
  - intros [= <-]. apply elem_of_list_In. cbn. tauto.
  - intros H. repeat (match type of H with context [decide ?P] => destruct (decide P) as [->|] end;
      [injection H as <-; apply elem_of_list_In; cbn; tauto|]). done.
Qed.
Lemma prefix_known o k : prefix_number o = Some k -> (o, k) ∈ prefix_table.
Proof.
  unfold prefix_number. intros H. repeat (match type of H with context [decide ?P] => destruct (decide P) as [->|] end;
      [injection H as <-; apply elem_of_list_In; cbn; tauto|]). done.
Qed.
Lemma infix_2 o : infix_number o = Some 2 -> o = Add.
Proof.
  destruct o as [| |s]; [done|done|]. cbn. intros H. repeat (match type of H with context [decide ?P] => destruct (decide P) as [->|] end; [done|]). done.
Qed.
Lemma infix_0 o : infix_number o = Some 0 -> o = OtherOp "*".
Proof.
  destruct o as [| |s]; [done|done|]. cbn. intros H. destruct (decide (s = "*")) as [->|]; [done|].
  repeat (match type of H with context [decide ?P] => destruct (decide P) as [->|] end; [done|]). done.
Qed.

Definition res_rel (m : mem Z) (r : SugarSpec.R val) (i : fexpr) : Prop :=
  match r with
  | SugarSpec.Ok v => numeric v /\ exists s, den_f w m i = Some s /\ forall k z, contents v !! k = Some z -> src_cell w m s k = z
  | SugarSpec.Fail => den_f w m i = None
  | SugarSpec.Ill => True
  end.
Definition adr_rel (m : mem Z) (r : SugarSpec.R val) (z : option Z) (a : aexpr) : Prop :=
  match r with
  | SugarSpec.Ok (Leaf _) => den_a w m a = z
  | SugarSpec.Fail => den_a w m a = None
  | _ => True
  end.
Definition esim (e : expr) : Prop := forall st i st' σ m, tr_e e st = Some (i, st') -> consts st' `prefix_of` table ->
  mrel σ (env st) m -> fits W toint σ e -> res_rel m (eval W σ None e) i.
Definition isim (e : expr) : Prop := forall st i st' σ m, tr_e e st = Some (i, st') -> consts st' `prefix_of` table ->
  mrel σ (env st) m -> fits W toint σ e -> forall cs, consts st' `prefix_of` cs ->
  (possible_to_usize cs i).1 = on_addresses e /\
  (possible_to_usize cs i).2 = match e with Num z => bool_decide (0 <= z < 2 ^ 64)%Z && bool_decide (z < 100)%Z | _ => false end /\
  (on_addresses e = true -> exists a, convert_to_usize cs i = Some a /\ adr_rel m (eval W σ None e) (reading W toint σ e) a).

(** the indexes of an access *)
Definition ix_rel (m : mem Z) (r : SugarSpec.R (list key)) (l : list aexpr) : Prop :=
  match r with
  | SugarSpec.Ok p => exists zs, p = At <$> zs /\ den_l m l = Some zs
  | SugarSpec.Fail => Exists (fun a => den_a w m a = None) l
  | SugarSpec.Ill => True
  end.
Lemma den_load m x a : den_f w m (if sigs x then FLoadSig a else FLoadVar a) =
  (z ← den_a w m a; Some (SrcMem (if sigs x then LSig (m_base m + z) else LVar z))).
Proof. by destruct (sigs x). Qed.
Lemma den_op1 m k a : den_f w m (FOp1 0 k a) = (x ← den_f w m a; v ← w_op1 w k (src_cell w m x 0); Some (SrcVal v)).
Proof. reflexivity. Qed.
Lemma den_op2 m k a b : den_f w m (FOp2 0 k a b) =
  (x ← den_f w m a; y ← den_f w m b; v ← w_op2 w k (src_cell w m x 0) (src_cell w m y 0); Some (SrcVal v)).
Proof. reflexivity. Qed.
Lemma den_eq m n a b : den_f w m (FEq 0 n a b) = (x ← den_f w m a; y ← den_f w m b;
  Some (SrcVal (w_bool w (forallb (fun k => w_eq w (src_cell w m x k) (src_cell w m y k)) (seq 0 n))))).
Proof. reflexivity. Qed.
Lemma den_add m a b : den_a w m (AAdd a b) = (x ← den_a w m a; y ← den_a w m b; Some (x + y)%Z).
Proof. reflexivity. Qed.
Lemma den_mul m a b : den_a w m (AMul a b) = (x ← den_a w m a; y ← den_a w m b; Some (x * y)%Z).
Proof. reflexivity. Qed.
Lemma den_toaddr m f : den_a w m (AToAddr f) = x ← den_f w m f; toint (src_cell w m x 0).
Proof. reflexivity. Qed.
Lemma index_sim e st i st' σ m : esim e -> isim e -> tr_e e st = Some (i, st') -> consts st' `prefix_of` table ->
  mrel σ (env st) m -> fits W toint σ e -> index_ok W toint σ e ->
  forall st2 a, consts st' `prefix_of` consts st2 -> index_filter i st2 = Some (a, st2) ->
  match eval W σ None e with
  | SugarSpec.Ok (Leaf z) => den_a w m a = Some z
  | SugarSpec.Fail => den_a w m a = None
  | _ => True
  end.
Proof.
  intros He Hi Ht Hp Hm Hf Hok st2 a Hp2 Ha. specialize (He st i st' σ m Ht Hp Hm Hf).
  destruct (Hi st i st' σ m Ht Hp Hm Hf _ Hp2) as (H1 & _ & H3). unfold index_filter in Ha. rewrite H1 in Ha. unfold index_ok in Hok.
  destruct (on_addresses e) eqn:Eo.
  - destruct (H3 eq_refl) as (a' & Hc & Hr). rewrite Hc in Ha. injection Ha as ->. unfold adr_rel in Hr.
    destruct (eval W σ None e) as [[z| |]| |]; try done. rewrite Hr. by apply Hok.
  - injection Ha as <-. unfold res_rel in He. destruct (eval W σ None e) as [[z| |]| |]; try done.
    + destruct He as (_ & s & He & Hc). rewrite den_toaddr, He. cbn [mbind option_bind]. rewrite (Hc 0 z) by done. by apply Hok.
    + by rewrite den_toaddr, He.
Qed.
Lemma fits_var σ ds x acc : fits W toint σ (Var ds x acc) <-> fits_accesses W toint σ acc /\ in_range W σ x acc.
Proof.
  cbn. assert ((fix go acc := match acc with [] => True | Fld _ :: acc => go acc | Idx e :: acc => fits W toint σ e /\ index_ok W toint σ e /\ go acc end) acc
    <-> fits_accesses W toint σ acc) as ->; [|done].
  induction acc as [|[e|f] acc IH]; [done| |]; cbn; [rewrite IH|]; tauto.
Qed.
Lemma accesses_sim acc (Hacc : Forall (SugarProofs.acc_all (fun e => esim e /\ isim e)) acc) :
  forall ds st l n st' σ m, accesses_with (fun e => tr_e e) ds (elements ds) acc st = Some (l, n, st') -> consts st' `prefix_of` table ->
  mrel σ (env st) m -> fits_accesses W toint σ acc ->
  n = elements (drop (length acc) ds) /\
  forall st2 as_, consts st' `prefix_of` consts st2 -> filters l st2 = Some (as_, st2) -> ix_rel m (path W σ acc) as_.
Proof.
  induction Hacc as [|[e|f] acc Ha _ IH]; intros ds st l n st' σ m H Hp Hm Hf; cbn in H.
  - injection H as <- <- <-. split; [done|]. intros st2 as_ _ H. cbn in H. injection H as <-. by exists [].
  - destruct Ha as [He Hi]. destruct ds as [|d ds]; [done|]. destruct (decide (d = 0)) as [|Hd]; [done|]. cbn [elements] in H.
    rewrite Nat.mul_comm, Nat.div_mul in H by done.
    apply bnd_some in H as (i & st1 & H1 & H). apply bnd_some in H as ([l1 n1] & st2 & H2 & H). injection H as <- <- <-.
    pose proof (tr_e_stays e _ _ _ H1) as Hs1.
    assert (stays st1 st2) as Hs2. { eapply accesses_stays; [|done]. clear. induction acc as [|[e|f] acc IH]; constructor; try done. cbn. apply tr_e_stays. }
    destruct Hf as (Hf1 & Hok & Hf2).
    destruct (IH ds st1 l1 n1 st2 σ m H2 Hp) as [Hn Hr]; [by rewrite (y_env _ _ Hs1)|done|]. cbn [length drop]. split; [done|].
    intros st3 as_ Hp3 Hfl. cbn in Hfl. apply bnd_some in Hfl as (a & st4 & Hfa & Hfl). apply bnd_some in Hfl as (r & st5 & Hr5 & Hfl).
    injection Hfl as <- <-. pose proof (index_filter_same _ _ _ _ Hfa) as ->. specialize (Hr _ _ Hp3 Hr5).
    pose proof (index_sim e st i st1 σ m He Hi H1 ltac:(etrans; [apply Hs2|done]) Hm Hf1 Hok st5 a ltac:(etrans; [apply Hs2|done]) Hfa) as Hx.
    rewrite SugarProofs.path_cons.
    destruct (eval W σ None e) as [[z| |]| |] eqn:Ee; cbn; destruct (path W σ acc) as [p| |]; cbn in *; try done.
    + destruct Hr as (zs & -> & Hr). exists (z :: zs). split; [done|]. cbn. rewrite Hx. cbn. unfold den_l in Hr. by rewrite Hr.
    + by right.
    + by left.
    + by left.
  - done.
Qed.
(** the address of a symbol with indexes *)
Lemma address_sim acc (Hacc : Forall (SugarProofs.acc_all (fun e => esim e /\ isim e)) acc) x st s st' σ m :
  processed_with (fun e => tr_e e) x acc st = Some (s, st') -> consts st' `prefix_of` table ->
  mrel σ (env st) m -> fits_accesses W toint σ acc ->
  p_name s = x /\ lookup (env st) x = Some (p_info s) /\ p_length s = elements (drop (length acc) (s_dims (p_info s))) /\
  exists v, look σ x = Some v /\ entry m x v (p_info s) /\
  forall st2 a, consts st' `prefix_of` consts st2 -> full_address (p_info s) (p_indexes s) st2 = Some (a, st2) ->
  match path W σ acc with
  | SugarSpec.Ok p => forall slot, select v p = SugarSpec.Ok slot ->
      exists ixs, length ixs = length acc /\ p = (fun i => At (Z.of_nat i)) <$> ixs /\
        den_a w m a = Some (Z.of_nat (s_addr (p_info s)) + Z.of_nat (offset (s_dims (p_info s)) ixs))%Z
  | SugarSpec.Fail => den_a w m a = None
  | SugarSpec.Ill => True
  end.
Proof.
  intros H Hp Hm Hf. apply bnd_some in H as (i & st1 & H1 & H). apply symbol_some in H1 as [-> H1].
  apply bnd_some in H as ([l n] & st2 & H2 & H). apply ret_some in H as [<- <-]. cbn [p_name p_info p_length p_indexes].
  pose proof (mrel_look _ _ _ x Hm) as Hx. rewrite H1 in Hx. destruct (look σ x) as [v|] eqn:El; [|done].
  pose proof Hx as (Ha & Hsz & Hc).
  rewrite Hsz in H2. destruct (accesses_sim acc Hacc _ _ _ _ _ σ m H2 Hp Hm Hf) as [Hn Hix].
  split; [done|]. split; [done|]. split; [done|]. exists v. split; [done|]. split; [done|].
  intros st3 a Hp3 Hfa. apply full_address_same in Hfa as (_ & as_ & js & Hfl & Hj & ->). specialize (Hix _ _ Hp3 Hfl).
  destruct (path W σ acc) as [p| |] eqn:Ep; [| |done].
  - intros slot Hs. destruct Hix as (zs & -> & Hd). destruct (locate _ _ _ _ Ha Hs) as (ixs & pre & post & Hk & _).
    exists ixs. assert (zs = Z.of_nat <$> ixs) as ->.
    { clear -Hk. revert ixs Hk. induction zs as [|z zs IH]; intros [|ix ixs] Hk; try done. cbn in *. injection Hk as -> Hk. by rewrite (IH _ Hk). }
    assert (length ixs = length acc) as Hlen.
    { apply SugarProofs.all_length in Ep. rewrite !fmap_length in Ep. done. }
    split; [done|]. split; [done|]. rewrite Hsz in Hj. destruct (jumps_some m _ _ _ _ Hd Hj) as (xs & Hx1 & _ & Hx2).
    apply den_l_rev in Hx1. rewrite (fold_add_some m _ _ _ (Z.of_nat (s_addr i)) Hx1) by done. by rewrite sum_rev, (Hx2 ixs).
  - apply fold_add_none. apply (jumps_none m _ _ _ _ Hix) in Hj. apply Exists_exists in Hj as (y & Hy & Hy2).
    apply Exists_exists. exists y. split; [|done]. apply elem_of_list_In. apply -> in_rev. by apply elem_of_list_In.
Qed.

Lemma slot_cells m x v i ixs slot pre post : entry m x v i -> contents v = pre ++ contents slot ++ post -> length pre = offset (s_dims i) ixs ->
  forall k z, contents slot !! k = Some z -> cell m (sigs x) (Z.of_nat (s_addr i) + Z.of_nat (offset (s_dims i) ixs) + Z.of_nat k) = z.
Proof.
  intros (_ & _ & Hc) Hv Hp k z Hk. rewrite <- Z.add_assoc, <- Nat2Z.inj_add. apply Hc. rewrite Hv, <- Hp.
  rewrite lookup_app_r by lia. replace (length pre + k - length pre) with k by lia.
  rewrite lookup_app_l; [done|]. by eapply lookup_lt_Some.
Qed.
Lemma load_sim ds x acc (Hacc : Forall (SugarProofs.acc_all (fun e => esim e /\ isim e)) acc) st i st' σ m :
  tr_e (Var ds x acc) st = Some (i, st') -> consts st' `prefix_of` table -> mrel σ (env st) m -> fits W toint σ (Var ds x acc) ->
  (exists a, i = FLoadVar a \/ i = FLoadSig a) /\ res_rel m (eval W σ None (Var ds x acc)) i.
Proof.
  intros H Hp Hm Hf. apply fits_var in Hf as [Hf Hr]. cbn [TranslateModel.tr_e] in H.
  apply bnd_some in H as (s & st1 & H1 & H). pose proof (into_load_same _ _ _ _ H) as ->.
  destruct (address_sim acc Hacc x st s st1 σ m H1 Hp Hm Hf) as (Hn & Hl & _ & v & Hlook & He & Ha).
  apply bnd_some in H as (a & st2 & H2 & H). apply ret_some in H as [<- ->]. rewrite Hn.
  split. { destruct (sigs x); eauto. }
  specialize (Ha _ _ ltac:(done) H2). rewrite SugarProofs.eval_var. unfold in_range in Hr.
  destruct (path W σ acc) as [p| |]; rewrite Hlook; cbn [or_ill both mbind SugarSpec.R_bind]; [|cbn [res_rel]; by rewrite den_load, Ha|done].
  destruct (select v p) as [slot| |] eqn:Es; cbn [mbind SugarSpec.R_bind default]; [|by destruct (Hr p v eq_refl Hlook)|done].
  unfold shaped. cbn [default]. destruct (has_shape ds slot); [|done]. cbn [res_rel].
  destruct (Ha slot eq_refl) as (ixs & _ & Hpx & Hd). pose proof He as (Harr & _).
  destruct (locate _ _ _ _ Harr Es) as (ixs' & pre & post & Hpx' & Hsl & Hcv & Hpre & _).
  assert (ixs' = ixs) as ->.
  { clear -Hpx Hpx'. subst p. revert ixs' Hpx'. induction ixs as [|ix ixs IH]; intros [|iy ixs'] Hk; try done. cbn in Hk. injection Hk as H1 H2.
    apply Nat2Z.inj in H1 as ->. by rewrite (IH _ H2). }
  split; [apply Hsl|].
  pose proof (slot_cells m x v _ ixs slot pre post He Hcv Hpre) as Hcell. unfold cell in Hcell.
  rewrite den_load, Hd. eexists. split; [reflexivity|]. intros k z Hk. specialize (Hcell k z Hk). destruct (sigs x); cbn [src_cell read].
  - rewrite <- Z.add_assoc. done.
  - done.
Qed.
Lemma tr_e_sim e : esim e /\ isim e.
Proof.
  induction e as [z|ds x acc IH|ds f args IH|o e IH|o l r IHl IHr|ds c t f IHc IHt IHf|ds vs IH|ds v d IHv IHd] using SugarProofs.expr_ind';
    try (split; intros st i st' σ m H; done).
  - assert (forall st i st', tr_e (Num z) st = Some (i, st') -> exists c, i = FValue 0 c /\ consts st' !! c = Some z) as Hinv.
    { intros st i st' H. apply bnd_some in H as (c & st1 & H1 & H). apply ret_some in H as [<- <-]. apply cid_some in H1 as [_ H1]. eauto. }
    split; intros st i st' σ m H Hp Hm Hf; destruct (Hinv _ _ _ H) as (c & -> & Hc).
    + split; [done|]. exists (SrcConst c). split; [done|]. intros [|k] z' Hk; [|done]. injection Hk as <-. cbn. rewrite Nat.add_0_r.
      apply (l_const _ _ _ _ HL). by eapply prefix_lookup.
    + intros cs Hcs. assert (cs !! c = Some z) as Hcc by (by eapply prefix_lookup). cbn [possible_to_usize on_addresses convert_to_usize]. rewrite Hcc. cbn [mbind option_bind].
      destruct (decide (0 <= z < 2 ^ 64)%Z) as [Hd|Hd].
      * rewrite (bool_decide_eq_true_2 (0 <= z < 2 ^ 64)%Z) by done. split; [done|]. split; [done|]. intros _. by exists (AValue z).
      * rewrite (bool_decide_eq_false_2 (0 <= z < 2 ^ 64)%Z) by done. by split.
  - split; intros st i st' σ m H Hp Hm Hf; destruct (load_sim ds x acc IH st i st' σ m H Hp Hm Hf) as [[a Hi] Hr]; [done|].
    intros cs Hcs. split; [by destruct Hi as [-> | ->]|]. split; [by destruct Hi as [-> | ->]|]. intros _. exists (AToAddr i).
    split; [by destruct Hi as [-> | ->]|]. unfold adr_rel, res_rel in *. cbn [reading].
    destruct (eval W σ None (Var ds x acc)) as [[z| |]| |]; try done.
    + destruct Hr as (_ & s & Hs & Hc). rewrite den_toaddr, Hs. cbn [mbind option_bind]. by rewrite (Hc 0 z).
    + by rewrite den_toaddr, Hr.
  - assert (forall st i st', tr_e (Pre o e) st = Some (i, st') -> exists k j, i = FOp1 0 k j /\ tr_e e st = Some (j, st') /\ (o, k) ∈ prefix_table) as Hinv.
    { intros st i st' H. apply bnd_some in H as (j & st1 & H1 & H). apply bnd_some in H as (k & st2 & H2 & H). apply ret_some in H as [<- <-].
      apply liftT_some in H2 as [H2 <-]. apply prefix_known in H2. eauto. }
    destruct IH as [IH _]. split; intros st i st' σ m H Hp Hm Hf; destruct (Hinv _ _ _ H) as (k & j & -> & Hj & Hk).
    + specialize (IH _ _ _ σ m Hj Hp Hm Hf). unfold res_rel in *. cbn [eval]. destruct (eval W σ None e) as [[z| |]| |]; try done.
      * cbn [mbind SugarSpec.R_bind number]. destruct IH as (_ & s & Hs & Hc). rewrite den_op1, Hs. cbn [mbind option_bind]. rewrite (Hc 0 z) by done. rewrite (l_prefix _ _ _ _ HL o k z Hk).
        destruct (den1 W o z) as [z'|]; cbn; [|done]. split; [done|]. eexists. split; [done|]. intros [|k'] z'' Hk'; [|done]. by injection Hk' as <-.
      * cbn [mbind SugarSpec.R_bind]. by rewrite den_op1, IH.
    + intros cs Hcs. done.
  - assert (forall st i st', tr_e (Inf o l r) st = Some (i, st') -> exists st1 a b, tr_e l st = Some (a, st1) /\ tr_e r st1 = Some (b, st') /\
      ((o = OtherOp "==" /\ i = FEq 0 1 a b) \/ exists k, infix_number o = Some k /\ i = FOp2 0 k a b)) as Hinv.
    { intros st i st' H. apply bnd_some in H as (a & st1 & H1 & H). apply bnd_some in H as (b & st2 & H2 & H).
      unfold is_eq in H. destruct (match o with OtherOp s => bool_decide (s = "==") | _ => false end) eqn:E.
      - apply ret_some in H as [<- <-]. destruct o; try done. apply bool_decide_eq_true in E as ->. eauto 10.
      - apply bnd_some in H as (k & st3 & H3 & H). apply ret_some in H as [<- <-]. apply liftT_some in H3 as [H3 <-]. eauto 10. }
    destruct IHl as [IHl ILl], IHr as [IHr ILr].
    split; intros st i st' σ m H Hp Hm [Hf1 Hf2]; destruct (Hinv _ _ _ H) as (st1 & a & b & Hl & Hr & Hcase);
      pose proof (tr_e_stays _ _ _ _ Hl) as Hs1; pose proof (tr_e_stays _ _ _ _ Hr) as Hs2;
      (assert (consts st1 `prefix_of` table) as Hp1 by (etrans; [apply Hs2|done]));
      (assert (mrel σ (env st1) m) as Hm1 by (by rewrite (y_env _ _ Hs1))).
    + specialize (IHl _ _ _ σ m Hl Hp1 Hm Hf1). specialize (IHr _ _ _ σ m Hr Hp Hm1 Hf2). unfold res_rel in *. cbn [eval].
      assert (forall z1 z2 s1 s2, den_f w m a = Some s1 -> den_f w m b = Some s2 -> src_cell w m s1 0 = z1 -> src_cell w m s2 0 = z2 ->
        den_f w m i = (v ← den2 W o z1 z2; Some (SrcVal v))) as Hok.
      { intros z1 z2 s1 s2 D1 D2 C1 C2. destruct Hcase as [[-> ->]|(k & Hk & ->)]; rewrite ?den_eq, ?den_op2, D1, D2; cbn [mbind option_bind seq forallb].
        - rewrite C1, C2. rewrite (l_eq _ _ _ _ HL z1 z2). cbn [mbind option_bind]. by rewrite andb_true_r.
        - rewrite C1, C2. by rewrite (l_infix _ _ _ _ HL o k z1 z2 (infix_known _ _ Hk)). }
      assert (den_f w m a = None \/ den_f w m b = None -> den_f w m i = None) as Hno.
      { intros HD. destruct Hcase as [[-> ->]|(k & Hk & ->)]; rewrite ?den_eq, ?den_op2; destruct HD as [-> | ->]; try done; by destruct (den_f w m a). }
      destruct (eval W σ None l) as [[z1| |]| |]; destruct (eval W σ None r) as [[z2| |]| |]; cbn; try done; try (by apply Hno; auto).
      destruct IHl as (_ & s1 & D1 & C1), IHr as (_ & s2 & D2 & C2).
      specialize (Hok z1 z2 s1 s2 D1 D2 (C1 0 z1 eq_refl) (C2 0 z2 eq_refl)).
      destruct (den2 W o z1 z2) as [z|]; cbn; [|done]. split; [done|]. exists (SrcVal z). split; [done|].
      intros [|k'] z'' Hk'; [|done]. by injection Hk' as <-.
    + intros cs Hcs. assert (consts st1 `prefix_of` cs) as Hcs1 by (etrans; [apply Hs2|done]).
      destruct (ILl _ _ _ σ m Hl Hp1 Hm Hf1 cs Hcs1) as (A1 & A2 & A3). destruct (ILr _ _ _ σ m Hr Hp Hm1 Hf2 cs Hcs) as (B1 & B2 & B3).
      specialize (IHl _ _ _ σ m Hl Hp1 Hm Hf1). specialize (IHr _ _ _ σ m Hr Hp Hm1 Hf2).
      destruct Hcase as [[-> ->]|(k & Hk & ->)]; [done|]. cbn [possible_to_usize].
      destruct (possible_to_usize cs a) as [ua sa], (possible_to_usize cs b) as [ub sb]. cbn [fst snd] in *. subst ua sa ub sb.
      assert (forall z1 z2, o = Add \/ o = OtherOp "*" -> is_Some (den2 W o z1 z2)) as Htot by (intros; by apply (l_total _ _ _ _ HL)).
      destruct (decide (k = 2)) as [->|Hk2]; [|destruct (decide (k = 0)) as [->|Hk0]].
      * apply infix_2 in Hk as ->. cbn [on_addresses fst snd]. split; [done|]. split; [done|]. intros [E1 E2]%andb_prop.
        destruct (A3 E1) as (a' & Ca & Ra), (B3 E2) as (b' & Cb & Rb). cbn [convert_to_usize]. rewrite Ca. cbn [mbind option_bind]. rewrite Cb. cbn [mbind option_bind].
        exists (AAdd a' b'). split; [done|]. unfold adr_rel in *. cbn [eval reading].
        destruct (eval W σ None l) as [[z1| |]| |]; destruct (eval W σ None r) as [[z2| |]| |]; cbn [both mbind SugarSpec.R_bind number]; try done.
        { destruct (Htot z1 z2 ltac:(auto)) as [z ->]. cbn [or_fail mbind SugarSpec.R_bind]. by rewrite den_add, Ra, Rb. }
        all: rewrite den_add, ?Ra, ?Rb; try done; try (by destruct (reading W toint σ l)).
      * apply infix_0 in Hk as ->. cbn [on_addresses fst snd]. split; [|split; [done|]].
        { rewrite bool_decide_eq_true_2 by done. cbn [andb]. destruct (on_addresses l) eqn:E1, (on_addresses r) eqn:E2; cbn [andb]; try done.
          destruct l, r; cbn [orb]; try done; cbn in E1, E2; try (apply bool_decide_eq_true in E1); try (apply bool_decide_eq_true in E2);
            rewrite ?(bool_decide_eq_true_2 (0 <= z < 2 ^ 64)%Z), ?(bool_decide_eq_true_2 (0 <= z0 < 2 ^ 64)%Z) by done; cbn [andb]; rewrite ?orb_false_r; try done.
          case_bool_decide; case_bool_decide; cbn; symmetry; (apply bool_decide_eq_true_2; tauto) || (apply bool_decide_eq_false_2; tauto). }
        intros E. apply andb_prop in E as [E _]. apply andb_prop in E as [E E2]. apply andb_prop in E as [_ E1].
        destruct (A3 E1) as (a' & Ca & Ra), (B3 E2) as (b' & Cb & Rb). cbn [convert_to_usize]. rewrite Ca. cbn [mbind option_bind]. rewrite Cb. cbn [mbind option_bind].
        exists (AMul a' b'). split; [done|]. unfold adr_rel in *. cbn [eval reading].
        destruct (eval W σ None l) as [[z1| |]| |]; destruct (eval W σ None r) as [[z2| |]| |]; cbn [both mbind SugarSpec.R_bind number]; try done.
        { destruct (Htot z1 z2 ltac:(auto)) as [z ->]. cbn [or_fail mbind SugarSpec.R_bind]. by rewrite den_mul, Ra, Rb. }
        all: rewrite den_mul, ?Ra, ?Rb; try done; try (by destruct (reading W toint σ l)).
      * assert (on_addresses (Inf o l r) = false) as ->.
        { destruct o as [| |s]; cbn in Hk; [congruence|done|]. cbn. destruct (decide (s = "*")) as [->|Hs]; [congruence|].
          by rewrite bool_decide_eq_false_2. }
        done.
Qed.
Lemma eval_sim e st i st' σ m : tr_e e st = Some (i, st') -> consts st' `prefix_of` table ->
  mrel σ (env st) m -> fits W toint σ e -> res_rel m (eval W σ None e) i.
Proof. apply tr_e_sim. Qed.
End sim.
