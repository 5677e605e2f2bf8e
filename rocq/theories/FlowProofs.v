(** Proofs about FlowModel. *)
From stdpp Require Import prelude numbers list gmap.
From Verif Require Import FlowModel FlowSpec.

(** * Returns *)
Lemma foldl_returns l b : foldl (fun has s => has || returns s) b l = b || foldl (fun has s => has || returns s) false l.
Proof.
  revert b. induction l as [|s l IH]; intros b; cbn; [by rewrite orb_false_r|]. rewrite IH, (IH (returns s)). by rewrite orb_assoc.
Qed.
Lemma returns_run s r : run s r -> returns s = true -> r = true.
Proof.
  induction 1 as [| | | |b r H1 IH1 H2 IH2|a b r H IH|a b r H IH|a|  |s l H IH|s l r H1 IH1 H2 IH2]; cbn [returns foldl]; try done.
  - intros E. apply andb_true_iff in E as [_ E]. auto.
  - intros E. apply andb_true_iff in E as [E _]. auto.
  - rewrite orb_false_l, foldl_returns. destruct (returns s) eqn:Es; [by specialize (IH1 eq_refl)|].
    rewrite orb_false_l. exact IH2.
Qed.

(** * Assignments *)
Definition free (s : assigned) (c : conds) : Prop :=
  s = None \/ exists p i b r1 r2, s = Some (p ++ (i, b) :: r1) /\ c = p ++ (i, negb b) :: r2.
Notation ids_lt n := (Forall (fun e : nat * bool => (e.1 < n)%nat)).

Lemma first_diff_some old new k i same : first_diff k old new = Some (i, same) ->
  exists p o n r1 r2, old = p ++ o :: r1 /\ new = p ++ n :: r2 /\ o <> n /\ i = (k + length p)%nat /\ same = bool_decide (o.1 = n.1).
Proof.
  revert new k. induction old as [|o old IH]; intros [|n new] k E; cbn in E; try done. destruct (decide (o = n)) as [->|H].
  - destruct (IH _ _ E) as (p & o' & n' & r1 & r2 & -> & -> & Hn & -> & ->). exists (n :: p), o', n', r1, r2.
    split_and!; try done; cbn; lia.
  - injection E as <- <-. exists [], o, n, old, new. split_and!; try done; cbn; lia.
Qed.
Lemma first_diff_none old new k : first_diff k old new = None -> old `prefix_of` new \/ new `prefix_of` old.
Proof.
  revert new k. induction old as [|o old IH]; intros [|n new] k E; cbn in E; try (by left; apply prefix_nil); try (by right; apply prefix_nil).
  destruct (decide (o = n)) as [->|H]; [|done]. destruct (IH _ _ E); [left|right]; by apply prefix_cons.
Qed.
(** Two lists have at most one first difference. *)
Lemma split_unique {A} (p q : list A) a b c d r1 r2 r3 r4 : p ++ a :: r1 = q ++ b :: r2 -> p ++ c :: r3 = q ++ d :: r4 ->
  a <> c -> b <> d -> p = q /\ a = b /\ c = d /\ r1 = r2 /\ r3 = r4.
Proof.
  revert q. induction p as [|x p IH]; intros [|y q] E1 E2 N1 N2; cbn in *; [by simplify_eq..|].
  injection E1 as -> E1. injection E2 as E2.
  destruct (IH q E1 E2 N1 N2) as (-> & -> & -> & -> & ->). done.
Qed.
Lemma free_diff p i b r1 r2 : first_diff 0 (p ++ (i, b) :: r1) (p ++ (i, negb b) :: r2) = Some (length p, true).
Proof.
  destruct (first_diff 0 _ _) as [[k same]|] eqn:E.
  - apply first_diff_some in E as (q & o & n & s1 & s2 & E1 & E2 & Hn & -> & ->).
    destruct (split_unique _ _ _ _ _ _ _ _ _ _ E1 E2) as (-> & <- & <- & _ & _); [by destruct b|done|]. cbn [fst plus]. by rewrite bool_decide_true by done.
  - apply first_diff_none in E as [[k E]|[k E]]; rewrite <- app_assoc in E; apply app_inv_head in E; injection E as E _; by destruct b.
Qed.

Lemma prefix_take {A} n (l : list A) : take n l `prefix_of` l.
Proof. exists (drop n l). by rewrite take_drop. Qed.
Lemma assign_free s c : free s c -> exists d, assign s c = Some (Some d) /\ take (length c - 1) c `prefix_of` d /\ d `prefix_of` c.
Proof.
  intros [->|(p & i & b & r1 & r2 & -> & ->)].
  - exists c. split_and!; [done|apply prefix_take|done].
  - set (old := p ++ (i, b) :: r1). set (c := p ++ (i, negb b) :: r2).
    assert (E : assign (Some old) c = match first_diff 0 old c with
      | None => None
      | Some (i, same) => if same : bool then if decide (i = (length old `min` length c - 1)%nat /\ length old = length c)
                  then Some (Some (take (length old `min` length c - 1) c)) else Some (Some c) else None end).
    { assert (No : old <> []) by (unfold old; by destruct p). assert (Nc : c <> []) by (unfold c; by destruct p).
      clearbody old c. destruct old; [done|]. destruct c; [done|]. done. }
    assert (D : first_diff 0 old c = Some (length p, true)) by apply free_diff. rewrite E, D. destruct (decide _) as [[H1 H2]|_].
    + exists (take (length old `min` length c - 1) c). split; [done|]. rewrite H2, Nat.min_id. split; [done|apply prefix_take].
    + exists c. split_and!; [done|apply prefix_take|done].
Qed.
Lemma assign_blocked s c : ~ free s c -> assign s c = None.
Proof.
  intros H. destruct s as [old|]; [|exfalso; apply H; by left]. unfold assign.
  destruct old as [|o old]; [done|]. destruct c as [|n c]; [done|].
  destruct (first_diff 0 (o :: old) (n :: c)) as [[i same]|] eqn:E; [|done]. destruct same; [|done]. exfalso. apply H. right.
  apply first_diff_some in E as (p & [j b] & [j' b'] & r1 & r2 & -> & -> & Hn & _ & Hs).
  symmetry in Hs. apply bool_decide_eq_true in Hs. cbn in Hs. subst j'. exists p, j, b, r1, r2. split; [done|].
  assert (b' = negb b) as -> by (destruct b, b'; cbn; congruence). done.
Qed.
Lemma free_dec s c : free s c \/ ~ free s c.
Proof.
  destruct (assign s c) eqn:E; [|right; intros F; apply assign_free in F as (d & E' & _); congruence].
  destruct s as [old|]; [|left; by left].
  destruct (decide (first_diff 0 old c = None)) as [N|N].
  - exfalso. unfold assign in E. destruct old; [done|]. destruct c; [done|]. by rewrite N in E.
  - left. right. destruct (first_diff 0 old c) as [[i same]|] eqn:D; [|done].
    assert (Hs : same = true).
    { unfold assign in E. destruct old; [done|]. destruct c; [done|]. rewrite D in E. by destruct same. } subst same.
    apply first_diff_some in D as (p & [j b] & [j' b'] & r1 & r2 & -> & -> & Hn & _ & Hs).
    symmetry in Hs. apply bool_decide_eq_true in Hs. cbn in Hs. subst j'. exists p, j, b, r1, r2. split; [done|].
    assert (b' = negb b) as -> by (destruct b, b'; cbn; congruence). done.
Qed.

Lemma free_snoc s c e : free s c -> free s (c ++ [e]).
Proof.
  intros [->|(p & i & b & r1 & r2 & -> & ->)]; [by left|right]. exists p, i, b, r1, (r2 ++ [e]). split; [done|]. by rewrite <- app_assoc.
Qed.
Lemma blocked_snoc s c n b : (forall d, s = Some d -> ids_lt n d) -> ~ free s c -> ~ free s (c ++ [(n, b)]).
Proof.
  intros Hn H [->|(p & i & b' & r1 & r2 & -> & E)]; [apply H; by left|].
  specialize (Hn _ eq_refl). apply H. right. destruct (decide (r2 = [])) as [->|Hr].
  - apply app_inj_tail in E as [_ [= -> _]]. apply Forall_app in Hn as [_ Hn]. apply Forall_inv in Hn. cbn in Hn. lia.
  - destruct (exists_last Hr) as (r2' & e & ->). rewrite app_comm_cons, app_assoc in E. apply app_inj_tail in E as [-> _].
    exists p, i, b', r1, r2'. done.
Qed.
Lemma blocked_comparable d c : d `prefix_of` c \/ c `prefix_of` d -> ~ free (Some d) c.
Proof.
  intros H [?|(p & i & b & r1 & r2 & [= ->] & ->)]; [done|].
  destruct H as [[k E]|[k E]]; rewrite <- app_assoc in E; apply app_inv_head in E; injection E as E _; by destruct b.
Qed.

Lemma count_app x t1 t2 : count x (t1 ++ t2) = (count x t1 + count x t2)%nat.
Proof. unfold count. by rewrite filter_app, app_length. Qed.

(** ** Code without loops *)
(** [d] is a part of [c], or [c] and conditions numbered from [n]. *)
Definition near (n : nat) (c d : conds) : Prop :=
  d `prefix_of` c \/ exists r, d = c ++ r /\ Forall (fun e : nat * bool => (n <= e.1)%nat) r.
Lemma near_blocked n c d : near n c d -> ~ free (Some d) c.
Proof. intros [H|(r & -> & _)]; apply blocked_comparable; [by left|right; by eexists]. Qed.
Lemma near_weaken n m c d : (n <= m)%nat -> near m c d -> near n c d.
Proof. intros L [H|(r & -> & H)]; [by left|right]. exists r. split; [done|]. eapply Forall_impl; [exact H|]. cbn. lia. Qed.
Lemma near_snoc n m b c d : c `prefix_of` d -> (n <= m)%nat -> near m (c ++ [(n, b)]) d -> near n c d.
Proof.
  intros P L [[k E]|(r & -> & H)].
  - destruct P as [q ->]. right. exists q. split; [done|]. rewrite <- app_assoc in E. apply app_inv_head in E.
    destruct q as [|e q]; [constructor|]. injection E as <- E. destruct q; [|done]. constructor; [done|constructor].
  - right. exists ((n, b) :: r). split; [by rewrite <- app_assoc|]. constructor; [done|]. eapply Forall_impl; [exact H|]. cbn. lia.
Qed.
Definition fresh (x : nat) (st : fstate) : Prop :=
  ids_lt (f_counter st) (f_conds st) /\ forall d, f_signals st !! x = Some d -> ids_lt (f_counter st) d.
Definition step_ok (x : nat) (wr : list nat -> Prop) (st st' : fstate) : Prop :=
  let c := f_conds st in let s := f_signals st !! x in let s' := f_signals st' !! x in
  f_conds st' = c /\ (f_counter st <= f_counter st')%nat /\
  (forall d, s' = Some d -> ids_lt (f_counter st') d) /\
  (~ free s c -> s' = s /\ forall tr, wr tr -> count x tr = 0%nat) /\
  (free s c -> (s' = s /\ forall tr, wr tr -> count x tr = 0%nat) \/
     exists d, s' = Some d /\ take (length c - 1) c `prefix_of` d /\ near (f_counter st) c d /\
               forall tr, wr tr -> (count x tr <= 1)%nat).

Lemma fstmt_ind' (P : fstmt -> Prop) :
  (forall s, match s with
             | LWrite _ => True
             | LIf a b => Forall P a /\ match b with Some b => Forall P b | None => True end
             | LLoop bodies tail => Forall (Forall P) bodies /\ match tail with Some (a, b) => Forall P a /\ Forall P b | None => True end
             end -> P s) -> forall s, P s.
Proof.
  intros H. fix IH 1. intros s. apply H.
  assert (HL : forall l, Forall P l) by (fix IHl 1; intros [|j l]; constructor; [apply IH|apply IHl]).
  assert (HLL : forall l, Forall (Forall P) l) by (fix IHl 1; intros [|j l]; constructor; [apply HL|apply IHl]).
  destruct s as [x|a b|bodies tail]; [exact I|split; [apply HL|destruct b; [apply HL|exact I]]|split; [apply HLL|]].
  destruct tail as [[a b]|]; [split; apply HL|exact I].
Qed.
Lemma ids_lt_le n m d : (n <= m)%nat -> ids_lt n d -> ids_lt m d.
Proof. intros H F. eapply Forall_impl; [exact F|]. cbn. intros. lia. Qed.
Lemma ids_lt_prefix n d c : d `prefix_of` c -> ids_lt n c -> ids_lt n d.
Proof. intros [k ->] H. by apply Forall_app in H as [H _]. Qed.

Lemma step_fresh x wr st st' : fresh x st -> step_ok x wr st st' -> fresh x st'.
Proof. intros [F1 F2] (E & L & I & _). split; [|done]. rewrite E. by eapply ids_lt_le. Qed.

Lemma step_nil x st : fresh x st -> step_ok x (writes []) st st.
Proof.
  intros F. assert (N : forall tr, writes [] tr -> count x tr = 0%nat) by (intros tr H; by inversion H).
  split_and!; [done|done|apply F|by split|]. intros _. left. by split.
Qed.
Lemma step_seq x s l st st1 st2 : fresh x st -> step_ok x (writes1 s) st st1 -> step_ok x (writes l) st1 st2 ->
  step_ok x (writes (s :: l)) st st2.
Proof.
  intros F (C1 & L1 & I1 & B1 & F1) (C2 & L2 & I2 & B2 & F2). unfold step_ok. rewrite C1 in *.
  assert (W : forall tr, writes (s :: l) tr -> exists t1 t2, writes1 s t1 /\ writes l t2 /\ count x tr = (count x t1 + count x t2)%nat).
  { intros tr H. inversion H; subst. eexists _, _. split; [done|]. split; [done|]. apply count_app. }
  split_and!; [done|lia|done| |].
  - intros B. destruct (B1 B) as [E1 W1]. rewrite E1 in *. destruct (B2 B) as [E2 W2]. split; [done|].
    intros tr H. destruct (W _ H) as (t1 & t2 & Hw1 & Hw2 & ->). rewrite W1, W2 by done. done.
  - intros Hf. destruct (F1 Hf) as [[E1 W1]|(d & E1 & P1 & K1 & W1)].
    + rewrite E1 in *. destruct (F2 Hf) as [[E2 W2]|(d & E2 & P2 & K2 & W2)].
      * left. split; [done|]. intros tr H. destruct (W _ H) as (t1 & t2 & Hw1 & Hw2 & ->). rewrite W1, W2 by done. done.
      * right. exists d. split_and!; try done; [by eapply near_weaken|]. intros tr H. destruct (W _ H) as (t1 & t2 & Hw1 & Hw2 & ->). rewrite W1 by done. by apply W2.
    + rewrite E1 in *. destruct (B2 (near_blocked _ _ _ K1)) as [E2 W2].
      right. exists d. split_and!; try done. intros tr H. destruct (W _ H) as (t1 & t2 & Hw1 & Hw2 & ->). rewrite (W2 _ Hw2).
      specialize (W1 _ Hw1). lia.
Qed.

Definition flow_ok (x : nat) (s : fstmt) : Prop :=
  loop_free s = true -> forall st st', fresh x st -> flow s st = FOk st' -> step_ok x (writes1 s) st st'.
Lemma seq_ok x l : Forall (flow_ok x) l -> forallb loop_free l = true ->
  forall st st', fresh x st -> fseq flow l st = FOk st' -> step_ok x (writes l) st st'.
Proof.
  induction 1 as [|s l Hs Hl IH]; cbn [forallb]; intros Hlf st st' F E.
  - cbn in E. injection E as <-. by apply step_nil.
  - apply andb_true_iff in Hlf as [Hs' Hl']. cbn [fseq] in E. fold (fseq flow) in E.
    destruct (flow s st) as [st1| |] eqn:E1; [|done..]. cbn [fbind] in E.
    pose proof (Hs Hs' _ _ F E1) as S1. eapply step_seq; [done|exact S1|]. apply IH; [done|by eapply step_fresh|done].
Qed.
Lemma take_snoc (c : conds) e : take (length (c ++ [e]) - 1) (c ++ [e]) = c.
Proof. rewrite app_length. cbn. rewrite Nat.add_sub, take_app. done. Qed.
Lemma fresh_push x st : fresh x st -> fresh x (push st).
Proof.
  intros [F1 F2]. split; cbn.
  - apply Forall_app. split; [eapply ids_lt_le; [|exact F1]; lia|]. constructor; [cbn; lia|constructor].
  - intros d E. eapply ids_lt_le; [|by apply F2]. lia.
Qed.
Lemma pop_push_conds st1 c e : f_conds st1 = c ++ [e] -> f_conds (pop st1) = c.
Proof. intros E. cbn. by rewrite E, take_snoc. Qed.

Local Ltac specialize_le :=
  repeat match goal with W : forall tr, writes ?a tr -> _, H : writes ?a ?t |- _ => specialize (W t H) end; lia.
Lemma flow_ok_all x s : flow_ok x s.
Proof.
  induction s as [s IH] using fstmt_ind'. intros Hlf st st' F E. destruct s as [y|a b|bodies tail]; [| |done].
  - cbn in E. unfold write in E. destruct (assign (f_signals st !! y) (f_conds st)) as [[d|]|] eqn:Ea; [|done..]. injection E as <-.
    destruct (decide (x = y)) as [->|Hxy].
    + assert (W : forall tr, writes1 (LWrite y) tr -> (count y tr <= 1)%nat).
      { intros tr H. inversion H; subst. unfold count. cbn [filter list_filter]. destruct (decide (y = y)); cbn; lia. }
      unfold step_ok. cbn. rewrite lookup_insert.
      assert (Hf : free (f_signals st !! y) (f_conds st)).
      { destruct (free_dec (f_signals st !! y) (f_conds st)) as [?|B]; [done|]. apply assign_blocked in B. congruence. }
      destruct (assign_free _ _ Hf) as (d' & Ed & P1 & P2). assert (d' = d) as -> by congruence.
      split_and!; [done|done| |done|].
      * intros d0 [= <-]. eapply ids_lt_prefix; [exact P2|exact (proj1 F)].
      * intros _. right. exists d. split_and!; try done. by left.
    + assert (W : forall tr, writes1 (LWrite y) tr -> count x tr = 0%nat).
      { intros tr H. inversion H; subst. unfold count. cbn [filter list_filter]. rewrite decide_False by done. done. }
      unfold step_ok. cbn. rewrite lookup_insert_ne by done. split_and!; [done|done|apply F|by split|]. intros _. left. by split.
  - destruct IH as [IHa IHb]. cbn [flow] in E. unfold conditional in E. cbn [loop_free] in Hlf. apply andb_true_iff in Hlf as [La Lb].
    destruct (fseq flow a (push st)) as [st1| |] eqn:E1; [|done..]. cbn [fbind] in E.
    pose proof (seq_ok x a IHa La _ _ (fresh_push _ _ F) E1) as S1. pose proof (step_fresh _ _ _ _ (fresh_push _ _ F) S1) as F1'.
    destruct S1 as (C1 & L1 & I1 & B1 & R1). cbn [push f_conds f_counter f_signals] in *.
    set (c := f_conds st) in *. set (n := f_counter st) in *. set (s := f_signals st !! x) in *.
    rewrite take_snoc in R1.
    assert (HB : ~ free s c -> forall b', ~ free s (c ++ [(n, b')])).
    { intros B b'. apply blocked_snoc; [|done]. apply F. }
    destruct b as [b|].
    + (* with else *)
      unfold flip_last in E. rewrite C1 in E. rewrite last_snoc in E. rewrite take_snoc in E. cbn [fbind] in E.
      set (st2 := Flow (c ++ [(n, false)]) (f_counter st1) (f_signals st1)) in *.
      assert (F2 : fresh x st2).
      { split; cbn; [|apply F1']. destruct F1' as [F1' _]. rewrite C1 in F1'. apply Forall_app in F1' as [F1' F1'']. apply Forall_app.
        split; [done|]. constructor; [|constructor]. apply Forall_inv in F1''. exact F1''. }
      destruct (fseq flow b st2) as [st3| |] eqn:E2; [|done..]. cbn [fbind] in E. injection E as <-.
      destruct (seq_ok x b IHb Lb _ _ F2 E2) as (C2 & L2 & I2 & B2 & R2). cbn [st2 f_conds f_counter f_signals] in *. rewrite take_snoc in R2.
      unfold step_ok. rewrite (pop_push_conds _ _ _ C2). cbn [pop f_counter f_signals]. fold c n s.
      assert (W : forall k, (forall tr, writes a tr -> (count x tr <= k)%nat) -> (forall tr, writes b tr -> (count x tr <= k)%nat) ->
                  forall tr, writes1 (LIf a (Some b)) tr -> (count x tr <= k)%nat) by (intros k Ha Hb tr H; inversion H; subst; auto).
      assert (W0 : (forall tr, writes a tr -> count x tr = 0%nat) -> (forall tr, writes b tr -> count x tr = 0%nat) ->
                  forall tr, writes1 (LIf a (Some b)) tr -> count x tr = 0%nat) by (intros Ha Hb tr H; inversion H; subst; auto).
      split_and!; [done|lia|done| |].
      * intros B. destruct (B1 (HB B _)) as [Es1 W1]. rewrite Es1 in *. destruct (B2 (HB B _)) as [Es2 W2]. split; [done|]. by apply W0.
      * intros Hf. destruct (R1 (free_snoc _ _ _ Hf)) as [[Es1 W1]|(d1 & Es1 & P1 & K1 & W1)].
        -- rewrite Es1 in *. destruct (R2 (free_snoc _ _ _ Hf)) as [[Es2 W2]|(d2 & Es2 & P2 & K2 & W2)].
           ++ left. split; [done|]. by apply W0.
           ++ right. exists d2. split_and!; [done|etrans; [apply prefix_take|exact P2]|eapply near_snoc; [done| |exact K2]; lia|apply W; intros tr0 H0; specialize_le].
        -- destruct (free_dec (f_signals st1 !! x) (c ++ [(n, false)])) as [Hf2|B].
           ++ destruct (R2 Hf2) as [[Es2 W2]|(d2 & Es2 & P2 & K2 & W2)].
              ** right. exists d1. rewrite Es2. split_and!; [done|etrans; [apply prefix_take|exact P1]|eapply near_snoc; [done| |exact K1]; lia|apply W; intros tr0 H0; specialize_le].
              ** right. exists d2. split_and!; [done|etrans; [apply prefix_take|exact P2]|eapply near_snoc; [done| |exact K2]; lia|apply W; intros tr0 H0; specialize_le].
           ++ destruct (B2 B) as [Es2 W2]. right. exists d1. rewrite Es2. split_and!; [done|etrans; [apply prefix_take|exact P1]|eapply near_snoc; [done| |exact K1]; lia|apply W; intros tr0 H0; specialize_le].
    + injection E as <-. unfold step_ok. rewrite (pop_push_conds _ _ _ C1). cbn [pop f_counter f_signals]. fold c n s.
      assert (Z : count x [] = 0%nat) by done.
      split_and!; [done|lia|done| |].
      * intros B. destruct (B1 (HB B _)) as [Es1 W1]. split; [done|]. intros tr H. inversion H; subst; auto.
      * intros Hf. destruct (R1 (free_snoc _ _ _ Hf)) as [[Es1 W1]|(d1 & Es1 & P1 & K1 & W1)].
        -- left. split; [done|]. intros tr H. inversion H; subst; auto.
        -- right. exists d1. split_and!; [done|etrans; [apply prefix_take|exact P1]|eapply near_snoc; [done| |exact K1]; lia|].
           intros tr H. inversion H; subst; auto with lia.
Qed.

(** ** Loops *)

Definition inv (x : nat) (st : fstate) : Prop :=
  fresh x st /\ NoDup (f_conds st).*1 /\
  forall d i, f_signals st !! x = Some d -> (i, false) ∈ d -> (i, true) ∉ f_conds st.
Lemma unique_flag (c : conds) i a b : NoDup c.*1 -> (i, a) ∈ c -> (i, b) ∈ c -> a = b.
Proof.
  intros N Ha Hb. apply elem_of_list_lookup in Ha as [k Ha]. apply elem_of_list_lookup in Hb as [m Hb].
  assert (k = m) as ->; [|congruence]. eapply (NoDup_lookup _ k m i N); by rewrite list_lookup_fmap, ?Ha, ?Hb.
Qed.
(** Loops leave conditions behind: at the end there are more conditions than at the beginning. *)
Definition leaks (n m : nat) (k : conds) : Prop := Forall (fun e : nat * bool => (n <= e.1 < m)%nat /\ e.2 = true) k.
Definition lstep (x : nat) (wr : list nat -> Prop) (st st' : fstate) : Prop :=
  let c := f_conds st in let s := f_signals st !! x in let s' := f_signals st' !! x in
  (exists k, f_conds st' = c ++ k /\ leaks (f_counter st) (f_counter st') k) /\ (f_counter st <= f_counter st')%nat /\ inv x st' /\
  (~ free s c -> s' = s /\ forall tr, wr tr -> count x tr = 0%nat) /\
  (free s c -> (s' = s /\ forall tr, wr tr -> count x tr = 0%nat) \/
     exists d, s' = Some d /\ take (length c - 1) c `prefix_of` d /\ near (f_counter st) c d /\
               forall tr, wr tr -> (count x tr <= 1)%nat).

Lemma step_inv x wr st st' : inv x st -> step_ok x wr st st' -> inv x st'.
Proof.
  intros (F & N & I) S. pose proof (step_fresh _ _ _ _ F S) as F'. destruct S as (C & L & _ & B & R).
  split_and!; [done|by rewrite C|]. rewrite C. intros d i E Hi.
  destruct (free_dec (f_signals st !! x) (f_conds st)) as [Hf|Hb].
  - destruct (R Hf) as [[E1 _]|(d' & E1 & _ & Nr & _)]; [rewrite E1 in E; eauto|].
    assert (d' = d) as -> by congruence. destruct Nr as [[q P]|(r & -> & Hr)].
    + intros Hc. assert (Hi' : (i, false) ∈ f_conds st) by (rewrite P; apply elem_of_app; by left).
      by pose proof (unique_flag _ _ _ _ N Hc Hi').
    + intros Hc. apply elem_of_app in Hi as [Hi|Hi]; [by pose proof (unique_flag _ _ _ _ N Hc Hi)|].
      pose proof (proj1 (Forall_forall _ _) Hr _ Hi) as Z. cbn in Z.
      pose proof (proj1 (Forall_forall _ _) (proj1 F) _ Hc) as Z'. cbn in Z'. lia.
  - destruct (B Hb) as [E1 _]. rewrite E1 in E. eauto.
Qed.
Lemma step_lstep x wr st st' : inv x st -> step_ok x wr st st' -> lstep x wr st st'.
Proof.
  intros I S. pose proof (step_inv _ _ _ _ I S) as I'. destruct S as (C & L & _ & B & R). split_and!; try done.
  exists []. rewrite app_nil_r. split; [done|constructor].
Qed.
Lemma lstep_wr x (w w' : list nat -> Prop) st st' : (forall tr, w' tr -> w tr) -> lstep x w st st' -> lstep x w' st st'.
Proof.
  intros H (C & L & I & B & R). split_and!; [done|done|done| |].
  - intros Hb. destruct (B Hb) as [? ?]. auto.
  - intros Hf. destruct (R Hf) as [[? ?]|(d & ? & ? & ? & ?)]; [left; auto|right; exists d; auto 6].
Qed.
Lemma lstep_none x (w : list nat -> Prop) st : inv x st -> (forall tr, w tr -> count x tr = 0%nat) -> lstep x w st st.
Proof.
  intros I W. split_and!; [exists []; rewrite app_nil_r; split; [done|constructor]|done|done|done|]. intros _. by left.
Qed.

Lemma free_app s c k : free s c -> free s (c ++ k).
Proof.
  intros [->|(p & i & b & r1 & r2 & -> & ->)]; [by left|right]. exists p, i, b, r1, (r2 ++ k). split; [done|]. by rewrite <- app_assoc.
Qed.
Lemma blocked_app s c k n : (forall d, s = Some d -> ids_lt n d) -> Forall (fun e : nat * bool => (n <= e.1)%nat) k -> ~ free s c -> ~ free s (c ++ k).
Proof.
  intros Hn Hk. revert c. induction Hk as [|[m b] k Hm Hk IH]; intros c B; [by rewrite app_nil_r|].
  rewrite (cons_middle (m, b) c k). rewrite app_assoc. apply IH. apply blocked_snoc; [|done]. intros d E. cbn in Hm. eapply ids_lt_le; [exact Hm|by apply Hn].
Qed.
Lemma leaks_ge n m k : leaks n m k -> Forall (fun e : nat * bool => (n <= e.1)%nat) k.
Proof. intros H. eapply Forall_impl; [exact H|]. cbn. lia. Qed.
Lemma near_app_blocked x st n c k d : inv x st -> f_conds st = c ++ k -> f_signals st !! x = Some d ->
  Forall (fun e : nat * bool => e.2 = true) k -> near n c d -> ~ free (Some d) (c ++ k).
Proof.
  intros (_ & _ & I) C E Hk [P|(r & -> & _)].
  - apply blocked_comparable. left. etrans; [exact P|by eexists].
  - intros [?|(p & i & b & r1 & r2 & [= E1] & E2)]; [done|].
    assert (Hp : c `prefix_of` p).
    { destruct (decide (length p < length c)%nat) as [Hl|Hl].
      - exfalso. apply (f_equal (fun l => l !! length p)) in E1. apply (f_equal (fun l => l !! length p)) in E2.
        rewrite lookup_app_l in E1, E2 by done. rewrite E1 in E2.
        rewrite !list_lookup_middle in E2 by done. injection E2 as E2. by destruct b.
      - apply (f_equal (take (length c))) in E1. rewrite take_app in E1. rewrite take_app_le in E1 by lia.
        rewrite E1. apply prefix_take. }
    destruct Hp as [q ->]. rewrite <- app_assoc in E1, E2. apply app_inv_head in E1, E2. subst r k.
    apply Forall_app in Hk as [_ Hk]. apply Forall_inv in Hk. cbn in Hk. destruct b; [done|].
    eapply (I _ i E); [|rewrite C]; rewrite !elem_of_app; right; right; left.
Qed.
Lemma leaks_true n m k : leaks n m k -> Forall (fun e : nat * bool => e.2 = true) k.
Proof. intros H. eapply Forall_impl; [exact H|]. cbn. tauto. Qed.
Lemma leaks_weaken n n' m m' k : (n' <= n)%nat -> (m <= m')%nat -> leaks n m k -> leaks n' m' k.
Proof. intros ? ? H. eapply Forall_impl; [exact H|]. cbn. intros e He. lia || (destruct He; split; [lia|done]). Qed.
(** [near] a longer list of conditions. *)
Lemma near_app n m c k d : take (length c - 1) c `prefix_of` d -> Forall (fun e : nat * bool => (n <= e.1)%nat) k -> (n <= m)%nat ->
  near m (c ++ k) d -> near n c d.
Proof.
  intros Pt Hk L [[q E]|(r & -> & Hr)].
  - destruct (decide (length d <= length c)%nat) as [Hl|Hl].
    + left. apply (f_equal (take (length d))) in E. rewrite take_app, take_app_le in E by lia. rewrite <- E. apply prefix_take.
    + right. exists (drop (length c) d). assert (Ed : take (length c) d = c).
      { apply (f_equal (take (length c))) in E. rewrite take_app, take_app_le in E by lia. done. }
      split; [rewrite <- Ed at 1; by rewrite take_drop|].
      apply (f_equal (drop (length c))) in E. rewrite drop_app, drop_app_le in E by lia. rewrite E in Hk.
      by apply Forall_app in Hk as [Hk _].
  - right. exists (k ++ r). split; [by rewrite app_assoc|]. apply Forall_app. split; [done|]. eapply Forall_impl; [exact Hr|]. cbn. lia.
Qed.
Lemma take_app_prefix (c k : conds) d : take (length (c ++ k) - 1) (c ++ k) `prefix_of` d -> take (length c - 1) c `prefix_of` d.
Proof.
  intros H. etrans; [|exact H]. exists (drop (length c - 1) (take (length (c ++ k) - 1) (c ++ k))).
  rewrite <- (take_drop (length c - 1) (take (length (c ++ k) - 1) (c ++ k))) at 1. f_equal.
  rewrite take_take. rewrite app_length. rewrite Nat.min_l by lia. by rewrite take_app_le by lia.
Qed.

Lemma lstep_seq x (w1 w2 w : list nat -> Prop) st st1 st2 :
  (forall tr, w tr -> exists t1 t2, w1 t1 /\ w2 t2 /\ tr = t1 ++ t2) -> inv x st -> lstep x w1 st st1 -> lstep x w2 st1 st2 -> lstep x w st st2.
Proof.
  intros W I0 ((k1 & C1 & K1) & L1 & I1 & B1 & R1) ((k2 & C2 & K2) & L2 & I2 & B2 & R2).
  assert (Z : forall m1 m2, (forall tr, w1 tr -> (count x tr <= m1)%nat) -> (forall tr, w2 tr -> (count x tr <= m2)%nat) ->
     forall tr, w tr -> (count x tr <= m1 + m2)%nat).
  { intros m1 m2 H1 H2 tr H. destruct (W tr H) as (t1 & t2 & Ht1 & Ht2 & ->). rewrite count_app. specialize (H1 _ Ht1). specialize (H2 _ Ht2). lia. }
  assert (Zz : forall m (P : list nat -> Prop), (forall tr, P tr -> count x tr = 0%nat) -> forall tr, P tr -> (count x tr <= m)%nat)
    by (intros m P H tr Hp; rewrite (H tr Hp); lia).
  assert (Z0 : (forall tr, w1 tr -> count x tr = 0%nat) -> (forall tr, w2 tr -> count x tr = 0%nat) -> forall tr, w tr -> count x tr = 0%nat).
  { intros H1 H2 tr H. pose proof (Z 0%nat 0%nat (Zz _ _ H1) (Zz _ _ H2) tr H). lia. }
  unfold lstep. rewrite C1 in B2, R2, C2. rewrite <- app_assoc in C2.
  split_and!; [exists (k1 ++ k2); split; [done|]|lia|done| |].
  - apply Forall_app. split; [eapply leaks_weaken; [| |exact K1]; lia|eapply leaks_weaken; [| |exact K2]; lia].
  - intros Hb. destruct (B1 Hb) as [E1 W1]. rewrite E1 in B2.
    destruct B2 as [E2 W2]; [|split; [congruence|by apply Z0]].
    eapply blocked_app; [apply I0|by eapply leaks_ge|done].
  - intros Hf. destruct (R1 Hf) as [[E1 W1]|(d & E1 & P1 & N1 & W1)].
    + rewrite E1 in R2. destruct R2 as [[E2 W2]|(d & E2 & P2 & N2 & W2)]; [by apply free_app|left; split; [congruence|by apply Z0]|].
      right. exists d. assert (Pt : take (length (f_conds st) - 1) (f_conds st) `prefix_of` d) by (by eapply take_app_prefix).
      split_and!; [done|done|eapply near_app; [done|by eapply leaks_ge| |exact N2]; lia|].
      apply (Z 0%nat 1%nat); [by apply Zz|done].
    + rewrite E1 in B2. destruct B2 as [E2 W2].
      { eapply (near_app_blocked x st1); [done|done|done|by eapply leaks_true|done]. }
      right. exists d. split_and!; [done|done|done|]. apply (Z 1%nat 0%nat); [done|by apply Zz].
Qed.

(** A condition is pushed, and one is removed at the end. *)
Lemma inv_push x st : inv x st -> inv x (push st).
Proof.
  intros (F & N & I). split_and!; [by apply fresh_push| |]; cbn.
  - rewrite fmap_app. apply NoDup_app. split_and!; [done| |apply NoDup_singleton]. intros i Hi Hj. apply elem_of_list_singleton in Hj as ->.
    apply elem_of_list_fmap in Hi as ([j b] & E & Hi). cbn in E. subst j.
    pose proof (proj1 (Forall_forall _ _) (proj1 F) _ Hi) as Z. cbn in Z. lia.
  - intros d i E Hi Hc. apply elem_of_app in Hc as [Hc|Hc]; [by eapply I|]. apply elem_of_list_singleton in Hc as [= ->].
    destruct F as [_ F]. specialize (F _ E). pose proof (proj1 (Forall_forall _ _) F _ Hi) as H. cbn in H. lia.
Qed.
Lemma elem_of_take' {A} (e : A) n l : e ∈ take n l -> e ∈ l.
Proof. intros H. rewrite <- (take_drop n l). apply elem_of_app. by left. Qed.
Lemma inv_pop x st : inv x st -> inv x (pop st).
Proof.
  intros ([F1 F2] & N & I). split_and!; cbn.
  - split; cbn; [by apply Forall_take|done].
  - rewrite fmap_take. rewrite <- (take_drop (length (f_conds st) - 1) (f_conds st).*1) in N. by apply NoDup_app in N as [N _].
  - intros d i E Hi Hc. apply elem_of_take' in Hc. by eapply I.
Qed.
Lemma lstep_scope x (w : list nat -> Prop) st st1 : inv x st -> lstep x w (push st) st1 -> lstep x w st (pop st1).
Proof.
  intros I ((k & C & K) & L & I1 & B & R). cbn [push f_conds f_counter f_signals] in *. rewrite take_snoc in R.
  assert (Hk : leaks (f_counter st) (f_counter st1) ((f_counter st, true) :: k)).
  { constructor; [cbn; split; [lia|done]|]. eapply leaks_weaken; [| |exact K]; lia. }
  unfold lstep. split_and!; [|cbn; lia|by apply inv_pop| |]; cbn [pop f_signals f_counter].
  - exists (take (length k) ((f_counter st, true) :: k)). split; [|by apply Forall_take]. cbn [pop f_conds]. rewrite C.
    rewrite <- app_assoc. cbn [app]. rewrite app_length. cbn [length].
    replace (length (f_conds st) + S (length k) - 1)%nat with (length (f_conds st) + length k)%nat by lia.
    by rewrite take_add_app.
  - intros Hb. apply B. apply blocked_snoc; [apply I|done].
  - intros Hf. destruct (R (free_snoc _ _ _ Hf)) as [?|(d & E & P & N & W)]; [by left|right]. exists d.
    split_and!; [done|etrans; [apply prefix_take|exact P]|eapply near_snoc; [done| |exact N]; lia|done].
Qed.

(** A condition with two branches, the second without loops. *)
Lemma flip_shape st q j b : f_conds st = q ++ [(j, b)] ->
  flip_last st = FOk (Flow (q ++ [(j, false)]) (f_counter st) (f_signals st)).
Proof. intros E. unfold flip_last. by rewrite E, last_snoc, take_snoc. Qed.

Definition inner_ok (x : nat) (s : fstmt) : Prop := reachable true s = true -> plain s ->
  forall st st', inv x st -> flow s st = FOk st' -> lstep x (writes1 s) st st'.
Local Notation plains := (foldr (fun s P => plain s /\ P) True).
Lemma inner_seq x l : Forall (inner_ok x) l -> forallb (reachable true) l = true -> plains l ->
  forall st st', inv x st -> fseq flow l st = FOk st' -> lstep x (writes l) st st'.
Proof.
  induction 1 as [|s l Hs Hl IH]; intros Hr Hp st st' I E.
  - cbn in E. injection E as <-. apply lstep_none; [done|]. intros tr H. by inversion H.
  - cbn [forallb] in Hr. apply andb_true_iff in Hr as [Hr1 Hr2]. destruct Hp as [Hp1 Hp2]. cbn [fseq] in E. fold (fseq flow) in E.
    destruct (flow s st) as [st1| |] eqn:E1; [|done..]. cbn [fbind] in E.
    pose proof (Hs Hr1 Hp1 _ _ I E1) as S1. eapply (lstep_seq x (writes1 s) (writes l)); [|done|exact S1|apply IH; [done|done|apply S1|done]].
    intros tr H. inversion H; subst. eauto.
Qed.
Lemma inner_conditional x a st st' : Forall (inner_ok x) a -> forallb (reachable true) a = true -> plains a -> inv x st ->
  conditional flow a None st = FOk st' -> lstep x (writes1 (LIf a None)) st st'.
Proof.
  intros Ha Hr Hp I E. unfold conditional in E. destruct (fseq flow a (push st)) as [st1| |] eqn:E1; [|done..]. cbn [fbind] in E.
  injection E as <-. pose proof (inner_seq x a Ha Hr Hp _ _ (inv_push _ _ I) E1) as S1. apply lstep_scope; [done|].
  destruct S1 as (C & L & I1 & B & R). assert (Z : count x [] = 0%nat) by done. split_and!; [done|done|done| |].
  - intros Hb. destruct (B Hb) as [Es W]. split; [done|]. intros tr H. inversion H; subst; auto.
  - intros Hf. destruct (R Hf) as [[Es W]|(d & Es & P & N & W)]; [left|right; exists d].
    + split; [done|]. intros tr H. inversion H; subst; auto.
    + split_and!; try done. intros tr H. inversion H; subst; auto with lia.
Qed.
Lemma lstep_zero x (w w' : list nat -> Prop) st st' : (forall tr, w tr -> count x tr = 0%nat) -> lstep x w' st st' ->
  f_signals st' !! x = f_signals st !! x -> lstep x w st st'.
Proof.
  intros W (C & L & I & B & R) E. split_and!; try done. intros Hf. left. done.
Qed.
(** The body of an unknown loop assigns nothing: its second execution would be refused. *)
Lemma tail_ok x a st st' : Forall (inner_ok x) a -> forallb (reachable true) a = true -> plains a -> inv x st ->
  fbind (conditional flow a None st) (conditional flow a None) = FOk st' -> lstep x (writes_tail (Some (a, a))) st st'.
Proof.
  intros Ha Hr Hp I E. destruct (conditional flow a None st) as [st1| |] eqn:E1; [|done..]. cbn [fbind] in E.
  pose proof (inner_conditional _ _ _ _ Ha Hr Hp I E1) as S1.
  pose proof S1 as ((k1 & C1 & K1) & L1 & I1 & B1 & R1).
  pose proof (inner_conditional _ _ _ _ Ha Hr Hp I1 E) as S2.
  pose proof S2 as (_ & _ & I2 & B2 & R2).
  assert (Z : forall tr, writes a tr -> count x tr = 0%nat).
  { assert (H : forall tr, writes1 (LIf a None) tr -> count x tr = 0%nat); [|intros tr Hw; apply H; by apply writes_then].
    destruct (free_dec (f_signals st !! x) (f_conds st)) as [Hf|Hb]; [|by apply B1].
    destruct (R1 Hf) as [[_ W]|(d & Es & P & N & W)]; [done|].
    destruct B2 as [_ W2]; [|done]. rewrite Es, C1. eapply (near_app_blocked x st1); [done|done|done|by eapply leaks_true|done]. }
  assert (Zm : forall tr, writes_many a tr -> count x tr = 0%nat).
  { intros tr H. induction H as [|b t1 t2 H1 H2 IH]; [done|]. rewrite count_app, Z, IH; done. }
  assert (Z1 : forall tr, writes_tail (Some (a, a)) tr -> count x tr = 0%nat).
  { intros tr H. inversion H; subst; [done|]. rewrite count_app, Z, Zm; done. }
  assert (Z2 : forall tr, writes1 (LIf a None) tr -> count x tr = 0%nat) by (intros tr H; inversion H; subst; auto).
  eapply (lstep_seq x (writes_tail (Some (a, a))) (fun tr => tr = [])); [|done| |eapply (lstep_wr x (writes1 (LIf a None))); [|exact S2]].
  - intros tr H. exists tr, []. rewrite app_nil_r. done.
  - destruct S1 as (C & L & I0 & B & R). split_and!; try done.
    + intros Hb. destruct (B Hb). split; [done|]. done.
    + intros Hf. destruct (R Hf) as [[Es W]|(d & Es & P & N & W)]; [left; by split|right; exists d]. split_and!; try done.
      intros tr H. rewrite Z1 by done. lia.
  - intros tr ->. apply writes_no_else.
Qed.

Lemma inner_ok_all x s : inner_ok x s.
Proof.
  induction s as [s IH] using fstmt_ind'. intros Hr Hp st st' I E. destruct s as [y|a b|bodies tail].
  - apply step_lstep; [done|]. apply flow_ok_all; [done|apply I|done].
  - destruct IH as [IHa IHb]. cbn [reachable] in Hr. apply andb_true_iff in Hr as [Hra Hrb]. cbn [plain] in Hp. destruct Hp as [Hpa Hpb].
    destruct b as [b|]; [|by eapply inner_conditional].
    cbn [flow] in E. unfold conditional in E.
    destruct (fseq flow a (push st)) as [st1| |] eqn:E1; [|done..]. cbn [fbind] in E.
    pose proof (inner_seq x a IHa Hra Hpa _ _ (inv_push _ _ I) E1) as S1.
    destruct S1 as ((k & C1 & K1) & L1 & I1 & B1 & R1). cbn [push f_conds f_counter f_signals] in *. rewrite take_snoc in R1.
    set (c := f_conds st) in *. set (n := f_counter st) in *. set (s := f_signals st !! x) in *.
    (* the stack after the first branch *)
    assert (exists q j, f_conds st1 = (c ++ q) ++ [(j, true)] /\ leaks n (f_counter st1) (q ++ [(j, true)])) as (q & j & Cq & Hq).
    { assert (Hk : leaks n (f_counter st1) ((n, true) :: k)).
      { constructor; [cbn; split; [lia|done]|]. eapply leaks_weaken; [| |exact K1]; lia. }
      destruct (exists_last (l := (n, true) :: k)) as (q & [j b0] & Eq); [done|]. rewrite Eq in Hk.
      assert (b0 = true) as ->. { apply Forall_app in Hk as [_ Hk]. apply Forall_inv in Hk. apply Hk. }
      exists q, j. split; [|done]. rewrite C1. rewrite <- !app_assoc. f_equal. exact Eq. }
    rewrite (flip_shape _ _ _ _ Cq) in E. cbn [fbind] in E.
    set (st2 := Flow ((c ++ q) ++ [(j, false)]) (f_counter st1) (f_signals st1)) in *.
    assert (I2 : inv x st2).
    { destruct I1 as ([F1 F2] & N & I1). rewrite Cq in *. split_and!; [split; cbn| |]; cbn.
      - apply Forall_app in F1 as [F1 F1']. apply Forall_app. split; [done|]. constructor; [|constructor]. apply Forall_inv in F1'. exact F1'.
      - done.
      - rewrite fmap_app in N |- *. exact N.
      - intros d i Ed Hi Hc. apply (I1 d i Ed Hi). apply elem_of_app in Hc as [Hc|Hc]; apply elem_of_app; [by left|].
        apply elem_of_list_singleton in Hc. congruence. }
    destruct (fseq flow b st2) as [st3| |] eqn:E2; [|done..]. cbn [fbind] in E. injection E as <-.
    assert (Hfl : Forall (flow_ok x) b) by (apply Forall_forall; intros; apply flow_ok_all).
    pose proof (seq_ok x b Hfl Hpb _ _ (proj1 I2) E2) as S2. pose proof (step_inv _ _ _ _ I2 S2) as I3.
    destruct S2 as (C2 & L2 & _ & B2 & R2). cbn [st2 f_conds f_counter f_signals] in *. rewrite take_snoc in R2.
    assert (Hq' : leaks n (f_counter st3) q). { apply Forall_app in Hq as [Hq _]. eapply leaks_weaken; [| |exact Hq]; lia. }
    assert (HB : ~ free s c -> ~ free s ((c ++ q) ++ [(j, false)])).
    { intros Hb. rewrite <- app_assoc. eapply (blocked_app _ _ _ n); [apply I| |done]. apply Forall_app. split; [by eapply leaks_ge|].
      apply Forall_app in Hq as [_ Hq]. apply Forall_inv in Hq. constructor; [cbn in *; lia|constructor]. }
    assert (HN : forall d, c ++ q `prefix_of` d -> near (f_counter st1) ((c ++ q) ++ [(j, false)]) d -> near n c d).
    { intros d P Nr. eapply (near_app n (f_counter st1) c (q ++ [(j, false)])); [| |lia|by rewrite app_assoc].
      - etrans; [apply prefix_take|]. etrans; [|exact P]. by eexists.
      - apply Forall_app. split; [by eapply leaks_ge|]. apply Forall_app in Hq as [_ Hq]. apply Forall_inv in Hq. constructor; [cbn in *; lia|constructor]. }
    assert (HN1 : forall d, c `prefix_of` d -> near (S n) (c ++ [(n, true)]) d -> near n c d).
    { intros d P Nr. eapply near_snoc; [done| |exact Nr]. lia. }
    assert (HT : forall d, c ++ q `prefix_of` d -> take (length c - 1) c `prefix_of` d).
    { intros d P. etrans; [apply prefix_take|]. etrans; [|exact P]. by eexists. }
    unfold lstep. rewrite (pop_push_conds _ _ _ C2). cbn [pop f_counter f_signals]. fold c n s.
    assert (W : forall m, (forall tr, writes a tr -> (count x tr <= m)%nat) -> (forall tr, writes b tr -> (count x tr <= m)%nat) ->
                forall tr, writes1 (LIf a (Some b)) tr -> (count x tr <= m)%nat) by (intros m Ha Hb tr H; inversion H; subst; auto).
    assert (W0 : (forall tr, writes a tr -> count x tr = 0%nat) -> (forall tr, writes b tr -> count x tr = 0%nat) ->
                forall tr, writes1 (LIf a (Some b)) tr -> count x tr = 0%nat) by (intros Ha Hb tr H; inversion H; subst; auto).
    split_and!; [by exists q|lia|by apply inv_pop| |].
    + intros Hb. destruct B1 as [Es1 W1]; [by apply blocked_snoc; [apply I|]|]. rewrite Es1 in *. destruct (B2 (HB Hb)) as [Es2 W2]. split; [done|]. by apply W0.
    + intros Hf. destruct (R1 (free_snoc _ _ _ Hf)) as [[Es1 W1]|(d1 & Es1 & P1 & K1' & W1)].
      * rewrite Es1 in *. destruct R2 as [[Es2 W2]|(d2 & Es2 & P2 & K2 & W2)]; [rewrite <- app_assoc; by apply free_app| |].
        -- left. split; [done|]. by apply W0.
        -- right. exists d2. split_and!; [done|by apply HT|by apply HN|apply W; intros tr0 H0; specialize_le].
      * destruct (free_dec (f_signals st1 !! x) ((c ++ q) ++ [(j, false)])) as [Hf2|Hb2].
        -- destruct (R2 Hf2) as [[Es2 W2]|(d2 & Es2 & P2 & K2 & W2)].
           ++ right. exists d1. rewrite Es2. split_and!; [done|etrans; [apply prefix_take|exact P1]|by apply HN1|apply W; intros tr0 H0; specialize_le].
           ++ right. exists d2. split_and!; [done|by apply HT|by apply HN|apply W; intros tr0 H0; specialize_le].
        -- destruct (B2 Hb2) as [Es2 W2]. right. exists d1. rewrite Es2.
           split_and!; [done|etrans; [apply prefix_take|exact P1]|by apply HN1|apply W; intros tr0 H0; specialize_le].
  - destruct IH as [IHb IHt]. cbn [reachable negb orb] in Hr. apply andb_true_iff in Hr as [Hr Hrt]. apply andb_true_iff in Hr as [Hlen Hrb].
    cbn [plain] in Hp. destruct Hp as [Hpb Hpt]. cbn [flow] in E.
    (* the rest of the loop *)
    assert (Ht : forall st0, inv x st0 -> (match tail with None => FOk st0 | Some (a, b) => fbind (conditional flow a None st0) (conditional flow b None) end) = FOk st' ->
      lstep x (writes_tail tail) st0 st').
    { intros st0 I0 E0. destruct tail as [[a b]|].
      - destruct Hpt as [<- Hpa]. apply andb_true_iff in Hrt as [Hra _]. by apply tail_ok; [apply IHt|..].
      - injection E0 as <-. apply lstep_none; [done|]. intros tr H. by inversion H. }
    destruct bodies as [|b [|b2 bodies]]; [| |done].
    + cbn [fbind] in E. pose proof (Ht _ (inv_push _ _ I) E) as S.
      eapply (lstep_seq x (fun tr => tr = []) (writes_tail tail) _ st (push st)); [|done| |exact S].
      * intros tr H. inversion H as [| | | |? ? t1 t2 H1 H2]; subst. inversion H1; subst. exists [], t2. done.
      * split_and!; [exists [(f_counter st, true)]; split; [done|]|cbn; lia|by apply inv_push| |]; cbn.
        -- constructor; [cbn; split; [lia|done]|constructor].
        -- intros _. split; [done|]. by intros tr ->.
        -- intros _. left. split; [done|]. by intros tr ->.
    + destruct (fseq flow b (push st)) as [st1| |] eqn:E1; [|done..]. cbn [fbind] in E.
      apply Forall_inv in IHb. cbn [forallb] in Hrb. apply andb_true_iff in Hrb as [Hrb _]. destruct Hpb as [Hpb _].
      pose proof (inner_seq x b IHb Hrb Hpb _ _ (inv_push _ _ I) E1) as S1. apply lstep_scope in S1; [|done].
      pose proof (Ht _ ltac:(apply S1) E) as S.
      eapply (lstep_seq x (writes b) (writes_tail tail)); [|done|exact S1|exact S].
      intros tr H. inversion H as [| | | |? ? t1 t2 H1 H2]; subst. inversion H1 as [|? ? u1 u2 Hu1 Hu2]; subst. inversion Hu2; subst.
      rewrite app_nil_r. eauto.
Qed.

(** ** Outside of unknown conditions *)

(** The conditions are those that loops have left behind. *)
Definition top (x : nat) (st : fstate) : Prop := inv x st /\ Forall (fun e : nat * bool => e.2 = true) (f_conds st).
Lemma top_blocked x st d : top x st -> f_signals st !! x = Some d -> ~ free (Some d) (f_conds st).
Proof.
  intros [(_ & _ & N) T] E [?|(p & i & b & r1 & r2 & [= ->] & Ec)]; [done|]. rewrite Ec in T.
  apply Forall_app in T as [_ T]. apply Forall_inv in T. cbn in T. destruct b; [done|].
  eapply (N _ i E); [apply elem_of_app; right; left|]. rewrite Ec. apply elem_of_app. right. left.
Qed.
(** What a piece of code at this level does. *)
Definition top_ok (x : nat) (wr : list nat -> Prop) (st st' : fstate) : Prop :=
  top x st' /\
  (forall d, f_signals st !! x = Some d -> f_signals st' !! x = Some d /\ forall tr, wr tr -> count x tr = 0%nat) /\
  (f_signals st !! x = None -> (f_signals st' !! x = None -> forall tr, wr tr -> count x tr = 0%nat) /\
     forall tr, wr tr -> (count x tr <= 1)%nat).

Lemma top_seq x (w1 w2 w : list nat -> Prop) st st1 st2 :
  (forall tr, w tr -> exists t1 t2, w1 t1 /\ w2 t2 /\ tr = t1 ++ t2) -> top_ok x w1 st st1 -> top_ok x w2 st1 st2 -> top_ok x w st st2.
Proof.
  intros W (T1 & S1 & N1) (T2 & S2 & N2). split; [done|]. split.
  - intros d E. destruct (S1 d E) as [E1 W1]. destruct (S2 d E1) as [E2 W2]. split; [done|].
    intros tr H. destruct (W tr H) as (t1 & t2 & H1 & H2 & ->). rewrite count_app, W1, W2; done.
  - intros E. destruct (N1 E) as [Z1 L1]. destruct (f_signals st1 !! x) as [d|] eqn:E1.
    + destruct (S2 d eq_refl) as [E2 W2]. split; [intros E3; congruence|].
      intros tr H. destruct (W tr H) as (t1 & t2 & H1 & H2 & ->). rewrite count_app, (W2 _ H2). specialize (L1 _ H1). lia.
    + destruct (N2 eq_refl) as [Z2 L2]. split.
      * intros E2 tr H. destruct (W tr H) as (t1 & t2 & H1 & H2 & ->). rewrite count_app, Z1, Z2; done.
      * intros tr H. destruct (W tr H) as (t1 & t2 & H1 & H2 & ->). rewrite count_app, Z1 by done. by apply L2.
Qed.
Lemma top_refl x (wr : list nat -> Prop) st : top x st -> (forall tr, wr tr -> count x tr = 0%nat) -> top_ok x wr st st.
Proof. intros T W. split_and!; [done|by intros|]. intros _. split; [done|]. intros tr H. rewrite W by done. lia. Qed.
Lemma top_pre x (w : list nat -> Prop) st0 st st' : f_signals st0 = f_signals st -> top_ok x w st st' -> top_ok x w st0 st'.
Proof. intros E (T & S & N). unfold top_ok. rewrite E. done. Qed.
Lemma top_push x st : top x st -> top x (push st).
Proof. intros [I T]. split; [by apply inv_push|]. cbn. apply Forall_app. split; [done|]. constructor; [done|constructor]. Qed.
Lemma top_pop x st : top x st -> top x (pop st).
Proof. intros [I T]. split; [by apply inv_pop|]. cbn. by apply Forall_take. Qed.
Lemma top_step x wr st st' : top x st -> lstep x wr st st' -> top_ok x wr st st'.
Proof.
  intros T ((k & C & K) & L & I & B & R). split_and!.
  - split; [done|]. rewrite C. apply Forall_app. split; [apply T|by eapply leaks_true].
  - intros d E. pose proof (top_blocked _ _ _ T E) as Hb. rewrite E in B. by apply B.
  - intros E. rewrite E in R. destruct (R (or_introl eq_refl)) as [[E1 W]|(d' & E1 & _ & _ & W)].
    + split; [done|]. intros tr H. rewrite (W tr H). lia.
    + split; [intros ?; congruence|done].
Qed.

Definition plain_ok (x : nat) (s : fstmt) : Prop :=
  reachable false s = true -> plain s -> forall st st', top x st -> flow s st = FOk st' -> top_ok x (writes1 s) st st'.
Lemma plain_seq x l : Forall (plain_ok x) l -> forallb (reachable false) l = true -> plains l ->
  forall st st', top x st -> fseq flow l st = FOk st' -> top_ok x (writes l) st st'.
Proof.
  induction 1 as [|s l Hs Hl IH]; intros Hr P st st' T E.
  - cbn in E. injection E as <-. apply top_refl; [done|]. intros tr H. by inversion H.
  - cbn [forallb] in Hr. apply andb_true_iff in Hr as [Hr1 Hr2]. destruct P as [Ps Pl]. cbn [fseq] in E. fold (fseq flow) in E.
    destruct (flow s st) as [st1| |] eqn:E1; [|done..]. cbn [fbind] in E.
    pose proof (Hs Hr1 Ps _ _ T E1) as S1. eapply top_seq; [|exact S1|apply IH; [done|done|apply S1|done]].
    intros tr H. inversion H; subst. eauto.
Qed.
Lemma plain_ok_all x s : plain_ok x s.
Proof.
  induction s as [s IH] using fstmt_ind'. intros Hr P st st' T E. destruct s as [y|a b|bodies tail].
  - apply top_step; [done|]. by apply inner_ok_all; [..|apply T|].
  - apply top_step; [done|]. apply inner_ok_all; [exact Hr|exact P|apply T|done].
  - destruct IH as [IHb IHt]. cbn [reachable negb orb] in Hr. apply andb_true_iff in Hr as [Hr Hrt]. cbn [andb] in Hr.
    cbn [plain] in P. destruct P as [Pb Pt]. cbn [flow] in E.
    destruct ((fix go l st := match l with [] => FOk st | body :: r => fbind (fseq flow body st) (fun st => go r (pop st)) end)
        bodies (push st)) as [st1| |] eqn:E1; [|done..]. cbn [fbind] in E.
    assert (S1 : top_ok x (writes_all bodies) (push st) st1).
    { apply top_push in T. revert E1 T. generalize (push st). clear st E. induction IHb as [|b l Hb Hl IHl]; intros st E T.
      + injection E as <-. apply top_refl; [done|]. intros tr H. by inversion H.
      + cbn [forallb] in Hr. apply andb_true_iff in Hr as [Hr1 Hr2].
        destruct Pb as [Pb Pl]. destruct (fseq flow b st) as [st2| |] eqn:E1; [|done..]. cbn [fbind] in E.
        pose proof (plain_seq x b Hb Hr1 Pb _ _ T E1) as S1.
        eapply top_seq; [|exact S1|eapply (top_pre _ _ _ (pop st2)); [done|]; apply IHl; [done|done|exact E|apply top_pop, S1]].
        intros tr H. inversion H; subst. eauto. }
    assert (S2 : top_ok x (writes_tail tail) st1 st').
    { destruct tail as [[a b]|].
      - destruct Pt as [<- Pa]. apply andb_true_iff in Hrt as [Hra _]. apply top_step; [apply S1|]. apply tail_ok; [|done|done|apply S1|done].
        apply Forall_forall. intros. apply inner_ok_all.
      - injection E as <-. apply top_refl; [apply S1|]. intros tr H. by inversion H. }
    eapply (top_pre _ _ _ (push st)); [done|]. eapply top_seq; [|exact S1|exact S2].
    intros tr H. inversion H; subst. eauto.
Qed.

Lemma at_most_once l st x tr : forallb (reachable false) l = true -> Forall plain l -> flow_template l = FOk st -> writes l tr -> (count x tr <= 1)%nat.
Proof.
  intros Hr P E W. unfold flow_template in E.
  assert (T : top x (Flow [] 0 ∅)).
  { split; [split_and!|constructor]; cbn; [split; [constructor|]; intros d; cbn; by rewrite lookup_empty|constructor|]. intros d i. by rewrite lookup_empty. }
  destruct (plain_seq x l) with (st := Flow [] 0 ∅) (st' := st) as (_ & _ & N); [|done|clear -P; induction P; cbn; auto|done|done|].
  - apply Forall_forall. intros. apply plain_ok_all.
  - cbn in N. destruct N as [_ N]; [by rewrite lookup_empty|]. by apply N.
Qed.

(** ** No panic *)

(** Inside an unknown condition no condition that was there before is removed; outside, there may be
    any number. *)
Definition len_ok (inside : bool) (s : fstmt) : Prop := reachable inside s = true -> forall st,
  match flow s st with
  | FOk st' => if inside then (length (f_conds st) <= length (f_conds st'))%nat else True
  | Multiple => True
  | Panic => False
  end.
Lemma len_seq inside l : Forall (len_ok inside) l -> forallb (reachable inside) l = true -> forall st,
  match fseq flow l st with
  | FOk st' => if inside then (length (f_conds st) <= length (f_conds st'))%nat else True
  | Multiple => True
  | Panic => False
  end.
Proof.
  induction 1 as [|s l Hs Hl IH]; intros Hr st; [cbn; by destruct inside|].
  cbn [forallb] in Hr. apply andb_true_iff in Hr as [Hr1 Hr2]. cbn [fseq]. fold (fseq flow).
  specialize (Hs Hr1 st). destruct (flow s st) as [st1| |]; [|done..]. cbn [fbind].
  specialize (IH Hr2 st1). destruct (fseq flow l st1); [|done..]. destruct inside; [lia|done].
Qed.
Lemma len_conditional a b st : Forall (len_ok true) a -> forallb (reachable true) a = true ->
  match b with Some b => Forall (len_ok true) b /\ forallb (reachable true) b = true | None => True end ->
  match conditional flow a b st with
  | FOk st' => (length (f_conds st) <= length (f_conds st'))%nat
  | Multiple => True
  | Panic => False
  end.
Proof.
  intros Ha Hra Hb. unfold conditional. pose proof (len_seq true a Ha Hra (push st)) as H1.
  destruct (fseq flow a (push st)) as [st1| |]; [|done..]. cbn in H1. rewrite app_length in H1. cbn in H1. cbn [fbind].
  assert (Hp : forall st3, (length (f_conds st) + 1 <= length (f_conds st3))%nat -> (length (f_conds st) <= length (f_conds (pop st3)))%nat).
  { intros st3 H. cbn. rewrite take_length. lia. }
  destruct b as [b|]; [|by apply Hp]. unfold flip_last.
  destruct (last (f_conds st1)) as [[j b0]|] eqn:El; [|apply last_None in El; rewrite El in H1; cbn in H1; lia].
  cbn [fbind]. set (st2 := Flow _ _ _).
  assert (H2 : length (f_conds st2) = length (f_conds st1)). { cbn. rewrite app_length, take_length. cbn. lia. }
  destruct Hb as [Hb Hrb]. pose proof (len_seq true b Hb Hrb st2) as H3. destruct (fseq flow b st2) as [st3| |]; [|done..].
  cbn [fbind]. apply Hp. clearbody st2. cbn beta iota in H3. lia.
Qed.
Lemma len_ok_all s inside : len_ok inside s.
Proof.
  revert inside. induction s as [s IH] using fstmt_ind'. intros inside Hr st.
  assert (HF : forall i l, Forall (fun s => forall inside, len_ok inside s) l -> Forall (len_ok i) l).
  { intros i l H. eapply Forall_impl; [exact H|]. auto. }
  destruct s as [y|a b|bodies tail].
  - cbn. unfold write. destruct (assign _ _) as [[d|]|]; [|done..]. cbn. by destruct inside.
  - destruct IH as [IHa IHb]. cbn [reachable] in Hr. apply andb_true_iff in Hr as [Hra Hrb]. cbn [flow].
    pose proof (len_conditional a b st (HF _ _ IHa) Hra) as H. destruct (conditional flow a b st).
    + destruct inside; [|done]. apply H. destruct b; [by split; [apply HF|]|done].
    + done.
    + apply H. destruct b; [by split; [apply HF|]|done].
  - destruct IH as [IHb IHt]. cbn [reachable] in Hr. apply andb_true_iff in Hr as [Hr Hrt]. apply andb_true_iff in Hr as [Hlen Hrb].
    cbn [flow].
    assert (H1 : match (fix go l st := match l with [] => FOk st | body :: r => fbind (fseq flow body st) (fun st => go r (pop st)) end)
       bodies (push st) with FOk st1 => if inside then (length (f_conds st) <= length (f_conds st1))%nat else True | Multiple => True | Panic => False end).
    { destruct inside.
      - destruct bodies as [|b [|b2 bodies]]; [| |done].
        + cbn. rewrite app_length. lia.
        + apply Forall_inv in IHb. cbn [forallb] in Hrb. apply andb_true_iff in Hrb as [Hrb _].
          pose proof (len_seq true b (HF _ _ IHb) Hrb (push st)) as H. destruct (fseq flow b (push st)) as [st1| |]; [|done..].
          cbn in H |- *. rewrite app_length in H. cbn in H. rewrite take_length. lia.
      - clear Hlen. generalize (push st). induction IHb as [|b l Hb Hl IHl]; intros st0; [done|].
        cbn [forallb] in Hrb. apply andb_true_iff in Hrb as [Hrb Hrl].
        pose proof (len_seq false b (HF _ _ Hb) Hrb st0) as H. destruct (fseq flow b st0) as [st1| |]; [|done..]. cbn [fbind].
        by apply IHl. }
    match type of H1 with match ?m with _ => _ end => destruct m as [st1| |] end; [|done..]. cbn [fbind].
    destruct tail as [[a b]|]; [|done]. apply andb_true_iff in Hrt as [Hra Hrb']. destruct IHt as [IHa IHb'].
    pose proof (len_conditional a None st1 (HF _ _ IHa) Hra I) as H2. destruct (conditional flow a None st1) as [st2| |]; [|done..]. cbn [fbind].
    pose proof (len_conditional b None st2 (HF _ _ IHb') Hrb' I) as H3. destruct (conditional flow b None st2) as [st3| |]; [|done..].
    destruct inside; [lia|done].
Qed.
Lemma no_panic l : forallb (reachable false) l = true -> flow_template l <> Panic.
Proof.
  intros Hr E. unfold flow_template in E. pose proof (len_seq false l ltac:(apply Forall_forall; intros; apply len_ok_all) Hr (Flow [] 0 ∅)) as H.
  by rewrite E in H.
Qed.

(** ** Code without loops that is refused *)

(** An execution exists. *)
Lemma writes_exists_all s : loop_free s = true -> exists tr, writes1 s tr.
Proof.
  induction s as [s IH] using fstmt_ind'. intros L. destruct s as [y|a b|bodies tail]; [by eexists; constructor| |done].
  destruct IH as [IHa _]. cbn [loop_free] in L. apply andb_true_iff in L as [La _].
  assert (exists tr, writes a tr) as [tr H]; [|exists tr; by apply writes_then].
  induction IHa as [|s l Hs Hl IHl]; [eexists; constructor|]. cbn in La. apply andb_true_iff in La as [L1 L2].
  destruct (Hs L1) as [t1 H1]. destruct (IHl L2) as [t2 H2]. eexists. by apply writes_cons.
Qed.
Lemma writes_exists l : forallb loop_free l = true -> exists tr, writes l tr.
Proof.
  induction l as [|s l IH]; intros L; [eexists; constructor|]. cbn in L. apply andb_true_iff in L as [L1 L2].
  destruct (writes_exists_all s L1) as [t1 H1]. destruct (IH L2) as [t2 H2]. eexists. by apply writes_cons.
Qed.

(** Code that changes what is known of a signal assigns it in some execution, and then the signal is
    known to be assigned under the current conditions at least, unless it was assigned in the other
    branch of the last one. *)
Definition moved (x : nat) (wr : list nat -> Prop) (st st' : fstate) : Prop :=
  let c := f_conds st in let s := f_signals st !! x in let s' := f_signals st' !! x in
  s' = s \/ ((exists tr, wr tr /\ (1 <= count x tr)%nat) /\
    exists d, s' = Some d /\ (c `prefix_of` d \/ exists q i b, c = q ++ [(i, b)] /\ s = Some (q ++ [(i, negb b)]) /\ d = q)).
Definition moves (x : nat) (s : fstmt) : Prop := loop_free s = true -> forall st st', fresh x st -> flow s st = FOk st' -> moved x (writes1 s) st st'.
Lemma assign_moves s c d : assign s c = Some (Some d) ->
  c `prefix_of` d \/ exists q i b, c = q ++ [(i, b)] /\ s = Some (q ++ [(i, negb b)]) /\ d = q.
Proof.
  intros E. destruct s as [old|]; [|injection E as <-; by left].
  assert (No : old <> []) by (intros ->; done). assert (Nc : c <> []) by (intros ->; by destruct old).
  unfold assign in E. destruct old as [|o old]; [done|]. destruct c as [|e c]; [done|].
  destruct (first_diff 0 (o :: old) (e :: c)) as [[k same]|] eqn:D; [|done]. destruct same; [|done].
  apply first_diff_some in D as (p & [i b] & [j b'] & r1 & r2 & E1 & E2 & Hn & -> & Hs). symmetry in Hs. apply bool_decide_eq_true in Hs. cbn in Hs. subst j.
  rewrite E1, E2 in *. destruct (decide _) as [[H1 H2]|_]; [|injection E as <-; by left]. injection E as <-. right.
  rewrite H2, Nat.min_id in *. rewrite !app_length in *. cbn [length plus] in *.
  assert (length r1 = 0)%nat by lia. assert (length r2 = 0)%nat by lia. destruct r1; [|done]. destruct r2; [|done].
  exists p, i, b'. split_and!; [done| |].
  - assert (b = negb b') as -> by (destruct b, b'; cbn; congruence). done.
  - cbn [length]. rewrite Nat.add_sub. by rewrite take_app.
Qed.
Lemma moved_seq x l : Forall (moves x) l -> forallb loop_free l = true -> forall st st', fresh x st -> fseq flow l st = FOk st' -> moved x (writes l) st st'.
Proof.
  induction 1 as [|s l Hs Hl IH]; intros Hlf st st' F E.
  - cbn in E. injection E as <-. by left.
  - cbn [forallb] in Hlf. apply andb_true_iff in Hlf as [L1 L2]. cbn [fseq] in E. fold (fseq flow) in E.
    destruct (flow s st) as [st1| |] eqn:E1; [|done..]. cbn [fbind] in E.
    pose proof (flow_ok_all x s L1 _ _ F E1) as S1. pose proof (step_fresh _ _ _ _ F S1) as F1.
    pose proof (Hs L1 _ _ F E1) as M1. pose proof (IH L2 _ _ F1 E) as M2.
    assert (Hfl : Forall (flow_ok x) l) by (apply Forall_forall; intros; apply flow_ok_all).
    pose proof (seq_ok x l Hfl L2 _ _ F1 E) as S2.
    destruct S1 as (C1 & _ & _ & B1 & R1). destruct S2 as (_ & _ & _ & B2 & _). unfold moved in *. rewrite C1 in *.
    destruct (writes_exists l L2) as [tl Htl]. destruct (writes_exists_all s L1) as [ts Hts].
    destruct (decide (f_signals st1 !! x = f_signals st !! x)) as [E0|E0].
    + rewrite E0 in *. destruct M2 as [M2|((tr & W & Hc) & M2)]; [by left|right]. split; [|done].
      exists (ts ++ tr). split; [by apply writes_cons|]. rewrite count_app. lia.
    + destruct M1 as [M1|((tr & W & Hc) & M1)]; [done|].
      destruct (free_dec (f_signals st !! x) (f_conds st)) as [Hf|Hb]; [|destruct (B1 Hb); congruence].
      destruct (R1 Hf) as [[? _]|(d & Ed & _ & K & _)]; [congruence|]. rewrite Ed in B2. destruct (B2 (near_blocked _ _ _ K)) as [E2 _].
      rewrite E2. rewrite <- Ed. right. split; [|done]. exists (tr ++ tl). split; [by apply writes_cons|]. rewrite count_app. lia.
Qed.
Lemma moves_all x s : moves x s.
Proof.
  induction s as [s IH] using fstmt_ind'. intros Hlf st st' F E. destruct s as [y|a b|bodies tail]; [| |done].
  - cbn in E. unfold write in E. destruct (assign (f_signals st !! y) (f_conds st)) as [[d|]|] eqn:Ea; [|done..]. injection E as <-.
    unfold moved. cbn. destruct (decide (x = y)) as [->|Hxy]; [|left; by rewrite lookup_insert_ne]. right. rewrite lookup_insert. split.
    + exists [y]. split; [constructor|]. unfold count. cbn [filter list_filter]. rewrite decide_True by done. done.
    + exists d. split; [done|]. by apply assign_moves.
  - destruct IH as [IHa IHb]. cbn [flow] in E. unfold conditional in E. cbn [loop_free] in Hlf. apply andb_true_iff in Hlf as [La Lb].
    destruct (fseq flow a (push st)) as [st1| |] eqn:E1; [|done..]. cbn [fbind] in E.
    assert (Hfa : Forall (flow_ok x) a) by (apply Forall_forall; intros; apply flow_ok_all).
    pose proof (seq_ok x a Hfa La _ _ (fresh_push _ _ F) E1) as S1. pose proof (step_fresh _ _ _ _ (fresh_push _ _ F) S1) as F1.
    pose proof (moved_seq x a IHa La _ _ (fresh_push _ _ F) E1) as M1. destruct S1 as (C1 & L1 & _).
    unfold moved in M1. cbn [push f_conds f_counter f_signals] in *.
    set (c := f_conds st) in *. set (n := f_counter st) in *. set (s := f_signals st !! x) in *.
    assert (Hs : forall q i b', c ++ [(n, true)] = q ++ [(i, b')] -> s = Some (q ++ [(i, negb b')]) -> False).
    { intros q i b' Eq Es. apply app_inj_tail in Eq as [<- [= <- <-]]. destruct F as [_ F]. specialize (F _ Es).
      apply Forall_app in F as [_ F]. apply Forall_inv in F. cbn in F. fold n in F. lia. }
    assert (M1' : f_signals st1 !! x = s \/ (exists tr, writes a tr /\ (1 <= count x tr)%nat) /\
       exists d, f_signals st1 !! x = Some d /\ c ++ [(n, true)] `prefix_of` d).
    { destruct M1 as [M1|(W & d & Ed & [P|(q & i & b' & Eq & Es & _)])]; [by left|right; eauto|exfalso; eauto]. }
    clear M1. destruct b as [b|].
    + unfold flip_last in E. rewrite C1 in E. rewrite last_snoc in E. rewrite take_snoc in E. cbn [fbind] in E.
      set (st2 := Flow (c ++ [(n, false)]) (f_counter st1) (f_signals st1)) in *.
      assert (F2 : fresh x st2).
      { split; cbn; [|apply F1]. destruct F1 as [F1' _]. rewrite C1 in F1'. apply Forall_app in F1' as [F1' F1'']. apply Forall_app.
        split; [done|]. constructor; [|constructor]. apply Forall_inv in F1''. exact F1''. }
      destruct (fseq flow b st2) as [st3| |] eqn:E2; [|done..]. cbn [fbind] in E. injection E as <-.
      pose proof (moved_seq x b IHb Lb _ _ F2 E2) as M2. unfold moved in *. cbn [st2 pop f_conds f_counter f_signals] in *. fold c n s.
      destruct M2 as [M2|((tr & W & Hc) & d & Ed & M2)].
      * rewrite M2. destruct M1' as [M1|((tr & W & Hc) & d & Ed & P)]; [by left|right]. split; [exists tr; split; [by apply writes_then|done]|].
        exists d. split; [done|]. left. etrans; [|exact P]. by eexists.
      * right. split; [exists tr; split; [by apply writes_else|done]|]. exists d. split; [done|]. left.
        destruct M2 as [P|(q & i & b' & Eq & Es & ->)]; [etrans; [|exact P]; by eexists|].
        apply app_inj_tail in Eq as [<- _]. done.
    + injection E as <-. unfold moved. cbn [pop f_signals]. fold c s. destruct M1' as [M1|((tr & W & Hc) & d & Ed & P)]; [by left|right].
      split; [exists tr; split; [by apply writes_then|done]|]. exists d. split; [done|]. left. etrans; [|exact P]. by eexists.
Qed.

Definition refused (l : list nat -> Prop) (st : fstate) : Prop := exists x,
  (exists tr, l tr /\ (2 <= count x tr)%nat) \/
  (~ free (f_signals st !! x) (f_conds st) /\ exists tr, l tr /\ (1 <= count x tr)%nat).
Definition refusal (s : fstmt) : Prop := loop_free s = true -> forall st, (forall x, fresh x st) -> flow s st = Multiple -> refused (writes1 s) st.
Lemma refusal_seq l : Forall refusal l -> forallb loop_free l = true -> forall st, (forall x, fresh x st) -> fseq flow l st = Multiple -> refused (writes l) st.
Proof.
  induction 1 as [|s l Hs Hl IH]; intros Hlf st F E; [done|].
  cbn [forallb] in Hlf. apply andb_true_iff in Hlf as [L1 L2]. cbn [fseq] in E. fold (fseq flow) in E.
  destruct (writes_exists l L2) as [tl Htl]. destruct (writes_exists_all s L1) as [ts Hts].
  destruct (flow s st) as [st1| |] eqn:E1; cbn [fbind] in E; [| |done].
  - assert (F1 : forall x, fresh x st1) by (intros x; eapply step_fresh; [apply F|by apply (flow_ok_all x s)]).
    destruct (IH L2 _ F1 E) as [x [(tr & W & Hc)|(B & tr & W & Hc)]]; exists x.
    + left. exists (ts ++ tr). split; [by apply writes_cons|]. rewrite count_app. lia.
    + destruct (flow_ok_all x s L1 _ _ (F x) E1) as (C1 & _). rewrite C1 in B.
      destruct (moves_all x s L1 _ _ (F x) E1) as [M|((t1 & W1 & Hc1) & _)].
      * right. rewrite M in B. split; [done|]. exists (ts ++ tr). split; [by apply writes_cons|]. rewrite count_app. lia.
      * left. exists (t1 ++ tr). split; [by apply writes_cons|]. rewrite count_app. lia.
  - destruct (Hs L1 _ F E1) as [x [(tr & W & Hc)|(B & tr & W & Hc)]]; exists x; [left|right; split; [done|]];
      exists (tr ++ tl); (split; [by apply writes_cons|]); rewrite count_app; lia.
Qed.
Lemma refusal_all s : refusal s.
Proof.
  induction s as [s IH] using fstmt_ind'. intros Hlf st F E. destruct s as [y|a b|bodies tail]; [| |done].
  - cbn in E. unfold write in E. destruct (assign (f_signals st !! y) (f_conds st)) as [[d|]|] eqn:Ea; [done| |].
    + exists y. right. split.
      * intros Hf. apply assign_free in Hf as (d & Ed & _). congruence.
      * exists [y]. split; [constructor|]. unfold count. cbn [filter list_filter]. rewrite decide_True by done. done.
    + exists y. right. split.
      * intros Hf. apply assign_free in Hf as (d & Ed & _). congruence.
      * exists [y]. split; [constructor|]. unfold count. cbn [filter list_filter]. rewrite decide_True by done. done.
  - destruct IH as [IHa IHb]. cbn [flow] in E. unfold conditional in E. cbn [loop_free] in Hlf. apply andb_true_iff in Hlf as [La Lb].
    assert (Fp : forall x, fresh x (push st)) by (intros; by apply fresh_push).
    destruct (fseq flow a (push st)) as [st1| |] eqn:E1; cbn [fbind] in E; [| |done].
    + destruct b as [b|]; [|done].
      assert (S1 : forall x, step_ok x (writes a) (push st) st1).
      { intros x. apply seq_ok; [apply Forall_forall; intros; apply flow_ok_all|done|done|done]. }
      assert (F1 : forall x, fresh x st1) by (intros x; exact (step_fresh _ _ _ _ (Fp x) (S1 x))).
      pose proof (proj1 (S1 0%nat)) as C1. cbn [push f_conds] in C1.
      unfold flip_last in E. rewrite C1 in E. rewrite last_snoc in E. rewrite take_snoc in E. cbn [fbind] in E.
      set (c := f_conds st) in *. set (n := f_counter st) in *.
      set (st2 := Flow (c ++ [(n, false)]) (f_counter st1) (f_signals st1)) in *.
      assert (F2 : forall x, fresh x st2).
      { intros x. split; cbn; [|apply F1]. destruct (F1 x) as [F1' _]. rewrite C1 in F1'. apply Forall_app in F1' as [F1' F1'']. apply Forall_app.
        split; [done|]. constructor; [|constructor]. apply Forall_inv in F1''. exact F1''. }
      destruct (fseq flow b st2) as [st3| |] eqn:E2; cbn [fbind] in E; [done| |done].
      destruct (refusal_seq b IHb Lb _ F2 E2) as [x [(tr & W & Hc)|(B & tr & W & Hc)]]; exists x.
      * left. exists tr. split; [by apply writes_else|done].
      * right. split; [|exists tr; split; [by apply writes_else|done]]. cbn [st2 f_conds f_signals] in B.
        assert (Hm : Forall (moves x) a) by (apply Forall_forall; intros; apply moves_all).
        destruct (moved_seq x a Hm La _ _ (Fp x) E1) as [M|(_ & d & Ed & M)]; cbn [push f_conds f_signals] in M.
        -- rewrite M in B. intros Hf. apply B. by apply free_snoc.
        -- exfalso. apply B. rewrite Ed. right. destruct M as [[r ->]|(q & i & b' & Eq & Es & _)].
           ++ exists c, n, true, r, []. split; [|done]. fold c n. by rewrite <- app_assoc.
           ++ apply app_inj_tail in Eq as [<- [= <- <-]]. destruct (F x) as [_ Fx]. specialize (Fx _ Es).
              apply Forall_app in Fx as [_ Fx]. apply Forall_inv in Fx. cbn in Fx. lia.
    + destruct (refusal_seq a IHa La _ Fp E1) as [x [(tr & W & Hc)|(B & tr & W & Hc)]]; exists x.
      * left. exists tr. split; [by apply writes_then|done].
      * right. split; [|exists tr; split; [by apply writes_then|done]]. intros Hf. apply B. cbn. by apply free_snoc.
Qed.
Lemma refused_twice l : forallb loop_free l = true -> flow_template l = Multiple -> exists x tr, writes l tr /\ (2 <= count x tr)%nat.
Proof.
  intros L E. assert (F : forall x, fresh x (Flow [] 0 ∅)) by (intros x; split; [constructor|]; intros d; cbn; by rewrite lookup_empty).
  destruct (refusal_seq l) with (st := Flow [] 0 ∅) as [x [(tr & W & Hc)|(B & _)]]; [apply Forall_forall; intros; apply refusal_all|done|done|done|eauto|].
  exfalso. apply B. left. cbn. by rewrite lookup_empty.
Qed.
