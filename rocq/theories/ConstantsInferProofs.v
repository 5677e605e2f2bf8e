(** In a function without shadowing, a variable marked as constant keeps its initial value as long as it is visible. *)
From stdpp Require Import prelude gmap strings.
From Coq Require Import ZArith.
From Verif Require Import ConstantsModel ConstantsSpec ConstantsProofs.
Open Scope string_scope.
Open Scope list_scope.
Open Scope nat_scope.

(** ** Names *)
Lemma uses_mentions N e y : uses N e = true -> mentions y e -> exists s, (y, s) ∈ N.
Proof.
  assert (G : forall l, Forall (fun e => uses N e = true -> mentions y e -> exists s, (y, s) ∈ N) l ->
    forallb (uses N) l = true -> any (mentions y) l -> exists s, (y, s) ∈ N).
  { induction 1 as [|e1 l He _ IH]; cbn; intros Hu Hm; [done|]. apply andb_prop in Hu as (H1 & H2). destruct Hm; auto. }
  induction e as [z|o l r Hl Hr|o e He|c t f Hc Ht Hf|x idx Hi|f l Hl|l Hl|v d Hv Hd] using expr_ind'; cbn; intros Hu Hm; try done.
  - apply andb_prop in Hu as (H1 & H2). destruct Hm; auto.
  - auto.
  - apply andb_prop in Hu as (Hu & H3). apply andb_prop in Hu as (H1 & H2). destruct Hm as [|[|]]; auto.
  - apply andb_prop in Hu as (H1 & H2). destruct Hm as [->|Hm]; [|eauto].
    apply existsb_exists in H1 as ([z s] & Hin & H1). apply andb_prop in H1 as (H1 & _). apply bool_decide_eq_true in H1. cbn in H1. subst z.
    exists s. by apply elem_of_list_In.
  - eauto.
  - eauto.
  - apply andb_prop in Hu as (H1 & H2). destruct Hm; auto.
Qed.
Lemma fresh_not N x : fresh N x = true -> forall s, (x, s) ∉ N.
Proof.
  unfold fresh. intros H s Hin. apply negb_true_iff in H. rewrite <- not_true_iff_false in H. apply H.
  apply existsb_exists. exists (x, s). split; [by apply elem_of_list_In|]. by apply bool_decide_eq_true.
Qed.
Lemma not_fresh N x : fresh N x = false -> exists s, (x, s) ∈ N.
Proof.
  unfold fresh. intros H. apply negb_false_iff in H. apply existsb_exists in H as ([y s] & Hin & Hy).
  apply bool_decide_eq_true in Hy. cbn in Hy. subst. exists s. by apply elem_of_list_In.
Qed.

Section declares_ind.
Context (Q : names -> list string -> list stmt -> names -> Prop)
  (H0 : forall N A, Q N A [] N)
  (H1 : forall N A x c e l N', fresh N x = true -> uses N e = true -> declares ((x, true) :: N) A l = Some N' ->
    Q ((x, true) :: N) A l N' -> Q N A (Declaration x [] c :: Substitution x [] e :: l) N')
  (H2 : forall N A x d ds c l N', fresh N x = true -> declares ((x, false) :: N) (x :: A) l = Some N' ->
    Q ((x, false) :: N) (x :: A) l N' -> Q N A (Declaration x (d :: ds) c :: l) N')
  (H3 : forall N A y e l N', y ∈ A -> uses N e = true -> declares N A l = Some N' -> Q N A l N' -> Q N A (Substitution y [] e :: l) N').
Lemma declares_ind l : forall N A N', declares N A l = Some N' -> Q N A l N'.
Proof.
  remember (length l) as k eqn:Hk. assert (length l <= k) as Hl by lia. clear Hk. revert l Hl.
  induction k as [|k IH]; intros l Hl N A N' H.
  - destruct l; [|cbn in Hl; lia]. cbn in H. injection H as <-. apply H0.
  - destruct l as [|s l]; [cbn in H; injection H as <-; apply H0|]. cbn in Hl. destruct s as [| | | |x dims c|x idx e| | |]; try done; cbn in H.
    + destruct (fresh N x) eqn:Hf; [|done]. cbn in H. destruct (forallb (uses N) dims); [|done]. destruct dims as [|d ds].
      * destruct l as [|[| | | | |y [|] e| | |] l]; try done. case_bool_decide as Hy; [|done]. subst y. cbn in H.
        destruct (uses N e) eqn:Hu; [|done]. apply H1; auto. apply IH; [cbn in Hl; lia|done].
      * apply H2; auto. apply IH; [lia|done].
    + destruct idx; [|done]. case_bool_decide as Hy; [|done]. cbn in H. destruct (uses N e) eqn:Hu; [|done].
      apply H3; auto. apply IH; [lia|done].
Qed.
End declares_ind.

Definition arrays_in (A : list string) (N : names) : Prop := forall y, y ∈ A -> (y, false) ∈ N.
Lemma arrays_cons A N p : arrays_in A N -> arrays_in A (p :: N).
Proof. intros H y Hy. right. auto. Qed.
Lemma arrays_add A N x : arrays_in A N -> arrays_in (x :: A) ((x, false) :: N).
Proof. intros H y Hy. inversion Hy; subst; [left|right; auto]. Qed.

Lemma declares_grow l N A N' : declares N A l = Some N' -> N ⊆ N'.
Proof.
  revert l N A N'. apply (declares_ind (fun N A l N' => N ⊆ N')).
  - done.
  - intros N A x c e l N' _ _ _ IH p Hp. apply IH. by right.
  - intros N A x d ds c l N' _ _ IH p Hp. apply IH. by right.
  - done.
Qed.
Lemma declares_atomic l N A N' : declares N A l = Some N' -> Forall atomic l.
Proof. revert l N A N'. apply (declares_ind (fun N A l N' => Forall atomic l)); intros; repeat constructor; done. Qed.
(** visible names are not touched by declarations, but for the arrays declared there *)
Lemma declares_touch l N A N' : declares N A l = Some N' -> forall y s, (y, s) ∈ N -> touches_in y l -> y ∈ A.
Proof.
  revert l N A N'. apply (declares_ind (fun N A l N' => forall y s, (y, s) ∈ N -> touches_in y l -> y ∈ A)).
  - done.
  - intros N A x c e l N' Hf _ _ IH y s Hy Ht. cbn in Ht. assert (y <> x) by (intros ->; by apply (fresh_not _ _ Hf s)).
    destruct Ht as [?|[?|?]]; [done..|]. eapply IH; [right; exact Hy|done].
  - intros N A x d ds c l N' Hf _ IH y s Hy Ht. cbn in Ht. assert (y <> x) by (intros ->; by apply (fresh_not _ _ Hf s)).
    destruct Ht as [?|?]; [done|]. assert (y ∈ x :: A) as Hin by (eapply IH; [right; exact Hy|done]). by inversion Hin.
  - intros N A y e l N' Hy _ _ IH z s Hz Ht. cbn in Ht. destruct Ht as [->|?]; [done|]. eauto.
Qed.
Lemma declares_shape l N A N' : declares N A l = Some N' -> arrays_in A N ->
  forall pre x idx e post, l = pre ++ Substitution x idx e :: post -> (x, false) ∉ N' ->
    idx = [] /\ (exists pre1 c, pre = pre1 ++ [Declaration x [] c]) /\ ~ mentions x e /\
    forall y, y = x \/ mentions y e -> (exists s, (y, s) ∈ N') /\ ((y, false) ∉ N' -> ~ touches_in y post).
Proof.
  revert l N A N'. apply (declares_ind (fun N A l N' => arrays_in A N ->
    forall pre x idx e post, l = pre ++ Substitution x idx e :: post -> (x, false) ∉ N' ->
    idx = [] /\ (exists pre1 c, pre = pre1 ++ [Declaration x [] c]) /\ ~ mentions x e /\
    forall y, y = x \/ mentions y e -> (exists s, (y, s) ∈ N') /\ ((y, false) ∉ N' -> ~ touches_in y post))).
  - intros N A _ pre x idx e post E. destruct pre; done.
  - intros N A x c e l N' Hf Hu Hd IH HA pre x' idx e' post E Hx. pose proof (declares_grow _ _ _ _ Hd) as Hg.
    destruct pre as [|s1 pre]; [done|]. injection E as <- E. destruct pre as [|s2 pre].
    + injection E as <- <- <- <-. split; [done|]. split; [by exists [], c|]. split.
      { intros Hm. destruct (uses_mentions _ _ _ Hu Hm) as (s & Hs). by apply (fresh_not _ _ Hf s). }
      intros y Hy. assert (exists s, (y, s) ∈ (x, true) :: N) as (s & Hs).
      { destruct Hy as [->|Hm]; [exists true; left|]. destruct (uses_mentions _ _ _ Hu Hm) as (s & Hs). exists s. by right. }
      split; [eauto|]. intros Hn Ht. apply Hn. apply Hg. right. apply HA. by apply (declares_touch _ _ _ _ Hd y s).
    + injection E as <- ->. destruct (IH (arrays_cons _ _ _ HA) _ _ _ _ _ eq_refl Hx) as (H1 & (pre1 & c1 & ->) & H2 & H3).
      split; [done|]. split; [|done]. by exists (Declaration x [] c :: Substitution x [] e :: pre1), c1.
  - intros N A x d ds c l N' Hf Hd IH HA pre x' idx e' post E Hx. destruct pre as [|s1 pre]; [done|]. injection E as <- ->.
    destruct (IH (arrays_add _ _ _ HA) _ _ _ _ _ eq_refl Hx) as (H1 & (pre1 & c1 & ->) & H2 & H3).
    split; [done|]. split; [|done]. by exists (Declaration x (d :: ds) c :: pre1), c1.
  - intros N A y e l N' Hy Hu Hd IH HA pre x' idx e' post E Hx. destruct pre as [|s1 pre].
    + injection E as <- <- <- <-. exfalso. apply Hx. apply (declares_grow _ _ _ _ Hd). by apply HA.
    + injection E as <- ->. destruct (IH HA _ _ _ _ _ eq_refl Hx) as (H1 & (pre1 & c1 & ->) & H2 & H3).
      split; [done|]. split; [|done]. by exists (Substitution y [] e :: pre1), c1.
Qed.

(** ** Environments *)
Definition known (E : env bool) (N : names) : Prop :=
  forall x s, (x, s) ∈ N -> exists b, get_variable E x = Some b /\ (b = true -> s = true).
Definition present (U : string -> Prop) (E E' : env bool) : Prop :=
  Forall2 (fun b c : gmap string bool => forall x, U x -> b !! x = None <-> c !! x = None) E E'.
Definition falling (U : string -> Prop) (E E' : env bool) : Prop :=
  forall x, U x -> get_variable E' x = Some true -> get_variable E x = Some true.
Notation within N := (fun x => exists s : bool, (x, s) ∈ (N : names)).
Definition everything (x : string) : Prop := True.
Lemma present_refl U E : present U E E.
Proof. apply Forall_Forall2_diag. apply Forall_forall. done. Qed.
Lemma present_trans U E F G : present U E F -> present U F G -> present U E G.
Proof.
  intros H. revert G. induction H as [|b c E F Hb _ IH]; intros G H'; inversion H'; subst; constructor; [|by apply IH].
  intros x Hx. rewrite Hb by done. auto.
Qed.
Lemma present_mono (U V : string -> Prop) E F : (forall x, U x -> V x) -> present V E F -> present U E F.
Proof. intros H HS. eapply Forall2_impl; [exact HS|]. intros b c Hb x Hx. apply Hb. auto. Qed.
Lemma set_spec E x a b : get_variable E x = Some b -> exists E', set_variable E x a = Some E' /\ get_variable E' x = Some a /\
  (forall y, y <> x -> get_variable E' y = get_variable E y) /\ present everything E E'.
Proof.
  induction E as [|m E IH]; cbn; [done|]. destruct (m !! x) as [b'|] eqn:Hm; intros H.
  - eexists. split; [done|]. cbn. rewrite lookup_insert. split; [done|]. split.
    + intros y Hy. cbn. by rewrite lookup_insert_ne.
    + constructor; [|apply present_refl]. intros y _. destruct (decide (x = y)) as [<-|Hn]; [|by rewrite lookup_insert_ne].
      rewrite lookup_insert, Hm. done.
  - destruct (IH H) as (E' & -> & H1 & H2 & H3). cbn. eexists. split; [done|]. cbn. rewrite Hm. split; [done|]. split.
    + intros y Hy. cbn. by rewrite H2.
    + constructor; done.
Qed.
Lemma known_sub E N N' : N ⊆ N' -> known E N' -> known E N.
Proof. intros H HK x s Hx. apply HK. by apply H. Qed.
(** setting a variable to a smaller value *)
Lemma set_known E x a b N : known E N -> get_variable E x = Some b -> (a = true -> b = true) ->
  exists E', set_variable E x a = Some E' /\ get_variable E' x = Some a /\ known E' N /\ falling everything E E' /\ present everything E E'.
Proof.
  intros HK Hx Hab. destruct (set_spec E x a b Hx) as (E' & H1 & H2 & H3 & H4). exists E'. split; [done|]. split; [done|]. split; [|split; [|done]].
  - intros y s Hy. destruct (HK y s Hy) as (c & Hc & Hs). destruct (decide (y = x)) as [->|Hn].
    + exists a. split; [done|]. intros Ha. apply Hs. rewrite Hx in Hc. injection Hc as <-. auto.
    + exists c. by rewrite H3.
  - intros y _ Hy. destruct (decide (y = x)) as [->|Hn]; [|by rewrite <- H3].
    rewrite H2 in Hy. injection Hy as ->. rewrite Hx. by rewrite Hab.
Qed.

Lemma constant_value E N e : known E N -> uses N e = true ->
  exists c, has_constant_value E e = Some c /\ (c = true -> forall y, mentions y e -> get_variable E y = Some true).
Proof.
  intros HK. induction e as [z|o l r Hl Hr|o e He|c t f Hc Ht Hf|x idx Hi|f l Hl|l Hl|v d Hv Hd] using expr_ind'; cbn; intros Hu.
  - exists true. done.
  - apply andb_prop in Hu as (H1 & H2). destruct (Hl H1) as (a & -> & Ha). destruct (Hr H2) as (b & -> & Hb). cbn.
    destruct a; [|by exists false]. exists b. split; [done|]. intros ? y [?|?]; auto.
  - auto.
  - apply andb_prop in Hu as (Hu & H3). apply andb_prop in Hu as (H1 & H2).
    destruct (Hc H1) as (a & -> & Ha). destruct (Ht H2) as (b & -> & Hb). destruct (Hf H3) as (c' & -> & Hc'). cbn.
    destruct a; [|by exists false]. destruct b; [|by exists false]. exists c'. split; [done|]. intros ? y [?|[?|?]]; auto.
  - apply andb_prop in Hu as (H1 & _). apply existsb_exists in H1 as ([y s] & Hin & H1). apply andb_prop in H1 as (H1 & H2).
    apply bool_decide_eq_true in H1. cbn in H1, H2. subst y. apply elem_of_list_In in Hin. destruct (HK x s Hin) as (b & Hb & Hs).
    exists b. split; [done|]. intros ->. specialize (Hs eq_refl). subst s. destruct idx; [|done]. intros y [->|[]]. done.
  - induction Hl as [|e l He _ IH]; [exists true; split; [done|]; intros _ y []|]. cbn in Hu. apply andb_prop in Hu as (H1 & H2).
    destruct (He H1) as (a & -> & Ha). destruct (IH H2) as (b & Eb & Hb). cbn. destruct a; [|by exists false].
    exists b. split; [exact Eb|]. intros ? y [?|?]; auto.
  - by exists false.
  - by exists false.
Qed.

(** ** Declarations *)
Definition flag (E : env bool) (s : stmt) : stmt :=
  match s with Declaration x dims _ => Declaration x dims (default false (get_variable E x)) | _ => s end.
Lemma init_env L l N A N' : declares N A l = Some N' -> forall b R, known (b :: R) N ->
  exists b', foldl (fun E s => match s with
    | Declaration x dims _ => add_variable E x (match dims with [] => true | _ => false end && bool_decide (x ∈ initialized L))
    | _ => E
    end) (b :: R) l = b' :: R /\ known (b' :: R) N' /\ forall x, within N x -> b !! x = b' !! x.
Proof.
  assert (G : forall N b R x c s, fresh N x = true -> known (b :: R) N -> (c = true -> s = true) ->
    known (<[x := c]> b :: R) ((x, s) :: N)).
  { intros N0 b R x c s Hf HK Hcs y t Hy. inversion Hy; subst.
    - exists c. cbn. by rewrite lookup_insert.
    - assert (y <> x) by (intros ->; by apply (fresh_not _ _ Hf t)). destruct (HK y t) as (d & Hd & Ht); [done|].
      exists d. cbn in Hd |- *. by rewrite lookup_insert_ne. }
  revert l N A N'. apply (declares_ind (fun N A l N' => forall b R, known (b :: R) N ->
    exists b', foldl (fun E s => match s with
    | Declaration x dims _ => add_variable E x (match dims with [] => true | _ => false end && bool_decide (x ∈ initialized L))
    | _ => E
    end) (b :: R) l = b' :: R /\ known (b' :: R) N' /\ forall x, within N x -> b !! x = b' !! x)).
  - intros N A b R HK. by exists b.
  - intros N A x c e l N' Hf Hu Hd IH b R HK. destruct (IH _ R (G N b R x (true && bool_decide (x ∈ initialized L)) true Hf HK (fun _ => eq_refl)))
      as (b' & E & HK' & Hp). exists b'. split; [exact E|]. split; [done|]. intros y (s & Hy).
    rewrite <- Hp by (exists s; by right). rewrite lookup_insert_ne; [done|]. intros <-. by apply (fresh_not _ _ Hf s).
  - intros N A x d ds c l N' Hf Hd IH b R HK. destruct (IH _ R (G N b R x (false && bool_decide (x ∈ initialized L)) false Hf HK (fun H => H)))
      as (b' & E & HK' & Hp). exists b'. split; [exact E|]. split; [done|]. intros y (s & Hy).
    rewrite <- Hp by (exists s; by right). rewrite lookup_insert_ne; [done|]. intros <-. by apply (fresh_not _ _ Hf s).
  - intros N A y e l N' Hy Hu Hd IH b R HK. apply (IH b R HK).
Qed.
Lemma initial_step E x e (N Nf : names) : known E Nf -> N ⊆ Nf -> uses N e = true -> within Nf x ->
  exists was remains E1, get_variable E x = Some was /\ has_constant_value E e = Some remains /\
    set_variable E x (was && remains) = Some E1 /\ known E1 Nf /\ falling everything E E1 /\ present everything E E1 /\
    (get_variable E1 x = Some true -> forall y, mentions y e -> get_variable E y = Some true).
Proof.
  intros HK HN Hu (s & Hs). destruct (HK x s Hs) as (was & Hw & _).
  destruct (constant_value E N e (known_sub _ _ _ HN HK) Hu) as (r & Hr & Hm).
  destruct (set_known E x (was && r) was Nf HK Hw) as (E1 & H1 & H2 & H3 & H4 & H5); [intros H; by apply andb_prop in H as (? & _)|].
  exists was, r, E1. repeat (split; [done|]). intros Ht. rewrite H2 in Ht. injection Ht as Ht. apply andb_prop in Ht as (_ & ->). auto.
Qed.
Lemma infer_initial_ok l N A N' : declares N A l = Some N' -> forall Nf, N' ⊆ Nf -> arrays_in A N -> forall E, known E Nf ->
  exists E', infer_initial E l = Some E' /\ known E' Nf /\ falling everything E E' /\ present everything E E' /\
    forall pre x idx e post, l = pre ++ Substitution x idx e :: post -> get_variable E' x = Some true ->
      forall y, mentions y e -> get_variable E y = Some true.
Proof.
  revert l N A N'. apply (declares_ind (fun N A l N' => forall Nf, N' ⊆ Nf -> arrays_in A N -> forall E, known E Nf ->
  exists E', infer_initial E l = Some E' /\ known E' Nf /\ falling everything E E' /\ present everything E E' /\
    forall pre x idx e post, l = pre ++ Substitution x idx e :: post -> get_variable E' x = Some true ->
      forall y, mentions y e -> get_variable E y = Some true)).
  - intros N A Nf _ _ E HK. exists E. split; [done|]. split; [done|]. split; [by intros ?|]. split; [apply present_refl|].
    intros pre x idx e post El. by destruct pre.
  - intros N A x c e l N' Hf Hu Hd IH Nf HN HA E HK. pose proof (declares_grow _ _ _ _ Hd) as Hg.
    destruct (initial_step E x e N Nf HK) as (was & r & E1 & H1 & H2 & H3 & HK1 & HF1 & HP1 & Hm);
      [intros p Hp; apply HN, Hg; by right|done|exists true; apply HN, Hg; left|].
    destruct (IH Nf HN (arrays_cons _ _ _ HA) E1 HK1) as (E' & HE & HK' & HF' & HP' & Hs). exists E'.
    cbn [infer_initial]. rewrite H1. cbn [mbind option_bind]. rewrite H2. cbn [mbind option_bind]. rewrite H3. cbn [mbind option_bind].
    split; [done|]. split; [done|]. split; [intros y Hy Ht; apply HF1, HF'; done|]. split; [by eapply present_trans|].
    intros pre x' idx e' post El Ht y Hy. destruct pre as [|s1 pre]; [done|]. injection El as <- El. destruct pre as [|s2 pre].
    + injection El as <- <- <- <-. apply Hm; [|done]. apply HF'; done.
    + injection El as <- ->. apply HF1; [done|]. by eapply Hs.
  - intros N A x d ds c l N' Hf Hd IH Nf HN HA E HK.
    destruct (IH Nf HN (arrays_add _ _ _ HA) E HK) as (E' & HE & HK' & HF' & HP' & Hs). exists E'. split; [done|]. split; [done|]. split; [done|].
    split; [done|]. intros pre x' idx e' post El. destruct pre as [|s1 pre]; [done|]. injection El as <- ->. by eapply Hs.
  - intros N A y e l N' Hy Hu Hd IH Nf HN HA E HK. pose proof (declares_grow _ _ _ _ Hd) as Hg.
    destruct (initial_step E y e N Nf HK) as (was & r & E1 & H1 & H2 & H3 & HK1 & HF1 & HP1 & Hm);
      [intros p Hp; by apply HN, Hg|done|exists false; apply HN, Hg; by apply HA|].
    destruct (IH Nf HN HA E1 HK1) as (E' & HE & HK' & HF' & HP' & Hs). exists E'.
    cbn [infer_initial]. rewrite H1. cbn [mbind option_bind]. rewrite H2. cbn [mbind option_bind]. rewrite H3. cbn [mbind option_bind].
    split; [done|]. split; [done|]. split; [intros z Hz Ht; apply HF1, HF'; done|]. split; [by eapply present_trans|].
    intros pre x' idx e' post El Ht z Hz. destruct pre as [|s1 pre].
    + injection El as <- <- <- <-. apply Hm; [|done]. apply HF'; done.
    + injection El as <- ->. apply HF1; [done|]. by eapply Hs.
Qed.
Lemma mark_ok l N A N' : declares N A l = Some N' -> forall E, known E N' -> mark E l = Some (flag E <$> l).
Proof.
  revert l N A N'. apply (declares_ind (fun N A l N' => forall E, known E N' -> mark E l = Some (flag E <$> l))).
  - done.
  - intros N A x c e l N' Hf Hu Hd IH E HK. destruct (HK x true) as (b & Hb & _); [apply (declares_grow _ _ _ _ Hd); left|].
    cbn. rewrite Hb, (IH E HK). done.
  - intros N A x d ds c l N' Hf Hd IH E HK. destruct (HK x false) as (b & Hb & _); [apply (declares_grow _ _ _ _ Hd); left|].
    cbn. rewrite Hb, (IH E HK). done.
  - intros N A y e l N' Hy Hu Hd IH E HK. cbn. by rewrite (IH E HK).
Qed.

(** ** Statements *)
(** the same statement up to the flags of its declarations *)
Definition same (s s' : stmt) : Prop :=
  (forall y, touches y s' <-> touches y s) /\ declaring s' = declaring s /\
  forall den1 den2 call n σ, exec results den1 den2 call n σ s' = exec results den1 den2 call n σ s.
Lemma same_refl s : same s s.
Proof. done. Qed.
Lemma same_touches l l' y : Forall2 same l l' -> touches_in y l' <-> touches_in y l.
Proof. induction 1 as [|s s' l l' Hs _ IH]; [done|]. cbn. destruct Hs as (-> & _). by rewrite IH. Qed.
Lemma same_sequence l l' den1 den2 call n σ : Forall2 same l l' ->
  sequence results (exec results den1 den2 call n) σ l' = sequence results (exec results den1 den2 call n) σ l.
Proof.
  intros H. revert σ. induction H as [|s s' l l' Hs _ IH]; intros σ; [done|]. cbn. destruct Hs as (_ & _ & ->).
  destruct (exec results den1 den2 call n σ s) as [o|]; [|done]. destruct (o.2); [done|]. apply IH.
Qed.
Lemma same_loop m (c : state -> option Z) f g σ : (forall σ : state, f σ = g σ) -> loop results m c f σ = loop results m c g σ.
Proof.
  intros H. revert σ. induction m as [|m IH]; intros σ; [done|]. cbn. destruct (c σ) as [z|]; [|done]. destruct (z =? 0)%Z; [done|].
  rewrite H. destruct (g σ) as [o|]; [|done]. destruct (o.2); [done|]. apply IH.
Qed.
Lemma flag_same E l : Forall atomic l -> Forall2 same l (flag E <$> l).
Proof. induction 1 as [|s l Hs _ IH]; [constructor|]. constructor; [|exact IH]. destruct s; try done. Qed.

Fixpoint quiet (t : string -> Prop) (N : names) (l : list stmt) : Prop :=
  match l with
  | [] => True
  | s :: l => exists N1, scoped N s = Some N1 /\ (forall y, within N1 y -> t y -> ~ touches_in y l) /\ quiet t N1 l
  end.
Lemma quiet_mono (t u : string -> Prop) N l : (forall y, u y -> t y) -> quiet t N l -> quiet u N l.
Proof.
  intros H. revert N. induction l as [|s l IH]; intros N; [done|]. intros (N1 & H1 & H2 & H3). exists N1. split; [done|]. split; [|auto].
  intros y Hy Hu. auto.
Qed.
Lemma scoped_grow s : forall N N', scoped N s = Some N' -> N ⊆ N'.
Proof.
  destruct s as [c t f|c s|e|l|x d c|x i e|l|e|l]; intros N N' H; cbn in H.
  - destruct (uses N c && negb (declaring t)); [|done]. destruct (scoped N t); [|done]. destruct f as [f|]; [|by injection H as <-].
    destruct (declaring f); [done|]. destruct (scoped N f); [|done]. by injection H as <-.
  - destruct (uses N c && negb (declaring s)); [|done]. destruct (scoped N s); [|done]. by injection H as <-.
  - destruct (uses N e); [|done]. by injection H as <-.
  - by eapply declares_grow.
  - done.
  - destruct (_ && uses N e); [|done]. by injection H as <-.
  - destruct (forallb (uses N) l); [|done]. by injection H as <-.
  - destruct (uses N e); [|done]. by injection H as <-.
  - destruct (in_sequence scoped N l); [|done]. by injection H as <-.
Qed.
Lemma sequence_grow l : forall N N', in_sequence scoped N l = Some N' -> N ⊆ N'.
Proof.
  induction l as [|s l IH]; intros N N' H; cbn in H; [by injection H as <-|]. destruct (scoped N s) as [N1|] eqn:E; [|done].
  intros p Hp. apply (IH _ _ H). by apply (scoped_grow _ _ _ E).
Qed.

(** one statement of the inference *)
Definition inferred (s : stmt) : Prop := forall N N', scoped N s = Some N' -> forall E, E <> [] -> known E N ->
  exists E' s', statement_constant_inference E s = Some (E', s') /\ known E' N' /\ present (within N) E E' /\
    (forall x, within N x -> get_variable E' x = Some true -> get_variable E x = Some true /\ ~ touches x s) /\
    same s s' /\ ok s' /\ (declaring s = true -> s' = s).
Lemma infer_list l : Forall inferred l -> forall N Nf, in_sequence scoped N l = Some Nf -> forall E, E <> [] -> known E N ->
  exists E' l', each statement_constant_inference E l = Some (E', l') /\ known E' Nf /\ present (within N) E E' /\
    (forall x, within N x -> get_variable E' x = Some true -> get_variable E x = Some true /\ ~ touches_in x l) /\
    Forall2 (fun s s' => same s s' /\ ok s' /\ (declaring s = true -> s' = s)) l l' /\
    quiet (fun y => get_variable E' y = Some true) N l.
Proof.
  induction 1 as [|s l Hs _ IH]; intros N Nf HN E HE HK; cbn in HN.
  - injection HN as <-. exists E, []. split; [done|]. split; [done|]. split; [apply present_refl|]. split; [intros x _ HT; split; [exact HT|intros []]|]. split; [constructor|done].
  - destruct (scoped N s) as [N1|] eqn:HN1; [|done].
    destruct (Hs N N1 HN1 E HE HK) as (E1 & s1 & H1 & HK1 & HP1 & Hf1 & Hsame & Hok & Hd).
    assert (HE1 : E1 <> []) by (intros ->; inversion HP1; by subst).
    destruct (IH N1 Nf HN E1 HE1 HK1) as (E2 & l2 & H2 & HK2 & HP2 & Hf2 & Hl2 & Hq).
    assert (HW : forall x, within N x -> within N1 x) by (intros x (st & Hx); exists st; by apply (scoped_grow _ _ _ HN1)).
    exists E2, (s1 :: l2). cbn. rewrite H1, H2. split; [done|]. split; [done|]. split; [|split; [|split]].
    + eapply present_trans; [exact HP1|]. by eapply present_mono; [|exact HP2].
    + intros x Hx Ht. destruct (Hf2 x (HW x Hx) Ht) as (Ht1 & Hn2). destruct (Hf1 x Hx Ht1) as (Ht0 & Hn1). split; [done|]. tauto.
    + constructor; done.
    + exists N1. split; [done|]. split; [|done]. intros y Hy Ht. by apply Hf2.
Qed.
Lemma apply_list l l1 : Forall2 (fun s s' => same s s' /\ ok s' /\ (declaring s = true -> s' = s)) l l1 ->
  forall N N' t, quiet t N l -> in_sequence scoped N l = Some N' -> forall Nf, N' ⊆ Nf -> forall E, known E Nf ->
    (forall y, get_variable E y = Some true -> t y) ->
  exists E' l2, apply_inferences E l1 = Some (E', l2) /\ known E' Nf /\ falling everything E E' /\ present everything E E' /\
    Forall2 same l l2 /\ ok_list ok l2.
Proof.
  induction 1 as [|s s1 l l1 (Hsame & Hok & Hd) Hl IH]; intros N N' t Hq HN Nf HNf E HK Ht.
  - exists E, []. split; [done|]. split; [done|]. split; [by intros ?|]. split; [apply present_refl|]. split; [constructor|done].
  - destruct Hq as (N1 & HN1 & Hq1 & Hq2). cbn in HN. rewrite HN1 in HN.
    destruct (declaring s1) eqn:Hds.
    + assert (declaring s = true) as Hd1 by (destruct Hsame as (_ & <- & _); done). rewrite (Hd Hd1) in *. clear Hd.
      destruct s as [| | |i|x dd c| | | |]; try done. cbn in HN1.
      pose proof (declares_grow _ _ _ _ HN1) as Hg. pose proof (sequence_grow _ _ _ HN) as Hg2.
      assert (HN1f : N1 ⊆ Nf) by (intros p Hp; by apply HNf, Hg2).
      destruct (infer_initial_ok i N [] N1 HN1 Nf HN1f) with (E := E) as (E1 & H1 & HK1 & HF1 & HP1 & Hm); [intros y Hy; inversion Hy|done|].
      pose proof (mark_ok i N [] N1 HN1 E1 (known_sub _ _ _ HN1f HK1)) as H2.
      destruct (IH N1 N' t Hq2 HN Nf HNf E1 HK1) as (E2 & l2 & H3 & HK2 & HF2 & HP2 & Hs2 & Ho2).
      { intros y Hy. apply Ht. by apply HF1. }
      pose proof (declares_atomic _ _ _ _ HN1) as Ha.
      exists E2, (InitializationBlock (flag E1 <$> i) :: l2). cbn [apply_inferences]. unfold apply_inference. rewrite H1. cbn [mbind option_bind].
      rewrite H2. cbn [mbind option_bind]. rewrite H3. cbn [mbind option_bind]. split; [done|]. split; [done|]. split; [intros y Hy HT; by apply HF1, HF2|].
      split; [by eapply present_trans|]. split.
      { constructor; [|done]. split; [|split; [done|]].
        - intros y. cbn. by apply (same_touches _ _ y), flag_same.
        - intros den1 den2 call n σ. cbn. by apply same_sequence, flag_same. }
      assert (Ha' : Forall atomic (flag E1 <$> i)) by (apply Forall_fmap; eapply Forall_impl; [exact Ha|]; intros []; done).
      split; [done|]. split; [|done]. split; [done|]. intros pre' x idx e post' Ei Hx.
      assert (Hx1 : get_variable E1 x = Some true).
      { unfold constants in Hx. apply elem_of_list_to_set, elem_of_list_omap in Hx as (s & Hin & Hs).
        apply elem_of_list_fmap in Hin as (s0 & -> & Hin). destruct s0; try done. cbn in Hs.
        destruct (get_variable E1 x0) as [[]|] eqn:Hg0; cbn in Hs; try done. by injection Hs as <-. }
      apply fmap_app_inv in Ei as (pre & rest & -> & Ei & Ei2). destruct rest as [|s0 post]; [done|]. cbn in Ei. injection Ei as Es ->.
      assert (s0 = Substitution x idx e) as -> by (destruct s0; try done; cbn in Es; congruence). subst i.
      assert (HTrue : forall y, y = x \/ mentions y e -> get_variable E y = Some true).
      { intros y [->|Hy]; [by apply HF1|]. eapply Hm; [reflexivity|exact Hx1|exact Hy]. }
      assert (HNF : forall y, get_variable E y = Some true -> (y, false) ∉ N1).
      { intros y Hy Hin. destruct (HK y false (HN1f _ Hin)) as (b & Hb & Hs). rewrite Hy in Hb. injection Hb as <-. by specialize (Hs eq_refl). }
      destruct (declares_shape _ _ _ _ HN1) with (pre := pre) (x := x) (idx := idx) (e := e) (post := post) as (-> & (pre1 & c & ->) & Hnm & Hy);
        [intros y Hy; inversion Hy|done|apply HNF, HTrue; auto|].
      split; [done|]. split; [|split; [done|]].
      { exists (flag E1 <$> pre1), (default false (get_variable E1 x)). by rewrite fmap_app. }
      intros y Hyx. destruct (Hy y Hyx) as (Hin & Hn). pose proof (HTrue y Hyx) as HT. split.
      * rewrite (same_touches _ _ y (flag_same E1 post ltac:(apply Forall_app in Ha as (_ & Ha); by inversion Ha))). apply Hn. by apply HNF.
      * rewrite (same_touches _ _ y Hs2). apply Hq1; [done|]. by apply Ht.
    + destruct (IH N1 N' t Hq2 HN Nf HNf E HK Ht) as (E2 & l2 & H3 & HK2 & HF2 & HP2 & Hs2 & Ho2).
      exists E2, (s1 :: l2). destruct s1; try done; cbn [apply_inferences]; rewrite H3; cbn [mbind option_bind];
        (split; [done|]; split; [done|]; split; [done|]; split; [done|]; split; [by constructor|]; split; [done|]; done).
Qed.
Lemma infer_ok s : inferred s.
Proof.
  induction s as [c t f Ht Hf|c s IH|e|l IH|x d c|x i e|l|e|l IH] using stmt_ind'; intros N N' HN E HE HK; cbn in HN.
  - destruct (uses N c && negb (declaring t)) eqn:Hc; [|done]. apply andb_prop in Hc as (_ & Hdt). apply negb_true_iff in Hdt.
    destruct (scoped N t) as [Nt|] eqn:HNt; [|done]. destruct (Ht N Nt HNt E HE HK) as (E1 & t1 & H1 & HK1 & HP1 & Hf1 & Hs1 & Ho1 & _).
    pose proof (scoped_grow _ _ _ HNt) as Hgt. apply (known_sub _ _ _ Hgt) in HK1.
    assert (HE1 : E1 <> []) by (intros ->; inversion HP1; by subst).
    cbn [statement_constant_inference]. rewrite H1. cbn [mbind option_bind]. destruct f as [f|].
    + destruct (declaring f) eqn:Hdf; [done|]. destruct (scoped N f) as [Nf|] eqn:HNf; [|done]. injection HN as <-.
      destruct (Hf f eq_refl N Nf HNf E1 HE1 HK1) as (E2 & f2 & H2 & HK2 & HP2 & Hf2 & Hs2 & Ho2 & _).
      pose proof (scoped_grow _ _ _ HNf) as Hgf. apply (known_sub _ _ _ Hgf) in HK2.
      rewrite H2. cbn [mbind option_bind]. eexists _, _. split; [done|]. split; [done|]. split; [by eapply present_trans|]. split; [|split; [|split; [|done]]].
      * intros x Hx HT. destruct (Hf2 x Hx HT) as (HT1 & Hn2). destruct (Hf1 x Hx HT1) as (HT0 & Hn1). cbn. tauto.
      * destruct Hs1 as (Ha & Hb & Hc), Hs2 as (Ha2 & Hb2 & Hc2). split; [|split; [done|]].
        -- intros y. cbn. by rewrite Ha, Ha2.
        -- intros den1 den2 call n σ. cbn. by rewrite Hc, Hc2.
      * cbn. destruct Hs1 as (_ & -> & _), Hs2 as (_ & -> & _). done.
    + injection HN as <-. eexists _, _. split; [done|]. split; [done|]. split; [done|]. split; [|split; [|split; [|done]]].
      * intros x Hx HT. destruct (Hf1 x Hx HT) as (HT0 & Hn1). cbn. tauto.
      * destruct Hs1 as (Ha & Hb & Hc). split; [|split; [done|]].
        -- intros y. cbn. by rewrite Ha.
        -- intros den1 den2 call n σ. cbn. by rewrite Hc.
      * cbn. destruct Hs1 as (_ & -> & _). done.
  - destruct (uses N c && negb (declaring s)) eqn:Hc; [|done]. apply andb_prop in Hc as (_ & Hds). apply negb_true_iff in Hds.
    destruct (scoped N s) as [Ns|] eqn:HNs; [|done]. injection HN as <-.
    destruct (IH N Ns HNs E HE HK) as (E1 & s1 & H1 & HK1 & HP1 & Hf1 & Hs1 & Ho1 & _).
    pose proof (scoped_grow _ _ _ HNs) as Hg. apply (known_sub _ _ _ Hg) in HK1.
    cbn [statement_constant_inference]. rewrite H1. cbn [mbind option_bind]. eexists _, _. split; [done|]. split; [done|]. split; [done|]. split; [done|].
    destruct Hs1 as (Ha & Hb & Hc). split; [|split; [|done]].
    + split; [done|]. split; [done|]. intros den1 den2 call n σ. cbn. apply same_loop. intros τ. apply Hc.
    + cbn. by rewrite Hb.
  - destruct (uses N e); [|done]. injection HN as <-. exists E, (Return e). split; [done|]. split; [done|]. split; [apply present_refl|]. split; [cbn; auto|]. done.
  - destruct E as [|b R]; [done|]. destruct (init_env l l N [] N' HN b R HK) as (b' & HEq & HK' & Hp).
    exists (b' :: R), (InitializationBlock l). cbn [statement_constant_inference]. unfold initialization_block_constant_inference. rewrite HEq.
    split; [done|]. split; [done|]. split; [constructor; [intros x Hx; by rewrite (Hp x Hx)|apply present_refl]|].
    split; [|split; [done|]; split; [exact (declares_atomic _ _ _ _ HN)|done]].
    intros x Hx HT. split.
    + cbn in HT |- *. by rewrite (Hp x Hx).
    + cbn. intros Htch. destruct Hx as (s & Hx). pose proof (declares_touch _ _ _ _ HN x s Hx Htch) as Hin. inversion Hin.
  - done.
  - destruct (fresh N x) eqn:Hfr; [done|]. cbn in HN. destruct (forallb (uses N) i && uses N e); [|done]. injection HN as <-.
    destruct (not_fresh _ _ Hfr) as (s & Hs). destruct (HK x s Hs) as (b & Hb & _).
    destruct (set_known E x false b N HK Hb) as (E' & H1 & H2 & H3 & H4 & H5); [done|].
    exists E', (Substitution x i e). cbn. rewrite H1. cbn. split; [done|]. split; [done|]. split; [by eapply present_mono; [|exact H5]|].
    split; [|done]. intros y Hy HT. split; [by apply H4|]. intros ->. by rewrite H2 in HT.
  - destruct (forallb (uses N) l); [|done]. injection HN as <-. exists E, (LogCall l). split; [done|]. split; [done|]. split; [apply present_refl|]. split; [cbn; auto|]. done.
  - destruct (uses N e); [|done]. injection HN as <-. exists E, (Assert e). split; [done|]. split; [done|]. split; [apply present_refl|]. split; [cbn; auto|]. done.
  - destruct (in_sequence scoped N l) as [Nf|] eqn:HNf; [|done]. injection HN as <-.
    assert (HK0 : known (∅ :: E) N). { intros x s Hx. cbn. rewrite lookup_empty. by apply HK. }
    destruct (infer_list l IH N Nf HNf (∅ :: E) ltac:(done) HK0) as (E1 & l1 & H1 & HK1 & HP1 & Hf1 & Hl1 & Hq).
    destruct (apply_list l l1 Hl1 N Nf _ Hq HNf Nf ltac:(done) E1 HK1 ltac:(done)) as (E2 & l2 & H2 & HK2 & HF2 & HP2 & Hs2 & Ho2).
    cbn [statement_constant_inference]. rewrite H1. cbn [mbind option_bind]. rewrite H2. cbn [mbind option_bind].
    assert (HP : present (within N) (∅ :: E) E2) by (eapply present_trans; [exact HP1|]; by eapply present_mono; [|exact HP2]).
    inversion HP as [|b0 b2 ? R2 Hb HR]; subst. cbn [tail].
    assert (Hget : forall x, within N x -> get_variable (b2 :: R2) x = get_variable R2 x).
    { intros x Hx. cbn. assert (b2 !! x = None) as ->; [|done]. apply Hb; [done|]. apply lookup_empty. }
    exists R2, (Block l2). split; [done|]. split; [|split; [exact HR|split; [|split; [|split; [exact Ho2|done]]]]].
    + intros x s Hx. rewrite <- Hget by (by exists s). apply HK2. by apply (sequence_grow _ _ _ HNf).
    + intros x Hx HT. rewrite <- Hget in HT by done. apply HF2 in HT; [|done]. destruct (Hf1 x Hx HT) as (HT0 & Hn).
      cbn in HT0. rewrite lookup_empty in HT0. done.
    + split; [|split; [done|]].
      * intros y. cbn. by apply same_touches.
      * intros den1 den2 call n σ. cbn. by rewrite (same_sequence l l2).
Qed.
