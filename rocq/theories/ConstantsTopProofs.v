(** The decorator of functions as a whole: it does not panic, and functions return what they returned before. *)
From stdpp Require Import prelude gmap strings.
From Coq Require Import ZArith.
From Verif Require Import ConstantsModel ConstantsSpec ConstantsProofs ConstantsInferProofs.
Open Scope string_scope.
Open Scope list_scope.
Open Scope nat_scope.

(** ** The same results *)
Notation param_names D := ((fun x => (x, false)) <$> params D).
Lemma params_known xs : let E := foldl (fun E x => add_variable E x false) [∅] xs in
  (exists b : gmap string bool, E = [b]) /\ known E ((fun x => (x, false)) <$> xs).
Proof.
  cbn. assert (G : forall xs (b : gmap string bool), (forall y c, b !! y = Some c -> c = false) ->
    exists b' : gmap string bool, foldl (fun E x => add_variable E x false) [b] xs = [b'] /\
      (forall y c, b' !! y = Some c -> c = false) /\ (forall y, is_Some (b !! y) -> is_Some (b' !! y)) /\ forall y, y ∈ xs -> is_Some (b' !! y)).
  { clear xs. induction xs as [|x xs IH]; intros b Hb; cbn.
    - exists b. split; [done|]. split; [done|]. split; [done|]. intros y Hy. inversion Hy.
    - destruct (IH (<[x := false]> b)) as (b' & H1 & H2 & H3 & H4).
      + intros y c. destruct (decide (x = y)) as [<-|Hn]; [rewrite lookup_insert; by intros [= <-]|rewrite lookup_insert_ne by done; apply Hb].
      + exists b'. split; [done|]. split; [done|]. split.
        * intros y Hy. apply H3. destruct (decide (x = y)) as [<-|Hn]; [rewrite lookup_insert; eauto|by rewrite lookup_insert_ne].
        * intros y Hy. inversion Hy; subst; [|by apply H4]. apply H3. rewrite lookup_insert. eauto. }
  destruct (G xs ∅) as (b & H1 & H2 & _ & H4); [intros y c; by rewrite lookup_empty|]. rewrite H1. split; [eauto|].
  intros x s Hx. apply elem_of_list_fmap in Hx as (y & [= -> ->] & Hy). destruct (H4 y Hy) as (c & Hc). exists c. cbn. rewrite Hc.
  rewrite (H2 y c Hc). done.
Qed.
Lemma handled D D' k : no_shadowing D = true -> handle_function_constants D = Some (D', k) ->
  params D' = params D /\ forall den1 den2 call n σ,
    exec results den1 den2 call n σ (Block (body D')) = exec results den1 den2 call n σ (Block (body D)).
Proof.
  unfold no_shadowing, handle_function_constants. destruct (scoped (param_names D) (Block (body D))) as [N|] eqn:HN; [|done]. intros _ H.
  destruct (params_known (params D)) as ((b & Eb) & HK). cbv zeta in *. rewrite Eb in H, HK.
  destruct (infer_ok (Block (body D)) _ _ HN [b] ltac:(done) HK) as (E' & s' & H1 & _ & _ & _ & Hs & Ho & _).
  rewrite H1 in H. cbn [mbind option_bind] in H.
  destruct (statement_invariant_check E' s') as [[E2 m]|]; [|done]. cbn [mbind option_bind] in H.
  destruct (expand_statement [∅] s') as [H2 s2] eqn:E2'. destruct s2; try done. injection H as <- <-. split; [done|].
  intros den1 den2 call n σ. cbn [body].
  pose proof (exec_expand den1 den2 call n s' Ho [∅] σ) as G. rewrite E2' in G. cbn [snd] in G. rewrite G.
  - apply Hs.
  - intros x h Hx. cbn in Hx. by rewrite lookup_empty in Hx.
  - intros y (x & h & Hx & _). cbn in Hx. by rewrite lookup_empty in Hx.
Qed.
(** calls matter through their results only *)
Lemma eval_call den1 den2 (call1 call2 : string -> list val -> option val) σ e : (forall f vs, call1 f vs = call2 f vs) ->
  eval results den1 den2 call1 σ e = eval results den1 den2 call2 σ e.
Proof.
  intros Hc. assert (G : forall (f g : expr -> option val) l, Forall (fun e => f e = g e) l -> all results f l = all results g l) by (intros; by apply all_ext).
  induction e as [z|o l r Hl Hr|o e He|c t f Hcc Ht Hf|x idx Hi|f l Hl|l Hl|v d Hv Hd] using expr_ind'; cbn.
  - done.
  - by rewrite Hl, Hr.
  - by rewrite He.
  - by rewrite Hcc, Ht, Hf.
  - rewrite (all_ext _ (fun e => match eval results den1 den2 call2 σ e with Some a => lift results (number a) | None => None end)); [done|].
    eapply Forall_impl; [exact Hi|]. cbn. by intros e ->.
  - rewrite (all_ext _ (eval results den1 den2 call2 σ)) by done. destruct (all results _ l); [apply Hc|done].
  - by rewrite (all_ext _ (eval results den1 den2 call2 σ)).
  - by rewrite Hv, Hd.
Qed.
Lemma exec_call den1 den2 (call1 call2 : string -> list val -> option val) n s : (forall f vs, call1 f vs = call2 f vs) ->
  forall σ, exec results den1 den2 call1 n σ s = exec results den1 den2 call2 n σ s.
Proof.
  intros Hc. assert (He : forall σ e, eval results den1 den2 call1 σ e = eval results den1 den2 call2 σ e) by (intros; by apply eval_call).
  assert (Hn : forall σ l, numbers results den1 den2 call1 σ l = numbers results den1 den2 call2 σ l).
  { intros σ l. apply all_ext. apply Forall_forall. intros e _. by rewrite He. }
  assert (Hq : forall l, Forall (fun s => forall σ, exec results den1 den2 call1 n σ s = exec results den1 den2 call2 n σ s) l ->
    forall σ, sequence results (exec results den1 den2 call1 n) σ l = sequence results (exec results den1 den2 call2 n) σ l).
  { induction 1 as [|s1 l Hs _ IH]; intros σ; [done|]. cbn. rewrite Hs. destruct (exec results den1 den2 call2 n σ s1) as [o|]; [|done].
    destruct (o.2); [done|]. apply IH. }
  induction s as [c t f Ht Hf|c s IH|e|l IH|x d c|x i e|l|e|l IH] using stmt_ind'; intros σ; cbn; rewrite ?He, ?Hn; try done.
  - rewrite Ht. destruct f as [f|]; [|done]. by rewrite (Hf f eq_refl).
  - transitivity (loop results n (fun σ => match eval results den1 den2 call2 σ c with Some a => lift results (number a) | None => None end)
      (fun σ => exec results den1 den2 call1 n σ s) σ); [|by apply same_loop].
    revert σ. generalize n at 1 3. intros m. induction m as [|m IHm]; intros σ; [done|]. cbn. rewrite He.
    destruct (eval results den1 den2 call2 σ c) as [v|]; [|done]. destruct (number v) as [z|]; [|done]. cbn. destruct (z =? 0)%Z; [done|].
    destruct (exec results den1 den2 call1 n σ s) as [o|]; [|done]. destruct (o.2); [done|]. apply IHm.
  - by apply Hq.
  - by rewrite Hq.
Qed.
Lemma same_results P P' : (forall f, match P !! f, P' !! f with
    | Some D, Some D' => no_shadowing D = true /\ exists k, handle_function_constants D = Some (D', k)
    | None, None => True
    | _, _ => False
    end) ->
  forall den1 den2 n f vs, run results den1 den2 P' n f vs = run results den1 den2 P n f vs.
Proof.
  intros H den1 den2 n. induction n as [|n IH]; intros f vs; [done|]. cbn [run]. specialize (H f).
  destruct (P !! f) as [D|], (P' !! f) as [D'|]; try done. destruct H as (Hs & k & Hh). destruct (handled _ _ _ Hs Hh) as (-> & He).
  destruct (length vs =? length (params D)); [|done]. rewrite He. by rewrite (exec_call den1 den2 _ (run results den1 den2 P n)).
Qed.

(** ** No panics *)
Definition found (E : env bool) (N : names) : Prop := forall x s, (x, s) ∈ N -> is_Some (get_variable E x).
Lemma has_value E N e : found E N -> uses N e = true -> is_Some (has_constant_value E e).
Proof.
  intros HK. induction e as [z|o l r Hl Hr|o e He|c t f Hc Ht Hf|x idx Hi|f l Hl|l Hl|v d Hv Hd] using expr_ind'; cbn; intros Hu; eauto.
  - apply andb_prop in Hu as (H1 & H2). destruct (Hl H1) as (a & ->). cbn. destruct a; eauto.
  - apply andb_prop in Hu as (Hu & H3). apply andb_prop in Hu as (H1 & H2). destruct (Hc H1) as (a & ->). destruct (Ht H2) as (b & ->). cbn.
    destruct a; eauto. cbn. destruct b; eauto.
  - apply andb_prop in Hu as (H1 & _). apply existsb_exists in H1 as ([y s] & Hin & H1). apply andb_prop in H1 as (H1 & H2).
    apply bool_decide_eq_true in H1. cbn in H1. subst y. apply elem_of_list_In in Hin. by apply (HK x s).
  - induction Hl as [|e l He _ IH]; [eauto|]. cbn in Hu. apply andb_prop in Hu as (H1 & H2).
    destruct (He H1) as (a & ->). cbn. destruct a; [|eauto]. by apply IH.
Qed.
Lemma dims_value E N l : found E N -> forallb (uses N) l = true -> is_Some (declaration_invariant_check E l).
Proof.
  intros HK. induction l as [|e l IH]; cbn; intros Hu; [eauto|]. apply andb_prop in Hu as (H1 & H2).
  destruct (has_value E N e HK H1) as (c & ->). cbn. destruct (IH H2) as (n & ->). cbn. eauto.
Qed.
Lemma init_value E N l : found E N -> forallb (fun s => match s with Declaration _ dims _ => forallb (uses N) dims | _ => true end) l = true ->
  is_Some (initialization_invariant_check E l).
Proof.
  intros HK. induction l as [|s l IH]; cbn; intros Hu; [eauto|]. apply andb_prop in Hu as (H1 & H2). destruct (IH H2) as (n & Hn).
  destruct s; try (rewrite Hn; eauto; done). destruct (dims_value E N dims HK H1) as (m & ->). cbn. rewrite Hn. cbn. eauto.
Qed.
Lemma add_found l : forall b R N, found (b :: R) N -> exists b', add_constants (b :: R) l = b' :: R /\
  found (b' :: R) (foldl (fun N s => match s with Declaration x _ _ => (x, false) :: N | _ => N end) N l).
Proof.
  induction l as [|s l IH]; intros b R N HK; [eauto|]. destruct s; try apply (IH b R N HK). apply (IH (<[x := is_constant]> b) R).
  intros y t Hy. cbn. destruct (decide (x = y)) as [<-|Hn]; [rewrite lookup_insert; eauto|]. rewrite lookup_insert_ne by done.
  inversion Hy; subst; [done|]. by apply (HK y t).
Qed.
Lemma foldl_grow l : forall N : names, N ⊆ foldl (fun N s => match s with Declaration x _ _ => (x, false) :: N | _ => N end) N l.
Proof.
  induction l as [|s l IH]; intros N; [done|]. cbn. destruct s; try apply IH. intros p Hp. apply IH. by right.
Qed.
Lemma lengths_grow s : forall N N', lengths N s = Some N' -> N ⊆ N'.
Proof.
  destruct s as [c t f|c s|e|l|x d c|x i e|l|e|l]; intros N N' H; cbn in H; try by injection H as <-.
  - destruct (lengths N t); [|done]. destruct f as [f|]; [|by injection H as <-]. destruct (lengths N f); [|done]. by injection H as <-.
  - destruct (lengths N s); [|done]. by injection H as <-.
  - destruct (forallb _ l); [|done]. injection H as <-. apply foldl_grow.
  - destruct (in_sequence lengths N l); [|done]. by injection H as <-.
Qed.
Lemma found_sub E N N' : N ⊆ N' -> found E N' -> found E N.
Proof. intros H HK x s Hx. apply (HK x s). by apply H. Qed.
Lemma check_ok s : forall N N', lengths N s = Some N' -> forall b R, found (b :: R) N ->
  exists b' n, statement_invariant_check (b :: R) s = Some (b' :: R, n) /\ found (b' :: R) N'.
Proof.
  induction s as [c t f Ht Hf|c s IH|e|l IH|x d c|x i e|l|e|l IH] using stmt_ind'; intros N N' H b R HK; cbn in H;
    try (injection H as <-; cbn; eauto; done).
  - destruct (lengths N t) as [N1|] eqn:H1; [|done]. destruct (Ht N N1 H1 b R HK) as (b1 & n1 & E1 & HK1).
    apply (found_sub _ _ _ (lengths_grow _ _ _ H1)) in HK1. cbn. rewrite E1. cbn. destruct f as [f|].
    + destruct (lengths N f) as [N2|] eqn:H2; [|done]. injection H as <-. destruct (Hf f eq_refl N N2 H2 b1 R HK1) as (b2 & n2 & E2 & HK2).
      apply (found_sub _ _ _ (lengths_grow _ _ _ H2)) in HK2. rewrite E2. cbn. eauto.
    + injection H as <-. eauto.
  - destruct (lengths N s) as [N1|] eqn:H1; [|done]. injection H as <-. destruct (IH N N1 H1 b R HK) as (b1 & n1 & E1 & HK1).
    apply (found_sub _ _ _ (lengths_grow _ _ _ H1)) in HK1. cbn. eauto.
  - destruct (forallb _ l) eqn:Hl; [|done]. injection H as <-. cbn. destruct (init_value (b :: R) N l HK Hl) as (n & ->). cbn.
    destruct (add_found l b R N HK) as (b' & -> & HK'). eauto.
  - destruct (in_sequence lengths N l) as [Nf|] eqn:HN; [|done]. injection H as <-. cbn.
    assert (G : forall N Nf, in_sequence lengths N l = Some Nf -> forall b R, found (b :: R) N ->
      exists b' n, count statement_invariant_check (b :: R) l = Some (b' :: R, n)).
    { clear -IH. induction IH as [|s l Hs _ IHl]; intros N Nf HN b R HK; [cbn; eauto|]. cbn in HN.
      destruct (lengths N s) as [N1|] eqn:H1; [|done]. destruct (Hs N N1 H1 b R HK) as (b1 & n1 & E1 & HK1). cbn. rewrite E1.
      destruct (IHl N1 Nf HN b1 R HK1) as (b2 & n2 & E2). rewrite E2. eauto. }
    destruct (G N Nf HN ∅ (b :: R)) as (b' & n & ->).
    { intros x s Hx. cbn. rewrite lookup_empty. by apply (HK x s). }
    cbn. eauto.
Qed.

(** the flags do not matter *)
Fixpoint erase (s : stmt) : stmt :=
  match s with
  | IfThenElse c t f => IfThenElse c (erase t) (match f with Some f => Some (erase f) | None => None end)
  | While c s => While c (erase s)
  | InitializationBlock l => InitializationBlock (erase <$> l)
  | Block l => Block (erase <$> l)
  | Declaration x d _ => Declaration x d false
  | _ => s
  end.
Lemma lengths_erase s : forall N, lengths N (erase s) = lengths N s.
Proof.
  induction s as [c t f Ht Hf|c s IH|e|l IH|x d c|x i e|l|e|l IH] using stmt_ind'; intros N; cbn; try done.
  - rewrite Ht. destruct (lengths N t); [|done]. destruct f as [f|]; [|done]. by rewrite (Hf f eq_refl).
  - by rewrite IH.
  - assert (forallb (fun s => match s with Declaration _ dims _ => forallb (uses N) dims | _ => true end) (erase <$> l)
      = forallb (fun s => match s with Declaration _ dims _ => forallb (uses N) dims | _ => true end) l) as ->.
    { clear. induction l as [|s l IH]; [done|]. cbn. rewrite IH. by destruct s. }
    destruct (forallb _ l); [|done]. f_equal. clear. revert N. induction l as [|s l IH]; intros N; [done|]. destruct s; apply IH.
  - assert (forall N, in_sequence lengths N (erase <$> l) = in_sequence lengths N l) as ->; [|done].
    induction IH as [|s l Hs _ IHl]; intros M; [done|]. cbn. rewrite Hs. destruct (lengths M s); [|done]. apply IHl.
Qed.
Lemma mark_erase E l l' : mark E l = Some l' -> erase <$> l' = erase <$> l.
Proof.
  revert l'. induction l as [|s l IH]; intros l' H; [by injection H as <-|]. destruct s; cbn in H;
    try (destruct (mark E l) as [l1|]; [|done]; cbn in H; injection H as <-; cbn; by rewrite (IH l1)).
  destruct (get_variable E x); [|done]. cbn in H. destruct (mark E l) as [l1|]; [|done]. cbn in H. injection H as <-. cbn. by rewrite (IH l1).
Qed.
Lemma applied_erase l : forall E E' l', apply_inferences E l = Some (E', l') -> erase <$> l' = erase <$> l.
Proof.
  induction l as [|s l IH]; intros E E' l' H; [by injection H as <- <-|]. destruct s; cbn in H;
    try (destruct (apply_inferences E l) as [[E1 l1]|] eqn:E1'; [|done]; cbn in H; injection H as <- <-; cbn; by rewrite (IH _ _ _ E1')).
  unfold apply_inference in H. destruct (infer_initial E l0) as [E1|]; [|done]. cbn in H. destruct (mark E1 l0) as [l1|] eqn:Hm; [|done]. cbn in H.
  destruct (apply_inferences E1 l) as [[E2 l2]|] eqn:E2'; [|done]. cbn in H. injection H as <- <-. cbn.
  by rewrite (IH _ _ _ E2'), (mark_erase _ _ _ Hm).
Qed.
Lemma inferred_erase s : forall E E' s', statement_constant_inference E s = Some (E', s') -> erase s' = erase s.
Proof.
  induction s as [c t f Ht Hf|c s IH|e|l IH|x d c|x i e|l|e|l IH] using stmt_ind'; intros E E' s' H; cbn in H;
    try (injection H as <- <-; done).
  - destruct (statement_constant_inference E t) as [[E1 t1]|] eqn:E1'; [|done]. cbn in H. destruct f as [f|].
    + destruct (statement_constant_inference E1 f) as [[E2 f2]|] eqn:E2'; [|done]. cbn in H. injection H as <- <-. cbn.
      by rewrite (Ht _ _ _ E1'), (Hf f eq_refl _ _ _ E2').
    + injection H as <- <-. cbn. by rewrite (Ht _ _ _ E1').
  - destruct (statement_constant_inference E s) as [[E1 s1]|] eqn:E1'; [|done]. cbn in H. injection H as <- <-. cbn. by rewrite (IH _ _ _ E1').
  - destruct (set_variable E x false); [|done]. cbn in H. by injection H as <- <-.
  - destruct (each statement_constant_inference (∅ :: E) l) as [[E1 l1]|] eqn:E1'; [|done]. cbn in H.
    destruct (apply_inferences E1 l1) as [[E2 l2]|] eqn:E2'; [|done]. cbn in H. injection H as <- <-. cbn. f_equal.
    rewrite (applied_erase _ _ _ _ E2'). clear E2' E2 l2. revert E1' . generalize (∅ :: E). clear E. revert E1 l1.
    induction IH as [|s l Hs _ IHl]; intros E1 l1 E0 H; [by injection H as <- <-|]. cbn in H.
    destruct (statement_constant_inference E0 s) as [[E2 s2]|] eqn:E2'; [|done].
    destruct (each statement_constant_inference E2 l) as [[E3 l3]|] eqn:E3'; [|done]. injection H as <- <-. cbn.
    by rewrite (Hs _ _ _ E2'), (IHl _ _ _ E3').
Qed.
Lemma no_panic D : no_shadowing D = true -> lengths_before D = true -> exists D' k, handle_function_constants D = Some (D', k).
Proof.
  unfold no_shadowing, lengths_before, handle_function_constants.
  destruct (scoped (param_names D) (Block (body D))) as [N|] eqn:HN; [|done]. intros _.
  destruct (lengths (param_names D) (Block (body D))) as [M|] eqn:HM; [|done]. intros _.
  destruct (params_known (params D)) as ((b & Eb) & HK). cbv zeta in *. rewrite Eb in HK |- *.
  assert (N = param_names D) as ->.
  { cbn in HN. destruct (in_sequence scoped _ (body D)); [|done]. by injection HN as <-. }
  destruct (infer_ok (Block (body D)) _ _ HN [b] ltac:(done) HK) as (E' & s' & H1 & HK' & HP & _ & _ & _ & _).
  rewrite H1. cbn [mbind option_bind]. pose proof (inferred_erase _ _ _ _ H1) as He.
  assert (HM' : lengths (param_names D) s' = Some M) by (by rewrite <- lengths_erase, He, lengths_erase).
  inversion HP as [|? b' ? ? _ HP']; subst. inversion HP'; subst.
  destruct (check_ok s' _ _ HM' b' []) as (b2 & n & E2 & _).
  { intros x s Hx. destruct (HK' x s Hx) as (c & -> & _). eauto. }
  rewrite E2. cbn [mbind option_bind]. destruct s'; try done. cbn [expand_statement].
  destruct (thread expand_statement [∅; ∅] l) as [H3 l3]. eauto.
Qed.

(** parameters in the lengths of arrays *)
Lemma constant_direct E x e : get_variable E x = Some false -> has_constant_value E e = Some true -> direct x e = false.
Proof.
  intros Hx. induction e as [z|o l r IHl IHr|o e IHe|c t f IHc IHt IHf|y idx _|f l Hl|l _|a n _ _] using expr_ind'; cbn; try done.
  - destruct (has_constant_value E l) as [[]|]; cbn; try done. intros Hr. by rewrite IHl, IHr.
  - destruct (has_constant_value E c) as [[]|]; cbn; try done. destruct (has_constant_value E t) as [[]|]; cbn; try done. intros Hr. by rewrite IHc, IHt, IHf.
  - intros Hy. apply bool_decide_eq_false. intros <-. congruence.
  - induction Hl as [|e l He _ IH]; cbn; [done|]. destruct (has_constant_value E e) as [[]|]; cbn; try done. intros H. by rewrite He, IH.
Qed.
Lemma dims_direct E x l : get_variable E x = Some false -> declaration_invariant_check E l = Some 0 -> forall d, d ∈ l -> direct x d = false.
Proof.
  intros Hx. induction l as [|e l IH]; cbn; intros H d Hd; [by apply elem_of_nil in Hd|].
  destruct (has_constant_value E e) as [c|] eqn:Ec; [|done]. cbn in H. destruct (declaration_invariant_check E l) as [n|]; [|done]. cbn in H.
  destruct c; [|done]. injection H as ->. apply elem_of_cons in Hd as [->|Hd]; [by eapply constant_direct|by apply IH].
Qed.
Lemma inits_direct E x l : get_variable E x = Some false -> Forall atomic l -> initialization_invariant_check E l = Some 0 ->
  forall d, d ∈ flat_map array_lengths l -> direct x d = false.
Proof.
  intros Hx Hl. induction Hl as [|s l Hs _ IH]; cbn; intros H d Hd; [by apply elem_of_nil in Hd|]. destruct s; try done; cbn in Hd.
  - destruct (declaration_invariant_check E dims) as [m|] eqn:Em; [|done]. cbn in H. destruct (initialization_invariant_check E l) as [n|]; [|done]. cbn in H.
    injection H as H. assert (m = 0) as -> by lia. assert (n = 0) as -> by lia. apply elem_of_app in Hd as [Hd|Hd]; [by eapply dims_direct|by apply IH].
  - by apply IH.
Qed.
Lemma add_other x l : Forall atomic l -> ~ touches_in x l -> forall b R, exists b', add_constants (b :: R) l = b' :: R /\ b' !! x = b !! x.
Proof.
  intros Hl. induction Hl as [|s l Hs _ IH]; cbn; intros HT b R; [eauto|]. destruct s; try done; cbn.
  - destruct (IH ltac:(tauto) (<[x0 := is_constant]> b) R) as (b' & Eb & Hb). exists b'. split; [exact Eb|]. rewrite Hb. apply lookup_insert_ne. naive_solver.
  - apply IH. tauto.
Qed.
Lemma scoped_erase s : forall N, scoped N (erase s) = scoped N s.
Proof.
  assert (HD : forall s, declaring (erase s) = declaring s) by (intros []; done).
  induction s as [c t f Ht Hf|c s IH|e|l IH|x d c|x i e|l|e|l IH] using stmt_ind'; intros N; cbn; try done.
  - rewrite HD, Ht. destruct (uses N c && _); [|done]. destruct (scoped N t); [|done]. destruct f as [f|]; [|done]. by rewrite HD, (Hf f eq_refl).
  - by rewrite HD, IH.
  - enough (G : forall n l N A, length l <= n -> declares N A (erase <$> l) = declares N A l) by (by apply (G (length l))).
    clear. induction n as [|n IH]; intros l N A Hn; (destruct l as [|s l]; [done|]); cbn in Hn; [lia|]. destruct s; try done; cbn.
    + destruct (fresh N x && _); [|done]. destruct dims; [|apply IH; lia]. destruct l as [|s l]; [done|]. destruct s as [| | | | |y [|] e| | |]; try done. cbn. cbn in Hn.
      destruct (bool_decide (x = y) && uses N e); [|done]. apply IH. lia.
    + destruct idx; [|done]. destruct (bool_decide (x ∈ A) && uses N e); [|done]. apply IH. lia.
  - assert (forall N, in_sequence scoped N (erase <$> l) = in_sequence scoped N l) as ->; [|done].
    induction IH as [|s l Hs _ IHl]; intros M; [done|]. cbn. rewrite Hs. destruct (scoped M s); [|done]. apply IHl.
Qed.
Lemma array_lengths_erase s : array_lengths (erase s) = array_lengths s.
Proof.
  induction s as [c t f Ht Hf|c s IH|e|l IH|x d c|x i e|l|e|l IH] using stmt_ind'; cbn; try done.
  - rewrite Ht. destruct f as [f|]; [|done]. by rewrite (Hf f eq_refl).
  - induction IH as [|s l Hs _ IHl]; [done|]. cbn. by rewrite Hs, IHl.
  - induction IH as [|s l Hs _ IHl]; [done|]. cbn. by rewrite Hs, IHl.
Qed.
Lemma check_direct x s : forall N N' t, scoped N s = Some N' -> (x, t) ∈ N -> forall b R E' n, statement_invariant_check (b :: R) s = Some (E', n) ->
  exists b', E' = b' :: R /\ b' !! x = b !! x /\ (n = 0 -> get_variable (b :: R) x = Some false -> forall d, d ∈ array_lengths s -> direct x d = false).
Proof.
  induction s as [c s1 f Ht Hf|c s IH|e|l IH|y d c|y i e|l|e|l IH] using stmt_ind'; intros N N' t H Hx b R E' n HC; cbn in H, HC; try done;
    try (injection HC as <- <-; exists b; split_and!; [done|done|]; intros _ _ d0 Hd; by apply elem_of_nil in Hd).
  - destruct (uses N c && _); [|done]. destruct (scoped N s1) as [N1|] eqn:H1; [|done].
    destruct (statement_invariant_check (b :: R) s1) as [[E1 m]|] eqn:C1; [|done]. cbn in HC. destruct (Ht N N1 t H1 Hx b R E1 m C1) as (b1 & -> & Hb1 & HL1).
    destruct f as [f|].
    + destruct (declaring f); [done|]. destruct (scoped N f) as [N2|] eqn:H2; [|done]. destruct (statement_invariant_check (b1 :: R) f) as [[E2 m2]|] eqn:C2; [|done]. cbn in HC. injection HC as <- <-.
      destruct (Hf f eq_refl N N2 t H2 Hx b1 R E2 m2 C2) as (b2 & -> & Hb2 & HL2). exists b2. split_and!; [done|congruence|]. intros Hn Hg d Hd. cbn in Hd.
      apply elem_of_app in Hd as [Hd|Hd]; [apply HL1; [lia|done|done]|apply HL2; [lia| |done]]. cbn in Hg |- *. by rewrite Hb1.
    + injection HC as <- <-. exists b1. split_and!; [done|done|]. intros Hn Hg d Hd. cbn in Hd. rewrite app_nil_r in Hd. by apply HL1.
  - destruct (uses N c && _); [|done]. destruct (scoped N s) as [N1|] eqn:H1; [|done]. by apply (IH N N1 t).
  - pose proof (declares_atomic _ _ _ _ H) as Ha. destruct (initialization_invariant_check (b :: R) l) as [m|] eqn:Cm; [|done]. cbn in HC. injection HC as <- <-.
    destruct (add_other x l Ha) with (b := b) (R := R) as (b' & -> & Hb).
    { intros HT. apply (declares_touch _ _ _ _ H x t Hx) in HT. by apply elem_of_nil in HT. }
    exists b'. split_and!; [done|done|]. intros -> Hg d Hd. cbn in Hd. by eapply inits_direct.
  - destruct (in_sequence scoped N l) as [N1|] eqn:H1; [|done].
    destruct (count statement_invariant_check (∅ :: b :: R) l) as [[E1 m]|] eqn:C1; [|done]. cbn in HC. injection HC as <- <-.
    assert (G : forall N N1 b0 R0 E1 m, in_sequence scoped N l = Some N1 -> (x, t) ∈ N -> count statement_invariant_check (b0 :: R0) l = Some (E1, m) ->
      exists b', E1 = b' :: R0 /\ b' !! x = b0 !! x /\ (m = 0 -> get_variable (b0 :: R0) x = Some false -> forall d, d ∈ flat_map array_lengths l -> direct x d = false)).
    { clear -IH. induction IH as [|s l Hs _ IHl]; intros N N1 b0 R0 E1 m HN Hx HC; cbn in HN, HC.
      - injection HC as <- <-. exists b0. split_and!; [done|done|]. intros _ _ d Hd. by apply elem_of_nil in Hd.
      - destruct (scoped N s) as [N2|] eqn:H2; [|done]. destruct (statement_invariant_check (b0 :: R0) s) as [[E2 k]|] eqn:C2; [|done].
        destruct (Hs N N2 t H2 Hx b0 R0 E2 k C2) as (b2 & -> & Hb2 & HL2). destruct (count statement_invariant_check (b2 :: R0) l) as [[E3 k3]|] eqn:C3; [|done]. injection HC as <- <-.
        destruct (IHl N2 N1 b2 R0 E3 k3 HN (scoped_grow _ _ _ H2 _ Hx) C3) as (b3 & -> & Hb3 & HL3). exists b3. split_and!; [done|congruence|]. intros Hn Hg d Hd. cbn in Hd.
        apply elem_of_app in Hd as [Hd|Hd]; [apply HL2; [lia|done|done]|apply HL3; [lia| |done]]. cbn in Hg |- *. by rewrite Hb2. }
    destruct (G N N1 ∅ (b :: R) E1 m H1 Hx C1) as (b' & -> & Hb & HL). exists b. split_and!; [done|done|]. intros Hn Hg d Hd. cbn in Hd. apply HL; [done| |done].
    cbn. rewrite lookup_empty. done.
Qed.
Lemma parameter_lengths D D' : no_shadowing D = true -> handle_function_constants D = Some (D', 0) ->
  forall x d, x ∈ params D -> d ∈ array_lengths (Block (body D)) -> direct x d = false.
Proof.
  unfold no_shadowing, handle_function_constants.
  destruct (scoped (param_names D) (Block (body D))) as [N|] eqn:HN; [|done]. intros _.
  destruct (params_known (params D)) as ((b & Eb) & HK). cbv zeta in *. rewrite Eb in HK |- *.
  assert (N = param_names D) as ->.
  { cbn in HN. destruct (in_sequence scoped _ (body D)); [|done]. by injection HN as <-. }
  destruct (infer_ok (Block (body D)) _ _ HN [b] ltac:(done) HK) as (E' & s' & H1 & HK' & HP & _ & _ & _ & _).
  rewrite H1. cbn [mbind option_bind]. pose proof (inferred_erase _ _ _ _ H1) as He. intros H x d Hx Hd.
  inversion HP as [|? b' ? ? _ HP']; subst. inversion HP'; subst.
  assert (Hx' : (x, false) ∈ param_names D) by (apply elem_of_list_fmap; eauto).
  destruct (statement_invariant_check [b'] s') as [[E2 n]|] eqn:C; [|done]. cbn [mbind option_bind] in H.
  assert (n = 0) as -> by (destruct (expand_statement [∅] s') as [? []]; congruence).
  destruct (check_direct x s' (param_names D) (param_names D) false) with (b := b') (R := @nil (gmap string bool)) (E' := E2) (n := 0) as (b2 & _ & _ & HL); [|done|done|].
  { by rewrite <- scoped_erase, He, scoped_erase. }
  apply HL; [done| |].
  - destruct (HK' x false Hx') as ([] & Hg & Ht); [by specialize (Ht eq_refl)|done].
  - by rewrite <- array_lengths_erase, He, array_lengths_erase.
Qed.
