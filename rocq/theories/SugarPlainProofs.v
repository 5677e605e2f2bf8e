(** After the cleaner no inline condition, array or initialisation block is left (for the theorem C60). *)
From stdpp Require Import prelude strings.
From Coq Require Import ZArith.
From Verif Require Import SugarModel SugarSpec SugarProofs SugarStmtProofs.
Open Scope nat_scope.

Lemma plain_var ds x acc : plain (Var ds x acc) = plain_accesses acc.
Proof. cbn. induction acc as [|[e|f] acc IH]; cbn; [done|by rewrite IH|done]. Qed.
Lemma plain_call ds f args : plain (Call ds f args) = forallb plain args.
Proof. cbn. induction args as [|e l IH]; cbn; [done|by rewrite IH]. Qed.
Lemma clear_var ds x acc : clear (Var ds x acc) = clear_accesses acc.
Proof. cbn. induction acc as [|[e|f] acc IH]; cbn; [done|by rewrite IH|done]. Qed.
Lemma clear_call ds f args : clear (Call ds f args) = forallb clear args.
Proof. cbn. induction args as [|e l IH]; cbn; [done|by rewrite IH]. Qed.
Lemma clear_arr ds args : clear (Arr ds args) = forallb clear args.
Proof. cbn. induction args as [|e l IH]; cbn; [done|by rewrite IH]. Qed.
(** at most the outermost constructor is sugar *)
Definition almost (e : expr) : bool :=
  match e with
  | Switch _ c t f => plain c && plain t && plain f
  | Arr _ vs => forallb plain vs
  | Uni _ v d => plain v && plain d
  | e => plain e
  end.
Lemma almost_plain e : almost e = true -> is_switch e || is_array e = false -> plain e = true.
Proof. by destruct e. Qed.
Lemma plain_almost e : plain e = true -> almost e = true.
Proof. by destruct e. Qed.
(** the statements in front *)
Definition fronts (i : list stmt) : Prop := Forall (fun s => match s with Decl _ _ => True | Assign _ [] _ e => almost e = true | _ => False end) i.
Lemma fronts_app i j : fronts i -> fronts j -> fronts (i ++ j).
Proof. by apply Forall_app_2. Qed.
Lemma filter_plain es : forall i k es' i' k', sugar_filter es i k = Some ((es', i'), k') -> forallb almost es = true -> fronts i ->
  forallb plain es' = true /\ fronts i'.
Proof.
  induction es as [|e es IH]; intros i k es' i' k'; cbn; [by intros [= <- <- <-]|].
  intros H [He Hes]%andb_prop Hi. apply bnd_some in H as ([e1 i1] & k1 & H1 & H). apply bnd_some in H as ([es1 i2] & k2 & H2 & [= <- <- <-]).
  assert (plain e1 = true /\ fronts i1) as [Hp Hf].
  { destruct (is_call e || is_switch e || is_array e) eqn:Es.
    - injection H1 as <- <- <-. split; [done|]. apply fronts_app; [done|]. repeat constructor. done.
    - injection H1 as <- <- <-. split; [|done]. apply almost_plain; [done|]. by destruct (is_call e). }
  destruct (IH _ _ _ _ _ H2 Hes Hf) as [Hps ?]. cbn. by rewrite Hp, Hps.
Qed.
Lemma filter1_plain e i k e' i' k' : sugar_filter1 e i k = Some ((e', i'), k') -> almost e = true -> fronts i -> plain e' = true /\ fronts i'.
Proof.
  unfold sugar_filter1. intros H He Hi. apply bnd_some in H as ([l i1] & k1 & H1 & H). destruct l as [|a [|]]; [done| |done]. injection H as <- <- <-.
  apply filter_plain in H1 as [Hp Hf]; [|cbn; by rewrite He|done]. cbn in Hp. by rewrite andb_true_r in Hp.
Qed.
Lemma filter2_plain a b i k a' b' i' k' : sugar_filter2 a b i k = Some ((a', b', i'), k') -> almost a = true -> almost b = true -> fronts i ->
  plain a' = true /\ plain b' = true /\ fronts i'.
Proof.
  unfold sugar_filter2. intros H Ha Hb Hi. apply bnd_some in H as ([l i1] & k1 & H1 & H). destruct l as [|a1 [|b1 [|]]]; [done..| |done]. injection H as <- <- <- <-.
  apply filter_plain in H1 as [Hp Hf]; [|cbn; by rewrite Ha, Hb|done]. cbn in Hp. rewrite andb_true_r in Hp. by apply andb_prop in Hp as [-> ->].
Qed.
Definition same_top (e e' : expr) : Prop := is_switch e' = is_switch e /\ is_array e' = is_array e /\ is_call e' = is_call e.
Lemma zeros_plain ds : forall k e i k', extend_zeros ds k = Some ((e, i), k') -> almost e = true /\ fronts i.
Proof.
  induction ds as [|d ds IH]; intros k e i k'; cbn; [intros [= <- <- <-]; split; [done|constructor]|].
  intros H. apply bnd_some in H as ([v i1] & k1 & H1 & H). destruct (IH _ _ _ _ H1) as [Hv Hi].
  apply bnd_some in H as ([[v2 n2] i2] & k2 & H2 & [= <- <- <-]). destruct (filter2_plain _ _ _ _ _ _ _ _ H2 Hv eq_refl Hi) as (Hp & Hq & Hf). cbn. by rewrite Hp, Hq.
Qed.
Section mixed.
Context (mixed : name -> bool).
Notation extend_expression := (extend_expression mixed).
Notation extend_statement := (extend_statement mixed).
Definition removes (e : expr) : Prop := forall inside ov k e' i k',
  extend_expression inside ov e k = Some ((e', i), k') -> clear e = true -> almost e' = true /\ fronts i /\ same_top e e'.
Lemma list_removes inside ov es : Forall removes es -> forall k es' i k', extend_list (fun e => extend_expression inside ov e) es k = Some ((es', i), k') ->
  forallb clear es = true -> forallb almost es' = true /\ fronts i.
Proof.
  induction 1 as [|e es He _ IH]; intros k es' i k'; cbn; [intros [= <- <- <-]; by split; [|constructor]|].
  intros H [Hc Hcs]%andb_prop. apply bnd_some in H as ([e1 i1] & k1 & H1 & H). apply bnd_some in H as ([es1 i2] & k2 & H2 & [= <- <- <-]).
  destruct (He _ _ _ _ _ _ H1 Hc) as (Ha & Hf & _). destruct (IH _ _ _ _ H2 Hcs) as [Has Hfs]. cbn. rewrite Ha, Has. split; [done|by apply fronts_app].
Qed.
Lemma accesses_removes inside acc : Forall (fun a => match a with Idx e => removes e | Fld _ => True end) acc -> forall k acc' i k',
  extend_accesses (fun e => extend_expression inside None e) acc k = Some ((acc', i), k') ->
  clear_accesses acc = true -> plain_accesses acc' = true /\ fronts i.
Proof.
  induction 1 as [|[e|f] acc He _ IH]; intros k acc' i k'; cbn; [intros [= <- <- <-]; by split; [|constructor]|..].
  - intros H [Hc Hcs]%andb_prop. apply bnd_some in H as ([e1 i1] & k1 & H1 & H). apply bnd_some in H as ([e2 i2] & k2 & H2 & H). apply bnd_some in H as ([acc1 i3] & k3 & H3 & [= <- <- <-]).
    destruct (He _ _ _ _ _ _ H1 Hc) as (Ha & Hf & _). destruct (filter1_plain _ _ _ _ _ _ H2 Ha Hf) as [Hp Hf2]. destruct (IH _ _ _ _ H3 Hcs) as [Has Hfs]. unfold plain_accesses. cbn. unfold plain_accesses in Has. rewrite Hp, Has. split; [done|by apply fronts_app].
  - intros H Hc. apply bnd_some in H as ([acc1 i1] & k1 & H1 & [= <- <- <-]). by apply (IH _ _ _ _ H1).
Qed.
Lemma expr_removes e : removes e.
Proof.
  induction e as [z|ds x acc IH|ds f args IH|o e IH|o l r IHl IHr|ds c t f IHc IHt IHf|ds vs IH|ds v d IHv IHd] using expr_ind';
    intros inside ov k e' i k'; cbn [SugarModel.extend_expression]; intros H Hc.
  - injection H as <- <- <-. split_and!; [done|constructor|done].
  - rewrite clear_var in Hc. apply bnd_some in H as ([acc1 i1] & k1 & H1 & H). destruct (accesses_removes _ _ IH _ _ _ _ H1 Hc) as [Hp Hf].
    assert (almost (Var (default ds ov) x acc1) = true) as Ha by (unfold almost; by rewrite plain_var).
    destruct (inside && mixed x).
    + injection H as <- <- <-. split_and!; [done| |done]. apply fronts_app; [done|]. repeat constructor. done.
    + injection H as <- <- <-. done.
  - rewrite clear_call in Hc. apply bnd_some in H as ([args1 i1] & k1 & H1 & H). apply bnd_some in H as ([args2 i2] & k2 & H2 & [= <- <- <-]).
    destruct (list_removes _ _ _ IH _ _ _ _ H1 Hc) as [Ha Hf]. destruct (filter_plain _ _ _ _ _ _ H2 Ha Hf) as [Hp Hf2].
    split_and!; [unfold almost; by rewrite plain_call|done..].
  - apply bnd_some in H as ([e1 i1] & k1 & H1 & H). apply bnd_some in H as ([e2 i2] & k2 & H2 & [= <- <- <-]).
    destruct (IH _ _ _ _ _ _ H1 Hc) as (Ha & Hf & _). destruct (filter1_plain _ _ _ _ _ _ H2 Ha Hf) as [Hp Hf2]. done.
  - cbn in Hc. apply andb_prop in Hc as [Hc1 Hc2]. apply bnd_some in H as ([l1 i1] & k1 & H1 & H). apply bnd_some in H as ([r1 i2] & k2 & H2 & H). apply bnd_some in H as ([[l2 r2] i3] & k3 & H3 & [= <- <- <-]).
    destruct (IHl _ _ _ _ _ _ H1 Hc1) as (Ha1 & Hf1 & _). destruct (IHr _ _ _ _ _ _ H2 Hc2) as (Ha2 & Hf2 & _).
    destruct (filter2_plain _ _ _ _ _ _ _ _ H3 Ha1 Ha2 (fronts_app _ _ Hf1 Hf2)) as (Hp1 & Hp2 & Hf3). split_and!; [|done..].
    cbn. rewrite Hp1. cbn. unfold fix_pow. destruct o; [done| |done]. destruct r2, l2; try done; by destruct (bool_decide _).
  - cbn in Hc. apply andb_prop in Hc as [[Hc Hc1]%andb_prop Hc2]. apply bnd_some in H as ([l1 i1] & k1 & H1 & H). apply bnd_some in H as ([r1 i2] & k2 & H2 & H). apply bnd_some in H as ([[l2 r2] i3] & k3 & H3 & [= <- <- <-]).
    destruct (IHt _ _ _ _ _ _ H1 Hc1) as (Ha1 & Hf1 & _). destruct (IHf _ _ _ _ _ _ H2 Hc2) as (Ha2 & Hf2 & _).
    destruct (filter2_plain _ _ _ _ _ _ _ _ H3 Ha1 Ha2 (fronts_app _ _ Hf1 Hf2)) as (Hp1 & Hp2 & Hf3). split_and!; [|done..].
    cbn. by rewrite Hc, Hp1, Hp2.
  - rewrite clear_arr in Hc. destruct (default ds ov) as [|n real]; [done|]. apply bnd_some in H as ([vs1 i1] & k1 & H1 & H). destruct (list_removes _ _ _ IH _ _ _ _ H1 Hc) as [Ha Hf].
    apply bnd_some in H as ([vs2 i2] & k2 & H2 & H). apply bnd_some in H as ([vs3 i3] & k3 & H3 & [= <- <- <-]).
    assert (forallb almost vs2 = true /\ fronts i2) as [Ha2 Hf2].
    { destruct (length vs1 <? n); [|by injection H2 as <- <- <-]. apply bnd_some in H2 as ([z i4] & k4 & H4 & [= <- <- <-]). apply zeros_plain in H4 as [Hz Hfz].
      split; [|by apply fronts_app]. rewrite forallb_app, Ha. cbn. clear -Hz. induction (n - length vs1); cbn; [done|by rewrite Hz]. }
    destruct (filter_plain _ _ _ _ _ _ H3 Ha2 Hf2) as [Hp Hf3]. done.
  - cbn in Hc. apply andb_prop in Hc as [Hc1 Hc2]. apply bnd_some in H as ([l1 i1] & k1 & H1 & H). apply bnd_some in H as ([r1 i2] & k2 & H2 & H). apply bnd_some in H as ([[l2 r2] i3] & k3 & H3 & [= <- <- <-]).
    destruct (IHv _ _ _ _ _ _ H1 Hc1) as (Ha1 & Hf1 & _). destruct (IHd _ _ _ _ _ _ H2 Hc2) as (Ha2 & Hf2 & _).
    destruct (filter2_plain _ _ _ _ _ _ _ _ H3 Ha1 Ha2 (fronts_app _ _ Hf1 Hf2)) as (Hp1 & Hp2 & Hf3). split_and!; [|done..].
    cbn. by rewrite Hp1, Hp2.
Qed.

(** ** Statements *)
Definition half (s : stmt) : bool :=
  match s with
  | Assign _ acc _ e => plain_accesses acc && almost e
  | Equal l r => almost l && almost r && negb (is_switch l || is_switch r)
  | Return e => almost e
  | s => translatable s
  end.
Lemma elements_plain x acc op vs : forall i, plain_accesses acc = true -> forallb plain vs = true -> forallb translatable (element_assigns x acc op i vs) = true.
Proof.
  induction vs as [|v vs IH]; intros i Ha; cbn; [done|]. intros [Hv Hvs]%andb_prop. rewrite IH by done.
  unfold plain_accesses in *. rewrite forallb_app, Ha, Hv. done.
Qed.
Lemma replicate_plain n v : plain v = true -> forallb plain (replicate n v) = true.
Proof. intros H. induction n; cbn; [done|by rewrite H]. Qed.
Lemma single_plain x acc op e l : into_single_substitution x acc op e = Some l -> plain_accesses acc = true -> almost e = true -> forallb translatable l = true.
Proof.
  intros H Ha He. destruct e as [| | | | |ds c t f|ds vs|ds v d]; cbn [into_single_substitution] in H;
    try (injection H as <-; cbn [forallb translatable]; rewrite Ha; cbn [almost] in He; rewrite He; done).
  - injection H as <-. cbn in He |- *. apply andb_prop in He as [[-> ->]%andb_prop ->]. by rewrite Ha.
  - injection H as <-. by apply elements_plain.
  - cbn in He. apply andb_prop in He as [Hv Hd]. destruct d; try done. destruct (z <? 0)%Z; [done|]. injection H as <-. apply elements_plain; [done|by apply replicate_plain].
Qed.
Lemma equal_elements_plain ls : forall rs l, equal_elements ls rs = Some l -> forallb plain ls = true -> forallb plain rs = true -> forallb translatable l = true.
Proof.
  induction ls as [|a ls IH]; intros rs l; cbn; [by intros [= <-]|]. destruct rs as [|b rs]; [done|]. intros (l1 & H & ->)%fmap_Some. cbn.
  intros [-> ?]%andb_prop [-> ?]%andb_prop. cbn. by eapply IH.
Qed.
Lemma lhe_plain a b l : lhe_array_ce a b = Some l -> almost a = true -> almost b = true -> forallb translatable l = true.
Proof.
  intros H Ha Hb. destruct a as [| | | | | |ds vs|]; try done. cbn in H. destruct b as [|ds' x acc| | | | |ds' ws|ds' v d]; try (by injection H as <-).
  - eapply equal_elements_plain; [done..|]. unfold almost in Hb. rewrite plain_var in Hb. clear -Hb. generalize 0%Z, (length vs). intros i m. revert i.
    induction m as [|m IH]; intros i; cbn [elements_of forallb]; [done|]. rewrite IH, plain_var. unfold plain_accesses in *. by rewrite forallb_app, Hb.
  - by eapply equal_elements_plain.
  - eapply equal_elements_plain; [done..|]. apply replicate_plain. cbn in Hb. by apply andb_prop in Hb as [? _].
Qed.
Lemma single_equal_plain a b l : into_single_constraint_equality a b = Some l -> almost a = true -> almost b = true -> is_switch a || is_switch b = false -> forallb translatable l = true.
Proof.
  intros H Ha Hb Hs. unfold into_single_constraint_equality in H. destruct (is_array a) eqn:E1; [by eapply lhe_plain|]. destruct (is_array b) eqn:E2; [by eapply lhe_plain|].
  injection H as <-. apply orb_false_iff in Hs as [Hs1 Hs2]. cbn. by rewrite (almost_plain a), (almost_plain b) by (done || by rewrite ?Hs1, ?Hs2, ?E1, ?E2).
Qed.
Definition is_assign s := match s with Assign _ _ _ _ => true | _ => false end.
Definition is_equal s := match s with Equal _ _ => true | _ => false end.
Definition half1 (s : stmt) : bool := if is_assign s then translatable s else half s.
Definition half2 (s : stmt) : bool := if is_equal s then translatable s else half1 s.
Lemma translatable_half s : translatable s = true -> half s = true.
Proof.
  destruct s; cbn; try done; intros H; apply andb_prop in H as [H1 H2].
  - by rewrite H1, plain_almost.
  - rewrite !plain_almost by done. by destruct l, r.
  - by apply plain_almost.
Qed.
Lemma translatable_half2 s : translatable s = true -> half2 s = true.
Proof. intros H. unfold half2, half1. rewrite H, (translatable_half _ H). by destruct (is_equal s), (is_assign s). Qed.
Lemma translatable_half1 s : translatable s = true -> half1 s = true.
Proof. intros H. unfold half1. rewrite H, (translatable_half _ H). by destruct (is_assign s). Qed.
Lemma forallb_mono {A} (f g : A -> bool) l : (forall a, f a = true -> g a = true) -> forallb f l = true -> forallb g l = true.
Proof. intros H. rewrite !forallb_forall. auto. Qed.
Lemma substitutions_plain l : forall l', map_substitutions l = Some l' -> forallb half l = true -> forallb half1 l' = true.
Proof.
  induction l as [|s l IH]; intros l'; cbn; [by intros [= <-]|]. intros H [Hs Hl]%andb_prop. apply bind_Some in H as (a & Ha & H). apply bind_Some in H as (b & Hb & [= <-]).
  rewrite forallb_app, (IH _ Hb Hl), andb_true_r. destruct s; try (injection Ha as <-; cbn [forallb]; rewrite andb_true_r; exact Hs).
  cbn in Hs. apply andb_prop in Hs as [H1 H2]. eapply forallb_mono; [apply translatable_half1|]. by eapply single_plain.
Qed.
Lemma equalities_plain l : forall l', map_constraint_equalities l = Some l' -> forallb half1 l = true -> forallb half2 l' = true.
Proof.
  induction l as [|s l IH]; intros l'; cbn; [by intros [= <-]|]. intros H [Hs Hl]%andb_prop. apply bind_Some in H as (a & Ha & H). apply bind_Some in H as (b & Hb & [= <-]).
  rewrite forallb_app, (IH _ Hb Hl), andb_true_r. destruct s; try (injection Ha as <-; cbn [forallb]; rewrite andb_true_r; exact Hs).
  cbn in Hs. apply andb_prop in Hs as [[H1 H2]%andb_prop H3%negb_true_iff]. eapply forallb_mono; [apply translatable_half2|]. by eapply single_equal_plain.
Qed.
Lemma returns_plain l : forall id l', map_returns l id = Some l' -> forallb half2 l = true -> forallb translatable l' = true.
Proof.
  induction l as [|s l IH]; intros id l'; [by intros [= <-]|]. cbn [map_returns forallb]. intros H [Hs Hl]%andb_prop.
  destruct s; try (apply fmap_Some in H as (l1 & H & ->); cbn [forallb]; rewrite (IH _ _ H Hl), andb_true_r; exact Hs).
  cbn in Hs. destruct (is_array e || is_switch e || is_call e) eqn:Es.
  - apply bind_Some in H as (a & Ha & H). apply bind_Some in H as (b & Hb & [= <-]). cbn. rewrite forallb_app. cbn. rewrite (IH _ _ Hb Hl), andb_true_r.
    by eapply single_plain.
  - apply fmap_Some in H as (l1 & H & ->). cbn. rewrite (IH _ _ H Hl), andb_true_r. rewrite almost_plain; [|done|]; by destruct (is_array e), (is_switch e), (is_call e).
Qed.
Lemma passes_plain l id l' : passes l id = Some l' -> forallb half l = true -> forallb translatable l' = true.
Proof.
  unfold passes. intros H Hl. apply bind_Some in H as (a & Ha & H). apply bind_Some in H as (b & Hb & H).
  eapply returns_plain; [done|]. eapply equalities_plain; [done|]. by eapply substitutions_plain.
Qed.
Lemma fronts_half i : fronts i -> forallb half i = true.
Proof. induction 1 as [|s i Hs _ IH]; [done|]. cbn. rewrite IH, andb_true_r. destruct s as [|? [|] | | | | | | | |]; try done. Qed.
(** what is left of a statement: ready for the passes, or for the translation if it is not in a block *)
Definition cleans (s : stmt) : Prop := forall loose k s' i k', extend_statement s k = Some ((s', i), k') -> removable loose s = true ->
  fronts i /\ (if loose then translatable s' else half s') = true.
Lemma log_plain args : forall k args' i k', extend_log mixed args k = Some ((args', i), k') -> removable false (Log args) = true ->
  fronts i /\ translatable (Log args') = true.
Proof.
  induction args as [|[t|e] args IH]; intros k args' i k'; cbn [extend_log].
  - intros [= <- <- <-] _. by split; [constructor|].
  - intros H Hr. apply bnd_some in H as ([args1 i1] & k1 & H1 & [= <- <- <-]). by apply (IH _ _ _ _ H1).
  - intros H Hr. cbn in Hr. apply andb_prop in Hr as [[Hc Hn%negb_true_iff]%andb_prop Hr]. apply bnd_some in H as ([e1 i1] & k1 & H1 & H). apply bnd_some in H as ([args1 i2] & k2 & H2 & [= <- <- <-]).
    destruct (IH _ _ _ _ H2 Hr) as [Hf Ht]. destruct (expr_removes _ _ _ _ _ _ _ H1 Hc) as (Ha & Hf1 & T1 & T2 & _). split; [by apply fronts_app|].
    cbn. rewrite almost_plain; [exact Ht|done|by rewrite T1, T2].
Qed.
Lemma list_cleans l : Forall (fun s => cleans s /\ match s with Init ss => Forall cleans ss | _ => True end) l -> forall k l1 k',
  map_stmts_with_sugar (fun s => extend_statement s) l k = Some (l1, k') -> removable false (Block l) = true -> forallb half l1 = true.
Proof.
  assert (forall s, cleans s -> forall k l1 k', one mixed s k = Some (l1, k') -> removable false s = true -> forallb half l1 = true) as Hone.
  { intros s Hs k l1 k' H Hr. apply bnd_some in H as ([s' i] & k1 & H & [= <- <-]). destruct (Hs _ _ _ _ _ H Hr) as [Hf Hh]. rewrite forallb_app, (fronts_half _ Hf). cbn. by rewrite Hh. }
  induction 1 as [|s l [Hs Hi] _ IH]; intros k l1 k'; [by intros [= <- <-]|].
  intros H Hr. cbn in Hr. apply andb_prop in Hr as [Hr Hrs]. apply bnd_some in H as (a & k1 & H1 & H). apply bnd_some in H as (b & k2 & H2 & [= <- <-]).
  rewrite forallb_app, (IH _ _ _ H2 Hrs), andb_true_r. destruct s; try (by eapply Hone).
  clear -Hi Hr H1 Hone. cbn in Hr. revert k a k1 H1 Hr. induction Hi as [|s ss Hs _ IH]; intros k a k1; [by intros [= <- <-]|].
  intros H [Hr Hrs]%andb_prop. apply bnd_some in H as (a1 & k2 & H1 & H). apply bnd_some in H as (b & k3 & H2 & [= <- <-]). rewrite forallb_app, (IH _ _ _ H2 Hrs), andb_true_r. by eapply Hone.
Qed.
Lemma stmt_cleans s : cleans s /\ match s with Init ss => Forall cleans ss | _ => True end.
Proof.
  induction s as [x ds|x acc op e|l r|c t f IHt IHf|c b IHb|l IH|l IH|e|args|e] using stmt_ind'; split; try done;
    try (intros loose k s' i k' H Hr; cbn [SugarModel.extend_statement] in H).
  - injection H as <- <- <-. split; [constructor|by destruct loose].
  - cbn in Hr. apply andb_prop in Hr as [[Ha He]%andb_prop Hl%negb_true_iff]. apply bnd_some in H as ([e1 i1] & k1 & H1 & H). apply bnd_some in H as ([acc1 i2] & k2 & H2 & [= <- <- <-]).
    destruct (expr_removes _ _ _ _ _ _ _ H1 He) as (Hal & Hf1 & T1 & T2 & _). destruct (accesses_removes false acc) with (2 := H2) as [Hp Hf2]; [|done|].
    { clear. induction acc as [|[e|] acc IH]; constructor; auto using expr_removes. }
    split; [by apply fronts_app|]. destruct loose; cbn; rewrite Hp; [|done]. apply almost_plain; [done|]. rewrite T1, T2. exact Hl.
  - cbn in Hr. apply andb_prop in Hr as [[[Hl Hrr]%andb_prop Hs%negb_true_iff]%andb_prop Ho%negb_true_iff]. apply bnd_some in H as ([l1 i1] & k1 & H1 & H). apply bnd_some in H as ([r1 i2] & k2 & H2 & [= <- <- <-]).
    destruct (expr_removes _ _ _ _ _ _ _ H1 Hl) as (Ha1 & Hf1 & T1 & T2 & _). destruct (expr_removes _ _ _ _ _ _ _ H2 Hrr) as (Ha2 & Hf2 & U1 & U2 & _).
    split; [by apply fronts_app|]. apply orb_false_iff in Hs as [S1 S2]. destruct loose; cbn.
    + apply orb_false_iff in Ho as [O1 O2]. rewrite (almost_plain l1), (almost_plain r1); try done; congruence || (rewrite ?T1, ?T2, ?U1, ?U2, ?S1, ?S2; done).
    + rewrite Ha1, Ha2, T1, U1, S1, S2. done.
  - cbn in Hr. apply andb_prop in Hr as [[Hc Ht]%andb_prop Hf]. apply bnd_some in H as ([t' i1] & k1 & H1 & H). apply bnd_some in H as ([f' i2] & k2 & H2 & H). apply bnd_some in H as ([c' i3] & k3 & H3 & H). apply bnd_some in H as ([c2 i4] & k4 & H4 & [= <- <- <-]).
    destruct (proj1 IHt _ _ _ _ _ H1 Ht) as [F1 T1]. destruct (expr_removes _ _ _ _ _ _ _ H3 Hc) as (Ha & F3 & _).
    assert (fronts i2 /\ match f' with Some f => translatable f | None => true end = true) as [F2 T2].
    { destruct f as [f|]; [|injection H2 as <- <- <-; by split; [constructor|]]. apply bnd_some in H2 as ([f1 i5] & k5 & H5 & [= <- <- <-]). by apply (proj1 IHf _ _ _ _ _ H5 Hf). }
    destruct (filter1_plain _ _ _ _ _ _ H4 Ha) as [Hp F4]; [by repeat apply fronts_app|]. split; [done|].
    assert (translatable (If c2 t' f') = true) by (cbn; by rewrite Hp, T1, T2). by destruct loose.
  - cbn in Hr. apply andb_prop in Hr as [Hc Hb]. apply bnd_some in H as ([b' i1] & k1 & H1 & H). apply bnd_some in H as ([c' i2] & k2 & H2 & H). apply bnd_some in H as ([c2 i3] & k3 & H3 & [= <- <- <-]).
    destruct (proj1 IHb _ _ _ _ _ H1 Hb) as [F1 T1]. destruct (expr_removes _ _ _ _ _ _ _ H2 Hc) as (Ha & F2 & _).
    destruct (filter1_plain _ _ _ _ _ _ H3 Ha) as [Hp F3]; [by apply fronts_app|]. split; [done|].
    assert (translatable (While c2 b') = true) by (cbn; by rewrite Hp, T1). by destruct loose.
  - destruct (map_stmts_with_sugar _ l k) as [[l1 k1]|] eqn:E; [|done]. apply bind_Some in H as (l2 & H2 & H). apply bind_Some in H as (l3 & H3 & H). apply bind_Some in H as (l4 & H4 & [= <- <- <-]).
    apply list_cleans in E; [|done|by destruct loose]. assert (passes l1 k1 = Some l4) as Hp by (unfold passes; rewrite H2; cbn; by rewrite H3).
    apply passes_plain in Hp; [|done]. split; [constructor|]. assert (translatable (Block l4) = true) by (clear -Hp; cbn; induction l4; cbn in *; [done|]; apply andb_prop in Hp as [-> ?]; auto). by destruct loose.
  - eapply Forall_impl; [exact IH|by intros s []].
  - cbn in Hr. apply andb_prop in Hr as [He Hl%negb_true_iff]. apply bnd_some in H as ([e1 i1] & k1 & H1 & [= <- <- <-]). destruct (expr_removes _ _ _ _ _ _ _ H1 He) as (Ha & Hf & T1 & T2 & T3).
    split; [done|]. destruct loose; [|done]. cbn in Hl. apply orb_false_iff in Hl as [Hl Hl3]. cbn. rewrite almost_plain; [by rewrite T3, Hl3|done|by rewrite T1, T2].
  - apply bnd_some in H as ([args1 i1] & k1 & H1 & [= <- <- <-]). destruct (log_plain _ _ _ _ _ H1) as [Hf Ht]; [by destruct loose|]. split; [done|by destruct loose].
  - cbn in Hr. apply andb_prop in Hr as [He Hl%negb_true_iff]. apply bnd_some in H as ([e1 i1] & k1 & H1 & [= <- <- <-]). destruct (expr_removes _ _ _ _ _ _ _ H1 He) as (Ha & Hf & T1 & T2 & T3).
    split; [done|]. assert (plain e1 = true) by (apply almost_plain; [done|by rewrite T1, T2]). by destruct loose.
Qed.
Lemma clean_plain body body' : clean_sugar mixed body = Some body' -> removable true body = true -> translatable body' = true.
Proof.
  unfold clean_sugar. intros H Hr. destruct (extend_statement body 0) as [[[s i] k]|] eqn:E; [|done]. destruct i; [|done]. injection H as <-.
  by apply (proj1 (stmt_cleans body) _ _ _ _ _ E) in Hr as [_ ?].
Qed.
End mixed.
