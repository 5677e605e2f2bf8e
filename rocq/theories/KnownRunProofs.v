(** The known/unknown analysis and two executions with different values of the signals. *)
From stdpp Require Import prelude gmap strings.
From Coq Require Import ZArith Lia.
From Verif Require Import EnvModel EnvSpec EnvProofs KnownModel KnownSpec KnownProofs.
Open Scope nat_scope.

Section main.
Context {V T : Type} (W : world V T) (P : gset string) (I1 I2 : @inputs V).
Context (over : forall old v, update W old [] v = Some v).
Notation state := (@state V T).

Definition low_cell (y : string) (o : option (tag * bool)) (o1 o2 : option V) : Prop :=
  match o, o1, o2 with
  | Some c, Some v1, Some v2 => (c.2 = true -> y ∈ P) /\ (c.1 = Known \/ y ∈ P -> v1 = v2)
  | None, None, None => True
  | _, _, _ => False
  end.
Fixpoint low (B : list tblock) (S1 S2 : list (gmap string V)) : Prop :=
  match B, S1, S2 with
  | [], [], [] => True
  | b :: B, s1 :: S1, s2 :: S2 => (forall y, low_cell y (b !! y) (s1 !! y) (s2 !! y)) /\ low B S1 S2
  | _, _, _ => False
  end.
Lemma low_look B S1 S2 y : low B S1 S2 -> low_cell y (look B y) (look S1 y) (look S2 y).
Proof.
  revert S1 S2. induction B as [|b B IH]; intros [|s1 S1] [|s2 S2]; cbn; try done. intros [H L]. specialize (H y).
  destruct (b !! y), (s1 !! y), (s2 !! y); try done. apply IH. done.
Qed.
Lemma low_nonempty B S1 S2 : low B S1 S2 -> B <> [] -> S1 <> [] /\ S2 <> [].
Proof. destruct B, S1, S2; done. Qed.
Lemma low_le B B' S1 S2 : le B B' -> low B S1 S2 -> low B' S1 S2.
Proof.
  intros [A H]. revert A B' S1 S2 H. induction B as [|b B IH]; intros A [|b' B'] [|s1 S1] [|s2 S2]; cbn; try done. intros [H HT] [L LT]. split; [|eauto].
  intros y. specialize (H y). specialize (L y). unfold same_cell, low_cell in *. destruct (b !! y) as [c|], (b' !! y) as [c'|], (s1 !! y), (s2 !! y); try done.
  case_bool_decide; [|subst; done]. destruct H as [E1 E2]. destruct L as [L1 L2]. split; [rewrite <- E1; done|].
  intros [Q|Q]; apply L2; [|auto]. left. destruct E2 as [?|E2]; [done|]. rewrite E2 in Q. done.
Qed.
Lemma low_changed (R : string -> tag * bool -> tag * bool -> Prop) (R1 R2 : string -> V -> V -> Prop) A B B' S1 S1' S2 S2' :
  low B S1 S2 -> changed R A B B' -> changed R1 A S1 S1' -> changed R2 A S2 S2' ->
  (forall y c c' v1 v1' v2 v2', y ∈ A -> R y c c' -> R1 y v1 v1' -> R2 y v2 v2' -> low_cell y (Some c) (Some v1) (Some v2) -> low_cell y (Some c') (Some v1') (Some v2')) ->
  low B' S1' S2'.
Proof.
  intros L H H1 H2 HR. revert A B' S1 S1' S2 S2' L H H1 H2 HR.
  induction B as [|b B IH]; intros A [|b' B'] [|s1 S1] [|s1' S1'] [|s2 S2] [|s2' S2']; cbn; try done.
  intros [L LT] [H HT] [H1 HT1] [H2 HT2] HR. split.
  - intros y. specialize (L y). specialize (H y). specialize (H1 y). specialize (H2 y). unfold same_cell in *.
    destruct (b !! y) as [c|], (b' !! y) as [c'|], (s1 !! y) as [v1|], (s1' !! y) as [v1'|], (s2 !! y) as [v2|], (s2' !! y) as [v2'|]; try done.
    case_bool_decide; [eapply HR; eauto|]. subst. exact L.
  - assert (D : dom s1 = dom b /\ dom s2 = dom b).
    { split; apply set_eq; intros y; specialize (L y); rewrite !elem_of_dom; unfold low_cell in L; destruct (b !! y), (s1 !! y), (s2 !! y); try done; split; intros [? ?]; eauto; done. }
    destruct D as [D1 D2]. rewrite D1 in HT1. rewrite D2 in HT2. eapply IH; [exact LT|exact HT|exact HT1|exact HT2|].
    intros y c c' v1 v1' v2 v2' Y. apply HR. set_solver.
Qed.
(** executions that may differ: what they assign becomes unknown *)
Lemma low_diverge A B B0 B' S1 S1' S2 S2' : low B S1 S2 -> changed Rf A B B0 -> changed Ru A B0 B' -> changed RT A S1 S1' -> changed RT A S2 S2' ->
  (forall y, y ∈ A -> y ∉ P) -> low B' S1' S2'.
Proof.
  intros L H H' H1 H2 HP.
  assert (HC : changed (fun _ c c' => c'.1 = Unknown /\ c.2 = c'.2) A B B').
  { rewrite <- (union_idemp_L A). eapply changed_trans; [|exact H|exact H']. intros y c c' c'' P1 P2. rewrite union_idemp_L.
    case_bool_decide; [|congruence]. unfold Ru in P2. subst c''. unfold Rf in P1. done. }
  eapply low_changed; [exact L|exact HC|exact H1|exact H2|]. intros y c c' v1 v1' v2 v2' Y [Q1 Q2] _ _ [L1 L2]. split; [rewrite <- Q2; done|].
  intros [Q|Q]; [rewrite Q1 in Q; done|]. destruct (HP y Y Q).
Qed.

(** *** Expressions *)
Lemma eval_var I (st : state) k x acc : eval W I st (Var k x acc) =
  match k with
  | KVar => v ← look (vars st) x; is ← indexes W I st acc; select W v is
  | KTag => get_tag W (tags st) x (fields acc)
  | _ => I x (at_place W I st acc)
  end.
Proof.
  unfold indexes. cbn. set (go := fix go (l : list access) : list (option V + string) := _). 
  assert (E : forall l, go l = at_place W I st l). { induction l as [|[e|f] l IH]; cbn; [done|..]; rewrite IH; done. }
  rewrite E. done.
Qed.
Lemma eval_op I (st : state) o args : eval W I st (Op o args) = den W o (eval W I st <$> args).
Proof. cbn. f_equal. Qed.
Definition agree (E : env) (st1 st2 : state) : Prop := low (bl E) (vars st1) (vars st2) /\ tags st1 = tags st2.
Lemma places_agree (st1 st2 : state) acc : Forall (acc_all (fun e => eval W I1 st1 e = eval W I2 st2 e)) acc -> at_place W I1 st1 acc = at_place W I2 st2 acc.
Proof. intros H. unfold at_place. apply list_fmap_ext. intros i a Ha. rewrite Forall_lookup in H. specialize (H i a Ha). destruct a; cbn in *; congruence. Qed.
Lemma pure_agree B (st1 st2 : state) e : low B (vars st1) (vars st2) -> tags st1 = tags st2 -> pure P e -> eval W I1 st1 e = eval W I2 st2 e.
Proof.
  intros L HT. induction e as [z|k x acc IH|o args IH] using expr_ind'; intros H.
  - done.
  - rewrite !eval_var. destruct k; cbn in H; try done.
    + destruct H as [HP H]. assert (HA : at_place W I1 st1 acc = at_place W I2 st2 acc).
      { apply places_agree. revert H. induction IH as [|[e|f] acc HE HA IHA]; intros H; constructor; cbn in *; try done; [apply HE, H|apply IHA, H|apply IHA, H]. }
      unfold indexes. rewrite HA. pose proof (low_look _ _ _ x L) as C. destruct (look B x), (look (vars st1) x), (look (vars st2) x); try done.
      destruct C as [_ C]. rewrite C; auto.
    + rewrite HT. done.
  - rewrite !eval_op. f_equal. revert H. induction IH as [|e args HE HA IHA]; intros H; cbn in *; [done|]. destruct H as [H1 H2]. f_equal; auto.
Qed.
Lemma pure_accs_agree B (st1 st2 : state) acc : low B (vars st1) (vars st2) -> tags st1 = tags st2 -> pure_accs P acc -> at_place W I1 st1 acc = at_place W I2 st2 acc.
Proof. intros L HT H. apply places_agree. eapply Forall_impl; [exact H|]. intros [e|f] Q; cbn; [|done]. eapply pure_agree; eauto. Qed.
Lemma tag_op E o args : tag_of E (Op o args) = tags_of E args.
Proof. cbn. induction args as [|a args IH]; cbn; [done|]. destruct (tag_of E a) as [[]| |]; cbn; auto. Qed.
Lemma reads_op o args : reads_ok P (Op o args) <-> Forall (reads_ok P) args.
Proof. cbn. induction args as [|a args IH]; cbn; [split; [constructor|done]|]. rewrite Forall_cons, IH. done. Qed.
Lemma known_agree E (st1 st2 : state) e : agree E st1 st2 -> unk_comps E -> reads_ok P e -> tag_of E e = Done Known -> eval W I1 st1 e = eval W I2 st2 e.
Proof.
  intros [L HT] U. induction e as [z|k x acc IH|o args IH] using expr_ind'; intros R H.
  - done.
  - rewrite !eval_var. destruct k; cbn in H; try done.
    + bd H. apply found_done in Ha. rewrite get_look in Ha. cbn in R. unfold indexes. rewrite (pure_accs_agree _ _ _ _ L HT R).
      pose proof (low_look _ _ _ x L) as C. rewrite Ha in C. destruct (look (vars st1) x), (look (vars st2) x); try done.
      destruct C as [C1 C2]. rewrite C2; [done|]. injection H as H. destruct a as [t []]; cbn in *; auto.
    + apply found_done in H. apply U in H. done.
    + rewrite HT. done.
  - rewrite tag_op in H. apply reads_op in R. rewrite !eval_op. f_equal. revert R H. induction IH as [|e args HE HA IHA]; intros R H; cbn in *; [done|].
    apply Forall_cons in R as [R1 R2]. bd H. destruct a; [|done]. f_equal; auto.
Qed.
Lemma access_agree E (st1 st2 : state) acc : agree E st1 st2 -> unk_comps E -> reads_ok_accs P acc -> access_tag E acc = Done Known -> at_place W I1 st1 acc = at_place W I2 st2 acc.
Proof.
  intros L U R H. apply places_agree. revert R H. induction acc as [|[e|f] acc IH]; intros R H; cbn in *; [constructor|..]; apply Forall_cons in R as [R1 R2].
  - bd H. destruct a; [|done]. constructor; [|auto]. cbn. eapply known_agree; eauto.
  - constructor; [done|auto].
Qed.
Lemma reads_accs k x acc : reads_ok P (Var k x acc) -> k <> KVar -> reads_ok_accs P acc.
Proof. intros H N. destruct k; [done|..]; cbn in H; induction acc as [|[e|f] acc IH]; constructor; cbn in *; auto; try apply H; apply IH; apply H. Qed.
Lemma refs_agree E (st1 st2 : state) e : agree E st1 st2 -> unk_comps E -> reads_ok P e -> unknown_index E e = Done false -> refs_of W I1 st1 e = refs_of W I2 st2 e.
Proof.
  intros L U. induction e as [z|k x acc IH|o args IH] using expr_ind'; intros R H.
  - done.
  - cbn [refs_of]. f_equal. f_equal. assert (k = KVar \/ k <> KVar) as [->|N] by (destruct k; auto; right; discriminate).
    + destruct L. eapply pure_accs_agree; eauto.
    + apply reads_accs in R; [|done]. cbn in H. bd H. injection H as H. case_bool_decide; [done|]. destruct a; [|done]. eapply access_agree; eauto.
  - apply reads_op in R. revert R H. cbn. induction IH as [|e args HE HA IHA]; intros R H; cbn in *; [done|].
    apply Forall_cons in R as [R1 R2]. bd H. destruct a; [done|]. f_equal; auto.
Qed.

(** *** Statements *)
Lemma unk_known t : unk t = false -> t = Known.
Proof. unfold unk. case_bool_decide; [done|]. destruct t; done. Qed.
Lemma when_nil b r : when b r = [] -> b = false.
Proof. destruct b; done. Qed.
Lemma app_nil_inv {A} (l l' : list A) : l ++ l' = [] -> l = [] /\ l' = [].
Proof. destruct l, l'; done. Qed.
Lemma dims_known E dims : dims_reports E dims = Done [] -> Forall (fun d => tag_of E d = Done Known) dims.
Proof.
  induction dims as [|d dims IH]; cbn; intros H; [constructor|]. bd H. bd H. injection H as H. apply app_nil_inv in H as [H1 ->].
  apply when_nil, unk_known in H1 as ->. constructor; auto.
Qed.
Lemma tag_unmentioned E E' x d : (forall y, y <> x -> look (bl E') y = look (bl E) y) -> components E' = components E -> mentions x d = false -> tag_of E' d = tag_of E d.
Proof.
  intros HL HC. induction d as [z|k y acc IH|o args IH] using expr_ind'; intros M.
  - done.
  - cbn in M. apply orb_false_iff in M as [M _]. case_bool_decide; [done|]. destruct k; cbn; try done; [|rewrite HC; done].
    rewrite !get_look, HL by congruence. done.
  - rewrite !tag_op. cbn in M. induction IH as [|e args HE HA IHA]; cbn in *; [done|]. apply orb_false_iff in M as [M1 M2]. rewrite HE by done.
    destruct (tag_of E e) as [[]| |]; cbn; auto.
Qed.
Lemma dims_agree E (st1 st2 : state) dims : agree E st1 st2 -> unk_comps E -> Forall (reads_ok P) dims -> Forall (fun d => tag_of E d = Done Known) dims ->
  mapM (eval W I1 st1) dims = mapM (eval W I2 st2) dims.
Proof.
  intros L U R H. induction H as [|d dims HD HDS IH]; cbn; [done|]. apply Forall_cons in R as [R1 R2]. rewrite (known_agree E st1 st2 d L U R1 HD), IH by done. done.
Qed.
Definition sound (s : stmt) : Prop := forall fuel E x, analyze fuel E s = Done x -> reports x = [] -> gram s -> disciplined P s -> unk_comps E ->
  forall st1 st2 st1' st2' t1 t2, agree E st1 st2 -> run W I1 st1 s st1' t1 -> run W I2 st2 s st2' t2 -> t1 = t2 /\ agree (environment x) st1' st2'.
Lemma disciplined_list l : disciplined P (Block l) -> Forall (disciplined P) l.
Proof. cbn. induction l as [|s l IH]; intros H; [constructor|]. constructor; cbn in *; [apply H|apply IH, H]. Qed.
Lemma sound_list fuel l : Forall sound l -> forall E x, iterate (fun E s => analyze fuel E s) E l = Done x -> reports x = [] -> Forall gram l -> Forall (disciplined P) l -> unk_comps E ->
  forall st1 st2 st1' st2' t1 t2, agree E st1 st2 -> runs W I1 st1 l st1' t1 -> runs W I2 st2 l st2' t2 -> t1 = t2 /\ agree (environment x) st1' st2'.
Proof.
  induction 1 as [|s l HS HL IH]; intros E x H R G D U st1 st2 st1' st2' t1 t2 L R1 R2.
  - injection H as <-. inversion R1; subst. inversion R2; subst. done.
  - rewrite iterate_cons in H. bd H. bd H. injection H as <-. cbn in R. apply app_nil_inv in R as [Ra Rb].
    apply Forall_cons in G as [Ga Gb]. apply Forall_cons in D as [Da Db]. inversion R1; subst. inversion R2; subst.
    match goal with H1 : run W I1 st1 s _ _, H2 : run W I2 st2 s _ _ |- _ => destruct (HS fuel E a Ha Ra Ga Da U _ _ _ _ _ _ L H1 H2) as [-> L1] end.
    pose proof (f_comps _ _ _ (facts_ok _ _ _ _ Ha) U) as U1.
    match goal with H1 : runs W I1 _ l _ _, H2 : runs W I2 _ l _ _ |- _ => destruct (IH _ _ Ha0 Rb Gb Db U1 _ _ _ _ _ _ L1 H1 H2) as [-> L2] end. done.
Qed.
(** a condition that evaluates to the same value, or only unknown things depend on it *)
Definition same_cond (c : expr) (st1 st2 : state) : Prop := eval W I1 st1 c = eval W I2 st2 c.
Lemma cond_cases E c t (st1 st2 : state) : agree E st1 st2 -> unk_comps E -> reads_ok P c -> tag_of E c = Done t -> (t = Known \/ pure P c) -> same_cond c st1 st2.
Proof. intros L U R H [->|Q]; [eapply known_agree; eauto|]. destruct L. eapply pure_agree; eauto. Qed.

Lemma sound_if c t f : sound t -> opt_all sound f -> sound (If c t f).
Proof.
  intros St Sf fuel E x H R G D U st1 st2 st1' st2' t1 t2 L R1 R2. pose proof (facts_ok _ _ _ _ H) as FF. cbn in H. bd H. bd H. bd H.
  destruct G as [[G|G] (L0 & Lt & Lf)]; [|done]. pose proof G as G'. cbn in G. apply andb_prop in G as [G1 Gf]. apply andb_prop in G1 as [Ct Gt].
  destruct D as (Rc & Pc & Dt & Df).
  pose proof (facts_ok _ _ _ _ Ha0) as Ft.
  assert (Kt : changed Rf (asg t) (bl E) (bl (environment a0))) by (apply (f_closed _ _ _ Ft); [left; done|done]).
  set (af := list_to_set (match f with Some f => assigned f | None => [] end) : gset string).
  assert (Kf : changed Rf af (bl E) (bl (environment a1))).
  { destruct f as [f|]; [|injection Ha1 as <-; apply changed_empty]. apply andb_prop in Gf as [Cf Gf]. apply (f_closed _ _ _ (facts_ok _ _ _ _ Ha1)); [left; done|done]. }
  injection H as <-. cbn [reports environment] in *. apply app_nil_inv in R as [Ra R]. apply app_nil_inv in R as [Rb R].
  set (vs := modified_variables a0 ∪ modified_variables a1) in *. set (E0 := merge (environment a0) (environment a1) pmax) in *.
  assert (LE : forall S1 S2, low (bl E0) S1 S2 -> low (bl (if unk a then set_unknown E0 (elements vs) else E0)) S1 S2).
  { intros S1 S2 Q. destruct (unk a); [|done]. eapply low_le; [apply set_unknown_le|exact Q]. }
  assert (same_cond c st1 st2 -> t1 = t2 /\ agree (if unk a then set_unknown E0 (elements vs) else E0) st1' st2') as SAME.
  { intros SC. unfold same_cond in SC.
    assert (Q : t1 = t2 /\ (agree (environment a0) st1' st2' \/ agree (environment a1) st1' st2')).
    { inversion R1; subst; inversion R2; subst; try congruence.
      - match goal with H1 : run W I1 st1 t _ _, H2 : run W I2 st2 t _ _ |- _ => destruct (St fuel E a0 Ha0 Ra (conj (or_introl Gt) Lt) Dt U _ _ _ _ _ _ L H1 H2) as [-> Q] end. auto.
      - apply andb_prop in Gf as [Cf Gf]. match goal with H1 : run W I1 st1 ?f _ _, H2 : run W I2 st2 ?f _ _ |- _ => destruct (Sf fuel E a1 Ha1 Rb (conj (or_introl Gf) Lf) Df U _ _ _ _ _ _ L H1 H2) as [-> Q] end. auto.
      - injection Ha1 as <-. auto. }
    destruct Q as [-> Q]. split; [done|]. split; [|destruct Q as [[_ Q]|[_ Q]]; exact Q]. apply LE. unfold E0. rewrite bl_merge.
    destruct Q as [[Q _]|[Q _]]; (eapply low_le; [|exact Q]); exists (asg t ∪ af); [eapply merge_le_l; eauto|eapply merge_le_r; eauto]. }
  destruct a eqn:Ea; [apply SAME; eapply cond_cases; eauto|]. destruct Pc as [Pc|Pc]; [apply SAME; eapply cond_cases; eauto|]. clear SAME.
  unfold unreachable in R. change (unk Unknown) with true in *. cbn [andb] in R. apply app_nil_inv in R as [Rc1 R]. apply app_nil_inv in R as [Rc2 Rc3]. apply when_nil in Rc1, Rc2, Rc3.
  assert (LD : loud (If c t f) = false). { rewrite <- (f_flags _ _ _ FF). unfold flags. cbn [constraints_declared tags_modified signals_declared]. rewrite Rc1, Rc2, Rc3. done. }
  destruct (run_facts_ok _ _ _ _ _ _ R1) as (K1 & _ & T1). destruct (run_facts_ok _ _ _ _ _ _ R2) as (K2 & _ & T2).
  specialize (K1 (or_introl G') eq_refl). specialize (K2 (or_introl G') eq_refl). destruct (T1 G' LD) as [-> TT1]. destruct (T2 G' LD) as [-> TT2].
  split; [done|]. split; [|rewrite TT1, TT2; apply L]. cbn.
  assert (EA : vs = asg (If c t f)).
  { pose proof (f_mod _ _ _ FF) as M. cbn [modified_variables] in M. rewrite M. apply set_eq. intros y. unfold asg. rewrite !elem_of_list_to_set. split; [apply directly_assigned|apply L0]. }
  destruct (set_unknown_spec (elements vs) E0 (NoDup_elements _)) as [SU _]. rewrite list_to_set_elements_L in SU. rewrite <- EA in K1, K2.
  eapply low_diverge; [apply L| |exact SU|exact K1|exact K2|].
  - unfold E0. rewrite bl_merge, EA. replace (asg (If c t f)) with (asg t ∪ af); [eapply merge_changed; eauto|]. unfold asg, af. cbn. rewrite list_to_set_app_L. done.
  - intros y Y. rewrite EA in Y. unfold asg in Y. rewrite elem_of_list_to_set in Y. unfold untouched in Pc. rewrite Forall_forall in Pc. apply Pc. done.
Qed.

Lemma lockstep c b G : (forall st1 st2, agree G st1 st2 -> same_cond c st1 st2) ->
  (forall st1 st2 st1' st2' t1 t2, agree G st1 st2 -> run W I1 st1 b st1' t1 -> run W I2 st2 b st2' t2 -> t1 = t2 /\ agree G st1' st2') ->
  forall st1 st1' t1, run W I1 st1 (While c b) st1' t1 -> forall st2 st2' t2, agree G st1 st2 -> run W I2 st2 (While c b) st2' t2 -> t1 = t2 /\ agree G st1' st2'.
Proof.
  intros HC HB st1 st1' t1 R1. remember (While c b) as s eqn:ES. induction R1; try discriminate; injection ES as -> ->; intros st2' st2'' t2' L R2.
  - specialize (HC _ _ L). unfold same_cond in HC. inversion R2; subst; [done|congruence].
  - pose proof (HC _ _ L) as HC'. unfold same_cond in HC'. inversion R2; subst; [congruence|].
    match goal with H1 : run W I1 _ b _ _, H2 : run W I2 _ b _ _ |- _ => destruct (HB _ _ _ _ _ _ L H1 H2) as [-> L1] end.
    match goal with H2 : run W I2 _ (While c b) _ _ |- _ => destruct (IHR1_2 eq_refl _ _ _ L1 H2) as [-> L2] end. done.
Qed.
Lemma sound_while c b : sound b -> sound (While c b).
Proof.
  intros Sb fuel E x H R G D U st1 st2 st1' st2' t1 t2 L R1 R2. pose proof (facts_ok _ _ _ _ H) as FF. cbn in H. bd H. bd H.
  apply rounds_last in Ha as (n & G0 & Y & HC & HY & Q1 & Q2 & Q3 & Q4 & Q5 & Q6 & HI).
  destruct G as [[G|G] (L0 & Lb)]; [|done]. pose proof G as G'. cbn in G. apply andb_prop in G as [Cb Gb]. destruct D as (Rc & Pc & Db).
  assert (asg b = list_to_set (directly b)) as EA. { apply set_eq. intros y. unfold asg. rewrite !elem_of_list_to_set. split; [apply L0|apply directly_assigned]. }
  pose proof (iter_le b fuel n G0 E (conj L0 Lb) G' (fun E x => facts_ok fuel b E x) HI) as LE.
  pose proof (iter_comps _ _ _ _ _ (fun E x => facts_ok fuel b E x) HI U) as UG.
  pose proof (facts_ok _ _ _ _ HY) as FY. pose proof (f_mod _ _ _ FY) as M.
  assert (KY : changed Rf (list_to_set (directly b)) (bl G0) (bl (environment Y))). { rewrite <- EA. apply (f_closed _ _ _ FY); [left; done|done]. }
  pose proof HC as HC'. rewrite M in HC. destruct (last_round _ _ _ _ HC KY) as [EE LY].
  assert (Ua : unk_comps (environment a)). { intros y t. rewrite (check_comps _ _ _ _ _ HC). apply (f_comps _ _ _ FY). done. }
  assert (AG : forall s1 s2, agree G0 s1 s2 <-> agree (environment a) s1 s2). { intros s1 s2. unfold agree. rewrite EE. done. }
  injection H as <-. cbn [reports environment] in *. apply app_nil_inv in R as [Ra R].
  assert (LG : agree G0 st1 st2). { destruct L as [L LT]. split; [|done]. eapply low_le; [eexists; exact LE|exact L]. }
  set (vs := modified_variables a) in *.
  assert (UP : forall s1 s2, agree G0 s1 s2 -> agree (if unk a0 then set_unknown (environment a) (elements vs) else environment a) s1 s2).
  { intros s1 s2 Q. destruct (unk a0); [|apply AG; done]. destruct Q as [Q QT]. split; [|done]. eapply low_le; [apply set_unknown_le|]. rewrite EE. done. }
  assert (SAME : a0 = Known \/ pure P c -> t1 = t2 /\ agree (if unk a0 then set_unknown (environment a) (elements vs) else environment a) st1' st2').
  { intros Q. edestruct (lockstep c b G0) as [-> LL]; [| |exact R1|exact LG|exact R2|split; [done|apply UP; exact LL]].
    - intros s1 s2 LS. apply AG in LS. eapply cond_cases; eauto.
    - intros s1 s2 s1' s2' u1 u2 LS B1 B2. rewrite Q1 in Ra. destruct (Sb fuel G0 Y HY Ra (conj (or_introl Gb) Lb) Db UG _ _ _ _ _ _ LS B1 B2) as [-> [L1 L2]].
      split; [done|]. split; [|done]. eapply low_le; [eexists; exact LY|exact L1]. }
  destruct a0 eqn:Ea; [apply SAME; auto|]. destruct Pc as [Pc|Pc]; [apply SAME; auto|]. clear SAME.
  unfold unreachable in R. change (unk Unknown) with true in *. cbn [andb] in R. apply app_nil_inv in R as [Rc1 R]. apply app_nil_inv in R as [Rc2 Rc3]. apply when_nil in Rc1, Rc2, Rc3.
  assert (LD : loud (While c b) = false). { rewrite <- (f_flags _ _ _ FF). unfold flags. cbn [constraints_declared tags_modified signals_declared]. rewrite Rc1, Rc2, Rc3. done. }
  destruct (run_facts_ok _ _ _ _ _ _ R1) as (K1 & _ & T1). destruct (run_facts_ok _ _ _ _ _ _ R2) as (K2 & _ & T2).
  specialize (K1 (or_introl G') eq_refl). specialize (K2 (or_introl G') eq_refl). destruct (T1 G' LD) as [-> TT1]. destruct (T2 G' LD) as [-> TT2].
  split; [done|]. split; [|rewrite TT1, TT2; apply L].
  assert (EV : vs = asg (While c b)). { rewrite Q3, M. symmetry. exact EA. }
  destruct (set_unknown_spec (elements vs) (environment a) (NoDup_elements _)) as [SU _]. rewrite list_to_set_elements_L in SU. rewrite <- EV in K1, K2.
  eapply low_diverge; [apply LG|rewrite <- EE; apply changed_refl; apply Rf_refl|exact SU|exact K1|exact K2|].
  intros y Y0. rewrite EV in Y0. unfold asg in Y0. rewrite elem_of_list_to_set in Y0. unfold untouched in Pc. rewrite Forall_forall in Pc. apply Pc. done.
Qed.

Lemma low_insert b B s1 S1 s2 S2 x c v : low (b :: B) (s1 :: S1) (s2 :: S2) -> (c.2 = true -> x ∈ P) -> low (<[x := c]> b :: B) (<[x := v]> s1 :: S1) (<[x := v]> s2 :: S2).
Proof.
  cbn. intros [H L] HC. split; [|done]. intros y. destruct (decide (y = x)) as [->|N].
  - rewrite !lookup_insert. cbn. split; auto.
  - rewrite !lookup_insert_ne by done. apply H.
Qed.
Lemma sound_declare k x dims : sound (Declare k x dims).
Proof.
  intros fuel E X H R G D U st1 st2 st1' st2' t1 t2 L R1 R2. destruct D as [D1 D2]. destruct G as [[G|G] _]; [|done]. cbn in G.
  assert (UE : unk_comps (environment X)) by exact (f_comps _ _ _ (facts_ok _ _ _ _ H) U).
  destruct k; cbn in H.
  - bd H. bd H. injection H as <-. apply found_done in Ha. cbn in R. subst a0. apply dims_known in Ha0.
    rewrite add_variable_rev in Ha. fold (bl E) in Ha. destruct (bl E) as [|b bs] eqn:EB; [done|]. injection Ha as <-.
    assert (KD : Forall (fun d => tag_of E d = Done Known) dims).
    { rewrite Forall_forall in Ha0 |- *. intros d Hd. rewrite <- (Ha0 d Hd). symmetry. apply (tag_unmentioned _ _ x).
      - intros y N. rewrite bl_with, EB. cbn. rewrite lookup_insert_ne by done. done.
      - done.
      - rewrite forallb_forall in G. specialize (G d ltac:(apply elem_of_list_In; done)). destruct (mentions x d); done. }
    inversion R1; subst; [|done]. inversion R2; subst; [|done]. split; [done|].
    match goal with H1 : mapM (eval W I1 st1) dims = Some ?v1, H2 : mapM (eval W I2 st2) dims = Some ?v2 |- _ =>
      rewrite (dims_agree E st1 st2 dims L U D1 KD) in H1; assert (v1 = v2) as -> by congruence end.
    destruct L as [L LT]. unfold agree. cbn [environment]. rewrite bl_with. rewrite EB in L. unfold declare in *.
    destruct st1 as [[|s1 S1] g1], st2 as [[|s2 S2] g2]; try done. cbn in LT. subst g2. cbn [vars tags] in *.
    repeat match goal with H : Some _ = Some _ |- _ => injection H as <- end. cbn [vars tags]. split; [|done].
    apply low_insert; [exact L|]. cbn. rewrite bool_decide_eq_true. intros Q. apply D2; [done|]. intros ->. cbn in Q. lia.
  - bd H. injection H as <-. cbn in R. subst a. apply dims_known in Ha.
    inversion R1; subst; inversion R2; subst; try done. pose proof (dims_agree E _ _ dims L U D1 Ha) as Q. split; [congruence|exact L].
  - bd H. injection H as <-. cbn in R. subst a. apply dims_known in Ha.
    inversion R1; subst; inversion R2; subst; try done. pose proof (dims_agree E _ _ dims L U D1 Ha) as Q. split; [congruence|exact L].
  - bd H. injection H as <-. cbn in R. subst a. apply dims_known in Ha. cbn [environment] in UE.
    inversion R1; subst; inversion R2; subst; try done. pose proof (dims_agree (add_component x Unknown E) st1' st2' dims L UE D1 Ha) as Q. split; [congruence|exact L].
  - injection H as <-. inversion R1; subst; inversion R2; subst; done.
Qed.
Ltac nokind := match goal with H : ?k = _ \/ ?k = _ |- _ => destruct H; discriminate end.
Lemma sound_assign k op x acc rhe : sound (Assign k op x acc rhe).
Proof.
  intros fuel E X H R G D U st1 st2 st1' st2' t1 t2 L R1 R2. cbn in H. bd H. bd H.
  destruct k.
  - bd H. bd H. injection H as <-. apply found_done in Ha1, Ha2. rewrite get_look in Ha1.
    destruct (set_var_spec _ _ _ _ _ Ha2 Ha1) as (C1 & _ & _ & _). destruct D as [D1 D2].
    inversion R1; subst; try nokind. inversion R2; subst; try nokind.
    split; [done|]. destruct L as [L LT]. split; [|exact LT]. cbn [environment vars].
    match goal with HS1 : store (vars st1) x ?w1 = Some _, HS2 : store (vars st2) x ?w2 = Some _, HL1 : look (vars st1) x = Some _, HL2 : look (vars st2) x = Some _ |- _ =>
      eapply (low_changed (fun y c c' => c = a1 /\ c' = (if negb a1.2 then (tmax a a0, a1.2) else match a1.1 with Known => (tmax a a0, a1.2) | Unknown => a1 end))
        (fun y v v' => v' = w1) (fun y v v' => v' = w2)); [exact L|apply C1; done|eapply changed_store; [exact HS1|exact HL1|done]|eapply changed_store; [exact HS2|exact HL2|done]|] end.
    intros y c c' u1 u1' u2 u2' Y%elem_of_singleton [-> ->] -> -> [B1 B2]. subst y. split.
    + intros Q. apply B1. destruct a1 as [[] []]; done.
    + intros Q. pose proof (low_look _ _ _ x L) as LX.
      repeat match goal with H : look _ x = _ |- _ => rewrite H in LX end. destruct LX as [X1 X2].
      destruct D2 as [(DP & DA & DR)|(DP & ->)].
      * pose proof (pure_agree _ st1 st2 rhe L LT DR) as E1. pose proof (pure_accs_agree _ st1 st2 acc L LT DA) as E2. unfold indexes in *. rewrite <- E2 in *. rewrite X2 in * by auto. congruence.
      * destruct Q as [Q|Q]; [|done]. assert (a1.2 = false) as A2. { destruct a1 as [t []]; [|done]. destruct DP. apply X1. done. }
        rewrite A2 in Q. cbn in Q. destruct a; [|done]. pose proof (known_agree E st1 st2 rhe (conj L LT) U D1 Ha) as E1.
        unfold indexes in *. cbn in *. repeat match goal with H : mret [] = Some _ |- _ => injection H as <- end. rewrite over in *. congruence.
  - destruct D as [D1 D2]. destruct op.
    + injection H as <-. inversion R1; subst; try nokind; try done. inversion R2; subst; try nokind; done.
    + injection H as <-. inversion R1; subst; try nokind; try done. inversion R2; subst; try nokind; done.
    + bd H. injection H as <-. cbn in R. apply app_nil_inv in R as [Ra Rb]. apply when_nil in Ra as ->. apply when_nil, unk_known in Rb as ->.
      inversion R1; subst; try done. inversion R2; subst; try done. split; [|exact L].
      rewrite (access_agree E st1' st2' acc L U D1 Ha0), (refs_agree E st1' st2' rhe L U D2 Ha1). done.
  - destruct D as [D1 D2]. destruct op.
    + injection H as <-. cbn in R. apply when_nil, unk_known in R as ->. inversion R1; subst; try nokind; try done. inversion R2; subst; try nokind; try done.
      split; [|exact L]. pose proof (known_agree E st1' st2' rhe L U D2 Ha) as Q. congruence.
    + injection H as <-. inversion R1; subst; try nokind; try done. inversion R2; subst; try nokind; done.
    + bd H. injection H as <-. cbn in R. apply app_nil_inv in R as [Ra Rb]. apply when_nil in Ra as ->. apply when_nil, unk_known in Rb as ->.
      inversion R1; subst; try done. inversion R2; subst; try done. split; [|exact L].
      rewrite (access_agree E st1' st2' acc L U D1 Ha0), (refs_agree E st1' st2' rhe L U D2 Ha1). done.
  - destruct D as [D1 D2]. injection H as <-. cbn in R. apply app_nil_inv in R as [Ra Rb]. apply when_nil, unk_known in Ra as ->. apply when_nil, unk_known in Rb as ->.
    inversion R1; subst; try nokind. inversion R2; subst; try nokind.
    split; [|exact L]. rewrite (access_agree E st1' st2' acc L U D1 Ha0). pose proof (known_agree E st1' st2' rhe L U D2 Ha) as Q. congruence.
  - destruct D as [D1 D2]. injection H as <-. cbn in R. apply app_nil_inv in R as [Ra Rb]. apply when_nil, unk_known in Ra as ->. apply when_nil, unk_known in Rb as ->.
    inversion R1; subst; try nokind. inversion R2; subst; try nokind.
    pose proof (known_agree E st1 st2 rhe L U D2 Ha) as Q. destruct L as [L LT]. assert (v = v0) as -> by congruence. rewrite LT. split; [done|]. split; [exact L|done].
Qed.
Lemma sound_all s : sound s.
Proof.
  induction s as [k x dims|k op x acc rhe|op rhe|l r|c t f IHt IHf|c b IHb|l IH|l IH|] using stmt_ind'.
  - apply sound_declare.
  - apply sound_assign.
  - intros fuel E X H R G D U st1 st2 st1' st2' t1 t2 L R1 R2. cbn in H. bd H. destruct op.
    + injection H as <-. inversion R1; subst; inversion R2; subst; done.
    + injection H as <-. inversion R1; subst; inversion R2; subst; done.
    + bd H. injection H as <-. cbn in R. apply when_nil in R as ->. inversion R1; subst; try done; inversion R2; subst; try done.
      split; [|exact L]. rewrite (refs_agree E st1' st2' rhe L U D Ha0). done.
  - intros fuel E X H R G [D1 D2] U st1 st2 st1' st2' t1 t2 L R1 R2. cbn in H. bd H. bd H. injection H as <-. cbn in R.
    apply app_nil_inv in R as [Ra Rb]. apply when_nil in Ra as ->. apply when_nil in Rb as ->. inversion R1; subst; inversion R2; subst.
    split; [|exact L]. rewrite (refs_agree E st1' st2' l L U D1 Ha), (refs_agree E st1' st2' r L U D2 Ha0). done.
  - apply sound_if; done.
  - apply sound_while; done.
  - intros fuel E X H R G D U st1 st2 st1' st2' t1 t2 L R1 R2. cbn in H. bd H. bd H. injection H as <-. apply found_done in Ha0. cbn in R.
    rewrite remove_variable_block_rev in Ha0. fold (bl (environment a)) in Ha0.
    destruct G as [[G|G] LO]; [|done]. pose proof (gram_list l G LO) as GL. apply disciplined_list in D.
    inversion R1; subst. inversion R2; subst.
    assert (EB : bl (add_variable_block E) = ∅ :: bl E). { unfold bl, add_variable_block, with_variables. cbn [variables]. rewrite reverse_app. done. }
    assert (LL : agree (add_variable_block E) (State (∅ :: vars st1) (tags st1)) (State (∅ :: vars st2) (tags st2))).
    { destruct L as [L LT]. split; [|exact LT]. rewrite EB. cbn. split; [|exact L]. intros y. rewrite !lookup_empty. done. }
    match goal with H1 : runs W I1 _ l _ _, H2 : runs W I2 _ l _ _ |- _ => destruct (sound_list fuel l IH _ _ Ha R GL D U _ _ _ _ _ _ LL H1 H2) as [-> [L1 L2]] end.
    split; [done|]. cbn in L1, L2. destruct (bl (environment a)) as [|bq bsq]; [done|]. injection Ha0 as <-. split; [|exact L2]. cbn [environment]. rewrite bl_with. apply L1.
  - intros fuel E X H R G D U st1 st2 st1' st2' t1 t2 L R1 R2. cbn in H. destruct G as [[G|G] LO]; [|done]. pose proof (gram_init l G LO) as GL.
    apply (disciplined_list l) in D. inversion R1; subst. inversion R2; subst.
    match goal with H1 : runs W I1 _ l _ _, H2 : runs W I2 _ l _ _ |- _ => exact (sound_list fuel l IH _ _ H R GL D U _ _ _ _ _ _ L H1 H2) end.
  - intros fuel E X H R G D U st1 st2 st1' st2' t1 t2 L R1 R2. injection H as <-. inversion R1; subst; inversion R2; subst. done.
Qed.
End main.
