(** Replacing variables by expressions of the same value does not change what functions return. *)
From stdpp Require Import prelude gmap strings.
From Coq Require Import ZArith.
From Verif Require Import ConstantsModel ConstantsSpec.
Open Scope string_scope.
Open Scope list_scope.
Open Scope nat_scope.

(** ** Induction *)
Section expr_ind.
Context (Q : expr -> Prop)
  (HN : forall z, Q (Number z)) (HI : forall o l r, Q l -> Q r -> Q (InfixOp o l r)) (HP : forall o e, Q e -> Q (PrefixOp o e))
  (HS : forall c t f, Q c -> Q t -> Q f -> Q (InlineSwitch c t f))
  (HV : forall x idx, Forall Q idx -> Q (VariableOf x idx)) (HC : forall f l, Forall Q l -> Q (Call f l))
  (HA : forall l, Forall Q l -> Q (ArrayInLine l)) (HU : forall v d, Q v -> Q d -> Q (UniformArray v d)).
Fixpoint expr_ind' (e : expr) : Q e :=
  let all := fix all l : Forall Q l := match l with [] => Forall_nil_2 _ | e :: l => Forall_cons_2 _ _ _ (expr_ind' e) (all l) end in
  match e with
  | Number z => HN z
  | InfixOp o l r => HI o l r (expr_ind' l) (expr_ind' r)
  | PrefixOp o e => HP o e (expr_ind' e)
  | InlineSwitch c t f => HS c t f (expr_ind' c) (expr_ind' t) (expr_ind' f)
  | VariableOf x idx => HV x idx (all idx)
  | Call f l => HC f l (all l)
  | ArrayInLine l => HA l (all l)
  | UniformArray v d => HU v d (expr_ind' v) (expr_ind' d)
  end.
End expr_ind.
Section stmt_ind.
Context (Q : stmt -> Prop)
  (HF : forall c t f, Q t -> (forall s, f = Some s -> Q s) -> Q (IfThenElse c t f)) (HW : forall c s, Q s -> Q (While c s))
  (HR : forall e, Q (Return e)) (HI : forall l, Forall Q l -> Q (InitializationBlock l)) (HD : forall x d c, Q (Declaration x d c))
  (HS : forall x i e, Q (Substitution x i e)) (HL : forall l, Q (LogCall l)) (HA : forall e, Q (Assert e))
  (HB : forall l, Forall Q l -> Q (Block l)).
Fixpoint stmt_ind' (s : stmt) : Q s :=
  let all := fix all l : Forall Q l := match l with [] => Forall_nil_2 _ | e :: l => Forall_cons_2 _ _ _ (stmt_ind' e) (all l) end in
  match s with
  | IfThenElse c t f => HF c t f (stmt_ind' t)
    match f with Some s => fun s' E => match E in _ = o return match o with Some s' => Q s' | None => True end with eq_refl => stmt_ind' s end | None => fun s' E => ltac:(discriminate E) end
  | While c s => HW c s (stmt_ind' s)
  | Return e => HR e
  | InitializationBlock l => HI l (all l)
  | Declaration x d c => HD x d c
  | Substitution x i e => HS x i e
  | LogCall l => HL l
  | Assert e => HA e
  | Block l => HB l (all l)
  end.
End stmt_ind.

(** ** Names *)
Definition any {A} (Q : A -> Prop) : list A -> Prop := fix go l := match l with [] => False | a :: l => Q a \/ go l end.
Lemma any_exists {A} (Q : A -> Prop) l : any Q l <-> exists a, a ∈ l /\ Q a.
Proof.
  induction l as [|a l IH]; cbn.
  - split; [done|]. intros (a & H & _). inversion H.
  - rewrite IH. split.
    + intros [H|(b & H & Hb)]; [exists a|exists b]; split; auto; [left|by right].
    + intros (b & H & Hb). inversion H; subst; [auto|right; eauto].
Qed.
(** the variables in an expression *)
Fixpoint mentions (y : string) (e : expr) : Prop :=
  match e with
  | Number _ => False
  | InfixOp _ l r | UniformArray l r => mentions y l \/ mentions y r
  | PrefixOp _ e => mentions y e
  | InlineSwitch c t f => mentions y c \/ mentions y t \/ mentions y f
  | VariableOf x idx => y = x \/ any (mentions y) idx
  | Call _ l | ArrayInLine l => any (mentions y) l
  end.
(** the variables declared or assigned in a statement *)
Fixpoint touches (y : string) (s : stmt) : Prop :=
  match s with
  | IfThenElse _ t f => touches y t \/ match f with Some f => touches y f | None => False end
  | While _ s => touches y s
  | InitializationBlock l | Block l => any (touches y) l
  | Declaration x _ _ | Substitution x _ _ => y = x
  | _ => False
  end.
Notation touches_in y l := (any (touches y) l).

Lemma touches_dec y s : touches y s \/ ~ touches y s.
Proof.
  induction s as [c t f Ht Hf|c s IH| |l IH| | | | |l IH] using stmt_ind'; cbn; try tauto.
  - destruct f as [f|]; [|tauto]. destruct (Hf f eq_refl); tauto.
  - induction IH as [|s l Hs _ IHl]; [right; cbn; tauto|]. cbn. tauto.
  - destruct (decide (y = x)); auto.
  - destruct (decide (y = x)); auto.
  - induction IH as [|s l Hs _ IHl]; [right; cbn; tauto|]. cbn. tauto.
Qed.

Section run.
Context (den1 : string -> Z -> option Z) (den2 : string -> Z -> Z -> option Z) (call : string -> list val -> option val).
Notation eval := (eval results den1 den2 call).
Notation exec := (exec results den1 den2 call).
Notation numbers := (numbers results den1 den2 call).
Notation sequence := (sequence results).
Notation all := (all results).

Lemma all_ext {A B} (f g : A -> option B) l : Forall (fun a => f a = g a) l -> all f l = all g l.
Proof. induction 1 as [|a l H _ IH]; [done|]. cbn. by rewrite H, IH. Qed.
Lemma all_map {A B C} (f : B -> option C) (h : A -> B) l : all f (h <$> l) = all (fun a => f (h a)) l.
Proof. induction l as [|a l IH]; [done|]. cbn. by rewrite IH. Qed.

(** *** Expressions depend on the variables they mention only *)
Lemma eval_ext σ τ e : (forall y, mentions y e -> get σ y = get τ y) -> eval σ e = eval τ e.
Proof.
  induction e as [z|o l r Hl Hr|o e He|c t f Hc Ht Hf|x idx Hi|f l Hl|l Hl|v d Hv Hd] using expr_ind'; intros E; cbn.
  - done.
  - rewrite Hl, Hr; [done|intros; apply E; cbn; tauto..].
  - rewrite He; [done|intros; apply E; cbn; tauto].
  - rewrite Hc, Ht, Hf; [done|intros; apply E; cbn; tauto..].
  - rewrite (E x) by (cbn; auto).
    rewrite (all_ext _ (fun e => match eval τ e with Some a => lift results (number a) | None => None end)); [done|].
    apply Forall_forall. intros e He. rewrite Forall_forall in Hi. rewrite (Hi e He); [done|].
    intros y Hy. apply E. cbn. right. apply any_exists. eauto.
  - rewrite (all_ext _ (eval τ)); [done|]. apply Forall_forall. intros e He. rewrite Forall_forall in Hl. apply (Hl e He).
    intros y Hy. apply E. cbn. apply any_exists. eauto.
  - rewrite (all_ext _ (eval τ)); [done|]. apply Forall_forall. intros e He. rewrite Forall_forall in Hl. apply (Hl e He).
    intros y Hy. apply E. cbn. apply any_exists. eauto.
  - rewrite Hv, Hd; [done|intros; apply E; cbn; tauto..].
Qed.

(** *** Statements change the variables they touch only *)
Definition same_but (T : string -> Prop) (σ τ : state) : Prop :=
  Forall2 (fun b c : gmap string val => forall y, ~ T y -> b !! y = c !! y) σ τ.
Lemma same_but_refl T σ : same_but T σ σ.
Proof. apply Forall_Forall2_diag. apply Forall_forall. done. Qed.
Lemma same_but_trans T σ τ υ : same_but T σ τ -> same_but T τ υ -> same_but T σ υ.
Proof.
  intros H. revert υ. induction H as [|b c σ τ Hb _ IH]; intros υ H'; inversion H'; subst; constructor.
  - intros w Hy. rewrite Hb by done. auto.
  - by apply IH.
Qed.
Lemma same_but_mono (T U : string -> Prop) σ τ : (forall y, T y -> U y) -> same_but T σ τ -> same_but U σ τ.
Proof. intros H HS. eapply Forall2_impl; [exact HS|]. intros b c Hb y Hy. apply Hb. auto. Qed.
Lemma same_but_get T σ τ y : same_but T σ τ -> ~ T y -> get σ y = get τ y.
Proof. induction 1 as [|b c σ τ Hb _ IH]; intros Hy; [done|]. cbn. rewrite Hb by done. destruct (c !! y); auto. Qed.
Lemma put_same σ x v τ : put σ x v = Some τ -> same_but (eq x) σ τ.
Proof.
  revert τ. induction σ as [|b σ IH]; intros τ H; [done|]. cbn in H. destruct (b !! x) eqn:Hb.
  - injection H as <-. constructor; [|apply same_but_refl]. intros y Hy. by rewrite lookup_insert_ne.
  - destruct (put σ x v) as [τ'|] eqn:E; [|done]. cbn in H. injection H as <-. constructor; [done|]. by apply IH.
Qed.
Lemma put_get σ x v τ : put σ x v = Some τ -> get τ x = Some v.
Proof.
  revert τ. induction σ as [|b σ IH]; intros τ H; [done|]. cbn in H. destruct (b !! x) eqn:Hb.
  - injection H as <-. cbn. by rewrite lookup_insert.
  - destruct (put σ x v) as [τ'|] eqn:E; [|done]. cbn in H. injection H as <-. cbn. rewrite Hb. by apply IH.
Qed.
Lemma sequence_same n l : Forall (fun s => forall σ o, exec n σ s = Some o -> same_but (fun y => touches y s) σ o.1) l ->
  forall σ o, sequence (exec n) σ l = Some o -> same_but (fun y => touches_in y l) σ o.1.
Proof.
  induction 1 as [|s l Hs _ IH]; intros σ o H.
  - injection H as <-. apply same_but_refl.
  - cbn in H. destruct (exec n σ s) as [o1|] eqn:E; [|done]. pose proof (Hs _ _ E) as H1.
    apply (same_but_mono _ (fun y => touches_in y (s :: l))) in H1; [|intros y Hy; cbn; left; exact Hy].
    destruct (o1.2).
    + injection H as <-. exact H1.
    + eapply same_but_trans; [exact H1|]. eapply same_but_mono; [|eapply IH; exact H].
      intros y Hy. cbn; by right.
Qed.
Lemma exec_same n s : forall σ o, exec n σ s = Some o -> same_but (fun y => touches y s) σ o.1.
Proof.
  induction s as [c t f Ht Hf|c s IH| |l IH| | | | |l IH] using stmt_ind'; intros σ o H; cbn in H.
  - destruct (eval σ c) as [v|]; [|done]. destruct (number v) as [z|]; [|done]. cbn in H. destruct (z =? 0)%Z.
    + destruct f as [f|]; [|injection H as <-; apply same_but_refl].
      eapply same_but_mono; [|eapply (Hf f eq_refl); exact H]. cbn. tauto.
    + eapply same_but_mono; [|eapply Ht; exact H]. cbn. tauto.
  - cbn. revert σ o H. generalize n at 1. intros m. induction m as [|m IHm]; intros σ o H; [done|]. cbn in H.
    destruct (eval σ c) as [v|]; [|done]. destruct (number v) as [z|]; [|done]. cbn in H. destruct (z =? 0)%Z.
    { injection H as <-. apply same_but_refl. }
    destruct (exec n σ s) as [o1|] eqn:E; [|done]. pose proof (IH _ _ E) as H1. destruct (o1.2).
    + injection H as <-. exact H1.
    + eapply same_but_trans; [exact H1|]. apply (IHm _ _ H).
  - destruct (eval σ e) as [v|]; [|done]. injection H as <-. apply same_but_refl.
  - eapply sequence_same; eauto.
  - destruct (numbers σ d) as [ns|]; [|done]. destruct (zeros ns) as [v|]; [|done]. cbn in H.
    destruct σ as [|b σ]; [done|]. injection H as <-. constructor; [|apply same_but_refl].
    intros y Hy. cbn in Hy. by rewrite lookup_insert_ne by (intros ->; done).
  - destruct (eval σ e) as [v|]; [|done]. destruct (numbers σ i) as [is|]; [|done]. destruct (get σ x) as [old|]; [|done]. cbn in H.
    destruct (update old is v) as [w|]; [|done]. cbn in H. destruct (put σ x w) as [τ|] eqn:E; [|done]. injection H as <-.
    eapply same_but_mono; [|eapply put_same; exact E]. cbn. auto.
  - destruct (numbers σ l); [|done]. injection H as <-. apply same_but_refl.
  - destruct (eval σ e) as [v|]; [|done]. destruct (number v) as [z|]; [|done]. cbn in H. destruct (z =? 0)%Z; [done|].
    injection H as <-. apply same_but_refl.
  - destruct (sequence (exec n) (∅ :: σ) l) as [o1|] eqn:E; [|done]. injection H as <-. cbn.
    pose proof (sequence_same n l IH _ _ E) as H1. inversion H1; subst. cbn. assumption.
Qed.
Lemma exec_get n σ s o y : exec n σ s = Some o -> ~ touches y s -> get σ y = get o.1 y.
Proof. intros H Hy. eapply same_but_get; [eapply exec_same; exact H|exact Hy]. Qed.
Lemma sequence_get n σ l o y : sequence (exec n) σ l = Some o -> ~ touches_in y l -> get σ y = get o.1 y.
Proof.
  intros H Hy. eapply same_but_get; [eapply sequence_same; [|exact H]|exact Hy].
  apply Forall_forall. intros s _ τ o'. apply exec_same.
Qed.

(** *** The values of constants *)
Definition faithful (H : env expr) (σ : state) : Prop :=
  forall x h, get_variable H x = Some h -> exists z, get σ x = Some (Leaf z) /\ eval σ h = Some (Leaf z).
(** the variables the constants depend on, themselves included *)
Definition kept (H : env expr) (y : string) : Prop :=
  exists x h, get_variable H x = Some h /\ (y = x \/ mentions y h).
Lemma faithful_step H σ τ : faithful H σ -> (forall y, kept H y -> get σ y = get τ y) -> faithful H τ.
Proof.
  intros HF HK x h Hx. destruct (HF x h Hx) as (z & H1 & H2). exists z. split.
  - rewrite <- HK; [done|]. exists x, h. auto.
  - rewrite <- (eval_ext σ); [done|]. intros y Hy. apply HK. exists x, h. auto.
Qed.
Lemma expand_correct H σ e : faithful H σ -> eval σ (expand_expression H e) = eval σ e.
Proof.
  intros HF. induction e as [z|o l r Hl Hr|o e He|c t f Hc Ht Hf|x idx Hi|f l Hl|l Hl|v d Hv Hd] using expr_ind'; cbn.
  - done.
  - by rewrite Hl, Hr.
  - by rewrite He.
  - by rewrite Hc, Ht, Hf.
  - assert (G : all (fun e => match eval σ e with Some a => lift results (number a) | None => None end) (expand_expression H <$> idx)
      = all (fun e => match eval σ e with Some a => lift results (number a) | None => None end) idx).
    { rewrite all_map. apply all_ext. eapply Forall_impl; [exact Hi|]. intros e He. cbn. by rewrite He. }
    destruct (get_variable H x) as [h|] eqn:Hx.
    + destruct idx as [|i idx].
      * destruct (HF x h Hx) as (z & H1 & H2). cbn. by rewrite H1, H2.
      * cbn [ConstantsSpec.eval]. by setoid_rewrite G.
    + cbn [ConstantsSpec.eval]. by setoid_rewrite G.
  - rewrite all_map. rewrite (all_ext _ (eval σ)); [done|exact Hl].
  - rewrite all_map. rewrite (all_ext _ (eval σ)); [done|exact Hl].
  - by rewrite Hv, Hd.
Qed.
Lemma numbers_expand H σ l : faithful H σ -> numbers σ (expand_expression H <$> l) = numbers σ l.
Proof.
  intros HF. unfold ConstantsSpec.numbers. rewrite all_map. apply all_ext. apply Forall_forall. intros e _. by rewrite expand_correct.
Qed.
Lemma mentions_expand H e y : mentions y (expand_expression H e) -> mentions y e \/ kept H y.
Proof.
  assert (G : forall l, Forall (fun e => mentions y (expand_expression H e) -> mentions y e \/ kept H y) l ->
    any (mentions y) (expand_expression H <$> l) -> any (mentions y) l \/ kept H y).
  { induction 1 as [|e1 l He _ IH]; intros HE; [done|]. cbn in HE |- *.
    destruct HE as [HE|HE]; [apply He in HE|apply IH in HE]; tauto. }
  induction e as [z|o l r Hl Hr|o e He|c t f Hc Ht Hf|x idx Hi|f l Hl|l Hl|v d Hv Hd] using expr_ind'; cbn; try tauto.
  - destruct (get_variable H x) as [h|] eqn:Hx; [destruct idx|]; cbn.
    + intros Hy. right. exists x, h. auto.
    + intros [->|Hy]; [auto|]. apply (G _ Hi) in Hy. tauto.
    + intros [->|Hy]; [auto|]. apply (G _ Hi) in Hy. tauto.
  - apply G, Hl.
  - apply G, Hl.
Qed.

(** ** Statements *)
Definition atomic (s : stmt) : Prop := match s with Declaration _ _ _ | Substitution _ _ _ => True | _ => False end.
(** what the flags of constants must guarantee: [T] are the variables touched after the declarations *)
Definition ok_inits (l : list stmt) (T : string -> Prop) : Prop :=
  Forall atomic l /\
  forall pre x idx e post, l = pre ++ Substitution x idx e :: post -> x ∈ constants l ->
    idx = [] /\ (exists pre1 c, pre = pre1 ++ [Declaration x [] c]) /\ ~ mentions x e /\
    forall y, y = x \/ mentions y e -> ~ touches_in y post /\ ~ T y.
Definition ok_list (f : stmt -> Prop) : list stmt -> Prop :=
  fix go l := match l with
  | [] => True
  | s :: l => f s /\ match s with InitializationBlock i => ok_inits i (fun y => touches_in y l) | _ => True end /\ go l
  end.
Fixpoint ok (s : stmt) : Prop :=
  match s with
  | IfThenElse _ t f => declaring t = false /\ ok t /\ match f with Some f => declaring f = false /\ ok f | None => True end
  | While _ s => declaring s = false /\ ok s
  | Block l => ok_list ok l
  | InitializationBlock l => Forall atomic l
  | _ => True
  end.

Lemma thread_atomic H l : Forall atomic l -> thread expand_statement H l = (H, (fun s => (expand_statement H s).2) <$> l).
Proof. induction 1 as [|s l Hs _ IH]; [done|]. destruct s; try done; cbn in *; rewrite IH; done. Qed.
Lemma add_top H K l b : exists b', add_expressions (b :: H) K l = b' :: H.
Proof.
  revert b. induction l as [|s l IH]; intros b; [by exists b|]. unfold add_expressions. cbn.
  destruct s; try apply IH. destruct (bool_decide _); apply IH.
Qed.
Lemma expand_holder s : ok s -> forall H b, exists b', (expand_statement (b :: H) s).1 = b' :: H.
Proof.
  induction s as [c t f Ht Hf|c s IH| |l IH| | | | |l IH] using stmt_ind'; intros Hok H b; try (cbn; eauto).
  - destruct Hok as (_ & Hot & Hof). destruct (Ht Hot H b) as (b1 & E1).
    destruct (expand_statement (b :: H) t) as [H1 t1]. cbn in E1. subst H1.
    destruct f as [f|]; [|cbn; eauto]. destruct Hof as (_ & Hof). destruct (Hf f eq_refl Hof H b1) as (b2 & E2).
    destruct (expand_statement (b1 :: H) f) as [H2 f2]. cbn in E2 |- *. subst H2. eauto.
  - destruct Hok as (_ & Hok). destruct (IH Hok H b) as (b1 & E1). destruct (expand_statement (b :: H) s). cbn in E1 |- *. eauto.
  - cbn in Hok. rewrite (thread_atomic _ _ Hok). cbn. apply add_top.
  - cbn in Hok. assert (G : forall H b, exists b', (thread expand_statement (b :: H) l).1 = b' :: H).
    { clear H b. induction IH as [|s l Hs _ IHl]; intros H b; [cbn; eauto|]. destruct Hok as (H1 & _ & H2). cbn.
      destruct (Hs H1 H b) as (b1 & E1). destruct (expand_statement (b :: H) s) as [H3 s3]. cbn in E1. subst H3.
      destruct (IHl H2 H b1) as (b2 & E2). destruct (thread expand_statement (b1 :: H) l). cbn in E2 |- *. eauto. }
    destruct (G (b :: H) ∅) as (b1 & E1). destruct (thread expand_statement (∅ :: b :: H) l). cbn in E1 |- *. subst. cbn. eauto.
Qed.
Lemma expand_block_holder l : ok (Block l) -> forall H, (expand_statement H (Block l)).1 = H.
Proof.
  intros Hok H. cbn. assert (G : exists b, (thread expand_statement (∅ :: H) l).1 = b :: H).
  { generalize (∅ : gmap string expr). induction l as [|s l IH]; intros b; [cbn; eauto|]. cbn in Hok |- *. destruct Hok as (H1 & _ & H2).
    destruct (expand_holder s H1 H b) as (b1 & E1). destruct (expand_statement (b :: H) s) as [H3 s3]. cbn in E1. subst H3.
    destruct (IH H2 b1) as (b2 & E2). destruct (thread expand_statement (b1 :: H) l). cbn in E2 |- *. eauto. }
  destruct G as (b & E). destruct (thread expand_statement (∅ :: H) l). cbn in E |- *. by subst.
Qed.
Lemma expand_same s : ok s -> declaring s = false -> forall H, (expand_statement H s).1 = H.
Proof.
  induction s as [c t f Ht Hf|c s IH| |l IH| | | | |l IH] using stmt_ind'; intros Hok Hd H; try done.
  - destruct Hok as (Hdt & Hot & Hof). cbn. specialize (Ht Hot Hdt H). destruct (expand_statement H t) as [H1 t1]. cbn in Ht. subst H1.
    destruct f as [f|]; [|done]. destruct Hof as (Hdf & Hof). specialize (Hf f eq_refl Hof Hdf H).
    destruct (expand_statement H f). exact Hf.
  - destruct Hok as (Hds & Hok). cbn. specialize (IH Hok Hds H). destruct (expand_statement H s). exact IH.
  - by apply expand_block_holder.
Qed.

Lemma sequence_atomic n σ l o : Forall atomic l -> sequence (exec n) σ l = Some o -> o.2 = None.
Proof.
  intros Ha. revert σ. induction Ha as [|s l Hs _ IH]; intros σ H; [by injection H as <-|]. cbn in H.
  destruct (exec n σ s) as [o1|] eqn:E; [|done].
  assert (o1.2 = None) as E1.
  { destruct s; try done; cbn in E.
    - destruct (numbers σ dims) as [ns|]; [|done]. destruct (zeros ns) as [v|]; [|done]. cbn in E.
      destruct (new σ x v); [|done]. by injection E as <-.
    - destruct (eval σ e) as [v|]; [|done]. destruct (numbers σ idx) as [is|]; [|done]. destruct (get σ x) as [old|]; [|done]. cbn in E.
      destruct (update old is v) as [w|]; [|done]. cbn in E. destruct (put σ x w); [|done]. by injection E as <-. }
  rewrite E1 in H. eapply IH. exact H.
Qed.
Lemma sequence_split n σ l1 l2 o : Forall atomic l1 -> sequence (exec n) σ (l1 ++ l2) = Some o ->
  exists τ, sequence (exec n) σ l1 = Some (τ, None) /\ sequence (exec n) τ l2 = Some o.
Proof.
  intros Ha. revert σ. induction l1 as [|s l1 IH]; intros σ H; [by exists σ|]. cbn in H |- *.
  destruct (exec n σ s) as [o1|] eqn:E; [|done].
  assert (o1.2 = None) as E1.
  { apply (sequence_atomic n σ [s]); [inversion Ha; repeat constructor; done|]. cbn. rewrite E. destruct o1 as [? []]; done. }
  rewrite E1 in H |- *. apply IH; [by inversion Ha|done].
Qed.
(** the initial value of a constant *)
Lemma initial_value n σ x e c o post : Forall atomic post ->
  sequence (exec n) σ (Declaration x [] c :: Substitution x [] e :: post) = Some o ->
  exists σ1 z τ, exec n σ (Declaration x [] c) = Some (σ1, None) /\ exec n σ1 (Substitution x [] e) = Some (τ, None) /\
    eval σ1 e = Some (Leaf z) /\ get τ x = Some (Leaf z) /\ same_but (eq x) σ1 τ /\ sequence (exec n) τ post = Some o.
Proof.
  intros Ha H. change (Declaration x [] c :: Substitution x [] e :: post) with ([Declaration x [] c] ++ Substitution x [] e :: post) in H.
  apply sequence_split in H as (σ1 & H1 & H2); [|repeat constructor].
  change (Substitution x [] e :: post) with ([Substitution x [] e] ++ post) in H2.
  apply sequence_split in H2 as (τ & H2 & H3); [|repeat constructor].
  cbn [ConstantsSpec.sequence next results] in H1, H2.
  destruct (exec n σ (Declaration x [] c)) as [[? r1]|] eqn:E1; [|done]. destruct r1; [done|]. injection H1 as ->.
  destruct (exec n σ1 (Substitution x [] e)) as [[? r2]|] eqn:E2; [|done]. destruct r2; [done|]. injection H2 as ->.
  cbn in E1. destruct σ as [|b σ]; [done|]. cbn in E1. injection E1 as <-. cbn in E2. rewrite lookup_insert in E2.
  destruct (eval (<[x:=Leaf 0]> b :: σ) e) as [v|] eqn:Ev; [|done]. cbn in E2.
  destruct v as [z|]; [|done]. cbn in E2. injection E2 as <-.
  exists (<[x:=Leaf 0]> b :: σ), z, (<[x:=Leaf z]> (<[x:=Leaf 0]> b) :: σ). split; [done|]. split; [|split; [exact Ev|split; [cbn; by rewrite lookup_insert|split; [|exact H3]]]].
  - cbn. rewrite Ev. cbn. by rewrite lookup_insert.
  - constructor; [|apply same_but_refl]. intros y Hy. by rewrite !lookup_insert_ne.
Qed.

Lemma constants_expand H l : Forall atomic l -> constants ((fun s => (expand_statement H s).2) <$> l) = constants l.
Proof.
  intros Ha. unfold constants. f_equal. induction Ha as [|s l Hs _ IH]; [done|]. destruct s; try done; cbn. destruct is_constant; [by f_equal|done].
Qed.
Lemma holder_lookup H0 K l : Forall atomic l -> forall H x h,
  get_variable (add_expressions H K ((fun s => (expand_statement H0 s).2) <$> l)) x = Some h ->
  get_variable H x = Some h \/ exists pre idx e post, l = pre ++ Substitution x idx e :: post /\ x ∈ K /\ h = expand_expression H0 e.
Proof.
  induction 1 as [|s l Hs _ IH]; intros H x h Hx; [auto|]. destruct s as [| | | |y dims c|y idx e| | |]; try done; unfold add_expressions in Hx; cbn in Hx.
  - destruct (IH _ _ _ Hx) as [?|(pre & i & e & post & -> & ?)]; [auto|]. right. exists (Declaration y dims c :: pre), i, e, post. done.
  - destruct (IH _ _ _ Hx) as [Hy|(pre & i & e' & post & -> & ?)].
    + case_bool_decide as Hk; [|auto]. destruct H as [|b H]; [done|]. cbn in Hy |- *. destruct (decide (y = x)) as [->|Hn].
      * rewrite lookup_insert in Hy. injection Hy as <-. right. exists [], idx, e, l. done.
      * rewrite lookup_insert_ne in Hy by done. auto.
    + right. exists (Substitution y idx e :: pre), i, e', post. done.
Qed.
Lemma init_faithful n H σ l T o : faithful H σ -> (forall y, kept H y -> ~ touches_in y l /\ ~ T y) -> ok_inits l T ->
  sequence (exec n) σ l = Some o ->
  let H1 := add_expressions H (constants l) ((fun s => (expand_statement H s).2) <$> l) in
  faithful H1 o.1 /\ forall y, kept H1 y -> ~ T y.
Proof.
  intros HF HK (Ha & Hi) HE H1. subst H1.
  assert (HF1 : faithful H o.1).
  { eapply faithful_step; [exact HF|]. intros y Hy. eapply sequence_get; [exact HE|]. by apply HK. }
  split.
  - intros x h Hx. apply holder_lookup in Hx as [Hx|(pre & idx & e & post & El & Hc & ->)]; [by apply HF1| |done].
    destruct (Hi _ _ _ _ _ El Hc) as (-> & (pre1 & c & ->) & Hm & Hy). subst l.
    rewrite <- app_assoc in HE. cbn in HE. apply Forall_app in Ha as (Ha1 & Ha2). apply Forall_app in Ha1 as (Ha1 & _).
    inversion Ha2; subst.
    apply sequence_split in HE as (σ0 & Hs0 & HE); [|done].
    apply initial_value in HE as (σ1 & z & τ & Hd & Hs & Hev & Hg & Hsame & Hpost); [|done].
    exists z. split.
    + rewrite <- (sequence_get _ _ _ _ x Hpost); [done|]. by apply Hy; left.
    + assert (Hk : forall y, kept H y -> get σ y = get σ1 y /\ y <> x /\ ~ touches_in y post).
      { intros y Hky. destruct (HK y Hky) as (Hn & _).
        assert (Hn1 : ~ touches_in y pre1 /\ y <> x /\ ~ touches_in y post).
        { rewrite !any_exists in *. split; [|split].
          - intros (s & Hin & Ht). apply Hn. exists s. split; [|done]. apply elem_of_app. left. apply elem_of_app. by left.
          - intros ->. apply Hn. exists (Substitution x [] e). split; [|done]. apply elem_of_app. right. left.
          - intros (s & Hin & Ht). apply Hn. exists s. split; [|done]. apply elem_of_app. right. by right. }
        destruct Hn1 as (Ha' & Hb' & Hc'). split; [|done].
        rewrite (sequence_get _ _ _ _ y Hs0 Ha'). apply (exec_get _ _ _ _ y Hd). cbn. done. }
      assert (HF2 : faithful H σ1).
      { eapply faithful_step; [exact HF|]. intros y Hky. by apply Hk. }
      rewrite <- (expand_correct H σ1 e HF2) in Hev. rewrite <- Hev. symmetry. apply eval_ext. intros y Hme.
      apply mentions_expand in Hme as [Hme|Hky].
      * assert (y <> x) by (intros ->; done). rewrite (same_but_get _ _ _ y Hsame) by (intros <-; done).
        apply (sequence_get _ _ _ _ y Hpost). apply Hy. by right.
      * destruct (Hk y Hky) as (_ & Hne & Hnp). rewrite (same_but_get _ _ _ y Hsame) by (intros <-; done).
        by apply (sequence_get _ _ _ _ y Hpost).
  - intros y (x & h & Hx & Hy). apply holder_lookup in Hx as [Hx|(pre & idx & e & post & El & Hc & ->)]; [| |done].
    + apply HK. exists x, h. auto.
    + destruct (Hi _ _ _ _ _ El Hc) as (_ & _ & _ & Hz). destruct Hy as [->|Hy]; [apply Hz; auto|].
      apply mentions_expand in Hy as [Hy|Hy]; [apply Hz; auto|by apply HK].
Qed.

Lemma sequence_expand n l : Forall (fun s => ok s -> forall H σ, faithful H σ -> (forall y, kept H y -> ~ touches y s) ->
    exec n σ (expand_statement H s).2 = exec n σ s) l ->
  ok_list ok l -> forall H σ, faithful H σ -> (forall y, kept H y -> ~ touches_in y l) ->
  sequence (exec n) σ (thread expand_statement H l).2 = sequence (exec n) σ l.
Proof.
  induction 1 as [|s l Hs _ IH]; intros Hok H σ HF HK; [done|]. destruct Hok as (Hos & Hoi & Hol). cbn.
  assert (HKs : forall y, kept H y -> ~ touches y s /\ ~ touches_in y l).
  { intros y Hy. specialize (HK y Hy). cbn in HK. tauto. }
  pose proof (Hs Hos H σ HF (fun y Hy => proj1 (HKs y Hy))) as E.
  destruct (expand_statement H s) as [H1 s1] eqn:E1. destruct (thread expand_statement H1 l) as [H2 l2] eqn:E2. cbn in E |- *. rewrite E.
  destruct (exec n σ s) as [o|] eqn:Eo; [|done]. destruct (o.2) eqn:Er; [done|].
  replace l2 with (thread expand_statement H1 l).2 by by rewrite E2.
  assert (G : faithful H1 o.1 /\ forall y, kept H1 y -> ~ touches_in y l).
  { destruct (declaring s) eqn:Hd.
    - destruct s; try done; cbn in E1.
      + cbn in Hos. rewrite (thread_atomic _ _ Hos) in E1. cbn in E1. rewrite (constants_expand _ _ Hos) in E1. injection E1 as <- <-.
        eapply init_faithful; [exact HF| |exact Hoi|exact Eo]. intros y Hy. specialize (HKs y Hy). cbn in HKs. tauto.
      + injection E1 as <- <-. split; [|intros y Hy; by apply HKs]. eapply faithful_step; [exact HF|]. intros y Hy.
        eapply exec_get; [exact Eo|]. by apply HKs.
    - pose proof (expand_same s Hos Hd H) as Es. rewrite E1 in Es. cbn in Es. subst H1.
      split; [|intros y Hy; by apply HKs]. eapply faithful_step; [exact HF|]. intros y Hy.
      eapply exec_get; [exact Eo|]. by apply HKs. }
  apply IH; [done|apply G..].
Qed.
Lemma exec_expand n s : ok s -> forall H σ, faithful H σ -> (forall y, kept H y -> ~ touches y s) ->
  exec n σ (expand_statement H s).2 = exec n σ s.
Proof.
  induction s as [c t f Ht Hf|c s IH|e|l IH|x d c|x i e|l|e|l IH] using stmt_ind'; intros Hok H σ HF HK.
  - destruct Hok as (Hdt & Hot & Hof). cbn. pose proof (expand_same t Hot Hdt H) as Et.
    pose proof (Ht Hot H σ HF (fun y Hy Hc => HK y Hy (or_introl Hc))) as Gt.
    destruct (expand_statement H t) as [H1 t1]. cbn in Et, Gt. subst H1. destruct f as [f|].
    + destruct Hof as (Hdf & Hof). pose proof (Hf f eq_refl Hof H σ HF (fun y Hy Hc => HK y Hy (or_intror Hc))) as Gf.
      destruct (expand_statement H f) as [H2 f2]. cbn in Gf |- *. rewrite expand_correct by done. by rewrite Gt, Gf.
    + cbn. rewrite expand_correct by done. by rewrite Gt.
  - destruct Hok as (Hds & Hok). cbn. destruct (expand_statement H s) as [H1 s1] eqn:Es. cbn. change s1 with (H1, s1).2. rewrite <- Es.
    clear H1 s1 Es. revert σ HF. generalize n at 1 3. intros m. induction m as [|m IHm]; intros σ HF; [done|]. cbn.
    rewrite expand_correct by done. rewrite (IH Hok H σ HF HK). destruct (eval σ c) as [v|]; [|done].
    destruct (number v) as [z|]; [|done]. cbn. destruct (z =? 0)%Z; [done|]. destruct (exec n σ s) as [o|] eqn:Eo; [|done].
    destruct (o.2); [done|]. apply IHm. eapply faithful_step; [exact HF|]. intros y Hy. eapply exec_get; [exact Eo|]. apply (HK y Hy).
  - cbn. by rewrite expand_correct.
  - cbn in Hok |- *. rewrite (thread_atomic _ _ Hok). cbn.
    assert (G : forall l, Forall atomic l -> (forall y, kept H y -> ~ touches_in y l) -> forall σ, faithful H σ ->
      sequence (exec n) σ ((fun s => (expand_statement H s).2) <$> l) = sequence (exec n) σ l).
    { clear. induction 1 as [|s l Hs _ IHl]; intros HK σ HF; [done|].
      assert (E : exec n σ (expand_statement H s).2 = exec n σ s).
      { destruct s; try done; cbn; rewrite ?numbers_expand, ?expand_correct by done; done. }
      cbn. rewrite E. destruct (exec n σ s) as [o|] eqn:Eo; [|done]. destruct (o.2); [done|]. apply IHl.
      - intros y Hy Hc. apply (HK y Hy). cbn. auto.
      - eapply faithful_step; [exact HF|]. intros y Hy. eapply exec_get; [exact Eo|]. intros Hc. apply (HK y Hy). cbn. auto. }
    by apply G.
  - cbn. by rewrite numbers_expand.
  - cbn. by rewrite numbers_expand, expand_correct.
  - cbn. by rewrite numbers_expand.
  - cbn. by rewrite expand_correct.
  - cbn in Hok. cbn. destruct (thread expand_statement (∅ :: H) l) as [H1 l1] eqn:El. cbn. change l1 with (H1, l1).2. rewrite <- El.
    pose proof (sequence_expand n l IH Hok (∅ :: H) (∅ :: σ)) as G. rewrite G; [done|..].
    + intros x h Hx. cbn in Hx. rewrite lookup_empty in Hx. destruct (HF x h Hx) as (z & H2 & H3). exists z. split.
      * cbn. by rewrite lookup_empty.
      * rewrite <- H3. apply eval_ext. intros y _. cbn. by rewrite lookup_empty.
    + intros y (x & h & Hx & Hy). cbn in Hx. rewrite lookup_empty in Hx. apply (HK y). exists x, h. auto.
Qed.
End run.
