(** Expressions of the language of [AnonSpec.v]: induction, the names an
    expression mentions, and the part of the meaning that does not create
    instances. *)
From Coq Require Import ZArith.
From stdpp Require Import base list strings gmap.
From Verif Require Import AnonModel AnonSpec.

Arguments Done {D A} a.
Arguments Returned {D A} tr v.
Arguments Failed {D A}.
Arguments OutOfFuel {D A}.
Arguments OutOfNames {D A}.

Definition acc_all (P : exp -> Prop) (a : access exp) : Prop :=
  match a with ComponentAccess _ => True | ArrayAccess e => P e end.

Section exp_ind.
  Variable P : exp -> Prop.
  Hypothesis HInfix : forall l op r, P l -> P r -> P (Infix l op r).
  Hypothesis HPrefix : forall op r, P r -> P (Prefix op r).
  Hypothesis HSwitch : forall c a b, P c -> P a -> P b -> P (Switch c a b).
  Hypothesis HParallel : forall r, P r -> P (Parallel r).
  Hypothesis HVar : forall x acc, Forall (acc_all P) acc -> P (Var x acc).
  Hypothesis HNum : forall z, P (Num z).
  Hypothesis HCall : forall f args, Forall P args -> P (Call f args).
  Hypothesis HBusCall : forall f args, Forall P args -> P (BusCall f args).
  Hypothesis HAnon : forall pos f par params sigs names,
    Forall P params -> Forall P sigs -> P (Anon pos f par params sigs names).
  Hypothesis HArray : forall vs, Forall P vs -> P (ArrayInLine vs).
  Hypothesis HTuple : forall vs, Forall P vs -> P (Tuple vs).
  Hypothesis HUniform : forall v d, P v -> P d -> P (UniformArray v d).

  Fixpoint exp_ind' (e : exp) : P e :=
    let all := fix all (l : list exp) : Forall P l :=
      match l with [] => Forall_nil_2 _ | e :: l' => Forall_cons_2 _ _ _ (exp_ind' e) (all l') end in
    match e with
    | Infix l op r => HInfix l op r (exp_ind' l) (exp_ind' r)
    | Prefix op r => HPrefix op r (exp_ind' r)
    | Switch c a b => HSwitch c a b (exp_ind' c) (exp_ind' a) (exp_ind' b)
    | Parallel r => HParallel r (exp_ind' r)
    | Var x acc => HVar x acc
        ((fix alla (l : list (access exp)) : Forall (acc_all P) l :=
            match l with
            | [] => Forall_nil_2 _
            | a :: l' => Forall_cons_2 _ _ _
                (match a return acc_all P a with
                 | ComponentAccess _ => I | ArrayAccess e => exp_ind' e end) (alla l')
            end) acc)
    | Num z => HNum z
    | Call f args => HCall f args (all args)
    | BusCall f args => HBusCall f args (all args)
    | Anon pos f par params sigs names =>
        HAnon pos f par params sigs names (all params) (all sigs)
    | ArrayInLine vs => HArray vs (all vs)
    | Tuple vs => HTuple vs (all vs)
    | UniformArray v d => HUniform v d (exp_ind' v) (exp_ind' d)
    end.
End exp_ind.

Section stmt_ind.
  Variable P : stmt -> Prop.
  Hypothesis HIf : forall c a b, P a -> (forall s, b = Some s -> P s) -> P (IfThenElse c a b).
  Hypothesis HWhile : forall pos c s, P s -> P (While pos c s).
  Hypothesis HReturn : forall e, P (Return e).
  Hypothesis HInit : forall t l, Forall P l -> P (InitializationBlock t l).
  Hypothesis HDecl : forall t x dims an, P (Declaration t x dims an).
  Hypothesis HSub : forall x acc op e, P (Substitution x acc op e).
  Hypothesis HMult : forall l op r, P (MultSubstitution l op r).
  Hypothesis HUnder : forall op e, P (UnderscoreSubstitution op e).
  Hypothesis HEq : forall l r, P (ConstraintEquality l r).
  Hypothesis HLog : forall args, P (LogCall args).
  Hypothesis HBlock : forall l, Forall P l -> P (Block l).
  Hypothesis HAssert : forall e, P (Assert e).

  Fixpoint stmt_ind' (s : stmt) : P s :=
    let all := fix all (l : list stmt) : Forall P l :=
      match l with [] => Forall_nil_2 _ | e :: l' => Forall_cons_2 _ _ _ (stmt_ind' e) (all l') end in
    match s with
    | IfThenElse c a b => HIf c a b (stmt_ind' a)
        (match b return forall s, b = Some s -> P s with
         | None => fun s H => False_ind _ (eq_ind None (fun o => match o with None => True | Some _ => False end) I _ H)
         | Some b' => fun s H => eq_ind (Some b') (fun o => match o with None => True | Some x => P x end)
                                   (stmt_ind' b') _ H
         end)
    | While pos c s => HWhile pos c s (stmt_ind' s)
    | Return e => HReturn e
    | InitializationBlock t l => HInit t l (all l)
    | Declaration t x dims an => HDecl t x dims an
    | Substitution x acc op e => HSub x acc op e
    | MultSubstitution l op r => HMult l op r
    | UnderscoreSubstitution op e => HUnder op e
    | ConstraintEquality l r => HEq l r
    | LogCall args => HLog args
    | Block l => HBlock l (all l)
    | Assert e => HAssert e
    end.
End stmt_ind.

Section agree.
  Variable D : dom.
  Variable templates : gmap string stmt.
  Notation V := (val D).
  Notation eval := (eval D templates).
  Notation evals := (evals D templates).

  Definition agree (l : list string) (m1 m2 : gmap string (binding D)) : Prop :=
    forall x, x ∈ l -> m1 !! x = m2 !! x.

  Lemma agree_app l1 l2 m1 m2 : agree (l1 ++ l2) m1 m2 <-> agree l1 m1 m2 /\ agree l2 m1 m2.
  Proof. unfold agree. set_solver. Qed.

  Lemma agree_concat {A} (f : A -> list string) l m1 m2 :
    agree (concat (map f l)) m1 m2 <-> Forall (fun a => agree (f a) m1 m2) l.
  Proof.
    induction l as [|a l IH]; cbn; [split; [done|intros _ x Hx; by apply elem_of_nil in Hx]|].
    rewrite agree_app, Forall_cons, IH. done.
  Qed.

  Lemma map_ext_Forall {A B} (f g : A -> B) l :
    Forall (fun a => f a = g a) l -> map f l = map g l.
  Proof. induction 1; cbn; congruence. Qed.

  Lemma eval_agree m1 m2 e : agree (fv e) m1 m2 -> eval m1 e = eval m2 e.
  Proof.
    induction e as [l op r IHl IHr|op r IHr|c a b IHc IHa IHb|r IHr|x acc IH|z|f args IH|f args IH
                   |pos f par params sigs names _ _|vs IH|vs IH|v d IHv IHd] using exp_ind';
      cbn [fv AnonSpec.eval]; intros H.
    - apply agree_app in H as [? ?]. rewrite IHl, IHr by done. done.
    - rewrite IHr by done. done.
    - apply agree_app in H as [? [? ?]%agree_app]. rewrite IHc, IHa, IHb by done. done.
    - rewrite IHr by done. done.
    - assert (Hx : m1 !! x = m2 !! x) by (apply H; left).
      assert (Ha : agree (fv_acc acc) m1 m2) by (intros y Hy; apply H; by right).
      rewrite Hx. unfold fv_acc in Ha. rewrite agree_concat in Ha.
      rewrite (map_ext_Forall _ (fun a => match a with
         ComponentAccess s => Some (VComponent s)
         | ArrayAccess e => VArray <$> the_value D (eval m2 e) end)); [done|].
      rewrite Forall_forall in *. intros [s|e] Hin; [done|].
      specialize (IH _ Hin). specialize (Ha _ Hin). cbn in *. by rewrite IH.
    - done.
    - rewrite agree_concat in H.
      rewrite (map_ext_Forall _ (fun e => the_value D (eval m2 e))); [done|].
      rewrite Forall_forall in *. intros e He. by rewrite (IH e He (H e He)).
    - rewrite agree_concat in H.
      rewrite (map_ext_Forall _ (fun e => the_value D (eval m2 e))); [done|].
      rewrite Forall_forall in *. intros e He. by rewrite (IH e He (H e He)).
    - done.
    - rewrite agree_concat in H.
      rewrite (map_ext_Forall _ (fun e => the_value D (eval m2 e))); [done|].
      rewrite Forall_forall in *. intros e He. by rewrite (IH e He (H e He)).
    - done.
    - apply agree_app in H as [? ?]. rewrite IHv, IHd by done. done.
  Qed.

  Lemma value_agree m1 m2 e : agree (fv e) m1 m2 -> value D templates m1 e = value D templates m2 e.
  Proof. intros H. unfold value. by rewrite (eval_agree m1 m2 e H). Qed.

  Lemma values_agree m1 m2 es :
    agree (concat (map fv es)) m1 m2 -> values D templates m1 es = values D templates m2 es.
  Proof.
    intros H. unfold values. f_equal. apply map_ext_Forall. rewrite agree_concat in H.
    eapply Forall_impl; [exact H|]. intros e He. by apply value_agree.
  Qed.

  Lemma accesses_agree m1 m2 acc :
    agree (fv_acc acc) m1 m2 -> accesses D templates m1 acc = accesses D templates m2 acc.
  Proof.
    intros H. unfold accesses. f_equal. apply map_ext_Forall. unfold fv_acc in H.
    rewrite agree_concat in H. eapply Forall_impl; [exact H|]. intros [s|e] He; [done|].
    cbn in *. by rewrite (value_agree m1 m2 e He).
  Qed.

  Lemma position_agree m1 m2 x acc :
    agree (fv_acc acc) m1 m2 -> position D templates m1 x acc = position D templates m2 x acc.
  Proof. intros H. unfold position. by rewrite (accesses_agree m1 m2 acc H). Qed.

  Lemma log_values_agree m1 m2 e :
    agree (fv e) m1 m2 -> log_values D templates m1 e = log_values D templates m2 e.
  Proof.
    induction e as [| | | | | | | | | |vs IH|] using exp_ind'; intros Hag;
      try (cbn [log_values]; by rewrite (value_agree m1 m2 _ Hag)).
    cbn [log_values fv] in *. rewrite agree_concat in Hag.
    rewrite (map_ext_Forall _ (log_values D templates m2)); [done|].
    rewrite Forall_forall in *. intros e He. by apply IH, Hag.
  Qed.

  (** The values of an expression that creates no instance. *)
  Definition single (o : option (list (rval D))) : option V :=
    match o with Some [RVal _ v] => Some v | _ => None end.

  Fixpoint pures (m : gmap string (binding D)) (e : exp) : option (list (rval D)) :=
    match e with
    | Tuple es => (fun l => concat l) <$> mapM id (map (pures m) es)
    | ArrayInLine es =>
        vs ← mapM id (map single (map (pures m) es)); (fun v => [RVal D v]) <$> varray D vs
    | Parallel (Anon _ _ _ _ _ _) | Anon _ _ _ _ _ _ => None
    | _ => (fun v => [v]) <$> eval m e
    end.

  (** No anonymous component where the meaning would create one. *)
  Fixpoint clean (e : exp) : Prop :=
    match e with
    | Tuple es | ArrayInLine es => Forall id (map clean es)
    | Parallel (Anon _ _ _ _ _ _) | Anon _ _ _ _ _ _ => False
    | _ => True
    end.

  Lemma seq_pure {A} (fs : list (state D -> out D (state D * A))) (os : list (option A)) st :
    Forall2 (fun f o => f st = obind D (ofopt D o) (fun v => Done (st, v))) fs os ->
    seq D fs st = obind D (ofopt D (mapM id os)) (fun vs => Done (st, vs)).
  Proof.
    induction 1 as [|f o fs os Hf _ IH]; [done|]. cbn [seq mapM].
    rewrite Hf. destruct o as [v|]; cbn; [|done].
    rewrite IH. cbn. by destruct (mapM id os).
  Qed.

  Lemma evals_clean e : clean e -> forall par st,
    evals par e st = obind D (ofopt D (pures (env D st) e)) (fun vs => Done (st, vs)).
  Proof.
    induction e as [l op r _ _|op r _|c a b _ _ _|r IHr|x acc _|z|f args _|f args _
                   |pos f par params sigs names _ _|vs IH|vs IH|v d _ _] using exp_ind';
      intros Hc par' st; cbn [clean] in Hc; cbn [AnonSpec.evals pures];
      try (destruct (eval (env D st) _); done).
    - destruct r; try done; cbn [pures]; by destruct (eval (env D st) _).
    - done.
    - rewrite Forall_map in Hc.
      rewrite (seq_pure _ (map single (map (pures (env D st)) vs))).
      + destruct (mapM id _) as [l|]; cbn; [|done]. by destruct (varray D l).
      + clear -IH Hc. induction vs as [|e vs IHvs]; cbn; [constructor|].
        inversion IH; subst. inversion Hc; subst. constructor; [|by apply IHvs].
        rewrite (H1 H3). unfold one_value. destruct (pures (env D st) e) as [[|[v|] [|]]|]; done.
    - rewrite Forall_map in Hc.
      rewrite (seq_pure _ (map (pures (env D st)) vs)).
      + by destruct (mapM id _).
      + clear -IH Hc. induction vs as [|e vs IHvs]; cbn; [constructor|].
        inversion IH; subst. inversion Hc; subst. constructor; [|by apply IHvs].
        by rewrite (H1 H3).
  Qed.

  Lemma pures_agree m1 m2 e : agree (fv e) m1 m2 -> pures m1 e = pures m2 e.
  Proof.
    induction e as [l op r _ _|op r _|c a b _ _ _|r IHr|x acc _|z|f args _|f args _
                   |pos f par params sigs names _ _|vs IH|vs IH|v d _ _] using exp_ind';
      intros H; cbn [pures]; try (by rewrite (eval_agree m1 m2 _ H)).
    - done.
    - cbn [fv] in H. rewrite agree_concat in H.
      rewrite (map_ext_Forall _ (pures m2)); [done|].
      rewrite Forall_forall in *. intros e He. by apply IH, H.
    - cbn [fv] in H. rewrite agree_concat in H.
      rewrite (map_ext_Forall _ (pures m2)); [done|].
      rewrite Forall_forall in *. intros e He. by apply IH, H.
  Qed.
End agree.
