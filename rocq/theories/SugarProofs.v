(** Removal of nested calls, inline conditions and arrays from expressions: the statements in front compute the same values. *)
From stdpp Require Import prelude gmap strings.
From Coq Require Import ZArith.
From Verif Require Import SugarModel SugarSpec.
Open Scope nat_scope.

(** ** Induction over expressions *)
Definition acc_all (P : expr -> Prop) (a : access) : Prop := match a with Idx e => P e | Fld _ => True end.
Section ind.
Context (P : expr -> Prop).
Context (HNum : forall z, P (Num z)).
Context (HVar : forall ds x acc, Forall (acc_all P) acc -> P (Var ds x acc)).
Context (HCall : forall ds f args, Forall P args -> P (Call ds f args)).
Context (HPre : forall o e, P e -> P (Pre o e)).
Context (HInf : forall o l r, P l -> P r -> P (Inf o l r)).
Context (HSwitch : forall ds c t f, P c -> P t -> P f -> P (Switch ds c t f)).
Context (HArr : forall ds vs, Forall P vs -> P (Arr ds vs)).
Context (HUni : forall ds v d, P v -> P d -> P (Uni ds v d)).
Fixpoint expr_ind' (e : expr) : P e :=
  match e with
  | Num z => HNum z
  | Var ds x acc => HVar ds x acc
    ((fix go acc : Forall (acc_all P) acc :=
        match acc with
        | [] => @List.Forall_nil _ _
        | a :: acc => @List.Forall_cons _ _ a acc (match a as a return acc_all P a with Idx e => expr_ind' e | Fld _ => I end) (go acc)
        end) acc)
  | Call ds f args => HCall ds f args
    ((fix go l : Forall P l := match l with [] => @List.Forall_nil _ _ | e :: l => @List.Forall_cons _ _ e l (expr_ind' e) (go l) end) args)
  | Pre o e => HPre o e (expr_ind' e)
  | Inf o l r => HInf o l r (expr_ind' l) (expr_ind' r)
  | Switch ds c t f => HSwitch ds c t f (expr_ind' c) (expr_ind' t) (expr_ind' f)
  | Arr ds vs => HArr ds vs
    ((fix go l : Forall P l := match l with [] => @List.Forall_nil _ _ | e :: l => @List.Forall_cons _ _ e l (expr_ind' e) (go l) end) vs)
  | Uni ds v d => HUni ds v d (expr_ind' v) (expr_ind' d)
  end.
End ind.

(** ** Unfolding *)
Lemma names_var ds x acc : names (Var ds x acc) = x :: access_names acc.
Proof. cbn. f_equal. induction acc as [|[e|f] acc IH]; [done| |]; cbn; by rewrite IH. Qed.
Lemma names_call ds f args : names (Call ds f args) = flat_map names args.
Proof. cbn. induction args as [|e l IH]; [done|]. cbn. by rewrite IH. Qed.
Lemma names_arr ds vs : names (Arr ds vs) = flat_map names vs.
Proof. cbn. induction vs as [|e l IH]; [done|]. cbn. by rewrite IH. Qed.
Lemma direct_var ds x acc : direct (Var ds x acc) = x :: direct_accesses acc.
Proof. cbn. f_equal. induction acc as [|[e|f] acc IH]; [done| |]; cbn; by rewrite IH. Qed.
Lemma flat_var mixed inside ds x acc :
  flat mixed inside (Var ds x acc) = negb (inside && mixed x) && forallb (fun a => match a with Fld _ => true | Idx e => flat mixed (inside || mixed x) e end) acc.
Proof. cbn. f_equal. induction acc as [|[e|f] acc IH]; [done| |]; cbn; by rewrite IH. Qed.
Lemma lazy_var mixed inside ds x acc :
  lazy mixed inside (Var ds x acc) = forallb (fun a => match a with Fld _ => true | Idx e => lazy mixed (inside || mixed x) e end) acc.
Proof. cbn. induction acc as [|[e|f] acc IH]; [done| |]; cbn; by rewrite IH. Qed.
Lemma lazy_call mixed inside ds f args : lazy mixed inside (Call ds f args) = forallb (lazy mixed inside) args.
Proof. cbn. induction args as [|e l IH]; [done|]. cbn. by rewrite IH. Qed.
Lemma lazy_arr mixed inside ds vs : lazy mixed inside (Arr ds vs) = forallb (lazy mixed inside) vs.
Proof. cbn. induction vs as [|e l IH]; [done|]. cbn. by rewrite IH. Qed.
Lemma flat_lazy mixed e inside : flat mixed inside e = true -> lazy mixed inside e = true.
Proof.
  revert inside. induction e as [z|ds x acc IH|ds f args IH|o e IH|o l r IHl IHr|ds c t f IHc IHt IHf|ds vs IH|ds v d IHv IHd] using expr_ind';
    intros inside; try done; try (by cbn; auto); [|cbn; intros [? ?]%andb_prop; rewrite IHl, IHr; done].
  rewrite flat_var, lazy_var. intros [_ H]%andb_prop. induction IH as [|[e|f] acc Ha _ IHl]; [done| |]; cbn in *.
  - apply andb_prop in H as [H1 H2]. rewrite Ha by done. by rewrite IHl.
  - by apply IHl.
Qed.

Section world.
Context (W : world).
Notation eval := (eval W).
Notation path := (path W).
Notation evals := (evals W).
Lemma eval_var σ ov ds x acc : eval σ ov (Var ds x acc) =
  '(p, v) ← both (path σ acc) (or_ill (look σ x)); v ← select v p; shaped (default ds ov) v.
Proof.
  cbn [SugarSpec.eval]. unfold SugarSpec.path. do 3 f_equal.
  induction acc as [|[e|f] acc IH]; [done| |]; cbn; f_equal; apply IH.
Qed.
Lemma eval_call σ ov ds f args : eval σ ov (Call ds f args) = vs ← evals σ args; v ← or_fail (call W f vs); shaped (default ds ov) v.
Proof.
  cbn [SugarSpec.eval]. unfold SugarSpec.evals. reflexivity.
Qed.
Lemma eval_arr σ ov ds values : eval σ ov (Arr ds values) =
  match default ds ov with
  | [] => Ill
  | n :: rest => vs ← all (eval σ (Some rest) <$> values); shaped (n :: rest) (Node (vs ++ replicate (n - length vs) (zeros rest)))
  end.
Proof.
  cbn [SugarSpec.eval]. destruct (default ds ov) as [|n rest]; reflexivity.
Qed.
Lemma path_cons σ a acc : path σ (a :: acc) =
  '(k, p) ← both (match a with Fld f => Ok (Field f) | Idx e => v ← eval σ None e; z ← number v; Ok (At z) end) (path σ acc); Ok (k :: p).
Proof. done. Qed.

(** ** The value depends on the names of the expression only *)
Lemma eval_agree e : forall σ σ' ov, (forall x, x ∈ names e -> look σ' x = look σ x) -> eval σ' ov e = eval σ ov e.
Proof.
  induction e as [z|ds x acc IH|ds f args IH|o e IH|o l r IHl IHr|ds c t f IHc IHt IHf|ds vs IH|ds v d IHv IHd] using expr_ind';
    intros σ σ' ov H.
  - done.
  - rewrite !eval_var. rewrite names_var in H. rewrite (H x) by left.
    assert (path σ' acc = path σ acc) as ->; [|done].
    assert (forall y, y ∈ access_names acc -> look σ' y = look σ y) as Ha by (intros; apply H; by right). clear H.
    induction IH as [|[e|f] acc He _ IHacc]; [done| |]; rewrite !path_cons.
    + cbn in Ha. setoid_rewrite elem_of_app in Ha. rewrite (He σ σ') by auto. rewrite IHacc by auto. done.
    + rewrite IHacc by auto. done.
  - rewrite !eval_call. rewrite names_call in H. assert (evals σ' args = evals σ args) as ->; [|done].
    unfold SugarSpec.evals. induction IH as [|e l He _ IHl]; [done|]. cbn in H. setoid_rewrite elem_of_app in H.
    cbn [fmap list_fmap all]. rewrite (He σ σ') by auto. rewrite IHl by auto. done.
  - cbn. rewrite (IH σ σ') by auto. done.
  - cbn in *. setoid_rewrite elem_of_app in H. rewrite (IHl σ σ'), (IHr σ σ') by auto. done.
  - cbn in *. setoid_rewrite elem_of_app in H. setoid_rewrite elem_of_app in H. rewrite (IHc σ σ'), (IHt σ σ'), (IHf σ σ') by auto. done.
  - rewrite !eval_arr. rewrite names_arr in H. destruct (default ds ov) as [|n rest]; [done|].
    assert (all (eval σ' (Some rest) <$> vs) = all (eval σ (Some rest) <$> vs)) as ->; [|done].
    induction IH as [|e l He _ IHl]; [done|]. cbn in H. setoid_rewrite elem_of_app in H.
    cbn [fmap list_fmap all]. rewrite (He σ σ') by auto. rewrite IHl by auto. done.
  - cbn in *. setoid_rewrite elem_of_app in H. rewrite (IHv σ σ'), (IHd σ σ') by auto. done.
Qed.
Lemma path_agree acc σ σ' : (forall x, x ∈ access_names acc -> look σ' x = look σ x) -> path σ' acc = path σ acc.
Proof.
  induction acc as [|[e|f] acc IH]; intros H; [done| |]; rewrite !path_cons; cbn in H.
  - setoid_rewrite elem_of_app in H. rewrite (eval_agree e σ σ') by auto. rewrite IH by auto. done.
  - rewrite IH by auto. done.
Qed.
Lemma all_agree ov es σ σ' : (forall x, x ∈ flat_map names es -> look σ' x = look σ x) -> all (eval σ' ov <$> es) = all (eval σ ov <$> es).
Proof.
  induction es as [|e es IH]; intros H; [done|]. cbn in *. setoid_rewrite elem_of_app in H.
  rewrite (eval_agree e σ σ') by auto. by rewrite IH by auto.
Qed.

(** ** Shapes *)
Definition sugar (e : expr) : bool := is_call e || is_switch e || is_array e.
Lemma shaped_ok ds v w : shaped ds v = Ok w -> w = v /\ has_shape ds v = true.
Proof. unfold shaped. destruct (has_shape ds v); intros [= <-]; done. Qed.
Lemma eval_shape σ e v : sugar e = true \/ (exists ds x acc, e = Var ds x acc) -> eval σ None e = Ok v -> has_shape (dims_of e) v = true.
Proof.
  intros [H|(ds & x & acc & ->)].
  - destruct e as [z|ds x acc|ds f args|o e|o l r|ds c t f|ds vs|ds w d]; try done; cbn [dims_of].
    + rewrite eval_call. destruct (evals σ args); cbn; try done. destruct (or_fail _); cbn; try done. by intros [-> ?]%shaped_ok.
    + cbn. destruct (SugarSpec.eval W σ None c); cbn; try done. destruct (number _); cbn; try done.
      destruct (if (_ =? 0)%Z then _ else _); cbn; try done. by intros [-> ?]%shaped_ok.
    + rewrite eval_arr. cbn. destruct ds; [done|]. destruct (all _); cbn; try done. by intros [-> ?]%shaped_ok.
    + cbn. destruct (both _ _) as [[]| |]; cbn; try done. by intros [-> ?]%shaped_ok.
  - rewrite eval_var. cbn. destruct (both _ _) as [[]| |]; cbn; try done. destruct (select _ _); cbn; try done. by intros [-> ?]%shaped_ok.
Qed.
Lemma overlay_zeros ds : forall v, has_shape ds v = true -> overlay v (zeros ds) = Some v.
Proof.
  induction ds as [|d ds IH]; intros v; [by destruct v|]. destruct v as [|l|]; try done. cbn.
  intros [Hl Hs]%andb_prop. apply Nat.eqb_eq in Hl. subst d.
  enough (forall l, forallb (has_shape ds) l = true ->
    (fix go (vs os : list val) {struct vs} : option (list val) := match vs, os with
      | [], _ => Some os | v :: vs, o :: os => w ← overlay v o; ws ← go vs os; Some (w :: ws) | _ :: _, [] => None end)
      l (replicate (length l) (zeros ds)) = Some l) as ->; [done|done|].
  clear l Hs. induction l as [|v l IHl]; [done|]. cbn. intros [Hv Hl]%andb_prop. rewrite IH by done. cbn. by rewrite IHl.
Qed.

(** ** Results *)
Lemma both_ill {A B} (x : R A) (y : R B) : both x y <> Ill -> x <> Ill /\ y <> Ill.
Proof. by destruct x, y. Qed.
Lemma all_app {A} (l1 l2 : list (R A)) : all (l1 ++ l2) = '(a, b) ← both (all l1) (all l2); Ok (a ++ b).
Proof.
  induction l1 as [|x l1 IH]; cbn; [by destruct (all l2)|]. rewrite IH.
  destruct x, (all l1), (all l2); cbn; done.
Qed.
Lemma all_length {A} (l : list (R A)) a : all l = Ok a -> length a = length l.
Proof.
  revert a. induction l as [|x l IH]; cbn; [by intros ? [= <-]|]. intros a. destruct x, (all l) eqn:E; cbn; try done.
  intros [= <-]. cbn. by rewrite (IH _ eq_refl).
Qed.
Lemma all_replicate {A} n (x : R A) : n <> 0 -> all (replicate n x) = a ← x; Ok (replicate n a).
Proof.
  intros Hn. destruct n as [|n]; [done|]. clear Hn. induction n as [|n IH]; [by destruct x|].
  cbn [replicate]. cbn [replicate] in IH. cbn [all]. unfold all in IH. cbn in IH. cbn. unfold all. rewrite IH. by destruct x.
Qed.

(** ** States that differ in new temporaries only *)
Definition below (k : nat) (x : name) : Prop := match x with Auto j => j < k | _ => True end.
Definition keeps (k : nat) (σ σ' : state) : Prop :=
  exists b b' τ, σ = b :: τ /\ σ' = b' :: τ /\ forall x, below k x -> b' !! x = b !! x.
Definition under (k : nat) (e : expr) : Prop := forall x, x ∈ names e -> below k x.
Lemma below_le k k' x : k <= k' -> below k x -> below k' x.
Proof. destruct x; cbn; lia. Qed.
Lemma keeps_refl k σ : σ <> [] -> keeps k σ σ.
Proof. destruct σ as [|b τ]; [done|]. intros _. exists b, b, τ. done. Qed.
Lemma keeps_trans k k1 σ σ1 σ2 : k <= k1 -> keeps k σ σ1 -> keeps k1 σ1 σ2 -> keeps k σ σ2.
Proof.
  intros Hk (b & b1 & τ & -> & -> & H1) (c & c2 & τ' & [= <- <-] & -> & H2). exists b, c2, τ. split_and!; [done..|].
  intros x Hx. rewrite H2 by (by eapply below_le). by apply H1.
Qed.
Lemma keeps_ne k σ σ' : keeps k σ σ' -> σ' <> [].
Proof. by intros (b & b' & τ & -> & -> & _). Qed.
Lemma keeps_look k σ σ' x : keeps k σ σ' -> below k x -> look σ' x = look σ x.
Proof. intros (b & b' & τ & -> & -> & H) Hx. cbn. by rewrite H. Qed.
Lemma keeps_eval k σ σ' ov e : keeps k σ σ' -> under k e -> eval σ' ov e = eval σ ov e.
Proof. intros Hk He. apply eval_agree. intros x Hx. eapply keeps_look; [done|]. by apply He. Qed.
Definition stable {A} (k : nat) (f : state -> R A) : Prop := forall σ σ', keeps k σ σ' -> f σ' = f σ.
Lemma stable_le {A} k k' (f : state -> R A) : k' <= k -> stable k f -> forall σ σ', keeps k σ σ' -> f σ' = f σ.
Proof. intros _ H σ σ'. apply H. Qed.

(** ** Statements in front that compute values *)
Context (n : nat).
Notation exec := (exec W n).
Definition settled (ov : option (list nat)) (e : expr) : Prop :=
  match ov, e with
  | Some d, (Var ds _ _ | Call ds _ _ | Switch ds _ _ _ | Arr ds _ | Uni ds _ _) => ds = d
  | _, _ => True
  end.
Lemma eval_settled σ d e : settled (Some d) e -> eval σ (Some d) e = eval σ None e.
Proof. destruct e; cbn [settled]; intros; subst; reflexivity. Qed.
(** expressions that do not fail *)
Definition safe (e : expr) : Prop := match e with Num _ | Var _ _ [] => True | _ => False end.
(** inline arrays have all their elements *)
Definition full (e : expr) : Prop :=
  match e with
  | Arr [] _ => False
  | Arr (m :: rest) vs => m <= length vs /\ Forall (settled (Some rest)) vs
  | Uni _ v (Num d) => Z.to_nat d = 0 -> safe v
  | _ => True
  end.
Definition assign_ok (x : name) (acc : list access) (rhe : expr) : Prop :=
  match rhe with
  | Arr _ vs => full rhe /\ x ∉ flat_map names vs /\ x ∉ access_names acc /\ (vs = [] -> acc = [])
  | Uni _ v (Num d) => Z.to_nat d = 0 /\ acc = [] /\ safe v \/ Z.to_nat d <> 0 /\ x ∉ names v /\ x ∉ access_names acc
  | _ => True
  end.
Definition init_ok (s : stmt) : Prop := match s with Decl _ _ => True | Assign x acc _ rhe => assign_ok x acc rhe | _ => False end.
Definition does {A} (k k' : nat) (is : list stmt) (src tgt : state -> R A) : Prop :=
  k <= k' /\ Forall init_ok is /\
  forall σ, σ <> [] -> src σ <> Ill ->
    (exists σ', sequence exec is σ = Ok (σ', [], Next) /\ keeps k σ σ' /\ tgt σ' = src σ) \/
    (sequence exec is σ = Fail /\ src σ = Fail).
Lemma sequence_app f l1 l2 σ : sequence f (l1 ++ l2) σ = andthen (sequence f l1 σ) (sequence f l2).
Proof.
  revert σ. induction l1 as [|s l1 IH]; intros σ; cbn; [by destruct (sequence f l2 σ) as [[[]]| |]|].
  destruct (f s σ) as [[[σ1 t] r]| |]; cbn; try done. destruct r; cbn; try done.
  rewrite IH. destruct (sequence f l1 σ1) as [[[σ2 t2] r2]| |]; cbn; try done. destruct r2; cbn; try done.
  destruct (sequence f l2 σ2) as [[[σ3 t3] r3]| |]; cbn; try done. by rewrite app_assoc.
Qed.
Lemma does_nil {A} k (s t : state -> R A) : (forall σ, s σ <> Ill -> t σ = s σ) -> does k k [] s t.
Proof. intros H. split_and!; [done|constructor|]. intros σ Hσ Hs. left. exists σ. split_and!; [done|by apply keeps_refl|auto]. Qed.
Lemma does_trans {A} k k1 k2 i1 i2 (s m t : state -> R A) :
  does k k1 i1 s m -> does k1 k2 i2 m t -> does k k2 (i1 ++ i2) s t.
Proof.
  intros (Hk1 & Ho1 & H1) (Hk2 & Ho2 & H2). split_and!; [lia|by apply Forall_app|]. intros σ Hσ Hs. rewrite sequence_app.
  destruct (H1 σ Hσ Hs) as [(σ1 & -> & Hk & E)|(-> & E)]; [|by right]. cbn.
  assert (m σ1 <> Ill) as Hm by (by rewrite E).
  destruct (H2 σ1 (keeps_ne _ _ _ Hk) Hm) as [(σ2 & -> & Hk' & E')|(-> & E')]; [left|right; split; [done|congruence]].
  exists σ2. split_and!; [done|by eapply keeps_trans|congruence].
Qed.
Lemma does_both {A B} k k1 k2 i1 i2 (s1 t1 : state -> R A) (s2 t2 : state -> R B) :
  does k k1 i1 s1 t1 -> does k1 k2 i2 s2 t2 -> stable k s2 -> stable k1 t1 ->
  does k k2 (i1 ++ i2) (fun σ => both (s1 σ) (s2 σ)) (fun σ => both (t1 σ) (t2 σ)).
Proof.
  intros (Hk1 & Ho1 & H1) (Hk2 & Ho2 & H2) Hs2 Ht1. split_and!; [lia|by apply Forall_app|]. intros σ Hσ Hs. rewrite sequence_app.
  apply both_ill in Hs as Hs'. destruct Hs' as [N1 N2].
  destruct (H1 σ Hσ N1) as [(σ1 & -> & Hk & E)|(-> & E)]; [|right; rewrite E; by destruct (s2 σ)]. cbn.
  rewrite <- (Hs2 _ _ Hk) in N2.
  destruct (H2 σ1 (keeps_ne _ _ _ Hk) N2) as [(σ2 & -> & Hk' & E')|(-> & E')]; [left|right].
  - exists σ2. split_and!; [done|by eapply keeps_trans|]. rewrite (Ht1 _ _ Hk'), E', E, (Hs2 _ _ Hk). done.
  - rewrite (Hs2 _ _ Hk) in E'. rewrite E'. by destruct (s1 σ).
Qed.
Lemma does_map {A B} k k' i (s t : state -> R A) (g : A -> R B) : does k k' i s t -> does k k' i (fun σ => s σ ≫= g) (fun σ => t σ ≫= g).
Proof.
  intros (Hk & Ho & H). split_and!; [done..|]. intros σ Hσ Hs.
  destruct (H σ Hσ) as [(σ' & E1 & E2 & E3)|(E1 & E2)]; [by destruct (s σ)|left|right].
  - exists σ'. by rewrite E3.
  - by rewrite E2.
Qed.
Lemma does_ext {A} k k' i (s s' t t' : state -> R A) : (forall σ, s' σ = s σ) -> (forall σ, s σ <> Ill -> forall σ', t σ' = s σ -> t' σ' = t σ') -> does k k' i s t -> does k k' i s' t'.
Proof.
  intros Hs Ht (Hk & Ho & H). split_and!; [done..|]. intros σ Hσ. rewrite Hs. intros Hn.
  destruct (H σ Hσ Hn) as [(σ' & E1 & E2 & E3)|(E1 & E2)]; [left|by right]. exists σ'. split_and!; [done..|]. rewrite (Ht σ); auto.
Qed.

(** ** One temporary *)
Definition names_in (k k' : nat) (l l' : list name) : Prop := forall x, x ∈ l' -> x ∈ l \/ exists j, x = Auto j /\ k <= j < k'.
Lemma extract_does k e : under k e -> full e -> sugar e = true \/ (exists ds x acc, e = Var ds x acc) ->
  does k (S k) [Decl (Auto k) (dims_of e); Assign (Auto k) [] "=" e] (fun σ => eval σ None e) (fun σ => eval σ None (Var (dims_of e) (Auto k) [])).
Proof.
  intros Hu Hf Hs. assert (forall e', (forall x, x ∈ names e' -> x ∈ names e) -> Auto k ∉ names e') as Hnot.
  { intros e' Hin H%Hin%Hu. cbn in H. lia. }
  split_and!; [lia| |].
  { constructor; [exact I|]. constructor; [|constructor]. cbn. destruct e as [z|ds x acc|ds f args|o e|o l r|ds c t f|ds vs|ds v d]; try exact I; cbn.
    - split_and!; [done| |set_solver|done]. specialize (Hnot (Arr ds vs)). rewrite names_arr in Hnot. auto.
    - destruct d; try exact I. destruct (decide (Z.to_nat z = 0)); [left; by auto|right]. split_and!; [done| |set_solver].
      intros H. apply (Hnot (Uni ds v (Num z))); [done|]. cbn. rewrite app_nil_r. done. }
  intros σ Hσ Hn. destruct σ as [|b τ]; [done|]. cbn [sequence SugarSpec.exec andthen mbind R_bind].
  set (σ1 := <[Auto k := zeros (dims_of e)]> b :: τ).
  assert (eval σ1 None e = eval (b :: τ) None e) as E.
  { apply eval_agree. intros x Hx. cbn. rewrite lookup_insert_ne; [done|]. intros <-. apply Hu in Hx. cbn in Hx. lia. }
  rewrite E. destruct (eval (b :: τ) None e) as [v| |] eqn:Ev; [|right|done].
  - left. cbn. rewrite lookup_insert. cbn. apply eval_shape in Ev as Hv; [|done]. rewrite overlay_zeros by done. cbn.
    rewrite insert_insert. exists (<[Auto k := v]> b :: τ). split_and!; [done| |].
    + exists b, (<[Auto k := v]> b), τ. split_and!; [done..|]. intros x Hx. rewrite lookup_insert_ne; [done|]. intros <-. cbn in Hx. lia.
    + cbn. rewrite lookup_insert. cbn. unfold shaped. by rewrite Hv.
  - done.
Qed.

(** ** Taking sugar out of a list of expressions *)
Definition sieved (k k' : nat) (e e' : expr) : Prop :=
  if sugar e then exists j, e' = Var (dims_of e) (Auto j) [] /\ k <= j < k' else e' = e.
Lemma bnd_some {A B} (x : M A) (f : A -> M B) k r : bnd x f k = Some r -> exists a k1, x k = Some (a, k1) /\ f a k1 = Some r.
Proof. unfold bnd. destruct (x k) as [[a k1]|]; [|done]. eauto. Qed.
Lemma sieved_names k k' e e' : sieved k k' e e' -> names_in k k' (names e) (names e').
Proof.
  unfold sieved. destruct (sugar e); [|intros ->; by left]. intros (j & -> & Hj) x. cbn. rewrite elem_of_list_singleton. intros ->. right. eauto.
Qed.
Lemma names_in_under k k' e l : names_in k k' l (names e) -> (forall x, x ∈ l -> below k x) -> k <= k' -> under k' e.
Proof. intros H Hl Hk x Hx. destruct (H x Hx) as [Hi|(j & -> & Hj)]; [eapply below_le; eauto|cbn; lia]. Qed.
Lemma under_le k k' e : k <= k' -> under k e -> under k' e.
Proof. intros ? H x Hx. eapply below_le; eauto. Qed.
Lemma under_stable k ov e : under k e -> stable k (fun σ => eval σ ov e).
Proof. intros H σ σ' Hk. by eapply keeps_eval. Qed.
Lemma all_stable k ov es : Forall (under k) es -> stable k (fun σ => all (eval σ ov <$> es)).
Proof.
  intros H σ σ' Hk. induction H as [|e es He _ IH]; [done|]. cbn. rewrite (keeps_eval k σ σ' ov e) by done. by rewrite IH.
Qed.
Lemma does_le {A} k k0 k' i (s t : state -> R A) : k0 <= k -> does k k' i s t -> does k0 k' i s t.
Proof.
  intros H0 (Hk & Ho & H). split_and!; [lia|done|]. intros σ Hσ Hs. destruct (H σ Hσ Hs) as [(σ' & E1 & E2 & E3)|?]; [left|by right].
  exists σ'. split_and!; [done| |done]. destruct E2 as (b & b' & τ & -> & -> & E2). exists b, b', τ. split_and!; [done..|].
  intros x Hx. apply E2. by eapply below_le.
Qed.
Lemma step_does e i k e' i' k' : (if is_call e || is_switch e || is_array e then rmv_sugar e i else ret (e, i)) k = Some ((e', i'), k') -> under k e -> full e ->
  exists i2, i' = i ++ i2 /\ does k k' i2 (fun σ => eval σ None e) (fun σ => eval σ None e') /\ sieved k k' e e' /\ under k' e' /\ k <= k' /\
    (sugar e = false -> e' = e /\ i2 = [] /\ k' = k).
Proof.
  intros H Hu Hf. unfold sieved. destruct (sugar e) eqn:Es; unfold sugar in Es; rewrite Es in H.
  - injection H as <- <- <-. exists [Decl (Auto k) (dims_of e); Assign (Auto k) [] "=" e]. split_and!; [done| |eauto| |lia|done].
    + apply extract_does; [done..|by left].
    + intros x. cbn. rewrite elem_of_list_singleton. intros ->. cbn. lia.
  - injection H as <- <- <-. exists []. rewrite app_nil_r. split_and!; [done|by apply does_nil|done..].
Qed.
Lemma sieved_le k0 k k' k1 e e' : k0 <= k -> k' <= k1 -> sieved k k' e e' -> sieved k0 k1 e e'.
Proof. unfold sieved. destruct (sugar e); [|done]. intros ? ? (j & ? & ?). exists j. split; [done|lia]. Qed.
Lemma sugar_filter_does es : forall i k es' i' k', sugar_filter es i k = Some ((es', i'), k') -> Forall (under k) es -> Forall full es ->
  exists i2, i' = i ++ i2 /\ does k k' i2 (fun σ => evals σ es) (fun σ => evals σ es') /\ Forall2 (sieved k k') es es' /\ Forall (under k') es'.
Proof.
  induction es as [|e es IH]; intros i k es' i' k'.
  { intros [= <- <- <-] _ _. exists []. rewrite app_nil_r. split_and!; [done|by apply does_nil|constructor|constructor]. }
  intros H Hu Hf. inversion Hu as [|? ? Hue Hues]; subst. inversion Hf as [|? ? Hfe Hfes]; subst. cbn in H. apply bnd_some in H as ([e1 i1] & k1 & H1 & H2).
  apply bnd_some in H2 as ([es1 i2] & k2 & H2 & [= <- <- <-]). apply step_does in H1 as (j1 & -> & D1 & S1 & U1 & K1 & _); [|done..].
  apply IH in H2 as (j2 & -> & D2 & S2 & U2); [|eapply Forall_impl; [exact Hues|intros a Ha; eapply under_le; [exact K1|exact Ha]]|exact Hfes].
  exists (j1 ++ j2). split_and!; [by rewrite app_assoc| | |].
  - apply (does_map _ _ _ (fun σ => both (eval σ None e) (evals σ es)) (fun σ => both (eval σ None e1) (evals σ es1)) (fun '(a, l) => Ok (a :: l))).
    eapply does_both; [done|done|by apply all_stable|by apply under_stable].
  - destruct D2 as (K2 & _). constructor; [by eapply sieved_le; [| |done]|].
    eapply Forall2_impl; [done|]. intros a b. apply sieved_le; lia.
  - constructor; [|done]. eapply under_le; [|done]. by destruct D2.
Qed.
Lemma sugar_filter_plain es i k : Forall (fun e => sugar e = false) es -> sugar_filter es i k = Some ((es, i), k).
Proof.
  intros H. induction H as [|e es He _ IH]; [done|]. cbn. unfold sugar in He. rewrite He. unfold bnd at 1. cbn. unfold bnd. by rewrite IH.
Qed.
Lemma filter1_does e i k e' i' k' : sugar_filter1 e i k = Some ((e', i'), k') -> under k e -> full e ->
  exists i2, i' = i ++ i2 /\ does k k' i2 (fun σ => eval σ None e) (fun σ => eval σ None e') /\ sieved k k' e e' /\ under k' e' /\
    (sugar e = false -> e' = e /\ i2 = [] /\ k' = k).
Proof.
  intros H Hu Hf. apply bnd_some in H as ([l i1] & k1 & H & H2). cbn in H. apply bnd_some in H as ([e1 j1] & k2 & H1 & [= <- <- <-]).
  injection H2 as <- <- <-. apply step_does in H1 as (j & -> & D1 & S1 & U1 & K1 & F1); [|done..]. exists j. done.
Qed.
Lemma filter2_does a b i k a' b' i' k' : sugar_filter2 a b i k = Some ((a', b', i'), k') -> under k a -> under k b -> full a -> full b ->
  exists i2, i' = i ++ i2 /\
    (forall (g h : val -> R val), does k k' i2 (fun σ => both (eval σ None a ≫= g) (eval σ None b ≫= h)) (fun σ => both (eval σ None a' ≫= g) (eval σ None b' ≫= h))) /\
    sieved k k' a a' /\ sieved k k' b b' /\ under k' a' /\ under k' b' /\ k <= k' /\
    (sugar a = false -> sugar b = false -> a' = a /\ b' = b /\ i2 = [] /\ k' = k).
Proof.
  intros H Hua Hub Hfa Hfb. apply bnd_some in H as ([l i1] & k1 & H & H2). cbn in H. apply bnd_some in H as ([a1 j1] & k2 & Ha & H).
  apply bnd_some in H as ([l1 j2] & k3 & Hb & [= <- <- <-]). apply bnd_some in Hb as ([b1 j3] & k4 & Hb & [= <- <- <-]).
  injection H2 as <- <- <- <-. apply step_does in Ha as (i2 & -> & D1 & S1 & U1 & K1 & F1); [|done..].
  apply step_does in Hb as (i3 & -> & D2 & S2 & U2 & K2 & F2); [|by eapply under_le|done]. exists (i2 ++ i3). split_and!.
  - by rewrite app_assoc.
  - intros g h. eapply does_both; [by apply does_map|by apply does_map| |]; intros σ σ' Hk; f_equal.
    + by apply (keeps_eval k σ σ').
    + by apply (keeps_eval k2 σ σ').
  - by eapply sieved_le; [| |done].
  - by eapply sieved_le; [| |done].
  - by eapply under_le.
  - done.
  - lia.
  - intros Hsa Hsb. destruct (F1 Hsa) as (-> & -> & ->). destruct (F2 Hsb) as (-> & -> & ->). done.
Qed.
Lemma bind_ok (x : R val) : x ≫= (fun v => Ok v) = x.
Proof. by destruct x. Qed.
Definition numeric (v : val) : R val := z ← number v; Ok (Leaf z).

(** ** Expressions *)
(** names that are left in an expression, but for temporaries *)
Definition top_names (e : expr) : list name :=
  match e with
  | Call _ _ args => flat_map direct args
  | Switch _ c t f => names c ++ direct t ++ direct f
  | Arr _ vs => flat_map direct vs
  | Uni _ v d => direct v ++ direct d
  | _ => direct e
  end.
Lemma direct_names e : forall x, x ∈ direct e -> x ∈ names e.
Proof.
  induction e as [z|ds x acc IH|ds f args IH|o e IH|o l r IHl IHr|ds c t f IHc IHt IHf|ds vs IH|ds v d IHv IHd] using expr_ind'; intros y; try by inversion 1.
  - rewrite direct_var, names_var, !elem_of_cons. intros [->|H]; [by left|right]. induction IH as [|[e|f] acc He _ IHa]; [done| |]; cbn in *.
    + rewrite elem_of_app in *. intuition.
    + by apply IHa.
  - apply IH.
  - cbn. rewrite !elem_of_app. intuition.
Qed.
Lemma flat_map_direct es x : x ∈ flat_map direct es -> x ∈ flat_map names es.
Proof. induction es as [|e es IH]; [done|]. cbn. rewrite !elem_of_app. intros [H|H]; [left; by apply direct_names|right; auto]. Qed.
Lemma top_names_names e x : x ∈ top_names e -> x ∈ names e.
Proof.
  destruct e; cbn [top_names]; try apply direct_names.
  - rewrite names_call. apply flat_map_direct.
  - cbn. rewrite !elem_of_app. intros [H|[H|H]]; auto using direct_names.
  - rewrite names_arr. apply flat_map_direct.
  - cbn. rewrite !elem_of_app. intros [H|H]; auto using direct_names.
Qed.
Definition keeps_size (ov : option (list nat)) (e e' : expr) : Prop :=
  match e with
  | Uni _ _ d => exists ds v' d', e' = Uni ds v' d' /\ forall z, d' = Num z <-> d = Num z
  | Arr _ _ => exists ds vs', e' = Arr ds vs' /\ (ov = None -> length vs' = size e)
  | Var _ _ _ => exists ds x acc, e' = Var ds x acc
  | Num _ | Call _ _ _ | Pre _ _ | Inf _ _ _ | Switch _ _ _ _ => is_array e' = false
  end.
Definition good (k k' : nat) (ov : option (list nat)) (e e' : expr) : Prop :=
  names_in k k' (top_names e) (names e') /\ settled ov e' /\ sugar e' = sugar e /\ full e' /\ keeps_size ov e e'.
Lemma names_in_le k0 k k' k1 l l' : k0 <= k -> k' <= k1 -> names_in k k' l l' -> names_in k0 k1 l l'.
Proof. intros ? ? H x Hx. destruct (H x Hx) as [?|(j & ? & ?)]; [by left|right]. exists j. split; [done|lia]. Qed.
Lemma names_in_mono k k' l1 l2 l' : (forall x, x ∈ l1 -> x ∈ l2) -> names_in k k' l1 l' -> names_in k k' l2 l'.
Proof. intros H1 H x Hx. destruct (H x Hx); auto. Qed.
Lemma names_in_app k k' l1 l2 l1' l2' : names_in k k' l1 l1' -> names_in k k' l2 l2' -> names_in k k' (l1 ++ l2) (l1' ++ l2').
Proof. intros H1 H2 x. rewrite !elem_of_app. intros [H|H]; [destruct (H1 x H)|destruct (H2 x H)]; auto. Qed.
Lemma good_le k0 k k' k1 ov e e' : k0 <= k -> k' <= k1 -> good k k' ov e e' -> good k0 k1 ov e e'.
Proof. intros ? ? (H & ?). split; [by eapply names_in_le|done]. Qed.
Lemma good_under k k' ov e e' : k <= k' -> good k k' ov e e' -> under k e -> under k' e'.
Proof. intros ? (H & _) Hu. eapply names_in_under; [done| |done]. intros x Hx. apply Hu. by apply top_names_names. Qed.
Lemma top_direct e : sugar e = false -> top_names e = direct e.
Proof. by destruct e. Qed.
Lemma sieve_good k k1 k2 ov e e1 e2 : k <= k1 -> k1 <= k2 -> good k k1 ov e e1 -> sieved k1 k2 e1 e2 -> names_in k k2 (direct e) (names e2) /\ settled ov e2.
Proof.
  intros ? ? (Hn & Hs & Hsg & Hf). unfold sieved. destruct (sugar e1) eqn:E.
  - intros (j & -> & Hj). split; [|by destruct ov, e1; try done; cbn in *].
    intros x. cbn. rewrite elem_of_list_singleton. intros ->. right. exists j. split; [done|lia].
  - intros ->. rewrite <- top_direct by (by rewrite <- Hsg). split; [|done]. by eapply names_in_le; [| |done].
Qed.
Lemma sieve_list k k1 k2 ov es es1 es2 : k <= k1 -> k1 <= k2 -> Forall2 (good k k1 ov) es es1 -> Forall2 (sieved k1 k2) es1 es2 ->
  names_in k k2 (flat_map direct es) (flat_map names es2) /\ Forall (settled ov) es2.
Proof.
  intros ? ? H. revert es2. induction H as [|e e1 es es1 He _ IH]; intros es2 H2; inversion H2 as [|? e2 ? es2' S1 S2]; subst.
  { split; [by intros x Hx; inversion Hx|constructor]. }
  destruct (IH _ S2) as [I1 I2]. eapply sieve_good in S1 as [J1 J2]; [|done..]. cbn. split; [by apply names_in_app|by constructor].
Qed.
Lemma flat_sugar mixed inside e : flat mixed inside e = true -> sugar e = false.
Proof. by destruct e. Qed.

Context (Hpow : forall a b, den2 W Pow a b = match den2 W Add 0 b with Some b' => den2 W Pow a b' | None => None end).
Lemma fix_pow_eval σ ov o l r : eval σ ov (Inf o l (fix_pow o l r)) = eval σ ov (Inf o l r).
Proof.
  assert (fix_pow o l r = r \/ o = Pow /\ fix_pow o l r = Inf Add (Num 0) r) as [->|[-> ->]]; [|done|].
  { unfold fix_pow. destruct o; try by left. destruct r, l; try by left. all: case_bool_decide; [by right|by left]. }
  cbn. generalize (v ← SugarSpec.eval W σ None l; number v), (w ← SugarSpec.eval W σ None r; number w). intros a b.
  destruct b as [b| |]; cbn; [|by destruct a..]. destruct a as [a| |]; cbn; [rewrite (Hpow a b)| |]; destruct (den2 W Add 0 b); done.
Qed.
Lemma fix_pow_names o l r : names (fix_pow o l r) = names r.
Proof.
  assert (fix_pow o l r = r \/ o = Pow /\ fix_pow o l r = Inf Add (Num 0) r) as [->|[-> ->]]; [|done|done].
  unfold fix_pow. destruct o; try by left. destruct r, l; try by left. all: case_bool_decide; [by right|by left].
Qed.

Context (mixed : name -> bool).
Notation extend_expression := (extend_expression mixed).
Notation lazy := (lazy mixed).
Notation flat := (flat mixed).
Definition extends (e : expr) : Prop := forall inside ov k e' i k',
  extend_expression inside ov e k = Some ((e', i), k') -> lazy inside e = true -> under k e ->
  does k k' i (fun σ => eval σ ov e) (fun σ => eval σ None e') /\ good k k' ov e e' /\ (flat inside e = true -> i = [] /\ k' = k).
Lemma extend_list_does inside ov es : Forall extends es -> forall k es' i k',
  extend_list (fun e => extend_expression inside ov e) es k = Some ((es', i), k') -> forallb (lazy inside) es = true -> Forall (under k) es ->
  does k k' i (fun σ => all (eval σ ov <$> es)) (fun σ => evals σ es') /\ Forall2 (good k k' ov) es es'.
Proof.
  intros IH. induction IH as [|e es He _ IH]; intros k es' i k'.
  { intros [= <- <- <-] _ _. split; [by apply does_nil|constructor]. }
  cbn [extend_list forallb]. intros H [Hl Hls]%andb_prop Hu. inversion Hu as [|? ? Hue Hus]; subst.
  apply bnd_some in H as ([e1 i1] & k1 & H1 & H). apply bnd_some in H as ([es1 i2] & k2 & H2 & [= <- <- <-]).
  destruct (He _ _ _ _ _ _ H1 Hl Hue) as (D1 & G1 & _). assert (k <= k1) as K1 by apply D1.
  destruct (IH _ _ _ _ H2 Hls) as (D2 & G2); [eapply Forall_impl; [exact Hus|intros a Ha; eapply under_le; [exact K1|exact Ha]]|].
  assert (k1 <= k2) as K2 by apply D2. split.
  - change (does k k2 (i1 ++ i2) (fun σ => both (eval σ ov e) (all (eval σ ov <$> es)) ≫= (fun '(a, l) => Ok (a :: l))) (fun σ => both (eval σ None e1) (evals σ es1) ≫= (fun '(a, l) => Ok (a :: l)))).
    apply (does_map _ _ _ (fun σ => both (eval σ ov e) (all (eval σ ov <$> es))) (fun σ => both (eval σ None e1) (evals σ es1))). eapply does_both; [done|done|by apply all_stable|]. apply under_stable. by eapply good_under.
  - constructor; [eapply good_le; [| |exact G1]; lia|]. eapply Forall2_impl; [exact G2|]. intros. eapply good_le; [| |done]; lia.
Qed.
Lemma path_stable k acc : (forall x, x ∈ access_names acc -> below k x) -> stable k (fun σ => path σ acc).
Proof. intros H σ σ' Hk. apply path_agree. intros x Hx. eapply keeps_look; [done|auto]. Qed.
Lemma extend_accesses_does inside acc : Forall (acc_all extends) acc -> forall k acc' i k',
  extend_accesses (fun e => extend_expression inside None e) acc k = Some ((acc', i), k') ->
  forallb (fun a => match a with Fld _ => true | Idx e => lazy inside e end) acc = true -> (forall x, x ∈ access_names acc -> below k x) ->
  does k k' i (fun σ => path σ acc) (fun σ => path σ acc') /\ names_in k k' (direct_accesses acc) (access_names acc') /\ length acc' = length acc /\
    (forallb (fun a => match a with Fld _ => true | Idx e => flat inside e end) acc = true -> i = [] /\ k' = k).
Proof.
  intros IH. induction IH as [|[e|f] acc He _ IH]; intros k acc' i k'.
  { intros [= <- <- <-] _ _. split_and!; [by apply does_nil| |done..]. intros x Hx. inversion Hx. }
  - cbn [extend_accesses forallb]. intros H [Hl Hls]%andb_prop Hu. cbn in Hu. setoid_rewrite elem_of_app in Hu.
    apply bnd_some in H as ([e1 i1] & k1 & H1 & H). apply bnd_some in H as ([e2 i2] & k2 & H2 & H). apply bnd_some in H as ([acc1 i3] & k3 & H3 & [= <- <- <-]).
    assert (under k e) as Ue by (intros x Hx; auto).
    destruct (He _ _ _ _ _ _ H1 Hl Ue) as (D1 & G1 & F1). assert (k <= k1) as K1 by apply D1.
    destruct (filter1_does _ _ _ _ _ _ H2) as (j & -> & D2 & S2 & U2 & F2); [by eapply good_under|apply G1|]. assert (k1 <= k2) as K2 by apply D2.
    destruct (IH _ _ _ _ H3 Hls) as (D3 & N3 & L3 & F3); [intros; eapply below_le; [|eauto]; lia|]. assert (k2 <= k3) as K3 by apply D3.
    destruct (sieve_good _ _ _ _ _ _ _ K1 K2 G1 S2) as [N1 _]. split_and!.
    + pose (g := fun v : val => z ← number v; Ok (At z)).
      apply (does_map _ _ _ (fun σ => both (eval σ None e ≫= g) (path σ acc)) (fun σ => both (eval σ None e2 ≫= g) (path σ acc1)) (fun '(a, l) => Ok (a :: l))).
      eapply does_both; [apply does_map; by eapply does_trans|done| |].
      * apply path_stable. auto.
      * intros σ σ' Hk. by rewrite (keeps_eval k2 σ σ' None e2).
    + cbn. apply names_in_app; [by eapply names_in_le; [| |done]|eapply names_in_le; [| |done]; lia].
    + cbn. by rewrite L3.
    + cbn. intros [Hfe Hfl]%andb_prop. destruct (F1 Hfe) as [-> ->]. destruct (F3 Hfl) as [-> ->]. destruct F2 as (_ & -> & ->); [|done].
      destruct G1 as (_ & _ & -> & _). by eapply flat_sugar.
  - cbn [extend_accesses forallb]. intros H Hls Hu. apply bnd_some in H as ([acc1 i3] & k3 & H3 & [= <- <- <-]).
    destruct (IH _ _ _ _ H3 Hls Hu) as (D3 & N3 & L3 & F3). split_and!; [|done|cbn; by rewrite L3|done].
    eapply does_ext; [| |exact (does_map _ _ _ _ _ (fun l => Ok (Field f :: l)) D3)].
    + intros σ. rewrite path_cons. by destruct (path σ acc).
    + intros _ _ σ _. rewrite path_cons. by destruct (path σ acc1).
Qed.
Lemma extend_zeros_does ds : forall k e' i k', extend_zeros ds k = Some ((e', i), k') ->
  does k k' i (fun _ => Ok (zeros ds)) (fun σ => eval σ None e') /\ names_in k k' [] (names e') /\ settled (Some ds) e' /\ full e' /\ (e' = Num 0 \/ exists ds v d, e' = Uni ds v d).
Proof.
  induction ds as [|d ds IH]; intros k e' i k'.
  { intros [= <- <- <-]. split_and!; [by apply does_nil| |done..|by left]. intros x Hx. inversion Hx. }
  cbn. intros H. apply bnd_some in H as ([v i1] & k1 & H1 & H). apply bnd_some in H as ([[w z] i2] & k2 & H2 & [= <- <- <-]).
  destruct (IH _ _ _ _ H1) as (D1 & N1 & S1 & F1 & Z1). assert (k <= k1) as K1 by apply D1.
  destruct (filter2_does _ _ _ _ _ _ _ _ H2) as (j & -> & D2 & S2 & S3 & U2 & U3 & K2 & _).
  { eapply names_in_under; [done| |done]. intros x Hx. inversion Hx. } { by intros x Hx; inversion Hx. } { done. } { done. }
  cbn in S3. subst z. split_and!; [| |done| |eauto].
  - assert (does k k1 i1 (fun _ => Ok (zeros ds, Leaf (Z.of_nat d))) (fun σ => both (eval σ None v) (eval σ None (Num (Z.of_nat d))))) as D1'.
    { eapply does_ext; [| |exact (does_map _ _ _ _ _ (fun v => Ok (v, Leaf (Z.of_nat d))) D1)]; [done|].
      intros σ _ σ' _. cbn. by destruct (SugarSpec.eval W σ' None v). }
    specialize (D2 (fun v => Ok v) (fun v => Ok v)).
    assert (does k1 k2 j (fun σ => both (eval σ None v) (eval σ None (Num (Z.of_nat d)))) (fun σ => both (eval σ None w) (eval σ None (Num (Z.of_nat d))))) as D2'.
    { eapply does_ext; [| |exact D2]; intros; cbn; by rewrite !bind_ok. }
    eapply does_ext; [| |exact (does_map _ _ _ _ _ (fun '(v, d) => d ← number d; shaped (length (replicate (Z.to_nat d) v) :: ds) (Node (replicate (Z.to_nat d) v))) (does_trans _ _ _ _ _ _ _ _ D1' D2'))].
    + intros σ. cbn. rewrite Nat2Z.id, replicate_length. unfold shaped. cbn. rewrite replicate_length, Nat.eqb_refl.
      assert (forallb (has_shape ds) (replicate d (zeros ds)) = true) as ->; [|done].
      assert (has_shape ds (zeros ds) = true) as Hz.
      { clear. induction ds as [|d ds IH]; [done|]. cbn. rewrite replicate_length, Nat.eqb_refl. cbn.
        induction d as [|d IHd]; [done|]. cbn. by rewrite IH. }
      clear -Hz. induction d as [|d IHd]; [done|]. cbn. by rewrite Hz.
    + intros σ _ σ' _. cbn. destruct (SugarSpec.eval W σ' None w); cbn; [|done..]. by rewrite Nat2Z.id, replicate_length.
  - cbn. rewrite app_nil_r. unfold sieved in S2. destruct (sugar v).
    + destruct S2 as (a & -> & Ha). intros x. cbn. rewrite elem_of_list_singleton. intros ->. right. exists a. split; [done|lia].
    + subst w. by eapply names_in_le; [| |done].
  - intros _. unfold sieved in S2. destruct Z1 as [->|(? & ? & ? & ->)]; cbn in S2; [by subst w|]. by destruct S2 as (a & -> & _).
Qed.
Lemma names_in_nil_l k k' l l' : names_in k k' [] l' -> names_in k k' l l'.
Proof. intros H x Hx. destruct (H x Hx) as [Hi|?]; [inversion Hi|by right]. Qed.
Lemma extend_num inside ov e k z i k' : extend_expression inside ov e k = Some ((Num z, i), k') -> e = Num z.
Proof.
  destruct e; cbn [SugarModel.extend_expression]; intros H.
  1: by injection H as ->.
  all: try (destruct (default ds ov); [done|]).
  all: repeat (apply bnd_some in H as (? & ? & _ & H); try done).
  all: repeat match goal with p : _ * _ |- _ => destruct p end; try done.
  all: try (destruct (inside && mixed x)); try done.
  all: repeat (apply bnd_some in H as (? & ? & _ & H); repeat match goal with p : _ * _ |- _ => destruct p end; try done).
Qed.
Lemma extend_does e : extends e.
Proof.
  induction e as [z|ds x acc IH|ds f args IH|o e IH|o l r IHl IHr|ds c t f IHc IHt IHf|ds vs IH|ds v d IHv IHd] using expr_ind';
    intros inside ov k e' i k'; cbn [SugarModel.extend_expression].
  - (* numbers *)
    intros [= <- <- <-] _ _. split_and!; [by apply does_nil| |done]. split_and!; [|by destruct ov|try done; cbn; eauto..]. by intros y Hy; inversion Hy.
  - (* variables *)
    rewrite lazy_var, flat_var. intros H Hl Hu. apply bnd_some in H as ([acc1 i1] & k1 & H1 & H).
    assert (forall y, y ∈ access_names acc -> below k y) as Ha by (intros y Hy; apply Hu; rewrite names_var; by right).
    assert (below k x) as Hx by (apply Hu; rewrite names_var; by left).
    destruct (extend_accesses_does _ _ IH _ _ _ _ H1 Hl Ha) as (D1 & N1 & _ & F1). assert (k <= k1) as K1 by apply D1.
    assert (names_in k k1 (x :: direct_accesses acc) (names (Var (default ds ov) x acc1))) as Nv.
    { rewrite names_var. intros y. rewrite !elem_of_cons. intros [->|Hy]; [auto|]. destruct (N1 y Hy); auto. }
    assert (does k k1 i1 (fun σ => eval σ ov (Var ds x acc)) (fun σ => eval σ None (Var (default ds ov) x acc1))) as D.
    { pose (g := fun q : list key * val => v ← select (snd q) (fst q); shaped (default ds ov) v).
      assert (does k k1 (i1 ++ []) (fun σ => both (path σ acc) (or_ill (look σ x))) (fun σ => both (path σ acc1) (or_ill (look σ x)))) as D.
      { eapply does_both; [done|by apply does_nil| |].
        - intros σ σ' Hk. by rewrite (keeps_look k σ σ' x).
        - apply path_stable. intros y Hy. destruct (N1 y Hy) as [Hy'|(j & -> & Hj)]; [|cbn; lia].
          eapply below_le; [done|]. apply Hu. apply direct_names. rewrite direct_var. by right. }
      rewrite app_nil_r in D. eapply does_ext; [| |exact (does_map _ _ _ _ _ g D)].
      - intros σ. rewrite eval_var. by destruct (both _ _) as [[]| |].
      - intros _ _ σ _. rewrite eval_var. by destruct (both _ _) as [[]| |]. }
    destruct (inside && mixed x) eqn:Em.
    + injection H as <- <- <-. cbn [dims_of]. split_and!; [| |done].
      * eapply does_trans; [exact D|]. apply (extract_does k1 (Var (default ds ov) x acc1)); [|done|right; eauto].
        eapply names_in_under; [done| |done]. intros y Hy. apply Hu. apply direct_names. by rewrite direct_var.
      * split_and!; [|by destruct ov|try done; cbn; eauto..]. intros y. cbn. rewrite elem_of_list_singleton. intros ->. right. exists k1. split; [done|lia].
    + injection H as <- <- <-. split_and!; [exact D| |].
      * split_and!; [|by destruct ov|try done; cbn; eauto..]. unfold top_names. by rewrite direct_var.
      * intros [_ Hf]%andb_prop. by apply F1.
  - (* calls *)
    rewrite lazy_call. intros H Hl Hu. apply bnd_some in H as ([args1 i1] & k1 & H1 & H). apply bnd_some in H as ([args2 i2] & k2 & H2 & [= <- <- <-]).
    assert (Forall (under k) args) as Ua.
    { rewrite Forall_forall. intros e He y Hy. apply Hu. rewrite names_call. apply elem_of_list_In, in_flat_map. exists e. by rewrite <- !elem_of_list_In. }
    destruct (extend_list_does _ _ _ IH _ _ _ _ H1 Hl Ua) as (D1 & G1). assert (k <= k1) as K1 by apply D1.
    destruct (sugar_filter_does _ _ _ _ _ _ H2) as (j & -> & D2 & S2 & U2).
    { clear -G1 Ua K1. induction G1; inversion Ua; subst; constructor; [by eapply good_under|auto]. }
    { clear -G1. induction G1 as [|? ? ? ? G ? IH]; constructor; [apply G|done]. }
    assert (k1 <= k2) as K2 by apply D2. destruct (sieve_list _ _ _ _ _ _ _ K1 K2 G1 S2) as [N _]. split_and!; [| |done].
    + eapply does_ext; [| |exact (does_map _ _ _ _ _ (fun vs => v ← or_fail (call W f vs); shaped (default ds ov) v) (does_trans _ _ _ _ _ _ _ _ D1 D2))].
      * intros σ. by rewrite eval_call.
      * intros _ _ σ _. by rewrite eval_call.
    + split_and!; [|by destruct ov|try done; cbn; eauto..]. cbn [top_names]. by rewrite names_call.
  - (* prefix operators *)
    cbn. intros H Hl Hu. apply bnd_some in H as ([e1 i1] & k1 & H1 & H). apply bnd_some in H as ([e2 i2] & k2 & H2 & [= <- <- <-]).
    destruct (IH _ _ _ _ _ _ H1 Hl Hu) as (D1 & G1 & F1). assert (k <= k1) as K1 by apply D1.
    destruct (filter1_does _ _ _ _ _ _ H2) as (j & -> & D2 & S2 & U2 & F2); [by eapply good_under|apply G1|]. assert (k1 <= k2) as K2 by apply D2.
    destruct (sieve_good _ _ _ _ _ _ _ K1 K2 G1 S2) as [N _]. split_and!.
    + exact (does_map _ _ _ _ _ (fun v => z ← number v; z ← or_fail (den1 W o z); Ok (Leaf z)) (does_trans _ _ _ _ _ _ _ _ D1 D2)).
    + split_and!; [done|by destruct ov|done..].
    + intros Hf. destruct (F1 Hf) as [-> ->]. destruct F2 as (_ & -> & ->); [|done]. destruct G1 as (_ & _ & -> & _). by eapply flat_sugar.
  - (* infix operators *)
    cbn [SugarSpec.lazy SugarSpec.flat]. intros H [Hl Hr]%andb_prop Hu.
    apply bnd_some in H as ([l1 i1] & k1 & H1 & H). apply bnd_some in H as ([r1 i2] & k2 & H2 & H). apply bnd_some in H as ([[l2 r2] i3] & k3 & H3 & [= <- <- <-]).
    assert (under k l /\ under k r) as [Ul Ur] by (split; intros y Hy; apply Hu; cbn; rewrite elem_of_app; auto).
    destruct (IHl _ _ _ _ _ _ H1 Hl Ul) as (D1 & G1 & F1). assert (k <= k1) as K1 by apply D1.
    destruct (IHr _ _ _ _ _ _ H2 Hr) as (D2 & G2 & F2); [by eapply under_le|]. assert (k1 <= k2) as K2 by apply D2.
    assert (under k1 l1) as Ul1 by (by eapply good_under). assert (under k2 r1) as Ur1 by (eapply good_under; [|done|]; [lia|by eapply under_le]).
    destruct (filter2_does _ _ _ _ _ _ _ _ H3) as (j & -> & D3 & S3 & S4 & U3 & U4 & K3 & F3); [by eapply under_le|done|apply G1|apply G2|].
    assert (does k k2 (i1 ++ i2) (fun σ => both (eval σ None l ≫= numeric) (eval σ None r ≫= numeric)) (fun σ => both (eval σ None l1 ≫= numeric) (eval σ None r1 ≫= numeric))) as D12.
    { eapply does_both; [by apply does_map|by apply does_map| |]; intros σ σ' Hk; f_equal; [by apply (keeps_eval k σ σ')|by apply (keeps_eval k1 σ σ')]. }
    eapply (sieve_good k) in S3 as [N3 _]; [|lia|done|eapply good_le; [| |exact G1]; lia].
    eapply (sieve_good k) in S4 as [N4 _]; [|lia|done|eapply good_le; [| |exact G2]; lia]. split_and!.
    + eapply does_ext; [| |exact (does_map _ _ _ _ _ (fun '(v, w) => '(v, w) ← both (number v) (number w); z ← or_fail (den2 W o v w); Ok (Leaf z)) (does_trans _ _ _ _ _ _ _ _ D12 (D3 numeric numeric)))].
      * intros σ. cbn. unfold numeric. destruct (SugarSpec.eval W σ None l) as [[]| |], (SugarSpec.eval W σ None r) as [[]| |]; cbn; done.
      * intros _ _ σ _. rewrite fix_pow_eval. cbn. unfold numeric. destruct (SugarSpec.eval W σ None l2) as [[]| |], (SugarSpec.eval W σ None r2) as [[]| |]; cbn; done.
    + split_and!; [|by destruct ov|try done; cbn; eauto..]. cbn. rewrite fix_pow_names. by apply names_in_app.
    + intros [Hfl Hfr]%andb_prop. destruct (F1 Hfl) as [-> ->]. destruct (F2 Hfr) as [-> ->]. destruct F3 as (_ & _ & -> & ->); [..|done].
      * destruct G1 as (_ & _ & -> & _). by eapply flat_sugar.
      * destruct G2 as (_ & _ & -> & _). by eapply flat_sugar.
  - (* inline conditions *)
    cbn [SugarSpec.lazy SugarSpec.flat]. intros H [Hl Hr]%andb_prop Hu.
    apply bnd_some in H as ([t1 i1] & k1 & H1 & H). apply bnd_some in H as ([f1 i2] & k2 & H2 & H). apply bnd_some in H as ([[t2 f2] i3] & k3 & H3 & [= <- <- <-]).
    assert (under k t /\ under k f) as [Ut Uf] by (split; intros y Hy; apply Hu; cbn; rewrite !elem_of_app; auto).
    destruct (IHt _ _ _ _ _ _ H1 (flat_lazy _ _ _ Hl) Ut) as (D1 & G1 & F1). destruct (F1 Hl) as [-> ->].
    destruct (IHf _ _ _ _ _ _ H2 (flat_lazy _ _ _ Hr) Uf) as (D2 & G2 & F2). destruct (F2 Hr) as [-> ->].
    assert (sugar t1 = false) as St1 by (destruct G1 as (_ & _ & -> & _); by eapply flat_sugar).
    assert (sugar f1 = false) as Sf1 by (destruct G2 as (_ & _ & -> & _); by eapply flat_sugar).
    destruct (filter2_does _ _ _ _ _ _ _ _ H3) as (j & -> & D3 & S3 & S4 & U3 & U4 & K3 & F3); [by eapply good_under|by eapply good_under|apply G1|apply G2|].
    destruct (F3 St1 Sf1) as (-> & -> & -> & ->). split_and!; [| |done].
    + split_and!; [done|constructor|]. intros σ Hσ Hn. left. exists σ. split_and!; [done|by apply keeps_refl|].
      cbn in Hn. cbn. destruct (SugarSpec.eval W σ None c) as [v| |]; cbn in *; try done. destruct (number v) as [z| |]; cbn in *; try done.
      destruct (z =? 0)%Z.
      * destruct D2 as (_ & _ & D2). destruct (D2 σ Hσ) as [(σ' & [= <-] & _ & E)|(E & _)]; [by destruct (SugarSpec.eval W σ None f)|by rewrite E|done].
      * destruct D1 as (_ & _ & D1). destruct (D1 σ Hσ) as [(σ' & [= <-] & _ & E)|(E & _)]; [by destruct (SugarSpec.eval W σ None t)|by rewrite E|done].
    + split_and!; [|by destruct ov|try done; cbn; eauto..]. cbn [top_names names]. apply names_in_app; [by intros y Hy; left|].
      apply names_in_app; [rewrite <- top_direct by (by eapply flat_sugar); apply G1|rewrite <- top_direct by (by eapply flat_sugar); apply G2].
  - (* inline arrays *)
    rewrite lazy_arr. intros H Hl Hu. destruct (default ds ov) as [|m rest] eqn:Eds; [done|].
    apply bnd_some in H as ([vs1 i1] & k1 & H1 & H). apply bnd_some in H as ([vs2 i2] & k2 & H2 & H). apply bnd_some in H as ([vs3 i3] & k3 & H3 & [= <- <- <-]).
    assert (Forall (under k) vs) as Ua.
    { rewrite Forall_forall. intros e He y Hy. apply Hu. rewrite names_arr. apply elem_of_list_In, in_flat_map. exists e. by rewrite <- !elem_of_list_In. }
    destruct (extend_list_does _ _ _ IH _ _ _ _ H1 Hl Ua) as (D1 & G1). assert (k <= k1) as K1 by apply D1. apply Forall2_length in G1 as L1.
    assert (does k k2 i2 (fun σ => vs ← all (eval σ (Some rest) <$> vs); Ok (vs ++ replicate (m - length vs) (zeros rest))) (fun σ => evals σ vs2) /\
      k <= k2 /\ exists zs, Forall2 (good k k2 (Some rest)) (vs ++ zs) vs2 /\ flat_map direct zs = [] /\ length zs = m - length vs /\ m <= length vs2 /\ Forall (under k2) vs2) as (D2 & K2 & zs & G2 & Hz & Hzl & Hm & U2).
    { assert (Forall (under k1) vs1) as U1.
      { clear -G1 Ua K1. induction G1; inversion Ua; subst; constructor; [by eapply good_under|auto]. }
      destruct (length vs1 <? m) eqn:Elen.
      - apply Nat.ltb_lt in Elen. apply bnd_some in H2 as ([z i4] & k4 & H4 & [= <- <- <-]).
        apply extend_zeros_does in H4 as (D4 & N4 & S4 & F4 & Z4). assert (direct z = []) as Z4' by (destruct Z4 as [->|(? & ? & ? & ->)]; done). assert (k1 <= k4) as K4 by apply D4. split_and!; [|lia|].
        + assert (does k k4 (i1 ++ i4) (fun σ => both (all (eval σ (Some rest) <$> vs)) (Ok (zeros rest))) (fun σ => both (evals σ vs1) (eval σ None z))) as D14.
          { eapply does_both; [done|done|by intros ? ?|by apply all_stable]. }
          eapply does_ext; [| |exact (does_map _ _ _ _ _ (fun '(vs, z) => Ok (vs ++ replicate (m - length vs) z)) D14)].
          * intros σ. cbn beta. destruct (all (eval σ (Some rest) <$> vs)); cbn; reflexivity.
          * intros _ _ σ _. cbn beta. unfold SugarSpec.evals. rewrite fmap_app, fmap_replicate, all_app, all_replicate by lia.
            destruct (all (eval σ None <$> vs1)) as [ws| |] eqn:Ews; cbn; [|by destruct (SugarSpec.eval W σ None z)..].
            apply all_length in Ews. rewrite fmap_length in Ews. destruct (SugarSpec.eval W σ None z); cbn; by rewrite ?Ews.
        + exists (replicate (m - length vs1) z). split_and!.
          * apply Forall2_app.
            -- eapply Forall2_impl; [exact G1|]. intros. eapply good_le; [| |done]; lia.
            -- assert (good k k4 (Some rest) z z) as Gz.
               { split_and!; [|done..|]; [apply names_in_nil_l; eapply names_in_le; [| |exact N4]; lia|].
                 destruct Z4 as [->|(? & ? & d & ->)]; [done|]. cbn. by eexists _, _, _. }
               clear -Gz. induction (m - length vs1) as [|a IHa]; constructor; done.
          * clear -Z4'. induction (m - length vs1) as [|a IHa]; [done|]. cbn. by rewrite Z4', IHa.
          * rewrite replicate_length. lia.
          * rewrite app_length, replicate_length. lia.
          * apply Forall_app. split; [eapply Forall_impl; [exact U1|intros; by eapply under_le]|]. apply Forall_replicate.
            eapply names_in_under; [done| |done]. intros y Hy. inversion Hy.
      - apply Nat.ltb_ge in Elen. injection H2 as <- <- <-. split_and!; [|done|].
        + eapply does_ext; [| |exact D1]; [|done]. intros σ. cbn beta. destruct (all (eval σ (Some rest) <$> vs)) as [ws| |] eqn:Ews; cbn; try done.
          apply all_length in Ews. rewrite fmap_length in Ews. replace (m - length ws) with 0 by lia. cbn. by rewrite app_nil_r.
        + exists []. rewrite app_nil_r. split_and!; [done|done|cbn; lia|done|done]. }
    destruct (sugar_filter_does _ _ _ _ _ _ H3 U2) as (j & -> & D3 & S3 & U3).
    { clear -G2. induction G2 as [|? ? ? ? G ? IH]; constructor; [apply G|done]. }
    assert (k2 <= k3) as K3 by apply D3. destruct (sieve_list _ _ _ _ _ _ _ K2 K3 G2 S3) as [N3 T3]. apply Forall2_length in S3 as L3. split_and!; [| |done].
    + eapply does_ext; [| |exact (does_map _ _ _ _ _ (fun vs => shaped (m :: rest) (Node vs)) (does_trans _ _ _ _ _ _ _ _ D2 D3))].
      * intros σ. cbn beta. rewrite eval_arr, Eds. by destruct (all _).
      * intros _ _ σ _. cbn beta. rewrite eval_arr. cbn [default]. unfold SugarSpec.evals.
        assert (all (eval σ (Some rest) <$> vs3) = all (eval σ None <$> vs3)) as ->.
        { f_equal. clear -T3. induction T3 as [|e l He _ IH]; [done|]. cbn. by rewrite IH, eval_settled. }
        destruct (all _) as [ws| |] eqn:Ews; cbn; try done.
        apply all_length in Ews. rewrite fmap_length in Ews. replace (m - length ws) with 0 by lia. cbn. by rewrite app_nil_r.
    + split_and!; [| |done| |].
      * rewrite names_arr. rewrite flat_map_app, Hz, app_nil_r in N3. exact N3.
      * destruct ov; [|done]. cbn in *. congruence.
      * cbn. split; [lia|done].
      * cbn. eexists _, _. split; [reflexivity|]. intros ->. cbn in Eds. subst ds. rewrite <- L3, <- (Forall2_length _ _ _ G2), app_length. lia.
  - (* uniform arrays *)
    cbn [SugarSpec.lazy SugarSpec.flat]. intros H [[Hl Hr]%andb_prop Hd]%andb_prop Hu.
    apply bnd_some in H as ([v1 i1] & k1 & H1 & H). apply bnd_some in H as ([d1 i2] & k2 & H2 & H). apply bnd_some in H as ([[v2 d2] i3] & k3 & H3 & [= <- <- <-]).
    assert (under k v /\ under k d) as [Ul Ur] by (split; intros y Hy; apply Hu; cbn; rewrite elem_of_app; auto).
    destruct (IHv _ _ _ _ _ _ H1 Hl Ul) as (D1 & G1 & F1). assert (k <= k1) as K1 by apply D1.
    destruct (IHd _ _ _ _ _ _ H2 Hr) as (D2 & G2 & F2); [by eapply under_le|]. assert (k1 <= k2) as K2 by apply D2.
    assert (under k1 v1) as Ul1 by (by eapply good_under). assert (under k2 d1) as Ur1 by (eapply good_under; [|done|]; [lia|by eapply under_le]).
    destruct (filter2_does _ _ _ _ _ _ _ _ H3) as (j & -> & D3 & S3 & S4 & U3 & U4 & K3 & F3); [by eapply under_le|done|apply G1|apply G2|].
    pose (g := fun v : val => Ok v).
    assert (does k k2 (i1 ++ i2) (fun σ => both (eval σ None v ≫= g) (eval σ None d ≫= numeric)) (fun σ => both (eval σ None v1 ≫= g) (eval σ None d1 ≫= numeric))) as D12.
    { eapply does_both; [by apply does_map|by apply does_map| |]; intros σ σ' Hk; f_equal; [by apply (keeps_eval k σ σ')|by apply (keeps_eval k1 σ σ')]. }
    assert (forall z, d2 = Num z <-> d = Num z) as Hnum.
    { intros z. split.
      - intros ->. assert (d1 = Num z) as ->.
        { unfold sieved in S4. destruct (sugar d1); [by destruct S4 as (? & ? & _)|done]. }
        by eapply extend_num.
      - intros ->. injection H2 as <- <- <-. unfold sieved in S4. done. }
    eapply (sieve_good k) in S3 as [N3 _]; [|lia|done|eapply good_le; [| |exact G1]; lia].
    eapply (sieve_good k) in S4 as [N4 _]; [|lia|done|eapply good_le; [| |exact G2]; lia]. split_and!; [| |done].
    + eapply does_ext; [| |exact (does_map _ _ _ _ _ (fun '(v, d) => d ← number d; shaped (default ds ov) (Node (replicate (Z.to_nat d) v))) (does_trans _ _ _ _ _ _ _ _ D12 (D3 g numeric)))].
      * intros σ. cbn. unfold numeric, g. destruct (SugarSpec.eval W σ None v) as [| |], (SugarSpec.eval W σ None d) as [[]| |]; cbn; done.
      * intros _ _ σ _. cbn. unfold numeric, g. destruct (SugarSpec.eval W σ None v2) as [| |], (SugarSpec.eval W σ None d2) as [[]| |]; cbn; done.
    + split_and!; [by apply names_in_app|by destruct ov|done| |].
      * cbn. destruct d2; try done. destruct (Hnum z) as [Hz _]. rewrite (Hz eq_refl) in Hd. apply Z.ltb_lt in Hd. lia.
      * cbn. eexists _, _, _. split; [reflexivity|done].
Qed.
End world.
