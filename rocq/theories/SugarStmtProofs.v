(** Lists of statements: assignments of arrays element by element, comparisons, returned values; and whole bodies. *)
From stdpp Require Import prelude gmap strings.
From Coq Require Import ZArith.
From Verif Require Import SugarModel SugarSpec SugarProofs.
Open Scope nat_scope.

Definition opt_all (P : stmt -> Prop) (f : option stmt) : Prop := match f with Some f => P f | None => True end.
Section stmt_ind.
Context (P : stmt -> Prop).
Context (HDecl : forall x ds, P (Decl x ds)).
Context (HAssign : forall x acc op e, P (Assign x acc op e)).
Context (HEqual : forall l r, P (Equal l r)).
Context (HIf : forall c t f, P t -> opt_all P f -> P (If c t f)).
Context (HWhile : forall c b, P b -> P (While c b)).
Context (HBlock : forall l, Forall P l -> P (Block l)).
Context (HInit : forall l, Forall P l -> P (Init l)).
Context (HReturn : forall e, P (Return e)).
Context (HLog : forall args, P (Log args)).
Context (HAssert : forall e, P (Assert e)).
Fixpoint stmt_ind' (s : stmt) : P s :=
  let list_ind := (fix go l : Forall P l := match l with [] => @List.Forall_nil _ _ | s :: l => @List.Forall_cons _ _ s l (stmt_ind' s) (go l) end) in
  match s with
  | Decl x ds => HDecl x ds
  | Assign x acc op e => HAssign x acc op e
  | Equal l r => HEqual l r
  | If c t f => HIf c t f (stmt_ind' t) (match f as f return opt_all P f with Some f => stmt_ind' f | None => I end)
  | While c b => HWhile c b (stmt_ind' b)
  | Block l => HBlock l (list_ind l)
  | Init l => HInit l (list_ind l)
  | Return e => HReturn e
  | Log args => HLog args
  | Assert e => HAssert e
  end.
End stmt_ind.

(** ** Storing *)
Lemma store_some σ x v w : look σ x = Some v -> exists σ', store σ x w = Some σ'.
Proof.
  induction σ as [|b σ IH]; cbn; [done|]. destruct (b !! x) eqn:E; [eauto|]. intros H. destruct (IH H) as [σ' ->]. cbn. eauto.
Qed.
Lemma store_same σ x v : look σ x = Some v -> store σ x v = Some σ.
Proof.
  induction σ as [|b σ IH]; cbn; [done|]. destruct (b !! x) eqn:E; [|intros H; by rewrite IH].
  intros [= ->]. by rewrite insert_id.
Qed.
Lemma store_look σ x v σ' : store σ x v = Some σ' -> forall y, look σ' y = if bool_decide (y = x) then Some v else look σ y.
Proof.
  revert σ'. induction σ as [|b σ IH]; cbn; intros σ'; [done|]. destruct (b !! x) eqn:E.
  - intros [= <-] y. cbn. case_bool_decide; subst; [by rewrite lookup_insert|by rewrite lookup_insert_ne].
  - intros (τ & Hτ & ->)%fmap_Some y. cbn. rewrite (IH _ Hτ). case_bool_decide; subst; [by rewrite E|done].
Qed.
Lemma store_store σ x v w σ' : store σ x v = Some σ' -> store σ' x w = store σ x w.
Proof.
  revert σ'. induction σ as [|b σ IH]; cbn; intros σ'; [done|]. destruct (b !! x) eqn:E.
  - intros [= <-]. cbn. rewrite lookup_insert. by rewrite insert_insert.
  - intros (τ & Hτ & ->)%fmap_Some. cbn. rewrite E. by rewrite (IH _ Hτ).
Qed.
Lemma store_length σ x v σ' : store σ x v = Some σ' -> length σ' = length σ.
Proof.
  revert σ'. induction σ as [|b σ IH]; cbn; intros σ'; [done|]. destruct (b !! x) eqn:E; [by intros [= <-]|].
  intros (τ & Hτ & ->)%fmap_Some. cbn. f_equal. auto.
Qed.

(** ** Arrays element by element *)
Fixpoint ups (c : val) (p : list key) (i : nat) (ws : list val) : R val :=
  match ws with [] => Ok c | w :: ws => c ← update c (p ++ [At (Z.of_nat i)]) w; ups c p (S i) ws end.
Definition overlays : list val -> list val -> option (list val) :=
  fix go vs os := match vs, os with
      | [], _ => Some os
      | v :: vs, o :: os => w ← overlay v o; ws ← go vs os; Some (w :: ws)
      | _ :: _, [] => None
      end.
Lemma nth_key_nat {A} (l : list A) i : nth_key l (Z.of_nat i) = l !! i.
Proof. unfold nth_key. destruct (Z.ltb_spec (Z.of_nat i) 0); [lia|]. by rewrite Nat2Z.id. Qed.
Lemma ups_whole ws : forall ds os os', overlays ws os = Some os' -> ups (Node (ds ++ os)) [] (length ds) ws = Ok (Node (ds ++ os')).
Proof.
  induction ws as [|w ws IH]; intros ds os os'; [by intros [= <-]|]. destruct os as [|o os]; [done|].
  cbn [overlays]. destruct (overlay w o) as [w'|] eqn:Ew; [|done]. cbn. fold overlays. destruct (overlays ws os) as [ws'|] eqn:Es; [|done]. intros [= <-].
  rewrite nth_key_nat, list_lookup_middle by done. cbn. rewrite Ew. cbn. rewrite Nat2Z.id, insert_app_r_alt, Nat.sub_diag by done. cbn.
  specialize (IH (ds ++ [w']) os ws' Es). rewrite app_length in IH. cbn in IH. rewrite Nat.add_1_r, <- !app_assoc in IH. exact IH.
Qed.
Lemma ups_at l j w p ws : forall i, nth_key l j = Some w ->
  ws <> [] -> ups (Node l) (At j :: p) i ws = w' ← ups w p i ws; Ok (Node (<[Z.to_nat j := w']> l)).
Proof.
  revert l w. induction ws as [|v ws IH]; intros l w i Hj Hws; [done|]. cbn. rewrite Hj. cbn.
  destruct (update w (p ++ [At (Z.of_nat i)]) v) as [w1| |] eqn:E; cbn; [|done..]. destruct ws as [|v' ws]; [done|].
  rewrite (IH _ w1); [|unfold nth_key in *; destruct (j <? 0)%Z; [done|]; apply list_lookup_insert; by eapply lookup_lt_Some|done].
  destruct (ups w1 p (S i) _); cbn; [|done..]. by rewrite list_insert_insert.
Qed.
Lemma assoc_set_same f w l v : assoc f l = Some v -> assoc f (assoc_set f w l) = Some w.
Proof. induction l as [|[g u] l IH]; cbn; [done|]. case_bool_decide; cbn; [by rewrite bool_decide_true|]. rewrite bool_decide_false by done. auto. Qed.
Lemma assoc_set_set f w1 w2 l : assoc_set f w2 (assoc_set f w1 l) = assoc_set f w2 l.
Proof. induction l as [|[g u] l IH]; cbn; [done|]. case_bool_decide; cbn; [by rewrite bool_decide_true|]. rewrite bool_decide_false by done. by rewrite IH. Qed.
Lemma ups_field l f w p ws : forall i, assoc f l = Some w ->
  ws <> [] -> ups (Rec l) (Field f :: p) i ws = w' ← ups w p i ws; Ok (Rec (assoc_set f w' l)).
Proof.
  revert l w. induction ws as [|v ws IH]; intros l w i Hj Hws; [done|]. cbn. rewrite Hj. cbn.
  destruct (update w (p ++ [At (Z.of_nat i)]) v) as [w1| |] eqn:E; cbn; [|done..]. destruct ws as [|v' ws]; [done|].
  rewrite (IH _ w1); [|by eapply assoc_set_same|done].
  destruct (ups w1 p (S i) _); cbn; [|done..]. by rewrite assoc_set_set.
Qed.
Lemma ups_update p ws : (ws = [] -> p = []) -> forall c, update c p (Node ws) <> Ill -> ups c p 0 ws = update c p (Node ws).
Proof.
  intros Hp. assert (p = [] \/ ws <> []) as Hp' by (destruct ws; [left; auto|by right]). clear Hp.
  induction p as [|[j|f] p IH]; intros c.
  - cbn [update]. destruct c as [z|os|l]; try done. change (overlay (Node ws) (Node os)) with (Node <$> overlays ws os).
    destruct (overlays ws os) as [os'|] eqn:E; [|done]. intros _. cbn. exact (ups_whole ws [] os os' E).
  - destruct Hp' as [?|Hws]; [done|]. cbn. destruct c as [z|os|l]; try done.
    destruct (nth_key os j) as [w|] eqn:E; cbn.
    + intros H. rewrite (ups_at os j w) by done. rewrite IH; [done|by right|]. by destruct (update w p (Node ws)).
    + intros _. destruct ws as [|v ws]; [done|]. cbn. by rewrite E.
  - destruct Hp' as [?|Hws]; [done|]. cbn. destruct c as [z|os|l]; try done.
    destruct (assoc f l) as [w|] eqn:E; cbn; [|done].
    intros H. rewrite (ups_field l f w) by done. rewrite IH; [done|by right|]. by destruct (update w p (Node ws)).
Qed.

(** ** Comparison of values *)
Section val_ind.
Context (P : val -> Prop) (HL : forall z, P (Leaf z)) (HN : forall l, Forall P l -> P (Node l)) (HR : forall l, Forall (fun q => P (snd q)) l -> P (Rec l)).
Fixpoint val_ind' (v : val) : P v :=
  match v with
  | Leaf z => HL z
  | Node l => HN l ((fix go l : Forall P l := match l with [] => @List.Forall_nil _ _ | v :: l => @List.Forall_cons _ _ v l (val_ind' v) (go l) end) l)
  | Rec l => HR l ((fix go l : Forall (fun q => P (snd q)) l := match l with [] => @List.Forall_nil _ _ | q :: l => @List.Forall_cons _ _ q l (val_ind' (snd q)) (go l) end) l)
  end.
End val_ind.
Lemma val_eqb_sym v : forall w, val_eqb v w = val_eqb w v.
Proof.
  induction v as [z|l IH|l IH] using val_ind'; intros [z'|l'|l']; try done; cbn.
  - apply Z.eqb_sym.
  - revert l'. induction IH as [|v l Hv _ IHl]; intros [|w l']; try done. rewrite (Hv w). f_equal. apply IHl.
  - revert l'. induction IH as [|[f v] l Hv _ IHl]; intros [|[g w] l']; try done. cbn in Hv. rewrite (Hv w). f_equal; [|apply IHl].
    f_equal. apply bool_decide_ext. done.
Qed.
Lemma same_shape_sym v : forall w, same_shape v w = same_shape w v.
Proof.
  induction v as [z|l IH|l IH] using val_ind'; intros [z'|l'|l']; try done; cbn.
  revert l'. induction IH as [|v l Hv _ IHl]; intros [|w l']; try done. rewrite (Hv w). f_equal. apply IHl.
Qed.
Lemma same_shape_cons v vs w ws : same_shape (Node (v :: vs)) (Node (w :: ws)) = same_shape v w && same_shape (Node vs) (Node ws).
Proof. done. Qed.
Lemma val_eqb_cons v vs w ws : val_eqb (Node (v :: vs)) (Node (w :: ws)) = val_eqb v w && val_eqb (Node vs) (Node ws).
Proof. done. Qed.
Lemma same_shape_length vs : forall ws, same_shape (Node vs) (Node ws) = true -> length vs = length ws.
Proof. induction vs as [|v vs IH]; intros [|w ws]; try done. rewrite same_shape_cons. intros [_ H]%andb_prop. cbn. by rewrite (IH ws). Qed.
Lemma select_app v p q : select v (p ++ q) = w ← select v p; select w q.
Proof.
  revert v. induction p as [|[i|f] p IH]; intros v; [done| |]; cbn.
  - destruct v; try done. destruct (nth_key l i); cbn; [apply IH|done].
  - destruct v; try done. destruct (assoc f l); cbn; [apply IH|done].
Qed.

Section world.
Context (W : world) (n : nat).
Notation eval := (eval W).
Notation path := (path W).
Notation evals := (evals W).
Notation exec := (exec W n).
Definition weak {A} (r r' : R A) : Prop := match r with Ok a => r' = Ok a | Fail => forall a, r' <> Ok a | Ill => True end.
Lemma path_app σ acc i : path σ (acc ++ [Idx (Num i)]) = p ← path σ acc; Ok (p ++ [At i]).
Proof. unfold SugarSpec.path. rewrite fmap_app, all_app. cbn. by destruct (all _). Qed.
Lemma elements_ok x acc op p : forall vs i ws c σ, x ∉ flat_map names vs -> x ∉ access_names acc ->
  path σ acc = Ok p -> evals σ vs = Ok ws -> look σ x = Some c ->
  sequence exec (element_assigns x acc op (Z.of_nat i) vs) σ = c' ← ups c p i ws; σ' ← or_ill (store σ x c'); Ok (σ', [], Next).
Proof.
  induction vs as [|v vs IH]; intros i ws c σ Hv Ha Hp He Hc.
  { injection He as <-. cbn. by rewrite (store_same σ x c). }
  cbn in Hv. rewrite elem_of_app in Hv. unfold SugarSpec.evals in He. cbn in He.
  destruct (SugarSpec.eval W σ None v) as [w| |] eqn:Ev; [|by destruct (all _)..]. destruct (all (eval σ None <$> vs)) as [ws'| |] eqn:Evs; [|done..]. injection He as <-.
  cbn [element_assigns sequence SugarSpec.exec]. rewrite path_app, Hp, Ev, Hc. cbn [both mbind R_bind or_ill ups].
  destruct (update c (p ++ [At (Z.of_nat i)]) w) as [c1| |] eqn:Eu; [|done..]. cbn [mbind R_bind].
  destruct (store_some σ x c c1 Hc) as [σ1 Hs]. rewrite Hs. cbn [or_ill mbind R_bind andthen].
  assert (forall y, y <> x -> look σ1 y = look σ y) as Hl by (intros y Hy; rewrite (store_look _ _ _ _ Hs), bool_decide_false; done).
  replace (Z.of_nat i + 1)%Z with (Z.of_nat (S i)) by lia.
  change ((fix go (l : list stmt) (σ2 : state) {struct l} : R outcome := match l with [] => Ok (σ2, [], Next) | s :: l0 => andthen (SugarSpec.exec W n s σ2) (go l0) end)) with (sequence exec).
  rewrite (IH (S i) ws' c1 σ1).
  - destruct (ups c1 p (S i) ws') as [c2| |]; cbn; [|done..]. rewrite (store_store _ _ _ _ _ Hs). by destruct (store σ x c2).
  - auto.
  - done.
  - rewrite <- Hp. apply path_agree. intros y Hy. apply Hl. intros ->. done.
  - rewrite <- Evs. apply all_agree. intros y Hy. apply Hl. intros ->. auto.
  - rewrite (store_look _ _ _ _ Hs). by rewrite bool_decide_true.
Qed.
Lemma elements_fail x acc op : forall vs i σ, x ∉ flat_map names vs -> x ∉ access_names acc ->
  path σ acc = Fail /\ vs <> [] \/ evals σ vs = Fail -> forall o, sequence exec (element_assigns x acc op i vs) σ <> Ok o.
Proof.
  induction vs as [|v vs IH]; intros i σ Hv Ha H o.
  { destruct H as [[_ ?]|?]; done. }
  cbn in Hv. rewrite elem_of_app in Hv. cbn [element_assigns sequence SugarSpec.exec].
  change ((fix go (l : list stmt) (σ2 : state) {struct l} : R outcome := match l with [] => Ok (σ2, [], Next) | s :: l0 => andthen (SugarSpec.exec W n s σ2) (go l0) end)) with (sequence exec).
  rewrite path_app. destruct (SugarSpec.path W σ acc) as [p| |] eqn:Ep; cbn [mbind R_bind]; [|by destruct (SugarSpec.eval W σ None v)..].
  destruct H as [[? _]|H]; [done|]. unfold SugarSpec.evals in H. cbn in H.
  destruct (SugarSpec.eval W σ None v) as [w| |] eqn:Ev; [|done..]. cbn [both mbind R_bind].
  destruct (look σ x) as [c|] eqn:Hc; [|done]. cbn [or_ill mbind R_bind]. destruct (update c _ w) as [c1| |] eqn:Eu; [|done..]. cbn [mbind R_bind].
  destruct (store_some σ x c c1 Hc) as [σ1 Hs]. rewrite Hs. cbn [or_ill mbind R_bind andthen].
  assert (forall y, y <> x -> look σ1 y = look σ y) as Hl by (intros y Hy; rewrite (store_look _ _ _ _ Hs), bool_decide_false; done).
  intros Hok. destruct (sequence exec (element_assigns x acc op (i + 1) vs) σ1) as [o'| |] eqn:Es; [|done..]. eapply (IH (i + 1)%Z σ1 _ Ha); [|exact Es].
  right. destruct (all (eval σ None <$> vs)) as [ws'| |] eqn:Evs; [done| |done].
  rewrite <- Evs. apply all_agree. intros y Hy. apply Hl. intros ->. auto.
  Unshelve. auto.
Qed.
Lemma array_single x acc op σ vs ds (v : R val) : x ∉ flat_map names vs -> x ∉ access_names acc -> (vs = [] -> acc = []) ->
  v = (ws ← evals σ vs; shaped ds (Node ws)) ->
  weak ('(v, p) ← both v (path σ acc); old ← or_ill (look σ x); w ← update old p v; σ ← or_ill (store σ x w); Ok (σ, [], Next))
       (sequence exec (element_assigns x acc op 0 vs) σ).
Proof.
  intros Hv Ha Hn ->. destruct (evals σ vs) as [ws| |] eqn:Ews.
  - cbn [mbind R_bind]. unfold shaped. destruct (has_shape ds (Node ws)); [|done]. destruct (path σ acc) as [p| |] eqn:Ep; [| |done].
    + cbn [both mbind R_bind]. destruct (look σ x) as [c|] eqn:Hc; [|done]. cbn [or_ill mbind R_bind].
      destruct (update c p (Node ws)) as [c1| |] eqn:Eu; cbn [mbind R_bind]; [| |done].
      * destruct (store_some σ x c c1 Hc) as [σ1 Hs]. rewrite Hs. cbn [weak or_ill mbind R_bind].
        change 0%Z with (Z.of_nat 0). rewrite (elements_ok x acc op p vs 0 ws c σ); try done. rewrite ups_update; [rewrite Eu; cbn; by rewrite Hs| |by rewrite Eu].
        intros ->. destruct vs; [|apply all_length in Ews; done]. rewrite Hn in Ep by done. by injection Ep.
      * cbn. intros o. change 0%Z with (Z.of_nat 0). rewrite (elements_ok x acc op p vs 0 ws c σ); try done. rewrite ups_update; [by rewrite Eu| |by rewrite Eu].
        intros ->. destruct vs; [|apply all_length in Ews; done]. rewrite Hn in Ep by done. by injection Ep.
    + cbn. apply elements_fail; [done..|]. left. split; [done|]. intros ->. rewrite Hn in Ep by done. done.
  - cbn. destruct (path σ acc); cbn; [| |done]; (apply elements_fail; [done..|by right]).
  - done.
Qed.
(** an assignment as the cleaner writes it *)
Lemma single_weak x acc op rhe l σ : into_single_substitution x acc op rhe = Some l -> assign_ok x acc rhe -> weak (exec (Assign x acc op rhe) σ) (sequence exec l σ).
Proof.
  assert (weak (exec (Assign x acc op rhe) σ) (sequence exec [Assign x acc op rhe] σ)) as Hsame.
  { cbn [sequence]. destruct (SugarSpec.exec W n (Assign x acc op rhe) σ) as [[[σ1 t] r]| |]; cbn; try done. destruct r; [by rewrite app_nil_r|done..]. }
  destruct rhe as [z|ds y acc'|ds f args|o e|o a b|ds c t f|ds vs|ds v d]; try by intros [= <-] _.
  - intros [= <-] _. clear Hsame. cbn [SugarSpec.exec SugarSpec.eval default]. cbn [sequence]. cbn [SugarSpec.exec].
    destruct (SugarSpec.eval W σ None c) as [v| |] eqn:Ec; cbn [mbind R_bind]; [|by unfold condition; rewrite Ec; destruct (path σ acc)|done].
    unfold condition. rewrite Ec. cbn [mbind R_bind]. destruct (number v) as [z| |]; [|by destruct (path σ acc)|done]. cbn [mbind R_bind].
    assert (forall e, eval (∅ :: σ) None e = eval σ None e) as He by (intros; by apply eval_agree).
    assert (path (∅ :: σ) acc = path σ acc) as Hp by (by apply path_agree).
    assert (forall e, weak ('(v0, p) ← both (v ← eval σ None e; shaped ds v) (path σ acc);
       old ← or_ill (look σ x); w ← update old p v0; σ0 ← or_ill (store σ x w); Ok (σ0, [], Next))
       (andthen ('(σ0, t, r) ← sequence exec [Assign x acc op e] (∅ :: σ); match σ0 with [] => Ill | _ :: σ1 => Ok (σ1, t, r) end) (fun σ0 => Ok (σ0, [], Next)))) as Hb.
    { intros e. cbn [sequence SugarSpec.exec]. rewrite He, Hp. destruct (eval σ None e) as [w| |]; cbn [mbind R_bind]; [|by destruct (path σ acc)|done].
      unfold shaped. destruct (has_shape ds w); [|done]. destruct (path σ acc) as [p| |]; [|done..]. cbn [both mbind R_bind look].
      rewrite lookup_empty. destruct (look σ x) as [old|] eqn:Hl; [|done]. cbn [or_ill mbind R_bind]. destruct (update old p w) as [w1| |]; [|done..].
      cbn [mbind R_bind store]. rewrite lookup_empty. destruct (store σ x w1) as [σ1|]; done. }
    destruct (z =? 0)%Z; apply Hb.
  - intros [= <-] (Hf & Hv & Ha & Hn). cbn [SugarSpec.exec]. destruct ds as [|m rest]; [done|]. destruct Hf as [Hm Hs]. apply (array_single x acc op σ vs (m :: rest)); [done..|].
    rewrite eval_arr. cbn [default]. assert (all (eval σ (Some rest) <$> vs) = evals σ vs) as ->.
    { unfold SugarSpec.evals. f_equal. clear -Hs. induction Hs as [|e l He _ IH]; [done|]. cbn. by rewrite IH, eval_settled. }
    destruct (evals σ vs) as [ws| |] eqn:Ews; cbn [mbind R_bind]; [|done..]. apply all_length in Ews. rewrite fmap_length in Ews.
    replace (m - length ws) with 0 by lia. cbn [replicate]. by rewrite app_nil_r.
  - destruct d as [d| | | | | | |]; try done. cbn [into_single_substitution]. destruct (Z.ltb_spec d 0); [done|]. intros [= <-]. cbn [assign_ok].
    intros [(Hd & -> & Hs)|(Hd & Hv & Ha)]; cbn [SugarSpec.exec SugarSpec.eval default].
    + rewrite Hd. cbn [replicate element_assigns sequence].
      assert (eval σ None v <> Fail) as Hs'.
      { destruct v as [|ds0 y [|]| | | | | |]; try done. rewrite eval_var. cbn. destruct (look σ y); [|done]. cbn. unfold shaped. by destruct (has_shape ds0 _). }
      cbn. destruct (SugarSpec.eval W σ None v) as [w| |]; cbn; try done. rewrite Hd. cbn. unfold shaped. destruct (has_shape ds (Node [])); [|done]. cbn.
      destruct (look σ x) as [c|] eqn:Hc; [|done]. cbn. destruct c; try done. cbn. rewrite (store_same σ x) by done. done.
    + apply (array_single x acc op σ (replicate (Z.to_nat d) v) ds).
      * clear -Hv. induction (Z.to_nat d) as [|m IH]; [cbn; set_solver|]. cbn. rewrite elem_of_app. by intros [?|?].
      * done.
      * intros Hr. apply (f_equal length) in Hr. by rewrite replicate_length in Hr.
      * unfold SugarSpec.evals. rewrite fmap_replicate, all_replicate by done. cbn. by destruct (SugarSpec.eval W σ None v).
Qed.
(** ** Comparisons *)
Lemma equal_values ls : forall rs a σ ws us, equal_elements ls rs = Some a -> evals σ ls = Ok ws -> evals σ rs = Ok us ->
  same_shape (Node ws) (Node us) = true -> sequence exec a σ = if val_eqb (Node ws) (Node us) then Ok (σ, [], Next) else Fail.
Proof.
  induction ls as [|l ls IH]; intros rs a σ ws us.
  - intros [= <-] [= <-] H Hs. apply same_shape_length in Hs. by destruct us.
  - destruct rs as [|r rs]; [done|]. cbn [equal_elements]. intros (a' & Ha & ->)%fmap_Some. unfold SugarSpec.evals.
    intros Hl Hr. cbn in Hl, Hr.
    destruct (SugarSpec.eval W σ None l) as [v| |] eqn:El; [|by destruct (all (eval σ None <$> ls))..]. destruct (all (eval σ None <$> ls)) as [ws'| |] eqn:Els; [|done..]. injection Hl as <-.
    destruct (SugarSpec.eval W σ None r) as [w| |] eqn:Er; [|by destruct (all (eval σ None <$> rs))..]. destruct (all (eval σ None <$> rs)) as [us'| |] eqn:Ers; [|done..]. injection Hr as <-.
    rewrite same_shape_cons, val_eqb_cons. intros [Hs Hss]%andb_prop. cbn [sequence SugarSpec.exec]. rewrite El, Er. cbn [both mbind R_bind]. rewrite Hs. destruct (val_eqb v w); cbn [andb]; [|done].
    cbn [andthen mbind R_bind]. fold (sequence exec). rewrite (IH _ _ _ _ _ Ha Els Ers Hss). by destruct (val_eqb (Node ws') (Node us')).
Qed.
Lemma equal_step l r σ o : exec (Equal l r) σ = Ok o -> o = (σ, [], Next) /\ (exists v, eval σ None l = Ok v) /\ (exists v, eval σ None r = Ok v).
Proof.
  cbn. destruct (SugarSpec.eval W σ None l) as [v| |], (SugarSpec.eval W σ None r) as [w| |]; cbn; try done.
  destruct (same_shape v w); [|done]. destruct (val_eqb v w); [|done]. intros [= <-]. eauto.
Qed.
Lemma equal_fail ls : forall rs a σ, equal_elements ls rs = Some a -> length ls = length rs -> evals σ ls = Fail \/ evals σ rs = Fail -> forall o, sequence exec a σ <> Ok o.
Proof.
  induction ls as [|l ls IH]; intros rs a σ.
  - intros _ Hl [?|H]; [done|]. by destruct rs.
  - destruct rs as [|r rs]; [done|]. cbn [equal_elements length]. intros (a' & Ha & ->)%fmap_Some [= Hl] H o.
    cbn [sequence]. destruct (exec (Equal l r) σ) as [o1| |] eqn:E; [|done..]. apply equal_step in E as (-> & [v El] & [w Er]).
    cbn [andthen mbind R_bind]. fold (sequence exec). destruct (sequence exec a' σ) as [o2| |] eqn:Es; [|done..]. exfalso. eapply (IH _ _ σ Ha Hl); [|exact Es].
    unfold SugarSpec.evals in H. cbn in H. rewrite El, Er in H. unfold SugarSpec.evals.
    destruct H as [H|H]; [left; by destruct (all (eval σ None <$> ls))|right; by destruct (all (eval σ None <$> rs))].
Qed.
Definition equal_ok (l r : expr) : Prop :=
  match l, r with
  | Arr _ vs, Arr _ ws => full l /\ full r /\ length vs = length ws
  | Arr _ vs, Uni _ _ (Num d) => full l /\ length vs = Z.to_nat d /\ vs <> []
  | Arr _ vs, Var _ _ _ => full l /\ vs <> []
  | Var _ _ _, Arr _ vs => full r /\ vs <> []
  | _, _ => is_array l = false /\ is_array r = false
  end.
Lemma eval_full σ m rest vs : full (Arr (m :: rest) vs) -> eval σ None (Arr (m :: rest) vs) = ws ← evals σ vs; shaped (m :: rest) (Node ws).
Proof.
  intros [Hm Hs]. rewrite eval_arr. cbn [default]. assert (all (eval σ (Some rest) <$> vs) = evals σ vs) as ->.
  { unfold SugarSpec.evals. f_equal. clear -Hs. induction Hs as [|e l He _ IH]; [done|]. cbn. by rewrite IH, eval_settled. }
  destruct (evals σ vs) as [ws| |] eqn:Ews; cbn [mbind R_bind]; [|done..]. apply all_length in Ews. rewrite fmap_length in Ews.
  replace (m - length ws) with 0 by lia. cbn [replicate]. by rewrite app_nil_r.
Qed.
Lemma evals_length σ vs ws : evals σ vs = Ok ws -> length ws = length vs.
Proof. intros H%all_length. by rewrite fmap_length in H. Qed.
Lemma elements_values σ ds x acc w l : eval σ None (Var ds x acc) = Ok w -> w = Node l -> evals σ (elements_of (tail ds) x acc 0 (length l)) = Ok l.
Proof.
  intros H ->. rewrite eval_var in H. destruct (path σ acc) as [p| |] eqn:Ep; cbn in H; [|by destruct (or_ill (look σ x))|done]. destruct (look σ x) as [v|] eqn:Hl; cbn in H; [|done].
  destruct (select v p) as [u| |] eqn:Es; cbn in H; [|done..]. apply shaped_ok in H as [<- Hsh]. destruct ds as [|d ds]; [done|]. cbn in Hsh. apply andb_prop in Hsh as [_ Hsh].
  cbn [tail]. assert (forall l1 l2, l = l1 ++ l2 -> evals σ (elements_of ds x acc (Z.of_nat (length l1)) (length l2)) = Ok l2) as H; [|exact (H [] l eq_refl)].
  intros l1 l2. revert l1. induction l2 as [|u l2 IH]; intros l1 E; [done|]. cbn [length elements_of]. unfold SugarSpec.evals. cbn [fmap list_fmap all].
  rewrite eval_var, path_app, Ep, Hl. cbn [mbind R_bind both or_ill]. rewrite select_app, Es. cbn. rewrite nth_key_nat. rewrite E at 1. rewrite list_lookup_middle by done. cbn.
  assert (has_shape ds u = true) as Hu.
  { rewrite E, forallb_app in Hsh. apply andb_prop in Hsh as [_ Hsh]. cbn in Hsh. by apply andb_prop in Hsh as [? _]. }
  unfold shaped. rewrite Hu. specialize (IH (l1 ++ [u])). rewrite <- app_assoc in IH. specialize (IH E). rewrite app_length in IH. cbn [length] in IH.
  replace (Z.of_nat (length l1 + 1)) with (Z.of_nat (length l1) + 1)%Z in IH by lia. unfold SugarSpec.evals in IH. fold (@all val). rewrite IH. done.
Qed.
Lemma elements_fails σ ds ds' x acc i m : eval σ None (Var ds x acc) = Fail -> m <> 0 -> evals σ (elements_of ds' x acc i m) = Fail.
Proof.
  intros H Hm. rewrite eval_var in H.
  assert (forall i, eval σ None (Var ds' x (acc ++ [Idx (Num i)])) = Fail) as Hi.
  { intros j. rewrite eval_var, path_app. destruct (path σ acc) as [p| |] eqn:Ep; cbn in H; [|by destruct (or_ill (look σ x))|done]. destruct (look σ x) as [v|] eqn:Hl; cbn in H; [|done].
    cbn. rewrite select_app. destruct (select v p) as [u| |] eqn:Es; cbn in H; [|done..]. unfold shaped in H. by destruct (has_shape ds u). }
  destruct m as [|m]; [done|]. clear Hm. revert i. induction m as [|m IH]; intros i.
  - unfold SugarSpec.evals. cbn -[SugarSpec.eval]. by rewrite Hi.
  - specialize (IH (i + 1)%Z). unfold SugarSpec.evals in *. change (elements_of ds' x acc i (S (S m))) with (Var ds' x (acc ++ [Idx (Num i)]) :: elements_of ds' x acc (i + 1) (S m)).
    cbn [fmap list_fmap all]. rewrite Hi. fold (@all val). by rewrite IH.
Qed.
Lemma elements_of_length ds x acc i m : length (elements_of ds x acc i m) = m.
Proof. revert i. induction m as [|m IH]; intros i; [done|]. cbn. by rewrite IH. Qed.
(** an array and a variable *)
Lemma equal_var vs ds ds' x acc a σ : full (Arr ds vs) -> vs <> [] -> lhe_array_ce (Arr ds vs) (Var ds' x acc) = Some a -> weak (exec (Equal (Arr ds vs) (Var ds' x acc)) σ) (sequence exec a σ).
Proof.
  intros Hf Hne Ha. destruct ds as [|m rest]; [done|]. cbn [lhe_array_ce] in Ha. cbn [SugarSpec.exec]. rewrite eval_full by done.
  destruct (evals σ vs) as [ws| |] eqn:Ews; cbn [mbind R_bind].
  - unfold shaped. destruct (has_shape (m :: rest) (Node ws)); [|done]. destruct (eval σ None (Var ds' x acc)) as [u| |] eqn:Eu; [| |done].
    + cbn [both mbind R_bind]. destruct (same_shape (Node ws) u) eqn:Es; [|done]. destruct u as [|us|]; try done. apply same_shape_length in Es as Hl. apply evals_length in Ews as Hl'.
      rewrite <- Hl', Hl in Ha. rewrite (equal_values _ _ _ _ _ _ Ha Ews (elements_values _ _ _ _ _ _ Eu eq_refl) Es). by destruct (val_eqb (Node ws) (Node us)).
    + cbn. eapply equal_fail; [exact Ha|by rewrite elements_of_length|right]. eapply elements_fails; [done|]. by destruct vs.
  - destruct (eval σ None (Var ds' x acc)) as [u| |] eqn:Eu; cbn; [| |done]; (eapply equal_fail; [exact Ha|by rewrite elements_of_length|by left]).
  - done.
Qed.
Lemma equal_weak l r a σ : into_single_constraint_equality l r = Some a -> equal_ok l r -> weak (exec (Equal l r) σ) (sequence exec a σ).
Proof.
  assert (weak (exec (Equal l r) σ) (sequence exec [Equal l r] σ)) as Hsame.
  { cbn [sequence]. destruct (SugarSpec.exec W n (Equal l r) σ) as [[[σ1 t] c]| |]; cbn; try done. destruct c; [by rewrite app_nil_r|done..]. }
  assert (exec (Equal l r) σ = exec (Equal r l) σ) as Hsym.
  { cbn. destruct (SugarSpec.eval W σ None l) as [v| |], (SugarSpec.eval W σ None r) as [w| |]; cbn; try done. by rewrite same_shape_sym, val_eqb_sym. }
  unfold into_single_constraint_equality.
  destruct l as [z|ds x acc|ds f args|o e|o l1 l2|ds c t f|ds vs|ds v d]; cbn [is_array].
  7: { destruct r as [z|ds' x acc|ds' f args|o e|o l1 l2|ds' c t f|ds' us|ds' v d]; try by intros _ [? ?].
    - intros Ha [Hf Hne]. by apply equal_var.
    - cbn [lhe_array_ce]. intros Ha (Hfl & Hfr & Hlen). cbn [SugarSpec.exec]. destruct ds as [|m rest]; [done|]. destruct ds' as [|m' rest']; [done|].
      rewrite !eval_full by done. destruct (evals σ vs) as [ws| |] eqn:Ews; cbn [mbind R_bind]; [| |done].
      + unfold shaped. destruct (has_shape (m :: rest) (Node ws)); [|done]. destruct (evals σ us) as [zs| |] eqn:Ezs; cbn [mbind R_bind]; [| |done].
        * destruct (has_shape (m' :: rest') (Node zs)); [|done]. cbn [both mbind R_bind]. destruct (same_shape (Node ws) (Node zs)) eqn:Es; [|done].
          rewrite (equal_values _ _ _ _ _ _ Ha Ews Ezs Es). by destruct (val_eqb (Node ws) (Node zs)).
        * cbn. eapply equal_fail; [exact Ha|done|by right].
      + destruct (zs ← evals σ us; shaped (m' :: rest') (Node zs)); cbn; [| |done]; (eapply equal_fail; [exact Ha|done|by left]).
    - destruct d as [d| | | | | | |]; try by intros _ [? ?]. cbn [lhe_array_ce]. intros Ha (Hfl & Hlen & Hne). cbn [SugarSpec.exec]. destruct ds as [|m rest]; [done|].
      rewrite eval_full by done. cbn [SugarSpec.eval default].
      assert (length vs <> 0) as Hn by (by destruct vs). destruct (evals σ vs) as [ws| |] eqn:Ews; cbn [mbind R_bind]; [| |done].
      + unfold shaped at 1. destruct (has_shape (m :: rest) (Node ws)); [|done]. destruct (SugarSpec.eval W σ None v) as [u| |] eqn:Eu; [| |done].
        * cbn. unfold shaped. destruct (has_shape ds' (Node (replicate (Z.to_nat d) u))); [|done]. cbn [both mbind R_bind].
          destruct (same_shape (Node ws) (Node (replicate (Z.to_nat d) u))) eqn:Es; [|done].
          assert (evals σ (replicate (length vs) v) = Ok (replicate (Z.to_nat d) u)) as Ev.
          { unfold SugarSpec.evals. rewrite fmap_replicate, all_replicate by done. rewrite Eu, Hlen. done. }
          rewrite (equal_values _ _ _ _ _ _ Ha Ews Ev Es). by destruct (val_eqb (Node ws) _).
        * cbn. eapply equal_fail; [exact Ha|by rewrite replicate_length|right]. unfold SugarSpec.evals. rewrite fmap_replicate, all_replicate by done. by rewrite Eu.
      + match goal with |- context [both Fail ?y] => destruct y as [?| |] end; cbn; [| |done];
          (eapply equal_fail; [exact Ha|by rewrite replicate_length|by left]). }
  7: { destruct r; by intros _ [? ?]. }
  all: destruct r as [z'|ds' x' acc'|ds' f' args'|o' e'|o' l1' l2'|ds' c' t' f'|ds' us|ds' v' d']; cbn [is_array]; try (by intros [= <-] _); try (by intros _ [? ?]).
  intros Ha [Hf Hne]. rewrite Hsym. by apply equal_var.
Qed.
(** ** States that agree on the names of the program *)
Definition alike (σ σ' : state) : Prop := Forall2 (fun b b' => forall x, is_user x = true -> b' !! x = b !! x) σ σ'.
Lemma alike_refl σ : alike σ σ.
Proof. unfold alike. induction σ; constructor; done. Qed.
Lemma alike_look σ σ' x : alike σ σ' -> is_user x = true -> look σ' x = look σ x.
Proof. intros H Hx. induction H as [|b b' σ σ' Hb _ IH]; [done|]. cbn. by rewrite Hb, IH. Qed.
Lemma alike_eval σ σ' ov e : alike σ σ' -> forallb is_user (names e) = true -> eval σ' ov e = eval σ ov e.
Proof. intros H He. apply eval_agree. intros x Hx. eapply alike_look; [done|]. rewrite forallb_forall in He. apply He. by apply elem_of_list_In. Qed.
Lemma alike_ne σ σ' : alike σ σ' -> σ <> [] -> σ' <> [].
Proof. by destruct 1. Qed.
Lemma alike_keeps k σ σ' σ'' : alike σ σ' -> keeps k σ' σ'' -> alike σ σ''.
Proof.
  intros H (b & b' & τ & -> & -> & Hk). inversion H as [|b0 ? τ0 ? H1 H2]; subst. constructor; [|done].
  intros x Hx. rewrite Hk; [auto|]. by destruct x.
Qed.
Lemma alike_store σ σ' x v : alike σ σ' -> is_user x = true ->
  match store σ x v with Some σ1 => exists σ1', store σ' x v = Some σ1' /\ alike σ1 σ1' | None => store σ' x v = None end.
Proof.
  intros H Hx. induction H as [|b b' σ σ' Hb H IH]; [done|]. cbn. rewrite (Hb x Hx). destruct (b !! x).
  - eexists. split; [done|]. constructor; [|done]. intros y Hy. destruct (decide (x = y)) as [->|]; [by rewrite !lookup_insert|].
    rewrite !lookup_insert_ne by done. auto.
  - destruct (store σ x v) as [σ1|]; cbn.
    + destruct IH as (σ1' & -> & IH). cbn. eexists. split; [done|]. by constructor.
    + by rewrite IH.
Qed.
Definition rel (r r' : R outcome) : Prop :=
  match r with
  | Ok (σ1, t, c) => exists σ1', r' = Ok (σ1', t, c) /\ alike σ1 σ1'
  | Fail => forall o, r' <> Ok o
  | Ill => True
  end.
Lemma rel_weak r r' r'' : r <> Ill -> (r = Fail -> r' = Fail) -> rel r r' -> weak r' r'' -> rel r r''.
Proof.
  intros Hn Hf Hr Hw. destruct r as [[[σ1 t] c]| |]; [|by rewrite Hf in Hw|done].
  destruct Hr as (σ1' & -> & Ha). cbn in Hw. exists σ1'. done.
Qed.
Lemma rel_andthen r r' f f' : rel r r' -> (forall σ σ', (exists t, r = Ok (σ, t, Next)) -> alike σ σ' -> rel (f σ) (f' σ')) -> rel (andthen r f) (andthen r' f').
Proof.
  intros Hr Hf. destruct r as [[[σ1 t] c]| |]; cbn; [|by intros o; destruct r' as [o'| |]; [by destruct (Hr o')|done..]|done].
  destruct Hr as (σ1' & -> & Ha). cbn. destruct c; [|exists σ1'; done..].
  specialize (Hf σ1 σ1' (ex_intro _ t eq_refl) Ha). destruct (f σ1) as [[[σ2 t2] c2]| |]; cbn; [|by intros o; destruct (f' σ1') as [o'| |]; [by destruct (Hf o')|done..]|done].
  destruct Hf as (σ2' & -> & Ha2). cbn. exists σ2'. done.
Qed.

(** the number of blocks does not change *)
Lemma exec_length s : forall σ o, exec s σ = Ok o -> length o.1.1 = length σ.
Proof.
  assert (forall l, Forall (fun s => forall σ o, exec s σ = Ok o -> length o.1.1 = length σ) l -> forall σ o, sequence exec l σ = Ok o -> length o.1.1 = length σ) as Hseq.
  { intros l Hl. induction Hl as [|s0 l Hs _ IH]; intros σ o; [by intros [= <-]|]. cbn. fold (sequence exec). destruct (SugarSpec.exec W n s0 σ) as [[[σ1 t] c]| |] eqn:E; cbn; try done.
    apply Hs in E. cbn in E. destruct c; [|by intros [= <-]..]. destruct (sequence exec l σ1) as [[[σ2 t2] c2]| |] eqn:E2; cbn; try done.
    intros [= <-]. cbn. rewrite <- E. by apply (IH _ _ E2). }
  induction s as [x ds|x acc op e|l r|c t f IHt IHf|c b IHb|l IH|l IH|e|args|e] using stmt_ind'; intros σ o; cbn.
  - destruct σ; [done|]. intros [= <-]. done.
  - destruct (both _ _) as [[v p]| |]; cbn; try done. destruct (or_ill _); cbn; try done. destruct (update _ _ _); cbn; try done.
    destruct (store σ x _) eqn:E; cbn; try done. intros [= <-]. cbn. by eapply store_length.
  - destruct (both _ _) as [[v w]| |]; cbn; try done. destruct (same_shape v w); [|done]. destruct (val_eqb v w); [|done]. by intros [= <-].
  - destruct (condition W σ c); cbn; try done. destruct (_ =? 0)%Z; [|by apply IHt]. destruct f; [by apply IHf|by intros [= <-]].
  - generalize n at 1. intros m. revert σ o. induction m as [|m IHm]; intros σ o; cbn; [by intros [= <-]|].
    destruct (condition W σ c); cbn; try done. destruct (_ =? 0)%Z; [by intros [= <-]|]. destruct (SugarSpec.exec W n b σ) as [[[σ1 t] r]| |] eqn:E; cbn; try done.
    apply IHb in E. cbn in E. destruct r; [|by intros [= <-]..]. destruct (loop m _ _ σ1) as [[[σ2 t2] c2]| |] eqn:E2; cbn; try done.
    intros [= <-]. cbn. rewrite <- E. by apply (IHm _ _ E2).
  - destruct (sequence _ l (∅ :: σ)) as [[[σ1 t] r]| |] eqn:E; cbn; try done. apply Hseq in E; [|done]. cbn in E. destruct σ1; [done|]. intros [= <-]. cbn in *. lia.
  - apply Hseq. done.
  - destruct (SugarSpec.eval W σ None e); cbn; try done. by intros [= <-].
  - destruct (log_args W σ args); cbn; try done. by intros [= <-].
  - destruct (condition W σ e); cbn; try done. destruct (_ =? 0)%Z; [done|]. by intros [= <-].
Qed.
Lemma exec_ne s σ σ1 t c : exec s σ = Ok (σ1, t, c) -> σ <> [] -> σ1 <> [].
Proof. intros H%exec_length. cbn in H. destruct σ, σ1; done. Qed.

(** ** The passes over the list of a block *)
Definition passes (l : list stmt) (id : nat) : option (list stmt) :=
  l ← map_substitutions l; l ← map_constraint_equalities l; map_returns l id.
Lemma map_substitutions_app l1 l2 l : map_substitutions (l1 ++ l2) = Some l ->
  exists a b, map_substitutions l1 = Some a /\ map_substitutions l2 = Some b /\ l = a ++ b.
Proof.
  revert l. induction l1 as [|s l1 IH]; cbn; intros l H; [by exists [], l|].
  apply bind_Some in H as (a & Ha & H). apply bind_Some in H as (b & Hb & [= <-]). destruct (IH _ Hb) as (a1 & b1 & H1 & H2 & ->).
  exists (a ++ a1), b1. rewrite Ha, H1. cbn. by rewrite app_assoc.
Qed.
Lemma map_equalities_app l1 l2 l : map_constraint_equalities (l1 ++ l2) = Some l ->
  exists a b, map_constraint_equalities l1 = Some a /\ map_constraint_equalities l2 = Some b /\ l = a ++ b.
Proof.
  revert l. induction l1 as [|s l1 IH]; cbn; intros l H; [by exists [], l|].
  apply bind_Some in H as (a & Ha & H). apply bind_Some in H as (b & Hb & [= <-]). destruct (IH _ Hb) as (a1 & b1 & H1 & H2 & ->).
  exists (a ++ a1), b1. rewrite Ha, H1. cbn. by rewrite app_assoc.
Qed.
Lemma map_returns_app l1 l2 : forall id l, map_returns (l1 ++ l2) id = Some l ->
  exists a b id', map_returns l1 id = Some a /\ map_returns l2 id' = Some b /\ l = a ++ b.
Proof.
  induction l1 as [|s l1 IH]; intros id l H; [by exists [], l, id|].
  assert (forall s, cons s <$> map_returns (l1 ++ l2) id = Some l -> exists a b id', cons s <$> map_returns l1 id = Some a /\ map_returns l2 id' = Some b /\ l = a ++ b) as Hc.
  { intros s0 (l' & Hl & ->)%fmap_Some. destruct (IH _ _ Hl) as (a & b & id' & -> & Hb & ->). exists (s0 :: a), b, id'. done. }
  destruct s; try by apply Hc. cbn [app map_returns] in *. destruct (is_array e || is_switch e || is_call e); [|by apply Hc].
  apply bind_Some in H as (a & Ha & H). apply bind_Some in H as (b & Hb & [= <-]). destruct (IH _ _ Hb) as (a1 & b1 & id' & H1 & H2 & ->).
  exists (Decl (Ret id) (dims_of e) :: a ++ Return (Var (dims_of e) (Ret id) []) :: a1), b1, id'. rewrite Ha, H1. cbn. by rewrite <- app_assoc.
Qed.
Lemma passes_app l1 l2 id l : passes (l1 ++ l2) id = Some l -> exists a b id', passes l1 id = Some a /\ passes l2 id' = Some b /\ l = a ++ b.
Proof.
  unfold passes. intros H. apply bind_Some in H as (a & Ha & H). apply bind_Some in H as (b & Hb & H).
  apply map_substitutions_app in Ha as (a1 & a2 & -> & -> & ->). apply map_equalities_app in Hb as (b1 & b2 & Hb1 & Hb2 & ->). cbn. rewrite Hb1, Hb2. cbn. by apply map_returns_app.
Qed.
Definition quiet (s : stmt) : bool := match s with Equal _ _ | Return _ => false | _ => true end.
Lemma quiet_equalities l : forallb quiet l = true -> map_constraint_equalities l = Some l.
Proof. induction l as [|s l IH]; [done|]. cbn. intros [Hs Hl]%andb_prop. rewrite IH by done. by destruct s. Qed.
Lemma quiet_returns l id : forallb quiet l = true -> map_returns l id = Some l.
Proof. induction l as [|s l IH]; [done|]. cbn [forallb]. intros [Hs Hl]%andb_prop. destruct s; try done; cbn; by rewrite IH. Qed.
Lemma single_quiet x acc op rhe l : into_single_substitution x acc op rhe = Some l -> forallb quiet l = true.
Proof.
  assert (forall vs i, forallb quiet (element_assigns x acc op i vs) = true) as He by (induction vs as [|v vs IH]; intros i; [done|apply IH]).
  destruct rhe; cbn; try by intros [= <-]. destruct rhe2; try done. destruct (_ <? 0)%Z; [done|]. intros [= <-]. apply He.
Qed.
Lemma inits_quiet l l' : Forall init_ok l -> map_substitutions l = Some l' -> forallb quiet l' = true.
Proof.
  intros H. revert l'. induction H as [|s l Hs _ IH]; intros l'; [by intros [= <-]|]. cbn. intros H. apply bind_Some in H as (a & Ha & H). apply bind_Some in H as (b & Hb & [= <-]).
  rewrite forallb_app, (IH _ Hb), andb_true_r. destruct s; try done; [by injection Ha as <-|by eapply single_quiet].
Qed.
Lemma passes_inits l id l' : Forall init_ok l -> passes l id = Some l' -> map_substitutions l = Some l'.
Proof.
  intros H. unfold passes. intros Hp. apply bind_Some in Hp as (a & Ha & Hp). rewrite Ha. apply inits_quiet in Ha; [|done].
  rewrite quiet_equalities in Hp by done. cbn in Hp. rewrite quiet_returns in Hp by done. done.
Qed.
Lemma weak_andthen r r' f f' : weak r r' -> (forall σ, weak (f σ) (f' σ)) -> weak (andthen r f) (andthen r' f').
Proof.
  intros Hr Hf. destruct r as [[[σ1 t] c]| |]; cbn in *; [subst r'; cbn|by destruct r' as [o| |]; [by destruct (Hr o)|..]|done].
  destruct c; [|done..]. specialize (Hf σ1). destruct (f σ1) as [[[σ2 t2] c2]| |]; cbn in *; [by rewrite Hf|by intros a; destruct (f' σ1) as [o| |]; [by destruct (Hf o)|..]|done].
Qed.
Lemma weak_refl {A} (r : R A) : weak r r.
Proof. by destruct r. Qed.
Lemma inits_weak l : forall l' σ, Forall init_ok l -> map_substitutions l = Some l' -> weak (sequence exec l σ) (sequence exec l' σ).
Proof.
  induction l as [|s l IH]; intros l' σ Hl; [by intros [= <-]|]. inversion Hl as [|? ? Hs Hls]; subst. cbn [map_substitutions]. intros H. apply bind_Some in H as (a & Ha & H). apply bind_Some in H as (b & Hb & [= <-]).
  rewrite sequence_app. change (sequence exec (s :: l) σ) with (andthen (exec s σ) (sequence exec l)). apply weak_andthen; [|intros; by apply IH].
  destruct s; try done; [|by eapply single_weak]. injection Ha as <-. destruct σ; done.
Qed.
(** the statements in front, after the passes *)
Lemma after_inits {A} k k' i (src tgt : state -> R A) id a σ σ' :
  does W n k k' i src tgt -> passes i id = Some a -> σ <> [] -> alike σ σ' -> src σ' = src σ -> src σ <> Ill ->
  (exists σ'', sequence exec a σ' = Ok (σ'', [], Next) /\ alike σ σ'' /\ tgt σ'' = src σ) \/ ((forall o, sequence exec a σ' <> Ok o) /\ src σ = Fail).
Proof.
  intros (Hk & Hok & H) Hp Hσ Ha Hs Hn. apply passes_inits in Hp; [|done]. pose proof (inits_weak _ _ σ' Hok Hp) as Hw.
  destruct (H σ') as [(σ'' & E1 & E2 & E3)|(E1 & E2)]; [by eapply alike_ne|by rewrite Hs|left|right].
  - rewrite E1 in Hw. cbn in Hw. exists σ''. split_and!; [done|by eapply alike_keeps|congruence].
  - rewrite E1 in Hw. split; [done|congruence].
Qed.

(** ** Statements *)
Context (Hpow : forall a b, den2 W Pow a b = match den2 W Add 0 b with Some b' => den2 W Pow a b' | None => None end).
Context (mixed : name -> bool).
Notation extend_expression := (extend_expression mixed).
Notation extend_statement := (extend_statement mixed).
Notation source := (source mixed).
Notation tame := (tame mixed).
Lemma user_under k e : forallb is_user (names e) = true -> under k e.
Proof. intros H x Hx. rewrite forallb_forall in H. specialize (H x). rewrite <- elem_of_list_In in H. apply H in Hx. by destruct x. Qed.
Lemma source_does e k e' i k' : extend_expression false None e k = Some ((e', i), k') -> source e ->
  does W n k k' i (fun σ => eval σ None e) (fun σ => eval σ None e') /\ good k k' None e e' /\ (flat mixed false e = true -> i = [] /\ k' = k) /\ under k' e'.
Proof.
  intros H [Hu Hl]. destruct (extend_does W n Hpow mixed e _ _ _ _ _ _ H Hl (user_under k e Hu)) as (D & G & F).
  split_and!; [done..|]. eapply good_under; [apply D|done|by apply user_under].
Qed.
Lemma source_accesses_does acc k acc' i k' : extend_accesses (fun e => extend_expression false None e) acc k = Some ((acc', i), k') -> source_accesses mixed acc ->
  does W n k k' i (fun σ => path σ acc) (fun σ => path σ acc') /\ names_in k k' (direct_accesses acc) (access_names acc') /\ length acc' = length acc.
Proof.
  intros H Ha. assert (Forall (acc_all (extends W n mixed)) acc) as HF.
  { apply Forall_forall. intros [e|f] _; [|done]. apply (extend_does W n Hpow mixed). }
  assert (forallb (fun a => match a with Fld _ => true | Idx e => lazy mixed false e end) acc = true) as Hl.
  { clear H HF. induction Ha as [|[e|f] acc He _ IH]; [done| |done]. destruct He. cbn. apply andb_true_intro. done. }
  assert (forall x, x ∈ access_names acc -> below k x) as Hb.
  { clear H HF Hl. induction Ha as [|[e|f] acc He _ IH]; [by inversion 1| |done]. destruct He as [He _]. cbn. intros x. rewrite elem_of_app. intros [Hx|Hx]; [by eapply user_under|auto]. }
  pose proof (extend_accesses_does W n mixed false acc HF _ _ _ _ H Hl Hb) as (D & N & L & _). done.
Qed.
Lemma source_path σ σ' acc : alike σ σ' -> source_accesses mixed acc -> path σ' acc = path σ acc.
Proof.
  intros H Ha. apply path_agree. intros x Hx. eapply alike_look; [done|]. induction Ha as [|[e|f] acc He _ IH]; [by inversion Hx| |by apply IH].
  cbn in Hx. rewrite elem_of_app in Hx. destruct Hx as [Hx|Hx]; [|by apply IH]. destruct He as [He _]. rewrite forallb_forall in He. apply He. by apply elem_of_list_In.
Qed.
Lemma apart_names k k' l l' x : names_in k k' l l' -> is_user x = true -> x ∉ l -> x ∉ l'.
Proof. intros H Hx Hl Hx'. destruct (H x Hx') as [?|(j & -> & _)]; done. Qed.
Lemma replicate_nil {A} m (a : A) : replicate m a = [] -> m = 0.
Proof. by destruct m. Qed.
Lemma source_assign_ok x acc acc' rhe rhe' i k k' k1 k2 : extend_expression false None rhe k = Some ((rhe', i), k') ->
  is_user x = true -> source rhe -> array_apart x acc rhe -> good k k' None rhe rhe' ->
  names_in k1 k2 (direct_accesses acc) (access_names acc') -> length acc' = length acc -> assign_ok x acc' rhe'.
Proof.
  intros H Hx Hs Ha (N & _ & _ & F & S) Na La.
  destruct rhe as [z|ds y ac|ds f args|o e|o a b|ds c t f|ds vs|ds v d]; cbn in S.
  1,3-6: by destruct rhe'.
  - by destruct S as (? & ? & ? & ->).
  - destruct S as (ds' & vs' & -> & Hl). specialize (Hl eq_refl). destruct ds as [|m ds]; [done|]. cbn in Ha. destruct Ha as (A1 & A2 & A3).
    cbn [assign_ok]. split_and!; [done| | |].
    + cbn [top_names] in N. rewrite names_arr in N. eapply apart_names; [done|done|]. intros Hi. apply A1. rewrite flat_map_app, elem_of_app. by left.
    + by eapply apart_names.
    + intros ->. cbn in Hl. destruct acc; [by destruct acc'|]. discriminate A3. apply length_zero_iff_nil. rewrite app_length, replicate_length. done.
  - destruct S as (ds' & v' & d' & -> & Hd). cbn. destruct d'; try done. destruct (Hd z) as [Hd' _]. rewrite (Hd' eq_refl) in *. cbn in Ha. destruct Ha as (A1 & A2 & A3).
    destruct Hs as [_ Hs]. cbn in Hs. apply andb_prop in Hs as [_ Hs]. apply Z.ltb_lt in Hs. right. split_and!; [lia| |by eapply apart_names].
    intros Hi. apply (apart_names _ _ _ _ _ N Hx); [|cbn; rewrite elem_of_app; by left].
    cbn. intros Hi'. rewrite app_nil_r in Hi'. apply A1. destruct (Z.to_nat z) eqn:E; [lia|]. cbn. rewrite elem_of_app. by left.
Qed.
(** what a statement becomes, with the statements in front of it *)
Definition simulates (s : stmt) : Prop := forall k s' i k' id l,
  extend_statement s k = Some ((s', i), k') -> tame s -> passes (i ++ [s']) id = Some l ->
  forall σ σ', σ <> [] -> alike σ σ' -> rel (exec s σ) (sequence exec l σ').
Lemma passes_quiet s id l : quiet s = true -> (forall x acc op e, s <> Assign x acc op e) -> passes [s] id = Some l -> l = [s].
Proof. intros Hq Ha. destruct s; try done; [intros [= <-]; done|by destruct (Ha x acc op rhe)|..]; intros [= <-]; done. Qed.
Lemma sequence_one s σ : sequence exec [s] σ = exec s σ.
Proof. cbn. destruct (SugarSpec.exec W n s σ) as [[[σ1 t] c]| |]; cbn; try done. destruct c; [by rewrite app_nil_r|done..]. Qed.
(** run the statements in front *)
Lemma rel_inits {A} k k' i (src tgt : state -> R A) id l s' (f : A -> state -> R outcome) r σ σ' :
  does W n k k' i src tgt -> passes (i ++ [s']) id = Some l -> σ <> [] -> alike σ σ' -> src σ' = src σ ->
  r = (a ← src σ; f a σ) ->
  (forall b id' σ'' v, passes [s'] id' = Some b -> alike σ σ'' -> src σ = Ok v -> tgt σ'' = Ok v -> rel (f v σ) (sequence exec b σ'')) ->
  (src σ = Fail -> forall b id' σ'', passes [s'] id' = Some b -> alike σ σ'' -> tgt σ'' = Fail -> forall o, sequence exec b σ'' <> Ok o) ->
  rel r (sequence exec l σ').
Proof.
  intros D Hp Hσ Ha Hs -> Hok Hfail. apply passes_app in Hp as (a & b & id' & Hp1 & Hp2 & ->). rewrite sequence_app.
  destruct (src σ) as [v| |] eqn:Es; [| |done].
  - destruct (after_inits _ _ _ _ _ _ _ σ σ' D Hp1) as [(σ'' & E1 & E2 & E3)|[_ E]]; [done|done|congruence|congruence| |congruence].
    rewrite E1. cbn. specialize (Hok _ _ _ v Hp2 E2 eq_refl). rewrite Es in E3. specialize (Hok E3).
    destruct (f v σ) as [[[σ1 t] c]| |]; cbn; [|by intros o; destruct (sequence exec b σ'') as [o'| |]; [by destruct (Hok o')|..]|done].
    destruct Hok as (σ1' & -> & Ha'). cbn. exists σ1'. done.
  - cbn. intros o. destruct (after_inits _ _ _ _ _ _ _ σ σ' D Hp1) as [(σ'' & E1 & E2 & E3)|[E _]]; [done|done|congruence|congruence| |].
    + rewrite E1. cbn. rewrite Es in E3. specialize (Hfail eq_refl _ _ _ Hp2 E2 E3). destruct (sequence exec b σ'') as [o'| |]; [by destruct (Hfail o')|done..].
    + destruct (sequence exec a σ') as [o'| |]; [by destruct (E o')|done..].
Qed.
Lemma sim_decl x ds : simulates (Decl x ds).
Proof.
  intros k s' i k' id l [= <- <- <-] Hx [= <-] σ σ' Hσ Ha. rewrite sequence_one. destruct Ha as [|b b' σ σ' Hb Ha]; [done|]. cbn.
  eexists. split; [done|]. constructor; [|done]. intros y Hy. destruct (decide (x = y)) as [->|]; [by rewrite !lookup_insert|]. rewrite !lookup_insert_ne by done. auto.
Qed.
Lemma sim_assign x acc op rhe : simulates (Assign x acc op rhe).
Proof.
  intros k s' i k' id l H (Hx & Hr & Hacc & Hap) Hp σ σ' Hσ Ha. cbn [SugarModel.extend_statement] in H.
  apply bnd_some in H as ([rhe' i1] & k1 & H1 & H). apply bnd_some in H as ([acc' i2] & k2 & H2 & [= <- <- <-]).
  destruct (source_does _ _ _ _ _ H1 Hr) as (D1 & G1 & _ & U1). destruct (source_accesses_does _ _ _ _ _ H2 Hacc) as (D2 & N2 & L2).
  assert (assign_ok x acc' rhe') as Hok by (by eapply source_assign_ok).
  assert (does W n k k2 (i1 ++ i2) (fun σ => both (eval σ None rhe) (path σ acc)) (fun σ => both (eval σ None rhe') (path σ acc'))) as D.
  { eapply does_both; [exact D1|exact D2| |by apply under_stable]. intros τ τ' Hk. apply path_agree. intros y Hy. eapply keeps_look; [done|].
    assert (is_user y = true) as Hy'; [|by destruct y]. clear -Hacc Hy. induction Hacc as [|[e|f] acc He _ IH]; [by inversion Hy| |by apply IH].
    cbn in Hy. rewrite elem_of_app in Hy. destruct Hy as [Hy|Hy]; [|by apply IH]. destruct He as [He _]. rewrite forallb_forall in He. apply He. by apply elem_of_list_In. }
  assert (forall b id', passes [Assign x acc' op rhe'] id' = Some b -> into_single_substitution x acc' op rhe' = Some b) as Hb.
  { intros b id'. unfold passes. cbn [map_substitutions]. intros Hb. apply bind_Some in Hb as (a & Hb' & Hb). apply bind_Some in Hb' as (a' & Ha' & Hb').
    injection Hb' as <-. rewrite app_nil_r in *. apply single_quiet in Ha' as Hq. rewrite quiet_equalities in Hb by done. cbn in Hb. rewrite quiet_returns in Hb by done. congruence. }
  eapply (rel_inits _ _ _ _ _ _ _ _ (fun '(v, p) σ => old ← or_ill (look σ x); w ← update old p v; σ ← or_ill (store σ x w); Ok (σ, [], Next)) _ _ _ D Hp Hσ Ha).
  - by rewrite (alike_eval _ _ _ _ Ha (proj1 Hr)), (source_path _ _ _ Ha Hacc).
  - cbn. by destruct (both _ _) as [[v p]| |].
  - intros b id' σ'' [v p] Hb' Ha'' _ Ht. apply Hb in Hb'. pose proof (single_weak _ _ _ _ _ σ'' Hb' Hok) as Hw. cbn [SugarSpec.exec] in Hw. rewrite Ht in Hw. cbn [mbind R_bind] in Hw.
    rewrite (alike_look _ _ _ Ha'' Hx) in Hw. destruct (look σ x) as [old|]; [|done]. cbn [or_ill mbind R_bind] in *. destruct (update old p v) as [w| |]; cbn [mbind R_bind] in *; [|exact Hw|done].
    pose proof (alike_store _ _ x w Ha'' Hx) as Hst. destruct (store σ x w) as [σ1|]; [|done]. destruct Hst as (σ1' & E & Hal). rewrite E in Hw. cbn in Hw. exists σ1'. done.
  - intros _ b id' σ'' Hb' Ha'' Ht. apply Hb in Hb'. pose proof (single_weak _ _ _ _ _ σ'' Hb' Hok) as Hw. cbn [SugarSpec.exec] in Hw. rewrite Ht in Hw. exact Hw.
Qed.
Lemma good_not_array k k' e e' : good k k' None e e' -> is_array e = false -> is_array e' = false.
Proof. intros (_ & _ & _ & _ & S) H. destruct e; cbn in S; try done. by destruct S as (? & ? & ? & ->). Qed.
Lemma source_equal_ok l l' r r' k1 k2 k3 k4 : comparable l r -> good k1 k2 None l l' -> good k3 k4 None r r' -> equal_ok l' r'.
Proof.
  intros Hc G1 G2. assert (is_array l = false /\ is_array r = false -> equal_ok l' r') as Hno.
  { intros [Hl Hr]. apply (good_not_array _ _ _ _ G1) in Hl. apply (good_not_array _ _ _ _ G2) in Hr. destruct l', r'; try done. }
  pose proof G1 as (_ & _ & _ & F1 & S1). pose proof G2 as (_ & _ & _ & F2 & S2).
  destruct l; try (by apply Hno; destruct r); destruct r; try (by apply Hno); cbn [keeps_size] in S1, S2; cbn [comparable] in Hc.
  - destruct S1 as (? & ? & ? & ->). destruct S2 as (? & vs & -> & L2). specialize (L2 eq_refl). split; [done|]. intros ->. apply Hc. by rewrite <- L2.
  - destruct S2 as (? & ? & ? & ->). destruct S1 as (? & vs & -> & L1). specialize (L1 eq_refl). split; [done|]. intros ->. apply Hc. by rewrite <- L1.
  - destruct S1 as (? & vs & -> & L1). destruct S2 as (? & us & -> & L2). specialize (L1 eq_refl). specialize (L2 eq_refl). split_and!; [done..|]. congruence.
  - destruct S1 as (? & vs & -> & L1). specialize (L1 eq_refl). destruct S2 as (? & ? & d & -> & Hd). destruct Hc as [Hc Hne].
    destruct r2; try done. destruct (Hd z) as [_ Hz]. rewrite (Hz eq_refl). change (size (Uni ds0 r1 (Num z))) with (Z.to_nat z) in *. split_and!; [done|congruence|]. intros ->. change (length []) with 0 in L1. congruence.
Qed.
Lemma sim_equal l r : simulates (Equal l r).
Proof.
  intros k s' i k' id ls H (Hl & Hr & Hc) Hp σ σ' Hσ Ha. cbn [SugarModel.extend_statement] in H.
  apply bnd_some in H as ([l' i1] & k1 & H1 & H). apply bnd_some in H as ([r' i2] & k2 & H2 & [= <- <- <-]).
  destruct (source_does _ _ _ _ _ H1 Hl) as (D1 & G1 & _ & U1). destruct (source_does _ _ _ _ _ H2 Hr) as (D2 & G2 & _ & U2).
  assert (equal_ok l' r') as Hok by (by eapply source_equal_ok).
  assert (does W n k k2 (i1 ++ i2) (fun σ => both (eval σ None l) (eval σ None r)) (fun σ => both (eval σ None l') (eval σ None r'))) as D.
  { eapply does_both; [exact D1|exact D2|apply under_stable; by apply user_under; destruct Hr|by apply under_stable]. }
  assert (forall b id', passes [Equal l' r'] id' = Some b -> into_single_constraint_equality l' r' = Some b) as Hb.
  { intros b id'. unfold passes. cbn [map_substitutions]. intros Hb. cbn in Hb. apply bind_Some in Hb as (a & Hb' & Hb). apply bind_Some in Hb' as (a' & Ha' & Hb').
    injection Hb' as <-. rewrite app_nil_r in *. rewrite Ha'. f_equal.
    assert (forall xs ys c, equal_elements xs ys = Some c -> map_returns c id' = Some c) as He.
    { clear. induction xs as [|x xs IH]; intros ys c; [by intros [= <-]|]. destruct ys as [|y ys]; [done|]. cbn [equal_elements]. intros (c' & Hc & ->)%fmap_Some.
      cbn. by rewrite (IH _ _ Hc). }
    assert (forall x y c, lhe_array_ce x y = Some c -> map_returns c id' = Some c) as He'.
    { intros x y c. unfold lhe_array_ce. destruct x; try done. destruct y; try (by intros [= <-]); apply He. }
    unfold into_single_constraint_equality in Ha'. destruct (is_array l'); [by rewrite (He' _ _ _ Ha') in Hb; injection Hb|].
    destruct (is_array r'); [by rewrite (He' _ _ _ Ha') in Hb; injection Hb|]. injection Ha' as <-. by injection Hb. }
  eapply (rel_inits _ _ _ _ _ _ _ _ (fun '(v, w) σ => if same_shape v w then if val_eqb v w then Ok (σ, [], Next) else Fail else Ill) _ _ _ D Hp Hσ Ha).
  - by rewrite (alike_eval _ _ _ _ Ha (proj1 Hl)), (alike_eval _ _ _ _ Ha (proj1 Hr)).
  - cbn. by destruct (both _ _) as [[v p]| |].
  - intros b id' σ'' [v p] Hb' Ha'' _ Ht. apply Hb in Hb'. pose proof (equal_weak _ _ _ σ'' Hb' Hok) as Hw. cbn [SugarSpec.exec] in Hw. rewrite Ht in Hw. cbn [mbind R_bind] in Hw.
    destruct (same_shape v p); [|done]. destruct (val_eqb v p); [|exact Hw]. exists σ''. done.
  - intros _ b id' σ'' Hb' Ha'' Ht. apply Hb in Hb'. pose proof (equal_weak _ _ _ σ'' Hb' Hok) as Hw. cbn [SugarSpec.exec] in Hw. rewrite Ht in Hw. exact Hw.
Qed.
Lemma sim_assert e : simulates (Assert e).
Proof.
  intros k s' i k' id l H Hs Hp σ σ' Hσ Ha. cbn [SugarModel.extend_statement] in H. apply bnd_some in H as ([e' i1] & k1 & H1 & [= <- <- <-]).
  destruct (source_does _ _ _ _ _ H1 Hs) as (D & _).
  eapply (rel_inits _ _ _ _ _ _ _ _ (fun v σ => z ← number v; if (z =? 0)%Z then Fail else Ok (σ, [], Next)) _ _ _ D Hp Hσ Ha).
  - by rewrite (alike_eval _ _ _ _ Ha (proj1 Hs)).
  - cbn. unfold condition. by destruct (SugarSpec.eval W σ None e).
  - intros b id' σ'' v [= <-] Ha'' _ Ht. rewrite sequence_one. cbn. unfold condition. rewrite Ht. cbn. destruct (number v) as [z| |]; cbn; [|done..].
    destruct (z =? 0)%Z; cbn; [done|]. exists σ''. done.
  - intros _ b id' σ'' [= <-] Ha'' Ht. rewrite sequence_one. cbn. unfold condition. rewrite Ht. done.
Qed.
Lemma log_does args : forall k args' i k', extend_log mixed args k = Some ((args', i), k') ->
  Forall (fun a => match a with inl _ => True | inr e => source e end) args ->
  does W n k k' i (fun σ => log_args W σ args) (fun σ => log_args W σ args').
Proof.
  induction args as [|[t|e] args IH]; intros k args' i k'; cbn [extend_log].
  - intros [= <- <- <-] _. by apply does_nil.
  - intros H Hs. inversion Hs; subst. apply bnd_some in H as ([args1 i1] & k1 & H1 & [= <- <- <-]).
    eapply does_ext; [| |exact (does_map _ _ _ _ _ _ _ (fun l => Ok (inl t :: l)) (IH _ _ _ _ H1 ltac:(done)))].
    + intros σ. unfold log_args. cbn. by destruct (all _).
    + intros _ _ σ _. unfold log_args. cbn. by destruct (all _).
  - intros H Hs. inversion Hs as [|? ? He Hs']; subst. apply bnd_some in H as ([e1 i1] & k1 & H1 & H). apply bnd_some in H as ([args1 i2] & k2 & H2 & [= <- <- <-]).
    destruct (source_does _ _ _ _ _ H1 He) as (D1 & G1 & _ & U1). specialize (IH _ _ _ _ H2 Hs').
    assert (does W n k k2 (i1 ++ i2) (fun σ => both (v ← eval σ None e; Ok (@inr string val v)) (log_args W σ args)) (fun σ => both (v ← eval σ None e1; Ok (@inr string val v)) (log_args W σ args1))) as D.
    { eapply does_both; [by apply does_map|exact IH| |].
      - intros σ σ' Hk. unfold log_args. f_equal. clear -Hs' Hk. induction Hs' as [|[t|e] args He _ IH]; [done|cbn; by rewrite IH|].
        cbn. rewrite IH. by rewrite (keeps_eval W k σ σ' None e Hk) by (apply user_under, He).
      - intros σ σ' Hk. by rewrite (keeps_eval W k1 σ σ' None e1 Hk U1). }
    exact (does_map _ _ _ _ _ _ _ (fun '(a, l) => Ok (a :: l)) D).
Qed.
Lemma sim_log args : simulates (Log args).
Proof.
  intros k s' i k' id l H Hs Hp σ σ' Hσ Ha. cbn [SugarModel.extend_statement] in H. apply bnd_some in H as ([args' i1] & k1 & H1 & [= <- <- <-]).
  pose proof (log_does _ _ _ _ _ H1 Hs) as D.
  eapply (rel_inits _ _ _ _ _ _ _ _ (fun t σ => Ok (σ, [t], Next)) _ _ _ D Hp Hσ Ha).
  - unfold log_args. f_equal. clear -Hs Ha. cbn in Hs. induction Hs as [|[t|e] args He _ IH]; [done|cbn; by rewrite IH|].
    cbn. rewrite IH. by rewrite (alike_eval _ _ _ _ Ha (proj1 He)).
  - done.
  - intros b id' σ'' v [= <-] Ha'' _ Ht. rewrite sequence_one. cbn. rewrite Ht. cbn. exists σ''. done.
  - intros _ b id' σ'' [= <-] Ha'' Ht. rewrite sequence_one. cbn. rewrite Ht. done.
Qed.
Lemma sim_return e : simulates (Return e).
Proof.
  intros k s' i k' id l H Hs Hp σ σ' Hσ Ha. cbn [SugarModel.extend_statement] in H. apply bnd_some in H as ([e' i1] & k1 & H1 & [= <- <- <-]).
  destruct (source_does _ _ _ _ _ H1 Hs) as (D & G & _ & U).
  assert (forall b id' σ'', passes [Return e'] id' = Some b -> alike σ σ'' ->
    match eval σ'' None e' with Ok v => exists σ1, sequence exec b σ'' = Ok (σ1, [], Returned v) /\ alike σ σ1 | Fail => forall o, sequence exec b σ'' <> Ok o | Ill => True end) as Hb.
  { intros b id' σ'' Hb Ha''. unfold passes in Hb. cbn in Hb. destruct (is_array e' || is_switch e' || is_call e') eqn:Es.
    - apply bind_Some in Hb as (a & Hsub & [= <-]). destruct σ'' as [|b'' τ]; [by inversion Ha''; subst|].
      set (σ1 := <[Ret id' := zeros (dims_of e')]> b'' :: τ).
      assert (Ret id' ∉ names e') as Hn.
      { destruct G as (N & _). intros Hi. destruct (N _ Hi) as [Hi'|(j & [=] & _)]. apply top_names_names in Hi'. destruct Hs as [Hu _]. rewrite forallb_forall in Hu.
        specialize (Hu (Ret id')). rewrite <- elem_of_list_In in Hu. by apply Hu in Hi'. }
      assert (eval σ1 None e' = eval (b'' :: τ) None e') as He.
      { apply eval_agree. intros x Hx. cbn. rewrite lookup_insert_ne; [done|]. by intros <-. }
      assert (assign_ok (Ret id') [] e') as Hok.
      { destruct e' as [| | | | | |ds vs|ds v d]; try done; cbn [assign_ok].
        - rewrite names_arr in Hn. split_and!; [apply G|done|cbn; set_solver|done].
        - destruct d; try done. destruct (decide (Z.to_nat z = 0)) as [Hz|Hz]; [left|right].
          + split_and!; [done..|]. destruct G as (_ & _ & _ & F & _). by apply F.
          + split_and!; [done| |cbn; set_solver]. intros Hi. apply Hn. cbn. rewrite elem_of_app. by left. }
      pose proof (single_weak _ _ _ _ _ σ1 Hsub Hok) as Hw. cbn [SugarSpec.exec] in Hw. rewrite He in Hw.
      cbn [sequence SugarSpec.exec andthen mbind R_bind]. fold σ1. fold (sequence exec). rewrite sequence_app.
      destruct (eval (b'' :: τ) None e') as [v| |] eqn:Ev; [| |done].
      + assert (has_shape (dims_of e') v = true) as Hsh.
        { eapply eval_shape; [|exact Ev]. left. unfold sugar. destruct (is_array e'), (is_switch e'), (is_call e'); done. }
        cbn in Hw. rewrite lookup_insert in Hw. cbn in Hw. rewrite overlay_zeros in Hw by done. cbn in Hw. rewrite insert_insert in Hw. rewrite Hw. cbn.
        rewrite lookup_insert. cbn. unfold shaped. rewrite Hsh. cbn. eexists. split; [done|].
        inversion Ha'' as [|b0 ? τ0 ? Hb0 Hτ]; subst. constructor; [|done]. intros x Hx. rewrite lookup_insert_ne; [auto|]. by intros <-.
      + cbn in Hw. intros o. destruct (sequence exec a σ1) as [o'| |]; [by destruct (Hw o')|done..].
    - injection Hb as <-. rewrite sequence_one. cbn. destruct (SugarSpec.eval W σ'' None e') as [v| |]; cbn; [|done..]. exists σ''. done. }
  eapply (rel_inits _ _ _ _ _ _ _ _ (fun v σ => Ok (σ, [], Returned v)) _ _ _ D Hp Hσ Ha).
  - by rewrite (alike_eval _ _ _ _ Ha (proj1 Hs)).
  - cbn. by destruct (SugarSpec.eval W σ None e).
  - intros b id' σ'' v Hb' Ha'' _ Ht. specialize (Hb _ _ _ Hb' Ha''). rewrite Ht in Hb. exact Hb.
  - intros _ b id' σ'' Hb' Ha'' Ht. specialize (Hb _ _ _ Hb' Ha''). rewrite Ht in Hb. exact Hb.
Qed.
Lemma extend_block s k s' i k' : is_block s = true -> extend_statement s k = Some ((s', i), k') -> i = [] /\ k' = k /\ is_block s' = true.
Proof.
  destruct s; try done. intros _. cbn. destruct (map_stmts_with_sugar _ l k) as [[l1 k1]|]; [|done]. intros H. apply bind_Some in H as (l2 & _ & H). apply bind_Some in H as (l3 & _ & H).
  apply bind_Some in H as (l4 & _ & H). by injection H as <- <- <-.
Qed.
Lemma sim_block_stmt s : simulates s -> is_block s = true -> forall k s' i k', extend_statement s k = Some ((s', i), k') -> tame s ->
  forall σ σ', σ <> [] -> alike σ σ' -> rel (exec s σ) (exec s' σ').
Proof.
  intros Hs Hb k s' i k' H Ht σ σ' Hσ Ha. destruct (extend_block _ _ _ _ _ Hb H) as (-> & -> & Hb').
  rewrite <- (sequence_one s' σ'). eapply (Hs k s' [] k 0); [done|done| |done|done]. destruct s'; done.
Qed.
Lemma sim_if c t f : simulates t -> opt_all simulates f -> simulates (If c t f).
Proof.
  intros IHt IHf k s' i k' id l H (Hc & Hbt & Ht & Hf) Hp σ σ' Hσ Ha. cbn [SugarModel.extend_statement] in H.
  apply bnd_some in H as ([t' i1] & k1 & H1 & H). apply bnd_some in H as ([f' i2] & k2 & H2 & H). apply bnd_some in H as ([c' i3] & k3 & H3 & H). apply bnd_some in H as ([c2 i4] & k4 & H4 & [= <- <- <-]).
  destruct (extend_block _ _ _ _ _ Hbt H1) as (-> & -> & Hbt').
  assert (i2 = [] /\ forall σ σ', σ <> [] -> alike σ σ' -> rel (match f with Some f => exec f σ | None => Ok (σ, [], Next) end) (match f' with Some f => exec f σ' | None => Ok (σ', [], Next) end)) as (-> & Hf').
  { destruct f as [f|].
    - apply bnd_some in H2 as ([f1 i5] & k5 & H2 & [= <- <- <-]). destruct Hf as [Hbf Hf]. destruct (extend_block _ _ _ _ _ Hbf H2) as (-> & -> & Hbf'). split; [done|].
      intros. by eapply sim_block_stmt.
    - injection H2 as <- <- <-. split; [done|]. intros τ τ' _ Hτ. exists τ'. done. }
  destruct (source_does _ _ _ _ _ H3 Hc) as (D3 & G3 & _ & U3). cbn [app] in H4.
  destruct (filter1_does W n _ _ _ _ _ _ H4 U3) as (j & -> & D4 & _); [apply G3|]. pose proof (does_trans _ _ _ _ _ _ _ _ _ _ D3 D4) as D.
  eapply (rel_inits _ _ _ _ _ _ _ _ (fun v σ => z ← number v; if (z =? 0)%Z then match f with Some f => exec f σ | None => Ok (σ, [], Next) end else exec t σ) _ _ _ D Hp Hσ Ha).
  - by rewrite (alike_eval _ _ _ _ Ha (proj1 Hc)).
  - cbn. unfold condition. by destruct (SugarSpec.eval W σ None c).
  - intros b id' σ'' v [= <-] Ha'' _ Hv. rewrite sequence_one. cbn. unfold condition. rewrite Hv. cbn. destruct (number v) as [z| |]; cbn; [|done..].
    destruct (z =? 0)%Z; [by apply Hf'|by eapply sim_block_stmt].
  - intros _ b id' σ'' [= <-] Ha'' Hv. rewrite sequence_one. cbn. unfold condition. rewrite Hv. done.
Qed.
Lemma sim_while c b : simulates b -> simulates (While c b).
Proof.
  intros IHb k s' i k' id l H (Hc & Hf & Hb & Ht) Hp σ σ' Hσ Ha. cbn [SugarModel.extend_statement] in H.
  apply bnd_some in H as ([b' i1] & k1 & H1 & H). apply bnd_some in H as ([c' i2] & k2 & H2 & H). apply bnd_some in H as ([c2 i3] & k3 & H3 & [= <- <- <-]).
  destruct (extend_block _ _ _ _ _ Hb H1) as (-> & -> & Hb'). destruct (source_does _ _ _ _ _ H2 Hc) as (D2 & G2 & F2 & U2). destruct (F2 Hf) as [-> ->]. cbn [app] in H3.
  destruct (filter1_does W n _ _ _ _ _ _ H3 U2) as (j & -> & _ & _ & _ & F3); [apply G2|]. destruct F3 as (-> & -> & ->); [destruct G2 as (_ & _ & -> & _); by eapply flat_sugar|].
  injection Hp as <-. rewrite sequence_one. cbn.
  assert (forall σ σ', σ <> [] -> alike σ σ' -> condition W σ c <> Ill -> condition W σ' c' = condition W σ c) as Hcond.
  { intros τ τ' Hτ Hal. unfold condition. rewrite <- (alike_eval _ _ _ _ Hal (proj1 Hc)). intros Hn. destruct D2 as (_ & _ & D2).
    destruct (D2 τ') as [(τ'' & [= <-] & _ & E)|[E _]]; [by eapply alike_ne|by destruct (SugarSpec.eval W τ' None c)|by rewrite E|done]. }
  generalize n at 1 3. intros m. revert σ σ' Hσ Ha. induction m as [|m IHm]; intros σ σ' Hσ Ha; cbn; [exists σ'; done|].
  specialize (Hcond σ σ' Hσ Ha). destruct (condition W σ c) as [z| |]; [|by rewrite Hcond|done]. rewrite Hcond by done. cbn. destruct (z =? 0)%Z; [exists σ'; done|].
  apply rel_andthen; [by eapply sim_block_stmt|]. intros τ τ' [t Et] Hτ. apply IHm; [|done]. by eapply exec_ne.
Qed.
(** a list of statements as in a block: an initialisation block is replaced by its statements *)
Definition tames (l : list stmt) : Prop := (fix go l := match l with [] => True | s :: l => SugarSpec.tame mixed s /\ go l end) l.
Definition ready (s : stmt) : Prop := simulates s /\ match s with Init ss => Forall simulates ss | _ => True end.
Definition one (s : stmt) : M (list stmt) := let! (s, i) := extend_statement s in ret (i ++ [s]).
Lemma one_sim s : simulates s -> forall k l1 k', one s k = Some (l1, k') -> tame s -> forall id l, passes l1 id = Some l ->
  forall σ σ', σ <> [] -> alike σ σ' -> rel (exec s σ) (sequence exec l σ').
Proof.
  intros Hs k l1 k' H Ht id l Hp. apply bnd_some in H as ([s' i] & k1 & H & [= <- <-]). by eapply Hs.
Qed.
Lemma each_sim ss : Forall simulates ss -> forall k l1 k',
  (fix each ss := match ss with [] => ret [] | s :: ss => let! a := one s in let! b := each ss in ret (a ++ b) end) ss k = Some (l1, k') ->
  tames ss -> forall id l, passes l1 id = Some l -> forall σ σ', σ <> [] -> alike σ σ' -> rel (sequence exec ss σ) (sequence exec l σ').
Proof.
  induction 1 as [|s ss Hs _ IH]; intros k l1 k'.
  - intros [= <- <-] _ id l [= <-] σ σ' _ Ha. exists σ'. done.
  - intros H [Ht Hts] id l Hp σ σ' Hσ Ha. apply bnd_some in H as (a & k1 & H1 & H). apply bnd_some in H as (b & k2 & H2 & [= <- <-]).
    apply passes_app in Hp as (la & lb & id' & Hpa & Hpb & ->). rewrite sequence_app. cbn [sequence]. fold (sequence exec).
    apply rel_andthen; [by eapply one_sim|]. intros τ τ' [t Et] Hτ. eapply IH; [done..| |done]. by eapply exec_ne.
Qed.
Lemma list_sim l : Forall ready l -> forall k l1 k', map_stmts_with_sugar (fun s => extend_statement s) l k = Some (l1, k') ->
  tames l -> forall id l2, passes l1 id = Some l2 -> forall σ σ', σ <> [] -> alike σ σ' -> rel (sequence exec l σ) (sequence exec l2 σ').
Proof.
  induction 1 as [|s l [Hs Hi] _ IH]; intros k l1 k'.
  - intros [= <- <-] _ id l2 [= <-] σ σ' _ Ha. exists σ'. done.
  - intros H [Ht Hts] id l2 Hp σ σ' Hσ Ha. apply bnd_some in H as (a & k1 & H1 & H). apply bnd_some in H as (b & k2 & H2 & [= <- <-]).
    apply passes_app in Hp as (la & lb & id' & Hpa & Hpb & ->). rewrite sequence_app. cbn [sequence]. fold (sequence exec).
    apply rel_andthen.
    + destruct s; try (by eapply one_sim). by eapply each_sim.
    + intros τ τ' [t Et] Hτ. eapply IH; [done..| |done]. by eapply exec_ne.
Qed.
Lemma sim_block l : Forall ready l -> simulates (Block l).
Proof.
  intros Hl k s' i k' id ls H Ht Hp σ σ' Hσ Ha. cbn [SugarModel.extend_statement] in H.
  destruct (map_stmts_with_sugar _ l k) as [[l1 k1]|] eqn:E; [|done]. apply bind_Some in H as (l2 & H2 & H). apply bind_Some in H as (l3 & H3 & H).
  apply bind_Some in H as (l4 & H4 & [= <- <- <-]). injection Hp as <-. rewrite sequence_one. cbn. fold (sequence exec).
  assert (passes l1 k1 = Some l4) as Hp by (unfold passes; rewrite H2; cbn; by rewrite H3).
  assert (alike (∅ :: σ) (∅ :: σ')) as Ha' by (by constructor).
  pose proof (list_sim _ Hl _ _ _ E Ht _ _ Hp (∅ :: σ) (∅ :: σ') ltac:(done) Ha') as Hr.
  change (SugarSpec.exec W n) with exec. destruct (sequence exec l (∅ :: σ)) as [[[σ1 t] c]| |]; cbn; [| |done].
  - destruct Hr as (σ1' & -> & Hal). cbn. inversion Hal; [done|]. by eexists.
  - intros o. destruct (sequence exec l4 (∅ :: σ')) as [o'| |]; [by destruct (Hr o')|done..].
Qed.
Lemma all_ready s : ready s.
Proof.
  induction s as [x ds|x acc op e|l r|c t f IHt IHf|c b IHb|l IH|l IH|e|args|e] using stmt_ind'; split; try done.
  - apply sim_decl.
  - apply sim_assign.
  - apply sim_equal.
  - apply sim_if; [apply IHt|]. destruct f; [apply IHf|done].
  - apply sim_while, IHb.
  - by apply sim_block.
  - eapply Forall_impl; [exact IH|by intros s []].
  - apply sim_return.
  - apply sim_log.
  - apply sim_assert.
Qed.
Lemma clean_sim body body' : clean_sugar mixed body = Some body' -> is_block body = true -> tame body ->
  forall σ, σ <> [] -> rel (exec body σ) (exec body' σ).
Proof.
  intros H Hb Ht σ Hσ. unfold clean_sugar in H. destruct (extend_statement body 0) as [[[s i] k]|] eqn:E; [|done].
  destruct i; [|done]. injection H as <-. eapply sim_block_stmt; [apply all_ready|done..|apply alike_refl].
Qed.
End world.
