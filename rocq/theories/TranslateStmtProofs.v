(** The translation of statements: the instructions do to the memory what the statements do to the variables. *)
From stdpp Require Import prelude gmap numbers list strings.
From Verif Require Import DatModel IrModel IrSpec TranslateModel TranslateSpec TranslateProofs.
From Verif Require SugarModel SugarSpec SugarProofs SugarStmtProofs IrProofs.
Import SugarModel (name, User, Auto, Ret, iop, Add, Pow, OtherOp, expr, Num, Var, Call, Pre, Inf, Switch, Arr, Uni,
  access, Idx, Fld, Decl, Assign, Equal, If, While, Block, Init, Return, Log, Assert).
Import SugarSpec (val, Leaf, Node, Rec, has_shape, zeros, select, eval, path, look, store, condition, sequence, event, key,
  At, Field, den1, den2, call, Next, Returned, OutOfFuel, overlay, update, both, all, or_fail, or_ill, number, shaped, nth_key, evals,
  same_shape, val_eqb, log_args, loop, andthen).
Local Open Scope nat_scope.

(** ** Comparison of arrays *)
Fixpoint val_ind' (P : val -> Prop) (HL : forall z, P (Leaf z)) (HN : forall l, Forall P l -> P (Node l)) (HR : forall l, P (Rec l)) (v : val) : P v :=
  match v with
  | Leaf z => HL z
  | Node l => HN l ((fix go l : Forall P l := match l with [] => @List.Forall_nil _ _ | v :: l => @List.Forall_cons _ _ v l (val_ind' P HL HN HR v) (go l) end) l)
  | Rec l => HR l
  end.
Lemma compare_arrays v : forall u, numeric v -> numeric u -> same_shape v u = true ->
  length (contents v) = length (contents u) /\ val_eqb v u = bool_decide (contents v = contents u).
Proof.
  induction v as [z|l IH|] using val_ind'; intros u Hv Hu Hs; [| |done].
  - destruct u as [y| |]; try done. split; [done|]. cbn. destruct (Z.eqb_spec z y) as [->|Hn].
    + by rewrite bool_decide_eq_true_2.
    + rewrite bool_decide_eq_false_2; [done|]. congruence.
  - destruct u as [|us|]; try done. apply numeric_node in Hv, Hu. rewrite !contents_node.
    cbn [same_shape val_eqb] in *. revert us Hu Hs. induction IH as [|v l Hv' _ IHl]; intros [|u us] Hu Hs; try done.
    apply Forall_cons in Hv as [Hv1 Hv2], Hu as [Hu1 Hu2]. apply andb_prop in Hs as [Hs1 Hs2].
    destruct (Hv' u Hv1 Hu1 Hs1) as [L1 E1]. destruct (IHl Hv2 us Hu2 Hs2) as [L2 E2].
    cbn [fmap list_fmap concat]. rewrite !app_length. split; [lia|]. rewrite E1, E2.
    destruct (decide (contents v = contents u)) as [Ec|Ec].
    + rewrite (bool_decide_eq_true_2 (contents v = contents u)) by done. cbn [andb]. apply bool_decide_ext. rewrite Ec.
      split; [by intros ->|apply app_inv_head].
    + rewrite (bool_decide_eq_false_2 (contents v = contents u)) by done. cbn [andb]. symmetry. apply bool_decide_eq_false_2.
      intros E. apply app_inj_1 in E as [? ?]; done.
Qed.

Section sim.
Context (W : SugarSpec.world) (w : world Z) (sigs outs : name -> bool) (fid : string -> nat) (table : list Z) (stable : list string).
Context (HL : linked W w fid table).
Context (parallel : bool) (sanity rsize depth nsig : nat) (isout : Z -> Prop).
Notation tr_e := (tr_e sigs).
Notation tr_s := (tr_s sigs outs fid).
Notation toint := (w_toint w).
Notation cell := cell.
Notation entry := (entry sigs).
Notation mrel := (mrel sigs).
Notation xlist fuel := (exec_list (exec w parallel sanity rsize fuel)).

(** ** Writes *)
Lemma write_in m x a vs k z : vs !! k = Some z ->
  cell (write m (if sigs x then LSig (m_base m + a) else LVar a) vs) (sigs x) (a + Z.of_nat k) = z.
Proof.
  intros H. unfold cell. destruct (sigs x); cbn; [rewrite Z.add_assoc|]; by apply IrProofs.upds_in.
Qed.
Lemma write_out m x a vs s z : s <> sigs x \/ (z < a \/ a + Z.of_nat (length vs) <= z)%Z ->
  cell (write m (if sigs x then LSig (m_base m + a) else LVar a) vs) s z = cell m s z.
Proof.
  intros H. unfold cell. destruct (sigs x), s; cbn; try done; apply IrProofs.upds_out; destruct H as [H|H]; try done; lia.
Qed.
Definition disjoint (i j : info) : Prop := s_addr i + s_size i <= s_addr j \/ s_addr j + s_size j <= s_addr i.
Definition sep (e : list (list (name * info))) (top : nat) : Prop :=
  (forall k bl x i, e !! k = Some bl -> assoc x bl = Some i -> s_addr i + s_size i <= (if sigs x then nsig else top) /\
     (sigs x = true -> forall z, (Z.of_nat (s_addr i) <= z < Z.of_nat (s_addr i + s_size i))%Z -> isout z <-> outs x = true)) /\
  (forall k1 bl1 x1 i1 k2 bl2 x2 i2, e !! k1 = Some bl1 -> assoc x1 bl1 = Some i1 -> e !! k2 = Some bl2 -> assoc x2 bl2 = Some i2 ->
     (k1, x1) <> (k2, x2) -> sigs x1 = sigs x2 -> disjoint i1 i2).
Record inv (σ : SugarSpec.state) (e : list (list (name * info))) (top : nat) (m : mem Z) : Prop := Inv {
  v_rel : mrel σ e m; v_sep : sep e top; v_top : top <= depth }.
(** what changes *)
Record changed (m m' : mem Z) (evs : list event) : Prop := Changed {
  h_base : m_base m' = m_base m; h_start : m_start m' = m_start m; h_tpl : m_tpl m' = m_tpl m; h_count : m_count m' = m_count m;
  h_vars : forall a, (a < 0 \/ Z.of_nat depth <= a)%Z -> m_vars m' a = m_vars m a;
  h_sigs : forall a, (a < m_base m \/ m_base m + Z.of_nat nsig <= a)%Z -> m_sigs m' a = m_sigs m a;
  h_log : exists t, shown stable evs t /\ m_log m' = m_log m ++ t;
  h_set : exists l, m_set m' = m_set m ++ l /\ (forall z, z ∈ l -> parallel = true /\ isout z) /\
    (parallel = true -> forall z, isout z -> m_sigs m' (m_base m + z)%Z <> m_sigs m (m_base m + z)%Z -> z ∈ l) }.
Lemma set_refl (m m' : mem Z) : m_set m' = m_set m -> m_sigs m' = m_sigs m ->
  exists l, m_set m' = m_set m ++ l /\ (forall z, z ∈ l -> parallel = true /\ isout z) /\
    (parallel = true -> forall z, isout z -> m_sigs m' (m_base m + z)%Z <> m_sigs m (m_base m + z)%Z -> z ∈ l).
Proof. intros H1 H2. exists []. rewrite app_nil_r. split; [done|]. split; [intros z Hz; by apply elem_of_nil in Hz|]. intros _ z _ Hz. by rewrite H2 in Hz. Qed.
Lemma shown_app a b ta tb : shown stable a ta -> shown stable b tb -> shown stable (a ++ b) (ta ++ tb).
Proof. induction 1 as [|e es t ts He Hs IH]; [done|]. intros Hb. cbn. rewrite <- app_assoc. constructor; auto. Qed.
Lemma changed_refl m : changed m m [].
Proof. split; try done; [|by apply set_refl]. exists []. split; [constructor|by rewrite app_nil_r]. Qed.
Lemma changed_trans m1 m2 m3 a b : changed m1 m2 a -> changed m2 m3 b -> changed m1 m3 (a ++ b).
Proof.
  intros [B1 S1 T1 C1 V1 G1 (t1 & L1 & M1) (l1 & E1 & P1 & Q1)] [B2 S2 T2 C2 V2 G2 (t2 & L2 & M2) (l2 & E2 & P2 & Q2)]. split; try congruence.
  - intros x Hx. rewrite V2 by done. by apply V1.
  - intros x Hx. rewrite G2 by (rewrite B1; done). by apply G1.
  - exists (t1 ++ t2). split; [by apply shown_app|]. by rewrite M2, M1, app_assoc.
  - exists (l1 ++ l2). split; [by rewrite E2, E1, app_assoc|]. split.
    + intros z [Hz|Hz]%elem_of_app; auto.
    + intros Hp z Hz Hne. apply elem_of_app. rewrite B1 in Q2.
      destruct (decide (m_sigs m2 (m_base m1 + z) = m_sigs m1 (m_base m1 + z))%Z) as [Heq|]; [right; apply Q2; congruence|left; by apply Q1].
Qed.
Lemma entry_keep m m' y v i : (forall z, (Z.of_nat (s_addr i) <= z < Z.of_nat (s_addr i + s_size i))%Z -> cell m' (sigs y) z = cell m (sigs y) z) ->
  entry m y v i -> entry m' y v i.
Proof.
  intros H (H1 & H2 & H3). split; [done|]. split; [done|]. intros k z Hk. rewrite H; [by apply H3|].
  apply lookup_lt_Some in Hk. rewrite (array_length _ _ H1) in Hk. lia.
Qed.
Lemma mrel_same σ e m m' : (forall s z, cell m' s z = cell m s z) -> mrel σ e m -> mrel σ e m'.
Proof.
  intros H Hr. eapply Forall2_impl; [exact Hr|]. intros b bl Hb x. specialize (Hb x). destruct (b !! x), (assoc x bl); try done.
  eapply entry_keep; [|done]. intros; apply H.
Qed.
Lemma store_at σ e m x new σ' : mrel σ e m -> store σ x new = Some σ' ->
  exists k b bl i old, σ !! k = Some b /\ e !! k = Some bl /\ b !! x = Some old /\ assoc x bl = Some i /\ lookup e x = Some i /\
    look σ x = Some old /\ σ' = <[k := <[x := new]> b]> σ.
Proof.
  intros H. revert σ'. induction H as [|b bl σ e Hb Hr IH]; intros σ' Hs; [done|]. cbn in Hs.
  pose proof (Hb x) as Hx. destruct (b !! x) as [old|] eqn:Eb.
  - injection Hs as <-. destruct (assoc x bl) as [i|] eqn:Ei; [|done]. exists 0, b, bl, i, old. cbn. rewrite Ei, Eb. auto 10.
  - destruct (assoc x bl) as [i|] eqn:Ei; [done|]. destruct (store σ x new) as [σ1|]; [|done]. cbn in Hs. injection Hs as <-.
    destruct (IH σ1 eq_refl) as (k & b' & bl' & i & old & H1 & H2 & H3 & H4 & H5 & H6 & ->).
    exists (S k), b', bl', i, old. cbn. rewrite Ei, Eb. auto 10.
Qed.
Lemma store_inv σ e top m m' x new σ' i : inv σ e top m -> store σ x new = Some σ' -> lookup e x = Some i ->
  array (s_dims i) new -> (forall k z, contents new !! k = Some z -> cell m' (sigs x) (Z.of_nat (s_addr i) + Z.of_nat k) = z) ->
  (forall s z, s <> sigs x \/ (z < Z.of_nat (s_addr i) \/ Z.of_nat (s_addr i + s_size i) <= z)%Z -> cell m' s z = cell m s z) ->
  inv σ' e top m'.
Proof.
  intros [Hr [Hs1 Hs2] Ht] Hs Hl Ha Hc Ho. destruct (store_at _ _ _ _ _ _ Hr Hs) as (k & b & bl & i' & old & H1 & H2 & H3 & H4 & H5 & H6 & ->).
  rewrite Hl in H5. injection H5 as <-. split; [|done|done]. unfold SugarSpec.state in *.
  assert (length σ = length e) as Hlen by (by eapply Forall2_length).
  apply Forall2_same_length_lookup_2. { by rewrite insert_length. }
  intros j b' bl' Hb' Hbl' y. destruct (decide (j = k)) as [->|Hj].
  - rewrite list_lookup_insert in Hb' by (by eapply lookup_lt_Some). injection Hb' as <-. rewrite H2 in Hbl'. injection Hbl' as <-.
    destruct (decide (y = x)) as [->|Hy].
    + rewrite lookup_insert, H4. pose proof (Forall2_lookup_lr _ _ _ _ _ _ Hr H1 H2 x) as Hx. rewrite H3, H4 in Hx. destruct Hx as (_ & Hsz & _).
      split; [done|]. by split.
    + rewrite lookup_insert_ne by done. pose proof (Forall2_lookup_lr _ _ _ _ _ _ Hr H1 H2 y) as Hx.
      destruct (b !! y) as [vy|], (assoc y bl) as [iy|] eqn:Ey; try done. eapply entry_keep; [|done]. intros z Hz. apply Ho.
      destruct (decide (sigs y = sigs x)) as [Es|]; [right|by left].
      pose proof (Hs2 k bl y iy k bl x i H2 Ey H2 H4 ltac:(congruence) Es) as [|]; lia.
  - rewrite list_lookup_insert_ne in Hb' by done. pose proof (Forall2_lookup_lr _ _ _ _ _ _ Hr Hb' Hbl' y) as Hx.
    destruct (b' !! y) as [vy|], (assoc y bl') as [iy|] eqn:Ey; try done. eapply entry_keep; [|done]. intros z Hz. apply Ho.
    destruct (decide (sigs y = sigs x)) as [Es|]; [right|by left].
    pose proof (Hs2 j bl' y iy k bl x i Hbl' Ey H2 H4 ltac:(congruence) Es) as [|]; lia.
Qed.
Lemma lookup_at e x i : lookup e x = Some i -> exists k bl, e !! k = Some bl /\ assoc x bl = Some i.
Proof.
  induction e as [|bl e IH]; [done|]. cbn. destruct (assoc x bl) as [j|] eqn:E.
  - intros [= ->]. by exists 0, bl.
  - intros H. destruct (IH H) as (k & b & H1 & H2). by exists (S k), b.
Qed.

(** ** Runs of instructions *)
Definition retv (r : SugarSpec.control) : option (list Z) := match r with Returned v => Some (take rsize (contents v)) | _ => None end.
Definition runs (code : list stmt) (m m' : mem Z) (r : option (list Z)) : Prop :=
  exists F, forall fuel, F <= fuel -> xlist fuel code m = Ok (m', r).
Definition aborts (code : list stmt) (m : mem Z) : Prop := exists F, forall fuel, F <= fuel -> xlist fuel code m = Abort.
Lemma xlist_app fuel a b m : xlist fuel (a ++ b) m = res_bind (xlist fuel a m) (fun x => match x.2 with None => xlist fuel b x.1 | Some _ => Ok x end).
Proof.
  revert m. induction a as [|i a IH]; intros m; [done|]. cbn. destruct (exec w parallel sanity rsize fuel i m) as [[m1 [r|]]| | |]; cbn; try done.
Qed.
Lemma runs_nil m : runs [] m m None. Proof. by exists 0. Qed.
Lemma runs_app a b m m1 m2 r : runs a m m1 None -> runs b m1 m2 r -> runs (a ++ b) m m2 r.
Proof.
  intros [F1 H1] [F2 H2]. exists (F1 `max` F2). intros fuel Hf. rewrite xlist_app, H1 by lia. cbn. apply H2. lia.
Qed.
Lemma runs_app_ret a b m m1 vs : runs a m m1 (Some vs) -> runs (a ++ b) m m1 (Some vs).
Proof. intros [F1 H1]. exists F1. intros fuel Hf. rewrite xlist_app, H1 by lia. done. Qed.
Lemma aborts_app a b m m1 : runs a m m1 None -> aborts b m1 -> aborts (a ++ b) m.
Proof. intros [F1 H1] [F2 H2]. exists (F1 `max` F2). intros fuel Hf. rewrite xlist_app, H1 by lia. cbn. apply H2. lia. Qed.
Lemma aborts_app_l a b m : aborts a m -> aborts (a ++ b) m.
Proof. intros [F1 H1]. exists F1. intros fuel Hf. rewrite xlist_app, H1 by lia. done. Qed.
Definition simple (i : stmt) : bool := match i with SBranch _ _ _ | SLoop _ _ => false | _ => true end.
Lemma exec_simple_eq fuel i m : simple i = true -> exec w parallel sanity rsize fuel i m = lift (exec_simple w parallel sanity rsize i m).
Proof. by destruct fuel, i. Qed.
Lemma runs_simple i m m' r : simple i = true -> exec_simple w parallel sanity rsize i m = Some (m', r) -> runs [i] m m' r.
Proof. intros H1 H2. exists 0. intros fuel _. cbn. rewrite exec_simple_eq, H2 by done. cbn. by destruct r. Qed.
Lemma aborts_simple i m : simple i = true -> exec_simple w parallel sanity rsize i m = None -> aborts [i] m.
Proof. intros H1 H2. exists 0. intros fuel _. cbn. by rewrite exec_simple_eq, H2 by done. Qed.

(** the outcome of a statement, from [m] *)
Definition outcome_rel (o : SugarSpec.R SugarSpec.outcome) (code : list stmt) (m : mem Z) (P : SugarSpec.state -> mem Z -> Prop) : Prop :=
  match o with
  | SugarSpec.Ok (σ', evs, r) => r <> OutOfFuel -> exists m', runs code m m' (retv r) /\ P σ' m' /\ changed m m' evs
  | SugarSpec.Fail => 1 <= sanity -> aborts code m
  | SugarSpec.Ill => True
  end.
Lemma outcome_seq o f code1 code2 m (P Q : SugarSpec.state -> mem Z -> Prop) :
  outcome_rel o code1 m P -> (forall σ m, P σ m -> Q σ m) ->
  (forall σ1 t m1, o = SugarSpec.Ok (σ1, t, Next) -> P σ1 m1 -> outcome_rel (f σ1) code2 m1 Q) ->
  outcome_rel (andthen o f) (code1 ++ code2) m Q.
Proof.
  intros H1 HPQ H2. unfold andthen. destruct o as [[[σ1 t] r]| |]; cbn in *; [|intros Hs; apply aborts_app_l; auto|done].
  destruct r as [|v|]; cbn.
  - destruct (H1 ltac:(done)) as (m1 & R1 & P1 & C1). specialize (H2 σ1 t m1 eq_refl P1).
    destruct (f σ1) as [[[σ2 t'] r]| |]; cbn in *; [|intros Hs; eapply aborts_app; eauto|done].
    intros Hr. destruct (H2 Hr) as (m2 & R2 & P2 & C2). exists m2. split; [by eapply runs_app|]. split; [done|]. by eapply changed_trans.
  - intros Hr. destruct (H1 Hr) as (m1 & R1 & P1 & C1). exists m1. split; [by apply runs_app_ret|]. split; [by apply HPQ|done].
  - done.
Qed.

(** ** The state of the translation *)
Lemma tr_args_stays l : forall st r st', tr_args sigs l st = Some (r, st') -> stays st st'.
Proof.
  induction l as [|e l IH]; intros st r st' H; cbn in H.
  - apply ret_some in H as [_ <-]. apply stays_refl.
  - apply bnd_some in H as (i & st1 & H1 & H). apply bnd_some in H as (r' & st2 & H2 & H). apply ret_some in H as [_ <-].
    eapply stays_trans; [by eapply tr_e_stays|by eapply IH].
Qed.
Lemma tr_logs_stays l : forall st r st', tr_logs sigs l st = Some (r, st') -> stays st st'.
Proof.
  induction l as [|[s|e] l IH]; intros st r st' H; cbn in H.
  - apply ret_some in H as [_ <-]. apply stays_refl.
  - apply bnd_some in H as (i & st1 & H1 & H). apply bnd_some in H as (r' & st2 & H2 & H). apply ret_some in H as [_ <-].
    eapply stays_trans; [by apply sid_some in H1 as [? _]|by eapply IH].
  - apply bnd_some in H as (i & st1 & H1 & H). apply bnd_some in H as (r' & st2 & H2 & H). apply ret_some in H as [_ <-].
    eapply stays_trans; [by eapply tr_e_stays|by eapply IH].
Qed.
Record grows (st st' : state) : Prop := Grows {
  g_consts : consts st `prefix_of` consts st'; g_strings : strings st `prefix_of` strings st';
  g_vmax : vmax st <= vmax st'; g_tl : tl (env st') = tl (env st); g_ne : env st <> [] -> env st' <> [] }.
Lemma grows_refl st : grows st st. Proof. by split. Qed.
Lemma grows_trans a b c : grows a b -> grows b c -> grows a c.
Proof. intros [] []. split; try congruence; try (by etrans); try lia; auto. Qed.
Lemma stays_grows st st' : stays st st' -> grows st st'.
Proof. intros []. split; [done|done|lia|congruence|congruence]. Qed.
Definition assign_stays_stmt := forall x acc op rhe st c st', tr_s (Assign x acc op rhe) st = Some (c, st') -> stays st st'.
Lemma assign_stays : assign_stays_stmt.
Proof.
  intros x acc op rhe st c st' H. cbn [TranslateModel.tr_s] in H. apply bnd_some in H as (s & st1 & H1 & H). apply process_stays in H1.
  eapply stays_trans; [done|].
  assert ((exists ds f args, rhe = Call ds f args) \/
    (let! n := expression_size sigs rhe in let! i := tr_e rhe in let! d := destination sigs outs s in ret [SStore d (p_length s) n i]) st1 = Some (c, st')) as [(ds & f & args & ->)|H'].
  { destruct rhe; eauto. }
  - apply bnd_some in H as (l & st2 & H2 & H). apply bnd_some in H as (d & st3 & H3 & H). apply ret_some in H as [_ <-].
    apply destination_same in H3 as ->. by eapply tr_args_stays.
  - apply bnd_some in H' as (n & st2 & H2 & H'). apply bnd_some in H' as (i & st3 & H3 & H'). apply bnd_some in H' as (d & st4 & H4 & H'). apply ret_some in H' as [_ <-].
    apply destination_same in H4 as ->. eapply stays_trans; [by eapply expression_size_stays|by eapply tr_e_stays].
Qed.
Lemma equal_size_stays r st n st' :
  match r with Var _ x acc => let! s := process sigs x acc in ret (p_length s) | _ => ret 1 end st = Some (n, st') -> stays st st'.
Proof.
  destruct r; intros H; try (apply ret_some in H as [_ <-]; apply stays_refl).
  apply bnd_some in H as (s & st1 & H1 & H). apply ret_some in H as [_ <-]. by eapply process_stays.
Qed.
Lemma tr_s_grows s : forall st c st', tr_s s st = Some (c, st') ->
  grows st st' /\ (bodies_ok s = true -> is_decl s = false -> env st' = env st /\ vstack st' = vstack st).
Proof.
  induction s as [x ds|x acc op rhe|l r|cond t f IHt IHf|cond b IHb|l IHl|l IHl|e|args|e] using SugarStmtProofs.stmt_ind';
    intros st c st' H.
  - cbn [TranslateModel.tr_s] in H. apply bnd_some in H as (a & st1 & H1 & H). injection H1 as <- <-.
    apply bnd_some in H as (u & st2 & H2 & H). apply ret_some in H as [_ <-]. unfold add_symbol in H2. cbn in H2.
    destruct (env st) as [|bl E] eqn:Ee; [done|]. cbn in H2. injection H2 as _ <-. split; [|done]. split; cbn; rewrite ?Ee; try done. lia.
  - pose proof (assign_stays _ _ _ _ _ _ _ H) as Hs. split; [by apply stays_grows|]. intros _ _. by destruct Hs.
  - cbn [TranslateModel.tr_s] in H. apply bnd_some in H as (n & st1 & H1 & H). apply bnd_some in H as (i & st2 & H2 & H).
    apply bnd_some in H as (j & st3 & H3 & H). apply ret_some in H as [_ <-].
    assert (stays st st3) as Hs. { eapply stays_trans; [by eapply equal_size_stays|]. eapply stays_trans; by eapply tr_e_stays. }
    split; [by apply stays_grows|]. intros _ _. by destruct Hs.
  - cbn [TranslateModel.tr_s] in H. apply bnd_some in H as (i & st1 & H1 & H). apply bnd_some in H as (l1 & st2 & H2 & H).
    apply bnd_some in H as (l2 & st3 & H3 & H). apply ret_some in H as [_ <-]. apply tr_e_stays in H1.
    destruct (IHt _ _ _ H2) as [Gt Kt].
    assert (grows st2 st3 /\ (match f with Some f => bodies_ok f = true /\ is_decl f = false | None => True end -> env st3 = env st2 /\ vstack st3 = vstack st2)) as [Gf Kf].
    { destruct f as [f|]; cbn in IHf; [|apply ret_some in H3 as [_ <-]; split; [apply grows_refl|done]].
      destruct (IHf _ _ _ H3) as [Gf Kf]. split; [done|]. intros [? ?]; auto. }
    split. { eapply grows_trans; [by apply stays_grows|]. by eapply grows_trans. }
    cbn [bodies_ok]. intros Hb _. apply andb_prop in Hb as [Hb Hbf]. apply andb_prop in Hb as [Hb1 Hb2]. apply negb_true_iff in Hb1.
    destruct (Kt Hb2 Hb1) as [K1 K2]. destruct Kf as [K3 K4].
    { destruct f; [|done]. apply andb_prop in Hbf as [? ?]. split; [done|]. by apply negb_true_iff. }
    destruct H1. split; congruence.
  - cbn [TranslateModel.tr_s] in H. apply bnd_some in H as (i & st1 & H1 & H). apply bnd_some in H as (l1 & st2 & H2 & H).
    apply ret_some in H as [_ <-]. apply tr_e_stays in H1. destruct (IHb _ _ _ H2) as [Gt Kt].
    split. { eapply grows_trans; [by apply stays_grows|done]. }
    cbn [bodies_ok]. intros Hb _. apply andb_prop in Hb as [Hb1 Hb2]. apply negb_true_iff in Hb1.
    destruct (Kt Hb2 Hb1) as [K1 K2]. destruct H1. split; congruence.
  - cbn [TranslateModel.tr_s] in H. apply bnd_some in H as (sv & st1 & H1 & H). injection H1 as <- <-.
    apply bnd_some in H as (cl & st2 & H2 & H). apply bnd_some in H as (u & st3 & H3 & H). apply ret_some in H as [_ <-].
    assert (forall st c st', tr_list tr_s l st = Some (c, st') -> grows st st') as Hl.
    { clear -IHl. induction IHl as [|s l Hs _ IH]; intros st c st' H; cbn in H.
      - apply ret_some in H as [_ <-]. apply grows_refl.
      - apply bnd_some in H as (a & st1 & H1 & H). apply bnd_some in H as (b & st2 & H2 & H). apply ret_some in H as [_ <-].
        eapply grows_trans; [by eapply Hs|by eapply IH]. }
    destruct (Hl _ _ _ H2) as [G1 G2 G3 G4 G5]. cbn in *. unfold close_block in H3. destruct (env st2) as [|bl E]; [done|]. cbn in G4. subst E.
    injection H3 as _ <-. split; [by split; cbn|]. done.
  - done.
  - cbn [TranslateModel.tr_s] in H. apply bnd_some in H as (n & st1 & H1 & H). apply bnd_some in H as (i & st2 & H2 & H). apply ret_some in H as [_ <-].
    assert (stays st st2) as Hs. { eapply stays_trans; [by eapply expression_size_stays|by eapply tr_e_stays]. }
    split; [by apply stays_grows|]. intros _ _. by destruct Hs.
  - cbn [TranslateModel.tr_s] in H. apply bnd_some in H as (i & st2 & H2 & H). apply ret_some in H as [_ <-]. apply tr_logs_stays in H2 as Hs.
    split; [by apply stays_grows|]. intros _ _. by destruct Hs.
  - cbn [TranslateModel.tr_s] in H. apply bnd_some in H as (i & st2 & H2 & H). apply ret_some in H as [_ <-]. apply tr_e_stays in H2 as Hs.
    split; [by apply stays_grows|]. intros _ _. by destruct Hs.
Qed.

(** ** Assignments *)
Lemma processed_sim x acc st s st' σ m : process sigs x acc st = Some (s, st') -> consts st' `prefix_of` table -> mrel σ (env st) m ->
  fits_accesses W toint σ acc ->
  p_name s = x /\ lookup (env st) x = Some (p_info s) /\ p_length s = elements (drop (length acc) (s_dims (p_info s))) /\
  exists v, look σ x = Some v /\ entry m x v (p_info s) /\
  forall st2 a, consts st' `prefix_of` consts st2 -> full_address (p_info s) (p_indexes s) st2 = Some (a, st2) ->
  match path W σ acc with
  | SugarSpec.Ok p => forall slot, select v p = SugarSpec.Ok slot ->
      exists ixs, length ixs = length acc /\ p = (fun i => At (Z.of_nat i)) <$> ixs /\
        den_a w m a = Some (Z.of_nat (s_addr (p_info s)) + Z.of_nat (offset (s_dims (p_info s)) ixs))%Z
  | SugarSpec.Fail => den_a w m a = None
  | SugarSpec.Ill => True
  end.
Proof.
  intros H Hp Hm Hf. eapply (address_sim W w sigs table acc); [|exact H|done|done|done].
  clear -HL outs. induction acc as [|[e|f] acc IH]; constructor; try done. cbn. by apply (tr_e_sim W w sigs outs fid table HL).
Qed.
Lemma eval_numeric e st i st' σ m v : tr_e e st = Some (i, st') -> consts st' `prefix_of` table ->
  mrel σ (env st) m -> fits W toint σ e -> eval W σ None e = SugarSpec.Ok v -> numeric v.
Proof. intros H1 H2 H3 H4 H5. pose proof (eval_sim W w sigs outs fid table HL e st i st' σ m H1 H2 H3 H4) as H. rewrite H5 in H. apply H. Qed.
Lemma ixs_inj (a b : list nat) : ((fun i => At (Z.of_nat i)) <$> a) = ((fun i => At (Z.of_nat i)) <$> b) -> a = b.
Proof.
  revert b. induction a as [|ix ixs IH]; intros [|iy ixs'] Hk; try done. cbn in Hk. injection Hk as H1 H2.
  apply Nat2Z.inj in H1 as ->. by rewrite (IH _ H2).
Qed.
Lemma size_sim e st n st' σ m v : expression_size sigs e st = Some (n, st') -> consts st' `prefix_of` table ->
  mrel σ (env st) m -> fits W toint σ e -> eval W σ None e = SugarSpec.Ok v -> n = length (contents v).
Proof.
  intros H Hp Hm Hf He. destruct e; cbn [expression_size] in H; try done.
  - apply ret_some in H as [<- _]. cbn in He. by injection He as <-.
  - apply bnd_some in H as (s & st1 & H1 & H). apply ret_some in H as [<- <-]. apply (fits_var W w sigs outs) in Hf as [Hf Hr].
    destruct (processed_sim _ _ _ _ _ σ m H1 Hp Hm Hf) as (_ & _ & -> & u & Hl & (Ha & _) & _).
    rewrite SugarProofs.eval_var, Hl in He. destruct (path W σ acc) as [p| |] eqn:Ep; cbn in He; try done.
    destruct (select u p) as [slot| |] eqn:Es; cbn in He; try done. unfold shaped in He. case_match; [|done]. injection He as <-.
    destruct (locate _ _ _ _ Ha Es) as (ixs & pre & post & -> & Hsl & _). rewrite (array_length _ _ Hsl).
    apply SugarProofs.all_length in Ep. rewrite !fmap_length in Ep. by rewrite Ep.
  - apply ret_some in H as [<- _]. cbn in He. destruct (eval W σ None e) as [[]| |]; cbn in He; try done. destruct (den1 W o z); cbn in He; [|done]. by injection He as <-.
  - apply ret_some in H as [<- _]. cbn in He. destruct (eval W σ None e1) as [[]| |], (eval W σ None e2) as [[]| |]; cbn in He; try done.
    destruct (den2 W o z z0); cbn in He; [|done]. by injection He as <-.
Qed.
Lemma args_sim l : forall st r st' σ m, tr_args sigs l st = Some (r, st') -> consts st' `prefix_of` table -> mrel σ (env st) m ->
  Forall (fits W toint σ) l ->
  match evals W σ l with
  | SugarSpec.Ok vs => mapM (fun x : fexpr * nat => den_cells w m x.1 x.2) r = Some (contents <$> vs)
  | SugarSpec.Fail => mapM (fun x : fexpr * nat => den_cells w m x.1 x.2) r = None
  | SugarSpec.Ill => True
  end.
Proof.
  induction l as [|e l IH]; intros st r st' σ m H Hp Hm Hf; cbn [tr_args] in H.
  - apply ret_some in H as [<- _]. done.
  - apply bnd_some in H as (i & st1 & H1 & H). apply bnd_some in H as (r' & st2 & H2 & H). apply ret_some in H as [<- <-].
    apply Forall_cons in Hf as [Hf1 Hf2]. pose proof (tr_e_stays sigs _ _ _ _ H1) as Hs1. pose proof (tr_args_stays _ _ _ _ H2) as Hs2.
    assert (consts st1 `prefix_of` table) as Hp1 by (etrans; [apply Hs2|done]).
    assert (mrel σ (env st1) m) as Hm1 by (by rewrite (y_env _ _ Hs1)).
    specialize (IH _ _ _ σ m H2 Hp Hm1 Hf2). pose proof (eval_sim W w sigs outs fid table HL e st i st1 σ m H1 Hp1 Hm Hf1) as He.
    unfold evals in *. cbn [fmap list_fmap all]. unfold res_rel in He.
    assert (forall v, eval W σ None e = SugarSpec.Ok v -> den_cells w m i (size_of (SugarModel.dims_of e)) = Some (contents v)) as Hcell.
    { intros v Hv. rewrite Hv in He. destruct He as (Hnum & s & Hs & Hc). unfold den_cells. rewrite Hs. cbn. f_equal.
      assert (length (contents v) = size_of (SugarModel.dims_of e)) as Hlen.
      { rewrite size_of_elements. destruct e; cbn [TranslateModel.tr_e] in H1; try done; cbn [SugarModel.dims_of].
        - cbn in Hv. by injection Hv as <-.
        - apply array_length. split; [|done]. apply (SugarProofs.eval_shape W σ (Var ds x acc)); [eauto|done].
        - cbn in Hv. destruct (eval W σ None e) as [[]| |]; cbn in Hv; try done. destruct (den1 W o z); cbn in Hv; [|done]. by injection Hv as <-.
        - cbn in Hv. destruct (eval W σ None e1) as [[]| |], (eval W σ None e2) as [[]| |]; cbn in Hv; try done.
          destruct (den2 W o z z0); cbn in Hv; [|done]. by injection Hv as <-. }
      rewrite <- Hlen. apply list_eq. intros k. rewrite list_lookup_fmap. destruct (contents v !! k) as [z|] eqn:Ek.
      - pose proof (lookup_lt_Some _ _ _ Ek) as Hk. rewrite lookup_seq_lt by done. cbn. f_equal. by apply Hc.
      - apply lookup_ge_None in Ek. rewrite lookup_seq_ge by done. done. }
    destruct (eval W σ None e) as [v| |] eqn:Ee.
    + rewrite (Hcell v eq_refl) || idtac. cbn. rewrite (Hcell v eq_refl). cbn.
      destruct (all (eval W σ None <$> l)) as [vs| |]; cbn; try done; by rewrite IH.
    + cbn. assert (den_cells w m i (size_of (SugarModel.dims_of e)) = None) as -> by (unfold den_cells; by rewrite He).
      destruct (all (eval W σ None <$> l)); done.
    + done.
Qed.

Lemma den_dest_if m x a o : den_dest w m (if sigs x then DSig a o else DVar a) =
  (z ← den_a w m a; Some (if sigs x then LSig (m_base m + z) else LVar z)).
Proof. by destruct (sigs x). Qed.
Lemma store_core x acc st s st1 st3 d σ top m :
  process sigs x acc st = Some (s, st1) -> consts st1 `prefix_of` consts st3 -> consts st3 `prefix_of` table ->
  destination sigs outs s st3 = Some (d, st3) -> inv σ (env st) top m -> fits_accesses W toint σ acc ->
  match path W σ acc with
  | SugarSpec.Ok p => forall old v new σ', look σ x = Some old -> update old p v = SugarSpec.Ok new -> store σ x new = Some σ' ->
      numeric v -> (forall slot, select old p = SugarSpec.Ok slot -> rows_match v slot) ->
      length (contents v) <= p_length s /\ exists loc, den_dest w m d = Some loc /\
      forall k, length (contents v) <= k <= p_length s -> exists m', after_store w parallel sanity d k m (write m loc (contents v)) = Some m' /\ inv σ' (env st) top m' /\ changed m m' []
  | SugarSpec.Fail => den_dest w m d = None
  | SugarSpec.Ill => True
  end.
Proof.
  intros H1 Hp13 Hp3 Hd Hinv Hf. assert (consts st1 `prefix_of` table) as Hp1 by (by etrans).
  destruct (processed_sim _ _ _ _ _ σ m H1 Hp1 (v_rel _ _ _ _ Hinv) Hf) as (Hn & Hl & Hlen & old & Hlook & He & Ha).
  apply bnd_some in Hd as (a & st4 & Hfa & Hd). apply ret_some in Hd as [<- ->]. rewrite Hn. specialize (Ha _ _ Hp13 Hfa).
  destruct (path W σ acc) as [p| |] eqn:Ep; [|by rewrite den_dest_if, Ha|done].
  intros old' v new σ' Hl' Hu Hst Hnum Hrows. rewrite Hlook in Hl'. injection Hl' as <-.
  destruct (update_select _ _ _ _ Hu) as [slot Hsl]. specialize (Hrows slot Hsl). destruct (Ha slot Hsl) as (ixs & Hix & Hpx & Hden).
  pose proof He as (Harr & Hsz & Hcells).
  destruct (locate _ _ _ _ Harr Hsl) as (ixs' & pre & post & Hpx' & Hsarr & Hcold & Hpre & _ & Hup).
  assert (ixs' = ixs) as -> by (apply ixs_inj; congruence).
  destruct (Hup v new Hu) as (slot' & Hov & Hnew). destruct (overlay_rows _ _ _ _ Hsarr Hnum Hrows Hov) as [Hs'arr Hs'c].
  destruct (Hnew Hs'arr) as [Hnarr Hnc].
  assert (length (contents v) <= length (contents slot)) as Hvl.
  { pose proof (array_length _ _ Hs'arr) as L1. pose proof (array_length _ _ Hsarr) as L2. rewrite Hs'c, app_length, drop_length in L1. lia. }
  assert (length (contents slot) = p_length s) as Hpl by (by rewrite (array_length _ _ Hsarr), Hlen, Hix).
  split; [lia|]. rewrite den_dest_if, Hden. eexists. split; [reflexivity|]. cbn [mbind option_bind].
  set (A := (Z.of_nat (s_addr (p_info s)) + Z.of_nat (offset (s_dims (p_info s)) ixs))%Z) in *.
  set (m1 := write m (if sigs x then LSig (m_base m + A) else LVar A) (contents v)).
  assert (length pre + length (contents slot) <= s_size (p_info s)) as Hbound.
  { rewrite Hsz, <- (array_length _ _ Harr), Hcold, !app_length. lia. }
  assert (inv σ' (env st) top m1) as Hi1.
  { eapply store_inv; [done|done|exact Hl|done| |].
    - intros k z Hk. rewrite Hnc, Hs'c in Hk. destruct (decide (length pre <= k < length pre + length (contents v))) as [Hin|Hout].
      + rewrite lookup_app_r in Hk by lia. rewrite <- app_assoc in Hk. rewrite lookup_app_l in Hk by lia.
        pose proof (write_in m x A (contents v) _ _ Hk) as Hw. fold m1 in Hw. rewrite <- Hw. f_equal. unfold A. lia.
      + unfold m1. rewrite write_out by (right; unfold A; lia). apply Hcells. rewrite Hcold.
        destruct (decide (k < length pre)) as [Hkp|Hkp].
        * rewrite lookup_app_l in Hk |- * by lia. done.
        * rewrite lookup_app_r in Hk |- * by lia. rewrite <- app_assoc, lookup_app_r in Hk by lia.
          rewrite <- (take_drop (length (contents v)) (contents slot)) at 1. rewrite <- app_assoc.
          rewrite lookup_app_r by (rewrite take_length; lia). rewrite take_length, Nat.min_l by lia. done.
    - intros b z Hz. unfold m1. apply write_out. destruct Hz as [Hz|Hz]; [by left|right]. unfold A. lia. }
  destruct (lookup_at _ _ _ Hl) as (kk & bl & Hk1 & Hk2).
  pose proof (proj1 (v_sep _ _ _ _ Hinv) kk bl x (p_info s) Hk1 Hk2) as [Hb Hio].
  pose proof (v_top _ _ _ _ Hinv) as Ht.
  assert (forall l, (if sigs x then (forall z, z ∈ l -> parallel = true /\ isout z) /\
      (parallel = true -> outs x = true -> forall z, (A <= z < A + Z.of_nat (length (contents v)))%Z -> z ∈ l) else l = []) ->
    changed m (mark m1 l) []) as Hc1.
  { intros l Hml. unfold m1. destruct (sigs x); split; try done.
    - intros z Hz. cbn. apply IrProofs.upds_out. unfold A. lia.
    - exists []. split; [constructor|]. cbn. by rewrite app_nil_r.
    - exists l. destruct Hml as [M1 M2]. split; [done|]. split; [done|]. intros Hpar z Hz Hne. cbn in Hne.
      assert (A <= z < A + Z.of_nat (length (contents v)))%Z as Hin.
      { destruct (decide (A <= z < A + Z.of_nat (length (contents v)))%Z) as [|Hnin]; [done|]. exfalso. apply Hne. apply IrProofs.upds_out. lia. }
      apply M2; [done| |done]. apply (Hio eq_refl z); [|done]. unfold A in Hin. lia.
    - intros z Hz. cbn. apply IrProofs.upds_out. unfold A. lia.
    - exists []. split; [constructor|]. cbn. by rewrite app_nil_r.
    - subst l. by apply set_refl; [cbn; rewrite app_nil_r|]. }
  intros k Hk.
  assert (forall l, inv σ' (env st) top (mark m1 l)) as Hmark.
  { intros l. destruct Hi1 as [R1 S1 T1]. split; [|done|done]. eapply mrel_same; [|exact R1]. by intros [] z. }
  assert (mark m1 [] = m1) as Hm1 by (destruct m1; unfold mark; cbn; by rewrite app_nil_r).
  destruct (sigs x) eqn:Esx; cbn [after_store].
  - destruct (parallel && outs x) eqn:Epo.
    + apply andb_prop in Epo as [Ep1 Eo1]. rewrite Hden. cbn [mbind option_bind]. eexists. split; [reflexivity|]. split; [apply Hmark|]. apply Hc1. split.
      * intros z Hz. split; [done|]. unfold positions in Hz. apply elem_of_list_fmap in Hz as (q & -> & Hq). apply elem_of_seq in Hq. apply (Hio eq_refl); [|done]. fold A. lia.
      * intros _ _ z Hz. unfold positions. apply elem_of_list_fmap. exists (Z.to_nat (z - A)). fold A. split; [lia|]. apply elem_of_seq. lia.
    + exists m1. split; [done|]. split; [done|]. rewrite <- Hm1. apply Hc1. split; [intros z Hz; by apply elem_of_nil in Hz|].
      intros -> Ho. by rewrite Ho in Epo.
  - exists m1. split; [done|]. split; [done|]. rewrite <- Hm1. by apply Hc1.
Qed.
Lemma assign_sim n x acc op rhe st code st' σ top m : tr_s (Assign x acc op rhe) st = Some (code, st') -> consts st' `prefix_of` table ->
  inv σ (env st) top m -> safe W sigs toint n (Assign x acc op rhe) σ ->
  outcome_rel (SugarSpec.exec W n (Assign x acc op rhe) σ) code m (fun σ' m' => inv σ' (env st) top m').
Proof.
  intros H Hp Hinv (Hfr & Hfa & Hrange & Hrows). cbn [TranslateModel.tr_s] in H. apply bnd_some in H as (s & st1 & H1 & H).
  pose proof (process_stays _ _ _ _ _ _ H1) as Hs1.
  pose proof (v_rel _ _ _ _ Hinv) as Hm.
  assert (mrel σ (env st1) m) as Hm1 by (by rewrite (y_env _ _ Hs1)).
  assert (exists d st3, destination sigs outs s st3 = Some (d, st3) /\ consts st1 `prefix_of` consts st3 /\ consts st3 `prefix_of` table /\
    match eval W σ None rhe with
    | SugarSpec.Ok v => numeric v /\ (length (contents v) <= p_length s -> exists k, length (contents v) <= k <= p_length s /\ forall loc m', den_dest w m d = Some loc ->
        after_store w parallel sanity d k m (write m loc (contents v)) = Some m' -> runs code m m' None)
    | SugarSpec.Fail => aborts code m
    | SugarSpec.Ill => True
    end /\ (den_dest w m d = None -> eval W σ None rhe <> SugarSpec.Ill -> aborts code m)) as (d & st3 & Hd & P1 & P3 & Hrun & Hno).
  { assert ((exists ds f args, rhe = Call ds f args) \/
      (let! n := expression_size sigs rhe in let! i := tr_e rhe in let! d := destination sigs outs s in ret [SStore d (p_length s) n i]) st1 = Some (code, st')) as [(ds & f & args & ->)|H'].
    { destruct rhe; eauto. }
    - apply bnd_some in H as (l & st2 & H2 & H). apply bnd_some in H as (d & st3 & H3 & H). apply ret_some in H as [<- <-].
      pose proof (destination_same _ _ _ _ _ _ H3) as ->. pose proof (tr_args_stays _ _ _ _ H2) as Hs2. exists d, st2.
      split; [done|]. split; [apply Hs2|]. split; [done|].
      assert (Forall (fits W toint σ) args) as Hargs.
      { clear -Hfr. induction args as [|e args IH]; constructor; destruct Hfr as [? ?]; auto. }
      pose proof (args_sim args st1 l st2 σ m H2 Hp Hm1 Hargs) as Hvs. rewrite SugarProofs.eval_call. split.
      + destruct (evals W σ args) as [vs| |]; cbn [mbind SugarSpec.R_bind]; [| |done].
        * pose proof (l_call _ _ _ _ HL f vs) as Hc. destruct (call W f vs) as [v|] eqn:Ec; cbn [or_fail mbind SugarSpec.R_bind].
          -- unfold shaped. destruct (has_shape _ v); [|done]. split; [apply (Hc 0)|]. intros Hlen. exists (p_length s). split; [lia|]. intros loc m' Hloc Hst.
             apply runs_simple; [done|]. cbn [exec_simple]. rewrite Hvs. cbn [mbind option_bind]. rewrite Hloc. cbn [mbind option_bind].
             rewrite (proj2 (Hc (p_length s))). cbn [mbind option_bind]. rewrite take_ge by done. rewrite Hst. done.
          -- apply aborts_simple; [done|]. cbn [exec_simple]. rewrite Hvs. cbn [mbind option_bind]. rewrite Hc. by destruct (den_dest w m d).
        * apply aborts_simple; [done|]. cbn [exec_simple]. by rewrite Hvs.
      + intros Hnone Hne. apply aborts_simple; [done|]. cbn [exec_simple]. rewrite Hnone. by destruct (mapM _ l).
    - apply bnd_some in H' as (k & st2 & H2 & H'). apply bnd_some in H' as (i & st3 & H3 & H'). apply bnd_some in H' as (d & st4 & H4 & H'). apply ret_some in H' as [<- <-].
      pose proof (destination_same _ _ _ _ _ _ H4) as ->. pose proof (expression_size_stays _ _ _ _ _ H2) as Hs2. pose proof (tr_e_stays _ _ _ _ _ H3) as Hs3.
      exists d, st3. split; [done|]. split; [etrans; [apply Hs2|apply Hs3]|]. split; [done|].
      assert (mrel σ (env st2) m) as Hm2 by (by rewrite (y_env _ _ Hs2)).
      assert (consts st2 `prefix_of` table) as Hp2 by (etrans; [apply Hs3|done]).
      pose proof (eval_sim W w sigs outs fid table HL rhe st2 i st3 σ m H3 Hp Hm2 Hfr) as He.
      pose proof (fun v => size_sim rhe st1 k st2 σ m v H2 Hp2 Hm1 Hfr) as Hsize. split.
      + destruct (eval W σ None rhe) as [v| |]; [| |done].
        * destruct He as (Hnum & sr & Hsr & Hc). split; [done|]. intros Hlen. exists (p_length s `min` k). split; [rewrite (Hsize v eq_refl); lia|]. intros loc m' Hloc Hst.
          apply runs_simple; [done|]. cbn [exec_simple]. cbv zeta. rewrite Hloc. cbn [mbind option_bind]. unfold den_cells. rewrite Hsr. cbn [mbind option_bind].
          rewrite (Hsize v eq_refl) in Hst |- *. rewrite Nat.min_r in Hst |- * by done.
          assert (src_cell w m sr <$> seq 0 (length (contents v)) = contents v) as Hcv.
          { apply list_eq. intros j. rewrite list_lookup_fmap. destruct (contents v !! j) as [z|] eqn:Ek.
            - pose proof (lookup_lt_Some _ _ _ Ek) as Hk. rewrite lookup_seq_lt by done. cbn. f_equal. by apply Hc.
            - apply lookup_ge_None in Ek. rewrite lookup_seq_ge by done. done. }
          rewrite Hcv, Hst. done.
        * apply aborts_simple; [done|]. cbn [exec_simple]. cbv zeta. unfold den_cells. cbn in He. rewrite He. by destruct (den_dest w m d).
      + intros Hnone Hne. apply aborts_simple; [done|]. cbn [exec_simple]. cbv zeta. by rewrite Hnone. }
  pose proof (store_core x acc st s st1 st3 d σ top m H1 P1 P3 Hd Hinv Hfa) as Hcore.
  cbn [SugarSpec.exec]. destruct (eval W σ None rhe) as [v| |] eqn:Ee; destruct (path W σ acc) as [p| |] eqn:Ep;
    cbn [both mbind SugarSpec.R_bind outcome_rel]; try done; try (by intros _; apply Hno).
  unfold in_range in Hrange. rewrite Ep in Hrange. destruct (look σ x) as [old|] eqn:El; cbn [or_ill mbind SugarSpec.R_bind outcome_rel]; [|done].
  destruct (update old p v) as [new| |] eqn:Eu; cbn [mbind SugarSpec.R_bind outcome_rel]; [| |done].
  2:{ apply update_fail in Eu. by destruct (Hrange p old eq_refl eq_refl). }
  destruct (store σ x new) as [σ'|] eqn:Es; cbn [or_ill mbind SugarSpec.R_bind outcome_rel]; [|done].
  intros _. destruct Hrun as [Hnum Hrun].
  destruct (Hcore old v new σ' eq_refl Eu Es Hnum) as (Hlen & loc & Hloc & Hafter).
  { intros slot Hs. by eapply Hrows. }
  destruct (Hrun Hlen) as (k & Hkb & Hk). destruct (Hafter k Hkb) as (m' & Hst & Hi' & Hc'). exists m'. split; [by eapply Hk|]. by split.
Qed.

(** ** The other statements without control flow *)
Lemma scalar_size e st i st' σ v : tr_e e st = Some (i, st') -> (forall ds x acc, e <> Var ds x acc) -> eval W σ None e = SugarSpec.Ok v -> exists z, v = Leaf z.
Proof.
  intros H Hn Hv. destruct e; cbn [TranslateModel.tr_e] in H; try done.
  - cbn in Hv. injection Hv as <-. eauto.
  - by destruct (Hn ds x acc).
  - cbn in Hv. destruct (eval W σ None e) as [[]| |]; cbn in Hv; try done. destruct (den1 W o z); cbn in Hv; [|done]. injection Hv as <-. eauto.
  - cbn in Hv. destruct (eval W σ None e1) as [[]| |], (eval W σ None e2) as [[]| |]; cbn in Hv; try done.
    destruct (den2 W o z z0); cbn in Hv; [|done]. injection Hv as <-. eauto.
Qed.
Lemma equal_sim n l r st code st' σ top m : tr_s (Equal l r) st = Some (code, st') -> consts st' `prefix_of` table ->
  inv σ (env st) top m -> safe W sigs toint n (Equal l r) σ ->
  outcome_rel (SugarSpec.exec W n (Equal l r) σ) code m (fun σ' m' => inv σ' (env st) top m').
Proof.
  intros H Hp Hinv [Hfl Hfr]. cbn [TranslateModel.tr_s] in H. apply bnd_some in H as (k & st1 & H1 & H). apply bnd_some in H as (i & st2 & H2 & H).
  apply bnd_some in H as (j & st3 & H3 & H). apply ret_some in H as [<- <-].
  pose proof (equal_size_stays _ _ _ _ H1) as Hs1. pose proof (tr_e_stays _ _ _ _ _ H2) as Hs2. pose proof (tr_e_stays _ _ _ _ _ H3) as Hs3.
  pose proof (v_rel _ _ _ _ Hinv) as Hm.
  assert (mrel σ (env st1) m) as Hm1 by (by rewrite (y_env _ _ Hs1)).
  assert (mrel σ (env st2) m) as Hm2 by (by rewrite (y_env _ _ Hs2)).
  assert (consts st2 `prefix_of` table) as Hp2 by (etrans; [apply Hs3|done]).
  assert (consts st1 `prefix_of` table) as Hp1 by (etrans; [apply Hs2|done]).
  pose proof (eval_sim W w sigs outs fid table HL l st1 i st2 σ m H2 Hp2 Hm1 Hfl) as El.
  pose proof (eval_sim W w sigs outs fid table HL r st2 j st3 σ m H3 Hp Hm2 Hfr) as Er.
  assert (forall v, eval W σ None r = SugarSpec.Ok v -> k = length (contents v)) as Hk.
  { intros v Hv. assert ((exists ds x acc, r = Var ds x acc) \/ (forall ds x acc, r <> Var ds x acc)) as [(ds & x & acc & ->)|Hn].
    { destruct r; eauto; right; congruence. }
    - by apply (size_sim (Var ds x acc) st k st1 σ m v).
    - destruct (scalar_size _ _ _ _ σ v H3 Hn Hv) as [z ->]. destruct r; try (apply ret_some in H1 as [<- _]; done). by destruct (Hn ds x acc). }
  unfold res_rel in *. cbn [SugarSpec.exec].
  assert (den_f w m i = None \/ den_f w m j = None -> 1 <= sanity -> aborts [SAssert true (FEq 0 k i j)] m) as Hno.
  { intros HD Hsan. apply aborts_simple; [done|]. cbn [exec_simple negb orb]. rewrite bool_decide_eq_true_2 by done. rewrite den_eq.
    destruct HD as [-> | ->]; [done|]. by destruct (den_f w m i). }
  destruct (eval W σ None l) as [v| |], (eval W σ None r) as [u| |]; cbn [both mbind SugarSpec.R_bind outcome_rel]; try done; try (intros; apply Hno; auto; fail).
  destruct El as (Nv & sl & Dl & Cl), Er as (Nu & sr & Dr & Cr). destruct (same_shape v u) eqn:Ess; [|done].
  destruct (compare_arrays v u Nv Nu Ess) as [Hlen Heq]. rewrite Heq.
  assert (forallb (fun q => w_eq w (src_cell w m sl q) (src_cell w m sr q)) (seq 0 k) = bool_decide (contents v = contents u)) as Hall.
  { rewrite (Hk u eq_refl). apply eq_bool_prop_intro. rewrite bool_decide_spec, forallb_True, Forall_forall. split.
    - intros Hq. apply list_eq. intros q. destruct (contents u !! q) as [z|] eqn:Eq.
      + pose proof (lookup_lt_Some _ _ _ Eq) as Hlt. specialize (Hq q ltac:(apply elem_of_seq; lia)). rewrite (l_same _ _ _ _ HL) in Hq.
        apply bool_decide_unpack in Hq. destruct (lookup_lt_is_Some_2 (contents v) q ltac:(lia)) as [y Ey].
        rewrite (Cl q y Ey), (Cr q z Eq) in Hq. congruence.
      + apply lookup_ge_None in Eq. apply lookup_ge_None. lia.
    - intros Ec q Hq. apply elem_of_seq in Hq. destruct (lookup_lt_is_Some_2 (contents u) q ltac:(lia)) as [y Ey].
      rewrite (l_same _ _ _ _ HL). apply bool_decide_pack. rewrite (Cr q y Ey). apply Cl. by rewrite Ec. }
  assert (exec_simple w parallel sanity rsize (SAssert true (FEq 0 k i j)) m =
    if bool_decide (1 <= sanity) then if bool_decide (contents v = contents u) then Some (m, None) else None else Some (m, None)) as Hex.
  { cbn [exec_simple negb orb]. destruct (bool_decide (1 <= sanity)); [|done]. rewrite den_eq, Dl. cbn [mbind option_bind]. rewrite Dr. cbn [mbind option_bind src_cell].
    by rewrite (l_bool _ _ _ _ HL), Hall. }
  destruct (bool_decide (contents v = contents u)); cbn [outcome_rel].
  - intros _. exists m. split; [|split; [done|apply changed_refl]]. apply runs_simple; [done|]. rewrite Hex. by destruct (bool_decide _).
  - intros Hsan. apply aborts_simple; [done|]. rewrite Hex. by rewrite bool_decide_eq_true_2.
Qed.
Lemma return_sim n e st code st' σ top m : tr_s (Return e) st = Some (code, st') -> consts st' `prefix_of` table ->
  inv σ (env st) top m -> safe W sigs toint n (Return e) σ ->
  outcome_rel (SugarSpec.exec W n (Return e) σ) code m (fun σ' m' => inv σ' (env st) top m').
Proof.
  intros H Hp Hinv Hf. cbn [TranslateModel.tr_s] in H. apply bnd_some in H as (k & st1 & H1 & H). apply bnd_some in H as (i & st2 & H2 & H).
  apply ret_some in H as [<- <-]. pose proof (expression_size_stays _ _ _ _ _ H1) as Hs1. pose proof (tr_e_stays _ _ _ _ _ H2) as Hs2.
  pose proof (v_rel _ _ _ _ Hinv) as Hm.
  assert (mrel σ (env st1) m) as Hm1 by (by rewrite (y_env _ _ Hs1)).
  assert (consts st1 `prefix_of` table) as Hp1 by (etrans; [apply Hs2|done]).
  pose proof (eval_sim W w sigs outs fid table HL e st1 i st2 σ m H2 Hp Hm1 Hf) as He.
  pose proof (fun v => size_sim e st k st1 σ m v H1 Hp1 Hm Hf) as Hsize. unfold res_rel in He. cbn [SugarSpec.exec].
  destruct (eval W σ None e) as [v| |]; cbn [mbind SugarSpec.R_bind outcome_rel]; [| |done].
  - intros _. exists m. split; [|split; [done|apply changed_refl]]. apply runs_simple; [done|]. cbn [exec_simple retv]. destruct He as (_ & s & Hs & Hc).
    unfold den_cells. rewrite Hs. cbn [mbind option_bind]. do 2 f_equal. f_equal. rewrite (Hsize v eq_refl). apply list_eq. intros q. rewrite list_lookup_fmap.
    destruct (decide (q < length (contents v) `min` rsize)) as [Hq|Hq].
    + rewrite lookup_seq_lt, lookup_take by lia. cbn. destruct (lookup_lt_is_Some_2 (contents v) q ltac:(lia)) as [y Ey]. rewrite Ey. f_equal. by apply Hc.
    + rewrite lookup_seq_ge by lia. symmetry. apply lookup_ge_None. rewrite take_length. lia.
  - intros _. apply aborts_simple; [done|]. cbn [exec_simple]. unfold den_cells. by rewrite He.
Qed.
Lemma cond_sim e st i st' σ m : tr_e e st = Some (i, st') -> consts st' `prefix_of` table -> mrel σ (env st) m -> fits W toint σ e ->
  match condition W σ e with
  | SugarSpec.Ok z => exists s, den_f w m i = Some s /\ w_true w (src_cell w m s 0) = bool_decide (z <> 0%Z)
  | SugarSpec.Fail => den_f w m i = None
  | SugarSpec.Ill => True
  end.
Proof.
  intros H Hp Hm Hf. pose proof (eval_sim W w sigs outs fid table HL e st i st' σ m H Hp Hm Hf) as He. unfold condition, res_rel in *.
  destruct (eval W σ None e) as [[z| |]| |]; cbn; try done. destruct He as (_ & s & Hs & Hc). exists s. split; [done|].
  rewrite (l_true _ _ _ _ HL). by rewrite (Hc 0 z).
Qed.
Lemma assert_sim n e st code st' σ top m : tr_s (Assert e) st = Some (code, st') -> consts st' `prefix_of` table ->
  inv σ (env st) top m -> safe W sigs toint n (Assert e) σ ->
  outcome_rel (SugarSpec.exec W n (Assert e) σ) code m (fun σ' m' => inv σ' (env st) top m').
Proof.
  intros H Hp Hinv Hf. cbn [TranslateModel.tr_s] in H. apply bnd_some in H as (i & st1 & H1 & H). apply ret_some in H as [<- <-].
  pose proof (cond_sim e st i st1 σ m H1 Hp (v_rel _ _ _ _ Hinv) Hf) as Hc. cbn [SugarSpec.exec].
  destruct (condition W σ e) as [z| |]; cbn [mbind SugarSpec.R_bind]; [| |done].
  - destruct Hc as (s & Hs & Ht). destruct (Z.eqb_spec z 0) as [->|Hz]; cbn [outcome_rel].
    + intros _. apply aborts_simple; [done|]. cbn [exec_simple negb orb]. rewrite Hs. cbn [mbind option_bind]. by rewrite Ht.
    + intros _. exists m. split; [|split; [done|apply changed_refl]]. apply runs_simple; [done|]. cbn [exec_simple negb orb]. rewrite Hs. cbn [mbind option_bind].
      rewrite Ht. by rewrite bool_decide_eq_true_2.
  - intros _. apply aborts_simple; [done|]. cbn [exec_simple negb orb]. by rewrite Hc.
Qed.
Lemma print_inv σ e top m x : inv σ e top m -> inv σ e top (print m x).
Proof. intros [R1 S1 T1]. split; [|done|done]. eapply mrel_same; [|exact R1]. by intros [] z. Qed.
Definition prints (m : mem Z) (t : list (Z + option nat)) : mem Z :=
  Mem (m_vars m) (m_sigs m) (m_base m) (m_start m) (m_tpl m) (m_count m) (m_set m) (m_log m ++ t).
Lemma prints_print m x t : prints (print m x) t = prints m (x :: t).
Proof. unfold prints, print. cbn. by rewrite <- app_assoc. Qed.
Lemma print_prints m t x : print (prints m t) x = prints m (t ++ [x]).
Proof. unfold prints, print. cbn. by rewrite <- app_assoc. Qed.
Lemma prints_nil m : prints m [] = m.
Proof. destruct m. unfold prints. cbn. by rewrite app_nil_r. Qed.
Lemma log_sim args : forall st l st' σ m, tr_logs sigs args st = Some (l, st') -> consts st' `prefix_of` table -> strings st' `prefix_of` stable ->
  mrel σ (env st) m ->
  Forall (fun a => match a with inl _ => True | inr e => fits W toint σ e /\ forall v, eval W σ None e = SugarSpec.Ok v -> exists z, v = Leaf z end) args ->
  match log_args W σ args with
  | SugarSpec.Ok t => exists o, exec_logs w l m = Some (prints m o) /\ shows stable t (o ++ [inr None])
  | SugarSpec.Fail => exec_logs w l m = None
  | SugarSpec.Ill => True
  end.
Proof.
  induction args as [|a args IH]; intros st l st' σ m H Hp Hps Hm Hf.
  - apply ret_some in H as [<- _]. cbn. exists []. rewrite prints_nil. split; [done|constructor].
  - assert (exists c l1 st1, l = c :: l1 /\ stays st st1 /\ tr_logs sigs args st1 = Some (l1, st') /\
      match a with inl s => exists k, c = LogStr k /\ strings st1 !! k = Some s | inr e => exists i, c = LogExp i /\ tr_e e st = Some (i, st1) end)
      as (c & l1 & st1 & -> & Hs1 & H2 & Ha).
    { destruct a as [s|e]; cbn in H; apply bnd_some in H as (i & st1 & H1 & H); apply bnd_some in H as (r' & st2 & H2 & H); apply ret_some in H as [<- <-].
      - apply sid_some in H1 as [? ?]. eauto 10.
      - pose proof (tr_e_stays _ _ _ _ _ H1). eauto 10. }
    pose proof (tr_logs_stays _ _ _ _ H2) as Hs2. apply Forall_cons in Hf as [Hfa Hf].
    assert (mrel σ (env st1) m) as Hm1 by (by rewrite (y_env _ _ Hs1)).
    assert (consts st1 `prefix_of` table) as Hp1 by (etrans; [apply Hs2|done]).
    assert (match a with inl s => SugarSpec.Ok (inl s) | inr e => v ← eval W σ None e; SugarSpec.Ok (inr v) end = SugarSpec.Ill \/
      (match a with inl s => SugarSpec.Ok (inl s) | inr e => v ← eval W σ None e; SugarSpec.Ok (inr v) end = SugarSpec.Fail /\ exec_logs w (c :: l1) m = None) \/
      exists x y, match a with inl s => SugarSpec.Ok (inl s) | inr e => v ← eval W σ None e; SugarSpec.Ok (inr v) end = SugarSpec.Ok x /\
        shows_arg stable x y /\ exec_logs w (c :: l1) m = exec_logs w l1 (match l1 with [] => print m y | _ => print (print m y) (inr None) end)) as Hone.
    { destruct a as [s|e].
      - destruct Ha as (k & -> & Hk). right; right. exists (inl s), (inr (Some k)). split; [done|]. split; [|done].
        constructor. eapply prefix_lookup; [exact Hk|]. etrans; [apply Hs2|done].
      - destruct Ha as (i & -> & Hi). destruct Hfa as [Hfa Hsc].
        pose proof (eval_sim W w sigs outs fid table HL e st i st1 σ m Hi Hp1 Hm Hfa) as He. unfold res_rel in He.
        destruct (eval W σ None e) as [v| |]; [| |by left].
        + destruct (Hsc v eq_refl) as [z ->]. destruct He as (_ & s & Hs & Hc). right; right. exists (inr (Leaf z)), (inl z). split; [done|].
          split; [constructor|]. cbn [exec_logs]. rewrite Hs. cbn [mbind option_bind]. by rewrite (Hc 0 z).
        + right; left. split; [done|]. cbn [exec_logs]. by rewrite He. }
    unfold log_args in *. cbn [fmap list_fmap all]. destruct Hone as [-> | [[-> HN]|(x & y & -> & Hxy & HX)]].
    { done. }
    { destruct (all _); done. }
    assert (mrel σ (env st1) (match l1 with [] => print m y | _ => print (print m y) (inr None) end)) as Hm1'.
    { eapply mrel_same; [|exact Hm1]. destruct l1; by intros [] z. }
    specialize (IH st1 l1 st' σ _ H2 Hp Hps Hm1' Hf). rewrite HX.
    destruct (all _) as [t| |] eqn:Eall; cbn [both mbind SugarSpec.R_bind]; [|done|done].
    destruct IH as (o & Ho & Hsh). destruct l1 as [|c1 l1].
    + assert (args = []) as ->.
      { destruct args as [|[s|e] args]; [done| |]; cbn in H2; apply bnd_some in H2 as (i & st2 & H1' & H2); apply bnd_some in H2 as (r' & st3 & H3 & H2); by apply ret_some in H2 as [? _]. }
      cbn in Eall. injection Eall as <-. cbn in Ho. injection Ho as Ho.
      assert (o = []) as -> by (destruct o; [done|]; apply (f_equal (@length _)) in Ho; rewrite !app_length in Ho; cbn in Ho; lia).
      exists [y]. cbn [exec_logs]. split; [f_equal; by rewrite <- prints_print, prints_nil|]. by constructor.
    + exists (y :: inr None :: o). rewrite Ho, !prints_print. split; [done|]. cbn [app].
      destruct t as [|b t].
      { apply SugarProofs.all_length in Eall. destruct args; [|done]. cbn in H2. by apply ret_some in H2 as [? _]. }
      by constructor.
Qed.
Lemma log_stmt_sim n args st code st' σ top m : tr_s (Log args) st = Some (code, st') -> consts st' `prefix_of` table -> strings st' `prefix_of` stable ->
  inv σ (env st) top m -> safe W sigs toint n (Log args) σ ->
  outcome_rel (SugarSpec.exec W n (Log args) σ) code m (fun σ' m' => inv σ' (env st) top m').
Proof.
  intros H Hp Hps Hinv Hf. cbn [TranslateModel.tr_s] in H. apply bnd_some in H as (l & st1 & H1 & H). apply ret_some in H as [<- <-].
  pose proof (log_sim args st l st1 σ m H1 Hp Hps (v_rel _ _ _ _ Hinv) Hf) as Hl. cbn [SugarSpec.exec].
  destruct (log_args W σ args) as [t| |]; cbn [mbind SugarSpec.R_bind outcome_rel]; [| |done].
  - intros _. destruct Hl as (o & Ho & Hs). exists (prints m (o ++ [inr None])). split.
    + apply runs_simple; [done|]. cbn [exec_simple retv]. rewrite Ho. cbn [mbind option_bind]. by rewrite print_prints.
    + split.
      * destruct Hinv as [R1 S1 T1]. split; [|done|done]. eapply mrel_same; [|exact R1]. by intros [] z.
      * split; try done; [|by apply set_refl]. exists (o ++ [inr None]). split; [|done]. rewrite <- (app_nil_r (o ++ [inr None])). by repeat constructor.
  - intros _. apply aborts_simple; [done|]. cbn [exec_simple]. by rewrite Hl.
Qed.

(** ** Conditions and loops *)
Lemma runs_branch i l1 l2 m m' r s : den_f w m i = Some s -> runs (if w_true w (src_cell w m s 0) then l1 else l2) m m' r -> runs [SBranch i l1 l2] m m' r.
Proof.
  intros Hs [F HF]. exists (S F). intros [|fuel] Hf; [lia|]. cbn. rewrite Hs. cbn. rewrite HF by lia. by destruct r.
Qed.
Lemma aborts_branch i l1 l2 m s : den_f w m i = Some s -> aborts (if w_true w (src_cell w m s 0) then l1 else l2) m -> aborts [SBranch i l1 l2] m.
Proof. intros Hs [F HF]. exists (S F). intros [|fuel] Hf; [lia|]. cbn. rewrite Hs. cbn. by rewrite HF by lia. Qed.
Lemma aborts_branch_none i l1 l2 m : den_f w m i = None -> aborts [SBranch i l1 l2] m.
Proof. intros Hs. exists 0. intros fuel Hf. cbn. destruct fuel; cbn; by rewrite Hs. Qed.
Lemma runs_loop_end i l m s : den_f w m i = Some s -> w_true w (src_cell w m s 0) = false -> runs [SLoop i l] m m None.
Proof. intros Hs Ht. exists 1. intros [|fuel] Hf; [lia|]. cbn. rewrite Hs. cbn. by rewrite Ht. Qed.
Lemma aborts_loop_none i l m : den_f w m i = None -> aborts [SLoop i l] m.
Proof. intros Hs. exists 0. intros fuel Hf. cbn. destruct fuel; cbn; by rewrite Hs. Qed.
Lemma runs_loop i l m m' r s : den_f w m i = Some s -> w_true w (src_cell w m s 0) = true -> runs (l ++ [SLoop i l]) m m' r -> runs [SLoop i l] m m' r.
Proof.
  intros Hs Ht [F HF]. exists (S F). intros [|fuel] Hf; [lia|]. specialize (HF fuel ltac:(lia)). rewrite xlist_app in HF. cbn [exec_list exec].
  rewrite Hs. cbn [lift res_bind]. rewrite Ht. destruct (xlist fuel l m) as [[m1 [q|]]| | |]; cbn [res_bind fst snd] in *; try done.
Qed.
Lemma aborts_loop i l m s : den_f w m i = Some s -> w_true w (src_cell w m s 0) = true -> aborts (l ++ [SLoop i l]) m -> aborts [SLoop i l] m.
Proof.
  intros Hs Ht [F HF]. exists (S F). intros [|fuel] Hf; [lia|]. specialize (HF fuel ltac:(lia)). rewrite xlist_app in HF. cbn [exec_list exec].
  rewrite Hs. cbn [lift res_bind]. rewrite Ht. destruct (xlist fuel l m) as [[m1 [q|]]| | |]; cbn [res_bind fst snd] in *; try done.
Qed.
Lemma outcome_branch o i l1 l2 m s P : den_f w m i = Some s -> outcome_rel o (if w_true w (src_cell w m s 0) then l1 else l2) m P ->
  outcome_rel o [SBranch i l1 l2] m P.
Proof.
  intros Hs H. destruct o as [[[σ t] r]| |]; cbn in *; [|intros Hn; eapply aborts_branch; eauto|done].
  intros Hr. destruct (H Hr) as (m' & R & HP). exists m'. split; [|done]. by eapply runs_branch.
Qed.
Lemma outcome_loop o i l m s P : den_f w m i = Some s -> w_true w (src_cell w m s 0) = true -> outcome_rel o (l ++ [SLoop i l]) m P ->
  outcome_rel o [SLoop i l] m P.
Proof.
  intros Hs Ht H. destruct o as [[[σ t] r]| |]; cbn in *; [|intros Hn; eapply aborts_loop; eauto|done].
  intros Hr. destruct (H Hr) as (m' & R & HP). exists m'. split; [|done]. by eapply runs_loop.
Qed.

(** ** Blocks *)
Definition safe_list (n : nat) : list SugarModel.stmt -> SugarSpec.state -> Prop :=
  fix go l σ := match l with
  | [] => True
  | s :: l => safe W sigs toint n s σ /\
    match s with
    | Decl x ds => forall b σ' v, σ = b :: σ' -> array ds v ->
        sequence (SugarSpec.exec W n) l (<[x := v]> b :: σ') = sequence (SugarSpec.exec W n) l (<[x := zeros ds]> b :: σ') /\
        go l (<[x := v]> b :: σ')
    | _ => forall σ' t, SugarSpec.exec W n s σ = SugarSpec.Ok (σ', t, Next) -> go l σ'
    end
  end.
Lemma safe_block n l σ : safe W sigs toint n (Block l) σ = safe_list n l (∅ :: σ).
Proof. done. Qed.
Lemma sep_tl e top : sep e top -> sep (tl e) top.
Proof.
  intros [H1 H2]. destruct e as [|bl e]; [done|]. split.
  - intros k b x i Hk. by apply (H1 (S k) b x i).
  - intros k1 b1 x1 i1 k2 b2 x2 i2 Hk1 Ha1 Hk2 Ha2 Hne. apply (H2 (S k1) b1 x1 i1 (S k2) b2 x2 i2 Hk1 Ha1 Hk2 Ha2). congruence.
Qed.
Lemma sep_decl bl e top x ds : sep (bl :: e) top -> sigs x = false ->
  sep (((x, Info top ds (size_of ds)) :: bl) :: e) (top + size_of ds).
Proof.
  intros [H1 H2] Hx.
  assert (forall k b y i, (((x, Info top ds (size_of ds)) :: bl) :: e) !! k = Some b -> assoc y b = Some i ->
    (k = 0 /\ y = x /\ i = Info top ds (size_of ds)) \/ exists b', (bl :: e) !! k = Some b' /\ assoc y b' = Some i /\ ((k, y) <> (0, x))) as Hc.
  { intros [|k] b y i Hk Ha; cbn in Hk.
    - injection Hk as <-. cbn in Ha. destruct (decide (y = x)) as [->|Hy]; [injection Ha as <-; by left|]. right. exists bl. split; [done|]. split; [done|congruence].
    - right. exists b. split; [done|]. split; [done|congruence]. }
  split.
  - intros k b y i Hk Ha. destruct (Hc _ _ _ _ Hk Ha) as [(_ & -> & ->)|(b' & Hb & Hb' & _)]; cbn; [rewrite Hx; split; [lia|done]|].
    destruct (H1 _ _ _ _ Hb Hb') as [? ?]. split; [destruct (sigs y); lia|done].
  - intros k1 b1 x1 i1 k2 b2 x2 i2 Hk1 Ha1 Hk2 Ha2 Hne Hs.
    destruct (Hc _ _ _ _ Hk1 Ha1) as [(-> & -> & ->)|(c1 & C1 & D1 & N1)], (Hc _ _ _ _ Hk2 Ha2) as [(-> & -> & ->)|(c2 & C2 & D2 & N2)].
    + done.
    + right. destruct (H1 _ _ _ _ C2 D2) as [Hb _]. rewrite <- Hs, Hx in Hb. cbn. lia.
    + left. destruct (H1 _ _ _ _ C1 D1) as [Hb _]. rewrite Hs, Hx in Hb. cbn. lia.
    + by apply (H2 _ _ _ _ _ _ _ _ C1 D1 C2 D2).
Qed.
Lemma mrel_decl σ b bl e m x v i : mrel (b :: σ) (bl :: e) m -> entry m x v i -> mrel (<[x := v]> b :: σ) (((x, i) :: bl) :: e) m.
Proof.
  intros H He. inversion_clear H as [|? ? ? ? Hb Hr]. constructor; [|done]. intros y. specialize (Hb y). cbn.
  destruct (decide (y = x)) as [->|Hy]; [by rewrite lookup_insert|by rewrite lookup_insert_ne by done].
Qed.
Lemma inv_decl σ b bl e top m x ds : inv (b :: σ) (bl :: e) top m -> sigs x = false -> top + size_of ds <= depth ->
  exists v, array ds v /\ inv (<[x := v]> b :: σ) (((x, Info top ds (size_of ds)) :: bl) :: e) (top + size_of ds) m.
Proof.
  intros [Hr Hs Ht] Hx Hd. destruct (array_of ds ((fun k => m_vars m (Z.of_nat top + Z.of_nat k)) <$> seq 0 (elements ds))) as (v & Hv & Hc).
  { by rewrite fmap_length, seq_length. }
  exists v. split; [done|]. split; [|by apply sep_decl|done]. apply mrel_decl; [done|]. split; [done|]. split; [apply size_of_elements|].
  intros k z Hk. rewrite Hc, list_lookup_fmap in Hk. apply fmap_Some in Hk as (j & Hj & ->). apply lookup_seq in Hj as [-> _]. unfold cell. by rewrite Hx.
Qed.
Definition ssim n (s : SugarModel.stmt) : Prop := forall st code st' σ m, tr_s s st = Some (code, st') ->
  consts st' `prefix_of` table -> strings st' `prefix_of` stable -> vmax st' <= depth -> bodies_ok s = true -> is_decl s = false ->
  inv σ (env st) (vstack st) m -> safe W sigs toint n s σ ->
  outcome_rel (SugarSpec.exec W n s σ) code m (fun σ' m' => inv σ' (env st) (vstack st) m').
Lemma list_grows l : forall st c st', tr_list tr_s l st = Some (c, st') -> grows st st'.
Proof.
  induction l as [|s l IH]; intros st c st' H; cbn in H.
  - apply ret_some in H as [_ <-]. apply grows_refl.
  - apply bnd_some in H as (a & st1 & H1 & H). apply bnd_some in H as (b & st2 & H2 & H). apply ret_some in H as [_ <-].
    eapply grows_trans; [by eapply tr_s_grows|by eapply IH].
Qed.
Lemma outcome_next o code m P : outcome_rel o code m P -> outcome_rel ('(σ2, t', r) ← o; SugarSpec.Ok (σ2, [] ++ t', r)) code m P.
Proof. by destruct o as [[[σ t] r]| |]. Qed.
Lemma list_sim n l (IH : Forall (ssim n) l) : forall st code st' σ m saved, tr_list tr_s l st = Some (code, st') ->
  consts st' `prefix_of` table -> strings st' `prefix_of` stable -> vmax st' <= depth -> Forall (fun s => bodies_ok s = true) l ->
  inv σ (env st) (vstack st) m -> sep (tl (env st)) saved -> saved <= depth -> safe_list n l σ ->
  outcome_rel (sequence (SugarSpec.exec W n) l σ) code m (fun σ' m' => inv (tl σ') (tl (env st)) saved m').
Proof.
  induction IH as [|s l Hs _ IHl]; intros st code st' σ m saved H Hp Hps Hd Hb Hinv Hsep Hsv Hsafe.
  - apply ret_some in H as [<- <-]. cbn. intros _. exists m. split; [apply runs_nil|]. split; [|apply changed_refl].
    destruct Hinv as [Hr _ _]. split; [|done|done]. inversion Hr; by try constructor.
  - cbn in H. apply bnd_some in H as (a & st1 & H1 & H). apply bnd_some in H as (c & st2 & H2 & H). apply ret_some in H as [<- <-].
    pose proof (list_grows _ _ _ _ H2) as G2. destruct (tr_s_grows _ _ _ _ H1) as [G1 K1]. apply Forall_cons in Hb as [Hb1 Hb2].
    assert (consts st1 `prefix_of` table) as Hp1 by (etrans; [apply G2|done]).
    assert (strings st1 `prefix_of` stable) as Hps1 by (etrans; [apply G2|done]).
    assert (vmax st1 <= depth) as Hd1 by (etrans; [apply G2|done]).
    destruct (is_decl s) eqn:Ed.
    + destruct s as [x ds| | | | | | | | |]; try done. destruct Hsafe as [Hx Hsafe]. cbn in Hx.
      cbn [TranslateModel.tr_s] in H1. apply bnd_some in H1 as (q & sta & Ha & H1). injection Ha as <- <-.
      apply bnd_some in H1 as (u & stb & Hbb & H1). apply ret_some in H1 as [<- <-]. unfold add_symbol in Hbb. cbn in Hbb.
      destruct (env st) as [|bl E] eqn:Ee; [done|]. cbn in Hbb. injection Hbb as _ <-.
      pose proof (Forall2_length _ _ _ (v_rel _ _ _ _ Hinv)) as Hlen. destruct σ as [|b σ]; [done|]. clear Hlen.
      destruct (inv_decl _ _ _ _ _ _ x ds Hinv Hx ltac:(cbn in Hd1; lia)) as (v & Hv & Hinv').
      destruct (Hsafe b σ v eq_refl Hv) as [Heq Hsafe'].
      cbn [sequence SugarSpec.exec andthen mbind SugarSpec.R_bind app]. fold (sequence (SugarSpec.exec W n)). rewrite <- Heq. apply outcome_next.
      exact (IHl _ _ _ _ _ saved H2 Hp Hps Hd Hb2 Hinv' Hsep Hsv Hsafe').
    + destruct (K1 Hb1 eq_refl) as [Ke Kv]. cbn [sequence]. fold (sequence (SugarSpec.exec W n)).
      eapply outcome_seq; [apply (Hs st a st1 σ m H1 Hp1 Hps1 Hd1 Hb1 Ed Hinv)| |].
      * destruct Hsafe. done.
      * intros σ' m' [Hr _ _]. split; [|done|done]. inversion Hr; by try constructor.
      * intros σ1 t m1 Ho Hi. cbn beta in Hi. rewrite <- Ke, <- Kv in Hi. rewrite <- Ke. apply (IHl st1 c st2 σ1 m1 saved); try done.
        -- by rewrite Ke.
        -- destruct Hsafe as [_ Hsafe]. destruct s; try done; by apply (Hsafe σ1 t).
Qed.

(** ** All statements *)
Theorem tr_s_sim n s : ssim n s.
Proof.
  induction s as [x ds|x acc op rhe|l r|cond t f IHt IHf|cond b IHb|l IHl|l IHl|e|args|e] using SugarStmtProofs.stmt_ind';
    intros st code st' σ m H Hp Hps Hd Hb Hn Hinv Hsafe.
  - done.
  - by eapply assign_sim.
  - by eapply equal_sim.
  - cbn [TranslateModel.tr_s] in H. apply bnd_some in H as (i & st1 & H1 & H). apply bnd_some in H as (l1 & st2 & H2 & H).
    apply bnd_some in H as (l2 & st3 & H3 & H). apply ret_some in H as [<- <-]. apply tr_e_stays in H1 as S1.
    destruct (tr_s_grows _ _ _ _ H2) as [G2 K2]. cbn [bodies_ok] in Hb. apply andb_prop in Hb as [Hb Hbf]. apply andb_prop in Hb as [Hb1 Hb2]. apply negb_true_iff in Hb1.
    destruct (K2 Hb2 Hb1) as [Ke2 Kv2].
    assert (grows st2 st3) as G3. { destruct f; [by eapply tr_s_grows|]. apply ret_some in H3 as [_ <-]. apply grows_refl. }
    assert (consts st2 `prefix_of` table) as Hp2 by (etrans; [apply G3|done]).
    assert (strings st2 `prefix_of` stable) as Hps2 by (etrans; [apply G3|done]).
    assert (vmax st2 <= depth) as Hd2 by (etrans; [apply G3|done]).
    assert (consts st1 `prefix_of` table) as Hp1 by (etrans; [apply G2|done]).
    destruct Hsafe as [Hfc Hsafe]. pose proof (cond_sim cond st i st1 σ m H1 Hp1 (v_rel _ _ _ _ Hinv) Hfc) as Hc.
    cbn [SugarSpec.exec]. destruct (condition W σ cond) as [z| |]; cbn [mbind SugarSpec.R_bind]; [|intros _; by apply aborts_branch_none|done].
    destruct Hc as (s & Hs & Ht). specialize (Hsafe z eq_refl). apply (outcome_branch _ _ _ _ _ s); [done|]. rewrite Ht.
    destruct S1 as [Se Sv _ _ _]. destruct (Z.eqb_spec z 0) as [->|Hz].
    + cbn. destruct f as [f|].
      * apply andb_prop in Hbf as [Hbf1 Hbf2]. apply negb_true_iff in Hbf1.
        assert (env st2 = env st /\ vstack st2 = vstack st) as [E V] by (split; congruence). rewrite <- E, <- V.
        apply (IHf st2 l2 st3 σ m); try done. by rewrite E, V.
      * apply ret_some in H3 as [<- _]. cbn. intros _. exists m. split; [apply runs_nil|]. split; [done|apply changed_refl].
    + rewrite bool_decide_eq_true_2 by done. rewrite bool_decide_eq_false_2 in Hsafe by done. rewrite <- Se, <- Sv.
      apply (IHt st1 l1 st2 σ m); try done. by rewrite Se, Sv.
  - cbn [TranslateModel.tr_s] in H. apply bnd_some in H as (i & st1 & H1 & H). apply bnd_some in H as (l1 & st2 & H2 & H).
    apply ret_some in H as [<- <-]. apply tr_e_stays in H1 as S1. destruct (tr_s_grows _ _ _ _ H2) as [G2 K2].
    cbn [bodies_ok] in Hb. apply andb_prop in Hb as [Hb1 Hb2]. apply negb_true_iff in Hb1.
    assert (consts st1 `prefix_of` table) as Hp1 by (etrans; [apply G2|done]). destruct S1 as [Se Sv _ _ _].
    cbn [SugarSpec.exec]. cbn [safe] in Hsafe. revert σ m Hinv Hsafe. generalize n at 3 4 as k.
    induction k as [|k IHk]; intros σ m Hinv Hsafe; [cbn; intros Hr; by destruct Hr|]. cbn [loop]. destruct Hsafe as [Hfc Hsafe].
    pose proof (cond_sim cond st i st1 σ m H1 Hp1 (v_rel _ _ _ _ Hinv) Hfc) as Hc.
    destruct (condition W σ cond) as [z| |]; cbn [mbind SugarSpec.R_bind]; [|intros _; by apply aborts_loop_none|done].
    destruct Hc as (s & Hs & Ht). destruct (Z.eqb_spec z 0) as [->|Hz].
    + intros _. exists m. split; [by eapply runs_loop_end|]. split; [done|apply changed_refl].
    + destruct (Hsafe z eq_refl Hz) as [Hsb Hnext]. eapply outcome_loop; [done|by rewrite Ht, bool_decide_eq_true_2|].
      eapply outcome_seq; [apply (IHb st1 l1 st2 σ m); try done; by rewrite Se, Sv| |].
      * intros σ' m'. by rewrite Se, Sv.
      * intros σ1 t m1 Ho Hi. rewrite Se, Sv in Hi. apply IHk; [done|by eapply Hnext].
  - cbn [TranslateModel.tr_s] in H. apply bnd_some in H as (sv & st1 & H1 & H). injection H1 as <- <-.
    apply bnd_some in H as (cl & st2 & H2 & H). apply bnd_some in H as (u & st3 & H3 & H). apply ret_some in H as [<- <-].
    unfold close_block in H3. destruct (env st2) as [|bl E] eqn:Ee; [done|]. injection H3 as _ <-. cbn in Hp, Hps, Hd. rewrite safe_block in Hsafe.
    assert (Forall (fun s => bodies_ok s = true) l) as Hbl.
    { clear -Hb. cbn [bodies_ok] in Hb. induction l as [|s l IH]; [done|]. apply andb_prop in Hb as [? ?]. constructor; auto. }
    pose proof (list_sim n l IHl _ _ _ (∅ :: σ) m (vstack st) H2 Hp Hps Hd Hbl) as Hl. cbn in Hl.
    cbn [SugarSpec.exec]. destruct Hinv as [Hr Hse Ht].
    assert (outcome_rel (sequence (SugarSpec.exec W n) l (∅ :: σ)) cl m (fun σ' m' => inv (tl σ') (env st) (vstack st) m')) as HO.
    { apply Hl; try done. split; [|split|done].
      - constructor; [|done]. intros x. by rewrite lookup_empty.
      - intros [|k] b x i Hk Ha; cbn in Hk; [injection Hk as <-; done|]. by apply (proj1 Hse k b x i).
      - intros [|k1] b1 x1 i1 [|k2] b2 x2 i2 Hk1 Ha1 Hk2 Ha2 Hne; cbn in Hk1, Hk2; try (injection Hk1 as <-; done); try (injection Hk2 as <-; done).
        apply (proj2 Hse k1 b1 x1 i1 k2 b2 x2 i2 Hk1 Ha1 Hk2 Ha2). congruence. }
    destruct (sequence (SugarSpec.exec W n) l (∅ :: σ)) as [[[[|b1 σ1] t] r]| |]; cbn in *; try done.
  - done.
  - by eapply return_sim.
  - by eapply log_stmt_sim.
  - by eapply assert_sim.
Qed.
End sim.
