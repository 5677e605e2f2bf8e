(** The filters keep the meaning of a template. *)
From stdpp Require Import prelude gmap list.
From Coq Require Import ZArith Znumtheory Lia.
From Verif Require Import ModArithModel ModArithProofs AlgebraModel AlgebraSpec AlgebraProofs TreeProofs
  SymModel SymSpec SymProofs SymRunProofs.
Open Scope Z_scope.

(** ** More depth does not hurt *)
Lemma ev_all_mono (P Q : expr -> Z -> list event -> Prop) l vs tr :
  (forall e v t, P e v t -> Q e v t) -> ev_all P l vs tr -> ev_all Q l vs tr.
Proof.
  intros H. revert vs tr. induction l as [|e l IH]; intros vs tr HP; cbn in *; [exact HP|].
  destruct HP as (v & ws & t1 & t2 & H1 & H2 & -> & ->). exists v, ws, t1, t2. auto.
Qed.
Lemma run_seq_mono M (P Q : env Z -> st M -> stmt -> list event -> option Z -> env Z -> st M -> Prop) E σ l tr r E' σ' :
  (forall E σ s t r E' σ', P E σ s t r E' σ' -> Q E σ s t r E' σ') ->
  run_seq M P E σ l tr r E' σ' -> run_seq M Q E σ l tr r E' σ'.
Proof.
  intros H. revert E σ tr. induction l as [|e l IH]; intros E σ tr HP; cbn in *; [exact HP|].
  destruct HP as (t1 & r1 & E1 & σ1 & H1 & HP). exists t1, r1, E1, σ1. split; [auto|].
  destruct r1; [exact HP|]. destruct HP as (t2 & H2 & ->). eauto.
Qed.
Section Fuel.
Context (p : Z) (wire : nat -> list Z -> option nat) (F : funs) (M : mode).
Notation ev := (ev p wire F M).
Notation run := (run p wire F M).
Notation run_seq := (run_seq M).
Lemma fuel_S n :
  (forall E σ e v tr, ev n E σ e v tr -> ev (S n) E σ e v tr) /\
  (forall E σ s tr r E' σ', run n E σ s tr r E' σ' -> run (S n) E σ s tr r E' σ').
Proof.
  induction n as [|n [IHe IHs]]; [split; intros; contradiction|].
  assert (LA : forall E σ l vs tr, ev_all (ev n E σ) l vs tr -> ev_all (ev (S n) E σ) l vs tr).
  { intros E σ l vs tr. apply ev_all_mono. intros; eauto. }
  assert (LS : forall E σ l tr r E' σ', run_seq (run n) E σ l tr r E' σ' -> run_seq (run (S n)) E σ l tr r E' σ').
  { intros E σ l tr r E' σ'. apply run_seq_mono. intros; eauto. }
  split.
  - intros E σ e v tr H. rewrite ev_S in H. rewrite ev_S. destruct e.
    + exact H.
    + destruct H as (is & c & H1 & H2). exists is, c. auto.
    + destruct H as (is & c & H1 & H2). exists is, c. auto.
    + destruct H as (x & y & t1 & t2 & H1 & H2 & H3). exists x, y, t1, t2. auto.
    + destruct H as (x & H1 & H2). exists x. auto.
    + destruct H as (b & t1 & t2 & H1 & H2 & H3). exists b, t1, t2. auto.
    + destruct H as (xs & body & vs & t1 & t2 & E' & H1 & H2 & H3 & H4 & H5). exists xs, body, vs, t1, t2, E'. auto 10.
  - intros E σ s tr r E' σ' H. rewrite run_S in H. rewrite run_S. destruct s.
    + auto.
    + destruct H as (ds & H1 & H2). exists ds. auto.
    + destruct H as (is & v & c & t1 & t2 & H1 & H2 & H3). exists is, v, c, t1, t2. auto.
    + destruct H as (is & v & c & t1 & t2 & H1 & H2 & H3). exists is, v, c, t1, t2. auto.
    + destruct H as (is & v & k & t1 & t2 & H1 & H2 & H3). exists is, v, k, t1, t2. auto.
    + destruct H as (x & y & t1 & t2 & H1 & H2 & H3). exists x, y, t1, t2. auto.
    + destruct H as (b & t1 & t2 & H1 & -> & H). exists b, t1, t2. split; [auto|]. split; [auto|].
      destruct (b =? 0); [destruct f; auto|auto].
    + destruct H as (b & t1 & t2 & H1 & -> & H). exists b, t1, t2. split; [auto|]. split; [auto|].
      destruct (b =? 0); [auto|]. destruct H as (t3 & r1 & E1 & σ1 & H2 & H). exists t3, r1, E1, σ1. split; [auto|].
      destruct r1; [auto|]. destruct H as (t4 & H3 & ->). exists t4. auto.
    + destruct H as (E1 & H & ->). exists E1. auto.
    + destruct H as (v & H & H'). exists v. auto.
    + destruct H as (v & t & H & H'). exists v, t. auto.
    + destruct H as (v & t & H & H'). exists v, t. auto.
Qed.
End Fuel.

(** ** Functions that say nothing *)
Section Quiet.
Context (p : Z) (wire : nat -> list Z -> option nat) (F : funs) (M : mode).
Definition mute (s : stmt) : bool := no_signal s && silent s.
Hypothesis HF : all_funs (all_stmt no_signal always) F.
Hypothesis HQ : all_funs (all_stmt silent always) F.
Notation ev := (ev p wire F M).
Notation run := (run p wire F M).
Notation run_seq := (run_seq M).
Notation sexpr := (sexpr p wire F).
Notation sstmt := (sstmt p wire F).
Lemma ev_all_quiet (P : expr -> Z -> list event -> Prop) l vs tr :
  (forall e v t, P e v t -> t = []) -> ev_all P l vs tr -> tr = [].
Proof.
  intros H. revert vs tr. induction l as [|e l IH]; intros vs tr HP; cbn in *; [tauto|].
  destruct HP as (v & ws & t1 & t2 & H1 & H2 & -> & ->). by rewrite (H _ _ _ H1), (IH _ _ H2).
Qed.
Lemma run_seq_quiet (R : env Z -> st M -> stmt -> list event -> option Z -> env Z -> st M -> Prop) l :
  (forall s, s ∈ l -> forall E σ t r E' σ', R E σ s t r E' σ' -> t = []) ->
  forall E σ tr r E' σ', run_seq R E σ l tr r E' σ' -> tr = [].
Proof.
  induction l as [|e l IH]; intros H E σ tr r E' σ' HP; cbn in *; [tauto|].
  destruct HP as (t1 & r1 & E1 & σ1 & H1 & HP). apply H in H1 as ->; [|left].
  destruct r1; [tauto|]. destruct HP as (t2 & H2 & ->). cbn. eapply IH; [|exact H2]. intros; eapply H; [|eauto]. by right.
Qed.
Lemma quiet n :
  (forall E σ e v tr, ev n E σ e v tr -> tr = []) /\
  (forall E σ s tr r E' σ', all_stmt no_signal always s = true -> all_stmt silent always s = true ->
     run n E σ s tr r E' σ' -> tr = []).
Proof.
  induction n as [|n [IHe IHs]]; [split; intros; contradiction|].
  assert (LA : forall E σ l vs tr, ev_all (ev n E σ) l vs tr -> tr = []).
  { intros E σ l vs tr. apply ev_all_quiet. intros; eauto. }
  assert (LS : forall E σ l tr r E' σ', forallb (all_stmt no_signal always) l = true -> forallb (all_stmt silent always) l = true ->
     run_seq (run n) E σ l tr r E' σ' -> tr = []).
  { intros E σ l tr r E' σ' W1 W2. apply run_seq_quiet. intros s Hs E0 σ0 t0 r0 E0' σ0'. apply IHs; eapply forallb_elem; eauto. }
  split.
  - intros E σ e v tr H. rewrite ev_S in H. destruct e.
    + tauto.
    + destruct H as (is & c & H1 & H2). eauto.
    + destruct H as (is & c & H1 & H2). eauto.
    + destruct H as (x & y & t1 & t2 & H1 & H2 & H3 & ->). by rewrite (IHe _ _ _ _ _ H1), (IHe _ _ _ _ _ H2).
    + destruct H as (x & H1 & H2). eauto.
    + destruct H as (b & t1 & t2 & H1 & H2 & ->). by rewrite (IHe _ _ _ _ _ H1), (IHe _ _ _ _ _ H2).
    + destruct H as (xs & body & vs & t1 & t2 & E' & H1 & H2 & H3 & H4 & ->).
      by rewrite (LA _ _ _ _ _ H2), (LS _ _ _ _ _ _ _ (HF _ _ _ H1) (HQ _ _ _ H1) H4).
  - intros E σ s tr r E' σ' W1 W2 H. rewrite run_S in H.
    destruct s; cbn [all_stmt no_signal silent andb] in W1, W2; try discriminate.
    + eauto.
    + destruct H as (ds & H1 & H2). eauto.
    + destruct H as (is & v & c & t1 & t2 & H1 & H2 & _ & _ & _ & -> & _). by rewrite (LA _ _ _ _ _ H1), (IHe _ _ _ _ _ H2).
    + destruct H as (is & v & c & t1 & t2 & H1 & H2 & _ & _ & _ & -> & _). by rewrite (LA _ _ _ _ _ H1), (IHe _ _ _ _ _ H2).
    + destruct H as (b & t1 & t2 & H1 & -> & H). rewrite (IHe _ _ _ _ _ H1).
      apply andb_prop in W1 as [W1 W1c]. apply andb_prop in W1 as [_ W1b].
      apply andb_prop in W2 as [W2 W2c]. apply andb_prop in W2 as [_ W2b].
      destruct (b =? 0); [destruct f|]; cbn; [eauto|tauto|eauto].
    + destruct H as (b & t1 & t2 & H1 & -> & H). rewrite (IHe _ _ _ _ _ H1). pose proof W1 as W1'. pose proof W2 as W2'.
      apply andb_prop in W1 as [_ W1]. apply andb_prop in W2 as [_ W2].
      destruct (b =? 0); cbn; [tauto|]. destruct H as (t3 & r1 & E1 & σ1 & H2 & H). apply IHs in H2 as ->; auto.
      destruct r1; [tauto|]. destruct H as (t4 & H3 & ->). apply (IHs _ _ (SWhile id c s)) in H3 as ->; auto.
    + destruct H as (E1 & H & ->). eauto.
    + destruct H as (v & H & H'). eauto.
Qed.

Lemma sseq_simp f E a l o : (forall s, s ∈ l -> forall E a o, f E a s = Some o -> o_simp o = true) ->
  sseq f E a l = Some o -> o_simp o = true.
Proof.
  revert E a o. induction l as [|s l IH]; intros E a o Hf H; cbn in H.
  - injection H as <-. done.
  - apply bind_Some in H as (o1 & H1 & H). pose proof (Hf s ltac:(left) _ _ _ H1) as S1. destruct (o_ret o1).
    + injection H as <-. done.
    + apply bind_Some in H as (o2 & H2 & H). injection H as <-. cbn. rewrite S1. cbn.
      eapply IH; [|exact H2]. intros; eapply Hf; [|eauto]. by right.
Qed.
Lemma scond_simp fe fs unk E a c t f o k :
  (forall unk E a o, fs unk E a t = Some o -> o_simp o = true) ->
  (forall s unk E a o, f = Some s -> fs unk E a s = Some o -> o_simp o = true) ->
  scond p fe fs unk E a c t f = Some (o, k) -> o_simp o = true.
Proof.
  intros Ht Hf H. unfold scond in H. apply bind_Some in H as ([v a1] & _ & H).
  destruct (bool_of v p) as [[]|].
  - apply bind_Some in H as (o1 & H1 & H). injection H as <- <-. eauto.
  - destruct f; [apply bind_Some in H as (o1 & H1 & H)|]; injection H as <- <-; eauto.
  - apply bind_Some in H as (o1 & H1 & H). destruct f.
    + apply bind_Some in H as (o2 & H2 & H). injection H as <- <-. cbn.
      by rewrite (Ht _ _ _ _ H1), (Hf _ _ _ _ _ eq_refl H2).
    + injection H as <- <-. eauto.
Qed.
Lemma simp n fn unk E a s o : all_stmt silent always s = true -> sstmt n fn unk E a s = Some o -> o_simp o = true.
Proof.
  revert fn unk E a s o. induction n as [|n IH]; intros fn unk E a s o W H; [discriminate|].
  rewrite sstmt_S in H. cbv zeta in H. revert H. generalize (reached (sid s) a). clear a. intros a H.
  destruct s; cbn [all_stmt silent andb] in W; try discriminate.
  - apply bind_Some in H as (o1 & H1 & H). injection H as <-. done.
  - bd H. destruct (access_of l); try discriminate. apply bind_Some in H as (E1 & _ & H). injection H as <-. done.
  - bd H. bd H. apply bind_Some in H as (c & Hc & H). destruct (access_of l); try discriminate.
    + injection H as <-. done.
    + apply bind_Some in H as (w & _ & H). injection H as <-. done.
  - bd H. bd H. apply bind_Some in H as (c & Hc & H). destruct (access_of l); try discriminate. cbv zeta in H.
    case_bool_decide; [|discriminate]. injection H as <-. done.
  - bd H. bd H. destruct fn; [discriminate|]. destruct (access_of l); try discriminate. apply bind_Some in H as (k & _ & H). destruct eq.
    + destruct unk; [discriminate|]. apply bind_Some in H as (d & _ & H). apply bind_Some in H as (c & _ & H).
      injection H as <-. done.
    + injection H as <-. done.
  - destruct (fn || unk); [discriminate|]. bd H. bd H. apply bind_Some in H as (d & _ & H).
    apply bind_Some in H as (c & _ & H). injection H as <-. done.
  - apply bind_Some in H as ([o1 k] & H1 & H). injection H as <-.
    apply andb_prop in W as [W Wc]. apply andb_prop in W as [_ Wb].
    eapply scond_simp; [| |exact H1]; [eauto|]. intros s0 u E0 a0 o0 ->. eauto.
  - pose proof W as W0. apply andb_prop in W as [_ W]. apply bind_Some in H as ([o1 k] & H1 & H).
    assert (S1 : o_simp o1 = true).
    { eapply scond_simp; [| |exact H1]; [eauto|]. intros; discriminate. }
    destruct k as [[]|].
    + destruct (o_ret o1); [injection H as <-; done|]. apply bind_Some in H as (o2 & H2 & H). injection H as <-. cbn.
      rewrite S1. cbn. exact (IH _ _ _ _ (SWhile id c s) _ W0 H2).
    + assert (o1 = o) as -> by (destruct (o_ret o1); congruence). done.
    + destruct (o_ret o1); [injection H as <-; done|]. apply bind_Some in H as ([o2 k2] & H2 & H). injection H as <-. done.
  - apply bind_Some in H as (o1 & H1 & H). injection H as <-. cbn. eapply sseq_simp; [|exact H1].
    intros s Hs E0 a0 o0 H0. eapply IH; [|exact H0]. eapply forallb_elem; eauto.
  - destruct fn; [|discriminate]. bd H. injection H as <-. done.
Qed.
End Quiet.

(** ** The filters *)
Section Filter.
Context (p : Z) (wire : nat -> list Z -> option nat) (F : funs) (M : mode) (A : analysis).
Hypothesis Hp : prime p.
Hypothesis Hp2 : 2 < p.
Hypothesis HF : good_funs p F.
Hypothesis HQ : all_funs (all_stmt silent always) F.
Hypothesis SA : a_stable A = true.
Hypothesis SK : forall e, e ∈ a_skipped A -> known_expr A e = e.
Notation ev := (ev p wire F M).
Notation run := (run p wire F M).
Notation run_seq := (run_seq M).
Notation sexpr := (sexpr p wire F).
Notation sstmt := (sstmt p wire F).
Notation I := (number p).
Notation K := (fun _ _ _ => True).

Lemma number_sound n : Pe p wire F M I n /\ Ps p wire F M I K n.
Proof.
  apply sound; auto.
  - intros v. repeat split.
  - intros z Hz. split; [done|]. split; [done|]. done.
  - intros z v (_ & Hz & ->). done.
  - intros op l r e x y v H1 H2 H3 H4. exact (number_infix p Hp Hp2 _ _ _ _ _ _ _ H1 H2 H3 H4).
  - intros op e x v H1 H2. exact (number_prefix p Hp Hp2 _ _ _ _ H1 H2).
  - intros σ k v _. repeat split.
Qed.

Lemma number_bool v x b : I v x -> bool_of v p = Some b -> (x =? 0) = negb b.
Proof. apply (I_bool p I Hp2). intros z w (_ & Hz & ->). done. Qed.
Lemma known_value id v a z : ale (computed id v a) A -> read_computed A id = Some z -> v = Number z.
Proof.
  intros (_ & H & _) R. specialize (H id). cbn in H. rewrite lookup_insert in H. unfold read_computed in R.
  destruct (a_computed A !! id) as [[y|]|]; try discriminate. injection R as ->.
  destruct (a_computed a !! id) as [[y|]|], v; cbn in H; try contradiction; try congruence.
  match goal with H : context [y =? ?w] |- _ => destruct (Z.eqb_spec y w) end; [congruence|contradiction].
Qed.
Lemma recorded n E a e v a' : sexpr n E a e = Some (v, a') -> exists a0, a' = computed (eid e) v a0.
Proof.
  destruct n; [discriminate|]. intros H. rewrite sexpr_S in H. destruct e as [id z|id x idx|id s idx|id op l r|id op e|id c t f|id f args]; cbn [eid].
  - injection H as <- <-. eauto.
  - bd H. destruct (access_of l); try discriminate; [injection H as <- <-; eauto|].
    apply bind_Some in H as (c & _ & H). apply bind_Some in H as (w & _ & H). injection H as <- <-. eauto.
  - bd H. destruct (access_of l); try discriminate; [injection H as <- <-; eauto|].
    apply bind_Some in H as (c & _ & H). injection H as <- <-. eauto.
  - bd H. bd H. apply bind_Some in H as (c & _ & H). injection H as <- <-. eauto.
  - bd H. injection H as <- <-. eauto.
  - bd H. destruct (bool_of a0 p).
    + bd H. injection H as <- <-. eauto.
    + injection H as <- <-. eauto.
  - bd H. apply bind_Some in H as ([xs body] & HFf & H). case_bool_decide; [|discriminate].
    apply bind_Some in H as (o & Ho & H). apply bind_Some in H as (w & Hw & H).
    assert (o_simp o = true) as Q.
    { eapply sseq_simp; [|exact Ho]. intros s Hs E0 a1 o0 Hs0. eapply (simp p wire F); [|exact Hs0].
      eapply forallb_elem; [exact (HQ _ _ _ HFf)|exact Hs]. }
    rewrite Q in H. injection H as <- <-. eauto.
Qed.
Lemma recorded_value n E a e v a' z : sexpr n E a e = Some (v, a') -> ale a' A ->
  read_computed A (eid e) = Some z -> v = Number z.
Proof. intros H L R. destruct (recorded _ _ _ _ _ _ H) as [a0 ->]. eapply known_value; eauto. Qed.

Definition Pk (n : nat) : Prop := forall E a e v a', sexpr n E a e = Some (v, a') -> ale a' A ->
  all_expr (reduced p) e = true -> forall C, rel_env I E C -> forall m σ x tr, ev m C σ e x tr ->
  ev m C σ (known_expr A e) x tr.
Lemma Pk_all n : Pk n -> forall E a l vs a', sall (sexpr n E) a l = Some (vs, a') -> ale a' A ->
  forallb (all_expr (reduced p)) l = true -> forall C, rel_env I E C -> forall m σ xs tr,
  ev_all (ev m C σ) l xs tr -> ev_all (ev m C σ) (known_expr A <$> l) xs tr.
Proof.
  intros HP E a l. revert a. induction l as [|e l IH]; intros a vs a' H L W C HC m σ xs tr He; cbn in H, He.
  - exact He.
  - apply bind_Some in H as ([v a1] & H1 & H). apply bind_Some in H as ([ws a2] & H2 & H). injection H as <- <-.
    destruct He as (x & ys & t1 & t2 & E1 & E2 & -> & ->). apply andb_prop in W as [W1 W2].
    exists x, ys, t1, t2. split; [|split; [|auto]].
    + eapply HP; eauto. eapply ale_trans; [|exact L].
      eapply (sall_le (sexpr n E)); [|exact H2]. intros; eapply exec_le; eauto.
    + eapply IH; eauto.
Qed.
Lemma ale_of_computed id v a : ale (computed id v a) A -> ale a A.
Proof. intros H. eapply ale_trans; [apply ale_computed|exact H]. Qed.

Lemma known_ok n : Pk n.
Proof.
  induction n as [|n IH]; [intros ?; intros; discriminate|].
  pose proof (Pk_all n IH) as LA.
  pose proof (fun E a e v a' => proj1 (exec_le p wire F n) E a e v a') as LE.
  intros E a e v a' H L W C HC m σ x tr He.
  destruct (read_computed A (eid e)) as [z|] eqn:R.
  { pose proof (recorded_value _ _ _ _ _ _ _ H L R) as ->.
    assert (known_expr A e = ENum (eid e) z) as -> by (destruct e; cbn [known_expr eid] in *; rewrite R; reflexivity).
    pose proof (proj1 (number_sound (S n)) _ _ _ _ _ H (stable_le _ _ L SA) W C HC m σ x tr He) as (_ & Hz & ->).
    pose proof (proj1 (quiet p wire F M (proj2 HF) HQ m) _ _ _ _ _ He) as ->.
    destruct m; [contradiction|]. rewrite ev_S. cbn in Hz. split; [|done]. symmetry. apply Z.mod_small. exact Hz. }
  destruct m as [|m]; [contradiction|]. rewrite ev_S in He. rewrite sexpr_S in H.
  destruct e as [id z|id y idx|id s idx|id op l r|id op e|id c t f|id f args]; cbn [known_expr eid] in *; rewrite R; rewrite ev_S;
    cbn [all_expr] in W; apply andb_prop in W as [_ W].
  - exact He.
  - bd H. destruct He as (is & c & H1 & H2). exists is, c. split; [|exact H2]. eapply LA; [exact Hx| |exact W|exact HC|exact H1].
    destruct (access_of l); try discriminate; [injection H as <- <-; by eapply ale_of_computed|].
    apply bind_Some in H as (? & _ & H). apply bind_Some in H as (w & _ & H). injection H as <- <-. by eapply ale_of_computed.
  - bd H. destruct He as (is & c & H1 & H2). exists is, c. split; [|exact H2]. eapply LA; [exact Hx| |exact W|exact HC|exact H1].
    destruct (access_of l); try discriminate; [injection H as <- <-; by eapply ale_of_computed|].
    apply bind_Some in H as (? & _ & H). injection H as <- <-. by eapply ale_of_computed.
  - bd H. bd H. apply bind_Some in H as (w & _ & H). injection H as <- <-. apply ale_of_computed in L.
    apply andb_prop in W as [W1 W2]. destruct He as (y & z & t1 & t2 & H1 & H2 & H3). exists y, z, t1, t2.
    split; [|split; [|exact H3]].
    + eapply IH; [exact Hx| |exact W1|exact HC|exact H1]. eapply ale_trans; [|exact L]. eapply LE; eauto.
    + eapply IH; [exact Hx0|exact L|exact W2|exact HC|exact H2].
  - bd H. injection H as <- <-. apply ale_of_computed in L. destruct He as (y & H1 & H2). exists y. split; [|exact H2].
    eapply IH; eauto.
  - bd H. apply andb_prop in W as [W W3]. apply andb_prop in W as [W1 W2].
    destruct He as (b & t1 & t2 & H1 & H2 & H3). exists b, t1, t2.
    destruct (bool_of a0 p) as [b0|] eqn:B.
    + bd H. injection H as <- <-. apply ale_of_computed in L.
      assert (ale a1 A) as L1 by (eapply ale_trans; [eapply LE; eauto|exact L]).
      pose proof (proj1 (number_sound n) _ _ _ _ _ Hx (stable_le _ _ L1 SA) W1 C HC _ _ _ _ H1) as Hv.
      assert ((b =? 0) = negb b0) as Eb by (by eapply number_bool).
      split; [eapply IH; eauto|]. split; [|exact H3].
      assert (known_expr A (if b =? 0 then f else t) = if b =? 0 then known_expr A f else known_expr A t) as <-
        by (by destruct (b =? 0)).
      eapply (IH E a1); [|exact L| |exact HC|exact H2].
      * rewrite Eb. by destruct b0.
      * by destruct (b =? 0).
    + injection H as <- <-. apply ale_of_computed in L.
      assert (ale a1 A) as L1 by (eapply ale_trans; [apply ale_skip|exact L]).
      split; [eapply IH; eauto|]. split; [|exact H3].
      destruct L as (_ & _ & L & _). cbn in L.
      rewrite (SK t), (SK f); [exact H2| |]; apply L; set_solver.
  - bd H. apply bind_Some in H as ([xs body] & HFf & H). case_bool_decide; [|discriminate].
    apply bind_Some in H as (o & Ho & H). apply bind_Some in H as (w & Hw & H).
    destruct He as (xs' & body' & vs & t1 & t2 & E' & H1 & H2 & H3). exists xs', body', vs, t1, t2, E'.
    split; [exact H1|]. split; [|exact H3]. eapply LA; [exact Hx| |exact W|exact HC|exact H2].
    assert (ale a0 (o_an o)) as L0.
    { eapply (sseq_le (sstmt n true false)); [|exact Ho]. intros; eapply exec_le; eauto. }
    eapply ale_trans; [exact L0|]. destruct (o_simp o); injection H as <- <-; [by eapply ale_of_computed|exact L].
Qed.

Lemma reached_twice id a : reached id (reached id a) = reached id a.
Proof. unfold reached. cbn. f_equal. set_solver. Qed.
Lemma reached_in n fn unk E a s o : sstmt n fn unk E a s = Some o -> ale (o_an o) A -> is_reached A (sid s) = true.
Proof.
  destruct n; [discriminate|]. intros H L.
  assert (sstmt (S n) fn unk E (reached (sid s) a) s = Some o) as H'.
  { rewrite sstmt_S in H |- *. cbv zeta in *. rewrite reached_twice. exact H. }
  apply exec_le in H'. destruct (ale_trans _ _ _ H' L) as (R & _). cbn in R. apply bool_decide_eq_true. set_solver.
Qed.

Definition idle (tr : list event) (r : option Z) (C C' : env Z) (σ σ' : st M) : Prop :=
  tr = [] /\ r = None /\ C' = C /\ σ' = σ.
Definition kept (m : nat) (C : env Z) (σ : st M) (s : stmt) (tr : list event) (r : option Z) (C' : env Z) (σ' : st M) : Prop :=
  run m C σ (filter_code p A s) tr r C' σ' /\ (snd (clean p A s) = true -> idle tr r C C' σ σ').
Definition Pt (n : nat) : Prop := forall unk E a s o, sstmt n false unk E a s = Some o -> ale (o_an o) A ->
  well_formed p s = true -> forall C, rel_env I E C -> forall m σ tr r C' σ', run m C σ s tr r C' σ' ->
  kept m C σ s tr r C' σ'.
Lemma post_run n unk E a s o : sstmt n false unk E a s = Some o -> ale (o_an o) A ->
  well_formed p s = true -> forall C, rel_env I E C -> forall m σ tr r C' σ', run m C σ s tr r C' σ' ->
  r = None /\ rel_env I (o_env o) C'.
Proof.
  intros H L W C HC m σ tr r C' σ' HR.
  pose proof (proj2 (number_sound n) _ _ _ _ _ _ H (stable_le _ _ L SA) W C HC m σ tr r C' σ' HR) as P.
  unfold post in P. rewrite (noret _ _ _ _ _ _ _ _ _ H) in P. tauto.
Qed.
Definition cleaned (l : list stmt) : list stmt :=
  flat_map (fun w => if is_reached A (sid w) then let '(w', e) := clean p A w in if e then [] else [w'] else []) l.
Lemma Pt_seq n unk : Pt n -> forall l E a o, sseq (sstmt n false unk) E a l = Some o -> ale (o_an o) A ->
  forallb (well_formed p) l = true -> forall C, rel_env I E C -> forall m σ tr r C' σ', run_seq (run m) C σ l tr r C' σ' ->
  run_seq (run m) C σ (apply_computed A <$> cleaned l) tr r C' σ' /\ (cleaned l = [] -> idle tr r C C' σ σ').
Proof.
  intros HP l. induction l as [|s l IH]; intros E a o H L W C HC m σ tr r C' σ' HR; cbn in H, HR.
  - split; [exact HR|]. intros _. exact HR.
  - apply bind_Some in H as (o1 & H1 & H). rewrite (noret _ _ _ _ _ _ _ _ _ H1) in H.
    apply bind_Some in H as (o2 & H2 & H). injection H as <-. cbn in L. cbn [forallb] in W. apply andb_prop in W as [W1 W2].
    assert (ale (o_an o1) A) as L1.
    { eapply ale_trans; [|exact L]. eapply (sseq_le (sstmt n false unk)); [|exact H2]. intros; eapply exec_le; eauto. }
    destruct HR as (t1 & r1 & C1 & σ1 & R1 & HR).
    destruct (post_run _ _ _ _ _ _ H1 L1 W1 _ HC _ _ _ _ _ _ R1) as [-> HC1].
    destruct HR as (t2 & HR & ->). destruct (IH _ _ _ H2 L W2 _ HC1 _ _ _ _ _ _ HR) as [I1 I2].
    destruct (HP _ _ _ _ _ H1 L1 W1 _ HC _ _ _ _ _ _ R1) as [K1 K2].
    unfold cleaned. cbn [flat_map]. fold (cleaned l). rewrite (reached_in _ _ _ _ _ _ _ H1 L1). unfold filter_code in K1.
    destruct (clean p A s) as [s' []]; cbn [fst snd] in *.
    + destruct (K2 eq_refl) as (-> & _ & -> & ->). cbn. auto.
    + split; [|discriminate]. cbn. exists t1, None, C1, σ1. split; [exact K1|]. eauto.
Qed.
Lemma simple_clean s : simple s = true -> clean p A s = (s, false).
Proof. destruct s; try discriminate; done. Qed.
Lemma Pt_simple n unk : Pt n -> forall l E a o, sseq (sstmt n false unk) E a l = Some o -> ale (o_an o) A ->
  forallb (well_formed p) l = true -> forallb simple l = true -> forall C, rel_env I E C ->
  forall m σ tr r C' σ', run_seq (run m) C σ l tr r C' σ' -> run_seq (run m) C σ (apply_computed A <$> l) tr r C' σ'.
Proof.
  intros HP l. induction l as [|s l IH]; intros E a o H L W D C HC m σ tr r C' σ' HR; cbn in H, HR.
  - exact HR.
  - apply bind_Some in H as (o1 & H1 & H). rewrite (noret _ _ _ _ _ _ _ _ _ H1) in H.
    apply bind_Some in H as (o2 & H2 & H). injection H as <-. cbn in L. cbn [forallb] in W, D.
    apply andb_prop in W as [W1 W2]. apply andb_prop in D as [D1 D2].
    assert (ale (o_an o1) A) as L1.
    { eapply ale_trans; [|exact L]. eapply (sseq_le (sstmt n false unk)); [|exact H2]. intros; eapply exec_le; eauto. }
    destruct HR as (t1 & r1 & C1 & σ1 & R1 & HR).
    destruct (post_run _ _ _ _ _ _ H1 L1 W1 _ HC _ _ _ _ _ _ R1) as [-> HC1].
    destruct HR as (t2 & HR & ->). pose proof (IH _ _ _ H2 L W2 D2 _ HC1 _ _ _ _ _ _ HR) as I1.
    destruct (HP _ _ _ _ _ H1 L1 W1 _ HC _ _ _ _ _ _ R1) as [K1 _]. unfold filter_code in K1.
    rewrite (simple_clean _ D1) in K1. cbn. exists t1, None, C1, σ1. split; [exact K1|]. eauto.
Qed.

Lemma Pt_cond n unk E a c t f o k : Pt n ->
  scond p (sexpr n E) (sstmt n false) unk E a c t f = Some (o, k) -> ale (o_an o) A ->
  all_expr (reduced p) c = true -> well_formed p t = true -> declares t = false ->
  (forall s, f = Some s -> well_formed p s = true /\ declares s = false) ->
  forall C, rel_env I E C -> forall m σ b t1, ev m C σ c b t1 ->
  ev m C σ (known_expr A c) b t1 /\ t1 = [] /\
  (forall z, read_computed A (eid c) = Some z -> (b =? 0) = negb (as_bool z p)) /\
  (k = None -> rel_env up E (o_env o)) /\
  forall t2 r C' σ',
    if b =? 0 then
      match f with
      | Some s => run m C σ s t2 r C' σ' -> kept m C σ s t2 r C' σ' /\ r = None /\ rel_env I (o_env o) C'
      | None => rel_env I (o_env o) C
      end
    else run m C σ t t2 r C' σ' -> kept m C σ t t2 r C' σ' /\ r = None /\ rel_env I (o_env o) C'.
Proof.
  intros HP H L Wc Wt Dt Wf C HC m σ b t1 Hev.
  pose proof (fun a e v a' => proj1 (exec_le p wire F n) E a e v a') as LE.
  pose proof (fun unk E a s o => proj2 (exec_le p wire F n) false unk E a s o) as LS.
  assert (V : forall s E a o, well_formed p s = true -> declares s = false ->
     sstmt n false true E a s = Some o -> nodecl_vague E o).
  { intros s0 E0 a0 o0 W0 D0 H0. destruct (vague_stmt _ _ _ _ _ _ _ _ _ _ W0 H0). split; auto. }
  assert (UP : forall E E' C, rel_env I E C -> rel_env up E E' -> rel_env I E' C).
  { intros E0 E1 C0. apply rel_up. intros v. repeat split. }
  pose proof H as H'. unfold scond in H. apply bind_Some in H as ([v a1] & Hc & H).
  assert (ale a1 A) as L1.
  { eapply ale_trans; [|exact L]. destruct (bool_of v p) as [[]|].
    - apply bind_Some in H as (o1 & H1 & H). injection H as <- <-. eauto.
    - destruct f; [apply bind_Some in H as (o1 & H1 & H)|]; injection H as <- <-; [eauto|apply ale_refl].
    - apply bind_Some in H as (o1 & H1 & H). destruct f; [apply bind_Some in H as (o2 & H2 & H)|]; injection H as <- <-;
        [eapply ale_trans; [eauto|cbn; eauto]|eauto]. }
  pose proof (proj1 (number_sound n) _ _ _ _ _ Hc (stable_le _ _ L1 SA) Wc C HC _ _ _ _ Hev) as Iv.
  split; [eapply known_ok; eauto|].
  split; [exact (proj1 (quiet p wire F M (proj2 HF) HQ m) _ _ _ _ _ Hev)|].
  split.
  { intros z Hz. pose proof (recorded_value _ _ _ _ _ _ _ Hc L1 Hz) as ->. eapply number_bool; [exact Iv|done]. }
  split.
  { intros ->. assert (nodecl_vague E o) as [_ Y]; [|exact Y].
    eapply scond_vague; [| |right; reflexivity|exact H'].
    - intros; eapply V; eauto.
    - intros s0 E0 a0 o0 -> Hs0. destruct (Wf s0 eq_refl). eapply V; eauto. }
  intros t2 r C' σ'.
  destruct (bool_of v p) as [b'|] eqn:Eb.
  - rewrite (number_bool _ _ _ Iv Eb). destruct b'; cbn [negb].
    + apply bind_Some in H as (o1 & H1 & H). injection H as <- <-. intros R.
      split; [eapply HP; eauto|]. eapply post_run; eauto.
    + destruct f as [s|].
      * apply bind_Some in H as (o1 & H1 & H). injection H as <- <-. destruct (Wf s eq_refl). intros R.
        split; [eapply HP; eauto|]. eapply post_run; eauto.
      * injection H as <- <-. exact HC.
  - apply bind_Some in H as (o1 & H1 & H). destruct (V _ _ _ _ Wt Dt H1) as (_ & A4). destruct f as [s|].
    + apply bind_Some in H as (o2 & H2 & H). injection H as <- <-. cbn in L |- *.
      destruct (Wf s eq_refl) as [Ws Ds]. destruct (V _ _ _ _ Ws Ds H2) as (_ & B4).
      assert (ale (o_an o1) A) as L2 by (eapply ale_trans; [eapply LS; eauto|exact L]).
      destruct (b =? 0); intros R.
      * split; [eapply HP; [exact H2|exact L|exact Ws|eauto|exact R]|]. eapply post_run; [exact H2|exact L|exact Ws|eauto|exact R].
      * split; [eapply HP; [exact H1|exact L2|exact Wt|eauto|exact R]|].
        destruct (post_run _ _ _ _ _ _ H1 L2 Wt _ HC _ _ _ _ _ _ R) as [-> X]. split; [done|]. eauto.
    + injection H as <- <-. destruct (b =? 0); [eauto|]. intros R.
      split; [eapply HP; eauto|]. eapply post_run; eauto.
Qed.

Lemma run_block_nil m C σ id : run (S m) C σ (SBlock id []) [] None C σ.
Proof. rewrite run_S. exists (∅ :: C). done. Qed.
Lemma clean_while id c b : clean p A (SWhile id c b) = (SWhile id c (fst (clean p A b)), snd (clean p A b)).
Proof. cbn. by destruct (clean p A b). Qed.
Lemma filter_while id c b : filter_code p A (SWhile id c b) = SWhile id (known_expr A c) (filter_code p A b).
Proof. unfold filter_code. rewrite clean_while. done. Qed.

Lemma filter_ok n : Pt n.
Proof.
  induction n as [|n IH]; [intros ?; intros; discriminate|].
  pose proof (known_ok n) as KE. pose proof (Pk_all n KE) as KA.
  pose proof (fun E a e v a' => proj1 (exec_le p wire F n) E a e v a') as LE.
  pose proof (fun fn unk E a s o => proj2 (exec_le p wire F n) fn unk E a s o) as LS.
  assert (LC : forall fn unk E a c t f o k, scond p (sexpr n E) (sstmt n fn) unk E a c t f = Some (o, k) -> ale a (o_an o)).
  { intros fn unk E a c t f o k H. eapply scond_le; [| |exact H]; intros; eauto. }
  assert (UP : forall E E' C, rel_env I E C -> rel_env up E E' -> rel_env I E' C).
  { intros E0 E1 C0. apply rel_up. intros v. repeat split. }
  intros unk E a s o H L W C HC m σ tr r C' σ' HR. destruct m as [|m]; [contradiction|].
  pose proof HR as HR0. rewrite sstmt_S in H. cbv zeta in H. revert H. generalize (reached (sid s) a). clear a. intros a H.
  rewrite run_S in HR. unfold kept.
  unfold well_formed in W.
  destruct s as [id l|id x dims|id x idx e|id x dims e|id eq s idx e|id l r0|id c t f|id c b|id l|id e|id e|id es];
    cbn [all_stmt shaped] in W; apply andb_prop in W as [W0 W].
  - split; [|discriminate]. cbn. rewrite run_S. apply bind_Some in H as (o1 & H1 & H). injection H as <-.
    eapply (Pt_simple n unk IH); eauto.
  - split; [|discriminate]. cbn. rewrite run_S. bd H. destruct HR as (ds & H1 & H2). exists ds. split; [|exact H2].
    eapply KA; [exact Hx| |exact W|exact HC|exact H1].
    destruct (access_of l); try discriminate. apply bind_Some in H as (E1 & _ & H). injection H as <-. exact L.
  - split; [|discriminate]. cbn. rewrite run_S. bd H. bd H. apply andb_prop in W as [W1 W2].
    assert (ale a2 A) as L2.
    { apply bind_Some in H as (c & _ & H). destruct (access_of l); try discriminate; [injection H as <-; exact L|].
      apply bind_Some in H as (E1 & _ & H). injection H as <-. exact L. }
    destruct HR as (is & v & c & t1 & t2 & H1 & H2 & H3). exists is, v, c, t1, t2. split; [|split; [|exact H3]].
    + eapply KA; [exact Hx| |exact W1|exact HC|exact H1]. eapply ale_trans; [eapply LE; exact Hx0|exact L2].
    + eapply KE; [exact Hx0|exact L2|exact W2|exact HC|exact H2].
  - split; [|discriminate]. cbn. rewrite run_S. bd H. bd H. apply andb_prop in W as [W1 W2].
    assert (ale a2 A) as L2.
    { apply bind_Some in H as (c & _ & H). destruct (access_of l); try discriminate. cbv zeta in H.
      case_bool_decide; [|discriminate]. injection H as <-. exact L. }
    destruct HR as (is & v & c & t1 & t2 & H1 & H2 & H3). exists is, v, c, t1, t2. split; [|split; [|exact H3]].
    + eapply KA; [exact Hx| |exact W1|exact HC|exact H1]. eapply ale_trans; [eapply LE; exact Hx0|exact L2].
    + eapply KE; [exact Hx0|exact L2|exact W2|exact HC|exact H2].
  - split; [|discriminate]. cbn. rewrite run_S. bd H. bd H. apply andb_prop in W as [W1 W2].
    assert (ale a2 A) as L2.
    { destruct (access_of l); try discriminate. apply bind_Some in H as (k & _ & H). destruct eq.
      - destruct unk; [discriminate|]. apply bind_Some in H as (d & _ & H). apply bind_Some in H as (c & _ & H).
        injection H as <-. exact L.
      - injection H as <-. exact L. }
    destruct HR as (is & v & c & t1 & t2 & H1 & H2 & H3). exists is, v, c, t1, t2. split; [|split; [|exact H3]].
    + eapply KA; [exact Hx| |exact W1|exact HC|exact H1]. eapply ale_trans; [eapply LE; exact Hx0|exact L2].
    + eapply KE; [exact Hx0|exact L2|exact W2|exact HC|exact H2].
  - split; [|discriminate]. cbn. rewrite run_S. destruct (false || unk); [discriminate|]. bd H. bd H.
    apply andb_prop in W as [W1 W2].
    assert (ale a3 A) as L2.
    { apply bind_Some in H as (d & _ & H). apply bind_Some in H as (c & _ & H). injection H as <-. exact L. }
    destruct HR as (x & y & t1 & t2 & H1 & H2 & H3). exists x, y, t1, t2. split; [|split; [|exact H3]].
    + eapply KE; [exact Hx| |exact W1|exact HC|exact H1]. eapply ale_trans; [eapply LE; exact Hx0|exact L2].
    + eapply KE; [exact Hx0|exact L2|exact W2|exact HC|exact H2].
  - apply bind_Some in H as ([o1 k] & H1 & H). injection H as <-.
    apply andb_prop in W as [W W3]. apply andb_prop in W as [W1 W2]. apply andb_prop in W0 as [D1 D2].
    apply negb_true_iff in D1.
    destruct HR as (b & t1 & t2 & Ev & -> & HR).
    destruct (Pt_cond n unk E a c t f o1 k IH H1 L W1 W2 D1) with (C := C) (m := m) (σ := σ) (b := b) (t1 := t1)
      as (K1 & -> & K3 & _ & K5); [|exact HC|exact Ev|].
    { intros s ->. apply negb_true_iff in D2. auto. }
    specialize (K5 t2 r C' σ'). unfold filter_code. cbn [clean].
    unfold kept, filter_code in K5. cbn [app].
    destruct (clean p A t) as [t' et] eqn:Ct.
    assert (Hf : exists f' ef, (f' = if ef : bool then None else fst <$> (clean p A <$> f)) /\
      ef = match clean p A <$> f with Some (_, x) => x | None => true end) by eauto.
    destruct Hf as (f' & ef & Ef' & Ef). rewrite <- Ef, <- Ef'. cbn [fst snd].
    assert (T : (b =? 0) = false -> run m C σ (apply_computed A t') t2 r C' σ' /\ (et = true -> idle t2 r C C' σ σ')).
    { intros B. rewrite B in HR, K5. destruct (K5 HR) as [[X Y] _]. auto. }
    assert (G : (b =? 0) = true ->
       match f' with Some s' => run m C σ (apply_computed A s') t2 r C' σ' | None => idle t2 r C C' σ σ' end /\
       (ef = true -> idle t2 r C C' σ σ')).
    { intros B. rewrite B in HR, K5. destruct f as [s|]; cbn in Ef, Ef'.
      - destruct (K5 HR) as [[X Y] _]. destruct (clean p A s) as [s' es]. subst ef. cbn [fst snd] in X, Y.
        destruct es; subst f'; cbn; auto.
      - subst ef f'. auto. }
    split.
    + destruct (read_computed A (eid c)) as [z|] eqn:Rc.
      * specialize (K3 z eq_refl). destruct (as_bool z p).
        -- apply (fuel_S p wire F M m). apply T. exact K3.
        -- destruct (G K3) as [G1 _]. destruct f' as [s'|]; cbn [default].
           ++ apply (fuel_S p wire F M m). exact G1.
           ++ destruct G1 as (-> & -> & -> & ->). cbn. apply run_block_nil.
      * cbn. rewrite run_S. exists b, [], t2. split; [exact K1|]. split; [done|]. destruct (b =? 0).
        -- destruct (G eq_refl) as [G1 _]. destruct f'; exact G1.
        -- apply T. done.
    + intros HE. apply andb_prop in HE as [HE1 HE2]. destruct (b =? 0); [apply G|apply T]; auto.
  - rewrite filter_while, clean_while. cbn [snd].
    apply andb_prop in W as [W1 W2]. apply negb_true_iff in W0.
    assert (WW : well_formed p (SWhile id c b) = true).
    { unfold well_formed. cbn [all_stmt shaped]. rewrite W0, W1. exact W2. }
    apply bind_Some in H as ([o1 k] & H1 & H).
    assert (N1 : o_ret o1 = None).
    { eapply scond_noret; [|exact H1]. intros; eapply noret; eauto. }
    rewrite N1 in H.
    assert (L1 : ale (o_an o1) A).
    { destruct k as [[]|].
      - apply bind_Some in H as (o2 & H2 & H). injection H as <-. eapply ale_trans; [eapply LS; exact H2|exact L].
      - injection H as <-. exact L.
      - apply bind_Some in H as ([o2 k2] & H2 & H). injection H as <-. cbn in L.
        eapply ale_trans; [eapply LC; exact H2|]. eapply ale_trans; [apply ale_stable|exact L]. }
    pose proof (Pt_cond n unk E a c b None o1 k IH H1 L1 W1 W2 W0 ltac:(discriminate)) as PC.
    destruct k as [[]|].
    + apply bind_Some in H as (o2 & H2 & H). injection H as <-. cbn in L.
      destruct HR as (v & t1 & t2 & Ev & -> & HR). destruct (PC C HC m σ v t1 Ev) as (K1 & -> & _ & _ & K5).
      cbn [app]. rewrite run_S.
      destruct (v =? 0) eqn:B.
      * split; [|intros _; exact HR]. exists v, [], t2. rewrite B. auto.
      * destruct HR as (t3 & r1 & C1 & σ1 & R1 & HR). destruct (K5 _ _ _ _ R1) as ((X & Y) & -> & HC1).
        destruct HR as (t4 & R2 & ->).
        destruct (IH _ _ _ _ _ H2 L WW _ HC1 _ _ _ _ _ _ R2) as [Z1 Z2].
        rewrite filter_while in Z1. rewrite clean_while in Z2. cbn [snd] in Z2.
        split.
        -- exists v, [], (t3 ++ t4). rewrite B. split; [exact K1|]. split; [done|].
           exists t3, None, C1, σ1. split; [exact X|]. exists t4. auto.
        -- intros HE. destruct (Y HE) as (-> & _ & -> & ->). cbn. auto.
    + injection H as <-.
      destruct HR as (v & t1 & t2 & Ev & -> & HR). destruct (PC C HC m σ v t1 Ev) as (K1 & -> & _ & _ & K5).
      assert (B : (v =? 0) = true).
      { unfold scond in H1. apply bind_Some in H1 as ([w a1] & Hc & H1).
        destruct (bool_of w p) as [[]|] eqn:Bw.
        - apply bind_Some in H1 as (? & _ & H1). discriminate.
        - injection H1 as <-. cbn in L.
          pose proof (proj1 (number_sound n) _ _ _ _ _ Hc (stable_le _ _ L SA) W1 C HC _ _ _ _ Ev) as Iv.
          exact (number_bool _ _ _ Iv Bw).
        - apply bind_Some in H1 as (? & _ & H1). discriminate. }
      rewrite B in HR. cbn [app]. rewrite run_S. split; [|intros _; exact HR]. exists v, [], t2. rewrite B. auto.
    + apply bind_Some in H as ([o2 k2] & H2 & H). injection H as <-. cbn in L.
      assert (L2 : ale (o_an o2) A) by (eapply ale_trans; [apply ale_stable|exact L]).
      assert (S3 : o_env o2 = o_env o1).
      { destruct L as (_ & _ & _ & X). specialize (X SA). cbn in X. apply andb_prop in X as [_ X].
        by apply bool_decide_eq_true in X. }
      pose proof (Pt_cond n unk (o_env o1) (o_an o1) c b None o2 k2 IH H2 L2 W1 W2 W0 ltac:(discriminate)) as PC2.
      assert (HC1 : rel_env I (o_env o1) C).
      { destruct HR as (v & t1 & t2 & Ev & -> & HR). destruct (PC C HC m σ v t1 Ev) as (_ & _ & _ & K4 & _). eauto. }
      clear HR PC HC. revert HR0. generalize (S m). clear m. intros m. revert C σ tr r C' σ' HC1.
      induction m as [|m IHm]; intros C σ tr r C' σ' HC HR; [contradiction|].
      rewrite run_S in HR |- *. destruct HR as (v & t1 & t2 & Ev & -> & HR).
      destruct (PC2 C HC m σ v t1 Ev) as (K1 & -> & _ & _ & K5). cbn [app].
      destruct (v =? 0) eqn:B.
      * split; [|intros _; exact HR]. exists v, [], t2. rewrite B. auto.
      * destruct HR as (t3 & r1 & C1 & σ1 & R1 & HR). destruct (K5 _ _ _ _ R1) as ((X & Y) & -> & HC1).
        rewrite S3 in HC1. destruct HR as (t4 & R2 & ->). destruct (IHm _ _ _ _ _ _ HC1 R2) as [Z1 Z2].
        split.
        -- exists v, [], (t3 ++ t4). rewrite B. split; [exact K1|]. split; [done|].
           exists t3, None, C1, σ1. split; [exact X|]. exists t4. auto.
        -- intros HE. destruct (Y HE) as (-> & _ & -> & ->). cbn. auto.
  - apply bind_Some in H as (o1 & H1 & H). injection H as <-. destruct HR as (C1 & HR & ->). cbn in L.
    assert (HC1 : rel_env I (∅ :: E) (∅ :: C)).
    { constructor; [|exact HC]. intros x. rewrite !lookup_empty. constructor. }
    destruct (Pt_seq n unk IH _ _ _ _ H1 L W _ HC1 _ _ _ _ _ _ HR) as [X Y].
    unfold filter_code. cbn. fold (cleaned l). split.
    + rewrite run_S. exists C1. auto.
    + destruct (cleaned l); [|discriminate]. intros _. destruct (Y eq_refl) as (-> & -> & -> & ->). done.
  - discriminate.
  - split; [|discriminate]. cbn. rewrite run_S. bd H. destruct HR as (v & t & H1 & H2). exists v, t. split; [|exact H2].
    eapply KE; [exact Hx| |exact W|exact HC|exact H1]. destruct (bool_of a0 p) as [[]|]; try discriminate; injection H as <-; exact L.
  - split; [|discriminate]. cbn. rewrite run_S. bd H. destruct HR as (v & t & H1 & H2). exists v, t. split; [|exact H2].
    eapply KA; [exact Hx| |exact W|exact HC|exact H1]. injection H as <-. exact L.
Qed.
End Filter.

Lemma filter_runs p wire F M n xs vs id body o σ tr r E' σ' :
  prime p -> 2 < p -> good_funs p F -> all_funs (all_stmt silent always) F ->
  forallb (well_formed p) body = true -> Forall (fun v => 0 <= v < p) vs -> length xs = length vs ->
  exec_template p wire F n xs vs body = Some o -> a_stable (o_an o) = true ->
  (forall e, e ∈ a_skipped (o_an o) -> known_expr (o_an o) e = e) ->
  runs p wire F M xs vs body σ tr r E' σ' ->
  exists body', filter_code p (o_an o) (SBlock id body) = SBlock id body' /\ runs p wire F M xs vs body' σ tr r E' σ'.
Proof.
  intros Hp Hp2 HF HQ W Hv HL H S SK [m HR]. eexists. split; [reflexivity|]. exists m.
  eapply Pt_seq; [exact Hp|exact Hp2|exact HF|exact HQ|exact S|exact SK| |exact H|apply ale_refl|exact W| |exact HR].
  - apply filter_ok; auto.
  - apply rel_bind_args; [by rewrite fmap_length|]. clear -Hv. induction Hv; cbn; constructor; auto. repeat split; cbn; lia.
Qed.

(** ** There is one run *)
Lemma ev_all_det (P Q : expr -> Z -> list event -> Prop) l vs tr vs' tr' :
  (forall e v t v' t', P e v t -> Q e v' t' -> v = v' /\ t = t') ->
  ev_all P l vs tr -> ev_all Q l vs' tr' -> vs = vs' /\ tr = tr'.
Proof.
  intros H. revert vs tr vs' tr'. induction l as [|e l IH]; intros vs tr vs' tr' HP HP'; cbn in *.
  - destruct HP as [-> ->], HP' as [-> ->]. done.
  - destruct HP as (v & ws & t1 & t2 & H1 & H2 & -> & ->). destruct HP' as (v' & ws' & t1' & t2' & H1' & H2' & -> & ->).
    destruct (H _ _ _ _ _ H1 H1') as [-> ->]. destruct (IH _ _ _ _ H2 H2') as [-> ->]. done.
Qed.
Section Det.
Context (p : Z) (wire : nat -> list Z -> option nat) (F : funs).
Hypothesis Hp : prime p.
Hypothesis Hp2 : 2 < p.
Notation ev := (ev p wire F computing).
Notation run := (run p wire F computing).
Notation run_seq := (run_seq computing).
Notation ok := (env_ok p).
Definition det (n : nat) : Prop :=
  (forall E σ e v tr v' tr', ok E -> sig_ok p σ -> ev n E σ e v tr -> ev n E σ e v' tr' -> v = v' /\ tr = tr') /\
  (forall E σ s tr r E1 σ1 tr' r' E2 σ2, ok E -> sig_ok p σ -> run n E σ s tr r E1 σ1 -> run n E σ s tr' r' E2 σ2 ->
     tr = tr' /\ r = r' /\ E1 = E2 /\ σ1 = σ2).
Lemma det_seq n l : det n -> forall E σ tr r E1 σ1 tr' r' E2 σ2, ok E -> sig_ok p σ ->
  run_seq (run n) E σ l tr r E1 σ1 -> run_seq (run n) E σ l tr' r' E2 σ2 -> tr = tr' /\ r = r' /\ E1 = E2 /\ σ1 = σ2.
Proof.
  intros HD. induction l as [|s l IH]; intros E σ tr r E1 σ1 tr' r' E2 σ2 HE Hσ H H'; cbn in H, H'.
  - destruct H as (-> & -> & -> & ->), H' as (-> & -> & -> & ->). done.
  - destruct H as (t1 & r1 & E3 & σ3 & R & H), H' as (t1' & r1' & E3' & σ3' & R' & H').
    destruct (proj2 HD _ _ _ _ _ _ _ _ _ _ _ HE Hσ R R') as (-> & -> & -> & ->).
    destruct r1'.
    + destruct H as (-> & -> & -> & ->), H' as (-> & -> & -> & ->). done.
    + destruct H as (t2 & H & ->), H' as (t2' & H' & ->).
      destruct (proj2 (fine_all p wire F Hp2 n) _ _ _ _ _ _ _ HE Hσ R) as (HE3 & Hσ3 & _).
      destruct (IH _ _ _ _ _ _ _ _ _ _ HE3 Hσ3 H H') as (-> & -> & -> & ->). done.
Qed.
Lemma det_all n : det n.
Proof.
  induction n as [|n IH]; [split; intros; contradiction|]. pose proof IH as [IHe IHs]. pose proof (fun l => det_seq n l IH) as LS.
  assert (LA : forall E σ l vs tr vs' tr', ok E -> sig_ok p σ -> ev_all (ev n E σ) l vs tr -> ev_all (ev n E σ) l vs' tr' ->
    vs = vs' /\ tr = tr').
  { intros E σ l vs tr vs' tr' HE Hσ. apply ev_all_det. intros; eapply IHe; eauto. }
  destruct (fine_all p wire F Hp2 n) as [FE FS].
  assert (FV : forall E σ l vs tr, ok E -> sig_ok p σ -> ev_all (ev n E σ) l vs tr -> Forall (fun v => 0 <= v < p) vs).
  { intros E σ l vs tr HE Hσ H. eapply ev_all_range; [|exact H]. intros e v t H'. exact (proj1 (FE _ _ _ _ _ HE Hσ H')). }
  split.
  - intros E σ e v tr v' tr' HE Hσ H H'. rewrite ev_S in H, H'.
    destruct e as [id z|id x idx|id s idx|id op l r|id op e|id c t f|id f args].
    + destruct H as [-> ->], H' as [-> ->]. done.
    + destruct H as (is & c & H1 & H2 & H3), H' as (is' & c' & H1' & H2' & H3').
      destruct (LA _ _ _ _ _ _ _ HE Hσ H1 H1') as [-> ->]. rewrite H2 in H2'. injection H2' as <-. split; [congruence|done].
    + destruct H as (is & c & H1 & H2 & H3), H' as (is' & c' & H1' & H2' & H3').
      destruct (LA _ _ _ _ _ _ _ HE Hσ H1 H1') as [-> ->]. rewrite H2 in H2'. injection H2' as <-. cbn in H3, H3'. split; [congruence|done].
    + destruct H as (x & y & t1 & t2 & H1 & H2 & H3 & ->), H' as (x' & y' & t1' & t2' & H1' & H2' & H3' & ->).
      destruct (IHe _ _ _ _ _ _ _ HE Hσ H1 H1') as [-> ->]. destruct (IHe _ _ _ _ _ _ _ HE Hσ H2 H2') as [-> ->].
      split; [|done]. eapply infix_den_fun; [exact Hp|exact (proj1 (FE _ _ _ _ _ HE Hσ H1))|exact (proj1 (FE _ _ _ _ _ HE Hσ H2))|exact H3|exact H3'].
    + destruct H as (x & H1 & H3), H' as (x' & H1' & H3').
      destruct (IHe _ _ _ _ _ _ _ HE Hσ H1 H1') as [-> ->]. split; [|done]. eapply prefix_den_fun; eauto.
    + destruct H as (b & t1 & t2 & H1 & H2 & ->), H' as (b' & t1' & t2' & H1' & H2' & ->).
      destruct (IHe _ _ _ _ _ _ _ HE Hσ H1 H1') as [-> ->]. destruct (IHe _ _ _ _ _ _ _ HE Hσ H2 H2') as [-> ->]. done.
    + destruct H as (xs & body & vs & t1 & t2 & E1 & H1 & H2 & H3 & H4 & ->),
        H' as (xs' & body' & vs' & t1' & t2' & E1' & H1' & H2' & H3' & H4' & ->).
      rewrite H1 in H1'. injection H1' as <- <-. destruct (LA _ _ _ _ _ _ _ HE Hσ H2 H2') as [-> ->].
      assert (ok (bind_args xs vs')) as HB by (apply ok_bind; [done|exact (FV _ _ _ _ _ HE Hσ H2')]).
      destruct (LS _ _ _ _ _ _ _ _ _ _ _ HB Hσ H4 H4') as (-> & Q & _). injection Q as <-. done.
  - intros E σ s tr r E1 σ1 tr' r' E2 σ2 HE Hσ H H'. rewrite run_S in H, H'.
    destruct s as [id l|id x dims|id x idx e|id x dims e|id eq s idx e|id l r0|id c t f|id c b|id l|id e|id e|id es].
    + eapply LS; eauto.
    + destruct H as (ds & H1 & H2 & -> & ->), H' as (ds' & H1' & H2' & -> & ->).
      destruct (LA _ _ _ _ _ _ _ HE Hσ H1 H1') as [-> ->]. rewrite H2 in H2'. injection H2' as <-. done.
    + destruct H as (is & v & c & t1 & t2 & H1 & H2 & H3 & _ & -> & -> & -> & ->),
        H' as (is' & v' & c' & t1' & t2' & H1' & H2' & H3' & _ & -> & -> & -> & ->).
      destruct (LA _ _ _ _ _ _ _ HE Hσ H1 H1') as [-> ->]. destruct (IHe _ _ _ _ _ _ _ HE Hσ H2 H2') as [-> ->].
      rewrite H3 in H3'. injection H3' as <-. done.
    + destruct H as (is & v & c & t1 & t2 & H1 & H2 & H3 & _ & -> & -> & -> & ->),
        H' as (is' & v' & c' & t1' & t2' & H1' & H2' & H3' & _ & -> & -> & -> & ->).
      destruct (LA _ _ _ _ _ _ _ HE Hσ H1 H1') as [-> ->]. destruct (IHe _ _ _ _ _ _ _ HE Hσ H2 H2') as [-> ->].
      rewrite H3 in H3'. injection H3' as <-. done.
    + destruct H as (is & v & c & t1 & t2 & H1 & H2 & H3 & [_ ->] & -> & -> & H),
        H' as (is' & v' & c' & t1' & t2' & H1' & H2' & H3' & [_ ->] & -> & -> & H').
      destruct (LA _ _ _ _ _ _ _ HE Hσ H1 H1') as [-> ->]. destruct (IHe _ _ _ _ _ _ _ HE Hσ H2 H2') as [-> ->].
      rewrite H3 in H3'. injection H3' as <-. destruct eq.
      * destruct H as (l & Hl & ->), H' as (l' & Hl' & ->). cbn in Hl, Hl'. assert (l = l') as <- by congruence. done.
      * subst. done.
    + destruct H as (x & y & t1 & t2 & H1 & H2 & -> & -> & -> & ->), H' as (x' & y' & t1' & t2' & H1' & H2' & -> & -> & -> & ->).
      destruct (IHe _ _ _ _ _ _ _ HE Hσ H1 H1') as [-> ->]. destruct (IHe _ _ _ _ _ _ _ HE Hσ H2 H2') as [-> ->]. done.
    + destruct H as (b & t1 & t2 & H1 & -> & H), H' as (b' & t1' & t2' & H1' & -> & H').
      destruct (IHe _ _ _ _ _ _ _ HE Hσ H1 H1') as [-> ->]. destruct (b' =? 0); [destruct f as [s|]|].
      * destruct (IHs _ _ _ _ _ _ _ _ _ _ _ HE Hσ H H') as (-> & -> & -> & ->). done.
      * destruct H as (-> & -> & -> & ->), H' as (-> & -> & -> & ->). done.
      * destruct (IHs _ _ _ _ _ _ _ _ _ _ _ HE Hσ H H') as (-> & -> & -> & ->). done.
    + destruct H as (v & t1 & t2 & H1 & -> & H), H' as (v' & t1' & t2' & H1' & -> & H').
      destruct (IHe _ _ _ _ _ _ _ HE Hσ H1 H1') as [-> ->]. destruct (v' =? 0).
      * destruct H as (-> & -> & -> & ->), H' as (-> & -> & -> & ->). done.
      * destruct H as (t3 & r3 & E3 & σ3 & R & H), H' as (t3' & r3' & E3' & σ3' & R' & H').
        destruct (IHs _ _ _ _ _ _ _ _ _ _ _ HE Hσ R R') as (-> & -> & -> & ->). destruct r3'.
        -- destruct H as (-> & -> & -> & ->), H' as (-> & -> & -> & ->). done.
        -- destruct H as (t4 & H & ->), H' as (t4' & H' & ->).
           destruct (FS _ _ _ _ _ _ _ HE Hσ R) as (HE3 & Hσ3 & _).
           destruct (IHs _ _ _ _ _ _ _ _ _ _ _ HE3 Hσ3 H H') as (-> & -> & -> & ->). done.
    + destruct H as (E3 & H & ->), H' as (E3' & H' & ->).
      assert (ok (∅ :: E)) as HE0.
      { constructor; [|exact HE]. intros x. rewrite !lookup_empty. constructor. }
      destruct (LS _ _ _ _ _ _ _ _ _ _ _ HE0 Hσ H H') as (-> & -> & -> & ->). done.
    + destruct H as (v & H1 & -> & -> & ->), H' as (v' & H1' & -> & -> & ->).
      destruct (IHe _ _ _ _ _ _ _ HE Hσ H1 H1') as [-> ->]. done.
    + destruct H as (v & t & H1 & -> & -> & -> & ->), H' as (v' & t' & H1' & -> & -> & -> & ->).
      destruct (IHe _ _ _ _ _ _ _ HE Hσ H1 H1') as [-> ->]. done.
    + destruct H as (v & t & H1 & -> & -> & -> & ->), H' as (v' & t' & H1' & -> & -> & -> & ->).
      destruct (LA _ _ _ _ _ _ _ HE Hσ H1 H1') as [-> ->]. done.
Qed.
Lemma runs_det xs vs body σ tr r E1 σ1 tr' r' E2 σ2 :
  Forall (fun v => 0 <= v < p) vs -> length xs = length vs -> sig_ok p σ ->
  runs p wire F computing xs vs body σ tr r E1 σ1 -> runs p wire F computing xs vs body σ tr' r' E2 σ2 ->
  tr = tr' /\ r = r' /\ E1 = E2 /\ σ1 = σ2.
Proof.
  intros Hv HL Hσ [n H] [m H'].
  assert (UP : forall k n E σ l tr r E' σ', run_seq (run n) E σ l tr r E' σ' -> run_seq (run (k + n)) E σ l tr r E' σ').
  { clear. induction k as [|k IH]; intros; [done|]. eapply run_seq_mono; [|apply IH; eassumption].
    intros; by apply fuel_S. }
  eapply (det_seq (n + m)); [apply det_all|apply ok_bind; eassumption|exact Hσ| |].
  - rewrite Nat.add_comm. apply UP. exact H.
  - apply UP. exact H'.
Qed.
End Det.
