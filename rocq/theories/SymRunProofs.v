(** Readings of symbolic values, and runs that compute the signals. *)
From stdpp Require Import prelude gmap list.
From Coq Require Import ZArith Znumtheory Lia.
From Verif Require Import ModArithModel ModArithProofs AlgebraModel AlgebraSpec AlgebraProofs TreeProofs
  SymModel SymSpec SymProofs.
Open Scope Z_scope.

(** ** A template does not return *)
Lemma sseq_noret f E a l o : (forall E a s o, f E a s = Some o -> o_ret o = None) ->
  sseq f E a l = Some o -> o_ret o = None.
Proof.
  intros Hf. revert E a o. induction l as [|s l IH]; intros E a o H; cbn in H.
  - injection H as <-. done.
  - apply bind_Some in H as (o1 & H1 & H). rewrite (Hf _ _ _ _ H1) in H.
    apply bind_Some in H as (o2 & H2 & H). injection H as <-. cbn. eauto.
Qed.
Lemma scond_noret p fe fs unk E a c t f o k : (forall unk E a s o, fs unk E a s = Some o -> o_ret o = None) ->
  scond p fe fs unk E a c t f = Some (o, k) -> o_ret o = None.
Proof.
  intros Hs H. unfold scond in H. apply bind_Some in H as ([v a1] & _ & H).
  destruct (bool_of v p) as [[]|].
  - apply bind_Some in H as (o1 & H1 & H). injection H as <- <-. eauto.
  - destruct f; [apply bind_Some in H as (o1 & H1 & H)|]; injection H as <- <-; eauto.
  - apply bind_Some in H as (o1 & H1 & H). destruct f.
    + apply bind_Some in H as (o2 & H2 & H). injection H as <- <-. cbn. rewrite (Hs _ _ _ _ _ H1). eauto.
    + injection H as <- <-. eauto.
Qed.
Section NoRet.
Context (p : Z) (wire : nat -> list Z -> option nat) (F : funs).
Notation sexpr := (sexpr p wire F).
Notation sstmt := (sstmt p wire F).
Lemma noret n unk E a s o : sstmt n false unk E a s = Some o -> o_ret o = None.
Proof.
  revert unk E a s o. induction n as [|n IH]; intros unk E a s o H; [discriminate|].
  rewrite sstmt_S in H. cbv zeta in H. revert H. generalize (reached (sid s) a). clear a. intros a H.
  destruct s.
  - apply bind_Some in H as (o1 & H1 & H). injection H as <-. cbn. eapply sseq_noret; [|exact H1]. eauto.
  - bd H. destruct (access_of l); try discriminate. apply bind_Some in H as (E1 & _ & H). injection H as <-. done.
  - bd H. bd H. apply bind_Some in H as (c & Hc & H). destruct (access_of l); try discriminate.
    + injection H as <-. done.
    + apply bind_Some in H as (w & _ & H). injection H as <-. done.
  - bd H. bd H. apply bind_Some in H as (c & Hc & H). destruct (access_of l); try discriminate. cbv zeta in H.
    case_bool_decide; [|discriminate]. injection H as <-. done.
  - bd H. bd H. destruct (access_of l); try discriminate. apply bind_Some in H as (k & _ & H). destruct eq.
    + destruct unk; [discriminate|]. apply bind_Some in H as (d & _ & H). apply bind_Some in H as (c & _ & H).
      injection H as <-. done.
    + injection H as <-. done.
  - destruct (false || unk); [discriminate|]. bd H. bd H. apply bind_Some in H as (d & _ & H).
    apply bind_Some in H as (c & _ & H). injection H as <-. done.
  - apply bind_Some in H as ([o1 k] & H1 & H). injection H as <-. eapply scond_noret; [|exact H1]. eauto.
  - apply bind_Some in H as ([o1 k] & H1 & H).
    pose proof (scond_noret _ _ _ _ _ _ _ _ _ _ _ (fun u E a s o => IH u E a s o) H1) as N. rewrite N in H.
    destruct k as [[]|].
    + apply bind_Some in H as (o2 & H2 & H). injection H as <-. cbn. eauto.
    + congruence.
    + apply bind_Some in H as ([o2 k2] & H2 & H). injection H as <-. cbn. eapply scond_noret; [|exact H2]. eauto.
  - apply bind_Some in H as (o1 & H1 & H). injection H as <-. cbn. eapply sseq_noret; [|exact H1]. eauto.
  - discriminate.
  - bd H. destruct (bool_of a0 p) as [[]|]; try discriminate; injection H as <-; done.
  - bd H. injection H as <-. done.
Qed.
Lemma template_noret n xs vs body o : exec_template p wire F n xs vs body = Some o -> o_ret o = None.
Proof. intros H. eapply sseq_noret; [|exact H]. intros; eapply noret; eauto. Qed.
End NoRet.

(** ** Reading a symbolic value under an assignment of the signals *)
Section Readings.
Context (p : Z).
Hypothesis Hp : prime p.
Hypothesis Hp2 : 2 < p.
Definition reads (φ : assignment) (e : aexpr) (v : Z) : Prop :=
  wf_expr e /\ canon_expr p e /\ match aval φ e with Some x => v = x mod p | None => True end.
Lemma mod_range x : 0 <= x mod p < p.
Proof. apply Z.mod_pos_bound. lia. Qed.
End Readings.

Lemma prefix_den_fun p op a x x' : prefix_den p op a x -> prefix_den p op a x' -> x = x'.
Proof. intros [_ H] [_ H']. destruct op; congruence. Qed.

Section Readings2.
Context (p : Z).
Hypothesis Hp : prime p.
Hypothesis Hp2 : 2 < p.
Notation reads := (reads p).
Lemma reads_nonq φ v : reads φ NonQuadratic v.
Proof. repeat split. Qed.
Lemma reads_num φ z : 0 <= z < p -> reads φ (Number z) z.
Proof. intros H. split; [done|]. split; [done|]. cbn. rewrite Z.mod_small by lia. done. Qed.
Lemma reads_inv φ z v : reads φ (Number z) v -> v = z /\ 0 <= z < p.
Proof. intros (_ & H & ->). cbn in *. rewrite Z.mod_small by lia. auto. Qed.
Lemma reads_infix φ op l r e x y v : reads φ l x -> reads φ r y -> execute_infix_op op l r p = Ok e ->
  infix_den p op x y v -> reads φ e v.
Proof.
  intros (W1 & C1 & V1) (W2 & C2 & V2) E D.
  destruct (infix_sound p op l r e φ 0 Hp Hp2 W1 W2 C1 C2 E) as (W & C & _). split; [exact W|]. split; [exact C|].
  destruct (aval φ e) as [w|] eqn:Ew; [|done].
  destruct (infix_sound p op l r e φ w Hp Hp2 W1 W2 C1 C2 E) as (_ & _ & V).
  destruct (V Ew) as (x' & y' & Ex & Ey & D'). rewrite Ex in V1. rewrite Ey in V2. subst x y.
  eapply infix_den_fun; [exact Hp| | |exact D|exact D']; apply mod_range; lia.
Qed.
Lemma reads_prefix φ op e x v : reads φ e x -> prefix_den p op x v -> reads φ (execute_prefix_op op e p) v.
Proof.
  intros (W1 & C1 & V1) D. destruct (prefix_sound p op e φ 0 Hp Hp2 W1 C1) as (W & C & _).
  split; [exact W|]. split; [exact C|]. destruct (aval φ (execute_prefix_op op e p)) as [w|] eqn:Ew; [|done].
  destruct (prefix_sound p op e φ w Hp Hp2 W1 C1) as (_ & _ & V).
  destruct (V Ew) as (x' & Ex & D'). rewrite Ex in V1. subst x. eapply prefix_den_fun; eauto.
Qed.
Lemma reads_sig φ k v : v = φ (S k) mod p -> reads φ (Signal (S k)) v.
Proof. intros ->. repeat split. Qed.
Lemma reads_K φ l r e c x y : reads φ l x -> reads φ r y -> asub l r p = Ok e -> to_constraint e p = Some c ->
  (holds p φ c <-> x = y).
Proof.
  intros (W1 & C1 & V1) (W2 & C2 & V2) E T.
  destruct (aval φ l) as [x'|] eqn:Ex.
  2:{ destruct l; try discriminate. cbn in E. injection E as <-. discriminate. }
  destruct (aval φ r) as [y'|] eqn:Ey.
  2:{ destruct r; try discriminate. unfold asub in E. cbn in E. destruct l; cbn in E; injection E as <-; discriminate. }
  destruct (asub_sound p l r φ x' y' ltac:(lia) W1 W2 Ex Ey) as (e' & E' & We & _ & V).
  assert (e' = e) as -> by congruence.
  destruct (aval φ e) as [v|] eqn:Ev.
  2:{ destruct e; try discriminate. }
  rewrite (to_constraint_sound p e c φ v ltac:(lia) Ev T). pose proof (V v eq_refl) as V'. subst x y.
  unfold cong in *. rewrite V'. rewrite Zmod_0_l. split; intros H.
  - rewrite Zminus_mod in H.
    pose proof (mod_range p Hp2 x'). pose proof (mod_range p Hp2 y').
    destruct (Z_le_gt_dec 0 (x' mod p - y' mod p)).
    + rewrite Z.mod_small in H by lia. lia.
    + replace (x' mod p - y' mod p) with (x' mod p - y' mod p + p + (-1) * p) in H by lia.
      rewrite Z_mod_plus_full, Z.mod_small in H by lia. lia.
  - rewrite Zminus_mod, H, Z.sub_diag, Zmod_0_l. done.
Qed.

(** ** Reading only the numbers *)
Definition number (e : aexpr) (v : Z) : Prop :=
  wf_expr e /\ canon_expr p e /\ match e with Number z => v = z | _ => True end.
Lemma infix_number op l r z : execute_infix_op op l r p = Ok (Number z) -> exists x y, l = Number x /\ r = Number y.
Proof.
  intros H. destruct op; cbn in H;
    destruct l, r; cbn in H; try discriminate; eauto; unfold asub, res_map, res_bind, add_constant in *; cbn in H;
    repeat (case_match; try discriminate); eauto; try congruence.
Qed.
Lemma number_infix op l r e x y v : number l x -> number r y -> execute_infix_op op l r p = Ok e ->
  infix_den p op x y v -> number e v.
Proof.
  intros (W1 & C1 & V1) (W2 & C2 & V2) E D.
  destruct (infix_sound p op l r e (fun _ => 0) 0 Hp Hp2 W1 W2 C1 C2 E) as (W & C & _). split; [exact W|]. split; [exact C|].
  destruct e as [z| | | |]; try done. destruct (infix_number _ _ _ _ E) as (x' & y' & -> & ->). cbn in *. subst x y.
  destruct (infix_sound p op (Number x') (Number y') _ (fun _ => 0) z Hp Hp2 W1 W2 C1 C2 E) as (_ & _ & V).
  destruct (V eq_refl) as (x1 & y1 & [= <-] & [= <-] & D'). rewrite !Z.mod_small in D' by lia.
  eapply infix_den_fun; [exact Hp| | |exact D|exact D']; lia.
Qed.
Lemma number_prefix op e x v : number e x -> prefix_den p op x v -> number (execute_prefix_op op e p) v.
Proof.
  intros (W1 & C1 & V1) D. destruct (prefix_sound p op e (fun _ => 0) 0 Hp Hp2 W1 C1) as (W & C & _).
  split; [exact W|]. split; [exact C|]. destruct (execute_prefix_op op e p) as [z| | | |] eqn:Ee; try done.
  assert (exists x', e = Number x') as [x' ->].
  { destruct op; cbn in Ee; destruct e; try discriminate; eauto. }
  cbn in *. subst x. destruct (prefix_sound p op (Number x') (fun _ => 0) z Hp Hp2 W1 C1) as (_ & _ & V).
  rewrite Ee in V. destruct (V eq_refl) as (x1 & [= <-] & D'). cbn in C. rewrite !Z.mod_small in D' by lia.
  eapply prefix_den_fun; eauto.
Qed.
End Readings2.

(** ** The constraints say what the run requires (every signal given) *)
Lemma constraints_sound p wire F φ n xs vs body o tr r E' σ σ' :
  prime p -> 2 < p -> good_funs p F -> forallb (well_formed p) body = true ->
  Forall (fun v => 0 <= v < p) vs -> length xs = length vs ->
  exec_template p wire F n xs vs body = Some o -> a_stable (o_an o) = true ->
  runs p wire F (given p φ) xs vs body σ tr r E' σ' ->
  r = None /\ Forall2 (fun c lr => holds p φ c <-> lr.1 = lr.2) (o_cs o) (equations tr).
Proof.
  intros Hp Hp2 HF W Hv HL H S [m HR].
  assert (X : post (reads p φ) (fun c x y => holds p φ c <-> x = y) o tr r E').
  { eapply Ps_seq; [|exact H|exact S|exact W| |exact HR].
    - eapply (proj2 (sound p wire F (given p φ) (reads p φ) _ Hp2 (reads_nonq p φ) (reads_num p φ)
        (reads_inv p φ) (reads_infix p Hp Hp2 φ) (reads_prefix p Hp Hp2 φ) (fun _ k v => reads_sig p φ k v)
        (reads_K p Hp2 φ) HF n)).
    - apply rel_bind_args; [by rewrite fmap_length|]. clear -Hv. induction Hv; cbn; constructor; auto using reads_num. }
  unfold post in X. rewrite (template_noret _ _ _ _ _ _ _ _ H) in X. tauto.
Qed.

(** ** Runs that compute the signals *)
Definition in_field (p : Z) (v v' : Z) : Prop := v = v' /\ 0 <= v < p.
Definition env_ok (p : Z) (E : env Z) : Prop := rel_env (in_field p) E E.
Definition sig_ok (p : Z) (σ : gmap nat Z) : Prop := map_Forall (fun _ v => 0 <= v < p) σ.
Definition own_ok (e : event) : Prop := match e with EvEq true l r => l = r | _ => True end.

Lemma ev_all_range (P : expr -> Z -> list event -> Prop) (Q : Z -> Prop) l vs tr :
  (forall e v t, P e v t -> Q v) -> ev_all P l vs tr -> Forall Q vs.
Proof.
  intros HP. revert vs tr. induction l as [|e l IH]; intros vs tr H; cbn in H.
  - destruct H as [-> _]. constructor.
  - destruct H as (v & ws & t1 & t2 & H1 & H2 & -> & ->). constructor; eauto.
Qed.
Lemma ev_all_trace (P : expr -> Z -> list event -> Prop) (Q : event -> Prop) l vs tr :
  (forall e v t, P e v t -> Forall Q t) -> ev_all P l vs tr -> Forall Q tr.
Proof.
  intros HP. revert vs tr. induction l as [|e l IH]; intros vs tr H; cbn in H.
  - destruct H as [_ ->]. constructor.
  - destruct H as (v & ws & t1 & t2 & H1 & H2 & -> & ->). apply Forall_app. eauto.
Qed.

Section Computing.
Context (p : Z) (wire : nat -> list Z -> option nat) (F : funs).
Hypothesis Hp2 : 2 < p.
Notation evc := (ev p wire F computing).
Notation runc := (run p wire F computing).
Notation run_seqc := (run_seq computing).
Notation ok := (env_ok p).

Lemma ok_get E x c i v : ok E -> get x E = Some c -> c !! i = Some v -> 0 <= v < p.
Proof.
  intros H G Gi. pose proof (rel_get _ _ _ x H) as X. rewrite G in X. inversion X as [? ? Y|]; subst.
  pose proof (Y i) as Z. rewrite Gi in Z. inversion Z as [? ? [_ W]|]; subst. exact W.
Qed.
Lemma ok_arr E x c : ok E -> get x E = Some c -> rel_arr (in_field p) c c.
Proof. intros H G. pose proof (rel_get _ _ _ x H) as X. rewrite G in X. by inversion X; subst. Qed.
Lemma ok_bind xs vs : length xs = length vs -> Forall (fun v => 0 <= v < p) vs -> ok (bind_args xs vs).
Proof. intros L H. apply rel_bind_args; [exact L|]. clear L. induction H; constructor; auto. split; auto. Qed.

Definition fine (n : nat) : Prop :=
  (forall E σ e v tr, ok E -> sig_ok p σ -> evc n E σ e v tr -> 0 <= v < p /\ Forall own_ok tr) /\
  (forall E σ s tr r E' σ', ok E -> sig_ok p σ -> runc n E σ s tr r E' σ' ->
     ok E' /\ sig_ok p σ' /\ σ ⊆ σ' /\ (forall v, r = Some v -> 0 <= v < p) /\ Forall own_ok tr).

Ltac five := split; [|split; [|split; [|split]]].
Lemma fine_seq n E σ l tr r E' σ' : fine n -> ok E -> sig_ok p σ -> run_seqc (runc n) E σ l tr r E' σ' ->
  ok E' /\ sig_ok p σ' /\ σ ⊆ σ' /\ (forall v, r = Some v -> 0 <= v < p) /\ Forall own_ok tr.
Proof.
  intros [_ HS]. revert E σ tr. induction l as [|s l IH]; intros E σ tr HE Hσ H; cbn in H.
  - destruct H as (-> & -> & -> & ->). five; auto; try discriminate.
  - destruct H as (t1 & r1 & E1 & σ1 & H1 & H). destruct (HS _ _ _ _ _ _ _ HE Hσ H1) as (A1 & A2 & A3 & A4 & A5).
    destruct r1 as [v|].
    + destruct H as (-> & -> & -> & ->). auto.
    + destruct H as (t2 & H2 & ->). destruct (IH _ _ _ A1 A2 H2) as (B1 & B2 & B3 & B4 & B5).
      five; auto; [etrans; eauto|apply Forall_app; auto].
Qed.

Lemma fine_all n : fine n.
Proof.
  induction n as [|n IH]; [split; intros; contradiction|]. pose proof IH as [IHe IHs].
  assert (LA : forall E σ l vs tr, ok E -> sig_ok p σ -> ev_all (evc n E σ) l vs tr ->
     Forall (fun v => 0 <= v < p) vs /\ Forall own_ok tr).
  { intros E σ l vs tr HE Hσ H. split.
    - eapply ev_all_range; [|exact H]. intros; eapply IHe; eauto.
    - eapply ev_all_trace; [|exact H]. intros; eapply IHe; eauto. }
  split.
  - intros E σ e v tr HE Hσ H. rewrite ev_S in H. destruct e.
    + destruct H as [-> ->]. split; [apply mod_range; lia|constructor].
    + destruct H as (is & c & H1 & H2 & H3). split; [eapply ok_get; eauto|eapply LA; eauto].
    + destruct H as (is & k & H1 & H2 & H3). split; [exact (Hσ k v H3)|eapply LA; eauto].
    + destruct H as (x & y & t1 & t2 & H1 & H2 & H3 & ->). split; [apply H3|]. apply Forall_app.
      split; eapply IHe; eauto.
    + destruct H as (x & H1 & H2). split; [apply H2|]. eapply IHe; eauto.
    + destruct H as (b & t1 & t2 & H1 & H2 & ->). split; [eapply IHe; eauto|]. apply Forall_app.
      split; eapply IHe; eauto.
    + destruct H as (xs & body & vs & t1 & t2 & E' & H1 & H2 & H3 & H4 & ->).
      destruct (LA _ _ _ _ _ HE Hσ H2) as [A1 A2].
      destruct (fine_seq n _ _ _ _ _ _ _ IH (ok_bind _ _ H3 A1) Hσ H4) as (_ & _ & _ & B & C).
      split; [auto|]. apply Forall_app. auto.
  - intros E σ s tr r E' σ' HE Hσ H. rewrite run_S in H. destruct s.
    + eapply fine_seq; eauto.
    + destruct H as (ds & H1 & H2 & -> & ->). destruct (LA _ _ _ _ _ HE Hσ H1) as [A1 A2].
      destruct (rel_declare (in_field p) E E x _ (full ds 0) _ HE
        (rel_full (in_field p) ds 0 0 ltac:(split; [done|lia])) H2) as (E1 & D & HE1).
      assert (E1 = E') as -> by congruence. five; auto; discriminate.
    + destruct H as (is & v & c & t1 & t2 & H1 & H2 & H3 & H4 & -> & -> & -> & ->).
      destruct (LA _ _ _ _ _ HE Hσ H1) as [A1 A2]. destruct (IHe _ _ _ _ _ HE Hσ H2) as [B1 B2].
      five; auto; try discriminate; [|by apply Forall_app].
      apply rel_put; [exact HE|]. apply rel_insert; [eapply ok_arr; eauto|]. split; auto.
    + destruct H as (ds & v & c & t1 & t2 & H1 & H2 & H3 & H4 & -> & -> & -> & ->).
      destruct (LA _ _ _ _ _ HE Hσ H1) as [A1 A2]. destruct (IHe _ _ _ _ _ HE Hσ H2) as [B1 B2].
      five; auto; try discriminate; [|by apply Forall_app].
      apply rel_put; [exact HE|]. apply rel_full. split; auto.
    + destruct H as (is & v & k & t1 & t2 & H1 & H2 & H3 & (H4 & ->) & -> & -> & HT).
      destruct (LA _ _ _ _ _ HE Hσ H1) as [A1 A2]. destruct (IHe _ _ _ _ _ HE Hσ H2) as [B1 B2].
      five; auto; try discriminate.
      * by apply map_Forall_insert_2.
      * by apply insert_subseteq.
      * destruct eq.
        -- destruct HT as (l & Hl & ->). cbn in Hl. rewrite lookup_insert in Hl. injection Hl as <-.
           apply Forall_app; split; [done|]. apply Forall_app; split; [done|]. repeat constructor.
        -- subst tr. apply Forall_app; split; [done|]. apply Forall_app; split; [done|]. repeat constructor.
    + destruct H as (x & y & t1 & t2 & H1 & H2 & -> & -> & -> & ->).
      destruct (IHe _ _ _ _ _ HE Hσ H1) as [A1 A2]. destruct (IHe _ _ _ _ _ HE Hσ H2) as [B1 B2].
      five; auto; try discriminate. apply Forall_app; split; [done|]. apply Forall_app; split; [done|]. repeat constructor.
    + destruct H as (b & t1 & t2 & H1 & -> & H). destruct (IHe _ _ _ _ _ HE Hσ H1) as [A1 A2].
      assert (X : ok E' /\ sig_ok p σ' /\ σ ⊆ σ' /\ (forall v, r = Some v -> 0 <= v < p) /\ Forall own_ok t2).
      { destruct (b =? 0); [|eapply IHs; eauto]. destruct f; [eapply IHs; eauto|].
        destruct H as (-> & -> & -> & ->). five; auto; discriminate. }
      destruct X as (X1 & X2 & X3 & X4 & X5). five; auto; by apply Forall_app.
    + destruct H as (b & t1 & t2 & H1 & -> & H). destruct (IHe _ _ _ _ _ HE Hσ H1) as [A1 A2].
      assert (X : ok E' /\ sig_ok p σ' /\ σ ⊆ σ' /\ (forall v, r = Some v -> 0 <= v < p) /\ Forall own_ok t2).
      { destruct (b =? 0); [destruct H as (-> & -> & -> & ->); five; auto; discriminate|].
        destruct H as (t3 & r1 & E1 & σ1 & H2 & H). destruct (IHs _ _ _ _ _ _ _ HE Hσ H2) as (B1 & B2 & B3 & B4 & B5).
        destruct r1 as [x|].
        - destruct H as (-> & -> & -> & ->). five; auto.
        - destruct H as (t4 & H3 & ->). destruct (IHs _ _ _ _ _ _ _ B1 B2 H3) as (C1 & C2 & C3 & C4 & C5).
          five; auto; [etrans; eauto|by apply Forall_app]. }
      destruct X as (X1 & X2 & X3 & X4 & X5). five; auto; by apply Forall_app.
    + destruct H as (E1 & H & ->).
      assert (HE1 : ok (∅ :: E)).
      { constructor; [|exact HE]. intros x. rewrite !lookup_empty. constructor. }
      destruct (fine_seq n _ _ _ _ _ _ _ IH HE1 Hσ H) as (X1 & X2 & X3 & X4 & X5).
      five; auto. inversion X1; cbn; [constructor|assumption].
    + destruct H as (v & H & -> & -> & ->). destruct (IHe _ _ _ _ _ HE Hσ H) as [A1 A2].
      five; auto. intros ? [= <-]. auto.
    + destruct H as (v & t & H & -> & -> & -> & ->). destruct (IHe _ _ _ _ _ HE Hσ H) as [A1 A2].
      five; auto; try discriminate. apply Forall_app; split; [done|]. repeat constructor.
    + destruct H as (v & t & H & -> & -> & -> & ->). destruct (LA _ _ _ _ _ HE Hσ H) as [A1 A2].
      five; auto; try discriminate. apply Forall_app; split; [done|]. repeat constructor.
Qed.

(** A run that computes the signals is a run under the values it computes. *)
Section Given.
Context (Σ : gmap nat Z) (φ : assignment).
Hypothesis HΣ : sig_ok p Σ.
Hypothesis Hφ : forall k v, Σ !! k = Some v -> φ (S k) = v.
Notation evg := (ev p wire F (given p φ)).
Notation rung := (run p wire F (given p φ)).
Notation run_seqg := (run_seq (given p φ)).
Lemma rd_given σ k v : σ ⊆ Σ -> rd computing σ k v -> rd (given p φ) tt k v.
Proof.
  intros H1 H2. cbn in *. pose proof (lookup_weaken _ _ _ _ H2 H1) as H3. rewrite (Hφ _ _ H3).
  symmetry. apply Z.mod_small. exact (HΣ _ _ H3).
Qed.
Lemma ev_all_given n E σ l vs tr (IH : forall e v tr, evc n E σ e v tr -> evg n E tt e v tr) :
  ev_all (evc n E σ) l vs tr -> ev_all (evg n E tt) l vs tr.
Proof.
  revert vs tr. induction l as [|e l IHl]; intros vs tr H; cbn in *; [exact H|].
  destruct H as (v & ws & t1 & t2 & H1 & H2 & -> & ->). exists v, ws, t1, t2. auto.
Qed.
Definition to_given (n : nat) : Prop :=
  (forall E σ e v tr, ok E -> sig_ok p σ -> σ ⊆ Σ -> evc n E σ e v tr -> evg n E tt e v tr) /\
  (forall E σ s tr r E' σ', ok E -> sig_ok p σ -> σ' ⊆ Σ -> runc n E σ s tr r E' σ' -> rung n E tt s tr r E' tt).
Lemma given_seq n E σ l tr r E' σ' : to_given n -> ok E -> sig_ok p σ -> σ' ⊆ Σ ->
  run_seqc (runc n) E σ l tr r E' σ' -> run_seqg (rung n) E tt l tr r E' tt.
Proof.
  intros [_ HS]. pose proof (fine_all n) as HFn. revert E σ tr. induction l as [|s l IH]; intros E σ tr HE Hσ HΣ' H; cbn in *.
  - destruct H as (-> & -> & -> & ->). auto.
  - destruct H as (t1 & r1 & E1 & σ1 & H1 & H). destruct (proj2 HFn _ _ _ _ _ _ _ HE Hσ H1) as (A1 & A2 & A3 & A4 & A5).
    exists t1, r1, E1, tt. destruct r1 as [v|].
    + destruct H as (-> & -> & -> & ->). split; [exact (HS _ _ _ _ _ _ _ HE Hσ HΣ' H1)|auto].
    + destruct H as (t2 & H2 & ->). split; [|exists t2; split; [exact (IH _ _ _ A1 A2 HΣ' H2)|done]].
      eapply HS; [exact HE|exact Hσ| |exact H1]. etrans; [|exact HΣ'].
      eapply fine_seq; [exact HFn|exact A1|exact A2|exact H2].
Qed.
Lemma given_all n : to_given n.
Proof.
  induction n as [|n IH]; [split; intros; contradiction|]. pose proof IH as [IHe IHs].
  pose proof (fine_all n) as [FE FS].
  assert (LA : forall E σ l vs tr, ok E -> sig_ok p σ -> σ ⊆ Σ -> ev_all (evc n E σ) l vs tr -> ev_all (evg n E tt) l vs tr).
  { intros E σ l vs tr HE Hσ HS H. eapply ev_all_given; [|exact H]. intros; eapply IHe; eauto. }
  split.
  - intros E σ e v tr HE Hσ HS H. rewrite ev_S in H. rewrite ev_S. destruct e.
    + exact H.
    + destruct H as (is & c & H1 & H2 & H3). exists is, c. split; [eapply LA; eauto|auto].
    + destruct H as (is & k & H1 & H2 & H3). exists is, k. split; [eapply LA; eauto|]. split; [auto|]. eapply rd_given; eauto.
    + destruct H as (x & y & t1 & t2 & H1 & H2 & H3 & ->). exists x, y, t1, t2.
      split; [eapply IHe; eauto|]. split; [eapply IHe; eauto|auto].
    + destruct H as (x & H1 & H2). exists x. split; [eapply IHe; eauto|auto].
    + destruct H as (b & t1 & t2 & H1 & H2 & ->). exists b, t1, t2.
      split; [eapply IHe; eauto|]. split; [eapply IHe; eauto|auto].
    + destruct H as (xs & body & vs & t1 & t2 & E' & H1 & H2 & H3 & H4 & ->). exists xs, body, vs, t1, t2, E'.
      split; [auto|]. split; [eapply LA; eauto|]. split; [auto|]. split; [|auto].
      eapply given_seq; [exact IH| |exact Hσ|exact HS|exact H4]. apply ok_bind; [auto|].
      eapply ev_all_range; [|exact H2]. intros; eapply FE; eauto.
  - intros E σ s tr r E' σ' HE Hσ HS H. rewrite run_S in H. rewrite run_S. destruct s.
    + eapply given_seq; eauto.
    + destruct H as (ds & H1 & H2 & -> & ->). exists ds. split; [eapply LA; eauto|auto].
    + destruct H as (is & v & c & t1 & t2 & H1 & H2 & H3 & H4 & -> & -> & -> & ->).
      exists is, v, c, t1, t2. split; [eapply LA; eauto|]. split; [eapply IHe; eauto|]. auto 10.
    + destruct H as (ds & v & c & t1 & t2 & H1 & H2 & H3 & H4 & -> & -> & -> & ->).
      exists ds, v, c, t1, t2. split; [eapply LA; eauto|]. split; [eapply IHe; eauto|]. auto 10.
    + destruct H as (is & v & k & t1 & t2 & H1 & H2 & H3 & (H4 & ->) & -> & -> & HT).
      assert (HS' : σ ⊆ Σ) by (etrans; [|exact HS]; by apply insert_subseteq).
      exists is, v, k, t1, t2. split; [eapply LA; eauto|]. split; [eapply IHe; eauto|].
      split; [auto|]. split; [exact Logic.I|]. split; [auto|]. split; [auto|].
      destruct eq; [|exact HT]. destruct HT as (l & Hl & ->). exists l. split; [|auto]. exact (rd_given _ _ _ HS Hl).
    + destruct H as (x & y & t1 & t2 & H1 & H2 & -> & -> & -> & ->). exists x, y, t1, t2.
      split; [eapply IHe; eauto|]. split; [eapply IHe; eauto|]. auto.
    + destruct H as (b & t1 & t2 & H1 & -> & H).
      assert (HS' : σ ⊆ Σ).
      { etrans; [|exact HS]. destruct (b =? 0); [|eapply FS; eauto]. destruct f; [eapply FS; eauto|].
        destruct H as (_ & _ & _ & ->). done. }
      exists b, t1, t2. split; [eapply IHe; eauto|]. split; [auto|].
      destruct (b =? 0); [|exact (IHs _ _ _ _ _ _ _ HE Hσ HS H)]. destruct f; [exact (IHs _ _ _ _ _ _ _ HE Hσ HS H)|].
      destruct H as (-> & -> & -> & ->). auto.
    + destruct H as (b & t1 & t2 & H1 & -> & H). destruct (b =? 0) eqn:Eb.
      * destruct H as (-> & -> & -> & ->). exists b, t1, []. split; [eapply IHe; eauto|]. split; [auto|]. rewrite Eb. auto.
      * destruct H as (t3 & r1 & E1 & σ1 & H2 & H). destruct (FS _ _ _ _ _ _ _ HE Hσ H2) as (A1 & A2 & A3 & A4 & A5).
        assert (HS1 : (σ1 : gmap nat Z) ⊆ Σ).
        { destruct r1; [destruct H as (_ & _ & _ & ->); exact HS|]. destruct H as (t4 & H3 & ->).
          etrans; [|exact HS]. eapply FS; eauto. }
        exists b, t1, t2. split; [eapply IHe; [| | |exact H1]; auto; by etrans|]. split; [auto|]. rewrite Eb.
        exists t3, r1, E1, tt. split; [exact (IHs _ _ _ _ _ _ _ HE Hσ HS1 H2)|]. destruct r1.
        -- destruct H as (-> & -> & -> & ->). auto.
        -- destruct H as (t4 & H3 & ->). exists t4. split; [|auto]. exact (IHs _ _ _ _ _ _ _ A1 A2 HS H3).
    + destruct H as (E1 & H & ->). exists E1. split; [|auto]. eapply given_seq; [exact IH| |exact Hσ|exact HS|exact H].
      constructor; [|exact HE]. intros x. rewrite !lookup_empty. constructor.
    + destruct H as (v & H & -> & -> & ->). exists v. split; [eapply IHe; eauto|auto].
    + destruct H as (v & t & H & -> & -> & -> & ->). exists v, t. split; [eapply IHe; eauto|auto].
    + destruct H as (v & t & H & -> & -> & -> & ->). exists v, t. split; [eapply LA; eauto|auto].
Qed.
End Given.
End Computing.

Lemma witness_satisfies p wire F n xs vs body o σ tr r E' Σ φ :
  prime p -> 2 < p -> good_funs p F -> forallb (well_formed p) body = true ->
  Forall (fun v => 0 <= v < p) vs -> length xs = length vs ->
  exec_template p wire F n xs vs body = Some o -> a_stable (o_an o) = true ->
  map_Forall (fun _ v => 0 <= v < p) σ ->
  runs p wire F computing xs vs body σ tr r E' Σ ->
  (forall k v, Σ !! k = Some v -> φ (S k) = v) ->
  Forall (fun lr => lr.1 = lr.2) (checks tr) ->
  Forall (holds p φ) (o_cs o).
Proof.
  intros Hp Hp2 HF W Hv HL H S Hσ [m HR] Hφ Hc.
  pose proof (ok_bind p xs vs HL Hv) as HE.
  destruct (fine_seq p wire F m _ _ _ _ _ _ _ (fine_all p wire F Hp2 m) HE Hσ HR) as (_ & HΣ & _ & _ & Ho).
  destruct (constraints_sound p wire F φ n xs vs body o tr r E' tt tt Hp Hp2 HF W Hv HL H S) as [_ X].
  { exists m. eapply given_seq; [exact Hp2|apply given_all; eassumption|exact HE|exact Hσ|reflexivity|exact HR]. }
  assert (Q : Forall (fun lr => lr.1 = lr.2) (equations tr)).
  { clear -Ho Hc. unfold equations, checks in *. induction tr as [|[k v|[] l r|vs|b] tr IH]; cbn in *;
      inversion Ho; subst; auto.
    inversion Hc; subst. constructor; auto. }
  clear -X Q. induction X as [|c lr cs lrs HX X IH]; [constructor|]. inversion Q; subst. constructor; [by apply HX|auto].
Qed.
