(** Proofs about declarations in loops and custom templates. *)
From stdpp Require Import prelude gmap strings.
From Verif Require Import TypeModel DeclareModel DeclareSpec.
Open Scope list_scope.
Open Scope nat_scope.

Section stmt_ind.
Context (Q : stmt -> Prop)
  (HF : forall c t f, Q t -> (forall s, f = Some s -> Q s) -> Q (IfThenElse c t f)) (HW : forall c s, Q s -> Q (While c s))
  (HI : forall k l, Forall Q l -> Q (InitializationBlock k l)) (HB : forall l, Forall Q l -> Q (Block l))
  (HS : forall s, simple s = true -> Q s).
Fixpoint stmt_rec' (s : stmt) : Q s :=
  let all := fix all l : Forall Q l := match l with [] => Forall_nil_2 _ | e :: l => Forall_cons_2 _ _ _ (stmt_rec' e) (all l) end in
  match s with
  | IfThenElse c t f => HF c t f (stmt_rec' t)
    match f with Some s => fun s' E => match E in _ = o return match o with Some s' => Q s' | None => True end with eq_refl => stmt_rec' s end | None => fun s' E => ltac:(discriminate E) end
  | While c s => HW c s (stmt_rec' s)
  | InitializationBlock k l => HI k l (all l)
  | Block l => HB l (all l)
  | s => HS s eq_refl
  end.
End stmt_ind.
Scheme runs_min := Minimality for runs Sort Prop
  with runs_all_min := Minimality for runs_all Sort Prop.
Combined Scheme runs_both from runs_min, runs_all_min.

Lemma total_zero {A} (f : A -> nat) l : total f l = 0 <-> Forall (fun a => f a = 0) l.
Proof. induction l as [|a l IH]; cbn; [split; [constructor|reflexivity]|]. rewrite Forall_cons, <- IH. lia. Qed.

(** there is an execution *)
Lemma runs_all_total l : Forall (fun s => forall p, exists tr, runs p s tr) l -> forall p i, exists tr, runs_all p i l tr.
Proof.
  induction 1 as [|s l Hs _ IH]; intros p i; [eexists; constructor|]. destruct (Hs (p ++ [i])) as [tr Htr], (IH p (S i)) as [tr' Htr']. eexists. constructor; eassumption.
Qed.
Lemma runs_total s : forall p, exists tr, runs p s tr.
Proof.
  induction s as [c t f Ht Hf|c s IH|k l IH|l IH|s Hs] using stmt_rec'; intros p.
  - destruct (Ht (p ++ [0])) as [tr Htr]. eexists. apply r_then. exact Htr.
  - eexists. apply r_leave.
  - destruct (runs_all_total l IH p 0) as [tr Htr]. eexists. apply r_init. exact Htr.
  - destruct (runs_all_total l IH p 0) as [tr Htr]. eexists. apply r_block. exact Htr.
  - eexists. apply r_simple. exact Hs.
Qed.

(** places *)
Lemma runs_places : (forall p s tr, runs p s tr -> forall ev, ev ∈ tr -> exists q, ev.1 = p ++ q) /\
  (forall p i l tr, runs_all p i l tr -> forall ev, ev ∈ tr -> exists j q, i <= j /\ ev.1 = p ++ j :: q).
Proof.
  apply runs_both; try (intros p; intros; match goal with H : _ ∈ [] |- _ => apply elem_of_nil in H; contradiction end).
  - intros p s Hs ev He. apply elem_of_list_singleton in He. subst. exists []. rewrite app_nil_r. reflexivity.
  - intros p c t f tr _ IH ev He. destruct (IH ev He) as [q ->]. rewrite <- app_assoc. eauto.
  - intros p c t f tr _ IH ev He. destruct (IH ev He) as [q ->]. rewrite <- app_assoc. eauto.
  - intros p c s tr tr' _ IH _ IH' ev He. apply elem_of_app in He. destruct He as [He|He]; [|apply IH'; exact He]. destruct (IH ev He) as [q ->]. rewrite <- app_assoc. eauto.
  - intros p k l tr _ IH ev He. apply elem_of_cons in He. destruct He as [->|He]; [exists []; rewrite app_nil_r; reflexivity|]. destruct (IH ev He) as (j & q & _ & ->). eauto.
  - intros p l tr _ IH ev He. destruct (IH ev He) as (j & q & _ & ->). eauto.
  - intros p i s l tr tr' _ IH _ IH' ev He. apply elem_of_app in He. destruct He as [He|He].
    + destruct (IH ev He) as [q ->]. exists i, q. rewrite <- app_assoc. auto.
    + destruct (IH' ev He) as (j & q & Hj & ->). exists j, q. split; [lia|reflexivity].
Qed.
Lemma declared_app tr tr' : declared (tr ++ tr') = declared tr ++ declared tr'.
Proof. apply omap_app. Qed.
Lemma declared_in tr q : q ∈ declared tr -> exists e, (q, e) ∈ tr /\ declares e = true.
Proof.
  unfold declared. rewrite elem_of_list_omap. intros ([q' e] & H & E). cbn in E. destruct (declares e) eqn:D; [|discriminate]. injection E as <-. eauto.
Qed.

(** statements without declarations *)
Lemma runs_silent : (forall p s tr, runs p s tr -> no_declarations s = true -> declared tr = []) /\
  (forall p i l tr, runs_all p i l tr -> forallb no_declarations l = true -> declared tr = []).
Proof.
  apply runs_both; try (intros; reflexivity).
  - intros p s Hs _. destruct s; try discriminate; reflexivity.
  - intros p c t f tr _ IH H. cbn in H. apply andb_true_iff in H. apply IH, H.
  - intros p c t f tr _ IH H. cbn in H. apply andb_true_iff in H. apply IH, H.
  - intros p c s tr tr' _ IH _ IH' H. rewrite declared_app, IH, IH' by exact H. reflexivity.
  - intros p k l tr _ _ H. discriminate.
  - intros p l tr _ IH H. apply IH. exact H.
  - intros p i s l tr tr' _ IH _ IH' H. cbn in H. apply andb_true_iff in H. rewrite declared_app, IH, IH' by apply H. reflexivity.
Qed.
Lemma runs_refused : (forall p s tr, runs p s tr -> parsed s = true -> treat_statement s false = 0 -> declared tr = []) /\
  (forall p i l tr, runs_all p i l tr -> forallb parsed l = true -> total (fun s => treat_statement s false) l = 0 -> declared tr = []).
Proof.
  apply runs_both; try (intros; reflexivity).
  - intros p s Hs _ _. destruct s; try discriminate; reflexivity.
  - intros p c t f tr _ IH H H0. cbn in H, H0. apply andb_true_iff in H. apply IH; [apply H|lia].
  - intros p c t f tr _ IH H H0. cbn in H, H0. apply andb_true_iff in H. apply IH; [apply H|lia].
  - intros p c s tr tr' _ IH _ IH' H H0. rewrite declared_app, IH, IH' by assumption. reflexivity.
  - intros p k l tr HR _ H H0. cbn in H, H0. pose proof (proj2 runs_silent _ _ _ _ HR H) as E. cbn. unfold declared in E. destruct k; [exact E|discriminate|discriminate].
  - intros p l tr _ IH H H0. apply IH; assumption.
  - intros p i s l tr tr' _ IH _ IH' H H0. cbn in H, H0. apply andb_true_iff in H. rewrite declared_app, IH, IH' by (apply H || lia). reflexivity.
Qed.
Lemma runs_once : (forall p s tr, runs p s tr -> parsed s = true -> treat_statement s true = 0 -> NoDup (declared tr)) /\
  (forall p i l tr, runs_all p i l tr -> forallb parsed l = true -> total (fun s => treat_statement s true) l = 0 -> NoDup (declared tr)).
Proof.
  apply runs_both; try (intros; apply NoDup_nil_2).
  - intros p s Hs _ _. destruct s; try discriminate; apply NoDup_nil_2.
  - intros p c t f tr _ IH H H0. cbn in H, H0. apply andb_true_iff in H. apply IH; [apply H|lia].
  - intros p c t f tr _ IH H H0. cbn in H, H0. apply andb_true_iff in H. apply IH; [apply H|lia].
  - intros p c s tr tr' HR _ HR' _ H H0. cbn in H, H0. rewrite declared_app, (proj1 runs_refused _ _ _ HR H H0), (proj1 runs_refused _ _ _ HR' H H0). apply NoDup_nil_2.
  - intros p k l tr HR _ H H0. cbn in H. pose proof (proj2 runs_silent _ _ _ _ HR H) as E. unfold declared in *. cbn. destruct k; cbn; rewrite E; [apply NoDup_nil_2|apply NoDup_singleton|apply NoDup_singleton].
  - intros p l tr _ IH H H0. apply IH; assumption.
  - intros p i s l tr tr' HR IH HR' IH' H H0. cbn in H, H0. apply andb_true_iff in H. rewrite declared_app. apply NoDup_app. split_and!; [apply IH; [apply H|lia]| |apply IH'; [apply H|lia]].
    intros q Hq Hq'. apply declared_in in Hq, Hq'. destruct Hq as (e & He & _), Hq' as (e' & He' & _).
    destruct (proj1 runs_places _ _ _ HR _ He) as [r Er]. destruct (proj2 runs_places _ _ _ _ HR' _ He') as (j & r' & Hj & Er'). cbn in Er, Er'. subst q.
    rewrite <- app_assoc in Er'. apply app_inv_head in Er'. cbn in Er'. injection Er' as E _. lia.
Qed.
(** refused templates declare twice *)
Lemma total_pos {A} (f : A -> nat) l : total f l <> 0 -> exists l1 a l2, l = l1 ++ a :: l2 /\ f a <> 0.
Proof.
  induction l as [|a l IH]; cbn; [lia|]. intros H. destruct (decide (f a = 0)) as [E|E]; [|exists [], a, l; auto]. destruct IH as (l1 & b & l2 & -> & Hb); [lia|]. exists (a :: l1), b, l2. auto.
Qed.
Lemma runs_inside l1 s l2 p i tr : runs (p ++ [i + length l1]) s tr -> exists t1 t2, runs_all p i (l1 ++ s :: l2) (t1 ++ tr ++ t2).
Proof.
  revert i. induction l1 as [|a l1 IH]; intros i H; cbn in H.
  - rewrite Nat.add_0_r in H. destruct (runs_all_total l2 (Forall_true _ _ (runs_total)) p (S i)) as [t2 H2]. exists [], t2. cbn. constructor; assumption.
  - rewrite Nat.add_succ_r in H. destruct (IH (S i) H) as (t1 & t2 & H'). destruct (runs_total a (p ++ [i])) as [t0 H0]. exists (t0 ++ t1), t2. rewrite <- app_assoc. cbn. constructor; assumption.
Qed.
Lemma refused_declares s : treat_statement s false <> 0 -> forall p, exists tr q, runs p s tr /\ q ∈ declared tr.
Proof.
  induction s as [c t f Ht Hf|c s IH|k l _|l IH|s Hs] using stmt_rec'; intros H p; cbn in H.
  - destruct (decide (treat_statement t false = 0)) as [E|E].
    + destruct f as [f|]; [|lia]. destruct (Hf f eq_refl ltac:(lia) (p ++ [1])) as (tr & q & HR & Hq). exists tr, q. split; [apply r_else; exact HR|exact Hq].
    + destruct (Ht E (p ++ [0])) as (tr & q & HR & Hq). exists tr, q. split; [apply r_then; exact HR|exact Hq].
  - destruct (IH H (p ++ [0])) as (tr & q & HR & Hq). exists (tr ++ []), q. split; [apply r_again; [exact HR|apply r_leave]|]. rewrite app_nil_r. exact Hq.
  - destruct (runs_total (InitializationBlock k l) p) as [tr HR]. exists tr, p. split; [exact HR|]. inversion HR; subst; [discriminate|]. destruct k; [contradiction|left|left].
  - apply total_pos in H. destruct H as (l1 & s & l2 & -> & H). apply Forall_app in IH. destruct IH as [_ IH]. apply Forall_cons in IH. destruct IH as [IH _].
    destruct (IH H (p ++ [0 + length l1])) as (tr & q & HR & Hq). destruct (runs_inside l1 s l2 p 0 tr HR) as (t1 & t2 & HA). exists (t1 ++ tr ++ t2), q. split; [apply r_block; exact HA|].
    rewrite !declared_app, !elem_of_app. auto.
  - destruct s; try discriminate; contradiction.
Qed.
Lemma refused_twice s : treat_statement s true <> 0 -> forall p, exists tr, runs p s tr /\ ~ NoDup (declared tr).
Proof.
  induction s as [c t f Ht Hf|c s IH|k l _|l IH|s Hs] using stmt_rec'; intros H p; cbn in H.
  - destruct (decide (treat_statement t true = 0)) as [E|E].
    + destruct f as [f|]; [|lia]. destruct (Hf f eq_refl ltac:(lia) (p ++ [1])) as (tr & HR & Hq). exists tr. split; [apply r_else; exact HR|exact Hq].
    + destruct (Ht E (p ++ [0])) as (tr & HR & Hq). exists tr. split; [apply r_then; exact HR|exact Hq].
  - destruct (refused_declares s H (p ++ [0])) as (tr & q & HR & Hq). exists (tr ++ tr ++ []). split; [apply r_again; [exact HR|]; apply r_again; [exact HR|apply r_leave]|].
    rewrite app_nil_r, declared_app. intros HN. apply NoDup_app in HN. destruct HN as (_ & HN & _). exact (HN q Hq Hq).
  - destruct k; contradiction.
  - apply total_pos in H. destruct H as (l1 & s & l2 & -> & H). apply Forall_app in IH. destruct IH as [_ IH]. apply Forall_cons in IH. destruct IH as [IH _].
    destruct (IH H (p ++ [0 + length l1])) as (tr & HR & Hq). destruct (runs_inside l1 s l2 p 0 tr HR) as (t1 & t2 & HA). exists (t1 ++ tr ++ t2). split; [apply r_block; exact HA|].
    rewrite !declared_app. intros HN. apply NoDup_app in HN. destruct HN as (_ & _ & HN). apply NoDup_app in HN. apply Hq, HN.
  - destruct s; try discriminate; contradiction.
Qed.

(** custom templates *)
Definition flat {A B} (f : A -> list B) : list A -> list B := fix go l := match l with [] => [] | a :: l => f a ++ go l end.
Fixpoint leaves (s : stmt) : list stmt :=
  match s with
  | IfThenElse _ t f => leaves t ++ match f with Some f => leaves f | None => [] end
  | While _ s => leaves s
  | InitializationBlock _ l | Block l => flat leaves l
  | s => [s]
  end.
Lemma met_leaf : (forall p s tr, runs p s tr -> forall ev, ev ∈ tr -> simple ev.2 = true -> ev.2 ∈ leaves s) /\
  (forall p i l tr, runs_all p i l tr -> forall ev, ev ∈ tr -> simple ev.2 = true -> ev.2 ∈ flat leaves l).
Proof.
  apply runs_both; try (intros; match goal with H : _ ∈ [] |- _ => apply elem_of_nil in H; contradiction end).
  - intros p s Hs ev He _. apply elem_of_list_singleton in He. subst. destruct s; try discriminate; left.
  - intros p c t f tr _ IH ev He Hs. cbn. apply elem_of_app. left. apply IH; assumption.
  - intros p c t f tr _ IH ev He Hs. cbn. apply elem_of_app. right. apply IH; assumption.
  - intros p c s tr tr' _ IH _ IH' ev He Hs. apply elem_of_app in He. destruct He as [He|He]; [exact (IH ev He Hs)|exact (IH' ev He Hs)].
  - intros p k l tr _ IH ev He Hs. apply elem_of_cons in He. destruct He as [->|He]; [discriminate|]. exact (IH ev He Hs).
  - intros p l tr _ IH ev He Hs. exact (IH ev He Hs).
  - intros p i s l tr tr' _ IH _ IH' ev He Hs. cbn. apply elem_of_app. apply elem_of_app in He. destruct He as [He|He]; [left; exact (IH ev He Hs)|right; exact (IH' ev He Hs)].
Qed.
Lemma flat_in {A B} (f : A -> list B) l b : b ∈ flat f l -> exists l1 a l2, l = l1 ++ a :: l2 /\ b ∈ f a.
Proof.
  induction l as [|a l IH]; cbn; intros H; [apply elem_of_nil in H; contradiction|]. apply elem_of_app in H. destruct H as [H|H]; [exists [], a, l; auto|].
  destruct (IH H) as (l1 & a' & l2 & -> & H'). exists (a :: l1), a', l2. auto.
Qed.
Lemma leaf_met s e : e ∈ leaves s -> forall p, exists tr q, runs p s tr /\ (q, e) ∈ tr.
Proof.
  induction s as [c t f Ht Hf|c s IH|k l IH|l IH|s Hs] using stmt_rec'; intros H p; cbn in H.
  - apply elem_of_app in H. destruct H as [H|H].
    + destruct (Ht H (p ++ [0])) as (tr & q & HR & Hq). exists tr, q. split; [apply r_then; exact HR|exact Hq].
    + destruct f as [f|]; [|apply elem_of_nil in H; contradiction]. destruct (Hf f eq_refl H (p ++ [1])) as (tr & q & HR & Hq). exists tr, q. split; [apply r_else; exact HR|exact Hq].
  - destruct (IH H (p ++ [0])) as (tr & q & HR & Hq). exists (tr ++ []), q. split; [apply r_again; [exact HR|apply r_leave]|]. rewrite app_nil_r. exact Hq.
  - apply flat_in in H. destruct H as (l1 & s & l2 & -> & H). apply Forall_app in IH. destruct IH as [_ IH]. apply Forall_cons in IH. destruct IH as [IH _].
    destruct (IH H (p ++ [0 + length l1])) as (tr & q & HR & Hq). destruct (runs_inside l1 s l2 p 0 tr HR) as (t1 & t2 & HA). eexists _, q. split; [apply r_init; exact HA|].
    right. rewrite !elem_of_app. auto.
  - apply flat_in in H. destruct H as (l1 & s & l2 & -> & H). apply Forall_app in IH. destruct IH as [_ IH]. apply Forall_cons in IH. destruct IH as [IH _].
    destruct (IH H (p ++ [0 + length l1])) as (tr & q & HR & Hq). destruct (runs_inside l1 s l2 p 0 tr HR) as (t1 & t2 & HA). eexists _, q. split; [apply r_block; exact HA|].
    rewrite !elem_of_app. auto.
  - assert (e = s) as -> by (destruct s; try discriminate; apply elem_of_list_singleton in H; exact H). exists [(p, s)], p. split; [apply r_simple; exact Hs|left].
Qed.
Definition warned (s : stmt) : option string := match s with Declaration (KSignal Intermediate) x _ => Some x | _ => None end.
Definition fault (s : stmt) : nat := if forbidden s then 1 else 0.
Lemma custom_leaves s : custom_gate_statement s = (total fault (leaves s), omap warned (leaves s)).
Proof.
  assert (HT : forall l l', total fault (l ++ l') = total fault l + total fault l') by (intros l l'; induction l as [|a l IH]; [reflexivity|cbn; rewrite IH; lia]).
  assert (HL : forall l, Forall (fun s => custom_gate_statement s = (total fault (leaves s), omap warned (leaves s))) l ->
    both custom_gate_statement l = (total fault (flat leaves l), omap warned (flat leaves l))).
  { induction 1 as [|a l Hs _ IH]; [reflexivity|]. cbn [both flat]. rewrite Hs, IH, HT, omap_app. reflexivity. }
  induction s as [c t f Ht Hf|c s IH|k l IH|l IH|s Hs] using stmt_rec'; cbn [custom_gate_statement leaves].
  - rewrite Ht. destruct f as [f|]; [|rewrite app_nil_r; reflexivity]. rewrite (Hf f eq_refl), HT, omap_app. reflexivity.
  - exact IH.
  - apply HL. exact IH.
  - apply HL. exact IH.
  - destruct s as [| | | |[|[]|] | ? ? ? [] |[]| | | |]; try discriminate; reflexivity.
Qed.
Lemma custom_accepted D w : custom_gate_analysis D = Some w <->
  (forall e, e ∈ leaves (Block (body D)) -> forbidden e = false) /\ w = omap warned (leaves (Block (body D))).
Proof.
  unfold custom_gate_analysis. rewrite custom_leaves. destruct (Nat.eqb_spec (total fault (leaves (Block (body D)))) 0) as [E|E].
  - rewrite total_zero, Forall_forall in E. split; [intros H; injection H as <-|intros [_ ->]; reflexivity]. split; [|reflexivity].
    intros e He. specialize (E e He). unfold fault in E. destruct (forbidden e); [discriminate|reflexivity].
  - split; [discriminate|]. intros [H _]. destruct E. apply total_zero, Forall_forall. intros e He. unfold fault. rewrite (H e He). reflexivity.
Qed.
