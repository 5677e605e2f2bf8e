(** Concrete circuits for the properties of the circuit DAG, and a checker for the conditions on the
    calls that build them. *)
From stdpp Require Import prelude gmap fin_maps sorting strings.
From Coq Require Import ZArith Znumtheory.
From Verif Require Import ModArithModel AlgebraModel AlgebraSpec AlgebraProofs PipelineModel PipelineSpec R1csModel DagModel DagSpec NameProofs.
Open Scope nat_scope.

Definition ko0 : corr_order := map_to_list.
Lemma ko0_ok : valid_corr_order ko0.
Proof. intros m. reflexivity. Qed.

Definition fresh_b (d : dag) (o : dag_op) : bool :=
  match o, last (d_nodes d) with
  | (OpInput name _ | OpOutput name | OpIntermediate name), Some n => bool_decide (n_corr n !! name = None)
  | OpEdge to label _, Some n => match d_nodes d !! to with
      | Some t => forallb (fun '(s, id) => bool_decide (id ∉ n_locals t) || bool_decide (n_corr n !! dotted label s = None)) (map_to_list (n_corr t))
      | None => true end
  | _, _ => true
  end.
Definition keys_b (N : nat) (m : lin) : bool := forallb (fun '(k, _) => bool_decide (k <= N)) (map_to_list m).
Definition in_scope_b (d : dag) (o : dag_op) : bool :=
  match o, last (d_nodes d) with
  | OpConstraint c, Some n => keys_b (n_signals n) (c_a c) && keys_b (n_signals n) (c_b c) && keys_b (n_signals n) (c_c c)
  | OpOrdered name, Some n => match n_corr n !! name with Some id => bool_decide (id ∈ n_locals n) | None => false end
  | _, _ => true
  end.
Definition no_edges_b (d : dag) : bool := match last (d_adjacency d) with Some [] => true | _ => false end.
Definition in_order_b (d : dag) (o : dag_op) : bool :=
  match o, last (d_nodes d) with
  | OpOutput _, Some n => no_edges_b d && (n_inputs n =? 0)%nat && (n_intermediates n =? 0)%nat
  | OpInput _ true, Some n => no_edges_b d && (n_inputs n =? n_public_inputs n)%nat && (n_intermediates n =? 0)%nat
  | OpInput _ false, Some n => no_edges_b d && (n_intermediates n =? 0)%nat
  | OpIntermediate _, Some n => no_edges_b d
  | _, _ => true
  end.
Definition canon_b (p : Z) (m : lin) : bool := forallb (fun '(_, v) => (0 <=? v)%Z && (v <? p)%Z) (map_to_list m).
Definition canonical_b (p : Z) (o : dag_op) : bool := match o with OpConstraint c => canon_b p (c_a c) && canon_b p (c_b c) && canon_b p (c_c c) | _ => true end.
Fixpoint no_dot_b (s : string) : bool := match s with EmptyString => true | String c s => negb (bool_decide (c = dot)) && no_dot_b s end.
Definition named_b (d : dag) (o : dag_op) : bool :=
  match o, last (d_nodes d), last (d_adjacency d) with
  | (OpInput name _ | OpOutput name | OpIntermediate name), Some n, Some es => forallb (fun e => negb (bool_decide (identifier (e_label e) = identifier name))) es
  | OpEdge to label _, Some n, Some es => no_dot_b label && forallb (fun e => negb (bool_decide (e_label e = label))) es &&
      forallb (fun '(s, id) => bool_decide (id ∉ n_locals n) || negb (bool_decide (identifier s = identifier label))) (map_to_list (n_corr n))
  | _, _, _ => true
  end.
Definition ok_b (p : Z) (d : dag) (o : dag_op) : bool := fresh_b d o && in_scope_b d o && in_order_b d o && canonical_b p o && named_b d o.
Fixpoint run (p : Z) (ops : list dag_op) (d : dag) : option dag :=
  match ops with
  | [] => Some d
  | o :: ops => if ok_b p d o then match dag_step ko0 d o with Ok d' => run p ops d' | _ => None end else None
  end.

Lemma forallb_map {V} (f : string -> V -> bool) (m : gmap string V) k v : forallb (fun '(s, x) => f s x) (map_to_list m) = true -> m !! k = Some v -> f k v = true.
Proof. intros H Hk. apply elem_of_map_to_list in Hk. rewrite forallb_forall in H. apply elem_of_list_In in Hk. apply (H _ Hk). Qed.
Lemma fresh_b_ok d o : fresh_b d o = true -> fresh d o.
Proof.
  unfold fresh_b, fresh. destruct o, (last (d_nodes d)); try (intros; exact I); try (intros H; apply bool_decide_eq_true in H; exact H).
  intros H t s id Ht Hs Hl. rewrite Ht in H. pose proof (forallb_map (fun s id => bool_decide (id ∉ n_locals t) || bool_decide (n_corr n !! dotted label s = None)) _ _ _ H Hs) as Q. cbv beta in Q.
  apply orb_prop in Q. destruct Q as [Q|Q]; apply bool_decide_eq_true in Q; [contradiction|assumption].
Qed.
Lemma keys_b_ok N m k : keys_b N m = true -> in_lin k m -> 1 <= k <= N.
Proof.
  intros H [H0 [v Hk]]. apply elem_of_map_to_list, elem_of_list_In in Hk. unfold keys_b in H. rewrite forallb_forall in H. specialize (H _ Hk). cbv beta iota in H. apply bool_decide_eq_true in H. lia.
Qed.
Lemma in_scope_b_ok d o : in_scope_b d o = true -> in_scope d o.
Proof.
  unfold in_scope_b, in_scope. destruct o, (last (d_nodes d)) as [n|]; try (intros; exact I).
  - intros H. destruct (n_corr n !! name) as [id|]; [|discriminate]. apply bool_decide_eq_true in H. eauto.
  - intros H k Hk. rewrite !andb_true_iff in H. destruct H as [[Ha Hb] Hc]. destruct Hk as [Hk|[Hk|Hk]]; (eapply keys_b_ok; [|exact Hk]; assumption).
Qed.
Lemma no_edges_b_ok d : no_edges_b d = true -> last (d_adjacency d) = Some [].
Proof. unfold no_edges_b. destruct (last (d_adjacency d)) as [[]|]; (reflexivity || discriminate). Qed.
Lemma in_order_b_ok d o : in_order_b d o = true -> in_order d o.
Proof.
  unfold in_order_b, in_order. destruct o as [| ? [] | | | | | | |], (last (d_nodes d)) as [n|]; try (intros; exact I); rewrite ?andb_true_iff, ?Nat.eqb_eq; intros H.
  - destruct H as [[H1 H2] H3]. apply no_edges_b_ok in H1. auto.
  - destruct H as [H1 H3]. apply no_edges_b_ok in H1. auto.
  - destruct H as [[H1 H2] H3]. apply no_edges_b_ok in H1. auto.
  - apply no_edges_b_ok. assumption.
Qed.
Lemma canon_b_ok p m : canon_b p m = true -> canon p m.
Proof.
  unfold canon_b. rewrite forallb_forall. intros H k v Hk. apply elem_of_map_to_list, elem_of_list_In in Hk. specialize (H _ Hk). cbv beta iota in H. lia.
Qed.
Lemma canonical_b_ok p o : canonical_b p o = true -> canonical p o.
Proof. destruct o; cbn; try (intros; exact I). rewrite !andb_true_iff. intros [[Ha Hb] Hc]. split_and!; apply canon_b_ok; assumption. Qed.
Lemma no_dot_b_ok s : no_dot_b s = true -> no_dot s.
Proof. induction s as [|c s IH]; cbn; [auto|]. rewrite andb_true_iff, negb_true_iff, bool_decide_eq_false. intros [H1 H2]. auto. Qed.
Lemma named_b_ok d o : named_b d o = true -> well_named d o.
Proof.
  unfold named_b, well_named. destruct o, (last (d_nodes d)) as [n|], (last (d_adjacency d)) as [es|]; try (intros; exact I); rewrite ?andb_true_iff, ?forallb_forall;
    try (intros H e He; apply elem_of_list_In in He; specialize (H e He); rewrite negb_true_iff, bool_decide_eq_false in H; assumption).
  intros [[H1 H2] H3]. split; [apply no_dot_b_ok; assumption|]. split.
  - intros e He. apply elem_of_list_In in He. specialize (H2 e He). rewrite negb_true_iff, bool_decide_eq_false in H2. assumption.
  - intros s id Hs Hid. apply elem_of_map_to_list, elem_of_list_In in Hs. specialize (H3 _ Hs). cbv beta iota in H3. rewrite orb_true_iff, negb_true_iff, bool_decide_eq_false, bool_decide_eq_true in H3.
    destruct H3; [contradiction|assumption].
Qed.
Lemma run_history p ops pre d0 d : history (fun d o => well_formed p d o /\ well_named d o) p pre d0 -> run p ops d0 = Some d ->
  history (fun d o => well_formed p d o /\ well_named d o) p (pre ++ ops) d.
Proof.
  revert pre d0. induction ops as [|o ops IH]; intros pre d0 H; cbn [run].
  - intros [= <-]. rewrite app_nil_r. assumption.
  - destruct (ok_b p d0 o) eqn:E; [|discriminate]. destruct (dag_step ko0 d0 o) as [d1| |] eqn:Ed; try discriminate. intros HR.
    change (pre ++ o :: ops) with (pre ++ [o] ++ ops). rewrite app_assoc. eapply IH; [|exact HR]. eapply h_step; [exact ko0_ok|exact H| |exact Ed].
    unfold ok_b in E. rewrite !andb_true_iff in E. destruct E as [[[[E1 E2] E3] E4] E5].
    split; [split_and!; [apply fresh_b_ok|apply in_scope_b_ok|apply in_order_b_ok|apply canonical_b_ok]; assumption|apply named_b_ok; assumption].
Qed.
Lemma history_mono (P Q : dag -> dag_op -> Prop) p ops d : (forall d o, P d o -> Q d o) -> history P p ops d -> history Q p ops d.
Proof. intros H. induction 1; [constructor|econstructor; eauto]. Qed.
Lemma history_with P p ops d : history P p ops d -> built_with P p d.
Proof. induction 1; [constructor|econstructor; eauto]. Qed.

(** Two levels: [A] is a custom gate, [B] instantiates [A] and has an equality, a constant and a linear
    constraint, main instantiates [B] twice and [A] once. *)
Local Open Scope string_scope.
Definition c3 (a b c : list (nat * Z)) : constraint := Constraint (list_to_map a) (list_to_map b) (list_to_map c).
Definition ex_ops : list dag_op :=
  [ OpNode "A(3)" [3%Z] false true;
    OpOutput "o"; OpInput "i" true; OpOrdered "i"; OpOrdered "o";
    OpNode "B()" [] false false;
    OpOutput "r"; OpInput "x" true; OpInput "y" true; OpIntermediate "t"; OpIntermediate "u";
    OpOrdered "x"; OpOrdered "y"; OpOrdered "r"; OpOrdered "t"; OpOrdered "u";
    OpEdge 0 "a" false; OpIndexes 1;
    OpConstraint (c3 [] [] [(7, 6%Z); (2, 1%Z)]);
    OpConstraint (c3 [] [] [(4, 6%Z); (6, 1%Z)]);
    OpConstraint (c3 [(4, 1%Z)] [(3, 1%Z)] [(1, 1%Z)]);
    OpConstraint (c3 [] [] [(5, 1%Z); (0, 4%Z)]);
    OpNode "Main()" [] false false;
    OpOutput "out"; OpInput "p" true; OpInput "q" false; OpInput "unused" false; OpIntermediate "m";
    OpOrdered "p"; OpOrdered "q"; OpOrdered "unused"; OpOrdered "out"; OpOrdered "m";
    OpEdge 1 "b[0]" false; OpEdge 1 "b[1]" false; OpEdge 0 "g" false; OpIndexes 3;
    OpConstraint (c3 [] [] [(7, 6%Z); (2, 1%Z)]);
    OpConstraint (c3 [] [] [(8, 6%Z); (3, 1%Z)]);
    OpConstraint (c3 [] [] [(14, 6%Z); (6, 1%Z)]);
    OpConstraint (c3 [] [] [(15, 6%Z); (2, 1%Z); (3, 5%Z)]);
    OpConstraint (c3 [(13, 1%Z)] [(20, 1%Z)] [(1, 1%Z); (0, 3%Z)]);
    OpConstraint (c3 [] [] [(21, 6%Z); (6, 1%Z)]) ].
Definition ex_dag : dag := match run 7 ex_ops (dag_new 7) with Some d => d | None => dag_new 7 end.
Lemma ex_history : history (fun d o => well_formed 7 d o /\ well_named d o) 7 ex_ops ex_dag.
Proof. apply (run_history 7 ex_ops [] (dag_new 7)); [constructor|]. vm_compute. reflexivity. Qed.
Lemma ex_built : built_with (fun d o => well_formed 7 d o /\ well_named d o) 7 ex_dag.
Proof. eapply history_with, ex_history. Qed.
Lemma ex_well_formed : built_with (well_formed 7) 7 ex_dag.
Proof. eapply history_with, history_mono; [|exact ex_history]. intros ? ? []. assumption. Qed.
Lemma ex_fresh : built_with fresh 7 ex_dag.
Proof. eapply history_with, history_mono; [|exact ex_history]. intros ? ? [[] _]. assumption. Qed.
Definition ex_clean : dag := clean_constraints ex_dag.
Lemma ex_compiled : compiled 7 ex_clean.
Proof. exists ex_dag. split; [exact ex_well_formed|]. split; [vm_compute; discriminate|reflexivity]. Qed.
Definition ex_flags : flags := Flags 3 true false.
