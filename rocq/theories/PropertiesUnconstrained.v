(** C71: the warnings about unconstrained signals. *)
From stdpp Require Import prelude gmap fin_maps sorting strings.
From Coq Require Import ZArith.
From Verif Require Import ModArithModel AlgebraModel AlgebraSpec AlgebraProofs LinearSimpProofs PipelineModel PipelineSpec PipelineProofs DagModel DagSpec DagProofs NameProofs WalkProofs FlattenProofs MapProofs PortProofs CompiledProofs DagExamples
  UnconstrainedModel UnconstrainedSpec UnconstrainedProofs.
Open Scope nat_scope.

(** The analysis never panics. *)
Theorem C71_never_panics : forall p d ko wo, built_with (as_compiled p) p d -> valid_corr_order ko -> (forall m, wo m ≡ₚ map_to_list m) ->
  exists ws, constraint_analysis ko wo d = Ok ws.
Proof. intros p d ko wo HB Hko Hwo. destruct (analysis_ok p d HB ko wo Hko Hwo) as (ws & E & _). eauto. Qed.
Print Assumptions C71_never_panics.

(** Every warning is true of an examined template: the named signals appear in none of its constraints, their number is
    right, and they belong to the template or to its components as the warning says. *)
Theorem C71_warnings_are_true : forall p d ko wo ws w, built_with (as_compiled p) p d -> valid_corr_order ko -> (forall m, wo m ≡ₚ map_to_list m) ->
  constraint_analysis ko wo d = Ok ws -> w ∈ ws -> exists i, examined d i /\ correct d i w.
Proof.
  intros p d ko wo ws w HB Hko Hwo E Hw. destruct (analysis_ok p d HB ko wo Hko Hwo) as (ws' & E' & HW). rewrite E in E'. injection E' as <-.
  apply HW in Hw. destruct Hw as (i & n & Hn & HX & HS). exists i. split; [assumption|]. eapply says_correct; eassumption.
Qed.
Print Assumptions C71_warnings_are_true.

(** Every unconstrained signal of an examined template is in exactly one warning. *)
Theorem C71_every_signal_is_reported : forall p d ko wo ws i s, built_with (as_compiled p) p d -> valid_corr_order ko -> (forall m, wo m ≡ₚ map_to_list m) ->
  constraint_analysis ko wo d = Ok ws -> examined d i -> unconstrained d i s ->
  exists w, w ∈ ws /\ about d i s w /\ correct d i w /\ forall w', w' ∈ ws -> about d i s w' -> w' = w.
Proof.
  intros p d ko wo ws i s HB Hko Hwo E HX HU. destruct (analysis_ok p d HB ko wo Hko Hwo) as (ws' & E' & HW). rewrite E in E'. injection E' as <-.
  destruct HX as (n & Hn & HX). assert (HX' : examined d i) by (exists n; auto). destruct (says_about p d HB ko i n s Hko Hn HU) as (w & HS & HA & HQ).
  exists w. split_and!; [apply HW; eauto|assumption|eapply says_correct; eassumption|].
  intros w' Hw' HA'. apply HQ; [|assumption]. apply HW in Hw'. destruct Hw' as (j & m & Hm & HX2 & HS'). destruct (says_correct p d HB ko j m w' Hko Hm HS') as (m' & Hm' & HC).
  rewrite Hm in Hm'. injection Hm' as <-. assert (j = i) as ->; [|congruence].
  eapply examined_unique; [exact HX2|exact HX'|exact Hm|exact Hn|]. destruct HA' as (n' & Hn' & HA'). rewrite Hn in Hn'. injection Hn' as <-.
  destruct w'; destruct HC as [HC _], HA' as [HA' _]; congruence.
Qed.
Print Assumptions C71_every_signal_is_reported.

(** An unconstrained signal that is neither an input nor an output of its template can have any value in each instance of the
    template: the circuit stays satisfied. *)
Theorem C71_unconstrained_signals_are_free : forall p d x s k n ρ v, built_with (as_compiled p) p d -> d_nodes d <> [] -> instance d x ->
  unconstrained_signal d (i_node x) s k -> d_nodes d !! i_node x = Some n -> k ∈ n_locals n -> k ∉ n_io n ->
  circuit_holds p d ρ -> circuit_holds p d (fun j => if Nat.eqb j (global x k) then v else ρ j).
Proof.
  intros p d x s k n ρ v HB HNE Hx (n' & Hn' & Hs & Hk & HU & _) Hn HL HIO HH. rewrite Hn in Hn'. injection Hn' as <-.
  pose proof (c_numbered _ _ HB) as HNum. pose proof (c_named _ _ HB) as HNa. pose proof (built_reaches _ _ (c_wf _ _ HB)) as HR. pose proof (built_sighted _ _ HB) as HS.
  pose proof (c_compact _ _ HB) as HCo.
  assert (HK : forall y m c k', instance d y -> d_nodes d !! i_node y = Some m -> c ∈ n_constraints m -> in_c k' c -> uses c k' -> global y k' <> global x k).
  { intros y m c k' Hy Hm Hc Hin Hu Heq. pose proof (proj1 (HS _ _ Hm) _ _ Hc Hin) as HV. apply (HR _ _ Hm), (visible_lookup _ _ _ _ Hm) in HV.
    destruct HV as [HV|(es & e & t & j & Hes & He & Ht & Hj & ->)].
    - destruct (signal_owner_unique d y x m n k' k) as [-> ->]; try assumption. rewrite Hn in Hm. injection Hm as <-. exact (HU _ Hc Hu).
    - destruct (lookup_lt_is_Some_2 (d_adjacency d) (e_goes_to e)) as [est Hest]; [rewrite (nu_length _ HNum); eapply lookup_lt_Some; exact Ht|].
      destruct (HCo _ _ _ Ht Hest) as (C1 & _ & _ & C4). destruct (nn_kinds _ _ _ _ (nu_node _ HNum _ _ _ Ht Hest)) as [K1 _].
      pose proof Hj as Hj'. rewrite C4 in Hj'. apply elem_of_seq in Hj'. apply elem_of_list_lookup in He. destruct He as [q Hq].
      pose proof (inst_sub d y es q e Hy Hes Hq) as Hz. set (z := Inst (i_pos y ++ [q]) (e_goes_to e) (i_off y + e_in e) (dotted (i_path y) (e_label e))) in *.
      destruct (signal_owner_unique d z x t n j k) as [Ezx ->]; try assumption.
      { apply C1. lia. }
      { rewrite <- Heq. unfold global, z. cbn. lia. }
      assert (t = n) as ->; [|contradiction]. rewrite <- Ezx in Hn. unfold z in Hn. cbn in Hn. congruence. }
  intros y Hy. specialize (HH y Hy). unfold satisfies, template_constraints in *. destruct (d_nodes d !! i_node y) as [m|] eqn:Hm; [|constructor].
  rewrite Forall_forall in HH |- *. intros c Hc. specialize (HH c Hc). unfold holds in *.
  assert (HE : forall m0, (forall k' w, m0 !! k' = Some w -> w <> 0%Z -> k' <> 0 -> global y k' <> global x k) ->
    leval (seen_by y (fun j => if Nat.eqb j (global x k) then v else ρ j)) m0 = leval (seen_by y ρ) m0).
  { intros m0 H0. rewrite <- (leval_remove_zeros _ m0), <- (leval_remove_zeros (seen_by y ρ) m0). apply leval_agree. intros j [w Hw]. apply remove_zeros_lookup in Hw.
    destruct Hw as [Hw Hz]. destruct j as [|j]; [reflexivity|]. cbn [sv]. unfold seen_by. destruct (Nat.eqb_spec (global y (S j)) (global x k)) as [E|]; [|reflexivity].
    exfalso. eapply H0; [exact Hw|exact Hz|discriminate|exact E]. }
  rewrite !HE; [exact HH|..]; intros k' w Hw Hz Hk0; eapply (HK y m c k' Hy Hm Hc); unfold in_c, in_lin, uses; eauto 8.
Qed.
Print Assumptions C71_unconstrained_signals_are_free.

(** ** concrete circuits *)
Definition visible_b (d : dag) (i k : nat) : bool :=
  match d_nodes d !! i with Some n => bool_decide (k ∈ n_locals n) | None => false end ||
  match d_adjacency d !! i with
  | Some es => existsb (fun e => match d_nodes d !! e_goes_to e with Some t => existsb (fun j => Nat.eqb k (e_in e + j)) (n_io t) | None => false end) es
  | None => false
  end.
Definition in_sight_b (d : dag) (o : dag_op) : bool :=
  let main := length (d_nodes d) - 1 in
  let see (m : lin) := forallb (fun '(k, _) => Nat.eqb k 0 || visible_b d main k) (map_to_list m) in
  match o with
  | OpConstraint c => see (c_a c) && see (c_b c) && see (c_c c)
  | OpUnderscored k => visible_b d main k
  | _ => true
  end.
Fixpoint run_seen (p : Z) (ops : list dag_op) (d : dag) : option dag :=
  match ops with
  | [] => Some d
  | o :: ops => if ok_b p d o && in_sight_b d o then match dag_step ko0 d o with Ok d' => run_seen p ops d' | _ => None end else None
  end.
Lemma visible_b_ok d i k : visible_b d i k = true -> visible d i k.
Proof.
  unfold visible_b. rewrite orb_true_iff. intros [H|H].
  - left. destruct (d_nodes d !! i) as [n|]; [|discriminate]. apply bool_decide_eq_true in H. eauto.
  - right. destruct (d_adjacency d !! i) as [es|] eqn:Ees; [|discriminate]. apply existsb_exists in H. destruct H as (e & He & H). apply elem_of_list_In in He.
    destruct (d_nodes d !! e_goes_to e) as [t|] eqn:Et; [|discriminate]. apply existsb_exists in H. destruct H as (j & Hj & H). apply elem_of_list_In in Hj. apply Nat.eqb_eq in H.
    exists es, e, t, j. auto.
Qed.
Lemma in_sight_b_ok d o : in_sight_b d o = true -> in_sight d o.
Proof.
  destruct o; cbn; try (intros; exact I).
  - rewrite !andb_true_iff, !forallb_forall. intros [[Ha Hb] Hc] k Hk.
    assert (HG : forall m : lin, (forall x, In x (map_to_list m) -> (let '(k, _) := x in Nat.eqb k 0 || visible_b d (length (d_nodes d) - 1) k) = true) -> in_lin k m -> visible d (length (d_nodes d) - 1) k).
    { intros m Hm [H0 [v Hv]]. apply elem_of_map_to_list, elem_of_list_In in Hv. specialize (Hm _ Hv). cbn in Hm. apply orb_true_iff in Hm. destruct Hm as [Hm|Hm]; [apply Nat.eqb_eq in Hm; contradiction|].
      apply visible_b_ok. assumption. }
    destruct Hk as [Hk|[Hk|Hk]]; (eapply HG; [|exact Hk]; assumption).
  - apply visible_b_ok.
Qed.
Lemma run_seen_ok p ops d0 d : built_with (as_compiled p) p d0 -> run_seen p ops d0 = Some d -> built_with (as_compiled p) p d.
Proof.
  revert d0. induction ops as [|o ops IH]; intros d0 H; cbn [run_seen].
  - intros [= <-]. assumption.
  - destruct (ok_b p d0 o && in_sight_b d0 o) eqn:E; [|discriminate]. destruct (dag_step ko0 d0 o) as [d1| |] eqn:Ed; try discriminate. intros HR.
    eapply IH; [|exact HR]. eapply bw_step; [exact ko0_ok|exact H| |exact Ed].
    rewrite andb_true_iff in E. destruct E as [E HV]. unfold ok_b in E. rewrite !andb_true_iff in E. destruct E as [[[[E1 E2] E3] E4] E5].
    split; [split_and!; [apply fresh_b_ok|apply in_scope_b_ok|apply in_order_b_ok|apply canonical_b_ok]; assumption|].
    split; [apply named_b_ok; assumption|apply in_sight_b_ok; assumption].
Qed.
Definition wo0 : array_order := map_to_list.
Local Open Scope string_scope.

(** [template A() { signal input x[2]; signal output o; signal input z; o <== x[0]; }]
    [template Main() { signal input a; signal output r; signal m; signal h; component c = A(); c.x[0] <== a; r <== c.o; _ <== h; }]
    (the second and third inputs of [c] get values by [<--]) *)
Definition un_ops : list dag_op :=
  [ OpNode "A()" [] false false;
    OpOutput "o"; OpInput "x[0]" true; OpInput "x[1]" true; OpInput "z" true;
    OpConstraint (c3 [] [] [(1, 6%Z); (2, 1%Z)]);
    OpNode "Main()" [] false false;
    OpOutput "r"; OpInput "a" false; OpIntermediate "m"; OpIntermediate "h"; OpIntermediate "k[0]"; OpIntermediate "k[1]"; OpIntermediate "k[2]";
    OpEdge 0 "c" false; OpIndexes 1;
    OpConstraint (c3 [] [] [(9, 6%Z); (2, 1%Z); (5, 0%Z)]);
    OpConstraint (c3 [] [] [(1, 6%Z); (8, 1%Z)]);
    OpConstraint (c3 [(6, 1%Z)] [(6, 1%Z)] [(2, 1%Z)]);
    OpUnderscored 4 ].
Definition un_dag : dag := match run_seen 7 un_ops (dag_new 7) with Some d => d | None => dag_new 7 end.
Lemma un_built : built_with (as_compiled 7) 7 un_dag.
Proof. apply (run_seen_ok 7 un_ops (dag_new 7)); [constructor|]. vm_compute. reflexivity. Qed.
Example C71_example : built_with (as_compiled 7) 7 un_dag /\ valid_corr_order ko0 /\ (forall m, wo0 m ≡ₚ map_to_list m) /\
  constraint_analysis ko0 wo0 un_dag = Ok
    [ Single Local "A()" "x[1]"; Single Local "A()" "z";
      Single Local "Main()" "m"; Single IOSubcomponent "Main()" "c.x[1]"; Single IOSubcomponent "Main()" "c.z"; Several Local "Main()" "k" 2 "k[0]" "k[2]" ].
Proof. split_and!; [exact un_built|exact ko0_ok|reflexivity|]. vm_compute. reflexivity. Qed.

Definition unconstrained_b (d : dag) (i : nat) (s : string) (k : nat) : bool :=
  match d_nodes d !! i with
  | Some n => bool_decide (n_corr n !! s = Some k) && visible_b d i k && bool_decide (k ∉ n_underscored n) &&
      forallb (fun c => forallb (fun m : lin => match m !! k with Some v => Z.eqb v 0 | None => true end) [c_a c; c_b c; c_c c]) (n_constraints n)
  | None => false
  end.
Lemma unconstrained_b_ok d i s k : unconstrained_b d i s k = true -> unconstrained_signal d i s k.
Proof.
  unfold unconstrained_b, unconstrained_signal. destruct (d_nodes d !! i) as [n|]; [|discriminate]. rewrite !andb_true_iff, forallb_forall. intros [[[H1 H2] H3] H4].
  exists n. apply bool_decide_eq_true in H1, H3. apply visible_b_ok in H2. split_and!; try assumption; [reflexivity|].
  intros c Hc (v & Hv & HU). apply elem_of_list_In in Hc. specialize (H4 c Hc). cbn in H4. rewrite !andb_true_iff in H4. destruct H4 as (Ha & Hb & Hcc & _).
  destruct HU as [HU|[HU|HU]]; rewrite HU in *; [apply Z.eqb_eq in Ha|apply Z.eqb_eq in Hb|apply Z.eqb_eq in Hcc]; contradiction.
Qed.
Definition no_const (m : lin) : bool := match m !! 0 with Some _ => false | None => true end.
Definition no_const_b (d : dag) : bool := forallb (fun n => forallb (fun c => no_const (c_a c) && no_const (c_b c) && no_const (c_c c)) (n_constraints n)) (d_nodes d).
Lemma no_const_b_ok p d : no_const_b d = true -> circuit_holds p d (fun _ => 0%Z).
Proof.
  unfold no_const_b. rewrite forallb_forall. intros HB x Hx. unfold satisfies. apply Forall_forall. intros c Hc. unfold holds.
  assert (HQ : forall m : lin, no_const m = true -> leval (seen_by x (fun _ => 0%Z)) m = 0%Z).
  { intros m HM. unfold no_const in HM. destruct (m !! 0) eqn:E0; [discriminate|]. clear HM. revert E0. induction m as [|k v m Hk IH] using map_ind; intros HM; [reflexivity|].
    destruct (decide (k = 0)) as [->|Hk0]; [rewrite lookup_insert in HM; discriminate|].
    rewrite lookup_insert_ne in HM by assumption. rewrite leval_insert by assumption. rewrite (IH HM). destruct k; [contradiction|]. cbn [sv]. unfold seen_by. lia. }
  unfold template_constraints in Hc. destruct (d_nodes d !! i_node x) as [n|] eqn:En; [|apply elem_of_nil in Hc; contradiction].
  apply elem_of_list_lookup_2, elem_of_list_In in En. specialize (HB n En). rewrite forallb_forall in HB. apply elem_of_list_In in Hc. specialize (HB c Hc).
  rewrite !andb_true_iff in HB. destruct HB as [[Z1 Z2] Z3]. rewrite !HQ by assumption. reflexivity.
Qed.
(** the hypotheses about examined templates and about free signals, for the element [k[2]] of the circuit above *)
Example C71_example_signal : examined un_dag 1 /\ unconstrained un_dag 1 "k[2]" /\
  exists x n, instance un_dag x /\ unconstrained_signal un_dag (i_node x) "k[2]" 7 /\ d_nodes un_dag !! i_node x = Some n /\ 7 ∈ n_locals n /\ 7 ∉ n_io n /\
    circuit_holds 7 un_dag (fun _ => 0%Z).
Proof.
  assert (HU : unconstrained_signal un_dag 1 "k[2]" 7) by (apply unconstrained_b_ok; vm_compute; reflexivity).
  assert (HL : length (d_nodes un_dag) = 2) by (vm_compute; reflexivity).
  destruct (d_nodes un_dag) as [|a [|b [|]]] eqn:E; cbn in HL; try discriminate.
  assert (H0 : exists a', d_nodes un_dag !! 0 = Some a' /\ n_template a' = "A()") by (destruct (d_nodes un_dag !! 0) as [a'|] eqn:Ea; [exists a'; split; [reflexivity|]|exfalso; rewrite E in Ea; discriminate];
    assert (HT : option_map n_template (d_nodes un_dag !! 0) = Some "A()") by (vm_compute; reflexivity); rewrite Ea in HT; injection HT as HT; exact HT).
  assert (H1 : option_map (fun m => (n_template m, n_custom m, bool_decide (7 ∈ n_locals m), bool_decide (7 ∈ n_io m))) (d_nodes un_dag !! 1) = Some ("Main()", false, true, false)) by (vm_compute; reflexivity).
  rewrite E in H1. cbn in H1. injection H1 as T1 C1 L1 I1. apply bool_decide_eq_true in L1. apply bool_decide_eq_false in I1.
  assert (Hb : d_nodes un_dag !! 1 = Some b) by (rewrite E; reflexivity).
  split_and!.
  - exists b. split_and!; [exact Hb|exact C1|]. intros j m Hj Hm _. assert (j = 0) as -> by lia. destruct H0 as (a' & Ha & Ta). rewrite Ha in Hm. injection Hm as <-. rewrite Ta, T1. discriminate.
  - exists 7. exact HU.
  - exists (Inst [] 1 0 "main"), b. split_and!; try assumption; [|reflexivity|].
    + assert (HI : instance un_dag (Inst [] (length (d_nodes un_dag) - 1) 0 "main")) by (apply (inst_main un_dag b); rewrite E; reflexivity). rewrite E in HI. exact HI.
    + apply no_const_b_ok. vm_compute. reflexivity.
Qed.

(** A template instance whose name is the name of an earlier one is not examined, and the name leaves out the tags inside buses.
    With [bus B() { signal {t} v; }]
    [template T() { input B() b; signal output o; if (b.v.t == 1) { o <== b.v; } else { o <-- b.v; } }]
    main has a component of [T()] with [t = 1] and one with [t = 2]: in the second one both signals are unconstrained, and there is no warning. *)
Definition same_ops : list dag_op :=
  [ OpNode "T()" [] false false; OpOutput "o"; OpInput "b.v" true; OpConstraint (c3 [] [] [(1, 6%Z); (2, 1%Z)]);
    OpNode "T()" [] false false; OpOutput "o"; OpInput "b.v" true;
    OpNode "Main()" [] false false; OpOutput "r"; OpInput "a" false;
    OpEdge 0 "c" false; OpEdge 1 "d" false; OpIndexes 2;
    OpConstraint (c3 [] [] [(4, 6%Z); (2, 1%Z)]); OpConstraint (c3 [] [] [(6, 6%Z); (2, 1%Z)]);
    OpConstraint (c3 [] [] [(1, 6%Z); (3, 1%Z); (5, 1%Z)]) ].
Definition same_dag : dag := match run_seen 7 same_ops (dag_new 7) with Some d => d | None => dag_new 7 end.
Theorem C71_same_name_refuted : ~ (forall p d ko wo ws i n s, built_with (as_compiled p) p d -> valid_corr_order ko -> (forall m, wo m ≡ₚ map_to_list m) ->
  constraint_analysis ko wo d = Ok ws -> d_nodes d !! i = Some n -> n_custom n = false -> unconstrained d i s -> exists w, w ∈ ws).
Proof.
  intros H. assert (HB : built_with (as_compiled 7) 7 same_dag) by (apply (run_seen_ok 7 same_ops (dag_new 7)); [constructor|]; vm_compute; reflexivity).
  assert (HA : constraint_analysis ko0 wo0 same_dag = Ok []) by (vm_compute; reflexivity).
  assert (HU : unconstrained_signal same_dag 1 "o" 1) by (apply unconstrained_b_ok; vm_compute; reflexivity).
  pose proof HU as (n & Hn & _). assert (HC : option_map n_custom (d_nodes same_dag !! 1) = Some false) by (vm_compute; reflexivity). rewrite Hn in HC. injection HC as HC.
  destruct (H 7%Z same_dag ko0 wo0 [] 1 n "o" HB ko0_ok (fun m => reflexivity _) HA Hn HC (ex_intro _ _ HU)) as (w & Hw). apply elem_of_nil in Hw. exact Hw.
Qed.
Print Assumptions C71_same_name_refuted.
