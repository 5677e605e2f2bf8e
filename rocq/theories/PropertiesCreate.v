(** C63: the generated code creates exactly the sub-components of the circuit. *)
From stdpp Require Import prelude gmap fin_maps sorting strings pretty.
From Coq Require Import ZArith Lia.
From Verif Require Import ModArithModel AlgebraModel PipelineModel DagModel DagSpec DagProofs WalkProofs CompiledProofs CreateModel CreateSpec CreateProofs CreateTreeProofs.
Open Scope nat_scope.
Local Open Scope string_scope.

(** ** a program *)
(** [T0]: one input, one output; [T1]: no inputs, one output; [T2] declares [component c[2][3]] and
    initialises four positions with [T0], [component b[2]] with [T0] and [T1] (the second one
    [parallel]), [component u] with [T1], and [component v[2]] with [T0], the second one [parallel]; the
    main template [T3] has two components of [T2]. *)
Definition plain (name : string) (inputs outputs : list string) (comps : list component_data) (cs : list connexion) : executed :=
  Executed name false false [] outputs [] inputs [] [] [] [] comps 0 cs.
Definition at_ (name : string) (par : bool) (idx : list nat) (to : nat) : connexion := arrow (name +:+ bracketed idx) name par idx to.
Definition ex_t2 : executed := plain "T2" ["x"] ["y"; "z"]
  [ComponentData "u" []; ComponentData "c" [2; 3]; ComponentData "b" [2]; ComponentData "unused" [7]; ComponentData "v" [2]]
  [at_ "c" false [1; 2] 0; at_ "c" false [0; 1] 0; at_ "b" true [1] 1; at_ "u" false [] 1; at_ "b" false [0] 0; at_ "c" false [1; 0] 0; at_ "c" false [0; 0] 0;
   at_ "v" true [1] 0; at_ "v" false [0] 0].
Definition ex_t3 : executed := plain "T3" ["in"] ["out"] [ComponentData "p" []; ComponentData "q" []] [at_ "q" false [] 2; at_ "p" false [] 2].
Definition ex_program : list executed := [plain "T0" ["a"] ["o"] [] []; plain "T1" [] ["o"] [] []; ex_t2; ex_t3].
Definition ko_id : corr_order := fun m => map_to_list m.
Lemma ko_id_valid : valid_corr_order ko_id.
Proof. intros m. reflexivity. Qed.
(** a test for [executed_ok] *)
Fixpoint all_below (a b : list nat) : bool := match a, b with [], [] => true | x :: a, y :: b => (x <? y)%nat && all_below a b | _, _ => false end.
Lemma all_below_ok a : forall b, all_below a b = true -> Forall2 lt a b.
Proof. induction a as [|x a IH]; intros [|y b]; cbn; try done. intros [H1%Nat.ltb_lt H2]%andb_true_iff. constructor; auto. Qed.
Definition executed_okb (i : nat) (x : executed) : bool :=
  bool_decide (NoDup (m_name <$> x_components x)) && bool_decide (NoDup ((fun c => (k_name c, k_indexed c)) <$> x_connexions x)) &&
  forallb (fun c => (k_to c <? i)%nat && existsb (fun m => bool_decide (m_name m = k_name c) && all_below (k_indexed c) (m_length m)) (x_components x)) (x_connexions x).
Lemma executed_okb_ok i x : executed_okb i x = true -> executed_ok i x.
Proof.
  unfold executed_okb. intros [[H1%bool_decide_eq_true_1 H2%bool_decide_eq_true_1]%andb_true_iff H3]%andb_true_iff. rewrite forallb_forall in H3. constructor; [done| |done|].
  - intros c Hc. apply elem_of_list_In, H3 in Hc. apply andb_true_iff in Hc as [_ (m & Hm & [E%bool_decide_eq_true_1 F]%andb_true_iff)%existsb_exists].
    exists m. split; [by apply elem_of_list_In|]. split; [done|]. by apply all_below_ok.
  - intros c Hc. apply elem_of_list_In, H3 in Hc. by apply andb_true_iff in Hc as [L%Nat.ltb_lt _].
Qed.
Definition program_okb (model : list executed) : bool := negb (bool_decide (length model = 0)) && forallb (fun b => b) (imap executed_okb model).
Lemma program_okb_ok model : program_okb model = true -> program_ok model.
Proof.
  intros [H1 H2]%andb_true_iff. split; [by destruct model|]. intros i x Hx. apply executed_okb_ok. rewrite forallb_forall in H2. apply H2. apply elem_of_list_In.
  apply elem_of_list_lookup. exists i. by rewrite list_lookup_imap, Hx.
Qed.
Lemma ex_program_ok : program_ok ex_program.
Proof. apply program_okb_ok. vm_compute. reflexivity. Qed.

(** ** the theorems *)
(** No unwrap, index or lookup fails on the way from the executed templates to the code. *)
Theorem C63_total : forall ko p model, program_ok model -> valid_corr_order ko -> exists d xs ts stats,
  insert_all ko p model = Ok (d, xs) /\ export_all xs = Ok ts /\ length ts = length model /\ (forall t, t ∈ ts -> exists bs, template_buckets t = Ok bs) /\ produce_stats d = Ok stats.
Proof.
  intros ko p model HP Hko. destruct (program_compiles ko p model HP Hko) as (d & xs & ts & E1 & E2 & C). exists d, xs, ts. eexists. split_and!; [done|done|apply (ci_len _ _ _ _ C)| |].
  - intros t [i Hi]%elem_of_list_lookup. apply lookup_lt_Some in Hi as Hl. rewrite (ci_len _ _ _ _ C) in Hl. destruct (lookup_lt_is_Some_2 _ _ Hl) as [x Hx].
    destruct (circuit_buckets _ _ _ _ C i x t Hx Hi) as (bs & E & _). eauto.
  - eapply produce_stats_ok. exact C.
Qed.
Print Assumptions C63_total.
(** The C++ code of a template creates, for every initialisation in the source, one component: with
    the signals and the number of its edge in the DAG, recorded where the template's instructions
    look for it. *)
Theorem C63_children : forall p model d ts i x t bs es, program_ok model -> compiles p model d ts -> model !! i = Some x -> ts !! i = Some t ->
  template_buckets t = Ok bs -> d_adjacency d !! i = Some es ->
  exists l : list (connexion * edge), l.*1 ≡ₚ x_connexions x /\ l.*2 ≡ₚ es /\
    forall start ctx, Forall2 (fun g ce => creates model x t start ctx ce.1 ce.2 g) (cpp_children start ctx bs) l.
Proof. intros p model d ts i x t bs es HP HC. eapply children_create, compiles_circuit; eassumption. Qed.
Print Assumptions C63_children.
(** The places in the table of sub-components are different and inside the table. *)
Theorem C63_table : forall p model d ts i x t bs start ctx, program_ok model -> compiles p model d ts -> model !! i = Some x -> ts !! i = Some t -> template_buckets t = Ok bs ->
  NoDup (g_at <$> cpp_children start ctx bs) /\ Forall (fun g => g_at g < ii_number t) (cpp_children start ctx bs).
Proof. intros p model d ts i x t bs start ctx HP HC. eapply children_table, compiles_circuit; eassumption. Qed.
Print Assumptions C63_table.
(** The table of parallel flags is written exactly for arrays whose components differ, and tells the truth. *)
Theorem C63_flags : forall p model d ts i x t bs start ctx g, program_ok model -> compiles p model d ts -> model !! i = Some x -> ts !! i = Some t -> template_buckets t = Ok bs ->
  g ∈ cpp_children start ctx bs -> exists c, c ∈ x_connexions x /\ g_template g = k_to c /\ g_parallel g = status model c /\
    ((same_status model x (k_name c) /\ g_flag g = None) \/ (~ same_status model x (k_name c) /\ g_flag g = Some (status model c))).
Proof. intros p model d ts i x t bs start ctx g HP HC. eapply children_flags, compiles_circuit; eassumption. Qed.
Print Assumptions C63_flags.
(** The components that come to be when the witness generator runs are the instances of the DAG, one
    each; their numbers are 0, 1, 2, ... in depth-first order, their signals are those of the
    instance (after the constant one), and the counts reserved for them are exact. *)
Theorem C63_components : forall p model d ts, program_ok model -> compiles p model d ts -> exists (l : list (inst * component)) signals created indexes,
  enumerates (instance d) l.*1 /\ (forall c, comes_to_be ts c <-> c ∈ l.*2) /\ o_index <$> l.*2 = seq 0 (length l) /\
  (forall x c, (x, c) ∈ l -> o_template c = i_node x /\ o_start c = i_off x + 1) /\
  (labels_ok model -> no_unit_arrays model -> forall x c, (x, c) ∈ l -> o_name c = i_path x) /\
  produce_stats d = Ok (signals, created, indexes) /\ signals = total_signals d /\ created = length l /\
  sum_list (block_of ts ∘ o_template <$> l.*2) = 4 * size_of_component_tree (signals, created, indexes).
Proof.
  intros p model d ts HP HC%compiles_circuit; [|done]. exists (pairs model d ts). eexists _, _, _. split_and!.
  - by eapply pairs_enumerates.
  - intros c. by eapply pairs_components.
  - by eapply pairs_index.
  - intros x c H. by destruct (pairs_agree _ _ _ _ HC x c H) as (? & ? & _).
  - intros L U x c H. eapply pbelow_name; [exact HC|exact L|exact U|]. by eapply wwalk_pbelow.
  - by eapply produce_stats_ok.
  - symmetry. by apply total_is_sz.
  - symmetry. by eapply pairs_length.
  - by eapply pairs_blocks.
Qed.
Print Assumptions C63_components.
(** The WebAssembly code creates the same components in the same order, at the same places and with
    the same signals; if every used array is complete, it runs exactly those without inputs. *)
Theorem C63_same_as_wasm : forall p model d ts i x t bs fs off signals start ctx, program_ok model -> compiles p model d ts -> model !! i = Some x -> ts !! i = Some t -> template_buckets t = Ok bs ->
  Forall2 (fun g w => w_template w = g_template g /\ w_at w = off + 12 + 4 * g_at g /\ w_start w = signals + fs * g_start g /\
      (complete_arrays x -> forall t', ts !! g_template g = Some t' -> w_run w = true <-> ii_inputs t' = 0))
    (cpp_children start ctx bs) (wasm_children fs off (signals + fs * start) bs).
Proof. intros p model d ts i x t bs fs off signals start ctx HP HC. eapply children_wasm, compiles_circuit; eassumption. Qed.
Print Assumptions C63_same_as_wasm.
(** Every [create] function the C++ code calls is generated, and so is, for sequential components, the [run] it calls. *)
Theorem C63_functions : forall p model d ts i x t bs start ctx g, program_ok model -> compiles p model d ts -> model !! i = Some x -> ts !! i = Some t -> template_buckets t = Ok bs ->
  g ∈ cpp_children start ctx bs -> exists t', ts !! g_template g = Some t' /\ cpp_defined t' (g_parallel g) = true /\
    (g_parallel g = false -> forall r, cpp_create_runs t' (g_parallel g) = Some r -> cpp_defined t' r = true).
Proof.
  intros p model d ts i x t bs start ctx g HP HC Hx Ht Eb Hg. destruct (children_defined p model d ts (compiles_circuit _ _ _ _ HP HC) i x t bs start ctx g Hx Ht Eb Hg) as (t' & Ht' & D).
  exists t'. split; [done|]. split; [done|]. intros E r. unfold cpp_create_runs. rewrite E in D. by destruct (ii_inputs t' =? 0)%nat; [intros [= <-]|].
Qed.
Print Assumptions C63_functions.
Theorem C63_main_function : forall p model d ts x, program_ok model -> compiles p model d ts -> last model = Some x -> x_parallel x = false ->
  exists t, last ts = Some t /\ cpp_defined t cpp_main_variant = true.
Proof.
  intros p model d ts x HP HC%compiles_circuit Hx Hp; [|done]. rewrite last_lookup in Hx. destruct (ci_ex _ _ _ _ HC _ _ Hx) as (t & Ht & E & _). exists t.
  rewrite last_lookup, (ci_len _ _ _ _ HC). split; [done|]. unfold cpp_main_variant, cpp_defined. rewrite (ex_parallel _ _ _ _ E), Hp. cbn.
  apply (ci_main _ _ _ _ HC). rewrite (ci_len _ _ _ _ HC). by replace (length model - 1) with (pred (length model)) by lia.
Qed.
Print Assumptions C63_main_function.

(** ** where the code fails *)
Definition compile1 (model : list executed) : option (dag * list instance_info) :=
  match insert_all ko_id 17%Z model with Ok (d, xs) => match export_all xs with Ok ts => Some (d, ts) | _ => None end | _ => None end.
Lemma compile1_ok model d ts : compile1 model = Some (d, ts) -> compiles 17 model d ts.
Proof.
  unfold compile1. destruct (insert_all ko_id 17%Z model) as [[d' xs]| |] eqn:E1; try done. destruct (export_all xs) as [ts'| |] eqn:E2; try done. intros [= -> ->].
  exists ko_id, xs. split; [apply ko_id_valid|done].
Qed.
Definition no_inputs : executed := plain "T" [] ["o"] [] [].
(** [component s[3]; s[0] = T(); s[2] = T();] with a template without inputs: the WebAssembly code
    creates the two components and runs neither; the C++ code runs both. *)
Definition ex_sparse : list executed := [no_inputs; plain "M" ["a"] ["o"] [ComponentData "s" [3]] [at_ "s" false [0] 0; at_ "s" false [2] 0]].
Theorem C63_sparse_arrays_refuted : exists model d ts t bs t', program_ok model /\ compiles 17 model d ts /\ last ts = Some t /\ template_buckets t = Ok bs /\
  ts !! 0 = Some t' /\ ii_inputs t' = 0 /\ length (wasm_children 4 0 0 bs) = 2 /\ Forall (fun w => w_template w = 0 /\ w_run w = false) (wasm_children 4 0 0 bs) /\
  Forall (fun g => g_template g = 0 /\ cpp_create_runs t' (g_parallel g) = Some false /\ cpp_defined t' false = true) (cpp_children 1 0 bs).
Proof.
  destruct (compile1 ex_sparse) as [[d ts]|] eqn:E; [|by vm_compute in E]. exists ex_sparse, d, ts.
  pose proof (compile1_ok _ _ _ E) as C. vm_compute in E. injection E as <- <-. eexists _, _, _.
  split; [apply program_okb_ok; vm_compute; reflexivity|]. split; [exact C|]. split; [reflexivity|]. split; [vm_compute; reflexivity|]. split; [reflexivity|].
  vm_compute. split_and!; try done; repeat constructor.
Qed.
Print Assumptions C63_sparse_arrays_refuted.
(** [component s[1]; s[0] = T();]: the symbol file calls the component [main.s[0]], the C++ witness generator [main.s]. *)
Definition ex_unit : list executed := [no_inputs; plain "M" ["a"] ["o"] [ComponentData "s" [1]] [at_ "s" false [0] 0]].
Theorem C63_unit_arrays_refuted : exists model d ts x c, program_ok model /\ compiles 17 model d ts /\ labels_ok model /\ instance d x /\ comes_to_be ts c /\
  o_template c = i_node x /\ o_start c = i_off x + 1 /\ i_path x = "main.s[0]" /\ o_name c = "main.s".
Proof.
  destruct (compile1 ex_unit) as [[d ts]|] eqn:E; [|by vm_compute in E]. exists ex_unit, d, ts.
  pose proof (compile1_ok _ _ _ E) as C. vm_compute in E. injection E as <- <-. eexists _, _.
  split; [apply program_okb_ok; vm_compute; reflexivity|]. split; [exact C|].
  split. { intros i x c Hx Hc. destruct i as [|[|i]]; cbn in Hx; try discriminate; injection Hx as <-; cbn in Hc; [by apply elem_of_nil in Hc|]. apply elem_of_list_singleton in Hc as ->. done. }
  split. { eapply (inst_sub _ _ _ 0); [eapply inst_main; reflexivity|reflexivity|reflexivity]. }
  split. { eapply cb_sub; [apply cb_main|reflexivity|vm_compute; reflexivity|vm_compute; left]. }
  done.
Qed.
Print Assumptions C63_unit_arrays_refuted.
(** [template parallel M] as the main template: [run] calls functions that are not generated. *)
Definition ex_parallel_main : list executed := [Executed "M" true false [] ["o"] [] ["a"] [] [] [] [] [] 0 []].
Theorem C63_parallel_main_refuted : exists model d ts t, program_ok model /\ compiles 17 model d ts /\ last ts = Some t /\ cpp_defined t cpp_main_variant = false.
Proof.
  destruct (compile1 ex_parallel_main) as [[d ts]|] eqn:E; [|by vm_compute in E]. exists ex_parallel_main, d, ts.
  pose proof (compile1_ok _ _ _ E) as C. vm_compute in E. injection E as <- <-. eexists. split; [apply program_okb_ok; vm_compute; reflexivity|]. split; [exact C|]. split; [reflexivity|]. done.
Qed.
Print Assumptions C63_parallel_main_refuted.
(** [component s = parallel T();] with a template without inputs that is used nowhere else: [T_create_parallel]
    is generated and calls [T_run], which is not. *)
Definition ex_parallel_run : list executed := [no_inputs; plain "M" ["a"] ["o"] [ComponentData "s" []] [at_ "s" true [] 0]].
Theorem C63_parallel_run_refuted : exists model d ts t bs g t' r, program_ok model /\ compiles 17 model d ts /\ last ts = Some t /\ template_buckets t = Ok bs /\ g ∈ cpp_children 1 0 bs /\
  ts !! g_template g = Some t' /\ cpp_defined t' (g_parallel g) = true /\ cpp_create_runs t' (g_parallel g) = Some r /\ cpp_defined t' r = false.
Proof.
  destruct (compile1 ex_parallel_run) as [[d ts]|] eqn:E; [|by vm_compute in E]. exists ex_parallel_run, d, ts.
  pose proof (compile1_ok _ _ _ E) as C. vm_compute in E. injection E as <- <-. eexists _, _, _, _, _. split; [apply program_okb_ok; vm_compute; reflexivity|]. split; [exact C|].
  split; [reflexivity|]. split; [vm_compute; reflexivity|]. split; [vm_compute; left|]. split; [reflexivity|]. done.
Qed.
Print Assumptions C63_parallel_run_refuted.

(** ** the hypotheses are met *)
Example C63_example_program : exists d ts t bs, program_ok ex_program /\ compiles 17 ex_program d ts /\ ts !! 2 = Some t /\ template_buckets t = Ok bs /\
  (fun g => (g_at g, g_template g, g_start g, g_index g, g_name g)) <$> cpp_children 100 10 bs =
    [(0, 1, 114, 17, "u"); (1, 0, 106, 13, "c[0][0]"); (2, 0, 108, 14, "c[0][1]"); (4, 0, 110, 15, "c[1][0]"); (6, 0, 112, 16, "c[1][2]");
     (7, 0, 103, 11, "b[0]"); (8, 1, 105, 12, "b[1]"); (9, 0, 115, 18, "v[0]"); (10, 0, 117, 19, "v[1]")] /\
  g_flag <$> cpp_children 100 10 bs = [None; None; None; None; None; Some false; Some true; Some false; Some true] /\
  ii_number t = 11 /\ produce_stats d = Ok (40, 21, 24) /\ size_of_component_tree (40, 21, 24) = 87.
Proof.
  destruct (compile1 ex_program) as [[d ts]|] eqn:E; [|by vm_compute in E]. exists d, ts.
  pose proof (compile1_ok _ _ _ E) as C. vm_compute in E. injection E as <- <-. eexists _, _. split; [apply ex_program_ok|]. split; [exact C|].
  split; [reflexivity|]. split; [vm_compute; reflexivity|]. vm_compute. done.
Qed.
Example C63_example_names : labels_ok ex_program /\ no_unit_arrays ex_program /\ ~ same_status ex_program ex_t2 "v" /\ same_status ex_program ex_t2 "c" /\ complete_arrays ex_t3.
Proof.
  split_and!.
  - intros i x c Hx Hc. destruct i as [|[|[|[|i]]]]; cbn in Hx; try discriminate; injection Hx as <-; cbn in Hc;
      repeat (apply elem_of_cons in Hc as [->|Hc]; [done|]); by apply elem_of_nil in Hc.
  - intros i x m Hx Hc. destruct i as [|[|[|[|i]]]]; cbn in Hx; try discriminate; injection Hx as <-; cbn in Hc;
      repeat (apply elem_of_cons in Hc as [->|Hc]; [done|]); by apply elem_of_nil in Hc.
  - intros H. specialize (H (at_ "v" true [1] 0) (at_ "v" false [0] 0)). cbn in H. discriminate H; try done; cbn; repeat (first [left|right]; fail || idtac); set_solver.
  - intros c c' Hc Hc' N N'. cbn in Hc, Hc'. repeat (apply elem_of_cons in Hc as [->|Hc]; [cbn in N; try discriminate N|]); try by apply elem_of_nil in Hc.
    all: repeat (apply elem_of_cons in Hc' as [->|Hc']; [cbn in N'; try discriminate N'; try done|]); by apply elem_of_nil in Hc'.
  - intros c m idx Hc Hm En F. exists c. split; [done|]. split; [done|]. cbn in Hc, Hm. 
    repeat (apply elem_of_cons in Hc as [->|Hc]; [|]); try by apply elem_of_nil in Hc.
    all: repeat (apply elem_of_cons in Hm as [->|Hm]; [|]); try by apply elem_of_nil in Hm.
    all: cbn in F; by inversion F.
Qed.
