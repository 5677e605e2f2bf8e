(** C35, C36: input names and input assignments. *)
From stdpp Require Import prelude list.
From Coq Require Import String Ascii.
From stdpp Require Import prelude list.
From Verif Require Import InputModel InputSpec InputProofs.
Open Scope Z_scope.

(** * C35 *)
(** For every list of inputs with pairwise different hashes that fits the table, the table is generated,
    and the lookup of the C++ calculator finds, for the hash of each input, exactly that input, and fails
    for every other hash (except 0, see below). *)
Theorem C35_every_input_is_found : forall inputs start count size,
  valid_inputs inputs start count -> (length inputs <= size)%nat ->
  exists table, generate_hash_map inputs size = Some table /\ length table = size /\
    (forall e, e ∈ inputs -> exists pos, cpp_lookup table (e_hash e) = Some pos /\ table !! pos = Some e) /\
    (forall h, h <> 0 -> (forall e, e ∈ inputs -> e_hash e <> h) -> cpp_lookup table h = None).
Proof.
  intros inputs start count size V L.
  assert (Forall isocc inputs) as O.
  { pose proof (vi_start _ _ _ V). pose proof (proj1 (Forall_forall _ _) (vi_ranges _ _ _ V)) as R.
    apply Forall_forall. intros e He. apply R in He. unfold isocc. lia. }
  destruct (insert_all_inv inputs (replicate size no_entry) [] (table_inv_new size)) as (t & E & Lt & I).
  { apply (vi_hashes _ _ _ V). } { done. } { by rewrite replicate_length. }
  rewrite replicate_length in Lt. exists t. split_and!; [|done| |].
  - unfold generate_hash_map. replace (length inputs <=? size)%nat with true by (symmetry; by apply Nat.leb_le). done.
  - intros e He. destruct (cpp_lookup_found t inputs e I He) as (p & P & Q); [by apply (proj1 (Forall_forall _ _) O)|]. eauto.
  - intros h Hz Hn. apply cpp_lookup_unknown. eapply unknown_hash; eauto.
    intros H. apply elem_of_list_fmap in H as (e & -> & He). by apply (Hn e).
Qed.
Print Assumptions C35_every_input_is_found.
(** The same for the WebAssembly calculator, whose table size is a power of two up to 2^32; there no input
    may have the hash 0. *)
Theorem C35_every_input_is_found_in_wasm : forall inputs start count k,
  valid_inputs inputs start count -> (length inputs <= 2 ^ k)%nat -> (k <= 32)%nat ->
  (forall e, e ∈ inputs -> e_hash e <> 0) ->
  exists table, generate_hash_map inputs (2 ^ k)%nat = Some table /\
    (forall e, e ∈ inputs -> exists pos, wasm_lookup table (e_hash e) = Some pos /\ table !! pos = Some e) /\
    (forall h, h <> 0 -> (forall e, e ∈ inputs -> e_hash e <> h) -> wasm_lookup table h = None).
Proof.
  intros inputs start count k V L Hk NZ. destruct (C35_every_input_is_found _ _ _ _ V L) as (t & G & Lt & _).
  pose proof (generate_inv _ _ _ _ _ V G) as [I _]. pose proof (valid_isocc _ _ _ V) as O.
  exists t. split_and!; [done| |].
  - intros e He. destruct (wasm_lookup_found t k inputs e I Lt Hk) as (p & P & Q); [| |by apply (proj1 (Forall_forall _ _) O)|eauto].
    + apply Forall_forall. intros x Hx. pose proof (proj1 (Forall_forall _ _) (vi_unsigned _ _ _ V) _ Hx) as U. simpl in U.
      specialize (NZ _ Hx). lia.
    + done.
  - intros h Hz Hn. apply wasm_probe_unknown. eapply unknown_hash; eauto.
    intros H. apply elem_of_list_fmap in H as (e & -> & He). by apply (Hn e).
Qed.
Print Assumptions C35_every_input_is_found_in_wasm.
(** The three calculators and the compiler agree on the hash of names of ASCII characters. *)
Theorem C35_same_hash : forall name, Forall (fun b => 0 <= b < 128) name ->
  fnv1a_cpp name = hasher name /\ fnvHash_js name = hasher name.
Proof.
  intros name H. split; [|done]. unfold fnv1a_cpp, hasher. generalize 14695981039346656037 as a.
  induction H as [|b name Hb H IH]; intros a; [done|]. cbn [foldl]. rewrite IH. unfold sign_extend.
  replace (b <? 128) with true by (symmetry; apply Z.ltb_lt; lia). done.
Qed.
Print Assumptions C35_same_hash.

Definition three_inputs : list entry := [Entry (hasher (bytes_of "a")) 3 2; Entry (hasher (bytes_of "in")) 5 1; Entry (hasher (bytes_of "in") + 256) 6 4].
Example C35_example : valid_inputs three_inputs 3 7 /\ (length three_inputs <= 2 ^ 8)%nat /\ (8 <= 32)%nat /\
  (forall e, e ∈ three_inputs -> e_hash e <> 0) /\
  match generate_hash_map three_inputs 256 with
  | Some t => (cpp_lookup t (hasher (bytes_of "in")), cpp_lookup t (hasher (bytes_of "in") + 256), wasm_lookup t (hasher (bytes_of "in") + 256)) = (Some 190, Some 191, Some 191)%nat
  | None => False
  end.
Proof.
  split_and!; [|vm_compute; lia|lia| |vm_compute; reflexivity].
  - split; [apply (bool_decide_unpack _); vm_compute; exact I|repeat constructor; vm_compute; congruence|lia|repeat constructor; simpl; lia].
  - apply Forall_forall. apply (bool_decide_unpack _). vm_compute. exact I.
Qed.

(** Two names of signals may have the same hash.  Then the second input is never found: both names lead to
    the first one. *)
Theorem C35_colliding_names_refuted : exists name1 name2 inputs table,
  name1 <> name2 /\ hasher (bytes_of name1) = hasher (bytes_of name2) /\
  inputs = [Entry (hasher (bytes_of name1)) 1 1; Entry (hasher (bytes_of name2)) 2 1] /\
  generate_hash_map inputs 256 = Some table /\
  (forall pos e, cpp_lookup table (hasher (bytes_of name2)) = Some pos -> table !! pos = Some e -> e_signalid e = 1%nat).
Proof.
  exists "swQ8Pm1GRQlj"%string, "ssnyW7ZgxbKp"%string. eexists. eexists. split_and!; [done|vm_compute; reflexivity|reflexivity|vm_compute; reflexivity|].
  intros pos e H. vm_compute in H. inversion H; subst. intros Q. vm_compute in Q. inversion Q; subst. reflexivity.
Qed.
Print Assumptions C35_colliding_names_refuted.
(** A name with the hash 0 that is no input is found in an empty slot, as an input without signals. *)
Theorem C35_unknown_name_with_hash_zero_refuted : exists name inputs table,
  valid_inputs inputs 1 1 /\ hasher (bytes_of name) = 0 /\ (forall e, e ∈ inputs -> e_hash e <> hasher (bytes_of name)) /\
  generate_hash_map inputs 256 = Some table /\ get_input_signal_size table (hasher (bytes_of name)) = Some 0%nat.
Proof.
  exists "77kepQFQ8Kl"%string, [Entry (hasher (bytes_of "in")) 1 1]. eexists. split_and!; [|vm_compute; reflexivity| |vm_compute; reflexivity|vm_compute; reflexivity].
  - split; [apply NoDup_singleton|repeat constructor; vm_compute; congruence|lia|repeat constructor; simpl; lia].
  - intros e He. apply elem_of_list_singleton in He as ->. vm_compute. congruence.
Qed.
Print Assumptions C35_unknown_name_with_hash_zero_refuted.
(** In WebAssembly an input with the hash 0 hides the inputs stored after it. *)
Theorem C35_hash_zero_hides_inputs_in_wasm_refuted : exists inputs table e,
  valid_inputs inputs 1 2 /\ generate_hash_map inputs 256 = Some table /\ e ∈ inputs /\ wasm_lookup table (e_hash e) = None.
Proof.
  exists [Entry 0 1 1; Entry 256 2 1]. eexists. exists (Entry 256 2 1). split_and!; [|vm_compute; reflexivity|right; left|vm_compute; reflexivity].
  split; [apply (bool_decide_unpack _); vm_compute; exact I|repeat constructor; vm_compute; congruence|lia|repeat constructor; simpl; lia].
Qed.
Print Assumptions C35_hash_zero_hides_inputs_in_wasm_refuted.
(** Beyond ASCII the C++ hash is another one: bytes are sign extended. *)
Theorem C35_same_hash_beyond_ascii_refuted : exists name, Forall (fun b => 0 <= b < 256) name /\ fnv1a_cpp name <> hasher name.
Proof. exists [195; 169]. split; [repeat constructor; lia|vm_compute; congruence]. Qed.
Print Assumptions C35_same_hash_beyond_ascii_refuted.

(** * C36 *)
Section C36.
Context {F : Type}.
(** After any accepted history of assignments, the next one is accepted exactly if it names a signal that
    none of the earlier ones named. *)
Theorem C36_accepted_writes : forall inputs size start count table (initial : list F) ws c,
  valid_inputs inputs start count -> generate_hash_map inputs size = Some table -> (start + count <= length initial)%nat ->
  accepted (set_input_signal table start) (calc_new count initial) ws c ->
  forall h i v, (exists c', set_input_signal table start h i v c = Some c') <-> exists p, denotes inputs h i p /\ ~ written inputs ws p.
Proof. intros * V T Hl A h i v. eapply set_accepts; eauto. eapply accepted_inv; eauto. Qed.
(** The circuit is run exactly once, when the last missing signal has come, and then every input signal has
    the value that was assigned to it and every other signal its initial value. *)
Theorem C36_run_once_with_all_inputs : forall inputs size start count table (initial : list F) ws c,
  valid_inputs inputs start count -> generate_hash_map inputs size = Some table -> (start + count <= length initial)%nat -> (0 < count)%nat ->
  accepted (set_input_signal table start) (calc_new count initial) ws c ->
  (length ws <= count)%nat /\
  (counter c + length ws = count)%nat /\
  ((length ws < count)%nat -> runs c = []) /\
  (length ws = count -> runs c = [signals c] /\ forall p, (start <= p < start + count)%nat -> written inputs ws p) /\
  (forall p v, wrote inputs ws p v -> signals c !! p = Some v) /\
  (forall p, ~ written inputs ws p -> signals c !! p = initial !! p).
Proof.
  intros * V T Hl Hc A. pose proof (accepted_inv _ _ _ _ _ V T _ _ _ Hl A) as C. pose proof (ci_count _ _ _ _ _ _ C) as Cc. split_and!.
  - lia.
  - done.
  - intros L. rewrite (ci_runs _ _ _ _ _ _ C). rewrite decide_False by lia. done.
  - intros L. split.
    + rewrite (ci_runs _ _ _ _ _ _ C). rewrite decide_True by done. rewrite decide_False by lia. done.
    + eapply calc_inv_all; eauto. lia.
  - apply (ci_signals _ _ _ _ _ _ C).
  - apply (ci_other _ _ _ _ _ _ C).
Qed.
(** The order of the assignments does not matter. *)
Theorem C36_order_does_not_matter : forall inputs size start count table (initial : list F) ws ws' c,
  valid_inputs inputs start count -> generate_hash_map inputs size = Some table -> (start + count <= length initial)%nat ->
  accepted (set_input_signal table start) (calc_new count initial) ws c -> ws' ≡ₚ ws ->
  exists c', accepted (set_input_signal table start) (calc_new count initial) ws' c' /\ signals c' = signals c /\ runs c' = runs c.
Proof.
  intros * V T Hl A P. destruct (proj1 (accepted_iff _ _ _ _ _ V T _ Hl ws) (ex_intro _ _ A)) as (ps & Tp & Np).
  assert (exists ps', targets inputs ws' ps' /\ ps' ≡ₚ ps) as (ps' & Tp' & Pp).
  { clear A. revert ps Tp Np. induction P as [|[[h i] v] l l' P IH|[[h i] v] [[h' i'] v'] l|l l' l'' P1 IH1 P2 IH2]; intros ps Tp Np.
    - inversion Tp; subst. exists []. split; [constructor|done].
    - inversion Tp as [|? q ? ps1 D Tp1]; subst. apply NoDup_cons in Np as [_ Np]. destruct (IH _ Tp1 Np) as (ps' & ? & ?).
      exists (q :: ps'). split; [by constructor|]. by constructor.
    - inversion Tp as [|? q ? ps1 D Tp1]; subst. inversion Tp1 as [|? q' ? ps2 D' Tp2]; subst.
      exists (q' :: q :: ps2). split; [by repeat constructor|]. constructor.
    - destruct (IH2 _ Tp Np) as (ps' & T' & P'). assert (NoDup ps') as Np' by (by rewrite P').
      destruct (IH1 _ T' Np') as (ps'' & ? & ?). exists ps''. split; [done|]. by etrans. }
  destruct (proj2 (accepted_iff _ _ _ _ _ V T _ Hl ws')) as (c' & A').
  { exists ps'. split; [done|]. by rewrite Pp. }
  exists c'. split; [done|].
  pose proof (accepted_inv _ _ _ _ _ V T _ _ _ Hl A) as C. pose proof (accepted_inv _ _ _ _ _ V T _ _ _ Hl A') as C'.
  assert (signals c' = signals c) as S.
  { apply list_eq. intros p. destruct (decide (p ∈ ps)) as [Hp|Hp].
    - apply (targets_written _ _ _ _ _ V T _ _ p Tp) in Hp as (v & h & i & Hin & D).
      rewrite (ci_signals _ _ _ _ _ _ C p v) by (exists h, i; done).
      rewrite (ci_signals _ _ _ _ _ _ C' p v) by (exists h, i; by rewrite P). done.
    - rewrite (ci_other _ _ _ _ _ _ C p) by (rewrite (targets_written _ _ _ _ _ V T _ _ p Tp); done).
      rewrite (ci_other _ _ _ _ _ _ C' p) by (rewrite (targets_written _ _ _ _ _ V T _ _ p Tp'), Pp; done). done. }
  split; [done|]. rewrite (ci_runs _ _ _ _ _ _ C), (ci_runs _ _ _ _ _ _ C'), S.
  apply Permutation_length in P. rewrite P. done.
Qed.
(** The program of the C++ calculator writes a witness exactly if every item of the input names an input
    with as many values as it has signals, and together they give every input signal exactly one value. *)
Theorem C36_witness_iff_inputs_complete : forall inputs size start count table (initial : list F) items,
  valid_inputs inputs start count -> generate_hash_map inputs size = Some table -> (start + count <= length initial)%nat -> (0 < count)%nat ->
  Forall (fun it => it.1 <> 0) items ->
  (exists c, main_run table start count items initial = Some c) <->
  well_sized inputs items /\ exists ps, targets inputs (writes_of items) ps /\ ps ≡ₚ seq start count.
Proof.
  intros * V T Hl Hc NZ. unfold main_run, load_json. unfold try_run. 
  assert ((match items with [] => if (counter (calc_new count initial) =? 0)%nat then Calc (counter (calc_new count initial)) (assigned (calc_new count initial)) (signals (calc_new count initial)) (runs (calc_new count initial) ++ [signals (calc_new count initial)]) else calc_new count initial | _ => calc_new count initial end) = calc_new count initial) as E.
  { destruct items; [|done]. simpl. replace (count =? 0)%nat with false by (symmetry; apply Nat.eqb_neq; lia). done. }
  rewrite E. clear E. split.
  - intros (c & H). destruct (load_items table start items (calc_new count initial)) as [c1|] eqn:L; [|done].
    destruct (counter c1 =? 0)%nat eqn:Z0; [|done]. apply Nat.eqb_eq in Z0.
    apply (load_items_accepted _ _ _ _ _ V T) in L as [W A]; [|done]. split; [done|].
    destruct (proj1 (accepted_iff _ _ _ _ _ V T _ Hl _) (ex_intro _ _ A)) as (ps & Tp & Np). exists ps. split; [done|].
    eapply targets_full; eauto. pose proof (ci_count _ _ _ _ _ _ (accepted_inv _ _ _ _ _ V T _ _ _ Hl A)).
    pose proof (Forall2_length _ _ _ Tp). lia.
  - intros (W & ps & Tp & P). assert (NoDup ps) as Np by (rewrite P; apply NoDup_seq).
    destruct (proj2 (accepted_iff _ _ _ _ _ V T _ Hl _) (ex_intro _ _ (conj Tp Np))) as (c & A).
    exists c. rewrite (proj2 (load_items_accepted _ _ _ _ _ V T _ _ c NZ) (conj W A)).
    pose proof (ci_count _ _ _ _ _ _ (accepted_inv _ _ _ _ _ V T _ _ _ Hl A)) as Cc. pose proof (Forall2_length _ _ _ Tp).
    apply Permutation_length in P. rewrite seq_length in P. replace (counter c) with 0%nat by lia. done.
Qed.
(** And then the circuit has been run once, on exactly these values. *)
Theorem C36_witness_from_the_given_inputs : forall inputs size start count table (initial : list F) items c,
  valid_inputs inputs start count -> generate_hash_map inputs size = Some table -> (start + count <= length initial)%nat -> (0 < count)%nat ->
  Forall (fun it => it.1 <> 0) items ->
  main_run table start count items initial = Some c ->
  runs c = [signals c] /\
  (forall it i v, it ∈ items -> it.2 !! i = Some v -> exists p, denotes inputs it.1 i p /\ signals c !! p = Some v) /\
  (forall p, ~ (start <= p < start + count)%nat -> signals c !! p = initial !! p).
Proof.
  intros * V T Hl Hc NZ H. unfold main_run, load_json, try_run in H.
  assert ((match items with [] => if (counter (calc_new count initial) =? 0)%nat then Calc (counter (calc_new count initial)) (assigned (calc_new count initial)) (signals (calc_new count initial)) (runs (calc_new count initial) ++ [signals (calc_new count initial)]) else calc_new count initial | _ => calc_new count initial end) = calc_new count initial) as E.
  { destruct items; [|done]. simpl. replace (count =? 0)%nat with false by (symmetry; apply Nat.eqb_neq; lia). done. }
  rewrite E in H. clear E. destruct (load_items table start items (calc_new count initial)) as [c1|] eqn:L; [|done].
  destruct (counter c1 =? 0)%nat eqn:Z0; [|done]. apply Nat.eqb_eq in Z0. inversion H; subst c1; clear H.
  apply (load_items_accepted _ _ _ _ _ V T) in L as [W A]; [|done].
  pose proof (accepted_inv _ _ _ _ _ V T _ _ _ Hl A) as C. pose proof (ci_count _ _ _ _ _ _ C) as Cc. split_and!.
  - rewrite (ci_runs _ _ _ _ _ _ C). rewrite decide_True by lia. rewrite decide_False by lia. done.
  - intros it i v Hit Hv.
    assert ((it.1, i, v) ∈ writes_of items) as Hin.
    { unfold writes_of. apply elem_of_list_In, in_concat. exists (imap (fun i v => (it.1, i, v)) it.2). split; apply elem_of_list_In.
      - apply elem_of_list_fmap. eauto.
      - apply elem_of_lookup_imap. eauto. }
    destruct (ci_all _ _ _ _ _ _ C _ Hin) as (p & D). exists p. split; [done|].
    apply (ci_signals _ _ _ _ _ _ C). exists it.1, i. done.
  - intros p Hp. apply (ci_other _ _ _ _ _ _ C). intros (v & h & i & _ & D). apply Hp. eapply denotes_range; eauto.
Qed.
End C36.
Print Assumptions C36_accepted_writes.
Print Assumptions C36_run_once_with_all_inputs.
Print Assumptions C36_order_does_not_matter.
Print Assumptions C36_witness_iff_inputs_complete.
Print Assumptions C36_witness_from_the_given_inputs.

(** A bus [b] with the fields [x] (two signals) and [y], listed under the three names, and an input [a]. *)
Definition hx := hasher (bytes_of "b.x"). Definition hy := hasher (bytes_of "b.y").
Definition hb := hasher (bytes_of "b"). Definition ha := hasher (bytes_of "a").
Definition bus_inputs : list entry := [Entry ha 2 1; Entry hx 3 2; Entry hy 5 1; Entry hb 3 3].
Definition bus_table : list entry := default [] (generate_hash_map bus_inputs 256).
Example C36_example : valid_inputs bus_inputs 2 4 /\ generate_hash_map bus_inputs 256 = Some bus_table /\
  well_sized bus_inputs [(hx, [10; 11]); (ha, [12]); (hy, [13])] /\
  main_run bus_table 2 4 [(hx, [10; 11]); (ha, [12]); (hy, [13])] [1; 0; 0; 0; 0; 0; 0]
    = Some (Calc 0 [true; true; true; true] [1; 0; 12; 10; 11; 13; 0] [[1; 0; 12; 10; 11; 13; 0]]) /\
  (* the whole bus and one of its fields *)
  main_run bus_table 2 4 [(hb, [10; 11; 13]); (ha, [12])] [1; 0; 0; 0; 0; 0; 0]
    = Some (Calc 0 [true; true; true; true] [1; 0; 12; 10; 11; 13; 0] [[1; 0; 12; 10; 11; 13; 0]]) /\
  main_run bus_table 2 4 [(hb, [10; 11; 13]); (hx, [12; 14])] [1; 0; 0; 0; 0; 0; 0] = None /\
  main_run bus_table 2 4 [(hx, [10; 11]); (ha, [12])] [1; 0; 0; 0; 0; 0; 0] = None.
Proof.
  split_and!; try (vm_compute; reflexivity).
  - split; [apply (bool_decide_unpack _); vm_compute; exact I|repeat constructor; vm_compute; congruence|lia|repeat constructor; simpl; lia].
  - intros it H. repeat (apply elem_of_cons in H as [->|H]); [..|by apply elem_of_nil in H].
    + exists (Entry hx 3 2). split_and!; [right; left|done..].
    + exists (Entry ha 2 1). split_and!; [left|done..].
    + exists (Entry hy 5 1). split_and!; [right; right; left|done..].
Qed.

(** If the only inputs of main have no signals, the circuit is not run although the witness is written
    (it is run for the empty JSON object only). *)
Theorem C36_inputs_without_signals_refuted : exists inputs table (items : list (Z * list Z)) initial c,
  valid_inputs inputs 1 0 /\ generate_hash_map inputs 256 = Some table /\ well_sized inputs items /\
  main_run table 1 0 items initial = Some c /\ runs c = [].
Proof.
  exists [Entry ha 1 0], (default [] (generate_hash_map [Entry ha 1 0] 256)), [(ha, [])], [1], (Calc 0 [] [1] []).
  split_and!; try (vm_compute; reflexivity).
  - split; [apply NoDup_singleton|repeat constructor; vm_compute; congruence|lia|repeat constructor; simpl; lia].
  - intros it H. apply elem_of_list_singleton in H as ->. exists (Entry ha 1 0). split_and!; [left|done..].
Qed.
Print Assumptions C36_inputs_without_signals_refuted.
(** In WebAssembly a second assignment to the same signal is accepted, and the circuit is run while another
    input is missing. *)
Theorem C36_assigned_twice_in_wasm_refuted : exists inputs table (initial : list Z) c h i p,
  valid_inputs inputs 1 2 /\ generate_hash_map inputs 256 = Some table /\
  accepted (wasm_set_input_signal table 1) (calc_new 2 initial) [(h, i, 7); (h, i, 8)] c /\
  runs c = [signals c] /\ (1 <= p < 3)%nat /\ ~ written inputs [(h, i, 7); (h, i, 8)] p.
Proof.
  exists [Entry ha 1 2], (default [] (generate_hash_map [Entry ha 1 2] 256)), [1; 0; 0].
  exists (Calc 0 [false; false] [1; 8; 0] [[1; 8; 0]]), ha, 0%nat, 2%nat. split_and!; [| |change (accepted (wasm_set_input_signal (default [] (generate_hash_map [Entry ha 1 2] 256)) 1) (Calc 2 [false; false] [1; 0; 0] []) [(ha, 0%nat, 7); (ha, 0%nat, 8)] (Calc 0 [false; false] [1; 8; 0] [[1; 8; 0]]))|reflexivity|lia|lia|].
  - split; [apply NoDup_singleton|repeat constructor; vm_compute; congruence|lia|repeat constructor; simpl; lia].
  - vm_compute; reflexivity.
  - change [(ha, 0%nat, 7); (ha, 0%nat, 8)] with (([] ++ [(ha, 0%nat, 7)]) ++ [(ha, 0%nat, 8)]).
    apply (accepted_snoc _ _ _ (Calc 1 [false; false] [1; 7; 0] [])); [|vm_compute; reflexivity].
    apply (accepted_snoc _ _ _ (Calc 2 [false; false] [1; 0; 0] [])); [apply accepted_nil|vm_compute; reflexivity].
  - intros (v & h & i & H & e & He & Hh & Hi & Hp). apply elem_of_list_singleton in He as ->. simpl in *.
    assert (i = 0)%nat. { repeat (apply elem_of_cons in H as [H|H]; [by inversion H|]). by apply elem_of_nil in H. } lia.
Qed.
Print Assumptions C36_assigned_twice_in_wasm_refuted.
