(** C47, C53: layout of signals, arrays and buses, and JSON inputs. *)
From Coq Require Import Ascii.
From stdpp Require Import prelude gmap fin_maps strings pretty.
From Verif Require Import ModArithModel DagModel DagSpec NameProofs R1csModel PropertiesDag MemSliceSpec MemSliceProofs InputModel BusModel BusSpec BusProofs LayoutProofs.
Open Scope nat_scope.

(** ** C47 *)
(** In the table of buses every bus has as many signals as its type, every field has the position of its
    declaration, and its offset and size designate its own signals among the signals of the bus, wherever
    the bus is. *)
Theorem C47_fields : forall buses, buses_shaped buses -> exists n, forall fuel, n <= fuel ->
  exists table, build_buses fuel buses = Some table /\ length table = length buses /\
    forall b ws fs, buses !! b = Some ws -> has_shape buses (Some b) (SBus fs) ->
      exists bi, table !! b = Some bi /\
        (forall name, length (cells name [] (SBus fs)) = bi_size bi) /\
        (forall name, is_Some (bi_fields bi !! name) <-> name ∈ w_name <$> ws) /\
        (forall i w, ws !! i = Some w -> exists info, bi_fields bi !! w_name w = Some info /\
           fi_id info = i /\ fi_dims info = w_dims w /\ fi_bus info = w_bus w /\
           exists s, has_shape buses (w_bus w) s /\
             forall name, segment (fi_offset info) (fi_size info) (cells name [] (SBus fs)) = cells (dotted name (w_name w)) (w_dims w) s) /\
        (forall k, k < bi_size bi -> exists! x, exists info, bi_fields bi !! x = Some info /\ fi_offset info <= k < fi_offset info + fi_size info).
Proof.
  intros buses HS. destruct (enough_fuel _ HS) as [n Hn]. exists n. intros fuel Hfuel.
  destruct (build_buses_ok _ _ (Hn fuel Hfuel)) as (table & E & HL & HI). exists table. split_and!; [done|done|].
  intros b ws fs Hb Hs. destruct (HI _ _ _ Hb Hs) as (bi & Hbi & [Hsz Hfl]). exists bi. split; [done|].
  inversion Hs as [|? ws' fs' Hb' ND Hf]; subst. rewrite Hb in Hb'. inversion Hb'; subst ws'.
  assert (NoDup (field_infos 0 0 ws fs).*1) as NDL by (by rewrite (field_infos_names _ _ _ Hf)).
  split_and!.
  - intros name. rewrite (proj1 cells_length). cbn. rewrite Hsz. unfold prod. cbn. lia.
  - intros name. rewrite <- (field_infos_names _ _ _ Hf 0 0), Hfl. split.
    + intros [x Hx]. apply elem_of_list_to_map_2 in Hx. by apply (elem_of_list_fmap_1 fst) in Hx.
    + intros Hin. apply elem_of_list_fmap in Hin as ([k x] & -> & Hx). exists x. by apply elem_of_list_to_map_1.
  - intros i w Hw. destruct (field_infos_segments _ _ _ Hf "" [] 0 i w Hw) as (info & Ei & Hid & Hd & Hbus & s & Hs' & _).
    exists info. rewrite Hfl. split_and!; [|done|done|done|].
    + apply elem_of_list_to_map_1; [done|]. by eapply elem_of_list_lookup_2.
    + exists s. split; [done|]. intros name. rewrite cells_bus_nil, member_cells_prefix.
      destruct (field_infos_segments _ _ _ Hf (name +:+ ".") [] 0 i w Hw) as (info' & Ei' & _ & _ & _ & s' & Hs'' & Hseg).
      rewrite Ei in Ei'. inversion Ei'; subst info'. by rewrite (proj1 (has_shape_det buses) _ _ Hs' _ Hs'').
  - intros k Hk. rewrite Hsz in Hk. destruct (field_infos_cover ws fs buses 0 0 k Hf) as (i & [x info] & Ei & Hr); [lia|].
    exists x. split.
    + exists info. rewrite Hfl. split; [|done]. apply elem_of_list_to_map_1; [done|]. by eapply elem_of_list_lookup_2.
    + intros y (info' & Ey & Hy). rewrite Hfl in Ey. apply elem_of_list_to_map_2 in Ey. apply elem_of_list_lookup in Ey as [j Ej].
      pose proof (field_infos_disjoint _ _ _ _ _ _ _ _ _ Ei Ej Hr Hy) as ->. rewrite Ei in Ej. by inversion Ej.
Qed.
Print Assumptions C47_fields.

(** The calls of a template on the DAG declare exactly its signals, each under its full name, by kind and
    in the order of their declaration; and the exported wires designate, in this list, the signals of each
    wire. *)
Theorem C47_layout : forall buses t fs, buses_shaped buses -> has_fields buses (wires_of t) fs -> exists n, forall fuel, n <= fuel ->
  exists ops table ls, build_wires fuel buses t = Some ops /\ build_buses fuel buses = Some table /\ export_wires table t = Some ls /\
    let names := outputs_of ops ++ public_inputs_of ops ++ private_inputs_of ops ++ intermediates_of ops in
    names = member_cells "" fs /\ length ops = length names /\
    Forall2 (designates buses names) ls (wires_of t) /\ l_kind <$> ls = kinds_of t.
Proof.
  intros buses t fs HS Hf. destruct (enough_fuel _ HS) as [n Hn]. exists (max n (fields_depth fs)). intros fuel Hfuel.
  unfold wires_of in Hf. destruct (has_fields_app _ _ _ _ Hf) as (fo & f1 & Ho & H1 & HC1 & HZ1 & HD1 & _).
  destruct (has_fields_app _ _ _ _ H1) as (fp & f2 & Hp & H2 & HC2 & HZ2 & HD2 & _).
  destruct (has_fields_app _ _ _ _ H2) as (fv & fm & Hv & Hm & HC3 & HZ3 & HD3 & _).
  destruct (build_buses_ok buses fuel) as (table & E & HL & HI). { apply Hn. lia. }
  eexists _, table, _. split; [eapply build_wires_ok; [done|done|done|done|lia..]|]. split; [done|].
  split; [by eapply export_wires_ok|]. cbv zeta.
  destruct (decls_of (member_cells "" fo) (member_cells "" fp) (member_cells "" fv) (member_cells "" fm)) as (-> & -> & -> & ->).
  split_and!.
  - by rewrite HC1, HC2, HC3.
  - unfold decls. by rewrite !app_length, !fmap_length.
  - unfold wires_of. apply Forall2_app; [|apply Forall2_app; [|apply Forall2_app]].
    + apply (layouts_place _ _ _ _ Ho []).
    + pose proof (layouts_place _ KInput _ _ Hp (member_cells "" fo)) as Q. rewrite (proj2 cells_length) in Q. apply Q.
    + pose proof (layouts_place _ KInput _ _ Hv (member_cells "" fo ++ member_cells "" fp)) as Q. rewrite app_length, !(proj2 cells_length) in Q.
      specialize (Q (member_cells "" fm)). rewrite <- !app_assoc in Q. exact Q.
    + pose proof (layouts_place _ KIntermediate _ _ Hm (member_cells "" fo ++ member_cells "" fp ++ member_cells "" fv) []) as Q.
      rewrite !app_length, !(proj2 cells_length), Nat.add_assoc in Q. rewrite <- !app_assoc, app_nil_r in Q. exact Q.
  - unfold kinds_of. rewrite !fmap_app. rewrite !(layouts_kinds buses) by done. done.
Qed.
Print Assumptions C47_layout.

(** With identifiers as names, different ones in the template and in every bus, all the signals of the
    template have different names. *)
Theorem C47_names_are_unique : forall fs, good_fields fs -> NoDup (member_cells "" fs).
Proof. intros fs H. by apply member_cells_nodup. Qed.
Print Assumptions C47_names_are_unique.

(** Hence the calls meet the conditions of C23 and C24, and the DAG numbers the signals of a template by their
    position in this list. *)
Theorem C47_numbers_in_the_dag : forall buses t fs p before d template parameters parallel custom, buses_shaped buses -> has_fields buses (wires_of t) fs -> good_fields fs ->
  history (fun d o => fresh d o /\ in_order d o) p before d -> exists n, forall fuel, n <= fuel ->
  exists ops d' node, build_wires fuel buses t = Some ops /\
    history (fun d o => fresh d o /\ in_order d o) p (before ++ OpNode template parameters parallel custom :: ops) d' /\ last (d_nodes d') = Some node /\
    (forall k s, member_cells "" fs !! k = Some s -> n_corr node !! s = Some (S k)) /\ n_signals node = length (member_cells "" fs).
Proof.
  intros buses t fs p before d template parameters parallel custom HS Hf HG HH. exists (fields_depth fs). intros fuel Hfuel.
  pose proof (C47_names_are_unique _ HG) as ND.
  unfold wires_of in Hf. destruct (has_fields_app _ _ _ _ Hf) as (fo & f1 & Ho & H1 & HC1 & HZ1 & HD1 & _).
  destruct (has_fields_app _ _ _ _ H1) as (fp & f2 & Hp & H2 & HC2 & HZ2 & HD2 & _).
  destruct (has_fields_app _ _ _ _ H2) as (fv & fm & Hv & Hm & HC3 & HZ3 & HD3 & _).
  rewrite HC1, HC2, HC3 in ND. destruct (declare_wires p before d template parameters parallel custom _ _ _ _ HH ND) as (d' & node & HH' & Hnode & Hes).
  pose proof (decls_of (member_cells "" fo) (member_cells "" fp) (member_cells "" fv) (member_cells "" fm)) as (D1 & D2 & D3 & D4).
  exists (decls (member_cells "" fo) (member_cells "" fp) (member_cells "" fv) (member_cells "" fm)), d', node.
  split; [apply build_wires_ok; try done; lia|]. split; [done|]. split; [done|].
  destruct (C23_declaration_order p _ d' node [] HH' Hnode Hes) as (A & _ & _ & B & _). rewrite current_decls in A, B. rewrite D1, D2, D3, D4 in A, B.
  rewrite HC1, HC2, HC3. split; [exact A|]. rewrite B. done.
Qed.
Print Assumptions C47_numbers_in_the_dag.

(** C44: the lines of an instance in the symbol file: its signals, array elements and bus fields are on consecutive
    lines in row-major order, after the lines that precede the instance.  (The numbers of the template's own signals
    are those of C47_numbers_in_the_dag; the signals of its components come after its own, C23.) *)
Theorem C44_names_are_row_major : forall d lines i x n fs, sym_agrees d lines i -> instance d x -> d_nodes d !! i_node x = Some n ->
  (forall k s, member_cells "" fs !! k = Some s -> n_corr n !! s = Some (S k) /\ S k ∈ n_locals n) ->
  forall k s, member_cells "" fs !! k = Some s -> exists e, lines !! (i_off x + k) = Some e /\ se_symbol e = full_name x s.
Proof.
  intros d lines i x n fs HA HX Hn HC k s Hk. destruct (HC k s Hk) as [Hs Hl].
  assert (exists e, e ∈ lines /\ se_original e = Z.of_nat (global x (S k)) /\ se_symbol e = full_name x s) as (e & He & HO & HS).
  { destruct (decide (Z.of_nat (global x (S k)) ∈ R1csModel.i_signals i)) as [Hin|Hin].
    - apply elem_of_list_lookup in Hin as [v Hv].
      exists (SymElem (Z.of_nat (global x (S k))) (Z.of_nat v) (Z.of_nat (i_node x)) (full_name x s)). split; [|done].
      apply (sa_lines _ _ _ HA). exists x, n, s, (S k). repeat (split; [done|]). left. by exists v.
    - exists (SymElem (Z.of_nat (global x (S k))) (-1)%Z (Z.of_nat (i_node x)) (full_name x s)). split; [|done].
      apply (sa_lines _ _ _ HA). exists x, n, s, (S k). repeat (split; [done|]). right. split; [done|].
      intros v Hv. apply Hin. by eapply elem_of_list_lookup_2. }
  apply elem_of_list_lookup in He as [j Hj]. exists e. split; [|done].
  assert (j = i_off x + k) as <-; [|done].
  assert ((se_original <$> lines) !! j = Some (Z.of_nat (global x (S k)))) as H by (rewrite list_lookup_fmap, Hj; cbn; by rewrite HO).
  rewrite (sa_numbers _ _ _ HA), list_lookup_fmap in H. destruct (seq 1 (total_signals d) !! j) as [v|] eqn:E; [|done].
  apply lookup_seq in E as [-> _]. cbn in H. injection H as H. unfold global in H. lia.
Qed.
Print Assumptions C44_names_are_row_major.

(** The inputs of main, with the numbers of their signals: every input that is not a bus, every array of
    signals inside of an input bus under its qualified name, and the input buses as a whole.  An input
    designates its own signals in the list of the signals of main (which the DAG numbers from 1), and
    the inputs that are not whole buses list the input signals of main once, in order. *)
Theorem C47_main_inputs : forall buses t fs fi, buses_shaped buses -> buses_filled buses -> bus_arrays_filled (t_inputs t) ->
  has_fields buses (wires_of t) fs -> has_fields buses (public_inputs t ++ private_inputs t) fi -> good_fields fs -> exists n, forall fuel, n <= fuel ->
  exists table ls fdt infos, build_buses fuel buses = Some table /\ export_wires table t = Some ls /\ get_info_buses table = Some fdt /\
    main_input_list fuel fdt ls = Some infos /\ NoDup (in_name <$> infos) /\
    exists single whole, infos = single ++ whole /\
      concat ((fun io => cells (in_name io) (in_dims io) SSignal) <$> single) = member_cells "" fi /\
      Forall (fun io => in_bus io = None /\ in_size io = length (paths (in_dims io)) /\
                segment (in_start io - 1) (in_size io) (member_cells "" fs) = cells (in_name io) (in_dims io) SSignal) single /\
      Forall (fun io => exists s w, w ∈ t_inputs t /\ in_name io = w_name w /\ w_bus w <> None /\ has_shape buses (w_bus w) s /\
                segment (in_start io - 1) (in_size io) (member_cells "" fs) = cells (w_name w) (w_dims w) s) whole.
Proof.
  intros buses t fs fi HS HF HP Hf Hfi HG. destruct (enough_fuel _ HS) as [n Hn]. exists (max n (fields_depth fi)). intros fuel Hfuel.
  unfold wires_of in Hf. rewrite (app_assoc (public_inputs t)) in Hf. destruct (has_fields_app _ _ _ _ Hf) as (fo & f1 & Ho & H1 & HC1 & HZ1 & HD1 & _ & HG1 & _).
  destruct (has_fields_app _ _ _ _ H1) as (fi' & fm & Hfi' & Hm & HC2 & HZ2 & HD2 & HN2 & HG2 & _).
  pose proof (proj2 (has_shape_det buses) _ _ Hfi' _ Hfi) as ->.
  destruct (has_fields_app _ _ _ _ Hfi) as (fp & fv & Hp & Hv & HC3 & HZ3 & HD3 & _).
  assert (all_shaped buses fuel) as HA by (apply Hn; lia).
  destruct (build_buses_ok buses fuel HA) as (table & E & HL & HI).
  destruct (get_info_buses_ok buses fuel table HA HF E) as (fdt & Efd & HDt).
  assert (good_fields fi) as HGi by tauto.
  assert (bus_arrays_filled (public_inputs t ++ private_inputs t)) as HPi.
  { apply Forall_forall. intros w Hw. apply (proj1 (Forall_forall _ _) HP). apply elem_of_app in Hw as [Hw|Hw]; by apply elem_of_list_filter in Hw as [_ Hw]. }
  eexists table, _, fdt, _. split; [done|]. split; [by eapply export_wires_ok|]. split; [done|].
  assert (HFL : filter is_input (layouts KOutput 0 (t_outputs t) fo ++ layouts KInput (fsize fo) (public_inputs t) fp ++
    layouts KInput (fsize fo + fsize fp) (private_inputs t) fv ++ layouts KIntermediate (fsize fo + fsize fp + fsize fv) (t_intermediates t) fm) =
    layouts KInput (fsize fo) (public_inputs t ++ private_inputs t) fi).
  { rewrite !filter_app. rewrite (layouts_app _ _ _ _ _ _ _ Hp Hv Hfi). rewrite (filter_none is_input (layouts KOutput _ _ _)), (filter_none is_input (layouts KIntermediate _ _ _)).
    - rewrite !(filter_all is_input (layouts KInput _ _ _)); [cbn [app]; by rewrite app_nil_r|apply layouts_kind|apply layouts_kind].
    - eapply Forall_impl; [apply layouts_kind|]. unfold is_input. intros l ->. done.
    - eapply Forall_impl; [apply layouts_kind|]. unfold is_input. intros l ->. done. }
  split; [apply (main_input_list_ok buses fdt fuel _ (fsize fo) _ fi HDt Hfi HGi HPi); [lia|exact HFL]|].
  set (ws := filter (fun io => in_bus io <> None) (build_info_wire <$> layouts KInput (fsize fo) (public_inputs t ++ private_inputs t) fi)).
  assert (forall io, io ∈ ws -> in_name io ∉ in_name <$> member_entries "" (S (fsize fo)) fi) as Hnot.
  { intros io Hio. apply elem_of_list_filter in Hio as [Hb Hio]. destruct (inputs_classified _ _ _ Hfi HGi _ _ Hio) as [Hin|[_ Hn']]; [|done].
    exfalso. apply Hb. by apply (proj1 (Forall_forall _ _) (proj2 entries_signals fi "" (S (fsize fo))) io Hin). }
  split.
  { rewrite fmap_app. apply NoDup_app. split_and!; [by apply member_entries_nodup| |].
    - intros x Hx Hx'. apply elem_of_list_fmap in Hx' as (io & -> & Hio). by apply (Hnot io).
    - assert (NoDup (in_name <$> (build_info_wire <$> layouts KInput (fsize fo) (public_inputs t ++ private_inputs t) fi))) as Q.
      { rewrite <- list_fmap_compose. assert (in_name ∘ build_info_wire <$> layouts KInput (fsize fo) (public_inputs t ++ private_inputs t) fi = field_names fi) as ->.
        { rewrite <- (layouts_names KInput (fsize fo) _ _ _ Hfi). done. } by apply good_fields_nodup. }
      by apply NoDup_fmap_filter. }
  exists (member_entries "" (S (fsize fo)) fi), ws. split_and!; [done|apply entries_cells| |].
  - apply Forall_forall. intros io Hio. pose proof (proj1 (Forall_forall _ _) (proj2 entries_signals fi "" (S (fsize fo))) io Hio) as [Q1 Q2]. split; [done|]. split; [by rewrite paths_length|].
    rewrite HC1, HC2. apply (member_entries_segment fi io (member_cells "" fo) "" (member_cells "" fm) (S (fsize fo))); [by rewrite (proj2 cells_length)|done].
  - apply Forall_forall. intros io Hio. apply elem_of_list_filter in Hio as [Hb Hio]. apply elem_of_list_fmap in Hio as (l & -> & Hl).
    pose proof (layouts_place _ KInput _ _ Hfi (member_cells "" fo) (member_cells "" fm)) as Q. rewrite (proj2 cells_length) in Q.
    apply elem_of_list_lookup in Hl as [i Hl]. destruct (Forall2_lookup_l _ _ _ _ _ Q Hl) as (w & Hw & (N1 & N2 & N3 & N4 & s & Hs & Hseg)).
    exists s, w. cbn [build_info_wire in_name in_start in_size in_bus] in *. split_and!; try done.
    + apply elem_of_list_lookup_2 in Hw. apply elem_of_app in Hw as [Hw|Hw]; by apply elem_of_list_filter in Hw as [_ Hw].
    + by rewrite <- N3.
    + rewrite HC1, HC2, N4. cbn [Nat.sub]. rewrite Nat.sub_0_r. exact Hseg.
Qed.
Print Assumptions C47_main_inputs.

(** A point with an array of two signals, a line with an array of two points. *)
Definition ex_buses : list (list wire) :=
  [[Wire "x" [] None; Wire "y" [2] None]; [Wire "a" [] (Some 0); Wire "b" [2] (Some 0); Wire "c" [] None]].
Definition ex_template : template :=
  Template [Wire "o" [] None] [Wire "p" [] (Some 0); Wire "in" [2] None; Wire "l" [] (Some 1)] [Wire "z" [] None] ["in"].
Definition ex_point : fields := FCons "x" [] SSignal (FCons "y" [2] SSignal FNil).
Definition ex_line : fields := FCons "a" [] (SBus ex_point) (FCons "b" [2] (SBus ex_point) (FCons "c" [] SSignal FNil)).
Definition ex_inputs : fields := FCons "in" [2] SSignal (FCons "p" [] (SBus ex_point) (FCons "l" [] (SBus ex_line) FNil)).
Definition ex_all : fields := FCons "o" [] SSignal (FCons "in" [2] SSignal (FCons "p" [] (SBus ex_point) (FCons "l" [] (SBus ex_line) (FCons "z" [] SSignal FNil)))).
Lemma ex_point_shape : has_shape ex_buses (Some 0) (SBus ex_point).
Proof.
  apply (hs_bus _ _ [Wire "x" [] None; Wire "y" [2] None]); [done|apply (bool_decide_unpack _); vm_compute; exact I|].
  apply (hf_cons _ (Wire "x" [] None)); [constructor|]. apply (hf_cons _ (Wire "y" [2] None)); [constructor|]. constructor.
Qed.
Lemma ex_line_shape : has_shape ex_buses (Some 1) (SBus ex_line).
Proof.
  apply (hs_bus _ _ [Wire "a" [] (Some 0); Wire "b" [2] (Some 0); Wire "c" [] None]); [done|apply (bool_decide_unpack _); vm_compute; exact I|].
  apply (hf_cons _ (Wire "a" [] (Some 0))); [apply ex_point_shape|]. apply (hf_cons _ (Wire "b" [2] (Some 0))); [apply ex_point_shape|].
  apply (hf_cons _ (Wire "c" [] None)); [constructor|]. constructor.
Qed.
Lemma ex_shaped : buses_shaped ex_buses.
Proof. intros [|[|b]] ws H; [|..|done]; eexists; [apply ex_point_shape|apply ex_line_shape]. Qed.
Lemma ex_filled : buses_filled ex_buses.
Proof. apply (bool_decide_unpack _). vm_compute. exact I. Qed.
Lemma ex_inputs_fields : has_fields ex_buses (public_inputs ex_template ++ private_inputs ex_template) ex_inputs.
Proof.
  change (public_inputs ex_template ++ private_inputs ex_template) with [Wire "in" [2] None; Wire "p" [] (Some 0); Wire "l" [] (Some 1)].
  apply (hf_cons _ (Wire "in" [2] None)); [constructor|]. apply (hf_cons _ (Wire "p" [] (Some 0))); [apply ex_point_shape|].
  apply (hf_cons _ (Wire "l" [] (Some 1))); [apply ex_line_shape|]. constructor.
Qed.
Lemma ex_all_fields : has_fields ex_buses (wires_of ex_template) ex_all.
Proof.
  change (wires_of ex_template) with ([Wire "o" [] None] ++ (public_inputs ex_template ++ private_inputs ex_template) ++ [Wire "z" [] None]).
  apply (hf_cons _ (Wire "o" [] None)); [constructor|]. 
  change ((public_inputs ex_template ++ private_inputs ex_template) ++ [Wire "z" [] None]) with [Wire "in" [2] None; Wire "p" [] (Some 0); Wire "l" [] (Some 1); Wire "z" [] None].
  apply (hf_cons _ (Wire "in" [2] None)); [constructor|]. apply (hf_cons _ (Wire "p" [] (Some 0))); [apply ex_point_shape|].
  apply (hf_cons _ (Wire "l" [] (Some 1))); [apply ex_line_shape|]. apply (hf_cons _ (Wire "z" [] None)); [constructor|]. constructor.
Qed.
Lemma plain_check s : (negb (bool_decide (s = "")) && forallb (fun c => (nat_of_ascii c <? 128) && negb (bool_decide (c = "."%char)) && negb (bool_decide (c = "["%char))) (String.list_ascii_of_string s)) = true -> plain s.
Proof.
  intros H. apply andb_prop in H as [H0 H]. split; [intros ->; done|]. intros c Hc. apply elem_of_list_In in Hc. rewrite forallb_forall in H. specialize (H c Hc).
  apply andb_prop in H as [H H2]. apply andb_prop in H as [H3 H1]. split; [by apply Nat.ltb_lt|]. split; intros ->; vm_compute in H1, H2; done.
Qed.
Lemma ex_good : good_fields ex_all.
Proof.
  cbn [good_fields good_names ex_all ex_point ex_line field_names].
  repeat match goal with |- _ /\ _ => split | |- plain _ => apply plain_check; vm_compute; reflexivity | |- True => exact I | |- _ ∉ _ => apply (bool_decide_unpack _); vm_compute; exact I end.
Qed.
Example C47_example :
  buses_shaped ex_buses /\ buses_filled ex_buses /\ bus_arrays_filled (t_inputs ex_template) /\ has_fields ex_buses (wires_of ex_template) ex_all /\
  has_fields ex_buses (public_inputs ex_template ++ private_inputs ex_template) ex_inputs /\ good_fields ex_all /\
  member_cells "" ex_all = ["o"; "in[0]"; "in[1]"; "p.x"; "p.y[0]"; "p.y[1]"; "l.a.x"; "l.a.y[0]"; "l.a.y[1]"; "l.b[0].x"; "l.b[0].y[0]"; "l.b[0].y[1]";
    "l.b[1].x"; "l.b[1].y[0]"; "l.b[1].y[1]"; "l.c"; "z"] /\
  match build_buses 2 ex_buses with
  | Some table =>
      match export_wires table ex_template, get_info_buses table with
      | Some ls, Some fdt =>
          match main_input_list 2 fdt ls with
          | Some infos => (fun io => (in_name io, in_start io, in_size io)) <$> infos =
              [("in", 2, 2); ("p.x", 4, 1); ("p.y", 5, 2); ("l.a.x", 7, 1); ("l.a.y", 8, 2); ("l.b[0].x", 10, 1); ("l.b[0].y", 11, 2); ("l.b[1].x", 13, 1); ("l.b[1].y", 14, 2);
               ("l.c", 16, 1); ("p", 4, 3); ("l", 7, 10)]
          | None => False
          end
      | _, _ => False
      end
  | None => False
  end.
Proof.
  split; [apply ex_shaped|]. split; [apply ex_filled|]. split; [repeat constructor|]. split; [apply ex_all_fields|]. split; [apply ex_inputs_fields|].
  split; [apply ex_good|]. split; vm_compute; reflexivity.
Qed.

(** An empty array inside of a bus, in a program whose layout is otherwise defined, makes the compiler
    divide by zero (build.rs:607-611); so does an empty array of buses as an input of main (build.rs:391). *)
Theorem C47_empty_arrays_panic_refuted : exists buses t fs table ls, buses_shaped buses /\ has_fields buses (wires_of t) fs /\ good_fields fs /\
  build_buses 1 buses = Some table /\ export_wires table t = Some ls /\ get_info_buses table = None.
Proof.
  exists [[Wire "x" [0] None; Wire "y" [] None]], (Template [] [Wire "p" [] (Some 0)] [] []), (FCons "p" [] (SBus (FCons "x" [0] SSignal (FCons "y" [] SSignal FNil))) FNil).
  assert (has_shape [[Wire "x" [0] None; Wire "y" [] None]] (Some 0) (SBus (FCons "x" [0] SSignal (FCons "y" [] SSignal FNil)))) as HS.
  { apply (hs_bus _ _ [Wire "x" [0] None; Wire "y" [] None]); [done|apply (bool_decide_unpack _); vm_compute; exact I|].
    apply (hf_cons _ (Wire "x" [0] None)); [constructor|]. apply (hf_cons _ (Wire "y" [] None)); [constructor|]. constructor. }
  eexists _, _. split. { intros [|b] ws H; [|done]. eexists. exact HS. }
  split. { apply (hf_cons _ (Wire "p" [] (Some 0))); [exact HS|constructor]. }
  split. { cbn [good_fields good_names field_names].
    repeat match goal with |- _ /\ _ => split | |- plain _ => apply plain_check; vm_compute; reflexivity | |- True => exact I | |- _ ∉ _ => apply (bool_decide_unpack _); vm_compute; exact I end. }
  split; [vm_compute; reflexivity|]. split; vm_compute; reflexivity.
Qed.
Print Assumptions C47_empty_arrays_panic_refuted.
Theorem C47_empty_bus_array_input_panics_refuted : exists buses t fs table ls fdt, buses_shaped buses /\ buses_filled buses /\ has_fields buses (wires_of t) fs /\ good_fields fs /\
  build_buses 1 buses = Some table /\ export_wires table t = Some ls /\ get_info_buses table = Some fdt /\ forall fuel, main_input_list fuel fdt ls = None.
Proof.
  exists [[Wire "x" [] None]], (Template [] [Wire "p" [0] (Some 0)] [] []), (FCons "p" [0] (SBus (FCons "x" [] SSignal FNil)) FNil).
  assert (has_shape [[Wire "x" [] None]] (Some 0) (SBus (FCons "x" [] SSignal FNil))) as HS.
  { apply (hs_bus _ _ [Wire "x" [] None]); [done|apply (bool_decide_unpack _); vm_compute; exact I|]. apply (hf_cons _ (Wire "x" [] None)); [constructor|]. constructor. }
  eexists _, _, _. split. { intros [|b] ws H; [|done]. eexists. exact HS. }
  split. { apply (bool_decide_unpack _). vm_compute. exact I. }
  split. { apply (hf_cons _ (Wire "p" [0] (Some 0))); [exact HS|constructor]. }
  split. { cbn [good_fields good_names field_names].
    repeat match goal with |- _ /\ _ => split | |- plain _ => apply plain_check; vm_compute; reflexivity | |- True => exact I | |- _ ∉ _ => apply (bool_decide_unpack _); vm_compute; exact I end. }
  split; [vm_compute; reflexivity|]. split; [vm_compute; reflexivity|]. split; [vm_compute; reflexivity|]. intros fuel. vm_compute. reflexivity.
Qed.
Print Assumptions C47_empty_bus_array_input_panics_refuted.
