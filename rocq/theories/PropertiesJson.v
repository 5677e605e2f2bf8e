(** C53: JSON inputs. *)
From Coq Require Import Ascii.
From stdpp Require Import prelude gmap fin_maps strings pretty.
From Verif Require Import DagModel MemSliceSpec MemSliceProofs InputModel InputSpec InputProofs PropertiesInput BusModel BusSpec BusProofs LayoutProofs PropertiesBus JsonProofs.
Open Scope nat_scope.

(** What the compiler puts in the hash table for an input, and the hash computed by the C++ calculator *)
Definition compiled_entry (io : input_info) : entry := Entry (hasher (bytes_of (in_name io))) (in_start io) (in_size io).
Definition cpp_hash (name : string) : Z := fnv1a_cpp (bytes_of name).

(** Take any program and any JSON object that has exactly the inputs of main as members, each a nested
    array with the dimensions of the input whose elements are numbers, or objects with the members of
    the bus.  If the hashes of the names of the inputs are different and not 0, the C++ calculator
    accepts the object, runs the circuit once, and at that time the k-th input signal of main has the k-th value. *)
Theorem C53_json_inputs : forall buses t fs fo fi, buses_shaped buses -> buses_filled buses -> bus_arrays_filled (t_inputs t) ->
  has_fields buses (wires_of t) fs -> has_fields buses (t_outputs t) fo -> has_fields buses (public_inputs t ++ private_inputs t) fi -> good_fields fs ->
  exists n, forall fuel, n <= fuel ->
  exists table ls fdt infos, build_buses fuel buses = Some table /\ export_wires table t = Some ls /\ get_info_buses table = Some fdt /\ main_input_list fuel fdt ls = Some infos /\
    forall (F : Type) size htable (initial : list F) l vs,
      let start := S (length (member_cells "" fo)) in
      let count := length (member_cells "" fi) in
      NoDup (e_hash <$> (compiled_entry <$> infos)) -> Forall (fun e => e_hash e <> 0%Z) (compiled_entry <$> infos) ->
      generate_hash_map (compiled_entry <$> infos) size = Some htable -> 0 < count -> start + count <= length initial ->
      l.*1 ≡ₚ field_names fi -> members fi l vs ->
      exists items c, json_items cpp_hash (JObj l) = Some items /\ main_run htable start count items initial = Some c /\
        runs c = [signals c] /\ length vs = count /\
        (forall k v, vs !! k = Some v -> signals c !! (start + k) = Some v) /\
        (forall p, ~ (start <= p < start + count) -> signals c !! p = initial !! p).
Proof.
  intros buses t fs fo fi HS HF HP Hf Hfo Hfi HG. destruct (enough_fuel _ HS) as [n Hn]. exists (max n (fields_depth fi)). intros fuel Hfuel.
  unfold wires_of in Hf. rewrite (app_assoc (public_inputs t)) in Hf. destruct (has_fields_app _ _ _ _ Hf) as (fo' & f1 & Ho & H1 & HC1 & HZ1 & HD1 & _ & HG1 & _).
  pose proof (proj2 (has_shape_det buses) _ _ Ho _ Hfo) as ->. clear Ho.
  destruct (has_fields_app _ _ _ _ H1) as (fi' & fm & Hfi' & Hm & HC2 & HZ2 & HD2 & HN2 & HG2 & _).
  pose proof (proj2 (has_shape_det buses) _ _ Hfi' _ Hfi) as ->. clear Hfi'.
  destruct (has_fields_app _ _ _ _ Hfi) as (fp & fv & Hp & Hv & HC3 & HZ3 & HD3 & _).
  assert (all_shaped buses fuel) as HA by (apply Hn; lia).
  destruct (build_buses_ok buses fuel HA) as (table & E & HL & HI).
  destruct (get_info_buses_ok buses fuel table HA HF E) as (fdt & Efd & HDt).
  assert (good_fields fi) as HGi by tauto.
  assert (bus_arrays_filled (public_inputs t ++ private_inputs t)) as HPi.
  { apply Forall_forall. intros w Hw. apply (proj1 (Forall_forall _ _) HP). apply elem_of_app in Hw as [Hw|Hw]; by apply elem_of_list_filter in Hw as [_ Hw]. }
  assert (filled_fields fi) as HFi by (by eapply (proj2 (has_fields_filled _ HF))).
  set (layout_list := layouts KOutput 0 (t_outputs t) fo ++ layouts KInput (fsize fo) (public_inputs t) fp ++
    layouts KInput (fsize fo + fsize fp) (private_inputs t) fv ++ layouts KIntermediate (fsize fo + fsize fp + fsize fv) (t_intermediates t) fm).
  set (single := member_entries "" (S (fsize fo)) fi).
  set (whole := filter (fun io => in_bus io <> None) (build_info_wire <$> layouts KInput (fsize fo) (public_inputs t ++ private_inputs t) fi)).
  exists table, layout_list, fdt, (single ++ whole). split; [done|]. split; [by apply (export_wires_ok buses)|]. split; [done|].
  assert (HFL : filter is_input layout_list = layouts KInput (fsize fo) (public_inputs t ++ private_inputs t) fi).
  { unfold layout_list. rewrite !filter_app. rewrite (layouts_app _ _ _ _ _ _ _ Hp Hv Hfi). rewrite (filter_none is_input (layouts KOutput _ _ _)), (filter_none is_input (layouts KIntermediate _ _ _)).
    - rewrite !(filter_all is_input (layouts KInput _ _ _)); [cbn [app]; by rewrite app_nil_r|apply layouts_kind|apply layouts_kind].
    - eapply Forall_impl; [apply layouts_kind|]. unfold is_input. intros x ->. done.
    - eapply Forall_impl; [apply layouts_kind|]. unfold is_input. intros x ->. done. }
  split; [apply (main_input_list_ok buses fdt fuel _ (fsize fo) _ fi HDt Hfi HGi HPi); [lia|exact HFL]|].
  intros F size htable initial l vs start count ND NZ HT Hpos Hlen Hkeys Hmem.
  set (inputs := compiled_entry <$> single ++ whole) in *.
  assert (start = S (fsize fo)) as Es by (unfold start; by rewrite (proj2 cells_length)).
  assert (count = fsize fi) as Ec by (unfold count; by rewrite (proj2 cells_length)).
  assert (valid_inputs inputs start count) as VI.
  { split; [done| |lia|].
    - apply Forall_fmap, Forall_forall. intros io _. unfold compose, compiled_entry. cbn [e_hash]. apply hasher_range.
    - apply Forall_fmap, Forall_forall. intros io Hio. unfold compose, compiled_entry. cbn [e_signalid e_size]. rewrite Es, Ec. apply elem_of_app in Hio as [Hio|Hio].
      + apply (proj2 entries_bounds fi "" (S (fsize fo)) io Hio).
      + apply elem_of_list_filter in Hio as [_ Hio]. apply elem_of_list_fmap in Hio as (x & -> & Hx). unfold build_info_wire. cbn [in_start in_size].
        pose proof (layouts_bounds KInput _ _ _ Hfi (fsize fo) x Hx). lia. }
  destruct (json_items_ok cpp_hash l fi vs (S (fsize fo)) HGi HFi Hkeys Hmem) as (items & ts & Ei & Pi & F2 & EV). fold single in F2.
  set (hash := fun s => hasher (bytes_of s)).
  assert (((fun t => (cpp_hash t.1.1, t.2)) <$> ts) = ((fun t => (hash t.1.1, t.2)) <$> ts)) as EH.
  { apply list_fmap_ext. intros i x Hx. f_equal. destruct (Forall2_lookup_l _ _ _ _ _ F2 Hx) as (e & He & (-> & _)).
    unfold cpp_hash, hash. apply C35_same_hash. apply same_hash_ascii. apply (proj1 (Forall_forall _ _) (proj2 entries_ascii fi HGi "" (S (fsize fo)) (Forall_nil_2 _))). by eapply elem_of_list_lookup_2. }
  rewrite EH in Pi.
  assert (forall e, e ∈ single -> entry_of hash e ∈ inputs) as HIn.
  { intros e He. apply (elem_of_list_fmap_1 compiled_entry). apply elem_of_app. by left. }
  pose proof (items_targets hash inputs ts single F2 HIn) as TG. assert (concat ((fun e => seq (in_start e) (in_size e)) <$> single) = seq start count) as ER by (unfold single; by rewrite (proj2 entries_ranges), Es, Ec). rewrite ER in TG.
  assert (Forall (fun it => it.1 <> 0%Z) items) as NZi.
  { rewrite Pi. apply Forall_fmap, Forall_forall. intros x Hx. unfold compose. cbn [fst]. apply elem_of_list_lookup in Hx as [i Hx]. destruct (Forall2_lookup_l _ _ _ _ _ F2 Hx) as (e & He & (-> & _)).
    apply elem_of_list_lookup_2 in He. apply (proj1 (Forall_forall _ _) NZ _ (HIn e He)). }
  assert (exists c, main_run htable start count items initial = Some c) as [c Hc].
  { apply (C36_witness_iff_inputs_complete inputs size); try done. split.
    - intros it Hit. rewrite Pi in Hit. apply elem_of_list_fmap in Hit as (x & -> & Hx). apply elem_of_list_lookup in Hx as [i Hx]. destruct (Forall2_lookup_l _ _ _ _ _ F2 Hx) as (e & He & (Hn' & _ & Hl)).
      exists (entry_of hash e). apply elem_of_list_lookup_2 in He. split; [by apply HIn|]. cbn. by rewrite Hn', Hl.
    - destruct (Permutation_Forall2 (writes_perm _ _ (Permutation_sym Pi)) TG) as (ps & Pp & Tp). exists ps. split; [exact Tp|]. by rewrite Pp. }
  destruct (C36_witness_from_the_given_inputs inputs size start count htable initial items c VI HT Hlen Hpos NZi Hc) as (R1 & R2 & R3).
  assert (length vs = count) as Lv.
  { rewrite <- EV. rewrite <- (writes_values hash ts), fmap_length. rewrite (Forall2_length _ _ _ TG). by rewrite seq_length. }
  exists items, c. split_and!; try done.
  intros k v Hk. rewrite <- EV, <- (writes_values hash ts), list_lookup_fmap in Hk.
  apply fmap_Some in Hk as ([[h i] v0] & Ew & Hv0). cbn in Hv0. subst v0.
  destruct (Forall2_lookup_l _ _ _ _ _ TG Ew) as (p & Hp' & Dp). apply lookup_seq in Hp' as [-> _]. cbn [fst snd] in Dp.
  apply elem_of_list_lookup_2 in Ew. unfold writes_of in Ew. apply elem_of_concat in Ew as (w & Hw & Hit). apply elem_of_list_fmap in Hit as (it & -> & Hit).
  apply elem_of_list_lookup in Hw as [i' Hw]. rewrite list_lookup_imap in Hw. destruct (it.2 !! i') as [x|] eqn:Ex; [|done]. cbn in Hw. inversion Hw; subst.
  rewrite <- Pi in Hit. destruct (R2 it i v Hit Ex) as (p & Dp' & Sp). assert (start + k = p) as -> by (eapply denotes_fun; eauto). done.
Qed.
Print Assumptions C53_json_inputs.

Definition ex_json_point (x y z : Z) : list (string * json Z) := [("y", JArr [JNum y; JNum z]); ("x", JNum x)].
Definition ex_json : list (string * json Z) :=
  [("p", JObj (ex_json_point 12 13 14)); ("in", JArr [JNum 10%Z; JNum 11%Z]);
   ("l", JObj [("c", JNum 24%Z); ("b", JArr [JObj (ex_json_point 18 19 20); JObj (ex_json_point 21 22 23)]); ("a", JObj (ex_json_point 15 16 17))])].
Definition ex_values : list Z := [10; 11; 12; 13; 14; 15; 16; 17; 18; 19; 20; 21; 22; 23; 24]%Z.
Lemma ex_point_members x y z : members ex_point (ex_json_point x y z) [x; y; z].
Proof.
  exists (JNum x), [x], [y; z]. split; [right; left|]. split; [constructor|]. split; [|done].
  exists (JArr [JNum y; JNum z]), [y; z], []. split; [left|]. split; [|done]. apply (nested_array 2 [] [JNum y; JNum z] [[JNum y]; [JNum z]]); [done|repeat constructor].
Qed.
Lemma ex_point_gives x y z : gives (SBus ex_point) [] (JObj (ex_json_point x y z)) [x; y; z].
Proof.
  exists [JObj (ex_json_point x y z)], [[x; y; z]]. split; [constructor|]. split; [|done]. constructor; [|constructor]. exists (ex_json_point x y z). split; [done|].
  split; [apply (bool_decide_unpack _); vm_compute; exact I|apply ex_point_members].
Qed.
Lemma ex_members : members ex_inputs ex_json ex_values.
Proof.
  exists (JArr [JNum 10%Z; JNum 11%Z]), [10; 11]%Z, [12; 13; 14; 15; 16; 17; 18; 19; 20; 21; 22; 23; 24]%Z. split; [right; left|]. split.
  { apply (nested_array 2 [] [JNum 10%Z; JNum 11%Z] [[JNum 10%Z]; [JNum 11%Z]]); [done|repeat constructor]. }
  split; [|done]. exists (JObj (ex_json_point 12 13 14)), [12; 13; 14]%Z, [15; 16; 17; 18; 19; 20; 21; 22; 23; 24]%Z. split; [left|]. split; [apply ex_point_gives|]. split; [|done].
  eexists _, [15; 16; 17; 18; 19; 20; 21; 22; 23; 24]%Z, []. split; [right; right; left|]. split; [|done].
  eexists [_], [[15; 16; 17; 18; 19; 20; 21; 22; 23; 24]%Z]. split; [constructor|]. split; [|done]. constructor; [|constructor]. eexists. split; [reflexivity|].
  split; [apply (bool_decide_unpack _); vm_compute; exact I|].
  eexists _, [15; 16; 17]%Z, [18; 19; 20; 21; 22; 23; 24]%Z. split; [right; right; left|]. split; [apply ex_point_gives|]. split; [|done].
  eexists _, [18; 19; 20; 21; 22; 23]%Z, [24]%Z. split; [right; left|]. split.
  { exists [JObj (ex_json_point 18 19 20); JObj (ex_json_point 21 22 23)], [[18; 19; 20]; [21; 22; 23]]%Z. split.
    - apply (nested_array 2 [] _ [[JObj (ex_json_point 18 19 20)]; [JObj (ex_json_point 21 22 23)]]); [done|repeat constructor].
    - split; [|done]. constructor; [|constructor; [|constructor]]; eexists; (split; [reflexivity|]); (split; [apply (bool_decide_unpack _); vm_compute; exact I|apply ex_point_members]). }
  split; [|done]. eexists _, [24%Z], []. split; [left|]. split; [constructor|done].
Qed.
Definition ex_infos : list input_info :=
  match build_buses 2 ex_buses with
  | Some table => match export_wires table ex_template, get_info_buses table with Some ls, Some fdt => default [] (main_input_list 2 fdt ls) | _, _ => [] end
  | None => []
  end.
Example C53_example :
  buses_shaped ex_buses /\ buses_filled ex_buses /\ bus_arrays_filled (t_inputs ex_template) /\ has_fields ex_buses (wires_of ex_template) ex_all /\ good_fields ex_all /\
  has_fields ex_buses (public_inputs ex_template ++ private_inputs ex_template) ex_inputs /\
  NoDup (e_hash <$> (compiled_entry <$> ex_infos)) /\ Forall (fun e => e_hash e <> 0%Z) (compiled_entry <$> ex_infos) /\
  ex_json.*1 ≡ₚ field_names ex_inputs /\ members ex_inputs ex_json ex_values /\
  match generate_hash_map (compiled_entry <$> ex_infos) 16, json_items cpp_hash (JObj ex_json) with
  | Some htable, Some items =>
      match main_run htable 2 15 items (1%Z :: replicate 17 0%Z) with Some c => signals c = ([1; 0] ++ ex_values ++ [0])%Z /\ runs c = [signals c] | None => False end
  | _, _ => False
  end.
Proof.
  split; [apply ex_shaped|]. split; [apply ex_filled|]. split; [repeat constructor|]. split; [apply ex_all_fields|]. split; [apply ex_good|]. split; [apply ex_inputs_fields|].
  split; [apply (bool_decide_unpack _); vm_compute; exact I|]. split; [apply (bool_decide_unpack _); vm_compute; exact I|].
  split; [apply (bool_decide_unpack _); vm_compute; exact I|]. split; [apply ex_members|]. vm_compute. split; reflexivity.
Qed.

(** A member of an object that is spelled with a dot silently replaces the value of the member of the bus. *)
Theorem C53_dotted_member_overrides_refuted : exists (l : list (string * json Z)) items, l.*1 = ["b"; "b.x"] /\
  l = [("b", JObj [("x", JNum 1%Z)]); ("b.x", JNum 2%Z)] /\ json_items cpp_hash (JObj l) = Some items /\ items = [(cpp_hash "b.x", [2%Z])].
Proof. eexists _, _. split; [|split; [reflexivity|]]; [reflexivity|]. split; vm_compute; reflexivity. Qed.
Print Assumptions C53_dotted_member_overrides_refuted.
