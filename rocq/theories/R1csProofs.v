From stdpp Require Import prelude gmap fin_maps sorting.
From Coq Require Import ZArith Lia.
From Verif Require Import ModArithModel AlgebraModel BytesModel StorageProofs R1csModel R1csSpec.
Open Scope Z_scope.

Notation zlen l := (Z.of_nat (length l)).

(** ** fixed-width numbers *)
Lemma from_bytes_zeros n : from_bytes_le (replicate n 0) = 0.
Proof. induction n as [|n IH]; cbn [replicate from_bytes_le]; lia. Qed.
Lemma bigint_as_bytes_spec n x : (1 <= n)%nat -> fits n x -> bigint_as_bytes x n = le_bytes n x.
Proof.
  intros Hn [H0 H1]. unfold bigint_as_bytes, into_format. pose proof (to_bytes_length x n Hn ltac:(lia)) as HL. apply from_bytes_inj.
  - apply Forall_app_2; [apply to_bytes_byte|]. apply Forall_replicate. unfold byte. lia.
  - apply le_bytes_byte.
  - rewrite app_length, replicate_length, le_bytes_length. lia.
  - rewrite from_bytes_app, from_bytes_zeros, to_bytes_from, le_bytes_from, Z.mod_small by lia. lia.
Qed.
Lemma fits_from n x : fits n x -> from_bytes_le (le_bytes n x) = x.
Proof. intros [H0 H1]. rewrite le_bytes_from, Z.mod_small by lia. reflexivity. Qed.

(** ** the writer *)
Lemma write_all_end b d : write_all b (WFile d (length d)) = WFile (d ++ b) (length (d ++ b)).
Proof.
  unfold write_all. cbn [w_data w_pos]. rewrite take_ge, drop_ge, app_nil_r, app_length by lia. reflexivity.
Qed.
Definition sec_state (s : section) (pre hdr c : bytes) : Prop :=
  s = WSection (WFile (pre ++ hdr ++ place_holder ++ c) (length (pre ++ hdr ++ place_holder ++ c))) (length (pre ++ hdr)) (length c).
Lemma initialize_spec hdr d : sec_state (initialize_section hdr (WFile d (length d))) d hdr [].
Proof.
  unfold initialize_section, sec_state. rewrite write_all_end. rewrite write_all_end. cbn [w_pos]. rewrite app_nil_r, app_assoc. reflexivity.
Qed.
Lemma emit_spec b s pre hdr c : sec_state s pre hdr c -> sec_state (emit b s) pre hdr (c ++ b).
Proof.
  unfold sec_state. intros ->. unfold emit. cbn [s_file s_go_back s_size]. rewrite write_all_end. rewrite <- app_length, <- !app_assoc. reflexivity.
Qed.
Lemma foldl_emit_spec {A} (W : A -> section -> section) (g : A -> bytes) (l : list A) pre hdr :
  (forall x s c, sec_state s pre hdr c -> sec_state (W x s) pre hdr (c ++ g x)) ->
  forall s c, sec_state s pre hdr c -> sec_state (foldl (fun s x => W x s) s l) pre hdr (c ++ concat (g <$> l)).
Proof.
  intros HW. induction l as [|x l IH]; intros s c Hs; cbn [foldl fmap list_fmap concat]; [rewrite app_nil_r; assumption|].
  rewrite app_assoc. apply IH. apply HW. assumption.
Qed.
Lemma end_spec s pre t c : sec_state s pre [t; 0; 0; 0] c -> fits 8 (zlen c) ->
  end_section s = WFile (pre ++ section_bytes t c) (length (pre ++ section_bytes t c)).
Proof.
  unfold sec_state. intros -> Hf. unfold end_section, w_seek. cbn [s_file s_go_back s_size w_data w_pos]. unfold write_all. cbn [w_data w_pos].
  rewrite bigint_as_bytes_spec by (lia || assumption). unfold section_bytes. f_equal.
  - rewrite !app_assoc, <- (app_assoc (pre ++ _)). rewrite take_app_alt by reflexivity. rewrite le_bytes_length.
    rewrite drop_app_ge by lia. replace (length (pre ++ [t; 0%Z; 0%Z; 0%Z]) + 8 - length (pre ++ [t; 0%Z; 0%Z; 0%Z]))%nat with 8%nat by lia.
    rewrite <- !app_assoc. reflexivity.
  - rewrite !app_length, le_bytes_length. cbn. lia.
Qed.

(** nothing ever gets shorter *)
Lemma write_all_mono b f : (length (w_data f) <= length (w_data (write_all b f)))%nat.
Proof. unfold write_all. cbn. rewrite !app_length, take_length, drop_length. lia. Qed.
Lemma emit_mono b s : (length (w_data (s_file s)) <= length (w_data (s_file (emit b s))))%nat.
Proof. apply write_all_mono. Qed.
Lemma foldl_mono {A} (W : A -> section -> section) l : (forall x s, (length (w_data (s_file s)) <= length (w_data (s_file (W x s))))%nat) ->
  forall s, (length (w_data (s_file s)) <= length (w_data (s_file (foldl (fun s x => W x s) s l))))%nat.
Proof. intros HW. induction l as [|x l IH]; intros s; cbn [foldl]; [lia|]. etrans; [apply (HW x)|]. apply IH. Qed.
Lemma end_mono s : (length (w_data (s_file s)) <= length (w_data (end_section s)))%nat.
Proof. unfold end_section, w_seek. cbn [w_data]. apply (write_all_mono _ (WFile _ _)). Qed.
Lemma init_mono h f : (length (w_data f) <= length (w_data (s_file (initialize_section h f))))%nat.
Proof. unfold initialize_section. cbn [s_file]. etrans; [apply (write_all_mono h)|]. apply write_all_mono. Qed.

(** the contents of the sections *)
Definition constraint_bytes (ord : key_order) (fs : nat) (c : lin * lin * lin) : bytes :=
  let '(a, b, c) := c in linear_combination_block ord (to_byte_keys a) fs ++ linear_combination_block ord (to_byte_keys b) fs ++ linear_combination_block ord (to_byte_keys c) fs.
Definition header_bytes (fs : nat) (h : header_data) : bytes :=
  bigint_as_bytes (Z.of_nat fs) 4 ++ bigint_as_bytes (h_field h) fs ++ bigint_as_bytes (h_total_wires h) 4 ++ bigint_as_bytes (h_public_outputs h) 4 ++
  bigint_as_bytes (h_public_inputs h) 4 ++ bigint_as_bytes (h_private_inputs h) 4 ++ bigint_as_bytes (h_number_of_labels h) 8 ++ bigint_as_bytes (h_number_of_constraints h) 4.
Definition usage_bytes (fs : nat) (g : bytes * list Z) : bytes :=
  g.1 ++ [0] ++ bigint_as_bytes (zlen g.2) 4 ++ concat ((fun p => bigint_as_bytes p fs) <$> g.2).
Definition application_bytes (g : Z * list Z) : bytes :=
  bigint_as_bytes g.1 4 ++ bigint_as_bytes (zlen g.2) 4 ++ concat ((fun p => bigint_as_bytes p 8) <$> g.2).
Lemma write_constraint_spec ord fs x s pre hdr c : sec_state s pre hdr c -> sec_state (write_constraint ord fs x s) pre hdr (c ++ constraint_bytes ord fs x).
Proof. intros Hs. destruct x as [[a b] d]. unfold write_constraint, constraint_bytes. rewrite !app_assoc. repeat apply emit_spec. assumption. Qed.
Lemma write_header_spec fs h s pre hdr c : sec_state s pre hdr c -> sec_state (write_header fs h s) pre hdr (c ++ header_bytes fs h).
Proof. intros Hs. unfold write_header, header_bytes. rewrite !app_assoc. cbn [foldl]. repeat apply emit_spec. assumption. Qed.
Lemma write_usages_spec fs us s pre hdr c : sec_state s pre hdr c ->
  sec_state (write_usages fs us s) pre hdr (c ++ bigint_as_bytes (zlen us) 4 ++ concat (usage_bytes fs <$> us)).
Proof.
  intros Hs. unfold write_usages. rewrite app_assoc. apply foldl_emit_spec; [|apply emit_spec; assumption].
  clear. intros [n ps] s c Hs. unfold write_usage, usage_bytes. cbn [fst snd]. rewrite !app_assoc. apply (foldl_emit_spec (fun p => emit (bigint_as_bytes p fs))).
  - intros x s' c' Hs'. apply emit_spec. assumption.
  - repeat apply emit_spec. assumption.
Qed.
Lemma write_applications_spec us s pre hdr c : sec_state s pre hdr c ->
  sec_state (write_applications us s) pre hdr (c ++ bigint_as_bytes (zlen us) 4 ++ concat (application_bytes <$> us)).
Proof.
  intros Hs. unfold write_applications. rewrite app_assoc. apply foldl_emit_spec; [|apply emit_spec; assumption].
  clear. intros [n ps] s c Hs. unfold write_application, application_bytes. cbn [fst snd]. rewrite !app_assoc. apply (foldl_emit_spec (fun p => emit (bigint_as_bytes p 8))).
  - intros x s' c' Hs'. apply emit_spec. assumption.
  - repeat apply emit_spec. assumption.
Qed.
Lemma write_usages_mono fs us s : (length (w_data (s_file s)) <= length (w_data (s_file (write_usages fs us s))))%nat.
Proof.
  unfold write_usages. etrans; [apply (emit_mono (bigint_as_bytes (zlen us) 4))|]. apply foldl_mono. clear. intros [n ps] s. unfold write_usage.
  etrans; [|apply (foldl_mono (fun p => emit (bigint_as_bytes p fs)))]; [|intros; apply emit_mono].
  etrans; [apply (emit_mono n)|]. etrans; [apply (emit_mono [0])|]. apply emit_mono.
Qed.
Lemma write_applications_mono us s : (length (w_data (s_file s)) <= length (w_data (s_file (write_applications us s))))%nat.
Proof.
  unfold write_applications. etrans; [apply (emit_mono (bigint_as_bytes (zlen us) 4))|]. apply foldl_mono. clear. intros [n ps] s. unfold write_application.
  etrans; [|apply (foldl_mono (fun p => emit (bigint_as_bytes p 8)))]; [|intros; apply emit_mono].
  etrans; [apply (emit_mono (bigint_as_bytes n 4))|]. apply emit_mono.
Qed.

(** the whole file *)
Definition preamble (n : Z) : bytes := magic ++ version ++ [n; 0; 0; 0].
Definition constraints_bytes ord fs i : bytes := concat (constraint_bytes ord fs <$> i_constraints i).
Definition signals_bytes i : bytes := concat ((fun x => bigint_as_bytes x 8) <$> i_signals i).
Definition used_bytes fs (us : list (bytes * list Z)) : bytes := bigint_as_bytes (zlen us) 4 ++ concat (usage_bytes fs <$> us).
Definition applied_bytes (us : list (Z * list Z)) : bytes := bigint_as_bytes (zlen us) 4 ++ concat (application_bytes <$> us).
Definition base_sections ord fs i : list (Z * bytes) :=
  [(2, constraints_bytes ord fs i); (1, header_bytes fs (i_header i)); (3, signals_bytes i)].
Definition file_sections ord fs i : list (Z * bytes) :=
  base_sections ord fs i ++ match i_gates i with None => [] | Some (us, ap) => [(4, used_bytes fs us); (5, applied_bytes ap)] end.
Definition file_bytes ord fs i : bytes :=
  preamble (match i_gates i with Some _ => 5 | None => 3 end) ++ concat ((fun '(t, c) => section_bytes t c) <$> file_sections ord fs i).
Lemma sec_len s pre hdr c : sec_state s pre hdr c -> (length c <= length (w_data (s_file s)))%nat.
Proof. intros ->. cbn [s_file w_data]. rewrite !app_length. lia. Qed.
Lemma write_r1cs_spec ord fs i : zlen (write_r1cs ord fs i) < 2 ^ 64 ->
  write_r1cs ord fs i = file_bytes ord fs i /\ Forall (fun tc => (length tc.2 <= length (write_r1cs ord fs i))%nat) (file_sections ord fs i).
Proof.
  set (R := write_r1cs ord fs i). intros HR. assert (HB : forall c : bytes, (length c <= length R)%nat -> fits 8 (zlen c)).
  { intros c Hc. unfold fits. change (256 ^ Z.of_nat 8) with (2 ^ 64). lia. }
  assert (ER : R = write_r1cs ord fs i) by reflexivity. clearbody R. unfold write_r1cs in ER.
  set (f0 := new_writer _) in ER. assert (E0 : f0 = WFile (preamble (match i_gates i with Some _ => 5 | None => 3 end)) 12).
  { unfold f0, new_writer. destruct (i_gates i); reflexivity. }
  clearbody f0. set (s1 := foldl _ _ (i_constraints i)) in ER. set (s2 := write_header _ _ _) in ER. set (s3 := foldl _ _ (i_signals i)) in ER.
  assert (S1 : sec_state s1 (w_data f0) constraint_type (constraints_bytes ord fs i)).
  { unfold s1, constraints_bytes. rewrite <- (app_nil_l (concat _)). apply (foldl_emit_spec (write_constraint ord fs)).
    - intros x s c Hs. apply write_constraint_spec. assumption.
    - rewrite E0. apply initialize_spec. }
  assert (M3 : (length (w_data (end_section s3)) <= length R)%nat).
  { destruct (i_gates i) as [[us ap]|]; subst R; [|lia]. etrans; [|apply end_mono]. etrans; [|apply write_applications_mono].
    etrans; [|apply init_mono]. etrans; [|apply end_mono]. etrans; [|apply write_usages_mono]. apply init_mono. }
  assert (M2 : (length (w_data (end_section s2)) <= length R)%nat).
  { etrans; [|exact M3]. etrans; [|apply end_mono]. unfold s3. etrans; [|apply (foldl_mono write_signal); intros; apply emit_mono]. apply init_mono. }
  assert (M1 : (length (w_data (end_section s1)) <= length R)%nat).
  { etrans; [|exact M2]. etrans; [|apply end_mono]. unfold s2, write_header. cbn [foldl]. etrans; [|apply emit_mono]. etrans; [|apply emit_mono]. etrans; [|apply emit_mono].
    etrans; [|apply emit_mono]. etrans; [|apply emit_mono]. etrans; [|apply emit_mono]. etrans; [|apply emit_mono]. etrans; [|apply emit_mono]. apply init_mono. }
  assert (L1 : (length (constraints_bytes ord fs i) <= length R)%nat).
  { etrans; [eapply sec_len; exact S1|]. etrans; [apply end_mono|exact M1]. }
  pose proof (end_spec s1 _ _ _ S1 (HB _ L1)) as F1.
  assert (S2 : sec_state s2 (w_data (end_section s1)) header_type (header_bytes fs (i_header i))).
  { unfold s2. rewrite <- (app_nil_l (header_bytes _ _)). apply write_header_spec. rewrite F1. apply initialize_spec. }
  assert (L2 : (length (header_bytes fs (i_header i)) <= length R)%nat).
  { etrans; [eapply sec_len; exact S2|]. etrans; [apply end_mono|exact M2]. }
  pose proof (end_spec s2 _ _ _ S2 (HB _ L2)) as F2.
  assert (S3 : sec_state s3 (w_data (end_section s2)) wire2label_type (signals_bytes i)).
  { unfold s3, signals_bytes. rewrite <- (app_nil_l (concat _)). apply (foldl_emit_spec write_signal).
    - intros x s c Hs. apply emit_spec. assumption.
    - rewrite F2. apply initialize_spec. }
  assert (L3 : (length (signals_bytes i) <= length R)%nat).
  { etrans; [eapply sec_len; exact S3|]. etrans; [apply end_mono|exact M3]. }
  pose proof (end_spec s3 _ _ _ S3 (HB _ L3)) as F3.
  rewrite F2 in F3. rewrite F1 in F3. rewrite E0 in F3. cbn [w_data] in F3.
  unfold file_bytes, file_sections, base_sections. destruct (i_gates i) as [[us ap]|].
  - set (s4 := write_usages _ _ _) in ER. set (s5 := write_applications _ _) in ER.
    assert (S4 : sec_state s4 (w_data (end_section s3)) custom_gates_used_type (used_bytes fs us)).
    { unfold s4. rewrite <- (app_nil_l (used_bytes _ _)). apply write_usages_spec. rewrite F3. apply initialize_spec. }
    assert (M4 : (length (w_data (end_section s4)) <= length R)%nat).
    { rewrite ER. etrans; [|apply end_mono]. etrans; [|apply write_applications_mono]. apply init_mono. }
    assert (L4 : (length (used_bytes fs us) <= length R)%nat).
    { etrans; [eapply sec_len; exact S4|]. etrans; [apply end_mono|exact M4]. }
    pose proof (end_spec s4 _ _ _ S4 (HB _ L4)) as F4.
    assert (S5 : sec_state s5 (w_data (end_section s4)) custom_gates_applied_type (applied_bytes ap)).
    { unfold s5. rewrite <- (app_nil_l (applied_bytes _)). apply write_applications_spec. rewrite F4. apply initialize_spec. }
    assert (L5 : (length (applied_bytes ap) <= length R)%nat).
    { etrans; [eapply sec_len; exact S5|]. rewrite ER. apply end_mono. }
    pose proof (end_spec s5 _ _ _ S5 (HB _ L5)) as F5. rewrite F4 in F5. rewrite F3 in F5. cbn [w_data] in F5. split.
    + rewrite ER, F5. cbn [w_data app fmap list_fmap concat]. rewrite app_nil_r, <- !app_assoc. reflexivity.
    + repeat (apply Forall_cons_2; [assumption|]). apply Forall_nil_2.
  - split.
    + rewrite ER, F3. cbn [w_data app fmap list_fmap concat]. rewrite app_nil_r, <- !app_assoc. reflexivity.
    + repeat (apply Forall_cons_2; [assumption|]). apply Forall_nil_2.
Qed.

(** ** the reader *)
Definition reads {A} (m : reader A) (b : bytes) (x : A) : Prop :=
  forall pre post, m (pre ++ b ++ post) (zlen pre) = IoOk (x, zlen pre + zlen b).
Lemma reads_ret {A} (x : A) : reads (rret x) [] x.
Proof. intros pre post. unfold rret. cbn [length]. do 2 f_equal. lia. Qed.
Lemma reads_bind {A B} (m : reader A) (k : A -> reader B) b c x y : reads m b x -> reads (k x) c y -> reads (rbind m k) (b ++ c) y.
Proof.
  intros Hm Hk pre post. unfold rbind. rewrite <- app_assoc, (Hm pre (c ++ post)), app_assoc. replace (zlen pre + zlen b) with (zlen (pre ++ b)) by (rewrite app_length; lia).
  rewrite (Hk (pre ++ b) post). do 2 f_equal. rewrite !app_length. lia.
Qed.
Lemma reads_bind_ret {A B} (m : reader A) (f : A -> B) b x : reads m b x -> reads (rbind m (fun x => rret (f x))) b (f x).
Proof. intros Hm. rewrite <- (app_nil_r b). eapply reads_bind; [exact Hm|]. apply reads_ret. Qed.
Lemma read_exact_reads b n : n = zlen b -> reads (read_exact n) b b.
Proof.
  intros -> pre post. unfold read_exact. rewrite !app_length. destruct (Z.leb_spec (zlen pre + zlen b) (Z.of_nat (length pre + (length b + length post)))); [|lia].
  rewrite !Nat2Z.id, drop_app, take_app. reflexivity.
Qed.
Lemma read_bigint_reads n x k : k = Z.of_nat n -> (1 <= n)%nat -> fits n x -> reads (read_bigint k) (bigint_as_bytes x n) x.
Proof.
  intros -> Hn Hf. rewrite bigint_as_bytes_spec by assumption. unfold read_bigint. rewrite <- (fits_from n x Hf) at 2.
  apply (reads_bind_ret _ from_bytes_le). apply read_exact_reads. rewrite le_bytes_length. reflexivity.
Qed.
Lemma read_usize_reads n x k : k = Z.of_nat n -> (1 <= n <= 8)%nat -> fits n x -> reads (read_usize k) (bigint_as_bytes x n) x.
Proof.
  intros Hk Hn Hf. unfold read_usize. rewrite <- (app_nil_r (bigint_as_bytes x n)). eapply reads_bind; [apply read_bigint_reads; [assumption|lia|assumption]|].
  unfold to_usize. assert (x < 2 ^ 64). { destruct Hf as [_ Hf]. eapply Z.lt_le_trans; [exact Hf|]. change (2 ^ 64) with (256 ^ 8). apply Z.pow_le_mono_r; lia. }
  destruct (Z.ltb_spec x (2 ^ 64)); [|lia]. apply reads_ret.
Qed.
Lemma read_times_reads {A C} (m : reader A) (g : C -> bytes) (h : C -> A) (l : list C) :
  (forall x, x ∈ l -> reads m (g x) (h x)) -> reads (read_times (length l) m) (concat (g <$> l)) (h <$> l).
Proof.
  induction l as [|x l IH]; intros H; cbn [length read_times fmap list_fmap concat]; [apply reads_ret|].
  eapply reads_bind; [apply H; left|]. apply (reads_bind_ret _ (cons (h x))). apply IH. intros y Hy. apply H. right. assumption.
Qed.

(** linear combinations *)
Definition nkey (k : nat) : bytes := to_bytes_le (Z.of_nat k).
Lemma nkey_inj : Inj (=) (=) nkey.
Proof. intros a b E. apply to_bytes_inj in E; lia. Qed.
Definition entries_of (l : list (nat * Z)) : list (bytes * Z) := (fun kv => (nkey kv.1, kv.2)) <$> l.
Lemma to_byte_keys_eq m : to_byte_keys m = list_to_map (entries_of (map_to_list m)).
Proof. unfold to_byte_keys, entries_of, list_to_map. rewrite foldr_fmap. reflexivity. Qed.
Lemma entries_keys_nodup m : NoDup (entries_of (map_to_list m)).*1.
Proof.
  unfold entries_of. rewrite <- list_fmap_compose. rewrite (list_fmap_ext _ (nkey ∘ fst)) by reflexivity. rewrite list_fmap_compose.
  apply (NoDup_fmap_2 nkey (Inj0 := nkey_inj)). apply NoDup_fst_map_to_list.
Qed.
Lemma byte_keys_list m : map_to_list (to_byte_keys m) ≡ₚ entries_of (map_to_list m).
Proof. rewrite to_byte_keys_eq. apply map_to_list_to_map, entries_keys_nodup. Qed.
Lemma byte_keys_size m : size (to_byte_keys m) = size m.
Proof.
  change (length (map_to_list (to_byte_keys m)) = length (map_to_list m)). rewrite byte_keys_list. unfold entries_of. rewrite fmap_length. reflexivity.
Qed.
Lemma byte_keys_lookup m id : to_byte_keys m !! id = None \/ exists k v, id = nkey k /\ m !! k = Some v /\ to_byte_keys m !! id = Some v.
Proof.
  destruct (to_byte_keys m !! id) as [v|] eqn:E; [right|left; reflexivity]. apply elem_of_map_to_list in E as E'. rewrite byte_keys_list in E'.
  unfold entries_of in E'. apply elem_of_list_fmap in E'. destruct E' as ([k w] & [= -> ->] & Hkw). apply elem_of_map_to_list in Hkw. eauto.
Qed.
Definition read_entries (m : lin) (ids : list bytes) : list (bytes * Z) := (fun id => (into_format id 4, default 0 (to_byte_keys m !! id))) <$> ids.
Lemma read_entries_perm fs m ids : lin_fits fs m -> ids ≡ₚ (map_to_list (to_byte_keys m)).*1 ->
  read_entries m ids ≡ₚ (fun kv => (le_bytes 4 (Z.of_nat kv.1), kv.2)) <$> map_to_list m.
Proof.
  intros [_ Hf] Hids. unfold read_entries. rewrite Hids. rewrite byte_keys_list. unfold entries_of. rewrite <- !list_fmap_compose. apply Permutation_refl'.
  apply list_fmap_ext_ne || apply Forall_fmap_ext_1. apply Forall_forall. intros [k v] Hkv. apply elem_of_map_to_list in Hkv. cbn [compose fst snd].
  destruct (Hf _ _ Hkv) as [Hk _]. pose proof (bigint_as_bytes_spec 4 (Z.of_nat k) ltac:(lia) Hk) as E. unfold bigint_as_bytes in E. unfold nkey at 1. rewrite E. f_equal.
  assert (E' : to_byte_keys m !! nkey k = Some v).
  { apply elem_of_map_to_list. rewrite byte_keys_list. unfold entries_of. apply elem_of_list_fmap. exists (k, v). split; [reflexivity|]. apply elem_of_map_to_list. assumption. }
  rewrite E'. reflexivity.
Qed.
Lemma foldl_insert_bytes (l : list (bytes * Z)) : forall m : gmap (list Z) Z, NoDup l.*1 ->
  foldl (fun (m : gmap (list Z) Z) kv => <[kv.1 := kv.2]> m) m l = list_to_map l ∪ m.
Proof.
  induction l as [|[k v] l IH]; intros m HN; cbn [foldl].
  - cbn. rewrite map_empty_union. reflexivity.
  - cbn in HN. apply NoDup_cons in HN. destruct HN as [Hk HN]. rewrite IH by assumption. cbn [list_to_map foldr fst snd].
    rewrite <- insert_union_l, insert_union_r; [reflexivity|]. apply not_elem_of_list_to_map_1. assumption.
Qed.
Lemma le4_inj k k' : fits 4 (Z.of_nat k) -> fits 4 (Z.of_nat k') -> le_bytes 4 (Z.of_nat k) = le_bytes 4 (Z.of_nat k') -> k = k'.
Proof. intros H H' E. apply (f_equal from_bytes_le) in E. rewrite !fits_from in E by assumption. lia. Qed.
Lemma le4_nodup m fs : lin_fits fs m -> NoDup ((fun kv => (le_bytes 4 (Z.of_nat kv.1), kv.2)) <$> map_to_list m).*1.
Proof.
  intros [_ Hf]. rewrite <- list_fmap_compose. apply NoDup_fmap_2_strong; [|apply NoDup_map_to_list].
  intros [k v] [k' v'] Hin Hin' E. cbn in E. apply elem_of_map_to_list in Hin, Hin'. apply le4_inj in E; [|eapply Hf; eassumption|eapply Hf; eassumption]. subst k'. congruence.
Qed.
Lemma read_back_map fs m l : lin_fits fs m -> l ≡ₚ (fun kv => (le_bytes 4 (Z.of_nat kv.1), kv.2)) <$> map_to_list m ->
  from_byte_keys (foldl (fun (m : gmap (list Z) Z) kv => <[kv.1 := kv.2]> m) ∅ l) = m.
Proof.
  intros Hf HP. pose proof (le4_nodup m fs Hf) as HN. assert (HN' : NoDup l.*1) by (rewrite HP; assumption).
  rewrite foldl_insert_bytes, map_union_empty by assumption. unfold from_byte_keys.
  transitivity (list_to_map ((fun kv : bytes * Z => (Z.to_nat (from_bytes_le kv.1), kv.2)) <$> map_to_list (list_to_map l : gmap (list Z) Z)) : lin).
  { unfold list_to_map. rewrite foldr_fmap. reflexivity. }
  transitivity (list_to_map (map_to_list m) : lin); [|apply list_to_map_to_list].
  assert (HP' : (fun kv : bytes * Z => (Z.to_nat (from_bytes_le kv.1), kv.2)) <$> map_to_list (list_to_map l : gmap (list Z) Z) ≡ₚ map_to_list m).
  { rewrite map_to_list_to_map by assumption. rewrite HP. rewrite <- list_fmap_compose. apply Permutation_refl'. transitivity (id <$> map_to_list m); [|apply list_fmap_id].
    apply Forall_fmap_ext_1. apply Forall_forall. intros [k v] Hkv. apply elem_of_map_to_list in Hkv. cbn [compose fst snd]. destruct Hf as [_ Hf]. destruct (Hf _ _ Hkv) as [Hk _].
    rewrite fits_from by assumption. rewrite Nat2Z.id. reflexivity. }
  apply list_to_map_proper; [|assumption]. rewrite HP'. apply NoDup_fst_map_to_list.
Qed.
Lemma linear_block_reads ord fs m : valid_keys ord -> (0 < fs)%nat -> lin_fits fs m ->
  exists r, reads (read_linear_combination_block (Z.of_nat fs)) (linear_combination_block ord (to_byte_keys m) fs) r /\ from_byte_keys r = m.
Proof.
  intros Ho Hfs Hf. unfold linear_combination_block. set (ids := merge_sort lexle (ord (to_byte_keys m))).
  assert (Hids : ids ≡ₚ (map_to_list (to_byte_keys m)).*1) by (unfold ids; rewrite merge_sort_Permutation; apply Ho).
  exists (foldl (fun (m : gmap (list Z) Z) kv => <[kv.1 := kv.2]> m) ∅ (read_entries m ids)). split.
  - unfold read_linear_combination_block. rewrite byte_keys_size. eapply reads_bind; [apply read_usize_reads; [reflexivity|lia|apply Hf]|].
    apply (reads_bind_ret _ (foldl (fun (m : gmap (list Z) Z) kv => <[kv.1 := kv.2]> m) ∅)).
    assert (EL : Z.to_nat (Z.of_nat (size m)) = length ids).
    { rewrite Nat2Z.id, Hids, fmap_length, <- (byte_keys_size m). reflexivity. }
    rewrite EL. apply read_times_reads. intros id Hid. rewrite Hids, byte_keys_list in Hid. unfold entries_of in Hid. rewrite <- list_fmap_compose in Hid.
    apply elem_of_list_fmap in Hid. destruct Hid as ([k v] & -> & Hkv). cbn [compose fst]. pose proof Hkv as Hin. apply elem_of_map_to_list in Hkv.
    destruct Hf as [_ Hf]. destruct (Hf _ _ Hkv) as [Hk Hv]. destruct (byte_keys_lookup m (nkey k)) as [E|(k' & v' & E1 & E2 & E3)].
    + assert (Q : (nkey k, v) ∈ map_to_list (to_byte_keys m)) by (rewrite byte_keys_list; unfold entries_of; apply elem_of_list_fmap; exists (k, v); auto).
      apply elem_of_map_to_list in Q. congruence.
    + apply nkey_inj in E1. subst k'. assert (v' = v) by congruence. subst v'. rewrite E3. cbn [default].
      eapply reads_bind; [apply read_exact_reads|].
      * change (into_format (nkey k) 4) with (bigint_as_bytes (Z.of_nat k) 4). rewrite bigint_as_bytes_spec by (lia || assumption). rewrite le_bytes_length. reflexivity.
      * apply (reads_bind_ret _ (fun f => (into_format (nkey k) 4, f))). apply read_bigint_reads; [reflexivity|lia|assumption].
  - apply (read_back_map fs); [assumption|]. apply (read_entries_perm fs); assumption.
Qed.
Lemma constraint_reads ord fs x : valid_keys ord -> (0 < fs)%nat -> (let '(a, b, c) := x in lin_fits fs a /\ lin_fits fs b /\ lin_fits fs c) ->
  reads (read_constraint (Z.of_nat fs)) (constraint_bytes ord fs x) x.
Proof.
  destruct x as [[a b] c]. intros Ho Hfs (Ha & Hb & Hc). unfold read_constraint, constraint_bytes.
  destruct (linear_block_reads ord fs a Ho Hfs Ha) as (ra & Ra & Ea). destruct (linear_block_reads ord fs b Ho Hfs Hb) as (rb & Rb & Eb).
  destruct (linear_block_reads ord fs c Ho Hfs Hc) as (rc & Rc & Ec). rewrite <- Ea at 2. rewrite <- Eb at 2. rewrite <- Ec at 2.
  eapply reads_bind; [exact Ra|]. eapply reads_bind; [exact Rb|]. apply (reads_bind_ret _ (fun c => (from_byte_keys ra, from_byte_keys rb, from_byte_keys c))). exact Rc.
Qed.
Lemma header_reads fs h : (0 < fs)%nat -> fits 4 (Z.of_nat fs) -> header_fits fs h -> reads read_header (header_bytes fs h) (Z.of_nat fs, h).
Proof.
  intros Hfs Hff (H1 & H2 & H3 & H4 & H5 & H6 & H7). unfold read_header, header_bytes. destruct h. cbn in *.
  eapply reads_bind; [apply read_usize_reads; [reflexivity|lia|assumption]|].
  eapply reads_bind; [apply read_bigint_reads; [reflexivity|lia|assumption]|].
  do 5 (eapply reads_bind; [apply read_usize_reads; [reflexivity|lia|assumption]|]).
  apply (reads_bind_ret _ (fun n => (Z.of_nat fs, HeaderData _ _ _ _ _ _ n))). apply read_usize_reads; [reflexivity|lia|assumption].
Qed.
Lemma name_reads n : Forall (fun d => 0 < d < 256) n -> forall fuel, (length n < fuel)%nat -> reads (read_name fuel) (n ++ [0]) n.
Proof.
  induction 1 as [|d n Hd _ IH]; intros fuel Hf; (destruct fuel as [|fuel]; [cbn in Hf; lia|]); cbn [read_name].
  - cbn [app]. change [0] with ([0] ++ []). eapply reads_bind; [apply read_exact_reads; reflexivity|]. apply reads_ret.
  - change ((d :: n) ++ [0]) with ([d] ++ (n ++ [0])). eapply reads_bind; [apply read_exact_reads; reflexivity|]. cbn.
    destruct (Z.eqb_spec d 0); [lia|]. apply (reads_bind_ret _ (cons d)). apply IH. cbn in Hf. lia.
Qed.
Lemma name_reads' n : Forall (fun d => 0 < d < 256) n -> reads (fun d p => read_name (S (length d)) d p) (n ++ [0]) n.
Proof. intros Hn pre post. apply name_reads; [assumption|]. rewrite !app_length. lia. Qed.
Lemma usage_reads utf8 fs g : (0 < fs)%nat -> usage_fits utf8 fs g -> reads (read_usage utf8 (Z.of_nat fs)) (usage_bytes fs g) g.
Proof.
  destruct g as [n ps]. intros Hfs ((Hn & Hu) & Hl & Hp). cbn [fst snd] in *. unfold read_usage, usage_bytes. cbn [fst snd]. rewrite (app_assoc n).
  eapply reads_bind; [apply name_reads'; assumption|]. rewrite Hu. eapply reads_bind; [apply read_usize_reads; [reflexivity|lia|assumption]|].
  apply (reads_bind_ret _ (pair n)). rewrite Nat2Z.id. rewrite <- (list_fmap_id ps) at 3. apply read_times_reads. intros x Hx.
  apply read_bigint_reads; [reflexivity|lia|]. apply (proj1 (Forall_forall _ _) Hp). assumption.
Qed.
Lemma usages_reads utf8 fs us : (0 < fs)%nat -> fits 4 (zlen us) -> Forall (usage_fits utf8 fs) us -> reads (read_usages utf8 (Z.of_nat fs)) (used_bytes fs us) us.
Proof.
  intros Hfs Hl Hu. unfold read_usages, used_bytes. eapply reads_bind; [apply read_usize_reads; [reflexivity|lia|assumption]|]. rewrite Nat2Z.id.
  rewrite <- (list_fmap_id us) at 3. apply read_times_reads. intros g Hg. apply usage_reads; [assumption|]. apply (proj1 (Forall_forall _ _) Hu). assumption.
Qed.
Lemma applications_reads us : fits 4 (zlen us) -> Forall application_fits us -> reads read_applications (applied_bytes us) us.
Proof.
  intros Hl Hu. unfold read_applications, applied_bytes. eapply reads_bind; [apply read_usize_reads; [reflexivity|lia|assumption]|]. rewrite Nat2Z.id.
  rewrite <- (list_fmap_id us) at 3. apply read_times_reads. intros [n ps] Hg. pose proof (proj1 (Forall_forall _ _) Hu _ Hg) as (H1 & H2 & H3). cbn [fst snd] in *.
  unfold read_application, application_bytes. cbn [fst snd]. eapply reads_bind; [apply read_usize_reads; [reflexivity|lia|assumption]|].
  eapply reads_bind; [apply read_usize_reads; [reflexivity|lia|assumption]|]. apply (reads_bind_ret _ (pair n)). rewrite Nat2Z.id.
  rewrite <- (list_fmap_id ps) at 3. apply read_times_reads. intros x Hx. apply read_usize_reads; [reflexivity|lia|]. apply (proj1 (Forall_forall _ _) H3). assumption.
Qed.

(** sections *)
Lemma reads_at {A} (m : reader A) b x pre post d p : reads m b x -> d = pre ++ b ++ post -> p = zlen pre -> m d p = IoOk (x, p + zlen b).
Proof. intros H -> ->. apply H. Qed.
Lemma rbind_ok {A B} (m : reader A) (k : A -> reader B) d p x q : m d p = IoOk (x, q) -> rbind m k d p = k x d q.
Proof. intros H. unfold rbind. rewrite H. reflexivity. Qed.
Lemma in_section_spec {A} (starts : gmap Z Z) t (body : reader A) c x pre post p :
  starts !! t = Some (zlen pre) -> reads body c x ->
  exists q, in_section starts t [t; 0; 0; 0] body (pre ++ section_bytes t c ++ post) p = IoOk (x, q).
Proof.
  intros Hs Hb. unfold in_section. rewrite Hs. set (D := pre ++ _). rewrite (rbind_ok _ _ _ _ tt (zlen pre)) by reflexivity.
  assert (E1 : read_section [t; 0; 0; 0] D (zlen pre) = IoOk (zlen pre + 4, zlen pre + 12)).
  { unfold read_section. rewrite (rbind_ok _ _ _ _ [t; 0; 0; 0] (zlen pre + 4)).
    - rewrite decide_True by reflexivity. unfold rbind, seek_current, rret. change (Z.of_nat (length place_holder)) with 8. destruct (Z.ltb_spec (zlen pre + 4 + 0) 0); [lia|].
      destruct (Z.ltb_spec (zlen pre + 4 + 0 + 8) 0); [lia|]. do 2 f_equal; lia.
    - eapply (reads_at _ [t; 0; 0; 0] _ pre); [apply read_exact_reads; reflexivity| |reflexivity]. unfold D, section_bytes. rewrite <- !app_assoc. reflexivity. }
  rewrite (rbind_ok _ _ _ _ _ _ E1).
  assert (E2 : body D (zlen pre + 12) = IoOk (x, zlen pre + 12 + zlen c)).
  { eapply (reads_at _ c _ (pre ++ [t; 0; 0; 0] ++ le_bytes 8 (zlen c))); [exact Hb| |].
    - unfold D, section_bytes. rewrite <- !app_assoc. reflexivity.
    - rewrite !app_length, le_bytes_length. cbn [length]. lia. }
  rewrite (rbind_ok _ _ _ _ _ _ E2). set (r := zlen pre + 12 + zlen c).
  assert (E3 : exists sz, read_usize 8 D (zlen pre + 4) = IoOk (sz, zlen pre + 12)).
  { unfold read_usize, read_bigint. rewrite (rbind_ok _ _ _ _ (from_bytes_le (le_bytes 8 (zlen c))) (zlen pre + 12)).
    - unfold to_usize. pose proof (from_bytes_range _ (le_bytes_byte 8 (zlen c))) as HR. rewrite le_bytes_length in HR. change (256 ^ Z.of_nat 8) with (2 ^ 64) in HR.
      destruct (Z.ltb_spec (from_bytes_le (le_bytes 8 (zlen c))) (2 ^ 64)); [|lia]. eexists. reflexivity.
    - rewrite (rbind_ok _ _ _ _ (le_bytes 8 (zlen c)) (zlen pre + 12)); [reflexivity|].
      replace (zlen pre + 12) with (zlen pre + 4 + zlen (le_bytes 8 (zlen c))) by (rewrite le_bytes_length; lia).
      eapply (reads_at _ (le_bytes 8 (zlen c)) _ (pre ++ [t; 0; 0; 0])); [apply read_exact_reads; rewrite le_bytes_length; reflexivity| |].
      + unfold D, section_bytes. rewrite <- !app_assoc. reflexivity.
      + rewrite !app_length. cbn [length]. lia. }
  destruct E3 as [sz E3]. exists (r + 0). unfold read_end_section. erewrite rbind_ok; [reflexivity|].
  rewrite (rbind_ok _ _ _ _ (r + 0) (r + 0)).
  2:{ unfold seek_current. destruct (Z.ltb_spec (r + 0) 0); [unfold r in *; lia|]. reflexivity. }
  rewrite (rbind_ok _ _ _ _ tt (zlen pre + 4)) by reflexivity. rewrite (rbind_ok _ _ _ _ _ _ E3). rewrite (rbind_ok _ _ _ _ tt (r + 0)) by reflexivity. reflexivity.
Qed.
Lemma scan_step k n off starts t c pre post p : p + off = zlen pre -> 1 <= t <= n -> zlen c < 2 ^ 63 ->
  scan_sections (S k) n off starts (pre ++ section_bytes t c ++ post) p =
  scan_sections k n (zlen c) (<[t := zlen pre]> starts) (pre ++ section_bytes t c ++ post) (zlen pre + 12).
Proof.
  intros Hp Ht Hc. cbn [scan_sections]. set (D := pre ++ _).
  rewrite (rbind_ok _ _ _ _ (zlen pre) (zlen pre)).
  2:{ unfold seek_current. destruct (Z.ltb_spec (p + off) 0); [lia|]. rewrite Hp. reflexivity. }
  rewrite (rbind_ok _ _ _ _ [t; 0; 0; 0] (zlen pre + 4)).
  2:{ eapply (reads_at _ [t; 0; 0; 0] _ pre); [apply read_exact_reads; reflexivity| |reflexivity]. unfold D, section_bytes. rewrite <- !app_assoc. reflexivity. }
  assert (Hf : fits 8 (zlen c)) by (unfold fits; change (256 ^ Z.of_nat 8) with (2 ^ 64); lia).
  rewrite (rbind_ok _ _ _ _ (zlen c) (zlen pre + 12)).
  2:{ replace (zlen pre + 12) with (zlen pre + 4 + zlen (bigint_as_bytes (zlen c) 8)) by (rewrite bigint_as_bytes_spec, le_bytes_length by (lia || assumption); lia).
      eapply (reads_at _ (bigint_as_bytes (zlen c) 8) _ (pre ++ [t; 0; 0; 0])); [apply read_usize_reads; [reflexivity|lia|assumption]| |].
      - unfold D, section_bytes. rewrite bigint_as_bytes_spec by (lia || assumption). rewrite <- !app_assoc. reflexivity.
      - rewrite !app_length. cbn [length]. lia. }
  destruct (Z.leb_spec 1 t); [|lia]. destruct (Z.leb_spec t n); [|lia]. cbn [andb]. unfold as_i64. destruct (Z.ltb_spec (zlen c) (2 ^ 63)); [reflexivity|lia].
Qed.
Lemma scan_step' D k n off starts t c pre post p : D = pre ++ section_bytes t c ++ post -> p + off = zlen pre -> 1 <= t <= n -> zlen c < 2 ^ 63 ->
  scan_sections (S k) n off starts D p = scan_sections k n (zlen c) (<[t := zlen pre]> starts) D (zlen pre + 12).
Proof. intros ->. apply scan_step. Qed.
Lemma in_section_spec' D {A} (starts : gmap Z Z) t (body : reader A) c x pre post p : D = pre ++ section_bytes t c ++ post ->
  starts !! t = Some (zlen pre) -> reads body c x -> exists q, in_section starts t [t; 0; 0; 0] body D p = IoOk (x, q).
Proof. intros ->. apply in_section_spec. Qed.
Lemma section_length t c : zlen (section_bytes t c) = 12 + zlen c.
Proof. unfold section_bytes. rewrite !app_length, le_bytes_length. cbn [length]. lia. Qed.

Lemma init_reads n : reads read_initialization (preamble n) [n; 0; 0; 0].
Proof.
  unfold read_initialization, preamble. eapply reads_bind; [apply read_exact_reads; reflexivity|]. rewrite decide_True by reflexivity.
  eapply reads_bind; [apply read_exact_reads; reflexivity|]. rewrite decide_True by reflexivity. apply read_exact_reads. reflexivity.
Qed.
Lemma read_file ord utf8 fs i : valid_keys ord -> input_fits utf8 fs i -> Forall (fun tc => zlen tc.2 < 2 ^ 63) (file_sections ord fs i) ->
  parse_r1cs utf8 (file_bytes ord fs i) =
  IoOk (R1csData (Z.of_nat fs) (i_header i) (i_constraints i) (i_signals i) (fst <$> i_gates i) (snd <$> i_gates i)).
Proof.
  intros Ho [[Hfs Hff] Hh Hn Hw Hc Hsg Hg] HL. unfold file_bytes, file_sections, base_sections in *.
  pose proof (header_reads fs (i_header i) Hfs Hff Hh) as RH.
  assert (RC : reads (read_times (Z.to_nat (h_number_of_constraints (i_header i))) (read_constraint (Z.of_nat fs))) (constraints_bytes ord fs i) (i_constraints i)).
  { rewrite Hn, Nat2Z.id. unfold constraints_bytes. rewrite <- (list_fmap_id (i_constraints i)) at 3. apply read_times_reads. intros x Hx. apply constraint_reads; try assumption.
    pose proof (proj1 (Forall_forall _ _) Hc _ Hx) as Q. destruct x as [[a b] c]. exact Q. }
  assert (RS : reads (read_times (Z.to_nat (h_total_wires (i_header i))) (read_usize 8)) (signals_bytes i) (i_signals i)).
  { rewrite Hw, Nat2Z.id. unfold signals_bytes. rewrite <- (list_fmap_id (i_signals i)) at 3. apply read_times_reads. intros x Hx. apply read_usize_reads; [reflexivity|lia|].
    apply (proj1 (Forall_forall _ _) Hsg). assumption. }
  set (C := constraints_bytes ord fs i) in *. set (H := header_bytes fs (i_header i)) in *. set (S := signals_bytes i) in *.
  unfold parse_r1cs, read_r1cs.
  destruct (i_gates i) as [[us ap]|].
  - destruct (Hg us ap eq_refl) as [[Hu1 Hu2] [Ha1 Ha2]].
    pose proof (usages_reads utf8 fs us Hfs Hu1 Hu2) as RU. pose proof (applications_reads ap Ha1 Ha2) as RA.
    set (U := used_bytes fs us) in *. set (A := applied_bytes ap) in *. cbn [app fmap list_fmap concat fst snd option_fmap option_map] in *.
    apply Forall_cons in HL as [L1 HL]. apply Forall_cons in HL as [L2 HL]. apply Forall_cons in HL as [L3 HL]. apply Forall_cons in HL as [L4 HL]. apply Forall_cons in HL as [L5 _]. cbn [snd] in *.
    set (P := preamble 5). set (P2 := P ++ section_bytes 2 C). set (P3 := P2 ++ section_bytes 1 H). set (P4 := P3 ++ section_bytes 3 S). set (P5 := P4 ++ section_bytes 4 U).
    set (D := P ++ _).
    assert (D1 : D = P ++ section_bytes 2 C ++ (section_bytes 1 H ++ section_bytes 3 S ++ section_bytes 4 U ++ section_bytes 5 A)) by (unfold D; rewrite app_nil_r; reflexivity).
    assert (D2 : D = P2 ++ section_bytes 1 H ++ (section_bytes 3 S ++ section_bytes 4 U ++ section_bytes 5 A)) by (rewrite D1; unfold P2; rewrite <- !app_assoc; reflexivity).
    assert (D3 : D = P3 ++ section_bytes 3 S ++ (section_bytes 4 U ++ section_bytes 5 A)) by (rewrite D2; unfold P3; rewrite <- !app_assoc; reflexivity).
    assert (D4 : D = P4 ++ section_bytes 4 U ++ section_bytes 5 A) by (rewrite D3; unfold P4; rewrite <- !app_assoc; reflexivity).
    assert (D5 : D = P5 ++ section_bytes 5 A ++ []) by (rewrite app_nil_r, D4; unfold P5; rewrite <- !app_assoc; reflexivity).
    assert (N2 : zlen P2 = 24 + zlen C) by (unfold P2; rewrite app_length, Nat2Z.inj_add, section_length; change (zlen P) with 12; lia).
    assert (N3 : zlen P3 = zlen P2 + 12 + zlen H) by (unfold P3; rewrite app_length, Nat2Z.inj_add, section_length; lia).
    assert (N4 : zlen P4 = zlen P3 + 12 + zlen S) by (unfold P4; rewrite app_length, Nat2Z.inj_add, section_length; lia).
    assert (N5 : zlen P5 = zlen P4 + 12 + zlen U) by (unfold P5; rewrite app_length, Nat2Z.inj_add, section_length; lia).
    assert (EI : read_initialization D 0 = IoOk ([5; 0; 0; 0], 12)) by (rewrite D1; apply (init_reads 5 [])).
    rewrite (rbind_ok _ _ _ _ _ _ EI). cbv iota. clearbody D.
    change (Z.to_nat 5) with 5%nat.
    erewrite rbind_ok.
    2:{ rewrite (scan_step' D _ _ _ _ 2 C P _ _ D1); [|reflexivity|lia|assumption].
        rewrite (scan_step' D _ _ _ _ 1 H P2 _ _ D2); [|change (zlen P) with 12; lia|lia|assumption].
        rewrite (scan_step' D _ _ _ _ 3 S P3 _ _ D3); [|lia|lia|assumption].
        rewrite (scan_step' D _ _ _ _ 4 U P4 _ _ D4); [|lia|lia|assumption].
        rewrite (scan_step' D _ _ _ _ 5 A P5 _ _ D5); [|lia|lia|assumption]. reflexivity. }
    set (starts := <[5 := _]> _).
    destruct (in_section_spec' D starts 1 read_header H (Z.of_nat fs, i_header i) P2 _ (zlen P5 + 12) D2 eq_refl RH) as [q1 E1]. rewrite (rbind_ok _ _ _ _ _ _ E1).
    destruct (in_section_spec' D starts 2 _ C (i_constraints i) P _ q1 D1 eq_refl RC) as [q2 E2]. rewrite (rbind_ok _ _ _ _ _ _ E2).
    destruct (in_section_spec' D starts 3 _ S (i_signals i) P3 _ q2 D3 eq_refl RS) as [q3 E3]. rewrite (rbind_ok _ _ _ _ _ _ E3). cbv iota. change (5 =? 5) with true. cbv iota.
    destruct (in_section_spec' D starts 4 _ U us P4 _ q3 D4 eq_refl RU) as [q4 E4]. rewrite (rbind_ok _ _ _ _ _ _ E4).
    destruct (in_section_spec' D starts 5 _ A ap P5 _ q4 D5 eq_refl RA) as [q5 E5]. rewrite (rbind_ok _ _ _ _ _ _ E5). reflexivity.
  - cbn [app fmap list_fmap concat fst snd option_fmap option_map] in *.
    apply Forall_cons in HL as [L1 HL]. apply Forall_cons in HL as [L2 HL]. apply Forall_cons in HL as [L3 _]. cbn [snd] in *.
    set (P := preamble 3). set (P2 := P ++ section_bytes 2 C). set (P3 := P2 ++ section_bytes 1 H).
    set (D := P ++ _).
    assert (D1 : D = P ++ section_bytes 2 C ++ (section_bytes 1 H ++ section_bytes 3 S)) by (unfold D; rewrite app_nil_r; reflexivity).
    assert (D2 : D = P2 ++ section_bytes 1 H ++ section_bytes 3 S) by (rewrite D1; unfold P2; rewrite <- !app_assoc; reflexivity).
    assert (D3 : D = P3 ++ section_bytes 3 S ++ []) by (rewrite app_nil_r, D2; unfold P3; rewrite <- !app_assoc; reflexivity).
    assert (N2 : zlen P2 = 24 + zlen C) by (unfold P2; rewrite app_length, Nat2Z.inj_add, section_length; change (zlen P) with 12; lia).
    assert (N3 : zlen P3 = zlen P2 + 12 + zlen H) by (unfold P3; rewrite app_length, Nat2Z.inj_add, section_length; lia).
    assert (EI : read_initialization D 0 = IoOk ([3; 0; 0; 0], 12)) by (rewrite D1; apply (init_reads 3 [])).
    rewrite (rbind_ok _ _ _ _ _ _ EI). cbv iota. clearbody D.
    change (Z.to_nat 3) with 3%nat.
    erewrite rbind_ok.
    2:{ rewrite (scan_step' D _ _ _ _ 2 C P _ _ D1); [|reflexivity|lia|assumption].
        rewrite (scan_step' D _ _ _ _ 1 H P2 _ _ D2); [|change (zlen P) with 12; lia|lia|assumption].
        rewrite (scan_step' D _ _ _ _ 3 S P3 _ _ D3); [|lia|lia|assumption]. reflexivity. }
    set (starts := <[3 := _]> _).
    destruct (in_section_spec' D starts 1 read_header H (Z.of_nat fs, i_header i) P2 _ (zlen P3 + 12) D2 eq_refl RH) as [q1 E1]. rewrite (rbind_ok _ _ _ _ _ _ E1).
    destruct (in_section_spec' D starts 2 _ C (i_constraints i) P _ q1 D1 eq_refl RC) as [q2 E2]. rewrite (rbind_ok _ _ _ _ _ _ E2).
    destruct (in_section_spec' D starts 3 _ S (i_signals i) P3 _ q2 D3 eq_refl RS) as [q3 E3]. rewrite (rbind_ok _ _ _ _ _ _ E3). reflexivity.
Qed.

(** ** the order of the keys does not matter *)
Lemma lex_le_refl a : lex_le a a = true.
Proof. induction a as [|x a IH]; cbn; [reflexivity|]. rewrite Z.ltb_irrefl. assumption. Qed.
Global Instance lexle_trans : Transitive lexle.
Proof.
  unfold lexle. intros a. induction a as [|x a IH]; intros [|y b] [|z c]; cbn; try congruence.
  destruct (Z.ltb_spec x y), (Z.ltb_spec y x), (Z.ltb_spec y z), (Z.ltb_spec z y), (Z.ltb_spec x z), (Z.ltb_spec z x); try congruence; try lia. apply IH.
Qed.
Global Instance lexle_antisym : AntiSymm (=) lexle.
Proof.
  unfold lexle. intros a. induction a as [|x a IH]; intros [|y b]; cbn; try congruence.
  destruct (Z.ltb_spec x y), (Z.ltb_spec y x); try congruence; try lia. intros H1 H2. assert (x = y) by lia. subst y. f_equal. apply IH; assumption.
Qed.
Global Instance lexle_total : Total lexle.
Proof.
  unfold lexle. intros a. induction a as [|x a IH]; intros [|y b]; cbn; auto.
  destruct (Z.ltb_spec x y), (Z.ltb_spec y x); auto.
Qed.
Lemma block_order ord ord' m fs : valid_keys ord -> valid_keys ord' -> linear_combination_block ord m fs = linear_combination_block ord' m fs.
Proof.
  intros H H'. unfold linear_combination_block. do 3 f_equal. apply (Sorted_unique lexle); [apply Sorted_merge_sort, _|apply Sorted_merge_sort, _|].
  rewrite !merge_sort_Permutation, (H m), (H' m). reflexivity.
Qed.
Lemma write_constraint_order ord ord' fs c s : valid_keys ord -> valid_keys ord' -> write_constraint ord fs c s = write_constraint ord' fs c s.
Proof. intros H H'. destruct c as [[a b] c]. unfold write_constraint. rewrite !(block_order ord ord') by assumption. reflexivity. Qed.
Lemma write_order ord ord' fs i : valid_keys ord -> valid_keys ord' -> write_r1cs ord fs i = write_r1cs ord' fs i.
Proof.
  intros H H'. unfold write_r1cs. set (f := new_writer _).
  assert (E : forall l s, foldl (fun s c => write_constraint ord fs c s) s l = foldl (fun s c => write_constraint ord' fs c s) s l).
  { induction l as [|c l IH]; intros s; cbn [foldl]; [reflexivity|]. rewrite (write_constraint_order ord ord') by assumption. apply IH. }
  rewrite E. reflexivity.
Qed.

(** ** field width *)
Lemma port_field_size_fits p : 1 < p -> (0 < port_field_size p)%nat /\ Z.of_nat (port_field_size p) <= bits p / 8 + 8 /\ forall x, 0 <= x <= p -> fits (port_field_size p) x.
Proof.
  intros Hp. pose proof (bits_bound p ltac:(lia)) as HB. assert (H1 : 1 < bits p).
  { unfold bits. destruct p as [|p|p]; [lia| |lia]. rewrite Z.abs_eq by lia. assert (1 <= Z.log2 (Z.pos p)); [|lia]. apply Z.log2_le_pow2; lia. }
  assert (HS : Z.of_nat (port_field_size p) = if bits p mod 64 =? 0 then bits p / 8 else (bits p / 64 + 1) * 8).
  { unfold port_field_size. rewrite Z2Nat.id; [reflexivity|]. destruct (_ =? 0); [apply Z.div_pos; lia|]. pose proof (Z.div_pos (bits p) 64 ltac:(lia) ltac:(lia)). lia. }
  assert (HW : bits p <= 8 * Z.of_nat (port_field_size p) /\ Z.of_nat (port_field_size p) <= bits p / 8 + 8).
  { rewrite HS. destruct (Z.eqb_spec (bits p mod 64) 0) as [E|E].
    - apply Z.mod_divide in E; [|lia]. destruct E as [k ->]. replace (k * 64) with (k * 8 * 8) by lia. rewrite Z.div_mul by lia. lia.
    - pose proof (Z.div_mod (bits p) 64 ltac:(lia)). pose proof (Z.mod_pos_bound (bits p) 64 ltac:(lia)).
      pose proof (Z.div_mod (bits p) 8 ltac:(lia)). pose proof (Z.mod_pos_bound (bits p) 8 ltac:(lia)). lia. }
  split; [lia|]. split; [lia|]. intros x [Hx0 Hx]. split; [assumption|]. eapply Z.le_lt_trans; [exact Hx|]. eapply Z.lt_le_trans; [exact HB|].
  change 256 with (2 ^ 8). rewrite <- Z.pow_mul_r by lia. apply Z.pow_le_mono_r; lia.
Qed.

(** ** the reader never panics *)
Definition safe {A} (m : reader A) (Q : A -> Prop) : Prop :=
  forall d p, Forall byte d -> 0 <= p -> match m d p with IoOk (x, q) => 0 <= q /\ Q x | IoErr => True | IoPanic => False end.
Lemma safe_bind {A B} (m : reader A) (k : A -> reader B) Q R : safe m Q -> (forall x, Q x -> safe (k x) R) -> safe (rbind m k) R.
Proof.
  intros Hm Hk d p Hd Hp. unfold rbind. specialize (Hm d p Hd Hp). destruct (m d p) as [[x q]| |]; [|exact I|exact Hm]. destruct Hm as [Hq Hx]. apply (Hk x Hx d q Hd Hq).
Qed.
Lemma safe_ret {A} (x : A) (Q : A -> Prop) : Q x -> safe (rret x) Q.
Proof. intros H d p _ Hp. cbn. auto. Qed.
Lemma safe_err {A} Q : safe (@rerr A) Q.
Proof. intros d p _ _. exact I. Qed.
Lemma safe_weaken {A} (m : reader A) (Q R : A -> Prop) : safe m Q -> (forall x, Q x -> R x) -> safe m R.
Proof. intros H HQ d p Hd Hp. specialize (H d p Hd Hp). destruct (m d p) as [[x q]| |]; [|exact I|exact H]. destruct H. auto. Qed.
Definition T {A} (_ : A) : Prop := True.
Lemma safe_exact n : 0 <= n -> safe (read_exact n) (fun b => Forall byte b /\ zlen b = n).
Proof.
  intros Hn d p Hd Hp. unfold read_exact. destruct (Z.leb_spec (p + n) (zlen d)); [|exact I]. split; [lia|]. split.
  - apply Forall_take, Forall_drop. assumption.
  - rewrite take_length, drop_length. lia.
Qed.
Lemma safe_seek off : safe (seek_current off) (fun q => 0 <= q).
Proof. intros d p _ Hp. unfold seek_current. destruct (Z.ltb_spec (p + off) 0); [exact I|]. lia. Qed.
Lemma safe_seek_start q : 0 <= q -> safe (seek_start q) T.
Proof. intros Hq d p _ Hp. unfold seek_start. split; [assumption|exact I]. Qed.
Lemma safe_bigint n : 0 <= n -> safe (read_bigint n) (fun x => 0 <= x < 256 ^ n).
Proof.
  intros Hn. unfold read_bigint. eapply safe_bind; [apply safe_exact; assumption|]. intros b [Hb Hl]. apply safe_ret. rewrite <- Hl. apply from_bytes_range. assumption.
Qed.
Lemma safe_usize n : 0 <= n <= 8 -> safe (read_usize n) (fun x => 0 <= x < 256 ^ n).
Proof.
  intros Hn. unfold read_usize. eapply safe_bind; [apply safe_bigint; lia|]. intros x Hx. unfold to_usize. destruct (Z.ltb_spec x (2 ^ 64)); [apply safe_ret; assumption|].
  exfalso. assert (Q : 256 ^ n <= 2 ^ 64) by (change (2 ^ 64) with (256 ^ 8); apply Z.pow_le_mono_r; lia). exact (Z.lt_irrefl _ (Z.lt_le_trans _ _ _ (proj2 Hx) (Z.le_trans _ _ _ Q H))).
Qed.
Lemma safe_times {A} n (m : reader A) Q : safe m Q -> safe (read_times n m) (fun l => length l = n /\ Forall Q l).
Proof.
  intros Hm. induction n as [|n IH]; cbn [read_times]; [apply safe_ret; split; [reflexivity|constructor]|]. eapply safe_bind; [exact Hm|]. intros x Hx. eapply safe_bind; [exact IH|].
  intros l [Hl HQ]. apply safe_ret. cbn. split; [lia|constructor; assumption].
Qed.
Lemma safe_if_decide {A} (P : Prop) `{Decision P} (m m' : reader A) Q : safe m Q -> safe m' Q -> safe (if decide P then m else m') Q.
Proof. intros H1 H2. destruct (decide P); assumption. Qed.
Lemma safe_read_section h : safe (read_section h) (fun q => 0 <= q).
Proof.
  unfold read_section. eapply safe_bind; [apply safe_exact; lia|]. intros b _. apply safe_if_decide; [|apply safe_err].
  eapply safe_bind; [apply safe_seek|]. intros q Hq. eapply safe_bind; [apply safe_seek|]. intros _ _. apply safe_ret. assumption.
Qed.
Lemma safe_end_section q : 0 <= q -> safe (read_end_section q) T.
Proof.
  intros Hq. unfold read_end_section. eapply safe_bind; [apply safe_seek|]. intros q1 Hq1. eapply safe_bind; [apply safe_seek_start; assumption|]. intros _ _.
  eapply safe_bind; [apply safe_usize; lia|]. intros x Hx. eapply safe_bind; [apply safe_seek_start; assumption|]. intros _ _. apply safe_ret. exact I.
Qed.
Lemma safe_in_section {A} (starts : gmap Z Z) t h (body : reader A) Q : map_Forall (fun _ q => 0 <= q) starts -> safe body Q -> safe (in_section starts t h body) Q.
Proof.
  intros Hs Hb. unfold in_section. destruct (starts !! t) as [q|] eqn:E; [|apply safe_err]. eapply safe_bind; [apply safe_seek_start; exact (Hs _ _ E)|]. intros _ _.
  eapply safe_bind; [apply safe_read_section|]. intros g Hg. eapply safe_bind; [exact Hb|]. intros x Hx. eapply safe_bind; [apply safe_end_section; assumption|]. intros _ _.
  apply safe_ret. assumption.
Qed.
Lemma safe_scan n m : forall off starts, map_Forall (fun _ q => 0 <= q) starts -> safe (scan_sections n m off starts) (fun s : gmap Z Z => map_Forall (fun _ q => 0 <= q) s).
Proof.
  induction n as [|n IH]; intros off starts Hs; cbn [scan_sections]; [apply safe_ret; assumption|].
  eapply safe_bind; [apply safe_seek|]. intros q Hq. eapply safe_bind; [apply safe_exact; lia|]. intros b [Hb Hl]. eapply safe_bind; [apply safe_usize; lia|]. intros sz _.
  destruct b as [|t b]; [cbn in Hl; lia|]. destruct (_ && _); [|apply safe_err]. apply IH. apply map_Forall_insert_2; assumption.
Qed.
Lemma safe_linear fs : 0 <= fs -> safe (read_linear_combination_block fs) T.
Proof.
  intros Hfs. unfold read_linear_combination_block. eapply safe_bind; [apply safe_usize; lia|]. intros n _. eapply safe_bind; [apply safe_times with (Q := T)|].
  - eapply safe_bind; [apply safe_exact; lia|]. intros b _. eapply safe_bind; [apply safe_bigint; assumption|]. intros x _. apply safe_ret. exact I.
  - intros l _. apply safe_ret. exact I.
Qed.
Lemma safe_constraint fs : 0 <= fs -> safe (read_constraint fs) T.
Proof.
  intros Hfs. unfold read_constraint. do 3 (eapply safe_bind; [apply safe_linear; assumption|]; intros ? _). apply safe_ret. exact I.
Qed.
Lemma safe_header : safe read_header (fun x => 0 <= x.1).
Proof.
  unfold read_header. eapply safe_bind; [apply safe_usize; lia|]. intros fs Hfs. eapply safe_bind; [apply safe_bigint; exact (proj1 Hfs)|]. intros f _.
  do 6 (eapply safe_bind; [apply safe_usize; lia|]; intros ? _). apply safe_ret. exact (proj1 Hfs).
Qed.
Lemma safe_name fuel : safe (read_name fuel) T.
Proof.
  induction fuel as [|f IH]; cbn [read_name]; [apply safe_err|]. eapply safe_bind; [apply safe_exact; lia|]. intros b _. destruct b as [|x b]; [apply safe_err|].
  destruct (x =? 0); [apply safe_ret; exact I|]. eapply safe_bind; [exact IH|]. intros l _. apply safe_ret. exact I.
Qed.
Lemma safe_usages utf8 fs : (forall n, utf8 n = true) -> 0 <= fs -> safe (read_usages utf8 fs) T.
Proof.
  intros Hu Hfs. unfold read_usages. eapply safe_bind; [apply safe_usize; lia|]. intros n _. eapply safe_weaken; [apply safe_times with (Q := T)|intros; exact I].
  unfold read_usage. eapply safe_bind with (Q := T); [intros d p; apply safe_name|]. intros nm _. rewrite Hu. eapply safe_bind; [apply safe_usize; lia|]. intros k _.
  eapply safe_bind; [apply safe_times; apply safe_bigint; assumption|]. intros l _. apply safe_ret. exact I.
Qed.
Lemma safe_applications : safe read_applications T.
Proof.
  unfold read_applications. eapply safe_bind; [apply safe_usize; lia|]. intros n _. eapply safe_weaken; [apply safe_times with (Q := T)|intros; exact I].
  unfold read_application. eapply safe_bind; [apply safe_usize; lia|]. intros i _. eapply safe_bind; [apply safe_usize; lia|]. intros k _.
  eapply safe_bind; [apply safe_times; apply safe_usize; lia|]. intros l _. apply safe_ret. exact I.
Qed.
(** whatever is read has the advertised numbers of items *)
Definition counts_ok (r : r1cs_data) : Prop :=
  length (d_constraints r) = Z.to_nat (h_number_of_constraints (d_header r)) /\ length (d_signals r) = Z.to_nat (h_total_wires (d_header r)).
Lemma safe_r1cs utf8 : (forall n, utf8 n = true) -> safe (read_r1cs utf8) counts_ok.
Proof.
  intros Hu. unfold read_r1cs. eapply safe_bind.
  { unfold read_initialization. eapply safe_bind; [apply safe_exact; lia|]. intros b _. apply safe_if_decide; [|apply safe_err].
    eapply safe_bind; [apply safe_exact; lia|]. intros b' _. apply safe_if_decide; [|apply safe_err]. apply safe_exact. lia. }
  intros b [Hb Hl]. destruct b as [|n b]; [cbn in Hl; lia|]. eapply safe_bind; [apply safe_scan; apply map_Forall_empty|]. intros starts Hs.
  eapply safe_bind; [apply safe_in_section; [assumption|apply safe_header]|]. intros [fs h] Hfs. cbn in Hfs.
  eapply safe_bind; [apply safe_in_section; [assumption|apply safe_times; apply safe_constraint; assumption]|]. intros cs [Hcs _].
  eapply safe_bind; [apply safe_in_section; [assumption|apply safe_times; apply safe_usize; lia]|]. intros ss [Hss _].
  destruct (n =? 5); [|apply safe_ret; split; assumption].
  eapply safe_bind; [apply safe_in_section; [assumption|apply safe_usages; assumption]|]. intros us _.
  eapply safe_bind; [apply safe_in_section; [assumption|apply safe_applications]|]. intros ap _. apply safe_ret. split; assumption.
Qed.
