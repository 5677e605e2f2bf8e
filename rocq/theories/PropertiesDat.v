(** C37: constants; C38: the data file; C46: the witness file. *)
From stdpp Require Import prelude gmap.
From Coq Require Import ZArith Lia.
From Verif Require Import BytesModel StorageProofs R1csSpec R1csProofs FrModel FrSpec PropertiesFr DatModel DatSpec DatProofs.
Open Scope Z_scope.

(** *** C37: the table of constants *)
(** [size_32] words of 32 bits make an element: what the library of the prime uses. *)
Definition element_size (p : Z) (size_32 : nat) : Prop := Z.of_nat (size_32 * 4) = 8 * words p.

(** Every integer constant is written as an element of the run-time library standing for it. *)
Theorem C37_cpp_constant : forall p size_32 c, Z.odd p = true -> 2 < p -> element_size p size_32 ->
  exists b, dat_constant p size_32 c = Some b /\ length b = (8 + size_32 * 4)%nat /\ represents p (decode_fr b) (c mod p).
Proof.
  intros p s c Ho Hp HS. exists (const_bytes p s c). rewrite (dat_constant_spec p s Ho Hp HS). split; [done|].
  split; [apply const_bytes_len|]. by apply decode_constant.
Qed.
Print Assumptions C37_cpp_constant.
(** The WebAssembly data segment has the same bytes. *)
Theorem C37_wasm_constant : forall p size_32 c, Z.odd p = true -> 2 < p -> element_size p size_32 ->
  exists text b, wasm_constant p size_32 c = Some text /\ wat_bytes text = Some b /\ dat_constant p size_32 c = Some b.
Proof.
  intros p s c Ho Hp HS. destruct (wasm_constant_spec p s Ho Hp HS c) as (t & E & W). exists t, (const_bytes p s c).
  split; [done|]. split; [done|]. by apply dat_constant_spec.
Qed.
Print Assumptions C37_wasm_constant.
(** The producers write 8 words for every prime; that is the size for all the primes of the library. *)
Theorem C37_supported_primes : forall p, In p library_primes -> Z.odd p = true /\ 2 < p /\ element_size p 8.
Proof.
  assert (forallb (fun p => Z.odd p && (2 <? p) && (8 * words p =? 32)) library_primes = true) as H by (vm_compute; reflexivity).
  intros p Hp. pose proof (proj1 (forallb_forall _ _) H p Hp) as E. cbv beta in E.
  apply andb_prop in E as [E E3]. apply andb_prop in E as [E1 E2]. apply Z.ltb_lt in E2. apply Z.eqb_eq in E3.
  split; [done|]. split; [done|]. unfold element_size. rewrite E3. done.
Qed.
Print Assumptions C37_supported_primes.
Example C37_ex : let p := 21888242871839275222246405745257275088548364400416034343698204186575808495617 in
  option_map decode_fr (dat_constant p 8 (-5)) =
    Some (Fr (-5) SHORTMONTGOMERY ((-5 * 2 ^ 256) mod p)) /\
  option_map decode_fr (dat_constant p 8 (2 ^ 31)) = Some (Fr 0 LONGMONTGOMERY ((2 ^ 31 * 2 ^ 256) mod p)).
Proof. vm_compute. split; reflexivity. Qed.

(** *** C38: the data file *)
(** For all tables that fit the file, with buses of at most ten fields, the loader finds the tables of the compiler:
    the same hash map and witness list, elements standing for the constants, and the same definitions.  Of the lengths
    of an array the first is left out, a definition that is not a bus has bus 0.  Bus definitions are written and
    read only with component definitions. *)
Theorem C38_round_trip : forall p size_32 t, Z.odd p = true -> 2 < p -> element_size p size_32 -> tables_ok (size_32 * 4) t ->
  (t_io_map t <> [] -> Forall (fun fields => length fields <= 10)%nat (t_fields t)) ->
  exists b c, dat_file p size_32 t = Some b /\ load_circuit (size_32 * 4) (sizes_of t) b = Some c /\
    c_hash_map c = t_hash_map t /\
    c_witness c = t_witness t /\
    Forall2 (fun k e => represents p e (k mod p)) (t_constants t) (c_constants c) /\
    Forall2 (fun '(id, defs) '(id', fields) => id' = id /\ fields = field_of <$> defs) (t_io_map t) (c_io_map c) /\
    (t_io_map t <> [] -> Forall2 (fun defs fields => fields = field_of <$> defs) (t_fields t) (c_fields c)).
Proof.
  intros p s t Ho Hp HS HT HB. destruct (load_spec p s t Ho Hp HS HT) as (b & E & L).
  { intros HL. apply HB. intros E. rewrite E in HL. cbn in HL. lia. }
  exists b, (loaded p s t). split; [done|]. split; [done|]. unfold loaded. cbn [c_hash_map c_witness c_constants c_io_map c_fields].
  split; [done|]. split; [done|]. split; [|split].
  - apply Forall2_fmap_r. clear -Ho Hp HS. induction (t_constants t); constructor; [by apply decode_constant|done].
  - apply Forall2_fmap_r. clear. induction (t_io_map t) as [|[i l] m IH]; constructor; done.
  - intros HI. destruct (Nat.ltb_spec 0 (length (t_io_map t))) as [_|HL].
    + apply Forall2_fmap_r. clear. induction (t_fields t); constructor; done.
    + destruct (t_io_map t); [done|cbn in HL; lia].
Qed.
Print Assumptions C38_round_trip.
Definition dat_ex : tables :=
  Tables [(14695981039346656037, 1, 1); (0, 0, 0); (12345, 2, 6)] [0; 1; 5; 2] [7; -1; 10 ^ 30]
    [(0, [IODef 0 [] 1 None; IODef 1 [2; 3] 6 (Some 1)]); (4, [])] [[IODef 0 [3; 2; 2] 1 None]; []].
Example C38_ex : tables_ok 32 dat_ex /\ t_io_map dat_ex <> [] /\ Forall (fun fields => length fields <= 10)%nat (t_fields dat_ex).
Proof.
  unfold tables_ok, defs_ok, def_ok, dat_ex, u32, u64. cbn. repeat (constructor || split || lia || discriminate).
Qed.

(** With a bus of eleven fields the loader writes beyond a block of ten. *)
Definition dat_bad : tables := Tables [] [0] [] [(0, [IODef 0 [] 11 (Some 0)])] [(fun i => IODef i [] 1 None) <$> [0;1;2;3;4;5;6;7;8;9;10]].
Theorem C38_buses_of_any_size_refuted : exists p size_32 t b, Z.odd p = true /\ 2 < p /\ element_size p size_32 /\ tables_ok (size_32 * 4) t /\
  dat_file p size_32 t = Some b /\ load_circuit (size_32 * 4) (sizes_of t) b = None.
Proof.
  exists (hd 0 library_primes), 8%nat, dat_bad, (default [] (dat_file (hd 0 library_primes) 8 dat_bad)).
  split; [done|]. split; [done|]. split; [done|]. split.
  - unfold tables_ok, defs_ok, def_ok, dat_bad, u32, u64. cbn. repeat (constructor || split || lia || discriminate).
  - split; vm_compute; reflexivity.
Qed.
Print Assumptions C38_buses_of_any_size_refuted.
(** Sizes are computed in 32 bits: with 2^29 wires nothing is read into the witness list. *)
Theorem C38_tables_of_any_size_refuted : forall p size_32 t, Z.of_nat (length (t_witness t)) = 2 ^ 29 ->
  forall b, dat_file p size_32 t = Some b -> load_circuit (size_32 * 4) (sizes_of t) b = None.
Proof.
  intros p s t HL b _. unfold load_circuit, sizes_of. cbn [s_hash_map s_witness s_constants s_io_map s_fields].
  destruct (mbind _ _) as [h|]; [|done]. rewrite HL. change (uint (2 ^ 29 * 8)) with 0.
  unfold mem. destruct (_ <=? _); [|done]. cbn [mbind option_bind]. change (Z.to_nat 0) with 0%nat.
  destruct (length (t_witness t)) eqn:E; [|done]. exfalso. clear -HL. change (Z.of_nat 0) with 0 in HL. discriminate HL.
Qed.
Print Assumptions C38_tables_of_any_size_refuted.

(** *** C46: the witness file *)
(** A reader of the format finds the prime and the values, whatever they are. *)
Theorem C46_cpp_witness_file : forall n8 p values, u32 (Z.of_nat n8) -> fits n8 p -> u32 (Z.of_nat (length values)) -> Forall (fits n8) values ->
  read_witness (write_witness n8 p values) = Some (p, values).
Proof. exact read_write_witness. Qed.
Print Assumptions C46_cpp_witness_file.
(** The JavaScript calculator writes the same file when the values take less than 4 GiB. *)
Theorem C46_js_witness_file : forall n32 p values, Z.of_nat (n32 * 4) + 8 < 2 ^ 32 -> fits (n32 * 4) p -> Forall (fits (n32 * 4)) values ->
  u32 (Z.of_nat (length values)) -> Z.of_nat (n32 * 4) * Z.of_nat (length values) < 2 ^ 32 ->
  read_witness (js_write_witness n32 p values) = Some (p, values) /\ js_write_witness n32 p values = write_witness (n32 * 4) p values.
Proof.
  intros n p v Hn Hp HV HL HS. rewrite js_write_witness_spec by done. split; [|done]. apply read_write_witness; try done. unfold u32. lia.
Qed.
Print Assumptions C46_js_witness_file.
(** Beyond, the length of the section is wrong: no witness of 2^27 values of 32 bytes can be read back. *)
Lemma get_values_len n size b l : get_values n size b = Some l -> 0 <= size -> Z.of_nat n * size <= Z.of_nat (length b).
Proof.
  intros H HS. revert b l H. induction n as [|n IH]; intros b l H; [lia|]. cbn [get_values] in H.
  unfold get_number, get in H. destruct (Z.leb_spec size (Z.of_nat (length b))) as [L|L]; [|done]. cbn [mbind option_bind] in H.
  destruct (get_values n size (drop (Z.to_nat size) b)) as [l'|] eqn:E; [|done]. apply IH in E. rewrite drop_length in E. lia.
Qed.
Theorem C46_js_large_witness_refuted : forall p values, fits 32 p -> Forall (fits 32) values -> Z.of_nat (length values) = 2 ^ 27 ->
  read_witness (js_write_witness 8 p values) = None.
Proof.
  intros p values Hp HF HL. unfold js_write_witness. change (8 * 4)%nat with 32%nat.
  set (data := concat (le_bytes 32 <$> values)).
  assert (Z.of_nat (length data) = 2 ^ 32) as LD by (unfold data; rewrite values_len, HL; lia).
  destruct (Z_of_nat_complete (2 ^ 28)) as [n Hn]; [lia|]. symmetry in Hn.
  assert (js_length (Z.of_nat 32 * Z.of_nat (length values)) = u64_le (2 ^ 28)) as -> by (rewrite HL; vm_compute; reflexivity).
  change (js_length (8 + Z.of_nat 32)) with (u64_le 40).
  set (k := Z.of_nat (length values)) in *. clearbody k data.
  rewrite <- (take_drop n data).
  assert (length (take n data) = n) as LT by (rewrite take_length; lia).
  assert (Z.of_nat (length (take n data)) = 2 ^ 28) as LT' by lia. rewrite <- LT' at 1.
  set (d1 := take n data) in *. set (d2 := drop n data). clearbody d1 d2.
  unfold read_witness. rewrite get_spec by done. cbn [mbind option_bind]. rewrite bool_decide_true by done.
  unfold u32_le at 1. rewrite (get_number_spec 4) by (try done; by apply fits_u32). cbn [mbind option_bind].
  unfold u32_le at 1. rewrite (get_number_spec 4) by (try done; by apply fits_u32). cbn [mbind option_bind].
  change (Z.to_nat 2) with 2%nat.
  set (header := u32_le (Z.of_nat 32) ++ le_bytes 32 p ++ u32_le k).
  match goal with |- context [get_sections 2 ?b] => replace b with (u32_le 1 ++ u64_le (Z.of_nat (length header)) ++ header ++ u32_le 2 ++ u64_le (Z.of_nat (length d1)) ++ d1 ++ d2) end.
  2: { unfold header. rewrite <- !app_assoc. do 2 f_equal. }
  rewrite get_section_spec; [|done|unfold header; rewrite !app_length, !u32_len, le_bytes_length; done].
  rewrite get_section_spec; [|done|rewrite LT'; done]. cbn [get_sections mbind option_bind].
  assert (section_of 1 [(1, header); (2, d1)] = Some header) as -> by done.
  assert (section_of 2 [(1, header); (2, d1)] = Some d1) as -> by done.
  cbn [mbind option_bind]. unfold header.
  unfold u32_le at 1. rewrite (get_number_spec 4) by (try done; by apply fits_u32). cbn [mbind option_bind].
  rewrite (get_number_spec 32) by done. cbn [mbind option_bind].
  unfold u32_le. rewrite <- (app_nil_r (le_bytes 4 k)), (get_number_spec 4) by (try done; apply fits_u32; unfold u32; lia). cbn [mbind option_bind].
  destruct (get_values _ _ d1) as [l|] eqn:E; [|done]. exfalso. apply get_values_len in E; [|lia]. rewrite Z2Nat.id in E by lia. lia.
Qed.
Print Assumptions C46_js_large_witness_refuted.
Example C46_ex : read_witness (js_write_witness 8 (hd 0 library_primes) [1; 2 ^ 200; 0]) = Some (hd 0 library_primes, [1; 2 ^ 200; 0]).
Proof. vm_compute. reflexivity. Qed.
(** Such tables and such witnesses exist. *)
Example C38_C46_large_exist : (exists t, Z.of_nat (length (t_witness t)) = 2 ^ 29) /\
  (exists values, Forall (fits 32) values /\ Z.of_nat (length values) = 2 ^ 27).
Proof.
  destruct (Z_of_nat_complete (2 ^ 29)) as [n Hn]; [lia|]. destruct (Z_of_nat_complete (2 ^ 27)) as [m Hm]; [lia|]. split.
  - exists (Tables [] (replicate n 0) [] [] []). cbn [t_witness]. rewrite replicate_length. by rewrite Hn.
  - exists (replicate m 0). rewrite replicate_length. split; [|by rewrite Hm]. apply Forall_replicate. split; [lia|]. reflexivity.
Qed.
