From stdpp Require Import prelude gmap.
From Coq Require Import ZArith Lia.
From Verif Require TreeProofs.
From Verif Require Import ModArithModel ModArithProofs BytesModel StorageProofs R1csSpec R1csProofs FrModel FrSpec DatModel DatSpec.
Open Scope Z_scope.

(** ** Bytes *)
Lemma fits_u32 x : u32 x -> fits 4 x. Proof. intros [A B]. split; [exact A|]. exact B. Qed.
Lemma fits_u64 x : u64 x -> fits 8 x. Proof. intros [A B]. split; [exact A|]. exact B. Qed.
Lemma from_u32 x : u32 x -> from_bytes_le (u32_le x) = x. Proof. intros H. by apply fits_from, fits_u32. Qed.
Lemma from_u64 x : u64 x -> from_bytes_le (u64_le x) = x. Proof. intros H. by apply fits_from, fits_u64. Qed.
Lemma u32_len x : length (u32_le x) = 4%nat. Proof. apply le_bytes_length. Qed.
Lemma u64_len x : length (u64_le x) = 8%nat. Proof. apply le_bytes_length. Qed.
Lemma pad_spec n x : (1 <= n)%nat -> fits n x -> pad n x = Some (le_bytes n x).
Proof.
  intros Hn [H0 H1]. unfold pad. pose proof (to_bytes_length x n Hn ltac:(lia)) as HL.
  destruct (Nat.leb_spec (length (to_bytes_le x)) n); [|lia]. f_equal. apply from_bytes_inj.
  - apply Forall_app_2; [apply to_bytes_byte|]. apply Forall_replicate. unfold byte. lia.
  - apply le_bytes_byte.
  - rewrite app_length, replicate_length, le_bytes_length. lia.
  - rewrite from_bytes_app, from_bytes_zeros, to_bytes_from, le_bytes_from, Z.mod_small by lia. lia.
Qed.
Lemma take_len {A} (a b : list A) n : length a = n -> take n (a ++ b) = a.
Proof. intros <-. apply take_app. Qed.
Lemma drop_len {A} (a b : list A) n : length a = n -> drop n (a ++ b) = b.
Proof. intros <-. apply drop_app. Qed.
Lemma mem_spec a x c off n : off = zlen a -> n = zlen x -> mem (a ++ x ++ c) off n = Some x.
Proof.
  intros -> ->. unfold mem. rewrite !app_length. destruct (Z.leb_spec (zlen a + zlen x) (Z.of_nat (length a + (length x + length c)))); [|lia].
  rewrite !Nat2Z.id, drop_app, take_app. done.
Qed.
Lemma objects_spec {A B} (decode : bytes -> B) (enc : A -> bytes) size l : Forall (fun a => length (enc a) = size) l ->
  objects decode size (length l) (concat (enc <$> l)) = Some ((fun a => decode (enc a)) <$> l).
Proof.
  induction 1 as [|a l Ha Hl IH]; [done|]. cbn [length objects concat fmap list_fmap].
  rewrite app_length. destruct (Nat.ltb_spec (length (enc a) + length (concat (enc <$> l))) size); [lia|].
  change (list_fmap A bytes enc l) with (enc <$> l).
  rewrite (drop_len _ _ _ Ha), (take_len _ _ _ Ha), IH. done.
Qed.
Lemma concat_len {A} (enc : A -> bytes) size l : Forall (fun a => length (enc a) = size) l -> length (concat (enc <$> l)) = (size * length l)%nat.
Proof. induction 1 as [|a l Ha Hl IH]; cbn; [lia|]. rewrite app_length, IH, Ha. lia. Qed.
Lemma list_fmap_id_on {A} (f : A -> A) l : Forall (fun a => f a = a) l -> f <$> l = l.
Proof. induction 1 as [|a l Ha Hl IH]; [done|]. cbn. by rewrite Ha, IH. Qed.

(** ** Constants *)
Section constants.
Context (p : Z) (size_32 : nat).
Hypothesis Hodd : Z.odd p = true.
Hypothesis Hp : 2 < p.
Hypothesis Hsize : Z.of_nat (size_32 * 4) = 8 * words p.
Lemma words_pos : 1 <= words p.
Proof. unfold words. apply Z.div_le_lower_bound; [lia|]. pose proof (Z.log2_nonneg p). lia. Qed.
Lemma radix_bytes : radix p = 256 ^ Z.of_nat (size_32 * 4).
Proof. unfold radix. rewrite Hsize. change 256 with (2 ^ 8). rewrite <- Z.pow_mul_r by (pose proof words_pos; lia). f_equal. lia. Qed.
Lemma p_radix : p < radix p.
Proof.
  unfold radix. pose proof (Z.log2_spec p ltac:(lia)) as [_ H].
  eapply Z.lt_le_trans; [exact H|]. apply Z.pow_le_mono_r; [lia|]. unfold words.
  pose proof (Z.div_mod (Z.log2 p + 1 + 63) 64 ltac:(lia)). pose proof (Z.mod_pos_bound (Z.log2 p + 1 + 63) 64 ltac:(lia)). lia.
Qed.
Lemma montgomery_radix : 2 ^ (((bits p + 63) / 64) * 64) = radix p.
Proof. unfold radix, words. rewrite <- TreeProofs.bits_log2 by lia. f_equal. lia. Qed.
Definition the_constant (c : Z) : Z * Z :=
  let n := c mod p in
  let nn := if p / 2 <? n then n - p else n in
  if (- 2147483648 <=? nn) && (nn <=? 2147483647) then (nn mod 2 ^ 32, 0x40000000) else (0, 0xC0000000).
Lemma rem_canonical c : Z.rem (Z.rem c p + p) p = c mod p.
Proof. apply (modulus_mod c p). lia. Qed.
Lemma dat_constant_spec c : dat_constant p size_32 c =
  Some (le_bytes 4 (the_constant c).1 ++ le_bytes 4 (the_constant c).2 ++ le_bytes (size_32 * 4) ((c * radix p) mod p)).
Proof.
  unfold dat_constant. rewrite rem_canonical, montgomery_radix, quot2 by lia.
  pose proof (Z.mod_pos_bound c p ltac:(lia)) as Hc. pose proof p_radix. pose proof words_pos.
  assert (Z.rem (c mod p * radix p) p = (c * radix p) mod p) as ->.
  { rewrite Z.rem_mod_nonneg by nia. apply Z.mul_mod_idemp_l. lia. }
  rewrite (pad_spec (size_32 * 4)).
  2: lia.
  2: { split; [apply Z.mod_pos_bound; lia|]. rewrite <- radix_bytes. pose proof (Z.mod_pos_bound (c * radix p) p ltac:(lia)). lia. }
  unfold the_constant. set (nn := if p / 2 <? c mod p then c mod p - p else c mod p).
  destruct (Z.leb_spec (- 2147483648) nn); [destruct (Z.leb_spec nn 2147483647)|]; cbn [andb fst snd].
  - assert ((if nn <? 0 then 0x100000000 + nn else nn) = nn mod 2 ^ 32) as ->.
    { destruct (Z.ltb_spec nn 0).
      - apply Z.mod_unique with (-1); lia.
      - symmetry. apply Z.mod_small. lia. }
    rewrite (pad_spec 4); [|lia|apply Z.mod_pos_bound; lia]. unfold u32_le. rewrite <- app_assoc. done.
  - done.
  - done.
Qed.
Lemma the_constant_range c : u32 (the_constant c).1 /\ u32 (the_constant c).2.
Proof. unfold the_constant. destruct (_ && _); cbn [fst snd]; unfold u32; [split; [apply Z.mod_pos_bound|]|]; lia. Qed.
Lemma decode_constant c : represents p
  (decode_fr (le_bytes 4 (the_constant c).1 ++ le_bytes 4 (the_constant c).2 ++ le_bytes (size_32 * 4) ((c * radix p) mod p))) (c mod p).
Proof.
  pose proof (Z.mod_pos_bound c p ltac:(lia)) as Hc. pose proof p_radix.
  destruct (the_constant_range c) as [R1 R2]. unfold decode_fr.
  rewrite (take_len _ _ 4), (drop_len _ _ 4), (take_len _ _ 4) by apply le_bytes_length.
  rewrite app_assoc, (drop_len _ _ 8) by (rewrite app_length, !le_bytes_length; lia).
  rewrite (fits_from 4 _ (fits_u32 _ R1)), (fits_from 4 _ (fits_u32 _ R2)).
  rewrite fits_from.
  2: { split; [apply Z.mod_pos_bound; lia|]. rewrite <- radix_bytes. pose proof (Z.mod_pos_bound (c * radix p) p ltac:(lia)). lia. }
  split; [exact Hc|]. unfold the_constant. set (nn := if p / 2 <? c mod p then c mod p - p else c mod p).
  assert (nn mod p = c mod p) as Hnn.
  { unfold nn. destruct (p / 2 <? c mod p); [|apply Z.mod_mod; lia].
    replace (c mod p - p) with (c mod p + (-1) * p) by lia. rewrite Z.mod_add by lia. apply Z.mod_mod. lia. }
  destruct (Z.leb_spec (- 2147483648) nn); [destruct (Z.leb_spec nn 2147483647)|]; cbn [andb fst snd].
  - cbn [f_type decode_type Z.eqb Pos.eqb f_short f_long].
    assert (int32 (nn mod 2 ^ 32) = nn) as ->.
    { unfold int32. rewrite Z.add_mod_idemp_l by lia. rewrite Z.mod_small by lia. lia. }
    split; [lia|]. split; [done|]. rewrite Z.mul_mod_idemp_l by lia. done.
  - cbn [f_type decode_type Z.eqb Pos.eqb f_short f_long]. rewrite Z.mul_mod_idemp_l by lia. done.
  - cbn [f_type decode_type Z.eqb Pos.eqb f_short f_long]. rewrite Z.mul_mod_idemp_l by lia. done.
Qed.
Definition const_bytes (c : Z) : bytes :=
  le_bytes 4 (the_constant c).1 ++ le_bytes 4 (the_constant c).2 ++ le_bytes (size_32 * 4) ((c * radix p) mod p).
Lemma const_bytes_len c : length (const_bytes c) = (8 + size_32 * 4)%nat.
Proof. clear. unfold const_bytes. rewrite !app_length, !le_bytes_length. lia. Qed.
Lemma dat_constants_spec l : dat_constants p size_32 l = Some (concat (const_bytes <$> l)).
Proof. induction l as [|c l IH]; [done|]. cbn [dat_constants]. rewrite dat_constant_spec, IH. done. Qed.
End constants.

(** ** Definitions *)
Definition def_words (d : io_def) : list Z :=
  d_offset d :: Z.of_nat (length (d_lengths d) - 1) :: tail (d_lengths d) ++ [d_size d; default 0 (d_bus d)].
Definition defs_words (l : list io_def) : list Z := Z.of_nat (length l) :: concat (def_words <$> l).
Notation enc_words w := (concat (u32_le <$> w)).
Lemma enc_words_app a b : enc_words (a ++ b) = enc_words a ++ enc_words b.
Proof. by rewrite fmap_app, concat_app. Qed.
Lemma dat_def_words d : dat_def d = enc_words (def_words d).
Proof.
  unfold dat_def, def_words. cbn [fmap list_fmap concat]. change (list_fmap Z bytes u32_le ?l) with (u32_le <$> l).
  rewrite enc_words_app. cbn [fmap list_fmap concat]. by rewrite app_nil_r.
Qed.
Lemma enc_words_concat {A} (f : A -> list Z) l : concat ((fun d => enc_words (f d)) <$> l) = enc_words (concat (f <$> l)).
Proof. induction l as [|a l IH]; [done|]. cbn [fmap list_fmap concat]. rewrite enc_words_app. f_equal. exact IH. Qed.
Lemma dat_defs_words l : dat_defs l = enc_words (defs_words l).
Proof.
  unfold dat_defs, defs_words. cbn [fmap list_fmap concat]. f_equal. rewrite <- enc_words_concat. f_equal.
  apply list_fmap_ext. intros ? d ?. apply dat_def_words.
Qed.
Lemma concat_defs_words l : concat (dat_defs <$> l) = enc_words (concat (defs_words <$> l)).
Proof. rewrite <- enc_words_concat. f_equal. apply list_fmap_ext. intros ? d ?. apply dat_defs_words. Qed.
Lemma tail_u32 l : Forall u32 l -> Forall u32 (tail l).
Proof. destruct 1; [constructor|done]. Qed.
Lemma def_words_ok d : def_ok d -> Forall u32 (def_words d).
Proof.
  intros (A & B & C & D & E). unfold def_words. constructor; [done|]. constructor; [unfold u32 in *; lia|].
  apply Forall_app_2; [by apply tail_u32|]. by apply Forall_cons_2; [|apply Forall_cons_2].
Qed.
Lemma Forall_concat_fmap {A B} (P : B -> Prop) (f : A -> list B) l : Forall (fun a => Forall P (f a)) l -> Forall P (concat (f <$> l)).
Proof. induction 1; [constructor|]. cbn. by apply Forall_app_2. Qed.
Lemma defs_words_ok l : defs_ok l -> Forall u32 (defs_words l).
Proof.
  intros [A B]. constructor; [done|]. apply Forall_concat_fmap. eapply Forall_impl; [exact B|]. apply def_words_ok.
Qed.
Lemma read_def_spec d w : read_def (def_words d ++ w) = Some (field_of d, w).
Proof.
  unfold def_words. rewrite <- !app_comm_cons. unfold read_def. rewrite Nat2Z.id.
  assert (length (tail (d_lengths d)) = (length (d_lengths d) - 1)%nat) as E by (destruct (d_lengths d); cbn; lia).
  rewrite <- app_assoc, (take_len _ _ _ E), (drop_len _ _ _ E). done.
Qed.
Lemma read_n_spec {A B} (read : list Z -> option (B * list Z)) (enc : A -> list Z) (g : A -> B) l w :
  Forall (fun a => forall w, read (enc a ++ w) = Some (g a, w)) l ->
  read_n read (length l) (concat (enc <$> l) ++ w) = Some (g <$> l, w).
Proof.
  induction 1 as [|a l Ha Hl IH]; [done|]. cbn [length read_n fmap list_fmap concat]. rewrite <- app_assoc, Ha.
  change (list_fmap A (list Z) enc l) with (enc <$> l). rewrite IH. done.
Qed.
Lemma read_defs_spec l w : read_defs (defs_words l ++ w) = Some (field_of <$> l, w).
Proof.
  unfold defs_words. rewrite <- app_comm_cons. unfold read_defs. rewrite Nat2Z.id.
  apply read_n_spec. apply Forall_forall. intros d _. apply read_def_spec.
Qed.
Lemma read_bus_spec l w : (length l <= 10)%nat -> read_bus (defs_words l ++ w) = Some (field_of <$> l, w).
Proof.
  intros H. unfold read_bus. rewrite read_defs_spec, fmap_length. destruct (Nat.leb_spec (length l) 10); [done|lia].
Qed.

(** ** The file *)
Lemma uint_small x : 0 <= x < 2 ^ 32 -> uint x = x. Proof. apply Z.mod_small. Qed.
Definition entry_bytes (e : Z * Z * Z) : bytes := let '(h, p, s) := e in u64_le h ++ u64_le p ++ u64_le s.
Lemma entry_len e : length (entry_bytes e) = 24%nat.
Proof. destruct e as [[h s] z]. cbn [entry_bytes]. rewrite !app_length, !u64_len. done. Qed.
Lemma decode_entry_spec h s z : u64 h -> u64 s -> u64 z -> decode_entry (entry_bytes (h, s, z)) = (h, s, z).
Proof.
  intros Hh Hs Hz. unfold decode_entry. cbn [entry_bytes].
  rewrite (take_len _ _ 8), (drop_len _ _ 8), (take_len _ _ 8) by apply u64_len.
  rewrite app_assoc, (drop_len _ _ 16) by (rewrite app_length, !u64_len; done). by rewrite !from_u64.
Qed.
Section file.
Context (p : Z) (size_32 : nat) (t : tables).
Hypothesis Hodd : Z.odd p = true.
Hypothesis Hp : 2 < p.
Hypothesis Hsize : Z.of_nat (size_32 * 4) = 8 * words p.
Hypothesis HT : tables_ok (size_32 * 4) t.
Definition loaded : circuit :=
  Circuit (t_hash_map t) (t_witness t) ((fun c => decode_fr (const_bytes p size_32 c)) <$> t_constants t)
    ((fun '((i, l) : Z * list io_def) => (i, field_of <$> l)) <$> t_io_map t)
    (if (0 <? length (t_io_map t))%nat then (fun l : list io_def => field_of <$> l) <$> t_fields t else []).
Definition bus_words : list Z := concat (defs_words <$> t_fields t).
Lemma load_spec : (0 < length (t_io_map t) -> Forall (fun l => length l <= 10) (t_fields t))%nat ->
  exists b, dat_file p size_32 t = Some b /\ load_circuit (size_32 * 4) (sizes_of t) b = Some loaded.
Proof.
  intros Hbus. destruct HT as (OH & OW & OI & OF & OZ). unfold dat_file. rewrite (dat_constants_spec p size_32 Hodd Hp Hsize).
  eexists. split; [reflexivity|].
  set (H := dat_hash_map (t_hash_map t)). set (W := dat_witness_list (t_witness t)). set (C := concat (const_bytes p size_32 <$> t_constants t)).
  set (I := dat_io_map (t_io_map t)).
  assert (length H = 24 * length (t_hash_map t))%nat as LH.
  { exact (concat_len entry_bytes 24 (t_hash_map t) (proj2 (Forall_forall _ _) (fun e _ => entry_len e))). }
  assert (length W = 8 * length (t_witness t))%nat as LW.
  { exact (concat_len u64_le 8 (t_witness t) (proj2 (Forall_forall _ _) (fun e _ => u64_len e))). }
  assert (length C = (8 + size_32 * 4) * length (t_constants t))%nat as LC.
  { exact (concat_len (const_bytes p size_32) (8 + size_32 * 4) (t_constants t) (proj2 (Forall_forall _ _) (fun e _ => const_bytes_len p size_32 e))). }
  assert (objects decode_entry 24 (length (t_hash_map t)) H = Some (t_hash_map t)) as RH.
  { transitivity (Some ((fun e => decode_entry (entry_bytes e)) <$> t_hash_map t)).
    - apply (objects_spec decode_entry entry_bytes). apply Forall_forall. intros e _. apply entry_len.
    - f_equal. apply list_fmap_id_on. eapply Forall_impl; [exact OH|]. intros [[h s] z] (?&?&?). by apply decode_entry_spec. }
  assert (objects from_bytes_le 8 (length (t_witness t)) W = Some (t_witness t)) as RW.
  { transitivity (Some ((fun e => from_bytes_le (u64_le e)) <$> t_witness t)).
    - apply (objects_spec from_bytes_le u64_le). apply Forall_forall. intros e _. apply u64_len.
    - f_equal. apply list_fmap_id_on. eapply Forall_impl; [exact OW|]. intros e ?. by apply from_u64. }
  assert (objects decode_fr (8 + size_32 * 4) (length (t_constants t)) C = Some ((fun c => decode_fr (const_bytes p size_32 c)) <$> t_constants t)) as RC.
  { apply (objects_spec decode_fr (const_bytes p size_32)). apply Forall_forall. intros e _. apply const_bytes_len. }
  unfold u32 in OZ. unfold load_circuit, sizes_of. cbn [s_hash_map s_witness s_constants s_io_map s_fields].
  rewrite !(uint_small (Z.of_nat _ * _)) by lia.
  rewrite (mem_spec [] H _ 0 (Z.of_nat (length (t_hash_map t)) * 24) eq_refl (ltac:(rewrite LH; lia)) : mem (H ++ _) 0 _ = _). cbn [mbind option_bind]. rewrite RH.
  rewrite (mem_spec H W _ _ _) by lia. cbn [mbind option_bind]. rewrite RW.
  set (B := if (0 <? length (t_io_map t))%nat then dat_field_map (t_fields t) else []).
  set (FILE := H ++ W ++ C ++ I ++ B).
  assert (exists i d, (if (0 <? length (t_constants t))%nat then (uint (Z.of_nat (length (t_hash_map t)) * 24 + Z.of_nat (length (t_witness t)) * 8), Z.of_nat (length (t_constants t)) * Z.of_nat (8 + size_32 * 4))
     else (Z.of_nat (length (t_hash_map t)) * 24, Z.of_nat (length (t_witness t)) * 8)) = (i, d) /\ i + d = zlen (H ++ W ++ C) /\
     (if (0 <? length (t_constants t))%nat then b' ← mem FILE i d; objects decode_fr (8 + size_32 * 4) (length (t_constants t)) b' else Some []) =
       Some ((fun c => decode_fr (const_bytes p size_32 c)) <$> t_constants t)) as (i & d & -> & Hid & ->).
  { rewrite !app_length, LH, LW, LC. destruct (Nat.ltb_spec 0 (length (t_constants t))) as [L|L].
    - rewrite uint_small by lia. do 2 eexists. split; [reflexivity|]. split; [lia|].
      unfold FILE. rewrite (app_assoc H W). rewrite (mem_spec (H ++ W) C); [exact RC|rewrite app_length; lia|lia].
    - do 2 eexists. split; [reflexivity|]. split; [lia|]. destruct (t_constants t); [done|cbn in L; lia]. }
  unfold loaded. destruct (Nat.ltb_spec 0 (length (t_io_map t))) as [L|L].
  2: { destruct (t_io_map t); [done|cbn in L; lia]. }
  rewrite (uint_small (i + d)), Hid by (rewrite Hid, !app_length; lia).
  set (X := concat (u32_le <$> (t_io_map t).*1)). set (D := concat (dat_defs <$> (t_io_map t).*2)).
  assert (I = X ++ D) as EI by done.
  assert (length X = 4 * length (t_io_map t))%nat as LX.
  { unfold X. rewrite (concat_len u32_le 4); [by rewrite fmap_length|]. apply Forall_forall. intros ? _. apply u32_len. }
  assert (FILE = (H ++ W ++ C) ++ X ++ (D ++ B)) as E1 by (unfold FILE; rewrite EI, <- !app_assoc; done).
  rewrite E1 at 1. rewrite (mem_spec (H ++ W ++ C) X) by lia. cbn [mbind option_bind].
  assert (objects from_bytes_le 4 (length (t_io_map t)) X = Some (t_io_map t).*1) as ->.
  { transitivity (Some ((fun e => from_bytes_le (u32_le e)) <$> (t_io_map t).*1)).
    - rewrite <- (fmap_length fst (t_io_map t)). apply (objects_spec from_bytes_le u32_le). apply Forall_forall. intros e _. apply u32_len.
    - f_equal. apply list_fmap_id_on. apply Forall_fmap. eapply Forall_impl; [exact OI|]. intros [k l] [? _]. by apply from_u32. }
  set (ws := concat (defs_words <$> (t_io_map t).*2) ++ concat (defs_words <$> t_fields t)).
  assert (D ++ B = enc_words ws) as EW.
  { unfold ws. rewrite enc_words_app, <- !concat_defs_words. done. }
  assert (Forall u32 ws) as OWS.
  { apply Forall_app_2; apply Forall_concat_fmap.
    - apply Forall_fmap. eapply Forall_impl; [exact OI|]. intros [k l] [_ ?]. by apply defs_words_ok.
    - eapply Forall_impl; [exact OF|]. apply defs_words_ok. }
  assert (length (enc_words ws) = 4 * length ws)%nat as LWS.
  { rewrite (concat_len u32_le 4); [done|]. apply Forall_forall. intros ? _. apply u32_len. }

  assert (uint (zlen (H ++ W ++ C) + Z.of_nat (length (t_io_map t)) * 4) = zlen ((H ++ W ++ C) ++ X)) as ->.
  { rewrite uint_small; rewrite !app_length; lia. }
  assert (zlen ((H ++ W ++ C) ++ X) mod 4 = 0) as ->.
  { rewrite !app_length, LH, LW, LC, LX.
    replace (Z.of_nat _) with ((6 * Z.of_nat (length (t_hash_map t)) + 2 * Z.of_nat (length (t_witness t)) + (2 + Z.of_nat size_32) * Z.of_nat (length (t_constants t)) + Z.of_nat (length (t_io_map t))) * 4) by lia.
    apply Z.mod_mul. lia. }
  assert (zlen FILE mod 4 = 0) as ->.
  { rewrite E1, EW, !app_length, LH, LW, LC, LX, LWS.
    replace (Z.of_nat _) with ((6 * Z.of_nat (length (t_hash_map t)) + 2 * Z.of_nat (length (t_witness t)) + (2 + Z.of_nat size_32) * Z.of_nat (length (t_constants t)) + Z.of_nat (length (t_io_map t)) + Z.of_nat (length ws)) * 4) by lia.
    apply Z.mod_mul. lia. }
  cbn [Z.eqb negb orb].
  assert (FILE = ((H ++ W ++ C) ++ X) ++ (D ++ B) ++ []) as E2 by (rewrite E1, app_nil_r, <- !app_assoc; done).
  assert (zlen FILE - zlen ((H ++ W ++ C) ++ X) = zlen (D ++ B)) as -> by (rewrite E2, !app_length; cbn [length]; lia).
  rewrite E2 at 1. rewrite mem_spec by done. cbn [mbind option_bind].
  assert (Z.to_nat (zlen (D ++ B) / 4) = length ws) as ->.
  { rewrite EW, LWS. replace (Z.of_nat (4 * length ws)) with (Z.of_nat (length ws) * 4) by lia. rewrite Z.div_mul by lia. apply Nat2Z.id. }
  assert (objects from_bytes_le 4 (length ws) (D ++ B) = Some ws) as ->.
  { rewrite EW. rewrite (objects_spec from_bytes_le u32_le) by (apply Forall_forall; intros ? _; apply u32_len).
    f_equal. apply list_fmap_id_on. eapply Forall_impl; [exact OWS|]. intros ? ?. by apply from_u32. }
  assert (read_n read_defs (length (t_io_map t)) ws = Some ((fun l : list io_def => field_of <$> l) <$> (t_io_map t).*2, concat (defs_words <$> t_fields t) ++ [])) as ->.
  { rewrite app_nil_r, <- (fmap_length snd (t_io_map t)). unfold ws. apply read_n_spec. apply Forall_forall. intros l _ w. apply read_defs_spec. }
  assert (read_n read_bus (length (t_fields t)) (concat (defs_words <$> t_fields t) ++ []) = Some ((fun l : list io_def => field_of <$> l) <$> t_fields t, [])) as ->.
  { apply read_n_spec. eapply Forall_impl; [exact (Hbus L)|]. intros l ? w. by apply read_bus_spec. }
  do 2 f_equal. clear. induction (t_io_map t) as [|[k l] m IH]; [done|]. cbn. by rewrite <- IH.
Qed.
End file.

(** ** Hexadecimal text *)
Definition hex_value (l : list Z) : Z := foldl (fun a d => 16 * a + d) 0 l.
Definition digit16 (d : Z) : Prop := 0 <= d < 16.
Lemma hex_value_snoc l d : hex_value (l ++ [d]) = 16 * hex_value l + d.
Proof. unfold hex_value. by rewrite foldl_app. Qed.
Lemma hex_value_zeros k l : hex_value (replicate k 0 ++ l) = hex_value l.
Proof. unfold hex_value. rewrite foldl_app. f_equal. induction k; [done|]. exact IHk. Qed.
Lemma log2_16 x : 16 <= x -> Z.log2 (x / 16) = Z.log2 x - 4.
Proof. intros H. change 16 with (2 ^ 4). rewrite <- Z.shiftr_div_pow2 by lia. rewrite Z.log2_shiftr by lia. pose proof (Z.log2_le_mono 16 x H) as HL. change (Z.log2 16) with 4 in HL. lia. Qed.
Lemma hex_digits_spec f x : 0 <= x -> Z.log2 x <= Z.of_nat f ->
  hex_value (hex_digits f x) = x /\ Forall digit16 (hex_digits f x) /\
  (forall k, (1 <= k)%nat -> x < 16 ^ Z.of_nat k -> (length (hex_digits f x) <= k)%nat).
Proof.
  revert x. induction f as [|f IH]; intros x H0 HF; cbn [hex_digits].
  - assert (x < 16) as Hx. { destruct (Z.lt_ge_cases x 16); [done|]. pose proof (Z.log2_le_mono 16 x ltac:(lia)) as HL. change (Z.log2 16) with 4 in HL. lia. }
    rewrite Z.mod_small by lia. split; [unfold hex_value; cbn [foldl]; lia|]. split; [by repeat constructor|]. intros k Hk _. cbn [length]. lia.
  - destruct (Z.ltb_spec x 16) as [Hx|Hx].
    + split; [unfold hex_value; cbn [foldl]; lia|]. split; [by repeat constructor|]. intros k Hk _. cbn [length]. lia.
    + pose proof (Z.div_pos x 16 H0 ltac:(lia)). pose proof (log2_16 x Hx).
      destruct (IH (x / 16) ltac:(done) ltac:(lia)) as (E & D & L). split; [|split].
      * rewrite hex_value_snoc, E. pose proof (Z.div_mod x 16 ltac:(lia)). lia.
      * apply Forall_app_2; [done|]. apply Forall_singleton. apply Z.mod_pos_bound. lia.
      * intros k Hk HX. destruct k as [|[|k]]; [lia|change (16 ^ Z.of_nat 1) with 16 in HX; lia|]. rewrite app_length. cbn [length].
        assert (length (hex_digits f (x / 16)) <= S k)%nat; [|lia]. apply L; [lia|]. apply Z.div_lt_upper_bound; [lia|].
        rewrite <- Z.pow_succ_r by lia. rewrite <- Nat2Z.inj_succ. done.
Qed.
Lemma to_hex_spec x : 0 <= x ->
  hex_value (to_hex x) = x /\ Forall digit16 (to_hex x) /\ (forall k, (1 <= k)%nat -> x < 16 ^ Z.of_nat k -> (length (to_hex x) <= k)%nat).
Proof. intros H. apply hex_digits_spec; [done|]. pose proof (Z.log2_nonneg x). lia. Qed.
Lemma wat_app a b x y : wat_bytes a = Some x -> wat_bytes b = Some y -> wat_bytes (a ++ b) = Some (x ++ y).
Proof.
  revert a x. fix IH 1. intros a x Ha Hb. destruct a as [|[|d] [|[|e] [|[|f] a]]]; try done; cbn in Ha.
  - by injection Ha as <-.
  - destruct (wat_bytes a) as [u|] eqn:E; [|done]. injection Ha as <-. cbn [app wat_bytes].
    rewrite (IH a u E Hb). done.
Qed.
Definition hexa_step (temp : list Z) (res : list wchar) (i : nat) : list wchar := Backslash :: (Hex <$> take 2 (drop (2 * i) temp)) ++ res.
Lemma hexa_fold_ext temp u n acc : length temp = (2 * n)%nat ->
  foldl (hexa_step (temp ++ u)) acc (seq 0 n) = foldl (hexa_step temp) acc (seq 0 n).
Proof.
  intros HL. assert (Forall (fun i => (i < n)%nat) (seq 0 n)) as HS.
  { apply Forall_forall. intros i Hi. apply elem_of_seq in Hi. lia. }
  revert acc. induction HS as [|i l Hi Hl IH]; intros acc; [done|]. cbn [foldl].
  rewrite IH. f_equal. unfold hexa_step. rewrite drop_app_le, take_app_le; [done| |].
  - rewrite drop_length. lia.
  - lia.
Qed.
Lemma two_last (temp : list Z) n : length temp = (2 * S n)%nat -> exists l a b, temp = l ++ [a; b] /\ length l = (2 * n)%nat.
Proof.
  intros HL. exists (take (2 * n) temp).
  pose proof (take_drop (2 * n) temp) as E. pose proof (drop_length temp (2 * n)) as HD.
  destruct (drop (2 * n) temp) as [|a [|b [|c r]]]; cbn [length] in HD; try lia.
  exists a, b. split; [done|]. rewrite take_length. lia.
Qed.
Lemma hexa_fold n temp : length temp = (2 * n)%nat -> Forall digit16 temp ->
  wat_bytes (foldl (hexa_step temp) [] (seq 0 n)) = Some (le_bytes n (hex_value temp)).
Proof.
  revert temp. induction n as [|n IH]; intros temp HL HD; [done|].
  destruct (two_last temp n HL) as (l & a & b & -> & Hl). apply Forall_app in HD as [HD1 HD2].
  assert (digit16 a /\ digit16 b) as [Ha Hb] by (split; eapply (proj1 (Forall_forall _ _) HD2); set_solver).
  rewrite seq_S, foldl_app. cbn [foldl]. rewrite hexa_fold_ext by done. unfold hexa_step at 1. cbn [Nat.add].
  rewrite (drop_len _ _ _ Hl). cbn [take fmap list_fmap app].
  change (wat_bytes (Backslash :: Hex a :: Hex b :: ?s)) with (match wat_bytes s with Some l => Some (16 * a + b :: l) | None => None end).
  rewrite IH by done.
  assert (hex_value (l ++ [a; b]) = 256 * hex_value l + (16 * a + b)) as ->.
  { change [a; b] with ([a] ++ [b]). rewrite app_assoc, !hex_value_snoc. lia. }
  unfold digit16 in Ha, Hb. cbn [le_bytes].
  replace (256 * hex_value l + (16 * a + b)) with ((16 * a + b) + hex_value l * 256) by lia.
  rewrite Z.mod_add, Z.div_add, Z.mod_small, Z.div_small by lia. done.
Qed.
Lemma wasm_hexa_spec n x : (1 <= n)%nat -> fits n x -> exists s, wasm_hexa n x = Some s /\ wat_bytes s = Some (le_bytes n x).
Proof.
  intros Hn [H0 H1]. destruct (to_hex_spec x H0) as (E & D & L). unfold wasm_hexa.
  assert (length (to_hex x) <= 2 * n)%nat as HL.
  { apply L; [lia|]. rewrite Nat2Z.inj_mul, Z.pow_mul_r by lia. exact H1. }
  destruct (Nat.leb_spec (length (to_hex x)) (2 * n)); [|lia]. eexists. split; [reflexivity|].
  set (temp := replicate (2 * n - length (to_hex x)) 0 ++ to_hex x).
  assert (x = hex_value temp) as Hv by (unfold temp; rewrite hex_value_zeros; done). rewrite Hv at 1.
  apply (hexa_fold n temp).
  - unfold temp. rewrite app_length, replicate_length. lia.
  - apply Forall_app_2; [|done]. apply Forall_replicate. unfold digit16. lia.
Qed.
Section wasm.
Context (p : Z) (size_32 : nat).
Hypothesis Hodd : Z.odd p = true.
Hypothesis Hp : 2 < p.
Hypothesis Hsize : Z.of_nat (size_32 * 4) = 8 * words p.
Lemma wasm_constant_spec c : exists s, wasm_constant p size_32 c = Some s /\ wat_bytes s = Some (const_bytes p size_32 c).
Proof.
  unfold wasm_constant. rewrite (rem_canonical p size_32 Hodd Hp Hsize), (montgomery_radix p size_32 Hodd Hp Hsize), quot2 by lia.
  pose proof (Z.mod_pos_bound c p ltac:(lia)) as Hc. pose proof (p_radix p size_32 Hodd Hp Hsize). pose proof (words_pos p size_32 Hodd Hsize).
  assert (Z.rem (c mod p * radix p) p = (c * radix p) mod p) as ->.
  { rewrite Z.rem_mod_nonneg by nia. apply Z.mul_mod_idemp_l. lia. }
  destruct (wasm_hexa_spec (size_32 * 4) ((c * radix p) mod p)) as (v & -> & Hv).
  { lia. }
  { split; [apply Z.mod_pos_bound; lia|]. rewrite <- (radix_bytes p size_32) by done. pose proof (Z.mod_pos_bound (c * radix p) p ltac:(lia)). lia. }
  unfold const_bytes, the_constant. set (nn := if p / 2 <? c mod p then c mod p - p else c mod p).
  assert (forall a b x y, wat_bytes a = Some x -> wat_bytes b = Some y -> wat_bytes ((a ++ b) ++ v) = Some (x ++ y ++ le_bytes (size_32 * 4) ((c * radix p) mod p))) as HA.
  { intros a b x y Hx Hy. rewrite app_assoc. by repeat apply wat_app. }
  destruct (Z.leb_spec (- 2147483648) nn); [destruct (Z.leb_spec nn 2147483647)|]; cbn [andb fst snd].
  - assert ((if nn <? 0 then 0x100000000 + nn else nn) = nn mod 2 ^ 32) as ->.
    { destruct (Z.ltb_spec nn 0).
      - apply Z.mod_unique with (-1); lia.
      - symmetry. apply Z.mod_small. lia. }
    destruct (wasm_hexa_spec 4 (nn mod 2 ^ 32)) as (u & -> & Hu); [lia|apply Z.mod_pos_bound; lia|].
    eexists. split; [reflexivity|]. by apply HA.
  - eexists. split; [reflexivity|]. exact (HA (concat (wasm_byte <$> [0; 0; 0; 0])) (concat (wasm_byte <$> [0; 0; 0; 192])) (le_bytes 4 0) (le_bytes 4 3221225472) eq_refl eq_refl).
  - eexists. split; [reflexivity|]. exact (HA (concat (wasm_byte <$> [0; 0; 0; 0])) (concat (wasm_byte <$> [0; 0; 0; 192])) (le_bytes 4 0) (le_bytes 4 3221225472) eq_refl eq_refl).
Qed.
End wasm.

(** ** The witness file *)
Lemma get_spec a b n : n = zlen a -> get n (a ++ b) = Some (a, b).
Proof.
  intros ->. unfold get. rewrite app_length. destruct (Z.leb_spec (zlen a) (Z.of_nat (length a + length b))); [|lia].
  by rewrite Nat2Z.id, take_app, drop_app.
Qed.
Lemma get_number_spec k x b n : n = Z.of_nat k -> fits k x -> get_number n (le_bytes k x ++ b) = Some (x, b).
Proof. intros -> HF. unfold get_number. rewrite get_spec by (by rewrite le_bytes_length). by rewrite fits_from. Qed.
Lemma get_values_spec k l b : Forall (fits k) l -> get_values (length l) (Z.of_nat k) (concat (le_bytes k <$> l) ++ b) = Some l.
Proof.
  induction 1 as [|x l Hx Hl IH]; [done|]. cbn [length get_values fmap list_fmap concat]. rewrite <- app_assoc, get_number_spec by done.
  cbn [mbind option_bind]. change (list_fmap Z bytes (le_bytes k) l) with (le_bytes k <$> l). rewrite IH. done.
Qed.
Lemma values_len k (l : list Z) : zlen (concat (le_bytes k <$> l)) = Z.of_nat k * zlen l.
Proof. rewrite (concat_len (le_bytes k) k); [lia|]. apply Forall_forall. intros ? _. apply le_bytes_length. Qed.
Lemma get_section_spec n id content b : u32 id -> u64 (zlen content) ->
  get_sections (S n) (u32_le id ++ u64_le (zlen content) ++ content ++ b) =
  match get_sections n b with Some l => Some ((id, content) :: l) | None => None end.
Proof.
  intros Hi Hc. cbn [get_sections]. unfold u32_le, u64_le. rewrite (get_number_spec 4) by (try done; by apply fits_u32).
  cbn [mbind option_bind]. rewrite (get_number_spec 8) by (try done; by apply fits_u64). cbn [mbind option_bind].
  rewrite get_spec by done. cbn [mbind option_bind]. destruct (get_sections n b); done.
Qed.
Lemma read_header n8 p values data : u32 (Z.of_nat n8) -> fits n8 p -> u32 (zlen values) ->
  zlen (data : bytes) = Z.of_nat n8 * zlen values ->
  data = concat (le_bytes n8 <$> values) -> Forall (fits n8) values ->
  read_witness ([119; 116; 110; 115] ++ u32_le 2 ++ u32_le 2 ++
    (u32_le 1 ++ u64_le (8 + Z.of_nat n8) ++ (u32_le (Z.of_nat n8) ++ le_bytes n8 p ++ u32_le (zlen values)) ++
    u32_le 2 ++ u64_le (Z.of_nat n8 * zlen values) ++ data ++ [])) = Some (p, values).
Proof.
  intros Hn Hp Hv HL HD HF. unfold read_witness. rewrite get_spec by done. cbn [mbind option_bind]. rewrite bool_decide_true by done.
  unfold u32_le at 1. rewrite (get_number_spec 4) by (try done; by apply fits_u32). cbn [mbind option_bind].
  unfold u32_le at 1. rewrite (get_number_spec 4) by (try done; by apply fits_u32). cbn [mbind option_bind].
  change (Z.to_nat 2) with 2%nat.
  set (header := u32_le (Z.of_nat n8) ++ le_bytes n8 p ++ u32_le (zlen values)).
  assert (zlen header = 8 + Z.of_nat n8) as LH by (unfold header; rewrite !app_length, !u32_len, le_bytes_length; lia).
  rewrite <- LH, <- HL. unfold u32 in Hn, Hv.
  rewrite get_section_spec by (unfold u32, u64; nia).
  rewrite get_section_spec by (unfold u32, u64; nia). cbn [get_sections mbind option_bind].
  assert (section_of 1 [(1, header); (2, data)] = Some header) as -> by done.
  assert (section_of 2 [(1, header); (2, data)] = Some data) as -> by done.
  cbn [mbind option_bind]. unfold header.
  unfold u32_le at 1. rewrite (get_number_spec 4) by (try done; by apply fits_u32). cbn [mbind option_bind].
  rewrite (get_number_spec n8) by done. cbn [mbind option_bind].
  unfold u32_le. rewrite <- (app_nil_r (le_bytes 4 (zlen values))), (get_number_spec 4) by (try done; by apply fits_u32). cbn [mbind option_bind].
  rewrite Nat2Z.id, <- (app_nil_r data), HD, get_values_spec by done. done.
Qed.
Lemma read_write_witness n8 p values : u32 (Z.of_nat n8) -> fits n8 p -> u32 (zlen values) -> Forall (fits n8) values ->
  read_witness (write_witness n8 p values) = Some (p, values).
Proof.
  intros Hn Hp Hv HF. unfold write_witness. rewrite <- (read_header n8 p values _ Hn Hp Hv (values_len n8 values) eq_refl HF).
  f_equal. rewrite app_nil_r, <- !app_assoc. done.
Qed.
Lemma js_length_spec n : 0 <= n < 2 ^ 32 -> js_length n = u64_le n.
Proof.
  intros H. destruct (to_hex_spec n ltac:(lia)) as (E & D & L). unfold js_length.
  pose proof (L 8%nat ltac:(lia) ltac:(change (16 ^ Z.of_nat 8) with (2 ^ 32); lia)) as L8.
  rewrite take_ge, drop_ge by lia. unfold parse_hex32 at 1. fold (hex_value (to_hex n)). rewrite E, Z.mod_small by lia.
  change (parse_hex32 (take 8 [])) with 0. unfold u32_le, u64_le. apply from_bytes_inj.
  - apply Forall_app_2; apply le_bytes_byte.
  - apply le_bytes_byte.
  - rewrite app_length, !le_bytes_length. done.
  - rewrite from_bytes_app, !le_bytes_from, le_bytes_length.
    change (256 ^ Z.of_nat 4) with (2 ^ 32). change (256 ^ Z.of_nat 8) with (2 ^ 64).
    rewrite (Z.mod_small n (2 ^ 32)), (Z.mod_small n (2 ^ 64)) by lia. rewrite Z.mod_0_l by lia. lia.
Qed.
Lemma js_write_witness_spec n32 p values : Z.of_nat (n32 * 4) * zlen values < 2 ^ 32 -> Z.of_nat (n32 * 4) + 8 < 2 ^ 32 ->
  js_write_witness n32 p values = write_witness (n32 * 4) p values.
Proof. intros H1 H2. unfold js_write_witness, write_witness. rewrite !js_length_spec by lia. done. Qed.
