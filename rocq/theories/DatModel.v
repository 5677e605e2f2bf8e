(** Model of the data file of the C++ witness calculator, of its loader, of the data segments of the
    WebAssembly calculator and of the witness file:
    code_producers/src/c_elements/c_code_generator.rs, code_producers/src/c_elements/common/main.cpp,
    code_producers/src/wasm_elements/wasm_code_generator.rs and
    code_producers/src/wasm_elements/common/witness_calculator.js.
    A byte is a [Z] in [0,256).  The calculators run on a little-endian machine, as the C++ code presumes. *)
From stdpp Require Import prelude gmap.
From Coq Require Import ZArith.
From Verif Require Import ModArithModel BytesModel FrModel.
Open Scope Z_scope.

(** components/mod.rs:4-10 [IODef] and 22-28 [FieldData], the parts that are written *)
Record io_def : Type := IODef { d_offset : Z; d_lengths : list Z; d_size : Z; d_bus : option Z }.
(** circom.hpp:22-28 [IOFieldDef] *)
Record io_field : Type := IOField { i_offset : Z; i_lengths : list Z; i_size : Z; i_bus : Z }.

(** [x.to_be_bytes()] reversed, for [u64] and for [u32]; [as u32] keeps the low bits *)
Definition u64_le (x : Z) : bytes := le_bytes 8 x.
Definition u32_le (x : Z) : bytes := le_bytes 4 x.

(** ** The writer *)
(** c_code_generator.rs:591-605 [generate_dat_from_hash_map] *)
Definition dat_hash_map (map : list (Z * Z * Z)) : bytes :=
  concat ((fun '(h, p, s) => u64_le h ++ u64_le p ++ u64_le s) <$> map).
(** c_code_generator.rs:607-616 [generate_dat_witness_to_signal_list] *)
Definition dat_witness_list (l : list Z) : bytes := concat (u64_le <$> l).
(** [v = to_bytes_be() reversed], then zeros up to [n] bytes; [None]: the subtraction [n - len] overflows *)
Definition pad (n : nat) (x : Z) : option bytes :=
  let v := to_bytes_le x in
  if (length v <=? n)%nat then Some (v ++ replicate (n - length v) 0) else None.
(** c_code_generator.rs:618-680 [generate_dat_constant_list]: one constant; [size_32] is [get_size_32_bit()] *)
Definition dat_constant (p : Z) (size_32 : nat) (c : Z) : option bytes :=
  let r := 2 ^ (((bits p + 63) / 64) * 64) in
  let n := Z.rem (Z.rem c p + p) p in
  let nn := if Z.quot p 2 <? n then n - p else n in
  let head :=
    if (- 2147483648 <=? nn) && (nn <=? 2147483647) then
      let nn := if nn <? 0 then 0x100000000 + nn else nn in
      match pad 4 nn with Some v => Some (v ++ u32_le 0x40000000) | None => None end
    else Some (replicate 4 0 ++ u32_le 0xC0000000) in
  match head, pad (size_32 * 4) (Z.rem (n * r) p) with
  | Some h, Some v => Some (h ++ v)
  | _, _ => None
  end.
Fixpoint dat_constants (p : Z) (size_32 : nat) (l : list Z) : option bytes :=
  match l with
  | [] => Some []
  | c :: l => match dat_constant p size_32 c, dat_constants p size_32 l with
              | Some a, Some b => Some (a ++ b)
              | _, _ => None
              end
  end.
(** c_code_generator.rs:695-735 and 752-790: one definition.  The first length is not written. *)
Definition dat_def (s : io_def) : bytes :=
  u32_le (d_offset s) ++
  u32_le (Z.of_nat (length (d_lengths s) - 1)) ++
  concat (u32_le <$> tail (d_lengths s)) ++
  u32_le (d_size s) ++
  u32_le (default 0 (d_bus s)).
Definition dat_defs (l : list io_def) : bytes := u32_le (Z.of_nat (length l)) ++ concat (dat_def <$> l).
(** c_code_generator.rs:682-738 [generate_dat_io_signals_info]; the map is a [BTreeMap], listed by increasing key *)
Definition dat_io_map (io_map : list (Z * list io_def)) : bytes :=
  concat (u32_le <$> io_map.*1) ++ concat (dat_defs <$> io_map.*2).
(** c_code_generator.rs:740-794 [generate_dat_bus_field_info] *)
Definition dat_field_map (fields : list (list io_def)) : bytes := concat (dat_defs <$> fields).
(** The tables of the producer that are written (the hash map: InputModel, [generate_hash_map]) *)
Record tables : Type := Tables {
  t_hash_map : list (Z * Z * Z); t_witness : list Z; t_constants : list Z; t_io_map : list (Z * list io_def);
  t_fields : list (list io_def) }.
(** c_code_generator.rs:817-850 [generate_dat_file], for all primes but goldilocks *)
Definition dat_file (p : Z) (size_32 : nat) (t : tables) : option bytes :=
  match dat_constants p size_32 (t_constants t) with
  | None => None
  | Some constants =>
      Some (dat_hash_map (t_hash_map t) ++ dat_witness_list (t_witness t) ++ constants ++ dat_io_map (t_io_map t) ++
            (if (0 <? length (t_io_map t))%nat then dat_field_map (t_fields t) else []))
  end.

(** ** The loader *)
Record circuit : Type := Circuit {
  c_hash_map : list (Z * Z * Z); c_witness : list Z; c_constants : list fr;
  c_io_map : list (Z * list io_field); c_fields : list (list io_field) }.
(** circom.hpp: the sizes compiled into the program, circuit.rs:350-368 *)
Record sizes : Type := Sizes { s_hash_map : nat; s_witness : nat; s_constants : nat; s_io_map : nat; s_fields : nat }.
Definition uint (x : Z) : Z := x mod 2 ^ 32.
(** [memcpy(dst, bdata + off, dsize)]; [None]: beyond the end of the mapping *)
Definition mem (b : bytes) (off dsize : Z) : option bytes :=
  if off + dsize <=? Z.of_nat (length b) then Some (take (Z.to_nat dsize) (drop (Z.to_nat off) b)) else None.
(** [n] objects of [size] bytes; [None]: too few bytes were copied, some objects stay uninitialised *)
Fixpoint objects {A} (decode : bytes -> A) (size : nat) (n : nat) (b : bytes) : option (list A) :=
  match n with
  | O => Some []
  | S n => if (length b <? size)%nat then None
           else match objects decode size n (drop size b) with
                | Some l => Some (decode (take size b) :: l)
                | None => None
                end
  end.
Definition decode_entry (b : bytes) : Z * Z * Z :=
  (from_bytes_le (take 8 b), from_bytes_le (take 8 (drop 8 b)), from_bytes_le (drop 16 b)).
(** fr.hpp: [struct { int32_t shortVal; uint32_t type; FrRawElement longVal }] and the values of [type] *)
Definition decode_type (x : Z) : ftype :=
  if x =? 0x40000000 then SHORTMONTGOMERY else if x =? 0x80000000 then LONG else if x =? 0xC0000000 then LONGMONTGOMERY else SHORT.
Definition decode_fr (b : bytes) : fr :=
  Fr (int32 (from_bytes_le (take 4 b))) (decode_type (from_bytes_le (take 4 (drop 4 b)))) (from_bytes_le (drop 8 b)).
(** main.cpp:71-86, 94-108: the definitions read with the pointer [pu32]; [None]: it leaves the array *)
Definition read_def (w : list Z) : option (io_field * list Z) :=
  match w with
  | offset :: len :: w =>
      let lengths := take (Z.to_nat len) w in
      match drop (Z.to_nat len) w with
      | size :: bus :: w => Some (IOField offset lengths size bus, w)
      | _ => None
      end
  | _ => None
  end.
Fixpoint read_n {A} (read : list Z -> option (A * list Z)) (n : nat) (w : list Z) : option (list A * list Z) :=
  match n with
  | O => Some ([], w)
  | S n => match read w with
           | Some (a, w) => match read_n read n w with Some (l, w) => Some (a :: l, w) | None => None end
           | None => None
           end
  end.
Definition read_defs (w : list Z) : option (list io_field * list Z) :=
  match w with
  | [] => None
  | n :: w => read_n read_def (Z.to_nat n) w
  end.
(** main.cpp:109: [calloc(10, ..)] whatever the number of fields; [None]: writes beyond the block *)
Definition read_bus (w : list Z) : option (list io_field * list Z) :=
  match read_defs w with
  | Some (defs, w) => if (length defs <=? 10)%nat then Some (defs, w) else None
  | None => None
  end.
(** main.cpp:22-123 [loadCircuit]; [n8] is [8 * Fr_N64].  [inisize] and [dsize] are [uint]. *)
Definition load_circuit (n8 : nat) (s : sizes) (b : bytes) : option circuit :=
  let dsize := uint (Z.of_nat (s_hash_map s) * 24) in
  match b' ← mem b 0 dsize; objects decode_entry 24 (s_hash_map s) b' with
  | None => None
  | Some hash_map =>
  let inisize := dsize in
  let dsize := uint (Z.of_nat (s_witness s) * 8) in
  match b' ← mem b inisize dsize; objects from_bytes_le 8 (s_witness s) b' with
  | None => None
  | Some witness =>
  let '(inisize, dsize) := if (0 <? s_constants s)%nat then (uint (inisize + dsize), uint (Z.of_nat (s_constants s) * Z.of_nat (8 + n8))) else (inisize, dsize) in
  match (if (0 <? s_constants s)%nat then b' ← mem b inisize dsize; objects decode_fr (8 + n8) (s_constants s) b' else Some []) with
  | None => None
  | Some constants =>
  if (0 <? s_io_map s)%nat then
    let inisize := uint (inisize + dsize) in
    let dsize := uint (Z.of_nat (s_io_map s) * 4) in
    match b' ← mem b inisize dsize; objects from_bytes_le 4 (s_io_map s) b' with
    | None => None
    | Some index =>
    let inisize := uint (inisize + dsize) in
    if negb (inisize mod 4 =? 0) || negb (Z.of_nat (length b) mod 4 =? 0) then None (* the assertions *)
    else
      let rest := Z.of_nat (length b) - inisize in
      match b' ← mem b inisize rest; objects from_bytes_le 4 (Z.to_nat (rest / 4)) b' with
      | None => None
      | Some words =>
      match read_n read_defs (s_io_map s) words with
      | None => None
      | Some (io, words) =>
      match read_n read_bus (s_fields s) words with
      | None => None
      | Some (fields, _) => Some (Circuit hash_map witness constants (zip index io) fields)
      end end end end
  else Some (Circuit hash_map witness constants [] [])
  end end end.

(** ** WebAssembly *)
(** digits of [num.to_str_radix(16)], most significant first; "0" for zero *)
Fixpoint hex_digits (fuel : nat) (x : Z) : list Z :=
  match fuel with
  | O => [x mod 16]
  | S f => if x <? 16 then [x] else hex_digits f (x / 16) ++ [x mod 16]
  end.
Definition to_hex (x : Z) : list Z := hex_digits (Z.to_nat (Z.log2 x)) x.
(** wasm_code_generator.rs:7-23 [wasm_hexa] for numbers that are not negative.  The text is the list of its
    characters; a digit is given by its value.  [None] is the failed assertion. *)
Inductive wchar : Type := Backslash | Hex (d : Z).
Definition wasm_hexa (nbytes : nat) (num : Z) : option (list wchar) :=
  let inbytes := to_hex num in
  if (length inbytes <=? 2 * nbytes)%nat then
    let temp := replicate (2 * nbytes - length inbytes) 0 ++ inbytes in
    Some (foldl (fun res i => Backslash :: (Hex <$> take 2 (drop (2 * i) temp)) ++ res) [] (seq 0 nbytes))
  else None.
(** wasm_code_generator.rs:457-519 [generate_data_constants]: one constant *)
Definition wasm_byte (d : Z) : list wchar := [Backslash; Hex (d / 16); Hex (d mod 16)].
Definition wasm_constant (p : Z) (size_32 : nat) (c : Z) : option (list wchar) :=
  let r := 2 ^ (((bits p + 63) / 64) * 64) in
  let n := Z.rem (Z.rem c p + p) p in
  let nn := if Z.quot p 2 <? n then n - p else n in
  let head :=
    if (- 2147483648 <=? nn) && (nn <=? 2147483647) then
      let nn := if nn <? 0 then 0x100000000 + nn else nn in
      match wasm_hexa 4 nn with Some v => Some (v ++ concat (wasm_byte <$> [0; 0; 0; 0x40])) | None => None end
    else Some (concat (wasm_byte <$> [0; 0; 0; 0; 0; 0; 0; 0xC0])) in
  match head, wasm_hexa (size_32 * 4) (Z.rem (n * r) p) with
  | Some h, Some v => Some (h ++ v)
  | _, _ => None
  end.
(** the WebAssembly text format: the byte string of a data segment written with [\hh] *)
Fixpoint wat_bytes (s : list wchar) : option bytes :=
  match s with
  | [] => Some []
  | Backslash :: Hex a :: Hex b :: s => match wat_bytes s with Some l => Some (16 * a + b :: l) | None => None end
  | _ => None
  end.

(** ** The witness file *)
(** main.cpp:285-331 [writeBinWitness]; [n8] is [8 * Fr_N64], the values are those of [Fr_toLongNormal] *)
Definition write_witness (n8 : nat) (p : Z) (values : list Z) : bytes :=
  [119; 116; 110; 115] ++ u32_le 2 ++ u32_le 2 ++
  u32_le 1 ++ u64_le (8 + Z.of_nat n8) ++ u32_le (Z.of_nat n8) ++ le_bytes n8 p ++ u32_le (Z.of_nat (length values)) ++
  u32_le 2 ++ u64_le (Z.of_nat n8 * Z.of_nat (length values)) ++ concat (le_bytes n8 <$> values).
(** [parseInt(s, 16)] stored in an [Uint32Array]; the empty string gives [NaN], stored as 0 *)
Definition parse_hex32 (digits : list Z) : Z := foldl (fun a d => 16 * a + d) 0 digits mod 2 ^ 32.
(** witness_calculator.js:234-238, 261-264: a section length *)
Definition js_length (n : Z) : bytes :=
  let hex := to_hex n in u32_le (parse_hex32 (take 8 hex)) ++ u32_le (parse_hex32 (take 8 (drop 8 hex))).
(** witness_calculator.js:212-276 [calculateWTNSBin]; [n32] is the number of 32-bit words, the values are read word by word *)
Definition js_write_witness (n32 : nat) (p : Z) (values : list Z) : bytes :=
  let n8 := (n32 * 4)%nat in
  [119; 116; 110; 115] ++ u32_le 2 ++ u32_le 2 ++
  u32_le 1 ++ js_length (8 + Z.of_nat n8) ++ u32_le (Z.of_nat n8) ++ le_bytes n8 p ++ u32_le (Z.of_nat (length values)) ++
  u32_le 2 ++ js_length (Z.of_nat n8 * Z.of_nat (length values)) ++ concat (le_bytes n8 <$> values).
