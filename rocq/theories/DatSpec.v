(** Specifications for the data file, the data segments and the witness file. *)
From stdpp Require Import prelude.
From Coq Require Import ZArith.
From Verif Require Import BytesModel FrModel FrSpec DatModel.
Open Scope Z_scope.

(** What the loader should find: the definition without its first length, and 0 for no bus. *)
Definition field_of (d : io_def) : io_field := IOField (d_offset d) (tail (d_lengths d)) (d_size d) (default 0 (d_bus d)).
Definition u32 (x : Z) : Prop := 0 <= x < 2 ^ 32.
Definition u64 (x : Z) : Prop := 0 <= x < 2 ^ 64.
Definition def_ok (d : io_def) : Prop :=
  u32 (d_offset d) /\ Forall u32 (d_lengths d) /\ u32 (Z.of_nat (length (d_lengths d))) /\ u32 (d_size d) /\ u32 (default 0 (d_bus d)).
Definition defs_ok (l : list io_def) : Prop := u32 (Z.of_nat (length l)) /\ Forall def_ok l.
(** The tables fit the file: numbers of 64 or 32 bits, and less than 4 GiB before the definitions. *)
Definition tables_ok (n8 : nat) (t : tables) : Prop :=
  Forall (fun '(h, s, z) => u64 h /\ u64 s /\ u64 z) (t_hash_map t) /\ Forall u64 (t_witness t) /\
  Forall (fun '(i, l) => u32 i /\ defs_ok l) (t_io_map t) /\ Forall defs_ok (t_fields t) /\
  u32 (24 * Z.of_nat (length (t_hash_map t)) + 8 * Z.of_nat (length (t_witness t)) +
       Z.of_nat (8 + n8) * Z.of_nat (length (t_constants t)) + 4 * Z.of_nat (length (t_io_map t))).
Definition sizes_of (t : tables) : sizes :=
  Sizes (length (t_hash_map t)) (length (t_witness t)) (length (t_constants t)) (length (t_io_map t)) (length (t_fields t)).

(** ** A reader of witness files, following the format: a magic number, a version, the number of sections, and
    for each section its number, its length in bytes and its bytes.  Section 1 has the number of bytes of a
    field element, the prime and the number of values, section 2 has the values. *)
Definition get (n : Z) (b : bytes) : option (bytes * bytes) :=
  if n <=? Z.of_nat (length b) then Some (take (Z.to_nat n) b, drop (Z.to_nat n) b) else None.
Definition get_number (n : Z) (b : bytes) : option (Z * bytes) :=
  match get n b with Some (x, b) => Some (from_bytes_le x, b) | None => None end.
Fixpoint get_sections (n : nat) (b : bytes) : option (list (Z * bytes)) :=
  match n with
  | O => Some []
  | S n => '(id, b) ← get_number 4 b; '(len, b) ← get_number 8 b; '(content, b) ← get len b;
           l ← get_sections n b; Some ((id, content) :: l)
  end.
Fixpoint get_values (n : nat) (size : Z) (b : bytes) : option (list Z) :=
  match n with
  | O => Some []
  | S n => '(x, b) ← get_number size b; l ← get_values n size b; Some (x :: l)
  end.
Definition section_of (id : Z) (l : list (Z * bytes)) : option bytes :=
  snd <$> head (filter (fun s => s.1 = id) l).
Definition read_witness (b : bytes) : option (Z * list Z) :=
  '(magic, b) ← get 4 b;
  if bool_decide (magic = [119; 116; 110; 115]) then
    '(version, b) ← get_number 4 b;
    '(sections, b) ← get_number 4 b;
    l ← get_sections (Z.to_nat sections) b;
    header ← section_of 1 l;
    data ← section_of 2 l;
    '(n8, header) ← get_number 4 header;
    '(prime, header) ← get_number n8 header;
    '(count, header) ← get_number 4 header;
    values ← get_values (Z.to_nat count) n8 data;
    Some (prime, values)
  else None.
