(** Model of constraint_writers/src/r1cs_writer.rs and r1cs_reader.rs: the binary R1CS file.
    Simplifications: operating-system failures while writing are not modelled (every write
    succeeds and, for [writer.write], is complete); names are byte strings, and whether such a
    string is UTF-8 is an oracle; allocation never fails. *)
From stdpp Require Import prelude gmap fin_maps sorting.
From Coq Require Import ZArith.
From Verif Require Import ModArithModel AlgebraModel BytesModel.
Open Scope Z_scope.

(** ** files *)
(** [BufWriter<File>]: contents and position *)
Record wfile : Type := WFile { w_data : bytes; w_pos : nat }.
(** [Write::write_all] *)
Definition write_all (b : bytes) (f : wfile) : wfile :=
  WFile (take (w_pos f) (w_data f) ++ b ++ drop (w_pos f + length b) (w_data f)) (w_pos f + length b).
(** [Seek::seek(SeekFrom::Start(p))] *)
Definition w_seek (p : nat) (f : wfile) : wfile := WFile (w_data f) p.

(** ** r1cs_writer.rs *)
(** r1cs_writer.rs:7-14 *)
Definition magic : bytes := [114; 49; 99; 115].
Definition version : bytes := [1; 0; 0; 0].
Definition header_type : bytes := [1; 0; 0; 0].
Definition constraint_type : bytes := [2; 0; 0; 0].
Definition wire2label_type : bytes := [3; 0; 0; 0].
Definition custom_gates_used_type : bytes := [4; 0; 0; 0].
Definition custom_gates_applied_type : bytes := [5; 0; 0; 0].
Definition place_holder : bytes := [3; 3; 3; 3; 3; 3; 3; 3].
(** r1cs_writer.rs:16-23 [into_format] (the second component is the length) *)
Definition into_format (number : bytes) (with_bytes : nat) : bytes := number ++ replicate (with_bytes - length number) 0.
(** r1cs_writer.rs:25-28 [bigint_as_bytes]: the sign is dropped *)
Definition bigint_as_bytes (number : Z) (with_bytes : nat) : bytes := into_format (to_bytes_le number) with_bytes.

(** the five section structs (r1cs_writer.rs:103-153): writer, [go_back], [size] *)
Record section : Type := WSection { s_file : wfile; s_go_back : nat; s_size : nat }.
(** r1cs_writer.rs:30-37 [initialize_section] and the [start_*_section] functions (:171-233) *)
Definition initialize_section (header : bytes) (f : wfile) : section :=
  let f := write_all header f in
  let go_back := w_pos f in
  WSection (write_all place_holder f) go_back 0.
(** r1cs_writer.rs:39-48 [end_section] *)
Definition end_section (s : section) : wfile :=
  let go_back_1 := w_pos (s_file s) in
  let f := w_seek (s_go_back s) (s_file s) in
  let f := write_all (bigint_as_bytes (Z.of_nat (s_size s)) 8) f in
  w_seek go_back_1 f.
(** the pattern [self.size += size; self.writer.write_all(&stream)] *)
Definition emit (b : bytes) (s : section) : section := WSection (write_all b (s_file s)) (s_go_back s) (s_size s + length b).

(** lexicographic order on byte strings: [Ord for Vec<u8>] *)
Fixpoint lex_le (a b : bytes) : bool :=
  match a, b with
  | [], _ => true
  | _ :: _, [] => false
  | x :: a, y :: b => if x <? y then true else if y <? x then false else lex_le a b
  end.
Definition lexle (a b : bytes) : Prop := lex_le a b = true.
Global Instance lexle_dec a b : Decision (lexle a b) := decide (lex_le a b = true).
(** r1cs_writer.rs:50-71 [obtain_linear_combination_block]; [ord] is the order of [keys()] *)
Notation key_order := (gmap (list Z) Z -> list (list Z)).
Definition linear_combination_block (ord : key_order) (m : gmap (list Z) Z) (field_size : nat) : bytes :=
  bigint_as_bytes (Z.of_nat (size m)) 4 ++
  concat ((fun id => into_format id 4 ++ bigint_as_bytes (default 0 (m !! id)) field_size) <$> merge_sort lexle (ord m)).
(** r1cs_writer.rs:271-286: the keys become byte strings (distinct keys, so the order is irrelevant) *)
Definition to_byte_keys (m : lin) : gmap (list Z) Z :=
  foldr (fun kv (r : gmap (list Z) Z) => <[to_bytes_le (Z.of_nat kv.1) := kv.2]> r) ∅ (map_to_list m).
(** r1cs_writer.rs:73-90,262-292 [write_constraint], [write_constraint_usize]; [size] is the sum of the block sizes *)
Definition write_constraint (ord : key_order) (field_size : nat) (c : lin * lin * lin) (s : section) : section :=
  let '(a, b, c) := c in
  emit (linear_combination_block ord (to_byte_keys c) field_size)
    (emit (linear_combination_block ord (to_byte_keys b) field_size)
      (emit (linear_combination_block ord (to_byte_keys a) field_size) s)).

(** r1cs_writer.rs:227-235 [HeaderData]; r1cs_reader.rs:115-124 adds [field_size] *)
Record header_data : Type := HeaderData {
  h_field : Z; h_total_wires : Z; h_public_outputs : Z; h_public_inputs : Z; h_private_inputs : Z;
  h_number_of_labels : Z; h_number_of_constraints : Z }.
(** r1cs_writer.rs:238-262 [HeaderSection::write_section] *)
Definition write_header (field_size : nat) (h : header_data) (s : section) : section :=
  let s := emit (bigint_as_bytes (Z.of_nat field_size) 4) s in
  let s := emit (bigint_as_bytes (h_field h) field_size) s in
  foldl (fun s '(d, w) => emit (bigint_as_bytes d w) s) s
    [(h_total_wires h, 4%nat); (h_public_outputs h, 4%nat); (h_public_inputs h, 4%nat); (h_private_inputs h, 4%nat);
     (h_number_of_labels h, 8%nat); (h_number_of_constraints h, 4%nat)].
(** r1cs_writer.rs:327-341 [write_signal_usize] *)
Definition write_signal (signal : Z) (s : section) : section := emit (into_format (to_bytes_le signal) 8) s.
(** r1cs_writer.rs:356-392 [write_custom_gates_usages] *)
Definition write_usage (field_size : nat) (g : bytes * list Z) (s : section) : section :=
  let '(name, params) := g in
  let s := emit [0] (emit name s) in
  let s := emit (bigint_as_bytes (Z.of_nat (length params)) 4) s in
  foldl (fun s p => emit (bigint_as_bytes p field_size) s) s params.
Definition write_usages (field_size : nat) (data : list (bytes * list Z)) (s : section) : section :=
  foldl (fun s g => write_usage field_size g s) (emit (bigint_as_bytes (Z.of_nat (length data)) 4) s) data.
(** r1cs_writer.rs:409-442 [write_custom_gates_applications] *)
Definition write_application (g : Z * list Z) (s : section) : section :=
  let '(index, signals) := g in
  let s := emit (bigint_as_bytes index 4) s in
  let s := emit (bigint_as_bytes (Z.of_nat (length signals)) 4) s in
  foldl (fun s x => emit (bigint_as_bytes x 8) s) s signals.
Definition write_applications (data : list (Z * list Z)) (s : section) : section :=
  foldl (fun s g => write_application g s) (emit (bigint_as_bytes (Z.of_nat (length data)) 4) s) data.
(** r1cs_writer.rs:92-100,155-169 [initialize_file], [R1CSWriter::new] *)
Definition new_writer (custom_gates : bool) : wfile :=
  write_all [if custom_gates then 5 else 3; 0; 0; 0] (write_all version (write_all magic (WFile [] 0))).

(** constraint_list/src/r1cs_porting.rs:6-10: bytes per field element *)
Definition port_field_size (field : Z) : nat :=
  Z.to_nat (if bits field mod 64 =? 0 then bits field / 8 else (bits field / 64 + 1) * 8).
(** What the caller hands over. *)
Record r1cs_input : Type := R1csInput {
  i_header : header_data;
  i_constraints : list (lin * lin * lin);
  i_signals : list Z;
  i_gates : option (list (bytes * list Z) * list (Z * list Z)) }.
(** constraint_list/src/r1cs_porting.rs:19-125: the order of the writer's calls *)
Definition write_r1cs (ord : key_order) (field_size : nat) (i : r1cs_input) : bytes :=
  let f := new_writer (match i_gates i with Some _ => true | None => false end) in
  let f := end_section (foldl (fun s c => write_constraint ord field_size c s) (initialize_section constraint_type f) (i_constraints i)) in
  let f := end_section (write_header field_size (i_header i) (initialize_section header_type f)) in
  let f := end_section (foldl (fun s x => write_signal x s) (initialize_section wire2label_type f) (i_signals i)) in
  match i_gates i with
  | None => w_data f
  | Some (used, applied) =>
      let f := end_section (write_usages field_size used (initialize_section custom_gates_used_type f)) in
      let f := end_section (write_applications applied (initialize_section custom_gates_applied_type f)) in
      w_data f
  end.

(** ** r1cs_reader.rs *)
(** the result of an operation: a value, an [io::Error], a panic *)
Inductive io (A : Type) : Type := IoOk (a : A) | IoErr | IoPanic.
Arguments IoOk {A}. Arguments IoErr {A}. Arguments IoPanic {A}.
(** [BufReader<File>]: contents and position *)
Definition reader (A : Type) : Type := bytes -> Z -> io (A * Z).
Definition rret {A} (x : A) : reader A := fun _ p => IoOk (x, p).
Definition rerr {A} : reader A := fun _ _ => IoErr.
Definition rpanic {A} : reader A := fun _ _ => IoPanic.
Definition rbind {A B} (m : reader A) (k : A -> reader B) : reader B := fun d p =>
  match m d p with IoOk (x, p) => k x d p | IoErr => IoErr | IoPanic => IoPanic end.
Notation "x <-- m ;; k" := (rbind m (fun x => k)) (at level 100, m at next level, right associativity).
(** [Read::read_exact] into a buffer of [n] bytes *)
Definition read_exact (n : Z) : reader bytes := fun d p =>
  if p + n <=? Z.of_nat (length d) then IoOk (take (Z.to_nat n) (drop (Z.to_nat p) d), p + n) else IoErr.
(** [Seek::seek(SeekFrom::Current(off))]: a position before the start is an error *)
Definition seek_current (off : Z) : reader Z := fun _ p => if p + off <? 0 then IoErr else IoOk (p + off, p + off).
Definition seek_start (q : Z) : reader unit := fun _ _ => IoOk (tt, q).
(** [BigInt::to_usize().unwrap()] *)
Definition to_usize (x : Z) : reader Z := if x <? 2 ^ 64 then rret x else rpanic.
(** r1cs_reader.rs:44-48 [read_bigint] *)
Definition read_bigint (n : Z) : reader Z := b <-- read_exact n ;; rret (from_bytes_le b).
Definition read_usize (n : Z) : reader Z := x <-- read_bigint n ;; to_usize x.
(** r1cs_reader.rs:50-59 [read_section] *)
Definition read_section (header : bytes) : reader Z :=
  b <-- read_exact (Z.of_nat (length header)) ;;
  if decide (b = header) then
    go_back <-- seek_current 0 ;; _ <-- seek_current (Z.of_nat (length place_holder)) ;; rret go_back
  else rerr.
(** r1cs_reader.rs:61-67 [end_section] *)
Definition read_end_section (go_back : Z) : reader Z :=
  go_back_1 <-- seek_current 0 ;; _ <-- seek_start go_back ;;
  size <-- read_usize 8 ;; _ <-- seek_start go_back_1 ;; rret size.
(** a [for _ in 0..n] loop pushing into a vector *)
Fixpoint read_times {A} (n : nat) (m : reader A) : reader (list A) :=
  match n with
  | O => rret []
  | S n => x <-- m ;; l <-- read_times n m ;; rret (x :: l)
  end.
(** r1cs_reader.rs:69-86 [read_linear_combination_block]: pairs inserted in a map in order *)
Definition read_linear_combination_block (field_size : Z) : reader (gmap (list Z) Z) :=
  n <-- read_usize 4 ;;
  l <-- read_times (Z.to_nat n) (id <-- read_exact 4 ;; factor <-- read_bigint field_size ;; rret (id, factor)) ;;
  rret (foldl (fun (m : gmap (list Z) Z) kv => <[kv.1 := kv.2]> m) ∅ l).
(** r1cs_reader.rs:255-276: byte keys back to numbers; 4-byte keys are distinct numbers, so the order is irrelevant *)
Definition from_byte_keys (m : gmap (list Z) Z) : lin :=
  foldr (fun kv (r : lin) => <[Z.to_nat (from_bytes_le kv.1) := kv.2]> r) ∅ (map_to_list m).
(** r1cs_reader.rs:88-100,252-279 [read_constraint], [read_constraint_usize] *)
Definition read_constraint (field_size : Z) : reader (lin * lin * lin) :=
  a <-- read_linear_combination_block field_size ;;
  b <-- read_linear_combination_block field_size ;;
  c <-- read_linear_combination_block field_size ;;
  rret (from_byte_keys a, from_byte_keys b, from_byte_keys c).
(** r1cs_reader.rs:219-241 [HeaderSection::read_section] *)
Definition read_header : reader (Z * header_data) :=
  field_size <-- read_usize 4 ;;
  field <-- read_bigint field_size ;;
  total_wires <-- read_usize 4 ;;
  public_outputs <-- read_usize 4 ;;
  public_inputs <-- read_usize 4 ;;
  private_inputs <-- read_usize 4 ;;
  number_of_labels <-- read_usize 8 ;;
  number_of_constraints <-- read_usize 4 ;;
  rret (field_size, HeaderData field total_wires public_outputs public_inputs private_inputs number_of_labels number_of_constraints).
Section Utf8.
(** [String::from_utf8(_).is_ok()] *)
Context (utf8 : bytes -> bool).
(** r1cs_reader.rs:333-341: bytes up to the zero; the fuel is the number of bytes left *)
Fixpoint read_name (fuel : nat) : reader bytes :=
  match fuel with
  | O => rerr
  | S f => b <-- read_exact 1 ;;
           match b with
           | [] => rerr
           | d :: _ => if d =? 0 then rret [] else l <-- read_name f ;; rret (d :: l)
           end
  end.
(** r1cs_reader.rs:326-355 [read_custom_gates_usages] *)
Definition read_usage (field_size : Z) : reader (bytes * list Z) :=
  name <-- (fun d p => read_name (S (length d)) d p) ;;
  if utf8 name then
    n <-- read_usize 4 ;; params <-- read_times (Z.to_nat n) (read_bigint field_size) ;; rret (name, params)
  else rpanic.
Definition read_usages (field_size : Z) : reader (list (bytes * list Z)) :=
  n <-- read_usize 4 ;; read_times (Z.to_nat n) (read_usage field_size).
(** r1cs_reader.rs:373-392 [read_custom_gates_applications] *)
Definition read_application : reader (Z * list Z) :=
  index <-- read_usize 4 ;; n <-- read_usize 4 ;; signals <-- read_times (Z.to_nat n) (read_usize 8) ;; rret (index, signals).
Definition read_applications : reader (list (Z * list Z)) :=
  n <-- read_usize 4 ;; read_times (Z.to_nat n) read_application.

(** r1cs_reader.rs:485-500 [read_initialization] *)
Definition read_initialization : reader bytes :=
  b <-- read_exact (Z.of_nat (length magic)) ;;
  if decide (b = magic) then
    b <-- read_exact (Z.of_nat (length version)) ;;
    if decide (b = version) then read_exact 4 else rerr
  else rerr.
(** [x as i64] for a [u64] *)
Definition as_i64 (x : Z) : Z := if x <? 2 ^ 63 then x else x - 2 ^ 64.
(** r1cs_reader.rs:461-479: the table of section starts *)
Fixpoint scan_sections (n : nat) (n_sections : Z) (current_offset : Z) (starts : gmap Z Z) : reader (gmap Z Z) :=
  match n with
  | O => rret starts
  | S n =>
      new_offset <-- seek_current current_offset ;;
      b <-- read_exact 4 ;;
      section_size <-- read_usize 8 ;;
      match b with
      | [] => rpanic
      | section_type :: _ =>
          if (1 <=? section_type) && (section_type <=? n_sections) then
            scan_sections n n_sections (as_i64 section_size) (<[section_type := new_offset]> starts)
          else rerr
      end
  end.
(** the pattern of r1cs_reader.rs:502-563: look a section up, read it, check its end *)
Definition in_section {A} (starts : gmap Z Z) (index : Z) (header : bytes) (body : reader A) : reader A :=
  match starts !! index with
  | None => rerr
  | Some start =>
      _ <-- seek_start start ;; go_back <-- read_section header ;;
      x <-- body ;; _ <-- read_end_section go_back ;; rret x
  end.
(** r1cs_reader.rs:418-427 [R1CSData] *)
Record r1cs_data : Type := R1csData {
  d_field_size : Z; d_header : header_data; d_constraints : list (lin * lin * lin); d_signals : list Z;
  d_used : option (list (bytes * list Z)); d_applied : option (list (Z * list Z)) }.
(** r1cs_reader.rs:453-483,502-564 [read_r1cs], [read_sections] *)
Definition read_r1cs : reader r1cs_data :=
  b <-- read_initialization ;;
  match b with
  | [] => rpanic
  | n_sections :: _ =>
      starts <-- scan_sections (Z.to_nat n_sections) n_sections 0 ∅ ;;
      h <-- in_section starts 1 header_type read_header ;;
      let '(field_size, h) := h in
      cs <-- in_section starts 2 constraint_type (read_times (Z.to_nat (h_number_of_constraints h)) (read_constraint field_size)) ;;
      ss <-- in_section starts 3 wire2label_type (read_times (Z.to_nat (h_total_wires h)) (read_usize 8)) ;;
      if n_sections =? 5 then
        us <-- in_section starts 4 custom_gates_used_type (read_usages field_size) ;;
        ap <-- in_section starts 5 custom_gates_applied_type read_applications ;;
        rret (R1csData field_size h cs ss (Some us) (Some ap))
      else rret (R1csData field_size h cs ss None None)
  end.
(** reading a whole file *)
Definition parse_r1cs (d : bytes) : io r1cs_data :=
  match read_r1cs d 0 with IoOk (x, _) => IoOk x | IoErr => IoErr | IoPanic => IoPanic end.
End Utf8.
