(** Model of the input side of the generated witness calculators: the hash of input names, the hash table
    written by the compiler, its lookups in C++ and WebAssembly, and the protocol of input assignments.
    Field elements are opaque. *)
From stdpp Require Import prelude list.
Open Scope Z_scope.

(** ** The hash of a name, on its bytes *)
Definition word64 : Z := 2 ^ 64.
(** code_producers/src/components/mod.rs:50-55 [hasher] with the crate lz_fnv: FNV-1a on the bytes *)
Definition hasher (name : list Z) : Z :=
  foldl (fun hash b => (Z.lxor hash b * 1099511628211) mod word64) 14695981039346656037 name.
(** [u64(c)] for a [char], which is signed on the supported platforms *)
Definition sign_extend (b : Z) : Z := if b <? 128 then b else word64 - 256 + b.
(** code_producers/src/c_elements/common/calcwit.cpp:17-24 [fnv1a] *)
Definition fnv1a_cpp (name : list Z) : Z :=
  foldl (fun hash b => (Z.lxor hash (sign_extend b) * 1099511628211) mod word64) 14695981039346656037 name.
(** code_producers/src/wasm_elements/common/witness_calculator.js:360-372 [fnvHash], on UTF-16 code units;
    the split in two 32-bit halves and back (witness_calculator.js:136-138 and the start of
    [setInputSignal]) is the identity on 64 bits *)
Definition fnvHash_js (name : list Z) : Z :=
  foldl (fun hash c => (Z.lxor hash c * 1099511628211) mod word64) 14695981039346656037 name.

(** ** The table *)
(** c_elements/common/circom.hpp [HashSignalInfo]; also the [InputInfo] of the compiler with its hash *)
Record entry : Type := Entry { e_hash : Z; e_signalid : nat; e_size : nat }.
Definition no_entry : entry := Entry 0 0 0.
Definition start_slot (n : nat) (h : Z) : nat := Z.to_nat (h mod Z.of_nat n).
(** c_code_generator.rs:581-583: the first free slot from [p]; [None] when there is none *)
Fixpoint free_slot (fuel : nat) (table : list entry) (p : nat) : option nat :=
  match fuel with
  | O => None
  | S fuel =>
      match table !! p with
      | None => None
      | Some e => if (e_signalid e =? 0)%nat then Some p else free_slot fuel table ((p + 1) mod length table)%nat
      end
  end.
Fixpoint insert_all (table : list entry) (inputs : list entry) : option (list entry) :=
  match inputs with
  | [] => Some table
  | e :: inputs =>
      match free_slot (length table) table (start_slot (length table) (e_hash e)) with
      | Some p => insert_all (<[p := e]> table) inputs
      | None => None
      end
  end.
(** c_code_generator.rs:575-587 [generate_hash_map]; [None] is the failed assertion or an endless search *)
Definition generate_hash_map (inputs : list entry) (size : nat) : option (list entry) :=
  if (length inputs <=? size)%nat then insert_all (replicate size no_entry) inputs else None.

(** ** Lookups *)
(** calcwit.cpp:53-67: the loop after the first slot *)
Fixpoint cpp_probe (fuel : nat) (table : list entry) (h : Z) (inipos pos : nat) : option nat :=
  match fuel with
  | O => None
  | S fuel =>
      if (pos =? inipos)%nat then None
      else match table !! pos with
           | None => None
           | Some e =>
               if e_hash e =? h then Some pos
               else if (e_signalid e =? 0)%nat then None
               else cpp_probe fuel table h inipos ((pos + 1) mod length table)%nat
           end
  end.
(** calcwit.cpp:50-69 [getInputSignalHashPosition]; [None] is the failed assertion *)
Definition cpp_lookup (table : list entry) (h : Z) : option nat :=
  let pos := start_slot (length table) h in
  match table !! pos with
  | None => None
  | Some e => if e_hash e =? h then Some pos else cpp_probe (S (length table)) table h pos ((pos + 1) mod length table)%nat
  end.
(** wasm_code_generator.rs:1002-1060 [getInputSignalMapPosition]: the slot is found by masking; [None] is
    the returned address 0 *)
Fixpoint wasm_probe (fuel : nat) (table : list entry) (h : Z) (ini i : nat) : option nat :=
  match fuel with
  | O => None
  | S fuel =>
      match table !! i with
      | None => None
      | Some e =>
          if e_hash e =? h then Some i
          else if e_hash e =? 0 then None
          else let i := Z.to_nat (Z.land ((Z.of_nat i + 1) mod 2 ^ 32) (Z.of_nat (length table) - 1)) in
               if (i =? ini)%nat then None else wasm_probe fuel table h ini i
      end
  end.
Definition wasm_lookup (table : list entry) (h : Z) : option nat :=
  let ini := Z.to_nat (Z.land (h mod 2 ^ 32) (Z.of_nat (length table) - 1)) in
  wasm_probe (S (length table)) table h ini ini.

(** ** Assignments *)
Section protocol.
Context {F : Type}.
Variable table : list entry.
(** circuit.rs:332-342 [get_main_input_signal_start], [get_main_input_signal_no] *)
Variable main_start : nat.
Variable main_inputs : nat.
(** calcwit.hpp: the part of [Circom_CalcWit] that the assignments use; [runs] lists the signal values at
    the calls of [run].  What the circuit itself writes is not modelled. *)
Record calc : Type := Calc { counter : nat; assigned : list bool; signals : list F; runs : list (list F) }.
Inductive outcome (A : Type) : Type := Done (a : A) | Failed.
(** calcwit.cpp:26-48 the constructor; [signals] are the initial values *)
Definition calc_new (signals : list F) : calc := Calc main_inputs (replicate main_inputs false) signals [].
(** calcwit.cpp:71-75 [tryRunCircuit] *)
Definition try_run (c : calc) : calc :=
  if (counter c =? 0)%nat then Calc (counter c) (assigned c) (signals c) (runs c ++ [signals c]) else c.
(** calcwit.cpp:77-98 [setInputSignal]; [None] is a failed assertion *)
Definition set_input_signal (h : Z) (i : nat) (val : F) (c : calc) : option calc :=
  if (counter c =? 0)%nat then None
  else match cpp_lookup table h with
       | None => None
       | Some pos =>
           match table !! pos with
           | None => None
           | Some e =>
               if (e_size e <=? i)%nat then None
               else let si := (e_signalid e + i)%nat in
                    match assigned c !! (si - main_start)%nat with
                    | Some false =>
                        Some (try_run (Calc (counter c - 1) (<[(si - main_start)%nat := true]> (assigned c)) (<[si := val]> (signals c)) (runs c)))
                    | _ => None
                    end
           end
       end.
(** calcwit.cpp:100-103 [getInputSignalSize] *)
Definition get_input_signal_size (h : Z) : option nat :=
  match cpp_lookup table h with Some pos => e_size <$> table !! pos | None => None end.
(** main.cpp:283-290: all values of one item *)
Fixpoint set_values (h : Z) (i : nat) (vals : list F) (c : calc) : option calc :=
  match vals with
  | [] => Some c
  | v :: vals => match set_input_signal h i v c with Some c => set_values h (S i) vals c | None => None end
  end.
(** main.cpp:265-292: one item of the qualified JSON input *)
Definition load_item (item : Z * list F) (c : calc) : option calc :=
  match get_input_signal_size item.1 with
  | Some n => if (length item.2 =? n)%nat then set_values item.1 0 item.2 c else None
  | None => None
  end.
Fixpoint load_items (items : list (Z * list F)) (c : calc) : option calc :=
  match items with [] => Some c | it :: items => match load_item it c with Some c => load_items items c | None => None end end.
(** main.cpp:246-293 [loadJson] *)
Definition load_json (items : list (Z * list F)) (c : calc) : option calc :=
  load_items items (match items with [] => try_run c | _ => c end).
(** main.cpp:338-375 [main]: the state from which the witness is written *)
Definition main_run (items : list (Z * list F)) (initial : list F) : option calc :=
  match load_json items (calc_new initial) with
  | Some c => if (counter c =? 0)%nat then Some c else None
  | None => None
  end.

(** wasm_code_generator.rs:1078-1168 [setInputSignal] in WebAssembly.  The map read by
    [checkIfInputSignalSet] (wasm_code_generator.rs:1063-1076) is cleared by [init] and never written, so
    that the test is [false].  [None] is a call of the exception handler. *)
Definition wasm_set_input_signal (h : Z) (i : nat) (val : F) (c : calc) : option calc :=
  if (counter c =? 0)%nat then None
  else match wasm_lookup table h with
       | None => None
       | Some pos =>
           match table !! pos with
           | None => None
           | Some e =>
               if (e_size e <=? i)%nat then None
               else let si := (e_signalid e + i)%nat in
                    match assigned c !! (si - main_start)%nat with
                    | Some false => Some (try_run (Calc (counter c - 1) (assigned c) (<[si := val]> (signals c)) (runs c)))
                    | _ => None
                    end
           end
       end.
End protocol.
