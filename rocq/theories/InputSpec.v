(** Specification of the input side of the witness calculators, independent of tables and probing. *)
From stdpp Require Import prelude list.
From Verif Require Import InputModel.
Open Scope Z_scope.

(** the bytes of a name, which Coq strings are made of *)
Definition bytes_of (s : String.string) : list Z := (fun a => Z.of_nat (Ascii.nat_of_ascii a)) <$> String.list_ascii_of_string s.

(** What the compiler gives for the main component: every input name with its hash, the identifier of its
    first signal and its number of signals.  The [count] input signals of main are [start .. start+count).
    A bus is listed under its own name and under the names of its fields, so that ranges may overlap. *)
Record valid_inputs (inputs : list entry) (start count : nat) : Prop := {
  vi_hashes : NoDup (e_hash <$> inputs);
  vi_unsigned : Forall (fun e => 0 <= e_hash e < 2 ^ 64) inputs;
  vi_start : (0 < start)%nat;
  vi_ranges : Forall (fun e => start <= e_signalid e /\ e_signalid e + e_size e <= start + count)%nat inputs }.
(** [(h, i)] names signal [p]: position [i] of the input whose hash is [h] *)
Definition denotes (inputs : list entry) (h : Z) (i p : nat) : Prop :=
  exists e, e ∈ inputs /\ e_hash e = h /\ (i < e_size e)%nat /\ p = (e_signalid e + i)%nat.
(** A history of assignments, each with the hash, the position and the value *)
Definition history (F : Type) : Type := list (Z * nat * F).
(** All assignments of a history are accepted, from [c] to [c'] *)
Inductive accepted {F} (set : Z -> nat -> F -> calc -> option calc) : calc -> history F -> calc (F := F) -> Prop :=
  | accepted_nil c : accepted set c [] c
  | accepted_snoc c ws c' h i v c'' : accepted set c ws c' -> set h i v c' = Some c'' -> accepted set c (ws ++ [(h, i, v)]) c''.
(** Some assignment of the history is to signal [p], and gives it [v] *)
Definition wrote {F} (inputs : list entry) (ws : history F) (p : nat) (v : F) : Prop :=
  exists h i, (h, i, v) ∈ ws /\ denotes inputs h i p.
Definition written {F} (inputs : list entry) (ws : history F) (p : nat) : Prop := exists v : F, wrote inputs ws p v.

(** ** JSON inputs *)
(** The assignments that the items of a qualified JSON input ask for, in their order *)
Definition writes_of {F} (items : list (Z * list F)) : history F :=
  concat ((fun it => imap (fun i v => (it.1, i, v)) it.2) <$> items).
(** Every item names an input, with as many values as the input has signals *)
Definition well_sized {F} (inputs : list entry) (items : list (Z * list F)) : Prop :=
  forall it, it ∈ items -> exists e, e ∈ inputs /\ e_hash e = it.1 /\ e_size e = length it.2.
(** The assignments are to the signals [ps], in this order *)
Definition targets {F} (inputs : list entry) (ws : history F) (ps : list nat) : Prop :=
  Forall2 (fun w p => denotes inputs w.1.1 w.1.2 p) ws ps.
