(** What fits in the R1CS file format. *)
From stdpp Require Import prelude gmap fin_maps.
From Coq Require Import ZArith.
From Verif Require Import ModArithModel AlgebraModel BytesModel R1csModel.
Open Scope Z_scope.

(** [x] fits in [n] bytes *)
Definition fits (n : nat) (x : Z) : Prop := 0 <= x < 256 ^ Z.of_nat n.
(** a linear combination: at most 2^32-1 terms, 4-byte ids, coefficients in the field's width *)
Definition lin_fits (fs : nat) (m : lin) : Prop :=
  fits 4 (Z.of_nat (size m)) /\ forall k v, m !! k = Some v -> fits 4 (Z.of_nat k) /\ fits fs v.
Definition header_fits (fs : nat) (h : header_data) : Prop :=
  fits fs (h_field h) /\ fits 4 (h_total_wires h) /\ fits 4 (h_public_outputs h) /\ fits 4 (h_public_inputs h) /\
  fits 4 (h_private_inputs h) /\ fits 8 (h_number_of_labels h) /\ fits 4 (h_number_of_constraints h).
(** a gate name: bytes without a zero, valid UTF-8 *)
Definition name_ok (utf8 : bytes -> bool) (n : bytes) : Prop := Forall (fun d => 0 < d < 256) n /\ utf8 n = true.
Definition usage_fits (utf8 : bytes -> bool) (fs : nat) (g : bytes * list Z) : Prop :=
  name_ok utf8 g.1 /\ fits 4 (Z.of_nat (length g.2)) /\ Forall (fits fs) g.2.
Definition application_fits (g : Z * list Z) : Prop := fits 4 g.1 /\ fits 4 (Z.of_nat (length g.2)) /\ Forall (fits 8) g.2.
Record input_fits (utf8 : bytes -> bool) (fs : nat) (i : r1cs_input) : Prop := {
  if_size : (0 < fs)%nat /\ fits 4 (Z.of_nat fs);
  if_header : header_fits fs (i_header i);
  if_count : h_number_of_constraints (i_header i) = Z.of_nat (length (i_constraints i));
  if_wires : h_total_wires (i_header i) = Z.of_nat (length (i_signals i));
  if_constraints : Forall (fun '(a, b, c) => lin_fits fs a /\ lin_fits fs b /\ lin_fits fs c) (i_constraints i);
  if_signals : Forall (fits 8) (i_signals i);
  if_gates : forall used applied, i_gates i = Some (used, applied) ->
    (fits 4 (Z.of_nat (length used)) /\ Forall (usage_fits utf8 fs) used) /\
    (fits 4 (Z.of_nat (length applied)) /\ Forall application_fits applied) }.
(** every order of the keys lists the keys *)
Definition valid_keys (ord : key_order) : Prop := forall m : gmap (list Z) Z, ord m ≡ₚ (map_to_list m).*1.
(** the layout the format prescribes for a section: type, 8-byte size, contents *)
Definition section_bytes (t : Z) (c : bytes) : bytes := [t; 0; 0; 0] ++ le_bytes 8 (Z.of_nat (length c)) ++ c.
