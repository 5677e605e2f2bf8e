(** C26, C49: the R1CS file. *)
From stdpp Require Import prelude gmap fin_maps sorting.
From Coq Require Import ZArith Lia.
From Verif Require Import ModArithModel AlgebraModel BytesModel StorageProofs R1csModel R1csSpec R1csProofs.
Open Scope Z_scope.
Ltac decide_now := match goal with |- ?P => apply (bool_decide_unpack P); vm_compute; exact I end.

(** ** C26 *)
(** Reading back what was written gives the same header, constraints, wire-to-label map and custom
    gates, whatever the hash order. *)
Theorem C26_reading_back_gives_the_same_system : forall ord utf8 fs i,
  valid_keys ord -> input_fits utf8 fs i -> Z.of_nat (length (write_r1cs ord fs i)) < 2 ^ 63 ->
  parse_r1cs utf8 (write_r1cs ord fs i) =
  IoOk (R1csData (Z.of_nat fs) (i_header i) (i_constraints i) (i_signals i) (fst <$> i_gates i) (snd <$> i_gates i)).
Proof.
  intros ord utf8 fs i Ho Hi HL. destruct (write_r1cs_spec ord fs i ltac:(lia)) as [E HF]. rewrite E. apply read_file; [assumption|assumption|].
  eapply Forall_impl; [exact HF|]. intros tc Htc. cbn in *. lia.
Qed.
Print Assumptions C26_reading_back_gives_the_same_system.
(** Every section is laid out as type, 8-byte length of its contents, contents: for any input, also
    one whose numbers are too wide. *)
Theorem C26_section_sizes_are_content_lengths : forall ord fs i,
  Z.of_nat (length (write_r1cs ord fs i)) < 2 ^ 64 ->
  exists cs h ss,
    match i_gates i with
    | None => write_r1cs ord fs i = [114; 49; 99; 115; 1; 0; 0; 0; 3; 0; 0; 0] ++ section_bytes 2 cs ++ section_bytes 1 h ++ section_bytes 3 ss
    | Some _ => exists us ap, write_r1cs ord fs i = [114; 49; 99; 115; 1; 0; 0; 0; 5; 0; 0; 0] ++
        section_bytes 2 cs ++ section_bytes 1 h ++ section_bytes 3 ss ++ section_bytes 4 us ++ section_bytes 5 ap
    end.
Proof.
  intros ord fs i HL. destruct (write_r1cs_spec ord fs i HL) as [E _]. rewrite E. unfold file_bytes, file_sections, base_sections. eexists _, _, _.
  destruct (i_gates i) as [[us ap]|].
  - eexists _, _. cbn [app fmap list_fmap concat]. rewrite app_nil_r. reflexivity.
  - cbn [app fmap list_fmap concat]. rewrite app_nil_r. reflexivity.
Qed.
Print Assumptions C26_section_sizes_are_content_lengths.
(** The bytes do not depend on the hash order. *)
Theorem C26_bytes_do_not_depend_on_hash_order : forall ord ord' fs i,
  valid_keys ord -> valid_keys ord' -> write_r1cs ord fs i = write_r1cs ord' fs i.
Proof. exact write_order. Qed.
Print Assumptions C26_bytes_do_not_depend_on_hash_order.
(** The width chosen for a field holds the prime and every reduced coefficient, with less than
    eight spare bytes. *)
Theorem C26_field_width_is_enough : forall p, 1 < p ->
  (0 < port_field_size p)%nat /\ Z.of_nat (port_field_size p) <= bits p / 8 + 8 /\ forall x, 0 <= x <= p -> fits (port_field_size p) x.
Proof. exact port_field_size_fits. Qed.
Print Assumptions C26_field_width_is_enough.

Definition ex_gates : list (bytes * list Z) * list (Z * list Z) := ([([65; 66], [3; 300]); ([67], [])], [(0, [1; 2]); (1, [2 ^ 40])]).
Definition ex_input (g : option (list (bytes * list Z) * list (Z * list Z))) : r1cs_input :=
  R1csInput (HeaderData 65537 3 1 1 0 7 2) [({[1%nat := 65536; 256%nat := 5]}, {[2%nat := 1]}, ∅); (∅, ∅, {[0%nat := 1; 1%nat := 2]})] [0; 1; 5] g.
Definition all_utf8 (_ : bytes) : bool := true.
Definition lin_fits_b (fs : nat) (m : lin) : bool :=
  (Z.of_nat (size m) <? 256 ^ 4) && forallb (fun '(k, v) => (Z.of_nat k <? 256 ^ 4) && (0 <=? v) && (v <? 256 ^ Z.of_nat fs)) (map_to_list m).
Lemma lin_fits_b_ok fs m : lin_fits_b fs m = true -> lin_fits fs m.
Proof.
  unfold lin_fits_b. rewrite andb_true_iff, Z.ltb_lt, forallb_forall. intros [H1 H2]. split; [unfold fits; change (Z.of_nat 4) with 4; lia|].
  intros k v Hkv. apply elem_of_map_to_list, elem_of_list_In in Hkv. specialize (H2 _ Hkv). cbv beta iota in H2. rewrite !andb_true_iff, !Z.ltb_lt, Z.leb_le in H2.
  unfold fits. change (Z.of_nat 4) with 4. lia.
Qed.
Example C26_example_fits : input_fits all_utf8 8 (ex_input (Some ex_gates)) /\ valid_keys (fun m => (map_to_list m).*1) /\
  Z.of_nat (length (write_r1cs (fun m => (map_to_list m).*1) 8 (ex_input (Some ex_gates)))) = 297.
Proof.
  split; [|split; [intros m; reflexivity|vm_compute; reflexivity]]. split.
  - split; [lia|]. unfold fits. cbn. lia.
  - repeat split; cbn; lia.
  - reflexivity.
  - reflexivity.
  - repeat (apply Forall_cons_2; [split_and!; apply lin_fits_b_ok; vm_compute; reflexivity|]). apply Forall_nil_2.
  - repeat (apply Forall_cons_2; [unfold fits; cbn; lia|]). apply Forall_nil_2.
  - intros used applied [= <- <-]. split; split; try (unfold fits; cbn; lia).
    + repeat apply Forall_cons_2; try apply Forall_nil_2; (split; [split; [|reflexivity]|split; [unfold fits; cbn; lia|]]);
        repeat apply Forall_cons_2; try apply Forall_nil_2; unfold fits; cbn; lia.
    + repeat apply Forall_cons_2; try apply Forall_nil_2; (split; [unfold fits; cbn; lia|split; [unfold fits; cbn; lia|]]);
        repeat apply Forall_cons_2; try apply Forall_nil_2; unfold fits; cbn; lia.
Qed.
Example C26_example_run : parse_r1cs all_utf8 (write_r1cs (fun m => (map_to_list m).*1) 8 (ex_input (Some ex_gates))) =
  IoOk (R1csData 8 (i_header (ex_input None)) (i_constraints (ex_input None)) [0; 1; 5] (Some ex_gates.1) (Some ex_gates.2)).
Proof. destruct C26_example_fits as (H1 & H2 & H3). apply (C26_reading_back_gives_the_same_system _ all_utf8 8); [assumption|assumption|]. rewrite H3. lia. Qed.

(** What goes wrong outside the guards: the sign of a coefficient is dropped; an id of 2^32 takes
    five bytes and shifts everything behind it; the terms of a linear combination come in the order
    of their little-endian bytes, not in numerical order. *)
Theorem C26_negative_coefficient_loses_its_sign_refuted :
  exists ord fs i r, valid_keys ord /\ parse_r1cs all_utf8 (write_r1cs ord fs i) = IoOk r /\ d_constraints r <> i_constraints i /\
    i_constraints i = [({[1%nat := -1]}, ∅, ∅)] /\ d_constraints r = [({[1%nat := 1]}, ∅, ∅)].
Proof.
  exists (fun m => (map_to_list m).*1), 8%nat, (R1csInput (HeaderData 65537 0 0 0 0 0 1) [({[1%nat := -1]}, ∅, ∅)] [] None). eexists.
  split; [intros m; reflexivity|]. split; [vm_compute; reflexivity|]. split; [|split; [reflexivity|decide_now]]. decide_now.
Qed.
Print Assumptions C26_negative_coefficient_loses_its_sign_refuted.
Theorem C26_terms_not_in_numerical_order_refuted :
  exists m : lin, size m = 2%nat /\ forall ord, valid_keys ord ->
    linear_combination_block ord (to_byte_keys m) 1 = [2; 0; 0; 0] ++ ([0; 1; 0; 0] ++ [7]) ++ ([1; 0; 0; 0] ++ [9]).
Proof.
  exists {[256%nat := 7; 1%nat := 9]}. split; [vm_compute; reflexivity|]. intros ord Ho. rewrite (block_order ord (fun m => (map_to_list m).*1)); [vm_compute; reflexivity|assumption|].
  intros m. reflexivity.
Qed.
Print Assumptions C26_terms_not_in_numerical_order_refuted.
Theorem C26_wide_label_breaks_the_section_refuted :
  exists ord fs i r, valid_keys ord /\ i_signals i = [2 ^ 64; 5] /\ parse_r1cs all_utf8 (write_r1cs ord fs i) = IoOk r /\ d_signals r = [0; 1281].
Proof.
  exists (fun m => (map_to_list m).*1), 8%nat, (R1csInput (HeaderData 65537 2 0 0 0 0 0) [] [2 ^ 64; 5] None). eexists.
  split; [intros m; reflexivity|]. split; [reflexivity|]. split; [vm_compute; reflexivity|]. reflexivity.
Qed.
Print Assumptions C26_wide_label_breaks_the_section_refuted.

(** ** C49 *)
(** Reading any file at all ends with a system or an error, never with a crash, provided the gate
    names it contains are valid UTF-8; and what is read has as many constraints and labels as the
    header announces. *)
Theorem C49_reading_any_bytes_never_crashes : forall utf8 d,
  Forall (fun x => 0 <= x < 256) d -> (forall n, utf8 n = true) ->
  match parse_r1cs utf8 d with
  | IoOk r => length (d_constraints r) = Z.to_nat (h_number_of_constraints (d_header r)) /\ length (d_signals r) = Z.to_nat (h_total_wires (d_header r))
  | IoErr => True
  | IoPanic => False
  end.
Proof.
  intros utf8 d Hd Hu. unfold parse_r1cs. pose proof (safe_r1cs utf8 Hu d 0 Hd ltac:(lia)) as H. destruct (read_r1cs utf8 d 0) as [[r q]| |]; [apply H|exact I|exact H].
Qed.
Print Assumptions C49_reading_any_bytes_never_crashes.
(** With a name that is not UTF-8 the reader panics. *)
Theorem C49_bad_gate_name_crashes_refuted : exists d, Forall (fun x => 0 <= x < 256) d /\
  parse_r1cs (fun n => bool_decide (Forall (fun x => x < 128) n)) d = IoPanic.
Proof.
  exists (write_r1cs (fun m => (map_to_list m).*1) 8 (ex_input (Some ([([200], [])], [])))). split; [|vm_compute; reflexivity].
  match goal with |- Forall _ ?l => let l' := eval vm_compute in l in change (Forall (fun x => 0 <= x < 256) l') end.
  repeat (apply Forall_cons_2; [lia|]). apply Forall_nil_2.
Qed.
Print Assumptions C49_bad_gate_name_crashes_refuted.
Example C49_example : parse_r1cs all_utf8 [114; 49; 99; 115; 1; 0; 0; 0; 1; 0; 0; 0; 1; 0; 0; 0; 255; 255; 255; 255; 255; 255; 255; 255; 7] = IoErr.
Proof. vm_compute. reflexivity. Qed.
