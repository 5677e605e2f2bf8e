(** Model of constant_tracking/src/lib.rs and circom_algebra/src/constraint_storage. *)
From stdpp Require Import prelude gmap fin_maps.
From Coq Require Import ZArith.
From Verif Require Import ModArithModel AlgebraModel BytesModel.
Open Scope Z_scope.

(** ** constant_tracking/src/lib.rs *)
Section Tracker.
Context {C : Type} `{Countable C}.
(** :5-11 *)
Record tracker : Type := Tracker { t_lookup : gmap C nat; t_constants : list C }.
(** :17-19 [new] *)
Definition tracker_new : tracker := Tracker ∅ [].
(** :21-23 [get_id] *)
Definition get_id (t : tracker) (c : C) : option nat := t_lookup t !! c.
(** :25-34 [insert] *)
Definition tracker_insert (t : tracker) (c : C) : nat * tracker :=
  match get_id t c with
  | Some id => (id, t)
  | None => (length (t_constants t), Tracker (<[c := length (t_constants t)]> (t_lookup t)) (t_constants t ++ [c]))
  end.
(** :36-42 [get_constant] *)
Definition get_constant (t : tracker) (id : nat) : option C :=
  if (id <? length (t_constants t))%nat then t_constants t !! id else None.
(** :44-46 [next_id] *)
Definition next_id (t : tracker) : nat := length (t_constants t).
End Tracker.
Arguments tracker _ {_ _}.

(** ** constraint_storage/logic.rs *)
(** mod.rs:8-14 *)
Notation compressed_expr := (list (nat * nat)).
Notation compressed := (compressed_expr * compressed_expr * compressed_expr)%type.
Notation field_tracker := (tracker (list Z)).
(** logic.rs:4-12 [code_expression]; [ord] lists the entries in hash order *)
Fixpoint code_entries (l : list (nat * Z)) (t : field_tracker) : compressed_expr * field_tracker :=
  match l with
  | [] => ([], t)
  | (var, coeff) :: l =>
      let '(coeff_id, t) := tracker_insert t (to_signed_bytes_le coeff) in
      let '(e, t) := code_entries l t in ((coeff_id, var) :: e, t)
  end.
Notation entry_order := (lin -> list (nat * Z)).
Definition code_expression (ord : entry_order) (m : lin) (t : field_tracker) : compressed_expr * field_tracker :=
  code_entries (ord m) t.
(** logic.rs:14-19 [code_constraint] *)
Definition code_constraint (ord : entry_order) (c : constraint) (t : field_tracker) : compressed * field_tracker :=
  let '(a, t) := code_expression ord (c_a c) t in
  let '(b, t) := code_expression ord (c_b c) t in
  let '(c, t) := code_expression ord (c_c c) t in ((a, b, c), t).
(** logic.rs:21-29 [decode_expr] *)
Fixpoint decode_entries (e : compressed_expr) (t : field_tracker) (m : lin) : res lin :=
  match e with
  | [] => Ok m
  | (coeff_id, var) :: e =>
      match get_constant t coeff_id with
      | None => Panic
      | Some raw => decode_entries e t (<[var := from_signed_bytes_le raw]> m)
      end
  end.
Definition decode_expr (e : compressed_expr) (t : field_tracker) : res lin := decode_entries e t ∅.
(** logic.rs:31-34 [decode_constraint] *)
Definition decode_constraint (c : compressed) (t : field_tracker) : res constraint :=
  let '(a, b, c) := c in
  res_bind (decode_expr a t) (fun a => res_bind (decode_expr b t) (fun b => res_map (Constraint a b) (decode_expr c t))).

(** ** constraint_storage/mod.rs *)
(** mod.rs:17-20 *)
Record storage : Type := Storage { st_tracker : field_tracker; st_constraints : list compressed }.
(** mod.rs:23-25 [new] *)
Definition storage_new : storage := Storage tracker_new [].
(** mod.rs:27-32 [add_constraint] *)
Definition add_constraint (ord : entry_order) (c : constraint) (st : storage) : nat * storage :=
  let '(z, t) := code_constraint ord c (st_tracker st) in
  (length (st_constraints st), Storage t (st_constraints st ++ [z])).
(** mod.rs:34-40 [read_constraint] *)
Definition read_constraint (st : storage) (id : nat) : option (res constraint) :=
  match st_constraints st !! id with
  | Some z => Some (decode_constraint z (st_tracker st))
  | None => None
  end.
(** mod.rs:42-46 [replace] *)
Definition storage_replace (ord : entry_order) (id : nat) (c : constraint) (st : storage) : storage :=
  if (id <? length (st_constraints st))%nat then
    let '(z, t) := code_constraint ord c (st_tracker st) in Storage t (<[id := z]> (st_constraints st))
  else st.
(** mod.rs:48-60 [extract_with] *)
Fixpoint extract_loop (f : constraint -> bool) (t : field_tracker) (old : list compressed) : res (list constraint * list compressed) :=
  match old with
  | [] => Ok ([], [])
  | z :: old =>
      res_bind (decode_constraint z t) (fun decoded =>
      res_map (fun '(removed, rest) => if f decoded then (decoded :: removed, rest) else (removed, z :: rest)) (extract_loop f t old))
  end.
Definition extract_with (f : constraint -> bool) (st : storage) : res (list constraint * storage) :=
  res_map (fun '(removed, rest) => (removed, Storage (st_tracker st) rest)) (extract_loop f (st_tracker st) (st_constraints st)).
(** mod.rs:62-64 [get_ids] *)
Definition get_ids (st : storage) : list nat := seq 0 (length (st_constraints st)).
