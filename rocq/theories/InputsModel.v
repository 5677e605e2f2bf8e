(** Model of the pass that decides which store of an input runs a subcomponent
    (compiler/src/ir_processing/build_inputs_info.rs), and of what the generated code does with its
    result (compiler/src/intermediate_representation/store_bucket.rs:660-735).

    Simplifications.  Of an instruction only what the pass looks at is kept: stores and calls whose
    destination is an input of a subcomponent ([NStore]), branches and loops; everything else is
    [NOther].  The keys of the table of the pass are strings in the code, "cmp_" with the index of
    a component, or the name of an anonymous component; the latter is a template name followed by
    "_", a line, "_" and a position (parser/src/syntax_sugar_remover.rs:453), so that the two kinds
    of keys are different, and are two kinds of keys here. *)
From stdpp Require Import prelude numbers list gmap.
From Verif Require Import IrModel.
Local Open Scope Z_scope.

(** [SubcmpSignal] (address_type.rs:36-46): a subcomponent whose index is a literal, with the name
    of its symbol; one whose index is computed; one that is anonymous. *)
Inductive target : Type :=
| Known (k name : nat)
| Dynamic (name : nat)
| Anon (name : nat).

(** [SizeOption] (compiler/src/intermediate_representation/ir_interface.rs): one size, or a size
    that depends on the subcomponent. *)
Inductive ssize : Type := Single (n : nat) | Multiple (f : nat -> nat).
Definition size_for (s : ssize) (k : nat) : nat := match s with Single n => n | Multiple f => f k end.

Inductive node : Type :=
| NStore (t : target) (size : ssize) (info : input_info)
| NBranch (l1 l2 : list node)
| NLoop (l : list node)
| NOther.

(** [LastInfoMap], from keys to ([needs_decrement], [found_last]), and [unknown_component_names]. *)
Record known : Type := Know { a_status : gmap (nat + nat) (bool * bool); a_unknown : gset nat }.

(** build_inputs_info.rs:147-269.  [level]: [assigments_level]. *)
Definition visit_address (in_loop : bool) (t : target) (st : known) (level : gset nat) :
  input_info * known * gset nat :=
  match t with
  | Anon name =>
      match a_status st !! inr name with
      | Some _ => (InputInfo NoLast false, st, level)
      | None => (InputInfo Last false, Know (<[inr name := (false, true)]> (a_status st)) (a_unknown st), level)
      end
  | Known k name =>
      match a_status st !! inl k with
      | Some (dec, found) =>
          if found : bool then (InputInfo NoLast dec, st, level)
          else if decide (k ∈ level) then (InputInfo NoLast true, st, level)
          else if in_loop then (InputInfo Unknown true, st, {[k]} ∪ level)
          else (InputInfo Unknown true, Know (<[inl k := (dec, true)]> (a_status st)) (a_unknown st), level)
      | None =>
          if decide (name ∈ a_unknown st) then
            if in_loop
            then (InputInfo Unknown true, Know (<[inl k := (true, false)]> (a_status st)) (a_unknown st), {[k]} ∪ level)
            else (InputInfo Unknown true, Know (<[inl k := (true, true)]> (a_status st)) (a_unknown st), level)
          else
            if in_loop
            then (InputInfo Unknown true, Know (<[inl k := (true, false)]> (a_status st)) (a_unknown st), {[k]} ∪ level)
            else (InputInfo Last false, Know (<[inl k := (false, true)]> (a_status st)) (a_unknown st), level)
      end
  | Dynamic name => (InputInfo Unknown true, Know (a_status st) ({[name]} ∪ a_unknown st), level)
  end.

(** build_inputs_info.rs:30-48: from the last instruction to the first. *)
Definition visit_list (f : node -> known * gset nat -> node * (known * gset nat)) :
  list node -> known * gset nat -> list node * (known * gset nat) :=
  fix go l st :=
    match l with
    | [] => ([], st)
    | i :: r => let '(r', st1) := go r st in let '(i', st2) := f i st1 in (i' :: r', st2)
    end.

(** build_inputs_info.rs:50-145.  The lists inside branches and loops are visited as inside a loop,
    with their own [assignments_level]; stores of size 0 are not visited. *)
Fixpoint visit_node (in_loop : bool) (i : node) (x : known * gset nat) : node * (known * gset nat) :=
  match i with
  | NStore t size info =>
      match size with
      | Single O => (i, x)
      | _ => let '(info', st, level) := visit_address in_loop t x.1 x.2 in (NStore t size info', (st, level))
      end
  | NBranch l1 l2 =>
      let '(l1', (st1, _)) := visit_list (visit_node true) l1 (x.1, ∅) in
      let '(l2', (st2, _)) := visit_list (visit_node true) l2 (st1, ∅) in
      (NBranch l1' l2', (st2, x.2))
  | NLoop l => let '(l', (st, _)) := visit_list (visit_node true) l (x.1, ∅) in (NLoop l', (st, x.2))
  | NOther => (NOther, x)
  end.

(** compiler/src/intermediate_representation/translate.rs:1963: the body of a template. *)
Definition build_inputs (l : list node) : list node :=
  (visit_list (visit_node false) l (Know ∅ ∅, ∅)).1.

(** store_bucket.rs:660-735: what a store of [n] elements does to the counter [c] of its subcomponent,
    and whether it runs it; [None]: an assertion of the sanity checks fails. *)
Definition fire (sanity : nat) (info : input_info) (n : nat) (c : Z) : option (Z * bool) :=
  let c' := c - Z.of_nat n in
  match i_status info with
  | NoLast =>
      if i_decrement info || bool_decide (2 <= sanity)%nat then
        if decide (2 <= sanity)%nat then (if decide (0 < c') then Some (c', false) else None) else Some (c', false)
      else Some (c, false)
  | Unknown => Some (c', bool_decide (c' = 0))
  | Last => if decide (2 <= sanity)%nat then (if decide (c' = 0) then Some (c', true) else None) else Some (c, true)
  end.
