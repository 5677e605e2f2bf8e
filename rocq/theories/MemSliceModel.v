(** Model of program_structure/src/utils/memory_slice.rs.
    - [usize] is [nat]; products that overflow 64 bits are not modelled.
    - References into the slice are modelled by the cells they point to.
    - [Result] with the possibility of a panic is [mres]. *)
From stdpp Require Import prelude.
Open Scope nat_scope.

(** memory_slice.rs:23-40 [MemoryError], the three errors of this file *)
Inductive mem_error : Type := OutOfBoundsError | MismatchedDimensions (a b : nat) | MismatchedDimensionsWeak (a b : nat).
Inductive mres (A : Type) : Type := MOk (a : A) | MErr (e : mem_error) | MPanic.
Arguments MOk {A} _. Arguments MErr {A} _. Arguments MPanic {A}.
Definition mr_bind {A B} (r : mres A) (f : A -> mres B) : mres B :=
  match r with MOk a => f a | MErr e => MErr e | MPanic => MPanic end.
(** [v[i]] *)
Definition mindex {A} (l : list A) (i : nat) : mres A := match l !! i with Some x => MOk x | None => MPanic end.

Section slice.
Context {C : Type}.
(** memory_slice.rs:48-51 [MemorySlice] *)
Record slice : Type := Slice { route : list nat; values : list C }.

(** memory_slice.rs:98-105: the loop; [route[i]] past the end panics *)
Fixpoint initial_cell_loop (route access : list nat) (cell cell_jump : nat) : mres nat :=
  match access, route with
  | [], _ => MOk cell
  | a :: access, r :: route => if r <=? a then MErr OutOfBoundsError else
      let cell_jump := cell_jump / r in initial_cell_loop route access (cell + cell_jump * a) cell_jump
  | _ :: _, [] => MPanic
  end.
(** memory_slice.rs:87-107 [get_initial_cell] *)
Definition get_initial_cell (s : slice) (access : list nat) : mres nat :=
  if length (route s) <? length access then MErr OutOfBoundsError
  else initial_cell_loop (route s) access 0 (length (values s)).

(** memory_slice.rs:120-125: the loop over the access *)
Fixpoint check_access_loop (route access : list nat) : mres unit :=
  match access, route with
  | [], _ => MOk tt
  | a :: access, r :: route => if r <=? a then MErr OutOfBoundsError else check_access_loop route access
  | _ :: _, [] => MPanic
  end.
(** memory_slice.rs:130-163: the loop over the dimensions of the new values *)
Fixpoint check_dims_loop (new_route route : list nat) (is_strict : bool) : mres unit :=
  match new_route, route with
  | [], _ => MOk tt
  | n :: new_route, r :: route =>
      if n <? r then (if is_strict then MErr (MismatchedDimensions n r) else MErr (MismatchedDimensionsWeak n r))
      else if r <? n then (if is_strict then MErr (MismatchedDimensions n r) else MErr (MismatchedDimensionsWeak n r))
      else check_dims_loop new_route route is_strict
  | _ :: _, [] => MPanic
  end.
(** memory_slice.rs:108-165 [check_correct_dims] *)
Definition check_correct_dims (s : slice) (access : list nat) (new_values : slice) (is_strict : bool) : mres unit :=
  if length (route s) <? length access + length (route new_values) then MErr OutOfBoundsError
  else mr_bind (check_access_loop (route s) access) (fun _ => check_dims_loop (route new_values) (drop (length access) (route s)) is_strict).
(** memory_slice.rs:169-184 [generate_new_route_from_access] *)
Definition generate_new_route (s : slice) (access : list nat) : mres (list nat * nat) :=
  if length (route s) <? length access then MErr OutOfBoundsError
  else let size := drop (length access) (route s) in MOk (size, foldl Nat.mul 1 size).
(** memory_slice.rs:199-203: copying cells one by one *)
Fixpoint copy_cells (vs : list C) (cell n : nat) : mres (list C) :=
  match n with
  | O => MOk []
  | S n => mr_bind (mindex vs cell) (fun v => mr_bind (copy_cells vs (S cell) n) (fun rest => MOk (v :: rest)))
  end.
(** memory_slice.rs:186-206,350-355 [generate_slice_from_access], [access_values] *)
Definition access_values (s : slice) (access : list nat) : mres slice :=
  match access with
  | [] => MOk s
  | _ => mr_bind (generate_new_route s access) (fun '(size, number_of_cells) =>
         mr_bind (get_initial_cell s access) (fun initial_cell =>
         mr_bind (copy_cells (values s) initial_cell number_of_cells) (fun vs => MOk (Slice size vs))))
  end.
(** memory_slice.rs:234-262,364-369 [access_values_by_mut_reference]: the cells of the references *)
Definition mut_references (s : slice) (access : list nat) : mres (list nat) :=
  match access with
  | [] => MOk (seq 0 (length (values s)))
  | _ => mr_bind (generate_new_route s access) (fun '(_, number_of_cells) =>
         mr_bind (get_initial_cell s access) (fun initial_cell =>
         MOk (filter (fun index => initial_cell <= index /\ index < initial_cell + number_of_cells) (seq 0 (length (values s))))))
  end.
(** memory_slice.rs:271-283 [new_with_route] *)
Definition new_with_route (r : list nat) (initial_value : C) : slice := Slice r (replicate (foldl Nat.mul 1 r) initial_value).
(** memory_slice.rs:294-297: writing cells one by one *)
Fixpoint write_cells (vs : list C) (cell : nat) (new : list C) : mres (list C) :=
  match new with
  | [] => MOk vs
  | v :: new => if cell <? length vs then write_cells (<[cell := v]> vs) (S cell) new else MPanic
  end.
(** memory_slice.rs:284-317 [insert_values]: the new slice and the result.  The recursion is on the
    number of dimensions of the new values. *)
Fixpoint insert_values_rec (fuel : nat) (s : slice) (access : list nat) (new_values : slice) (is_strict : bool) : slice * mres unit :=
  match fuel with
  | O => (s, MPanic)
  | S fuel =>
      match check_correct_dims s access new_values is_strict with
      | MOk _ =>
          match mr_bind (get_initial_cell s access) (fun cell => write_cells (values s) cell (values new_values)) with
          | MOk vs => (Slice (route s) vs, MOk tt)
          | MErr e => (s, MErr e)
          | MPanic => (s, MPanic)
          end
      | MErr (MismatchedDimensionsWeak d1 d2) =>
          match route new_values with
          | [] => (s, MPanic)
          | n :: _ =>
              foldl (fun st index =>
                match st with
                | (s, MErr (MismatchedDimensionsWeak _ _)) =>
                    match access_values new_values [index] with
                    | MOk part =>
                        match insert_values_rec fuel s (access ++ [index]) part is_strict with
                        | (s, MPanic) => (s, MPanic)
                        | (s, _) => (s, MErr (MismatchedDimensionsWeak d1 d2))
                        end
                    | MErr e => (s, MErr e)
                    | MPanic => (s, MPanic)
                    end
                | _ => st
                end) (s, MErr (MismatchedDimensionsWeak d1 d2)) (seq 0 n)
          end
      | MErr e => (s, MErr e)
      | MPanic => (s, MPanic)
      end
  end.
Definition insert_values (s : slice) (access : list nat) (new_values : slice) (is_strict : bool) : slice * mres unit :=
  insert_values_rec (S (length (route new_values))) s access new_values is_strict.

(** memory_slice.rs:319-329 [insert_value_by_index]; the bound check is [>] *)
Definition insert_value_by_index (s : slice) (index : nat) (new_value : C) : slice * mres unit :=
  if length (values s) <? index then (s, MErr OutOfBoundsError)
  else if index <? length (values s) then (Slice (route s) (<[index := new_value]> (values s)), MOk tt) else (s, MPanic).
(** memory_slice.rs:341-345: the loop; division by zero panics *)
Fixpoint access_index_loop (route : list nat) (number_cells index_aux : nat) : mres (list nat) :=
  match route with
  | [] => MOk []
  | pos :: route =>
      if pos =? 0 then MPanic else
      let number_cells := number_cells / pos in
      if number_cells =? 0 then MPanic else
      mr_bind (access_index_loop route number_cells (index_aux mod number_cells)) (fun rest => MOk (index_aux / number_cells :: rest))
  end.
(** memory_slice.rs:331-348 [get_access_index]; the bound check is [>] *)
Definition get_access_index (s : slice) (index : nat) : mres (list nat) :=
  if length (values s) <? index then MErr OutOfBoundsError else access_index_loop (route s) (length (values s)) index.
(** memory_slice.rs:371-379,404-412 [access_value_by_index] and the other readers by index *)
Definition access_value_by_index (s : slice) (index : nat) : mres C :=
  if length (values s) <? index then MErr OutOfBoundsError else mindex (values s) index.
(** memory_slice.rs:396-403 [get_reference_to_single_value] *)
Definition get_single_value (s : slice) (access : list nat) : mres C :=
  if length (route s) =? length access then mr_bind (get_initial_cell s access) (fun cell => mindex (values s) cell) else MPanic.
(** memory_slice.rs:422-429 [get_mut_reference_to_single_value], used for an assignment *)
Definition set_single_value (s : slice) (access : list nat) (v : C) : slice * mres unit :=
  if length (route s) =? length access then
    match get_initial_cell s access with
    | MOk cell => if cell <? length (values s) then (Slice (route s) (<[cell := v]> (values s)), MOk tt) else (s, MPanic)
    | MErr e => (s, MErr e)
    | MPanic => (s, MPanic)
    end
  else (s, MPanic).
End slice.
Arguments slice : clear implicits.
