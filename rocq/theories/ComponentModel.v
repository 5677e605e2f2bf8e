(** Model of the assignments to the inputs of one component while the compiler executes a template:
    constraint_generation/src/environment_utils/component_representation.rs, the parts of
    [perform_assign] (constraint_generation/src/execute.rs) about components, and the check at the end of
    a template (environment_utils/environment.rs:187-199).
    - Inputs and outputs are arrays of signals; buses are not modelled (no tags of fields, no queues for
      buses).
    - Hash maps are [gmap]s; the tags of an input are visited in the order of [map_to_list].
    - [exec] is the execution of the template (execute.rs:1328-1357): from the tags of the inputs to the
      dimensions of the inputs and outputs that were declared; [None] if the execution fails.
    - Positions in the source, the arrows of the graph and [is_parallel] are left out. *)
From stdpp Require Import prelude strings gmap numbers list.
From Verif Require Import MemSliceModel FlowModel.
Open Scope nat_scope.

(** [TagInfo] (environment_utils/slice_types.rs): the tags with their values *)
Notation tagvals := (gmap string (option Z)).

(** The template as written (execution_data/executed_program.rs, the "prenode"; its inputs come from
    program_structure/src/program_library/template_data.rs:160-233): the inputs with their tags. *)
Record interface : Type := Interface { t_inputs : gmap string (gset string) }.
(** The template executed for given parameters and tags ([ExecutedTemplate]): the inputs and outputs
    with their dimensions. *)
Record node : Type := Node { n_inputs : gmap string (list nat); n_outputs : gmap string (list nat) }.

(** [MemoryError] (environment_utils/slice_types.rs), the errors of these functions.
    [ExecutionFailed]: the execution of the template reported errors. *)
Inductive cerr : Type :=
| MultipleAssignmentsComponent | NoInitializedComponent | AssignmentOutput
| AssignmentMissingTags (x t : string) | AssignmentTagInputTwice (x t : string)
| MultipleAssignments | MissingInputs | MissingInputTags
| MemoryProblem (e : mem_error) | ExecutionFailed.
Inductive cres (A : Type) : Type := COk (a : A) | CErr (e : cerr) | CPanic.
Arguments COk {A} _. Arguments CErr {A} _. Arguments CPanic {A}.
Definition cbind {A B} (r : cres A) (f : A -> cres B) : cres B :=
  match r with COk a => f a | CErr e => CErr e | CPanic => CPanic end.
Definition of_mem {A} (r : mres A) : cres A := match r with MOk a => COk a | MErr e => CErr (MemoryProblem e) | MPanic => CPanic end.

(** [node_pointer]: the node before or after the execution of the template *)
Inductive pointer : Type := PreNode | ExecNode (tags : gmap string tagvals) (n : node).

(** component_representation.rs:12-28 [ComponentRepresentation] *)
Record comp : Type := Comp {
  c_pointer : option pointer;
  c_unassigned : gmap string Z;              (* unassigned_inputs: how many signals are left *)
  c_untags : gset string;                    (* unassigned_tags *)
  c_queue : list (string * list nat * list nat * conds);   (* to_assign_inputs *)
  c_inputs : gmap string (slice assigned);
  c_tags : gmap string tagvals;              (* inputs_tags *)
  c_outputs : gmap string (slice assigned);
  c_init : bool }.                           (* is_initialized *)
(** component_representation.rs:30-50 *)
Definition default_comp : comp := Comp None ∅ ∅ [] ∅ ∅ ∅ false.

(** component_representation.rs:74-153 [preinitialize_component] *)
Definition preinitialize (t : interface) (is_anonymous : bool) (c : comp) : cres comp :=
  if negb is_anonymous && bool_decide (is_Some (c_pointer c)) then CErr MultipleAssignmentsComponent
  else COk (Comp (Some PreNode) ∅ (dom (filter (fun '(_, tags) => tags <> ∅) (t_inputs t))) [] ∅
              ((fun tags => gset_to_gmap None tags) <$> t_inputs t) ∅ false).

(** component_representation.rs:757-782: the tags of the input, with the values it is given *)
Fixpoint check_tags_no_init (x : string) (first : bool) (l : list (string * option Z)) (given : tagvals) : cres (list (string * option Z)) :=
  match l with
  | [] => COk []
  | (t, value) :: l =>
      match given !! t with
      | None => CErr (AssignmentMissingTags x t)
      | Some v =>
          if first : bool then cbind (check_tags_no_init x first l given) (fun r => COk ((t, v) :: r))
          else if decide (value = v) then cbind (check_tags_no_init x first l given) (fun r => COk ((t, value) :: r))
          else CErr (AssignmentTagInputTwice x t)
      end
  end.
(** component_representation.rs:735-816 [handle_tag_assignment_no_init] *)
Definition handle_tags_no_init (c : comp) (x : string) (given : tagvals) : cres comp :=
  match c_pointer c with
  | None => CErr NoInitializedComponent
  | Some _ =>
      match c_tags c !! x with
      | None => CErr AssignmentOutput
      | Some tags =>
          cbind (check_tags_no_init x (bool_decide (x ∈ c_untags c)) (map_to_list tags) given) (fun l =>
          COk (Comp (c_pointer c) (c_unassigned c) (c_untags c ∖ {[x]}) (c_queue c) (c_inputs c)
                 (<[x := list_to_map l]> (c_tags c)) (c_outputs c) (c_init c)))
      end
  end.
(** component_representation.rs:444-459 [assign_value_to_signal_no_init] *)
Definition assign_no_init (c : comp) (x : string) (access route : list nat) (given : tagvals) (cs : conds) : cres comp :=
  cbind (handle_tags_no_init c x given) (fun c =>
  COk (Comp (c_pointer c) (c_unassigned c) (c_untags c) (c_queue c ++ [(x, access, route, cs)]) (c_inputs c) (c_tags c) (c_outputs c) (c_init c))).

(** component_representation.rs:831-845: the tags of the input of an executed component *)
Fixpoint check_tags_init (x : string) (l : list (string * option Z)) (given : tagvals) : cres unit :=
  match l with
  | [] => COk tt
  | (t, value) :: l =>
      match given !! t with
      | None => CErr (AssignmentMissingTags x t)
      | Some v => if decide (value = v) then check_tags_init x l given else CErr (AssignmentTagInputTwice x t)
      end
  end.
(** component_representation.rs:818-867 [handle_tag_assignment_init]; [unwrap] panics *)
Definition handle_tags_init (c : comp) (x : string) (given : tagvals) : cres unit :=
  match c_tags c !! x with None => CPanic | Some tags => check_tags_init x (map_to_list tags) given end.

(** assignment_utils.rs:232-309: the references one by one; [assign] is the case of one signal *)
Fixpoint assign_cells (vs : list assigned) (refs : list nat) (cs : conds) : cres (list assigned) :=
  match refs with
  | [] => COk vs
  | i :: refs =>
      match vs !! i with
      | None => CPanic
      | Some old => match assign old cs with Some new => assign_cells (<[i := new]> vs) refs cs | None => CErr MultipleAssignments end
      end
  end.
(** assignment_utils.rs:197-313 [perform_signal_assignment] *)
Definition perform_signal_assignment (s : slice assigned) (access new_route : list nat) (cs : conds) : cres (slice assigned) :=
  cbind (of_mem (access_values s access)) (fun previous =>
  cbind (of_mem (check_correct_dims previous [] (new_with_route new_route (Some cs)) true)) (fun _ =>
  cbind (of_mem (mut_references s access)) (fun refs =>
  cbind (assign_cells (values s) refs cs) (fun vs => COk (Slice (route s) vs))))).

(** [*left -= dim_slice] on [usize]: with overflow checks (a debug build) it panics, without it wraps. *)
Definition usize_sub (checks : bool) (a b : Z) : cres Z :=
  if (b <=? a)%Z then COk (a - b)%Z else if checks then CPanic else COk (a - b + 2 ^ 64)%Z.
(** component_representation.rs:871-885 [update_unassigned_inputs] *)
Definition update_unassigned (checks : bool) (c : comp) (x : string) (new_route : list nat) : cres comp :=
  match c_unassigned c !! x with
  | None => COk c
  | Some remaining =>
      cbind (usize_sub checks remaining (Z.of_nat (foldl Nat.mul 1 new_route))) (fun remaining =>
      COk (Comp (c_pointer c) (if (remaining =? 0)%Z then delete x (c_unassigned c) else <[x := remaining]> (c_unassigned c))
             (c_untags c) (c_queue c) (c_inputs c) (c_tags c) (c_outputs c) (c_init c)))
  end.
(** component_representation.rs:461-490 [assign_value_to_signal_init] *)
Definition assign_init (checks : bool) (c : comp) (x : string) (access new_route : list nat) (given : tagvals) (cs : conds) : cres comp :=
  match c_pointer c with
  | None => CErr NoInitializedComponent
  | Some _ =>
      match c_inputs c !! x with
      | None => CErr AssignmentOutput
      | Some s =>
          cbind (handle_tags_init c x given) (fun _ =>
          cbind (perform_signal_assignment s access new_route cs) (fun s =>
          update_unassigned checks (Comp (c_pointer c) (c_unassigned c) (c_untags c) (c_queue c) (<[x := s]> (c_inputs c)) (c_tags c) (c_outputs c) (c_init c)) x new_route))
      end
  end.
(** component_representation.rs:415-442 [assign_value_to_signal] *)
Definition assign_value (checks : bool) (c : comp) (x : string) (access new_route : list nat) (given : tagvals) (cs : conds) : cres comp :=
  if c_init c then assign_init checks c x access new_route given cs else assign_no_init c x access new_route given cs.

(** component_representation.rs:238-243: the assignments that waited; [inputs_tags[signal_name]] panics
    if there is none *)
Fixpoint replay (checks : bool) (c : comp) (q : list (string * list nat * list nat * conds)) : cres comp :=
  match q with
  | [] => COk c
  | (x, access, new_route, cs) :: q =>
      match c_tags c !! x with
      | None => CPanic
      | Some tags => cbind (assign_init checks c x access new_route tags cs) (fun c => replay checks c q)
      end
  end.
(** component_representation.rs:155-261 [initialize_component] *)
Definition initialize (checks : bool) (c : comp) (tags : gmap string tagvals) (n : node) : cres comp :=
  let inputs := (fun r => new_with_route r None) <$> n_inputs n in
  let sizes := omap (fun s : slice assigned => if length (values s) =? 0 then None else Some (Z.of_nat (length (values s)))) inputs in
  replay checks (Comp (Some (ExecNode tags n)) (sizes ∪ c_unassigned c) (c_untags c) [] (inputs ∪ c_inputs c) (c_tags c)
                   (((fun r => new_with_route r (Some [])) <$> n_outputs n) ∪ c_outputs c) true) (c_queue c).

(** execute.rs:1816-1866, 2050-2096: once no tag is missing, the template is executed *)
Definition execute_when_ready (checks : bool) (exec : gmap string tagvals -> option node) (c : comp) : cres comp :=
  if bool_decide (c_untags c = ∅) then
    match exec (c_tags c) with None => CErr ExecutionFailed | Some n => initialize checks c (c_tags c) n end
  else COk c.

(** component_representation.rs:264-281 [check_initialized_inputs] *)
Definition check_initialized_inputs (c : comp) (x : string) : cres unit :=
  match c_pointer c with
  | None => CErr NoInitializedComponent
  | Some _ =>
      if bool_decide (is_Some (c_outputs c !! x)) && negb (bool_decide (c_unassigned c = ∅)) then CErr MissingInputs
      else if negb (c_init c) then (if bool_decide (c_untags c = ∅) then CPanic else CErr MissingInputTags)
      else COk tt
  end.
(** component_representation.rs:283-325 [get_io_value], for signals; a name that is neither an input nor
    an output panics *)
Definition get_io_value (c : comp) (x : string) (access : list nat) : cres (slice assigned) :=
  cbind (check_initialized_inputs c x) (fun _ =>
  match c_inputs c !! x with
  | Some s => of_mem (access_values s access)
  | None => match c_outputs c !! x with Some s => of_mem (access_values s access) | None => CPanic end
  end).

(** What a template does with one component: create it ([c = T(...)]), assign an input (with [<==] or
    not), read an input or an output.  [a_tags]: the tags of the value; [a_conds]: the enclosing
    conditions whose value is not known (execute.rs:1563-1567). *)
Record assignment : Type := Asg {
  a_input : string; a_access : list nat; a_route : list nat; a_constraint : bool; a_tags : option tagvals; a_conds : conds }.
Inductive cop : Type := Create (is_anonymous : bool) | Assign (a : assignment) | ReadIO (x : string) (access : list nat).

(** execute.rs:1888-1894: the tags count only with [<==] *)
Definition given_tags (a : assignment) : tagvals :=
  match a_tags a with Some tags => if a_constraint a then tags else ∅ | None => ∅ end.
(** execute.rs:1762-2110 *)
Definition cstep (checks : bool) (exec : gmap string tagvals -> option node) (t : interface) (c : comp) (o : cop) : cres comp :=
  match o with
  | Create anon => cbind (preinitialize t anon c) (execute_when_ready checks exec)
  | Assign a =>
      cbind (assign_value checks c (a_input a) (a_access a) (a_route a) (given_tags a) (a_conds a)) (fun c' =>
      if c_init c' then COk c' else execute_when_ready checks exec c')
  | ReadIO x access => cbind (get_io_value c x access) (fun _ => COk c)
  end.
Fixpoint crun (checks : bool) (exec : gmap string tagvals -> option node) (t : interface) (c : comp) (l : list cop) : cres comp :=
  match l with [] => COk c | o :: l => cbind (cstep checks exec t c o) (fun c => crun checks exec t c l) end.
(** environment.rs:187-199 [environment_check_all_components_assigned], for one component, with
    component_representation.rs:714-724 *)
Definition final_check (c : comp) : cres unit :=
  match c_pointer c with
  | None => COk tt
  | Some _ => if bool_decide (c_untags c = ∅) && bool_decide (c_unassigned c = ∅) then COk tt else CErr MissingInputs
  end.
(** a template that does [l] with its component: the instance the component is, at the end *)
Definition template_end (checks : bool) (exec : gmap string tagvals -> option node) (t : interface) (l : list cop) : cres (option pointer) :=
  cbind (crun checks exec t default_comp l) (fun c => cbind (final_check c) (fun _ => COk (c_pointer c))).
