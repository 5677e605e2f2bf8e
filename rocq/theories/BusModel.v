(** Model of the layout of signals and buses: the names given to the DAG, the table of buses, the wires
    of a template instance and the list of the inputs of main
    (constraint_generation/src/execution_data/executed_template.rs, executed_bus.rs, executed_program.rs,
    compiler/src/circuit_design/build.rs), and of the reading of JSON inputs by the C++ calculator
    (code_producers/src/c_elements/common/main.cpp).
    - [None] is a panic, a failed assertion or an exception; the functions that follow the nesting of
      buses take fuel and return [None] without it.
    - A wire of bus type carries the number of its bus (the [goes_to] of its bus connexion). *)
From stdpp Require Import prelude gmap fin_maps strings pretty.
From Verif Require Import DagModel DagSpec InputModel.
Open Scope nat_scope.

(** type_definitions.rs:28-33 [WireData], with [bus_connexions.get(name).inspect.goes_to] *)
Record wire : Type := Wire { w_name : string; w_dims : list nat; w_bus : option nat }.
(** [format!("{}[{}]", name, index)] *)
Definition indexed (name : string) (i : nat) : string := name +:+ "[" +:+ pretty i +:+ "]".
(** [concat] of the results, or failure *)
Definition collect {A B} (f : A -> option (list B)) (l : list A) : option (list B) := match mapM f l with Some r => Some (concat r) | None => None end.

(** ** Names given to the DAG *)
(** executed_template.rs:571-590 [generate_symbols]: the names added, in order *)
Fixpoint generate_symbols (name : string) (dims : list nat) : list string :=
  match dims with
  | [] => [name]
  | d :: dims => concat ((fun i => generate_symbols (indexed name i) dims) <$> seq 0 d)
  end.
(** executed_template.rs:592-616 [generate_bus_symbols]; [buses] are the fields of the executed buses *)
Fixpoint generate_bus_symbols (fuel : nat) (buses : list (list wire)) (bus : nat) (name : string) (dims : list nat) : option (list string) :=
  match fuel with
  | 0 => None
  | S fuel =>
      match buses !! bus with
      | None => None
      | Some fields =>
          (fix walk (name : string) (dims : list nat) : option (list string) :=
             match dims with
             | [] => collect (fun w =>
                       match w_bus w with
                       | Some b => generate_bus_symbols fuel buses b (dotted name (w_name w)) (w_dims w)
                       | None => Some (generate_symbols (dotted name (w_name w)) (w_dims w))
                       end) fields
             | d :: dims => collect (fun i => walk (indexed name i) dims) (seq 0 d)
             end) name dims
      end
  end.
Definition wire_symbols (fuel : nat) (buses : list (list wire)) (w : wire) : option (list string) :=
  match w_bus w with
  | Some b => generate_bus_symbols fuel buses b (w_name w) (w_dims w)
  | None => Some (generate_symbols (w_name w) (w_dims w))
  end.
(** executed_template.rs:71-101: the declarations of an [ExecutedTemplate] *)
Record template : Type := Template { t_outputs : list wire; t_inputs : list wire; t_intermediates : list wire; t_public : list string }.
Definition is_public (t : template) (w : wire) : bool := bool_decide (w_name w ∈ t_public t).
Definition public_inputs (t : template) : list wire := filter (fun w => is_public t w = true) (t_inputs t).
Definition private_inputs (t : template) : list wire := filter (fun w => is_public t w = false) (t_inputs t).
(** executed_template.rs:270-311 [build_wires]: the calls on the DAG *)
Definition build_wires (fuel : nat) (buses : list (list wire)) (t : template) : option (list dag_op) :=
  match collect (wire_symbols fuel buses) (t_outputs t), collect (wire_symbols fuel buses) (public_inputs t),
        collect (wire_symbols fuel buses) (private_inputs t), collect (wire_symbols fuel buses) (t_intermediates t) with
  | Some outs, Some pubs, Some privs, Some ints =>
      Some ((OpOutput <$> outs) ++ ((fun n => OpInput n true) <$> pubs) ++ ((fun n => OpInput n false) <$> privs) ++ (OpIntermediate <$> ints))
  | _, _, _, _ => None
  end.

(** ** The table of buses *)
(** very_concrete_program.rs:128-144 [FieldInfo], [BusInstance] *)
Record field_info : Type := FieldInfo { fi_id : nat; fi_offset : nat; fi_dims : list nat; fi_size : nat; fi_bus : option nat }.
Record bus_instance : Type := BusInstance { bi_size : nat; bi_fields : gmap string field_info }.
Notation bus_table := (list (option bus_instance)).
(** executed_bus.rs:111-174 [build_bus_info]; the state of the loop is the table, [total_size], [offset],
    [wires] and [field_id] *)
Fixpoint build_bus_info (fuel : nat) (buses : list (list wire)) (bus_id : nat) (table : bus_table) : option bus_table :=
  match fuel with
  | 0 => None
  | S fuel =>
      match table !! bus_id, buses !! bus_id with
      | Some None, Some fields =>
          match foldl (fun acc w =>
            match acc with
            | None => None
            | Some (table, total_size, offset, wires, field_id) =>
                match w_bus w with
                | None =>
                    let size := foldl Nat.mul 1 (w_dims w) in
                    Some (table, total_size + size, offset + size, <[w_name w := FieldInfo field_id offset (w_dims w) size None]> wires, field_id + 1)
                | Some bus_node =>
                    match (match table !! bus_node with
                           | Some None => build_bus_info fuel buses bus_node table
                           | Some (Some _) => Some table
                           | None => None
                           end) with
                    | None => None
                    | Some table =>
                        match table !! bus_node with
                        | Some (Some instance) =>
                            let size := foldl Nat.mul (bi_size instance) (w_dims w) in
                            Some (table, total_size + size, offset + size, <[w_name w := FieldInfo field_id offset (w_dims w) size (Some bus_node)]> wires, field_id + 1)
                        | _ => None
                        end
                    end
                end
            end) (Some (table, 0, 0, ∅, 0)) fields with
          | Some (table, total_size, offset, wires, field_id) => Some (<[bus_id := Some (BusInstance total_size wires)]> table)
          | None => None
          end
      | Some (Some _), Some _ => Some table
      | _, _ => None
      end
  end.
(** executed_program.rs:182-192 *)
Definition build_buses (fuel : nat) (buses : list (list wire)) : option (list bus_instance) :=
  match foldl (fun acc i => match acc with Some table => build_bus_info fuel buses i table | None => None end)
              (Some (replicate (length buses) None)) (seq 0 (length buses)) with
  | Some table => mapM id table
  | None => None
  end.

(** ** The wires of a template instance *)
Inductive kind : Type := KOutput | KInput | KIntermediate.
(** very_concrete_program.rs:27-126 [Wire], [Signal], [Bus] *)
Record layout : Type := Layout { l_name : string; l_dims : list nat; l_kind : kind; l_local_id : nat; l_dag_local_id : nat; l_size : nat; l_bus : option nat }.
(** executed_template.rs:454-477 and the three loops after it *)
Definition export_wire (table : list bus_instance) (k : kind) (acc : option (list layout * nat * nat)) (w : wire) : option (list layout * nat * nat) :=
  match acc with
  | None => None
  | Some (ls, local_id, dag_local_id) =>
      match w_bus w with
      | Some b =>
          match table !! b with
          | Some info => let size := foldl Nat.mul (bi_size info) (w_dims w) in
                         Some (ls ++ [Layout (w_name w) (w_dims w) k local_id dag_local_id size (Some b)], local_id + size, dag_local_id + size)
          | None => None
          end
      | None => let size := foldl Nat.mul 1 (w_dims w) in
                Some (ls ++ [Layout (w_name w) (w_dims w) k local_id dag_local_id size None], local_id + size, dag_local_id + size)
      end
  end.
(** executed_template.rs:440-556: the end of [export_to_circuit] *)
Definition export_wires (table : list bus_instance) (t : template) : option (list layout) :=
  match foldl (export_wire table KIntermediate)
    (foldl (export_wire table KInput)
      (foldl (export_wire table KInput)
        (foldl (export_wire table KOutput) (Some ([], 0, 1)) (t_outputs t))
        (public_inputs t))
      (private_inputs t))
    (t_intermediates t) with
  | Some (ls, _, _) => Some ls
  | None => None
  end.

(** ** The inputs of main *)
(** components/mod.rs:22-29 [FieldData] *)
Record field_data : Type := FieldData { fd_dims : list nat; fd_size : nat; fd_offset : nat; fd_bus : option nat; fd_name : string }.
Definition no_field_data : field_data := FieldData [] 0 0 None "".
(** build.rs:601-625 [get_info_buses]: the fields of one bus; a [BTreeMap] is traversed by increasing name,
    here in the order of [map_to_list] (every entry writes its own position) *)
Definition get_info_bus (b : bus_instance) : option (list field_data) :=
  foldl (fun acc '(name, info) =>
    match acc with
    | None => None
    | Some data =>
        let total_array_size := foldl Nat.mul 1 (fi_dims info) in
        if (total_array_size =? 0) || (length data <=? fi_id info) then None
        else Some (<[fi_id info := FieldData (fi_dims info) (fi_size info / total_array_size) (fi_offset info) (fi_bus info) name]> data)
    end) (Some (replicate (size (bi_fields b)) no_field_data)) (map_to_list (bi_fields b)).
Definition get_info_buses (bs : list bus_instance) : option (list (list field_data)) := mapM get_info_bus bs.
(** components/mod.rs:13-20 [InputInfo] *)
Record input_info : Type := InputInfo { in_name : string; in_dims : list nat; in_start : nat; in_size : nat; in_bus : option nat }.
(** build.rs:323-345 [get_accesses] *)
Fixpoint get_accesses (dims : list nat) : list (string * nat) :=
  match dims with
  | [] => [("", 0)]
  | d :: dims =>
      concat ((fun i => (fun '(a, s) => ("[" +:+ pretty i +:+ "]" +:+ a, i * foldl Nat.mul 1 dims + s)) <$> get_accesses dims) <$> seq 0 d)
  end.
(** build.rs:346-381 [get_qualified_names] *)
Fixpoint get_qualified_names (fuel : nat) (buses : list (list field_data)) (busid start : nat) (prefix : string) : option (list input_info) :=
  match fuel with
  | 0 => None
  | S fuel =>
      match buses !! busid with
      | None => None
      | Some fields =>
          collect (fun io =>
            let name := dotted prefix (fd_name io) in
            let new_start := start + fd_offset io in
            match fd_bus io with
            | Some value => collect (fun '(a, s) => get_qualified_names fuel buses value (new_start + s * fd_size io) (name +:+ a)) (get_accesses (fd_dims io))
            | None => Some [InputInfo name (fd_dims io) new_start (foldl Nat.mul (fd_size io) (fd_dims io)) None]
            end) fields
      end
  end.
(** build.rs:303-322 [build_info_wire] *)
Definition build_info_wire (l : layout) : input_info := InputInfo (l_name l) (l_dims l) (l_dag_local_id l) (l_size l) (l_bus l).
Definition is_input (l : layout) : Prop := l_kind l = KInput.
Global Instance is_input_dec l : Decision (is_input l).
Proof. unfold is_input. destruct (l_kind l); [right|left|right]; congruence. Defined.
(** build.rs:383-404 [get_main_input_list_with_qualifiers]: one input *)
Definition qualify_io (fuel : nat) (buses : list (list field_data)) (io : input_info) : option (list input_info) :=
  match in_bus io with
  | Some value =>
      let elems := foldl Nat.mul 1 (in_dims io) in
      if elems =? 0 then None
      else collect (fun '(a, s) => get_qualified_names fuel buses value (in_start io + s * (in_size io / elems)) (in_name io +:+ a)) (get_accesses (in_dims io))
  | None => Some [io]
  end.
(** build.rs:300-425 [main_input_list]; the assertion on an input that is already listed holds for the
    inputs that are not buses, which are copied unchanged, and is checked here for all *)
Definition main_input_list (fuel : nat) (buses : list (list field_data)) (ls : list layout) : option (list input_info) :=
  let input_list := build_info_wire <$> filter is_input ls in
  match collect (qualify_io fuel buses) input_list with
  | None => None
  | Some qualified =>
      let id_to_info : gmap string (nat * nat) := foldl (fun m io => <[in_name io := (in_start io, in_size io)]> m) ∅ qualified in
      foldl (fun acc io =>
        match acc with
        | None => None
        | Some l =>
            match id_to_info !! in_name io with
            | Some (st, sz) => if (st =? in_start io) && (sz =? in_size io) then Some l else None
            | None => Some (l ++ [io])
            end
        end) (Some qualified) input_list
  end.

(** ** JSON inputs (C++) *)
Section json.
Context {F : Type}.
(** A JSON value: [JNum] is an integer or a string with a number, [JOther] any other scalar, which is
    refused later.  The members of an object have different keys. *)
Inductive json : Type := JNum (v : F) | JOther | JArr (l : list json) | JObj (l : list (string * json)).
Inductive jtype : Type := TNum | TNull | TObj | TOther.
Global Instance jtype_eq_dec : EqDecision jtype.
Proof. solve_decision. Defined.
(** main.cpp:188-205 [check_type]; [None] is the failed assertion *)
Fixpoint check_type (j : json) : option jtype :=
  match j with
  | JNum _ => Some TNum
  | JOther => Some TOther
  | JObj _ => Some TObj
  | JArr [] => Some TNull
  | JArr (x :: l) =>
      match check_type x with
      | None => None
      | Some t =>
          (fix same (l : list json) : option jtype :=
             match l with
             | [] => Some t
             | y :: l => match check_type y with Some t' => if decide (t' = t) then same l else None | None => None end
             end) l
      end
  end.
(** main.cpp:207-244 [qualify_input_list] ([inlist]) and [qualify_input]: the assignments to the members of
    the result, in order *)
Fixpoint qualify (inlist : bool) (prefix : string) (j : json) : option (list (string * json)) :=
  match j with
  | JArr l =>
      let elements :=
        (fix go (i : nat) (l : list json) : option (list (string * json)) :=
           match l with
           | [] => Some []
           | x :: l => match qualify true (indexed prefix i) x, go (S i) l with Some a, Some b => Some (a ++ b) | _, _ => None end
           end) 0 l in
      if inlist then elements
      else match l with
           | [] => Some [(prefix, j)]
           | _ => match check_type j with
                  | None => None
                  | Some TObj => elements
                  | Some _ => Some [(prefix, j)]
                  end
           end
  | JObj l =>
      (fix go (l : list (string * json)) : option (list (string * json)) :=
         match l with
         | [] => Some []
         | (k, x) :: l =>
             match qualify false (if decide (prefix = "") then k else dotted prefix k) x, go l with Some a, Some b => Some (a ++ b) | _, _ => None end
         end) l
  | _ => Some [(prefix, j)]
  end.
(** main.cpp:144-186 [json2FrElements]; the conversion of numbers is not modelled *)
Fixpoint json_values (j : json) : option (list F) :=
  match j with
  | JNum v => Some [v]
  | JArr l =>
      (fix go (l : list json) : option (list F) :=
         match l with [] => Some [] | x :: l => match json_values x, go l with Some a, Some b => Some (a ++ b) | _, _ => None end end) l
  | _ => None
  end.
(** main.cpp:246-265: the members of the result with the hash of their name and their values.  The C++ map
    is traversed by increasing key; here in the order of [map_to_list]. *)
Definition json_items (hash : string -> Z) (j : json) : option (list (Z * list F)) :=
  match qualify false "" j with
  | None => None
  | Some assignments =>
      let members : gmap string json := foldl (fun m '(k, x) => <[k := x]> m) ∅ assignments in
      mapM (fun '(k, x) => match json_values x with Some vs => Some (hash k, vs) | None => None end) (map_to_list members)
  end.
End json.
Arguments json : clear implicits.
