(** Model of the placement and creation of sub-components: from the executed templates
    (constraint_generation/src/execution_data/executed_template.rs, executed_program.rs) through
    compiler/src/circuit_design/build.rs and translate.rs to the code of
    compiler/src/intermediate_representation/create_component_bucket.rs and
    compiler/src/circuit_design/template.rs, C++ and WebAssembly.
    - Wires are given by the names of their single signals (executed_template.rs:270-306 flattens
      arrays and buses before it calls the DAG); [number_of_inputs] is the number of the input signals.
    - A header [name_id] is represented by the id of the template.
    - Machine integers of the generated code are unbounded.
    - A failed [unwrap] or index is [Panic]. *)
From stdpp Require Import prelude gmap fin_maps sorting strings pretty.
From Coq Require Import ZArith.
From Verif Require Import ModArithModel AlgebraModel PipelineModel DagModel.
Open Scope nat_scope.

(** ** executed_template.rs *)
(** executed_template.rs:13-20 [Connexion], type_definitions.rs:42-47 [SubComponentData] *)
Record connexion : Type := Connexion {
  k_full : string; k_name : string; k_parallel : bool; k_indexed : list nat; k_to : nat;
  k_offset : nat; k_component_offset : nat; k_jump : nat; k_component_jump : nat }.
(** executed_template.rs:136-140 [add_arrow] *)
Definition arrow (full name : string) (is_parallel : bool) (indexed_with : list nat) (goes_to : nat) : connexion :=
  Connexion full name is_parallel indexed_with goes_to 0 0 0 0.
(** type_definitions.rs:36-40 [ComponentData] *)
Record component_data : Type := ComponentData { m_name : string; m_length : list nat }.
(** executed_template.rs:55-80 [ExecutedTemplate]: what matters here *)
Record executed : Type := Executed {
  x_name : string; x_parallel : bool; x_custom : bool; x_parameters : list Z;
  x_outputs : list string; x_public : list string; x_private : list string; x_intermediates : list string;
  x_ordered : list string; x_constraints : list constraint; x_underscored : list nat;
  x_components : list component_data; x_number : nat; x_connexions : list connexion }.
Definition x_inputs (x : executed) : nat := length (x_public x) + length (x_private x).

(** [Ord] of [Vec<usize>] and, on the bytes, of [String] *)
Fixpoint lex_leb (a b : list nat) : bool :=
  match a, b with
  | [], _ => true
  | _ :: _, [] => false
  | x :: a, y :: b => if x <? y then true else if y <? x then false else lex_leb a b
  end.
Definition string_key (s : string) : list nat := Ascii.nat_of_ascii <$> String.list_ascii_of_string s.
(** executed_template.rs:327-336: the comparison of two connexions *)
Definition cnn_leb (l r : connexion) : bool :=
  if bool_decide (k_name l = k_name r) then lex_leb (k_indexed l) (k_indexed r)
  else lex_leb (string_key (k_name l)) (string_key (k_name r)).
Definition cnn_le (l r : connexion) : Prop := cnn_leb l r = true.
Global Instance cnn_le_dec l r : Decision (cnn_le l r) := decide (cnn_leb l r = true).

(** [lengths.iter().fold(1, |p, c| p * c)] *)
Definition product (lengths : list nat) : nat := foldl Nat.mul 1 lengths.
(** executed_template.rs:673-695 [filter_used_components] *)
Definition filter_used (components : list component_data) (connexions : list connexion) : list component_data * nat :=
  let used := k_name <$> connexions in
  let filtered := filter (fun c => m_name c ∈ used) components in
  (filtered, foldl (fun n c => n + product (m_length c)) 0 filtered).
(** executed_template.rs:339-345: one round of the loop of [build_connexions] *)
Definition connect (ko : corr_order) (acc : dag * list connexion) (c : connexion) : res (dag * list connexion) :=
  let '(d, done) := acc in
  res_bind (get_main d) (fun n =>
  let offset := e_out (n_entry n) in
  let component_offset := e_out_component (n_entry n) in
  res_bind (add_edge ko (k_to c) (k_full c) (k_parallel c) d) (fun d' =>
  res_bind (get_main d') (fun n' =>
  Ok (d', done ++ [Connexion (k_full c) (k_name c) (k_parallel c) (k_indexed c) (k_to c) offset component_offset
                     (e_out (n_entry n') - offset) (e_out_component (n_entry n') - component_offset)])))).
(** executed_template.rs:326-349 [build_connexions] *)
Definition build_connexions (ko : corr_order) (x : executed) (d : dag) : res (dag * executed) :=
  let connexions := merge_sort cnn_le (x_connexions x) in
  let '(components, number) := filter_used (x_components x) connexions in
  res_bind (res_foldl (connect ko) (d, []) connexions) (fun '(d', connexions') =>
  Ok (on_main (node_set_indexes number) d',
      Executed (x_name x) (x_parallel x) (x_custom x) (x_parameters x) (x_outputs x) (x_public x) (x_private x) (x_intermediates x)
        (x_ordered x) (x_constraints x) (x_underscored x) components number connexions')).
(** executed_template.rs:270-306 [build_wires], 308-322 [build_ordered_signals] *)
Definition build_wires (x : executed) (d : dag) : dag :=
  let d := foldl (fun d s => on_main (node_add_output s) d) d (x_outputs x) in
  let d := foldl (fun d s => on_main (node_add_input s true) d) d (x_public x) in
  let d := foldl (fun d s => on_main (node_add_input s false) d) d (x_private x) in
  let d := foldl (fun d s => on_main (node_add_intermediate s) d) d (x_intermediates x) in
  foldl (fun d s => on_main (node_add_ordered s) d) d (x_ordered x).
(** executed_template.rs:350-362 [build_constraints] *)
Definition build_constraints (x : executed) (d : dag) : dag :=
  let d := foldl (fun d c => on_main (node_add_constraint c) d) d (x_constraints x) in
  foldl (fun d s => on_main (node_add_underscored s) d) d (x_underscored x).
(** executed_template.rs:245-268 [insert_in_dag] *)
Definition insert_in_dag (ko : corr_order) (x : executed) (d : dag) : res (dag * executed) :=
  res_bind (build_connexions ko x (build_wires x (add_node (x_name x) (x_parameters x) (x_parallel x) (x_custom x) d)))
    (fun '(d', x') => Ok (build_constraints x' d', x')).
(** executed_program.rs:168-180 [export]: the templates in the order in which their execution ended *)
Definition insert_all (ko : corr_order) (p : Z) (model : list executed) : res (dag * list executed) :=
  res_foldl (fun '(d, out) x => res_bind (insert_in_dag ko x d) (fun '(d', x') => Ok (d', out ++ [x']))) (dag_new p, []) model.

(** ** export_to_circuit *)
(** very_concrete_program.rs:159-170 [Trigger] *)
Record trigger : Type := Trigger {
  r_template : nat; r_offset : nat; r_component_offset : nat; r_name : string; r_indexed : list nat;
  r_has_inputs : bool; r_parallel : bool }.
(** very_concrete_program.rs:172-185 [ClusterType], [TriggerCluster] *)
Inductive cluster_type : Type := Mixed | Uniform (offset_jump component_offset_jump : nat).
Record cluster : Type := Cluster { cl_name : string; cl_start : nat; cl_end : nat; cl_type : cluster_type }.
(** very_concrete_program.rs:187-225 [TemplateInstance] *)
Record instance_info : Type := InstanceInfo {
  ii_parallel : bool; ii_parallel_component : bool; ii_not_parallel_component : bool;
  ii_inputs : nat; ii_number : nat;
  ii_triggers : list trigger; ii_clusters : list cluster; ii_components : list component_data }.

(** executed_template.rs:697-713 [POS] *)
Inductive pos : Type := PT | PK (v : nat) | PB.
Definition pos_lub (l r : pos) : pos :=
  match l, r with
  | PK v0, PK v1 => if v0 =? v1 then PK v0 else PT
  | PB, p | p, PB => p
  | _, _ => PT
  end.
(** executed_template.rs:714-730 [apply_pos_to_connexions] *)
Definition apply_pos (connexions : list connexion) : res (gmap string pos) :=
  res_foldl (fun m c => match m !! k_name c with
                        | Some prev => Ok (<[k_name c := pos_lub prev (PK (k_to c))]> (delete (k_name c) m))
                        | None => Panic
                        end)
    (foldl (fun m c => <[k_name c := PB]> m) ∅ connexions) connexions.
(** executed_template.rs:732-741 [mixed_components]: the value of one component *)
Definition is_mixed (solution : gmap string pos) (name : string) : res bool :=
  match solution !! name with Some PT => Ok true | Some _ => Ok false | None => Panic end.
(** executed_template.rs:758-767: the end of the run of connexions with the same name *)
Fixpoint run_end (name : string) (rest : list connexion) (end_ : nat) : nat :=
  match rest with
  | c :: rest => if bool_decide (k_name c = name) then run_end name rest (S end_) else end_
  | [] => end_
  end.
(** executed_template.rs:748-780: the clusters by name; [fuel] bounds the rounds *)
Fixpoint cluster_runs (fuel : nat) (connexions : list connexion) (index : nat) (acc : gmap string cluster) : res (gmap string cluster) :=
  match fuel with
  | O => Panic
  | S fuel =>
      match connexions !! index with
      | None => Ok acc
      | Some c =>
          let end_ := run_end (k_name c) (drop index connexions) index in
          cluster_runs fuel connexions end_
            (<[k_name c := Cluster (k_name c) index end_ (Uniform (k_jump c) (k_component_jump c))]> acc)
      end
  end.
(** executed_template.rs:782-800: [cmp_data.remove(cmp_name).unwrap()] for every component *)
Definition bind_cluster (solution : gmap string pos) (acc : gmap string cluster * list cluster) (c : component_data)
  : res (gmap string cluster * list cluster) :=
  match acc.1 !! m_name c with
  | None => Panic
  | Some cl =>
      res_bind (is_mixed solution (m_name c)) (fun mixed =>
      Ok (delete (m_name c) acc.1,
          acc.2 ++ [if mixed : bool then Cluster (cl_name cl) (cl_start cl) (cl_end cl) Mixed else cl]))
  end.
(** executed_template.rs:743-801 [build_clusters] *)
Definition build_clusters (components : list component_data) (connexions : list connexion) : res (list cluster) :=
  res_bind (apply_pos connexions) (fun solution =>
  res_bind (cluster_runs (S (length connexions)) connexions 0 ∅) (fun cmp_data =>
  res_bind (res_foldl (bind_cluster solution) (cmp_data, []) components) (fun r => Ok r.2))).
(** executed_template.rs:371-373: the flags of the target of a connexion *)
Definition mark (is_parallel : bool) (t : instance_info) : instance_info :=
  InstanceInfo (ii_parallel t) (ii_parallel_component t || is_parallel) (ii_not_parallel_component t || negb is_parallel)
    (ii_inputs t) (ii_number t) (ii_triggers t) (ii_clusters t) (ii_components t).
(** executed_template.rs:365-396 [build_triggers], one round *)
Definition build_trigger (acc : list instance_info * list trigger) (c : connexion) : res (list instance_info * list trigger) :=
  let '(instances, triggers) := acc in
  match instances !! k_to c with
  | None => Panic
  | Some t =>
      Ok (<[k_to c := mark (k_parallel c) t]> instances,
          triggers ++ [Trigger (k_to c) (k_offset c) (k_component_offset c) (k_name c) (k_indexed c)
                         (0 <? ii_inputs t) (k_parallel c || ii_parallel t)])
  end.
(** executed_template.rs:363-560 [export_to_circuit] *)
Definition export_to_circuit (instances : list instance_info) (x : executed) : res (list instance_info) :=
  res_bind (build_clusters (x_components x) (x_connexions x)) (fun clusters =>
  res_bind (res_foldl build_trigger (instances, []) (x_connexions x)) (fun '(instances, triggers) =>
  Ok (instances ++ [InstanceInfo (x_parallel x) false false (x_inputs x) (x_number x) triggers clusters (x_components x)]))).
(** executed_program.rs:193-201: the export of every template; the main template counts as used
    without [parallel] *)
Definition export_all (xs : list executed) : res (list instance_info) :=
  res_bind (res_foldl export_to_circuit [] xs) (fun instances =>
  Ok (alter (fun t => InstanceInfo (ii_parallel t) (ii_parallel_component t) true (ii_inputs t) (ii_number t)
                        (ii_triggers t) (ii_clusters t) (ii_components t)) (length instances - 1) instances)).
(** executed_program.rs:236-266 [produce_dags_stats]: all signals, created components, indexes *)
Definition stats_step (d : dag) (acc : list (nat * nat * nat)) (i : nat) : res (list (nat * nat * nat)) :=
  res_bind (index (d_nodes d) i) (fun n =>
  res_bind (index (d_adjacency d) i) (fun es =>
  res_bind (res_foldl (fun '(s, c, k) e => res_bind (index acc (e_goes_to e)) (fun '(s', c', k') => Ok (s + s', c + c', k + k')))
              (n_inputs n + n_outputs n + n_intermediates n, 1, n_indexes n) es) (fun r =>
  Ok (acc ++ [r])))).
Definition produce_stats (d : dag) : res (nat * nat * nat) :=
  res_bind (res_foldl (stats_step d) [] (seq 0 (length (d_nodes d)))) (fun acc =>
  match last acc with Some r => Ok r | None => Panic end).

(** ** build.rs and translate.rs *)
(** build.rs:61-82 [positions_to_parallel], a [BTreeMap<Vec<usize>, bool>]: sorted by position *)
Fixpoint positions_insert (pos : list nat) (v : bool) (m : list (list nat * bool)) : list (list nat * bool) :=
  match m with
  | [] => [(pos, v)]
  | (q, w) :: m => if bool_decide (q = pos) then (pos, v) :: m
                   else if lex_leb pos q then (pos, v) :: (q, w) :: m else (q, w) :: positions_insert pos v m
  end.
(** build.rs:61-82: [ParallelClusters] of every component *)
Record parallel_info : Type := ParallelInfo { pi_positions : list (list nat * bool); pi_uniform : option bool }.
Definition add_parallel (m : gmap string parallel_info) (r : trigger) : gmap string parallel_info :=
  match m !! r_name r with
  | Some info =>
      <[r_name r := ParallelInfo (positions_insert (r_indexed r) (r_parallel r) (pi_positions info))
         (match pi_uniform info with Some v => if bool_decide (v = r_parallel r) then Some v else None | None => None end)]> m
  | None => <[r_name r := ParallelInfo (positions_insert (r_indexed r) (r_parallel r) []) (Some (r_parallel r))]> m
  end.
Definition component_to_parallel (triggers : list trigger) : gmap string parallel_info := foldl add_parallel ∅ triggers.
(** translate.rs:339-361 [initialize_components]: address and dimensions of every component *)
Definition initialize_component (acc : nat * gmap string (nat * list nat)) (c : component_data) : nat * gmap string (nat * list nat) :=
  (acc.1 + product (m_length c), <[m_name c := (acc.1, m_length c)]> acc.2).
Definition initialize_components (components : list component_data) : gmap string (nat * list nat) :=
  (foldl initialize_component (0, ∅) components).2.
(** translate.rs:389-401, 444-456 [compute_jump]; [pop().unwrap()] on too few lengths and the
    division by zero are [Panic] *)
Fixpoint jump_from (full_length : nat) (lengths indexes : list nat) (jump : nat) : res nat :=
  match indexes with
  | [] => Ok jump
  | index :: indexes =>
      match lengths with
      | [] => Panic
      | length :: lengths =>
          if length =? 0 then Panic
          else let full_length := full_length / length in jump_from full_length lengths indexes (jump + index * full_length)
      end
  end.
Definition compute_jump (lengths indexes : list nat) : res nat := jump_from (product lengths) lengths indexes 0.
(** create_component_bucket.rs:7-31 [CreateCmpBucket] *)
Record bucket : Type := Bucket {
  b_template : nat; b_sub_cmp : nat; b_name : string; b_positions : list (nat * bool); b_mixed_parallel : bool;
  b_uniform : option bool; b_dimensions : list nat; b_offset : nat; b_jump : nat; b_component_offset : nat;
  b_component_jump : nat; b_number : nat; b_has_inputs : bool }.
(** the suffix of translate.rs:489: the indexes in brackets *)
Definition bracketed (indexes : list nat) : string := foldl (fun acc n => (acc +:+ "[" +:+ pretty n +:+ "]")%string) ""%string indexes.
Fixpoint res_map {A B} (f : A -> res B) (l : list A) : res (list B) :=
  match l with
  | [] => Ok []
  | a :: l => res_bind (f a) (fun b => res_bind (res_map f l) (fun bs => Ok (b :: bs)))
  end.
Definition lookup_res {A} (m : gmap string A) (name : string) : res A := match m !! name with Some a => Ok a | None => Panic end.
(** translate.rs:385-441 [create_uniform_components] *)
Definition create_uniform (env : gmap string (nat * list nat)) (par : gmap string parallel_info) (triggers : list trigger)
    (cl : cluster) (offset_jump component_offset_jump : nat) : res (list bucket) :=
  res_bind (index triggers (cl_start cl)) (fun r =>
  res_bind (lookup_res env (r_name r)) (fun '(address, dimensions) =>
  res_bind (lookup_res par (r_name r)) (fun info =>
  res_bind (res_map (fun '(pos, value) => res_bind (compute_jump dimensions pos) (fun j => Ok (j, value))) (pi_positions info)) (fun positions =>
  Ok [Bucket (r_template r) address (r_name r) positions false (pi_uniform info) dimensions (r_offset r) offset_jump
        (r_component_offset r) component_offset_jump (product dimensions) (r_has_inputs r)])))).
(** translate.rs:443-513 [create_mixed_components]: one bucket for every trigger of the slice *)
Fixpoint assoc_pos (pos : list nat) (m : list (list nat * bool)) : res bool :=
  match m with [] => Panic | (q, v) :: m => if bool_decide (q = pos) then Ok v else assoc_pos pos m end.
Definition create_mixed_one (env : gmap string (nat * list nat)) (par : gmap string parallel_info) (triggers : list trigger)
    (i : nat) : res bucket :=
  res_bind (index triggers i) (fun r =>
  res_bind (lookup_res env (r_name r)) (fun '(address, dimensions) =>
  res_bind (compute_jump dimensions (r_indexed r)) (fun jump =>
  res_bind (lookup_res par (r_name r)) (fun info =>
  res_bind (match pi_uniform info with Some v => Ok v | None => assoc_pos (r_indexed r) (pi_positions info) end) (fun parallel_value =>
  Ok (Bucket (r_template r) (address + jump) (r_name r +:+ bracketed (r_indexed r))%string [(0, parallel_value)]
        (match pi_uniform info with None => true | Some _ => false end) (Some parallel_value) dimensions (r_offset r) 0
        (r_component_offset r) 0 1 (r_has_inputs r))))))).
Definition create_mixed (env : gmap string (nat * list nat)) (par : gmap string parallel_info) (triggers : list trigger)
    (cl : cluster) : res (list bucket) :=
  res_map (create_mixed_one env par triggers) (seq (cl_start cl) (cl_end cl - cl_start cl)).
(** translate.rs:364-383 [create_components] *)
Definition create_components (env : gmap string (nat * list nat)) (par : gmap string parallel_info) (triggers : list trigger)
    (clusters : list cluster) : res (list bucket) :=
  res_bind (res_map (fun cl => match cl_type cl with
                               | Mixed => create_mixed env par triggers cl
                               | Uniform j cj => create_uniform env par triggers cl j cj
                               end) clusters) (fun bs => Ok (concat bs)).
(** build.rs:44-100 with translate.rs:1935-1960: the buckets at the start of the code of a template *)
Definition template_buckets (t : instance_info) : res (list bucket) :=
  create_components (initialize_components (ii_components t)) (component_to_parallel (ii_triggers t)) (ii_triggers t) (ii_clusters t).

(** ** the C++ code *)
(** calcwit.cpp:116-126 [generate_position_array] *)
Fixpoint position_array (reversed_dimensions : list nat) (index : nat) (positions : string) : string :=
  match reversed_dimensions with
  | [] => positions
  | d :: reversed_dimensions => position_array reversed_dimensions (index / d) (("[" +:+ pretty (index mod d) +:+ "]") +:+ positions)%string
  end.
(** One execution of the body of the loop of create_component_bucket.rs:204-352: a call of
    [X_create] or [X_create_parallel] with its arguments, the position of [mySubcomponents] that
    receives the number of the component, and what is written to [mySubcomponentsParallel] there. *)
Record created : Type := Created {
  g_at : nat; g_template : nat; g_parallel : bool; g_start : nat; g_index : nat; g_name : string; g_flag : option bool }.
(** create_component_bucket.rs:275-343: [i] is the position, [i_aux] counts the rounds *)
Definition cpp_body (b : bucket) (csoffset aux_cmp_num i i_aux : nat) : created :=
  let status := default false ((b_positions b).*2 !! i_aux) in
  Created (b_sub_cmp b + i) (b_template b) (match b_uniform b with Some v => v | None => status end) csoffset aux_cmp_num
    (if 1 <? b_number b then (b_name b +:+ position_array (reverse (b_dimensions b)) i "")%string else b_name b)
    (match b_uniform b with None => Some status | Some v => if b_mixed_parallel b then Some v else None end).
Fixpoint cpp_loop (b : bucket) (csoffset aux_cmp_num : nat) (rounds : list (nat * nat)) : list created :=
  match rounds with
  | [] => []
  | (i, i_aux) :: rounds =>
      cpp_body b csoffset aux_cmp_num i i_aux :: cpp_loop b (csoffset + b_jump b) (aux_cmp_num + b_component_jump b) rounds
  end.
(** create_component_bucket.rs:204-352 [produce_c] *)
Definition cpp_bucket (my_signal_start ctx_index : nat) (b : bucket) : list created :=
  let csoffset := my_signal_start + b_offset b in
  let aux_cmp_num := b_component_offset b + ctx_index + 1 in
  let rounds :=
    if length (b_positions b) =? b_number b then (fun i => (i, i)) <$> seq 0 (b_number b)
    else imap (fun i_aux p => (p.1, i_aux)) (b_positions b) in
  if b_number b =? 1 then [cpp_body b csoffset aux_cmp_num 0 0]
  else cpp_loop b csoffset aux_cmp_num rounds.
Definition cpp_children (my_signal_start ctx_index : nat) (bs : list bucket) : list created :=
  concat (cpp_bucket my_signal_start ctx_index <$> bs).
(** template.rs:159-168 [produce_c]: which variants of the functions of a template exist *)
Definition cpp_defined (t : instance_info) (parallel : bool) : bool :=
  if parallel then ii_parallel t || ii_parallel_component t else negb (ii_parallel t) && ii_not_parallel_component t.
(** template.rs:273-278: the [run] function that both variants of [create] call when there are no
    inputs; circuit.rs:391-409: the variant of the functions of the main template that [run] calls
    ([main_is_parallel] is never set) *)
Definition cpp_create_runs (t : instance_info) (create_parallel : bool) : option bool := if ii_inputs t =? 0 then Some false else None.
Definition cpp_main_variant : bool := false.

(** ** the WebAssembly code *)
(** One creation: the address in the table of the parent that receives the address of the new
    component, the signal address passed to [X_create], and whether [X_run] is called. *)
Record wcreated : Type := WCreated { w_at : nat; w_template : nat; w_start : nat; w_run : bool }.
(** create_component_bucket.rs:112-162: the loop over all positions, [counter] rounds *)
Fixpoint wasm_loop (b : bucket) (fs sub_cmp offset counter : nat) : list wcreated :=
  match counter with
  | O => []
  | S counter =>
      WCreated sub_cmp (b_template b) offset (negb (b_has_inputs b)) ::
      match counter with
      | O => []
      | S _ => wasm_loop b fs (sub_cmp + 4) (offset + b_jump b * fs) counter
      end
  end.
(** create_component_bucket.rs:163-195: the code for the positions that exist *)
Fixpoint wasm_sparse (b : bucket) (fs sub_cmp offset previous : nat) (rest : list nat) : list wcreated :=
  match rest with
  | [] => []
  | p :: rest =>
      let sub_cmp := sub_cmp + 4 * (p - previous) in
      let offset := offset + b_jump b * fs in
      WCreated sub_cmp (b_template b) offset false :: wasm_sparse b fs sub_cmp offset p rest
  end.
(** create_component_bucket.rs:67-202 [produce_wasm]; [fs]: bytes of a field element; [offset]: the
    component; [signal_start]: its signals *)
Definition wasm_bucket (fs offset signal_start : nat) (b : bucket) : list wcreated :=
  let sub_cmp := offset + 12 + b_sub_cmp b * 4 in
  let start := b_offset b * fs + signal_start in
  if b_number b =? 1 then [WCreated sub_cmp (b_template b) start (negb (b_has_inputs b))]
  else if b_number b =? length (b_positions b) then wasm_loop b fs sub_cmp start (b_number b)
  else match (b_positions b).*1 with
       | [] => []
       | p :: rest => WCreated (sub_cmp + 4 * p) (b_template b) start false :: wasm_sparse b fs (sub_cmp + 4 * p) start p rest
       end.
Definition wasm_children (fs offset signal_start : nat) (bs : list bucket) : list wcreated :=
  concat (wasm_bucket fs offset signal_start <$> bs).
(** template.rs:50-85 [X_create]: the block of a new component and the new free position *)
Definition wasm_block (t : instance_info) : nat := 12 + ii_number t * 4.
(** build.rs:225: 32-bit words of the component tree *)
Definition size_of_component_tree (stats : nat * nat * nat) : nat := stats.1.2 * 3 + stats.2.
