(** Model of dag/src (lib.rs, map_to_constraint_list.rs, witness_producer.rs, sym_porting.rs,
    r1cs_porting.rs, clean_constraints of constraint_correctness_analysis.rs) and of the parts of
    constraint_list/src (lib.rs, state_utils.rs, sym_porting.rs, r1cs_porting.rs) that walk the
    encoded DAG.
    - A [DAG] is the list of its nodes and the list of their outgoing edges; [&mut self] methods
      return the new value; a failed index, [unwrap] or subtraction is [Panic].
    - [prime] is the field order itself (dag/src/lib.rs:33 looks it up by name).
    - The traversal order of a [HashMap<String, usize>] is the oracle [ko].
    - The recursive walks take fuel; running out is [Panic] (excluded in DagProofs: an edge always
      leads to a node with a smaller number). *)
From stdpp Require Import prelude gmap fin_maps sorting strings pretty.
From Coq Require Import ZArith.
From Verif Require Import ModArithModel AlgebraModel PipelineModel BytesModel R1csModel.
Open Scope nat_scope.

(** [for x in l { .. }] with a body that may panic *)
Definition res_foldl {A B} (f : A -> B -> res A) (a : A) (l : list B) : res A :=
  foldl (fun acc b => res_bind acc (fun a => f a b)) (Ok a) l.
(** [v[i]] *)
Definition index {A} (l : list A) (i : nat) : res A := match l !! i with Some x => Ok x | None => Panic end.

(** ** dag/src/lib.rs *)
(** dag/src/lib.rs:87-95 [Edge] *)
Record edge : Type := Edge {
  e_label : string; e_goes_to : nat; e_in : nat; e_out : nat; e_in_component : nat; e_out_component : nat }.
(** dag/src/lib.rs:97-99 [Edge::new_entry] *)
Definition edge_new_entry (id : nat) : edge := Edge "main" id 0 0 0 0.
(** dag/src/lib.rs:105-107 [Edge::get_signal_range]: first and one past the last *)
Definition get_signal_range (e : edge) : nat * nat := (e_in e + 1, e_out e + 1).

(** dag/src/lib.rs:134-157 [Node] *)
Record node : Type := Node {
  n_entry : edge;
  n_template : string;
  n_parameters : list Z;
  n_signals : nat;
  n_components : nat;
  n_intermediates : nat;
  n_public_inputs : nat;
  n_inputs : nat;
  n_outputs : nat;
  n_corr : gmap string nat;
  n_ordered : list string;
  n_locals : gset nat;
  n_reachables : gset nat;
  n_forbidden : gset nat;
  n_io : list nat;
  n_constraints : list constraint;
  n_underscored : list nat;
  n_parallel : bool;
  n_parallel_sub : bool;
  n_custom : bool;
  n_indexes : nat;
}.
(** dag/src/lib.rs:160-177 [Node::new] *)
Definition node_new (id : nat) (template_name : string) (parameters : list Z) (is_parallel is_custom_gate : bool) : node :=
  Node (edge_new_entry id) template_name parameters 0 1 0 0 0 0 ∅ [] ∅ ∅ {[ 0 ]} [] [] [] is_parallel false is_custom_gate 0.
(** [entry.out_number += n] *)
Definition entry_grow (e : edge) (n c : nat) : edge :=
  Edge (e_label e) (e_goes_to e) (e_in e) (e_out e + n) (e_in_component e) (e_out_component e + c).
(** dag/src/lib.rs:179-192 [Node::add_input] *)
Definition node_add_input (name : string) (is_public : bool) (n : node) : node :=
  let id := n_signals n + 1 in
  Node (entry_grow (n_entry n) 1 0) (n_template n) (n_parameters n) (n_signals n + 1) (n_components n) (n_intermediates n)
    (n_public_inputs n + (if is_public then 1 else 0)) (n_inputs n + 1) (n_outputs n)
    (<[name := id]> (n_corr n)) (n_ordered n) ({[ id ]} ∪ n_locals n) ({[ id ]} ∪ n_reachables n)
    (if is_public then {[ id ]} ∪ n_forbidden n else n_forbidden n) (n_io n ++ [id]) (n_constraints n) (n_underscored n)
    (n_parallel n) (n_parallel_sub n) (n_custom n) (n_indexes n).
(** dag/src/lib.rs:194-204 [Node::add_output] *)
Definition node_add_output (name : string) (n : node) : node :=
  let id := n_signals n + 1 in
  Node (entry_grow (n_entry n) 1 0) (n_template n) (n_parameters n) (n_signals n + 1) (n_components n) (n_intermediates n)
    (n_public_inputs n) (n_inputs n) (n_outputs n + 1)
    (<[name := id]> (n_corr n)) (n_ordered n) ({[ id ]} ∪ n_locals n) ({[ id ]} ∪ n_reachables n)
    ({[ id ]} ∪ n_forbidden n) (n_io n ++ [id]) (n_constraints n) (n_underscored n)
    (n_parallel n) (n_parallel_sub n) (n_custom n) (n_indexes n).
(** dag/src/lib.rs:206-214 [Node::add_intermediate] *)
Definition node_add_intermediate (name : string) (n : node) : node :=
  let id := n_signals n + 1 in
  Node (entry_grow (n_entry n) 1 0) (n_template n) (n_parameters n) (n_signals n + 1) (n_components n) (n_intermediates n + 1)
    (n_public_inputs n) (n_inputs n) (n_outputs n)
    (<[name := id]> (n_corr n)) (n_ordered n) ({[ id ]} ∪ n_locals n) ({[ id ]} ∪ n_reachables n)
    (n_forbidden n) (n_io n) (n_constraints n) (n_underscored n)
    (n_parallel n) (n_parallel_sub n) (n_custom n) (n_indexes n).
(** dag/src/lib.rs:216-218 [Node::add_ordered_signal] *)
Definition node_add_ordered (name : string) (n : node) : node :=
  Node (n_entry n) (n_template n) (n_parameters n) (n_signals n) (n_components n) (n_intermediates n)
    (n_public_inputs n) (n_inputs n) (n_outputs n)
    (n_corr n) (n_ordered n ++ [name]) (n_locals n) (n_reachables n)
    (n_forbidden n) (n_io n) (n_constraints n) (n_underscored n)
    (n_parallel n) (n_parallel_sub n) (n_custom n) (n_indexes n).
(** [node.constraints = cs] *)
Definition node_set_constraints (cs : list constraint) (n : node) : node :=
  Node (n_entry n) (n_template n) (n_parameters n) (n_signals n) (n_components n) (n_intermediates n)
    (n_public_inputs n) (n_inputs n) (n_outputs n)
    (n_corr n) (n_ordered n) (n_locals n) (n_reachables n)
    (n_forbidden n) (n_io n) cs (n_underscored n)
    (n_parallel n) (n_parallel_sub n) (n_custom n) (n_indexes n).
(** dag/src/lib.rs:220-222 [Node::add_constraint] *)
Definition node_add_constraint (c : constraint) (n : node) : node := node_set_constraints (n_constraints n ++ [c]) n.
(** dag/src/lib.rs:224-226 [Node::add_underscored_signal] *)
Definition node_add_underscored (signal : nat) (n : node) : node :=
  Node (n_entry n) (n_template n) (n_parameters n) (n_signals n) (n_components n) (n_intermediates n)
    (n_public_inputs n) (n_inputs n) (n_outputs n)
    (n_corr n) (n_ordered n) (n_locals n) (n_reachables n)
    (n_forbidden n) (n_io n) (n_constraints n) (n_underscored n ++ [signal])
    (n_parallel n) (n_parallel_sub n) (n_custom n) (n_indexes n).
(** dag/src/lib.rs:228-230 [Node::set_number_of_subcomponents_indexes] *)
Definition node_set_indexes (number_scmp : nat) (n : node) : node :=
  Node (n_entry n) (n_template n) (n_parameters n) (n_signals n) (n_components n) (n_intermediates n)
    (n_public_inputs n) (n_inputs n) (n_outputs n)
    (n_corr n) (n_ordered n) (n_locals n) (n_reachables n)
    (n_forbidden n) (n_io n) (n_constraints n) (n_underscored n)
    (n_parallel n) (n_parallel_sub n) (n_custom n) number_scmp.

(** dag/src/lib.rs:297-302 [DAG] *)
Record dag : Type := Dag { d_field : Z; d_nodes : list node; d_adjacency : list (list edge) }.
(** dag/src/lib.rs:319-326 [DAG::new] *)
Definition dag_new (p : Z) : dag := Dag p [] [].
(** dag/src/lib.rs:505-507 [DAG::main_id]: [len - 1] underflows on the empty DAG *)
Definition main_id (d : dag) : res nat := match d_nodes d with [] => Panic | ns => Ok (length ns - 1) end.
(** dag/src/lib.rs:501-503 [DAG::get_main], unwrapped by the callers *)
Definition get_main (d : dag) : res node := match last (d_nodes d) with Some n => Ok n | None => Panic end.
(** dag/src/lib.rs:497-499 [DAG::get_mut_main] and the methods that use it (:388-428): nothing
    happens on the empty DAG *)
Definition on_main (f : node -> node) (d : dag) : dag :=
  Dag (d_field d) (alter f (length (d_nodes d) - 1) (d_nodes d)) (d_adjacency d).
(** dag/src/lib.rs:373-386 [DAG::add_node] *)
Definition add_node (template_name : string) (parameters : list Z) (is_parallel is_custom_gate : bool) (d : dag) : dag :=
  Dag (d_field d) (d_nodes d ++ [node_new (length (d_nodes d)) template_name parameters is_parallel is_custom_gate]) (d_adjacency d ++ [[]]).

(** the order in which a [HashMap<String, usize>] is traversed *)
Notation corr_order := (gmap string nat -> list (string * nat)).
(** [format!("{}.{}", a, b)] *)
Definition dotted (a b : string) : string := (a +:+ "." +:+ b)%string.
(** dag/src/lib.rs:353-364: the signals of the sub-component as seen from the parent *)
Definition import_signal (label : string) (in_number : nat) (target : node) (acc : gmap string nat * gset nat) (x : string * nat)
  : gmap string nat * gset nat :=
  let '(signal, id) := x in
  if bool_decide (id ∈ n_locals target) then
    (<[dotted label signal := in_number + id]> acc.1,
     if id <=? n_inputs target + n_outputs target then {[ in_number + id ]} ∪ acc.2 else acc.2)
  else acc.
(** dag/src/lib.rs:328-371 [DAG::add_edge] *)
Definition add_edge (ko : corr_order) (to : nat) (label : string) (is_parallel : bool) (d : dag) : res dag :=
  res_bind (main_id d) (fun from =>
  if to <? from then
    res_bind (index (d_nodes d) from) (fun source =>
    res_bind (index (d_nodes d) to) (fun target =>
    let in_num := n_signals source in
    let in_component_num := n_components source in
    let out_num := in_num + n_signals target in
    let out_component_num := in_component_num + n_components target in
    let '(correspondence, reachables) :=
      foldl (import_signal label in_num target) (n_corr source, n_reachables source) (ko (n_corr target)) in
    let source' :=
      Node (entry_grow (n_entry source) (n_signals target) (n_components target)) (n_template source) (n_parameters source)
        (n_signals source + n_signals target) (n_components source + n_components target) (n_intermediates source)
        (n_public_inputs source) (n_inputs source) (n_outputs source)
        correspondence (n_ordered source) (n_locals source) reachables
        (n_forbidden source) (n_io source) (n_constraints source) (n_underscored source)
        (n_parallel source) (n_parallel_sub source || n_parallel target || is_parallel) (n_custom source) (n_indexes source) in
    Ok (Dag (d_field d) (<[from := source']> (d_nodes d))
          (alter (fun es => es ++ [Edge label to in_num out_num in_component_num out_component_num]) from (d_adjacency d)))))
  else Ok d).
(** dag/src/constraint_correctness_analysis.rs:146-157 [clean_constraints] *)
Definition clean_node (n : node) : node :=
  node_set_constraints (filter (fun c => is_empty c = false) (c_remove_zeros <$> n_constraints n)) n.
Definition clean_constraints (d : dag) : dag := Dag (d_field d) (clean_node <$> d_nodes d) (d_adjacency d).

(** ** trees, dag/src/lib.rs:21-81 *)
(** dag/src/lib.rs:21-31 [Tree] (the reference to the DAG is a parameter of the functions) *)
Record itree : Type := Tree {
  t_path : string; t_offset : nat; t_node : nat; t_signals : list nat; t_forbidden : gset nat;
  t_names : gmap nat string; t_constraints : list constraint }.
Definition local_signals (ko : corr_order) (n : node) : list (string * nat) :=
  filter (fun x => x.2 ∈ n_locals n) (ko (n_corr n)).
(** dag/src/lib.rs:34-54 [Tree::new] *)
Definition tree_new (ko : corr_order) (d : dag) : res itree :=
  res_bind (get_main d) (fun root =>
  res_bind (main_id d) (fun node_id =>
  let offset := e_in (n_entry root) in
  let locals := local_signals ko root in
  Ok (Tree (e_label (n_entry root)) offset node_id
        (merge_sort Nat.le ((fun x => x.2 + offset) <$> locals))
        (set_map (fun s => s + offset) (n_forbidden root))
        (foldl (fun m x => <[x.2 := x.1]> m) ∅ locals)
        (n_constraints root)))).
(** dag/src/lib.rs:56-80 [Tree::go_to_subtree] *)
Definition go_to_subtree (ko : corr_order) (d : dag) (current : itree) (e : edge) : res itree :=
  res_bind (index (d_nodes d) (e_goes_to e)) (fun n =>
  let offset := t_offset current + e_in e in
  let locals := local_signals ko n in
  Ok (Tree (dotted (t_path current) (e_label e)) offset (e_goes_to e)
        (merge_sort Nat.le ((fun x => x.2 + offset) <$> locals))
        ∅
        (foldl (fun m x => <[x.2 + offset := x.1]> m) ∅ locals)
        ((fun c => c_offset c offset) <$> filter (fun c => is_empty c = false) (n_constraints n)))).
(** dag/src/lib.rs:82-84 [Tree::get_edges] *)
Definition get_edges (d : dag) (t : itree) : res (list edge) := index (d_adjacency d) (t_node t).

(** ** witness_producer.rs *)
(** witness_producer.rs:11-19 [produce_tree_witness] *)
Fixpoint produce_tree_witness (fuel : nat) (ko : corr_order) (d : dag) (t : itree) (witness : list nat) : res (list nat) :=
  match fuel with
  | O => Panic
  | S fuel =>
      res_bind (get_edges d t) (fun edges =>
      res_foldl (fun witness e => res_bind (go_to_subtree ko d t e) (fun subtree => produce_tree_witness fuel ko d subtree witness))
        (witness ++ t_signals t) edges)
  end.
(** witness_producer.rs:3-9 [produce_witness] *)
Definition produce_witness (fuel : nat) (ko : corr_order) (d : dag) : res (list nat) :=
  res_bind (tree_new ko d) (fun tree => produce_tree_witness fuel ko d tree [0]).

(** ** map_to_constraint_list.rs *)
(** map_to_constraint_list.rs:5-10 [CHolder] *)
Record holder : Type := Holder { h_linear : list constraint; h_equalities : list constraint; h_constant : list constraint }.
(** map_to_constraint_list.rs:27-37: one constraint *)
Definition classify (p : Z) (st : holder * nat) (c : constraint) : holder * nat :=
  let '(h, no_constraints) := st in
  if is_constant_equality c then (Holder (h_linear h) (h_equalities h) (h_constant h ++ [c]), no_constraints)
  else if is_equality c p then (Holder (h_linear h) (h_equalities h ++ [c]) (h_constant h), no_constraints)
  else if is_linear c then (Holder (h_linear h ++ [c]) (h_equalities h) (h_constant h), no_constraints)
  else (h, no_constraints + 1).
(** the state of the walk: witness, classified constraints, forbidden signals, number of non-linear constraints *)
Record map_state : Type := MState { ms_witness : list nat; ms_holder : holder; ms_forbidden : gset nat; ms_no : nat }.
(** map_to_constraint_list.rs:12-44 [map_tree] *)
Fixpoint map_tree (fuel : nat) (ko : corr_order) (d : dag) (t : itree) (st : map_state) : res map_state :=
  match fuel with
  | O => Panic
  | S fuel =>
      res_bind (index (d_nodes d) (t_node t)) (fun n =>
      let witness := ms_witness st ++ t_signals t in
      let forbidden := if n_custom n then list_to_set (t_signals t) ∪ ms_forbidden st else ms_forbidden st in
      let '(h, no) := foldl (classify (d_field d)) (ms_holder st, ms_no st) (t_constraints t) in
      res_bind (get_edges d t) (fun edges =>
      res_foldl (fun st e => res_bind (go_to_subtree ko d t e) (fun subtree => map_tree fuel ko d subtree st))
        (MState witness h forbidden no) edges))
  end.

(** constraint_list/src/lib.rs:23-48 [SignalInfo], [EncodingNode], [EncodingEdge], [DAGEncoding] *)
Record signal_info : Type := SignalInfo { si_name : string; si_id : nat }.
Record encoding_node : Type := EncodingNode {
  en_id : nat; en_name : string; en_parameters : list Z; en_signals : list signal_info; en_ordered : list nat;
  en_non_linear : list constraint; en_custom : bool }.
Record encoding_edge : Type := EncodingEdge { ee_goes_to : nat; ee_path : string; ee_offset : nat }.
Record encoding : Type := Encoding { enc_init : nat; enc_no : nat; enc_nodes : list encoding_node; enc_adjacency : list (list encoding_edge) }.
(** map_to_constraint_list.rs:93: comparison by number *)
Definition id_le (a b : string * nat) : Prop := a.2 <= b.2.
Global Instance id_le_dec a b : Decision (id_le a b) := decide (a.2 <= b.2).
(** map_to_constraint_list.rs:71-104 [map_node_to_encoding] *)
Definition map_node_to_encoding (ko : corr_order) (id : nat) (n : node) : res encoding_node :=
  let non_linear := filter (fun c => is_linear c = false) (n_constraints n) in
  res_bind (res_foldl (fun acc signal => match n_corr n !! signal with Some i => Ok (acc ++ [i]) | None => Panic end) [] (n_ordered n))
    (fun ordered =>
  Ok (EncodingNode id (n_template n) (n_parameters n)
        ((fun x => SignalInfo x.1 x.2) <$> merge_sort id_le (local_signals ko n))
        ordered non_linear (n_custom n))).
(** map_to_constraint_list.rs:106-108 [map_edge_to_encoding] *)
Definition map_edge_to_encoding (e : edge) : encoding_edge := EncodingEdge (e_goes_to e) (e_label e) (e_in e).
(** map_to_constraint_list.rs:46-69 [produce_encoding] *)
Definition produce_encoding (ko : corr_order) (no_constraints init : nat) (nodes : list node) (edges : list (list edge)) : res encoding :=
  res_bind (res_imap (map_node_to_encoding ko) 0 nodes) (fun nodes =>
  Ok (Encoding init no_constraints nodes ((fun es : list edge => map_edge_to_encoding <$> es) <$> edges))).

(** ** constraint_list: walking the encoding *)
(** constraint_list/src/lib.rs:65-72 [EncodingIterator] *)
Record iterator : Type := Iterator { it_node : nat; it_path : string; it_offset : nat; it_signals : list signal_info; it_non_linear : list constraint }.
(** constraint_list/src/state_utils.rs:14-35 [build_encoding_iterator] *)
Definition build_iterator (enc : encoding) (node_id : nat) (path : string) (offset : nat) : res iterator :=
  res_bind (index (enc_nodes enc) node_id) (fun n =>
  Ok (Iterator node_id path offset
        ((fun s => SignalInfo (dotted path (si_name s)) (si_id s + offset)) <$> en_signals n)
        ((fun c => c_offset c offset) <$> en_non_linear n))).
(** constraint_list/src/lib.rs:75-85 [EncodingIterator::new] *)
Definition iterator_new (enc : encoding) : res iterator := build_iterator enc (enc_init enc) "main" 0.
(** constraint_list/src/lib.rs:87-97 [EncodingIterator::next] *)
Definition iterator_next (enc : encoding) (it : iterator) (e : encoding_edge) : res iterator :=
  build_iterator enc (ee_goes_to e) (dotted (it_path it) (ee_path e)) (it_offset it + ee_offset e).
(** constraint_list/src/lib.rs:99-101 [EncodingIterator::edges] *)
Definition iterator_edges (enc : encoding) (it : iterator) : res (list encoding_edge) := index (enc_adjacency enc) (it_node it).
(** constraint_simplification.rs:415-428 and non_linear_utils.rs:6-31: the order in which the
    non-linear constraints are visited (what is done with them is in PipelineModel) *)
Fixpoint visit_non_linear (fuel : nat) (enc : encoding) (it : iterator) : res (list constraint) :=
  match fuel with
  | O => Panic
  | S fuel =>
      res_bind (iterator_edges enc it) (fun edges =>
      res_foldl (fun acc e => res_bind (iterator_next enc it e) (fun next =>
        res_bind (visit_non_linear fuel enc next) (fun below => Ok (acc ++ below)))) (it_non_linear it) edges)
  end.

(** the simplification flags that matter, dag/src/lib.rs:546-554 *)
Record flags : Type := Flags { f_no_rounds : nat; f_flag_s : bool; f_old_heuristics : bool }.
(** dag/src/lib.rs:268-270,525-531 *)
Definition private_inputs (n : node) : nat := n_inputs n - n_public_inputs n.
(** map_to_constraint_list.rs:110-147 [map], up to the call of [simplify_constraints] *)
Definition map_to_simplifier (fuel : nat) (ko : corr_order) (d : dag) (fl : flags) : res (simplifier * encoding) :=
  res_bind (main_id d) (fun init_id =>
  res_bind (get_main d) (fun main =>
  res_bind (tree_new ko d) (fun tree =>
  res_bind (map_tree fuel ko d tree (MState [0] (Holder [] [] []) (n_forbidden main) 0)) (fun st =>
  res_bind (produce_encoding ko (ms_no st) init_id (d_nodes d) (d_adjacency d)) (fun enc =>
  res_bind (iterator_new enc) (fun it =>
  res_bind (visit_non_linear fuel enc it) (fun non_linear =>
  Ok (Simplifier (d_field d) non_linear (n_public_inputs main) (n_outputs main) (private_inputs main)
        (ms_forbidden st) (h_constant (ms_holder st)) (h_equalities (ms_holder st)) (h_linear (ms_holder st))
        (length (ms_witness st)) (f_no_rounds fl) (f_flag_s fl) (f_old_heuristics fl), enc)))))))).

(** constraint_list/src/lib.rs:155-166 [ConstraintList] *)
Record constraint_list : Type := ConstraintList {
  cl_field : Z; cl_encoding : encoding; cl_no_public_outputs : nat; cl_no_public_inputs : nat; cl_no_private_inputs : nat;
  cl_no_private_inputs_witness : nat; cl_no_labels : nat; cl_constraints : list constraint; cl_map : gmap nat nat }.
(** map_to_constraint_list.rs:110-147 [map] with constraint_list/src/lib.rs:131-144 [simplify_constraints] *)
Definition map_to_list_ (fuel steps : nat) (ko : corr_order) (o : oracle) (d : dag) (fl : flags) : res constraint_list :=
  res_bind (map_to_simplifier fuel ko d fl) (fun '(sm, enc) =>
  res_bind (simplification steps o sm) (fun r =>
  Ok (ConstraintList (sm_field sm) enc (sm_no_public_outputs sm) (sm_no_public_inputs sm) (sm_no_private_inputs sm)
        (r_no_private r) (sm_max_signal sm) (r_constraints r) (r_map r)))).

(** ** the symbol file *)
(** constraint_writers/src/sym_writer.rs:4-9 [SymElem] *)
Record sym_elem : Type := SymElem { se_original : Z; se_witness : Z; se_node : Z; se_symbol : string }.
(** constraint_writers/src/sym_writer.rs:10-14,27-31: the line *)
Definition sym_line (s : sym_elem) : string :=
  (pretty (se_original s) +:+ "," +:+ pretty (se_witness s) +:+ "," +:+ pretty (se_node s) +:+ "," +:+ se_symbol s)%string.
(** constraint_list/src/lib.rs:56-63 [IteratorSignal::new] and sym_porting.rs:23-30 *)
Definition sym_of_signal (m : gmap nat nat) (node_id : nat) (s : signal_info) : sym_elem :=
  let witness := default (size m) (m !! si_id s) in
  SymElem (Z.of_nat (si_id s)) (if Nat.eqb witness (size m) then (-1)%Z else Z.of_nat witness) (Z.of_nat node_id) (si_name s).
(** constraint_list/src/sym_porting.rs:14-37 [signal_iteration] *)
Fixpoint signal_iteration (fuel : nat) (enc : encoding) (m : gmap nat nat) (it : iterator) (out : list sym_elem) : res (list sym_elem) :=
  match fuel with
  | O => Panic
  | S fuel =>
      res_bind (iterator_edges enc it) (fun edges =>
      res_foldl (fun out e => res_bind (iterator_next enc it e) (fun next => signal_iteration fuel enc m next out))
        (out ++ (sym_of_signal m (it_node it) <$> it_signals it)) edges)
  end.
(** constraint_list/src/sym_porting.rs:5-12 [port_sym]: the elements, one per line *)
Definition port_sym (fuel : nat) (l : constraint_list) : res (list sym_elem) :=
  res_bind (iterator_new (cl_encoding l)) (fun it => signal_iteration fuel (cl_encoding l) (cl_map l) it []).
(** dag/src/sym_porting.rs:15-30 [visit_tree] *)
Fixpoint visit_tree (fuel : nat) (ko : corr_order) (d : dag) (t : itree) (out : list sym_elem) : res (list sym_elem) :=
  match fuel with
  | O => Panic
  | S fuel =>
      res_bind (res_foldl (fun out signal =>
        match t_names t !! signal with
        | Some name => Ok (out ++ [SymElem (Z.of_nat signal) (Z.of_nat signal) (Z.of_nat (t_node t)) (dotted (t_path t) name)])
        | None => Panic
        end) out (t_signals t)) (fun out =>
      res_bind (get_edges d t) (fun edges =>
      res_foldl (fun out e => res_bind (go_to_subtree ko d t e) (fun subtree => visit_tree fuel ko d subtree out)) out edges))
  end.
(** dag/src/sym_porting.rs:6-13 [write] *)
Definition dag_sym (fuel : nat) (ko : corr_order) (d : dag) : res (list sym_elem) :=
  res_bind (tree_new ko d) (fun t => visit_tree fuel ko d t []).

(** ** handing the constraints to the R1CS writer *)
(** constraint_list/src/lib.rs:187-193 [get_witness_as_vec]; the order of the traversal is [mo] *)
Definition get_witness_as_vec (mo : gmap nat nat -> list (nat * nat)) (m : gmap nat nat) : res (list nat) :=
  res_foldl (fun witness kv => if kv.2 <? length witness then Ok (<[kv.2 := kv.1]> witness) else Panic)
    (replicate (size m) 0) (mo m).
(** [while name.pop() != Some('(') {}] on the reversed characters; without a parenthesis the loop
    never ends *)
Fixpoint pop_parenthesis (rev_name : list Ascii.ascii) : res (list Ascii.ascii) :=
  match rev_name with
  | [] => Panic
  | c :: rest => if Ascii.eqb c (Ascii.ascii_of_nat 40) then Ok rest else pop_parenthesis rest
  end.
Definition gate_name (name : string) : res bytes :=
  res_map (fun r => (fun c => Z.of_N (Ascii.N_of_ascii c)) <$> reverse r) (pop_parenthesis (reverse (String.list_ascii_of_string name))).
(** constraint_list/src/r1cs_porting.rs:59-71: the custom gates and the names they are found by *)
Definition gate_usage (nodes : list (bool * string * list Z)) : res (list (bytes * list Z) * list string) :=
  res_foldl (fun acc '(custom, name, params) =>
    if (custom : bool) then res_map (fun n => (acc.1 ++ [(n, params)], acc.2 ++ [name])) (gate_name name) else Ok acc) ([], []) nodes.
(** constraint_list/src/r1cs_porting.rs:76-89: index of the gate; beyond the end the access panics *)
Fixpoint find_index (order : list string) (name : string) : res nat :=
  match order with
  | [] => Panic
  | x :: order => if bool_decide (x = name) then Ok 0 else res_map S (find_index order name)
  end.
Definition find_indexes (order : list string) (data : list (string * list nat)) : res (list (Z * list Z)) :=
  res_foldl (fun acc '(name, signals) => res_map (fun i => acc ++ [(Z.of_nat i, Z.of_nat <$> signals)]) (find_index order name)) [] data.
(** constraint_list/src/r1cs_porting.rs:91-112 [iterate] *)
Fixpoint iterate_gates (fuel : nat) (enc : encoding) (m : gmap nat nat) (it : iterator) (data : list (string * list nat))
  : res (list (string * list nat)) :=
  match fuel with
  | O => Panic
  | S fuel =>
      res_bind (index (enc_nodes enc) (it_node it)) (fun n =>
      if en_custom n then
        res_bind (res_foldl (fun acc signal => match m !! (signal + it_offset it) with Some w => Ok (acc ++ [w]) | None => Panic end)
          [] (en_ordered n)) (fun signals => Ok (data ++ [(en_name n, signals)]))
      else
        res_bind (iterator_edges enc it) (fun edges =>
        res_foldl (fun data e => res_bind (iterator_next enc it e) (fun next => iterate_gates fuel enc m next data)) data edges))
  end.
(** constraint_list/src/r1cs_porting.rs:4-124 [port_r1cs]: what is handed to the writer *)
Definition port_r1cs (fuel : nat) (mo : gmap nat nat -> list (nat * nat)) (l : constraint_list) (custom_gates : bool) : res r1cs_input :=
  res_bind (res_imap (fun _ c => c_correspondence c (cl_map l)) 0 (cl_constraints l)) (fun cs =>
  res_bind (get_witness_as_vec mo (cl_map l)) (fun witness =>
  let header := HeaderData (cl_field l) (Z.of_nat (size (cl_map l))) (Z.of_nat (cl_no_public_outputs l)) (Z.of_nat (cl_no_public_inputs l))
    (Z.of_nat (cl_no_private_inputs l)) (Z.of_nat (cl_no_labels l)) (Z.of_nat (length cs)) in
  let input gates := R1csInput header ((fun c => (c_a c, c_b c, c_c c)) <$> cs) (Z.of_nat <$> witness) gates in
  if custom_gates then
    res_bind (gate_usage ((fun n => (en_custom n, en_name n, en_parameters n)) <$> enc_nodes (cl_encoding l))) (fun '(used, order) =>
    res_bind (iterator_new (cl_encoding l)) (fun it =>
    res_bind (iterate_gates fuel (cl_encoding l) (cl_map l) it []) (fun data =>
    res_bind (find_indexes order data) (fun applied => Ok (input (Some (used, applied)))))))
  else Ok (input None))).

(** dag/src/r1cs_porting.rs:115-135 [write_constraint_section]: the constraints and the number of signals *)
Fixpoint write_constraint_section (fuel : nat) (ko : corr_order) (d : dag) (t : itree) (out : list constraint) : res (list constraint * nat) :=
  match fuel with
  | O => Panic
  | S fuel =>
      res_bind (get_edges d t) (fun edges =>
      res_foldl (fun acc e => res_bind (go_to_subtree ko d t e) (fun subtree =>
        res_map (fun '(out, n) => (out, acc.2 + n)) (write_constraint_section fuel ko d subtree acc.1)))
        (out ++ t_constraints t, length (t_signals t)) edges)
  end.
(** dag/src/r1cs_porting.rs:85-101 [traverse_tree] *)
Fixpoint traverse_tree (fuel : nat) (ko : corr_order) (d : dag) (t : itree) (data : list (string * list nat)) : res (list (string * list nat)) :=
  match fuel with
  | O => Panic
  | S fuel =>
      res_bind (index (d_nodes d) (t_node t)) (fun n =>
      if n_custom n then
        res_bind (res_foldl (fun acc signal => match n_corr n !! signal with Some i => Ok (acc ++ [i + t_offset t]) | None => Panic end)
          [] (n_ordered n)) (fun signals => Ok (data ++ [(n_template n, signals)]))
      else
        res_bind (get_edges d t) (fun edges =>
        res_foldl (fun data e => res_bind (go_to_subtree ko d t e) (fun subtree => traverse_tree fuel ko d subtree data)) data edges))
  end.
(** dag/src/r1cs_porting.rs:5-113 [write] (no simplification): what is handed to the writer *)
Definition dag_r1cs (fuel : nat) (ko : corr_order) (d : dag) (custom_gates : bool) : res r1cs_input :=
  res_bind (tree_new ko d) (fun tree =>
  res_bind (get_main d) (fun main =>
  res_bind (write_constraint_section fuel ko d tree []) (fun '(cs, n) =>
  let wires := n + 1 in
  let header := HeaderData (d_field d) (Z.of_nat wires) (Z.of_nat (n_outputs main)) (Z.of_nat (n_public_inputs main))
    (Z.of_nat (private_inputs main)) (Z.of_nat wires) (Z.of_nat (length cs)) in
  let input gates := R1csInput header ((fun c => (c_a c, c_b c, c_c c)) <$> cs) (Z.of_nat <$> seq 0 wires) gates in
  if custom_gates then
    res_bind (gate_usage ((fun n => (n_custom n, n_template n, n_parameters n)) <$> d_nodes d)) (fun '(used, order) =>
    res_bind (traverse_tree fuel ko d tree []) (fun data =>
    res_bind (find_indexes order data) (fun applied => Ok (input (Some (used, applied))))))
  else Ok (input None)))).
