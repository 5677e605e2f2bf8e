(** Vocabulary of the statements about the circuit DAG. *)
From stdpp Require Import prelude gmap fin_maps sorting strings.
From Coq Require Import ZArith.
From Verif Require Import ModArithModel AlgebraModel AlgebraSpec PipelineModel PipelineSpec R1csModel DagModel.
Open Scope nat_scope.

(** the traversal of a [HashMap] lists its entries in some order *)
Definition valid_corr_order (ko : corr_order) : Prop := forall m, ko m ≡ₚ map_to_list m.

(** the calls by which the compiler builds the DAG (public methods of [DAG]) *)
Inductive dag_op : Type :=
| OpNode (template_name : string) (parameters : list Z) (is_parallel is_custom_gate : bool)
| OpInput (name : string) (is_public : bool)
| OpOutput (name : string)
| OpIntermediate (name : string)
| OpOrdered (name : string)
| OpEdge (to : nat) (label : string) (is_parallel : bool)
| OpConstraint (c : constraint)
| OpUnderscored (signal : nat)
| OpIndexes (number : nat).
Definition dag_step (ko : corr_order) (d : dag) (o : dag_op) : res dag :=
  match o with
  | OpNode t ps par cus => Ok (add_node t ps par cus d)
  | OpInput n pub => Ok (on_main (node_add_input n pub) d)
  | OpOutput n => Ok (on_main (node_add_output n) d)
  | OpIntermediate n => Ok (on_main (node_add_intermediate n) d)
  | OpOrdered n => Ok (on_main (node_add_ordered n) d)
  | OpEdge to label par => add_edge ko to label par d
  | OpConstraint c => Ok (on_main (node_add_constraint c) d)
  | OpUnderscored s => Ok (on_main (node_add_underscored s) d)
  | OpIndexes n => Ok (on_main (node_set_indexes n) d)
  end.
(** everything that can be built; every call may see its own traversal order *)
Inductive built (p : Z) : dag -> Prop :=
| built_new : built p (dag_new p)
| built_step ko d o d' : valid_corr_order ko -> built p d -> dag_step ko d o = Ok d' -> built p d'.
(** the names a call introduces in the node under construction are not in use there *)
Definition fresh (d : dag) (o : dag_op) : Prop :=
  match o, last (d_nodes d) with
  | (OpInput name _ | OpOutput name | OpIntermediate name), Some n => n_corr n !! name = None
  | OpEdge to label _, Some n => forall t s id, d_nodes d !! to = Some t -> n_corr t !! s = Some id -> id ∈ n_locals t ->
      n_corr n !! dotted label s = None
  | _, _ => True
  end.
(** a constraint mentions signals that exist; the ordered list names signals of the node *)
Definition in_scope (d : dag) (o : dag_op) : Prop :=
  match o, last (d_nodes d) with
  | OpConstraint c, Some n => forall k, in_c k c -> 1 <= k <= n_signals n
  | OpOrdered name, Some n => exists id, n_corr n !! name = Some id /\ id ∈ n_locals n
  | _, _ => True
  end.
(** signals are declared before sub-components, outputs before public inputs before the others
    (the order of executed_template.rs:253-306: [build_wires], then [build_connexions]) *)
Definition in_order (d : dag) (o : dag_op) : Prop :=
  match o, last (d_nodes d) with
  | OpOutput _, Some n => last (d_adjacency d) = Some [] /\ n_inputs n = 0 /\ n_intermediates n = 0
  | OpInput _ true, Some n => last (d_adjacency d) = Some [] /\ n_inputs n = n_public_inputs n /\ n_intermediates n = 0
  | OpInput _ false, Some n => last (d_adjacency d) = Some [] /\ n_intermediates n = 0
  | OpIntermediate _, Some n => last (d_adjacency d) = Some []
  | _, _ => True
  end.
(** constraints have canonical coefficients *)
Definition canonical (p : Z) (o : dag_op) : Prop := match o with OpConstraint c => canon_c p c | _ => True end.
(** all of this: how the compiler makes its calls *)
Definition well_formed (p : Z) (d : dag) (o : dag_op) : Prop := fresh d o /\ in_scope d o /\ in_order d o /\ canonical p o.
(** histories all of whose calls satisfy [P] *)
Inductive built_with (P : dag -> dag_op -> Prop) (p : Z) : dag -> Prop :=
| bw_new : built_with P p (dag_new p)
| bw_step ko d o d' : valid_corr_order ko -> built_with P p d -> P d o -> dag_step ko d o = Ok d' -> built_with P p d'.

(** ** component instances *)
(** An instance of a template in the circuit: its position (the edge numbers from main), the node,
    the offset of its signal numbers, its name. *)
Record inst : Type := Inst { i_pos : list nat; i_node : nat; i_off : nat; i_path : string }.
Inductive instance (d : dag) : inst -> Prop :=
| inst_main n : last (d_nodes d) = Some n -> instance d (Inst [] (length (d_nodes d) - 1) 0 "main")
| inst_sub x es j e : instance d x -> d_adjacency d !! i_node x = Some es -> es !! j = Some e ->
    instance d (Inst (i_pos x ++ [j]) (e_goes_to e) (i_off x + e_in e) (dotted (i_path x) (e_label e))).
(** the global number of a local signal of an instance *)
Definition global (x : inst) (id : nat) : nat := id + i_off x.
(** number of signals of the whole circuit (without the constant one) *)
Definition total_signals (d : dag) : nat := match last (d_nodes d) with Some n => n_signals n | None => 0 end.
(** the assignment an instance sees *)
Definition seen_by (x : inst) (ρ : assignment) : assignment := fun k => ρ (global x k).
(** the constraints of a template, and of an instance *)
Definition template_constraints (d : dag) (i : nat) : list constraint :=
  match d_nodes d !! i with Some n => n_constraints n | None => [] end.
(** an assignment satisfies the circuit: in every instance, the constraints of its template *)
Definition circuit_holds (p : Z) (d : dag) (ρ : assignment) : Prop :=
  forall x, instance d x -> satisfies p (seen_by x ρ) (template_constraints d (i_node x)).

(** ** histories as lists of calls *)
Inductive history (P : dag -> dag_op -> Prop) (p : Z) : list dag_op -> dag -> Prop :=
| h_new : history P p [] (dag_new p)
| h_step ko ops d o d' : valid_corr_order ko -> history P p ops d -> P d o -> dag_step ko d o = Ok d' -> history P p (ops ++ [o]) d'.
(** the calls for the template declared last (after the last [add_node]) *)
Definition current (ops : list dag_op) : list dag_op :=
  foldl (fun acc o => match o with OpNode _ _ _ _ => [] | _ => acc ++ [o] end) [] ops.
(** the signals it declares, in order *)
Definition outputs_of (ops : list dag_op) : list string := omap (fun o => match o with OpOutput s => Some s | _ => None end) ops.
Definition public_inputs_of (ops : list dag_op) : list string := omap (fun o => match o with OpInput s true => Some s | _ => None end) ops.
Definition private_inputs_of (ops : list dag_op) : list string := omap (fun o => match o with OpInput s false => Some s | _ => None end) ops.
Definition intermediates_of (ops : list dag_op) : list string := omap (fun o => match o with OpIntermediate s => Some s | _ => None end) ops.

(** ** the shapes of constraints *)
Definition shape_constant (c : constraint) : Prop :=
  c_a c = ∅ /\ c_b c = ∅ /\ exists k v, k <> 0 /\ (c_c c = {[ k := v ]} \/ exists w, c_c c = {[ k := v; 0 := w ]}).
Definition shape_equality (p : Z) (c : constraint) : Prop :=
  c_a c = ∅ /\ c_b c = ∅ /\ exists x y v w, x <> 0 /\ y <> 0 /\ x <> y /\ c_c c = {[ x := v; y := w ]} /\ (v + w =[p]= 0)%Z.
Definition shape_linear (c : constraint) : Prop := c_a c = ∅ /\ c_b c = ∅.
Definition shape_product (c : constraint) : Prop := c_a c <> ∅ \/ c_b c <> ∅.

(** ** names *)
Definition dot : Ascii.ascii := Ascii.ascii_of_nat 46.
Definition bracket : Ascii.ascii := Ascii.ascii_of_nat 91.
Fixpoint no_dot (s : string) : Prop := match s with EmptyString => True | String c s => c <> dot /\ no_dot s end.
(** the identifier a name starts with: up to the first ['.'] or ['['] *)
Fixpoint identifier (s : string) : string :=
  match s with
  | EmptyString => EmptyString
  | String c s => if bool_decide (c = dot \/ c = bracket) then EmptyString else String c (identifier s)
  end.
(** as the language prescribes: a component's name has no dot and is used once; signals and
    components do not share an identifier *)
Definition well_named (d : dag) (o : dag_op) : Prop :=
  match o, last (d_nodes d), last (d_adjacency d) with
  | (OpInput name _ | OpOutput name | OpIntermediate name), Some n, Some es => forall e, e ∈ es -> identifier (e_label e) <> identifier name
  | OpEdge to label _, Some n, Some es => no_dot label /\ (forall e, e ∈ es -> e_label e <> label) /\
      forall s id, n_corr n !! s = Some id -> id ∈ n_locals n -> identifier s <> identifier label
  | _, _, _ => True
  end.
(** the full name of a local signal of an instance *)
Definition full_name (x : inst) (s : string) : string := dotted (i_path x) s.

(** ** the compiler's run: declarations, then the cleaning of constraints *)
Definition compiled (p : Z) (d : dag) : Prop := exists d0, built_with (well_formed p) p d0 /\ d_nodes d0 <> [] /\ d = clean_constraints d0.

(** ** flattening *)
(** positions in depth-first order *)
Fixpoint pos_lt (a b : list nat) : Prop :=
  match a, b with
  | [], _ :: _ => True
  | x :: a, y :: b => x < y \/ (x = y /\ pos_lt a b)
  | _, [] => False
  end.
(** the instances, each once, depth first *)
Record enumerates (Q : inst -> Prop) (l : list inst) : Prop := {
  en_all : forall x, x ∈ l <-> Q x;
  en_order : StronglySorted pos_lt (i_pos <$> l);
}.
(** [m'] is [m] with every signal number moved by [off]; the constant term stays *)
Definition shifted_lin (off : nat) (m m' : lin) : Prop :=
  m' !! 0 = m !! 0 /\ (forall k, k <> 0 -> m' !! (k + off) = m !! k) /\ (forall k, 1 <= k <= off -> m' !! k = None).
Definition shifted (off : nat) (c c' : constraint) : Prop :=
  shifted_lin off (c_a c) (c_a c') /\ shifted_lin off (c_b c) (c_b c') /\ shifted_lin off (c_c c) (c_c c').
(** a row of the R1CS *)
Notation r1cs_row := (lin * lin * lin)%type.
Definition row (r : r1cs_row) : constraint := Constraint r.1.1 r.1.2 r.2.
(** [rows] are the constraints of the templates of the instances [l], in order, at their offsets *)
Definition flattens (d : dag) (l : list inst) (rows : list constraint) : Prop :=
  exists blocks, rows = concat blocks /\
    Forall2 (fun x block => Forall2 (shifted (i_off x)) (template_constraints d (i_node x)) block) l blocks.

(** ** custom gates *)
(** the instances reached without entering a custom gate *)
Inductive visited (d : dag) : inst -> Prop :=
| vis_main n : last (d_nodes d) = Some n -> visited d (Inst [] (length (d_nodes d) - 1) 0 "main")
| vis_sub x n es j e : visited d x -> d_nodes d !! i_node x = Some n -> n_custom n = false -> d_adjacency d !! i_node x = Some es -> es !! j = Some e ->
    visited d (Inst (i_pos x ++ [j]) (e_goes_to e) (i_off x + e_in e) (dotted (i_path x) (e_label e))).
Definition gate_instance (d : dag) (x : inst) : Prop := visited d x /\ exists n, d_nodes d !! i_node x = Some n /\ n_custom n = true.
(** the name of the gate is the name of the template up to the last parenthesis *)
Definition parenthesis : Ascii.ascii := Ascii.ascii_of_nat 40.
Definition gate_named (s : string) (name : list Z) : Prop := exists front back,
  String.list_ascii_of_string s = front ++ [parenthesis] ++ back /\ parenthesis ∉ back /\ name = (fun c => Z.of_N (Ascii.N_of_ascii c)) <$> front.
Definition has_parenthesis (s : string) : Prop := parenthesis ∈ String.list_ascii_of_string s.
(** the templates that are custom gates *)
Definition custom_nodes (d : dag) : list node := filter (fun n => n_custom n = true) (d_nodes d).
(** the table of custom gates *)
Definition gate_table (d : dag) (used : list (list Z * list Z)) : Prop :=
  Forall2 (fun n u => gate_named (n_template n) u.1 /\ u.2 = n_parameters n) (custom_nodes d) used.
(** an entry of the applications: the first place in the table of a gate with this template's name, and
    the wires of the gate's signals in the order of declaration ([wire k w]: signal [k] is wire [w]) *)
Definition gate_applied (d : dag) (wire : nat -> nat -> Prop) (x : inst) (a : Z * list Z) : Prop :=
  exists n i, d_nodes d !! i_node x = Some n /\ a.1 = Z.of_nat i /\
    (exists m, custom_nodes d !! i = Some m /\ n_template m = n_template n) /\ (forall j m, j < i -> custom_nodes d !! j = Some m -> n_template m <> n_template n) /\
    Forall2 (fun s w => exists k w', n_corr n !! s = Some k /\ wire (global x k) w' /\ w = Z.of_nat w') (n_ordered n) a.2.

(** ** the file *)
(** the constraints the simplification reads as definitions can be satisfied together *)
Definition consistent (p : Z) (d : dag) : Prop := exists ρ, forall x c, instance d x -> c ∈ template_constraints d (i_node x) ->
  shape_constant c \/ shape_equality p c -> holds p (seen_by x ρ) c.
(** signal [k] is wire [w], according to the wire-to-label section *)
Definition is_wire (i : r1cs_input) (k w : nat) : Prop := i_signals i !! w = Some (Z.of_nat k).

(** ** the symbol file *)
(** What a symbol file [lines] must say about the circuit, against the labels of the R1CS file: one
    line per signal, in the order of the signal numbers, with the signal's full name; the position is
    the wire with that label, or -1 if there is none. *)
Record sym_agrees (d : dag) (lines : list sym_elem) (i : r1cs_input) : Prop := {
  sa_numbers : se_original <$> lines = Z.of_nat <$> seq 1 (total_signals d);
  sa_lines : forall e, e ∈ lines <-> exists x n s k, instance d x /\ d_nodes d !! i_node x = Some n /\ n_corr n !! s = Some k /\ k ∈ n_locals n /\
     se_original e = Z.of_nat (global x k) /\ se_node e = Z.of_nat (i_node x) /\ se_symbol e = full_name x s /\
     ((exists w, se_witness e = Z.of_nat w /\ is_wire i (global x k) w) \/ (se_witness e = (-1)%Z /\ forall w, ~ is_wire i (global x k) w));
  sa_wires : forall w label, i_signals i !! w = Some label -> (w = 0 /\ label = 0%Z) \/ exists e, e ∈ lines /\ se_original e = label /\ se_witness e = Z.of_nat w;
}.
