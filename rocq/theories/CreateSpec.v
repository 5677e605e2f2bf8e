(** Vocabulary of the statements about the creation of components. *)
From stdpp Require Import prelude gmap fin_maps sorting strings pretty.
From Coq Require Import ZArith.
From Verif Require Import ModArithModel AlgebraModel PipelineModel DagModel DagSpec CreateModel.
Open Scope nat_scope.

(** ** what the execution of the templates guarantees *)
(** Template number [i] when its execution ends: the declared components have different names, an
    initialised position belongs to a declared component and is within its dimensions, it is
    initialised once, and the template found there has ended before. *)
Record executed_ok (i : nat) (x : executed) : Prop := {
  eo_names : NoDup (m_name <$> x_components x);
  eo_declared : forall c, c ∈ x_connexions x -> exists m, m ∈ x_components x /\ m_name m = k_name c /\ Forall2 lt (k_indexed c) (m_length m);
  eo_once : NoDup ((fun c => (k_name c, k_indexed c)) <$> x_connexions x);
  eo_targets : forall c, c ∈ x_connexions x -> k_to c < i;
}.
Definition program_ok (model : list executed) : Prop := model <> [] /\ forall i x, model !! i = Some x -> executed_ok i x.
(** the label of a component is its name followed by its position (execute.rs:2787-2826) *)
Definition labels_ok (model : list executed) : Prop := forall i x c, model !! i = Some x -> c ∈ x_connexions x -> k_full c = (k_name c +:+ bracketed (k_indexed c))%string.
(** no component array has exactly one position *)
Definition no_unit_arrays (model : list executed) : Prop := forall i x m, model !! i = Some x -> m ∈ x_components x -> m_length m <> [] -> product (m_length m) <> 1.
(** every position of every component array that is used is initialised *)
Definition complete_arrays (x : executed) : Prop := forall c m idx, c ∈ x_connexions x -> m ∈ x_components x -> m_name m = k_name c ->
  Forall2 lt idx (m_length m) -> exists c', c' ∈ x_connexions x /\ k_name c' = k_name c /\ k_indexed c' = idx.

(** The compiled circuit: the DAG and the templates given to the code generators. *)
Definition compiles (p : Z) (model : list executed) (d : dag) (ts : list instance_info) : Prop :=
  exists ko xs, valid_corr_order ko /\ insert_all ko p model = Ok (d, xs) /\ export_all xs = Ok ts.

(** ** positions *)
(** the position of an element in the row-major order of an array *)
Fixpoint row_major (lengths indexes : list nat) : nat :=
  match lengths, indexes with
  | _ :: lengths, i :: indexes => i * product lengths + row_major lengths indexes
  | _, _ => 0
  end.

(** ** the components of a running witness generator (C++) *)
(** its template, where its signals start, its number, its full name *)
Record component : Type := Component { o_template : nat; o_start : nat; o_index : nat; o_name : string }.
(** A component comes to be: the main component is created by [run] with signals from 1 and number
    0; the code of a component creates its sub-components. *)
Inductive comes_to_be (ts : list instance_info) : component -> Prop :=
| cb_main : comes_to_be ts (Component (length ts - 1) 1 0 "main")
| cb_sub c t bs g : comes_to_be ts c -> ts !! o_template c = Some t -> template_buckets t = Ok bs -> g ∈ cpp_children (o_start c) (o_index c) bs ->
    comes_to_be ts (Component (g_template g) (g_start g) (g_index g) (dotted (o_name c) (g_name g))).
(** the bytes the WebAssembly code reserves for a component of a template *)
Definition block_of (ts : list instance_info) (i : nat) : nat := match ts !! i with Some t => wasm_block t | None => 0 end.

(** ** the components a template creates *)
(** whether a component is created for parallel execution: its initialisation or its template says so *)
Definition declared_parallel (model : list executed) (i : nat) : bool := match model !! i with Some x => x_parallel x | None => false end.
Definition status (model : list executed) (c : connexion) : bool := k_parallel c || declared_parallel model (k_to c).
(** [g] creates the component of the initialisation [c], which is the edge [e] of the DAG: its template,
    signals and number; it is recorded where the instructions of the template look for it: at the
    address of its component plus its row-major position. *)
Record creates (model : list executed) (x : executed) (t : instance_info) (start ctx : nat) (c : connexion) (e : edge) (g : created) : Prop := {
  cr_edge : e_label e = k_full c /\ e_goes_to e = k_to c;
  cr_template : g_template g = k_to c;
  cr_start : g_start g = start + e_in e;
  cr_index : g_index g = ctx + e_in_component e;
  cr_parallel : g_parallel g = status model c;
  cr_place : exists m base, m ∈ x_components x /\ m_name m = k_name c /\ initialize_components (ii_components t) !! k_name c = Some (base, m_length m) /\
    g_at g = base + row_major (m_length m) (k_indexed c) /\
    g_name g = if product (m_length m) =? 1 then k_name c else (k_name c +:+ bracketed (k_indexed c))%string;
}.
(** the components of one array all have the same status *)
Definition same_status (model : list executed) (x : executed) (name : string) : Prop :=
  forall c c', c ∈ x_connexions x -> c' ∈ x_connexions x -> k_name c = name -> k_name c' = name -> status model c = status model c'.
