(** The warnings about unconstrained signals of [--inspect] (dag/src/constraint_correctness_analysis.rs).

    Simplifications.  A warning is the data shown in its text.  The order in which the signals of one constraint
    are counted does not matter and is fixed; the traversal orders of the two other hash maps are the
    oracles [ko] (names of the signals of a node) and [wo] (arrays with unconstrained signals). *)
From stdpp Require Import prelude gmap fin_maps sorting strings.
From Coq Require Import ZArith Ascii.
From Verif Require Import ModArithModel AlgebraModel PipelineModel DagModel.
Open Scope nat_scope.

(** constraint_correctness_analysis.rs:48-52 *)
Inductive signal_type := Local | IOSubcomponent.
(** constraint_correctness_analysis.rs:13-46: the text for one signal, and the text for an array with the number of
    signals and two of them *)
Inductive warning :=
| Single (t : signal_type) (template signal : string)
| Several (t : signal_type) (template array : string) (total : nat) (example1 example2 : string).

(** [str::split] *)
Fixpoint split_on (c : Ascii.ascii) (s : string) : list string :=
  match s with
  | EmptyString => [EmptyString]
  | String a s =>
    if Ascii.eqb a c then EmptyString :: split_on c s
    else match split_on c s with [] => [String a EmptyString] | w :: l => String a w :: l end
  end.
(** constraint_correctness_analysis.rs:59-70 *)
Definition split_signal_name_index (name : string) : string :=
  let split_components := split_on "."%char name in
  let front := foldl (fun acc w => acc +:+ w +:+ ".")%string EmptyString (removelast split_components) in
  (front +:+ default EmptyString (head (split_on "["%char (default EmptyString (last split_components)))))%string.

(** constraint_correctness_analysis.rs:113-116, 120-121: [remove(..).unwrap()], then [insert] *)
Definition bump (m : gmap nat nat) (signal : nat) : res (gmap nat nat) :=
  match m !! signal with Some prev => Ok (<[signal := prev + 1]> m) | None => Panic end.
(** collects the values of a loop that may panic *)
Fixpoint collect {A B} (f : A -> res B) (l : list A) : res (list B) :=
  match l with [] => Ok [] | a :: l => res_bind (f a) (fun b => res_bind (collect f l) (fun l => Ok (b :: l))) end.
(** the order of the names of signals: byte by byte *)
Definition stat_le (a b : string * signal_type * nat) : Prop := String.leb a.1.1 b.1.1 = true.
Global Instance stat_le_dec : RelDecision stat_le.
Proof. intros a b. unfold stat_le. apply _. Defined.
(** constraint_correctness_analysis.rs:100-139 *)
Definition visit_node (ko : corr_order) (n : node) : res (list (string * signal_type * nat)) :=
  let reachable := filter (fun x => x.2 ∈ n_reachables n) (ko (n_corr n)) in
  let rev_correspondence : gmap nat string := foldl (fun m x => <[x.2 := x.1]> m) ∅ reachable in
  let constraint_counter : gmap nat nat := foldl (fun m x => <[x.2 := 0]> m) ∅ reachable in
  res_bind (res_foldl (fun m c => res_foldl bump m (elements (take_signals c))) constraint_counter (n_constraints n)) (fun constraint_counter =>
  res_bind (res_foldl bump constraint_counter (n_underscored n)) (fun constraint_counter =>
  res_bind (collect (fun '(id, appearances) =>
      match rev_correspondence !! id with
      | Some name => Ok (name, if bool_decide (id ∈ n_locals n) then Local else IOSubcomponent, appearances)
      | None => Panic
      end) (map_to_list constraint_counter)) (fun signal_stats =>
  Ok (merge_sort stat_le signal_stats)))).

(** constraint_correctness_analysis.rs:76-90 *)
Definition note (m : gmap string (signal_type * list string)) (x : string * signal_type * nat) : gmap string (signal_type * list string) :=
  let '(name, xtype, no_appearances) := x in
  if no_appearances =? 0 then
    let signal_name := split_signal_name_index name in
    match m !! signal_name with
    | Some (t, examples) => <[signal_name := (t, examples ++ [name])]> m
    | None => <[signal_name := (xtype, [name])]> m
    end
  else m.
(** constraint_correctness_analysis.rs:15-28, 33-46: [examples[0]] and [examples[1]] *)
Definition new_warning (template : string) (x : string * (signal_type * list string)) : res warning :=
  let '(signal, (t, examples)) := x in
  match examples with
  | [e] => Ok (Single t template e)
  | e1 :: e2 :: _ => Ok (Several t template signal (length examples) e1 e2)
  | [] => Panic
  end.
Notation array_order := (gmap string (signal_type * list string) -> list (string * (signal_type * list string))).
(** constraint_correctness_analysis.rs:72-98 *)
Definition analysis_interpretation (wo : array_order) (template : string) (stats : list (string * signal_type * nat)) : res (list warning) :=
  collect (new_warning template) (wo (foldl note ∅ stats)).
(** constraint_correctness_analysis.rs:159-173 *)
Fixpoint analyse_from (ko : corr_order) (wo : array_order) (nodes : list node) (visited : gset string) : res (list warning) :=
  match nodes with
  | [] => Ok []
  | n :: nodes =>
    if negb (n_custom n) && negb (bool_decide (n_template n ∈ visited)) then
      res_bind (visit_node ko n) (fun stats =>
      res_bind (analysis_interpretation wo (n_template n) stats) (fun ws =>
      res_bind (analyse_from ko wo nodes ({[n_template n]} ∪ visited)) (fun rest => Ok (ws ++ rest))))
    else analyse_from ko wo nodes visited
  end.
(** dag/src/lib.rs:468-475; constraint_generation/src/execution_data/executed_program.rs:202-206: after [clean_constraints].
    There are never errors *)
Definition constraint_analysis (ko : corr_order) (wo : array_order) (d : dag) : res (list warning) :=
  analyse_from ko wo (d_nodes (clean_constraints d)) ∅.
