(** Model of constraint_list/src/constraint_simplification.rs:101-730 (the simplification pipeline)
    and non_linear_utils.rs.
    - [ConstraintStorage] is a list of constraints indexed by id (StorageModel models the interned
      representation and shows that it behaves like this list).
    - The non-linear constraints are given as one list, in the order in which [EncodingIterator]
      visits the DAG (constraint_simplification.rs:415-428, non_linear_utils.rs:13-29: own node
      first, then each edge).  The offset arithmetic of the iterator is in DagModel.
    - The substitution log (:9-17, the --simplification_substitution JSON file) is the list
      [r_log] of the result; the file format is not modelled.
    - Every [HashMap]/[HashSet] traversal and every message arrival order is an oracle. *)
From stdpp Require Import prelude gmap fin_maps sorting.
From Coq Require Import ZArith.
From Verif Require Import ModArithModel AlgebraModel LinearSimpModel ClusterModel.
Open Scope Z_scope.

(** [Vec]/[LinkedList] traversal with an operation that may panic *)
Fixpoint res_imap {A B} (f : nat -> A -> res B) (i : nat) (l : list A) : res (list B) :=
  match l with
  | [] => Ok []
  | a :: l => res_bind (f i a) (fun b => res_map (cons b) (res_imap f (S i) l))
  end.

(** unspecified orders: sets, keys, message arrival.  The [nat] arguments identify the use. *)
Record oracle : Type := Oracle {
  o_cluster : nat -> nat -> gset nat -> list nat;       (* :81, phase, constraint *)
  o_remove : nat -> gset nat -> list nat;               (* :189, cluster *)
  o_arrive : nat -> list nat -> list nat;               (* :242, :319, phase: order of the clusters *)
  o_fast : nat -> nat -> gset nat -> list nat;          (* simplification_utils.rs:498, phase, constraint *)
  o_lin : nat -> nat -> nat -> nat -> key_order;        (* phase, cluster, then as in LinearSimpModel *)
  o_lin2 : nat -> nat -> nat -> key_order;
  o_subs : nat -> nat -> list substitution -> list substitution; (* simplification_utils.rs:575, phase, cluster *)
}.

(** algebra.rs:1078-1106 [take_cloned_signals_ordered]: a [BTreeSet] *)
Definition signals_ordered (c : constraint) : list nat := merge_sort Nat.le (elements (take_signals c)).

(** ** constraint_simplification.rs:126-196 [eq_cluster_simplification] *)
(** :160-170, one signal *)
Definition eq_note (forb : gset nat) (st : gset nat * option nat * (gset nat * option nat)) (signal : nat)
  : gset nat * option nat * (gset nat * option nat) :=
  let '((remains, min_remains), (remove, min_remove)) := st in
  let least o := Some (match o with None => signal | Some s => Nat.min s signal end) in
  if bool_decide (signal ∈ forb)
  then (({[ signal ]} ∪ remains, least min_remains), (remove, min_remove))
  else ((remains, min_remains), ({[ signal ]} ∪ remove, least min_remove)).
(** :181-187 *)
Definition eq_keep (p : Z) (rh_signal signal : nat) : res constraint :=
  res_bind (asub (AlgebraModel.Signal signal) (AlgebraModel.Signal rh_signal) p) (fun expr => lift (to_constraint expr p)).
(** :189-192 *)
Definition eq_rename (rh_signal signal : nat) : res substitution := lift (subst_new signal (AlgebraModel.Signal rh_signal)).
Definition eq_cluster_simplification (ord : gset nat -> list nat) (forb : gset nat) (p : Z) (cl : cluster)
  : res (list substitution * list constraint) :=
  if Nat.eqb (length (cl_constraints cl)) 1 then
    match last (cl_constraints cl) with
    | None => Panic
    | Some constraint =>
        match signals_ordered constraint with
        | s_0 :: s_1 :: _ =>
            if bool_decide (s_0 ∈ forb) && bool_decide (s_1 ∈ forb) then Ok ([], [constraint])
            else if bool_decide (s_0 ∈ forb) then res_map (fun s => ([s], [])) (eq_rename s_0 s_1)
            else if bool_decide (s_1 ∈ forb) then res_map (fun s => ([s], [])) (eq_rename s_1 s_0)
            else let '(l, r) := if (s_1 <? s_0)%nat then (s_0, s_1) else (s_1, s_0) in
                 res_map (fun s => ([s], [])) (eq_rename r l)
        | _ => Panic
        end
    end
  else
    let '((remains, min_remains), (remove, min_remove)) :=
      foldl (fun st c => foldl (eq_note forb) st (signals_ordered c)) ((∅, None), (∅, None)) (cl_constraints cl) in
    res_bind (match min_remains with
              | Some signal => Ok (signal, remains ∖ {[ signal ]}, remove)
              | None => res_map (fun signal => (signal, remains, remove ∖ {[ signal ]})) (lift min_remove)
              end) (fun '(rh_signal, remains, remove) =>
    res_bind (res_imap (fun _ => eq_keep p rh_signal) 0 (merge_sort Nat.le (elements remains))) (fun kept =>
    res_bind (res_imap (fun _ => eq_rename rh_signal) 0 (ord remove)) (fun subs => Ok (subs, kept)))).

(** constraint_simplification.rs:198-251 [eq_simplification]: clusters of size one are treated at
    once, the others by worker threads; their answers carry the cluster number. *)
Definition eq_simplification (o : oracle) (equalities : list constraint) (forb : gset nat) (no_vars : nat) (p : Z)
  : res (list substitution * list constraint) :=
  res_bind (build_clusters (o_cluster o 0) equalities no_vars) (fun clusters =>
  res_bind (res_imap (fun id => eq_cluster_simplification (o_remove o id) forb p) 0 clusters) (fun results =>
  let is_single id := match clusters !! id with Some cl => Nat.eqb (length (cl_constraints cl)) 1 | None => false end in
  let ids := seq 0 (length clusters) in
  let arrival := filter is_single ids ++ o_arrive o 0 (filter (fun id => negb (is_single id)) ids) in
  let subs_of id := match results !! id with Some r => r.1 | None => [] end in
  Ok (concat (subs_of <$> arrival), concat (snd <$> results)))).

(** constraint_simplification.rs:253-273 [constant_eq_simplification] *)
Fixpoint constant_eq_simplification (c_eq : list constraint) (forb : gset nat) (p : Z)
  : res (list substitution * list constraint) :=
  match c_eq with
  | [] => Ok ([], [])
  | constraint :: c_eq =>
      match last (signals_ordered constraint) with
      | None => Panic
      | Some signal =>
          if bool_decide (signal ∈ forb)
          then res_map (fun '(subs, kept) => (subs, constraint :: kept)) (constant_eq_simplification c_eq forb p)
          else res_bind (clear_signal_from_linear constraint signal p) (fun sub =>
               res_map (fun '(subs, kept) => (sub :: subs, kept)) (constant_eq_simplification c_eq forb p))
      end
  end.

(** constraint_simplification.rs:275-325 [linear_simplification]; [ph] is the phase (for the
    oracles).  [fuel] bounds the loops of [full_simplification] (C15). *)
Definition linear_simplification (fuel : nat) (o : oracle) (ph : nat) (linear : list constraint) (forb : gset nat)
    (no_labels : nat) (p : Z) (use_old_heuristics : bool) : res (list substitution * list constraint) :=
  res_bind (build_clusters (o_cluster o ph) linear no_labels) (fun clusters =>
  res_bind (res_imap (fun id cl => full_simplification fuel (o_lin o ph id) (o_lin2 o ph id) forb use_old_heuristics p
                                     (cl_constraints cl)) 0 clusters) (fun results =>
  let arrival := o_arrive o ph (seq 0 (length clusters)) in
  let cons_of id := match results !! id with Some r => out_constraints r | None => [] end in
  let subs_of id := match results !! id with Some r => o_subs o ph id (out_substitutions r) | None => [] end in
  Ok (concat (subs_of <$> arrival), concat (cons_of <$> arrival)))).

(** ** the occurrence map, constraint_simplification.rs:327-343, 369-377, 652-660, 671-679: a
    constraint id is appended to the list of each of the signals.  The signals come in hash order;
    they are distinct, so the order is not observable. *)
Notation signal_map := (gmap nat (list nat)).
Definition note_signal (c_id : nat) (m : signal_map) (signal : nat) : signal_map :=
  <[signal := default [] (m !! signal) ++ [c_id]]> m.
Definition note_signals (c_id : nat) (signals : gset nat) (m : signal_map) : signal_map :=
  foldl (note_signal c_id) m (elements signals).
(** constraint_simplification.rs:328-343 [build_non_linear_signal_map] *)
Fixpoint build_map_loop (c_id : nat) (storage : list constraint) (m : signal_map) : signal_map :=
  match storage with
  | [] => m
  | c :: storage => build_map_loop (S c_id) storage (note_signals c_id (take_signals c) m)
  end.
Definition build_non_linear_signal_map (storage : list constraint) : signal_map := build_map_loop 0 storage ∅.

(** constraint_simplification.rs:351-380 [constraint_processing] *)
Fixpoint constraint_processing (c_ids : list nat) (s : substitution) (p : Z)
    (storage : list constraint) (m : signal_map) (linear : list nat)
  : res (list constraint * signal_map * list nat) :=
  match c_ids with
  | [] => Ok (storage, m, linear)
  | c_id :: c_ids =>
      res_bind (lift (storage !! c_id)) (fun constraint =>
      res_bind (fix_constraint (c_subst constraint s p) p) (fun constraint =>
      constraint_processing c_ids s p (<[c_id := constraint]> storage)
        (note_signals c_id (dom (s_to s)) m)
        (if is_linear constraint then linear ++ [c_id] else linear)))
  end.
(** constraint_simplification.rs:382-388 *)
Fixpoint apply_map_loop (substitutions : list substitution) (p : Z)
    (storage : list constraint) (m : signal_map) (linear_id : list nat)
  : res (list constraint * signal_map * list nat) :=
  match substitutions with
  | [] => Ok (storage, m, linear_id)
  | s :: substitutions =>
      match m !! s_from s with
      | None => apply_map_loop substitutions p storage m linear_id
      | Some c_ids =>
          res_bind (constraint_processing c_ids s p storage m []) (fun '(storage, m, new_linear) =>
          apply_map_loop substitutions p storage m (linear_id ++ new_linear))
      end
  end.
(** constraint_simplification.rs:389-394 *)
Fixpoint take_linear (linear_id : list nat) (storage : list constraint) : res (list constraint * list constraint) :=
  match linear_id with
  | [] => Ok ([], storage)
  | c_id :: linear_id =>
      res_bind (lift (storage !! c_id)) (fun constraint =>
      res_map (fun '(linear, storage) => (constraint :: linear, storage))
        (take_linear linear_id (<[c_id := c_empty]> storage)))
  end.
(** constraint_simplification.rs:345-396 [apply_substitution_to_map] *)
Definition apply_substitution_to_map (storage : list constraint) (m : signal_map) (substitutions : list substitution) (p : Z)
  : res (list constraint * list constraint * signal_map) :=
  res_bind (apply_map_loop substitutions p storage m []) (fun '(storage, m, linear_id) =>
  res_map (fun '(linear, storage) => (linear, storage, m)) (take_linear linear_id storage)).

(** constraint_simplification.rs:398-429 [build_relevant_set] *)
Definition unwrapped_signal (renames : gmap nat aexpr) (signal : nat) : nat :=
  match renames !! signal with Some (AlgebraModel.Signal symbol) => symbol | _ => signal end.
Definition relevant_signal (renames deletes : gmap nat aexpr) (relevant : gset nat) (signal : nat) : gset nat :=
  let signal := unwrapped_signal renames signal in
  match deletes !! signal with None => {[ signal ]} ∪ relevant | Some _ => relevant end.
Definition build_relevant_set (non_linear : list constraint) (renames deletes : gmap nat aexpr) : gset nat :=
  foldl (fun relevant c => foldl (relevant_signal renames deletes) relevant (elements (take_signals c))) ∅ non_linear.
(** constraint_simplification.rs:431-438 [remove_not_relevant] *)
Definition remove_not_relevant (substitutions : gmap nat aexpr) (relevant : gset nat) : gmap nat aexpr :=
  filter (fun kv => kv.1 ∈ relevant) substitutions.

(** constraint_simplification.rs:494-503, 520-524, 569-573: rewriting a list with an encoded
    substitution; [fix_constraint] only where something was applied. *)
Definition rewrite_one (ord : gset nat -> list nat) (enc : gmap nat aexpr) (p : Z) (c : constraint) : res constraint :=
  res_bind (fast_constraint_subst ord c enc p) (fun '(c, applied) =>
  if applied : bool then fix_constraint c p else Ok c).
Definition rewrite_list (o : oracle) (ph : nat) (enc : gmap nat aexpr) (p : Z) (l : list constraint) : res (list constraint) :=
  res_imap (fun i => rewrite_one (o_fast o ph i) enc p) 0 l.

(** non_linear_utils.rs:14-22: one non-linear constraint through the frames *)
Fixpoint rewrite_frames (o : oracle) (ph i : nat) (frames : list (gmap nat aexpr)) (p : Z) (c : constraint) : res constraint :=
  match frames with
  | [] => fix_constraint c p
  | enc :: frames =>
      res_bind (fast_constraint_subst (o_fast o ph i) c enc p) (fun '(c, _) => rewrite_frames o (S ph) i frames p c)
  end.
(** non_linear_utils.rs:6-31 [obtain_and_simplify_non_linear] *)
Fixpoint obtain_non_linear (o : oracle) (ph i : nat) (frames : list (gmap nat aexpr)) (p : Z) (non_linear : list constraint)
  : res (list constraint * list constraint) :=
  match non_linear with
  | [] => Ok ([], [])
  | c :: non_linear =>
      res_bind (rewrite_frames o ph i frames p c) (fun c =>
      res_map (fun '(linear, storage) => if is_linear c then (c :: linear, storage) else (linear, c :: storage))
        (obtain_non_linear o ph (S i) frames p non_linear))
  end.

(** constraint_simplification.rs:101-124 [rebuild_witness]: one signal, then the loop over 0..max_signal *)
Record witness_state : Type := WState { w_deleted : gset nat; w_free : list nat; w_map : gmap nat nat }.
Definition witness_step (forb used : gset nat) (remove_unused : bool) (st : witness_state) (signal : nat) : witness_state :=
  let '(WState deleted free m) := st in
  if bool_decide (signal ∈ deleted) then WState deleted (free ++ [signal]) m
  else if remove_unused && negb (bool_decide (signal ∈ forb)) && negb (bool_decide (signal ∈ used))
  then WState ({[ signal ]} ∪ deleted) (free ++ [signal]) m
  else match free with
       | new_pos :: free => WState deleted (free ++ [signal]) (<[signal := new_pos]> m)
       | [] => WState deleted [] (<[signal := signal]> m)
       end.
Definition rebuild_witness (max_signal : nat) (deleted forb used : gset nat) (remove_unused : bool) : witness_state :=
  foldl (witness_step forb used remove_unused) (WState deleted [] ∅) (seq 0 max_signal).

(** ** constraint_simplification.rs:442-730 [simplification] *)
(** lib.rs:106-130 [Simplifier] ([parallel_flag] and the JSON flags do not influence the result) *)
Record simplifier : Type := Simplifier {
  sm_field : Z;
  sm_non_linear : list constraint;
  sm_no_public_inputs : nat;
  sm_no_public_outputs : nat;
  sm_no_private_inputs : nat;
  sm_forbidden : gset nat;
  sm_cons_equalities : list constraint;
  sm_equalities : list constraint;
  sm_linear : list constraint;
  sm_max_signal : nat;
  sm_no_rounds : nat;
  sm_flag_s : bool;
  sm_flag_old_heuristics : bool;
}.
(** the state of the rounds *)
Record round_state : Type := RState {
  rs_linear : list constraint;
  rs_lconst : list constraint;
  rs_storage : list constraint;
  rs_map : signal_map;
  rs_deleted : gset nat;
  rs_log : list substitution;
}.
(** constraint_simplification.rs:629-634 *)
Definition rewrite_lconst (subs : list substitution) (p : Z) (c : constraint) : res constraint :=
  fix_constraint (foldl (fun c s => c_subst c s p) c subs) p.
(** constraint_simplification.rs:613-646: the rounds; [ph] numbers them for the oracles *)
Fixpoint rounds (no_rounds : nat) (fuel : nat) (o : oracle) (ph : nat) (sm : simplifier) (st : round_state) : res round_state :=
  match no_rounds with
  | O => Ok st
  | S no_rounds =>
      if bool_decide (rs_linear st = []) then Ok st else
      res_bind (linear_simplification fuel o ph (rs_linear st) (sm_forbidden sm) (sm_max_signal sm) (sm_field sm)
                  (sm_flag_old_heuristics sm)) (fun '(subs, constants) =>
      res_bind (res_imap (fun _ => rewrite_lconst subs (sm_field sm)) 0 (rs_lconst st ++ constants)) (fun lconst =>
      res_bind (apply_substitution_to_map (rs_storage st) (rs_map st) subs (sm_field sm)) (fun '(linear, storage, m) =>
      rounds no_rounds fuel o (S ph) sm
        (RState linear lconst storage m (list_to_set (s_from <$> subs) ∪ rs_deleted st) (rs_log st ++ subs)))))
  end.
(** constraint_simplification.rs:648-665, 666-685: adding the rest to the storage *)
Definition add_to_storage (st : list constraint * signal_map) (c : constraint) : list constraint * signal_map :=
  (st.1 ++ [c], note_signals (length st.1) (take_signals c) st.2).

Record simplification_result : Type := Result {
  r_constraints : list constraint;
  r_map : gmap nat nat;
  r_no_private : nat;
  r_deleted : gset nat;
  r_log : list substitution;
}.
(** constraint_simplification.rs:715-729 *)
Definition deleted_inputs (sm : simplifier) (deleted : gset nat) : nat :=
  size (filter (fun signal => (sm_no_public_outputs sm + 1 <= signal)%nat /\
    (signal <= sm_no_public_outputs sm + sm_no_public_inputs sm + sm_no_private_inputs sm)%nat) deleted).

Definition simplification (fuel : nat) (o : oracle) (sm : simplifier) : res simplification_result :=
  let p := sm_field sm in
  let forb := sm_forbidden sm in
  let no_labels := sm_max_signal sm in
  let apply_linear := negb (sm_flag_s sm) in
  (* 468-479 *)
  let relevant := build_relevant_set (sm_non_linear sm) ∅ ∅ in
  (* 481-511 *)
  res_bind (eq_simplification o (sm_equalities sm) forb no_labels p) (fun '(eq_subs, eq_cons) =>
  let eq_enc := build_encoded eq_subs in
  res_bind (rewrite_list o 0 eq_enc p (sm_linear sm)) (fun linear =>
  res_bind (rewrite_list o 1 eq_enc p (sm_cons_equalities sm)) (fun cons_equalities =>
  let deleted := dom eq_enc in
  let single_substitutions := remove_not_relevant eq_enc relevant in
  (* 513-531 *)
  res_bind (constant_eq_simplification cons_equalities forb p) (fun '(ct_subs, ct_cons) =>
  let lconst := eq_cons ++ ct_cons in
  let cons_substitutions := build_encoded ct_subs in
  res_bind (rewrite_list o 2 cons_substitutions p linear) (fun linear =>
  let deleted := dom cons_substitutions ∪ deleted in
  (* 533-542 *)
  let relevant := build_relevant_set (sm_non_linear sm) single_substitutions cons_substitutions in
  (* 544-578 *)
  res_bind (
    if apply_linear then
      res_bind (linear_simplification fuel o 1 linear forb no_labels p (sm_flag_old_heuristics sm)) (fun '(subs, kept) =>
      let only_relevant := filter (fun s => s_from s ∈ relevant) subs in
      let substitutions := build_encoded only_relevant in
      res_bind (rewrite_list o 3 substitutions p (lconst ++ kept)) (fun lconst =>
      Ok (subs, substitutions, lconst)))
    else Ok ([], ∅, lconst ++ linear)) (fun '(lin_subs, linear_substitutions, lconst) =>
  let deleted := list_to_set (s_from <$> lin_subs) ∪ deleted in
  (* 580-597 *)
  res_bind (obtain_non_linear o 4 0 [single_substitutions; cons_substitutions; linear_substitutions] p (sm_non_linear sm))
    (fun '(linear, storage) =>
  let no_rounds := pred (sm_no_rounds sm) in
  (* 599-646 *)
  let st := RState linear lconst storage (build_non_linear_signal_map storage) deleted (eq_subs ++ ct_subs ++ lin_subs) in
  res_bind (if apply_linear then rounds no_rounds fuel o 2 sm st else Ok st) (fun st =>
  (* 648-685 *)
  res_bind (res_imap (fun _ c => fix_constraint c p) 0 (rs_lconst st)) (fun lconst =>
  let '(storage, non_linear_map) := foldl add_to_storage (rs_storage st, rs_map st) (rs_linear st ++ lconst) in
  (* 687-695: [simplify] of non_linear_simplification.rs erases nothing; 697 [extract_with] *)
  let storage := filter (fun c => negb (is_empty c)) storage in
  (* 700-713 *)
  let w := rebuild_witness no_labels (rs_deleted st) forb (dom non_linear_map) true in
  (* 715-729: [usize] subtraction *)
  let d := deleted_inputs sm (w_deleted w) in
  if (d <=? sm_no_private_inputs sm)%nat
  then Ok (Result storage (w_map w) (sm_no_private_inputs sm - d) (w_deleted w) (rs_log st))
  else Panic))))))))).

