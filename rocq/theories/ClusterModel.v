(** Model of constraint_list/src/constraint_simplification.rs:19-99 (clusters of constraints that
    share signals).  [Vec] is [list] with checked indices (out of range is [Panic]).
    [take_cloned_signals] returns a [HashSet]: its traversal order is the oracle [ord], indexed by
    the position of the constraint. *)
From stdpp Require Import prelude gmap fin_maps.
From Coq Require Import ZArith.
From Verif Require Import ModArithModel AlgebraModel LinearSimpModel.

(** constraint_simplification.rs:19-23 [Cluster] *)
Record cluster : Type := Cluster { cl_constraints : list constraint; cl_num_signals : nat }.
(** [Cluster::default] *)
Definition cl_default : cluster := Cluster [] 0.
(** constraint_simplification.rs:25-30 [Cluster::new] *)
Definition cl_new (c : constraint) (n : nat) : cluster := Cluster [c] n.
(** constraint_simplification.rs:32-38 [Cluster::merge]; [c0 + c1 - 1] on [usize] panics (debug
    build) when both are zero. *)
Definition cl_merge (c0 c1 : cluster) : res cluster :=
  match (cl_num_signals c0 + cl_num_signals c1)%nat with
  | O => Panic
  | S n => Ok (Cluster (cl_constraints c0 ++ cl_constraints c1) n)
  end.

(** constraint_simplification.rs:48-59 [shrink_jumps_and_find]: following the pointers, then path
    compression.  The loop gets as many steps as there are entries; running out is [Panic], which
    ClusterProofs excludes. *)
Fixpoint find_loop (fuel : nat) (c_to_c : list nat) (current : nat) (jumps : list nat) : res (nat * list nat) :=
  match fuel with
  | O => Panic
  | S f =>
      match c_to_c !! current with
      | None => Panic
      | Some next => if Nat.eqb current next then Ok (current, jumps)
                     else find_loop f c_to_c next (current :: jumps)
      end
  end.
Definition shrink_jumps_and_find (c_to_c : list nat) (org : nat) : res (nat * list nat) :=
  res_bind (find_loop (length c_to_c) c_to_c org []) (fun '(current, jumps) =>
  Ok (current, foldl (fun l redirect => <[redirect := current]> l) c_to_c jumps)).

(** constraint_simplification.rs:61-69 [arena_merge].  [replace(.., None).unwrap_or_default()]. *)
Notation arena_t := (list (option cluster)).
Definition arena_take (arena : arena_t) (i : nat) : res (cluster * arena_t) :=
  match arena !! i with
  | None => Panic
  | Some o => Ok (default cl_default o, <[i := None]> arena)
  end.
Definition arena_merge (arena : arena_t) (c_to_c : list nat) (src dest : nat) : res (arena_t * list nat) :=
  res_bind (shrink_jumps_and_find c_to_c dest) (fun '(current_dest, c_to_c) =>
  res_bind (shrink_jumps_and_find c_to_c src) (fun '(current_src, c_to_c) =>
  res_bind (arena_take arena current_dest) (fun '(c0, arena) =>
  res_bind (arena_take arena current_src) (fun '(c1, arena) =>
  res_bind (cl_merge c0 c1) (fun merged =>
  Ok (<[current_dest := Some merged]> arena, <[current_src := current_dest]> c_to_c)))))).

(** constraint_simplification.rs:81-87: the loop over the signals of one constraint. *)
Fixpoint cluster_signals (no_linear dest : nat) (signals : list nat)
    (arena : arena_t) (c_to_c s_to_c : list nat) : res (arena_t * list nat * list nat) :=
  match signals with
  | [] => Ok (arena, c_to_c, s_to_c)
  | signal :: signals =>
      match s_to_c !! signal with
      | None => Panic
      | Some prev =>
          let s_to_c := <[signal := dest]> s_to_c in
          if (prev <? no_linear)%nat then
            res_bind (arena_merge arena c_to_c prev dest) (fun '(arena, c_to_c) =>
            cluster_signals no_linear dest signals arena c_to_c s_to_c)
          else cluster_signals no_linear dest signals arena c_to_c s_to_c
      end
  end.
(** constraint_simplification.rs:75-89: the loop over the constraints. *)
Fixpoint cluster_loop (ord : nat -> gset nat -> list nat) (no_linear : nat) (linear : list constraint)
    (arena : arena_t) (c_to_c s_to_c : list nat) : res arena_t :=
  match linear with
  | [] => Ok arena
  | c :: linear =>
      if is_empty c then cluster_loop ord no_linear linear arena c_to_c s_to_c else
      let signals := ord (length linear) (take_signals c) in
      let dest := length arena in
      res_bind (cluster_signals no_linear dest signals (arena ++ [Some (cl_new c (length signals))])
                  (c_to_c ++ [dest]) s_to_c) (fun '(arena, c_to_c, s_to_c) =>
      cluster_loop ord no_linear linear arena c_to_c s_to_c)
  end.
(** constraint_simplification.rs:45-99 [build_clusters] *)
Definition build_clusters (ord : nat -> gset nat -> list nat) (linear : list constraint) (no_vars : nat)
  : res (list cluster) :=
  res_map (fun arena => filter (fun cl => length (cl_constraints cl) <> 0%nat) (omap id arena))
    (cluster_loop ord (length linear) linear [] [] (replicate no_vars (length linear))).
