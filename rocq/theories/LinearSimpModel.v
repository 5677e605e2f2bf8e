(** Model of circom_algebra/src/simplification_utils.rs.
    [BTreeMap<usize,_>] is a [gmap nat _] traversed in ascending key order ([asc_keys]).
    [HashMap]/[HashSet] iteration order is unspecified in Rust: every place where it can be observed
    takes an oracle [ord] that returns the keys of a map in some order.  The oracle also receives
    indices that are different at each use, so equal maps may be traversed differently at
    different times. *)
From stdpp Require Import prelude gmap fin_maps sorting.
From Coq Require Import ZArith.
From Verif Require Import ModArithModel AlgebraModel.
Open Scope Z_scope.

(** simplification_utils.rs:11 [SHNotNormalized] and :10 [SH] *)
Notation holder := (gmap nat (Z * substitution)).
Notation sh := (gmap nat substitution).
Notation key_order := (lin -> list nat).

Definition lift {A} (o : option A) : res A := match o with Some a => Ok a | None => Panic end.

(** ascending traversal of a [BTreeMap] *)
Definition asc_keys {A} (m : gmap nat A) : list nat := merge_sort Nat.le (elements (dom m)).

(** simplification_utils.rs:29-31, 47-49 [can_be_taken] *)
Definition can_be_taken (forb : gset nat) (k : nat) : bool := bool_decide (k ∉ forb).

(** simplification_utils.rs:368-377 [take_signal_3]; [ks] is the key sequence. *)
Definition take_signal_3 (forb : gset nat) (ks : list nat) : option nat :=
  foldl (fun ret k =>
    if can_be_taken forb k
    then Some (match ret with None => k | Some v => Nat.max k v end) else ret) None ks.

(** simplification_utils.rs:264-275, 335-346: the conflict step, common to [treat_constraint_3]
    and [treat_constraint_4]: coefR * left - coefL * right, in constraint form, zeros removed. *)
Definition merge_conflict (coef : Z) (sub : substitution) (coef_r : Z) (sub_r : substitution) (p : Z)
  : res constraint :=
  let right := (decompose sub_r).2 in
  let left := (decompose sub).2 in
  res_bind (asub (amul (Number coef_r) left p) (amul (Number coef) right p) p) (fun merge =>
  res_map c_remove_zeros (lift (to_constraint merge p))).

(** simplification_utils.rs:240-277 [treat_constraint_3].  [fuel] bounds the loop; running out is
    [Panic], which LinearSimpProofs excludes.  [signals.delete] has no effect on this variant
    ([deleted_symbols] is read only by the other ones). *)
Fixpoint treat_constraint_3 (fuel : nat) (ord : nat -> key_order) (forb : gset nat) (p : Z)
    (subs : holder) (lconst : list constraint) (work : constraint) : res (holder * list constraint) :=
  match fuel with
  | O => Panic
  | S f =>
      if is_empty work then Ok (subs, lconst) else
      match take_signal_3 forb (ord f (c_c work)) with
      | None => Ok (subs, lconst ++ [work])
      | Some out =>
          res_bind (clear_signal_from_linear_nn work out p) (fun '(coef, sub) =>
          match subs !! s_from sub with
          | None => Ok (<[s_from sub := (coef, sub)]> subs, lconst)
          | Some (coef_r, sub_r) =>
              res_bind (merge_conflict coef sub coef_r sub_r p) (fun work' =>
              treat_constraint_3 f ord forb p subs lconst work')
          end)
      end
  end.

(** simplification_utils.rs:141-152 [substitution_process_3]; the list argument is already
    reversed ([pop_back]). *)
Fixpoint process_3_loop (fuel : nat) (ord : nat -> nat -> key_order) (forb : gset nat) (p : Z)
    (subs : holder) (lconst : list constraint) (rev_cs : list constraint) : res (holder * list constraint) :=
  match rev_cs with
  | [] => Ok (subs, lconst)
  | c :: rest =>
      res_bind (treat_constraint_3 fuel (ord (length rest)) forb p subs lconst c) (fun '(subs, lconst) =>
      process_3_loop fuel ord forb p subs lconst rest)
  end.
Definition substitution_process_3 (fuel : nat) (ord : nat -> nat -> key_order) (forb : gset nat) (p : Z)
    (cs : list constraint) : res (holder * list constraint) :=
  process_3_loop fuel ord forb p ∅ [] (rev cs).

(** simplification_utils.rs:40-44 [SignalDefinition4] (without [forbidden]), :60-62
    [SignalsInformation], and the two accumulators of the process. *)
Record state4 : Type := State4 {
  deleted : gset nat;
  order : list nat;
  occ : gmap nat nat;
  subs4 : holder;
  lconst4 : list constraint;
}.

(** simplification_utils.rs:70-84: counting one constraint. *)
Definition count_constraint (forb : gset nat) (pos : nat) (c : constraint)
    (st : gmap nat nat * gmap nat nat) : gmap nat nat * gmap nat nat :=
  foldl (fun '(oc, rep) k =>
    if can_be_taken forb k then
      match oc !! k with
      | Some n => (<[k := S n]> oc, rep)
      | None => (<[k := 1%nat]> oc, <[k := pos]> rep)
      end
    else (oc, rep)) st (elements (dom (c_c c))).
Fixpoint info_new_loop (forb : gset nat) (pos : nat) (cs : list constraint)
    (st : gmap nat nat * gmap nat nat) : gmap nat nat * gmap nat nat :=
  match cs with
  | [] => st
  | c :: cs => info_new_loop forb (S pos) cs (count_constraint forb pos c st)
  end.
(** simplification_utils.rs:66-92 [SignalsInformation::new]: occurrences, and the signals occurring
    once with the position of their constraint, in ascending order. *)
Definition info_new (forb : gset nat) (cs : list constraint) : gmap nat nat * list (nat * nat) :=
  let '(oc, rep) := info_new_loop forb 0 cs (∅, ∅) in
  (oc, (fun k => (k, default 0%nat (rep !! k))) <$> asc_keys (filter (fun kv => kv.2 = 1%nat) oc)).

(** simplification_utils.rs:94-106 [remove_constraint].  A count that would go below zero is a
    [Panic] here (overflow in a debug build, wrap-around in a release build). *)
Definition remove_constraint (forb : gset nat) (c : constraint) (oc : gmap nat nat) : res (gmap nat nat) :=
  foldl (fun acc k =>
    res_bind acc (fun oc =>
    if can_be_taken forb k then
      match oc !! k with
      | Some (S n) => Ok (<[k := n]> oc)
      | Some O => Panic
      | None => Ok oc
      end
    else Ok oc)) (Ok oc) (elements (dom (c_c c))).

(** simplification_utils.rs:379-410 [take_signal_4]: [Ok None] when no signal can be taken;
    [get(k).unwrap()] panics on an unknown signal.  [ret] carries the occurrences too. *)
Fixpoint take_signal_4 (forb del : gset nat) (oc : gmap nat nat) (ret : option (nat * nat)) (ks : list nat)
  : res (option nat) :=
  match ks with
  | [] => Ok (fst <$> ret)
  | k :: ks =>
      if can_be_taken forb k then
        if bool_decide (k ∈ del) then Ok (Some k)
        else match oc !! k with
             | None => Panic
             | Some n =>
                 match ret with
                 | None => take_signal_4 forb del oc (Some (k, n)) ks
                 | Some (k0, n0) =>
                     if (n <? n0)%nat then take_signal_4 forb del oc (Some (k, n)) ks
                     else if (n =? n0)%nat && (k0 <? k)%nat then take_signal_4 forb del oc (Some (k, n0)) ks
                     else take_signal_4 forb del oc ret ks
                 end
             end
      else take_signal_4 forb del oc ret ks
  end.

(** simplification_utils.rs:279-293 [treat_unique_constraint_4] *)
Definition treat_unique_constraint_4 (p : Z) (st : state4) (work : constraint) (signal : nat) : res state4 :=
  res_bind (clear_signal_from_linear_nn work signal p) (fun '(coef, sub) =>
  Ok (State4 ({[ signal ]} ∪ deleted st) (signal :: order st) (delete signal (occ st))
             (<[s_from sub := (coef, sub)]> (subs4 st)) (lconst4 st))).

(** simplification_utils.rs:295-348 [treat_constraint_4] *)
Fixpoint treat_constraint_4 (fuel : nat) (ord : nat -> key_order) (forb : gset nat) (p : Z)
    (st : state4) (work : constraint) : res state4 :=
  match fuel with
  | O => Panic
  | S f =>
      if is_empty work then Ok st else
      res_bind (take_signal_4 forb (deleted st) (occ st) None (ord f (c_c work))) (fun out =>
      match out with
      | None => Ok (State4 (deleted st) (order st) (occ st) (subs4 st) (lconst4 st ++ [work]))
      | Some out =>
          res_bind (clear_signal_from_linear_nn work out p) (fun '(coef, sub) =>
          match subs4 st !! s_from sub with
          | None => Ok (State4 ({[ out ]} ∪ deleted st) (out :: order st) (delete out (occ st))
                               (<[s_from sub := (coef, sub)]> (subs4 st)) (lconst4 st))
          | Some (coef_r, sub_r) =>
              res_bind (merge_conflict coef sub coef_r sub_r p) (fun work' =>
              treat_constraint_4 f ord forb p st work')
          end)
      end)
  end.

(** simplification_utils.rs:168-174: the loop over the signals with a single occurrence. *)
Fixpoint uniques_loop (forb : gset nat) (p : Z) (us : list (nat * nat)) (vec : list constraint) (st : state4)
  : res (list constraint * state4) :=
  match us with
  | [] => Ok (vec, st)
  | (signal, index) :: us =>
      match vec !! index with
      | None => Panic
      | Some c =>
          if is_empty c then uniques_loop forb p us vec st else
          res_bind (remove_constraint forb c (occ st)) (fun oc =>
          res_bind (treat_unique_constraint_4 p
                      (State4 (deleted st) (order st) oc (subs4 st) (lconst4 st)) c signal) (fun st =>
          uniques_loop forb p us (<[index := c_empty]> vec) st))
      end
  end.
(** simplification_utils.rs:176-181: the loop popping from the back; the list is reversed. *)
Fixpoint process_4_loop (fuel : nat) (ord : nat -> nat -> key_order) (forb : gset nat) (p : Z)
    (rev_cs : list constraint) (st : state4) : res state4 :=
  match rev_cs with
  | [] => Ok st
  | c :: rest =>
      res_bind (remove_constraint forb c (occ st)) (fun oc =>
      res_bind (treat_constraint_4 fuel (ord (length rest)) forb p
                 (State4 (deleted st) (order st) oc (subs4 st) (lconst4 st)) c) (fun st =>
      process_4_loop fuel ord forb p rest st))
  end.
(** simplification_utils.rs:154-183 [substitution_process_4] *)
Definition substitution_process_4 (fuel : nat) (ord : nat -> nat -> key_order) (forb : gset nat) (p : Z)
    (cs : list constraint) : res state4 :=
  let '(oc, us) := info_new forb cs in
  res_bind (uniques_loop forb p us cs (State4 ∅ [] oc ∅ [])) (fun '(vec, st) =>
  process_4_loop fuel ord forb p (rev vec) st).

(** simplification_utils.rs:413-437 [normalize_substitutions].  The two traversals are zipped. *)
Fixpoint normalize_loop (p : Z) (l : list (nat * (Z * substitution))) (inverses : list Z) (tree : sh) : res sh :=
  match l with
  | [] => Ok tree
  | (signal, (_, sub)) :: l =>
      match inverses with
      | [] => Panic
      | inv :: inverses =>
          res_bind (lift (subst_new signal (amul (hashmap_into_arith (s_to sub)) (Number inv) p))) (fun s =>
          normalize_loop p l inverses (<[signal := s]> tree))
      end
  end.
(** the entries of a [BTreeMap] in ascending order *)
Definition asc_entries {A} (m : gmap nat A) : list (nat * A) :=
  omap (fun k => (fun v => (k, v)) <$> m !! k) (asc_keys m).
Definition normalize_substitutions (subs : holder) (p : Z) : res sh :=
  res_bind (multi_inv ((fun e => e.2.1) <$> asc_entries subs) p) (fun inverses =>
  normalize_loop p (asc_entries subs) inverses ∅).

(** simplification_utils.rs:439-448 [take_substitutions_to_be_applied] *)
Definition to_be_applied (ord : key_order) (no_overlap : sh) (s : substitution) : list substitution :=
  omap (fun k => no_overlap !! k) (ord (s_to s)).
(** simplification_utils.rs:455-460, 472-477: rewriting one substitution with those already done. *)
Definition apply_all (s : substitution) (subs : list substitution) (p : Z) : substitution :=
  foldl (fun s t => subst_apply s t p) s subs.
(** simplification_utils.rs:450-463 [create_nonoverlapping_substitutions] (ascending keys) and
    465-481 [create_nonoverlapping_substitutions_4] ([order_signals]): the traversal [l] is the
    only difference; [remove(s).unwrap()] panics on a missing signal. *)
Fixpoint nonoverlap_loop (ord : nat -> key_order) (p : Z) (l : list nat) (tree no_overlap : sh) : res sh :=
  match l with
  | [] => Ok no_overlap
  | s :: l =>
      res_bind (lift (tree !! s)) (fun sub =>
      let sub := apply_all sub (to_be_applied (ord (length l)) no_overlap sub) p in
      nonoverlap_loop ord p l (delete s tree) (<[s := sub]> no_overlap))
  end.

(** simplification_utils.rs:540-544 [Simplified].  The two lists come in hash order; here
    [map_to_list] order, and every statement is about membership. *)
Record simplified : Type := Simplified {
  out_constraints : list constraint;
  out_substitutions : list substitution;
  out_removed : list nat;
}.
(** simplification_utils.rs:532-538 [Config]: the fields appear as arguments. *)
Definition use_heuristic_4 (n : nat) (use_old_heuristics : bool) : bool :=
  (350 <=? Z.of_nat n) && (Z.of_nat n <? 1000000) && negb use_old_heuristics.

(** simplification_utils.rs:546-585 [full_simplification] *)
Definition full_simplification (fuel : nat) (ord : nat -> nat -> key_order) (ord2 : nat -> key_order)
    (forb : gset nat) (use_old_heuristics : bool) (p : Z) (cs : list constraint) : res simplified :=
  let finish constraints no_overlap :=
    Ok (Simplified constraints (snd <$> map_to_list no_overlap) (fst <$> map_to_list no_overlap)) in
  if use_heuristic_4 (length cs) use_old_heuristics then
    res_bind (substitution_process_4 fuel ord forb p cs) (fun st =>
    res_bind (normalize_substitutions (subs4 st) p) (fun tree =>
    res_bind (nonoverlap_loop ord2 p (order st) tree ∅) (finish (lconst4 st))))
  else
    res_bind (substitution_process_3 fuel ord forb p cs) (fun '(subs, lconst) =>
    res_bind (normalize_substitutions subs p) (fun tree =>
    res_bind (nonoverlap_loop ord2 p (asc_keys tree) tree ∅) (finish lconst))).

(** simplification_utils.rs:499-510 [fast_encoded_constraint_substitution]; [sigs] is
    [take_cloned_signals] of the constraint in hash order. *)
Fixpoint fast_constraint_loop (sigs : list nat) (c : constraint) (enc : gmap nat aexpr) (applied : bool) (p : Z)
  : res (constraint * bool) :=
  match sigs with
  | [] => Ok (c, applied)
  | s :: sigs =>
      match enc !! s with
      | None => fast_constraint_loop sigs c enc applied p
      | Some e =>
          res_bind (lift (subst_new s e)) (fun sub => fast_constraint_loop sigs (c_subst c sub p) enc true p)
      end
  end.
Definition fast_constraint_subst (ord : gset nat -> list nat) (c : constraint) (enc : gmap nat aexpr) (p : Z)
  : res (constraint * bool) :=
  fast_constraint_loop (ord (take_signals c)) c enc false p.

(** simplification_utils.rs:512-521 [fast_encoded_substitution_substitution]; algebra.rs:947-956
    [Substitution::take_cloned_signals]. *)
Definition s_take_signals (s : substitution) : gset nat := dom (s_to s) ∖ {[ cc ]}.
Fixpoint fast_substitution_loop (sigs : list nat) (s : substitution) (enc : gmap nat aexpr) (p : Z)
  : res substitution :=
  match sigs with
  | [] => Ok s
  | k :: sigs =>
      match enc !! k with
      | None => fast_substitution_loop sigs s enc p
      | Some e =>
          res_bind (lift (subst_new k e)) (fun sub => fast_substitution_loop sigs (subst_apply s sub p) enc p)
      end
  end.
Definition fast_substitution_subst (ord : gset nat -> list nat) (s : substitution) (enc : gmap nat aexpr) (p : Z)
  : res substitution :=
  res_map subst_rmv_zeros (fast_substitution_loop (ord (s_take_signals s)) s enc p).

(** simplification_utils.rs:523-530 [build_encoded_fast_substitutions] *)
Definition build_encoded (subs : list substitution) : gmap nat aexpr :=
  foldl (fun enc s => <[(decompose s).1 := (decompose s).2]> enc) ∅ subs.
