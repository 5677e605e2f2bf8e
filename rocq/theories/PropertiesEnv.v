(** C31: lexical scoping of environments *)
From stdpp Require Import prelude gmap strings.
From Verif Require Import EnvModel EnvSpec EnvProofs.
Open Scope nat_scope.
Local Open Scope string_scope.

(** For every history of openings, closings, declarations and assignments, the environment accepts the
    history exactly when the scoping rules do (nothing closed or declared without a block, no unknown
    variable assigned), and then every lookup returns the latest content of the cell of the innermost
    declaration. *)
Theorem C31_lookup_is_lexical : forall CC SC V BC (ops : list (env_op V)),
  match run_ops env_step (env_new : env CC SC V BC) ops, run_ops scoping_step scoping_new ops with
  | Some e, Some st => (forall x, get_variable e x = value_of st x) /\ (forall x, has_variable e x = bool_decide (is_Some (value_of st x)))
  | None, None => True
  | _, _ => False
  end.
Proof.
  intros CC SC V BC ops. pose proof (run_match ops _ _ (new_match (V := V))) as Q.
  rewrite run_env_rev. cbn [variables env_new].
  destruct (run_ops rev_step (reverse [∅]) ops) as [bs|], (run_ops scoping_step scoping_new ops) as [st|]; try contradiction; [|exact I].
  cbn [fmap option_fmap option_map].
  assert (G : forall x, get_variable (with_variables (reverse bs) (env_new : env CC SC V BC)) x = value_of st x).
  { intros x. rewrite get_variable_find. cbn [variables with_variables]. rewrite reverse_involutive. apply cells_match_find. exact Q. }
  split; [exact G|]. intros x. rewrite has_variable_find, G. reflexivity.
Qed.
Print Assumptions C31_lookup_is_lexical.

Definition ex_ops : list (env_op nat) :=
  [Declare_ "x" 1; Declare_ "y" 2; Open_; Declare_ "x" 3; Assign_ "x" 4; Assign_ "y" 5; Open_; Declare_ "z" 6; Assign_ "x" 7; Close_].
Example C31_lookup_is_lexical_case :
  (fun e => (get_variable e "x", get_variable e "y", get_variable e "z")) <$> run_ops env_step (env_new : env nat nat nat nat) ex_ops = Some (Some 7, Some 5, None) /\
  (fun e => (get_variable e "x", get_variable e "y", get_variable e "z")) <$> run_ops env_step (env_new : env nat nat nat nat) (ex_ops ++ [Close_]) = Some (Some 1, Some 5, None) /\
  run_ops env_step (env_new : env nat nat nat nat) (ex_ops ++ [Assign_ "z" 1]) = None.
Proof. vm_compute. auto. Qed.

(** Executing a block of statements from any environment: afterwards exactly the same variables are
    visible, and every variable the block does not assign to has the content it had.  Signals, buses and
    components are not touched. *)
Theorem C31_block_leaves_outer_variables : forall CC SC V BC (e e' : env CC SC V BC) body,
  balanced 0 body = true ->
  run_ops env_step e (Open_ :: body ++ [Close_]) = Some e' ->
  (forall x, has_variable e' x = has_variable e x) /\
  (forall x, (forall v, Assign_ x v ∉ body) -> get_variable e' x = get_variable e x) /\
  length (variables e') = length (variables e) /\
  signal_inputs e' = signal_inputs e /\ signal_outputs e' = signal_outputs e /\ signal_intermediates e' = signal_intermediates e /\
  bus_inputs e' = bus_inputs e /\ bus_outputs e' = bus_outputs e /\ bus_intermediates e' = bus_intermediates e /\ components e' = components e.
Proof.
  intros CC SC V BC e e' body HB HR. rewrite run_env_rev in HR.
  destruct (run_ops rev_step (reverse (variables e)) (Open_ :: body ++ [Close_])) as [bs|] eqn:R; [|discriminate HR].
  cbn in HR. injection HR as <-. cbn [run_ops rev_step] in R. rewrite run_app in R.
  destruct (run_ops rev_step (∅ :: reverse (variables e)) body) as [bs1|] eqn:R1; [|discriminate R].
  destruct (balanced_outer body [∅] (reverse (variables e)) bs1 HB ltac:(discriminate) R1) as (b & os & -> & K).
  cbn in R. injection R as <-.
  assert (G : forall x, get_variable (with_variables (reverse os) e) x = find_in os x).
  { intros x. rewrite get_variable_find. cbn [variables with_variables]. rewrite reverse_involutive. reflexivity. }
  split_and!; try reflexivity.
  - intros x. rewrite !has_variable_find, G, get_variable_find. apply bool_decide_ext. symmetry. exact (proj1 (outer_find _ _ _ x K)).
  - intros x N. rewrite G, get_variable_find. symmetry. apply (proj2 (outer_find _ _ _ x K)). intros [v W]. exact (N v W).
  - cbn [variables with_variables]. rewrite reverse_length. rewrite <- (Forall2_length _ _ _ K). apply reverse_length.
Qed.
Print Assumptions C31_block_leaves_outer_variables.
Definition ex_block : list (env_op nat) := [Declare_ "x" 3; Assign_ "x" 4; Assign_ "y" 5; Open_; Declare_ "z" 6; Assign_ "x" 7; Close_].
Definition ex_env : env nat nat nat nat := default env_new (run_ops env_step env_new [Declare_ "x" 1; Declare_ "y" 2; Declare_ "w" 9]).
Definition ex_env' : env nat nat nat nat := default env_new (run_ops env_step ex_env (Open_ :: ex_block ++ [Close_])).
Example C31_block_case : balanced 0 ex_block = true /\ run_ops env_step ex_env (Open_ :: ex_block ++ [Close_]) = Some ex_env' /\
  get_variable ex_env' "w" = Some 9 /\ get_variable ex_env' "x" = Some 1 /\ get_variable ex_env' "y" = Some 5 /\ has_variable ex_env' "z" = false.
Proof. vm_compute. auto 10. Qed.

(** The same through the scoping: an assignment inside a block to a name the block declares itself does
    not touch the outer variable of that name. *)
Theorem C31_shadowing : forall CC SC V BC (e e' : env CC SC V BC) x v w,
  run_ops env_step e [Open_; Declare_ x v; Assign_ x w; Close_] = Some e' -> forall y, get_variable e' y = get_variable e y.
Proof.
  intros CC SC V BC e e' x v w HR y. rewrite run_env_rev in HR. cbn in HR.
  rewrite lookup_insert in HR. cbn in HR. injection HR as <-.
  rewrite !get_variable_find. cbn [variables with_variables]. rewrite reverse_involutive. reflexivity.
Qed.
Print Assumptions C31_shadowing.

(** Removing a variable uncovers the next outer declaration: removing a name just declared in a block
    that did not have it gives back the environment from before. *)
Theorem C31_remove_uncovers : forall CC SC V BC (e e' : env CC SC V BC) b bs x v,
  variables e = (bs ++ [b])%list -> b !! x = None -> add_variable x v e = Some e' ->
  get_variable e' x = Some v /\ remove_variable x e' = e.
Proof.
  intros CC SC V BC e e' b bs x v HV HN HA. rewrite add_variable_rev in HA. rewrite HV, reverse_snoc in HA. injection HA as <-.
  split.
  - rewrite get_variable_find. cbn [variables with_variables]. rewrite reverse_involutive. cbn [find_in]. rewrite lookup_insert. reflexivity.
  - unfold remove_variable, block_with_variable_symbol. cbn [variables with_variables].
    rewrite reverse_cons, reverse_involutive, block_from_snoc. rewrite bool_decide_true by (rewrite lookup_insert; eauto).
    rewrite alter_app_r_alt by lia. rewrite Nat.sub_diag. cbn. rewrite delete_insert by exact HN. rewrite <- HV. destruct e; reflexivity.
Qed.
Print Assumptions C31_remove_uncovers.

(** Assigning a declared signal changes the content of that signal only. *)
Theorem C31_signals : forall CC SC V BC (e e' : env CC SC V BC) s c,
  set_signal s c e = Some e' ->
  is_Some (get_signal e s) /\ get_signal e' s = Some c /\ (forall t, t <> s -> get_signal e' t = get_signal e t) /\ (forall x, get_variable e' x = get_variable e x).
Proof.
  intros CC SC V BC e e' s c. unfold set_signal, get_signal.
  destruct (signal_inputs e !! s) as [d|] eqn:I.
  - intros [= <-]. cbn. rewrite lookup_insert. split; [eauto|]. split; [reflexivity|]. split; [|reflexivity].
    intros t N. rewrite lookup_insert_ne by congruence. reflexivity.
  - destruct (signal_outputs e !! s) as [d|] eqn:O.
    + intros [= <-]. cbn. rewrite I, lookup_insert. split; [eauto|]. split; [reflexivity|]. split; [|reflexivity].
      intros t N. rewrite lookup_insert_ne by congruence. reflexivity.
    + destruct (signal_intermediates e !! s) as [d|] eqn:M; [|discriminate].
      intros [= <-]. cbn. rewrite I, O, lookup_insert. split; [eauto|]. split; [reflexivity|]. split; [|reflexivity].
      intros t N. rewrite lookup_insert_ne by congruence. reflexivity.
Qed.
Print Assumptions C31_signals.

(** Merging the environments of two branches that declare the same variables at the same levels: the
    same variables are visible, each with the merged content of both sides; signals known on either side
    stay known. *)
Theorem C31_merge : forall CC SC V BC (l r : env CC SC V BC) comb,
  Forall2 (fun bl br : gmap string V => forall y, is_Some (bl !! y) <-> is_Some (br !! y)) (variables l) (variables r) ->
  (forall x, get_variable (merge l r comb) x = match get_variable l x, get_variable r x with Some a, Some b => Some (comb a b) | _, _ => None end) /\
  (forall x, has_variable (merge l r comb) x = has_variable l x).
Proof.
  intros CC SC V BC l r comb H.
  assert (H' : Forall2 (fun bl br : gmap string V => forall y, is_Some (bl !! y) <-> is_Some (br !! y)) (reverse (variables l)) (reverse (variables r))) by (apply Forall2_reverse; exact H).
  assert (G : forall x, get_variable (merge l r comb) x = match get_variable l x, get_variable r x with Some a, Some b => Some (comb a b) | _, _ => None end).
  { intros x. rewrite !get_variable_find. cbn [variables merge]. rewrite reverse_involutive. apply merge_find. exact H'. }
  split; [exact G|]. intros x. rewrite !has_variable_find, G, !get_variable_find. apply bool_decide_ext.
  pose proof (same_names_find _ _ x H') as [D E].
  destruct (find_in (reverse (variables l)) x) as [v|], (find_in (reverse (variables r)) x) as [w|]; split; intros [? Q]; try discriminate Q; eauto.
Qed.
Print Assumptions C31_merge.
Definition ex_left : env nat nat nat nat := default env_new (run_ops env_step env_new [Declare_ "x" 1; Open_; Declare_ "y" 2; Assign_ "x" 3]).
Definition ex_right : env nat nat nat nat := default env_new (run_ops env_step env_new [Declare_ "x" 4; Open_; Declare_ "y" 7]).
Example C31_merge_case :
  Forall2 (fun bl br : gmap string nat => forall y, is_Some (bl !! y) <-> is_Some (br !! y)) (variables ex_left) (variables ex_right) /\
  get_variable (merge ex_left ex_right Nat.add) "x" = Some 7 /\ get_variable (merge ex_left ex_right Nat.add) "y" = Some 9.
Proof.
  split; [|vm_compute; auto].
  assert (Q : forall a b c (y : string), is_Some (({[ a := b ]} : gmap string nat) !! y) <-> is_Some (({[ a := c ]} : gmap string nat) !! y)).
  { intros a b c y. destruct (decide (y = a)) as [->|N]; [rewrite !lookup_singleton; split; eauto|rewrite !lookup_singleton_ne by congruence; reflexivity]. }
  assert (variables ex_left = [({["x" := 3]} : gmap string nat); {["y" := 2]}]) as -> by (apply (bool_decide_unpack _); vm_compute; exact I).
  assert (variables ex_right = [({["x" := 4]} : gmap string nat); {["y" := 7]}]) as -> by (apply (bool_decide_unpack _); vm_compute; exact I).
  repeat constructor; apply Q.
Qed.

(** With different numbers of open blocks the innermost blocks are paired: a variable visible on both
    sides keeps the content of one side only. *)
Definition ex_shallow : env nat nat nat nat := default env_new (run_ops env_step env_new [Declare_ "x" 1]).
Definition ex_deep : env nat nat nat nat := default env_new (run_ops env_step env_new [Declare_ "x" 2; Open_]).
Theorem C31_merge_of_different_depths_refuted : exists l r : env nat nat nat nat,
  get_variable l "x" = Some 1 /\ get_variable r "x" = Some 2 /\ get_variable (merge l r Nat.add) "x" = Some 1.
Proof. exists ex_shallow, ex_deep. vm_compute. auto. Qed.
Print Assumptions C31_merge_of_different_depths_refuted.
