(** C56: the annotations of build_inputs_info.rs make every subcomponent run exactly once, at the
    store of its last input. *)
From stdpp Require Import prelude numbers list gmap.
From Verif Require Import IrModel InputsModel InputsSpec InputsProofs.
Local Open Scope Z_scope.

(** What the generated code does at a store is [fire]: it changes nothing but the counter of the
    subcomponent and runs it, or not. *)
Theorem C56_trigger {V} (w : world V) sanity info cmp n m :
  match fire sanity info n (m_count m cmp) with
  | Some (c, b) => exists m', (m' = m \/ m' = decrease m cmp (Z.of_nat n)) /\ m_count m' cmp = c /\
                     trigger w sanity info cmp n m = if b : bool then w_run w cmp m' else Some m'
  | None => trigger w sanity info cmp n m = None
  end.
Proof. apply trigger_fire. Qed.
Print Assumptions C56_trigger.

(** In every execution of the annotated body, the stores to component [k] run it exactly once, at the
    last of them, if together they assign as many elements as the component has inputs; and no
    assertion of the sanity checks fails. *)
Theorem C56_once name k l tr sanity inputs :
  Forall (sized name k) l -> path_list name (build_inputs l) tr ->
  total (events_of k tr) = inputs -> 0 < inputs ->
  fired sanity (events_of k tr) inputs = Some (once_at_the_end (length (events_of k tr))).
Proof.
  intros HF Hp <- Hpos. eapply run_once; [|exact Hp|].
  - clear -HF. induction HF; cbn; auto.
  - intros E. by rewrite E in Hpos.
Qed.
Print Assumptions C56_once.

(** The pass changes nothing but annotations: the annotated body has the executions of the body. *)
Theorem C56_same_executions name l tr : path_list name (build_inputs l) tr ->
  exists tr0, path_list name l tr0 /\ ((fun e => (e_cmp e, e_size e)) <$> tr0) = ((fun e => (e_cmp e, e_size e)) <$> tr).
Proof. apply build_inputs_paths. Qed.
Print Assumptions C56_same_executions.

(** The stores to an anonymous component are annotated so that it runs at the last of them. *)
Theorem C56_anonymous a l : Forall (one_place a) l ->
  let s := concat (stores_to a <$> build_inputs l) in
  s.*1 = (concat (stores_to a <$> l)).*1 /\
  (s <> [] -> s.*2 = replicate (length s - 1) (InputInfo NoLast false) ++ [InputInfo Last false]).
Proof.
  intros HF s. assert (Ho : foldr (fun i P => one_place a i /\ P) True l) by (clear -HF; induction HF; cbn; auto).
  pose proof (anonymous a l Ho) as M. pose proof (marks_length _ _ _ M) as Hl. destruct M as [M1 M2]. fold s in M1, M2, Hl.
  split; [done|]. intros Hne. rewrite Hl. apply M2. intros E. rewrite E in Hl. by destruct s.
Qed.
Print Assumptions C56_anonymous.
Theorem C56_anonymous_once a l k sanity : Forall (one_place a) l ->
  let s := concat (stores_to a <$> build_inputs l) in
  let tr := (fun x => Event k (size_for x.1 k) x.2) <$> s in
  s <> [] -> Forall (fun x => (1 <= size_for x.1 k)%nat) s ->
  fired sanity tr (total tr) = Some (once_at_the_end (length s)).
Proof.
  intros HF s tr Hne Hs. destruct (C56_anonymous a l HF) as [_ M]. specialize (M Hne). fold s in M.
  assert (Hlen : (1 <= length s)%nat) by (destruct s; [done|cbn; lia]).
  replace (length s) with (length tr) by (unfold tr; by rewrite fmap_length).
  apply (fired_ok _ k).
  - unfold tr. apply Forall_fmap. eapply Forall_impl; [exact Hs|]. intros [sz i] H. done.
  - by apply good_once.
  - unfold tr. by destruct s.
  - by left.
Qed.
Print Assumptions C56_anonymous_once.

(** A store of no elements is not visited by the pass, keeps the annotation it was created with
    ([Unknown], translate.rs:1377, 1444, 1507), and runs the component again if its counter is
    already zero. *)
Theorem C56_zero_size_refuted : exists name k l tr,
  path_list name (build_inputs l) tr /\ total (events_of k tr) = 1 /\
  forall sanity, fired sanity (events_of k tr) 1 = Some [true; true].
Proof.
  set (u := InputInfo Unknown true).
  exists (fun _ => 0%nat), 0%nat, [NLoop [NStore (Known 0 0) (Single 1) u]; NStore (Known 0 0) (Single 0) u],
    [Event 0 1 u; Event 0 0 u].
  split_and!; [|done|done].
  change [Event 0 1 u; Event 0 0 u] with (([Event 0 1 u] ++ []) ++ [Event 0 0 u] ++ []).
  replace (build_inputs _) with [NLoop [NStore (Known 0 0) (Single 1) u]; NStore (Known 0 0) (Single 0) u] by done.
  apply path_cons; [|apply path_cons; [|apply path_nil]].
  - apply path_iter; [|apply path_end]. change [Event 0 1 u] with ([Event 0 (size_for (Single 1) 0) u] ++ []).
    apply path_cons; [|apply path_nil]. by apply path_store.
  - change [Event 0 0 u] with [Event 0 (size_for (Single 0) 0) u]. by apply path_store.
Qed.
Print Assumptions C56_zero_size_refuted.

(** Component 0 (symbol 0) is assigned in a loop and after it; components 1 and 2 (symbol 1) by a
    computed index and by a literal one; component 3 by two stores. *)
Definition body : list node :=
  let u := InputInfo Unknown true in
  [NStore (Known 3 2) (Single 2) u; NLoop [NStore (Known 0 0) (Single 1) u; NStore (Dynamic 1) (Multiple (fun k => k)) u];
   NBranch [NStore (Known 3 2) (Single 1) u] [NStore (Known 3 2) (Single 1) u]; NStore (Known 0 0) (Single 2) u;
   NStore (Known 1 1) (Single 3) u; NStore (Known 3 2) (Single 4) u].
Definition body_name (k : nat) : nat := match k with 0 => 0 | 3 => 2 | _ => 1 end%nat.

Example C56_sized_ex : Forall (sized body_name 0) body /\ Forall (sized body_name 1) body /\ Forall (sized body_name 3) body.
Proof.
  unfold body. split_and!; repeat constructor; cbn; intros; try (split_and!; intros; try done; try lia); try discriminate;
    repeat match goal with H : _ = _ |- _ => discriminate H end; try lia.
Qed.
(** The annotations: [NoLast] without decrement where a later store is the last, [Unknown] where only
    the counter can tell. *)
Example C56_annotations_ex : build_inputs body =
  let u := InputInfo Unknown true in let n := InputInfo NoLast false in let l := InputInfo Last false in
  [NStore (Known 3 2) (Single 2) n; NLoop [NStore (Known 0 0) (Single 1) n; NStore (Dynamic 1) (Multiple (fun k => k)) u];
   NBranch [NStore (Known 3 2) (Single 1) n] [NStore (Known 3 2) (Single 1) n]; NStore (Known 0 0) (Single 2) l;
   NStore (Known 1 1) (Single 3) l; NStore (Known 3 2) (Single 4) l].
Proof. vm_compute. reflexivity. Qed.
(** One of its executions. *)
Example C56_path_ex : exists tr, path_list body_name (build_inputs body) tr /\
  total (events_of 3 tr) = 7 /\ total (events_of 0 tr) = 4 /\ total (events_of 1 tr) = 4 /\
  fired 0 (events_of 3 tr) 7 = Some [false; false; true] /\ fired 2 (events_of 1 tr) 4 = Some [false; true].
Proof.
  rewrite C56_annotations_ex. cbv zeta. set (u := InputInfo Unknown true). set (n := InputInfo NoLast false). set (l := InputInfo Last false).
  exists ([Event 3 2 n] ++ (([Event 0 1 n] ++ [Event 1 1 u] ++ []) ++ ([Event 0 1 n] ++ [Event 2 2 u] ++ []) ++ []) ++
    ([Event 3 1 n] ++ []) ++ [Event 0 2 l] ++ [Event 1 3 l] ++ [Event 3 4 l] ++ []).
  split; [|vm_compute; done].
  assert (S : forall t size info k s, assigns body_name t k -> size_for size k = s -> path body_name (NStore t size info) [Event k s info])
    by (intros t size info k s Ha <-; by apply path_store).
  repeat (apply path_cons || apply path_nil); try (by apply S).
  - repeat apply path_iter; try apply path_end; repeat (apply path_cons || apply path_nil); by apply S.
  - apply path_then. repeat (apply path_cons || apply path_nil). by apply S.
Qed.
Example C56_anonymous_ex : Forall (one_place 5) [NLoop [NStore (Anon 5) (Single 2) (InputInfo Unknown true); NOther; NStore (Anon 5) (Single 1) (InputInfo Unknown true)]] /\
  concat (stores_to 5 <$> build_inputs [NLoop [NStore (Anon 5) (Single 2) (InputInfo Unknown true); NOther; NStore (Anon 5) (Single 1) (InputInfo Unknown true)]]) =
  [(Single 2, InputInfo NoLast false); (Single 1, InputInfo Last false)].
Proof. split; [|done]. repeat constructor; cbn; intros; discriminate. Qed.
