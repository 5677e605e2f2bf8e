(** C41 (every path of an accepted function returns) and C42 (no signal is assigned twice). *)
From stdpp Require Import prelude numbers list gmap.
From Verif Require Import FlowModel FlowSpec FlowProofs.

(** A function that passes the check returns in every execution that ends. *)
Theorem C41_returns s r : returns s = true -> run s r -> r = true.
Proof. intros H R. by eapply returns_run. Qed.
Print Assumptions C41_returns.

(** [while (..) { if (..) return 1; }  if (..) { x = 1; return x; } else return 2;] *)
Definition c41_body : rstmt :=
  RBlock [RWhile (RBlock [RIf RReturn None]); RIf (RBlock [RSimple; RReturn]) (Some RReturn); RSimple].
Example C41_ex : returns c41_body = true /\ run c41_body true.
Proof.
  split; [done|]. apply run_next; [|].
  - eapply run_while_again; [|apply run_while_end]. eapply run_next; [apply run_no_else|apply run_nil].
  - apply run_stop. apply run_then. eapply run_next; [apply run_simple|]. apply run_stop, run_return.
Qed.

(** A template accepted by the compiler assigns every signal at most once, in every execution;
    provided that no loop is in the [else] branch of an unknown condition, and that the compiler sees
    the same statements in both executions of the body of an unknown loop.  The full statement, without
    these two conditions ([plain]), is false: see below.  [reachable] holds of everything that the
    compiler can execute. *)
Theorem C42_once_partial l st x tr :
  forallb (reachable false) l = true -> Forall plain l -> flow_template l = FOk st -> writes l tr -> (count x tr <= 1)%nat.
Proof. apply at_most_once. Qed.
Print Assumptions C42_once_partial.

(** Conversely, a template without loops is refused only if some execution assigns a signal twice.
    With loops, this is false: see below. *)
Theorem C42_refused_partial l :
  forallb loop_free l = true -> flow_template l = Multiple -> exists x tr, writes l tr /\ (2 <= count x tr)%nat.
Proof. apply refused_twice. Qed.
Print Assumptions C42_refused_partial.

(** The compiler never looks for a condition that is not there. *)
Theorem C42_no_panic l : forallb (reachable false) l = true -> flow_template l <> Panic.
Proof. apply no_panic. Qed.
Print Assumptions C42_no_panic.

(** A loop that is executed twice and assigns different signals, then nested conditions, the branches of
    which assign the same signal, one of them with a loop, and an unknown loop. *)
Definition c42_body : list fstmt :=
  [LLoop [[LWrite 0]; [LWrite 1]] None;
   LIf [LIf [LLoop [] (Some ([], [])); LWrite 2] (Some [LWrite 2; LWrite 3])] (Some [LWrite 2; LIf [LWrite 3] None]);
   LLoop [] None; LLoop [] (Some ([LIf [] None], [LIf [] None])); LWrite 4].
Example C42_ex : forallb (reachable false) c42_body = true /\ Forall plain c42_body /\
  (exists st, flow_template c42_body = FOk st) /\ writes c42_body [0; 1; 2; 3; 4].
Proof.
  split_and!.
  - done.
  - repeat constructor.
  - eexists. vm_compute. reflexivity.
  - unfold c42_body. change [0; 1; 2; 3; 4] with (([0; 1] ++ []) ++ [2; 3] ++ ([] ++ []) ++ ([] ++ []) ++ [4] ++ []).
    repeat apply writes_cons; try apply writes_nil.
    + apply writes_loop; [|constructor]. change [0; 1] with (([0] ++ []) ++ ([1] ++ []) ++ []).
      repeat (apply writes_all_cons || apply writes_all_nil || apply writes_cons || apply writes_nil || apply writes_write).
    + apply writes_else. change [2; 3] with ([2] ++ ([3] ++ []) ++ []). repeat apply writes_cons; try apply writes_nil; try apply writes_write.
      apply writes_then. apply (writes_cons _ _ [3] []); [apply writes_write|apply writes_nil].
    + apply writes_loop; constructor.
    + apply writes_loop; constructor.
    + apply writes_write.
Qed.
(** Rejected: two assignments in the same branch, or under different conditions. *)
Example C42_reject_ex : flow_template [LIf [LWrite 0; LWrite 0] None] = Multiple /\
  flow_template [LIf [LWrite 0] None; LIf [LWrite 0] None] = Multiple /\
  flow_template [LIf [LWrite 0] (Some [LWrite 0]); LWrite 0] = Multiple /\ flow_template [LLoop [[LWrite 0]; [LWrite 0]] None] = Multiple.
Proof. done. Qed.

(** The compiler accepts
<<
  if (a == 0) { x <-- 1; } else { for (var i = 0; i < 2; i++) {} }
  x <-- 2;
>>
    with a signal [a], although [x] is assigned twice if [a = 0].  Under an unknown condition [i] is not
    known, so that the loop is an unknown one; it pushes a condition and does not remove it; at the end
    of the [else] this condition is removed instead of the one of the [if]; and the last assignment
    is taken to be in the [else]. *)
Theorem C42_loop_in_else_refuted : exists l st tr,
  forallb (reachable false) l = true /\ flow_template l = FOk st /\ writes l tr /\ count 0 tr = 2%nat.
Proof.
  eexists [LIf [LWrite 0] (Some [LLoop [] (Some ([], []))]); LWrite 0], _, [0; 0].
  split_and!; [done|vm_compute; reflexivity| |done].
  apply (writes_cons _ _ [0] [0]).
  - apply writes_then. apply (writes_cons _ _ [0] []); [apply writes_write|apply writes_nil].
  - apply (writes_cons _ _ [0] []); [apply writes_write|apply writes_nil].
Qed.
Print Assumptions C42_loop_in_else_refuted.

(** The compiler accepts
<<
  var i = 0; while (i < n) { if (i >= 1) { x <-- i; } i++; }
>>
    with a signal [n]: it executes the body twice, and in the first execution the condition is known to
    be false.  With [n >= 3] the signal is assigned more than once. *)
Theorem C42_unknown_loop_refuted : exists l st tr,
  forallb (reachable false) l = true /\ flow_template l = FOk st /\ writes l tr /\ count 0 tr = 2%nat.
Proof.
  eexists [LLoop [] (Some ([], [LIf [LWrite 0] None]))], _, ([] ++ [] ++ [0] ++ [0] ++ []).
  split_and!; [done|vm_compute; reflexivity| |done]. rewrite <- (app_nil_r ([] ++ _)). apply writes_cons; [|apply writes_nil].
  assert (W : writes [LIf [LWrite 0] None] [0]).
  { apply (writes_cons _ _ [0] []); [|apply writes_nil]. apply writes_then.
    apply (writes_cons _ _ [0] []); [apply writes_write|apply writes_nil]. }
  apply writes_loop; [constructor|].
  apply writes_some; [apply writes_nil|]. repeat (apply writes_many_cons; [exact W|]). apply writes_many_nil.
Qed.
Print Assumptions C42_unknown_loop_refuted.

(** The compiler refuses
<<
  if (a == 0) { x <-- 5; for (var i = 0; i < 2; i++) {} } else { x <-- 1; }
>>
    although every execution assigns [x] exactly once. *)
Theorem C42_accepts_refuted : exists l,
  forallb (reachable false) l = true /\ flow_template l = Multiple /\ forall tr, writes l tr -> tr = [0].
Proof.
  exists [LIf [LWrite 0; LLoop [] (Some ([], []))] (Some [LWrite 0])]. split_and!; [done|done|]. intros tr H.
  assert (Hm : forall l t, writes_many l t -> l = [] -> t = []).
  { intros l t Hm. induction Hm as [|b t1 t2 H1 H2 IH]; intros ->; [done|]. inversion H1; subst. by apply IH. }
  repeat match goal with
         | H : writes (_ :: _) _ |- _ => inversion H; clear H; subst
         | H : writes [] _ |- _ => inversion H; clear H; subst
         | H : writes1 _ _ |- _ => inversion H; clear H; subst
         | H : writes_all _ _ |- _ => inversion H; clear H; subst
         | H : writes_tail _ _ |- _ => inversion H; clear H; subst
         | H : writes_many [] _ |- _ => apply Hm in H; [|done]; subst
         end; done.
Qed.
Print Assumptions C42_accepts_refuted.
