(** Property C68: programs that the check of types accepts do not use values of a wrong type. *)
From stdpp Require Import prelude gmap strings.
From Coq Require Import ZArith Lia.
From Verif Require Import TypeModel TypeSpec TypeProofs TypeSoundProofs.
Open Scope string_scope.
Open Scope list_scope.
Open Scope nat_scope.

(** ** C68: soundness *)
(** In an accepted program, whatever the operators give, whatever values the signals have, and whatever
    bound on the steps is chosen: no array is used as a number, no index is applied to a number, no
    component is used as a value, no array is stored in a number, … *)
Theorem C68_no_type_errors : forall P den1 den2 sv n m,
  consistent_program P -> accepted P n = true -> run_program P den1 den2 sv m <> Ill.
Proof.
  intros P den1 den2 sv n m HP HA H. pose proof (accepted_sound P den1 den2 sv n m HP HA) as HF. by rewrite H in HF.
Qed.
Print Assumptions C68_no_type_errors.

(** The inputs and outputs of the main component are arrays with as many dimensions as declared. *)
Theorem C68_signal_shapes : forall P den1 den2 sv n m v,
  consistent_program P -> accepted P n = true -> run_program P den1 den2 sv m = Ok v ->
  exists t sigs D, v = Inst t sigs /\ templates P !! t = Some D /\
    forall f w, assoc f sigs = Some w ->
      exists k d, (k, f, d) ∈ all_declarations D /\ (exists io, k = KSignal io) /\ dims d w = true.
Proof.
  intros P den1 den2 sv n m v HP HA H. pose proof (accepted_sound P den1 den2 sv n m HP HA) as HF. rewrite H in HF.
  destruct HF as (t & sigs & D & -> & HD & Hw). exists t, sigs, D. split; [done|]. split; [done|].
  intros f w Hf. destruct (Hw f w Hf) as (d & Hk & Hn). unfold kof in Hk.
  destruct (List.find _ _) as [[[k g] e]|] eqn:E; [|done]. apply find_some in E as [Ha Hg]. apply elem_of_list_In in Ha.
  apply bool_decide_eq_true in Hg. cbn in Hg. subst g. destruct k as [|io|[u|]]; cbn in Hk; try done.
  injection Hk as ->. exists (KSignal io), d. split; [done|]. split; [by eexists|]. by apply dims_nest.
Qed.
Print Assumptions C68_signal_shapes.

(** ** A program that meets the hypotheses *)
(** [function sum(v, n) { var s = 0; var i = 0; while (i < n) { s = s + v[i]; i = i + 1; } return s; }] *)
Definition var x := VariableOf x [] None.
Definition init x e := InitializationBlock KVar [Declaration KVar x []; Substitution x [] None AssignVar e].
Definition set x e := Substitution x [] None AssignVar e.
Definition sum : def := Def ["v"; "n"] [
  init "s" (Number 0); init "i" (Number 0);
  While (InfixOp "<" (var "i") (var "n")) (Block [
    set "s" (InfixOp "+" (var "s") (VariableOf "v" [var "i"] None));
    set "i" (InfixOp "+" (var "i") (Number 1))]);
  Return (var "s")].
(** [template A(n) { signal input a[n]; signal output b; b <== a[0] * a[1]; }] *)
Definition tA : def := Def ["n"] [
  InitializationBlock (KSignal Input) [Declaration (KSignal Input) "a" [var "n"]];
  InitializationBlock (KSignal Output) [Declaration (KSignal Output) "b" []];
  Substitution "b" [] None AssignConstraintSignal
    (InfixOp "*" (VariableOf "a" [Number 0] None) (VariableOf "a" [Number 1] None))].
(** [template Main() { signal input x[2]; signal output y; component c[2]; var i = 0;
      while (i < 2) { c[i] = A(2); c[i].a <== x; i = i + 1; }
      y <== c[1].b + sum([1, 2], 2); }] *)
Definition tMain : def := Def [] [
  InitializationBlock (KSignal Input) [Declaration (KSignal Input) "x" [Number 2]];
  InitializationBlock (KSignal Output) [Declaration (KSignal Output) "y" []];
  InitializationBlock (KComponent (Some "A")) [Declaration (KComponent (Some "A")) "c" [Number 2]];
  init "i" (Number 0);
  While (InfixOp "<" (var "i") (Number 2)) (Block [
    Substitution "c" [var "i"] None AssignVar (Call "A" [Number 2]);
    Substitution "c" [var "i"] (Some ("a", [])) AssignConstraintSignal (var "x");
    set "i" (InfixOp "+" (var "i") (Number 1))]);
  Substitution "y" [] None AssignConstraintSignal
    (InfixOp "+" (VariableOf "c" [Number 1] (Some ("b", []))) (Call "sum" [ArrayInLine [Number 1; Number 2]; Number 2]))].
Definition example : program :=
  Program {["sum" := sum]} (<["A" := tA]> {["Main" := tMain]}) (Call "Main" []).
Definition op1 (o : string) (x : Z) : option Z := Some (- x)%Z.
Definition op2 (o : string) (x y : Z) : option Z :=
  if bool_decide (o = "+") then Some (x + y)%Z
  else if bool_decide (o = "*") then Some (x * y)%Z
  else if bool_decide (o = "<") then Some (if (x <? y)%Z then 1 else 0)%Z
  else if bool_decide (o = "-") then Some (x - y)%Z
  else if bool_decide (o = "==") then Some (if (x =? y)%Z then 1 else 0)%Z
  else None.
Definition signal_values (t : string) (vs : list val) (x : string) (p : list nat) : Z := 7.

Ltac pairs := intros a b Ha Hb; cbn in Ha, Hb; rewrite !elem_of_cons in Ha, Hb; destruct_or?; subst;
  try (match goal with H : _ ∈ [] |- _ => by apply elem_of_nil in H end); intros E; cbn in E |- *; first [discriminate|done].
Lemma example_consistent : consistent_program example.
Proof.
  split; intros f D H; cbn in H.
  - apply lookup_singleton_Some in H as [<- <-]. split; [|done]. split; [done|pairs].
  - apply lookup_insert_Some in H as [[<- <-]|[_ H]]; [split; [done|pairs]|].
    apply lookup_singleton_Some in H as [<- <-]. split; [done|pairs].
Qed.
(** accepted; the main component and its signals; the same program with [y <== c[1].a + …] (an array as an
    operand), with [c[i] = sum(x, 2)] and with [sum(1, 2)] is refused *)
Definition change (s : stmt) : program :=
  Program {["sum" := sum]} (<["A" := tA]> {["Main" := Def [] (body tMain ++ [s])]}) (Call "Main" []).
Example C68_example : consistent_program example /\ accepted example 3 = true /\
  run_program example op1 op2 signal_values 5 = Ok (Inst "Main" [("x", Node [Leaf 7; Leaf 7]); ("y", Leaf 52)]) /\
  accepted (change (set "i" (InfixOp "+" (VariableOf "c" [Number 1] (Some ("a", []))) (Number 1)))) 3 = false /\
  accepted (change (Substitution "c" [Number 0] None AssignVar (Number 1))) 3 = false /\
  accepted (change (set "i" (Call "sum" [Number 1; Number 2]))) 3 = false /\
  run_program (change (set "i" (Call "sum" [Number 1; Number 2]))) op1 op2 signal_values 5 = Ill.
Proof. split; [apply example_consistent|]. vm_compute. repeat split; reflexivity. Qed.

(** ** Refuted: the check ends *)
(** [function f(x, n) { if (n == 0) { return 0; } return f([x], n - 1); }]
    [template T() { signal output o; o <== f(1, 3); }] *)
Definition fbody : list stmt := [
  IfThenElse (InfixOp "==" (var "n") (Number 0)) (Block [Return (Number 0)]) None;
  Return (Call "f" [ArrayInLine [var "x"]; InfixOp "-" (var "n") (Number 1)])].
Definition tbody : list stmt := [
  InitializationBlock (KSignal Output) [Declaration (KSignal Output) "o" []];
  Substitution "o" [] None AssignConstraintSignal (Call "f" [Number 1; Number 3])].
Definition growing : program := Program {["f" := Def ["x"; "n"] fbody]} {["T" := Def [] tbody]} (Call "T" []).

Lemma growing_body c k r : c "f" [k + 1; 0] r = Deep ->
  treat_sequence growing c (Some 0) (call_environment ["x"; "n"] [k; 0]) fbody r = Deep.
Proof.
  intros H. pose proof (Nat.eqb_refl k) as Hk. destruct k as [|k]; vm_compute in H, Hk |- *; rewrite ?Hk, H; reflexivity.
Qed.
Lemma growing_call n : forall k (r : register), (forall k', k <= k' -> r !! ("f", [k'; 0]) = None) -> call growing n "f" [k; 0] r = Deep.
Proof.
  induction n as [|n IH]; intros k r Hr; [done|]. cbn [call].
  change (functions growing !! "f") with (Some (Def ["x"; "n"] fbody)). cbn [params length negb Nat.eqb body].
  rewrite (Hr k) by lia.
  assert (type_given_function growing "f" [k; 0] = Some (Some 0)) as -> by (vm_compute; reflexivity).
  unfold mbind, M_bind. rewrite growing_body; [done|]. apply IH. intros k' Hk. rewrite lookup_insert_ne; [apply Hr; lia|].
  intros [=]. lia.
Qed.
Lemma growing_template c r : (forall r, (forall k, r !! ("f", [k; 0]) = None) -> c "f" [0; 0] r = Deep) ->
  (forall k, r !! ("f", [k; 0]) = None) ->
  treat_sequence growing c None (call_environment [] []) tbody r = Deep.
Proof. intros H Hr. specialize (H r Hr). cbn. vm_compute in H |- *. rewrite H. reflexivity. Qed.
Theorem C68_check_ends_refuted :
  ~ (forall P, consistent_program P -> exists n, type_check P n <> Deep).
Proof.
  intros H. destruct (H growing) as [n Hn].
  { split; intros f D HD; cbn in HD; apply lookup_singleton_Some in HD as [<- <-]; [split; [|done]|]; (split; [done|pairs]). }
  apply Hn. clear Hn. unfold type_check. change (main growing) with (Call "T" []). cbn [type_expression type_array].
  unfold mbind, M_bind, mret, M_ret. cbn [check_arguments fmap list_fmap]. unfold mret, M_ret.
  destruct n as [|n]; [done|]. cbn [call].
  change (functions growing !! "T") with (@None def). change (templates growing !! "T") with (Some (Def [] tbody)).
  cbn [params length negb Nat.eqb body]. rewrite lookup_empty. unfold mbind, M_bind. rewrite growing_template; [done| |].
  - intros r Hr. apply growing_call. intros k _. apply Hr.
  - intros k. rewrite lookup_insert_ne by done. apply lookup_empty.
Qed.
Print Assumptions C68_check_ends_refuted.
(** although the program itself ends, without errors *)
Example C68_growing_runs : run_program growing op1 op2 signal_values 6 = Ok (Inst "T" [("o", Leaf 0)]).
Proof. vm_compute. reflexivity. Qed.

(** ** Refuted: soundness when a variable has the name of a signal *)
(** [template T() { signal input a[2]; { var a = [1, 2]; } }]: the array is stored in a number *)
Definition shadow : program :=
  Program ∅ {["T" := Def [] [
    InitializationBlock (KSignal Input) [Declaration (KSignal Input) "a" [Number 2]];
    Block [init "a" (ArrayInLine [Number 1; Number 2])]]]} (Call "T" []).
Theorem C68_shadowed_refuted :
  ~ (forall P den1 den2 sv n m, accepted P n = true -> run_program P den1 den2 sv m <> Ill).
Proof.
  intros H. apply (H shadow op1 op2 signal_values 3 3); vm_compute; reflexivity.
Qed.
Print Assumptions C68_shadowed_refuted.
