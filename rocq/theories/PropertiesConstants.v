(** Property C70: variables of functions replaced by their values. *)
From stdpp Require Import prelude gmap strings.
From Coq Require Import ZArith.
From Verif Require Import ConstantsModel ConstantsSpec ConstantsProofs ConstantsInferProofs ConstantsTopProofs.
Open Scope string_scope.
Open Scope list_scope.
Open Scope nat_scope.

(** Every function returns the same value before and after its constants are replaced, for all arguments, meanings of
    operators and numbers of steps, if no declaration hides another one. *)
Theorem C70_same_results : forall P P' : gmap string def,
  (forall f, match P !! f, P' !! f with
    | Some D, Some D' => no_shadowing D = true /\ exists reports, handle_function_constants D = Some (D', reports)
    | None, None => True
    | _, _ => False
    end) ->
  forall den1 den2 n f vs, run results den1 den2 P' n f vs = run results den1 den2 P n f vs.
Proof. apply same_results. Qed.
Print Assumptions C70_same_results.

(** The decorator does not panic, if moreover the lengths of arrays mention names of earlier statements only. *)
Theorem C70_never_panics : forall D, no_shadowing D = true -> lengths_before D = true ->
  exists D' reports, handle_function_constants D = Some (D', reports).
Proof. apply no_panic. Qed.
Print Assumptions C70_never_panics.

(** A function whose array lengths depend directly on a parameter is reported, wherever in the function the array is. *)
Theorem C70_parameter_lengths_are_reported : forall D D' reports x d, no_shadowing D = true ->
  handle_function_constants D = Some (D', reports) -> x ∈ params D -> d ∈ array_lengths (Block (body D)) -> direct x d = true -> 0 < reports.
Proof.
  intros D D' reports x d HS HH Hx Hd HT. destruct reports as [|k]; [|apply Nat.lt_0_succ].
  rewrite (parameter_lengths D D' HS HH x d Hx Hd) in HT. discriminate.
Qed.
Print Assumptions C70_parameter_lengths_are_reported.

(** ** Examples *)
Definition v (x : string) : expr := VariableOf x [].
Definition var (x : string) (e : expr) : stmt := InitializationBlock [Declaration x [] false; Substitution x [] e].
Definition array (x : string) (d : expr) : list stmt := [Declaration x [d] false; Substitution x [] (UniformArray (Number 0) d)].
Definition op (o : string) (a b : Z) : option Z :=
  match o with
  | "+" => Some (a + b)%Z
  | "*" => Some (a * b)%Z
  | "<" => Some (if (a <? b)%Z then 1 else 0)%Z
  | "==" => Some (if (a =? b)%Z then 1 else 0)%Z
  | _ => None
  end.
Definition no_op (o : string) (a : Z) : option Z := None.

(** [function f(n) { var k = 2; var m = k * 3; var a[m]; for (var i = 0; i < m; i++) { var s = i * k; a[i] = s + n; }
     return a[m + -1] + k; }]: [k] and [m] are replaced *)
Definition sums : def := Def ["n"]
  [var "k" (Number 2); var "m" (InfixOp "*" (v "k") (Number 3)); InitializationBlock (array "a" (v "m"));
   Block [var "i" (Number 0);
     While (InfixOp "<" (v "i") (v "m")) (Block [
       Block [var "s" (InfixOp "*" (v "i") (v "k")); Substitution "a" [v "i"] (InfixOp "+" (v "s") (v "n"))];
       Substitution "i" [] (InfixOp "+" (v "i") (Number 1))])];
   Return (InfixOp "+" (VariableOf "a" [InfixOp "+" (v "m") (Number (-1))]) (v "k"))].
Definition sums_replaced : def := Def ["n"]
  [InitializationBlock [Declaration "k" [] true; Substitution "k" [] (Number 2)];
   InitializationBlock [Declaration "m" [] true; Substitution "m" [] (InfixOp "*" (Number 2) (Number 3))];
   InitializationBlock [Declaration "a" [InfixOp "*" (Number 2) (Number 3)] false;
     Substitution "a" [] (UniformArray (Number 0) (InfixOp "*" (Number 2) (Number 3)))];
   Block [InitializationBlock [Declaration "i" [] false; Substitution "i" [] (Number 0)];
     While (InfixOp "<" (v "i") (InfixOp "*" (Number 2) (Number 3))) (Block [
       Block [InitializationBlock [Declaration "s" [] true; Substitution "s" [] (InfixOp "*" (v "i") (Number 2))];
         Substitution "a" [v "i"] (InfixOp "+" (InfixOp "*" (v "i") (Number 2)) (v "n"))];
       Substitution "i" [] (InfixOp "+" (v "i") (Number 1))])];
   Return (InfixOp "+" (VariableOf "a" [InfixOp "+" (InfixOp "*" (Number 2) (Number 3)) (Number (-1))]) (Number 2))].
Example C70_example : no_shadowing sums = true /\ lengths_before sums = true /\
  handle_function_constants sums = Some (sums_replaced, 0) /\
  run results no_op op {["f" := sums]} 9 "f" [Leaf 100] = Some (Leaf 112) /\
  run results no_op op {["f" := sums_replaced]} 9 "f" [Leaf 100] = Some (Leaf 112).
Proof. repeat split; vm_compute; reflexivity. Qed.

(** [function f(n) { var i = 0; while (i < n) { var a[n + 2]; i = i + 1; } return i; }] *)
Definition by_parameter : def := Def ["n"]
  [var "i" (Number 0);
   While (InfixOp "<" (v "i") (v "n")) (Block [
     InitializationBlock (array "a" (InfixOp "+" (v "n") (Number 2))); Substitution "i" [] (InfixOp "+" (v "i") (Number 1))]);
   Return (v "i")].
Example C70_example_parameter : no_shadowing by_parameter = true /\ (exists D', handle_function_constants by_parameter = Some (D', 1)) /\
  InfixOp "+" (v "n") (Number 2) ∈ array_lengths (Block (body by_parameter)) /\ direct "n" (InfixOp "+" (v "n") (Number 2)) = true.
Proof. split; [vm_compute; reflexivity|]. split; [eexists; vm_compute; reflexivity|]. split; [left|vm_compute; reflexivity]. Qed.

(** ** What does not hold *)
(** Hidden variables.  [function f(n) { var x = 1; if (n == 0) { var x = 5; x = x + n; return x; } return x; }]
    returns [5] for [0]; the code generated for it returns [1], because the inner [x] is replaced by the value of the
    outer one *)
Definition hidden : def := Def ["n"]
  [var "x" (Number 1);
   IfThenElse (InfixOp "==" (v "n") (Number 0))
     (Block [var "x" (Number 5); Substitution "x" [] (InfixOp "+" (v "x") (v "n")); Return (v "x")]) None;
   Return (v "x")].
Theorem C70_shadowing_refuted : ~ forall D D' reports, handle_function_constants D = Some (D', reports) ->
  forall den1 den2 n vs, run results den1 den2 {["f" := D']} n "f" vs = run results den1 den2 {["f" := D]} n "f" vs.
Proof.
  intros H. destruct (handle_function_constants hidden) as [[D' k]|] eqn:E; [|vm_compute in E; discriminate].
  specialize (H hidden D' k E no_op op 3 [Leaf 0]). vm_compute in E. injection E as <- <-. vm_compute in H. discriminate.
Qed.
Print Assumptions C70_shadowing_refuted.
Example C70_hidden_runs : exists D', handle_function_constants hidden = Some (D', 0) /\
  run results no_op op {["f" := hidden]} 3 "f" [Leaf 0] = Some (Leaf 5) /\
  run results no_op op {["f" := D']} 3 "f" [Leaf 0] = Some (Leaf 1).
Proof. eexists. split; [vm_compute; reflexivity|]. split; vm_compute; reflexivity. Qed.

(** A variable in its own initial value.  [function f(n) { var x = x + 1; return x; }] returns [1]; after the
    replacement it returns [2] *)
Definition own_name : def := Def ["n"] [var "x" (InfixOp "+" (v "x") (Number 1)); Return (v "x")].
Theorem C70_own_name_refuted : exists D', handle_function_constants own_name = Some (D', 0) /\
  run results no_op op {["f" := own_name]} 3 "f" [Leaf 0] = Some (Leaf 1) /\
  run results no_op op {["f" := D']} 3 "f" [Leaf 0] = Some (Leaf 2).
Proof. eexists. split; [vm_compute; reflexivity|]. split; vm_compute; reflexivity. Qed.
Print Assumptions C70_own_name_refuted.

(** Lines logged.  [function g(a) { log(a); return a; }] and [function f(n) { var x = g(7); return x + x; }]: the
    replacement repeats the call, and the line is logged three times *)
Definition logging : def := Def ["n"] [var "x" (Call "g" [Number 7]); Return (InfixOp "+" (v "x") (v "x"))].
Definition logged_once : def := Def ["a"] [LogCall [v "a"]; Return (v "a")].
Theorem C70_log_refuted : exists D', no_shadowing logging = true /\ handle_function_constants logging = Some (D', 0) /\
  handle_function_constants logged_once = Some (logged_once, 0) /\
  run lines no_op op (<["f" := logging]> {["g" := logged_once]}) 5 "f" [Leaf 0] = (Some (Leaf 14), [[7%Z]]) /\
  run lines no_op op (<["f" := D']> {["g" := logged_once]}) 5 "f" [Leaf 0] = (Some (Leaf 14), [[7%Z]; [7%Z]; [7%Z]]).
Proof. eexists. split; [vm_compute; reflexivity|]. split; [vm_compute; reflexivity|]. repeat split; vm_compute; reflexivity. Qed.
Print Assumptions C70_log_refuted.

(** A length with a name of the same statement.  [function f(n) { var k = 3, a[k]; return n; }]: the decorator
    panics, because it looks for [k] before it adds the names of the statement *)
Definition same_statement : def := Def ["n"]
  [InitializationBlock ([Declaration "k" [] false; Substitution "k" [] (Number 3)] ++ array "a" (v "k")); Return (v "n")].
Theorem C70_length_panics_refuted : ~ forall D, no_shadowing D = true -> handle_function_constants D <> None.
Proof. intros H. apply (H same_statement); vm_compute; reflexivity. Qed.
Print Assumptions C70_length_panics_refuted.

(** Arrays of variable length.  [function f(n) { var x = 1; while (x < n) { { var y = x; var a[y]; a[0] = n; } x = x + 1; }
    return x; }] is accepted without report although the length of [a] changes: the length becomes [x], which has no
    value when lengths are computed *)
Definition growing : def := Def ["n"]
  [var "x" (Number 1);
   While (InfixOp "<" (v "x") (v "n")) (Block [
     Block [var "y" (v "x"); InitializationBlock (array "a" (v "y")); Substitution "a" [Number 0] (v "n")];
     Substitution "x" [] (InfixOp "+" (v "x") (Number 1))]);
   Return (v "x")].
Theorem C70_variable_length_refuted : ~ forall D D', no_shadowing D = true -> handle_function_constants D = Some (D', 0) ->
  forall d, d ∈ array_lengths (Block (body D')) -> exists z, eval results no_op op (fun _ _ => None) [∅] d = Some (Leaf z).
Proof.
  intros H. destruct (handle_function_constants growing) as [[D' k]|] eqn:E; [|vm_compute in E; discriminate].
  assert (k = 0) as -> by (vm_compute in E; congruence).
  destruct (H growing D' ltac:(vm_compute; reflexivity) E (v "x")) as (z & Hz).
  - vm_compute in E. injection E as <-. apply elem_of_list_In. vm_compute. auto.
  - vm_compute in Hz. discriminate.
Qed.
Print Assumptions C70_variable_length_refuted.
