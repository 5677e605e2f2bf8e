(** C59, C60: the code that is translated for the witness computes what the program says, and can be translated. *)
From stdpp Require Import prelude gmap strings.
From Coq Require Import ZArith.
From Verif Require Import SugarModel SugarSpec SugarStmtProofs SugarPlainProofs.
Open Scope nat_scope.

(** Adding zero to an exponent does not change a power: the cleaner writes [x ** (0 + x)] for [x ** x]. *)
Definition power_of_sum (W : world) : Prop :=
  forall a b, den2 W Pow a b = match den2 W Add 0 b with Some b' => den2 W Pow a b' | None => None end.
(** the same values in the variables of the program, block by block *)
Definition same_variables (σ σ' : state) : Prop := Forall2 (fun b b' => forall x, b' !! User x = b !! User x) σ σ'.

(** Executed from any state, with any bound [n] on the iterations of loops, the cleaned body of a template or
    a function does what the body of the program does: if that ends, the cleaned body ends in the same way
    (with the same returned value), has printed the same, and leaves the same values in the variables; if that
    fails (an assertion, a constraint, an index), the cleaned body does not succeed.

    Missing: the programs that are not [tame]; the refutations below show that the cleaner is wrong about them. *)
Theorem C59_cleaned_code_is_equivalent_partial W mixed body body' :
  power_of_sum W -> clean_sugar mixed body = Some body' -> is_block body = true -> tame mixed body ->
  forall n σ, σ <> [] ->
  match exec W n body σ with
  | Ok (σ1, printed, how) => exists σ1', exec W n body' σ = Ok (σ1', printed, how) /\ same_variables σ1 σ1'
  | Fail => forall o, exec W n body' σ <> Ok o
  | Ill => True
  end.
Proof.
  intros Hpow Hc Hb Ht n σ Hσ. pose proof (clean_sim W n Hpow mixed body body' Hc Hb Ht σ Hσ) as H. unfold rel in H.
  destruct (exec W n body σ) as [[[σ1 t] c]| |]; [|exact H..]. destruct H as (σ1' & E & Ha). exists σ1'. split; [done|].
  eapply Forall2_impl; [exact Ha|]. intros b b' Hbb x. by apply Hbb.
Qed.
Print Assumptions C59_cleaned_code_is_equivalent_partial.

(** The cleaned body contains no inline condition, no array and no initialisation block, and returns no call: the
    translation does not stop at "This expression is syntactic sugar".

    Missing: the programs that are not [removable]; see the refutations below. *)
Theorem C60_cleaned_code_is_translatable_partial mixed body body' :
  clean_sugar mixed body = Some body' -> is_block body = true -> removable false body = true -> translatable body' = true.
Proof. intros H Hb Hr. eapply clean_plain; [exact H|]. by destruct body. Qed.
Print Assumptions C60_cleaned_code_is_translatable_partial.

(** ** A concrete case *)
Definition numbers : world := World
  (fun o a => Some (- a)%Z)
  (fun o a b => match o with
    | Add => Some (a + b)%Z
    | Pow => Some (a ^ b)%Z
    | OtherOp "*" => Some (a * b)%Z
    | OtherOp "-" => Some (a - b)%Z
    | OtherOp "<" => Some (if (a <? b)%Z then 1 else 0)%Z
    | OtherOp "==" => Some (if (a =? b)%Z then 1 else 0)%Z
    | OtherOp _ => None
    end)
  (fun f vs => match f, vs with
    | "id", [Leaf a] => Some (Leaf a)
    | "positive", [Leaf a] => if (a <=? 0)%Z then None else Some (Leaf a)    (* asserts that its argument is positive *)
    | "sum", [Node [Leaf a; Leaf b]] => Some (Leaf (a + b)%Z)
    | "pair", [Leaf a] => Some (Node [Leaf a; Leaf (a + 1)%Z])
    | _, _ => None
    end).
Lemma numbers_power : power_of_sum numbers.
Proof. intros a b. cbn. by rewrite Z.add_0_l. Qed.
Definition no_mixed : name -> bool := fun _ => false.
Definition v (x : string) : expr := Var [] (User x) [].
Definition at_ (x : string) (i : expr) : expr := Var [] (User x) [Idx i].
Definition mul := Inf (OtherOp "*"). Definition sub := Inf (OtherOp "-"). Definition lt := Inf (OtherOp "<"). Definition eq := Inf (OtherOp "==").
Definition set (x : string) (e : expr) : stmt := Assign (User x) [] "=" e.
Definition observe (r : R outcome) : R (list event * control) := match r with Ok (_, t, c) => Ok (t, c) | Fail => Fail | Ill => Ill end.
Definition run (body : stmt) : R (list event * control) := observe (exec numbers 10 body [∅]).

(** [var a[3] = [id(id(2)), 1 < 2 ? 5 : 6];  var s = sum(pair(a[1])) + a[0] ** a[0];
     while (a[2] < 3) { a[2] = id(a[2]) + 1; }  log("s", s);  [a[0], s] === [2, 15];  return [s, a[2]];] *)
Definition sample : stmt := Block [
  Init [Decl (User "a") [3]; set "a" (Arr [3] [Call [] "id" [Call [] "id" [Num 2]]; Switch [] (lt (Num 1) (Num 2)) (Num 5) (Num 6)])];
  Init [Decl (User "s") []; set "s" (Inf Add (Call [] "sum" [Call [2] "pair" [at_ "a" (Num 1)]]) (Inf Pow (at_ "a" (Num 0)) (at_ "a" (Num 0))))];
  While (lt (at_ "a" (Num 2)) (Num 3)) (Block [Assign (User "a") [Idx (Num 2)] "=" (Inf Add (Call [] "id" [at_ "a" (Num 2)]) (Num 1))]);
  Log [inl "s"; inr (v "s")];
  Equal (Arr [2] [at_ "a" (Num 0); v "s"]) (Arr [2] [Num 2; Num 15]);
  Return (Arr [2] [v "s"; at_ "a" (Num 2)])].
Lemma sample_tame : tame no_mixed sample.
Proof. cbn. unfold source, source_accesses, apart. split_and!; try done; cbn; try (repeat constructor; done); try set_solver. Qed.
Example C59_hypotheses_met : exists body', clean_sugar no_mixed sample = Some body' /\ power_of_sum numbers /\ is_block sample = true /\ tame no_mixed sample /\
  [∅] <> ([] : state) /\ run sample = Ok ([[inl "s"; inr (Leaf 15)]], Returned (Node [Leaf 15; Leaf 3])) /\ run body' = run sample /\
  removable false sample = true /\ translatable body' = true /\ translatable sample = false.
Proof. eexists. split; [vm_compute; reflexivity|]. split_and!; first [apply numbers_power|apply sample_tame|vm_compute; reflexivity|done]. Qed.

(** ** Programs that are changed *)
(** Bodies that return are those of functions; only the code of templates is simplified before (executed_program.rs:104-112). *)
Definition changed (body : stmt) (r r' : R (list event * control)) : Prop :=
  is_block body = true /\ exists body', clean_sugar no_mixed body = Some body' /\ run body = r /\ run body' = r' /\ r <> r'.
Ltac show := split; [done|]; eexists; split_and!; [vm_compute; reflexivity|vm_compute; reflexivity|vm_compute; reflexivity|done].
(** [var a[2] = [1, 2]; a = [a[1], a[0]]; return 10 * a[0] + a[1];]: the elements are assigned one after the other *)
Definition swap : stmt := Block [
  Init [Decl (User "a") [2]; set "a" (Arr [2] [Num 1; Num 2])];
  set "a" (Arr [2] [at_ "a" (Num 1); at_ "a" (Num 0)]);
  Return (Inf Add (mul (Num 10) (at_ "a" (Num 0))) (at_ "a" (Num 1)))].
Theorem C59_array_assignment_refuted : changed swap (Ok ([], Returned (Leaf 21))) (Ok ([], Returned (Leaf 22))).
Proof. show. Qed.
Print Assumptions C59_array_assignment_refuted.
(** [var i = 1; while (id(i)) { if (i == 0) { return 7; } i = i - 1; } return 0;]: the call in the condition is
    evaluated once, before the loop *)
Definition call_in_condition : stmt := Block [
  Init [Decl (User "i") []; set "i" (Num 1)];
  While (Call [] "id" [v "i"]) (Block [If (eq (v "i") (Num 0)) (Block [Return (Num 7)]) None; set "i" (sub (v "i") (Num 1))]);
  Return (Num 0)].
Theorem C59_call_in_loop_condition_refuted : changed call_in_condition (Ok ([], Returned (Leaf 0))) (Ok ([], Returned (Leaf 7))).
Proof. show. Qed.
Print Assumptions C59_call_in_loop_condition_refuted.
(** [var n = 0; return n == 0 ? 1 : n * positive(n);]: the call in the branch that is not taken is evaluated *)
Definition call_in_branch : stmt := Block [
  Init [Decl (User "n") []; set "n" (Num 0)];
  Return (Switch [] (eq (v "n") (Num 0)) (Num 1) (mul (v "n") (Call [] "positive" [v "n"])))].
Theorem C59_call_in_branch_refuted : changed call_in_branch (Ok ([], Returned (Leaf 1))) Fail.
Proof. show. Qed.
Print Assumptions C59_call_in_branch_refuted.
(** [var x = 1; while (x < 3) x = x + id(x); return x;]: the call in a body without braces is evaluated once, before the loop *)
Definition bare_body : stmt := Block [
  Init [Decl (User "x") []; set "x" (Num 1)];
  While (lt (v "x") (Num 3)) (set "x" (Inf Add (v "x") (Call [] "id" [v "x"])));
  Return (v "x")].
Theorem C59_body_without_braces_refuted : changed bare_body (Ok ([], Returned (Leaf 4))) (Ok ([], Returned (Leaf 3))).
Proof. show. Qed.
Print Assumptions C59_body_without_braces_refuted.
(** [signal input in; [in, in] === pair(1);], with [in = 0]: there is no check *)
Definition array_and_call : stmt := Block [
  Decl (User "in") [];
  Equal (Arr [2] [v "in"; v "in"]) (Call [2] "pair" [Num 1])].
Theorem C59_array_equal_to_call_refuted : changed array_and_call Fail (Ok ([], Next)).
Proof. show. Qed.
Print Assumptions C59_array_equal_to_call_refuted.

(** ** Programs that cannot be translated *)
Definition stuck (body : stmt) : Prop :=
  exists r body', is_block body = true /\ run body = Ok r /\ clean_sugar no_mixed body = Some body' /\ translatable body' = false.
Ltac stuck := eexists _, _; split_and!; [done|vm_compute; reflexivity|vm_compute; reflexivity|reflexivity].
Definition choice (c : expr) : expr := Switch [] (lt c (Num 1)) (Num 5) (Num 6).
(** in a function with the parameter or variable [x]: [log(x < 1 ? 5 : 6);], [assert(x < 1 ? 5 : 6);],
    [x = (x < 1 ? 5 : 6) ? 5 : 6;] and [if (x < 1) x = x < 1 ? 5 : 6;]; in a template
    [signal s[2]; for (var i = 0; i < 2; i++) { s[i] <-- i < 1 ? 5 : 6; s[i] === (i < 1 ? 5 : 6); }] *)
Definition function (s : stmt) : stmt := Block [Decl (User "x") []; s; Return (v "x")].
Theorem C60_inline_condition_refuted :
  stuck (function (Log [inr (choice (v "x"))])) /\
  stuck (function (Assert (choice (v "x")))) /\
  stuck (function (set "x" (Switch [] (choice (v "x")) (Num 5) (Num 6)))) /\
  stuck (function (If (lt (v "x") (Num 1)) (set "x" (choice (v "x"))) None)) /\
  stuck (Block [Decl (User "s") [2]; Block [Init [Decl (User "i") []; set "i" (Num 0)]; While (lt (v "i") (Num 2)) (Block [
    Assign (User "s") [Idx (v "i")] "<--" (choice (v "i"));
    Equal (at_ "s" (v "i")) (choice (v "i"));
    set "i" (Inf Add (v "i") (Num 1))])]]).
Proof. split_and!; stuck. Qed.
Print Assumptions C60_inline_condition_refuted.
