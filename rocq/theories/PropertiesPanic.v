(** Property C69: the check of types does not panic, and the templates of components found before it. *)
From stdpp Require Import prelude gmap strings.
From Coq Require Import ZArith Lia.
From Verif Require Import TypeModel TypeSpec TypeProofs InferenceModel PanicSpec PanicProofs InferenceProofs.
From Verif Require ScopeModel.
Open Scope string_scope.
Open Scope list_scope.
Open Scope nat_scope.

(** ** C69: no panic *)
(** When the analyses before it have accepted a program (names, no returns in templates, no signals and
    components in functions), the check of types does not panic, however deep its calls are nested. *)
Theorem C69_type_check_never_panics : forall P pub n,
  written_program P ->
  ScopeModel.check_naming_correctness (names_p P pub) = [] ->
  (forall t T, templates P !! t = Some T -> forallb free_of_returns (body T) = true) ->
  (forall f F, functions P !! f = Some F -> forallb (free_of_template_elements P) (body F) = true) ->
  type_check (inference P) n <> Panic.
Proof. exact never_panics. Qed.
Print Assumptions C69_type_check_never_panics.

(** ** C69: the templates of components *)
(** The first declaration of a component of some name gets the template of the last assignment to this name
    after it in the text. *)
Theorem C69_template_of_component : forall P T x k ds l1 l2,
  flat_map in_order (body T) = l1 ++ Declaration (KComponent k) x ds :: l2 ->
  (forall k' ds', Declaration (KComponent k') x ds' ∉ l1) ->
  exists l1' l2', flat_map in_order (body (infer_template P T)) =
    l1' ++ Declaration (KComponent (last (omap (instance_of P x) l2))) x ds :: l2' /\
    length l1' = length l1 /\ length l2' = length l2.
Proof. exact inferred. Qed.
Print Assumptions C69_template_of_component.

(** ** A program that meets the hypotheses *)
(** [function f(x) { var y[2] = [x, f(f(x))]; if (x == 0) { return y[0]; } else { return y[1]; } }]
    [template A() { signal input a; signal output b; b <== a; }]
    [template Main(n) { signal input x; signal output y; component c[2]; c[0] = parallel A(); c[0].a <== x;
       y <== c[0].b + f(n); }] *)
Definition var x := VariableOf x [] None.
Definition wire k x := InitializationBlock (KSignal k) [Declaration (KSignal k) x []].
Definition fF : def := Def ["x"] [
  InitializationBlock KVar [Declaration KVar "y" [Number 2];
    Substitution "y" [] None AssignVar (ArrayInLine [var "x"; Call "f" [Call "f" [var "x"]]])];
  IfThenElse (InfixOp "==" (var "x") (Number 0)) (Block [Return (VariableOf "y" [Number 0] None)])
    (Some (Block [Return (VariableOf "y" [Number 1] None)]))].
Definition tA : def := Def [] [wire Input "a"; wire Output "b"; Substitution "b" [] None AssignConstraintSignal (var "a")].
Definition tMain : def := Def ["n"] [wire Input "x"; wire Output "y";
  InitializationBlock (KComponent None) [Declaration (KComponent None) "c" [Number 2]];
  Substitution "c" [Number 0] None AssignVar (ParallelOp (Call "A" []));
  Substitution "c" [Number 0] (Some ("a", [])) AssignConstraintSignal (var "x");
  Substitution "y" [] None AssignConstraintSignal
    (InfixOp "+" (VariableOf "c" [Number 0] (Some ("b", []))) (Call "f" [var "n"]))].
Definition example : program := Program {["f" := fF]} (<["A" := tA]> {["Main" := tMain]}) (Call "Main" [Number 3]).
(** the names are correct, the component gets its template, and the program is accepted; with an undeclared
    name in the function the check of types panics *)
Definition undeclared : program :=
  Program {["f" := Def ["x"] [Return (var "z")]]} {["Main" := Def [] [Substitution "x" [] None AssignVar (Call "f" [Number 1])]]}
    (Call "Main" []).
Example C69_example :
  written_program example /\
  ScopeModel.check_naming_correctness (names_p example ["x"]) = [] /\
  (forall t T, templates example !! t = Some T -> forallb free_of_returns (body T) = true) /\
  (forall f F, functions example !! f = Some F -> forallb (free_of_template_elements example) (body F) = true) /\
  (flat_map in_order (body (infer_template example tMain))) !! 2 = Some (Declaration (KComponent (Some "A")) "c" [Number 2]) /\
  accepted (inference example) 4 = true /\
  ScopeModel.check_naming_correctness (names_p undeclared []) <> [] /\
  type_check (inference undeclared) 4 = Panic.
Proof.
  split. { split; [|split; [|done]]; intros f D H; cbn in H; [by apply lookup_singleton_Some in H as [<- <-]|].
    apply lookup_insert_Some in H as [[<- <-]|[_ H]]; [done|by apply lookup_singleton_Some in H as [<- <-]]. }
  split; [vm_compute; reflexivity|].
  split. { intros f D H; cbn in H. apply lookup_insert_Some in H as [[<- <-]|[_ H]]; [done|by apply lookup_singleton_Some in H as [<- <-]]. }
  split. { intros f D H; cbn in H. by apply lookup_singleton_Some in H as [<- <-]. }
  vm_compute. repeat split; try reflexivity. intros H. discriminate H.
Qed.

(** ** Refuted: a component declared with its instance gets this template *)
(** [template T(n) { if (n == 0) { component c = A(); } else { component c = B(); } }]: the first declaration
    gets the template of the second, which gets none; the program is refused because [c = A()] does not fit *)
Definition create x t := InitializationBlock (KComponent None) [Declaration (KComponent None) x [];
  Substitution x [] None AssignVar (Call t [])].
Definition tT : def := Def ["n"] [IfThenElse (InfixOp "==" (var "n") (Number 0)) (Block [create "c" "A"]) (Some (Block [create "c" "B"]))].
Definition branches : program := Program ∅ (<["A" := tA]> (<["B" := tA]> {["T" := tT]})) (Call "T" [Number 0]).
Theorem C69_two_blocks_refuted :
  ~ (forall P T x k t args l1 l2, is_Some (templates P !! t) ->
     flat_map in_order (body T) = l1 ++ Declaration (KComponent k) x [] :: Substitution x [] None AssignVar (Call t args) :: l2 ->
     exists l1' l2', flat_map in_order (body (infer_template P T)) = l1' ++ Declaration (KComponent (Some t)) x [] :: l2' /\
       length l1' = length l1).
Proof.
  intros H. destruct (H branches tT "c" None "A" [] [] [Declaration (KComponent None) "c" []; Substitution "c" [] None AssignVar (Call "B" [])])
    as (l1' & l2' & E & El); [by eexists|done|]. destruct l1'; [|done]. vm_compute in E. discriminate E.
Qed.
Print Assumptions C69_two_blocks_refuted.
Example C69_branches_refused :
  ScopeModel.check_naming_correctness (names_p branches []) = [] /\
  match type_check (inference branches) 4 with Done _ _ p => p = ["WrongTypesInAssignOperationArrayTemplates"] | _ => False end /\
  run_program branches (fun _ _ => None) (fun _ x y => Some (if (x =? y)%Z then 1 else 0)%Z) (fun _ _ _ _ => 0%Z) 5 = Ok (Inst "T" []).
Proof. vm_compute. repeat split; reflexivity. Qed.
