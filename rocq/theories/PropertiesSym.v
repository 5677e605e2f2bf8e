(** C57 (the constraints are the equations of the code), C58 (the computed witness satisfies the
    constraints) and C48 (constant propagation keeps the meaning of the code). *)
From stdpp Require Import prelude gmap list.
From Coq Require Import ZArith Znumtheory Lia.
From Verif Require Import ModArithModel AlgebraModel AlgebraSpec PropertiesAlgebra
  SymModel SymSpec SymProofs SymRunProofs SymFilterProofs SymInterp.
Open Scope Z_scope.

(** ** C57 *)
(** Compile a template with given parameters.  For every assignment [φ] of values to the signals, run
    the code with these values: it meets the equations [l = r] of its [<==] and [===] statements in
    some order.  The compiler produced exactly as many constraints, in the same order, and under [φ]
    each holds if and only if its equation does.  [a_stable]: the second pass over the body of each
    loop with an unknown condition changed no variable; without it the statement is false, see
    [C58_unstable_refuted]. *)
Theorem C57_constraints_are_the_equations_partial p wire F φ n xs vs body o tr r E' σ σ' :
  prime p -> 2 < p -> good_funs p F -> forallb (well_formed p) body = true ->
  Forall (fun v => 0 <= v < p) vs -> length xs = length vs ->
  exec_template p wire F n xs vs body = Some o -> a_stable (o_an o) = true ->
  runs p wire F (given p φ) xs vs body σ tr r E' σ' ->
  r = None /\ Forall2 (fun c lr => holds p φ c <-> lr.1 = lr.2) (o_cs o) (equations tr).
Proof. apply constraints_sound. Qed.
Print Assumptions C57_constraints_are_the_equations_partial.

(** ** C58 *)
(** Run the same code on its inputs, computing every other signal.  If every [===] statement met was
    true, the computed signals satisfy all the constraints of the compiler. *)
Theorem C58_witness_satisfies_constraints_partial p wire F n xs vs body o σ tr r E' Σ φ :
  prime p -> 2 < p -> good_funs p F -> forallb (well_formed p) body = true ->
  Forall (fun v => 0 <= v < p) vs -> length xs = length vs ->
  exec_template p wire F n xs vs body = Some o -> a_stable (o_an o) = true ->
  map_Forall (fun _ v => 0 <= v < p) σ ->
  runs p wire F computing xs vs body σ tr r E' Σ ->
  (forall k v, Σ !! k = Some v -> φ (S k) = v) ->
  Forall (fun lr => lr.1 = lr.2) (checks tr) ->
  Forall (holds p φ) (o_cs o).
Proof. apply witness_satisfies. Qed.
Print Assumptions C58_witness_satisfies_constraints_partial.

(** ** C48 *)
(** What the analysis remembers after a history of evaluations: [Some z] exactly when the expression
    was evaluated at least once and its value was always the number [z]. *)
Theorem C48_recorded (h : list (nat * aexpr)) id z :
  read_computed (fold_left (fun a iv => computed iv.1 iv.2 a) h analysis0) id = Some z <->
  (exists v, (id, v) ∈ h) /\ forall v, (id, v) ∈ h -> v = Number z.
Proof.
  assert (G : forall h a, read_computed (fold_left (fun a iv => computed iv.1 iv.2 a) h a) id = Some z <->
    (a_computed a !! id = Some (Val z) \/ (a_computed a !! id = None /\ exists v, (id, v) ∈ h)) /\
    forall v, (id, v) ∈ h -> v = Number z).
  { clear h. induction h as [|[i v] h IH]; intros a; cbn [fold_left].
    - unfold read_computed. destruct (a_computed a !! id) as [[y|]|]; split; intros H.
      + injection H as ->. split; [auto|]. intros v Hv. by apply elem_of_nil in Hv.
      + destruct H as [[H|[H _]] _]; congruence.
      + discriminate.
      + destruct H as [[H|[H _]] _]; discriminate.
      + discriminate.
      + destruct H as [[H|[_ [v Hv]]] _]; [discriminate|]. by apply elem_of_nil in Hv.
    - rewrite IH. cbn [fst snd computed a_computed]. destruct (decide (i = id)) as [->|Hi].
      + rewrite lookup_insert. split; intros [H1 H2].
        * destruct H1 as [H1|[H1 _]]; [|discriminate].
          assert (v = Number z /\ (a_computed a !! id = Some (Val z) \/ a_computed a !! id = None)) as [-> Ha].
          { destruct (a_computed a !! id) as [[y|]|], v as [w|w|w|w|]; cbn in H1; try discriminate.
            - destruct (Z.eqb_spec y w); [|discriminate]. injection H1 as ->. subst. auto.
            - injection H1 as ->. auto. }
          split.
          -- destruct Ha; [auto|]. right. split; [done|]. exists (Number z). left.
          -- intros v Hv. apply elem_of_cons in Hv as [Hv|Hv]; [congruence|auto].
        * assert (v = Number z) as -> by (apply H2; left). split.
          -- left. destruct H1 as [-> |[-> _]]; cbn; [by rewrite Z.eqb_refl|done].
          -- intros v Hv. apply H2. by right.
      + rewrite lookup_insert_ne by done. split; intros [H1 H2].
        * split.
          -- destruct H1 as [H1|[H1 [w Hw]]]; [auto|]. right. split; [done|]. exists w. by right.
          -- intros w Hw. apply elem_of_cons in Hw as [Hw|Hw]; [congruence|auto].
        * split.
          -- destruct H1 as [H1|[H1 [w Hw]]]; [auto|]. right. split; [done|]. exists w.
             apply elem_of_cons in Hw as [Hw|Hw]; [congruence|auto].
          -- intros w Hw. apply H2. by right. }
  rewrite G. cbn. rewrite lookup_empty. split; intros [H1 H2]; split; auto.
  destruct H1 as [H1|[_ H1]]; [discriminate|auto].
Qed.
Print Assumptions C48_recorded.
Example C48_recorded_ex : read_computed (fold_left (fun a iv => computed iv.1 iv.2 a)
  [(3%nat, Number 5); (4%nat, Number 1); (3%nat, Number 5); (4%nat, Number 2)] analysis0) 3 = Some 5 /\
  read_computed (fold_left (fun a iv => computed iv.1 iv.2 a)
  [(3%nat, Number 5); (4%nat, Number 1); (3%nat, Number 5); (4%nat, Number 2)] analysis0) 4 = None.
Proof. split; vm_compute; reflexivity. Qed.

(** The code after removal of dead code and constant propagation does what the original does: same
    signals, logs, assertions and equations in the same order, whatever the signals are ([M]).
    Missing for the full statement, and false without: unknown loops must be stable ([a_stable]);
    no branch of an inline condition may contain a propagated constant if it was skipped once;
    functions neither log nor assert.  See the four refutations below. *)
Theorem C48_filtered_code_runs_alike_partial p wire F M n xs vs id body o σ tr r E' σ' :
  prime p -> 2 < p -> good_funs p F -> all_funs (all_stmt silent always) F ->
  forallb (well_formed p) body = true -> Forall (fun v => 0 <= v < p) vs -> length xs = length vs ->
  exec_template p wire F n xs vs body = Some o -> a_stable (o_an o) = true ->
  (forall e, e ∈ a_skipped (o_an o) -> known_expr (o_an o) e = e) ->
  runs p wire F M xs vs body σ tr r E' σ' ->
  exists body', filter_code p (o_an o) (SBlock id body) = SBlock id body' /\ runs p wire F M xs vs body' σ tr r E' σ'.
Proof. apply filter_runs. Qed.
Print Assumptions C48_filtered_code_runs_alike_partial.

(** There is no other run: what the filtered code computes is what the original computes. *)
Theorem C48_filtered_code_computes_the_same_partial p wire F n xs vs id body body' o σ tr r E1 σ1 tr' r' E2 σ2 :
  prime p -> 2 < p -> good_funs p F -> all_funs (all_stmt silent always) F ->
  forallb (well_formed p) body = true -> Forall (fun v => 0 <= v < p) vs -> length xs = length vs ->
  exec_template p wire F n xs vs body = Some o -> a_stable (o_an o) = true ->
  (forall e, e ∈ a_skipped (o_an o) -> known_expr (o_an o) e = e) ->
  filter_code p (o_an o) (SBlock id body) = SBlock id body' ->
  map_Forall (fun _ v => 0 <= v < p) σ ->
  runs p wire F computing xs vs body σ tr r E1 σ1 -> runs p wire F computing xs vs body' σ tr' r' E2 σ2 ->
  tr' = tr /\ r' = r /\ E2 = E1 /\ σ2 = σ1.
Proof.
  intros Hp Hp2 HF HQ W Hv HL H S SK Hb Hσ R R'.
  destruct (filter_runs p wire F computing n xs vs id body o σ tr r E1 σ1 Hp Hp2 HF HQ W Hv HL H S SK R) as (b & Eb & Rb).
  rewrite Hb in Eb. injection Eb as <-. eapply (runs_det p wire F); eauto.
Qed.
Print Assumptions C48_filtered_code_computes_the_same_partial.

(** ** A concrete template *)
(** [function sq(x) { return x * x; }
     template T(n) {
       signal input in; signal output out[n]; signal aux;
       var t = 0; if (in == 3) { t = 1; }
       var j = 0; var k = 4; while (j < in) { j = j + 1; }
       aux <-- t + k;
       for (var i = 0; i < n; i++) {
         if (i == 1) { out[i] <== in * aux + sq(i + 1); } else { out[i] <== sq(in); out[i] === in * in; }
       }
     }]
    Signals: 0 is [in], 1 is [aux], 2 is [out].  Variables: 0 [n], 1 [t], 2 [j], 3 [k], 4 [i]. *)
Definition ex_wire (s : nat) (l : list Z) : option nat :=
  match s, l with
  | 0%nat, [] => Some 0%nat
  | 1%nat, [] => Some 1%nat
  | 2%nat, [i] => if (0 <=? i) && (i <? 2) then Some (2 + Z.to_nat i)%nat else None
  | _, _ => None
  end.
Definition ex_funs : funs := fun f =>
  match f with 0%nat => Some ([0%nat], [SReturn 200 (EInfix 201 Mul (EVar 202 0 []) (EVar 203 0 []))]) | _ => None end.
Definition ex_body : list stmt :=
  [SInit 1 [SDecl 2 1 []; SAssign 3 1 [] (ENum 4 0)];
   SIf 5 (EInfix 6 Eq (ESig 7 0 []) (ENum 8 3)) (SBlock 9 [SAssign 10 1 [] (ENum 11 1)]) None;
   SInit 12 [SDecl 13 2 []; SAssign 14 2 [] (ENum 15 0)];
   SInit 16 [SDecl 17 3 []; SAssign 18 3 [] (ENum 19 4)];
   SWhile 20 (EInfix 21 Lesser (EVar 22 2 []) (ESig 23 0 []))
     (SBlock 24 [SAssign 25 2 [] (EInfix 26 Add (EVar 27 2 []) (ENum 28 1))]);
   SSignal 29 false 1 [] (EInfix 30 Add (EVar 31 1 []) (EVar 32 3 []));
   SBlock 33
     [SInit 34 [SDecl 35 4 []; SAssign 36 4 [] (ENum 37 0)];
      SWhile 38 (EInfix 39 Lesser (EVar 40 4 []) (EVar 41 0 []))
        (SBlock 42
          [SBlock 43
            [SIf 44 (EInfix 45 Eq (EVar 46 4 []) (ENum 47 1))
              (SBlock 48 [SSignal 49 true 2 [EVar 50 4 []]
                 (EInfix 51 Add (EInfix 52 Mul (ESig 53 0 []) (ESig 54 1 []))
                    (ECall 55 0 [EInfix 56 Add (EVar 57 4 []) (ENum 58 1)]))])
              (Some (SBlock 59 [SSignal 60 true 2 [EVar 61 4 []] (ECall 62 0 [ESig 63 0 []]);
                                SEqual 64 (ESig 65 2 [EVar 66 4 []]) (EInfix 67 Mul (ESig 68 0 []) (ESig 69 0 []))]))];
           SAssign 70 4 [] (EInfix 71 Add (EVar 72 4 []) (ENum 73 1))])]].
Definition ex_assignment (k : nat) : Z := match k with 1%nat => 3 | 2%nat => 5 | 3%nat => 2 | 4%nat => 5 | _ => 0 end.
Lemma ex_good : good_funs 7 ex_funs /\ all_funs (all_stmt silent always) ex_funs.
Proof. split; [split|]; intros [|f] xs body H; cbn in H; try discriminate; injection H as <- <-; reflexivity. Qed.
(** Computations are checked through a test of the result, not by printing it. *)
Lemma tested {A} (x : option A) (P : A -> bool) : match x with Some a => P a | None => false end = true ->
  exists a, x = Some a /\ P a = true.
Proof. destruct x; [eauto|discriminate]. Qed.

(** The three constraints hold for [in = 3], [aux = 5], [out = [2, 5]] (modulo 7). *)
Example C57_ex : good_funs 7 ex_funs /\ forallb (well_formed 7) ex_body = true /\
  exists o tr r E' σ', exec_template 7 ex_wire ex_funs 30 [0%nat] [2] ex_body = Some o /\ a_stable (o_an o) = true /\
    runs 7 ex_wire ex_funs (given 7 ex_assignment) [0%nat] [2] ex_body tt tr r E' σ' /\
    length (o_cs o) = 3%nat /\ equations tr = [(2, 2); (2, 2); (5, 5)].
Proof.
  split; [apply ex_good|]. split; [reflexivity|].
  destruct (tested (exec_template 7 ex_wire ex_funs 30 [0%nat] [2] ex_body)
    (fun o => a_stable (o_an o) && bool_decide (length (o_cs o) = 3%nat))) as (o & Ho & To); [vm_compute; reflexivity|].
  destruct (tested (igiven 7 ex_wire ex_funs ex_assignment 30 [0%nat] [2] ex_body)
    (fun '(tr, _, _, _) => bool_decide (equations tr = [(2, 2); (2, 2); (5, 5)]))) as ([[[tr r] E'] σ'] & Hr & Tr); [vm_compute; reflexivity|].
  apply andb_prop in To as [T1 T2]. exists o, tr, r, E', σ'. split; [done|]. split; [done|].
  split; [eapply igiven_ok; exact Hr|]. split; eapply bool_decide_eq_true; eassumption.
Qed.
Example C58_ex : exists o tr r E' Σ, exec_template 7 ex_wire ex_funs 30 [0%nat] [2] ex_body = Some o /\ a_stable (o_an o) = true /\
  runs 7 ex_wire ex_funs computing [0%nat] [2] ex_body ({[0%nat := 3]} : gmap nat Z) tr r E' Σ /\
  checks tr = [(2, 2)] /\ Σ = ({[0%nat := 3; 1%nat := 5; 2%nat := 2; 3%nat := 5]} : gmap nat Z).
Proof.
  destruct (tested (exec_template 7 ex_wire ex_funs 30 [0%nat] [2] ex_body) (fun o => a_stable (o_an o))) as (o & Ho & To);
    [vm_compute; reflexivity|].
  destruct (tested (icompute 7 ex_wire ex_funs 30 [0%nat] [2] ex_body {[0%nat := 3]})
    (fun '(tr, _, _, Σ) => bool_decide (checks tr = [(2, 2)]) &&
       bool_decide (Σ = ({[0%nat := 3; 1%nat := 5; 2%nat := 2; 3%nat := 5]} : gmap nat Z)))) as ([[[tr r] E'] σ'] & Hr & Tr); [vm_compute; reflexivity|].
  apply andb_prop in Tr as [T1 T2]. exists o, tr, r, E', σ'. split; [done|]. split; [done|].
  split; [eapply icompute_ok; exact Hr|]. split; [eapply bool_decide_eq_true; eassumption|].
  apply bool_decide_eq_true in T2. exact T2.
Qed.
(** In the filtered code the constants have been propagated. *)
Example C48_ex : all_funs (all_stmt silent always) ex_funs /\
  exists o, exec_template 7 ex_wire ex_funs 30 [0%nat] [2] ex_body = Some o /\ a_stable (o_an o) = true /\
    a_skipped (o_an o) = [] /\
    exists l1 l2 l3, filter_code 7 (o_an o) (SBlock 0 ex_body) =
      SBlock 0 (l1 ++ [SSignal 29 false 1 [] (EInfix 30 Add (EVar 31 1 []) (ENum 32 4));
        SBlock 33 (l2 ++ [SWhile 38 (EInfix 39 Lesser (EVar 40 4 []) (ENum 41 2)) l3])]).
Proof.
  split; [apply ex_good|].
  destruct (tested (exec_template 7 ex_wire ex_funs 30 [0%nat] [2] ex_body)
    (fun o => a_stable (o_an o) && match a_skipped (o_an o) with [] => true | _ => false end)) as (o & Ho & To);
    [vm_compute; reflexivity|].
  exists o. split; [exact Ho|]. apply andb_prop in To as [T1 T2]. split; [exact T1|]. split; [by destruct (a_skipped (o_an o))|].
  assert (X : match exec_template 7 ex_wire ex_funs 30 [0%nat] [2] ex_body with
    Some o => Some (filter_code 7 (o_an o) (SBlock 0 ex_body)) | None => None end = Some (filter_code 7 (o_an o) (SBlock 0 ex_body)))
    by (rewrite Ho; reflexivity).
  match type of X with ?l = _ => let v := eval vm_compute in l in assert (Y : l = v) by (vm_compute; reflexivity) end.
  rewrite X in Y. apply Some_inj in Y. rewrite Y.
  match goal with |- context [SBlock 0 [?a; ?b; ?c; ?d; ?e; ?f; SBlock 33 [?g; SWhile _ _ ?h]]] =>
    exists [a; b; c; d; e], [g], h end.
  reflexivity.
Qed.

(** ** Refutations *)
Definition bn128 : Z := 21888242871839275222246405745257275088548364400416034343698204186575808495617.
(** The filtered code of a template without parameters computes something else than the original:
    other events (signals, logs, assertions). *)
Definition miscompiled (F : funs) (wire : nat -> list Z -> option nat) (body : list stmt) (σ : gmap nat Z)
  (tr tr' : list event) : Prop :=
  forallb (well_formed bn128) body = true /\ good_funs bn128 F /\
  exists n o body' E1 σ1 E2 σ2, exec_template bn128 wire F n [] [] body = Some o /\
    filter_code bn128 (o_an o) (SBlock 0 body) = SBlock 0 body' /\
    runs bn128 wire F computing [] [] body σ tr None E1 σ1 /\
    runs bn128 wire F computing [] [] body' σ tr' None E2 σ2.
Global Instance event_eq_dec : EqDecision event.
Proof. solve_decision. Defined.
Definition is_none {A} (x : option A) : bool := match x with None => true | _ => false end.
Lemma miscompiled_test F wire body σ n tr tr' : forallb (well_formed bn128) body = true -> good_funs bn128 F ->
  match exec_template bn128 wire F n [] [] body, icompute bn128 wire F n [] [] body σ with
  | Some o, Some (t, r, _, _) =>
      match filter_code bn128 (o_an o) (SBlock 0 body) with
      | SBlock 0 body' =>
          match icompute bn128 wire F n [] [] body' σ with
          | Some (t', r', _, _) => bool_decide (t = tr) && bool_decide (t' = tr') && is_none r && is_none r'
          | None => false
          end
      | _ => false
      end
  | _, _ => false
  end = true -> miscompiled F wire body σ tr tr'.
Proof.
  intros W HF H. split; [done|]. split; [done|].
  destruct (exec_template bn128 wire F n [] [] body) as [o|] eqn:Ho; [|discriminate].
  destruct (icompute bn128 wire F n [] [] body σ) as [[[[t r] E1] σ1]|] eqn:Hr; [|discriminate].
  destruct (filter_code bn128 (o_an o) (SBlock 0 body)) as [| | | | | | | |[|?] body'| | |] eqn:Hf; try discriminate.
  destruct (icompute bn128 wire F n [] [] body' σ) as [[[[t' r'] E2] σ2]|] eqn:Hr'; [|discriminate].
  repeat (apply andb_prop in H as [H ?]). apply bool_decide_eq_true in H, H2. subst.
  destruct r; [discriminate|]. destruct r'; [discriminate|].
  exists n, o, body', E1, σ1, E2, σ2. split; [done|]. split; [done|]. split; eapply icompute_ok; eassumption.
Qed.
Definition no_funs : funs := fun _ => None.
Lemma no_funs_good p : good_funs p no_funs.
Proof. split; intros f xs body H; discriminate. Qed.
Lemma one_fun_good p xs body (F : funs) : (forall f, F f = match f with 0%nat => Some (xs, body) | _ => None end) ->
  forallb (well_formed p) body = true -> forallb (all_stmt no_signal always) body = true -> good_funs p F.
Proof.
  intros H W1 W2. split; intros [|f] xs' body' Hf; rewrite H in Hf; try discriminate; injection Hf as <- <-; done.
Qed.

(** A branch of an inline condition that was evaluated once with a known condition and is not
    evaluated when the condition is unknown keeps the value of its first evaluation:
    [for (var i = 0; i < 2; i++) { var c = 1; if (i == 1) { c = in; } out[i] <-- c ? i + 5 : 7; }]
    with [in = 1] must set [out = [5, 6]]; the filtered code sets [out = [5, 5]]. *)
Definition switch_body : list stmt :=
  [SBlock 1
    [SInit 2 [SDecl 3 0 []; SAssign 4 0 [] (ENum 5 0)];
     SWhile 6 (EInfix 7 Lesser (EVar 8 0 []) (ENum 9 2))
       (SBlock 10
         [SBlock 11
           [SInit 12 [SDecl 13 1 []; SAssign 14 1 [] (ENum 15 1)];
            SIf 16 (EInfix 17 Eq (EVar 18 0 []) (ENum 19 1)) (SBlock 20 [SAssign 21 1 [] (ESig 22 0 [])]) None;
            SSignal 23 false 2 [EVar 24 0 []]
              (ESwitch 25 (EVar 26 1 []) (EInfix 27 Add (EVar 28 0 []) (ENum 29 5)) (ENum 30 7))];
          SAssign 31 0 [] (EInfix 32 Add (EVar 33 0 []) (ENum 34 1))])]].
Theorem C48_inline_condition_refuted :
  miscompiled no_funs ex_wire switch_body {[0%nat := 1]} [EvSet 2 5; EvSet 3 6] [EvSet 2 5; EvSet 3 5].
Proof. eapply (miscompiled_test _ _ _ _ 30); [reflexivity|apply no_funs_good|vm_compute; reflexivity]. Qed.
Print Assumptions C48_inline_condition_refuted.

(** The body of a loop with an unknown condition is executed only twice:
    [var i = 0; var k = 5; var acc = 0;
     while (i < in) { acc = acc + k; if (i == 1) { k = 7; } i = i + 1; }  aux <-- acc;]
    with [in = 3] must set [aux = 17]; the filtered code sets [aux = 15]. *)
Definition loop_body : list stmt :=
  [SInit 1 [SDecl 2 0 []; SAssign 3 0 [] (ENum 4 0)];
   SInit 5 [SDecl 6 1 []; SAssign 7 1 [] (ENum 8 5)];
   SInit 9 [SDecl 10 2 []; SAssign 11 2 [] (ENum 12 0)];
   SWhile 13 (EInfix 14 Lesser (EVar 15 0 []) (ESig 16 0 []))
     (SBlock 17
       [SAssign 18 2 [] (EInfix 19 Add (EVar 20 2 []) (EVar 21 1 []));
        SIf 22 (EInfix 23 Eq (EVar 24 0 []) (ENum 25 1)) (SBlock 26 [SAssign 27 1 [] (ENum 28 7)]) None;
        SAssign 29 0 [] (EInfix 30 Add (EVar 31 0 []) (ENum 32 1))]);
   SSignal 33 false 1 [] (EVar 34 2 [])].
Theorem C48_unknown_loop_refuted : miscompiled no_funs ex_wire loop_body {[0%nat := 3]} [EvSet 1 17] [EvSet 1 15].
Proof. eapply (miscompiled_test _ _ _ _ 30); [reflexivity|apply no_funs_good|vm_compute; reflexivity]. Qed.
Print Assumptions C48_unknown_loop_refuted.

(** A call that logs is not replaced by its value, but an operator over it is:
    [function f(x, y) { log(y); return x; }   aux <-- f(3, in) + 0;]   loses the log. *)
Definition log_funs : funs := fun f =>
  match f with 0%nat => Some ([0%nat; 1%nat], [SLog 200 [EVar 201 1 []]; SReturn 202 (EVar 203 0 [])]) | _ => None end.
Definition log_body : list stmt :=
  [SSignal 1 false 1 [] (EInfix 2 Add (ECall 3 0 [ENum 4 3; ESig 5 0 []]) (ENum 6 0))].
Theorem C48_lost_log_refuted : miscompiled log_funs ex_wire log_body {[0%nat := 8]} [EvLog [8]; EvSet 1 3] [EvSet 1 3].
Proof.
  eapply (miscompiled_test _ _ _ _ 30); [reflexivity|eapply one_fun_good; [done|reflexivity|reflexivity]|vm_compute; reflexivity].
Qed.
Print Assumptions C48_lost_log_refuted.

(** A call that was evaluated once without a log and then with one keeps the value of the first
    evaluation:
    [function f(x) { if (x == 1) { log(x); return 7; } return 5; }
     for (var i = 0; i < 2; i++) { out[i] <-- f(i); }]
    must set [out = [5, 7]]; the filtered code sets [out = [5, 5]]. *)
Definition call_funs : funs := fun f =>
  match f with
  | 0%nat => Some ([0%nat],
      [SIf 200 (EInfix 201 Eq (EVar 202 0 []) (ENum 203 1))
         (SBlock 204 [SLog 205 [EVar 206 0 []]; SReturn 207 (ENum 208 7)]) None;
       SReturn 209 (ENum 210 5)])
  | _ => None
  end.
Definition call_body : list stmt :=
  [SBlock 1
    [SInit 2 [SDecl 3 0 []; SAssign 4 0 [] (ENum 5 0)];
     SWhile 6 (EInfix 7 Lesser (EVar 8 0 []) (ENum 9 2))
       (SBlock 10
         [SBlock 11 [SSignal 12 false 2 [EVar 13 0 []] (ECall 14 0 [EVar 15 0 []])];
          SAssign 31 0 [] (EInfix 32 Add (EVar 33 0 []) (ENum 34 1))])]].
Theorem C48_call_value_refuted :
  miscompiled call_funs ex_wire call_body {[0%nat := 0]} [EvSet 2 5; EvLog [1]; EvSet 3 7] [EvSet 2 5; EvSet 3 5].
Proof.
  eapply (miscompiled_test _ _ _ _ 30); [reflexivity|eapply one_fun_good; [done|reflexivity|reflexivity]|vm_compute; reflexivity].
Qed.
Print Assumptions C48_call_value_refuted.

(** The constraints may be wrong when a third pass over an unknown loop would change a variable:
    [var i = 0; var k = 5; var m = 0;
     while (i < in) { if (m == 1) { k = 7; } if (i == 1) { m = 1; } i = i + 1; }
     aux <== k;]
    The first pass sees [i = 0] and changes [i] only, the second pass changes [m] only, and [k] is
    changed by the third pass, which does not take place: the compiler constrains [aux = 5].  With
    [in = 3] the code sets [aux = 7], so the witness does not satisfy the constraint. *)
Definition unstable_body : list stmt :=
  [SInit 1 [SDecl 2 0 []; SAssign 3 0 [] (ENum 4 0)];
   SInit 5 [SDecl 6 1 []; SAssign 7 1 [] (ENum 8 5)];
   SInit 9 [SDecl 10 2 []; SAssign 11 2 [] (ENum 12 0)];
   SWhile 13 (EInfix 14 Lesser (EVar 15 0 []) (ESig 16 0 []))
     (SBlock 17
       [SIf 40 (EInfix 41 Eq (EVar 42 2 []) (ENum 43 1)) (SBlock 44 [SAssign 45 1 [] (ENum 46 7)]) None;
        SIf 22 (EInfix 23 Eq (EVar 24 0 []) (ENum 25 1)) (SBlock 26 [SAssign 27 2 [] (ENum 28 1)]) None;
        SAssign 29 0 [] (EInfix 30 Add (EVar 31 0 []) (ENum 32 1))]);
   SSignal 33 true 1 [] (EVar 34 1 [])].
Global Instance holds_dec p φ c : Decision (holds p φ c).
Proof. unfold holds, cong. apply _. Defined.
Definition unstable_assignment (k : nat) : Z := match k with 1%nat => 3 | 2%nat => 7 | _ => 0 end.
Theorem C58_unstable_refuted : exists n o E' Σ φ, exec_template bn128 ex_wire no_funs n [] [] unstable_body = Some o /\
  runs bn128 ex_wire no_funs computing [] [] unstable_body ({[0%nat := 3]} : gmap nat Z)
    [EvSet 1 7; EvEq true 7 7] None E' Σ /\
  (forall k v, Σ !! k = Some v -> φ (S k) = v) /\ ~ Forall (holds bn128 φ) (o_cs o).
Proof.
  destruct (tested (icompute bn128 ex_wire no_funs 30 [] [] unstable_body {[0%nat := 3]})
    (fun '(tr, r, _, Σ) => bool_decide (tr = [EvSet 1 7; EvEq true 7 7]) && is_none r &&
       bool_decide (Σ = (<[0%nat := 3]> {[1%nat := 7]} : gmap nat Z)))) as ([[[tr r] E'] Σ] & Hr & T); [vm_compute; reflexivity|].
  apply andb_prop in T as [T T3]. apply andb_prop in T as [T1 T2]. apply bool_decide_eq_true in T1, T3. subst.
  destruct r; [discriminate|].
  destruct (tested (exec_template bn128 ex_wire no_funs 30 [] [] unstable_body)
    (fun o => negb (bool_decide (Forall (holds bn128 unstable_assignment) (o_cs o))))) as (o & Ho & T); [vm_compute; reflexivity|].
  exists 30%nat, o, E', (<[0%nat := 3]> {[1%nat := 7]}), unstable_assignment.
  split; [exact Ho|]. split; [eapply icompute_ok; exact Hr|]. split.
  - intros k v H. change ((<[0%nat := 3]> {[1%nat := 7]} : gmap nat Z) !! k = Some v) in H.
    apply lookup_insert_Some in H as [[<- <-]|[_ H]]; [done|]. apply lookup_singleton_Some in H as [<- <-]. done.
  - apply negb_true_iff, bool_decide_eq_false in T. exact T.
Qed.
Print Assumptions C58_unstable_refuted.
