(** C67: which declaration a name refers to. *)
From stdpp Require Import prelude gmap numbers list strings.
From Verif Require Import ScopeModel ScopeSpec ScopeProofs ScopePathProofs ScopeRunProofs.
Local Open Scope nat_scope.
Local Open Scope string_scope.
Local Open Scope list_scope.

(** The analysis of names accepts a program if and only if on every path through its definitions every name is used in
    the scope of a declaration of it, no name is declared twice in one block, and calls have the right numbers of
    arguments. *)
Theorem C67_accepted P : (forall d, definition P d -> parsed_def d) -> (check_naming_correctness P = [] <-> names_correct P).
Proof. apply accepted. Qed.
Print Assumptions C67_accepted.

(** In an accepted program the environment of the execution never lacks a name: every lookup, in whatever order the
    kinds of symbols are tried, finds a declaration of the name met before. *)
Theorem C67_no_panic P d tr i : (forall d, definition P d -> parsed_def d) -> check_naming_correctness P = [] ->
  definition P d -> path_d d tr ->
  exists E, steps 0 (take i tr) new_environment = Some E /\
    forall x, tr !! i = Some (Read x) \/ tr !! i = Some (Write x) ->
    forall f, f ∈ [when_read; when_written; when_typed; when_translated] -> exists j, f E x = Some j /\ declares tr j x /\ j < i.
Proof.
  intros Hp Ha Hd Ht. destruct (prefix_run d tr i Ht) as [E HE]. exists E. split; [done|]. intros x Hx.
  apply (accepted P Hp) in Ha as [Ha _]. specialize (Ha d tr i Hd Ht). unfold well_used in Ha.
  assert (i <= length tr) as Hl by (destruct Hx as [Hx|Hx]; apply lookup_lt_Some in Hx; lia).
  assert (exists j, visible tr x j i) as [j Hj] by (by destruct Hx as [Hx|Hx]; rewrite Hx in Ha).
  exact (found tr i E x j Hl HE Hj).
Qed.
Print Assumptions C67_no_panic.

(** ... and for a name that is declared once and not in a loop, or only as a variable, it is the last declaration in the
    blocks that are open: whether the name is read or assigned, in the execution, in the analysis of types and in the
    generated code. *)
Theorem C67_resolution P d tr i x : (forall d, definition P d -> parsed_def d) -> check_naming_correctness P = [] ->
  definition P d -> path_d d tr -> own_in_text d x -> tr !! i = Some (Read x) \/ tr !! i = Some (Write x) ->
  exists E j, steps 0 (take i tr) new_environment = Some E /\ refers_to tr x i j /\
    when_read E x = Some j /\ when_written E x = Some j /\ when_typed E x = Some j /\ when_translated E x = Some j.
Proof.
  intros Hp Ha Hd Ht Ho Hx. destruct (prefix_run d tr i Ht) as [E HE]. exists E.
  apply (accepted P Hp) in Ha as [Ha _]. specialize (Ha d tr i Hd Ht). unfold well_used in Ha.
  assert (i <= length tr) as Hl by (destruct Hx as [Hx|Hx]; apply lookup_lt_Some in Hx; lia).
  assert (exists j, visible tr x j i) as [j0 Hj0] by (by destruct Hx as [Hx|Hx]; rewrite Hx in Ha).
  assert (own_name (take i tr) x) as Ho'.
  { intros m n k k' Hmn Hm Hn. apply lookup_take_Some in Hm as [Hm _], Hn as [Hn _]. by apply (text_own d tr x Ho Ht m n k k'). }
  destruct (resolved tr i E x j0 Hl HE Ho' Hj0) as (j & Hr & Hf). exists j. split; [done|]. split; [done|].
  repeat split; apply Hf; set_solver.
Qed.
Print Assumptions C67_resolution.

(** Different signals of a template have different numbers, if every name of a signal is declared once and not in a
    loop; every number is that of a signal. *)
Theorem C67_signal_numbers d tr pub : path_d d tr -> (forall x, own_in_text d x) ->
  let number x := correspondence 0 (build_wires pub tr) ∅ !! x in
  (forall i t x, tr !! i = Some (Declare (KSignal t) x) -> exists n, number x = Some n /\ 1 <= n <= length (build_wires pub tr)) /\
  (forall i j t t' x y, i <> j -> tr !! i = Some (Declare (KSignal t) x) -> tr !! j = Some (Declare (KSignal t') y) -> number x <> number y) /\
  (forall n, 1 <= n <= length (build_wires pub tr) -> exists i t x, tr !! i = Some (Declare (KSignal t) x) /\ number x = Some n).
Proof.
  intros Ht Ho number. assert (forall x, own_name tr x) as Hown by (intros x; by eapply text_own).
  assert (Hnd := wires_nodup pub tr Hown).
  assert (forall i x, build_wires pub tr !! i = Some x -> number x = Some (S i)) as Hnum by (intros i x Hi; exact (correspondence_spec _ 0 ∅ x i Hnd Hi)).
  split; [|split].
  - intros i t x Hi. assert (x ∈ build_wires pub tr) as Hx by (apply wires_in; eauto). apply elem_of_list_lookup in Hx as [n Hn].
    exists (S n). split; [by apply Hnum|]. apply lookup_lt_Some in Hn. lia.
  - intros i j t t' x y Hij Hi Hj Heq. assert (x ∈ build_wires pub tr) as Hx by (apply wires_in; eauto). assert (y ∈ build_wires pub tr) as Hy by (apply wires_in; eauto).
    apply elem_of_list_lookup in Hx as [n Hn], Hy as [m Hm]. rewrite (Hnum _ _ Hn), (Hnum _ _ Hm) in Heq. injection Heq as ->.
    rewrite Hn in Hm. injection Hm as ->. by destruct (Hown y i j _ _ Hij Hi Hj).
  - intros n Hn. destruct (lookup_lt_is_Some_2 (build_wires pub tr) (n - 1)) as [x Hx]; [lia|].
    assert (x ∈ build_wires pub tr) as Hin by (by eapply elem_of_list_lookup_2). apply wires_in in Hin as (i & t & Hi). exists i, t, x. split; [done|].
    rewrite (Hnum _ _ Hx). f_equal. lia.
Qed.
Print Assumptions C67_signal_numbers.

(** ** Examples *)
Definition use (x : string) : expr := VariableOf x [].
Definition var_init (x : string) (e : expr) : stmt := Initialization [Declaration KVar x []; Substitution x [] e].
Definition one_template (d : def) (ins : gset string) (fs : gmap string def) : program := Program fs {["T" := (d, ins)]} ∅ (Call "T" []) [].
(** [signal input a; signal output b; var x = f(a); { var x = a; x = x + 1; b <== x; } ...; b <== x] with
    [function f(n) { return n; }] *)
Definition d_ex : def := Def [] [
  Initialization [Declaration (KSignal Input) "a" []]; Initialization [Declaration (KSignal Output) "b" []];
  var_init "x" (Call "f" [use "a"]);
  If (use "x") (Block [var_init "x" (use "a"); Substitution "x" [] (InfixOp (use "x") Number)]) None;
  Substitution "b" [] (use "x")].
Definition p_ex : program := one_template d_ex {["a"]} {["f" := Def ["n"] [Return (use "n")]]}.
Definition tr_ex : list event := [Declare (KSignal Input) "a"; Declare (KSignal Output) "b"; Declare KVar "x"; CallTo "f" 1; Read "a"; Write "x"; Read "x";
  Open; Declare KVar "x"; Read "a"; Write "x"; Read "x"; Write "x"; Close; Read "x"; Write "b"].

Lemma one_definitions d ins fs : (forall f d', fs !! f = Some d' -> parsed_def d') -> parsed_def d -> forall d', definition (one_template d ins fs) d' -> parsed_def d'.
Proof.
  intros Hf Hd d' [(f & i & H)|[(f & H)|(f & i & H)]]; cbn in H.
  - apply lookup_singleton_Some in H as [_ [= -> _]]. done.
  - by eapply Hf.
  - by rewrite lookup_empty in H.
Qed.
Lemma tr_ex_path : path_d d_ex tr_ex.
Proof.
  change tr_ex with ((Declare KVar <$> []) ++ ([Declare (KSignal Input) "a"] ++ [Declare (KSignal Output) "b"] ++
    (([Declare KVar "x"] ++ (([CallTo "f" 1; Read "a"] ++ [Write "x"]) ++ []))) ++
    ([Read "x"] ++ (Open :: ((([Declare KVar "x"] ++ (([Read "a"] ++ [Write "x"]) ++ []))) ++ (([Read "x"] ++ []) ++ [Write "x"]) ++ []) ++ [Close])) ++
    ([Read "x"] ++ [Write "b"]) ++ [])).
  constructor. cbn [body d_ex].
  apply p_next; [apply p_init; apply (p_next _ [] [_] []); [apply (p_declare _ _ [] []); constructor|constructor]|].
  apply p_next; [apply p_init; apply (p_next _ [] [_] []); [apply (p_declare _ _ [] []); constructor|constructor]|].
  apply p_next; [apply p_init; apply p_next; [apply (p_declare _ _ [] []); constructor|]; apply p_next; [|constructor]|].
  { apply p_assign; [|constructor]. apply p_call. apply (p_cons _ _ [_] []); repeat constructor. }
  apply p_next; [apply p_then; [repeat constructor|]|].
  { apply p_block. apply p_next; [apply p_init; apply p_next; [apply (p_declare _ _ [] []); constructor|]; apply p_next; [|constructor]|].
    - apply p_assign; repeat constructor.
    - apply p_next; [|constructor]. apply p_assign; [|constructor]. apply p_infix; repeat constructor. }
  apply p_next; [|constructor]. apply p_assign; repeat constructor.
Qed.
(** accepted; the read at 11 is that of the inner variable, the one at 14 of the outer *)
Example C67_ex :
  (forall d, definition p_ex d -> parsed_def d) /\ check_naming_correctness p_ex = [] /\ definition p_ex d_ex /\ path_d d_ex tr_ex /\
  (forall x, own_in_text d_ex x) /\ tr_ex !! 11 = Some (Read "x") /\ tr_ex !! 14 = Some (Read "x") /\
  (E ← steps 0 (take 11 tr_ex) new_environment; when_read E "x") = Some 8 /\
  (E ← steps 0 (take 14 tr_ex) new_environment; when_read E "x") = Some 2 /\
  correspondence 0 (build_wires [] tr_ex) ∅ !! "b" = Some 1 /\ correspondence 0 (build_wires [] tr_ex) ∅ !! "a" = Some 2.
Proof.
  split; [apply one_definitions|].
  { intros f d' H. apply lookup_singleton_Some in H as [_ <-]. by repeat constructor. }
  { by repeat constructor. }
  split; [vm_compute; reflexivity|]. split; [left; exists "T", {["a"]}; reflexivity|]. split; [exact tr_ex_path|]. split.
  { intros x. destruct (decide (x = "x")) as [->|Hx].
    - left. intros s k Hs Hk. repeat (apply elem_of_cons in Hs as [->|Hs]); [..|by apply elem_of_nil in Hs].
      all: repeat match goal with
        | H : _ ∈ _ :: _ |- _ => apply elem_of_cons in H as [->|H]
        | H : _ ∈ [] |- _ => by apply elem_of_nil in H
        | H : in_stmt _ _ _ |- _ => inversion H; clear H; subst end; done.
    - right. split; [by intros ?%elem_of_nil|]. cbn. rewrite !(decide_False (P := x = "x")) by done. case_decide; case_decide; subst; try done; lia. }
  split; [reflexivity|]. split; [reflexivity|]. split; [vm_compute; reflexivity|].
  split; [vm_compute; reflexivity|]. split; vm_compute; reflexivity.
Qed.
(** rejected: a name used outside of its block *)
Example C67_ex_rejected : check_naming_correctness (one_template (Def [] [Block [var_init "x" Number]; Log [Some (use "x")]]) ∅ ∅) = [Undeclared "x"].
Proof. vm_compute. reflexivity. Qed.

Lemma both (s : option environment) (f g : environment -> option nat) a b :
  (E ← s; Some (f E, g E)) = Some (a, b) -> exists E, s = Some E /\ f E = a /\ g E = b.
Proof. destruct s as [E|]; cbn; [|discriminate]. intros [= <- <-]. by exists E. Qed.

(** ** A variable with the name of a signal *)
(** [signal input a; signal output b; { var a = 5; b <== a; }] *)
Definition d_shadow : def := Def [] [
  Initialization [Declaration (KSignal Input) "a" []]; Initialization [Declaration (KSignal Output) "b" []];
  Block [var_init "a" Number; Substitution "b" [] (use "a")]].
Definition tr_shadow : list event := [Declare (KSignal Input) "a"; Declare (KSignal Output) "b"; Open; Declare KVar "a"; Write "a"; Read "a"; Write "b"; Close].
Lemma tr_shadow_path : path_d d_shadow tr_shadow.
Proof.
  change tr_shadow with ((Declare KVar <$> []) ++ ([Declare (KSignal Input) "a"] ++ [Declare (KSignal Output) "b"] ++
    (Open :: ((([Declare KVar "a"] ++ (([] ++ [Write "a"]) ++ []))) ++ ([Read "a"] ++ [Write "b"]) ++ []) ++ [Close]) ++ [])).
  constructor. cbn [body d_shadow].
  apply p_next; [apply p_init; apply (p_next _ [] [_] []); [apply (p_declare _ _ [] []); constructor|constructor]|].
  apply p_next; [apply p_init; apply (p_next _ [] [_] []); [apply (p_declare _ _ [] []); constructor|constructor]|].
  apply p_next; [|constructor]. apply p_block.
  apply p_next; [apply p_init; apply p_next; [apply (p_declare _ _ [] []); constructor|]; apply p_next; [|constructor]|].
  - apply p_assign; repeat constructor.
  - apply p_next; [|constructor]. apply p_assign; repeat constructor.
Qed.

(** It is accepted; assignments change the variable, as they should, but reads give the signal. *)
Theorem C67_shadowed_refuted : exists P d tr i x E j j',
  (forall d, definition P d -> parsed_def d) /\ check_naming_correctness P = [] /\ definition P d /\ path_d d tr /\
  tr !! i = Some (Read x) /\ steps 0 (take i tr) new_environment = Some E /\ refers_to tr x i j /\
  when_written E x = Some j /\ when_read E x = Some j' /\ j <> j'.
Proof.
  exists (one_template d_shadow {["a"]} ∅), d_shadow, tr_shadow, 5, "a".
  destruct (both (steps 0 (take 5 tr_shadow) new_environment) (fun E => when_written E "a") (fun E => when_read E "a") (Some 3) (Some 0)) as (E & HE & Hw & Hr).
  { vm_compute. reflexivity. }
  exists E, 3, 0.
  split; [apply one_definitions; [intros f d' H; by rewrite lookup_empty in H|by repeat constructor]|].
  split; [vm_compute; reflexivity|]. split; [left; exists "T", {["a"]}; reflexivity|]. split; [exact tr_shadow_path|]. split; [reflexivity|].
  split; [exact HE|]. split.
  - split; [split; [lia|]; split; [exists KVar; reflexivity|]|].
    + split; [lia|]. intros m Hm. assert (m = 3 \/ m = 4 \/ m = 5) as [->|[->| ->]] by lia; vm_compute; discriminate.
    + intros j' Hj (Hlt & [k Hk] & _). assert (j' = 4) as -> by lia. discriminate Hk.
  - split; [exact Hw|]. split; [exact Hr|]. lia.
Qed.
Print Assumptions C67_shadowed_refuted.

(** ** Signals of two blocks *)
(** [signal x; { signal x; x <== 2; } x <== 1;] *)
Definition inner : stmt := Block [Initialization [Declaration (KSignal Intermediate) "x" []]; Substitution "x" [] Number].
Definition d_closed : def := Def [] [Initialization [Declaration (KSignal Intermediate) "x" []]; inner; Substitution "x" [] Number].
Definition tr_closed : list event := [Declare (KSignal Intermediate) "x"; Open; Declare (KSignal Intermediate) "x"; Write "x"; Close; Write "x"].
Lemma inner_path : path_s inner [Open; Declare (KSignal Intermediate) "x"; Write "x"; Close].
Proof.
  change [Open; Declare (KSignal Intermediate) "x"; Write "x"; Close] with (Open :: ([Declare (KSignal Intermediate) "x"] ++ ([] ++ [Write "x"]) ++ []) ++ [Close]).
  apply p_block. apply p_next; [apply p_init; apply (p_next _ [] [_] []); [apply (p_declare _ _ [] []); constructor|constructor]|].
  apply p_next; [|constructor]. apply p_assign; repeat constructor.
Qed.
Lemma tr_closed_path : path_d d_closed tr_closed.
Proof.
  change tr_closed with ((Declare KVar <$> []) ++ ([Declare (KSignal Intermediate) "x"] ++ [Open; Declare (KSignal Intermediate) "x"; Write "x"; Close] ++ ([] ++ [Write "x"]) ++ [])).
  constructor. cbn [body d_closed].
  apply p_next; [apply p_init; apply (p_next _ [] [_] []); [apply (p_declare _ _ [] []); constructor|constructor]|].
  apply p_next; [apply inner_path|]. apply p_next; [|constructor]. apply p_assign; repeat constructor.
Qed.
(** It is accepted; after the block the name refers to the outer signal, but is that of the inner one for the execution. *)
Theorem C67_closed_block_refuted : exists P d tr i x E j j',
  (forall d, definition P d -> parsed_def d) /\ check_naming_correctness P = [] /\ definition P d /\ path_d d tr /\
  tr !! i = Some (Write x) /\ steps 0 (take i tr) new_environment = Some E /\ refers_to tr x i j /\
  when_written E x = Some j' /\ ~ visible tr x j' i.
Proof.
  exists (one_template d_closed ∅ ∅), d_closed, tr_closed, 5, "x".
  destruct (both (steps 0 (take 5 tr_closed) new_environment) (fun E => when_written E "x") (fun E => when_written E "x") (Some 2) (Some 2)) as (E & HE & Hw & _).
  { vm_compute. reflexivity. }
  exists E, 0, 2.
  split; [apply one_definitions; [intros f d' H; by rewrite lookup_empty in H|by repeat constructor]|].
  split; [vm_compute; reflexivity|]. split; [left; exists "T", ∅; reflexivity|]. split; [exact tr_closed_path|]. split; [reflexivity|].
  split; [exact HE|]. split.
  - split; [split; [lia|]; split; [eexists; reflexivity|]|].
    + split; [lia|]. intros m Hm. do 6 (destruct m as [|m]; [vm_compute; discriminate|]). lia.
    + intros j' Hj (Hlt & [k Hk] & Ho). destruct j' as [|[|[|[|[|j']]]]]; try lia; try discriminate Hk.
      destruct Ho as [_ Ho]. specialize (Ho 5). vm_compute in Ho. apply Ho; [lia|reflexivity].
  - split; [exact Hw|]. intros (_ & _ & [_ Ho]). specialize (Ho 5). vm_compute in Ho. apply Ho; [lia|reflexivity].
Qed.
Print Assumptions C67_closed_block_refuted.

(** [{ signal x; x <== 1; } { signal x; x <== 2; }] is accepted; both signals have the same number (the constraints
    cannot hold together), and number 1 is that of no name. *)
Theorem C67_signal_numbers_refuted : exists P d tr i j t t' x,
  (forall d, definition P d -> parsed_def d) /\ check_naming_correctness P = [] /\ definition P d /\ path_d d tr /\
  i <> j /\ tr !! i = Some (Declare (KSignal t) x) /\ tr !! j = Some (Declare (KSignal t') x) /\ ~ visible tr x i j /\
  length (build_wires [] tr) = 2 /\ correspondence 0 (build_wires [] tr) ∅ !! x = Some 2 /\
  forall y, correspondence 0 (build_wires [] tr) ∅ !! y <> Some 1.
Proof.
  set (b := [Open; Declare (KSignal Intermediate) "x"; Write "x"; Close]).
  exists (one_template (Def [] [inner; inner]) ∅ ∅), (Def [] [inner; inner]), ((Declare KVar <$> []) ++ (b ++ b ++ [])), 1, 5, Intermediate, Intermediate, "x".
  split; [apply one_definitions; [intros f d' H; by rewrite lookup_empty in H|by repeat constructor]|].
  split; [vm_compute; reflexivity|]. split; [left; exists "T", ∅; reflexivity|].
  split; [constructor; apply p_next; [apply inner_path|]; apply p_next; [apply inner_path|constructor]|].
  split; [lia|]. split; [reflexivity|]. split; [reflexivity|].
  split. { intros (_ & _ & [_ Ho]). specialize (Ho 4). vm_compute in Ho. apply Ho; [lia|reflexivity]. }
  split; [reflexivity|]. split; [vm_compute; reflexivity|].
  intros y. change (build_wires [] ((Declare KVar <$> []) ++ b ++ b ++ [])) with ["x"; "x"]. cbn. destruct (decide (y = "x")) as [->|Hne].
  - rewrite lookup_insert. done.
  - by rewrite !lookup_insert_ne, lookup_empty by done.
Qed.
Print Assumptions C67_signal_numbers_refuted.
