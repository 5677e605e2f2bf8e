(** C43: what the known/unknown analysis accepts has constraints, declarations and tags that do not depend
    on the values of the signals. *)
From stdpp Require Import prelude gmap strings.
From Coq Require Import ZArith.
From Verif Require Import EnvModel EnvProofs KnownModel KnownSpec KnownProofs KnownRunProofs KnownTermProofs.
Open Scope nat_scope.

(** Two executions of an accepted template with the same parameters, and any two assignments [I1], [I2] of
    values to signals, emit the same events: the same declarations, components, buses, tags and
    constraints, in the same order, about the same places, with the same values.

    Missing: templates whose nested loops assign variables not assigned outside of these loops
    ([loops_ok]), and arrays, indexes of variables and parameters computed from signals
    ([disciplined]); the refutations below show that the analysis does not handle these. *)
Theorem C43_constraints_independent_of_signals_partial {V T} (W : world V T) (P : gset string) fuel params body :
  (forall old v, update W old [] v = Some v) ->
  grammatical body = true -> loops_ok body -> disciplined P body -> list_to_set params ⊆ P ->
  analysis fuel params body = Done [] ->
  forall (b : gmap string V) (g : T) I1 I2 st1 st2 t1 t2, dom b = list_to_set params ->
    run W I1 (State [b] g) body st1 t1 -> run W I2 (State [b] g) body st2 t2 -> t1 = t2.
Proof.
  intros over G L D SP H b g I1 I2 st1 st2 t1 t2 DB R1 R2. unfold analysis in H. bd H. bd H. injection H as H. apply found_done in Ha.
  assert (HE : bl a = [list_to_map ((fun x => (x, (Known, true))) <$> reverse params)] /\ components a = ∅).
  { assert (K : forall (ps qs : list string) E0 a, bl E0 = [list_to_map ((fun x => (x, (Known, true))) <$> reverse qs)] -> components E0 = ∅ ->
      foldl (fun E x => E ≫= add_variable x (Known, true)) (Some E0) ps = Some a ->
      bl a = [list_to_map ((fun x => (x, (Known, true))) <$> reverse (qs ++ ps))] /\ components a = ∅).
    { induction ps as [|p ps IH]; intros qs E0 a1 B0 C0; cbn [foldl].
      - rewrite app_nil_r. intros [= <-]. done.
      - cbn [mbind option_bind]. rewrite add_variable_rev. fold (bl E0). rewrite B0. intros F. apply (IH (qs ++ [p])) in F; [rewrite <- app_assoc in F; exact F| |exact C0].
        rewrite bl_with. rewrite reverse_app. done. }
    exact (K params [] env_new a eq_refl eq_refl Ha). }
  destruct HE as [HB HC].
  eapply (sound_all W P I1 I2 over body fuel a a0 Ha0 H (conj (or_introl G) L) D); [intros x t; rewrite HC, lookup_empty; done| |exact R1|exact R2].
  split; [|done]. rewrite HB. cbn. split; [|done]. intros y. assert (y ∈ dom b <-> y ∈ params) as DY. { rewrite DB. rewrite elem_of_list_to_set. done. }
  rewrite elem_of_dom in DY. destruct (list_to_map _ !! y) as [c|] eqn:EY.
  - apply elem_of_list_to_map_2 in EY. apply elem_of_list_fmap in EY as (z & EZ & Hz). injection EZ as -> ->. rewrite elem_of_reverse in Hz.
    apply DY in Hz as Hb. destruct Hb as [v ->]. cbn. split; [|done]. intros _. apply SP. rewrite elem_of_list_to_set. done.
  - apply not_elem_of_list_to_map_2 in EY. destruct (b !! y) eqn:EB; [|done]. exfalso. apply EY.
    rewrite <- list_fmap_compose. apply elem_of_list_fmap. exists y. split; [done|]. rewrite elem_of_reverse. apply DY. eauto.
Qed.
Print Assumptions C43_constraints_independent_of_signals_partial.

(** The analysis ends on every template that the grammar can produce: a bound is the number of variables
    that are assigned; and the answer does not depend on the bound. *)
Theorem C43_analysis_ends params body : grammatical body = true ->
  exists r, r <> Fuel /\ forall fuel, length (assigned body) < fuel -> analysis fuel params body = r.
Proof.
  intros G. exists (analysis (S (length (assigned body))) params body).
  assert (A : analysis (S (length (assigned body))) params body <> Fuel).
  { unfold analysis. apply bind_fuel; [apply found_fuel|]. intros E _. apply bind_fuel; [|done]. apply analyze_ends; [left; done|lia]. }
  split; [done|]. intros fuel L. assert (U : upto (analysis (S (length (assigned body))) params body) (analysis fuel params body)).
  { unfold analysis. apply upto_bind; [apply upto_refl|intros E]. apply upto_bind; [|intros x; apply upto_refl]. apply analyze_upto. lia. }
  destruct U as [U|U]; [done|auto].
Qed.
Print Assumptions C43_analysis_ends.

(** ** Cases *)
(** Numbers and arrays of numbers; [T]: no tags *)
Definition numbers : world (list Z) unit := {|
  lit z := [z];
  den o args := match o, args with
    | "+", [Some [a]; Some [b]] => Some [a + b]%Z
    | "<", [Some [a]; Some [b]] => Some [if decide (a < b)%Z then 1 else 0]%Z
    | "==", [Some [a]; Some [b]] => Some [if decide (a = b)%Z then 1 else 0]%Z
    | _, _ => None end;
  truth v := match v with [0%Z] => false | _ => true end;
  fresh dims := match dims with [[n]] => replicate (Z.to_nat n) 0%Z | _ => [0%Z] end;
  select v is := match is with [] => Some v | [[i]] => (fun z => [z]) <$> v !! Z.to_nat i | _ => None end;
  update old is v := match is, v with [], _ => Some v | [[i]], [z] => Some (<[Z.to_nat i := z]> old) | _, _ => None end;
  get_tag _ _ _ := None;
  set_tag g _ _ _ := g |}.
Definition all_signals (z : Z) : string -> place (list Z) -> option (list Z) := fun _ _ => Some [z].
(** an interpreter for the executions of KnownSpec, to find executions of the cases below *)
Fixpoint irun {V T} (W : world V T) (I : string -> place V -> option V) (n : nat) (st : @state V T) (s : stmt) : option (@state V T * list (event V)) :=
  match n with
  | O => None
  | S n =>
    let iruns := fix go st l : option (@state V T * list (event V)) :=
      match l with
      | [] => Some (st, [])
      | s :: l => '(st1, t1) ← irun W I n st s; '(st2, t2) ← go st1 l; Some (st2, t1 ++ t2)
      end in
    match s with
    | Declare DVar x dims => vs ← mapM (eval W I st) dims; st' ← declare x (fresh W vs) st; Some (st', [])
    | Declare DAnonymous x _ => Some (st, [Declared DAnonymous x []])
    | Declare k x dims => vs ← mapM (eval W I st) dims; Some (st, [Declared k x vs])
    | Assign KVar _ x acc rhe =>
      v ← eval W I st rhe; is ← indexes W I st acc; old ← look (vars st) x; v' ← update W old is v; vs' ← store (vars st) x v'; Some (State vs' (tags st), [])
    | Assign KComponent _ x acc rhe => v ← eval W I st rhe; Some (st, [Created x (at_place W I st acc) v])
    | Assign KSignal AssignConstraint x acc rhe => Some (st, [Constrained s ((x, at_place W I st acc) :: refs_of W I st rhe)])
    | Assign KSignal _ x acc rhe => Some (st, [])
    | Equal l r => Some (st, [Constrained s (refs_of W I st l ++ refs_of W I st r)])
    | If c t f => v ← eval W I st c; if truth W v then irun W I n st t else match f with Some f => irun W I n st f | None => Some (st, []) end
    | While c b => v ← eval W I st c; if truth W v then '(st1, t1) ← irun W I n st b; '(st2, t2) ← irun W I n st1 (While c b); Some (st2, t1 ++ t2) else Some (st, [])
    | Block l => '(st', t) ← iruns (State (∅ :: vars st) (tags st)) l; match vars st' with [] => None | _ :: bs => Some (State bs (tags st'), t) end
    | Init l => iruns st l
    | Other => Some (st, [])
    | _ => None
    end
  end.
Lemma irun_ok {V T} (W : world V T) I n : forall st s st' t, irun W I n st s = Some (st', t) -> run W I st s st' t.
Proof.
  induction n as [|n IH]; intros st s st' t; [done|]. cbn [irun].
  set (iruns := fix go st l := match l with [] => _ | _ => _ end).
  assert (IHL : forall l st st' t, iruns st l = Some (st', t) -> runs W I st l st' t).
  { induction l as [|s' l IHl]; intros st0 st0' t0; cbn; [intros [= <- <-]; constructor|].
    intros H. apply bind_Some in H as ([st1 t1] & H1 & H). apply bind_Some in H as ([st2 t2] & H2 & H). injection H as <- <-. econstructor; eauto. }
  clearbody iruns. intros H. destruct s as [k x dims|k op x acc rhe|op rhe|l r|c t0 f|c b|l|l|].
  - destruct k; try (injection H as <- <-; constructor); apply bind_Some in H as (vs & H1 & H); try (injection H as <- <-; constructor; done).
    apply bind_Some in H as (st1 & H2 & H). injection H as <- <-. econstructor; eauto.
  - destruct k; try done.
    + apply bind_Some in H as (v & H1 & H). apply bind_Some in H as (is & H2 & H). apply bind_Some in H as (old & H3 & H). apply bind_Some in H as (v' & H4 & H).
      apply bind_Some in H as (vs' & H5 & H). injection H as <- <-. econstructor; eauto.
    + destruct op; injection H as <- <-; [apply r_signal; done|apply r_signal; done|apply r_constraint; auto].
    + apply bind_Some in H as (v & H1 & H). injection H as <- <-. constructor. done.
  - done.
  - injection H as <- <-. constructor.
  - apply bind_Some in H as (v & H1 & H). destruct (truth W v) eqn:E; [eapply r_if_true; eauto|]. destruct f; [eapply r_if_false; eauto|]. injection H as <- <-. eapply r_if_none; eauto.
  - apply bind_Some in H as (v & H1 & H). destruct (truth W v) eqn:E; [|injection H as <- <-; eapply r_while_end; eauto].
    apply bind_Some in H as ([st1 t1] & H2 & H). apply bind_Some in H as ([st2 t2] & H3 & H). injection H as <- <-. eapply r_while; eauto.
  - apply bind_Some in H as ([[bs g] t1] & H1 & H). cbn in H. destruct bs as [|b bs]; [done|]. injection H as <- <-. eapply r_block. eapply IHL; eauto.
  - constructor. eauto.
  - injection H as <- <-. constructor.
Qed.
(** the number of events *)
Definition events {V T} (W : world V T) I n st s : option nat := length ∘ snd <$> irun W I n st s.
Lemma events_ok {V T} (W : world V T) I n st s k : events W I n st s = Some k -> exists st' t, run W I st s st' t /\ length t = k.
Proof. unfold events. intros H. apply fmap_Some in H as ([st' t] & H & ->). eexists _, _. split; [eapply irun_ok, H|done]. Qed.
Notation v x := (Var KVar x []).
Notation sig x := (Var KSignal x []).
Notation set x e := (Assign KVar AssignVar x [] e).
Notation new x e := (Init [Declare DVar x []; Assign KVar AssignVar x [] e]).
Notation "a + b" := (Op "+" [a; b]).
Notation "a == b" := (Op "==" [a; b]) (at level 70).
Notation "a < b" := (Op "<" [a; b]).

(** [template T(n) { signal input in[n]; signal output out; component c = A(n);
     var sum = 0; var hint = 0;
     for (var i = 0; i < n; i = i + 1) { if (in[i] == 1) { hint = 1; } sum = sum + in[i]; c.in[i] <== in[i]; }
     out <-- hint;
     out === sum; }] *)
Definition accepted : stmt := Block
  [Declare DSignal "in" [v "n"]; Declare DSignal "out" [];
   Init [Declare DComponent "c" []; Assign KComponent AssignVar "c" [] (Op "A" [v "n"])];
   new "sum" (Lit 0); new "hint" (Lit 0);
   Block [new "i" (Lit 0);
     While (v "i" < v "n") (Block [Block
       [If (Var KSignal "in" [Idx (v "i")] == Lit 1) (Block [set "hint" (Lit 1)]) None;
        set "sum" (v "sum" + Var KSignal "in" [Idx (v "i")]);
        Assign KSignal AssignConstraint "c" [Fld "in"; Idx (v "i")] (Var KSignal "in" [Idx (v "i")])];
       set "i" (v "i" + Lit 1)])];
   Assign KSignal AssignSignal "out" [] (v "hint");
   Equal (sig "out") (v "sum")].
Definition numbers' : world (list Z) unit :=
  World _ _ (lit numbers) (fun o args => match o with "A" => Some [0%Z] | _ => den numbers o args end) (truth numbers) (fresh numbers) (select numbers)
    (update numbers) (get_tag numbers) (set_tag numbers).
Ltac member := repeat first [apply elem_of_list_here | apply elem_of_list_further].
Ltac sublist := intros ? Hx; repeat (apply elem_of_cons in Hx as [->|Hx]; [member|]); apply elem_of_nil in Hx; destruct Hx.
Ltac disc := repeat first [done | progress intros | match goal with |- _ /\ _ => split | |- Forall _ _ => constructor; cbn | |- untouched _ _ => unfold untouched | |- pure_accs _ _ => unfold pure_accs | |- reads_ok_accs _ _ => unfold reads_ok_accs | |- _ ∉ _ => set_solver | |- _ ∈ _ => set_solver | |- _ \/ _ => right end].
Example C43_partial_case : (forall old v, update numbers' old [] v = Some v) /\ grammatical accepted = true /\ loops_ok accepted /\ disciplined {["n"]} accepted /\
  analysis 10 ["n"] accepted = Done [] /\
  (exists st t, run numbers' (all_signals 0) (State [{["n" := [2%Z]]}] ()) accepted st t /\ length t = 7).
Proof.
  split; [done|]. split; [reflexivity|]. split; [cbn; repeat split; sublist|].
  split; [cbn; disc|]. split; [vm_compute; reflexivity|].
  apply (events_ok _ _ 20). vm_compute. reflexivity.
Qed.

(** ** Templates that the analysis should not accept *)
(** accepted without any report, but the events depend on the value of the signal *)
Definition leaks (params : gmap string (list Z)) (body : stmt) : Prop :=
  grammatical body = true /\ (forall fuel, length (assigned body) < fuel -> analysis fuel (elements (dom params)) body = Done [])%nat /\
  exists st1 st2 t1 t2, run numbers (all_signals 0) (State [params] ()) body st1 t1 /\ run numbers (all_signals 1) (State [params] ()) body st2 t2 /\ t1 <> t2.
Lemma leaks_by params body m k : grammatical body = true -> analysis (S (length (assigned body))) (elements (dom params)) body = Done [] ->
  events numbers (all_signals 0) 20 (State [params] ()) body = Some m -> events numbers (all_signals 1) 20 (State [params] ()) body = Some k -> m <> k -> leaks params body.
Proof.
  intros G A R1 R2 N. split; [done|]. split.
  - destruct (C43_analysis_ends (elements (dom params)) body G) as (r & _ & H). intros fuel L. rewrite (H fuel L). rewrite <- A. symmetry. apply H. lia.
  - apply events_ok in R1 as (st1 & t1 & R1 & <-), R2 as (st2 & t2 & R2 & <-). exists st1, st2, t1, t2. split; [done|]. split; [done|]. congruence.
Qed.
Ltac leak := eapply leaks_by; [reflexivity|vm_compute; reflexivity|vm_compute; reflexivity|vm_compute; reflexivity|discriminate].

(** A loop does not hand on the variables that it assigns, so an unknown condition around it does not make
    them unknown:
    [var x = 0; if (in == 1) { for (var i = 0; i < 1; i = i + 1) { x = 1; } } if (x == 1) { in === 0; }] *)
Theorem C43_loop_in_branch_refuted : leaks ∅ (Block
  [new "x" (Lit 0);
   If (sig "in" == Lit 1) (Block [Block [new "i" (Lit 0); While (v "i" < Lit 1) (Block [Block [set "x" (Lit 1)]; set "i" (v "i" + Lit 1)])]]) None;
   If (v "x" == Lit 1) (Block [Equal (sig "in") (Lit 0)]) None]).
Proof. leak. Qed.
Print Assumptions C43_loop_in_branch_refuted.
(** For the same reason an outer loop is not analysed again when a variable assigned in an inner loop has
    become unknown:
    [var x = 0; var y = 0;
     for (var i = 0; i < 3; i = i + 1) {
       if (y == 1) { in === 0; }
       for (var j = 0; j < 1; j = j + 1) { y = x; }
       x = in; }] *)
Theorem C43_loop_in_loop_refuted : leaks ∅ (Block
  [new "x" (Lit 0); new "y" (Lit 0);
   Block [new "i" (Lit 0);
     While (v "i" < Lit 3) (Block [Block
       [If (v "y" == Lit 1) (Block [Equal (sig "in") (Lit 0)]) None;
        Block [new "j" (Lit 0); While (v "j" < Lit 1) (Block [Block [set "y" (v "x")]; set "j" (v "j" + Lit 1)])];
        set "x" (sig "in")];
       set "i" (v "i" + Lit 1)])]]).
Proof. leak. Qed.
Print Assumptions C43_loop_in_loop_refuted.
(** Parameters are taken for known whatever is assigned to them: [n = in; if (n == 1) { in === 0; }] *)
Theorem C43_parameter_refuted : leaks {["n" := [5%Z]]} (Block
  [set "n" (sig "in"); If (v "n" == Lit 1) (Block [Equal (sig "in") (Lit 0)]) None]).
Proof. leak. Qed.
Print Assumptions C43_parameter_refuted.
(** So are arrays: [var a[1]; a[0] = in; if (a[0] == 1) { in === 0; }] *)
Theorem C43_array_refuted : leaks ∅ (Block
  [Init [Declare DVar "a" [Lit 1]]; Assign KVar AssignVar "a" [Idx (Lit 0)] (sig "in");
   If (Var KVar "a" [Idx (Lit 0)] == Lit 1) (Block [Equal (sig "in") (Lit 0)]) None]).
Proof. leak. Qed.
Print Assumptions C43_array_refuted.
(** Indexes of variables are not looked at: [var a[2]; a[1] = 1; if (a[in] == 1) { in === 0; }] *)
Theorem C43_index_refuted : leaks ∅ (Block
  [Init [Declare DVar "a" [Lit 2]]; Assign KVar AssignVar "a" [Idx (Lit 1)] (Lit 1);
   If (Var KVar "a" [Idx (sig "in")] == Lit 1) (Block [Equal (sig "in") (Lit 0)]) None]).
Proof. leak. Qed.
Print Assumptions C43_index_refuted.
