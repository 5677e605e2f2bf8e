(** The result has no anonymous component and no tuple left, and the pass does
    not panic. *)
From Coq Require Import ZArith.
From stdpp Require Import base list strings pretty gmap.
From Verif Require Import AnonModel AnonSpec AnonExpProofs AnonArgProofs AnonRemoveProofs AnonTupleProofs.

Notation noan e := (contains_anonymous_comp e = false) (only parsing).

Lemma existsb_false {A} (f : A -> bool) l : existsb f l = false <-> Forall (fun x => f x = false) l.
Proof.
  induction l as [|x l IH]; cbn; [by split|]. rewrite orb_false_iff, Forall_cons, IH. done.
Qed.

Lemma reject_if_ok b : reject_if b = Ok tt <-> b = false.
Proof. by destruct b. Qed.

Lemma collect_unit {A} (f : A -> res unit) l :
  (do _ <- collect (map f l); Ok tt) = Ok tt <-> Forall (fun x => f x = Ok tt) l.
Proof.
  induction l as [|x l IH]; cbn; [by split|]. rewrite Forall_cons.
  destruct (f x) as [[]| |]; cbn; [|by split; [|intros []]..].
  destruct (collect (map f l)); cbn in *; rewrite <- IH; naive_solver.
Qed.

Lemma no_nodes e : exp_nodes e = [] -> noan e.
Proof.
  induction e as [l op r IHl IHr|op r IHr|c a b IHc IHa IHb|r IHr|x acc IHacc|z|f args IH|f args IH|pos f par ps sigs nm IHp IHs|vs IH|vs IH|v d IHv IHd]
    using exp_ind'; cbn; intros H; try done;
    repeat match goal with H : _ ++ _ = [] |- _ => apply app_eq_nil in H as [? ?] end;
    rewrite ?IHl, ?IHr, ?IHc, ?IHa, ?IHb, ?IHv, ?IHd by done; try done.
  - apply existsb_false. induction IHacc as [|a l Ha _ IHl]; [constructor|]. cbn in H.
    apply app_eq_nil in H as [H1 H2]. constructor; [|by apply IHl]. destruct a; [done|by apply Ha].
  - apply existsb_false. induction IH as [|a l Ha _ IHl]; [constructor|]. cbn in H.
    apply app_eq_nil in H as [H1 H2]. constructor; [by apply Ha|by apply IHl].
  - apply existsb_false. induction IH as [|a l Ha _ IHl]; [constructor|]. cbn in H.
    apply app_eq_nil in H as [H1 H2]. constructor; [by apply Ha|by apply IHl].
  - apply existsb_false. induction IH as [|a l Ha _ IHl]; [constructor|]. cbn in H.
    apply app_eq_nil in H as [H1 H2]. constructor; [by apply Ha|by apply IHl].
  - apply existsb_false. induction IH as [|a l Ha _ IHl]; [constructor|]. cbn in H.
    apply app_eq_nil in H as [H1 H2]. constructor; [by apply Ha|by apply IHl].
Qed.

Lemma no_nodes_list es : concat (map exp_nodes es) = [] -> Forall (fun e => noan e) es.
Proof.
  induction es as [|e es IH]; cbn; intros H; [constructor|]. apply app_eq_nil in H as [H1 H2].
  constructor; [by apply no_nodes|by apply IH].
Qed.

Lemma noan_check e : noan e -> check_anonymous_exp e = Ok tt /\ flat_parallel_exp e.
Proof.
  induction e as [l op r IHl IHr|op r IHr|c a b IHc IHa IHb|r IHr|x acc IHacc|z|f args IH|f args IH|pos f par ps sigs nm IHp IHs|vs IH|vs IH|v d IHv IHd]
    using exp_ind'; cbn; intros H; try done; try (split; [by apply reject_if_ok|done]).
  - rewrite H. destruct (is_call r), (is_anonymous_comp r) eqn:E; cbn; split; try done; by destruct r.
  - apply existsb_false in H. split; [apply collect_unit|apply Forall_map].
    + rewrite Forall_forall in *. intros e He. by apply IH, H.
    + rewrite Forall_forall in *. intros e He. by apply (IH e He), H.
  - apply existsb_false in H. split; [apply collect_unit|apply Forall_map].
    + rewrite Forall_forall in *. intros e He. by apply IH, H.
    + rewrite Forall_forall in *. intros e He. by apply (IH e He), H.
Qed.

(** The arguments. *)
Lemma btree_insert_all {A} (P : A -> Prop) k v (l : list (string * A)) :
  P v -> Forall (fun x => P x.2) l -> Forall (fun x => P x.2) (btree_insert k v l).
Proof.
  intros Hv. induction l as [|[k' v'] l IH]; cbn; intros H; [by repeat constructor|].
  apply Forall_cons in H as [H1 H2]. destruct (String.compare k k'); repeat constructor; try done. by apply IH.
Qed.

Lemma inputs_all {A} (P : A -> Prop) body names (l : list A) ia :
  inputs_to_assignments body names l = Ok ia -> Forall P l -> Forall (fun x => P x.2.2) ia.
Proof.
  unfold inputs_to_assignments. intros H Hl. destruct names as [m|].
  - unfold insert_named in H. destruct (negb _); [done|].
    match type of H with rbind (?go m l ?acc) _ = _ => set (g := go) in *; set (ac := acc) in * end.
    destruct (g m l ac) as [ia'| |] eqn:E; cbn [rbind] in H; try done. destruct (bool_decide _); [|done]. injection H as <-.
    assert (Hac : Forall (fun x : string * (aop * A) => P x.2.2) ac) by constructor.
    clearbody ac. revert l ac E Hl Hac. induction m as [|[op nm] m IH]; intros l ac E Hl Hac; cbn in E.
    + by injection E as <-.
    + destruct (negb _); [done|]. destruct (bool_decide _); [|done]. destruct l as [|v l]; [done|].
      apply Forall_cons in Hl as [Hv Hl]. apply (IH l _ E Hl).
      by apply (btree_insert_all (fun y : aop * A => P y.2)).
  - unfold insert_positional in H. destruct (negb _); [done|]. injection H as <-.
    assert (Hz : Forall (fun x : string * A => P x.2) (zip (declaration_inputs body) l)).
    { revert l Hl. generalize (declaration_inputs body) as ks. intros ks. induction ks as [|k ks IH]; intros l Hl; cbn; [constructor|].
      destruct l as [|v l]; [constructor|]. apply Forall_cons in Hl as [Hv Hl]. constructor; [done|by apply IH]. }
    assert (Hac : Forall (fun x : string * (aop * A) => P x.2.2) []) by constructor.
    revert Hz Hac. generalize (zip (declaration_inputs body) l) as z, (@nil (string * (aop * A))) as ac.
    induction z as [|[k v] z IH]; intros ac Hz Hac; cbn; [done|]. apply Forall_cons in Hz as [Hv Hz].
    apply IH; [done|]. by apply (btree_insert_all (fun y : aop * A => P y.2)).
Qed.

Lemma inputs_no_panic {A} body names (l : list A) :
  match names with None => True | Some m => length m = length l end ->
  inputs_to_assignments body names l <> Panicked.
Proof.
  unfold inputs_to_assignments. intros Hn. destruct names as [m|].
  - unfold insert_named. destruct (negb _); [done|].
    match goal with |- context [rbind (?go m l ?acc) _] => set (g := go) in *; set (ac := acc) in * end.
    assert (Hg : g m l ac <> Panicked).
    { clearbody ac. revert l Hn ac. induction m as [|[op nm] m IH]; intros l Hn ac; cbn; [done|].
      destruct (negb _); [done|]. destruct (bool_decide _); [|done]. destruct l as [|v l]; [done|].
      cbn in Hn. apply IH. lia. }
    destruct (g m l ac); cbn [rbind]; [|done|done]. by destruct (bool_decide _).
  - unfold insert_positional. by destruct (negb _).
Qed.

Section sugar.
  Variable templates : gmap string stmt.
  Variable line : N -> N.

  Notation remove_exp := (remove_anonymous_exp templates line).
  Notation remove_stmt := (remove_anonymous_stmt templates line).

  Notation snoan s := (stmt_contains_anonymous_comp s = false) (only parsing).
  Definition va_plain (va : option exp) : Prop := match va with None => True | Some v => noan v end.

  Lemma noan_loop_access va acc :
    va_plain va -> access_contains contains_anonymous_comp acc = false ->
    access_contains contains_anonymous_comp (loop_access va ++ acc) = false.
  Proof. intros H1 H2. destruct va; cbn; [|done]. cbn in H1. by rewrite H1. Qed.

  Lemma snoan_list l : Forall (fun s => snoan s) l -> existsb stmt_contains_anonymous_comp l = false.
  Proof. by rewrite existsb_false. Qed.

  Lemma remove_exp_noan e : check_anonymous_exp e = Ok tt -> flat_parallel_exp e ->
    forall va par ds ss e', va_plain va -> remove_exp va par e = Ok (ds, ss, e') ->
    Forall (fun s => snoan s) ds /\ Forall (fun s => snoan s) ss /\ noan e'.
  Proof.
    assert (Hlist : forall es, Forall (fun e => check_anonymous_exp e = Ok tt -> flat_parallel_exp e ->
        forall va par ds ss e', va_plain va -> remove_exp va par e = Ok (ds, ss, e') ->
        Forall (fun s => snoan s) ds /\ Forall (fun s => snoan s) ss /\ noan e') es ->
      Forall (fun e => check_anonymous_exp e = Ok tt) es -> Forall flat_parallel_exp es ->
      forall va us, va_plain va -> Forall2 (fun r u => r = Ok u) (map (remove_exp va false) es) us ->
      Forall (fun s => snoan s) (concat (map (fun u => u.1.1) us)) /\
      Forall (fun s => snoan s) (concat (map (fun u => u.1.2) us)) /\ Forall (fun e => noan e) (map snd us)).
    { intros es HF Hc Hf va us Hva H2. revert us H2. induction HF as [|e0 es He HF IH]; intros us H2; cbn in H2;
        inversion H2 as [|? [[ds ss] e'] ? us' Hr H2']; subst; cbn; [by repeat constructor|].
      apply Forall_cons in Hc as [Hc1 Hc2]. apply Forall_cons in Hf as [Hf1 Hf2].
      destruct (He Hc1 Hf1 _ _ _ _ _ Hva Hr) as (A1 & A2 & A3). destruct (IH Hc2 Hf2 _ H2') as (B1 & B2 & B3).
      split_and!; [by apply Forall_app|by apply Forall_app|by constructor]. }
    induction e as [l op r IHl IHr|op r IHr|c a b IHc IHa IHb|r IHr|x acc IHacc|z|f args IH|f args IH|pos f par ps sigs nm IHp IHs|vs IH|vs IH|v d IHv IHd]
      using exp_ind'; intros Hc Hf va par' ds ss e' Hva Hr; cbn [remove_anonymous_exp] in Hr;
      try (injection Hr as <- <- <-; split_and!; [constructor|constructor|]; cbn in Hc |- *; by apply reject_if_ok in Hc).
    - destruct (is_anonymous_comp r) eqn:Ea.
      + destruct r as [| | | | | | | |pos f par ps sigs nm| | |]; try done. cbn in Hf.
        assert (Hl : Forall (fun e => noan e) (ps ++ sigs)) by (apply no_nodes_list; exact Hf).
        apply Forall_app in Hl as [Hl1 Hl2].
        refine (IHr _ _ va true ds ss e' Hva Hr).
        * cbn. apply existsb_false in Hl1. rewrite Hl1. cbn. apply collect_unit.
          eapply Forall_impl; [exact Hl2|]. intros e He. by apply noan_check.
        * cbn. apply Forall_map. eapply Forall_impl; [exact Hl2|]. intros e He. by apply noan_check.
      + injection Hr as <- <- <-. split_and!; [constructor|constructor|]. cbn in Hc |- *. rewrite Ea in Hc.
        destruct (contains_anonymous_comp r); [|done]. by destruct (is_call r).
    - injection Hr as <- <- <-. by split_and!; [constructor|constructor|].
    - destruct (templates !! f) as [body|]; [|done].
      cbn in Hc, Hf. rewrite Forall_map in Hf.
      destruct (reject_if _) as [[]| |] eqn:E1; cbn [rbind] in Hc; try done. apply reject_if_ok in E1.
      rewrite collect_unit in Hc.
      rewrite inputs_map in Hr.
      destruct (inputs_to_assignments body nm sigs) as [ia| |] eqn:Ei; cbn in Hr; try done.
      assert (Hia : Forall (fun x : string * (aop * exp) => forall ds ss e',
          remove_exp va false x.2.2 = Ok (ds, ss, e') ->
          Forall (fun s => snoan s) ds /\ Forall (fun s => snoan s) ss /\ noan e') ia).
      { refine (inputs_all (fun e => forall ds ss e', remove_exp va false e = Ok (ds, ss, e') ->
          Forall (fun s => snoan s) ds /\ Forall (fun s => snoan s) ss /\ noan e') body nm sigs ia Ei _).
        apply Forall_forall. intros e He ds0 ss0 e0 Hr0. rewrite Forall_forall in Hc, Hf, IHs.
        exact (IHs e He (Hc e He) (Hf e He) va false ds0 ss0 e0 Hva Hr0). }
      rewrite map_map in Hr.
      destruct (collect (map _ ia)) as [us| |] eqn:Ec; cbn [rbind] in Hr; try done.
      apply collect_ok in Ec. injection Hr as <- <- <-.
      assert (Hus : Forall (fun s => snoan s) (concat (map fst us)) /\ Forall (fun s => snoan s) (concat (map snd us))).
      { clear Ei. revert us Ec. induction Hia as [|[x [op e]] ia Hx Hia IHia]; intros us Ec; cbn in Ec;
          inversion Ec as [|? [ds1 ss1] ? us' Hr1 Ec']; subst; cbn; [by repeat constructor|].
        destruct (IHia _ Ec') as [B1 B2].
        destruct (remove_exp va false e) as [[[ds0 ss0] e0]| |] eqn:Er; cbn [rbind] in Hr1; try done.
        injection Hr1 as <- <-. destruct (Hx _ _ _ Er) as (A1 & A2 & A3).
        split; apply Forall_app; split; try done. apply Forall_app. split; [done|]. constructor; [|constructor].
        cbn. rewrite A3, orb_false_r. by apply noan_loop_access. }
      destruct Hus as [Hu1 Hu2]. split_and!.
      + constructor; [|done]. destruct va; cbn in *; [by rewrite Hva|done].
      + constructor; [|constructor]. cbn. pose proof (noan_loop_access va [] Hva eq_refl) as Ha.
        rewrite app_nil_r in Ha. rewrite Ha. apply existsb_false in Hu2. rewrite Hu2, orb_false_r.
        cbn. by destruct (par || par'); cbn.
      + assert (Ho : forall x, noan (Var (anon_name line f pos) (loop_access va ++ [ComponentAccess x]))).
        { intros x. cbn. by apply noan_loop_access. }
        destruct (declaration_outputs body) as [|o [|o2 os]]; [done|by apply Ho|].
        cbn [contains_anonymous_comp]. apply existsb_false. constructor; [apply Ho|]. constructor; [apply Ho|].
        apply Forall_map. apply Forall_forall. intros x _. apply Ho.
    - cbn in Hc, Hf. rewrite collect_unit in Hc. rewrite Forall_map in Hf.
      destruct (collect _) as [us| |] eqn:Ec; cbn [rbind] in Hr; try done. apply collect_ok in Ec.
      unfold join_values in Hr. injection Hr as <- <- <-.
      destruct (Hlist vs IH Hc Hf va us Hva Ec) as (A1 & A2 & A3). split_and!; [done|done|].
      cbn. by apply existsb_false.
    - cbn in Hc, Hf. rewrite collect_unit in Hc. rewrite Forall_map in Hf.
      destruct (collect _) as [us| |] eqn:Ec; cbn [rbind] in Hr; try done. apply collect_ok in Ec.
      unfold join_values in Hr. injection Hr as <- <- <-.
      destruct (Hlist vs IH Hc Hf va us Hva Ec) as (A1 & A2 & A3). split_and!; [done|done|].
      cbn. by apply existsb_false.
  Qed.

  Definition gen_ok (cs vs ss : list stmt) : Prop :=
    Forall (fun s => snoan s) cs /\ Forall (fun s => snoan s) vs /\ Forall (fun s => snoan s) ss.

  Lemma remove_stmt_noan s : check_anonymous_stmt s = Ok tt -> flat_parallel s ->
    forall va s' cs vs ss, va_plain va -> remove_stmt va s = Ok (s', cs, vs, ss) ->
    snoan s' /\ gen_ok cs vs ss.
  Proof.
    assert (Hlist : forall l, Forall (fun s => check_anonymous_stmt s = Ok tt -> flat_parallel s ->
        forall va s' cs vs ss, va_plain va -> remove_stmt va s = Ok (s', cs, vs, ss) -> snoan s' /\ gen_ok cs vs ss) l ->
      Forall (fun s => check_anonymous_stmt s = Ok tt) l -> Forall flat_parallel l ->
      forall va us, va_plain va -> Forall2 (fun r u => r = Ok u) (map (remove_stmt va) l) us ->
      Forall (fun s => snoan s) (map (fun u => u.1.1.1) us) /\
      gen_ok (concat (map (fun u => u.1.1.2) us)) (concat (map (fun u => u.1.2) us)) (concat (map snd us))).
    { intros l HF Hc Hf va us Hva H2. revert us H2. induction HF as [|s0 l Hs HF IH]; intros us H2; cbn in H2;
        inversion H2 as [|? [[[s' cs] vs] ss] ? us' Hr H2']; subst; cbn; [by repeat constructor|].
      apply Forall_cons in Hc as [Hc1 Hc2]. apply Forall_cons in Hf as [Hf1 Hf2].
      destruct (Hs Hc1 Hf1 _ _ _ _ _ Hva Hr) as (A1 & A2 & A3 & A4). destruct (IH Hc2 Hf2 _ H2') as (B1 & B2 & B3 & B4).
      split; [by constructor|]. split_and!; by apply Forall_app. }
    assert (Hwrap : forall ss sub, Forall (fun s => snoan s) ss -> snoan sub ->
      snoan (match ss with [] => sub | _ => Block (ss ++ [sub]) end)).
    { intros ss sub H1 H2. destruct ss; [done|]. cbn [stmt_contains_anonymous_comp]. apply existsb_false.
      apply Forall_app. split; [done|by repeat constructor]. }
    induction s as [c a b IHa IHb|pos c s IHs|e|t l IH|t x dims an|x acc op e|l op r|op e|l r|args|l IH|e]
      using stmt_ind'; intros Hc Hf va s' cs vs ss Hva Hr; cbn [remove_anonymous_stmt] in Hr; cbn in Hc, Hf; try done;
      try (injection Hr as <- <- <- <-; split; [cbn; by apply reject_if_ok in Hc|repeat constructor]).
    - destruct (contains_anonymous_comp c) eqn:Ecc; [done|].
      destruct (check_anonymous_stmt a) as [[]| |]; cbn [rbind] in Hc; try done. destruct Hf as [Hf1 Hf2].
      destruct (remove_stmt va a) as [[[[a' cs1] vs1] ss1]| |] eqn:Ea; cbn [rbind] in Hr; try done.
      destruct (IHa eq_refl Hf1 _ _ _ _ _ Hva Ea) as (A1 & A2 & A3 & A4).
      destruct b as [b|].
      + destruct (remove_stmt va b) as [[[[b' cs2] vs2] ss2]| |] eqn:Eb; cbn [rbind] in Hr; try done.
        injection Hr as <- <- <- <-. destruct (IHb b eq_refl Hc Hf2 _ _ _ _ _ Hva Eb) as (B1 & B2 & B3 & B4).
        split; [cbn; by rewrite Ecc, A1, B1|]. split_and!; by apply Forall_app.
      + injection Hr as <- <- <- <-. split; [cbn; by rewrite Ecc, A1|done].
    - destruct (contains_anonymous_comp c) eqn:Ecc; [done|].
      destruct (remove_stmt _ s) as [[[[b1 cs1] vs1] ss1]| |] eqn:Es; cbn [rbind] in Hr; try done.
      destruct (IHs Hc Hf (Some (Var (counter_name line pos) [])) b1 cs1 vs1 ss1 eq_refl Es) as (A1 & A2 & A3 & A4).
      destruct cs1 as [|d cs1]; injection Hr as <- <- <- <-.
      + split; [cbn; by rewrite Ecc, A1|]. by repeat constructor.
      + split; [cbn; by rewrite Ecc, A1|]. split_and!; [done|by constructor|]. apply Forall_app. by repeat constructor.
    - rewrite collect_unit in Hc. rewrite Forall_map in Hf.
      destruct (collect _) as [us| |] eqn:Ec; cbn [rbind] in Hr; try done. apply collect_ok in Ec.
      unfold join_stmts in Hr. injection Hr as <- <- <- <-.
      destruct (Hlist l IH Hc Hf va us Hva Ec) as (A1 & A2). split; [|done]. cbn. by apply existsb_false.
    - destruct (access_contains contains_anonymous_comp acc) eqn:Eacc; [done|].
      destruct (contains_anonymous_comp e && _); [done|].
      destruct (remove_exp va false e) as [[[cs1 ss1] e1]| |] eqn:Ee; cbn [rbind] in Hr; try done.
      injection Hr as <- <- <- <-. destruct (remove_exp_noan e Hc Hf _ _ _ _ _ Hva Ee) as (A1 & A2 & A3).
      split; [|by repeat constructor]. apply Hwrap; [done|]. cbn. by rewrite Eacc, A3.
    - destruct (contains_anonymous_comp l) eqn:El; [done|].
      destruct (contains_anonymous_comp r && _); [done|].
      destruct (remove_exp va false r) as [[[cs1 ss1] e1]| |] eqn:Ee; cbn [rbind] in Hr; try done.
      injection Hr as <- <- <- <-. destruct (remove_exp_noan r Hc Hf _ _ _ _ _ Hva Ee) as (A1 & A2 & A3).
      split; [|by repeat constructor]. apply Hwrap; [done|]. cbn. by rewrite El, A3.
    - rewrite collect_unit in Hc. rewrite Forall_map in Hf.
      destruct (collect _) as [us| |] eqn:Ec; cbn [rbind] in Hr; try done. apply collect_ok in Ec.
      unfold join_stmts in Hr. injection Hr as <- <- <- <-.
      destruct (Hlist l IH Hc Hf va us Hva Ec) as (A1 & A2). split; [|done]. cbn. by apply existsb_false.
  Qed.
End sugar.

(** Tuples. *)
Lemma no_sugar_of e : noan e -> contains_tuple e = false -> no_sugar_exp e.
Proof.
  induction e as [l op r IHl IHr|op r IHr|c a b IHc IHa IHb|r IHr|x acc IHacc|z|f args IH|f args IH|pos f par ps sigs nm IHp IHs|vs IH|vs IH|v d IHv IHd]
    using exp_ind'; cbn; intros H1 H2; try done; rewrite ?orb_false_iff in *; try tauto.
  - rewrite existsb_false in H1, H2. apply Forall_map. rewrite Forall_forall in *. intros a Ha.
    specialize (IHacc a Ha). specialize (H1 a Ha). specialize (H2 a Ha). destruct a; [done|]. by apply IHacc.
  - rewrite existsb_false in H1, H2. apply Forall_map. rewrite Forall_forall in *. intros a Ha.
    apply IH; [done|by apply H1|by apply H2].
  - rewrite existsb_false in H1, H2. apply Forall_map. rewrite Forall_forall in *. intros a Ha.
    apply IH; [done|by apply H1|by apply H2].
  - rewrite existsb_false in H1, H2. apply Forall_map. rewrite Forall_forall in *. intros a Ha.
    apply IH; [done|by apply H1|by apply H2].
Qed.

Lemma no_sugar_list es : existsb contains_anonymous_comp es = false -> existsb contains_tuple es = false ->
  Forall no_sugar_exp es.
Proof.
  rewrite !existsb_false, !Forall_forall. intros H1 H2 e He. apply no_sugar_of; [by apply H1|by apply H2].
Qed.

Lemma no_sugar_access acc : access_contains contains_anonymous_comp acc = false ->
  access_contains contains_tuple acc = false -> no_sugar_acc acc.
Proof.
  unfold access_contains, no_sugar_acc. rewrite !existsb_false, !Forall_forall. intros H1 H2 a Ha.
  specialize (H1 a Ha). specialize (H2 a Ha). destruct a; [done|]. by apply no_sugar_of.
Qed.

Definition flat_plain (e : exp) : Prop :=
  match e with Tuple vs => Forall no_sugar_exp vs | _ => no_sugar_exp e end.

Lemma remove_tuple_plain e : check_tuples_exp e = Ok tt -> noan e ->
  forall e', remove_tuple_exp e = Ok e' -> flat_plain e'.
Proof.
  induction e as [l op r IHl IHr|op r IHr|c a b IHc IHa IHb|r IHr|x acc IHacc|z|f args IH|f args IH|pos f par ps sigs nm IHp IHs|vs IH|vs IH|v d IHv IHd]
    using exp_ind'; intros Hc Ha e' Hr; cbn [remove_tuple_exp] in Hr;
    try (injection Hr as <-; apply no_sugar_of; [done|]; cbn in Hc |- *; by apply reject_if_ok in Hc); try done.
  - by injection Hr as <-.
  - cbn in Hc. rewrite collect_unit in Hc. cbn in Ha. apply existsb_false in Ha.
    destruct (collect _) as [es| |] eqn:Ec; cbn [rbind] in Hr; try done. apply collect_ok in Ec. injection Hr as <-.
    cbn. revert es Ec. induction IH as [|e l He IH IHl]; intros es Ec; cbn in Ec;
      inversion Ec as [|? e1 ? es1 Hr1 Ec1]; subst; cbn; [constructor|].
    apply Forall_cons in Hc as [Hc1 Hc2]. apply Forall_cons in Ha as [Ha1 Ha2].
    apply Forall_app. split; [|by apply IHl].
    pose proof (He Hc1 Ha1 e1 Hr1) as Hf. destruct e1; try done; (constructor; [exact Hf|constructor]).
Qed.

Lemma separate_plain e : check_tuples_exp e = Ok tt -> noan e ->
  Forall (fun a => match a with LogStr _ => True | LogExp e => no_sugar_exp e end) (separate_tuple e).
Proof.
  induction e as [l op r IHl IHr|op r IHr|c a b IHc IHa IHb|r IHr|x acc IHacc|z|f args IH|f args IH|pos f par ps sigs nm IHp IHs|vs IH|vs IH|v d IHv IHd]
    using exp_ind'; intros Hc Ha; cbn [separate_tuple];
    try (constructor; [|constructor]; apply no_sugar_of; [done|]; cbn in Hc |- *; by apply reject_if_ok in Hc); try done.
  - by repeat constructor.
  - cbn in Hc. rewrite collect_unit in Hc. cbn in Ha. apply existsb_false in Ha.
    constructor; [done|]. apply Forall_app. split; [|by repeat constructor].
    induction IH as [|e l He IH IHl]; cbn; [constructor|].
    apply Forall_cons in Hc as [Hc1 Hc2]. apply Forall_cons in Ha as [Ha1 Ha2].
    apply Forall_app. split; [by apply He|by apply IHl].
Qed.

Lemma zip_plain op ls rs ss : zip_substitutions op ls rs = Ok ss ->
  Forall no_sugar_exp ls -> Forall no_sugar_exp rs -> Forall no_sugar ss.
Proof.
  revert rs ss. induction ls as [|l ls IH]; intros rs ss Hz Hl Hr; cbn in Hz.
  - injection Hz as <-. constructor.
  - apply Forall_cons in Hl as [Hl1 Hl2]. destruct l; try done. destruct rs as [|r rs]; [done|].
    apply Forall_cons in Hr as [Hr1 Hr2].
    destruct (zip_substitutions op ls rs) as [ss1| |] eqn:Ez; cbn [rbind] in Hz; try done. injection Hz as <-.
    constructor; [|by eapply IH]. destruct (bool_decide _); cbn; [done|]. split; [|done].
    cbn in Hl1. by rewrite Forall_map in Hl1.
Qed.

Lemma remove_tuples_plain s : check_tuples_stmt s = Ok tt -> stmt_contains_anonymous_comp s = false ->
  forall s', remove_tuples_stmt s = Ok s' -> no_sugar s'.
Proof.
  assert (Hlist : forall l, Forall (fun s => check_tuples_stmt s = Ok tt -> stmt_contains_anonymous_comp s = false ->
      forall s', remove_tuples_stmt s = Ok s' -> no_sugar s') l ->
    Forall (fun s => check_tuples_stmt s = Ok tt) l -> existsb stmt_contains_anonymous_comp l = false ->
    forall us, Forall2 (fun r u => r = Ok u) (map remove_tuples_stmt l) us -> Forall id (map no_sugar us)).
  { intros l HF Hc Ha us H2. apply existsb_false in Ha. revert us H2.
    induction HF as [|s0 l Hs HF IH]; intros us H2; cbn in H2;
      inversion H2 as [|? s' ? us' Hr H2']; subst; cbn; [constructor|].
    apply Forall_cons in Hc as [Hc1 Hc2]. apply Forall_cons in Ha as [Ha1 Ha2].
    constructor; [by apply Hs|by apply IH]. }
  induction s as [c a b IHa IHb|pos c s IHs|e|t l IH|t x dims an|x acc op e|l op r|op e|l r|args|l IH|e]
    using stmt_ind'; intros Hc Ha s' Hr; cbn [remove_tuples_stmt] in Hr; cbn in Hc, Ha; try done.
  - rewrite !orb_false_iff in Ha. destruct Ha as [[Ha1 Ha2] Ha3].
    destruct (contains_tuple c) eqn:Ect; [done|].
    destruct (check_tuples_stmt a) as [[]| |]; cbn [rbind] in Hc; try done.
    destruct (remove_tuples_stmt a) as [a'| |] eqn:Ea; cbn [rbind] in Hr; try done.
    destruct b as [b|].
    + destruct (remove_tuples_stmt b) as [b'| |] eqn:Eb; cbn [rbind] in Hr; try done. injection Hr as <-. cbn.
      split_and!; [by apply no_sugar_of|by apply IHa|by eapply (IHb b eq_refl)].
    + injection Hr as <-. cbn. split_and!; [by apply no_sugar_of|by apply IHa|done].
  - rewrite !orb_false_iff in Ha. destruct Ha as [Ha1 Ha2]. destruct (contains_tuple c) eqn:Ect; [done|].
    destruct (remove_tuples_stmt s) as [s1| |] eqn:Es; cbn [rbind] in Hr; try done. injection Hr as <-. cbn.
    split; [by apply no_sugar_of|by apply IHs].
  - injection Hr as <-. cbn. apply no_sugar_of; [done|]. by apply reject_if_ok in Hc.
  - rewrite collect_unit in Hc. destruct (collect _) as [us| |] eqn:Ec; cbn [rbind] in Hr; try done.
    apply collect_ok in Ec. injection Hr as <-. cbn. by apply (Hlist l).
  - injection Hr as <-. cbn. apply no_sugar_list; [done|]. by apply reject_if_ok in Hc.
  - rewrite !orb_false_iff in Ha. destruct Ha as [Ha1 Ha2]. destruct (access_contains contains_tuple acc) eqn:Et; [done|].
    destruct (remove_tuple_exp e) as [e'| |] eqn:Ee; cbn [rbind] in Hr; try done.
    pose proof (remove_tuple_plain e Hc Ha2 e' Ee) as Hp. destruct (is_tuple e') eqn:Eit; [done|].
    assert (Hp' : no_sugar_exp e') by (by destruct e').
    destruct (bool_decide _); injection Hr as <-; cbn; [done|]. split; [by apply no_sugar_access|done].
  - rewrite !orb_false_iff in Ha. destruct Ha as [Ha1 Ha2].
    destruct (check_tuples_exp l) as [[]| |] eqn:Ecl; cbn [rbind] in Hc; try done.
    destruct (remove_tuple_exp l) as [l'| |] eqn:El; cbn [rbind] in Hr; try done.
    destruct (remove_tuple_exp r) as [r'| |] eqn:Er; cbn [rbind] in Hr; try done.
    pose proof (remove_tuple_plain l Ecl Ha1 l' El) as Hp1. pose proof (remove_tuple_plain r Hc Ha2 r' Er) as Hp2.
    destruct l'; try done. destruct r'; try done. destruct (bool_decide _); [|done].
    destruct (zip_substitutions op vs vs0) as [ss| |] eqn:Ez; cbn [rbind] in Hr; try done. injection Hr as <-.
    cbn. apply Forall_map. exact (zip_plain _ _ _ _ Ez Hp1 Hp2).
  - injection Hr as <-. rewrite !orb_false_iff in Ha. apply reject_if_ok in Hc. rewrite orb_false_iff in Hc.
    cbn. split; apply no_sugar_of; tauto.
  - injection Hr as <-. rewrite collect_unit in Hc. apply existsb_false in Ha. cbn.
    induction args as [|a args IH]; cbn; [constructor|].
    apply Forall_cons in Hc as [Hc1 Hc2]. apply Forall_cons in Ha as [Ha1 Ha2].
    apply Forall_app. split; [|by apply IH]. destruct a; [by repeat constructor|]. by apply separate_plain.
  - rewrite collect_unit in Hc. destruct (collect _) as [us| |] eqn:Ec; cbn [rbind] in Hr; try done.
    apply collect_ok in Ec. injection Hr as <-. cbn. by apply (Hlist l).
  - injection Hr as <-. cbn. apply no_sugar_of; [done|]. by apply reject_if_ok in Hc.
Qed.

(** No panic. *)
Definition np {A} (r : res A) : Prop := match r with Panicked => False | _ => True end.

Lemma np_bind {A B} (r : res A) (f : A -> res B) : np r -> (forall a, r = Ok a -> np (f a)) -> np (rbind r f).
Proof. destruct r; cbn; intros H1 H2; [by apply H2|done|done]. Qed.

Lemma np_collect {A B} (f : A -> res B) l : Forall (fun x => np (f x)) l -> np (collect (map f l)).
Proof.
  induction 1 as [|x l Hx _ IH]; cbn; [done|]. apply np_bind; [done|]. intros a _.
  apply np_bind; [done|]. done.
Qed.

Lemma np_reject b : np (reject_if b).
Proof. by destruct b. Qed.

Lemma np_check_anonymous_exp e : np (check_anonymous_exp e).
Proof.
  induction e as [l op r IHl IHr|op r IHr|c a b IHc IHa IHb|r IHr|x acc IHacc|z|f args IH|f args IH|pos f par ps sigs nm IHp IHs|vs IH|vs IH|v d IHv IHd]
    using exp_ind'; cbn; try apply np_reject; try done.
  - destruct (negb _ && _ && _); [done|]. by destruct (_ && _).
  - apply np_bind; [apply np_reject|]. intros _ _. apply np_bind; [by apply np_collect|done].
  - apply np_bind; [by apply np_collect|done].
  - apply np_bind; [by apply np_collect|done].
Qed.

Lemma np_check_anonymous_stmt s : no_underscore s -> np (check_anonymous_stmt s).
Proof.
  induction s as [c a b IHa IHb|pos c s IHs|e|t l IH|t x dims an|x acc op e|l op r|op e|l r|args|l IH|e]
    using stmt_ind'; intros Hu; cbn in Hu |- *; try apply np_reject; try done.
  - destruct (contains_anonymous_comp c); [done|]. destruct Hu as [Hu1 Hu2].
    apply np_bind; [by apply IHa|]. intros _ _. destruct b as [b|]; [by apply IHb|done].
  - destruct (contains_anonymous_comp c); [done|]. by apply IHs.
  - apply np_bind; [|done]. apply np_collect. rewrite Forall_map in Hu. rewrite Forall_forall in *. intros s Hs.
    apply IH; [done|by apply Hu].
  - destruct (access_contains _ _); [done|]. destruct (_ && _); [done|]. apply np_check_anonymous_exp.
  - destruct (contains_anonymous_comp l); [done|]. destruct (_ && _); [done|]. apply np_check_anonymous_exp.
  - apply np_bind; [|done]. apply np_collect. rewrite Forall_map in Hu. rewrite Forall_forall in *. intros s Hs.
    apply IH; [done|by apply Hu].
Qed.

Section panic.
  Variable templates : gmap string stmt.
  Variable line : N -> N.

  Notation remove_exp := (remove_anonymous_exp templates line).
  Notation remove_stmt := (remove_anonymous_stmt templates line).

  Lemma np_remove_exp e : names_ok e -> forall va par, np (remove_exp va par e).
  Proof.
    induction e as [l op r IHl IHr|op r IHr|c a b IHc IHa IHb|r IHr|x acc IHacc|z|f args IH|f args IH|pos f par ps sigs nm IHp IHs|vs IH|vs IH|v d IHv IHd]
      using exp_ind'; intros Hn va par'; cbn [remove_anonymous_exp]; try done.
    - destruct (is_anonymous_comp r); [|done]. by apply IHr.
    - cbn in Hn. destruct Hn as [Hn1 Hn2]. rewrite Forall_map in Hn2.
      destruct (templates !! f) as [body|]; [|done].
      rewrite inputs_map. pose proof (inputs_no_panic body nm sigs Hn1) as Hi.
      destruct (inputs_to_assignments body nm sigs) as [ia| |] eqn:Ei; cbn; [|done|done].
      rewrite map_map. apply np_bind; [|done]. apply np_collect.
      assert (Hia : Forall (fun x : string * (aop * exp) => np (remove_exp va false x.2.2)) ia).
      { refine (inputs_all (fun e => np (remove_exp va false e)) body nm sigs ia Ei _).
        rewrite Forall_forall in *. intros e He. apply IHs; [done|by apply Hn2]. }
      eapply Forall_impl; [exact Hia|]. intros [x [op e]] Hx. cbn in *. apply np_bind; [done|]. by intros [[ds ss] e'] _.
    - cbn in Hn. rewrite Forall_map in Hn. apply np_bind; [|done]. apply np_collect.
      rewrite Forall_forall in *. intros e He. apply IH; [done|by apply Hn].
    - cbn in Hn. rewrite Forall_map in Hn. apply np_bind; [|done]. apply np_collect.
      rewrite Forall_forall in *. intros e He. apply IH; [done|by apply Hn].
  Qed.

  Lemma np_remove_stmt s : parsed s -> no_underscore s -> forall va, np (remove_stmt va s).
  Proof.
    induction s as [c a b IHa IHb|pos c s IHs|e|t l IH|t x dims an|x acc op e|l op r|op e|l r|args|l IH|e]
      using stmt_ind'; intros Hp Hu va; cbn [remove_anonymous_stmt]; cbn in Hp, Hu; try done.
    - destruct Hp as [Hp1 Hp2], Hu as [Hu1 Hu2]. apply np_bind; [by apply IHa|]. intros [[[a' cs] vs] ss] _.
      destruct b as [b|]; [|done]. apply np_bind; [by apply IHb|]. by intros [[[b' cs2] vs2] ss2] _.
    - destruct Hp as [_ Hp]. apply np_bind; [by apply IHs|]. intros [[[a' cs] vs] ss] _. by destruct cs.
    - rewrite Forall_map in Hp, Hu. apply np_bind; [|done]. apply np_collect.
      rewrite Forall_forall in *. intros s Hs. apply IH; [done|by apply Hp|by apply Hu].
    - apply np_bind; [by apply np_remove_exp|]. by intros [[cs ss] e'] _.
    - apply np_bind; [by apply np_remove_exp|]. by intros [[cs ss] e'] _.
    - rewrite Forall_map in Hp, Hu. apply np_bind; [|done]. apply np_collect.
      rewrite Forall_forall in *. intros s Hs. apply IH; [done|by apply Hp|by apply Hu].
  Qed.

  (** Where the second phase would panic. *)
  Fixpoint top_clean (e : exp) : Prop :=
    match e with
    | Tuple es => Forall id (map top_clean es)
    | Anon _ _ _ _ _ _ => False
    | _ => True
    end.

  Fixpoint tidy (s : stmt) : Prop :=
    match s with
    | IfThenElse _ a b => tidy a /\ match b with None => True | Some b' => tidy b' end
    | While _ _ s => tidy s
    | InitializationBlock _ l | Block l => Forall id (map tidy l)
    | Substitution _ _ _ e => top_clean e
    | MultSubstitution l _ r => top_clean l /\ top_clean r
    | LogCall args => Forall (fun a => match a with LogStr _ => True | LogExp e => top_clean e end) args
    | UnderscoreSubstitution _ _ => False
    | _ => True
    end.

  Lemma noan_clean e : noan e -> top_clean e.
  Proof.
    induction e as [l op r IHl IHr|op r IHr|c a b IHc IHa IHb|r IHr|x acc IHacc|z|f args IH|f args IH|pos f par ps sigs nm IHp IHs|vs IH|vs IH|v d IHv IHd]
      using exp_ind'; cbn; try done.
    rewrite existsb_false, Forall_map. intros H. rewrite Forall_forall in *. intros e He. apply IH; [done|by apply H].
  Qed.

  Lemma remove_exp_clean e : forall va par ds ss e', remove_exp va par e = Ok (ds, ss, e') ->
    Forall tidy ds /\ Forall tidy ss /\ top_clean e'.
  Proof.
    assert (Hlist : forall es, Forall (fun e => forall va par ds ss e', remove_exp va par e = Ok (ds, ss, e') ->
        Forall tidy ds /\ Forall tidy ss /\ top_clean e') es ->
      forall va us, Forall2 (fun r u => r = Ok u) (map (remove_exp va false) es) us ->
      Forall tidy (concat (map (fun u => u.1.1) us)) /\
      Forall tidy (concat (map (fun u => u.1.2) us)) /\ Forall top_clean (map snd us)).
    { intros es HF va us H2. revert us H2. induction HF as [|e0 es He HF IH]; intros us H2; cbn in H2;
        inversion H2 as [|? [[ds ss] e'] ? us' Hr H2']; subst; cbn; [by repeat constructor|].
      destruct (He _ _ _ _ _ Hr) as (A1 & A2 & A3). destruct (IH _ H2') as (B1 & B2 & B3).
      split_and!; [by apply Forall_app|by apply Forall_app|by constructor]. }
    induction e as [l op r IHl IHr|op r IHr|c a b IHc IHa IHb|r IHr|x acc IHacc|z|f args IH|f args IH|pos f par ps sigs nm IHp IHs|vs IH|vs IH|v d IHv IHd]
      using exp_ind'; intros va par' ds ss e' Hr; cbn [remove_anonymous_exp] in Hr;
      try (injection Hr as <- <- <-; by split_and!; [constructor|constructor|]).
    - destruct (is_anonymous_comp r) eqn:Ea; [by apply IHr in Hr|].
      injection Hr as <- <- <-; by split_and!; [constructor|constructor|].
    - destruct (templates !! f) as [body|]; [|done]. rewrite inputs_map in Hr.
      destruct (inputs_to_assignments body nm sigs) as [ia| |] eqn:Ei; cbn in Hr; try done.
      assert (Hia : Forall (fun x : string * (aop * exp) => forall ds ss e',
          remove_exp va false x.2.2 = Ok (ds, ss, e') ->
          Forall tidy ds /\ Forall tidy ss /\ top_clean e') ia).
      { refine (inputs_all (fun e => forall ds ss e', remove_exp va false e = Ok (ds, ss, e') ->
          Forall tidy ds /\ Forall tidy ss /\ top_clean e') body nm sigs ia Ei _).
        eapply Forall_impl; [exact IHs|]. intros e He ds0 ss0 e0 Hr0. by eapply He. }
      rewrite map_map in Hr.
      destruct (collect (map _ ia)) as [us| |] eqn:Ec; cbn [rbind] in Hr; try done.
      apply collect_ok in Ec. injection Hr as <- <- <-.
      assert (Hus : Forall tidy (concat (map fst us)) /\ Forall tidy (concat (map snd us))).
      { clear Ei. revert us Ec. induction Hia as [|[x [op e]] ia Hx Hia IHia]; intros us Ec; cbn in Ec;
          inversion Ec as [|? [ds1 ss1] ? us' Hr1 Ec']; subst; cbn; [by repeat constructor|].
        destruct (IHia _ Ec') as [B1 B2].
        destruct (remove_exp va false e) as [[[ds0 ss0] e0]| |] eqn:Er; cbn [rbind] in Hr1; try done.
        injection Hr1 as <- <-. destruct (Hx _ _ _ Er) as (A1 & A2 & A3).
        split; apply Forall_app; split; try done. apply Forall_app. split; [done|]. by constructor; [|constructor]. }
      destruct Hus as [Hu1 Hu2]. split_and!.
      + constructor; [|done]. by destruct va.
      + constructor; [|constructor]. cbn. constructor; [by destruct (par || par')|]. by apply Forall_map.
      + destruct (declaration_outputs body) as [|o1 [|o2 os]]; [by constructor|done|].
        cbn [top_clean]. apply Forall_map. constructor; [done|]. constructor; [done|].
        apply Forall_map. by apply Forall_forall.
    - destruct (collect _) as [us| |] eqn:Ec; cbn [rbind] in Hr; try done. apply collect_ok in Ec.
      unfold join_values in Hr. injection Hr as <- <- <-.
      destruct (Hlist vs IH va us Ec) as (A1 & A2 & A3). by split_and!.
    - destruct (collect _) as [us| |] eqn:Ec; cbn [rbind] in Hr; try done. apply collect_ok in Ec.
      unfold join_values in Hr. injection Hr as <- <- <-.
      destruct (Hlist vs IH va us Ec) as (A1 & A2 & A3). split_and!; [done|done|].
      cbn. by apply Forall_map.
  Qed.

  Definition gen_tidy (cs vs ss : list stmt) : Prop := Forall tidy cs /\ Forall tidy vs /\ Forall tidy ss.

  Lemma remove_stmt_tidy s : check_anonymous_stmt s = Ok tt ->
    forall va s' cs vs ss, remove_stmt va s = Ok (s', cs, vs, ss) -> tidy s' /\ gen_tidy cs vs ss.
  Proof.
    assert (Hlist : forall l, Forall (fun s => check_anonymous_stmt s = Ok tt ->
        forall va s' cs vs ss, remove_stmt va s = Ok (s', cs, vs, ss) -> tidy s' /\ gen_tidy cs vs ss) l ->
      Forall (fun s => check_anonymous_stmt s = Ok tt) l ->
      forall va us, Forall2 (fun r u => r = Ok u) (map (remove_stmt va) l) us ->
      Forall tidy (map (fun u => u.1.1.1) us) /\
      gen_tidy (concat (map (fun u => u.1.1.2) us)) (concat (map (fun u => u.1.2) us)) (concat (map snd us))).
    { intros l HF Hc va us H2. revert us H2. induction HF as [|s0 l Hs HF IH]; intros us H2; cbn in H2;
        inversion H2 as [|? [[[s' cs] vs] ss] ? us' Hr H2']; subst; cbn; [by repeat constructor|].
      apply Forall_cons in Hc as [Hc1 Hc2].
      destruct (Hs Hc1 _ _ _ _ _ Hr) as (A1 & A2 & A3 & A4). destruct (IH Hc2 _ H2') as (B1 & B2 & B3 & B4).
      split; [by constructor|]. split_and!; by apply Forall_app. }
    assert (Hwrap : forall ss sub, Forall tidy ss -> tidy sub ->
      tidy (match ss with [] => sub | _ => Block (ss ++ [sub]) end)).
    { intros ss sub H1 H2. destruct ss; [done|]. cbn [tidy]. apply Forall_map.
      apply Forall_app. split; [done|by repeat constructor]. }
    induction s as [c a b IHa IHb|pos c s IHs|e|t l IH|t x dims an|x acc op e|l op r|op e|l r|args|l IH|e]
      using stmt_ind'; intros Hc va s' cs vs ss Hr; cbn [remove_anonymous_stmt] in Hr; cbn in Hc; try done;
      try (injection Hr as <- <- <- <-; by split; [|repeat constructor]).
    - destruct (contains_anonymous_comp c) eqn:Ecc; [done|].
      destruct (check_anonymous_stmt a) as [[]| |]; cbn [rbind] in Hc; try done.
      destruct (remove_stmt va a) as [[[[a' cs1] vs1] ss1]| |] eqn:Ea; cbn [rbind] in Hr; try done.
      destruct (IHa eq_refl _ _ _ _ _ Ea) as (A1 & A2 & A3 & A4).
      destruct b as [b|].
      + destruct (remove_stmt va b) as [[[[b' cs2] vs2] ss2]| |] eqn:Eb; cbn [rbind] in Hr; try done.
        injection Hr as <- <- <- <-. destruct (IHb b eq_refl Hc _ _ _ _ _ Eb) as (B1 & B2 & B3 & B4).
        split; [done|]. split_and!; by apply Forall_app.
      + injection Hr as <- <- <- <-. done.
    - destruct (contains_anonymous_comp c) eqn:Ecc; [done|].
      destruct (remove_stmt _ s) as [[[[b1 cs1] vs1] ss1]| |] eqn:Es; cbn [rbind] in Hr; try done.
      destruct (IHs Hc _ _ _ _ _ Es) as (A1 & A2 & A3 & A4).
      destruct cs1 as [|d cs1]; injection Hr as <- <- <- <-.
      + split; [done|]. by repeat constructor.
      + split; [by repeat constructor|]. split_and!; [done|by constructor|]. apply Forall_app. by repeat constructor.
    - rewrite collect_unit in Hc.
      destruct (collect _) as [us| |] eqn:Ec; cbn [rbind] in Hr; try done. apply collect_ok in Ec.
      unfold join_stmts in Hr. injection Hr as <- <- <- <-.
      destruct (Hlist l IH Hc va us Ec) as (A1 & A2). split; [|done]. cbn. by apply Forall_map.
    - destruct (remove_exp va false e) as [[[cs1 ss1] e1]| |] eqn:Ee; cbn [rbind] in Hr; try done.
      injection Hr as <- <- <- <-. destruct (remove_exp_clean e _ _ _ _ _ Ee) as (A1 & A2 & A3).
      split; [|by repeat constructor]. by apply Hwrap.
    - destruct (contains_anonymous_comp l) eqn:El; [done|].
      destruct (remove_exp va false r) as [[[cs1 ss1] e1]| |] eqn:Ee; cbn [rbind] in Hr; try done.
      injection Hr as <- <- <- <-. destruct (remove_exp_clean r _ _ _ _ _ Ee) as (A1 & A2 & A3).
      split; [|by repeat constructor]. apply Hwrap; [done|]. cbn. split; [by apply noan_clean|done].
    - injection Hr as <- <- <- <-. split; [|by repeat constructor]. cbn. apply reject_if_ok, existsb_false in Hc.
      eapply Forall_impl; [exact Hc|]. intros [|e] He; [done|]. by apply noan_clean.
    - rewrite collect_unit in Hc.
      destruct (collect _) as [us| |] eqn:Ec; cbn [rbind] in Hr; try done. apply collect_ok in Ec.
      unfold join_stmts in Hr. injection Hr as <- <- <- <-.
      destruct (Hlist l IH Hc va us Ec) as (A1 & A2). split; [|done]. cbn. by apply Forall_map.
  Qed.

  Lemma np_check_tuples_exp e : top_clean e -> np (check_tuples_exp e) /\ np (remove_tuple_exp e).
  Proof.
    induction e as [l op r IHl IHr|op r IHr|c a b IHc IHa IHb|r IHr|x acc IHacc|z|f args IH|f args IH|pos f par ps sigs nm IHp IHs|vs IH|vs IH|v d IHv IHd]
      using exp_ind'; cbn; intros H; try (split; [apply np_reject|done]); try done.
    rewrite Forall_map in H. split; (apply np_bind; [|done]); apply np_collect; rewrite Forall_forall in *;
      intros e He; (apply IH; [done|by apply H]).
  Qed.

  Lemma np_zip op ls rs : np (zip_substitutions op ls rs).
  Proof.
    revert rs. induction ls as [|l ls IH]; intros rs; cbn; [done|]. destruct l; try done. destruct rs; [done|].
    apply np_bind; [apply IH|done].
  Qed.

  Lemma np_tuples s : tidy s -> np (check_tuples_stmt s) /\ np (remove_tuples_stmt s).
  Proof.
    assert (Hlist : forall l, Forall (fun s => tidy s -> np (check_tuples_stmt s) /\ np (remove_tuples_stmt s)) l ->
      Forall tidy l -> np (collect (map check_tuples_stmt l)) /\ np (collect (map remove_tuples_stmt l))).
    { intros l HF Ht. split; apply np_collect; rewrite Forall_forall in *; intros s0 Hs; by apply HF, Ht. }
    induction s as [c a b IHa IHb|pos c s IHs|e|t l IH|t x dims an|x acc op e|l op r|op e|l r|args|l IH|e]
      using stmt_ind'; cbn; intros Ht; try (split; [apply np_reject|done]); try done.
    - destruct Ht as [Ht1 Ht2]. destruct (IHa Ht1) as [A1 A2]. split.
      + destruct (contains_tuple c); [done|]. apply np_bind; [done|]. intros _ _.
        destruct b as [b|]; [|done]. by apply (IHb b).
      + apply np_bind; [done|]. intros a' _. destruct b as [b|]; [|done]. apply np_bind; [by apply (IHb b)|done].
    - destruct (IHs Ht) as [A1 A2]. split; [by destruct (contains_tuple c)|]. by apply np_bind.
    - rewrite Forall_map in Ht. destruct (Hlist l IH Ht). split; by apply np_bind.
    - destruct (np_check_tuples_exp e Ht). split; [by destruct (access_contains _ _)|].
      apply np_bind; [done|]. intros e' _. destruct (is_tuple e'); [done|]. by destruct (bool_decide _).
    - destruct Ht as [Ht1 Ht2]. destruct (np_check_tuples_exp l Ht1), (np_check_tuples_exp r Ht2). split.
      + by apply np_bind.
      + apply np_bind; [done|]. intros l' _. apply np_bind; [done|]. intros r' _.
        destruct l'; try done. destruct r'; try done. destruct (bool_decide _); [|done].
        apply np_bind; [apply np_zip|done].
    - split; [|done]. apply np_bind; [|done]. apply np_collect. eapply Forall_impl; [exact Ht|].
      intros [|e] He; [done|]. by apply np_check_tuples_exp.
    - rewrite Forall_map in Ht. destruct (Hlist l IH Ht). split; by apply np_bind.
  Qed.

  Lemma desugar_parts body body' : desugar_template templates line body = Ok body' ->
    check_anonymous_stmt body = Ok tt /\ exists stmts cs vs ss,
      remove_stmt None body = Ok (Block stmts, cs, vs, ss) /\
      let b := Block ([InitializationBlock XVar vs; InitializationBlock XComponent cs] ++ ss ++ stmts) in
      check_tuples_stmt b = Ok tt /\ remove_tuples_stmt b = Ok body'.
  Proof.
    unfold desugar_template. intros H.
    destruct (check_anonymous_stmt body) as [[]| |]; cbn [rbind] in H; try done. split; [done|].
    destruct (remove_stmt None body) as [[[[nb cs] vs] ss]| |]; cbn [rbind] in H; try done.
    destruct nb as [| | | | | | | | | |stmts|]; try done. exists stmts, cs, vs, ss. split; [done|]. cbv zeta.
    match type of H with rbind (check_tuples_stmt ?b) _ = _ => destruct (check_tuples_stmt b) as [[]| |] end;
      cbn [rbind] in H; done.
  Qed.

  Theorem desugar_no_sugar body body' :
    flat_parallel body -> desugar_template templates line body = Ok body' -> no_sugar body'.
  Proof.
    intros Hf (Hc & stmts & cs & vs & ss & Hr & Hct & Hrt)%desugar_parts.
    destruct (remove_stmt_noan templates line body Hc Hf None _ _ _ _ I Hr) as (A1 & A2 & A3 & A4).
    apply (remove_tuples_plain _ Hct); [|done].
    cbn in A1 |- *. rewrite (proj2 (existsb_false _ _) A3), (proj2 (existsb_false _ _) A2). cbn.
    rewrite existsb_app, (proj2 (existsb_false _ _) A4), A1. done.
  Qed.

  Theorem desugar_no_panic body :
    parsed body -> no_underscore body -> (exists l, body = Block l) ->
    desugar_template templates line body <> Panicked.
  Proof.
    intros Hp Hu [l Hl]. unfold desugar_template. enough (H : np (desugar_template templates line body)).
    { intros E. unfold desugar_template in H. rewrite E in H. done. }
    unfold desugar_template.
    apply np_bind; [by apply np_check_anonymous_stmt|]. intros [] Hc.
    apply np_bind; [by apply np_remove_stmt|]. intros [[[nb cs] vs] ss] Hr.
    destruct (remove_stmt_tidy body Hc None nb cs vs ss Hr) as (A1 & A2 & A3 & A4).
    assert (exists stmts, nb = Block stmts) as [stmts ->].
    { subst body. cbn [remove_anonymous_stmt] in Hr. destruct (collect _) as [us| |]; cbn [rbind] in Hr; try done.
      unfold join_stmts in Hr. injection Hr as <- _ _ _. by eexists. }
    assert (Ht : tidy (Block ([InitializationBlock XVar vs; InitializationBlock XComponent cs] ++ ss ++ stmts))).
    { cbn in A1 |- *. repeat constructor; try (by apply Forall_map). rewrite Forall_map in A1 |- *. by apply Forall_app. }
    destruct (np_tuples _ Ht). apply np_bind; [done|]. done.
  Qed.

  Theorem function_no_sugar body body' : desugar_function body = Ok body' -> no_sugar body'.
  Proof.
    unfold desugar_function. destruct (stmt_contains_anonymous_comp body) eqn:Ea; [done|].
    destruct (check_tuples_stmt body) as [[]| |] eqn:Ec; cbn [rbind]; try done. by apply remove_tuples_plain.
  Qed.

  Lemma noan_tidy s : no_underscore s -> stmt_contains_anonymous_comp s = false -> tidy s.
  Proof.
    induction s as [c a b IHa IHb|pos c s IHs|e|t l IH|t x dims an|x acc op e|l op r|op e|l r|args|l IH|e]
      using stmt_ind'; cbn; intros Hu Ha; rewrite ?orb_false_iff in Ha; try done.
    - destruct Hu, Ha as [[? ?] ?]. split; [by apply IHa|]. destruct b; [by apply IHb|done].
    - apply IHs; tauto.
    - apply existsb_false in Ha. rewrite Forall_map in Hu |- *. rewrite Forall_forall in *. intros s Hs.
      apply IH; [done|by apply Hu|by apply Ha].
    - apply noan_clean; tauto.
    - split; apply noan_clean; tauto.
    - apply existsb_false in Ha. eapply Forall_impl; [exact Ha|]. intros [|e] He; [done|]. by apply noan_clean.
    - apply existsb_false in Ha. rewrite Forall_map in Hu |- *. rewrite Forall_forall in *. intros s Hs.
      apply IH; [done|by apply Hu|by apply Ha].
  Qed.

  Theorem function_no_panic body : no_underscore body -> desugar_function body <> Panicked.
  Proof.
    intros Hu E. unfold desugar_function in E. destruct (stmt_contains_anonymous_comp body) eqn:Ea; [done|].
    destruct (np_tuples body (noan_tidy _ Hu Ea)) as [H1 H2].
    destruct (check_tuples_stmt body); cbn [rbind] in E; try done. by rewrite E in H2.
  Qed.
End panic.

Lemma noan_evals_clean e : noan e -> clean e.
Proof.
  induction e as [l op r IHl IHr|op r IHr|c a b IHc IHa IHb|r IHr|x acc IHacc|z|f args IH|f args IH|pos f par ps sigs nm IHp IHs|vs IH|vs IH|v d IHv IHd]
    using exp_ind'; cbn; try done.
  - intros H. by destruct r.
  - rewrite existsb_false, Forall_map. intros H. rewrite Forall_forall in *. intros e He. apply IH; [done|by apply H].
  - rewrite existsb_false, Forall_map. intros H. rewrite Forall_forall in *. intros e He. apply IH; [done|by apply H].
Qed.

Lemma noan_sclean s : stmt_contains_anonymous_comp s = false -> sclean s.
Proof.
  induction s as [c a b IHa IHb|pos c s IHs|e|t l IH|t x dims an|x acc op e|l op r|op e|l r|args|l IH|e]
    using stmt_ind'; cbn; intros Ha; rewrite ?orb_false_iff in Ha; try done.
  - destruct Ha as [[? ?] ?]. split; [by apply IHa|]. destruct b; [by apply IHb|done].
  - apply IHs; tauto.
  - apply existsb_false in Ha. rewrite Forall_map. rewrite Forall_forall in *. intros s Hs. by apply IH, Ha.
  - apply noan_evals_clean; tauto.
  - apply noan_evals_clean; tauto.
  - apply existsb_false in Ha. rewrite Forall_map. rewrite Forall_forall in *. intros s Hs. by apply IH, Ha.
Qed.

Theorem function_same D templates fuel body body' st :
  independent body -> desugar_function body = Ok body' ->
  exec D templates fuel body' st = exec D templates fuel body st.
Proof.
  unfold desugar_function. intros Hi H. destruct (stmt_contains_anonymous_comp body) eqn:Ea; [done|].
  destruct (check_tuples_stmt body) as [[]| |] eqn:Ec; cbn [rbind] in H; try done.
  by apply remove_tuples_ok; [apply noan_sclean| |].
Qed.
