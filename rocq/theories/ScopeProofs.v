(** Proofs for C67. *)
From stdpp Require Import prelude gmap numbers list strings.
From Verif Require Import ScopeModel ScopeSpec.
Local Open Scope nat_scope.

(** ** Induction *)
Section expr_induction.
Context (Q : expr -> Prop).
Definition Qacc (a : access) : Prop := match a with ArrayAccess e => Q e | ComponentAccess _ => True end.
Context (H1 : Q Number) (H2 : forall l r, Q l -> Q r -> Q (InfixOp l r)) (H3 : forall e, Q e -> Q (PrefixOp e)) (H4 : forall e, Q e -> Q (ParallelOp e))
  (H5 : forall c t f, Q c -> Q t -> Q f -> Q (Switch c t f)) (H6 : forall x acc, Forall Qacc acc -> Q (VariableOf x acc))
  (H7 : forall f args, Forall Q args -> Q (Call f args)) (H8 : forall b args, Forall Q args -> Q (BusCall b args))
  (H9 : forall l, Forall Q l -> Q (ArrayInLine l)) (H10 : forall v d, Q v -> Q d -> Q (UniformArray v d)).
Fixpoint expr_induction (e : expr) : Q e :=
  let list := fix go l : Forall Q l := match l with [] => Forall_nil_2 _ | e :: l => Forall_cons_2 _ _ _ (expr_induction e) (go l) end in
  match e with
  | Number => H1
  | InfixOp l r => H2 _ _ (expr_induction l) (expr_induction r)
  | PrefixOp e => H3 _ (expr_induction e)
  | ParallelOp e => H4 _ (expr_induction e)
  | Switch c t f => H5 _ _ _ (expr_induction c) (expr_induction t) (expr_induction f)
  | VariableOf x acc => H6 x acc ((fix go l : Forall Qacc l := match l with
      | [] => Forall_nil_2 _
      | a :: l => Forall_cons_2 _ _ _ (match a return Qacc a with ArrayAccess e => expr_induction e | ComponentAccess _ => I end) (go l) end) acc)
  | Call f args => H7 f args (list args)
  | BusCall b args => H8 b args (list args)
  | ArrayInLine l => H9 l (list l)
  | UniformArray v d => H10 _ _ (expr_induction v) (expr_induction d)
  end.
End expr_induction.
Section stmt_induction.
Context (Q : stmt -> Prop).
Context (H1 : forall e, Q (Return e)) (H2 : forall e, Q (Underscore e)) (H3 : forall x acc e, Q (Substitution x acc e)) (H4 : forall l r, Q (Equality l r))
  (H5 : forall l, Forall Q l -> Q (Initialization l)) (H6 : forall k x dims, Q (Declaration k x dims)) (H7 : forall args, Q (Log args))
  (H8 : forall e, Q (Assert e)) (H9 : forall l, Forall Q l -> Q (Block l)) (H10 : forall c s, Q s -> Q (While c s))
  (H11 : forall c t f, Q t -> from_option Q True f -> Q (If c t f)).
Fixpoint stmt_induction (s : stmt) : Q s :=
  let list := fix go l : Forall Q l := match l with [] => Forall_nil_2 _ | e :: l => Forall_cons_2 _ _ _ (stmt_induction e) (go l) end in
  match s with
  | Return e => H1 e | Underscore e => H2 e | Substitution x acc e => H3 x acc e | Equality l r => H4 l r
  | Initialization l => H5 l (list l)
  | Declaration k x dims => H6 k x dims | Log args => H7 args | Assert e => H8 e
  | Block l => H9 l (list l)
  | While c s => H10 c s (stmt_induction s)
  | If c t f => H11 c t f (stmt_induction t) (match f return from_option Q True f with Some f => stmt_induction f | None => I end)
  end.
End stmt_induction.
Scheme path_e_mut := Minimality for path_e Sort Prop
  with path_es_mut := Minimality for path_es Sort Prop
  with path_acc_mut := Minimality for path_acc Sort Prop.
Combined Scheme path_e_all from path_e_mut, path_es_mut, path_acc_mut.
Scheme path_s_mut := Minimality for path_s Sort Prop
  with path_ss_mut := Minimality for path_ss Sort Prop.
Combined Scheme path_s_all from path_s_mut, path_ss_mut.

(** ** Environments along a path *)
Definition next (E : env) (v : event) : env :=
  match v with
  | Open => ∅ :: E
  | Close => tl E
  | Declare _ x => match E with [] => [{[x]}] | b :: E => ({[x]} ∪ b) :: E end
  | _ => E
  end.
Definition known (E : env) (x : string) : Prop := exists l b, E !! l = Some b /\ x ∈ b.
Section names.
Context (P : program).
Definition tags_ok (k : kind) : Prop :=
  match k with KBus _ b tags => forall d fields t, buses P !! b = Some (d, fields) -> t ∈ tags -> t ∉ fields | _ => True end.
Definition ok (E : env) (v : event) : Prop :=
  match v with
  | Read x | Write x => known E x
  | Declare k x => ~ (exists b, E !! 0 = Some b /\ x ∈ b) /\ tags_ok k
  | CallTo f n => arguments P f n
  | BusOf b n => exists d fields, buses P !! b = Some (d, fields) /\ length (params d) = n
  | Open | Close => True
  end.
Fixpoint good (E : env) (tr : list event) : Prop :=
  match tr with [] => True | v :: tr => ok E v /\ good (next E v) tr end.
Definition after (E : env) (tr : list event) : env := fold_left next tr E.
Lemma good_app E a b : good E (a ++ b) <-> good E a /\ good (after E a) b.
Proof. revert E. induction a as [|v a IH]; intros E; cbn; [tauto|]. rewrite IH. unfold after. cbn. tauto. Qed.
Lemma after_app E a b : after E (a ++ b) = after (after E a) b.
Proof. unfold after. apply fold_left_app. Qed.
Lemma known_spec E x : symbol_in_environment E x = true <-> known E x.
Proof.
  unfold symbol_in_environment, known. rewrite existsb_exists. split.
  - intros (b & Hb & Hx). apply bool_decide_eq_true in Hx. apply elem_of_list_In, elem_of_list_lookup in Hb as [l Hl]. eauto.
  - intros (l & b & Hl & Hx). exists b. split; [|by apply bool_decide_eq_true]. apply elem_of_list_In. by eapply elem_of_list_lookup_2.
Qed.

(** ** Expressions *)
Definition neutral (v : event) : Prop := match v with Open | Close | Declare _ _ => False | _ => True end.
Lemma neutral_after tr : Forall neutral tr -> forall E, after E tr = E.
Proof. induction 1 as [|v tr Hv _ IH]; intros E; [done|]. unfold after in *. cbn. rewrite IH. by destruct v. Qed.
Lemma path_neutral :
  (forall e tr, path_e e tr -> Forall neutral tr) /\ (forall l tr, path_es l tr -> Forall neutral tr) /\ (forall acc tr, path_acc acc tr -> Forall neutral tr).
Proof. apply path_e_all; intros; try done; try (apply Forall_app; by split); constructor; done. Qed.
Lemma path_e_neutral e tr E : path_e e tr -> after E tr = E.
Proof. intros H. apply neutral_after. by eapply (proj1 path_neutral). Qed.
Lemma path_es_neutral l tr E : path_es l tr -> after E tr = E.
Proof. intros H. apply neutral_after. by eapply (proj1 (proj2 path_neutral)). Qed.
Lemma path_acc_neutral l tr E : path_acc l tr -> after E tr = E.
Proof. intros H. apply neutral_after. by eapply (proj2 (proj2 path_neutral)). Qed.

Lemma app_nil_iff {A} (a b : list A) : a ++ b = [] <-> a = [] /\ b = [].
Proof. split; [apply app_eq_nil|]. by intros [-> ->]. Qed.
(** what is to be shown of a part of an expression: reports, paths, and there is a path *)
Definition checks {A} (p : A -> list event -> Prop) (a : A) (E : env) (r : list report) : Prop :=
  (r = [] <-> forall tr, p a tr -> good E tr) /\ exists tr, p a tr.
Definition areports (E : env) := fix go acc : list report := match acc with
     | [] => []
     | ArrayAccess e :: acc => analyze_expression P E e ++ go acc
     | ComponentAccess _ :: acc => go acc
     end.
Lemma es_checks E l : Forall (fun e => checks path_e e E (analyze_expression P E e)) l ->
  checks path_es l E ((fix go l := match l with [] => [] | e :: l => analyze_expression P E e ++ go l end) l).
Proof.
  induction 1 as [|e l [He [te Hte]] _ [IH [tl Htl]]].
  - split; [|exists []; constructor]. split; [|done]. intros _ tr H. by inversion H.
  - split; [|exists (te ++ tl); by constructor]. rewrite app_nil_iff, He, IH. split.
    + intros [G1 G2] tr H. inversion H; subst. apply good_app. split; [by apply G1|]. erewrite path_e_neutral by done. by apply G2.
    + intros G. split.
      * intros tr Ht. assert (good E (tr ++ tl)) as [? _]%good_app; [|done]. apply G. by constructor.
      * intros tr Ht. assert (good E (te ++ tr)) as [_ Hg]%good_app; [apply G; by constructor|]. by erewrite path_e_neutral in Hg by done.
Qed.
Lemma acc_checks E l : Forall (Qacc (fun e => checks path_e e E (analyze_expression P E e))) l -> checks path_acc l E (areports E l).
Proof.
  induction 1 as [|a l Ha _ [IH [tl Htl]]].
  - split; [|exists []; constructor]. split; [|done]. intros _ tr H. by inversion H.
  - destruct a as [e|f]; cbn in Ha |- *.
    + destruct Ha as [He [te Hte]]. split; [|exists (te ++ tl); by constructor]. rewrite app_nil_iff, He, IH. split.
      * intros [G1 G2] tr H. inversion H; subst. apply good_app. split; [by apply G1|]. erewrite path_e_neutral by done. by apply G2.
      * intros G. split.
        -- intros tr Ht. assert (good E (tr ++ tl)) as [? _]%good_app; [|done]. apply G. by constructor.
        -- intros tr Ht. assert (good E (te ++ tr)) as [_ Hg]%good_app; [apply G; by constructor|]. by erewrite path_e_neutral in Hg by done.
    + split; [|exists tl; by constructor]. rewrite IH. split; intros G tr H; [inversion H; subst; by apply G|apply G; by constructor].
Qed.
Lemma parameters_arguments f n : parameters_of P f = Some n <-> arguments P f n.
Proof.
  unfold parameters_of, arguments. destruct (functions P !! f) as [d|] eqn:E1.
  - split; [intros [= <-]; left; eauto|]. intros [(d' & [= <-] & <-)|[? _]]; done.
  - destruct (templates P !! f) as [[d ins]|] eqn:E2; cbn.
    + split; [intros [= <-]; right; eauto|]. intros [(? & ? & _)|(_ & d' & ins' & [= <- <-] & <-)]; done.
    + split; [done|]. intros [(? & ? & _)|(_ & ? & ? & ? & _)]; done.
Qed.
Lemma e_checks E e : checks path_e e E (analyze_expression P E e).
Proof.
  induction e as [|l r [Hl [tl Htl]] [Hr [tr Htr]]|e [He [te Hte]]|e [He [te Hte]]|c t f [Hc [tc Htc]] [Ht [tt Htt]] [Hf [tf Htf]]|x acc Ha|f args Ha|b args Ha|l Hl|v d [Hl [tl Htl]] [Hr [tr Htr]]]
    using expr_induction.
  - split; [|exists []; constructor]. split; [|done]. intros _ tr H. by inversion H.
  - split; [|exists (tl ++ tr); by constructor]. cbn. rewrite app_nil_iff, Hl, Hr. split.
    + intros [G1 G2] u H. inversion H; subst. apply good_app. split; [by apply G1|]. erewrite path_e_neutral by done. by apply G2.
    + intros G. split.
      * intros u Hu. assert (good E (u ++ tr)) as [? _]%good_app; [|done]. apply G. by constructor.
      * intros u Hu. assert (good E (tl ++ u)) as [_ Hg]%good_app; [apply G; by constructor|]. by erewrite path_e_neutral in Hg by done.
  - split; [|exists te; by constructor]. cbn. rewrite He. split; intros G u H; [inversion H; subst; by apply G|apply G; by constructor].
  - split; [|exists te; by constructor]. cbn. rewrite He. split; intros G u H; [inversion H; subst; by apply G|apply G; by constructor].
  - split; [|exists (tc ++ tt); by constructor]. cbn. rewrite !app_nil_iff, Hc, Ht, Hf. split.
    + intros (G1 & G2 & G3) u H. inversion H; subst; (apply good_app; split; [by apply G1|]; erewrite path_e_neutral by done; auto).
    + intros G. split; [|split].
      * intros u Hu. assert (good E (u ++ tt)) as [? _]%good_app; [|done]. apply G. by constructor.
      * intros u Hu. assert (good E (tc ++ u)) as [_ Hg]%good_app; [apply G; by constructor|]. by erewrite path_e_neutral in Hg by done.
      * intros u Hu. assert (good E (tc ++ u)) as [_ Hg]%good_app; [apply G; by apply p_false|]. by erewrite path_e_neutral in Hg by done.
  - apply acc_checks in Ha as [Ha [ta Hta]]. split; [|exists (Read x :: ta); by constructor].
    change (analyze_expression P E (VariableOf x acc)) with ((if symbol_in_environment E x then [] else [Undeclared x]) ++ areports E acc).
    rewrite app_nil_iff, Ha. split.
    + intros [G1 G2] u H. inversion H; subst. cbn. split; [|by apply G2]. apply known_spec. by destruct (symbol_in_environment E x).
    + intros G. split.
      * destruct (G (Read x :: ta)) as [Hk _]; [by constructor|]. apply known_spec in Hk. by rewrite Hk.
      * intros u Hu. destruct (G (Read x :: u)) as [_ Hg]; [by constructor|]. done.
  - apply es_checks in Ha as [Ha [ta Hta]]. split; [|exists (CallTo f (length args) :: ta); by constructor]. cbn -[parameters_of].
    destruct (parameters_of P f) as [n|] eqn:En.
    + destruct (decide (length args = n)) as [<-|Hne].
      * rewrite Ha. split.
        -- intros G u H. inversion H; subst. cbn. split; [by apply parameters_arguments|by apply G].
        -- intros G u Hu. by destruct (G (CallTo f (length args) :: u)) as [_ Hg]; [by constructor|].
      * split; [done|]. intros G. destruct (G (CallTo f (length args) :: ta)) as [Hk _]; [by constructor|]. apply parameters_arguments in Hk. congruence.
    + split; [done|]. intros G. destruct (G (CallTo f (length args) :: ta)) as [Hk _]; [by constructor|]. apply parameters_arguments in Hk. congruence.
  - apply es_checks in Ha as [Ha [ta Hta]]. split; [|exists (BusOf b (length args) :: ta); by constructor]. cbn.
    destruct (buses P !! b) as [[d fs]|] eqn:En; cbn.
    + destruct (decide (length args = length (params d))) as [Hn|Hne].
      * rewrite Ha. split.
        -- intros G u H. inversion H; subst. cbn. split; [by eauto|by apply G].
        -- intros G u Hu. by destruct (G (BusOf b (length args) :: u)) as [_ Hg]; [by constructor|].
      * split; [done|]. intros G. destruct (G (BusOf b (length args) :: ta)) as [(d' & fs' & ? & ?) _]; [by constructor|]. congruence.
    + split; [done|]. intros G. destruct (G (BusOf b (length args) :: ta)) as [(d' & fs' & ? & ?) _]; [by constructor|]. congruence.
  - apply es_checks in Hl as [Ha [ta Hta]]. split; [|exists ta; by constructor]. cbn. rewrite Ha. split; intros G u H; [inversion H; subst; by apply G|apply G; by constructor].
  - split; [|exists (tl ++ tr); by constructor]. cbn. rewrite app_nil_iff, Hl, Hr. split.
    + intros [G1 G2] u H. inversion H; subst. apply good_app. split; [by apply G1|]. erewrite path_e_neutral by done. by apply G2.
    + intros G. split.
      * intros u Hu. assert (good E (u ++ tr)) as [? _]%good_app; [|done]. apply G. by constructor.
      * intros u Hu. assert (good E (tl ++ u)) as [_ Hg]%good_app; [apply G; by constructor|]. by erewrite path_e_neutral in Hg by done.
Qed.
Lemma expressions_checks E l : checks path_es l E (analyze_expressions P E l).
Proof.
  replace (analyze_expressions P E l) with ((fix go l := match l with [] => [] | e :: l => analyze_expression P E e ++ go l end) l).
  - apply es_checks. apply Forall_true. intros. apply e_checks.
  - unfold analyze_expressions. induction l as [|e l IH]; cbn; [done|]. by rewrite IH.
Qed.
Lemma accesses_checks E l : checks path_acc l E (areports E l).
Proof. apply acc_checks. apply Forall_true. intros [e|f]; [apply e_checks|done]. Qed.

(** ** Statements *)
Ltac neut := repeat match goal with
  | H : path_e _ ?a |- context [after ?E ?a] => rewrite (path_e_neutral _ a E H)
  | H : path_es _ ?a |- context [after ?E ?a] => rewrite (path_es_neutral _ a E H)
  | H : path_acc _ ?a |- context [after ?E ?a] => rewrite (path_acc_neutral _ a E H) end.
Lemma keeps :
  (forall s tr, path_s s tr -> parsed s = true -> forall b E, exists b', after (b :: E) tr = b' :: E /\ (no_declaration s = true -> b' = b)) /\
  (forall l tr, path_ss l tr -> forallb parsed l = true -> forall b E, exists b', after (b :: E) tr = b' :: E).
Proof.
  apply path_s_all; intros; cbn [parsed forallb no_declaration] in *;
    try (by exists b; split; [by neut|]).
  - exists b0. split; [|done]. rewrite after_app. neut. change (after (b0 :: E) (Write x :: b)) with (after (b0 :: E) b). by neut.
  - exists b0. split; [|done]. rewrite after_app. by neut.
  - destruct (H0 H1 b E) as [b' Hb]. by exists b'.
  - exists ({[x]} ∪ b). split; [|done]. rewrite after_app. by neut.
  - destruct (H0 H1 ∅ (b :: E)) as [b' Hb]. exists b. split; [|done]. change (after (b :: E) (Open :: a ++ [Close])) with (after (∅ :: b :: E) (a ++ [Close])).
    rewrite after_app, Hb. done.
  - assert (Hp := H4). apply andb_prop in Hp as [Hn Hp]. destruct (H1 Hp b0 E) as (b1 & Hb1 & Hn1). destruct (H3 H4 b1 E) as (b2 & Hb2 & Hn2). exists b2. split.
    + rewrite !after_app. neut. by rewrite Hb1.
    + intros Hn'. rewrite Hn2 by done. auto.
  - apply andb_prop in H2 as [H2 _]. apply andb_prop in H2 as [Hn Hp]. destruct (H1 Hp b0 E) as (b1 & Hb1 & Hn1). exists b1. split; [rewrite after_app; by neut|]. auto.
  - apply andb_prop in H2 as [_ H2]. apply andb_prop in H2 as [Hn Hp]. destruct (H1 Hp b0 E) as (b1 & Hb1 & Hn1). exists b1. split; [rewrite after_app; by neut|]. auto.
  - exists b. done.
  - apply andb_prop in H3 as [Hp1 Hp2]. destruct (H0 Hp1 b0 E) as (b1 & Hb1 & _). destruct (H2 Hp2 b1 E) as [b2 Hb2]. exists b2. by rewrite after_app, Hb1.
Qed.
Definition scheck (s : stmt) : Prop := parsed s = true -> forall b E E' r, analyze_statement P s (b :: E) = (E', r) ->
  checks path_s s (b :: E) r /\ exists b', E' = b' :: E /\ (no_declaration s = true -> b' = b) /\
    (r = [] -> forall tr, path_s s tr -> after (b :: E) tr = E').
Definition sscheck (l : list stmt) : Prop := forallb parsed l = true -> forall b E E' r, analyze_sequence P l (b :: E) = (E', r) ->
  checks path_ss l (b :: E) r /\ exists b', E' = b' :: E /\ (r = [] -> forall tr, path_ss l tr -> after (b :: E) tr = E').
Lemma sequence_eq l : forall E, (fix go (l : list stmt) (E : env) : env * list report :=
    match l with
    | [] => (E, [])
    | s :: l => let '(E1, r1) := analyze_statement P s E in let '(E2, r2) := go l E1 in (E2, r1 ++ r2)
    end) l E = analyze_sequence P l E.
Proof. induction l as [|s l IH]; intros E; [done|]. cbn. destruct (analyze_statement P s E) as [E1 r1]. by rewrite IH. Qed.
Lemma seq_check l : Forall scheck l -> sscheck l.
Proof.
  induction 1 as [|s l Hs _ IH]; intros Hp b E E' r H.
  - cbn in H. injection H as <- <-. split.
    + split; [|exists []; constructor]. split; [|done]. intros _ tr Ht. by inversion Ht.
    + exists b. split; [done|]. intros _ tr Ht. by inversion Ht.
  - cbn in Hp. apply andb_prop in Hp as [Hp1 Hp2]. cbn in H. destruct (analyze_statement P s (b :: E)) as [E1 r1] eqn:E1'.
    destruct (Hs Hp1 _ _ _ _ E1') as ([C1 [t1 T1]] & b1 & -> & _ & A1).
    destruct (analyze_sequence P l (b1 :: E)) as [E2 r2] eqn:E2'. destruct (IH Hp2 _ _ _ _ E2') as ([C2 [t2 T2]] & b2 & -> & A2).
    injection H as <- <-. split; [split|].
    + rewrite app_nil_iff. split.
      * intros [-> ->] tr Ht. inversion Ht; subst. apply good_app. split; [by apply C1|]. rewrite A1 by done. by apply C2.
      * intros G. assert (r1 = []) as ->.
        { apply C1. intros tr Ht. assert (good (b :: E) (tr ++ t2)) as [? _]%good_app; [|done]. apply G. by constructor. }
        split; [done|]. apply C2. intros tr Ht. assert (good (b :: E) (t1 ++ tr)) as [_ Hg]%good_app; [apply G; by constructor|].
        by rewrite A1 in Hg.
    + exists (t1 ++ t2). by constructor.
    + exists b2. split; [done|]. intros [-> ->]%app_nil_iff tr Ht. inversion Ht; subst. rewrite after_app, A1 by done. by apply A2.
Qed.
Lemma simple_check E (b : gset string) (s : stmt) r : checks path_s s (b :: E) r -> (forall tr, path_s s tr -> Forall neutral tr) ->
  checks path_s s (b :: E) r /\ exists b', b :: E = b' :: E /\ (no_declaration s = true -> b' = b) /\
    (r = [] -> forall tr, path_s s tr -> after (b :: E) tr = b :: E).
Proof. intros H Hn. split; [done|]. exists b. split; [done|]. split; [done|]. intros _ tr Ht. apply neutral_after. auto. Qed.
Ltac one C := destruct C as [? [? ?]]; split; [|eexists; by constructor].
Lemma tags_reports k : tag_reports P k = [] <-> tags_ok k.
Proof.
  destruct k as [|t| |t b tags]; cbn; try done. destruct (buses P !! b) as [[d fs]|] eqn:Eb; cbn.
  - split.
    + intros H d' fs' t' [= <- <-] Ht Hf. apply fmap_nil_inv in H. assert (t' ∈ filter (.∈ fs) tags) as Hin by (by apply elem_of_list_filter).
      rewrite H in Hin. by apply elem_of_nil in Hin.
    + intros H. replace (filter (.∈ fs) tags) with (@nil string); [done|]. symmetry. apply elem_of_nil_inv. intros t' [H1 H2]%elem_of_list_filter. by eapply H.
  - split; [|done]. intros _ d fs t' Hd. done.
Qed.
Lemma stmt_check s : scheck s.
Proof.
  induction s as [e|e|x acc e|l r|l IH|k x dims|args|e|l IH|c s IH|c t f IHt IHf] using stmt_induction; intros Hp b E E' rr H; cbn [analyze_statement] in H.
  - injection H as <- <-. destruct (e_checks (b :: E) e) as [C [te Te]]. apply simple_check; [split|].
    + rewrite C. split; intros G u Hu; [inversion Hu; subst; by apply G|apply G; by constructor].
    + exists te. by constructor.
    + intros tr Ht. inversion Ht; subst. by eapply (proj1 path_neutral).
  - injection H as <- <-. destruct (e_checks (b :: E) e) as [C [te Te]]. apply simple_check; [split|].
    + rewrite C. split; intros G u Hu; [inversion Hu; subst; by apply G|apply G; by constructor].
    + exists te. by constructor.
    + intros tr Ht. inversion Ht; subst. by eapply (proj1 path_neutral).
  - injection H as <- <-. destruct (e_checks (b :: E) e) as [C [te Te]]. destruct (accesses_checks (b :: E) acc) as [Ca [ta Ta]].
    apply simple_check; [split|].
    + change (analyze_expression P (b :: E) (VariableOf x acc)) with ((if symbol_in_environment (b :: E) x then [] else [Undeclared x]) ++ areports (b :: E) acc).
      rewrite !app_nil_iff, C, Ca. split.
      * intros (G1 & G2 & G3) u Hu. inversion Hu; subst. apply good_app. split; [by apply G1|]. neut. cbn. split; [|by apply G3].
        apply known_spec. change (bool_decide (x ∈ b) || symbol_in_environment E x = true). by destruct (bool_decide (x ∈ b) || symbol_in_environment E x).
      * intros G. split; [|split].
        -- intros u Hu. assert (good (b :: E) (u ++ Write x :: ta)) as [? _]%good_app; [|done]. apply G. by constructor.
        -- assert (good (b :: E) (te ++ Write x :: ta)) as [_ Hg]%good_app; [apply G; by constructor|]. revert Hg. neut. intros [Hk _].
           apply known_spec in Hk. change (bool_decide (x ∈ b) || symbol_in_environment E x = true) in Hk. by rewrite Hk.
        -- intros u Hu. assert (good (b :: E) (te ++ Write x :: u)) as [_ Hg]%good_app; [apply G; by constructor|]. revert Hg. neut. intros [_ Hg]. done.
    + eexists. by constructor.
    + intros tr Ht. inversion Ht; subst. apply Forall_app. split; [by eapply (proj1 path_neutral)|]. constructor; [done|]. by eapply (proj2 (proj2 path_neutral)).
  - injection H as <- <-. destruct (e_checks (b :: E) l) as [C [te Te]]. destruct (e_checks (b :: E) r) as [Ca [ta Ta]].
    apply simple_check; [split|].
    + rewrite !app_nil_iff, C, Ca. split.
      * intros (G1 & G2) u Hu. inversion Hu; subst. apply good_app. split; [by apply G1|]. neut. by apply G2.
      * intros G. split.
        -- intros u Hu. assert (good (b :: E) (u ++ ta)) as [? _]%good_app; [|done]. apply G. by constructor.
        -- intros u Hu. assert (good (b :: E) (te ++ u)) as [_ Hg]%good_app; [apply G; by constructor|]. revert Hg. by neut.
    + eexists. by constructor.
    + intros tr Ht. inversion Ht; subst. apply Forall_app. split; by eapply (proj1 path_neutral).
  - rewrite sequence_eq in H. cbn in Hp. destruct (seq_check l IH Hp b E E' rr H) as ([C [te Te]] & b' & -> & A). split; [split|].
    + rewrite C. split; intros G u Hu; [inversion Hu; subst; by apply G|apply G; by constructor].
    + eexists. by constructor.
    + exists b'. split; [done|]. split; [done|]. intros Hr tr Ht. inversion Ht; subst. by apply A.
  - destruct (expressions_checks (b :: E) dims) as [C [te Te]]. cbn [add_symbol_to_block] in H.
    destruct (decide (x ∈ b)) as [Hx|Hx]; injection H as <- <-.
    + split; [split|].
      * rewrite app_nil_iff. split; [by intros [_ ?]|]. intros G. assert (good (b :: E) (te ++ [Declare k x])) as [_ Hg]%good_app; [apply G; by constructor|].
        revert Hg. neut. intros [[Hn _] _]. exfalso. apply Hn. by exists b.
      * eexists. by constructor.
      * exists b. split; [done|]. split; [done|]. intros [_ ?]%app_nil_iff. done.
    + split; [split|].
      * rewrite app_nil_iff, C, tags_reports. split.
        -- intros (G1 & G2) u Hu. inversion Hu; subst. apply good_app. split; [by apply G1|]. neut. cbn. split; [|done]. split; [|done]. by intros (b' & [= <-] & ?).
        -- intros G. split.
           ++ intros u Hu. assert (good (b :: E) (u ++ [Declare k x])) as [? _]%good_app; [|done]. apply G. by constructor.
           ++ assert (good (b :: E) (te ++ [Declare k x])) as [_ Hg]%good_app; [apply G; by constructor|]. revert Hg. neut. by intros [[_ ?] _].
      * eexists. by constructor.
      * eexists. split; [done|]. split; [done|]. intros _ tr Ht. inversion Ht; subst. rewrite after_app. by neut.
  - injection H as <- <-. destruct (expressions_checks (b :: E) (omap id args)) as [C [te Te]]. apply simple_check; [split|].
    + rewrite C. split; intros G u Hu; [inversion Hu; subst; by apply G|apply G; by constructor].
    + exists te. by constructor.
    + intros tr Ht. inversion Ht; subst. by eapply (proj1 (proj2 path_neutral)).
  - injection H as <- <-. destruct (e_checks (b :: E) e) as [C [te Te]]. apply simple_check; [split|].
    + rewrite C. split; intros G u Hu; [inversion Hu; subst; by apply G|apply G; by constructor].
    + exists te. by constructor.
    + intros tr Ht. inversion Ht; subst. by eapply (proj1 path_neutral).
  - rewrite sequence_eq in H. cbn in Hp. destruct (analyze_sequence P l (∅ :: b :: E)) as [E1 r1] eqn:Es. injection H as <- <-.
    destruct (seq_check l IH Hp ∅ (b :: E) E1 r1 Es) as ([C [te Te]] & b' & -> & A). split; [split|].
    + rewrite C. split.
      * intros G u Hu. inversion Hu; subst. cbn. split; [done|]. apply good_app. split; [by apply G|done].
      * intros G u Hu. destruct (G (Open :: u ++ [Close])) as [_ [? _]%good_app]; [by constructor|done].
    + eexists. by constructor.
    + exists b. split; [done|]. split; [done|]. intros Hr tr Ht. inversion Ht; subst.
      change (after (b :: E) (Open :: a ++ [Close])) with (after (∅ :: b :: E) (a ++ [Close])). by rewrite after_app, A.
  - cbn in Hp. apply andb_prop in Hp as [Hn Hp]. destruct (analyze_statement P s (b :: E)) as [E1 r1] eqn:Es. injection H as <- <-.
    destruct (IH Hp b E E1 r1 Es) as ([C [ts Ts]] & b' & -> & Hb & A). rewrite (Hb Hn) in *.
    destruct (e_checks (b :: E) c) as [Cc [tc Tc]]. split; [split|].
    + rewrite app_nil_iff, C, Cc. split.
      * intros [G1 G2] u Hu. remember (While c s) as w eqn:Ew. revert Ew. revert u Hu.
        apply (path_s_ind (fun w u => w = While c s -> good (b :: E) u)); try done.
        -- intros c' s' a Ha [= -> ->]. by apply G1.
        -- intros c' s' a b0 d Ha Hb0 _ Hd IHd [= -> ->]. apply good_app. split; [by apply G1|]. neut. apply good_app. split; [by apply G2|].
           rewrite A by (try done; by apply C). by apply IHd.
      * intros G. split.
        -- intros u Hu. apply G. by constructor.
        -- intros u Hu. assert (good (b :: E) (tc ++ u ++ tc)) as [_ Hg]%good_app; [apply G; apply p_again; [done..|by constructor]|].
           revert Hg. neut. by intros [? _]%good_app.
    + exists tc. by constructor.
    + exists b. split; [done|]. split; [done|]. intros _ tr Ht. destruct (proj1 keeps _ _ Ht) with (b := b) (E := E) as (b2 & Hb2 & Hn2); [cbn; by rewrite Hn|].
      rewrite Hb2. cbn in Hn2. by rewrite Hn2.
  - cbn in Hp. apply andb_prop in Hp as [Hp Hpf]. apply andb_prop in Hp as [Hn Hp]. destruct (analyze_statement P t (b :: E)) as [E1 r1] eqn:Es.
    destruct (IHt Hp b E E1 r1 Es) as ([C [ts Ts]] & b' & -> & Hb & A). rewrite (Hb Hn) in *. clear Hb b'.
    destruct (e_checks (b :: E) c) as [Cc [tc Tc]].
    assert (forall tr, path_s (If c t f) tr -> after (b :: E) tr = b :: E) as Hk.
    { intros tr Ht. destruct (proj1 keeps _ _ Ht) with (b := b) (E := E) as (b2 & Hb2 & Hn2).
      { cbn. rewrite Hn, Hp. cbn. destruct f as [f|]; [|done]. done. }
      rewrite Hb2. rewrite Hn2; [done|]. cbn. rewrite Hn. destruct f as [f|]; [|done]. by apply andb_prop in Hpf as [? _]. }
    destruct f as [f|].
    + apply andb_prop in Hpf as [Hnf Hpf]. destruct (analyze_statement P f (b :: E)) as [E2 r2] eqn:Ef. injection H as <- <-.
      destruct (IHf Hpf b E E2 r2 Ef) as ([Cf [tf Tf]] & b' & -> & Hb & _). rewrite (Hb Hnf) in *. split; [split|].
      * rewrite !app_nil_iff, C, Cc, Cf. split.
        -- intros (G1 & G2 & G3) u Hu. inversion Hu; subst; (apply good_app; split; [by apply G1|]; neut; auto).
        -- intros G. split; [|split].
           ++ intros u Hu. assert (good (b :: E) (u ++ ts)) as [? _]%good_app; [|done]. apply G. by constructor.
           ++ intros u Hu. assert (good (b :: E) (tc ++ u)) as [_ Hg]%good_app; [apply G; by constructor|]. revert Hg. by neut.
           ++ intros u Hu. assert (good (b :: E) (tc ++ u)) as [_ Hg]%good_app; [apply G; by apply p_else|]. revert Hg. by neut.
      * exists (tc ++ ts). by constructor.
      * exists b. done.
    + injection H as <- <-. split; [split|].
      * rewrite !app_nil_iff, C, Cc. split.
        -- intros (G1 & G2) u Hu. inversion Hu; subst; [|by apply G1]. apply good_app; split; [by apply G1|]; neut; auto.
        -- intros G. split.
           ++ intros u Hu. apply G. by constructor.
           ++ intros u Hu. assert (good (b :: E) (tc ++ u)) as [_ Hg]%good_app; [apply G; by constructor|]. revert Hg. by neut.
      * exists (tc ++ ts). by constructor.
      * exists b. done.
Qed.
Lemma sequence_check l : sscheck l.
Proof. apply seq_check. apply Forall_true. apply stmt_check. Qed.
End names.
