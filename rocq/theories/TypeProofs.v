(** The check of types, with the register it ends with. *)
From stdpp Require Import prelude gmap strings.
From Coq Require Import ZArith Lia.
From Verif Require Import TypeModel.
Open Scope string_scope.
Open Scope list_scope.
Open Scope nat_scope.

(** ** Induction *)
Fixpoint expr_ind' (Q : expr -> Prop)
  (HN : forall z, Q (Number z))
  (HA : forall l, Forall Q l -> Q (ArrayInLine l))
  (HU : forall e n, Q e -> Q n -> Q (UniformArray e n))
  (HI : forall o l r, Q l -> Q r -> Q (InfixOp o l r))
  (HP : forall o e, Q e -> Q (PrefixOp o e))
  (HL : forall e, Q e -> Q (ParallelOp e))
  (HS : forall c t f, Q c -> Q t -> Q f -> Q (InlineSwitch c t f))
  (HV : forall x idx field, Forall Q idx -> match field with None => True | Some (_, l) => Forall Q l end -> Q (VariableOf x idx field))
  (HC : forall f args, Forall Q args -> Q (Call f args))
  (e : expr) : Q e :=
  let rec := expr_ind' Q HN HA HU HI HP HL HS HV HC in
  let list := fix list l : Forall Q l := match l with [] => Forall_nil_2 _ | e :: l => Forall_cons_2 _ _ _ (rec e) (list l) end in
  match e with
  | Number z => HN z
  | ArrayInLine l => HA l (list l)
  | UniformArray e n => HU e n (rec e) (rec n)
  | InfixOp o l r => HI o l r (rec l) (rec r)
  | PrefixOp o e => HP o e (rec e)
  | ParallelOp e => HL e (rec e)
  | InlineSwitch c t f => HS c t f (rec c) (rec t) (rec f)
  | VariableOf x idx field => HV x idx field (list idx) match field with None => I | Some (_, l) => list l end
  | Call f args => HC f args (list args)
  end.
Fixpoint stmt_ind' (Q : stmt -> Prop)
  (HI : forall c t f, Q t -> match f with None => True | Some f => Q f end -> Q (IfThenElse c t f))
  (HW : forall c s, Q s -> Q (While c s))
  (HR : forall e, Q (Return e))
  (HB : forall k l, Forall Q l -> Q (InitializationBlock k l))
  (HD : forall k x ds, Q (Declaration k x ds))
  (HS : forall x idx field o e, Q (Substitution x idx field o e))
  (HU : forall o e, Q (UnderscoreSubstitution o e))
  (HE : forall l r, Q (ConstraintEquality l r))
  (HL : forall l, Q (LogCall l))
  (HK : forall l, Forall Q l -> Q (Block l))
  (HA : forall e, Q (Assert e))
  (s : stmt) : Q s :=
  let rec := stmt_ind' Q HI HW HR HB HD HS HU HE HL HK HA in
  let list := fix list l : Forall Q l := match l with [] => Forall_nil_2 _ | s :: l => Forall_cons_2 _ _ _ (rec s) (list l) end in
  match s with
  | IfThenElse c t f => HI c t f (rec t) match f with None => I | Some f => rec f end
  | While c s => HW c s (rec s)
  | Return e => HR e
  | InitializationBlock k l => HB k l (list l)
  | Declaration k x ds => HD k x ds
  | Substitution x idx field o e => HS x idx field o e
  | UnderscoreSubstitution o e => HU o e
  | ConstraintEquality l r => HE l r
  | LogCall l => HL l
  | Block l => HK l (list l)
  | Assert e => HA e
  end.

Section program.
Context (P : program).

(** ** The check with a given register *)
Definition frozen (R : register) (f : string) (ds : list nat) : M (option ty) := fun r =>
  match functions P !! f with
  | Some F =>
    if length ds =? length (params F) then match R !! (f, ds) with Some d => Done (Some (Arith d)) r [] | None => Panic end
    else Panic
  | None =>
    match templates P !! f with
    | Some T =>
      if length ds =? length (params T) then match R !! (f, ds) with Some _ => Done (Some (Templ f)) r [] | None => Panic end
      else Panic
    | None => Panic
    end
  end.
(** the body of this instance passes the check *)
Definition checked (R : register) (f : string) (ds : list nat) (d : nat) : Prop :=
  match functions P !! f with
  | Some F => exists E, treat_sequence P (frozen R) (Some d) (call_environment (params F) ds) (body F) ∅ = Done E ∅ []
  | None =>
    match templates P !! f with
    | Some T => exists E, treat_sequence P (frozen R) None (call_environment (params T) ds) (body T) ∅ = Done E ∅ []
    | None => False
    end
  end.

(** Whatever [m] gives without reports, [m'] gives with the register [m] ends with, or a larger one; the
    instances [m] adds pass the check. *)
Definition sim {A} (m : M A) (m' : register -> M A) : Prop := forall r a r', m r = Done a r' [] ->
  r ⊆ r' /\ forall R, r' ⊆ R ->
    m' R ∅ = Done a ∅ [] /\ (forall f ds d, r' !! (f, ds) = Some d -> r !! (f, ds) = None -> checked R f ds d).

Lemma bind_clean {A B} (m : M A) (k : A -> M B) r b r2 : (m ≫= k) r = Done b r2 [] ->
  exists a r1, m r = Done a r1 [] /\ k a r1 = Done b r2 [].
Proof.
  unfold mbind, M_bind. destruct (m r) as [a r1 p1| |] eqn:E; [|done|done].
  destruct (k a r1) as [b' r2' p2| |] eqn:E2; [|done|done]. intros H. simplify_eq.
  destruct p1, p2; simplify_eq/=. by exists a, r1.
Qed.
Lemma clean_bind {A B} (m : M A) (k : A -> M B) r a r1 b r2 :
  m r = Done a r1 [] -> k a r1 = Done b r2 [] -> (m ≫= k) r = Done b r2 [].
Proof. unfold mbind, M_bind. intros -> ->. done. Qed.

Lemma sim_ret {A} (a : A) : sim (mret a) (fun _ => mret a).
Proof. intros r b r' H. unfold mret, M_ret in H. simplify_eq. split; [done|]. intros R HR. split; [done|]. intros. congruence. Qed.
Lemma sim_bind {A B} (m : M A) m' (k : A -> M B) k' : sim m m' -> (forall a, sim (k a) (fun R => k' R a)) ->
  sim (m ≫= k) (fun R => m' R ≫= k' R).
Proof.
  intros Hm Hk r b r2 H. apply bind_clean in H as (a & r1 & H1 & H2).
  apply Hm in H1 as [S1 H1]. apply Hk in H2 as [S2 H2]. split; [by etrans|].
  intros R HR. destruct (H1 R) as [E1 C1]; [by etrans|]. destruct (H2 R HR) as [E2 C2]. split.
  - by eapply clean_bind.
  - intros f ds d Hd Hn. destruct (r1 !! (f, ds)) as [d1|] eqn:E; [|by apply C2].
    pose proof (lookup_weaken _ _ _ _ E S2) as HE. rewrite Hd in HE. injection HE as ->. by apply (C1 f ds d1).
Qed.
Lemma sim_report c : sim (add_report c) (fun _ => add_report c).
Proof. intros r a r' H. discriminate. Qed.
Lemma sim_panic {A} (m' : register -> M A) : sim panic m'.
Proof. intros r a r' H. discriminate. Qed.

Ltac sim_step :=
  match goal with
  | |- sim (mret _) _ => apply sim_ret
  | |- sim (add_report _) _ => apply sim_report
  | |- sim panic _ => apply sim_panic
  | |- sim (add_report_and_end _) _ => unfold add_report_and_end
  | |- sim (report_if _ _) _ => unfold report_if
  | |- sim (_ ≫= _) _ => eapply (sim_bind _ (fun R => _) _ (fun R a => _)); [|intros ?]
  | |- sim (match ?x with _ => _ end) _ => destruct x
  end; lazy beta iota.
Ltac sims := repeat sim_step.

Lemma check_if_it_is_a_tag_sim E x n f : sim (check_if_it_is_a_tag E x n f) (fun _ => check_if_it_is_a_tag E x n f).
Proof. unfold check_if_it_is_a_tag. sims. Qed.
Lemma apply_access_sim E x n f : sim (apply_access_to_symbol P E x n f) (fun _ => apply_access_to_symbol P E x n f).
Proof. unfold apply_access_to_symbol. sim_step; [apply check_if_it_is_a_tag_sim|]. sims. Qed.

Section calls.
Context (call : string -> list nat -> M (option ty)).
Hypothesis call_sim : forall f ds, sim (call f ds) (fun R => frozen R f ds).

Lemma type_array_sim (te : expr -> M (option ty)) te' l : Forall (fun e => sim (te e) (fun R => te' R e)) l ->
  sim (type_array te l) (fun R => type_array (te' R) l).
Proof.
  induction 1 as [|e l He Hl IH]; cbn [type_array]; [apply sim_ret|].
  sim_step; [done|]. sim_step; [done|]. sims.
Qed.
Lemma check_size_sim t : sim (check_size t) (fun _ => check_size t).
Proof. unfold check_size. sims. Qed.
Lemma check_sizes_sim l : sim (check_sizes l) (fun _ => check_sizes l).
Proof. induction l as [|t l IH]; cbn [check_sizes]; [apply sim_ret|]. sim_step; [apply check_size_sim|done]. Qed.
Lemma check_single_sim t : sim (check_single t) (fun _ => check_single t).
Proof. unfold check_single. sims. Qed.
Lemma check_elements_sim d l : sim (check_elements d l) (fun _ => check_elements d l).
Proof. induction l as [|t l IH]; cbn [check_elements]; [apply sim_ret|]. sim_step; [sims|done]. Qed.
Lemma check_arguments_sim l : sim (check_arguments l) (fun _ => check_arguments l).
Proof. induction l as [|t l IH]; cbn [check_arguments]; [apply sim_ret|]. sim_step; [sims|]. sim_step; [done|]. sims. Qed.
Lemma treat_indexes_sim (te : expr -> M (option ty)) te' l : Forall (fun e => sim (te e) (fun R => te' R e)) l ->
  sim (treat_indexes te l) (fun R => treat_indexes (te' R) l).
Proof.
  induction 1 as [|e l He Hl IH]; cbn [treat_indexes]; [apply sim_ret|].
  sim_step; [done|]. sim_step; [|done]. destruct a; [apply check_size_sim|sims].
Qed.
Lemma treat_access_sim (te : expr -> M (option ty)) te' idx field : Forall (fun e => sim (te e) (fun R => te' R e)) idx ->
  match field with None => True | Some (_, l) => Forall (fun e => sim (te e) (fun R => te' R e)) l end ->
  sim (treat_access te idx field) (fun R => treat_access (te' R) idx field).
Proof.
  intros H1 H2. unfold treat_access. sim_step; [by apply treat_indexes_sim|].
  destruct field as [[f l]|]; [|sims]. sim_step; [by apply treat_indexes_sim|]. sims.
Qed.
Lemma type_log_sim (te : expr -> M (option ty)) te' l : Forall (fun e => sim (te e) (fun R => te' R e)) l ->
  sim (type_log te l) (fun R => type_log (te' R) l).
Proof.
  induction 1 as [|e l He Hl IH]; cbn [type_log]; [apply sim_ret|].
  sim_step; [done|]. sim_step; [|sims]. sim_step; [apply check_single_sim|done].
Qed.

Lemma type_expression_sim E e : sim (type_expression P call E e) (fun R => type_expression P (frozen R) E e).
Proof.
  induction e using expr_ind'; cbn [type_expression].
  - sims.
  - sim_step; [by apply (type_array_sim _ (fun R => _))|]. sim_step; [|sims]. sim_step; [sims|].
    sim_step; [apply check_elements_sim|sims].
  - sim_step; [done|]. sim_step; [|sims]. sim_step; [sims|]. sim_step; [done|]. sims.
  - sim_step; [done|]. sim_step; [done|]. sims.
  - sim_step; [done|]. sims.
  - sim_step; [done|]. sims.
  - do 3 (sim_step; [done|]). sim_step; [|sims]. sim_step; [|sims]. sim_step; [apply check_single_sim|]. sims.
  - sim_step; [by apply (treat_access_sim _ (fun R => _))|]. destruct a as [n fl]. sim_step; [apply apply_access_sim|]. sims.
  - sim_step; [by apply (type_array_sim _ (fun R => _))|]. sim_step; [|sims]. sim_step; [apply check_arguments_sim|].
    sim_step; [apply call_sim|sims].
Qed.
Lemma type_expressions_sim E l :
  Forall (fun e => sim (type_expression P call E e) (fun R => type_expression P (frozen R) E e)) l.
Proof. apply Forall_forall. intros. apply type_expression_sim. Qed.

Lemma type_substitution_sim E x s t : sim (type_substitution E x s t) (fun _ => type_substitution E x s t).
Proof. unfold type_substitution. sims. Qed.

Lemma treat_sequence_sim' ret l : Forall (fun s => forall E, sim (type_statement P call ret E s) (fun R => type_statement P (frozen R) ret E s)) l ->
  forall E, sim (treat_sequence P call ret E l) (fun R => treat_sequence P (frozen R) ret E l).
Proof.
  induction 1 as [|s l Hs Hl IH]; intros E; cbn [treat_sequence]; [apply sim_ret|].
  sim_step; [done|apply IH].
Qed.
Lemma type_statement_sim ret s : forall E, sim (type_statement P call ret E s) (fun R => type_statement P (frozen R) ret E s).
Proof.
  induction s using stmt_ind'; intros E; cbn [type_statement].
  - sim_step; [apply type_expression_sim|]. sim_step; [done|]. sim_step; [destruct f; [done|apply sim_ret]|].
    sim_step; [destruct a; [apply check_single_sim|apply sim_ret]|]. sims.
  - sim_step; [apply type_expression_sim|]. sim_step; [done|].
    sim_step; [destruct a; [apply check_single_sim|apply sim_ret]|]. sims.
  - sim_step; [apply type_expression_sim|]. sims.
  - by apply (treat_sequence_sim' ret l).
  - sim_step; [apply (type_array_sim _ (fun R => _)), type_expressions_sim|]. sim_step; [apply check_sizes_sim|]. sims.
  - sim_step; [apply type_expression_sim|]. sim_step; [|sims].
    sim_step; [apply (treat_access_sim _ (fun R => _)); [apply type_expressions_sim|]; destruct field as [[]|]; [apply type_expressions_sim|done]|].
    destruct a as [n fl]. sim_step; [apply apply_access_sim|]. sim_step; [|sims]. sim_step; [sims|]. apply type_substitution_sim.
  - sim_step; [apply type_expression_sim|]. sim_step; [destruct a; sims|]. sims.
  - sim_step; [apply type_expression_sim|]. sim_step; [apply type_expression_sim|]. sims.
  - sim_step; [apply (type_log_sim _ (fun R => _)), type_expressions_sim|]. sims.
  - sim_step; [by apply (treat_sequence_sim' ret l)|]. sims.
  - sim_step; [apply type_expression_sim|]. sim_step; [destruct a; [apply check_single_sim|apply sim_ret]|]. sims.
Qed.
Lemma treat_sequence_sim ret l E : sim (treat_sequence P call ret E l) (fun R => treat_sequence P (frozen R) ret E l).
Proof. apply treat_sequence_sim'. apply Forall_forall. intros. apply type_statement_sim. Qed.
End calls.

Lemma call_sim n : forall f ds, sim (call P n f ds) (fun R => frozen R f ds).
Proof.
  induction n as [|n IH]; intros f ds r a r' H; cbn [call] in H; [done|].
  unfold frozen, checked. destruct (functions P !! f) as [F|] eqn:EF.
  - destruct (length ds =? length (params F)) eqn:El; cbn [negb] in H.
    2:{ apply bind_clean in H as (? & ? & ? & ?). discriminate. }
    destruct (r !! (f, ds)) as [d|] eqn:Er.
    + simplify_eq. split; [done|]. intros R HR. rewrite (lookup_weaken _ _ _ _ Er HR). split; [done|]. intros; congruence.
    + destruct (type_given_function P f ds) as [[d|]|]; [| |done].
      2:{ unfold add_report_and_end in H. apply bind_clean in H as (? & ? & ? & ?). discriminate. }
      apply bind_clean in H as (E & r1 & H1 & H2). unfold mret, M_ret in H2. simplify_eq.
      apply (treat_sequence_sim _ IH) in H1 as [S1 H1].
      assert (r ⊆ <[(f, ds) := d]> r) as S0 by by apply insert_subseteq.
      split; [by etrans|]. intros R HR. destruct (H1 R HR) as [E1 C1].
      assert (R !! (f, ds) = Some d) as HRd.
      { eapply lookup_weaken; [|exact HR]. eapply lookup_weaken; [|exact S1]. apply lookup_insert. }
      rewrite HRd. split; [done|]. intros g es d' Hd Hn.
      destruct (decide ((g, es) = (f, ds))) as [Heq|Hne].
      * simplify_eq. rewrite EF. pose proof (lookup_weaken _ _ _ _ Hd HR). assert (d' = d) as -> by congruence. by exists E.
      * apply (C1 g es); [done|]. by rewrite lookup_insert_ne.
  - destruct (templates P !! f) as [T|] eqn:ET; [|done].
    destruct (length ds =? length (params T)) eqn:El; cbn [negb] in H.
    2:{ apply bind_clean in H as (? & ? & ? & ?). discriminate. }
    destruct (r !! (f, ds)) as [d|] eqn:Er.
    + simplify_eq. split; [done|]. intros R HR. rewrite (lookup_weaken _ _ _ _ Er HR). split; [done|]. intros; congruence.
    + apply bind_clean in H as (E & r1 & H1 & H2). unfold mret, M_ret in H2. simplify_eq.
      apply (treat_sequence_sim _ IH) in H1 as [S1 H1].
      assert (r ⊆ <[(f, ds) := 0]> r) as S0 by by apply insert_subseteq.
      split; [by etrans|]. intros R HR. destruct (H1 R HR) as [E1 C1].
      assert (R !! (f, ds) = Some 0) as HRd.
      { eapply lookup_weaken; [|exact HR]. eapply lookup_weaken; [|exact S1]. apply lookup_insert. }
      rewrite HRd. split; [done|]. intros g es d' Hd Hn.
      destruct (decide ((g, es) = (f, ds))) as [Heq|Hne].
      * simplify_eq. rewrite EF, ET. by exists E.
      * apply (C1 g es); [done|]. by rewrite lookup_insert_ne.
Qed.

(** A check without reports gives a register in which every instance passes the check. *)
Lemma type_check_register n r : type_check P n = Done tt r [] ->
  exists R t, type_expression P (frozen R) empty_env (main P) ∅ = Done t ∅ [] /\
    (t <> None -> exists f args D, main P = Call f args /\ templates P !! f = Some D) /\
    forall f ds d, R !! (f, ds) = Some d -> checked R f ds d.
Proof.
  unfold type_check. intros H. apply bind_clean in H as (t & R & H1 & H2). exists R, t.
  apply (type_expression_sim _ (call_sim n)) in H1 as [_ H1]. destruct (H1 R) as [E1 C1]; [done|].
  split; [done|]. split; [|intros f ds d Hd; by apply (C1 f ds d)].
  destruct t; [|done]. intros _. unfold check_main in H2. destruct (main P) as [| | | | | | | |f args]; try discriminate.
  destruct (templates P !! f) as [D|] eqn:E; [|discriminate]. by exists f, args, D.
Qed.
End program.
