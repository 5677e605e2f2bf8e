(** The check of types does not panic when the check of names accepts the program. *)
From stdpp Require Import prelude gmap strings.
From Coq Require Import ZArith Lia.
From Verif Require Import TypeModel TypeProofs InferenceModel PanicSpec TypeSpec.
From Verif Require ScopeModel.
Open Scope string_scope.
Open Scope list_scope.
Open Scope nat_scope.
Import ScopeModel (symbol_in_environment, add_symbol_to_block, analyze_expression, analyze_statement).

Definition nopanic {A} (Q : A -> Prop) (x : res A) : Prop := match x with Done a _ _ => Q a | Panic => False | Deep => True end.
Definition np {A} (m : M A) (Q : A -> Prop) : Prop := forall r, nopanic Q (m r).
Lemma np_ret {A} (a : A) (Q : A -> Prop) : Q a -> np (mret a) Q.
Proof. by intros ? r. Qed.
Lemma np_bind {A B} (m : M A) (k : A -> M B) (Q : A -> Prop) (Q' : B -> Prop) :
  np m Q -> (forall a, Q a -> np (k a) Q') -> np (mbind k m) Q'.
Proof.
  intros Hm Hk r. specialize (Hm r). unfold mbind, M_bind. destruct (m r) as [a r1 p1| |]; cbn in Hm; try done.
  specialize (Hk a Hm r1). by destruct (k a r1).
Qed.
Lemma np_mono {A} (m : M A) (Q Q' : A -> Prop) : np m Q -> (forall a, Q a -> Q' a) -> np m Q'.
Proof. intros H HQ r. specialize (H r). destruct (m r); cbn in *; auto. Qed.
Lemma np_report c : np (add_report c) (fun _ => True). Proof. by intros r. Qed.
Lemma np_report_if b c : np (report_if b c) (fun _ => True). Proof. by destruct b; intros r. Qed.
Lemma np_end {A} c (Q : option A -> Prop) : Q None -> np (add_report_and_end c) Q. Proof. by intros ? r. Qed.
Lemma app_nil {A} (l m : list A) : l ++ m = [] -> l = [] /\ m = []. Proof. apply app_eq_nil. Qed.

Section program.
Context (P : program) (pub : list string).
Notation NP := (names_p P pub).
Notation ae := (analyze_expression NP).
Notation as_ := (analyze_statement NP).

Definition known (t : string) : Prop := is_Some (templates P !! t).
Definition global (E : env) (x : string) : Prop := is_Some (components E !! x) \/ is_Some (get_signal E x).
Definition found (E : env) (x : string) : Prop := global E x \/ is_Some (get_variable (blocks E) x).
Definition sees (S : ScopeModel.env) (E : env) : Prop := forall x, symbol_in_environment S x = true -> found E x.
Definition good (E : env) : Prop := forall x t d, components E !! x = Some (Some t, d) -> known t.
Definition okty (o : option ty) : Prop := forall t, o = Some (Templ t) -> known t.
Definition inv (S : ScopeModel.env) (E : env) : Prop :=
  Forall2 (fun (s : gset string) (b : gmap string nat) => forall x, x ∈ s -> is_Some (b !! x) \/ global E x) S (blocks E).

Lemma inv_sees S E : inv S E -> sees S E.
Proof.
  unfold inv, sees, found, symbol_in_environment. generalize (blocks E). intros bs H x.
  induction H as [|s b S' bs Hs H IH]; cbn; [done|]. intros Hx. apply orb_true_iff in Hx as [Hx|Hx].
  - apply bool_decide_eq_true in Hx. destruct (Hs x Hx) as [[v ->]|]; [right; by eexists|by left].
  - destruct (IH Hx) as [|H1]; [by left|]. right. destruct (b !! x); [by eexists|done].
Qed.

(** ** Accesses *)
Lemma np_tag E x n field : found E x -> np (check_if_it_is_a_tag E x n field) (fun _ => True).
Proof.
  intros Hx. unfold check_if_it_is_a_tag. destruct field; [|by apply np_ret].
  destruct (components E !! x) as [[c d]|] eqn:Ec; [destruct (d =? n); [by apply np_ret|by apply np_end]|].
  destruct (get_variable (blocks E) x) eqn:Ev; [by apply np_ret|].
  destruct (get_signal E x) eqn:Es; [by apply np_end|].
  exfalso. destruct Hx as [[[? Hx]|[? Hx]]|[? Hx]]; congruence.
Qed.
Definition oksym (E : env) (x : string) (s : option symbol_information) : Prop :=
  forall c, s = Some (SComponent c) -> exists d, components E !! x = Some (c, d).
Lemma np_access E x n field : found E x -> good E -> np (apply_access_to_symbol P E x n field) (oksym E x).
Proof.
  intros Hx Hg. unfold apply_access_to_symbol. eapply np_bind; [by apply np_tag|]. intros [[]|] _; [|by apply np_ret].
  destruct (match components E !! x with Some (_, d) => Some d | None => _ end) as [d|] eqn:Ed.
  2: { exfalso. destruct (components E !! x) as [[]|] eqn:Ec; [done|]. destruct (get_signal E x) eqn:Es; [done|].
       destruct Hx as [[[? Hx]|[? Hx]]|[? Hx]]; congruence. }
  destruct (d <? n); [by apply np_end|]. destruct field as [[f k]|].
  - destruct (0 <? d - n); [by apply np_end|]. destruct (components E !! x) as [[[t|] d']|] eqn:Ec; [|by apply np_end|by apply np_end].
    destruct (Hg _ _ _ Ec) as [T ->]. destruct (wire T f); [|by apply np_end]. destruct (_ <? _); [by apply np_end|by apply np_ret].
  - destruct (get_variable (blocks E) x); [by apply np_ret|]. destruct (get_signal E x); [by apply np_ret|].
    destruct (components E !! x) as [[c d']|] eqn:Ec; [|by apply np_end].
    destruct (d - n =? 0); [|by apply np_end]. apply np_ret. intros c' [= <-]. by eexists.
Qed.

(** ** Expressions *)
Section calls.
Context (call : string -> list nat -> M (option ty)).
Context (Hcall : forall f ds, ScopeModel.parameters_of NP f = Some (length ds) -> np (call f ds) okty).

Lemma np_array te l : Forall (fun e => np (te e) okty) l ->
  np (type_array te l) (fun o => forall ts, o = Some ts -> length ts = length l /\ forall t, Templ t ∈ ts -> known t).
Proof.
  induction 1 as [|e l He Hl IH]; cbn [type_array].
  { apply np_ret. intros ts [= <-]. split; [done|]. intros t Ht. by apply elem_of_nil in Ht. }
  eapply np_bind; [exact He|]. intros t Ht. eapply np_bind; [exact IH|]. intros ts Hts. apply np_ret.
  intros ts' E. destruct t as [t|]; [|done]. destruct ts as [ts|]; [|done]. injection E as <-.
  destruct (Hts ts eq_refl) as [H1 H2]. split; [by cbn; rewrite H1|]. intros t' [<-|Ht']%elem_of_cons; [by apply Ht|by apply H2].
Qed.
Lemma np_check_size t : np (check_size t) (fun _ => True).
Proof. unfold check_size. destruct (is_template t); [apply np_report|apply np_report_if]. Qed.
Lemma np_check_single t : np (check_single t) (fun _ => True).
Proof. unfold check_single. destruct (is_template t); [apply np_report|apply np_report_if]. Qed.
Lemma np_check_sizes l : np (check_sizes l) (fun _ => True).
Proof.
  induction l as [|t l IH]; cbn [check_sizes]; [by apply np_ret|]. eapply np_bind; [apply np_check_size|]. by intros _ _.
Qed.
Lemma np_indexes te l : Forall (fun e => np (te e) okty) l -> np (treat_indexes te l) (fun _ => True).
Proof.
  induction 1 as [|e l He Hl IH]; cbn [treat_indexes]; [by apply np_ret|].
  eapply np_bind; [exact He|]. intros t _. eapply np_bind; [|by intros _ _; exact IH]. destruct t; [apply np_check_size|by apply np_ret].
Qed.
Lemma np_treat_access te idx field : Forall (fun e => np (te e) okty) idx ->
  match field with None => True | Some (_, l) => Forall (fun e => np (te e) okty) l end ->
  np (treat_access te idx field) (fun _ => True).
Proof.
  intros H1 H2. unfold treat_access. eapply np_bind; [by apply np_indexes|]. intros _ _.
  destruct field as [[f l]|]; [|by apply np_ret]. eapply np_bind; [by apply np_indexes|]. intros _ _. by apply np_ret.
Qed.
Lemma np_elements d l : np (check_elements d l) (fun _ => True).
Proof.
  induction l as [|t l IH]; cbn [check_elements]; [by apply np_ret|].
  eapply np_bind; [|by intros _ _; exact IH]. destruct (is_template t); [apply np_report|apply np_report_if].
Qed.
Lemma np_arguments l : np (check_arguments l) (fun _ => True).
Proof.
  induction l as [|t l IH]; cbn [check_arguments]; [by apply np_ret|].
  eapply np_bind; [apply np_report_if|]. intros _ _. eapply np_bind; [exact IH|]. intros b _. by apply np_ret.
Qed.

Lemma list_reports S l : (fix go l := match l with [] => [] | e :: l => ae S e ++ go l end) (map names_e l) = [] ->
  Forall (fun e => ae S (names_e e) = []) l.
Proof.
  induction l as [|e l IH]; cbn; [constructor|]. intros [H1 H2]%app_nil. constructor; [done|by apply IH].
Qed.
Lemma access_reports S idx (field : option (string * list expr)) :
  (fix go acc := match acc with
     | [] => []
     | ScopeModel.ArrayAccess e :: acc => ae S e ++ go acc
     | ScopeModel.ComponentAccess _ :: acc => go acc
     end) (map (fun e => ScopeModel.ArrayAccess (names_e e)) idx ++
      match field with
      | None => []
      | Some (f, l) => ScopeModel.ComponentAccess f :: map (fun e => ScopeModel.ArrayAccess (names_e e)) l
      end) = [] ->
  Forall (fun e => ae S (names_e e) = []) idx /\ match field with None => True | Some (_, l) => Forall (fun e => ae S (names_e e) = []) l end.
Proof.
  induction idx as [|e l IH]; cbn.
  - intros H. split; [constructor|]. destruct field as [[f l]|]; [|done].
    induction l as [|e l IH]; cbn in *; [constructor|]. apply app_nil in H as [H1 H2]. constructor; [done|by apply IH].
  - intros [H1 H2]%app_nil. destruct (IH H2) as [H3 H4]. split; [|done]. by constructor.
Qed.

Lemma np_expression e S E : sees S E -> good E -> ae S (names_e e) = [] -> np (type_expression P call E e) okty.
Proof.
  intros HS HE. induction e using expr_ind'; intros Ha; cbn [type_expression]; cbn [names_e] in Ha; cbn [analyze_expression] in Ha.
  - by apply np_ret.
  - apply list_reports in Ha. assert (Forall (fun e => np (type_expression P call E e) okty) l) as Hl.
    { clear -H Ha. induction H; [constructor|]. apply Forall_cons in Ha as [? ?]. constructor; auto. }
    eapply np_bind; [by apply np_array|]. intros [[|t ts]|] Hts; [by apply np_end| |by apply np_ret].
    eapply np_bind; [apply np_elements|]. intros _ _. by apply np_ret.
  - apply app_nil in Ha as [H1 H2]. eapply np_bind; [by apply IHe1|]. intros [t|] _; [|by apply np_ret].
    eapply np_bind; [apply np_report_if|]. intros _ _. eapply np_bind; [by apply IHe2|]. intros [t'|] _; [|by apply np_ret].
    eapply np_bind; [apply np_report_if|]. intros _ _. by apply np_ret.
  - apply app_nil in Ha as [H1 H2]. eapply np_bind; [by apply IHe1|]. intros t1 _. eapply np_bind; [by apply IHe2|]. intros t2 _.
    destruct t1; [|by apply np_ret]. destruct t2; [|by apply np_ret].
    eapply np_bind; [apply np_report_if|]. intros _ _. eapply np_bind; [apply np_report_if|]. intros _ _. apply np_ret. by destruct (_ || _).
  - eapply np_bind; [by apply IHe|]. intros [t|] _; [|by apply np_ret]. destruct (not_number t); [by apply np_end|by apply np_ret].
  - eapply np_bind; [by apply IHe|]. intros [t|] Ht; [|by apply np_ret]. destruct (is_template t); [by apply np_ret|by apply np_end].
  - apply app_nil in Ha as [H1 Ha]. apply app_nil in Ha as [H2 H3].
    eapply np_bind; [by apply IHe1|]. intros t1 _. eapply np_bind; [by apply IHe2|]. intros t2 Ht2. eapply np_bind; [by apply IHe3|]. intros t3 _.
    destruct t2; [|by apply np_ret]. destruct t1; [|by apply np_ret]. eapply np_bind; [apply np_check_single|]. intros _ _.
    destruct t3; [|by apply np_ret]. eapply np_bind; [apply np_report_if|]. intros _ _. by apply np_ret.
  - apply app_nil in Ha as [H1 Ha]. apply access_reports in Ha as [H2 H3].
    assert (found E x) as Hx. { apply HS. by destruct (symbol_in_environment S x). }
    eapply np_bind; [apply np_treat_access|].
    { clear -H H2. induction H; [constructor|]. apply Forall_cons in H2 as [? ?]. constructor; auto. }
    { destruct field as [[f l]|]; [|done]. clear -H0 H3. induction H0; [constructor|]. apply Forall_cons in H3 as [? ?]. constructor; auto. }
    intros [n fl] _. eapply np_bind; [by apply np_access|]. intros s Hs.
    destruct s as [[[t|]|d|d]|]; [|by apply np_end|by apply np_ret..]. apply np_ret. intros t' [= <-].
    destruct (Hs _ eq_refl) as [d Hd]. by eapply HE.
  - destruct (ScopeModel.parameters_of NP f) as [n|] eqn:En; [|done]. destruct (decide _) as [El|]; [|done].
    apply list_reports in Ha.
    assert (okty match templates P !! f with Some _ => Some (Templ f) | None => None end) as Hf.
    { intros t Ht. destruct (templates P !! f) eqn:Ef; [|done]. injection Ht as <-. by eexists. }
    eapply np_bind; [apply np_array|].
    { clear -H Ha. induction H; [constructor|]. apply Forall_cons in Ha as [? ?]. constructor; auto. }
    intros [ts|] Hts; [|by apply np_ret]. eapply np_bind; [apply np_arguments|]. intros b _.
    destruct b; [|by apply np_ret]. apply Hcall. rewrite fmap_length. destruct (Hts ts eq_refl) as [-> _].
    by rewrite En, <- El, map_length.
Qed.
Lemma np_expressions l S E : sees S E -> good E -> Forall (fun e => ae S (names_e e) = []) l ->
  Forall (fun e => np (type_expression P call E e) okty) l.
Proof. intros HS HE H. induction H; constructor; [by eapply np_expression|done]. Qed.

(** ** Statements *)
Lemma declared_inv S S' E k x d : inv S E -> add_symbol_to_block S x = (S', true) -> inv S' (declare E k x d).
Proof.
  unfold inv. intros HI Ha. destruct S as [|s S]; [done|]. cbn in Ha. destruct (decide (x ∈ s)); [done|]. injection Ha as <-.
  apply Forall2_cons_inv_l in HI as (b & bs & Hb & Hbs & EB).
  assert (forall y, global E y -> global (declare E k x d) y) as Hg.
  { intros y [[v Hy]|[v Hy]]; destruct k as [|[]|c]; cbn [declare]; unfold add_variable; try rewrite EB;
      unfold global, get_signal in *; cbn; rewrite ?Hy; try (left; by eexists).
    all: try (destruct (decide (x = y)) as [<-|Hne]; [rewrite ?lookup_insert|rewrite ?lookup_insert_ne by done; rewrite ?Hy]).
    all: try (left; by eexists). all: try (right; by eexists).
    all: right; destruct (inputs E !! _); try (by eexists); destruct (outputs E !! _); try (by eexists). }
  assert (Forall2 (fun (s : gset string) (b : gmap string nat) => forall y, y ∈ s -> is_Some (b !! y) \/ global (declare E k x d) y) S bs) as Hbs'.
  { eapply Forall2_impl; [exact Hbs|]. intros s' b' H y Hy. destruct (H y Hy); [by left|right; by apply Hg]. }
  destruct k as [|io|c].
  - cbn [declare] in *. unfold add_variable in *. rewrite EB in *. cbn in *. constructor; [|done].
    intros y Hy. destruct (decide (x = y)) as [<-|Hne]; [left; rewrite lookup_insert; by eexists|].
    apply elem_of_union in Hy as [Hy|Hy]; [by apply elem_of_singleton in Hy|].
    rewrite lookup_insert_ne by done. destruct (Hb y Hy); [by left|right; by apply Hg].
  - assert (blocks (declare E (KSignal io) x d) = b :: bs) as -> by (by destruct io). constructor; [|done].
    intros y Hy. apply elem_of_union in Hy as [->%elem_of_singleton|Hy]; [|destruct (Hb y Hy); [by left|right; by apply Hg]].
    right. right. unfold get_signal. destruct io; cbn; rewrite ?lookup_insert; [by eexists| |]; destruct (inputs E !! x); try by eexists.
    destruct (outputs E !! x); by eexists.
  - cbn [declare blocks]. rewrite EB. constructor; [|done].
    intros y Hy. apply elem_of_union in Hy as [->%elem_of_singleton|Hy]; [|destruct (Hb y Hy); [by left|right; by apply Hg]].
    right. left. cbn. rewrite lookup_insert. by eexists.
Qed.
Lemma declared_good E k x d : good E -> (forall t, k = KComponent (Some t) -> known t) -> good (declare E k x d).
Proof.
  intros HE Hk y t e. destruct k as [|[]|c]; cbn [declare]; unfold add_variable; try apply HE; [destruct (blocks E); apply HE|].
  cbn. destruct (decide (x = y)) as [<-|Hne]; [|rewrite lookup_insert_ne by done; apply HE].
  rewrite lookup_insert. intros [= -> <-]. by apply Hk.
Qed.
Lemma set_inv S E x t d : inv S E -> inv S (set_component E x t d).
Proof.
  intros H. eapply Forall2_impl; [exact H|]. cbn. intros s b Hs y Hy. destruct (Hs y Hy) as [|Hg]; [by left|]. right.
  destruct Hg as [[v Hg]|Hg]; [|by right]. left. cbn.
  destruct (decide (x = y)) as [<-|Hne]; [rewrite lookup_insert|rewrite lookup_insert_ne by done]; by eexists.
Qed.
Lemma set_good E x t d : good E -> known t -> good (set_component E x t d).
Proof.
  intros HE Ht y t' e. cbn. destruct (decide (x = y)) as [<-|Hne]; [|rewrite lookup_insert_ne by done; apply HE].
  rewrite lookup_insert. by intros [= <- <-].
Qed.
(** the templates of the components declared in a statement exist *)
Definition templates_known (s : stmt) : Prop := forall t x d, (KComponent (Some t), x, d) ∈ declarations s -> known t.

Context (ret : option nat).
Definition holds (S : ScopeModel.env) (E : env) : Prop := inv S E /\ good E.
Definition silent (s : stmt) : Prop := forall S S' E, holds S E -> as_ (names_s s) S = (S', []) ->
  written s = true -> (ret = None -> free_of_returns s = true) -> templates_known s ->
  np (type_statement P call ret E s) (holds S').
Lemma initial_free s : initial s = true -> free_of_returns s = true.
Proof.
  induction s using stmt_ind'; try done. cbn [initial free_of_returns]. intros Hi.
  induction H as [|s l Hs Hl IH]; [done|]. cbn in *. apply andb_true_iff in Hi as [H1 H2]. rewrite (Hs H1). by apply IH.
Qed.
Lemma np_sequence l : Forall silent l -> forall S S' E, holds S E ->
  (fix go (l : list ScopeModel.stmt) (E : ScopeModel.env) := match l with
    | [] => (E, [])
    | s :: l => let '(E1, r1) := as_ s E in let '(E2, r2) := go l E1 in (E2, r1 ++ r2)
    end) (map names_s l) S = (S', []) ->
  forallb written l = true -> (ret = None -> forallb free_of_returns l = true) -> Forall templates_known l ->
  np (treat_sequence P call ret E l) (holds S').
Proof.
  induction 1 as [|s l Hs Hl IH]; intros S S' E HS Ha Hw Hr Ht; cbn [treat_sequence].
  - cbn in Ha. injection Ha as <-. by apply np_ret.
  - cbn in Ha. destruct (as_ (names_s s) S) as [S1 r1] eqn:E1.
    match type of Ha with (let '(_, _) := ?x in _) = _ => destruct x as [S2 r2] eqn:E2 end. injection Ha as <- [-> ->]%app_nil.
    cbn in Hw. apply andb_true_iff in Hw as [Hw1 Hw2]. apply Forall_cons in Ht as [Ht1 Ht2].
    eapply np_bind; [apply (Hs S S1 E)|]; try done; [intros Hn; specialize (Hr Hn); cbn in Hr; by apply andb_true_iff in Hr as [? ?]|].
    intros E' HE'. apply (IH S1); try done. intros Hn; specialize (Hr Hn); cbn in Hr; by apply andb_true_iff in Hr as [? ?].
Qed.
Lemma known_list l : (forall t x d, (KComponent (Some t), x, d) ∈ flat_map declarations l -> known t) -> Forall templates_known l.
Proof.
  intros H. apply Forall_forall. intros s Hs t x d Ha. apply (H t x d). apply elem_of_list_In, in_flat_map. exists s.
  split; by apply elem_of_list_In.
Qed.
Lemma np_log te l : Forall (fun e => np (te e) okty) l -> np (type_log te l) (fun _ => True).
Proof.
  induction 1 as [|e l He Hl IH]; cbn [type_log]; [by apply np_ret|]. eapply np_bind; [exact He|]. intros [t|] _; [|by apply np_ret].
  eapply np_bind; [apply np_check_single|]. by intros _ _.
Qed.
Lemma np_condition (o : option ty) : np match o with None => mret tt | Some t => check_single t end (fun _ => True).
Proof. destruct o; [apply np_check_single|by apply np_ret]. Qed.
Lemma expressions_reports S l : ScopeModel.analyze_expressions NP S (map names_e l) = [] -> Forall (fun e => ae S (names_e e) = []) l.
Proof.
  unfold ScopeModel.analyze_expressions. induction l as [|e l IH]; cbn; [constructor|]. intros [H1 H2]%app_nil. constructor; [done|by apply IH].
Qed.
Lemma omap_some {A} (f : expr -> A) (m : list expr) : omap id (map (fun e => Some (f e)) m) = map f m.
Proof. induction m as [|e m IH]; cbn; [done|]. by rewrite <- IH. Qed.

Lemma np_statement s : silent s.
Proof.
  induction s using stmt_ind'; intros S S' E HS Ha Hw Hr Ht; pose proof HS as [HI HG]; pose proof (inv_sees _ _ HI) as HV;
    cbn [type_statement]; cbn [names_s] in Ha; cbn [analyze_statement] in Ha; cbn [written] in Hw; cbn [free_of_returns] in Hr.
  - destruct (as_ (names_s s) S) as [S1 r1] eqn:E1. apply andb_true_iff in Hw as [Hw Hw3]. apply andb_true_iff in Hw as [Hw1 Hw2].
    assert (templates_known s) as Ht1. { intros t x d Ha'. apply (Ht t x d). cbn. apply elem_of_app. by left. }
    assert (ret = None -> free_of_returns s = true) as Hr1 by (intros Hn; specialize (Hr Hn); by apply andb_true_iff in Hr as [? ?]).
    destruct f as [f|].
    + destruct (as_ (names_s f) S1) as [S2 r2] eqn:E2. injection Ha as <- Ha. apply app_nil in Ha as [H1 Ha]. apply app_nil in Ha as [-> ->].
      assert (templates_known f) as Ht2. { intros t x d Ha'. apply (Ht t x d). cbn. apply elem_of_app. by right. }
      assert (ret = None -> free_of_returns f = true) as Hr2 by (intros Hn; specialize (Hr Hn); by apply andb_true_iff in Hr as [? ?]).
      eapply np_bind; [by eapply np_expression|]. intros o _. eapply np_bind; [by apply (IHs S S1)|]. intros E' HE'.
      eapply np_bind; [by apply (H S1 S2)|]. intros E'' HE''. eapply np_bind; [apply np_condition|]. intros _ _. by apply np_ret.
    + injection Ha as <- Ha. apply app_nil in Ha as [H1 ->].
      eapply np_bind; [by eapply np_expression|]. intros o _. eapply np_bind; [by apply (IHs S S1)|]. intros E' HE'.
      eapply (np_bind _ _ (holds S1)); [by apply np_ret|]. intros E'' HE''. eapply np_bind; [apply np_condition|]. intros _ _. by apply np_ret.
  - destruct (as_ (names_s s) S) as [S1 r1] eqn:E1. injection Ha as <- [H1 ->]%app_nil. apply andb_true_iff in Hw as [Hw1 Hw2].
    eapply np_bind; [by eapply np_expression|]. intros o _. eapply np_bind; [by apply (IHs S S1)|]. intros E' HE'.
    eapply np_bind; [apply np_condition|]. intros _ _. by apply np_ret.
  - injection Ha as <- Ha. eapply np_bind; [by eapply np_expression|]. intros [t|] _; [|by apply np_ret].
    destruct ret; [|by specialize (Hr eq_refl)]. eapply np_bind; [apply np_report_if|]. intros _ _. by apply np_ret.
  - apply andb_true_iff in Hw as [Hw1 Hw2]. apply (np_sequence l H S S' E HS Ha Hw2); [|by apply known_list].
    intros _. clear -Hw1. induction l as [|s l IH]; [done|]. cbn in *. apply andb_true_iff in Hw1 as [H1 H2].
    rewrite initial_free by done. by apply IH.
  - destruct (add_symbol_to_block S x) as [S1 ok] eqn:E1. injection Ha as <- Ha. apply app_nil in Ha as [H1 Ha]. apply app_nil in Ha as [H2 _].
    destruct ok; [|done]. apply expressions_reports in H1.
    eapply np_bind; [apply np_array; by eapply np_expressions|]. intros ts _. eapply np_bind; [apply np_check_sizes|]. intros _ _.
    apply np_ret. split; [by eapply declared_inv|]. apply declared_good; [done|]. intros t ->. apply (Ht t x (length ds)). by left.
  - injection Ha as <- Ha. apply app_nil in Ha as [H1 Ha]. cbn [analyze_expression] in Ha. apply app_nil in Ha as [H2 Ha].
    apply access_reports in Ha as [H3 H4]. assert (found E x) as Hx. { apply HV. by destruct (symbol_in_environment S x). }
    eapply np_bind; [by eapply np_expression|]. intros [t|] Hot; [|by apply np_ret].
    eapply np_bind; [apply np_treat_access; [by eapply np_expressions|]|].
    { destruct field as [[f l]|]; [|done]. by eapply np_expressions. }
    intros [n fl] _. eapply np_bind; [by apply np_access|]. intros [s|] Hs; [|by apply np_ret].
    destruct (operator_error s o); [eapply np_bind; [apply np_report|]; intros _ _; by apply np_ret|].
    unfold type_substitution. destruct s as [c|d|d].
    + destruct t as [d|t]; [destruct c; (eapply np_bind; [apply np_report|]; intros _ _; by apply np_ret)|].
      destruct c as [c|]; [eapply np_bind; [apply np_report_if|]; intros _ _; by apply np_ret|].
      destruct (Hs _ eq_refl) as [d ->]. apply np_ret. split; [by apply set_inv|]. apply set_good; [done|]. by apply Hot.
    + eapply np_bind; [|intros _ _; by apply np_ret]. destruct (is_template t); [apply np_report|apply np_report_if].
    + eapply np_bind; [|intros _ _; by apply np_ret]. destruct (is_template t); [apply np_report|apply np_report_if].
  - injection Ha as <- Ha. eapply np_bind; [by eapply np_expression|]. intros [t|] _.
    + eapply np_bind; [apply np_report_if|]. intros _ _. by apply np_ret.
    + eapply (np_bind _ _ (fun _ => True)); [by apply np_ret|]. intros _ _. by apply np_ret.
  - injection Ha as <- [H1 H2]%app_nil. eapply np_bind; [by eapply np_expression|]. intros t1 _. eapply np_bind; [by eapply np_expression|].
    intros t2 _. destruct t1; [|by apply np_ret]. destruct t2; [|by apply np_ret].
    do 3 (eapply np_bind; [apply np_report_if|]; intros _ _). by apply np_ret.
  - injection Ha as <- Ha. rewrite (omap_some names_e) in Ha. apply expressions_reports in Ha.
    eapply np_bind; [apply np_log; by eapply np_expressions|]. intros _ _. by apply np_ret.
  - match type of Ha with (let '(_, _) := ?x in _) = _ => destruct x as [S1 r1] eqn:E1 end. injection Ha as <- ->.
    eapply np_bind.
    + apply (np_sequence l H (∅ :: S) S1 (add_block E)); try done; [|by apply known_list].
      split; [|exact HG]. constructor; [|exact HI]. intros x Hx. by apply elem_of_empty in Hx.
    + intros E' [HI' HG']. apply np_ret. split; [|exact HG']. unfold inv in *. cbn.
      destruct HI' as [|? ? ? ? ? HI']; [constructor|]. exact HI'.
  - injection Ha as <- Ha. eapply np_bind; [by eapply np_expression|]. intros o _. eapply np_bind; [apply np_condition|]. intros _ _. by apply np_ret.
Qed.
End calls.

(** ** The dimensions of results *)
Definition ginv (S : ScopeModel.env) (bs : list (gmap string nat)) : Prop :=
  Forall2 (fun (s : gset string) (b : gmap string nat) => forall x, x ∈ s -> is_Some (b !! x)) S bs.
Lemma ginv_sees S bs x : ginv S bs -> symbol_in_environment S x = true -> is_Some (get_variable bs x).
Proof.
  unfold symbol_in_environment. induction 1 as [|s b S' bs Hs H IH]; cbn; [done|]. intros Hx. apply orb_true_iff in Hx as [Hx|Hx].
  - apply bool_decide_eq_true in Hx. destruct (Hs x Hx) as [v ->]. by eexists.
  - destruct (b !! x); [by eexists|by apply IH].
Qed.
Section given.
Context (start : string -> gset string -> list nat -> option (option nat * gset string)) (X0 : gset string).
Context (Hstart : forall f F X ds, functions P !! f = Some F -> length ds = length (params F) -> f ∉ X0 -> X0 ⊆ X ->
  exists t X', start f X ds = Some (t, X') /\ X ⊆ X').

Definition typed (bs : list (gmap string nat)) (e : expr) : Prop :=
  forall X, X0 ⊆ X -> exists t X', look_for_type start bs e X = Some (t, X') /\ X ⊆ X'.
Lemma given_typed bs l : Forall (typed bs) l -> forall X, X0 ⊆ X ->
  exists ts X', given_arguments (look_for_type start bs) l X = Some (ts, X') /\ X ⊆ X' /\ forall ds, ts = Some ds -> length ds = length l.
Proof.
  induction 1 as [|e l He Hl IH]; intros X HX; cbn [given_arguments].
  { eexists _, _. split; [done|]. split; [done|]. by intros ds [= <-]. }
  destruct (He X HX) as (t & X1 & -> & H1). cbn [obind].
  destruct t as [t|]; [|eexists _, _; by split].
  destruct (IH X1) as (ts & X2 & -> & H2 & H3); [by etrans|]. cbn [obind]. eexists _, _. split; [done|]. split; [by etrans|].
  intros ds Hds. destruct ts as [ts|]; [|done]. injection Hds as <-. cbn. f_equal. by apply H3.
Qed.
Lemma expression_typed S bs e : ginv S bs -> ae S (names_e e) = [] -> written_e e = true -> free_expr P e = true -> typed bs e.
Proof.
  intros HB. induction e using expr_ind'; intros Ha Hw Hf X HX; cbn [look_for_type]; cbn [names_e] in Ha; cbn [analyze_expression] in Ha;
    cbn [written_e] in Hw; cbn [free_expr] in Hf.
  - eexists _, _. by split.
  - destruct l as [|e l]; [done|]. cbn in Ha, Hw, Hf. apply app_nil in Ha as [Ha _]. apply andb_true_iff in Hw as [Hw _]. apply andb_true_iff in Hf as [Hf _].
    apply Forall_cons in H as [He _]. destruct (He Ha Hw Hf X HX) as (t & X1 & -> & H1). eexists _, _. by split.
  - apply app_nil in Ha as [Ha _]. apply andb_true_iff in Hw as [Hw _]. apply andb_true_iff in Hf as [Hf _].
    destruct (IHe1 Ha Hw Hf X HX) as (t & X1 & -> & H1). eexists _, _. by split.
  - apply app_nil in Ha as [Ha Ha2]. apply andb_true_iff in Hw as [Hw Hw2]. apply andb_true_iff in Hf as [Hf Hf2].
    destruct (IHe1 Ha Hw Hf X HX) as (t & X1 & -> & H1). cbn [obind]. destruct t; [eexists _, _; by split|].
    destruct (IHe2 Ha2 Hw2 Hf2 X1) as (t & X2 & -> & H2); [by etrans|]. eexists _, _. split; [done|by etrans].
  - by apply IHe.
  - by apply IHe.
  - apply app_nil in Ha as [_ Ha]. apply app_nil in Ha as [Ha Ha2]. apply andb_true_iff in Hw as [Hw Hw2]. apply andb_true_iff in Hw as [_ Hw].
    apply andb_true_iff in Hf as [Hf Hf2]. apply andb_true_iff in Hf as [_ Hf].
    destruct (IHe2 Ha Hw Hf X HX) as (t & X1 & -> & H1). cbn [obind]. destruct t; [eexists _, _; by split|].
    destruct (IHe3 Ha2 Hw2 Hf2 X1) as (t & X2 & -> & H2); [by etrans|]. eexists _, _. split; [done|by etrans].
  - apply app_nil in Ha as [Ha _]. destruct (ginv_sees S bs x HB) as [d ->]; [by destruct (symbol_in_environment S x)|].
    cbn [obind]. eexists _, _. by split.
  - destruct (decide (f ∈ X)); [eexists _, _; by split|].
    destruct (ScopeModel.parameters_of NP f) as [n'|] eqn:En; [|done]. destruct (decide _) as [El|]; [|done].
    apply list_reports in Ha. apply andb_true_iff in Hf as [Hf Hf2]. unfold is_function in Hf.
    destruct (functions P !! f) as [F|] eqn:EF; [|done].
    assert (length args = length (params F)) as HL.
    { unfold ScopeModel.parameters_of in En. cbn in En. rewrite lookup_fmap, EF in En. cbn in En. injection En as <-. by rewrite <- El, map_length. }
    destruct (given_typed bs args) with (X := X) as (ts & X1 & -> & H1 & H2); [|done|].
    { clear -H Ha Hw Hf2. induction H as [|e l He Hl IH]; [constructor|]. cbn in *. apply Forall_cons in Ha as [? ?].
      apply andb_true_iff in Hw as [? ?]. apply andb_true_iff in Hf2 as [? ?]. constructor; [by apply He|by apply IH]. }
    cbn [obind]. destruct ts as [ts|]; [|eexists _, _; by split].
    destruct (Hstart f F X1 ts EF) as (t & X2 & -> & H3); [by rewrite H2|set_solver|by etrans|]. eexists _, _. split; [done|by etrans].
Qed.

Definition returns_typed (s : stmt) : Prop := forall S S' bs X, ginv S bs -> as_ (names_s s) S = (S', []) ->
  written s = true -> free_of_template_elements P s = true -> X0 ⊆ X ->
  exists d bs' X', look_for_return start bs s X = Some (d, bs', X') /\ X ⊆ X' /\ (d = None -> ginv S' bs') /\ (initial s = true -> d = None).
Lemma declared_ginv S S' bs x d : ginv S bs -> add_symbol_to_block S x = (S', true) ->
  exists b bs', bs = b :: bs' /\ ginv S' (<[x := d]> b :: bs').
Proof.
  unfold ginv. intros HI Ha. destruct S as [|s S]; [done|]. cbn in Ha. destruct (decide (x ∈ s)); [done|]. injection Ha as <-.
  apply Forall2_cons_inv_l in HI as (b & bs' & Hb & Hbs & ->). eexists _, _. split; [done|]. constructor; [|done].
  intros y Hy. destruct (decide (x = y)) as [<-|Hne]; [rewrite lookup_insert; by eexists|]. rewrite lookup_insert_ne by done.
  apply Hb. set_solver.
Qed.
Lemma block_typed l : Forall returns_typed l -> forall S S' bs X, ginv S bs ->
  (fix go (l : list ScopeModel.stmt) (E : ScopeModel.env) := match l with
    | [] => (E, [])
    | s :: l => let '(E1, r1) := as_ s E in let '(E2, r2) := go l E1 in (E2, r1 ++ r2)
    end) (map names_s l) S = (S', []) ->
  forallb written l = true -> forallb (free_of_template_elements P) l = true -> X0 ⊆ X ->
  exists d bs' X', (fix go bs l X := match l with
      | [] => Some (None, bs, X)
      | s :: l => obind (look_for_return start bs s X) (fun '(d, bs, X) => match d with Some d => Some (Some d, bs, X) | None => go bs l X end)
      end) bs l X = Some (d, bs', X') /\ X ⊆ X' /\ (d = None -> ginv S' bs') /\ (forallb initial l = true -> d = None).
Proof.
  induction 1 as [|s l Hs Hl IH]; intros S S' bs X HS Ha Hw Hf HX.
  - cbn in Ha. injection Ha as <-. eexists _, _, _. split; [done|]. done.
  - cbn in Ha. destruct (as_ (names_s s) S) as [S1 r1] eqn:E1.
    match type of Ha with (let '(_, _) := ?x in _) = _ => destruct x as [S2 r2] eqn:E2 end. injection Ha as <- [-> ->]%app_nil.
    cbn in Hw, Hf. apply andb_true_iff in Hw as [Hw1 Hw2]. apply andb_true_iff in Hf as [Hf1 Hf2].
    destruct (Hs S S1 bs X) as (d & bs1 & X1 & E3 & H1 & H2 & H3); try done. rewrite E3. cbn [obind].
    destruct d as [d|].
    + eexists _, _, _. split; [done|]. split; [done|]. split; [done|]. cbn. intros [Hi _]%andb_true_iff. by specialize (H3 Hi).
    + destruct (IH S1 S2 bs1 X1) as (d & bs2 & X2 & E4 & H4 & H5 & H6); try done; [by apply H2|by etrans|].
      eexists _, _, _. split; [exact E4|]. split; [by etrans|]. split; [done|]. cbn. intros [_ Hi]%andb_true_iff. by apply H6.
Qed.
Lemma initialization_typed l : Forall returns_typed l -> forall S S' bs X, ginv S bs ->
  (fix go (l : list ScopeModel.stmt) (E : ScopeModel.env) := match l with
    | [] => (E, [])
    | s :: l => let '(E1, r1) := as_ s E in let '(E2, r2) := go l E1 in (E2, r1 ++ r2)
    end) (map names_s l) S = (S', []) ->
  forallb initial l = true -> forallb written l = true -> forallb (free_of_template_elements P) l = true -> X0 ⊆ X ->
  exists bs' X', (fix go bs l X := match l with
      | [] => Some (bs, X)
      | s :: l => obind (look_for_return start bs s X) (fun '(_, bs, X) => go bs l X)
      end) bs l X = Some (bs', X') /\ X ⊆ X' /\ ginv S' bs'.
Proof.
  induction 1 as [|s l Hs Hl IH]; intros S S' bs X HS Ha Hi Hw Hf HX.
  - cbn in Ha. injection Ha as <-. eexists _, _. split; [done|]. done.
  - cbn in Ha. destruct (as_ (names_s s) S) as [S1 r1] eqn:E1.
    match type of Ha with (let '(_, _) := ?x in _) = _ => destruct x as [S2 r2] eqn:E2 end. injection Ha as <- [-> ->]%app_nil.
    cbn in Hi, Hw, Hf. apply andb_true_iff in Hi as [Hi1 Hi2]. apply andb_true_iff in Hw as [Hw1 Hw2]. apply andb_true_iff in Hf as [Hf1 Hf2].
    destruct (Hs S S1 bs X) as (d & bs1 & X1 & E3 & H1 & H2 & H3); try done. rewrite E3. cbn [obind].
    destruct (IH S1 S2 bs1 X1) as (bs2 & X2 & E4 & H4 & H5); try done; [by apply H2, H3|by etrans|].
    eexists _, _. split; [exact E4|]. split; [by etrans|done].
Qed.
Lemma statement_typed s : returns_typed s.
Proof.
  induction s using stmt_ind'; intros S S' bs X HS Ha Hw Hf HX; cbn [look_for_return]; cbn [names_s] in Ha; cbn [analyze_statement] in Ha;
    cbn [written] in Hw; cbn [free_of_template_elements] in Hf; cbn [initial].
  - destruct (as_ (names_s s) S) as [S1 r1] eqn:E1. apply andb_true_iff in Hw as [Hw Hw3]. apply andb_true_iff in Hw as [Hw1 Hw2].
    apply andb_true_iff in Hf as [Hf Hf3]. apply andb_true_iff in Hf as [Hf1 Hf2]. destruct f as [f|].
    + destruct (as_ (names_s f) S1) as [S2 r2] eqn:E2. injection Ha as <- Ha. apply app_nil in Ha as [H1 Ha]. apply app_nil in Ha as [-> ->].
      destruct (IHs S S1 bs X) as (d & bs1 & X1 & E3 & H2 & H3 & _); try done. rewrite E3. cbn [obind].
      destruct d as [d|]; [eexists _, _, _; by split|].
      destruct (H S1 S2 bs1 X1) as (d & bs2 & X2 & E4 & H4 & H5 & _); try done; [by apply H3|by etrans|].
      eexists _, _, _. split; [exact E4|]. split; [by etrans|]. done.
    + injection Ha as <- Ha. apply app_nil in Ha as [H1 ->].
      destruct (IHs S S1 bs X) as (d & bs1 & X1 & E3 & H2 & H3 & _); try done. rewrite E3. cbn [obind].
      destruct d as [d|]; eexists _, _, _; by split.
  - destruct (as_ (names_s s) S) as [S1 r1] eqn:E1. injection Ha as <- [H1 ->]%app_nil. apply andb_true_iff in Hw as [Hw1 Hw2].
    apply andb_true_iff in Hf as [Hf1 Hf2].
    destruct (IHs S S1 bs X) as (d & bs1 & X1 & E3 & H2 & H3 & _); try done. eexists _, _, _. split; [exact E3|]. done.
  - injection Ha as <- Ha. destruct (expression_typed S bs e HS Ha Hw Hf X HX) as (t & X1 & -> & H1). cbn [obind].
    eexists _, _, _. split; [done|]. done.
  - apply andb_true_iff in Hw as [Hw1 Hw2]. assert (forallb (free_of_template_elements P) l = true) as Hf' by (by destruct k).
    destruct (initialization_typed l H S S' bs X HS Ha Hw1 Hw2 Hf' HX) as (bs1 & X1 & E1 & H1 & H2).
    rewrite E1. cbn [obind]. eexists _, _, _. split; [done|]. done.
  - destruct (add_symbol_to_block S x) as [S1 ok] eqn:E1. injection Ha as <- Ha. apply app_nil in Ha as [H1 Ha]. apply app_nil in Ha as [H2 _].
    destruct ok; [|done]. destruct (declared_ginv _ _ bs x (length ds) HS E1) as (b & bs' & -> & H3). eexists _, _, _. split; [done|]. done.
  - injection Ha as <- Ha. eexists _, _, _. by split.
  - injection Ha as <- Ha. eexists _, _, _. by split.
  - done.
  - injection Ha as <- Ha. eexists _, _, _. by split.
  - match type of Ha with (let '(_, _) := ?x in _) = _ => destruct x as [S1 r1] eqn:E1 end. injection Ha as <- ->.
    destruct (block_typed l H (∅ :: S) S1 (∅ :: bs) X) as (d & bs1 & X1 & E2 & H1 & H2 & H3); try done.
    { constructor; [|done]. intros x Hx. by apply elem_of_empty in Hx. }
    rewrite E2. cbn [obind]. eexists _, _, _. split; [done|]. split; [done|]. split; [|done]. intros Hd. specialize (H2 Hd). unfold ginv in *.
    destruct H2 as [|? ? ? ? ? H2]; [constructor|exact H2].
  - injection Ha as <- Ha. eexists _, _, _. by split.
Qed.
Lemma body_typed l : forall S S' bs X, ginv S bs -> ScopeModel.analyze_sequence NP (map names_s l) S = (S', []) ->
  forallb written l = true -> forallb (free_of_template_elements P) l = true -> X0 ⊆ X ->
  exists d X', look_for_return_value start bs l X = Some (d, X') /\ X ⊆ X'.
Proof.
  induction l as [|s l IH]; intros S S' bs X HS Ha Hw Hf HX; cbn [look_for_return_value].
  - eexists _, _. by split.
  - cbn [map ScopeModel.analyze_sequence] in Ha. destruct (as_ (names_s s) S) as [S1 r1] eqn:E1.
    destruct (ScopeModel.analyze_sequence NP (map names_s l) S1) as [S2 r2] eqn:E2. injection Ha as <- [-> ->]%app_nil.
    cbn in Hw, Hf. apply andb_true_iff in Hw as [Hw1 Hw2]. apply andb_true_iff in Hf as [Hf1 Hf2].
    destruct (statement_typed s S S1 bs X) as (d & bs1 & X1 & E3 & H1 & H2 & _); try done. rewrite E3. cbn [obind].
    destruct d as [d|]; [eexists _, _; by split|].
    destruct (IH S1 S2 bs1 X1) as (d & X2 & E4 & H4); try done; [by apply H2|by etrans|]. eexists _, _. split; [exact E4|by etrans].
Qed.
End given.

(** ** Calls *)
Lemma declared_variables s : free_of_template_elements P s = true -> forall k x d, (KComponent k, x, d) ∈ declarations s -> False.
Proof.
  assert (forall l, Forall (fun s => free_of_template_elements P s = true -> forall k x d, (KComponent k, x, d) ∈ declarations s -> False) l ->
    forallb (free_of_template_elements P) l = true -> forall k x d, (KComponent k, x, d) ∈ flat_map declarations l -> False) as Hl.
  { induction 1 as [|s' l Hs Hl IH]; cbn; intros Hf k x d Ha; [by apply elem_of_nil in Ha|].
    apply andb_true_iff in Hf as [Hf1 Hf2]. apply elem_of_app in Ha as [Ha|Ha]; [by eapply Hs|by eapply IH]. }
  induction s using stmt_ind'; cbn [free_of_template_elements declarations]; intros Hf k' y d Ha; try by apply elem_of_nil in Ha.
  - apply andb_true_iff in Hf as [Hf Hf2]. apply andb_true_iff in Hf as [_ Hf]. apply elem_of_app in Ha as [Ha|Ha]; [by eapply IHs|].
    destruct f; [by eapply H|by apply elem_of_nil in Ha].
  - apply andb_true_iff in Hf as [_ Hf]. by eapply IHs.
  - apply (Hl l H) in Ha; [done|]. by destruct k.
  - apply elem_of_list_singleton in Ha. injection Ha as <- _ _. done.
  - by apply (Hl l H) in Ha.
Qed.
Lemma parameters_block ps : forall s S, ScopeModel.add_parameters ps [s] = (S, false) ->
  exists s', S = [s'] /\ forall x, x ∈ s' -> x ∈ ps \/ x ∈ s.
Proof.
  induction ps as [|p ps IH]; intros s S H; cbn [ScopeModel.add_parameters] in H.
  - injection H as <-. exists s. split; [done|]. by right.
  - cbn [add_symbol_to_block] in H. destruct (decide (p ∈ s)).
    + destruct (ScopeModel.add_parameters ps [s]). done.
    + destruct (ScopeModel.add_parameters ps [{[p]} ∪ s]) as [S2 c] eqn:E. injection H as <- ->.
      destruct (IH _ _ E) as (s' & -> & Hs). exists s'. split; [done|]. intros x Hx. destruct (Hs x Hx) as [|Hx']; [left; by right|].
      apply elem_of_union in Hx' as [->%elem_of_singleton|]; [left; by left|by right].
Qed.
Lemma bind_found xs : forall ds (b : gmap string nat) x, length ds = length xs -> x ∈ xs \/ is_Some (b !! x) ->
  is_Some (foldl (fun b '(x, d) => <[x := d]> b) b (zip xs ds) !! x).
Proof.
  induction xs as [|y xs IH]; intros ds b x Hl Hx.
  - destruct Hx as [Hx|]; [by apply elem_of_nil in Hx|done].
  - destruct ds as [|d ds]; [done|]. cbn [zip zip_with foldl]. apply IH; [by injection Hl|].
    destruct (decide (x ∈ xs)); [by left|]. right. destruct (decide (y = x)) as [<-|Hne]; [rewrite lookup_insert; by eexists|].
    rewrite lookup_insert_ne by done. destruct Hx as [Hx|]; [|done]. apply elem_of_cons in Hx as [->|]; done.
Qed.
Lemma symbols_clean D : ScopeModel.analyze_symbols NP (names_d D) = [] -> exists S S',
  ScopeModel.analyze_sequence NP (map names_s (body D)) S = (S', []) /\
  forall ds, length ds = length (params D) -> inv S (call_environment (params D) ds) /\ ginv S [bind_parameters (params D) ds].
Proof.
  unfold ScopeModel.analyze_symbols. cbn [names_d ScopeModel.params ScopeModel.body].
  destruct (ScopeModel.add_parameters (params D) [∅]) as [S c] eqn:E. intros [H1 H2]%app_nil. destruct c; [done|].
  destruct (ScopeModel.analyze_sequence NP (map names_s (body D)) S) as [S' r] eqn:E2. cbn in H2. subst r. exists S, S'. split; [done|].
  intros ds Hl. destruct (parameters_block _ _ _ E) as (s' & -> & Hs).
  assert (forall x, x ∈ s' -> is_Some (bind_parameters (params D) ds !! x)) as Hb.
  { intros x Hx. apply bind_found; [done|]. destruct (Hs x Hx) as [|H]; [by left|by apply elem_of_empty in H]. }
  split; (constructor; [|constructor]); [|done]. intros x Hx. left. by apply Hb.
Qed.

Context (HF : forall f F, functions P !! f = Some F -> ScopeModel.analyze_symbols NP (names_d F) = [] /\
  forallb written (body F) = true /\ forallb (free_of_template_elements P) (body F) = true).
Context (HT : forall t T, templates P !! t = Some T -> ScopeModel.analyze_symbols NP (names_d T) = [] /\
  forallb written (body T) = true /\ forallb free_of_returns (body T) = true /\ Forall templates_known (body T)).

Lemma start_typed n : forall f F X0 X ds, functions P !! f = Some F -> length ds = length (params F) -> f ∉ X0 -> X0 ⊆ X ->
  size (dom (functions P) ∖ X0) <= n -> exists t X', start P n f X ds = Some (t, X') /\ X ⊆ X'.
Proof.
  induction n as [|n IH]; intros f F X0 X ds EF Hl Hf HX Hn.
  - assert (f ∈ dom (functions P) ∖ X0) as Hin. { apply elem_of_difference. split; [by apply elem_of_dom; eexists|done]. }
    assert (size (dom (functions P) ∖ X0) = 0) as H0 by lia. apply size_empty_inv in H0. set_solver.
  - cbn [start]. rewrite EF. cbn [obind]. destruct (HF f F EF) as (Ha & Hw & Hfree). apply symbols_clean in Ha as (S & S' & Ha & HS).
    destruct (body_typed (start P n) ({[f]} ∪ X0)) with (l := body F) (S := S) (S' := S') (bs := [bind_parameters (params F) ds]) (X := {[f]} ∪ X)
      as (d & X' & E & HX'); try done; [|by apply HS|set_solver|].
    + intros g G Y es EG Hlg Hg HY. apply (IH g G ({[f]} ∪ X0)); try done.
      assert (dom (functions P) ∖ ({[f]} ∪ X0) ⊂ dom (functions P) ∖ X0) as Hsub.
      { split; [set_solver|]. intros Hs. assert (f ∈ dom (functions P)) by (by apply elem_of_dom; eexists).
        specialize (Hs f). set_solver. }
      apply subset_size in Hsub. lia.
    + eexists _, _. split; [exact E|]. set_solver.
Qed.
Lemma given_ok f F ds : functions P !! f = Some F -> length ds = length (params F) -> is_Some (type_given_function P f ds).
Proof.
  intros EF Hl. unfold type_given_function.
  destruct (start_typed (S (size (functions P))) f F ∅ ∅ ds) as (t & X & -> & _); try done.
  rewrite difference_empty_L. rewrite size_dom. lia.
Qed.
Lemma sequence_equal l S : ScopeModel.analyze_sequence NP l S = (fix go (l : list ScopeModel.stmt) (E : ScopeModel.env) := match l with
    | [] => (E, [])
    | s :: l => let '(E1, r1) := as_ s E in let '(E2, r2) := go l E1 in (E2, r1 ++ r2)
    end) l S.
Proof. revert S. induction l as [|s l IH]; intros S; cbn [ScopeModel.analyze_sequence]; [done|]. destruct (as_ s S). by rewrite IH. Qed.
Lemma call_good xs ds : good (call_environment xs ds).
Proof. intros x t d H. cbn in H. by rewrite lookup_empty in H. Qed.
Lemma np_call n : forall f ds, ScopeModel.parameters_of NP f = Some (length ds) -> np (call P n f ds) okty.
Proof.
  induction n as [|n IH]; intros f ds Hp; [by intros r|]. cbn [call]. unfold ScopeModel.parameters_of in Hp. cbn in Hp.
  rewrite !lookup_fmap in Hp. destruct (functions P !! f) as [F|] eqn:EF.
  - cbn in Hp. injection Hp as Hp. rewrite Hp, Nat.eqb_refl. cbn [negb]. intros r. destruct (r !! (f, ds)); [done|].
    destruct (given_ok f F ds EF) as [o ->]; [done|]. destruct o as [d|]; [|done].
    destruct (HF f F EF) as (Ha & Hw & Hfree). apply symbols_clean in Ha as (S & S' & Ha & HS). rewrite sequence_equal in Ha.
    apply (np_bind _ _ (holds S')); [|intros E _; by apply np_ret].
    apply (np_sequence (call P n)) with (S := S); try done.
    + apply Forall_forall. intros s _. by apply np_statement.
    + split; [by apply HS|apply call_good].
    + apply known_list. intros t x d' Hin. exfalso. apply elem_of_list_In, in_flat_map in Hin as (s & Hs & Hin).
      apply elem_of_list_In in Hin. apply (declared_variables s) in Hin; [done|]. by apply (proj1 (forallb_forall _ _) Hfree).
  - destruct (templates P !! f) as [T|] eqn:ET; [|done]. cbn in Hp. injection Hp as Hp. rewrite Hp, Nat.eqb_refl. cbn [negb].
    assert (okty (Some (Templ f))) as Hok by (intros t [= <-]; by eexists).
    intros r. destruct (r !! (f, ds)); [done|].
    destruct (HT f T ET) as (Ha & Hw & Hfree & Hk). apply symbols_clean in Ha as (S & S' & Ha & HS). rewrite sequence_equal in Ha.
    apply (np_bind _ _ (holds S')); [|intros E _; by apply np_ret].
    apply (np_sequence (call P n)) with (S := S); try done.
    + apply Forall_forall. intros s _. by apply np_statement.
    + split; [by apply HS|apply call_good].
Qed.
Lemma np_type_check n : ae [] (names_e (main P)) = [] -> type_check P n <> Panic.
Proof.
  intros Ha H. unfold type_check in H.
  assert (np (t ← type_expression P (call P n) empty_env (main P); match t with None => mret tt | Some _ => check_main P end : M unit) (fun _ => True)) as Hn.
  { eapply np_bind; [apply (np_expression (call P n) (np_call n) _ [])|]; try done.
    - intros [t|] _; [|by apply np_ret]. unfold check_main. destruct (main P); try apply np_report.
      destruct (templates P !! f); [by apply np_ret|apply np_report]. }
  specialize (Hn ∅). by rewrite H in Hn.
Qed.
End program.

(** ** The decorator *)
Section inference.
Context (P : program).
Lemma into_known e t : into_template_inference P e = Some t -> is_Some (templates P !! t).
Proof.
  induction e; cbn; intros H; try done; auto.
  - destruct (into_template_inference P e2); [injection H as ->; auto|auto].
  - destruct (templates P !! f) eqn:E; [|done]. injection H as <-. by eexists.
Qed.
Definition map_known (m : gmap string string) : Prop := forall x t, m !! x = Some t -> is_Some (templates P !! t).
Lemma infer_known s : forall D, map_known (environment D) -> map_known (environment (infer_component_types P s D)).
Proof.
  assert (forall l, Forall (fun s => forall D, map_known (environment D) -> map_known (environment (infer_component_types P s D))) l ->
    forall D, map_known (environment D) ->
    map_known (environment ((fix go l D := match l with [] => D | s :: l => go l (infer_component_types P s D) end) l D))) as Hl.
  { induction 1 as [|s' l Hs Hl IH]; intros D HD; [done|]. apply IH. by apply Hs. }
  induction s using stmt_ind'; intros D HD; cbn [infer_component_types]; try done.
  - destruct f as [f|]; [apply H|]; by apply IHs.
  - by apply IHs.
  - by apply Hl.
  - by destruct k.
  - destruct (decide _); [|done]. destruct (into_template_inference P e) as [t|] eqn:Et; [|done].
    intros y u. cbn. destruct (decide (x = y)) as [<-|Hne]; [rewrite lookup_insert|rewrite lookup_insert_ne by done; apply HD].
    intros [= <-]. by eapply into_known.
  - by apply Hl.
Qed.
Lemma infers_known l : forall D, map_known (environment D) -> map_known (environment (foldl (fun D s => infer_component_types P s D) D l)).
Proof. induction l as [|s l IH]; intros D HD; cbn; [done|]. by apply IH, infer_known. Qed.

(** what the decorator keeps *)
Definition kept (s s' : stmt) : Prop :=
  names_s s' = names_s s /\ initial s' = initial s /\ written s' = written s /\ free_of_returns s' = free_of_returns s /\
  forall w, fill_inputs_and_outputs s' w = fill_inputs_and_outputs s w.
Definition keeps (s : stmt) : Prop := forall m s' m', map_known m -> apply_inference s m = (s', m') ->
  map_known m' /\ kept s s' /\ templates_known P s'.
Lemma apply_keeps l : Forall keeps l -> forall m l' m', map_known m -> apply_list l m = (l', m') ->
  map_known m' /\ Forall2 kept l l' /\ Forall (templates_known P) l'.
Proof.
  induction 1 as [|s l Hs Hl IH]; intros m l' m' Hm H; cbn [apply_list] in H.
  - injection H as <- <-. done.
  - destruct (apply_inference s m) as [s1 m1] eqn:E1. change ((let '(l0, m2) := apply_list l m1 in (s1 :: l0, m2)) = (l', m')) in H.
    destruct (apply_list l m1) as [l2 m2] eqn:E2. injection H as <- <-. destruct (Hs _ _ _ Hm E1) as (H1 & H2 & H3).
    destruct (IH _ _ _ H1 E2) as (H4 & H5 & H6). split; [done|]. split; by constructor.
Qed.
Lemma kept_list l l' : Forall2 kept l l' -> map names_s l' = map names_s l /\ forallb initial l' = forallb initial l /\
  forallb written l' = forallb written l /\ forallb free_of_returns l' = forallb free_of_returns l /\
  forall w, foldl (fun w s => fill_inputs_and_outputs s w) w l' = foldl (fun w s => fill_inputs_and_outputs s w) w l.
Proof.
  induction 1 as [|s s' l l' (H1 & H2 & H3 & H4 & H0) Hl (H5 & H6 & H7 & H8 & H9)]; [done|]. cbn. rewrite H1, H2, H3, H4, H5, H6, H7, H8.
  repeat split. intros w. by rewrite H0.
Qed.
Lemma fills_fold l w : (fix go l w := match l with [] => w | s :: l => go l (fill_inputs_and_outputs s w) end) l w =
  foldl (fun w s => fill_inputs_and_outputs s w) w l.
Proof. revert w. induction l as [|s l IH]; intros w; cbn; [done|]. apply IH. Qed.
Lemma known_flat l : Forall (templates_known P) l -> forall t x d, (KComponent (Some t), x, d) ∈ flat_map declarations l -> known P t.
Proof.
  intros H t x d Ha. apply elem_of_list_In, in_flat_map in Ha as (s & Hs & Ha). rewrite Forall_forall in H.
  apply (H s (proj2 (elem_of_list_In _ _) Hs) t x d). by apply elem_of_list_In.
Qed.
Lemma map_delete_known m x : map_known m -> map_known (delete x m).
Proof. intros H y t Hy. apply lookup_delete_Some in Hy as [_ Hy]. by eapply H. Qed.
Lemma statement_keeps s : keeps s.
Proof.
  induction s using stmt_ind'; intros m s' m' Hm Ha; cbn [apply_inference] in Ha.
  - destruct (apply_inference s m) as [s1 m1] eqn:E1. destruct (IHs _ _ _ Hm E1) as (H1 & (H2 & H3 & H4 & H5 & HW) & H6). destruct f as [f|].
    + destruct (apply_inference f m1) as [f1 m2] eqn:E2. injection Ha as <- <-. destruct (H _ _ _ H1 E2) as (H7 & (H8 & H9 & H10 & H11 & HW2) & H12).
      split; [done|]. split; [repeat split; cbn; try congruence; intros w; by rewrite ?HW, ?HW2|]. intros t x d Hin. cbn in Hin. apply elem_of_app in Hin as [Hin|Hin]; [by eapply H6|by eapply H12].
    + injection Ha as <- <-. split; [done|]. split; [repeat split; cbn; try congruence; intros w; by rewrite ?HW, ?HW2|]. intros t x d Hin. cbn in Hin. rewrite app_nil_r in Hin. by eapply H6.
  - destruct (apply_inference s m) as [s1 m1] eqn:E1. destruct (IHs _ _ _ Hm E1) as (H1 & (H2 & H3 & H4 & H5 & HW) & H6). injection Ha as <- <-.
    split; [done|]. split; [repeat split; cbn; try congruence; intros w; by rewrite ?HW, ?HW2|]. exact H6.
  - injection Ha as <- <-. split; [done|]. split; [done|]. intros t x d Hin. by apply elem_of_nil in Hin.
  - match type of Ha with (let '(_, _) := ?x in _) = _ => change x with (apply_list l m) in Ha end.
    destruct (apply_list l m) as [l1 m1] eqn:E1. injection Ha as <- <-. destruct (apply_keeps l H _ _ _ Hm E1) as (H1 & H2 & H3).
    apply kept_list in H2 as (H4 & H5 & H6 & H7 & HW). split; [done|]. split; [|exact (known_flat _ H3)]. repeat split; cbn [names_s initial written free_of_returns]; try congruence. intros w. cbn [fill_inputs_and_outputs]. rewrite !fills_fold. apply HW.
  - destruct k as [|io|c].
    + injection Ha as <- <-. split; [done|]. split; [done|]. intros t y d Hin. by apply elem_of_list_singleton in Hin.
    + injection Ha as <- <-. split; [done|]. split; [done|]. intros t y d Hin. by apply elem_of_list_singleton in Hin.
    + injection Ha as <- <-. split; [by apply map_delete_known|]. split; [done|]. intros t y d Hin. apply elem_of_list_singleton in Hin.
      injection Hin as Ht -> _. by eapply Hm.
  - injection Ha as <- <-. split; [done|]. split; [done|]. intros t y d Hin. by apply elem_of_nil in Hin.
  - injection Ha as <- <-. split; [done|]. split; [done|]. intros t y d Hin. by apply elem_of_nil in Hin.
  - injection Ha as <- <-. split; [done|]. split; [done|]. intros t y d Hin. by apply elem_of_nil in Hin.
  - injection Ha as <- <-. split; [done|]. split; [done|]. intros t y d Hin. by apply elem_of_nil in Hin.
  - match type of Ha with (let '(_, _) := ?x in _) = _ => change x with (apply_list l m) in Ha end.
    destruct (apply_list l m) as [l1 m1] eqn:E1. injection Ha as <- <-. destruct (apply_keeps l H _ _ _ Hm E1) as (H1 & H2 & H3).
    apply kept_list in H2 as (H4 & H5 & H6 & H7 & HW). split; [done|]. split; [|exact (known_flat _ H3)]. repeat split; cbn [names_s initial written free_of_returns]; try congruence. intros w. cbn [fill_inputs_and_outputs]. rewrite !fills_fold. apply HW.
  - injection Ha as <- <-. split; [done|]. split; [done|]. intros t y d Hin. by apply elem_of_nil in Hin.
Qed.
Lemma template_kept T : names_d (infer_template P T) = names_d T /\ forallb written (body (infer_template P T)) = forallb written (body T) /\
  forallb free_of_returns (body (infer_template P T)) = forallb free_of_returns (body T) /\ Forall (templates_known P) (body (infer_template P T)) /\
  template_wires (infer_template P T) = template_wires T.
Proof.
  unfold infer_template. set (D := foldl _ _ _). assert (map_known (environment D)) as HD.
  { apply infers_known. intros x t Hx. cbn in Hx. by rewrite lookup_empty in Hx. }
  destruct (apply_list (body T) (environment D)) as [l m] eqn:E. cbn.
  assert (Forall keeps (body T)) as Hk by (apply Forall_forall; intros; apply statement_keeps).
  destruct (apply_keeps _ Hk _ _ _ HD E) as (_ & H2 & H3). apply kept_list in H2 as (H4 & H5 & H6 & H7 & H8).
  unfold names_d, template_wires. cbn. by rewrite H4, H6, H7, H8.
Qed.
Lemma names_kept pub : names_p (inference P) pub = names_p P pub.
Proof.
  unfold names_p, inference. cbn. f_equal. rewrite <- map_fmap_compose. apply map_fmap_ext. intros t T _. unfold compose.
  destruct (template_kept T) as (H1 & _ & _ & _ & H2). by rewrite H1, H2.
Qed.
Lemma naming_parts pub : ScopeModel.check_naming_correctness (names_p P pub) = [] ->
  analyze_expression (names_p P pub) [] (names_e (main P)) = [] /\
  (forall f F, functions P !! f = Some F -> ScopeModel.analyze_symbols (names_p P pub) (names_d F) = []) /\
  (forall t T, templates P !! t = Some T -> ScopeModel.analyze_symbols (names_p P pub) (names_d T) = []).
Proof.
  unfold ScopeModel.check_naming_correctness. intros [Hm Hc]%app_nil. unfold ScopeModel.analyze_main in Hm. apply app_nil in Hm as [_ Hm].
  assert (forall D, D ∈ ((map_to_list (ScopeModel.templates (names_p P pub))).*2.*1 ++ (map_to_list (ScopeModel.functions (names_p P pub))).*2 ++
    (map_to_list (ScopeModel.buses (names_p P pub))).*2.*1) -> ScopeModel.analyze_symbols (names_p P pub) D = []) as Hall.
  { revert Hc. generalize ((map_to_list (ScopeModel.templates (names_p P pub))).*2.*1 ++ (map_to_list (ScopeModel.functions (names_p P pub))).*2 ++
    (map_to_list (ScopeModel.buses (names_p P pub))).*2.*1). intros l. induction l as [|D l IH]; intros Hc D' HD; [by apply elem_of_nil in HD|].
    cbn in Hc. apply app_nil in Hc as [H1 H2]. apply elem_of_cons in HD as [->|HD]; [done|by apply IH]. }
  split; [exact Hm|]. split.
  - intros f F HF. apply Hall. apply elem_of_app. right. apply elem_of_app. left. apply elem_of_list_fmap.
    exists (f, names_d F). split; [done|]. apply elem_of_map_to_list. cbn. by rewrite lookup_fmap, HF.
  - intros t T HT. apply Hall. apply elem_of_app. left. apply elem_of_list_fmap.
    exists (names_d T, dom (template_wires T).1). split; [done|]. apply elem_of_list_fmap. eexists (t, _). split; [done|].
    apply elem_of_map_to_list. cbn. by rewrite lookup_fmap, HT.
Qed.
Lemma never_panics pub n : written_program P -> ScopeModel.check_naming_correctness (names_p P pub) = [] ->
  (forall t T, templates P !! t = Some T -> forallb free_of_returns (body T) = true) ->
  (forall f F, functions P !! f = Some F -> forallb (free_of_template_elements P) (body F) = true) ->
  type_check (inference P) n <> Panic.
Proof.
  intros (HW1 & HW2 & _) (Hm & HF & HT)%naming_parts Hr Hf. apply (np_type_check (inference P) pub).
  - rewrite names_kept. intros f F E. split; [by eapply HF|]. split; [by eapply HW1|]. exact (Hf f F E).
  - rewrite names_kept. intros t T E. cbn in E. rewrite lookup_fmap in E. destruct (templates P !! t) as [T0|] eqn:E0; [|done].
    injection E as <-. destruct (template_kept T0) as (H1 & H2 & H3 & H4 & _). rewrite H1, H2, H3.
    split; [by eapply HT|]. split; [by eapply HW2|]. split; [by eapply Hr|].
    eapply Forall_impl; [exact H4|]. intros s Hs u x d Hin. destruct (Hs u x d Hin) as [U HU]. unfold known. cbn. rewrite lookup_fmap, HU. by eexists.
  - rewrite names_kept. exact Hm.
Qed.
End inference.
