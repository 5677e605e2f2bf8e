(** Programs that pass the check of types use every value as what it is. *)
From stdpp Require Import prelude gmap strings.
From Coq Require Import ZArith Lia.
From Verif Require Import TypeModel TypeSpec TypeProofs.
Open Scope string_scope.
Open Scope list_scope.
Open Scope nat_scope.

(** ** Results that are not wrong *)
Definition fine {A} (Q : A -> Prop) (x : R A) : Prop := match x with Ok a => Q a | Ill => False | _ => True end.
Lemma fine_bind {A B} (Q : A -> Prop) (Q' : B -> Prop) x k : fine Q x -> (forall a, Q a -> fine Q' (k a)) -> fine Q' (rbind x k).
Proof. destruct x; cbn; auto. Qed.
Lemma fine_mono {A} (Q Q' : A -> Prop) x : fine Q x -> (forall a, Q a -> Q' a) -> fine Q' x.
Proof. destruct x; cbn; auto. Qed.
Lemma fine_rmap {A B} (Q : A -> B -> Prop) (f : A -> R B) l : Forall (fun a => fine (Q a) (f a)) l ->
  fine (Forall2 Q l) (rmap f l).
Proof.
  induction 1 as [|a l Ha Hl IH]; cbn [rmap]; [by constructor|].
  eapply fine_bind; [exact Ha|]. intros b Hb. eapply fine_bind; [exact IH|]. intros bs Hbs. by constructor.
Qed.
Lemma fine_rmap2 {A B C} (Q : C -> B -> Prop) (f : A -> R B) l cs : Forall2 (fun a c => fine (Q c) (f a)) l cs ->
  fine (Forall2 Q cs) (rmap f l).
Proof.
  induction 1 as [|a c l cs Ha Hl IH]; cbn [rmap]; [by constructor|].
  eapply fine_bind; [exact Ha|]. intros b Hb. eapply fine_bind; [exact IH|]. intros bs Hbs. by constructor.
Qed.

(** ** Nested arrays *)
Fixpoint nest (d : nat) (Q : val -> Prop) (v : val) : Prop :=
  match d with O => Q v | S d => exists l, v = Node l /\ Forall (nest d Q) l end.
Definition leaf (v : val) : Prop := exists z, v = Leaf z.
Lemma nest_add n d Q v : nest (n + d) Q v <-> nest n (nest d Q) v.
Proof.
  revert v. induction n as [|n IH]; intros v; cbn; [done|]. split; intros (l & -> & H); exists l; split; try done;
    eapply Forall_impl; try exact H; intros w; apply IH.
Qed.
Lemma dims_nest d v : dims d v = true <-> nest d leaf v.
Proof.
  revert v. induction d as [|d IH]; intros v; cbn.
  - split; [|by intros [z ->]]. destruct v; try done. by eexists.
  - split.
    + destruct v as [|l| |]; try done. intros H. exists l. split; [done|]. apply forallb_True in H || idtac.
      apply Forall_forall. intros w Hw. apply IH. apply (proj1 (forallb_forall _ _) H). by apply elem_of_list_In.
    + intros (l & -> & H). apply forallb_forall. intros w Hw. apply IH. rewrite Forall_forall in H. apply H. by apply elem_of_list_In.
Qed.

Lemma fine_element {A} (Q : A -> Prop) l i : Forall Q l -> fine Q (element l i).
Proof.
  intros H. unfold element, or_fail. destruct (i <? 0)%Z; [done|]. destruct (l !! Z.to_nat i) eqn:E; [|done].
  cbn. rewrite Forall_forall in H. apply H. by eapply elem_of_list_lookup_2.
Qed.
Lemma fine_select (Q : val -> Prop) p v : nest (length p) Q v -> fine Q (select v p).
Proof.
  revert v. induction p as [|i p IH]; intros v; cbn [length nest select]; [done|]. intros (l & -> & H). cbn [select1].
  eapply fine_bind; [by apply fine_element|]. intros w Hw. by apply IH.
Qed.
Lemma fine_update (Q : val -> Prop) p f v : nest (length p) Q v -> (forall w, Q w -> fine Q (f w)) -> fine (nest (length p) Q) (update v p f).
Proof.
  intros Hv Hf. revert v Hv. induction p as [|i p IH]; intros v; cbn [length nest update]; [apply Hf|]. intros (l & -> & H).
  eapply fine_bind; [by apply fine_element|]. intros w Hw. eapply fine_bind; [by apply IH|]. intros u Hu.
  cbn. eexists. split; [done|]. by apply Forall_insert.
Qed.
Lemma fine_fill (Q : val -> Prop) ns f : (forall p, Q (f p)) -> fine (nest (length ns) Q) (fill f ns).
Proof.
  revert f. induction ns as [|n ns IH]; intros f Hf; cbn [length nest fill]; [apply Hf|].
  destruct (n <? 0)%Z; [done|]. eapply fine_bind.
  - apply (fine_rmap (fun _ => nest (length ns) Q)). apply Forall_forall. intros i _. apply IH. intros p. apply Hf.
  - intros l Hl. cbn. eexists. split; [done|]. clear -Hl. induction Hl; by constructor.
Qed.
Lemma fine_overlay d v old : nest d leaf v -> nest d leaf old -> fine (nest d leaf) (overlay v old).
Proof.
  revert v old. induction d as [|d IH]; intros v old; cbn [nest].
  - intros [z ->] [z' ->]. cbn. by eexists.
  - intros (vs & -> & Hv) (os & -> & Ho). cbn [overlay]. eapply (fine_bind (Forall (nest d leaf))).
    + revert os Ho. induction Hv as [|v vs Hv Hvs IHv]; intros os Ho; [done|].
      destruct Ho as [|o os Ho Hos]; [done|]. eapply fine_bind; [by apply IH|]. intros w Hw.
      eapply fine_bind; [by apply IHv|]. intros ws Hws. by constructor.
    + intros l Hl. cbn. by eexists.
Qed.
Lemma same_depth_nest d v w : nest d leaf v -> nest d leaf w -> same_depth v w = true.
Proof.
  revert v w. induction d as [|d IH]; intros v w; cbn [nest].
  - intros [z ->] [z' ->]. done.
  - intros (l & -> & Hl) (m & -> & Hm). cbn [same_depth]. rewrite Forall_forall in Hl, Hm.
    apply forallb_forall. intros a Ha. apply forallb_forall. intros b Hb.
    apply IH; [apply Hl|apply Hm]; by apply elem_of_list_In.
Qed.
Lemma value_nest d v : nest d leaf v -> value v = Ok v.
Proof. destruct d; [by intros [z ->]|by intros (l & -> & _)]. Qed.

(** ** What the names of a definition stand for *)
Inductive class := CV | CS (d : nat) | CC (t : string) (d : nat).
Definition class_of (a : kind * string * nat) : option class :=
  match a.1.1 with KVar => Some CV | KSignal _ => Some (CS a.2) | KComponent (Some t) => Some (CC t a.2) | KComponent None => None end.
Definition kof (D : def) (x : string) : option class :=
  match List.find (fun a => bool_decide (a.1.2 = x)) (all_declarations D) with Some a => class_of a | None => None end.
Lemma kof_declared D a : consistent D -> a ∈ all_declarations D -> kof D a.1.2 = class_of a /\ class_of a <> None.
Proof.
  intros [_ H] Ha. unfold kof. destruct (List.find _ _) as [b|] eqn:E.
  - apply find_some in E as [Hb Hx]. apply bool_decide_eq_true in Hx. apply elem_of_list_In in Hb.
    pose proof (H b a Hb Ha Hx) as Hc. destruct a as [[ka xa] da], b as [[kb xb] db]. cbn in *. unfold class_of; cbn.
    destruct kb as [| |[]], ka as [| |[]]; try done; intuition congruence.
  - exfalso. apply elem_of_list_In in Ha. pose proof (find_none _ _ E a Ha) as Hn. cbn in Hn. by rewrite bool_decide_eq_false in Hn.
Qed.

Section program.
Context (P : program).
Hypothesis HP : consistent_program P.

(** the signals of an instance have their dimensions *)
Definition wok (t : string) (sigs : list (string * val)) : Prop :=
  exists D, templates P !! t = Some D /\
    forall f v, assoc f sigs = Some v -> exists d, kof D f = Some (CS d) /\ nest d leaf v.
Definition cleaf (t : string) (v : val) : Prop := v = Empty \/ exists sigs, v = Inst t sigs /\ wok t sigs.
Definition hasty (t : ty) (v : val) : Prop :=
  match t with Arith d => nest d leaf v | Templ t => exists sigs, v = Inst t sigs /\ wok t sigs end.

Lemma number_fine t v : not_number t = false -> hasty t v -> fine (fun _ => True) (number v).
Proof. destruct t as [[|d]|t]; try done. intros _ [z ->]. done. Qed.
Lemma value_fine t v : is_template t = false -> hasty t v -> fine (hasty t) (value v).
Proof. destruct t as [d|t]; try done. intros _ H. cbn in H. by rewrite (value_nest _ _ H). Qed.

(** *** Inputs and outputs *)
Definition good (D : def) (x : string) (d : nat) : Prop := exists k, is_wire k = true /\ (k, x, d) ∈ all_declarations D.
Definition good_wires (D : def) (w : wires) : Prop :=
  (forall x d, w.1 !! x = Some d -> good D x d) /\ (forall x d, w.2 !! x = Some d -> good D x d).
Lemma fill_good D s : forall w, (forall a, a ∈ declarations s -> a ∈ all_declarations D) -> good_wires D w ->
  good_wires D (fill_inputs_and_outputs s w).
Proof.
  assert (forall l, Forall (fun s => forall w, (forall a, a ∈ declarations s -> a ∈ all_declarations D) -> good_wires D w ->
    good_wires D (fill_inputs_and_outputs s w)) l -> forall w, (forall a, a ∈ flat_map declarations l -> a ∈ all_declarations D) ->
    good_wires D w ->
    good_wires D ((fix go l w := match l with [] => w | s :: l => go l (fill_inputs_and_outputs s w) end) l w)) as Hl.
  { induction 1 as [|s' l Hs Hl IH]; intros w Hd Hw; [done|]. apply IH.
    - intros a Ha. apply Hd. cbn. apply elem_of_app. by right.
    - apply Hs; [|done]. intros a Ha. apply Hd. cbn. apply elem_of_app. by left. }
  induction s using stmt_ind'; intros w Hd Hw; cbn [fill_inputs_and_outputs]; try done.
  - assert (good_wires D (fill_inputs_and_outputs s w)).
    { apply IHs; [|done]. intros a Ha. apply Hd. cbn. apply elem_of_app. by left. }
    destruct f as [f|]; [|done]. apply H; [|done]. intros a Ha. apply Hd. cbn. apply elem_of_app. by right.
  - apply IHs; [|done]. intros a Ha. by apply Hd.
  - apply Hl; [done| |done]. intros a Ha. by apply Hd.
  - destruct k as [|[]|]; try done; destruct Hw as [H1 H2]; (split; [|try done]); cbn; try done; intros y d Hy;
      (destruct (decide (x = y)) as [->|Hne];
       [rewrite lookup_insert in Hy; simplify_eq; eexists; (split; [|apply Hd; cbn; by left]); done
       |rewrite lookup_insert_ne in Hy by done; by auto]).
  - apply Hl; [done| |done]. intros a Ha. by apply Hd.
Qed.
Lemma template_wires_good D : good_wires D (template_wires D).
Proof.
  unfold template_wires.
  assert (forall l w, (forall a, a ∈ flat_map declarations l -> a ∈ all_declarations D) -> good_wires D w ->
    good_wires D (foldl (fun w s => fill_inputs_and_outputs s w) w l)) as H.
  { induction l as [|s l IH]; intros w Hd Hw; [done|]. cbn [foldl]. apply IH.
    - intros a Ha. apply Hd. cbn. apply elem_of_app. by right.
    - apply fill_good; [|done]. intros a Ha. apply Hd. cbn. apply elem_of_app. by left. }
  apply H; [|split; intros x d Hx; cbn [fst snd] in Hx; by rewrite lookup_empty in Hx].
  intros a Ha. unfold all_declarations. apply elem_of_app. by right.
Qed.
Lemma wire_good D f d : consistent D -> wire D f = Some d -> kof D f = Some (CS d) /\ has_wire D f = true.
Proof.
  intros HD Hw. assert (good D f d) as (k & Hk & Hin).
  { unfold wire in Hw. destruct (template_wires_good D) as [H1 H2].
    destruct ((template_wires D).1 !! f) eqn:E; [simplify_eq; by apply H1|by apply H2]. }
  split.
  - destruct (kof_declared D _ HD Hin) as [E _]. cbn in E. rewrite E. destruct k as [|[]|]; done.
  - unfold has_wire. apply existsb_exists. exists (k, f, d). split; [by apply elem_of_list_In|]. rewrite Hk. cbn. by apply bool_decide_eq_true.
Qed.

(** ** One definition *)
Section body.
Context (R : register) (inside : bool) (K : string -> option class).
Hypothesis Hfun : inside = false -> forall x c, K x = Some c -> c = CV.

(** environments of the check *)
Definition okE (E : env) : Prop :=
  (forall x d, get_signal E x = Some d -> K x = Some (CS d)) /\
  (forall x o d, components E !! x = Some (o, d) -> exists t, o = Some t /\ K x = Some (CC t d)) /\
  Forall (fun b : gmap string nat => forall x d, b !! x = Some d -> K x = Some CV) (blocks E).
(** states of the execution *)
Definition brel (b : gmap string nat) (c : gmap string val) : Prop :=
  forall x, match b !! x, c !! x with Some d, Some v => nest d leaf v | None, None => True | _, _ => False end.
Record rel (bs : list (gmap string nat)) (σ : state) : Prop := {
  rel_blocks : Forall2 brel bs (vars σ);
  rel_signals : forall x v, signals σ !! x = Some v -> exists d, K x = Some (CS d) /\ nest d leaf v;
  rel_comps : forall x v, comps σ !! x = Some v -> exists t d, K x = Some (CC t d) /\ nest d (cleaf t) v }.

Lemma get_rel bs cs x : Forall2 brel bs cs ->
  match get_variable bs x, get cs x with Some d, Some v => nest d leaf v | None, None => True | _, _ => False end.
Proof.
  induction 1 as [|b c bs cs Hb Hbs IH]; cbn; [done|]. specialize (Hb x).
  destruct (b !! x), (c !! x); try done.
Qed.
Lemma get_variable_class bs x d : Forall (fun b : gmap string nat => forall x d, b !! x = Some d -> K x = Some CV) bs ->
  get_variable bs x = Some d -> K x = Some CV.
Proof. induction 1 as [|b bs Hb Hbs IH]; cbn; [done|]. destruct (b !! x) eqn:E; [|done]. intros _. by eapply Hb. Qed.

(** *** Symbols *)
(** what an access without report is *)
Inductive symbol_of (E : env) (x : string) (n : nat) : option (string * nat) -> symbol_information -> Prop :=
| symbol_variable d : K x = Some CV -> get_variable (blocks E) x = Some (n + d) -> symbol_of E x n None (SVar d)
| symbol_signal d : K x = Some (CS (n + d)) -> get_variable (blocks E) x = None -> symbol_of E x n None (SSignal d)
| symbol_component t : K x = Some (CC t n) -> get_variable (blocks E) x = None -> symbol_of E x n None (SComponent (Some t))
| symbol_wire t D f k d : K x = Some (CC t n) -> get_variable (blocks E) x = None -> templates P !! t = Some D ->
    kof D f = Some (CS (k + d)) -> has_wire D f = true -> symbol_of E x n (Some (f, k)) (SSignal d).
Lemma access_symbol E x n field r o r' : okE E -> apply_access_to_symbol P E x n field r = Done o r' [] ->
  exists s, o = Some s /\ symbol_of E x n field s.
Proof.
  intros (HS & HC & HV) H. unfold apply_access_to_symbol in H. apply bind_clean in H as (ok & r1 & H1 & H2).
  assert (ok = Some tt) as ->.
  { unfold check_if_it_is_a_tag in H1. destruct field as [[]|]; [|by injection H1].
    destruct (components E !! x) as [[]|]; [destruct (_ =? _); [by injection H1|done]|].
    destruct (get_variable _ _); [by injection H1|]. by destruct (get_signal E x). }
  pose proof (HS x) as HSx. pose proof (HC x) as HCx.
  pose proof (fun d => get_variable_class (blocks E) x d HV) as HVx.
  assert (Ha : forall A (c : report) r (o : option A) r', add_report_and_end c r = Done o r' [] -> False) by (intros; discriminate).
  destruct (components E !! x) as [[c dc]|] eqn:EC.
  - destruct (HCx c dc eq_refl) as (t & -> & HK).
    destruct (get_variable (blocks E) x) as [dv|] eqn:EV; [by rewrite (HVx _ eq_refl) in HK|].
    destruct (get_signal E x) as [ds|] eqn:ES; [by rewrite (HSx _ eq_refl) in HK|].
    destruct (dc <? n) eqn:El; [by apply Ha in H2|]. apply Nat.ltb_ge in El.
    destruct field as [[f k]|].
    + destruct (0 <? dc - n) eqn:Ez; [by apply Ha in H2|]. apply Nat.ltb_ge in Ez. assert (dc = n) as -> by lia.
      destruct (templates P !! t) as [D|] eqn:ET; [|done]. destruct (wire D f) as [d|] eqn:Ew; [|by apply Ha in H2].
      destruct (d <? k) eqn:Ek; [by apply Ha in H2|]. apply Nat.ltb_ge in Ek. injection H2 as <- <-.
      eexists. split; [done|]. destruct (wire_good D f d) as [Hk Hh]; [by apply (proj2 HP t)|done|].
      eapply symbol_wire; try done. rewrite Hk. do 2 f_equal. lia.
    + destruct (dc - n =? 0) eqn:Ez; [|by apply Ha in H2]. apply Nat.eqb_eq in Ez. assert (dc = n) as -> by lia.
      injection H2 as <- <-. eexists. split; [done|]. by apply symbol_component.
  - destruct (get_signal E x) as [ds|] eqn:ES.
    + destruct (get_variable (blocks E) x) as [dv|] eqn:EV; [specialize (HSx _ eq_refl); by rewrite (HVx _ eq_refl) in HSx|].
      destruct (ds <? n) eqn:El; [by apply Ha in H2|]. apply Nat.ltb_ge in El.
      destruct field as [[f k]|]; [destruct (0 <? ds - n); by apply Ha in H2|].
      injection H2 as <- <-. eexists. split; [done|]. apply symbol_signal; [|done]. rewrite (HSx _ eq_refl). do 2 f_equal. lia.
    + destruct (get_variable (blocks E) x) as [dv|] eqn:EV; [|done].
      destruct (dv <? n) eqn:El; [by apply Ha in H2|]. apply Nat.ltb_ge in El.
      destruct field as [[f k]|]; [destruct (0 <? dv - n); by apply Ha in H2|].
      injection H2 as <- <-. eexists. split; [done|]. apply symbol_variable; [by apply (HVx _ eq_refl)|]. rewrite EV. f_equal. lia.
Qed.

Definition field_of (field : option (string * nat)) (g : option (string * list Z)) : Prop :=
  match field, g with None, None => True | Some (f, k), Some (h, js) => f = h /\ length js = k | _, _ => False end.
Definition symbol_value (s : symbol_information) (v : val) : Prop :=
  match s with
  | SVar d | SSignal d => nest d leaf v
  | SComponent (Some t) => hasty (Templ t) v
  | SComponent None => True
  end.

Lemma no_signal bs σ x c : rel bs σ -> K x = Some c -> (forall d, c <> CS d) -> signals σ !! x = None.
Proof. intros H HK Hc. destruct (signals σ !! x) eqn:E; [|done]. apply (rel_signals _ _ H) in E as (d & E & _). rewrite HK in E. simplify_eq. by destruct (Hc d). Qed.
Lemma no_comp bs σ x c : rel bs σ -> K x = Some c -> (forall t d, c <> CC t d) -> comps σ !! x = None.
Proof. intros H HK Hc. destruct (comps σ !! x) eqn:E; [|done]. apply (rel_comps _ _ H) in E as (t & d & E & _). rewrite HK in E. simplify_eq. by destruct (Hc t d). Qed.
Lemma read_fine E σ x is field g s : symbol_of E x (length is) field s -> rel (blocks E) σ -> field_of field g ->
  fine (symbol_value s) (read P σ x is g).
Proof.
  intros Hs H Hg. unfold read. pose proof (get_rel (blocks E) (vars σ) x (rel_blocks _ _ H)) as Hv.
  destruct Hs as [d HK Ev|d HK Ev|t HK Ev|t D f k d HK Ev ET Hk Hh]; rewrite Ev in Hv.
  - rewrite (no_signal _ _ _ _ H HK), (no_comp _ _ _ _ H HK) by done.
    destruct (get (vars σ) x) as [v|]; [|done]. destruct g; [done|]. apply fine_select. by apply nest_add.
  - rewrite (no_comp _ _ _ _ H HK) by done. destruct (get (vars σ) x); [done|].
    destruct (signals σ !! x) as [v|] eqn:E1; [|done]. destruct g; [done|].
    apply (rel_signals _ _ H) in E1 as (d' & E1 & Hn). rewrite HK in E1. simplify_eq. apply fine_select. by apply nest_add.
  - rewrite (no_signal _ _ _ _ H HK) by done. destruct (get (vars σ) x); [done|].
    destruct (comps σ !! x) as [v|] eqn:E1; [|done]. destruct g; [done|].
    apply (rel_comps _ _ H) in E1 as (t' & d' & E1 & Hn). rewrite HK in E1. simplify_eq.
    eapply fine_bind; [by apply fine_select|]. intros w [->|(sigs & -> & Hw)]; [done|]. cbn. by eexists.
  - rewrite (no_signal _ _ _ _ H HK) by done. destruct (get (vars σ) x); [done|].
    destruct (comps σ !! x) as [v|] eqn:E1; [|done]. destruct g as [[f' js]|]; [|done]. destruct Hg as [<- <-].
    apply (rel_comps _ _ H) in E1 as (t' & d' & E1 & Hn). rewrite HK in E1. simplify_eq.
    eapply fine_bind; [by apply fine_select|]. intros w [->|(sigs & -> & Hw)]; [done|].
    destruct Hw as (D' & ED & Hw). rewrite ET in ED. simplify_eq.
    destruct (assoc f sigs) as [u|] eqn:Ea.
    + apply Hw in Ea as (d' & E2 & Hn'). rewrite Hk in E2. simplify_eq. apply fine_select. by apply nest_add.
    + rewrite ET, Hh. done.
Qed.

(** *** Expressions *)
Context (den1 : string -> Z -> option Z) (den2 : string -> Z -> Z -> option Z) (run : string -> list val -> TypeSpec.R val).
Hypothesis Hrun : forall f ds vs r o r', frozen P R f ds r = Done o r' [] ->
  (inside = false -> is_function P f = true) -> Forall2 (fun d v => nest d leaf v) ds vs ->
  exists t, o = Some t /\ fine (hasty t) (run f vs).
Notation te := (type_expression P (frozen P R)).
Notation ev := (eval P den1 den2 run).

Definition sound (E : env) (e : expr) : Prop := forall r o r', te E e r = Done o r' [] -> (inside = false -> free_expr P e = true) ->
  exists t, o = Some t /\ (inside = false -> is_template t = false) /\ forall σ, rel (blocks E) σ -> fine (hasty t) (ev σ e).

Lemma report_if_clean b c r u r' : report_if b c r = Done u r' [] -> b = false.
Proof. by destruct b. Qed.
Lemma end_clean {A} c r (o : option A) r' : add_report_and_end c r = Done o r' [] -> False.
Proof. intros; discriminate. Qed.
Lemma check_size_clean t r u r' : check_size t r = Done u r' [] -> not_number t = false.
Proof. unfold check_size, not_number. destruct (is_template t); [done|]. intros H%report_if_clean. done. Qed.
Lemma check_single_clean t r u r' : check_single t r = Done u r' [] -> not_number t = false.
Proof. unfold check_single, not_number. destruct (is_template t); [done|]. intros H%report_if_clean. done. Qed.

Lemma forallb_all {A} (f : A -> bool) l : (inside = false -> forallb f l = true) -> Forall (fun a => inside = false -> f a = true) l.
Proof.
  intros H. apply Forall_forall. intros a Ha Hi. apply (proj1 (forallb_forall f l) (H Hi)). by apply elem_of_list_In.
Qed.

Lemma type_array_sound E l : Forall (sound E) l -> (inside = false -> forallb (free_expr P) l = true) ->
  forall r o r', type_array (te E) l r = Done o r' [] ->
  exists ts, o = Some ts /\ Forall2 (fun e t => (inside = false -> is_template t = false) /\ forall σ, rel (blocks E) σ -> fine (hasty t) (ev σ e)) l ts.
Proof.
  intros Hl Hf%forallb_all. induction Hl as [|e l He Hl IH]; intros r o r' H; cbn [type_array] in H.
  - injection H as <- <-. exists []. split; [done|constructor].
  - apply Forall_cons in Hf as [Hf1 Hf2].
    apply bind_clean in H as (t & r1 & H1 & H). apply bind_clean in H as (ts & r2 & H2 & H).
    apply He in H1 as (t' & -> & H1); [done|]. specialize (IH Hf2); apply IH in H2 as (ts' & -> & H2).
    injection H as <- <-. eexists. split; [done|]. by constructor.
Qed.
Lemma treat_indexes_sound E l : Forall (sound E) l -> (inside = false -> forallb (free_expr P) l = true) ->
  forall r o r', treat_indexes (te E) l r = Done o r' [] ->
  forall σ, rel (blocks E) σ -> fine (fun zs => length zs = length l) (rmap (fun e => v <- ev σ e; number v) l).
Proof.
  intros Hl Hf%forallb_all r o r' H σ Hσ.
  eapply fine_mono; [apply (fine_rmap (fun _ _ => True))|intros zs Hz; symmetry; by eapply Forall2_length].
  revert r o r' H. induction Hl as [|e l He Hl IH]; intros r o r' H; cbn [treat_indexes] in H; [constructor|].
  apply Forall_cons in Hf as [Hf1 Hf2].
  apply bind_clean in H as (t & r1 & H1 & H). apply bind_clean in H as (u & r2 & H2 & H).
  apply He in H1 as (t' & -> & _ & H1); [done|]. apply check_size_clean in H2. constructor; [|by eapply IH].
  eapply fine_bind; [by apply H1|]. intros v Hv. by (eapply number_fine; [|eassumption]).
Qed.
Lemma treat_access_sound E idx field : Forall (sound E) idx -> match field with None => True | Some (_, l) => Forall (sound E) l end ->
  (inside = false -> forallb (free_expr P) idx && match field with None => true | Some _ => false end = true) ->
  forall r n fl r', treat_access (te E) idx field r = Done (n, fl) r' [] ->
  n = length idx /\ forall σ (B : Type) (Q : B -> Prop) k, rel (blocks E) σ ->
    (forall is g, length is = n -> field_of fl g -> fine Q (k is g)) ->
    fine Q (is <- rmap (fun e => v <- ev σ e; number v) idx;
            field <- match field with
              | None => Ok None
              | Some (f, l) => js <- rmap (fun e => v <- ev σ e; number v) l; Ok (Some (f, js))
              end;
            k is field).
Proof.
  intros Hi Hfl Hf r n fl r' H. unfold treat_access in H. apply bind_clean in H as (u & r1 & H1 & H2).
  assert (inside = false -> forallb (free_expr P) idx = true) as Hf1 by (intros Hin; specialize (Hf Hin); by apply andb_true_iff in Hf as [? ?]).
  pose proof (treat_indexes_sound E idx Hi Hf1 _ _ _ H1) as HI. destruct field as [[f l]|].
  - apply bind_clean in H2 as (u2 & r2 & H2 & H3). injection H3 as <- <- <-. split; [done|]. intros σ B Q k Hσ Hk.
    assert (inside = false -> forallb (free_expr P) l = true) as Hf2.
    { intros Hin; specialize (Hf Hin). apply andb_true_iff in Hf as [_ Hf]. done. }
    pose proof (treat_indexes_sound E l Hfl Hf2 _ _ _ H2) as HJ.
    eapply fine_bind; [by apply HI|]. intros is His. eapply fine_bind.
    + eapply fine_bind; [by apply HJ|]. intros js Hjs. exact (ex_intro _ js (conj eq_refl Hjs) : fine (fun g => exists js, g = Some (f, js) /\ length js = length l) (Ok (Some (f, js)))).
    + intros g (js & -> & Hjs). apply Hk; [done|]. by split.
  - injection H2 as <- <- <-. split; [done|]. intros σ B Q k Hσ Hk. eapply fine_bind; [by apply HI|]. intros is His. cbn. by apply Hk.
Qed.
Lemma check_elements_clean d ts r u r' : check_elements d ts r = Done u r' [] -> Forall (fun t => t = Arith d) ts.
Proof.
  revert r. induction ts as [|t ts IH]; intros r H; cbn [check_elements] in H; [constructor|].
  apply bind_clean in H as (u1 & r1 & H1 & H2). constructor; [|by eapply IH].
  destruct t as [n|t]; cbn in H1; [|done]. apply report_if_clean in H1. apply negb_false_iff, Nat.eqb_eq in H1. by subst.
Qed.
Lemma check_arguments_clean ts r b r' : check_arguments ts r = Done b r' [] -> b = true /\ Forall (fun t => is_template t = false) ts.
Proof.
  revert r b r'. induction ts as [|t ts IH]; intros r b r' H; cbn [check_arguments] in H; [by injection H as <- <-|].
  apply bind_clean in H as (u1 & r1 & H1 & H). apply bind_clean in H as (b1 & r2 & H2 & H3).
  apply report_if_clean in H1. apply IH in H2 as [-> H2]. rewrite H1 in H3. injection H3 as <- <-. split; [done|]. by constructor.
Qed.

Lemma Forall2_same {A B} (Q : A -> B -> Prop) (Q' : A -> B -> Prop) l l' : Forall2 Q l l' -> (forall a b, b ∈ l' -> Q a b -> Q' a b) -> Forall2 Q' l l'.
Proof. induction 1 as [|a b l l' Hab Hl IH]; intros H; constructor; [apply H; [left|done]|]. apply IH. intros. apply H; [by right|done]. Qed.

Lemma type_expression_sound E : okE E -> forall e, sound E e.
Proof.
  intros HE e. induction e using expr_ind'; intros r oo r' H' Hf; cbn [type_expression] in H'; cbn [free_expr] in Hf.
  - injection H' as <- <-. eexists. split; [done|]. split; [done|]. intros σ _. cbn. by eexists.
  - apply bind_clean in H' as (ts & r1 & H1 & H2). apply (type_array_sound E _ H Hf) in H1 as (ts' & -> & H1).
    destruct ts' as [|t ts]; [by apply end_clean in H2|]. apply bind_clean in H2 as (u & r2 & H2 & H3). injection H3 as <- <-.
    apply check_elements_clean in H2. eexists. split; [done|]. split; [done|]. intros σ Hσ. cbn [eval].
    assert (t = Arith (dim t)) as Ht by by apply Forall_cons in H2 as [H2 _]. set (d := dim t) in *.
    eapply fine_bind.
    + apply (fine_rmap2 (fun (t' : ty) v => nest d leaf v)). eapply Forall2_same; [exact H1|]. cbn. intros e t' Hin [_ He].
      rewrite Forall_forall in H2. apply H2 in Hin as ->. eapply fine_bind; [by apply He|]. intros v Hv. by apply (value_fine (Arith d)).
    + intros vs Hvs. assert (Forall (nest d leaf) vs) as Hn. { clear -Hvs. induction Hvs; by constructor. }
      eapply (fine_bind (fun _ => True)).
      * unfold require. replace (forallb _ vs) with true; [done|]. symmetry. apply forallb_forall. intros v Hv. apply forallb_forall. intros w Hw.
        rewrite Forall_forall in Hn. apply (same_depth_nest d); apply Hn; by apply elem_of_list_In.
      * intros _ _. cbn [fine hasty]. replace (d + 1) with (S d) by lia. by exists vs.
  - apply bind_clean in H' as (t & r1 & H1 & H2).
    apply IHe1 in H1 as (t' & -> & Ht & H1); [intros Hi; specialize (Hf Hi); by apply andb_true_iff in Hf as [? ?]|].
    apply bind_clean in H2 as (u & r2 & H2 & H3). apply report_if_clean in H2.
    apply bind_clean in H3 as (n & r3 & H3 & H4). apply IHe2 in H3 as (n' & -> & Hn & H3); [intros Hi; specialize (Hf Hi); by apply andb_true_iff in Hf as [? ?]|].
    apply bind_clean in H4 as (u2 & r4 & H4 & H5). apply report_if_clean in H4. injection H5 as <- <-.
    eexists. split; [done|]. split; [done|]. intros σ Hσ. cbn [eval].
    eapply fine_bind; [by apply H1|]. intros v Hv. eapply fine_bind; [by (eapply value_fine; [|eassumption])|]. clear v Hv. intros v Hv.
    eapply fine_bind; [by apply H3|]. intros w Hw. eapply fine_bind; [by (eapply number_fine; [|eassumption])|]. intros z _.
    unfold array. destruct (z <? 0)%Z; [done|]. destruct t' as [d|]; [|done]. cbn in *. replace (d + 1) with (S d) by lia.
    eexists. split; [done|]. apply Forall_forall. intros a Ha. apply elem_of_list_In, repeat_spec in Ha as ->. done.
  - apply bind_clean in H' as (t & r1 & H1 & H2). apply bind_clean in H2 as (u & r2 & H2 & H3).
    apply IHe1 in H1 as (t1 & -> & _ & H1); [intros Hi; specialize (Hf Hi); by apply andb_true_iff in Hf as [? ?]|].
    apply IHe2 in H2 as (t2 & -> & _ & H2); [intros Hi; specialize (Hf Hi); by apply andb_true_iff in Hf as [? ?]|].
    apply bind_clean in H3 as (u1 & r3 & H3 & H4). apply report_if_clean in H3.
    apply bind_clean in H4 as (u2 & r4 & H4 & H5). apply report_if_clean in H4. rewrite H3, H4 in H5. injection H5 as <- <-.
    eexists. split; [done|]. split; [done|]. intros σ Hσ. cbn [eval].
    eapply fine_bind; [by apply H1|]. intros v Hv. eapply fine_bind; [by (eapply number_fine; [|eassumption])|]. intros z1 _.
    eapply fine_bind; [by apply H2|]. intros w Hw. eapply fine_bind; [by (eapply number_fine; [|eassumption])|]. intros z2 _.
    destruct (den2 o z1 z2); [|done]. cbn. by eexists.
  - apply bind_clean in H' as (t & r1 & H1 & H2). apply IHe in H1 as (t1 & -> & _ & H1); [done|].
    destruct (not_number t1) eqn:En; [by apply end_clean in H2|]. injection H2 as <- <-.
    eexists. split; [done|]. split; [done|]. intros σ Hσ. cbn [eval].
    eapply fine_bind; [by apply H1|]. intros v Hv. eapply fine_bind; [by (eapply number_fine; [|eassumption])|]. intros z1 _.
    destruct (den1 o z1); [|done]. cbn. by eexists.
  - apply bind_clean in H' as (t & r1 & H1 & H2). apply IHe in H1 as (t1 & -> & Ht & H1); [done|].
    destruct t1 as [|t1]; [by apply end_clean in H2|]. injection H2 as <- <-.
    eexists. split; [done|]. split; [done|]. intros σ Hσ. cbn [eval].
    eapply fine_bind; [by apply H1|]. intros v (sigs & -> & Hw). cbn. by eexists.
  - apply bind_clean in H' as (t & r1 & H1 & H). apply bind_clean in H as (u & r2 & H2 & H). apply bind_clean in H as (w & r3 & H3 & H).
    apply IHe1 in H1 as (t1 & -> & _ & H1); [intros Hi; specialize (Hf Hi); apply andb_true_iff in Hf as [Hf ?]; by apply andb_true_iff in Hf as [? ?]|].
    apply IHe2 in H2 as (t2 & -> & Ht & H2); [intros Hi; specialize (Hf Hi); apply andb_true_iff in Hf as [Hf ?]; by apply andb_true_iff in Hf as [? ?]|].
    apply IHe3 in H3 as (t3 & -> & _ & H3); [intros Hi; specialize (Hf Hi); by apply andb_true_iff in Hf as [Hf ?]|].
    apply bind_clean in H as (u1 & r4 & H4 & H). apply check_single_clean in H4.
    apply bind_clean in H as (u2 & r5 & H5 & H). apply report_if_clean, negb_false_iff in H5. injection H as <- <-.
    assert (t2 = t3) as ->.
    { destruct t2, t3; try done; cbn in H5; [apply Nat.eqb_eq in H5|apply bool_decide_eq_true in H5]; by subst. }
    eexists. split; [done|]. split; [done|]. intros σ Hσ. cbn [eval].
    eapply fine_bind; [by apply H1|]. intros v Hv. eapply fine_bind; [by (eapply number_fine; [|eassumption])|]. intros z _.
    destruct (z =? 0)%Z; [by apply H3|by apply H2].
  - apply bind_clean in H' as ([n fl] & r1 & H1 & H2).
    apply (treat_access_sound E _ _ H H0 Hf) in H1 as [-> HA].
    apply bind_clean in H2 as (s & r2 & H2 & H3). apply (access_symbol _ _ _ _ _ _ _ HE) in H2 as (s' & -> & Hs).
    assert (exists t, oo = Some t /\ (inside = false -> is_template t = false) /\ forall v, symbol_value s' v -> hasty t v) as (t & -> & Ht & Hv).
    { destruct s' as [[t|]|d|d].
      - injection H3 as <- <-. eexists. split; [done|]. split; [|done]. intros Hi. inversion Hs as [| |t' HK|]; subst.
        by pose proof (Hfun Hi _ _ HK).
      - by apply end_clean in H3.
      - injection H3 as <- <-. by eexists.
      - injection H3 as <- <-. by eexists. }
    exists t. split; [done|]. split; [done|]. intros σ Hσ. cbn [eval]. apply HA; [done|]. intros is g His Hg.
    eapply fine_mono; [|exact Hv]. rewrite <- His in Hs. by eapply read_fine.
  - apply bind_clean in H' as (ts & r1 & H1 & H2).
    assert (inside = false -> forallb (free_expr P) args = true) as Hfa by (intros Hi; specialize (Hf Hi); by apply andb_true_iff in Hf as [? ?]). apply (type_array_sound E _ H Hfa) in H1 as (ts' & -> & H1).
    apply bind_clean in H2 as (b & r2 & H2 & H3). apply check_arguments_clean in H2 as [-> H2].
    assert (inside = false -> is_function P f = true) as Hfn by (intros Hi; specialize (Hf Hi); by apply andb_true_iff in Hf as [? ?]).
    assert (exists t, oo = Some t /\ (inside = false -> is_template t = false)) as (t & -> & Ht).
    { unfold frozen in H3. unfold is_function in Hfn. destruct (functions P !! f) as [F|].
      - destruct (_ =? _); [|done]. destruct (R !! _); [|done]. injection H3 as <- <-. by eexists.
      - destruct (templates P !! f); [|done]. destruct (_ =? _); [|done]. destruct (R !! _); [|done]. injection H3 as <- <-.
        eexists. split; [done|]. intros Hi. by specialize (Hfn Hi). }
    exists t. split; [done|]. split; [done|]. intros σ Hσ. cbn [eval].
    eapply fine_bind.
    + apply (fine_rmap2 (fun (t' : ty) v => nest (dim t') leaf v)). eapply Forall2_same; [exact H1|]. cbn. intros e t' Hin [_ He].
      eapply fine_bind; [by apply He|]. intros v Hv. rewrite Forall_forall in H2. specialize (H2 _ Hin).
      eapply fine_mono; [by apply (value_fine t')|]. intros w Hw. by destruct t'.
    + intros vs Hvs. destruct (Hrun f (dim <$> ts') vs _ _ _ H3) as (t' & Et & Hr); [done| |by simplify_eq].
      clear -Hvs. induction Hvs; cbn; by constructor.
Qed.
Lemma type_expressions_sound E l : okE E -> Forall (sound E) l.
Proof. intros HE. apply Forall_forall. intros. by apply type_expression_sound. Qed.

(** *** Assignments *)
Lemma put_rel bs cs x d w : Forall2 brel bs cs -> get_variable bs x = Some d -> nest d leaf w -> Forall2 brel bs (put cs x w).
Proof.
  induction 1 as [|b c bs cs Hb Hbs IH]; cbn; [done|]. intros Hg Hw. pose proof (Hb x) as Hx.
  destruct (b !! x) as [d'|] eqn:Eb, (c !! x) as [v|] eqn:Ec; try done.
  - simplify_eq. constructor; [|done]. intros y. destruct (decide (x = y)) as [<-|Hne].
    + by rewrite Eb, lookup_insert.
    + rewrite lookup_insert_ne by done. apply Hb.
  - constructor; [done|]. by apply IH.
Qed.
Lemma assoc_assoc_set f w sigs g v old : assoc f sigs = Some old -> assoc g (assoc_set f w sigs) = Some v ->
  (g = f /\ v = w) \/ assoc g sigs = Some v.
Proof.
  induction sigs as [|[h u] sigs IH]; cbn; [done|]. destruct (bool_decide (f = h)) eqn:E.
  - apply bool_decide_eq_true in E as <-. intros _. cbn. destruct (bool_decide (g = f)) eqn:E2; [|by right].
    apply bool_decide_eq_true in E2 as ->. intros H. simplify_eq. by left.
  - intros H1. cbn. destruct (bool_decide (g = h)) eqn:E2; [by right|]. by apply IH.
Qed.
Lemma instances_nest t d v : nest d (cleaf t) v -> Forall (eq t) (instances v).
Proof.
  revert v. induction d as [|d IH]; intros v; cbn [nest].
  - intros [->|(sigs & -> & _)]; cbn; [constructor|by repeat constructor].
  - intros (l & -> & H). cbn [instances]. induction H as [|w l Hw Hl IHl]; cbn [flat_map]; [constructor|].
    apply Forall_app. split; [by apply IH|done].
Qed.
Lemma one_template_nest t d v : nest d (cleaf t) v -> one_template v = true.
Proof.
  intros H%instances_nest. unfold one_template. destruct H as [|u l <- Hl]; [done|].
  apply forallb_forall. intros u Hu. rewrite Forall_forall in Hl. apply bool_decide_eq_true. apply Hl. by apply elem_of_list_In.
Qed.

Lemma type_substitution_sound E x is field s o t r E' r' : symbol_of E x (length is) field s -> operator_error s o = None ->
  type_substitution E x s t r = Done E' r' [] ->
  E' = E /\ forall σ v g, rel (blocks E) σ -> hasty t v -> field_of field g -> fine (rel (blocks E)) (assign P σ x is g o v).
Proof.
  intros Hs Ho H. split.
  { unfold type_substitution in H. destruct Hs.
    - apply bind_clean in H as (? & ? & _ & H). by injection H as <- <-.
    - apply bind_clean in H as (? & ? & _ & H). by injection H as <- <-.
    - destruct t; apply bind_clean in H as (? & ? & _ & H); by injection H as <- <-.
    - apply bind_clean in H as (? & ? & _ & H). by injection H as <- <-. }
  intros σ v g Hσ Hv Hg. unfold assign. pose proof (get_rel (blocks E) (vars σ) x (rel_blocks _ _ Hσ)) as Hx.
  assert (Harith : forall d, (if is_template t then add_report "WrongTypesInAssignOperationExpression"
         else report_if (negb (d =? dim t)) "WrongTypesInAssignOperationDims") r ≠ Panic -> True) by done.
  assert (HA : forall d r1 (u : unit), (if is_template t then add_report "WrongTypesInAssignOperationExpression"
         else report_if (negb (d =? dim t)) "WrongTypesInAssignOperationDims") r = Done u r1 [] -> t = Arith d).
  { intros d r1 u Hc. destruct t as [n|]; cbn in Hc; [|done]. apply report_if_clean, negb_false_iff, Nat.eqb_eq in Hc. by subst. }
  clear Harith. unfold type_substitution in H.
  destruct Hs as [d HK Ev|d HK Ev|t' HK Ev|t' D f k d HK Ev ET Hk Hh]; rewrite Ev in Hx.
  - apply bind_clean in H as (u & r1 & H%HA & _). subst t. destruct (get (vars σ) x) as [old|]; [|done].
    destruct g; [done|]. destruct o; try done. eapply fine_bind.
    + apply (fine_update (nest d leaf)); [by apply nest_add|]. intros w Hw. by apply fine_overlay.
    + intros w Hw. destruct Hσ as [H1 H2 H3]. split; cbn; [|done|done]. eapply put_rel; [done|done|]. by apply nest_add.
  - apply bind_clean in H as (u & r1 & H%HA & _). subst t. destruct (get (vars σ) x) as [old|]; [done|].
    rewrite (no_comp _ _ _ _ Hσ HK) by done. destruct (signals σ !! x) as [old|] eqn:E1; [|done].
    destruct g; [done|]. apply (rel_signals _ _ Hσ) in E1 as (d' & E1 & Hn). rewrite HK in E1. simplify_eq.
    destruct o; try done; (eapply fine_bind;
      [apply (fine_update (nest d leaf)); [by apply nest_add|]; intros w Hw; by apply fine_overlay|]);
      (intros w Hw; destruct Hσ as [H1 H2 H3]; split; cbn; [done| |done]; intros y vy Hy;
       destruct (decide (x = y)) as [<-|Hne];
       [rewrite lookup_insert in Hy; simplify_eq; eexists; split; [done|]; by apply nest_add
       |rewrite lookup_insert_ne in Hy by done; by apply H2]).
  - destruct (get (vars σ) x) as [old|]; [done|]. rewrite (no_signal _ _ _ _ Hσ HK) by done.
    destruct (comps σ !! x) as [old|] eqn:E1; [|done]. destruct g; [done|]. destruct o; try done.
    apply (rel_comps _ _ Hσ) in E1 as (t1 & d' & E1 & Hn). rewrite HK in E1. injection E1 as <- <-.
    destruct t as [|t]; [apply bind_clean in H as (? & ? & ? & _); discriminate|].
    apply bind_clean in H as (u & r1 & H%report_if_clean & _). apply negb_false_iff, bool_decide_eq_true in H as <-.
    destruct Hv as (sigs & -> & Hw). cbn [instance rbind].
    eapply (fine_bind (nest (length is) (cleaf t'))).
    + eapply fine_bind.
      * apply (fine_update (cleaf t')); [done|]. intros w [->|(s' & -> & _)]; [|done]. cbn. right. by eexists.
      * intros w Hw'. rewrite (one_template_nest _ _ _ Hw'). done.
    + intros w Hw'. destruct Hσ as [H1 H2 H3]. split; cbn; [done|done|]. intros y vy Hy.
      destruct (decide (x = y)) as [<-|Hne]; [rewrite lookup_insert in Hy; simplify_eq; by eexists _, _|].
      rewrite lookup_insert_ne in Hy by done. by apply H3.
  - destruct (get (vars σ) x) as [old|]; [done|]. rewrite (no_signal _ _ _ _ Hσ HK) by done.
    destruct (comps σ !! x) as [old|] eqn:E1; [|done]. destruct g as [[f' js]|]; [|done]. destruct Hg as [<- <-].
    apply (rel_comps _ _ Hσ) in E1 as (t1 & d' & E1 & Hn). rewrite HK in E1. injection E1 as <- <-.
    apply bind_clean in H as (u & r1 & H%HA & _). subst t.
    eapply (fine_bind (nest (length is) (cleaf t'))).
    + destruct o; try done; (apply (fine_update (cleaf t')); [done|]; intros w [->|(sigs & -> & Hw)]; [done|];
        destruct Hw as (D' & ED & Hw); pose proof ED as ED'; rewrite ET in ED'; injection ED' as <-;
        destruct (assoc f sigs) as [old'|] eqn:Ea; [|by rewrite ET, Hh];
        destruct (Hw _ _ Ea) as (d' & E2 & Hn'); rewrite Hk in E2; injection E2 as <-;
        eapply fine_bind; [apply (fine_update (nest d leaf)); [by apply nest_add|]; intros w Hw'; by apply fine_overlay|];
        intros w Hw'; right; eexists; split; [done|]; exists D; split; [done|]; intros h u' Hu;
        destruct (assoc_assoc_set _ _ _ _ _ _ Ea Hu) as [[-> ->]|Hu']; [eexists; split; [done|]; by apply nest_add|by apply Hw]).
    + intros w Hw'. destruct Hσ as [H1 H2 H3]. split; cbn; [done|done|]. intros y vy Hy.
      destruct (decide (x = y)) as [<-|Hne]; [rewrite lookup_insert in Hy; simplify_eq; by eexists _, _|].
      rewrite lookup_insert_ne in Hy by done. by apply H3.
Qed.

(** *** Statements *)
Context (here : string) (args : list val) (sv : string -> list val -> string -> list nat -> Z) (n : nat) (ret : option nat).
Hypothesis Hret : ret = None <-> inside = true.
Notation ts := (type_statement P (frozen P R) ret).
Notation ex := (exec P den1 den2 sv inside here args run n).
(** the names declared stand for what [K] says *)
Definition declares (s : stmt) : Prop := forall a, a ∈ declarations s -> K a.1.2 = class_of a /\ class_of a <> None.
(** what is left after a statement *)
Definition after (bs : list (gmap string nat)) (o : outcome) : Prop :=
  match o.2 with None => rel bs o.1 | Some v => inside = false /\ exists d, ret = Some d /\ nest d leaf v end.
Definition sound_statement (s : stmt) : Prop := forall E r E' r', okE E -> ts E s r = Done E' r' [] ->
  declares s -> parsed s = true -> (inside = false -> free_of_template_elements P s = true) ->
  okE E' /\ tail (blocks E') = tail (blocks E) /\ (no_declaration s = true -> blocks E' = blocks E) /\
  forall σ, rel (blocks E) σ -> fine (after (blocks E')) (ex σ s).

Lemma sequence_sound l : Forall sound_statement l -> forall E r E' r', okE E ->
  treat_sequence P (frozen P R) ret E l r = Done E' r' [] ->
  Forall declares l -> forallb parsed l = true -> (inside = false -> forallb (free_of_template_elements P) l = true) ->
  okE E' /\ tail (blocks E') = tail (blocks E) /\
  forall σ, rel (blocks E) σ -> fine (after (blocks E')) (sequence ex σ l).
Proof.
  induction 1 as [|s l Hs Hl IH]; intros E r E' r' HE H Hd Hp Hf; cbn [treat_sequence] in H.
  - injection H as <- <-. split; [done|]. split; [done|]. intros σ Hσ. done.
  - apply bind_clean in H as (E1 & r1 & H1 & H2). apply Forall_cons in Hd as [Hd1 Hd2]. cbn in Hp.
    apply andb_true_iff in Hp as [Hp1 Hp2].
    assert (inside = false -> free_of_template_elements P s = true) as Hf1 by (intros Hi; specialize (Hf Hi); by apply andb_true_iff in Hf as [? ?]).
    assert (inside = false -> forallb (free_of_template_elements P) l = true) as Hf2 by (intros Hi; specialize (Hf Hi); by apply andb_true_iff in Hf as [? ?]).
    destruct (Hs _ _ _ _ HE H1 Hd1 Hp1 Hf1) as (HE1 & Ht1 & _ & HX1).
    destruct (IH _ _ _ _ HE1 H2 Hd2 Hp2 Hf2) as (HE2 & Ht2 & HX2).
    split; [done|]. split; [congruence|]. intros σ Hσ. cbn [sequence]. eapply fine_bind; [by apply HX1|].
    intros [σ1 [v|]] Ho; [exact Ho|]. by apply HX2.
Qed.
Lemma declares_list l : (forall a, a ∈ flat_map declarations l -> K a.1.2 = class_of a /\ class_of a <> None) -> Forall declares l.
Proof.
  intros H. apply Forall_forall. intros s Hs a Ha. apply H. apply elem_of_list_In, in_flat_map. exists s.
  split; by apply elem_of_list_In.
Qed.
Lemma check_sizes_clean l r u r' : check_sizes l r = Done u r' [] -> Forall (fun t => not_number t = false) l.
Proof.
  revert r. induction l as [|t l IH]; intros r H; cbn [check_sizes] in H; [constructor|].
  apply bind_clean in H as (u1 & r1 & H1 & H2). constructor; [by eapply check_size_clean|by eapply IH].
Qed.
Lemma type_log_sound E l : okE E -> (inside = false -> forallb (free_expr P) l = true) ->
  forall r o r', type_log (te E) l r = Done o r' [] ->
  forall σ, rel (blocks E) σ -> fine (fun _ => True) (rmap (fun e => v <- ev σ e; number v) l).
Proof.
  intros HE Hf%forallb_all r o r' H σ Hσ.
  eapply fine_mono; [apply (fine_rmap (fun _ _ => True))|done].
  revert r o r' H. induction Hf as [|e l Hf1 Hf2 IH]; intros r o r' H; cbn [type_log] in H; [constructor|].
  apply bind_clean in H as (t & r1 & H1 & H).
  destruct (type_expression_sound E HE e _ _ _ H1 Hf1) as (t' & -> & _ & H1').
  apply bind_clean in H as (u & r2 & H2 & H). apply check_single_clean in H2. constructor; [|by eapply IH].
  eapply fine_bind; [by apply H1'|]. intros v Hv. by (eapply number_fine; [|eassumption]).
Qed.
Lemma sizes_sound E l : okE E -> (inside = false -> forallb (free_expr P) l = true) ->
  forall r o r1 r2 u r', type_array (te E) l r = Done o r1 [] -> check_sizes (default [] o) r2 = Done u r' [] ->
  forall σ, rel (blocks E) σ -> fine (fun zs => length zs = length l) (rmap (fun e => v <- ev σ e; number v) l).
Proof.
  intros HE Hf r o r1 r2 u r' H1 H2 σ Hσ.
  destruct (type_array_sound E l (type_expressions_sound E l HE) Hf _ _ _ H1) as (ts & -> & Hts). cbn in H2.
  apply check_sizes_clean in H2.
  eapply fine_mono; [apply (fine_rmap2 (fun (t : ty) z => True)); eapply Forall2_same; [exact Hts|]|].
  - cbn. intros e t Hin [_ He]. rewrite Forall_forall in H2. specialize (H2 _ Hin).
    eapply fine_bind; [by apply He|]. intros v Hv. by (eapply number_fine; [|eassumption]).
  - intros zs Hz. apply Forall2_length in Hz, Hts. lia.
Qed.

Lemma block_rel b bs σ : rel (b :: bs) σ -> rel bs (State (tail (vars σ)) (signals σ) (comps σ)).
Proof. intros [H1 H2 H3]. split; cbn; [|done|done]. by inversion H1. Qed.
Lemma declare_sound E k x l (ds : nat) : okE E -> ds = length l -> K x = class_of (k, x, ds) -> class_of (k, x, ds) <> None ->
  (inside = false -> k = KVar) ->
  okE (declare E k x ds) /\ tail (blocks (declare E k x ds)) = tail (blocks E) /\
  forall σ, rel (blocks E) σ -> fine (rel (blocks (declare E k x ds))) (declare_value sv inside here args σ k x l).
Proof.
  intros (HS & HC & HV) -> HK Hn Hi. destruct k as [|sk|[t|]]; cbn in HK; [| | |done].
  - cbn [declare]. unfold add_variable. destruct (blocks E) as [|b bs] eqn:EB.
    + split; [split; [done|]; split; [done|]; by rewrite EB|]. split; [by rewrite EB|]. intros σ Hσ. rewrite EB. cbn [declare_value].
      eapply fine_bind; [by apply (fine_fill leaf); intros; eexists|]. intros v Hv.
      destruct Hσ as [H1 _ _]. inversion H1. done.
    + apply Forall_cons in HV as [Hb Hbs]. split; [split; [done|]; split; [done|]; cbn; constructor; [|done]|].
      { intros y d Hy. destruct (decide (x = y)) as [<-|Hne]; [done|]. rewrite lookup_insert_ne in Hy by done. by eapply Hb. }
      split; [done|]. intros σ Hσ. cbn [declare_value blocks].
      eapply fine_bind; [by apply (fine_fill leaf); intros; eexists|]. intros v Hv.
      destruct Hσ as [H1 H2 H3]. inversion H1 as [|b' c bs' cs Hbc Hcs]; subst. split; cbn; [|done|done].
      constructor; [|done]. intros y. destruct (decide (x = y)) as [<-|Hne]; [by rewrite !lookup_insert|].
      rewrite !lookup_insert_ne by done. apply Hbc.
  - assert (inside = true) as Hin by (destruct inside; [done|by specialize (Hi eq_refl)]).
    assert (blocks (declare E (KSignal sk) x (length l)) = blocks E) as EB by by destruct sk. rewrite EB.
    split.
    + split; [|by destruct sk]. unfold get_signal in *. intros y d Hy. specialize (HS y).
      destruct sk; cbn in Hy; (destruct (decide (x = y)) as [<-|Hne];
        [rewrite ?lookup_insert in Hy|rewrite ?lookup_insert_ne in Hy by done; by apply HS]).
      * by simplify_eq.
      * destruct (inputs E !! x); [by apply HS|]. by simplify_eq.
      * destruct (inputs E !! x); [by apply HS|]. destruct (outputs E !! x); [by apply HS|]. by simplify_eq.
    + split; [done|]. intros σ Hσ. cbn [declare_value]. rewrite Hin. cbn [require rbind].
      eapply fine_bind; [by apply (fine_fill leaf); intros; eexists|]. intros v Hv.
      destruct Hσ as [H1 H2 H3]. split; cbn; [done| |done]. intros y vy Hy.
      destruct (decide (x = y)) as [<-|Hne]; [rewrite lookup_insert in Hy; simplify_eq; by eexists|].
      rewrite lookup_insert_ne in Hy by done. by apply H2.
  - assert (inside = true) as Hin by (destruct inside; [done|by specialize (Hi eq_refl)]).
    split; [split; [done|]; split; [|done]; cbn; intros y o d Hy|].
    { destruct (decide (x = y)) as [<-|Hne]; [rewrite lookup_insert in Hy; simplify_eq; by eexists|].
      rewrite lookup_insert_ne in Hy by done. by eapply HC. }
    split; [done|]. intros σ Hσ. cbn [declare_value declare blocks]. rewrite Hin. cbn [require rbind].
    eapply fine_bind; [apply (fine_fill (cleaf t)); intros; by left|]. intros v Hv.
    destruct Hσ as [H1 H2 H3]. split; cbn; [done|done|]. intros y vy Hy.
    destruct (decide (x = y)) as [<-|Hne]; [rewrite lookup_insert in Hy; simplify_eq; by eexists _, _|].
    rewrite lookup_insert_ne in Hy by done. by apply H3.
Qed.

Lemma loop_sound bs c f : (forall σ, rel bs σ -> fine (fun _ => True) (c σ)) -> (forall σ, rel bs σ -> fine (after bs) (f σ)) ->
  forall m σ, rel bs σ -> fine (after bs) (loop m c f σ).
Proof.
  intros Hc Hf. induction m as [|m IH]; intros σ Hσ; cbn [loop]; [done|].
  eapply fine_bind; [by apply Hc|]. intros z _. destruct (z =? 0)%Z; [done|].
  eapply fine_bind; [by apply Hf|]. intros [σ1 [v|]] Ho; [exact Ho|]. by apply IH.
Qed.
Lemma single_sound E e : okE E -> (inside = false -> free_expr P e = true) -> forall r o r1 r2 u r', te E e r = Done o r1 [] ->
  match o with None => mret tt | Some t => check_single t end r2 = Done u r' [] ->
  forall σ, rel (blocks E) σ -> fine (fun _ => True) (v <- ev σ e; number v).
Proof.
  intros HE Hf r o r1 r2 u r' H1 H2 σ Hσ. destruct (type_expression_sound E HE e _ _ _ H1 Hf) as (t & -> & _ & He).
  apply check_single_clean in H2. eapply fine_bind; [by apply He|]. intros v Hv. by (eapply number_fine; [|eassumption]).
Qed.
Lemma rbind_assoc {A B C} (x : TypeSpec.R A) (f : A -> TypeSpec.R B) (g : B -> TypeSpec.R C) :
  rbind x (fun a => rbind (f a) g) = rbind (rbind x f) g.
Proof. by destruct x. Qed.

Ltac frees Hf := let Hi := fresh in intros Hi; specialize (Hf Hi);
  repeat match type of Hf with _ && _ = true => let H := fresh in apply andb_true_iff in Hf as [Hf H] end; done.

Lemma type_statement_sound s : sound_statement s.
Proof.
  induction s using stmt_ind'; intros E r0 E' r' HE HT Hd Hp Hf; cbn [type_statement] in HT; cbn [parsed] in Hp;
    cbn [free_of_template_elements] in Hf.
  - (* IfThenElse *)
    apply bind_clean in HT as (o & r1 & H1 & HT). apply bind_clean in HT as (E1 & r2 & H2 & HT).
    apply bind_clean in HT as (E2 & r3 & H3 & HT). apply bind_clean in HT as (u & r4 & H4 & HT). injection HT as <- <-.
    apply andb_true_iff in Hp as [Hp Hp3]. apply andb_true_iff in Hp as [Hp1 Hp2].
    assert (declares s) as Hd1. { intros a Ha. apply Hd. cbn. apply elem_of_app. by left. }
    destruct (IHs _ _ _ _ HE H2 Hd1 Hp1) as (HE1 & Ht1 & Hn1 & HX1); [frees Hf|]. specialize (Hn1 Hp2).
    assert (okE E2 /\ blocks E2 = blocks E1 /\ forall σ, rel (blocks E1) σ ->
      fine (after (blocks E2)) (match f with Some f => ex σ f | None => Ok (σ, None) end)) as (HE2 & Hn2 & HX2).
    { destruct f as [f|].
      - apply andb_true_iff in Hp3 as [Hp3 Hp4].
        assert (declares f) as Hd2. { intros a Ha. apply Hd. cbn. apply elem_of_app. by right. }
        destruct (H _ _ _ _ HE1 H3 Hd2 Hp3) as (HE2 & _ & Hn2 & HX2); [frees Hf|]. specialize (Hn2 Hp4). done.
      - injection H3 as <- <-. split; [done|]. split; [done|]. intros σ Hσ. done. }
    split; [done|]. split; [congruence|]. split; [intros _; congruence|]. intros σ Hσ. cbn [exec].
    rewrite rbind_assoc. eapply fine_bind; [eapply single_sound; [exact HE|frees Hf|exact H1|exact H4|exact Hσ]|].
    intros z _. rewrite Hn2. rewrite Hn2, Hn1 in HX2. rewrite Hn1 in *. destruct (z =? 0)%Z; [by apply HX2|by apply HX1].
  - (* While *)
    apply bind_clean in HT as (o & r1 & H1 & HT). apply bind_clean in HT as (E1 & r2 & H2 & HT).
    apply bind_clean in HT as (u & r4 & H4 & HT). injection HT as <- <-.
    apply andb_true_iff in Hp as [Hp1 Hp2].
    destruct (IHs _ _ _ _ HE H2 Hd Hp1) as (HE1 & Ht1 & Hn1 & HX1); [frees Hf|]. specialize (Hn1 Hp2). rewrite Hn1 in *.
    split; [done|]. split; [done|]. split; [done|]. intros σ Hσ. cbn [exec]. apply loop_sound; [|done|done].
    intros σ' Hσ'. eapply single_sound; [exact HE|frees Hf|exact H1|exact H4|exact Hσ'].
  - (* Return *)
    apply bind_clean in HT as (o & r1 & H1 & HT).
    destruct (type_expression_sound E HE e _ _ _ H1 Hf) as (t & -> & Ht & He).
    destruct ret as [d|] eqn:Er; [|done]. assert (inside = false) as Hin by (destruct inside; [|done]; by destruct Hret as [_ Hr]; specialize (Hr eq_refl)).
    apply bind_clean in HT as (u & r2 & H2 & HT). injection HT as <- <-. apply report_if_clean, negb_false_iff, Nat.eqb_eq in H2 as ->.
    split; [done|]. split; [done|]. split; [done|]. intros σ Hσ. cbn [exec]. rewrite Hin. cbn [negb require rbind].
    eapply fine_bind; [by apply He|]. intros v Hv. eapply fine_bind; [by apply (value_fine t); [apply Ht|]|].
    intros w Hw. cbn. split; [done|]. eexists. split; [done|]. specialize (Ht Hin). by destruct t.
  - (* InitializationBlock *)
    assert (inside = false -> forallb (free_of_template_elements P) l = true) as Hf' by (intros Hi; specialize (Hf Hi); by destruct k).
    destruct (sequence_sound l H E r0 E' r' HE HT) as (HE1 & Ht1 & HX1); [by apply declares_list|done|done|].
    split; [done|]. split; [done|]. split; [done|]. done.
  - (* Declaration *)
    apply bind_clean in HT as (o & r1 & H1 & HT). apply bind_clean in HT as (u & r2 & H2 & HT). injection HT as <- <-.
    destruct (Hd (k, x, length ds)) as [HK Hn]; [by left|]. cbn in HK.
    assert (inside = false -> k = KVar) as Hk by (intros Hi; specialize (Hf Hi); by destruct k).
    assert (inside = false -> forallb (free_expr P) ds = true) as Hfd by (intros Hi; specialize (Hf Hi); by destruct k).
    destruct (declare_sound E k x (repeat 0%Z (length ds)) (length ds) HE) as (HE1 & Ht1 & _); [by rewrite repeat_length|done|done|done|].
    split; [done|]. split; [done|]. split; [done|]. intros σ Hσ. cbn [exec].
    eapply fine_bind; [exact (sizes_sound E ds HE Hfd _ _ _ _ _ _ H1 H2 σ Hσ)|]. intros zs Hz.
    destruct (declare_sound E k x zs (length ds) HE) as (_ & _ & HX); [done|done|done|done|].
    eapply fine_bind; [by apply HX|]. intros σ' Hσ'. done.
  - (* Substitution *)
    apply bind_clean in HT as (oo & r1 & H1 & HT).
    destruct (type_expression_sound E HE e _ _ _ H1) as (t & -> & Ht & He); [frees Hf|].
    apply bind_clean in HT as ([m fl] & r2 & H2 & HT).
    assert (inside = false -> forallb (free_expr P) idx && match field with None => true | Some _ => false end = true) as Hfi.
    { intros Hi. specialize (Hf Hi). apply andb_true_iff in Hf as [Hf _]. apply andb_true_iff in Hf as [Hf Hf3].
      apply andb_true_iff in Hf as [_ Hf]. by rewrite Hf, Hf3. }
    assert (match field with None => True | Some (_, l) => Forall (sound E) l end) as Hfl.
    { destruct field as [[]|]; [|done]. by apply type_expressions_sound. }
    destruct (treat_access_sound E idx field (type_expressions_sound E idx HE) Hfl Hfi _ _ _ _ H2) as [-> HA].
    apply bind_clean in HT as (s & r3 & H3 & HT). apply (access_symbol _ _ _ _ _ _ _ HE) in H3 as (s' & -> & Hs).
    destruct (operator_error s' o) eqn:Eo; [apply bind_clean in HT as (? & ? & ? & _); discriminate|].
    assert (E' = E) as ->.
    { pose proof Hs as Hs0. rewrite <- (repeat_length 0%Z (length idx)) in Hs0.
      by destruct (type_substitution_sound E x _ fl s' o t _ _ _ Hs0 Eo HT). }
    split; [done|]. split; [done|]. split; [done|]. intros σ Hσ. cbn [exec]. eapply fine_bind; [by apply He|]. intros v Hv.
    apply HA; [done|]. intros is g His Hg. rewrite <- His in Hs.
    destruct (type_substitution_sound E x _ fl s' o t _ _ _ Hs Eo HT) as [_ HX].
    eapply fine_bind; [by apply HX|]. intros σ' Hσ'. done.
  - (* UnderscoreSubstitution *)
    apply bind_clean in HT as (oo & r1 & H1 & HT).
    destruct (type_expression_sound E HE e _ _ _ H1) as (t & -> & Ht & He).
    { intros Hi; specialize (Hf Hi). by apply andb_true_iff in Hf as [? ?]. }
    apply bind_clean in HT as (u & r2 & H2%report_if_clean & HT). injection HT as <- <-.
    split; [done|]. split; [done|]. split; [done|]. intros σ Hσ. cbn [exec]. eapply fine_bind; [by apply He|]. intros v Hv.
    eapply fine_bind; [by apply (value_fine t)|]. intros w _. done.
  - (* ConstraintEquality *)
    assert (inside = true) as Hin by (destruct inside; [done|by specialize (Hf eq_refl)]).
    assert (forall e, inside = false -> free_expr P e = true) as Hfe by (intros ? Hi; congruence).
    apply bind_clean in HT as (o1 & r1 & H1 & HT). apply bind_clean in HT as (o2 & r2 & H2 & HT).
    destruct (type_expression_sound E HE l _ _ _ H1 (Hfe _)) as (t1 & -> & _ & He1).
    destruct (type_expression_sound E HE r _ _ _ H2 (Hfe _)) as (t2 & -> & _ & He2).
    apply bind_clean in HT as (u1 & r3 & H3%report_if_clean & HT). apply bind_clean in HT as (u2 & r4 & H4%report_if_clean & HT).
    apply bind_clean in HT as (u3 & r5 & H5%report_if_clean & HT). apply negb_false_iff, Nat.eqb_eq in H5. injection HT as <- <-.
    destruct t1 as [d1|]; [|done]. destruct t2 as [d2|]; [|done]. cbn in H5. subst d2.
    split; [done|]. split; [done|]. split; [done|]. intros σ Hσ. cbn [exec]. rewrite Hin. cbn [require rbind].
    eapply fine_bind; [by apply He1|]. intros v Hv. eapply fine_bind; [by apply (value_fine (Arith d1))|]. clear v Hv. intros v Hv.
    eapply fine_bind; [by apply He2|]. intros w Hw. eapply fine_bind; [by apply (value_fine (Arith d1))|]. clear w Hw. intros w Hw.
    cbn in Hv, Hw. rewrite (same_depth_nest _ _ _ Hv Hw). done.
  - (* LogCall *)
    apply bind_clean in HT as (u & r1 & H1 & HT). injection HT as <- <-.
    split; [done|]. split; [done|]. split; [done|]. intros σ Hσ. cbn [exec].
    eapply fine_bind; [by eapply type_log_sound|]. intros zs _. done.
  - (* Block *)
    apply bind_clean in HT as (E1 & r1 & H1 & HT). injection HT as <- <-.
    assert (okE (add_block E)) as HE0.
    { destruct HE as (HS & HC & HV). split; [done|]. split; [done|]. cbn. constructor; [|done]. intros x d Hx. by rewrite lookup_empty in Hx. }
    destruct (sequence_sound l H (add_block E) r0 E1 r1 HE0 H1) as (HE1 & Ht1 & HX1); [by apply declares_list|done|done|].
    cbn in Ht1. assert (blocks (remove_block E1) = blocks E) as EB by done.
    split. { destruct HE1 as (HS & HC & HV). split; [done|]. split; [done|]. cbn. destruct HV; [constructor|done]. }
    rewrite EB. split; [done|]. split; [done|]. intros σ Hσ. cbn [exec]. eapply fine_bind.
    + apply HX1. destruct Hσ as [H2 H3 H4]. split; cbn; [|done|done]. constructor; [|done]. intros x. by rewrite !lookup_empty.
    + intros [σ1 [v|]] Ho; [exact Ho|]. unfold after in *. cbn in *. rewrite <- Ht1. destruct Ho as [H2 H3 H4].
      split; cbn; [|done|done]. destruct H2; [constructor|done].
  - (* Assert *)
    apply bind_clean in HT as (oo & r1 & H1 & HT). apply bind_clean in HT as (u & r2 & H2 & HT). injection HT as <- <-.
    split; [done|]. split; [done|]. split; [done|]. intros σ Hσ. cbn [exec]. rewrite rbind_assoc.
    eapply fine_bind; [by eapply single_sound|]. intros z _. by destruct (z =? 0)%Z.
Qed.
Lemma body_sound l E r E' r' : okE E -> treat_sequence P (frozen P R) ret E l r = Done E' r' [] ->
  Forall declares l -> forallb parsed l = true -> (inside = false -> forallb (free_of_template_elements P) l = true) ->
  forall σ, rel (blocks E) σ -> fine (fun o => exists bs, after bs o) (sequence ex σ l).
Proof.
  intros HE HT Hd Hp Hf σ Hσ. assert (Forall sound_statement l) as Hs by (apply Forall_forall; intros; apply type_statement_sound).
  destruct (sequence_sound l Hs E r E' r' HE HT Hd Hp Hf) as (_ & _ & HX). eapply fine_mono; [by apply HX|]. intros o Ho. by eexists.
Qed.
End body.

(** ** Calls *)
Lemma bind_rel xs ds vs b c : brel b c -> Forall2 (fun d v => nest d leaf v) ds vs ->
  brel (foldl (fun b '(x, d) => <[x := d]> b) b (zip xs ds)) (foldl (fun b '(x, v) => <[x := v]> b) c (zip xs vs)).
Proof.
  revert ds vs b c. induction xs as [|x xs IH]; intros ds vs b c Hb Hv; [done|].
  destruct Hv as [|d v ds vs Hdv Hv]; [done|]. cbn [zip zip_with foldl]. apply IH; [|done].
  intros y. destruct (decide (x = y)) as [<-|Hne]; [by rewrite !lookup_insert|]. rewrite !lookup_insert_ne by done. apply Hb.
Qed.
Lemma bind_class (K : string -> option class) xs ds (b : gmap string nat) : (forall x, x ∈ xs -> K x = Some CV) ->
  (forall x d, b !! x = Some d -> K x = Some CV) ->
  forall x (d : nat), foldl (fun b '(x, d) => <[x := d]> b) b (zip xs ds) !! x = Some d -> K x = Some CV.
Proof.
  revert ds b. induction xs as [|y xs IH]; intros ds b Hx Hb x d; [by apply Hb|].
  destruct ds as [|n ds]; [by apply Hb|]. cbn [zip zip_with foldl]. apply IH; [intros; apply Hx; by right|].
  intros z m Hz. destruct (decide (y = z)) as [<-|Hne]; [apply Hx; by left|]. rewrite lookup_insert_ne in Hz by done. by eapply Hb.
Qed.
Lemma declares_body D : consistent D -> Forall (declares (kof D)) (body D).
Proof.
  intros HD. apply declares_list. intros a Ha. apply kof_declared; [done|]. unfold all_declarations. apply elem_of_app. by right.
Qed.
Lemma parameters_class D x : consistent D -> x ∈ params D -> kof D x = Some CV.
Proof.
  intros HD Hx. destruct (kof_declared D (KVar, x, 0) HD) as [E _]; [|exact E].
  unfold all_declarations. apply elem_of_app. left. by apply (elem_of_list_fmap_1 (fun x => (KVar, x, 0))).
Qed.
Lemma free_declarations s : free_of_template_elements P s = true -> forall a, a ∈ declarations s -> a.1.1 = KVar.
Proof.
  assert (forall l, Forall (fun s => free_of_template_elements P s = true -> forall a, a ∈ declarations s -> a.1.1 = KVar) l ->
    forallb (free_of_template_elements P) l = true -> forall a, a ∈ flat_map declarations l -> a.1.1 = KVar) as Hl.
  { induction 1 as [|s' l Hs Hl IH]; cbn; intros Hf a Ha; [by apply elem_of_nil in Ha|].
    apply andb_true_iff in Hf as [Hf1 Hf2]. apply elem_of_app in Ha as [Ha|Ha]; [by apply Hs|by apply IH]. }
  induction s using stmt_ind'; cbn [free_of_template_elements declarations]; intros Hf a Ha; try by apply elem_of_nil in Ha.
  - apply andb_true_iff in Hf as [Hf Hf2]. apply andb_true_iff in Hf as [_ Hf]. apply elem_of_app in Ha as [Ha|Ha]; [by apply IHs|].
    destruct f; [by apply H|by apply elem_of_nil in Ha].
  - apply andb_true_iff in Hf as [_ Hf]. by apply IHs.
  - apply (Hl l); [done| |done]. by destruct k.
  - apply elem_of_list_singleton in Ha as ->. by destruct k.
  - by apply (Hl l).
Qed.
Lemma function_class D x c : forallb (free_of_template_elements P) (body D) = true -> kof D x = Some c -> c = CV.
Proof.
  intros Hf. unfold kof. destruct (List.find _ _) as [a|] eqn:E; [|done]. apply find_some in E as [Ha _]. apply elem_of_list_In in Ha.
  assert (a.1.1 = KVar) as Hk.
  { unfold all_declarations in Ha. apply elem_of_app in Ha as [Ha|Ha].
    - apply elem_of_list_fmap in Ha as (y & -> & _). done.
    - apply elem_of_list_In, in_flat_map in Ha as (s & Hs & Ha). apply (free_declarations s); [|by apply elem_of_list_In].
      by apply (proj1 (forallb_forall _ _) Hf). }
  unfold class_of. rewrite Hk. congruence.
Qed.
Lemma call_okE D ds : consistent D -> okE (kof D) (call_environment (params D) ds).
Proof.
  intros HD. split; [|split]; cbn.
  - intros x d. unfold get_signal. cbn. by rewrite !lookup_empty.
  - intros x o d Hx. by rewrite lookup_empty in Hx.
  - constructor; [|constructor]. intros x d Hx. eapply bind_class; [| |exact Hx]; [intros; by apply parameters_class|].
    intros y m Hy. by rewrite lookup_empty in Hy.
Qed.
Lemma call_rel K xs ds vs : Forall2 (fun d v => nest d leaf v) ds vs ->
  rel K (blocks (call_environment xs ds)) (State [bind_values xs vs] ∅ ∅).
Proof.
  intros H. split; cbn; [|intros x v Hx; by rewrite lookup_empty in Hx|intros x v Hx; by rewrite lookup_empty in Hx].
  constructor; [|constructor]. apply bind_rel; [|done]. intros x. by rewrite !lookup_empty.
Qed.
Lemma assoc_in f l v : assoc f l = Some v -> (f, v) ∈ l.
Proof.
  induction l as [|[g u] l IH]; cbn; [done|]. destruct (bool_decide (f = g)) eqn:E.
  - apply bool_decide_eq_true in E as <-. intros H. simplify_eq. by left.
  - intros H. right. by apply IH.
Qed.

Section runs.
Context (R : register) (den1 : string -> Z -> option Z) (den2 : string -> Z -> Z -> option Z) (sv : string -> list val -> string -> list nat -> Z).
Hypothesis HR : forall f ds d, R !! (f, ds) = Some d -> checked P R f ds d.
Hypothesis Hfree : forall f F, functions P !! f = Some F -> forallb (free_of_template_elements P) (body F) = true.

Lemma run_sound n : forall inside f ds vs r o r', frozen P R f ds r = Done o r' [] ->
  (inside = false -> is_function P f = true) -> Forall2 (fun d v => nest d leaf v) ds vs ->
  exists t, o = Some t /\ fine (hasty t) (run P den1 den2 sv n inside f vs).
Proof.
  induction n as [|n IH]; intros inside f ds vs r o r' H Hin Hv.
  - unfold frozen in H. cbn [run]. destruct (functions P !! f) as [F|].
    + destruct (_ =? _); [|done]. destruct (R !! _); [|done]. injection H as <- <-. by eexists.
    + destruct (templates P !! f); [|done]. destruct (_ =? _); [|done]. destruct (R !! _); [|done]. injection H as <- <-. by eexists.
  - unfold frozen in H. cbn [run]. unfold is_function in Hin. destruct (functions P !! f) as [F|] eqn:EF.
    + destruct (length ds =? length (params F)) eqn:El; [|done]. destruct (R !! (f, ds)) as [d|] eqn:ER; [|done].
      injection H as <- <-. eexists. split; [done|]. apply HR in ER. unfold checked in ER. rewrite EF in ER. destruct ER as (E' & HT).
      apply Forall2_length in Hv as Hlen. rewrite <- Hlen, El. cbn [require rbind].
      destruct (proj1 HP f F EF) as [HD _].
      eapply fine_bind.
      * eapply (body_sound R false (kof F)); [|intros; by eapply IH| |by apply call_okE|exact HT|by apply declares_body|by apply HD|by intros; eapply Hfree|by apply call_rel].
        -- intros _ x c. eapply function_class. by eapply Hfree.
        -- split; [done|done].
      * intros [σ [v|]] [bs Ho]; [|done]. destruct Ho as (_ & d' & Hd & Hn). by simplify_eq.
    + destruct (templates P !! f) as [D|] eqn:ET; [|done].
      destruct (length ds =? length (params D)) eqn:El; [|done]. destruct (R !! (f, ds)) as [d|] eqn:ER; [|done].
      injection H as <- <-. eexists. split; [done|]. apply HR in ER. unfold checked in ER. rewrite EF, ET in ER. destruct ER as (E' & HT).
      assert (inside = true) as -> by (destruct inside; [done|by specialize (Hin eq_refl)]).
      apply Forall2_length in Hv as Hlen. rewrite <- Hlen, El. cbn [require rbind].
      pose proof (proj2 HP f D ET) as HD.
      eapply fine_bind.
      * eapply (body_sound R true (kof D)); [done|intros; by eapply IH|done|by apply call_okE|exact HT|by apply declares_body|by apply HD|done|by apply call_rel].
      * intros [σ [v|]] [bs Ho]; [by destruct Ho|]. cbn in Ho |- *. eexists. split; [done|]. exists D. split; [done|].
        intros g v Hg%assoc_in. unfold wires_of in Hg. apply elem_of_list_filter in Hg as [_ Hg%elem_of_map_to_list]. by apply (rel_signals _ _ _ Ho).
Qed.
End runs.
End program.

(** ** The theorem *)
Lemma forallb_map_to_list {A} (f : string -> A -> bool) (m : gmap string A) :
  forallb (fun '(k, a) => f k a) (map_to_list m) = true -> forall k a, m !! k = Some a -> f k a = true.
Proof.
  intros H k a Hk. apply (proj1 (forallb_forall _ _) H (k, a)). by apply elem_of_list_In, elem_of_map_to_list.
Qed.
Lemma accepted_sound P den1 den2 sv n m : consistent_program P -> accepted P n = true ->
  fine (fun v => exists t sigs D, v = Inst t sigs /\ templates P !! t = Some D /\
    forall f w, assoc f sigs = Some w -> exists d, kof D f = Some (CS d) /\ nest d leaf w) (run_program P den1 den2 sv m).
Proof.
  intros HP HA. unfold accepted in HA. apply andb_true_iff in HA as [HA HT]. apply andb_true_iff in HA as [_ HF].
  pose proof (forallb_map_to_list (fun _ f => forallb (free_of_template_elements P) (body f)) _ HF) as Hfree.
  destruct (type_check P n) as [[] r [|]| |] eqn:ET; try done.
  apply type_check_register in ET as (R & o & He & Hmain & HR).
  unfold run_program.
  destruct (type_expression_sound P HP R true (fun _ => None) (fun H : true = false => False_ind _ (Bool.diff_true_false H))
    den1 den2 (run P den1 den2 sv m true) (run_sound P HP R den1 den2 sv HR Hfree m true) empty_env) with (e := main P) (r := ∅ : register) (o := o) (r' := ∅ : register)
    as (t & -> & _ & Hev); [|done|done|].
  { split; [|split]; cbn.
    - intros x d. unfold get_signal. cbn. by rewrite !lookup_empty.
    - intros x o' d Hx. by rewrite lookup_empty in Hx.
    - constructor; [|constructor]. intros x d Hx. by rewrite lookup_empty in Hx. }
  destruct Hmain as (f & args & D & Em & ED); [done|].
  assert (exists t', t = Templ t') as (t' & ->).
  { rewrite Em in He. cbn [type_expression] in He. apply bind_clean in He as (ts & r1 & H1 & H2).
    destruct ts as [ts|]; [|rewrite ED in H2; injection H2 as <- _; by eexists].
    apply bind_clean in H2 as (b & r2 & H2 & H3). destruct b; [|rewrite ED in H3; injection H3 as <- _; by eexists].
    unfold frozen in H3. destruct (functions P !! f) as [F|] eqn:EF.
    - destruct (proj1 HP f F EF) as [_ Hn]. by rewrite ED in Hn.
    - rewrite ED in H3. destruct (_ =? _); [|done]. destruct (R !! _); [|done]. injection H3 as <- _. by eexists. }
  eapply fine_bind.
  - apply Hev. split; cbn; [|intros x v Hx; by rewrite lookup_empty in Hx|intros x v Hx; by rewrite lookup_empty in Hx].
    constructor; [|constructor]. intros x. by rewrite !lookup_empty.
  - intros v (sigs & -> & D' & HD' & Hw). cbn. by exists t', sigs, D'.
Qed.
