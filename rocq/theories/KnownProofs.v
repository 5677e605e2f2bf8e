(** Proofs about the known/unknown analysis. *)
From stdpp Require Import prelude gmap strings.
From Coq Require Import ZArith Lia.
From Verif Require Import EnvModel EnvSpec EnvProofs KnownModel KnownSpec.
Open Scope nat_scope.

(** ** Induction principles *)
Definition acc_all (Q : expr -> Prop) (a : access) : Prop := match a with Idx e => Q e | Fld _ => True end.
Section expr_ind.
Context (Q : expr -> Prop).
Context (HL : forall z, Q (Lit z)).
Context (HV : forall k x acc, Forall (acc_all Q) acc -> Q (Var k x acc)).
Context (HO : forall o args, Forall Q args -> Q (Op o args)).
Fixpoint expr_ind' (e : expr) : Q e :=
  match e with
  | Lit z => HL z
  | Var k x acc => HV k x acc ((fix go acc : Forall (acc_all Q) acc :=
      match acc with
      | [] => @List.Forall_nil _ _
      | a :: acc => @List.Forall_cons _ (acc_all Q) a acc (match a return acc_all Q a with Idx e => expr_ind' e | Fld _ => I end) (go acc)
      end) acc)
  | Op o args => HO o args ((fix go l : Forall Q l := match l with [] => @List.Forall_nil _ _ | e :: l => @List.Forall_cons _ Q e l (expr_ind' e) (go l) end) args)
  end.
End expr_ind.
Definition opt_all (Q : stmt -> Prop) (f : option stmt) : Prop := match f with Some s => Q s | None => True end.
Section stmt_ind.
Context (Q : stmt -> Prop).
Context (HD : forall k x dims, Q (Declare k x dims)) (HA : forall k op x acc rhe, Q (Assign k op x acc rhe)).
Context (HU : forall op rhe, Q (Underscore op rhe)) (HE : forall l r, Q (Equal l r)).
Context (HI : forall c t f, Q t -> opt_all Q f -> Q (If c t f)).
Context (HW : forall c b, Q b -> Q (While c b)).
Context (HB : forall l, Forall Q l -> Q (Block l)) (HN : forall l, Forall Q l -> Q (Init l)) (HO : Q Other).
Fixpoint stmt_ind' (s : stmt) : Q s :=
  let all := fix go l : Forall Q l := match l with [] => @List.Forall_nil _ _ | s :: l => @List.Forall_cons _ Q s l (stmt_ind' s) (go l) end in
  match s with
  | Declare k x dims => HD k x dims
  | Assign k op x acc rhe => HA k op x acc rhe
  | Underscore op rhe => HU op rhe
  | Equal l r => HE l r
  | If c t f => HI c t f (stmt_ind' t) (match f return opt_all Q f with Some s => stmt_ind' s | None => I end)
  | While c b => HW c b (stmt_ind' b)
  | Block l => HB l (all l)
  | Init l => HN l (all l)
  | Other => HO
  end.
End stmt_ind.

(** ** Changes of visible variables *)
Section changed.
Context {V : Type}.
Implicit Types (R : string -> V -> V -> Prop) (A : gset string) (b : gmap string V) (B : list (gmap string V)).
Definition same_cell R A (y : string) (o o' : option V) : Prop :=
  match o, o' with
  | Some c, Some c' => if bool_decide (y ∈ A) then R y c c' else c = c'
  | None, None => True
  | _, _ => False
  end.
(** the innermost cell of each name of [A] changes as [R] says, and nothing else *)
Fixpoint changed R A B B' : Prop :=
  match B, B' with
  | [], [] => True
  | b :: B, b' :: B' => (forall y, same_cell R A y (b !! y) (b' !! y)) /\ changed R (A ∖ dom b) B B'
  | _, _ => False
  end.
Lemma same_cell_some R A y o o' : same_cell R A y o o' -> is_Some o <-> is_Some o'.
Proof. destruct o, o'; cbn; try done; split; intros [? ?]; eauto; done. Qed.
Lemma changed_dom R A b b' : (forall y, same_cell R A y (b !! y) (b' !! y)) -> dom b' = dom b.
Proof. intros H. apply set_eq. intros y. rewrite !elem_of_dom. symmetry. apply (same_cell_some R A y). apply H. Qed.
Lemma changed_refl R A B : (forall y c, R y c c) -> changed R A B B.
Proof.
  intros HR. revert A. induction B as [|b B IH]; intros A; cbn; [done|]. split; [|apply IH].
  intros y. unfold same_cell. destruct (b !! y); [|done]. case_bool_decide; auto.
Qed.
Lemma changed_weaken R R' A A' B B' : A ⊆ A' -> (forall y c, y ∈ A' -> R' y c c) -> (forall y c c', R y c c' -> R' y c c') ->
  changed R A B B' -> changed R' A' B B'.
Proof.
  revert A A' B'. induction B as [|b B IH]; intros A A' [|b' B'] HA HR HRR; cbn; try done. intros [H T]. split.
  - intros y. specialize (H y). unfold same_cell in *. destruct (b !! y) as [c|], (b' !! y) as [c'|]; try done.
    repeat case_bool_decide; subst; auto. set_solver.
  - eapply IH; [| |exact HRR|exact T]; [set_solver|]. intros y c Hy. apply HR. set_solver.
Qed.
Lemma changed_trans R1 R2 R3 A1 A2 B B' B'' :
  (forall y c c' c'', (if bool_decide (y ∈ A1) then R1 y c c' else c = c') -> (if bool_decide (y ∈ A2) then R2 y c' c'' else c' = c'') ->
     if bool_decide (y ∈ A1 ∪ A2) then R3 y c c'' else c = c'') ->
  changed R1 A1 B B' -> changed R2 A2 B' B'' -> changed R3 (A1 ∪ A2) B B''.
Proof.
  revert A1 A2 B' B''. induction B as [|b B IH]; intros A1 A2 [|b' B'] [|b'' B''] HR; cbn; try done. intros [H1 T1] [H2 T2]. split.
  - intros y. specialize (H1 y). specialize (H2 y). unfold same_cell in *. destruct (b !! y) as [c|], (b' !! y) as [c'|], (b'' !! y) as [c''|]; try done.
    exact (HR y c c' c'' H1 H2).
  - rewrite (changed_dom _ _ _ _ H1) in T2. rewrite difference_union_distr_l_L. eapply IH; [|exact T1|exact T2].
    intros y c c' c'' P1 P2. specialize (HR y c c' c'').
    repeat case_bool_decide; subst; auto; set_solver.
Qed.
Lemma changed_store R B B' x c v : store B x v = Some B' -> look B x = Some c -> R x c v -> changed R {[x]} B B'.
Proof.
  revert B'. induction B as [|b B IH]; intros B' HS HL HR; cbn in *; [done|]. destruct (b !! x) as [c'|] eqn:E.
  - injection HS as <-. injection HL as ->. split.
    + intros y. unfold same_cell. destruct (decide (y = x)) as [->|N].
      * rewrite E, lookup_insert. rewrite bool_decide_true by set_solver. done.
      * rewrite lookup_insert_ne by done. destruct (b !! y); [|done]. rewrite bool_decide_false by set_solver. done.
    + assert (changed R ∅ B B) as H.
      { clear. induction B as [|b B IH]; cbn; [done|]. split; [|replace (∅ ∖ dom b) with (∅ : gset string) by set_solver; exact IH].
        intros y. unfold same_cell. destruct (b !! y); [|done]. rewrite bool_decide_false by set_solver. done. }
      assert ({[x]} ∖ dom b = (∅ : gset string)) as ->; [|exact H]. apply set_eq. intros y. rewrite elem_of_difference, elem_of_singleton, elem_of_dom.
      split; [|set_solver]. intros [-> N]. destruct N. eauto.
  - destruct (store B x v) as [B1|] eqn:ES; [|done]. injection HS as <-. split.
    + intros y. unfold same_cell. destruct (b !! y) eqn:EY; [|done]. rewrite bool_decide_false; [done|]. intros Q%elem_of_singleton. congruence.
    + assert ({[x]} ∖ dom b = ({[x]} : gset string)) as ->. { apply set_eq. intros y. rewrite elem_of_difference, elem_of_singleton, elem_of_dom.
        split; [tauto|]. intros ->. split; [done|]. intros [? ?]; congruence. }
      apply IH; auto.
Qed.
Lemma changed_look R A B B' x : changed R A B B' -> same_cell R A x (look B x) (look B' x).
Proof.
  revert A B'. induction B as [|b B IH]; intros A [|b' B']; cbn; try done. intros [H T]. specialize (H x).
  destruct (b !! x) as [c|] eqn:E, (b' !! x) as [c'|]; try done. specialize (IH _ _ T). unfold same_cell in *.
  destruct (look B x), (look B' x); try done. rewrite (bool_decide_ext (x ∈ A ∖ dom b) (x ∈ A)) in IH; [done|].
  rewrite elem_of_difference, elem_of_dom, E. split; [tauto|]. intros; split; [done|]. intros [? ?]; done.
Qed.
Lemma store_some B x v : is_Some (look B x) -> is_Some (store B x v).
Proof. induction B as [|b B IH]; cbn; [intros [? ?]; done|]. destruct (b !! x); [eauto|]. intros H. destruct (IH H) as [? ->]. cbn. eauto. Qed.
Lemma store_look_some B x v B' : store B x v = Some B' -> is_Some (look B x).
Proof. revert B'. induction B as [|b B IH]; intros B' H; cbn in *; [done|]. destruct (b !! x); [eauto|]. destruct (store B x v) eqn:E; [|done]. eauto. Qed.

(** Statements that may declare variables of the innermost block *)
Definition opened R A B B' : Prop :=
  match B, B' with
  | b :: B, b' :: B' => dom b ⊆ dom b' /\ (forall y, y ∉ A -> b !! y = b' !! y) /\ changed R (A ∖ dom b) B B'
  | _, _ => False
  end.
Lemma changed_opened R A B B' : B <> [] -> changed R A B B' -> opened R A B B'.
Proof.
  destruct B as [|b B], B' as [|b' B']; cbn; try done. intros _ [H T]. split; [|split; [|exact T]].
  - rewrite (changed_dom _ _ _ _ H). done.
  - intros y Hy. specialize (H y). unfold same_cell in H. destruct (b !! y), (b' !! y); try done. rewrite bool_decide_false in H by done. congruence.
Qed.
Lemma opened_trans R A1 A2 B B' B'' : (forall y u v w, R y u v -> R y v w -> R y u w) -> (forall y c, R y c c) ->
  opened R A1 B B' -> opened R A2 B' B'' -> opened R (A1 ∪ A2) B B''.
Proof.
  destruct B as [|b B], B' as [|b' B'], B'' as [|b'' B'']; cbn; try done. intros HT HR (D1 & E1 & T1) (D2 & E2 & T2).
  split; [set_solver|]. split.
  - intros y Hy. rewrite E1, E2 by set_solver. done.
  - rewrite difference_union_distr_l_L. eapply changed_trans; [|exact T1|eapply changed_weaken; [| | |exact T2]].
    + intros y c c' c'' P1 P2. instantiate (1 := R) in P2.
      repeat case_bool_decide; subst; eauto; set_solver.
    + set_solver.
    + auto.
    + auto.
Qed.
Lemma opened_weaken R A A' B B' : (forall y c, R y c c) -> A ⊆ A' -> opened R A B B' -> opened R A' B B'.
Proof.
  destruct B as [|b B], B' as [|b' B']; cbn; try done. intros HR HA (D & E & T). split; [done|]. split; [intros y Hy; apply E; set_solver|].
  eapply changed_weaken; [| | |exact T]; auto. set_solver.
Qed.
End changed.

Section looks.
Context {V : Type}.
Lemma changed_looks_gen (R : string -> V -> V -> Prop) A B0 B0' B B' :
  (forall y, y ∈ A -> look B0 y = look B y) -> (forall y, y ∈ A -> look B0' y = look B' y) -> changed R A B B' ->
  changed (fun y c c' => R y c c' /\ look B0 y = Some c /\ look B0' y = Some c') A B B'.
Proof.
  revert A B'. induction B as [|b B IH]; intros A [|b' B'] H0 H0'; cbn; try done. intros [H T]. split.
  - intros y. pose proof (H y) as Hy. unfold same_cell in *. destruct (b !! y) as [c|] eqn:E, (b' !! y) as [c'|] eqn:E'; try done.
    case_bool_decide; [|done]. rewrite H0, H0' by done. cbn. rewrite E, E'. done.
  - apply IH; [| |exact T].
    + intros y [Hy N]%elem_of_difference. rewrite H0 by done. cbn. apply not_elem_of_dom in N. rewrite N. done.
    + intros y [Hy N]%elem_of_difference. rewrite H0' by done. cbn. rewrite <- (changed_dom _ _ _ _ H) in N. apply not_elem_of_dom in N. rewrite N. done.
Qed.
Lemma changed_looks (R : string -> V -> V -> Prop) A B B' : changed R A B B' ->
  changed (fun y c c' => R y c c' /\ look B y = Some c /\ look B' y = Some c') A B B'.
Proof. apply changed_looks_gen; auto. Qed.
Lemma changed_eq A (B B' : list (gmap string V)) : changed (fun _ c c' => c' = c) A B B' -> B' = B.
Proof.
  revert A B'. induction B as [|b B IH]; intros A [|b' B']; cbn; try done. intros [H T]. f_equal; [|eauto].
  apply map_eq. intros y. specialize (H y). unfold same_cell in H. destruct (b !! y), (b' !! y); try done. case_bool_decide; congruence.
Qed.
Lemma changed_empty (R : string -> V -> V -> Prop) B : changed R ∅ B B.
Proof.
  induction B as [|b B IH]; cbn; [done|]. split; [|replace (∅ ∖ dom b) with (∅ : gset string) by set_solver; exact IH].
  intros y. unfold same_cell. destruct (b !! y); done.
Qed.
Lemma changed_length (R : string -> V -> V -> Prop) A B B' : changed R A B B' -> length B' = length B.
Proof. revert A B'. induction B as [|b B IH]; intros A [|b' B']; cbn; try done. intros [_ T]. f_equal. eauto. Qed.
End looks.

(** ** The environment of the analysis *)
Notation tblock := (gmap string (tag * bool)).
Definition bl (E : env) : list tblock := reverse (variables E).
Lemma get_look E x : get_variable E x = look (bl E) x.
Proof. rewrite get_variable_find. unfold bl. induction (reverse (variables E)) as [|b B IH]; cbn; [done|]. destruct (b !! x); auto. Qed.
Lemma set_store (E : env) x c : set_variable x c E = (fun bs => with_variables (reverse bs) E) <$> store (bl E) x c.
Proof.
  rewrite set_variable_assign. f_equal. unfold bl. induction (reverse (variables E)) as [|b B IH]; cbn; [done|]. destruct (b !! x); [done|]. rewrite IH. done.
Qed.
Lemma bl_with bs E : bl (with_variables (reverse bs) E) = bs.
Proof. apply reverse_involutive. Qed.
Lemma bl_add_component x t E : bl (add_component x t E) = bl E. Proof. done. Qed.
Lemma bl_merge E1 E2 f : bl (merge E1 E2 f) = merge_blocks f (bl E1) (bl E2).
Proof. unfold bl, merge. cbn. apply reverse_involutive. Qed.
Definition unk_comps (E : env) : Prop := forall x t, components E !! x = Some t -> t = Unknown.

Lemma pmax_same c : pmax c c = c.
Proof. destruct c as [[] []]; reflexivity. Qed.
(** flags agree *)
Definition Rf (_ : string) (c c' : tag * bool) : Prop := c.2 = c'.2.
(** less is known *)
Definition Rle (_ : string) (c c' : tag * bool) : Prop := c.2 = c'.2 /\ (c.1 = Known \/ c'.1 = Unknown).
Definition le (B B' : list tblock) : Prop := exists A, changed Rle A B B'.
Lemma Rle_refl y c : Rle y c c.
Proof. split; [done|]. destruct c as [[] ?]; auto. Qed.
Lemma Rle_trans y c c' c'' : Rle y c c' -> Rle y c' c'' -> Rle y c c''.
Proof. intros [? [?|?]] [? [?|?]]; split; try congruence; auto. Qed.
Lemma le_refl B : le B B.
Proof. exists ∅. apply changed_refl. apply Rle_refl. Qed.
Lemma le_trans B B' B'' : le B B' -> le B' B'' -> le B B''.
Proof.
  intros [A H] [A' H']. exists (A ∪ A'). eapply changed_trans; [|exact H|exact H'].
  intros y c c' c'' P1 P2. repeat case_bool_decide; subst; eauto using Rle_refl, Rle_trans; set_solver.
Qed.

(** *** Operations *)
Lemma set_var_spec (E E' : env) x c v : set_variable x v E = Some E' -> look (bl E) x = Some c ->
  (forall R : string -> tag * bool -> tag * bool -> Prop, R x c v -> changed R {[x]} (bl E) (bl E')) /\ components E' = components E /\
  look (bl E') x = Some v /\ (forall y, y <> x -> look (bl E') y = look (bl E) y).
Proof.
  rewrite set_store. destruct (store (bl E) x v) as [bs|] eqn:ES; [|done]. intros [= <-] HL. rewrite bl_with. split; [|split; [done|]].
  - intros R HR. eapply changed_store; eauto.
  - clear HL c. revert bs ES. induction (bl E) as [|b B IH]; intros bs ES; cbn in *; [done|]. destruct (b !! x) eqn:EB.
    + injection ES as <-. cbn. rewrite lookup_insert. split; [done|]. intros y N. rewrite lookup_insert_ne by done. done.
    + destruct (store B x v) as [B1|]; [|done]. injection ES as <-. cbn. rewrite EB. destruct (IH B1 eq_refl) as [H1 H2].
      split; [done|]. intros y N. destruct (b !! y); auto.
Qed.
Lemma set_var_some (E : env) x v : is_Some (look (bl E) x) -> exists E', set_variable x v E = Some E'.
Proof. intros H. rewrite set_store. destruct (store_some (bl E) x v H) as [? ->]. eauto. Qed.

Definition Rj (G : list tblock) (y : string) (f f' : tag * bool) : Prop :=
  match look G y with Some i => f' = pmax i f | None => f' = f end.
Lemma check_modified_spec vars G : forall X m E', NoDup vars -> check_modified G X vars = (m, E') ->
  changed (Rj (bl G)) (list_to_set vars) (bl X) (bl E') /\ components E' = components X /\
  (m = false -> forall y i f, y ∈ vars -> look (bl G) y = Some i -> look (bl X) y = Some f -> i = f \/ f.1 = Known) /\
  (m = true -> exists y i f, y ∈ vars /\ look (bl G) y = Some i /\ look (bl X) y = Some f /\ i <> f /\ f.1 = Unknown).
Proof.
  induction vars as [|v vars IH]; intros X m E' ND H; cbn in H.
  - injection H as <- <-. cbn. split; [|split; [done|split; [intros _ y i f Q; inversion Q|done]]].
    apply changed_empty.
  - apply NoDup_cons in ND as [NI ND]. rewrite !get_look in H.
    assert (skip : check_modified G X vars = (m, E') -> (forall i f, look (bl G) v = Some i -> look (bl X) v = Some f -> i = f) ->
      changed (Rj (bl G)) (list_to_set (v :: vars)) (bl X) (bl E') /\ components E' = components X /\
      (m = false -> forall y i f, y ∈ v :: vars -> look (bl G) y = Some i -> look (bl X) y = Some f -> i = f \/ f.1 = Known) /\
      (m = true -> exists y i f, y ∈ v :: vars /\ look (bl G) y = Some i /\ look (bl X) y = Some f /\ i <> f /\ f.1 = Unknown)).
    { intros HC HV. destruct (IH _ _ _ ND HC) as (J & C & M0 & M1). split; [|split; [done|split]].
      - replace (list_to_set (v :: vars)) with ({[v]} ∪ list_to_set vars : gset string) by done.
        eapply changed_trans; [|apply (changed_looks (fun _ c c' => c' = c) {[v]} (bl X) (bl X)), changed_refl; done|exact J].
        cbn beta.
        intros y c c' c'' P1 P2. assert (c' = c) as ->. { destruct (decide (y ∈ ({[v]} : gset string))) as [D|D]; [rewrite bool_decide_true in P1 by done; apply P1|rewrite bool_decide_false in P1 by done; done]. }
        destruct (decide (y ∈ (list_to_set vars : gset string))) as [I|I].
        + rewrite bool_decide_true in P2 |- * by set_solver. done.
        + rewrite bool_decide_false in P2 by done. subst c''. destruct (decide (y = v)) as [->|N]; [|rewrite bool_decide_false by set_solver; done].
          rewrite bool_decide_true in P1 |- * by set_solver. destruct P1 as (_ & P1 & _). unfold Rj.
          destruct (look (bl G) v) as [i|] eqn:EG; [|done]. rewrite (HV i c eq_refl P1), pmax_same. done.
      - intros -> y i f [->|Q]%elem_of_cons HG HX; [left; eauto|eauto].
      - intros ->. destruct (M1 eq_refl) as (y & i & f & Q & ?). exists y, i, f. split; [right|]; done. }
    destruct (look (bl G) v) as [i|] eqn:EG; [|apply skip; [exact H|intros ? ? [=]]].
    destruct (look (bl X) v) as [f|] eqn:EX; [|apply skip; [exact H|intros ? ? _ [=]]].
    case_bool_decide as EIF; [apply skip; [exact H|intros ? ? [= <-] [= <-]; exact EIF]|]. clear skip.
    destruct (set_var_some X v (pmax i f)) as [X' EX']; [eauto|]. rewrite EX' in H. cbn in H.
    destruct (set_var_spec X X' v f _ EX' EX) as (C1 & C2 & C3 & C4).
    destruct (check_modified G X' vars) as [m1 E1] eqn:EC. injection H as <- <-. destruct (IH _ _ _ ND EC) as (J & C & M0 & M1).
    split; [|split; [congruence|split]].
    + replace (list_to_set (v :: vars)) with ({[v]} ∪ list_to_set vars : gset string) by done.
      eapply changed_trans; [|apply (C1 (Rj (bl G))); unfold Rj; rewrite EG; done|exact J].
      intros y c c' c'' P1 P2. destruct (decide (y = v)) as [->|N].
      * rewrite bool_decide_true in P1 by set_solver. rewrite bool_decide_false in P2 by set_solver. subst c''.
        rewrite bool_decide_true by set_solver. done.
      * rewrite bool_decide_false in P1 by set_solver. subst c'. repeat case_bool_decide; try done; set_solver.
    + intros Q. apply orb_false_iff in Q as [Q1 Q2]. intros y i' f' [->|Y]%elem_of_cons HG HX.
      * rewrite EX in HX. injection HX as <-. right. case_bool_decide; [done|]. destruct f as [[] ?]; done.
      * apply (M0 Q2 y i' f' Y HG). rewrite C4; [done|]. intros ->. done.
    + intros Q. apply orb_true_iff in Q as [Q|Q].
      * case_bool_decide; [|done]. exists v, i, f. split; [left|done].
      * destruct (M1 Q) as (y & i' & f' & Y & HG & HX & ?). exists y, i', f'. split; [right; done|]. split; [done|]. split; [|done].
        rewrite <- C4; [done|]. intros ->. done.
Qed.
Definition Ru (_ : string) (c c' : tag * bool) : Prop := c' = (Unknown, c.2).
Lemma set_unknown_spec vars : forall E, NoDup vars ->
  changed Ru (list_to_set vars) (bl E) (bl (set_unknown E vars)) /\ components (set_unknown E vars) = components E.
Proof.
  induction vars as [|v vars IH]; intros E ND; cbn.
  - split; [apply changed_empty|done].
  - apply NoDup_cons in ND as [NI ND]. rewrite get_look. destruct (look (bl E) v) as [c|] eqn:EL.
    + destruct (set_var_some E v (Unknown, c.2)) as [E1 EE]; [eauto|]. rewrite EE. cbn.
      destruct (set_var_spec E E1 v c _ EE EL) as (C1 & C2 & _). destruct (IH E1 ND) as [J C]. split; [|congruence].
      eapply changed_trans; [|apply (C1 Ru); done|exact J].
      intros y d d' d'' P1 P2. destruct (decide (y = v)) as [->|N].
      * rewrite bool_decide_true in P1 by set_solver. rewrite bool_decide_false in P2 by set_solver. subst d''.
        rewrite bool_decide_true by set_solver. done.
      * rewrite bool_decide_false in P1 by set_solver. subst d'. repeat case_bool_decide; try done; set_solver.
    + destruct (IH E ND) as [J C]. split; [|done]. clear IH C. revert J EL. generalize (bl E), (bl (set_unknown E vars)).
      assert (forall A B B', look B v = None -> v ∉ A -> changed Ru A B B' -> changed Ru ({[v]} ∪ A) B B') as K.
      { intros A B B'. revert A B'. induction B as [|b B IHB]; intros A [|b' B'] EL NA; cbn; try done. intros [H T].
        cbn in EL. destruct (b !! v) eqn:EB; [done|]. split.
        - intros y. specialize (H y). unfold same_cell in *. destruct (b !! y) as [d|] eqn:EY, (b' !! y) as [d'|]; try done.
          assert (y <> v) by congruence. rewrite (bool_decide_ext (y ∈ {[v]} ∪ A) (y ∈ A)) by set_solver. done.
        - assert (({[v]} ∪ A) ∖ dom b = {[v]} ∪ A ∖ dom b) as ->. { apply not_elem_of_dom in EB. set_solver. }
          apply IHB; [done|set_solver|done]. }
      intros B B' J EL. apply K; [done|set_solver|done].
Qed.

(** ** What the analysis of a statement leaves alone *)
Lemma bind_done {A B} (x : res A) (f : A -> res B) b : x ≫= f = Done b -> exists a, x = Done a /\ f a = Done b.
Proof. destruct x; cbn; try done. eauto. Qed.
Lemma found_done {A} (o : option A) a : found o = Done a -> o = Some a.
Proof. destruct o; cbn; [|done]. congruence. Qed.
Ltac bd H := let a := fresh "a" in let Ha := fresh "Ha" in apply bind_done in H as (a & Ha & H).

Fixpoint loud (s : stmt) : bool :=
  match s with
  | Declare DVar _ _ => false
  | Declare _ _ _ => true
  | Assign (KComponent | KTag) _ _ _ _ => true
  | Assign (KBus | KSignal) AssignConstraint _ _ _ => true
  | Underscore AssignConstraint _ => true
  | Equal _ _ => true
  | If _ t f => loud t || match f with Some f => loud f | None => false end
  | While _ b => loud b
  | Block l | Init l => existsb loud l
  | _ => false
  end.
Definition flags (x : exit) : bool := constraints_declared x || tags_modified x || signals_declared x.
Definition gram0 (s : stmt) : Prop := grammatical s = true \/ creates_bus s = true.
Definition gram (s : stmt) : Prop := gram0 s /\ loops_ok s.
Definition asg (s : stmt) : gset string := list_to_set (assigned s).

Record facts (s : stmt) (E : env) (x : exit) : Prop := Facts {
  f_mod : modified_variables x = list_to_set (directly s);
  f_flags : flags x = loud s;
  f_comps : unk_comps E -> unk_comps (environment x);
  f_closed : gram0 s -> closed s = true -> changed Rf (asg s) (bl E) (bl (environment x));
  f_open : gram0 s -> bl E <> [] -> opened Rf (asg s) (bl E) (bl (environment x)) }.

Lemma Rf_refl y c : Rf y c c. Proof. done. Qed.
Lemma Rf_trans y u v w : Rf y u v -> Rf y v w -> Rf y u w. Proof. unfold Rf. congruence. Qed.
Lemma Rf_changed_trans A A' B B' B'' : changed Rf A B B' -> changed Rf A' B' B'' -> changed Rf (A ∪ A') B B''.
Proof. intros H H'. eapply changed_trans; [|exact H|exact H']. intros y c c' c'' P1 P2. unfold Rf in *. repeat case_bool_decide; subst; try congruence; set_solver. Qed.
Lemma closed_facts s E x : modified_variables x = list_to_set (directly s) -> flags x = loud s -> (unk_comps E -> unk_comps (environment x)) ->
  (gram0 s -> changed Rf (asg s) (bl E) (bl (environment x))) -> facts s E x.
Proof. intros H1 H2 H3 H4. split; auto. intros G N. apply changed_opened; auto. Qed.

(** lists *)
Lemma iterate_cons f E s l : iterate f E (s :: l) = x ← f E s; y ← iterate f (environment x) l;
    Done (Exit (reports x ++ reports y) (environment y) (constraints_declared x || constraints_declared y)
      (tags_modified x || tags_modified y) (signals_declared x || signals_declared y) (modified_variables x ∪ modified_variables y)).
Proof. reflexivity. Qed.
Definition asgs (l : list stmt) : gset string := list_to_set (flat_map assigned l).
Lemma asgs_cons s l : asgs (s :: l) = asg s ∪ asgs l.
Proof. unfold asgs, asg. cbn. rewrite list_to_set_app_L. done. Qed.
Record facts_l (l : list stmt) (E : env) (x : exit) : Prop := FactsL {
  fl_mod : modified_variables x = list_to_set (flat_map directly l);
  fl_flags : flags x = existsb loud l;
  fl_comps : unk_comps E -> unk_comps (environment x);
  fl_closed : Forall gram0 l -> forallb closed l = true -> changed Rf (asgs l) (bl E) (bl (environment x));
  fl_open : Forall gram0 l -> bl E <> [] -> opened Rf (asgs l) (bl E) (bl (environment x)) }.
Lemma opened_nonempty {V} (R : string -> V -> V -> Prop) A B B' : opened R A B B' -> B' <> [].
Proof. destruct B, B'; done. Qed.
Lemma iterate_facts fuel l : Forall (fun s => forall E x, analyze fuel E s = Done x -> facts s E x) l ->
  forall E x, iterate (fun E s => analyze fuel E s) E l = Done x -> facts_l l E x.
Proof.
  induction 1 as [|s l HS HL IH]; intros E x H.
  - injection H as <-. split; cbn; auto.
    + intros _ _. apply changed_empty.
    + intros _ N. apply changed_opened; [done|]. apply changed_empty.
  - rewrite iterate_cons in H. bd H. bd H. injection H as <-. specialize (HS _ _ Ha). specialize (IH _ _ Ha0).
    destruct HS as [M F C K O], IH as [M' F' C' K' O']. split; cbn [modified_variables environment existsb flat_map forallb].
    + rewrite list_to_set_app_L. congruence.
    + rewrite <- F, <- F'. unfold flags. cbn. destruct (constraints_declared a), (tags_modified a), (signals_declared a), (constraints_declared a0), (tags_modified a0), (signals_declared a0); reflexivity.
    + auto.
    + intros [G1 G2]%Forall_cons Q. apply andb_prop in Q as [Q1 Q2]. rewrite asgs_cons. eapply Rf_changed_trans; eauto.
    + intros [G1 G2]%Forall_cons N. rewrite asgs_cons. specialize (O G1 N). eapply opened_trans; [exact Rf_trans|exact Rf_refl|exact O|]. apply O'; [done|]. eapply opened_nonempty; eauto.
Qed.

(** the rounds of a loop: the environment at the entry of the last round *)
Lemma rounds_last fuel f E x : rounds fuel f E = Done x ->
  exists n G X, check_modified G (environment X) (elements (modified_variables X)) = (false, environment x) /\ f G = Done X /\
    reports x = reports X /\ flags x = flags X /\ modified_variables x = modified_variables X /\
    constraints_declared x = constraints_declared X /\ tags_modified x = tags_modified X /\ signals_declared x = signals_declared X /\
    Nat.iter n (fun (Q : env -> Prop) E => exists X E', f E = Done X /\ check_modified E (environment X) (elements (modified_variables X)) = (true, E') /\ Q E') (eq G) E.
Proof.
  revert E. induction fuel as [|fuel IH]; intros E H; cbn in H; [done|]. bd H.
  destruct (check_modified E (environment a) (elements (modified_variables a))) as [m E'] eqn:EC. destruct m.
  - destruct (IH E' H) as (n & G & X & ? & ? & ? & ? & ? & ? & ? & ? & K). exists (S n), G, X. split_and!; try done.
    cbn. exists a, E'. done.
  - injection H as <-. exists 0, E, a. cbn. split_and!; done.
Qed.
(** one round: less is known *)
Lemma round_le E X m E' A : check_modified E X (elements A) = (m, E') -> changed Rf A (bl E) (bl X) -> changed Rle A (bl E) (bl E') /\ components E' = components X.
Proof.
  intros HC HF. apply check_modified_spec in HC as (J & C & _ & _); [|apply NoDup_elements]. split; [|done].
  assert (list_to_set (elements A) = A) as EA by apply list_to_set_elements_L. rewrite EA in J.
  apply changed_looks in HF. rewrite <- (union_idemp_L A). eapply changed_trans; [|exact HF|exact J].
  intros y c c' c'' P1 P2. rewrite union_idemp_L. case_bool_decide; [|congruence]. destruct P1 as (P1 & L1 & L2). unfold Rj in P2. rewrite L1 in P2. subst c''.
  unfold Rf in P1. unfold Rle, pmax. destruct c as [[] ?], c' as [[] ?]; cbn in *; subst; rewrite ?orb_diag; auto.
Qed.
Lemma last_round E X E' A : check_modified E X (elements A) = (false, E') -> changed Rf A (bl E) (bl X) -> bl E' = bl E /\ changed Rle A (bl X) (bl E).
Proof.
  intros HC HF. apply check_modified_spec in HC as (J & C & M & _); [|apply NoDup_elements].
  assert (list_to_set (elements A) = A) as EA by apply list_to_set_elements_L. rewrite EA in J. specialize (M eq_refl). apply changed_looks in HF.
  assert (EE : bl E' = bl E).
  { apply (changed_eq A). rewrite <- (union_idemp_L A). eapply changed_trans; [|exact HF|exact J].
    intros y c c' c'' P1 P2. rewrite union_idemp_L. case_bool_decide as IA; [|congruence]. destruct P1 as (P1 & L1 & L2). unfold Rj in P2. rewrite L1 in P2. subst c''.
    destruct (M y c c') as [->|K]; [apply elem_of_elements; done|done|done|apply pmax_same|].
    unfold Rf in P1. destruct c as [[] ?], c' as [[] ?]; cbn in *; subst; try done. unfold pmax. cbn. rewrite orb_diag. done. }
  split; [exact EE|]. clear J EE.
  assert (G : forall B B', changed (fun y c c' => Rf y c c' /\ look (bl E) y = Some c /\ look (bl X) y = Some c') A B B' ->
     forall A', A ⊆ A' -> changed Rle A' B' B).
  { revert M. generalize (bl E), (bl X). intros L L' M B. clear -M. revert A M. induction B as [|b B IH]; intros A M [|b' B'] H A' HA; cbn in *; try done.
    destruct H as [H T]. split.
    - intros y. specialize (H y). unfold same_cell in *. destruct (b !! y) as [c|], (b' !! y) as [c'|]; try done.
      case_bool_decide as I1.
      + rewrite bool_decide_true by set_solver. destruct H as (P1 & L1 & L2). unfold Rf in P1. split; [done|].
        destruct (M y c c') as [->|K]; [apply elem_of_elements; done|done|done|destruct c' as [[] ?]; auto|auto].
      + subst. case_bool_decide; [apply Rle_refl|done].
    - eapply IH; [|exact T|].
      + intros y i f Q. apply M. set_solver.
      + assert (dom b' = dom b) as -> by (eapply changed_dom; exact H). set_solver. }
  eapply G; [exact HF|done].
Qed.
Lemma directly_assigned s : directly s ⊆ assigned s.
Proof.
  induction s as [k x dims|k op x acc rhe|op rhe|l r|c t f IHt IHf|c b IHb|l IH|l IH|] using stmt_ind'; cbn; try done.
  - intros y [Y|Y]%elem_of_app; apply elem_of_app; [left; auto|right]. destruct f; [|done]. apply IHf. done.
  - set_solver.
  - intros y Y. induction IH as [|s l HS HL IH]; cbn in *; [done|]. apply elem_of_app in Y as [Y|Y]; apply elem_of_app; auto.
  - intros y Y. induction IH as [|s l HS HL IH]; cbn in *; [done|]. apply elem_of_app in Y as [Y|Y]; apply elem_of_app; auto.
Qed.
Lemma set_unknown_facts E (A A' : gset string) : A ⊆ A' -> changed Rf A' (bl E) (bl (set_unknown E (elements A))) /\ components (set_unknown E (elements A)) = components E.
Proof.
  intros HA. destruct (set_unknown_spec (elements A) E) as [H C]; [apply NoDup_elements|]. split; [|done].
  eapply changed_weaken; [| | |exact H]; [rewrite list_to_set_elements_L; done|done|]. intros y c c' ->. done.
Qed.
Lemma set_unknown_le E (A : gset string) : le (bl E) (bl (set_unknown E (elements A))).
Proof.
  destruct (set_unknown_spec (elements A) E) as [H C]; [apply NoDup_elements|]. exists A. eapply changed_weaken; [| | |exact H]; [rewrite list_to_set_elements_L; done|intros; apply Rle_refl|].
  intros y c c' ->. split; [done|]. right. done.
Qed.
(** merging two environments that come from the same one *)
Lemma merge_changed (A A' : gset string) B B1 B2 : changed Rf A B B1 -> changed Rf A' B B2 -> changed Rf (A ∪ A') B (merge_blocks pmax B1 B2).
Proof.
  revert A A' B1 B2. induction B as [|b B IH]; intros A A' [|b1 B1] [|b2 B2]; cbn; try done. intros [H1 T1] [H2 T2]. split.
  - intros y. specialize (H1 y). specialize (H2 y). unfold hashmap_union. rewrite lookup_union_with. unfold same_cell in *.
    destruct (b !! y) as [c|], (b1 !! y) as [c1|], (b2 !! y) as [c2|]; cbn; try done.
    assert (c.2 = c1.2 /\ c.2 = c2.2) as [E1 E2]. { unfold Rf in *. split; [clear H2|clear H1]; case_bool_decide; congruence. }
    destruct (decide (y ∈ A ∪ A')) as [I|I]; [rewrite (bool_decide_true (y ∈ A ∪ A')) by done|rewrite (bool_decide_false (y ∈ A ∪ A')) by done].
    + unfold Rf. destruct c as [[] ?], c1 as [[] ?], c2 as [[] ?]; cbn in *; subst; rewrite ?orb_diag; done.
    + rewrite bool_decide_false in H1, H2 by set_solver. subst. rewrite pmax_same. done.
  - rewrite difference_union_distr_l_L. apply IH; done.
Qed.
Lemma merge_le_l (A A' : gset string) B B1 B2 : changed Rf A B B1 -> changed Rf A' B B2 -> changed Rle (A ∪ A') B1 (merge_blocks pmax B1 B2).
Proof.
  revert A A' B1 B2. induction B as [|b B IH]; intros A A' [|b1 B1] [|b2 B2]; cbn; try done. intros [H1 T1] [H2 T2]. split.
  - intros y. specialize (H1 y). specialize (H2 y). unfold hashmap_union. rewrite lookup_union_with. unfold same_cell in *.
    destruct (b !! y) as [c|], (b1 !! y) as [c1|], (b2 !! y) as [c2|]; cbn; try done.
    assert (c.2 = c1.2 /\ c.2 = c2.2) as [E1 E2]. { unfold Rf in *. split; [clear H2|clear H1]; case_bool_decide; congruence. }
    destruct (decide (y ∈ A ∪ A')) as [I|I]; [rewrite (bool_decide_true (y ∈ A ∪ A')) by done|rewrite (bool_decide_false (y ∈ A ∪ A')) by done].
    + unfold Rle. destruct c as [[] ?], c1 as [[] ?], c2 as [[] ?]; cbn in *; subst; rewrite ?orb_diag; auto.
    + rewrite bool_decide_false in H1, H2 by set_solver. subst. rewrite pmax_same. done.
  - rewrite (changed_dom _ _ _ _ H1), difference_union_distr_l_L. apply IH; done.
Qed.
Lemma merge_le_r (A A' : gset string) B B1 B2 : changed Rf A B B1 -> changed Rf A' B B2 -> changed Rle (A ∪ A') B2 (merge_blocks pmax B1 B2).
Proof.
  revert A A' B1 B2. induction B as [|b B IH]; intros A A' [|b1 B1] [|b2 B2]; cbn; try done. intros [H1 T1] [H2 T2]. split.
  - intros y. specialize (H1 y). specialize (H2 y). unfold hashmap_union. rewrite lookup_union_with. unfold same_cell in *.
    destruct (b !! y) as [c|], (b1 !! y) as [c1|], (b2 !! y) as [c2|]; cbn; try done.
    assert (c.2 = c1.2 /\ c.2 = c2.2) as [E1 E2]. { unfold Rf in *. split; [clear H2|clear H1]; case_bool_decide; congruence. }
    destruct (decide (y ∈ A ∪ A')) as [I|I]; [rewrite (bool_decide_true (y ∈ A ∪ A')) by done|rewrite (bool_decide_false (y ∈ A ∪ A')) by done].
    + unfold Rle. destruct c as [[] ?], c1 as [[] ?], c2 as [[] ?]; cbn in *; subst; rewrite ?orb_diag; auto.
    + rewrite bool_decide_false in H1, H2 by set_solver. subst. rewrite pmax_same. done.
  - rewrite (changed_dom _ _ _ _ H2), difference_union_distr_l_L. apply IH; done.
Qed.
Lemma merge_comps E1 E2 f : unk_comps E1 -> unk_comps E2 -> unk_comps (merge E1 E2 f).
Proof. intros H1 H2 x t. unfold merge. cbn. rewrite lookup_union_Some_raw. intros [Q|[_ Q]]; eauto. Qed.

Lemma gram_list l : grammatical (Block l) = true -> loops_ok (Block l) -> Forall gram l.
Proof.
  cbn. intros G L. induction l as [|s l IH]; [done|]. cbn in G. apply andb_prop in G as [G1 G2]. destruct L as [L1 L2].
  constructor; [split; [left|]; auto|auto].
Qed.
Lemma gram_init l : grammatical (Init l) = true -> loops_ok (Init l) -> Forall gram l.
Proof.
  cbn. generalize (existsb declares_bus l). intros b G L. induction l as [|s l IH]; [done|]. cbn in G. apply andb_prop in G as [G1 G2]. destruct L as [L1 L2].
  constructor; [split; [|done]|auto]. apply orb_prop in G1 as [G1|G1]; [left; done|]. apply andb_prop in G1 as [_ G1]. right. done.
Qed.
Lemma gram0_list l : grammatical (Block l) = true -> Forall gram0 l.
Proof. cbn. intros G. apply Forall_forall. intros s Hs. left. rewrite forallb_forall in G. apply G. apply elem_of_list_In. done. Qed.
Lemma gram0_init l : grammatical (Init l) = true -> Forall gram0 l.
Proof.
  cbn. intros G. apply Forall_forall. intros s Hs. rewrite forallb_forall in G. specialize (G s ltac:(apply elem_of_list_In; done)).
  apply orb_prop in G as [G|G]; [left; done|]. apply andb_prop in G as [_ G]. right. done.
Qed.
Lemma check_rf E X (A A' : gset string) m E' : check_modified E X (elements A) = (m, E') -> changed Rf A' (bl E) (bl X) -> changed Rf A (bl X) (bl E').
Proof.
  intros H K. apply check_modified_spec in H as (H & _); [|apply NoDup_elements]. rewrite list_to_set_elements_L in H. apply changed_looks in H.
  eapply changed_weaken; [reflexivity| | |exact H]; [done|]. intros y c c' (J & Q & _). unfold Rj in J. pose proof (changed_look _ _ _ _ y K) as L. rewrite Q in L.
  unfold same_cell in L. destruct (look (bl E) y) as [i|]; [|done]. assert (i.2 = c.2) as F. { case_bool_decide; [exact L|congruence]. }
  subst c'. unfold Rf. destruct i as [[] ?], c as [[] ?]; cbn in *; subst; rewrite ?orb_diag; done.
Qed.
Lemma check_comps E X (A : gset string) m E' : check_modified E X (elements A) = (m, E') -> components E' = components X.
Proof. intros H. apply check_modified_spec in H as (_ & C & _); [done|apply NoDup_elements]. Qed.
Lemma iter_comps body fuel n G E :
  (forall E x, analyze fuel E body = Done x -> facts body E x) ->
  Nat.iter n (fun (Q : env -> Prop) E => exists X E', analyze fuel E body = Done X /\ check_modified E (environment X) (elements (modified_variables X)) = (true, E') /\ Q E') (eq G) E ->
  unk_comps E -> unk_comps G.
Proof.
  intros HF. revert E. induction n as [|n IH]; intros E; cbn; [intros <-; done|].
  intros (X & E' & HA & HC & HI) U. apply (IH E' HI). intros x t. rewrite (check_comps _ _ _ _ _ HC). apply (f_comps _ _ _ (HF _ _ HA)). done.
Qed.
(** the iterations before the last round *)
Lemma iter_le body fuel n G E : loops_ok (While (Lit 0) body) -> grammatical (While (Lit 0) body) = true ->
  (forall E x, analyze fuel E body = Done x -> facts body E x) ->
  Nat.iter n (fun (Q : env -> Prop) E => exists X E', analyze fuel E body = Done X /\ check_modified E (environment X) (elements (modified_variables X)) = (true, E') /\ Q E') (eq G) E ->
  changed Rle (list_to_set (directly body)) (bl E) (bl G).
Proof.
  cbn. intros [L1 L2] [G1 G2]%andb_prop HF. revert E. induction n as [|n IH]; intros E; cbn.
  - intros <-. apply changed_refl. apply Rle_refl.
  - intros (X & E' & HA & HC & HI). pose proof (IH E' HI) as K1. destruct (HF _ _ HA) as [M _ C K _]. rewrite M in HC.
    assert (asg body = list_to_set (directly body)) as EA. { apply set_eq. intros y. unfold asg. rewrite !elem_of_list_to_set. split; [apply L1|apply directly_assigned]. }
    destruct (round_le _ _ _ _ _ HC) as [R RC]; [rewrite <- EA; apply K; [left; done|done]|].
    rewrite <- (union_idemp_L (list_to_set _)). eapply changed_trans; [|exact R|exact K1].
    intros y c c' c'' P1 P2. rewrite union_idemp_L. case_bool_decide; [eapply Rle_trans; eauto|congruence].
Qed.

Lemma iter_rf body fuel n G E : grammatical body = true -> closed body = true ->
  (forall E x, analyze fuel E body = Done x -> facts body E x) ->
  Nat.iter n (fun (Q : env -> Prop) E => exists X E', analyze fuel E body = Done X /\ check_modified E (environment X) (elements (modified_variables X)) = (true, E') /\ Q E') (eq G) E ->
  changed Rf (asg body) (bl E) (bl G).
Proof.
  intros G1 G2 HF. revert E. induction n as [|n IH]; intros E; cbn.
  - intros <-. apply changed_refl. apply Rf_refl.
  - intros (X & E' & HA & HC & HI). pose proof (IH E' HI) as K1. destruct (HF _ _ HA) as [M _ C K _]. specialize (K (or_introl G1) G2). pose proof (check_rf _ _ _ _ _ _ HC K) as K2.
    rewrite M in K2. assert (list_to_set (directly body) ⊆ asg body) as S. { intros y. unfold asg. rewrite !elem_of_list_to_set. apply directly_assigned. }
    rewrite <- (union_idemp_L (asg body)). eapply Rf_changed_trans; [|exact K1].
    rewrite <- (union_idemp_L (asg body)). eapply Rf_changed_trans; [exact K|]. eapply changed_weaken; [exact S|done|done|exact K2].
Qed.
Lemma facts_ok fuel s : forall E x, analyze fuel E s = Done x -> facts s E x.
Proof.
  induction s as [k x dims|k op x acc rhe|op rhe|l r|c t f IHt IHf|c b IHb|l IH|l IH|] using stmt_ind'; intros E X H.
  - destruct k; cbn in H.
    + bd H. bd H. injection H as <-. apply found_done in Ha. rewrite add_variable_rev in Ha. fold (bl E) in Ha.
      destruct (bl E) as [|b bs] eqn:EB; [done|]. injection Ha as <-. split; cbn [modified_variables environment].
      * cbn. set_solver.
      * done.
      * done.
      * done.
      * intros _ _. rewrite EB, bl_with. cbn. split; [rewrite dom_insert_L; set_solver|]. split.
        -- intros y N. rewrite lookup_insert_ne; [done|]. intros ->. apply N. cbn. set_solver.
        -- eapply changed_weaken; [|done| |apply (changed_empty Rf)]; [set_solver|done].
    + bd H. injection H as <-. apply closed_facts; cbn; try done. intros _. apply changed_empty.
    + bd H. injection H as <-. apply closed_facts; cbn; try done. intros _. apply changed_empty.
    + bd H. injection H as <-. apply closed_facts; cbn; try done; [|intros _; apply changed_empty].
      intros U y t. cbn. rewrite lookup_insert_Some. intros [[_ <-]|[_ Q]]; eauto.
    + injection H as <-. apply closed_facts; cbn; try done; [|intros _; apply changed_empty].
      intros U y t. cbn. rewrite lookup_insert_Some. intros [[_ <-]|[_ Q]]; eauto.
  - cbn in H. bd H. bd H. destruct k; cbn in H.
    + bd H. bd H. injection H as <-. apply found_done in Ha1, Ha2. rewrite get_look in Ha1.
      destruct (set_var_spec _ _ _ _ _ Ha2 Ha1) as (C1 & C2 & _). apply closed_facts; cbn; try done.
      * set_solver.
      * intros U y t. rewrite C2. apply U.
      * intros _. unfold asg. cbn. rewrite union_empty_r_L. apply C1. unfold Rf. destruct a1 as [[] []]; done.
    + destruct op; [injection H as <-..|bd H; injection H as <-]; (apply closed_facts; cbn; try done; intros _; apply changed_empty).
    + destruct op; [injection H as <-..|bd H; injection H as <-]; (apply closed_facts; cbn; try done; intros _; apply changed_empty).
    + injection H as <-. apply closed_facts; cbn; try done. intros _. apply changed_empty.
    + injection H as <-. apply closed_facts; cbn; try done. intros _. apply changed_empty.
  - cbn in H. bd H. destruct op; [injection H as <-..|bd H; injection H as <-]; (apply closed_facts; cbn; try done; intros _; apply changed_empty).
  - cbn in H. bd H. bd H. injection H as <-. apply closed_facts; cbn; try done. intros _. apply changed_empty.
  - cbn in H. bd H. bd H. bd H. injection H as <-. specialize (IHt _ _ Ha0).
    assert (HF : match f with Some f => facts f E a1 | None => a1 = quiet_exit E end). { destruct f; [apply IHf; done|injection Ha1 as <-; done]. }
    destruct IHt as [M F C K _].
    assert (M1 : modified_variables a1 = list_to_set (match f with Some f => directly f | None => [] end)). { destruct f; [apply HF|subst a1; done]. }
    assert (F1 : flags a1 = match f with Some f => loud f | None => false end). { destruct f; [apply HF|subst a1; done]. }
    assert (C1 : unk_comps E -> unk_comps (environment a1)). { destruct f; [apply HF|subst a1; done]. }
    apply closed_facts; cbn [modified_variables environment].
    + cbn. rewrite list_to_set_app_L. congruence.
    + cbn. rewrite <- F, <- F1. unfold flags. cbn. destruct (constraints_declared a0), (tags_modified a0), (signals_declared a0), (constraints_declared a1), (tags_modified a1), (signals_declared a1); reflexivity.
    + intros U. specialize (C U). specialize (C1 U). pose proof (merge_comps _ _ pmax C C1) as UM. destruct (unk a); [|done].
      intros y t0. rewrite (proj2 (set_unknown_facts _ _ _ (reflexivity _))). apply UM.
    + intros [G|G]; [|done]. cbn in G. apply andb_prop in G as [G1 G2]. apply andb_prop in G1 as [G0 G1].
      assert (K1 : changed Rf (list_to_set (match f with Some f => assigned f | None => [] end)) (bl E) (bl (environment a1))).
      { destruct f as [f|]; [|subst a1; apply changed_empty]. apply andb_prop in G2 as [G2 G3]. destruct HF as [_ _ _ HF _]. apply HF; [left; done|done]. }
      assert (K0 : changed Rf (asg t) (bl E) (bl (environment a0))) by (apply K; [left; done|done]).
      pose proof (merge_changed _ _ _ _ _ K0 K1) as KM. unfold asg. cbn. rewrite list_to_set_app_L.
      destruct (unk a); [|rewrite bl_merge; exact KM]. rewrite <- (union_idemp_L (list_to_set (assigned t) ∪ _)). eapply Rf_changed_trans; [exact KM|].
      rewrite <- bl_merge. apply set_unknown_facts. rewrite M, M1. intros y Y. apply elem_of_union in Y as [Y|Y]; apply elem_of_union.
      * left. rewrite elem_of_list_to_set in Y |- *. apply directly_assigned. done.
      * right. destruct f; [|done]. rewrite elem_of_list_to_set in Y |- *. apply directly_assigned. done.
  - cbn in H. bd H. bd H. injection H as <-.
    apply rounds_last in Ha as (n & G & Y & HC & HY & R1 & R2 & R3 & R4 & R5 & R6 & HI).
    destruct (IHb _ _ HY) as [M F C K _]. apply closed_facts; cbn [modified_variables environment].
    + done.
    + cbn. rewrite <- F, <- R2. done.
    + intros U. pose proof (iter_comps _ _ _ _ _ IHb HI U) as UG. specialize (C UG).
      assert (U' : unk_comps (environment a)). { intros y t. rewrite (check_comps _ _ _ _ _ HC). apply C. }
      destruct (unk a0); [|done]. intros y t. rewrite (proj2 (set_unknown_facts _ _ _ (reflexivity _))). apply U'.
    + intros [GR|GR]; [|done]. cbn in GR. apply andb_prop in GR as [G1 G2]. pose proof (iter_rf b fuel n G E G2 G1 IHb HI) as LE.
      specialize (K (or_introl G2) G1). pose proof (check_rf _ _ _ _ _ _ HC K) as K2. rewrite M in K2.
      assert (list_to_set (directly b) ⊆ asg b) as S. { intros y. unfold asg. rewrite !elem_of_list_to_set. apply directly_assigned. }
      change (asg (While c b)) with (asg b).
      assert (KG : changed Rf (asg b) (bl E) (bl (environment a))).
      { rewrite <- (union_idemp_L (asg b)). eapply Rf_changed_trans; [exact LE|]. rewrite <- (union_idemp_L (asg b)). eapply Rf_changed_trans; [exact K|].
        eapply changed_weaken; [exact S|done|done|exact K2]. }
      destruct (unk a0); [|exact KG]. rewrite <- (union_idemp_L (asg b)). eapply Rf_changed_trans; [exact KG|].
      apply set_unknown_facts. rewrite R3, M. done.
  - cbn in H. bd H. bd H. injection H as <-. apply found_done in Ha0. rewrite remove_variable_block_rev in Ha0. fold (bl (environment a)) in Ha0.
    apply (iterate_facts _ _ IH) in Ha as [M F C _ O]. assert (EB : bl (add_variable_block E) = ∅ :: bl E). { unfold bl, add_variable_block, with_variables. cbn [variables]. rewrite reverse_app. done. }
    destruct (bl (environment a)) as [|b bs] eqn:EA; [done|]. injection Ha0 as <-. apply closed_facts; cbn [modified_variables environment]; auto.
    intros [G|G]; [|done]. rewrite bl_with. pose proof (gram0_list l G) as GL. rewrite EB, ?EA in O. destruct (O GL ltac:(done)) as (_ & _ & T).
    replace (asg (Block l)) with (asgs l ∖ dom (∅ : tblock)); [exact T|]. rewrite dom_empty_L, difference_empty_L. done.
  - cbn in H. apply (iterate_facts _ _ IH) in H as [M F C K O]. split; auto.
    + intros [G|G]; [|done]. apply K. apply gram0_init; done.
    + intros [G|G]; [|done]. apply O. apply gram0_init; done.
  - injection H as <-. apply closed_facts; cbn; try done. intros _. apply changed_empty.
Qed.

(** ** What an execution leaves alone *)
Section runs.
Context {V T : Type} (W : world V T).
Notation run := (run W). Notation runs := (runs W).
Definition RT (_ : string) (_ _ : V) : Prop := True.
Scheme run_mut := Minimality for KnownSpec.run Sort Prop
  with runs_mut := Minimality for KnownSpec.runs Sort Prop.
Definition run_facts (st : state) (s : stmt) (st' : @state V T) (tr : list (event V)) : Prop :=
  (gram0 s -> closed s = true -> changed RT (asg s) (vars st) (vars st')) /\
  (gram0 s -> vars st <> [] -> opened RT (asg s) (vars st) (vars st')) /\
  (grammatical s = true -> loud s = false -> tr = [] /\ tags st' = tags st).
Definition runs_facts (st : state) (l : list stmt) (st' : @state V T) (tr : list (event V)) : Prop :=
  (Forall gram0 l -> forallb closed l = true -> changed RT (asgs l) (vars st) (vars st')) /\
  (Forall gram0 l -> vars st <> [] -> opened RT (asgs l) (vars st) (vars st')) /\
  (Forall (fun s => grammatical s = true) l -> existsb loud l = false -> tr = [] /\ tags st' = tags st).
Lemma RT_refl y c : RT y c c. Proof. done. Qed.
Lemma RT_trans y u v w : RT y u v -> RT y v w -> RT y u w. Proof. done. Qed.
Lemma RT_changed_trans A A' B B' B'' : changed RT A B B' -> changed RT A' B' B'' -> changed RT (A ∪ A') B B''.
Proof. intros H H'. eapply changed_trans; [|exact H|exact H']. intros y c c' c'' P1 P2. unfold RT in *. repeat case_bool_decide; subst; try congruence; set_solver. Qed.
Lemma run_facts_closed st s st' tr : (gram0 s -> changed RT (asg s) (vars st) (vars st')) ->
  (grammatical s = true -> loud s = false -> tr = [] /\ tags st' = tags st) -> run_facts st s st' tr.
Proof. intros H1 H2. split; [auto|]. split; [|auto]. intros G N. apply changed_opened; auto. Qed.
Lemma run_facts_same st s tr : (grammatical s = true -> loud s = false -> tr = []) -> run_facts st s st tr.
Proof. intros H. apply run_facts_closed; [intros _; apply changed_refl; done|auto]. Qed.
Lemma run_facts_ok I st s st' tr : run I st s st' tr -> run_facts st s st' tr.
Proof.
  revert st s st' tr. refine (run_mut V T W I run_facts runs_facts _ _ _ _ _ _ _ _ _ _ _ _ _ _ _ _ _ _ _ _ _ _ _).
  - intros st x dims vs st' _ HD. unfold declare in HD. destruct st as [vs0 g]. cbn in *. destruct vs0 as [|b bs]; [done|]. injection HD as <-. split; [done|]. split; [|done].
    intros _ _. cbn. split; [rewrite dom_insert_L; set_solver|]. split; [|apply changed_refl; done].
    intros y N. rewrite lookup_insert_ne; [done|]. intros ->. apply N. unfold asg. cbn. set_solver.
  - intros. apply run_facts_same. done.
  - intros st k x dims vs N1 N2 _. apply run_facts_same. destruct k; done.
  - intros st op x acc rhe old is v v' vs' _ _ HL _ HS. apply run_facts_closed; [|done]. intros _. cbn.
    unfold asg. cbn. rewrite union_empty_r_L. eapply changed_store; done.
  - intros. apply run_facts_same. done.
  - intros. apply run_facts_same. done.
  - intros. apply run_facts_closed; [|done]. intros _. apply changed_refl. done.
  - intros st k x acc rhe [-> | ->]; apply run_facts_same; done.
  - intros. apply run_facts_same. done.
  - intros. apply run_facts_same. done.
  - intros. apply run_facts_same. done.
  - intros. apply run_facts_same. done.
  - intros. apply run_facts_same. done.
  - intros st c t f v st' tr _ _ _ (K & _ & L). apply run_facts_closed.
    + intros [G|G]; [|done]. cbn in G. apply andb_prop in G as [G1 G2]. apply andb_prop in G1 as [G0 G1].
      eapply changed_weaken; [| | |apply K; [left; done|done]]; [|done|done]. unfold asg. cbn. rewrite list_to_set_app_L. set_solver.
    + cbn. intros G [L1 L2]%orb_false_iff. apply andb_prop in G as [G1 G2]. apply andb_prop in G1 as [G0 G1]. auto.
  - intros st c t f v st' tr _ _ _ (K & _ & L). apply run_facts_closed.
    + intros [G|G]; [|done]. cbn in G. apply andb_prop in G as [G1 G2]. apply andb_prop in G2 as [G2 G3].
      eapply changed_weaken; [| | |apply K; [left; done|done]]; [|done|done]. unfold asg. cbn. rewrite list_to_set_app_L. set_solver.
    + cbn. intros G [L1 L2]%orb_false_iff. apply andb_prop in G as [G1 G2]. apply andb_prop in G2 as [G2 G3]. auto.
  - intros. apply run_facts_same. done.
  - intros. apply run_facts_same. done.
  - intros st c b v st1 st2 tr1 tr2 _ _ _ (K & _ & L) _ (K2 & _ & L2). apply run_facts_closed.
    + intros [G|G]; [|done]. specialize (K2 (or_introl G) eq_refl). cbn in G. apply andb_prop in G as [G1 G2].
      rewrite <- (union_idemp_L (asg (While c b))). eapply RT_changed_trans; [|exact K2]. apply K; [left|]; done.
    + cbn. intros G LL. destruct (L2 G LL) as [-> ->]. apply andb_prop in G as [G1 G2]. destruct (L G2 LL) as [-> ->]. done.
  - intros st l b bs g tr _ (_ & O & L). apply run_facts_closed.
    + cbn in *. intros [G|G]; [|done].
      assert (GL : Forall gram0 l). { cbn in G. apply Forall_forall. intros s Hs. left. revert s Hs. apply Forall_forall. clear -G.
        induction l as [|s l IH]; [constructor|]. cbn in G. apply andb_prop in G as [G1 G2]. constructor; auto. }
      destruct (O GL ltac:(done)) as (_ & _ & TT). rewrite dom_empty_L, difference_empty_L in TT. exact TT.
    + cbn. intros G LL. apply L; [|done]. clear -G. induction l as [|s l IH]; [constructor|]. cbn in G. apply andb_prop in G as [G1 G2]. constructor; auto.
  - intros st l st' tr _ (K & O & L).
    assert (GL : gram0 (Init l) -> Forall gram0 l).
    { intros [G|G]; [|done]. cbn in G. revert G. generalize (existsb declares_bus l). intros bb G. clear -G. induction l as [|s l IH]; [done|]. cbn in G. apply andb_prop in G as [G1 G2].
      constructor; [|auto]. apply orb_prop in G1 as [G1|G1]; [left; done|]. apply andb_prop in G1 as [_ G1]. right. done. }
    split; [|split].
    + intros G. apply K. auto.
    + intros G. apply O. auto.
    + cbn. intros G LL. apply L; [|done]. assert (NB : existsb declares_bus l = false).
      { clear -LL. induction l as [|s l IH]; [done|]. cbn in *. apply orb_false_iff in LL as [L1 L2]. rewrite (IH L2). destruct s as [[]| | | | | | | |]; done. }
      rewrite NB in G. clear -G. induction l as [|s l IH]; [constructor|]. cbn in G. apply andb_prop in G as [G1 G2]. rewrite orb_false_r in G1. constructor; auto.
  - intros. apply run_facts_same. done.
  - intros st. split; [|split]; cbn.
    + intros _ _. apply changed_empty.
    + intros _ N. apply changed_opened; [done|]. apply changed_empty.
    + done.
  - intros st s l st1 st2 tr1 tr2 _ (K & O & L) _ (K' & O' & L'). split; [|split].
    + intros [G1 G2]%Forall_cons Q. cbn in Q. apply andb_prop in Q as [Q1 Q2]. rewrite asgs_cons. eapply RT_changed_trans; eauto.
    + intros [G1 G2]%Forall_cons N. rewrite asgs_cons. specialize (O G1 N). eapply opened_trans; [exact RT_trans|exact RT_refl|exact O|]. apply O'; [done|]. eapply opened_nonempty; eauto.
    + intros [G1 G2]%Forall_cons Q. cbn in Q. apply orb_false_iff in Q as [Q1 Q2]. destruct (L G1 Q1) as [-> E1]. destruct (L' G2 Q2) as [-> E2]. split; [done|congruence].
Qed.
End runs.
