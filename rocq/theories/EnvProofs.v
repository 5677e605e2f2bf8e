(** Lemmas for PropertiesEnv.v *)
From stdpp Require Import prelude gmap strings.
From Verif Require Import EnvModel EnvSpec.
Open Scope nat_scope.
#[local] Arguments reverse : simpl never.

Section lookup.
Context {V : Type}.
Implicit Types (bs : list (gmap string V)) (x : string).
Lemma block_from_app bs b n x : n ≤ length bs → block_from (bs ++ [b]) n x = block_from bs n x.
Proof.
  induction n as [|n IH]; intros H; [reflexivity|].
  cbn [block_from]. rewrite lookup_app_l by lia. rewrite IH by lia. reflexivity.
Qed.
Lemma block_from_snoc bs b x :
  block_from (bs ++ [b]) (length (bs ++ [b])) x = if bool_decide (is_Some (b !! x)) then Some (length bs) else block_from bs (length bs) x.
Proof.
  rewrite app_length. cbn [length]. rewrite Nat.add_1_r. cbn [block_from].
  rewrite (lookup_app_r bs [b] (length bs)) by lia. rewrite Nat.sub_diag. cbn.
  case_bool_decide; [reflexivity|]. apply block_from_app. lia.
Qed.
Lemma block_from_bound bs n x i : block_from bs n x = Some i → i < n.
Proof.
  induction n as [|n IH]; [discriminate|]. cbn [block_from].
  destruct (bs !! n) as [b|].
  - case_bool_decide; [intros [= <-]; lia|]. intros Q. apply IH in Q. lia.
  - intros Q. apply IH in Q. lia.
Qed.
Lemma block_from_in bs n x i : block_from bs n x = Some i → ∃ b, bs !! i = Some b ∧ is_Some (b !! x).
Proof.
  induction n as [|n IH]; [discriminate|]. cbn [block_from].
  destruct (bs !! n) as [b|] eqn:E; [|exact IH].
  case_bool_decide; [|exact IH]. intros [= <-]. eauto.
Qed.
(** the value found from the innermost block, blocks given innermost first *)
Fixpoint find_in bs x : option V :=
  match bs with [] => None | b :: bs => match b !! x with Some v => Some v | None => find_in bs x end end.
Fixpoint find_level bs x : option nat :=
  match bs with [] => None | b :: bs => match b !! x with Some v => Some 0 | None => S <$> find_level bs x end end.
Lemma block_from_level bs x :
  block_from bs (length bs) x = (λ k, length bs - 1 - k) <$> find_level (reverse bs) x.
Proof.
  induction bs as [|b bs IH] using rev_ind; [reflexivity|].
  rewrite block_from_snoc, reverse_snoc. cbn [find_level].
  destruct (b !! x) as [v|] eqn:E.
  - rewrite bool_decide_true by eauto. cbn. f_equal. rewrite app_length. cbn. lia.
  - rewrite bool_decide_false by (intros [? Q]; discriminate Q). rewrite IH.
    destruct (find_level (reverse bs) x) as [k|] eqn:K; cbn; [|reflexivity].
    f_equal. rewrite app_length. cbn. lia.
Qed.
End lookup.

Section env.
Context {CC SC V BC : Type}.
Implicit Types (e : env CC SC V BC) (x : string).
Lemma get_variable_find e x : get_variable e x = find_in (reverse (variables e)) x.
Proof.
  unfold get_variable, block_with_variable_symbol. destruct e as [bs]. cbn [variables].
  induction bs as [|b bs IH] using rev_ind; [reflexivity|].
  rewrite block_from_snoc, reverse_snoc. cbn [find_in]. case_bool_decide as B.
  - destruct B as [v Hv]. rewrite Hv. rewrite lookup_app_r by lia. rewrite Nat.sub_diag. cbn. exact Hv.
  - destruct (b !! x) as [v|] eqn:E; [destruct B; eauto|].
    rewrite <- IH. destruct (block_from bs (length bs) x) as [i|] eqn:F; [|reflexivity].
    rewrite lookup_app_l by (apply block_from_bound in F; lia). reflexivity.
Qed.
Lemma has_variable_find e x : has_variable e x = bool_decide (is_Some (get_variable e x)).
Proof.
  unfold has_variable, get_variable, block_with_variable_symbol.
  destruct (block_from _ _ x) as [i|] eqn:F.
  - apply block_from_in in F as (b & -> & H). cbn. rewrite bool_decide_true; [reflexivity|exact H].
  - rewrite bool_decide_false; [reflexivity|]. intros [? Q]. discriminate Q.
Qed.
(** assignment in the blocks, innermost first *)
Fixpoint assign_in (bs : list (gmap string V)) x (v : V) : option (list (gmap string V)) :=
  match bs with
  | [] => None
  | b :: bs => match b !! x with Some _ => Some (<[x := v]> b :: bs) | None => cons b <$> assign_in bs x v end
  end.
Lemma set_variable_assign e x v : set_variable x v e = (λ bs, with_variables (reverse bs) e) <$> assign_in (reverse (variables e)) x v.
Proof.
  unfold set_variable, block_with_variable_symbol. destruct e as [bs ? ? ? ? ? ? ?]. cbn [variables].
  assert (Q : (λ i, alter (<[x := v]>) i bs) <$> block_from bs (length bs) x = (λ bs, reverse bs) <$> assign_in (reverse bs) x v).
  { induction bs as [|b bs IH] using rev_ind; [reflexivity|].
    rewrite block_from_snoc, reverse_snoc. cbn [assign_in]. case_bool_decide as B.
    - destruct B as [w Hw]. rewrite Hw. cbn. f_equal. rewrite reverse_cons, reverse_involutive.
      rewrite alter_app_r_alt by lia. rewrite Nat.sub_diag. reflexivity.
    - destruct (b !! x) as [w|] eqn:E; [destruct B; eauto|].
      destruct (block_from bs (length bs) x) as [i|] eqn:F; destruct (assign_in (reverse bs) x v) as [r|] eqn:A; cbn in *; try discriminate; [|reflexivity].
      f_equal. rewrite reverse_cons. injection IH as IH. rewrite <- IH.
      apply alter_app_l. apply block_from_bound in F. lia. }
  destruct (block_from bs (length bs) x) as [i|]; destruct (assign_in (reverse bs) x v) as [r|]; cbn in *; try discriminate; [|reflexivity].
  injection Q as ->. reflexivity.
Qed.
Lemma remove_variable_block_rev e : remove_variable_block e = match reverse (variables e) with [] => None | _ :: bs => Some (with_variables (reverse bs) e) end.
Proof.
  unfold remove_variable_block. destruct e as [bs ? ? ? ? ? ? ?]. cbn [variables].
  destruct bs as [|b bs _] using rev_ind; [reflexivity|].
  rewrite reverse_snoc, reverse_involutive.
  assert (E : take (length (bs ++ [b]) - 1) (bs ++ [b]) = bs).
  { rewrite app_length. cbn [length]. replace (length bs + 1 - 1) with (length bs) by lia. apply take_app. }
  destruct (bs ++ [b]) eqn:F; [destruct bs; discriminate|]. rewrite E. reflexivity.
Qed.
Lemma add_variable_rev x v e : add_variable x v e = match reverse (variables e) with [] => None | b :: bs => Some (with_variables (reverse (<[x := v]> b :: bs)) e) end.
Proof.
  unfold add_variable. destruct e as [bs ? ? ? ? ? ? ?]. cbn [variables].
  destruct bs as [|b bs _] using rev_ind; [reflexivity|].
  rewrite reverse_snoc, reverse_cons, reverse_involutive.
  assert (E : alter (<[x := v]>) (length (bs ++ [b]) - 1) (bs ++ [b]) = bs ++ [<[x := v]> b]).
  { rewrite app_length. cbn [length]. replace (length bs + 1 - 1) with (length bs) by lia.
    rewrite alter_app_r_alt by lia. rewrite Nat.sub_diag. reflexivity. }
  destruct (bs ++ [b]) eqn:F; [destruct bs; discriminate|]. rewrite E. reflexivity.
Qed.

(** the step on the blocks innermost first *)
Definition rev_step (bs : list (gmap string V)) (o : env_op V) : option (list (gmap string V)) :=
  match o, bs with
  | Open_, _ => Some (∅ :: bs)
  | Close_, _ :: bs => Some bs
  | Declare_ x v, b :: bs => Some (<[x := v]> b :: bs)
  | Assign_ x v, _ => assign_in bs x v
  | _, [] => None
  end.
Lemma env_step_rev e o : env_step e o = (λ bs, with_variables (reverse bs) e) <$> rev_step (reverse (variables e)) o.
Proof.
  destruct o; cbn [env_step rev_step].
  - cbn. unfold add_variable_block. rewrite reverse_cons, reverse_involutive. reflexivity.
  - rewrite remove_variable_block_rev. destruct (reverse (variables e)); reflexivity.
  - rewrite add_variable_rev. destruct (reverse (variables e)); reflexivity.
  - rewrite set_variable_assign. destruct (reverse (variables e)); reflexivity.
Qed.
Lemma run_env_rev ops e : run_ops env_step e ops = (λ bs, with_variables (reverse bs) e) <$> run_ops rev_step (reverse (variables e)) ops.
Proof.
  revert e; induction ops as [|o ops IH]; intros e; cbn [run_ops].
  - cbn. rewrite reverse_involutive. destruct e; reflexivity.
  - rewrite env_step_rev. destruct (rev_step _ o) as [bs|]; cbn; [|reflexivity].
    rewrite IH. cbn. rewrite reverse_involutive. destruct (run_ops rev_step bs ops); reflexivity.
Qed.

Local Notation lk ss i x := (match ss !! i with Some m => m !! x | None => None end).
(** every declared name has a cell of its own, holding its value *)
Definition cells_match (bs : list (gmap string V)) (st : scoping V) : Prop :=
  (∀ i x, lk bs i x = match lk (scopes st) i x with Some c => cells st !! c | None => None end) ∧
  length bs = length (scopes st) ∧
  (∀ i x c, lk (scopes st) i x = Some c → c < length (cells st)) ∧
  (∀ i j x y c, lk (scopes st) i x = Some c → lk (scopes st) j y = Some c → i = j ∧ x = y).
Lemma cells_match_find bs st x : cells_match bs st → find_in bs x = value_of st x.
Proof.
  intros (H & L & B & _). unfold value_of. destruct st as [ss cs]. cbn [scopes cells] in *.
  revert ss H L B. induction bs as [|b bs IH]; intros [|s ss] H L B; try discriminate L; [reflexivity|].
  pose proof (H 0 x) as H0. cbn in H0. cbn [find_in resolve]. rewrite H0.
  destruct (s !! x) as [c|] eqn:E; cbn.
  - destruct (lookup_lt_is_Some_2 cs c) as [v Hv]; [apply (B 0 x c); exact E|]. rewrite Hv. reflexivity.
  - apply IH.
    + intros i y. exact (H (S i) y).
    + injection L as L. exact L.
    + intros i y c. exact (B (S i) y c).
Qed.
Lemma assign_match bs st x v : cells_match bs st →
  match assign_in bs x v, scoping_step st (Assign_ x v) with
  | Some bs', Some st' => cells_match bs' st'
  | None, None => True
  | _, _ => False
  end.
Proof.
  intros (H & L & B & I).
  assert (Q : match assign_in bs x v, resolve (scopes st) x with
    | Some bs', Some c => ∃ k, lk (scopes st) k x = Some c ∧ bs' = alter (<[x := v]>) k bs
    | None, None => True | _, _ => False end).
  { destruct st as [ss cs]. cbn [scopes cells] in *. clear I.
    revert ss H L B. induction bs as [|b bs IH]; intros [|s ss] H L B; try discriminate L; [exact I|].
    pose proof (H 0 x) as H0. cbn in H0. cbn [assign_in resolve]. rewrite H0.
    destruct (s !! x) as [c|] eqn:E; cbn.
    - destruct (lookup_lt_is_Some_2 cs c) as [w Hw]; [apply (B 0 x c); exact E|]. rewrite Hw.
      exists 0. split; [exact E|reflexivity].
    - specialize (IH ss (fun i y => H (S i) y) ltac:(injection L as L; exact L) (fun i y c => B (S i) y c)).
      destruct (assign_in bs x v) as [r|], (resolve ss x) as [c|]; cbn in *; try exact IH.
      destruct IH as (k & K1 & K2). exists (S k). split; [exact K1|]. rewrite K2. reflexivity. }
  cbn [scoping_step]. destruct (assign_in bs x v) as [bs'|], (resolve (scopes st) x) as [c|]; try exact Q.
  destruct Q as (k & K1 & ->). assert (c < length (cells st)) as Hc by eauto.
  destruct st as [ss cs]. cbn [scopes cells] in *. unfold cells_match. cbn [scopes cells]. split_and!.
  - intros i y. destruct (decide (i = k)) as [->|Ni].
    + rewrite list_lookup_alter. specialize (H k y). destruct (ss !! k) as [s|] eqn:S; [|discriminate K1].
      cbn in K1, H |- *. destruct (bs !! k) as [b|] eqn:Bk.
      * cbn in H |- *. destruct (decide (y = x)) as [->|Ny].
        { rewrite lookup_insert, K1. cbn. symmetry. apply list_lookup_insert. exact Hc. }
        rewrite lookup_insert_ne by congruence. rewrite H. destruct (s !! y) as [d|] eqn:D; cbn; [|reflexivity].
        rewrite list_lookup_insert_ne; [reflexivity|]. intros <-.
        destruct (I k k x y c) as [_ Q]; [rewrite S; exact K1|rewrite S; exact D|congruence].
      * apply lookup_ge_None in Bk. apply lookup_lt_Some in S. lia.
    + rewrite list_lookup_alter_ne by congruence. rewrite H. destruct (ss !! i) as [s|] eqn:S; [|reflexivity]. cbn.
      destruct (s !! y) as [d|] eqn:D; cbn; [|reflexivity].
      rewrite list_lookup_insert_ne; [reflexivity|]. intros <-.
      destruct (I k i x y c) as [Q _]; [exact K1|rewrite S; exact D|congruence].
  - rewrite alter_length. exact L.
  - intros i y d D. rewrite insert_length. eauto.
  - exact I.
Qed.
Lemma step_match bs st o : cells_match bs st →
  match rev_step bs o, scoping_step st o with
  | Some bs', Some st' => cells_match bs' st'
  | None, None => True
  | _, _ => False
  end.
Proof.
  intros HM. destruct o as [| |x v|x v]; [| | |apply (assign_match bs st x v HM)];
    destruct HM as (H & L & B & I); destruct st as [ss cs]; cbn [scopes cells] in *; cbn [rev_step scoping_step scopes].
  - split_and!; cbn [scopes cells].
    + intros [|i] y; [reflexivity|]. exact (H i y).
    + cbn. lia.
    + intros [|i] y c; [discriminate|]. exact (B i y c).
    + intros [|i] [|j] y z c; cbn; try discriminate. intros Q1 Q2. destruct (I i j y z c Q1 Q2). split; congruence.
  - destruct bs as [|b bs], ss as [|s ss]; try discriminate L; [exact Logic.I|].
    split_and!; cbn [scopes cells].
    + intros i y. exact (H (S i) y).
    + injection L as L. exact L.
    + intros i y c. exact (B (S i) y c).
    + intros i j y z c Q1 Q2. destruct (I (S i) (S j) y z c Q1 Q2). split; congruence.
  - destruct bs as [|b bs], ss as [|s ss]; try discriminate L; [exact Logic.I|].
    assert (F : ∀ i y c, lk (<[x := length cs]> s :: ss) i y = Some c → (i = 0 ∧ y = x ∧ c = length cs) ∨ (lk (s :: ss) i y = Some c ∧ c < length cs)).
    { intros [|i] y c Q; cbn in Q.
      - destruct (decide (y = x)) as [->|N].
        + rewrite lookup_insert in Q. injection Q as <-. auto.
        + rewrite lookup_insert_ne in Q by congruence. right. split; [exact Q|]. apply (B 0 y c). exact Q.
      - right. split; [exact Q|]. apply (B (S i) y c). exact Q. }
    split_and!; cbn [scopes cells].
    + intros i y. pose proof (H i y) as Hi. destruct i as [|i]; cbn in Hi |- *.
      * destruct (decide (y = x)) as [->|N].
        { rewrite !lookup_insert. cbn. rewrite lookup_app_r, Nat.sub_diag by lia. reflexivity. }
        rewrite !lookup_insert_ne by congruence. rewrite Hi. destruct (s !! y) as [c|] eqn:E; [|reflexivity]. cbn.
        rewrite lookup_app_l; [reflexivity|]. apply (B 0 y c). exact E.
      * rewrite Hi. destruct (ss !! i) as [t|] eqn:T; [|reflexivity]. cbn. destruct (t !! y) as [c|] eqn:E; [|reflexivity]. cbn.
        rewrite lookup_app_l; [reflexivity|]. apply (B (S i) y c). cbn. rewrite T. exact E.
    + cbn in L |- *. exact L.
    + intros i y c Q. rewrite app_length. cbn. destruct (F i y c Q) as [(_ & _ & ->)|[_ Q2]]; lia.
    + intros i j y z c Q1 Q2. destruct (F i y c Q1) as [(-> & -> & E1)|[P1 L1]], (F j z c Q2) as [(-> & -> & E2)|[P2 L2]]; [split; reflexivity|lia|lia|].
      exact (I i j y z c P1 P2).
Qed.
Lemma run_match ops bs st : cells_match bs st →
  match run_ops rev_step bs ops, run_ops scoping_step st ops with
  | Some bs', Some st' => cells_match bs' st'
  | None, None => True
  | _, _ => False
  end.
Proof.
  revert bs st; induction ops as [|o ops IH]; intros bs st HM; cbn [run_ops]; [exact HM|].
  pose proof (step_match bs st o HM) as Q.
  destruct (rev_step bs o) as [bs'|], (scoping_step st o) as [st'|]; try contradiction; [apply IH; exact Q|exact I].
Qed.
Lemma new_match : cells_match (reverse [∅]) scoping_new.
Proof.
  split_and!; cbn.
  - intros [|i] x; reflexivity.
  - reflexivity.
  - intros [|i] x c Q; discriminate Q.
  - intros [|i] j x y c Q; discriminate Q.
Qed.

(** blocks *)
Definition assigned (ops : list (env_op V)) x : Prop := ∃ v, Assign_ x v ∈ ops.
Definition outer_kept (ops : list (env_op V)) (os os' : list (gmap string V)) : Prop :=
  Forall2 (λ b b' : gmap string V, ∀ x, (is_Some (b !! x) ↔ is_Some (b' !! x)) ∧ (¬ assigned ops x → b !! x = b' !! x)) os os'.
Lemma outer_kept_refl ops os : outer_kept ops os os.
Proof. induction os; constructor; [intros x; split; [reflexivity|reflexivity]|exact IHos]. Qed.
Lemma assign_outer inner os x v bs' : assign_in (inner ++ os) x v = Some bs' →
  ∃ inner' os', bs' = inner' ++ os' ∧ length inner' = length inner ∧ outer_kept [Assign_ x v] os os'.
Proof.
  revert bs'. induction inner as [|b inner IH]; intros bs'; cbn [app].
  - intros Q. exists [], bs'. split; [reflexivity|]. split; [reflexivity|].
    revert bs' Q. induction os as [|b os IH]; intros bs'; cbn [assign_in]; [discriminate|].
    destruct (b !! x) as [w|] eqn:E.
    + intros [= <-]. constructor; [|apply outer_kept_refl]. intros y. destruct (decide (y = x)) as [->|N].
      * rewrite lookup_insert, E. split; [split; eauto|]. intros Q. destruct Q. exists v. left.
      * rewrite lookup_insert_ne by congruence. split; reflexivity.
    + destruct (assign_in os x v) as [r|]; [|discriminate]. cbn. intros [= <-]. constructor; [|apply IH; reflexivity].
      intros y. split; reflexivity.
  - cbn [assign_in]. destruct (b !! x) as [w|] eqn:E.
    + intros [= <-]. exists (<[x := v]> b :: inner), os. split; [reflexivity|]. split; [reflexivity|apply outer_kept_refl].
    + destruct (assign_in (inner ++ os) x v) as [r|]; [|discriminate]. cbn. intros [= <-].
      destruct (IH r eq_refl) as (inner' & os' & -> & L & K). exists (b :: inner'), os'. split; [reflexivity|]. split; [cbn; lia|exact K].
Qed.
Lemma outer_kept_trans o ops os os' os'' : outer_kept [o] os os' → outer_kept ops os' os'' → outer_kept (o :: ops) os os''.
Proof.
  intros H. revert os''. induction H as [|b b' os os' HB HO IH]; intros os'' K; inversion K; subst; constructor; [|apply IH; assumption].
  intros x. destruct (HB x) as [D1 E1]. match goal with Q : ∀ x, _ |- _ => destruct (Q x) as [D2 E2] end.
  split; [rewrite D1; exact D2|]. intros N. rewrite E1, E2; [reflexivity| |].
  - intros [w W]. apply N. exists w. right. exact W.
  - intros [w W]. apply N. exists w. apply elem_of_list_singleton in W as ->. left.
Qed.
Lemma outer_kept_cons o ops os os' : outer_kept ops os os' → outer_kept (o :: ops) os os'.
Proof. intros H. apply (outer_kept_trans o ops os os); [apply outer_kept_refl|exact H]. Qed.
Lemma balanced_outer ops inner os bs' : balanced (length inner - 1) ops = true → inner ≠ [] →
  run_ops rev_step (inner ++ os) ops = Some bs' → ∃ b os', bs' = b :: os' ∧ outer_kept ops os os'.
Proof.
  revert inner os. induction ops as [|o ops IH]; intros inner os; cbn [balanced run_ops].
  - intros D N [= <-]. destruct inner as [|b [|b' inner]]; [contradiction| |apply Nat.eqb_eq in D; cbn in D; lia].
    exists b, os. split; [reflexivity|apply outer_kept_refl].
  - destruct inner as [|b inner]; [intros _ []; reflexivity|]. intros D _.
    destruct o as [| |x v|x v]; cbn [rev_step].
    + cbn [app]. intros R. destruct (IH (∅ :: b :: inner) os) as (c & os' & E & K); [cbn in *; replace (length inner - 0) with (length inner) in D by lia; exact D|discriminate|exact R|].
      exists c, os'. split; [exact E|apply outer_kept_cons; exact K].
    + cbn [app]. intros R. destruct inner as [|b' inner]; [discriminate D|].
      destruct (IH (b' :: inner) os) as (c & os' & E & K); [cbn in *; replace (length inner - 0) with (length inner) by lia; exact D|discriminate|exact R|].
      exists c, os'. split; [exact E|apply outer_kept_cons; exact K].
    + cbn [app]. intros R. destruct (IH (<[x := v]> b :: inner) os) as (c & os' & E & K); [exact D|discriminate|exact R|].
      exists c, os'. split; [exact E|apply outer_kept_cons; exact K].
    + destruct (assign_in ((b :: inner) ++ os) x v) as [r|] eqn:A; [|discriminate]. intros R.
      apply assign_outer in A as (inner' & os' & -> & L & K).
      destruct (IH inner' os') as (c & os'' & E & K2); [rewrite L; exact D|intros ->; discriminate L|exact R|].
      exists c, os''. split; [exact E|]. exact (outer_kept_trans _ _ _ _ _ K K2).
Qed.
Lemma run_app ops1 ops2 bs : run_ops rev_step bs (ops1 ++ ops2) = run_ops rev_step bs ops1 ≫= λ bs', run_ops rev_step bs' ops2.
Proof.
  revert bs; induction ops1 as [|o ops IH]; intros bs; cbn [run_ops app]; [reflexivity|].
  destruct (rev_step bs o); [apply IH|reflexivity].
Qed.
Lemma outer_find ops os os' x : outer_kept ops os os' →
  (is_Some (find_in os x) ↔ is_Some (find_in os' x)) ∧ (¬ assigned ops x → find_in os x = find_in os' x).
Proof.
  induction 1 as [|b b' os os' HB HO IH]; [split; reflexivity|]. cbn [find_in].
  destruct (HB x) as [D E]. destruct (b !! x) as [v|] eqn:B1, (b' !! x) as [v'|] eqn:B2.
  - split; [split; eauto|exact E].
  - destruct D as [D _]. destruct D as [? Q]; [eauto|discriminate Q].
  - destruct D as [_ D]. destruct D as [? Q]; [eauto|discriminate Q].
  - exact IH.
Qed.

(** merging *)
Lemma merge_find (comb : V → V → V) ls rs x :
  Forall2 (λ l r : gmap string V, ∀ y, is_Some (l !! y) ↔ is_Some (r !! y)) ls rs →
  find_in (merge_blocks comb ls rs) x = match find_in ls x, find_in rs x with Some a, Some b => Some (comb a b) | _, _ => None end.
Proof.
  induction 1 as [|l r ls rs HB HO IH]; [reflexivity|]. cbn [merge_blocks find_in].
  unfold hashmap_union. rewrite lookup_union_with. destruct (HB x) as [D E].
  destruct (l !! x) as [v|], (r !! x) as [w|]; cbn.
  - reflexivity.
  - destruct D as [? Q]; [eauto|discriminate Q].
  - destruct E as [? Q]; [eauto|discriminate Q].
  - exact IH.
Qed.
Lemma same_names_find (ls rs : list (gmap string V)) x :
  Forall2 (λ l r : gmap string V, ∀ y, is_Some (l !! y) ↔ is_Some (r !! y)) ls rs → is_Some (find_in ls x) ↔ is_Some (find_in rs x).
Proof.
  induction 1 as [|l r ls rs HB HO IH]; [reflexivity|]. cbn [find_in]. destruct (HB x) as [D E].
  destruct (l !! x) as [v|], (r !! x) as [w|].
  - split; eauto.
  - destruct D as [? Q]; [eauto|discriminate Q].
  - destruct E as [? Q]; [eauto|discriminate Q].
  - exact IH.
Qed.
End env.
