(** Proofs about rewriting with encoded substitutions, the constant phase and the linear phase. *)
From stdpp Require Import prelude gmap fin_maps sorting relations.
From Coq Require Import ZArith Lia Znumtheory.
From Verif Require Import ModArithModel ModArithProofs AlgebraModel AlgebraSpec AlgebraProofs LinearSimpModel LinearSpec LinearSimpProofs
  ClusterModel ClusterSpec ClusterProofs PipelineModel PipelineSpec EqSimpProofs.
Open Scope Z_scope.

(** ** encoded substitutions *)
Notation froms subs := (s_from <$> subs).
Definition subs_ok (subs : list substitution) : Prop :=
  forall s, s ∈ subs -> s_from s <> 0%nat /\ forall j, is_Some (s_to s !! j) -> j = 0%nat \/ j ∉ froms subs.
Definition enc_good (enc : gmap nat aexpr) : Prop :=
  forall k e, enc !! k = Some e -> k <> 0%nat /\ lin_expr e /\ forall j, ekey j e -> j = 0%nat \/ enc !! j = None.
Definition enc_holds (p : Z) (ρ : assignment) (enc : gmap nat aexpr) : Prop :=
  forall k e, enc !! k = Some e -> exists v, aval ρ e = Some v /\ sv ρ k =[p]= v.

Lemma build_encoded_snoc subs s : build_encoded (subs ++ [s]) = <[s_from s := hashmap_into_arith (s_to s)]> (build_encoded subs).
Proof. unfold build_encoded. rewrite foldl_app. reflexivity. Qed.
Lemma build_encoded_lookup subs k e : build_encoded subs !! k = Some e ->
  exists s, s ∈ subs /\ s_from s = k /\ e = hashmap_into_arith (s_to s).
Proof.
  induction subs as [|s subs IH] using rev_ind; [discriminate|].
  rewrite build_encoded_snoc. intros H. destruct (decide (s_from s = k)) as [E|E].
  - subst k. rewrite lookup_insert in H. injection H as <-. exists s. rewrite elem_of_app, elem_of_list_singleton. auto.
  - rewrite lookup_insert_ne in H by assumption. destruct (IH H) as (s' & Hs & ?). exists s'. rewrite elem_of_app. auto.
Qed.
Lemma build_encoded_dom subs k : is_Some (build_encoded subs !! k) <-> k ∈ froms subs.
Proof.
  split.
  - intros [e He]. destruct (build_encoded_lookup _ _ _ He) as (s & Hs & <- & _). apply elem_of_list_fmap. eauto.
  - induction subs as [|s subs IH] using rev_ind; [intros H; inversion H|].
    rewrite build_encoded_snoc, fmap_app, elem_of_app. cbn. rewrite elem_of_list_singleton. intros H.
    destruct (decide (s_from s = k)) as [E|E]; [subst k; rewrite lookup_insert; eauto|].
    rewrite lookup_insert_ne by assumption. apply IH. destruct H as [|H]; [assumption|congruence].
Qed.
Lemma build_encoded_none subs k : build_encoded subs !! k = None <-> k ∉ froms subs.
Proof. rewrite <- build_encoded_dom, eq_None_not_Some. reflexivity. Qed.
Lemma build_encoded_in subs s : NoDup (froms subs) -> s ∈ subs -> build_encoded subs !! s_from s = Some (hashmap_into_arith (s_to s)).
Proof.
  induction subs as [|t subs IH] using rev_ind; [intros _ H; inversion H|].
  rewrite build_encoded_snoc, fmap_app, NoDup_app, elem_of_app, elem_of_list_singleton. intros (HN & HD & _) [Hs| ->].
  - rewrite lookup_insert_ne; [apply IH; assumption|]. intros E. apply (HD (s_from s)); [apply elem_of_list_fmap; eauto|].
    rewrite <- E. left.
  - apply lookup_insert.
Qed.
Lemma build_encoded_good subs : subs_ok subs -> enc_good (build_encoded subs).
Proof.
  intros H k e He. destruct (build_encoded_lookup _ _ _ He) as (s & Hs & <- & ->). destruct (H s Hs) as [H0 Hm].
  destruct (hashmap_into_arith_spec (s_to s)) as (HL & _ & _ & HK). split; [assumption|]. split; [assumption|].
  intros j Hj. destruct (HK j Hj) as [|Hj']; [auto|]. destruct (Hm j Hj'); [auto|]. right. apply build_encoded_none. assumption.
Qed.
Lemma build_encoded_holds p ρ subs : Forall (sub_holds p ρ) subs -> enc_holds p ρ (build_encoded subs).
Proof.
  intros H k e He. destruct (build_encoded_lookup _ _ _ He) as (s & Hs & <- & ->).
  destruct (hashmap_into_arith_spec (s_to s)) as (_ & _ & HV & _). exists (leval ρ (s_to s)). split; [apply HV|].
  apply (proj1 (Forall_forall _ _) H s Hs).
Qed.
Lemma enc_good_sub (enc enc' : gmap nat aexpr) : enc' ⊆ enc -> enc_good enc -> enc_good enc'.
Proof.
  intros HS H k e He. assert (He' : enc !! k = Some e) by (eapply lookup_weaken; eassumption).
  destruct (H k e He') as (A & B & C). split; [assumption|]. split; [assumption|].
  intros j Hj. destruct (C j Hj) as [|Hn]; [auto|]. right. eapply lookup_weaken_None; eassumption.
Qed.
Lemma enc_holds_sub p ρ (enc enc' : gmap nat aexpr) : enc' ⊆ enc -> enc_holds p ρ enc -> enc_holds p ρ enc'.
Proof. intros HS H k e He. apply H. eapply lookup_weaken; eassumption. Qed.
Lemma remove_not_relevant_sub enc rel : remove_not_relevant enc rel ⊆ enc.
Proof. apply map_filter_subseteq. Qed.
Lemma remove_not_relevant_lookup enc rel k : k ∈ rel -> remove_not_relevant enc rel !! k = enc !! k.
Proof.
  intros Hk. unfold remove_not_relevant. destruct (enc !! k) as [e|] eqn:E.
  - apply map_filter_lookup_Some. split; assumption.
  - apply map_filter_lookup_None. auto.
Qed.

(** ** rewriting a constraint *)
Lemma in_lin_raw_subst p m s j : s_from s <> 0%nat -> in_lin j (raw_substitution m s p) ->
  (in_lin j m /\ j <> s_from s) \/ (in_lin (s_from s) m /\ in_lin j {[ j := 1 ]} /\ is_Some (s_to s !! j)).
Proof.
  intros H0 [Hj Hs]. apply keys_raw_subst in Hs. destruct Hs as [|[[]|[[]|[]]]]; try contradiction.
  - left. split; [split; assumption|assumption].
  - right. split; [split; assumption|]. split; [|assumption]. split; [assumption|]. rewrite lookup_singleton. eauto.
Qed.
Lemma in_c_subst p c s j : s_from s <> 0%nat -> in_c j (c_subst c s p) ->
  (in_c j c /\ j <> s_from s) \/ (in_c (s_from s) c /\ j <> 0%nat /\ is_Some (s_to s !! j)).
Proof.
  intros H0 [H|[H|H]]; apply in_lin_raw_subst in H; try assumption; unfold in_c; cbn in H;
    destruct H as [[]|(? & [] & ?)]; tauto.
Qed.
Lemma canon_c_subst p c s : 0 < p -> canon_c p c -> canon_c p (c_subst c s p).
Proof. intros Hp (A & B & C). split_and!; cbn; apply canon_raw_subst; assumption. Qed.

(** no product part *)
Definition flat (m : lin) : Prop := m = ∅ \/ m = init_empty.
Lemma flat_subst p m s : s_from s <> 0%nat -> flat m -> flat (raw_substitution m s p).
Proof.
  intros H0 Hm. right. rewrite raw_subst_absent; [|assumption|].
  - destruct Hm as [->| ->]; [reflexivity|]. apply init_expr_id, has_cc_init_empty.
  - destruct Hm as [->| ->]; [apply lookup_empty|]. apply eq_None_not_Some. rewrite keys_init_empty. assumption.
Qed.
Lemma fix_flat p c : flat (c_a c) -> flat (c_b c) -> fix_constraint c p = Ok (Constraint ∅ ∅ (remove_zeros (c_c c))).
Proof.
  intros Ha _. unfold fix_constraint. replace (remove_zeros (c_a c)) with (∅ : lin); [reflexivity|].
  destruct Ha as [->| ->]; [reflexivity|]. symmetry. apply remove_zeros_init_empty.
Qed.
Lemma lin_ok_flat p c : lin_ok p c -> flat (c_a c) /\ flat (c_b c).
Proof. intros (A & B & _). split; left; assumption. Qed.
Lemma lin_ok_canon p c : lin_ok p c -> canon_c p c.
Proof. intros (A & B & C & _). split_and!; [rewrite A|rewrite B|assumption]; apply canon_empty. Qed.
Lemma fix_flat_ok p c : 0 < p -> canon_c p c -> flat (c_a c) -> flat (c_b c) ->
  exists c', fix_constraint c p = Ok c' /\ lin_ok p c' /\ (forall ρ, holds p ρ c' <-> holds p ρ c) /\ (forall j, in_c j c' -> in_c j c).
Proof.
  intros Hp Hc Ha Hb. destruct (fix_constraint_sound p c Hp Hc) as (c' & E & Cc & Nf & Hh & Hi). exists c'.
  split; [assumption|]. split; [|auto]. rewrite (fix_flat p c Ha Hb) in E. injection E as <-.
  split; [reflexivity|]. split; [reflexivity|]. split; [apply Cc|apply Nf].
Qed.
Lemma normal_linear p c : canon_c p c -> normal_form c -> is_linear c = true -> lin_ok p c.
Proof.
  intros (_ & _ & Cc) ((_ & _ & Nc) & _) H. unfold is_linear in H. rewrite andb_true_iff, !is_empty_map_true in H.
  destruct H. split_and!; assumption.
Qed.

Lemma subst_new_enc enc k e : enc_good enc -> enc !! k = Some e ->
  exists s, subst_new k e = Some s /\ s_from s = k /\ k <> 0%nat /\ (forall ρ, aval ρ e = Some (leval ρ (s_to s))) /\
    (forall j, is_Some (s_to s !! j) -> j = 0%nat \/ ekey j e).
Proof.
  intros HG He. destruct (HG k e He) as (H0 & HL & HK).
  destruct (subst_new_spec 2 k e ltac:(lia) HL) as (s & E & Ef & Ev & Es & _).
  - intros Hk. destruct (HK k Hk); [contradiction|congruence].
  - exists s. auto.
Qed.
Lemma fast_loop_spec p enc : 0 < p -> enc_good enc -> forall sigs c b, canon_c p c ->
  exists c' b', fast_constraint_loop sigs c enc b p = Ok (c', b') /\ canon_c p c' /\
    (forall ρ, enc_holds p ρ enc -> (holds p ρ c' <-> holds p ρ c)) /\
    (forall k, in_c k c' -> (in_c k c /\ (k ∈ sigs -> enc !! k = None)) \/
        (k <> 0%nat /\ enc !! k = None /\ exists x e, x ∈ sigs /\ enc !! x = Some e /\ ekey k e)) /\
    (b' = false -> b = false /\ c' = c) /\
    (flat (c_a c) -> flat (c_a c')) /\ (flat (c_b c) -> flat (c_b c')).
Proof.
  intros Hp HG. induction sigs as [|s sigs IH]; intros c b Hc; cbn [fast_constraint_loop].
  - exists c, b. split; [reflexivity|]. split; [assumption|]. split; [reflexivity|]. split; [|auto].
    intros k Hk. left. split; [assumption|]. intros H. inversion H.
  - destruct (enc !! s) as [e|] eqn:Es.
    + destruct (subst_new_enc enc s e HG Es) as (sub & -> & Ef & H0 & Ev & Ek). cbn [lift res_bind].
      destruct (IH (c_subst c sub p) true (canon_c_subst p c sub Hp Hc)) as (c' & b' & -> & Cc & Hh & Hi & Hb & Fa & Fb).
      exists c', b'. split; [reflexivity|]. split; [assumption|]. split; [|split; [|split; [|split]]].
      * intros ρ Hρ. rewrite (Hh ρ Hρ). apply holds_c_subst; [assumption|]. unfold sub_holds. rewrite Ef.
        destruct (Hρ s e Es) as (v & Hv & E). rewrite Ev in Hv. injection Hv as <-. assumption.
      * intros k Hk. destruct (Hi k Hk) as [[Hk' Hn]|(H1 & H2 & x & e' & Hx & ? & ?)].
        -- apply in_c_subst in Hk'; [|congruence]. rewrite Ef in Hk'. destruct Hk' as [[Hk' Hne]|(_ & Hk0 & Hk')].
           ++ left. split; [assumption|]. intros Hin. apply elem_of_cons in Hin. destruct Hin; [contradiction|auto].
           ++ right. destruct (Ek k Hk') as [|Hke]; [contradiction|].
              split; [assumption|]. destruct (HG s e Es) as (_ & _ & HK). split; [destruct (HK k Hke); [contradiction|assumption]|].
              exists s, e. split; [left|auto].
        -- right. split; [assumption|]. split; [assumption|]. exists x, e'. split; [right; assumption|auto].
      * intros Hb'. destruct (Hb Hb'). discriminate.
      * intros F. apply Fa. apply flat_subst; [congruence|assumption].
      * intros F. apply Fb. apply flat_subst; [congruence|assumption].
    + destruct (IH c b Hc) as (c' & b' & -> & Cc & Hh & Hi & R). exists c', b'. split; [reflexivity|]. split; [assumption|].
      split; [assumption|]. split; [|assumption]. intros k Hk. destruct (Hi k Hk) as [[Hk' Hn]|(H1 & H2 & x & e' & Hx & ? & ?)].
      * left. split; [assumption|]. intros Hin. apply elem_of_cons in Hin. destruct Hin; [congruence|auto].
      * right. split; [assumption|]. split; [assumption|]. exists x, e'. split; [right; assumption|auto].
Qed.
Lemma fast_spec p enc ord c : 0 < p -> enc_good enc -> valid_set_order ord -> canon_c p c ->
  exists c' b, fast_constraint_subst ord c enc p = Ok (c', b) /\ canon_c p c' /\
    (forall ρ, enc_holds p ρ enc -> (holds p ρ c' <-> holds p ρ c)) /\
    (forall k, in_c k c' -> enc !! k = None /\ (in_c k c \/ exists x e, in_c x c /\ enc !! x = Some e /\ ekey k e)) /\
    (b = false -> c' = c) /\ (flat (c_a c) -> flat (c_a c')) /\ (flat (c_b c) -> flat (c_b c')).
Proof.
  intros Hp HG Ho Hc. unfold fast_constraint_subst.
  destruct (fast_loop_spec p enc Hp HG (ord (take_signals c)) c false Hc) as (c' & b & E & Cc & Hh & Hi & Hb & F).
  exists c', b. split; [assumption|]. split; [assumption|]. split; [assumption|].
  assert (HO : forall k, k ∈ ord (take_signals c) <-> in_c k c).
  { intros k. rewrite (Ho (take_signals c)), elem_of_elements. apply in_take_signals. }
  split; [|split; [apply Hb|assumption]].
  intros k Hk. destruct (Hi k Hk) as [[Hk' Hn]|(H0 & H1 & x & e & Hx & He & Hek)].
  - split; [apply Hn, HO; assumption|auto].
  - split; [assumption|]. right. exists x, e. rewrite <- HO. auto.
Qed.
(** the rewriting relation *)
Definition rewritten (p : Z) (enc : gmap nat aexpr) (c c' : constraint) : Prop :=
  (forall ρ, enc_holds p ρ enc -> (holds p ρ c' <-> holds p ρ c)) /\
  (forall k, in_c k c' -> enc !! k = None /\ (in_c k c \/ exists x e, in_c x c /\ enc !! x = Some e /\ ekey k e)).
Lemma rewrite_one_spec p enc ord c : 0 < p -> enc_good enc -> valid_set_order ord -> canon_c p c ->
  exists c', rewrite_one ord enc p c = Ok c' /\ canon_c p c' /\ rewritten p enc c c' /\ (lin_ok p c -> lin_ok p c').
Proof.
  intros Hp HG Ho Hc. unfold rewrite_one.
  destruct (fast_spec p enc ord c Hp HG Ho Hc) as (c' & b & -> & Cc & Hh & Hi & Hb & Fa & Fb). cbn [res_bind]. destruct b.
  - destruct (fix_constraint_sound p c' Hp Cc) as (c'' & E & Cc'' & _ & Hh' & Hi'). exists c''.
    split; [assumption|]. split; [assumption|]. split.
    + split; [intros ρ Hρ; rewrite Hh', Hh by assumption; reflexivity|]. intros k Hk. apply Hi, Hi', Hk.
    + intros HL. destruct (lin_ok_flat p c HL) as [A B]. destruct (fix_flat_ok p c' Hp Cc (Fa A) (Fb B)) as (c3 & E3 & L3 & _).
      rewrite E in E3. injection E3 as <-. assumption.
  - exists c'. split; [reflexivity|]. split; [assumption|]. split; [split; assumption|]. rewrite (Hb eq_refl). auto.
Qed.
Lemma rewrite_list_spec p enc o ph l : 0 < p -> enc_good enc -> valid_oracle o -> Forall (canon_c p) l ->
  exists l', rewrite_list o ph enc p l = Ok l' /\
    Forall2 (fun c c' => canon_c p c' /\ rewritten p enc c c' /\ (lin_ok p c -> lin_ok p c')) l l'.
Proof.
  intros Hp HG Ho Hl. unfold rewrite_list. apply (res_imap_spec (fun i => rewrite_one (o_fast o ph i) enc p)).
  intros i c Hc. apply rewrite_one_spec; try assumption; [apply vo_fast; assumption|].
  apply (proj1 (Forall_forall _ _) Hl c Hc).
Qed.
Lemma rewritten_all p enc ρ l l' (Q : constraint -> constraint -> Prop) :
  Forall2 (fun c c' => canon_c p c' /\ rewritten p enc c c' /\ Q c c') l l' -> enc_holds p ρ enc ->
  (Forall (holds p ρ) l' <-> Forall (holds p ρ) l).
Proof.
  intros H Hρ. induction H as [|c c' l l' (_ & [Hh _] & _) _ IH]; [rewrite !Forall_nil; tauto|].
  rewrite !Forall_cons, IH, (Hh ρ Hρ). reflexivity.
Qed.
Lemma rewritten_sigs p enc l l' (Q : constraint -> constraint -> Prop) k :
  Forall2 (fun c c' => canon_c p c' /\ rewritten p enc c c' /\ Q c c') l l' -> sigs_of l' k ->
  enc !! k = None /\ (sigs_of l k \/ exists x e, sigs_of l x /\ enc !! x = Some e /\ ekey k e).
Proof.
  intros H (c' & Hc' & Hk). apply elem_of_list_lookup in Hc'. destruct Hc' as [i Hi].
  destruct (Forall2_lookup_r _ _ _ _ _ H Hi) as (c & Hc & _ & [_ Hs] & _). apply elem_of_list_lookup_2 in Hc.
  destruct (Hs k Hk) as [Hn [H1|(x & e & H1 & H2)]]; (split; [assumption|]).
  - left. exists c. auto.
  - right. exists x, e. split; [exists c; auto|assumption].
Qed.
Lemma rewritten_canon p enc l l' (Q : constraint -> constraint -> Prop) :
  Forall2 (fun c c' => canon_c p c' /\ rewritten p enc c c' /\ Q c c') l l' -> Forall (canon_c p) l'.
Proof. induction 1 as [|c c' l l' (A & _) _ IH]; constructor; assumption. Qed.
Lemma rewritten_lin p enc l l' :
  Forall2 (fun c c' => canon_c p c' /\ rewritten p enc c c' /\ (lin_ok p c -> lin_ok p c')) l l' -> Forall (lin_ok p) l -> Forall (lin_ok p) l'.
Proof. induction 1 as [|c c' l l' (_ & _ & A) _ IH]; [auto|]. rewrite !Forall_cons. intros []. auto. Qed.

(** ** constants *)
(** one signal, no product *)
Definition const_ok (p : Z) (c : constraint) : Prop :=
  lin_ok p c /\ exists x, in_c x c /\ forall y, in_c y c -> y = x.
Lemma is_constant_equality_spec p c : canon_c p c -> nonzero_c c -> is_constant_equality c = true -> const_ok p c.
Proof.
  intros (_ & _ & Cc) (_ & _ & Nc) H. unfold is_constant_equality in H. rewrite !andb_true_iff, !is_empty_map_true in H.
  destruct H as [[Ha Hb] H]. assert (HL : lin_ok p c) by (split_and!; assumption). split; [assumption|].
  setoid_rewrite (lin_ok_in p c); [|assumption|assumption].
  assert (Hs : size (delete 0%nat (c_c c)) = 1%nat).
  { unfold cc in H. destruct (c_c c !! 0%nat) as [v|] eqn:E0.
    - apply Nat.eqb_eq in H. rewrite map_size_delete, E0. rewrite H. reflexivity.
    - apply Nat.eqb_eq in H. rewrite delete_notin; assumption. }
  assert (Hd : exists x v, delete 0%nat (c_c c) = {[ x := v ]}).
  { unfold size, map_size in Hs. destruct (map_to_list (delete 0%nat (c_c c))) as [|[x v] [|]] eqn:El; try discriminate.
    exists x, v. rewrite <- (list_to_map_to_list (delete 0%nat (c_c c))), El. reflexivity. }
  destruct Hd as (x & v & Hd).
  assert (Hk : forall y, (y <> 0%nat /\ is_Some (c_c c !! y)) <-> y = x).
  { intros y. transitivity (is_Some (delete 0%nat (c_c c) !! y)).
    - unfold is_Some. setoid_rewrite lookup_delete_Some. split; [intros [? [w ?]]; exists w; auto|intros (w & ? & ?); split; eauto].
    - rewrite Hd. split.
      + intros [w Hw]. apply lookup_singleton_Some in Hw. destruct Hw; congruence.
      + intros ->. rewrite lookup_singleton. eauto. }
  exists x. split; [apply Hk; reflexivity|]. intros y Hy. apply Hk. assumption.
Qed.
Lemma leval_two ρ m x v : x <> 0%nat -> m !! x = Some v -> (forall y, y <> 0%nat -> is_Some (m !! y) -> y = x) ->
  leval ρ m = default 0 (m !! 0%nat) + v * sv ρ x.
Proof.
  intros H0 Hx Hu. rewrite (leval_lookup ρ m x v Hx).
  assert (E : forall m0 : lin, (forall y, y <> 0%nat -> m0 !! y = None) -> leval ρ m0 = default 0 (m0 !! 0%nat)).
  { intros m0 Hm. destruct (m0 !! 0%nat) as [w|] eqn:E0.
    - rewrite (leval_lookup ρ m0 0 w E0). replace (delete 0%nat m0) with (∅ : lin); [rewrite leval_empty; cbn; lia|].
      symmetry. apply map_eq. intros i. rewrite lookup_empty. destruct (decide (i = 0%nat)) as [->|]; [apply lookup_delete|].
      rewrite lookup_delete_ne by auto. apply Hm. assumption.
    - replace m0 with (∅ : lin); [apply leval_empty|]. symmetry. apply map_eq. intros i. rewrite lookup_empty.
      destruct (decide (i = 0%nat)) as [->|]; [assumption|]. apply Hm. assumption. }
  rewrite E.
  - rewrite lookup_delete_ne by auto. lia.
  - intros y Hy. apply lookup_delete_None. destruct (decide (x = y)) as [->|]; [auto|]. right.
    apply eq_None_not_Some. intros Hs. apply Hu in Hs; [congruence|assumption].
Qed.
(** renaming keeps the form *)
Lemma const_ok_rename p enc c c' : prime p -> (forall k e, enc !! k = Some e -> k <> 0%nat /\ exists y, y <> 0%nat /\ e = AlgebraModel.Signal y) ->
  const_ok p c -> rewritten p enc c c' -> lin_ok p c' -> const_ok p c'.
Proof.
  intros Hp HE (HL & x & Hx & Hu) [Hh Hs] HL'. pose proof (prime_ge_2 p Hp). split; [assumption|].
  set (y := match enc !! x with Some (AlgebraModel.Signal y) => y | _ => x end).
  assert (Hy : forall k, in_c k c' -> k = y).
  { intros k Hk. destruct (Hs k Hk) as [Hn [H1|(z & e & H1 & H2 & H3)]].
    - apply Hu in H1. subst k. unfold y. rewrite Hn. reflexivity.
    - apply Hu in H1. subst z. unfold y. rewrite H2. destruct (HE x e H2) as (_ & w & _ & ->). cbn in H3. assumption. }
  exists y. split; [|assumption].
  assert (HD : Decision (in_c y c')). { unfold in_c, in_lin. apply _. }
  destruct HD as [|Hno]; [assumption|]. exfalso.
  assert (Hnone : forall k, ~ in_c k c') by (intros k Hk; apply Hno; rewrite <- (Hy k Hk); assumption).
  assert (Hsame : forall ρ ρ', holds p ρ c' <-> holds p ρ' c').
  { intros ρ ρ'. rewrite !(lin_ok_holds p c') by (lia || assumption). erewrite (leval_agree ρ ρ'); [reflexivity|].
    intros j Hj. destruct j; [reflexivity|]. exfalso. apply (Hnone (S j)). apply (lin_ok_in p c'); [assumption|]. split; [discriminate|assumption]. }
  apply (lin_ok_in p c x HL) in Hx. destruct Hx as [Hx0 [v Hv]].
  assert (Hval : forall t, holds p (fun _ => t) c <-> default 0 (c_c c !! 0%nat) + v * t =[p]= 0).
  { intros t. rewrite lin_ok_holds by (lia || assumption). rewrite (leval_two _ (c_c c) x v Hx0 Hv).
    - rewrite sv_nz by assumption. reflexivity.
    - intros z Hz Hzs. apply Hu. apply (lin_ok_in p c); auto. }
  assert (Henc : forall t, enc_holds p (fun _ => t) enc).
  { intros t k e Hk. destruct (HE k e Hk) as (Hk0 & z & Hz & ->). exists t. cbn. rewrite !sv_nz by assumption. split; reflexivity. }
  assert (Hc : forall t t', default 0 (c_c c !! 0%nat) + v * t =[p]= 0 -> default 0 (c_c c !! 0%nat) + v * t' =[p]= 0).
  { intros t t' Ht. apply Hval, (Hh _ (Henc t')), (Hsame (fun _ => t)), (Hh _ (Henc t)), Hval. assumption. }
  assert (Hv0 : ~ v =[p]= 0).
  { destruct HL as (_ & _ & Cc & Nc). apply cong_refl_small; [lia|apply (Cc x); assumption|apply (Nc x); assumption]. }
  destruct (div_total p (- default 0 (c_c c !! 0%nat)) v Hp Hv0) as [q Hq].
  apply div_ok_cong in Hq; [|assumption]. destruct Hq as (_ & Hq & _).
  assert (Q1 : default 0 (c_c c !! 0%nat) + v * q =[p]= 0).
  { rewrite (Z.mul_comm v q), Hq. apply cong_eq. lia. }
  pose proof (Hc q (q + 1) Q1) as Q2. apply Hv0.
  transitivity ((default 0 (c_c c !! 0%nat) + v * (q + 1)) - (default 0 (c_c c !! 0%nat) + v * q)); [apply cong_eq; lia|].
  rewrite Q1, Q2. reflexivity.
Qed.

Definition const_subs (p : Z) (cs : list constraint) (forb : gset nat) (s : substitution) : Prop :=
  s_from s <> 0%nat /\ s_from s ∉ forb /\ sigs_of cs (s_from s) /\ canon p (s_to s) /\ nonzero (s_to s) /\
  (forall j, is_Some (s_to s !! j) -> j = 0%nat).
Lemma constant_eq_spec p forb cs : prime p -> Forall (const_ok p) cs ->
  exists subs kept, constant_eq_simplification cs forb p = Ok (subs, kept) /\
    (forall ρ, Forall (holds p ρ) cs <-> Forall (holds p ρ) kept /\ Forall (sub_holds p ρ) subs) /\
    (forall s, s ∈ subs -> const_subs p cs forb s) /\
    (forall c, c ∈ kept -> lin_ok p c /\ c ∈ cs /\ forall k, in_c k c -> k ∈ forb) /\
    (forall c k, c ∈ cs -> in_c k c -> k ∉ forb -> k ∈ froms subs).
Proof.
  intros Hp. pose proof (prime_ge_2 p Hp). induction 1 as [|c cs Hc HF IH].
  - exists [], []. split; [reflexivity|]. split; [intros ρ; rewrite !Forall_nil; tauto|]. split; [|split].
    + intros s Hs. inversion Hs.
    + intros c Hc. inversion Hc.
    + intros c k Hc. inversion Hc.
  - destruct IH as (subs & kept & E & He & Hs & Hk & Ht). destruct Hc as (HL & x & Hx & Hu).
    assert (Esig : signals_ordered c = [x]).
    { assert (HP : signals_ordered c ≡ₚ [x]).
      { apply NoDup_Permutation; [apply signals_ordered_NoDup|apply NoDup_singleton|].
        intros y. rewrite signals_ordered_in, elem_of_list_singleton. split; [apply Hu|intros ->; assumption]. }
      apply Permutation_singleton_r in HP. assumption. }
    cbn [constant_eq_simplification]. rewrite Esig, E. cbn [last].
    assert (Hw : forall s, const_subs p cs forb s -> const_subs p (c :: cs) forb s).
    { intros s (A & B & (d & Hd & Hi) & R). split; [assumption|]. split; [assumption|]. split; [|assumption].
      exists d. split; [right; assumption|assumption]. }
    case_bool_decide as Hf.
    + cbn [res_map res_bind]. exists subs, (c :: kept). split; [reflexivity|]. split_and!.
      * intros ρ. rewrite !Forall_cons, He. tauto.
      * intros s Hs'. apply Hw, Hs, Hs'.
      * intros d Hd. apply elem_of_cons in Hd. destruct Hd as [->|Hd].
        -- split; [assumption|]. split; [left|]. intros k Hk'. rewrite (Hu k Hk'). assumption.
        -- destruct (Hk d Hd) as (A & B & C). split; [assumption|]. split; [right; assumption|assumption].
      * intros d k Hd Hi Hn. apply elem_of_cons in Hd. destruct Hd as [->|Hd]; [rewrite (Hu k Hi) in Hn; contradiction|eauto].
    + pose proof (proj1 (lin_ok_in p c x HL) Hx) as [Hx0 [v Hv]].
      destruct (clear_signal_sound p (c_c c) x v Hp) as (to & Eto & Cto & Nto & Hto & Kto & Vto); [apply HL|assumption|apply HL with x; assumption|].
      unfold clear_signal_from_linear. rewrite Eto. cbn [res_map res_bind].
      exists (Substitution x to :: subs), kept. split; [reflexivity|]. split_and!.
      * intros ρ. rewrite !Forall_cons, He, (lin_ok_holds p c ρ) by (lia || assumption). rewrite Vto. unfold sub_holds at 2. cbn [s_from s_to]. tauto.
      * intros s Hs'. apply elem_of_cons in Hs'. destruct Hs' as [->|Hs']; [|apply Hw, Hs, Hs'].
        split; [assumption|]. split; [assumption|]. split; [exists c; split; [left|assumption]|]. cbn [s_to s_from].
        split; [assumption|]. split; [assumption|]. intros j Hj. destruct (Kto j Hj) as [|[Hjx Hj']]; [assumption|].
        destruct j as [|j]; [reflexivity|]. exfalso. apply Hjx, Hu. apply (lin_ok_in p c); [assumption|]. split; [discriminate|assumption].
      * intros d Hd. destruct (Hk d Hd) as (A & B & C). split; [assumption|]. split; [right; assumption|assumption].
      * intros d k Hd Hi Hn. cbn. apply elem_of_cons. apply elem_of_cons in Hd. destruct Hd as [->|Hd]; [left; apply Hu; assumption|right; eauto].
Qed.
Lemma const_subs_functional p cs forb subs ρ : prime p -> (forall s, s ∈ subs -> const_subs p cs forb s) ->
  Forall (sub_holds p ρ) subs -> forall s t, s ∈ subs -> t ∈ subs -> s_from s = s_from t -> s = t.
Proof.
  intros Hp HS Hρ s t Hs Ht E. pose proof (prime_ge_2 p Hp).
  pose proof (proj1 (Forall_forall _ _) Hρ s Hs) as Vs. pose proof (proj1 (Forall_forall _ _) Hρ t Ht) as Vt.
  unfold sub_holds in Vs, Vt. rewrite E in Vs.
  destruct (HS s Hs) as (_ & _ & _ & Cs & Ns & Ks). destruct (HS t Ht) as (_ & _ & _ & Ct & Nt & Kt).
  assert (Hform : forall m : lin, canon p m -> (forall j, is_Some (m !! j) -> j = 0%nat) ->
    leval ρ m = default 0 (m !! 0%nat) /\ 0 <= default 0 (m !! 0%nat) < p).
  { intros m Cm Km. split.
    - destruct (m !! 0%nat) as [w|] eqn:E0.
      + rewrite (leval_lookup ρ m 0 w E0). replace (delete 0%nat m) with (∅ : lin); [rewrite leval_empty; cbn; lia|].
        symmetry. apply map_eq. intros i. rewrite lookup_empty. apply lookup_delete_None.
        destruct (decide (0%nat = i)); [auto|]. right. apply eq_None_not_Some. intros Hi. apply Km in Hi. congruence.
      + replace m with (∅ : lin); [apply leval_empty|]. symmetry. apply map_eq. intros i. rewrite lookup_empty.
        apply eq_None_not_Some. intros Hi. pose proof (Km i Hi). subst i. rewrite E0 in Hi. destruct Hi; discriminate.
    - destruct (m !! 0%nat) as [w|] eqn:E0; [|cbn; lia]. apply (Cm 0%nat). assumption. }
  destruct (Hform (s_to s) Cs Ks) as [Es Bs]. destruct (Hform (s_to t) Ct Kt) as [Et Bt].
  assert (V : default 0 (s_to s !! 0%nat) = default 0 (s_to t !! 0%nat)).
  { apply (cong_small p); [assumption|assumption|]. rewrite <- Es, <- Et. rewrite <- Vs, <- Vt. reflexivity. }
  assert (M : s_to s = s_to t).
  { apply map_eq. intros i. destruct (decide (i = 0%nat)) as [->|Hi].
    - destruct (s_to s !! 0%nat) as [a|] eqn:Ea, (s_to t !! 0%nat) as [b|] eqn:Eb; cbn in V.
      + congruence.
      + exfalso. apply (Ns 0%nat a Ea). assumption.
      + exfalso. apply (Nt 0%nat b Eb). congruence.
      + reflexivity.
    - assert (N1 : s_to s !! i = None) by (apply eq_None_not_Some; intros Q; apply Hi, Ks, Q).
      assert (N2 : s_to t !! i = None) by (apply eq_None_not_Some; intros Q; apply Hi, Kt, Q). congruence. }
  destruct s, t. cbn in *. congruence.
Qed.

(** ** linear constraints *)
Lemma enough_label n fuel j : enough n fuel -> (j < n)%nat -> (S j < fuel)%nat.
Proof.
  unfold enough. intros H Hj. cbn in H. assert (Q : forall m, (m < 2 ^ m)%nat). { induction m as [|m IH]; cbn; lia. }
  specialize (Q n). lia.
Qed.
Lemma size_lt_bound (X : gset nat) n : (forall x, x ∈ X -> (x < n)%nat) -> (size X <= n)%nat.
Proof.
  intros H. transitivity (size (list_to_set (seq 0 n) : gset nat)).
  - apply subseteq_size. intros x Hx. apply elem_of_list_to_set, elem_of_seq. specialize (H x Hx). lia.
  - rewrite size_list_to_set by apply NoDup_seq. rewrite seq_length. lia.
Qed.
Lemma part_ok_drop_empty p forb sg cs subs rest : part_ok p forb sg (filter nonempty cs) subs rest -> part_ok p forb sg cs subs rest.
Proof.
  intros [E N S R]. split; try assumption. intros ρ. rewrite <- E. clear.
  induction cs as [|c cs IH]; [reflexivity|]. rewrite Forall_cons. destruct (decide (nonempty c)) as [H|H].
  - rewrite filter_cons_True, Forall_cons, IH by assumption. reflexivity.
  - rewrite filter_cons_False, IH by assumption. split; [tauto|]. intros HF. split; [|assumption].
    unfold nonempty in H. destruct (is_empty c) eqn:Ec; [|exfalso; apply H; exact I].
    unfold is_empty in Ec. rewrite !andb_true_iff, !is_empty_map_true in Ec. destruct c as [a b c]. cbn in Ec.
    destruct Ec as [[-> ->] ->]. apply holds_empty.
Qed.
Lemma linear_simplification_spec p forb o ph fuel linear no_labels use_old :
  prime p -> 0%nat ∈ forb -> valid_oracle o -> Forall (lin_ok p) linear -> (forall k, sigs_of linear k -> (k < no_labels)%nat) ->
  enough no_labels fuel ->
  exists subs kept, linear_simplification fuel o ph linear forb no_labels p use_old = Ok (subs, kept) /\
    part_ok p forb (sigs_of linear) linear subs kept /\ Forall (lin_ok p) kept.
Proof.
  intros Hp H0 Ho HL Hv HF. unfold linear_simplification.
  destruct (build_clusters_spec (o_cluster o ph) linear no_labels) as (cls & -> & HP & HC & HD).
  { intros; apply vo_cluster; assumption. }
  { intros c s Hc Hs. apply Hv. exists c. split; [assumption|]. apply in_take_signals. assumption. }
  cbn [res_bind].
  assert (HLc : forall cl, cl ∈ cls -> Forall (lin_ok p) (cl_constraints cl)).
  { intros cl Hcl. eapply clusters_forall; eassumption. }
  assert (Hsg : forall cl k, cl ∈ cls -> k <> 0%nat -> k ∈ sigs (cl_constraints cl) -> clsigs cl k).
  { intros cl k Hcl Hk Hin. apply sigs_in in Hin. destruct Hin as [|(c & Hc & Hin)]; [contradiction|].
    apply clsigs_in. exists c. split; [assumption|]. apply (lin_ok_in p c); [apply (proj1 (Forall_forall _ _) (HLc cl Hcl) c Hc)|]. auto. }
  assert (Hlt : forall cl k, cl ∈ cls -> k ∈ sigs (cl_constraints cl) -> k = 0%nat \/ (k < no_labels)%nat).
  { intros cl k Hcl Hk. destruct k as [|k]; [auto|right]. apply Hv. apply (clusters_sigs cls linear HP). exists cl. split; [assumption|].
    apply Hsg; [assumption|discriminate|assumption]. }
  destruct (res_imap_spec (fun id cl => full_simplification fuel (o_lin o ph id) (o_lin2 o ph id) forb use_old p (cl_constraints cl))
     (fun cl r => part_ok p forb (clsigs cl) (cl_constraints cl) (out_substitutions r) (out_constraints r) /\ Forall (lin_ok p) (out_constraints r)) cls 0)
    as (results & -> & HR).
  { intros id cl Hcl.
    destruct (full_simplification_spec p forb (o_lin o ph id) (o_lin2 o ph id) fuel use_old (cl_constraints cl)) as (out & E & Er & Hn & Hs & Hc & He);
      try assumption.
    - intros; apply vo_lin; assumption.
    - intros; apply vo_lin2; assumption.
    - apply HLc; assumption.
    - intros j Hj. destruct (Hlt cl j Hcl Hj) as [->|]; [unfold enough in HF; lia|eapply enough_label; eassumption].
    - etransitivity; [|unfold enough in HF; apply (Nat.le_trans _ (2 ^ S no_labels)); [reflexivity|lia]].
      apply Nat.pow_le_mono_r; [lia|]. apply size_lt_bound. intros x Hx. destruct (Hlt cl x Hcl Hx); lia.
    - exists out. split; [assumption|]. split; [|eapply Forall_impl; [exact Hc|]; cbn; tauto]. split.
      + exact He.
      + rewrite <- Er. assumption.
      + intros s Hs'. destruct (proj1 (Forall_forall _ _) Hs s Hs') as [(_ & A & B & C & _ & D) F].
        assert (Hf0 : s_from s <> 0%nat) by (intros Q; apply A; rewrite Q; assumption).
        split; [assumption|]. split; [assumption|]. split; [apply Hsg; assumption|]. split; [assumption|].
        intros j Hj. destruct j as [|j]; [auto|right]. split; [apply Hsg; [assumption|discriminate|apply D; assumption]|].
        rewrite <- Er. apply F. assumption.
      + intros c Hc'. destruct (proj1 (Forall_forall _ _) Hc c Hc') as (A & B & C). split; [apply lin_ok_canon; assumption|].
        intros k Hk. apply (lin_ok_in p c) in Hk; [|assumption]. destruct Hk as [Hk0 Hk]. split; [apply B; assumption|].
        apply Hsg; [assumption|assumption|apply C; assumption]. }
  cbn [res_bind]. eexists _, _. split; [reflexivity|].
  assert (Hlen : length cls = length results) by (eapply Forall2_length; exact HR).
  set (results' := imap (fun id r => (o_subs o ph id (out_substitutions r), out_constraints r)) results).
  assert (Hlen' : length results' = length results) by apply imap_length.
  set (arrival := o_arrive o ph (seq 0 (length cls))).
  assert (Harr : arrival ≡ₚ seq 0 (length results')) by (unfold arrival; rewrite (vo_arrive o Ho), Hlen, Hlen'; reflexivity).
  assert (E1 : ((fun id => match results !! id with Some r => o_subs o ph id (out_substitutions r) | None => [] end) <$> arrival)
    = ((fun id => match results' !! id with Some r => r.1 | None => [] end) <$> arrival)).
  { apply list_fmap_ext. intros _ id _. unfold results'. rewrite list_lookup_imap. destruct (results !! id); reflexivity. }
  assert (E2 : ((fun id => match results !! id with Some r => out_constraints r | None => [] end) <$> arrival)
    = ((fun id => match results' !! id with Some r => r.2 | None => [] end) <$> arrival)).
  { apply list_fmap_ext. intros _ id _. unfold results'. rewrite list_lookup_imap. destruct (results !! id); reflexivity. }
  rewrite E1, E2.
  assert (HR' : Forall2 (fun cl r => part_ok p forb (clsigs cl) (cl_constraints cl) r.1 r.2 /\ Forall (lin_ok p) r.2) cls results').
  { apply Forall2_same_length_lookup. split; [rewrite Hlen', Hlen; reflexivity|]. intros i cl r Hi Hr.
    unfold results' in Hr. rewrite list_lookup_imap in Hr. apply fmap_Some in Hr. destruct Hr as (r0 & Hr0 & ->). cbn.
    destruct (Forall2_lookup_lr _ _ _ _ _ _ HR Hi Hr0) as [PO PL]. split; [|assumption].
    eapply part_ok_perm; [reflexivity| |reflexivity|exact PO]. symmetry. apply (vo_subs o Ho). }
  split.
  - apply (part_ok_drop_empty p forb (sigs_of linear) linear).
    apply (part_ok_perm _ _ _ (concat (cl_constraints <$> cls)) _ (concat (fst <$> results')) _ (concat (snd <$> results'))).
    + exact HP.
    + symmetry. apply collect_perm. assumption.
    + symmetry. apply collect_perm. assumption.
    + eapply part_ok_weaken; [|apply part_ok_clusters; [|exact HD]].
      * apply (clusters_sigs cls linear). assumption.
      * eapply Forall2_impl; [exact HR'|]. cbn. tauto.
  - rewrite (collect_perm snd results' arrival Harr). apply Forall_concat. apply Forall_fmap. clear - HR'.
    induction HR' as [|cl r l l' [_ H] _ IH]; constructor; assumption.
Qed.
