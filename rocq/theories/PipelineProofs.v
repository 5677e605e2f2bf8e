(** Proofs about the rounds of the simplification, its log and the witness renumbering. *)
From stdpp Require Import prelude gmap fin_maps sorting relations.
From Coq Require Import ZArith Lia Znumtheory.
From Verif Require Import ModArithModel ModArithProofs AlgebraModel AlgebraSpec AlgebraProofs LinearSimpModel LinearSpec LinearSimpProofs
  ClusterModel ClusterSpec ClusterProofs PipelineModel PipelineSpec EqSimpProofs RewriteProofs.
Open Scope Z_scope.

(** ** the log of substitutions *)
Definition log_ok (L : list substitution) : Prop :=
  forall L1 s L2, L = L1 ++ s :: L2 -> forall j, is_Some (s_to s !! j) -> j ∉ froms L1 /\ j <> s_from s.
Definition functional (L : list substitution) : Prop :=
  forall s t, s ∈ L -> t ∈ L -> s_from s = s_from t -> s = t.

Lemma log_ok_nil : log_ok [].
Proof. intros L1 s L2 H. destruct L1; discriminate. Qed.
Lemma log_ok_app L S : log_ok L -> (forall s, s ∈ S -> forall j, is_Some (s_to s !! j) -> j ∉ froms L /\ j ∉ froms S) -> log_ok (L ++ S).
Proof.
  intros HL HS L1 s L2 E j Hj. apply app_eq_inv in E. destruct E as [(k & -> & Ek)|(k & -> & ->)].
  - destruct k as [|x k]; cbn in Ek.
    + rewrite app_nil_r in *. subst S. destruct (HS s ltac:(left) j Hj) as [A B]. split; [assumption|].
      intros ->. apply B. left.
    + injection Ek as <- _. apply (HL L1 s k eq_refl j Hj).
  - destruct (HS s) with (j := j) as [A B]; [apply elem_of_app; right; left|assumption|].
    rewrite fmap_app, not_elem_of_app. split.
    + split; [assumption|]. intros Hk. apply B. rewrite fmap_app. apply elem_of_app. auto.
    + intros ->. apply B. rewrite fmap_app. apply elem_of_app. right. left.
Qed.
Lemma functional_nodup L : NoDup (froms L) -> functional L.
Proof.
  intros HN s t Hs Ht E. apply elem_of_list_lookup in Hs, Ht. destruct Hs as [i Hi], Ht as [j Hj].
  assert (i = j) as ->; [|congruence].
  eapply (NoDup_lookup (froms L)); [assumption| |]; rewrite list_lookup_fmap; [rewrite Hi|rewrite Hj]; cbn; [reflexivity|congruence].
Qed.
Lemma functional_app L S : functional L -> functional S -> (forall k, k ∈ froms L -> k ∈ froms S -> False) -> functional (L ++ S).
Proof.
  intros HL HS HD s t Hs Ht E. apply elem_of_app in Hs, Ht.
  assert (FL : forall x, x ∈ L -> s_from x ∈ froms L) by (intros; apply elem_of_list_fmap; eauto).
  assert (FS : forall x, x ∈ S -> s_from x ∈ froms S) by (intros; apply elem_of_list_fmap; eauto).
  destruct Hs as [Hs|Hs], Ht as [Ht|Ht]; auto; exfalso.
  - apply (HD (s_from s)); [auto|]. rewrite E. auto.
  - apply (HD (s_from s)); [rewrite E; auto|auto].
Qed.

Lemma leval_cong p ρ ρ' m : (forall j, is_Some (m !! j) -> sv ρ j =[p]= sv ρ' j) -> leval ρ m =[p]= leval ρ' m.
Proof.
  induction m as [|k v m Hk IH] using map_ind; intros H; [reflexivity|].
  rewrite !leval_insert_new by assumption. rewrite (H k) by (rewrite lookup_insert; eauto). rewrite IH; [reflexivity|].
  intros j Hj. apply H. destruct (decide (j = k)) as [->|]; [rewrite lookup_insert; eauto|]. rewrite lookup_insert_ne by auto. assumption.
Qed.
(** values of the eliminated signals, computed from the last substitution backwards *)
Definition upd (ρ : assignment) (k : nat) (v : Z) : assignment := fun i => if Nat.eqb i k then v else ρ i.
Definition solve (L : list substitution) (ρ : assignment) : assignment :=
  foldr (fun s ρ' => upd ρ' (s_from s) (leval ρ' (s_to s))) ρ L.
Lemma sv_upd_ne ρ k v j : j <> k -> sv (upd ρ k v) j = sv ρ j.
Proof. intros H. destruct j; [reflexivity|]. unfold sv, upd. destruct (Nat.eqb_spec (S j) k); [congruence|reflexivity]. Qed.
Lemma sv_upd_eq ρ k v : k <> 0%nat -> sv (upd ρ k v) k = v.
Proof. intros H. destruct k; [contradiction|]. unfold sv, upd. rewrite Nat.eqb_refl. reflexivity. Qed.
Lemma solve_other L ρ k : k ∉ froms L -> solve L ρ k = ρ k.
Proof.
  induction L as [|s L IH]; [reflexivity|]. cbn. rewrite not_elem_of_cons. intros [H1 H2]. unfold upd.
  destruct (Nat.eqb_spec k (s_from s)); [contradiction|]. apply IH. assumption.
Qed.
Lemma solve_holds p L ρ : log_ok L -> functional L -> (forall s, s ∈ L -> s_from s <> 0%nat) -> Forall (sub_holds p (solve L ρ)) L.
Proof.
  induction L as [|s L IH]; intros HL HF H0; [constructor|].
  assert (IH' : Forall (sub_holds p (solve L ρ)) L).
  { apply IH.
    - intros L1 t L2 E j Hj. destruct (HL (s :: L1) t L2) with (j := j) as [A B]; [rewrite E; reflexivity|assumption|].
      split; [|assumption]. intros Q. apply A. right. assumption.
    - intros x y Hx Hy. apply HF; right; assumption.
    - intros x Hx. apply H0. right. assumption. }
  assert (Hs : forall j, is_Some (s_to s !! j) -> j <> s_from s) by (intros j Hj; apply (HL [] s L eq_refl j Hj)).
  assert (Hself : sub_holds p (solve (s :: L) ρ) s).
  { unfold sub_holds. cbn [solve foldr]. rewrite sv_upd_eq by (apply H0; left). apply cong_eq. apply leval_agree.
    intros j Hj. rewrite sv_upd_ne by (apply Hs; assumption). reflexivity. }
  constructor; [assumption|]. apply Forall_forall. intros t Ht.
  destruct (decide (s_from t = s_from s)) as [E|E].
  - rewrite (HF t s) by (assumption || (right; assumption) || left). assumption.
  - pose proof (proj1 (Forall_forall _ _) IH' t Ht) as Q. unfold sub_holds in Q |- *. cbn [solve foldr].
    rewrite sv_upd_ne by assumption. rewrite Q. apply cong_eq. apply leval_agree. intros j Hj. rewrite sv_upd_ne; [reflexivity|].
    apply elem_of_list_split in Ht. destruct Ht as (L1 & L2 & ->). destruct (HL (s :: L1) t L2 eq_refl j Hj) as [A _].
    intros ->. apply A. left.
Qed.
Lemma solve_unique_aux p ρ ρ' L : Forall (sub_holds p ρ) L -> Forall (sub_holds p ρ') L -> log_ok L -> forall (E : nat -> Prop),
  (forall k, Decision (E k)) ->
  (forall s j, s ∈ L -> is_Some (s_to s !! j) -> ~ E j) ->
  (forall k, ~ E k -> k ∉ froms L -> sv ρ k =[p]= sv ρ' k) ->
  forall k, (~ E k \/ k ∈ froms L) -> sv ρ k =[p]= sv ρ' k.
Proof.
  induction L as [|s L IH]; intros H1 H2 HL E DE HE HA k Hk.
  - destruct Hk as [Hk|Hk]; [apply HA; [assumption|]|]; inversion Hk || (intros Q; inversion Q).
  - apply Forall_cons in H1, H2. destruct H1 as [S1 H1], H2 as [S2 H2].
    assert (HI : forall k, (~ (E k \/ k = s_from s) \/ k ∈ froms L) -> sv ρ k =[p]= sv ρ' k).
    { apply (IH H1 H2).
      - intros L1 t L2 Q j Hj. destruct (HL (s :: L1) t L2) with (j := j) as [A B]; [rewrite Q; reflexivity|assumption|].
        split; [|assumption]. intros Q'. apply A. right. assumption.
      - intros j. apply _.
      - intros t j Ht Hj [Q|Q]; [apply (HE t j); [right; assumption|assumption|assumption]|].
        apply elem_of_list_split in Ht. destruct Ht as (L1 & L2 & ->). destruct (HL (s :: L1) t L2 eq_refl j Hj) as [A _].
        apply A. rewrite Q. left.
      - intros j Hj Hn. apply HA; [tauto|]. cbn. rewrite not_elem_of_cons. tauto. }
    assert (HS : sv ρ (s_from s) =[p]= sv ρ' (s_from s)).
    { unfold sub_holds in S1, S2. rewrite S1, S2. apply leval_cong. intros j Hj. apply HI. left. intros [Q|Q].
      - apply (HE s j); [left|assumption|assumption].
      - apply (HL [] s L eq_refl j Hj). assumption. }
    cbn in Hk. rewrite elem_of_cons in Hk. destruct (decide (k = s_from s)) as [->|]; [assumption|]. apply HI. tauto.
Qed.
Lemma solve_unique p ρ ρ' L : Forall (sub_holds p ρ) L -> Forall (sub_holds p ρ') L -> log_ok L ->
  (forall k, k <> 0%nat -> k ∉ froms L -> ρ k =[p]= ρ' k) -> forall k, k <> 0%nat -> ρ k =[p]= ρ' k.
Proof.
  intros H1 H2 HL HA k Hk. rewrite <- (sv_nz ρ k Hk), <- (sv_nz ρ' k Hk).
  apply (solve_unique_aux p ρ ρ' L H1 H2 HL (fun _ => False)); [intros; apply _|tauto| |tauto].
  intros j _ Hj. destruct j; [reflexivity|]. rewrite !sv_nz by discriminate. apply HA; [discriminate|assumption].
Qed.

(** ** the occurrence map *)
Definition mem (m : signal_map) (k i : nat) : Prop := i ∈ default [] (m !! k).
Lemma note_signal_mem i m k k' j : mem (note_signal i m k) k' j <-> mem m k' j \/ (j = i /\ k' = k).
Proof.
  unfold mem, note_signal. destruct (decide (k' = k)) as [->|H].
  - rewrite lookup_insert. cbn. rewrite elem_of_app, elem_of_list_singleton. tauto.
  - rewrite lookup_insert_ne by auto. tauto.
Qed.
Lemma note_signals_mem i X m k j : mem (note_signals i X m) k j <-> mem m k j \/ (j = i /\ k ∈ X).
Proof.
  unfold note_signals. rewrite <- (elem_of_elements X k). revert m. induction (elements X) as [|x l IH]; intros m; cbn [foldl].
  - split; [auto|]. intros [|[_ H]]; [assumption|inversion H].
  - rewrite IH, note_signal_mem, elem_of_cons. tauto.
Qed.
Lemma note_signals_dom i X m k : is_Some (note_signals i X m !! k) <-> is_Some (m !! k) \/ k ∈ X.
Proof.
  unfold note_signals. rewrite <- (elem_of_elements X k). revert m. induction (elements X) as [|x l IH]; intros m; cbn [foldl].
  - split; [auto|]. intros [|H]; [assumption|inversion H].
  - rewrite IH, elem_of_cons. unfold note_signal. destruct (decide (k = x)) as [->|H].
    + rewrite lookup_insert. split; [auto|]. intros _. left. eauto.
    + rewrite lookup_insert_ne by auto. tauto.
Qed.
Definition covers (storage : list constraint) (m : signal_map) : Prop :=
  forall i c k, storage !! i = Some c -> in_c k c -> mem m k i.
Definition bounded (storage : list constraint) (m : signal_map) : Prop :=
  forall k i, mem m k i -> (i < length storage)%nat.
Lemma mem_dom m k i : mem m k i -> k ∈ dom m.
Proof. unfold mem. rewrite elem_of_dom. destruct (m !! k); [eauto|]. cbn. intros H. inversion H. Qed.
Lemma build_map_loop_spec : forall storage n m,
  (forall k i, mem (build_map_loop n storage m) k i <-> mem m k i \/ exists c, (n <= i)%nat /\ storage !! (i - n)%nat = Some c /\ in_c k c).
Proof.
  induction storage as [|c storage IH]; intros n m k i; cbn [build_map_loop].
  - split; [auto|]. intros [|(c & _ & H & _)]; [assumption|discriminate].
  - rewrite IH, note_signals_mem, in_take_signals. split.
    + intros [[H|[-> H]]|(d & Hn & Hd & Hk)]; [auto| |].
      * right. exists c. split; [lia|]. rewrite Nat.sub_diag. auto.
      * right. exists d. split; [lia|]. replace (i - n)%nat with (S (i - S n)) by lia. auto.
    + intros [H|(d & Hn & Hd & Hk)]; [auto|]. destruct (decide (i = n)) as [->|Hi].
      * rewrite Nat.sub_diag in Hd. injection Hd as <-. auto.
      * right. exists d. split; [lia|]. replace (i - n)%nat with (S (i - S n)) in Hd by lia. auto.
Qed.
Lemma build_map_spec storage : covers storage (build_non_linear_signal_map storage) /\ bounded storage (build_non_linear_signal_map storage).
Proof.
  unfold build_non_linear_signal_map. split.
  - intros i c k Hi Hk. apply build_map_loop_spec. right. exists c. rewrite Nat.sub_0_r. split; [lia|auto].
  - intros k i Hm. apply build_map_loop_spec in Hm. destruct Hm as [H|(c & _ & H & _)].
    + unfold mem in H. rewrite lookup_empty in H. inversion H.
    + rewrite Nat.sub_0_r in H. eapply lookup_lt_Some. exact H.
Qed.

(** ** substituting in the storage *)
Definition good (p : Z) (c : constraint) : Prop := canon_c p c /\ normal_form c.
Lemma lin_ok_good p c : lin_ok p c -> good p c.
Proof.
  intros H. split; [apply lin_ok_canon; assumption|]. destruct H as (A & B & _ & N). split; [|left; auto].
  split_and!; [rewrite A|rewrite B|assumption]; apply nonzero_empty.
Qed.
Lemma good_linear p c : good p c -> is_linear c = true -> lin_ok p c.
Proof. intros [A B]. apply normal_linear; assumption. Qed.

Lemma constraint_processing_spec p s : 0 < p -> s_from s <> 0%nat -> s_to s !! s_from s = None -> forall c_ids storage m linear,
  Forall (good p) storage -> (forall i, i ∈ c_ids -> (i < length storage)%nat) ->
  exists storage' m' linear', constraint_processing c_ids s p storage m linear = Ok (storage', m', linear') /\
    length storage' = length storage /\
    (forall i c, storage !! i = Some c -> exists c', storage' !! i = Some c' /\ good p c' /\
       (i ∉ c_ids -> c' = c) /\ (i ∈ c_ids -> ~ in_c (s_from s) c') /\
       (forall ρ, sub_holds p ρ s -> (holds p ρ c' <-> holds p ρ c)) /\
       (forall k, in_c k c' -> in_c k c \/ (k <> 0%nat /\ is_Some (s_to s !! k))) /\
       (lin_ok p c -> lin_ok p c') /\
       (i ∈ linear' -> i ∈ linear \/ lin_ok p c')) /\
    (forall k j, mem m' k j <-> mem m k j \/ (j ∈ c_ids /\ is_Some (s_to s !! k))) /\
    (forall i, i ∈ linear' -> i ∈ linear \/ i ∈ c_ids) /\
    (forall k, is_Some (m !! k) -> is_Some (m' !! k)).
Proof.
  intros Hp H0 Hs. induction c_ids as [|c_id c_ids IH]; intros storage m linear HG Hb; cbn [constraint_processing].
  - exists storage, m, linear. split; [reflexivity|]. split; [reflexivity|]. split; [|split; [|split]].
    + intros i c Hi. exists c. split; [assumption|]. split; [apply (proj1 (Forall_lookup _ _) HG i c Hi)|].
      split; [reflexivity|]. split; [intros Q; inversion Q|]. split; [reflexivity|]. split; [auto|]. split; auto.
    + intros k j. split; [auto|]. intros [|[Q _]]; [assumption|inversion Q].
    + auto.
    + auto.
  - assert (Hlt : (c_id < length storage)%nat) by (apply Hb; left). apply lookup_lt_is_Some in Hlt. destruct Hlt as [c Hc].
    rewrite Hc. cbn [lift res_bind]. pose proof (proj1 (Forall_lookup _ _) HG c_id c Hc) as [Cc Nc].
    destruct (fix_constraint_sound p (c_subst c s p) Hp (canon_c_subst p c s Hp Cc)) as (c1 & E1 & Cc1 & Nf1 & Hh1 & Hi1).
    rewrite E1. cbn [res_bind].
    assert (Hl1 : lin_ok p c -> lin_ok p c1).
    { intros HL. destruct (lin_ok_flat p c HL) as [A B]. destruct (fix_flat_ok p (c_subst c s p) Hp (canon_c_subst p c s Hp Cc)) as (c2 & E2 & L2 & _);
        [apply flat_subst; assumption|apply flat_subst; assumption|]. rewrite E1 in E2. injection E2 as <-. assumption. }
    assert (Hk1 : forall k, in_c k c1 -> (in_c k c /\ k <> s_from s) \/ (k <> 0%nat /\ is_Some (s_to s !! k))).
    { intros k Hk. apply Hi1, in_c_subst in Hk; [|assumption]. tauto. }
    edestruct (IH (<[c_id := c1]> storage)) as (st' & m' & lin' & E & Hlen & HI & HM & HLi & HD).
    { apply Forall_insert; [assumption|split; assumption]. }
    { intros i Hi. rewrite insert_length. apply Hb. right. assumption. }
    rewrite E. exists st', m', lin'. split; [reflexivity|]. rewrite insert_length in Hlen. split; [assumption|].
    split; [|split; [|split]].
    + intros i d Hd. destruct (decide (i = c_id)) as [->|Hne].
      * rewrite Hc in Hd. injection Hd as <-.
        destruct (HI c_id c1) as (c' & Hc' & G' & Q1 & Q2 & Q3 & Q4 & Q5 & Q6).
        { apply list_lookup_insert. eapply lookup_lt_Some. exact Hc. }
        exists c'. split; [assumption|]. split; [assumption|]. split; [intros Q; exfalso; apply Q; left|].
        split; [|split; [|split; [|split]]].
        -- intros _. destruct (decide (c_id ∈ c_ids)) as [Hin|Hin]; [auto|]. rewrite (Q1 Hin). intros Hk. apply Hk1 in Hk.
           destruct Hk as [[_ Hk]|[_ Hk]]; [contradiction|]. rewrite Hs in Hk. destruct Hk; discriminate.
        -- intros ρ Hρ. rewrite (Q3 ρ Hρ), Hh1. apply holds_c_subst; assumption.
        -- intros k Hk. destruct (Q4 k Hk) as [Hk'|]; [|auto]. apply Hk1 in Hk'. tauto.
        -- auto.
        -- intros Hin. destruct (Q6 Hin) as [Hin'|]; [|auto]. destruct (is_linear c1) eqn:El; [|auto].
           right. apply Q5. apply good_linear; [split; assumption|assumption].
      * destruct (HI i d) as (c' & Hc' & G' & Q1 & Q2 & Q3 & Q4 & Q5 & Q6).
        { rewrite list_lookup_insert_ne by auto. assumption. }
        exists c'. split; [assumption|]. split; [assumption|].
        split; [intros Q; apply Q1; intros Q'; apply Q; right; assumption|].
        split; [intros Q; apply elem_of_cons in Q; destruct Q; [contradiction|auto]|].
        split; [assumption|]. split; [assumption|]. split; [assumption|].
        intros Hin. destruct (Q6 Hin) as [Hin'|]; [|auto]. destruct (is_linear c1); [|auto].
        apply elem_of_app in Hin'. destruct Hin' as [|Hin']; [auto|]. apply elem_of_list_singleton in Hin'. contradiction.
    + intros k j. rewrite HM, note_signals_mem, elem_of_dom, elem_of_cons. tauto.
    + intros i Hi. destruct (HLi i Hi) as [Hi'|]; [|rewrite elem_of_cons; auto]. destruct (is_linear c1); [|auto].
      apply elem_of_app in Hi'. destruct Hi' as [|Hi']; [auto|]. apply elem_of_list_singleton in Hi'. subst i. right. left.
    + intros k Hk. apply HD. apply note_signals_dom. auto.
Qed.

Lemma apply_map_loop_spec p (F : list nat) : 0 < p -> forall subs storage m linear_id,
  (forall s, s ∈ subs -> s_from s <> 0%nat /\ s_from s ∈ F /\ forall j, is_Some (s_to s !! j) -> j = 0%nat \/ j ∉ F) ->
  Forall (good p) storage -> covers storage m -> bounded storage m ->
  (forall i, i ∈ linear_id -> exists c, storage !! i = Some c /\ lin_ok p c) ->
  exists storage' m' linear_id', apply_map_loop subs p storage m linear_id = Ok (storage', m', linear_id') /\
    length storage' = length storage /\
    (forall i c, storage !! i = Some c -> exists c', storage' !! i = Some c' /\ good p c' /\
       (forall s, s ∈ subs -> ~ in_c (s_from s) c') /\
       (forall ρ, Forall (sub_holds p ρ) subs -> (holds p ρ c' <-> holds p ρ c)) /\
       (forall k, in_c k c' -> in_c k c \/ (k <> 0%nat /\ exists s, s ∈ subs /\ is_Some (s_to s !! k)))) /\
    covers storage' m' /\ bounded storage' m' /\
    (forall i, i ∈ linear_id' -> exists c, storage' !! i = Some c /\ lin_ok p c).
Proof.
  intros Hp. induction subs as [|s subs IH]; intros storage m linear_id HS HG Hcov Hbd HL; cbn [apply_map_loop].
  - exists storage, m, linear_id. split; [reflexivity|]. split; [reflexivity|]. split; [|auto].
    intros i c Hi. exists c. split; [assumption|]. split; [apply (proj1 (Forall_lookup _ _) HG i c Hi)|].
    split; [intros s Hs; inversion Hs|]. split; [reflexivity|auto].
  - destruct (HS s ltac:(left)) as (H0 & HF & HK).
    assert (Hself : s_to s !! s_from s = None).
    { apply eq_None_not_Some. intros Q. destruct (HK _ Q); contradiction. }
    assert (HS' : forall t, t ∈ subs -> s_from t <> 0%nat /\ s_from t ∈ F /\ forall j, is_Some (s_to t !! j) -> j = 0%nat \/ j ∉ F).
    { intros t Ht. apply HS. right. assumption. }
    destruct (m !! s_from s) as [c_ids|] eqn:Em.
    + destruct (constraint_processing_spec p s Hp H0 Hself c_ids storage m [] HG) as (st1 & m1 & l1 & -> & Hlen1 & HI1 & HM1 & HL1 & _).
      { intros i Hi. apply (Hbd (s_from s)). unfold mem. rewrite Em. assumption. }
      cbn [res_bind].
      assert (Htouch : forall i c, storage !! i = Some c -> in_c (s_from s) c -> i ∈ c_ids).
      { intros i c Hi Hc. specialize (Hcov i c (s_from s) Hi Hc). unfold mem in Hcov. rewrite Em in Hcov. assumption. }
      assert (Hback : forall i c1, st1 !! i = Some c1 -> exists c, storage !! i = Some c).
      { intros i c1 Hi. apply lookup_lt_is_Some. rewrite <- Hlen1. eapply lookup_lt_Some. exact Hi. }
      destruct (IH st1 m1 (linear_id ++ l1)) as (st' & m' & l' & -> & Hlen & HI & Hcov' & Hbd' & HL').
      * assumption.
      * apply Forall_lookup. intros i c1 Hi. destruct (Hback i c1 Hi) as [c Hc].
        destruct (HI1 i c Hc) as (c' & Hc' & G & _). rewrite Hi in Hc'. injection Hc' as <-. assumption.
      * intros i c1 k Hi Hk. destruct (Hback i c1 Hi) as [c Hc].
        destruct (HI1 i c Hc) as (c' & Hc' & G & Q1 & Q2 & Q3 & Q4 & Q5 & Q6). rewrite Hi in Hc'. injection Hc' as <-.
        apply HM1. destruct (decide (i ∈ c_ids)) as [Hin|Hin].
        -- destruct (Q4 k Hk) as [Hk'|[_ Hk']]; [left; eapply Hcov; eassumption|auto].
        -- left. rewrite (Q1 Hin) in Hk. eapply Hcov; eassumption.
      * intros k i Hm. rewrite Hlen1. apply HM1 in Hm. destruct Hm as [Hm|[Hin _]]; [eapply Hbd; exact Hm|].
        apply (Hbd (s_from s)). unfold mem. rewrite Em. assumption.
      * intros i Hi. apply elem_of_app in Hi. destruct Hi as [Hi|Hi].
        -- destruct (HL i Hi) as (c & Hc & Lc). destruct (HI1 i c Hc) as (c' & Hc' & G & _ & _ & _ & _ & Q5 & _). eauto.
        -- destruct (HL1 i Hi) as [Q|Hin]; [inversion Q|].
           assert (Hlt : (i < length storage)%nat) by (apply (Hbd (s_from s)); unfold mem; rewrite Em; assumption).
           apply lookup_lt_is_Some in Hlt. destruct Hlt as [c Hc].
           destruct (HI1 i c Hc) as (c' & Hc' & G & _ & _ & _ & _ & _ & Q6). exists c'. split; [assumption|].
           destruct (Q6 Hi) as [Q|]; [inversion Q|assumption].
      * exists st', m', l'. split; [reflexivity|]. split; [congruence|]. split; [|auto].
        intros i c Hc. destruct (HI1 i c Hc) as (c1 & Hc1 & G1 & Q1 & Q2 & Q3 & Q4 & Q5 & Q6).
        destruct (HI i c1 Hc1) as (c' & Hc' & G' & R1 & R2 & R3). exists c'. split; [assumption|]. split; [assumption|].
        assert (Hno : ~ in_c (s_from s) c1).
        { destruct (decide (i ∈ c_ids)) as [Hin|Hin]; [auto|]. rewrite (Q1 Hin). intros Q. apply Hin. eapply Htouch; eassumption. }
        split; [|split].
        -- intros t Ht. apply elem_of_cons in Ht. destruct Ht as [->|Ht]; [|auto]. intros Q. destruct (R3 _ Q) as [Q'|(_ & u & Hu & Q')]; [contradiction|].
           destruct (HS' u Hu) as (_ & _ & HKu). destruct (HKu _ Q'); contradiction.
        -- intros ρ Hρ. apply Forall_cons in Hρ. destruct Hρ as [Hρ1 Hρ2]. rewrite (R2 ρ Hρ2). apply Q3. assumption.
        -- intros k Hk. destruct (R3 k Hk) as [Hk'|(Hk0 & u & Hu & Hk')].
           ++ destruct (Q4 k Hk') as [|[Hk0 Hk'']]; [auto|]. right. split; [assumption|]. exists s. split; [left|assumption].
           ++ right. split; [assumption|]. exists u. split; [right; assumption|assumption].
    + destruct (IH storage m linear_id HS' HG Hcov Hbd HL) as (st' & m' & l' & -> & Hlen & HI & R).
      exists st', m', l'. split; [reflexivity|]. split; [assumption|]. split; [|assumption].
      intros i c Hc. destruct (HI i c Hc) as (c' & Hc' & G' & R1 & R2 & R3). exists c'. split; [assumption|]. split; [assumption|].
      split; [|split].
      * intros t Ht. apply elem_of_cons in Ht. destruct Ht as [->|Ht]; [|auto]. intros Q. destruct (R3 _ Q) as [Q'|(_ & u & Hu & Q')].
        -- specialize (Hcov i c (s_from s) Hc Q'). unfold mem in Hcov. rewrite Em in Hcov. inversion Hcov.
        -- destruct (HS' u Hu) as (_ & _ & HKu). destruct (HKu _ Q'); contradiction.
      * intros ρ Hρ. apply Forall_cons in Hρ. apply R2. tauto.
      * intros k Hk. destruct (R3 k Hk) as [|(Hk0 & u & Hu & Hk')]; [auto|]. right. split; [assumption|].
        exists u. split; [right; assumption|assumption].
Qed.

Lemma in_c_empty k : ~ in_c k c_empty.
Proof. unfold in_c, in_lin. cbn. rewrite lookup_empty. intros [[_ [? Q]]|[[_ [? Q]]|[_ [? Q]]]]; discriminate. Qed.
Lemma take_linear_spec p : forall linear_id storage,
  Forall (good p) storage -> (forall i, i ∈ linear_id -> exists c, storage !! i = Some c /\ lin_ok p c) ->
  exists linear storage', take_linear linear_id storage = Ok (linear, storage') /\
    Forall (lin_ok p) linear /\ Forall (good p) storage' /\ length storage' = length storage /\
    (forall ρ, Forall (holds p ρ) storage <-> Forall (holds p ρ) linear /\ Forall (holds p ρ) storage') /\
    (forall k, sigs_of linear k -> sigs_of storage k) /\
    (forall i c, storage' !! i = Some c -> storage !! i = Some c \/ c = c_empty).
Proof.
  induction linear_id as [|i linear_id IH]; intros storage HG HL; cbn [take_linear].
  - exists [], storage. split; [reflexivity|]. split; [constructor|]. split; [assumption|]. split; [reflexivity|].
    split; [intros ρ; rewrite Forall_nil; tauto|]. split; [|auto]. intros k (c & Hc & _). inversion Hc.
  - destruct (HL i ltac:(left)) as (c & Hc & Lc). rewrite Hc. cbn [lift res_bind].
    destruct (IH (<[i := c_empty]> storage)) as (linear & st' & -> & Ll & Gl & Hlen & He & Hs & Hi).
    + apply Forall_insert; [assumption|]. apply lin_ok_good, lin_ok_empty.
    + intros j Hj. destruct (HL j ltac:(right; assumption)) as (d & Hd & Ld). destruct (decide (j = i)) as [->|].
      * exists c_empty. split; [apply list_lookup_insert; eapply lookup_lt_Some; exact Hd|apply lin_ok_empty].
      * exists d. rewrite list_lookup_insert_ne by auto. auto.
    + cbn [res_map res_bind]. exists (c :: linear), st'. split; [reflexivity|]. split; [constructor; assumption|].
      split; [assumption|]. rewrite insert_length in Hlen. split; [assumption|]. split; [|split].
      * intros ρ. rewrite Forall_cons. rewrite (Forall_replace (holds p ρ) storage i c (holds_empty p ρ) Hc), He. tauto.
      * intros k (d & Hd & Hk). apply elem_of_cons in Hd. destruct Hd as [->|Hd].
        -- exists c. split; [eapply elem_of_list_lookup_2; exact Hc|assumption].
        -- destruct (Hs k) as (e & He' & Hk'); [exists d; auto|]. apply elem_of_list_lookup in He'. destruct He' as [j Hj].
           destruct (decide (j = i)) as [->|].
           ++ rewrite list_lookup_insert in Hj by (eapply lookup_lt_Some; exact Hc). injection Hj as <-. destruct (in_c_empty k Hk').
           ++ rewrite list_lookup_insert_ne in Hj by auto. exists e. split; [eapply elem_of_list_lookup_2; exact Hj|assumption].
      * intros j d Hj. destruct (Hi j d Hj) as [Hj'|]; [|auto]. destruct (decide (j = i)) as [->|].
        -- rewrite list_lookup_insert in Hj' by (eapply lookup_lt_Some; exact Hc). injection Hj' as <-. auto.
        -- rewrite list_lookup_insert_ne in Hj' by auto. auto.
Qed.

Lemma apply_substitution_to_map_spec p subs storage m : 0 < p -> subs_ok subs ->
  Forall (good p) storage -> covers storage m -> bounded storage m ->
  exists linear storage' m', apply_substitution_to_map storage m subs p = Ok (linear, storage', m') /\
    Forall (lin_ok p) linear /\ Forall (good p) storage' /\ covers storage' m' /\ bounded storage' m' /\
    (forall ρ, Forall (sub_holds p ρ) subs -> (Forall (holds p ρ) storage <-> Forall (holds p ρ) linear /\ Forall (holds p ρ) storage')) /\
    (forall k, sigs_of linear k \/ sigs_of storage' k ->
       k ∉ froms subs /\ (sigs_of storage k \/ exists s, s ∈ subs /\ is_Some (s_to s !! k))).
Proof.
  intros Hp HS HG Hcov Hbd. unfold apply_substitution_to_map.
  destruct (apply_map_loop_spec p (froms subs) Hp subs storage m []) as (st1 & m1 & ids & -> & Hlen & HI & Hcov1 & Hbd1 & HL); try assumption.
  { intros s Hs. destruct (HS s Hs) as [A B]. split; [assumption|]. split; [apply elem_of_list_fmap; eauto|assumption]. }
  { intros i Hi. inversion Hi. }
  cbn [res_bind].
  assert (Hback : forall i c1, st1 !! i = Some c1 -> exists c, storage !! i = Some c).
  { intros i c1 Hi. apply lookup_lt_is_Some. rewrite <- Hlen. eapply lookup_lt_Some. exact Hi. }
  destruct (take_linear_spec p ids st1) as (linear & st' & -> & Ll & Gl & Hlen' & He & Hs' & Hi'); [|assumption|].
  { apply Forall_lookup. intros i c1 Hi. destruct (Hback i c1 Hi) as [c Hc].
    destruct (HI i c Hc) as (c' & Hc' & G & _). rewrite Hi in Hc'. injection Hc' as <-. assumption. }
  cbn [res_map res_bind]. exists linear, st', m1. split; [reflexivity|]. split; [assumption|]. split; [assumption|]. split; [|split; [|split]].
  - intros i c k Hi Hk. destruct (Hi' i c Hi) as [Hi1| ->]; [eapply Hcov1; eassumption|destruct (in_c_empty k Hk)].
  - intros k i Hm. rewrite Hlen'. eapply Hbd1. exact Hm.
  - intros ρ Hρ. rewrite <- He. rewrite !Forall_lookup. split.
    + intros Q i c1 Hi. destruct (Hback i c1 Hi) as [c Hc]. destruct (HI i c Hc) as (c' & Hc' & _ & _ & R & _).
      rewrite Hi in Hc'. injection Hc' as <-. apply (R ρ Hρ). apply (Q i). assumption.
    + intros Q i c Hc. destruct (HI i c Hc) as (c' & Hc' & _ & _ & R & _). apply (R ρ Hρ). apply (Q i). assumption.
  - intros k Hk.
    assert (Hk1 : sigs_of st1 k).
    { destruct Hk as [Hk|(c & Hc & Hk)]; [apply Hs'; assumption|]. apply elem_of_list_lookup in Hc. destruct Hc as [i Hi].
      destruct (Hi' i c Hi) as [Hi1| ->]; [|destruct (in_c_empty k Hk)]. exists c. split; [eapply elem_of_list_lookup_2; exact Hi1|assumption]. }
    destruct Hk1 as (c1 & Hc1 & Hk1). apply elem_of_list_lookup in Hc1. destruct Hc1 as [i Hi]. destruct (Hback i c1 Hi) as [c Hc].
    destruct (HI i c Hc) as (c' & Hc' & _ & R1 & _ & R3). rewrite Hi in Hc'. injection Hc' as <-. split.
    + intros Q. apply elem_of_list_fmap in Q. destruct Q as (s & -> & Hs). apply (R1 s Hs). assumption.
    + destruct (R3 k Hk1) as [Hk'|(_ & Hk')]; [|auto]. left. exists c. split; [eapply elem_of_list_lookup_2; exact Hc|assumption].
Qed.

(** rewriting the remaining linear constraints *)
Lemma rewrite_lconst_spec p subs c : 0 < p -> (forall s, s ∈ subs -> s_from s <> 0%nat /\ ~ in_c (s_from s) c) -> canon_c p c ->
  exists c', rewrite_lconst subs p c = Ok c' /\ good p c' /\ (forall ρ, holds p ρ c' <-> holds p ρ c) /\ (forall k, in_c k c' -> in_c k c).
Proof.
  intros Hp HS Hc. unfold rewrite_lconst.
  assert (H : canon_c p (foldl (fun c s => c_subst c s p) c subs) /\
    (forall ρ, holds p ρ (foldl (fun c s => c_subst c s p) c subs) <-> holds p ρ c) /\
    (forall k, in_c k (foldl (fun c s => c_subst c s p) c subs) -> in_c k c)).
  { revert c HS Hc. induction subs as [|s subs IH]; intros c HS Hc; [split; [assumption|split; [reflexivity|auto]]|]. cbn [foldl].
    destruct (HS s ltac:(left)) as [H0 Hno].
    assert (Hk : forall k, in_c k (c_subst c s p) -> in_c k c).
    { intros k Hk. apply in_c_subst in Hk; [|assumption]. destruct Hk as [[]|[]]; [assumption|contradiction]. }
    destruct (IH (c_subst c s p)) as (A & B & C).
    - intros t Ht. destruct (HS t ltac:(right; assumption)) as [Q1 Q2]. split; [assumption|]. intros Q. apply Q2, Hk, Q.
    - apply canon_c_subst; assumption.
    - split; [assumption|]. split; [|intros k Q; apply Hk, C, Q].
      intros ρ. rewrite B. unfold holds. cbn [c_subst c_a c_b c_c].
      assert (Hm : forall m, ~ in_lin (s_from s) m -> raw_substitution m s p = init_expr m).
      { intros m Q. apply raw_subst_absent; [assumption|]. apply eq_None_not_Some. intros Q'. apply Q. split; assumption. }
      unfold in_c in Hno. rewrite !Hm by tauto. rewrite !leval_init. reflexivity. }
  destruct H as (A & B & C). destruct (fix_constraint_sound p _ Hp A) as (c' & E & Cc & Nf & Hh & Hi). exists c'.
  split; [assumption|]. split; [split; assumption|]. split; [intros ρ; rewrite Hh; apply B|]. intros k Hk. apply C, Hi, Hk.
Qed.

(** ** the rounds *)
Record rinv (p : Z) (forb : gset nat) (N : nat) (orig : list constraint) (G : Prop) (st : round_state) : Prop := {
  ri_equiv : forall ρ, Forall (holds p ρ) orig <->
     Forall (holds p ρ) (rs_linear st) /\ Forall (holds p ρ) (rs_lconst st) /\ Forall (holds p ρ) (rs_storage st) /\ Forall (sub_holds p ρ) (rs_log st);
  ri_linear : Forall (lin_ok p) (rs_linear st);
  ri_lconst : Forall (canon_c p) (rs_lconst st);
  ri_storage : Forall (good p) (rs_storage st);
  ri_deleted : forall k, k ∈ rs_deleted st <-> k ∈ froms (rs_log st);
  ri_clean : forall k, sigs_of (rs_linear st) k \/ sigs_of (rs_lconst st) k \/ sigs_of (rs_storage st) k ->
     k ∉ froms (rs_log st) /\ (k < N)%nat;
  ri_covers : covers (rs_storage st) (rs_map st);
  ri_bounded : bounded (rs_storage st) (rs_map st);
  ri_log : log_ok (rs_log st);
  ri_fun : G -> functional (rs_log st);
  ri_froms : forall s, s ∈ rs_log st -> s_from s <> 0%nat /\ s_from s ∉ forb /\ (s_from s < N)%nat /\ canon p (s_to s) /\
     forall j, is_Some (s_to s !! j) -> j = 0%nat \/ (j < N)%nat;
}.
Definition kept_protected (forb : gset nat) (st : round_state) : Prop := forall k, sigs_of (rs_lconst st) k -> k ∈ forb.
Lemma part_ok_subs_ok p forb sg cs subs rest : part_ok p forb sg cs subs rest -> subs_ok subs.
Proof.
  intros [_ _ S _] s Hs. destruct (S s Hs) as (_ & A & _ & _ & B). split; [assumption|]. intros j Hj. destruct (B j Hj) as [|[_ ?]]; auto.
Qed.
Lemma sigs_of_app l1 l2 k : sigs_of (l1 ++ l2) k <-> sigs_of l1 k \/ sigs_of l2 k.
Proof.
  unfold sigs_of. setoid_rewrite elem_of_app. split.
  - intros (c & [H|H] & Hk); [left|right]; eauto.
  - intros [(c & H & Hk)|(c & H & Hk)]; eauto.
Qed.

Lemma round_spec fuel o ph sm orig G st : prime (sm_field sm) -> 0%nat ∈ sm_forbidden sm -> valid_oracle o -> enough (sm_max_signal sm) fuel ->
  rinv (sm_field sm) (sm_forbidden sm) (sm_max_signal sm) orig G st -> kept_protected (sm_forbidden sm) st ->
  exists st', res_bind (linear_simplification fuel o ph (rs_linear st) (sm_forbidden sm) (sm_max_signal sm) (sm_field sm)
                  (sm_flag_old_heuristics sm)) (fun '(subs, constants) =>
      res_bind (res_imap (fun _ => rewrite_lconst subs (sm_field sm)) 0 (rs_lconst st ++ constants)) (fun lconst =>
      res_bind (apply_substitution_to_map (rs_storage st) (rs_map st) subs (sm_field sm)) (fun '(linear, storage, m) =>
      Ok (RState linear lconst storage m (list_to_set (s_from <$> subs) ∪ rs_deleted st) (rs_log st ++ subs))))) = Ok st' /\
    rinv (sm_field sm) (sm_forbidden sm) (sm_max_signal sm) orig G st' /\ kept_protected (sm_forbidden sm) st'.
Proof.
  set (p := sm_field sm). set (forb := sm_forbidden sm). set (N := sm_max_signal sm).
  intros Hp H0 Ho HF RI KP. pose proof (prime_ge_2 p Hp).
  destruct (linear_simplification_spec p forb o ph fuel (rs_linear st) N (sm_flag_old_heuristics sm) Hp H0 Ho (ri_linear _ _ _ _ _ _ RI)) as (subs & kept & -> & PO & KL).
  { intros k Hk. apply (ri_clean _ _ _ _ _ _ RI). auto. }
  { assumption. }
  cbn [res_bind]. pose proof (part_ok_subs_ok _ _ _ _ _ _ PO) as SO. destruct PO as [PE PN PS PR].
  assert (Hfr : forall k, k ∈ froms subs -> k ∉ forb /\ k <> 0%nat /\ sigs_of (rs_linear st) k).
  { intros k Hk. apply elem_of_list_fmap in Hk. destruct Hk as (s & -> & Hs). destruct (PS s Hs) as (A & B & C & _). auto. }
  destruct (res_imap_spec (fun _ => rewrite_lconst subs p) (fun c c' => good p c' /\ (forall ρ, holds p ρ c' <-> holds p ρ c) /\ (forall k, in_c k c' -> in_c k c))
    (rs_lconst st ++ kept) 0) as (lconst & -> & HLC).
  { intros _ c Hc. apply elem_of_app in Hc. apply rewrite_lconst_spec; [lia| |].
    - intros s Hs. destruct (PS s Hs) as (A & B & _). split; [assumption|]. intros Q. apply A. destruct Hc as [Hc|Hc].
      + apply KP. exists c. auto.
      + apply (PR c Hc). assumption.
    - destruct Hc as [Hc|Hc]; [apply (proj1 (Forall_forall _ _) (ri_lconst _ _ _ _ _ _ RI) c Hc)|apply (PR c Hc)]. }
  cbn [res_bind].
  destruct (apply_substitution_to_map_spec p subs (rs_storage st) (rs_map st)) as (linear & storage & m & -> & Ll & Gs & Hcov & Hbd & He & Hsg);
    [lia|assumption|apply RI|apply RI|apply RI|].
  cbn [res_bind]. eexists. split; [reflexivity|].
  assert (HLs : forall k, sigs_of lconst k -> sigs_of (rs_lconst st ++ kept) k).
  { intros k (c' & Hc' & Hk). apply elem_of_list_lookup in Hc'. destruct Hc' as [i Hi].
    destruct (Forall2_lookup_r _ _ _ _ _ HLC Hi) as (c & Hc & _ & _ & Q). exists c. split; [eapply elem_of_list_lookup_2; exact Hc|auto]. }
  assert (HLf : forall k, sigs_of lconst k -> k ∈ forb).
  { intros k Hk. apply HLs, sigs_of_app in Hk. destruct Hk as [Hk|(c & Hc & Hk)]; [apply KP; assumption|apply (PR c Hc); assumption]. }
  split; [|exact HLf].
  assert (Hrhs : forall s j, s ∈ subs -> is_Some (s_to s !! j) -> j = 0%nat \/ (sigs_of (rs_linear st) j /\ j ∉ froms subs)).
  { intros s j Hs Hj. destruct (PS s Hs) as (_ & _ & _ & _ & Q). apply Q. assumption. }
  assert (H0L : 0%nat ∉ froms (rs_log st)).
  { intros Q. apply elem_of_list_fmap in Q. destruct Q as (s & E & Hs). apply (ri_froms _ _ _ _ _ _ RI) in Hs. destruct Hs. congruence. }
  assert (Hrcl : forall j, sigs_of (rs_linear st) j -> j ∉ froms (rs_log st) /\ (j < N)%nat).
  { intros j Hj. apply (ri_clean _ _ _ _ _ _ RI). auto. }
  split; cbn [rs_linear rs_lconst rs_storage rs_map rs_deleted rs_log].
  - intros ρ. rewrite (ri_equiv _ _ _ _ _ _ RI ρ), PE, Forall_app.
    assert (EL : Forall (holds p ρ) lconst <-> Forall (holds p ρ) (rs_lconst st ++ kept)).
    { clear - HLC. induction HLC as [|c c' l l' (_ & Q & _) _ IH]; [rewrite !Forall_nil; tauto|]. rewrite !Forall_cons, IH, Q. tauto. }
    rewrite EL, Forall_app. specialize (He ρ). tauto.
  - assumption.
  - clear - HLC. induction HLC as [|c c' l l' ([Q _] & _) _ IH]; constructor; assumption.
  - assumption.
  - intros k. rewrite elem_of_union, elem_of_list_to_set, fmap_app, elem_of_app, (ri_deleted _ _ _ _ _ _ RI). tauto.
  - intros k Hk. rewrite fmap_app, not_elem_of_app.
    assert (Hcase : sigs_of lconst k \/ (sigs_of linear k \/ sigs_of storage k)) by tauto. clear Hk. destruct Hcase as [Hk|Hk].
    + split; [split|].
      * intros Q. apply elem_of_list_fmap in Q. destruct Q as (s & -> & Hs). apply (ri_froms _ _ _ _ _ _ RI) in Hs. destruct Hs as (_ & Hs & _).
        apply Hs, HLf. assumption.
      * intros Q. apply Hfr in Q. destruct Q as [Q _]. apply Q, HLf. assumption.
      * apply HLs, sigs_of_app in Hk. destruct Hk as [Hk|(c & Hc & Hk)]; [apply (ri_clean _ _ _ _ _ _ RI); auto|].
        apply Hrcl. apply (PR c Hc). assumption.
    + assert (k <> 0%nat). { intros ->. destruct Hk as [(c & _ & Q)|(c & _ & Q)]; apply (in_c_0 c Q). }
      destruct (Hsg k Hk) as [Hn Hw]. destruct Hw as [Hw|(s & Hs & Hw)].
      * destruct (ri_clean _ _ _ _ _ _ RI k ltac:(auto)). auto.
      * destruct (Hrhs s k Hs Hw) as [|[Hw' _]]; [contradiction|]. destruct (Hrcl k Hw'). auto.
  - assumption.
  - assumption.
  - apply log_ok_app; [apply RI|]. intros s Hs j Hj. destruct (Hrhs s j Hs Hj) as [->|[Q1 Q2]].
    + split; [assumption|]. intros Q. apply Hfr in Q. destruct Q as (_ & Q & _). contradiction.
    + split; [apply Hrcl; assumption|assumption].
  - intros HG. apply functional_app; [apply RI; assumption|apply functional_nodup; assumption|].
    intros k Hk1 Hk2. apply Hfr in Hk2. destruct Hk2 as (_ & _ & Hk2). apply Hrcl in Hk2. tauto.
  - intros s Hs. apply elem_of_app in Hs. destruct Hs as [Hs|Hs]; [apply RI; assumption|].
    destruct (PS s Hs) as (A & B & C & D & E). split; [assumption|]. split; [assumption|]. split; [apply Hrcl; assumption|].
    split; [assumption|]. intros j Hj. destruct (E j Hj) as [|[Q _]]; [auto|]. right. apply Hrcl. assumption.
Qed.
Lemma rounds_spec o sm orig G fuel : prime (sm_field sm) -> 0%nat ∈ sm_forbidden sm -> valid_oracle o -> enough (sm_max_signal sm) fuel ->
  forall no_rounds ph st,
  rinv (sm_field sm) (sm_forbidden sm) (sm_max_signal sm) orig G st -> kept_protected (sm_forbidden sm) st ->
  exists st', rounds no_rounds fuel o ph sm st = Ok st' /\
    rinv (sm_field sm) (sm_forbidden sm) (sm_max_signal sm) orig G st'.
Proof.
  intros Hp H0 Ho HF. induction no_rounds as [|n IH]; intros ph st RI KP; cbn [rounds]; [eauto|].
  case_bool_decide; [eauto|].
  destruct (round_spec fuel o ph sm orig G st Hp H0 Ho HF RI KP) as (st' & E & RI' & KP').
  destruct (linear_simplification _ _ _ _ _ _ _ _) as [[subs constants]| |]; cbn [res_bind] in E |- *; try discriminate.
  destruct (res_imap _ _ _) as [lconst| |]; cbn [res_bind] in E |- *; try discriminate.
  destruct (apply_substitution_to_map _ _ _ _) as [[[linear storage] m]| |]; cbn [res_bind] in E |- *; try discriminate.
  injection E as <-. apply IH; assumption.
Qed.

(** ** the non-linear constraints *)
Fixpoint reach (frames : list (gmap nat aexpr)) (P : nat -> Prop) (k : nat) : Prop :=
  match frames with
  | [] => P k
  | e :: frames => reach frames (fun k => k <> 0%nat /\ e !! k = None /\ (P k \/ exists x ex, P x /\ e !! x = Some ex /\ ekey k ex)) k
  end.
Lemma reach_mono frames : forall (P Q : nat -> Prop) k, (forall k, P k -> Q k) -> reach frames P k -> reach frames Q k.
Proof.
  induction frames as [|e frames IH]; intros P Q k H; [apply H|]. cbn [reach]. apply IH.
  intros j (A & B & [C|(x & ex & C & D)]); split; auto; split; auto. right. exists x, ex. auto.
Qed.
Lemma in_c_nz k c : in_c k c -> k <> 0%nat.
Proof. intros H ->. apply (in_c_0 c H). Qed.
Lemma rewrite_frames_spec p o i : 0 < p -> valid_oracle o -> forall frames ph c, Forall enc_good frames -> canon_c p c ->
  exists c', rewrite_frames o ph i frames p c = Ok c' /\ good p c' /\
    (forall ρ, Forall (enc_holds p ρ) frames -> (holds p ρ c' <-> holds p ρ c)) /\
    (forall k, in_c k c' -> reach frames (fun k => in_c k c) k).
Proof.
  intros Hp Ho. induction frames as [|e frames IH]; intros ph c HE Hc; cbn [rewrite_frames].
  - destruct (fix_constraint_sound p c Hp Hc) as (c' & E & A & B & C & D). exists c'. split; [assumption|]. split; [split; assumption|]. split; auto.
  - apply Forall_cons in HE. destruct HE as [He HE].
    destruct (fast_spec p e (o_fast o ph i) c Hp He (vo_fast o Ho ph i) Hc) as (c1 & b & -> & Cc1 & Hh1 & Hi1 & _). cbn [res_bind].
    destruct (IH (S ph) c1 HE Cc1) as (c' & E & G & Hh & Hi). exists c'. split; [assumption|]. split; [assumption|]. split.
    + intros ρ Hρ. apply Forall_cons in Hρ. destruct Hρ as [Q1 Q2]. rewrite (Hh ρ Q2). apply Hh1. assumption.
    + intros k Hk. cbn [reach]. eapply reach_mono; [|apply Hi; exact Hk]. cbn. intros j Hj.
      split; [eapply in_c_nz; exact Hj|]. apply Hi1. assumption.
Qed.
Lemma obtain_non_linear_spec p o ph frames : 0 < p -> valid_oracle o -> Forall enc_good frames -> forall nl i, Forall (canon_c p) nl ->
  exists linear storage, obtain_non_linear o ph i frames p nl = Ok (linear, storage) /\
    Forall (lin_ok p) linear /\ Forall (good p) storage /\
    (forall ρ, Forall (enc_holds p ρ) frames -> (Forall (holds p ρ) nl <-> Forall (holds p ρ) linear /\ Forall (holds p ρ) storage)) /\
    (forall k, sigs_of linear k \/ sigs_of storage k -> exists c, c ∈ nl /\ reach frames (fun k => in_c k c) k).
Proof.
  intros Hp Ho HE. induction nl as [|c nl IH]; intros i HC; cbn [obtain_non_linear].
  - exists [], []. split; [reflexivity|]. split; [constructor|]. split; [constructor|]. split; [intros ρ _; rewrite !Forall_nil; tauto|].
    intros k [(c & Q & _)|(c & Q & _)]; inversion Q.
  - apply Forall_cons in HC. destruct HC as [Hc HC].
    destruct (rewrite_frames_spec p o i Hp Ho frames ph c HE Hc) as (c' & -> & G & Hh & Hi). cbn [res_bind].
    destruct (IH (S i) HC) as (linear & storage & -> & Ll & Gs & He & Hs). cbn [res_map res_bind].
    destruct (is_linear c') eqn:El.
    + exists (c' :: linear), storage. split; [reflexivity|]. split; [constructor; [apply good_linear; assumption|assumption]|]. split; [assumption|]. split.
      * intros ρ Hρ. rewrite !Forall_cons, (He ρ Hρ), (Hh ρ Hρ). tauto.
      * intros k Hk. assert (Q : in_c k c' \/ sigs_of linear k \/ sigs_of storage k).
        { destruct Hk as [(d & Hd & Hk)|Hk]; [|auto]. apply elem_of_cons in Hd. destruct Hd as [->|Hd]; [auto|]. right. left. exists d. auto. }
        destruct Q as [Q|Q]; [exists c; split; [left|auto]|]. destruct (Hs k Q) as (d & Hd & R). exists d. split; [right; assumption|assumption].
    + exists linear, (c' :: storage). split; [reflexivity|]. split; [assumption|]. split; [constructor; assumption|]. split.
      * intros ρ Hρ. rewrite !Forall_cons, (He ρ Hρ), (Hh ρ Hρ). tauto.
      * intros k Hk. assert (Q : in_c k c' \/ sigs_of linear k \/ sigs_of storage k).
        { destruct Hk as [Hk|(d & Hd & Hk)]; [auto|]. apply elem_of_cons in Hd. destruct Hd as [->|Hd]; [auto|]. right. right. exists d. auto. }
        destruct Q as [Q|Q]; [exists c; split; [left|auto]|]. destruct (Hs k Q) as (d & Hd & R). exists d. split; [right; assumption|assumption].
Qed.

(** ** the relevant signals *)
Lemma relevant_fold ren del : forall l rel k,
  k ∈ foldl (relevant_signal ren del) rel l <-> k ∈ rel \/ exists s, s ∈ l /\ k = unwrapped_signal ren s /\ del !! k = None.
Proof.
  induction l as [|s l IH]; intros rel k; cbn [foldl].
  - split; [auto|]. intros [|(s & Q & _)]; [assumption|inversion Q].
  - rewrite IH. unfold relevant_signal at 1. setoid_rewrite elem_of_cons.
    destruct (del !! unwrapped_signal ren s) eqn:E.
    + split; [intros [|(t & ? & ?)]; eauto 6|]. intros [|(t & [->|?] & -> & ?)]; [auto|congruence|eauto].
    + rewrite elem_of_union, elem_of_singleton. split.
      * intros [[->|]|(t & ? & ?)]; eauto 7.
      * intros [|(t & [->|?] & -> & ?)]; eauto 6.
Qed.
Lemma build_relevant_spec ren del nl k :
  k ∈ build_relevant_set nl ren del <-> exists c s, c ∈ nl /\ in_c s c /\ k = unwrapped_signal ren s /\ del !! k = None.
Proof.
  unfold build_relevant_set.
  assert (H : forall rel, k ∈ foldl (fun relevant c => foldl (relevant_signal ren del) relevant (elements (take_signals c))) rel nl <->
    k ∈ rel \/ exists c s, c ∈ nl /\ in_c s c /\ k = unwrapped_signal ren s /\ del !! k = None).
  { induction nl as [|c nl IH]; intros rel; cbn [foldl].
    - split; [auto|]. intros [|(c & s & Q & _)]; [assumption|inversion Q].
    - rewrite IH, relevant_fold. setoid_rewrite elem_of_elements. setoid_rewrite in_take_signals. setoid_rewrite elem_of_cons. split.
      + intros [[|(s & ? & ? & ?)]|(d & s & ? & ? & ?)]; eauto 9.
      + intros [|(d & s & [->|?] & ? & ? & ?)]; eauto 9. }
  rewrite H. split; [|auto]. intros [Q|]; [|assumption]. apply not_elem_of_empty in Q. destruct Q.
Qed.

(** ** witness renumbering *)
Section Witness.
Context (deleted0 forb used : gset nat).
Definition keeps (s : nat) : Prop := s ∉ deleted0 /\ (s ∈ forb \/ s ∈ used).
Global Instance keeps_dec s : Decision (keeps s).
Proof. unfold keeps. apply _. Defined.
Definition kept_upto (n : nat) : list nat := filter keeps (seq 0 n).
Lemma kept_upto_S n : kept_upto (S n) = kept_upto n ++ (if decide (keeps n) then [n] else []).
Proof.
  unfold kept_upto. rewrite seq_S, filter_app. reflexivity.
Qed.
Lemma kept_upto_le n : (length (kept_upto n) <= n)%nat.
Proof. unfold kept_upto. etransitivity; [apply filter_length|]. rewrite seq_length. lia. Qed.
Lemma kept_upto_in n s : s ∈ kept_upto n <-> keeps s /\ (s < n)%nat.
Proof. unfold kept_upto. rewrite elem_of_list_filter, elem_of_seq. intuition lia. Qed.
Lemma rebuild_witness_spec n : forall st, st = rebuild_witness n deleted0 forb used true ->
  w_free st = seq (length (kept_upto n)) (n - length (kept_upto n)) /\
  (forall s, s ∈ w_deleted st <-> s ∈ deleted0 \/ ((s < n)%nat /\ ~ keeps s)) /\
  (forall s v, w_map st !! s = Some v <-> (keeps s /\ (s < n)%nat) /\ v = length (kept_upto s)).
Proof.
  induction n as [|n IH]; intros st ->.
  - cbn. split; [reflexivity|]. split; [intros s; split; [auto|intros [|[? _]]; [assumption|lia]]|].
    intros s v. rewrite lookup_empty. split; [discriminate|]. intros [[_ ?] _]. lia.
  - unfold rebuild_witness. rewrite seq_S, foldl_app. cbn [foldl Nat.add].
    fold (rebuild_witness n deleted0 forb used true).
    destruct (IH _ eq_refl) as (HF & HD & HM). clear IH. destruct (rebuild_witness n deleted0 forb used true) as [del free m].
    cbn [w_free w_deleted w_map] in *. unfold witness_step. rewrite kept_upto_S.
    pose proof (kept_upto_le n) as Hle.
    assert (Hdel : n ∈ del <-> n ∈ deleted0).
    { rewrite HD. split; [intros [|[? _]]; [assumption|lia]|auto]. }
    assert (Hseq : seq (length (kept_upto n)) (n - length (kept_upto n)) ++ [n] = seq (length (kept_upto n)) (S n - length (kept_upto n))).
    { rewrite Nat.sub_succ_l, seq_S by assumption. f_equal. f_equal. lia. }
    case_bool_decide as Hd.
    + assert (Hk : ~ keeps n) by (unfold keeps; tauto). destruct (decide (keeps n)); [contradiction|]. rewrite app_nil_r.
      cbn [w_free w_deleted w_map]. split; [rewrite HF; exact Hseq|]. split.
      * intros s. rewrite HD. split; [intros [|[? ?]]; [auto|right; split; [lia|assumption]]|].
        intros [|[Hs Hks]]; [auto|]. destruct (decide (s = n)) as [->|]; [tauto|]. right. split; [lia|assumption].
      * intros s v. rewrite HM. split; intros [[A B] C]; (split; [split; [assumption|]|assumption]); [lia|].
        destruct (decide (s = n)) as [->|]; [contradiction|lia].
    + destruct (decide (keeps n)) as [Hk|Hk].
      * assert (Hno : true && negb (bool_decide (n ∈ forb)) && negb (bool_decide (n ∈ used)) = false).
        { destruct Hk as [_ Hk]. repeat case_bool_decide; try reflexivity. tauto. }
        rewrite Hno. rewrite app_length. cbn [length].
        assert (HMs : forall s v, <[n := length (kept_upto n)]> m !! s = Some v <-> (keeps s /\ (s < S n)%nat) /\ v = length (kept_upto s)).
        { intros s v. destruct (decide (s = n)) as [->|Hs].
          - rewrite lookup_insert. split; [intros E; injection E as <-; split; [split; [assumption|lia]|reflexivity]|].
            intros [_ ->]. reflexivity.
          - rewrite lookup_insert_ne by auto. rewrite HM. split; intros [[A B] C]; (split; [split; [assumption|lia]|assumption]). }
        assert (HDs : forall s, s ∈ del <-> s ∈ deleted0 \/ ((s < S n)%nat /\ ~ keeps s)).
        { intros s. rewrite HD. split; [intros [|[? ?]]; [auto|right; split; [lia|assumption]]|].
          intros [|[Hs Hks]]; [auto|]. destruct (decide (s = n)) as [->|]; [contradiction|]. right. split; [lia|assumption]. }
        destruct (n - length (kept_upto n))%nat as [|d] eqn:Ed.
        -- assert (E : length (kept_upto n) = n) by lia. cbn [seq] in HF. subst free. cbn [w_free w_deleted w_map].
           split; [|split; [assumption|rewrite E in HMs; assumption]].
           replace (S n - (length (kept_upto n) + 1))%nat with 0%nat by lia. reflexivity.
        -- cbn [seq] in HF. subst free. cbn [w_free w_deleted w_map]. split; [|split; assumption].
           replace (S n - (length (kept_upto n) + 1))%nat with (S d) by lia. rewrite Nat.add_1_r, (seq_S d). f_equal. f_equal. lia.
      * assert (Hyes : true && negb (bool_decide (n ∈ forb)) && negb (bool_decide (n ∈ used)) = true).
        { unfold keeps in Hk. repeat case_bool_decide; try reflexivity; exfalso; apply Hk; tauto. }
        rewrite Hyes, app_nil_r. cbn [w_free w_deleted w_map]. split; [rewrite HF; exact Hseq|]. split.
        -- intros s. rewrite elem_of_union, elem_of_singleton, HD. split.
           ++ intros [->|[|[? ?]]]; [right; split; [lia|assumption]|auto|right; split; [lia|assumption]].
           ++ intros [|[Hs Hks]]; [auto|]. destruct (decide (s = n)) as [->|]; [auto|]. right. right. split; [lia|assumption].
        -- intros s v. rewrite HM. split; intros [[A B] C]; (split; [split; [assumption|]|assumption]); [lia|].
           destruct (decide (s = n)) as [->|]; [contradiction|lia].
Qed.
End Witness.

(** ** the whole simplification *)
Lemma hashmap_rename y : y <> 0%nat -> hashmap_into_arith {[ y := 1 ]} = AlgebraModel.Signal y.
Proof. intros H. unfold hashmap_into_arith. rewrite map_to_list_singleton. destruct y; [contradiction|]. reflexivity. Qed.
Lemma hashmap_const m j : (forall j, is_Some (m !! j) -> j = 0%nat) -> ekey j (hashmap_into_arith m) -> j = 0%nat.
Proof.
  intros H Hj. destruct (hashmap_into_arith_spec m) as (_ & _ & _ & K). destruct (K j Hj); auto.
Qed.
Lemma add_to_storage_spec : forall cs storage m storage' m', covers storage m ->
  foldl add_to_storage (storage, m) cs = (storage', m') ->
  storage' = storage ++ cs /\ covers storage' m'.
Proof.
  induction cs as [|c cs IH]; intros storage m storage' m' HC; cbn [foldl].
  - intros E. injection E as <- <-. rewrite app_nil_r. auto.
  - intros E. apply IH in E; cbn [fst snd] in *.
    + rewrite <- app_assoc in E. exact E.
    + intros i d k Hi Hk. apply note_signals_mem. apply lookup_app_Some in Hi. destruct Hi as [Hi|[Hl Hi]].
      * left. eapply HC; eassumption.
      * right. apply list_lookup_singleton_Some in Hi. destruct Hi as [Hi <-]. split; [lia|]. apply in_take_signals. assumption.
Qed.

Record result_ok (sm : simplifier) (r : simplification_result) : Prop := {
  ro_equiv : forall ρ, satisfies (sm_field sm) ρ (original sm) <->
     satisfies (sm_field sm) ρ (r_constraints r) /\ Forall (sub_holds (sm_field sm) ρ) (r_log r);
  ro_good : forall c, c ∈ r_constraints r -> good (sm_field sm) c /\ c <> c_empty;
  ro_log : log_ok (r_log r);
  ro_fun : (exists ρ, satisfies (sm_field sm) ρ (sm_equalities sm ++ sm_cons_equalities sm)) -> functional (r_log r);
  ro_froms : forall s, s ∈ r_log r -> s_from s <> 0%nat /\ s_from s ∉ sm_forbidden sm /\ (s_from s < sm_max_signal sm)%nat /\
     canon (sm_field sm) (s_to s) /\ forall j, is_Some (s_to s !! j) -> j = 0%nat \/ (j < sm_max_signal sm)%nat;
  ro_deleted : forall k, k ∈ r_deleted r <-> k ∈ froms (r_log r) \/ ((k < sm_max_signal sm)%nat /\ r_map r !! k = None);
  ro_used : forall k, occurs k (r_constraints r) -> k ∉ froms (r_log r) /\ is_Some (r_map r !! k);
  ro_map : exists deleted used : gset nat, (forall k, k ∈ deleted <-> k ∈ froms (r_log r)) /\
     forall k v, r_map r !! k = Some v <-> (keeps deleted (sm_forbidden sm) used k /\ (k < sm_max_signal sm)%nat) /\
       v = length (kept_upto deleted (sm_forbidden sm) used k);
  ro_private : (r_no_private r + deleted_inputs sm (r_deleted r) = sm_no_private_inputs sm)%nat;
}.

Lemma simplification_spec fuel o sm : simplifier_ok sm -> valid_oracle o -> enough (sm_max_signal sm) fuel ->
  exists r, simplification fuel o sm = Ok r /\ result_ok sm r.
Proof.
  intros [Hp H0 HEq HCe HLi HNl Hsg Hpub] Ho HF. set (p := sm_field sm) in *. set (forb := sm_forbidden sm) in *. set (N := sm_max_signal sm) in *.
  pose proof (prime_ge_2 p Hp) as Hp2. assert (Hp0 : 0 < p) by lia.
  assert (Hocc : forall k, sigs_of (sm_equalities sm) k \/ sigs_of (sm_cons_equalities sm) k \/ sigs_of (sm_linear sm) k \/ sigs_of (sm_non_linear sm) k -> (k < N)%nat).
  { intros k Hk. apply Hsg. unfold occurs, original. change (sigs_of (sm_equalities sm ++ sm_cons_equalities sm ++ sm_linear sm ++ sm_non_linear sm) k).
    rewrite !sigs_of_app. assumption. }
  unfold simplification. fold p forb N.
  (* equalities *)
  destruct (eq_simplification_spec p forb o (sm_equalities sm) N Hp Ho) as (eq_subs & eq_cons & -> & EPO & EREN).
  { eapply Forall_impl; [exact HEq|]. intros c (A & B & C). split_and!; assumption. }
  { intros k Hk. apply Hocc. auto. }
  cbn [res_bind]. pose proof (part_ok_subs_ok _ _ _ _ _ _ EPO) as ESO. destruct EPO as [EE EN ES ER].
  pose proof (build_encoded_good eq_subs ESO) as EGood.
  assert (EFroms : forall k, k ∈ froms eq_subs -> k ∉ forb /\ k <> 0%nat /\ (k < N)%nat).
  { intros k Hk. apply elem_of_list_fmap in Hk. destruct Hk as (s & -> & Hs). destruct (ES s Hs) as (A & B & C & _).
    split; [assumption|]. split; [assumption|]. apply Hocc. auto. }
  assert (EForm : forall k e, build_encoded eq_subs !! k = Some e -> k <> 0%nat /\ exists y, y <> 0%nat /\ e = AlgebraModel.Signal y /\ (y < N)%nat).
  { intros k e He. destruct (build_encoded_lookup _ _ _ He) as (s & Hs & <- & ->). split; [apply (ES s Hs)|].
    destruct (EREN s Hs) as (y & E & sg & _ & [Hy _] & Hsub). assert (Hy0 : sigs_of (sm_equalities sm) y) by (apply Hsub; assumption).
    assert (y <> 0%nat) by (destruct Hy0 as (c & _ & Q); eapply in_c_nz; exact Q).
    exists y. split; [assumption|]. split; [|apply Hocc; auto]. rewrite E. cbn [s_to]. apply hashmap_rename. assumption. }
  destruct (rewrite_list_spec p (build_encoded eq_subs) o 0 (sm_linear sm) Hp0 EGood Ho) as (lin1 & -> & RL1).
  { eapply Forall_impl; [exact HLi|]. intros c. apply lin_ok_canon. }
  cbn [res_bind].
  destruct (rewrite_list_spec p (build_encoded eq_subs) o 1 (sm_cons_equalities sm) Hp0 EGood Ho) as (ce1 & -> & RC1).
  { eapply Forall_impl; [exact HCe|]. intros c (A & _). exact A. }
  cbn [res_bind].
  assert (HCe' : Forall (const_ok p) (sm_cons_equalities sm)).
  { eapply Forall_impl; [exact HCe|]. intros c (A & B & C). apply is_constant_equality_spec; assumption. }
  assert (HCe1 : Forall (const_ok p) ce1).
  { assert (EF' : forall k e, build_encoded eq_subs !! k = Some e -> k <> 0%nat /\ exists y, y <> 0%nat /\ e = AlgebraModel.Signal y).
    { intros k e He. destruct (EForm k e He) as (A & y & B & C & _). eauto. }
    clear - RC1 HCe' EF' Hp. induction RC1 as [|c c' l l' (Q1 & Q2 & Q3) _ IH]; [constructor|]. apply Forall_cons in HCe'. destruct HCe' as [Hc Hl].
    constructor; [|apply IH; assumption]. eapply const_ok_rename; [exact Hp|exact EF'|exact Hc|exact Q2|apply Q3; apply Hc]. }
  assert (HL1 : Forall (lin_ok p) lin1) by (eapply rewritten_lin; [exact RL1|assumption]).
  assert (S1 : forall l l' (Q : constraint -> constraint -> Prop) k,
     Forall2 (fun c c' => canon_c p c' /\ rewritten p (build_encoded eq_subs) c c' /\ Q c c') l l' -> (forall k, sigs_of l k -> (k < N)%nat) ->
     sigs_of l' k -> k ∉ froms eq_subs /\ (k < N)%nat).
  { intros l l' Q k HR Hl Hk. destruct (rewritten_sigs _ _ _ _ _ _ HR Hk) as [Hn Hw]. split; [apply build_encoded_none; assumption|].
    destruct Hw as [Hw|(x & e & _ & He & Hek)]; [auto|]. destruct (EForm x e He) as (_ & y & _ & -> & Hy). cbn in Hek. congruence. }
  assert (SL1 : forall k, sigs_of lin1 k -> k ∉ froms eq_subs /\ (k < N)%nat).
  { intros k. eapply S1; [exact RL1|]. intros j Hj. apply Hocc. auto. }
  assert (SC1 : forall k, sigs_of ce1 k -> k ∉ froms eq_subs /\ (k < N)%nat).
  { intros k. eapply S1; [exact RC1|]. intros j Hj. apply Hocc. auto. }
  (* constants *)
  destruct (constant_eq_spec p forb ce1 Hp HCe1) as (ct_subs & ct_cons & -> & CE & CS & CK & CT). cbn [res_bind].
  assert (CFroms : forall k, k ∈ froms ct_subs -> k ∉ forb /\ k <> 0%nat /\ (k < N)%nat /\ k ∉ froms eq_subs).
  { intros k Hk. apply elem_of_list_fmap in Hk. destruct Hk as (s & -> & Hs). destruct (CS s Hs) as (A & B & C & _).
    destruct (SC1 _ C). auto. }
  assert (CSO : subs_ok ct_subs).
  { intros s Hs. destruct (CS s Hs) as (A & _ & _ & _ & _ & K). split; [assumption|]. intros j Hj. left. apply K. assumption. }
  pose proof (build_encoded_good ct_subs CSO) as CGood.
  assert (CForm : forall k e j, build_encoded ct_subs !! k = Some e -> ekey j e -> j = 0%nat).
  { intros k e j He Hj. destruct (build_encoded_lookup _ _ _ He) as (s & Hs & <- & ->). destruct (CS s Hs) as (_ & _ & _ & _ & _ & K).
    eapply hashmap_const; eassumption. }
  destruct (rewrite_list_spec p (build_encoded ct_subs) o 2 lin1 Hp0 CGood Ho) as (lin2 & -> & RL2).
  { eapply Forall_impl; [exact HL1|]. intros c. apply lin_ok_canon. }
  cbn [res_bind].
  assert (HL2 : Forall (lin_ok p) lin2) by (eapply rewritten_lin; [exact RL2|assumption]).
  assert (SL2 : forall k, sigs_of lin2 k -> k ∉ froms eq_subs /\ k ∉ froms ct_subs /\ (k < N)%nat).
  { intros k Hk. destruct (rewritten_sigs _ _ _ _ _ _ RL2 Hk) as [Hn Hw]. apply build_encoded_none in Hn.
    destruct Hw as [Hw|(x & e & _ & He & Hek)].
    - destruct (SL1 k Hw). auto.
    - apply (CForm x e k He) in Hek. subst k. destruct Hk as (c & _ & Q). destruct (in_c_0 c Q). }
  set (rel0 := build_relevant_set (sm_non_linear sm) ∅ ∅).
  set (single := remove_not_relevant (build_encoded eq_subs) rel0).
  set (rel1 := build_relevant_set (sm_non_linear sm) single (build_encoded ct_subs)).
  assert (HR0 : forall c k, c ∈ sm_non_linear sm -> in_c k c -> k ∈ rel0).
  { intros c k Hc Hk. apply build_relevant_spec. exists c, k. split; [assumption|]. split; [assumption|].
    unfold unwrapped_signal. rewrite lookup_empty. auto. }
  (* signals of the non-linear constraints after the first two frames *)
  assert (Hfr2 : forall c k, c ∈ sm_non_linear sm -> k <> 0%nat ->
     reach [single; build_encoded ct_subs] (fun k => in_c k c) k -> k ∉ froms eq_subs /\ k ∉ froms ct_subs /\ (k < N)%nat /\ k ∈ rel1).
  { intros c k Hc Hk0 HR. cbn [reach] in HR. destruct HR as (_ & Hn & [HR|(x & e & _ & He & Hek)]); [|exfalso; apply Hk0; eapply CForm; eassumption].
    destruct HR as (_ & Hs & HR). pose proof (proj1 (build_encoded_none _ _) Hn) as Hct.
    destruct HR as [HR|(x & e & Hx & He & Hek)].
    - assert (Hin : k ∈ rel0) by (eapply HR0; eassumption). unfold single in Hs. rewrite remove_not_relevant_lookup in Hs by assumption.
      split; [apply build_encoded_none; assumption|]. split; [assumption|]. split; [apply Hocc; right; right; right; exists c; auto|].
      apply build_relevant_spec. exists c, k. split; [assumption|]. split; [assumption|]. split; [|assumption].
      unfold unwrapped_signal, single. rewrite remove_not_relevant_lookup, Hs by assumption. reflexivity.
    - assert (He' : build_encoded eq_subs !! x = Some e) by (eapply lookup_weaken; [exact He|apply remove_not_relevant_sub]).
      destruct (EForm x e He') as (_ & y & Hy0 & -> & HyN). cbn in Hek. subst y.
      destruct (EGood x _ He') as (_ & _ & HK). destruct (HK k eq_refl) as [|Hnn]; [contradiction|].
      split; [apply build_encoded_none; assumption|]. split; [assumption|]. split; [assumption|].
      apply build_relevant_spec. exists c, x. split; [assumption|]. split; [assumption|]. split; [|assumption].
      unfold unwrapped_signal. rewrite He. reflexivity. }
  assert (Hsingle : enc_good single) by (eapply enc_good_sub; [apply remove_not_relevant_sub|assumption]).
  assert (HEC : forall ρ, satisfies p ρ (original sm) <->
     Forall (sub_holds p ρ) eq_subs /\ Forall (sub_holds p ρ) ct_subs /\ Forall (holds p ρ) (eq_cons ++ ct_cons) /\
     Forall (holds p ρ) lin2 /\ Forall (holds p ρ) (sm_non_linear sm)).
  { intros ρ. unfold satisfies, original. rewrite !Forall_app, EE.
    assert (A : Forall (sub_holds p ρ) eq_subs -> (Forall (holds p ρ) (sm_cons_equalities sm) <-> Forall (holds p ρ) ct_cons /\ Forall (sub_holds p ρ) ct_subs)).
    { intros Q. rewrite <- CE. symmetry. eapply rewritten_all; [exact RC1|]. apply build_encoded_holds. assumption. }
    assert (B : Forall (sub_holds p ρ) eq_subs -> Forall (sub_holds p ρ) ct_subs -> (Forall (holds p ρ) (sm_linear sm) <-> Forall (holds p ρ) lin2)).
    { intros Q1 Q2.
      transitivity (Forall (holds p ρ) lin1).
      - symmetry. eapply rewritten_all; [exact RL1|]. apply build_encoded_holds. assumption.
      - symmetry. eapply rewritten_all; [exact RL2|]. apply build_encoded_holds. assumption. }
    tauto. }
  assert (Hcons : forall k, sigs_of (eq_cons ++ ct_cons) k -> k ∈ forb /\ (k < N)%nat).
  { intros k Hk. apply sigs_of_app in Hk. destruct Hk as [(c & Hc & Hk)|(c & Hc & Hk)].
    - destruct (ER c Hc) as [_ Q]. destruct (Q k Hk) as [Q1 Q2]. split; [assumption|]. apply Hocc. auto.
    - destruct (CK c Hc) as (_ & Q1 & Q2). split; [apply Q2; assumption|]. apply SC1. exists c. auto. }
  assert (HconsC : Forall (canon_c p) (eq_cons ++ ct_cons)).
  { apply Forall_app. split; apply Forall_forall; intros c Hc; [apply (ER c Hc)|]. destruct (CK c Hc) as (Q & _). apply lin_ok_canon. assumption. }
  (* the state before the rounds *)
  set (G := exists ρ, satisfies p ρ (sm_equalities sm ++ sm_cons_equalities sm)).
  assert (LogEC : log_ok (eq_subs ++ ct_subs)).
  { apply log_ok_app.
    - rewrite <- (app_nil_l eq_subs). apply log_ok_app; [apply log_ok_nil|]. intros s Hs j Hj. split; [intros Q; inversion Q|].
      destruct (ES s Hs) as (_ & _ & _ & _ & K). destruct (K j Hj) as [->|[_ ?]]; [|assumption]. intros Q. apply EFroms in Q. tauto.
    - intros s Hs j Hj. destruct (CS s Hs) as (_ & _ & _ & _ & _ & K). rewrite (K j Hj).
      split; intros Q; [apply EFroms in Q|apply CFroms in Q]; tauto. }
  assert (FunEC : G -> functional (eq_subs ++ ct_subs)).
  { intros [ρ Hρ]. apply Forall_app in Hρ. destruct Hρ as [Q1 Q2]. apply functional_app.
    - apply functional_nodup. assumption.
    - apply EE in Q1. destruct Q1 as [_ Q1]. unfold functional. eapply const_subs_functional; [exact Hp|exact CS|].
      apply (CE ρ). eapply rewritten_all; [exact RC1|apply build_encoded_holds; assumption|assumption].
    - intros k Hk1 Hk2. apply CFroms in Hk2. tauto. }
  assert (FromEC : forall s, s ∈ eq_subs ++ ct_subs -> s_from s <> 0%nat /\ s_from s ∉ forb /\ (s_from s < N)%nat /\ canon p (s_to s) /\
     forall j, is_Some (s_to s !! j) -> j = 0%nat \/ (j < N)%nat).
  { intros s Hs. apply elem_of_app in Hs. destruct Hs as [Hs|Hs].
    - destruct (ES s Hs) as (A & B & C & D & K). split; [assumption|]. split; [assumption|]. split; [apply Hocc; auto|]. split; [assumption|].
      intros j Hj. destruct (K j Hj) as [|[Q _]]; [auto|]. right. apply Hocc. auto.
    - destruct (CS s Hs) as (A & B & C & D & _ & K). split; [assumption|]. split; [assumption|]. split; [apply SC1; assumption|]. split; [assumption|].
      intros j Hj. left. apply K. assumption. }
  match goal with |- exists r, res_bind ?X _ = _ /\ _ => set (mid := X) end.
  assert (Hmid : exists lin_subs lin_enc lconst, mid = Ok (lin_subs, lin_enc, lconst) /\ enc_good lin_enc /\
     (forall ρ, Forall (sub_holds p ρ) lin_subs -> enc_holds p ρ lin_enc) /\
     (forall ρ, Forall (holds p ρ) (eq_cons ++ ct_cons) /\ Forall (holds p ρ) lin2 <-> Forall (holds p ρ) lconst /\ Forall (sub_holds p ρ) lin_subs) /\
     Forall (canon_c p) lconst /\ NoDup (froms lin_subs) /\
     (forall s, s ∈ lin_subs -> s_from s ∉ forb /\ s_from s <> 0%nat /\ sigs_of lin2 (s_from s) /\ canon p (s_to s) /\
        forall j, is_Some (s_to s !! j) -> j = 0%nat \/ (sigs_of lin2 j /\ j ∉ froms lin_subs)) /\
     (forall k, sigs_of lconst k -> k ∉ froms (eq_subs ++ ct_subs ++ lin_subs) /\ (k < N)%nat /\ (sm_flag_s sm = false -> k ∈ forb)) /\
     (forall c k, c ∈ sm_non_linear sm -> k <> 0%nat -> reach [single; build_encoded ct_subs; lin_enc] (fun k => in_c k c) k ->
        k ∉ froms (eq_subs ++ ct_subs ++ lin_subs) /\ (k < N)%nat)).
  { unfold mid. destruct (sm_flag_s sm) eqn:Es; cbn [negb].
    - exists [], ∅, ((eq_cons ++ ct_cons) ++ lin2). split; [reflexivity|]. split; [intros k e Q; rewrite lookup_empty in Q; discriminate|].
      split; [intros ρ _ k e Q; rewrite lookup_empty in Q; discriminate|].
      split; [intros ρ; rewrite (Forall_app _ (eq_cons ++ ct_cons) lin2), Forall_nil; tauto|].
      split; [apply Forall_app; split; [assumption|eapply Forall_impl; [exact HL2|intros c; apply lin_ok_canon]]|].
      split; [apply NoDup_nil; exact I|]. split; [intros s Q; inversion Q|]. split.
      + intros k Hk. rewrite app_nil_r, fmap_app, not_elem_of_app. apply sigs_of_app in Hk. destruct Hk as [Hk|Hk].
        * destruct (Hcons k Hk) as [A B]. split; [|split; [assumption|discriminate]].
          split; intros Q; [apply EFroms in Q|apply CFroms in Q]; tauto.
        * destruct (SL2 k Hk) as (A & B & C). split; [auto|]. split; [assumption|discriminate].
      + intros c k Hc Hk HR. rewrite app_nil_r, fmap_app, not_elem_of_app.
        change (reach [∅] (fun k => reach [single; build_encoded ct_subs] (fun k => in_c k c) k) k) in HR. cbn [reach] in HR.
        destruct HR as (_ & _ & [HR|(x & e & _ & Q & _)]); [|rewrite lookup_empty in Q; discriminate].
        destruct (Hfr2 c k Hc Hk HR) as (A & B & C & D). auto.
    - destruct (linear_simplification_spec p forb o 1 fuel lin2 N (sm_flag_old_heuristics sm) Hp H0 Ho HL2) as (subs & kept & -> & LPO & LK).
      { intros k Hk. apply SL2. assumption. }
      { assumption. }
      cbn [res_bind]. pose proof (part_ok_subs_ok _ _ _ _ _ _ LPO) as LSO. destruct LPO as [LE LN LS LR].
      fold rel0 single rel1. set (only := filter (fun s => s_from s ∈ rel1) subs).
      assert (Honly : forall s, s ∈ only <-> s ∈ subs /\ s_from s ∈ rel1).
      { intros s. unfold only. rewrite elem_of_list_filter. tauto. }
      assert (Hof : forall k, k ∈ froms only <-> k ∈ froms subs /\ k ∈ rel1).
      { intros k. rewrite !elem_of_list_fmap. split.
        - intros (s & -> & Hs). apply Honly in Hs. destruct Hs. split; [eauto|assumption].
        - intros ((s & -> & Hs) & Hk). exists s. rewrite Honly. auto. }
      assert (OSO : subs_ok only).
      { intros s Hs. apply Honly in Hs. destruct Hs as [Hs _]. destruct (LSO s Hs) as [A B]. split; [assumption|].
        intros j Hj. destruct (B j Hj); [auto|]. right. rewrite Hof. tauto. }
      pose proof (build_encoded_good only OSO) as OGood.
      destruct (rewrite_list_spec p (build_encoded only) o 3 ((eq_cons ++ ct_cons) ++ kept) Hp0 OGood Ho) as (lc & -> & RLC).
      { apply Forall_app. split; [assumption|]. eapply Forall_impl; [exact LK|]. intros c. apply lin_ok_canon. }
      cbn [res_bind]. exists subs, (build_encoded only), lc. split; [reflexivity|]. split; [assumption|].
      assert (OH : forall ρ, Forall (sub_holds p ρ) subs -> enc_holds p ρ (build_encoded only)).
      { intros ρ Hρ. apply build_encoded_holds. apply Forall_forall. intros s Hs. apply Honly in Hs. apply (proj1 (Forall_forall _ _) Hρ). tauto. }
      split; [assumption|]. split; [|split; [|split; [|split; [|split]]]].
      + intros ρ. rewrite (LE ρ). pose proof (fun Q => rewritten_all p _ ρ _ _ _ RLC (OH ρ Q)) as Q. rewrite Forall_app in Q. tauto.
      + eapply rewritten_canon. exact RLC.
      + assumption.
      + assumption.
      + intros k Hk. destruct (rewritten_sigs _ _ _ _ _ _ RLC Hk) as [_ Hw].
        assert (Hfb : forall j, sigs_of ((eq_cons ++ ct_cons) ++ kept) j -> j ∈ forb /\ (j < N)%nat).
        { intros j Hj. apply sigs_of_app in Hj. destruct Hj as [Hj|(c & Hc & Hj)]; [apply Hcons; assumption|].
          destruct (LR c Hc) as [_ Q]. destruct (Q j Hj) as [Q1 Q2]. split; [assumption|]. apply SL2. assumption. }
        destruct Hw as [Hw|(x & e & Hx & He & _)].
        * destruct (Hfb k Hw) as [A B]. rewrite !fmap_app, !not_elem_of_app. split; [|auto]. split_and!; intros Q.
          -- apply EFroms in Q. tauto.
          -- apply CFroms in Q. tauto.
          -- apply elem_of_list_fmap in Q. destruct Q as (s & -> & Hs). destruct (LS s Hs). contradiction.
        * exfalso. destruct (build_encoded_lookup _ _ _ He) as (s & Hs & <- & _). apply Honly in Hs. destruct Hs as [Hs _].
          destruct (LS s Hs) as [Q _]. apply Q, Hfb. assumption.
      + intros c k Hc Hk HR. rewrite !fmap_app, !not_elem_of_app.
        change (reach [build_encoded only] (fun k => reach [single; build_encoded ct_subs] (fun k => in_c k c) k) k) in HR. cbn [reach] in HR.
        destruct HR as (_ & Hn & HR). apply build_encoded_none in Hn.
        destruct HR as [HR|(x & e & _ & He & Hek)].
        * destruct (Hfr2 c k Hc Hk HR) as (A & B & C & D). split_and!; try assumption. intros Q. apply Hn, Hof. auto.
        * destruct (build_encoded_lookup _ _ _ He) as (s & Hs & <- & ->). apply Honly in Hs. destruct Hs as [Hs _].
          destruct (hashmap_into_arith_spec (s_to s)) as (_ & _ & _ & HK). destruct (HK k Hek) as [|Hks]; [contradiction|].
          destruct (LS s Hs) as (_ & _ & _ & _ & Q). destruct (Q k Hks) as [|[Q1 Q2]]; [contradiction|].
          destruct (SL2 k Q1) as (A & B & C). auto. }
  destruct Hmid as (lin_subs & lin_enc & lconst & -> & LGood & LHolds & LE & LCan & LN & LS & LSig & LReach). cbn [res_bind].
  (* non-linear constraints *)
  assert (HFr : Forall enc_good [single; build_encoded ct_subs; lin_enc]).
  { apply Forall_cons_2; [assumption|]. apply Forall_cons_2; [assumption|]. apply Forall_cons_2; [assumption|]. apply Forall_nil_2. }
  destruct (obtain_non_linear_spec p o 4 _ Hp0 Ho HFr (sm_non_linear sm) 0 HNl) as (nlin & storage & -> & NL & NG & NE & NS).
  cbn [res_bind].
  match goal with |- exists r, res_bind (if negb _ then rounds _ _ _ _ _ ?X else _) _ = _ /\ _ => set (st0 := X) end.
  assert (LFroms : forall k, k ∈ froms lin_subs -> k ∉ forb /\ k <> 0%nat /\ (k < N)%nat /\ k ∉ froms eq_subs /\ k ∉ froms ct_subs).
  { intros k Hk. apply elem_of_list_fmap in Hk. destruct Hk as (s & -> & Hs). destruct (LS s Hs) as (A & B & C & _). apply SL2 in C. tauto. }
  destruct (build_map_spec storage) as [Cov Bnd].
  assert (RI : rinv p forb N (original sm) G st0).
  { split; cbn [st0 rs_linear rs_lconst rs_storage rs_map rs_deleted rs_log].
    - intros ρ. fold (satisfies p ρ (original sm)). rewrite HEC, !Forall_app. specialize (LE ρ). rewrite Forall_app in LE.
      assert (Q : Forall (sub_holds p ρ) eq_subs -> Forall (sub_holds p ρ) ct_subs -> Forall (sub_holds p ρ) lin_subs ->
         (Forall (holds p ρ) (sm_non_linear sm) <-> Forall (holds p ρ) nlin /\ Forall (holds p ρ) storage)).
      { intros Q1 Q2 Q3. apply NE. apply Forall_cons_2; [|apply Forall_cons_2; [|apply Forall_cons_2; [|apply Forall_nil_2]]].
        - eapply enc_holds_sub; [apply remove_not_relevant_sub|]. apply build_encoded_holds. assumption.
        - apply build_encoded_holds. assumption.
        - apply LHolds. assumption. }
      tauto.
    - assumption.
    - assumption.
    - assumption.
    - intros k. rewrite !fmap_app, !elem_of_app, !elem_of_union, elem_of_list_to_set, !elem_of_dom, !build_encoded_dom. tauto.
    - intros k Hk. assert (Q : sigs_of lconst k \/ (sigs_of nlin k \/ sigs_of storage k)) by tauto. destruct Q as [Q|Q].
      + destruct (LSig k Q) as (A & B & _). auto.
      + assert (k <> 0%nat) by (destruct Q as [(c & _ & Q)|(c & _ & Q)]; eapply in_c_nz; exact Q).
        destruct (NS k Q) as (c & Hc & HR). eapply LReach; eassumption.
    - assumption.
    - assumption.
    - rewrite app_assoc. apply log_ok_app; [assumption|]. intros s Hs j Hj. destruct (LS s Hs) as (_ & _ & _ & _ & K).
      rewrite fmap_app, not_elem_of_app. destruct (K j Hj) as [->|[Q1 Q2]].
      + split_and!; intros Q; [apply EFroms in Q|apply CFroms in Q|apply LFroms in Q]; tauto.
      + apply SL2 in Q1. tauto.
    - intros HG. rewrite app_assoc. apply functional_app; [apply FunEC; assumption|apply functional_nodup; assumption|].
      intros k Hk1 Hk2. apply LFroms in Hk2. rewrite fmap_app, elem_of_app in Hk1. tauto.
    - intros s Hs. rewrite app_assoc in Hs. apply elem_of_app in Hs. destruct Hs as [Hs|Hs]; [apply FromEC; assumption|].
      destruct (LS s Hs) as (A & B & C & D & K). split; [assumption|]. split; [assumption|]. split; [apply SL2 in C; tauto|]. split; [assumption|].
      intros j Hj. destruct (K j Hj) as [|[Q _]]; [auto|]. apply SL2 in Q. tauto. }
  assert (HRounds : exists st, (if negb (sm_flag_s sm) then rounds (pred (sm_no_rounds sm)) fuel o 2 sm st0 else Ok st0) = Ok st /\ rinv p forb N (original sm) G st).
  { destruct (sm_flag_s sm) eqn:Es; cbn [negb]; [eauto|]. apply rounds_spec; try assumption.
    intros k Hk. apply LSig; [exact Hk|reflexivity]. }
  destruct HRounds as (st & -> & RI'). cbn [res_bind]. clear RI. clearbody st0.
  destruct (res_imap_spec (fun _ c => fix_constraint c p) (fun c c' => good p c' /\ (forall ρ, holds p ρ c' <-> holds p ρ c) /\ (forall k, in_c k c' -> in_c k c))
    (rs_lconst st) 0) as (lconst' & -> & HLC).
  { intros _ c Hc. destruct (fix_constraint_sound p c Hp0) as (c' & E & A & B & C & D).
    - apply (proj1 (Forall_forall _ _) (ri_lconst _ _ _ _ _ _ RI') c Hc).
    - exists c'. split; [assumption|]. split; [split; assumption|]. auto. }
  cbn [res_bind].
  destruct (foldl add_to_storage (rs_storage st, rs_map st) (rs_linear st ++ lconst')) as [final m] eqn:Efin.
  destruct (add_to_storage_spec _ _ _ _ _ (ri_covers _ _ _ _ _ _ RI') Efin) as [-> CovF].
  set (final := rs_storage st ++ rs_linear st ++ lconst') in *.
  assert (HGf : Forall (good p) final).
  { apply Forall_app. split; [apply RI'|]. apply Forall_app. split.
    - eapply Forall_impl; [exact (ri_linear _ _ _ _ _ _ RI')|]. intros c. apply lin_ok_good.
    - clear - HLC. induction HLC as [|c c' l l' (Q & _) _ IH]; constructor; assumption. }
  assert (HLs : forall k, sigs_of lconst' k -> sigs_of (rs_lconst st) k).
  { intros k (c' & Hc' & Hk). apply elem_of_list_lookup in Hc'. destruct Hc' as [i Hi].
    destruct (Forall2_lookup_r _ _ _ _ _ HLC Hi) as (c & Hc & _ & _ & Q). exists c. split; [eapply elem_of_list_lookup_2; exact Hc|auto]. }
  assert (HSf : forall k, sigs_of final k -> k ∉ froms (rs_log st) /\ (k < N)%nat /\ k ∈ dom m).
  { intros k Hk. enough (Q : (k ∉ froms (rs_log st) /\ (k < N)%nat) /\ k ∈ dom m) by tauto. split.
    - apply (ri_clean _ _ _ _ _ _ RI'). unfold final in Hk. rewrite !sigs_of_app in Hk. destruct Hk as [|[|Hk]]; auto.
    - destruct Hk as (c & Hc & Hk). apply elem_of_list_lookup in Hc. destruct Hc as [i Hi]. eapply mem_dom. eapply CovF; eassumption. }
  set (w := rebuild_witness N (rs_deleted st) forb (dom m) true).
  destruct (rebuild_witness_spec (rs_deleted st) forb (dom m) N w eq_refl) as (_ & WD & WM).
  assert (HMap : forall k, is_Some (w_map w !! k) <-> keeps (rs_deleted st) forb (dom m) k /\ (k < N)%nat).
  { intros k. split.
    - intros [v Hv]. apply WM in Hv. tauto.
    - intros Q. exists (length (kept_upto (rs_deleted st) forb (dom m) k)). apply WM. auto. }
  assert (Hdf : forall k, k ∈ w_deleted w -> k ∉ forb).
  { intros k Hk Hf. apply WD in Hk. destruct Hk as [Hk|[_ Hk]].
    - apply (ri_deleted _ _ _ _ _ _ RI') in Hk. apply elem_of_list_fmap in Hk. destruct Hk as (s & -> & Hs).
      apply (ri_froms _ _ _ _ _ _ RI') in Hs. tauto.
    - apply Hk. split; [|auto]. intros Q. apply (ri_deleted _ _ _ _ _ _ RI') in Q. apply elem_of_list_fmap in Q. destruct Q as (s & -> & Hs).
      apply (ri_froms _ _ _ _ _ _ RI') in Hs. tauto. }
  assert (Hd : (deleted_inputs sm (w_deleted w) <= sm_no_private_inputs sm)%nat).
  { unfold deleted_inputs.
    transitivity (size (list_to_set (seq (S (sm_no_public_outputs sm + sm_no_public_inputs sm)) (sm_no_private_inputs sm)) : gset nat)).
    - apply subseteq_size. intros k Hk. apply elem_of_filter in Hk. destruct Hk as [[A B] C]. apply Hdf in C.
      apply elem_of_list_to_set, elem_of_seq. destruct (decide (k <= sm_no_public_outputs sm + sm_no_public_inputs sm)%nat) as [Q|Q]; [|lia].
      exfalso. apply C, Hpub. lia.
    - rewrite size_list_to_set by apply NoDup_seq. rewrite seq_length. lia. }
  rewrite (proj2 (Nat.leb_le _ _) Hd). eexists. split; [reflexivity|].
  assert (Hfe : forall ρ, Forall (holds p ρ) (filter (fun c => negb (is_empty c)) final) <-> Forall (holds p ρ) final).
  { intros ρ. clear. induction final as [|c cs IH]; [reflexivity|]. rewrite filter_cons. destruct (is_empty c) eqn:Ec; cbn [negb].
    - destruct (decide (Is_true false)) as [[]|_]. rewrite IH, Forall_cons. split; [|tauto]. intros Q. split; [|assumption].
      unfold is_empty in Ec. rewrite !andb_true_iff, !is_empty_map_true in Ec. destruct c as [a b c]. cbn in Ec.
      destruct Ec as [[-> ->] ->]. apply holds_empty.
    - destruct (decide (Is_true true)) as [_|Q]; [|exfalso; apply Q; exact I]. rewrite !Forall_cons, IH. reflexivity. }
  split; cbn [r_constraints r_map r_no_private r_deleted r_log]; fold p forb N.
  - intros ρ. unfold satisfies. rewrite (ri_equiv _ _ _ _ _ _ RI' ρ), Hfe. unfold final. rewrite !Forall_app.
    assert (EL : Forall (holds p ρ) lconst' <-> Forall (holds p ρ) (rs_lconst st)).
    { clear - HLC. induction HLC as [|c c' l l' (_ & Q & _) _ IH]; [rewrite !Forall_nil; tauto|]. rewrite !Forall_cons, IH, Q. tauto. }
    rewrite EL. tauto.
  - intros c Hc. apply elem_of_list_filter in Hc. destruct Hc as [Q Hc]. split; [apply (proj1 (Forall_forall _ _) HGf c Hc)|].
    intros ->. cbn in Q. exact Q.
  - apply RI'.
  - apply RI'.
  - apply RI'.
  - intros k. rewrite WD, <- (ri_deleted _ _ _ _ _ _ RI'), eq_None_not_Some, HMap. fold w.
    split; [intros [|[A B]]; [auto|right; tauto]|intros [|[A B]]; [auto|right; tauto]].
  - intros k (c & Hc & Hk). apply elem_of_list_filter in Hc. destruct Hc as [_ Hc].
    destruct (HSf k) as (A & B & C); [exists c; auto|]. split; [assumption|]. apply HMap. split; [|assumption]. split; [|auto].
    intros Q. apply (ri_deleted _ _ _ _ _ _ RI') in Q. contradiction.
  - exists (rs_deleted st), (dom m). split; [apply RI'|]. exact WM.
  - lia.
Qed.

Lemma kept_upto_mono deleted forb used a b : (a <= b)%nat -> (length (kept_upto deleted forb used a) <= length (kept_upto deleted forb used b))%nat.
Proof.
  induction 1 as [|b _ IH]; [lia|]. rewrite kept_upto_S, app_length. lia.
Qed.
Lemma renumber_facts deleted forb used n (m : gmap nat nat) :
  (forall k v, m !! k = Some v <-> (keeps deleted forb used k /\ (k < n)%nat) /\ v = length (kept_upto deleted forb used k)) ->
  (forall k, is_Some (m !! k) <-> (k < n)%nat /\ k ∉ deleted /\ (k ∈ forb \/ k ∈ used)) /\
  (forall k k' v v', m !! k = Some v -> m !! k' = Some v' -> ((k < k')%nat <-> (v < v')%nat)) /\
  (forall v, (v < size m)%nat <-> exists k, m !! k = Some v).
Proof.
  intros WM. set (K := kept_upto deleted forb used).
  assert (Hinc : forall k k', keeps deleted forb used k -> (k < k')%nat -> (length (K k) < length (K k'))%nat).
  { intros k k' Hk Hlt. pose proof (kept_upto_mono deleted forb used (S k) k' Hlt) as Q. fold K in Q.
    unfold K in Q at 1. rewrite kept_upto_S, decide_True, app_length in Q by assumption. cbn in Q. fold K in Q. lia. }
  split; [|split].
  - intros k. split.
    + intros [v Hv]. apply WM in Hv. destruct Hv as [[[A B] C] _]. auto.
    + intros (A & B & C). eexists. apply WM. split; [|reflexivity]. split; [split; assumption|assumption].
  - intros k k' v v' Hv Hv'. apply WM in Hv, Hv'. destruct Hv as [[Hk Hn] ->], Hv' as [[Hk' Hn'] ->]. fold K. split; [apply Hinc; assumption|].
    intros Hlt. destruct (decide (k < k')%nat); [assumption|exfalso]. destruct (decide (k = k')) as [->|]; [lia|].
    assert (k' < k)%nat as Q by lia. apply (Hinc _ _ Hk') in Q. lia.
  - assert (HP : dom m = list_to_set (K n)).
    { apply set_eq. intros k. rewrite elem_of_dom, elem_of_list_to_set. unfold K. rewrite kept_upto_in. split.
      - intros [v Hv]. apply WM in Hv. tauto.
      - intros Q. eexists. apply WM. split; [exact Q|reflexivity]. }
    assert (HS : size m = length (K n)).
    { rewrite <- size_dom, HP, size_list_to_set; [reflexivity|]. apply NoDup_filter, NoDup_seq. }
    rewrite HS. intros v. split.
    + clear HP HS. assert (G : forall j, (j <= n)%nat -> (v < length (K j))%nat -> exists k, m !! k = Some v).
      { induction j as [|j IH]; intros Hj Hv; [cbn in Hv; lia|]. unfold K in Hv. rewrite kept_upto_S, app_length in Hv. fold K in Hv.
        destruct (decide (v < length (K j))%nat) as [Q|Q]; [apply IH; [lia|assumption]|].
        destruct (decide (keeps deleted forb used j)) as [Hk|Hk]; cbn in Hv; [|lia].
        exists j. apply WM. split; [split; [assumption|lia]|]. fold K. lia. }
      intros Hv. apply (G n); [lia|assumption].
    + intros [k Hk]. apply WM in Hk. destruct Hk as [[Hk Hn] ->]. apply Hinc; assumption.
Qed.
