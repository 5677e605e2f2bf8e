(** Proofs about the equality, constant and linear phases of PipelineModel. *)
From stdpp Require Import prelude gmap fin_maps sorting relations.
From Coq Require Import ZArith Lia Znumtheory.
From Verif Require Import ModArithModel ModArithProofs AlgebraModel AlgebraSpec AlgebraProofs LinearSimpModel LinearSpec LinearSimpProofs
  ClusterModel ClusterSpec ClusterProofs PipelineModel PipelineSpec.
Open Scope Z_scope.

(** ** mapping with panics *)
Lemma res_imap_spec {A B} (f : nat -> A -> res B) (R : A -> B -> Prop) : forall l k,
  (forall i a, a ∈ l -> exists b, f i a = Ok b /\ R a b) ->
  exists bs, res_imap f k l = Ok bs /\ Forall2 R l bs.
Proof.
  induction l as [|a l IH]; intros k H; [exists []; split; [reflexivity|constructor]|].
  destruct (H k a ltac:(left)) as (b & Hb & HR). cbn [res_imap]. rewrite Hb. cbn [res_bind].
  destruct (IH (S k)) as (bs & -> & HF); [intros; apply H; right; assumption|].
  exists (b :: bs). split; [reflexivity|]. constructor; assumption.
Qed.

(** ** signals of constraints *)
Lemma in_take_signals c s : s ∈ take_signals c <-> in_c s c.
Proof.
  unfold take_signals, keys, in_c, in_lin, cc. rewrite elem_of_difference, !elem_of_union, !elem_of_dom, elem_of_singleton.
  tauto.
Qed.
Lemma signals_ordered_perm c : signals_ordered c ≡ₚ elements (take_signals c).
Proof. apply merge_sort_Permutation. Qed.
Lemma signals_ordered_in c s : s ∈ signals_ordered c <-> in_c s c.
Proof. rewrite (signals_ordered_perm c), elem_of_elements. apply in_take_signals. Qed.
Lemma signals_ordered_sorted c : StronglySorted Nat.le (signals_ordered c).
Proof. apply StronglySorted_merge_sort; [|apply _]. intros x y. lia. Qed.
Lemma signals_ordered_NoDup c : NoDup (signals_ordered c).
Proof. rewrite (signals_ordered_perm c). apply NoDup_elements. Qed.
Lemma in_c_0 c : ~ in_c 0 c.
Proof. unfold in_c, in_lin. tauto. Qed.
Lemma lin_ok_in p c k : lin_ok p c -> in_c k c <-> k <> 0%nat /\ is_Some (c_c c !! k).
Proof.
  intros (Ea & Eb & _). unfold in_c, in_lin. rewrite Ea, Eb, !lookup_empty.
  split; [|tauto]. intros [[_ [x E]]|[[_ [x E]]|H]]; [discriminate|discriminate|assumption].
Qed.
Lemma clsigs_in cl s : clsigs cl s <-> exists c, c ∈ cl_constraints cl /\ in_c s c.
Proof. unfold clsigs. split; intros (c & Hc & Hs); exists c; (split; [assumption|]); apply in_take_signals; assumption. Qed.

(** ** one group of constraints solved into substitutions and rest *)
Record part_ok (p : Z) (forb : gset nat) (sg : nat -> Prop) (cs : list constraint)
    (subs : list substitution) (rest : list constraint) : Prop := {
  po_equiv : forall ρ, Forall (holds p ρ) cs <-> Forall (holds p ρ) rest /\ Forall (sub_holds p ρ) subs;
  po_nodup : NoDup (s_from <$> subs);
  po_subs : forall s, s ∈ subs -> s_from s ∉ forb /\ s_from s <> 0%nat /\ sg (s_from s) /\ canon p (s_to s) /\
     forall j, is_Some (s_to s !! j) -> j = 0%nat \/ (sg j /\ j ∉ (s_from <$> subs));
  po_rest : forall c, c ∈ rest -> canon_c p c /\ forall k, in_c k c -> k ∈ forb /\ sg k;
}.
Lemma part_ok_nil p forb sg : part_ok p forb sg [] [] [].
Proof.
  split.
  - intros ρ. split; [intros _; split; constructor|intros _; constructor].
  - apply NoDup_nil. exact I.
  - intros s Hs. inversion Hs.
  - intros c Hc. inversion Hc.
Qed.
Lemma part_ok_app p forb (sg sg1 sg2 : nat -> Prop) cs1 cs2 s1 s2 r1 r2 :
  part_ok p forb sg1 cs1 s1 r1 -> part_ok p forb sg2 cs2 s2 r2 -> (forall k, sg1 k -> sg2 k -> False) ->
  (forall k, sg1 k \/ sg2 k -> sg k) ->
  part_ok p forb sg (cs1 ++ cs2) (s1 ++ s2) (r1 ++ r2).
Proof.
  intros [E1 N1 S1 R1] [E2 N2 S2 R2] HD HS.
  assert (F1 : forall k, k ∈ s_from <$> s1 -> sg1 k).
  { intros k Hk. apply elem_of_list_fmap in Hk. destruct Hk as (s & -> & Hs). apply (S1 s Hs). }
  assert (F2 : forall k, k ∈ s_from <$> s2 -> sg2 k).
  { intros k Hk. apply elem_of_list_fmap in Hk. destruct Hk as (s & -> & Hs). apply (S2 s Hs). }
  split.
  - intros ρ. rewrite !Forall_app, E1, E2. tauto.
  - rewrite fmap_app. apply NoDup_app. split; [assumption|]. split; [|assumption].
    intros k H1 H2. eapply HD; eauto.
  - intros s Hs. apply elem_of_app in Hs. destruct Hs as [Hs|Hs]; [destruct (S1 s Hs) as (A & B & C & D & E)|destruct (S2 s Hs) as (A & B & C & D & E)];
      (split; [assumption|]); (split; [assumption|]); (split; [apply HS; auto|]); (split; [assumption|]);
      intros j Hj; destruct (E j Hj) as [|[Hg Hn]]; auto; right; (split; [apply HS; auto|]);
      rewrite fmap_app, elem_of_app; intros [H|H]; try contradiction.
    + apply (HD j); [assumption|]. apply F2. assumption.
    + apply (HD j); [|assumption]. apply F1. assumption.
  - intros c Hc. apply elem_of_app in Hc. destruct Hc as [Hc|Hc]; [destruct (R1 c Hc) as (A & B)|destruct (R2 c Hc) as (A & B)];
      (split; [assumption|]); intros k Hk; destruct (B k Hk); auto.
Qed.
Lemma part_ok_perm p forb sg cs cs' s s' r r' :
  cs ≡ₚ cs' -> s ≡ₚ s' -> r ≡ₚ r' -> part_ok p forb sg cs s r -> part_ok p forb sg cs' s' r'.
Proof.
  intros P1 P2 P3 [E N S R]. constructor.
  - intros ρ. rewrite <- P1, <- P2, <- P3. apply E.
  - rewrite <- P2. assumption.
  - intros x Hx. rewrite <- P2 in Hx. destruct (S x Hx) as (A & B & C & D & F). repeat (split; [assumption|]).
    intros j Hj. destruct (F j Hj) as [|[G H]]; auto. right. split; [assumption|]. rewrite <- P2. assumption.
  - intros c Hc. rewrite <- P3 in Hc. auto.
Qed.
Lemma part_ok_weaken p forb (sg sg' : nat -> Prop) cs s r :
  (forall k, sg k -> sg' k) -> part_ok p forb sg cs s r -> part_ok p forb sg' cs s r.
Proof.
  intros HS [E N S R]. split; [assumption|assumption| |].
  - intros x Hx. destruct (S x Hx) as (A & B & C & D & F). split; [assumption|]. split; [assumption|].
    split; [apply HS; assumption|]. split; [assumption|]. intros j Hj. destruct (F j Hj) as [|[G H]]; auto.
  - intros c Hc. destruct (R c Hc) as [A B]. split; [assumption|]. intros k Hk. destruct (B k Hk). auto.
Qed.
(** the clusters of [build_clusters] *)
Lemma part_ok_clusters {A} p forb (cls : list cluster) (results : list A) (sf : A -> list substitution) (rf : A -> list constraint) :
  Forall2 (fun cl r => part_ok p forb (clsigs cl) (cl_constraints cl) (sf r) (rf r)) cls results ->
  (forall i j cli clj s, cls !! i = Some cli -> cls !! j = Some clj -> clsigs cli s -> clsigs clj s -> i = j) ->
  part_ok p forb (fun s => exists cl, cl ∈ cls /\ clsigs cl s) (concat (cl_constraints <$> cls)) (concat (sf <$> results)) (concat (rf <$> results)).
Proof.
  induction 1 as [|cl r cls results HP HF IH]; intros HD; [apply part_ok_nil|]. cbn.
  eapply part_ok_app.
  - exact HP.
  - apply IH. intros i j cli clj s Hi Hj H1 H2. specialize (HD (S i) (S j) cli clj s Hi Hj H1 H2). lia.
  - cbn. intros k H1 (cl' & Hcl' & H2). apply elem_of_list_lookup in Hcl'. destruct Hcl' as [i Hi].
    specialize (HD 0%nat (S i) cl cl' k eq_refl Hi H1 H2). discriminate.
  - intros k [H|(cl' & Hcl' & H)]; [exists cl; split; [left|assumption]|exists cl'; split; [right; assumption|assumption]].
Qed.
(** results collected in another order *)
Lemma collect_perm {A B} (f : A -> list B) (results : list A) arrival :
  arrival ≡ₚ seq 0 (length results) ->
  concat ((fun id => match results !! id with Some r => f r | None => [] end) <$> arrival) ≡ₚ concat (f <$> results).
Proof.
  intros HP.
  assert (E : forall n (l : list A), (forall i, (i < length l)%nat -> results !! (n + i)%nat = l !! i) ->
     concat ((fun id => match results !! id with Some r => f r | None => [] end) <$> seq n (length l)) = concat (f <$> l)).
  { intros n l. revert n. induction l as [|a l IH]; intros n H; [reflexivity|]. cbn.
    pose proof (H 0%nat ltac:(cbn; lia)) as H0. rewrite Nat.add_0_r in H0. cbn in H0. rewrite H0. f_equal. apply IH.
    intros i Hi. replace (S n + i)%nat with (n + S i)%nat by lia. rewrite H by (cbn; lia). reflexivity. }
  rewrite <- (E 0%nat results) by reflexivity.
  clear E. induction HP as [|x l l' _ IH|x y l|l l' l'' _ IH1 _ IH2]; cbn; [reflexivity|rewrite IH; reflexivity| |etrans; eassumption].
  rewrite !app_assoc. apply Permutation_app_tail, Permutation_app_comm.
Qed.

(** ** equality constraints *)
Definition eq_ok (p : Z) (c : constraint) : Prop := canon_c p c /\ nonzero_c c /\ is_equality c p = true.
Lemma sv_nz ρ k : k <> 0%nat -> sv ρ k = ρ k.
Proof. destruct k; [contradiction|reflexivity]. Qed.
Lemma cong_refl_small p v : 0 < p -> 0 <= v < p -> v <> 0 -> ~ v =[p]= 0.
Proof. intros Hp Hv Hn E. apply Hn. apply (cong_small p); [assumption|lia|assumption]. Qed.

Lemma eq_ok_spec p c : prime p -> eq_ok p c ->
  exists x y, x <> 0%nat /\ y <> 0%nat /\ x <> y /\ (forall s, in_c s c <-> s = x \/ s = y) /\
    (forall ρ, holds p ρ c <-> sv ρ x =[p]= sv ρ y).
Proof.
  intros Hp (Hc & Hn & He). pose proof (prime_ge_2 p Hp). apply is_equality_spec in He; [|lia|assumption].
  destruct He as (Ea & Eb & x & y & vx & vy & Hx & Hy & Hxy & E & Hs).
  exists x, y. split; [assumption|]. split; [assumption|]. split; [assumption|].
  assert (H0 : c_c c !! x = Some vx) by (rewrite E; apply lookup_insert).
  assert (H1 : c_c c !! y = Some vy) by (rewrite E, lookup_insert_ne, lookup_singleton; auto).
  split.
  - intros s. unfold in_c, in_lin. rewrite Ea, Eb, !lookup_empty, E. split.
    + intros [[_ [? Q]]|[[_ [? Q]]|[_ Q]]]; try discriminate.
      destruct (decide (s = x)) as [->|H2]; [auto|]. rewrite lookup_insert_ne in Q by auto.
      destruct (decide (s = y)) as [->|H3]; [auto|]. rewrite lookup_singleton_ne in Q by auto. destruct Q; discriminate.
    + intros [->| ->]; right; right; (split; [assumption|]); rewrite <- E; eauto.
  - intros ρ. unfold holds. rewrite Ea, Eb, E, leval_empty.
    rewrite leval_insert_new by (apply lookup_singleton_ne; auto). rewrite leval_singleton.
    assert (Hvx : ~ vx =[p]= 0).
    { destruct Hc as (_ & _ & Hc). destruct Hn as (_ & _ & Hn). apply cong_refl_small; [lia|apply (Hc x); assumption|apply (Hn x); assumption]. }
    transitivity (vx * sv ρ x =[p]= vx * sv ρ y); [|apply prime_cong_cancel; assumption].
    assert (Hvy : vy =[p]= - vx).
    { transitivity ((vx + vy) - vx); [apply cong_eq; lia|]. rewrite Hs. apply cong_eq; lia. }
    rewrite <- (cong_0_sub p (vx * sv ρ x)) by lia.
    assert (HH : 0 * 0 - (vx * sv ρ x + vy * sv ρ y) =[p]= - (vx * sv ρ x - vx * sv ρ y)).
    { rewrite Hvy. apply cong_eq; lia. }
    rewrite HH. split; intros Q.
    + transitivity (- - (vx * sv ρ x - vx * sv ρ y)); [apply cong_eq; lia|]. rewrite Q. reflexivity.
    + rewrite Q. reflexivity.
Qed.

Lemma eq_keep_spec p rh s : 1 < p -> s <> 0%nat -> rh <> 0%nat ->
  exists c, eq_keep p rh s = Ok c /\ canon_c p c /\ (forall k, in_c k c -> k = s \/ k = rh) /\
    (forall ρ, holds p ρ c <-> sv ρ s =[p]= sv ρ rh).
Proof.
  intros Hp Hs Hr. unfold eq_keep.
  destruct (asub_wf_canon p (AlgebraModel.Signal s) (AlgebraModel.Signal rh)) as (e & E & We & Ce); [lia|exact I|exact I|].
  rewrite E. cbn [res_bind].
  assert (HL : lin_expr e /\ forall j, ekey j e -> j = 0%nat \/ j = s \/ j = rh).
  { unfold asub in E.
    destruct (amul_number_lin p (-1) (AlgebraModel.Signal rh) ltac:(lia) I I) as (L1 & W1 & _ & K1).
    destruct (aadd_lin p (AlgebraModel.Signal s) _ e ltac:(lia) I L1 I W1 E) as [L K]. split; [assumption|].
    intros j Hj. destruct (K j Hj) as [|[Hj'|Hj']]; [auto|cbn in Hj'; auto|]. destruct (K1 j Hj') as [|Hj'']; [auto|cbn in Hj''; auto]. }
  destruct HL as [HL HK].
  assert (Hv : forall ρ, exists v, aval ρ e = Some v /\ v =[p]= sv ρ s - sv ρ rh).
  { intros ρ. destruct (asub_sound p (AlgebraModel.Signal s) (AlgebraModel.Signal rh) ρ (sv ρ s) (sv ρ rh)) as (e' & E' & _ & _ & V); [lia|exact I|exact I|reflexivity|reflexivity|].
    rewrite E in E'. injection E' as <-.
    destruct (aval ρ e) as [v|] eqn:Ev; [exists v; auto|]. destruct e; cbn in HL, Ev; try contradiction; discriminate. }
  destruct (Hv (fun _ => 0)) as (v0 & Hv0 & _).
  destruct (to_constraint_total p e _ v0 Hv0) as [c Hc]. rewrite Hc. cbn [lift].
  exists c. split; [reflexivity|]. split; [eapply to_constraint_canon; [| |exact Hc]; [lia|apply Ce; exact I]|]. split.
  - intros k Hk. destruct (to_constraint_lin p e c ltac:(lia) HL Hc) as (Ea & Eb & Ec).
    destruct Hk as [[Hk0 Hk]|[[Hk0 Hk]|[Hk0 Hk]]].
    + rewrite Ea, keys_init_empty in Hk. contradiction.
    + rewrite Eb, keys_init_empty in Hk. contradiction.
    + destruct (Ec k Hk) as [|Hk']; [contradiction|]. destruct (HK k Hk'); [contradiction|assumption].
  - intros ρ. destruct (Hv ρ) as (v & Ev & V). rewrite (to_constraint_sound p e c ρ v ltac:(lia) Ev Hc), V.
    apply cong_0_sub. lia.
Qed.

Definition least_in (P : nat -> Prop) (o : option nat) : Prop :=
  match o with None => forall k, ~ P k | Some m => P m /\ forall k, P k -> (m <= k)%nat end.
Definition eq_scan (forb : gset nat) (seen : nat -> Prop) (st : gset nat * option nat * (gset nat * option nat)) : Prop :=
  let '((remains, mr), (remove, mm)) := st in
  (forall k, k ∈ remains <-> seen k /\ k ∈ forb) /\ (forall k, k ∈ remove <-> seen k /\ k ∉ forb) /\
  least_in (fun k => k ∈ remains) mr /\ least_in (fun k => k ∈ remove) mm.
Lemma eq_note_spec forb seen st s : eq_scan forb seen st -> eq_scan forb (fun k => seen k \/ k = s) (eq_note forb st s).
Proof.
  destruct st as [[remains mr] [remove mm]]. intros (H1 & H2 & H3 & H4). unfold eq_note.
  assert (HL : forall (X : gset nat) o, least_in (fun k => k ∈ X) o ->
     least_in (fun k => k ∈ {[ s ]} ∪ X) (Some (match o with None => s | Some m => Nat.min m s end))).
  { intros X o Ho. cbn. destruct o as [m|]; cbn in Ho.
    - destruct Ho as [Hm Hl]. split.
      + destruct (Nat.min_spec m s) as [[_ ->]|[_ ->]]; set_solver.
      + intros k Hk. apply elem_of_union in Hk. destruct Hk as [Hk|Hk]; [apply elem_of_singleton in Hk; lia|specialize (Hl k Hk); lia].
    - split; [set_solver|]. intros k Hk. apply elem_of_union in Hk. destruct Hk as [Hk|Hk]; [apply elem_of_singleton in Hk; lia|destruct (Ho k Hk)]. }
  case_bool_decide as Hs; cbn [eq_scan]; split_and!.
  - intros k. rewrite elem_of_union, elem_of_singleton, H1. split; [|tauto]. intros [->|]; tauto.
  - intros k. rewrite H2. split; [tauto|]. intros [[?| ->] ?]; [tauto|contradiction].
  - apply HL. assumption.
  - assumption.
  - intros k. rewrite H1. split; [tauto|]. intros [[?| ->] ?]; [tauto|contradiction].
  - intros k. rewrite elem_of_union, elem_of_singleton, H2. split; [|tauto]. intros [->|]; tauto.
  - assumption.
  - apply HL. assumption.
Qed.
Lemma eq_scan_ext forb seen seen' st : (forall k, seen k <-> seen' k) -> eq_scan forb seen st -> eq_scan forb seen' st.
Proof.
  destruct st as [[remains mr] [remove mm]]. intros HE (H1 & H2 & H3 & H4). cbn. split_and!; try assumption.
  - intros k. rewrite H1, HE. reflexivity.
  - intros k. rewrite H2, HE. reflexivity.
Qed.
Lemma eq_note_list forb : forall l seen st, eq_scan forb seen st ->
  eq_scan forb (fun k => seen k \/ k ∈ l) (foldl (eq_note forb) st l).
Proof.
  induction l as [|s l IH]; intros seen st H; cbn [foldl].
  - eapply eq_scan_ext; [|exact H]. intros k. split; [auto|]. intros [|Hk]; [assumption|inversion Hk].
  - eapply eq_scan_ext; [|apply IH, eq_note_spec, H]. intros k. cbn. rewrite elem_of_cons. tauto.
Qed.
Lemma eq_note_all forb : forall cs seen st, eq_scan forb seen st ->
  eq_scan forb (fun k => seen k \/ exists c, c ∈ cs /\ in_c k c) (foldl (fun st c => foldl (eq_note forb) st (signals_ordered c)) st cs).
Proof.
  induction cs as [|c cs IH]; intros seen st H; cbn [foldl].
  - eapply eq_scan_ext; [|exact H]. intros k. split; [auto|]. intros [|(c & Hc & _)]; [assumption|inversion Hc].
  - eapply eq_scan_ext; [|apply IH, eq_note_list, H]. intros k. cbn. setoid_rewrite elem_of_cons. rewrite signals_ordered_in.
    split.
    + intros [[|]|(c' & Hc' & Hk)]; eauto 6.
    + intros [|(c' & [->|Hc'] & Hk)]; eauto 6.
Qed.

(** the signal that stays: the least protected one, else the least one *)
Definition representative (forb : gset nat) (sg : nat -> Prop) (r : nat) : Prop :=
  sg r /\ ((r ∈ forb /\ forall k, sg k -> k ∈ forb -> (r <= k)%nat) \/ ((forall k, sg k -> k ∉ forb) /\ forall k, sg k -> (r <= k)%nat)).

Lemma sub_holds_rename p ρ x y : sub_holds p ρ (Substitution x {[ y := 1 ]}) <-> sv ρ x =[p]= sv ρ y.
Proof. unfold sub_holds. cbn [s_from s_to]. rewrite leval_singleton, Z.mul_1_l. reflexivity. Qed.
Lemma canon_one p y : 1 < p -> canon p {[ y := 1 ]}.
Proof. intros Hp. intros k v Hk. apply lookup_singleton_Some in Hk. destruct Hk as [<- <-]. lia. Qed.

Lemma eq_cluster_spec p forb ord cl :
  prime p -> valid_set_order ord -> cl_constraints cl <> [] -> Forall (eq_ok p) (cl_constraints cl) -> connected (cl_constraints cl) ->
  exists r, eq_cluster_simplification ord forb p cl = Ok r /\
    part_ok p forb (clsigs cl) (cl_constraints cl) r.1 r.2 /\
    (forall s, s ∈ r.1 -> exists y, s = Substitution (s_from s) {[ y := 1 ]} /\ representative forb (clsigs cl) y).
Proof.
  intros Hp Hord Hne HE Hconn. pose proof (prime_ge_2 p Hp). unfold eq_cluster_simplification.
  destruct (Nat.eqb_spec (length (cl_constraints cl)) 1) as [H1|H1].
  - destruct (cl_constraints cl) as [|c [|]] eqn:Ec; try discriminate. cbn [last].
    apply Forall_cons in HE. destruct HE as [HE _]. destruct (eq_ok_spec p c Hp HE) as (x & y & Hx & Hy & Hxy & Hin & Hh).
    assert (HP : signals_ordered c ≡ₚ [x; y]).
    { apply NoDup_Permutation; [apply signals_ordered_NoDup| |].
      - apply NoDup_cons. split; [rewrite elem_of_list_singleton; assumption|apply NoDup_singleton].
      - intros s. rewrite signals_ordered_in, Hin. rewrite elem_of_cons, elem_of_list_singleton. reflexivity. }
    pose proof (signals_ordered_sorted c) as HS.
    destruct (signals_ordered c) as [|a [|b [|]]] eqn:El; try (apply Permutation_length in HP; discriminate).
    apply StronglySorted_inv in HS. destruct HS as [_ HS]. apply Forall_cons in HS. destruct HS as [Hle _].
    assert (Hab : a <> 0%nat /\ b <> 0%nat /\ a <> b /\ (forall s, in_c s c <-> s = a \/ s = b) /\ (forall ρ, holds p ρ c <-> sv ρ a =[p]= sv ρ b)).
    { apply Permutation_length_2 in HP. destruct HP as [[-> ->]|[-> ->]]; [auto|]. split_and!; auto.
      - intros s. rewrite Hin. tauto.
      - intros ρ. rewrite Hh. split; intros Q; symmetry; exact Q. }
    clear Hx Hy Hxy Hin Hh x y HP El. destruct Hab as (Ha & Hb & Hab & Hin & Hh).
    assert (Hsg : forall s, clsigs cl s <-> s = a \/ s = b).
    { intros s. rewrite clsigs_in, Ec. setoid_rewrite elem_of_list_singleton. split.
      - intros (c' & -> & Hs). apply Hin. assumption.
      - intros Hs. exists c. split; [reflexivity|]. apply Hin. assumption. }
    assert (Hren : forall l r, (l = a /\ r = b \/ l = b /\ r = a) -> l ∉ forb -> representative forb (clsigs cl) r ->
      exists res, res_map (fun s => ([s], [])) (eq_rename r l) = Ok res /\ part_ok p forb (clsigs cl) [c] res.1 res.2 /\
        (forall s, s ∈ res.1 -> exists y, s = Substitution (s_from s) {[ y := 1 ]} /\ representative forb (clsigs cl) y)).
    { intros l r Hlr Hl Hr. exists ([Substitution l {[ r := 1 ]}], []). split; [reflexivity|]. split.
      - split.
        + intros ρ. cbn. rewrite !Forall_singleton, Forall_nil, sub_holds_rename, Hh.
          destruct Hlr as [[-> ->]|[-> ->]]; [tauto|]. split; [intros Q; split; [exact I|symmetry; exact Q]|intros [_ Q]; symmetry; exact Q].
        + cbn. apply NoDup_singleton.
        + cbn. intros s Hs. apply elem_of_list_singleton in Hs. subst s. cbn [s_from s_to].
          split; [assumption|]. split; [destruct Hlr as [[-> ->]|[-> ->]]; assumption|].
          split; [apply Hsg; tauto|]. split; [apply canon_one; lia|]. intros j [v Hj].
          apply lookup_singleton_Some in Hj. destruct Hj as [<- <-]. right. split; [apply Hsg; tauto|].
          rewrite elem_of_list_singleton. destruct Hlr as [[-> ->]|[-> ->]]; congruence.
        + cbn. intros c' Hc'. inversion Hc'.
      - cbn. intros s Hs. apply elem_of_list_singleton in Hs. subst s. exists r. auto. }
    case_bool_decide as Fa; cbn [andb].
    + case_bool_decide as Fb.
      * exists ([], [c]). split; [reflexivity|]. split.
        -- split; cbn.
           ++ intros ρ. rewrite Forall_singleton, Forall_nil. tauto.
           ++ apply NoDup_nil. exact I.
           ++ intros s Hs. inversion Hs.
           ++ intros c' Hc'. apply elem_of_list_singleton in Hc'. subst c'. split; [apply HE|].
              intros k Hk. split; [|apply clsigs_in; exists c; rewrite Ec; split; [left|assumption]].
              apply Hin in Hk. destruct Hk as [->| ->]; assumption.
        -- cbn. intros s Hs. inversion Hs.
      * apply Hren; [tauto|assumption|]. split; [apply Hsg; auto|]. left. split; [assumption|].
        intros k Hk Hkf. apply Hsg in Hk. destruct Hk as [->| ->]; [lia|contradiction].
    + case_bool_decide as Fb.
      * apply Hren; [tauto|assumption|]. split; [apply Hsg; auto|]. left. split; [assumption|].
        intros k Hk Hkf. apply Hsg in Hk. destruct Hk as [->| ->]; [contradiction|lia].
      * assert (Hlt : (b <? a)%nat = false) by (apply Nat.ltb_ge; lia). rewrite Hlt.
        apply Hren; [tauto|assumption|]. split; [apply Hsg; auto|]. right. split.
        -- intros k Hk. apply Hsg in Hk. destruct Hk as [->| ->]; assumption.
        -- intros k Hk. apply Hsg in Hk. destruct Hk as [->| ->]; lia.
  - pose proof (eq_note_all forb (cl_constraints cl) (fun _ => False) ((∅, None), (∅, None))) as HSC.
    match type of HSC with ?Q -> _ => assert (H0 : Q) end.
    { cbn. split_and!; try (intros k; set_solver). }
    specialize (HSC H0). clear H0.
    destruct (foldl _ _ _) as [[remains mr] [remove mm]]. cbn [eq_scan] in HSC.
    destruct HSC as (HR & HM & LR & LM).
    assert (HR' : forall k, k ∈ remains <-> clsigs cl k /\ k ∈ forb) by (intros k; rewrite HR, clsigs_in; tauto).
    assert (HM' : forall k, k ∈ remove <-> clsigs cl k /\ k ∉ forb) by (intros k; rewrite HM, clsigs_in; tauto).
    clear HR HM.
    assert (Hall : forall c, c ∈ cl_constraints cl -> exists x y, x <> 0%nat /\ y <> 0%nat /\ x <> y /\ (forall s, in_c s c <-> s = x \/ s = y) /\
      (forall ρ, holds p ρ c <-> sv ρ x =[p]= sv ρ y)).
    { intros c Hc. apply eq_ok_spec; [assumption|]. apply (proj1 (Forall_forall _ _) HE c Hc). }
    (* some signal exists *)
    assert (Hex : exists k, clsigs cl k).
    { destruct (cl_constraints cl) as [|c l] eqn:Ec; [contradiction|]. destruct (Hall c ltac:(left)) as (x & y & _ & _ & _ & Hin & _).
      exists x. apply clsigs_in. exists c. rewrite Ec. split; [left|]. apply Hin. auto. }
    assert (Hrh : exists rh rem rmv, (match mr with Some signal => Ok (signal, remains ∖ {[ signal ]}, remove)
              | None => res_map (fun signal => (signal, remains, remove ∖ {[ signal ]})) (lift mm) end) = Ok (rh, rem, rmv) /\
        representative forb (clsigs cl) rh /\ (forall k, k ∈ rem <-> clsigs cl k /\ k ∈ forb /\ k <> rh) /\
        (forall k, k ∈ rmv <-> clsigs cl k /\ k ∉ forb /\ k <> rh)).
    { destruct mr as [m|].
      - cbn in LR. destruct LR as [LR1 LR2]. exists m, (remains ∖ {[ m ]}), remove. split; [reflexivity|].
        apply HR' in LR1. split.
        + split; [tauto|]. left. split; [tauto|]. intros k Hk Hf. apply LR2, HR'. auto.
        + split; intros k; rewrite ?elem_of_difference, ?elem_of_singleton, ?HR', ?HM'; [tauto|].
          split; [|tauto]. intros [? Hf]. split; [assumption|]. split; [assumption|]. intros ->. tauto.
      - cbn in LR. destruct mm as [m|].
        + cbn in LM. destruct LM as [LM1 LM2]. exists m, remains, (remove ∖ {[ m ]}). split; [reflexivity|].
          apply HM' in LM1. split.
          * split; [tauto|]. right. split; [|intros k Hk; apply LM2, HM'; split; [assumption|]];
              try (intros k Hk); intros Hf; apply (LR k), HR'; auto.
          * split; intros k; rewrite ?elem_of_difference, ?elem_of_singleton, ?HR', ?HM'; [|tauto].
            split; [|tauto]. intros [? Hf]. split; [assumption|]. split; [assumption|]. intros ->. tauto.
        + exfalso. cbn in LM. destruct Hex as [k Hk]. destruct (decide (k ∈ forb)); [apply (LR k), HR'; auto|apply (LM k), HM'; auto]. }
    destruct Hrh as (rh & rem & rmv & -> & Hrep & Hrem & Hrmv). cbn [res_bind].
    assert (Hnz : forall k, clsigs cl k -> k <> 0%nat).
    { intros k Hk ->. apply clsigs_in in Hk. destruct Hk as (c & _ & Hk). apply (in_c_0 c Hk). }
    assert (Hrh0 : rh <> 0%nat) by (apply Hnz, Hrep).
    destruct (res_imap_spec (fun _ => eq_keep p rh) (fun s c => canon_c p c /\ (forall k, in_c k c -> k = s \/ k = rh) /\
        (forall ρ, holds p ρ c <-> sv ρ s =[p]= sv ρ rh)) (merge_sort Nat.le (elements rem)) 0) as (kept & -> & Hkept).
    { intros _ s Hs. rewrite merge_sort_Permutation in Hs. apply elem_of_elements, Hrem in Hs.
      apply eq_keep_spec; [lia|apply Hnz; tauto|assumption]. }
    cbn [res_bind].
    destruct (res_imap_spec (fun _ => eq_rename rh) (fun s sub => sub = Substitution s {[ rh := 1 ]}) (ord rmv) 0) as (subs & -> & Hsubs).
    { intros _ s _. eexists. split; reflexivity. }
    cbn [res_bind]. exists (subs, kept). split; [reflexivity|]. cbn [fst snd].
    assert (Esubs : subs = (fun s => Substitution s {[ rh := 1 ]}) <$> ord rmv).
    { clear - Hsubs. induction Hsubs as [|s sub l l' -> _ IH]; [reflexivity|]. cbn. f_equal. assumption. }
    assert (Efrom : s_from <$> subs = ord rmv).
    { rewrite Esubs, <- list_fmap_compose. clear. induction (ord rmv) as [|a l IH]; [reflexivity|]. cbn. f_equal. assumption. }
    assert (Hof : forall k, k ∈ ord rmv <-> clsigs cl k /\ k ∉ forb /\ k <> rh).
    { intros k. rewrite (Hord rmv), elem_of_elements. apply Hrmv. }
    assert (Hsub : forall s, s ∈ subs -> exists k, s = Substitution k {[ rh := 1 ]} /\ clsigs cl k /\ k ∉ forb /\ k <> rh).
    { intros s Hs. rewrite Esubs in Hs. apply elem_of_list_fmap in Hs. destruct Hs as (k & -> & Hk). exists k. split; [reflexivity|].
      apply Hof. assumption. }
    split; [split|].
    + intros ρ.
      assert (HA : Forall (holds p ρ) kept <-> forall k, k ∈ rem -> sv ρ k =[p]= sv ρ rh).
      { transitivity (Forall (fun k => sv ρ k =[p]= sv ρ rh) (merge_sort Nat.le (elements rem))).
        - clear - Hkept. induction Hkept as [|s c l l' (_ & _ & Hh) _ IH]; [rewrite !Forall_nil; tauto|].
          rewrite !Forall_cons, Hh, IH. tauto.
        - rewrite Forall_forall. setoid_rewrite merge_sort_Permutation. setoid_rewrite elem_of_elements. reflexivity. }
      assert (HB : Forall (sub_holds p ρ) subs <-> forall k, k ∈ rmv -> sv ρ k =[p]= sv ρ rh).
      { rewrite Esubs, Forall_fmap, Forall_forall. setoid_rewrite (Hord rmv). setoid_rewrite elem_of_elements.
        split; intros Q k Hk; specialize (Q k Hk); cbn in Q |- *; apply (sub_holds_rename p ρ k rh); assumption. }
      rewrite HA, HB.
      transitivity (forall k, clsigs cl k -> sv ρ k =[p]= sv ρ rh).
      * rewrite Forall_forall. split.
        -- intros Q k Hk.
           assert (Hr : rtc (linked (cl_constraints cl)) k rh) by (apply Hconn; [exact Hk|apply Hrep]).
           revert Hr. generalize rh at 1 2. clear - Q Hall Hp. intros rh Hr.
           induction Hr as [|x y z (c & Hc & Hx & Hy) _ IH]; [reflexivity|].
           etransitivity; [|exact IH]. specialize (Q c Hc). destruct (Hall c Hc) as (u & v & _ & _ & _ & Hin & Hh).
           apply Hh in Q. apply in_take_signals, Hin in Hx, Hy.
           destruct Hx as [->| ->], Hy as [->| ->]; try reflexivity; [assumption|symmetry; assumption].
        -- intros Q c Hc. destruct (Hall c Hc) as (u & v & _ & _ & _ & Hin & Hh). apply Hh.
           rewrite (Q u), (Q v); [reflexivity| |]; apply clsigs_in; exists c; (split; [assumption|]); apply Hin; auto.
      * split.
        -- intros Q. split; intros k Hk; apply Q; [apply Hrem|apply Hrmv]; assumption.
        -- intros [Q1 Q2] k Hk. destruct (decide (k = rh)) as [->|Hkr]; [reflexivity|].
           destruct (decide (k ∈ forb)); [apply Q1, Hrem; auto|apply Q2, Hrmv; auto].
    + rewrite Efrom, (Hord rmv). apply NoDup_elements.
    + intros s Hs. destruct (Hsub s Hs) as (k & -> & Hk & Hkf & Hkr). cbn [s_from s_to].
      split; [assumption|]. split; [apply Hnz; assumption|]. split; [assumption|]. split; [apply canon_one; lia|].
      intros j [v Hj]. apply lookup_singleton_Some in Hj. destruct Hj as [<- <-]. right. split; [apply Hrep|].
      rewrite Efrom, Hof. tauto.
    + intros c Hc. apply elem_of_list_lookup in Hc. destruct Hc as [i Hi].
      destruct (Forall2_lookup_r _ _ _ _ _ Hkept Hi) as (s & Hs & Hcan & Hk & _).
      apply elem_of_list_lookup_2 in Hs. rewrite merge_sort_Permutation in Hs. apply elem_of_elements, Hrem in Hs.
      split; [assumption|]. intros k Hk'. destruct (Hk k Hk') as [->| ->]; [tauto|].
      split; [|apply Hrep]. destruct Hrep as [_ [[? _]|[Hnf _]]]; [assumption|]. exfalso. apply (Hnf s); tauto.
    + intros s Hs. destruct (Hsub s Hs) as (k & -> & _). exists rh. auto.
Qed.

Lemma filter_nonempty_all cs : Forall (fun c => exists s, in_c s c) cs -> filter nonempty cs = cs.
Proof.
  induction 1 as [|c cs (s & Hs) _ IH]; [reflexivity|]. rewrite filter_cons_True; [f_equal; assumption|].
  unfold nonempty. destruct (is_empty c) eqn:E; [|exact I]. exfalso. unfold is_empty in E.
  rewrite !andb_true_iff, !is_empty_map_true in E. destruct E as [[Ea Eb] Ec].
  unfold in_c, in_lin in Hs. rewrite Ea, Eb, Ec, !lookup_empty in Hs. destruct Hs as [[_ [? ?]]|[[_ [? ?]]|[_ [? ?]]]]; discriminate.
Qed.
Lemma clusters_forall (P : constraint -> Prop) cls l cl :
  concat (cl_constraints <$> cls) ≡ₚ filter nonempty l -> Forall P l -> cl ∈ cls -> Forall P (cl_constraints cl).
Proof.
  intros HP HF Hcl. apply Forall_forall. intros c Hc.
  assert (Hin : c ∈ concat (cl_constraints <$> cls)).
  { apply elem_of_list_In, in_concat. exists (cl_constraints cl). split; apply elem_of_list_In; [|assumption].
    apply elem_of_list_fmap. eauto. }
  rewrite HP in Hin. apply elem_of_list_filter in Hin. apply (proj1 (Forall_forall _ _) HF c). tauto.
Qed.
Lemma clusters_sigs cls l : concat (cl_constraints <$> cls) ≡ₚ filter nonempty l ->
  forall s, (exists cl, cl ∈ cls /\ clsigs cl s) -> exists c, c ∈ l /\ in_c s c.
Proof.
  intros HP s (cl & Hcl & Hs). apply clsigs_in in Hs. destruct Hs as (c & Hc & Hs). exists c. split; [|assumption].
  assert (Hin : c ∈ concat (cl_constraints <$> cls)).
  { apply elem_of_list_In, in_concat. exists (cl_constraints cl). split; apply elem_of_list_In; [|assumption].
    apply elem_of_list_fmap. eauto. }
  rewrite HP in Hin. apply elem_of_list_filter in Hin. tauto.
Qed.

(** the signals of a list of constraints *)
Definition sigs_of (cs : list constraint) (k : nat) : Prop := exists c, c ∈ cs /\ in_c k c.


Lemma filter_split_perm {A} (P : A -> bool) l : filter P l ++ filter (fun x => negb (P x)) l ≡ₚ l.
Proof.
  induction l as [|a l IH]; [reflexivity|]. destruct (P a) eqn:E.
  - rewrite filter_cons_True, filter_cons_False; [|rewrite E; auto|rewrite E; exact I]. cbn. rewrite IH. reflexivity.
  - rewrite filter_cons_False, filter_cons_True; [|rewrite E; exact I|rewrite E; auto]. rewrite <- Permutation_middle, IH. reflexivity.
Qed.

Lemma eq_simplification_spec p forb o eqs no_vars :
  prime p -> valid_oracle o -> Forall (eq_ok p) eqs -> (forall k, sigs_of eqs k -> (k < no_vars)%nat) ->
  exists subs kept, eq_simplification o eqs forb no_vars p = Ok (subs, kept) /\
    part_ok p forb (sigs_of eqs) eqs subs kept /\
    (forall s, s ∈ subs -> exists y, s = Substitution (s_from s) {[ y := 1 ]} /\
       exists sg : nat -> Prop, sg (s_from s) /\ representative forb sg y /\ (forall k, sg k -> sigs_of eqs k)).
Proof.
  intros Hp Ho HE Hv. unfold eq_simplification.
  destruct (build_clusters_spec (o_cluster o 0) eqs no_vars) as (cls & -> & HP & HC & HD).
  { intros; apply vo_cluster; assumption. }
  { intros c s Hc Hs. apply Hv. exists c. split; [assumption|]. apply in_take_signals. assumption. }
  cbn [res_bind].
  assert (HN : filter nonempty eqs = eqs).
  { apply filter_nonempty_all. eapply Forall_impl; [exact HE|]. intros c Hc. destruct (eq_ok_spec p c Hp Hc) as (x & y & _ & _ & _ & Hin & _).
    exists x. apply Hin. auto. }
  destruct (res_imap_spec (fun id => eq_cluster_simplification (o_remove o id) forb p)
     (fun cl r => part_ok p forb (clsigs cl) (cl_constraints cl) r.1 r.2 /\
    (forall s, s ∈ r.1 -> exists y, s = Substitution (s_from s) {[ y := 1 ]} /\ representative forb (clsigs cl) y)) cls 0) as (results & -> & HF).
  { intros id cl Hcl. destruct (HC cl Hcl) as [Hne Hco]. apply eq_cluster_spec; try assumption.
    - apply vo_remove; assumption.
    - eapply clusters_forall; eassumption. }
  cbn [res_bind]. eexists _, _. split; [reflexivity|].
  assert (Hlen : length cls = length results) by (eapply Forall2_length; exact HF).
  match goal with |- part_ok _ _ _ _ (concat (_ <$> ?a)) _ /\ _ => set (arrival := a) end.
  assert (Harr : arrival ≡ₚ seq 0 (length results)).
  { unfold arrival. rewrite (vo_arrive o Ho), <- Hlen. apply filter_split_perm. }
  pose proof (collect_perm fst results arrival Harr) as HCP.
  split.
  - apply (part_ok_perm _ _ _ (concat (cl_constraints <$> cls)) _ (concat (fst <$> results)) _ (concat (snd <$> results))).
    + rewrite HP, HN. reflexivity.
    + symmetry. exact HCP.
    + reflexivity.
    + eapply part_ok_weaken; [|apply part_ok_clusters; [|exact HD]].
      * apply (clusters_sigs cls eqs). assumption.
      * eapply Forall2_impl; [exact HF|]. intros cl r [H _]. exact H.
  - intros s Hs. rewrite HCP in Hs. apply elem_of_list_In, in_concat in Hs. destruct Hs as (l & Hl & Hs).
    apply elem_of_list_In, elem_of_list_fmap in Hl. destruct Hl as (r & -> & Hr). apply elem_of_list_In in Hs.
    apply elem_of_list_lookup in Hr. destruct Hr as [i Hi]. destruct (Forall2_lookup_r _ _ _ _ _ HF Hi) as (cl & Hcl & PO & HQ).
    destruct (HQ s Hs) as (y & E & Hrep). exists y. split; [assumption|]. exists (clsigs cl).
    split; [apply (po_subs _ _ _ _ _ _ PO s Hs)|]. split; [assumption|].
    intros k Hk. apply (clusters_sigs cls eqs HP). exists cl. split; [eapply elem_of_list_lookup_2; exact Hcl|assumption].
Qed.
