(** The translation of the whole code of a template or function. *)
From stdpp Require Import prelude gmap numbers list strings.
From Verif Require Import DatModel IrModel IrSpec TranslateModel TranslateSpec TranslateProofs TranslateStmtProofs.
From Verif Require SugarModel SugarSpec SugarProofs SugarStmtProofs IrProofs.
Import SugarModel (name).
Import SugarSpec (val).
Local Open Scope nat_scope.

(** ** The symbols bound *)
Fixpoint binds (a : nat) (xs : list (name * list nat)) (bl : list (name * info)) : list (name * info) :=
  match xs with [] => bl | (x, ds) :: xs => binds (a + elements ds) xs ((x, Info a ds (size_of ds)) :: bl) end.
Fixpoint bound (bl : list (name * info)) (a : nat) (xs : list (name * list nat)) : Prop :=
  match xs with [] => True | (x, ds) :: xs => assoc x bl = Some (Info a ds (size_of ds)) /\ bound bl (a + elements ds) xs end.
Lemma binds_assoc a xs : forall bl x, x ∉ xs.*1 -> assoc x (binds a xs bl) = assoc x bl.
Proof.
  revert a. induction xs as [|[y ds] xs IH]; intros a bl x Hx; [done|]. cbn in *. apply not_elem_of_cons in Hx as [H1 H2].
  rewrite IH by done. cbn. by rewrite decide_False.
Qed.
Lemma binds_keep a xs bl b ys : (forall x, x ∈ ys.*1 -> x ∉ xs.*1) -> bound bl b ys -> bound (binds a xs bl) b ys.
Proof.
  intros H. revert b. induction ys as [|[y ds] ys IH]; intros b Hb; [done|]. destruct Hb as [Hb1 Hb2]. split.
  - rewrite binds_assoc; [done|]. apply H. cbn. left.
  - apply IH; [|done]. intros x Hx. apply H. cbn. by right.
Qed.
Lemma binds_bound xs : forall a bl, NoDup xs.*1 -> bound (binds a xs bl) a xs.
Proof.
  induction xs as [|[x ds] xs IH]; intros a bl Hn; [done|]. cbn in *. apply NoDup_cons in Hn as [H1 H2]. split; [|by apply IH].
  rewrite binds_assoc by done. cbn. by rewrite decide_True.
Qed.
Definition amount (xs : list (name * list nat)) : nat := total xs.*2.
Global Arguments amount : simpl never.
Lemma amount_nil : amount [] = 0. Proof. done. Qed.
Lemma amount_cons x ds xs : amount ((x, ds) :: xs) = elements ds + amount xs. Proof. done. Qed.
Lemma signals_some a ws : forall st bl n st', env st = [bl] -> signals a ws st = Some (n, st') ->
  n = a + amount ws /\ st' = State [binds a ws bl] (consts st) (strings st) (vstack st) (vmax st).
Proof.
  revert a. induction ws as [|[x ds] ws IH]; intros a st bl n st' He H; cbn in H.
  - apply ret_some in H as [<- <-]. split; [rewrite amount_nil; lia|]. destruct st; cbn in *. by subst.
  - apply bnd_some in H as (u & st1 & H1 & H). unfold add_symbol in H1. rewrite He in H1. cbn in H1. injection H1 as _ <-.
    apply (IH _ _ ((x, Info a ds (size_of ds)) :: bl)) in H as [-> ->]; [|done]. cbn. rewrite size_of_elements.
    split; [rewrite amount_cons; lia|done].
Qed.
Lemma parameters_some ps : forall st bl u st', env st = [bl] -> parameters ps st = Some (u, st') ->
  env st' = [binds (vstack st) ps bl] /\ consts st' = consts st /\ strings st' = strings st /\ vstack st' = vstack st + amount ps /\
  vmax st `max` vstack st' <= vmax st' `max` vstack st /\ vmax st <= vmax st'.
Proof.
  induction ps as [|[x ds] ps IH]; intros st bl u st' He H; cbn [parameters] in H.
  - apply ret_some in H as [_ <-]. rewrite amount_nil. cbn. repeat split; try done; lia.
  - apply bnd_some in H as (a & st1 & H1 & H). injection H1 as <- <-. apply bnd_some in H as (u' & st2 & H2 & H). unfold add_symbol in H2. cbn in H2.
    rewrite He in H2. cbn in H2. injection H2 as _ <-.
    apply (IH _ ((x, Info (vstack st) ds (size_of ds)) :: bl)) in H as (E & C & S & V & M1 & M2); [|done]. cbn in *. rewrite size_of_elements in *.
    rewrite amount_cons. repeat split; try done; lia.
Qed.

Section code.
Context (W : SugarSpec.world) (w : world Z) (sigs outs : name -> bool) (fid : string -> nat) (table : list Z) (stable : list string).
Context (HL : linked W w fid table).
Context (parallel : bool) (sanity rsize depth nsig : nat) (isout : Z -> Prop).
Notation inv := (inv sigs outs depth nsig isout).
Notation sep := (sep sigs outs nsig isout).
Notation runs := (runs w parallel sanity rsize).

(** ** Constants *)
Lemma constant_stores_run a vs : forall k st l st', constant_stores a k vs st = Some (l, st') ->
  stays st st' /\ (consts st' `prefix_of` table -> forall m, runs l m (write m (LVar (Z.of_nat a + Z.of_nat k)) vs) None).
Proof.
  induction vs as [|z vs IH]; intros k st l st' H; cbn in H.
  - apply ret_some in H as [<- <-]. split; [apply stays_refl|]. intros _ m. destruct m. cbn. apply runs_nil.
  - apply bnd_some in H as (c & st1 & H1 & H). apply bnd_some in H as (l1 & st2 & H2 & H). apply ret_some in H as [<- <-].
    apply cid_some in H1 as [S1 C1]. destruct (IH _ _ _ _ H2) as [S2 R2]. split; [by eapply stays_trans|]. intros Hp m.
    apply (runs_app _ _ _ _ [_] l1 _ (write m (LVar (Z.of_nat a + Z.of_nat k)) [z])).
    + apply runs_simple; [done|]. cbn [exec_simple den_dest]. rewrite den_add. cbn [den_a mbind option_bind]. unfold den_cells.
      assert (w_const w c = z) as Hz.
      { apply (l_const _ _ _ _ HL). eapply prefix_lookup; [|exact Hp]. eapply prefix_lookup; [exact C1|apply S2]. }
      cbn. by rewrite Nat.add_0_r, Hz.
    + specialize (R2 Hp (write m (LVar (Z.of_nat a + Z.of_nat k)) [z])).
      replace (Z.of_nat a + Z.of_nat (S k))%Z with (Z.of_nat a + Z.of_nat k + 1)%Z in R2 by lia. exact R2.
Qed.
Definition same_but (m m' : mem Z) (lo hi : nat) : Prop :=
  m_sigs m' = m_sigs m /\ m_base m' = m_base m /\ m_start m' = m_start m /\ m_tpl m' = m_tpl m /\ m_count m' = m_count m /\ m_log m' = m_log m /\ m_set m' = m_set m /\
  forall z, (z < Z.of_nat lo \/ Z.of_nat hi <= z)%Z -> m_vars m' z = m_vars m z.
Lemma stored_vars m m' a xs b : (forall z, (Z.of_nat a <= z)%Z -> m_vars m' z = m_vars m z) -> stored m LVar a xs b -> stored m' LVar a xs b.
Proof.
  revert a. induction xs as [|[x ds] xs IH]; intros a H Hs; [done|]. destruct Hs as [(v & H1 & H2 & H3) H4]. split.
  - exists v. split; [done|]. split; [done|]. intros k z Hk. cbn. rewrite H by lia. by apply H3.
  - apply IH; [|done]. intros z Hz. apply H. lia.
Qed.
Lemma constants_run cs b : forall st bl l st', env st = [bl] -> constants cs st = Some (l, st') ->
  consts st `prefix_of` consts st' /\ strings st `prefix_of` strings st' /\
  env st' = [binds (vstack st) cs.*1 bl] /\ vstack st' = vstack st + amount cs.*1 /\
  vmax st `max` vstack st' <= vmax st' `max` vstack st /\ vmax st <= vmax st' /\
  (consts st' `prefix_of` table -> given cs b -> forall m, exists m', runs l m m' None /\ same_but m m' (vstack st) (vstack st') /\
     stored m' LVar (vstack st) cs.*1 b).
Proof.
  induction cs as [|[[x ds] zs] cs IH]; intros st bl l st' He H; cbn [constants] in H.
  - apply ret_some in H as [<- <-]. cbn. rewrite amount_nil. split; [done|]. split; [done|]. split; [done|]. split; [lia|]. split; [lia|]. split; [lia|].
    intros _ _ m. exists m. split; [apply runs_nil|]. done.
  - apply bnd_some in H as (a & st1 & H1 & H). injection H1 as <- <-. apply bnd_some in H as (u' & st2 & H2 & H). unfold add_symbol in H2. cbn in H2.
    rewrite He in H2. cbn in H2. injection H2 as _ <-. apply bnd_some in H as (l1 & st3 & H3 & H). apply bnd_some in H as (l2 & st4 & H4 & H). apply ret_some in H as [<- <-].
    destruct (constant_stores_run _ _ _ _ _ _ H3) as [S3 R3]. destruct S3 as [Y1 Y2 Y3 Y4 Y5]. cbn in *.
    destruct (IH st3 _ l2 st4 Y1 H4) as (C & S & E & V & M1 & M2 & R). rewrite size_of_elements in *.
    split; [by etrans|]. split; [by etrans|]. split; [by rewrite E, Y2|]. rewrite amount_cons; split; [rewrite V, Y2; lia|]. split; [lia|]. split; [lia|].
    intros Hp Hg m. apply Forall_cons in Hg as [(v & Hv1 & Hv2 & Hv3) Hg].
    assert (consts st3 `prefix_of` table) as Hp3 by (by etrans). specialize (R3 Hp3 m).
    assert (length zs = elements ds) as Hlen by (rewrite <- Hv3; by apply array_length).
    destruct (R Hp Hg (write m (LVar (Z.of_nat (vstack st) + Z.of_nat 0)) zs)) as (m' & Rm & Sm & St). exists m'.
    split; [by eapply runs_app|]. destruct Sm as (B1 & B2 & B3 & B4 & B5 & B6 & B8 & B7). cbn in B1, B2, B3, B4, B5, B6, B7, B8. split.
    + repeat split; try done. intros z Hz. rewrite B7 by lia. apply IrProofs.upds_out. lia.
    + split.
      * exists v. split; [done|]. split; [done|]. intros k z Hk. cbn. rewrite Hv3 in Hk. pose proof (lookup_lt_Some _ _ _ Hk).
        rewrite B7 by lia. replace (Z.of_nat (vstack st) + Z.of_nat 0)%Z with (Z.of_nat (vstack st)) by lia. by apply IrProofs.upds_in.
      * by rewrite <- Y2.
Qed.

(** ** The invariant at the start of the body *)
Lemma sub_insert (b b' : gmap name val) x v : b' ⊆ b -> b !! x = Some v -> <[x := v]> b' ⊆ b.
Proof. intros H1 H2. apply map_subseteq_spec. intros y u. destruct (decide (y = x)) as [->|Hy]; [rewrite lookup_insert; congruence|rewrite lookup_insert_ne by done]. by apply map_subseteq_spec. Qed.
Lemma binds_vars b m xs : forall top b' bl, Forall (fun x => sigs x = false) xs.*1 -> inv [b'] [bl] top m -> b' ⊆ b ->
  top + amount xs <= depth -> stored m LVar top xs b ->
  exists b'', b'' ⊆ b /\ dom b'' = dom b' ∪ list_to_set xs.*1 /\ inv [b''] [binds top xs bl] (top + amount xs) m.
Proof.
  induction xs as [|[x ds] xs IH]; intros top b' bl Hx Hinv Hsub Hd Hst.
  - exists b'. split; [done|]. split; [set_solver|]. by rewrite amount_nil, Nat.add_0_r.
  - cbn in Hx. apply Forall_cons in Hx as [Hx1 Hx2]. destruct Hst as [(v & H1 & H2 & H3) Hst]. rewrite amount_cons in *. cbn [binds fmap list_fmap fst] in *.
    destruct (IH (top + elements ds) (<[x := v]> b') ((x, Info top ds (size_of ds)) :: bl)) as (b'' & S'' & D'' & I''); try done.
    + destruct Hinv as [Hr Hs Ht]. split; [| |lia].
      * apply mrel_decl; [done|]. split; [done|]. split; [apply size_of_elements|]. intros k z Hk. unfold cell. rewrite Hx1. by apply H3.
      * rewrite <- size_of_elements. by apply sep_decl.
    + by apply sub_insert.
    + lia.
    + exists b''. split; [done|]. split; [rewrite D'', dom_insert_L; set_solver|]. by rewrite Nat.add_assoc.
Qed.
Lemma output_cell_ge ws : forall a z, output_cell outs a ws z -> (Z.of_nat a <= z)%Z.
Proof. induction ws as [|[x ds] ws IH]; intros a z; [done|]. intros [[_ ?]|H]; [lia|]. apply IH in H. lia. Qed.
Lemma binds_sigs b m ws : forall a b' bl, Forall (fun x => sigs x = true) ws.*1 -> inv [b'] [bl] 0 m ->
  (forall x i, assoc x bl = Some i -> sigs x = true /\ s_addr i + s_size i <= a) -> b' ⊆ b ->
  a + amount ws <= nsig -> stored m (fun z => LSig (m_base m + z)) a ws b ->
  (forall z, (Z.of_nat a <= z)%Z -> isout z <-> output_cell outs a ws z) ->
  exists b'', b'' ⊆ b /\ dom b'' = dom b' ∪ list_to_set ws.*1 /\ inv [b''] [binds a ws bl] 0 m.
Proof.
  induction ws as [|[x ds] ws IH]; intros a b' bl Hx Hinv Hbl Hsub Hd Hst Hio.
  - exists b'. split; [done|]. split; [set_solver|]. done.
  - cbn in Hx. apply Forall_cons in Hx as [Hx1 Hx2]. destruct Hst as [(v & H1 & H2 & H3) Hst]. rewrite amount_cons in *. cbn [binds fmap list_fmap fst] in *.
    assert (forall y i, assoc y ((x, Info a ds (size_of ds)) :: bl) = Some i -> sigs y = true /\ s_addr i + s_size i <= a + elements ds) as Hbl'.
    { cbn. intros y i. destruct (decide (y = x)) as [->|Hy]; [intros [= <-]; cbn; by rewrite size_of_elements|].
      intros Ha. destruct (Hbl y i Ha). split; [done|lia]. }
    destruct (IH (a + elements ds) (<[x := v]> b') ((x, Info a ds (size_of ds)) :: bl)) as (b'' & S'' & D'' & I''); try done.
    + destruct Hinv as [Hr Hs Ht]. split; [| |done].
      * apply mrel_decl; [done|]. split; [done|]. split; [apply size_of_elements|]. intros k z Hk. unfold cell. rewrite Hx1. rewrite Z.add_assoc. by apply (H3 k z).
      * split.
        -- intros [|k] bl' y i Hk Ha; cbn in Hk; [|by destruct k]. injection Hk as <-. destruct (Hbl' y i Ha) as [Hy1 ?]. rewrite Hy1. split; [lia|]. intros _ z Hz. cbn in Ha.
           destruct (decide (y = x)) as [->|Hy]; [|by apply (proj1 Hs 0 bl y i eq_refl Ha)].
           injection Ha as <-. cbn in Hz. rewrite size_of_elements in Hz. rewrite Hio by lia. cbn. split; [|intros ->; left; split; [done|lia]].
           intros [[? _]|Ho]; [done|]. apply output_cell_ge in Ho. lia.
        -- intros [|k1] b1 x1 i1 [|k2] b2 x2 i2 Hk1 Ha1 Hk2 Ha2 Hne Hs12; cbn in Hk1, Hk2; try (by destruct k1); try (by destruct k2).
           injection Hk1 as <-. injection Hk2 as <-. cbn in Ha1, Ha2.
           destruct (decide (x1 = x)) as [->|Hn1], (decide (x2 = x)) as [->|Hn2]; try done.
           ++ injection Ha1 as <-. right. cbn. by apply (Hbl x2 i2).
           ++ injection Ha2 as <-. left. cbn. by apply (Hbl x1 i1).
           ++ apply (proj2 Hs 0 bl x1 i1 0 bl x2 i2); try done.
    + by apply sub_insert.
    + lia.
    + intros z Hz. rewrite Hio by lia. cbn. split; [|by right]. intros [[_ ?]|?]; [lia|done].
    + exists b''. split; [done|]. split; [rewrite D'', dom_insert_L; set_solver|done].
Qed.
Lemma inv_weaken σ e m top : inv σ e 0 m -> top <= depth -> inv σ e top m.
Proof.
  intros [Hr [H1 H2] Ht] Hd. split; [done| |done]. split; [|done]. intros k bl x i Hk Ha. destruct (H1 k bl x i Hk Ha). split; [destruct (sigs x); lia|done].
Qed.
Lemma stored_final m b bl ws : forall a, block_rel sigs m b bl -> bound bl a ws -> Forall (fun x => sigs x = true) ws.*1 ->
  stored m (fun z => LSig (m_base m + z)) a ws b.
Proof.
  induction ws as [|[x ds] ws IH]; intros a Hb Hbl Hx; [done|]. destruct Hbl as [H1 H2]. cbn in Hx. apply Forall_cons in Hx as [Hx1 Hx2].
  split; [|by apply IH]. specialize (Hb x). rewrite H1 in Hb. destruct (b !! x) as [v|]; [|done]. destruct Hb as (A1 & A2 & A3).
  exists v. split; [done|]. split; [done|]. intros k z Hk. specialize (A3 k z Hk). unfold cell in A3. rewrite Hx1 in A3. cbn in *. by rewrite Z.add_assoc in A3.
Qed.
End code.

Theorem translate_code_sim W w sigs outs fid table stable parallel sanity rsize ws cs ps body cs0 ss0 code nsig st b m n :
  linked W w fid table ->
  translate_code sigs outs fid ws cs ps body cs0 ss0 = Some (code, nsig, st) ->
  consts st `prefix_of` table -> strings st `prefix_of` stable ->
  NoDup (ws.*1 ++ cs.*1.*1 ++ ps.*1) ->
  Forall (fun x => sigs x = true) ws.*1 -> Forall (fun x => sigs x = false) (cs.*1.*1 ++ ps.*1) ->
  bodies_ok body = true -> is_decl body = false ->
  dom b = list_to_set (ws.*1 ++ cs.*1.*1 ++ ps.*1) ->
  stored m (fun a => LSig (m_base m + a)) 0 ws b -> given cs b -> stored m LVar (total cs.*1.*2) ps b ->
  safe W sigs (w_toint w) n body [b] ->
  run_agrees outs W w parallel sanity rsize code m ws (vmax st) nsig stable (SugarSpec.exec W n body [b]).
Proof.
  intros HL H Hp Hps Hnd Hws Hcp Hbo Hde Hdom Hsw Hg Hsp Hsafe. unfold translate_code in H.
  destruct (bnd _ _ _) as [[[l n'] st']|] eqn:E; [|done]. injection H as <- <- <-.
  apply bnd_some in E as (nn & st1 & H1 & E). apply bnd_some in E as (l1 & st2 & H2 & E). apply bnd_some in E as (u & st3 & H3 & E).
  apply bnd_some in E as (l2 & st4 & H4 & E). apply ret_some in E as [[= <- <-] <-].
  pose proof (fun E => signals_some 0 ws _ [] nn st1 E H1) as Hs1. destruct (Hs1 eq_refl) as [Hnn Hst1]. clear Hs1. subst nn st1. cbn [env consts strings vstack vmax] in H2.
  pose proof (fun E => constants_run W w fid table HL parallel sanity rsize cs b _ (binds 0 ws []) l1 st2 E H2) as Hcr. destruct (Hcr eq_refl) as (C2 & S2 & E2 & V2 & M2 & M2' & R2). cbn in *.
  pose proof (parameters_some ps st2 _ u st3 E2 H3) as (E3 & C3 & S3 & V3 & M3 & M3').
  destruct (tr_s_grows sigs outs fid body st3 l2 st4 H4) as [G4 K4]. destruct (K4 Hbo Hde) as [_ _]. destruct G4 as [G41 G42 G43 _ _].
  assert (consts st2 `prefix_of` table) as Hp2 by (rewrite <- C3; etrans; [exact G41|done]).
  destruct (R2 Hp2 Hg m) as (m1 & Rm & (B1 & B2 & B3 & B4 & B5 & B6 & B8 & B7) & St). rewrite V2 in B7.
  assert (stored m1 (fun a => LSig (m_base m1 + a)) 0 ws b) as Hsw1.
  { rewrite B2. clear -Hsw B1. revert Hsw. generalize 0. induction ws as [|[x ds] ws IH]; intros a Hs; [done|]. destruct Hs as [(v & A1 & A2 & A3) A4].
    split; [|by apply IH]. exists v. split; [done|]. split; [done|]. intros k z Hk. cbn. rewrite B1. by apply A3. }
  assert (stored m1 LVar (amount cs.*1) ps b) as Hsp1.
  { eapply stored_vars; [|exact Hsp]. intros z Hz. apply B7. right. exact Hz. }
  rewrite Forall_app in Hcp. destruct Hcp as [Hc Hpv].
  destruct (binds_sigs W w sigs outs fid table HL (vmax st4) (amount ws) (output_cell outs 0 ws) b m1 ws 0 ∅ []) as (b1 & Sb1 & D1 & I1); try done.
  { split; [|split|lia].
    - constructor; [|constructor]. intros x. by rewrite lookup_empty.
    - intros [|k] bl x i Hk; cbn in Hk; [by injection Hk as <-|by destruct k].
    - intros [|k] bl x i k2 bl2 x2 i2 Hk; cbn in Hk; [by injection Hk as <-|by destruct k]. }
  { apply map_empty_subseteq. }
  destruct (binds_vars W w sigs outs fid table HL (vmax st4) (amount ws) (output_cell outs 0 ws) b m1 cs.*1 0 b1 _ Hc I1 Sb1) as (b2 & Sb2 & D2 & I2); [lia|done|].
  cbn in I2. rewrite <- V2 in I2, Hsp1.
  destruct (binds_vars W w sigs outs fid table HL (vmax st4) (amount ws) (output_cell outs 0 ws) b m1 ps _ b2 _ Hpv I2 Sb2) as (b3 & Sb3 & D3 & I3); [lia|done|].
  assert (b3 = b) as ->.
  { apply map_eq. intros x. destruct (b3 !! x) as [v|] eqn:Ex; [symmetry; by eapply map_subseteq_spec|]. symmetry. apply not_elem_of_dom. apply not_elem_of_dom in Ex.
    rewrite Hdom. rewrite D3, D2, D1 in Ex. clear -Ex. rewrite !list_to_set_app_L. set_solver. }
  rewrite <- V3, <- E3 in I3.
  pose proof (tr_s_sim W w sigs outs fid table stable HL parallel sanity rsize (vmax st4) (amount ws) (output_cell outs 0 ws) n body st3 l2 st4 [b] m1 H4 Hp Hps ltac:(lia) Hbo Hde I3 Hsafe) as Hsim.
  unfold run_agrees. unfold outcome_rel in Hsim. destruct (SugarSpec.exec W n body [b]) as [[[σ evs] r]| |]; [| |done].
  - intros Hr. destruct (Hsim Hr) as (m' & Rm' & [Hrel _ _] & [A1 A2 A3 A4 A5 A6 (t & A7 & A8) A9]).
    pose proof (runs_app w parallel sanity rsize l1 l2 m m1 m' _ Rm Rm') as [F HF]. exists m', F. split; [exact HF|].
    rewrite E3 in Hrel. inversion Hrel as [|b' ? σ' ? Hb' Hrest]; subst. inversion Hrest; subst. split; [|split; [|split]].
    + exists b'. split; [done|]. replace (m_base m) with (m_base m') by congruence. eapply stored_final; [done| |done].
      rewrite !NoDup_app in Hnd. destruct Hnd as (N1 & N2 & N3 & N4 & N5). apply binds_keep.
      { intros x Hx Hx'. apply (N2 x Hx). apply elem_of_app. by right. }
      apply binds_keep. { intros x Hx Hx'. apply (N2 x Hx). apply elem_of_app. by left. }
      by apply binds_bound.
    + exists t. split; [done|]. by rewrite A8, B6.
    + by rewrite B8, B2, B1 in A9.
    + split; [congruence|]. split; [congruence|]. split; [congruence|]. split; [congruence|]. split.
      * intros a Ha. rewrite A5 by done. apply B7. lia.
      * intros a Ha. rewrite A6 by (rewrite B2; done). by rewrite B1.
  - intros Hsan. destruct (aborts_app w parallel sanity rsize l1 l2 m m1 Rm (Hsim Hsan)) as [F HF]. by exists F.
Qed.
