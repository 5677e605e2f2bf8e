(** Proofs about ClusterModel: union-find invariant. *)
From stdpp Require Import prelude gmap fin_maps relations.
From Coq Require Import ZArith Lia.
From Verif Require Import ModArithModel AlgebraModel LinearSimpModel ClusterModel ClusterSpec.

(** ** following pointers *)
Definition parents_ok (c2c : list nat) (rep : nat -> nat) : Prop :=
  forall i, (i < length c2c)%nat -> (rep i < length c2c)%nat /\ rep (rep i) = rep i /\
    exists j, c2c !! i = Some j /\ (i <= j < length c2c)%nat /\ rep j = rep i /\ (j = i <-> rep i = i).

Lemma find_loop_spec c2c rep : parents_ok c2c rep -> forall fuel cur jumps,
  (cur < length c2c)%nat -> (length c2c <= fuel + cur)%nat ->
  exists jumps', find_loop fuel c2c cur jumps = Ok (rep cur, jumps') /\
    (forall j, j ∈ jumps' -> j ∈ jumps \/ ((j < length c2c)%nat /\ rep j = rep cur /\ j <> rep cur)).
Proof.
  intros HP. induction fuel as [|f IH]; intros cur jumps Hc Hf; [lia|]. cbn [find_loop].
  destruct (HP cur Hc) as (Hr & Hrr & j & Hj & Hle & Hrep & Hiff). rewrite Hj.
  destruct (Nat.eqb_spec cur j) as [->|Hne].
  - exists jumps. split; [|auto]. f_equal. f_equal. symmetry. apply Hiff. reflexivity.
  - destruct (IH j (cur :: jumps) ltac:(lia) ltac:(lia)) as (jumps' & E & H'). rewrite Hrep in E, H'.
    exists jumps'. split; [assumption|]. intros x Hx. destruct (H' x Hx) as [Hx'|Hx']; [|auto].
    apply elem_of_cons in Hx'. destruct Hx' as [->|]; [|auto]. right. split; [assumption|]. split; [reflexivity|].
    intros HH. apply Hne. symmetry. apply Hiff. auto.
Qed.
Lemma compress_ok rep r : forall jumps c2c, parents_ok c2c rep -> (r < length c2c)%nat -> rep r = r ->
  (forall j, j ∈ jumps -> (j < length c2c)%nat /\ rep j = r /\ j <> r) ->
  parents_ok (foldl (fun l redirect => <[redirect := r]> l) c2c jumps) rep /\
  length (foldl (fun l redirect => <[redirect := r]> l) c2c jumps) = length c2c.
Proof.
  induction jumps as [|x jumps IH]; intros c2c HP Hr Hrr HJ; cbn [foldl]; [auto|].
  destruct (HJ x ltac:(left)) as (Hx & Hxr & Hne).
  assert (HP' : parents_ok (<[x := r]> c2c) rep).
  { intros i Hi. rewrite insert_length in Hi. destruct (HP i Hi) as (A & B & j & Hj & Hle & Hrep & Hiff).
    rewrite insert_length. split; [assumption|]. split; [assumption|].
    destruct (decide (x = i)) as [->|Hxi].
    - exists r. rewrite list_lookup_insert by assumption. split; [reflexivity|].
      split; [|split; [congruence|]].
      + split; [|assumption]. (* parents increase along the path *)
        clear - HP Hi Hxr Hr. 
        assert (G : forall n i, (i < length c2c)%nat -> (length c2c <= n + i)%nat -> (i <= rep i)%nat).
        { induction n as [|n IHn]; intros k Hk Hn; [lia|].
          destruct (HP k Hk) as (_ & _ & j & _ & Hle & Hrep & Hiff).
          destruct (decide (j = k)) as [E|E]; [rewrite (proj1 Hiff E); lia|].
          specialize (IHn j ltac:(lia) ltac:(lia)). rewrite Hrep in IHn. lia. }
        rewrite <- Hxr. apply (G (length c2c)); lia.
      + split; intros; congruence.
    - exists j. rewrite list_lookup_insert_ne by assumption. auto. }
  destruct (IH (<[x := r]> c2c) HP') as [A B].
  - rewrite insert_length. assumption.
  - assumption.
  - intros j Hj. rewrite insert_length. apply HJ. right. assumption.
  - rewrite insert_length in B. auto.
Qed.
Lemma shrink_spec c2c rep org : parents_ok c2c rep -> (org < length c2c)%nat ->
  exists c2c', shrink_jumps_and_find c2c org = Ok (rep org, c2c') /\ parents_ok c2c' rep /\ length c2c' = length c2c.
Proof.
  intros HP Ho. unfold shrink_jumps_and_find.
  destruct (find_loop_spec c2c rep HP (length c2c) org [] Ho ltac:(lia)) as (jumps & -> & HJ). cbn [res_bind].
  destruct (HP org Ho) as (A & B & _).
  destruct (compress_ok rep (rep org) jumps c2c HP A B) as [C D].
  - intros j Hj. destruct (HJ j Hj) as [H|H]; [inversion H|assumption].
  - eexists. split; [reflexivity|]. auto.
Qed.

(** ** the invariant *)
Definition clsigs (cl : cluster) (s : nat) : Prop := exists c, c ∈ cl_constraints cl /\ s ∈ take_signals c.
Definition conn (cl : cluster) : Prop := connected (cl_constraints cl).

Record cinv (no_linear : nat) (dest : nat) (rem : list nat) (arena : arena_t) (c2c s2c : list nat)
    (rep : nat -> nat) (done : list constraint) : Prop := {
  ci_len : length arena = length c2c;
  ci_n : (length c2c <= no_linear)%nat;
  ci_par : parents_ok c2c rep;
  ci_live : forall i, (i < length c2c)%nat ->
    if decide (rep i = i) then exists cl, arena !! i = Some (Some cl) /\ cl_constraints cl <> [] else arena !! i = Some None;
  ci_s2c : forall s v, s2c !! s = Some v -> v = no_linear \/ (v < length c2c)%nat;
  ci_sig : forall r cl s, arena !! r = Some (Some cl) -> clsigs cl s ->
    (exists v, s2c !! s = Some v /\ (v < length c2c)%nat /\ rep v = r) \/ (s ∈ rem /\ r = dest);
  ci_back : forall s v, s2c !! s = Some v -> (v < length c2c)%nat ->
    exists cl, arena !! rep v = Some (Some cl) /\ clsigs cl s;
  ci_conn : forall r cl, arena !! r = Some (Some cl) -> conn cl;
  ci_perm : concat (cl_constraints <$> omap id arena) ≡ₚ done;
}.

Lemma omap_insert_none (arena : arena_t) i cl : arena !! i = Some (Some cl) ->
  omap id arena ≡ₚ cl :: omap id (<[i := None]> arena).
Proof.
  intros Hi. pose proof (take_drop_middle arena i _ Hi) as E.
  assert (Hl : (i < length arena)%nat) by (apply lookup_lt_is_Some; eauto).
  rewrite insert_take_drop by assumption. rewrite <- E at 1.
  rewrite !omap_app. cbn. symmetry. apply Permutation_middle.
Qed.
Lemma insert_id_none (arena : arena_t) i : arena !! i = Some None -> <[i := None]> arena = arena.
Proof. apply list_insert_id. Qed.

Lemma connected_merge l1 l2 s :
  connected l1 -> connected l2 -> (exists c, c ∈ l1 /\ s ∈ take_signals c) -> (exists c, c ∈ l2 /\ s ∈ take_signals c) ->
  connected (l1 ++ l2).
Proof.
  intros H1 H2 S1 S2 x y (cx & Hcx & Hx) (cy & Hcy & Hy).
  assert (M1 : forall a b, rtc (linked l1) a b -> rtc (linked (l1 ++ l2)) a b).
  { intros a b. apply rtc_subrel. intros u v (c & Hc & Hu & Hv). exists c. rewrite elem_of_app. auto. }
  assert (M2 : forall a b, rtc (linked l2) a b -> rtc (linked (l1 ++ l2)) a b).
  { intros a b. apply rtc_subrel. intros u v (c & Hc & Hu & Hv). exists c. rewrite elem_of_app. auto. }
  apply elem_of_app in Hcx, Hcy.
  assert (X : rtc (linked (l1 ++ l2)) x s).
  { destruct Hcx as [Hcx|Hcx]; [apply M1, H1|apply M2, H2]; eauto. }
  assert (Y : rtc (linked (l1 ++ l2)) s y).
  { destruct Hcy as [Hcy|Hcy]; [apply M1, H1|apply M2, H2]; eauto. }
  etrans; eauto.
Qed.

(** one merge: [prev]'s cluster joins [dest]'s *)
Lemma arena_merge_spec no_linear dest rem arena c2c s2c rep done s prev cl0 n :
  cinv no_linear dest (s :: rem) arena c2c s2c rep done ->
  length c2c = S dest -> rep dest = dest -> arena !! dest = Some (Some cl0) ->
  clsigs cl0 s -> (S n <= cl_num_signals cl0)%nat ->
  s2c !! s = Some prev -> (prev < length c2c)%nat ->
  exists arena' c2c' rep' cl1, arena_merge arena c2c prev dest = Ok (arena', c2c') /\
    cinv no_linear dest rem arena' c2c' (<[s := dest]> s2c) rep' done /\
    length c2c' = length c2c /\ rep' dest = dest /\ arena' !! dest = Some (Some cl1) /\
    (forall x, clsigs cl0 x -> clsigs cl1 x) /\ (n <= cl_num_signals cl1)%nat.
Proof.
  intros CI Hdl Hrd Hcl0 Hs Hnum Hs2c Hprev. destruct CI.
  assert (Hd : (dest < length c2c)%nat) by lia.
  unfold arena_merge.
  destruct (shrink_spec c2c rep dest ci_par0 Hd) as (c1 & -> & HP1 & HL1). cbn [res_bind].
  destruct (shrink_spec c1 rep prev HP1 ltac:(lia)) as (c2 & -> & HP2 & HL2). cbn [res_bind].
  rewrite Hrd. unfold arena_take at 1. rewrite Hcl0. cbn [res_bind default id].
  destruct (ci_par0 prev Hprev) as (Hsrc & Hsrcr & _).
  set (src := rep prev) in *.
  assert (HsL : (src < length arena)%nat) by lia. assert (HdL : (dest < length arena)%nat) by lia.
  destruct (decide (src = dest)) as [Esd|Nsd].
  - (* same cluster already *)
    unfold arena_take. rewrite Esd, list_lookup_insert by assumption. cbn [res_bind default].
    unfold cl_merge. destruct cl0 as [l0 m0]. cbn in Hnum. cbn [cl_num_signals cl_default cl_constraints].
    destruct m0 as [|m0]; [lia|]. rewrite Nat.add_0_r. cbn [res_bind]. rewrite app_nil_r.
    rewrite !list_insert_insert.
    exists (<[dest := Some (Cluster l0 m0)]> arena), (<[dest := dest]> c2), rep, (Cluster l0 m0).
    split; [reflexivity|].
    assert (Hcd : c2 !! dest = Some dest).
    { destruct (HP2 dest ltac:(lia)) as (_ & _ & j & Hj & _ & _ & Hiff). rewrite Hj. f_equal. apply Hiff. assumption. }
    rewrite (list_insert_id _ _ _ Hcd).
    assert (Hlk : forall r cl, <[dest := Some (Cluster l0 m0)]> arena !! r = Some (Some cl) ->
        exists cl', arena !! r = Some (Some cl') /\ cl_constraints cl' = cl_constraints cl).
    { intros r cl Hr. destruct (decide (dest = r)) as [<-|Hne].
      - rewrite list_lookup_insert in Hr by assumption. injection Hr as <-. eexists; split; [exact Hcl0|reflexivity].
      - rewrite list_lookup_insert_ne in Hr by assumption. eauto. }
    split.
    { split.
      - rewrite insert_length. lia.
      - lia.
      - assumption.
      - intros i Hi. rewrite HL2, HL1 in Hi. specialize (ci_live0 i Hi). destruct (decide (rep i = i)) as [Hri|Hri].
        + destruct (decide (dest = i)) as [<-|Hne].
          * exists (Cluster l0 m0). rewrite list_lookup_insert by assumption. split; [reflexivity|].
            destruct ci_live0 as (cl & Hcl & Hn). rewrite Hcl0 in Hcl. injection Hcl as <-. exact Hn.
          * rewrite list_lookup_insert_ne by assumption. assumption.
        + rewrite list_lookup_insert_ne; [assumption|]. intros <-. contradiction.
      - intros x v Hx. rewrite HL2, HL1. destruct (decide (s = x)) as [<-|Hne].
        + rewrite list_lookup_insert in Hx by (apply lookup_lt_is_Some; eauto). injection Hx as <-. auto.
        + rewrite list_lookup_insert_ne in Hx by assumption. eauto.
      - intros r cl x Hr Hx. destruct (Hlk r cl Hr) as (cl' & Hr' & Hc'). rewrite HL2, HL1.
        assert (Hx' : clsigs cl' x) by (unfold clsigs in *; rewrite Hc'; exact Hx).
        destruct (decide (s = x)) as [<-|Hne].
        + rewrite list_lookup_insert by (apply lookup_lt_is_Some; eauto). left. exists dest.
          split; [reflexivity|]. split; [assumption|]. rewrite Hrd.
          destruct (ci_sig0 r cl' s Hr' Hx') as [(v & Hv & _ & Hvr)|[_ ->]]; [|reflexivity].
          rewrite Hs2c in Hv. injection Hv as <-. fold src in Hvr. congruence.
        + rewrite list_lookup_insert_ne by assumption.
          destruct (ci_sig0 r cl' x Hr' Hx') as [?|[Hin ->]]; [auto|]. right.
          apply elem_of_cons in Hin. destruct Hin as [->|]; [contradiction|auto].
      - intros x v Hx Hv. rewrite HL2, HL1 in Hv. destruct (decide (s = x)) as [<-|Hne].
        + rewrite list_lookup_insert in Hx by (apply lookup_lt_is_Some; eauto). injection Hx as <-. rewrite Hrd.
          exists (Cluster l0 m0). rewrite list_lookup_insert by assumption. auto.
        + rewrite list_lookup_insert_ne in Hx by assumption. destruct (ci_back0 x v Hx Hv) as (cl & Hcl & Hxcl).
          destruct (decide (dest = rep v)) as [E|Hne'].
          * rewrite <- E in *. exists (Cluster l0 m0). rewrite list_lookup_insert by assumption. split; [reflexivity|].
            rewrite Hcl0 in Hcl. injection Hcl as <-. exact Hxcl.
          * exists cl. rewrite list_lookup_insert_ne by assumption. auto.
      - intros r cl Hr. destruct (Hlk r cl Hr) as (cl' & Hr' & Hc'). unfold conn. rewrite <- Hc'. apply (ci_conn0 r cl' Hr').
      - etrans; [|exact ci_perm0].
        rewrite (omap_insert_none arena dest _ Hcl0).
        rewrite (omap_insert_none (<[dest := Some (Cluster l0 m0)]> arena) dest (Cluster l0 m0)) by (apply list_lookup_insert; assumption).
        rewrite list_insert_insert. reflexivity. }
    split; [lia|]. split; [assumption|]. split; [apply list_lookup_insert; assumption|].
    split; [auto|]. cbn. lia.
  - (* two clusters *)
    assert (Hsrc_live : exists cl1, arena !! src = Some (Some cl1) /\ clsigs cl1 s) by (apply (ci_back0 s prev Hs2c Hprev)).
    destruct Hsrc_live as (clS & HclS & HsS).
    unfold arena_take. rewrite list_lookup_insert_ne by congruence. rewrite HclS. cbn [res_bind default id].
    unfold cl_merge. destruct cl0 as [l0 m0], clS as [lS mS]. cbn in Hnum. cbn [cl_num_signals cl_constraints].
    destruct (m0 + mS)%nat as [|m] eqn:Em; [lia|]. cbn [res_bind].
    set (clM := Cluster (l0 ++ lS) m).
    set (arena' := <[dest := Some clM]> (<[src := None]> (<[dest := None]> arena))).
    set (rep' := fun i => if decide (rep i = src) then dest else rep i).
    exists arena', (<[src := dest]> c2), rep', clM. split; [reflexivity|].
    assert (Hlen' : length arena' = length arena) by (unfold arena'; rewrite !insert_length; reflexivity).
    assert (Hnb : dest <> src) by congruence.
    assert (HA_d : arena' !! dest = Some (Some clM)).
    { unfold arena'. apply list_lookup_insert. rewrite !insert_length. assumption. }
    assert (HA_s : arena' !! src = Some None).
    { unfold arena'. rewrite list_lookup_insert_ne by congruence. apply list_lookup_insert. rewrite insert_length. assumption. }
    assert (HA_o : forall i, i <> dest -> i <> src -> arena' !! i = arena !! i).
    { intros i H1 H2. unfold arena'. rewrite !list_lookup_insert_ne by congruence. reflexivity. }
    assert (Hrep'd : rep' dest = dest).
    { unfold rep'. rewrite Hrd. destruct (decide (dest = src)); reflexivity. }
    assert (Hlk : forall r cl, arena' !! r = Some (Some cl) ->
        (r = dest /\ cl = clM) \/ (r <> dest /\ r <> src /\ arena !! r = Some (Some cl))).
    { intros r cl Hr. destruct (decide (r = dest)) as [->|H1]; [rewrite HA_d in Hr; injection Hr as <-; auto|].
      destruct (decide (r = src)) as [->|H2]; [rewrite HA_s in Hr; discriminate|]. right. rewrite HA_o in Hr; auto. }
    assert (HM : forall x, clsigs clM x <-> clsigs (Cluster l0 m0) x \/ clsigs (Cluster lS mS) x).
    { intros x. unfold clsigs, clM. cbn [cl_constraints]. split.
      - intros (c & Hc & Hx). apply elem_of_app in Hc. destruct Hc; eauto.
      - intros [(c & Hc & Hx)|(c & Hc & Hx)]; exists c; rewrite elem_of_app; auto. }
    assert (HsB : (s < length s2c)%nat) by (apply lookup_lt_is_Some; eauto).
    split.
    { split.
      - rewrite Hlen', insert_length. lia.
      - rewrite insert_length. lia.
      - intros i Hi. rewrite insert_length in Hi |- *. destruct (HP2 i Hi) as (A & B & j & Hj & Hle & Hrep & Hiff).
        assert (Hri : (rep' i < length c2)%nat) by (unfold rep'; destruct (decide _); lia).
        assert (Hrri : rep' (rep' i) = rep' i).
        { unfold rep' at 2 3. destruct (decide (rep i = src)); [exact Hrep'd|].
          unfold rep'. rewrite B. destruct (decide (rep i = src)); congruence. }
        split; [assumption|]. split; [assumption|].
        destruct (decide (src = i)) as [<-|Hsi].
        + exists dest. rewrite list_lookup_insert by assumption. split; [reflexivity|]. split; [lia|].
          rewrite Hrep'd. unfold rep'. rewrite Hsrcr. destruct (decide (src = src)); [|congruence]. split; [reflexivity|].
          split; congruence.
        + exists j. rewrite list_lookup_insert_ne by assumption. split; [assumption|]. split; [assumption|].
          split; [unfold rep'; rewrite Hrep; reflexivity|]. rewrite Hiff. unfold rep'.
          destruct (decide (rep i = src)) as [E|]; [|reflexivity].
          split; [intros; congruence|]. intros <-. congruence.
      - intros i Hi. rewrite insert_length, HL2, HL1 in Hi. specialize (ci_live0 i Hi).
        destruct (decide (i = dest)) as [->|H1].
        { rewrite Hrep'd. destruct (decide (dest = dest)); [|congruence]. exists clM. split; [assumption|].
          rewrite Hrd in ci_live0. destruct (decide (dest = dest)); [|congruence].
          destruct ci_live0 as (cl & Hcl & Hn). rewrite Hcl0 in Hcl. injection Hcl as <-. cbn in Hn |- *.
          destruct l0; [congruence|discriminate]. }
        destruct (decide (i = src)) as [->|H2].
        { unfold rep'. rewrite Hsrcr. destruct (decide (src = src)); [|congruence].
          destruct (decide (dest = src)); [congruence|assumption]. }
        rewrite HA_o by assumption. unfold rep'. destruct (decide (rep i = src)) as [E|].
        + destruct (decide (rep i = i)) as [E'|]; [congruence|]. destruct (decide (dest = i)); [congruence|assumption].
        + assumption.
      - intros x v Hx. rewrite insert_length, HL2, HL1. destruct (decide (s = x)) as [<-|Hne].
        + rewrite list_lookup_insert in Hx by assumption. injection Hx as <-. auto.
        + rewrite list_lookup_insert_ne in Hx by assumption. eauto.
      - intros r cl x Hr Hx. rewrite insert_length, HL2, HL1.
        destruct (Hlk r cl Hr) as [[-> ->]|(H1 & H2 & Hr')].
        + destruct (decide (s = x)) as [<-|Hne].
          { left. exists dest. rewrite list_lookup_insert by assumption. auto. }
          rewrite list_lookup_insert_ne by assumption. apply HM in Hx. destruct Hx as [Hx|Hx].
          * destruct (ci_sig0 dest _ x Hcl0 Hx) as [(v & Hv & Hvl & Hvr)|[Hin _]].
            -- left. exists v. split; [assumption|]. split; [assumption|]. unfold rep'. rewrite Hvr.
               destruct (decide (dest = src)); congruence.
            -- right. apply elem_of_cons in Hin. destruct Hin; [congruence|auto].
          * destruct (ci_sig0 src _ x HclS Hx) as [(v & Hv & Hvl & Hvr)|[_ E]]; [|congruence].
            left. exists v. split; [assumption|]. split; [assumption|]. unfold rep'. rewrite Hvr.
            destruct (decide (src = src)); congruence.
        + destruct (ci_sig0 r cl x Hr' Hx) as [(v & Hv & Hvl & Hvr)|[_ E]]; [|congruence].
          left. destruct (decide (s = x)) as [<-|Hne].
          { rewrite Hs2c in Hv. injection Hv as <-. fold src in Hvr. congruence. }
          rewrite list_lookup_insert_ne by assumption. exists v. split; [assumption|]. split; [assumption|].
          unfold rep'. rewrite Hvr. destruct (decide (r = src)); congruence.
      - intros x v Hx Hv. rewrite insert_length, HL2, HL1 in Hv. destruct (decide (s = x)) as [<-|Hne].
        + rewrite list_lookup_insert in Hx by assumption. injection Hx as <-. rewrite Hrep'd.
          exists clM. split; [assumption|]. apply HM. auto.
        + rewrite list_lookup_insert_ne in Hx by assumption. destruct (ci_back0 x v Hx Hv) as (cl & Hcl & Hxcl).
          unfold rep'. destruct (decide (rep v = src)) as [E|E].
          * exists clM. split; [assumption|]. rewrite E, HclS in Hcl. injection Hcl as <-. apply HM. auto.
          * destruct (decide (rep v = dest)) as [E'|E'].
            -- rewrite E' in *. exists clM. split; [assumption|]. rewrite Hcl0 in Hcl. injection Hcl as <-. apply HM. auto.
            -- exists cl. rewrite HA_o by assumption. auto.
      - intros r cl Hr. destruct (Hlk r cl Hr) as [[-> ->]|(H1 & H2 & Hr')]; [|eauto].
        unfold conn, clM. cbn [cl_constraints]. apply (connected_merge l0 lS s).
        + apply (ci_conn0 dest _ Hcl0).
        + apply (ci_conn0 src _ HclS).
        + exact Hs.
        + exact HsS.
      - etrans; [|exact ci_perm0].
        rewrite (omap_insert_none arena' dest clM HA_d). unfold arena'. rewrite list_insert_insert.
        rewrite (list_insert_commute _ dest src) by assumption. rewrite list_insert_insert.
        rewrite (omap_insert_none arena dest _ Hcl0).
        rewrite (omap_insert_none (<[dest := None]> arena) src (Cluster lS mS)) by (rewrite list_lookup_insert_ne by assumption; assumption).
        cbn. rewrite <- app_assoc. reflexivity. }
    split; [rewrite insert_length; lia|]. split; [assumption|]. split; [assumption|].
    split; [intros x Hx; apply HM; auto|]. cbn. lia.
Qed.

Lemma cluster_signals_spec no_linear dest done : forall rem arena c2c s2c rep cl0,
  cinv no_linear dest rem arena c2c s2c rep done ->
  length c2c = S dest -> rep dest = dest -> arena !! dest = Some (Some cl0) ->
  (forall s, s ∈ rem -> clsigs cl0 s /\ (s < length s2c)%nat) -> (length rem <= cl_num_signals cl0)%nat ->
  exists arena' c2c' s2c' rep', cluster_signals no_linear dest rem arena c2c s2c = Ok (arena', c2c', s2c') /\
    cinv no_linear dest [] arena' c2c' s2c' rep' done /\ length c2c' = length c2c /\ length s2c' = length s2c.
Proof.
  induction rem as [|s rem IH]; intros arena c2c s2c rep cl0 CI Hlen Hrd Hcl0 Hrem Hnum.
  { cbn. eauto 10. }
  cbn [cluster_signals]. destruct (Hrem s ltac:(left)) as [Hs Hsl].
  destruct (lookup_lt_is_Some_2 s2c s Hsl) as [prev Hprev]. rewrite Hprev.
  cbn [length] in Hnum.
  destruct (ci_s2c _ _ _ _ _ _ _ _ CI s prev Hprev) as [Hp|Hp].
  - assert (Hb : (prev <? no_linear)%nat = false) by (apply Nat.ltb_ge; lia). rewrite Hb.
    assert (CI' : cinv no_linear dest rem arena c2c (<[s := dest]> s2c) rep done).
    { destruct CI. split; try assumption.
      - intros x v Hx. destruct (decide (s = x)) as [<-|Hne].
        + rewrite list_lookup_insert in Hx by assumption. injection Hx as <-. right. lia.
        + rewrite list_lookup_insert_ne in Hx by assumption. eauto.
      - intros r cl x Hr Hx. destruct (decide (s = x)) as [<-|Hne].
        + rewrite list_lookup_insert by assumption. left. exists dest. split; [reflexivity|]. split; [lia|].
          destruct (ci_sig0 r cl s Hr Hx) as [(v & Hv & Hvl & _)|[_ ->]]; [|assumption].
          rewrite Hprev in Hv. injection Hv as <-. lia.
        + rewrite list_lookup_insert_ne by assumption.
          destruct (ci_sig0 r cl x Hr Hx) as [?|[Hin ->]]; [auto|]. right.
          apply elem_of_cons in Hin. destruct Hin as [->|]; [contradiction|auto].
      - intros x v Hx Hv. destruct (decide (s = x)) as [<-|Hne].
        + rewrite list_lookup_insert in Hx by assumption. injection Hx as <-. rewrite Hrd. eauto.
        + rewrite list_lookup_insert_ne in Hx by assumption. eauto. }
    destruct (IH _ _ _ _ cl0 CI' Hlen Hrd Hcl0) as (a & b & c & d & E & C & L1 & L2).
    + intros x Hx. rewrite insert_length. apply Hrem. right. assumption.
    + lia.
    + exists a, b, c, d. rewrite insert_length in L2. auto.
  - pose proof (ci_n _ _ _ _ _ _ _ _ CI) as Hn.
    assert (Hb : (prev <? no_linear)%nat = true) by (apply Nat.ltb_lt; lia). rewrite Hb.
    destruct (arena_merge_spec no_linear dest rem arena c2c s2c rep done s prev cl0 (length rem) CI Hlen Hrd Hcl0 Hs Hnum Hprev Hp)
      as (arena' & c2c' & rep' & cl1 & -> & CI' & L & Hrd' & Hcl1 & HM & Hnum'). cbn [res_bind].
    destruct (IH _ _ _ _ cl1 CI' ltac:(lia) Hrd' Hcl1) as (a & b & c & d & E & C & L1 & L2).
    + intros x Hx. rewrite insert_length. destruct (Hrem x ltac:(right; assumption)). auto.
    + lia.
    + exists a, b, c, d. rewrite insert_length in L2. split; [assumption|]. split; [assumption|]. split; lia.
Qed.

Lemma connected_single c : connected [c].
Proof.
  intros x y (c1 & H1 & Hx) (c2 & H2 & Hy). apply elem_of_list_singleton in H1, H2. subst.
  apply rtc_once. exists c. rewrite elem_of_list_singleton. auto.
Qed.
Definition nonempty (c : constraint) : bool := negb (is_empty c).

Lemma cluster_loop_spec ord no_linear no_vars : (forall n, valid_set_order (ord n)) -> forall linear dest arena c2c s2c rep done,
  cinv no_linear dest [] arena c2c s2c rep done ->
  (forall c s, c ∈ linear -> s ∈ take_signals c -> (s < no_vars)%nat) -> length s2c = no_vars ->
  (length c2c + length linear <= no_linear)%nat ->
  exists arena' c2c' s2c' rep' dest', cluster_loop ord no_linear linear arena c2c s2c = Ok arena' /\
    cinv no_linear dest' [] arena' c2c' s2c' rep' (done ++ filter nonempty linear).
Proof.
  intros Hord. induction linear as [|c linear IH]; intros dest arena c2c s2c rep done CI Hv Hl Hn.
  { cbn [cluster_loop]. rewrite filter_nil, app_nil_r. eauto 10. }
  cbn [cluster_loop]. cbn [length] in Hn. destruct (is_empty c) eqn:Ee.
  { destruct (IH dest arena c2c s2c rep done CI) as (a & b & d & e & f & E & C).
    - intros; eapply Hv; [right|]; eassumption.
    - assumption.
    - lia.
    - exists a, b, d, e, f. split; [assumption|]. rewrite filter_cons_False; [assumption|]. unfold nonempty. rewrite Ee. auto. }
  set (sg := ord (length linear) (take_signals c)).
  assert (Hsg : forall s, s ∈ sg <-> s ∈ take_signals c).
  { intros s. unfold sg. rewrite (Hord (length linear) (take_signals c)). apply elem_of_elements. }
  set (d := length arena). pose proof (ci_len _ _ _ _ _ _ _ _ CI) as Hlen.
  set (rep1 := fun i => if decide (i = d) then d else rep i).
  assert (Hlk : forall i, (i < d)%nat -> forall A (l : list A) x, length l = d -> (l ++ [x]) !! i = l !! i).
  { intros i Hi A l x Hd. apply lookup_app_l. lia. }
  assert (Hlast : forall A (l : list A) x, length l = d -> (l ++ [x]) !! d = Some x).
  { intros A l x Hd. rewrite lookup_app_r by lia. rewrite Hd, Nat.sub_diag. reflexivity. }
  assert (CI1 : cinv no_linear d sg (arena ++ [Some (cl_new c (length sg))]) (c2c ++ [d]) s2c rep1 (done ++ [c])).
  { destruct CI. split.
    - rewrite !app_length. cbn. lia.
    - rewrite app_length. cbn. lia.
    - intros i Hi. rewrite app_length in Hi |- *. cbn in Hi |- *. unfold rep1.
      destruct (decide (i = d)) as [->|Hne].
      + split; [lia|]. split; [rewrite decide_True by reflexivity; reflexivity|]. exists d.
        rewrite Hlast by lia. split; [reflexivity|]. split; [lia|]. rewrite decide_True by reflexivity. tauto.
      + destruct (ci_par0 i ltac:(lia)) as (A & B & j & Hj & Hle & Hr & Hiff).
        split; [lia|]. rewrite decide_False by lia. split; [assumption|].
        exists j. rewrite Hlk by lia. split; [assumption|]. split; [lia|]. rewrite decide_False by lia. auto.
    - intros i Hi. rewrite app_length in Hi. cbn in Hi. unfold rep1.
      destruct (decide (i = d)) as [->|Hne].
      + rewrite decide_True by reflexivity. rewrite Hlast by lia. eexists. split; [reflexivity|]. discriminate.
      + rewrite Hlk by lia. apply ci_live0. lia.
    - intros s v Hs. rewrite app_length. cbn. destruct (ci_s2c0 s v Hs); [auto|]. right. lia.
    - intros r cl s Hr Hs. rewrite app_length. cbn. destruct (decide (r = d)) as [->|Hne].
      + rewrite Hlast in Hr by lia. injection Hr as <-. right. split; [|reflexivity]. apply Hsg.
        destruct Hs as (c' & Hc' & Hs). apply elem_of_list_singleton in Hc'. subst c'. assumption.
      + assert (Hrd : (r < d)%nat).
        { apply lookup_lt_Some in Hr. rewrite app_length in Hr. cbn in Hr. lia. }
        rewrite Hlk in Hr by lia. destruct (ci_sig0 r cl s Hr Hs) as [(v & Hsv & Hvl & Hvr)|[Hin _]]; [|inversion Hin].
        left. exists v. split; [assumption|]. split; [lia|]. unfold rep1. rewrite decide_False by lia. assumption.
    - intros s v Hs Hvl. rewrite app_length in Hvl. cbn in Hvl.
      destruct (ci_s2c0 s v Hs) as [->|Hvl']; [lia|].
      destruct (ci_back0 s v Hs Hvl') as (cl & Hcl & Hsc). exists cl. unfold rep1. rewrite decide_False by lia.
      destruct (ci_par0 v Hvl') as (Hrl & _). rewrite Hlk by lia. auto.
    - intros r cl Hr. destruct (decide (r = d)) as [->|Hne].
      + rewrite Hlast in Hr by lia. injection Hr as <-. apply connected_single.
      + assert (Hrd : (r < d)%nat).
        { apply lookup_lt_Some in Hr. rewrite app_length in Hr. cbn in Hr. lia. }
        rewrite Hlk in Hr by lia. eauto.
    - rewrite omap_app, fmap_app, concat_app. cbn. rewrite ci_perm0. reflexivity. }
  destruct (cluster_signals_spec no_linear d (done ++ [c]) sg _ _ s2c rep1 (cl_new c (length sg)) CI1)
    as (a & b & s' & r' & E & CI2 & L1 & L2).
  - rewrite app_length. cbn. lia.
  - unfold rep1. rewrite decide_True by reflexivity. reflexivity.
  - apply Hlast. reflexivity.
  - intros s Hs. split.
    + exists c. split; [left|]. apply Hsg. assumption.
    + rewrite Hl. apply (Hv c); [left|]. apply Hsg. assumption.
  - cbn. lia.
  - fold d. rewrite E. cbn [res_bind].
    destruct (IH d a b s' r' (done ++ [c]) CI2) as (a' & b' & s'' & r'' & d' & E' & CI3).
    + intros; eapply Hv; [right|]; eassumption.
    + lia.
    + rewrite L1, app_length. cbn. lia.
    + exists a', b', s'', r'', d'. split; [assumption|].
      rewrite filter_cons_True by (unfold nonempty; rewrite Ee; exact I).
      rewrite <- app_assoc in CI3. exact CI3.
Qed.

(** what the callers use *)
Lemma build_clusters_spec ord linear no_vars : (forall n, valid_set_order (ord n)) ->
  (forall c s, c ∈ linear -> s ∈ take_signals c -> (s < no_vars)%nat) ->
  exists cls, build_clusters ord linear no_vars = Ok cls /\
    concat (cl_constraints <$> cls) ≡ₚ filter nonempty linear /\
    (forall cl, cl ∈ cls -> cl_constraints cl <> [] /\ connected (cl_constraints cl)) /\
    (forall i j cli clj s, cls !! i = Some cli -> cls !! j = Some clj -> clsigs cli s -> clsigs clj s -> i = j).
Proof.
  intros Hord Hv. unfold build_clusters.
  destruct (cluster_loop_spec ord (length linear) no_vars Hord linear 0 [] [] (replicate no_vars (length linear)) id [])
    as (arena & c2c & s2c & rep & d & -> & CI).
  - split; cbn; try lia; try (intros; discriminate).
    + intros i Hi. cbn in Hi. lia.
    + intros s v Hs. apply lookup_replicate in Hs. destruct Hs as [-> _]. auto.
    + reflexivity.
  - assumption.
  - apply replicate_length.
  - cbn. lia.
  - destruct CI. cbn [app] in ci_perm0.
    assert (Hlive : forall cl, cl ∈ omap id arena -> cl_constraints cl <> []).
    { intros cl Hcl. apply elem_of_list_omap in Hcl. destruct Hcl as (o & Ho & Eo). cbn in Eo. subst o.
      apply elem_of_list_lookup in Ho. destruct Ho as [i Hi].
      assert (Hil : (i < length c2c)%nat) by (rewrite <- ci_len0; eapply lookup_lt_Some; eassumption).
      specialize (ci_live0 i Hil). destruct (decide (rep i = i)); [|congruence].
      destruct ci_live0 as (cl' & Hcl' & Hne). rewrite Hi in Hcl'. injection Hcl' as <-. assumption. }
    assert (HF : filter (fun cl => length (cl_constraints cl) <> 0%nat) (omap id arena) = omap id arena).
    { clear - Hlive. induction (omap id arena) as [|cl l IH]; [reflexivity|].
      rewrite filter_cons_True.
      - f_equal. apply IH. intros; apply Hlive. right. assumption.
      - specialize (Hlive cl ltac:(left)). destruct (cl_constraints cl); [congruence|discriminate]. }
    cbn [res_map res_bind]. exists (omap id arena). unfold res_map. cbn [res_bind]. rewrite HF. split; [reflexivity|].
    split; [assumption|]. split.
    { intros cl Hcl. split; [auto|]. apply elem_of_list_omap in Hcl. destruct Hcl as (o & Ho & Eo). cbn in Eo. subst o.
      apply elem_of_list_lookup in Ho. destruct Ho as [i Hi]. eapply ci_conn0; eassumption. }
    (* positions in the result against positions in the arena *)
    assert (HU : forall i j cli clj s, arena !! i = Some (Some cli) -> arena !! j = Some (Some clj) -> clsigs cli s -> clsigs clj s -> i = j).
    { intros i j cli clj s Hi Hj Hsi Hsj.
      destruct (ci_sig0 i cli s Hi Hsi) as [(v & Hv1 & _ & <-)|[Hin _]]; [|inversion Hin].
      destruct (ci_sig0 j clj s Hj Hsj) as [(w & Hw1 & _ & <-)|[Hin _]]; [|inversion Hin]. congruence. }
    clear - HU. induction arena as [|o arena IH]; [intros i j cli clj s Hi; discriminate|].
    assert (IH' := IH ltac:(intros i j cli clj s Hi Hj Hsi Hsj; specialize (HU (S i) (S j) cli clj s Hi Hj Hsi Hsj); lia)). clear IH.
    assert (Hin : forall k cl, omap id arena !! k = Some cl -> exists m, arena !! m = Some (Some cl)).
    { intros k cl Hk. apply elem_of_list_lookup_2 in Hk. apply elem_of_list_omap in Hk.
      destruct Hk as (o' & Ho' & Eo). cbn in Eo. subst o'. apply elem_of_list_lookup in Ho'. exact Ho'. }
    destruct o as [cl|]; cbn; [|assumption]. intros [|i] [|j] cli clj s Hi Hj Hsi Hsj.
    + reflexivity.
    + cbn in Hi, Hj. injection Hi as ->. destruct (Hin _ _ Hj) as [m Hm].
      specialize (HU 0%nat (S m) cli clj s eq_refl Hm Hsi Hsj). lia.
    + cbn in Hi, Hj. injection Hj as ->. destruct (Hin _ _ Hi) as [m Hm].
      specialize (HU 0%nat (S m) clj cli s eq_refl Hm Hsj Hsi). lia.
    + f_equal. eapply IH'; eassumption.
Qed.
