(** Removing the anonymous components of a statement keeps its meaning. *)
From Coq Require Import ZArith.
From stdpp Require Import base list strings gmap.
From Verif Require Import AnonModel AnonSpec AnonExpProofs AnonArgProofs AnonRemoveProofs.

Section stmts.
  Variable D : dom.
  Variable templates : gmap string stmt.
  Variable line : N -> N.
  Variable fuel : nat.
  Hypothesis Hinputs : forall f body, templates !! f = Some body -> NoDup (declaration_inputs body).
  Hypothesis Hcounts : counts D.

  Notation V := (val D).
  Notation eval := (eval D templates).
  Notation evals := (evals D templates).
  Notation exec := (exec D templates fuel).
  Notation run_all := (run_all D).
  Notation pures := (pures D templates).
  Notation remove_exp := (remove_anonymous_exp templates line).
  Notation remove_stmt := (remove_anonymous_stmt templates line).
  Notation State := (State D).
  Notation event := (event D).
  Notation created := (created D).
  Notation bmap := (gmap string (binding D)).

  (** The declarations made for anonymous components. *)
  Definition decl_ok (va : option exp) (vs : list string) (d : stmt) : Prop :=
    match d with
    | Declaration XComponent o [] _ => va = None
    | Declaration XAnonymousComponent o [Var c []] _ => c ∈ vs \/ va = Some (Var c [])
    | _ => False
    end.

  Definition va_ok (va : option exp) : Prop :=
    match va with None => True | Some v => exists c, v = Var c [] end.

  Lemma remove_exp_decls e : names_ok e -> forall va par ds ss e',
    va_ok va -> remove_exp va par e = Ok (ds, ss, e') -> Forall (decl_ok va []) ds.
  Proof.
    assert (Hlist : forall es va us, va_ok va ->
      Forall (fun e => forall va par ds ss e',
        va_ok va -> remove_exp va par e = Ok (ds, ss, e') -> Forall (decl_ok va []) ds) es ->
      Forall2 (fun r u => r = Ok u) (map (remove_exp va false) es) us ->
      Forall (decl_ok va []) (concat (map (fun u => u.1.1) us))).
    { intros es va us Hva HF. revert us. induction HF as [|e0 es He HF IH]; intros us H2; cbn in H2;
        inversion H2 as [|? [[ds ss] e'] ? us' Hr H2']; subst; cbn; [constructor|].
      apply Forall_app. split; [by eapply He|]. by apply IH. }
    induction e as [l op r _ _|op r _|c a b _ _ _|r IHr|x acc _|z|f args _|f args _
                   |pos f par params sigs names _ IH|vs IH|vs IH|v d _ _] using exp_ind';
      intros Hok va par' ds ss e' Hva Hr; cbn [remove_anonymous_exp] in Hr;
      try (injection Hr as <- <- <-; constructor).
    - destruct (is_anonymous_comp r) eqn:Er; [by eapply IHr|]. injection Hr as <- <- <-; constructor.
    - destruct (templates !! f) as [body|] eqn:Hf; [|done]. cbn in Hok. destruct Hok as [Hn Hs].
      rewrite inputs_map in Hr. unfold rmap in Hr.
      destruct (inputs_to_assignments body names sigs) as [ia0| |] eqn:Eia; cbn [rbind] in Hr; try done.
      destruct (inputs_arguments body names sigs ia0) as (_ & _ & Hperm); [by eapply Hinputs| |done|].
      { intros m ->. done. }
      match type of Hr with rbind ?c _ = _ => destruct c as [us| |] eqn:Ec; cbn [rbind] in Hr; try done end.
      apply collect_ok in Ec. injection Hr as <- <- <-.
      constructor. { destruct va as [v|]; [|done]. destruct Hva as [c ->]. cbn. by right. }
      assert (HF0 : Forall (fun x : string * (aop * exp) => forall va par ds ss e',
        va_ok va -> remove_exp va par x.2.2 = Ok (ds, ss, e') -> Forall (decl_ok va []) ds) ia0).
      { apply Forall_forall. intros x Hx. rewrite Forall_map in Hs. rewrite Forall_forall in IH, Hs.
        assert (Hin : x.2.2 ∈ sigs) by (rewrite <- Hperm; apply elem_of_list_fmap; by exists x).
        apply IH; [done|]. by apply Hs. }
      clear -HF0 Ec Hva. revert us Ec. induction HF0 as [|[x [op e]] ia0 He HF IH]; intros us Ec; cbn in Ec;
        inversion Ec as [|? [ds ss] ? us' Hr Ec']; subst; cbn; [constructor|].
      destruct (remove_exp va false e) as [[[ds0 ss0] e']| |] eqn:Er; cbn in Hr; try done.
      injection Hr as <- <-. apply Forall_app. split; [by eapply He|]. by apply IH.
    - cbn in Hok. rewrite Forall_map in Hok.
      destruct (collect _) as [us| |] eqn:Ec; cbn [rbind] in Hr; try done.
      apply collect_ok in Ec. unfold join_values in Hr. injection Hr as <- <- <-.
      eapply Hlist; [done| |done]. rewrite Forall_forall in *. intros e He. by apply IH, Hok.
    - cbn in Hok. rewrite Forall_map in Hok.
      destruct (collect _) as [us| |] eqn:Ec; cbn [rbind] in Hr; try done.
      apply collect_ok in Ec. unfold join_values in Hr. injection Hr as <- <- <-.
      eapply Hlist; [done| |done]. rewrite Forall_forall in *. intros e He. by apply IH, Hok.
  Qed.

  Lemma decl_ok_mono va vs vs' d : (forall c, c ∈ vs -> c ∈ vs') -> decl_ok va vs d -> decl_ok va vs' d.
  Proof. intros H. destruct d as [| | | |[| | | |] x [|[] [|]] an| | | | | | |]; cbn; try done; destruct acc; naive_solver. Qed.

  Lemma remove_stmt_decls s : parsed s -> forall va s' cs vs ss,
    va_ok va -> remove_stmt va s = Ok (s', cs, vs, ss) ->
    Forall (decl_ok va (decl_names vs)) cs /\ (cs = [] -> vs = [] /\ ss = []).
  Proof.
    assert (Hlist : forall l, Forall (fun s => parsed s -> forall va s' cs vs ss,
        va_ok va -> remove_stmt va s = Ok (s', cs, vs, ss) ->
        Forall (decl_ok va (decl_names vs)) cs /\ (cs = [] -> vs = [] /\ ss = [])) l ->
      Forall parsed l -> forall va us, va_ok va ->
      Forall2 (fun r u => r = Ok u) (map (remove_stmt va) l) us ->
      Forall (decl_ok va (decl_names (concat (map (fun u => u.1.2) us)))) (concat (map (fun u => u.1.1.2) us)) /\
      (concat (map (fun u => u.1.1.2) us) = [] -> concat (map (fun u => u.1.2) us) = [] /\ concat (map snd us) = [])).
    { intros l HF HP va us Hva. revert us.
      induction HF as [|s0 l Hs HF IH]; intros us H2; cbn in H2;
        inversion H2 as [|? [[[s' cs] vs] ss] ? us' Hr H2']; subst; cbn; [done|].
      apply Forall_cons in HP as [HP1 HP2]. destruct (Hs HP1 _ _ _ _ _ Hva Hr) as [H1 H1'].
      destruct (IH HP2 _ H2') as [H3 H3']. unfold decl_names in *. rewrite map_app. split.
      - apply Forall_app. split; (eapply Forall_impl; [eassumption|]); intros d Hd;
          (eapply decl_ok_mono; [|exact Hd]); intros c Hc; apply elem_of_app; auto.
      - intros [-> Hnil]%app_nil. destruct (H1' eq_refl) as [-> ->]. destruct (H3' Hnil) as [-> ->]. done. }
    induction s as [c a b IHa IHb|pos c s IHs|e|t l IH|t x dims an|x acc op e|l op r|op e|l r|args|l IH|e]
      using stmt_ind'; intros Hp va s' cs vs ss Hva Hr; cbn [remove_anonymous_stmt] in Hr;
      try discriminate Hr; try (injection Hr as <- <- <- <-; done).
    - destruct Hp as [Hpa Hpb].
      destruct (remove_stmt va a) as [[[[a' cs1] vs1] ss1]| |] eqn:Ea; cbn [rbind] in Hr; try done.
      destruct (IHa Hpa _ _ _ _ _ Hva Ea) as [H1 H1'].
      destruct b as [b|]; [|by injection Hr as <- <- <- <-].
      destruct (remove_stmt va b) as [[[[b' cs2] vs2] ss2]| |] eqn:Eb; cbn [rbind] in Hr; try done.
      injection Hr as <- <- <- <-. destruct (IHb b eq_refl Hpb _ _ _ _ _ Hva Eb) as [H2 H2'].
      unfold decl_names in *. rewrite map_app. split.
      + apply Forall_app. split; (eapply Forall_impl; [eassumption|]); intros d Hd;
          (eapply decl_ok_mono; [|exact Hd]); intros c' Hc; apply elem_of_app; auto.
      + intros [Hc1 Hc2]%app_nil. destruct (H1' Hc1) as [-> ->]. by destruct (H2' Hc2) as [-> ->].
    - destruct Hp as [_ Hp].
      destruct (remove_stmt _ s) as [[[[body cs1] vs1] ss1]| |] eqn:Es; cbn [rbind] in Hr; try done.
      assert (Hv : va_ok (Some (Var (counter_name line pos) []))) by (by eexists).
      destruct (IHs Hp _ _ _ _ _ Hv Es) as [H1 H1'].
      destruct cs1 as [|d cs1]; injection Hr as <- <- <- <-; [done|]. split; [|done].
      eapply Forall_impl; [exact H1|].
      intros d' Hd'. destruct d' as [| | | |[| | | |] x [|[] [|]] an| | | | | | |]; cbn in *; try done.
      destruct acc; [|done]. left. destruct Hd' as [?|[= <-]]; [by right|left].
    - cbn in Hp. rewrite Forall_map in Hp.
      destruct (collect _) as [us| |] eqn:Ec; cbn [rbind] in Hr; try done.
      apply collect_ok in Ec. unfold join_stmts in Hr. injection Hr as <- <- <- <-.
      by apply (Hlist l).
    - cbn in Hp. destruct (remove_exp va false e) as [[[ds ss0] e']| |] eqn:Ee; cbn [rbind] in Hr; try done.
      injection Hr as <- <- <- <-. split; [|done]. by eapply remove_exp_decls.
    - cbn in Hp. destruct (remove_exp va false r) as [[[ds ss0] e']| |] eqn:Ee; cbn [rbind] in Hr; try done.
      injection Hr as <- <- <- <-. split; [|done]. by eapply remove_exp_decls.
    - cbn in Hp. rewrite Forall_map in Hp.
      destruct (collect _) as [us| |] eqn:Ec; cbn [rbind] in Hr; try done.
      apply collect_ok in Ec. unfold join_stmts in Hr. injection Hr as <- <- <- <-.
      by apply (Hlist l).
  Qed.

  (** What is known of the instances created so far for a declaration. *)
  Definition inv1 (fresh : bool) (cur : option exp) (X : bmap) (tr : list event) (d : stmt) : Prop :=
    match d with
    | Declaration XComponent o [] _ =>
        X !! o = Some (BComponent D) /\ o ≠ "_"%string /\
        (fresh = true -> forall idx, created (o, idx) tr = false)
    | Declaration XAnonymousComponent o [Var c []] _ =>
        X !! o = Some (BComponent D) /\ o ≠ "_"%string /\
        exists n, X !! c = Some (BVar D (vnum D n)) /\
          forall idx, created (o, idx) tr = true ->
            exists k, idx = [vnum D k] /\ (k < n \/ (k = n /\ cur = Some (Var c [])))%Z
    | _ => False
    end.

  Lemma inv1_weaken cur X tr d : inv1 true None X tr d -> inv1 false cur X tr d.
  Proof.
    destruct d as [| | | |[| | | |] x [|[] [|]] an| | | | | | |]; cbn; try done.
    - naive_solver.
    - destruct acc; [|done]. intros (H1 & H2 & n & Hn & H). split_and!; [done..|]. exists n.
      split; [done|]. intros idx Hi. destruct (H idx Hi) as (k & -> & [?|[_ ?]]); [|done]. eauto.
  Qed.

  Lemma inv1_frame fresh cur va vs X X' tr new d :
    decl_ok va vs d ->
    inv1 fresh cur X tr d ->
    X' !! decl_name d = X !! decl_name d ->
    (forall c, c ∈ vs \/ va = Some (Var c []) -> X' !! c = X !! c) ->
    (forall i f ps b, ECreate D i f ps b ∈ new -> i.1 ≠ decl_name d) ->
    inv1 fresh cur X' (new ++ tr) d.
  Proof.
    intros Hd Hi Hn Hc Hnew.
    assert (Hcr : forall idx, created (decl_name d, idx) (new ++ tr) = created (decl_name d, idx) tr).
    { intros idx. rewrite created_app.
      rewrite (created_false D (decl_name d, idx) new); [done|].
      intros j f ps b Hj ->. by apply Hnew in Hj. }
    destruct d as [| | | |[| | | |] x [|[] [|]] an| | | | | | |]; cbn in *; try done.
    - destruct Hi as (H1 & H2 & H3). split_and!; [by rewrite Hn|done|]. intros Hf idx.
      rewrite Hcr. by apply H3.
    - destruct acc; [|done]. destruct Hi as (H1 & H2 & n & Hx & H3). split_and!; [by rewrite Hn|done|].
      exists n. rewrite Hc by done. split; [done|]. intros idx. rewrite Hcr. apply H3.
  Qed.

  (** The locals of the new and of the old program. *)
  Definition same_locals (X : bmap) (Lt L : gset string) : Prop :=
    forall x, X !! x = None -> (x ∈ Lt <-> x ∈ L).

  Definition va_bound (X : bmap) (va : option exp) (cs : list stmt) (vs : list string) : Prop :=
    match va with
    | None => True
    | Some v => exists c n, v = Var c [] /\
        (cs ≠ [] -> X !! c = Some (BVar D (vnum D n)) /\ c ∉ vs)
    end.

  Record pre (X : bmap) (va : option exp) (cs : list stmt) (vs : list string) (tr : list event) : Prop := {
    pre_inv : Forall (inv1 true None X tr) cs;
    pre_va : va_bound X va cs vs;
    pre_nodup : NoDup (decl_names cs ++ vs);
    pre_counters : forall c, c ∈ vs -> c ≠ "_"%string /\ exists n, X !! c = Some (BVar D (vnum D n));
  }.

  Record post (q : bool) (X X' : bmap) (va : option exp) (cs : list stmt) (vs : list string)
      (tr new : list event) (ids : list (inst V)) (Lt Lt' L L' : gset string) (nd : Prop) : Prop := {
    post_inv : Forall (inv1 q (if q then None else va) X' (new ++ tr)) cs;
    post_same : forall x, x ∉ vs -> X' !! x = X !! x;
    post_counters : forall c, c ∈ vs -> exists n, X' !! c = Some (BVar D (vnum D n));
    post_new : forall i f ps b, ECreate D i f ps b ∈ new -> i.1 ∈ decl_names cs \/ X !! i.1 = None;
    post_ids : Forall (fun i => created i new = true) ids;
    post_Lt : forall x, x ∈ Lt' -> x ∈ Lt \/ X !! x = None;
    post_L : forall x, x ∈ L' -> x ∈ L \/ X !! x = None;
    post_locals : same_locals X Lt L -> same_locals X Lt' L';
    post_nodecl : nd -> Lt' = Lt /\ L' = L;
  }.

  (** The new program [tgt] does what the old one, [src], does. *)
  Definition ssim (q : bool) (nd : Prop) (names : list string) (va : option exp) (cs : list stmt)
      (vs : list string) (tgt src : state D -> out D (state D)) : Prop :=
    forall X m Lt L tr,
      pre X va cs vs tr ->
      (forall x, x ∈ names -> X !! x = None) ->
      (nd \/ same_locals X Lt L) ->
      exists ids : list (inst V),
        NoDup ids /\ Forall (fun i => i.1 ∈ decl_names cs /\ created i tr = false) ids /\
        match tgt (State (X ∪ m) Lt tr []) with
        | Done t => exists X' m' Lt' L' new,
            t = State (X' ∪ m') Lt' (new ++ tr) [] /\
            (forall rest, src (State m L tr (ids ++ rest)) = Done (State m' L' (new ++ tr) rest)) /\
            post q X X' va cs vs tr new ids Lt Lt' L L' nd
        | Returned tr' v => forall rest, src (State m L tr (ids ++ rest)) = Returned tr' v
        | Failed => forall rest, src (State m L tr (ids ++ rest)) = Failed
        | OutOfFuel => forall rest, src (State m L tr (ids ++ rest)) = OutOfFuel
        | OutOfNames => False
        end.

  Lemma post_dom q X X' va cs vs tr new ids Lt Lt' L L' nd :
    pre X va cs vs tr -> post q X X' va cs vs tr new ids Lt Lt' L L' nd ->
    forall x, X' !! x = None <-> X !! x = None.
  Proof.
    intros Hpre Hpost x. destruct (decide (x ∈ vs)) as [Hx|Hx].
    - destruct (pre_counters _ _ _ _ _ Hpre x Hx) as (_ & n & ->).
      destruct (post_counters _ _ _ _ _ _ _ _ _ _ _ _ _ _ Hpost x Hx) as (n' & ->). done.
    - by rewrite (post_same _ _ _ _ _ _ _ _ _ _ _ _ _ _ Hpost x Hx).
  Qed.

  Lemma ssim_ext q nd names va cs vs tgt tgt' src src' :
    (forall st, tgt st = tgt' st) -> (forall st, src st = src' st) ->
    ssim q nd names va cs vs tgt src -> ssim q nd names va cs vs tgt' src'.
  Proof.
    intros Ht Hs H X m Lt L tr Hpre Hn Hl.
    destruct (H X m Lt L tr Hpre Hn Hl) as (ids & H1 & H2 & H3). exists ids. split_and!; [done..|].
    rewrite <- Ht. destruct (tgt _) as [t|tr' v| | |]; try done.
    - destruct H3 as (X' & m' & Lt' & L' & new & -> & Hsrc & Hpost).
      exists X', m', Lt', L', new. split_and!; [done| |done]. intros rest. by rewrite <- Hs.
    - intros rest. by rewrite <- Hs.
    - intros rest. by rewrite <- Hs.
    - intros rest. by rewrite <- Hs.
  Qed.

  Lemma ssim_weaken q (nd nd' : Prop) names names' va cs vs tgt src :
    (nd' -> nd) -> (nd \/ ~ nd) -> (forall x, x ∈ names -> x ∈ names') ->
    ssim q nd names va cs vs tgt src -> ssim q nd' names' va cs vs tgt src.
  Proof.
    intros Hnd Hdec Hnames H X m Lt L tr Hpre Hn Hl.
    destruct (H X m Lt L tr Hpre) as (ids & H1 & H2 & H3); [auto|tauto|].
    exists ids. split_and!; [done..|]. destruct (tgt _) as [t|tr' v| | |]; try done.
    destruct H3 as (X' & m' & Lt' & L' & new & -> & Hsrc & []).
    exists X', m', Lt', L', new. split_and!; [done..|]. split; auto.
  Qed.

  Lemma ssim_to_false nd names va cs vs tgt src :
    ssim true nd names va cs vs tgt src -> ssim false nd names va cs vs tgt src.
  Proof.
    intros H X m Lt L tr Hpre Hn Hl.
    destruct (H X m Lt L tr Hpre Hn Hl) as (ids & H1 & H2 & H3). exists ids. split_and!; [done..|].
    destruct (tgt _) as [t|tr' v| | |]; try done.
    destruct H3 as (X' & m' & Lt' & L' & new & -> & Hsrc & []).
    exists X', m', Lt', L', new. split_and!; [done..|]. split; try done.
    eapply Forall_impl; [eassumption|]. intros d. apply inv1_weaken.
  Qed.

  Lemma inv1_bound q cur X tr d : inv1 q cur X tr d -> is_Some (X !! decl_name d).
  Proof.
    destruct d as [| | | |[| | | |] x [|[] [|]] an| | | | | | |]; cbn; try done.
    - intros (H & _). by eexists.
    - destruct acc; [|done]. intros (H & _). by eexists.
    - by destruct acc.
  Qed.

  (** A statement without anonymous components. *)
  Lemma ssim_plain nd names va cs vs tgt src :
    (forall X m Lt L tr, (forall x, x ∈ names -> X !! x = None) -> (nd \/ same_locals X Lt L) ->
       match tgt (State (X ∪ m) Lt tr []) with
       | Done t => exists m' Lt' L' new,
           t = State (X ∪ m') Lt' (new ++ tr) [] /\
           (forall rest, src (State m L tr rest) = Done (State m' L' (new ++ tr) rest)) /\
           (forall i f ps b, ECreate D i f ps b ∈ new -> X !! i.1 = None) /\
           (forall x, x ∈ Lt' -> x ∈ Lt \/ X !! x = None) /\
           (forall x, x ∈ L' -> x ∈ L \/ X !! x = None) /\
           (same_locals X Lt L -> same_locals X Lt' L') /\
           (nd -> Lt' = Lt /\ L' = L)
       | Returned tr' v => forall rest, src (State m L tr rest) = Returned tr' v
       | Failed => forall rest, src (State m L tr rest) = Failed
       | OutOfFuel => forall rest, src (State m L tr rest) = OutOfFuel
       | OutOfNames => False
       end) ->
    Forall (decl_ok va vs) cs ->
    ssim true nd names va cs vs tgt src.
  Proof.
    intros H Hok X m Lt L tr Hpre Hn Hl. exists []. split_and!; [constructor|constructor|].
    specialize (H X m Lt L tr Hn Hl). destruct (tgt _) as [t|tr' v| | |]; try done.
    destruct H as (m' & Lt' & L' & new & -> & Hsrc & Hcr & ? & ? & ? & ?).
    exists X, m', Lt', L', new. split_and!; [done..|]. split; try done.
    - pose proof (pre_inv _ _ _ _ _ Hpre) as Hi. rewrite Forall_forall in *. intros d Hd.
      eapply inv1_frame; [by apply Hok|by apply Hi|done|done|].
      intros i f ps b Hib Heq. specialize (Hcr i f ps b Hib). specialize (Hi d Hd).
      rewrite Heq in Hcr. apply inv1_bound in Hi as [? Hi]. by rewrite Hcr in Hi.
    - intros c Hc. by apply (pre_counters _ _ _ _ _ Hpre).
    - intros i f ps b Hib. right. by eapply Hcr.
  Qed.

  Lemma decl_name_in d cs : d ∈ cs -> decl_name d ∈ decl_names cs.
  Proof. intros H. apply elem_of_list_fmap. by exists d. Qed.

  Ltac ins :=
    repeat match goal with
           | H : _ ∈ _ ++ _ |- _ => rewrite elem_of_app in H
           | H : _ ∉ _ ++ _ |- _ => rewrite elem_of_app in H
           end;
    rewrite ?elem_of_app; tauto.

  (** One after the other. *)
  Lemma ssim_seq nd1 nd2 names va cs1 cs2 vs1 vs2 t1 t2 s1 s2 :
    Forall (decl_ok va vs1) cs1 -> Forall (decl_ok va vs2) cs2 ->
    ssim false nd1 names va cs1 vs1 t1 s1 -> ssim false nd2 names va cs2 vs2 t2 s2 ->
    ssim false (nd1 /\ nd2) names va (cs1 ++ cs2) (vs1 ++ vs2)
      (fun st => obind D (t1 st) t2) (fun st => obind D (s1 st) s2).
  Proof.
    intros Hok1 Hok2 H1 H2 X m Lt L tr Hpre Hn Hl.
    destruct Hpre as [Hinv Hva Hnd Hcount].
    unfold decl_names in *. rewrite map_app in *.
    apply Forall_app in Hinv as [Hinv1 Hinv2].
    assert (Hd : NoDup (map decl_name cs1 ++ map decl_name cs2 ++ vs1 ++ vs2)) by (by rewrite app_assoc).
    apply NoDup_app in Hd as (Hd1 & Hd1' & Hd). apply NoDup_app in Hd as (Hd2 & Hd2' & Hd).
    apply NoDup_app in Hd as (Hd3 & Hd3' & Hd4).
    assert (Hpre1 : pre X va cs1 vs1 tr).
    { split; [done| |..].
      - destruct va as [v|]; [|done]. destruct Hva as (c & n & -> & Hva). exists c, n. split; [done|].
        intros Hne. destruct Hva as [Hva1 Hva2]; [by destruct cs1|]. split; [done|ins].
      - apply NoDup_app. split_and!; [done| |done]. intros x Hx Hx'. apply (Hd1' x Hx). ins.
      - intros c Hc. apply Hcount. ins. }
    destruct (H1 X m Lt L tr Hpre1) as (ids1 & Hids1 & Hfr1 & Hrun1); [done|tauto|].
    destruct (t1 (State (X ∪ m) Lt tr [])) as [t|tr' v| | |]; cbn [obind].
    2-4: exists ids1; split_and!; [done| |intros rest; by rewrite Hrun1];
      eapply Forall_impl; [exact Hfr1|]; intros i [? ?]; split; [ins|done].
    2: by destruct Hrun1.
    destruct Hrun1 as (X1 & m1 & Lt1 & L1 & new1 & -> & Hs1 & Hpost1).
    pose proof (post_dom _ _ _ _ _ _ _ _ _ _ _ _ _ _ Hpre1 Hpost1) as Hdom1.
    destruct Hpost1 as [Pinv1 Psame1 Pcount1 Pnew1 Pids1 PLt1 PL1 Plocals1 Pnd1].
    assert (Hpre2 : pre X1 va cs2 vs2 (new1 ++ tr)).
    { split.
      - rewrite Forall_forall in *. intros d Hdd.
        pose proof (inv1_bound _ _ _ _ _ (Hinv2 d Hdd)) as [b Hb].
        pose proof (decl_name_in d cs2 Hdd) as Hdn. unfold decl_names in Hdn.
        eapply inv1_frame; [by apply Hok2|by apply Hinv2|..].
        + apply Psame1. intros Hx. apply (Hd2' (decl_name d)); ins.
        + intros c [Hc|Hc].
          * apply Psame1. intros Hx. by apply (Hd3' c).
          * subst va. destruct Hva as (c' & n & [= <-] & Hva). destruct Hva as [Hva1 Hva2].
            { by destruct cs1, cs2; try by apply elem_of_nil in Hdd. }
            apply Psame1. ins.
        + intros i f ps b' Hi Heq. destruct (Pnew1 _ _ _ _ Hi) as [Hin|Hnone].
          * rewrite Heq in Hin. apply (Hd1' (decl_name d) Hin). ins.
          * rewrite Heq, Hb in Hnone. done.
      - destruct va as [v|]; [|done]. destruct Hva as (c & n & -> & Hva). exists c, n. split; [done|].
        intros Hne. destruct Hva as [Hva1 Hva2]; [by destruct cs1, cs2|].
        split; [|ins]. rewrite Psame1; [done|ins].
      - apply NoDup_app. split_and!; [done| |done]. intros x Hx Hx'. apply (Hd2' x Hx). ins.
      - intros c Hc. destruct (Hcount c) as (? & n & Hn0); [ins|]. split; [done|].
        exists n. rewrite Psame1; [done|]. intros Hx. by apply (Hd3' c). }
    destruct (H2 X1 m1 Lt1 L1 (new1 ++ tr) Hpre2) as (ids2 & Hids2 & Hfr2 & Hrun2).
    { intros x Hx. by apply Hdom1, Hn. }
    { destruct Hl as [[_ ?]|Hl]; [by left|right]. intros x Hx. apply Plocals1; [done|]. by apply Hdom1. }
    exists (ids1 ++ ids2). split_and!.
    - apply NoDup_app. split_and!; [done| |done]. intros i Hi1 Hi2.
      rewrite Forall_forall in *. destruct (Hfr2 i Hi2) as [_ Hc]. rewrite created_app in Hc.
      by rewrite (Pids1 i Hi1) in Hc.
    - rewrite Forall_forall in *. intros i Hi. apply elem_of_app in Hi as [Hi|Hi].
      + destruct (Hfr1 i Hi). split; [ins|done].
      + destruct (Hfr2 i Hi) as [? Hc]. rewrite created_app in Hc. apply orb_false_iff in Hc as [_ Hc].
        split; [ins|done].
    - destruct (t2 _) as [t|tr' v| | |].
      2-4: intros rest; rewrite <- app_assoc, Hs1; cbn [obind]; apply Hrun2.
      2: done.
      destruct Hrun2 as (X2 & m2 & Lt2 & L2 & new2 & -> & Hs2 & Hpost2).
      pose proof (post_dom _ _ _ _ _ _ _ _ _ _ _ _ _ _ Hpre2 Hpost2) as Hdom2.
      destruct Hpost2 as [Pinv2 Psame2 Pcount2 Pnew2 Pids2 PLt2 PL2 Plocals2 Pnd2].
      exists X2, m2, Lt2, L2, (new2 ++ new1). split_and!.
      + by rewrite app_assoc.
      + intros rest. rewrite <- app_assoc, Hs1. cbn [obind]. by rewrite Hs2, app_assoc.
      + split.
        * rewrite <- app_assoc. apply Forall_app. split; [|done].
          rewrite Forall_forall in *. intros d Hdd.
          pose proof (inv1_bound _ _ _ _ _ (Pinv1 d Hdd)) as [b Hb].
          pose proof (decl_name_in d cs1 Hdd) as Hdn. unfold decl_names in Hdn.
          eapply inv1_frame; [by apply Hok1|by apply Pinv1|..].
          -- apply Psame2. intros Hx. apply (Hd1' (decl_name d)); ins.
          -- intros c [Hc|Hc].
             ++ apply Psame2. intros Hx. by apply (Hd3' c).
             ++ subst va. destruct Hva as (c' & n & [= <-] & Hva). destruct Hva as [Hva1 Hva2].
                { by destruct cs1; [apply elem_of_nil in Hdd|]. }
                apply Psame2. ins.
          -- intros i f ps b' Hi Heq. destruct (Pnew2 _ _ _ _ Hi) as [Hin|Hnone].
             ++ rewrite Heq in Hin. apply (Hd1' (decl_name d) Hdn). ins.
             ++ rewrite Heq, Hb in Hnone. done.
        * intros x Hx. rewrite Psame2, Psame1; [done|ins..].
        * intros c Hc. apply elem_of_app in Hc as [Hc|Hc]; [|by apply Pcount2].
          destruct (Pcount1 c Hc) as [n Hn1]. exists n. rewrite Psame2; [done|].
          intros Hx. by apply (Hd3' c).
        * intros i f ps b Hi. unfold decl_names. rewrite map_app.
          apply elem_of_app in Hi as [Hi|Hi].
          -- destruct (Pnew2 _ _ _ _ Hi) as [?|?]; [left; ins|right; by apply Hdom1].
          -- destruct (Pnew1 _ _ _ _ Hi) as [?|?]; [left; ins|by right].
        * apply Forall_app. split; (eapply Forall_impl; [eassumption|]); intros i Hi;
            rewrite created_app; apply orb_true_iff; auto.
        * intros x Hx. destruct (PLt2 x Hx) as [Hx'|?]; [by apply PLt1|right; by apply Hdom1].
        * intros x Hx. destruct (PL2 x Hx) as [Hx'|?]; [by apply PL1|right; by apply Hdom1].
        * intros Hsl x Hx. apply Plocals2; [|by apply Hdom1]. intros y Hy.
          apply Plocals1; [done|]. by apply Hdom1.
        * intros [Hnd1 Hnd2]. destruct (Pnd1 Hnd1) as [-> ->]. by apply Pnd2.
  Qed.

  (** Again and again. *)
  Lemma ssim_again names va cs vs t1 t2 s1 s2 :
    ssim true True names va cs vs t1 s1 -> ssim true True names va cs vs t2 s2 ->
    ssim true True names va cs vs (fun st => obind D (t1 st) t2) (fun st => obind D (s1 st) s2).
  Proof.
    intros H1 H2 X m Lt L tr Hpre Hn Hl.
    destruct (H1 X m Lt L tr Hpre Hn Hl) as (ids1 & Hids1 & Hfr1 & Hrun1).
    destruct (t1 (State (X ∪ m) Lt tr [])) as [t|tr' v| | |]; cbn [obind].
    2-4: exists ids1; split_and!; [done..|intros rest; by rewrite Hrun1].
    2: by destruct Hrun1.
    destruct Hrun1 as (X1 & m1 & Lt1 & L1 & new1 & -> & Hs1 & Hpost1).
    pose proof (post_dom _ _ _ _ _ _ _ _ _ _ _ _ _ _ Hpre Hpost1) as Hdom1.
    destruct Hpost1 as [Pinv1 Psame1 Pcount1 Pnew1 Pids1 PLt1 PL1 Plocals1 Pnd1].
    destruct Hpre as [Hinv Hva Hnd Hcount].
    assert (Hpre2 : pre X1 va cs vs (new1 ++ tr)).
    { split; [done| |done|].
      - destruct va as [v|]; [|done]. destruct Hva as (c & n & -> & Hva). exists c, n. split; [done|].
        intros Hne. destruct Hva as [Hva1 Hva2]; [done|]. split; [|done]. by rewrite Psame1.
      - intros c Hc. destruct (Hcount c Hc) as (? & n & Hn0). split; [done|]. by apply Pcount1. }
    destruct (H2 X1 m1 Lt1 L1 (new1 ++ tr) Hpre2) as (ids2 & Hids2 & Hfr2 & Hrun2).
    { intros x Hx. by apply Hdom1, Hn. }
    { by left. }
    exists (ids1 ++ ids2). split_and!.
    - apply NoDup_app. split_and!; [done| |done]. intros i Hi1 Hi2.
      rewrite Forall_forall in *. destruct (Hfr2 i Hi2) as [_ Hc]. rewrite created_app in Hc.
      by rewrite (Pids1 i Hi1) in Hc.
    - rewrite Forall_forall in *. intros i Hi. apply elem_of_app in Hi as [Hi|Hi]; [by apply Hfr1|].
      destruct (Hfr2 i Hi) as [? Hc]. rewrite created_app in Hc. by apply orb_false_iff in Hc as [_ Hc].
    - destruct (t2 _) as [t|tr' v| | |].
      2-4: intros rest; rewrite <- app_assoc, Hs1; cbn [obind]; apply Hrun2.
      2: done.
      destruct Hrun2 as (X2 & m2 & Lt2 & L2 & new2 & -> & Hs2 & Hpost2).
      destruct Hpost2 as [Pinv2 Psame2 Pcount2 Pnew2 Pids2 PLt2 PL2 Plocals2 Pnd2].
      exists X2, m2, Lt2, L2, (new2 ++ new1). split_and!.
      + by rewrite app_assoc.
      + intros rest. rewrite <- app_assoc, Hs1. cbn [obind]. by rewrite Hs2, app_assoc.
      + split; [by rewrite <- app_assoc|..].
        * intros x Hx. by rewrite Psame2, Psame1.
        * done.
        * intros i f ps b Hi. apply elem_of_app in Hi as [Hi|Hi].
          -- destruct (Pnew2 _ _ _ _ Hi) as [?|?]; [by left|right; by apply Hdom1].
          -- by eapply Pnew1.
        * apply Forall_app. split; (eapply Forall_impl; [eassumption|]); intros i Hi;
            rewrite created_app; apply orb_true_iff; auto.
        * intros x Hx. destruct (PLt2 x Hx) as [Hx'|?]; [by apply PLt1|right; by apply Hdom1].
        * intros x Hx. destruct (PL2 x Hx) as [Hx'|?]; [by apply PL1|right; by apply Hdom1].
        * intros Hsl x Hx. apply Plocals2; [|by apply Hdom1]. intros y Hy.
          apply Plocals1; [done|]. by apply Hdom1.
        * intros _. destruct (Pnd1 I) as [-> ->]. by apply Pnd2.
  Qed.

  (** A block. *)
  Definition in_block (f : state D -> out D (state D)) (st : state D) : out D (state D) :=
    obind D (f (enter D st)) (fun st' => Done (leave D st st')).

  Lemma leave_union (X X' m m' : bmap) (Lt' L' : gset string) :
    (forall x, X' !! x = None <-> X !! x = None) ->
    (forall x, x ∈ Lt' -> X !! x = None) ->
    (forall x, X !! x = None -> (x ∈ Lt' <-> x ∈ L')) ->
    filter (fun kv => kv.1 ∉ Lt') (X' ∪ m') ∪ filter (fun kv => kv.1 ∈ Lt') (X ∪ m)
    = X' ∪ (filter (fun kv => kv.1 ∉ L') m' ∪ filter (fun kv => kv.1 ∈ L') m).
  Proof.
    intros Hdom HLt Hl. apply map_eq. intros x.
    assert (Hf : forall (M : bmap) (S : gset string) x,
      filter (fun kv => kv.1 ∉ S) M !! x = if decide (x ∈ S) then None else M !! x).
    { intros M S y. destruct (decide (y ∈ S)) as [Hy|Hy].
      - apply map_filter_lookup_None. right. intros b _. cbn. tauto.
      - destruct (M !! y) as [b|] eqn:E.
        + by apply map_filter_lookup_Some.
        + apply map_filter_lookup_None. by left. }
    assert (Hg : forall (M : bmap) (S : gset string) x,
      filter (fun kv => kv.1 ∈ S) M !! x = if decide (x ∈ S) then M !! x else None).
    { intros M S y. destruct (decide (y ∈ S)) as [Hy|Hy].
      - destruct (M !! y) as [b|] eqn:E.
        + by apply map_filter_lookup_Some.
        + apply map_filter_lookup_None. by left.
      - apply map_filter_lookup_None. right. intros b _. cbn. tauto. }
    rewrite !lookup_union, Hf, Hg, Hf, Hg, !lookup_union.
    destruct (X !! x) as [b|] eqn:E.
    - destruct (X' !! x) as [b'|] eqn:E'; [|apply Hdom in E'; by rewrite E in E'].
      rewrite decide_False by (intros Hx; apply HLt in Hx; by rewrite E in Hx).
      by rewrite !(left_absorb_L _ _) || (destruct (m' !! x), (m !! x); cbn; repeat case_decide; done).
    - assert (E' : X' !! x = None) by (by apply Hdom). rewrite E'. rewrite !(left_id_L None _).
      destruct (decide (x ∈ Lt')) as [Hx|Hx]; [rewrite !decide_True by (by apply Hl)|
        rewrite !decide_False by (by rewrite <- Hl)]; done.
  Qed.

  Lemma ssim_block q nd nd' names va cs vs t s :
    ssim q nd names va cs vs t s ->
    ssim q nd' names va cs vs (in_block t) (in_block s).
  Proof.
    intros H X m Lt L tr Hpre Hn _.
    destruct (H X m ∅ ∅ tr Hpre Hn) as (ids & Hids & Hfr & Hrun); [right; intros x _; set_solver|].
    exists ids. split_and!; [done..|]. unfold in_block, enter. cbn [env locals trace supply].
    destruct (t (State (X ∪ m) ∅ tr [])) as [st|tr' v| | |]; cbn [obind].
    2-4: intros rest; by rewrite Hrun.
    2: done.
    destruct Hrun as (X1 & m1 & Lt1 & L1 & new1 & -> & Hs1 & Hpost1).
    pose proof (post_dom _ _ _ _ _ _ _ _ _ _ _ _ _ _ Hpre Hpost1) as Hdom1.
    destruct Hpost1 as [Pinv1 Psame1 Pcount1 Pnew1 Pids1 PLt1 PL1 Plocals1 Pnd1].
    eexists X1, _, Lt, L, new1. split_and!; [| |split; auto].
    - unfold leave. cbn [env locals trace supply]. f_equal. apply leave_union; [done|..].
      + intros x Hx. destruct (PLt1 x Hx); [set_solver|done].
      + apply Plocals1. intros x _. set_solver.
    - intros rest. rewrite Hs1. done.
  Qed.

  (** The assignment of a right side from which the anonymous components have
      been taken out. *)
  Definition wrap (ss : list stmt) (sub : stmt) : stmt :=
    match ss with [] => sub | _ => Block (ss ++ [sub]) end.

  Definition stores (names : list string) (k : state D -> list (rval D) -> out D (state D)) : Prop :=
    forall X m Lt L tr vs, (forall x, x ∈ names -> X !! x = None) ->
      match k (State (X ∪ m) Lt tr []) vs with
      | Done t => exists m' new, t = State (X ∪ m') Lt (new ++ tr) [] /\
          (forall rest, k (State m L tr rest) vs = Done (State m' L (new ++ tr) rest)) /\
          (forall i f ps b, ECreate D i f ps b ∈ new -> X !! i.1 = None)
      | Failed => forall rest, k (State m L tr rest) vs = Failed
      | _ => False
      end.

  Lemma remove_exp_nothing e : forall va par ss e',
    remove_exp va par e = Ok ([], ss, e') ->
    ss = [] /\ forall va', remove_exp va' par e = Ok ([], [], e').
  Proof.
    assert (Hlist : forall es va us,
      Forall (fun e => forall va par ss e', remove_exp va par e = Ok ([], ss, e') ->
        ss = [] /\ forall va', remove_exp va' par e = Ok ([], [], e')) es ->
      Forall2 (fun r u => r = Ok u) (map (remove_exp va false) es) us ->
      concat (map (fun u => u.1.1) us) = [] ->
      concat (map (fun u => u.1.2) us) = [] /\
      forall va', Forall2 (fun r u => r = Ok u) (map (remove_exp va' false) es) us).
    { intros es va us HF. revert us. induction HF as [|e0 es He HF IH]; intros us H2 Hnil; cbn in H2;
        inversion H2 as [|? [[ds ss] e'] ? us' Hr H2']; subst; cbn in *; [split; [done|constructor]|].
      apply app_nil in Hnil as [-> Hnil]. destruct (He _ _ _ _ Hr) as [-> He'].
      destruct (IH _ H2' Hnil) as [-> IH']. split; [done|]. intros va'. constructor; [apply He'|apply IH']. }
    induction e as [l op r _ _|op r _|c a b _ _ _|r IHr|x acc _|z|f args _|f args _
                   |pos f par params sigs names _ IH|vs IH|vs IH|v d _ _] using exp_ind';
      intros va par' ss e' Hr; cbn [remove_anonymous_exp] in Hr |- *;
      try (injection Hr as <- <-; done).
    - destruct (is_anonymous_comp r) eqn:Er; [by eapply IHr|]. injection Hr as <- <-; done.
    - exfalso. destruct (templates !! f) as [body|] eqn:Hf; [|done].
      destruct (inputs_to_assignments _ _ _); cbn [rbind] in Hr; try done.
      destruct (collect _); cbn [rbind] in Hr; done.
    - destruct (collect _) as [us| |] eqn:Ec; cbn [rbind] in Hr; try done.
      apply collect_ok in Ec. unfold join_values in Hr. injection Hr as Hds <- <-.
      destruct (Hlist _ _ _ IH Ec Hds) as [Hss Hall]. split; [done|]. intros va'.
      specialize (Hall va'). apply collect_ok in Hall. rewrite Hall. cbn [rbind]. unfold join_values.
      by rewrite Hds, Hss.
    - destruct (collect _) as [us| |] eqn:Ec; cbn [rbind] in Hr; try done.
      apply collect_ok in Ec. unfold join_values in Hr. injection Hr as Hds <- <-.
      destruct (Hlist _ _ _ IH Ec Hds) as [Hss Hall]. split; [done|]. intros va'.
      specialize (Hall va'). apply collect_ok in Hall. rewrite Hall. cbn [rbind]. unfold join_values.
      by rewrite Hds, Hss.
  Qed.

  Lemma ssim_wrap names va e cs ss e' sub k src :
    names_ok e -> va_ok va -> remove_exp va false e = Ok (cs, ss, e') ->
    (forall x, x ∈ fv e -> x ∈ names) -> stores names k ->
    (forall st, exec sub st = obind D (evals false e' st) (fun '(st', vs) => k st' vs)) ->
    (forall st, src st = obind D (evals false e st) (fun '(st', vs) => k st' vs)) ->
    ssim false True names va cs [] (exec (wrap ss sub)) src.
  Proof.
    intros Hok Hvaok Hr Hfv Hk Hsub Hsrc X m Lt L tr Hpre Hn _.
    pose proof (remove_exp_decls e Hok va false cs ss e' Hvaok Hr) as Hdecl.
    pose proof (remove_anonymous_exp_ok D templates line fuel Hinputs e Hok) as Hexp.
    destruct Hpre as [Hinv Hva Hnd Hcount]. rewrite app_nil_r in Hnd.
    assert (Hsim : exists idx, sim D templates fuel X m idx (decl_names cs) ss
                (evals false e) (pures (X ∪ m) e') /\ clean e' /\
              (forall o, o ∈ decl_names cs -> created (o, idx) tr = false) /\
              (cs ≠ [] -> loop_idx D X va idx)).
    { assert (Hbound : forall o, o ∈ decl_names cs -> X !! o = Some (BComponent D) /\ o ≠ "_"%string).
      { intros o Ho. apply elem_of_list_fmap in Ho as (d & -> & Hd). rewrite Forall_forall in Hinv.
        specialize (Hinv d Hd).
        destruct d as [| | | |[| | | |] x [|[] [|]] an| | | | | | |]; cbn in *; try done;
          try (destruct acc; try done); naive_solver. }
      destruct cs as [|d0 cs0] eqn:Ecs.
      - destruct (remove_exp_nothing e _ _ _ _ Hr) as [-> Hr']. exists [].
        destruct (Hexp _ _ _ _ _ (Hr' None)) as [Hcl Hs]. split_and!; [|done| |done].
        + apply Hs; [done|done|auto|done].
        + intros o Ho. by apply elem_of_nil in Ho.
      - rewrite <- Ecs in *. assert (Hne : cs ≠ []) by (by rewrite Ecs). clear Ecs.
        destruct (Hexp _ _ _ _ _ Hr) as [Hcl Hs].
        assert (Hidx : exists idx, loop_idx D X va idx /\
                  forall c n, va = Some (Var c []) -> X !! c = Some (BVar D (vnum D n)) -> idx = [vnum D n]).
        { destruct va as [v|]; cbn.
          - destruct Hva as (c & n & -> & Hva). destruct (Hva Hne) as [Hc _]. exists [vnum D n]. split.
            + by exists c, (vnum D n).
            + intros c' n' [= <-]. rewrite Hc. intros [= ->]. done.
          - exists []. done. }
        destruct Hidx as (idx & Hl & Hidx). exists idx. split_and!; [by apply Hs; auto|done| |done].
        intros o Ho. apply elem_of_list_fmap in Ho as (d & -> & Hd).
        rewrite Forall_forall in Hinv, Hdecl. specialize (Hinv d Hd). specialize (Hdecl d Hd).
        destruct d as [| | | |[| | | |] x [|[] [|]] an| | | | | | |]; cbn in *; try done.
        + destruct Hinv as (_ & _ & Hf). by apply Hf.
        + destruct acc; [|done]. destruct Hdecl as [Hc|Hc]; [by apply elem_of_nil in Hc|].
          destruct Hinv as (_ & _ & n & Hx & Hf). rewrite (Hidx _ _ Hc Hx).
          destruct (created _ tr) eqn:Ecr; [|done]. destruct (Hf _ Ecr) as (j & [= Hj] & [Hlt|[_ ?]]); [|done].
          destruct Hcounts as [_ Hinj]. apply Hinj in Hj. lia.
        + by destruct acc. }
    destruct Hsim as (idx & Hsim & Hcl & Hfresh & Hl).
    set (ids := map (fun o => (o, idx)) (decl_names cs)).
    exists ids. split_and!.
    { unfold ids. apply NoDup_fmap_2; [|done]. intros ? ? [= ->]. done. }
    { unfold ids. apply Forall_forall. intros i Hi. apply elem_of_list_fmap in Hi as (o & -> & Ho).
      split; [done|by apply Hfresh]. }
    (* the statements, in the block or alone *)
    assert (Hmain : forall Lx,
      match run_all (map exec (ss ++ [sub])) (State (X ∪ m) Lx tr []) with
      | Done t => exists m' new,
          t = State (X ∪ m') Lx (new ++ tr) [] /\
          (forall rest, src (State m L tr (ids ++ rest)) = Done (State m' L (new ++ tr) rest)) /\
          (forall i f ps b, ECreate D i f ps b ∈ new ->
             (i.1 ∈ decl_names cs /\ i.2 = idx) \/ X !! i.1 = None) /\
          Forall (fun i => created i new = true) ids
      | Failed => forall rest, src (State m L tr (ids ++ rest)) = Failed
      | _ => False
      end).
    { intros Lx. rewrite map_app, run_all_app.
      assert (Hrest : forall rest, match run_all (map exec ss) (State (X ∪ m) Lx tr []) with
        | Done t => exists new, t = State (X ∪ m) Lx (new ++ tr) [] /\
            (forall i f ps b, ECreate D i f ps b ∈ new -> i.1 ∈ decl_names cs /\ i.2 = idx) /\
            (forall o, o ∈ decl_names cs -> created (o, idx) new = true) /\
            evals false e (State m L tr (ids ++ rest))
            = obind D (ofopt D (pures (X ∪ m) e')) (fun a => Done (State m L (new ++ tr) rest, a))
        | Failed => evals false e (State m L tr (ids ++ rest)) = Failed
        | _ => False
        end) by (intros rest; by apply Hsim).
      destruct (run_all (map exec ss) _) as [t|tr0 v0| | |]; cbn [obind].
      2,4,5: by apply (Hrest []).
      2: { intros rest. by rewrite Hsrc, Hrest. }
      destruct (Hrest []) as (new & -> & Hn1 & Hc1 & _). cbn [map AnonSpec.run_all].
      assert (Hev : forall rest, evals false e (State m L tr (ids ++ rest))
            = obind D (ofopt D (pures (X ∪ m) e')) (fun a => Done (State m L (new ++ tr) rest, a))).
      { intros rest. destruct (Hrest rest) as (new' & Heq & _ & _ & Hev).
        injection Heq as Heq. apply app_inv_tail in Heq. by subst new'. }
      rewrite Hsub, evals_clean by done. cbn [env].
      destruct (pures (X ∪ m) e') as [vs|]; cbn [ofopt obind].
      2: { intros rest. by rewrite Hsrc, Hev. }
      specialize (Hk X m Lx L (new ++ tr) vs Hn).
      destruct (k (State (X ∪ m) Lx (new ++ tr) []) vs) as [t|tr0 v0| | |]; cbn [obind]; try done.
      2: { intros rest. rewrite Hsrc, Hev. cbn. apply Hk. }
      destruct Hk as (m' & new' & -> & Hk & Hkc). exists m', (new' ++ new). split_and!.
      - by rewrite app_assoc.
      - intros rest. rewrite Hsrc, Hev. cbn. by rewrite Hk, app_assoc.
      - intros i f ps b Hi. apply elem_of_app in Hi as [Hi|Hi]; [right; by eapply Hkc|left; by eapply Hn1].
      - apply Forall_forall. intros i Hi. apply elem_of_list_fmap in Hi as (o & -> & Ho).
        rewrite created_app. apply orb_true_iff. right. by apply Hc1. }
    assert (Hpost : forall new,
          (forall i f ps b, ECreate D i f ps b ∈ new ->
             (i.1 ∈ decl_names cs /\ i.2 = idx) \/ X !! i.1 = None) ->
          Forall (fun i => created i new = true) ids ->
          post false X X va cs [] tr new ids Lt Lt L L True).
    { intros new Hcr Hids. split; try done; try auto.
      - rewrite Forall_forall in *. intros d Hd. specialize (Hinv d Hd). specialize (Hdecl d Hd).
        assert (Hne : cs ≠ []) by (intros ->; by apply elem_of_nil in Hd). specialize (Hl Hne).
        destruct d as [| | | |[| | | |] x [|[] [|]] an| | | | | | |]; cbn in *; try done.
        + naive_solver.
        + destruct acc; [|done]. destruct Hdecl as [Hc|Hc]; [by apply elem_of_nil in Hc|]. subst va.
          destruct Hinv as (Hx & Hx' & n & Hc & Hf). split_and!; [done..|]. exists n. split; [done|].
          intros idx' Hcd. rewrite created_app in Hcd. apply orb_true_iff in Hcd as [Hcd|Hcd].
          * apply existsb_exists in Hcd as (ev & Hin & Hev). destruct ev; cbn in Hev; try done.
            apply bool_decide_eq_true in Hev. subst i. apply elem_of_list_In in Hin.
            destruct (Hcr _ _ _ _ Hin) as [[_ Hi]|Hi]; cbn in Hi; [|by rewrite Hx in Hi].
            subst idx'. cbn in Hl. destruct Hl as (c & w & [= <-] & Hw & ->). rewrite Hc in Hw.
            injection Hw as <-. exists n. auto.
          * destruct (Hf _ Hcd) as (j & -> & [?|[_ ?]]); [|done]. exists j. auto.
      - intros c Hc. by apply elem_of_nil in Hc.
      - intros i f ps b Hi. destruct (Hcr _ _ _ _ Hi) as [[? _]|?]; auto. }
    unfold wrap. destruct ss as [|s0 ss0].
    - specialize (Hmain Lt). cbn [app map AnonSpec.run_all] in Hmain.
      destruct (exec sub (State (X ∪ m) Lt tr [])) as [t|tr0 v0| | |]; cbn [obind] in Hmain; try done.
      destruct Hmain as (m' & new & -> & Hs & Hcr & Hids).
      exists X, m', Lt, L, new. split_and!; [done..|]. by apply Hpost.
    - specialize (Hmain ∅). cbn [AnonSpec.exec]. unfold enter. cbn [env trace supply].
      destruct (run_all _ _) as [t|tr0 v0| | |]; cbn [obind]; try done.
      destruct Hmain as (m' & new & -> & Hs & Hcr & Hids). rewrite (leave_empty D templates Hinputs). cbn [locals].
      exists X, m', Lt, L, new. split_and!; [done..|]. by apply Hpost.
  Qed.

  Lemma union_agree (X m : bmap) (l : list string) : (forall x, x ∈ l -> X !! x = None) -> agree D l (X ∪ m) m.
  Proof. intros H x Hx. by rewrite lookup_union_r by (by apply H). Qed.

  (** An assignment that changes no counter and no anonymous component. *)
  Lemma assign_stores (names : list string) op x acc r X m Lt L tr :
    x ∈ names -> (forall y, y ∈ names -> X !! y = None) ->
    match assign D op x acc r (State (X ∪ m) Lt tr []) with
    | Done t => exists m' new, t = State (X ∪ m') Lt (new ++ tr) [] /\
        (forall rest, assign D op x acc r (State m L tr rest) = Done (State m' L (new ++ tr) rest)) /\
        (forall i f ps b, ECreate D i f ps b ∈ new -> X !! i.1 = None)
    | Failed => forall rest, assign D op x acc r (State m L tr rest) = Failed
    | _ => False
    end.
  Proof.
    intros Hx Hn. specialize (Hn x Hx).
    assert (Hemit : forall ev, (forall i f ps b, ev = ECreate D i f ps b -> i.1 = x) ->
      exists m' new, emit D ev (State (X ∪ m) Lt tr []) = State (X ∪ m') Lt (new ++ tr) [] /\
        (forall rest, Done (D := D) (emit D ev (State m L tr rest)) = Done (State m' L (new ++ tr) rest)) /\
        (forall i f ps b, ECreate D i f ps b ∈ new -> X !! i.1 = None)).
    { intros ev Hev. exists m, [ev]. split_and!; [done..|]. intros i f ps b Hi.
      apply elem_of_list_singleton in Hi. by rewrite (Hev i f ps b). }
    assert (Hbind : forall b0,
      exists m' new, bind_name D x b0 (State (X ∪ m) Lt tr []) = State (X ∪ m') Lt (new ++ tr) [] /\
        (forall rest, Done (D := D) (bind_name D x b0 (State m L tr rest)) = Done (State m' L (new ++ tr) rest)) /\
        (forall i f ps b, ECreate D i f ps b ∈ new -> X !! i.1 = None)).
    { intros b0. exists (<[x := b0]> m), []. split_and!.
      - unfold bind_name. cbn. by rewrite insert_union_r.
      - done.
      - intros i f ps b Hi. by apply elem_of_nil in Hi. }
    unfold assign. destruct (bool_decide (x = "_"%string)).
    { destruct r; [|done]. by apply Hemit. }
    cbn [env trace]. rewrite lookup_union_r by done.
    destruct (m !! x) as [[old| |]|]; [..|done].
    - destruct r as [v|]; [|done]. destruct (bool_decide (op = AssignVar)); [|done].
      destruct acc as [|a acc]; [by apply Hbind|].
      destruct (vupdate D old (a :: acc) v); cbn [ofopt obind]; [by apply Hbind|done].
    - destruct r as [v|]; [|done]. by apply Hemit.
    - destruct r as [v|f ps par].
      + destruct (split_access D acc) as [idx [|[port|] rest]]; [done| |done]. by apply Hemit.
      + destruct op; try done. destruct (split_access D acc) as [idx [|[port|] rest]]; try done.
        destruct (existsb _ tr); [done|]. apply Hemit. intros i f' ps' b [= <- _ _ _]. done.
  Qed.

  Lemma assign_all_stores (names : list string) op l X m Lt L tr :
    Forall (fun t => t.1.1 ∈ names) l -> (forall y, y ∈ names -> X !! y = None) ->
    match assign_all D op l (State (X ∪ m) Lt tr []) with
    | Done t => exists m' new, t = State (X ∪ m') Lt (new ++ tr) [] /\
        (forall rest, assign_all D op l (State m L tr rest) = Done (State m' L (new ++ tr) rest)) /\
        (forall i f ps b, ECreate D i f ps b ∈ new -> X !! i.1 = None)
    | Failed => forall rest, assign_all D op l (State m L tr rest) = Failed
    | _ => False
    end.
  Proof.
    intros Hl Hn. revert m tr. induction Hl as [|[[x acc] r] l Hx Hl IH]; intros m tr; cbn [assign_all].
    - exists m, []. split_and!; [done..|]. intros i f ps b Hi. by apply elem_of_nil in Hi.
    - pose proof (assign_stores names op x acc r X m Lt L tr Hx Hn) as Ha.
      destruct (assign D op x acc r (State (X ∪ m) Lt tr [])) as [t|tr0 v0| | |]; cbn [obind]; try done.
      2: { intros rest. by rewrite Ha. }
      destruct Ha as (m1 & new1 & -> & Ha & Hc1). specialize (IH m1 (new1 ++ tr)).
      destruct (assign_all D op l _) as [t|tr0 v0| | |]; try done.
      2: { intros rest. rewrite Ha. cbn [obind]. apply IH. }
      destruct IH as (m2 & new2 & -> & IH & Hc2). exists m2, (new2 ++ new1). split_and!.
      + by rewrite app_assoc.
      + intros rest. rewrite Ha. cbn [obind]. by rewrite IH, app_assoc.
      + intros i f ps b Hi. apply elem_of_app in Hi as [Hi|Hi]; eauto.
  Qed.

  Definition store_one (op : aop) (x : string) (acc : list (access exp)) (st : state D)
      (vs : list (rval D)) : out D (state D) :=
    match vs with
    | [v] => obind D (ofopt D (position D templates (env D st) x acc)) (fun acc' => assign D op x acc' v st)
    | _ => Failed
    end.

  Lemma store_one_stores op x acc (names : list string) :
    x ∈ names -> (forall y, y ∈ fv_acc acc -> y ∈ names) -> stores names (store_one op x acc).
  Proof.
    intros Hx Hacc X m Lt L tr vs Hn. unfold store_one. destruct vs as [|v [|]]; try done. cbn [env].
    rewrite (position_agree D templates (X ∪ m) m x acc) by (apply union_agree; auto).
    destruct (position D templates m x acc) as [acc'|]; cbn [ofopt obind]; [|done].
    by apply (assign_stores names).
  Qed.

  Definition store_all (l : exp) (op : aop) (st : state D) (vs : list (rval D)) : out D (state D) :=
    obind D (ofopt D (tuple_targets l)) (fun ts =>
    obind D (ofopt D (mapM id (map (fun t => (fun a => (t.1, a)) <$> position D templates (env D st) t.1 t.2) ts)))
      (fun ts' => if bool_decide (length ts' = length vs)
                  then assign_all D op (zip ts' vs) st else Failed)).

  Lemma targets_fv e : forall ts, targets e = Some ts ->
    Forall (fun t => t.1 ∈ fv e /\ forall y, y ∈ fv_acc t.2 -> y ∈ fv e) ts.
  Proof.
    induction e as [| | | |x acc _| | | | | |es IH|] using exp_ind'; intros ts Ht; cbn [targets] in Ht; try done.
    - injection Ht as <-. constructor; [|constructor]. cbn. split; [left|]. intros y Hy. by right.
    - apply fmap_Some in Ht as (l & Hl & ->). revert l Hl.
      induction IH as [|e es He IH IHes]; intros l Hl; cbn in Hl.
      + injection Hl as <-. constructor.
      + apply bind_Some in Hl as (ts & Hts & Hl). apply bind_Some in Hl as (l' & Hl' & [= <-]).
        cbn. apply Forall_app. split.
        * eapply Forall_impl; [by apply He|]. intros t [? ?]. split; [|intros y Hy];
            apply elem_of_app; auto.
        * eapply Forall_impl; [by apply IHes|]. intros t [? ?]. split; [|intros y Hy];
            apply elem_of_app; auto.
  Qed.

  Lemma positions_fst m (ts : list (string * list (access exp))) ts' :
    mapM id (map (fun t => (fun a => (t.1, a)) <$> position D templates m t.1 t.2) ts) = Some ts' ->
    map fst ts' = map fst ts.
  Proof.
    revert ts'. induction ts as [|t ts IH]; intros ts' H; cbn in H; [by injection H as <-|].
    destruct (position D templates m t.1 t.2); cbn in H; [|done].
    apply bind_Some in H as (l2 & Hl & [= <-]). cbn. by rewrite (IH l2 Hl).
  Qed.

  Lemma store_all_stores l op (names : list string) :
    (forall y, y ∈ fv l -> y ∈ names) -> stores names (store_all l op).
  Proof.
    intros Hfv X m Lt L tr vs Hn. unfold store_all.
    destruct (tuple_targets l) as [ts|] eqn:Et; cbn [ofopt obind]; [|done]. cbn [env].
    assert (Hts : Forall (fun t => t.1 ∈ fv l /\ forall y, y ∈ fv_acc t.2 -> y ∈ fv l) ts).
    { apply targets_fv. unfold tuple_targets in Et. by destruct (is_tuple l). }
    rewrite (map_ext_Forall (fun t => (fun a => (t.1, a)) <$> position D templates (X ∪ m) t.1 t.2)
              (fun t => (fun a => (t.1, a)) <$> position D templates m t.1 t.2)).
    2: { eapply Forall_impl; [exact Hts|]. intros t [_ Ht].
         rewrite (position_agree D templates (X ∪ m) m); [done|]. apply union_agree. auto. }
    destruct (mapM id _) as [ts'|] eqn:Ep; cbn [ofopt obind]; [|done].
    destruct (bool_decide (length ts' = length vs)); [|done].
    apply (assign_all_stores names); [|done].
    apply positions_fst in Ep. apply Forall_forall. intros [[x acc] v] Hin.
    apply elem_of_list_In, in_combine_l in Hin. cbn.
    assert (Hx : x ∈ map fst ts') by (apply elem_of_list_fmap; exists (x, acc); split; [done|by apply elem_of_list_In]).
    rewrite Ep in Hx. apply elem_of_list_fmap in Hx as (t & -> & Ht).
    rewrite Forall_forall in Hts. by apply Hfv, Hts.
  Qed.

  (** A statement that only reads. *)
  Lemma ssim_reads nd (names : list string) va (g : bmap -> list event -> out D (option event)) :
    (forall X m tr, (forall x, x ∈ names -> X !! x = None) -> g (X ∪ m) tr = g m tr) ->
    (forall m tr i f ps b, g m tr ≠ Done (Some (ECreate D i f ps b))) ->
    (forall m tr, g m tr ≠ OutOfNames) ->
    ssim false nd names va [] []
      (fun st => obind D (g (env D st) (trace D st)) (fun ev =>
         Done (match ev with None => st | Some ev => emit D ev st end)))
      (fun st => obind D (g (env D st) (trace D st)) (fun ev =>
         Done (match ev with None => st | Some ev => emit D ev st end))).
  Proof.
    intros Hg Hc Ho. apply ssim_to_false, ssim_plain; [|constructor]. intros X m Lt L tr Hn _.
    cbn [env trace]. rewrite Hg by done. specialize (Hc m tr). specialize (Ho m tr).
    destruct (g m tr) as [[ev|]|tr' v| | |]; cbn [obind]; try done.
    - exists m, Lt, L, [ev]. split_and!; try done; auto. intros i f ps b Hi.
      apply elem_of_list_singleton in Hi. subst ev. by destruct (Hc i f ps b).
    - exists m, Lt, L, []. split_and!; try done; auto. intros i f ps b Hi. by apply elem_of_nil in Hi.
  Qed.

  Lemma ssim_skip nd names va cs vs :
    Forall (decl_ok va vs) cs -> ssim false nd names va cs vs Done Done.
  Proof.
    intros Hok. apply ssim_to_false, ssim_plain; [|done]. intros X m Lt L tr _ _.
    exists m, Lt, L, []. split_and!; try done; auto. intros i f ps b Hi. by apply elem_of_nil in Hi.
  Qed.

  Lemma ssim_declare (names : list string) va t x dims :
    x ∈ names -> (forall y, y ∈ concat (map fv dims) -> y ∈ names) ->
    ssim false False names va [] [] (declare D templates t x dims) (declare D templates t x dims).
  Proof.
    intros Hx Hd. apply ssim_to_false, ssim_plain; [|constructor]. intros X m Lt L tr Hn [[]|Hl].
    unfold declare. cbn [locals env trace supply].
    assert (Hin : bool_decide (x ∈ Lt) = bool_decide (x ∈ L)).
    { apply bool_decide_ext, Hl. by apply Hn. }
    rewrite Hin. destruct (bool_decide (x ∈ L)); [done|].
    rewrite (values_agree D templates (X ∪ m) m dims) by (apply union_agree; auto).
    assert (Hb : forall b evs, (forall i f ps b', ECreate D i f ps b' ∉ evs) ->
      exists m' Lt' L' new,
        State (<[x:=b]> (X ∪ m)) ({[x]} ∪ Lt) (evs ++ tr) [] = State (X ∪ m') Lt' (new ++ tr) [] /\
        (forall rest : list (inst V), Done (D := D) (State (<[x:=b]> m) ({[x]} ∪ L) (evs ++ tr) rest)
                      = Done (A := state D) (D := D) (State m' L' (new ++ tr) rest)) /\
        (forall i f ps b', ECreate D i f ps b' ∈ new -> X !! i.1 = None) /\
        (forall y, y ∈ Lt' -> y ∈ Lt \/ X !! y = None) /\
        (forall y, y ∈ L' -> y ∈ L \/ X !! y = None) /\
        (same_locals X Lt L -> same_locals X Lt' L') /\
        (False -> Lt' = Lt /\ L' = L)).
    { intros b evs Hev. exists (<[x := b]> m), ({[x]} ∪ Lt), ({[x]} ∪ L), evs.
      pose proof (Hn x Hx) as Hxn. split_and!; try done.
      - by rewrite insert_union_r.
      - intros i f ps b' Hi. by apply Hev in Hi.
      - intros y Hy. apply elem_of_union in Hy as [->%elem_of_singleton|?]; auto.
      - intros y Hy. apply elem_of_union in Hy as [->%elem_of_singleton|?]; auto.
      - intros Hsl y Hy. rewrite !elem_of_union. by rewrite (Hsl y Hy). }
    destruct t as [|k| | |bn k]; try (destruct (values D templates m dims) as [ds|]; cbn [ofopt obind]; [|done]).
    - apply (Hb _ []). intros i f ps b' Hi. by apply elem_of_nil in Hi.
    - apply (Hb _ [_]). intros i f ps b' Hi. by apply elem_of_list_singleton in Hi.
    - apply (Hb _ []). intros i f ps b' Hi. by apply elem_of_nil in Hi.
    - apply (Hb _ []). intros i f ps b' Hi. by apply elem_of_nil in Hi.
    - apply (Hb _ [_]). intros i f ps b' Hi. by apply elem_of_list_singleton in Hi.
  Qed.

  (** A loop. *)
  Lemma loop_ext c1 b1 c2 b2 f st :
    (forall st, c1 st = c2 st) -> (forall st, b1 st = b2 st) ->
    loop D c1 b1 f st = loop D c2 b2 f st.
  Proof.
    intros Hc Hb. revert st. induction f as [|f IH]; intros st; cbn; [done|].
    rewrite Hc. destruct (c2 st) as [[]|]; try done. rewrite Hb.
    destruct (b2 st); cbn; try done.
  Qed.

  Lemma ssim_loop (names : list string) va cs vs c t s f :
    Forall (decl_ok va vs) cs -> (forall x, x ∈ fv c -> x ∈ names) ->
    ssim true True names va cs vs t s ->
    ssim true True names va cs vs (loop D (condition D templates c) t f)
      (loop D (condition D templates c) s f).
  Proof.
    intros Hok Hc H. induction f as [|f IH].
    - apply ssim_plain; [|done]. intros. cbn. done.
    - intros X m Lt L tr Hpre Hn Hl.
      assert (Hcond : forall L tr rest, condition D templates c (State (X ∪ m) L tr rest)
                 = condition D templates c (State m L tr rest)).
      { intros. unfold condition. cbn [env].
        rewrite (value_agree D templates (X ∪ m) m); [done|]. apply union_agree. auto. }
      assert (Hcond2 : forall L tr rest, condition D templates c (State m L tr rest)
                 = condition D templates c (State m ∅ [] [])) by done.
      destruct (condition D templates c (State m ∅ [] [])) as [[]|] eqn:Ec.
      + destruct (ssim_again names va cs vs t _ s _ H IH X m Lt L tr Hpre Hn Hl) as (ids & H1 & H2 & H3).
        exists ids. split_and!; [done..|]. cbn [loop]. rewrite Hcond, Hcond2.
        destruct (obind D _ _) as [st|tr' v| | |]; try done.
        * destruct H3 as (X' & m' & Lt' & L' & new & -> & H3 & Hp). exists X', m', Lt', L', new.
          split_and!; [done| |done]. intros rest. by rewrite Hcond2, H3.
        * intros rest. by rewrite Hcond2, H3.
        * intros rest. by rewrite Hcond2, H3.
        * intros rest. by rewrite Hcond2, H3.
      + assert (Hskip : ssim true True names va cs vs Done Done).
        { apply ssim_plain; [|done]. intros X0 m0 Lt0 L0 tr0 _ _.
          exists m0, Lt0, L0, []. split_and!; try done; auto. intros i f0 ps b Hi. by apply elem_of_nil in Hi. }
        destruct (Hskip X m Lt L tr Hpre Hn Hl) as (ids & H1 & H2 & H3).
        exists ids. split_and!; [done..|]. cbn [loop]. rewrite Hcond, Hcond2.
        destruct H3 as (X' & m' & Lt' & L' & new & Heq & H3 & Hp). exists X', m', Lt', L', new.
        split_and!; [done| |done]. intros rest. by rewrite Hcond2, H3.
      + exists []. split_and!; [constructor..|]. cbn [loop]. rewrite Hcond, Hcond2.
        intros rest. by rewrite Hcond2.
  Qed.

  (** One round of a loop with anonymous components: the counter goes up. *)
  Lemma ssim_round names x va cs vs body s :
    Forall (decl_ok (Some (Var x [])) vs) cs -> cs ≠ [] ->
    ssim false True names (Some (Var x [])) cs vs (exec body) s ->
    ssim true True names va cs (x :: vs)
      (exec (Block [body; Substitution x [] AssignVar (Infix (Var x []) Add (Num 1))])) s.
  Proof.
    intros Hok Hne H X m Lt L tr [Hinv Hva Hnd Hcount] Hn _.
    destruct (Hcount x ltac:(left)) as (Hx_ & n & Hx).
    assert (Hnd' : NoDup (decl_names cs ++ vs) /\ x ∉ decl_names cs /\ x ∉ vs).
    { rewrite <- Permutation_middle in Hnd. apply NoDup_cons in Hnd as [H1 H2].
      rewrite elem_of_app in H1. tauto. }
    destruct Hnd' as (Hnd1 & Hxcs & Hxvs).
    assert (Hpre : pre X (Some (Var x [])) cs vs tr).
    { split; [done| |done|].
      - exists x, n. auto.
      - intros c Hc. apply Hcount. by right. }
    destruct (H X m ∅ L tr Hpre Hn) as (ids & Hids & Hfr & Hrun); [by left|].
    exists ids. split_and!; [done..|].
    cbn [AnonSpec.exec map AnonSpec.run_all]. unfold enter. cbn [env locals trace supply].
    destruct (exec body (State (X ∪ m) ∅ tr [])) as [t|tr' v| | |]; cbn [obind]; try done.
    destruct Hrun as (X1 & m1 & Lt1 & L1 & new1 & -> & Hs1 & Hpost1).
    destruct Hpost1 as [Pinv1 Psame1 Pcount1 Pnew1 Pids1 PLt1 PL1 Plocals1 Pnd1].
    destruct (Pnd1 I) as [-> ->].
    assert (Hx1 : X1 !! x = Some (BVar D (vnum D n))) by (by rewrite Psame1).
    assert (Hsub : exec (Substitution x [] AssignVar (Infix (Var x []) Add (Num 1)))
                     (State (X1 ∪ m1) ∅ (new1 ++ tr) [])
             = Done (State (<[x := BVar D (vnum D (n + 1))]> X1 ∪ m1) ∅ (new1 ++ tr) [])).
    { cbn. rewrite lookup_union_l' by (by eexists). rewrite Hx1. cbn.
      destruct Hcounts as [Hadd _]. rewrite Hadd. cbn. unfold position.
      rewrite bool_decide_eq_false_2 by done. cbn. unfold assign.
      rewrite bool_decide_eq_false_2 by done. cbn [env].
      rewrite lookup_union_l' by (by eexists). rewrite Hx1.
      cbn. unfold bind_name. cbn [env locals trace supply]. by rewrite insert_union_l. }
    cbn [AnonSpec.exec] in Hsub. rewrite Hsub. cbn [obind AnonSpec.run_all].
    rewrite (leave_empty D templates Hinputs). cbn [locals].
    eexists _, m1, Lt, L, new1. split_and!; [done|done|]. split; try auto.
    - rewrite Forall_forall in *. intros d Hd. specialize (Pinv1 d Hd). specialize (Hok d Hd).
      assert (Hdx : decl_name d ≠ x).
      { intros Heq. apply Hxcs. rewrite <- Heq. by apply decl_name_in. }
      destruct d as [| | | |[| | | |] y [|[] [|]] an| | | | | | |]; cbn in *; try done;
        try (destruct acc; try done).
      destruct Pinv1 as (Hy & Hy' & k & Hk & Hf). rewrite lookup_insert_ne by done.
      split_and!; [done..|]. destruct (decide (x = x0)) as [<-|Hxx].
      + exists (n + 1)%Z. rewrite lookup_insert. split; [done|]. intros idx Hi.
        destruct (Hf idx Hi) as (j & -> & Hj). rewrite Hx1 in Hk. injection Hk as Hk.
        destruct Hcounts as [_ Hinj]. apply Hinj in Hk. subst k. exists j. split; [done|]. left. lia.
      + exists k. rewrite lookup_insert_ne by done. split; [done|]. intros idx Hi.
        destruct (Hf idx Hi) as (j & -> & [?|[_ [= ?]]]); [|done]. eauto.
    - intros y Hy. apply not_elem_of_cons in Hy as [Hy1 Hy2]. rewrite lookup_insert_ne by done. by apply Psame1.
    - intros c Hc. destruct (decide (x = c)) as [<-|Hxc].
      + rewrite lookup_insert. by eexists.
      + rewrite lookup_insert_ne by done. apply elem_of_cons in Hc as [->|Hc]; [done|]. by apply Pcount1.
  Qed.

  Lemma nodecl_dec s : nodecl s \/ ~ nodecl s.
  Proof.
    induction s as [c a b IHa IHb|pos c s IHs|e|t l IH|t x dims an|x acc op e|l op r|op e|l r|args|l IH|e]
      using stmt_ind'; cbn; try tauto.
    destruct b as [b|]; [|tauto]. specialize (IHb b eq_refl). tauto.
  Qed.

  Lemma condition_union X m c : (forall x, x ∈ fv c -> X !! x = None) ->
    forall L tr rest, condition D templates c (State (X ∪ m) L tr rest)
                      = condition D templates c (State m ∅ [] []).
  Proof.
    intros H L tr rest. unfold condition. cbn [env].
    rewrite (value_agree D templates (X ∪ m) m); [done|]. by apply union_agree.
  Qed.

  Lemma ssim_if q nd names va cs vs c t1 t2 s1 s2 :
    (forall x, x ∈ fv c -> x ∈ names) ->
    ssim q nd names va cs vs t1 s1 -> ssim q nd names va cs vs t2 s2 ->
    ssim q nd names va cs vs
      (fun st => match condition D templates c st with None => Failed | Some true => t1 st | Some false => t2 st end)
      (fun st => match condition D templates c st with None => Failed | Some true => s1 st | Some false => s2 st end).
  Proof.
    intros Hc H1 H2 X m Lt L tr Hpre Hn Hl.
    pose proof (condition_union X m c ltac:(auto)) as Hcond.
    assert (Hcond2 : forall L tr rest, condition D templates c (State m L tr rest)
                 = condition D templates c (State m ∅ [] [])) by done.
    destruct (condition D templates c (State m ∅ [] [])) as [[]|] eqn:Ec.
    - destruct (H1 X m Lt L tr Hpre Hn Hl) as (ids & Hi1 & Hi2 & H3).
      exists ids. split_and!; [done..|]. rewrite Hcond.
      destruct (t1 _) as [st|tr' v| | |]; try done.
      + destruct H3 as (X' & m' & Lt' & L' & new & -> & H3 & Hp). exists X', m', Lt', L', new.
        split_and!; [done| |done]. intros rest. by rewrite Hcond2.
      + intros rest. by rewrite Hcond2.
      + intros rest. by rewrite Hcond2.
      + intros rest. by rewrite Hcond2.
    - destruct (H2 X m Lt L tr Hpre Hn Hl) as (ids & Hi1 & Hi2 & H3).
      exists ids. split_and!; [done..|]. rewrite Hcond.
      destruct (t2 _) as [st|tr' v| | |]; try done.
      + destruct H3 as (X' & m' & Lt' & L' & new & -> & H3 & Hp). exists X', m', Lt', L', new.
        split_and!; [done| |done]. intros rest. by rewrite Hcond2.
      + intros rest. by rewrite Hcond2.
      + intros rest. by rewrite Hcond2.
      + intros rest. by rewrite Hcond2.
    - exists []. split_and!; [constructor..|]. rewrite Hcond. intros rest. by rewrite Hcond2.
  Qed.

  Definition stmt_ok (s : stmt) : Prop :=
    parsed s -> forall va s' cs vs ss,
      va_ok va -> remove_stmt va s = Ok (s', cs, vs, ss) ->
      ssim false (nodecl s) (snames s) va cs (decl_names vs) (exec s') (exec s).

  Lemma remove_list_ok l va us :
    Forall stmt_ok l -> Forall parsed l -> va_ok va ->
    Forall2 (fun r u => r = Ok u) (map (remove_stmt va) l) us ->
    ssim false False (concat (map snames l)) va
      (concat (map (fun u => u.1.1.2) us)) (decl_names (concat (map (fun u => u.1.2) us)))
      (run_all (map exec (map (fun u => u.1.1.1) us))) (run_all (map exec l)).
  Proof.
    intros HF HP Hva. revert us.
    induction HF as [|s l Hs HF IH]; intros us H2; cbn in H2;
      inversion H2 as [|? [[[s' cs] vs] ss] ? us' Hr H2']; subst; cbn [map concat AnonSpec.run_all fst snd].
    - by apply ssim_skip.
    - apply Forall_cons in HP as [HP1 HP2]. specialize (IH HP2 us' H2').
      unfold decl_names in *. rewrite map_app.
      eapply (ssim_weaken _ (nodecl s /\ False) False); [done|right; tauto| |].
      { intros x Hx. exact Hx. }
      apply ssim_seq.
      + by eapply (remove_stmt_decls s HP1).
      + clear IH. clear Hr. revert H2' HP2. clear -HF Hva Hinputs. revert us'.
        induction HF as [|s l Hs HF IH]; intros us' H2 HP; cbn in H2;
          inversion H2 as [|? [[[s' cs] vs] ss] ? us'' Hr H2']; subst; cbn; [constructor|].
        apply Forall_cons in HP as [HP1 HP2]. rewrite map_app. apply Forall_app. split.
        * destruct (remove_stmt_decls s HP1 _ _ _ _ _ Hva Hr) as [Hd _].
          eapply Forall_impl; [exact Hd|]. intros d. apply decl_ok_mono. intros c Hc.
          apply elem_of_app. by left.
        * eapply Forall_impl; [by apply IH|]. intros d. apply decl_ok_mono. intros c Hc.
          apply elem_of_app. by right.
      + eapply ssim_weaken; [|apply nodecl_dec| |by eapply Hs]; [done|]. intros x Hx. apply elem_of_app. by left.
      + eapply (ssim_weaken _ False); [done|right; tauto| |exact IH]. intros x Hx. apply elem_of_app. by right.
  Qed.

  Lemma obind_done {A} (o : out D A) : obind D o Done = o.
  Proof. by destruct o. Qed.

  Lemma remove_stmt_ok s : stmt_ok s.
  Proof.
    induction s as [c a b IHa IHb|pos c s IHs|e|t l IH|t x dims an|x acc op e|l op r|op e|l r|args|l IH|e]
      using stmt_ind'; intros Hp va s' cs vs ss Hva Hr; cbn [remove_anonymous_stmt] in Hr;
      try discriminate Hr.
    - (* if *)
      cbn in Hp. destruct Hp as [Hpa Hpb].
      destruct (remove_stmt va a) as [[[[a' cs1] vs1] ss1]| |] eqn:Ea; cbn [rbind] in Hr; try done.
      pose proof (IHa Hpa _ _ _ _ _ Hva Ea) as Ha.
      destruct (remove_stmt_decls a Hpa _ _ _ _ _ Hva Ea) as [Hd1 _].
      destruct b as [b|].
      + destruct (remove_stmt va b) as [[[[b' cs2] vs2] ss2]| |] eqn:Eb; cbn [rbind] in Hr; try done.
        injection Hr as <- <- <- <-. pose proof (IHb b eq_refl Hpb _ _ _ _ _ Hva Eb) as Hb.
        destruct (remove_stmt_decls b Hpb _ _ _ _ _ Hva Eb) as [Hd2 _].
        unfold decl_names in *. rewrite map_app. cbn [snames nodecl].
        assert (H1 : ssim false (nodecl a /\ nodecl b) (fv c ++ snames a ++ snames b) va (cs1 ++ cs2)
                       (map decl_name vs1 ++ map decl_name vs2) (exec a') (exec a)).
        { eapply (ssim_ext _ _ _ _ _ _ (fun st => obind D (exec a' st) Done) _ (fun st => obind D (exec a st) Done) _);
            [intros; apply obind_done..|].
          eapply (ssim_weaken _ (nodecl a /\ True)); [tauto| |intros x Hx; exact Hx|].
          { destruct (nodecl_dec a); tauto. }
          apply ssim_seq; [done..| |by apply ssim_skip].
          eapply ssim_weaken; [|apply nodecl_dec| |exact Ha]; [done|]. intros x Hx. ins. }
        assert (H2 : ssim false (nodecl a /\ nodecl b) (fv c ++ snames a ++ snames b) va (cs1 ++ cs2)
                       (map decl_name vs1 ++ map decl_name vs2) (exec b') (exec b)).
        { eapply (ssim_ext _ _ _ _ _ _ (fun st => obind D (Done st) (exec b')) _ (fun st => obind D (Done st) (exec b)) _);
            [done..|].
          eapply (ssim_weaken _ (True /\ nodecl b)); [tauto| |intros x Hx; exact Hx|].
          { destruct (nodecl_dec b); tauto. }
          apply (ssim_seq True _ _ _ _ _ _ _ Done _ Done _); [done..|by apply ssim_skip|].
          eapply ssim_weaken; [|apply nodecl_dec| |exact Hb]; [done|]. intros x Hx. ins. }
        apply (ssim_if _ _ _ _ _ _ c _ _ _ _); [|done|done]. intros x Hx. ins.
      + injection Hr as <- <- <- <-. cbn [snames nodecl].
        apply (ssim_if _ _ _ _ _ _ c _ Done _ Done); [intros x Hx; ins| |by apply ssim_skip].
        eapply ssim_weaken; [|apply nodecl_dec| |exact Ha]; [tauto|]. intros x Hx. ins.
    - (* while *)
      cbn in Hp. destruct Hp as [Hnd Hp].
      set (x := counter_name line pos) in *.
      destruct (remove_stmt (Some (Var x [])) s) as [[[[body cs1] vs1] ss1]| |] eqn:Es; cbn [rbind] in Hr; try done.
      assert (Hv : va_ok (Some (Var x []))) by (by eexists).
      pose proof (IHs Hp _ _ _ _ _ Hv Es) as Hs.
      destruct (remove_stmt_decls s Hp _ _ _ _ _ Hv Es) as [Hd Hnil].
      assert (Hs' : ssim false True (fv c ++ snames s) (Some (Var x [])) cs1 (decl_names vs1) (exec body) (exec s)).
      { eapply ssim_weaken; [|apply nodecl_dec| |exact Hs]; [done|]. intros y Hy. ins. }
      destruct cs1 as [|d cs1].
      + injection Hr as <- <- <- <-. destruct (Hnil eq_refl) as [-> ->]. cbn [snames nodecl decl_names map].
        assert (Hbody : ssim true True (fv c ++ snames s) va [] [] (exec body) (exec s)).
        { intros X m Lt L tr Hpre Hn Hl.
          assert (Hpre' : pre X (Some (Var x [])) [] [] tr).
          { destruct Hpre. split; try done. by exists x, 0%Z. }
          destruct (Hs' X m Lt L tr Hpre' Hn Hl) as (ids & H1 & H2 & H3). exists ids. split_and!; [done..|].
          destruct (exec body _) as [t|tr' v| | |]; try done.
          destruct H3 as (X' & m' & Lt' & L' & new & -> & H3 & []). exists X', m', Lt', L', new.
          split_and!; [done..|]. split; try done. }
        apply ssim_to_false. apply (ssim_loop (fv c ++ snames s) va [] [] c); [constructor|intros y Hy; ins|done].
      + injection Hr as <- <- <- <-. cbn [snames nodecl].
        change (decl_names (Declaration XVar x [] false :: vs1)) with (x :: decl_names vs1).
        apply ssim_to_false. apply (ssim_loop (fv c ++ snames s) va _ _ c); [|intros y Hy; ins|].
        * eapply Forall_impl; [exact Hd|]. intros d' Hd'.
          destruct d' as [| | | |[| | | |] y [|[] [|]] an| | | | | | |]; cbn in *; try done.
          destruct acc; [|done]. left. destruct Hd' as [?|[= <-]]; [by right|left].
        * by apply ssim_round.
    - (* return *)
      injection Hr as <- <- <- <-. cbn [snames].
      eapply ssim_ext; [| |apply (ssim_reads _ _ _ (fun m tr => obind D (ofopt D (value D templates m e))
        (fun v => Returned tr v)))].
      + intros st. cbn. by destruct (value D templates (env D st) e).
      + intros st. cbn. by destruct (value D templates (env D st) e).
      + intros X m tr Hn. rewrite (value_agree D templates (X ∪ m) m); [done|]. by apply union_agree.
      + intros m tr i f ps b. by destruct (value D templates m e).
      + intros m tr. by destruct (value D templates m e).
    - (* declarations *)
      cbn in Hp. rewrite Forall_map in Hp.
      destruct (collect _) as [us| |] eqn:Ec; cbn [rbind] in Hr; try done.
      apply collect_ok in Ec. unfold join_stmts in Hr. injection Hr as <- <- <- <-.
      by apply (remove_list_ok l va us).
    - injection Hr as <- <- <- <-. apply ssim_declare; [left|]. intros y Hy. by right.
    - (* assignment *)
      cbn in Hp. destruct (remove_exp va false e) as [[[ds ss0] e']| |] eqn:Ee; cbn [rbind] in Hr; try done.
      injection Hr as <- <- <- <-. cbn [nodecl snames].
      apply (ssim_wrap _ va e ds ss0 e' (Substitution x acc op e') (store_one op x acc)); try done.
      + intros y Hy. apply elem_of_cons. right. ins.
      + apply store_one_stores; [left|]. intros y Hy. right. ins.
      + intros st. cbn [AnonSpec.exec]. unfold one. destruct (evals false e' st) as [[st' [|v [|]]]| | | |]; done.
      + intros st. cbn [AnonSpec.exec]. unfold one. destruct (evals false e st) as [[st' [|v [|]]]| | | |]; done.
    - (* tuple assignment *)
      cbn in Hp. destruct (remove_exp va false r) as [[[ds ss0] e']| |] eqn:Ee; cbn [rbind] in Hr; try done.
      injection Hr as <- <- <- <-. cbn [nodecl snames].
      apply (ssim_wrap _ va r ds ss0 e' (MultSubstitution l op e') (store_all l op)); try done.
      + intros y Hy. ins.
      + apply store_all_stores. intros y Hy. ins.
    - (* constraint *)
      injection Hr as <- <- <- <-. cbn [snames].
      eapply ssim_ext; [| |apply (ssim_reads _ _ _ (fun m tr => obind D (ofopt D (value D templates m l)) (fun a =>
        obind D (ofopt D (value D templates m r)) (fun b => Done (Some (EConstraint D a b))))))].
      + intros st. cbn. destruct (value D templates (env D st) l); [|done].
        by destruct (value D templates (env D st) r).
      + intros st. cbn. destruct (value D templates (env D st) l); [|done].
        by destruct (value D templates (env D st) r).
      + intros X m tr Hn. rewrite (value_agree D templates (X ∪ m) m l), (value_agree D templates (X ∪ m) m r);
          [done|apply union_agree; intros y Hy; apply Hn; ins..].
      + intros m tr i f ps b. destruct (value D templates m l); [|done]. by destruct (value D templates m r).
      + intros m tr. destruct (value D templates m l); [|done]. by destruct (value D templates m r).
    - (* log *)
      injection Hr as <- <- <- <-. cbn [snames].
      eapply ssim_ext; [| |apply (ssim_reads _ _ _ (fun m tr =>
        obind D (ofopt D (mapM id (map (log_arg D templates m) args))) (fun l => Done (Some (ELog D (concat l))))))].
      + intros st. cbn. by destruct (mapM id _).
      + intros st. cbn. by destruct (mapM id _).
      + intros X m tr Hn.
        rewrite (map_ext_Forall (log_arg D templates (X ∪ m)) (log_arg D templates m)); [done|].
        apply Forall_forall. intros [|e] He; [done|]. cbn. apply log_values_agree, union_agree.
        intros y Hy. apply Hn. apply elem_of_list_In, in_concat. exists (fv e).
        split; [|by apply elem_of_list_In].
        apply elem_of_list_In, elem_of_list_fmap. by exists (LogExp e).
      + intros m tr i f ps b. by destruct (mapM id _).
      + intros m tr. by destruct (mapM id _).
    - (* block *)
      cbn in Hp. rewrite Forall_map in Hp.
      destruct (collect _) as [us| |] eqn:Ec; cbn [rbind] in Hr; try done.
      apply collect_ok in Ec. unfold join_stmts in Hr. injection Hr as <- <- <- <-.
      apply (ssim_block false False). by apply (remove_list_ok l va us).
    - (* assert *)
      injection Hr as <- <- <- <-. cbn [snames].
      eapply ssim_ext; [| |apply (ssim_reads _ _ _ (fun m tr => obind D (ofopt D (value D templates m e))
        (fun v => Done (Some (EAssert D v)))))].
      + intros st. cbn. by destruct (value D templates (env D st) e).
      + intros st. cbn. by destruct (value D templates (env D st) e).
      + intros X m tr Hn. rewrite (value_agree D templates (X ∪ m) m); [done|]. by apply union_agree.
      + intros m tr i f ps b. by destruct (value D templates m e).
      + intros m tr. by destruct (value D templates m e).
  Qed.
End stmts.
