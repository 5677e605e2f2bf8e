(** Removing tuples keeps the meaning of a statement. *)
From Coq Require Import ZArith.
From stdpp Require Import base list strings gmap.
From Verif Require Import AnonModel AnonSpec AnonExpProofs AnonRemoveProofs AnonStmtProofs.

(** No right side creates instances. *)
Fixpoint sclean (s : stmt) : Prop :=
  match s with
  | IfThenElse _ a b => sclean a /\ match b with None => True | Some b' => sclean b' end
  | While _ _ s => sclean s
  | InitializationBlock _ l | Block l => Forall id (map sclean l)
  | Substitution _ _ _ e => clean e
  | MultSubstitution _ _ r => clean r
  | _ => True
  end.

Section tuples.
  Variable D : dom.
  Variable templates : gmap string stmt.
  Variable fuel : nat.

  Notation V := (val D).
  Notation evals := (evals D templates).
  Notation exec := (exec D templates fuel).
  Notation run_all := (run_all D).
  Notation pures := (pures D templates).
  Notation position := (position D templates).
  Notation State := (State D).
  Notation assign := (assign D).
  Notation assign_all := (assign_all D).
  Notation bmap := (gmap string (binding D)).

  (** The value of an expression that is not a tuple. *)
  Definition one1 (m : bmap) (e : exp) : option (rval D) :=
    match pures m e with Some [v] => Some v | _ => None end.

  Definition flat (e : exp) : list exp := match e with Tuple vs => vs | _ => [e] end.

  Lemma pures_one1 m e : clean e -> is_tuple e = false -> pures m e = (fun v => [v]) <$> one1 m e.
  Proof.
    intros Hc Ht. assert (H : exists o, pures m e = (fun v => [v]) <$> o).
    { destruct e; try done; try (eexists; reflexivity).
      - destruct e; try done; eexists; reflexivity.
      - exists (RVal D <$> (mapM id (map (single D) (map (pures m) vs)) ≫= varray D)).
        cbn [AnonExpProofs.pures]. destruct (mapM id _) as [l|]; cbn; [|done]. by destruct (varray D l). }
    destruct H as [o Ho]. unfold one1. rewrite Ho. by destruct o.
  Qed.

  Lemma mapM_id_app {A} (l1 l2 : list (option A)) :
    mapM id (l1 ++ l2) = (a ← mapM id l1; b ← mapM id l2; Some (a ++ b)).
  Proof.
    induction l1 as [|o l1 IH]; cbn; [by destruct (mapM id l2)|].
    destruct o as [a|]; cbn; [|done]. change (mapM (fun x => x) ?l) with (mapM id l).
    rewrite IH. destruct (mapM id l1); cbn; [|done]. by destruct (mapM id l2).
  Qed.

  Lemma mapM_id_concat {A} (l : list (list (option A))) (os : list (option (list A))) :
    Forall2 (fun x o => o = mapM id x) l os ->
    (fun l => concat l) <$> mapM id os = mapM id (concat l).
  Proof.
    induction 1 as [|x o l os -> H IH]; [done|]. cbn [concat]. rewrite mapM_id_app, <- IH. cbn.
    change (mapM (fun x => x) ?l) with (mapM id l).
    destruct (mapM id x); cbn; [|done]. by destruct (mapM id os).
  Qed.

  Lemma remove_tuple_exp_ok e : forall e', clean e -> remove_tuple_exp e = Ok e' ->
    is_tuple e' = is_tuple e /\
    Forall (fun e => is_tuple e = false /\ clean e) (flat e') /\
    (forall m, pures m e = mapM id (map (one1 m) (flat e'))) /\
    (forall x, x ∈ concat (map fv (flat e')) -> x ∈ fv e) /\
    (is_tuple e = false -> e' = e).
  Proof.
    assert (Hbase : forall e, clean e -> is_tuple e = false -> flat e = [e] ->
      is_tuple e = is_tuple e /\
      Forall (fun e => is_tuple e = false /\ clean e) (flat e) /\
      (forall m, pures m e = mapM id (map (one1 m) (flat e))) /\
      (forall x, x ∈ concat (map fv (flat e)) -> x ∈ fv e) /\
      (is_tuple e = false -> e = e)).
    { intros e0 Hc Ht ->. split_and!; [done|by repeat constructor| | |done].
      - intros m. rewrite pures_one1 by done. cbn. by destruct (one1 m e0).
      - intros x. cbn. by rewrite app_nil_r. }
    induction e as [l op r _ _|op r _|c a b _ _ _|r IHr|x acc _|z|f args _|f args _
                   |pos f par params sigs names _ _|vs IH|vs IH|v d _ _] using exp_ind';
      intros e' Hc Hr; cbn [remove_tuple_exp] in Hr; try (injection Hr as <-; by apply Hbase).
    - done.
    - destruct (collect _) as [es| |] eqn:Ec; cbn [rbind] in Hr; try done. injection Hr as <-.
      apply collect_ok in Ec. cbn [clean] in Hc. rewrite Forall_map in Hc.
      change (concat (map (fun e => match e with Tuple vs2 => vs2 | _ => [e] end) es))
        with (concat (map flat es)). cbn [flat].
      assert (HF : Forall2 (fun v e' => Forall (fun e => is_tuple e = false /\ clean e) (flat e') /\
                (forall m, pures m v = mapM id (map (one1 m) (flat e'))) /\
                (forall x, x ∈ concat (map fv (flat e')) -> x ∈ fv v)) vs es).
      { clear -IH Hc Ec. revert es Ec. induction IH as [|v vs Hv IH IHvs]; intros es Ec; cbn in Ec;
          inversion Ec as [|? e' ? es' Hr Ec']; subst; constructor.
        - inversion Hc; subst. destruct (Hv e' ltac:(done) Hr) as (_ & ? & ? & ? & _). done.
        - inversion Hc; subst. by apply IHvs. }
      clear -HF. split_and!; [done|..].
      + apply Forall_concat. apply Forall_map. induction HF as [|v e vs es (H1 & _) HF IH]; constructor; done.
      + intros m. cbn [AnonExpProofs.pures]. rewrite concat_map, map_map. apply mapM_id_concat.
        induction HF as [|v e vs es (_ & H2 & _) HF IH]; cbn; constructor; [by apply H2|done].
      + intros x. cbn [fv]. induction HF as [|v e vs es (_ & _ & H3) HF IH]; cbn; [done|].
        rewrite map_app, concat_app. rewrite !elem_of_app. intros [?|?]; auto.
      + done.
  Qed.

  Lemma targets_flat e : forall e', remove_tuple_exp e = Ok e' ->
    targets e = (fun l => concat l) <$> mapM id (map targets (flat e')).
  Proof.
    assert (Hbase : forall e, flat e = [e] -> targets e = (fun l => concat l) <$> mapM id (map targets (flat e))).
    { intros e0 ->. cbn. destruct (targets e0); cbn; [by rewrite app_nil_r|done]. }
    induction e as [l op r _ _|op r _|c a b _ _ _|r IHr|x acc _|z|f args _|f args _
                   |pos f par params sigs names _ _|vs IH|vs IH|v d _ _] using exp_ind';
      intros e' Hr; cbn [remove_tuple_exp] in Hr; try (injection Hr as <-; by apply Hbase).
    - done.
    - destruct (collect _) as [es| |] eqn:Ec; cbn [rbind] in Hr; try done. injection Hr as <-.
      apply collect_ok in Ec.
      change (concat (map (fun e => match e with Tuple vs2 => vs2 | _ => [e] end) es))
        with (concat (map flat es)). cbn [flat targets]. revert es Ec.
      induction IH as [|v vs Hv IH IHvs]; intros es Ec; cbn in Ec;
        inversion Ec as [|? e' ? es' Hr Ec']; subst; [done|].
      cbn [map concat]. rewrite map_app, mapM_id_app. specialize (IHvs es' Ec').
      pose proof (Hv e' Hr) as Hv'.
      cbn. change (mapM (fun x => x) ?l) with (mapM id l). rewrite Hv'.
      destruct (mapM id (map targets (flat e'))) as [l1|]; cbn; [|done].
      destruct (mapM id (map targets vs)) as [l2|], (mapM id (map targets (concat (map flat es')))) as [l3|];
        cbn in *; try done. injection IHvs as IHvs. rewrite concat_app. congruence.
  Qed.

  (** What an assignment does to the state. *)
  Definition relocal (L : gset string) (t : state D) : state D :=
    State (env D t) L (trace D t) (supply D t).

  Lemma assign_cases op x acc v st :
    (assign op x acc v st = Failed \/
     exists t, assign op x acc v st = Done t /\ locals D t = locals D st /\
       (env D t = env D st \/ op = AssignVar /\ exists b, env D t = <[x := b]> (env D st))) /\
    (forall L, assign op x acc v (relocal L st)
               = obind D (assign op x acc v st) (fun t => Done (relocal L t))).
  Proof.
    unfold AnonSpec.assign, relocal. cbn [env trace]. destruct (bool_decide (x = "_"%string)).
    { destruct v; [|split; [by left|done]]. split; [|done]. right. eexists. split; [done|]. split; [done|]. by left. }
    destruct (env D st !! x) as [[old| |]|]; [..|split; [by left|done]].
    - destruct v as [v|]; [|split; [by left|done]].
      destruct (bool_decide (op = AssignVar)) eqn:Eop; [|split; [by left|done]].
      apply bool_decide_eq_true in Eop. destruct acc as [|a acc].
      + split; [|done]. right. eexists. split; [done|]. split; [done|]. right. split; [done|]. by eexists.
      + destruct (vupdate D old (a :: acc) v); cbn [ofopt obind]; [|split; [by left|done]].
        split; [|done]. right. eexists. split; [done|]. split; [done|]. right. split; [done|]. by eexists.
    - destruct v as [v|]; [|split; [by left|done]].
      split; [|done]. right. eexists. split; [done|]. split; [done|]. by left.
    - destruct v as [v|f ps par].
      + destruct (split_access D acc) as [idx [|[port|] rest]]; [split; [by left|done]| |split; [by left|done]].
        split; [|done]. right. eexists. split; [done|]. split; [done|]. by left.
      + destruct op; [|split; [by left|done]..].
        destruct (split_access D acc) as [idx [|[port|] rest]]; [|split; [by left|done]..].
        destruct (existsb _ _); [split; [by left|done]|].
        split; [|done]. right. eexists. split; [done|]. split; [done|]. by left.
  Qed.

  Lemma assign_all_cases op l st :
    (assign_all op l st = Failed \/ exists t, assign_all op l st = Done t /\ locals D t = locals D st) /\
    (forall L, assign_all op l (relocal L st) = obind D (assign_all op l st) (fun t => Done (relocal L t))).
  Proof.
    revert st. induction l as [|[[x acc] v] l IH]; intros st; cbn [AnonSpec.assign_all].
    - split; [right; by eexists|done].
    - destruct (assign_cases op x acc v st) as [H1 H2].
      destruct H1 as [H1|(t & H1 & HL & _)].
      + split; [left; by rewrite H1|]. intros L. by rewrite H2, H1.
      + destruct (IH t) as [IH1 IH2]. split.
        * rewrite H1. cbn [obind]. destruct IH1 as [->|(t' & -> & Ht')]; [by left|right].
          exists t'. split; [done|]. by rewrite Ht'.
        * intros L. rewrite H2, H1. cbn [obind]. apply IH2.
  Qed.

  Lemma leave_locals st t : locals D t = ∅ -> leave D st t = relocal (locals D st) t.
  Proof.
    intros H. unfold leave, relocal. rewrite H. f_equal. apply map_eq. intros x.
    destruct (env D t !! x) as [b|] eqn:E.
    - apply lookup_union_Some_l. apply map_filter_lookup_Some. split; [done|]. set_solver.
    - apply lookup_union_None. split; apply map_filter_lookup_None; [by left|right]. set_solver.
  Qed.

  (** One assignment after the other. *)
  Lemma exec_zip op ls rs ss :
    zip_substitutions op ls rs = Ok ss -> length ls = length rs ->
    Forall (fun e => is_tuple e = false /\ clean e) rs ->
    forall ts st, mapM id (map targets ls) = Some ts ->
    (op = AssignVar -> forall x, x ∈ map fst (concat ts) ->
       x ∉ concat (map fv rs) /\ Forall (fun t => x ∉ fv_acc t.2) (concat ts)) ->
    run_all (map exec ss) st
    = obind D (ofopt D (mapM id (map (one1 (env D st)) rs))) (fun vs =>
      obind D (ofopt D (mapM id (map (fun t => (fun a => (t.1, a)) <$> position (env D st) t.1 t.2) (concat ts))))
        (fun ts' => assign_all op (zip ts' vs) st)).
  Proof.
    intros Hz Hlen Hrs. revert rs ss Hz Hlen Hrs.
    induction ls as [|l ls IH]; intros [|r rs] ss Hz Hlen Hrs ts st Hts Hind; try done.
    { cbn in Hts. injection Hts as <-. cbn in Hz. injection Hz as <-. done. }
    cbn in Hz. destruct l; try done.
    destruct (zip_substitutions op ls rs) as [ss'| |] eqn:Ez; cbn [rbind] in Hz; try done.
    injection Hz as <-. cbn in Hts. apply bind_Some in Hts as (ts' & Hts' & [= <-]).
    apply Forall_cons in Hrs as [[Hr1 Hr2] Hrs].
    assert (Hsub : exec (if bool_decide (x = "_"%string) then UnderscoreSubstitution op r
                         else Substitution x acc op r) st
      = obind D (ofopt D (one1 (env D st) r)) (fun v =>
        obind D (ofopt D (position (env D st) x acc)) (fun a => assign op x a v st))).
    { assert (Hev : evals false r st = obind D (ofopt D (one1 (env D st) r)) (fun v => Done (st, [v]))).
      { rewrite evals_clean by done. rewrite pures_one1 by done. by destruct (one1 (env D st) r). }
      unfold AnonSpec.position, AnonSpec.assign.
      destruct (bool_decide (x = "_"%string)) eqn:Ex; cbn [AnonSpec.exec]; rewrite Hev;
        destruct (one1 (env D st) r) as [v|]; cbn [ofopt obind one one_value]; try done.
      - by destruct v.
      - unfold AnonSpec.position, AnonSpec.assign. by rewrite Ex. }
    cbn [map AnonSpec.run_all]. rewrite Hsub. clear Hsub.
    cbn [concat app map].
    assert (Hrhs : forall (k : list (rval D) -> list (string * list (vaccess V)) -> out D (state D)),
      obind D (ofopt D (mapM id (one1 (env D st) r :: map (one1 (env D st)) rs))) (fun vs =>
        obind D (ofopt D (mapM id (((fun a => (x, a)) <$> position (env D st) x acc)
          :: map (fun t => (fun a => (t.1, a)) <$> position (env D st) t.1 t.2) (concat ts')))) (fun ts0 => k vs ts0))
      = match one1 (env D st) r, position (env D st) x acc with
        | Some v, Some a =>
            obind D (ofopt D (mapM id (map (one1 (env D st)) rs))) (fun vs =>
            obind D (ofopt D (mapM id (map (fun t => (fun a => (t.1, a)) <$> position (env D st) t.1 t.2) (concat ts'))))
              (fun ts0 => k (v :: vs) ((x, a) :: ts0)))
        | _, _ => Failed
        end).
    { intros k. cbn. change (mapM (fun x => x) ?l) with (mapM id l).
      destruct (one1 (env D st) r) as [v|]; cbn; [|done].
      destruct (position (env D st) x acc) as [a|]; cbn;
        destruct (mapM id (map (one1 (env D st)) rs)); cbn; try done.
      by destruct (mapM id (map _ (concat ts'))). }
    cbn [fst snd]. rewrite (Hrhs (fun vs ts0 => assign_all op (zip ts0 vs) st)). clear Hrhs.
    destruct (one1 (env D st) r) as [v|]; cbn [ofopt obind]; [|done].
    destruct (position (env D st) x acc) as [a|]; cbn [ofopt obind]; [|done].
    cbn [zip zip_with AnonSpec.assign_all].
    destruct (assign_cases op x a v st) as [[H1|(t & H1 & _ & Henv)] _].
    { rewrite H1. cbn [obind]. destruct (mapM id (map (one1 _) rs)); cbn; [|done].
      by destruct (mapM id (map _ (concat ts'))). }
    rewrite H1. cbn [obind]. injection Hlen as Hlen.
    rewrite (IH rs ss' Ez Hlen Hrs ts' t Hts').
    2: { intros Hop y Hy. destruct (Hind Hop y) as [Hy1 Hy2]; [cbn; by right|].
         cbn in Hy1, Hy2. split; [intros Hin; apply Hy1, elem_of_app; by right|].
         by apply Forall_cons in Hy2 as [_ Hy2]. }
    assert (H2 : map (one1 (env D t)) rs = map (one1 (env D st)) rs).
    { apply map_ext_Forall, Forall_forall. intros e He. unfold one1.
      rewrite (pures_agree D templates (env D t) (env D st)); [done|].
      intros y Hy. destruct Henv as [->|[Hop [b ->]]]; [done|].
      apply lookup_insert_ne. intros <-. destruct (Hind Hop x) as [Hn _]; [cbn; left|].
      apply Hn. cbn. apply elem_of_app. right. apply elem_of_list_In, in_concat. exists (fv e).
      split; [|by apply elem_of_list_In]. apply in_map. by apply elem_of_list_In. }
    assert (H3 : map (fun t0 => (fun a => (t0.1, a)) <$> position (env D t) t0.1 t0.2) (concat ts')
             = map (fun t0 => (fun a => (t0.1, a)) <$> position (env D st) t0.1 t0.2) (concat ts')).
    { apply map_ext_Forall, Forall_forall. intros u Hu.
      rewrite (position_agree D templates (env D t) (env D st)); [done|].
      intros y Hy. destruct Henv as [->|[Hop [b ->]]]; [done|].
      apply lookup_insert_ne. intros <-. destruct (Hind Hop x) as [_ Hn]; [cbn; left|].
      cbn in Hn. apply Forall_cons in Hn as [_ Hn]. rewrite Forall_forall in Hn. by apply (Hn u). }
    rewrite H2, H3. done.
  Qed.

  Lemma run_all_ext fs gs : Forall2 (fun f g => forall st, f st = g st) fs gs ->
    forall st, run_all fs st = run_all gs st.
  Proof.
    induction 1 as [|f g fs gs Hf H IH]; intros st; cbn; [done|]. rewrite Hf. destruct (g st); cbn; try done.
  Qed.

  Lemma log_separate m e :
    log_values D templates m e
    = (fun l => concat l) <$> mapM id (map (log_arg D templates m) (separate_tuple e)).
  Proof.
    assert (Hbase : forall e, is_tuple e = false -> log_values D templates m e = 
      (fun l => concat l) <$> mapM id (map (log_arg D templates m) [LogExp e])).
    { intros e0 _. cbn. destruct (log_values D templates m e0); cbn; [by rewrite app_nil_r|done]. }
    induction e as [| | | | | | | | | |vs IH|] using exp_ind'; try by apply Hbase.
    cbn [separate_tuple log_values map].
    assert (H : (fun l => concat l) <$> mapM id (map (log_values D templates m) vs)
      = (fun l => concat l) <$> mapM id (map (log_arg D templates m) (concat (map separate_tuple vs)))).
    { clear Hbase. induction IH as [|v vs Hv IH IHvs]; [done|]. cbn [map concat].
      rewrite map_app, mapM_id_app. cbn. change (mapM (fun x => x) ?l) with (mapM id l). rewrite Hv.
      destruct (mapM id (map (log_arg D templates m) (separate_tuple v))) as [l1|]; cbn; [|done].
      destruct (mapM id (map (log_values D templates m) vs)) as [l2|],
        (mapM id (map (log_arg D templates m) (concat (map separate_tuple vs)))) as [l3|]; cbn in *; try done.
      injection IHvs as IHvs. rewrite concat_app. congruence. }
    rewrite map_app. cbn. change (mapM (fun x => x) ?l) with (mapM id l). rewrite mapM_id_app.
    destruct (mapM id (map (log_values D templates m) vs)) as [l2|],
      (mapM id (map (log_arg D templates m) (concat (map separate_tuple vs)))) as [l3|]; cbn in *; try done.
    injection H as H. rewrite H, concat_app. cbn. done.
  Qed.

  Lemma exec_mult l op r ss st ls rs :
    clean r -> remove_tuple_exp l = Ok (Tuple ls) -> remove_tuple_exp r = Ok (Tuple rs) ->
    length ls = length rs -> zip_substitutions op ls rs = Ok ss ->
    independent (MultSubstitution l op r) -> clean l ->
    exec (Block ss) st = exec (MultSubstitution l op r) st.
  Proof.
    intros Hc Hl Hr Hlen Hz Hind Hcl.
    destruct (remove_tuple_exp_ok r _ Hc Hr) as (_ & Hflat & Hpures & Hfv & _). cbn [flat] in *.
    destruct (remove_tuple_exp_ok l _ Hcl Hl) as (Htl & _). cbn in Htl.
    pose proof (targets_flat l _ Hl) as Ht. cbn [flat] in Ht.
    assert (Hts : exists ts, mapM id (map targets ls) = Some ts).
    { clear -Hz Hlen. revert rs ss Hz Hlen. induction ls as [|e ls IH]; intros [|r rs] ss Hz Hlen; try done.
      - by eexists.
      - cbn in Hz. destruct e; try done. destruct (zip_substitutions op ls rs) as [ss'| |] eqn:E; try done.
        injection Hlen as Hlen. destruct (IH rs ss' E Hlen) as [ts Hts].
        eexists. cbn. change (mapM (fun x => x) ?l) with (mapM id l). rewrite Hts. cbn. done. }
    destruct Hts as [ts Hts]. rewrite Hts in Ht. cbn in Ht.
    cbn [AnonSpec.exec]. rewrite evals_clean by done. unfold tuple_targets. rewrite <- Htl, Ht.
    rewrite (exec_zip op ls rs ss Hz Hlen Hflat ts (enter D st) Hts).
    2: { intros -> x Hx. apply elem_of_list_fmap in Hx as (t & -> & Hin). cbn in Hind. rewrite Ht in Hind. split.
         - intros Hx. destruct (Hind t t Hin Hin) as [Hn _]. by apply Hn, Hfv.
         - apply Forall_forall. intros u Hu. by apply (Hind t u). }
    cbn [enter env]. rewrite Hpures.
    destruct (mapM id (map (one1 (env D st)) rs)) as [vs|] eqn:Evs; cbn [ofopt obind]; [|done].
    destruct (mapM id (map _ (concat ts))) as [ts'|] eqn:Ets; cbn [ofopt obind]; [|done].
    rewrite bool_decide_eq_true_2.
    - destruct (assign_all_cases op (zip ts' vs) (enter D st)) as [Hcase Hrel].
      specialize (Hrel (locals D st)).
      assert (Hst : relocal (locals D st) (enter D st) = st) by (by destruct st). rewrite Hst in Hrel.
      rewrite Hrel. destruct Hcase as [->|(t & -> & Hloc)]; [done|]. cbn [obind].
      by rewrite leave_locals.
    - apply mapM_length in Evs, Ets. rewrite map_length in Evs, Ets. rewrite <- Evs, <- Ets, <- Hlen.
      apply mapM_length in Hts as Hl2. rewrite map_length in Hl2.
      clear -Hts Hz Hlen. revert rs ss ts Hz Hlen Hts. induction ls as [|e ls IH]; intros [|r rs] ss ts Hz Hlen Hts; try done.
      + cbn in Hts. by injection Hts as <-.
      + cbn in Hz. destruct e; try done. destruct (zip_substitutions op ls rs) as [ss'| |] eqn:E; try done.
        cbn in Hts. apply bind_Some in Hts as (ts' & Hts' & [= <-]). cbn. injection Hlen as Hlen.
        f_equal. by eapply IH.
  Qed.

  Theorem remove_tuples_ok s : sclean s -> independent s ->
    forall s', remove_tuples_stmt s = Ok s' -> forall st, exec s' st = exec s st.
  Proof.
    induction s as [c a b IHa IHb|pos c s IHs|e|t l IH|t x dims an|x acc op e|l op r|op e|l r|args|l IH|e]
      using stmt_ind'; intros Hc Hi s' Hr; cbn [remove_tuples_stmt] in Hr; try discriminate Hr;
      try (injection Hr as <-; done).
    - cbn in Hc, Hi. destruct Hc as [Hc1 Hc2], Hi as [Hi1 Hi2].
      destruct (remove_tuples_stmt a) as [a'| |] eqn:Ea; cbn [rbind] in Hr; try done.
      destruct b as [b|].
      + destruct (remove_tuples_stmt b) as [b'| |] eqn:Eb; cbn [rbind] in Hr; try done.
        injection Hr as <-. intros st. cbn. destruct (condition D templates c st) as [[]|]; [|by eapply (IHb b eq_refl)|done].
        by apply IHa.
      + injection Hr as <-. intros st. cbn. destruct (condition D templates c st) as [[]|]; [|done..]. by apply IHa.
    - cbn in Hc, Hi. destruct (remove_tuples_stmt s) as [s1| |] eqn:Es; cbn [rbind] in Hr; try done.
      injection Hr as <-. intros st. cbn. apply loop_ext; [done|]. by apply IHs.
    - cbn in Hc, Hi. rewrite Forall_map in Hc, Hi.
      destruct (collect _) as [us| |] eqn:Ec; cbn [rbind] in Hr; try done.
      apply collect_ok in Ec. injection Hr as <-. intros st. cbn. apply run_all_ext.
      revert us Ec. induction IH as [|s l Hs IH IHl]; intros us Ec; cbn in Ec;
        inversion Ec as [|? s' ? us' Hr Ec']; subst; cbn; [constructor|].
      apply Forall_cons in Hc as [Hc1 Hc2]. apply Forall_cons in Hi as [Hi1 Hi2].
      constructor; [by apply Hs|by apply IHl].
    - cbn in Hc. destruct (remove_tuple_exp e) as [e'| |] eqn:Ee; cbn [rbind] in Hr; try done.
      destruct (remove_tuple_exp_ok e e' Hc Ee) as (Ht & _ & _ & _ & He).
      destruct (is_tuple e') eqn:Et; [done|]. rewrite He in * by done.
      destruct (bool_decide (x = "_"%string)) eqn:Ex; injection Hr as <-; [|done].
      intros st. cbn [AnonSpec.exec]. rewrite evals_clean by done. rewrite pures_one1 by done.
      destruct (one1 (env D st) e) as [v|]; cbn [ofopt obind one one_value fmap option_fmap option_map]; [|done].
      unfold AnonSpec.position, AnonSpec.assign. rewrite Ex. cbn. by destruct v.
    - cbn in Hc. destruct (remove_tuple_exp l) as [l'| |] eqn:El; cbn [rbind] in Hr; try done.
      destruct (remove_tuple_exp r) as [r'| |] eqn:Er; cbn [rbind] in Hr; try done.
      destruct l' as [| | | | | | | | | |ls|]; try done. destruct r' as [| | | | | | | | | |rs|]; try done.
      destruct (bool_decide (length ls = length rs)) eqn:Elen; [|done]. apply bool_decide_eq_true in Elen.
      destruct (zip_substitutions op ls rs) as [ss| |] eqn:Ez; cbn [rbind] in Hr; try done.
      injection Hr as <-. intros st. eapply (exec_mult l op r ss st ls rs); try done.
      (* the left side holds only variables *)
      clear -El Ez Elen. assert (Hv : Forall (fun e => exists x acc, e = Var x acc) ls).
      { clear El. revert rs ss Ez Elen. induction ls as [|e ls IH]; intros [|r rs] ss Ez Elen; try done.
        cbn in Ez. destruct e; try done. destruct (zip_substitutions op ls rs) eqn:E; try done.
        injection Elen as Elen. constructor; [by eexists _, _|]. by eapply IH. }
      assert (Hgen : forall e e', remove_tuple_exp e = Ok e' ->
        Forall (fun e => exists x acc, e = Var x acc) (flat e') -> clean e).
      { clear. induction e as [l op r _ _|op r _|c a b _ _ _|r IHr|x acc _|z|f args _|f args _
                   |pos f par params sigs names _ _|vs IH|vs IH|v d _ _] using exp_ind';
          intros e' Hr Hf; cbn [remove_tuple_exp] in Hr; try (injection Hr as <-; cbn in Hf;
          apply Forall_cons in Hf as [(? & ? & ?) _]; done); try done.
        - destruct (collect _) as [es| |] eqn:Ec; cbn [rbind] in Hr; try done. injection Hr as <-.
          apply collect_ok in Ec. cbn [flat] in Hf.
          change (concat (map (fun e => match e with Tuple vs2 => vs2 | _ => [e] end) es))
            with (concat (map flat es)) in Hf. cbn. apply Forall_map. revert es Ec Hf.
          induction IH as [|v vs Hv IH IHvs]; intros es Ec Hf; cbn in Ec;
            inversion Ec as [|? e' ? es' Hr Ec']; subst; constructor.
          + cbn in Hf. apply Forall_app in Hf as [Hf _]. by eapply Hv.
          + cbn in Hf. apply Forall_app in Hf as [_ Hf]. by eapply IHvs. }
      by eapply Hgen.
    - injection Hr as <-. intros st. cbn.
      assert (H : (fun l => concat l) <$> mapM id (map (log_arg D templates (env D st)) args)
        = (fun l => concat l) <$> mapM id (map (log_arg D templates (env D st))
            (concat (map (fun a => match a with LogStr t => [LogStr t] | LogExp e => separate_tuple e end) args)))).
      { clear. set (m := env D st). clearbody m. clear st. induction args as [|a args IH]; [done|].
        cbn [map concat]. rewrite map_app, mapM_id_app. cbn. change (mapM (fun x => x) ?l) with (mapM id l).
        assert (Ha : log_arg D templates m a = (fun l => concat l) <$> mapM id (map (log_arg D templates m)
           (match a with LogStr t => [LogStr t] | LogExp e => separate_tuple e end))).
        { destruct a as [t|e]; [done|]. apply log_separate. }
        rewrite Ha. destruct (mapM id (map (log_arg D templates m) (match a with LogStr _ => _ | LogExp _ => _ end))) as [l1|]; cbn; [|done].
        destruct (mapM id (map (log_arg D templates m) args)) as [l2|],
          (mapM id (map (log_arg D templates m) (concat (map _ args)))) as [l3|]; cbn in *; try done.
        injection IH as IH. rewrite concat_app. congruence. }
      destruct (mapM id (map (log_arg D templates (env D st)) args)) as [l2|],
        (mapM id (map (log_arg D templates (env D st)) (concat (map _ args)))) as [l3|]; cbn in *; try done.
      injection H as H. by rewrite H.
    - cbn in Hc, Hi. rewrite Forall_map in Hc, Hi.
      destruct (collect _) as [us| |] eqn:Ec; cbn [rbind] in Hr; try done.
      apply collect_ok in Ec. injection Hr as <-. intros st. cbn. f_equal. apply run_all_ext.
      revert us Ec. induction IH as [|s l Hs IH IHl]; intros us Ec; cbn in Ec;
        inversion Ec as [|? s' ? us' Hr Ec']; subst; cbn; [constructor|].
      apply Forall_cons in Hc as [Hc1 Hc2]. apply Forall_cons in Hi as [Hi1 Hi2].
      constructor; [by apply Hs|by apply IHl].
  Qed.
End tuples.
