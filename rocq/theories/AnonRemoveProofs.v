(** Removing the anonymous components of an expression keeps its meaning. *)
From Coq Require Import ZArith.
From stdpp Require Import base list strings gmap.
From Verif Require Import AnonModel AnonSpec AnonExpProofs AnonArgProofs.

Definition decl_name (d : stmt) : string :=
  match d with Declaration _ x _ _ => x | _ => "" end.
Definition decl_names (ds : list stmt) : list string := map decl_name ds.

Lemma collect_ok {A} (l : list (res A)) l' : collect l = Ok l' <-> Forall2 (fun r a => r = Ok a) l l'.
Proof.
  revert l'. induction l as [|r l IH]; intros l'; cbn.
  - split; [intros [= <-]; constructor|by inversion 1].
  - split.
    + destruct r as [a| |]; cbn; try done. destruct (collect l) as [l0| |] eqn:E; cbn; try done.
      intros [= <-]. constructor; [done|]. by apply IH.
    + inversion 1 as [|? a ? l0 -> H0]; subst. cbn. apply IH in H0. by rewrite H0.
Qed.

Section sim.
  Variable D : dom.
  Variable templates : gmap string stmt.
  Variable line : N -> N.
  Variable fuel : nat.
  Hypothesis Hinputs : forall f body, templates !! f = Some body -> NoDup (declaration_inputs body).

  Notation V := (val D).
  Notation eval := (eval D templates).
  Notation evals := (evals D templates).
  Notation exec := (exec D templates fuel).
  Notation run_all := (run_all D).
  Notation pures := (pures D templates).
  Notation remove_anonymous_exp := (remove_anonymous_exp templates line).
  Notation State := (State D).
  Notation event := (event D).

  Lemma run_all_app fs gs st :
    run_all (fs ++ gs) st = obind D (run_all fs st) (run_all gs).
  Proof.
    revert st. induction fs as [|f fs IH]; intros st; cbn; [done|].
    destruct (f st); cbn; try done.
  Qed.

  Definition created (i : inst V) (tr : list event) : bool := existsb (is_create D i) tr.

  Lemma created_app i l1 l2 : created i (l1 ++ l2) = created i l1 || created i l2.
  Proof. apply existsb_app. Qed.

  Lemma created_false i tr :
    (forall j f ps b, ECreate D j f ps b ∈ tr -> j ≠ i) -> created i tr = false.
  Proof.
    intros H. destruct (created i tr) eqn:E; [|done]. apply existsb_exists in E as (ev & Hin & Hev).
    destruct ev; cbn in Hev; try done. apply bool_decide_eq_true in Hev. subst.
    exfalso. eapply H; [|done]. by apply elem_of_list_In.
  Qed.

  Lemma created_true i f ps b tr : ECreate D i f ps b ∈ tr -> created i tr = true.
  Proof.
    intros H. apply existsb_exists. eexists. split; [by apply elem_of_list_In|].
    cbn. by apply bool_decide_eq_true.
  Qed.

  (** The statements [ss] of the new program, then the value [tgt], do what
      [src] does in the old program with the instances named after [names]. *)
  Definition sim {A} (X m : gmap string (binding D)) (idx : list V) (names : list string)
      (ss : list stmt) (src : state D -> out D (state D * A)) (tgt : option A) : Prop :=
    forall tr L L0 rest,
      (forall o, o ∈ names -> created (o, idx) tr = false) ->
      match run_all (map exec ss) (State (X ∪ m) L tr []) with
      | Done t => exists new, t = State (X ∪ m) L (new ++ tr) [] /\
          (forall i f ps b, ECreate D i f ps b ∈ new -> i.1 ∈ names /\ i.2 = idx) /\
          (forall o, o ∈ names -> created (o, idx) new = true) /\
          src (State m L0 tr (map (fun o => (o, idx)) names ++ rest))
          = obind D (ofopt D tgt) (fun a => Done (State m L0 (new ++ tr) rest, a))
      | Failed => src (State m L0 tr (map (fun o => (o, idx)) names ++ rest)) = Failed
      | _ => False
      end.

  Lemma sim_nil {A} X m idx : sim X m idx [] [] (@seq D A []) (Some []).
  Proof.
    intros tr L L0 rest _. cbn. exists []. split_and!; [done| | |done].
    - intros i f ps b H. by apply elem_of_nil in H.
    - intros o H. by apply elem_of_nil in H.
  Qed.

  Lemma sim_cons {A} X m idx n1 n2 ss1 ss2 (f : state D -> out D (state D * A)) fs o os :
    NoDup (n1 ++ n2) ->
    sim X m idx n1 ss1 f o ->
    sim X m idx n2 ss2 (seq D fs) (mapM id os) ->
    sim X m idx (n1 ++ n2) (ss1 ++ ss2) (seq D (f :: fs)) (mapM id (o :: os)).
  Proof.
    intros Hnd H1 H2 tr L L0 rest Hf. rewrite map_app, run_all_app.
    specialize (H1 tr L L0 (map (fun o => (o, idx)) n2 ++ rest)).
    rewrite map_app, <- app_assoc. cbn [seq].
    destruct (run_all (map exec ss1) _) as [t|tr0 v0| | |]; cbn [obind].
    2,4,5: apply H1; intros o' Ho'; apply Hf, elem_of_app; by left.
    2:{ rewrite H1; [done|]. intros o' Ho'. apply Hf, elem_of_app. by left. }
    destruct H1 as (new1 & -> & Hn1 & Hc1 & Hs1).
    { intros o' Ho'. apply Hf, elem_of_app. by left. }
    specialize (H2 (new1 ++ tr) L L0 rest).
    assert (Hf2 : forall o, o ∈ n2 -> created (o, idx) (new1 ++ tr) = false).
    { intros o' Ho'. rewrite created_app. rewrite (Hf o') by (apply elem_of_app; by right).
      rewrite orb_false_r. apply created_false. intros j f' ps b Hj ->.
      destruct (Hn1 _ _ _ _ Hj) as [Hj1 _]. cbn in Hj1. apply NoDup_app in Hnd as (_ & Hd & _).
      by apply (Hd o'). }
    specialize (H2 Hf2). rewrite Hs1.
    destruct (run_all (map exec ss2) _) as [t|tr0 v0| | |]; try done.
    - destruct H2 as (new2 & -> & Hn2 & Hc2 & Hs2). exists (new2 ++ new1). split_and!.
      + by rewrite app_assoc.
      + intros i f' ps b Hi. apply elem_of_app in Hi as [Hi|Hi].
        * destruct (Hn2 _ _ _ _ Hi). split; [|done]. apply elem_of_app. by right.
        * destruct (Hn1 _ _ _ _ Hi). split; [|done]. apply elem_of_app. by left.
      + intros o' Ho'. rewrite created_app. apply orb_true_iff.
        apply elem_of_app in Ho' as [Ho'|Ho']; [right; by apply Hc1|left; by apply Hc2].
      + destruct o as [a|]; cbn; [|done]. rewrite Hs2.
        destruct (mapM id os) as [l|]; cbn; [|done]. by rewrite app_assoc.
    - destruct o as [a|]; cbn; [|done]. by rewrite H2.
  Qed.

  Lemma sim_seq {A} X m idx (l : list (list string * list stmt * (state D -> out D (state D * A)) * option A)) :
    NoDup (concat (map (fun x => x.1.1.1) l)) ->
    Forall (fun x => sim X m idx x.1.1.1 x.1.1.2 x.1.2 x.2) l ->
    sim X m idx (concat (map (fun x => x.1.1.1) l)) (concat (map (fun x => x.1.1.2) l))
      (seq D (map (fun x => x.1.2) l)) (mapM id (map snd l)).
  Proof.
    intros Hnd HF. induction HF as [|x l Hx HF IH]; [apply sim_nil|]. cbn [map concat] in *.
    apply sim_cons; [done|done|]. apply IH. by apply NoDup_app in Hnd as (_ & _ & ?).
  Qed.

  Lemma sim_post {A B} X m idx names ss src (tgt : option A)
      (g : out D (state D * A) -> out D (state D * B)) (g' : option A -> option B) :
    (forall st o, g (obind D (ofopt D o) (fun a => Done (st, a)))
                  = obind D (ofopt D (g' o)) (fun a => Done (st, a))) ->
    g Failed = Failed ->
    sim X m idx names ss src tgt ->
    sim X m idx names ss (fun st => g (src st)) (g' tgt).
  Proof.
    intros Hg HgF H tr L L0 rest Hf. specialize (H tr L L0 rest Hf).
    destruct (run_all _ _) as [t|tr0 v0| | |]; try done.
    - destruct H as (new & -> & Hn & Hcr & Hs). exists new. split_and!; [done..|]. by rewrite Hs, Hg.
    - by rewrite H.
  Qed.

  Definition loop_idx (X : gmap string (binding D)) (va : option exp) (idx : list V) : Prop :=
    match va with
    | None => idx = []
    | Some v => exists c w, v = Var c [] /\ X !! c = Some (BVar D w) /\ idx = [w]
    end.

  Lemma accesses_loop X m va idx rest rest' :
    loop_idx X va idx ->
    accesses D templates (X ∪ m) rest = Some rest' ->
    accesses D templates (X ∪ m) (loop_access va ++ rest) = Some (map VArray idx ++ rest').
  Proof.
    intros Hl Hr. unfold loop_access. destruct va as [v|]; cbn in Hl.
    - destruct Hl as (c & w & -> & Hc & ->). cbn [app].
      assert (Hv : value D templates (X ∪ m) (Var c []) = Some w).
      { unfold value. cbn. by rewrite lookup_union_l', Hc by (by eexists). }
      unfold accesses in *. cbn [map]. rewrite Hv.
      cbn [mapM]. etransitivity; [|reflexivity]. cbn -[mapM map].
      by rewrite Hr.
    - subst idx. cbn. exact Hr.
  Qed.

  Lemma split_access_idx idx (rest : list (vaccess V)) :
    (forall v r, rest ≠ VArray v :: r) ->
    split_access D (map VArray idx ++ rest) = (idx, rest).
  Proof.
    intros Hr. induction idx as [|v idx IH]; cbn.
    - destruct rest as [|[s|v] r]; cbn; try done. by destruct (Hr v r).
    - by rewrite IH.
  Qed.

  Lemma position_eq m x acc : x ≠ "_"%string -> position D templates m x acc = accesses D templates m acc.
  Proof. intros H. unfold position. by rewrite bool_decide_eq_false_2. Qed.

  Lemma sim_assign X m idx va names ss e e' tmp x :
    loop_idx X va idx -> X !! tmp = Some (BComponent D) -> tmp ≠ "_"%string -> clean e' ->
    sim X m idx names ss (evals false e) (pures (X ∪ m) e') ->
    sim X m idx names
      (ss ++ [Substitution tmp (loop_access va ++ [ComponentAccess x]) AssignConstraintSignal e'])
      (fun st => obind D (one_value D (evals false e st)) (fun '(st', v) =>
         Done (emit D (EAssign D AssignConstraintSignal (PPort D (tmp, idx) x []) v) st', tt)))
      (Some tt).
  Proof.
    intros Hl Htmp Hne Hc H tr L L0 rest Hf. specialize (H tr L L0 rest Hf).
    rewrite map_app, run_all_app.
    destruct (run_all (map exec ss) _) as [t|tr0 v0| | |]; try done; cbn [obind].
    2:{ by rewrite H. }
    destruct H as (new & -> & Hn & Hcr & Hs). rewrite Hs. cbn [map AnonSpec.run_all AnonSpec.exec].
    rewrite evals_clean by done. cbn [env].
    destruct (pures (X ∪ m) e') as [[|r [|r2 vs]]|]; cbn; [done| |by destruct r|done].
    rewrite position_eq by done.
    rewrite (accesses_loop X m va idx _ [VComponent x]) by done. cbn.
    unfold assign. rewrite bool_decide_eq_false_2 by done. cbn [env].
    rewrite lookup_union_l', Htmp by (by eexists).
    rewrite split_access_idx by done.
    destruct r as [v|]; cbn; [|done].
    eexists (_ :: new). split_and!; [done| | |done].
    - intros i f ps b Hi. apply elem_of_cons in Hi as [?|Hi]; [done|]. by eapply Hn.
    - intros o Ho. unfold created. cbn. by apply Hcr.
  Qed.

  Lemma mapM_id_Some {A} (l : list A) : mapM id (map Some l) = Some l.
  Proof. induction l as [|a l IH]; cbn; [done|]. by rewrite IH. Qed.

  (** The state of the block of an anonymous component. *)
  Lemma leave_empty st m tr s : leave D st (State m ∅ tr s) = State m (locals D st) tr s.
  Proof.
    unfold leave. cbn. f_equal. apply map_eq. intros x.
    destruct (m !! x) as [b|] eqn:E.
    - apply lookup_union_Some_l. apply map_filter_lookup_Some. split; [done|]. set_solver.
    - apply lookup_union_None. split; apply map_filter_lookup_None; [by left|right]. set_solver.
  Qed.

  Lemma sim_anon X m idx va names ssl (srcl : list (state D -> out D (state D * unit)))
      tmp f ps params par body :
    templates !! f = Some body ->
    loop_idx X va idx -> X !! tmp = Some (BComponent D) -> tmp ≠ "_"%string ->
    (forall x, x ∈ concat (map fv params) -> X !! x = None) ->
    tmp ∉ names ->
    ps = (if (par : bool) then Parallel (Call f params) else Call f params) ->
    sim X m idx names ssl (seq D srcl) (Some (replicate (length srcl) tt)) ->
    sim X m idx (tmp :: names)
      [Block (Substitution tmp (loop_access va) AssignVar ps :: ssl)]
      (fun st => obind D (ofopt D (values D templates (env D st) params)) (fun ps =>
         match supply D st with
         | [] => OutOfNames
         | i :: rest =>
             obind D (seq D srcl (State (env D st) (locals D st)
                            (ECreate D i f ps par :: trace D st) rest))
               (fun '(st2, _) => obind D (ofopt D (mapM (fun x => vport D i x []) (declaration_outputs body)))
                  (fun vs => Done (st2, map (RVal D) vs)))
         end))
      (map (RVal D) <$> mapM (fun x => vport D (tmp, idx) x []) (declaration_outputs body)).
  Proof.
    intros Hf Hl Htmp Hne Hfv Hnew -> H tr L L0 rest Hfr.
    cbn [map AnonSpec.run_all]. 
    cbn [AnonSpec.exec map AnonSpec.run_all].
    assert (Hev : forall st, env D st = X ∪ m ->
       one D (evals false (if par then Parallel (Call f params) else Call f params) st)
       = obind D (ofopt D (values D templates m params)) (fun ps => Done (st, RInst D f ps par))).
    { intros st Hst.
      assert (Hvs : mapM id (map (fun e => the_value D (eval (X ∪ m) e)) params) = values D templates m params).
      { change (values D templates (X ∪ m) params = values D templates m params).
        apply values_agree. intros x Hx. by rewrite lookup_union_r by (by apply Hfv). }
      destruct par; cbn; rewrite Hst, Hvs; destruct (values D templates m params); cbn; try done;
        rewrite Hf; done. }
    rewrite Hev by done. cbn [env supply locals trace map].
    destruct (values D templates m params) as [vs|] eqn:Evs; cbn [ofopt obind]; [|done].
    rewrite position_eq by done.
    pose proof (accesses_loop X m va idx [] [] Hl eq_refl) as Hacc. rewrite !app_nil_r in Hacc.
    cbn [enter env]. rewrite Hacc. cbn [ofopt obind]. unfold assign.
    rewrite bool_decide_eq_false_2 by done. cbn [env trace enter].
    rewrite lookup_union_l', Htmp by (by eexists).
    pose proof (split_access_idx idx [] ltac:(done)) as Hsp. rewrite app_nil_r in Hsp. rewrite Hsp.
    change (existsb (is_create D (tmp, idx)) tr) with (created (tmp, idx) tr).
    rewrite Hfr by left. cbn [obind].
    specialize (H (ECreate D (tmp, idx) f vs par :: tr) ∅ L0 rest).
    unfold emit. cbn [env locals trace supply enter].
    assert (Hfr2 : forall o, o ∈ names -> created (o, idx) (ECreate D (tmp, idx) f vs par :: tr) = false).
    { intros o Ho. unfold created. cbn [existsb is_create]. rewrite bool_decide_eq_false_2.
      - apply Hfr. by right.
      - intros [= ->]. done. }
    specialize (H Hfr2).
    change (map (fun o => (o, idx)) (tmp :: names) ++ rest)
      with ((tmp, idx) :: (map (fun o => (o, idx)) names ++ rest)).
    cbn [app]. 
    destruct (run_all (map exec ssl) _) as [t|tr0 v0| | |]; try done; cbn [obind].
    2:{ by rewrite H. }
    destruct H as (new & -> & Hn & Hcr & Hs). rewrite leave_empty. cbn [AnonSpec.run_all].
    exists (new ++ [ECreate D (tmp, idx) f vs par]). split_and!.
    - cbn [locals]. by rewrite <- app_assoc.
    - intros i f' ps' b Hi. apply elem_of_app in Hi as [Hi|Hi].
      + destruct (Hn _ _ _ _ Hi). split; [by right|done].
      + apply elem_of_list_singleton in Hi as [= -> -> -> ->]. split; [left|done].
    - intros o Ho. rewrite created_app. apply orb_true_iff.
      apply elem_of_cons in Ho as [->|Ho]; [right|left; by apply Hcr].
      unfold created. cbn. apply orb_true_iff. left. by apply bool_decide_eq_true.
    - rewrite Hs. cbn [ofopt obind]. rewrite <- app_assoc. cbn.
      by destruct (mapM (fun x => vport D (tmp, idx) x []) (declaration_outputs body)).
  Qed.

  Lemma sim_ext {A} X m idx names ss (src1 src2 : state D -> out D (state D * A)) tgt :
    (forall L tr rest, src1 (State m L tr (map (fun o => (o, idx)) names ++ rest))
                       = src2 (State m L tr (map (fun o => (o, idx)) names ++ rest))) ->
    sim X m idx names ss src1 tgt -> sim X m idx names ss src2 tgt.
  Proof.
    intros He H tr L L0 rest Hf. specialize (H tr L L0 rest Hf).
    destruct (run_all _ _); try done; rewrite <- He; done.
  Qed.

  Definition exp_ok (e : exp) : Prop :=
    forall va par ds ss e', remove_anonymous_exp va par e = Ok (ds, ss, e') ->
      clean e' /\
      forall X m idx, loop_idx X va idx ->
        (forall o, o ∈ decl_names ds -> X !! o = Some (BComponent D) /\ o ≠ "_"%string) ->
        (forall x, x ∈ fv e -> X !! x = None) ->
        NoDup (decl_names ds) ->
        sim X m idx (decl_names ds) ss (evals par e) (pures (X ∪ m) e').

  Lemma sim_list {A} (g : out D (state D * list (rval D)) -> out D (state D * A))
      (g' : option (list (rval D)) -> option A) es va us X m idx :
    (forall st o, g (obind D (ofopt D o) (fun a => Done (st, a)))
                  = obind D (ofopt D (g' o)) (fun a => Done (st, a))) ->
    g Failed = Failed ->
    Forall exp_ok es ->
    Forall2 (fun r u => r = Ok u) (map (remove_anonymous_exp va false) es) us ->
    loop_idx X va idx ->
    (forall o, o ∈ decl_names (concat (map (fun u => u.1.1) us)) ->
       X !! o = Some (BComponent D) /\ o ≠ "_"%string) ->
    (forall x, x ∈ concat (map fv es) -> X !! x = None) ->
    NoDup (decl_names (concat (map (fun u => u.1.1) us))) ->
    sim X m idx (decl_names (concat (map (fun u => u.1.1) us))) (concat (map (fun u => u.1.2) us))
      (seq D (map (fun f st => g (f st)) (map (evals false) es)))
      (mapM id (map g' (map (pures (X ∪ m)) (map snd us)))).
  Proof.
    intros Hg HgF HF H2 Hl. revert us H2. induction HF as [|e es He HF IH]; intros us H2 Hc Hfv Hnd.
    - cbn in H2. inversion H2; subst. apply sim_nil.
    - cbn in H2. inversion H2 as [|? [[ds ss] e'] ? us' Hr H2']; subst. cbn [map concat fst snd] in *.
      unfold decl_names in *. rewrite map_app in *.
      apply sim_cons; [done| |].
      + apply sim_post; [done..|]. destruct (He _ _ _ _ _ Hr) as [_ Hs].
        apply Hs; [done|..].
        * intros o Ho. apply Hc, elem_of_app. by left.
        * intros x Hx. apply Hfv, elem_of_app. by left.
        * by apply NoDup_app in Hnd as (? & _ & _).
      + apply IH; [done|..].
        * intros o Ho. apply Hc, elem_of_app. by right.
        * intros x Hx. apply Hfv, elem_of_app. by right.
        * by apply NoDup_app in Hnd as (_ & _ & ?).
  Qed.

  Lemma pures_out X m va idx tmp o :
    loop_idx X va idx -> X !! tmp = Some (BComponent D) ->
    eval (X ∪ m) (Var tmp (loop_access va ++ [ComponentAccess o]))
    = RVal D <$> vport D (tmp, idx) o [].
  Proof.
    intros Hl Ht. cbn [AnonSpec.eval].
    change (mapM id (map _ _)) with (accesses D templates (X ∪ m) (loop_access va ++ [ComponentAccess o])).
    rewrite (accesses_loop X m va idx _ [VComponent o]) by done. cbn.
    rewrite lookup_union_l', Ht by (by eexists). cbn. by rewrite split_access_idx.
  Qed.

  Lemma clean_list es va us :
    Forall exp_ok es ->
    Forall2 (fun r u => r = Ok u) (map (remove_anonymous_exp va false) es) us ->
    Forall clean (map snd us).
  Proof.
    intros HF. revert us. induction HF as [|e es He HF IH]; intros us H2; cbn in H2;
      inversion H2 as [|? [[ds ss] e'] ? us' Hr H2']; subst; cbn; constructor.
    - by apply He in Hr as [? _].
    - by apply IH.
  Qed.

  Lemma sim_args va ia0 us X m idx tmp :
    Forall (fun x => exp_ok x.2.2) ia0 ->
    Forall (fun x : string * (aop * exp) => x.2.1 = AssignConstraintSignal) ia0 ->
    Forall2 (fun r u => r = Ok u)
      (map (fun '(name, (op, r)) =>
              rbind r (fun x => match x with (ds, ss, e') =>
                Ok (ds, ss ++ [Substitution tmp (loop_access va ++ [ComponentAccess name]) op e']) end))
         (map (on_arg (remove_anonymous_exp va false)) ia0)) us ->
    loop_idx X va idx -> X !! tmp = Some (BComponent D) -> tmp ≠ "_"%string ->
    (forall o, o ∈ decl_names (concat (map fst us)) ->
       X !! o = Some (BComponent D) /\ o ≠ "_"%string) ->
    Forall (fun x => forall y, y ∈ fv x.2.2 -> X !! y = None) ia0 ->
    NoDup (decl_names (concat (map fst us))) ->
    sim X m idx (decl_names (concat (map fst us))) (concat (map snd us))
      (seq D (map (fun '(x, f) st => obind D (one_value D (f st)) (fun '(st', v) =>
         Done (emit D (EAssign D AssignConstraintSignal (PPort D (tmp, idx) x []) v) st', tt)))
         (map (fun x => (x.1, evals false x.2.2)) ia0)))
      (Some (replicate (length ia0) tt)).
  Proof.
    intros HF Hop H2 Hl Ht Hne. revert us Hop H2.
    induction HF as [|[x [op e]] ia0 He HF IH]; intros us Hop H2 Hc Hfv Hnd.
    - cbn in H2. inversion H2; subst. apply sim_nil.
    - cbn in H2. inversion H2 as [|? [ds ss] ? us' Hr H2']; subst. cbn [map concat fst snd] in *.
      inversion Hop as [|? ? Hop1 Hop2]; subst. inversion Hfv as [|? ? Hfv1 Hfv2]; subst. cbn in Hop1, Hfv1, He. subst op.
      destruct (remove_anonymous_exp va false e) as [[[ds0 ss0] e']| |] eqn:Er; cbn in Hr; try done.
      injection Hr as <- <-. unfold decl_names in *. rewrite map_app in *.
      destruct (He _ _ _ _ _ Er) as [Hcl Hs].
      cbn [length replicate].
      change (Some (() :: replicate (length ia0) ())) with
        (mapM (M := option) id [Some ()] ≫= fun l => Some (l ++ replicate (length ia0) ())).
      assert (Hrep : mapM id (map Some (replicate (length ia0) ())) = Some (replicate (length ia0) ())) by apply mapM_id_Some.
      assert (Hgoal : mapM id (Some () :: map Some (replicate (length ia0) ())) = Some (() :: replicate (length ia0) ())).
      { cbn. cbn in Hrep. by rewrite Hrep. }
      cbn [mapM app]. cbn -[mapM sim replicate].
      rewrite <- Hgoal. apply sim_cons; [done| |].
      + apply sim_assign; try done. apply Hs; try done.
        * intros o Ho. apply Hc, elem_of_app. by left.
        * by apply NoDup_app in Hnd as (? & _ & _).
      + rewrite Hrep. apply IH; try done.
        * intros o Ho. apply Hc, elem_of_app. by right.
        * by apply NoDup_app in Hnd as (_ & _ & ?).
  Qed.

  Lemma anon_ok pos f is_par params sigs names :
    Forall exp_ok sigs ->
    (match names with None => True | Some m => length m = length sigs end) ->
    exp_ok (Anon pos f is_par params sigs names).
  Proof.
    intros HF Hn va par ds ss e' Hr. cbn [AnonModel.remove_anonymous_exp] in Hr.
    destruct (templates !! f) as [body|] eqn:Hf; [|done].
    rewrite inputs_map in Hr. unfold rmap in Hr.
    destruct (inputs_to_assignments body names sigs) as [ia0| |] eqn:Eia; cbn [rbind] in Hr; try done.
    destruct (inputs_arguments body names sigs ia0) as (Harg & Hop & Hperm); [by eapply Hinputs| |done|].
    { intros m ->. done. }
    set (tmp := anon_name line f pos) in *.
    match type of Hr with rbind ?c _ = _ => destruct c as [us| |] eqn:Ec; cbn [rbind] in Hr; try done end.
    apply collect_ok in Ec. injection Hr as <- <- <-.
    split.
    { destruct (declaration_outputs body) as [|o [|o2 os]]; cbn; [constructor|done|].
      repeat constructor. apply Forall_forall. intros P HP. rewrite map_map in HP.
      apply elem_of_list_fmap in HP as (z & -> & _). done. }
    intros X m idx Hl Hc Hfv Hnd.
    assert (Hdn : decl_names ((match va with
              | Some v => Declaration XAnonymousComponent tmp [v] true
              | None => Declaration XComponent tmp [] true end) :: concat (map fst us))
              = tmp :: decl_names (concat (map fst us))) by (by destruct va).
    rewrite Hdn in *. apply NoDup_cons in Hnd as [Htn Hnd].
    destruct (Hc tmp ltac:(left)) as [Htmp Hne].
    assert (HF0 : Forall (fun x : string * (aop * exp) => exp_ok x.2.2) ia0).
    { apply Forall_forall. intros x Hx. rewrite Forall_forall in HF. apply HF.
      rewrite <- Hperm. apply elem_of_list_fmap. by exists x. }
    assert (Hfv0 : Forall (fun x : string * (aop * exp) => forall y, y ∈ fv x.2.2 -> X !! y = None) ia0).
    { apply Forall_forall. intros x Hx y Hy. apply Hfv. cbn. apply elem_of_app. right.
      apply elem_of_list_In, in_concat. exists (fv x.2.2). split; [|by apply elem_of_list_In].
      apply in_map. apply elem_of_list_In. rewrite <- Hperm. apply elem_of_list_fmap. by exists x. }
    assert (Hargs := sim_args va ia0 us X m idx tmp HF0 Hop Ec Hl Htmp Hne
      (fun o Ho => Hc o ltac:(by right)) Hfv0 Hnd).
    match type of Hargs with sim _ _ _ _ _ (seq D ?s) _ => set (srcl := s) in Hargs end.
    assert (Hlen : length srcl = length ia0) by (unfold srcl; by rewrite !map_length).
    rewrite <- Hlen in Hargs.
    pose proof (sim_anon X m idx va _ _ srcl tmp f _ params (is_par || par) body Hf Hl Htmp Hne
      ltac:(intros x Hx; apply Hfv; cbn; apply elem_of_app; by left) Htn eq_refl Hargs) as Hs.
    assert (Hp : pures (X ∪ m)
        (match declaration_outputs body with
         | [o] => Var tmp (loop_access va ++ [ComponentAccess o])
         | os => Tuple (map (fun x => Var tmp (loop_access va ++ [ComponentAccess x])) os) end)
        = map (RVal D) <$> mapM (fun x => vport D (tmp, idx) x []) (declaration_outputs body)).
    { assert (Hos : forall os, pures (X ∪ m)
          (Tuple (map (fun x => Var tmp (loop_access va ++ [ComponentAccess x])) os))
          = map (RVal D) <$> mapM (fun x => vport D (tmp, idx) x []) os).
      { intros os. cbn [AnonExpProofs.pures]. rewrite map_map.
        rewrite (map_ext_Forall _ (fun x => (fun v => [RVal D v]) <$> vport D (tmp, idx) x [])).
        - induction os as [|o os IH]; cbn; [done|]. destruct (vport D (tmp, idx) o []); cbn; [|done].
          unfold id in IH. 
          destruct (mapM (fun x => x) (map (fun x => (fun v => [RVal D v]) <$> vport D (tmp, idx) x []) os)) eqn:E1;
            destruct (mapM (fun x => vport D (tmp, idx) x []) os) eqn:E2; unfold id; rewrite ?E1, ?E2; cbn in IH |- *; try done.
          injection IH as <-. done.
        - apply Forall_forall. intros o _. cbn [AnonExpProofs.pures]. rewrite (pures_out X m va idx) by done.
          by destruct (vport D (tmp, idx) o []). }
      destruct (declaration_outputs body) as [|o [|o2 os]] eqn:Eo; [apply Hos| |apply Hos].
      cbn [AnonExpProofs.pures]. rewrite (pures_out X m va idx) by done. cbn.
      by destruct (vport D (tmp, idx) o []). }
    cbn [map] in Hp. rewrite Hp. eapply sim_ext; [|exact Hs].
    intros L tr rest. cbn [AnonSpec.evals env supply trace locals].
    rewrite Hf. destruct (values D templates m params) as [vs|]; cbn [ofopt obind]; [|done].
    rewrite arguments_map, Harg. cbn [fmap option_fmap option_map].
    cbn [map app]. unfold srcl. rewrite !map_map. done.
  Qed.

  Lemma trivial_ok e :
    (forall va par, remove_anonymous_exp va par e = Ok ([], [], e)) -> clean e -> exp_ok e.
  Proof.
    intros Ht Hcl va par ds ss e' Hr. rewrite Ht in Hr. injection Hr as <- <- <-.
    split; [done|]. intros X m idx _ _ Hfv _ tr L L0 rest _. cbn. exists []. split_and!; [done| | |].
    - intros i f ps b H. by apply elem_of_nil in H.
    - intros o H. by apply elem_of_nil in H.
    - cbn. rewrite evals_clean by done. cbn [env].
      rewrite (pures_agree D templates m (X ∪ m)); [done|].
      intros x Hx. by rewrite lookup_union_r by (by apply Hfv).
  Qed.

  Lemma mapM_map_id {A} (l : list (option A)) : mapM id (map (fun o => o) l) = mapM id l.
  Proof. by rewrite map_id. Qed.

  Theorem remove_anonymous_exp_ok e : names_ok e -> exp_ok e.
  Proof.
    induction e as [l op r _ _|op r _|c a b _ _ _|r IHr|x acc _|z|f args _|f args _
                   |pos f par params sigs names _ IH|vs IH|vs IH|v d _ _] using exp_ind';
      intros Hok; try (apply trivial_ok; [done|exact I]).
    - destruct (is_anonymous_comp r) eqn:Er.
      + destruct r; try done. specialize (IHr Hok).
        intros va par' ds ss e' Hr. cbn [AnonModel.remove_anonymous_exp is_anonymous_comp] in Hr.
        exact (IHr va true ds ss e' Hr).
      + apply trivial_ok; [intros; cbn; by rewrite Er|]. by destruct r.
    - cbn in Hok. destruct Hok as [Hn Hs]. apply anon_ok; [|done]. rewrite Forall_map in Hs.
      rewrite Forall_forall in *. intros s Hin. by apply IH, Hs.
    - cbn in Hok. rewrite Forall_map in Hok.
      assert (HF : Forall exp_ok vs) by (rewrite Forall_forall in *; intros s Hin; by apply IH, Hok).
      intros va par' ds ss e' Hr. cbn [AnonModel.remove_anonymous_exp] in Hr.
      destruct (collect _) as [us| |] eqn:Ec; cbn [rbind] in Hr; try done.
      apply collect_ok in Ec. unfold join_values in Hr. injection Hr as <- <- <-.
      split. { cbn. apply Forall_map. by eapply clean_list. }
      intros X m idx Hl Hc Hfv Hnd.
      pose proof (sim_list (one_value D) (single D) vs va us X m idx) as Hs.
      apply (sim_post _ _ _ _ _ _ _
        (fun o => obind D o (fun '(st', vs) =>
           obind D (ofopt D (varray D vs)) (fun v => Done (st', [RVal D v]))))
        (fun o => vs ← o; (fun v => [RVal D v]) <$> varray D vs)) in Hs; try done.
      + intros st [l|]; cbn; [|done]. by destruct (varray D l).
      + intros st [[|[v|] [|]]|]; done.
    - cbn in Hok. rewrite Forall_map in Hok.
      assert (HF : Forall exp_ok vs) by (rewrite Forall_forall in *; intros s Hin; by apply IH, Hok).
      intros va par' ds ss e' Hr. cbn [AnonModel.remove_anonymous_exp] in Hr.
      destruct (collect _) as [us| |] eqn:Ec; cbn [rbind] in Hr; try done.
      apply collect_ok in Ec. unfold join_values in Hr. injection Hr as <- <- <-.
      split. { cbn. apply Forall_map. by eapply clean_list. }
      intros X m idx Hl Hc Hfv Hnd.
      pose proof (sim_list (fun o => o) (fun o => o) vs va us X m idx) as Hs.
      apply (sim_post _ _ _ _ _ _ _
        (fun o => obind D o (fun '(st', vs) => Done (st', concat vs)))
        (fun o => (fun l => concat l) <$> o)) in Hs; try done.
      + rewrite !map_id in Hs. exact Hs.
      + intros st [l|]; done.
  Qed.
End sim.
