(** The new body of a template does what the old one does. *)
From Coq Require Import ZArith Ascii.
From stdpp Require Import base list strings pretty gmap.
From Verif Require Import AnonModel AnonSpec AnonExpProofs AnonArgProofs AnonRemoveProofs AnonStmtProofs
  AnonTupleProofs.

(** * The generated names are distinct *)

Lemma list_app (s1 s2 : string) :
  String.list_ascii_of_string (s1 +:+ s2)
  = String.list_ascii_of_string s1 ++ String.list_ascii_of_string s2.
Proof. induction s1 as [|a s1 IH]; [done|]. exact (f_equal (cons a) IH). Qed.

Lemma pretty_N_go_no_underscore x s :
  Forall (fun c => c ≠ "_"%char) (String.list_ascii_of_string s) ->
  Forall (fun c => c ≠ "_"%char) (String.list_ascii_of_string (pretty_N_go x s)).
Proof.
  revert s. induction (N.lt_wf_0 x) as [x _ IH]; intros s Hs.
  destruct (decide (x = 0)%N) as [->|Hx]; [by rewrite pretty_N_go_0|].
  rewrite pretty_N_go_step by lia. apply IH; [apply N.div_lt; lia|].
  cbn. constructor; [|done]. assert (x `mod` 10 < 10)%N by (apply N.mod_lt; lia).
  unfold pretty_N_char. by repeat case_match.
Qed.

Lemma pretty_no_underscore (x : N) :
  Forall (fun c => c ≠ "_"%char) (String.list_ascii_of_string (pretty x)).
Proof.
  unfold pretty, pretty_N. case_decide; [repeat constructor; done|].
  apply pretty_N_go_no_underscore. constructor.
Qed.

Lemma last_part {A} (u : A) l1 l2 d1 d2 :
  l1 ++ u :: d1 = l2 ++ u :: d2 -> u ∉ d1 -> u ∉ d2 -> d1 = d2.
Proof.
  revert l2. induction l1 as [|a l1 IH]; intros [|b l2] H H1 H2; cbn in H.
  - by injection H.
  - injection H as <- ->. exfalso. apply H1, elem_of_app. right. left.
  - injection H as -> <-. exfalso. apply H2, elem_of_app. right. left.
  - injection H as _ H. by eapply IH.
Qed.

Lemma append_assoc (s1 s2 s3 : string) : (s1 +:+ s2) +:+ s3 = s1 +:+ (s2 +:+ s3).
Proof. induction s1 as [|a s1 IH]; [done|]. exact (f_equal (String a) IH). Qed.

Lemma node_name_split line n : exists s, node_name line n = s +:+ "_" +:+ pretty n.2 /\ s ≠ ""%string.
Proof.
  destruct n as [[f|] p]; unfold node_name; cbn [fst snd].
  - exists (f +:+ "_" +:+ pretty (line p)). unfold anon_name. split.
    + by rewrite !append_assoc.
    + destruct f; done.
  - exists ("anon_var_" +:+ pretty (line p)). split; done.
Qed.

Lemma node_name_inj line n1 n2 : node_name line n1 = node_name line n2 -> n1.2 = n2.2.
Proof.
  intros H. destruct (node_name_split line n1) as (s1 & E1 & _), (node_name_split line n2) as (s2 & E2 & _).
  rewrite E1, E2 in H. apply (f_equal String.list_ascii_of_string) in H. rewrite !list_app in H.
  cbn [app String.list_ascii_of_string] in H. apply last_part in H.
  - apply (f_equal String.string_of_list_ascii) in H. rewrite !String.string_of_list_ascii_of_string in H.
    by apply (inj pretty) in H.
  - intros Hin. pose proof (pretty_no_underscore n1.2) as Hf. rewrite Forall_forall in Hf. by apply (Hf _ Hin).
  - intros Hin. pose proof (pretty_no_underscore n2.2) as Hf. rewrite Forall_forall in Hf. by apply (Hf _ Hin).
Qed.

Lemma node_name_not_underscore line n : node_name line n ≠ "_"%string.
Proof.
  intros H. destruct (node_name_split line n) as (s & E & Hs). rewrite E in H.
  destruct s as [|a s]; [done|]. cbn in H. injection H as _ H. by destruct s.
Qed.

Lemma node_names_nodup line l : NoDup (map snd l) -> NoDup (map (node_name line) l).
Proof.
  induction l as [|n l IH]; cbn; intros H; [constructor|]. apply NoDup_cons in H as [H1 H2].
  apply NoDup_cons. split; [|by apply IH]. intros Hin. apply elem_of_list_fmap in Hin as (n' & Hn & Hin).
  apply node_name_inj in Hn. apply H1. rewrite Hn. apply elem_of_list_fmap. by exists n'.
Qed.

(** * The shape of the new statements *)

Section top.
  Variable D : dom.
  Variable templates : gmap string stmt.
  Variable line : N -> N.
  Variable fuel : nat.
  Hypothesis Hinputs : forall f body, templates !! f = Some body -> NoDup (declaration_inputs body).

  Notation V := (val D).
  Notation exec := (exec D templates fuel).
  Notation run_all := (run_all D).
  Notation remove_exp := (remove_anonymous_exp templates line).
  Notation remove_stmt := (remove_anonymous_stmt templates line).
  Notation State := (State D).
  Notation name := (node_name line).

  Definition exp_shape (e : exp) : Prop :=
    forall va par ds ss e', va_ok va -> remove_exp va par e = Ok (ds, ss, e') ->
      Forall (fun s => sclean s /\ independent s) ss /\ clean e' /\
      (forall x, x ∈ fv e' -> x ∈ fv e \/ x ∈ decl_names ds \/ va = Some (Var x [])) /\
      decl_names ds ⊆+ map name (exp_nodes e).

  Lemma list_shape es va us :
    Forall exp_shape es -> va_ok va ->
    Forall2 (fun r u => r = Ok u) (map (remove_exp va false) es) us ->
    Forall (fun s => sclean s /\ independent s) (concat (map (fun u => u.1.2) us)) /\
    Forall clean (map snd us) /\
    (forall x, x ∈ concat (map fv (map snd us)) ->
       x ∈ concat (map fv es) \/ x ∈ decl_names (concat (map (fun u => u.1.1) us)) \/ va = Some (Var x [])) /\
    decl_names (concat (map (fun u => u.1.1) us)) ⊆+ map name (concat (map exp_nodes es)).
  Proof.
    intros HF Hva. revert us. induction HF as [|e es He HF IH]; intros us H2; cbn in H2;
      inversion H2 as [|? [[ds ss] e'] ? us' Hr H2']; subst; cbn.
    - split_and!; [constructor|constructor| |constructor]. intros x Hx. by apply elem_of_nil in Hx.
    - destruct (He _ _ _ _ _ Hva Hr) as (H1 & H3 & H4 & H5). destruct (IH us' H2') as (I1 & I3 & I4 & I5).
      unfold decl_names in *. rewrite !map_app. split_and!.
      + by apply Forall_app.
      + by constructor.
      + intros x Hx. rewrite !elem_of_app in *. destruct Hx as [Hx|Hx]; [apply H4 in Hx|apply I4 in Hx]; tauto.
      + by apply submseteq_app.
  Qed.

  Lemma remove_exp_shape e : names_ok e -> exp_shape e.
  Proof.
    induction e as [l op r _ _|op r _|c a b _ _ _|r IHr|x acc _|z|f args _|f args _
                   |pos f par params sigs names _ IH|vs IH|vs IH|v d _ _] using exp_ind';
      intros Hok va par' ds ss e' Hva Hr; cbn [remove_anonymous_exp] in Hr;
      try (injection Hr as <- <- <-; split_and!; [constructor|done|by left|apply submseteq_nil_l]).
    - destruct (is_anonymous_comp r) eqn:Er.
      + by apply (IHr Hok va true).
      + injection Hr as <- <- <-. split_and!; [constructor|by destruct r|by left|apply submseteq_nil_l].
    - destruct (templates !! f) as [body|] eqn:Hf; [|done]. cbn in Hok. destruct Hok as [Hn Hs].
      rewrite inputs_map in Hr. unfold rmap in Hr.
      destruct (inputs_to_assignments body names sigs) as [ia0| |] eqn:Eia; cbn [rbind] in Hr; try done.
      destruct (inputs_arguments body names sigs ia0) as (_ & _ & Hperm); [by eapply Hinputs| |done|].
      { intros m ->. done. }
      match type of Hr with rbind ?c _ = _ => destruct c as [us| |] eqn:Ec; cbn [rbind] in Hr; try done end.
      apply collect_ok in Ec. injection Hr as <- <- <-.
      assert (HF0 : Forall (fun x : string * (aop * exp) => exp_shape x.2.2) ia0).
      { apply Forall_forall. intros x Hx. rewrite Forall_map in Hs. rewrite Forall_forall in IH, Hs.
        assert (Hin : x.2.2 ∈ sigs) by (rewrite <- Hperm; apply elem_of_list_fmap; by exists x).
        apply IH; [done|]. by apply Hs. }
      assert (Hus : Forall (fun s => sclean s /\ independent s) (concat (map snd us)) /\
        decl_names (concat (map fst us)) ⊆+ map name (concat (map exp_nodes (map (fun x => x.2.2) ia0)))).
      { clear -HF0 Ec Hva. revert us Ec. induction HF0 as [|[x [op e]] ia0 He HF IH]; intros us Ec; cbn in Ec;
          inversion Ec as [|? [ds ss] ? us' Hr Ec']; subst; cbn; [split; constructor|].
        destruct (remove_exp va false e) as [[[ds0 ss0] e']| |] eqn:Er; cbn in Hr; try done.
        injection Hr as <- <-. destruct (He _ _ _ _ _ Hva Er) as (H1 & H2 & _ & H4).
        destruct (IH us' Ec') as [I1 I2]. unfold decl_names in *. rewrite !map_app. split.
        - apply Forall_app. split; [|done]. apply Forall_app. split; [done|]. by repeat constructor.
        - by apply submseteq_app. }
      destruct Hus as [Hus Hds]. split_and!.
      + constructor; [|constructor]. cbn. split.
        * constructor; [by destruct (par || par')|]. apply Forall_map. eapply Forall_impl; [exact Hus|].
          by intros s [? ?].
        * constructor; [done|]. apply Forall_map. eapply Forall_impl; [exact Hus|]. by intros s [? ?].
      + destruct (declaration_outputs body) as [|o [|o2 os]]; cbn; [constructor|done|].
        repeat constructor. apply Forall_forall. intros P HP. rewrite map_map in HP.
        apply elem_of_list_fmap in HP as (z & -> & _). done.
      + set (tmp := anon_name line f pos).
        assert (Hout : forall o x, x ∈ fv (Var tmp (loop_access va ++ [ComponentAccess o])) ->
          x = tmp \/ va = Some (Var x [])).
        { intros o x Hx. cbn in Hx. apply elem_of_cons in Hx as [->|Hx]; [by left|right].
          destruct va as [v|]; cbn in Hx.
          - destruct Hva as [c ->]. cbn in Hx. by apply elem_of_list_singleton in Hx as ->.
          - by apply elem_of_nil in Hx. }
        intros x Hx. right.
        assert (Hx' : x = tmp \/ va = Some (Var x [])).
        { destruct (declaration_outputs body) as [|o [|o2 os]].
          - by apply elem_of_nil in Hx.
          - by apply Hout in Hx.
          - cbn [fv] in Hx. apply elem_of_list_In, in_concat in Hx as (l & Hl & Hx).
            apply in_map_iff in Hl as (v & <- & Hv). apply elem_of_list_In in Hx.
            assert (Hv' : exists o', v = Var tmp (loop_access va ++ [ComponentAccess o'])).
            { change (In v (map (fun x => Var tmp (loop_access va ++ [ComponentAccess x])) (o :: o2 :: os))) in Hv.
              apply in_map_iff in Hv as (o' & <- & _). by eexists. }
            destruct Hv' as [o' ->]. by apply Hout in Hx. }
        destruct Hx' as [->|?]; [left|by right]. cbn. destruct va; left.
      + cbn. destruct va; cbn; apply submseteq_skip; change (map decl_name ?l) with (decl_names l);
          etransitivity; try exact Hds; rewrite map_app;
          (etransitivity; [|by apply submseteq_inserts_l]); apply Permutation_submseteq;
          apply Permutation_map; rewrite <- Hperm; done.
    - cbn in Hok. rewrite Forall_map in Hok.
      destruct (collect _) as [us| |] eqn:Ec; cbn [rbind] in Hr; try done.
      apply collect_ok in Ec. unfold join_values in Hr. injection Hr as <- <- <-.
      destruct (list_shape vs va us) as (H1 & H2 & H3 & H4); [|done..|].
      { rewrite Forall_forall in *. intros e He. by apply IH, Hok. }
      split_and!; [done| |done|done]. cbn. by apply Forall_map.
    - cbn in Hok. rewrite Forall_map in Hok.
      destruct (collect _) as [us| |] eqn:Ec; cbn [rbind] in Hr; try done.
      apply collect_ok in Ec. unfold join_values in Hr. injection Hr as <- <- <-.
      destruct (list_shape vs va us) as (H1 & H2 & H3 & H4); [|done..|].
      { rewrite Forall_forall in *. intros e He. by apply IH, Hok. }
      split_and!; [done| |done|done]. cbn. by apply Forall_map.
  Qed.

  (** The counters: declared, then set to zero. *)
  Definition counters (vs ss : list stmt) : Prop :=
    Forall (fun d => exists c, d = Declaration XVar c [] false) vs /\
    Forall (fun s => exists c, s = Substitution c [] AssignVar (Num 0) /\ c ∈ decl_names vs) ss /\
    (forall c, c ∈ decl_names vs -> Substitution c [] AssignVar (Num 0) ∈ ss).

  Lemma counters_app vs1 vs2 ss1 ss2 :
    counters vs1 ss1 -> counters vs2 ss2 -> counters (vs1 ++ vs2) (ss1 ++ ss2).
  Proof.
    intros (A1 & A2 & A3) (B1 & B2 & B3). unfold counters, decl_names in *. rewrite map_app. split_and!.
    - by apply Forall_app.
    - apply Forall_app. split; (eapply Forall_impl; [eassumption|]); intros s (c & -> & Hc);
        exists c; (split; [done|]); apply elem_of_app; auto.
    - intros c Hc. apply elem_of_app. apply elem_of_app in Hc as [Hc|Hc]; [left; by apply A3|right; by apply B3].
  Qed.

  Definition stmt_shape (s : stmt) : Prop :=
    parsed s -> independent s -> forall va s' cs vs ss,
      va_ok va -> remove_stmt va s = Ok (s', cs, vs, ss) ->
      (forall x, x ∈ snames s -> x ∉ map name (nodes s) /\ va ≠ Some (Var x [])) ->
      sclean s' /\ independent s' /\
      decl_names cs ++ decl_names vs ⊆+ map name (nodes s) /\ counters vs ss.

  Lemma submseteq_app4 {A} (a b c d l1 l2 : list A) :
    a ++ b ⊆+ l1 -> c ++ d ⊆+ l2 -> (a ++ c) ++ (b ++ d) ⊆+ l1 ++ l2.
  Proof.
    intros H1 H2. etransitivity; [|by apply submseteq_app]. apply Permutation_submseteq.
    rewrite <- !app_assoc. apply Permutation_app_head. rewrite !app_assoc. apply Permutation_app_tail.
    apply Permutation_app_comm.
  Qed.

  Lemma stmts_shape l va us :
    Forall stmt_shape l -> Forall parsed l -> Forall independent l -> va_ok va ->
    Forall2 (fun r u => r = Ok u) (map (remove_stmt va) l) us ->
    (forall x, x ∈ concat (map snames l) -> x ∉ map name (concat (map nodes l)) /\ va ≠ Some (Var x [])) ->
    Forall sclean (map (fun u => u.1.1.1) us) /\ Forall independent (map (fun u => u.1.1.1) us) /\
    decl_names (concat (map (fun u => u.1.1.2) us)) ++ decl_names (concat (map (fun u => u.1.2) us))
      ⊆+ map name (concat (map nodes l)) /\
    counters (concat (map (fun u => u.1.2) us)) (concat (map snd us)).
  Proof.
    intros HF HP HI Hva. revert us. induction HF as [|s l Hs HF IH]; intros us H2 Hn; cbn in H2;
      inversion H2 as [|? [[[s' cs] vs] ss] ? us' Hr H2']; subst; cbn.
    - split_and!; try constructor; [constructor|]. split; [constructor|]. intros c Hc. by apply elem_of_nil in Hc.
    - apply Forall_cons in HP as [HP1 HP2]. apply Forall_cons in HI as [HI1 HI2].
      destruct (Hs HP1 HI1 _ _ _ _ _ Hva Hr) as (A1 & A2 & A3 & A4).
      { intros x Hx. destruct (Hn x) as [Hn1 Hn2]; [cbn; apply elem_of_app; by left|]. split; [|done].
        intros Hin. apply Hn1. cbn. rewrite map_app. apply elem_of_app. by left. }
      destruct (IH HP2 HI2 us' H2') as (B1 & B2 & B3 & B4).
      { intros x Hx. destruct (Hn x) as [Hn1 Hn2]; [cbn; apply elem_of_app; by right|]. split; [|done].
        intros Hin. apply Hn1. cbn. rewrite map_app. apply elem_of_app. by right. }
      unfold decl_names in *. rewrite !map_app. split_and!; [by constructor..| |by apply counters_app].
      by apply submseteq_app4.
  Qed.

  Lemma counters_nil : counters [] [].
  Proof. split_and!; try constructor. intros c Hc. by apply elem_of_nil in Hc. Qed.

  Lemma wrap_shape ss sub :
    Forall (fun s => sclean s /\ independent s) ss -> sclean sub -> independent sub ->
    sclean (wrap ss sub) /\ independent (wrap ss sub).
  Proof.
    intros Hss H1 H2. unfold wrap. destruct ss as [|s ss]; [done|]. cbn [sclean independent].
    split; apply Forall_map, Forall_app; (split; [eapply Forall_impl; [exact Hss|]; by intros ? [? ?]|by repeat constructor]).
  Qed.

  Lemma remove_stmt_shape s : stmt_shape s.
  Proof.
    induction s as [c a b IHa IHb|pos c s IHs|e|t l IH|t x dims an|x acc op e|l op r|op e|l r|args|l IH|e]
      using stmt_ind'; intros Hp Hi va s' cs vs ss Hva Hr Hn; cbn [remove_anonymous_stmt] in Hr;
      try discriminate Hr;
      try (injection Hr as <- <- <- <-; split_and!; [done|done|apply submseteq_nil_l|apply counters_nil]).
    - cbn in Hp, Hi. destruct Hp as [Hpa Hpb], Hi as [Hia Hib]. cbn [snames nodes] in Hn.
      destruct (remove_stmt va a) as [[[[a' cs1] vs1] ss1]| |] eqn:Ea; cbn [rbind] in Hr; try done.
      destruct (IHa Hpa Hia _ _ _ _ _ Hva Ea) as (A1 & A2 & A3 & A4).
      { intros x Hx. destruct (Hn x) as [Hn1 Hn2]; [rewrite !elem_of_app; tauto|]. split; [|done].
        intros Hin. apply Hn1. rewrite !map_app, !elem_of_app. tauto. }
      destruct b as [b|].
      + destruct (remove_stmt va b) as [[[[b' cs2] vs2] ss2]| |] eqn:Eb; cbn [rbind] in Hr; try done.
        injection Hr as <- <- <- <-.
        destruct (IHb b eq_refl Hpb Hib _ _ _ _ _ Hva Eb) as (B1 & B2 & B3 & B4).
        { intros x Hx. destruct (Hn x) as [Hn1 Hn2]; [rewrite !elem_of_app; tauto|]. split; [|done].
          intros Hin. apply Hn1. rewrite !map_app, !elem_of_app. tauto. }
        split_and!; [done..| |by apply counters_app].
        unfold decl_names in *. cbn [nodes]. rewrite !map_app.
        etransitivity; [|by apply submseteq_inserts_l]. by apply submseteq_app4.
      + injection Hr as <- <- <- <-. split_and!; [done..| |done].
        cbn [nodes]. rewrite !map_app. etransitivity; [|by apply submseteq_inserts_l].
        etransitivity; [|by apply submseteq_inserts_r]. done.
    - cbn in Hp, Hi. destruct Hp as [Hnd Hp]. cbn [snames nodes] in Hn.
      set (x := counter_name line pos) in *.
      destruct (remove_stmt (Some (Var x [])) s) as [[[[body cs1] vs1] ss1]| |] eqn:Es; cbn [rbind] in Hr; try done.
      assert (Hv : va_ok (Some (Var x []))) by (by eexists).
      destruct (IHs Hp Hi _ _ _ _ _ Hv Es) as (A1 & A2 & A3 & A4).
      { intros y Hy. destruct (Hn y) as [Hn1 Hn2]; [rewrite !elem_of_app; tauto|]. split.
        - intros Hin. apply Hn1. cbn. rewrite !map_app. right. apply elem_of_app. by right.
        - intros [= <-]. apply Hn1. left. }
      destruct (remove_stmt_decls templates line Hinputs s Hp _ _ _ _ _ Hv Es) as [_ Hnil].
      destruct cs1 as [|d cs1].
      + injection Hr as <- <- <- <-. split_and!; [done..|apply submseteq_nil_l|apply counters_nil].
      + injection Hr as <- <- <- <-. split_and!.
        * cbn. by repeat constructor.
        * cbn. by repeat constructor.
        * change (decl_names (Declaration XVar x [] false :: vs1)) with (x :: decl_names vs1).
          rewrite <- Permutation_middle. cbn [nodes map]. apply submseteq_skip.
          rewrite map_app. etransitivity; [exact A3|]. by apply submseteq_inserts_l.
        * destruct A4 as (C1 & C2 & C3). split_and!.
          -- constructor; [by eexists|done].
          -- apply Forall_app. split.
             ++ eapply Forall_impl; [exact C2|]. intros s' (c' & -> & Hc'). exists c'. split; [done|].
                by right.
             ++ constructor; [|constructor]. exists x. split; [done|left].
          -- intros c' Hc'. apply elem_of_app.
             change (decl_names (Declaration XVar x [] false :: vs1)) with (x :: decl_names vs1) in Hc'.
             apply elem_of_cons in Hc' as [->|Hc']; [right; left|left; by apply C3].
    - cbn in Hp, Hi. rewrite Forall_map in Hp, Hi. cbn [snames nodes] in Hn.
      destruct (collect _) as [us| |] eqn:Ec; cbn [rbind] in Hr; try done.
      apply collect_ok in Ec. unfold join_stmts in Hr. injection Hr as <- <- <- <-.
      destruct (stmts_shape l va us) as (A1 & A2 & A3 & A4); try done.
      split_and!; try done; cbn; by apply Forall_map.
    - cbn in Hp. destruct (remove_exp va false e) as [[[ds ss0] e']| |] eqn:Ee; cbn [rbind] in Hr; try done.
      injection Hr as <- <- <- <-.
      destruct (remove_exp_shape e Hp _ _ _ _ _ Hva Ee) as (A1 & A2 & A3 & A4).
      destruct (wrap_shape ss0 (Substitution x acc op e')) as [B1 B2]; [done..|].
      split_and!; [done..| |apply counters_nil]. cbn [decl_names nodes map]. rewrite app_nil_r, map_app.
      etransitivity; [exact A4|]. by apply submseteq_inserts_l.
    - cbn in Hp. cbn [snames nodes] in Hn.
      destruct (remove_exp va false r) as [[[ds ss0] e']| |] eqn:Ee; cbn [rbind] in Hr; try done.
      injection Hr as <- <- <- <-.
      destruct (remove_exp_shape r Hp _ _ _ _ _ Hva Ee) as (A1 & A2 & A3 & A4).
      destruct (wrap_shape ss0 (MultSubstitution l op e')) as [B1 B2]; [done..| |].
      { cbn in Hi |- *. destruct op; try done. destruct (targets l) as [ts|] eqn:Et; [|done].
        intros t u Ht Hu. destruct (Hi t u Ht Hu) as [H1 H2]. split; [|done].
        intros Hin. destruct (A3 _ Hin) as [H3|[H3|H3]]; [done|..].
        - destruct (Hn t.1) as [Hn1 _].
          + apply elem_of_app. left. apply targets_fv in Et. rewrite Forall_forall in Et. by apply Et.
          + apply Hn1. eapply elem_of_submseteq; [exact H3|]. etransitivity; [exact A4|].
            rewrite map_app. by apply submseteq_inserts_l.
        - destruct (Hn t.1) as [_ Hn2].
          + apply elem_of_app. left. apply targets_fv in Et. rewrite Forall_forall in Et. by apply Et.
          + done. }
      split_and!; [done..| |apply counters_nil]. cbn [decl_names nodes map]. rewrite app_nil_r, map_app.
      etransitivity; [exact A4|]. by apply submseteq_inserts_l.
    - cbn in Hp, Hi. rewrite Forall_map in Hp, Hi. cbn [snames nodes] in Hn.
      destruct (collect _) as [us| |] eqn:Ec; cbn [rbind] in Hr; try done.
      apply collect_ok in Ec. unfold join_stmts in Hr. injection Hr as <- <- <- <-.
      destruct (stmts_shape l va us) as (A1 & A2 & A3 & A4); try done.
      split_and!; try done; cbn; by apply Forall_map.
  Qed.

  (** The declarations and the initial values. *)
  Lemma run_vars vs m L tr s :
    Forall (fun d => exists c, d = Declaration XVar c [] false) vs ->
    NoDup (decl_names vs) -> (forall x, x ∈ decl_names vs -> x ∉ L) ->
    exists m' L', run_all (map exec vs) (State m L tr s) = Done (State m' L' tr s) /\
      (forall x, x ∈ L' <-> x ∈ L \/ x ∈ decl_names vs) /\
      (forall x, x ∉ decl_names vs -> m' !! x = m !! x) /\
      (forall x, x ∈ decl_names vs -> exists v, m' !! x = Some (BVar D v)).
  Proof.
    intros HF. revert m L. induction HF as [|d vs [c ->] HF IH]; intros m L Hnd HL.
    - exists m, L. split_and!; [done| |done|].
      + intros x. split; [by left|]. intros [?|Hx]; [done|by apply elem_of_nil in Hx].
      + intros x Hx. by apply elem_of_nil in Hx.
    - change (decl_names (Declaration XVar c [] false :: vs)) with (c :: decl_names vs) in *.
      apply NoDup_cons in Hnd as [Hc Hnd].
      destruct (IH (<[c := BVar D (vnew D [])]> m) ({[c]} ∪ L) Hnd) as (m' & L' & H1 & H2 & H3 & H4).
      { intros x Hx. apply not_elem_of_union. split; [|apply HL; by right]. intros ->%elem_of_singleton. done. }
      exists m', L'. split_and!.
      + cbn [map AnonSpec.run_all AnonSpec.exec]. unfold declare. cbn [locals env trace supply].
        rewrite bool_decide_eq_false_2 by (apply HL; left). cbn. exact H1.
      + intros x. rewrite H2, elem_of_union, elem_of_singleton, elem_of_cons. tauto.
      + intros x Hx. apply not_elem_of_cons in Hx as [Hx1 Hx2]. rewrite H3 by done. by apply lookup_insert_ne.
      + intros x Hx. destruct (decide (x ∈ decl_names vs)) as [Hx'|Hx']; [by apply H4|].
        apply elem_of_cons in Hx as [->|Hx]; [|done]. rewrite H3 by done. rewrite lookup_insert. by eexists.
  Qed.

  Lemma run_comps cs vs m L tr s :
    Forall (decl_ok None vs) cs ->
    NoDup (decl_names cs) -> (forall x, x ∈ decl_names cs -> x ∉ L) ->
    exists m' L', run_all (map exec cs) (State m L tr s) = Done (State m' L' tr s) /\
      (forall x, x ∈ L' <-> x ∈ L \/ x ∈ decl_names cs) /\
      (forall x, x ∉ decl_names cs -> m' !! x = m !! x) /\
      (forall x, x ∈ decl_names cs -> m' !! x = Some (BComponent D)).
  Proof.
    intros HF. revert m L. induction HF as [|d cs Hd HF IH]; intros m L Hnd HL.
    - exists m, L. split_and!; [done| |done|].
      + intros x. split; [by left|]. intros [?|Hx]; [done|by apply elem_of_nil in Hx].
      + intros x Hx. by apply elem_of_nil in Hx.
    - set (c := decl_name d) in *.
      change (decl_names (d :: cs)) with (c :: decl_names cs) in *.
      apply NoDup_cons in Hnd as [Hc Hnd].
      destruct (IH (<[c := BComponent D]> m) ({[c]} ∪ L) Hnd) as (m' & L' & H1 & H2 & H3 & H4).
      { intros x Hx. apply not_elem_of_union. split; [|apply HL; by right]. intros ->%elem_of_singleton. done. }
      exists m', L'. split_and!.
      + assert (Hex : exec d (State m L tr s) = Done (State (<[c := BComponent D]> m) ({[c]} ∪ L) tr s)).
        { assert (HcL : c ∉ L) by (apply HL; left). unfold c in *.
          destruct d as [| | | |[| | | |] x [|[] [|]] an| | | | | | |]; cbn in *; try done; unfold declare;
            cbn [locals env trace supply]; rewrite bool_decide_eq_false_2 by done; done. }
        cbn [map AnonSpec.run_all]. rewrite Hex. exact H1.
      + intros x. rewrite H2, elem_of_union, elem_of_singleton, elem_of_cons. tauto.
      + intros x Hx. apply not_elem_of_cons in Hx as [Hx1 Hx2]. rewrite H3 by done. by apply lookup_insert_ne.
      + intros x Hx. destruct (decide (x ∈ decl_names cs)) as [Hx'|Hx']; [by apply H4|].
        apply elem_of_cons in Hx as [->|Hx]; [|done]. rewrite H3 by done. by rewrite lookup_insert.
  Qed.

  Lemma run_zero (l : list string) ss m L tr s :
    Forall (fun s => exists c, s = Substitution c [] AssignVar (Num 0) /\ c ∈ l) ss ->
    (forall c, c ∈ l -> c ≠ "_"%string /\ exists v, m !! c = Some (BVar D v)) ->
    exists m', run_all (map exec ss) (State m L tr s) = Done (State m' L tr s) /\
      (forall x, x ∉ l -> m' !! x = m !! x) /\
      (forall x, x ∈ l -> m' !! x = m !! x \/ m' !! x = Some (BVar D (vnum D 0))) /\
      (forall x, Substitution x [] AssignVar (Num 0) ∈ ss -> m' !! x = Some (BVar D (vnum D 0))).
  Proof.
    intros HF. revert m. induction HF as [|d ss (c & -> & Hc) HF IH]; intros m Hm.
    - exists m. split_and!; [done|done|by left|]. intros x Hx. by apply elem_of_nil in Hx.
    - destruct (Hm c Hc) as (Hc_ & v & Hv).
      destruct (IH (<[c := BVar D (vnum D 0)]> m)) as (m' & H1 & H2 & H3 & H4).
      { intros c' Hc'. split; [by apply Hm|]. destruct (decide (c = c')) as [<-|Hne].
        - rewrite lookup_insert. by eexists.
        - rewrite lookup_insert_ne by done. by apply Hm. }
      exists m'. split_and!.
      + assert (Hex : exec (Substitution c [] AssignVar (Num 0)) (State m L tr s)
                      = Done (State (<[c := BVar D (vnum D 0)]> m) L tr s)).
        { cbn. unfold position. rewrite bool_decide_eq_false_2 by done. cbn. unfold assign.
          rewrite bool_decide_eq_false_2 by done. cbn [env]. rewrite Hv. done. }
        cbn [map AnonSpec.run_all]. rewrite Hex. exact H1.
      + intros x Hx. rewrite H2 by done. apply lookup_insert_ne. by intros <-.
      + intros x Hx. destruct (H3 x Hx) as [Hx'|Hx']; [|by right]. rewrite Hx'.
        destruct (decide (c = x)) as [<-|Hne]; [right; by rewrite lookup_insert|left; by rewrite lookup_insert_ne].
      + intros x Hx. apply elem_of_cons in Hx as [[= ->]|Hx]; [|by apply H4].
        destruct (H3 c Hc) as [Hx'|Hx']; [|done]. by rewrite Hx', lookup_insert.
  Qed.

  Hypothesis Hcounts : counts D.

  Theorem desugar_ok body body' params :
    parsed body -> independent body -> (exists l, body = Block l) ->
    NoDup (map snd (nodes body)) ->
    (forall x, x ∈ snames body -> x ∉ map name (nodes body)) ->
    desugar_template templates line body = Ok body' ->
    exists ids : list (inst V), NoDup ids /\ Forall (fun i => i.1 ∈ map name (nodes body)) ids /\
      run D templates fuel params ids body = run D templates fuel params [] body'.
  Proof.
    intros Hp Hi [l ->] Hpos Hnames Hd. unfold desugar_template in Hd.
    destruct (check_anonymous_stmt (Block l)); cbn [rbind] in Hd; try done.
    destruct (remove_stmt None (Block l)) as [[[[nb cs] vs] ss]| |] eqn:Er; cbn [rbind] in Hd; try done.
    pose proof (remove_stmt_shape (Block l) Hp Hi None nb cs vs ss I Er) as Hshape.
    destruct Hshape as (Hcl & Hind & Hsub & Hvs & Hss & Hss2).
    { intros x Hx. split; [by apply Hnames|done]. }
    pose proof (remove_stmt_decls templates line Hinputs (Block l) Hp None nb cs vs ss I Er) as [Hdecl _].
    assert (Hnd : NoDup (decl_names cs ++ decl_names vs)).
    { apply submseteq_Permutation in Hsub as [k Hk].
      pose proof (node_names_nodup line _ Hpos) as Hn. rewrite Hk in Hn. by apply NoDup_app in Hn as [? _]. }
    assert (Hin : forall x, x ∈ decl_names cs ++ decl_names vs -> x ∈ map name (nodes (Block l))).
    { intros x Hx. by eapply elem_of_submseteq. }
    assert (Hne : forall x, x ∈ decl_names cs ++ decl_names vs -> x ≠ "_"%string).
    { intros x Hx ->. apply Hin in Hx. apply elem_of_list_fmap in Hx as (n & Hn & _).
      by destruct (node_name_not_underscore line n). }
    (* the list of statements *)
    cbn [remove_anonymous_stmt] in Er. destruct (collect _) as [us| |] eqn:Ec; cbn [rbind] in Er; try done.
    apply collect_ok in Ec. unfold join_stmts in Er. injection Er as <- Hcs Hvs' Hss'.
    set (stmts := map (fun u => u.1.1.1) us) in *.
    cbn [parsed] in Hp. rewrite Forall_map in Hp.
    assert (Hsim : ssim D false False (concat (map snames l)) None cs (decl_names vs)
              (run_all (map exec stmts)) (run_all (map exec l))).
    { rewrite <- Hcs, <- Hvs'. apply (remove_list_ok D templates line fuel Hinputs l None us); try done.
      apply Forall_forall. intros s _. by apply remove_stmt_ok. }
    cbn [rbind] in Hd. set (b := Block _) in Hd.
    destruct (check_tuples_stmt b); cbn [rbind] in Hd; try done.
    assert (Hb : sclean b /\ independent b).
    { cbn in Hcl, Hind. rewrite Forall_map in Hcl, Hind. unfold b. cbn [sclean independent app map].
      assert (Hdc : Forall (fun d => sclean d /\ independent d) (vs ++ cs ++ ss)).
      { apply Forall_app; split; [|apply Forall_app; split].
        - eapply Forall_impl; [exact Hvs|]. by intros d [c ->].
        - eapply Forall_impl; [exact Hdecl|]. intros d Hd'. by destruct d.
        - eapply Forall_impl; [exact Hss|]. by intros d (c & -> & _). }
      apply Forall_app in Hdc as [Hd1 [Hd2 Hd3]%Forall_app].
      split; (constructor; [|constructor]); try (rewrite map_app; apply Forall_app; split); apply Forall_map; try done;
        (eapply Forall_impl; [eassumption|]); by intros d [? ?]. }
    destruct Hb as [Hb1 Hb2].
    pose proof (remove_tuples_ok D templates fuel b Hb1 Hb2 body' Hd) as Hrun.
    (* the initial bindings *)
    apply NoDup_app in Hnd as Hnd'. destruct Hnd' as (Hnd1 & Hnd2 & Hnd3).
    destruct (run_vars vs params ∅ [] [] Hvs Hnd3) as (m1 & L1 & R1 & HL1 & M1 & M1'); [set_solver|].
    destruct (run_comps cs (decl_names vs) m1 L1 [] [] Hdecl Hnd1) as (m2 & L2 & R2 & HL2 & M2 & M2').
    { intros x Hx. rewrite HL1. intros [Hx'|Hx']; [set_solver|]. by apply (Hnd2 x). }
    destruct (run_zero (decl_names vs) ss m2 L2 [] [] Hss) as (m3 & R3 & M3 & _ & M3').
    { intros c Hc. split; [apply Hne, elem_of_app; by right|].
      rewrite M2; [by apply M1'|]. intros Hx. by apply (Hnd2 c). }
    set (names := decl_names cs ++ decl_names vs) in *.
    set (X := filter (fun kv : string * binding D => kv.1 ∈ names) m3).
    assert (HX : forall x, x ∈ names -> X !! x = m3 !! x).
    { intros x Hx. unfold X. destruct (m3 !! x) eqn:E.
      - by apply map_filter_lookup_Some.
      - apply map_filter_lookup_None. by left. }
    assert (HX' : forall x, x ∉ names -> X !! x = None).
    { intros x Hx. apply map_filter_lookup_None. right. intros ? _. done. }
    assert (Hm3 : m3 = X ∪ params).
    { apply map_eq. intros x. destruct (decide (x ∈ names)) as [Hx|Hx].
      - rewrite lookup_union_l'; [by rewrite HX|]. rewrite HX by done. unfold names in Hx.
        apply elem_of_app in Hx as [Hx|Hx].
        + rewrite M3 by (intros Hx'; by apply (Hnd2 x)). rewrite M2' by done. by eexists.
        + rewrite M3' by (by apply Hss2). by eexists.
      - rewrite lookup_union_r by (by apply HX'). unfold names in Hx. rewrite elem_of_app in Hx.
        rewrite M3, M2, M1 by tauto. done. }
    assert (Hpre : pre D X None cs (decl_names vs) []).
    { split; [|done|done|].
      - apply Forall_forall. intros d Hd'. rewrite Forall_forall in Hdecl. specialize (Hdecl d Hd').
        assert (Hdn : decl_name d ∈ decl_names cs) by (by apply decl_name_in).
        assert (Hdx : X !! decl_name d = Some (BComponent D)).
        { rewrite HX by (apply elem_of_app; by left). rewrite M3; [by apply M2'|]. intros Hx. by apply (Hnd2 (decl_name d)). }
        assert (Hdu : decl_name d ≠ "_"%string) by (apply Hne, elem_of_app; by left).
        destruct d as [| | | |[| | | |] x [|[] [|]] an| | | | | | |]; cbn in *; try done.
        destruct acc; [|done]. destruct Hdecl as [Hc|?]; [|done]. split_and!; [done..|].
        exists 0%Z. split; [|done]. rewrite HX by (apply elem_of_app; by right). by apply M3', Hss2.
      - intros c Hc. split; [apply Hne, elem_of_app; by right|]. exists 0%Z.
        rewrite HX by (apply elem_of_app; by right). by apply M3', Hss2. }
    destruct (Hsim X params L2 ∅ [] Hpre) as (ids & Hids & Hfr & Hmain).
    { intros x Hx. apply HX'. intros Hx'. apply (Hnames x Hx). by apply Hin. }
    { right. intros x Hx. split; [|set_solver]. intros Hx2. exfalso.
      assert (Hxn : x ∈ names).
      { apply HL2 in Hx2 as [Hx2|Hx2]; [|apply elem_of_app; by left].
        apply HL1 in Hx2 as [Hx2|Hx2]; [set_solver|apply elem_of_app; by right]. }
      rewrite HX in Hx by done. unfold names in Hxn. apply elem_of_app in Hxn as [Hxn|Hxn].
      - rewrite M3, M2' in Hx; [done|done|]. intros Hx'. by apply (Hnd2 x).
      - rewrite M3' in Hx; [done|]. by apply Hss2. }
    exists ids. split_and!; [done| |].
    { eapply Forall_impl; [exact Hfr|]. intros i [Hi' _]. apply Hin, elem_of_app. by left. }
    unfold run. rewrite Hrun. unfold b. cbn [AnonSpec.exec app map]. unfold enter. cbn [env trace supply].
    change ((InitializationBlock XVar vs :: InitializationBlock XComponent cs :: ss ++ stmts))
      with ([InitializationBlock XVar vs; InitializationBlock XComponent cs] ++ ss ++ stmts).
    cbn [map app AnonSpec.run_all AnonSpec.exec]. rewrite R1. cbn [obind]. rewrite R2. cbn [obind].
    rewrite map_app, run_all_app, R3. cbn [obind]. rewrite Hm3.
    pose proof (app_nil_r ids) as Happ.
    destruct (run_all (map exec stmts) (State (X ∪ params) L2 [] [])) as [t|tr v| | |]; cbn [obind].
    - destruct Hmain as (X' & m' & Lt' & L' & new & -> & Hs & _). specialize (Hs []). rewrite Happ in Hs.
      rewrite Hs. cbn [obind]. done.
    - specialize (Hmain []). rewrite Happ in Hmain. by rewrite Hmain.
    - specialize (Hmain []). rewrite Happ in Hmain. by rewrite Hmain.
    - specialize (Hmain []). rewrite Happ in Hmain. by rewrite Hmain.
    - done.
  Qed.
End top.
