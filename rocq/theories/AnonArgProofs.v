(** The arguments of an anonymous component: the map built by the pass is the
    list of the specification. *)
From Coq Require Import ZArith Ascii String Sorted.
From stdpp Require Import base list strings gmap.
From Verif Require Import AnonModel AnonSpec AnonExpProofs.

Lemma string_compare_trans s1 s2 s3 :
  String.compare s1 s2 = Lt -> String.compare s2 s3 = Lt -> String.compare s1 s3 = Lt.
Proof.
  revert s2 s3. induction s1 as [|a s1 IH]; intros [|b s2] [|c s3]; cbn; try done.
  unfold Ascii.compare.
  destruct (N.compare_spec (N_of_ascii a) (N_of_ascii b)) as [H|H|H];
    destruct (N.compare_spec (N_of_ascii b) (N_of_ascii c)) as [H'|H'|H']; try done.
  - intros. rewrite H, H'. rewrite N.compare_refl. by eapply IH.
  - intros. rewrite H. apply N.compare_lt_iff in H'. by rewrite H'.
  - intros. rewrite <- H'. apply N.compare_lt_iff in H. by rewrite H.
  - intros. assert (H2 : (N_of_ascii a < N_of_ascii c)%N) by lia.
    apply N.compare_lt_iff in H2. by rewrite H2.
Qed.

Lemma compare_refl s : String.compare s s = Datatypes.Eq.
Proof. induction s as [|a s IH]; cbn; [done|]. unfold Ascii.compare. by rewrite N.compare_refl. Qed.

Lemma leb_compare s1 s2 : String.leb s1 s2 = match String.compare s1 s2 with Gt => false | _ => true end.
Proof. done. Qed.

Section args.
  Context {A : Type}.
  Implicit Types l : list (string * A).

  Lemma place_keys (x : string * A) l : place_in_order x l ≡ₚ x :: l.
  Proof.
    induction l as [|y l IH]; cbn; [done|]. destruct (String.leb _ _); [done|].
    rewrite IH. apply Permutation_swap.
  Qed.

  Lemma in_order_perm l : in_order l ≡ₚ l.
  Proof. induction l as [|x l IH]; cbn; [done|]. by rewrite place_keys, IH. Qed.

  Lemma btree_insert_place k (v : A) l :
    k ∉ l.*1 -> btree_insert k v l = place_in_order (k, v) l.
  Proof.
    induction l as [|[k' v'] l IH]; cbn; [done|]. rewrite not_elem_of_cons. intros [Hne Hk].
    rewrite leb_compare. destruct (String.compare k k') eqn:E; [|done|].
    - apply String.compare_eq_iff in E. done.
    - by rewrite IH.
  Qed.

  Lemma place_comm (x y : string * A) l :
    x.1 ≠ y.1 -> place_in_order x (place_in_order y l) = place_in_order y (place_in_order x l).
  Proof.
    intros Hne.
    assert (Hxy : String.leb x.1 y.1 = negb (String.leb y.1 x.1)).
    { rewrite !leb_compare. rewrite (String.compare_antisym y.1 x.1).
      destruct (String.compare x.1 y.1) eqn:E; try done.
      apply String.compare_eq_iff in E. done. }
    assert (Htr : forall a b c : string, String.leb a b = true -> String.leb b c = true -> String.leb a c = true).
    { intros a b c. rewrite !leb_compare.
      destruct (String.compare a b) eqn:E1; try done; intros _;
        destruct (String.compare b c) eqn:E2; try done; intros _.
      - apply String.compare_eq_iff in E1 as ->. by rewrite E2.
      - apply String.compare_eq_iff in E1 as ->. by rewrite E2.
      - apply String.compare_eq_iff in E2 as ->. by rewrite E1.
      - by rewrite (string_compare_trans _ _ _ E1 E2). }
    induction l as [|z l IH]; cbn.
    - rewrite Hxy. by destruct (String.leb y.1 x.1).
    - destruct (String.leb y.1 z.1) eqn:Hyz; destruct (String.leb x.1 z.1) eqn:Hxz; cbn.
      + rewrite Hxy, Hyz, Hxz. by destruct (String.leb y.1 x.1).
      + rewrite Hxz, Hyz. destruct (String.leb x.1 y.1) eqn:E; [|done].
        by rewrite (Htr _ _ _ E Hyz) in Hxz.
      + rewrite Hyz, Hxz. destruct (String.leb y.1 x.1) eqn:E; [|done].
        by rewrite (Htr _ _ _ E Hxz) in Hyz.
      + rewrite Hxz, Hyz. by rewrite IH.
  Qed.

  Lemma in_order_permute l1 l2 : NoDup l1.*1 -> l1 ≡ₚ l2 -> in_order l1 = in_order l2.
  Proof.
    intros Hnd Hp. unfold in_order.
    induction Hp as [|x l1 l2 Hp IH|x y l|l1 l2 l3 H1 IH1 H2 IH2]; cbn in *.
    - done.
    - apply NoDup_cons in Hnd as [_ Hnd]. by rewrite IH.
    - apply NoDup_cons in Hnd as [Hn _]. apply not_elem_of_cons in Hn as [Hn _].
      by apply place_comm.
    - rewrite IH1 by done. apply IH2. eapply NoDup_Permutation_proper; [|exact Hnd].
      symmetry. by apply fmap_Permutation.
  Qed.

  Lemma foldl_btree l : forall ia,
    NoDup (l.*1 ++ ia.*1) ->
    foldl (fun ia (nv : string * A) => btree_insert nv.1 nv.2 ia) ia l
    = foldl (fun ia nv => place_in_order nv ia) ia l.
  Proof.
    induction l as [|[k v] l IH]; intros ia Hnd; cbn; [done|].
    cbn in Hnd. apply NoDup_cons in Hnd as [Hn Hnd]. rewrite elem_of_app in Hn.
    rewrite btree_insert_place by tauto. apply IH.
    eapply NoDup_Permutation_proper; [|apply NoDup_cons; split; [|exact Hnd]].
    - transitivity (l.*1 ++ (k :: ia.*1)); [|symmetry; apply Permutation_middle].
      apply Permutation_app_head.
      change (k :: ia.*1) with (((k, v) :: ia).*1). apply fmap_Permutation, place_keys.
    - rewrite elem_of_app. exact Hn.
  Qed.

  Lemma foldl_place l : forall ia,
    NoDup (l.*1 ++ ia.*1) ->
    foldl (fun ia nv => place_in_order nv ia) ia l = foldr place_in_order ia l.
  Proof.
    assert (Hc : forall l x ia, x.1 ∉ l.*1 -> foldr place_in_order (place_in_order x ia) l
                                 = place_in_order x (foldr place_in_order ia l)).
    { induction l0 as [|y l0 IH0]; intros x ia Hx; cbn in *; [done|].
      apply not_elem_of_cons in Hx as [Hx1 Hx2]. rewrite IH0 by done. apply place_comm. congruence. }
    induction l as [|[k v] l IH]; intros ia Hnd; cbn; [done|].
    cbn in Hnd. apply NoDup_cons in Hnd as [Hn Hnd]. rewrite elem_of_app in Hn.
    rewrite IH.
    - apply Hc. cbn. tauto.
    - eapply NoDup_Permutation_proper; [|apply NoDup_cons; split; [|exact Hnd]].
      + transitivity (l.*1 ++ (k :: ia.*1)); [|symmetry; apply Permutation_middle].
        apply Permutation_app_head.
        change (k :: ia.*1) with (((k, v) :: ia).*1). apply fmap_Permutation, place_keys.
      + rewrite elem_of_app. exact Hn.
  Qed.

  Lemma foldl_btree_in_order l :
    NoDup l.*1 -> foldl (fun ia (nv : string * A) => btree_insert nv.1 nv.2 ia) [] l = in_order l.
  Proof.
    intros Hnd. rewrite foldl_btree by (by rewrite app_nil_r).
    by rewrite foldl_place by (by rewrite app_nil_r).
  Qed.
End args.

Lemma place_map {A B} (f : A -> B) x l :
  place_in_order (prod_map id f x) (map (prod_map id f) l) = map (prod_map id f) (place_in_order x l).
Proof. induction l as [|y l IH]; cbn; [done|]. destruct (String.leb _ _); cbn; congruence. Qed.

Lemma in_order_map {A B} (f : A -> B) l :
  in_order (map (prod_map id f) l) = map (prod_map id f) (in_order l).
Proof. induction l as [|x l IH]; cbn; [done|]. unfold in_order in IH. by rewrite IH, place_map. Qed.

Lemma zip_map_r {A B} (f : A -> B) (ks : list string) l :
  zip ks (map f l) = map (prod_map id f) (zip ks l).
Proof. revert l. induction ks as [|k ks IH]; intros [|a l]; cbn; [done..|]. by rewrite IH. Qed.

Lemma arguments_map {A B} (f : A -> B) body names l :
  arguments body names (map f l) = map (prod_map id f) <$> arguments body names l.
Proof.
  unfold arguments. rewrite map_length.
  destruct (bool_decide _); cbn; [|done]. by rewrite zip_map_r, in_order_map.
Qed.

(** The model's map. *)
Definition rmap {A B} (f : A -> B) (r : res A) : res B := rbind r (fun a => Ok (f a)).
Definition on_arg {A B} (f : A -> B) (x : string * (aop * A)) : string * (aop * B) :=
  (x.1, (x.2.1, f x.2.2)).

Lemma btree_insert_map {A B} (f : A -> B) k op v l :
  btree_insert k (op, f v) (map (on_arg f) l) = map (on_arg f) (btree_insert k (op, v) l).
Proof.
  induction l as [|[k' [op' v']] l IH]; cbn; [done|].
  destruct (String.compare k k'); cbn; [done..|]. by rewrite IH.
Qed.

Lemma inputs_map {A B} (f : A -> B) body names l :
  inputs_to_assignments body names (map f l)
  = rmap (map (on_arg f)) (inputs_to_assignments body names l).
Proof.
  destruct names as [m|]; cbn.
  - unfold insert_named. destruct (negb (bool_decide (inputs_len body = length m))); [done|].
    set (go := fix go (m : list (aop * string)) (vals : list A) (ia : list (string * (aop * A))) :=
       match m with
       | [] => Ok ia
       | (op, name) :: m' =>
           if negb (bool_decide (op = AssignConstraintSignal)) then Rejected
           else if bool_decide (name ∈ declaration_inputs body)
                then match vals with
                     | [] => Panicked
                     | v :: vals' => go m' vals' (btree_insert name (op, v) ia)
                     end
                else Rejected
       end).
    set (go' := fix go (m : list (aop * string)) (vals : list B) (ia : list (string * (aop * B))) :=
       match m with
       | [] => Ok ia
       | (op, name) :: m' =>
           if negb (bool_decide (op = AssignConstraintSignal)) then Rejected
           else if bool_decide (name ∈ declaration_inputs body)
                then match vals with
                     | [] => Panicked
                     | v :: vals' => go m' vals' (btree_insert name (op, v) ia)
                     end
                else Rejected
       end).
    assert (Hgo : forall m l ia, go' m (map f l) (map (on_arg f) ia) = rmap (map (on_arg f)) (go m l ia)).
    { clear. induction m as [|[op k] m IH]; intros l ia; cbn; [done|].
      destruct (negb _); [done|]. destruct (bool_decide _); [|done].
      destruct l as [|v l]; cbn; [done|]. rewrite btree_insert_map. apply IH. }
    specialize (Hgo m l []). cbn [map] in Hgo. rewrite Hgo.
    destruct (go m l []) as [ia| |]; cbn; [|done..].
    rewrite map_length. by destruct (bool_decide _).
  - unfold insert_positional. rewrite map_length.
    destruct (negb _); [done|]. cbn. f_equal. rewrite zip_map_r.
    change (@nil (string * (aop * B))) with (map (on_arg f) []).
    generalize (@nil (string * (aop * A))).
    induction (zip (declaration_inputs body) l) as [|[k v] z IH]; intros ia; cbn; [done|].
    rewrite btree_insert_map. apply IH.
Qed.

Lemma foldl_map' {A B C} (f : C -> B -> C) (g : A -> B) l c :
  foldl f c (map g l) = foldl (fun c a => f c (g a)) c l.
Proof. revert c. induction l as [|a l IH]; intros c; cbn; [done|]. apply IH. Qed.

Lemma zip_fst_le {A} (ks : list string) (l : list A) :
  length ks = length l -> (zip ks l).*1 = ks.
Proof. intros H. rewrite fst_zip; [done|lia]. Qed.

(** What the map contains. *)
Lemma inputs_arguments {A} body names (l : list A) ia :
  NoDup (declaration_inputs body) ->
  (forall m, names = Some m -> length m = length l) ->
  inputs_to_assignments body names l = Ok ia ->
  arguments body names l = Some (map (fun x => (x.1, x.2.2)) ia) /\
  Forall (fun x => x.2.1 = AssignConstraintSignal) ia /\
  (map (fun x => x.2.2) ia) ≡ₚ l.
Proof.
  intros Hnd Hlen Hia.
  assert (Hmain : forall (given : list string),
    NoDup given -> length given = length l -> given ≡ₚ declaration_inputs body ->
    ia = foldl (fun ia nv => btree_insert nv.1 nv.2 ia) []
           (map (prod_map id (fun a => (AssignConstraintSignal, a))) (zip given l)) ->
    given = match names with None => declaration_inputs body | Some m => map snd m end ->
    arguments body names l = Some (map (fun x => (x.1, x.2.2)) ia) /\
    Forall (fun x => x.2.1 = AssignConstraintSignal) ia /\
    (map (fun x => x.2.2) ia) ≡ₚ l).
  { intros given Hg Hl Hp Hia' Hgiven.
    rewrite foldl_btree_in_order in Hia'.
    2:{ rewrite <- list_fmap_compose.
        replace ((fst ∘ prod_map id (fun a : A => (AssignConstraintSignal, a))) <$> zip given l)
          with ((zip given l).*1) by (apply list_fmap_ext; by intros ? []).
        by rewrite zip_fst_le. }
    rewrite in_order_map in Hia'. subst ia. split_and!.
    - unfold arguments. rewrite <- Hgiven. rewrite bool_decide_eq_true_2 by (split; [done|lia]).
      f_equal. rewrite map_map. symmetry. etransitivity; [|apply map_id]. apply map_ext. by intros [].
    - apply Forall_map. apply Forall_forall. done.
    - rewrite map_map. cbn. transitivity (map snd (zip given l)).
      + apply (fmap_Permutation snd), in_order_perm.
      + change (map snd (zip given l)) with ((zip given l).*2). rewrite snd_zip by lia. done. }
  destruct names as [m|]; cbn in Hia.
  - unfold insert_named in Hia.
    destruct (bool_decide (inputs_len body = length m)) eqn:E1; [|done]. cbn in Hia.
    apply bool_decide_eq_true in E1.
    assert (Hlen' := Hlen m eq_refl).
    match type of Hia with rbind (?go m l []) _ = _ => set (g := go) in Hia end.
    assert (Hgo : forall m l ia0 ia1, length m = length l -> g m l ia0 = Ok ia1 ->
       ia1 = foldl (fun ia nv => btree_insert nv.1 nv.2 ia) ia0
               (map (prod_map id (fun a => (AssignConstraintSignal, a))) (zip (map snd m) l)) /\
       Forall (fun k => k ∈ declaration_inputs body) (map snd m)).
    { clear. induction m as [|[op k] m IH]; intros [|a l] ia0 ia1 Hl; cbn; try done.
      - intros [= ->]. done.
      - destruct (bool_decide (op = AssignConstraintSignal)) eqn:Eop; [|done].
        apply bool_decide_eq_true in Eop as ->. cbn.
        destruct (bool_decide (k ∈ declaration_inputs body)) eqn:Ek; [|done].
        apply bool_decide_eq_true in Ek. intros Hg. cbn in Hl.
        destruct (IH l _ _ ltac:(lia) Hg) as [-> HF]. split; [done|]. by constructor. }
    destruct (g m l []) as [ia0| |] eqn:Eg; cbn in Hia; try done.
    destruct (bool_decide (inputs_len body = length ia0)) eqn:E2; [|done].
    apply bool_decide_eq_true in E2. injection Hia as <-.
    destruct (Hgo _ _ _ _ Hlen' Eg) as [Hia0 HF].
    assert (Hkeys : forall (l : list (string * (aop * A))) ia0,
       list_to_set (C := gset string) ((foldl (fun ia nv => btree_insert nv.1 nv.2 ia) ia0 l).*1)
       = list_to_set (l.*1 ++ ia0.*1)).
    { clear. assert (Hi : forall k (v : aop * A) ia0,
        list_to_set (C := gset string) (btree_insert k v ia0).*1 = list_to_set (k :: ia0.*1)).
      { induction ia0 as [|[k' v'] r IH]; cbn; [done|].
        destruct (String.compare k k') eqn:E; cbn; [|done|].
        - apply String.compare_eq_iff in E as ->. set_solver.
        - cbn in IH. rewrite IH. cbn. set_solver. }
      induction l as [|[k v] l IH]; intros ia0; cbn; [done|].
      rewrite IH. rewrite !list_to_set_app_L, Hi. cbn. set_solver. }
    specialize (Hkeys (map (prod_map id (fun a => (AssignConstraintSignal, a))) (zip (map snd m) l)) []).
    rewrite <- Hia0 in Hkeys. cbn in Hkeys. rewrite app_nil_r in Hkeys.
    assert (Hz : (map (prod_map id (fun a => (AssignConstraintSignal, a))) (zip (map snd m) l)).*1
                 = map snd m).
    { change (map (prod_map id (fun a : A => (AssignConstraintSignal, a))) (zip (map snd m) l)) with
        ((prod_map id (fun a : A => (AssignConstraintSignal, a))) <$> zip (map snd m) l).
      rewrite <- list_fmap_compose.
      replace ((fst ∘ prod_map id (fun a : A => (AssignConstraintSignal, a))) <$> zip (map snd m) l)
        with ((zip (map snd m) l).*1) by (apply list_fmap_ext; by intros ? []).
      apply zip_fst_le. by rewrite map_length. }
    rewrite Hz in Hkeys.
    (* the names are without repetition *)
    assert (Hsz : size (list_to_set (C := gset string) (map snd m)) = length (map snd m)).
    { assert (size (list_to_set (C := gset string) ia0.*1) <= length ia0).
      { rewrite <- (fmap_length fst ia0). generalize (ia0.*1). clear.
        induction l as [|x l IH]; [done|]. cbn. rewrite size_union_alt.
        rewrite size_singleton. etransitivity; [apply Nat.add_le_mono_l|apply le_n_S, IH].
        apply subseteq_size. set_solver. }
      assert (Hle : length ia0 <= length m \/ True) by auto.
      assert (size (list_to_set (C := gset string) (map snd m)) <= length (map snd m)).
      { generalize (map snd m). clear.
        induction l as [|x l IH]; [done|]. cbn. rewrite size_union_alt.
        rewrite size_singleton. etransitivity; [apply Nat.add_le_mono_l|apply le_n_S, IH].
        apply subseteq_size. set_solver. }
      rewrite map_length in *.
      assert (Hia0nd : size (list_to_set (C := gset string) ia0.*1) = length ia0).
      { assert (Hstrict : forall (l : list (string * (aop * A))) ia0, NoDup ia0.*1 ->
          StronglySorted (fun a b => String.compare a b = Lt) ia0.*1 ->
          StronglySorted (fun a b => String.compare a b = Lt)
            (foldl (fun ia nv => btree_insert nv.1 nv.2 ia) ia0 l).*1).
        { clear. assert (Hi : forall k (v : aop * A) ia0,
            StronglySorted (fun a b => String.compare a b = Lt) ia0.*1 ->
            StronglySorted (fun a b => String.compare a b = Lt) (btree_insert k v ia0).*1 /\
            (forall y, y ∈ (btree_insert k v ia0).*1 -> y = k \/ y ∈ ia0.*1)).
          { induction ia0 as [|[k' v'] r IH]; cbn; intros Hs.
            - split; [repeat constructor|]. intros y Hy. apply elem_of_list_singleton in Hy. auto.
            - inversion Hs as [|? ? Hs' HF]; subst.
              destruct (String.compare k k') eqn:E; cbn.
              + apply String.compare_eq_iff in E as ->. split; [by constructor|].
                intros y Hy. auto.
              + split.
                * constructor; [done|]. constructor; [done|].
                  eapply Forall_impl; [exact HF|]. intros z Hz. cbn in Hz. by eapply string_compare_trans.
                * intros y Hy. apply elem_of_cons in Hy. tauto.
              + destruct (IH Hs') as [Hs2 Hin]. split.
                * constructor; [done|]. apply Forall_forall. intros y Hy.
                  destruct (Hin y Hy) as [->|Hy'].
                  -- rewrite String.compare_antisym, E. done.
                  -- rewrite Forall_forall in HF. by apply HF.
                * intros y Hy. apply elem_of_cons in Hy as [->|Hy]; [right; left|].
                  destruct (Hin y Hy); [by left|]. right. by right. }
          induction l as [|[k v] l IH]; intros ia0 _ Hs; cbn; [done|].
          destruct (Hi k v ia0 Hs) as [Hs2 _]. apply IH; [|done].
          assert (forall l, StronglySorted (fun a b => String.compare a b = Lt) l -> NoDup l) as Hnd.
          { clear. induction 1 as [|x l Hs IH HF]; constructor; [|done]. intros Hx.
            rewrite Forall_forall in HF. specialize (HF x Hx). cbn in HF.
            assert (String.compare x x = Datatypes.Eq) as E by apply compare_refl. congruence. }
          by apply Hnd. }
        assert (Hs0 : StronglySorted (fun a b => String.compare a b = Lt) ia0.*1).
        { rewrite Hia0. apply Hstrict; constructor. }
        rewrite size_list_to_set; [by rewrite fmap_length|].
        clear -Hs0. induction Hs0 as [|x l Hs IH HF]; constructor; [|done]. intros Hx.
        rewrite Forall_forall in HF. specialize (HF x Hx). cbn in HF.
        assert (String.compare x x = Datatypes.Eq) as E by apply compare_refl. congruence. }
      rewrite <- Hkeys. lia. }
    assert (Hnd2 : NoDup (map snd m)).
    { clear -Hsz. induction (map snd m) as [|x l IH]; [constructor|]. cbn in Hsz.
      assert (Hle : forall l, size (list_to_set (C := gset string) l) <= length l).
      { clear. induction l as [|x l IH]; [done|]. cbn. rewrite size_union_alt, size_singleton.
        etransitivity; [apply Nat.add_le_mono_l|apply le_n_S, IH]. apply subseteq_size. set_solver. }
      destruct (decide (x ∈ l)) as [Hx|Hx].
      - exfalso. replace ({[x]} ∪ list_to_set l : gset string) with (list_to_set l : gset string) in Hsz by set_solver.
        specialize (Hle l). lia.
      - constructor; [done|]. apply IH. rewrite size_union in Hsz by set_solver.
        rewrite size_singleton in Hsz. lia. }
    apply (Hmain (map snd m)); try done.
    + by rewrite map_length.
    + assert (Hsub : map snd m ⊆+ declaration_inputs body).
      { apply NoDup_submseteq; [done|]. intros k Hk. rewrite Forall_forall in HF. by apply HF. }
      apply submseteq_Permutation_length_le in Hsub; [done|].
      unfold inputs_len in E1. rewrite size_list_to_set in E1 by done. rewrite map_length. lia.
  - unfold insert_positional in Hia.
    destruct (bool_decide (length (declaration_inputs body) = length l)) eqn:E1; [|done].
    apply bool_decide_eq_true in E1. cbn in Hia. injection Hia as <-.
    apply (Hmain (declaration_inputs body)); try done.
    by rewrite foldl_map'.
Qed.
