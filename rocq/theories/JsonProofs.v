(** Proofs about JSON inputs. *)
From Coq Require Import Ascii.
From stdpp Require Import prelude gmap fin_maps strings pretty.
From Verif Require Import DagModel MemSliceSpec MemSliceProofs InputModel BusModel BusSpec BusProofs LayoutProofs InputSpec InputProofs.
Open Scope nat_scope.

Section json.
Context {F : Type}.
Implicit Types (j : json F) (vs : list F).
Lemma nested_ind' (P : list nat -> json F -> list (json F) -> Prop) :
  (forall j, P [] j [j]) ->
  (forall d dims l ls, length l = d -> Forall2 (nested dims) l ls -> Forall2 (P dims) l ls -> P (d :: dims) (JArr l) (concat ls)) ->
  forall dims j js, nested dims j js -> P dims j js.
Proof.
  intros H0 H1. induction dims as [|d dims IH]; intros j js H; inversion H; subst; [apply H0|]. apply H1; [done|done|]. eapply Forall2_impl; [done|]. apply IH.
Qed.
Lemma nested_length dims j js : nested dims j js -> length js = prod dims.
Proof.
  revert dims j js. apply nested_ind'; [done|]. intros d dims l ls HL _ H. rewrite (concat_length (prod dims)).
  - rewrite <- (Forall2_length _ _ _ H). change (prod (d :: dims)) with (d * prod dims). lia.
  - apply Forall_forall. intros x Hx. apply elem_of_list_lookup in Hx as [i Hx]. by destruct (Forall2_lookup_r _ _ _ _ _ H Hx) as (y & _ & ?).
Qed.
Lemma nested_check dims j js t : nested dims j js -> Forall (fun x => check_type x = Some t) js -> check_type j = Some (if decide (prod dims = 0) then TNull else t).
Proof.
  revert dims j js. apply (nested_ind' (fun dims j js => Forall (fun x => check_type x = Some t) js -> check_type j = Some (if decide (prod dims = 0) then TNull else t))).
  - intros j H. inversion H; subst. rewrite decide_False; done.
  - intros d dims l ls HL _ H HF. set (t' := if decide (prod dims = 0) then TNull else t) in *.
    assert (Forall (fun x => check_type x = Some t') l) as HA.
    { apply Forall_forall. intros x Hx. apply elem_of_list_lookup in Hx as [i Hx]. destruct (Forall2_lookup_l _ _ _ _ _ H Hx) as (y & Hy & Q). apply Q.
      apply Forall_forall. intros z Hz. apply (proj1 (Forall_forall _ _) HF). apply elem_of_concat. exists y. split; [done|by eapply elem_of_list_lookup_2]. }
    destruct l as [|x l].
    + cbn in HL. subst d. cbn. done.
    + inversion HA as [|? ? Hx Hl]; subst. cbn [check_type]. rewrite Hx.
      replace (if decide (prod (length (x :: l) :: dims) = 0) then TNull else t) with t'.
      2: { unfold t'. change (prod (length (x :: l) :: dims)) with (length (x :: l) * prod dims). cbn [length]. repeat case_decide; try done; lia. }
      clear -Hl. induction Hl as [|y l Hy Hl IH]; [done|]. rewrite Hy. rewrite decide_True by done. exact IH.
Qed.
Lemma nested_values dims j js : nested dims j js -> forall vs, js = JNum <$> vs -> json_values j = Some vs.
Proof.
  revert dims j js. apply (nested_ind' (fun dims j js => forall vs, js = JNum <$> vs -> json_values j = Some vs)).
  - intros j [|v [|v' vs]] E; inversion E; subst. done.
  - intros d dims l ls _ _ H vs E. cbn [json_values].
    change ((fix go (l : list (json F)) : option (list F) := match l with [] => Some [] | x :: l => match json_values x, go l with Some a, Some b => Some (a ++ b) | _, _ => None end end) l = Some vs).
    revert vs E. induction H as [|x js l ls Hx Hl IH]; intros vs E.
    + cbn in E. symmetry in E. apply fmap_nil_inv in E as ->. done.
    + cbn [concat] in E. symmetry in E. apply fmap_app_inv in E as (v1 & v2 & E1 & E2 & ->). rewrite (Hx v1) by done. by rewrite (IH v2).
Qed.
(** elements of an array, by their paths *)
Fixpoint elements (prefix : string) (i : nat) (l : list (json F)) : option (list (string * json F)) :=
  match l with
  | [] => Some []
  | x :: l => match qualify true (indexed prefix i) x, elements prefix (S i) l with Some a, Some b => Some (a ++ b) | _, _ => None end
  end.
Lemma elements_go prefix l i : (fix go (i : nat) (l : list (json F)) : option (list (string * json F)) :=
           match l with
           | [] => Some []
           | x :: l => match qualify true (indexed prefix i) x, go (S i) l with Some a, Some b => Some (a ++ b) | _, _ => None end
           end) i l = elements prefix i l.
Proof. revert i. induction l as [|x l IH]; intros i; [done|]. cbn [elements]. by rewrite <- IH. Qed.
Lemma qualify_array_in_list prefix l : qualify true prefix (JArr l) = elements prefix 0 l.
Proof. cbn [qualify]. apply elements_go. Qed.
Lemma qualify_array prefix l : qualify false prefix (JArr l) =
  match l with [] => Some [(prefix, JArr l)] | _ => match check_type (JArr l) with None => None | Some TObj => elements prefix 0 l | Some _ => Some [(prefix, JArr l)] end end.
Proof. cbn [qualify]. rewrite elements_go. reflexivity. Qed.
Definition qualify_member (prefix : string) (x : string * json F) : option (list (string * json F)) :=
  qualify false (if decide (prefix = "") then x.1 else dotted prefix x.1) x.2.
Lemma collect_nil {A B} (f : A -> option (list B)) : collect f [] = Some [].
Proof. reflexivity. Qed.
Lemma collect_cons_eq {A B} (f : A -> option (list B)) x l : collect f (x :: l) = match f x, collect f l with Some a, Some b => Some (a ++ b) | _, _ => None end.
Proof. unfold collect. cbn. destruct (f x); [|done]. cbn. destruct (mapM f l); done. Qed.
Lemma qualify_object b prefix l : qualify b prefix (JObj l) = collect (qualify_member prefix) l.
Proof.
  cbn [qualify].
  change ((fix go (l : list (string * json F)) : option (list (string * json F)) :=
         match l with
         | [] => Some []
         | (k, x) :: l =>
             match qualify false (if decide (prefix = "") then k else dotted prefix k) x, go l with Some a, Some b => Some (a ++ b) | _, _ => None end
         end) l = collect (qualify_member prefix) l).
  induction l as [|[k x] l IH]; [done|]. rewrite collect_cons_eq, <- IH. reflexivity.
Qed.
Lemma collect_app_eq {A B} (f : A -> option (list B)) l l' : collect f (l ++ l') = match collect f l, collect f l' with Some a, Some b => Some (a ++ b) | _, _ => None end.
Proof.
  induction l as [|x l IH]; [cbn [app]; rewrite collect_nil; destruct (collect f l'); done|]. cbn [app]. rewrite !collect_cons_eq, IH.
  destruct (f x), (collect f l), (collect f l'); try done. by rewrite app_assoc.
Qed.
Lemma nested_qualify dims j js : nested dims j js -> forall name,
  qualify true name j = collect (fun px => qualify true (name +:+ brackets px.1) px.2) (zip (paths dims) js).
Proof.
  revert dims j js. apply (nested_ind' (fun dims j js => forall name, qualify true name j = collect (fun px => qualify true (name +:+ brackets px.1) px.2) (zip (paths dims) js))).
  - intros j name. cbn [paths zip zip_with]. rewrite collect_cons_eq. cbn [fst snd brackets foldr]. rewrite sapp_nil_r, collect_nil. destruct (qualify true name j); [by rewrite app_nil_r|done].
  - intros d dims l ls HL HN H name. rewrite qualify_array_in_list. rewrite paths_cons. subst d.
    assert (forall i, elements name i l = collect (fun px => qualify true (name +:+ brackets px.1) px.2)
      (zip (concat ((fun i => (fun p => i :: p) <$> paths dims) <$> seq i (length l))) (concat ls))) as Q; [|apply Q].
    induction H as [|x js l ls Hx Hl IH]; intros i; [done|]. inversion HN; subst.
    cbn [elements length seq]. rewrite fmap_cons. cbn [concat]. rewrite zip_with_app by (rewrite fmap_length, paths_length; symmetry; by eapply nested_length).
    rewrite collect_app_eq, <- IH by done. rewrite (Hx (indexed name i)).
    assert (collect (fun px => qualify true (indexed name i +:+ brackets px.1) px.2) (zip (paths dims) js) =
            collect (fun px => qualify true (name +:+ brackets px.1) px.2) (zip ((fun p => i :: p) <$> paths dims) js)) as ->; [|done].
    clear. generalize (paths dims). intros ps. revert js. induction ps as [|p ps IHp]; intros [|y js]; try done. rewrite fmap_cons. cbn [zip zip_with].
    rewrite !collect_cons_eq. cbn [fst snd]. rewrite indexed_brackets. by rewrite IHp.
Qed.
Lemma nested_qualify_objects dims j js name : nested dims j js -> Forall (fun d => 0 < d) dims -> Forall (fun x => exists l, x = JObj l) js ->
  qualify false name j = qualify true name j.
Proof.
  intros H HP HO. inversion H as [|d dims' l ls HL HN]; subst.
  - inversion HO as [|? ? [l ->] _]; subst. by rewrite !qualify_object.
  - rewrite qualify_array, qualify_array_in_list. inversion HP; subst. destruct l as [|x l]; [cbn in *; lia|].
    rewrite (nested_check _ _ _ TObj H).
    + rewrite decide_False; [done|]. by apply prod_pos.
    + eapply Forall_impl; [exact HO|]. intros y [k ->]. done.
Qed.
Lemma nested_qualify_signals dims j vs name : nested dims j (JNum <$> vs) -> qualify false name j = Some [(name, j)].
Proof.
  intros H. inversion H as [j' E1 E2 E3|d dims' l ls HL HN E1 E2 E3].
  - destruct vs as [|v [|v' vs]]; inversion E3; subst. done.
  - rewrite qualify_array. destruct l as [|x l]; [done|]. rewrite (nested_check dims (JArr (x :: l)) (JNum <$> vs) TNum).
    + case_decide; done.
    + by rewrite E2.
    + apply Forall_fmap, Forall_forall. done.
Qed.

(** *** The items of a conforming input *)
Fixpoint filled (s : shape) : Prop := match s with SSignal => True | SBus fs => filled_fields fs end
with filled_fields (fs : fields) : Prop := match fs with FNil => True | FCons _ d s r => (s <> SSignal -> Forall (fun d => 0 < d) d) /\ filled s /\ filled_fields r end.
Notation item := (string * json F * list F)%type.
Definition fits (t : item) (e : input_info) : Prop := t.1.1 = in_name e /\ json_values t.1.2 = Some t.2 /\ length t.2 = in_size e.
Definition items_for (es : list input_info) (vs : list F) (its : list (string * json F)) : Prop :=
  exists ts : list item, its ≡ₚ ts.*1 /\ Forall2 fits ts es /\ concat (ts.*2) = vs.
Lemma items_for_app es es' vs vs' its its' : items_for es vs its -> items_for es' vs' its' -> items_for (es ++ es') (vs ++ vs') (its ++ its').
Proof.
  intros (ts & P & F2 & E) (ts' & P' & F2' & E'). exists (ts ++ ts'). split_and!.
  - by rewrite P, P', fmap_app.
  - by apply Forall2_app.
  - by rewrite fmap_app, concat_app, E, E'.
Qed.
Lemma items_for_nil : items_for [] [] [].
Proof. exists []. done. Qed.
Lemma items_for_perm es vs its its' : its ≡ₚ its' -> items_for es vs its' -> items_for es vs its.
Proof. intros P (ts & P' & R). exists ts. split; [by rewrite P|done]. Qed.
Lemma collect_perm {A B} (f : A -> option (list B)) l l' : l ≡ₚ l' -> forall r', collect f l' = Some r' -> exists r, collect f l = Some r /\ r ≡ₚ r'.
Proof.
  induction 1 as [|x l l' H IH|x y l|l l' l'' H IH H' IH']; intros r'.
  - intros E. eauto.
  - rewrite !collect_cons_eq. destruct (f x) as [a|]; [|done]. destruct (collect f l') as [b|]; [|done]. intros [= <-].
    destruct (IH b eq_refl) as (b' & -> & P). exists (a ++ b'). split; [done|by rewrite P].
  - rewrite !collect_cons_eq. destruct (f x) as [a|], (f y) as [b|]; try done; destruct (collect f l) as [c|]; try done. intros [= <-].
    eexists. split; [done|]. rewrite !app_assoc. by rewrite (Permutation_app_comm a b).
  - intros E. destruct (IH' _ E) as (r2 & E2 & P2). destruct (IH _ E2) as (r1 & E1 & P1). exists r1. split; [done|]. by rewrite P1.
Qed.
Lemma same_members (l cl : list (string * json F)) names : NoDup names -> l.*1 ≡ₚ names -> cl.*1 = names -> (forall x, x ∈ cl -> x ∈ l) -> l ≡ₚ cl.
Proof.
  intros ND Hl Hc HI. symmetry. apply submseteq_Permutation_length_eq.
  - rewrite <- (fmap_length fst l), <- (fmap_length fst cl), Hc, Hl. done.
  - apply NoDup_submseteq; [|done]. apply (NoDup_fmap_1 fst). by rewrite Hc.
Qed.
Lemma sapp_nonempty_l a b : a <> "" -> a +:+ b <> "".
Proof. destruct a; [done|]. intros _. change (String a (a0 +:+ b) <> ""). done. Qed.
Lemma sapp_nonempty_r a b : b <> "" -> a +:+ b <> "".
Proof. destruct a; [done|]. intros _. change (String a (a0 +:+ b) <> ""). done. Qed.
Lemma bus_items fs name start : name <> "" ->
  (forall l vs pre start, members fs l vs -> exists cl its, cl.*1 = field_names fs /\ (forall x, x ∈ cl -> x ∈ l) /\
     collect (fun x => qualify false (pre +:+ x.1) x.2) cl = Some its /\ items_for (member_entries pre start fs) vs its) ->
  NoDup (field_names fs) ->
  forall js vss, Forall2 (fun j vs => exists l, j = JObj l /\ l.*1 ≡ₚ field_names fs /\ members fs l vs) js vss -> forall ps a, length ps = length js ->
  exists its, collect (fun px => qualify true (name +:+ brackets px.1) px.2) (zip ps js) = Some its /\
    items_for (concat (imap (fun k p => member_entries (name +:+ brackets p +:+ ".") (start + (a + k) * fsize fs) fs) ps)) (concat vss) its.
Proof.
  intros Hname HQ ND js vss H. induction H as [|j vs js vss (l & -> & Hk & Hm) _ IH]; intros [|p ps] a HL; try done.
  - exists []. split; [done|]. apply items_for_nil.
  - cbn [zip zip_with imap concat]. rewrite collect_cons_eq. cbn [fst snd]. rewrite qualify_object.
    destruct (HQ l vs ((name +:+ brackets p) +:+ ".") (start + (a + 0) * fsize fs) Hm) as (cl & its & Hc & HI & E & HF).
    pose proof (same_members _ _ _ ND Hk Hc HI) as P.
    assert (forall x, qualify_member (name +:+ brackets p) x = qualify false (((name +:+ brackets p) +:+ ".") +:+ x.1) x.2) as EQ.
    { intros x. unfold qualify_member. rewrite decide_False by (by apply sapp_nonempty_l). by rewrite member_cells_prefix. }
    assert (exists r, collect (qualify_member (name +:+ brackets p)) l = Some r /\ r ≡ₚ its) as (r & Er & Pr).
    { apply (collect_perm _ _ cl P). rewrite <- E. unfold collect. clear -EQ. assert (mapM (qualify_member (name +:+ brackets p)) cl = mapM (fun x => qualify false (((name +:+ brackets p) +:+ ".") +:+ x.1) x.2) cl) as ->; [|done].
      induction cl as [|x cl IH]; [done|]. cbn. by rewrite EQ, IH. }
    rewrite Er. destruct (IH ps (S a)) as (its2 & E2 & HF2); [cbn in HL; lia|]. rewrite E2.
    exists (r ++ its2). split; [done|]. apply items_for_app.
    + eapply items_for_perm; [exact Pr|]. by rewrite sapp_assoc.
    + assert (imap (fun k p => member_entries (name +:+ brackets p +:+ ".") (start + (S a + k) * fsize fs) fs) ps =
        imap ((fun k p => member_entries (name +:+ brackets p +:+ ".") (start + (a + k) * fsize fs) fs) ∘ S) ps) as <-; [|done].
      apply imap_ext. intros k q _. unfold compose. do 3 f_equal. lia.
Qed.
Lemma qualify_gives : (forall s, good_names s -> filled s -> forall dims j vs name start, gives s dims j vs -> name <> "" -> (s <> SSignal -> Forall (fun d => 0 < d) dims) ->
    exists its, qualify false name j = Some its /\ items_for (entries name dims start s) vs its) /\
  (forall fs, good_fields fs -> filled_fields fs -> forall l vs pre start, members fs l vs -> exists cl its, cl.*1 = field_names fs /\ (forall x, x ∈ cl -> x ∈ l) /\
     collect (fun x => qualify false (pre +:+ x.1) x.2) cl = Some its /\ items_for (member_entries pre start fs) vs its).
Proof.
  apply shape_fields_ind.
  - intros _ _ dims j vs name start H Hn _. cbn [gives] in H. exists [(name, j)]. split; [by eapply nested_qualify_signals|].
    exists [(name, j, vs)]. split; [done|]. split; [|by rewrite list_fmap_singleton; cbn; rewrite app_nil_r].
    constructor; [|constructor]. split; [done|]. split; [by eapply nested_values|]. cbn [in_size]. rewrite <- (nested_length _ _ _ H). by rewrite fmap_length.
  - intros fs IH HG HF dims j vs name start (js & vss & HN & HV & ->) Hn HP. cbn [good_names filled] in *. specialize (HP ltac:(done)).
    rewrite (nested_qualify_objects dims j js) by (try done; apply Forall_forall; intros x Hx; apply elem_of_list_lookup in Hx as [i Hx]; destruct (Forall2_lookup_l _ _ _ _ _ HV Hx) as (y & _ & l & -> & _); eauto).
    rewrite (nested_qualify _ _ _ HN).
    destruct (bus_items fs name start Hn (IH HG HF) (good_fields_nodup _ HG) js vss HV (paths dims) 0) as (its & E & HI).
    { rewrite paths_length. symmetry. by eapply nested_length. }
    exists its. split; [done|]. exact HI.
  - intros _ _ l vs pre start ->. exists [], []. split_and!; [done| |done|apply items_for_nil]. intros x Hx. by apply elem_of_nil in Hx.
  - intros n d s IHs r IHr (Hp & Hn & Hgs & Hgr) (Hd & Hfs & Hfr) l vs pre start (j & vs1 & vs2 & Hin & Hg & Hm & ->). cbn [field_names member_entries].
    destruct (IHr Hgr Hfr l vs2 pre (start + prod d * ssize s) Hm) as (cl & its & Hc & HI & E & HF).
    destruct (IHs Hgs Hfs d j vs1 (pre +:+ n) start Hg) as (its1 & E1 & HF1); [apply sapp_nonempty_r, Hp|done|].
    exists ((n, j) :: cl), (its1 ++ its). split_and!.
    + rewrite fmap_cons. by rewrite Hc.
    + intros x Hx. apply elem_of_cons in Hx as [->|Hx]; [done|by apply HI].
    + rewrite collect_cons_eq. cbn [fst snd]. by rewrite E1, E.
    + by apply items_for_app.
Qed.

(** *** The map of the qualified members *)
Lemma foldl_insert_map (l : list (string * json F)) : forall m : gmap string (json F), foldl (fun m '(k, x) => <[k := x]> m) m l = list_to_map (reverse l) ∪ m.
Proof.
  induction l as [|[k x] l IH]; intros m; cbn [foldl]; [symmetry; apply (left_id_L ∅ (∪))|]. rewrite IH. rewrite reverse_cons, list_to_map_app.
  rewrite <- (assoc_L (∪)). f_equal. cbn. rewrite (insert_union_singleton_l m). done.
Qed.
Lemma json_items_ok hash l fs vs start : good_fields fs -> filled_fields fs -> l.*1 ≡ₚ field_names fs -> members fs l vs ->
  exists items ts, json_items hash (JObj l) = Some items /\ items ≡ₚ ((fun t : item => (hash t.1.1, t.2)) <$> ts) /\ Forall2 fits ts (member_entries "" start fs) /\ concat (ts.*2) = vs.
Proof.
  intros HG HF Hk Hm. destruct (proj2 qualify_gives fs HG HF l vs "" start Hm) as (cl & its & Hc & HI & E & (ts & P & F2 & EV)).
  pose proof (same_members _ _ _ (good_fields_nodup _ HG) Hk Hc HI) as PL.
  assert (exists r, qualify false "" (JObj l) = Some r /\ r ≡ₚ its) as (r & Er & Pr).
  { rewrite qualify_object. apply (collect_perm _ _ cl PL). rewrite <- E. unfold collect. f_equal. }
  unfold json_items. rewrite Er. rewrite foldl_insert_map, (right_id_L ∅ (∪)). cbv zeta.
  assert (r ≡ₚ ts.*1) as PR by (by rewrite Pr).
  assert (NoDup ((ts.*1).*1)) as ND.
  { assert ((ts.*1).*1 = in_name <$> member_entries "" start fs) as ->; [|by apply member_entries_nodup].
    clear -F2. induction F2 as [|t e ts es [Ht _] _ IH]; [done|]. rewrite !fmap_cons. by rewrite IH, Ht. }
  assert (map_to_list (list_to_map (reverse r) : gmap string (json F)) ≡ₚ ts.*1) as PM.
  { rewrite map_to_list_to_map; [by rewrite reverse_Permutation|]. rewrite reverse_Permutation, PR. exact ND. }
  assert (forall l' ts', l' ≡ₚ ts'.*1 -> Forall (fun t : item => json_values t.1.2 = Some t.2) ts' ->
    exists items, mapM (fun '(k, x) => match json_values x with Some vs => Some (hash k, vs) | None => None end) l' = Some items /\ items ≡ₚ ((fun t : item => (hash t.1.1, t.2)) <$> ts')) as Q.
  { clear. intros l'. induction l' as [|[k x] l' IH]; intros ts' HP HV.
    - apply Permutation_nil_l in HP. symmetry in HP. apply fmap_nil_inv in HP as ->. exists []. done.
    - symmetry in HP. assert ((k, x) ∈ ts'.*1) as Hin by (rewrite HP; left). apply elem_of_list_fmap in Hin as ([[k' x'] v] & Ex & Hin). cbn in Ex. inversion Ex; subst k' x'.
      apply elem_of_list_split in Hin as (t1 & t2 & ->). rewrite fmap_app, fmap_cons in HP. cbn [fst] in HP. rewrite <- Permutation_middle in HP. apply (inj _) in HP.
      destruct (IH (t1 ++ t2)) as (items & E & P).
      { rewrite fmap_app. done. }
      { apply Forall_app in HV as [HV1 HV2]. apply Forall_cons in HV2 as [_ HV2]. by apply Forall_app. }
      exists ((hash k, v) :: items). cbn [mapM]. apply Forall_app in HV as [_ HV]. apply Forall_cons in HV as [HV _]. cbn in HV. rewrite HV. cbn [mbind option_bind]. rewrite E. split; [done|].
      rewrite fmap_app, fmap_cons, <- Permutation_middle. cbn [fst snd]. rewrite P. by rewrite fmap_app. }
  destruct (Q _ ts PM) as (items & Ei & Pi).
  { apply Forall_forall. intros t Ht. apply elem_of_list_lookup in Ht as [i Ht]. by destruct (Forall2_lookup_l _ _ _ _ _ F2 Ht) as (e & _ & _ & ? & _). }
  exists items, ts. split_and!; done.
Qed.
End json.

(** *** From buses to shapes *)
Lemma has_fields_filled buses : buses_filled buses ->
  (forall o s, has_shape buses o s -> filled s) /\ (forall ws fs, has_fields buses ws fs -> bus_arrays_filled ws -> filled_fields fs).
Proof.
  intros HF. apply has_shape_fields_ind.
  - done.
  - intros b ws fs Hb _ _ IH. cbn [filled]. apply IH. pose proof (proj1 (Forall_lookup _ _) HF b ws Hb) as Q. eapply Forall_impl; [exact Q|]. intros w Hw _. exact Hw.
  - done.
  - intros w ws s fs Hs IHs Hf IHf HP. inversion HP as [|? ? Hw Hws]; subst. cbn [filled_fields]. split_and!; [|done|by apply IHf].
    intros N. apply Hw. intros E. rewrite E in Hs. inversion Hs; subst. done.
Qed.
(** *** Names of inputs are ASCII *)
Definition ascii_only (s : string) : Prop := Forall (fun c => nat_of_ascii c < 128) (String.list_ascii_of_string s).
Lemma ascii_app a b : ascii_only a -> ascii_only b -> ascii_only (a +:+ b).
Proof. unfold ascii_only. rewrite list_ascii_app. intros. by apply Forall_app. Qed.
Lemma plain_ascii s : plain s -> ascii_only s.
Proof. intros [_ H]. apply Forall_forall. intros c Hc. by apply H. Qed.
Lemma pretty_N_go_ascii x s : ascii_only s -> ascii_only (pretty_N_go x s).
Proof.
  revert s. induction (N.lt_wf_0 x) as [x _ IH]; intros s Hs. destruct (decide (0 < x)%N) as [Hx|Hx].
  - rewrite pretty_N_go_step by done. apply IH; [apply N.div_lt; lia|]. unfold ascii_only. cbn. constructor; [|done].
    unfold pretty_N_char. repeat case_match; apply Nat.ltb_lt; vm_compute; reflexivity.
  - replace x with 0%N by lia. by rewrite pretty_N_go_0.
Qed.
Lemma pretty_ascii (i : nat) : ascii_only (pretty i).
Proof.
  change (pretty i) with (pretty (N.of_nat i)). unfold pretty, pretty_N. case_decide; [|apply pretty_N_go_ascii; constructor].
  constructor; [apply Nat.ltb_lt; vm_compute; reflexivity|constructor].
Qed.
Lemma char_ascii c : (nat_of_ascii c <? 128) = true -> ascii_only (String c "").
Proof. intros H. constructor; [by apply Nat.ltb_lt|constructor]. Qed.
Lemma brackets_ascii p : ascii_only (brackets p).
Proof.
  induction p as [|i p IH]; [constructor|]. rewrite brackets_cons. repeat apply ascii_app; [apply char_ascii; vm_compute; reflexivity|apply pretty_ascii|apply char_ascii; vm_compute; reflexivity|done].
Qed.
Lemma entries_ascii : (forall s, good_names s -> forall name dims start, ascii_only name -> Forall (fun e => ascii_only (in_name e)) (entries name dims start s)) /\
  (forall fs, good_fields fs -> forall prefix start, ascii_only prefix -> Forall (fun e => ascii_only (in_name e)) (member_entries prefix start fs)).
Proof.
  apply shape_fields_ind.
  - intros _ name dims start H. by repeat constructor.
  - intros fs IH HG name dims start H. cbn [entries]. apply Forall_forall. intros e He. apply elem_of_concat_imap in He as (k & p & _ & He).
    eapply (proj1 (Forall_forall _ _) (IH HG _ _ _)); [exact He]. 
  - intros. constructor.
  - intros n d s IHs r IHr (Hp & _ & Hgs & Hgr) prefix start H. cbn [member_entries]. apply Forall_app. split; [|by apply IHr].
    apply IHs; [done|]. apply ascii_app; [done|by apply plain_ascii].
  Unshelve. apply ascii_app; [done|]. apply ascii_app; [apply brackets_ascii|apply char_ascii; vm_compute; reflexivity].
Qed.
Lemma same_hash_ascii s : ascii_only s -> Forall (fun b => 0 <= b < 128)%Z (bytes_of s).
Proof. intros H. apply Forall_fmap. eapply Forall_impl; [exact H|]. intros c Hc. unfold compose. cbn beta in *. lia. Qed.

(** *** Assignments of the items *)
Section assign.
Context {F : Type}.
Variable hash : string -> Z.
Definition entry_of (io : input_info) : entry := Entry (hash (in_name io)) (in_start io) (in_size io).
Notation item := (string * json F * list F)%type.
Lemma imap_denotes inputs io (vs : list F) : entry_of io ∈ inputs -> length vs = in_size io -> forall (ws : list F) k, k + length ws = in_size io ->
  Forall2 (fun w p => denotes inputs w.1.1 w.1.2 p) (imap (fun i v => (hash (in_name io), k + i, v)) ws) (seq (in_start io + k) (length ws)).
Proof.
  intros He Hl ws. induction ws as [|v ws IH]; intros k HL; [constructor|]. cbn [imap length seq]. constructor.
  - cbn. exists (entry_of io). cbn in *. split_and!; [done|done|lia|lia].
  - assert (imap ((fun i v => (hash (in_name io), k + i, v)) ∘ S) ws = imap (fun i v => (hash (in_name io), S k + i, v)) ws) as ->.
    { apply imap_ext. intros i x _. unfold compose. do 2 f_equal. lia. }
    replace (S (in_start io + k)) with (in_start io + S k) by lia. apply IH. cbn in HL. lia.
Qed.
Lemma items_targets inputs (ts : list item) es : Forall2 fits ts es -> (forall e, e ∈ es -> entry_of e ∈ inputs) ->
  targets inputs (writes_of ((fun t : item => (hash t.1.1, t.2)) <$> ts)) (concat ((fun e => seq (in_start e) (in_size e)) <$> es)).
Proof.
  intros H HI. unfold targets, writes_of. induction H as [|t e ts es (Hn & _ & HL) _ IH]; [constructor|]. rewrite !fmap_cons. cbn [concat]. apply Forall2_app.
  - cbn [fst snd]. rewrite Hn. pose proof (imap_denotes inputs e t.2 (HI e ltac:(left)) HL t.2 0) as Q. rewrite Nat.add_0_r, HL in Q. apply Q. done.
  - apply IH. intros x Hx. apply HI. by right.
Qed.
Lemma writes_values (ts : list item) : (fun w : Z * nat * F => w.2) <$> (writes_of ((fun t : item => (hash t.1.1, t.2)) <$> ts) : list (Z * nat * F)) = concat (ts.*2).
Proof.
  unfold writes_of. induction ts as [|t ts IH]; [done|]. rewrite !fmap_cons. cbn [concat]. rewrite fmap_app. f_equal; [|exact IH].
  cbn [fst snd]. rewrite fmap_imap. rewrite <- (list_fmap_id t.2) at 2. exact (imap_const id t.2).
Qed.
Lemma writes_perm (a b : list (Z * list F)) : a ≡ₚ b -> writes_of a ≡ₚ writes_of b.
Proof.
  unfold writes_of. induction 1 as [|x l l' H IH|x y l|l l' l'' H IH H' IH']; [done| | |by etrans].
  - rewrite !fmap_cons. cbn [concat]. by rewrite IH.
  - rewrite !fmap_cons. cbn [concat]. rewrite !app_assoc. by rewrite (Permutation_app_comm (imap _ _) (imap _ _)).
Qed.
End assign.

(** *** Bounds *)
Lemma hasher_range name : (0 <= hasher name < 2 ^ 64)%Z.
Proof.
  unfold hasher. assert (0 <= 14695981039346656037 < 2 ^ 64)%Z as H by lia. revert H. generalize 14695981039346656037%Z as a.
  induction name as [|b name IH]; intros a Ha; [exact Ha|]. cbn [foldl]. apply IH. apply Z.mod_pos_bound. reflexivity.
Qed.
Lemma entries_bounds : (forall s name dims start e, e ∈ entries name dims start s -> start <= in_start e /\ in_start e + in_size e <= start + prod dims * ssize s) /\
  (forall fs prefix start e, e ∈ member_entries prefix start fs -> start <= in_start e /\ in_start e + in_size e <= start + fsize fs).
Proof.
  apply shape_fields_ind.
  - intros name dims start e He. apply elem_of_list_singleton in He as ->. cbn [in_start in_size ssize]. lia.
  - intros fs IH name dims start e He. cbn [entries] in He. apply elem_of_concat_imap in He as (k & p & Hk & He). apply IH in He. cbn [ssize].
    apply lookup_lt_Some in Hk. rewrite paths_length in Hk. assert (S k * fsize fs <= prod dims * fsize fs) by (apply Nat.mul_le_mono_r; lia). lia.
  - intros prefix start e He. by apply elem_of_nil in He.
  - intros n d s IHs r IHr prefix start e He. cbn [member_entries fsize] in *. apply elem_of_app in He as [He|He]; [apply IHs in He|apply IHr in He]; lia.
Qed.
Lemma layouts_bounds k buses ws fs : has_fields buses ws fs -> forall id l, l ∈ layouts k id ws fs -> l_dag_local_id l = S (l_local_id l) /\ id <= l_local_id l /\ l_local_id l + l_size l <= id + fsize fs.
Proof.
  intros H. induction H as [|w ws s fs Hs Hf IH]; intros id l Hl; [by apply elem_of_nil in Hl|]. cbn [layouts fsize] in *. apply elem_of_cons in Hl as [->|Hl]; [cbn; lia|]. apply IH in Hl. lia.
Qed.
