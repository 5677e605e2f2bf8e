(** Lemmas for PropertiesParser.v: the stack of files and the graph of includes *)
From stdpp Require Import prelude gmap list relations.
From Verif Require Import ParserModel ParserSpec.
Open Scope nat_scope.

(** ** Paths in graphs *)
Section chains.
Context {A : Type} `{EqDecision A} (R : A → A → Prop).
Inductive chain : A → list A → A → Prop :=
| chain_one x : chain x [x] x
| chain_step x z is y : R x z → chain z is y → chain x (x :: is) y.
Lemma chain_suffix x is y a : chain x is y → a ∈ is → NoDup is → ∃ is', chain a is' y ∧ NoDup is'.
Proof.
  induction 1 as [x|x z is y HR HC IH]; intros Ha HN.
  - apply elem_of_list_singleton in Ha as ->. exists [x]. split; [constructor|exact HN].
  - apply elem_of_cons in Ha as [->|Ha].
    + exists (x :: is). split; [econstructor; eassumption|exact HN].
    + apply NoDup_cons in HN as [_ HN]. exact (IH Ha HN).
Qed.
Lemma rtc_chain x y : rtc R x y → ∃ is, chain x is y ∧ NoDup is.
Proof.
  induction 1 as [x|x z y HR _ (is & HC & HN)].
  - exists [x]. split; [constructor|]. apply NoDup_singleton.
  - destruct (decide (x ∈ is)) as [Hx|Hx].
    + exact (chain_suffix _ _ _ _ HC Hx HN).
    + exists (x :: is). split; [econstructor; eassumption|]. apply NoDup_cons. auto.
Qed.
Lemma chain_rtc x is y : chain x is y → rtc R x y.
Proof. induction 1; [reflexivity|]. eapply rtc_l; eassumption. Qed.
Lemma chain_last x is y : chain x is y → last is = Some y.
Proof. induction 1 as [|x z is y HR HC IH]; [reflexivity|]. cbn. destruct is; [discriminate IH|exact IH]. Qed.
Lemma chain_head x is y : chain x is y → head is = Some x.
Proof. destruct 1; reflexivity. Qed.
End chains.

Section files.
Context {path : Type} `{Countable path} {name location : Type}.
Variable parent : path → location.
Variable canonical : location → name → option path.
Variable includes : path → list name.
Variable pragma declares : path → bool.
Variable src : path.
Local Notation finc := (file_includes parent canonical includes).
Local Notation unknown := (has_unknown_include parent canonical includes).
Local Notation needed := (needed parent canonical includes src).
Local Notation adj g q := (default [] (adjacency g !! q)).

(** ** One file *)
Lemma add_includes_spec ns (f : @file_stack path _ _ location) (g : @includes_graph path _ _) :
  match add_includes canonical f g ns with
  | Some (f', g') =>
      current_location f' = current_location f ∧ black_paths f' = black_paths f ∧
      (∀ p, p ∈ stack f' → p ∈ stack f ∨ ∃ n, n ∈ ns ∧ canonical (current_location f) n = Some p) ∧
      (∀ p, p ∈ stack f → p ∈ stack f') ∧
      (∀ n p, n ∈ ns → canonical (current_location f) n = Some p → p ∈ black_paths f ∨ p ∈ stack f') ∧
      (∀ n, n ∈ ns → is_Some (canonical (current_location f) n)) ∧
      g_nodes g' = g_nodes g ∧ custom_gates_nodes g' = custom_gates_nodes g ∧
      (∀ q i, i ∈ adj g' q ↔ i ∈ adj g q ∨ (i = length (g_nodes g) - 1 ∧ ∃ n, n ∈ ns ∧ canonical (current_location f) n = Some q))
  | None => ∃ n, n ∈ ns ∧ canonical (current_location f) n = None
  end.
Proof.
  revert f g. induction ns as [|n ns IH]; intros f g; cbn [add_includes].
  - split; [reflexivity|]. split; [reflexivity|]. split; [auto|]. split; [auto|]. split; [intros n p Q; inversion Q|].
    split; [intros n Q; inversion Q|]. split; [reflexivity|]. split; [reflexivity|].
    intros q i. split; [auto|]. intros [Q|(_ & n & Q & _)]; [exact Q|inversion Q].
  - destruct (canonical (current_location f) n) as [p|] eqn:C; [|exists n; split; [left|exact C]].
    unfold add_include. rewrite C.
    set (f1 := if decide (p ∈ black_paths f) then f else FileStack (current_location f) (black_paths f) (p :: stack f)).
    assert (F1 : current_location f1 = current_location f ∧ black_paths f1 = black_paths f ∧ (∀ a, a ∈ stack f1 → a ∈ stack f ∨ a = p) ∧
                 (∀ a, a ∈ stack f → a ∈ stack f1) ∧ (p ∈ black_paths f ∨ p ∈ stack f1)).
    { unfold f1. destruct (decide (p ∈ black_paths f)); cbn; split_and!; auto.
      - intros a Ha. apply elem_of_cons in Ha as [->|Ha]; auto.
      - intros a Ha. right. exact Ha.
      - right. left. }
    clearbody f1. destruct F1 as (F1 & F2 & F3 & F4 & F5).
    specialize (IH f1 (graph_add_edge g p)). destruct (add_includes canonical f1 (graph_add_edge g p) ns) as [[f' g']|].
    + destruct IH as (I1 & I2 & I3 & I4 & I5 & I6 & I7 & I8 & I9). rewrite F1 in *. rewrite F2 in *. split_and!; auto.
      * intros a Ha. apply I3 in Ha as [Ha|(m & Hm & Ha)].
        -- apply F3 in Ha as [Ha| ->]; [auto|]. right. exists n. split; [left|exact C].
        -- right. exists m. split; [right; exact Hm|exact Ha].
      * intros m a Hm Ha. apply elem_of_cons in Hm as [->|Hm]; [|eauto].
        assert (a = p) as -> by congruence. destruct F5 as [F5|F5]; auto.
      * intros m Hm. apply elem_of_cons in Hm as [->|Hm]; [eauto|auto].
      * intros q i. rewrite I9. cbn [g_nodes graph_add_edge adjacency]. split.
        -- intros [Q|(Q & m & Hm & Q2)].
           ++ destruct (decide (q = p)) as [->|N].
              ** rewrite lookup_insert in Q. cbn in Q. apply elem_of_app in Q as [Q|Q]; [auto|].
                 apply elem_of_list_singleton in Q. right. split; [exact Q|]. exists n. split; [left|exact C].
              ** rewrite lookup_insert_ne in Q by congruence. auto.
           ++ right. split; [exact Q|]. exists m. split; [right; exact Hm|exact Q2].
        -- intros [Q|(Q & m & Hm & Q2)].
           ++ left. destruct (decide (q = p)) as [->|N].
              ** rewrite lookup_insert. cbn. apply elem_of_app. auto.
              ** rewrite lookup_insert_ne by congruence. exact Q.
           ++ apply elem_of_cons in Hm as [->|Hm].
              ** left. assert (q = p) as -> by congruence. rewrite lookup_insert. cbn. apply elem_of_app. right. apply elem_of_list_singleton. exact Q.
              ** right. split; [exact Q|]. exists m. auto.
    + destruct IH as (m & Hm & Q). exists m. split; [right; exact Hm|]. rewrite F1 in Q. exact Q.
Qed.
Lemma take_next_spec (f : @file_stack path _ _ location) :
  match take_next parent f with
  | Some (p, f') => p ∈ stack f ∧ p ∉ black_paths f ∧ black_paths f' = {[p]} ∪ black_paths f ∧ current_location f' = parent p ∧
      (∀ a, a ∈ stack f' → a ∈ stack f) ∧ (∀ a, a ∈ stack f → a ∈ stack f' ∨ a = p ∨ a ∈ black_paths f)
  | None => ∀ a, a ∈ stack f → a ∈ black_paths f
  end.
Proof.
  unfold take_next. destruct f as [cur black st]. cbn [stack black_paths].
  induction st as [|p st IH]; cbn [take_next_rec]; [intros a Q; inversion Q|].
  destruct (decide (p ∈ black)) as [D|D].
  - destruct (take_next_rec st black) as [[q st']|]; cbn in *.
    + destruct IH as (I1 & I2 & I3 & I4 & I5 & I6). split_and!; auto.
      * right. exact I1.
      * intros a Ha. right. auto.
      * intros a Ha. apply elem_of_cons in Ha as [->|Ha]; auto.
    + intros a Ha. apply elem_of_cons in Ha as [->|Ha]; auto.
  - cbn. split_and!; auto.
    + left.
    + intros a Ha. right. exact Ha.
    + intros a Ha. apply elem_of_cons in Ha as [->|Ha]; auto.
Qed.

(** ** The loop *)
Record inv (f : @file_stack path _ _ location) (g : @includes_graph path _ _) (parsed : list path) : Prop := Inv {
  inv_black : ∀ p, p ∈ black_paths f ↔ p ∈ parsed;
  inv_nodup : NoDup parsed;
  inv_parsed : ∀ p, p ∈ parsed → needed p;
  inv_stack : ∀ p, p ∈ stack f → needed p;
  inv_src : src ∈ parsed ∨ src ∈ stack f;
  inv_closed : ∀ p q, p ∈ parsed → finc p q → q ∈ parsed ∨ q ∈ stack f;
  inv_known : ∀ p, p ∈ parsed → ¬ unknown p;
  inv_nodes : g_nodes g = (λ p, IncludesNode p (pragma p)) <$> parsed;
  inv_custom : ∀ i, i ∈ custom_gates_nodes g ↔ ∃ p, parsed !! i = Some p ∧ declares p = true;
  inv_adj : ∀ q i, i ∈ adj g q ↔ ∃ p, parsed !! i = Some p ∧ finc p q }.
Lemma inv_new : inv (stack_new parent src) graph_new [].
Proof.
  constructor; cbn.
  - intros p. rewrite elem_of_empty. split; [contradiction|intros Q; inversion Q].
  - constructor.
  - intros p Q. inversion Q.
  - intros p Q. apply elem_of_list_singleton in Q as ->. apply rtc_refl.
  - right. left.
  - intros p q Q. inversion Q.
  - intros p Q. inversion Q.
  - reflexivity.
  - intros i. split; [intros Q; inversion Q|]. intros (p & Q & _). discriminate Q.
  - intros q i. rewrite lookup_empty. cbn. split; [intros Q; inversion Q|]. intros (p & Q & _). discriminate Q.
Qed.
Lemma inv_step f g parsed p f1 f2 g2 : inv f g parsed → take_next parent f = Some (p, f1) →
  add_includes canonical f1 (graph_add_node g p (pragma p) (declares p)) (includes p) = Some (f2, g2) →
  inv f2 g2 (parsed ++ [p]) ∧ p ∉ black_paths f ∧ black_paths f2 = {[p]} ∪ black_paths f ∧ needed p.
Proof.
  intros HI HT HA. pose proof (take_next_spec f) as T. rewrite HT in T. destruct T as (T1 & T2 & T3 & T4 & T5 & T6).
  pose proof (add_includes_spec (includes p) f1 (graph_add_node g p (pragma p) (declares p))) as A. rewrite HA in A.
  destruct A as (A1 & A2 & A3 & A4 & A5 & A6 & A7 & A8 & A9). rewrite T4 in *.
  destruct HI as [I1 I2 I3 I4 I5 I6 I7 I8 I9 I10].
  assert (Hp : needed p) by auto.
  assert (Hnp : p ∉ parsed) by (rewrite <- I1; exact T2).
  assert (HL : ∀ i q, (parsed ++ [p]) !! i = Some q ↔ parsed !! i = Some q ∨ (i = length parsed ∧ q = p)).
  { intros i q. rewrite lookup_app_Some. split.
    - intros [Q|[L Q]]; [auto|]. destruct (i - length parsed) eqn:E; [|destruct n; discriminate Q]. cbn in Q. injection Q as ->. right. split; [lia|reflexivity].
    - intros [Q|[-> ->]]; [auto|]. right. split; [lia|]. rewrite Nat.sub_diag. reflexivity. }
  split_and!; auto; [|rewrite A2; exact T3].
  constructor.
  - intros a. rewrite A2, T3, elem_of_union, elem_of_singleton, I1, elem_of_app, elem_of_list_singleton. tauto.
  - apply NoDup_app. split; [exact I2|]. split; [|apply NoDup_singleton]. intros a Ha Q. apply elem_of_list_singleton in Q as ->. exact (Hnp Ha).
  - intros a Ha. apply elem_of_app in Ha as [Ha|Ha]; [auto|]. apply elem_of_list_singleton in Ha as ->. exact Hp.
  - intros a Ha. apply A3 in Ha as [Ha|(n & Hn & Ha)]; [auto|].
    eapply rtc_r; [exact Hp|]. exists n. auto.
  - destruct I5 as [I5|I5]; [left; apply elem_of_app; auto|].
    apply T6 in I5 as [Q|[->|Q]]; [auto|left; apply elem_of_app; right; left|]. left. apply elem_of_app. left. apply I1. exact Q.
  - intros a q Ha Hf. rewrite elem_of_app. apply elem_of_app in Ha as [Ha|Ha].
    + destruct (I6 a q Ha Hf) as [Q|Q]; [auto|]. apply T6 in Q as [Q|[->|Q]]; [auto|left; right; left|]. left. left. apply I1. exact Q.
    + apply elem_of_list_singleton in Ha as ->. destruct Hf as (n & Hn & Q). destruct (A5 n q Hn Q) as [W|W]; [|auto].
      rewrite T3 in W. apply elem_of_union in W as [W|W]; [apply elem_of_singleton in W as ->; left; right; left|]. left. left. apply I1. exact W.
  - intros a Ha. apply elem_of_app in Ha as [Ha|Ha]; [auto|]. apply elem_of_list_singleton in Ha as ->.
    intros (n & Hn & Q). destruct (A6 n Hn) as [x Hx]. congruence.
  - rewrite A7. cbn. rewrite I8, fmap_app. reflexivity.
  - intros i. rewrite A8. cbn [custom_gates_nodes graph_add_node]. rewrite app_length. cbn [length].
    assert (L : length (g_nodes g) = length parsed) by (rewrite I8, fmap_length; reflexivity).
    destruct (declares p) eqn:D.
    + rewrite elem_of_app, I9, elem_of_list_singleton. split.
      * intros [(q & Q & W)| ->]; [exists q; split; [apply HL; auto|exact W]|]. exists p. split; [apply HL; right; split; [lia|reflexivity]|exact D].
      * intros (q & Q & W). apply HL in Q as [Q|[-> ->]]; [eauto|]. right. lia.
    + rewrite I9. split.
      * intros (q & Q & W). exists q. split; [apply HL; auto|exact W].
      * intros (q & Q & W). apply HL in Q as [Q|[-> ->]]; [eauto|congruence].
  - intros q i. rewrite A9. cbn [adjacency g_nodes graph_add_node]. rewrite app_length. cbn [length].
    assert (L : length (g_nodes g) = length parsed) by (rewrite I8, fmap_length; reflexivity).
    rewrite I10. split.
    + intros [(a & Q & W)|[E (n & Hn & W)]]; [exists a; split; [apply HL; auto|exact W]|].
      exists p. split; [apply HL; right; split; [lia|reflexivity]|]. exists n. auto.
    + intros (a & Q & W). apply HL in Q as [Q|[-> ->]]; [eauto|]. right. split; [lia|exact W].
Qed.
Lemma run_files_inv U rounds f g parsed : (∀ p, needed p → p ∈ U) → inv f g parsed → size (U ∖ black_paths f) < rounds →
  match run_files parent canonical includes pragma declares rounds f g parsed with
  | Some (inr (l, g')) => ∃ f', inv f' g' l ∧ ∀ a, a ∈ stack f' → a ∈ black_paths f'
  | Some (inl l) => NoDup l ∧ (∀ p, p ∈ l → needed p) ∧ ∃ p, last l = Some p ∧ unknown p
  | None => False
  end.
Proof.
  intros HU. revert f g parsed. induction rounds as [|rounds IH]; intros f g parsed HI Hr; [lia|]. cbn [run_files].
  destruct (take_next parent f) as [[p f1]|] eqn:T.
  - destruct (add_includes canonical f1 (graph_add_node g p (pragma p) (declares p)) (includes p)) as [[f2 g2]|] eqn:A.
    + destruct (inv_step _ _ _ _ _ _ _ HI T A) as (HI2 & Hp & HB & Hn). apply IH; [exact HI2|].
      rewrite HB. assert (size (U ∖ ({[p]} ∪ black_paths f)) < size (U ∖ black_paths f)); [|lia].
      apply subset_size. split; [set_solver|]. intros Q. assert (p ∈ U ∖ black_paths f) as W by (apply elem_of_difference; auto).
      apply Q in W. set_solver.
    + pose proof (take_next_spec f) as TS. rewrite T in TS. destruct TS as (T1 & T2 & T3 & T4 & _).
      pose proof (add_includes_spec (includes p) f1 (graph_add_node g p (pragma p) (declares p))) as AS. rewrite A in AS. rewrite T4 in AS.
      destruct HI. split.
      * apply NoDup_app. split; [assumption|]. split; [|apply NoDup_singleton]. intros a Ha Q. apply elem_of_list_singleton in Q as ->. apply T2. apply inv_black0. exact Ha.
      * split; [|exists p; split; [apply last_snoc|exact AS]].
        intros a Ha. apply elem_of_app in Ha as [Ha|Ha]; [auto|]. apply elem_of_list_singleton in Ha as ->. auto.
  - exists f. split; [exact HI|]. pose proof (take_next_spec f) as TS. rewrite T in TS. exact TS.
Qed.
Lemma inv_final f g l : inv f g l → (∀ a, a ∈ stack f → a ∈ black_paths f) → ∀ p, p ∈ l ↔ needed p.
Proof.
  intros HI HS p. split; [apply (inv_parsed _ _ _ HI)|].
  intros HN.
  assert (Q : ∀ a b, rtc finc a b → a ∈ l → b ∈ l).
  { induction 1 as [a|a b c Hab _ IH]; [auto|]. intros Ha. apply IH. destruct (inv_closed _ _ _ HI a b Ha Hab) as [Q|Q]; [exact Q|].
    apply (inv_black _ _ _ HI). auto. }
  apply (Q src p HN). destruct (inv_src _ _ _ HI) as [W|W]; [exact W|]. apply (inv_black _ _ _ HI). auto.
Qed.

(** ** Traversal *)
Section traversal.
Variable g : @includes_graph path _ _.
Definition gedge (i j : nat) : Prop := ∃ node, g_nodes g !! i = Some node ∧ j ∈ adj g (node_path node).
Hypothesis g_valid : ∀ i j, gedge i j → j < length (g_nodes g).
Inductive walk : list (nat * nat) → nat → list nat → nat → Prop :=
| walk_one used i : walk used i [i] i
| walk_step used i j is k : (i, j) ∉ used → gedge i j → walk ((i, j) :: used) j is k → walk used i (i :: is) k.
Definition npath (i : nat) : list path := match g_nodes g !! i with Some n => [node_path n] | None => [] end.
Definition lacks (i : nat) : Prop := ∃ n, g_nodes g !! i = Some n ∧ custom_gates_pragma n = false.
Definition edges_left (used : list (nat * nat)) : nat := length (g_nodes g) * length (g_nodes g) - length used.
Definition good_used (used : list (nat * nat)) : Prop := NoDup used ∧ ∀ e, e ∈ used → e.1 < length (g_nodes g) ∧ e.2 < length (g_nodes g).
Lemma good_used_length used : good_used used → length used ≤ length (g_nodes g) * length (g_nodes g).
Proof.
  intros [HN HB]. set (n := length (g_nodes g)) in *.
  set (all := list_prod (seq 0 n) (seq 0 n)).
  assert (length all = n * n) as <- by (unfold all; rewrite prod_length, seq_length; reflexivity).
  apply submseteq_length. apply NoDup_submseteq; [exact HN|].
  intros [a b] Hab. apply HB in Hab as [Ha Hb]. cbn in Ha, Hb. apply elem_of_list_In. apply in_prod; apply in_seq; lia.
Qed.
Lemma good_used_cons used i j : good_used used → (i, j) ∉ used → i < length (g_nodes g) → gedge i j → good_used ((i, j) :: used).
Proof.
  intros [HN HB] Hn Hi He. split; [apply NoDup_cons; auto|]. intros e Hin. apply elem_of_cons in Hin as [->|Hin]; [|auto].
  cbn. split; [exact Hi|]. exact (g_valid _ _ He).
Qed.
Lemma traverse_spec fuel used from trail : good_used used → from < length (g_nodes g) → edges_left used < fuel →
  ∃ ps, traverse fuel g from trail used = Some ps ∧
    ∀ tr, tr ∈ ps ↔ ∃ is k, walk used from is k ∧ lacks k ∧ tr = trail ++ (is ≫= npath).
Proof.
  revert used from trail. induction fuel as [|fuel IH]; intros used from trail HU HF HL; [lia|]. cbn [traverse].
  destruct (lookup_lt_is_Some_2 (g_nodes g) from HF) as [node Hnode]. rewrite Hnode.
  set (new_path := trail ++ [node_path node]).
  set (pp := if custom_gates_pragma node then [] else [new_path]).
  assert (Hnp : npath from = [node_path node]) by (unfold npath; rewrite Hnode; reflexivity).
  assert (Hpp : ∀ tr, tr ∈ pp ↔ lacks from ∧ tr = new_path).
  { intros tr. unfold pp, lacks. rewrite Hnode. destruct (custom_gates_pragma node) eqn:E.
    - split; [intros Q; inversion Q|]. intros [(n & [= <-] & Q) _]. congruence.
    - rewrite elem_of_list_singleton. split; [intros ->; eauto|intros [_ ->]; reflexivity]. }
  assert (Hwalk : ∀ tr, (∃ is k, walk used from is k ∧ lacks k ∧ tr = trail ++ (is ≫= npath)) ↔
    tr ∈ pp ∨ ∃ j is k, j ∈ adj g (node_path node) ∧ (from, j) ∉ used ∧ walk ((from, j) :: used) j is k ∧ lacks k ∧ tr = new_path ++ (is ≫= npath)).
  { intros tr. rewrite Hpp. split.
    - intros (is & k & HW & HK & ->). inversion HW as [|? ? j is' ? Hn He HW']; subst.
      + left. split; [exact HK|]. cbn. rewrite Hnp. reflexivity.
      + right. exists j, is', k. destruct He as (nd & E1 & E2). rewrite Hnode in E1. injection E1 as <-. split_and!; auto.
        cbn. rewrite Hnp. unfold new_path. rewrite <- app_assoc. reflexivity.
    - intros [[HK ->]|(j & is & k & Hj & Hn & HW & HK & ->)].
      + exists [from], from. split; [constructor|]. split; [exact HK|]. cbn. rewrite Hnp. reflexivity.
      + exists (from :: is), k. split; [econstructor; [exact Hn|exists node; auto|exact HW]|]. split; [exact HK|].
        cbn. rewrite Hnp. unfold new_path. rewrite <- app_assoc. reflexivity. }
  destruct (adjacency g !! node_path node) as [edges|] eqn:HA; cbn [default] in Hwalk.
  2:{ exists pp. split; [reflexivity|]. intros tr. rewrite Hwalk. split; [auto|]. intros [Q|(j & is & k & Q & _)]; [exact Q|inversion Q]. }
  assert (HE : ∀ es acc, (∀ j, j ∈ es → j ∈ edges) → ∃ ps,
    foldl (fun acc to_ => match acc with None => None | Some acc => if decide ((from, to_) ∈ used) then Some acc
       else match traverse fuel g to_ new_path ((from, to_) :: used) with Some more => Some (acc ++ more) | None => None end end) (Some acc) es = Some ps ∧
    ∀ tr, tr ∈ ps ↔ tr ∈ acc ∨ ∃ j is k, j ∈ es ∧ (from, j) ∉ used ∧ walk ((from, j) :: used) j is k ∧ lacks k ∧ tr = new_path ++ (is ≫= npath)).
  { induction es as [|j es IHe]; intros acc Hes; cbn [foldl].
    - exists acc. split; [reflexivity|]. intros tr. split; [auto|]. intros [Q|(j & is & k & Q & _)]; [exact Q|inversion Q].
    - destruct (decide ((from, j) ∈ used)) as [D|D].
      + destruct (IHe acc) as (ps & E & Hps); [intros i Hi; apply Hes; right; exact Hi|]. exists ps. split; [exact E|]. intros tr. rewrite Hps. split.
        * intros [Q|(i & is & k & Hi & Q)]; [auto|]. right. exists i, is, k. split; [right; exact Hi|exact Q].
        * intros [Q|(i & is & k & Hi & Q)]; [auto|]. apply elem_of_cons in Hi as [->|Hi]; [destruct Q as [Q _]; contradiction|]. right. exists i, is, k. auto.
      + assert (He : gedge from j) by (exists node; split; [exact Hnode|]; rewrite HA; cbn; apply Hes; left).
        assert (HU2 : good_used ((from, j) :: used)) by (apply good_used_cons; assumption).
        destruct (IH ((from, j) :: used) j new_path HU2 (g_valid _ _ He)) as (more & E & Hm).
        { pose proof (good_used_length _ HU2) as L. unfold edges_left in *. cbn [length] in *. lia. }
        rewrite E. destruct (IHe (acc ++ more)) as (ps & E2 & Hps); [intros i Hi; apply Hes; right; exact Hi|]. exists ps. split; [exact E2|].
        intros tr. rewrite Hps, elem_of_app, Hm. split.
        * intros [[Q|(is & k & Q)]|(i & is & k & Hi & Q)]; [auto| |].
          -- right. exists j, is, k. split; [left|]. split; [exact D|exact Q].
          -- right. exists i, is, k. split; [right; exact Hi|exact Q].
        * intros [Q|(i & is & k & Hi & Q)]; [auto|]. apply elem_of_cons in Hi as [->|Hi].
          -- left. right. exists is, k. destruct Q as [_ Q]. exact Q.
          -- right. exists i, is, k. auto. }
  destruct (HE edges pp) as (ps & E & Hps); [auto|]. exists ps. split; [exact E|]. intros tr. rewrite Hps, Hwalk. reflexivity.
Qed.
Lemma walk_chain used i is k : walk used i is k → chain gedge i is k.
Proof. induction 1; [constructor|econstructor; eassumption]. Qed.
Lemma chain_walk i is k : chain gedge i is k → NoDup is → ∀ used, (∀ e, e ∈ used → e.1 ∉ is) → walk used i is k.
Proof.
  induction 1 as [x|x z is y HR HC IH]; intros HN used HU; [constructor|].
  apply NoDup_cons in HN as [Hx HN]. econstructor; [|exact HR|].
  - intros Q. apply HU in Q. cbn in Q. apply Q. left.
  - apply IH; [exact HN|]. intros e He. apply elem_of_cons in He as [->|He]; [exact Hx|]. intros Q. apply (HU e He). right. exact Q.
Qed.
Lemma problematic_spec fuel : (∀ i, i ∈ custom_gates_nodes g → i < length (g_nodes g)) → length (g_nodes g) * length (g_nodes g) < fuel →
  ∃ ps, get_problematic_paths fuel g = Some ps ∧
    ∀ tr, tr ∈ ps ↔ ∃ i is k, i ∈ custom_gates_nodes g ∧ walk [] i is k ∧ lacks k ∧ tr = is ≫= npath.
Proof.
  intros HV HF. unfold get_problematic_paths.
  assert (HE : ∀ cs acc, (∀ i, i ∈ cs → i < length (g_nodes g)) → ∃ ps,
    foldl (fun acc from => match acc, traverse fuel g from [] [] with Some acc, Some more => Some (acc ++ more) | _, _ => None end) (Some acc) cs = Some ps ∧
    ∀ tr, tr ∈ ps ↔ tr ∈ acc ∨ ∃ i is k, i ∈ cs ∧ walk [] i is k ∧ lacks k ∧ tr = is ≫= npath).
  { induction cs as [|i cs IH]; intros acc Hc; cbn [foldl].
    - exists acc. split; [reflexivity|]. intros tr. split; [auto|]. intros [Q|(j & is & k & Q & _)]; [exact Q|inversion Q].
    - destruct (traverse_spec fuel [] i []) as (more & E & Hm).
      + split; [constructor|]. intros e Q. inversion Q.
      + apply Hc. left.
      + unfold edges_left. cbn. lia.
      + rewrite E. destruct (IH (acc ++ more)) as (ps & E2 & Hps); [intros j Hj; apply Hc; right; exact Hj|]. exists ps. split; [exact E2|].
        intros tr. rewrite Hps, elem_of_app, Hm. split.
        * intros [[Q|(is & k & Q)]|(j & is & k & Hj & Q)]; [auto| |].
          -- right. exists i, is, k. split; [left|exact Q].
          -- right. exists j, is, k. split; [right; exact Hj|exact Q].
        * intros [Q|(j & is & k & Hj & Q)]; [auto|]. apply elem_of_cons in Hj as [->|Hj].
          -- left. right. exists is, k. exact Q.
          -- right. exists j, is, k. auto. }
  destruct (HE (custom_gates_nodes g) [] HV) as (ps & E & Hps). exists ps. split; [exact E|]. intros tr. rewrite Hps. split; [|auto].
  intros [Q|Q]; [inversion Q|exact Q].
Qed.
End traversal.

(** ** The graph of a run *)
Lemma inv_gedge f g l i j : inv f g l → gedge g i j ↔ ∃ p q, l !! i = Some p ∧ l !! j = Some q ∧ finc q p.
Proof.
  intros HI. unfold gedge. rewrite (inv_nodes _ _ _ HI). split.
  - intros (nd & E & Q). rewrite list_lookup_fmap in E. destruct (l !! i) as [p|] eqn:L; [|discriminate E]. injection E as <-. cbn in Q.
    apply (inv_adj _ _ _ HI) in Q as (q & Hq & Hf). eauto.
  - intros (p & q & Hp & Hq & Hf). exists (IncludesNode p (pragma p)). split; [rewrite list_lookup_fmap, Hp; reflexivity|]. cbn.
    apply (inv_adj _ _ _ HI). eauto.
Qed.
Lemma inv_lacks f g l i : inv f g l → lacks g i ↔ ∃ p, l !! i = Some p ∧ pragma p = false.
Proof.
  intros HI. unfold lacks. rewrite (inv_nodes _ _ _ HI). split.
  - intros (nd & E & Q). rewrite list_lookup_fmap in E. destruct (l !! i) as [p|] eqn:L; [|discriminate E]. injection E as <-. eauto.
  - intros (p & Hp & Q). exists (IncludesNode p (pragma p)). rewrite list_lookup_fmap, Hp. auto.
Qed.
Lemma inv_chain f g l i is k : inv f g l → i < length l → chain (gedge g) i is k →
  ∃ p q, l !! i = Some p ∧ l !! k = Some q ∧ chain (flip finc) p (is ≫= npath g) q.
Proof.
  intros HI HL HC. assert (HP : ∀ i p, l !! i = Some p → npath g i = [p]).
  { intros a p Ha. unfold npath. rewrite (inv_nodes _ _ _ HI), list_lookup_fmap, Ha. reflexivity. }
  induction HC as [x|x z is y HR HC IH].
  - destruct (lookup_lt_is_Some_2 l x HL) as [p Hp]. exists p, p. split; [exact Hp|]. split; [exact Hp|]. cbn. rewrite (HP _ _ Hp). constructor.
  - apply (inv_gedge _ _ _ _ _ HI) in HR as (p & q & Hp & Hq & Hf). destruct IH as (q' & r & Hq' & Hr & HC'); [eapply lookup_lt_Some; exact Hq|].
    assert (q' = q) as -> by congruence. exists p, r. split; [exact Hp|]. split; [exact Hr|].
    cbn. rewrite (HP _ _ Hp). cbn. econstructor; [|exact HC']. exact Hf.
Qed.
Lemma inv_rtc f g l p q i : inv f g l → (∀ a, a ∈ stack f → a ∈ black_paths f) → rtc finc p q → needed p → l !! i = Some q →
  ∃ k, l !! k = Some p ∧ rtc (gedge g) i k.
Proof.
  intros HI HS HR. induction HR as [p|p z q Hpz HR IH]; intros HN Hi.
  - exists i. split; [exact Hi|apply rtc_refl].
  - destruct IH as (k & Hk & Hr); [eapply rtc_r; [exact HN|exact Hpz]|exact Hi|].
    apply (inv_final _ _ _ HI HS) in HN. apply elem_of_list_lookup in HN as [j Hj]. exists j. split; [exact Hj|].
    eapply rtc_r; [exact Hr|]. apply (inv_gedge _ _ _ _ _ HI). exists z, p. auto.
Qed.
End files.
