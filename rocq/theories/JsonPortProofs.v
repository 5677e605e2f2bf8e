(** Proofs about the JSON file with the constraints. *)
From stdpp Require Import prelude gmap fin_maps sorting strings pretty.
From Coq Require Import ZArith Ascii.
From Verif Require Import ModArithModel AlgebraModel PipelineModel R1csModel DagModel JsonPortModel JsonPortSpec.
Open Scope nat_scope.
Open Scope string_scope.

Lemma appA (a b c : string) : (a +:+ b) +:+ c = a +:+ (b +:+ c).
Proof. induction a as [|x a IH]; [reflexivity|]. change (String x ((a +:+ b) +:+ c) = String x (a +:+ (b +:+ c))). f_equal. exact IH. Qed.
Lemma appS c (a b : string) : String c a +:+ b = String c (a +:+ b).
Proof. reflexivity. Qed.
Lemma appE (b : string) : "" +:+ b = b.
Proof. reflexivity. Qed.
Lemma app_nil (a : string) : a +:+ "" = a.
Proof. induction a as [|x a IH]; [reflexivity|]. rewrite appS, IH. reflexivity. Qed.

Fixpoint blank (s : string) : Prop := match s with "" => True | String c s => space c = true /\ blank s end.
Lemma skip_blank w s : blank w -> skip (w +:+ s) = skip s.
Proof. induction w as [|c w IH]; [reflexivity|]. intros [Hc Hw]. rewrite appS. cbn [skip]. rewrite Hc. apply IH. exact Hw. Qed.
Lemma value_blank n w s : blank w -> value n (w +:+ s) = value n s.
Proof. intros Hw. destruct n as [|n]; [reflexivity|]. cbn [value]. rewrite skip_blank by exact Hw. reflexivity. Qed.
Lemma values_blank n w s : blank w -> values n (w +:+ s) = values n s.
Proof. intros Hw. destruct n as [|n]; [reflexivity|]. cbn [values]. rewrite value_blank by exact Hw. reflexivity. Qed.
Lemma members_blank n w s : blank w -> members n (w +:+ s) = members n s.
Proof. intros Hw. destruct n as [|n]; [reflexivity|]. cbn [members]. rewrite skip_blank by exact Hw. reflexivity. Qed.

Fixpoint plain (s : string) : Prop := match s with "" => True | String c s => Ascii.eqb c """" = false /\ Ascii.eqb c "\" = false /\ plain s end.
Lemma chars_plain s r : plain s -> chars (s +:+ String """" r) = Some (s, r).
Proof. induction s as [|c s IH]; [reflexivity|]. intros (H1 & H2 & H3). rewrite appS. cbn [chars]. rewrite H1, H2, (IH H3). reflexivity. Qed.

Definition rv (s : string) (j : json) : Prop := exists n0, forall n r, n0 <= n -> value n (s +:+ r) = Some (j, r).
Definition rl (s : string) (l : list json) : Prop := exists n0, forall n r, n0 <= n -> values n (s +:+ r) = Some (l, r).
Definition rm (s : string) (l : list (string * json)) : Prop := exists n0, forall n r, n0 <= n -> members n (s +:+ r) = Some (l, r).

Lemma rv_string s : plain s -> rv (quoted s) (JString s).
Proof.
  intros Hs. exists 1. intros n r Hn. destruct n as [|n]; [lia|]. unfold quoted. rewrite appS, appE, appS, appA, appS, appE. cbn [value].
  change (skip (String """" (s +:+ String """" r))) with (String """" (s +:+ String """" r)). cbn [Ascii.eqb Bool.eqb]. rewrite chars_plain by exact Hs. reflexivity.
Qed.
Lemma rv_blank w s j : blank w -> rv s j -> rv (w +:+ s) j.
Proof. intros Hw [n0 H]. exists n0. intros n r Hn. rewrite appA, value_blank by exact Hw. apply H, Hn. Qed.
Lemma rl_blank w s l : blank w -> rl s l -> rl (w +:+ s) l.
Proof. intros Hw [n0 H]. exists n0. intros n r Hn. rewrite appA, values_blank by exact Hw. apply H, Hn. Qed.
Lemma rm_blank w s l : blank w -> rm s l -> rm (w +:+ s) l.
Proof. intros Hw [n0 H]. exists n0. intros n r Hn. rewrite appA, members_blank by exact Hw. apply H, Hn. Qed.
Lemma rl_last s j w : rv s j -> blank w -> rl (s +:+ w +:+ "]") [j].
Proof.
  intros [n0 H] Hw. exists (S n0). intros n r Hn. destruct n as [|n]; [lia|]. cbn [values]. rewrite !appA, H by lia. cbn [mbind option_bind].
  rewrite skip_blank by exact Hw. reflexivity.
Qed.
Lemma rl_cons s j s' l : rv s j -> rl s' l -> rl (s +:+ "," +:+ s') (j :: l).
Proof.
  intros [n0 H] [n1 H']. exists (S (n0 + n1)). intros n r Hn. destruct n as [|n]; [lia|]. cbn [values]. rewrite !appA, H by lia. cbn [mbind option_bind].
  change (skip ("," +:+ (s' +:+ r))) with ("," +:+ (s' +:+ r)). rewrite appS, appE, H' by lia. reflexivity.
Qed.
Lemma rm_last k s j w : plain k -> rv s j -> blank w -> rm (quoted k +:+ ":" +:+ s +:+ w +:+ "}") [(k, j)].
Proof.
  intros Hk [n0 H] Hw. exists (S n0). intros n r Hn. destruct n as [|n]; [lia|]. cbn [members]. unfold quoted. rewrite !appA, appS, appE.
  match goal with |- context [skip (String """" ?x)] => change (skip (String """" x)) with (String """" x) end. cbv iota.
  rewrite (appS """"), appE, chars_plain by exact Hk. cbn [mbind option_bind]. match goal with |- context [skip (":" +:+ ?x)] => change (skip (":" +:+ x)) with (String ":" x) end. cbv iota.
  rewrite H by lia. cbn [mbind option_bind]. rewrite skip_blank by exact Hw. reflexivity.
Qed.
Lemma rm_cons k s j s' l : plain k -> rv s j -> rm s' l -> rm (quoted k +:+ ":" +:+ s +:+ "," +:+ s') ((k, j) :: l).
Proof.
  intros Hk [n0 H] [n1 H']. exists (S (n0 + n1)). intros n r Hn. destruct n as [|n]; [lia|]. cbn [members]. unfold quoted. rewrite !appA, appS, appE.
  match goal with |- context [skip (String """" ?x)] => change (skip (String """" x)) with (String """" x) end. cbv iota.
  rewrite (appS """"), appE, chars_plain by exact Hk. cbn [mbind option_bind]. match goal with |- context [skip (":" +:+ ?x)] => change (skip (":" +:+ x)) with (String ":" x) end. cbv iota.
  rewrite H by lia. cbn [mbind option_bind]. match goal with |- context [skip ("," +:+ ?x)] => change (skip ("," +:+ x)) with (String "," x) end. cbv iota. rewrite H' by lia. reflexivity.
Qed.
Lemma value_head n c s x : value n (String c s) = Some x -> space c = false -> Ascii.eqb c """" || Ascii.eqb c "[" || Ascii.eqb c "{" = true.
Proof.
  destruct n as [|n]; [discriminate|]. cbn [value skip]. intros H Hc. rewrite Hc in H. destruct (Ascii.eqb c """"); [reflexivity|]. destruct (Ascii.eqb c "["); [reflexivity|].
  destruct (Ascii.eqb c "{"); [reflexivity|discriminate].
Qed.
Lemma skip_skip s : skip (skip s) = skip s.
Proof. induction s as [|c s IH]; [reflexivity|]. cbn [skip]. destruct (space c) eqn:E; [exact IH|]. cbn [skip]. rewrite E. reflexivity. Qed.
Lemma value_skip n s : value n (skip s) = value n s.
Proof. destruct n as [|n]; [reflexivity|]. cbn [value]. rewrite skip_skip. reflexivity. Qed.
Lemma values_head n s x r : values n s = Some x -> skip s <> String "]" r.
Proof.
  destruct n as [|n]; [discriminate|]. cbn [values]. intros H E. destruct (value n s) as [y|] eqn:Ev; [|discriminate]. rewrite <- value_skip, E in Ev.
  apply value_head in Ev; [discriminate|reflexivity].
Qed.
Lemma members_head n s x r : members n s = Some x -> skip s <> String "}" r.
Proof. destruct n as [|n]; [discriminate|]. cbn [members]. intros H E. rewrite E in H. discriminate. Qed.
Lemma rv_array s l : rl s l -> rv ("[" +:+ s) (JArray l).
Proof.
  intros [n0 H]. exists (S n0). intros n r Hn. destruct n as [|n]; [lia|]. cbn [value]. rewrite appA, appS, appE.
  match goal with |- context [skip (String "[" ?x)] => change (skip (String "[" x)) with (String "[" x) end. cbn [Ascii.eqb Bool.eqb].
  specialize (H n r ltac:(lia)). pose proof (fun q => values_head _ _ _ q H) as HH.
  transitivity ('(l0, r0) ← values n (s +:+ r); Some (JArray l0, r0)); [|rewrite H; reflexivity].
  destruct (skip (s +:+ r)) as [|c q]; [reflexivity|]. destruct c as [[] [] [] [] [] [] [] []]; try reflexivity. exfalso. exact (HH q eq_refl).
Qed.
Lemma rv_object s l : rm s l -> rv ("{" +:+ s) (JObject l).
Proof.
  intros [n0 H]. exists (S n0). intros n r Hn. destruct n as [|n]; [lia|]. cbn [value]. rewrite appA, appS, appE.
  match goal with |- context [skip (String "{" ?x)] => change (skip (String "{" x)) with (String "{" x) end. cbn [Ascii.eqb Bool.eqb].
  specialize (H n r ltac:(lia)). pose proof (fun q => members_head _ _ _ q H) as HH.
  transitivity ('(l0, r0) ← members n (s +:+ r); Some (JObject l0, r0)); [|rewrite H; reflexivity].
  destruct (skip (s +:+ r)) as [|c q]; [reflexivity|]. destruct c as [[] [] [] [] [] [] [] []]; try reflexivity. exfalso. exact (HH q eq_refl).
Qed.
Lemma rv_empty_array w : blank w -> rv ("[" +:+ w +:+ "]") (JArray []).
Proof.
  intros Hw. exists 1. intros n r Hn. destruct n as [|n]; [lia|]. cbn [value]. rewrite appA, appS, appE.
  match goal with |- context [skip (String "[" ?x)] => change (skip (String "[" x)) with (String "[" x) end. cbn [Ascii.eqb Bool.eqb].
  rewrite appA, skip_blank by exact Hw. reflexivity.
Qed.
Lemma rv_empty_object : rv "{}" (JObject []).
Proof. exists 1. intros n r Hn. destruct n as [|n]; [lia|]. reflexivity. Qed.

(** decimal numbers *)
Lemma plain_go x s : plain s -> plain (pretty_N_go x s).
Proof.
  revert s. induction (N.lt_wf_0 x) as [x _ IH]; intros s Hs. destruct (decide (0 < x)%N).
  - rewrite pretty_N_go_step by done. apply IH; [apply N.div_lt; lia|]. cbn [plain]. unfold pretty_N_char. repeat case_match; auto.
  - replace x with 0%N by lia. by rewrite pretty_N_go_0.
Qed.
Lemma plain_N (x : N) : plain (pretty x).
Proof. unfold pretty, pretty_N. case_decide; [cbn; auto|]. apply plain_go. exact I. Qed.
Lemma plain_nat (x : nat) : plain (pretty x).
Proof. exact (plain_N (N.of_nat x)). Qed.
Lemma plain_Z (x : Z) : plain (pretty x).
Proof. destruct x; [cbn; auto|exact (plain_N (N.pos p))|]. change (plain (String "-" (pretty (N.pos p)))). split_and!; [reflexivity|reflexivity|apply plain_N]. Qed.

(** linear expressions *)
Lemma insert_fresh o k v : k ∉ o.*1 -> object_insert o k v = (o ++ [(k, v)])%list.
Proof.
  induction o as [|[k' v'] o IH]; [reflexivity|]. cbn. rewrite not_elem_of_cons. intros [H1 H2]. rewrite bool_decide_eq_false_2 by congruence. rewrite IH by exact H2. reflexivity.
Qed.
Definition member (m : lin) (i : nat) : string * json := (pretty i, JString (pretty (default 0%Z (m !! i)))).
Lemma members_fold (m : lin) l : NoDup l -> (forall i, i ∈ l -> is_Some (m !! i)) -> forall o, (forall i, i ∈ l -> pretty i ∉ o.*1) ->
  res_foldl (fun o i => match m !! i with Some value => Ok (object_insert o (pretty i) (JString (pretty value))) | None => Panic end) o l = Ok (o ++ (member m <$> l))%list.
Proof.
  intros Hl. induction Hl as [|i l Hi Hl IH]; intros HM o HO; [cbn; rewrite app_nil_r; reflexivity|].
  unfold res_foldl in *. cbn [foldl res_bind]. destruct (HM i) as [v Hv]; [left|]. rewrite Hv. rewrite insert_fresh by (apply HO; left). rewrite IH.
  - rewrite <- app_assoc. cbn. unfold member at 2. rewrite Hv. reflexivity.
  - intros j Hj. apply HM. right. exact Hj.
  - intros j Hj. rewrite fmap_app, not_elem_of_app. split; [apply HO; right; exact Hj|]. cbn. rewrite elem_of_list_singleton. intros E. apply (inj pretty) in E. congruence.
Qed.
Lemma object_text (m : lin) l : rv (dump (JObject (member m <$> l))) (JObject (member m <$> l)).
Proof.
  destruct l as [|i l]; [exact rv_empty_object|]. cbn [dump]. apply rv_object.
  enough (G : forall l i, rm (commas (fun x => quoted x.1 +:+ ":" +:+ dump x.2) (member m <$> i :: l) +:+ "}") (member m <$> i :: l)) by apply G.
  clear. induction l as [|j l IH]; intros i.
  - cbn [fmap list_fmap commas]. rewrite !appA. apply (rm_last (pretty i) (quoted (pretty (default 0%Z (m !! i)))) _ ""); [apply plain_nat|apply rv_string, plain_Z|exact I].
  - specialize (IH j). change (commas (fun x => quoted x.1 +:+ ":" +:+ dump x.2) (member m <$> i :: j :: l))
      with ((quoted (pretty i) +:+ ":" +:+ quoted (pretty (default 0%Z (m !! i)))) +:+ "," +:+ commas (fun x : string * json => quoted x.1 +:+ ":" +:+ dump x.2) (member m <$> j :: l)).
    rewrite !appA. apply (rm_cons (pretty i) (quoted (pretty (default 0%Z (m !! i))))); [apply plain_nat|apply rv_string, plain_Z|exact IH].
Qed.
Lemma hashmap_ok m : exists j, hashmap_as_json m = Ok j /\ is_linear_json m j /\ rv (dump j) j.
Proof.
  unfold hashmap_as_json. set (l := merge_sort Nat.le (elements (dom m))).
  assert (HP : l ≡ₚ elements (dom m)) by apply merge_sort_Permutation.
  assert (HN : NoDup l) by (rewrite HP; apply NoDup_elements).
  assert (HM : forall i, i ∈ l <-> is_Some (m !! i)) by (intros i; rewrite HP, elem_of_elements; apply elem_of_dom).
  rewrite (members_fold m l HN) by (intros i Hi; first [apply HM; exact Hi|apply not_elem_of_nil]). cbn [res_map]. eexists. split; [reflexivity|]. cbn [app]. split; [|apply object_text].
  exists (member m <$> l). split_and!; [reflexivity| |].
  - rewrite <- list_fmap_compose. apply NoDup_fmap_2_strong; [|exact HN]. intros i j _ _ E. cbn in E. apply (inj pretty) in E. exact E.
  - intros k v. rewrite elem_of_list_fmap. split.
    + intros (i & E & Hi). injection E as -> ->. apply HM in Hi. destruct Hi as [z Hz]. exists i, z. rewrite Hz. auto.
    + intros (i & z & Hz & -> & ->). exists i. unfold member. rewrite Hz. split; [reflexivity|]. apply HM. eauto.
Qed.
Definition triple (c : constraint) : lin * lin * lin := (c_a c, c_b c, c_c c).
Lemma constraint_ok c : exists j, transform_constraint_to_json c = Ok j /\ is_row_json (triple c) j /\ rv (dump j) j.
Proof.
  unfold transform_constraint_to_json. destruct (hashmap_ok (c_a c)) as (a & -> & Ha & Ra), (hashmap_ok (c_b c)) as (b & -> & Hb & Rb), (hashmap_ok (c_c c)) as (d & -> & Hd & Rd).
  cbn [res_bind]. eexists. split; [reflexivity|]. split; [exists a, b, d; auto|]. cbn [dump commas]. apply rv_array. rewrite !appA.
  apply rl_cons; [exact Ra|]. apply rl_cons; [exact Rb|]. apply (rl_last _ _ ""); [exact Rd|exact I].
Qed.

(** the file *)
Definition separator (first : bool) : string := if first then newline else "," +:+ newline.
Fixpoint rest (l : list json) : string := match l with [] => "" | j :: l => "," +:+ newline +:+ dump j +:+ rest l end.
Lemma written_more cs : forall t, exists l, Forall2 is_row_json (triple <$> cs) l /\ Forall (fun j => rv (dump j) j) l /\ res_foldl write_json (Writer t true) cs = Ok (Writer (t +:+ rest l) true).
Proof.
  induction cs as [|c cs IH]; intros t; [exists []; split_and!; [constructor|constructor|]; cbn; rewrite app_nil; reflexivity|].
  destruct (constraint_ok c) as (j & Ej & Hj & Rj). unfold res_foldl in *. cbn [foldl res_bind]. unfold write_json at 2. rewrite Ej. cbn [res_bind]. unfold write_constraint. cbn [w_text w_flag].
  destruct (IH (t +:+ ("," +:+ newline) +:+ dump j)) as (l & Hl & Rl & E). exists (j :: l). split_and!; [constructor; assumption|constructor; assumption|]. rewrite E. cbn [rest]. rewrite !appA. reflexivity.
Qed.
Lemma newline_blank : blank newline.
Proof. cbn. auto. Qed.
Lemma rest_reads j l : rv (dump j) j -> Forall (fun j => rv (dump j) j) l -> rl (dump j +:+ rest l +:+ newline +:+ "]") (j :: l).
Proof.
  intros Hj Hl. revert j Hj. induction Hl as [|k l Hk Hl IH]; intros j Hj; cbn [rest].
  - apply rl_last; [exact Hj|exact newline_blank].
  - rewrite !appA. apply rl_cons; [exact Hj|]. apply (rl_blank newline); [exact newline_blank|]. apply IH. exact Hk.
Qed.
Lemma file_reads text l : rv ("[" +:+ text +:+ newline +:+ "]") (JArray l) ->
  is_json (("{" +:+ newline +:+ quoted "constraints" +:+ ": [") +:+ text +:+ newline +:+ "]" +:+ newline +:+ "}") (JObject [("constraints", JArray l)]).
Proof.
  intros H. assert (R : rv (("{" +:+ newline +:+ quoted "constraints" +:+ ": [") +:+ text +:+ newline +:+ "]" +:+ newline +:+ "}") (JObject [("constraints", JArray l)])).
  { rewrite !appA. apply rv_object. apply (rm_blank newline); [exact newline_blank|].
    replace (": [" +:+ text +:+ newline +:+ "]" +:+ newline +:+ "}") with (":" +:+ (" " +:+ "[" +:+ text +:+ newline +:+ "]") +:+ newline +:+ "}").
    - apply rm_last; [cbn; repeat split| |exact newline_blank]. apply (rv_blank " "); [cbn; auto|exact H].
    - rewrite !appA. reflexivity. }
  destruct R as [n0 R]. exists n0. intros n Hn. specialize (R n "" Hn). rewrite app_nil in R. exact R.
Qed.
Lemma all_written cs : exists text, res_map writer_end (res_foldl write_json writer_new cs) = Ok text /\ lists_rows text (triple <$> cs).
Proof.
  destruct cs as [|c cs].
  - eexists. split; [reflexivity|]. exists []. split; [|constructor]. apply (file_reads "" []). apply (rv_empty_array newline). exact newline_blank.
  - destruct (constraint_ok c) as (j & Ej & Hj & Rj). unfold res_foldl. cbn [foldl res_bind]. unfold write_json at 2. rewrite Ej. cbn [res_bind]. unfold write_constraint. cbn [w_text w_flag writer_new].
    destruct (written_more cs (("{" +:+ newline +:+ quoted "constraints" +:+ ": [") +:+ newline +:+ dump j)) as (l & Hl & Rl & E). unfold res_foldl in E. rewrite E. cbn [res_map].
    eexists. split; [reflexivity|]. exists (j :: l). split; [|constructor; assumption]. unfold writer_end. cbn [w_text]. rewrite (appA _ (rest l)), (appA _ (newline +:+ dump j)).
    replace ((newline +:+ dump j) +:+ rest l +:+ newline +:+ "]" +:+ newline +:+ "}") with ((newline +:+ dump j +:+ rest l) +:+ newline +:+ "]" +:+ newline +:+ "}") by (rewrite !appA; reflexivity).
    apply file_reads. apply rv_array. rewrite !appA. apply (rl_blank newline); [exact newline_blank|]. apply rest_reads; assumption.
Qed.

(** the walk *)
Lemma res_foldl_app {A B} (f : A -> B -> res A) a l l' : res_foldl f a (l ++ l')%list = res_bind (res_foldl f a l) (fun a => res_foldl f a l').
Proof.
  unfold res_foldl. rewrite foldl_app. destruct (foldl _ (Ok a) l) as [b| |]; [reflexivity|cbn [res_bind]; induction l'; auto ..].
Qed.
Lemma res_foldl_cons {A B} (f : A -> B -> res A) a b l : res_foldl f a (b :: l) = res_bind (f a b) (fun a => res_foldl f a l).
Proof. change (b :: l) with ([b] ++ l)%list. rewrite res_foldl_app. reflexivity. Qed.
Lemma visit_same fuel ko d : forall t out out' n, write_constraint_section fuel ko d t out = Ok (out', n) ->
  exists cs, out' = (out ++ cs)%list /\ forall w, json_visit_tree fuel ko d t w = res_foldl write_json w cs.
Proof.
  induction fuel as [|fuel IH]; intros t out out' n H; [discriminate|]. cbn [write_constraint_section] in H. cbn [json_visit_tree].
  destruct (get_edges d t) as [es| |] eqn:Ees; try discriminate. cbn [res_bind] in H |- *.
  assert (G : forall es o k o' k', res_foldl (fun acc e => res_bind (go_to_subtree ko d t e) (fun subtree =>
        res_map (fun '(out, n) => (out, acc.2 + n)) (write_constraint_section fuel ko d subtree acc.1))) (o, k) es = Ok (o', k') ->
    exists cs, o' = (o ++ cs)%list /\ forall w, res_foldl (fun w e => res_bind (go_to_subtree ko d t e) (fun subtree => json_visit_tree fuel ko d subtree w)) w es = res_foldl write_json w cs).
  { clear -IH. induction es as [|e es IHe]; intros o k o' k' H.
    - injection H as <- <-. exists []. split; [symmetry; apply app_nil_r|reflexivity].
    - rewrite res_foldl_cons in H. destruct (go_to_subtree ko d t e) as [t'| |] eqn:Et; cbn [res_bind] in H; try discriminate. cbn [fst snd] in H.
      destruct (write_constraint_section fuel ko d t' o) as [[o1 n1]| |] eqn:E1; cbn [res_map res_bind] in H; try discriminate.
      destruct (IH _ _ _ _ E1) as (c1 & -> & H1). destruct (IHe _ _ _ _ H) as (c2 & -> & H2). exists (c1 ++ c2)%list. split; [symmetry; apply app_assoc|].
      intros w. rewrite res_foldl_cons, Et. cbn [res_bind]. rewrite H1, res_foldl_app. destruct (res_foldl write_json w c1) as [w1| |]; [apply H2|reflexivity|reflexivity]. }
  destruct (G es _ _ _ _ H) as (cs & -> & HC). exists (t_constraints t ++ cs)%list. split; [symmetry; apply app_assoc|]. intros w. rewrite res_foldl_app.
  destruct (res_foldl write_json w (t_constraints t)) as [w1| |]; [apply HC|reflexivity|reflexivity].
Qed.
Lemma dag_json_ok fuel ko d custom i : dag_r1cs fuel ko d custom = Ok i -> exists text, dag_json fuel ko d = Ok text /\ lists_rows text (i_constraints i).
Proof.
  unfold dag_r1cs, dag_json. destruct (tree_new ko d) as [t| |]; cbn [res_bind]; try discriminate. destruct (get_main d) as [main| |]; cbn [res_bind]; try discriminate.
  destruct (write_constraint_section fuel ko d t []) as [[cs n]| |] eqn:E; cbn [res_bind]; try discriminate. intros H.
  destruct (visit_same _ _ _ _ _ _ _ E) as (cs' & Ecs & HV). cbn in Ecs. subst cs'. rewrite HV.
  assert (HI : i_constraints i = triple <$> cs).
  { destruct custom; [|injection H as <-; reflexivity]. destruct (gate_usage _) as [[u o]| |]; cbn [res_bind] in H; try discriminate.
    destruct (traverse_tree fuel ko d t []) as [data| |]; cbn [res_bind] in H; try discriminate. destruct (find_indexes o data) as [a| |]; cbn [res_bind] in H; try discriminate. injection H as <-. reflexivity. }
  rewrite HI. apply all_written.
Qed.
Lemma mapped_write m cs : forall k cs', res_imap (fun _ c => c_correspondence c m) k cs = Ok cs' ->
  forall w, res_foldl (fun w c => res_bind (c_correspondence c m) (write_json w)) w cs = res_foldl write_json w cs'.
Proof.
  induction cs as [|c cs IH]; intros k cs' H w; cbn in H; [injection H as <-; reflexivity|].
  rewrite res_foldl_cons. destruct (c_correspondence c m) as [c'| |]; cbn [res_bind] in H |- *; try discriminate.
  destruct (res_imap (fun _ c => c_correspondence c m) (S k) cs) as [cs1| |] eqn:E; cbn in H; try discriminate. injection H as <-. rewrite res_foldl_cons.
  destruct (write_json w c') as [w'| |]; [|reflexivity|reflexivity]. cbn [res_bind]. eapply IH. exact E.
Qed.
Lemma list_json_ok fuel mo l custom i : port_r1cs fuel mo l custom = Ok i -> exists text, list_json l = Ok text /\ lists_rows text (i_constraints i).
Proof.
  unfold port_r1cs, list_json. destruct (res_imap _ 0 (cl_constraints l)) as [cs| |] eqn:E; cbn [res_bind]; try discriminate.
  destruct (get_witness_as_vec mo (cl_map l)) as [ws| |]; cbn [res_bind]; try discriminate. intros H. rewrite (mapped_write _ _ _ _ E).
  assert (HI : i_constraints i = triple <$> cs).
  { destruct custom; [|injection H as <-; reflexivity]. destruct (gate_usage _) as [[u o]| |]; cbn [res_bind] in H; try discriminate.
    destruct (iterator_new _) as [it| |]; cbn [res_bind] in H; try discriminate. destruct (iterate_gates _ _ _ _ _) as [data| |]; cbn [res_bind] in H; try discriminate.
    destruct (find_indexes o data) as [a| |]; cbn [res_bind] in H; try discriminate. injection H as <-. reflexivity. }
  rewrite HI. apply all_written.
Qed.
