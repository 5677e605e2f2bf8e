(** The templates found for components. *)
From stdpp Require Import prelude gmap strings.
From Coq Require Import ZArith Lia.
From Verif Require Import TypeModel TypeProofs InferenceModel PanicSpec.
Open Scope string_scope.
Open Scope list_scope.
Open Scope nat_scope.

Section program.
Context (P : program).
Definition infer1 (D : path_information) (s : stmt) : path_information := infer_component_types P s D.
Lemma infer_flat : forall s D, infer_component_types P s D = foldl infer1 D (in_order s).
Proof.
  assert (forall l, Forall (fun s => forall D, infer_component_types P s D = foldl infer1 D (in_order s)) l -> forall D,
    (fix go l D := match l with [] => D | s :: l => go l (infer_component_types P s D) end) l D = foldl infer1 D (flat_map in_order l)) as Hl.
  { induction 1 as [|s l Hs Hl IH]; intros D; [done|]. cbn [flat_map]. rewrite foldl_app, <- Hs. apply IH. }
  intros s. induction s using stmt_ind'; intros D; try done; cbn [infer_component_types in_order].
  - rewrite foldl_app, <- IHs. destruct f; [apply H|done].
  - apply IHs.
  - by apply Hl.
  - by apply Hl.
Qed.
Lemma infers_flat l : forall D, foldl (fun D s => infer_component_types P s D) D l = foldl infer1 D (flat_map in_order l).
Proof. induction l as [|s l IH]; intros D; cbn; [done|]. by rewrite foldl_app, <- infer_flat. Qed.

Lemma apply_app l1 : forall l2 m, apply_list (l1 ++ l2) m =
  let '(l1', m1) := apply_list l1 m in let '(l2', m2) := apply_list l2 m1 in (l1' ++ l2', m2).
Proof.
  induction l1 as [|s l1 IH]; intros l2 m; cbn [app].
  - cbn. by destruct (apply_list l2 m).
  - cbn [apply_list]. destruct (apply_inference s m) as [s1 m1]. fold apply_list. rewrite IH. destruct (apply_list l1 m1) as [l1' m2].
    by destruct (apply_list l2 m2).
Qed.
Definition flat_of (s : stmt) : Prop := forall m s' m', apply_inference s m = (s', m') -> apply_list (in_order s) m = (in_order s', m').
Lemma apply_flats l : Forall flat_of l -> forall m l' m', apply_list l m = (l', m') ->
  apply_list (flat_map in_order l) m = (flat_map in_order l', m').
Proof.
  induction 1 as [|s l Hs Hl IH]; intros m l' m' H; cbn [apply_list] in H.
  - by injection H as <- <-.
  - destruct (apply_inference s m) as [s1 m1] eqn:E1. fold apply_list in H. destruct (apply_list l m1) as [l2 m2] eqn:E2. injection H as <- <-.
    cbn [flat_map]. by rewrite apply_app, (Hs _ _ _ E1), (IH _ _ _ E2).
Qed.
Lemma apply_flat s : flat_of s.
Proof.
  induction s using stmt_ind'; intros m s' m' Ha; cbn [apply_inference] in Ha.
  - destruct (apply_inference s m) as [s1 m1] eqn:E1. specialize (IHs _ _ _ E1). cbn [in_order]. destruct f as [f|].
    + destruct (apply_inference f m1) as [f1 m2] eqn:E2. injection Ha as <- <-. cbn [in_order]. by rewrite apply_app, IHs, (H _ _ _ E2).
    + injection Ha as <- <-. cbn [in_order]. by rewrite !app_nil_r.
  - destruct (apply_inference s m) as [s1 m1] eqn:E1. injection Ha as <- <-. exact (IHs _ _ _ E1).
  - by injection Ha as <- <-.
  - match type of Ha with (let '(_, _) := ?x in _) = _ => change x with (apply_list l m) in Ha end.
    destruct (apply_list l m) as [l1 m1] eqn:E1. injection Ha as <- <-. by apply (apply_flats l).
  - destruct k as [|io|c]; by injection Ha as <- <-.
  - by injection Ha as <- <-.
  - by injection Ha as <- <-.
  - by injection Ha as <- <-.
  - by injection Ha as <- <-.
  - match type of Ha with (let '(_, _) := ?x in _) = _ => change x with (apply_list l m) in Ha end.
    destruct (apply_list l m) as [l1 m1] eqn:E1. injection Ha as <- <-. by apply (apply_flats l).
  - by injection Ha as <- <-.
Qed.

(** simple statements *)
Lemma in_order_simple : forall s, Forall (fun s => is_simple s = true) (in_order s).
Proof.
  assert (forall l, Forall (fun s => Forall (fun s => is_simple s = true) (in_order s)) l -> Forall (fun s => is_simple s = true) (flat_map in_order l)) as Hl.
  { induction 1; [constructor|]. cbn. by apply Forall_app. }
  intros s. induction s using stmt_ind'; cbn [in_order]; try first [by apply Hl | by apply Forall_nil | by apply Forall_singleton]; [|done].
  apply Forall_app. split; [done|]. destruct f; [done|constructor].
Qed.
Lemma into_spec e : into_template_inference P e = instantiated P e.
Proof. induction e; cbn; try done; congruence. Qed.

Lemma infer_before l : forall D x, Forall (fun s => is_simple s = true) l -> (forall k ds, Declaration (KComponent k) x ds ∉ l) ->
  x ∉ declared D -> environment D !! x = None ->
  x ∉ declared (foldl infer1 D l) /\ environment (foldl infer1 D l) !! x = None.
Proof.
  induction l as [|s l IH]; intros D x Hs Hx Hd He; [done|]. apply Forall_cons in Hs as [Hs1 Hs2]. cbn [foldl].
  assert (forall k ds, Declaration (KComponent k) x ds ∉ l) as Hx' by (intros k ds Hin; apply (Hx k ds); by right).
  apply IH; [done|done| |]; unfold infer1.
  - destruct s; cbn in Hs1; try done; cbn [infer_component_types].
    + destruct k; try done. cbn. intros [->%elem_of_singleton|]%elem_of_union; [|done]. eapply Hx. by left.
    + destruct (decide _); [|done]. by destruct (into_template_inference P e).
  - destruct s; cbn in Hs1; try done; cbn [infer_component_types].
    + by destruct k.
    + destruct (decide (x0 ∈ declared D)); [|done]. destruct (into_template_inference P e); [|done]. cbn.
      rewrite lookup_insert_ne; [done|]. by intros ->.
Qed.
Lemma last_cons_default {A} (a : A) l : last (a :: l) = match last l with Some b => Some b | None => Some a end.
Proof. rewrite last_cons. by destruct (last l). Qed.
Lemma infer_after l : forall D x, Forall (fun s => is_simple s = true) l -> x ∈ declared D ->
  environment (foldl infer1 D l) !! x = match last (omap (instance_of P x) l) with Some t => Some t | None => environment D !! x end.
Proof.
  induction l as [|s l IH]; intros D x Hs Hd; [done|]. apply Forall_cons in Hs as [Hs1 Hs2]. cbn [foldl].
  rewrite IH; [|done|].
  2: { unfold infer1. destruct s; cbn in Hs1; try done; cbn [infer_component_types].
       - destruct k; try done. cbn. apply elem_of_union. by right.
       - destruct (decide _); [|done]. by destruct (into_template_inference P e). }
  cbn [omap list_omap]. unfold infer1.
  destruct s; cbn in Hs1; try done; cbn [infer_component_types instance_of].
  - by destruct k.
  - change (instantiated P e) with (into_template_inference P e). destruct (decide (x = x0)) as [<-|Hne].
    + destruct (decide (x ∈ declared D)); [|done]. destruct (into_template_inference P e) as [t|]; [|done].
      rewrite last_cons_default. cbn. rewrite lookup_insert. by destruct (last _).
    + destruct (decide (x0 ∈ declared D)); [|done]. destruct (into_template_inference P e); [|done]. cbn. by rewrite lookup_insert_ne.
Qed.
Lemma apply_before l : forall m x l' m', Forall (fun s => is_simple s = true) l -> (forall k ds, Declaration (KComponent k) x ds ∉ l) ->
  apply_list l m = (l', m') -> m' !! x = m !! x /\ length l' = length l.
Proof.
  induction l as [|s l IH]; intros m x l' m' Hs Hx H; cbn [apply_list] in H; [by injection H as <- <-|].
  destruct (apply_inference s m) as [s1 m1] eqn:E1. fold apply_list in H. destruct (apply_list l m1) as [l2 m2] eqn:E2. injection H as <- <-.
  apply Forall_cons in Hs as [Hs1 Hs2]. destruct (IH m1 x l2 m2 Hs2) as [H1 H2]; [intros k ds Hin; apply (Hx k ds); by right|done|].
  split; [|cbn; by rewrite H2]. rewrite H1. destruct s; cbn in Hs1; try done; cbn [apply_inference] in E1; [|by injection E1 as <- <-].
  destruct k; injection E1 as <- <-; try done. rewrite lookup_delete_ne; [done|]. intros ->. eapply Hx. by left.
Qed.
Lemma inferred T x k ds l1 l2 : flat_map in_order (body T) = l1 ++ Declaration (KComponent k) x ds :: l2 ->
  (forall k' ds', Declaration (KComponent k') x ds' ∉ l1) ->
  exists l1' l2', flat_map in_order (body (infer_template P T)) =
    l1' ++ Declaration (KComponent (last (omap (instance_of P x) l2))) x ds :: l2' /\ length l1' = length l1 /\ length l2' = length l2.
Proof.
  intros EB Hx. unfold infer_template. cbn [body].
  destruct (apply_list (body T) _) as [l m] eqn:E. cbn.
  assert (Forall flat_of (body T)) as HF by (apply Forall_forall; intros; apply apply_flat).
  apply (apply_flats _ HF) in E. rewrite infers_flat, EB in E.
  assert (Forall (fun s => is_simple s = true) (flat_map in_order (body T))) as HS.
  { clear. induction (body T); [constructor|]. cbn. apply Forall_app. split; [apply in_order_simple|done]. }
  rewrite EB in HS. apply Forall_app in HS as [HS1 HS2]. apply Forall_cons in HS2 as [_ HS2].
  rewrite foldl_app in E. cbn [foldl] in E. set (D1 := foldl infer1 (PathInformation ∅ ∅) l1) in *.
  destruct (infer_before l1 (PathInformation ∅ ∅) x HS1 Hx) as [HD1 HD2]; [by apply not_elem_of_empty|done|]. fold D1 in HD1, HD2.
  set (D2 := infer1 D1 (Declaration (KComponent k) x ds)) in *.
  assert (environment (foldl infer1 D2 l2) !! x = last (omap (instance_of P x) l2)) as Hlast.
  { rewrite infer_after; [|done|]. - cbn. rewrite HD2. by destruct (last _). - cbn. apply elem_of_union. left. by apply elem_of_singleton. }
  rewrite apply_app in E. destruct (apply_list l1 _) as [l1' m1] eqn:E1. destruct (apply_before _ _ x _ _ HS1 Hx E1) as [H1 H2].
  cbn [apply_list apply_inference] in E. fold apply_list in E. destruct (apply_list l2 (delete x m1)) as [l2' m2] eqn:E2. injection E as <- <-.
  exists l1', l2'. rewrite H1, Hlast. split; [done|]. split; [done|].
  clear -E2. revert l2' m2 E2. generalize (delete x m1). induction l2 as [|s l2 IH]; intros m0 l2' m2 E; cbn [apply_list] in E; [by injection E as <- <-|].
  destruct (apply_inference s m0) as [s1 m3]. fold apply_list in E. destruct (apply_list l2 m3) as [l4 m4] eqn:E4. injection E as <- <-. cbn. f_equal. by eapply IH.
Qed.
End program.
