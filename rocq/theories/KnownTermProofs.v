(** The analysis ends: with a round for every variable that the template assigns, and one more, the rounds
    of every loop reach an end, and more rounds change nothing. *)
From stdpp Require Import prelude gmap strings.
From Coq Require Import ZArith.
From Verif Require Import EnvModel EnvProofs KnownModel KnownSpec KnownProofs.
Open Scope nat_scope.

Definition known_in (E : env) (y : string) : bool := match look (bl E) y with Some (Known, _) => true | _ => false end.
Definition measure (A : gset string) (E : env) : nat := length (List.filter (known_in E) (elements A)).
Lemma filter_le {A} (p q : A -> bool) l : (forall x, x ∈ l -> q x = true -> p x = true) -> length (List.filter q l) <= length (List.filter p l).
Proof.
  induction l as [|a l IH]; intros H; [done|]. cbn. pose proof (IH (fun x Hx => H x (elem_of_list_further _ _ _ Hx))) as K. specialize (H a (elem_of_list_here _ _)).
  destruct (q a); [rewrite H by done; cbn; lia|]. destruct (p a); cbn; lia.
Qed.
Lemma filter_lt {A} (p q : A -> bool) l : (forall x, x ∈ l -> q x = true -> p x = true) -> (exists x, x ∈ l /\ p x = true /\ q x = false) ->
  length (List.filter q l) < length (List.filter p l).
Proof.
  induction l as [|a l IH]; intros H (x & Hx & Px & Qx); [apply elem_of_nil in Hx; done|]. cbn.
  assert (H' : forall x, x ∈ l -> q x = true -> p x = true) by (intros y Hy; apply H, elem_of_list_further, Hy).
  apply elem_of_cons in Hx as [->|Hx].
  - rewrite Px, Qx. cbn. pose proof (filter_le _ _ _ H'). lia.
  - specialize (IH H' ltac:(eauto)). specialize (H a (elem_of_list_here _ _)). destruct (q a); [rewrite H by done; cbn; lia|]. destruct (p a); cbn; lia.
Qed.
Lemma measure_lt (A A' : gset string) E X E' : check_modified E X (elements A) = (true, E') -> changed Rf A' (bl E) (bl X) -> measure A E' < measure A E.
Proof.
  intros H K. apply check_modified_spec in H as (H & _ & _ & N); [|apply NoDup_elements]. rewrite list_to_set_elements_L in H.
  assert (FL : forall y i f, look (bl E) y = Some i -> look (bl X) y = Some f -> i.2 = f.2).
  { intros y i f Hi Hf. pose proof (changed_look _ _ _ _ y K) as L. rewrite Hi, Hf in L. unfold same_cell in L. case_bool_decide; [exact L|congruence]. }
  assert (LK : forall y f, y ∈ A -> look (bl X) y = Some f -> exists f', look (bl E') y = Some f' /\ Rj (bl E) y f f').
  { intros y f Y Hf. pose proof (changed_look _ _ _ _ y H) as L. rewrite Hf in L. unfold same_cell in L. destruct (look (bl E') y) as [f'|]; [|done].
    rewrite bool_decide_true in L by done. eauto. }
  apply filter_lt.
  - intros y Y%elem_of_elements Q. unfold known_in in *. destruct (look (bl E') y) as [[[] fl]|] eqn:E1; try done.
    pose proof (changed_look _ _ _ _ y H) as L. rewrite E1 in L. unfold same_cell in L. destruct (look (bl X) y) as [f|] eqn:E2; [|done].
    pose proof (changed_look _ _ _ _ y K) as L'. rewrite E2 in L'. unfold same_cell in L'. destruct (look (bl E) y) as [[[] i2]|] eqn:E3; try done.
    destruct (LK _ _ Y E2) as (f' & E4 & J). unfold Rj in J. rewrite E3 in J. subst f'. rewrite E1 in E4. injection E4 as E4. destruct f as [[] ?]; cbn in E4; done.
  - destruct (N eq_refl) as (y & i & f & Y & Hi & Hf & NE & U). exists y. split; [done|]. apply elem_of_elements in Y.
    destruct (LK _ _ Y Hf) as (f' & E4 & J). unfold Rj in J. rewrite Hi in J. subst f'. specialize (FL _ _ _ Hi Hf). unfold known_in. rewrite Hi, E4.
    destruct i as [[] ?], f as [[] ?]; cbn in *; subst; done.
Qed.

Lemma rounds_end n f E (A A' : gset string) : (forall E, f E <> Fuel) ->
  (forall E X, f E = Done X -> modified_variables X = A /\ changed Rf A' (bl E) (bl (environment X))) -> measure A E < n -> rounds n f E <> Fuel.
Proof.
  intros HF HX. revert E. induction n as [|n IH]; intros E L; [lia|]. cbn. destruct (f E) as [X| |] eqn:EX; cbn; [|done|apply HF in EX; done].
  destruct (HX _ _ EX) as [-> K]. destruct (check_modified _ _ _) as [[] E'] eqn:HC; [|done]. apply IH. pose proof (measure_lt _ _ _ _ _ HC K). lia.
Qed.
Lemma measure_le (l : list string) E : measure (list_to_set l) E <= length l.
Proof.
  unfold measure. etrans; [apply (filter_le (fun _ => true)); done|]. assert (forall {A} (l : list A), List.filter (fun _ => true) l = l) as ->.
  { intros B k. induction k; cbn; congruence. } change (length (elements (list_to_set l : gset string))) with (size (list_to_set l : gset string)).
  induction l as [|x l IH]; [done|]. cbn [list_to_set length]. destruct (decide (x ∈ (list_to_set l : gset string))).
  - replace ({[x]} ∪ list_to_set l : gset string) with (list_to_set l : gset string) by set_solver. cbn. lia.
  - rewrite size_union by set_solver. rewrite size_singleton. cbn. lia.
Qed.
Lemma bind_fuel {A B} (x : res A) (f : A -> res B) : x <> Fuel -> (forall a, x = Done a -> f a <> Fuel) -> x ≫= f <> Fuel.
Proof. destruct x; cbn; auto. Qed.
Lemma found_fuel {A} (o : option A) : found o <> Fuel. Proof. destruct o; done. Qed.
Lemma tag_fuel E e : tag_of E e <> Fuel.
Proof.
  induction e as [z|k x acc _|o args IH] using expr_ind'; cbn; [done| |].
  - destruct k; try done; [|apply found_fuel]. apply bind_fuel; [apply found_fuel|done].
  - induction IH as [|a l Ha _ IH]; [done|]. apply bind_fuel; [done|]. intros [] _; done.
Qed.
Lemma access_fuel E acc : access_tag E acc <> Fuel.
Proof. induction acc as [|[e|f] acc IH]; cbn; [done| |done]. apply bind_fuel; [apply tag_fuel|]. intros [] _; done. Qed.
Lemma index_fuel E e : unknown_index E e <> Fuel.
Proof.
  induction e as [z|k x acc _|o args IH] using expr_ind'; cbn; [done| |].
  - apply bind_fuel; [apply access_fuel|done].
  - induction IH as [|a l Ha _ IH]; [done|]. apply bind_fuel; [done|]. intros [] _; done.
Qed.
Lemma dims_fuel E dims : dims_reports E dims <> Fuel.
Proof. induction dims as [|d dims IH]; cbn; [done|]. apply bind_fuel; [apply tag_fuel|]. intros t _. apply bind_fuel; done. Qed.
Lemma iterate_fuel f l : (forall E s, s ∈ l -> f E s <> Fuel) -> forall E, iterate f E l <> Fuel.
Proof.
  induction l as [|s l IH]; intros HF E; [done|]. rewrite iterate_cons. apply bind_fuel; [apply HF; set_solver|]. intros x _.
  apply bind_fuel; [apply IH; intros; apply HF; set_solver|done].
Qed.
Lemma flat_map_length {A B} (f : A -> list B) l s : s ∈ l -> length (f s) <= length (flat_map f l).
Proof. intros H. induction H; cbn; rewrite app_length; lia. Qed.
Lemma directly_length s : length (directly s) <= length (assigned s).
Proof.
  induction s as [k x dims|k op x acc rhe|op rhe|l r|c t f IHt IHf|c b IHb|l IH|l IH|] using stmt_ind'; cbn; try done; try lia.
  - rewrite !app_length. destruct f; cbn in *; lia.
  - induction IH as [|s l H _ IH]; [done|]. cbn. rewrite !app_length. lia.
  - induction IH as [|s l H _ IH]; [done|]. cbn. rewrite !app_length. lia.
Qed.

Lemma analyze_ends fuel s : gram0 s -> length (assigned s) < fuel -> forall E, analyze fuel E s <> Fuel.
Proof.
  induction s as [k x dims|k op x acc rhe|op rhe|l r|c t f IHt IHf|c b IHb|l IH|l IH|] using stmt_ind'; intros G L E.
  - destruct k; cbn; repeat (apply bind_fuel; [apply found_fuel || apply dims_fuel || done|intros ? _]); done.
  - cbn. apply bind_fuel; [apply tag_fuel|intros t _]. apply bind_fuel; [apply access_fuel|intros a _].
    destruct k, op; try done; repeat (apply bind_fuel; [apply found_fuel || apply index_fuel|intros ? _]); done.
  - cbn. apply bind_fuel; [apply tag_fuel|intros t _]. destruct op; try done. apply bind_fuel; [apply index_fuel|done].
  - cbn. apply bind_fuel; [apply index_fuel|intros ? _]. apply bind_fuel; [apply index_fuel|done].
  - destruct G as [G|G]; [|done]. cbn in G, L. apply andb_prop in G as [G1 G2]. apply andb_prop in G1 as [_ G1]. rewrite app_length in L.
    cbn. apply bind_fuel; [apply tag_fuel|intros tc _]. apply bind_fuel; [apply IHt; [left; done|lia]|intros x _]. apply bind_fuel; [|done].
    destruct f as [f|]; [|done]. apply andb_prop in G2 as [_ G2]. apply IHf; [left; done|lia].
  - destruct G as [G|G]; [|done]. cbn in G, L. apply andb_prop in G as [G1 G2]. cbn. apply bind_fuel; [|intros x _; apply bind_fuel; [apply tag_fuel|done]].
    apply (rounds_end fuel _ E (list_to_set (directly b)) (asg b)).
    + intros E'. apply IHb; [left; done|done].
    + intros E' X H. pose proof (facts_ok _ _ _ _ H) as F. split; [apply F|]. apply F; [left; done|done].
    + pose proof (measure_le (directly b) E). pose proof (directly_length b). lia.
  - destruct G as [G|G]; [|done]. apply gram0_list in G. cbn. apply bind_fuel; [|intros x _; apply bind_fuel; [apply found_fuel|done]].
    rewrite Forall_forall in IH, G. apply iterate_fuel. intros E' s Hs. apply IH; [done|apply G; done|]. pose proof (flat_map_length assigned l s Hs). cbn in L. lia.
  - destruct G as [G|G]; [|done]. apply gram0_init in G. cbn.
    rewrite Forall_forall in IH, G. apply iterate_fuel. intros E' s Hs. apply IH; [done|apply G; done|]. pose proof (flat_map_length assigned l s Hs). cbn in L. lia.
  - done.
Qed.

(** More fuel does not change the result *)
Definition upto {A} (x y : res A) : Prop := x = Fuel \/ x = y.
Lemma upto_bind {A B} (x x' : res A) (f f' : A -> res B) : upto x x' -> (forall a, upto (f a) (f' a)) -> upto (x ≫= f) (x' ≫= f').
Proof. intros [->| ->] H; [left; done|]. destruct x'; cbn; [apply H|right; done|left; done]. Qed.
Lemma upto_refl {A} (x : res A) : upto x x. Proof. right. done. Qed.
Lemma rounds_upto n n' f f' : n <= n' -> (forall E, upto (f E) (f' E)) -> forall E, upto (rounds n f E) (rounds n' f' E).
Proof.
  intros L H. revert n' L. induction n as [|n IH]; intros n' L E; [left; done|]. destruct n' as [|n']; [lia|]. cbn. apply upto_bind; [done|]. intros x.
  destruct (check_modified _ _ _) as [[] E']; [apply IH; lia|apply upto_refl].
Qed.
Lemma iterate_upto f f' l : (forall E s, s ∈ l -> upto (f E s) (f' E s)) -> forall E, upto (iterate f E l) (iterate f' E l).
Proof.
  induction l as [|s l IH]; intros H E; [apply upto_refl|]. rewrite !iterate_cons. apply upto_bind; [apply H; set_solver|]. intros x.
  apply upto_bind; [apply IH; intros; apply H; set_solver|]. intros y. apply upto_refl.
Qed.
Lemma analyze_upto n n' s : n <= n' -> forall E, upto (analyze n E s) (analyze n' E s).
Proof.
  intros L. induction s as [k x dims|k op x acc rhe|op rhe|l r|c t f IHt IHf|c b IHb|l IH|l IH|] using stmt_ind'; intros E; try apply upto_refl; cbn.
  - apply upto_bind; [apply upto_refl|intros tc]. apply upto_bind; [apply IHt|intros x]. apply upto_bind; [destruct f; [apply IHf|apply upto_refl]|intros y; apply upto_refl].
  - apply upto_bind; [apply rounds_upto; done|intros x]. apply upto_refl.
  - rewrite Forall_forall in IH. apply upto_bind; [apply iterate_upto; intros; apply IH; done|intros x]. apply upto_refl.
  - rewrite Forall_forall in IH. apply iterate_upto. intros. apply IH. done.
Qed.
