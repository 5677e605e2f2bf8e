(** Proofs for C67: the environment of the execution. *)
From stdpp Require Import prelude gmap numbers list strings.
From Verif Require Import ScopeModel ScopeSpec ScopeProofs ScopePathProofs.
Local Open Scope nat_scope.

(** ** Blocks are closed once *)
Fixpoint deep (d : nat) (tr : list event) : option nat :=
  match tr with
  | [] => Some d
  | Open :: tr => deep (S d) tr
  | Close :: tr => match d with 0 => None | S d => deep d tr end
  | _ :: tr => deep d tr
  end.
Lemma deep_app a b d : deep d (a ++ b) = match deep d a with Some d => deep d b | None => None end.
Proof. revert d. induction a as [|v a IH]; intros d; cbn; [done|]. destruct v; auto. by destruct d. Qed.
Lemma deep_neutral tr d : Forall neutral tr -> deep d tr = Some d.
Proof. induction 1 as [|v tr Hv _ IH]; [done|]. by destruct v. Qed.
Lemma deep_path : (forall s tr, path_s s tr -> forall d, deep d tr = Some d) /\ (forall l tr, path_ss l tr -> forall d, deep d tr = Some d).
Proof.
  assert (forall e tr d, path_e e tr -> deep d tr = Some d) as He by (intros; apply deep_neutral; by eapply (proj1 path_neutral)).
  assert (forall e tr d, path_es e tr -> deep d tr = Some d) as Hes by (intros; apply deep_neutral; by eapply (proj1 (proj2 path_neutral))).
  assert (forall e tr d, path_acc e tr -> deep d tr = Some d) as Ha by (intros; apply deep_neutral; by eapply (proj2 (proj2 path_neutral))).
  apply path_s_all; intros; cbn; rewrite ?deep_app; eauto.
  - erewrite He by done. cbn. eauto.
  - erewrite He by done. eauto.
  - erewrite Hes by done. done.
  - rewrite H0. done.
  - erewrite He by done. rewrite deep_app, H1. auto.
  - erewrite He by done. auto.
  - erewrite He by done. auto.
  - rewrite H0. auto.
Qed.
Lemma deep_def d tr n : path_d d tr -> deep n tr = Some n.
Proof.
  intros H. inversion H; subst. rewrite deep_app. assert (deep n (Declare KVar <$> params d) = Some n) as ->.
  { clear. induction (params d) as [|p ps IH]; [done|]. exact IH. }
  by eapply (proj2 deep_path).
Qed.
Lemma steps_app a b n E : steps n (a ++ b) E = E' ← steps n a E; steps (n + length a) b E'.
Proof.
  revert n E. induction a as [|v a IH]; intros n E; cbn; [by rewrite Nat.add_0_r|]. destruct (step n v E) as [E'|]; cbn; [|done].
  rewrite IH. by replace (S n + length a) with (n + S (length a)) by lia.
Qed.
Lemma steps_run tr : forall d d' n E, deep d tr = Some d' -> length (variables E) = S d -> exists E', steps n tr E = Some E' /\ length (variables E') = S d'.
Proof.
  induction tr as [|v tr IH]; intros d d' n E Hd HE; cbn in *; [injection Hd as <-; eauto|].
  assert (forall E1 d1, step n v E = Some E1 -> deep d1 tr = Some d' -> length (variables E1) = S d1 ->
    exists E', (E' ← step n v E; steps (S n) tr E') = Some E' /\ length (variables E') = S d') as Hgo.
  { intros E1 d1 -> H2 H3. cbn. by eapply IH. }
  destruct E as [vs si so sm bi bo bm cs]. cbn in HE. destruct vs as [|b vs]; [done|]. destruct v as [| |[| [] | | [] ? ?] x| | | |]; cbn [step] in Hgo.
  all: try (eapply Hgo; [reflexivity|exact Hd|cbn in *; lia]).
  destruct d as [|d]; [done|]. eapply Hgo; [reflexivity|exact Hd|cbn in *; lia].
Qed.
Lemma prefix_run d tr i : path_d d tr -> exists E, steps 0 (take i tr) new_environment = Some E.
Proof.
  intros H. destruct (steps_run tr 0 0 0 new_environment) as (E & HE & _); [by eapply deep_def|done|].
  rewrite <-(take_drop i tr), steps_app in HE. destruct (steps 0 (take i tr) new_environment) as [E'|]; [eauto|done].
Qed.

(** ** What the environment contains *)
Definition last_at (tr : list event) (Q : nat -> Prop) (j : nat) : Prop := Q j /\ forall j', j < j' -> ~ Q j'.
Definition is (tr : list event) (k : kind -> Prop) (x : string) (j : nat) : Prop := exists k', k k' /\ tr !! j = Some (Declare k' x).
Definition var_at (tr : list event) (l : nat) (x : string) (j : nat) : Prop :=
  tr !! j = Some (Declare KVar x) /\ still_open tr j (length tr) /\ net tr j (length tr) = Z.of_nat l.
Lemma last_unique tr Q j j' : last_at tr Q j -> last_at tr Q j' -> j = j'.
Proof. intros [H1 H2] [H3 H4]. destruct (lt_eq_lt_dec j j') as [[?|?]|?]; [|done|]; exfalso; [by eapply H2|by eapply H4]. Qed.
Definition holds (tr : list event) (m : gmap string nat) (k : kind -> Prop) : Prop := forall x,
  match m !! x with Some j => last_at tr (is tr k x) j | None => forall j, ~ is tr k x j end.
Definition signal_is (t : io) (k : kind) : Prop := k = KSignal t.
Definition bus_is (t : io) (k : kind) : Prop := exists b tags, k = KBus t b tags.
Definition vlook (vs : list (gmap string nat)) (l : nat) (x : string) : option nat := match vs !! l with Some b => b !! x | None => None end.
Record contains (tr : list event) (E : environment) : Prop := {
  c_vars : forall l x, match vlook (variables E) l x with Some j => last_at tr (var_at tr l x) j | None => forall j, ~ var_at tr l x j end;
  c_si : holds tr (signal_inputs E) (signal_is Input);
  c_so : holds tr (signal_outputs E) (signal_is Output);
  c_sm : holds tr (signal_intermediates E) (signal_is Intermediate);
  c_bi : holds tr (bus_inputs E) (bus_is Input);
  c_bo : holds tr (bus_outputs E) (bus_is Output);
  c_bm : holds tr (bus_intermediates E) (bus_is Intermediate);
  c_cs : holds tr (components E) (fun k => k = KComponent) }.
Lemma is_app tr v k x j : is (tr ++ [v]) k x j <-> is tr k x j \/ j = length tr /\ exists k', k k' /\ v = Declare k' x.
Proof.
  unfold is. split.
  - intros (k' & Hk & H). apply lookup_app_Some in H as [H|[Hl H]]; [eauto|]. right. destruct (j - length tr) as [|n] eqn:En; [|by destruct n].
    cbn in H. injection H as ->. split; [lia|eauto].
  - intros [(k' & Hk & H)|[-> (k' & Hk & ->)]]; exists k'; (split; [done|]); [by apply lookup_app_l_Some|]. by rewrite list_lookup_middle.
Qed.
Lemma is_lt tr k x j : is tr k x j -> j < length tr.
Proof. intros (k' & _ & H). by eapply lookup_lt_Some. Qed.
Lemma holds_other tr v m k : (forall k' x, v = Declare k' x -> ~ k k') -> holds tr m k -> holds (tr ++ [v]) m k.
Proof.
  intros Hv H x. assert (forall j, is (tr ++ [v]) k x j <-> is tr k x j) as Hi.
  { intros j. rewrite is_app. split; [|by left]. intros [?|(_ & k' & Hk & ->)]; [done|]. exfalso. by eapply Hv. }
  specialize (H x). destruct (m !! x) as [j|].
  - destruct H as [H1 H2]. split; [by apply Hi|]. intros j' Hj. rewrite Hi. auto.
  - intros j. rewrite Hi. auto.
Qed.
Lemma holds_new tr m (k : kind -> Prop) k' y : k k' -> holds tr m k -> holds (tr ++ [Declare k' y]) (<[y := length tr]> m) k.
Proof.
  intros Hk H x. destruct (decide (x = y)) as [->|Hne].
  - rewrite lookup_insert. split; [apply is_app; right; eauto|]. intros j' Hj Hi. apply is_app in Hi as [?%is_lt|[? _]]; lia.
  - rewrite lookup_insert_ne by done. assert (forall j, is (tr ++ [Declare k' y]) k x j <-> is tr k x j) as Hi.
    { intros j. rewrite is_app. split; [|by left]. intros [?|(_ & k2 & _ & [= -> ->])]; done. }
    specialize (H x). destruct (m !! x) as [j|].
    + destruct H as [H1 H2]. split; [by apply Hi|]. intros j' Hj. rewrite Hi. auto.
    + intros j. rewrite Hi. auto.
Qed.
Lemma var_at_app tr v l x j : var_at (tr ++ [v]) l x j <->
  match v with
  | Open => exists l', l = S l' /\ var_at tr l' x j
  | Close => var_at tr (S l) x j
  | Declare KVar y => var_at tr l x j \/ l = 0 /\ x = y /\ j = length tr
  | _ => var_at tr l x j
  end.
Proof.
  assert (var_at (tr ++ [v]) l x j <-> (tr !! j = Some (Declare KVar x) /\ still_open tr j (length tr) /\ (net tr j (length tr) + weight v)%Z = Z.of_nat l)
    \/ l = 0 /\ v = Declare KVar x /\ j = length tr) as ->.
  { unfold var_at. rewrite app_length. cbn. replace (length tr + 1) with (S (length tr)) by lia. split.
    - intros (Hd & Ho & Hn). apply lookup_app_Some in Hd as [Hd|[Hl Hd]].
      + left. assert (Hl := lookup_lt_Some _ _ _ Hd). rewrite net_app in Hn by lia. apply open_app in Ho as [Ho _]; [|lia]. done.
      + right. destruct (j - length tr) as [|n] eqn:En; [|by destruct n]. cbn in Hd. injection Hd as ->. assert (j = length tr) as -> by lia.
        rewrite net_app, net_same in Hn by lia. cbn in Hn. split; [lia|done].
    - intros [(Hd & Ho & Hn)|(-> & -> & ->)].
      + assert (Hl := lookup_lt_Some _ _ _ Hd). split; [by apply lookup_app_l_Some|]. split; [apply open_app; [lia|]; split; [done|lia]|].
        rewrite net_app by lia. done.
      + split; [by rewrite list_lookup_middle|]. split; [apply open_app; [lia|]; split; [|rewrite net_same; done]|].
        * split; [lia|]. intros m Hm. replace m with (length tr) by lia. by rewrite net_same.
        * rewrite net_app, net_same by lia. done. }
  unfold var_at. destruct v as [| |[] y| | | |]; cbn; rewrite ?Z.add_0_r; split.
  all: try (intros [H|(_ & H & _)]; [done|discriminate H]).
  all: try (by left).
  - intros [(Hd & Ho & Hn)|(_ & H & _)]; [|done]. assert (0 <= net tr j (length tr))%Z by (apply Ho; destruct Ho; lia).
    exists (Z.to_nat (net tr j (length tr))). split; [lia|]. repeat split; [done|apply Ho..|lia].
  - intros (l' & -> & Hd & Ho & Hn). left. split; [done|]. split; [done|lia].
  - intros [(Hd & Ho & Hn)|(_ & H & _)]; [|done]. split; [done|]. split; [done|lia].
  - intros (Hd & Ho & Hn). left. split; [done|]. split; [done|lia].
  - intros [H|(-> & [= ->] & ->)]; [by left|by right].
  - intros [H|(-> & -> & ->)]; [by left|by right].
Qed.
Lemma last_iff tr tr' (Q Q' : nat -> Prop) j : (forall j, Q j <-> Q' j) -> last_at tr Q j -> last_at tr' Q' j.
Proof. intros H [H1 H2]. split; [by apply H|]. intros j' Hj. rewrite <-H. auto. Qed.
Ltac var_same Hv := let l := fresh in let x := fresh in intros l x; specialize (Hv l x); destruct (vlook _ l x);
  [eapply last_iff; [|exact Hv]; intros; by rewrite var_at_app|intros; rewrite var_at_app; auto].
Lemma contains_step tr v E E' : contains tr E -> step (length tr) v E = Some E' -> contains (tr ++ [v]) E'.
Proof.
  destruct E as [vs si so sm bi bo bm cs]. intros [Hv H1 H2 H3 H4 H5 H6 H7] Hs. cbn in *.
  assert (forall m k, (forall k' x, v = Declare k' x -> ~ k k') -> holds tr m k -> holds (tr ++ [v]) m k) as Ho by (intros; by apply holds_other).
  destruct v as [| |[| [] | | [] ? ?] y| | | |].
  1: injection Hs as <-; split; cbn; try (apply Ho; [done|done]); intros [|l] x.
  1: cbn; rewrite lookup_empty; intros j Hj; apply var_at_app in Hj as (l' & ? & _); done.
  1: { specialize (Hv l x). change (vlook (∅ :: vs) (S l) x) with (vlook vs l x). destruct (vlook vs l x).
       - eapply last_iff; [|exact Hv]. intros j. rewrite var_at_app. split; [eauto|]. by intros (l' & [= <-] & ?).
       - intros j Hj. apply var_at_app in Hj as (l' & [= <-] & Hj). by eapply Hv. }
  1: destruct vs as [|b vs]; [done|]; injection Hs as <-; split; cbn; try (apply Ho; [done|done]); intros l x; specialize (Hv (S l) x); change (vlook (b :: vs) (S l) x) with (vlook vs l x) in Hv; destruct (vlook vs l x);
    [eapply last_iff; [|exact Hv]; intros; by rewrite var_at_app|intros; rewrite var_at_app; auto].
  1: destruct vs as [|b vs]; [done|]; injection Hs as <-; split; cbn; try (apply Ho; [intros ? ? [= <- <-]; unfold signal_is, bus_is; naive_solver|done]); intros [|l] x.
  1: { specialize (Hv 0 x). cbn in Hv |- *. destruct (decide (x = y)) as [->|Hne].
       - rewrite lookup_insert. split; [apply var_at_app; by right|]. intros j' Hj Hi. apply var_at_app in Hi as [(Hi & _)|(_ & _ & ?)]; [|lia]. apply lookup_lt_Some in Hi. lia.
       - rewrite lookup_insert_ne by done. destruct (b !! x).
         + eapply last_iff; [|exact Hv]. intros. rewrite var_at_app. split; [by left|]. by intros [?|(_ & ? & _)].
         + intros j [Hj|(_ & ? & _)]%var_at_app; [|done]. by eapply Hv. }
  1: { specialize (Hv (S l) x). change (vlook (<[y:=length tr]> b :: vs) (S l) x) with (vlook (b :: vs) (S l) x). destruct (vlook (b :: vs) (S l) x).
       - eapply last_iff; [|exact Hv]. intros. rewrite var_at_app. split; [by left|]. by intros [?|(? & _)].
       - intros j [Hj|(? & _)]%var_at_app; [|done]. by eapply Hv. }
  all: injection Hs as <-; split; cbn; try (apply Ho; [done|done]); try (apply Ho; [intros ? ? [= <- <-]; unfold signal_is, bus_is; naive_solver|done]);
    try (apply holds_new; [unfold signal_is, bus_is; by eauto|done]); try (var_same Hv).
Qed.
Lemma contains_start : contains [] new_environment.
Proof.
  assert (forall k, holds [] ∅ k) as H by (intros k x; rewrite lookup_empty; by intros j (? & _ & ?)).
  split; try apply H. intros [|l] x; cbn; rewrite ?lookup_empty; by intros j (? & _).
Qed.
Lemma contains_steps tr E : steps 0 tr new_environment = Some E -> contains tr E.
Proof.
  revert E. induction tr as [|v tr IH] using rev_ind; intros E H; [injection H as <-; apply contains_start|].
  rewrite steps_app in H. destruct (steps 0 tr new_environment) as [E'|] eqn:HE; [|done]. cbn in H. destruct (step (length tr) v E') as [E2|] eqn:Hs; [|done].
  injection H as <-. eapply contains_step; eauto.
Qed.

(** ** Lookups *)
Lemma holds_case tr m k x : holds tr m k -> match m !! x with Some j => is tr k x j | None => forall j, ~ is tr k x j end.
Proof. intros H. specialize (H x). destruct (m !! x); [apply H|done]. Qed.
Lemma get_signal_spec tr E x : contains tr E -> match get_signal E x with
  | Some j => exists t, tr !! j = Some (Declare (KSignal t) x) | None => forall j t, tr !! j <> Some (Declare (KSignal t) x) end.
Proof.
  intros [_ H1 H2 H3 _ _ _ _]. apply (holds_case _ _ _ x) in H1, H2, H3. unfold get_signal.
  destruct (signal_inputs E !! x) as [j|]; cbn; [destruct H1 as (k & -> & ?); eauto|].
  destruct (signal_outputs E !! x) as [j|]; cbn; [destruct H2 as (k & -> & ?); eauto|].
  destruct (signal_intermediates E !! x) as [j|]; cbn; [destruct H3 as (k & -> & ?); eauto|].
  intros j [] Hj; [eapply H1|eapply H2|eapply H3]; eexists; (split; [|exact Hj]); done.
Qed.
Lemma get_bus_spec tr E x : contains tr E -> match get_bus E x with
  | Some j => exists t b tags, tr !! j = Some (Declare (KBus t b tags) x) | None => forall j t b tags, tr !! j <> Some (Declare (KBus t b tags) x) end.
Proof.
  intros [_ _ _ _ H1 H2 H3 _]. apply (holds_case _ _ _ x) in H1, H2, H3. unfold get_bus.
  destruct (bus_inputs E !! x) as [j|]; cbn; [destruct H1 as (k & (b & tags & ->) & ?); eauto|].
  destruct (bus_outputs E !! x) as [j|]; cbn; [destruct H2 as (k & (b & tags & ->) & ?); eauto|].
  destruct (bus_intermediates E !! x) as [j|]; cbn; [destruct H3 as (k & (b & tags & ->) & ?); eauto|].
  intros j [] b tags Hj; [eapply H1|eapply H2|eapply H3]; eexists; (split; [|exact Hj]); unfold bus_is; eauto.
Qed.
Lemma get_component_spec tr E x : contains tr E -> match get_component E x with
  | Some j => tr !! j = Some (Declare KComponent x) | None => forall j, tr !! j <> Some (Declare KComponent x) end.
Proof.
  intros [_ _ _ _ _ _ _ H]. apply (holds_case _ _ _ x) in H. unfold get_component. destruct (components E !! x) as [j|]; [by destruct H as (k & -> & ?)|].
  intros j Hj. eapply H. by eexists.
Qed.
Lemma get_variable_in_spec vs x : match get_variable_in vs x with
  | Some j => exists l, vlook vs l x = Some j /\ forall l', l' < l -> vlook vs l' x = None | None => forall l, vlook vs l x = None end.
Proof.
  induction vs as [|b vs IH]; cbn; [by intros [|l]|]. destruct (b !! x) as [j|] eqn:Eb.
  - exists 0. split; [done|lia].
  - destruct (get_variable_in vs x) as [j|].
    + destruct IH as (l & Hl & Hn). exists (S l). split; [done|]. intros [|l'] Hl'; [done|]. apply Hn. lia.
    + intros [|l]; [done|]. apply IH.
Qed.
Lemma get_variable_spec tr E x : contains tr E -> match get_variable E x with
  | Some j => exists l, last_at tr (var_at tr l x) j /\ forall l' j', l' < l -> ~ var_at tr l' x j' | None => forall l j, ~ var_at tr l x j end.
Proof.
  intros [H _ _ _ _ _ _ _]. unfold get_variable. assert (Hs := get_variable_in_spec (variables E) x). destruct (get_variable_in (variables E) x) as [j|].
  - destruct Hs as (l & Hl & Hn). exists l. split; [specialize (H l x); by rewrite Hl in H|]. intros l' j' Hl'. specialize (H l' x). rewrite (Hn l' Hl') in H. apply H.
  - intros l. specialize (H l x). by rewrite Hs in H.
Qed.
Lemma var_at_visible tr x j i : i <= length tr -> tr !! j = Some (Declare KVar x) -> visible tr x j i -> var_at (take i tr) (Z.to_nat (net tr j i)) x j.
Proof.
  intros Hi Hd (Hj & _ & Ho). unfold var_at. rewrite lookup_take, take_length_le by done. split; [done|]. split; [by apply open_take|].
  rewrite net_take by done. rewrite Z2Nat.id; [done|]. apply Ho. lia.
Qed.
Lemma var_at_back tr x l j i : i <= length tr -> var_at (take i tr) l x j -> tr !! j = Some (Declare KVar x) /\ visible tr x j i /\ net tr j i = Z.of_nat l.
Proof.
  intros Hi (Hd & Ho & Hn). rewrite take_length_le in Ho, Hn by done. assert (Hl := lookup_lt_Some _ _ _ Hd). rewrite take_length_le in Hl by done.
  rewrite lookup_take in Hd by done. split; [done|]. split; [split; [done|]; split; [by exists KVar|by apply open_take]|]. by rewrite net_take in Hn.
Qed.
Definition all_lookups (E : environment) (x : string) (Q : nat -> Prop) : Prop :=
  forall f, f ∈ [when_read; when_written; when_typed; when_translated] -> exists j, f E x = Some j /\ Q j.
Lemma found tr i E x j0 : i <= length tr -> steps 0 (take i tr) new_environment = Some E -> visible tr x j0 i ->
  all_lookups E x (fun j => declares tr j x /\ j < i).
Proof.
  intros Hi HE Hv. apply contains_steps in HE. assert (H1 := get_signal_spec _ _ x HE). assert (H2 := get_bus_spec _ _ x HE).
  assert (H3 := get_component_spec _ _ x HE). assert (H4 := get_variable_spec _ _ x HE).
  set (Q := fun j => declares tr j x /\ j < i).
  assert (forall j k, take i tr !! j = Some (Declare k x) -> Q j) as HQ.
  { intros j k H. assert (Hl := lookup_lt_Some _ _ _ H). rewrite take_length_le in Hl by done. rewrite lookup_take in H by done. split; [by exists k|done]. }
  assert (from_option Q True (get_signal E x)) as Q1 by (destruct (get_signal E x); [destruct H1; by eapply HQ|done]).
  assert (from_option Q True (get_bus E x)) as Q2 by (destruct (get_bus E x); [destruct H2 as (?&?&?&?); by eapply HQ|done]).
  assert (from_option Q True (get_component E x)) as Q3 by (destruct (get_component E x); [by eapply HQ|done]).
  assert (from_option Q True (get_variable E x)) as Q4 by (destruct (get_variable E x); [destruct H4 as (l & [(?&_) _] & _); by eapply HQ|done]).
  assert (is_Some (get_signal E x) \/ is_Some (get_bus E x) \/ is_Some (get_component E x) \/ is_Some (get_variable E x)) as Hs.
  { destruct (get_signal E x) as [?|]; [left; eauto|]. destruct (get_bus E x) as [?|]; [right; left; eauto|]. destruct (get_component E x) as [?|]; [right; right; left; eauto|].
    destruct (get_variable E x) as [?|]; [right; right; right; eauto|]. exfalso. destruct (Hv) as (Hj & [k Hk] & Ho). assert (take i tr !! j0 = Some (Declare k x)) as Hk' by (by rewrite lookup_take).
    destruct k as [|t| |t b tags]; [|by eapply H1|by eapply H3|by eapply H2]. eapply H4. by apply var_at_visible. }
  intros f Hf. unfold when_read, when_written, when_typed, when_translated in Hf. repeat (apply elem_of_cons in Hf as [->|Hf]); [..|by apply elem_of_nil in Hf].
  all: destruct (get_signal E x) as [?|], (get_bus E x) as [?|], (get_component E x) as [?|], (get_variable E x) as [?|]; cbn in *; eauto.
  all: exfalso; destruct Hs as [[? ?]|[[? ?]|[[? ?]|[? ?]]]]; done.
Qed.
Lemma resolved tr i E x j0 : i <= length tr -> steps 0 (take i tr) new_environment = Some E -> own_name (take i tr) x -> visible tr x j0 i ->
  exists j, refers_to tr x i j /\ forall f, f ∈ [when_read; when_written; when_typed; when_translated] -> f E x = Some j.
Proof.
  intros Hi HE Hown Hv. apply contains_steps in HE. assert (H1 := get_signal_spec _ _ x HE). assert (H2 := get_bus_spec _ _ x HE).
  assert (H3 := get_component_spec _ _ x HE). assert (H4 := get_variable_spec _ _ x HE).
  destruct (Hv) as (Hj & [k Hk] & Ho). assert (take i tr !! j0 = Some (Declare k x)) as Hk' by (by rewrite lookup_take).
  assert (k = KVar \/ k <> KVar) as [->|Hne] by (destruct k; [by left|by right..]).
  - (* only variables *)
    assert (forall j k, take i tr !! j = Some (Declare k x) -> k = KVar) as Hall.
    { intros j k Hjk. destruct (decide (j = j0)) as [->|Hn]; [congruence|]. by apply (Hown j j0 k KVar). }
    assert (get_signal E x = None) as E1 by (destruct (get_signal E x); [destruct H1 as [? H1]; by apply Hall in H1|done]).
    assert (get_bus E x = None) as E2 by (destruct (get_bus E x); [destruct H2 as (?&?&?&H2); by apply Hall in H2|done]).
    assert (get_component E x = None) as E3 by (destruct (get_component E x); [by apply Hall in H3|done]).
    destruct (get_variable E x) as [j|] eqn:E4; [|exfalso; eapply H4; by apply var_at_visible].
    exists j. split.
    + destruct H4 as (l & [Hl Hlast] & Hmin). apply var_at_back in Hl as (Hd & Hvj & Hn); [|done]. split; [done|]. intros j' Hj' Hv'.
      assert (tr !! j' = Some (Declare KVar x)) as Hd'.
      { destruct (Hv') as (Hlt & [k Hk2] & _). rewrite <-(Hall j' k); [done|]. by rewrite lookup_take. }
      assert (Ha := var_at_visible _ _ _ _ Hi Hd' Hv'). destruct (Hv') as (Hlt & _ & Ho'). destruct Hvj as (_ & _ & Hoj).
      assert (0 <= net tr j' i)%Z by (apply Ho'; lia). assert (0 <= net tr j j')%Z by (apply Hoj; lia). rewrite (net_split tr j j' i) in Hn by lia.
      destruct (decide (Z.to_nat (net tr j' i) = l)) as [<-|Hnl]; [by eapply Hlast|]. eapply (Hmin (Z.to_nat (net tr j' i))); [lia|done].
    + intros f Hf. unfold when_read, when_written, when_typed, when_translated in Hf. repeat (apply elem_of_cons in Hf as [->|Hf]); [..|by apply elem_of_nil in Hf].
      all: by rewrite ?E1, ?E2, ?E3, ?E4.
  - (* declared once *)
    assert (forall j k', take i tr !! j = Some (Declare k' x) -> j = j0) as Hall.
    { intros j k' Hjk. destruct (decide (j = j0)) as [->|Hn]; [done|]. exfalso. apply Hne. by apply (Hown j j0 k' k). }
    exists j0. split.
    + split; [done|]. intros j' Hj' (Hlt & [k' Hk2] & _). assert (j' = j0); [|lia]. apply (Hall j' k'). by rewrite lookup_take.
    + assert (forall j, get_signal E x = Some j -> j = j0) as F1 by (intros j Ej; rewrite Ej in H1; destruct H1; by eapply Hall).
      assert (forall j, get_bus E x = Some j -> j = j0) as F2 by (intros j Ej; rewrite Ej in H2; destruct H2 as (?&?&?&?); by eapply Hall).
      assert (forall j, get_component E x = Some j -> j = j0) as F3 by (intros j Ej; rewrite Ej in H3; by eapply Hall).
      assert (forall j, get_variable E x = Some j -> j = j0) as F4 by (intros j Ej; rewrite Ej in H4; destruct H4 as (l & [(?&_) _] & _); by eapply Hall).
      assert (~ (get_signal E x = None /\ get_bus E x = None /\ get_component E x = None)) as Hs.
      { intros (E1 & E2 & E3). rewrite E1 in H1. rewrite E2 in H2. rewrite E3 in H3. destruct k as [|t| |t b tags]; [done|by eapply H1|by eapply H3|by eapply H2]. }
      intros f Hf. unfold when_read, when_written, when_typed, when_translated in Hf. repeat (apply elem_of_cons in Hf as [->|Hf]); [..|by apply elem_of_nil in Hf].
      all: destruct (get_signal E x) as [?|], (get_bus E x) as [?|], (get_component E x) as [?|], (get_variable E x) as [?|]; cbn in *;
        try (f_equal; by auto); exfalso; by apply Hs.
Qed.

(** ** Names of their own, from the text *)
Definition one (x : string) (v : event) : nat := match v with Declare _ y => if decide (x = y) then 1 else 0 | _ => 0 end.
Definition count (x : string) (tr : list event) : nat := foldr (fun v n => one x v + n) 0 tr.
Lemma count_app x a b : count x (a ++ b) = count x a + count x b.
Proof. unfold count. induction a as [|v a IH]; cbn; [done|]. rewrite IH. lia. Qed.
Lemma count_neutral x tr : Forall neutral tr -> count x tr = 0.
Proof. induction 1 as [|v tr Hv _ IH]; [done|]. cbn. unfold count in IH. rewrite IH. by destruct v. Qed.
Lemma count_in x tr i k : tr !! i = Some (Declare k x) -> 1 <= count x tr.
Proof.
  revert i. induction tr as [|v tr IH]; intros i H; [done|]. cbn. destruct i as [|i]; cbn in H.
  - injection H as ->. cbn. rewrite decide_True by done. lia.
  - apply IH in H. unfold count in H. lia.
Qed.
Lemma count_two x tr i j k k' : i < j -> tr !! i = Some (Declare k x) -> tr !! j = Some (Declare k' x) -> 2 <= count x tr.
Proof.
  intros Hij Hi Hj. rewrite <-(take_drop j tr), count_app. assert (1 <= count x (take j tr)) by (eapply (count_in _ _ i); by rewrite lookup_take).
  assert (1 <= count x (drop j tr)); [|lia]. eapply (count_in _ _ 0). by rewrite lookup_drop, Nat.add_0_r.
Qed.
Definition times_all (x : string) (l : list stmt) : nat := foldr (fun s n => times x s + n) 0 l.
Lemma path_count x :
  (forall s tr, path_s s tr -> times x s <= 1 -> count x tr <= times x s) /\ (forall l tr, path_ss l tr -> times_all x l <= 1 -> count x tr <= times_all x l).
Proof.
  assert (forall e tr, path_e e tr -> count x tr = 0) as He by (intros; apply count_neutral; by eapply (proj1 path_neutral)).
  assert (forall e tr, path_es e tr -> count x tr = 0) as Hes by (intros; apply count_neutral; by eapply (proj1 (proj2 path_neutral))).
  assert (forall e tr, path_acc e tr -> count x tr = 0) as Ha by (intros; apply count_neutral; by eapply (proj2 (proj2 path_neutral))).
  apply path_s_all; intros; cbn [times times_all foldr] in *; rewrite ?count_app;
    repeat match goal with H : path_e _ ?a |- context [count x ?a] => rewrite (He _ _ H) | H : path_es _ ?a |- context [count x ?a] => rewrite (Hes _ _ H) end; try lia; try done.
  - cbn. match goal with H : path_acc _ _ |- _ => apply Ha in H; unfold count in H; rewrite H end. done.
  - auto.
  - cbn. lia.
  - cbn [count foldr]. fold (count x (a ++ [Close])). rewrite count_app. cbn. specialize (H0 H1). unfold times_all in *. lia.
  - specialize (H0 ltac:(lia)). unfold times_all in H2. specialize (H2 ltac:(lia)). lia.
Qed.
Lemma path_kinds :
  (forall s tr, path_s s tr -> forall k x, Declare k x ∈ tr -> in_stmt s k x) /\ (forall l tr, path_ss l tr -> forall k x, Declare k x ∈ tr -> exists s, s ∈ l /\ in_stmt s k x).
Proof.
  assert (forall tr k x, Forall neutral tr -> Declare k x ∈ tr -> False) as Hn.
  { intros tr k x Hf Hin. by apply (proj1 (Forall_forall _ _) Hf) in Hin. }
  assert (forall e tr k x, path_e e tr -> Declare k x ∈ tr -> False) as He by (intros ???? H; eapply Hn; by eapply (proj1 path_neutral)).
  assert (forall e tr k x, path_es e tr -> Declare k x ∈ tr -> False) as Hes by (intros ???? H; eapply Hn; by eapply (proj1 (proj2 path_neutral))).
  assert (forall e tr k x, path_acc e tr -> Declare k x ∈ tr -> False) as Ha by (intros ???? H; eapply Hn; by eapply (proj2 (proj2 path_neutral))).
  apply path_s_all; intros; repeat match goal with H : Declare _ _ ∈ _ ++ _ |- _ => apply elem_of_app in H as [H|H] end;
    try (exfalso; by eauto).
  - exfalso. match goal with H : Declare _ _ ∈ _ :: _ |- _ => apply elem_of_cons in H as [?|?]; [done|by eauto] end.
  - destruct (H0 _ _ H1) as (s & ? & ?). by econstructor.
  - apply elem_of_list_singleton in H0. injection H0 as -> ->. constructor.
  - apply elem_of_cons in H1 as [?|H1]; [done|]. apply elem_of_app in H1 as [H1|H1].
    + destruct (H0 _ _ H1) as (s & ? & ?). by econstructor.
    + by apply elem_of_list_singleton in H1.
  - constructor. auto.
  - auto.
  - constructor. auto.
  - apply i_else. auto.
  - exists s. split; [by left|auto].
  - destruct (H2 _ _ H3) as (s' & ? & ?). exists s'. split; [by right|done].
Qed.
Lemma text_own d tr x : own_in_text d x -> path_d d tr -> own_name tr x.
Proof.
  intros Ho Ht. inversion Ht as [d' a Ha]; subst. destruct Ho as [Ho|[Hp Hc]]; intros i j k k' Hij Hi Hj.
  - assert (forall i k, ((Declare KVar <$> params d) ++ a) !! i = Some (Declare k x) -> k = KVar) as Hall.
    { clear - Ho Ha. intros i k H. apply elem_of_list_lookup_2 in H. apply elem_of_app in H as [H|H].
      - apply elem_of_list_fmap in H as (? & [= -> ->] & _). done.
      - destruct (proj2 path_kinds _ _ Ha _ _ H) as (s & Hs & Hk). by eapply Ho. }
    split; by eapply Hall.
  - exfalso. assert (count x ((Declare KVar <$> params d) ++ a) <= 1) as Hle.
    { rewrite count_app. assert (Hb := proj2 (path_count x) _ _ Ha). unfold times_all in Hb. specialize (Hb Hc). assert (count x (Declare KVar <$> params d) = 0); [|lia].
      clear - Hp. induction (params d) as [|p ps IH]; [done|]. cbn. rewrite decide_False; [|set_solver]. apply IH. set_solver. }
    destruct (lt_eq_lt_dec i j) as [[Hlt|?]|Hlt]; [|done|].
    + assert (Hc2 := count_two _ _ _ _ _ _ Hlt Hi Hj). lia.
    + assert (Hc2 := count_two _ _ _ _ _ _ Hlt Hj Hi). lia.
Qed.

(** ** Numbers of signals *)
Lemma correspondence_spec names : forall n m x i, NoDup names -> names !! i = Some x -> correspondence n names m !! x = Some (S (n + i)).
Proof.
  assert (forall names n m x, x ∉ names -> correspondence n names m !! x = m !! x) as Hother.
  { clear. induction names as [|y names IH]; intros n m x Hx; [done|]. cbn. rewrite IH by set_solver. rewrite lookup_insert_ne; [done|]. set_solver. }
  induction names as [|y names IH]; intros n m x i Hnd Hi; [done|]. apply NoDup_cons in Hnd as [Hy Hnd]. cbn. destruct i as [|i]; cbn in Hi.
  - injection Hi as ->. rewrite Hother by done. rewrite lookup_insert. f_equal. lia.
  - erewrite IH by done. f_equal. lia.
Qed.
Lemma signals_of_in t tr x : x ∈ signals_of t tr <-> exists i, tr !! i = Some (Declare (KSignal t) x).
Proof.
  unfold signals_of. rewrite elem_of_list_omap. split.
  - intros (v & Hv & Hx). apply elem_of_list_lookup in Hv as [i Hi]. exists i. rewrite Hi. destruct v as [| |[|[]| |] y| | | |]; destruct t; try done; by injection Hx as ->.
  - intros [i Hi]. exists (Declare (KSignal t) x). split; [by eapply elem_of_list_lookup_2|by destruct t].
Qed.
Lemma signals_of_nodup t tr : (forall x, own_name tr x) -> NoDup (signals_of t tr).
Proof.
  induction tr as [|v tr IH]; intros H; [constructor|]. assert (NoDup (signals_of t tr)) as Hnd.
  { apply IH. intros x i j k k' Hij Hi Hj. apply (H x (S i) (S j) k k'); [lia|done..]. }
  assert (forall x, v = Declare (KSignal t) x -> x ∉ signals_of t tr) as Hnew.
  { intros x -> Hin. apply signals_of_in in Hin as [i Hi]. by destruct (H x 0 (S i) (KSignal t) (KSignal t)). }
  unfold signals_of in *. cbn [omap list_omap]. destruct v as [| |[|[]| |] y| | | |]; destruct t; try done; (constructor; [by apply Hnew|done]).
Qed.
Lemma wires_nodup pub tr : (forall x, own_name tr x) -> NoDup (build_wires pub tr).
Proof.
  intros H. unfold build_wires. assert (forall t t' x, x ∈ signals_of t tr -> x ∈ signals_of t' tr -> t = t') as Hd.
  { intros t t' x [i Hi]%signals_of_in [j Hj]%signals_of_in. destruct (decide (i = j)) as [->|Hne]; [congruence|]. by destruct (H x i j _ _ Hne Hi Hj). }
  assert (forall t, NoDup (signals_of t tr)) as Hn by (intros; by apply signals_of_nodup).
  repeat (apply NoDup_app; split; [try apply NoDup_filter; apply Hn|split]).
  - intros x Hx. rewrite !elem_of_app, !elem_of_list_filter. intros [[_ Hy]|[[_ Hy]|Hy]]; by specialize (Hd _ _ _ Hx Hy).
  - intros x. rewrite elem_of_app, !elem_of_list_filter. intros [Hp Hx] [[? _]|Hy]; [done|]. by specialize (Hd _ _ _ Hx Hy).
  - intros x. rewrite elem_of_list_filter. intros [Hp Hx] Hy. by specialize (Hd _ _ _ Hx Hy).
  - apply Hn.
Qed.
Lemma wires_in pub tr x : x ∈ build_wires pub tr <-> exists i t, tr !! i = Some (Declare (KSignal t) x).
Proof.
  unfold build_wires. rewrite !elem_of_app, !elem_of_list_filter, !signals_of_in. split.
  - intros [[i ?]|[[_ [i ?]]|[[_ [i ?]]|[i ?]]]]; eauto.
  - intros (i & [] & Hi); [|left; eauto|do 3 right; eauto]. right. destruct (decide (x ∈ pub)); [left|right; left]; eauto.
Qed.
