(** Proofs about the layout of the wires of a template instance: calls on the DAG, exported wires, inputs of main. *)
From stdpp Require Import prelude gmap fin_maps strings pretty.
From Verif Require Import ModArithModel DagModel DagSpec NameProofs MemSliceSpec MemSliceProofs InputModel BusModel BusSpec BusProofs.
Open Scope nat_scope.

Lemma has_fields_app buses a b fs : has_fields buses (a ++ b) fs -> exists f1 f2, has_fields buses a f1 /\ has_fields buses b f2 /\
  (forall prefix, member_cells prefix fs = member_cells prefix f1 ++ member_cells prefix f2) /\ fsize fs = fsize f1 + fsize f2 /\
  fields_depth fs = max (fields_depth f1) (fields_depth f2) /\ field_names fs = field_names f1 ++ field_names f2 /\
  (good_fields fs -> good_fields f1 /\ good_fields f2) /\
  (forall prefix start, member_entries prefix start fs = member_entries prefix start f1 ++ member_entries prefix (start + fsize f1) f2).
Proof.
  revert fs. induction a as [|w a IH]; intros fs H.
  - exists FNil, fs. split_and!; try done; [constructor|]. intros. cbn [member_entries fsize app]. by rewrite Nat.add_0_r.
  - inversion H as [|? ? s fs' Hs Hf]; subst. destruct (IH _ Hf) as (f1 & f2 & H1 & H2 & HC & HS & HD & HN & HG & HE).
    exists (FCons (w_name w) (w_dims w) s f1), f2. split_and!.
    + by constructor.
    + done.
    + intros prefix. cbn [member_cells]. by rewrite HC, app_assoc.
    + cbn [fsize]. lia.
    + cbn [fields_depth]. lia.
    + cbn [field_names]. by rewrite HN.
    + cbn [good_fields]. rewrite HN, not_elem_of_app. intuition.
    + intros prefix start. cbn [member_entries fsize]. by rewrite HE, app_assoc, Nat.add_assoc.
Qed.

(** *** Calls on the DAG *)
Lemma omap_none {A B} (f : A -> option B) (l : list A) : (forall x, f x = None) -> omap f l = [].
Proof. intros H. induction l as [|x l IH]; [done|]. cbn. by rewrite H. Qed.
Lemma omap_some {A B C} (f : A -> option B) (g : C -> A) (h : C -> B) (l : list C) : (forall x, f (g x) = Some (h x)) -> omap f (g <$> l) = h <$> l.
Proof. intros H. induction l as [|x l IH]; [done|]. cbn. rewrite H. f_equal. exact IH. Qed.
Lemma omap_fmap_none {A B C} (f : A -> option B) (g : C -> A) (l : list C) : (forall x, f (g x) = None) -> omap f (g <$> l) = [].
Proof. intros H. induction l as [|x l IH]; [done|]. cbn. by rewrite H. Qed.
Definition decls (a b c d : list string) : list dag_op :=
  (OpOutput <$> a) ++ ((fun n => OpInput n true) <$> b) ++ ((fun n => OpInput n false) <$> c) ++ (OpIntermediate <$> d).
Lemma decls_of a b c d : outputs_of (decls a b c d) = a /\ public_inputs_of (decls a b c d) = b /\ private_inputs_of (decls a b c d) = c /\ intermediates_of (decls a b c d) = d.
Proof.
  unfold outputs_of, public_inputs_of, private_inputs_of, intermediates_of, decls. rewrite !omap_app. split_and!.
  all: repeat match goal with |- context [omap ?f (?g <$> ?l)] => first [rewrite (omap_some f g id l) by done | rewrite (omap_fmap_none f g l) by done] end.
  all: rewrite ?list_fmap_id, ?app_nil_l, ?app_nil_r; done.
Qed.
Lemma build_wires_ok fuel buses t fo fp fv fm :
  has_fields buses (t_outputs t) fo -> has_fields buses (public_inputs t) fp -> has_fields buses (private_inputs t) fv -> has_fields buses (t_intermediates t) fm ->
  fields_depth fo <= fuel -> fields_depth fp <= fuel -> fields_depth fv <= fuel -> fields_depth fm <= fuel ->
  build_wires fuel buses t = Some (decls (member_cells "" fo) (member_cells "" fp) (member_cells "" fv) (member_cells "" fm)).
Proof. intros. unfold build_wires. by rewrite (wires_symbols_ok _ _ _ fo), (wires_symbols_ok _ _ _ fp), (wires_symbols_ok _ _ _ fv), (wires_symbols_ok _ _ _ fm). Qed.

(** the state of the DAG while the wires are added *)
Definition wiring (d : dag) (names : list string) (i p m : nat) : Prop := exists n, last (d_nodes d) = Some n /\ last (d_adjacency d) = Some [] /\
  (forall s, n_corr n !! s <> None -> s ∈ names) /\ n_inputs n = i /\ n_public_inputs n = p /\ n_intermediates n = m.
Definition declare_step (d : dag) (o : dag_op) := fresh d o /\ in_order d o.
Lemma map_to_list_order : valid_corr_order map_to_list.
Proof. intros m. reflexivity. Qed.
Lemma wire_step p ops d o names name i pu m i' pu' m' f : history declare_step p ops d -> wiring d names i pu m -> name ∉ names ->
  (forall d, dag_step map_to_list d o = Ok (on_main f d)) ->
  (forall n, n_corr (f n) = <[name := n_signals n + 1]> (n_corr n)) ->
  (forall n, n_inputs n = i -> n_public_inputs n = pu -> n_intermediates n = m -> n_inputs (f n) = i' /\ n_public_inputs (f n) = pu' /\ n_intermediates (f n) = m') ->
  declare_step d o -> exists d', history declare_step p (ops ++ [o]) d' /\ wiring d' (names ++ [name]) i' pu' m'.
Proof.
  intros HH (n & Hn & Ha & Hc & Hi & Hp & Hm) Hnew Hstep Hcorr Hcount Hok. exists (on_main f d). split.
  - eapply h_step; [apply map_to_list_order|done|done|apply Hstep].
  - exists (f n). destruct (Hcount n Hi Hp Hm) as (? & ? & ?). split_and!; try done.
    + rewrite last_on_main, Hn. done.
    + intros s. rewrite Hcorr. destruct (decide (s = name)) as [->|N].
      * intros _. apply elem_of_app. right. left.
      * rewrite lookup_insert_ne by done. intros H2. apply elem_of_app. left. by apply Hc.
Qed.
Lemma wires_run p mk (C : nat -> nat -> nat -> Prop) step :
  (forall d ops names name i pu m, C i pu m -> history declare_step p ops d -> wiring d names i pu m -> name ∉ names ->
     exists d', history declare_step p (ops ++ [mk name]) d' /\ let '(i', pu', m') := step (i, pu, m) in wiring d' (names ++ [name]) i' pu' m' /\ C i' pu' m') ->
  forall l d ops names i pu m, C i pu m -> history declare_step p ops d -> wiring d names i pu m -> NoDup (names ++ l) ->
    exists d' i' pu' m', history declare_step p (ops ++ (mk <$> l)) d' /\ wiring d' (names ++ l) i' pu' m' /\ C i' pu' m' /\ (i', pu', m') = Nat.iter (length l) step (i, pu, m).
Proof.
  intros HS. induction l as [|x l IH]; intros d ops names i pu m HC HH HW ND.
  - exists d, i, pu, m. cbn. rewrite !app_nil_r. done.
  - destruct (HS d ops names x i pu m HC HH HW) as (d1 & H1 & H2).
    { apply NoDup_app in ND as (_ & ND & _). intros Hin. apply (ND _ Hin). left. }
    destruct (step (i, pu, m)) as [[i1 pu1] m1] eqn:ES. destruct H2 as [W1 C1].
    destruct (IH d1 (ops ++ [mk x]) (names ++ [x]) i1 pu1 m1 C1 H1 W1) as (d2 & i2 & pu2 & m2 & H2 & W2 & C2 & E2).
    { rewrite <- app_assoc. exact ND. }
    exists d2, i2, pu2, m2. rewrite fmap_cons. rewrite <- !app_assoc in H2, W2. cbn [app] in *. split_and!; try done.
    rewrite E2. cbn [length]. rewrite Nat.iter_succ_r. by rewrite ES.
Qed.
Lemma wiring_fresh d names i pu m name : wiring d names i pu m -> name ∉ names -> exists n, last (d_nodes d) = Some n /\ last (d_adjacency d) = Some [] /\ n_corr n !! name = None /\
  n_inputs n = i /\ n_public_inputs n = pu /\ n_intermediates n = m.
Proof.
  intros (n & Hn & Ha & Hc & ? & ? & ?) Hnew. exists n. split_and!; try done. destruct (n_corr n !! name) eqn:E; [|done]. exfalso. apply Hnew, Hc. by rewrite E.
Qed.
Lemma iter_id n (x : nat * nat * nat) : Nat.iter n (fun x => x) x = x.
Proof. induction n; cbn; auto. Qed.
Lemma declare_wires p ops d template parameters par cus a b c e : history declare_step p ops d -> NoDup (a ++ b ++ c ++ e) ->
  exists d' n, history declare_step p (ops ++ OpNode template parameters par cus :: decls a b c e) d' /\ last (d_nodes d') = Some n /\ last (d_adjacency d') = Some [].
Proof.
  intros HH ND.
  assert (exists d1, history declare_step p (ops ++ [OpNode template parameters par cus]) d1 /\ wiring d1 [] 0 0 0) as (d1 & H1 & W1).
  { exists (add_node template parameters par cus d). split.
    - eapply h_step; [apply map_to_list_order|done| |done]. split; [done|by cbn].
    - eexists. cbn. rewrite !last_snoc. split_and!; try done. }
  destruct (wires_run p OpOutput (fun i pu m => i = 0 /\ m = 0) (fun x => x)) with (l := a) (d := d1) (ops := ops ++ [OpNode template parameters par cus]) (names := @nil string) (i := 0) (pu := 0) (m := 0)
    as (d2 & i2 & pu2 & m2 & H2 & W2 & C2 & E2); try done.
  { intros d0 ops0 names name i pu m [-> ->] Hh Hw Hnew. edestruct (wire_step p ops0 d0 (OpOutput name) names name 0 pu 0 0 pu 0) as (d' & ? & ?); try done.
    - split; cbn; destruct (wiring_fresh _ _ _ _ _ _ Hw Hnew) as (n & -> & ? & ? & ? & ? & ?); [done|]. split_and!; done.
    - exists d'. done. }
  { apply NoDup_app in ND as [ND _]. exact ND. }
  destruct C2 as [-> ->]. cbn [app] in W2.
  assert (pu2 = 0) as ->. { rewrite (iter_id (length a)) in E2. by inversion E2. }
  destruct (wires_run p (fun n => OpInput n true) (fun i pu m => i = pu /\ m = 0) (fun '(i, pu, m) => (S i, S pu, m))) with (l := b) (d := d2)
    (ops := (ops ++ [OpNode template parameters par cus]) ++ (OpOutput <$> a)) (names := a) (i := 0) (pu := 0) (m := 0)
    as (d3 & i3 & pu3 & m3 & H3 & W3 & C3 & _); try done.
  { intros d0 ops0 names name i pu m [-> ->] Hh Hw Hnew. edestruct (wire_step p ops0 d0 (OpInput name true) names name pu pu 0 (S pu) (S pu) 0) as (d' & ? & ?); try done.
    - intros n ? ? ?. cbn. split_and!; lia.
    - split; cbn; destruct (wiring_fresh _ _ _ _ _ _ Hw Hnew) as (n & -> & ? & ? & ? & ? & ?); [done|]. split_and!; [done|lia|done].
    - exists d'. split_and!; done. }
  { rewrite app_assoc in ND. apply NoDup_app in ND as [ND _]. exact ND. }
  destruct C3 as [-> ->].
  destruct (wires_run p (fun n => OpInput n false) (fun i pu m => m = 0) (fun '(i, pu, m) => (S i, pu, m))) with (l := c) (d := d3)
    (ops := ((ops ++ [OpNode template parameters par cus]) ++ (OpOutput <$> a)) ++ ((fun n => OpInput n true) <$> b)) (names := a ++ b) (i := pu3) (pu := pu3) (m := 0)
    as (d4 & i4 & pu4 & m4 & H4 & W4 & C4 & _); try done.
  { intros d0 ops0 names name i pu m -> Hh Hw Hnew. edestruct (wire_step p ops0 d0 (OpInput name false) names name i pu 0 (S i) pu 0) as (d' & ? & ?); try done.
    - intros n ? ? ?. cbn. split_and!; lia.
    - split; cbn; destruct (wiring_fresh _ _ _ _ _ _ Hw Hnew) as (n & -> & ? & ? & ? & ? & ?); [done|]. split_and!; done.
    - exists d'. split_and!; done. }
  { rewrite !app_assoc in ND. apply NoDup_app in ND as [ND _]. exact ND. }
  subst m4.
  destruct (wires_run p OpIntermediate (fun i pu m => True) (fun '(i, pu, m) => (i, pu, S m))) with (l := e) (d := d4)
    (ops := (((ops ++ [OpNode template parameters par cus]) ++ (OpOutput <$> a)) ++ ((fun n => OpInput n true) <$> b)) ++ ((fun n => OpInput n false) <$> c)) (names := (a ++ b) ++ c) (i := i4) (pu := pu4) (m := 0)
    as (d5 & i5 & pu5 & m5 & H5 & W5 & C5 & _); try done.
  { intros d0 ops0 names name i pu m _ Hh Hw Hnew. edestruct (wire_step p ops0 d0 (OpIntermediate name) names name i pu m i pu (S m)) as (d' & ? & ?); try done.
    - intros n ? ? ?. cbn. split_and!; lia.
    - split; cbn; destruct (wiring_fresh _ _ _ _ _ _ Hw Hnew) as (n & -> & ? & ? & ? & ? & ?); done.
    - exists d'. split_and!; done. }
  { rewrite <- !app_assoc. done. }
  destruct W5 as (n5 & Hn5 & Ha5 & _). exists d5, n5. split; [|done]. unfold decls. rewrite <- !app_assoc in H5. exact H5.
Qed.
Lemma current_decls ops template parameters par cus a b c e : current (ops ++ OpNode template parameters par cus :: decls a b c e) = decls a b c e.
Proof.
  unfold current. rewrite foldl_app. cbn [foldl].
  assert (forall l acc, (forall o, o ∈ l -> match o with OpNode _ _ _ _ => False | _ => True end) ->
    foldl (fun acc o => match o with OpNode _ _ _ _ => [] | _ => acc ++ [o] end) acc l = acc ++ l) as Q.
  { induction l as [|o l IH]; intros acc H; [by rewrite app_nil_r|]. cbn [foldl].
    assert (forall o', o' ∈ l -> match o' with OpNode _ _ _ _ => False | _ => True end) as H' by (intros; apply H; by right).
    pose proof (H o ltac:(left)) as Ho. destruct o; try done; rewrite IH by done; by rewrite <- app_assoc. }
  rewrite Q; [done|]. intros o Ho. unfold decls in Ho. rewrite !elem_of_app in Ho.
  destruct Ho as [Ho|[Ho|[Ho|Ho]]]; apply elem_of_list_fmap in Ho as (x & -> & _); done.
Qed.

(** *** Exported wires *)
Definition instances_ok (buses : list (list wire)) (table : list bus_instance) : Prop :=
  forall b ws fs, buses !! b = Some ws -> has_shape buses (Some b) (SBus fs) -> exists bi, table !! b = Some bi /\ instance_ok ws fs bi.
Fixpoint layouts (k : kind) (id : nat) (ws : list wire) (fs : fields) : list layout :=
  match ws, fs with
  | w :: ws, FCons _ _ s r => Layout (w_name w) (w_dims w) k id (S id) (prod (w_dims w) * ssize s) (w_bus w) :: layouts k (id + prod (w_dims w) * ssize s) ws r
  | _, _ => []
  end.
Lemma export_wire_ok buses table k ws fs : instances_ok buses table -> has_fields buses ws fs -> forall ls id,
  foldl (export_wire table k) (Some (ls, id, S id)) ws = Some (ls ++ layouts k id ws fs, id + fsize fs, S (id + fsize fs)).
Proof.
  intros HT H. induction H as [|w ws s fs Hs Hf IH]; intros ls id.
  - cbn. by rewrite app_nil_r, Nat.add_0_r.
  - cbn [foldl layouts fsize].
    assert (export_wire table k (Some (ls, id, S id)) w = Some (ls ++ [Layout (w_name w) (w_dims w) k id (S id) (prod (w_dims w) * ssize s) (w_bus w)], id + prod (w_dims w) * ssize s, S (id + prod (w_dims w) * ssize s))) as E.
    { unfold export_wire. destruct (w_bus w) as [b|] eqn:Ew.
      - inversion Hs as [|? ws' fs' Hb Hn Hf' Q]; subst. destruct (HT _ _ _ Hb Hs) as (bi & -> & [Hsz _]). cbv zeta. rewrite foldl_mul, Hsz. cbn [ssize].
        rewrite (Nat.mul_comm (fsize fs')). done.
      - inversion Hs; subst. cbv zeta. rewrite foldl_mul, Nat.mul_1_l. cbn [ssize]. by rewrite Nat.mul_1_r. }
    rewrite E, IH. rewrite <- app_assoc. cbn [app]. by rewrite !Nat.add_assoc.
Qed.
Lemma export_wires_ok buses table t fo fp fv fm : instances_ok buses table ->
  has_fields buses (t_outputs t) fo -> has_fields buses (public_inputs t) fp -> has_fields buses (private_inputs t) fv -> has_fields buses (t_intermediates t) fm ->
  export_wires table t = Some (layouts KOutput 0 (t_outputs t) fo ++ layouts KInput (fsize fo) (public_inputs t) fp ++
    layouts KInput (fsize fo + fsize fp) (private_inputs t) fv ++ layouts KIntermediate (fsize fo + fsize fp + fsize fv) (t_intermediates t) fm).
Proof.
  intros HT Ho Hp Hv Hm. unfold export_wires. rewrite (export_wire_ok _ _ _ _ _ HT Ho). cbn [plus app].
  rewrite (export_wire_ok _ _ _ _ _ HT Hp), (export_wire_ok _ _ _ _ _ HT Hv), (export_wire_ok _ _ _ _ _ HT Hm). by rewrite <- !app_assoc.
Qed.
Lemma segment_middle {A} (a b c : list A) : segment (length a) (length b) (a ++ b ++ c) = b.
Proof. unfold segment. by rewrite drop_app, take_app. Qed.
Lemma layouts_place buses k ws fs : has_fields buses ws fs -> forall pre post, Forall2 (designates buses (pre ++ member_cells "" fs ++ post)) (layouts k (length pre) ws fs) ws.
Proof.
  intros H. induction H as [|w ws s fs Hs Hf IH]; intros pre post; [constructor|]. cbn [layouts member_cells]. constructor.
  - split_and!; try done. exists s. split; [done|]. cbn [l_local_id l_size]. change ("" +:+ w_name w) with (w_name w).
    rewrite <- (proj1 cells_length s (w_name w) (w_dims w)). rewrite <- app_assoc. apply segment_middle.
  - specialize (IH (pre ++ cells ("" +:+ w_name w) (w_dims w) s) post). rewrite app_length, (proj1 cells_length) in IH.
    rewrite <- !app_assoc in *. exact IH.
Qed.
Lemma layouts_kind k id ws fs : Forall (fun l => l_kind l = k) (layouts k id ws fs).
Proof. revert id fs. induction ws as [|w ws IH]; intros id [|n d s fs]; cbn [layouts]; constructor; done. Qed.

(** *** The inputs of main *)
Lemma qualify_io_ok buses fdt fuel ws fs : datas_ok buses fdt -> has_fields buses ws fs -> bus_arrays_filled ws -> fields_depth fs <= fuel -> forall id,
  collect (qualify_io fuel fdt) (build_info_wire <$> layouts KInput id ws fs) = Some (member_entries "" (S id) fs).
Proof.
  intros HD H. induction H as [|w ws s fs Hs Hf IH]; intros HP Hfuel id; [done|]. cbn [fields_depth] in Hfuel. inversion HP as [|? ? Hw Hws]; subst.
  cbn [layouts member_entries]. rewrite fmap_cons. apply collect_cons; [|].
  - change ("" +:+ w_name w) with (w_name w). unfold qualify_io, build_info_wire. cbn [l_name l_dims l_dag_local_id l_size l_bus in_bus in_dims in_start in_size in_name].
    destruct (w_bus w) as [b|] eqn:Ew.
    + inversion Hs as [|? ws' fs' Hb Hn Hf' Q]; subst. cbv zeta. rewrite foldl_mul, Nat.mul_1_l. pose proof (prod_pos _ (Hw ltac:(done))) as NZ.
      rewrite (proj2 (Nat.eqb_neq _ _) NZ). cbn [entries ssize]. rewrite get_accesses_ok. apply collect_imap. intros k p Hp.
      rewrite (proj1 (get_qualified_names_ok _ _ HD) _ _ Hs b fs' eq_refl eq_refl) by lia. do 2 f_equal.
      * by rewrite sapp_assoc.
      * rewrite (Nat.mul_comm (prod _)), Nat.div_mul by done. lia.
    + inversion Hs; subst. cbn [entries ssize]. by rewrite Nat.mul_1_r.
  - apply IH; [done|lia].
Qed.
Lemma filter_all {A} (P : A -> Prop) `{forall x, Decision (P x)} l : Forall P l -> filter P l = l.
Proof. induction 1 as [|x l Hx Hl IH]; [done|]. rewrite filter_cons_True by done. by rewrite IH. Qed.
Lemma filter_none {A} (P : A -> Prop) `{forall x, Decision (P x)} l : Forall (fun x => ~ P x) l -> filter P l = [].
Proof. induction 1 as [|x l Hx Hl IH]; [done|]. by rewrite filter_cons_False. Qed.
Lemma layouts_app k a b f1 f2 fs buses : has_fields buses a f1 -> has_fields buses b f2 -> has_fields buses (a ++ b) fs -> forall id,
  layouts k id (a ++ b) fs = layouts k id a f1 ++ layouts k (id + fsize f1) b f2.
Proof.
  intros H. revert fs. induction H as [|w ws s f1 Hs Hf IH]; intros fs Hb Hab id.
  - cbn [layouts app fsize]. rewrite Nat.add_0_r. by rewrite (proj2 (has_shape_det buses) _ _ Hab _ Hb).
  - cbn [app] in *. inversion Hab as [|? ? s' fs' Hs' Hf']; subst. rewrite (proj1 (has_shape_det buses) _ _ Hs' _ Hs).
    cbn [layouts app fsize]. f_equal. rewrite (IH fs' Hb Hf'), Nat.add_assoc. done.
Qed.
Definition input_map (l : list input_info) (m : gmap string (nat * nat)) : gmap string (nat * nat) := foldl (fun m io => <[in_name io := (in_start io, in_size io)]> m) m l.
Lemma input_map_notin : forall l m k, k ∉ in_name <$> l -> input_map l m !! k = m !! k.
Proof.
  induction l as [|x l IH]; intros m k H; [done|]. rewrite fmap_cons in H. apply not_elem_of_cons in H as [N1 N2]. cbn. unfold input_map in IH.
  rewrite IH by done. by rewrite lookup_insert_ne.
Qed.
Lemma input_map_in : forall l m io, NoDup (in_name <$> l) -> io ∈ l -> input_map l m !! in_name io = Some (in_start io, in_size io).
Proof.
  induction l as [|x l IH]; intros m io ND Hin; [by apply elem_of_nil in Hin|]. rewrite fmap_cons in ND. apply NoDup_cons in ND as [Hx ND].
  apply elem_of_cons in Hin as [->|Hin].
  - cbn. pose proof (input_map_notin l (<[in_name x := (in_start x, in_size x)]> m) (in_name x) Hx) as E. unfold input_map in E. rewrite E. by rewrite lookup_insert.
  - cbn. by apply IH.
Qed.
Lemma merge_inputs qualified : NoDup (in_name <$> qualified) -> forall l acc, (forall io, io ∈ l -> io ∈ qualified \/ (in_bus io <> None /\ in_name io ∉ in_name <$> qualified)) ->
  (forall io, io ∈ qualified -> in_bus io = None) ->
  foldl (fun acc io =>
        match acc with
        | None => None
        | Some l =>
            match input_map qualified ∅ !! in_name io with
            | Some (st, sz) => if (st =? in_start io) && (sz =? in_size io) then Some l else None
            | None => Some (l ++ [io])
            end
        end) (Some acc) l = Some (acc ++ filter (fun io => in_bus io <> None) l).
Proof.
  intros ND. induction l as [|io l IH]; intros acc H HB; [by rewrite app_nil_r|]. cbn [foldl].
  destruct (H io) as [Hin|[Hb Hn]]; [left| |].
  - rewrite (input_map_in _ _ _ ND Hin), !Nat.eqb_refl. cbn [andb]. rewrite IH; [|intros; apply H; by right|done].
    rewrite filter_cons_False; [done|]. intros Q. by apply Q, HB.
  - rewrite (input_map_notin _ _ _ Hn), lookup_empty. rewrite IH; [|intros; apply H; by right|done]. rewrite filter_cons_True by done. by rewrite <- app_assoc.
Qed.
Lemma layouts_names k id ws fs buses : has_fields buses ws fs -> l_name <$> layouts k id ws fs = field_names fs.
Proof. intros H. revert id. induction H as [|w ws s fs Hs Hf IH]; intros id; [done|]. cbn. f_equal. apply IH. Qed.
Lemma has_fields_names buses ws fs : has_fields buses ws fs -> field_names fs = w_name <$> ws.
Proof. intros H. induction H as [|w ws s fs Hs Hf IH]; [done|]. cbn. by f_equal. Qed.
Lemma leaf_name_tail name dims x : x ∈ leaf_name name dims -> exists r, x = name +:+ r /\ tail_ok r.
Proof. intros Hx. apply elem_of_list_singleton in Hx as ->. exists "". split; [by rewrite sapp_nil_r|by left]. Qed.
Lemma good_fields_nodup fs : good_fields fs -> NoDup (field_names fs).
Proof. induction fs as [|n d s r IH]; [constructor|]. cbn. intros (_ & Hn & _ & Hr). constructor; auto. Qed.
Lemma good_fields_plain fs n : good_fields fs -> n ∈ field_names fs -> plain n.
Proof.
  induction fs as [|m d s r IH]; cbn [good_fields field_names]; [intros _ H; by apply elem_of_nil in H|]. intros (Hp & _ & _ & Hr) H.
  apply elem_of_cons in H as [->|H]; auto.
Qed.
Lemma bus_entry_names name dims start fs e : e ∈ entries name dims start (SBus fs) -> in_name e <> name.
Proof.
  intros He E. cbn [entries] in He. apply elem_of_concat_imap in He as (k & p & _ & He).
  assert (in_name e ∈ gmember_cells leaf_name (name +:+ brackets p +:+ ".") fs) as Q by (rewrite <- (proj2 entries_names fs _ (start + k * fsize fs)); by apply elem_of_list_fmap_1).
  apply (proj2 (gcells_tail _ leaf_name_tail)) in Q as (n & r & _ & Q & _). rewrite E in Q.
  rewrite <- (sapp_nil_r name) in Q at 1. rewrite <- !sapp_assoc in Q. apply sapp_inj_l in Q. destruct p as [|i p]; [done|]. rewrite brackets_cons in Q. done.
Qed.
Lemma inputs_classified buses ws fs : has_fields buses ws fs -> good_fields fs -> forall id io, io ∈ build_info_wire <$> layouts KInput id ws fs ->
  io ∈ member_entries "" (S id) fs \/ (in_bus io <> None /\ in_name io ∉ in_name <$> member_entries "" (S id) fs).
Proof.
  intros H. induction H as [|w ws s fs Hs Hf IH]; intros HG id io Hio; [by apply elem_of_nil in Hio|]. destruct HG as (Hp & Hn & Hgs & Hgr).
  cbn [layouts] in Hio. rewrite fmap_cons in Hio. cbn [member_entries]. change ("" +:+ w_name w) with (w_name w).
  apply elem_of_cons in Hio as [->|Hio].
  - unfold build_info_wire. cbn [l_name l_dims l_dag_local_id l_size l_bus in_bus in_name]. destruct (w_bus w) as [b|] eqn:Ew.
    + right. split; [done|]. rewrite fmap_app, not_elem_of_app. inversion Hs as [|? ws' fs' Hb ND Hf' Q]; subst. split.
      * intros Hin. apply elem_of_list_fmap in Hin as (e & E & He). by apply (bus_entry_names (w_name w) (w_dims w) (S id) fs' e).
      * intros Hin. rewrite (proj2 entries_names) in Hin. apply (proj2 (gcells_tail _ leaf_name_tail)) in Hin as (n & r & Hin & E & Hr).
        change ("" +:+ n +:+ r) with (n +:+ r) in E. rewrite <- (sapp_nil_r (w_name w)) in E. apply split_identifier in E as [E _]; [rewrite E in Hn; done|done|by eapply good_fields_plain|by left|done].
    + left. inversion Hs; subst. apply elem_of_app. left. cbn [entries ssize]. rewrite Nat.mul_1_r. left.
  - destruct (IH Hgr _ _ Hio) as [Hin|[Hb Hni]].
    + left. apply elem_of_app. by right.
    + right. split; [done|]. rewrite fmap_app, not_elem_of_app. split; [|done].
      intros Hin. rewrite (proj1 entries_names) in Hin. apply (proj1 (gcells_tail _ leaf_name_tail)) in Hin as (r & E & Hr).
      apply elem_of_list_fmap in Hio as (l & -> & Hl).
      assert (l_name l ∈ field_names fs) as HF by (rewrite <- (layouts_names KInput (id + prod (w_dims w) * ssize s) ws fs buses Hf); by apply elem_of_list_fmap_1).
      unfold build_info_wire in E. cbn [in_name] in E. rewrite <- (sapp_nil_r (l_name l)) in E.
      apply split_identifier in E as [E _]; [|by eapply good_fields_plain|done|by left|done]. rewrite E in HF. done.
Qed.
Lemma main_input_list_ok buses fdt fuel ls id ws fs : datas_ok buses fdt -> has_fields buses ws fs -> good_fields fs -> bus_arrays_filled ws -> fields_depth fs <= fuel ->
  filter is_input ls = layouts KInput id ws fs ->
  main_input_list fuel fdt ls = Some (member_entries "" (S id) fs ++ filter (fun io => in_bus io <> None) (build_info_wire <$> layouts KInput id ws fs)).
Proof.
  intros HD Hf HG HP Hfuel EL. unfold main_input_list. rewrite EL. rewrite (qualify_io_ok _ _ _ _ _ HD Hf HP Hfuel). cbv zeta.
  change (foldl (fun m io => <[in_name io := (in_start io, in_size io)]> m) ∅ ?q) with (input_map q ∅).
  apply merge_inputs.
  - by apply member_entries_nodup.
  - intros io Hio. by eapply inputs_classified.
  - intros io Hio. by apply (proj1 (Forall_forall _ _) (proj2 entries_signals fs "" (S id)) io Hio).
Qed.

(** *** Fields of a bus *)
Lemma enough_fuel buses : buses_shaped buses -> exists n, forall fuel, n <= fuel -> all_shaped buses fuel.
Proof.
  intros HS.
  assert (forall k, exists n, forall b ws, b < k -> buses !! b = Some ws -> exists fs, has_shape buses (Some b) (SBus fs) /\ S (fields_depth fs) <= n) as Q.
  { induction k as [|k [n IH]]; [exists 0; intros; lia|]. destruct (buses !! k) as [ws|] eqn:E.
    - destruct (HS _ _ E) as [s Hs]. inversion Hs as [|? ? fs]; subst. exists (max n (S (fields_depth fs))). intros b ws' Hb Hw.
      destruct (decide (b = k)) as [->|]; [exists fs; split; [done|lia]|]. destruct (IH b ws') as (fs' & ? & ?); [lia|done|]. exists fs'. split; [done|lia].
    - exists n. intros b ws' Hb Hw. destruct (decide (b = k)) as [->|]; [congruence|]. apply (IH b ws'); [lia|done]. }
  destruct (Q (length buses)) as [n Hn]. exists n. intros fuel Hfuel b ws Hb. destruct (Hn b ws) as (fs & ? & ?); [by eapply lookup_lt_Some|done|].
  exists fs. split; [done|lia].
Qed.
Lemma field_infos_segments buses ws fs : has_fields buses ws fs -> forall prefix pre id i w, ws !! i = Some w ->
  exists info, field_infos id (length pre) ws fs !! i = Some (w_name w, info) /\ fi_id info = id + i /\ fi_dims info = w_dims w /\ fi_bus info = w_bus w /\
    exists s, has_shape buses (w_bus w) s /\ segment (fi_offset info) (fi_size info) (pre ++ member_cells prefix fs) = cells (prefix +:+ w_name w) (w_dims w) s.
Proof.
  intros H. induction H as [|v ws s fs Hs Hf IH]; intros prefix pre id i w Hw; [done|]. cbn [field_infos member_cells]. destruct i as [|i].
  - inversion Hw; subst. eexists. split; [done|]. cbn [fi_id fi_dims fi_bus fi_offset fi_size]. split_and!; [lia|done|done|]. exists s. split; [done|].
    rewrite <- (proj1 cells_length s (prefix +:+ w_name w) (w_dims w)). apply segment_middle.
  - cbn [lookup list_lookup] in Hw. destruct (IH prefix (pre ++ cells (prefix +:+ w_name v) (w_dims v) s) (S id) i w Hw) as (info & E & Hid & Hd & Hb & s' & Hs' & Hseg).
    rewrite app_length, (proj1 cells_length) in E. exists info. cbn [lookup list_lookup]. split; [done|]. split_and!; [lia|done|done|].
    exists s'. split; [done|]. by rewrite <- app_assoc in Hseg.
Qed.
Lemma field_infos_cover : forall ws fs buses id off k, has_fields buses ws fs -> off <= k < off + fsize fs ->
  exists i x, field_infos id off ws fs !! i = Some x /\ fi_offset x.2 <= k < fi_offset x.2 + fi_size x.2.
Proof.
  induction ws as [|w ws IH]; intros fs buses id off k H Hk; inversion H as [|? ? s fs' Hs Hf]; subst; cbn [fsize field_infos] in *; [lia|].
  destruct (decide (k < off + prod (w_dims w) * ssize s)).
  - eexists 0, _. split; [reflexivity|]. cbn. lia.
  - destruct (IH fs' buses (S id) (off + prod (w_dims w) * ssize s) k Hf) as (i & x & E & Hx); [lia|]. exists (S i), x. done.
Qed.
Lemma field_infos_bounds : forall ws fs id off i x, field_infos id off ws fs !! i = Some x -> off <= fi_offset x.2.
Proof.
  induction ws as [|w ws IH]; intros [|n d s fs] id off i x H; try done. cbn [field_infos] in H. destruct i as [|i].
  - inversion H; subst. cbn. lia.
  - cbn in H. apply IH in H. lia.
Qed.
Lemma field_infos_disjoint : forall ws fs id off i j x y k, field_infos id off ws fs !! i = Some x -> field_infos id off ws fs !! j = Some y ->
  fi_offset x.2 <= k < fi_offset x.2 + fi_size x.2 -> fi_offset y.2 <= k < fi_offset y.2 + fi_size y.2 -> i = j.
Proof.
  induction ws as [|w ws IH]; intros [|n d s fs] id off i j x y k Hi Hj Hx Hy; try done. cbn [field_infos] in Hi, Hj. destruct i as [|i], j as [|j].
  - done.
  - inversion Hi; subst. cbn in Hj, Hx. apply field_infos_bounds in Hj. lia.
  - inversion Hj; subst. cbn in Hi, Hy. apply field_infos_bounds in Hi. lia.
  - cbn in Hi, Hj. f_equal. by eapply IH.
Qed.
Lemma layouts_kinds buses k id ws fs : has_fields buses ws fs -> l_kind <$> layouts k id ws fs = const k <$> ws.
Proof. intros H. revert id. induction H as [|w ws s fs Hs Hf IH]; intros id; [done|]. cbn. f_equal. apply IH. Qed.

(** an entry designates its signals *)
Lemma concat_split {A B} (f : A -> list B) (l : list A) x : x ∈ l -> exists l1 l2, l = l1 ++ x :: l2 /\ concat (f <$> l) = concat (f <$> l1) ++ f x ++ concat (f <$> l2).
Proof. intros H. apply elem_of_list_split in H as (l1 & l2 & ->). exists l1, l2. split; [done|]. by rewrite fmap_app, concat_app, fmap_cons. Qed.
Lemma concat_length_eq {A B C} (f : A -> list B) (g : A -> list C) (l : list A) : Forall (fun x => length (f x) = length (g x)) l -> length (concat (f <$> l)) = length (concat (g <$> l)).
Proof. induction 1 as [|x l Hx Hl IH]; [done|]. rewrite !fmap_cons. cbn [concat]. rewrite !app_length. lia. Qed.
Lemma member_entries_start fs prefix start l1 io l2 : member_entries prefix start fs = l1 ++ io :: l2 -> 0 < in_size io -> in_start io = start + length (concat ((fun e => seq (in_start e) (in_size e)) <$> l1)).
Proof.
  intros E Hs. pose proof (proj2 entries_ranges fs prefix start) as R. rewrite E, fmap_app, concat_app, fmap_cons in R. cbn [concat] in R.
  set (k := length (concat ((fun e => seq (in_start e) (in_size e)) <$> l1))) in *.
  assert ((concat ((fun e => seq (in_start e) (in_size e)) <$> l1) ++ seq (in_start io) (in_size io) ++ concat ((fun e => seq (in_start e) (in_size e)) <$> l2)) !! k = Some (in_start io)) as L.
  { rewrite lookup_app_r by (unfold k; lia). replace (k - _) with 0 by (unfold k; lia). rewrite lookup_app_l by (rewrite seq_length; lia).
    rewrite lookup_seq_lt by lia. f_equal. lia. }
  rewrite R in L. apply lookup_seq in L as [L _]. lia.
Qed.
Lemma member_entries_segment fs io pre prefix post start : start = S (length pre) -> io ∈ member_entries prefix start fs ->
  segment (in_start io - 1) (in_size io) (pre ++ member_cells prefix fs ++ post) = cells (in_name io) (in_dims io) SSignal.
Proof.
  intros -> Hio. pose proof (proj1 (Forall_forall _ _) (proj2 entries_signals fs prefix (S (length pre))) io Hio) as [Hsz _]. cbn beta in Hsz.
  destruct (decide (in_size io = 0)) as [Z|NZ].
  { unfold segment. rewrite Z. cbn [take]. symmetry. apply nil_length_inv. rewrite (proj1 cells_length). cbn [ssize]. lia. }
  destruct (concat_split (fun e => cells (in_name e) (in_dims e) SSignal) _ _ Hio) as (l1 & l2 & E & EC).
  rewrite (proj2 entries_cells) in EC. rewrite EC. rewrite (member_entries_start _ _ _ _ _ _ E) by lia.
  assert (forall l, Forall (fun e => in_size e = prod (in_dims e)) l -> length (concat ((fun e => seq (in_start e) (in_size e)) <$> l)) = length (concat ((fun e => cells (in_name e) (in_dims e) SSignal) <$> l))) as Q.
  { intros l Hl. apply concat_length_eq. eapply Forall_impl; [exact Hl|]. intros e He. cbn beta in He |- *. rewrite seq_length, (proj1 cells_length). cbn [ssize]. lia. }
  rewrite Q. 2: { apply Forall_forall. intros e He. apply (proj1 (Forall_forall _ _) (proj2 entries_signals fs prefix (S (length pre))) e). rewrite E. apply elem_of_app. by left. }
  set (A := concat (_ <$> l1)). replace (S (length pre) + length A - 1) with (length pre + length A) by lia. rewrite <- app_length.
  rewrite Hsz. replace (prod (in_dims io)) with (length (cells (in_name io) (in_dims io) SSignal)) by (rewrite (proj1 cells_length); cbn [ssize]; lia).
  rewrite <- !app_assoc. rewrite (app_assoc pre). apply segment_middle.
Qed.
Lemma NoDup_fmap_filter {A B} (f : A -> B) (P : A -> Prop) `{forall x, Decision (P x)} (l : list A) : NoDup (f <$> l) -> NoDup (f <$> filter P l).
Proof.
  induction l as [|x l IH]; [done|]. rewrite fmap_cons. intros ND. apply NoDup_cons in ND as [Hx ND]. destruct (decide (P x)) as [Hp|Hp].
  - rewrite filter_cons_True by done. rewrite fmap_cons. apply NoDup_cons. split; [|by apply IH]. intros Hin. apply Hx. apply elem_of_list_fmap in Hin as (y & E & Hy).
    apply elem_of_list_filter in Hy as [_ Hy]. rewrite E. by apply elem_of_list_fmap_1.
  - rewrite filter_cons_False by done. by apply IH.
Qed.
