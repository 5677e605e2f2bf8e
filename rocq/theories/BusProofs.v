(** Proofs about the layout of signals and buses. *)
From Coq Require Import Ascii.
From stdpp Require Import prelude gmap fin_maps strings pretty.
From Verif Require Import DagModel DagSpec MemSliceSpec MemSliceProofs InputModel BusModel BusSpec.
Open Scope nat_scope.

Scheme shape_mut := Induction for shape Sort Prop with fields_mut := Induction for fields Sort Prop.
Combined Scheme shape_fields_ind from shape_mut, fields_mut.
Scheme has_shape_mut := Minimality for has_shape Sort Prop with has_fields_mut := Minimality for has_fields Sort Prop.
Combined Scheme has_shape_fields_ind from has_shape_mut, has_fields_mut.

Lemma sapp_assoc (a b c : string) : a +:+ (b +:+ c) = (a +:+ b) +:+ c.
Proof. induction a as [|x a IH]; [done|]. change (String x (a +:+ (b +:+ c)) = String x ((a +:+ b) +:+ c)). by rewrite IH. Qed.
Lemma sapp_nil_r (a : string) : a +:+ "" = a.
Proof. induction a as [|x a IH]; [done|]. change (String x (a +:+ "") = String x a). by rewrite IH. Qed.

(** *** collect *)
Lemma mapM_some {A B} (f : A -> option B) g l : (forall x, x ∈ l -> f x = Some (g x)) -> mapM f l = Some (g <$> l).
Proof.
  intros H. apply mapM_Some. induction l as [|x l IH]; [constructor|]. rewrite fmap_cons. constructor; [apply H; left|].
  apply IH. intros y Hy. apply H. by right.
Qed.
Lemma collect_some {A B} (f : A -> option (list B)) g l : (forall x, x ∈ l -> f x = Some (g x)) -> collect f l = Some (concat (g <$> l)).
Proof. intros H. unfold collect. by rewrite (mapM_some _ g). Qed.
Lemma collect_cons {A B} (f : A -> option (list B)) x l a r : f x = Some a -> collect f l = Some r -> collect f (x :: l) = Some (a ++ r).
Proof.
  unfold collect. intros E H. cbn [mapM]. rewrite E. cbn [mbind option_bind]. destruct (mapM f l) as [ls|]; [|done].
  cbn. by inversion H.
Qed.
Lemma collect_app {A B} (f : A -> option (list B)) l l' a r : collect f l = Some a -> collect f l' = Some r -> collect f (l ++ l') = Some (a ++ r).
Proof.
  revert a. induction l as [|x l IH]; intros a H H'.
  - unfold collect in H. cbn in H. inversion H; subst. done.
  - unfold collect in H. cbn in H. destruct (f x) as [b|] eqn:E; [|done]. cbn in H. destruct (mapM f l) as [ls|] eqn:M; [|done]. cbn in H. inversion H; subst.
    cbn [app]. erewrite collect_cons; [|done|]; [|apply IH; [unfold collect; by rewrite M|done]]. by rewrite app_assoc.
Qed.
Lemma concat_concat_map {A B} (f : A -> list B) (ls : list (list A)) : concat (f <$> concat ls) = concat ((fun l => concat (f <$> l)) <$> ls).
Proof. induction ls as [|l ls IH]; [done|]. cbn. rewrite fmap_app, concat_app. f_equal. exact IH. Qed.

Lemma elem_of_concat {A} (x : A) ls : x ∈ concat ls <-> exists l, x ∈ l /\ l ∈ ls.
Proof.
  induction ls as [|l ls IH]; cbn [concat].
  - split; [intros H; by apply elem_of_nil in H|]. intros (l & _ & H). by apply elem_of_nil in H.
  - rewrite elem_of_app, IH. split.
    + intros [H|(k & H & Hk)]; [exists l; split; [done|left]|exists k; split; [done|by right]].
    + intros (k & H & Hk). apply elem_of_cons in Hk as [->|Hk]; [by left|right; eauto].
Qed.

(** *** Names *)
Fixpoint depth (s : shape) : nat := match s with SSignal => 0 | SBus fs => S (fields_depth fs) end
with fields_depth (fs : fields) : nat := match fs with FNil => 0 | FCons _ _ s r => max (depth s) (fields_depth r) end.
Fixpoint ssize (s : shape) : nat := match s with SSignal => 1 | SBus fs => fsize fs end
with fsize (fs : fields) : nat := match fs with FNil => 0 | FCons _ d s r => prod d * ssize s + fsize r end.

Lemma brackets_cons i p : brackets (i :: p) = "[" +:+ pretty i +:+ "]" +:+ brackets p.
Proof. done. Qed.
Lemma indexed_brackets name i p : indexed name i +:+ brackets p = name +:+ brackets (i :: p).
Proof. unfold indexed. rewrite brackets_cons, !sapp_assoc. done. Qed.
Lemma paths_cons d dims : paths (d :: dims) = concat ((fun i => (fun p => i :: p) <$> paths dims) <$> seq 0 d).
Proof. done. Qed.
Lemma generate_symbols_ok : forall dims name, generate_symbols name dims = cells name dims SSignal.
Proof.
  induction dims as [|d dims IH]; intros name.
  - cbn. by rewrite sapp_nil_r.
  - cbn [generate_symbols cells]. rewrite paths_cons.
    cbn [cells] in IH. rewrite concat_map. rewrite <- list_fmap_compose. f_equal. apply list_fmap_ext. intros i x Hi.
    rewrite IH. unfold compose. rewrite <- list_fmap_compose. apply list_fmap_ext. intros j p Hp. unfold compose. apply indexed_brackets.
Qed.

Lemma member_cells_prefix name n : dotted name n = (name +:+ ".") +:+ n.
Proof. unfold dotted. by rewrite sapp_assoc. Qed.
Lemma cells_bus_nil name fs : cells name [] (SBus fs) = member_cells (name +:+ ".") fs.
Proof. cbn [cells]. change (paths []) with [@nil nat]. rewrite list_fmap_singleton. cbn [concat]. rewrite app_nil_r. done. Qed.
Lemma cells_bus_cons name d dims fs : cells name (d :: dims) (SBus fs) = concat ((fun i => cells (indexed name i) dims (SBus fs)) <$> seq 0 d).
Proof.
  cbn [cells]. rewrite paths_cons, concat_concat_map, <- list_fmap_compose. f_equal. apply list_fmap_ext. intros i x _. unfold compose.
  f_equal. rewrite <- list_fmap_compose. apply list_fmap_ext. intros j p _. unfold compose.
  by rewrite (sapp_assoc (indexed name x)), indexed_brackets, <- sapp_assoc.
Qed.
Lemma generate_bus_symbols_ok buses :
  (forall o s, has_shape buses o s -> forall b, o = Some b -> forall fuel name dims, depth s <= fuel -> generate_bus_symbols fuel buses b name dims = Some (cells name dims s)) /\
  (forall ws fs, has_fields buses ws fs -> forall fuel name, fields_depth fs <= fuel ->
     collect (fun w => match w_bus w with
                       | Some b => generate_bus_symbols fuel buses b (dotted name (w_name w)) (w_dims w)
                       | None => Some (generate_symbols (dotted name (w_name w)) (w_dims w))
                       end) ws = Some (member_cells (name +:+ ".") fs)).
Proof.
  apply has_shape_fields_ind.
  - done.
  - intros b ws fs Hb Hn Hf IH b' [= <-] fuel name dims Hfuel. destruct fuel as [|fuel]; [cbn in Hfuel; lia|]. cbn [depth] in Hfuel.
    cbn [generate_bus_symbols]. rewrite Hb. revert name. induction dims as [|d dims IHd]; intros name.
    + rewrite IH by lia. by rewrite cells_bus_nil.
    + rewrite cells_bus_cons. apply collect_some. intros i _. apply IHd.
  - done.
  - intros w ws s fs Hs IHs Hf IHf fuel name Hfuel. cbn [fields_depth] in Hfuel. cbn [member_cells]. apply collect_cons.
    + rewrite member_cells_prefix. inversion Hs as [Q|b ws' fs' Hb Hn Hf' Q]; subst.
      * by rewrite generate_symbols_ok.
      * rewrite <- Q in *. eapply IHs; [done|lia].
    + apply IHf. lia.
Qed.
Lemma wire_symbols_ok buses fuel w s : has_shape buses (w_bus w) s -> depth s <= fuel -> wire_symbols fuel buses w = Some (cells (w_name w) (w_dims w) s).
Proof.
  intros Hs Hf. unfold wire_symbols. inversion Hs as [Q|b ws' fs' Hb Hn Hf' Q]; subst.
  - by rewrite generate_symbols_ok.
  - rewrite <- Q in *. by eapply generate_bus_symbols_ok.
Qed.
Lemma wires_symbols_ok buses fuel ws fs : has_fields buses ws fs -> fields_depth fs <= fuel ->
  collect (wire_symbols fuel buses) ws = Some (member_cells "" fs).
Proof.
  intros H. induction H as [|w ws s fs Hs Hf IH]; intros Hfuel; [done|]. cbn [fields_depth] in Hfuel. cbn [member_cells]. apply collect_cons.
  - apply wire_symbols_ok; [done|lia].
  - apply IH. lia.
Qed.

(** *** Sizes *)
Lemma concat_length_const {A B} (f : A -> list B) n l : (forall x, x ∈ l -> length (f x) = n) -> length (concat (f <$> l)) = length l * n.
Proof.
  induction l as [|x l IH]; intros H; [done|]. rewrite fmap_cons. cbn [concat length]. rewrite app_length, IH, H; [lia|left|].
  intros y Hy. apply H. by right.
Qed.
Lemma cells_length : (forall s name dims, length (cells name dims s) = prod dims * ssize s) /\ (forall fs prefix, length (member_cells prefix fs) = fsize fs).
Proof.
  apply shape_fields_ind.
  - intros name dims. cbn [cells ssize]. rewrite fmap_length, paths_length. lia.
  - intros fs IH name dims. cbn [cells ssize]. rewrite (concat_length_const _ (fsize fs)) by (intros; apply IH). by rewrite paths_length.
  - done.
  - intros n d s IHs r IHr prefix. cbn [member_cells fsize]. rewrite app_length. by rewrite IHs, IHr.
Qed.
Lemma has_shape_det buses : (forall o s, has_shape buses o s -> forall s', has_shape buses o s' -> s = s') /\
  (forall ws fs, has_fields buses ws fs -> forall fs', has_fields buses ws fs' -> fs = fs').
Proof.
  apply has_shape_fields_ind.
  - intros s' H. by inversion H.
  - intros b ws fs Hb Hn Hf IH s' H. inversion H; subst. f_equal. apply IH. congruence.
  - intros fs' H. by inversion H.
  - intros w ws s fs Hs IHs Hf IHf fs' H. inversion H; subst. f_equal; auto.
Qed.

(** *** The table of buses *)
Fixpoint field_infos (id off : nat) (ws : list wire) (fs : fields) : list (string * field_info) :=
  match ws, fs with
  | w :: ws, FCons _ _ s r => (w_name w, FieldInfo id off (w_dims w) (prod (w_dims w) * ssize s) (w_bus w)) :: field_infos (S id) (off + prod (w_dims w) * ssize s) ws r
  | _, _ => []
  end.
Definition instance_ok (ws : list wire) (fs : fields) (bi : bus_instance) : Prop :=
  bi_size bi = fsize fs /\ bi_fields bi = list_to_map (field_infos 0 0 ws fs).
Record table_ok (buses : list (list wire)) (table : bus_table) : Prop := {
  to_length : length table = length buses;
  to_content : forall b bi, table !! b = Some (Some bi) -> exists ws fs, buses !! b = Some ws /\ has_shape buses (Some b) (SBus fs) /\ instance_ok ws fs bi }.
Lemma field_infos_names buses ws fs : has_fields buses ws fs -> forall id off, (field_infos id off ws fs).*1 = w_name <$> ws.
Proof. intros H. induction H as [|w ws s fs Hs Hf IH]; intros id off; [done|]. cbn. f_equal. apply IH. Qed.
Definition keeps (t t' : bus_table) : Prop := forall c bi, t !! c = Some (Some bi) -> t' !! c = Some (Some bi).

Definition bus_step (fuel : nat) (buses : list (list wire)) (acc : option (bus_table * nat * nat * gmap string field_info * nat)) (w : wire) :=
  match acc with
  | None => None
  | Some (table, total_size, offset, wires, field_id) =>
      match w_bus w with
      | None =>
          let size := foldl Nat.mul 1 (w_dims w) in
          Some (table, total_size + size, offset + size, <[w_name w := FieldInfo field_id offset (w_dims w) size None]> wires, field_id + 1)
      | Some bus_node =>
          match (match table !! bus_node with
                 | Some None => build_bus_info fuel buses bus_node table
                 | Some (Some _) => Some table
                 | None => None
                 end) with
          | None => None
          | Some table =>
              match table !! bus_node with
              | Some (Some instance) =>
                  let size := foldl Nat.mul (bi_size instance) (w_dims w) in
                  Some (table, total_size + size, offset + size, <[w_name w := FieldInfo field_id offset (w_dims w) size (Some bus_node)]> wires, field_id + 1)
              | _ => None
              end
          end
      end
  end.
Lemma build_bus_info_S fuel buses bus_id table : build_bus_info (S fuel) buses bus_id table =
  match table !! bus_id, buses !! bus_id with
  | Some None, Some fields =>
      match foldl (bus_step fuel buses) (Some (table, 0, 0, ∅, 0)) fields with
      | Some (table, total_size, offset, wires, field_id) => Some (<[bus_id := Some (BusInstance total_size wires)]> table)
      | None => None
      end
  | Some (Some _), Some _ => Some table
  | _, _ => None
  end.
Proof. reflexivity. Qed.

Lemma build_bus_info_ok buses :
  (forall o s, has_shape buses o s -> forall b, o = Some b -> forall fuel table, depth s <= fuel -> table_ok buses table ->
     exists table' bi, build_bus_info fuel buses b table = Some table' /\ table_ok buses table' /\ table' !! b = Some (Some bi) /\ keeps table table') /\
  (forall ws fs, has_fields buses ws fs -> forall fuel table off wires id pre, fields_depth fs <= fuel -> table_ok buses table ->
     wires = list_to_map pre -> NoDup (pre.*1 ++ (w_name <$> ws)) ->
     exists table', foldl (bus_step fuel buses) (Some (table, off, off, wires, id)) ws =
         Some (table', off + fsize fs, off + fsize fs, list_to_map (pre ++ field_infos id off ws fs), id + length ws) /\
       table_ok buses table' /\ keeps table table').
Proof.
  apply has_shape_fields_ind.
  - done.
  - intros b ws fs Hb Hn Hf IH b' [= <-] fuel table Hfuel Hok. destruct fuel as [|fuel]; [cbn in Hfuel; lia|]. cbn [depth] in Hfuel.
    rewrite build_bus_info_S, Hb.
    assert (b < length table) as Hlt by (rewrite (to_length _ _ Hok); by eapply lookup_lt_Some).
    destruct (lookup_lt_is_Some_2 _ _ Hlt) as [[bi|] Et]; rewrite Et.
    + exists table, bi. split_and!; try done. intros c x. done.
    + destruct (IH fuel table 0 ∅ 0 []) as (t1 & E & Ok1 & K1); [lia|done|done|done|].
      rewrite E. eexists _, _. split; [reflexivity|].
      assert (b < length t1) as Hlt1 by (rewrite (to_length _ _ Ok1); by eapply lookup_lt_Some).
      split_and!.
      * split. { rewrite insert_length. apply Ok1. }
        intros c bi. destruct (decide (c = b)) as [->|N].
        -- rewrite list_lookup_insert by done. intros [= <-]. exists ws, fs. split; [done|]. split; [by econstructor|]. split; done.
        -- rewrite list_lookup_insert_ne by done. apply Ok1.
      * by apply list_lookup_insert.
      * intros c bi Hc. destruct (decide (c = b)) as [->|N]; [congruence|]. rewrite list_lookup_insert_ne by done. by apply K1.
  - intros fuel table off wires id pre _ Hok -> _. exists table. cbn. rewrite app_nil_r, !Nat.add_0_r. split_and!; try done. intros c x. done.
  - intros w ws s fs Hs IHs Hf IHf fuel table off wires id pre Hfuel Hok -> Hnd. cbn [fields_depth] in Hfuel. cbn [foldl].
    assert (exists t1, bus_step fuel buses (Some (table, off, off, list_to_map pre, id)) w =
      Some (t1, off + prod (w_dims w) * ssize s, off + prod (w_dims w) * ssize s, list_to_map (pre ++ [(w_name w, FieldInfo id off (w_dims w) (prod (w_dims w) * ssize s) (w_bus w))]), id + 1) /\
      table_ok buses t1 /\ keeps table t1) as (t1 & E & Ok1 & K1).
    { assert (w_name w ∉ pre.*1) as Hni. { apply NoDup_app in Hnd as (_ & Hd & _). intros Hin. apply (Hd _ Hin). rewrite fmap_cons. left. }
      rewrite list_to_map_snoc by done. unfold bus_step. inversion Hs as [Q|b ws' fs' Hb Hn Hf' Q]; subst.
      - cbv zeta. rewrite foldl_mul, Nat.mul_1_l. cbn [ssize]. rewrite Nat.mul_1_r. exists table. split_and!; try done. intros c x. done.
      - destruct (IHs b (eq_sym Q) fuel table ltac:(lia) Hok) as (t1 & bi & E & Ok1 & Eb & K1).
        assert (exists t1, match table !! b with Some None => build_bus_info fuel buses b table | Some (Some _) => Some table | None => None end = Some t1 /\
          table_ok buses t1 /\ keeps table t1 /\ exists bi, t1 !! b = Some (Some bi)) as (t2 & E2 & Ok2 & K2 & bi2 & Eb2).
        { destruct (table !! b) as [[bi0|]|] eqn:T.
          - exists table. split_and!; try done; [intros c x; done|]. exists bi0. done.
          - exists t1. split_and!; try done. by exists bi.
          - exfalso. apply lookup_ge_None in T. rewrite (to_length _ _ Hok) in T. apply lookup_lt_Some in Hb. lia. }
        rewrite E2, Eb2. cbv zeta. destruct (to_content _ _ Ok2 _ _ Eb2) as (ws2 & fs2 & Hw2 & Hs2 & [Hsz _]).
        rewrite <- Q in Hs. pose proof (proj1 (has_shape_det buses) _ _ Hs2 _ Hs) as [= ->].
        rewrite foldl_mul, Hsz. cbn [ssize]. rewrite (Nat.mul_comm (fsize fs')). exists t2. done. }
    rewrite E. destruct (IHf fuel t1 (off + prod (w_dims w) * ssize s) (list_to_map (pre ++ [(w_name w, FieldInfo id off (w_dims w) (prod (w_dims w) * ssize s) (w_bus w))])) (id + 1)
      (pre ++ [(w_name w, FieldInfo id off (w_dims w) (prod (w_dims w) * ssize s) (w_bus w))])) as (t2 & E2 & Ok2 & K2); [lia|done|done| |].
    { rewrite fmap_app, <- app_assoc. exact Hnd. }
    exists t2. rewrite E2. cbn [field_infos fsize length]. rewrite <- app_assoc. cbn [app].
    split_and!; [|done|intros c x Hc; by apply K2, K1].
    replace (id + 1) with (S id) by lia. replace (S id + length ws) with (id + S (length ws)) by lia. rewrite !Nat.add_assoc. done.
Qed.
Definition all_shaped (buses : list (list wire)) (fuel : nat) : Prop :=
  forall b ws, buses !! b = Some ws -> exists fs, has_shape buses (Some b) (SBus fs) /\ S (fields_depth fs) <= fuel.
Lemma build_buses_ok buses fuel : all_shaped buses fuel ->
  exists table, build_buses fuel buses = Some table /\ length table = length buses /\
    forall b ws fs, buses !! b = Some ws -> has_shape buses (Some b) (SBus fs) -> exists bi, table !! b = Some bi /\ instance_ok ws fs bi.
Proof.
  intros HA.
  assert (forall n, n <= length buses -> exists t, foldl (fun acc i => match acc with Some table => build_bus_info fuel buses i table | None => None end)
      (Some (replicate (length buses) None)) (seq 0 n) = Some t /\ table_ok buses t /\ forall b, b < n -> exists bi, t !! b = Some (Some bi)) as Q.
  { induction n as [|n IH]; intros Hn.
    - exists (replicate (length buses) None). split_and!; [done| |intros; lia]. split; [apply replicate_length|].
      intros b bi H. apply lookup_replicate in H as [? _]. done.
    - destruct IH as (t & E & Ok & D); [lia|]. rewrite seq_S, foldl_app, E. cbn [foldl plus].
      destruct (lookup_lt_is_Some_2 buses n) as [ws Hws]; [lia|]. destruct (HA _ _ Hws) as (fs & Hs & Hd).
      destruct (proj1 (build_bus_info_ok buses) _ _ Hs n eq_refl fuel t Hd Ok) as (t' & bi & E' & Ok' & Eb & K).
      exists t'. split_and!; [done|done|]. intros b Hb. destruct (decide (b = n)) as [->|]; [eauto|].
      destruct (D b) as [bi' Hbi]; [lia|]. eauto. }
  destruct (Q (length buses)) as (t & E & Ok & D); [done|]. unfold build_buses. rewrite E.
  assert (exists table, mapM id t = Some table) as [table Et].
  { apply mapM_is_Some. apply Forall_forall. intros x Hx. apply elem_of_list_lookup in Hx as [b Hb].
    destruct (D b) as [bi Hbi]. { rewrite <- (to_length _ _ Ok). by eapply lookup_lt_Some. }
    rewrite Hb in Hbi. inversion Hbi; subst. by eexists. }
  exists table. split; [done|]. pose proof (proj1 (mapM_Some _ _ _) Et) as F2. split.
  - rewrite <- (Forall2_length _ _ _ F2). apply Ok.
  - intros b ws fs Hb Hs. destruct (D b) as [bi Hbi]; [by eapply lookup_lt_Some|].
    destruct (Forall2_lookup_l _ _ _ _ _ F2 Hbi) as (bi' & Hl & Hid). unfold id in Hid. inversion Hid; subst bi'. exists bi. split; [done|].
    destruct (to_content _ _ Ok _ _ Hbi) as (ws2 & fs2 & Hw2 & Hs2 & Hok2). rewrite Hb in Hw2. inversion Hw2; subst.
    by pose proof (proj1 (has_shape_det buses) _ _ Hs2 _ Hs) as [= ->].
Qed.

(** *** Different signals have different names *)
Lemma list_ascii_app a b : String.list_ascii_of_string (a +:+ b) = String.list_ascii_of_string a ++ String.list_ascii_of_string b.
Proof. induction a as [|x a IH]; [done|]. change (x :: String.list_ascii_of_string (a +:+ b) = x :: (String.list_ascii_of_string a ++ String.list_ascii_of_string b)). by rewrite IH. Qed.
Lemma list_ascii_inj a b : String.list_ascii_of_string a = String.list_ascii_of_string b -> a = b.
Proof. intros H. rewrite <- (String.string_of_list_ascii_of_string a), <- (String.string_of_list_ascii_of_string b). by rewrite H. Qed.
Lemma sapp_inj_l a b c : a +:+ b = a +:+ c -> b = c.
Proof. intros H. apply list_ascii_inj. apply (f_equal String.list_ascii_of_string) in H. rewrite !list_ascii_app in H. by apply app_inv_head in H. Qed.

Definition tail_ok (r : string) : Prop := r = "" \/ (exists x, r = "." +:+ x) \/ (exists x, r = "[" +:+ x).
Lemma tail_ok_head r c x : tail_ok r -> r = String c x -> c = "."%char \/ c = "["%char.
Proof. intros [->|[[y ->]|[y ->]]] E; [done| |]; cbn in E; inversion E; auto. Qed.
Definition no_delimiter (s : string) : Prop := forall c, c ∈ String.list_ascii_of_string s -> c <> "."%char /\ c <> "["%char.
Lemma plain_no_delimiter s : plain s -> no_delimiter s.
Proof. intros [_ H] c Hc. apply H in Hc. tauto. Qed.
Lemma split_no_delimiter : forall a b r r', no_delimiter a -> no_delimiter b -> tail_ok r -> tail_ok r' -> a +:+ r = b +:+ r' -> a = b /\ r = r'.
Proof.
  induction a as [|x a IH]; intros [|y b] r r' Ia Ib Tr Tr' E.
  - done.
  - exfalso. change (r = String y (b +:+ r')) in E. destruct (Ib y) as [N1 N2]; [left|]. destruct (tail_ok_head _ _ _ Tr E); done.
  - exfalso. change (String x (a +:+ r) = r') in E. destruct (Ia x) as [N1 N2]; [left|]. destruct (tail_ok_head _ _ _ Tr' (eq_sym E)); done.
  - change (String x (a +:+ r) = String y (b +:+ r')) in E. inversion E; subst.
    destruct (IH b r r') as [-> ->]; try done; intros c Hc; [apply Ia|apply Ib]; by right.
Qed.
Lemma split_identifier a b r r' : plain a -> plain b -> tail_ok r -> tail_ok r' -> a +:+ r = b +:+ r' -> a = b /\ r = r'.
Proof. intros Ha Hb. apply split_no_delimiter; by apply plain_no_delimiter. Qed.

Lemma pretty_N_go_digits x s : Forall (fun c => c <> "]"%char) (String.list_ascii_of_string s) -> Forall (fun c => c <> "]"%char) (String.list_ascii_of_string (pretty_N_go x s)).
Proof.
  revert s. induction (N.lt_wf_0 x) as [x _ IH]; intros s Hs.
  destruct (decide (0 < x)%N) as [Hx|Hx].
  - rewrite pretty_N_go_step by done. apply IH; [apply N.div_lt; lia|]. cbn. constructor; [|done].
    unfold pretty_N_char. by repeat case_match.
  - replace x with 0%N by lia. by rewrite pretty_N_go_0.
Qed.
Lemma pretty_no_bracket (i : nat) : Forall (fun c => c <> "]"%char) (String.list_ascii_of_string (pretty i)).
Proof.
  change (pretty i) with (pretty (N.of_nat i)). unfold pretty, pretty_N. case_decide; [by repeat constructor|]. apply pretty_N_go_digits. constructor.
Qed.
Lemma split_bracket : forall (l l' m m' : list Ascii.ascii), Forall (fun c => c <> "]"%char) l -> Forall (fun c => c <> "]"%char) l' ->
  l ++ "]"%char :: m = l' ++ "]"%char :: m' -> l = l' /\ m = m'.
Proof.
  induction l as [|x l IH]; intros [|y l'] m m' H H' E; cbn in E; inversion E; subst.
  - done.
  - inversion H'; congruence.
  - inversion H; congruence.
  - inversion H; inversion H'; subst. destruct (IH l' m m') as [-> ->]; done.
Qed.
Lemma brackets_split : forall p q r r', length p = length q -> brackets p +:+ r = brackets q +:+ r' -> p = q /\ r = r'.
Proof.
  induction p as [|i p IH]; intros [|j q] r r' HL E; try done.
  rewrite !brackets_cons in E. apply (f_equal String.list_ascii_of_string) in E. rewrite !list_ascii_app in E.
  cbn [String.list_ascii_of_string app] in E. rewrite <- !app_assoc in E. inversion E as [E1]; clear E.
  change (String.list_ascii_of_string "]" ++ ?x) with ("]"%char :: x) in E1.
  apply split_bracket in E1 as [Ei Er]; [|apply pretty_no_bracket|apply pretty_no_bracket].
  apply list_ascii_inj in Ei. assert (i = j) as ->. { apply (inj pretty) in Ei. done. }
  rewrite <- !list_ascii_app in Er. apply list_ascii_inj in Er. destruct (IH q r r') as [-> ->]; [cbn in HL; lia|done|done].
Qed.
Lemma brackets_tail p r : tail_ok r -> tail_ok (brackets p +:+ r).
Proof. intros H. destruct p as [|i p]; [done|]. right; right. rewrite brackets_cons. eexists. by rewrite <- !sapp_assoc. Qed.

(** the shape of names, with the names of a signal array as a parameter *)
Section names.
Variable g : string -> list nat -> list string.
Fixpoint gcells (name : string) (dims : list nat) (s : shape) : list string :=
  match s with
  | SSignal => g name dims
  | SBus fs => concat ((fun p => gmember_cells (name +:+ brackets p +:+ ".") fs) <$> paths dims)
  end
with gmember_cells (prefix : string) (fs : fields) : list string :=
  match fs with
  | FNil => []
  | FCons n d s r => gcells (prefix +:+ n) d s ++ gmember_cells prefix r
  end.
Hypothesis g_tail : forall name dims x, x ∈ g name dims -> exists r, x = name +:+ r /\ tail_ok r.
Hypothesis g_nodup : forall name dims, NoDup (g name dims).
Lemma gcells_tail : (forall s name dims x, x ∈ gcells name dims s -> exists r, x = name +:+ r /\ tail_ok r) /\
  (forall fs prefix x, x ∈ gmember_cells prefix fs -> exists n r, n ∈ field_names fs /\ x = prefix +:+ n +:+ r /\ tail_ok r).
Proof.
  apply shape_fields_ind.
  - intros name dims x. apply g_tail.
  - intros fs IH name dims x Hx. cbn [gcells] in Hx. apply elem_of_concat in Hx as (l & Hx & Hl).
    apply elem_of_list_fmap in Hl as (p & -> & Hp). apply IH in Hx as (n & r & Hn & -> & Hr).
    exists (brackets p +:+ "." +:+ n +:+ r). rewrite !sapp_assoc. split; [done|].
    rewrite <- !sapp_assoc. apply brackets_tail. right; left. by eexists.
  - intros prefix x Hx. by apply elem_of_nil in Hx.
  - intros n d s IHs r IHr prefix x Hx. cbn [gmember_cells] in Hx. apply elem_of_app in Hx as [Hx|Hx].
    + apply IHs in Hx as (t & -> & Ht). exists n, t. split_and!; [left|by rewrite sapp_assoc|done].
    + apply IHr in Hx as (m & t & Hm & -> & Ht). exists m, t. split_and!; [by right|done|done].
Qed.
Lemma NoDup_concat_map {A B} (f : A -> list B) l : NoDup l -> (forall x, x ∈ l -> NoDup (f x)) ->
  (forall x y b, x ∈ l -> y ∈ l -> b ∈ f x -> b ∈ f y -> x = y) -> NoDup (concat (f <$> l)).
Proof.
  induction 1 as [|x l Hx Hl IH]; intros Hf Hd; [constructor|]. cbn. apply NoDup_app. split_and!.
  - apply Hf. left.
  - intros b Hb Hin. apply elem_of_concat in Hin as (k & Hbk & Hk). apply elem_of_list_fmap in Hk as (y & -> & Hy).
    assert (x = y) as ->. { apply (Hd x y b); [left|by right|done|done]. } done.
  - apply IH; [intros y Hy; apply Hf; by right|]. intros y z b Hy Hz. apply Hd; by right.
Qed.
Lemma paths_nodup dims : NoDup (paths dims).
Proof.
  apply NoDup_alt. intros i j p Hi Hj. apply paths_lookup in Hi as [_ ->]. apply paths_lookup in Hj as [_ ->]. done.
Qed.
Lemma paths_len dims p : p ∈ paths dims -> length p = length dims.
Proof. intros H. apply paths_valid in H. induction H; cbn; congruence. Qed.
Lemma gcells_nodup : (forall s, good_names s -> forall name dims, NoDup (gcells name dims s)) /\
  (forall fs, good_fields fs -> (forall prefix, NoDup (gmember_cells prefix fs)) /\ (forall n, n ∈ field_names fs -> plain n)).
Proof.
  apply shape_fields_ind.
  - intros _ name dims. apply g_nodup.
  - intros fs IH Hg name dims. cbn [gcells]. apply NoDup_concat_map; [apply paths_nodup|intros; by apply IH|].
    intros p q b Hp Hq Hb Hb'. apply (proj2 gcells_tail) in Hb as (n & r & _ & -> & _). apply (proj2 gcells_tail) in Hb' as (n' & r' & _ & E & _).
    rewrite <- !sapp_assoc in E. apply sapp_inj_l in E. apply brackets_split in E as [-> _]; [done|].
    apply paths_len in Hp, Hq. congruence.
  - intros _. split; [constructor|]. intros n Hn. by apply elem_of_nil in Hn.
  - intros n d s IHs r IHr (Hi & Hn & Hs & Hr). destruct (IHr Hr) as [ND HI]. split.
    + intros prefix. cbn [gmember_cells]. apply NoDup_app. split_and!; [by apply IHs| |done].
      intros x Hx Hx'. apply (proj1 gcells_tail) in Hx as (t & -> & Ht). apply (proj2 gcells_tail) in Hx' as (m & t' & Hm & E & Ht').
      rewrite <- sapp_assoc in E. apply sapp_inj_l in E. apply split_identifier in E as [-> _]; [done|done|by apply HI|done|done].
    + intros m. cbn [field_names]. rewrite elem_of_cons. intros [->|Hm]; [done|by apply HI].
Qed.
End names.
Definition leaf_cells (name : string) (dims : list nat) : list string := (fun p => name +:+ brackets p) <$> paths dims.
Lemma cells_gcells : (forall s name dims, cells name dims s = gcells leaf_cells name dims s) /\ (forall fs prefix, member_cells prefix fs = gmember_cells leaf_cells prefix fs).
Proof.
  apply shape_fields_ind.
  - done.
  - intros fs IH name dims. cbn. apply (f_equal (@concat string)). apply list_fmap_ext. intros i p _. apply IH.
  - done.
  - intros n d s IHs r IHr prefix. cbn. by rewrite IHs, IHr.
Qed.
Lemma leaf_tail name dims x : x ∈ leaf_cells name dims -> exists r, x = name +:+ r /\ tail_ok r.
Proof. intros H. apply elem_of_list_fmap in H as (p & -> & Hp). exists (brackets p). split; [done|]. rewrite <- (sapp_nil_r (brackets p)). apply brackets_tail. by left. Qed.
Lemma leaf_nodup name dims : NoDup (leaf_cells name dims).
Proof.
  unfold leaf_cells. apply (NoDup_fmap_2_strong _ (paths dims)); [|apply paths_nodup]. intros p q Hp Hq E. apply sapp_inj_l in E.
  apply (brackets_split p q "" ""); [apply paths_len in Hp, Hq; congruence|by rewrite !sapp_nil_r].
Qed.
Lemma member_cells_nodup fs prefix : good_fields fs -> NoDup (member_cells prefix fs).
Proof. intros H. rewrite (proj2 cells_gcells). apply (gcells_nodup leaf_cells leaf_tail leaf_nodup); done. Qed.

(** *** Fields by position *)
Fixpoint field_datas (off : nat) (ws : list wire) (fs : fields) : list field_data :=
  match ws, fs with
  | w :: ws, FCons _ _ s r => FieldData (w_dims w) (ssize s) off (w_bus w) (w_name w) :: field_datas (off + prod (w_dims w) * ssize s) ws r
  | _, _ => []
  end.
Definition fd_of (x : string * field_info) : field_data :=
  FieldData (fi_dims x.2) (fi_size x.2 / prod (fi_dims x.2)) (fi_offset x.2) (fi_bus x.2) x.1.
Lemma prod_pos dims : Forall (fun d => 0 < d) dims -> prod dims <> 0.
Proof. induction 1 as [|d dims H H1 IH]; [done|]. change (prod (d :: dims)) with (d * prod dims). nia. Qed.
Definition fd_step (acc : option (list field_data)) (x : string * field_info) : option (list field_data) :=
  let '(name, info) := x in
  match acc with
  | None => None
  | Some data =>
      let total_array_size := foldl Nat.mul 1 (fi_dims info) in
      if (total_array_size =? 0) || (length data <=? fi_id info) then None
      else Some (<[fi_id info := FieldData (fi_dims info) (fi_size info / total_array_size) (fi_offset info) (fi_bus info) name]> data)
  end.
Lemma fd_fold_ok : forall l data, (forall x, x ∈ l -> prod (fi_dims x.2) <> 0 /\ fi_id x.2 < length data) -> NoDup ((fun x => fi_id x.2) <$> l) ->
  exists data', foldl fd_step (Some data) l = Some data' /\ length data' = length data /\
    (forall x, x ∈ l -> data' !! fi_id x.2 = Some (fd_of x)) /\ (forall i, i ∉ (fun x => fi_id x.2) <$> l -> data' !! i = data !! i).
Proof.
  induction l as [|[n x] l IH]; intros data H ND.
  - exists data. split_and!; try done. intros x Hx. by apply elem_of_nil in Hx.
  - cbn [foldl fd_step]. cbv zeta. rewrite fmap_cons in ND. apply NoDup_cons in ND as [Hx ND].
    destruct (H (n, x)) as [Hp Hi]; [left|]. cbn [snd] in Hp, Hi, Hx.
    rewrite foldl_mul, Nat.mul_1_l. rewrite (proj2 (Nat.eqb_neq _ _) Hp), (proj2 (Nat.leb_gt _ _) Hi). cbn [orb].
    destruct (IH (<[fi_id x := FieldData (fi_dims x) (fi_size x / prod (fi_dims x)) (fi_offset x) (fi_bus x) n]> data)) as (data' & E & L & V & O); [|done|].
    { intros y Hy. rewrite insert_length. apply H. by right. }
    exists data'. split; [done|]. rewrite insert_length in L. split; [done|]. split.
    + intros y Hy. apply elem_of_cons in Hy as [->|Hy]; [|by apply V]. cbn [snd]. rewrite O by done. by apply list_lookup_insert.
    + intros i Hn. rewrite fmap_cons in Hn. apply not_elem_of_cons in Hn as [N1 N2]. rewrite O by done. cbn [snd] in N1. by apply list_lookup_insert_ne.
Qed.
Lemma field_infos_lookup : forall ws fs id off i x, field_infos id off ws fs !! i = Some x -> fi_id x.2 = id + i.
Proof.
  induction ws as [|w ws IH]; intros [|n d s fs] id off i x H; try done. cbn [field_infos] in H. destruct i as [|i].
  - inversion H; subst. cbn. lia.
  - cbn in H. apply IH in H. lia.
Qed.
Lemma field_infos_datas buses ws fs : has_fields buses ws fs -> Forall (fun w => Forall (fun d => 0 < d) (w_dims w)) ws ->
  forall id off, fd_of <$> field_infos id off ws fs = field_datas off ws fs /\ Forall (fun x => prod (fi_dims x.2) <> 0) (field_infos id off ws fs).
Proof.
  intros H. induction H as [|w ws s fs Hs Hf IH]; intros HP id off; [split; [done|constructor]|]. inversion HP as [|? ? Hw Hws]; subst.
  cbn [field_infos field_datas]. rewrite fmap_cons. destruct (IH Hws (S id) (off + prod (w_dims w) * ssize s)) as [E F].
  pose proof (prod_pos _ Hw) as NZ. split; [|by constructor]. rewrite E. f_equal. unfold fd_of. cbn. f_equal.
  rewrite Nat.mul_comm. by apply Nat.div_mul.
Qed.
Lemma get_info_bus_ok buses ws fs bi : has_fields buses ws fs -> NoDup (w_name <$> ws) -> Forall (fun w => Forall (fun d => 0 < d) (w_dims w)) ws ->
  instance_ok ws fs bi -> get_info_bus bi = Some (field_datas 0 ws fs).
Proof.
  intros Hf ND HP [_ HF]. unfold get_info_bus. change (foldl _ ?a ?l) with (foldl fd_step a l).
  destruct (field_infos_datas _ _ _ Hf HP 0 0) as [ED NZ]. set (L := field_infos 0 0 ws fs) in *.
  assert (NoDup L.*1) as NDL by (unfold L; rewrite (field_infos_names _ _ _ Hf); done).
  assert (map_to_list (bi_fields bi) ≡ₚ L) as EP by (rewrite HF; by apply map_to_list_to_map).
  assert (size (bi_fields bi) = length L) as ES. { rewrite <- (Permutation_length EP). done. }
  assert ((fun x => fi_id x.2) <$> L = seq 0 (length L)) as EI.
  { apply list_eq. intros i. rewrite list_lookup_fmap. destruct (L !! i) as [x|] eqn:E.
    - cbn. rewrite (field_infos_lookup _ _ _ _ _ _ E). rewrite lookup_seq_lt; [done|by eapply lookup_lt_Some].
    - cbn. symmetry. apply lookup_seq_ge. by apply lookup_ge_None. }
  assert (forall x, x ∈ L -> exists i, L !! i = Some x /\ fi_id x.2 = i) as HI.
  { intros x Hx. apply elem_of_list_lookup in Hx as [i Hi]. exists i. split; [done|]. apply (field_infos_lookup _ _ _ _ _ _ Hi). }
  destruct (fd_fold_ok (map_to_list (bi_fields bi)) (replicate (size (bi_fields bi)) no_field_data)) as (data & E & LD & V & _).
  { intros x Hx. rewrite EP in Hx. rewrite replicate_length, ES. split; [by apply (proj1 (Forall_forall _ _) NZ)|].
    destruct (HI _ Hx) as (i & Hi & ->). by eapply lookup_lt_Some. }
  { rewrite EP, EI. apply NoDup_seq. }
  rewrite E. f_equal. rewrite replicate_length, ES in LD. rewrite <- ED. apply list_eq. intros i. rewrite list_lookup_fmap.
  destruct (L !! i) as [x|] eqn:Ex.
  - cbn. pose proof (field_infos_lookup _ _ _ _ _ _ Ex) as Hid. cbn in Hid. rewrite <- Hid. apply V. rewrite EP. by eapply elem_of_list_lookup_2.
  - cbn. apply lookup_ge_None. apply lookup_ge_None in Ex. lia.
Qed.
Definition datas_ok (buses : list (list wire)) (fdt : list (list field_data)) : Prop :=
  forall b ws fs, buses !! b = Some ws -> has_fields buses ws fs -> fdt !! b = Some (field_datas 0 ws fs).
Lemma get_info_buses_ok buses fuel table : all_shaped buses fuel -> Forall (Forall (fun w => Forall (fun d => 0 < d) (w_dims w))) buses ->
  build_buses fuel buses = Some table -> exists fdt, get_info_buses table = Some fdt /\ datas_ok buses fdt.
Proof.
  intros HA HP HB. destruct (build_buses_ok _ _ HA) as (table' & E & HL & HI). rewrite HB in E. inversion E; subst table'.
  assert (forall b bi, table !! b = Some bi -> exists ws fs, buses !! b = Some ws /\ has_fields buses ws fs /\ get_info_bus bi = Some (field_datas 0 ws fs)) as Q.
  { intros b bi Hb. destruct (lookup_lt_is_Some_2 buses b) as [ws Hws]; [rewrite <- HL; by eapply lookup_lt_Some|].
    destruct (HA _ _ Hws) as (fs & Hs & _). destruct (HI _ _ _ Hws Hs) as (bi' & Hb' & Ok). rewrite Hb in Hb'. inversion Hb'; subst bi'.
    inversion Hs as [|? ws' ? Hw' ND Hf']; subst. rewrite Hws in Hw'. inversion Hw'; subst ws'. exists ws, fs. split_and!; try done.
    eapply get_info_bus_ok; try done. eapply (proj1 (Forall_lookup _ _) HP); done. }
  assert (exists fdt, mapM get_info_bus table = Some fdt) as [fdt Ef].
  { apply mapM_is_Some. apply Forall_forall. intros bi Hbi. apply elem_of_list_lookup in Hbi as [b Hb]. destruct (Q _ _ Hb) as (ws & fs & _ & _ & E2). by exists (field_datas 0 ws fs). }
  exists fdt. split; [done|]. intros b ws fs Hb Hf. pose proof (proj1 (mapM_Some _ _ _) Ef) as F2.
  destruct (lookup_lt_is_Some_2 table b) as [bi Hbi]; [rewrite HL; by eapply lookup_lt_Some|].
  destruct (Forall2_lookup_l _ _ _ _ _ F2 Hbi) as (fd & Hl & Hfd). destruct (Q _ _ Hbi) as (ws' & fs' & Hb' & Hf' & E').
  rewrite Hb in Hb'. inversion Hb'; subst ws'. rewrite (proj2 (has_shape_det buses) _ _ Hf _ Hf'). rewrite Hl. congruence.
Qed.

(** *** Qualified inputs *)
Fixpoint entries (name : string) (dims : list nat) (start : nat) (s : shape) : list input_info :=
  match s with
  | SSignal => [InputInfo name dims start (prod dims) None]
  | SBus fs => concat (imap (fun k p => member_entries (name +:+ brackets p +:+ ".") (start + k * fsize fs) fs) (paths dims))
  end
with member_entries (prefix : string) (start : nat) (fs : fields) : list input_info :=
  match fs with
  | FNil => []
  | FCons n d s r => entries (prefix +:+ n) d start s ++ member_entries prefix (start + prod d * ssize s) r
  end.
Lemma imap_concat {A B} (f : nat -> A -> B) (g : nat -> list A) n : (forall i, length (g i) = n) -> forall d a,
  imap (fun k => f (a * n + k)) (concat (g <$> seq a d)) = concat ((fun i => imap (fun k => f (i * n + k)) (g i)) <$> seq a d).
Proof.
  intros H. induction d as [|d IH]; intros a; [done|]. cbn [seq]. rewrite !fmap_cons. cbn [concat]. rewrite imap_app. f_equal.
  rewrite <- IH. apply imap_ext. intros k x _. unfold compose. rewrite H. f_equal. lia.
Qed.
Lemma get_accesses_ok dims : get_accesses dims = imap (fun k p => (brackets p, k)) (paths dims).
Proof.
  induction dims as [|d dims IH]; [done|]. cbn [get_accesses]. rewrite paths_cons.
  transitivity (imap (fun k => (fun k p => (brackets p, k)) (0 * prod dims + k)) (concat ((fun i => (fun p => i :: p) <$> paths dims) <$> seq 0 d))); [|done].
  rewrite (imap_concat (fun k p => (brackets p, k)) _ (prod dims)) by (intros; by rewrite fmap_length, paths_length).
  f_equal. apply list_fmap_ext. intros j i _. rewrite IH. rewrite fmap_imap, imap_fmap. apply imap_ext. intros k p _. unfold compose.
  rewrite foldl_mul, Nat.mul_1_l. done.
Qed.
Lemma collect_imap {A B C} (f : C -> option (list B)) (h : nat -> A -> C) (g : nat -> A -> list B) l : (forall k x, l !! k = Some x -> f (h k x) = Some (g k x)) ->
  collect f (imap h l) = Some (concat (imap g l)).
Proof.
  revert h g. induction l as [|x l IH]; intros h g H; [done|]. cbn [imap]. cbn [concat]. apply collect_cons; [by apply (H 0)|].
  apply IH. intros k y Hy. by apply (H (S k)).
Qed.
Lemma get_qualified_names_ok buses fdt : datas_ok buses fdt ->
  (forall o s, has_shape buses o s -> forall b fs, o = Some b -> s = SBus fs -> forall fuel start prefix, depth s <= fuel ->
     get_qualified_names fuel fdt b start prefix = Some (member_entries (prefix +:+ ".") start fs)) /\
  (forall ws fs, has_fields buses ws fs -> forall fuel start off prefix, fields_depth fs <= fuel ->
     collect (fun io =>
            let name := dotted prefix (fd_name io) in
            let new_start := start + fd_offset io in
            match fd_bus io with
            | Some value => collect (fun '(a, s) => get_qualified_names fuel fdt value (new_start + s * fd_size io) (name +:+ a)) (get_accesses (fd_dims io))
            | None => Some [InputInfo name (fd_dims io) new_start (foldl Nat.mul (fd_size io) (fd_dims io)) None]
            end) (field_datas off ws fs) = Some (member_entries (prefix +:+ ".") (start + off) fs)).
Proof.
  intros HD. apply has_shape_fields_ind.
  - done.
  - intros b ws fs Hb Hn Hf IH b' fs' [= <-] [= <-] fuel start prefix Hfuel. destruct fuel as [|fuel]; [cbn in Hfuel; lia|]. cbn [depth] in Hfuel.
    cbn [get_qualified_names]. rewrite (HD _ _ _ Hb Hf). rewrite IH by lia. by rewrite Nat.add_0_r.
  - done.
  - intros w ws s fs Hs IHs Hf IHf fuel start off prefix Hfuel. cbn [fields_depth] in Hfuel. cbn [field_datas member_entries].
    apply collect_cons.
    + cbn [fd_name fd_offset fd_bus fd_size fd_dims]. cbv zeta. rewrite member_cells_prefix. destruct (w_bus w) as [b|] eqn:Ew.
      * inversion Hs as [|? ws' fs' Hb Hn Hf' Q]; subst. cbn [entries]. rewrite get_accesses_ok.
        apply collect_imap. intros k p Hp. rewrite (IHs b fs' eq_refl eq_refl) by lia. cbn [ssize].
        by rewrite <- !sapp_assoc.
      * inversion Hs; subst. cbn [entries ssize]. by rewrite foldl_mul, Nat.mul_1_l.
    + rewrite IHf by lia. do 2 f_equal. lia.
Qed.
(** the entries cover consecutive ranges, and name the single signals in order *)
Lemma concat_imap_seq n : forall (A : Type) (l : list A) start, concat (imap (fun k _ => seq (start + k * n) n) l) = seq start (length l * n).
Proof.
  intros A l. induction l as [|x l IH]; intros start; [done|]. cbn [imap concat length]. rewrite Nat.mul_0_l, Nat.add_0_r. cbn [Nat.mul].
  rewrite seq_app. f_equal. rewrite <- IH. f_equal. apply imap_ext. intros k y _. unfold compose. f_equal. lia.
Qed.
Lemma concat_fmap_imap {A B C} (h : B -> list C) (f : nat -> A -> list B) l :
  concat (h <$> concat (imap f l)) = concat (imap (fun k x => concat (h <$> f k x)) l).
Proof. revert f. induction l as [|x l IH]; intros f; [done|]. cbn [imap concat]. rewrite fmap_app, concat_app. f_equal. apply IH. Qed.
Lemma entries_ranges : (forall s name dims start, concat ((fun e => seq (in_start e) (in_size e)) <$> entries name dims start s) = seq start (prod dims * ssize s)) /\
  (forall fs prefix start, concat ((fun e => seq (in_start e) (in_size e)) <$> member_entries prefix start fs) = seq start (fsize fs)).
Proof.
  apply shape_fields_ind.
  - intros name dims start. cbn. by rewrite app_nil_r, Nat.mul_1_r.
  - intros fs IH name dims start. cbn [entries ssize]. rewrite concat_fmap_imap. rewrite <- paths_length, <- concat_imap_seq. f_equal.
    apply imap_ext. intros k p _. apply IH.
  - done.
  - intros n d s IHs r IHr prefix start. cbn [member_entries fsize]. rewrite fmap_app, concat_app, IHs, IHr. symmetry. apply seq_app.
Qed.
Lemma imap_const {A B} (f : A -> B) l : imap (fun _ x => f x) l = f <$> l.
Proof. induction l as [|x l IH]; [done|]. cbn. f_equal. exact IH. Qed.
Lemma entries_cells : (forall s name dims start, concat ((fun e => cells (in_name e) (in_dims e) SSignal) <$> entries name dims start s) = cells name dims s) /\
  (forall fs prefix start, concat ((fun e => cells (in_name e) (in_dims e) SSignal) <$> member_entries prefix start fs) = member_cells prefix fs).
Proof.
  apply shape_fields_ind.
  - intros name dims start. cbn. by rewrite app_nil_r.
  - intros fs IH name dims start. cbn [entries]. rewrite concat_fmap_imap. cbn [cells]. f_equal. rewrite <- imap_const.
    apply imap_ext. intros k p _. apply IH.
  - done.
  - intros n d s IHs r IHr prefix start. cbn [member_entries member_cells]. rewrite fmap_app, concat_app, IHs, IHr. done.
Qed.
Lemma elem_of_concat_imap {A B} (f : nat -> A -> list B) l y : y ∈ concat (imap f l) -> exists k x, l !! k = Some x /\ y ∈ f k x.
Proof.
  intros H. apply elem_of_concat in H as (b & Hy & Hb). apply elem_of_list_lookup in Hb as [k Hk]. rewrite list_lookup_imap in Hk.
  destruct (l !! k) as [x|] eqn:E; [|done]. cbn in Hk. inversion Hk; subst. eauto.
Qed.
Lemma entries_signals : (forall s name dims start, Forall (fun e => in_size e = prod (in_dims e) /\ in_bus e = None) (entries name dims start s)) /\
  (forall fs prefix start, Forall (fun e => in_size e = prod (in_dims e) /\ in_bus e = None) (member_entries prefix start fs)).
Proof.
  apply shape_fields_ind.
  - intros. by repeat constructor.
  - intros fs IH name dims start. cbn [entries]. apply Forall_forall. intros e He. apply elem_of_concat_imap in He as (k & p & _ & He).
    eapply (proj1 (Forall_forall _ _) (IH _ _)). exact He.
  - constructor.
  - intros. cbn [member_entries]. by apply Forall_app.
Qed.
Definition leaf_name (name : string) (dims : list nat) : list string := [name].
Lemma fmap_concat_imap {A B C} (h : B -> C) (f : nat -> A -> list B) l : h <$> concat (imap f l) = concat (imap (fun k x => h <$> f k x) l).
Proof. revert f. induction l as [|x l IH]; intros f; [done|]. cbn [imap concat]. rewrite fmap_app. f_equal. apply IH. Qed.
Lemma entries_names : (forall s name dims start, in_name <$> entries name dims start s = gcells leaf_name name dims s) /\
  (forall fs prefix start, in_name <$> member_entries prefix start fs = gmember_cells leaf_name prefix fs).
Proof.
  apply shape_fields_ind.
  - done.
  - intros fs IH name dims start. cbn [entries gcells]. rewrite fmap_concat_imap. apply (f_equal (@concat string)). rewrite <- imap_const.
    apply imap_ext. intros k p _. apply IH.
  - done.
  - intros n d s IHs r IHr prefix start. cbn [member_entries gmember_cells]. by rewrite fmap_app, IHs, IHr.
Qed.
Lemma member_entries_nodup fs prefix start : good_fields fs -> NoDup (in_name <$> member_entries prefix start fs).
Proof.
  intros H. rewrite (proj2 entries_names). apply gcells_nodup; [| |done].
  - intros name dims x Hx. apply elem_of_list_singleton in Hx as ->. exists "". split; [by rewrite sapp_nil_r|by left].
  - intros name dims. apply NoDup_singleton.
Qed.
