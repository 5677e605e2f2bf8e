From stdpp Require Import prelude gmap fin_maps.
From Coq Require Import ZArith Lia Znumtheory Morphisms Setoid.
From Verif Require Import ModArithModel ModArithProofs AlgebraModel AlgebraSpec.
Open Scope Z_scope.

(** ** Congruence *)
Global Instance cong_equiv p : Equivalence (cong p).
Proof. unfold cong; split; red; intros; congruence. Qed.
Global Instance cong_add p : Proper (cong p ==> cong p ==> cong p) Z.add.
Proof. intros x x' Hx y y' Hy. unfold cong in *. rewrite Zplus_mod, Hx, Hy, <- Zplus_mod. reflexivity. Qed.
Global Instance cong_sub p : Proper (cong p ==> cong p ==> cong p) Z.sub.
Proof. intros x x' Hx y y' Hy. unfold cong in *. rewrite Zminus_mod, Hx, Hy, <- Zminus_mod. reflexivity. Qed.
Global Instance cong_mul p : Proper (cong p ==> cong p ==> cong p) Z.mul.
Proof. intros x x' Hx y y' Hy. unfold cong in *. rewrite Zmult_mod, Hx, Hy, <- Zmult_mod. reflexivity. Qed.
Global Instance cong_opp p : Proper (cong p ==> cong p) Z.opp.
Proof. intros x x' Hx. rewrite <- (Z.sub_0_l x), <- (Z.sub_0_l x'). rewrite Hx. reflexivity. Qed.

Lemma cong_mod p x : x mod p =[p]= x.
Proof. unfold cong. apply Zmod_mod. Qed.
Lemma cong_eq p x y : x = y -> x =[p]= y.
Proof. intros ->. reflexivity. Qed.
Lemma cong_iff_div p x y : 0 < p -> (x =[p]= y <-> (p | x - y)).
Proof.
  intros Hp. unfold cong. rewrite <- Z.mod_divide by lia. split; intros E.
  - rewrite Zminus_mod, E, Z.sub_diag. apply Z.mod_0_l; lia.
  - apply Z.mod_divide in E; [|lia]. destruct E as [k Hk].
    replace x with (y + k * p) by lia. apply Z.mod_add; lia.
Qed.
Lemma cong_add_c p l r : 0 < p -> add l r p =[p]= l + r.
Proof. intros. rewrite add_mod by lia. apply cong_mod. Qed.
Lemma cong_mul_c p l r : 0 < p -> mul l r p =[p]= l * r.
Proof. intros. rewrite mul_mod by lia. apply cong_mod. Qed.
Lemma cong_small p x y : 0 <= x < p -> 0 <= y < p -> x =[p]= y -> x = y.
Proof. unfold cong. intros. rewrite !Z.mod_small in * by lia. assumption. Qed.
Lemma cong_0_sub p x y : 0 < p -> (x - y =[p]= 0 <-> x =[p]= y).
Proof. intros Hp. rewrite !cong_iff_div by lia. rewrite Z.sub_0_r. reflexivity. Qed.
Lemma prime_cong_mul0 p x y : prime p -> x * y =[p]= 0 -> x =[p]= 0 \/ y =[p]= 0.
Proof.
  intros Hp. pose proof (prime_ge_2 p Hp). rewrite !cong_iff_div, !Z.sub_0_r by lia.
  intros Hd. exact (prime_mult p Hp x y Hd).
Qed.
Lemma prime_cong_cancel p k x y :
  prime p -> ~ k =[p]= 0 -> (k * x =[p]= k * y <-> x =[p]= y).
Proof.
  intros Hp Hk. pose proof (prime_ge_2 p Hp). split.
  - intros E. apply cong_0_sub in E; [|lia]. rewrite <- Z.mul_sub_distr_l in E.
    apply prime_cong_mul0 in E; [|assumption]. destruct E as [E|E]; [contradiction|].
    exact (proj1 (cong_0_sub p x y ltac:(lia)) E).
  - intros E. rewrite E. reflexivity.
Qed.

(** ** leval *)
Definition lsum (r : assignment) (l : list (nat * Z)) : Z :=
  foldr Z.add 0 ((fun kv => kv.2 * sv r kv.1) <$> l).
Lemma lsum_perm r l l' : l ≡ₚ l' -> lsum r l = lsum r l'.
Proof.
  unfold lsum. induction 1; cbn; lia.
Qed.
Lemma leval_empty r : leval r ∅ = 0.
Proof. unfold leval. rewrite map_to_list_empty. reflexivity. Qed.
Lemma leval_insert_new r m k v :
  m !! k = None -> leval r (<[k := v]> m) = v * sv r k + leval r m.
Proof.
  intros Hk. unfold leval.
  change (lsum r (map_to_list (<[k:=v]> m)) = v * sv r k + lsum r (map_to_list m)).
  rewrite (lsum_perm r _ _ (map_to_list_insert m k v Hk)). reflexivity.
Qed.
Lemma leval_lookup r m k v :
  m !! k = Some v -> leval r m = v * sv r k + leval r (delete k m).
Proof.
  intros Hk. rewrite <- (insert_delete m k v Hk) at 1.
  apply leval_insert_new. apply lookup_delete.
Qed.
Lemma leval_delete r m k :
  leval r (delete k m) = leval r m - default 0 (m !! k) * sv r k.
Proof.
  destruct (m !! k) as [v|] eqn:E; cbn.
  - rewrite (leval_lookup r m k v E). lia.
  - rewrite delete_notin by assumption. lia.
Qed.
Lemma leval_insert r m k v :
  leval r (<[k := v]> m) = (v - default 0 (m !! k)) * sv r k + leval r m.
Proof.
  rewrite <- insert_delete_insert, leval_insert_new by apply lookup_delete.
  rewrite leval_delete. lia.
Qed.
Lemma leval_singleton r k v : leval r {[ k := v ]} = v * sv r k.
Proof. rewrite <- insert_empty, leval_insert, leval_empty, lookup_empty. cbn. lia. Qed.

Lemma leval_init r m : leval r (init_expr m) = leval r m.
Proof.
  unfold init_expr, cc. destruct (m !! 0%nat) eqn:E; [reflexivity|].
  rewrite leval_insert_new by assumption. lia.
Qed.
Lemma init_expr_lookup m k :
  init_expr m !! k = match m !! k with Some v => Some v | None => if Nat.eqb k 0 then Some 0 else None end.
Proof.
  unfold init_expr, cc. destruct (Nat.eqb_spec k 0) as [->|Hk].
  - destruct (m !! 0%nat) eqn:E; [assumption|]. rewrite lookup_insert. reflexivity.
  - destruct (m !! 0%nat) eqn:E; [destruct (m !! k); reflexivity|].
    rewrite lookup_insert_ne by congruence. destruct (m !! k); reflexivity.
Qed.
Lemma init_expr_has m : has_cc (init_expr m).
Proof. unfold has_cc. rewrite init_expr_lookup. destruct (m !! 0%nat); cbn; eauto. Qed.
Lemma init_expr_id m : has_cc m -> init_expr m = m.
Proof. intros [v Hv]. unfold init_expr, cc. rewrite Hv. reflexivity. Qed.

Lemma leval_init_empty r : leval r init_empty = 0.
Proof. unfold init_empty. rewrite leval_init. apply leval_empty. Qed.

Lemma leval_fmap_cong r p (f : Z -> Z) k m :
  (forall i v, m !! i = Some v -> f v =[p]= k * v) -> leval r (f <$> m) =[p]= k * leval r m.
Proof.
  induction m as [|i v m Hi IH] using map_ind; intros Hf.
  - rewrite fmap_empty, leval_empty, Z.mul_0_r. reflexivity.
  - rewrite fmap_insert, !leval_insert_new by (rewrite ?lookup_fmap, ?Hi; auto).
    rewrite IH.
    + rewrite (Hf i v) by apply lookup_insert. apply cong_eq. lia.
    + intros j w Hj. apply (Hf j). rewrite lookup_insert_ne by congruence. assumption.
Qed.
Lemma leval_mul_const r p k m : 0 < p -> leval r (mul_const k m p) =[p]= k * leval r m.
Proof.
  intros Hp. apply leval_fmap_cong. intros i v _. rewrite cong_mul_c by lia.
  apply cong_eq; lia.
Qed.

Lemma leval_add_symbol r p s k m : 0 < p -> leval r (add_symbol s k m p) =[p]= k * sv r s + leval r m.
Proof.
  intros Hp. unfold add_symbol. rewrite leval_insert. rewrite cong_add_c by lia.
  apply cong_eq. lia.
Qed.

Lemma add_coeffs_any_order_aux p (l l' : list (nat * Z)) c1 :
  NoDup l.*1 -> l ≡ₚ l' ->
  foldr (fun kv acc => add_symbol kv.1 kv.2 acc p) c1 l
  = foldr (fun kv acc => add_symbol kv.1 kv.2 acc p) c1 l'.
Proof.
  intros Hnd Hp. induction Hp as [|[k v] l l' Hp IH|[k v] [k' v'] l|l l' l'' H1 IH1 H2 IH2].
  - reflexivity.
  - cbn in *. apply NoDup_cons in Hnd as [_ Hnd]. rewrite IH by assumption. reflexivity.
  - cbn in *. apply NoDup_cons in Hnd as [Hn Hnd].
    assert (k' <> k) by (intros ->; apply Hn; left).
    unfold add_symbol. rewrite !lookup_insert_ne by congruence.
    apply insert_commute. congruence.
  - rewrite IH1 by assumption. apply IH2. rewrite <- H1. assumption.
Qed.
(** every iteration order of the HashMap gives the same map (algebra.rs:209-216) *)
Lemma add_coeffs_any_order p c0 c1 l :
  l ≡ₚ map_to_list c0 ->
  foldr (fun kv acc => add_symbol kv.1 kv.2 acc p) c1 l = add_coeffs c0 c1 p.
Proof.
  intros Hl.
  transitivity (foldr (fun kv acc => add_symbol kv.1 kv.2 acc p) c1 (map_to_list c0)).
  - apply add_coeffs_any_order_aux; [|assumption]. rewrite Hl. apply NoDup_fst_map_to_list.
  - clear Hl. unfold add_coeffs, map_fold, compose.
    induction (map_to_list c0) as [|[k v] l0 IH]; cbn; [reflexivity|]. rewrite IH. reflexivity.
Qed.
Lemma add_coeffs_insert p k v c0 c1 :
  c0 !! k = None ->
  add_coeffs (<[k := v]> c0) c1 p = add_symbol k v (add_coeffs c0 c1 p) p.
Proof.
  intros Hk.
  rewrite <- (add_coeffs_any_order p (<[k:=v]> c0) c1 ((k, v) :: map_to_list c0)).
  2:{ symmetry. apply map_to_list_insert. assumption. }
  cbn [foldr fst snd]. rewrite (add_coeffs_any_order p c0 c1) by reflexivity. reflexivity.
Qed.
Lemma add_coeffs_empty p c1 : add_coeffs ∅ c1 p = c1.
Proof. reflexivity. Qed.

Lemma add_coeffs_lookup p c0 c1 k :
  add_coeffs c0 c1 p !! k =
  match c0 !! k with
  | Some v => Some (add (default 0 (c1 !! k)) v p)
  | None => c1 !! k
  end.
Proof.
  revert k. induction c0 as [|i v c0 Hi IH] using map_ind; intros k.
  - rewrite add_coeffs_empty, lookup_empty. reflexivity.
  - rewrite add_coeffs_insert by assumption. unfold add_symbol.
    destruct (decide (i = k)) as [->|Hn].
    + rewrite !lookup_insert, IH, Hi. reflexivity.
    + rewrite !lookup_insert_ne by assumption. apply IH.
Qed.
Lemma leval_add_coeffs r p c0 c1 :
  0 < p -> leval r (add_coeffs c0 c1 p) =[p]= leval r c0 + leval r c1.
Proof.
  intros Hp. induction c0 as [|i v c0 Hi IH] using map_ind.
  - rewrite add_coeffs_empty, leval_empty. reflexivity.
  - rewrite add_coeffs_insert, leval_add_symbol, IH, leval_insert_new by assumption.
    apply cong_eq. lia.
Qed.

Lemma remove_zeros_lookup m k v :
  remove_zeros m !! k = Some v <-> m !! k = Some v /\ v <> 0.
Proof. unfold remove_zeros. rewrite map_filter_lookup_Some. reflexivity. Qed.
Lemma remove_zeros_insert_0 m k : m !! k = None -> remove_zeros (<[k := 0]> m) = remove_zeros m.
Proof.
  intros Hk. unfold remove_zeros. rewrite map_filter_insert_False by (cbn; lia).
  rewrite delete_notin by assumption. reflexivity.
Qed.
Lemma remove_zeros_insert m k v :
  v <> 0 -> remove_zeros (<[k := v]> m) = <[k := v]> (remove_zeros m).
Proof. intros Hv. unfold remove_zeros. apply map_filter_insert_True. exact Hv. Qed.
Lemma leval_remove_zeros r m : leval r (remove_zeros m) = leval r m.
Proof.
  induction m as [|i v m Hi IH] using map_ind.
  - unfold remove_zeros. rewrite map_filter_empty. reflexivity.
  - destruct (Z.eq_dec v 0) as [->|Hv].
    + rewrite remove_zeros_insert_0, IH, leval_insert_new by assumption. lia.
    + rewrite remove_zeros_insert by assumption. rewrite !leval_insert_new, IH; [reflexivity|assumption|].
      destruct (remove_zeros m !! i) eqn:E; [|reflexivity].
      apply remove_zeros_lookup in E. destruct E; congruence.
Qed.
Lemma remove_zeros_nonzero m : nonzero (remove_zeros m).
Proof. intros k v Hk. apply remove_zeros_lookup in Hk. tauto. Qed.
Lemma remove_zeros_id m : nonzero m -> remove_zeros m = m.
Proof.
  intros Hn. apply map_eq. intros k. destruct (m !! k) as [v|] eqn:E.
  - apply remove_zeros_lookup. split; [assumption|]. exact (Hn k v E).
  - destruct (remove_zeros m !! k) eqn:E'; [|reflexivity].
    apply remove_zeros_lookup in E'. destruct E'; congruence.
Qed.

(** ** canonicity *)
Lemma canon_insert p m k v : 0 <= v < p -> canon p m -> canon p (<[k := v]> m).
Proof. intros Hv Hm. apply map_Forall_insert_2; assumption. Qed.
Lemma canon_empty p : canon p ∅.
Proof. apply map_Forall_empty. Qed.
Lemma canon_delete p m k : canon p m -> canon p (delete k m).
Proof. apply map_Forall_delete. Qed.
Lemma canon_remove_zeros p m : canon p m -> canon p (remove_zeros m).
Proof. intros Hm k v Hk. apply remove_zeros_lookup in Hk. apply (Hm k). tauto. Qed.
Lemma canon_init p m : 0 < p -> canon p m -> canon p (init_expr m).
Proof. intros Hp Hm. unfold init_expr. destruct (m !! cc); [assumption|]. apply canon_insert; [lia|assumption]. Qed.
Lemma canon_init_empty p : 0 < p -> canon p init_empty.
Proof. intros. apply canon_init; [assumption|apply canon_empty]. Qed.
Lemma canon_mul_const p k m : 0 < p -> canon p (mul_const k m p).
Proof.
  intros Hp i v Hi. unfold mul_const in Hi. rewrite lookup_fmap in Hi.
  destruct (m !! i); [|discriminate]. injection Hi as <-. rewrite mul_mod by lia.
  apply Z.mod_pos_bound; lia.
Qed.
Lemma add_range p x y : 0 < p -> 0 <= add x y p < p.
Proof. intros. rewrite add_mod by lia. apply Z.mod_pos_bound; lia. Qed.
Lemma mul_range p x y : 0 < p -> 0 <= mul x y p < p.
Proof. intros. rewrite mul_mod by lia. apply Z.mod_pos_bound; lia. Qed.
Lemma canon_add_symbol p s k m : 0 < p -> canon p m -> canon p (add_symbol s k m p).
Proof. intros. apply canon_insert; [apply add_range; lia|assumption]. Qed.
Lemma canon_add_coeffs p c0 c1 : 0 < p -> canon p c1 -> canon p (add_coeffs c0 c1 p).
Proof.
  intros Hp Hc k v Hk. rewrite add_coeffs_lookup in Hk. destruct (c0 !! k).
  - injection Hk as <-. apply add_range; lia.
  - apply (Hc k). assumption.
Qed.
Lemma has_cc_add_symbol p s k m : has_cc m -> has_cc (add_symbol s k m p).
Proof. unfold has_cc, add_symbol. intros H. destruct (decide (s = 0%nat)) as [->|]; [rewrite lookup_insert; eauto|rewrite lookup_insert_ne by assumption; assumption]. Qed.
Lemma has_cc_add_coeffs p c0 c1 : has_cc c1 -> has_cc (add_coeffs c0 c1 p).
Proof. unfold has_cc. rewrite add_coeffs_lookup. destruct (c0 !! 0%nat); eauto. Qed.
Lemma has_cc_mul_const p k m : has_cc m -> has_cc (mul_const k m p).
Proof. unfold has_cc, mul_const. rewrite lookup_fmap. intros [v ->]. cbn. eauto. Qed.
Lemma has_cc_init_empty : has_cc init_empty.
Proof. apply init_expr_has. Qed.
Lemma keys_mul_const p k m i : is_Some (mul_const k m p !! i) <-> is_Some (m !! i).
Proof. unfold mul_const. rewrite lookup_fmap, fmap_is_Some. reflexivity. Qed.
Lemma keys_add_coeffs p c0 c1 i : is_Some (add_coeffs c0 c1 p !! i) <-> is_Some (c0 !! i) \/ is_Some (c1 !! i).
Proof. rewrite add_coeffs_lookup. destruct (c0 !! i), (c1 !! i); rewrite !is_Some_alt; naive_solver. Qed.
Lemma keys_init m i : is_Some (init_expr m !! i) <-> is_Some (m !! i) \/ i = 0%nat.
Proof.
  rewrite init_expr_lookup. destruct (m !! i) eqn:E; [split; eauto|].
  destruct (Nat.eqb_spec i 0) as [->|]; cbn; rewrite !is_Some_alt; naive_solver.
Qed.

(** ** expressions *)
Lemma add_constant_ok p v m : has_cc m -> exists m', add_constant v m p = Ok m' /\ m' = add_symbol cc v m p.
Proof. intros [c Hc]. unfold add_constant, add_symbol, cc. rewrite Hc. cbn. eauto. Qed.

Ltac lev := repeat first
  [ rewrite leval_add_coeffs by lia | rewrite leval_add_symbol by lia
  | rewrite leval_mul_const by lia | rewrite leval_init_empty | rewrite leval_init
  | rewrite leval_remove_zeros ].

Ltac solve_wf := split_and?; first [exact I | tauto | apply has_cc_init_empty
   | repeat first [tauto | apply has_cc_add_symbol | apply has_cc_add_coeffs | apply has_cc_mul_const | apply has_cc_init_empty] ].
Ltac solve_canon := intros; destruct_and?; split_and?; first [exact I | tauto | apply add_range; lia | apply mul_range; lia
   | repeat first [assumption | apply canon_mul_const; lia | apply canon_add_symbol; [lia|] | apply canon_add_coeffs; [lia|] | apply canon_init_empty; lia] ].

Lemma aadd_sound p l r ρ x y :
  0 < p -> wf_expr l -> wf_expr r -> aval ρ l = Some x -> aval ρ r = Some y ->
  exists e, aadd l r p = Ok e /\ wf_expr e /\ (canon_expr p l -> canon_expr p r -> canon_expr p e) /\
    (forall v, aval ρ e = Some v -> v =[p]= x + y).
Proof.
  intros Hp Hl Hr Ex Ey.
  destruct l as [vl|sl|ml|la lb lc|], r as [vr|sr|mr|ra rb rc|]; cbn in Ex, Ey; try discriminate;
    injection Ex as <-; injection Ey as <-; cbn [aadd wf_expr] in *.
  all: try (destruct (add_constant_ok p vl init_empty has_cc_init_empty) as (mi & -> & ->)).
  all: try (destruct (add_constant_ok p vr init_empty has_cc_init_empty) as (mi & -> & ->)).
  all: try (destruct (add_constant_ok p vl mr Hr) as (mi & -> & ->)).
  all: try (destruct (add_constant_ok p vr ml Hl) as (mi & -> & ->)).
  all: try (destruct (add_constant_ok p vl rc (proj2 (proj2 Hr))) as (mi & -> & ->)).
  all: try (destruct (add_constant_ok p vr lc (proj2 (proj2 Hl))) as (mi & -> & ->)).
  all: cbn [res_map res_bind]; eexists; split; [reflexivity|].
  all: cbn [wf_expr canon_expr aval]; split; [solve_wf|].
  all: split; [solve_canon|].
  all: intros v Hv; try discriminate Hv; injection Hv as <-.
  all: lev; rewrite ?cong_add_c by lia; apply cong_eq; unfold cc; cbn [sv]; lia.
Qed.

Lemma amul_sound p l r ρ x y :
  0 < p -> wf_expr l -> wf_expr r -> aval ρ l = Some x -> aval ρ r = Some y ->
  wf_expr (amul l r p) /\ (canon_expr p l -> canon_expr p r -> canon_expr p (amul l r p)) /\
    (forall v, aval ρ (amul l r p) = Some v -> v =[p]= x * y).
Proof.
  intros Hp Hl Hr Ex Ey.
  destruct l as [vl|sl|ml|la lb lc|], r as [vr|sr|mr|ra rb rc|]; cbn in Ex, Ey; try discriminate;
    injection Ex as <-; injection Ey as <-; cbn [amul wf_expr canon_expr aval] in *.
  all: split; [solve_wf|].
  all: split; [solve_canon|].
  all: intros v Hv; try discriminate Hv; injection Hv as <-.
  all: lev; rewrite ?cong_mul_c by lia; apply cong_eq; unfold cc; cbn [sv]; lia.
Qed.

Lemma amul_neg1_canon p r : 0 < p -> canon_expr p r -> canon_expr p (amul (Number (-1)) r p).
Proof. intros Hp. destruct r; cbn [amul canon_expr]; solve_canon. Qed.
Lemma amul_num_value p v r ρ y : aval ρ r = Some y -> exists z, aval ρ (amul (Number v) r p) = Some z.
Proof. destruct r; cbn; intros; try discriminate; eauto. Qed.

Lemma asub_sound p l r ρ x y :
  0 < p -> wf_expr l -> wf_expr r -> aval ρ l = Some x -> aval ρ r = Some y ->
  exists e, asub l r p = Ok e /\ wf_expr e /\ (canon_expr p l -> canon_expr p r -> canon_expr p e) /\
    (forall v, aval ρ e = Some v -> v =[p]= x - y).
Proof.
  intros Hp Hl Hr Ex Ey. unfold asub.
  destruct (amul_sound p (Number (-1)) r ρ (-1) y Hp I Hr eq_refl Ey) as (W & _ & V).
  destruct (amul_num_value p (-1) r ρ y Ey) as [z Ez].
  destruct (aadd_sound p l (amul (Number (-1)) r p) ρ x z Hp Hl W Ex Ez) as (e & E & We & Ce & Ve).
  exists e. split; [assumption|]. split; [assumption|]. split.
  - intros Hcl Hcr. apply Ce; [assumption|]. apply amul_neg1_canon; assumption.
  - intros v Hv. rewrite (Ve v Hv), (V z Ez). apply cong_eq. lia.
Qed.

Lemma div_ok_cong p l r q : prime p -> div l r p = Ok q -> 0 <= q < p /\ q * r =[p]= l /\ ~ r =[p]= 0.
Proof.
  intros Hp E. pose proof (prime_ge_2 p Hp). destruct (div_spec l r p Hp) as [H0 H1].
  destruct (Z.eq_dec (r mod p) 0) as [Ez|Ez]; [rewrite (H0 Ez) in E; discriminate|].
  destruct (H1 Ez) as (q' & E' & A & B & _). rewrite E' in E. injection E as <-.
  split; [assumption|]. split; [assumption|]. unfold cong. rewrite Z.mod_0_l by lia. assumption.
Qed.
Lemma div_total p l r : prime p -> ~ r =[p]= 0 -> exists q, div l r p = Ok q.
Proof.
  intros Hp Hr. pose proof (prime_ge_2 p Hp). destruct (div_spec l r p Hp) as [_ H1].
  unfold cong in Hr. rewrite Z.mod_0_l in Hr by lia. destruct (H1 Hr) as (q & E & _). eauto.
Qed.
Lemma div_err p l r : prime p -> r =[p]= 0 -> div l r p = DivisionByZero.
Proof.
  intros Hp Hr. pose proof (prime_ge_2 p Hp). destruct (div_spec l r p Hp) as [H0 _].
  unfold cong in Hr. rewrite Z.mod_0_l in Hr by lia. auto.
Qed.

Lemma div_const_ok p k m m' :
  prime p -> div_const k m p = Ok m' ->
  exists i, 0 <= i < p /\ i * k =[p]= 1 /\ m' = mul_const i m p.
Proof.
  intros Hp E. unfold div_const in E. destruct (div 1 k p) as [i| |] eqn:Ei; try discriminate.
  injection E as <-. apply div_ok_cong in Ei; [|assumption]. exists i. tauto.
Qed.

Lemma adiv_sound p l v e ρ x :
  prime p -> wf_expr l -> aval ρ l = Some x -> adiv l (Number v) p = Ok e ->
  ~ v =[p]= 0 /\ wf_expr e /\ (canon_expr p l -> canon_expr p e) /\
  exists y, aval ρ e = Some y /\ y * v =[p]= x.
Proof.
  intros Hp Hl Ex E. pose proof (prime_ge_2 p Hp).
  assert (Hfin : forall i a, i * v =[p]= 1 -> i * a * v =[p]= a).
  { intros i a Hi. transitivity ((i * v) * a); [apply cong_eq; lia|]. rewrite Hi. apply cong_eq; lia. }
  assert (Hnz : forall i, i * v =[p]= 1 -> ~ v =[p]= 0).
  { intros i Hi Hv. rewrite Hv in Hi. rewrite Z.mul_0_r in Hi. apply cong_small in Hi; lia. }
  destruct l as [vl|sl|ml|la lb lc|]; cbn [aval] in Ex; try discriminate; injection Ex as <-;
    cbn [adiv wf_expr] in *.
  - destruct (div vl v p) as [q| |] eqn:Eq; try discriminate. injection E as <-.
    apply div_ok_cong in Eq; [|assumption]. cbn. destruct Eq as (A & B & C).
    split; [assumption|]. split; [exact I|]. split; [auto|]. eauto.
  - destruct (div_const v _ p) as [m'| |] eqn:Em; try discriminate. injection E as <-.
    apply div_const_ok in Em; [|assumption]. destruct Em as (i & Hi & Hiv & ->).
    split; [eauto|]. cbn. split; [apply has_cc_mul_const, has_cc_add_symbol, has_cc_init_empty|].
    split; [intros _; apply canon_mul_const; lia|].
    eexists; split; [reflexivity|]. lev. rewrite Hfin by assumption. apply cong_eq; lia.
  - destruct (div_const v _ p) as [m'| |] eqn:Em; try discriminate. injection E as <-.
    apply div_const_ok in Em; [|assumption]. destruct Em as (i & Hi & Hiv & ->).
    split; [eauto|]. cbn. split; [apply has_cc_mul_const; assumption|].
    split; [intros _; apply canon_mul_const; lia|].
    eexists; split; [reflexivity|]. lev. apply Hfin; assumption.
  - destruct (div_const v la p) as [ma| |] eqn:Em; try discriminate. cbn in E.
    destruct (div_const v lc p) as [mc| |] eqn:Em'; try discriminate. injection E as <-.
    apply div_const_ok in Em; [|assumption]. destruct Em as (i & Hi & Hiv & ->).
    apply div_const_ok in Em'; [|assumption]. destruct Em' as (j & Hj & Hjv & ->).
    split; [eauto|]. cbn. split; [split_and?; try tauto; apply has_cc_mul_const; tauto|].
    split; [intros; destruct_and?; split_and?; try assumption; apply canon_mul_const; lia|].
    eexists; split; [reflexivity|]. lev.
    transitivity ((i * leval ρ la * v) * leval ρ lb + j * leval ρ lc * v); [apply cong_eq; lia|].
    rewrite !Hfin by assumption. reflexivity.
Qed.
Lemma adiv_error p l v ρ x :
  prime p -> aval ρ l = Some x ->
  (adiv l (Number v) p = DivisionByZero <-> v =[p]= 0) /\ adiv l (Number v) p <> Panic.
Proof.
  intros Hp Ex. pose proof (prime_ge_2 p Hp).
  destruct (Z.eq_dec (v mod p) (0 mod p)) as [E|E].
  - assert (E1 : forall u, div u v p = DivisionByZero) by (intros; apply div_err; assumption).
    destruct l; cbn in Ex; try discriminate; cbn; unfold div_const; rewrite ?E1; cbn; (split; [tauto|discriminate]).
  - assert (E1 : forall u, exists q, div u v p = Ok q) by (intros; apply div_total; assumption).
    destruct (E1 1) as [q1 Eq1].
    destruct l as [vl| | | |]; cbn in Ex; try discriminate; cbn; unfold div_const; rewrite ?Eq1; cbn;
      try (destruct (E1 vl) as [q2 ->]; cbn); (split; [split; [discriminate|intros; contradiction]|discriminate]).
Qed.

(** ** constraints *)
Lemma to_constraint_sound p e c ρ v :
  0 < p -> aval ρ e = Some v -> to_constraint e p = Some c -> (holds p ρ c <-> v =[p]= 0).
Proof.
  intros Hp Ev Ec. unfold holds.
  assert (Hn : forall x y z, x * y =[p]= z -> (x * y - (-1) * (v - z) =[p]= 0 <-> v =[p]= 0)).
  { intros x y z ->. replace (z - -1 * (v - z)) with v by lia. reflexivity. }
  destruct e as [vl|sl|ml|la lb lc|]; cbn [aval] in Ev; try discriminate; injection Ev as <-;
    cbn [to_constraint] in Ec; injection Ec as <-; cbn [c_a c_b c_c]; lev.
  - rewrite leval_insert, leval_init_empty. unfold init_empty, init_expr, cc. cbn [sv].
    rewrite lookup_empty, lookup_insert; cbn [default]; unfold id.
    replace (0 * 0 - -1 * ((vl - 0) * 1 + 0)) with vl by lia. reflexivity.
  - rewrite leval_insert, leval_init_empty.
    assert (E : default 0 (init_empty !! sl) = 0).
    { unfold init_empty. rewrite init_expr_lookup, lookup_empty. destruct (Nat.eqb sl 0); reflexivity. }
    rewrite E.
    replace (0 * 0 - -1 * ((1 - 0) * sv ρ sl + 0)) with (sv ρ sl) by lia. reflexivity.
  - replace (0 * 0 - -1 * leval ρ ml) with (leval ρ ml) by lia. reflexivity.
  - replace (leval ρ la * leval ρ lb - -1 * leval ρ lc) with (leval ρ la * leval ρ lb + leval ρ lc) by lia.
    reflexivity.
Qed.
Lemma to_constraint_total p e ρ v : aval ρ e = Some v -> exists c, to_constraint e p = Some c.
Proof. destruct e; cbn; intros; try discriminate; eauto. Qed.
Lemma to_constraint_canon p e c : 0 < p -> canon_expr p e -> to_constraint e p = Some c -> canon_c p c.
Proof.
  intros Hp He Ec. unfold canon_c.
  destruct e; cbn in Ec, He; try discriminate; injection Ec as <-; cbn [c_a c_b c_c];
   destruct_and?; split_and?; try assumption; try (apply canon_init_empty; lia); try (apply canon_mul_const; lia).
Qed.

(** clear signal *)
Lemma clear_signal_nn_ok p m k : (exists v, m !! k = Some v /\ v <> 0) ->
  exists v, m !! k = Some v /\ clear_signal_nn m k p = Ok (mul v (-1) p, init_expr (delete k m)).
Proof.
  intros (v & Hv & Hz). exists v. split; [assumption|]. unfold clear_signal_nn. rewrite Hv.
  destruct (Z.eqb_spec v 0); [contradiction|reflexivity].
Qed.
Lemma clear_signal_nn_sound p m k q to ρ :
  0 < p -> clear_signal_nn m k p = Ok (q, to) ->
  has_cc to /\ 0 <= q < p /\
  (k <> 0%nat -> to !! k = None) /\
  (forall j, is_Some (to !! j) <-> j = 0%nat \/ (j <> k /\ is_Some (m !! j))) /\
  (canon p m -> canon p to /\ ~ q =[p]= 0) /\
  (leval ρ m =[p]= 0 <-> q * sv ρ k =[p]= leval ρ to).
Proof.
  intros Hp E. unfold clear_signal_nn in E. destruct (m !! k) as [v|] eqn:Ev; [|discriminate].
  destruct (Z.eqb_spec v 0) as [|Hz]; [discriminate|]. injection E as <- <-.
  split; [apply init_expr_has|]. split; [apply mul_range; lia|].
  split; [intros Hk; rewrite init_expr_lookup, lookup_delete; destruct (Nat.eqb_spec k 0); [contradiction|reflexivity]|].
  split.
  { intros j. rewrite keys_init. destruct (decide (k = j)) as [->|Hn].
    - rewrite lookup_delete. rewrite is_Some_alt. naive_solver.
    - rewrite lookup_delete_ne by assumption. naive_solver. }
  split.
  { intros Hc. split; [apply canon_init; [lia|]; apply canon_delete; assumption|].
    intros Hq. rewrite cong_mul_c in Hq by lia.
    assert (Hv : 0 <= v < p) by (apply (Hc k); assumption).
    assert (Hv0 : v =[p]= 0).
    { transitivity (-1 * (v * -1)); [apply cong_eq; lia|]. rewrite Hq. reflexivity. }
    apply cong_small in Hv0; lia. }
  rewrite leval_init, (leval_lookup ρ m k v Ev), cong_mul_c by lia.
  rewrite <- (cong_0_sub p (v * -1 * sv ρ k)) by lia.
  split; intros HH.
  - transitivity (- (v * sv ρ k + leval ρ (delete k m))); [apply cong_eq; lia|]. rewrite HH. reflexivity.
  - transitivity (- (v * -1 * sv ρ k - leval ρ (delete k m))); [apply cong_eq; lia|]. rewrite HH. reflexivity.
Qed.

Lemma clear_signal_sound p m k v :
  prime p -> canon p m -> m !! k = Some v -> v <> 0 ->
  exists to, clear_signal m k p = Ok to /\ canon p to /\ nonzero to /\
    (k <> 0%nat -> to !! k = None) /\
    (forall j, is_Some (to !! j) -> j = 0%nat \/ (j <> k /\ is_Some (m !! j))) /\
    (forall ρ, leval ρ m =[p]= 0 <-> sv ρ k =[p]= leval ρ to).
Proof.
  intros Hp Hc Hv Hz. pose proof (prime_ge_2 p Hp).
  destruct (clear_signal_nn_ok p m k ltac:(eauto)) as (v' & Hv' & E).
  assert (v' = v) as -> by congruence.
  destruct (clear_signal_nn_sound p m k _ _ (fun _ => 0) ltac:(lia) E) as (_ & _ & Hk & Hj & Hcc & _).
  destruct (Hcc Hc) as [Hcto Hq].
  unfold clear_signal. rewrite Hv. destruct (Z.eqb_spec v 0); [contradiction|].
  unfold div_const. destruct (div_total p 1 _ Hp Hq) as [i Ei]. rewrite Ei. cbn [res_bind].
  apply div_ok_cong in Ei; [|assumption]. destruct Ei as (Hi & Hiq & _).
  eexists; split; [reflexivity|].
  split; [apply canon_remove_zeros, canon_mul_const; lia|].
  split; [apply remove_zeros_nonzero|].
  split.
  { intros Hk0. destruct (remove_zeros _ !! k) eqn:Er; [|reflexivity].
    apply remove_zeros_lookup in Er. destruct Er as [Er _].
    unfold mul_const in Er. rewrite lookup_fmap, (Hk Hk0) in Er. discriminate. }
  split.
  { intros j [w Hw]. apply remove_zeros_lookup in Hw. apply Hj.
    apply (keys_mul_const p i). eexists; apply Hw. }
  intros ρ. rewrite leval_remove_zeros, leval_mul_const by lia.
  destruct (clear_signal_nn_sound p m k _ _ ρ ltac:(lia) E) as (_ & _ & _ & _ & _ & ->).
  rewrite <- (prime_cong_cancel p (mul v (-1) p) (sv ρ k)) by assumption.
  rewrite Z.mul_assoc, (Z.mul_comm (mul v (-1) p) i), Hiq. rewrite Z.mul_1_l. reflexivity.
Qed.

(** substitution *)
Lemma leval_raw_subst p m s ρ :
  0 < p -> sub_holds p ρ s -> leval ρ (raw_substitution m s p) =[p]= leval ρ m.
Proof.
  intros Hp Hs. unfold raw_substitution. 
  destruct (init_expr m !! s_from s) as [v|] eqn:E; [|lev; reflexivity].
  lev. rewrite leval_delete, E, leval_init. cbn [default].
  unfold sub_holds in Hs. rewrite Hs. apply cong_eq; unfold id; lia.
Qed.
Lemma keys_raw_subst p m s j :
  is_Some (raw_substitution m s p !! j) ->
  j = 0%nat \/ (is_Some (m !! j) /\ j <> s_from s) \/ (is_Some (m !! s_from s) /\ is_Some (s_to s !! j)) \/
  (is_Some (s_to s !! j) /\ s_from s = 0%nat).
Proof.
  unfold raw_substitution. destruct (init_expr m !! s_from s) as [v|] eqn:E.
  - assert (Hf : is_Some (m !! s_from s) \/ s_from s = 0%nat) by (apply keys_init; eauto).
    rewrite keys_add_coeffs, keys_mul_const, keys_init.
    intros [[H|H]|H]; [tauto|tauto|].
    destruct (decide (s_from s = j)) as [<-|Hn]; [rewrite lookup_delete in H; destruct H; discriminate|].
    rewrite lookup_delete_ne in H by assumption. apply keys_init in H. naive_solver.
  - intros H. destruct (decide (s_from s = j)) as [<-|Hn]; [rewrite E in H; destruct H; discriminate|].
    apply keys_init in H. naive_solver.
Qed.
Lemma raw_subst_gone p m s :
  s_from s <> 0%nat -> s_to s !! s_from s = None -> raw_substitution m s p !! s_from s = None.
Proof.
  intros Hf Ht. destruct (raw_substitution m s p !! s_from s) eqn:E; [|reflexivity].
  assert (H : is_Some (raw_substitution m s p !! s_from s)) by eauto.
  apply keys_raw_subst in H. rewrite Ht in H. rewrite !is_Some_alt in H. naive_solver.
Qed.
Lemma canon_raw_subst p m s : 0 < p -> canon p m -> canon p (raw_substitution m s p).
Proof.
  intros Hp Hm. unfold raw_substitution. destruct (init_expr m !! s_from s).
  - apply canon_add_coeffs; [lia|]. apply canon_delete, canon_init; [lia|assumption].
  - apply canon_init; [lia|assumption].
Qed.
Lemma raw_subst_absent p m s : s_from s <> 0%nat -> m !! s_from s = None -> raw_substitution m s p = init_expr m.
Proof.
  intros Hf Hm. unfold raw_substitution. rewrite init_expr_lookup, Hm.
  destruct (Nat.eqb_spec (s_from s) 0); [contradiction|reflexivity].
Qed.

Lemma holds_c_subst p c s ρ :
  0 < p -> sub_holds p ρ s -> (holds p ρ (c_subst c s p) <-> holds p ρ c).
Proof.
  intros Hp Hs. unfold holds, c_subst; cbn. rewrite !leval_raw_subst by assumption. reflexivity.
Qed.

(** fix_constraint *)
Lemma is_empty_map_true m : is_empty_map m = true <-> m = ∅.
Proof. apply bool_decide_eq_true. Qed.
Lemma is_empty_map_false m : is_empty_map m = false <-> m <> ∅.
Proof. apply bool_decide_eq_false. Qed.
Lemma is_constant_expr_true m : is_constant_expr m = true <-> exists k, m = {[ 0%nat := k ]}.
Proof.
  unfold is_constant_expr, cc. split.
  - destruct (m !! 0%nat) as [k|] eqn:E; [|discriminate]. intros Hs. apply Nat.eqb_eq in Hs.
    exists k. rewrite <- (insert_delete m 0%nat k E).
    rewrite <- (insert_delete m 0%nat k E), map_size_insert_None in Hs by apply lookup_delete.
    assert (Hd : size (delete 0%nat m) = 0%nat) by lia. apply map_size_empty_inv in Hd.
    rewrite Hd. reflexivity.
  - intros [k ->]. rewrite lookup_singleton. rewrite map_size_singleton. reflexivity.
Qed.
Lemma const_lin_reduction_sound p k b c ρ :
  0 < p -> canon p c ->
  exists c', const_lin_reduction {[ 0%nat := k ]} b c p = Ok c' /\ nonzero c' /\ canon p c' /\
    leval ρ c' =[p]= leval ρ c - k * leval ρ b /\
    (forall j, is_Some (c' !! j) -> j = 0%nat \/ is_Some (b !! j) \/ is_Some (c !! j)).
Proof.
  intros Hp Hc. unfold const_lin_reduction, cc. rewrite lookup_singleton.
  eexists; split; [reflexivity|]. split; [apply remove_zeros_nonzero|].
  split; [apply canon_remove_zeros, canon_add_coeffs; [lia|]; apply canon_init; [lia|assumption]|].
  split; [lev; apply cong_eq; lia|].
  intros j [w Hw]. apply remove_zeros_lookup in Hw. destruct Hw as [Hw _].
  assert (Hk : is_Some (add_coeffs (mul_const (-1) (mul_const k (init_expr b) p) p) (init_expr c) p !! j)) by eauto.
  rewrite keys_add_coeffs, !keys_mul_const, !keys_init in Hk. tauto.
Qed.

Definition normal_form (c : constraint) : Prop :=
  nonzero_c c /\
  ((c_a c = ∅ /\ c_b c = ∅) \/
   (c_a c <> ∅ /\ c_b c <> ∅ /\ ~ (exists k, c_a c = {[ 0%nat := k ]}) /\ ~ (exists k, c_b c = {[ 0%nat := k ]}))).

Lemma nonzero_empty : nonzero ∅.
Proof. apply map_Forall_empty. Qed.

Lemma fix_constraint_sound p c :
  0 < p -> canon_c p c ->
  exists c', fix_constraint c p = Ok c' /\ canon_c p c' /\ normal_form c' /\
    (forall ρ, holds p ρ c' <-> holds p ρ c) /\ (forall j, in_c j c' -> in_c j c).
Proof.
  intros Hp (Ha & Hb & Hc). unfold fix_constraint.
  set (a := remove_zeros (c_a c)). set (b := remove_zeros (c_b c)). set (c0 := remove_zeros (c_c c)).
  assert (Hca : canon p a) by (apply canon_remove_zeros; assumption).
  assert (Hcb : canon p b) by (apply canon_remove_zeros; assumption).
  assert (Hcc : canon p c0) by (apply canon_remove_zeros; assumption).
  pose proof (remove_zeros_nonzero (c_a c) : nonzero a) as Hna.
  pose proof (remove_zeros_nonzero (c_b c) : nonzero b) as Hnb.
  pose proof (remove_zeros_nonzero (c_c c) : nonzero c0) as Hnc.
  assert (Hla : forall ρ, leval ρ (c_a c) = leval ρ a) by (intros; symmetry; apply leval_remove_zeros).
  assert (Hlb : forall ρ, leval ρ (c_b c) = leval ρ b) by (intros; symmetry; apply leval_remove_zeros).
  assert (Hlc : forall ρ, leval ρ (c_c c) = leval ρ c0) by (intros; symmetry; apply leval_remove_zeros).
  assert (Hin : forall m j, in_lin j (remove_zeros m) -> in_lin j m).
  { intros m j [Hj [w Hw]]. split; [assumption|]. apply remove_zeros_lookup in Hw. eexists; apply Hw. }
  destruct (is_empty_map a || is_empty_map b) eqn:Ee.
  { eexists; split; [reflexivity|]. split; [unfold canon_c, nonzero_c; cbn [c_a c_b c_c]; split_and!; auto using canon_empty|].
    split; [split; [unfold canon_c, nonzero_c; cbn [c_a c_b c_c]; split_and!; auto using nonzero_empty, remove_zeros_nonzero|left; auto]|].
    split.
    - intros ρ. unfold holds; cbn. rewrite Hla, Hlb, Hlc, leval_empty.
      apply orb_true_iff in Ee. rewrite !is_empty_map_true in Ee.
      destruct Ee as [->| ->]; rewrite leval_empty; rewrite ?Z.mul_0_l, ?Z.mul_0_r; reflexivity.
    - intros j [H|[H|H]]; cbn in H; try (destruct H as [_ [w Hw]]; rewrite lookup_empty in Hw; discriminate).
      right; right. apply Hin. assumption. }
  apply orb_false_iff in Ee. rewrite !is_empty_map_false in Ee. destruct Ee as [Hea Heb].
  destruct (is_constant_expr a) eqn:Eca.
  { apply is_constant_expr_true in Eca. destruct Eca as [k Ek].
    rewrite Ek.
    destruct (const_lin_reduction_sound p k b c0 (fun _ => 0) Hp Hcc) as (c' & E' & Hn' & Hc' & _ & Hj').
    rewrite E'. cbn. eexists; split; [reflexivity|].
    split; [unfold canon_c, nonzero_c; cbn [c_a c_b c_c]; split_and!; auto using canon_empty|].
    split; [split; [unfold canon_c, nonzero_c; cbn [c_a c_b c_c]; split_and!; auto using nonzero_empty|left; auto]|].
    split.
    - intros ρ. destruct (const_lin_reduction_sound p k b c0 ρ Hp Hcc) as (c'' & E'' & _ & _ & Hl' & _).
      assert (c'' = c') as -> by congruence.
      unfold holds; cbn. rewrite Hla, Hlb, Hlc, leval_empty, Ek, leval_singleton, Hl'. cbn [sv].
      replace (0 * 0 - (leval ρ c0 - k * leval ρ b)) with (k * 1 * leval ρ b - leval ρ c0) by lia. reflexivity.
    - intros j [H|[H|H]]; cbn in H; try (destruct H as [_ [w Hw]]; rewrite lookup_empty in Hw; discriminate).
      destruct H as [Hj H]. apply Hj' in H. destruct H as [H|[H|H]]; [contradiction| |].
      + right; left; apply Hin; split; assumption.
      + right; right; apply Hin; split; assumption. }
  destruct (is_constant_expr b) eqn:Ecb.
  { apply is_constant_expr_true in Ecb. destruct Ecb as [k Ek].
    rewrite Ek.
    destruct (const_lin_reduction_sound p k a c0 (fun _ => 0) Hp Hcc) as (c' & E' & Hn' & Hc' & _ & Hj').
    rewrite E'. cbn. eexists; split; [reflexivity|].
    split; [unfold canon_c, nonzero_c; cbn [c_a c_b c_c]; split_and!; auto using canon_empty|].
    split; [split; [unfold canon_c, nonzero_c; cbn [c_a c_b c_c]; split_and!; auto using nonzero_empty|left; auto]|].
    split.
    - intros ρ. destruct (const_lin_reduction_sound p k a c0 ρ Hp Hcc) as (c'' & E'' & _ & _ & Hl' & _).
      assert (c'' = c') as -> by congruence.
      unfold holds; cbn. rewrite Hla, Hlb, Hlc, leval_empty, Ek, leval_singleton, Hl'. cbn [sv].
      replace (0 * 0 - (leval ρ c0 - k * leval ρ a)) with (leval ρ a * (k * 1) - leval ρ c0) by lia. reflexivity.
    - intros j [H|[H|H]]; cbn in H; try (destruct H as [_ [w Hw]]; rewrite lookup_empty in Hw; discriminate).
      destruct H as [Hj H]. apply Hj' in H. destruct H as [H|[H|H]]; [contradiction| |].
      + left; apply Hin; split; assumption.
      + right; right; apply Hin; split; assumption. }
  eexists; split; [reflexivity|]. split; [unfold canon_c, nonzero_c; cbn [c_a c_b c_c]; split_and!; assumption|].
  split; [split; [unfold canon_c, nonzero_c; cbn [c_a c_b c_c]; split_and!; apply remove_zeros_nonzero|right; cbn]|].
  { unfold canon_c, nonzero_c; cbn [c_a c_b c_c]; split_and!; try assumption.
    - intros H. apply is_constant_expr_true in H. congruence.
    - intros H. apply is_constant_expr_true in H. congruence. }
  split.
  - intros ρ. unfold holds; cbn. rewrite Hla, Hlb, Hlc. reflexivity.
  - intros j [H|[H|H]]; cbn in H; apply Hin in H; unfold in_c; tauto.
Qed.

Lemma fix_constraint_idem p c : normal_form c -> fix_constraint c p = Ok c.
Proof.
  intros [(Na & Nb & Nc) Hs]. unfold fix_constraint.
  rewrite !remove_zeros_id by assumption. destruct c as [a b c]; cbn in *.
  destruct Hs as [[-> ->]|(Ha & Hb & Hca & Hcb)]; [reflexivity|].
  apply is_empty_map_false in Ha, Hb. rewrite Ha, Hb. cbn.
  destruct (is_constant_expr a) eqn:E; [apply is_constant_expr_true in E; contradiction|].
  destruct (is_constant_expr b) eqn:E'; [apply is_constant_expr_true in E'; contradiction|].
  reflexivity.
Qed.

(** ** whole expression trees *)
Lemma amul_none_l p l r ρ : aval ρ l = None -> amul l r p = NonQuadratic.
Proof. destruct l; cbn; intros; try discriminate. destruct r; reflexivity. Qed.
Lemma amul_none_r p l r ρ : aval ρ r = None -> amul l r p = NonQuadratic.
Proof. destruct r; cbn; intros; try discriminate. destruct l; reflexivity. Qed.
Lemma aadd_none_l p l r ρ : aval ρ l = None -> aadd l r p = Ok NonQuadratic.
Proof. destruct l; cbn; intros; try discriminate. destruct r; reflexivity. Qed.
Lemma aadd_none_r p l r ρ : aval ρ r = None -> aadd l r p = Ok NonQuadratic.
Proof. destruct r; cbn; intros; try discriminate. destruct l; reflexivity. Qed.

Lemma amul_wf p l r : 0 < p -> wf_expr l -> wf_expr r -> wf_expr (amul l r p).
Proof.
  intros Hp Hl Hr. destruct (aval (fun _ => 0) l) eqn:El; [|rewrite (amul_none_l _ _ _ _ El); exact I].
  destruct (aval (fun _ => 0) r) eqn:Er; [|rewrite (amul_none_r _ _ _ _ Er); exact I].
  eapply amul_sound; eauto.
Qed.
Lemma amul_canon p l r : 0 < p -> wf_expr l -> wf_expr r -> canon_expr p l -> canon_expr p r -> canon_expr p (amul l r p).
Proof.
  intros Hp Hl Hr. destruct (aval (fun _ => 0) l) eqn:El; [|rewrite (amul_none_l _ _ _ _ El); intros; exact I].
  destruct (aval (fun _ => 0) r) eqn:Er; [|rewrite (amul_none_r _ _ _ _ Er); intros; exact I].
  intros. destruct (amul_sound p l r _ _ _ Hp Hl Hr El Er) as (_ & B & _). auto.
Qed.
Lemma aadd_wf_canon p l r : 0 < p -> wf_expr l -> wf_expr r ->
  exists e, aadd l r p = Ok e /\ wf_expr e /\ (canon_expr p l -> canon_expr p r -> canon_expr p e).
Proof.
  intros Hp Hl Hr. destruct (aval (fun _ => 0) l) eqn:El; [|rewrite (aadd_none_l _ _ _ _ El); exists NonQuadratic; cbn; auto].
  destruct (aval (fun _ => 0) r) eqn:Er; [|rewrite (aadd_none_r _ _ _ _ Er); exists NonQuadratic; cbn; auto].
  destruct (aadd_sound p l r _ _ _ Hp Hl Hr El Er) as (e & A & B & C & _). eauto.
Qed.

Lemma apow_sound p l k e ρ x :
  0 < p -> wf_expr l -> aval ρ l = Some x -> 0 <= k -> apow l (Number k) p = Ok e ->
  wf_expr e /\ (canon_expr p l -> canon_expr p e) /\ forall v, aval ρ e = Some v -> v =[p]= x ^ k.
Proof.
  intros Hp Hl Ex Hk E.
  destruct l as [vl|sl|ml|la lb lc|]; cbn [aval] in Ex; try discriminate; cbn [apow] in E.
  - injection Ex as <-. rewrite pow_spec in E by lia. injection E as <-. cbn.
    split; [exact I|]. split; [intros _; apply Z.mod_pos_bound; lia|].
    intros v [= <-]. unfold cong. apply Z.mod_mod; lia.
  - destruct (Z.eqb_spec k 2) as [->|]; injection E as <-; [|cbn; split_and!; auto; discriminate].
    destruct (amul_sound p (Signal sl) (Signal sl) ρ x x Hp I I Ex Ex) as (A & B & C).
    split; [exact A|]. split; [intros; apply B; exact I|].
    intros v Hv. rewrite (C v Hv). apply cong_eq. rewrite Z.pow_2_r. reflexivity.
  - destruct (Z.eqb_spec k 2) as [->|]; injection E as <-; [|cbn; split_and!; auto; discriminate].
    destruct (amul_sound p (Linear ml) (Linear ml) ρ x x Hp Hl Hl Ex Ex) as (A & B & C).
    split; [exact A|]. split; [auto|].
    intros v Hv. rewrite (C v Hv). apply cong_eq. rewrite Z.pow_2_r. reflexivity.
  - injection E as <-. cbn. split_and!; auto; discriminate.
Qed.

Lemma asub_none p l r ρ : aval ρ l = None \/ aval ρ r = None -> asub l r p = Ok NonQuadratic.
Proof.
  intros [H|H]; unfold asub; [eapply aadd_none_l; eauto|].
  rewrite (amul_none_r _ _ _ _ H). eapply (aadd_none_r _ _ _ ρ). reflexivity.
Qed.
Lemma asub_wf_canon p l r : 0 < p -> wf_expr l -> wf_expr r ->
  exists e, asub l r p = Ok e /\ wf_expr e /\ (canon_expr p l -> canon_expr p r -> canon_expr p e).
Proof.
  intros Hp Hl Hr. destruct (aval (fun _ => 0) l) eqn:El; [|rewrite (asub_none p l r (fun _ => 0)) by auto; exists NonQuadratic; cbn; auto].
  destruct (aval (fun _ => 0) r) eqn:Er; [|rewrite (asub_none p l r (fun _ => 0)) by auto; exists NonQuadratic; cbn; auto].
  destruct (asub_sound p l r _ _ _ Hp Hl Hr El Er) as (e & A & B & C & _). eauto.
Qed.

(** substitution on expressions *)
Lemma asubst_sound p e s ρ :
  0 < p -> sub_holds p ρ s -> s_from s <> 0%nat ->
  match aval ρ e, aval ρ (asubst e s p) with
  | Some x, Some y => x =[p]= y
  | None, None => True
  | _, _ => False
  end.
Proof.
  intros Hp Hs Hf. destruct e as [v|x|m|a b c|]; cbn [aval asubst]; try reflexivity; try exact I.
  - destruct (Nat.eqb_spec x (s_from s)) as [->|]; cbn; [assumption|reflexivity].
  - rewrite leval_remove_zeros, leval_raw_subst by assumption. reflexivity.
  - rewrite !leval_remove_zeros, !leval_raw_subst by assumption. reflexivity.
Qed.

(** ** shape tests *)
Lemma size2 (m : lin) x y : map_to_list m = [x; y] -> m = {[ x.1 := x.2; y.1 := y.2 ]} /\ x.1 <> y.1.
Proof.
  intros H. pose proof (NoDup_fst_map_to_list m) as Hn. rewrite H in Hn. cbn in Hn.
  apply NoDup_cons in Hn. destruct Hn as [Hn _]. split; [|set_solver].
  rewrite <- (list_to_map_to_list m), H. cbn. destruct x, y; reflexivity.
Qed.
Lemma is_equality_spec p c : 0 < p -> canon_c p c ->
  is_equality c p = true <->
  c_a c = ∅ /\ c_b c = ∅ /\
  exists x y vx vy, x <> 0%nat /\ y <> 0%nat /\ x <> y /\ c_c c = {[ x := vx; y := vy ]} /\ vx + vy =[p]= 0.
Proof.
  intros Hp (Ha & Hb & Hc). unfold is_equality. rewrite !andb_true_iff, !is_empty_map_true.
  assert (Hneg : forall u v, 0 <= u < p -> 0 <= v < p -> (mul (-1) v p =? u = true <-> u + v =[p]= 0)).
  { intros u v Hu Hv. rewrite Z.eqb_eq, mul_mod by lia. split.
    - intros <-. unfold cong. rewrite Z.add_mod_idemp_l by lia. f_equal; lia.
    - intros H. rewrite <- (Z.mod_small u p) by lia. unfold cong in H.
      assert (H2 : -1 * v =[p]= u).
      { transitivity (u - (u + v)); [apply cong_eq; lia|]. unfold cong in *.
        change (u - (u + v) =[p]= u). rewrite (H : u + v =[p]= 0). apply cong_eq; lia. }
      exact H2. }
  split.
  - intros [[[Ea Eb] Ecc] Em]. split; [assumption|]. split; [assumption|].
    destruct (map_to_list (c_c c)) as [|[k0 v0] [|[k1 v1] [|]]] eqn:El; try discriminate.
    destruct (size2 _ _ _ El) as [E Hne]. cbn in E, Hne.
    assert (H0 : c_c c !! k0 = Some v0) by (apply elem_of_map_to_list; rewrite El; set_solver).
    assert (H1 : c_c c !! k1 = Some v1) by (apply elem_of_map_to_list; rewrite El; set_solver).
    unfold cc in Ecc. exists k0, k1, v0, v1.
    split; [intros ->; rewrite H0 in Ecc; discriminate|].
    split; [intros ->; rewrite H1 in Ecc; discriminate|].
    split; [assumption|]. split; [assumption|].
    apply Hneg; [apply (Hc k0)|apply (Hc k1)|]; assumption.
  - intros (Ea & Eb & x & y & vx & vy & Hx & Hy & Hxy & E & Hs).
    assert (H0 : c_c c !! x = Some vx) by (rewrite E; apply lookup_insert).
    assert (H1 : c_c c !! y = Some vy) by (rewrite E, lookup_insert_ne, lookup_singleton; auto).
    split; [split; [auto|]|].
    + unfold cc. rewrite E, lookup_insert_ne, lookup_singleton_ne; auto.
    + assert (Hp2 : map_to_list (c_c c) ≡ₚ [(x,vx);(y,vy)]).
      { rewrite E. rewrite map_to_list_insert by (apply lookup_singleton_ne; auto).
        rewrite map_to_list_singleton. reflexivity. }
      assert (Hlen : length (map_to_list (c_c c)) = 2%nat) by (rewrite Hp2; reflexivity).
      destruct (map_to_list (c_c c)) as [|[k0 v0] [|[k1 v1] [|]]] eqn:El; try discriminate.
      apply Hneg.
      * apply (Hc k0). apply elem_of_map_to_list. rewrite El. set_solver.
      * apply (Hc k1). apply elem_of_map_to_list. rewrite El. set_solver.
      * apply Permutation_length_2 in Hp2. destruct Hp2 as [[[= -> ->] [= -> ->]]|[[= -> ->] [= -> ->]]]; [assumption|].
        rewrite Z.add_comm. assumption.
Qed.

Global Instance canon_dec p m : Decision (canon p m).
Proof. unfold canon. apply _. Defined.
Global Instance nonzero_dec m : Decision (nonzero m).
Proof. unfold nonzero. apply _. Defined.
Global Instance canon_c_dec p c : Decision (canon_c p c).
Proof. unfold canon_c. apply _. Defined.
Ltac decide_now := apply (bool_decide_unpack _); vm_compute; exact I.
Global Instance constraint_eq_dec : EqDecision constraint.
Proof. solve_decision. Defined.
Global Instance substitution_eq_dec : EqDecision substitution.
Proof. solve_decision. Defined.
