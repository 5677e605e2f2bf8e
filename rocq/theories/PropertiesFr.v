(** C54: the field library of the C++ witness calculator computes what the compiler computes. *)
From Coq Require Import ZArith List Bool Lia Znumtheory.
From Verif Require Import ModArithModel ModArithProofs PropertiesArith FrModel FrSpec FrProofs.
Import ListNotations.
Open Scope Z_scope.

(** The primes of constants.rs:3-13 that are compiled with this library (all but goldilocks). *)
Definition library_primes : list Z :=
  [ 21888242871839275222246405745257275088548364400416034343698204186575808495617;
    52435875175126190479447740508185965837690552500527637822603658699938581184513;
    21888242871839275222246405745257275088696311157297823662689037894645226208583;
    28948022309329048855892746252171976963363056481941560715954676764349967630337;
    28948022309329048855892746252171976963363056481941647379679742748393362948097;
    115792089210356248762697446949407573530086143415290314195533631308867097853951;
    8444461749428370424248824938781546531375899335154063827935233455917409239041 ].
Definition usableb (p : Z) : bool :=
  Z.odd p && (2 ^ 62 <? p) && (Z.log2 p <? 2 ^ 31) && (p * (2 ^ 64 + 1) <=? radix p * 2 ^ 64).
Lemma usableb_ok p : usableb p = true -> usable p.
Proof.
  unfold usableb, usable. intros H. apply andb_prop in H as [H H4]. apply andb_prop in H as [H H3].
  apply andb_prop in H as [H1 H2]. apply Z.ltb_lt in H2, H3. apply Z.leb_le in H4. auto.
Qed.
Theorem C54_supported_primes_usable : Forall usable library_primes.
Proof.
  apply Forall_forall. intros p Hp. apply usableb_ok.
  assert (forallb usableb library_primes = true) as H by (vm_compute; reflexivity).
  exact (proj1 (forallb_forall _ _) H p Hp).
Qed.
Print Assumptions C54_supported_primes_usable.
Theorem C54_parameters_exist : forall p, usable p -> exists P, fr_params p = Some P.
Proof. exact params_exist. Qed.
Print Assumptions C54_parameters_exist.

Section ops.
Context (p : Z) (P : params) (junk : fr).
Hypothesis HU : usable p.
Hypothesis HP : fr_params p = Some P.
Let HF : facts p P := params_facts p P HU HP.
Let Ho : Z.odd p = true := proj1 HU.
Let Hp : 2 ^ 62 < p := proj1 (proj2 HU).
Let Hl : Z.log2 p < 2 ^ 31 := proj1 (proj2 (proj2 HU)).

Section binary.
Context (m : memory) (r a b : addr) (x y : Z).
Hypothesis Ha : r <> a.
Hypothesis Hb : r <> b.
Hypothesis Ra : represents p (m a) x.
Hypothesis Rb : represents p (m b) y.
Let Hx : 0 <= x < p := rep_range p _ _ Ra.
Let Hy : 0 <= y < p := rep_range p _ _ Rb.

Lemma ring_ops : yields p m r (fr_add P junk m r a b) (add x y p) /\ yields p m r (fr_sub P junk m r a b) (sub x y p) /\
  yields p m r (fr_mul P m r a b) (mul x y p).
Proof.
  rewrite add_mod, sub_mod, mul_mod by lia.
  split; [|split]; [apply fr_add_ok|apply fr_sub_ok|apply fr_mul_ok]; assumption.
Qed.
Lemma unary_ops : yields p m r (fr_neg P m r a) (prefix_sub x p) /\ yields p m r (fr_square P m r a) (mul x x p) /\
  yields p m r (fr_bnot P junk m r a) (complement x p).
Proof.
  pose proof (F_nbp _ _ HF). rewrite prefix_sub_mod, mul_mod, complement_spec by lia.
  split; [|split].
  - apply fr_neg_ok; assumption.
  - apply fr_square_ok; assumption.
  - apply fr_bnot_ok; assumption.
Qed.
Lemma lnot_op : yields p m r (fr_lnot m r a) (not x p).
Proof.
  rewrite not_spec by lia. rewrite (Z.mod_small x p) by lia.
  unfold fr_lnot. rewrite (fr_is_true_spec p Ho Hp _ _ Ra), negb_involutive.
  exact (y_bool p Ho Hp m r (x =? 0)).
Qed.
Lemma is_true_op : fr_is_true (m a) = as_bool x p.
Proof. rewrite as_bool_spec by lia. rewrite (Z.mod_small x p) by lia. exact (fr_is_true_spec p Ho Hp _ _ Ra). Qed.
Lemma order_ops : yields p m r (fr_lt P junk m r a b) (lesser x y p) /\ yields p m r (fr_leq P junk m r a b) (lesser_eq x y p) /\
  yields p m r (fr_gt P junk m r a b) (greater x y p) /\ yields p m r (fr_geq P junk m r a b) (greater_eq x y p) /\
  yields p m r (fr_eq P junk m r a b) (eq x y p) /\ yields p m r (fr_neq P junk m r a b) (not_eq x y p).
Proof.
  pose proof (cmp_all x y p ltac:(lia) Ho) as K. cbv zeta in K.
  rewrite !(ctr_comparable p Ho Hp) in K by assumption. destruct K as (-> & -> & -> & -> & -> & ->).
  unfold fr_lt, fr_leq, fr_gt, fr_geq, fr_eq, fr_neq.
  rewrite (fr_rlt_spec p P junk HF Ho Hp _ _ _ _ Ra Rb), (fr_rgt_spec p P junk HF Ho Hp _ _ _ _ Ra Rb), (fr_req_spec p P junk HF Ho Hp _ _ _ _ Ra Rb).
  rewrite (ctr_eqb p Ho Hp x y Hx Hy), (Z.eqb_sym y x), <- !Z.leb_antisym. repeat (split; [apply (y_bool p Ho Hp)|]); apply (y_bool p Ho Hp).
Qed.
Lemma logic_ops : yields p m r (fr_land m r a b) (bool_and x y p) /\ yields p m r (fr_lor m r a b) (bool_or x y p).
Proof.
  rewrite bool_and_spec, bool_or_spec by lia. unfold fr_land, fr_lor.
  rewrite (fr_is_true_spec p Ho Hp _ _ Ra), (fr_is_true_spec p Ho Hp _ _ Rb), !(Z.mod_small _ p) by assumption.
  split; apply (y_bool p Ho Hp).
Qed.
Lemma bit_ops : yields p m r (fr_band P junk m r a b) (bit_and x y p) /\ yields p m r (fr_bor P junk m r a b) (bit_or x y p) /\
  yields p m r (fr_bxor P junk m r a b) (bit_xor x y p).
Proof.
  unfold bit_and, bit_or, bit_xor. rewrite !modulus_mod by lia.
  split; [|split]; apply (fr_bits_ok p P junk HF Ho Hp); auto; first [exact (land_closed p Ho)|exact (lor_closed p Ho)|exact (lxor_closed p Ho)].
Qed.
Lemma shift_ops fuel v : (2 <= fuel)%nat ->
  (shift_l fuel x y p = Ok v -> yields p m r (fr_shl P junk m r a b) v) /\
  (shift_r fuel x y p = Ok v -> yields p m r (fr_shr P junk m r a b) v) /\
  (shift_l fuel x y p = DivisionByZero -> yields p m r (fr_shl P junk m r a b) 0) /\
  (shift_r fuel x y p = DivisionByZero -> yields p m r (fr_shr P junk m r a b) 0).
Proof.
  intros Hfu. pose proof (C05_shifts_exact fuel p x y Hfu ltac:(lia) Hx Hy) as K. cbv zeta in K.
  destruct K as [-> ->]. pose proof (fr_shl_ok p P junk HF Ho Hp Hl m r a b x y Ha Ra Rb) as YL.
  pose proof (fr_shr_ok p P junk HF Ho Hp Hl m r a b x y Ha Ra Rb) as YR.
  pose proof (bits_small p Ho Hp Hl) as (_ & HB & _). rewrite <- bits_log2 by lia.
  destruct (y <=? p / 2) eqn:Eh.
  - destruct (Z.ltb_spec y (2 ^ 64)).
    + split; [|split; [|split; discriminate]]; intros E; injection E as <-; assumption.
    + split; [discriminate|split; [discriminate|]].
      rewrite (shl_val_0 p P HF Ho Hp x y) in YL by (unfold B in HB; lia).
      rewrite (shr_val_0 p P HF Ho Hp x y) in YR by (assumption || unfold B in HB; lia). auto.
  - destruct (Z.ltb_spec (p - y) (2 ^ 64)).
    + split; [|split; [|split; discriminate]]; intros E; injection E as <-; assumption.
    + split; [discriminate|split; [discriminate|]].
      rewrite (shl_val_0 p P HF Ho Hp x (p - y)) in YR by (unfold B in HB; lia).
      rewrite (shr_val_0 p P HF Ho Hp x (p - y)) in YL by (assumption || unfold B in HB; lia). auto.
Qed.
Lemma quot_ops :
  (y <> 0 -> exists v w m1 m2, idiv x y p = Ok v /\ mod_op x y p = Ok w /\
     fr_idiv P junk m r a b = Some m1 /\ yields p m r m1 v /\ fr_mod P junk m r a b = Some m2 /\ yields p m r m2 w) /\
  (y = 0 -> fr_idiv P junk m r a b = None /\ fr_mod P junk m r a b = None).
Proof.
  unfold fr_idiv, fr_mod. rewrite (to_mpz_spec p P junk HF Ho Hp _ _ Ra), (to_mpz_spec p P junk HF Ho Hp _ _ Rb). split.
  - intros N. destruct (Z.eqb_spec y 0); [contradiction|].
    destruct (idiv_spec x y p ltac:(lia)) as [_ E1]. destruct (mod_op_spec x y p ltac:(lia)) as [_ E2].
    rewrite !(Z.mod_small _ p) in E1, E2 by assumption.
    rewrite (E1 N), (E2 N). do 4 eexists. repeat (split; [reflexivity|]). split; [|split; [reflexivity|]].
    + apply (from_mpz_ok p Ho Hp). split; [apply Z.div_pos; lia|].
      pose proof (Z.div_le_upper_bound x y x ltac:(lia) ltac:(nia)). lia.
    + apply (from_mpz_ok p Ho Hp). pose proof (Z.mod_pos_bound x y ltac:(lia)). lia.
  - intros ->. auto.
Qed.
Lemma pow_op v : pow x y p = Ok v -> yields p m r (fr_pow P junk m r a b) v.
Proof.
  rewrite pow_spec by lia. intros E. injection E as <-. unfold fr_pow.
  rewrite (to_mpz_spec p P junk HF Ho Hp _ _ Ra), (to_mpz_spec p P junk HF Ho Hp _ _ Rb), (F_q _ _ HF).
  apply (from_mpz_ok p Ho Hp). apply Z.mod_pos_bound. lia.
Qed.
Lemma div_op : a <> Tmp -> b <> Tmp -> r <> Tmp ->
  (forall v, div x y p = Ok v -> exists m', fr_div P junk m r a b = Some m' /\ yields p m r m' v) /\
  (div x y p = DivisionByZero <-> fr_div P junk m r a b = None).
Proof.
  intros Na Nb Nr. unfold fr_div, fr_inv. rewrite store_other by congruence.
  rewrite (to_mpz_spec p P junk HF Ho Hp _ _ Rb), (F_q _ _ HF). unfold div.
  destruct (mod_inverse y p) as [i|] eqn:Ei; [|split; [discriminate|tauto]].
  split; [|split; discriminate]. intros v E. injection E as <-. eexists. split; [reflexivity|].
  apply mod_inverse_some in Ei as [Hi _]; [|lia].
  destruct (from_mpz_ok p Ho Hp (store m Tmp junk) Tmp i Hi) as [R1 F1].
  set (m1 := from_mpz _ _ _) in *.
  assert (represents p (m1 a) x) as Ra1 by (rewrite F1, store_other by congruence; exact Ra).
  destruct (fr_mul_ok p P HF Ho Hp m1 r a Tmp x i Ha Nr Ra1 R1) as [R2 F2].
  rewrite mul_mod by lia. split.
  - rewrite store_other by congruence. exact R2.
  - intros c Hc. destruct c as [k|].
    + rewrite store_other, F2, F1, store_other by congruence. reflexivity.
    + apply store_same.
Qed.
End binary.
End ops.

(** ** C54 *)
(** Whatever the representations of the operands, and provided the result is written to another element, the
    library yields the value that the compiler computes for the same operation, and changes nothing else. *)
Theorem C54_ring_operations : forall p P junk m r a b x y, usable p -> fr_params p = Some P ->
  r <> a -> r <> b -> represents p (m a) x -> represents p (m b) y ->
  yields p m r (fr_add P junk m r a b) (add x y p) /\ yields p m r (fr_sub P junk m r a b) (sub x y p) /\
  yields p m r (fr_mul P m r a b) (mul x y p) /\ yields p m r (fr_neg P m r a) (prefix_sub x p) /\
  yields p m r (fr_square P m r a) (mul x x p).
Proof.
  intros p P junk m r a b x y HU HP Ha Hb Ra Rb.
  pose proof (ring_ops p P junk HU HP m r a b x y Ha Hb Ra Rb).
  pose proof (unary_ops p P junk HU HP m r a x Ha Ra). tauto.
Qed.
Print Assumptions C54_ring_operations.
(** The comparisons and the logical operations; here the result may be one of the operands. *)
Theorem C54_comparisons_and_logic : forall p P junk m r a b x y, usable p -> fr_params p = Some P ->
  represents p (m a) x -> represents p (m b) y ->
  yields p m r (fr_lt P junk m r a b) (lesser x y p) /\ yields p m r (fr_leq P junk m r a b) (lesser_eq x y p) /\
  yields p m r (fr_gt P junk m r a b) (greater x y p) /\ yields p m r (fr_geq P junk m r a b) (greater_eq x y p) /\
  yields p m r (fr_eq P junk m r a b) (eq x y p) /\ yields p m r (fr_neq P junk m r a b) (not_eq x y p) /\
  yields p m r (fr_land m r a b) (bool_and x y p) /\ yields p m r (fr_lor m r a b) (bool_or x y p) /\
  yields p m r (fr_lnot m r a) (not x p) /\ fr_is_true (m a) = as_bool x p.
Proof.
  intros p P junk m r a b x y HU HP Ra Rb.
  pose proof (order_ops p P junk HU HP m r a b x y Ra Rb). pose proof (logic_ops p HU m r a b x y Ra Rb).
  pose proof (lnot_op p HU m r a x Ra). pose proof (is_true_op p HU m a x Ra). tauto.
Qed.
Print Assumptions C54_comparisons_and_logic.
Theorem C54_bit_operations : forall p P junk m r a b x y, usable p -> fr_params p = Some P ->
  r <> a -> r <> b -> represents p (m a) x -> represents p (m b) y ->
  yields p m r (fr_band P junk m r a b) (bit_and x y p) /\ yields p m r (fr_bor P junk m r a b) (bit_or x y p) /\
  yields p m r (fr_bxor P junk m r a b) (bit_xor x y p) /\ yields p m r (fr_bnot P junk m r a) (complement x p).
Proof.
  intros p P junk m r a b x y HU HP Ha Hb Ra Rb. pose proof (bit_ops p P junk HU HP m r a b x y Ha Hb Ra Rb).
  pose proof (unary_ops p P junk HU HP m r a x Ha Ra). tauto.
Qed.
Print Assumptions C54_bit_operations.
(** Where the compiler refuses a shift because the amount does not fit 64 bits, the library yields 0. *)
Theorem C54_shifts : forall p P junk m r a b x y fuel v, usable p -> fr_params p = Some P -> (2 <= fuel)%nat ->
  r <> a -> represents p (m a) x -> represents p (m b) y ->
  (shift_l fuel x y p = Ok v -> yields p m r (fr_shl P junk m r a b) v) /\
  (shift_r fuel x y p = Ok v -> yields p m r (fr_shr P junk m r a b) v) /\
  (shift_l fuel x y p = DivisionByZero -> yields p m r (fr_shl P junk m r a b) 0) /\
  (shift_r fuel x y p = DivisionByZero -> yields p m r (fr_shr P junk m r a b) 0).
Proof. intros. apply shift_ops; assumption. Qed.
Print Assumptions C54_shifts.
(** The quotient and the remainder agree, and a zero divisor stops the calculator (GMP divides by zero). *)
Theorem C54_quotient_remainder_power : forall p P junk m r a b x y, usable p -> fr_params p = Some P ->
  represents p (m a) x -> represents p (m b) y ->
  (y <> 0 -> exists v w m1 m2, idiv x y p = Ok v /\ mod_op x y p = Ok w /\
     fr_idiv P junk m r a b = Some m1 /\ yields p m r m1 v /\ fr_mod P junk m r a b = Some m2 /\ yields p m r m2 w) /\
  (y = 0 -> fr_idiv P junk m r a b = None /\ fr_mod P junk m r a b = None) /\
  (forall v, pow x y p = Ok v -> yields p m r (fr_pow P junk m r a b) v).
Proof.
  intros p P junk m r a b x y HU HP Ra Rb.
  destruct (quot_ops p P junk HU HP m r a b x y Ra Rb). split; [assumption|split; [assumption|]].
  intros v. apply pow_op; assumption.
Qed.
Print Assumptions C54_quotient_remainder_power.
Theorem C54_division : forall p P junk m r a b x y, usable p -> fr_params p = Some P ->
  r <> a -> r <> b -> a <> Tmp -> b <> Tmp -> r <> Tmp -> represents p (m a) x -> represents p (m b) y ->
  (forall v, div x y p = Ok v -> exists m', fr_div P junk m r a b = Some m' /\ yields p m r m' v) /\
  (div x y p = DivisionByZero <-> fr_div P junk m r a b = None).
Proof. intros. apply div_op; assumption. Qed.
Print Assumptions C54_division.
(** Reading an integer and printing an element. *)
Theorem C54_text : forall p P junk m r e x v, usable p -> fr_params p = Some P ->
  yields p m r (fr_of_integer P m r v) (v mod p) /\ (represents p e x -> fr_to_integer P junk e = x).
Proof.
  intros p P junk m r e x v HU HP. pose proof (params_facts p P HU HP) as HF. destruct HU as (Ho & Hp & _ & _). split.
  - unfold fr_of_integer. rewrite (F_q _ _ HF). apply (from_mpz_ok p Ho Hp). apply Z.mod_pos_bound. lia.
  - apply (to_integer_spec p P junk HF Ho Hp).
Qed.
Print Assumptions C54_text.
(** The conversion of an element to an [int] (an index, a loop bound) is exact for the values of 32 bits. *)
Theorem C54_to_int : forall p P junk e x i, usable p -> fr_params p = Some P -> represents p e x ->
  - 2 ^ 31 <= i < 2 ^ 31 -> x = i mod p -> fr_to_int P junk e = Some i.
Proof.
  intros p P junk e x i HU HP Re Hi ->. pose proof (params_facts p P HU HP) as HF. destruct HU as (Ho & Hp & _ & _).
  rewrite (fr_to_int_spec p P junk HF Ho Hp e _ Re); rewrite (ctr_short p Ho Hp) by exact Hi; [reflexivity|exact Hi].
Qed.
Print Assumptions C54_to_int.

(** *** A concrete case: the prime bn128, a negative short number, a long number in Montgomery form *)
Definition bn128 : Z := 21888242871839275222246405745257275088548364400416034343698204186575808495617.
Lemma bn128_usable : usable bn128. Proof. apply usableb_ok. vm_compute. reflexivity. Qed.
Definition params_or (p : Z) : params := match fr_params p with Some P => P | None => Params 0 0 0 0 0 0 0 0 false end.
Definition ex_x : Z := bn128 - 7.
Definition ex_y : Z := 2 ^ 200 + 12345.
Definition ex_mem : memory := fun c => match c with
  | Mem 0 => Fr (-7) SHORT 99
  | Mem 1 => Fr 3 LONGMONTGOMERY ((ex_y * radix bn128) mod bn128)
  | _ => Fr 1 LONG 1 end.
Lemma bn128_params : fr_params bn128 = Some (params_or bn128).
Proof. unfold params_or. destruct (params_exist bn128 bn128_usable) as [P ->]. reflexivity. Qed.
Definition value_of (e : fr) : Z := fr_to_integer (params_or bn128) (Fr 0 SHORT 0) e.
Example C54_ex : usable bn128 /\ fr_params bn128 = Some (params_or bn128) /\
  represents bn128 (ex_mem (Mem 0)) ex_x /\ represents bn128 (ex_mem (Mem 1)) ex_y /\
  value_of (fr_add (params_or bn128) (Fr 5 LONG 5) ex_mem (Mem 2) (Mem 0) (Mem 1) (Mem 2)) = 2 ^ 200 + 12338 /\
  value_of (fr_mul (params_or bn128) ex_mem (Mem 2) (Mem 0) (Mem 1) (Mem 2)) = bn128 - 7 * ex_y /\
  value_of (fr_lt (params_or bn128) (Fr 5 LONG 5) ex_mem (Mem 2) (Mem 0) (Mem 1) (Mem 2)) = 1 /\
  value_of (fr_shr (params_or bn128) (Fr 5 LONG 5) ex_mem (Mem 2) (Mem 1) (Mem 0) (Mem 2)) = ex_y * 2 ^ 7 /\
  fr_to_int (params_or bn128) (Fr 5 LONG 5) (ex_mem (Mem 0)) = Some (-7).
Proof.
  split; [exact bn128_usable|]. split; [exact bn128_params|].
  split. { split; [vm_compute; split; [discriminate|reflexivity]|]. cbn [ex_mem f_type f_short f_long]. split; [lia|vm_compute; reflexivity]. }
  split. { split; [vm_compute; split; [discriminate|reflexivity]|]. reflexivity. }
  vm_compute. repeat split.
Qed.

(** *** The result must not be an operand *)
(** With the result in the place of an operand the library is wrong: [Fr_bor(a, a, b)] of two short elements, one of them
    negative, and [Fr_bnot(a, a)] read the operand after its type was overwritten. *)
Definition alias_mem : memory := fun c => match c with Mem 0 => Fr 5 SHORT 99 | Mem 1 => Fr (-1) SHORT 0 | _ => Fr 0 SHORT 0 end.
Theorem C54_result_may_be_an_operand_refuted : exists p P junk m a b x y, usable p /\ fr_params p = Some P /\
  represents p (m a) x /\ represents p (m b) y /\ a <> b /\
  ~ yields p m a (fr_bor P junk m a a b) (bit_or x y p) /\ ~ yields p m a (fr_bnot P junk m a a) (complement x p).
Proof.
  exists bn128, (params_or bn128), (Fr 0 SHORT 0), alias_mem, (Mem 0), (Mem 1), 5, (bn128 - 1).
  split; [exact bn128_usable|]. split; [exact bn128_params|].
  split. { split; [vm_compute; split; [discriminate|reflexivity]|]. cbn [alias_mem f_type f_short f_long]. split; [lia|vm_compute; reflexivity]. }
  split. { split; [vm_compute; split; [discriminate|reflexivity]|]. cbn [alias_mem f_type f_short f_long]. split; [lia|vm_compute; reflexivity]. }
  split; [discriminate|]. split.
  - intros [[_ H] _]. vm_compute in H. discriminate H.
  - intros [[_ H] _]. vm_compute in H. discriminate H.
Qed.
Print Assumptions C54_result_may_be_an_operand_refuted.

(** *** Conversion to [int]: only the lowest word is compared *)
(** An element that is far from 32 bits can be taken for an index: for values in the upper half [Fr_longNeg] looks at
    the lowest word only. *)
Theorem C54_to_int_rejects_large_values_refuted : exists p P junk e x, usable p /\ fr_params p = Some P /\ represents p e x /\
  (forall i, - 2 ^ 31 <= i < 2 ^ 31 -> x <> i mod p) /\ fr_to_int P junk e = Some (-5).
Proof.
  pose (x := bn128 - 5 - 2 ^ 64).
  exists bn128, (params_or bn128), (Fr 0 SHORT 0), (Fr 0 LONG x), x.
  split; [exact bn128_usable|]. split; [exact bn128_params|].
  split. { split; [vm_compute; split; [discriminate|reflexivity]|reflexivity]. }
  split; [|vm_compute; reflexivity].
  intros i Hi E. assert (2 ^ 100 < bn128) by reflexivity. unfold x in E. destruct (Z.lt_ge_cases i 0).
  - rewrite <- (Z.mod_unique i bn128 (-1) (i + bn128)) in E by lia. lia.
  - rewrite Z.mod_small in E by lia. lia.
Qed.
Print Assumptions C54_to_int_rejects_large_values_refuted.
