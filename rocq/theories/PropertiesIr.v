(** C39: folding of addresses; C40: the C++ code of templates and functions; C55: accesses through
    the tables of the data file. *)
From stdpp Require Import prelude numbers list.
From Coq Require Import ZArith Lia.
From Verif Require Import DatModel IrModel IrSpec IrProofs.
Local Open Scope Z_scope.

(** *** C39: folding *)

(** Folding changes no address and no value, in any state. *)
Theorem C39_expressions : forall {V} (w : world V) (m : mem V),
  (forall e e', reduce_f e = Some e' -> den_f w m e' = den_f w m e) /\
  (forall a a', reduce_a a = Some a' -> den_a w m a' = den_a w m a) /\
  (forall d d', reduce_dest d = Some d' -> den_dest w m d' = den_dest w m d).
Proof.
  intros V w m. split; [intros e e'; apply reduce_f_den|]. split; [intros a a'; apply reduce_a_den|].
  intros d d'. apply reduce_dest_den.
Qed.
Print Assumptions C39_expressions.
(** Folding changes no run of a program. *)
Theorem C39_programs : forall {V} (w : world V) parallel sanity rsize fuel l l' m,
  mapM reduce_s l = Some l' ->
  exec_list (exec w parallel sanity rsize fuel) l' m = exec_list (exec w parallel sanity rsize fuel) l m.
Proof. intros V w parallel sanity rsize fuel l l' m. apply reduce_exec_list. Qed.
Print Assumptions C39_programs.

(** An address made of literals only, all of whose parts fit a machine word, becomes the literal of
    its value. *)
Fixpoint closed (a : aexpr) : option Z :=
  match a with
  | AValue v => Some v
  | AAdd a b => x ← closed a; y ← closed b; if decide (0 <= x + y < 2 ^ 64) then Some (x + y) else None
  | AMul a b => x ← closed a; y ← closed b; if decide (0 <= x * y < 2 ^ 64) then Some (x * y) else None
  | AToAddr _ => None
  end.
Theorem C39_constants : forall a z, closed a = Some z -> reduce_a a = Some (AValue z).
Proof.
  fix IH 1. intros [v|a b|a b|f] z H; cbn [closed reduce_a] in *; [congruence| | |done];
    apply bind_Some in H as (x & Hx & H); apply bind_Some in H as (y & Hy & H);
    rewrite (IH a x Hx), (IH b y Hy); cbn; unfold usize; (case_decide; [|done]); injection H as <-; done.
Qed.
Print Assumptions C39_constants.

(** *** C40: the generated code *)

(** The code of any program whose instructions meet [wf_s], with the number of temporaries declared
    for it, does what the instructions say from any state, whatever the temporaries contain:
    it never uses a temporary outside the declared ones, nor the same one as operand and result. *)
Theorem C40_code : forall {V} (w : world V) parallel sanity rsize l fuel (s : cstate V),
  (forall b, w_true w (w_bool w b) = b) -> (1 <= rsize)%nat -> wf_program w parallel l ->
  agrees (exec_list (exec w parallel sanity rsize fuel) l (s_mem s))
         (run_list (run w (build l).2 sanity rsize fuel) (gen parallel sanity (build l).1) s).
Proof. intros. apply program_ok; done. Qed.
Print Assumptions C40_code.
(** The same after folding, which keeps [wf_s]: the two passes and the code generator together. *)
Theorem C40_folded_code : forall {V} (w : world V) parallel sanity rsize l l' fuel (s : cstate V),
  (forall b, w_true w (w_bool w b) = b) -> (1 <= rsize)%nat -> wf_program w parallel l ->
  mapM reduce_s l = Some l' ->
  agrees (exec_list (exec w parallel sanity rsize fuel) l (s_mem s))
         (run_list (run w (build l').2 sanity rsize fuel) (gen parallel sanity (build l').1) s).
Proof.
  intros V w parallel sanity rsize l l' fuel s Ht Hr Hwf H. rewrite <- (reduce_exec_list _ _ _ _ _ _ _ _ H).
  apply program_ok; try done. by eapply reduce_list_wf.
Qed.
Print Assumptions C40_folded_code.
(** For one expression: its code leaves the memory alone and yields a pointer to its value. *)
Theorem C40_expression : forall {V} (w : world V) depth sanity rsize fuel e (s : cstate V),
  (forall b, w_true w (w_bool w b) = b) -> wf_f e -> ((build_f 0 e).1.2 <= depth)%nat ->
  let '(pre, p) := gen_f (build_f 0 e).1.1 in
  match den_f w (s_mem s) e with
  | Some x => exists s', run_list (run w depth sanity rsize fuel) pre s = Ok (s', None) /\ s_mem s' = s_mem s /\
                (l <-- eval_p w depth s' p; cell w depth s' l 0) = Ok (src_cell w (s_mem s) x 0)
  | None => (y <-- run_list (run w depth sanity rsize fuel) pre s; eval_p w depth y.1 p) = Abort
  end.
Proof.
  intros V w depth sanity rsize fuel e s Ht Hwf Hd.
  pose proof (run_f w depth sanity rsize fuel Ht e 0 s Hwf) as H. destruct (build_f 0 e) as [[e' d] f']. cbn [fst snd] in *.
  specialize (H Hd). destruct (gen_f e') as [pre p].
  destruct (run_list _ pre s) as [[s' r]| | |]; [| |done|done].
  - destruct H as (-> & (M & _) & H). destruct (den_f w (s_mem s) e) as [x|].
    + destruct H as (l & Hl & Hden). exists s'. split; [done|]. split; [done|]. rewrite Hl. cbn [res_bind].
      rewrite (denotes_cell _ _ _ _ _ _ _ 0 Hden) by auto. by rewrite M.
    + done.
  - by rewrite H.
Qed.
Print Assumptions C40_expression.

(** A world: integers, addition, product and difference; two dimensions 2 x 3 of elements of size 2 for every
    table entry; functions return the sum of their arguments; a subcomponent doubles its input. *)
Definition zworld (size : Z) (lengths : list Z) : world Z :=
  World (fun _ x => Some (- x)) (fun op x y => Some (if decide (op = 0)%nat then x + y else if decide (op = 1)%nat then x * y else x - y))
        Z.eqb (fun b : bool => if b then 1 else 0) (fun x => negb (Z.eqb x 0)) Some Z.of_nat
        (fun _ _ => IOField 10 lengths size 0) (fun _ _ => IOField 1 lengths size 0)
        (fun _ args n => Some (replicate n (foldr Z.add 0 args)))
        (fun cmp m => Some (write m (LSig (m_start m cmp)) [2 * m_sigs m (m_start m cmp + 1)]))
        (fun _ _ m => Some m).
Definition zmem : mem Z := Mem (fun z => z + 1) (fun z => 100 * z) 50 (fun c => 1000 * (c + 1)) (fun _ => 0) (fun _ => 1) [] [].
Definition zstate (m : mem Z) : cstate Z := CState m (fun _ => 77) 0 (IOField 0 [] 0 0) (fun _ => 0) (fun _ => 0) (CAux 0) (fun _ => 0).
Definition after (r : res (cstate Z * option (list Z))) : mem Z := match r with Ok (s, _) => s_mem s | _ => zmem end.
Definition spec_after (r : res (mem Z * option (list Z))) : mem Z := match r with Ok (m, _) => m | _ => zmem end.

(** [while (v0 - 4) { v[v0] = (v0 * v1) + (v1 - v0); v0 = v0 + 1 }], then an input of subcomponent
    [v1 - 1] is stored, which runs it; then the function is called, and the result is returned.  *)
Definition vload (k : Z) : fexpr := FLoadVar (AValue k).
Definition prog : list stmt :=
  [ SLoop (FOp2 0 2 (vload 0) (FValue 0 4))
      [ SStore (DVar (AToAddr (vload 0))) 1 1
          (FOp2 0 0 (FOp2 0 1 (vload 0) (vload 1)) (FOp2 0 2 (vload 1) (vload 0)));
        SStore (DVar (AAdd (AValue 0) (AMul (AValue 2) (AValue 0)))) 1 1 (FOp2 0 0 (vload 0) (FValue 0 1)) ];
    SStore (DSub (AToAddr (FOp2 0 2 (vload 1) (FValue 0 1))) (Indexed (AAdd (AValue 0) (AValue 1))) (InputInfo Unknown true)) 1 1
      (FOp2 0 0 (vload 2) (FLoadSig (AValue 3)));
    SCall 0 [(vload 1, 2%nat); (FOp2 0 1 (vload 0) (vload 3), 1%nat)] (DVar (AAdd (AValue 3) (AValue 4))) 1;
    SLog [LogExp (vload 7); LogStr 0];
    SReturn 2 (vload 6) ].
Example C40_ex_wf : wf_program (zworld 2 [3]) false prog.
Proof. cbn; unfold size_ok; cbn. split_and!; try done; try lia; repeat constructor; cbn; lia. Qed.
(** The code stops with the expected memory; and folding applies. *)
Example C40_ex :
  let r := run_list (run (zworld 2 [3]) (build prog).2 0 2 10) (gen false 0 (build prog).1) (zstate zmem) in
  match r with
  | Ok (s, v) => v = Some [7; 46] /\ (m_vars (s_mem s) <$> [0; 1; 2; 3; 7]) = [4; 3; 7; 9; 46] /\
                 m_sigs (s_mem s) (m_start zmem 2) = 10614 /\ m_log (s_mem s) = [inl 46; inr None; inr (Some 0%nat); inr None]
  | _ => False
  end /\ (build prog).2 = 3%nat /\ is_Some (mapM reduce_s prog) /\ mapM reduce_s prog <> Some prog.
Proof. vm_compute. split_and!; try done; by eexists. Qed.

(** Without the condition on outputs of parallel templates the code is wrong: the index written in
    [notify] is evaluated again after the right side has overwritten the temporary that holds it.
    Here [out[v3 - v1 + 0] <== v1 * v2] in a parallel template: output 2 is written and output 6 is
    marked as ready. *)
Definition notify_prog : list stmt :=
  [ SStore (DSig (AAdd (AToAddr (FOp2 0 2 (vload 3) (vload 1))) (AValue 0)) true) 1 1 (FOp2 0 1 (vload 1) (vload 2)) ].
Theorem C40_parallel_outputs_refuted : exists (w : world Z) l (s : cstate Z) m s',
  (forall b, w_true w (w_bool w b) = b) /\ wf_program w false l /\
  exec_list (exec w true 0 1 10) l (s_mem s) = Ok (m, None) /\
  run_list (run w (build l).2 0 1 10) (gen true 0 (build l).1) s = Ok (s', None) /\
  m_sigs m 52 = 6 /\ m_sigs (s_mem s') 52 = 6 /\ m_set m = [2] /\ m_set (s_mem s') = [6].
Proof.
  exists (zworld 2 [3]), notify_prog, (zstate zmem). eexists _, _. split; [intros []; done|].
  split; [cbn; unfold size_ok; cbn; split_and!; try done; lia|].
  split; [reflexivity|]. split; [reflexivity|]. vm_compute. split_and!; reflexivity.
Qed.
Print Assumptions C40_parallel_outputs_refuted.
(** A store of size zero copies one element. *)
Theorem C40_empty_store_refuted : exists (w : world Z) l (s : cstate Z) m s',
  (forall b, w_true w (w_bool w b) = b) /\
  exec_list (exec w false 0 1 10) l (s_mem s) = Ok (m, None) /\
  run_list (run w (build l).2 0 1 10) (gen false 0 (build l).1) s = Ok (s', None) /\
  m_vars m 0 = 1 /\ m_vars (s_mem s') 0 = 6.
Proof.
  exists (zworld 2 [3]), [SStore (DVar (AValue 0)) 0 0 (vload 5)], (zstate zmem). eexists _, _. split; [intros []; done|].
  split; [reflexivity|]. split; [reflexivity|]. vm_compute. split; reflexivity.
Qed.
Print Assumptions C40_empty_store_refuted.

(** *** C55: accesses through the tables *)

(** Row-major positions: indexes within their dimensions designate slices that do not overlap. *)
Fixpoint in_range (len : nat -> Z) (j : nat) (ixs : list Z) : Prop :=
  match ixs with [] => True | i :: r => 0 <= i < len j /\ in_range len (S j) r end.
Definition slice (len : nat -> Z) (dim k : nat) : Z := foldr Z.mul 1 (len <$> seq k (dim - k)).
Lemma row_major_bound len dim ixs a : forall j, in_range len j ixs -> (j + length ixs <= dim)%nat ->
  0 <= a < slice len dim (j + length ixs) -> 0 <= row_major len dim j ixs + a < slice len dim j.
Proof.
  induction ixs as [|i ixs IH]; intros j H HL Ha; cbn [row_major length in_range] in *.
  - rewrite Nat.add_0_r in Ha. lia.
  - destruct H as [Hi H]. replace (j + S (length ixs))%nat with (S j + length ixs)%nat in Ha by lia.
    specialize (IH (S j) H ltac:(lia) Ha). unfold slice at 1. replace (dim - j)%nat with (S (dim - S j)) by lia.
    cbn [seq fmap list_fmap foldr]. unfold stride, slice in *. nia.
Qed.
Theorem C55_row_major : forall len dim xs ys a b, in_range len 0 xs -> in_range len 0 ys -> length xs = length ys ->
  (length xs <= dim)%nat -> 0 <= a < slice len dim (length xs) -> 0 <= b < slice len dim (length xs) ->
  0 <= row_major len dim 0 xs + a < slice len dim 0 /\
  (row_major len dim 0 xs + a = row_major len dim 0 ys + b -> xs = ys /\ a = b).
Proof.
  intros len dim xs ys a b Hx Hy HL Hd Ha Hb. split; [by apply row_major_bound|].
  assert (HG : forall j, in_range len j xs -> in_range len j ys -> (j + length xs <= dim)%nat ->
    0 <= a < slice len dim (j + length xs) -> 0 <= b < slice len dim (j + length xs) ->
    row_major len dim j xs + a = row_major len dim j ys + b -> xs = ys /\ a = b).
  { clear Hx Hy Hd Ha Hb. revert ys HL. induction xs as [|x xs IH]; intros [|y ys] HL j Hx Hy Hd Ha Hb E; cbn in HL; try lia.
    - cbn in E. split; [done|lia].
    - cbn [in_range row_major length] in *. destruct Hx as [Hx1 Hx], Hy as [Hy1 Hy].
      replace (j + S (length xs))%nat with (S j + length xs)%nat in Ha, Hb, Hd by lia.
      pose proof (row_major_bound len dim xs a (S j) Hx ltac:(lia) Ha) as Bx.
      pose proof (row_major_bound len dim ys b (S j) Hy ltac:(lia) ltac:(by injection HL as <-)) as By.
      change (stride len dim j) with (slice len dim (S j)) in E.
      set (S0 := slice len dim (S j)) in *. set (u := row_major len dim (S j) xs + a) in *.
      set (v := row_major len dim (S j) ys + b) in *.
      assert (x = y) as -> by nia.
      destruct (IH ys ltac:(lia) (S j) Hx Hy Hd Ha Hb) as [-> ->]; [unfold u, v in *; lia|]. done. }
  apply (HG 0%nat); done.
Qed.
Print Assumptions C55_row_major.
Example C55_row_major_ex : in_range (fun t => if decide (t = 0)%nat then 2 else 3) 0 [1; 2] /\
  row_major (fun t => if decide (t = 0)%nat then 2 else 3) 2 0 [1; 2] = 5.
Proof. vm_compute. split_and!; done. Qed.

(** A load from a subcomponent whose template is only known at run time reads the element that the
    tables describe: the offset of the signal, plus, for each access by indexes, the row-major
    position times the size of an element, plus, for each access by name, the offset of the field.
    Conditions ([wf_f]): every access by indexes has one index or as many as dimensions. *)
Theorem C55_load : forall {V} (w : world V) depth sanity rsize fuel cmp code acc (s : cstate V) c x,
  (forall b, w_true w (w_bool w b) = b) ->
  let e := FLoadSub cmp (Mapped code acc) in
  wf_f e -> ((build_f 0 e).1.2 <= depth)%nat ->
  den_a w (s_mem s) cmp = Some c -> den_x w (s_mem s) (w_io w (m_tpl (s_mem s) c) code) acc = Some x ->
  let '(pre, p) := gen_f (build_f 0 e).1.1 in
  exists s', run_list (run w depth sanity rsize fuel) pre s = Ok (s', None) /\ s_mem s' = s_mem s /\
    eval_p w depth s' p =
    Ok (CMem (LSig (m_start (s_mem s) c + (i_offset (w_io w (m_tpl (s_mem s) c) code) + x)))).
Proof.
  intros V w depth sanity rsize fuel cmp code acc s c x Ht e Hwf Hd Hc Hx.
  pose proof (run_f w depth sanity rsize fuel Ht e 0 s Hwf) as H.
  assert (E : den_f w (s_mem s) e = Some (SrcMem (LSig (m_start (s_mem s) c + (i_offset (w_io w (m_tpl (s_mem s) c) code) + x))))).
  { unfold e. autorewrite with den. rewrite Hc. cbn [mbind option_bind]. autorewrite with den. rewrite Hx. done. }
  rewrite E in H. clearbody e. destruct (build_f 0 e) as [[e' d] f']. cbn [fst snd] in *.
  specialize (H Hd). destruct (gen_f e') as [pre p].
  destruct (run_list _ pre s) as [[s' r]| | |]; try done.
  destruct H as (-> & (M & _) & l & Hl & Hden). exists s'. split; [done|]. split; [done|]. rewrite Hl. cbn in Hden. by rewrite Hden.
Qed.
Print Assumptions C55_load.
(** A store writes there. Conditions ([wf_dest]): one index, or as many as dimensions and elements
    of size one. *)
Theorem C55_store : forall {V} (w : world V) depth sanity rsize fuel cmp code acc info (s : cstate V) c x,
  (forall b, w_true w (w_bool w b) = b) ->
  let d := DSub cmp (Mapped code acc) info in
  wf_dest w false d -> ((build_dest 0 d).2 <= depth)%nat ->
  den_a w (s_mem s) cmp = Some c -> den_x w (s_mem s) (w_io w (m_tpl (s_mem s) c) code) acc = Some x ->
  let '(pre, p) := gen_dest (build_dest 0 d).1 in
  exists s', run_list (run w depth sanity rsize fuel) pre s = Ok (s', None) /\ s_mem s' = s_mem s /\
    eval_p w depth s' p =
    Ok (CMem (LSig (m_start (s_mem s) c + (i_offset (w_io w (m_tpl (s_mem s) c) code) + x)))).
Proof.
  intros V w depth sanity rsize fuel cmp code acc info s c x Ht d Hwf Hd Hc Hx.
  pose proof (dest_ok w depth sanity rsize fuel Ht false d 0 Hwf) as H.
  assert (E : den_dest w (s_mem s) d = Some (LSig (m_start (s_mem s) c + (i_offset (w_io w (m_tpl (s_mem s) c) code) + x)))).
  { unfold d. cbn [den_dest]. rewrite Hc. cbn [mbind option_bind]. autorewrite with den. rewrite Hx. done. }
  clearbody d. destruct (build_dest 0 d) as [d' dd]. cbn [fst snd] in *.
  specialize (H Hd). destruct (gen_dest d') as [pre p]. specialize (H s). rewrite E in H.
  destruct (run_list _ pre s) as [[s' r]| | |]; try done.
  destruct H as (-> & M & _ & _ & Hl). by exists s'.
Qed.
Print Assumptions C55_store.
(** [c[v1].out[v0][v2].f] in an array of dimensions _ x 5 whose elements have size 1. *)
Definition mapped_load : fexpr :=
  FLoadSub (AToAddr (vload 1)) (Mapped 3 (XIdx (ACons (AToAddr (FOp2 0 0 (vload 0) (vload 1))) (ACons (AToAddr (vload 2)) ANil)) 2 (XQual 0 XNil))).
Example C55_load_ex : wf_f mapped_load /\ wf_dx (zworld 1 [5]) (XIdx (ACons (AToAddr (vload 0)) (ACons (AToAddr (vload 2)) ANil)) 2 (XQual 0 XNil)) /\
  den_f (zworld 1 [5]) zmem mapped_load = Some (SrcMem (LSig (3000 + (10 + ((3 * 5 + 3) * 1 + (1 + 0)))))) /\
  let '(pre, p) := gen_f (build_f 0 mapped_load).1.1 in
  (y <-- run_list (run (zworld 1 [5]) 1 0 0 0) pre (zstate zmem); eval_p (zworld 1 [5]) 1 y.1 p) = Ok (CMem (LSig 3029)).
Proof. cbn. unfold indexes_ok, dest_indexes_ok; cbn. split_and!; try done; try lia; right; split_and!; done. Qed.

(** With two indexes in an array of three dimensions, [c.out[1][1]] of [_ x 2 x 3] elements of size 1:
    the code [(1)*(2)+1*3] reads position 5 instead of 9. *)
Theorem C55_slices_refuted : exists (w : world Z) cmp code acc (s : cstate Z) c x y,
  let e := FLoadSub cmp (Mapped code acc) in
  den_a w (s_mem s) cmp = Some c /\ den_x w (s_mem s) (w_io w (m_tpl (s_mem s) c) code) acc = Some x /\
  let '(pre, p) := gen_f (build_f 0 e).1.1 in
  (z <-- run_list (run w (build_f 0 e).1.2 0 1 0) pre s; eval_p w (build_f 0 e).1.2 z.1 p) =
    Ok (CMem (LSig (m_start (s_mem s) c + (i_offset (w_io w (m_tpl (s_mem s) c) code) + y)))) /\ x = 9 /\ y = 5.
Proof.
  exists (zworld 1 [2; 3]), (AValue 0), 0%nat, (XIdx (ACons (AValue 1) (ACons (AValue 1) ANil)) 3 XNil), (zstate zmem), 0, 9, 5.
  vm_compute. done.
Qed.
Print Assumptions C55_slices_refuted.
(** A store to [c.in[1][1]], a bus of size 2 in an array [_ x 3]: position 1*3+1*2 = 5 is written
    instead of (1*3+1)*2 = 8. *)
Theorem C55_store_to_buses_refuted : exists (w : world Z) cmp code acc info (s : cstate Z) c x y,
  let d := DSub cmp (Mapped code acc) info in
  den_a w (s_mem s) cmp = Some c /\ den_x w (s_mem s) (w_io w (m_tpl (s_mem s) c) code) acc = Some x /\
  let '(pre, p) := gen_dest (build_dest 0 d).1 in
  (z <-- run_list (run w (build_dest 0 d).2 0 1 0) pre s; eval_p w (build_dest 0 d).2 z.1 p) =
    Ok (CMem (LSig (m_start (s_mem s) c + (i_offset (w_io w (m_tpl (s_mem s) c) code) + y)))) /\ x = 8 /\ y = 5.
Proof.
  exists (zworld 2 [3]), (AValue 0), 0%nat, (XIdx (ACons (AValue 1) (ACons (AValue 1) ANil)) 2 XNil), (InputInfo Unknown true), (zstate zmem), 0, 8, 5.
  vm_compute. done.
Qed.
Print Assumptions C55_store_to_buses_refuted.
