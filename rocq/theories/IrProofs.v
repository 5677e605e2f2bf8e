(** Proofs about IrModel.v: folding of addresses, numbering of temporaries, generated code. *)
From stdpp Require Import prelude numbers list.
From Verif Require Import DatModel IrModel IrSpec.
Local Open Scope Z_scope.
Arguments den_cells : simpl never.

Scheme fexpr_mind := Induction for fexpr Sort Prop
with aexpr_mind := Induction for aexpr Sort Prop
with aexprs_mind := Induction for aexprs Sort Prop
with locat_mind := Induction for locat Sort Prop
with accesses_mind := Induction for accesses Sort Prop.
Combined Scheme ir_mind from fexpr_mind, aexpr_mind, aexprs_mind, locat_mind, accesses_mind.

(** ** Unfolding equations *)

Section Eqs.
Context {V : Type} (w : world V) (m : mem V).
Lemma den_value aux c : den_f w m (FValue aux c) = Some (SrcConst c). Proof. reflexivity. Qed.
Lemma den_var a : den_f w m (FLoadVar a) = x ← den_a w m a; Some (SrcMem (LVar x)). Proof. reflexivity. Qed.
Lemma den_sig a : den_f w m (FLoadSig a) = x ← den_a w m a; Some (SrcMem (LSig (m_base m + x))). Proof. reflexivity. Qed.
Lemma den_sub c l :
  den_f w m (FLoadSub c l) = c ← den_a w m c; x ← den_l w m c l; Some (SrcMem (LSig (m_start m c + x))).
Proof. reflexivity. Qed.
Lemma den_op1 aux op a :
  den_f w m (FOp1 aux op a) = x ← den_f w m a; v ← w_op1 w op (src_cell w m x 0); Some (SrcVal v).
Proof. reflexivity. Qed.
Lemma den_op2 aux op a b :
  den_f w m (FOp2 aux op a b) =
  x ← den_f w m a; y ← den_f w m b; v ← w_op2 w op (src_cell w m x 0) (src_cell w m y 0); Some (SrcVal v).
Proof. reflexivity. Qed.
Lemma den_eq aux n a b :
  den_f w m (FEq aux n a b) =
  x ← den_f w m a; y ← den_f w m b;
  Some (SrcVal (w_bool w (forallb (fun k => w_eq w (src_cell w m x k) (src_cell w m y k)) (seq 0 n)))).
Proof. reflexivity. Qed.
Lemma den_lit v : den_a w m (AValue v) = Some v. Proof. reflexivity. Qed.
Lemma den_add a b : den_a w m (AAdd a b) = x ← den_a w m a; y ← den_a w m b; Some (x + y). Proof. reflexivity. Qed.
Lemma den_mul a b : den_a w m (AMul a b) = x ← den_a w m a; y ← den_a w m b; Some (x * y). Proof. reflexivity. Qed.
Lemma den_to f : den_a w m (AToAddr f) = x ← den_f w m f; w_toint w (src_cell w m x 0). Proof. reflexivity. Qed.
Lemma den_nil : den_as w m ANil = Some []. Proof. reflexivity. Qed.
Lemma den_cons a r : den_as w m (ACons a r) = x ← den_a w m a; xs ← den_as w m r; Some (x :: xs). Proof. reflexivity. Qed.
Lemma den_indexed c a : den_l w m c (Indexed a) = den_a w m a. Proof. reflexivity. Qed.
Lemma den_mapped c code acc :
  den_l w m c (Mapped code acc) =
  x ← den_x w m (w_io w (m_tpl m c) code) acc; Some (i_offset (w_io w (m_tpl m c) code) + x).
Proof. reflexivity. Qed.
Lemma den_xnil d : den_x w m d XNil = Some 0. Proof. reflexivity. Qed.
Lemma den_xidx d ixs dim r :
  den_x w m d (XIdx ixs dim r) =
  xs ← den_as w m ixs; y ← den_x w m d r; Some (row_major (dim_size d) dim 0 xs * i_size d + y).
Proof. reflexivity. Qed.
Lemma den_xqual d field r :
  den_x w m d (XQual field r) =
  y ← den_x w m (w_bus w (i_bus d) field) r; Some (i_offset (w_bus w (i_bus d) field) + y).
Proof. reflexivity. Qed.
End Eqs.
Global Hint Rewrite @den_value @den_var @den_sig @den_sub @den_op1 @den_op2 @den_eq @den_lit @den_add @den_mul
  @den_to @den_nil @den_cons @den_indexed @den_mapped @den_xnil @den_xidx @den_xqual : den.

(** ** Folding of addresses *)

Ltac munch :=
  repeat match goal with
         | H : (_ ≫= _) = Some _ |- _ => apply bind_Some in H as (? & ? & H)
         | H : Some _ = Some _ |- _ => injection H as <-
         end.

Lemma usize_eq x z : usize x = Some z -> z = x.
Proof. unfold usize. case_decide; congruence. Qed.

Lemma reduce_den {V} (w : world V) (m : mem V) :
  (forall e e', reduce_f e = Some e' -> den_f w m e' = den_f w m e) /\
  (forall e e', reduce_a e = Some e' -> den_a w m e' = den_a w m e) /\
  (forall l l', reduce_as l = Some l' -> den_as w m l' = den_as w m l) /\
  (forall l l', reduce_l l = Some l' -> forall c, den_l w m c l' = den_l w m c l) /\
  (forall a a', reduce_x a = Some a' -> forall d, den_x w m d a' = den_x w m d a).
Proof.
  apply ir_mind; cbn [reduce_f reduce_a reduce_as reduce_l reduce_x]; intros; munch; autorewrite with den;
    repeat match goal with
           | IH : forall _, _ = Some _ -> _, H : _ = Some _ |- _ => specialize (IH _ H)
           end;
    try (done || (repeat match goal with H : _ |- _ => rewrite H; clear H end; reflexivity)).
  - rewrite H. destruct (den_a w m cmp); [|done]. cbn. rewrite H0. done.
  - destruct (operands x x0) as [[u v]|] eqn:E.
    + destruct x, x0; try discriminate. injection E as -> ->. munch.
      match goal with H : usize _ = _ |- _ => apply usize_eq in H; subst end.
      rewrite <- H, <- H0. done.
    + munch. rewrite den_add, H, H0. done.
  - destruct (operands x x0) as [[u v]|] eqn:E.
    + destruct x, x0; try discriminate. injection E as -> ->. munch.
      match goal with H : usize _ = _ |- _ => apply usize_eq in H; subst end.
      rewrite <- H, <- H0. done.
    + munch. rewrite den_mul, H, H0. done.
Qed.

Lemma reduce_f_den {V} (w : world V) m e e' : reduce_f e = Some e' -> den_f w m e' = den_f w m e.
Proof. apply (reduce_den w m). Qed.
Lemma reduce_a_den {V} (w : world V) m e e' : reduce_a e = Some e' -> den_a w m e' = den_a w m e.
Proof. apply (reduce_den w m). Qed.
Lemma reduce_l_den {V} (w : world V) m l l' c : reduce_l l = Some l' -> den_l w m c l' = den_l w m c l.
Proof. intros H. by apply (reduce_den w m). Qed.

Lemma reduce_dest_den {V} (w : world V) m d d' : reduce_dest d = Some d' -> den_dest w m d' = den_dest w m d.
Proof.
  destruct d; cbn; intros; munch; cbn; erewrite reduce_a_den by eassumption; [done..|].
  destruct (den_a w m cmp); [|done]. cbn. by erewrite reduce_l_den by eassumption.
Qed.

Lemma reduce_after {V} (w : world V) parallel sanity d d' n m m' :
  reduce_dest d = Some d' -> after_store w parallel sanity d' n m m' = after_store w parallel sanity d n m m'.
Proof.
  destruct d; cbn; intros; munch; cbn; [done| |]; by erewrite reduce_a_den by eassumption.
Qed.

Lemma reduce_cells {V} (w : world V) m e e' n : reduce_f e = Some e' -> den_cells w m e' n = den_cells w m e n.
Proof. intros H. unfold den_cells. by rewrite (reduce_f_den _ _ _ _ H). Qed.

Lemma reduce_args {V} (w : world V) m args args' :
  mapM reduce_arg args = Some args' ->
  mapM (fun x : fexpr * nat => den_cells w m x.1 x.2) args' = mapM (fun x : fexpr * nat => den_cells w m x.1 x.2) args.
Proof.
  revert args'. induction args as [|[e n] args IH]; cbn; intros args' H; [by injection H as <-|].
  apply bind_Some in H as (a & Ha & H). apply bind_Some in H as (r & Hr & H). injection H as <-.
  unfold reduce_arg in Ha; cbn in Ha. munch. cbn. erewrite reduce_cells by eassumption. by rewrite (IH _ Hr).
Qed.

Lemma reduce_logs {V} (w : world V) args args' m :
  mapM reduce_log args = Some args' -> exec_logs w args' m = exec_logs w args m.
Proof.
  revert args' m. induction args as [|a args IH]; cbn; intros args' m H; [by injection H as <-|].
  apply bind_Some in H as (b & Ha & H). apply bind_Some in H as (r & Hr & H). injection H as <-.
  cbn. assert (E : forall m', match r with [] => m' | _ => print m' (inr None) end =
              match args with [] => m' | _ => @print V m' (inr None) end).
  { intros. destruct args; cbn in Hr; [by injection Hr as <-|].
    apply bind_Some in Hr as (? & ? & Hr). apply bind_Some in Hr as (? & ? & Hr). by injection Hr as <-. }
  destruct a as [e|s]; cbn in Ha; munch; cbn.
  - erewrite reduce_f_den by eassumption.
    destruct (den_f w m e); [|done]. cbn. rewrite E. by apply IH.
  - rewrite E. by apply IH.
Qed.

Lemma reduce_simple {V} (w : world V) parallel sanity rsize i i' m :
  reduce_s i = Some i' -> exec_simple w parallel sanity rsize i' m = exec_simple w parallel sanity rsize i m.
Proof.
  destruct i; cbn [reduce_s]; intros; munch; cbn [exec_simple]; [| |done..| | | |].
  - erewrite reduce_dest_den by eassumption. destruct (den_dest w m d); [|done]. cbn.
    erewrite reduce_cells by eassumption. destruct (den_cells w m src _); [|done]. cbn.
    by erewrite reduce_after by eassumption.
  - erewrite reduce_args by eassumption.
    match goal with |- context [mapM ?f args] => destruct (mapM f args) end; [|done]. cbn.
    erewrite reduce_dest_den by eassumption. destruct (den_dest w m d); [|done]. cbn.
    destruct (w_call w fn _ _); [|done]. cbn. by erewrite reduce_after by eassumption.
  - by erewrite reduce_f_den by eassumption.
  - by erewrite reduce_cells by eassumption.
  - by erewrite reduce_logs by eassumption.
  - by erewrite reduce_a_den by eassumption.
Qed.

Lemma reduce_exec_list' {V} (w : world V) parallel sanity rsize fuel :
  (forall i i' m, reduce_s i = Some i' -> exec w parallel sanity rsize fuel i' m = exec w parallel sanity rsize fuel i m) ->
  forall l l' m, mapM reduce_s l = Some l' ->
  exec_list (exec w parallel sanity rsize fuel) l' m = exec_list (exec w parallel sanity rsize fuel) l m.
Proof.
  intros IH. induction l as [|i l IHl]; cbn; intros l' m H; [by injection H as <-|].
  apply bind_Some in H as (j & Hi & H). apply bind_Some in H as (r & Hr & H). injection H as <-.
  cbn. rewrite (IH _ _ _ Hi).
  destruct (exec _ _ _ _ _ i m) as [[m' x]| | |]; cbn; [|done..]. destruct x; [done|]. by apply IHl.
Qed.

Lemma exec_branch {V} (w : world V) parallel sanity rsize fuel c l1 l2 m :
  exec w parallel sanity rsize fuel (SBranch c l1 l2) m =
  (v <-- lift (den_f w m c);
   match fuel with
   | O => Fuel
   | S fuel => exec_list (exec w parallel sanity rsize fuel) (if w_true w (src_cell w m v 0) then l1 else l2) m
   end).
Proof. destruct fuel; reflexivity. Qed.
Lemma exec_loop {V} (w : world V) parallel sanity rsize fuel c l m :
  exec w parallel sanity rsize fuel (SLoop c l) m =
  (v <-- lift (den_f w m c);
  match fuel with
  | O => Fuel
  | S fuel =>
      if w_true w (src_cell w m v 0)
      then x <-- exec_list (exec w parallel sanity rsize fuel) l m;
           match x.2 with None => exec w parallel sanity rsize fuel (SLoop c l) x.1 | Some _ => Ok x end
      else Ok (m, None)
  end).
Proof. destruct fuel; reflexivity. Qed.

Lemma reduce_exec {V} (w : world V) parallel sanity rsize fuel i i' m :
  reduce_s i = Some i' -> exec w parallel sanity rsize fuel i' m = exec w parallel sanity rsize fuel i m.
Proof.
  revert i i' m. induction fuel as [|fuel IH]; intros i i' m H;
    (destruct i as [| |c l1 l2|c l| | | |];
     [ pose proof (reduce_simple w parallel sanity rsize _ _ m H) as E;
       cbn [reduce_s] in H; munch; cbn [exec]; rewrite E; reflexivity
     | pose proof (reduce_simple w parallel sanity rsize _ _ m H) as E;
       cbn [reduce_s] in H; munch; cbn [exec]; rewrite E; reflexivity
     | 
     | 
     | pose proof (reduce_simple w parallel sanity rsize _ _ m H) as E;
       cbn [reduce_s] in H; munch; cbn [exec]; rewrite E; reflexivity .. ]).
  - cbn [reduce_s] in H; munch. rewrite !exec_branch. by erewrite reduce_f_den by eassumption.
  - cbn [reduce_s] in H; munch. rewrite !exec_loop. by erewrite reduce_f_den by eassumption.
  - cbn [reduce_s] in H; munch. rewrite !exec_branch. erewrite reduce_f_den by eassumption.
    destruct (lift (den_f w m c)); cbn; [|done..].
    destruct (w_true _ _); by apply reduce_exec_list'.
  - cbn [reduce_s] in H. apply bind_Some in H as (c' & Hc & H). apply bind_Some in H as (l' & Hl & H).
    injection H as <-. rewrite !exec_loop. erewrite reduce_f_den by eassumption.
    destruct (lift (den_f w m c)); cbn; [|done..]. destruct (w_true _ _); [|done].
    rewrite (reduce_exec_list' _ _ _ _ _ IH _ _ _ Hl). destruct (exec_list _ l m) as [[m' r]| | |]; cbn; [|done..].
    destruct r; [done|]. apply IH. cbn. rewrite Hc. cbn. rewrite Hl. done.
Qed.

Lemma reduce_exec_list {V} (w : world V) parallel sanity rsize fuel l l' m :
  mapM reduce_s l = Some l' ->
  exec_list (exec w parallel sanity rsize fuel) l' m = exec_list (exec w parallel sanity rsize fuel) l m.
Proof. apply reduce_exec_list'. intros. by apply reduce_exec. Qed.

(** ** The code of expressions *)

Section Code.
Context {V : Type} (w : world V) (depth sanity rsize fuel : nat).
Hypothesis Htrue : forall b, w_true w (w_bool w b) = b.
Local Notation ev_i := (eval_i w depth).
Local Notation ev_d := (eval_d w depth).
Local Notation ev_p := (eval_p w depth).
Local Notation RL := (run_list (run w depth sanity rsize fuel)).

Lemma ei_num s z : ev_i s (CNum z) = Ok z. Proof. reflexivity. Qed.
Lemma ei_sum s a b : ev_i s (CSum a b) = (x <-- ev_i s a; y <-- ev_i s b; Ok (x + y)). Proof. reflexivity. Qed.
Lemma ei_prod s a b : ev_i s (CProd a b) = (x <-- ev_i s a; y <-- ev_i s b; Ok (x * y)). Proof. reflexivity. Qed.
Lemma ei_paren s a : ev_i s (CParen a) = ev_i s a. Proof. reflexivity. Qed.
Lemma ei_toint s p :
  ev_i s (CToInt p) = (l <-- ev_p s p; v <-- cell w depth s l 0; lift (w_toint w v)).
Proof. reflexivity. Qed.
Lemma ei_cmp s : ev_i s CCmp = Ok (s_cmp s). Proof. reflexivity. Qed.
Lemma ei_idx s k : ev_i s (CIdx k) = Ok (s_idx s k). Proof. reflexivity. Qed.
Lemma ei_acc s k : ev_i s (CAcc k) = Ok (s_acc s k). Proof. reflexivity. Qed.
Lemma ei_off s d : ev_i s (COff d) = (x <-- ev_d s d; Ok (i_offset x)). Proof. reflexivity. Qed.
Lemma ei_len s d i : ev_i s (CLen d i) = (x <-- ev_d s d; Ok (nth i (i_lengths x) 0)). Proof. reflexivity. Qed.
Lemma ei_size s d : ev_i s (CSize d) = (x <-- ev_d s d; Ok (i_size x)). Proof. reflexivity. Qed.
Lemma ed_tpl s c code : ev_d s (DTpl c code) = (x <-- ev_i s c; Ok (w_io w (m_tpl (s_mem s) x) code)). Proof. reflexivity. Qed.
Lemma ed_bus s d f : ev_d s (DBus d f) = (x <-- ev_d s d; Ok (w_bus w (i_bus x) f)). Proof. reflexivity. Qed.
Lemma ed_cur s : ev_d s DCur = Ok (s_def s). Proof. reflexivity. Qed.
Lemma ep_const s c : ev_p s (PConst c) = Ok (CConst c). Proof. reflexivity. Qed.
Lemma ep_var s i : ev_p s (PVar i) = (x <-- ev_i s i; Ok (CMem (LVar x))). Proof. reflexivity. Qed.
Lemma ep_sig s i : ev_p s (PSig i) = (x <-- ev_i s i; Ok (CMem (LSig (m_base (s_mem s) + x)))). Proof. reflexivity. Qed.
Lemma ep_sub s c i :
  ev_p s (PSub c i) = (c <-- ev_i s c; x <-- ev_i s i; Ok (CMem (LSig (m_start (s_mem s) c + x)))). Proof. reflexivity. Qed.
Lemma ep_aux s n : ev_p s (PAux n) = if decide (n < depth)%nat then Ok (CAux n) else Wild. Proof. reflexivity. Qed.

Lemma run_app l1 l2 s :
  RL (l1 ++ l2) s = (x <-- RL l1 s; match x.2 with None => RL l2 x.1 | Some _ => Ok x end).
Proof.
  revert s. induction l1 as [|c l1 IH]; intros s; [done|]. cbn.
  destruct (run _ _ _ _ _ c s) as [[s' [r|]]| | |]; cbn; [done| |done..]. apply IH.
Qed.
Lemma run_cons c l s :
  RL (c :: l) s = (x <-- run w depth sanity rsize fuel c s; match x.2 with None => RL l x.1 | Some _ => Ok x end).
Proof. reflexivity. Qed.
Lemma run_simple c s :
  match c with CIf _ _ _ | CWhile _ _ => False | _ => True end ->
  run w depth sanity rsize fuel c s = simple w depth sanity rsize c s.
Proof. destruct fuel, c; done. Qed.
Lemma run_one c s :
  match c with CIf _ _ _ | CWhile _ _ => False | _ => True end ->
  RL [c] s = simple w depth sanity rsize c s.
Proof. intros H. rewrite run_cons, run_simple by done. destruct (simple _ _ _ _ c s) as [[s' [r|]]| | |]; done. Qed.

(** Only temporaries differ. *)
Definition same (s s' : cstate V) : Prop :=
  s_mem s' = s_mem s /\ s_cmp s' = s_cmp s /\ s_def s' = s_def s /\ s_idx s' = s_idx s /\
  s_acc s' = s_acc s /\ s_dest s' = s_dest s /\ s_arena s' = s_arena s.

Lemma same_refl s : same s s.
Proof. by repeat split. Qed.
Lemma same_trans s1 s2 s3 : same s1 s2 -> same s2 s3 -> same s1 s3.
Proof. intros (?&?&?&?&?&?&?) (?&?&?&?&?&?&?). repeat split; congruence. Qed.

(** Running [pre] from any state changes temporaries from [f] on only, and in the states with the
    same memory and the same temporaries from [f] to [f'] as after it, [good] holds; when it
    aborts, [bad] holds. *)
Definition pre_ok (f f' : nat) (pre : list cstmt) (good : cstate V -> Prop) (bad : mem V -> Prop) : Prop :=
  forall s,
  match RL pre s with
  | Ok (s', r) =>
      r = None /\ same s s' /\ (forall k, (k < f)%nat -> s_aux s' k = s_aux s k) /\
      (forall s2, s_mem s2 = s_mem s -> (forall k, (f <= k < f')%nat -> s_aux s2 k = s_aux s' k) -> good s2)
  | Abort => bad (s_mem s)
  | _ => False
  end.

Definition denotes (f f' : nat) (s : cstate V) (l : cloc) (x : src V) : Prop :=
  match x with
  | SrcMem l' => l = CMem l'
  | SrcConst c => l = CConst c
  | SrcVal v => exists n, l = CAux n /\ (f <= n < f')%nat /\ (n < depth)%nat /\ s_aux s n = v
  end.

Definition good_p (e : fexpr) (f f' : nat) (p : cptr) (s : cstate V) : Prop :=
  match den_f w (s_mem s) e with
  | Some x => exists l, ev_p s p = Ok l /\ denotes f f' s l x
  | None => ev_p s p = Abort
  end.
Definition good_i (o : option Z) (i : cint) (s : cstate V) : Prop :=
  ev_i s i = match o with Some z => Ok z | None => Abort end.

(** Composition of the code of two operands. *)
Lemma pre_nil f (good : cstate V -> Prop) (bad : mem V -> Prop) : (forall s, good s) -> pre_ok f f [] good bad.
Proof. intros H s. cbn. split; [done|]. split; [apply same_refl|]. split; [done|]. intros. apply H. Qed.

Lemma pre_app f f0 f1 p q good1 good2 bad1 bad2 :
  (f <= f0)%nat -> (f0 <= f1)%nat ->
  pre_ok f f0 p good1 bad1 -> pre_ok f0 f1 q good2 bad2 ->
  pre_ok f f1 (p ++ q) (fun s => good1 s /\ good2 s) (fun m => bad1 m \/ bad2 m).
Proof.
  intros Hf0 Hf1 Hp Hq s. rewrite run_app. specialize (Hp s).
  destruct (RL p s) as [[s1 r]| | |]; cbn; [|by left|done|done].
  destruct Hp as (-> & S1 & A1 & G1). specialize (Hq s1).
  destruct (RL q s1) as [[s2 r]| | |]; cbn; [| |done|done].
  - destruct Hq as (-> & S2 & A2 & G2). pose proof S1 as [M1 _].
    split; [done|]. split; [by eapply same_trans|]. split.
    + intros k Hk. rewrite A2 by lia. apply A1. done.
    + intros s3 M3 A3. split.
      * apply G1; [done|]. intros k Hk. rewrite A3 by lia. apply A2. lia.
      * apply G2; [congruence|]. intros k Hk. apply A3. lia.
  - right. destruct S1 as [M1 _]. by rewrite <- M1.
Qed.

Lemma pre_weaken f f' f1 p (good good' : cstate V -> Prop) (bad bad' : mem V -> Prop) :
  pre_ok f f1 p good bad -> (forall s, good s -> good' s) -> (forall m, bad m -> bad' m) -> (f1 <= f')%nat ->
  pre_ok f f' p good' bad'.
Proof.
  intros H Hg Hb Hf s. specialize (H s). destruct (RL p s) as [[s1 r]| | |]; [|by apply Hb|done|done].
  destruct H as (-> & S & A & G). split; [done|]. split; [done|]. split; [done|].
  intros s2 M2 A2. apply Hg, G; [done|]. intros k Hk. apply A2. lia.
Qed.

(** An operation: its result is the temporary before those of its operands. *)
Lemma pre_op f f1 p c e good bad :
  pre_ok (S f) f1 p good bad -> (S f <= f1)%nat -> (f < depth)%nat ->
  match c with CIf _ _ _ | CWhile _ _ => False | _ => True end ->
  (forall m, bad m -> den_f w m e = None) ->
  (forall s, good s ->
     match den_f w (s_mem s) e with
     | Some (SrcVal v) =>
         simple w depth sanity rsize c s =
         Ok (CState (s_mem s) (fun k => if decide (k = f) then v else s_aux s k) (s_cmp s) (s_def s)
                    (s_idx s) (s_acc s) (s_dest s) (s_arena s), None)
     | Some _ => False
     | None => simple w depth sanity rsize c s = Abort
     end) ->
  pre_ok f (S f) (p ++ [c]) (good_p e f (S f) (PAux f)) (fun m => den_f w m e = None).
Proof.
  intros Hp Hf1 Hd Hc Hbad H s. rewrite run_app. specialize (Hp s).
  destruct (RL p s) as [[s1 r]| | |]; cbn [res_bind]; [|by apply Hbad|done|done].
  destruct Hp as (-> & S1 & A1 & G1). cbn [snd fst]. rewrite run_one by done.
  pose proof S1 as [M1 _].
  specialize (H s1 (G1 s1 M1 (fun _ _ => eq_refl))).
  destruct (den_f w (s_mem s1) e) as [[| |v]|] eqn:E; [done|done| |].
  - rewrite H. split; [done|]. split.
    { destruct S1 as (?&?&?&?&?&?&?). repeat split; done. }
    split.
    + intros k Hk. cbn. rewrite decide_False by lia. apply A1. lia.
    + cbn. intros s2 M2 A2. unfold good_p. rewrite M2. rewrite <- M1, E. exists (CAux f).
      rewrite ep_aux, decide_True by done. split; [done|]. exists f. split; [done|].
      split; [lia|]. split; [done|].
      rewrite A2 by lia. by rewrite decide_True by done.
  - rewrite H. by rewrite <- M1.
Qed.

(** Build gives increasing numbers. *)
Lemma build_facts :
  (forall e f, let '(_, d, f') := build_f f e in (f <= f' <= f `max` d)%nat) /\
  (forall e f, let '(_, d, f') := build_a f e in (f <= f' <= f `max` d)%nat) /\
  (forall l f, let '(_, d, f') := build_as f l in (f <= f' <= f `max` d)%nat) /\
  (forall l f, let '(_, d, f') := build_l f l in (f <= f' <= f `max` d)%nat) /\
  (forall a f, let '(_, d, f') := build_x f a in (f <= f' <= f `max` d)%nat).
Proof.
  apply ir_mind; intros; cbn [build_f build_a build_as build_l build_x];
    repeat match goal with
           | IH : context [build_f _ ?e] |- context [build_f ?g ?e] =>
               let H := fresh in pose proof (IH g) as H; destruct (build_f g e) as [[? ?] ?]
           | IH : context [build_a _ ?e] |- context [build_a ?g ?e] =>
               let H := fresh in pose proof (IH g) as H; destruct (build_a g e) as [[? ?] ?]
           | IH : context [build_as _ ?e] |- context [build_as ?g ?e] =>
               let H := fresh in pose proof (IH g) as H; destruct (build_as g e) as [[? ?] ?]
           | IH : context [build_l _ ?e] |- context [build_l ?g ?e] =>
               let H := fresh in pose proof (IH g) as H; destruct (build_l g e) as [[? ?] ?]
           | IH : context [build_x _ ?e] |- context [build_x ?g ?e] =>
               let H := fresh in pose proof (IH g) as H; destruct (build_x g e) as [[? ?] ?]
           end; lia.
Qed.

Definition atomic (i : cint) : Prop := match i with CSum _ _ => False | _ => True end.
Lemma gen_a_atomic e : atomic (gen_a e).2.
Proof.
  destruct e as [v|a b|a b|f]; cbn; [done| | |]; [destruct (gen_a a), (gen_a b)..|destruct (gen_f f)]; done.
Qed.

Fixpoint horner (d : io_field) (k : nat) (tv : Z) (xs : list Z) : Z :=
  match xs with
  | [] => tv
  | x :: r => horner d (S k) (if decide (k = 0)%nat then x else tv * dim_size d k + x) r
  end.

Lemma stride_step len dim j : (S j < dim)%nat -> stride len dim j = len (S j) * stride len dim (S j).
Proof.
  intros H. unfold stride. replace (dim - S j)%nat with (S (dim - S (S j))) by lia. done.
Qed.
Lemma stride_last len dim j : (dim <= S j)%nat -> stride len dim j = 1.
Proof. intros H. unfold stride. replace (dim - S j)%nat with 0%nat by lia. done. Qed.

Lemma horner_tail d k tv xs dim :
  (1 <= k)%nat -> (k + length xs = dim)%nat ->
  horner d k tv xs = tv * stride (dim_size d) dim (k - 1) + row_major (dim_size d) dim k xs.
Proof.
  revert k tv. induction xs as [|x xs IH]; intros k tv Hk Hl; cbn [horner row_major length] in *.
  - rewrite stride_last by lia. lia.
  - rewrite IH by lia. rewrite decide_False by lia. replace (S k - 1)%nat with k by lia.
    rewrite (stride_step _ _ (k - 1)) by lia. replace (S (k - 1)) with k by lia. ring.
Qed.
Lemma horner_full d tv xs dim :
  (1 <= length xs)%nat -> length xs = dim -> horner d 0 tv xs = row_major (dim_size d) dim 0 xs.
Proof.
  intros H1 H2. destruct xs as [|x xs]; [cbn in *; lia|]. cbn [horner row_major]. rewrite decide_True by done.
  rewrite (horner_tail _ _ _ _ dim) by (cbn in *; lia). done.
Qed.

Lemma times_atomic t f : atomic t -> times t f = CProd t f.
Proof. by destruct t. Qed.

Lemma rest_dims_ok s cur d0 i n t tv :
  (1 <= i)%nat -> (n = 0%nat \/ atomic t) -> ev_d s cur = Ok d0 -> ev_i s t = Ok tv ->
  ev_i s (rest_dims cur i n t) = Ok (tv * foldr Z.mul 1 (dim_size d0 <$> seq i n)).
Proof.
  revert i t tv. induction n as [|n IH]; intros i t tv Hi Ha Hd Ht; cbn [rest_dims seq].
  - cbn. rewrite Ht. f_equal. lia.
  - destruct Ha as [|Ha]; [done|]. rewrite (IH (S i) _ (tv * dim_size d0 i)); [|lia| |done|].
    + cbn. f_equal. ring.
    + right. by rewrite times_atomic.
    + rewrite times_atomic by done. rewrite ei_prod, Ht. cbn [res_bind]. rewrite ei_len, Hd. cbn. done.
Qed.
Lemma rest_dims_abort s cur i n t : ev_i s t = Abort -> atomic t \/ n = 0%nat -> ev_i s (rest_dims cur i n t) = Abort.
Proof.
  revert i t. induction n as [|n IH]; intros i t Ht Ha; cbn [rest_dims]; [done|].
  destruct Ha as [Ha|]; [|done]. apply IH; rewrite times_atomic by done; [|by left].
  rewrite ei_prod, Ht. done.
Qed.

Definition good_as (cur : cdef) (k : nat) (t : cint) (l : aexprs) (t' : cint) (s : cstate V) : Prop :=
  (forall d0 tv, ev_d s cur = Ok d0 -> ev_i s t = Ok tv ->
     good_i (xs ← den_as w (s_mem s) l; Some (horner d0 k tv xs)) t' s) /\
  (k <> 0%nat -> ev_i s t = Abort -> ev_i s t' = Abort).
Definition good_x (cur : cdef) (access : cint) (acc : accesses) (i : cint) (s : cstate V) : Prop :=
  (forall d0 z, ev_d s cur = Ok d0 -> ev_i s access = Ok z ->
     good_i (y ← den_x w (s_mem s) d0 acc; Some (z + y)) i s) /\
  (ev_i s access = Abort -> ev_i s i = Abort).

Lemma as_build_length f l : as_length (build_as f l).1.1 = as_length l.
Proof.
  revert f. induction l as [|a l IH]; intros f; cbn; [done|].
  destruct (build_a f a) as [[a' d0] f0]. specialize (IH f0). destruct (build_as f0 l) as [[l' d1] f1]. cbn in *. congruence.
Qed.
Lemma den_as_length m l xs : den_as w m l = Some xs -> length xs = as_length l.
Proof.
  revert xs. induction l as [|a l IH]; intros xs; autorewrite with den; intros H; cbn [as_length].
  - by injection H as <-.
  - apply bind_Some in H as (x & _ & H). apply bind_Some in H as (r & Hr & H). injection H as <-. cbn. by rewrite (IH _ Hr).
Qed.
(** With one index, the text of the position in an array is a single operand. *)
Lemma gen_as_atomic cur l t : as_length l = 1%nat -> atomic (gen_as cur 0 t l).2.
Proof.
  destruct l as [|a [|b l]]; cbn; intros H; try lia. pose proof (gen_a_atomic a).
  destruct (gen_a a). done.
Qed.

(** The value read through a pointer. *)
Lemma denotes_cell f f' s l x k : denotes f f' s l x -> (k = 0%nat \/ (forall v, x <> SrcVal v)) ->
  cell w depth s l k = Ok (src_cell w (s_mem s) x k).
Proof.
  destruct x as [l'|c|v]; cbn; [intros -> _; done..|]. intros (n & -> & Hn & Hd & Hv) [->|H]; [|by destruct (H v)]. subst v.
  cbn. rewrite Nat.add_0_r, decide_True by done. done.
Qed.
Lemma denotes_operand f f' s l x p aux :
  ev_p s p = Ok l -> denotes f f' s l x -> (aux < f)%nat -> operand w depth s aux p = Ok l.
Proof.
  intros Hp Hd Ha. unfold operand. rewrite Hp. cbn. destruct l as [|?|n]; try done.
  destruct x; cbn in Hd; [done..|]. destruct Hd as (n' & [= <-] & Hn & _). rewrite decide_False by lia. done.
Qed.
Lemma array_like_src m e x : array_like e -> den_f w m e = Some x -> forall v, x <> SrcVal v.
Proof.
  destruct e; cbn [array_like]; try done; intros _; autorewrite with den; intros H v ->;
    repeat (apply bind_Some in H as (? & ? & H)); discriminate.
Qed.

Lemma eq_loop_ok s l1 l2 x y f f' g g' k n b :
  denotes f f' s l1 x -> denotes g g' s l2 y ->
  (n = 0%nat \/ ((forall v, x <> SrcVal v) /\ (forall v, y <> SrcVal v))) ->
  eq_loop w depth s l1 l2 k n (w_bool w b) =
  Ok (w_bool w (b && forallb (fun k => w_eq w (src_cell w (s_mem s) x k) (src_cell w (s_mem s) y k)) (seq k n))).
Proof.
  intros H1 H2. revert k b. induction n as [|n IH]; intros k b Ha; cbn [eq_loop seq forallb].
  - by rewrite andb_true_r.
  - destruct Ha as [|[Hx Hy]]; [done|]. rewrite Htrue. destruct b; [|done].
    rewrite (denotes_cell _ _ _ _ _ k H1), (denotes_cell _ _ _ _ _ k H2) by auto. cbn [res_bind].
    rewrite IH by auto. done.
Qed.

Lemma code_ok :
  (forall e f, wf_f e ->
     let '(e', d, f') := build_f f e in (d <= depth)%nat ->
     let '(pre, p) := gen_f e' in
     pre_ok f f' pre (good_p e f f' p) (fun m => den_f w m e = None)) /\
  (forall e f, wf_a e ->
     let '(e', d, f') := build_a f e in (d <= depth)%nat ->
     let '(pre, i) := gen_a e' in
     pre_ok f f' pre (fun s => good_i (den_a w (s_mem s) e) i s) (fun m => den_a w m e = None)) /\
  (forall l f, wf_as l ->
     let '(l', d, f') := build_as f l in (d <= depth)%nat -> forall cur k t,
     let '(pre, t') := gen_as cur k t l' in
     pre_ok f f' pre (good_as cur k t l t') (fun m => den_as w m l = None)) /\
  (forall l f, wf_l l ->
     let '(l', d, f') := build_l f l in (d <= depth)%nat -> forall c,
     let '(pre, i) := gen_l c l' in
     pre_ok f f' pre (fun s => forall cz, ev_i s c = Ok cz -> good_i (den_l w (s_mem s) cz l) i s)
                     (fun m => forall cz, den_l w m cz l = None)) /\
  (forall a f, wf_x a ->
     let '(a', d, f') := build_x f a in (d <= depth)%nat -> forall cur access,
     let '(pre, i) := gen_x cur access a' in
     pre_ok f f' pre (good_x cur access a i) (fun m => forall d0, den_x w m d0 a = None)).
Proof.
  destruct build_facts as (Bf & Ba & Bas & Bl & Bx).
  apply ir_mind.
  - intros aux c f _. cbn. intros Hd. eapply pre_weaken; [apply (pre_nil f (fun _ => True) (fun _ => False))| | |].
    + done.
    + intros s _. unfold good_p. cbn. by exists (CConst c).
    + done.
    + lia.
  - intros a IH f Hwf. cbn [build_f]. specialize (IH f Hwf). destruct (build_a f a) as [[a' d] f'].
    intros Hd. specialize (IH ltac:(lia)). cbn [gen_f]. destruct (gen_a a') as [pre i].
    eapply pre_weaken; [apply IH| | |lia].
    + intros s Hg. unfold good_p, good_i in *. autorewrite with den. rewrite ep_var, Hg.
      destruct (den_a w (s_mem s) a); cbn; [|done]. by eexists.
    + intros m Hm. cbn beta. autorewrite with den. by rewrite Hm.
  - intros a IH f Hwf. cbn [build_f]. specialize (IH f Hwf). destruct (build_a f a) as [[a' d] f'].
    intros Hd. specialize (IH ltac:(lia)). cbn [gen_f]. destruct (gen_a a') as [pre i].
    eapply pre_weaken; [apply IH| | |lia].
    + intros s Hg. unfold good_p, good_i in *. autorewrite with den. rewrite ep_sig, Hg.
      destruct (den_a w (s_mem s) a); cbn; [|done]. by eexists.
    + intros m Hm. cbn beta. autorewrite with den. by rewrite Hm.
  - intros c IHc l IHl f [Hwc Hwl]. cbn [build_f]. specialize (IHc f Hwc). pose proof (Ba c f) as Fc.
    destruct (build_a f c) as [[c' d0] f0]. specialize (IHl f0 Hwl). pose proof (Bl l f0) as Fl.
    destruct (build_l f0 l) as [[l' d1] f1]. intros Hd. specialize (IHc ltac:(lia)). specialize (IHl ltac:(lia)).
    cbn [gen_f]. destruct (gen_a c') as [pre ci]. specialize (IHl ci). destruct (gen_l ci l') as [pre' i].
    eapply pre_weaken; [eapply pre_app; [| |apply IHc|apply IHl]; lia| | |lia].
    + intros s [Hc Hl]. unfold good_p, good_i in *. autorewrite with den. rewrite ep_sub, Hc.
      destruct (den_a w (s_mem s) c) as [cz|]; cbn [res_bind mbind option_bind]; [|done].
      rewrite Hc in Hl. rewrite (Hl cz eq_refl). destruct (den_l w (s_mem s) cz l); cbn; [|done]. by eexists.
    + intros m [Hm|Hm]; cbn beta; autorewrite with den; [by rewrite Hm|].
      destruct (den_a w m c) as [cz|]; [|done]. cbn. by rewrite (Hm cz).
  - intros aux op a IH f Hwf. cbn [build_f]. specialize (IH (S f) Hwf). pose proof (Bf a (S f)) as Fa.
    destruct (build_f (S f) a) as [[a' d] f']. intros Hd. specialize (IH ltac:(lia)). cbn [gen_f].
    destruct (gen_f a') as [pre p]. eapply pre_op; [exact IH|lia|lia|done| |].
    + intros m Hm. autorewrite with den. by rewrite Hm.
    + intros s Hg. unfold good_p in Hg. autorewrite with den. cbn [simple].
      destruct (den_f w (s_mem s) a) as [x|]; cbn [mbind option_bind].
      * destruct Hg as (l & Hp & Hl). rewrite (denotes_operand _ _ _ _ _ _ f Hp Hl) by lia. cbn [res_bind].
        rewrite (denotes_cell _ _ _ _ _ 0 Hl) by auto. cbn [res_bind].
        destruct (w_op1 w op _); cbn; [|done]. unfold set_aux. rewrite decide_True by lia. done.
      * unfold operand. rewrite Hg. done.
  - intros aux op a IHa b IHb f [Hwa Hwb]. cbn [build_f]. specialize (IHa (S f) Hwa). pose proof (Bf a (S f)) as Fa.
    destruct (build_f (S f) a) as [[a' d0] f0]. specialize (IHb f0 Hwb). pose proof (Bf b f0) as Fb.
    destruct (build_f f0 b) as [[b' d1] f1]. intros Hd. specialize (IHa ltac:(lia)). specialize (IHb ltac:(lia)).
    cbn [gen_f]. destruct (gen_f a') as [pre p]. destruct (gen_f b') as [pre' q]. rewrite app_assoc.
    eapply pre_op; [eapply pre_app; [| |apply IHa|apply IHb]; lia|lia|lia|done| |].
    + intros m [Hm|Hm]; autorewrite with den; rewrite Hm; [done|]. by destruct (den_f w m a).
    + intros s [Ha Hb]. unfold good_p in Ha, Hb. autorewrite with den. cbn [simple].
      destruct (den_f w (s_mem s) a) as [x|]; cbn [mbind option_bind].
      2: { unfold operand at 1. rewrite Ha. done. }
      destruct Ha as (l & Hp & Hl). rewrite (denotes_operand _ _ _ _ _ _ f Hp Hl) by lia. cbn [res_bind].
      destruct (den_f w (s_mem s) b) as [y|]; cbn [mbind option_bind].
      2: { unfold operand at 1. rewrite Hb. done. }
      destruct Hb as (l2 & Hq & Hl2). rewrite (denotes_operand _ _ _ _ _ _ f Hq Hl2) by lia. cbn [res_bind].
      rewrite (denotes_cell _ _ _ _ _ 0 Hl), (denotes_cell _ _ _ _ _ 0 Hl2) by auto. cbn [res_bind].
      destruct (w_op2 w op _ _); cbn; [|done]. unfold set_aux. rewrite decide_True by lia. done.
  - intros aux n a IHa b IHb f (Hwa & Hwb & Hsa & Hsb). cbn [build_f]. specialize (IHa (S f) Hwa). pose proof (Bf a (S f)) as Fa.
    destruct (build_f (S f) a) as [[a' d0] f0]. specialize (IHb f0 Hwb). pose proof (Bf b f0) as Fb.
    destruct (build_f f0 b) as [[b' d1] f1]. intros Hd. specialize (IHa ltac:(lia)). specialize (IHb ltac:(lia)).
    cbn [gen_f]. destruct (gen_f a') as [pre p]. destruct (gen_f b') as [pre' q]. rewrite app_assoc.
    eapply pre_op; [eapply pre_app; [| |apply IHa|apply IHb]; lia|lia|lia|done| |].
    + intros m [Hm|Hm]; autorewrite with den; rewrite Hm; [done|]. by destruct (den_f w m a).
    + intros s [Ha Hb]. unfold good_p in Ha, Hb. autorewrite with den. cbn [simple].
      destruct (den_f w (s_mem s) a) as [x|] eqn:Ea; cbn [mbind option_bind].
      2: { unfold operand at 1. rewrite Ha. done. }
      destruct Ha as (l & Hp & Hl). rewrite (denotes_operand _ _ _ _ _ _ f Hp Hl) by lia. cbn [res_bind].
      destruct (den_f w (s_mem s) b) as [y|] eqn:Eb; cbn [mbind option_bind].
      2: { unfold operand at 1. rewrite Hb. done. }
      destruct Hb as (l2 & Hq & Hl2). rewrite (denotes_operand _ _ _ _ _ _ f Hq Hl2) by lia. cbn [res_bind].
      rewrite (denotes_cell _ _ _ _ _ 0 Hl), (denotes_cell _ _ _ _ _ 0 Hl2) by auto. cbn [res_bind].
      destruct Hsa as [Hn Hsa], Hsb as [_ Hsb].
      rewrite (eq_loop_ok _ _ _ _ _ _ _ _ _ _ _ _ Hl Hl2).
      2: { destruct (decide (n = 1)%nat) as [->|]; [by left|right].
           split; [eapply array_like_src; [|exact Ea]; apply Hsa|eapply array_like_src; [|exact Eb]; apply Hsb]; lia. }
      cbn [res_bind]. destruct n as [|n]; [lia|]. rewrite Nat.sub_succ, Nat.sub_0_r. cbn [seq forallb].
      unfold set_aux. rewrite decide_True by lia. done.
  - intros v f _. cbn. intros _. apply pre_nil. intros s. unfold good_i. done.
  - intros a IHa b IHb f [Hwa Hwb]. cbn [build_a]. specialize (IHa f Hwa). pose proof (Ba a f) as Fa.
    destruct (build_a f a) as [[a' d0] f0]. specialize (IHb f0 Hwb). pose proof (Ba b f0) as Fb.
    destruct (build_a f0 b) as [[b' d1] f1]. intros Hd. specialize (IHa ltac:(lia)). specialize (IHb ltac:(lia)).
    cbn [gen_a]. destruct (gen_a a') as [pre p]. destruct (gen_a b') as [pre' q].
    eapply pre_weaken; [eapply pre_app; [| |apply IHa|apply IHb]; lia| | |lia].
    + intros s [Ha Hb]. unfold good_i in *. autorewrite with den. rewrite ei_paren, ei_sum, Ha, Hb.
      destruct (den_a w (s_mem s) a), (den_a w (s_mem s) b); done.
    + intros m [Hm|Hm]; cbn beta; autorewrite with den; rewrite Hm; [done|]. by destruct (den_a w m a).
  - intros a IHa b IHb f [Hwa Hwb]. cbn [build_a]. specialize (IHa f Hwa). pose proof (Ba a f) as Fa.
    destruct (build_a f a) as [[a' d0] f0]. specialize (IHb f0 Hwb). pose proof (Ba b f0) as Fb.
    destruct (build_a f0 b) as [[b' d1] f1]. intros Hd. specialize (IHa ltac:(lia)). specialize (IHb ltac:(lia)).
    cbn [gen_a]. destruct (gen_a a') as [pre p]. destruct (gen_a b') as [pre' q].
    eapply pre_weaken; [eapply pre_app; [| |apply IHa|apply IHb]; lia| | |lia].
    + intros s [Ha Hb]. unfold good_i in *. autorewrite with den. rewrite ei_paren, ei_prod, Ha, Hb.
      destruct (den_a w (s_mem s) a), (den_a w (s_mem s) b); done.
    + intros m [Hm|Hm]; cbn beta; autorewrite with den; rewrite Hm; [done|]. by destruct (den_a w m a).
  - intros e IH f Hwf. cbn [build_a]. specialize (IH f Hwf). pose proof (Bf e f) as Fe.
    destruct (build_f f e) as [[e' d] f']. intros Hd. specialize (IH ltac:(lia)). cbn [gen_a].
    destruct (gen_f e') as [pre p]. eapply pre_weaken; [apply IH| | |lia].
    + intros s Hg. unfold good_p, good_i in *. autorewrite with den. rewrite ei_toint.
      destruct (den_f w (s_mem s) e) as [x|]; cbn [mbind option_bind].
      * destruct Hg as (l & Hp & Hl). rewrite Hp. cbn [res_bind].
        rewrite (denotes_cell _ _ _ _ _ 0 Hl) by auto. done.
      * by rewrite Hg.
    + intros m Hm. cbn beta. autorewrite with den. by rewrite Hm.
  - intros f _. cbn. intros _ cur k t. apply pre_nil. intros s. split; [|done].
    intros d0 tv _ Ht. unfold good_i. cbn. done.
  - intros a IHa l IHl f [Hwa Hwl]. cbn [build_as]. specialize (IHa f Hwa). pose proof (Ba a f) as Fa.
    destruct (build_a f a) as [[a' d0] f0]. specialize (IHl f0 Hwl). pose proof (Bas l f0) as Fl.
    destruct (build_as f0 l) as [[l' d1] f1]. intros Hd cur k t. specialize (IHa ltac:(lia)). specialize (IHl ltac:(lia)).
    cbn [gen_as]. destruct (gen_a a') as [pre i]. 
    set (t1 := if decide (k = 0)%nat then i else _). specialize (IHl cur (S k) t1).
    destruct (gen_as cur (S k) t1 l') as [pre' t2].
    eapply pre_weaken; [eapply pre_app; [| |apply IHa|apply IHl]; lia| | |lia].
    + intros s [Ha [Hl1 Hl2]]. unfold good_i in Ha. split.
      * intros d00 tv Hcur Ht. unfold good_i. autorewrite with den.
        destruct (den_a w (s_mem s) a) as [x|]; cbn [mbind option_bind].
        -- assert (Ht1 : ev_i s t1 = Ok (if decide (k = 0)%nat then x else tv * dim_size d00 k + x)).
           { unfold t1. case_decide; [done|]. rewrite ei_sum, ei_prod, !ei_paren, Ht, ei_len, Hcur, Ha. done. }
           specialize (Hl1 _ _ Hcur Ht1). unfold good_i in Hl1. rewrite Hl1.
           destruct (den_as w (s_mem s) l); done.
        -- apply Hl2; [done|]. unfold t1. case_decide; [done|].
           rewrite ei_sum, ei_prod, !ei_paren, Ht, ei_len, Hcur, Ha. done.
      * intros Hk Ht. apply Hl2; [done|]. unfold t1. rewrite decide_False by done.
        rewrite ei_sum, ei_prod, ei_paren, Ht. done.
    + intros m [Hm|Hm]; cbn beta; autorewrite with den; rewrite Hm; [done|]. by destruct (den_a w m a).
  - intros a IH f Hwf. cbn [build_l]. specialize (IH f Hwf). destruct (build_a f a) as [[a' d] f'].
    intros Hd c. specialize (IH ltac:(lia)). cbn [gen_l]. destruct (gen_a a') as [pre i].
    eapply pre_weaken; [apply IH| | |lia].
    + intros s Hg cz _. by rewrite den_indexed.
    + intros m Hm cz. by rewrite den_indexed.
  - intros code acc IH f Hwf. cbn [build_l]. specialize (IH f Hwf). destruct (build_x f acc) as [[a' d] f'].
    intros Hd c. specialize (IH ltac:(lia) (DTpl c code) (COff (DTpl c code))). cbn [gen_l].
    destruct (gen_x _ _ a') as [pre i]. eapply pre_weaken; [apply IH| | |lia].
    + intros s [Hg _] cz Hc. rewrite den_mapped.
      specialize (Hg (w_io w (m_tpl (s_mem s) cz) code) (i_offset (w_io w (m_tpl (s_mem s) cz) code))).
      apply Hg; [by rewrite ed_tpl, Hc|]. by rewrite ei_off, ed_tpl, Hc.
    + intros m Hm cz. rewrite den_mapped. by rewrite Hm.
  - intros f _. cbn. intros _ cur access. apply pre_nil. intros s. split; [|done].
    intros d0 z _ Hz. unfold good_i. cbn. rewrite Hz. f_equal. lia.
  - intros ixs IHi dim acc IHx f (Hwi & Hok & Hwx). cbn [build_x]. specialize (IHi f Hwi). pose proof (Bas ixs f) as Fi.
    pose proof (as_build_length f ixs) as Hlen.
    destruct (build_as f ixs) as [[ixs' d0] f0]. specialize (IHx f0 Hwx). pose proof (Bx acc f0) as Fx.
    destruct (build_x f0 acc) as [[acc' d1] f1]. intros Hd cur access.
    specialize (IHi ltac:(lia) cur 0%nat (CNum 0)). specialize (IHx ltac:(lia)). cbn [gen_x].
    pose proof (gen_as_atomic cur ixs' (CNum 0)) as Hatom.
    destruct (gen_as cur 0 (CNum 0) ixs') as [pre t]. cbn [fst snd] in *. rewrite Hlen in *.
    set (t' := rest_dims _ _ _ _). set (acc1 := CSum access _). specialize (IHx cur acc1).
    destruct (gen_x cur acc1 acc') as [pre' i].
    destruct Hok as [Hle Hok].
    assert (Hat : atomic t \/ (dim - as_length ixs = 0)%nat) by (destruct Hok as [H1|H1]; [left; auto|right; lia]).
    eapply pre_weaken; [eapply pre_app; [| |apply IHi|apply IHx]; lia| | |lia].
    + intros s [[Hi1 _] [Hx1 Hx2]]. split.
      * intros d00 z Hcur Hz. specialize (Hi1 d00 0 Hcur eq_refl). unfold good_i in *. rewrite den_xidx.
        destruct (den_as w (s_mem s) ixs) as [xs|] eqn:Exs; cbn [mbind option_bind] in *.
        -- assert (Ht' : ev_i s t' = Ok (row_major (dim_size d00) dim 0 xs)).
           { unfold t'. rewrite (rest_dims_ok s cur d00 (as_length ixs) (dim - as_length ixs) t _ (proj1 Hle) ltac:(tauto) Hcur Hi1). f_equal.
             pose proof (den_as_length _ _ _ Exs) as HL. destruct Hok as [H1|H1].
             - destruct xs as [|x [|]]; cbn in HL; try lia. cbn [horner row_major]. rewrite decide_True by done.
               rewrite H1. unfold stride. lia.
             - rewrite (horner_full _ _ _ dim) by lia. rewrite H1, Nat.sub_diag. cbn. lia. }
           assert (Ha1 : ev_i s acc1 = Ok (z + row_major (dim_size d00) dim 0 xs * i_size d00)).
           { unfold acc1. rewrite ei_sum, Hz, ei_prod, ei_paren, Ht', ei_size, Hcur. done. }
           rewrite (Hx1 _ _ Hcur Ha1). destruct (den_x w (s_mem s) d00 acc); cbn; [|done]. f_equal. lia.
        -- apply Hx2. unfold acc1. rewrite ei_sum, Hz, ei_prod, ei_paren. unfold t'.
           rewrite rest_dims_abort by done. done.
      * intros Hz. apply Hx2. unfold acc1. rewrite ei_sum, Hz. done.
    + intros m [Hm|Hm] d00; rewrite den_xidx; [by rewrite Hm|]. destruct (den_as w m ixs); [|done]. cbn. by rewrite Hm.
  - intros field acc IH f Hwf. cbn [build_x]. specialize (IH f Hwf). pose proof (Bx acc f) as Fx.
    destruct (build_x f acc) as [[acc' d] f']. intros Hd cur access. specialize (IH ltac:(lia)). cbn [gen_x].
    set (cur' := DBus cur field). set (acc1 := CSum access _). specialize (IH cur' acc1).
    destruct (gen_x cur' acc1 acc') as [pre i]. eapply pre_weaken; [apply IH| | |lia].
    + intros s [Hx1 Hx2]. split.
      * intros d00 z Hcur Hz. assert (Hcur' : ev_d s cur' = Ok (w_bus w (i_bus d00) field)).
        { unfold cur'. by rewrite ed_bus, Hcur. }
        assert (Ha1 : ev_i s acc1 = Ok (z + i_offset (w_bus w (i_bus d00) field))).
        { unfold acc1. by rewrite ei_sum, Hz, ei_off, Hcur'. }
        specialize (Hx1 _ _ Hcur' Ha1). unfold good_i in *. rewrite den_xqual, Hx1.
        destruct (den_x w (s_mem s) _ acc); cbn; [|done]. f_equal. lia.
      * intros Hz. apply Hx2. unfold acc1. by rewrite ei_sum, Hz.
    + intros m Hm d00. rewrite den_xqual. by rewrite Hm.
Qed.

(** ** The code of destinations *)

Lemma code_a e f :
  wf_a e -> let '(e', d, f') := build_a f e in (d <= depth)%nat ->
  let '(pre, i) := gen_a e' in
  pre_ok f f' pre (fun s => good_i (den_a w (s_mem s) e) i s) (fun m => den_a w m e = None).
Proof. apply code_ok. Qed.

(** An address whose value is used at once. *)
Lemma run_a e f s :
  wf_a e -> let '(e', d, f') := build_a f e in (d <= depth)%nat ->
  let '(pre, i) := gen_a e' in
  match RL pre s with
  | Ok (s', r) => r = None /\ same s s' /\ ev_i s' i = match den_a w (s_mem s) e with Some z => Ok z | None => Abort end
  | Abort => den_a w (s_mem s) e = None
  | _ => False
  end.
Proof.
  intros Hwf. pose proof (code_a e f Hwf) as H. destruct (build_a f e) as [[e' d] f']. intros Hd. specialize (H Hd).
  destruct (gen_a e') as [pre i]. specialize (H s). destruct (RL pre s) as [[s' r]| | |]; try done.
  destruct H as (-> & S & _ & G). pose proof S as [M _]. split; [done|]. split; [done|].
  specialize (G s' M (fun _ _ => eq_refl)). unfold good_i in G. by rewrite M in G.
Qed.

Definition dsame (s s' : cstate V) : Prop :=
  s_mem s' = s_mem s /\ s_cmp s' = s_cmp s /\ s_def s' = s_def s /\
  s_acc s' = s_acc s /\ s_dest s' = s_dest s /\ s_arena s' = s_arena s.

Lemma das_ok l : forall f, wf_as l ->
  let '(l', d, f') := build_as f l in (d <= depth)%nat -> forall k t tv s,
  (forall s1, s_def s1 = s_def s -> (forall j, (j < k)%nat -> s_idx s1 j = s_idx s j) -> ev_i s1 t = Ok tv) ->
  let '(pre, t') := gen_das k t l' in
  match RL pre s with
  | Ok (s', r) =>
      r = None /\ dsame s s' /\ (forall j, (j < k)%nat -> s_idx s' j = s_idx s j) /\
      exists xs, den_as w (s_mem s) l = Some xs /\
        forall s1, s_def s1 = s_def s -> (forall j, (j < k + as_length l)%nat -> s_idx s1 j = s_idx s' j) ->
                   ev_i s1 t' = Ok (horner (s_def s) k tv xs)
  | Abort => den_as w (s_mem s) l = None
  | _ => False
  end.
Proof.
  induction l as [|a l IH]; intros f Hwf.
  - cbn. intros _ k t tv s Ht. split; [done|]. split; [by repeat split|]. split; [done|]. exists []. split; [done|].
    intros s1 H1 H2. apply Ht; [done|]. intros j Hj. apply H2. lia.
  - destruct Hwf as [Hwa Hwl]. cbn [build_as]. pose proof (fun s => run_a a f s Hwa) as Ha.
    destruct (build_a f a) as [[a' d0] f0]. specialize (IH f0 Hwl).
    destruct (build_as f0 l) as [[l' d1] f1]. intros Hd k t tv s Ht.
    specialize (IH ltac:(lia)). cbn [gen_das]. pose proof (fun s => Ha s ltac:(lia)) as Ha'. clear Ha.
    destruct (gen_a a') as [pre i]. set (t1 := if decide (k = 0)%nat then CIdx 0 else _).
    specialize (Ha' s). destruct (gen_das (S k) t1 l') as [pre' t2] eqn:E.
    rewrite run_app. autorewrite with den.
    destruct (RL pre s) as [[s1 r]| | |]; cbn [res_bind]; [|by rewrite Ha'|done|done].
    destruct Ha' as (-> & S1 & V1). cbn [fst snd].
    rewrite run_cons, run_simple by done. cbn [simple]. rewrite V1.
    destruct (den_a w (s_mem s) a) as [x|]; cbn [res_bind mbind option_bind]; [|done].
    set (s2 := CState _ _ _ _ _ _ _ _). cbn [fst snd].
    destruct S1 as (M1 & C1 & D1 & I1 & A1 & T1 & R1).
    specialize (IH (S k) t1 (if decide (k = 0)%nat then x else tv * dim_size (s_def s) k + x) s2).
    rewrite E in IH.
    assert (Hprem : forall s1, s_def s1 = s_def s2 -> (forall j, (j < S k)%nat -> s_idx s1 j = s_idx s2 j) ->
      ev_i s1 t1 = Ok (if decide (k = 0)%nat then x else tv * dim_size (s_def s) k + x)).
    { intros s3 H1 H2. cbn in H1. assert (Hk : s_idx s3 k = x) by (rewrite H2 by lia; cbn; by rewrite decide_True).
      unfold t1. case_decide as K.
      - rewrite ei_idx. subst k. by rewrite Hk.
      - rewrite ei_sum, ei_prod, ei_paren.
        rewrite Ht; [|congruence|].
        2: { intros j Hj. rewrite H2 by lia. cbn. rewrite decide_False by lia. by rewrite I1. }
        cbn [res_bind]. rewrite ei_len, ed_cur, ei_idx, Hk. cbn. rewrite H1, D1. done. }
    specialize (IH Hprem). destruct (RL pre' s2) as [[s3 r]| | |]; [| |done|done].
    2: { cbn in IH. rewrite M1 in IH. by rewrite IH. }
    destruct IH as (-> & (M3 & C3 & D3 & A3 & T3 & R3) & I3 & xs & Hxs & Hev).
    cbn in M3, C3, D3, A3, T3, R3, Hxs. split; [done|]. split.
    { split_and!; congruence. }
    split.
    { intros j Hj. rewrite I3 by lia. cbn. rewrite decide_False by lia. by rewrite I1. }
    exists (x :: xs). rewrite <- M1, Hxs. split; [done|]. intros s4 H1 H2. cbn [horner as_length] in *.
    rewrite Hev; [cbn; by rewrite D1|cbn; congruence|]. intros j Hj. apply H2. lia.
Qed.

Lemma times_one s t f : ev_i s f = Ok 1 -> ev_i s (times t f) = ev_i s t.
Proof.
  intros Hf. revert t. fix IH 1. intros t.
  assert (E : forall t, ev_i s (CProd t f) = ev_i s t).
  { intros u. rewrite ei_prod, Hf. destruct (ev_i s u) as [z| | |]; cbn [res_bind]; [f_equal; lia|done..]. }
  destruct t; try apply E. cbn [times]. rewrite !ei_sum. by rewrite IH.
Qed.

Definition from_table (d : io_field) : Prop :=
  (exists t c, d = w_io w t c) \/ (exists b f, d = w_bus w b f).

Lemma gen_das_atomic l t : as_length l = 1%nat -> atomic (gen_das 0 t l).2.
Proof. destruct l as [|a [|b l]]; cbn; intros H; try lia. destruct (gen_a a). done. Qed.

Lemma dx_ok acc : forall f, wf_dx w acc ->
  let '(acc', d, f') := build_x f acc in (d <= depth)%nat -> forall pos access z s,
  from_table (s_def s) ->
  (forall s1, s_mem s1 = s_mem s -> s_cmp s1 = s_cmp s -> (forall j, (j < pos)%nat -> s_acc s1 j = s_acc s j) ->
              ev_i s1 access = Ok z) ->
  let '(pre, i) := gen_dx pos access acc' in
  match RL pre s with
  | Ok (s', r) =>
      r = None /\ s_mem s' = s_mem s /\ s_cmp s' = s_cmp s /\ s_dest s' = s_dest s /\ s_arena s' = s_arena s /\
      exists y, den_x w (s_mem s) (s_def s) acc = Some y /\ ev_i s' i = Ok (z + y)
  | Abort => den_x w (s_mem s) (s_def s) acc = None
  | _ => False
  end.
Proof.
  induction acc as [|ixs dim acc IH|field acc IH]; intros f Hwf.
  - cbn. intros _ pos access z s _ Hz. split_and!; try done. exists 0. split; [done|].
    rewrite Hz by done. f_equal. lia.
  - destruct Hwf as (Hwi & [Hle Hok] & Hwx). cbn [build_x]. pose proof (das_ok ixs f Hwi) as Hi.
    pose proof (as_build_length f ixs) as Hlen. pose proof (gen_das_atomic (build_as f ixs).1.1 (CNum 0)) as Hatom.
    destruct (build_as f ixs) as [[ixs' d0] f0]. specialize (IH f0 Hwx).
    destruct (build_x f0 acc) as [[acc' d1] f1]. intros Hd pos access z s Hft Hz.
    specialize (IH ltac:(lia)). specialize (Hi ltac:(lia) 0%nat (CNum 0) 0 s (fun _ _ _ => eq_refl)).
    cbn [gen_dx]. cbn [fst snd] in *. destruct (gen_das 0 (CNum 0) ixs') as [pre t]. cbn [fst snd] in *. rewrite Hlen in *.
    set (t' := rest_dims _ _ _ _). set (acc1 := CSum access _).
    destruct (gen_dx (S pos) acc1 acc') as [pre' i] eqn:E. rewrite run_app, den_xidx.
    destruct (RL pre s) as [[s1 r]| | |]; cbn [res_bind]; [|by rewrite Hi|done|done].
    destruct Hi as (-> & (M1 & C1 & D1 & A1 & T1 & R1) & _ & xs & Hxs & Hev). cbn [fst snd].
    rewrite Hxs. cbn [mbind option_bind].
    assert (Ht' : ev_i s1 (times t' (CSize DCur)) = Ok (row_major (dim_size (s_def s)) dim 0 xs * i_size (s_def s))).
    { specialize (Hev s1 D1 (fun _ _ => eq_refl)). pose proof (den_as_length _ _ _ Hxs) as HL.
      destruct Hok as [H1|(H1 & Hs1 & Hs2)].
      - specialize (Hatom H1).
        assert (Hr : ev_i s1 t' = Ok (row_major (dim_size (s_def s)) dim 0 xs)).
        { unfold t'. rewrite (rest_dims_ok s1 DCur (s_def s) (as_length ixs) (dim - as_length ixs) t _ (proj1 Hle)
                      (or_intror Hatom) ltac:(by rewrite ed_cur, D1) Hev). f_equal.
          destruct xs as [|x [|]]; cbn in HL; try lia. cbn [horner row_major]. rewrite decide_True by done.
          rewrite H1. unfold stride. lia. }
        assert (Hat : forall n i u, atomic u -> atomic (rest_dims DCur i n u)).
        { induction n as [|n IHn]; intros j u Hu; cbn [rest_dims]; [done|]. apply IHn. by rewrite times_atomic. }
        rewrite times_atomic by (apply Hat; done). rewrite ei_prod, Hr, ei_size, ed_cur, D1. done.
      - assert (Hs : i_size (s_def s) = 1) by (destruct Hft as [(? & ? & ->)|(? & ? & ->)]; done).
        rewrite times_one by (rewrite ei_size, ed_cur, D1, <- Hs; done).
        unfold t'. rewrite H1, Nat.sub_diag. cbn [rest_dims]. rewrite Hev.
        rewrite (horner_full _ _ _ dim) by lia. f_equal. lia. }
    rewrite run_cons, run_simple by done. cbn [simple]. rewrite Ht'. cbn [res_bind]. set (s2 := CState _ _ _ _ _ _ _ _).
    cbn [fst snd]. specialize (IH (S pos) acc1 (z + row_major (dim_size (s_def s)) dim 0 xs * i_size (s_def s)) s2).
    rewrite E in IH. cbn [s_def s2 s_mem] in IH. rewrite D1, M1 in IH.
    assert (Hprem : forall s3, s_mem s3 = s_mem s -> s_cmp s3 = s_cmp s2 ->
      (forall j, (j < S pos)%nat -> s_acc s3 j = s_acc s2 j) ->
      ev_i s3 acc1 = Ok (z + row_major (dim_size (s_def s)) dim 0 xs * i_size (s_def s))).
    { intros s3 H1 H2 H3. unfold acc1. rewrite ei_sum, ei_acc. rewrite Hz; [|done|cbn in H2; congruence|].
      - cbn. rewrite H3 by lia. cbn. rewrite decide_True by done. done.
      - intros j Hj. rewrite H3 by lia. cbn. rewrite decide_False by lia. by rewrite A1. }
    specialize (IH Hft Hprem). destruct (RL pre' s2) as [[s3 r]| | |]; [| |done|done].
    + destruct IH as (-> & M3 & C3 & T3 & R3 & y & Hy & Hev3). cbn in C3, T3, R3.
      split_and!; try congruence. eexists. rewrite Hy. split; [done|]. rewrite Hev3. f_equal. lia.
    + by rewrite IH.
  - cbn [build_x]. specialize (IH f Hwf). destruct (build_x f acc) as [[acc' d] f']. intros Hd pos access z s Hft Hz.
    specialize (IH Hd). cbn [gen_dx]. set (acc1 := CSum access _).
    destruct (gen_dx (S pos) acc1 acc') as [pre i] eqn:E. rewrite den_xqual.
    rewrite run_cons, run_simple by done. cbn [simple]. rewrite ed_bus, ed_cur. cbn [res_bind fst snd].
    set (s1 := CState _ _ _ _ _ _ _ _).
    rewrite run_cons, run_simple by done. cbn [simple]. rewrite ei_off, ed_cur. cbn [res_bind fst snd].
    set (s2 := CState _ _ _ _ _ _ _ _).
    specialize (IH (S pos) acc1 (z + i_offset (w_bus w (i_bus (s_def s)) field)) s2). rewrite E in IH.
    assert (Hprem : forall s3, s_mem s3 = s_mem s2 -> s_cmp s3 = s_cmp s2 ->
      (forall j, (j < S pos)%nat -> s_acc s3 j = s_acc s2 j) ->
      ev_i s3 acc1 = Ok (z + i_offset (w_bus w (i_bus (s_def s)) field))).
    { intros s3 H1 H2 H3. unfold acc1. rewrite ei_sum, ei_acc. rewrite Hz; [|done|done|].
      - cbn. rewrite H3 by lia. cbn. rewrite decide_True by done. done.
      - intros j Hj. rewrite H3 by lia. cbn. rewrite decide_False by lia. done. }
    specialize (IH ltac:(right; by eexists _, _) Hprem). cbn [s_def s_mem s1 s2] in IH.
    destruct (RL pre s2) as [[s3 r]| | |]; [| |done|done].
    + destruct IH as (-> & M3 & C3 & T3 & R3 & y & Hy & Hev3). cbn in M3, C3, T3, R3.
      split_and!; try congruence. eexists. rewrite Hy. split; [done|]. rewrite Hev3. f_equal. lia.
    + by rewrite IH.
Qed.

Definition dest_ev (d : dest) (m : mem V) (s : cstate V) (p : cptr) : Prop :=
  ev_p s p = match den_dest w m d with Some l => Ok (CMem l) | None => Abort end.

Lemma dest_ok parallel d f :
  wf_dest w parallel d -> let '(d', dd) := build_dest f d in (dd <= depth)%nat ->
  let '(pre, p) := gen_dest d' in forall s,
  match RL pre s with
  | Ok (s', r) =>
      r = None /\ s_mem s' = s_mem s /\ s_arena s' = s_arena s /\
      match d with DSub cmp _ _ => den_a w (s_mem s) cmp = Some (s_cmp s') | _ => True end /\
      ev_p s' p = match den_dest w (s_mem s) d with Some l => Ok (CMem l) | None => Abort end
  | Abort => den_dest w (s_mem s) d = None
  | _ => False
  end.
Proof.
  destruct d as [a|a o|cmp l info]; cbn [wf_dest build_dest].
  - intros Hwf. pose proof (fun s => run_a a f s Hwf) as H. destruct (build_a f a) as [[a' d] f']. intros Hd.
    cbn [gen_dest]. specialize (fun s => H s ltac:(lia)) as H'. destruct (gen_a a') as [pre i]. intros s.
    specialize (H' s). cbn [den_dest]. destruct (RL pre s) as [[s' r]| | |]; [|by rewrite H'|done|done].
    destruct H' as (-> & (M & C & D & I & A & T & R) & E). split_and!; try done.
    rewrite ep_var, E. by destruct (den_a w (s_mem s) a).
  - intros [Hwf _]. pose proof (fun s => run_a a f s Hwf) as H. destruct (build_a f a) as [[a' d] f']. intros Hd.
    cbn [gen_dest]. specialize (fun s => H s ltac:(lia)) as H'. destruct (gen_a a') as [pre i]. intros s.
    specialize (H' s). cbn [den_dest]. destruct (RL pre s) as [[s' r]| | |]; [|by rewrite H'|done|done].
    destruct H' as (-> & (M & C & D & I & A & T & R) & E). split_and!; try done.
    rewrite ep_sig, E, M. by destruct (den_a w (s_mem s) a).
  - intros [Hwc Hwl].
    assert (HL : let '(l', d, f') := build_l f l in (d <= depth)%nat ->
       let '(pre, i) := gen_dl l' in forall s,
       match RL pre s with
       | Ok (s', r) =>
           r = None /\ s_mem s' = s_mem s /\ s_cmp s' = s_cmp s /\ s_arena s' = s_arena s /\
           ev_i s' i = match den_l w (s_mem s) (s_cmp s) l with Some z => Ok z | None => Abort end
       | Abort => den_l w (s_mem s) (s_cmp s) l = None
       | _ => False
       end).
    { destruct l as [a|code acc]; cbn [build_l wf_dl] in *.
      - pose proof (fun s => run_a a f s Hwl) as H. destruct (build_a f a) as [[a' d] f']. intros Hd.
        cbn [gen_dl]. specialize (fun s => H s ltac:(lia)) as H'. destruct (gen_a a') as [pre i]. intros s.
        specialize (H' s). rewrite den_indexed. destruct (RL pre s) as [[s' r]| | |]; [|by rewrite H'|done|done].
        destruct H' as (-> & (M & C & D & I & A & T & R) & E). split_and!; done.
      - pose proof (dx_ok acc f Hwl) as H.
        assert (Hnil : (build_x f acc).1.1 = XNil -> acc = XNil).
        { destruct acc; cbn; [done| |].
          - destruct (build_as f ixs) as [[? ?] f0], (build_x f0 acc) as [[? ?] ?]. done.
          - destruct (build_x f acc) as [[? ?] ?]. done. }
        destruct (build_x f acc) as [[acc' d] f']. intros Hd. specialize (H ltac:(lia)). cbn [gen_dl].
        specialize (H 0%nat (COff (DTpl CCmp code))).
        destruct (gen_dx 0 (COff (DTpl CCmp code)) acc') as [pre i] eqn:Egen. intros s. rewrite den_mapped.
        destruct acc' as [|ixs dim r|field r].
        + cbn [fst] in Hnil. specialize (Hnil eq_refl). subst acc. cbn in Egen. injection Egen as <- <-. cbn [run_list].
          rewrite den_xnil. split_and!; try done. rewrite ei_off, ed_tpl, ei_cmp. cbn. f_equal. lia.
        + set (L := XIdx _ _ _) in *. rewrite run_cons, run_simple by done. cbn [simple]. rewrite ed_tpl, ei_cmp. cbn [res_bind fst snd].
          set (s1 := CState _ _ _ _ _ _ _ _).
          specialize (H (i_offset (w_io w (m_tpl (s_mem s) (s_cmp s)) code)) s1 ltac:(left; by eexists _, _)).
          specialize (H ltac:(intros s2 H1 H2 _; rewrite ei_off, ed_tpl, ei_cmp, H2; cbn [res_bind]; by rewrite H1)).
          cbn [s1 s_mem s_def] in H. destruct (RL pre s1) as [[s2 r']| | |]; [|by rewrite H|done|done].
          destruct H as (-> & M & C & T & R & y & Hy & E). split_and!; try done. by rewrite Hy.
        + set (L := XQual _ _) in *. rewrite run_cons, run_simple by done. cbn [simple]. rewrite ed_tpl, ei_cmp. cbn [res_bind fst snd].
          set (s1 := CState _ _ _ _ _ _ _ _).
          specialize (H (i_offset (w_io w (m_tpl (s_mem s) (s_cmp s)) code)) s1 ltac:(left; by eexists _, _)).
          specialize (H ltac:(intros s2 H1 H2 _; rewrite ei_off, ed_tpl, ei_cmp, H2; cbn [res_bind]; by rewrite H1)).
          cbn [s1 s_mem s_def] in H. destruct (RL pre s1) as [[s2 r']| | |]; [|by rewrite H|done|done].
          destruct H as (-> & M & C & T & R & y & Hy & E). split_and!; try done. by rewrite Hy. }
    destruct (build_l f l) as [[l' d0] f0]. pose proof (fun s => run_a cmp f s Hwc) as HC.
    destruct (build_a f cmp) as [[cmp' d1] f1]. intros Hd. cbn [gen_dest].
    specialize (fun s => HC s ltac:(lia)) as HC'. clear HC. specialize (HL ltac:(lia)).
    destruct (gen_a cmp') as [pre c]. destruct (gen_dl l') as [pre' i]. intros s. specialize (HC' s). cbn [den_dest].
    rewrite run_app. destruct (RL pre s) as [[s1 r]| | |]; cbn [res_bind]; [|by rewrite HC'|done|done].
    destruct HC' as (-> & (M1 & C1 & D1 & I1 & A1 & T1 & R1) & E1). cbn [fst snd].
    rewrite run_cons, run_simple by done. cbn [simple]. rewrite E1.
    destruct (den_a w (s_mem s) cmp) as [cz|]; cbn [res_bind mbind option_bind]; [|done].
    set (s2 := CState _ _ _ _ _ _ _ _). cbn [fst snd]. specialize (HL s2). cbn [s2 s_mem s_cmp] in HL. rewrite M1 in HL.
    destruct (RL pre' s2) as [[s3 r]| | |]; [|by rewrite HL|done|done].
    destruct HL as (-> & M3 & C3 & R3 & E3). cbn in M3, C3, R3. split_and!; try congruence.
    rewrite ep_sub, ei_cmp. cbn [res_bind]. rewrite E3, M3, C3.
    destruct (den_l w (s_mem s) cz l); cbn; done.
Qed.

(** ** Statements without control flow *)

Lemma run_f e f s :
  wf_f e -> let '(e', d, f') := build_f f e in (d <= depth)%nat ->
  let '(pre, p) := gen_f e' in
  match RL pre s with
  | Ok (s', r) => r = None /\ same s s' /\
      match den_f w (s_mem s) e with
      | Some x => exists l, ev_p s' p = Ok l /\ denotes f f' s' l x
      | None => ev_p s' p = Abort
      end
  | Abort => den_f w (s_mem s) e = None
  | _ => False
  end.
Proof.
  intros Hwf. pose proof (proj1 code_ok e f Hwf) as H. destruct (build_f f e) as [[e' d] f']. intros Hd. specialize (H Hd).
  destruct (gen_f e') as [pre p]. specialize (H s). destruct (RL pre s) as [[s' r]| | |]; try done.
  destruct H as (-> & S & _ & G). pose proof S as [M _]. split; [done|]. split; [done|].
  specialize (G s' M (fun _ _ => eq_refl)). unfold good_p in G. by rewrite M in G.
Qed.

Lemma cells_ok f f' s l x n k : denotes f f' s l x -> ((n <= 1 /\ k = 0)%nat \/ (forall v, x <> SrcVal v)) ->
  cells w depth s l k n = Ok (src_cell w (s_mem s) x <$> seq k n).
Proof.
  intros Hd. revert k. induction n as [|n IH]; intros k H; [done|]. cbn [cells seq fmap list_fmap].
  rewrite (denotes_cell _ _ _ _ _ _ Hd); [|destruct H as [[? ->]|]; auto]. cbn [res_bind].
  destruct H as [[H ->]|H].
  - destruct n; [done|lia].
  - rewrite IH by auto. done.
Qed.

(** The first [n] cells of an expression. *)
Lemma run_cells e f s n :
  wf_f e -> size_ok e n -> let '(e', d, f') := build_f f e in (d <= depth)%nat ->
  let '(pre, p) := gen_f e' in
  match RL pre s with
  | Ok (s', r) => r = None /\ same s s' /\
      match den_cells w (s_mem s) e n with
      | Some vs => exists l, ev_p s' p = Ok l /\ cells w depth s' l 0 n = Ok vs /\ length vs = n
      | None => ev_p s' p = Abort
      end
  | Abort => den_cells w (s_mem s) e n = None
  | _ => False
  end.
Proof.
  intros Hwf [Hn Hsz]. pose proof (run_f e f s Hwf) as H. destruct (build_f f e) as [[e' d] f']. intros Hd. specialize (H Hd).
  destruct (gen_f e') as [pre p]. unfold den_cells. destruct (RL pre s) as [[s' r]| | |]; [| |done|done].
  - destruct H as (-> & S & H). split; [done|]. split; [done|]. destruct (den_f w (s_mem s) e) as [x|] eqn:E; cbn; [|done].
    destruct H as (l & Hl & Hden). exists l. split; [done|]. pose proof S as [M _].
    rewrite (cells_ok _ _ _ _ _ _ _ Hden), M.
    + split; [done|]. by rewrite fmap_length, seq_length.
    + destruct (decide (1 < n)%nat); [|left; lia]. right. eapply array_like_src; eauto.
  - by rewrite H.
Qed.

Lemma copy_size_pos n : (1 <= n)%nat -> copy_size n = n.
Proof. intros H. unfold copy_size. rewrite decide_False by lia. done. Qed.

(** A plain address depends on the variables only, and has no code of its own. *)
Lemma plain_code :
  (forall e, match e with
             | FLoadVar a => plain_a a -> forall f, let a' := (build_a f a).1.1 in (gen_a a').1 = [] /\
                 forall m s, m_vars (s_mem s) = m_vars m ->
                 ev_i s (gen_a a').2 = match den_a w m a with Some z => Ok z | None => Abort end
             | _ => True
             end) /\
  (forall a, plain_a a -> forall f, let a' := (build_a f a).1.1 in (gen_a a').1 = [] /\
     forall m s, m_vars (s_mem s) = m_vars m ->
     ev_i s (gen_a a').2 = match den_a w m a with Some z => Ok z | None => Abort end) /\
  (forall l : aexprs, True) /\ (forall l : locat, True) /\ (forall a : accesses, True).
Proof.
  apply ir_mind; try done.
  - intros a IHa b IHb [Ha Hb] f. cbn [build_a]. specialize (IHa Ha f).
    destruct (build_a f a) as [[a' d0] f0]. specialize (IHb Hb f0). destruct (build_a f0 b) as [[b' d1] f1].
    cbn [fst gen_a] in *. destruct (gen_a a') as [pa ia], (gen_a b') as [pb ib]. cbn [fst snd] in *.
    destruct IHa as [-> IHa], IHb as [-> IHb]. split; [done|]. intros m s Hm.
    rewrite ei_paren, ei_sum, (IHa m s Hm), (IHb m s Hm). autorewrite with den.
    destruct (den_a w m a), (den_a w m b); done.
  - intros a IHa b IHb [Ha Hb] f. cbn [build_a]. specialize (IHa Ha f).
    destruct (build_a f a) as [[a' d0] f0]. specialize (IHb Hb f0). destruct (build_a f0 b) as [[b' d1] f1].
    cbn [fst gen_a] in *. destruct (gen_a a') as [pa ia], (gen_a b') as [pb ib]. cbn [fst snd] in *.
    destruct IHa as [-> IHa], IHb as [-> IHb]. split; [done|]. intros m s Hm.
    rewrite ei_paren, ei_prod, (IHa m s Hm), (IHb m s Hm). autorewrite with den.
    destruct (den_a w m a), (den_a w m b); done.
  - intros e IHe Hp f. destruct e as [|a| | | | |]; cbn [plain_a] in Hp; try done.
    cbn [build_a build_f]. specialize (IHe Hp f). destruct (build_a f a) as [[a' d0] f0]. cbn [fst gen_a gen_f] in *.
    destruct (gen_a a') as [pa ia]. cbn [fst snd] in *. destruct IHe as [-> IHe]. split; [done|]. intros m s Hm.
    rewrite ei_toint, ep_var, (IHe m s Hm). autorewrite with den.
    destruct (den_a w m a) as [z|]; cbn; [|done]. rewrite Hm. destruct (w_toint w _); done.
Qed.

(** What follows a store. *)
Lemma after_ok parallel d f n m s :
  wf_dest w parallel d -> (1 <= n)%nat ->
  (match d with DVar _ => True | _ => m_vars (s_mem s) = m_vars m end) ->
  (match d with DSub cmp _ _ => den_a w m cmp = Some (s_cmp s) | _ => True end) ->
  match after_store w parallel sanity d n m (s_mem s) with
  | Some m' => exists s', RL (gen_notify parallel (build_dest f d).1 n ++ gen_trigger (build_dest f d).1 n) s = Ok (s', None) /\ s_mem s' = m'
  | None => RL (gen_notify parallel (build_dest f d).1 n ++ gen_trigger (build_dest f d).1 n) s = Abort
  end.
Proof.
  intros Hwf Hn Hm Hc. destruct d as [a|a o|cmp l info]; cbn [build_dest after_store wf_dest] in *.
  - destruct (build_a f a) as [[a' d] f']. cbn. by exists s.
  - destruct Hwf as [Hwf Hpl]. destruct plain_code as (_ & Hcode & _). specialize (Hcode a).
    destruct (build_a f a) as [[a' d] f'] eqn:E. cbn [fst gen_notify gen_trigger].
    destruct parallel, o; cbn [andb]; try (cbn; by exists s).
    specialize (Hcode (Hpl eq_refl eq_refl) f). rewrite E in Hcode. cbn [fst] in Hcode. destruct Hcode as [_ Hcode].
    rewrite app_nil_r, run_one by done. cbn [simple]. rewrite (Hcode m s Hm).
    destruct (den_a w m a) as [z|]; cbn; [|done]. eauto.
  - destruct (build_l f l) as [[l' d0] f0], (build_a f cmp) as [[cmp' d1] f1]. cbn [fst gen_notify gen_trigger app].
    rewrite Hc. cbn [mbind option_bind]. rewrite run_one by done. cbn [simple].
    destruct (trigger w sanity info (s_cmp s) n (s_mem s)) as [m'|]; cbn; [|done]. eauto.
Qed.

Lemma write_vars m z vs : m_vars (write (V:=V) m (LSig z) vs) = m_vars m.
Proof. done. Qed.
Lemma den_dest_vars parallel d m l vs : wf_dest w parallel d -> den_dest w m d = Some l ->
  match d with DVar _ => True | _ => m_vars (write m l vs) = m_vars m end.
Proof.
  intros _. destruct d; cbn [den_dest]; [done| |]; intros H;
    repeat (apply bind_Some in H as (? & ? & H)); injection H as <-; apply write_vars.
Qed.

(** The arguments of a call. *)
Lemma upds_out (g : Z -> V) z vs y : y < z \/ z + Z.of_nat (length vs) <= y -> upds g z vs y = g y.
Proof.
  revert g z. induction vs as [|v vs IH]; intros g z H; cbn [upds length] in *; [done|].
  rewrite IH by lia. unfold upd. rewrite decide_False by lia. done.
Qed.
Lemma upds_in (g : Z -> V) z vs k v : vs !! k = Some v -> upds g z vs (z + Z.of_nat k) = v.
Proof.
  revert g z k. induction vs as [|v0 vs IH]; intros g z k H; [done|]. cbn [upds]. destruct k as [|k]; cbn in H.
  - injection H as ->. rewrite upds_out by lia. unfold upd. rewrite decide_True by lia. done.
  - replace (z + Z.of_nat (S k)) with (z + 1 + Z.of_nat k) by lia. by apply IH.
Qed.

Lemma args_ok args : forall f count,
  Forall (fun x : fexpr * nat => wf_f x.1 /\ size_ok x.1 x.2) args ->
  let '(args', d) := build_args f args in (d <= depth)%nat ->
  let '(pre, total) := gen_args count args' in forall s,
  match RL pre s with
  | Ok (s', r) => r = None /\ s_mem s' = s_mem s /\
      (forall z, z < Z.of_nat count -> s_arena s' z = s_arena s z) /\
      exists vss, mapM (fun x : fexpr * nat => den_cells w (s_mem s) x.1 x.2) args = Some vss /\
        total = (count + length (concat vss))%nat /\
        forall k v, concat vss !! k = Some v -> s_arena s' (Z.of_nat (count + k)) = v
  | Abort => mapM (fun x : fexpr * nat => den_cells w (s_mem s) x.1 x.2) args = None
  | _ => False
  end.
Proof.
  induction args as [|[e n] args IH]; intros f count Hwf.
  - cbn. intros _ s. split_and!; try done. exists []. split_and!; try done; cbn; lia.
  - apply Forall_cons in Hwf as [[Hwe Hsz] Hwf]. cbn [fst snd] in Hwe, Hsz. cbn [build_args].
    pose proof (fun s => run_cells e (S f) s n Hwe Hsz) as He. destruct (build_f (S f) e) as [[e' d0] f0].
    specialize (IH (S f) (count + n)%nat Hwf). destruct (build_args (S f) args) as [args' d1]. intros Hd.
    specialize (IH ltac:(lia)). specialize (fun s => He s ltac:(lia)) as He'. clear He. cbn [gen_args].
    destruct (gen_f e') as [pre p]. destruct (gen_args (count + n) args') as [rest total]. intros s. specialize (He' s).
    cbn [mapM fst snd]. rewrite run_app. destruct (RL pre s) as [[s1 r]| | |]; cbn [res_bind]; [|by rewrite He'|done|done].
    destruct He' as (-> & (M1 & _ & _ & _ & _ & _ & R1) & He'). cbn [fst snd]. rewrite run_cons, run_simple by done. cbn [simple].
    destruct (den_cells w (s_mem s) e n) as [vs|]; [|by rewrite He']. destruct He' as (l & -> & Hcells & Hlen).
    cbn [res_bind]. rewrite copy_size_pos by apply Hsz. rewrite Hcells. cbn [res_bind fst snd mbind option_bind].
    set (s2 := CState _ _ _ _ _ _ _ _). specialize (IH s2). cbn [s2 s_mem] in IH. rewrite M1 in IH.
    destruct (RL rest s2) as [[s3 r]| | |]; [|by rewrite IH|done|done].
    destruct IH as (-> & M3 & R3 & vss & Hvss & -> & Hcat). split_and!; [done|done| |].
    + intros z Hz. rewrite R3 by lia. cbn. rewrite upds_out by lia. by rewrite R1.
    + exists (vs :: vss). rewrite Hvss. split; [done|]. cbn [concat]. rewrite app_length. split; [lia|].
      intros k v Hk. apply lookup_app_Some in Hk as [Hk|[Hge Hk]].
      * assert (k < length vs)%nat by (eapply lookup_lt_Some; eauto).
        rewrite R3 by lia. cbn. rewrite Nat2Z.inj_add. by apply upds_in.
      * rewrite <- (Hcat _ _ Hk). f_equal. lia.
Qed.

Lemma logs_ok args : forall f,
  Forall (fun x => match x with LogExp e => wf_f e | LogStr _ => True end) args ->
  let '(args', d) := build_logs f args in (d <= depth)%nat -> forall s,
  match exec_logs w args (s_mem s) with
  | Some m' => exists s', RL (gen_logs args') s = Ok (s', None) /\ s_mem s' = m'
  | None => RL (gen_logs args') s = Abort
  end.
Proof.
  induction args as [|x args IH]; intros f Hwf.
  - cbn. intros _ s. by exists s.
  - apply Forall_cons in Hwf as [Hx Hwf]. specialize (IH f Hwf).
    assert (Hnil : (build_logs f args).1 = [] <-> args = []).
    { destruct args as [|[e|z] args]; cbn; [done| |].
      - destruct (build_f f e) as [[? ?] ?], (build_logs f args). done.
      - destruct (build_logs f args). done. }
    assert (Hrest : let '(args', d) := build_logs f args in (d <= depth)%nat -> forall s,
      match exec_logs w args (match args with [] => s_mem s | _ => print (s_mem s) (inr None) end) with
      | Some m' => exists s', RL ((match args' with [] => [] | _ => [CPrintStr None] end) ++ gen_logs args') s = Ok (s', None) /\ s_mem s' = m'
      | None => RL ((match args' with [] => [] | _ => [CPrintStr None] end) ++ gen_logs args') s = Abort
      end).
    { destruct (build_logs f args) as [args' d]. cbn [fst] in Hnil. intros Hd. specialize (IH Hd). intros s.
      destruct args as [|y args].
      - rewrite (proj2 Hnil eq_refl) in *. apply IH.
      - destruct args' as [|y' args']; [by discriminate (proj1 Hnil eq_refl)|].
        cbn [app]. rewrite run_cons, run_simple by done. cbn [simple res_bind fst snd].
        apply (IH (set_mem s (print (s_mem s) (inr None)))). }
    destruct x as [e|z]; cbn [build_logs].
    + pose proof (fun s => run_f e f s Hx) as He. destruct (build_f f e) as [[e' d0] f0].
      destruct (build_logs f args) as [args' d1]. intros Hd s. specialize (Hrest ltac:(lia)). specialize (He s ltac:(lia)).
      cbn [gen_logs exec_logs]. destruct (gen_f e') as [pre p]. rewrite <- app_assoc, run_app.
      destruct (RL pre s) as [[s1 r]| | |]; cbn [res_bind]; [|by rewrite He|done|done].
      destruct He as (-> & (M1 & _) & He). cbn [fst snd app]. rewrite run_cons, run_simple by done. cbn [simple].
      destruct (den_f w (s_mem s) e) as [x|]; [|by rewrite He]. destruct He as (l & -> & Hl).
      cbn [res_bind mbind option_bind]. rewrite (denotes_cell _ _ _ _ _ 0 Hl) by auto. cbn [res_bind fst snd].
      rewrite M1. specialize (Hrest (set_mem s1 (print (s_mem s) (inl (src_cell w (s_mem s) x 0))))).
      cbn [set_mem s_mem] in Hrest. destruct args; exact Hrest.
    + destruct (build_logs f args) as [args' d1]. intros Hd s. specialize (Hrest ltac:(lia)).
      cbn [gen_logs exec_logs app]. rewrite run_cons, run_simple by done. cbn [simple res_bind fst snd mbind option_bind].
      specialize (Hrest (set_mem s (print (s_mem s) (inr (Some z))))).
      cbn [set_mem s_mem] in Hrest. destruct args; exact Hrest.
Qed.

End Code.

(** ** Statements *)

Section Stmts.
Context {V : Type} (w : world V) (parallel : bool) (depth sanity rsize : nat).
Hypothesis Htrue : forall b, w_true w (w_bool w b) = b.
Hypothesis Hrsize : (1 <= rsize)%nat.
Local Notation RL fuel := (run_list (run w depth sanity rsize fuel)).
Local Notation EX fuel := (exec w parallel sanity rsize fuel).
Local Notation wfs := (foldr (fun i P => wf_s w parallel i /\ P) True).

Lemma simple_ok fuel i f s :
  match i with SBranch _ _ _ | SLoop _ _ => False | _ => True end ->
  wf_s w parallel i -> ((build_s f i).2 <= depth)%nat ->
  agrees (lift (exec_simple w parallel sanity rsize i (s_mem s)))
         (RL fuel (gen_s parallel sanity (build_s f i).1) s).
Proof.
  intros Hi Hwf Hd. destruct i as [d n1 n2 e|fn args d n| | |k e|n e|args|id a]; try done; clear Hi;
    cbn [build_s wf_s] in *.
  - destruct Hwf as (Hwd & Hwe & Hsz). pose proof (run_cells w depth sanity rsize fuel Htrue e f) as He.
    pose proof (dest_ok w depth sanity rsize fuel Htrue parallel d f Hwd) as Hdest.
    pose proof (fun s m => after_ok w depth sanity rsize fuel parallel d f (n1 `min` n2)%nat m s Hwd (proj1 Hsz)) as Hafter.
    specialize (fun s => He s _ Hwe Hsz) as He'. clear He.
    destruct (build_f f e) as [[e' d0] f0]. destruct (build_dest f d) as [d' d1].
    cbn [fst snd] in *. specialize (Hdest ltac:(lia)). cbn [gen_s exec_simple].
    destruct (gen_dest d') as [pre p]. specialize (fun s => He' s ltac:(lia)) as He. clear He'.
    destruct (gen_f e') as [pre' q]. rewrite run_app. specialize (Hdest s).
    destruct (RL fuel pre s) as [[s1 r]| | |]; cbn [res_bind]; [|by rewrite Hdest|done|done].
    destruct Hdest as (-> & M1 & R1 & Hc & Hp). cbn [fst snd]. rewrite run_cons, run_simple by done. cbn [simple].
    rewrite Hp. destruct (den_dest w (s_mem s) d) as [l|] eqn:El; cbn [res_bind mbind option_bind lift]; [|done].
    set (s2 := CState _ _ _ _ _ _ _ _). cbn [fst snd]. rewrite run_app. specialize (He s2).
    cbn [s2 s_mem] in He. rewrite M1 in He.
    destruct (RL fuel pre' s2) as [[s3 r]| | |]; cbn [res_bind]; [|by rewrite He|done|done].
    destruct He as (-> & (M3 & C3 & D3 & I3 & A3 & T3 & R3) & He). cbn [fst snd]. rewrite run_cons, run_simple by done. cbn [simple].
    destruct (den_cells w (s_mem s) e (n1 `min` n2)) as [vs|]; cbn [mbind option_bind lift]; [|by rewrite He].
    destruct He as (lq & -> & Hcells & _). cbn [res_bind]. rewrite copy_size_pos by apply Hsz. rewrite Hcells. cbn [res_bind].
    rewrite T3. cbn [s2 s_dest res_bind fst snd].
    cbn [s2 s_mem] in M3. rewrite M3, M1.
    set (s4 := set_mem s3 (write (s_mem s) l vs)).
    specialize (Hafter s4 (s_mem s)). cbn [s4 set_mem s_mem s_cmp] in Hafter.
    specialize (Hafter (den_dest_vars w parallel d (s_mem s) l vs Hwd El)). rewrite C3 in Hafter. cbn [s2 s_cmp] in Hafter.
    specialize (Hafter Hc). destruct (after_store w parallel sanity d (n1 `min` n2) (s_mem s) (write (s_mem s) l vs)) as [m'|];
      cbn [lift mbind option_bind agrees]; [|done]. destruct Hafter as (s5 & H5 & E5). exists s5. done.
  - destruct Hwf as (Hwa & Hwd & Hn). pose proof (args_ok w depth sanity rsize fuel Htrue args f 0 Hwa) as Hargs.
    pose proof (dest_ok w depth sanity rsize fuel Htrue parallel d f Hwd) as Hdest.
    pose proof (fun s m => after_ok w depth sanity rsize fuel parallel d f n m s Hwd Hn) as Hafter.
    destruct (build_dest f d) as [d' d1]. destruct (build_args f args) as [args' d0].
    cbn [fst snd] in *. specialize (Hdest ltac:(lia)). specialize (Hargs ltac:(lia)). cbn [gen_s exec_simple].
    destruct (gen_args 0 args') as [pre total]. destruct (gen_dest d') as [pre' p]. specialize (Hargs s).
    rewrite run_app. destruct (RL fuel pre s) as [[s1 r]| | |]; cbn [res_bind]; [|by rewrite Hargs|done|done].
    destruct Hargs as (-> & M1 & _ & vss & Hvss & -> & Hcat). rewrite Hvss. cbn [fst snd mbind option_bind].
    rewrite run_app. specialize (Hdest s1). rewrite M1 in Hdest.
    destruct (RL fuel pre' s1) as [[s2 r]| | |]; cbn [res_bind]; [|by rewrite Hdest|done|done].
    destruct Hdest as (-> & M2 & R2 & Hc & Hp). cbn [fst snd]. rewrite run_cons, run_simple by done. cbn [simple].
    rewrite Hp. destruct (den_dest w (s_mem s) d) as [l|] eqn:El; cbn [res_bind mbind option_bind lift]; [|done].
    assert (Harena : (fun k => s_arena s2 (Z.of_nat k)) <$> seq 0 (0 + length (concat vss)) = concat vss).
    { rewrite R2. apply list_eq. intros k. rewrite list_lookup_fmap. cbn [Nat.add] in *.
      destruct (concat vss !! k) as [v|] eqn:E.
      - assert (k < length (concat vss))%nat by (eapply lookup_lt_Some; eauto).
        rewrite lookup_seq_lt by done. cbn. f_equal. by apply Hcat.
      - rewrite lookup_seq_ge; [done|]. by apply lookup_ge_None. }
    rewrite Harena. destruct (w_call w fn (concat vss) n) as [vs|]; cbn [res_bind mbind option_bind lift fst snd]; [|done].
    rewrite copy_size_pos by done. rewrite M2.
    set (s4 := set_mem s2 (write (s_mem s) l vs)).
    specialize (Hafter s4 (s_mem s)). cbn [s4 set_mem s_mem s_cmp] in Hafter.
    specialize (Hafter (den_dest_vars w parallel d (s_mem s) l vs Hwd El) Hc).
    destruct (after_store w parallel sanity d n (s_mem s) (write (s_mem s) l vs)) as [m'|];
      cbn [lift mbind option_bind agrees]; [|done]. destruct Hafter as (s5 & H5 & E5). exists s5. done.
  - pose proof (run_f w depth sanity rsize fuel Htrue e f s Hwf) as He. destruct (build_f f e) as [[e' d] f']. cbn [fst snd] in *.
    specialize (He Hd). cbn [gen_s exec_simple]. destruct (negb k || _); [|by exists s].
    destruct (gen_f e') as [pre p]. rewrite run_app.
    destruct (RL fuel pre s) as [[s1 r]| | |]; cbn [res_bind]; [|by rewrite He|done|done].
    destruct He as (-> & (M1 & _) & He). cbn [fst snd]. rewrite run_one by done. cbn [simple].
    destruct (den_f w (s_mem s) e) as [x|]; [|by rewrite He]. destruct He as (l & -> & Hl). cbn [res_bind mbind option_bind].
    rewrite (denotes_cell _ _ _ _ _ _ _ 0 Hl) by auto. cbn [res_bind]. rewrite M1. destruct (w_true w _); cbn; [|done]. by exists s1.
  - destruct Hwf as [Hwe Hsz]. pose proof (run_cells w depth sanity rsize fuel Htrue e f s (n `min` rsize) Hwe) as He.
    assert (Hsz' : size_ok e (n `min` rsize)). { destruct Hsz as [H1 H2]. split; [lia|]. intros H. apply H2. lia. }
    specialize (He Hsz'). destruct (build_f f e) as [[e' d] f']. cbn [fst snd] in *.
    specialize (He Hd). cbn [gen_s exec_simple]. destruct (gen_f e') as [pre p]. rewrite run_app.
    destruct (RL fuel pre s) as [[s1 r]| | |]; cbn [res_bind]; [|by rewrite He|done|done].
    destruct He as (-> & (M1 & _) & He). cbn [fst snd]. rewrite run_one by done. cbn [simple].
    assert (Hn : (if decide (1 < n) then n `min` rsize else 1)%nat = (n `min` rsize)%nat).
    { destruct Hsz as [H1 _]. case_decide; lia. }
    rewrite Hn. destruct (den_cells w (s_mem s) e (n `min` rsize)) as [vs|]; [|by rewrite He].
    destruct He as (l & -> & Hcells & _). cbn [res_bind]. rewrite Hcells. cbn. by exists s1.
  - pose proof (logs_ok w depth sanity rsize fuel Htrue args f Hwf) as Hl. destruct (build_logs f args) as [args' d]. cbn [fst snd] in *.
    specialize (Hl Hd s). cbn [gen_s exec_simple]. rewrite run_app. destruct (exec_logs w args (s_mem s)) as [m'|]; cbn [mbind option_bind lift].
    + destruct Hl as (s' & -> & M). cbn [res_bind fst snd]. rewrite run_one by done. cbn. eexists. split; [done|]. cbn. by rewrite M.
    + by rewrite Hl.
  - pose proof (run_a w depth sanity rsize fuel Htrue a f s Hwf) as Ha. destruct (build_a f a) as [[a' d] f']. cbn [fst snd] in *.
    specialize (Ha Hd). cbn [gen_s exec_simple]. destruct (gen_a a') as [pre i]. rewrite run_app.
    destruct (RL fuel pre s) as [[s1 r]| | |]; cbn [res_bind]; [|by rewrite Ha|done|done].
    destruct Ha as (-> & (M1 & _) & Ha). cbn [fst snd]. rewrite run_one by done. cbn [simple]. rewrite Ha, M1.
    destruct (den_a w (s_mem s) a) as [z|]; cbn; [|done]. destruct (w_create w id z (s_mem s)) as [m'|]; cbn; [|done]. eauto.
Qed.

Lemma agrees_list fuel l f s :
  (forall i s, i ∈ l -> wf_s w parallel i -> ((build_s f i).2 <= depth)%nat ->
     agrees (EX fuel i (s_mem s)) (RL fuel (gen_s parallel sanity (build_s f i).1) s)) ->
  wfs l -> ((build_list (build_s f) l).2 <= depth)%nat ->
  agrees (exec_list (EX fuel) l (s_mem s)) (RL fuel (concat (gen_s parallel sanity <$> (build_list (build_s f) l).1)) s).
Proof.
  revert s. induction l as [|i l IH]; intros s H Hwf Hd; [by exists s|].
  destruct Hwf as [Hwi Hwl]. cbn [build_list exec_list] in *. fold (build_list (build_s f)) in *. fold (exec_list (EX fuel)).
  pose proof (H i s ltac:(left) Hwi) as Hi. destruct (build_s f i) as [i' d0].
  specialize (fun s => IH s ltac:(intros j s' Hj; apply H; by right) Hwl) as IH'. clear IH.
  destruct (build_list (build_s f) l) as [l' d1]. cbn [fst snd fmap list_fmap concat] in *.
  specialize (Hi ltac:(lia)). rewrite run_app.
  destruct (EX fuel i (s_mem s)) as [[m' r]| | |]; cbn [agrees res_bind] in *; [|by rewrite Hi|done|by rewrite Hi].
  destruct Hi as (s' & -> & <-). cbn [res_bind fst snd]. destruct r as [vs|].
  - by exists s'.
  - apply IH'. lia.
Qed.

Lemma stmt_ok fuel : forall i f s, wf_s w parallel i -> ((build_s f i).2 <= depth)%nat ->
  agrees (EX fuel i (s_mem s)) (RL fuel (gen_s parallel sanity (build_s f i).1) s).
Proof.
  induction fuel as [|fuel IH]; intros i f s Hwf Hd.
  - destruct i as [| |c l1 l2|c l| | | |]; try (apply simple_ok; done).
    + destruct Hwf as (Hwc & _). cbn [build_s] in *. pose proof (run_f w depth sanity rsize 0 Htrue c f s Hwc) as Hc.
      destruct (build_f f c) as [[c' d0] f0], (build_list (build_s f) l1) as [l1' d1], (build_list (build_s f) l2) as [l2' d2].
      cbn [fst snd gen_s] in *. specialize (Hc ltac:(lia)). rewrite exec_branch. destruct (gen_f c') as [pre p]. rewrite run_app.
      destruct (RL 0%nat pre s) as [[s1 r]| | |]; cbn [res_bind]; [|by rewrite Hc|done|done].
      destruct Hc as (-> & (M1 & _) & Hc). cbn [fst snd]. rewrite run_cons. cbn [run].
      destruct (den_f w (s_mem s) c) as [x|]; [|by rewrite Hc]. destruct Hc as (l & -> & Hl). cbn [res_bind].
      rewrite (denotes_cell _ _ _ _ _ _ _ 0 Hl) by auto. done.
    + destruct Hwf as (Hwc & _). cbn [build_s] in *. pose proof (run_f w depth sanity rsize 0 Htrue c f s Hwc) as Hc.
      destruct (build_f f c) as [[c' d0] f0], (build_list (build_s f) l) as [l1' d1].
      cbn [fst snd gen_s] in *. specialize (Hc ltac:(lia)). rewrite exec_loop. destruct (gen_f c') as [pre p]. rewrite run_app.
      destruct (RL 0%nat pre s) as [[s1 r]| | |]; cbn [res_bind]; [|by rewrite Hc|done|done].
      destruct Hc as (-> & (M1 & _) & Hc). cbn [fst snd]. rewrite run_cons. cbn [run].
      destruct (den_f w (s_mem s) c) as [x|]; [|by rewrite Hc]. destruct Hc as (l0 & -> & Hl). cbn [res_bind].
      rewrite (denotes_cell _ _ _ _ _ _ _ 0 Hl) by auto. done.
  - destruct i as [| |c l1 l2|c l| | | |]; try (apply simple_ok; done).
    + destruct Hwf as (Hwc & Hw1 & Hw2). cbn [build_s] in *. pose proof (run_f w depth sanity rsize (S fuel) Htrue c f s Hwc) as Hc.
      pose proof (fun s => agrees_list fuel l1 f s (fun i s _ => IH i f s) Hw1) as H1.
      pose proof (fun s => agrees_list fuel l2 f s (fun i s _ => IH i f s) Hw2) as H2.
      destruct (build_f f c) as [[c' d0] f0], (build_list (build_s f) l1) as [l1' d1], (build_list (build_s f) l2) as [l2' d2].
      cbn [fst snd gen_s] in *. specialize (Hc ltac:(lia)). rewrite exec_branch. destruct (gen_f c') as [pre p]. rewrite run_app.
      destruct (RL (S fuel) pre s) as [[s1 r]| | |]; cbn [res_bind]; [|by rewrite Hc|done|done].
      destruct Hc as (-> & (M1 & _) & Hc). cbn [fst snd]. rewrite run_cons. cbn [run].
      destruct (den_f w (s_mem s) c) as [x|]; [|by rewrite Hc]. destruct Hc as (l & -> & Hl). cbn [res_bind lift].
      rewrite (denotes_cell _ _ _ _ _ _ _ 0 Hl) by auto. cbn [res_bind]. rewrite M1.
      specialize (H1 s1 ltac:(lia)). specialize (H2 s1 ltac:(lia)). rewrite M1 in H1, H2.
      set (b := w_true w _). destruct b.
      * destruct (exec_list (EX fuel) l1 (s_mem s)) as [[m' [r|]]| | |]; cbn [agrees] in *; [..|done|by rewrite H1];
          try (destruct H1 as (s2 & -> & <-); by exists s2). by rewrite H1.
      * destruct (exec_list (EX fuel) l2 (s_mem s)) as [[m' [r|]]| | |]; cbn [agrees] in *; [..|done|by rewrite H2];
          try (destruct H2 as (s2 & -> & <-); by exists s2). by rewrite H2.
    + pose proof (fun s => IH (SLoop c l) f s Hwf Hd) as Hnext.
      destruct Hwf as (Hwc & Hw1). cbn [build_s] in *. pose proof (run_f w depth sanity rsize (S fuel) Htrue c f s Hwc) as Hc.
      pose proof (fun s => agrees_list fuel l f s (fun i s _ => IH i f s) Hw1) as H1.
      destruct (build_f f c) as [[c' d0] f0], (build_list (build_s f) l) as [l' d1].
      cbn [fst snd gen_s] in *. specialize (Hc ltac:(lia)). rewrite exec_loop. destruct (gen_f c') as [pre p]. rewrite run_app.
      destruct (RL (S fuel) pre s) as [[s1 r]| | |]; cbn [res_bind]; [|by rewrite Hc|done|done].
      destruct Hc as (-> & (M1 & _) & Hc). cbn [fst snd]. set (body := concat _ ++ pre) in *. rewrite run_cons.
      change (run w depth sanity rsize (S fuel) (CWhile p body) s1) with
        (x <-- eval_p w depth s1 p; v <-- cell w depth s1 x 0;
         if w_true w v
         then x <-- RL fuel body s1;
              match x.2 with None => run w depth sanity rsize fuel (CWhile p body) x.1 | Some _ => Ok x end
         else Ok (s1, None)).
      destruct (den_f w (s_mem s) c) as [x|]; [|by rewrite Hc]. destruct Hc as (l0 & -> & Hl). cbn [res_bind lift].
      rewrite (denotes_cell _ _ _ _ _ _ _ 0 Hl) by auto. cbn [res_bind]. rewrite M1.
      set (b := w_true w _). destruct b; [|cbn; by exists s1].
      unfold body at 1. rewrite run_app. specialize (H1 s1 ltac:(lia)). rewrite M1 in H1.
      destruct (exec_list (EX fuel) l (s_mem s)) as [[m' r]| | |]; cbn [agrees res_bind] in *; [|by rewrite H1|done|by rewrite H1].
      destruct H1 as (s2 & -> & <-). cbn [res_bind fst snd]. destruct r as [r|]; [cbn; by exists s2|].
      specialize (Hnext s2). rewrite run_app in Hnext.
      destruct (RL fuel pre s2) as [[s3 [r|]]| | |]; cbn [res_bind fst snd] in *; [|rewrite run_cons in Hnext|..|done].
      * destruct (EX fuel (SLoop c l) (s_mem s2)) as [[m' r']| | |]; cbn [agrees] in *; try done.
      * destruct (run w depth sanity rsize fuel (CWhile p body) s3) as [[s4 [r|]]| | |]; cbn [res_bind fst snd] in *; done.
      * done.
      * done.
Qed.

Lemma program_ok fuel l s :
  wfs l -> ((build l).2 <= depth)%nat ->
  agrees (exec_list (EX fuel) l (s_mem s)) (RL fuel (gen parallel sanity (build l).1) s).
Proof. intros Hwf Hd. apply agrees_list; [|done|done]. intros i s' _. apply stmt_ok. Qed.
End Stmts.

(** ** Folding keeps the conditions *)

Lemma operands_some a b x y : operands a b = Some (x, y) -> a = AValue x /\ b = AValue y.
Proof. destruct a, b; cbn; intros H; try done. by injection H as -> ->. Qed.

Lemma reduce_wf_mut {V} (w : world V) :
  (forall e e', reduce_f e = Some e' -> (wf_f e -> wf_f e') /\ (array_like e -> array_like e')) /\
  (forall e e', reduce_a e = Some e' -> (wf_a e -> wf_a e')) /\
  (forall l l', reduce_as l = Some l' -> (wf_as l -> wf_as l') /\ as_length l' = as_length l) /\
  (forall l l', reduce_l l = Some l' -> (wf_l l -> wf_l l') /\ (wf_dl w l -> wf_dl w l')) /\
  (forall a a', reduce_x a = Some a' -> (wf_x a -> wf_x a') /\ (wf_dx w a -> wf_dx w a')).
Proof.
  apply ir_mind.
  - intros aux c e' [= <-]. done.
  - intros a IH e' H. cbn in H. apply bind_Some in H as (a' & Ha & [= <-]). cbn. eauto.
  - intros a IH e' H. cbn in H. apply bind_Some in H as (a' & Ha & [= <-]). cbn. eauto.
  - intros cmp IHc l IHl e' H. cbn in H. apply bind_Some in H as (c' & Hc & H). apply bind_Some in H as (l' & Hl & [= <-]).
    cbn. destruct (IHl _ Hl). split; [|done]. intros [? ?]. split; eauto.
  - intros aux op a IH e' H. cbn in H. apply bind_Some in H as (a' & Ha & [= <-]). cbn. destruct (IH _ Ha). eauto.
  - intros aux op a IHa b IHb e' H. cbn in H. apply bind_Some in H as (a' & Ha & H). apply bind_Some in H as (b' & Hb & [= <-]).
    cbn. destruct (IHa _ Ha), (IHb _ Hb). split; [|done]. intros [? ?]. eauto.
  - intros aux n a IHa b IHb e' H. cbn in H. apply bind_Some in H as (a' & Ha & H). apply bind_Some in H as (b' & Hb & [= <-]).
    cbn. destruct (IHa _ Ha), (IHb _ Hb). split; [|done]. unfold size_ok. intros (? & ? & [? ?] & [? ?]). split_and!; eauto.
  - intros v e' [= <-]. done.
  - intros a IHa b IHb e' H. cbn in H. apply bind_Some in H as (a' & Ha & H). apply bind_Some in H as (b' & Hb & H).
    destruct (operands a' b') as [[x y]|]; [apply bind_Some in H as (z & Hz & [= <-]); done|]. injection H as <-.
    cbn. intros [? ?]. eauto.
  - intros a IHa b IHb e' H. cbn in H. apply bind_Some in H as (a' & Ha & H). apply bind_Some in H as (b' & Hb & H).
    destruct (operands a' b') as [[x y]|]; [apply bind_Some in H as (z & Hz & [= <-]); done|]. injection H as <-.
    cbn. intros [? ?]. eauto.
  - intros e IH e' H. cbn in H. apply bind_Some in H as (f' & Hf & [= <-]). cbn. apply (IH _ Hf).
  - intros l' [= <-]. done.
  - intros a IHa l IHl l' H. cbn in H. apply bind_Some in H as (a' & Ha & H). apply bind_Some in H as (r & Hr & [= <-]).
    cbn. destruct (IHl _ Hr) as [? ->]. split; [|done]. intros [? ?]. eauto.
  - intros a IH l' H. cbn in H. apply bind_Some in H as (a' & Ha & [= <-]). cbn. eauto.
  - intros code acc IH l' H. cbn in H. apply bind_Some in H as (a' & Ha & [= <-]). cbn. apply (IH _ Ha).
  - intros a' [= <-]. done.
  - intros ixs IHi dim acc IHx a' H. cbn in H. apply bind_Some in H as (i' & Hi & H). apply bind_Some in H as (r & Hr & [= <-]).
    destruct (IHi _ Hi) as [? E], (IHx _ Hr). cbn. unfold indexes_ok, dest_indexes_ok. rewrite E. split; intros (? & ? & ?); eauto.
  - intros field acc IH a' H. cbn in H. apply bind_Some in H as (r & Hr & [= <-]). cbn. apply (IH _ Hr).
Qed.
Lemma reduce_plain :
  (forall e, match e with FLoadVar a => forall a', reduce_a a = Some a' -> plain_a a -> plain_a a' | _ => True end) /\
  (forall e e', reduce_a e = Some e' -> plain_a e -> plain_a e') /\
  (forall l : aexprs, True) /\ (forall l : locat, True) /\ (forall a : accesses, True).
Proof.
  apply ir_mind; try done.
  - intros v e' [= <-]. done.
  - intros a IHa b IHb e' H. cbn in H. apply bind_Some in H as (a' & Ha & H). apply bind_Some in H as (b' & Hb & H).
    destruct (operands a' b') as [[x y]|]; [apply bind_Some in H as (z & Hz & [= <-]); done|]. injection H as <-.
    cbn. intros [? ?]. eauto.
  - intros a IHa b IHb e' H. cbn in H. apply bind_Some in H as (a' & Ha & H). apply bind_Some in H as (b' & Hb & H).
    destruct (operands a' b') as [[x y]|]; [apply bind_Some in H as (z & Hz & [= <-]); done|]. injection H as <-.
    cbn. intros [? ?]. eauto.
  - intros e IH e' H. destruct e as [|a| | | | |]; try done. cbn in H. apply bind_Some in H as (f' & Hf & [= <-]).
    apply bind_Some in Hf as (a' & Ha & [= <-]). cbn. eauto.
Qed.
Lemma reduce_dest_wf {V} (w : world V) parallel d d' : reduce_dest d = Some d' -> wf_dest w parallel d -> wf_dest w parallel d'.
Proof.
  destruct (reduce_wf_mut w) as (_ & Ha & _ & Hl & _). destruct reduce_plain as (_ & Hp & _).
  destruct d; cbn [reduce_dest]; intros H; apply bind_Some in H as (a' & E & H); cbn [wf_dest].
  - injection H as <-. cbn. eauto.
  - injection H as <-. cbn. intros [? ?]. split; eauto.
  - apply bind_Some in H as (l' & E' & [= <-]). cbn. destruct (Hl _ _ E'). intros [? ?]. split; eauto.
Qed.
Lemma reduce_f_wf {V} (w : world V) e e' : reduce_f e = Some e' -> wf_f e -> wf_f e'.
Proof. intros H. exact (proj1 (proj1 (reduce_wf_mut w) e e' H)). Qed.
Lemma reduce_size_ok {V} (w : world V) e e' n : reduce_f e = Some e' -> size_ok e n -> size_ok e' n.
Proof. intros H [H1 H2]. split; [done|]. intros H3. exact (proj2 (proj1 (reduce_wf_mut w) e e' H) (H2 H3)). Qed.

Lemma stmt_ind' (P : stmt -> Prop) :
  (forall i, match i with SBranch c l1 l2 => Forall P l1 /\ Forall P l2 | SLoop c l => Forall P l | _ => True end -> P i) ->
  forall i, P i.
Proof.
  intros H. fix IH 1. intros i. apply H.
  assert (HL : forall l, Forall P l) by (fix IHl 1; intros [|j l]; constructor; [apply IH|apply IHl]).
  destruct i; try exact I; auto.
Qed.
Lemma reduce_s_wf {V} (w : world V) parallel i : forall i', reduce_s i = Some i' -> wf_s w parallel i -> wf_s w parallel i'.
Proof.
  assert (HL : forall l, Forall (fun i => forall i', reduce_s i = Some i' -> wf_s w parallel i -> wf_s w parallel i') l ->
    forall l', mapM reduce_s l = Some l' -> foldr (fun i P => wf_s w parallel i /\ P) True l ->
    foldr (fun i P => wf_s w parallel i /\ P) True l').
  { induction 1 as [|i0 l Hi Hl IH]; intros l' H.
    - cbn in H. injection H as <-. done.
    - cbn in H. apply bind_Some in H as (i' & Ei & H). apply bind_Some in H as (r & Er & [= <-]). cbn. intros [? ?]. eauto. }
  induction i as [j IH] using stmt_ind'. destruct j as [d n1 n2 e|fn args d n|c l1 l2|c l|k e|n e|args|id a];
    intros i' H; cbn [reduce_s] in H.
  - apply bind_Some in H as (d' & Ed & H). apply bind_Some in H as (e' & Ee & [= <-]). cbn. intros (? & ? & ?).
    split_and!; eauto using reduce_dest_wf, reduce_f_wf, reduce_size_ok.
  - apply bind_Some in H as (args' & Ea & H). apply bind_Some in H as (d' & Ed & [= <-]). cbn. intros (Ha & ? & ?).
    split_and!; eauto using reduce_dest_wf. revert args' Ea. induction Ha as [|[e m] args [He Hs] _ IHa]; intros args' Ea.
    + cbn in Ea. injection Ea as <-. constructor.
    + cbn in Ea. apply bind_Some in Ea as (x & Ex & Ea). apply bind_Some in Ea as (r & Er & [= <-]).
      unfold reduce_arg in Ex. cbn [fst snd] in *. apply bind_Some in Ex as (e' & Ee & [= <-]).
      constructor; [|by apply IHa]. cbn. split; eauto using reduce_f_wf, reduce_size_ok.
  - apply bind_Some in H as (c' & Ec & H). apply bind_Some in H as (l1' & E1 & H). apply bind_Some in H as (l2' & E2 & [= <-]).
    cbn. destruct IH as [I1 I2]. intros (? & ? & ?). split_and!; eauto using reduce_f_wf.
  - apply bind_Some in H as (c' & Ec & H). apply bind_Some in H as (l1' & E1 & [= <-]).
    cbn. intros (? & ?). split_and!; eauto using reduce_f_wf.
  - apply bind_Some in H as (e' & Ee & [= <-]). cbn. eauto using reduce_f_wf.
  - apply bind_Some in H as (e' & Ee & [= <-]). cbn. intros [? ?]. eauto using reduce_f_wf, reduce_size_ok.
  - apply bind_Some in H as (args' & Ea & [= <-]). cbn. intros Ha. revert args' Ea.
    induction Ha as [|x args Hx _ IHa]; intros args' Ea.
    + cbn in Ea. injection Ea as <-. constructor.
    + cbn in Ea. apply bind_Some in Ea as (y & Ey & Ea). apply bind_Some in Ea as (r & Er & [= <-]).
      constructor; [|by apply IHa]. destruct x as [e|z]; cbn in Ey; [apply bind_Some in Ey as (e' & Ee & [= <-])|injection Ey as <-; done].
      eauto using reduce_f_wf.
  - apply bind_Some in H as (a' & Ea & [= <-]). cbn. destruct (reduce_wf_mut w) as (_ & Ha & _). eauto.
Qed.
Lemma reduce_list_wf {V} (w : world V) parallel l l' : mapM reduce_s l = Some l' ->
  foldr (fun i P => wf_s w parallel i /\ P) True l -> foldr (fun i P => wf_s w parallel i /\ P) True l'.
Proof.
  revert l'. induction l as [|i l IH]; intros l' H.
  - cbn in H. injection H as <-. done.
  - cbn in H. apply bind_Some in H as (i' & Ei & H). apply bind_Some in H as (r & Er & [= <-]). cbn. intros [? ?].
    split; eauto using reduce_s_wf.
Qed.
