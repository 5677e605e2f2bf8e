(** Proofs about WasmModel.v: the WebAssembly code does what the instructions say. *)
From stdpp Require Import prelude numbers list.
From Verif Require Import DatModel IrModel IrSpec IrProofs WasmModel WasmSpec.
Local Open Scope Z_scope.

Lemma mul_mod z k : (z * k) mod k = 0.
Proof. apply Z_mod_mult. Qed.
Lemma mul_div z k : k <> 0 -> z * k / k = z.
Proof. apply Z_div_mult_full. Qed.

Section Proofs.
Context {V : Type} (w : world V) (fs : Z) (depth : nat) (sio sbus : Z -> nat -> shape).
Hypothesis Hfs : fs <> 0.
Hypothesis Htrue : forall b, w_true w (w_bool w b) = b.
Local Notation run := (run w fs depth sio sbus).
Local Notation simple := (simple w fs depth sio sbus).
Local Notation RL M := (run_list (run M)).
Local Notation element := (element w fs depth).
Local Notation set_element := (set_element fs depth).
Local Notation load := (load w fs sio sbus).

(** ** Runs *)

(** With enough fuel. *)
Definition runs (l : list instr) (s : wstate V) (o : out V) : Prop :=
  exists K, forall M, (K <= M)%nat -> RL M l s = o.

Lemma runs_nil s : runs [] s (Next s).
Proof. exists 0%nat. done. Qed.
Lemma rl_app M l1 l2 s :
  RL M (l1 ++ l2) s = match RL M l1 s with Next s' => RL M l2 s' | o => o end.
Proof.
  revert s. induction l1 as [|i l1 IH]; intros s; [done|]. cbn. destruct (run M i s); first [apply IH | done].
Qed.
Lemma runs_app l1 l2 s s' o : runs l1 s (Next s') -> runs l2 s' o -> runs (l1 ++ l2) s o.
Proof.
  intros [K1 H1] [K2 H2]. exists (K1 `max` K2)%nat. intros M HM. rewrite rl_app, H1 by lia. apply H2. lia.
Qed.
Lemma runs_app_stop l1 l2 s o :
  runs l1 s o -> match o with Next _ => False | _ => True end -> runs (l1 ++ l2) s o.
Proof. intros [K1 H1] Ho. exists K1. intros M HM. rewrite rl_app, H1 by lia. by destruct o. Qed.
Lemma runs_cons i l s o :
  match i with IIf _ _ | IBlock _ | ILoop _ => False | _ => True end ->
  (exists s', simple i s = Next s' /\ runs l s' o) -> runs (i :: l) s o.
Proof.
  intros Hi (s' & H & [K HK]). exists K. intros M HM. cbn.
  replace (run M i s) with (simple i s) by (destruct M, i; done). rewrite H. by apply HK.
Qed.
Lemma runs_stop i l s o :
  match i with IIf _ _ | IBlock _ | ILoop _ => False | _ => True end ->
  simple i s = o -> match o with Next _ => False | _ => True end -> runs (i :: l) s o.
Proof.
  intros Hi H Ho. exists 0%nat. intros M HM. cbn.
  replace (run M i s) with (simple i s) by (destruct M, i; done). rewrite H. by destruct o.
Qed.
Lemma runs_det l s o o' : runs l s o -> runs l s o' -> o = o'.
Proof. intros [K H] [K' H']. rewrite <- (H (K `max` K')%nat), <- (H' (K `max` K')%nat) by lia. done. Qed.

(** Structured instructions. *)
Lemma runs_if_next z l1 l2 l s st s' o :
  runs (if decide (z = 0) then l2 else l1) (set_stack s []) (Next (set_stack s' [])) ->
  runs l (set_stack s' st) o -> runs (IIf l1 l2 :: l) (set_stack s (Int z :: st)) o.
Proof.
  intros [K1 H1] [K2 H2]. exists (S K1 `max` K2)%nat. intros [|M] HM; [lia|].
  cbn [run_list WasmModel.run t_stack set_stack]. 
  change (set_stack (set_stack s (Int z :: st)) []) with (set_stack s []).
  rewrite H1 by lia. cbn [leave]. cbn [t_stack set_stack].
  change (set_stack (set_stack s' []) st) with (set_stack s' st). apply (H2 (S M)). lia.
Qed.
Lemma runs_if_stop z l1 l2 l s st o :
  runs (if decide (z = 0) then l2 else l1) (set_stack s []) o ->
  match o with Trap | Ret _ _ => True | _ => False end -> runs (IIf l1 l2 :: l) (set_stack s (Int z :: st)) o.
Proof.
  intros [K1 H1] Ho. exists (S K1)%nat. intros [|M] HM; [lia|].
  cbn [run_list WasmModel.run t_stack set_stack]. 
  change (set_stack (set_stack s (Int z :: st)) []) with (set_stack s []).
  rewrite H1 by lia. by destruct o.
Qed.
(** A block that contains just a loop: [o] is the outcome of the loop, entered with an empty stack. *)
Lemma runs_block_break l0 l s st s' o :
  runs [ILoop l0] (set_stack s []) (Brk 0 s') -> runs l (set_stack s' st) o ->
  runs (IBlock [ILoop l0] :: l) (set_stack s st) o.
Proof.
  intros [K1 H1] [K2 H2]. exists (S K1 `max` K2)%nat. intros [|M] HM; [lia|].
  cbn [run_list]. replace (run (S M) (IBlock [ILoop l0]) (set_stack s st)) with
    (leave st (RL M [ILoop l0] (set_stack s []))) by reflexivity.
  rewrite H1 by lia. cbn [leave]. apply (H2 (S M)). lia.
Qed.
Lemma runs_block_stop l0 l s st o :
  runs [ILoop l0] (set_stack s []) o -> match o with Trap | Ret _ _ => True | _ => False end ->
  runs (IBlock [ILoop l0] :: l) (set_stack s st) o.
Proof.
  intros [K1 H1] Ho. exists (S K1)%nat. intros [|M] HM; [lia|].
  cbn [run_list]. replace (run (S M) (IBlock [ILoop l0]) (set_stack s st)) with
    (leave st (RL M [ILoop l0] (set_stack s []))) by reflexivity.
  rewrite H1 by lia. by destruct o.
Qed.
(** One more iteration. *)
Lemma runs_loop_next l s s' o :
  runs l (set_stack s []) (Brk 0 (set_stack s' [])) -> runs [ILoop l] (set_stack s' []) o -> runs [ILoop l] (set_stack s []) o.
Proof.
  intros [K1 H1] [K2 H2]. exists (S (K1 `max` K2))%nat. intros [|M] HM; [lia|].
  specialize (H2 M ltac:(lia)). cbn [run_list] in *.
  replace (run (S M) (ILoop l) (set_stack s [])) with
    (match RL M l (set_stack s []) with Brk O s' => run M (ILoop l) (set_stack s' []) | o => leave [] o end) by reflexivity.
  rewrite H1 by lia. exact H2.
Qed.
Lemma runs_loop_exit l s s' : runs l (set_stack s []) (Brk 1 s') -> runs [ILoop l] (set_stack s []) (Brk 0 s').
Proof.
  intros [K1 H1]. exists (S K1)%nat. intros [|M] HM; [lia|]. cbn [run_list].
  replace (run (S M) (ILoop l) (set_stack s [])) with
    (match RL M l (set_stack s []) with Brk O s' => run M (ILoop l) (set_stack s' []) | o => leave [] o end) by reflexivity.
  rewrite H1 by lia. done.
Qed.
Lemma runs_loop_stop l s o :
  runs l (set_stack s []) o -> match o with Trap | Ret _ _ => True | _ => False end -> runs [ILoop l] (set_stack s []) o.
Proof.
  intros [K1 H1] Ho. exists (S K1)%nat. intros [|M] HM; [lia|]. cbn [run_list].
  replace (run (S M) (ILoop l) (set_stack s [])) with
    (match RL M l (set_stack s []) with Brk O s' => run M (ILoop l) (set_stack s' []) | o => leave [] o end) by reflexivity.
  rewrite H1 by lia. by destruct o.
Qed.

(** Straight-line instructions, with the stack made explicit. *)
Lemma r_const z l s st o : runs l (set_stack s (Int z :: st)) o -> runs (IConst z :: l) (set_stack s st) o.
Proof. intros H. apply runs_cons; [done|]. eexists. split; [reflexivity|]. exact H. Qed.
Lemma r_addr r a l s st o : runs l (set_stack s (Ptr r a :: st)) o -> runs (IAddr r a :: l) (set_stack s st) o.
Proof. intros H. apply runs_cons; [done|]. eexists. split; [reflexivity|]. exact H. Qed.
Lemma r_get x v l s st o : t_loc s x = v -> runs l (set_stack s (v :: st)) o -> runs (IGet x :: l) (set_stack s st) o.
Proof. intros <- H. apply runs_cons; [done|]. eexists. split; [reflexivity|]. exact H. Qed.
Lemma r_set x v l s st o : runs l (set_stack (set_loc s x v) st) o -> runs (ISet x :: l) (set_stack s (v :: st)) o.
Proof. intros H. apply runs_cons; [done|]. eexists. split; [reflexivity|]. exact H. Qed.
Lemma r_tee x v l s st o : runs l (set_stack (set_loc s x v) (v :: st)) o -> runs (ITee x :: l) (set_stack s (v :: st)) o.
Proof. intros H. apply runs_cons; [done|]. eexists. split; [reflexivity|]. exact H. Qed.
Lemma r_add x y z l s st o : add x y = Some z -> runs l (set_stack s (z :: st)) o -> runs (IAdd :: l) (set_stack s (y :: x :: st)) o.
Proof. intros E H. apply runs_cons; [done|]. cbn. rewrite E. eexists. split; [reflexivity|]. exact H. Qed.
Lemma r_sub x y l s st o : runs l (set_stack s (Int (x - y) :: st)) o -> runs (ISub :: l) (set_stack s (Int y :: Int x :: st)) o.
Proof. intros H. apply runs_cons; [done|]. eexists. split; [reflexivity|]. exact H. Qed.
Lemma r_mul x y l s st o : runs l (set_stack s (Int (x * y) :: st)) o -> runs (IMul :: l) (set_stack s (Int y :: Int x :: st)) o.
Proof. intros H. apply runs_cons; [done|]. eexists. split; [reflexivity|]. exact H. Qed.
Lemma r_eqz x l s st o :
  runs l (set_stack s (Int (if decide (x = 0) then 1 else 0) :: st)) o -> runs (IEqz :: l) (set_stack s (Int x :: st)) o.
Proof. intros H. apply runs_cons; [done|]. eexists. split; [reflexivity|]. exact H. Qed.
Lemma r_load base a p v l s st o :
  load s base a p = Some v -> runs l (set_stack s (v :: st)) o -> runs (ILoad base a :: l) (set_stack s (p :: st)) o.
Proof.
  intros E H. apply runs_cons; [done|]. cbn [WasmModel.simple t_stack set_stack].
  change (load (set_stack s (p :: st)) base a p) with (load s base a p). rewrite E. eexists. split; [reflexivity|]. exact H.
Qed.
Lemma r_br n l s : runs (IBr n :: l) s (Brk n s).
Proof. apply runs_stop; done. Qed.
Lemma r_brif_no n l s st o : runs l (set_stack s st) o -> runs (IBrIf n :: l) (set_stack s (Int 0 :: st)) o.
Proof. intros H. apply runs_cons; [done|]. eexists. split; [reflexivity|]. exact H. Qed.
Lemma r_brif_yes n l s st : runs (IBrIf n :: l) (set_stack s (Int 1 :: st)) (Brk n (set_stack s st)).
Proof. apply runs_stop; done. Qed.
Lemma r_return v l s st : runs (IReturn :: l) (set_stack s (v :: st)) (Ret v (set_stack s st)).
Proof. apply runs_stop; done. Qed.
Lemma r_message l s o : runs l s o -> runs (IMessage :: l) s o.
Proof. intros H. apply runs_cons; [done|]. eexists. split; [reflexivity|]. exact H. Qed.
Lemma element_stack s st p : element (set_stack s st) p = element s p.
Proof. reflexivity. Qed.
Lemma set_element_stack (s : wstate V) st p v :
  set_element (set_stack s st) p v = s' ← set_element s p v; Some (set_stack s' st).
Proof.
  destruct p as [|r a]; [done|]. cbn. case_decide; [|done]. destruct r; try done.
  case_decide; done.
Qed.
Lemma r_copy p r v s' l s st o :
  element s p = Some v -> set_element s r v = Some s' -> runs l (set_stack s' st) o ->
  runs (ICopy :: l) (set_stack s (p :: r :: st)) o.
Proof.
  intros E1 E2 H. apply runs_cons; [done|]. exists (set_stack s' st). split; [|done].
  cbn [WasmModel.simple t_stack set_stack]. rewrite !element_stack, E1. cbn [mbind option_bind].
  rewrite set_element_stack, E2. done.
Qed.
Lemma r_istrue p v l s st o :
  element s p = Some v -> runs l (set_stack s (Int (if w_true w v then 1 else 0) :: st)) o ->
  runs (IIsTrue :: l) (set_stack s (p :: st)) o.
Proof.
  intros E H. apply runs_cons; [done|]. eexists. split; [|exact H].
  cbn [WasmModel.simple t_stack set_stack]. rewrite !element_stack, E. done.
Qed.
Lemma r_toint p v z l s st o :
  element s p = Some v -> w_toint w v = Some z -> runs l (set_stack s (Int z :: st)) o ->
  runs (IToInt :: l) (set_stack s (p :: st)) o.
Proof.
  intros E E2 H. apply runs_cons; [done|]. eexists. split; [|exact H].
  cbn [WasmModel.simple t_stack set_stack]. rewrite !element_stack, E, E2. done.
Qed.
Lemma r_op1 op p r x v s' l s st o :
  element s p = Some x -> distinct r p = true -> w_op1 w op x = Some v -> set_element s r v = Some s' ->
  runs l (set_stack s' st) o -> runs (IOp1 op :: l) (set_stack s (p :: r :: st)) o.
Proof.
  intros E1 E2 E3 E4 H. apply runs_cons; [done|]. exists (set_stack s' st). split; [|done].
  cbn [WasmModel.simple t_stack set_stack]. rewrite !element_stack, E1, E2, E3, set_element_stack, E4. done.
Qed.
Lemma r_op2 op p q r x y v s' l s st o :
  element s p = Some x -> element s q = Some y -> distinct r p = true -> distinct r q = true ->
  w_op2 w op x y = Some v -> set_element s r v = Some s' ->
  runs l (set_stack s' st) o -> runs (IOp2 op :: l) (set_stack s (q :: p :: r :: st)) o.
Proof.
  intros E1 E1' E2 E2' E3 E4 H. apply runs_cons; [done|]. exists (set_stack s' st). split; [|done].
  cbn [WasmModel.simple t_stack set_stack]. rewrite !element_stack, E1, E1', E2, E2', E3, set_element_stack, E4. done.
Qed.
Lemma r_eq p q r x y s' l s st o :
  element s p = Some x -> element s q = Some y -> distinct r p = true -> distinct r q = true ->
  set_element s r (w_bool w (w_eq w x y)) = Some s' ->
  runs l (set_stack s' st) o -> runs (IEq :: l) (set_stack s (q :: p :: r :: st)) o.
Proof.
  intros E1 E1' E2 E2' E4 H. apply runs_cons; [done|]. exists (set_stack s' st). split; [|done].
  cbn [WasmModel.simple t_stack set_stack]. rewrite !element_stack, E1, E1', E2, E2', set_element_stack, E4. done.
Qed.

(** ** Frames *)

(** The locals that the code of an expression may change. *)
Definition scratch (l : local) : bool :=
  match l with LSubLoad | LInfo | LAux0 | LAux1 | LAux2 | LCounter => true | _ => false end.
Definition frame (f : nat) (s s' : wstate V) : Prop :=
  t_mem s' = t_mem s /\ t_args s' = t_args s /\ t_result s' = t_result s /\ t_top s' = t_top s /\
  (forall k, (k < f)%nat -> t_aux s' k = t_aux s k) /\
  (forall l, scratch l = false -> t_loc s' l = t_loc s l).
Definition based (s : wstate V) : Prop :=
  t_loc s LLvar = Ptr RVars 0 /\ t_loc s LSignals = Ptr RSigs (m_base (t_mem s) * fs) /\
  t_loc s LExpaux = Ptr RAux 0 /\ t_loc s LOffset = Ptr ROwn 0.
Lemma frame_refl f s : frame f s s.
Proof. by repeat split. Qed.
Lemma frame_trans f g s1 s2 s3 : (f <= g)%nat -> frame f s1 s2 -> frame g s2 s3 -> frame f s1 s3.
Proof.
  intros Hg (?&?&?&?&A&L) (?&?&?&?&A'&L'). split_and!; try congruence.
  - intros k Hk. rewrite A' by lia. auto.
  - intros l Hl. rewrite L' by done. auto.
Qed.
Lemma frame_le f g s1 s2 : (f <= g)%nat -> frame g s1 s2 -> frame f s1 s2.
Proof. intros. eapply frame_trans; [done|apply frame_refl|done]. Qed.
Lemma frame_based f s s' : frame f s s' -> based s -> based s'.
Proof.
  intros (M&_&_&_&_&L) (?&?&?&?). unfold based. rewrite M, !L by done. done.
Qed.
Lemma frame_loc f s l v : scratch l = true -> frame f s (set_loc s l v).
Proof.
  intros Hl. split_and!; try done. intros k Hk. cbn. rewrite decide_False by congruence. done.
Qed.
Lemma frame_loc_r f s s' l v : scratch l = true -> frame f s s' -> frame f s (set_loc s' l v).
Proof. intros. eapply (frame_trans f f); [done|done|by apply frame_loc]. Qed.
Lemma frame_mem f s s' : frame f s s' -> t_mem s' = t_mem s.
Proof. by intros (?&_). Qed.

(** What an address denotes. *)
Definition mptr (l : mloc) : wval := match l with LVar z => Ptr RVars (z * fs) | LSig z => Ptr RSigs (z * fs) end.
Definition denotes (f f' : nat) (s : wstate V) (p : wval) (x : src V) : Prop :=
  match x with
  | SrcMem l => p = mptr l
  | SrcConst c => p = Ptr RConst (Z.of_nat c * fs)
  | SrcVal v => exists n, p = Ptr RAux (Z.of_nat n * fs) /\ (f <= n < f')%nat /\ (n < depth)%nat /\ t_aux s n = v
  end.
Lemma elem_var s z : element s (Ptr RVars (z * fs)) = Some (m_vars (t_mem s) z).
Proof. cbn. rewrite decide_True by apply mul_mod. by rewrite mul_div. Qed.
Lemma elem_sig s z : element s (Ptr RSigs (z * fs)) = Some (m_sigs (t_mem s) z).
Proof. cbn. rewrite decide_True by apply mul_mod. by rewrite mul_div. Qed.
Lemma elem_const s c : element s (Ptr RConst (Z.of_nat c * fs)) = Some (w_const w c).
Proof. cbn. rewrite decide_True by apply mul_mod. rewrite mul_div, decide_True by lia. by rewrite Nat2Z.id. Qed.
Lemma elem_aux s n : (n < depth)%nat -> element s (Ptr RAux (Z.of_nat n * fs)) = Some (t_aux s n).
Proof. intros. cbn. rewrite decide_True by apply mul_mod. rewrite mul_div, decide_True by lia. by rewrite Nat2Z.id. Qed.
Lemma elem_mem s l : element s (mptr l) = Some (read (t_mem s) l 0).
Proof. destruct l; cbn [mptr read]; rewrite Z.add_0_r; [apply elem_var|apply elem_sig]. Qed.

Definition shift (p : wval) (k : Z) : wval := match p with Ptr r o => Ptr r (o + k * fs) | v => v end.
Lemma denotes_cell f f' s p x k :
  denotes f f' s p x -> (k = 0%nat \/ forall v, x <> SrcVal v) ->
  element s (shift p (Z.of_nat k)) = Some (src_cell w (t_mem s) x k).
Proof.
  destruct x as [[z|z]|c|v]; cbn [denotes mptr src_cell read].
  - intros -> _. cbn [shift]. rewrite <- Z.mul_add_distr_r. apply elem_var.
  - intros -> _. cbn [shift]. rewrite <- Z.mul_add_distr_r. apply elem_sig.
  - intros -> _. cbn [shift]. rewrite <- Z.mul_add_distr_r, <- Nat2Z.inj_add. apply elem_const.
  - intros (n & -> & Hn & Hd & <-) [->|H]; [|by destruct (H (t_aux s n))].
    cbn [shift]. rewrite Z.mul_0_l, Z.add_0_r. by apply elem_aux.
Qed.
Lemma denotes_cell0 f f' s p x :
  denotes f f' s p x -> element s p = Some (src_cell w (t_mem s) x 0).
Proof.
  intros H. pose proof (denotes_cell _ _ _ _ _ 0 H (or_introl eq_refl)) as E.
  destruct p as [|r o]; cbn [shift] in E; [done|]. by rewrite Z.mul_0_l, Z.add_0_r in E.
Qed.
Lemma denotes_frame f f' s s' p x : frame f' s s' -> denotes f f' s p x -> denotes f f' s' p x.
Proof.
  intros (M&_&_&_&A&_). destruct x; [done..|]. intros (n & -> & Hn & Hd & <-). exists n. split_and!; try done; try lia.
  apply A. lia.
Qed.
Lemma denotes_widen f f' g g' s p x : (g <= f)%nat -> (f' <= g')%nat -> denotes f f' s p x -> denotes g g' s p x.
Proof. intros ??. destruct x; [done..|]. intros (n & -> & Hn & Hd & <-). exists n. split_and!; try done; lia. Qed.
Lemma denotes_distinct f f' s p x aux :
  (aux < f)%nat -> denotes f f' s p x -> distinct (Ptr RAux (Z.of_nat aux * fs)) p = true.
Proof.
  intros Ha. destruct x as [[z|z]|c|v]; cbn [denotes mptr]; try (by intros ->).
  intros (n & -> & Hn & _). cbn. apply bool_decide_eq_true. intros E. apply Z.mul_reg_r in E; [lia|done].
Qed.
Definition set_aux (s : wstate V) (n : nat) (v : V) : wstate V :=
  WState (t_mem s) (fun j => if decide (j = n) then v else t_aux s j) (t_args s) (t_result s) (t_loc s) (t_top s) (t_stack s).
Lemma set_elem_aux s n v : (n < depth)%nat -> set_element s (Ptr RAux (Z.of_nat n * fs)) v = Some (set_aux s n v).
Proof. intros. cbn. rewrite decide_True by apply mul_mod. rewrite mul_div, decide_True by lia. by rewrite Nat2Z.id. Qed.
Lemma frame_aux f s n v : (f <= n)%nat -> frame f s (set_aux s n v).
Proof. intros Hn. split_and!; try done. intros k Hk. cbn. rewrite decide_False by lia. done. Qed.

(** ** Loads of words *)
Lemma load_none s r o k : load s None o (Ptr r k) = word w fs sio sbus s r (k + o).
Proof. reflexivity. Qed.
Lemma load_some s r o k : load s (Some r) o (Int k) = word w fs sio sbus s r (k + o).
Proof. reflexivity. Qed.
Lemma word_tpl s k : word w fs sio sbus s RTpl (k * 4) = Some (Ptr (RSignals k) 0).
Proof. unfold word. rewrite decide_True by apply mul_mod. by rewrite mul_div. Qed.
Lemma word_bus s k : word w fs sio sbus s RBus (k * 4) = Some (Ptr (RFields k) 0).
Proof. unfold word. rewrite decide_True by apply mul_mod. by rewrite mul_div. Qed.
Lemma word_signals s t k : word w fs sio sbus s (RSignals t) (4 * Z.of_nat k) = Some (Ptr (RSignal t k) 0).
Proof.
  unfold word. rewrite Z.mul_comm, decide_True by apply mul_mod. rewrite mul_div, decide_True by lia. by rewrite Nat2Z.id.
Qed.
Lemma word_fields s t k : word w fs sio sbus s (RFields t) (4 * Z.of_nat k) = Some (Ptr (RField t k) 0).
Proof.
  unfold word. rewrite Z.mul_comm, decide_True by apply mul_mod. rewrite mul_div, decide_True by lia. by rewrite Nat2Z.id.
Qed.
Lemma word_own s c : 0 <= c -> word w fs sio sbus s ROwn (12 + c * 4) = Some (Ptr (RBlock c) 0).
Proof.
  intros Hc. replace (12 + c * 4) with ((3 + c) * 4) by lia. unfold word. rewrite decide_True by apply mul_mod.
  rewrite mul_div, decide_True by lia. by replace (3 + c - 3) with c by lia.
Qed.
(** Region [r] holds the description [d], of shape [h]. *)
Definition holds (r : region) (d : io_field) (h : shape) : Prop :=
  forall s k, word w fs sio sbus s r (4 * Z.of_nat k) = Int <$> words fs d h !! k.
Lemma holds_signal t c : holds (RSignal t c) (w_io w t c) (sio t c).
Proof.
  intros s k. unfold word. rewrite Z.mul_comm, decide_True by apply mul_mod. rewrite mul_div, decide_True by lia. by rewrite Nat2Z.id.
Qed.
Lemma holds_field t c : holds (RField t c) (w_bus w t c) (sbus t c).
Proof.
  intros s k. unfold word. rewrite Z.mul_comm, decide_True by apply mul_mod. rewrite mul_div, decide_True by lia. by rewrite Nat2Z.id.
Qed.
Lemma holds_offset r d h s : holds r d h -> word w fs sio sbus s r 0 = Some (Int (i_offset d * fs)).
Proof. intros H. apply (H s 0%nat). Qed.
Lemma holds_length r d h s k :
  holds r d h -> sh_array h = true -> (1 <= k < S (length (i_lengths d)))%nat ->
  word w fs sio sbus s r (4 * Z.of_nat k) = Some (Int (dim_size d k)).
Proof.
  intros H Hh Hk. rewrite H. unfold words, dim_size. rewrite Hh. destruct k as [|k]; [lia|]. rewrite lookup_cons.
  replace (S k - 1)%nat with k by lia. rewrite lookup_app_l by (rewrite app_length; cbn; lia).
  rewrite lookup_app_l by lia. destruct (lookup_lt_is_Some_2 (i_lengths d) k) as [x Hx]; [lia|].
  rewrite Hx. cbn. f_equal. f_equal. symmetry. by apply nth_lookup_Some.
Qed.
Lemma holds_size r d h s :
  holds r d h -> sh_array h = true ->
  word w fs sio sbus s r (4 * Z.of_nat (S (length (i_lengths d)))) = Some (Int (i_size d)).
Proof.
  intros H Hh. rewrite H. unfold words. rewrite Hh. rewrite lookup_cons.
  rewrite lookup_app_l by (rewrite app_length; cbn; lia).
  rewrite lookup_app_r, Nat.sub_diag by lia. done.
Qed.
Lemma holds_bus_array r d h s :
  holds r d h -> sh_array h = true -> sh_bus h = true ->
  word w fs sio sbus s r (4 * Z.of_nat (S (S (length (i_lengths d))))) = Some (Int (i_bus d)).
Proof.
  intros H Hh Hb. rewrite H. unfold words. rewrite Hh, Hb. rewrite lookup_cons.
  rewrite lookup_app_r by (rewrite app_length; cbn; lia). rewrite app_length. cbn [length].
  replace (S (length (i_lengths d)) - (length (i_lengths d) + 1))%nat with 0%nat by lia. done.
Qed.
Lemma holds_bus r d h s :
  holds r d h -> sh_array h = false -> sh_bus h = true -> word w fs sio sbus s r 4 = Some (Int (i_bus d)).
Proof. intros H Hh Hb. pose proof (H s 1%nat) as E. unfold words in E. rewrite Hh, Hb in E. exact E. Qed.

(** ** The code of expressions *)

Definition yields {A} (q : bool) (f : nat) (s : wstate V) (st : list wval) (c : list instr) (o : option A)
  (good : A -> wstate V -> wval -> Prop) : Prop :=
  match o with
  | Some x => exists s' p, runs c (set_stack s st) (Next (set_stack s' (p :: st))) /\ frame f s s' /\
                (q = true -> t_loc s' LInfo = t_loc s LInfo) /\ good x s' p
  | None => runs c (set_stack s st) Trap
  end.
Definition num (z : Z) (s : wstate V) (p : wval) : Prop := p = Int z.

Lemma yields_bind {A B} q1 q2 q f g s st c1 c2 (o1 : option A) (k : A -> option B) good1 good2 :
  (q = true -> q1 = true /\ q2 = true) -> (f <= g)%nat ->
  yields q1 f s st c1 o1 good1 ->
  (forall x s1 p, o1 = Some x -> frame f s s1 -> good1 x s1 p ->
     match k x with
     | Some y => exists s' r, runs c2 (set_stack s1 (p :: st)) (Next (set_stack s' (r :: st))) /\ frame g s1 s' /\
                (q2 = true -> t_loc s' LInfo = t_loc s1 LInfo) /\ good2 y s' r
     | None => runs c2 (set_stack s1 (p :: st)) Trap
     end) ->
  yields q f s st (c1 ++ c2) (o1 ≫= k) good2.
Proof.
  intros Hq Hg H1 H2. unfold yields in *. destruct o1 as [x|]; cbn [mbind option_bind].
  - destruct H1 as (s1 & p & R1 & F1 & Q1 & G1). specialize (H2 x s1 p eq_refl F1 G1). destruct (k x) as [y|].
    + destruct H2 as (s' & r & R2 & F2 & Q2 & G2). exists s', r. split_and!; [by eapply runs_app|by eapply frame_trans| |done].
      intros E. destruct (Hq E). rewrite Q2, Q1; done.
    + by eapply runs_app.
  - by apply runs_app_stop.
Qed.

Lemma r_expaux n l s st o :
  based s -> runs l (set_stack s (Ptr RAux (Z.of_nat n * fs) :: st)) o ->
  runs ([IGet LExpaux; IConst (Z.of_nat n * fs); IAdd] ++ l) (set_stack s st) o.
Proof.
  intros (_&_&E&_) H. cbn [app]. eapply r_get; [exact E|]. apply r_const. eapply r_add; [|exact H]. reflexivity.
Qed.
Lemma r_scaled x base z l s st o :
  t_loc s base = Ptr x (z * fs) -> forall y, 
  runs l (set_stack s (Ptr x ((z + y) * fs) :: st)) o ->
  runs ([IConst fs; IMul; IGet base; IAdd] ++ l) (set_stack s (Int y :: st)) o.
Proof.
  intros E y H. cbn [app]. apply r_const. apply r_mul. eapply r_get; [exact E|]. eapply r_add; [|exact H].
  cbn. do 2 f_equal. lia.
Qed.
Lemma r_op1_trap op p r x l s st :
  element s p = Some x -> distinct r p = true -> w_op1 w op x = None -> runs (IOp1 op :: l) (set_stack s (p :: r :: st)) Trap.
Proof.
  intros E1 E2 E3. apply runs_stop; [done| |done]. cbn [WasmModel.simple t_stack set_stack].
  rewrite !element_stack, E1, E2, E3. done.
Qed.
Lemma r_op2_trap op p q r x y l s st :
  element s p = Some x -> element s q = Some y -> distinct r p = true -> distinct r q = true -> w_op2 w op x y = None ->
  runs (IOp2 op :: l) (set_stack s (q :: p :: r :: st)) Trap.
Proof.
  intros E1 E1' E2 E2' E3. apply runs_stop; [done| |done]. cbn [WasmModel.simple t_stack set_stack].
  rewrite !element_stack, E1, E1', E2, E2', E3. done.
Qed.
Lemma r_toint_trap p v l s st :
  element s p = Some v -> w_toint w v = None -> runs (IToInt :: l) (set_stack s (p :: st)) Trap.
Proof.
  intros E E2. apply runs_stop; [done| |done].
  cbn [WasmModel.simple t_stack set_stack]. rewrite !element_stack, E, E2. done.
Qed.

(** The sizes that are not indexed. *)
Lemma r_rest r d h n : forall k p l s st o,
  holds r d h -> sh_array h = true -> t_loc s LInfo = Ptr r 0 ->
  (1 <= k)%nat -> (k + n <= S (length (i_lengths d)))%nat ->
  runs l (set_stack s (Int (p * foldr Z.mul 1 (dim_size d <$> seq k n)) :: st)) o ->
  runs (rest_sizes (Z.of_nat k) n ++ l) (set_stack s (Int p :: st)) o.
Proof.
  induction n as [|n IH]; intros k p l s st o H Hh Hi Hk Hn R; cbn [rest_sizes app].
  - cbn in R. by rewrite Z.mul_1_r in R.
  - eapply r_get; [exact Hi|]. eapply r_load.
    { rewrite load_none, Z.add_0_l. eapply holds_length; [done..|lia]. }
    apply r_mul. replace (Z.of_nat k + 1) with (Z.of_nat (S k)) by lia. apply (IH (S k)); [done..|lia|lia|].
    cbn [seq fmap list_fmap foldr] in R. by rewrite Z.mul_assoc in R.
Qed.
Lemma r_missing r d h n k l s st o :
  holds r d h -> sh_array h = true -> t_loc s LInfo = Ptr r 0 ->
  (1 <= k)%nat -> (k + n <= S (length (i_lengths d)))%nat -> (1 <= n)%nat ->
  runs l (set_stack s (Int (foldr Z.mul 1 (dim_size d <$> seq k n)) :: st)) o ->
  runs (missing (Z.of_nat k) n ++ l) (set_stack s st) o.
Proof.
  intros H Hh Hi Hk Hn Hn' R. destruct n as [|n]; [lia|]. cbn [missing]. rewrite <- app_assoc. cbn [app].
  eapply r_get; [exact Hi|]. eapply r_load.
  { rewrite load_none, Z.add_0_l. eapply holds_length; [done..|lia]. }
  replace (Z.of_nat k + 1) with (Z.of_nat (S k)) by lia. eapply r_rest; [done..|lia|lia|]. exact R.
Qed.

(** Equality of arrays. *)
Lemma array_distinct f f' s p x k n :
  denotes f f' s p x -> (forall v, x <> SrcVal v) -> distinct (Ptr RAux n) (shift p k) = true.
Proof. destruct x as [[z|z]|c|v]; cbn; [by intros ->..|]. intros _ H. by destruct (H v). Qed.
Lemma array_shift f f' s p x k :
  denotes f f' s p x -> (forall v, x <> SrcVal v) ->
  add (shift p (Z.of_nat k)) (Int fs) = Some (shift p (Z.of_nat (S k))).
Proof.
  destruct x as [[z|z]|c|v]; cbn [denotes mptr]; [| | |intros _ H; by destruct (H v)];
    intros -> _; cbn [shift add]; do 2 f_equal; lia.
Qed.
Definition eq_body : list instr :=
  [IGet LAux0; IGet LAux1; IGet LAux2; IEq; IGet LAux0; IIsTrue; IEqz; IBrIf 1;
   IGet LCounter; IConst 1; ISub; ITee LCounter; IEqz; IBrIf 1;
   IGet LAux1; IConst fs; IAdd; ISet LAux1; IGet LAux2; IConst fs; IAdd; ISet LAux2; IBr 0].
Lemma eq_loop_ok x y f f' g g' aux p q n : (aux < f)%nat -> (aux < g)%nat -> (aux < depth)%nat ->
  (forall v, x <> SrcVal v) -> (forall v, y <> SrcVal v) -> forall k s,
  denotes f f' s p x -> denotes g g' s q y ->
  t_loc s LAux0 = Ptr RAux (Z.of_nat aux * fs) -> t_loc s LAux1 = shift p (Z.of_nat k) ->
  t_loc s LAux2 = shift q (Z.of_nat k) -> t_loc s LCounter = Int (Z.of_nat (S n)) ->
  exists s', runs [ILoop eq_body] (set_stack s []) (Brk 0 (set_stack s' [])) /\ frame aux s s' /\
    t_loc s' LInfo = t_loc s LInfo /\
    t_aux s' aux = w_bool w (forallb (fun k => w_eq w (src_cell w (t_mem s) x k) (src_cell w (t_mem s) y k)) (seq k (S n))).
Proof.
  intros Hf Hg Hd Hx Hy. induction n as [|n IH]; intros k s Dp Dq E0 E1 E2 Ec;
    pose proof (denotes_cell _ _ _ _ _ k Dp (or_intror Hx)) as Cp;
    pose proof (denotes_cell _ _ _ _ _ k Dq (or_intror Hy)) as Cq;
    rewrite <- cons_seq; cbn [forallb];
    set (b := w_eq w (src_cell w (t_mem s) x k) (src_cell w (t_mem s) y k)) in *;
    set (s1 := set_aux s aux (w_bool w b));
    assert (F1 : frame aux s s1) by (by apply frame_aux);
    assert (A1 : element s1 (Ptr RAux (Z.of_nat aux * fs)) = Some (w_bool w b))
      by (rewrite elem_aux by done; cbn; by rewrite decide_True);
    (assert (RUN : forall o, runs (drop 6 eq_body) (set_stack s1 [Int (if b then 1 else 0)]) o ->
      runs eq_body (set_stack s []) o);
     [intros o Ho; eapply r_get; [exact E0|]; eapply r_get; [exact E1|]; eapply r_get; [exact E2|];
      eapply r_eq; [exact Cp|exact Cq|by eapply array_distinct|by eapply array_distinct|by apply set_elem_aux|];
      eapply r_get; [exact E0|]; eapply r_istrue; [exact A1|]; rewrite Htrue; exact Ho|]);
    cbn [eq_body drop] in RUN; destruct b.
  - set (s2 := set_loc s1 LCounter (Int 0)). exists s2. split_and!.
    + apply runs_loop_exit. apply RUN. apply r_eqz. cbn. apply r_brif_no. eapply r_get; [exact Ec|].
      apply r_const. apply r_sub. apply r_tee. apply r_eqz. cbn. apply r_brif_yes.
    + by apply frame_loc_r.
    + done.
    + cbn. by rewrite decide_True.
  - exists s1. split_and!; [|done..|].
    + apply runs_loop_exit. apply RUN. apply r_eqz. cbn. apply r_brif_yes.
    + cbn. by rewrite decide_True.
  - set (s2 := set_loc s1 LCounter (Int (Z.of_nat (S n)))).
    set (s3 := set_loc (set_loc s2 LAux1 (shift p (Z.of_nat (S k)))) LAux2 (shift q (Z.of_nat (S k)))).
    assert (F3 : frame aux s s3).
    { by repeat apply frame_loc_r. }
    destruct (IH (S k) s3) as (s' & R & F & I & A); [| |done..|].
    + destruct x as [[z|z]|c|v]; [done..|by destruct (Hx v)].
    + destruct y as [[z|z]|c|v]; [done..|by destruct (Hy v)].
    + exists s'. split_and!.
      * eapply runs_loop_next; [|exact R]. apply RUN. apply r_eqz. cbn [decide]. apply r_brif_no.
        eapply r_get; [exact Ec|]. apply r_const. apply r_sub.
        replace (Z.of_nat (S (S n)) - 1) with (Z.of_nat (S n)) by lia. apply r_tee. apply r_eqz.
        rewrite decide_False by lia. apply r_brif_no.
        eapply r_get; [exact E1|]. apply r_const. eapply r_add; [by eapply array_shift|]. apply r_set.
        eapply r_get; [exact E2|]. apply r_const. eapply r_add; [by eapply array_shift|]. apply r_set. apply r_br.
      * by eapply frame_trans.
      * done.
      * rewrite A. done.
  - exists s1. split_and!; [|done..|].
    + apply runs_loop_exit. apply RUN. apply r_eqz. cbn. apply r_brif_yes.
    + cbn. by rewrite decide_True.
Qed.

(** Positions in arrays. *)
Lemma foldr_mul_acc l a : foldr Z.mul a l = foldr Z.mul 1 l * a.
Proof. induction l as [|x l IH]; cbn; [lia|]. rewrite IH. lia. Qed.
Lemma stride_prefix len n dim j : (j < n)%nat -> (n <= dim)%nat ->
  stride len dim j = stride len n j * foldr Z.mul 1 (len <$> seq n (dim - n)).
Proof.
  intros Hj Hn. unfold stride. replace (dim - S j)%nat with ((n - S j) + (dim - n))%nat by lia.
  rewrite seq_app, fmap_app, foldr_app, foldr_mul_acc. by replace (S j + (n - S j))%nat with n by lia.
Qed.
Lemma row_major_prefix len n dim xs : forall j, (j + length xs = n)%nat -> (n <= dim)%nat ->
  row_major len dim j xs = row_major len n j xs * foldr Z.mul 1 (len <$> seq n (dim - n)).
Proof.
  induction xs as [|x xs IH]; intros j Hj Hn; cbn; [lia|]. cbn in Hj.
  rewrite (stride_prefix _ n) by lia. rewrite IH by lia. lia.
Qed.

(** The first access. *)
Definition head (acc : accesses) : nat := match acc with XNil => 0 | XIdx _ _ _ => 1 | XQual _ _ => 2 end.
Lemma build_head f acc : head (build_x f acc).1.1 = head acc.
Proof.
  destruct acc; cbn; [done| |].
  - destruct (build_as f ixs) as [[? ?] f0]. by destruct (build_x f0 acc) as [[? ?] ?].
  - by destruct (build_x f acc) as [[? ?] ?].
Qed.

Local Notation fits_f := (fits_f w sio sbus).
Local Notation fits_a := (fits_a w sio sbus).
Local Notation fits_as := (fits_as w sio sbus).
Local Notation fits_x := (fits_x w sio sbus).

Definition PF (e : fexpr) : Prop := forall f, ok_f e ->
  let '(e', d, f') := build_f f e in (d <= depth)%nat -> forall s st, based s -> fits_f (t_mem s) e = true ->
  yields (quiet_f e) f s st (code_f fs e') (den_f w (t_mem s) e) (fun x s' p => denotes f f' s' p x).
Definition PA (e : aexpr) : Prop := forall f, ok_a e ->
  let '(e', d, f') := build_a f e in (d <= depth)%nat -> forall s st, based s -> fits_a (t_mem s) e = true ->
  yields (quiet_a e) f s st (code_a fs e') (den_a w (t_mem s) e) num.
Definition PAS (l : aexprs) : Prop := forall f, ok_as l ->
  let '(l', d, f') := build_as f l in (d <= depth)%nat -> forall s st r d h k tv, based s ->
  fits_as (t_mem s) l = true -> quiet_as l = true -> t_loc s LInfo = Ptr r 0 -> holds r d h -> sh_array h = true ->
  (k + as_length l <= S (length (i_lengths d)))%nat -> (k = 0%nat -> l <> ANil) ->
  match den_as w (t_mem s) l with
  | Some xs =>
      exists s', runs (code_as fs (Z.of_nat k) l') (set_stack s (if decide (k = 0%nat) then st else Int tv :: st))
                   (Next (set_stack s' (Int (horner d k tv xs) :: st))) /\
        frame f s s' /\ t_loc s' LInfo = t_loc s LInfo
  | None => runs (code_as fs (Z.of_nat k) l') (set_stack s (if decide (k = 0%nat) then st else Int tv :: st)) Trap
  end.
Definition PX (acc : accesses) : Prop := forall f, ok_x acc ->
  let '(acc', dd, f') := build_x f acc in (dd <= depth)%nat -> forall s st r d h indexed off, based s ->
  fits_x (t_mem s) d h indexed acc = true -> holds r d h -> (head acc = 1%nat -> t_loc s LInfo = Ptr r 0) ->
  let st0 := match head acc with 2%nat => Int (i_bus d) :: Int off :: st | _ => Int off :: st end in
  match den_x w (t_mem s) d acc with
  | Some x => exists s', runs (code_x fs acc') (set_stack s st0) (Next (set_stack s' (Int (off + x * fs) :: st))) /\ frame f s s'
                /\ (head acc = 0%nat -> t_loc s' LInfo = t_loc s LInfo)
  | None => runs (code_x fs acc') (set_stack s st0) Trap
  end.
Definition PL (l : locat) : Prop := match l with Indexed a => PA a | Mapped _ acc => PX acc end.

Lemma block_ok q f s st c (o : option Z) :
  based s -> (forall st, yields q f s st c o num) -> (forall x, o = Some x -> 0 <= x) ->
  yields q f s st (code_block c) o (fun x s' p => p = Ptr (RBlock x) 0).
Proof.
  intros B H Hx. unfold yields in *. unfold code_block. pose proof B as (_&_&_&E).
  assert (G : forall o2, runs (c ++ [IConst 4; IMul; IAdd; ILoad None 0]) (set_stack s (Ptr ROwn 12 :: st)) o2 ->
    runs ([IGet LOffset; IConst 12; IAdd] ++ c ++ [IConst 4; IMul; IAdd; ILoad None 0]) (set_stack s st) o2).
  { intros o2 Ho. cbn [app]. eapply r_get; [exact E|]. apply r_const. eapply r_add; [reflexivity|]. exact Ho. }
  specialize (H (Ptr ROwn 12 :: st)). destruct o as [x|].
  - destruct H as (s' & p & R & F & Q & ->). exists s', (Ptr (RBlock x) 0). split_and!; try done.
    apply G. eapply runs_app; [exact R|]. apply r_const. apply r_mul. eapply r_add; [reflexivity|].
    eapply r_load; [|apply runs_nil]. rewrite load_none, Z.add_0_r. apply word_own. by apply Hx.
  - apply G. by apply runs_app_stop.
Qed.

Lemma c_value aux c : PF (FValue aux c).
Proof.
  intros f _. cbn [build_f]. intros Hd s st B _. rewrite den_value. cbn [yields code_f].
  eexists s, _. split_and!; [apply r_addr; apply runs_nil|apply frame_refl|done|done].
Qed.
Lemma c_var a : PA a -> PF (FLoadVar a).
Proof.
  intros IH f Hok. specialize (IH f Hok). cbn [build_f]. destruct (build_a f a) as [[a' d] f'].
  intros Hd s st B Hfit. specialize (IH ltac:(lia) s st B Hfit). rewrite den_var. cbn [code_f quiet_f].
  apply (yields_bind (quiet_a a) true _ f f _ _ _ _ _ _ num); [tauto|done|exact IH|].
  intros x s1 p _ F1 ->. eexists s1, _. split_and!; [|apply frame_refl|done|reflexivity]. cbn [mptr].
  pose proof (frame_based _ _ _ F1 B) as (E&_). apply (r_scaled RVars LLvar 0 [] s1 st _ E x). apply runs_nil.
Qed.
Lemma c_sig a : PA a -> PF (FLoadSig a).
Proof.
  intros IH f Hok. specialize (IH f Hok). cbn [build_f]. destruct (build_a f a) as [[a' d] f'].
  intros Hd s st B Hfit. specialize (IH ltac:(lia) s st B Hfit). rewrite den_sig. cbn [code_f quiet_f].
  apply (yields_bind (quiet_a a) true _ f f _ _ _ _ _ _ num); [tauto|done|exact IH|].
  intros x s1 p _ F1 ->. eexists s1, _. split_and!; [|apply frame_refl|done|reflexivity]. cbn [mptr].
  pose proof (frame_based _ _ _ F1 B) as (_&E&_). rewrite (frame_mem _ _ _ F1) in E.
  apply (r_scaled RSigs LSignals _ [] s1 st _ E x). apply runs_nil.
Qed.
Lemma c_op1 aux op a : PF a -> PF (FOp1 aux op a).
Proof.
  intros IH f Hok. specialize (IH (S f) Hok). cbn [build_f].
  pose proof (proj1 build_facts a (S f)) as HB. destruct (build_f (S f) a) as [[a' d] f'].
  intros Hd s st B Hfit. specialize (IH ltac:(lia) s (Ptr RAux (Z.of_nat f * fs) :: st) B Hfit).
  rewrite den_op1. cbn [code_f quiet_f].
  unfold yields in *. destruct (den_f w (t_mem s) a) as [x|]; cbn [mbind option_bind].
  - destruct IH as (s1 & p & R1 & F1 & Q1 & D1). pose proof (frame_based _ _ _ F1 B) as B1.
    pose proof (denotes_cell0 _ _ _ _ _ D1) as C1. rewrite (frame_mem _ _ _ F1) in C1.
    assert (X : distinct (Ptr RAux (Z.of_nat f * fs)) p = true) by (eapply denotes_distinct; [|exact D1]; lia).
    destruct (w_op1 w op _) as [v|] eqn:Ev; cbn [mbind option_bind].
    + exists (set_aux s1 f v), (Ptr RAux (Z.of_nat f * fs)). split_and!.
      * apply r_expaux; [done|]. eapply runs_app; [exact R1|]. eapply r_op1; [exact C1|done|exact Ev|apply set_elem_aux; lia|].
        apply (r_expaux f [] (set_aux s1 f v)); [done|]. apply runs_nil.
      * eapply (frame_trans f f); [done|eapply frame_le; [|exact F1]; lia|by apply frame_aux].
      * done.
      * exists f. split_and!; try lia; try done. cbn. by rewrite decide_True.
    + apply r_expaux; [done|]. eapply runs_app; [exact R1|]. by eapply r_op1_trap.
  - apply r_expaux; [done|]. by apply runs_app_stop.
Qed.
(** Two operands. *)
Lemma two_ok q1 q2 f g h s st c1 c2 l (o1 o2 : option (src V)) :
  (f <= g)%nat ->
  (forall st, yields q1 f s st c1 o1 (fun x s' p => denotes f g s' p x)) ->
  (forall s1 st, frame f s s1 -> yields q2 g s1 st c2 o2 (fun x s' p => denotes g h s' p x)) ->
  match o1, o2 with
  | Some x, Some y =>
      exists s' p q, frame f s s' /\ (q1 && q2 = true -> t_loc s' LInfo = t_loc s LInfo) /\
        denotes f g s' p x /\ denotes g h s' q y /\
        forall o, runs l (set_stack s' (q :: p :: st)) o -> runs (c1 ++ c2 ++ l) (set_stack s st) o
  | _, _ => runs (c1 ++ c2 ++ l) (set_stack s st) Trap
  end.
Proof.
  intros Hg H1 H2. specialize (H1 st). unfold yields in *. destruct o1 as [x|]; [|by apply runs_app_stop].
  destruct H1 as (s1 & p & R1 & F1 & Q1 & D1). specialize (H2 s1 (p :: st) F1).
  destruct o2 as [y|]; [|eapply runs_app; [exact R1|]; by apply runs_app_stop].
  destruct H2 as (s2 & q & R2 & F2 & Q2 & D2). exists s2, p, q. split_and!.
  - by eapply frame_trans.
  - intros [??]%andb_prop. rewrite Q2, Q1; done.
  - by eapply denotes_frame.
  - done.
  - intros o Ho. eapply runs_app; [exact R1|]. eapply runs_app; [exact R2|]. done.
Qed.
Lemma c_op2 aux op a b : PF a -> PF b -> PF (FOp2 aux op a b).
Proof.
  intros IHa IHb f [Ha Hb]. specialize (IHa (S f) Ha). cbn [build_f].
  pose proof (proj1 build_facts a (S f)) as Ba. destruct (build_f (S f) a) as [[a' d0] f0].
  specialize (IHb f0 Hb). pose proof (proj1 build_facts b f0) as Bb. destruct (build_f f0 b) as [[b' d1] f1].
  intros Hd s st B [Fa Fb]%andb_prop. rewrite den_op2. cbn [code_f quiet_f].
  specialize (IHa ltac:(lia) s). specialize (IHb ltac:(lia)).
  pose proof (two_ok (quiet_f a) (quiet_f b) (S f) f0 f1 s (Ptr RAux (Z.of_nat f * fs) :: st) (code_f fs a') (code_f fs b')
    ([IOp2 op] ++ [IGet LExpaux; IConst (Z.of_nat f * fs); IAdd]) (den_f w (t_mem s) a) (den_f w (t_mem s) b)) as T.
  specialize (T ltac:(lia)). specialize (T (fun st => IHa st B Fa)).
  assert (Hb2 : forall s1 st, frame (S f) s s1 ->
     yields (quiet_f b) f0 s1 st (code_f fs b') (den_f w (t_mem s) b) (fun x s' p => denotes f0 f1 s' p x)).
  { intros s1 st1 F1. pose proof (frame_mem _ _ _ F1) as M1. specialize (IHb s1 st1 (frame_based _ _ _ F1 B)).
    rewrite M1 in IHb. by apply IHb. }
  specialize (T Hb2). unfold yields.
  destruct (den_f w (t_mem s) a) as [x|]; cbn [mbind option_bind]; [|by apply r_expaux].
  destruct (den_f w (t_mem s) b) as [y|]; cbn [mbind option_bind]; [|by apply r_expaux].
  destruct T as (s1 & p & q & F1 & Q1 & Dp & Dq & T). pose proof (frame_based _ _ _ F1 B) as B1.
  pose proof (denotes_cell0 _ _ _ _ _ Dp) as Cp. pose proof (denotes_cell0 _ _ _ _ _ Dq) as Cq.
  rewrite (frame_mem _ _ _ F1) in Cp, Cq.
  assert (X : distinct (Ptr RAux (Z.of_nat f * fs)) p = true) by (eapply denotes_distinct; [|exact Dp]; lia).
  assert (Y : distinct (Ptr RAux (Z.of_nat f * fs)) q = true) by (eapply denotes_distinct; [|exact Dq]; lia).
  destruct (w_op2 w op _ _) as [v|] eqn:Ev; cbn [mbind option_bind].
  - exists (set_aux s1 f v), (Ptr RAux (Z.of_nat f * fs)). split_and!.
    + apply r_expaux; [done|]. apply T. eapply r_op2; [exact Cp|exact Cq|done|done|exact Ev|apply set_elem_aux; lia|].
      apply (r_expaux f [] (set_aux s1 f v)); [done|]. apply runs_nil.
    + eapply (frame_trans f f); [done|eapply frame_le; [|exact F1]; lia|by apply frame_aux].
    + done.
    + exists f. split_and!; try lia; try done. cbn. by rewrite decide_True.
  - apply r_expaux; [done|]. apply T. by eapply r_op2_trap.
Qed.
Lemma c_eq aux n a b : PF a -> PF b -> PF (FEq aux n a b).
Proof.
  intros IHa IHb f (Ha & Hb & [Hn La] & [_ Lb]). specialize (IHa (S f) Ha). cbn [build_f].
  pose proof (proj1 build_facts a (S f)) as Ba. destruct (build_f (S f) a) as [[a' d0] f0].
  specialize (IHb f0 Hb). pose proof (proj1 build_facts b f0) as Bb. destruct (build_f f0 b) as [[b' d1] f1].
  intros Hd s st B [Fa Fb]%andb_prop. rewrite den_eq. cbn [code_f quiet_f].
  specialize (IHa ltac:(lia) s). specialize (IHb ltac:(lia)).
  match goal with |- context [code_f fs b' ++ ?l] =>
    pose proof (two_ok (quiet_f a) (quiet_f b) (S f) f0 f1 s (Ptr RAux (Z.of_nat f * fs) :: st) (code_f fs a') (code_f fs b')
    l (den_f w (t_mem s) a) (den_f w (t_mem s) b)) as T end.
  specialize (T ltac:(lia)). specialize (T (fun st => IHa st B Fa)).
  assert (Hb2 : forall s1 st, frame (S f) s s1 ->
     yields (quiet_f b) f0 s1 st (code_f fs b') (den_f w (t_mem s) b) (fun x s' p => denotes f0 f1 s' p x)).
  { intros s1 st1 F1. pose proof (frame_mem _ _ _ F1) as M1. specialize (IHb s1 st1 (frame_based _ _ _ F1 B)).
    rewrite M1 in IHb. by apply IHb. }
  specialize (T Hb2). unfold yields.
  destruct (den_f w (t_mem s) a) as [x|] eqn:Ex; cbn [mbind option_bind]; [|by apply r_expaux].
  destruct (den_f w (t_mem s) b) as [y|] eqn:Ey; cbn [mbind option_bind]; [|by apply r_expaux].
  destruct T as (s1 & p & q & F1 & Q1 & Dp & Dq & T). pose proof (frame_based _ _ _ F1 B) as B1.
  pose proof (frame_mem _ _ _ F1) as M1. rewrite <- M1.
  destruct (decide (n = 1%nat)) as [->|Hn1].
  - pose proof (denotes_cell0 _ _ _ _ _ Dp) as Cp. pose proof (denotes_cell0 _ _ _ _ _ Dq) as Cq.
    assert (X : distinct (Ptr RAux (Z.of_nat f * fs)) p = true) by (eapply denotes_distinct; [|exact Dp]; lia).
    assert (Y : distinct (Ptr RAux (Z.of_nat f * fs)) q = true) by (eapply denotes_distinct; [|exact Dq]; lia).
    cbn [seq forallb]. rewrite andb_true_r. set (v := w_bool w _).
    exists (set_aux s1 f v), (Ptr RAux (Z.of_nat f * fs)). split_and!.
    + apply r_expaux; [done|]. apply T. eapply r_eq; [exact Cp|exact Cq|done|done|apply set_elem_aux; lia|].
      apply (r_expaux f [] (set_aux s1 f v)); [done|]. apply runs_nil.
    + eapply (frame_trans f f); [done|eapply frame_le; [|exact F1]; lia|by apply frame_aux].
    + done.
    + exists f. split_and!; try lia; try done. cbn. by rewrite decide_True.
  - pose proof (array_like_src w _ _ _ (La ltac:(lia)) Ex) as Nx. pose proof (array_like_src w _ _ _ (Lb ltac:(lia)) Ey) as Ny.
    set (s2 := set_loc (set_loc (set_loc (set_loc s1 LCounter (Int (Z.of_nat n))) LAux2 q) LAux1 p) LAux0
                 (Ptr RAux (Z.of_nat f * fs))).
    assert (F2 : frame f s s2).
    { repeat apply frame_loc_r; try done. eapply frame_le; [|exact F1]; lia. }
    assert (Sp : forall r, shift r (Z.of_nat 0) = r).
    { intros [z|r z]; [done|]. cbn [shift]. change (Z.of_nat 0) with 0. by rewrite Z.mul_0_l, Z.add_0_r. }
    destruct (eq_loop_ok x y (S f) f0 f0 f1 f p q (n - 1) ltac:(lia) ltac:(lia) ltac:(lia) Nx Ny 0%nat s2)
      as (s3 & R & F3 & I3 & A3).
    + destruct x as [[z|z]|c|v]; [done..|by destruct (Nx v)].
    + destruct y as [[z|z]|c|v]; [done..|by destruct (Ny v)].
    + done.
    + symmetry. by apply Sp.
    + symmetry. by apply Sp.
    + cbn. f_equal. lia.
    + exists s3, (Ptr RAux (Z.of_nat f * fs)). split_and!.
      * apply r_expaux; [done|]. apply T. cbn [app]. apply r_const. apply r_set. apply r_set. apply r_set. apply r_set.
        eapply runs_block_break; [exact R|]. change (set_stack (set_stack s3 []) st) with (set_stack s3 st).
        apply (r_expaux f [] s3); [|apply runs_nil]. eapply frame_based; [exact F3|]. by eapply frame_based.
      * by eapply frame_trans.
      * intros E. rewrite I3. by apply Q1.
      * exists f. split_and!; try lia; try done. rewrite A3. by replace (S (n - 1)) with n by lia.
Qed.
Lemma c_lit v : PA (AValue v).
Proof.
  intros f _. cbn [build_a]. intros Hd s st B _. rewrite den_lit. eexists s, _.
  split_and!; [apply r_const; apply runs_nil|apply frame_refl|done|done].
Qed.
Lemma c_to e : PF e -> PA (AToAddr e).
Proof.
  intros IH f Hok. specialize (IH f Hok). cbn [build_a]. destruct (build_f f e) as [[e' d] f'].
  intros Hd s st B Hfit. specialize (IH ltac:(lia) s st B Hfit). rewrite den_to. cbn [code_a quiet_a].
  eapply (yields_bind (quiet_f e) true _ f f); [tauto|done|exact IH|]. cbn beta.
  intros x s1 p _ F1 D1. pose proof (denotes_cell0 _ _ _ _ _ D1) as C1. rewrite (frame_mem _ _ _ F1) in C1.
  destruct (w_toint w _) as [z|] eqn:Ez.
  - eexists s1, _. split_and!; [|apply frame_refl|done|reflexivity]. eapply r_toint; [exact C1|exact Ez|apply runs_nil].
  - by eapply r_toint_trap.
Qed.
Lemma c_bin (op : Z -> Z -> Z) i a b f a' d0 f0 b' d1 f1 :
  (forall x y l s st o, runs l (set_stack s (Int (op x y) :: st)) o -> runs (i :: l) (set_stack s (Int y :: Int x :: st)) o) ->
  PA a -> PA b -> ok_a a -> ok_a b -> build_a f a = (a', d0, f0) -> build_a f0 b = (b', d1, f1) ->
  (d0 <= depth)%nat -> (d1 <= depth)%nat -> forall s st, based s -> fits_a (t_mem s) a && fits_a (t_mem s) b = true ->
  yields (quiet_a a && quiet_a b) f s st (code_a fs a' ++ code_a fs b' ++ [i])
    (x ← den_a w (t_mem s) a; y ← den_a w (t_mem s) b; Some (op x y)) num.
Proof.
  intros Hi IHa IHb Ha Hb Ea Eb Hd0 Hd1 s st B [Fa Fb]%andb_prop.
  pose proof (proj1 (proj2 build_facts) a f) as Ba. rewrite Ea in Ba.
  specialize (IHa f Ha). rewrite Ea in IHa. specialize (IHb f0 Hb). rewrite Eb in IHb.
  apply (yields_bind (quiet_a a) (quiet_a b) _ f f0 _ _ _ _ _ _ num); [by intros []%andb_prop|lia|by apply IHa|].
  intros x s1 p _ F1 ->. specialize (IHb Hd1 s1 (Int x :: st) (frame_based _ _ _ F1 B)).
  rewrite (frame_mem _ _ _ F1) in IHb. specialize (IHb Fb). unfold yields in IHb.
  destruct (den_a w (t_mem s) b) as [y|]; cbn [mbind option_bind].
  - destruct IHb as (s2 & p & R2 & F2 & Q2 & ->). eexists s2, _. split_and!; [|done|done|reflexivity].
    eapply runs_app; [exact R2|]. apply Hi. apply runs_nil.
  - by apply runs_app_stop.
Qed.
Lemma c_add a b : PA a -> PA b -> PA (AAdd a b).
Proof.
  intros IHa IHb f [Ha Hb]. cbn [build_a]. destruct (build_a f a) as [[a' d0] f0] eqn:Ea.
  destruct (build_a f0 b) as [[b' d1] f1] eqn:Eb. intros Hd s st B Hf. rewrite den_add.
  eapply (c_bin Z.add IAdd); try done; try lia. intros. by eapply r_add.
Qed.
Lemma c_mul a b : PA a -> PA b -> PA (AMul a b).
Proof.
  intros IHa IHb f [Ha Hb]. cbn [build_a]. destruct (build_a f a) as [[a' d0] f0] eqn:Ea.
  destruct (build_a f0 b) as [[b' d1] f1] eqn:Eb. intros Hd s st B Hf. rewrite den_mul.
  eapply (c_bin Z.mul IMul); try done; try lia. intros. by apply r_mul.
Qed.
Lemma c_anil : PAS ANil.
Proof.
  intros f _. cbn [build_as]. intros Hd s st r d h k tv B _ _ Hi H Hh Hk Hk0. rewrite den_nil.
  rewrite decide_False by (intros ->; by apply Hk0). exists s. split_and!; [apply runs_nil|apply frame_refl|done].
Qed.
Lemma c_acons a l : PA a -> PAS l -> PAS (ACons a l).
Proof.
  intros IHa IHl f [Ha Hl]. specialize (IHa f Ha). cbn [build_as].
  pose proof (proj1 (proj2 build_facts) a f) as Ba. destruct (build_a f a) as [[a' d0] f0].
  specialize (IHl f0 Hl). destruct (build_as f0 l) as [[l' d1] f1].
  intros Hd s st r d h k tv B [Fa Fl]%andb_prop [Qa Ql]%andb_prop Hi H Hh Hk Hk0.
  specialize (IHa ltac:(lia) s). rewrite den_cons. cbn [code_as as_length] in *.
  assert (IH2 : forall s1 t, frame f s s1 -> t_loc s1 LInfo = t_loc s LInfo ->
    match den_as w (t_mem s) l with
    | Some xs => exists s', runs (code_as fs (Z.of_nat (S k)) l') (set_stack s1 (Int t :: st))
                   (Next (set_stack s' (Int (horner d (S k) t xs) :: st))) /\ frame f s s' /\ t_loc s' LInfo = t_loc s LInfo
    | None => runs (code_as fs (Z.of_nat (S k)) l') (set_stack s1 (Int t :: st)) Trap
    end).
  { intros s1 t F1 I1. specialize (IHl ltac:(lia) s1 st r d h (S k) t (frame_based _ _ _ F1 B)).
    rewrite (frame_mem _ _ _ F1), I1 in IHl. specialize (IHl Fl Ql Hi H Hh ltac:(lia) ltac:(lia)).
    rewrite decide_False in IHl by lia. destruct (den_as w (t_mem s) l) as [xs|]; [|done].
    destruct IHl as (s' & R & F & I). exists s'. split_and!; [done| |done].
    eapply frame_trans; [|exact F1|exact F]. lia. }
  replace (Z.of_nat k + 1) with (Z.of_nat (S k)) by lia. cbn [horner].
  destruct (decide (k = 0%nat)) as [->|Hk1].
  - rewrite decide_True by done. specialize (IHa st B Fa). unfold yields in IHa.
    destruct (den_a w (t_mem s) a) as [x|]; cbn [mbind option_bind]; [|by apply runs_app_stop].
    destruct IHa as (s1 & p & R1 & F1 & Q1 & ->). specialize (IH2 s1 x F1 (Q1 Qa)).
    destruct (den_as w (t_mem s) l) as [xs|]; cbn [mbind option_bind]; [|by eapply runs_app].
    destruct IH2 as (s' & R & F & I). exists s'. split_and!; [by eapply runs_app|done|done].
  - rewrite decide_False by lia. specialize (IHa (Int (tv * dim_size d k) :: st) B Fa). unfold yields in IHa.
    assert (G : forall o, runs ((code_a fs a' ++ [IAdd]) ++ code_as fs (Z.of_nat (S k)) l') (set_stack s (Int (tv * dim_size d k) :: st)) o ->
      runs (([IGet LInfo; ILoad None (4 * Z.of_nat k); IMul] ++ code_a fs a' ++ [IAdd]) ++ code_as fs (Z.of_nat (S k)) l')
        (set_stack s (Int tv :: st)) o).
    { intros o Ho. rewrite <- app_assoc. cbn [app]. eapply r_get; [exact Hi|]. eapply r_load.
      { rewrite load_none, Z.add_0_l. eapply holds_length; [done..|lia]. }
      apply r_mul. exact Ho. }
    destruct (den_a w (t_mem s) a) as [x|]; cbn [mbind option_bind].
    2:{ apply G. rewrite <- app_assoc. by apply runs_app_stop. }
    destruct IHa as (s1 & p & R1 & F1 & Q1 & ->). specialize (IH2 s1 (tv * dim_size d k + x) F1 (Q1 Qa)).
    destruct (den_as w (t_mem s) l) as [xs|]; cbn [mbind option_bind].
    + destruct IH2 as (s' & R & F & I). exists s'. split_and!; [|done|done]. apply G. rewrite <- app_assoc.
      cbn [horner]. rewrite decide_False by done.
      eapply runs_app; [exact R1|]. cbn [app]. by eapply r_add.
    + apply G. rewrite <- app_assoc. eapply runs_app; [exact R1|]. cbn [app]. by eapply r_add.
Qed.
Lemma c_xnil : PX XNil.
Proof.
  intros f _. cbn [build_x]. intros Hd s st r d h ind off B _ H Hi. rewrite den_xnil. exists s.
  split_and!; [|apply frame_refl|done]. cbn [head code_x]. rewrite Z.mul_0_l, Z.add_0_r. apply runs_nil.
Qed.
Lemma c_xqual field r : PX r -> PX (XQual field r).
Proof.
  intros IH f Hok. specialize (IH f Hok). cbn [build_x]. pose proof (build_head f r) as Hh.
  destruct (build_x f r) as [[r' dd] f']. cbn [fst] in Hh.
  intros Hd s st R d h ind off B Hfit H _. cbn [WasmSpec.fits_x] in Hfit.
  apply andb_prop in Hfit as [Hfit Fr]. apply andb_prop in Hfit as [Hb Ha].
  rewrite den_xqual. set (d' := w_bus w (i_bus d) field) in *. cbn [head].
  set (P := Ptr (RField (i_bus d) field) 0).
  set (s1 := match head r with 0%nat => s | _ => set_loc s LInfo P end).
  assert (F1 : frame f s s1) by (unfold s1; destruct (head r); [apply frame_refl|by apply frame_loc..]).
  assert (B1 : based s1) by (by eapply frame_based).
  assert (M1 : t_mem s1 = t_mem s) by (by eapply frame_mem).
  specialize (IH Hd s1 st (RField (i_bus d) field) d' (sbus (i_bus d) field) false (off + i_offset d' * fs) B1).
  rewrite M1 in IH. specialize (IH Fr (holds_field _ _)).
  assert (I1 : head r = 1%nat -> t_loc s1 LInfo = Ptr (RField (i_bus d) field) 0).
  { intros E. unfold s1. rewrite E. done. }
  specialize (IH I1). cbn zeta in IH.
  assert (G : forall o, runs (code_x fs r') (set_stack s1
    match head r with 2%nat => Int (i_bus d') :: Int (off + i_offset d' * fs) :: st | _ => Int (off + i_offset d' * fs) :: st end) o ->
    runs (code_x fs (XQual field r')) (set_stack s (Int (i_bus d) :: Int off :: st)) o).
  { intros o Ho. cbn [code_x app]. apply r_const. apply r_mul. eapply r_load.
    { rewrite load_some, Z.add_0_r. apply word_bus. }
    eapply r_load. { rewrite load_none, Z.add_0_l. apply word_fields. }
    assert (W : word w fs sio sbus s1 (RField (i_bus d) field) (0 + 0) = Some (Int (i_offset d' * fs))).
    { apply holds_offset with (h := sbus (i_bus d) field). apply holds_field. }
    destruct r as [| |field2 r2]; destruct r' as [| |field3 r3]; try discriminate Hh; cbn [head app] in *.
    - eapply r_load; [rewrite load_none; exact W|]. eapply r_add; [reflexivity|]. exact Ho.
    - apply r_tee. eapply r_load; [rewrite load_none; exact W|]. eapply r_add; [reflexivity|]. exact Ho.
    - apply r_tee. eapply r_load; [rewrite load_none; exact W|]. eapply r_add; [reflexivity|].
      apply (r_get LInfo P); [reflexivity|]. eapply r_load; [|exact Ho].
      cbn [WasmSpec.fits_x] in Fr. apply andb_prop in Fr as [Fr _]. apply andb_prop in Fr as [Fb Fa].
      unfold P. rewrite load_none, Z.add_0_l. eapply (holds_bus _ _ (sbus (i_bus d) field)); [apply holds_field| |done].
      apply orb_prop in Fa as [Fa|Fa]; [by apply negb_true_iff|done]. }
  destruct (den_x w (t_mem s) d' r) as [y|]; cbn [mbind option_bind].
  - destruct IH as (s' & R' & F' & _). exists s'. split_and!; [|by eapply frame_trans|done].
    apply G. replace (off + (i_offset d' + y) * fs) with (off + i_offset d' * fs + y * fs) by lia. exact R'.
  - by apply G.
Qed.
Lemma r_slice r d h n diff v off l s st o :
  holds r d h -> sh_array h = true -> t_loc s LInfo = Ptr r 0 -> (1 <= n)%nat -> (n + diff = S (length (i_lengths d)))%nat ->
  runs l (set_stack s (Int (off + v * foldr Z.mul 1 (dim_size d <$> seq n diff) * i_size d * fs) :: st)) o ->
  runs (missing (Z.of_nat n) diff ++ [IConst fs; IGet LInfo; ILoad None (4 * (Z.of_nat n + Z.of_nat diff)); IMul] ++
        (if decide (0 < diff)%nat then [IMul] else []) ++ [IMul; IAdd] ++ l) (set_stack s (Int v :: Int off :: st)) o.
Proof.
  intros H Hh Hi Hn Hd Ho.
  assert (L : load s None (4 * (Z.of_nat n + Z.of_nat diff)) (Ptr r 0) = Some (Int (i_size d))).
  { rewrite load_none, Z.add_0_l, <- Nat2Z.inj_add, Hd. by eapply holds_size. }
  destruct diff as [|diff].
  - rewrite decide_False by lia. cbn [missing app]. apply r_const. eapply r_get; [exact Hi|].
    eapply r_load; [exact L|]. apply r_mul. apply r_mul. eapply r_add; [reflexivity|].
    cbn [seq fmap list_fmap foldr] in Ho. replace (off + v * (fs * i_size d)) with (off + v * 1 * i_size d * fs) by lia. exact Ho.
  - rewrite decide_True by lia. eapply r_missing; [done|done|done|lia|lia|lia|]. cbn [app]. apply r_const. eapply r_get; [exact Hi|].
    eapply r_load; [exact L|]. apply r_mul. apply r_mul. apply r_mul. eapply r_add; [reflexivity|].
    set (p := foldr _ _ _) in *. replace (off + v * (p * (fs * i_size d))) with (off + v * p * i_size d * fs) by lia. exact Ho.
Qed.
Lemma c_xidx ixs dim r : PAS ixs -> PX r -> PX (XIdx ixs dim r).
Proof.
  intros IHi IHr f (Hoki & Hq & Hlen & Hlast & Hokr). specialize (IHi f Hoki). cbn [build_x].
  pose proof (as_build_length f ixs) as Hl. pose proof (proj1 (proj2 (proj2 build_facts)) ixs f) as Bi.
  destruct (build_as f ixs) as [[ixs' d0] f0]. cbn [fst] in Hl. pose proof (build_head f0 r) as Hh.
  specialize (IHr f0 Hokr). destruct (build_x f0 r) as [[r' d1] f1]. cbn [fst] in Hh.
  intros Hd s st R d h ind off B Hfit H Hinfo. cbn [WasmSpec.fits_x] in Hfit.
  apply andb_prop in Hfit as [Hfit Fr]. apply andb_prop in Hfit as [Hfit Hdim%bool_decide_eq_true].
  apply andb_prop in Hfit as [Hfit Hind]. apply andb_prop in Hfit as [Fi Hh2].
  specialize (Hinfo eq_refl). rewrite den_xidx. cbn [head]. cbn [code_x]. rewrite Hl.
  set (n := as_length ixs) in *. set (diff := (dim - n)%nat).
  assert (Hne : ixs <> ANil) by (intros ->; cbn in n; lia).
  specialize (IHi ltac:(lia) s (Int off :: st) R d h 0%nat 0 B Fi Hq Hinfo H Hh2 ltac:(lia) (fun _ => Hne)).
  rewrite decide_True in IHi by done. change (Z.of_nat 0) with 0 in IHi.
  destruct (den_as w (t_mem s) ixs) as [xs|] eqn:Exs; cbn [mbind option_bind]; [|by apply runs_app_stop].
  destruct IHi as (s1 & R1 & F1 & I1). pose proof (den_as_length w _ _ _ Exs) as Lxs. fold n in Lxs.
  rewrite (horner_full d 0 xs n) in R1 by lia. rewrite (row_major_prefix (dim_size d) n dim xs 0) by lia. fold diff.
  set (v := row_major (dim_size d) n 0 xs) in *. set (pr := foldr Z.mul 1 (dim_size d <$> seq n diff)).
  assert (B1 : based s1) by (by eapply frame_based). pose proof (frame_mem _ _ _ F1) as M1.
  specialize (IHr ltac:(lia) s1 st R d h true (off + v * pr * i_size d * fs) B1). rewrite M1 in IHr.
  specialize (IHr Fr H). rewrite <- I1 in Hinfo. specialize (IHr (fun _ => Hinfo)). cbn zeta in IHr.
  assert (G : forall o, runs (code_x fs r') (set_stack s1 match head r with
      | 2%nat => Int (i_bus d) :: Int (off + v * pr * i_size d * fs) :: st | _ => Int (off + v * pr * i_size d * fs) :: st end) o ->
    runs (code_as fs 0 ixs' ++ missing (Z.of_nat n) diff ++
     [IConst fs; IGet LInfo; ILoad None (4 * (Z.of_nat n + Z.of_nat diff)); IMul] ++
     (if decide (0 < diff)%nat then [IMul] else []) ++ [IMul; IAdd] ++
     match r' with XNil => [] | _ => [IGet LInfo; ILoad None (4 * (Z.of_nat n + Z.of_nat diff + 1))] end ++ code_x fs r')
      (set_stack s (Int off :: st)) o).
  { intros o Ho. eapply runs_app; [exact R1|]. eapply r_slice; [done|done|done|lia|unfold diff; lia|]. fold pr.
    destruct r as [| |field2 r2]; destruct r' as [| |field3 r3]; try discriminate Hh; cbn [head] in Ho.
    - exact Ho.
    - cbn [WasmSpec.fits_x] in Fr. by rewrite !andb_false_r in Fr.
    - cbn [WasmSpec.fits_x] in Fr. apply andb_prop in Fr as [Fr _]. apply andb_prop in Fr as [Fb _].
      assert (diff = 0%nat).
      { destruct (decide (n < dim)%nat) as [Hlt|]; [|unfold diff; lia]. by specialize (Hlast Hlt). }
      cbn [app]. eapply r_get; [exact Hinfo|]. eapply r_load; [|exact Ho]. rewrite load_none, Z.add_0_l.
      replace (Z.of_nat n + Z.of_nat diff + 1) with (Z.of_nat (S (S (length (i_lengths d))))) by lia.
      by eapply holds_bus_array. }
  destruct (den_x w (t_mem s) d r) as [y|]; cbn [mbind option_bind].
  - destruct IHr as (s' & R' & F' & _). exists s'. split_and!; [|eapply frame_trans; [|exact F1|exact F']; lia|done].
    apply G. replace (off + (v * pr * i_size d + y) * fs) with (off + v * pr * i_size d * fs + y * fs) by lia. exact R'.
  - by apply G.
Qed.

(** Subcomponents. *)
Definition sub_ok (m : mem V) (cmp : aexpr) (l : locat) : bool :=
  fits_a m cmp && match l with Indexed a => fits_a m a | Mapped _ _ => true end &&
  match den_a w m cmp with Some c => bool_decide (0 <= c) && fits_l w sio sbus m c l | None => true end.

Lemma word_template s c : word w fs sio sbus s (RBlock c) 0 = Some (Int (m_tpl (t_mem s) c)).
Proof. reflexivity. Qed.
Lemma word_start s c : word w fs sio sbus s (RBlock c) 4 = Some (Ptr RSigs (m_start (t_mem s) c * fs)).
Proof. reflexivity. Qed.
Lemma word_count s c : word w fs sio sbus s (RBlock c) 8 = Some (Int (m_count (t_mem s) c)).
Proof. reflexivity. Qed.

(** The offset of a signal accessed through the tables, from the template. *)
Lemma r_access acc acc' dd f f' s st t code :
  PX acc -> ok_x acc -> build_x f acc = (acc', dd, f') -> (dd <= depth)%nat -> based s ->
  fits_x (t_mem s) (w_io w t code) (sio t code) false acc = true ->
  let c := [IConst 4; IMul; ILoad (Some RTpl) 0; ILoad None (4 * Z.of_nat code)] ++ first_access acc' ++ code_x fs acc' in
  match x ← den_x w (t_mem s) (w_io w t code) acc; Some (i_offset (w_io w t code) + x) with
  | Some z => exists s', runs c (set_stack s (Int t :: st)) (Next (set_stack s' (Int (z * fs) :: st))) /\ frame f s s' /\
                (head acc = 0%nat -> t_loc s' LInfo = t_loc s LInfo)
  | None => runs c (set_stack s (Int t :: st)) Trap
  end.
Proof.
  intros IH Hok Hb Hd B Fit c. specialize (IH f Hok). pose proof (build_head f acc) as Hh. rewrite Hb in IH, Hh. cbn [fst] in Hh.
  set (d := w_io w t code) in *.
  set (P := Ptr (RSignal t code) 0).
  set (s1 := match head acc with 0%nat => s | _ => set_loc s LInfo P end).
  assert (F1 : frame f s s1) by (unfold s1; destruct (head acc); [apply frame_refl|by apply frame_loc..]).
  assert (B1 : based s1) by (by eapply frame_based).
  assert (M1 : t_mem s1 = t_mem s) by (by eapply frame_mem).
  specialize (IH Hd s1 st (RSignal t code) d (sio t code) false (i_offset d * fs) B1).
  rewrite M1 in IH. specialize (IH Fit (holds_signal _ _)).
  assert (I1 : head acc = 1%nat -> t_loc s1 LInfo = Ptr (RSignal t code) 0).
  { intros E. unfold s1. rewrite E. done. }
  specialize (IH I1). cbn zeta in IH.
  assert (G : forall o, runs (code_x fs acc') (set_stack s1
    match head acc with 2%nat => Int (i_bus d) :: Int (i_offset d * fs) :: st | _ => Int (i_offset d * fs) :: st end) o ->
    runs c (set_stack s (Int t :: st)) o).
  { intros o Ho. unfold c. cbn [app]. apply r_const. apply r_mul. eapply r_load.
    { rewrite load_some, Z.add_0_r. apply word_tpl. }
    eapply r_load. { rewrite load_none, Z.add_0_l. apply word_signals. }
    assert (W : word w fs sio sbus s1 (RSignal t code) (0 + 0) = Some (Int (i_offset d * fs))).
    { apply holds_offset with (h := sio t code). apply holds_signal. }
    destruct acc as [| |field2 r2]; destruct acc' as [| |field3 r3]; try discriminate Hh; cbn [head app first_access] in *.
    - eapply r_load; [rewrite load_none; exact W|]. exact Ho.
    - apply r_tee. eapply r_load; [rewrite load_none; exact W|]. exact Ho.
    - apply r_tee. eapply r_load; [rewrite load_none; exact W|].
      apply (r_get LInfo P); [reflexivity|]. eapply r_load; [|exact Ho].
      cbn [WasmSpec.fits_x] in Fit. apply andb_prop in Fit as [Fr _]. apply andb_prop in Fr as [Fb Fa].
      unfold P. rewrite load_none, Z.add_0_l. eapply (holds_bus _ _ (sio t code)); [apply holds_signal| |done].
      apply orb_prop in Fa as [Fa|Fa]; [by apply negb_true_iff|done]. }
  destruct (den_x w (t_mem s) d acc) as [y|]; cbn [mbind option_bind].
  - destruct IH as (s' & R' & F' & I'). exists s'. split_and!; [|by eapply frame_trans|].
    + apply G. by replace ((i_offset d + y) * fs) with (i_offset d * fs + y * fs) by lia.
    + intros E. rewrite (I' E). unfold s1. by rewrite E.
  - by apply G.
Qed.

Lemma c_sub cmp l : PA cmp -> PL l -> PF (FLoadSub cmp l).
Proof.
  intros IHc IHl f [Hc Hl]. specialize (IHc f Hc). cbn [build_f].
  pose proof (proj1 (proj2 build_facts) cmp f) as Bc. destruct (build_a f cmp) as [[cmp' d0] f0].
  destruct l as [a|code acc]; cbn [build_l].
  - specialize (IHl f0 Hl). destruct (build_a f0 a) as [[a' d1] f1].
    intros Hd s st B Hfit. cbn [WasmSpec.fits_f] in Hfit. apply andb_prop in Hfit as [Hfit Hpos]. apply andb_prop in Hfit as [Fc Fa].
    rewrite den_sub. cbn [code_f code_l quiet_f quiet_l]. unfold yields.
    specialize (IHl ltac:(lia) s st B Fa). specialize (IHc ltac:(lia)). unfold yields in IHl.
    destruct (den_a w (t_mem s) a) as [z|] eqn:Ez.
    2:{ destruct (den_a w (t_mem s) cmp); cbn [mbind option_bind]; rewrite ?den_indexed, ?Ez; by apply runs_app_stop. }
    destruct IHl as (s1 & p & R1 & F1 & Q1 & ->).
    assert (B1 : based s1) by (by eapply frame_based). pose proof (frame_mem _ _ _ F1) as M1.
    specialize (IHc s1). rewrite M1 in IHc.
    pose proof (block_ok (quiet_a cmp) f s1 (Int (z * fs) :: st) (code_a fs cmp') (den_a w (t_mem s) cmp) B1
      (fun st => IHc st B1 Fc)) as K.
    assert (Hpos2 : forall x, den_a w (t_mem s) cmp = Some x -> 0 <= x).
    { intros x E. rewrite E in Hpos. apply andb_prop in Hpos as [Hpos _]. by apply bool_decide_eq_true in Hpos. }
    specialize (K Hpos2). unfold yields in K.
    destruct (den_a w (t_mem s) cmp) as [c|]; cbn [mbind option_bind].
    + rewrite den_indexed, Ez. cbn [mbind option_bind]. destruct K as (s2 & p & R2 & F2 & Q2 & ->).
      pose proof (frame_mem _ _ _ F2) as M2.
      exists s2, (Ptr RSigs ((m_start (t_mem s) c + z) * fs)). split_and!.
      * eapply runs_app; [exact R1|]. cbn [app]. apply r_const. apply r_mul. eapply runs_app; [exact R2|].
        apply r_const. eapply r_add; [reflexivity|]. eapply r_load; [rewrite load_none; apply word_start|].
        eapply r_add; [cbn [add]|apply runs_nil]. rewrite M2, M1. do 2 f_equal. lia.
      * eapply frame_trans; [done|eapply frame_le; [|exact F1]|exact F2]. lia.
      * intros [??]%andb_prop. rewrite Q2, Q1; done.
      * reflexivity.
    + eapply runs_app; [exact R1|]. cbn [app]. apply r_const. apply r_mul. by apply runs_app_stop.
  - destruct (build_x f0 acc) as [[acc' d1] f1] eqn:Eb.
    intros Hd s st B Hfit. cbn [WasmSpec.fits_f] in Hfit. apply andb_prop in Hfit as [Hfit Hpos]. apply andb_prop in Hfit as [Fc _].
    rewrite den_sub. cbn [code_f code_l quiet_f quiet_l]. unfold yields. specialize (IHc ltac:(lia) s).
    pose proof (block_ok (quiet_a cmp) f s st (code_a fs cmp') (den_a w (t_mem s) cmp) B (fun st => IHc st B Fc)) as K.
    assert (Hpos2 : forall x, den_a w (t_mem s) cmp = Some x -> 0 <= x).
    { intros x E. rewrite E in Hpos. apply andb_prop in Hpos as [Hpos _]. by apply bool_decide_eq_true in Hpos. }
    specialize (K Hpos2). unfold yields in K.
    destruct (den_a w (t_mem s) cmp) as [c|]; cbn [mbind option_bind]; [|by apply runs_app_stop].
    destruct K as (s1 & p & R1 & F1 & Q1 & ->). apply andb_prop in Hpos as [_ Fx]. cbn [WasmSpec.fits_l] in Fx.
    set (s2 := set_loc s1 LSubLoad (Ptr (RBlock c) 0)).
    assert (F2 : frame f s s2) by (by apply frame_loc_r).
    assert (B2 : based s2) by (by eapply frame_based). pose proof (frame_mem _ _ _ F2) as M2.
    pose proof (r_access acc acc' d1 f0 f1 s2 (Ptr RSigs (m_start (t_mem s) c * fs) :: st) (m_tpl (t_mem s) c) code IHl Hl Eb ltac:(lia) B2) as K.
    rewrite M2 in K. specialize (K Fx). cbn zeta in K. rewrite den_mapped.
    assert (G : forall o, runs (([IConst 4; IMul; ILoad (Some RTpl) 0; ILoad None (4 * Z.of_nat code)] ++
         first_access acc' ++ code_x fs acc') ++ [IAdd])
        (set_stack s2 (Int (m_tpl (t_mem s) c) :: Ptr RSigs (m_start (t_mem s) c * fs) :: st)) o ->
      runs (code_block (code_a fs cmp') ++ [ITee LSubLoad; ILoad None 4; IGet LSubLoad; ILoad None 0; IConst 4; IMul;
          ILoad (Some RTpl) 0; ILoad None (4 * Z.of_nat code)] ++ first_access acc' ++ code_x fs acc' ++ [IAdd]) (set_stack s st) o).
    { intros o Ho. eapply runs_app; [exact R1|]. cbn [app]. apply r_tee.
      eapply r_load; [rewrite load_none; apply word_start|]. eapply r_get; [reflexivity|].
      eapply r_load; [apply word_template|]. fold s2. rewrite M2. rewrite <- !app_assoc in Ho. exact Ho. }
    match type of K with match ?x with _ => _ end => destruct x as [z|] end; cbn [mbind option_bind].
    + destruct K as (s3 & R3 & F3 & I3). exists s3, (Ptr RSigs ((m_start (t_mem s) c + z) * fs)). split_and!.
      * apply G. eapply runs_app; [exact R3|]. eapply r_add; [cbn [add]|apply runs_nil]. do 2 f_equal. lia.
      * eapply frame_trans; [|exact F2|exact F3]. lia.
      * intros [? Hq]%andb_prop. rewrite I3; [by apply Q1|]. by destruct acc.
      * reflexivity.
    + apply G. by apply runs_app_stop.
Qed.

Lemma expr_ok : (forall e, PF e) /\ (forall e, PA e) /\ (forall l, PAS l) /\ (forall l, PL l) /\ (forall acc, PX acc).
Proof.
  apply ir_mind; intros.
  - apply c_value.
  - by apply c_var.
  - by apply c_sig.
  - by apply c_sub.
  - by apply c_op1.
  - by apply c_op2.
  - by apply c_eq.
  - apply c_lit.
  - by apply c_add.
  - by apply c_mul.
  - by apply c_to.
  - apply c_anil.
  - by apply c_acons.
  - done.
  - done.
  - apply c_xnil.
  - by apply c_xidx.
  - by apply c_xqual.
Qed.

(** ** Statements *)

Definition kept (l : local) : bool :=
  match l with LLvar | LSignals | LExpaux | LOffset | LResult | LSize | LStack => true | _ => false end.
Definition wframe (s s' : wstate V) : Prop :=
  m_base (t_mem s') = m_base (t_mem s) /\ t_result s' = t_result s /\ t_top s' = t_top s /\
  forall l, kept l = true -> t_loc s' l = t_loc s l.
Lemma wframe_refl s : wframe s s.
Proof. by repeat split. Qed.
Lemma wframe_trans s1 s2 s3 : wframe s1 s2 -> wframe s2 s3 -> wframe s1 s3.
Proof. intros (?&?&?&L) (?&?&?&L'). split_and!; try congruence. intros l Hl. rewrite L' by done. auto. Qed.
Lemma frame_wframe f s s' : frame f s s' -> wframe s s'.
Proof. intros (M&_&R&T&_&L). split_and!; try congruence. intros l Hl. apply L. by destruct l. Qed.
Lemma wframe_loc s s' l v : kept l = false -> wframe s s' -> wframe s (set_loc s' l v).
Proof.
  intros Hl W. eapply wframe_trans; [exact W|]. split_and!; try done. intros k Hk. cbn. rewrite decide_False by congruence. done.
Qed.
Lemma wframe_mem s s' m : m_base m = m_base (t_mem s') -> wframe s s' -> wframe s (set_mem s' m).
Proof. intros Hm (?&?&?&?). split_and!; try done. cbn. congruence. Qed.
Lemma wframe_ready rsize s s' : wframe s s' -> ready fs rsize s -> ready fs rsize s'.
Proof.
  intros (M&_&T&L) (?&?&?&?&?&?&?). unfold ready. rewrite M, T, !L by done. by split_and!.
Qed.
Lemma ready_based rsize s : ready fs rsize s -> based s.
Proof. by intros (?&?&?&?&?&?&?). Qed.

(** Destinations. *)
Lemma dest_ok d f d' dd s st :
  build_dest f d = (d', dd) -> (dd <= depth)%nat -> ok_dest d -> based s -> fits_dest w sio sbus (t_mem s) d = true ->
  match den_dest w (t_mem s) d with
  | Some l =>
      exists s', runs (code_dest fs d') (set_stack s st) (Next (set_stack s' (mptr l :: st))) /\
        t_mem s' = t_mem s /\ t_args s' = t_args s /\ wframe s s' /\
        match d with DSub cmp _ _ => exists c, den_a w (t_mem s) cmp = Some c /\ t_loc s' LSub = Ptr (RBlock c) 0 | _ => True end
  | None => runs (code_dest fs d') (set_stack s st) Trap
  end.
Proof.
  destruct d as [a|a o|cmp l info]; cbn [build_dest]; intros Hb Hd Hok B Hfit.
  - pose proof (proj1 (proj2 expr_ok) a f Hok) as K. destruct (build_a f a) as [[a' da] f']. injection Hb as <- <-.
    specialize (K ltac:(lia) s st B Hfit). cbn [den_dest code_dest]. unfold yields in K.
    destruct (den_a w (t_mem s) a) as [x|]; cbn [mbind option_bind]; [|by apply runs_app_stop].
    destruct K as (s' & p & R & F & Q & ->). exists s'. split_and!; [|by apply F|by apply F|by eapply frame_wframe|done].
    eapply runs_app; [exact R|]. pose proof (frame_based _ _ _ F B) as (E&_).
    apply (r_scaled RVars LLvar 0 [] s' st _ E x). apply runs_nil.
  - pose proof (proj1 (proj2 expr_ok) a f Hok) as K. destruct (build_a f a) as [[a' da] f']. injection Hb as <- <-.
    specialize (K ltac:(lia) s st B Hfit). cbn [den_dest code_dest]. unfold yields in K.
    destruct (den_a w (t_mem s) a) as [x|]; cbn [mbind option_bind]; [|by apply runs_app_stop].
    destruct K as (s' & p & R & F & Q & ->). exists s'. split_and!; [|by apply F|by apply F|by eapply frame_wframe|done].
    eapply runs_app; [exact R|]. pose proof (frame_based _ _ _ F B) as (_&E&_). rewrite (frame_mem _ _ _ F) in E.
    apply (r_scaled RSigs LSignals _ [] s' st _ E x). apply runs_nil.
  - destruct Hok as [Hc Hl]. cbn [WasmSpec.fits_dest] in Hfit.
    apply andb_prop in Hfit as [Hfit Hpos]. apply andb_prop in Hfit as [Fc Fa].
    assert (Hpos2 : forall x, den_a w (t_mem s) cmp = Some x -> 0 <= x).
    { intros x E. rewrite E in Hpos. apply andb_prop in Hpos as [Hpos _]. by apply bool_decide_eq_true in Hpos. }
    pose proof (proj1 (proj2 expr_ok) cmp f Hc) as IHc. destruct l as [a|code acc]; cbn [build_l] in Hb.
    + pose proof (proj1 (proj2 expr_ok) a f Hl) as IHl. destruct (build_a f a) as [[a' d0] f0].
      destruct (build_a f cmp) as [[cmp' d1] f1]. injection Hb as <- <-.
      cbn [den_dest code_dest].
      specialize (IHl ltac:(lia) s st B Fa). specialize (IHc ltac:(lia)). unfold yields in IHl.
      destruct (den_a w (t_mem s) a) as [z|] eqn:Ez.
      2:{ destruct (den_a w (t_mem s) cmp); cbn [mbind option_bind]; rewrite ?den_indexed, ?Ez; by apply runs_app_stop. }
      destruct IHl as (s1 & p & R1 & F1 & Q1 & ->).
      assert (B1 : based s1) by (by eapply frame_based). pose proof (frame_mem _ _ _ F1) as M1.
      specialize (IHc s1). rewrite M1 in IHc.
      pose proof (block_ok (quiet_a cmp) f s1 (Int (z * fs) :: st) (code_a fs cmp') (den_a w (t_mem s) cmp) B1
        (fun st => IHc st B1 Fc)) as K.
      specialize (K Hpos2). unfold yields in K.
      destruct (den_a w (t_mem s) cmp) as [c|]; cbn [mbind option_bind].
      * rewrite den_indexed, Ez. cbn [mbind option_bind]. destruct K as (s2 & p & R2 & F2 & Q2 & ->).
        pose proof (frame_mem _ _ _ F2) as M2. pose proof (frame_trans _ _ _ _ _ (le_n _) F1 F2) as F3.
        exists (set_loc s2 LSub (Ptr (RBlock c) 0)). split_and!.
        -- eapply runs_app; [exact R1|]. cbn [app]. apply r_const. apply r_mul. eapply runs_app; [exact R2|].
           cbn [app]. apply r_tee. apply r_const. eapply r_add; [reflexivity|]. eapply r_load; [rewrite load_none; apply word_start|].
           cbn [t_mem set_loc]. rewrite M2, M1.
           eapply r_add; [|apply runs_nil]. cbn [add mptr]. do 2 f_equal. lia.
        -- by apply F3.
        -- by apply F3.
        -- apply wframe_loc; [done|]. by eapply frame_wframe.
        -- exists c. done.
      * eapply runs_app; [exact R1|]. cbn [app]. apply r_const. apply r_mul. by apply runs_app_stop.
    + destruct (build_x f acc) as [[acc' d0] f0] eqn:Eb. destruct (build_a f cmp) as [[cmp' d1] f1]. injection Hb as <- <-.
      cbn [den_dest code_dest]. specialize (IHc ltac:(lia) s).
      pose proof (block_ok (quiet_a cmp) f s st (code_a fs cmp') (den_a w (t_mem s) cmp) B (fun st => IHc st B Fc)) as K.
      specialize (K Hpos2). unfold yields in K.
      destruct (den_a w (t_mem s) cmp) as [c|]; cbn [mbind option_bind]; [|by apply runs_app_stop].
      destruct K as (s1 & p & R1 & F1 & Q1 & ->). apply andb_prop in Hpos as [_ Fx]. cbn [WasmSpec.fits_l] in Fx.
      set (s2 := set_loc s1 LSub (Ptr (RBlock c) 0)).
      assert (M2 : t_mem s2 = t_mem s) by (by apply F1).
      assert (W2 : wframe s s2) by (apply wframe_loc; [done|by eapply frame_wframe]).
      assert (B2 : based s2).
      { pose proof (frame_based _ _ _ F1 B) as (?&?&?&?). by repeat split. }
      pose proof (r_access acc acc' d0 f f0 s2 st (m_tpl (t_mem s) c) code
        (proj2 (proj2 (proj2 (proj2 expr_ok))) acc) Hl Eb ltac:(lia) B2) as K.
      rewrite M2 in K. specialize (K Fx). cbn zeta in K. rewrite den_mapped.
      assert (G : forall o, runs (([IConst 4; IMul; ILoad (Some RTpl) 0; ILoad None (4 * Z.of_nat code)] ++
           first_access acc' ++ code_x fs acc') ++ [IGet LSub; IConst 4; IAdd; ILoad None 0; IAdd])
          (set_stack s2 (Int (m_tpl (t_mem s) c) :: st)) o ->
        runs (code_block (code_a fs cmp') ++ [ITee LSub; ILoad None 0; IConst 4; IMul; ILoad (Some RTpl) 0;
            ILoad None (4 * Z.of_nat code)] ++ first_access acc' ++ code_x fs acc' ++ [IGet LSub; IConst 4; IAdd; ILoad None 0; IAdd])
          (set_stack s st) o).
      { intros o Ho. eapply runs_app; [exact R1|]. cbn [app]. apply r_tee.
        eapply r_load; [apply word_template|]. fold s2. rewrite M2. rewrite <- !app_assoc in Ho. exact Ho. }
      match type of K with match ?x with _ => _ end => destruct x as [z|] end; cbn [mbind option_bind].
      * destruct K as (s3 & R3 & F3 & I3). exists s3. assert (L3 : t_loc s3 LSub = Ptr (RBlock c) 0).
        { destruct F3 as (_&_&_&_&_&L). by rewrite L. }
        assert (M3 : t_mem s3 = t_mem s) by (rewrite (frame_mem _ _ _ F3); done).
        split_and!; [|done| | |by exists c].
        -- apply G. eapply runs_app; [exact R3|]. eapply r_get; [exact L3|]. apply r_const. eapply r_add; [reflexivity|].
           eapply r_load; [rewrite load_none; apply word_start|]. rewrite M3.
           eapply r_add; [|apply runs_nil]. cbn [add mptr]. do 2 f_equal. lia.
        -- destruct F3 as (_&A&_). rewrite A. by apply F1.
        -- eapply wframe_trans; [exact W2|]. by eapply frame_wframe.
      * apply G. by apply runs_app_stop.
Qed.

(** Copies. *)
Inductive target : Type := TMem (l : mloc) | TArgs (z : Z) | TResult (z : Z).
Definition tptr (t : target) : wval :=
  match t with TMem l => mptr l | TArgs z => Ptr RArgs (z * fs) | TResult z => Ptr RResult (z * fs) end.
Definition puts (t : target) (s : wstate V) (vs : list V) : wstate V :=
  match t with
  | TMem l => set_mem s (write (t_mem s) l vs)
  | TArgs z => WState (t_mem s) (t_aux s) (upds (t_args s) z vs) (t_result s) (t_loc s) (t_top s) (t_stack s)
  | TResult z => WState (t_mem s) (t_aux s) (t_args s) (upds (t_result s) z vs) (t_loc s) (t_top s) (t_stack s)
  end.
Definition next (t : target) : target :=
  match t with
  | TMem (LVar z) => TMem (LVar (z + 1)) | TMem (LSig z) => TMem (LSig (z + 1)) | TArgs z => TArgs (z + 1)
  | TResult z => TResult (z + 1)
  end.
Lemma puts_cons t s v vs : puts t s (v :: vs) = puts (next t) (puts t s [v]) vs.
Proof. by destruct t as [[z|z]|z|z]. Qed.
Lemma set_elem_target s t v : set_element s (tptr t) v = Some (puts t s [v]).
Proof.
  destruct t as [[z|z]|z|z]; cbn [tptr mptr WasmModel.set_element]; rewrite decide_True by apply mul_mod; by rewrite mul_div.
Qed.
Lemma next_ptr t : add (tptr t) (Int fs) = Some (tptr (next t)).
Proof. destruct t as [[z|z]|z|z]; cbn [tptr mptr next add]; do 2 f_equal; lia. Qed.
Definition same_cells (s s' : wstate V) : Prop :=
  t_mem s' = t_mem s /\ t_aux s' = t_aux s /\ t_args s' = t_args s /\ t_result s' = t_result s /\ t_top s' = t_top s.
Definition loop_body (c a b : local) : list instr :=
  [IGet c; IEqz; IBrIf 1; IGet a; IGet b; ICopy; IGet c; IConst 1; ISub; ISet c;
   IGet a; IConst fs; IAdd; ISet a; IGet b; IConst fs; IAdd; ISet b; IBr 0].
Lemma loc_same (s : wstate V) l v : t_loc (set_loc s l v) l = v.
Proof. cbn. by rewrite decide_True. Qed.
Lemma loc_other (s : wstate V) l k v : k <> l -> t_loc (set_loc s l v) k = t_loc s k.
Proof. intros. cbn. by rewrite decide_False. Qed.

Lemma copy_ok c a b p x f f' (get : nat -> V) n : c <> a -> c <> b -> a <> b ->
  (forall v, x <> SrcVal v) -> forall k t s, denotes f f' s p x ->
  t_loc s c = Int (Z.of_nat n) -> t_loc s a = tptr t -> t_loc s b = shift p (Z.of_nat k) ->
  (forall j, (j < n)%nat -> element (puts t s (get <$> seq k j)) (shift p (Z.of_nat (k + j))) = Some (get (k + j)%nat)) ->
  exists s', runs [ILoop (loop_body c a b)] (set_stack s []) (Brk 0 (set_stack s' [])) /\
    same_cells (puts t s (get <$> seq k n)) s' /\ forall l, l <> c -> l <> a -> l <> b -> t_loc s' l = t_loc s l.
Proof.
  intros Hca Hcb Hab Hx. induction n as [|n IH]; intros k t s D Ec Ea Eb Hget.
  - exists s. split_and!; [|by destruct t as [[z|z]|z|z]; destruct s as [[]]|done].
    apply runs_loop_exit. eapply r_get; [exact Ec|]. apply r_eqz. cbn [decide]. apply r_brif_yes.
  - pose proof (Hget 0%nat ltac:(lia)) as H0. rewrite Nat.add_0_r in H0. cbn [seq fmap list_fmap] in H0.
    assert (H0' : element s (shift p (Z.of_nat k)) = Some (get k)).
    { rewrite <- H0. destruct s as [[]]. by destruct t as [[z|z]|z|z]. }
    set (s1 := puts t s [get k]).
    assert (L1 : t_loc s1 = t_loc s) by (by destruct t as [[z|z]|z|z]).
    set (s4 := set_loc (set_loc (set_loc s1 c (Int (Z.of_nat n))) a (tptr (next t))) b (shift p (Z.of_nat (S k)))).
    destruct (IH (S k) (next t) s4) as (s' & R & C & L).
    + destruct x as [[z|z]|c'|v]; [done..|by destruct (Hx v)].
    + unfold s4. rewrite loc_other, loc_other, loc_same by done. done.
    + unfold s4. rewrite loc_other, loc_same by done. done.
    + unfold s4. by rewrite loc_same.
    + intros j Hj. specialize (Hget (S j) ltac:(lia)). rewrite <- cons_seq, fmap_cons, puts_cons in Hget.
      replace (S k + j)%nat with (k + S j)%nat by lia. rewrite <- Hget. fold s1. unfold s4. by destruct t as [[z|z]|z|z].
    + exists s'. split_and!.
      * eapply runs_loop_next; [|exact R]. eapply r_get; [exact Ec|]. apply r_eqz. rewrite decide_False by lia.
        apply r_brif_no. eapply r_get; [exact Ea|]. eapply r_get; [exact Eb|].
        eapply r_copy; [exact H0'|apply set_elem_target|]. fold s1.
        eapply r_get; [rewrite L1; exact Ec|]. apply r_const. apply r_sub. apply r_set.
        replace (Z.of_nat (S n) - 1) with (Z.of_nat n) by lia.
        eapply r_get; [rewrite loc_other by done; rewrite L1; exact Ea|]. apply r_const. eapply r_add; [apply next_ptr|]. apply r_set.
        eapply r_get; [rewrite !loc_other by done; rewrite L1; exact Eb|]. apply r_const.
        eapply r_add; [by eapply array_shift|]. apply r_set. apply r_br.
      * rewrite <- cons_seq, fmap_cons, puts_cons. fold s1.
        destruct C as (C1&C2&C3&C4&C5). unfold s4 in *.
        split_and!; [rewrite C1|rewrite C2|rewrite C3|rewrite C4|rewrite C5]; by destruct t as [[z|z]|z|z].
      * intros l Hc Ha Hb. rewrite L by done. unfold s4. rewrite !loc_other by done. by rewrite L1.
Qed.
Lemma upds_lookup (g : Z -> V) vs : forall z y,
  upds g z vs y = if decide (z <= y < z + Z.of_nat (length vs)) then default (g y) (vs !! Z.to_nat (y - z)) else g y.
Proof.
  revert g. induction vs as [|v vs IH]; intros g z y; cbn [upds length].
  - rewrite decide_False by lia. done.
  - rewrite IH. unfold upd. destruct (decide (y = z)) as [->|Hy].
    + rewrite decide_False by lia. rewrite decide_True by lia. rewrite Z.sub_diag. done.
    + destruct (decide (z + 1 <= y < z + 1 + Z.of_nat (length vs))) as [H|H].
      * rewrite decide_True by lia. replace (Z.to_nat (y - z)) with (S (Z.to_nat (y - (z + 1)))) by lia. done.
      * rewrite decide_False by lia. done.
Qed.
Lemma upds_app vs us : forall (g : Z -> V) z, upds g z (vs ++ us) = upds (upds g z vs) (z + Z.of_nat (length vs)) us.
Proof.
  induction vs as [|v vs IH]; intros g z; cbn [upds app length]; [by rewrite Z.add_0_r|].
  rewrite IH. f_equal. lia.
Qed.
Lemma upds_out (g : Z -> V) vs z y : y < z \/ z + Z.of_nat (length vs) <= y -> upds g z vs y = g y.
Proof. intros H. rewrite upds_lookup. rewrite decide_False by lia. done. Qed.
(** The source keeps its values. *)
Lemma source_kept f f' s p x t n j :
  (forall v, x <> SrcVal v) -> denotes f f' s p x -> (j < n)%nat ->
  match t with TMem l => copy_safe l x n = true | _ => True end ->
  element (puts t s (src_cell w (t_mem s) x <$> seq 0 j)) (shift p (Z.of_nat j)) = Some (src_cell w (t_mem s) x j).
Proof.
  intros Hx D Hj Hs. set (vs := src_cell w (t_mem s) x <$> seq 0 j).
  assert (Hvs : length vs = j) by (unfold vs; by rewrite fmap_length, seq_length).
  assert (D' : denotes f f' (puts t s vs) p x) by (destruct x as [[z|z]|c|v]; [done..|by destruct (Hx v)]).
  rewrite (denotes_cell _ _ _ _ _ j D' (or_intror Hx)). f_equal.
  destruct t as [[d|d]|z|z], x as [[a|a]|c|v]; cbn; try done; cbn in Hs; apply bool_decide_eq_true in Hs; apply upds_out; lia.
Qed.

Definition stops (o : out V) : Prop := o = Trap \/ exists c s', o = Ret (Int c) s' /\ c <> 0.
Definition does (x : res (mem V * option (list V))) (s : wstate V) (st : list wval) (c : list instr) : Prop :=
  match x with
  | Ok (m, None) => exists s', runs c (set_stack s st) (Next (set_stack s' st)) /\ t_mem s' = m /\ wframe s s'
  | Ok (m, Some vs) =>
      exists s', runs c (set_stack s st) (Ret (Int 0) s') /\ t_mem s' = m /\ t_top s' = t_loc s LStack /\
        forall k, t_result s' k = upds (t_result s) 0 vs k
  | Abort => exists o, runs c (set_stack s st) o /\ stops o
  | Wild | Fuel => True
  end.
Lemma stops_trap : stops Trap.
Proof. by left. Qed.
Lemma does_trap s st c : runs c (set_stack s st) Trap -> does Abort s st c.
Proof. intros. exists Trap. split; [done|apply stops_trap]. Qed.
Lemma stops_not_next o : stops o -> match o with Trap | Ret _ _ => True | _ => False end.
Proof. by intros [->|(c & s' & -> & _)]. Qed.

(** An error code. *)
Lemma error_ok z l s st :
  (z = 0 -> forall o, runs l (set_stack (set_loc s LError (Int z)) st) o -> runs (code_error ++ l) (set_stack s (Int z :: st)) o) /\
  (z <> 0 -> exists o, runs (code_error ++ l) (set_stack s (Int z :: st)) o /\ stops o).
Proof.
  set (s1 := set_loc s LError (Int z)). split.
  - intros Hz o Ho. cbn [code_error app]. apply r_tee. fold s1. apply (runs_if_next z _ _ _ s1 st s1); [|done].
    rewrite decide_True by done. apply runs_nil.
  - intros Hz. exists (Ret (Int z) (set_stack s1 [])). split; [|right; by exists z, (set_stack s1 [])].
    cbn [code_error app]. apply r_tee. fold s1. apply runs_if_stop; [|done]. rewrite decide_False by done.
    apply r_message. eapply r_get; [apply loc_same|]. apply r_return.
Qed.

Hypothesis Hkeep : keeps_base w.

(** Telling a subcomponent. *)
Lemma trigger_ok d d' f dd m n s st :
  build_dest f d = (d', dd) -> m_base (t_mem s) = m_base m ->
  match d with DSub cmp _ _ => exists c, den_a w m cmp = Some c /\ t_loc s LSub = Ptr (RBlock c) 0 | _ => True end ->
  does (m' <-- lift (notify w d n m (t_mem s)); Ok (m', None)) s st (code_trigger d' n).
Proof.
  destruct d as [a|a o|cmp l info]; cbn [build_dest]; intros Hb Hm HL.
  - destruct (build_a f a) as [[??]?]. injection Hb as <- _. cbn. exists s. split_and!; [apply runs_nil|done|apply wframe_refl].
  - destruct (build_a f a) as [[??]?]. injection Hb as <- _. cbn. exists s. split_and!; [apply runs_nil|done|apply wframe_refl].
  - destruct HL as (c & Ec & HL).
    assert (exists cmp' l', d' = DSub cmp' l' info) as (cmp' & l' & ->).
    { destruct (build_l f l) as [[l' ?]?], (build_a f cmp) as [[cmp' ?]?]. injection Hb as <- _. by eauto. }
    clear Hb. cbn [notify code_trigger]. rewrite Ec. cbn [mbind option_bind].
    set (m2 := decrease (t_mem s) c (Z.of_nat n)). set (s2 := set_mem s m2).
    assert (W2 : wframe s s2) by (apply wframe_mem; [done|apply wframe_refl]).
    assert (L2 : t_loc s2 LSub = Ptr (RBlock c) 0) by exact HL.
    match goal with |- context [IIf ?l []] => set (b := l) end.
    assert (G : forall o, runs [IIf b []] (set_stack s2 (Int (if decide (m_count m2 c = 0) then 1 else 0) :: st)) o ->
      runs [IGet LSub; IGet LSub; ILoad None 8; IConst (Z.of_nat n); ISub; IStore 8; IGet LSub; ILoad None 8; IEqz; IIf b []] (set_stack s st) o).
    { intros o Ho. eapply r_get; [exact HL|]. eapply r_get; [exact HL|]. eapply r_load; [rewrite load_none; apply word_count|].
      apply r_const. apply r_sub. apply runs_cons; [done|]. exists (set_stack s2 st). split; [reflexivity|].
      eapply r_get; [exact L2|]. eapply r_load; [rewrite load_none; apply word_count|]. apply r_eqz. exact Ho. }
    destruct (decide (m_count m2 c = 0)) as [Hz|Hz].
    2:{ cbn. exists s2. split_and!; [|done|done]. apply G.
        eapply runs_if_next; [rewrite decide_True by done; apply runs_nil|apply runs_nil]. }
    assert (Rn : forall z s3, match w_run w c m2 with Some m3 => s3 = set_mem s2 m3 /\ z = 0 | None => s3 = s2 /\ z = 1 end ->
      forall o, runs (code_error ++ []) (set_stack s3 [Int z]) o -> runs b (set_stack s2 []) o).
    { intros z s3 Hr o Ho. rewrite app_nil_r in Ho. unfold b. cbn [app]. eapply r_get; [exact L2|]. destruct l'; cbn [app].
      - apply runs_cons; [done|]. cbn [WasmModel.simple t_stack set_stack t_mem set_mem s2].
        rewrite decide_True by done. destruct (w_run w c m2) as [m3|]; destruct Hr as [-> ->]; (eexists; split; [reflexivity|exact Ho]).
      - eapply r_get; [exact L2|]. eapply r_load; [rewrite load_none; apply word_template|].
        apply runs_cons; [done|]. cbn [WasmModel.simple t_stack set_stack t_mem set_mem s2].
        rewrite decide_True by done. destruct (w_run w c m2) as [m3|]; destruct Hr as [-> ->]; (eexists; split; [reflexivity|exact Ho]). }
    destruct (w_run w c m2) as [m3|] eqn:Er; cbn [lift res_bind does].
    + set (s3 := set_mem s2 m3). exists (set_loc s3 LError (Int 0)). split_and!; [|done|].
      * apply G. eapply runs_if_next; [|apply runs_nil]. cbn [decide]. apply (Rn 0 s3 (conj eq_refl eq_refl)).
        apply error_ok; [done|]. apply runs_nil.
      * apply wframe_loc; [done|]. apply wframe_mem; [|done]. by apply (proj1 Hkeep) in Er.
    + destruct (proj2 (error_ok 1 [] s2 []) ltac:(done)) as (o & Ho & So). exists o. split; [|done]. apply G.
      apply runs_if_stop; [|by apply stops_not_next]. cbn [decide]. apply (Rn 1 s2 (conj eq_refl eq_refl)). exact Ho.
Qed.

(** What follows a prefix. *)
Lemma does_via x s s1 st c c2 :
  (forall o, runs c2 (set_stack s1 st) o -> runs c (set_stack s st) o) -> wframe s s1 -> does x s1 st c2 -> does x s st c.
Proof.
  intros R W. destruct x as [[m [vs|]]| | |]; cbn [does]; [| | |done|done].
  - intros (s' & R' & M' & T' & Rs). exists s'. split_and!; [by apply R|done| |].
    + rewrite T'. destruct W as (_&_&_&L). by apply L.
    + intros k. rewrite Rs. by destruct W as (_&->&_).
  - intros (s' & R' & M' & W'). exists s'. split_and!; [by apply R|done|by eapply wframe_trans].
  - intros (o & R' & So). exists o. split; [by apply R|done].
Qed.
Lemma does_stop o s st c1 c2 : runs c1 (set_stack s st) o -> stops o -> does Abort s st (c1 ++ c2).
Proof. intros R So. exists o. split; [|done]. apply runs_app_stop; [done|]. destruct So as [->|(?&?&->&_)]; done. Qed.

Lemma f_ok e f e' d f' s st :
  build_f f e = (e', d, f') -> (d <= depth)%nat -> ok_f e -> based s -> fits_f (t_mem s) e = true ->
  yields (quiet_f e) f s st (code_f fs e') (den_f w (t_mem s) e) (fun x s' p => denotes f f' s' p x).
Proof. intros Hb Hd Hok B Hf. pose proof (proj1 expr_ok e f Hok) as K. rewrite Hb in K. by apply K. Qed.
Lemma a_ok e f e' d f' s st :
  build_a f e = (e', d, f') -> (d <= depth)%nat -> ok_a e -> based s -> fits_a (t_mem s) e = true ->
  yields (quiet_a e) f s st (code_a fs e') (den_a w (t_mem s) e) num.
Proof. intros Hb Hd Hok B Hf. pose proof (proj1 (proj2 expr_ok) e f Hok) as K. rewrite Hb in K. by apply K. Qed.

Lemma based_w s s' : wframe s s' -> based s -> based s'.
Proof. intros (M&_&_&L) (?&?&?&?). unfold based. rewrite M, !L by done. done. Qed.

Lemma base_write (m : mem V) l vs : m_base (write m l vs) = m_base m.
Proof. by destruct l. Qed.

Lemma store_ok rsize d n1 n2 e f i' dd s st :
  build_s f (SStore d n1 n2 e) = (i', dd) -> (dd <= depth)%nat -> ok_s rsize (SStore d n1 n2 e) -> based s ->
  does (wexec_simple w sio sbus rsize (SStore d n1 n2 e) (t_mem s)) s st (code_s fs i').
Proof.
  cbn [build_s]. destruct (build_f f e) as [[e' de] fe] eqn:Ee. destruct (build_dest f d) as [d' ddd] eqn:Ed.
  intros [= <- <-] Hd (Hokd & Hoke & Harr) B. cbn [wexec_simple code_s]. set (n := (n1 `min` n2)%nat) in *.
  destruct (decide (n = 0%nat)) as [Hn|Hn].
  { rewrite decide_True by lia. cbn. exists s. split_and!; [apply runs_nil|done|apply wframe_refl]. }
  rewrite decide_False by lia. unfold provided.
  destruct (fits_dest w sio sbus (t_mem s) d && fits_f (t_mem s) e) eqn:Fit; [|done]. apply andb_prop in Fit as [Fd Fe].
  pose proof (dest_ok d f d' ddd s st Ed ltac:(lia) Hokd B Fd) as K.
  destruct (den_dest w (t_mem s) d) as [l|]; cbn [lift res_bind]; [|apply does_stop with Trap; [done|apply stops_trap]].
  destruct K as (s1 & R1 & M1 & A1 & W1 & L1). pose proof (based_w _ _ W1 B) as B1.
  assert (Fe1 : fits_f (t_mem s1) e = true) by (by rewrite M1).
  destruct (decide (n1 = 1%nat \/ n2 = 1%nat)) as [H1|H1].
  - assert (n = 1%nat) as En by lia. rewrite En in *.
    pose proof (f_ok e f e' de fe s1 (mptr l :: st) Ee ltac:(lia) Hoke B1 Fe1) as K. rewrite M1 in K. unfold yields in K.
    destruct (den_f w (t_mem s) e) as [x|]; cbn [lift res_bind].
    2:{ exists Trap. split; [|apply stops_trap]. eapply runs_app; [exact R1|]. by apply runs_app_stop. }
    destruct K as (s2 & p & R2 & F2 & Q2 & D2). destruct (copy_safe l x 1); [|done].
    pose proof (denotes_cell0 _ _ _ _ _ D2) as C2. pose proof (frame_mem _ _ _ F2) as M2.
    cbn [seq fmap list_fmap]. rewrite M2, M1 in C2. set (v := src_cell w (t_mem s) x 0) in *.
    set (s3 := puts (TMem l) s2 [v]).
    assert (M3 : t_mem s3 = write (t_mem s) l [v]) by (cbn; by rewrite M2, M1).
    assert (W3 : wframe s s3).
    { eapply wframe_trans; [exact W1|]. apply wframe_mem; [apply base_write|by eapply frame_wframe]. }
    eapply (does_via _ s s3); [|exact W3|].
    { intros o Ho. eapply runs_app; [exact R1|]. eapply runs_app; [exact R2|]. cbn [app].
      eapply r_copy; [exact C2|apply (set_elem_target _ (TMem l))|]. exact Ho. }
    rewrite <- M3. eapply trigger_ok; [exact Ed|apply W3|]. destruct d; [done..|].
    destruct L1 as (c & Ec & L1). exists c. split; [done|]. cbn. destruct F2 as (_&_&_&_&_&L). by rewrite L.
  - pose proof (Harr ltac:(lia)) as Hal.
    set (s2 := set_loc (set_loc s1 LStore1 (mptr l)) LCopy (Int (Z.of_nat n))).
    assert (W2 : wframe s s2) by (by do 2 (apply wframe_loc; [done|])). pose proof (based_w _ _ W2 B) as B2.
    pose proof (f_ok e f e' de fe s2 st Ee ltac:(lia) Hoke B2 Fe1) as K. change (t_mem s2) with (t_mem s1) in K.
    rewrite M1 in K. unfold yields in K.
    assert (G : forall l2 o, runs l2 (set_stack s2 st) o ->
      runs (code_dest fs d' ++ [ISet LStore1; IConst (Z.of_nat n); ISet LCopy] ++ l2) (set_stack s st) o).
    { intros l2 o Ho. eapply runs_app; [exact R1|]. cbn [app]. apply r_set. apply r_const. apply r_set. exact Ho. }
    destruct (den_f w (t_mem s) e) as [x|] eqn:Ex; cbn [lift res_bind].
    2:{ exists Trap. split; [|apply stops_trap]. apply G. by apply runs_app_stop. }
    pose proof (array_like_src w _ _ _ Hal Ex) as Hx.
    destruct K as (s3 & p & R3 & F3 & Q3 & D3). destruct (copy_safe l x n) eqn:Hs; [|done].
    pose proof (frame_mem _ _ _ F3) as M3. set (s4 := set_loc s3 LStore2 p).
    assert (M4 : t_mem s4 = t_mem s) by (cbn; rewrite M3; exact M1).
    assert (L3 : forall k, scratch k = false -> t_loc s3 k = t_loc s2 k) by apply F3.
    assert (D4 : denotes f fe s4 p x) by (destruct x as [[z|z]|c|v]; [done..|by destruct (Hx v)]).
    set (vs := src_cell w (t_mem s) x <$> seq 0 n).
    destruct (copy_ok LCopy LStore1 LStore2 p x f fe (src_cell w (t_mem s) x) n ltac:(done) ltac:(done) ltac:(done) Hx 0%nat (TMem l) s4 D4)
      as (s5 & R5 & C5 & L5).
    { cbn. by rewrite L3. } { cbn. by rewrite L3. }
    { cbn. destruct p; [done|]. cbn [shift]. change (Z.of_nat 0) with 0. by rewrite Z.mul_0_l, Z.add_0_r. }
    { intros j Hj. rewrite <- M4. by eapply source_kept. }
    assert (W5 : wframe s s5).
    { destruct C5 as (C1&C2&C3&C4&C5). apply (wframe_trans _ s2); [done|]. apply frame_wframe in F3 as W3. 
      eapply wframe_trans; [exact W3|]. split_and!.
      - rewrite C1. cbn [puts t_mem set_mem]. by rewrite base_write.
      - by rewrite C4.
      - by rewrite C5.
      - intros k Hk. rewrite L5 by (by intros ->). cbn. rewrite decide_False by (by intros ->). done. }
    assert (M5 : t_mem s5 = write (t_mem s) l vs).
    { destruct C5 as (C1&_). rewrite C1. cbn [puts t_mem set_mem]. by rewrite M4. }
    eapply (does_via _ s s5); [|exact W5|].
    { intros o Ho. apply G. eapply runs_app; [exact R3|]. cbn [app copy_loop]. apply r_set.
      eapply runs_block_break; [exact R5|]. exact Ho. }
    rewrite <- M5. eapply trigger_ok; [exact Ed|apply W5|]. destruct d; [done..|].
    destruct L1 as (c & Ec & L1). exists c. split; [done|]. rewrite L5 by done. cbn. by rewrite L3.
Qed.

(** Arguments of calls. *)
Lemma shift_0 p : shift p (Z.of_nat 0) = p.
Proof. destruct p; [done|]. cbn [shift]. change (Z.of_nat 0) with 0. by rewrite Z.mul_0_l, Z.add_0_r. Qed.
Definition den_args (m : mem V) (args : list (fexpr * nat)) : option (list (list V)) :=
  mapM (fun x : fexpr * nat => den_cells w m x.1 x.2) args.
Lemma den_args_cons m e n args :
  den_args m ((e, n) :: args) =
  x ← den_f w m e; vss ← den_args m args; Some ((src_cell w m x <$> seq 0 n) :: vss).
Proof. unfold den_args. cbn. unfold den_cells. by destruct (den_f w m e). Qed.
Lemma args_ok args : forall cnt f args' d s st,
  build_args f args = (args', d) -> (d <= depth)%nat -> Forall (fun x : fexpr * nat => ok_f x.1 /\ size_ok x.1 x.2) args ->
  based s -> t_loc s LCall = Ptr RArgs 0 -> forallb (fun x : fexpr * nat => fits_f (t_mem s) x.1) args = true ->
  match den_args (t_mem s) args with
  | Some vss =>
      exists s', runs (code_args fs (cnt * fs) args') (set_stack s st) (Next (set_stack s' st)) /\
        t_mem s' = t_mem s /\ wframe s s' /\ t_args s' = upds (t_args s) cnt (concat vss)
  | None => runs (code_args fs (cnt * fs) args') (set_stack s st) Trap
  end.
Proof.
  induction args as [|[e n] args IH]; intros cnt f args' d s st Hb Hd Hok B HC Fit; cbn [build_args] in Hb.
  - injection Hb as <- <-. exists s. split_and!; [apply runs_nil|done|apply wframe_refl|done].
  - destruct (build_f (S f) e) as [[e' de] fe] eqn:Ee. destruct (build_args (S f) args) as [r' dr] eqn:Er. injection Hb as <- <-.
    apply Forall_cons in Hok as [[Hoke [Hn Hal]] Hok]. cbn [fst snd forallb] in *. apply andb_prop in Fit as [Fe Fit].
    rewrite den_args_cons. cbn [code_args].
    replace (cnt * fs + Z.of_nat n * fs) with ((cnt + Z.of_nat n) * fs) by lia.
    set (s1 := if decide (1 < n)%nat then set_loc s LStore1 (tptr (TArgs cnt)) else s).
    set (st1 := if decide (1 < n)%nat then st else tptr (TArgs cnt) :: st).
    assert (M1 : t_mem s1 = t_mem s) by (unfold s1; by case_decide).
    assert (A1 : t_args s1 = t_args s) by (unfold s1; by case_decide).
    assert (W1 : wframe s s1) by (unfold s1; case_decide; [apply wframe_loc; [done|]|]; apply wframe_refl).
    pose proof (based_w _ _ W1 B) as B1.
    assert (HC1 : t_loc s1 LCall = Ptr RArgs 0) by (unfold s1; by case_decide).
    assert (G : forall l o, runs l (set_stack s1 st1) o ->
      runs ([IGet LCall; IConst (cnt * fs); IAdd] ++ (if decide (1 < n)%nat then [ISet LStore1] else []) ++ l) (set_stack s st) o).
    { intros l o Ho. cbn [app]. eapply r_get; [exact HC|]. apply r_const. eapply r_add; [reflexivity|].
      change (Ptr RArgs (0 + cnt * fs)) with (Ptr RArgs (cnt * fs)). unfold s1, st1 in Ho. destruct (decide (1 < n)%nat).
      - cbn [app]. apply r_set. exact Ho.
      - exact Ho. }
    assert (Fe1 : fits_f (t_mem s1) e = true) by (by rewrite M1).
    pose proof (f_ok e (S f) e' de fe s1 st1 Ee ltac:(lia) Hoke B1 Fe1) as K. rewrite M1 in K. unfold yields in K.
    destruct (den_f w (t_mem s) e) as [x|] eqn:Ex; cbn [mbind option_bind]; [|apply G; by apply runs_app_stop].
    destruct K as (s2 & p & R2 & F2 & Q2 & D2). pose proof (frame_mem _ _ _ F2) as M2. rewrite M1 in M2.
    assert (A2 : t_args s2 = t_args s) by (rewrite <- A1; apply F2).
    assert (L2 : forall k, scratch k = false -> t_loc s2 k = t_loc s1 k) by apply F2.
    assert (W2 : wframe s s2) by (eapply wframe_trans; [exact W1|by eapply frame_wframe]).
    set (vs := src_cell w (t_mem s) x <$> seq 0 n).
    assert (exists s3, t_mem s3 = t_mem s /\ wframe s s3 /\ t_loc s3 LCall = Ptr RArgs 0 /\ t_args s3 = upds (t_args s) cnt vs /\
      forall l o, runs l (set_stack s3 st) o ->
      runs ((if decide (n = 1)%nat then [ICopy] else [ISet LStore2; IConst (Z.of_nat n); ISet LCopy] ++ copy_loop fs) ++ l)
        (set_stack s2 (p :: st1)) o) as (s3 & M3 & W3 & HC3 & A3 & G3).
    { destruct (decide (n = 1%nat)) as [->|Hn1].
      - exists (puts (TArgs cnt) s2 vs). split_and!; [done|done| |cbn; by rewrite A2|].
        + cbn. by rewrite L2.
        + intros l o Ho. cbn [app]. unfold st1. rewrite decide_False by lia.
          pose proof (denotes_cell0 _ _ _ _ _ D2) as C2. rewrite M2 in C2.
          eapply r_copy; [exact C2|apply (set_elem_target _ (TArgs cnt))|]. exact Ho.
      - pose proof (array_like_src w _ _ _ (Hal ltac:(lia)) Ex) as Hx.
        set (s3 := set_loc (set_loc s2 LStore2 p) LCopy (Int (Z.of_nat n))).
        assert (D3 : denotes (S f) fe s3 p x) by (destruct x as [[z|z]|c|v]; [done..|by destruct (Hx v)]).
        destruct (copy_ok LCopy LStore1 LStore2 p x (S f) fe (src_cell w (t_mem s) x) n
          ltac:(done) ltac:(done) ltac:(done) Hx 0%nat (TArgs cnt) s3 D3) as (s4 & R4 & C4 & L4).
        { done. } { unfold s3. rewrite !loc_other by done. rewrite L2 by done. unfold s1. by rewrite decide_True by lia. }
        { cbn. by rewrite shift_0. }
        { intros j Hj. rewrite <- M2. change (t_mem s2) with (t_mem s3). by eapply (source_kept _ _ _ _ _ _ n). }
        destruct C4 as (C1&C2&C3&C4&C5). exists s4. split_and!.
        + rewrite C1. exact M2.
        + eapply wframe_trans; [exact W2|]. split_and!; [by rewrite C1|by rewrite C4|by rewrite C5|].
          intros k Hk. rewrite L4 by (by intros ->). unfold s3. rewrite !loc_other by (by intros ->). done.
        + rewrite L4 by done. unfold s3. rewrite !loc_other by done. by rewrite L2.
        + rewrite C3. cbn. by rewrite A2.
        + intros l o Ho. unfold st1. rewrite decide_True by lia. cbn [app copy_loop]. apply r_set. apply r_const. apply r_set.
          eapply runs_block_break; [exact R4|]. exact Ho. }
    specialize (IH (cnt + Z.of_nat n) (S f) r' dr s3 st Er ltac:(lia) Hok (based_w _ _ W3 B) HC3).
    rewrite M3 in IH. specialize (IH Fit). fold vs.
    destruct (den_args (t_mem s) args) as [vss|]; cbn [mbind option_bind].
    + destruct IH as (s4 & R4 & M4 & W4 & A4). exists s4. split_and!; [|done|by eapply wframe_trans|].
      * apply G. eapply runs_app; [exact R2|]. apply G3. exact R4.
      * rewrite A4, A3. cbn [concat]. rewrite upds_app. unfold vs. by rewrite fmap_length, seq_length.
    + apply G. eapply runs_app; [exact R2|]. apply G3. exact IH.
Qed.
Lemma upds_read (g : Z -> V) vs : (fun k => upds g 0 vs (Z.of_nat k)) <$> seq 0 (length vs) = vs.
Proof.
  apply list_eq. intros i. rewrite list_lookup_fmap. destruct (decide (i < length vs)%nat) as [Hi|Hi].
  - rewrite lookup_seq_lt by done. cbn. rewrite upds_lookup. rewrite decide_True by lia.
    replace (Z.to_nat (Z.of_nat i - 0)) with i by lia. destruct (lookup_lt_is_Some_2 vs i Hi) as [v Hv]. by rewrite Hv.
  - rewrite lookup_seq_ge by lia. cbn. symmetry. apply lookup_ge_None. lia.
Qed.
Lemma den_args_length m args vss : den_args m args = Some vss -> length (concat vss) = total args.
Proof.
  revert vss. unfold total. induction args as [|[e n] args IH]; intros vss.
  - intros [= <-]. done.
  - rewrite den_args_cons. intros H. apply bind_Some in H as (x & Hx & H). apply bind_Some in H as (vss' & Hvss & H).
    injection H as <-. cbn [concat foldr fst snd]. by rewrite app_length, (IH _ Hvss), fmap_length, seq_length.
Qed.
Lemma build_total args : forall f, total (build_args f args).1 = total args.
Proof.
  induction args as [|[e n] args IH]; intros f; [done|]. cbn [build_args]. specialize (IH (S f)).
  destruct (build_f (S f) e) as [[??]?], (build_args (S f) args) as [??]. cbn in *. by rewrite IH.
Qed.

Lemma call_ok rsize fn args d n f i' dd s st :
  build_s f (SCall fn args d n) = (i', dd) -> (dd <= depth)%nat -> ok_s rsize (SCall fn args d n) -> ready fs rsize s ->
  does (wexec_simple w sio sbus rsize (SCall fn args d n) (t_mem s)) s st (code_s fs i').
Proof.
  cbn [build_s]. destruct (build_dest f d) as [d' ddd] eqn:Ed. pose proof (build_total args f) as Ht.
  destruct (build_args f args) as [args' da] eqn:Ea. cbn [fst] in Ht.
  intros [= <- <-] Hd (Hoka & Hokd) Rdy. pose proof (ready_based _ _ Rdy) as B. cbn [wexec_simple code_s]. unfold provided.
  destruct (forallb _ args && _) eqn:Fit; [|done]. apply andb_prop in Fit as [Fa Fd].
  change (mapM (fun x : fexpr * nat => den_cells w (t_mem s) x.1 x.2) args) with (den_args (t_mem s) args).
  set (s0 := match args with [] => s | _ => set_loc s LCall (Ptr RArgs 0) end).
  assert (M0 : t_mem s0 = t_mem s) by (by destruct args).
  assert (W0 : wframe s s0) by (destruct args; [|apply wframe_loc; [done|]]; apply wframe_refl).
  match goal with |- context [does _ s st (?p ++ ?r)] => set (pre := p); set (rest := r) end.
  assert (K : match den_args (t_mem s) args with
    | Some vss => exists s1, runs pre (set_stack s st) (Next (set_stack s1 st)) /\ t_mem s1 = t_mem s /\ wframe s s1 /\
         (fun k => t_args s1 (Z.of_nat k)) <$> seq 0 (total args') = concat vss
    | None => runs pre (set_stack s st) Trap
    end).
  { destruct args as [|a args].
    - cbn in Ea. injection Ea as <- <-. exists s. split_and!; [apply runs_nil|done|apply wframe_refl|done].
    - assert (HC0 : t_loc s0 LCall = Ptr RArgs 0) by done.
      assert (Fa0 : forallb (fun x : fexpr * nat => fits_f (t_mem s0) x.1) (a :: args) = true) by done.
      pose proof (args_ok (a :: args) 0 f args' da s0 st Ea ltac:(lia) Hoka (based_w _ _ W0 B) HC0 Fa0) as K.
      rewrite Z.mul_0_l, M0 in K.
      assert (G : forall o, runs (code_args fs 0 args') (set_stack s0 st) o -> runs pre (set_stack s st) o).
      { intros o Ho. unfold pre. destruct args' as [|a' args']; [destruct a; cbn in Ea; by destruct (build_f (S f) _) as [[??]?], (build_args (S f) args)|].
        change ([IConst 0; ILoad None 0; ISet LCall] ++ code_args fs 0 (a' :: args')) with
          (IConst 0 :: ILoad None 0 :: ISet LCall :: code_args fs 0 (a' :: args')).
        apply r_const. eapply r_load; [cbn; rewrite decide_True by done; reflexivity|].
        destruct Rdy as (_&_&_&_&->&_). apply r_set. exact Ho. }
      destruct (den_args (t_mem s) (a :: args)) as [vss|] eqn:Evs; [|by apply G].
      destruct K as (s1 & R1 & M1 & W1 & A1). exists s1. split_and!; [by apply G|done|by eapply wframe_trans|].
      rewrite A1, Ht, <- (den_args_length _ _ _ Evs). apply upds_read. }
  destruct (den_args (t_mem s) args) as [vss|]; cbn [lift res_bind]; [|apply does_stop with Trap; [done|apply stops_trap]].
  destruct K as (s1 & R1 & M1 & W1 & A1).
  eapply (does_via _ s s1 _ _ rest); [intros o Ho; by eapply runs_app|done|].
  assert (Fd1 : fits_dest w sio sbus (t_mem s1) d = true) by (by rewrite M1).
  pose proof (dest_ok d f d' ddd s1 st Ed ltac:(lia) Hokd (based_w _ _ W1 B) Fd1) as K. rewrite M1 in K. unfold rest.
  destruct (den_dest w (t_mem s) d) as [l|]; cbn [lift res_bind]; [|apply does_stop with Trap; [done|apply stops_trap]].
  destruct K as (s2 & R2 & M2 & A2 & W2 & L2).
  destruct (w_call w fn (concat vss) n) as [vs|] eqn:Ec; cbn [lift res_bind].
  - set (s3 := set_loc (set_mem s2 (write (t_mem s2) l vs)) LError (Int 0)).
    assert (W3 : wframe s1 s3) by (apply wframe_loc; [done|]; apply wframe_mem; [apply base_write|done]).
    assert (M3 : t_mem s3 = write (t_mem s) l vs) by (cbn; by rewrite M2).
    eapply (does_via _ s1 s3); [|exact W3|].
    { intros o Ho. eapply runs_app; [exact R2|]. cbn [app]. apply r_const. apply runs_cons; [done|].
      exists (set_stack (set_mem s2 (write (t_mem s2) l vs)) (Int 0 :: st)). split.
      - cbn [WasmModel.simple t_stack set_stack t_args t_mem]. rewrite A2, A1, Nat2Z.id, Ec.
        destruct l; cbn [mptr]; rewrite decide_True by apply mul_mod; by rewrite mul_div.
      - apply error_ok; [done|]. exact Ho. }
    rewrite <- M3. eapply trigger_ok; [exact Ed| |].
    + rewrite M3. apply base_write.
    + destruct d; [done..|]. destruct L2 as (c & Ec' & L2). by exists c.
  - destruct (proj2 (error_ok 1 (code_trigger d' n) s2 st) ltac:(done)) as (o & Ho & So). exists o. split; [|done].
    eapply runs_app; [exact R2|]. cbn [app]. apply r_const. apply runs_cons; [done|].
    exists (set_stack s2 (Int 1 :: st)). split; [|exact Ho].
    cbn [WasmModel.simple t_stack set_stack t_args t_mem]. by rewrite A2, A1, Nat2Z.id, Ec.
Qed.

Lemma assert_ok rsize k e f i' dd s st :
  build_s f (SAssert k e) = (i', dd) -> (dd <= depth)%nat -> ok_s rsize (SAssert k e) -> based s ->
  does (wexec_simple w sio sbus rsize (SAssert k e) (t_mem s)) s st (code_s fs i').
Proof.
  cbn [build_s]. destruct (build_f f e) as [[e' de] fe] eqn:Ee. intros [= <- <-] Hd Hok B. cbn [wexec_simple code_s]. unfold provided.
  destruct (fits_f (t_mem s) e) eqn:Fe; [|done].
  pose proof (f_ok e f e' de fe s st Ee Hd Hok B Fe) as K. unfold yields in K.
  destruct (den_f w (t_mem s) e) as [x|]; cbn [lift res_bind]; [|apply does_stop with Trap; [done|apply stops_trap]].
  destruct K as (s1 & p & R1 & F1 & Q1 & D1). pose proof (denotes_cell0 _ _ _ _ _ D1) as C1. rewrite (frame_mem _ _ _ F1) in C1.
  destruct (w_true w (src_cell w (t_mem s) x 0)) eqn:Et.
  - exists s1. split_and!; [|by apply F1|by eapply frame_wframe]. eapply runs_app; [exact R1|].
    eapply r_istrue; [exact C1|]. rewrite Et. apply r_eqz. cbn [decide].
    eapply runs_if_next; [rewrite decide_True by done; apply runs_nil|apply runs_nil].
  - exists (Ret (Int 4) (set_stack s1 [])). split; [|right; eexists _, _; split; [reflexivity|done]]. eapply runs_app; [exact R1|].
    eapply r_istrue; [exact C1|]. rewrite Et. apply r_eqz. cbn [decide]. apply runs_if_stop; [|done].
    rewrite decide_False by done. apply r_message. apply r_const. apply r_return.
Qed.

Lemma free_stack_ok s st :
  runs [IConst 0; IGet LStack; IStore 0; IConst 0; IReturn] (set_stack s st)
    (Ret (Int 0) (WState (t_mem s) (t_aux s) (t_args s) (t_result s) (t_loc s) (t_loc s LStack) st)).
Proof.
  apply r_const. eapply r_get; [reflexivity|]. apply runs_cons; [done|].
  eexists. split; [cbn; rewrite decide_True by done; reflexivity|]. cbn [t_loc set_stack].
  match goal with |- runs _ ?x _ => change x with (set_stack (WState (t_mem s) (t_aux s) (t_args s) (t_result s) (t_loc s) (t_loc s LStack) st) st) end.
  apply r_const. apply r_return.
Qed.
Lemma return_ok rsize n e f i' dd s st : (1 <= rsize)%nat ->
  build_s f (SReturn n e) = (i', dd) -> (dd <= depth)%nat -> ok_s rsize (SReturn n e) -> ready fs rsize s ->
  does (wexec_simple w sio sbus rsize (SReturn n e) (t_mem s)) s st (code_s fs i').
Proof.
  intros Hrs. cbn [build_s]. destruct (build_f f e) as [[e' de] fe] eqn:Ee. intros [= <- <-] Hd [Hok Hn] Rdy.
  pose proof (ready_based _ _ Rdy) as B. destruct Rdy as (_&_&_&_&_&HR&HS).
  cbn [wexec_simple code_s]. unfold provided. destruct (fits_f (t_mem s) e) eqn:Fe; [|done]. unfold den_cells.
  destruct (decide (n = 1%nat)) as [->|Hn1].
  - pose proof (f_ok e f e' de fe s (Ptr RResult 0 :: st) Ee Hd Hok B Fe) as K. unfold yields in K.
    destruct (den_f w (t_mem s) e) as [x|]; cbn [mbind option_bind lift res_bind].
    2:{ apply does_stop with Trap; [|apply stops_trap]. cbn [app]. eapply r_get; [exact HR|]. by apply runs_app_stop. }
    destruct K as (s1 & p & R1 & F1 & Q1 & D1). pose proof (denotes_cell0 _ _ _ _ _ D1) as C1. rewrite (frame_mem _ _ _ F1) in C1.
    replace (1 `min` rsize)%nat with 1%nat by lia. cbn [seq fmap list_fmap]. set (v := src_cell w (t_mem s) x 0) in *.
    set (s2 := puts (TResult 0) s1 [v]). eexists. split.
    + rewrite <- !app_assoc. cbn [app]. eapply r_get; [exact HR|]. eapply runs_app; [exact R1|].
      eapply r_copy; [exact C1|apply (set_elem_target _ (TResult 0))|]. fold s2. apply free_stack_ok.
    + destruct F1 as (M1&_&Rs&_&_&L1). split_and!; [exact M1|cbn; by rewrite L1|]. intros k. cbn. by rewrite Rs.
  - destruct Hn as [Hn|[Hal Hn]]; [lia|].
    pose proof (f_ok e f e' de fe s st Ee Hd Hok B Fe) as K. unfold yields in K.
    destruct (den_f w (t_mem s) e) as [x|] eqn:Ex; cbn [mbind option_bind lift res_bind].
    2:{ apply does_stop with Trap; [|apply stops_trap]. by apply runs_app_stop. }
    destruct K as (s1 & p & R1 & F1 & Q1 & D1). pose proof (array_like_src w _ _ _ Hal Ex) as Hx.
    replace (n `min` rsize)%nat with rsize by lia. destruct F1 as (M1&_&Rs&_&_&L1).
    set (s2 := set_loc s1 LStore2 p).
    assert (D2 : denotes f fe s2 p x) by (destruct x as [[z|z]|c|v]; [done..|by destruct (Hx v)]).
    destruct (copy_ok LSize LResult LStore2 p x f fe (src_cell w (t_mem s) x) rsize
      ltac:(done) ltac:(done) ltac:(done) Hx 0%nat (TResult 0) s2 D2) as (s3 & R3 & C3 & L3).
    { cbn. by rewrite L1. } { cbn. by rewrite L1. } { cbn. by rewrite shift_0. }
    { intros j Hj. rewrite <- M1. change (t_mem s1) with (t_mem s2). by eapply (source_kept _ _ _ _ _ _ rsize). }
    destruct C3 as (C1&C2&C3&C4&C5). eexists. split.
    + rewrite <- !app_assoc. eapply runs_app; [exact R1|]. cbn [app]. apply r_set. eapply runs_block_break; [exact R3|].
      change (set_stack (set_stack s3 []) st) with (set_stack s3 st). apply free_stack_ok.
    + split_and!; [cbn; rewrite C1; exact M1|cbn; rewrite L3 by done; cbn; by rewrite L1|].
      intros k. cbn. rewrite C4. cbn. by rewrite Rs.
Qed.

Lemma logs_ok args : forall f args' dd s st,
  build_logs f args = (args', dd) -> (dd <= depth)%nat ->
  Forall (fun x => match x with LogExp e => ok_f e | LogStr _ => True end) args -> based s ->
  does (m' <-- logs w sio sbus args (t_mem s); Ok (m', None)) s st (concat (code_log fs <$> args') ++ [IPrintStr None]).
Proof.
  induction args as [|[e|id] args IH]; intros f args' dd s st Hb Hd Hok B; cbn [build_logs] in Hb.
  - injection Hb as <- <-. cbn. eexists (set_mem s _). split_and!; [|reflexivity|apply wframe_mem; [done|apply wframe_refl]].
    apply runs_cons; [done|]. eexists. split; [reflexivity|]. apply runs_nil.
  - destruct (build_f f e) as [[e' de] fe] eqn:Ee. destruct (build_logs f args) as [r' dr] eqn:Er. injection Hb as <- <-.
    apply Forall_cons in Hok as [Hoke Hok]. cbn [logs]. unfold provided. destruct (fits_f (t_mem s) e) eqn:Fe; [|done].
    pose proof (f_ok e f e' de fe s st Ee ltac:(lia) Hoke B Fe) as K. unfold yields in K.
    cbn [fmap list_fmap concat code_log]. rewrite <- !app_assoc.
    destruct (den_f w (t_mem s) e) as [x|]; cbn [lift res_bind]; [|apply does_stop with Trap; [done|apply stops_trap]].
    destruct K as (s1 & p & R1 & F1 & Q1 & D1). pose proof (denotes_cell0 _ _ _ _ _ D1) as C1. rewrite (frame_mem _ _ _ F1) in C1.
    set (v := src_cell w (t_mem s) x 0) in *. set (s2 := set_mem s1 (print (t_mem s1) (inl v))).
    assert (W2 : wframe s s2) by (apply wframe_mem; [done|by eapply frame_wframe]).
    assert (M2 : t_mem s2 = print (t_mem s) (inl v)) by (cbn; by rewrite (frame_mem _ _ _ F1)).
    eapply (does_via _ s s2); [|exact W2|].
    { intros o Ho. eapply runs_app; [exact R1|]. cbn [app]. apply runs_cons; [done|]. exists (set_stack s2 st). split; [|exact Ho].
      cbn [WasmModel.simple t_stack set_stack]. rewrite element_stack, C1. done. }
    rewrite <- M2. eapply IH; [exact Er|lia|done|]. by eapply based_w.
  - destruct (build_logs f args) as [r' dr] eqn:Er. injection Hb as <- <-.
    apply Forall_cons in Hok as [_ Hok]. cbn [logs fmap list_fmap concat code_log]. rewrite <- !app_assoc.
    set (s2 := set_mem s (print (t_mem s) (inr (Some id)))).
    assert (W2 : wframe s s2) by (apply wframe_mem; [done|apply wframe_refl]).
    eapply (does_via _ s s2); [|exact W2|].
    { intros o Ho. cbn [app]. apply runs_cons; [done|]. exists (set_stack s2 st). split; [|exact Ho]. done. }
    change (print (t_mem s) (inr (Some id))) with (t_mem s2). eapply IH; [exact Er|lia|done|]. by eapply based_w.
Qed.

Lemma create_ok rsize id a f i' dd s st :
  build_s f (SCreate id a) = (i', dd) -> (dd <= depth)%nat -> ok_s rsize (SCreate id a) -> based s ->
  does (wexec_simple w sio sbus rsize (SCreate id a) (t_mem s)) s st (code_s fs i').
Proof.
  cbn [build_s]. destruct (build_a f a) as [[a' da] fa] eqn:Ea. intros [= <- <-] Hd Hok B. cbn [wexec_simple code_s]. unfold provided at 1.
  destruct (fits_a (t_mem s) a) eqn:Fa; [|done].
  pose proof (a_ok a f a' da fa s (Ptr ROwn 12 :: st) Ea Hd Hok B Fa) as K. unfold yields in K.
  assert (G : forall l o, runs l (set_stack s (Ptr ROwn 12 :: st)) o ->
    runs ([IGet LOffset; IConst 12; IAdd] ++ l) (set_stack s st) o).
  { intros l o Ho. destruct B as (_&_&_&E). cbn [app]. eapply r_get; [exact E|]. apply r_const. eapply r_add; [reflexivity|]. exact Ho. }
  destruct (den_a w (t_mem s) a) as [x|]; cbn [lift res_bind].
  2:{ exists Trap. split; [|apply stops_trap]. apply G. by apply runs_app_stop. }
  destruct K as (s1 & p & R1 & F1 & Q1 & ->). pose proof (frame_mem _ _ _ F1) as M1. unfold provided.
  destruct (bool_decide (0 <= x)) eqn:Hx; [|done]. apply bool_decide_eq_true in Hx.
  assert (A : 12 + x * 4 = (x + 3) * 4) by lia.
  assert (S2 : simple (ICreate id) (set_stack s1 (Ptr ROwn (12 + x * 4) :: st)) =
    match w_create w id x (t_mem s1) with Some m => Next (set_stack (set_mem s1 m) st) | None => Trap end).
  { cbn [WasmModel.simple t_stack set_stack]. rewrite decide_True by (split; [rewrite A; apply mul_mod|lia]).
    rewrite A, mul_div by done. by replace (x + 3 - 3) with x by lia. }
  rewrite M1 in S2. destruct (w_create w id x (t_mem s)) as [m|] eqn:Ec; cbn [lift res_bind].
  - exists (set_mem s1 m). split_and!; [|done|].
    + apply G. eapply runs_app; [exact R1|]. apply r_const. apply r_mul. eapply r_add; [reflexivity|].
      apply runs_cons; [done|]. eexists. split; [exact S2|]. apply runs_nil.
    + apply wframe_mem; [|by eapply frame_wframe]. rewrite M1. by apply (proj2 Hkeep) in Ec.
  - exists Trap. split; [|apply stops_trap]. apply G. eapply runs_app; [exact R1|]. apply r_const. apply r_mul.
    eapply r_add; [reflexivity|]. by apply runs_stop.
Qed.

(** ** Programs *)

Context (rsize : nat) (Hrs : (1 <= rsize)%nat).
Local Notation WX := (wexec w sio sbus rsize).
Local Notation oks := (foldr (fun i P => ok_s rsize i /\ P) True).

Definition loop_code (c : fexpr) (l : list stmt) : list instr :=
  code_f fs c ++ [IIsTrue; IEqz; IBrIf 1] ++ concat (code_s fs <$> l) ++ [IBr 0].
(** The same as [does], for a loop inside its block. *)
Definition loops (x : res (mem V * option (list V))) (s : wstate V) (c : list instr) : Prop :=
  match x with
  | Ok (m, None) => exists s', runs [ILoop c] (set_stack s []) (Brk 0 (set_stack s' [])) /\ t_mem s' = m /\ wframe s s'
  | _ => does x s [] [ILoop c]
  end.
Definition stmt_does (fuel : nat) (i : stmt) : Prop := forall f i' dd s st,
  build_s f i = (i', dd) -> (dd <= depth)%nat -> ok_s rsize i -> ready fs rsize s ->
  does (WX fuel i (t_mem s)) s st (code_s fs i').
Definition loop_does (fuel : nat) : Prop := forall c l f c' l' dc fc dl s,
  build_f f c = (c', dc, fc) -> build_list (build_s f) l = (l', dl) -> (dc <= depth)%nat -> (dl <= depth)%nat ->
  ok_f c -> oks l -> ready fs rsize s -> loops (WX fuel (SLoop c l) (t_mem s)) s (loop_code c' l').

Lemma wexec_branch fuel c l1 l2 m :
  (l1 <> [] \/ l2 <> []) ->
  WX fuel (SBranch c l1 l2) m =
  provided (fits_f m c)
    (v <-- lift (den_f w m c);
     match fuel with
     | O => Fuel
     | S fuel => exec_list (WX fuel) (if w_true w (src_cell w m v 0) then l1 else l2) m
     end).
Proof. intros [H|H]; destruct fuel, l1, l2; done. Qed.
Lemma wexec_loop fuel c l m :
  WX fuel (SLoop c l) m =
  provided (fits_f m c)
    (v <-- lift (den_f w m c);
     match fuel with
     | O => Fuel
     | S fuel =>
         if w_true w (src_cell w m v 0)
         then x <-- exec_list (WX fuel) l m;
              match x.2 with None => WX fuel (SLoop c l) x.1 | Some _ => Ok x end
         else Ok (m, None)
     end).
Proof. destruct fuel; reflexivity. Qed.

Lemma list_does fuel : (forall i, stmt_does fuel i) -> forall l f l' dd s st,
  build_list (build_s f) l = (l', dd) -> (dd <= depth)%nat -> oks l -> ready fs rsize s ->
  does (exec_list (WX fuel) l (t_mem s)) s st (concat (code_s fs <$> l')).
Proof.
  intros IH. induction l as [|i l IHl]; intros f l' dd s st Hb Hd Hok Rdy; cbn [build_list] in Hb.
  - injection Hb as <- <-. cbn. exists s. split_and!; [apply runs_nil|done|apply wframe_refl].
  - destruct (build_s f i) as [i' di] eqn:Ei. destruct (build_list (build_s f) l) as [r' dr] eqn:Er.
    injection Hb as <- <-. destruct Hok as [Hoki Hok].
    cbn [exec_list fmap list_fmap concat]. fold (exec_list (WX fuel)). pose proof (IH i f i' di s st Ei ltac:(lia) Hoki Rdy) as K.
    destruct (WX fuel i (t_mem s)) as [[m [vs|]]| | |] eqn:Ex; cbn [res_bind snd fst]; [| | |done|done].
    + destruct K as (s' & R & ?). exists s'. split; [|done]. by apply runs_app_stop.
    + destruct K as (s1 & R & M & W). subst m. eapply (does_via _ s s1 _ _ (concat (code_s fs <$> r'))); [|done|].
      * intros o Ho. by eapply runs_app.
      * eapply IHl; [exact Er|lia|done|by eapply wframe_ready].
    + destruct K as (o & R & So). exists o. split; [|done]. apply runs_app_stop; [done|]. destruct So as [->|(?&?&->&_)]; done.
Qed.

Lemma build_list_nil f l l' dd : build_list (build_s f) l = (l', dd) -> (l = [] <-> l' = []).
Proof.
  destruct l as [|i l]; cbn; [by intros [= <- <-]|]. destruct (build_s f i). 
  match goal with |- context [(let '(_, _) := ?x in _) = _] => destruct x end. intros [= <- <-]. done.
Qed.

(** The branch that is taken. *)
Lemma branch_runs c' l1 l2 b s s1 st p v :
  runs (code_f fs c') (set_stack s st) (Next (set_stack s1 (p :: st))) -> element s1 p = Some v -> w_true w v = b ->
  (l1 <> [] \/ l2 <> []) ->
  exists z k1 k2, (if decide (z = 0) then k2 else k1) = concat (code_s fs <$> (if b then l1 else l2)) /\
  (forall o, runs [IIf k1 k2] (set_stack s1 (Int z :: st)) o -> runs (code_s fs (SBranch c' l1 l2)) (set_stack s st) o) /\
  (forall M o, RL M [IIf k1 k2] (set_stack s1 (Int z :: st)) = o ->
     RL M (code_f fs c') (set_stack s st) = Next (set_stack s1 (p :: st)) -> RL M (code_s fs (SBranch c' l1 l2)) (set_stack s st) = o) /\
  (forall M, RL M (code_f fs c') (set_stack s st) = NoFuel -> RL M (code_s fs (SBranch c' l1 l2)) (set_stack s st) = NoFuel).
Proof.
  intros R Ep Et Hne.
  destruct l1 as [|i1 l1]; [destruct l2 as [|i2 l2]; [by destruct Hne|]|].
  - exists (if b then 0 else 1), (concat (code_s fs <$> i2 :: l2)), []. split_and!.
    + by destruct b.
    + intros o Ho. cbn [code_s]. eapply runs_app; [exact R|]. eapply r_istrue; [exact Ep|]. rewrite Et. apply r_eqz. by destruct b.
    + intros M o Ho Hc. cbn [code_s]. rewrite rl_app, Hc. rewrite <- Ho. cbn [run_list].
      replace (run M IIsTrue (set_stack s1 (p :: st))) with (Next (set_stack s1 (Int (if b then 1 else 0) :: st))).
      2:{ destruct M; cbn [WasmModel.run WasmModel.simple t_stack set_stack]; rewrite element_stack, Ep; cbn; by rewrite Et. }
      destruct M, b; done.
    + intros M Hc. cbn [code_s]. by rewrite rl_app, Hc.
  - exists (if b then 1 else 0), (concat (code_s fs <$> i1 :: l1)), (concat (code_s fs <$> l2)). split_and!.
    + by destruct b.
    + intros o Ho. cbn [code_s]. eapply runs_app; [exact R|]. eapply r_istrue; [exact Ep|]. by rewrite Et.
    + intros M o Ho Hc. cbn [code_s]. rewrite rl_app, Hc. rewrite <- Ho. cbn [run_list].
      replace (run M IIsTrue (set_stack s1 (p :: st))) with (Next (set_stack s1 (Int (if b then 1 else 0) :: st))).
      2:{ destruct M; cbn [WasmModel.run WasmModel.simple t_stack set_stack]; rewrite element_stack, Ep; cbn; by rewrite Et. }
      done.
    + intros M Hc. cbn [code_s]. by rewrite rl_app, Hc.
Qed.

Lemma stmt_case fuel : loop_does fuel -> (fuel = O \/ exists n, fuel = S n /\ forall i, stmt_does n i) -> forall i, stmt_does fuel i.
Proof.
  intros HL HF i f i' dd s st Hb Hd Hok Rdy. pose proof (ready_based _ _ Rdy) as B.
  destruct i as [d n1 n2 e|fn args d n|c l1 l2|c l|k e|n e|args|id a].
  - replace (WX fuel (SStore d n1 n2 e)) with (wexec_simple w sio sbus rsize (SStore d n1 n2 e)) by (by destruct fuel).
    by eapply store_ok.
  - replace (WX fuel (SCall fn args d n)) with (wexec_simple w sio sbus rsize (SCall fn args d n)) by (by destruct fuel).
    by eapply call_ok.
  - cbn [build_s] in Hb. destruct (build_f f c) as [[c' dc] fc] eqn:Ec.
    destruct (build_list (build_s f) l1) as [l1' d1] eqn:E1. destruct (build_list (build_s f) l2) as [l2' d2] eqn:E2.
    injection Hb as <- <-. pose proof (build_list_nil _ _ _ _ E1) as N1. pose proof (build_list_nil _ _ _ _ E2) as N2.
    destruct (decide (l1 = [] /\ l2 = [])) as [[-> ->]|Hne].
    { destruct N1 as [N1 _], N2 as [N2 _]. rewrite (N1 eq_refl), (N2 eq_refl).
      assert (E : WX fuel (SBranch c [] []) (t_mem s) = Ok (t_mem s, None)) by (by destruct fuel). rewrite E.
      exists s. split_and!; [apply runs_nil|done|apply wframe_refl]. }
    assert (Hne' : l1 <> [] \/ l2 <> []) by (destruct l1; [right; intros ->; by apply Hne|by left]).
    assert (Hne2 : l1' <> [] \/ l2' <> []) by (destruct Hne' as [H|H]; [left|right]; tauto).
    rewrite wexec_branch by done. unfold provided. destruct (fits_f (t_mem s) c) eqn:Fc; [|done].
    destruct Hok as (Hokc & Hok1 & Hok2).
    pose proof (f_ok c f c' dc fc s st Ec ltac:(lia) Hokc B Fc) as K. unfold yields in K.
    destruct (den_f w (t_mem s) c) as [x|]; cbn [lift res_bind].
    2:{ apply does_trap. destruct l1', l2'; [by destruct Hne2|..]; cbn [code_s]; by apply runs_app_stop. }
    destruct K as (s1 & p & R1 & F1 & Q1 & D1). pose proof (denotes_cell0 _ _ _ _ _ D1) as C1.
    pose proof (frame_mem _ _ _ F1) as M1. rewrite M1 in C1. apply frame_wframe in F1 as W1. clear F1 Q1 D1.
    destruct HF as [->|(n & -> & IHs)]; [done|].
    destruct (branch_runs c' l1' l2' _ s s1 st p _ R1 C1 eq_refl Hne2) as (z & k1 & k2 & Hk & G & _).
    set (b := w_true w (src_cell w (t_mem s) x 0)) in *.
    assert (K : does (exec_list (WX n) (if b then l1 else l2) (t_mem s1)) s1 [] (if decide (z = 0) then k2 else k1)).
    { rewrite Hk. pose proof (wframe_ready _ _ _ W1 Rdy). destruct b; eapply list_does; try done; lia. }
    rewrite M1 in K.
    destruct (exec_list (WX n) (if b then l1 else l2) (t_mem s)) as [[m [vs|]]| | |]; [| | |done|done].
    + destruct K as (s' & R & M & T & Rs). exists s'. split_and!; [|done| |].
      * apply G. by apply runs_if_stop.
      * rewrite T. destruct W1 as (_&_&_&L). by apply L.
      * intros k. rewrite Rs. by destruct W1 as (_&->&_).
    + destruct K as (s' & R & M & W). exists s'. split_and!; [|done|by eapply wframe_trans].
      apply G. eapply runs_if_next; [exact R|]. apply runs_nil.
    + destruct K as (o & R & K). exists o. split; [|done]. apply G. apply runs_if_stop; [done|]. by apply stops_not_next.
  - cbn [build_s] in Hb. destruct (build_f f c) as [[c' dc] fc] eqn:Ec.
    destruct (build_list (build_s f) l) as [l' d1] eqn:E1. injection Hb as <- <-. destruct Hok as (Hokc & Hokl).
    pose proof (HL c l f c' l' dc fc d1 s Ec E1 ltac:(lia) ltac:(lia) Hokc Hokl Rdy) as K.
    change (code_s fs (SLoop c' l')) with [IBlock [ILoop (loop_code c' l')]]. unfold loops in K.
    destruct (WX fuel (SLoop c l) (t_mem s)) as [[m [vs|]]| | |]; [| | |done|done].
    + destruct K as (s' & R & K). exists s'. split; [|done]. by apply runs_block_stop.
    + destruct K as (s' & R & K). exists s'. split; [|done]. eapply runs_block_break; [exact R|]. apply runs_nil.
    + destruct K as (o & R & K). exists o. split; [|done]. apply runs_block_stop; [done|]. by apply stops_not_next.
  - replace (WX fuel (SAssert k e)) with (wexec_simple w sio sbus rsize (SAssert k e)) by (by destruct fuel).
    by eapply assert_ok.
  - replace (WX fuel (SReturn n e)) with (wexec_simple w sio sbus rsize (SReturn n e)) by (by destruct fuel).
    by eapply return_ok.
  - replace (WX fuel (SLog args)) with (wexec_simple w sio sbus rsize (SLog args)) by (by destruct fuel).
    cbn [build_s] in Hb. destruct (build_logs f args) as [args' d1] eqn:El. injection Hb as <- <-. cbn [wexec_simple code_s].
    by eapply logs_ok.
  - replace (WX fuel (SCreate id a)) with (wexec_simple w sio sbus rsize (SCreate id a)) by (by destruct fuel).
    by eapply create_ok.
Qed.

Lemma all_does fuel : (forall i, stmt_does fuel i) /\ loop_does fuel.
Proof.
  induction fuel as [|fuel [IHs IHl]].
  all: match goal with |- _ /\ loop_does ?n => assert (HL : loop_does n) end.
  1,3: intros c l f c' l' dc fc dl s Hc Hl Hdc Hdl Hokc Hokl Rdy; rewrite wexec_loop; unfold provided;
    (destruct (fits_f (t_mem s) c) eqn:Fc; [|done]);
    pose proof (ready_based _ _ Rdy) as B; pose proof (f_ok c f c' dc fc s [] Hc Hdc Hokc B Fc) as K; unfold yields in K;
    (destruct (den_f w (t_mem s) c) as [x|]; cbn [lift res_bind];
     [|exists Trap; split; [|apply stops_trap]; apply runs_loop_stop; [|done]; by apply runs_app_stop]); try done.
  - destruct K as (s1 & p & R1 & F1 & Q1 & D1). pose proof (denotes_cell0 _ _ _ _ _ D1) as C1.
    pose proof (frame_mem _ _ _ F1) as M1. rewrite M1 in C1. apply frame_wframe in F1 as W1. clear F1 Q1 D1.
    destruct (w_true w (src_cell w (t_mem s) x 0)) eqn:Et.
    + assert (G : forall o, runs (concat (code_s fs <$> l') ++ [IBr 0]) (set_stack s1 []) o ->
        runs (loop_code c' l') (set_stack s []) o).
      { intros o Ho. unfold loop_code. eapply runs_app; [exact R1|]. cbn [app]. eapply r_istrue; [exact C1|]. rewrite Et.
        apply r_eqz. cbn [decide]. apply r_brif_no. exact Ho. }
      pose proof (wframe_ready _ _ _ W1 Rdy) as Rdy1.
      pose proof (list_does fuel IHs l f l' dl s1 [] Hl Hdl Hokl Rdy1) as K. rewrite M1 in K.
      destruct (exec_list (WX fuel) l (t_mem s)) as [[m [vs|]]| | |]; cbn [res_bind snd fst]; [| | |done|done].
      * destruct K as (s' & R & M & T & Rs). exists s'. split_and!; [|done| |].
        -- apply runs_loop_stop; [|done]. apply G. by apply runs_app_stop.
        -- rewrite T. destruct W1 as (_&_&_&L). by apply L.
        -- intros k. rewrite Rs. by destruct W1 as (_&->&_).
      * destruct K as (s2 & R & M & W2). subst m. pose proof (wframe_ready _ _ _ W2 Rdy1) as Rdy2.
        pose proof (IHl c l f c' l' dc fc dl s2 Hc Hl Hdc Hdl Hokc Hokl Rdy2) as K.
        pose proof (wframe_trans _ _ _ W1 W2) as W.
        assert (G2 : forall o, runs [ILoop (loop_code c' l')] (set_stack s2 []) o -> runs [ILoop (loop_code c' l')] (set_stack s []) o).
        { intros o Ho. eapply runs_loop_next; [|exact Ho]. apply G. eapply runs_app; [exact R|]. apply r_br. }
        unfold loops in *. destruct (WX fuel (SLoop c l) (t_mem s2)) as [[m [vs|]]| | |]; [| | |done|done].
        -- by eapply does_via.
        -- destruct K as (s3 & R3 & M3 & W3). exists s3. split_and!; [by apply G2|done|by eapply wframe_trans].
        -- by eapply does_via.
      * destruct K as (o & R & So). exists o. split; [|done]. apply runs_loop_stop; [|by apply stops_not_next].
        apply G. apply runs_app_stop; [done|]. destruct So as [->|(?&?&->&_)]; done.
    + exists s1. split_and!; [|done|done]. apply runs_loop_exit. unfold loop_code. eapply runs_app; [exact R1|]. cbn [app].
      eapply r_istrue; [exact C1|]. rewrite Et. apply r_eqz. cbn [decide]. apply r_brif_yes.
  - split; [|done]. apply stmt_case; [done|by left].
  - split; [|done]. apply stmt_case; [done|]. right. exists fuel. done.
Qed.

Lemma ready_kept s s' : ready fs rsize s -> wframe s s' -> ready fs rsize s'.
Proof. intros. by eapply wframe_ready. Qed.

Lemma program_ok fuel l s :
  ok_program rsize l -> ((build l).2 <= depth)%nat -> ready fs rsize s ->
  exec_list (WX fuel) l (t_mem s) <> Fuel ->
  exists K, forall M, (K <= M)%nat -> wagrees fs rsize (exec_list (WX fuel) l (t_mem s)) s (RL M (code fs (build l).1) s).
Proof.
  intros Hok Hd Rdy HF. destruct (build l) as [l' dd] eqn:El. cbn [fst snd] in *.
  pose proof (list_does fuel (proj1 (all_does fuel)) l 0 l' dd s (t_stack s) El Hd Hok Rdy) as K.
  assert (Es : set_stack s (t_stack s) = s) by (by destruct s). unfold does in K. rewrite Es in K.
  change (concat (code_s fs <$> l')) with (code fs l') in K.
  destruct (exec_list (WX fuel) l (t_mem s)) as [[m [vs|]]| | |]; [| | |by exists O|done].
  - destruct K as (s' & [K R] & M & T & Rs). exists K. intros N HN. rewrite R by done. exists s'. split_and!; try done.
    + intros k Hk. rewrite Rs, upds_lookup. rewrite decide_True by lia. replace (k - 0) with k by lia.
      destruct (vs !! Z.to_nat k) eqn:E; [done|]. apply lookup_ge_None in E. lia.
    + intros k Hk. rewrite Rs, upds_lookup. rewrite decide_False by lia. done.
  - destruct K as (s' & [K R] & M & W). exists K. intros N HN. rewrite R by done. exists (set_stack s' (t_stack s)).
    pose proof (wframe_ready _ _ _ W Rdy) as Rdy'. destruct W as (W1&W2&W3&W4). split_and!; try done.
    + intros k. cbn. by rewrite W2.
    + by apply W4.
  - destruct K as (o & [K R] & So). exists K. intros N HN. rewrite R by done. exact So.
Qed.

(** ** More fuel does not change an outcome *)

Lemma rl_mono M : (forall i s, run M i s <> NoFuel -> run (S M) i s = run M i s) ->
  forall l s, RL M l s <> NoFuel -> RL (S M) l s = RL M l s.
Proof.
  intros IH. induction l as [|i l IHl]; intros s Hl; [done|]. cbn [run_list] in *.
  rewrite IH by (intros E; by rewrite E in Hl). destruct (run M i s); try done. by apply IHl.
Qed.
Lemma run_mono M : forall i s, run M i s <> NoFuel -> run (S M) i s = run M i s.
Proof.
  induction M as [|M IH]; intros i s Hr.
  - destruct i; try done. cbn [WasmModel.run] in *. destruct (t_stack s) as [|[] ?]; done.
  - pose proof (rl_mono M IH) as IHl. destruct i as [ | | | | | | | | | | | | | | | | | | | | | | |l1 l2|l|l| | | ]; try done.
    + change (run (S (S M)) (IIf l1 l2) s) with
        (match t_stack s with
         | Int x :: st => leave st (RL (S M) (if decide (x = 0) then l2 else l1) (set_stack s []))
         | _ => Bad end).
      change (run (S M) (IIf l1 l2) s) with
        (match t_stack s with
         | Int x :: st => leave st (RL M (if decide (x = 0) then l2 else l1) (set_stack s []))
         | _ => Bad end) in *.
      destruct (t_stack s) as [|[x|] st]; try done. rewrite IHl; [done|]. intros E. by rewrite E in Hr.
    + change (run (S (S M)) (IBlock l) s) with (leave (t_stack s) (RL (S M) l (set_stack s []))).
      change (run (S M) (IBlock l) s) with (leave (t_stack s) (RL M l (set_stack s []))) in *.
      rewrite IHl; [done|]. intros E. by rewrite E in Hr.
    + change (run (S (S M)) (ILoop l) s) with
        (match RL (S M) l (set_stack s []) with
         | Brk O s' => run (S M) (ILoop l) (set_stack s' (t_stack s)) | o => leave (t_stack s) o end).
      change (run (S M) (ILoop l) s) with
        (match RL M l (set_stack s []) with
         | Brk O s' => run M (ILoop l) (set_stack s' (t_stack s)) | o => leave (t_stack s) o end) in *.
      rewrite IHl by (intros E; by rewrite E in Hr).
      destruct (RL M l (set_stack s [])) as [|[|n] s'| | | |]; try done. by apply IH.
Qed.
Lemma rl_up M N l s : (M <= N)%nat -> RL M l s <> NoFuel -> RL N l s = RL M l s.
Proof.
  induction 1 as [|N HN IH]; intros Hr; [done|]. rewrite <- IH by done. apply rl_mono; [apply run_mono|]. by rewrite IH.
Qed.
Lemma runs_at l s o M : runs l s o -> RL M l s = NoFuel \/ RL M l s = o.
Proof.
  intros [K HK]. destruct (RL M l s) eqn:E; try (by left); right; rewrite <- (HK (K `max` M)%nat) by lia;
    rewrite <- E; symmetry; apply rl_up; try lia; by rewrite E.
Qed.

(** ** Instructions that never end *)

Definition stmt_diverges (fuel : nat) (i : stmt) : Prop := forall M f i' dd s st, (M <= fuel)%nat ->
  build_s f i = (i', dd) -> (dd <= depth)%nat -> ok_s rsize i -> ready fs rsize s ->
  WX fuel i (t_mem s) = Fuel -> RL M (code_s fs i') (set_stack s st) = NoFuel.
Definition loop_diverges (fuel : nat) : Prop := forall M c l f c' l' dc fc dl s, (M <= fuel)%nat ->
  build_f f c = (c', dc, fc) -> build_list (build_s f) l = (l', dl) -> (dc <= depth)%nat -> (dl <= depth)%nat ->
  ok_f c -> oks l -> ready fs rsize s -> WX fuel (SLoop c l) (t_mem s) = Fuel ->
  RL M [ILoop (loop_code c' l')] (set_stack s []) = NoFuel.

Lemma list_diverges fuel : (forall i, stmt_diverges fuel i) -> forall l M f l' dd s st, (M <= fuel)%nat ->
  build_list (build_s f) l = (l', dd) -> (dd <= depth)%nat -> oks l -> ready fs rsize s ->
  exec_list (WX fuel) l (t_mem s) = Fuel -> RL M (concat (code_s fs <$> l')) (set_stack s st) = NoFuel.
Proof.
  intros IH. induction l as [|i l IHl]; intros M f l' dd s st HM Hb Hd Hok Rdy HF; [done|]. cbn [build_list] in Hb.
  destruct (build_s f i) as [i' di] eqn:Ei. destruct (build_list (build_s f) l) as [r' dr] eqn:Er.
  injection Hb as <- <-. destruct Hok as [Hoki Hok]. cbn [fmap list_fmap concat]. rewrite rl_app.
  cbn [exec_list] in HF. fold (exec_list (WX fuel)) in HF.
  pose proof (proj1 (all_does fuel) i f i' di s st Ei ltac:(lia) Hoki Rdy) as K.
  destruct (WX fuel i (t_mem s)) as [[m [vs|]]| | |] eqn:Ex; try done; cbn [res_bind snd fst] in HF.
  - destruct K as (s1 & R & M1 & W). subst m. destruct (runs_at _ _ _ M R) as [->| ->]; [done|].
    eapply IHl; try done; [lia|by eapply wframe_ready].
  - by rewrite (IH i M f i' di s st HM Ei ltac:(lia) Hoki Rdy Ex).
Qed.

Lemma loop_step_diverges fuel : (fuel = O \/ exists n, fuel = S n /\ (forall i, stmt_diverges n i) /\ loop_diverges n) ->
  loop_diverges fuel.
Proof.
  intros HF M c l f c' l' dc fc dl s HM Hc Hl Hdc Hdl Hokc Hokl Rdy HX.
  destruct HF as [->|(n & -> & IHs & IHl)]; [destruct M; [done|lia]|]. destruct M as [|M]; [done|].
  rewrite wexec_loop in HX. unfold provided in HX. destruct (fits_f (t_mem s) c) eqn:Fc; [|done].
  pose proof (ready_based _ _ Rdy) as B. pose proof (f_ok c f c' dc fc s [] Hc Hdc Hokc B Fc) as K. unfold yields in K.
  destruct (den_f w (t_mem s) c) as [x|]; cbn [lift res_bind] in HX; [|done].
  destruct K as (s1 & p & R1 & F1 & Q1 & D1). pose proof (denotes_cell0 _ _ _ _ _ D1) as C1.
  pose proof (frame_mem _ _ _ F1) as M1. rewrite M1 in C1. apply frame_wframe in F1 as W1. clear F1 Q1 D1.
  destruct (w_true w (src_cell w (t_mem s) x 0)) eqn:Et; [|done].
  assert (G : forall N, RL N (loop_code c' l') (set_stack s []) = NoFuel \/
    RL N (loop_code c' l') (set_stack s []) = RL N (concat (code_s fs <$> l') ++ [IBr 0]) (set_stack s1 [])).
  { intros N. unfold loop_code. rewrite rl_app. destruct (runs_at _ _ _ N R1) as [->| ->]; [by left|].
    assert (G : forall o, runs [] (set_stack s1 []) o -> runs [IIsTrue; IEqz; IBrIf 1] (set_stack s1 [p]) o).
    { intros o Ho. eapply r_istrue; [exact C1|]. rewrite Et. apply r_eqz. cbn [decide]. apply r_brif_no. exact Ho. }
    specialize (G _ (runs_nil _)). destruct (runs_at _ _ _ N G) as [E|E].
    - left. by rewrite rl_app, E.
    - right. by rewrite rl_app, E. }
  change (RL (S M) [ILoop (loop_code c' l')] (set_stack s [])) with
    (match (match RL M (loop_code c' l') (set_stack s []) with
            | Brk O s' => run M (ILoop (loop_code c' l')) (set_stack s' []) | o => leave [] o end)
     with Next s' => Next s' | o => o end).
  destruct (G M) as [->| ->]; [done|].
  pose proof (wframe_ready _ _ _ W1 Rdy) as Rdy1. rewrite rl_app.
  pose proof (list_does n (proj1 (all_does n)) l f l' dl s1 [] Hl Hdl Hokl Rdy1) as K. rewrite M1 in K.
  destruct (exec_list (WX n) l (t_mem s)) as [[m [vs|]]| | |] eqn:El; cbn [res_bind snd fst] in HX; try done.
  - destruct K as (s2 & R & M2 & W2). subst m. pose proof (wframe_ready _ _ _ W2 Rdy1) as Rdy2.
    destruct (runs_at _ _ _ M R) as [->| ->]; [done|].
    replace (RL M [IBr 0] (set_stack s2 [])) with (Brk (V:=V) 0 (set_stack s2 [])) by (by destruct M).
    pose proof (IHl M c l f c' l' dc fc dl s2 ltac:(lia) Hc Hl Hdc Hdl Hokc Hokl Rdy2 HX) as E. cbn [run_list] in E.
    change (set_stack (set_stack s2 []) []) with (set_stack s2 []).
    by destruct (run M (ILoop (loop_code c' l')) (set_stack s2 [])).
  - rewrite <- M1 in El. by rewrite (list_diverges n IHs l M f l' dl s1 [] ltac:(lia) Hl Hdl Hokl Rdy1 El).
Qed.

Lemma simple_ends i m : wexec_simple w sio sbus rsize i m = Fuel -> False.
Proof.
  assert (P : forall A b (x : res A), provided b x = Fuel -> x = Fuel) by (by intros A [] x).
  assert (L : forall A B (x : option A) (k : A -> res B), (y <-- lift x; k y) = Fuel -> exists y, k y = Fuel)
    by (intros A B [x|] k H; [by exists x|done]).
  assert (HL : forall args m, logs w sio sbus args m = Fuel -> False).
  { induction args as [|[e|z] r IH]; intros m1 H; cbn [logs] in H; [done| |by eapply IH].
    apply P in H. apply L in H as [y H]. by eapply IH. }
  destruct i; cbn [wexec_simple]; intros H; try done.
  - destruct (decide _); [done|]. apply P in H. apply L in H as [y H]. apply L in H as [z H]. apply P in H. by apply L in H as [? H].
  - apply P in H. apply L in H as [y H]. apply L in H as [z H]. apply L in H as [u H]. by apply L in H as [? H].
  - apply P in H. apply L in H as [y H]. by destruct (w_true _ _).
  - apply P in H. by apply L in H as [y H].
  - destruct (logs w sio sbus args m) eqn:E; try done. by apply HL in E.
  - apply P in H. apply L in H as [y H]. apply P in H. by apply L in H as [? H].
Qed.

Lemma stmt_step_diverges fuel : loop_diverges fuel ->
  (fuel = O \/ exists n, fuel = S n /\ forall i, stmt_diverges n i) -> forall i, stmt_diverges fuel i.
Proof.
  intros HL HF i M f i' dd s st HM Hb Hd Hok Rdy HX. pose proof (ready_based _ _ Rdy) as B.
  destruct i as [d n1 n2 e|fn args d n|c l1 l2|c l|k e|n e|args|id a].
  3:{ cbn [build_s] in Hb. destruct (build_f f c) as [[c' dc] fc] eqn:Ec.
    destruct (build_list (build_s f) l1) as [l1' d1] eqn:E1. destruct (build_list (build_s f) l2) as [l2' d2] eqn:E2.
    injection Hb as <- <-. pose proof (build_list_nil _ _ _ _ E1) as N1. pose proof (build_list_nil _ _ _ _ E2) as N2.
    destruct (decide (l1 = [] /\ l2 = [])) as [[-> ->]|Hne]; [by destruct fuel|].
    assert (Hne' : l1 <> [] \/ l2 <> []) by (destruct l1; [right; intros ->; by apply Hne|by left]).
    assert (Hne2 : l1' <> [] \/ l2' <> []) by (destruct Hne' as [H|H]; [left|right]; tauto).
    rewrite wexec_branch in HX by done. unfold provided in HX. destruct (fits_f (t_mem s) c) eqn:Fc; [|done].
    destruct Hok as (Hokc & Hok1 & Hok2).
    pose proof (f_ok c f c' dc fc s st Ec ltac:(lia) Hokc B Fc) as K. unfold yields in K.
    destruct (den_f w (t_mem s) c) as [x|]; cbn [lift res_bind] in HX; [|done].
    destruct K as (s1 & p & R1 & F1 & Q1 & D1). pose proof (denotes_cell0 _ _ _ _ _ D1) as C1.
    pose proof (frame_mem _ _ _ F1) as M1. rewrite M1 in C1. apply frame_wframe in F1 as W1. clear F1 Q1 D1.
    destruct (branch_runs c' l1' l2' _ s s1 st p _ R1 C1 eq_refl Hne2) as (z & k1 & k2 & Hk & _ & G1 & G2).
    set (b := w_true w (src_cell w (t_mem s) x 0)) in *.
    destruct (runs_at _ _ _ M R1) as [E|E]; [by apply G2|]. eapply G1; [|exact E].
    destruct M as [|M]; [done|]. destruct HF as [->|(n & -> & IHs)]; [lia|].
    change (RL (S M) [IIf k1 k2] (set_stack s1 (Int z :: st))) with
      (match leave st (RL M (if decide (z = 0) then k2 else k1) (set_stack s1 [])) with Next s' => Next s' | o => o end).
    rewrite Hk. pose proof (wframe_ready _ _ _ W1 Rdy). rewrite <- M1 in HX.
    destruct b; erewrite list_diverges; try done; lia. }
  3:{ cbn [build_s] in Hb. destruct (build_f f c) as [[c' dc] fc] eqn:Ec.
    destruct (build_list (build_s f) l) as [l' d1] eqn:E1. injection Hb as <- <-. destruct Hok as (Hokc & Hokl).
    change (code_s fs (SLoop c' l')) with [IBlock [ILoop (loop_code c' l')]].
    destruct M as [|M]; [done|].
    change (RL (S M) [IBlock [ILoop (loop_code c' l')]] (set_stack s st)) with
      (match leave st (RL M [ILoop (loop_code c' l')] (set_stack s [])) with Next s' => Next s' | o => o end).
    rewrite (HL M c l f c' l' dc fc d1 s ltac:(lia) Ec E1 ltac:(lia) ltac:(lia) Hokc Hokl Rdy HX). done. }
  all: match type of HX with wexec _ _ _ _ _ ?i _ = _ =>
    replace (WX fuel i) with (wexec_simple w sio sbus rsize i) in HX by (by destruct fuel) end; by apply simple_ends in HX.
Qed.

Lemma all_diverge fuel : (forall i, stmt_diverges fuel i) /\ loop_diverges fuel.
Proof.
  induction fuel as [|n [IHs IHl]].
  - assert (HL : loop_diverges 0) by (apply loop_step_diverges; by left). split; [|done]. apply stmt_step_diverges; [done|by left].
  - assert (HL : loop_diverges (S n)) by (apply loop_step_diverges; right; by exists n). split; [|done].
    apply stmt_step_diverges; [done|right; by exists n].
Qed.

Lemma program_diverges l s :
  ok_program rsize l -> ((build l).2 <= depth)%nat -> ready fs rsize s ->
  (forall fuel, exec_list (WX fuel) l (t_mem s) = Fuel) -> forall M, RL M (code fs (build l).1) s = NoFuel.
Proof.
  intros Hok Hd Rdy HF M. destruct (build l) as [l' dd] eqn:El. cbn [fst snd] in *.
  assert (Es : set_stack s (t_stack s) = s) by (by destruct s).
  pose proof (list_diverges M (proj1 (all_diverge M)) l M 0 l' dd s (t_stack s) (le_n _) El Hd Hok Rdy (HF M)) as K.
  by rewrite Es in K.
Qed.
End Proofs.

(** ** Agreement of the two meanings *)

Section Both.
Context {V : Type} (w : world V) (sio sbus : Z -> nat -> shape) (sanity rsize : nat).
Hypothesis Hs : (1 <= sanity)%nat.
Local Notation WX := (wexec w sio sbus rsize).
Local Notation EX := (exec w false sanity rsize).
Local Notation ports := (foldr (fun i P => portable i /\ P) True).

(** Unless nothing is claimed. *)
Definition same {A} (x y : res A) : Prop := x = Wild \/ x = y.

Lemma notify_after d n m m' : portable_dest d -> notify w d n m m' = after_store w false sanity d n m m'.
Proof.
  destruct d as [a|a o|cmp l info]; intros H; [done|done|]. cbn [notify after_store]. cbn in H.
  destruct (den_a w m cmp); cbn; [|done]. unfold trigger. by rewrite H.
Qed.
Lemma lift_bind {A B} (x : option A) (k : A -> option B) : lift (x ← x; k x) = (y <-- lift x; lift (k y)).
Proof. by destruct x. Qed.
Lemma same_bind {A B} (x : option A) (k k' : A -> res B) : (forall a, same (k a) (k' a)) -> same (a <-- lift x; k a) (a <-- lift x; k' a).
Proof. intros H. destruct x; cbn; [apply H|by right]. Qed.
Lemma same_provided {A} b (x y : res A) : same x y -> same (provided b x) y.
Proof. intros [->| ->]; destruct b; [by left|by left|by right|by left]. Qed.

Lemma same_simple i m : portable i -> match i with SBranch _ _ _ | SLoop _ _ => False | _ => True end ->
  same (wexec_simple w sio sbus rsize i m) (lift (exec_simple w false sanity rsize i m)).
Proof.
  intros Hp Hi. destruct i as [d n1 n2 e|fn args d n|c l1 l2|c l|k e|n e|args|id a]; try done; cbn [wexec_simple exec_simple].
  - destruct Hp as [Hd Hn]. destruct (decide _) as [E|_]; [lia|]. apply same_provided. rewrite lift_bind. apply same_bind. intros l.
    unfold den_cells. destruct (den_f w m e) as [x|]; cbn [lift res_bind mbind option_bind]; [|by right].
    apply same_provided. right. rewrite (notify_after d) by done.
    by destruct (after_store w false sanity d (n1 `min` n2) m _).
  - apply same_provided. rewrite lift_bind. apply same_bind. intros vss. rewrite lift_bind. apply same_bind. intros l.
    rewrite lift_bind. apply same_bind. intros vs. right. rewrite (notify_after d) by done.
    by destruct (after_store w false sanity d n m _).
  - apply same_provided. rewrite bool_decide_true by done. rewrite orb_true_r. right.
    destruct (den_f w m e); [|done]. cbn. by destruct (w_true _ _).
  - apply same_provided. right. unfold den_cells. by destruct (den_f w m e).
  - destruct args as [|x [|y r]]; [by right| |cbn in Hp; lia]. destruct x as [e|z]; [|by right]. cbn [logs exec_logs].
    unfold provided. destruct (fits_f w sio sbus m e); [|by left]. right. by destruct (den_f w m e).
  - apply same_provided. rewrite lift_bind. apply same_bind. intros x. apply same_provided. right. by destruct (w_create w id x m).
Qed.

Lemma same_list f g l : (forall i, i ∈ l -> portable i -> forall m, same (f i m) (g i m)) -> ports l ->
  forall m, same (exec_list (V:=V) f l m) (exec_list g l m).
Proof.
  induction l as [|i l IH]; intros H Hp m; [by right|]. destruct Hp as [Hi Hp]. cbn [exec_list].
  fold (exec_list f) (exec_list g). destruct (H i ltac:(constructor) Hi m) as [->| ->]; [by left|].
  destruct (g i m) as [[m1 [vs|]]| | |]; cbn [res_bind snd fst]; try (by right).
  apply IH; [|done]. intros j Hj. apply H. by constructor.
Qed.

Lemma same_stmt fuel : forall i, portable i -> forall m, same (WX fuel i m) (EX fuel i m).
Proof.
  induction fuel as [|fuel IH]; intros i Hp m.
  - destruct i as [d n1 n2 e|fn args d n|c l1 l2|c l|k e|n e|args|id a]; try (by apply same_simple).
    + destruct Hp as (Hne & H1 & H2). rewrite wexec_branch by done. cbn [exec]. by apply same_provided; right.
    + rewrite wexec_loop. cbn [exec]. by apply same_provided; right.
  - destruct i as [d n1 n2 e|fn args d n|c l1 l2|c l|k e|n e|args|id a]; try (by apply same_simple).
    + destruct Hp as (Hne & H1 & H2). rewrite wexec_branch by done. cbn [exec]. apply same_provided. apply same_bind. intros v.
      apply same_list; [intros j _; apply IH|]. by destruct (w_true _ _).
    + rewrite wexec_loop. cbn [exec]. apply same_provided. apply same_bind. intros v. destruct (w_true _ _); [|by right].
      destruct (same_list (WX fuel) (EX fuel) l (fun j _ => IH j) Hp m) as [->| ->]; [by left|].
      destruct (exec_list (EX fuel) l m) as [[m1 [vs|]]| | |]; cbn [res_bind snd fst]; try (by right).
      by apply IH.
Qed.
Lemma same_program fuel l m : portable_program l -> same (exec_list (WX fuel) l m) (exec_list (EX fuel) l m).
Proof. intros H. apply same_list; [|done]. intros i _. apply same_stmt. Qed.
End Both.
