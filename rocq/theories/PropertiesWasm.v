(** C62: the WebAssembly code of templates and functions. *)
From stdpp Require Import prelude numbers list.
From Coq Require Import ZArith Lia.
From Verif Require Import DatModel IrModel IrSpec IrProofs WasmModel WasmSpec WasmProofs PropertiesIr.
Local Open Scope Z_scope.

(** [w]: the operations of the field, the tables and what is behind calls; [fs]: bytes of a field
    element; [sio], [sbus]: the optional words of the descriptions in the tables.

    From any state whose registers are set as at the start of a function or template, whatever the
    temporaries, the arguments area and the other registers contain, the code of any program that
    meets [ok_program], with the number of temporaries reserved for it, ends when the instructions
    do and has the same effect.  It never leaves its temporaries nor the entries of the tables, never
    uses the stack of the machine inconsistently and never takes the destination of an operation as
    operand ([Bad] is not an outcome in [wagrees]). *)
Theorem C62_code : forall {V} (w : world V) fs depth sio sbus rsize l fuel (s : wstate V),
  fs <> 0 -> (forall b, w_true w (w_bool w b) = b) -> keeps_base w -> (1 <= rsize)%nat ->
  ok_program rsize l -> ((build l).2 <= depth)%nat -> ready fs rsize s ->
  exec_list (wexec w sio sbus rsize fuel) l (t_mem s) <> Fuel ->
  exists K, forall M, (K <= M)%nat ->
    wagrees fs rsize (exec_list (wexec w sio sbus rsize fuel) l (t_mem s)) s
      (WasmModel.run_list (WasmModel.run w fs depth sio sbus M) (code fs (build l).1) s).
Proof. intros. by apply program_ok. Qed.
Print Assumptions C62_code.

(** When the instructions never end, neither does the code. *)
Theorem C62_divergence : forall {V} (w : world V) fs depth sio sbus rsize l (s : wstate V),
  fs <> 0 -> (forall b, w_true w (w_bool w b) = b) -> keeps_base w -> (1 <= rsize)%nat ->
  ok_program rsize l -> ((build l).2 <= depth)%nat -> ready fs rsize s ->
  (forall fuel, exec_list (wexec w sio sbus rsize fuel) l (t_mem s) = Fuel) ->
  forall M, WasmModel.run_list (WasmModel.run w fs depth sio sbus M) (code fs (build l).1) s = NoFuel.
Proof. intros. by eapply program_diverges. Qed.
Print Assumptions C62_divergence.

(** The outcome of the code does not depend on the bound, once one is enough. *)
Theorem C62_deterministic : forall {V} (w : world V) fs depth sio sbus l (s : wstate V) M N,
  WasmModel.run_list (WasmModel.run w fs depth sio sbus M) l s <> NoFuel -> (M <= N)%nat ->
  WasmModel.run_list (WasmModel.run w fs depth sio sbus N) l s = WasmModel.run_list (WasmModel.run w fs depth sio sbus M) l s.
Proof. intros. by apply rl_up. Qed.
Print Assumptions C62_deterministic.

(** The code of one expression leaves the memory, the destination of the result and the values
    below it on the stack alone, and adds the address of the value to the stack; or it traps when an
    operation of the expression fails. *)
Theorem C62_expression : forall {V} (w : world V) fs depth sio sbus rsize e (s : wstate V),
  fs <> 0 -> (forall b, w_true w (w_bool w b) = b) ->
  ok_f e -> ((build_f 0 e).1.2 <= depth)%nat -> ready fs rsize s -> fits_f w sio sbus (t_mem s) e = true ->
  exists K, forall M, (K <= M)%nat ->
    let y := WasmModel.run_list (WasmModel.run w fs depth sio sbus M) (code_f fs (build_f 0 e).1.1) s in
    match den_f w (t_mem s) e with
    | Some x => exists s' p, y = Next s' /\ t_stack s' = p :: t_stack s /\ t_mem s' = t_mem s /\
                  (forall k, t_result s' k = t_result s k) /\ ready fs rsize s' /\
                  WasmModel.element w fs depth s' p = Some (src_cell w (t_mem s) x 0)
    | None => y = Trap
    end.
Proof.
  intros V w fs depth sio sbus rsize e s Hfs Ht Hok Hd Rdy Hf. destruct (build_f 0 e) as [[e' d] f'] eqn:Eb. cbn [fst snd] in *.
  assert (B : based fs s) by (by eapply ready_based).
  epose proof (f_ok w fs depth sio sbus Hfs Ht e 0 e' d f' s (t_stack s) Eb Hd Hok B Hf) as K. unfold yields in K.
  assert (Es : WasmModel.set_stack s (t_stack s) = s) by (by destruct s). rewrite Es in K.
  destruct (den_f w (t_mem s) e) as [x|]; [|done].
  destruct K as (s1 & p & [K R] & F & Q & D). exists K. intros M HM. cbn zeta. rewrite R by done.
  exists (WasmModel.set_stack s1 (p :: t_stack s)), p.
  assert (W : wframe s s1) by (by eapply frame_wframe). assert (R1 : ready fs rsize s1) by (by eapply wframe_ready).
  assert (M1 : t_mem s1 = t_mem s) by (by eapply frame_mem).
  assert (C : WasmModel.element w fs depth s1 p = Some (src_cell w (t_mem s1) x 0)) by (by eapply denotes_cell0). rewrite M1 in C.
  split_and!; try done. intros k. cbn. by destruct W as (_&->&_).
Qed.
Print Assumptions C62_expression.

(** The address of a destination. *)
Theorem C62_destination : forall {V} (w : world V) fs depth sio sbus rsize d (s : wstate V),
  fs <> 0 -> (forall b, w_true w (w_bool w b) = b) ->
  ok_dest d -> ((build_dest 0 d).2 <= depth)%nat -> ready fs rsize s -> fits_dest w sio sbus (t_mem s) d = true ->
  exists K, forall M, (K <= M)%nat ->
    let y := WasmModel.run_list (WasmModel.run w fs depth sio sbus M) (code_dest fs (build_dest 0 d).1) s in
    match den_dest w (t_mem s) d with
    | Some l => exists s', y = Next s' /\ t_mem s' = t_mem s /\ ready fs rsize s' /\
                  t_stack s' = (match l with LVar z => Ptr RVars (z * fs) | LSig z => Ptr RSigs (z * fs) end) :: t_stack s
    | None => y = Trap
    end.
Proof.
  intros V w fs depth sio sbus rsize d s Hfs Ht Hok Hd Rdy Hf. destruct (build_dest 0 d) as [d' dd] eqn:Eb. cbn [fst snd] in *.
  assert (B : based fs s) by (by eapply ready_based).
  epose proof (dest_ok w fs depth sio sbus Hfs Ht d 0 d' dd s (t_stack s) Eb Hd Hok B Hf) as K.
  assert (Es : WasmModel.set_stack s (t_stack s) = s) by (by destruct s). rewrite Es in K.
  destruct (den_dest w (t_mem s) d) as [l|]; [|done].
  destruct K as (s1 & [K R] & M1 & _ & W & _). exists K. intros M HM. cbn zeta. rewrite R by done.
  assert (R1 : ready fs rsize s1) by (by eapply wframe_ready).
  by exists (WasmModel.set_stack s1 (mptr fs l :: t_stack s)).
Qed.
Print Assumptions C62_destination.

(** Where the C++ code goes on, returns or stops, so does the WebAssembly code, with the same memory
    and values (for the instructions of [portable_program], which both generators translate the same
    way). *)
Theorem C62_same_as_cpp : forall {V} (w : world V) fs depth sio sbus sanity rsize l fuel (s : wstate V) (sc : cstate V),
  fs <> 0 -> (forall b, w_true w (w_bool w b) = b) -> keeps_base w -> (1 <= rsize)%nat -> (1 <= sanity)%nat ->
  ok_program rsize l -> wf_program w false l -> portable_program l ->
  ((build l).2 <= depth)%nat -> ready fs rsize s -> s_mem sc = t_mem s ->
  let cpp := IrModel.run_list (IrModel.run w (build l).2 sanity rsize fuel) (gen false sanity (build l).1) sc in
  cpp <> Fuel -> exec_list (wexec w sio sbus rsize fuel) l (t_mem s) <> Wild ->
  exists K, forall M, (K <= M)%nat ->
    wagrees fs rsize (outcome cpp) s
      (WasmModel.run_list (WasmModel.run w fs depth sio sbus M) (code fs (build l).1) s).
Proof.
  intros V w fs depth sio sbus sanity rsize l fuel s sc Hfs Ht Hk Hr Hs Hok Hwf Hp Hd Rdy Em cpp HF HW.
  pose proof (C40_code w false sanity rsize l fuel sc Ht Hr Hwf) as A. fold cpp in A. rewrite Em in A.
  destruct (same_program w sio sbus sanity rsize Hs fuel l (t_mem s) Hp) as [E|E]; [done|]. rewrite <- E in A.
  assert (EO : outcome cpp = exec_list (wexec w sio sbus rsize fuel) l (t_mem s)).
  { destruct (exec_list (wexec w sio sbus rsize fuel) l (t_mem s)) as [[m r]| | |]; cbn [agrees] in A; try done.
    - destruct A as (s' & -> & <-). done.
    - by rewrite A. }
  rewrite EO. apply C62_code; try done. intros EF. rewrite EF in A. by cbn in A.
Qed.
Print Assumptions C62_same_as_cpp.

(** A program with a loop, an input of a subcomponent that makes it run, a call, an access through the
    tables and a return (from C40), and one more statement before the return:
    [v[5] = c[2].out[v0 + v1][v2].field]. *)
Definition wsize : Z := 40.
Definition start (m : mem Z) : wstate Z :=
  WState m (fun _ => 77) (fun _ => 88) (fun _ => 99)
    (fun l => match l with
              | LLvar => Ptr RVars 0 | LSignals => Ptr RSigs (m_base m * wsize) | LExpaux => Ptr RAux 0
              | LOffset => Ptr ROwn 0 | LResult => Ptr RResult 0 | LSize => Int 2 | LStack => Int 640 | _ => Int 5
              end) (Ptr RArgs 0) [].
Definition both (t : Z) (c : nat) : shape := Shape true true.
Definition wprog : list stmt :=
  take 2 prog ++ [SStore (DVar (AValue 5)) 1 1 mapped_load; SCall 0 [(vload 1, 2%nat)] (DVar (AValue 7)) 1; SReturn 2 (vload 6)].
Definition wrun (l : list stmt) (fuel : nat) (w : world Z) (s : wstate Z) : out Z :=
  WasmModel.run_list (WasmModel.run w wsize (build l).2 both both fuel) (code wsize (build l).1) s.
Example C62_ex_conditions :
  ok_program 2 wprog /\ wf_program (zworld 1 [5]) false wprog /\ portable_program wprog /\ keeps_base (zworld 1 [5]) /\
  ready wsize 2 (start zmem) /\ (forall b, w_true (zworld 1 [5]) (w_bool (zworld 1 [5]) b) = b) /\
  match exec_list (wexec (zworld 1 [5]) both both 2 20) wprog zmem with Ok (m, Some vs) => vs = [7; 10] | _ => False end.
Proof.
  split; [cbn; unfold size_ok; cbn; split_and!; try done; try lia; repeat constructor; cbn; lia|].
  split; [cbn; unfold size_ok, indexes_ok; cbn; split_and!; try done; try lia; repeat constructor; cbn; lia|].
  split; [cbn; split_and!; try done; lia|].
  split; [split; [by intros c m m' [= <-]|by intros id c m m' [= <-]]|].
  split; [done|]. split; [by intros []|]. vm_compute. done.
Qed.
(** The code runs, and gives the values of the C++ code. *)
Example C62_ex :
  match wrun wprog 20 (zworld 1 [5]) (start zmem) with
  | Ret (Int 0) s => (m_vars (t_mem s) <$> [0; 1; 2; 3; 5; 7]) = [4; 3; 7; 9; m_sigs zmem (4000 + 10 + (7 * 5 + 7) + 1); 10] /\
      (t_result s <$> [-1; 0; 1; 2]) = [99; 7; 10; 99] /\ t_top s = Int 640
  | _ => False
  end /\
  match IrModel.run_list (IrModel.run (zworld 1 [5]) (build wprog).2 1 2 20) (gen false 1 (build wprog).1) (zstate zmem) with
  | Ok (s, Some vs) => vs = [7; 10] /\ (m_vars (s_mem s) <$> [0; 1; 2; 3; 5; 7]) = [4; 3; 7; 9; 405300; 10]
  | _ => False
  end.
Proof. vm_compute. split_and!; done. Qed.
(** A slice of an array of three dimensions, which the C++ code misses ([C55_slices_refuted]). *)
Example C62_ex_slice :
  let e := FLoadSub (AValue 0) (Mapped 0 (XIdx (ACons (AValue 1) (ACons (AValue 1) ANil)) 3 XNil)) in
  ok_f e /\ fits_f (zworld 1 [2; 3]) both both zmem e = true /\
  match WasmModel.run_list (WasmModel.run (zworld 1 [2; 3]) wsize 0 both both 0) (code_f wsize e) (start zmem) with
  | Next s => t_stack s = [Ptr RSigs ((1000 + 10 + 9) * wsize)]
  | _ => False
  end.
Proof. split_and!; [cbn; split_and!; try done; lia|reflexivity|vm_compute; done]. Qed.
(** A loop that does not end. *)
Example C62_ex_divergence : let l := [SLoop (FValue 0 1) [SStore (DVar (AValue 0)) 1 1 (vload 1)]] in
  ok_program 1 l /\ forall fuel, exec_list (wexec (zworld 1 []) both both 1 fuel) l (t_mem (start zmem)) = Fuel.
Proof.
  split; [cbn; split_and!; try done; lia|]. intros fuel. cbn [exec_list].
  assert (H : forall m, wexec (zworld 1 []) both both 1 fuel (SLoop (FValue 0 1) [SStore (DVar (AValue 0)) 1 1 (vload 1)]) m = Fuel).
  { induction fuel as [|fuel IH]; intros m; [done|]. rewrite wexec_loop.
    replace (exec_list (wexec (zworld 1 []) both both 1 fuel) [SStore (DVar (AValue 0)) 1 1 (vload 1)] m)
      with (Ok (write m (LVar 0) [m_vars m 1], None (A:=list Z))) by (by destruct fuel).
    cbn. apply IH. }
  by rewrite H.
Qed.

(** *** Without the conditions *)

(** An index that is itself read through the tables by indexes: [x <-- c[i].out[c[i].pos[0][0]][1]],
    where [pos] is [_ x 2] and [out] is [_ x 3].  The code keeps the address of the description of the
    signal in one local, which the load of the index overwrites: the row length 2 of [pos] is used for
    [out]. Everything else is as the conditions ask. *)
Definition nested_world : world Z :=
  World (fun _ x => Some (- x)) (fun _ x y => Some (x + y)) Z.eqb (fun b : bool => if b then 1 else 0) (fun x => negb (Z.eqb x 0))
        Some Z.of_nat (fun _ code => if decide (code = 0)%nat then IOField 1 [3] 1 0 else IOField 7 [2] 1 0) (fun _ _ => IOField 0 [] 1 0)
        (fun _ args n => Some (replicate n 0)) (fun _ m => Some m) (fun _ _ m => Some m).
(** Signals of subcomponent 0 from 1000 on: out = 10 11 12 20 21 22, pos = 1 0. *)
Definition nested_mem : mem Z :=
  Mem (fun _ => 0) (fun z => default 0 ([0; 10; 11; 12; 20; 21; 22; 1; 0] !! Z.to_nat (z - 1000))) 0 (fun _ => 1000) (fun _ => 0)
      (fun _ => 1) [] [].
Definition nested_load : fexpr :=
  FLoadSub (AValue 0) (Mapped 0 (XIdx (ACons (AToAddr (FLoadSub (AValue 0) (Mapped 1 (XIdx (ACons (AValue 0) (ACons (AValue 0) ANil)) 2 XNil))))
                                        (ACons (AValue 1) ANil)) 2 XNil)).
Definition arrays (t : Z) (c : nat) : shape := Shape true false.
Theorem C62_nested_indexes_refuted :
  exists (w : world Z) sio sbus l (s : wstate Z) m s',
    (forall b, w_true w (w_bool w b) = b) /\ keeps_base w /\ ready wsize 2 s /\
    exec_list (wexec w sio sbus 2 0) l (t_mem s) = Ok (m, None) /\
    WasmModel.run_list (WasmModel.run w wsize (build l).2 sio sbus 0) (code wsize (build l).1) s = Next s' /\
    m_vars m 0 = 21 /\ m_vars (t_mem s') 0 = 20.
Proof.
  exists nested_world, arrays, arrays, [SStore (DVar (AValue 0)) 1 1 nested_load], (start nested_mem). eexists _, _.
  split; [by intros []|]. split; [split; [by intros c m m' [= <-]|by intros id c m m' [= <-]]|]. split; [done|].
  split; [vm_compute; reflexivity|]. split; [vm_compute; reflexivity|]. vm_compute. done.
Qed.
Print Assumptions C62_nested_indexes_refuted.

(** A function that returns an array shorter than the destination ([var a[3] = f();] where [f] returns
    two elements, which the compiler accepts with a warning): the code copies as many elements as the
    destination has.  The C++ code copies two. *)
Theorem C62_short_results_refuted :
  exists (w : world Z) l (s : wstate Z) sc s' vs,
    (forall b, w_true w (w_bool w b) = b) /\ keeps_base w /\ ready wsize 3 s /\
    exec_list (wexec w both both 3 0) l (t_mem s) = Ok (t_mem s, Some vs) /\
    WasmModel.run_list (WasmModel.run w wsize (build l).2 both both 9) (code wsize (build l).1) s = Ret (Int 0) s' /\
    IrModel.run_list (IrModel.run w (build l).2 1 3 9) (gen false 1 (build l).1) (zstate (t_mem s)) = Ok (sc, Some vs) /\
    vs = [1; 2] /\ (t_result s <$> [0; 1; 2]) = [99; 99; 99] /\ (t_result s' <$> [0; 1; 2]) = [1; 2; 3].
Proof.
  exists (zworld 1 []), [SReturn 2 (vload 0)],
    (WasmModel.set_loc (start zmem) LSize (Int 3)). eexists _, _, _.
  split; [by intros []|]. split; [split; [by intros c m m' [= <-]|by intros id c m m' [= <-]]|]. split; [done|].
  split; [reflexivity|]. split; [vm_compute; reflexivity|]. split; [vm_compute; reflexivity|]. vm_compute. done.
Qed.
Print Assumptions C62_short_results_refuted.

(** An argument of size 0 ([var a[0]; x = f(a);]): its address stays on the stack of the machine. In
    the branch of an [if] the block is then left with a value too many, which WebAssembly forbids. *)
Theorem C62_empty_arguments_refuted :
  exists (w : world Z) l (s : wstate Z) m s',
    (forall b, w_true w (w_bool w b) = b) /\ keeps_base w /\ ready wsize 2 s /\
    exec_list (wexec w both both 2 0) l (t_mem s) = Ok (m, None) /\
    WasmModel.run_list (WasmModel.run w wsize (build l).2 both both 9) (code wsize (build l).1) s = Next s' /\
    t_stack s = [] /\ t_stack s' = [Ptr RArgs 0] /\
    is_Some (match exec_list (wexec w both both 2 1) [SBranch (FValue 0 1) l []] (t_mem s) with Ok x => Some x | _ => None end) /\
    WasmModel.run_list (WasmModel.run w wsize (build l).2 both both 9) (code wsize (build [SBranch (FValue 0 1) l []]).1) s = Bad.
Proof.
  exists (zworld 1 []), [SCall 0 [(vload 0, 0%nat)] (DVar (AValue 0)) 1], (start zmem). eexists _, _.
  split; [by intros []|]. split; [split; [by intros c m m' [= <-]|by intros id c m m' [= <-]]|]. split; [done|].
  split; [reflexivity|]. split; [vm_compute; reflexivity|]. split; [done|]. split; [done|]. split; [by eexists|]. vm_compute. done.
Qed.
Print Assumptions C62_empty_arguments_refuted.
