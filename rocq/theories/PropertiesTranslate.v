(** C66: the translation of the code of templates and functions to instructions. *)
From stdpp Require Import prelude gmap numbers list strings.
From Verif Require Import DatModel IrModel IrSpec TranslateModel TranslateSpec TranslateCodeProofs.
From Verif Require SugarModel SugarSpec IrProofs.
Import SugarModel (name, User, Auto, Ret, iop, Add, Pow, OtherOp, expr, Num, Var, Call, Pre, Inf, Switch, Arr, Uni,
  access, Idx, Fld, Decl, Assign, Equal, If, While, Block, Init, Return, Log, Assert).
Import SugarSpec (val, Leaf, Node, Rec, has_shape, zeros, select, eval, path, look, condition, sequence, event, key,
  At, Field, den1, den2, call, Next, Returned, OutOfFuel).
Local Open Scope nat_scope.

(** The code of a template (signals [ws], constant parameters [cs]) or function (parameters [ps]), without components
    and buses.  [b]: the values of signals and parameters at the start, the same in memory; constant parameters need
    not be in memory.  The instructions end as the run of the body does, at any number of iterations [n]. *)
Theorem C66_translation : forall W w sigs outs fid table stable parallel sanity rsize ws cs ps body cs0 ss0 code nsig st b m n,
  linked W w fid table ->
  translate_code sigs outs fid ws cs ps body cs0 ss0 = Some (code, nsig, st) ->
  consts st `prefix_of` table -> strings st `prefix_of` stable ->
  NoDup (ws.*1 ++ cs.*1.*1 ++ ps.*1) ->
  Forall (fun x => sigs x = true) ws.*1 -> Forall (fun x => sigs x = false) (cs.*1.*1 ++ ps.*1) ->
  bodies_ok body = true -> is_decl body = false ->
  dom b = list_to_set (ws.*1 ++ cs.*1.*1 ++ ps.*1) ->
  stored m (fun a => LSig (m_base m + a)) 0 ws b -> given cs b -> stored m LVar (total cs.*1.*2) ps b ->
  safe W sigs (w_toint w) n body [b] ->
  run_agrees outs W w parallel sanity rsize code m ws (vmax st) nsig stable (SugarSpec.exec W n body [b]).
Proof. intros. by eapply translate_code_sim. Qed.
Print Assumptions C66_translation.

(** With the folding of addresses (C39) and the C++ code (C40): from the body to the generated code. *)
Theorem C66_cpp_code : forall W w sigs outs fid table stable parallel sanity rsize ws cs ps body cs0 ss0 code nsig st b (s : cstate Z) n code',
  linked W w fid table ->
  translate_code sigs outs fid ws cs ps body cs0 ss0 = Some (code, nsig, st) ->
  consts st `prefix_of` table -> strings st `prefix_of` stable ->
  NoDup (ws.*1 ++ cs.*1.*1 ++ ps.*1) ->
  Forall (fun x => sigs x = true) ws.*1 -> Forall (fun x => sigs x = false) (cs.*1.*1 ++ ps.*1) ->
  bodies_ok body = true -> is_decl body = false ->
  dom b = list_to_set (ws.*1 ++ cs.*1.*1 ++ ps.*1) ->
  stored (s_mem s) (fun a => LSig (m_base (s_mem s) + a)) 0 ws b -> given cs b -> stored (s_mem s) LVar (total cs.*1.*2) ps b ->
  safe W sigs (w_toint w) n body [b] ->
  (1 <= rsize)%nat -> wf_program w parallel code -> mapM reduce_s code = Some code' ->
  match SugarSpec.exec W n body [b] with
  | SugarSpec.Ok (σ, evs, r) =>
    r <> OutOfFuel ->
    exists fuel s' b' t,
      run_list (run w (build code').2 sanity rsize fuel) (gen parallel sanity (build code').1) s =
        Ok (s', match r with Returned v => Some (take rsize (contents v)) | _ => None end) /\
      σ = [b'] /\ stored (s_mem s') (fun a => LSig (m_base (s_mem s) + a)) 0 ws b' /\
      shown stable evs t /\ m_log (s_mem s') = m_log (s_mem s) ++ t /\
      exists l, m_set (s_mem s') = m_set (s_mem s) ++ l /\ (forall z, z ∈ l -> parallel = true /\ output_cell outs 0 ws z) /\
        (parallel = true -> forall z, output_cell outs 0 ws z -> m_sigs (s_mem s') (m_base (s_mem s) + z)%Z <> m_sigs (s_mem s) (m_base (s_mem s) + z)%Z -> z ∈ l)
  | SugarSpec.Fail =>
    1 <= sanity -> exists fuel, run_list (run w (build code').2 sanity rsize fuel) (gen parallel sanity (build code').1) s = Abort
  | SugarSpec.Ill => True
  end.
Proof.
  intros W w sigs outs fid table stable parallel sanity rsize ws cs ps body cs0 ss0 code nsig st b s n code' HL H Hp Hps Hnd Hws Hcp Hbo Hde Hdom Hsw Hg Hsp Hsafe Hr Hwf Hred.
  pose proof (translate_code_sim W w sigs outs fid table stable parallel sanity rsize ws cs ps body cs0 ss0 code nsig st b (s_mem s) n
    HL H Hp Hps Hnd Hws Hcp Hbo Hde Hdom Hsw Hg Hsp Hsafe) as Hrun.
  assert (forall fuel, agrees (exec_list (exec w parallel sanity rsize fuel) code (s_mem s))
    (run_list (run w (build code').2 sanity rsize fuel) (gen parallel sanity (build code').1) s)) as Hag.
  { intros fuel. rewrite <- (IrProofs.reduce_exec_list _ _ _ _ _ _ _ _ Hred). apply IrProofs.program_ok; try done; [apply (l_bool _ _ _ _ HL)|].
    by eapply IrProofs.reduce_list_wf. }
  unfold run_agrees in Hrun. destruct (SugarSpec.exec W n body [b]) as [[[σ evs] r]| |]; [| |done].
  - intros Hr'. destruct (Hrun Hr') as (m' & F & HF & (b' & Hb & Hst) & (t & Ht & Hlog) & Hset & _). specialize (Hag F). rewrite (HF F) in Hag by done.
    destruct Hag as (s' & Hs' & <-). exists F, s', b', t. done.
  - intros Hsan. destruct (Hrun Hsan) as [F HF]. exists F. specialize (Hag F). by rewrite (HF F) in Hag by done.
Qed.
Print Assumptions C66_cpp_code.

(** ** A concrete case: the field of BN254 *)
Definition prime : Z := 21888242871839275222246405745257275088548364400416034343698204186575808495617.
Definition field2 (o : iop) (a b : Z) : option Z :=
  match o with
  | Add => Some ((a + b) mod prime)%Z
  | OtherOp "*" => Some ((a * b) mod prime)%Z
  | OtherOp "-" => Some ((a - b) mod prime)%Z
  | OtherOp "<" => Some (if (a <? b)%Z then 1 else 0)%Z
  | OtherOp "==" => Some (if bool_decide (a = b) then 1 else 0)%Z
  | _ => None
  end.
(** [pair(a)] returns [[a, a + 1]]; [fr.toInt] stops for a number that is not a 32-bit integer *)
Definition field : SugarSpec.world := SugarSpec.World (fun o a => if decide (o = "-") then Some ((- a) mod prime)%Z else None) field2
  (fun f vs => if decide (f = "pair") then match concat (contents <$> vs) with [a] => Some (Node [Leaf a; Leaf ((a + 1) mod prime)%Z]) | _ => None end else None).
Definition number_of (f : string) : nat := if decide (f = "pair") then 0 else 1.
Definition fr_toint (a : Z) : option Z := if decide (a < 2 ^ 31)%Z then Some a else if decide (prime - 2 ^ 31 <= a)%Z then Some (a - prime)%Z else None.
Definition machine (table : list Z) : world Z := World
  (fun k a => o ← (list_find (fun x => x.2 = k) prefix_table); den1 field o.2.1 a)
  (fun k a b => o ← (list_find (fun x => x.2 = k) infix_table); field2 o.2.1 a b)
  (fun a b => bool_decide (a = b)) (fun b : bool => if b then 1 else 0)%Z (fun a => bool_decide (a <> 0)%Z) fr_toint
  (fun k => default 0%Z (table !! k)) (fun _ _ => IOField 0 [] 0 0) (fun _ _ => IOField 0 [] 0 0)
  (fun f args n => if decide (f = 0) then match args with [a] => Some (take n [a; ((a + 1) mod prime)%Z]) | _ => None end else None)
  (fun _ m => Some m) (fun _ _ m => Some m).
Lemma field_linked table : linked field (machine table) number_of table.
Proof.
  split; cbn -[prime]; try done.
  - intros o k a b H. unfold infix_table in H.
    repeat (apply elem_of_cons in H as [[= -> ->]|H]; [done|]). by apply elem_of_nil in H.
  - intros o k a H. unfold prefix_table in H. repeat (apply elem_of_cons in H as [[= -> ->]|H]; [done|]). by apply elem_of_nil in H.
  - intros o a b [-> | ->]; cbn -[prime]; eauto.
  - by intros [].
  - intros k z ->. done.
  - intros f vs n. unfold number_of. destruct (decide (f = "pair")) as [->|Hf]; cbn -[prime].
    + destruct (concat (contents <$> vs)) as [|x [|y l]]; cbn -[prime]; done.
    + done.
Qed.
Definition v (x : string) : expr := Var [] (User x) [].
Definition at_ (x : string) (i : expr) : expr := Var [] (User x) [Idx i].
Definition set (x : string) (e : expr) : SugarModel.stmt := Assign (User x) [] "=" e.
Definition names (l : list string) : name -> bool := fun x => bool_decide (x ∈ User <$> l).
(** memory of a component: signals from address 100 on; variables with any contents *)
Definition start (sg : list Z) : mem Z := Mem (fun z => 1000 + z)%Z (fun z => default 0%Z (sg !! Z.to_nat (z - 100))) 100 (fun _ => 0%Z) (fun _ => 0%Z) (fun _ => 0%Z) [] [].

(** [template T(n) { signal output out; signal input in[2]; var s = 1; var i = 0; while (i < n) { var t = in[i]; s = s * t; i = i + 1; }
     var a[2] = pair(s); log("a", a[1]); out <-- a[0] + a[1]; }] with [n = 2] *)
Definition sample : SugarModel.stmt := Block [
  Decl (User "s") []; set "s" (Num 1); Decl (User "i") []; set "i" (Num 0);
  While (Inf (OtherOp "<") (v "i") (v "n")) (Block [
    Decl (User "t") []; set "t" (at_ "in" (v "i"));
    set "s" (Inf (OtherOp "*") (v "s") (v "t"));
    set "i" (Inf Add (v "i") (Num 1))]);
  Decl (User "a") [2]; Assign (User "a") [] "=" (Call [2] "pair" [v "s"]);
  Log [inl "a"; inr (at_ "a" (Num 1))];
  set "out" (Inf Add (at_ "a" (Num 0)) (at_ "a" (Num 1)))].
Definition sample_signals : list (name * list nat) := [(User "out", []); (User "in", [2])].
Definition sample_parameters : list (name * list nat * list Z) := [(User "n", [], [2%Z])].
Definition sample_start : gmap name val := {[User "out" := Leaf 0; User "in" := Node [Leaf 3; Leaf 5]; User "n" := Leaf 2]}%Z.
Definition translate (ws : list string) (sg : list (name * list nat)) cs body := translate_code (names ws) (names ["out"]) number_of sg cs [] body [] [].
Definition sample_code := translate ["out"; "in"] sample_signals sample_parameters sample.
Definition sample_table : list Z := match sample_code with Some (_, _, st) => consts st | None => [] end.
Definition sample_strings : list string := match sample_code with Some (_, _, st) => strings st | None => [] end.

(** equality of outcomes is decided by computation *)
Definition list_dec {A} (f : forall a b : A, Decision (a = b)) : forall l l' : list A, Decision (l = l').
Proof. fix go 1. intros [|a l] [|b l']; [by left|by right|by right|]. destruct (f a b) as [->|]; [|right; congruence]. destruct (go l l') as [->|]; [by left|right; congruence]. Defined.
Global Instance val_dec : EqDecision val.
Proof.
  unfold EqDecision. fix go 1. intros [z|l|l] [y|k|k]; try (by right).
  - destruct (decide (z = y)) as [->|]; [by left|right; congruence].
  - destruct (list_dec go l k) as [->|]; [by left|right; congruence].
  - assert (forall a b : string * val, Decision (a = b)) as f.
    { intros [a u] [b t]. destruct (decide (a = b)) as [->|]; [|right; congruence]. destruct (go u t) as [->|]; [by left|right; congruence]. }
    destruct (list_dec f l k) as [->|]; [by left|right; congruence].
Defined.
Global Instance control_dec : EqDecision SugarSpec.control. Proof. solve_decision. Defined.
Global Instance R_dec {A} `{EqDecision A} : EqDecision (SugarSpec.R A). Proof. solve_decision. Defined.
Ltac known H := vm_compute in H; first [discriminate H | injection H; clear H; intros; subst].
Ltac safely :=
  lazymatch goal with
  | |- True => exact I
  | |- _ /\ _ => split
  | |- safe _ _ _ _ _ _ => cbn [safe]
  | |- fits _ _ _ _ => cbn [fits]
  | |- fits_accesses _ _ _ _ => cbn [fits_accesses]
  | |- names _ _ = _ => vm_compute; reflexivity
  | |- index_ok _ _ _ _ => let z := fresh in let H := fresh in intros z H; known H; vm_compute; reflexivity
  | |- in_range _ _ _ _ => let p := fresh in let u := fresh in let H1 := fresh in let H2 := fresh in intros p u H1 H2; known H1; known H2; vm_compute; discriminate
  | |- Forall _ [] => constructor
  | |- Forall _ (_ :: _) => constructor
  | |- sequence _ _ _ = sequence _ _ _ => apply (bool_decide_unpack _); vm_compute; exact I
  | |- rows_match _ _ => first [exists []; left; vm_compute; split; reflexivity | exists [2]; left; vm_compute; split; reflexivity]
  | |- forall (b : _) (σ' : _) (u : _), _ = b :: σ' -> array _ u -> _ =>
    let b := fresh "b" in let σ := fresh "σ" in let u := fresh "u" in let H1 := fresh in let H2 := fresh in
    intros b σ u H1 H2; injection H1; clear H1; intros; subst;
    first [apply TranslateProofs.array_leaf in H2 as [? ->]
          | apply TranslateProofs.array_node in H2 as ([|? [|? [|? ?]]] & -> & ? & H2); try done;
            apply Forall_cons in H2 as [? H2]; apply Forall_cons in H2 as [? H2];
            repeat match goal with H : array [] _ |- _ => apply TranslateProofs.array_leaf in H as [? ->] end]
  | |- forall (σ' : _) (t : _), SugarSpec.exec _ _ _ _ = _ -> True => intros; exact I
  | |- forall z, condition _ _ _ = _ -> z <> 0%Z -> _ => let z := fresh "z" in let H := fresh in let H' := fresh in intros z H H'; known H; try (exfalso; apply H'; reflexivity)
  | |- forall z, condition _ _ _ = _ -> _ => let z := fresh "z" in let H := fresh in intros z H; known H; cbn
  | |- forall v p old slot, _ => let H1 := fresh in let H2 := fresh in let H3 := fresh in let H4 := fresh in
      intros ?v ?p ?old ?slot H1 H2 H3 H4; known H1; known H2; known H3; known H4
  | |- forall v, eval _ _ _ _ = _ -> _ => let H := fresh in intros ?v H; known H; eexists; reflexivity
  end.
Ltac goes s t := let σ' := fresh "σ" in let t' := fresh "t" in let H := fresh in let E := fresh in intros σ' t' H;
  match type of H with ?x = _ => assert (x = SugarSpec.Ok (s, t, Next)) as E by (apply (bool_decide_unpack _); vm_compute; exact I) end;
  rewrite E in H; clear E; injection H; clear H; intros; subst.
Lemma sample_safe : safe field (names ["out"; "in"]) fr_toint 5 sample [sample_start].
Proof.
  set (A := fun i s : Z => <[User "i" := Leaf i]> (<[User "s" := Leaf s]> ∅) : gmap name val).
  set (T := fun t i s : Z => [<[User "t" := Leaf t]> ∅; A i s; sample_start]).
  unfold sample, PropertiesTranslate.set, v, at_. repeat safely.
  goes [<[User "s" := Leaf 1]> (∅ : gmap name val); sample_start] (@nil event). repeat safely.
  goes [A 0 1; sample_start]%Z (@nil event). repeat safely.
  { goes (T 3 0 1)%Z (@nil event). repeat safely. goes (T 3 0 3)%Z (@nil event). repeat safely. }
  { goes [A 1 3; sample_start]%Z (@nil event). repeat safely.
    { goes (T 5 1 3)%Z (@nil event). repeat safely. goes (T 5 1 15)%Z (@nil event). repeat safely. }
    goes [A 2 15; sample_start]%Z (@nil event). repeat safely. }
  goes [A 2 15; sample_start]%Z (@nil event). repeat safely.
  goes [<[User "a" := Node [Leaf 15; Leaf 16]]> (A 2 15); sample_start]%Z (@nil event). repeat safely.
  goes [<[User "a" := Node [Leaf 15; Leaf 16]]> (A 2 15); sample_start]%Z [[@inl string val "a"; inr (Leaf 16)]]. repeat safely.
Qed.
Definition sample_memory : mem Z := start [0; 3; 5]%Z.
Definition sample_instructions : list stmt := match sample_code with Some (l, _, _) => l | None => [] end.
(** The hypotheses hold for the sample; so its instructions, also for a parallel template, leave 31 in [out], print [a 16] and mark [out] as set. *)
Example C66_ex_hypotheses :
  NoDup (sample_signals.*1 ++ sample_parameters.*1.*1 ++ []) /\ bodies_ok sample = true /\ is_decl sample = false /\
  dom sample_start = list_to_set (sample_signals.*1 ++ sample_parameters.*1.*1 ++ []) /\
  stored sample_memory (fun a => LSig (m_base sample_memory + a)) 0 sample_signals sample_start /\ given sample_parameters sample_start.
Proof.
  split; [apply (bool_decide_unpack _); vm_compute; exact I|]. split; [done|]. split; [done|].
  split; [apply (bool_decide_unpack _); vm_compute; exact I|]. split.
  - split; [|split; [|done]].
    + exists (Leaf 0). split; [done|]. split; [done|]. intros [|k] z Hk; [by injection Hk as <-|done].
    + exists (Node [Leaf 3; Leaf 5])%Z. split; [done|]. split; [done|]. intros [|[|k]] z Hk; [by injection Hk as <-..|done].
  - constructor; [|done]. exists (Leaf 2). done.
Qed.
Example C66_ex : exists fuel m',
  exec_list (exec (machine sample_table) true 1 0 fuel) sample_instructions sample_memory = Ok (m', None) /\
  m_sigs m' 100 = 31%Z /\ m_log m' = [inr (Some 0); inr None; inl 16%Z; inr None] /\ sample_strings = ["a"] /\ 0%Z ∈ m_set m'.
Proof.
  destruct C66_ex_hypotheses as (H1 & H2 & H3 & H4 & H5 & H6).
  pose proof (fun code nsig st => C66_translation field (machine sample_table) (names ["out"; "in"]) (names ["out"]) number_of sample_table sample_strings true 1 0
    sample_signals sample_parameters [] sample [] [] code nsig st sample_start sample_memory 5 (field_linked _)) as H.
  unfold sample_table, sample_strings, sample_instructions, sample_code, translate in *.
  destruct (translate_code _ _ _ _ _ _ _ _ _) as [[[code nsig] st]|] eqn:Hc; [|exfalso; vm_compute in Hc; discriminate Hc].
  specialize (H code nsig st eq_refl ltac:(done) ltac:(done) H1).
  specialize (H ltac:(by repeat constructor) ltac:(by repeat constructor) H2 H3 H4 H5 H6 I sample_safe).
  assert (SugarSpec.exec field 5 sample [sample_start] = SugarSpec.Ok ([<[User "out" := Leaf 31]> sample_start], [[inl "a"; inr (Leaf 16)]], Next)) as E.
  { apply (bool_decide_unpack _); vm_compute; exact I. }
  rewrite E in H. destruct (H ltac:(done)) as (m' & F & HF & (b & Hb & Hst) & (t & Ht & Hlog) & Hset & _). exists F, m'. split; [by apply HF|].
  injection Hb as <-. destruct Hst as [(u & Hu & _ & Hh) _]. rewrite lookup_insert in Hu. injection Hu as <-. assert (m_sigs m' 100 = 31)%Z as Hout by (by apply (Hh 0)). split; [done|].
  assert (strings st = ["a"]) as Hs by (vm_compute in Hc; injection Hc as _ _ <-; reflexivity). rewrite Hs in Ht.
  split; cycle 1.
  { split; [exact Hs|]. destruct Hset as (l & Hl & _ & Hin). rewrite Hl. apply elem_of_app; right. apply Hin; [reflexivity| |].
    - left. split; [reflexivity|]. vm_compute. split; [discriminate|reflexivity].
    - change (m_sigs m' 100 <> m_sigs sample_memory 100)%Z. rewrite Hout. intros E'. vm_compute in E'. discriminate E'. }
  rewrite Hlog. cbn. inversion Ht as [|e es t1 ts S1 S2]; subst. inversion S2; subst. rewrite app_nil_r.
  inversion S1 as [| |a x b l t' A1 A2]; subst. inversion A1 as [s k Hk|]; subst. inversion A2 as [|a' x' A3|]; subst. inversion A3; subst.
  destruct k as [|k]; [done|by destruct k].
Qed.
(** The conditions of the C++ code hold, too. *)
Example C66_ex_cpp : wf_program (machine sample_table) true sample_instructions /\ is_Some (mapM reduce_s sample_instructions).
Proof.
  split; [|vm_compute; eauto]. let x := eval vm_compute in sample_instructions in assert (sample_instructions = x) as -> by (vm_compute; reflexivity).
  unfold wf_program. cbn [foldr wf_s wf_f wf_a wf_dest fst snd]. unfold size_ok.
  repeat first [exact I | lia | discriminate | split | constructor | intros ?].
Qed.

(** ** What does not hold *)
(** runs of the program and of its instructions; the value of a signal of the result *)
Definition by_program (body : SugarModel.stmt) (b : gmap name val) (x : string) : SugarSpec.R (option val) :=
  match SugarSpec.exec field 5 body [b] with
  | SugarSpec.Ok (σ, _, Next) => SugarSpec.Ok (look σ (User x))
  | SugarSpec.Ok _ => SugarSpec.Ill
  | SugarSpec.Fail => SugarSpec.Fail
  | SugarSpec.Ill => SugarSpec.Ill
  end.
Definition by_code (sg : list string) (body : SugarModel.stmt) (values : list Z) (a : nat) : option (res Z) :=
  match translate sg ((fun x => (User x, [])) <$> sg) [] body with
  | Some (code, _, st) => Some (x <-- exec_list (exec (machine (consts st)) false 1 0 20) code (start values); Ok (m_sigs x.1 (100 + Z.of_nat a)))
  | None => None
  end.
(** A variable of an inner block may have the name of a signal; its stores go to the memory of the signals, here to
    another signal: [signal output b; signal input a;  b <-- 7;  { var a = 5; }] leaves 5 in [b]. *)
Definition shadow : SugarModel.stmt := Block [set "b" (Num 7); Block [Decl (User "a") []; set "a" (Num 5)]].
Theorem C66_shadowed_signal_refuted :
  let b := {[User "b" := Leaf 0; User "a" := Leaf 3]}%Z in
  bodies_ok shadow = true /\ by_program shadow b "b" = SugarSpec.Ok (Some (Leaf 7)) /\ by_code ["b"; "a"] shadow [0; 3]%Z 0 = Some (Ok 5%Z).
Proof. vm_compute. done. Qed.
Print Assumptions C66_shadowed_signal_refuted.
(** An array with shorter rows is copied without the gaps between the rows:
    [var x[2][3]; var y[2][2] = (1, 2; 3, 4); x = y; out <-- x[1][0]] gives 4 for 3 (with a warning). *)
Definition rows : SugarModel.stmt := Block [
  Decl (User "x") [2; 3]; Decl (User "y") [2; 2]; Decl (User "i") [];
  set "i" (Num 0);
  While (Inf (OtherOp "<") (v "i") (Num 2)) (Block [
    Assign (User "x") [Idx (v "i"); Idx (Num 0)] "=" (Num 0); Assign (User "x") [Idx (v "i"); Idx (Num 1)] "=" (Num 0); Assign (User "x") [Idx (v "i"); Idx (Num 2)] "=" (Num 0);
    Assign (User "y") [Idx (v "i"); Idx (Num 0)] "=" (Inf Add (Inf Add (v "i") (v "i")) (Num 1));
    Assign (User "y") [Idx (v "i"); Idx (Num 1)] "=" (Inf Add (Inf Add (v "i") (v "i")) (Num 2));
    set "i" (Inf Add (v "i") (Num 1))]);
  set "x" (Var [2; 2] (User "y") []);
  set "out" (Var [] (User "x") [Idx (Num 1); Idx (Num 0)])].
Theorem C66_shorter_rows_refuted :
  bodies_ok rows = true /\ by_program rows {[User "out" := Leaf 0]} "out" = SugarSpec.Ok (Some (Leaf 3%Z)) /\
  by_code ["out"] rows [0%Z] 0 = Some (Ok 4%Z).
Proof. vm_compute. done. Qed.
Print Assumptions C66_shorter_rows_refuted.
(** An index is computed with machine integers when it is a sum or product of variables and literals:
    [var x[2] = (8, 9); out <-- x[in * 2]] stops when [in] is one half, although the index is 1. *)
Definition half_index : SugarModel.stmt := Block [
  Decl (User "x") [2]; Assign (User "x") [Idx (Num 0)] "=" (Num 8); Assign (User "x") [Idx (Num 1)] "=" (Num 9);
  set "out" (at_ "x" (Inf (OtherOp "*") (v "in") (Num 2)))].
Theorem C66_half_index_refuted :
  let h := ((prime + 1) / 2)%Z in
  bodies_ok half_index = true /\ by_program half_index {[User "out" := Leaf 0; User "in" := Leaf h]} "out" = SugarSpec.Ok (Some (Leaf 9%Z)) /\
  by_code ["out"; "in"] half_index [0; h]%Z 0 = Some Abort.
Proof. vm_compute. done. Qed.
Print Assumptions C66_half_index_refuted.
(** An index out of range is not noticed: [var x[2] = (8, 9); var y = 7; out <-- x[in]] with [in = 2] gives [y]. *)
Definition far_index : SugarModel.stmt := Block [
  Decl (User "x") [2]; Assign (User "x") [Idx (Num 0)] "=" (Num 8); Assign (User "x") [Idx (Num 1)] "=" (Num 9);
  Decl (User "y") []; set "y" (Num 7); set "out" (at_ "x" (v "in"))].
Theorem C66_index_out_of_range_refuted :
  bodies_ok far_index = true /\ by_program far_index {[User "out" := Leaf 0; User "in" := Leaf 2]}%Z "out" = SugarSpec.Fail /\
  by_code ["out"; "in"] far_index [0; 2]%Z 0 = Some (Ok 7%Z).
Proof. vm_compute. done. Qed.
Print Assumptions C66_index_out_of_range_refuted.
