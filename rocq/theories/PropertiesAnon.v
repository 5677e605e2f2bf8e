(** C64: removing anonymous components and tuples keeps what a template does. *)
From Coq Require Import ZArith.
From stdpp Require Import base list strings pretty gmap.
From Verif Require Import AnonModel AnonSpec AnonTopProofs AnonSugarProofs.

Open Scope string_scope.

(** Running the new body with no supply of names gives the same trace as running
    the old body with the right names for its anonymous instances: pairwise
    different, all made from names the pass invents, none of which the old
    body mentions. *)
Theorem C64_same_run (D : dom) (templates : gmap string stmt) (line : N -> N) (fuel : nat)
    (l : list stmt) (body' : stmt) (params : gmap string (binding D)) :
  counts D ->
  (forall f b, templates !! f = Some b -> NoDup (declaration_inputs b)) ->
  parsed (Block l) -> independent (Block l) ->
  NoDup (map snd (nodes (Block l))) ->
  (forall x, x ∈ snames (Block l) -> x ∉ map (node_name line) (nodes (Block l))) ->
  desugar_template templates line (Block l) = Ok body' ->
  exists ids : list (inst (val D)),
    NoDup ids /\
    Forall (fun i => i.1 ∈ map (node_name line) (nodes (Block l)) /\ i.1 ∉ snames (Block l)) ids /\
    run D templates fuel params ids (Block l) = run D templates fuel params [] body'.
Proof.
  intros Hc Hi Hp Hind Hn Hs Hd.
  destruct (desugar_ok D templates line fuel Hi Hc (Block l) body' params) as (ids & H1 & H2 & H3); try done; [by eexists|].
  exists ids. split_and!; [done| |done]. eapply Forall_impl; [exact H2|]. intros i Hx. split; [done|].
  intros Hx'. by apply (Hs _ Hx').
Qed.
Print Assumptions C64_same_run.

(** No two anonymous components or loops get the same name, whatever the lines
    and the names of the templates are. *)
Theorem C64_names_distinct (line : N -> N) (l : list node) :
  NoDup (map snd l) -> NoDup (map (node_name line) l).
Proof. apply node_names_nodup. Qed.
Print Assumptions C64_names_distinct.

(** Nothing is left of anonymous components and tuples. *)
Theorem C64_no_sugar (templates : gmap string stmt) (line : N -> N) (body body' : stmt) :
  flat_parallel body -> desugar_template templates line body = Ok body' -> no_sugar body'.
Proof. apply desugar_no_sugar. Qed.
Print Assumptions C64_no_sugar.

(** The pass does not panic on what the parser builds. *)
Theorem C64_no_panic (templates : gmap string stmt) (line : N -> N) (l : list stmt) :
  parsed (Block l) -> no_underscore (Block l) -> desugar_template templates line (Block l) <> Panicked.
Proof. intros Hp Hu. apply desugar_no_panic; [done|done|by eexists]. Qed.
Print Assumptions C64_no_panic.

(** Functions: the new body does the same from every state, has no sugar left,
    and the pass does not panic. *)
Theorem C64_functions (D : dom) (templates : gmap string stmt) (fuel : nat) (body : stmt) :
  independent body -> no_underscore body ->
  desugar_function body <> Panicked /\
  forall body', desugar_function body = Ok body' ->
    no_sugar body' /\
    forall st, exec D templates fuel body' st = exec D templates fuel body st.
Proof.
  intros Hi Hu. split; [by apply function_no_panic|]. intros body' H.
  split; [by eapply function_no_sugar|]. intros st. by apply function_same.
Qed.
Print Assumptions C64_functions.

(** * Examples *)

(** Integers, with signals and ports of fixed values. *)
Definition zdom : dom := {|
  val := Z; val_eq := Z.eq_dec; vnum := id;
  vinfix := fun op a b => match op with
                          | Add => Some (a + b)%Z | Mul => Some (a * b)%Z
                          | Lesser => Some (if Z.ltb a b then 1 else 0)%Z
                          | _ => None end;
  vprefix := fun _ _ => None; vswitch := fun _ _ _ => None; varray := fun _ => None;
  vuniform := fun _ _ => None; vcall := fun _ _ => None; vbus := fun _ _ => None;
  vsignal := fun _ _ => Some 7%Z;
  vport := fun i port _ => Some (Z.of_nat (length (i.2)) + Z.of_nat (String.length port) * 10)%Z;
  vselect := fun _ _ => None; vupdate := fun _ _ _ => None; vnew := fun _ => 0%Z;
  vtrue := fun z => Some (negb (Z.eqb z 0)) |}.

Lemma zdom_counts : counts zdom.
Proof. by split. Qed.

Definition sig_ (t : stype) (x : string) : stmt := InitializationBlock (XSignal t) [Declaration (XSignal t) x [] false].
Definition var_ (x : string) : stmt := InitializationBlock XVar [Declaration XVar x [] false].
Definition v_ (x : string) : exp := Var x [].

(** [template T() { signal input b; signal input a; signal output c; ... }] and
    [template U(n) { signal input x; signal output y; signal output zz; ... }]. *)
Definition ex_templates : gmap string stmt :=
  {["T" := Block [sig_ Input "b"; sig_ Input "a"; sig_ Output "c"];
    "U" := Block [sig_ Input "x"; sig_ Output "y"; sig_ Output "zz"]]}.
Definition ex_line : N -> N := fun p => (p / 10)%N.

(** [(o, _) <== U(3)(T()(s, parallel T()(a <== s, b <== 1)));
     var i = 0; while (i < 2) { o <== T()(i, s); i = i + 1; }
     (p, i) = (2, 3); log((p, i));] *)
Definition ex_body : list stmt :=
  [sig_ Input "s"; sig_ Output "o"; var_ "i"; var_ "p";
   MultSubstitution (Tuple [v_ "o"; v_ "_"]) AssignConstraintSignal
     (Anon 20 "U" false [Num 3]
        [Anon 25 "T" false []
           [v_ "s"; Parallel (Anon 34 "T" false [] [v_ "s"; Num 1]
              (Some [(AssignConstraintSignal, "a"); (AssignConstraintSignal, "b")]))] None] None);
   Substitution "i" [] AssignVar (Num 0);
   While 50 (Infix (v_ "i") Lesser (Num 2))
     (Block [Substitution "o" [] AssignConstraintSignal (Anon 62 "T" false [] [v_ "i"; v_ "s"] None);
             Substitution "i" [] AssignVar (Infix (v_ "i") Add (Num 1))]);
   MultSubstitution (Tuple [v_ "p"; v_ "i"]) AssignVar (Tuple [Num 2; Num 3]);
   LogCall [LogExp (Tuple [v_ "p"; v_ "i"])]].

Example C64_hypotheses :
  (forall f b, ex_templates !! f = Some b -> NoDup (declaration_inputs b)) /\
  parsed (Block ex_body) /\ independent (Block ex_body) /\ flat_parallel (Block ex_body) /\
  no_underscore (Block ex_body) /\
  NoDup (map snd (nodes (Block ex_body))) /\
  (forall x, x ∈ snames (Block ex_body) -> x ∉ map (node_name ex_line) (nodes (Block ex_body))) /\
  map (node_name ex_line) (nodes (Block ex_body))
  = ["U_2_20"; "T_2_25"; "T_3_34"; "anon_var_5_50"; "T_6_62"].
Proof.
  split_and!.
  - intros f b Hf. unfold ex_templates in Hf.
    apply lookup_insert_Some in Hf as [[<- <-]|[_ Hf]]; [apply (bool_decide_unpack _); by vm_compute|].
    apply lookup_singleton_Some in Hf as [<- <-]. apply (bool_decide_unpack _); by vm_compute.
  - cbn. repeat constructor.
  - cbn. repeat match goal with |- Forall _ _ => constructor | |- id True => exact I | |- True => exact I | |- id _ => unfold id end.
    intros t u _ Hu. split; [apply not_elem_of_nil|].
    apply elem_of_cons in Hu as [->|[->|Hu]%elem_of_cons]; [apply not_elem_of_nil..|by apply elem_of_nil in Hu].
  - cbn. repeat constructor.
  - cbn. repeat constructor.
  - apply (bool_decide_unpack _). by vm_compute.
  - apply Forall_forall. apply (bool_decide_unpack _). by vm_compute.
  - by vm_compute.
Qed.

Example C64_example :
  exists body', desugar_template ex_templates ex_line (Block ex_body) = Ok body' /\
    run zdom ex_templates 10 ∅ [] body' =
    run zdom ex_templates 10 ∅
      [("U_2_20", []); ("T_2_25", []); ("T_3_34", []); ("T_6_62", [0%Z]); ("T_6_62", [1%Z])] (Block ex_body) /\
    run zdom ex_templates 10 ∅ [] body' = Built zdom [
      EDeclare zdom (XSignal Input) "s" []; EDeclare zdom (XSignal Output) "o" [];
      ECreate zdom ("U_2_20", []) "U" [3%Z] false;
      ECreate zdom ("T_2_25", []) "T" [] false;
      ECreate zdom ("T_3_34", []) "T" [] true;
      EAssign zdom AssignConstraintSignal (PPort zdom ("T_3_34", []) "a" []) 7%Z;
      EAssign zdom AssignConstraintSignal (PPort zdom ("T_3_34", []) "b" []) 1%Z;
      EAssign zdom AssignConstraintSignal (PPort zdom ("T_2_25", []) "a" []) 10%Z;
      EAssign zdom AssignConstraintSignal (PPort zdom ("T_2_25", []) "b" []) 7%Z;
      EAssign zdom AssignConstraintSignal (PPort zdom ("U_2_20", []) "x" []) 10%Z;
      EAssign zdom AssignConstraintSignal (PSignal zdom "o" []) 10%Z;
      EIgnore zdom AssignConstraintSignal 20%Z;
      ECreate zdom ("T_6_62", [0%Z]) "T" [] false;
      EAssign zdom AssignConstraintSignal (PPort zdom ("T_6_62", [0%Z]) "a" []) 7%Z;
      EAssign zdom AssignConstraintSignal (PPort zdom ("T_6_62", [0%Z]) "b" []) 0%Z;
      EAssign zdom AssignConstraintSignal (PSignal zdom "o" []) 11%Z;
      ECreate zdom ("T_6_62", [1%Z]) "T" [] false;
      EAssign zdom AssignConstraintSignal (PPort zdom ("T_6_62", [1%Z]) "a" []) 7%Z;
      EAssign zdom AssignConstraintSignal (PPort zdom ("T_6_62", [1%Z]) "b" []) 1%Z;
      EAssign zdom AssignConstraintSignal (PSignal zdom "o" []) 11%Z;
      ELog zdom [inl "("; inr 2%Z; inr 3%Z; inl ")"]].
Proof. eexists. split_and!; [by vm_compute..]. Qed.

(** * Where it is false *)

(** [var a = 1; var b = 2; (a, b) = (b, a); log(a); log(b);]: the values are not
    computed before the assignments; both variables end up with the value 2. *)
Definition swap_body : list stmt :=
  [var_ "a"; Substitution "a" [] AssignVar (Num 1); var_ "b"; Substitution "b" [] AssignVar (Num 2);
   MultSubstitution (Tuple [v_ "a"; v_ "b"]) AssignVar (Tuple [v_ "b"; v_ "a"]);
   LogCall [LogExp (v_ "a")]; LogCall [LogExp (v_ "b")]].

Theorem C64_swap_refuted :
  parsed (Block swap_body) /\ nodes (Block swap_body) = [] /\
  exists body', desugar_template ∅ ex_line (Block swap_body) = Ok body' /\
    (forall ids, run zdom ∅ 10 ∅ ids (Block swap_body)
                 = Built zdom [ELog zdom [inr 2%Z]; ELog zdom [inr 1%Z]]) /\
    run zdom ∅ 10 ∅ [] body' = Built zdom [ELog zdom [inr 2%Z]; ELog zdom [inr 2%Z]].
Proof.
  split; [cbn; repeat constructor|]. split; [done|]. eexists. split; [by vm_compute|].
  split; [intros ids|]; by vm_compute.
Qed.
Print Assumptions C64_swap_refuted.

(** [o <== parallel T()(T()(s, s) + 1, s);]: the check does not look inside an
    anonymous component that stands under [parallel], and one is left in the
    program (which the type checker then meets as unreachable). *)
Definition parallel_body : list stmt :=
  [sig_ Input "s"; sig_ Output "o";
   Substitution "o" [] AssignConstraintSignal
     (Parallel (Anon 30 "T" false []
        [Infix (Anon 34 "T" false [] [v_ "s"; v_ "s"] None) Add (Num 1); v_ "s"] None))].

Theorem C64_parallel_refuted :
  parsed (Block parallel_body) /\ no_underscore (Block parallel_body) /\
  exists body', desugar_template ex_templates ex_line (Block parallel_body) = Ok body' /\ ~ no_sugar body'.
Proof.
  split; [cbn; repeat constructor|]. split; [cbn; repeat constructor|].
  eexists. split; [by vm_compute|]. cbn. intros H.
  repeat match goal with
         | H : Forall _ (_ :: _) |- _ => apply Forall_cons in H as [? H]
         | H : id _ |- _ => unfold id in H
         end.
  repeat match goal with H : Forall _ (_ :: _) |- _ => apply Forall_cons in H as [? H] | H : id _ |- _ => unfold id in H end.
  naive_solver.
Qed.
Print Assumptions C64_parallel_refuted.

(** [template V(n) { if (n == 0) { signal input a; ... } else { signal input a; ... } ... }]:
    the input counts twice, so [V(0)(s, 5)] has to be written, and the first
    argument disappears. *)
Definition twice_templates : gmap string stmt :=
  {["V" := Block [IfThenElse (Infix (v_ "n") Eq (Num 0)) (Block [sig_ Input "a"]) (Some (Block [sig_ Input "a"]));
                  sig_ Output "c"]]}.
Definition twice_body (args : list exp) : list stmt :=
  [sig_ Input "s"; sig_ Output "o";
   Substitution "o" [] AssignConstraintSignal (Anon 30 "V" false [Num 0] args None)].

Theorem C64_input_twice_refuted :
  desugar_template twice_templates ex_line (Block (twice_body [v_ "s"])) = Rejected /\
  exists body', desugar_template twice_templates ex_line (Block (twice_body [v_ "s"; Num 5])) = Ok body' /\
    run zdom twice_templates 10 ∅ [] body' = Built zdom [
      EDeclare zdom (XSignal Input) "s" []; EDeclare zdom (XSignal Output) "o" [];
      ECreate zdom ("V_3_30", []) "V" [0%Z] false;
      EAssign zdom AssignConstraintSignal (PPort zdom ("V_3_30", []) "a" []) 5%Z;
      EAssign zdom AssignConstraintSignal (PSignal zdom "o" []) 10%Z].
Proof. split; [by vm_compute|]. eexists. split; vm_compute; reflexivity. Qed.
Print Assumptions C64_input_twice_refuted.

(** [signal T_3_30; ... o <== T()(s, s);] with the anonymous component at
    position 30 of line 3: the program is right and the new body is not. *)
Definition clash_body : list stmt :=
  [sig_ Input "s"; sig_ Intermediate "T_3_30"; sig_ Output "o";
   Substitution "o" [] AssignConstraintSignal (Anon 30 "T" false [] [v_ "s"; v_ "s"] None)].

Theorem C64_name_clash_refuted :
  parsed (Block clash_body) /\ independent (Block clash_body) /\ NoDup (map snd (nodes (Block clash_body))) /\
  exists body', desugar_template ex_templates ex_line (Block clash_body) = Ok body' /\
    (forall i rest, exists tr, run zdom ex_templates 10 ∅ (i :: rest) (Block clash_body) = Built zdom tr) /\
    run zdom ex_templates 10 ∅ [] body' = Error zdom.
Proof.
  split; [cbn; repeat constructor|]. split; [cbn; repeat constructor|].
  split; [cbn; repeat constructor; apply not_elem_of_nil|].
  eexists. split; [by vm_compute|]. split; [|vm_compute; reflexivity].
  intros i rest. eexists. vm_compute. reflexivity.
Qed.
Print Assumptions C64_name_clash_refuted.
