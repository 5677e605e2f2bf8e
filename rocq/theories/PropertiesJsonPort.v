(** C72: the JSON file with the constraints. *)
From stdpp Require Import prelude gmap fin_maps sorting strings pretty.
From Coq Require Import ZArith Znumtheory Ascii.
From Verif Require Import ModArithModel AlgebraModel AlgebraSpec PipelineModel PipelineSpec R1csModel DagModel DagSpec DagExamples PropertiesDag JsonPortModel JsonPortSpec JsonPortProofs.
Open Scope nat_scope.

(** Without simplification: the JSON file lists the constraints of the R1CS, in the same order. *)
Theorem C72_json_lists_the_r1cs : forall fuel ko d custom i, dag_r1cs fuel ko d custom = Ok i ->
  exists text, dag_json fuel ko d = Ok text /\ lists_rows text (i_constraints i).
Proof. exact dag_json_ok. Qed.
Print Assumptions C72_json_lists_the_r1cs.
(** With simplification: the same. *)
Theorem C72_simplified_json_lists_the_r1cs : forall fuel mo l custom i, port_r1cs fuel mo l custom = Ok i ->
  exists text, list_json l = Ok text /\ lists_rows text (i_constraints i).
Proof. exact list_json_ok. Qed.
Print Assumptions C72_simplified_json_lists_the_r1cs.
(** Both files are written for every circuit. *)
Theorem C72_json_is_written : forall p d0 fuel steps ko o mo fl,
  prime p -> built_with (well_formed p) p d0 -> d_nodes d0 <> [] -> valid_corr_order ko -> valid_oracle o -> (forall m : gmap nat nat, mo m ≡ₚ map_to_list m) ->
  length (d_nodes d0) <= fuel -> enough (S (total_signals d0)) steps ->
  (exists i text, dag_r1cs fuel ko (clean_constraints d0) false = Ok i /\ dag_json fuel ko (clean_constraints d0) = Ok text /\ lists_rows text (i_constraints i)) /\
  exists l i text, map_to_list_ fuel steps ko o (clean_constraints d0) fl = Ok l /\ port_r1cs fuel mo l false = Ok i /\
    list_json l = Ok text /\ lists_rows text (i_constraints i).
Proof.
  intros p d0 fuel steps ko o mo fl Hp HB HE Hko Ho Hmo HF HS. split.
  - assert (HC : compiled p (clean_constraints d0)) by (exists d0; auto).
    destruct (C24_r1cs_is_the_flattened_circuit p (clean_constraints d0) ko fuel HC Hko) as (l & i & _ & E & _); [cbn; rewrite fmap_length; exact HF|].
    destruct (dag_json_ok _ _ _ _ _ E) as (text & Et & HT). exists i, text. auto.
  - destruct (last (d_nodes d0)) as [main|] eqn:EL; [|apply last_None in EL; contradiction].
    destruct (C50_r1cs_is_equivalent_to_the_circuit p d0 main fuel steps ko o mo fl Hp HB EL Hko Ho Hmo HF HS) as (l & i & E1 & E2 & _).
    destruct (list_json_ok _ _ _ _ _ E2) as (text & Et & HT). exists l, i, text. auto.
Qed.
Print Assumptions C72_json_is_written.
(** A file lists one sequence of constraints only. *)
Theorem C72_file_determines_the_constraints : forall text rows rows', lists_rows text rows -> lists_rows text rows' -> rows = rows'.
Proof.
  assert (HL : forall m m' j, is_linear_json m j -> is_linear_json m' j -> m = m').
  { assert (HI : forall m m' j i z, is_linear_json m j -> is_linear_json m' j -> m !! i = Some z -> m' !! i = Some z).
    { intros m m' j i z (l & -> & _ & H) (l' & [= <-] & _ & H') Hi. assert (HM : (pretty i, JString (pretty z)) ∈ l) by (apply H; eauto).
      apply H' in HM. destruct HM as (i' & z' & Hi' & Ei & Ez). apply (inj pretty) in Ei. injection Ez as Ez. apply (inj pretty) in Ez. subst. exact Hi'. }
    intros m m' j H H'. apply map_eq. intros i. apply option_eq. intros z. split; intros Hi; eapply HI; eauto. }
  intros text rows rows' (l & [n0 E] & H) (l' & [n1 E'] & H'). specialize (E (n0 + n1) ltac:(lia)). specialize (E' (n0 + n1) ltac:(lia)). rewrite E in E'. injection E' as <-. clear E.
  revert rows' H'. induction H as [|[[a b] c] j rows l (x & y & z & -> & Ha & Hb & Hc) H IH]; intros rows' H'; [inversion H'; reflexivity|].
  apply Forall2_cons_inv_r in H'. destruct H' as ([[a' b'] c'] & rows1 & (x' & y' & z' & [= <- <- <-] & Ha' & Hb' & Hc') & H1 & ->).
  cbn in *. f_equal; [|apply IH; exact H1]. f_equal; [f_equal|]; eapply HL; eassumption.
Qed.
Print Assumptions C72_file_determines_the_constraints.

(** ** Example *)
Local Open Scope string_scope.
Definition small_ops : list dag_op :=
  [ OpNode "Main()" [] false false; OpOutput "r"; OpInput "a" true; OpInput "b" false;
    OpConstraint (c3 [(2, 6%Z)] [(3, 1%Z); (0, 5%Z)] [(1, 6%Z)]); OpConstraint (c3 [] [] [(2, 1%Z); (3, 4%Z)]) ].
Definition small_dag : dag := match run 7 small_ops (dag_new 7) with Some d => d | None => dag_new 7 end.
Definition small_text : string :=
"{
""constraints"": [
[{""2"":""6""},{""0"":""5"",""3"":""1""},{""1"":""6""}],
[{},{},{""2"":""1"",""3"":""4""}]
]
}".
Example C72_example : built_with (well_formed 7) 7 small_dag /\ (exists i, dag_r1cs 1 ko0 (clean_constraints small_dag) false = Ok i) /\
  dag_json 1 ko0 (clean_constraints small_dag) = Ok small_text /\
  value 20 small_text = Some (JObject [("constraints", JArray
    [JArray [JObject [("2", JString "6")]; JObject [("0", JString "5"); ("3", JString "1")]; JObject [("1", JString "6")]];
     JArray [JObject []; JObject []; JObject [("2", JString "1"); ("3", JString "4")]]])], "").
Proof.
  split_and!.
  - eapply history_with, history_mono; [|apply (run_history 7 small_ops [] (dag_new 7)); [constructor|vm_compute; reflexivity]]. intros ? ? []. assumption.
  - assert (H : match dag_r1cs 1 ko0 (clean_constraints small_dag) false with Ok _ => true | _ => false end = true) by (vm_compute; reflexivity).
    destruct (dag_r1cs 1 ko0 (clean_constraints small_dag) false) as [i| |]; [exists i; reflexivity|discriminate|discriminate].
  - vm_compute. reflexivity.
  - vm_compute. reflexivity.
Qed.
