(** The file with the constraints in JSON ([--json]): constraint_writers/src/json_writer.rs,
    dag/src/json_porting.rs, constraint_list/src/json_porting.rs.

    Simplifications.  The file is the text written to it; errors of the file system are left out.  The values of the crate
    [json] are the type [json]; its members keep the order in which they were added.  [dump] is its [to_string] for strings
    that need no escapes (here all of them are decimal numbers). *)
From stdpp Require Import prelude gmap fin_maps sorting strings pretty.
From Coq Require Import ZArith Ascii.
From Verif Require Import ModArithModel AlgebraModel PipelineModel DagModel.
Open Scope nat_scope.
Open Scope string_scope.

(** the crate [json]: [JsonValue] *)
Inductive json := JString (s : string) | JArray (l : list json) | JObject (l : list (string * json)).
Definition quoted (s : string) : string := """" +:+ s +:+ """".
(** values with commas between them *)
Definition commas {A} (f : A -> string) : list A -> string :=
  fix go l := match l with [] => "" | a :: l => match l with [] => f a | _ => f a +:+ "," +:+ go l end end.
(** the crate [json]: [JsonValue::to_string] *)
Fixpoint dump (j : json) : string :=
  match j with
  | JString s => quoted s
  | JArray l => "[" +:+ commas dump l +:+ "]"
  | JObject l => "{" +:+ commas (fun x => quoted x.1 +:+ ":" +:+ dump x.2) l +:+ "}"
  end.
(** the crate [json]: [object[key] = value] *)
Fixpoint object_insert (o : list (string * json)) (k : string) (v : json) : list (string * json) :=
  match o with
  | [] => [(k, v)]
  | (k', v') :: o => if bool_decide (k' = k) then (k', v) :: o else (k', v') :: object_insert o k v
  end.
(** dag/src/json_porting.rs:17-27, constraint_list/src/json_porting.rs:16-26 *)
Definition hashmap_as_json (m : lin) : res json :=
  let order := merge_sort Nat.le (elements (dom m)) in
  res_map JObject (res_foldl (fun o i => match m !! i with
    | Some value => Ok (object_insert o (pretty i) (JString (pretty value)))
    | None => Panic end) [] order).
(** dag/src/json_porting.rs:10-16, constraint_list/src/json_porting.rs:8-14 *)
Definition transform_constraint_to_json (c : constraint) : res json :=
  res_bind (hashmap_as_json (c_a c)) (fun a =>
  res_bind (hashmap_as_json (c_b c)) (fun b =>
  res_bind (hashmap_as_json (c_c c)) (fun c => Ok (JArray [a; b; c])))).

Definition newline : string := String "010"%char "".
(** json_writer.rs:4-7 [ConstraintJSON], with the text written so far *)
Record writer := Writer { w_text : string; w_flag : bool }.
(** json_writer.rs:10-20 *)
Definition writer_new : writer := Writer ("{" +:+ newline +:+ quoted "constraints" +:+ ": [") false.
(** json_writer.rs:21-33 *)
Definition write_constraint (w : writer) (c : string) : writer :=
  Writer (w_text w +:+ (if w_flag w then "," +:+ newline else newline) +:+ c) true.
(** json_writer.rs:34-38 *)
Definition writer_end (w : writer) : string := w_text w +:+ newline +:+ "]" +:+ newline +:+ "}".

(** dag/src/json_porting.rs:30-33, constraint_list/src/json_porting.rs:44-45 *)
Definition write_json (w : writer) (c : constraint) : res writer :=
  res_bind (transform_constraint_to_json c) (fun j => Ok (write_constraint w (dump j))).
(** dag/src/json_porting.rs:29-39 *)
Fixpoint json_visit_tree (fuel : nat) (ko : corr_order) (d : dag) (t : itree) (w : writer) : res writer :=
  match fuel with
  | O => Panic
  | S fuel =>
      res_bind (res_foldl write_json w (t_constraints t)) (fun w =>
      res_bind (get_edges d t) (fun edges =>
      res_foldl (fun w e => res_bind (go_to_subtree ko d t e) (fun subtree => json_visit_tree fuel ko d subtree w)) w edges))
  end.
(** dag/src/json_porting.rs:41-46, dag/src/lib.rs:489-491 *)
Definition dag_json (fuel : nat) (ko : corr_order) (d : dag) : res string :=
  res_bind (tree_new ko d) (fun t => res_map writer_end (json_visit_tree fuel ko d t writer_new)).
(** constraint_list/src/json_porting.rs:34-48, constraint_list/src/lib.rs:173-175 *)
Definition list_json (l : constraint_list) : res string :=
  res_map writer_end (res_foldl (fun w c => res_bind (c_correspondence c (cl_map l)) (write_json w)) writer_new (cl_constraints l)).
