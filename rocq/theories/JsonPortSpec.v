(** A reader of JSON, and what the file with the constraints must contain. *)
From stdpp Require Import prelude gmap fin_maps strings pretty.
From Coq Require Import ZArith Ascii.
From Verif Require Import AlgebraModel JsonPortModel.
Open Scope nat_scope.
Open Scope string_scope.

(** white space *)
Definition space (c : ascii) : bool := existsb (Ascii.eqb c) [" "; "009"; "010"; "013"]%char.
Fixpoint skip (s : string) : string := match s with String c r => if space c then skip r else s | "" => "" end.
(** the characters up to the closing quote, and the rest.  Strings with escapes are not read *)
Fixpoint chars (s : string) : option (string * string) :=
  match s with
  | "" => None
  | String c s =>
    if Ascii.eqb c """" then Some ("", s)
    else if Ascii.eqb c "\" then None
    else '(t, r) ← chars s; Some (String c t, r)
  end.
(** A value and the rest of the text, with at most [n] nested calls.  Only strings, arrays and objects are read *)
Fixpoint value (n : nat) (s : string) : option (json * string) :=
  match n with
  | O => None
  | S n =>
    match skip s with
    | "" => None
    | String c s =>
      if Ascii.eqb c """" then '(t, r) ← chars s; Some (JString t, r)
      else if Ascii.eqb c "[" then
        match skip s with
        | String "]" r => Some (JArray [], r)
        | _ => '(l, r) ← values n s; Some (JArray l, r)
        end
      else if Ascii.eqb c "{" then
        match skip s with
        | String "}" r => Some (JObject [], r)
        | _ => '(l, r) ← members n s; Some (JObject l, r)
        end
      else None
    end
  end
with values (n : nat) (s : string) : option (list json * string) :=
  match n with
  | O => None
  | S n =>
    '(v, r) ← value n s;
    match skip r with
    | String "," r => '(l, r) ← values n r; Some (v :: l, r)
    | String "]" r => Some ([v], r)
    | _ => None
    end
  end
with members (n : nat) (s : string) : option (list (string * json) * string) :=
  match n with
  | O => None
  | S n =>
    match skip s with
    | String """" r =>
      '(k, r) ← chars r;
      match skip r with
      | String ":" r =>
        '(v, r) ← value n r;
        match skip r with
        | String "," r => '(l, r) ← members n r; Some ((k, v) :: l, r)
        | String "}" r => Some ([(k, v)], r)
        | _ => None
        end
      | _ => None
      end
    | _ => None
    end
  end.
(** the whole text is this value *)
Definition is_json (text : string) (j : json) : Prop := exists n0, forall n, n0 <= n -> value n text = Some (j, "").

(** a linear expression: for each signal its coefficient, both in decimal notation *)
Definition is_linear_json (m : lin) (j : json) : Prop :=
  exists l, j = JObject l /\ NoDup l.*1 /\
    forall k v, (k, v) ∈ l <-> exists (i : nat) (z : Z), m !! i = Some z /\ k = pretty i /\ v = JString (pretty z).
Definition is_row_json (row : lin * lin * lin) (j : json) : Prop :=
  exists a b c, j = JArray [a; b; c] /\ is_linear_json row.1.1 a /\ is_linear_json row.1.2 b /\ is_linear_json row.2 c.
(** the file contains these constraints, in this order *)
Definition lists_rows (text : string) (rows : list (lin * lin * lin)) : Prop :=
  exists l, is_json text (JObject [("constraints", JArray l)]) /\ Forall2 is_row_json rows l.
