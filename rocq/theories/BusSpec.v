(** Specification of the layout of signals and buses and of JSON inputs. *)
From Coq Require Import Ascii.
From stdpp Require Import prelude strings pretty.
From Verif Require Import DagModel MemSliceSpec BusModel.
Open Scope nat_scope.

(** The type of a wire: a signal, or a bus with its fields; a field has a name, array dimensions and a type. *)
Inductive shape : Type := SSignal | SBus (fs : fields)
with fields : Type := FNil | FCons (name : string) (dims : list nat) (s : shape) (rest : fields).
Fixpoint field_names (fs : fields) : list string := match fs with FNil => [] | FCons n _ _ r => n :: field_names r end.

(** The declared buses give a wire this type; the fields of a bus have different names. *)
Inductive has_shape (buses : list (list wire)) : option nat -> shape -> Prop :=
| hs_signal : has_shape buses None SSignal
| hs_bus b ws fs : buses !! b = Some ws -> NoDup (w_name <$> ws) -> has_fields buses ws fs -> has_shape buses (Some b) (SBus fs)
with has_fields (buses : list (list wire)) : list wire -> fields -> Prop :=
| hf_nil : has_fields buses [] FNil
| hf_cons w ws s fs : has_shape buses (w_bus w) s -> has_fields buses ws fs ->
    has_fields buses (w :: ws) (FCons (w_name w) (w_dims w) s fs).

(** ** The single signals of a wire, by their full name, in order *)
Definition brackets (p : list nat) : string := foldr (fun i s => "[" +:+ pretty i +:+ "]" +:+ s) "" p.
Fixpoint cells (name : string) (dims : list nat) (s : shape) : list string :=
  match s with
  | SSignal => (fun p => name +:+ brackets p) <$> paths dims
  | SBus fs => concat ((fun p => member_cells (name +:+ brackets p +:+ ".") fs) <$> paths dims)
  end
with member_cells (prefix : string) (fs : fields) : list string :=
  match fs with
  | FNil => []
  | FCons n d s r => cells (prefix +:+ n) d s ++ member_cells prefix r
  end.
(** the [n] elements of a list from position [i] on *)
Definition segment {A} (i n : nat) (l : list A) : list A := take n (drop i l).

(** ** The values that a JSON input gives to the signals of a wire, in the order of the signals *)
Section json.
Context {F : Type}.
(** nested arrays of exactly these dimensions, with these elements *)
Inductive nested : list nat -> json F -> list (json F) -> Prop :=
| nested_element j : nested [] j [j]
| nested_array d dims l ls : length l = d -> Forall2 (nested dims) l ls -> nested (d :: dims) (JArr l) (concat ls).
Fixpoint gives (s : shape) (dims : list nat) (j : json F) (vs : list F) : Prop :=
  match s with
  | SSignal => nested dims j (JNum <$> vs)
  | SBus fs => exists js vss, nested dims j js /\
      Forall2 (fun j vs => exists l, j = JObj l /\ l.*1 ≡ₚ field_names fs /\ members fs l vs) js vss /\ vs = concat vss
  end
with members (fs : fields) (l : list (string * json F)) (vs : list F) : Prop :=
  match fs with
  | FNil => vs = []
  | FCons n d s r => exists j vs1 vs2, (n, j) ∈ l /\ gives s d j vs1 /\ members r l vs2 /\ vs = vs1 ++ vs2
  end.
End json.

(** ** Identifiers *)
(** An identifier (as the grammar has them) is not empty, and has only ASCII characters and none of the
    characters that full names of signals add. *)
Definition plain (s : string) : Prop := s <> "" /\ forall c, c ∈ String.list_ascii_of_string s -> nat_of_ascii c < 128 /\ c <> "."%char /\ c <> "["%char.
Fixpoint good_names (s : shape) : Prop := match s with SSignal => True | SBus fs => good_fields fs end
with good_fields (fs : fields) : Prop :=
  match fs with FNil => True | FCons n d s r => plain n /\ n ∉ field_names r /\ good_names s /\ good_fields r end.

(** ** Programs *)
(** every declared bus has a type: no bus contains itself *)
Definition buses_shaped (buses : list (list wire)) : Prop := forall b ws, buses !! b = Some ws -> exists s, has_shape buses (Some b) s.
(** no array inside of a bus is empty *)
Definition buses_filled (buses : list (list wire)) : Prop := Forall (Forall (fun w => Forall (fun d => 0 < d) (w_dims w))) buses.
(** no array of buses is empty *)
Definition bus_arrays_filled (ws : list wire) : Prop := Forall (fun w => w_bus w <> None -> Forall (fun d => 0 < d) (w_dims w)) ws.
(** the wires of a template in the order of their signals *)
Definition wires_of (t : template) : list wire := t_outputs t ++ public_inputs t ++ private_inputs t ++ t_intermediates t.
Definition kinds_of (t : template) : list kind :=
  (const KOutput <$> t_outputs t) ++ (const KInput <$> public_inputs t) ++ (const KInput <$> private_inputs t) ++ (const KIntermediate <$> t_intermediates t).
(** the layout of a wire designates its signals among all the signals [names] of the template *)
Definition designates (buses : list (list wire)) (names : list string) (l : layout) (w : wire) : Prop :=
  l_name l = w_name w /\ l_dims l = w_dims w /\ l_bus l = w_bus w /\ l_dag_local_id l = S (l_local_id l) /\
  exists s, has_shape buses (w_bus w) s /\ segment (l_local_id l) (l_size l) names = cells (w_name w) (w_dims w) s.
