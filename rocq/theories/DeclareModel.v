(** Two checks of templates: signals and components are not declared in loops
    (type_analysis/src/analyzers/signal_declaration_analysis.rs), and custom templates have no constraints and no
    components (type_analysis/src/analyzers/custom_gate_analysis.rs).

    Simplifications.  Those of TypeModel; buses, treated like signals by both checks, are left out.  Declarations that replace anonymous components are put
    before the statements of the template and are declarations of components here.  Reports are counted, and the warnings are the names of the signals they are about. *)
From stdpp Require Import prelude gmap strings.
From Verif Require Import TypeModel.
Open Scope list_scope.
Open Scope nat_scope.

(** [for x in l { .. }] that counts reports *)
Definition total {A} (f : A -> nat) : list A -> nat := fix go l := match l with [] => 0 | a :: l => f a + go l end.
(** signal_declaration_analysis.rs:21-66: the number of reports *)
Fixpoint treat_statement (s : stmt) (signal_declaration_allowed : bool) : nat :=
  match s with
  | IfThenElse _ t f =>
    treat_statement t signal_declaration_allowed +
    match f with Some f => treat_statement f signal_declaration_allowed | None => 0 end
  | While _ s => treat_statement s false
  | Block l => total (fun s => treat_statement s signal_declaration_allowed) l
  | InitializationBlock (KSignal _ | KComponent _) _ => if signal_declaration_allowed then 0 else 1
  | _ => 0
  end.
(** signal_declaration_analysis.rs:7-19: accepted *)
Definition check_signal_correctness (D : def) : bool := total (fun s => treat_statement s true) (body D) =? 0.

(** custom_gate_analysis.rs:9-138: the number of errors, and the warnings *)
Definition both {A} (f : A -> nat * list string) : list A -> nat * list string :=
  fix go l := match l with [] => (0, []) | a :: l => let '(m, v) := f a in let '(n, w) := go l in (m + n, v ++ w) end.
Fixpoint custom_gate_statement (s : stmt) : nat * list string :=
  match s with
  | IfThenElse _ t f =>
    let '(m, v) := custom_gate_statement t in
    match f with Some f => let '(n, w) := custom_gate_statement f in (m + n, v ++ w) | None => (m, v) end
  | While _ s => custom_gate_statement s
  | InitializationBlock _ l => both custom_gate_statement l
  | Declaration (KSignal Intermediate) x _ => (0, [x])
  | Declaration (KComponent _) _ _ => (1, [])
  | Substitution _ _ _ AssignConstraintSignal _ => (1, [])
  | ConstraintEquality _ _ => (1, [])
  | Block l => both custom_gate_statement l
  | UnderscoreSubstitution AssignConstraintSignal _ => (1, [])
  | _ => (0, [])
  end.
(** custom_gate_analysis.rs:5-8, 140-151: the warnings, or [None] with errors.  The body is the block of its statements *)
Definition custom_gate_analysis (D : def) : option (list string) :=
  let '(errors, warnings) := custom_gate_statement (Block (body D)) in
  if errors =? 0 then Some warnings else None.
