(** The templates of components, found before the check of types from the instantiations in the code
    (type_analysis/src/decorators/component_type_inference.rs), and the program as the check of names sees
    it.

    Simplifications: those of TypeModel (no buses, no anonymous components). *)
From stdpp Require Import prelude gmap strings.
From Verif Require Import TypeModel.
From Verif Require ScopeModel.
Open Scope string_scope.
Open Scope list_scope.
Open Scope nat_scope.

(** ** Inference *)
(** component_type_inference.rs:62-79 *)
Fixpoint into_template_inference (P : program) (e : expr) : option string :=
  match e with
  | InlineSwitch _ t f =>
    match into_template_inference P t with Some t => Some t | None => into_template_inference P f end
  | Call f _ => match templates P !! f with Some _ => Some f | None => None end
  | ParallelOp e => into_template_inference P e
  | _ => None
  end.
(** component_type_inference.rs:7-10 *)
Record path_information := PathInformation { declared : gset string; environment : gmap string string }.
(** component_type_inference.rs:28-60: the last instantiation counts *)
Fixpoint infer_component_types (P : program) (s : stmt) (D : path_information) {struct s} : path_information :=
  let list := fix go l D := match l with [] => D | s :: l => go l (infer_component_types P s D) end in
  match s with
  | IfThenElse _ t f =>
    let D := infer_component_types P t D in
    match f with Some f => infer_component_types P f D | None => D end
  | While _ s => infer_component_types P s D
  | Block l | InitializationBlock _ l => list l D
  | Declaration (KComponent _) x _ => PathInformation ({[x]} ∪ declared D) (environment D)
  | Substitution x _ _ _ e =>
    if decide (x ∈ declared D) then
      match into_template_inference P e with
      | Some t => PathInformation (declared D) (<[x := t]> (environment D))
      | None => D
      end
    else D
  | _ => D
  end.
(** component_type_inference.rs:81-112: the first declaration of a name takes the template *)
Fixpoint apply_inference (s : stmt) (m : gmap string string) {struct s} : stmt * gmap string string :=
  let list := fix go l m := match l with
    | [] => ([], m)
    | s :: l => let '(s, m) := apply_inference s m in let '(l, m) := go l m in (s :: l, m)
    end in
  match s with
  | IfThenElse c t f =>
    let '(t, m) := apply_inference t m in
    match f with
    | Some f => let '(f, m) := apply_inference f m in (IfThenElse c t (Some f), m)
    | None => (IfThenElse c t None, m)
    end
  | While c s => let '(s, m) := apply_inference s m in (While c s, m)
  | Block l => let '(l, m) := list l m in (Block l, m)
  | InitializationBlock k l => let '(l, m) := list l m in (InitializationBlock k l, m)
  | Declaration (KComponent _) x ds => (Declaration (KComponent (m !! x)) x ds, delete x m)
  | _ => (s, m)
  end.
Definition apply_list : list stmt -> gmap string string -> list stmt * gmap string string :=
  fix go l m := match l with
  | [] => ([], m)
  | s :: l => let '(s, m) := apply_inference s m in let '(l, m) := go l m in (s :: l, m)
  end.
(** component_type_inference.rs:12-26 *)
Definition infer_template (P : program) (T : def) : def :=
  let D := foldl (fun D s => infer_component_types P s D) (PathInformation ∅ ∅) (body T) in
  Def (params T) (apply_list (body T) (environment D)).1.
Definition inference (P : program) : program :=
  Program (functions P) (infer_template P <$> templates P) (main P).

(** ** The program for the check of names *)
Fixpoint names_e (e : expr) : ScopeModel.expr :=
  match e with
  | Number _ => ScopeModel.Number
  | ArrayInLine l => ScopeModel.ArrayInLine (map names_e l)
  | UniformArray v d => ScopeModel.UniformArray (names_e v) (names_e d)
  | InfixOp _ l r => ScopeModel.InfixOp (names_e l) (names_e r)
  | PrefixOp _ e => ScopeModel.PrefixOp (names_e e)
  | ParallelOp e => ScopeModel.ParallelOp (names_e e)
  | InlineSwitch c t f => ScopeModel.Switch (names_e c) (names_e t) (names_e f)
  | VariableOf x idx field =>
    ScopeModel.VariableOf x (map (fun e => ScopeModel.ArrayAccess (names_e e)) idx ++
      match field with
      | None => []
      | Some (f, l) => ScopeModel.ComponentAccess f :: map (fun e => ScopeModel.ArrayAccess (names_e e)) l
      end)
  | Call f args => ScopeModel.Call f (map names_e args)
  end.
Definition names_k (k : kind) : ScopeModel.kind :=
  match k with
  | KVar => ScopeModel.KVar
  | KSignal Input => ScopeModel.KSignal ScopeModel.Input
  | KSignal Output => ScopeModel.KSignal ScopeModel.Output
  | KSignal Intermediate => ScopeModel.KSignal ScopeModel.Intermediate
  | KComponent _ => ScopeModel.KComponent
  end.
Fixpoint names_s (s : stmt) : ScopeModel.stmt :=
  match s with
  | IfThenElse c t f => ScopeModel.If (names_e c) (names_s t) (match f with Some f => Some (names_s f) | None => None end)
  | While c s => ScopeModel.While (names_e c) (names_s s)
  | Return e => ScopeModel.Return (names_e e)
  | InitializationBlock _ l => ScopeModel.Initialization (map names_s l)
  | Declaration k x ds => ScopeModel.Declaration (names_k k) x (map names_e ds)
  | Substitution x idx field _ e =>
    ScopeModel.Substitution x (map (fun e => ScopeModel.ArrayAccess (names_e e)) idx ++
      match field with
      | None => []
      | Some (f, l) => ScopeModel.ComponentAccess f :: map (fun e => ScopeModel.ArrayAccess (names_e e)) l
      end) (names_e e)
  | UnderscoreSubstitution _ e => ScopeModel.Underscore (names_e e)
  | ConstraintEquality l r => ScopeModel.Equality (names_e l) (names_e r)
  | LogCall args => ScopeModel.Log (map (fun e => Some (names_e e)) args)
  | Block l => ScopeModel.Block (map names_s l)
  | Assert e => ScopeModel.Assert (names_e e)
  end.
Definition names_d (D : def) : ScopeModel.def := ScopeModel.Def (params D) (map names_s (body D)).
(** the public inputs [pub] are listed at the main component *)
Definition names_p (P : program) (pub : list string) : ScopeModel.program :=
  ScopeModel.Program (names_d <$> functions P)
    ((fun T => (names_d T, dom (template_wires T).1)) <$> templates P) ∅ (names_e (main P)) pub.
