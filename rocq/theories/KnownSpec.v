(** What the known/unknown analysis is for, independently of the analysis: executions of a template with
    given values of the signals, and what is fixed when constraints are generated.

    An execution emits an event for every declaration of a signal, bus or component, every component and bus that is
    created, every value of a tag, and every constraint.  Constraint generation is possible if the
    events do not depend on the values of the signals.  The meaning of operators, functions and arrays
    is arbitrary (a [world]). *)
From stdpp Require Import prelude gmap strings.
From Coq Require Import ZArith.
From Verif Require Import KnownModel.
Open Scope nat_scope.

(** ** Executions *)
(** Values [V], states of all tags [T]; operators get the values of their operands, [None] for one that
    cannot be evaluated. *)
Record world (V T : Type) := World {
  lit : Z -> V;
  den : string -> list (option V) -> option V;
  truth : V -> bool;
  fresh : list V -> V;                          (* the content of a new variable with these dimensions *)
  select : V -> list V -> option V;
  update : V -> list V -> V -> option V;
  get_tag : T -> string -> list string -> option V;
  set_tag : T -> string -> list string -> V -> T }.
Arguments lit {V T} _ _. Arguments den {V T} _ _ _. Arguments truth {V T} _ _. Arguments fresh {V T} _ _.
Arguments select {V T} _ _ _. Arguments update {V T} _ _ _ _. Arguments get_tag {V T} _ _ _ _. Arguments set_tag {V T} _ _ _ _ _.

(** Variables: the open blocks, innermost first *)
Fixpoint look {V} (bs : list (gmap string V)) (x : string) : option V :=
  match bs with [] => None | b :: bs => match b !! x with Some v => Some v | None => look bs x end end.
Fixpoint store {V} (bs : list (gmap string V)) (x : string) (v : V) : option (list (gmap string V)) :=
  match bs with
  | [] => None
  | b :: bs => match b !! x with Some _ => Some (<[x := v]> b :: bs) | None => cons b <$> store bs x v end
  end.

Definition place V : Type := list (option V + string).
Inductive event (V : Type) :=
| Declared (k : decl) (x : string) (dims : list V)
| Created (x : string) (at_ : place V) (value : V)          (* a component *)
| BusCreated (x : string) (value : V)
| Tagged (x : string) (fields : list string) (value : V)
| Constrained (s : stmt) (refs : list (string * place V)).  (* the statement, and the places of all names in it *)
Arguments Declared {V} _ _ _. Arguments Created {V} _ _ _. Arguments BusCreated {V} _ _. Arguments Tagged {V} _ _ _. Arguments Constrained {V} _ _.

Fixpoint fields (acc : list access) : list string :=
  match acc with [] => [] | Fld f :: acc => f :: fields acc | Idx _ :: acc => fields acc end.

Section world.
Context {V T : Type} (W : world V T).
(** the values of the signals *)
Definition inputs : Type := string -> place V -> option V.
Record state := State { vars : list (gmap string V); tags : T }.

Fixpoint eval (I : inputs) (st : state) (e : expr) : option V :=
  match e with
  | Lit z => Some (lit W z)
  | Var k x acc =>
    let pl := (fix go acc := match acc with [] => [] | Fld f :: acc => inr f :: go acc | Idx e :: acc => inl (eval I st e) :: go acc end) acc in
    match k with
    | KVar => v ← look (vars st) x; is ← mapM (fun p => match p with inl o => o | inr _ => None end) pl; select W v is
    | KTag => get_tag W (tags st) x (fields acc)
    | _ => I x pl
    end
  | Op o args => den W o ((fix go l := match l with [] => [] | e :: l => eval I st e :: go l end) args)
  end.
Definition at_place (I : inputs) (st : state) (acc : list access) : place V :=
  (fun a => match a with Fld f => inr f | Idx e => inl (eval I st e) end) <$> acc.
Definition indexes (I : inputs) (st : state) (acc : list access) : option (list V) :=
  mapM (fun p => match p with inl o => o | inr _ => None end) (at_place I st acc).
(** all names of an expression outside of indexes, with their places *)
Fixpoint refs_of (I : inputs) (st : state) (e : expr) : list (string * place V) :=
  match e with
  | Lit _ => []
  | Var _ x acc => [(x, at_place I st acc)]
  | Op _ args => (fix go l := match l with [] => [] | e :: l => refs_of I st e ++ go l end) args
  end.

Definition declare (x : string) (v : V) (st : state) : option state :=
  match vars st with [] => None | b :: bs => Some (State (<[x := v]> b :: bs) (tags st)) end.
Inductive run (I : inputs) : state -> stmt -> state -> list (event V) -> Prop :=
| r_var st x dims vs st' : mapM (eval I st) dims = Some vs -> declare x (fresh W vs) st = Some st' ->
    run I st (Declare DVar x dims) st' []
| r_anonymous st x dims : run I st (Declare DAnonymous x dims) st [Declared DAnonymous x []]
| r_declare st k x dims vs : k <> DVar -> k <> DAnonymous -> mapM (eval I st) dims = Some vs ->
    run I st (Declare k x dims) st [Declared k x vs]
| r_assign st op x acc rhe old is v v' vs' : eval I st rhe = Some v -> indexes I st acc = Some is ->
    look (vars st) x = Some old -> update W old is v = Some v' -> store (vars st) x v' = Some vs' ->
    run I st (Assign KVar op x acc rhe) (State vs' (tags st)) []
| r_component st op x acc rhe v : eval I st rhe = Some v ->
    run I st (Assign KComponent op x acc rhe) st [Created x (at_place I st acc) v]
| r_bus st x acc rhe v : eval I st rhe = Some v -> run I st (Assign KBus AssignVar x acc rhe) st [BusCreated x v]
| r_tag st op x acc rhe v : eval I st rhe = Some v ->
    run I st (Assign KTag op x acc rhe) (State (vars st) (set_tag W (tags st) x (fields acc) v)) [Tagged x (fields acc) v]
| r_constraint st k x acc rhe : k = KSignal \/ k = KBus ->
    run I st (Assign k AssignConstraint x acc rhe) st
      [Constrained (Assign k AssignConstraint x acc rhe) ((x, at_place I st acc) :: refs_of I st rhe)]
| r_signal st op x acc rhe : op <> AssignConstraint -> run I st (Assign KSignal op x acc rhe) st []
| r_bus_signal st x acc rhe : run I st (Assign KBus AssignSignal x acc rhe) st []
| r_underscore st op rhe : op <> AssignConstraint -> run I st (Underscore op rhe) st []
| r_underscore_c st rhe : run I st (Underscore AssignConstraint rhe) st [Constrained (Underscore AssignConstraint rhe) (refs_of I st rhe)]
| r_equal st lhe rhe : run I st (Equal lhe rhe) st [Constrained (Equal lhe rhe) (refs_of I st lhe ++ refs_of I st rhe)]
| r_if_true st c t f v st' tr : eval I st c = Some v -> truth W v = true -> run I st t st' tr -> run I st (If c t f) st' tr
| r_if_false st c t f v st' tr : eval I st c = Some v -> truth W v = false -> run I st f st' tr -> run I st (If c t (Some f)) st' tr
| r_if_none st c t v : eval I st c = Some v -> truth W v = false -> run I st (If c t None) st []
| r_while_end st c b v : eval I st c = Some v -> truth W v = false -> run I st (While c b) st []
| r_while st c b v st1 st2 tr1 tr2 : eval I st c = Some v -> truth W v = true -> run I st b st1 tr1 ->
    run I st1 (While c b) st2 tr2 -> run I st (While c b) st2 (tr1 ++ tr2)
| r_block st l b bs g tr : runs I (State (∅ :: vars st) (tags st)) l (State (b :: bs) g) tr ->
    run I st (Block l) (State bs g) tr
| r_init st l st' tr : runs I st l st' tr -> run I st (Init l) st' tr
| r_other st : run I st Other st []
with runs (I : inputs) : state -> list stmt -> state -> list (event V) -> Prop :=
| rs_nil st : runs I st [] st []
| rs_cons st s l st1 st2 tr1 tr2 : run I st s st1 tr1 -> runs I st1 l st2 tr2 -> runs I st (s :: l) st2 (tr1 ++ tr2).
End world.
Arguments State {V T} _ _. Arguments vars {V T} _. Arguments tags {V T} _.

(** ** Conditions on templates *)
(** *** What the grammar guarantees *)
Fixpoint mentions (x : string) (e : expr) : bool :=
  match e with
  | Lit _ => false
  | Var _ y acc => bool_decide (x = y) || (fix go acc := match acc with [] => false | Fld _ :: acc => go acc | Idx e :: acc => mentions x e || go acc end) acc
  | Op _ args => (fix go l := match l with [] => false | e :: l => mentions x e || go l end) args
  end.
(** declares no variable in the block it stands in *)
Fixpoint closed (s : stmt) : bool :=
  match s with
  | Declare DVar _ _ => false
  | Init l => forallb closed l
  | _ => true
  end.
Definition declares_bus (s : stmt) : bool := match s with Declare DBus _ _ => true | _ => false end.
Definition creates_bus (s : stmt) : bool := match s with Assign KBus AssignVar _ _ _ => true | _ => false end.
(** Branches and bodies of loops are no declarations; a bus is created where it is declared; the
    dimensions of an array are not given by a variable with the same name. *)
Fixpoint grammatical (s : stmt) : bool :=
  match s with
  | Declare _ x dims => forallb (fun d => negb (mentions x d)) dims
  | Assign KBus AssignVar _ _ _ => false
  | If _ t f => closed t && grammatical t && match f with Some f => closed f && grammatical f | None => true end
  | While _ b => closed b && grammatical b
  | Block l => forallb grammatical l
  | Init l => forallb (fun s => grammatical s || (existsb declares_bus l && creates_bus s)) l
  | _ => true
  end.

(** *** Nested loops *)
(** the variables assigned or declared in a statement; and those assigned outside of the loops in it *)
Fixpoint assigned (s : stmt) : list string :=
  match s with
  | Declare DVar x _ => [x]
  | Assign KVar _ x _ _ => [x]
  | If _ t f => assigned t ++ match f with Some f => assigned f | None => [] end
  | While _ b => assigned b
  | Block l | Init l => flat_map assigned l
  | _ => []
  end.
Fixpoint directly (s : stmt) : list string :=
  match s with
  | Declare DVar x _ => [x]
  | Assign KVar _ x _ _ => [x]
  | If _ t f => directly t ++ match f with Some f => directly f | None => [] end
  | While _ b => []
  | Block l | Init l => flat_map directly l
  | _ => []
  end.
(** In every branch and in every body of a loop, a variable assigned in a loop is also assigned outside of
    the loops of that branch or body. *)
Fixpoint loops_ok (s : stmt) : Prop :=
  match s with
  | If _ t f => assigned s ⊆ directly s /\ loops_ok t /\ match f with Some f => loops_ok f | None => True end
  | While _ b => assigned b ⊆ directly b /\ loops_ok b
  | Block l | Init l => (fix go l := match l with [] => True | s :: l => loops_ok s /\ go l end) l
  | _ => True
  end.

(** *** Arrays and parameters *)
(** [P]: variables that are only ever computed from variables in [P], numbers and tags, under conditions
    of the same kind.  All arrays and all parameters must be in [P]; indexes of variables must be pure. *)
Section pure.
Context (P : gset string).
Fixpoint pure (e : expr) : Prop :=
  match e with
  | Lit _ => True
  | Var KVar x acc => x ∈ P /\ (fix go acc := match acc with [] => True | Fld _ :: acc => go acc | Idx e :: acc => pure e /\ go acc end) acc
  | Var KTag _ _ => True
  | Var _ _ _ => False
  | Op _ args => (fix go l := match l with [] => True | e :: l => pure e /\ go l end) args
  end.
Definition pure_accs (acc : list access) : Prop := Forall (fun a => match a with Idx e => pure e | Fld _ => True end) acc.
(** the indexes of all variables in an expression are pure *)
Fixpoint reads_ok (e : expr) : Prop :=
  match e with
  | Lit _ => True
  | Var KVar _ acc => pure_accs acc
  | Var _ _ acc => (fix go acc := match acc with [] => True | Fld _ :: acc => go acc | Idx e :: acc => reads_ok e /\ go acc end) acc
  | Op _ args => (fix go l := match l with [] => True | e :: l => reads_ok e /\ go l end) args
  end.
Definition reads_ok_accs (acc : list access) : Prop := Forall (fun a => match a with Idx e => reads_ok e | Fld _ => True end) acc.
Definition untouched (l : list string) : Prop := Forall (fun x => x ∉ P) l.
Fixpoint disciplined (s : stmt) : Prop :=
  match s with
  | Declare k x dims => Forall reads_ok dims /\ (k = DVar -> dims <> [] -> x ∈ P)
  | Assign KVar _ x acc rhe => reads_ok rhe /\ ((x ∈ P /\ pure_accs acc /\ pure rhe) \/ (x ∉ P /\ acc = []))
  | Assign _ _ _ acc rhe => reads_ok_accs acc /\ reads_ok rhe
  | Underscore _ rhe => reads_ok rhe
  | Equal lhe rhe => reads_ok lhe /\ reads_ok rhe
  | If c t f => reads_ok c /\ (pure c \/ untouched (assigned s)) /\ disciplined t /\ match f with Some f => disciplined f | None => True end
  | While c b => reads_ok c /\ (pure c \/ untouched (assigned b)) /\ disciplined b
  | Block l | Init l => (fix go l := match l with [] => True | s :: l => disciplined s /\ go l end) l
  | Other => True
  end.
End pure.
