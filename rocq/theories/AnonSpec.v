(** What the statements of a template do while a circuit is built, for
    programs with anonymous components and tuples and for programs without.

    The meaning is given over any domain of values [dom].  A run produces a
    trace: the signals declared, the instances created (which template, with
    which parameters), the signals and ports assigned (with which operator and
    value), the equality constraints, asserts and logs.

    The instances made by anonymous components have no name in the program.
    A run takes their names from a supply of names, in the order in which the
    instances are made. *)
From Coq Require Import ZArith.
From stdpp Require Import base list strings gmap.
From Verif Require Import AnonModel.

(** Evaluated accesses. *)
Inductive vaccess (V : Type) := VComponent (s : string) | VArray (v : V).
Arguments VComponent {V} s.
Arguments VArray {V} v.

(** An instance: a component name and the evaluated indexes. *)
Definition inst (V : Type) : Type := string * list V.

(** The values: whatever they are, the operations may fail. *)
Record dom := Dom {
  val : Type;
  val_eq : EqDecision val;
  vnum : Z -> val;
  vinfix : infix -> val -> val -> option val;
  vprefix : prefix -> val -> option val;
  vswitch : val -> val -> val -> option val;
  varray : list val -> option val;
  vuniform : val -> val -> option val;
  vcall : string -> list val -> option val;
  vbus : string -> list val -> option val;
  (** reading a signal, reading a port of an instance *)
  vsignal : string -> list (vaccess val) -> option val;
  vport : inst val -> string -> list (vaccess val) -> option val;
  (** reading and writing a part of a variable *)
  vselect : val -> list (vaccess val) -> option val;
  vupdate : val -> list (vaccess val) -> val -> option val;
  (** the value of a variable that has just been declared *)
  vnew : list val -> val;
  (** the truth of a condition, if it is known *)
  vtrue : val -> option bool;
}.
#[global] Existing Instance val_eq.

(** The numbers can be counted and told apart: adding one to the number [n]
    gives the number [n + 1]. *)
Definition counts (D : dom) : Prop :=
  (forall n, vinfix D Add (vnum D n) (vnum D 1) = Some (vnum D (n + 1))) /\
  (forall n m, vnum D n = vnum D m -> n = m).

Section semantics.
  Variable D : dom.
  Notation V := (val D).
  Notation va := (vaccess V).

  (** What a name is bound to. *)
  Inductive binding := BVar (v : V) | BSignal | BComponent.

  (** An expression is a value or the instantiation of a template. *)
  Inductive rval := RVal (v : V) | RInst (id : string) (params : list V) (par : bool).

  Inductive place := PSignal (x : string) (acc : list va)
                   | PPort (i : inst V) (port : string) (acc : list va).

  Inductive event :=
  | EDeclare (t : xtype) (x : string) (dims : list V)
  | ECreate (i : inst V) (id : string) (params : list V) (par : bool)
  | EAssign (op : aop) (p : place) (v : V)
  | EIgnore (op : aop) (v : V)
  | EConstraint (l r : V)
  | EAssert (v : V)
  | ELog (l : list (string + V)).

  (** The state: the bindings, the names declared in the current block, the
      trace (last event first) and the supply of names. *)
  Record state := State {
    env : gmap string binding;
    locals : gset string;
    trace : list event;
    supply : list (inst V);
  }.

  (** The outcome of a run. *)
  Inductive out (A : Type) :=
  | Done (a : A)
  | Returned (tr : list event) (v : V)
  | Failed
  | OutOfFuel
  | OutOfNames.
  Arguments Done {A} a.
  Arguments Returned {A} tr v.
  Arguments Failed {A}.
  Arguments OutOfFuel {A}.
  Arguments OutOfNames {A}.

  Definition obind {A B} (o : out A) (f : A -> out B) : out B :=
    match o with
    | Done a => f a
    | Returned tr v => Returned tr v
    | Failed => Failed
    | OutOfFuel => OutOfFuel
    | OutOfNames => OutOfNames
    end.

  Definition ofopt {A} (o : option A) : out A :=
    match o with Some a => Done a | None => Failed end.

  (** The templates of the program. *)
  Variable templates : gmap string stmt.

  Definition the_value (r : option rval) : option V :=
    match r with Some (RVal v) => Some v | _ => None end.

  (** [c\[i\]\[j\].port...]: the indexes before the first dot. *)
  Fixpoint split_access (l : list va) : list V * list va :=
    match l with
    | VArray v :: r => let '(is', rest) := split_access r in (v :: is', rest)
    | _ => ([], l)
    end.

  Definition read (b : option binding) (x : string) (acc : list va) : option V :=
    match b with
    | Some (BVar v) => match acc with [] => Some v | _ => vselect D v acc end
    | Some BSignal => vsignal D x acc
    | Some BComponent =>
        match split_access acc with
        | (idx, VComponent port :: rest) => vport D (x, idx) port rest
        | _ => None
        end
    | None => None
    end.

  (** Expressions without anonymous components and tuples. *)
  Fixpoint eval (m : gmap string binding) (e : exp) : option rval :=
    match e with
    | Infix l op r =>
        a ← the_value (eval m l); b ← the_value (eval m r); RVal <$> vinfix D op a b
    | Prefix op r => a ← the_value (eval m r); RVal <$> vprefix D op a
    | Switch c a b =>
        vc ← the_value (eval m c); x ← the_value (eval m a); y ← the_value (eval m b);
        RVal <$> vswitch D vc x y
    | Parallel r =>
        match eval m r with Some (RInst id ps _) => Some (RInst id ps true) | _ => None end
    | Var x acc =>
        acc' ← mapM id (map (fun a => match a with
                               | ComponentAccess s => Some (VComponent s)
                               | ArrayAccess e => VArray <$> the_value (eval m e) end) acc);
        RVal <$> read (m !! x) x acc'
    | Num z => Some (RVal (vnum D z))
    | Call f args =>
        vs ← mapM id (map (fun e => the_value (eval m e)) args);
        if templates !! f then Some (RInst f vs false) else RVal <$> vcall D f vs
    | BusCall f args =>
        vs ← mapM id (map (fun e => the_value (eval m e)) args); RVal <$> vbus D f vs
    | ArrayInLine es =>
        vs ← mapM id (map (fun e => the_value (eval m e)) es); RVal <$> varray D vs
    | UniformArray v d =>
        a ← the_value (eval m v); b ← the_value (eval m d); RVal <$> vuniform D a b
    | Anon _ _ _ _ _ _ | Tuple _ => None
    end.

  Definition value (m : gmap string binding) (e : exp) : option V := the_value (eval m e).
  Definition values (m : gmap string binding) (es : list exp) : option (list V) :=
    mapM id (map (value m) es).
  Definition accesses (m : gmap string binding) (acc : list (access exp)) : option (list va) :=
    mapM id (map (fun a => match a with
                           | ComponentAccess s => Some (VComponent s)
                           | ArrayAccess e => VArray <$> value m e end) acc).

  (** The position of an assignment; [_] has none. *)
  Definition position (m : gmap string binding) (x : string) (acc : list (access exp))
    : option (list va) := if bool_decide (x = "_") then Some [] else accesses m acc.

  Definition emit (e : event) (st : state) : state :=
    State (env st) (locals st) (e :: trace st) (supply st).
  Definition bind_name (x : string) (b : binding) (st : state) : state :=
    State (<[x := b]> (env st)) (locals st) (trace st) (supply st).

  (** Which arguments an anonymous component gives to which inputs: the first
      argument to the input declared first and so on, or by name.  Every input
      of the template has to get exactly one argument.  The inputs are assigned
      in the alphabetical order of their names. *)
  Fixpoint place_in_order {A} (x : string * A) (l : list (string * A)) : list (string * A) :=
    match l with
    | [] => [x]
    | y :: r => if String.leb x.1 y.1 then x :: l else y :: place_in_order x r
    end.
  Definition in_order {A} (l : list (string * A)) : list (string * A) :=
    foldr place_in_order [] l.

  Definition arguments {A} (body : stmt) (names : option (list (aop * string))) (args : list A)
    : option (list (string * A)) :=
    let given := match names with None => declaration_inputs body | Some m => map snd m end in
    if bool_decide (given ≡ₚ declaration_inputs body /\ length args = length given)
    then Some (in_order (zip given args)) else None.

  (** Expressions, giving the list of their values: an anonymous component
      has one value for each output of its template, in the order of their
      declarations; the values of a tuple are those of its elements. *)
  Definition one {A} (o : out (state * list A)) : out (state * A) :=
    obind o (fun '(st, vs) => match vs with [v] => Done (st, v) | _ => Failed end).
  Definition one_value (o : out (state * list rval)) : out (state * V) :=
    obind o (fun '(st, vs) => match vs with [RVal v] => Done (st, v) | _ => Failed end).

  Fixpoint seq {A} (fs : list (state -> out (state * A))) (st : state) : out (state * list A) :=
    match fs with
    | [] => Done (st, [])
    | f :: fs' =>
        obind (f st) (fun '(st1, a) => obind (seq fs' st1) (fun '(st2, l) => Done (st2, a :: l)))
    end.

  Fixpoint evals (par : bool) (e : exp) (st : state) : out (state * list rval) :=
    match e with
    | Tuple es =>
        obind (seq (map (evals false) es) st) (fun '(st', vs) => Done (st', concat vs))
    | ArrayInLine es =>
        obind (seq (map (fun f st => one_value (f st)) (map (evals false) es)) st)
          (fun '(st', vs) => obind (ofopt (varray D vs)) (fun v => Done (st', [RVal v])))
    | Parallel (Anon _ _ _ _ _ _ as r) => evals true r st
    | Anon _ f is_par params args names =>
        match templates !! f with
        | None => Failed
        | Some body =>
            obind (ofopt (values (env st) params)) (fun ps =>
            match arguments body names (map (evals false) args) with
            | None => Failed
            | Some ia =>
              match supply st with
              | [] => OutOfNames
              | i :: rest =>
                  let st1 := State (env st) (locals st)
                               (ECreate i f ps (is_par || par) :: trace st) rest in
                  obind (seq (map (fun '(x, f) st =>
                           obind (one_value (f st)) (fun '(st', v) =>
                           Done (emit (EAssign AssignConstraintSignal (PPort i x []) v) st', tt))) ia) st1)
                    (fun '(st2, _) =>
                       obind (ofopt (mapM (fun x => vport D i x []) (declaration_outputs body)))
                         (fun vs => Done (st2, map RVal vs)))
              end
            end)
        end
    | _ => obind (ofopt (eval (env st) e)) (fun v => Done (st, [v]))
    end.

  (** Assignment of a value (or creation of an instance: only once). *)
  Definition is_create (i : inst V) (e : event) : bool :=
    match e with ECreate j _ _ _ => bool_decide (i = j) | _ => false end.

  Definition assign (op : aop) (x : string) (acc : list va) (r : rval) (st : state) : out state :=
    if bool_decide (x = "_") then
      match r with RVal v => Done (emit (EIgnore op v) st) | _ => Failed end
    else
    match env st !! x, r with
    | Some (BVar old), RVal v =>
        if bool_decide (op = AssignVar) then
          match acc with
          | [] => Done (bind_name x (BVar v) st)
          | _ => obind (ofopt (vupdate D old acc v)) (fun w => Done (bind_name x (BVar w) st))
          end
        else Failed
    | Some BSignal, RVal v => Done (emit (EAssign op (PSignal x acc) v) st)
    | Some BComponent, RVal v =>
        match split_access acc with
        | (idx, VComponent port :: rest) =>
            Done (emit (EAssign op (PPort (x, idx) port rest) v) st)
        | _ => Failed
        end
    | Some BComponent, RInst f ps par =>
        match op, split_access acc with
        | AssignVar, (idx, []) =>
            if existsb (is_create (x, idx)) (trace st) then Failed
            else Done (emit (ECreate (x, idx) f ps par) st)
        | _, _ => Failed
        end
    | _, _ => Failed
    end.

  (** The left side of a tuple assignment. *)
  Fixpoint targets (e : exp) : option (list (string * list (access exp))) :=
    match e with
    | Var x acc => Some [(x, acc)]
    | Tuple es => (fun l => concat l) <$> mapM id (map targets es)
    | _ => None
    end.

  (** Only a tuple can be on the left of a tuple assignment. *)
  Definition tuple_targets (e : exp) : option (list (string * list (access exp))) :=
    if is_tuple e then targets e else None.

  Fixpoint assign_all (op : aop) (l : list (string * list va * rval)) (st : state) : out state :=
    match l with
    | [] => Done st
    | (x, acc, v) :: l' => obind (assign op x acc v st) (assign_all op l')
    end.

  (** A logged tuple is printed between parentheses. *)
  Fixpoint log_values (m : gmap string binding) (e : exp) : option (list (string + V)) :=
    match e with
    | Tuple es => (fun l => inl "("%string :: concat l ++ [inl ")"%string]) <$> mapM id (map (log_values m) es)
    | _ => (fun v => [inr v]) <$> value m e
    end.

  Definition log_arg (m : gmap string binding) (a : logarg) : option (list (string + V)) :=
    match a with LogStr s => Some [inl s] | LogExp e => log_values m e end.

  (** Entering and leaving a block: the names declared inside are forgotten. *)
  Definition enter (st : state) : state := State (env st) ∅ (trace st) (supply st).
  Definition leave (before after : state) : state :=
    State (filter (fun kv => kv.1 ∉ locals after) (env after)
             ∪ filter (fun kv => kv.1 ∈ locals after) (env before))
      (locals before) (trace after) (supply after).

  Definition declare (t : xtype) (x : string) (dims : list exp) (st : state) : out state :=
    if bool_decide (x ∈ locals st) then Failed
    else
      let decl b := State (<[x := b]> (env st)) ({[x]} ∪ locals st) (trace st) (supply st) in
      match t with
      | XVar => obind (ofopt (values (env st) dims)) (fun ds => Done (decl (BVar (vnew D ds))))
      | XSignal _ | XBus _ _ =>
          obind (ofopt (values (env st) dims)) (fun ds =>
            Done (emit (EDeclare t x ds) (decl BSignal)))
      | XComponent => obind (ofopt (values (env st) dims)) (fun _ => Done (decl BComponent))
      | XAnonymousComponent => Done (decl BComponent)
      end.

  Fixpoint run_all (fs : list (state -> out state)) (st : state) : out state :=
    match fs with
    | [] => Done st
    | f :: fs' => obind (f st) (run_all fs')
    end.

  Fixpoint loop (cond : state -> option bool) (body : state -> out state) (fuel : nat)
      (st : state) : out state :=
    match fuel with
    | 0 => OutOfFuel
    | S fuel' =>
        match cond st with
        | None => Failed
        | Some false => Done st
        | Some true => obind (body st) (loop cond body fuel')
        end
    end.

  Definition condition (c : exp) (st : state) : option bool := value (env st) c ≫= vtrue D.

  (** Statements.  In a tuple assignment all values and all positions are
      computed before the first assignment. *)
  Variable fuel : nat.

  Fixpoint exec (s : stmt) (st : state) : out state :=
    match s with
    | IfThenElse c a b =>
        match condition c st with
        | None => Failed
        | Some true => exec a st
        | Some false => match b with None => Done st | Some b' => exec b' st end
        end
    | While _ c s => loop (condition c) (exec s) fuel st
    | Return e => obind (ofopt (value (env st) e)) (fun v => Returned (trace st) v)
    | InitializationBlock _ l => run_all (map exec l) st
    | Declaration t x dims _ => declare t x dims st
    | Substitution x acc op e =>
        obind (one (evals false e st)) (fun '(st', v) =>
        obind (ofopt (position (env st') x acc)) (fun acc' => assign op x acc' v st'))
    | MultSubstitution l op r =>
        obind (evals false r st) (fun '(st', vs) =>
        obind (ofopt (tuple_targets l)) (fun ts =>
        obind (ofopt (mapM id (map (fun t => (fun a => (t.1, a)) <$> position (env st') t.1 t.2) ts)))
          (fun ts' =>
             if bool_decide (length ts' = length vs)
             then assign_all op (zip ts' vs) st' else Failed)))
    | UnderscoreSubstitution op e =>
        obind (one_value (evals false e st)) (fun '(st', v) => Done (emit (EIgnore op v) st'))
    | ConstraintEquality l r =>
        obind (ofopt (value (env st) l)) (fun a =>
        obind (ofopt (value (env st) r)) (fun b => Done (emit (EConstraint a b) st)))
    | LogCall args =>
        obind (ofopt (mapM id (map (log_arg (env st)) args))) (fun l =>
          Done (emit (ELog (concat l)) st))
    | Block l => obind (run_all (map exec l) (enter st)) (fun st' => Done (leave st st'))
    | Assert e => obind (ofopt (value (env st) e)) (fun v => Done (emit (EAssert v) st))
    end.

  (** The observable result of running a body with the given bindings (the
      parameters) and supply: the trace, in order. *)
  Inductive result := Built (tr : list event) | Value (tr : list event) (v : V)
                    | Error | Unfinished | Starved.

  Definition run (params : gmap string binding) (names : list (inst V)) (body : stmt) : result :=
    match exec body (State params ∅ [] names) with
    | Done st => Built (rev (trace st))
    | Returned tr v => Value (rev tr) v
    | Failed => Error
    | OutOfFuel => Unfinished
    | OutOfNames => Starved
    end.
End semantics.

(** * Programs *)

(** The names an expression mentions. *)
Fixpoint fv (e : exp) : list string :=
  match e with
  | Infix l _ r | UniformArray l r => fv l ++ fv r
  | Prefix _ r | Parallel r => fv r
  | Switch c a b => fv c ++ fv a ++ fv b
  | Var x acc => x :: concat (map (fun a => match a with ComponentAccess _ => [] | ArrayAccess e => fv e end) acc)
  | Num _ => []
  | Call _ args | BusCall _ args | ArrayInLine args | Tuple args => concat (map fv args)
  | Anon _ _ _ params sigs _ => concat (map fv params) ++ concat (map fv sigs)
  end.

Definition fv_acc (acc : list (access exp)) : list string :=
  concat (map (fun a => match a with ComponentAccess _ => [] | ArrayAccess e => fv e end) acc).

(** Named arguments come with one name each. *)
Fixpoint names_ok (e : exp) : Prop :=
  match e with
  | Anon _ _ _ _ sigs names =>
      (match names with None => True | Some m => length m = length sigs end) /\
      Forall id (map names_ok sigs)
  | Tuple es | ArrayInLine es => Forall id (map names_ok es)
  | Parallel r => names_ok r
  | _ => True
  end.

(** The names a statement mentions. *)
Fixpoint snames (s : stmt) : list string :=
  match s with
  | IfThenElse c a b => fv c ++ snames a ++ match b with None => [] | Some b' => snames b' end
  | While _ c s => fv c ++ snames s
  | Return e | Assert e | UnderscoreSubstitution _ e => fv e
  | InitializationBlock _ l | Block l => concat (map snames l)
  | Declaration _ x dims _ => x :: concat (map fv dims)
  | Substitution x acc _ e => x :: fv_acc acc ++ fv e
  | MultSubstitution l _ r | ConstraintEquality l r => fv l ++ fv r
  | LogCall args => concat (map (fun a => match a with LogStr _ => [] | LogExp e => fv e end) args)
  end.

(** A statement that declares nothing in the block it stands in. *)
Fixpoint nodecl (s : stmt) : Prop :=
  match s with
  | InitializationBlock _ _ | Declaration _ _ _ _ => False
  | IfThenElse _ a b => nodecl a /\ match b with None => True | Some b' => nodecl b' end
  | _ => True
  end.

(** What the parser guarantees: one name for each named argument, and the
    body of a loop is not a bare declaration. *)
Fixpoint parsed (s : stmt) : Prop :=
  match s with
  | IfThenElse _ a b => parsed a /\ match b with None => True | Some b' => parsed b' end
  | While _ _ s => nodecl s /\ parsed s
  | InitializationBlock _ l | Block l => Forall id (map parsed l)
  | Substitution _ _ _ e => names_ok e
  | MultSubstitution _ _ r => names_ok r
  | _ => True
  end.

(** Tuple assignments to variables, [(x, y, ...) = ...]: no variable that is
    assigned is read on the right or in an index on the left. *)
Fixpoint independent (s : stmt) : Prop :=
  match s with
  | IfThenElse _ a b => independent a /\ match b with None => True | Some b' => independent b' end
  | While _ _ s => independent s
  | InitializationBlock _ l | Block l => Forall id (map independent l)
  | MultSubstitution l AssignVar r =>
      match targets l with
      | None => True
      | Some ts => forall t u, t ∈ ts -> u ∈ ts -> t.1 ∉ fv r /\ t.1 ∉ fv_acc u.2
      end
  | _ => True
  end.

(** The anonymous components, with the names of their templates, and the
    loops of a body, with their positions in the file. *)
Definition node : Type := option string * N.

Fixpoint exp_nodes (e : exp) : list node :=
  match e with
  | Infix l _ r | UniformArray l r => exp_nodes l ++ exp_nodes r
  | Prefix _ r | Parallel r => exp_nodes r
  | Switch c a b => exp_nodes c ++ exp_nodes a ++ exp_nodes b
  | Var _ acc => concat (map (fun a => match a with ComponentAccess _ => []
                                                  | ArrayAccess e => exp_nodes e end) acc)
  | Num _ => []
  | Call _ args | BusCall _ args | ArrayInLine args | Tuple args => concat (map exp_nodes args)
  | Anon pos f _ params sigs _ =>
      (Some f, pos) :: concat (map exp_nodes params) ++ concat (map exp_nodes sigs)
  end.

Definition acc_nodes (acc : list (access exp)) : list node :=
  concat (map (fun a => match a with ComponentAccess _ => [] | ArrayAccess e => exp_nodes e end) acc).

Fixpoint nodes (s : stmt) : list node :=
  match s with
  | IfThenElse c a b => exp_nodes c ++ nodes a ++ match b with None => [] | Some b' => nodes b' end
  | While pos c s => (None, pos) :: exp_nodes c ++ nodes s
  | Return e | Assert e | UnderscoreSubstitution _ e => exp_nodes e
  | InitializationBlock _ l | Block l => concat (map nodes l)
  | Declaration _ _ dims _ => concat (map exp_nodes dims)
  | Substitution _ acc _ e => acc_nodes acc ++ exp_nodes e
  | MultSubstitution l _ r | ConstraintEquality l r => exp_nodes l ++ exp_nodes r
  | LogCall args =>
      concat (map (fun a => match a with LogStr _ => [] | LogExp e => exp_nodes e end) args)
  end.

(** The name the pass gives to the component, or to the counter of the loop. *)
Definition node_name (line : N -> N) (n : node) : string :=
  match n.1 with Some f => anon_name line f n.2 | None => counter_name line n.2 end.

(** * No sugar *)

(** No anonymous component and no tuple anywhere. *)
Fixpoint no_sugar_exp (e : exp) : Prop :=
  match e with
  | Infix l _ r | UniformArray l r => no_sugar_exp l /\ no_sugar_exp r
  | Prefix _ r | Parallel r => no_sugar_exp r
  | Switch c a b => no_sugar_exp c /\ no_sugar_exp a /\ no_sugar_exp b
  | Var _ acc =>
      Forall id (map (fun a => match a with ComponentAccess _ => True
                                          | ArrayAccess e => no_sugar_exp e end) acc)
  | Num _ => True
  | Call _ args | BusCall _ args | ArrayInLine args => Forall id (map no_sugar_exp args)
  | Anon _ _ _ _ _ _ | Tuple _ => False
  end.

Definition no_sugar_acc (acc : list (access exp)) : Prop :=
  Forall (fun a => match a with ComponentAccess _ => True
                              | ArrayAccess e => no_sugar_exp e end) acc.

Fixpoint no_sugar (s : stmt) : Prop :=
  match s with
  | IfThenElse c a b =>
      no_sugar_exp c /\ no_sugar a /\ match b with None => True | Some b' => no_sugar b' end
  | While _ c s => no_sugar_exp c /\ no_sugar s
  | Return e | Assert e | UnderscoreSubstitution _ e => no_sugar_exp e
  | InitializationBlock _ l | Block l => Forall id (map no_sugar l)
  | Declaration _ _ dims _ => Forall no_sugar_exp dims
  | Substitution _ acc _ e => no_sugar_acc acc /\ no_sugar_exp e
  | MultSubstitution _ _ _ => False
  | ConstraintEquality l r => no_sugar_exp l /\ no_sugar_exp r
  | LogCall args => Forall (fun a => match a with LogStr _ => True | LogExp e => no_sugar_exp e end) args
  end.

(** An anonymous component under [parallel] has no anonymous component among
    its parameters and arguments. *)
Fixpoint flat_parallel_exp (e : exp) : Prop :=
  match e with
  | Parallel (Anon _ _ _ params sigs _) => concat (map exp_nodes (params ++ sigs)) = []
  | Anon _ _ _ _ sigs _ => Forall id (map flat_parallel_exp sigs)
  | Tuple es | ArrayInLine es => Forall id (map flat_parallel_exp es)
  | _ => True
  end.

Fixpoint flat_parallel (s : stmt) : Prop :=
  match s with
  | IfThenElse _ a b =>
      flat_parallel a /\ match b with None => True | Some b' => flat_parallel b' end
  | While _ _ s => flat_parallel s
  | InitializationBlock _ l | Block l => Forall id (map flat_parallel l)
  | Substitution _ _ _ e => flat_parallel_exp e
  | MultSubstitution _ _ r => flat_parallel_exp r
  | _ => True
  end.

(** The parser never builds this statement. *)
Fixpoint no_underscore (s : stmt) : Prop :=
  match s with
  | IfThenElse _ a b =>
      no_underscore a /\ match b with None => True | Some b' => no_underscore b' end
  | While _ _ s => no_underscore s
  | InitializationBlock _ l | Block l => Forall id (map no_underscore l)
  | UnderscoreSubstitution _ _ => False
  | _ => True
  end.
