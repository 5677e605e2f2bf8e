(** When the names of a program are used as declared: on every path through a body, by positions in the list of
    events of the path.  Nothing of the analysis is used. *)
From stdpp Require Import prelude gmap numbers list strings.
From Verif Require Import ScopeModel.
Local Open Scope nat_scope.

(** ** Paths *)
(** what the evaluation of an expression does with names; one branch of a conditional expression is evaluated *)
Inductive path_e : expr -> list event -> Prop :=
| p_number : path_e Number []
| p_infix l r a b : path_e l a -> path_e r b -> path_e (InfixOp l r) (a ++ b)
| p_prefix e a : path_e e a -> path_e (PrefixOp e) a
| p_parallel e a : path_e e a -> path_e (ParallelOp e) a
| p_true c t f a b : path_e c a -> path_e t b -> path_e (Switch c t f) (a ++ b)
| p_false c t f a b : path_e c a -> path_e f b -> path_e (Switch c t f) (a ++ b)
| p_variable x acc a : path_acc acc a -> path_e (VariableOf x acc) (Read x :: a)
| p_call f args a : path_es args a -> path_e (Call f args) (CallTo f (length args) :: a)
| p_bus b args a : path_es args a -> path_e (BusCall b args) (BusOf b (length args) :: a)
| p_array l a : path_es l a -> path_e (ArrayInLine l) a
| p_uniform v d a b : path_e v a -> path_e d b -> path_e (UniformArray v d) (a ++ b)
with path_es : list expr -> list event -> Prop :=
| p_nil : path_es [] []
| p_cons e l a b : path_e e a -> path_es l b -> path_es (e :: l) (a ++ b)
with path_acc : list access -> list event -> Prop :=
| p_none : path_acc [] []
| p_index e acc a b : path_e e a -> path_acc acc b -> path_acc (ArrayAccess e :: acc) (a ++ b)
| p_field f acc a : path_acc acc a -> path_acc (ComponentAccess f :: acc) a.
(** statements: any branch, any number of iterations; code after a [return] counts, too *)
Inductive path_s : stmt -> list event -> Prop :=
| p_return e a : path_e e a -> path_s (Return e) a
| p_underscore e a : path_e e a -> path_s (Underscore e) a
| p_assign x acc e a b : path_e e a -> path_acc acc b -> path_s (Substitution x acc e) (a ++ Write x :: b)
| p_equality l r a b : path_e l a -> path_e r b -> path_s (Equality l r) (a ++ b)
| p_init l a : path_ss l a -> path_s (Initialization l) a
| p_declare k x dims a : path_es dims a -> path_s (Declaration k x dims) (a ++ [Declare k x])
| p_log args a : path_es (omap id args) a -> path_s (Log args) a
| p_assert e a : path_e e a -> path_s (Assert e) a
| p_block l a : path_ss l a -> path_s (Block l) (Open :: a ++ [Close])
| p_stop c s a : path_e c a -> path_s (While c s) a
| p_again c s a b d : path_e c a -> path_s s b -> path_s (While c s) d -> path_s (While c s) (a ++ b ++ d)
| p_then c t f a b : path_e c a -> path_s t b -> path_s (If c t f) (a ++ b)
| p_else c t f a b : path_e c a -> path_s f b -> path_s (If c t (Some f)) (a ++ b)
| p_skip c t a : path_e c a -> path_s (If c t None) a
with path_ss : list stmt -> list event -> Prop :=
| p_end : path_ss [] []
| p_next s l a b : path_s s a -> path_ss l b -> path_ss (s :: l) (a ++ b).
(** a definition: its parameters are variables *)
Inductive path_d : def -> list event -> Prop :=
| p_def d a : path_ss (body d) a -> path_d d ((Declare KVar <$> params d) ++ a).

(** The parser accepts a declaration only as an element of a block (lang.lalrpop:460-551). *)
Fixpoint no_declaration (s : stmt) : bool :=
  match s with
  | Declaration _ _ _ | Initialization _ => false
  | While _ s => no_declaration s
  | If _ t f => no_declaration t && match f with Some f => no_declaration f | None => true end
  | _ => true
  end.
Fixpoint parsed (s : stmt) : bool :=
  match s with
  | Initialization l | Block l => forallb parsed l
  | While _ s => no_declaration s && parsed s
  | If _ t f => no_declaration t && parsed t && match f with Some f => no_declaration f && parsed f | None => true end
  | _ => true
  end.
Definition parsed_def (d : def) : Prop := Forall (fun s => parsed s = true) (body d).

(** ** Blocks *)
Definition weight (v : event) : Z := match v with Open => 1 | Close => -1 | _ => 0 end.
(** blocks opened and not closed by the events from [i] to [j - 1] *)
Definition net (tr : list event) (i j : nat) : Z := foldr (fun v z => weight v + z)%Z 0%Z (take (j - i) (drop i tr)).
(** the innermost block at position [i] is still open at position [j] *)
Definition still_open (tr : list event) (i j : nat) : Prop := i <= j /\ forall m, i <= m <= j -> (0 <= net tr i m)%Z.
Definition declares (tr : list event) (j : nat) (x : string) : Prop := exists k, tr !! j = Some (Declare k x).
(** the declaration at [j] is visible at [i] *)
Definition visible (tr : list event) (x : string) (j i : nat) : Prop := j < i /\ declares tr j x /\ still_open tr j i.
(** ... and [i] is not in an inner block *)
Definition same_block (tr : list event) (x : string) (j i : nat) : Prop := visible tr x j i /\ net tr j i = 0%Z.
(** the declaration that a name refers to: the last one that is visible *)
Definition refers_to (tr : list event) (x : string) (i j : nat) : Prop :=
  visible tr x j i /\ forall j', j < j' -> ~ visible tr x j' i.

(** ** Correct use of names *)
Definition arguments (P : program) (f : string) (n : nat) : Prop :=
  (exists d, functions P !! f = Some d /\ length (params d) = n) \/
  functions P !! f = None /\ exists d ins, templates P !! f = Some (d, ins) /\ length (params d) = n.
Definition well_used (P : program) (tr : list event) (i : nat) : Prop :=
  match tr !! i with
  | Some (Read x) | Some (Write x) => exists j, visible tr x j i
  | Some (Declare k x) =>
    (forall j, ~ same_block tr x j i) /\
    match k with KBus _ b tags => forall d fields t, buses P !! b = Some (d, fields) -> t ∈ tags -> t ∉ fields | _ => True end
  | Some (CallTo f n) => arguments P f n
  | Some (BusOf b n) => exists d fields, buses P !! b = Some (d, fields) /\ length (params d) = n
  | Some Open | Some Close | None => True
  end.
Definition definition (P : program) (d : def) : Prop :=
  (exists f ins, templates P !! f = Some (d, ins)) \/ (exists f, functions P !! f = Some d) \/ (exists b fields, buses P !! b = Some (d, fields)).
Definition names_correct (P : program) : Prop :=
  (forall d tr i, definition P d -> path_d d tr -> well_used P tr i) /\
  (forall tr i, path_e (main P) tr -> well_used P tr i) /\
  (forall f args d ins x, main P = Call f args -> templates P !! f = Some (d, ins) -> x ∈ public P -> x ∈ ins).

(** a name declared once, or only as a variable *)
Definition own_name (tr : list event) (x : string) : Prop :=
  forall i j k k', i <> j -> tr !! i = Some (Declare k x) -> tr !! j = Some (Declare k' x) -> k = KVar /\ k' = KVar.
(** the same, from the text: the declarations of a body; in loops only variables are declared, and the name of anything
    else is not declared again *)
Inductive in_stmt : stmt -> kind -> string -> Prop :=
| i_init l s k x : s ∈ l -> in_stmt s k x -> in_stmt (Initialization l) k x
| i_declare k x dims : in_stmt (Declaration k x dims) k x
| i_block l s k x : s ∈ l -> in_stmt s k x -> in_stmt (Block l) k x
| i_while c s k x : in_stmt s k x -> in_stmt (While c s) k x
| i_then c t f k x : in_stmt t k x -> in_stmt (If c t f) k x
| i_else c t f k x : in_stmt f k x -> in_stmt (If c t (Some f)) k x.
(** declared at most once, and not in a loop *)
Fixpoint times (x : string) (s : stmt) : nat :=
  match s with
  | Initialization l | Block l => foldr (fun s n => times x s + n) 0 l
  | Declaration _ y _ => if decide (x = y) then 1 else 0
  | While _ s => 2 * times x s
  | If _ t f => times x t + match f with Some f => times x f | None => 0 end
  | _ => 0
  end.
Definition own_in_text (d : def) (x : string) : Prop :=
  (forall s k, s ∈ body d -> in_stmt s k x -> k = KVar) \/
  x ∉ params d /\ foldr (fun s n => times x s + n) 0 (body d) <= 1.
