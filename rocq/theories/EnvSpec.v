(** Lexical scoping: every declaration creates a cell of its own; a name means the cell of its innermost
    declaration in an open block; assignments write the cell, leaving a block forgets its names. *)
From stdpp Require Import prelude gmap strings.
From Verif Require Import EnvModel.

Inductive env_op (V : Type) : Type :=
| Open_ | Close_ | Declare_ (x : string) (v : V) | Assign_ (x : string) (v : V).
Arguments Open_ {V}. Arguments Close_ {V}. Arguments Declare_ {V} _ _. Arguments Assign_ {V} _ _.

(** open blocks, innermost first: the cell of each name; and the contents of the cells *)
Record scoping (V : Type) : Type := Scoping { scopes : list (gmap string nat); cells : list V }.
Arguments Scoping {V} _ _. Arguments scopes {V} _. Arguments cells {V} _.
Fixpoint resolve (ss : list (gmap string nat)) (x : string) : option nat :=
  match ss with [] => None | s :: ss => match s !! x with Some c => Some c | None => resolve ss x end end.
Definition scoping_new {V} : scoping V := Scoping [∅] [].
Definition scoping_step {V} (st : scoping V) (o : env_op V) : option (scoping V) :=
  match o, scopes st with
  | Open_, ss => Some (Scoping (∅ :: ss) (cells st))
  | Close_, _ :: ss => Some (Scoping ss (cells st))
  | Declare_ x v, s :: ss => Some (Scoping (<[x := length (cells st)]> s :: ss) (cells st ++ [v]))
  | Assign_ x v, ss => match resolve ss x with Some c => Some (Scoping ss (<[c := v]> (cells st))) | None => None end
  | _, [] => None
  end.
Definition value_of {V} (st : scoping V) (x : string) : option V := resolve (scopes st) x ≫= fun c => cells st !! c.
(** the calls on the environment *)
Definition env_step {CC SC V BC} (e : env CC SC V BC) (o : env_op V) : option (env CC SC V BC) :=
  match o with
  | Open_ => Some (add_variable_block e)
  | Close_ => remove_variable_block e
  | Declare_ x v => add_variable x v e
  | Assign_ x v => set_variable x v e
  end.
Fixpoint run_ops {S O} (step : S -> O -> option S) (s : S) (ops : list O) : option S :=
  match ops with [] => Some s | o :: ops => match step s o with Some s => run_ops step s ops | None => None end end.
(** operations with matching open and close *)
Fixpoint balanced {V} (depth : nat) (ops : list (env_op V)) : bool :=
  match ops with
  | [] => (depth =? 0)%nat
  | Open_ :: ops => balanced (S depth) ops
  | Close_ :: ops => match depth with O => false | S d => balanced d ops end
  | _ :: ops => balanced depth ops
  end.
