(** Model of two checks on the flow of control: that every path of a function returns
    (type_analysis/src/analyzers/functions_all_paths_with_return_statement.rs), and that no signal is
    assigned twice (constraint_generation/src/assignment_utils.rs:182-313 and the conditions of
    constraint_generation/src/execute.rs:686-721, 1563-1567, 2630-2703). *)
From stdpp Require Import prelude numbers list gmap.

(** * Returns *)

(** [Statement] (program_structure/src/abstract_syntax_tree/ast.rs): what the analysis looks at.
    [RSimple]: a statement without statements inside that is not a return. *)
Inductive rstmt : Type :=
| RReturn
| RWhile (body : rstmt)
| RIf (if_case : rstmt) (else_case : option rstmt)
| RBlock (l : list rstmt)
| RSimple.

(** functions_all_paths_with_return_statement.rs:18-32 ([analyse_statement]) and 34-40
    ([analyse_block]). *)
Fixpoint returns (s : rstmt) : bool :=
  match s with
  | RReturn => true
  | RWhile _ => false
  | RIf a b => (match b with Some s => returns s | None => false end) && returns a
  | RBlock l => foldl (fun has s => has || returns s) false l
  | RSimple => false
  end.

(** * Assignments of signals *)

(** [conditions_state] (execute.rs:47): the numbers of the enclosing conditions whose value is not
    known to the compiler, and the branch. *)
Notation conds := (list (nat * bool)).

(** [AssignmentState] (environment_utils/slice_types.rs:36-44), without positions.  Here [Some []] is
    [Assigned], [Some c] is [MightAssigned c] and [None] is [NoAssigned]: execute.rs:1563-1567 makes
    [MightAssigned] only with conditions, and assignment_utils.rs:288-294 does not make it without. *)
Notation assigned := (option conds).

(** assignment_utils.rs:267-282: the first position at which both differ; [None] if one is a prefix
    of the other. *)
Fixpoint first_diff (i : nat) (old new : conds) : option (nat * bool) :=
  match old, new with
  | o :: old, n :: new => if decide (o = n) then first_diff (S i) old new else Some (i, bool_decide (o.1 = n.1))
  | _, _ => None
  end.
(** assignment_utils.rs:232-309, for one signal; [None]: "multiple assignments".
    [eq_until_last] holds if the difference is in the last condition of both. *)
Definition assign (old : assigned) (new : conds) : option assigned :=
  match old with
  | None => Some (Some new)
  | Some old =>
      match old, new with
      | [], _ | _, [] => None
      | _, _ =>
          match first_diff 0 old new with
          | None => None
          | Some (i, same) =>
              if same : bool then
                let m := (length old `min` length new)%nat in
                if decide (i = (m - 1)%nat /\ length old = length new) then Some (Some (take (m - 1) new))
                else Some (Some new)
              else None
          end
      end
  end.

(** What the compiler executes of a template, as far as assignments go.  The model starts after the
    values that the compiler knows have been resolved: [LWrite x] assigns the signal [x] (with its
    indexes); [LIf a b] is an [if] whose condition is not known ([b = None]: without [else]; one
    whose condition is known is the branch taken); [LLoop bodies tail] is a loop: first its iterations
    while the condition is known (they differ: the indexes do), then either the condition is known to
    be false ([tail = None]), or it is not known, and the compiler executes the body twice
    ([tail = Some (a, b)]). *)
Inductive fstmt : Type :=
| LWrite (x : nat)
| LIf (a : list fstmt) (b : option (list fstmt))
| LLoop (bodies : list (list fstmt)) (tail : option (list fstmt * list fstmt)).

(** The part of [RuntimeInformation] (execute.rs:45-60) that matters here. *)
Record fstate : Type := Flow {
  f_conds : conds;
  f_counter : nat;                       (* unknown_counter *)
  f_signals : gmap nat conds }.          (* the signals assigned *)

(** [Multiple]: the error "multiple assignments"; [Panic]: the compiler stops with an index out of
    range. *)
Inductive fres : Type := FOk (st : fstate) | Multiple | Panic.
Definition fbind (r : fres) (f : fstate -> fres) : fres :=
  match r with FOk st => f st | Multiple => Multiple | Panic => Panic end.

Definition push (st : fstate) : fstate :=
  Flow (f_conds st ++ [(f_counter st, true)]) (S (f_counter st)) (f_signals st).
(** [Vec::pop]: nothing happens if there are no conditions. *)
Definition pop (st : fstate) : fstate :=
  Flow (take (length (f_conds st) - 1) (f_conds st)) (f_counter st) (f_signals st).
(** execute.rs:2667-2669: [len() - 1] of an empty list overflows. *)
Definition flip_last (st : fstate) : fres :=
  match last (f_conds st) with
  | None => Panic
  | Some (i, _) => FOk (Flow (take (length (f_conds st) - 1) (f_conds st) ++ [(i, false)]) (f_counter st) (f_signals st))
  end.
Definition write (x : nat) (st : fstate) : fres :=
  match assign (f_signals st !! x) (f_conds st) with
  | Some (Some c) => FOk (Flow (f_conds st) (f_counter st) (<[x := c]> (f_signals st)))
  | _ => Multiple
  end.

Definition fseq (f : fstmt -> fstate -> fres) : list fstmt -> fstate -> fres :=
  fix go l st := match l with [] => FOk st | s :: r => fbind (f s st) (go r) end.
(** execute.rs:2649-2700: an unknown condition. *)
Definition conditional (f : fstmt -> fstate -> fres) (a : list fstmt) (b : option (list fstmt)) (st : fstate) : fres :=
  fbind (fseq f a (push st)) (fun st =>
    match b with
    | None => FOk (pop st)
    | Some b => fbind (flip_last st) (fun st => fbind (fseq f b st) (fun st => FOk (pop st)))
    end).
(** execute.rs:233-.. ([execute_statement]) for these statements.  In a loop (686-721) a condition is
    pushed once, and one is removed after each iteration whose condition is known. *)
Fixpoint flow (s : fstmt) (st : fstate) : fres :=
  match s with
  | LWrite x => write x st
  | LIf a b => conditional flow a b st
  | LLoop bodies tail =>
      fbind ((fix go l st := match l with [] => FOk st | body :: r => fbind (fseq flow body st) (fun st => go r (pop st)) end)
               bodies (push st))
        (fun st => match tail with
                   | None => FOk st
                   | Some (a, b) => fbind (conditional flow a None st) (conditional flow b None)
                   end)
  end.
(** A template: execute_template_call (3379-). *)
Definition flow_template (l : list fstmt) : fres := fseq flow l (Flow [] 0 ∅).
