(** Model of program_structure/src/utils/environment.rs.
    The marker type [T] of [RawEnvironment] only selects which methods are visible and is dropped.
    [get_mut_x] followed by an assignment is [set_x]. *)
From stdpp Require Import prelude gmap strings.
Open Scope nat_scope.

Section env.
Context {CC SC VC BC : Type}.
(** environment.rs:533-545 [VariableBlock] *)
Notation block := (gmap string VC).
(** environment.rs:39-50 [RawEnvironment]; the last block is the innermost *)
Record env : Type := Env {
  variables : list block;
  signal_inputs : gmap string SC; signal_outputs : gmap string SC; signal_intermediates : gmap string SC;
  bus_inputs : gmap string BC; bus_outputs : gmap string BC; bus_intermediates : gmap string BC;
  components : gmap string CC }.
Definition with_variables (vs : list block) (e : env) : env :=
  Env vs (signal_inputs e) (signal_outputs e) (signal_intermediates e) (bus_inputs e) (bus_outputs e) (bus_intermediates e) (components e).
(** environment.rs:51-66,139-141 [default], [new] *)
Definition env_new : env := Env [∅] ∅ ∅ ∅ ∅ ∅ ∅ ∅.
(** environment.rs:117-127: the index of the block that is found, searching from the last *)
Fixpoint block_from (bs : list block) (act : nat) (symbol : string) : option nat :=
  match act with
  | O => None
  | S act => match bs !! act with
             | Some b => if bool_decide (is_Some (b !! symbol)) then Some act else block_from bs act symbol
             | None => block_from bs act symbol
             end
  end.
(** environment.rs:117-138 [block_with_variable_symbol], [mut_block_with_variable_symbol] *)
Definition block_with_variable_symbol (e : env) (symbol : string) : option nat := block_from (variables e) (length (variables e)) symbol.
(** environment.rs:142-144 [add_variable_block] *)
Definition add_variable_block (e : env) : env := with_variables (variables e ++ [∅]) e.
(** environment.rs:145-148 [remove_variable_block]; [None] is the failed assertion *)
Definition remove_variable_block (e : env) : option env :=
  match variables e with [] => None | bs => Some (with_variables (take (length bs - 1) bs) e) end.
(** environment.rs:149-153 [add_variable]; [None] is the failed assertion *)
Definition add_variable (name : string) (content : VC) (e : env) : option env :=
  match variables e with [] => None | bs => Some (with_variables (alter (<[name := content]>) (length bs - 1) bs) e) end.
(** environment.rs:154-156 [has_variable] *)
Definition has_variable (e : env) (symbol : string) : bool := match block_with_variable_symbol e symbol with Some _ => true | None => false end.
(** environment.rs:158-165,174-181 [get_variable], [get_variable_res] *)
Definition get_variable (e : env) (symbol : string) : option VC :=
  match block_with_variable_symbol e symbol with Some i => variables e !! i ≫= (.!! symbol) | None => None end.
(** environment.rs:166-173,196-218 [get_mut_variable], [get_mut_variable_mut], [get_mut_variable_or_break]
    followed by an assignment; [None] when there is no such variable *)
Definition set_variable (symbol : string) (content : VC) (e : env) : option env :=
  match block_with_variable_symbol e symbol with
  | Some i => Some (with_variables (alter (<[symbol := content]>) i (variables e)) e)
  | None => None
  end.
(** environment.rs:182-187 [remove_variable] *)
Definition remove_variable (symbol : string) (e : env) : env :=
  match block_with_variable_symbol e symbol with
  | Some i => with_variables (alter (delete symbol) i (variables e)) e
  | None => e
  end.

(** environment.rs:265-283 [add_input] .. [remove_intermediate] and :223-228 [add_component] (the
    insertions; removals are deletions) *)
Definition add_input (n : string) (c : SC) (e : env) : env :=
  Env (variables e) (<[n := c]> (signal_inputs e)) (signal_outputs e) (signal_intermediates e) (bus_inputs e) (bus_outputs e) (bus_intermediates e) (components e).
Definition add_output (n : string) (c : SC) (e : env) : env :=
  Env (variables e) (signal_inputs e) (<[n := c]> (signal_outputs e)) (signal_intermediates e) (bus_inputs e) (bus_outputs e) (bus_intermediates e) (components e).
Definition add_intermediate (n : string) (c : SC) (e : env) : env :=
  Env (variables e) (signal_inputs e) (signal_outputs e) (<[n := c]> (signal_intermediates e)) (bus_inputs e) (bus_outputs e) (bus_intermediates e) (components e).
Definition add_component (n : string) (c : CC) (e : env) : env :=
  Env (variables e) (signal_inputs e) (signal_outputs e) (signal_intermediates e) (bus_inputs e) (bus_outputs e) (bus_intermediates e) (<[n := c]> (components e)).
(** environment.rs:361-371 [get_signal]: inputs, then outputs, then intermediates *)
Definition get_signal (e : env) (symbol : string) : option SC :=
  match signal_inputs e !! symbol with
  | Some c => Some c
  | None => match signal_outputs e !! symbol with Some c => Some c | None => signal_intermediates e !! symbol end
  end.
(** environment.rs:372-382 [get_mut_signal] followed by an assignment *)
Definition set_signal (symbol : string) (c : SC) (e : env) : option env :=
  match signal_inputs e !! symbol with
  | Some _ => Some (add_input symbol c e)
  | None => match signal_outputs e !! symbol with
            | Some _ => Some (add_output symbol c e)
            | None => match signal_intermediates e !! symbol with Some _ => Some (add_intermediate symbol c e) | None => None end
            end
  end.

(** environment.rs:584-603 [hashmap_union] *)
Definition hashmap_union (merge_function : VC -> VC -> VC) (l r : block) : block :=
  union_with (fun a b => Some (merge_function a b)) l r.
(** environment.rs:98-104: blocks are popped from both ends until one side is empty *)
Fixpoint merge_blocks (comb : VC -> VC -> VC) (rev_left rev_right : list block) : list block :=
  match rev_left, rev_right with
  | l :: rl, r :: rr => hashmap_union comb l r :: merge_blocks comb rl rr
  | _, _ => []
  end.
(** environment.rs:76-117 [merge]; [extend] overwrites *)
Definition merge (left right : env) (comb : VC -> VC -> VC) : env :=
  Env (reverse (merge_blocks comb (reverse (variables left)) (reverse (variables right))))
    (signal_inputs right ∪ signal_inputs left) (signal_outputs right ∪ signal_outputs left) (signal_intermediates right ∪ signal_intermediates left)
    (bus_inputs right ∪ bus_inputs left) (bus_outputs right ∪ bus_outputs left) (bus_intermediates right ∪ bus_intermediates left)
    (components right ∪ components left).
End env.
Arguments env : clear implicits.
