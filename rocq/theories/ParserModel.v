(** Model of the parser's front: comment removal, the stack of files and the version pragmas.
    A source text is a list of Unicode scalar values. *)
From stdpp Require Import prelude gmap strings list.
Open Scope Z_scope.

(** ** parser/src/parser_logic.rs *)
Definition char := Z.
Definition slash : char := 47. Definition star : char := 42. Definition newline : char := 10. Definition space : char := 32.
(** [char::len_utf8] of the Rust standard library *)
Definition len_utf8 (c : char) : nat := if c <? 128 then 1%nat else if c <? 2048 then 2%nat else if c <? 65536 then 3%nat else 4%nat.
Definition spaces (c : char) : list char := replicate (len_utf8 c) space.
(** parser_logic.rs:9-80 [preprocess].  [pp] is the text written so far; the result is the text or the
    position given to the error report. *)
Fixpoint pp_loop (it : list char) (state : nat) (loc : nat) (block_start : nat) (pp : list char) : nat + list char :=
  match it with
  | [] => if (state =? 2)%nat then inl block_start else inr pp
  | c0 :: it =>
      let loc := S loc in
      match state with
      | 0%nat =>
          if c0 =? slash then
            let loc := S loc in
            match it with
            | c1 :: it =>
                if c1 =? slash then pp_loop it 1 loc block_start (pp ++ [space; space])
                else if c1 =? star then pp_loop it 2 loc loc (pp ++ [space; space])
                else pp_loop it 0 loc block_start (pp ++ [c0; c1])
            | [] => inr (pp ++ [c0])
            end
          else pp_loop it 0 loc block_start (pp ++ [c0])
      | 1%nat =>
          if c0 =? newline then pp_loop it 0 loc block_start (pp ++ [c0])
          else pp_loop it 1 loc block_start (pp ++ spaces c0)
      | _ =>
          if c0 =? star then
            (fix stars (next : list char) (loc : nat) (pp : list char) : nat + list char :=
               match next with
               | [] => inl block_start
               | c :: next =>
                   if c =? star then stars next (S loc) (pp ++ [space])
                   else if c =? slash then pp_loop next 0 loc block_start (pp ++ [space; space])
                   else pp_loop next 2 loc block_start (pp ++ [space] ++ spaces c)
               end) it (S loc) pp
          else pp_loop it 2 loc block_start (pp ++ spaces c0)
      end
  end.
Definition preprocess (expr : list char) : nat + list char := pp_loop expr 0 0 0 [].

(** ** parser/src/lib.rs: versions *)
Definition version : Type := nat * nat * nat.
(** lib.rs:210-229 [check_number_version]: accepted, accepted with a warning (no pragma) or rejected *)
Inductive version_verdict := Accepted | AcceptedWithWarning | Rejected.
Definition check_number_version (version_file : option version) (version_compiler : version) : version_verdict :=
  match version_file with
  | Some (r0, r1, r2) =>
      let '(c0, c1, c2) := version_compiler in
      if (r0 =? c0)%nat && ((r1 <? c1)%nat || ((r1 =? c1)%nat && (r2 <=? c2)%nat)) then Accepted else Rejected
  | None => AcceptedWithWarning
  end.
(** lib.rs:231-285 [check_custom_gates_version]: [true] when there is no error *)
Definition check_custom_gates_version (version_file : option version) (version_compiler : version) : bool :=
  let old (v : version) := let '(v0, v1, v2) := v in
    (v0 <? 2)%nat || ((v0 =? 2)%nat && (v1 <? 0)%nat) || ((v0 =? 2)%nat && (v1 =? 0)%nat && (v2 <? 6)%nat) in
  match version_file with
  | Some required_version => negb (old required_version)
  | None => negb (old version_compiler)
  end.

(** ** parser/src/include_logic.rs: the stack of files.  Paths are opaque; [canonical loc name] is what
    [add_include] finds for an include: [None] when neither the file's own directory nor a library has
    such a file (include_logic.rs:20-45; the file system is fixed while the parser runs). *)
Section files.
Context {path : Type} `{Countable path}.
Context {name : Type} {location : Type}.
Variable parent : path -> location.
Variable canonical : location -> name -> option path.
(** lib.rs:80-83: the includes of the file's text, in order *)
Variable includes : path -> list name.
(** include_logic.rs:7-11 [FileStack] *)
Record file_stack : Type := FileStack { current_location : location; black_paths : gset path; stack : list path }.
(** include_logic.rs:14-18 [new]; the top of the stack is the head of the list *)
Definition stack_new (src : path) : file_stack := FileStack (parent src) ∅ [src].
(** include_logic.rs:20-45 [add_include] *)
Definition add_include (f : file_stack) (n : name) : option file_stack :=
  match canonical (current_location f) n with
  | Some p => Some (if decide (p ∈ black_paths f) then f else FileStack (current_location f) (black_paths f) (p :: stack f))
  | None => None
  end.
(** include_logic.rs:47-61 [take_next] *)
Fixpoint take_next_rec (st : list path) (black : gset path) : option (path * list path) :=
  match st with
  | [] => None
  | file :: st => if decide (file ∈ black) then take_next_rec st black else Some (file, st)
  end.
Definition take_next (f : file_stack) : option (path * file_stack) :=
  match take_next_rec (stack f) (black_paths f) with
  | Some (file, st) => Some (file, FileStack (parent file) ({[file]} ∪ black_paths f) st)
  | None => None
  end.

(** ** parser/src/include_logic.rs: the graph of includes *)
(** include_logic.rs:64-67 [IncludesNode] *)
Record includes_node : Type := IncludesNode { node_path : path; custom_gates_pragma : bool }.
(** include_logic.rs:69-74 [IncludesGraph] *)
Record includes_graph : Type := IncludesGraph { g_nodes : list includes_node; adjacency : gmap path (list nat); custom_gates_nodes : list nat }.
Definition graph_new : includes_graph := IncludesGraph [] ∅ [].
(** include_logic.rs:81-86 [add_node] *)
Definition graph_add_node (g : includes_graph) (p : path) (pragma usage : bool) : includes_graph :=
  let nodes := g_nodes g ++ [IncludesNode p pragma] in
  IncludesGraph nodes (adjacency g) (if usage then custom_gates_nodes g ++ [length nodes - 1]%nat else custom_gates_nodes g).
(** include_logic.rs:88-96 [add_edge]; the path is already canonical *)
Definition graph_add_edge (g : includes_graph) (p : path) : includes_graph :=
  IncludesGraph (g_nodes g) (<[p := default [] (adjacency g !! p) ++ [length (g_nodes g) - 1]%nat]> (adjacency g)) (custom_gates_nodes g).
(** include_logic.rs:106-145 [traverse]; [fuel] bounds the depth; [None] is a failed index *)
Fixpoint traverse (fuel : nat) (g : includes_graph) (from : nat) (trail : list path) (traversed_edges : list (nat * nat)) : option (list (list path)) :=
  match fuel with
  | O => None
  | S fuel =>
      match g_nodes g !! from with
      | None => None
      | Some node =>
          let new_path := trail ++ [node_path node] in
          let problematic_paths := if custom_gates_pragma node then [] else [new_path] in
          match adjacency g !! node_path node with
          | None => Some problematic_paths
          | Some edges =>
              foldl (fun acc to_ =>
                match acc with
                | None => None
                | Some acc =>
                    if decide ((from, to_) ∈ traversed_edges) then Some acc
                    else match traverse fuel g to_ new_path ((from, to_) :: traversed_edges) with
                         | Some more => Some (acc ++ more)
                         | None => None
                         end
                end) (Some problematic_paths) edges
          end
      end
  end.
(** include_logic.rs:98-104 [get_problematic_paths] *)
Definition get_problematic_paths (fuel : nat) (g : includes_graph) : option (list (list path)) :=
  foldl (fun acc from => match acc, traverse fuel g from [] [] with Some acc, Some more => Some (acc ++ more) | _, _ => None end) (Some []) (custom_gates_nodes g).

(** what the text of each file says: has the pragma [custom_templates]; declares a custom template *)
Variable pragma : path -> bool.
Variable declares : path -> bool.
(** lib.rs:85-91: the includes of one file *)
Fixpoint add_includes (f : file_stack) (g : includes_graph) (ns : list name) : option (file_stack * includes_graph) :=
  match ns with
  | [] => Some (f, g)
  | n :: ns =>
      match canonical (current_location f) n with
      | Some p => match add_include f n with Some f => add_includes f (graph_add_edge g p) ns | None => None end
      | None => None
      end
  end.
(** lib.rs:69-108 the loop of [run_parser]: the files that are parsed, in order, and the graph; [inl]
    lists those parsed when an include is not found.  Opening and parsing a file are assumed to succeed
    (an error ends the loop), and a file to be opened under the path on the stack (lib.rs:29-57
    [find_file]).  [None] means that the given number of rounds is not enough. *)
Fixpoint run_files (rounds : nat) (f : file_stack) (g : includes_graph) (parsed : list path) : option (list path + list path * includes_graph) :=
  match rounds with
  | O => None
  | S rounds =>
      match take_next f with
      | None => Some (inr (parsed, g))
      | Some (file, f) =>
          match add_includes f (graph_add_node g file (pragma file) (declares file)) (includes file) with
          | Some (f, g) => run_files rounds f g (parsed ++ [file])
          | None => Some (inl (parsed ++ [file]))
          end
      end
  end.
End files.
