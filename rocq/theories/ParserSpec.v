(** Comments of a source text, and the files reachable through includes. *)
From stdpp Require Import prelude gmap list relations.
From Verif Require Import ParserModel.
Open Scope Z_scope.

(** ** Comments.  [lexes n s r]: reading [s] after [n] characters gives [r], the text with every comment
    blanked, or the position just after the opening of a block comment that is never closed. *)
Definition blank (s : list char) : list char := s ≫= spaces.
Definition contains_close (s : list char) : Prop := exists u v, s = u ++ star :: slash :: v.
Definition starts_comment (s : list char) : Prop := exists v, s = slash :: slash :: v \/ s = slash :: star :: v.
Inductive lexes : nat -> list char -> nat + list char -> Prop :=
| lexes_end n : lexes n [] (inr [])
| lexes_code n c s r : ~ starts_comment (c :: s) -> lexes (S n) s (inr r) -> lexes n (c :: s) (inr (c :: r))
| lexes_code_unclosed n c s k : ~ starts_comment (c :: s) -> lexes (S n) s (inl k) -> lexes n (c :: s) (inl k)
(** a line comment goes up to the end of the line, or of the text *)
| lexes_line n body s r : newline ∉ body -> (s = [] \/ exists v, s = newline :: v) ->
    lexes (n + 2 + length body)%nat s (inr r) ->
    lexes n ([slash; slash] ++ body ++ s) (inr ([space; space] ++ blank body ++ r))
| lexes_line_unclosed n body s k : newline ∉ body -> (s = [] \/ exists v, s = newline :: v) ->
    lexes (n + 2 + length body)%nat s (inl k) ->
    lexes n ([slash; slash] ++ body ++ s) (inl k)
(** a block comment goes up to the first closing *)
| lexes_block n body s r : ~ contains_close (body ++ [star]) ->
    lexes (n + 2 + length body + 2)%nat s (inr r) ->
    lexes n ([slash; star] ++ body ++ [star; slash] ++ s) (inr ([space; space] ++ blank body ++ [space; space] ++ r))
| lexes_block_unclosed n body s k : ~ contains_close (body ++ [star]) ->
    lexes (n + 2 + length body + 2)%nat s (inl k) ->
    lexes n ([slash; star] ++ body ++ [star; slash] ++ s) (inl k)
| lexes_unclosed n body : ~ contains_close body ->
    lexes n ([slash; star] ++ body) (inl (n + 2)%nat).

(** UTF-8 (RFC 3629): the bytes of a character, and the number of bytes of a text *)
Definition utf8 (c : char) : list Z :=
  if decide (c < 128) then [c]
  else if decide (c < 2048) then [192 + c / 64; 128 + c mod 64]
  else if decide (c < 65536) then [224 + c / 4096; 128 + c / 64 mod 64; 128 + c mod 64]
  else [240 + c / 262144; 128 + c / 4096 mod 64; 128 + c / 64 mod 64; 128 + c mod 64].
Definition bytes (s : list char) : nat := length (concat (utf8 <$> s)).

(** ** Includes *)
Section files.
Context {path : Type} `{Countable path} {name location : Type}.
Variable parent : path -> location.
Variable canonical : location -> name -> option path.
Variable includes : path -> list name.
(** file [p] includes file [q] *)
Definition file_includes (p q : path) : Prop := exists n, n ∈ includes p /\ canonical (parent p) n = Some q.
Definition has_unknown_include (p : path) : Prop := exists n, n ∈ includes p /\ canonical (parent p) n = None.
Definition needed (src p : path) : Prop := rtc file_includes src p.
End files.
