(** Two texts that differ only in their layout: in what is between their tokens (for C55). *)
From Coq Require Import String Ascii NArith Bool List.
From Verif Require Import Cpp Value Ast ParseSpec.
Import ListNotations.
Local Open Scope list_scope.
Local Open Scope char_scope.

(** Characters that begin ignorable text. *)
Definition ignored : text := [" "; ","; code 9; code 10; code 11; code 12; code 13; "#"].
(** Characters after which, before which there may be ignorable text, or none. *)
Definition opening : text := ["{"; "("; "["; ":"; "="].
Definition closing_ : text := ["}"; ")"; "]"; ":"; "="; "!"; "("].
Definition quote : ascii := """".

(** The bytes between the quotes of a string literal: none is a quote, unless a backslash comes just before it. *)
Inductive string_bytes : text -> Prop :=
| string_end : string_bytes []
| string_byte c s : c <> quote -> c <> "\" -> string_bytes s -> string_bytes (c :: s)
| string_escape c s : string_bytes s -> string_bytes ("\" :: c :: s).
(** The bytes between the triple quotes of a block string: no three quotes, unless a backslash comes just before them. *)
Inductive block_bytes : text -> Prop :=
| block_end : block_bytes []
| block_byte c s : ~ begins q3 (c :: s ++ q3) -> ~ begins ("\" :: q3) (c :: s ++ q3) -> block_bytes s -> block_bytes (c :: s)
| block_escape s : block_bytes s -> block_bytes ("\" :: q3 ++ s).

(** The same tokens, in the same order. Ignorable text - blanks, commas and comments - may be replaced by other ignorable text everywhere between tokens; it may also be added or
    left out after an opening and before a closing character, after [...], and at the end. String literals stay as they are. *)
Inductive relaid : text -> text -> Prop :=
| relaid_end e e' : trailing e -> trailing e' -> relaid e e'
| relaid_char c t t' : ~ In c ignored -> c <> quote -> relaid t t' -> relaid (c :: t) (c :: t')
| relaid_string s t t' : string_bytes s -> (s = [] -> ~ begins [quote] t) -> relaid t t' -> relaid (quote :: s ++ quote :: t) (quote :: s ++ quote :: t')
| relaid_block s t t' : block_bytes s -> relaid t t' -> relaid (q3 ++ s ++ q3 ++ t) (q3 ++ s ++ q3 ++ t')
| relaid_blanks w w' t t' : some_blanks w -> some_blanks w' -> relaid t t' -> relaid (w ++ t) (w' ++ t')
| relaid_after c w w' t t' : In c opening -> blanks w -> blanks w' -> relaid t t' -> relaid (c :: w ++ t) (c :: w' ++ t')
| relaid_spread w w' t t' : blanks w -> blanks w' -> relaid t t' -> relaid (chars "..." ++ w ++ t) (chars "..." ++ w' ++ t')
| relaid_before c w w' t t' : In c closing_ -> blanks w -> blanks w' -> relaid (c :: t) (c :: t') -> relaid (w ++ c :: t) (w' ++ c :: t').
