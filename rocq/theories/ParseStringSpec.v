(** What a string literal denotes: http://spec.graphql.org/June2018/#sec-String-Value. Independent of the parser. *)
From Verif Require Import Cpp Value Ast.
From Verif Require Export ParseSpec.
From Coq Require Import String Ascii NArith ZArith Bool List.
Import ListNotations.
Local Open Scope list_scope.
Local Open Scope char_scope.

(** The pieces of a quoted string. *)
Inductive piece : Type :=
| PChar (c : N)                        (* a source character other than quote, backslash and the control characters *)
| PControl (c : ascii)                 (* a tab; a carriage return, which the grammar of the specification excludes *)
| PEscape (c : ascii)                  (* a backslash and one of the letters of [escapes] *)
| PUnicode (h1 h2 h3 h4 : ascii).      (* a backslash, the letter u and four hexadecimal digits *)

(** #sec-String-Value: the table of escaped characters. *)
Definition escapes : list (ascii * ascii) :=
  [("""", """"); ("\", "\"); ("/", "/"); ("b", code 8); ("f", code 12); ("n", code 10); ("r", code 13); ("t", code 9)].

Definition piece_ok (p : piece) : Prop :=
  match p with
  | PChar c => source_code c /\ c <> 34%N /\ c <> 92%N
  | PControl c => c = code 9 \/ c = code 13
  | PEscape c => In c (map fst escapes)
  | PUnicode h1 h2 h3 h4 => hex_digit h1 /\ hex_digit h2 /\ hex_digit h3 /\ hex_digit h4
  end.

(** How the piece is written. *)
Definition spelled (p : piece) : text :=
  match p with
  | PChar c => utf8 c
  | PControl c => [c]
  | PEscape c => ["\"; c]
  | PUnicode h1 h2 h3 h4 => ["\"; "u"; h1; h2; h3; h4]
  end.

(** What it denotes. *)
Definition hex_value (h : ascii) : N :=
  let n := N_of_ascii h in
  (if n <=? 57 then n - 48 else if n <=? 70 then n - 55 else n - 87)%N.
Definition escaped (c : ascii) : ascii :=
  match List.find (fun e => Ascii.eqb (fst e) c) escapes with Some (_, d) => d | None => c end.
Definition denoted (p : piece) : text :=
  match p with
  | PChar c => utf8 c
  | PControl c => [c]
  | PEscape c => [escaped c]
  | PUnicode h1 h2 h3 h4 => utf8 (((hex_value h1 * 16 + hex_value h2) * 16 + hex_value h3) * 16 + hex_value h4)%N
  end.

(** #BlockStringValue(): the lines, the indentation they have in common, and what is left. *)
Definition lf : ascii := code 10.
Definition cr : ascii := code 13.
Definition white (c : ascii) : bool := Ascii.eqb c " " || Ascii.eqb c (code 9).

Fixpoint lines_from (line : text) (t : text) : list text :=
  match t with
  | [] => [rev line]
  | c :: r =>
    if Ascii.eqb c lf then rev line :: lines_from [] r
    else if Ascii.eqb c cr then
      match r with
      | d :: r' => if Ascii.eqb d lf then rev line :: lines_from [] r' else rev line :: lines_from [] r
      | [] => rev line :: lines_from [] r
      end
    else lines_from (c :: line) r
  end.
Definition lines : text -> list text := lines_from [].

Fixpoint indent (l : text) : nat := match l with c :: r => if white c then S (indent r) else 0 | [] => 0 end.
Definition all_white (l : text) : bool := forallb white l.

Definition common_indent (ls : list text) : option nat :=
  fold_left (fun acc l => if Nat.ltb (indent l) (length l) then
                            match acc with Some n => Some (Nat.min n (indent l)) | None => Some (indent l) end
                          else acc) (tl ls) None.
Definition dedent (ls : list text) : list text :=
  match ls, common_indent ls with
  | l :: r, Some n => l :: map (skipn n) r
  | _, _ => ls
  end.
Fixpoint drop_blank (ls : list text) : list text :=
  match ls with l :: r => if all_white l then drop_blank r else ls | [] => [] end.
Fixpoint join (ls : list text) : text :=
  match ls with [] => [] | [l] => l | l :: r => l ++ lf :: join r end.
Definition block_value (raw : text) : text :=
  join (rev (drop_blank (rev (drop_blank (dedent (lines raw)))))).

(** The raw value of the text between the triple quotes: each escaped triple quote is a triple quote. *)
Inductive block_raw : text -> text -> Prop :=
| br_nil : block_raw [] []
| br_char c t d : source_code c \/ c = 9%N \/ c = 10%N \/ c = 13%N -> ~ begins q3 (utf8 c ++ t ++ q3) ->
    ~ begins ("\" :: q3) (utf8 c ++ t ++ q3) -> block_raw t d -> block_raw (utf8 c ++ t) (utf8 c ++ d)
| br_escape t d : block_raw t d -> block_raw ("\" :: q3 ++ t) (q3 ++ d).
