(** Model of the request text that clientgen puts into the code it generates: src/RequestLoader.cpp (trimWhitespace) and src/ClientGenerator.cpp
    (outputGetRequestImplementation), and of how a C++ compiler reads that piece of the code. *)
From Coq Require Import String Ascii NArith Arith Bool List.
From Verif Require Import Cpp Value Ast ParseSpec.
Import ListNotations.
Local Open Scope list_scope.
Local Open Scope char_scope.

Definition feed : ascii := code 10.
Definition tab_char : ascii := code 9.

(** std::isspace in the C locale. Simplification: for a negative char the call at RequestLoader.cpp:643 has undefined behaviour by the letter of the C++
    standard; here, as in glibc, it says no. *)
Definition isspace (c : ascii) : bool := let n := nat_of_ascii c in ((n =? 32) || ((9 <=? n) && (n <=? 13)))%nat.
(** std::find_if_not: what is left from the first character that is not a space. *)
Fixpoint skip_spaces (t : text) : text :=
  match t with c :: r => if isspace c then skip_spaces r else t | [] => [] end.
(** RequestLoader.cpp:640-658 [trimWhitespace]; getRequestText (113-117) applies it to the text of the file. *)
Definition trim_whitespace (content : text) : text :=
  let skip := length content - length (skip_spaces content) in
  let length_ := length (skip_spaces (rev content)) in
  if (skip <=? length_)%nat then firstn (length_ - skip) (skipn skip content) else content.

(** The lines that the std::getline loop of ClientGenerator.cpp:696-699 gets. *)
Fixpoint lines_from (line : text) (t : text) : list text :=
  match t with
  | [] => match line with [] => [] | _ => [line] end
  | c :: r => if Ascii.eqb c feed then line :: lines_from [] r else lines_from (line ++ [c]) r
  end.
Definition lines : text -> list text := lines_from [].

(** ClientGenerator.cpp:686-701 [outputGetRequestImplementation]: from the opening of the raw string literal to its suffix. *)
Definition opening : text := chars "R""gql(".
Definition closing : text := chars ")gql""".
Definition request_code (file : text) : text :=
  opening ++ [feed] ++ flat_map (fun line => [tab_char; tab_char] ++ line ++ [feed]) (lines (trim_whitespace file))
  ++ [tab_char] ++ closing ++ chars "s".

(** The C++ compiler ([lex.string]): the content of a raw string literal ends where its delimiter is found first. Simplification: the characters of the
    generated file are those of the literal (what becomes of a carriage return is left to the implementation). *)
Fixpoint without_prefix (p t : text) : option text :=
  match p, t with
  | [], _ => Some t
  | a :: p', b :: t' => if Ascii.eqb a b then without_prefix p' t' else None
  | _ :: _, [] => None
  end.
Fixpoint raw_content (t : text) : option (text * text) :=
  match without_prefix closing t with
  | Some rest => Some ([], rest)
  | None => match t with
            | [] => None
            | c :: r => match raw_content r with Some (content, rest) => Some (c :: content, rest) | None => None end
            end
  end.
(** The value of the literal and what comes after it. *)
Definition literal (code_ : text) : option (text * text) :=
  match without_prefix opening code_ with Some t => raw_content t | None => None end.
(** What the generated GetRequestText() returns, if the code is the definition of a string: the literal and nothing but the suffix [s]. *)
Definition get_request_text (file : text) : option text :=
  match literal (request_code file) with
  | Some (content, rest) => match without_prefix rest (chars "s") with Some [] => Some content | _ => None end
  | None => None
  end.
