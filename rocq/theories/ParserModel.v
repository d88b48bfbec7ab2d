(** The parser entry points and what they give for every text: src/SyntaxTree.cpp:735-882. *)
From Verif Require Import Cpp.
From Verif Require Export GrammarModel.
Local Open Scope list_scope.
Local Open Scope string_scope.

(** ** The grammar is well formed, so parsing needs only a bounded number of nested attempts. *)

(** No named rule matches the empty text. *)
Definition nb (_ : rule) : bool := false.

Fixpoint lefts (r : ex) : list rule :=
  match r with
  | Eps | Chr _ | Str _ | Utf8 _ _ | Eof | Bof => []
  | Seq a b => lefts a ++ (if empty_ok nb a then lefts b else [])
  | Sor a b => lefts a ++ lefts b
  | Star a | NotAt a => lefts a
  | Must _ a => lefts a
  | Ref n => [n]
  end.

(** How deep the chain of rules is that may start at the same position: the rules tried first by [r] have a smaller rank. *)
Definition next_ranks (t : list nat) : list nat :=
  map (fun r => List.fold_right Nat.max 0 (map (fun n => S (nth (rule_tag n) t 0)) (lefts (grammar r)))) all_rules.
Fixpoint iterate (n : nat) (t : list nat) : list nat := match n with O => t | S n => iterate n (next_ranks t) end.
Definition ranks : list nat := Eval vm_compute in iterate 12 [].
Definition rank (r : rule) : nat := nth (rule_tag r) ranks 0.
Definition top : nat := Eval vm_compute in S (List.fold_right Nat.max 0 ranks).
Definition sz : nat := Eval vm_compute in S (List.fold_right Nat.max 60 (map (fun r => size (grammar r)) all_rules)).

Lemma grammar_well_formed r : well_formed_rule grammar nb rank top sz r = true.
Proof. destruct r; vm_compute; reflexivity. Qed.

(** The fuel that is always enough for one of the documents below. *)
Definition enough (text : list ascii) : nat := length text * per_byte top sz + top * sz + sz.

(** parse_tree::parse<document, ast_node, selector, nothing, ast_control>(memory_input(text)). *)
Definition parse_with (selector : rule -> keeps) (document : ex) (text : list ascii) : option (out rule) :=
  run grammar selector (enough text) document 0 text.

(** The nodes below the root (an empty [Fail] would leave a null root, which never happens), or the parse_error. The
    position that what() begins with is left out. *)
(* tao::pegtl::parse_error is a std::runtime_error *)
Definition parse_error (msg : string) : exn := Exn runtime_error msg.

Definition parse_twice (selector : rule -> keeps) (document : ex) (text : list ascii) : result (list (node rule)) :=
  match parse_with selector document text with
  | Some (Match ns _ _) => Ok ns
  | Some (Raise _) =>                          (* catch (const peg::parse_error&) *)
    match parse_with selector g_mixed_document text with
    | Some (Match ns _ _) => Ok ns
    | Some (Raise m) => Throw (parse_error m)
    | _ => UB
    end
  | _ => UB
  end.

(** SyntaxTree.cpp:735-759 parseSchemaString; parseSchemaFile (761-792) is the same on the bytes of a file. *)
Definition parse_schema_string (text : list ascii) : result (list (node rule)) :=
  parse_twice schema_selector g_schema_document text.

(** SyntaxTree.cpp:794-818 parseString; parseFile (820-851) and operator""_graphql (855-882) are the same on the bytes
    of a file or a string literal. *)
Definition parse_string (text : list ascii) : result (list (node rule)) :=
  parse_twice executable_selector g_executable_document text.

(** ** Where a node begins. *)
(** SyntaxTree.cpp:26-29 begin(): the line and column of the first byte, both from 1, columns counted in bytes. *)
Fixpoint advance (line column : N) (text : list ascii) : schema_location :=
  match text with
  | [] => mkLoc line column
  | c :: r => if Ascii.eqb c lf then advance (N.succ line) 1%N r else advance line (N.succ column) r
  end.
Definition location_at (text : list ascii) (offset : nat) : schema_location := advance 1%N 1%N (firstn offset text).

(** ** Reading a node. *)
(** SyntaxTree.h:51-62 is_type. *)
Definition is_type (r : rule) (x : node rule) : bool := rule_eqb (n_type x) r.

(** SyntaxTree.cpp:46-98 unescaped_view, where no transform has set it: the contents of the children one after the
    other (for exactly one child its content); an escaped_unicode without children is decoded; otherwise nothing. Only
    string_value nodes are asked for it in the code modelled here, and description nodes for that of their first child. *)
Definition text_of (x : node rule) : string := string_of_list_ascii (n_content x).
Definition joined_view (x : node rule) : string := string_of_list_ascii (flat_map n_content (n_children x)).
