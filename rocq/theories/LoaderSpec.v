(** What a user of schemagen expects of names, type references and input types (C34, C35, C36). *)
From Coq Require Import Relations.
From Verif Require Import Cpp Value Ast ModifiersModel SchemaModel LoaderModel.
Local Open Scope string_scope.
Local Open Scope list_scope.

(** * Names that C++ reserves (lex.name): a double underscore anywhere, or an underscore followed by a capital at the beginning *)
Definition capital (c : ascii) : Prop := In c (list_ascii_of_string "ABCDEFGHIJKLMNOPQRSTUVWXYZ").
Definition reserved (s : string) : Prop :=
  (exists a b, s = (a ++ "__" ++ b)%string) \/ (exists c r, capital c /\ s = String "_"%char (String c r)).

(** [t] is [s] with every run of underscores shortened to one. *)
Fixpoint underscores (n : nat) : string := match n with O => "" | S m => String "_"%char (underscores m) end.
Inductive tidied : string -> string -> Prop :=
| td_end : tidied "" ""
| td_char c s t : c <> "_"%char -> tidied s t -> tidied (String c s) (String c t)
| td_run n s t : (forall r, s <> String "_"%char r) -> tidied s t -> tidied (underscores (S n) ++ s) (String "_"%char t).

(** * Type references *)
(** The grammar has no nested "!": Grammar.h:359-380. *)
Fixpoint grammatical (t : tref) : Prop :=
  match t with
  | TNamed _ => True
  | TListOf e => grammatical e
  | TNonNull (TNonNull _) => False
  | TNonNull e => grammatical e
  end.
Definition nullable (t : tref) : Prop := match t with TNonNull _ => False | _ => True end.

(** How generated code reads a stack of modifiers, the outermost first: a value is there unless a Nullable says that it may be missing. *)
Inductive stands_for (n : string) : list modifier -> tref -> Prop :=
| sf_value : stands_for n [] (TNonNull (TNamed n))
| sf_list ms e : stands_for n ms e -> stands_for n (MList :: ms) (TNonNull (TListOf e))
| sf_nullable ms t : stands_for n ms (TNonNull t) -> stands_for n (MNullable :: ms) t.

(** The C++ type of an argument or of a field of an input type. *)
Inductive cpp_input (base : string) : tref -> string -> Prop :=
| ci_value n : cpp_input base (TNonNull (TNamed n)) base
| ci_list e s : cpp_input base e s -> cpp_input base (TNonNull (TListOf e)) ("std::vector<" ++ s ++ ">")
| ci_nullable t s : nullable t -> cpp_input base (TNonNull t) s -> cpp_input base t ("std::optional<" ++ s ++ ">").
(** The C++ type that an accessor returns; composite types are shared_ptr, which is nullable by itself. *)
Inductive cpp_output (composite : bool) (base : string) : tref -> string -> Prop :=
| co_leaf n : composite = false -> cpp_output composite base (TNonNull (TNamed n)) base
| co_null_leaf n : composite = false -> cpp_output composite base (TNamed n) ("std::optional<" ++ base ++ ">")
| co_object n : composite = true -> cpp_output composite base (TNonNull (TNamed n)) ("std::shared_ptr<" ++ base ++ ">")
| co_null_object n : composite = true -> cpp_output composite base (TNamed n) ("std::shared_ptr<" ++ base ++ ">")
| co_list e s : cpp_output composite base e s -> cpp_output composite base (TNonNull (TListOf e)) ("std::vector<" ++ s ++ ">")
| co_null_list e s : cpp_output composite base e s -> cpp_output composite base (TListOf e) ("std::optional<" ++ "std::vector<" ++ s ++ ">" ++ ">").

(** The name at the bottom of a type reference. *)
Fixpoint base_name (t : tref) : string := match t with TNamed n => n | TListOf e => base_name e | TNonNull e => base_name e end.

(** * Input types *)
(** Type [a] has a field whose type is, under any modifiers, the input type [b]. *)
Definition uses (ts : list input_type) (a b : string) : Prop :=
  exists t f, In t ts /\ it_type t = a /\ In f (it_fields t) /\ in_kind f = InInput /\ in_type f = b.
Definition cyclic (ts : list input_type) : Prop := exists a, clos_trans string (uses ts) a a.
(** Every type comes after those it uses. *)
Definition in_order (ts : list input_type) : Prop :=
  forall before t after b, ts = before ++ t :: after -> uses [t] (it_type t) b -> In b (map it_type before).
