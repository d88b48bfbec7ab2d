(** Which texts spell which type system definitions (http://spec.graphql.org/June2018/#sec-Type-System), in the style of
    ParseSpec.v: relations between an offset, a definition and the text that spells it. Independent of the parser.

    Directives of which the loader makes nothing (on types, schemas, input fields) are spelled but not kept.

    Where the parser of this library differs from the specification, these relations follow the parser:
    - items of a list of fields, values, arguments, operations have something ignorable between them, and so do the
      arguments of a directive definition and the word [on] after them;
    - between the directives and the braces of a schema extension there is nothing;
    - between [on] and a bar there is something ignorable;
    - any name will do for an enum value, also [true], [false] and [null];
    - of a description only the first piece is heard ([heard]). *)
From Verif Require Import Cpp Value Ast SchemaModel LoaderModel.
From Verif Require Export ParseSpec.
From Verif Require ParseStringSpec.
From Coq Require Import String Ascii NArith ZArith Bool List.
Import ListNotations.
Local Open Scope list_scope.
Local Open Scope char_scope.

(** ** Descriptions. *)
Section Heard.
(** What a run of unicode escapes denotes; the run comes without its first backslash. *)
Variable unescape_j : string -> string.

Fixpoint escapes_run (t : text) : text :=
  match t with
  | a :: b :: h1 :: h2 :: h3 :: h4 :: r =>
    if Ascii.eqb a "\" && Ascii.eqb b "u" then a :: b :: h1 :: h2 :: h3 :: h4 :: escapes_run r else []
  | _ => []
  end.
Fixpoint plain_run (t : text) : text :=
  match t with [] => [] | c :: r => if Ascii.eqb c "\" then [] else c :: plain_run r end.
(** Of the text between two quotes the loader hears the first piece: the characters in front of the first escape, or that escape,
    decoded (an unbroken run of unicode escapes is one). *)
Definition heard (t : text) : string :=
  match t with
  | a :: b :: _ =>
    if Ascii.eqb a "\"
    then if Ascii.eqb b "u" then unescape_j (str (tl (escapes_run t))) else str [ParseStringSpec.escaped b]
    else str (plain_run t)
  | _ => str (plain_run t)
  end.

Definition quotes_escaped (t : text) : bool :=
  if list_eq_dec ascii_dec (firstn 4 t) ("\" :: q3) then true else false.
Fixpoint plain_block (t : text) : text :=
  match t with [] => [] | c :: r => if quotes_escaped t then [] else c :: plain_block r end.
(** And of the text between triple quotes: what is in front of the first escaped triple quote, or those quotes. *)
Definition heard_block (t : text) : string := if quotes_escaped t then str q3 else str (plain_block t).

Inductive described : string -> text -> Prop :=
| described_not : described "" []
| described_quoted t d w : quoted false t d -> blanks w -> described (heard t) ("""" :: t ++ """" :: w)
| described_block t w : block_chars t -> blanks w -> described (heard_block t) (q3 ++ t ++ q3 ++ w).
End Heard.

(** ** Names in a list, with a separator character. *)
Definition separator (c : ascii) (w : text) : Prop := exists w1 w2, w = w1 ++ c :: w2 /\ blanks w1 /\ blanks w2.
Definition a_name (_ : nat) (n : string) (t : text) : Prop := name n /\ t = chars n.
Definition names (c : ascii) (ns : list string) (t : text) : Prop := items (separator c) a_name 0 ns t.
(** What may come in front of the first: ignorable text, and in it once the separator character. *)
Definition leading (c : ascii) (w : text) : Prop := blanks w \/ separator c w.

Definition location_names : list (string * directive_location) :=
  [("QUERY", QUERY); ("MUTATION", MUTATION); ("SUBSCRIPTION", SUBSCRIPTION); ("FIELD", FIELD);
   ("FRAGMENT_DEFINITION", FRAGMENT_DEFINITION); ("FRAGMENT_SPREAD", FRAGMENT_SPREAD);
   ("INLINE_FRAGMENT", INLINE_FRAGMENT); ("SCHEMA", SCHEMA_LOC); ("SCALAR", SCALAR_LOC); ("OBJECT", OBJECT_LOC);
   ("FIELD_DEFINITION", FIELD_DEFINITION); ("ARGUMENT_DEFINITION", ARGUMENT_DEFINITION);
   ("INTERFACE", INTERFACE_LOC); ("UNION", UNION_LOC); ("ENUM", ENUM_LOC); ("ENUM_VALUE", ENUM_VALUE);
   ("INPUT_OBJECT", INPUT_OBJECT_LOC); ("INPUT_FIELD_DEFINITION", INPUT_FIELD_DEFINITION)]%string.
Definition operation_names : list (string * operation_kind) :=
  [("query", OpQuery); ("mutation", OpMutation); ("subscription", OpSubscription)]%string.

Section Spells.
Variable L : nat -> schema_location.
Variable atof : string -> spec_float.
Variable unescape_j : string -> string.
Notation described := (described unescape_j).
Notation directives := (directives L atof).
Notation value := (value L atof).

(** ** Input values, fields, enum values. *)
Inductive with_default : nat -> option (lit * string) -> text -> Prop :=
| with_default_none o : with_default o None []
| with_default_some o w1 w2 v t : blanks w1 -> blanks w2 -> value (o + length w1 + 1 + length w2) v t ->
    with_default o (Some (v, str t)) (w1 ++ "=" :: w2 ++ t).

Inductive input_value : nat -> sdl_input -> text -> Prop :=
| input_value_of o desc td n w1 w2 ty t d tdef dirs tdirs : described desc td -> name n -> blanks w1 -> blanks w2 -> type_ref ty t ->
    with_default (o + length td + length (chars n) + length w1 + 1 + length w2 + length t) d tdef ->
    optional directives (o + length td + length (chars n) + length w1 + 1 + length w2 + length t + length tdef) dirs tdirs ->
    input_value o (mkSdlInput n desc ty d) (td ++ chars n ++ w1 ++ ":" :: w2 ++ t ++ tdef ++ tdirs).
Definition input_values : nat -> list sdl_input -> text -> Prop := bracketed "(" ")" input_value.

Inductive field : nat -> sdl_field -> text -> Prop :=
| field_of o desc td n args ta w1 w2 ty t dirs tdirs : described desc td -> name n ->
    optional input_values (o + length td + length (chars n)) args ta -> blanks w1 -> blanks w2 -> type_ref ty t ->
    optional directives (o + length td + length (chars n) + length ta + length w1 + 1 + length w2 + length t) dirs tdirs ->
    field o (mkSdlField n desc args ty dirs) (td ++ chars n ++ ta ++ w1 ++ ":" :: w2 ++ t ++ tdirs).

Inductive enum_value : nat -> sdl_enum_value -> text -> Prop :=
| enum_value_of o desc td n dirs tdirs : described desc td -> name n ->
    optional directives (o + length td + length (chars n)) dirs tdirs ->
    enum_value o (mkSdlEnum n desc dirs) (td ++ chars n ++ tdirs).

Inductive root_operation : nat -> operation_kind * string -> text -> Prop :=
| root_operation_of o k kind w1 w2 n : In (k, kind) operation_names -> blanks w1 -> blanks w2 -> name n ->
    root_operation o (kind, n) (chars k ++ w1 ++ ":" :: w2 ++ chars n).

(** ** The parts of a definition. *)
(** A description, a word and a name; the word [extend], a word and a name. *)
Inductive headed (word n desc : string) : text -> Prop :=
| headed_by td w : described desc td -> some_blanks w -> name n -> headed word n desc (td ++ chars word ++ w ++ chars n).
Inductive extends (word n : string) : text -> Prop :=
| extends_by w1 w2 : some_blanks w1 -> some_blanks w2 -> name n ->
    extends word n (chars "extend" ++ w1 ++ chars word ++ w2 ++ chars n).

(** Directives, then what the definition contains; both may be missing. *)
Inductive body {A} (P : nat -> list A -> text -> Prop) : nat -> list A -> text -> Prop :=
| body_of o dirs td xs t : optional directives o dirs td -> optional P (o + length td) xs t -> body P o xs (td ++ t).

Inductive implements : list string -> text -> Prop :=
| implements_none : implements [] []
| implements_some w l ns t : some_blanks w -> leading "&" l -> l <> [] -> names "&" ns t ->
    implements ns (w ++ chars "implements" ++ l ++ t).

Inductive members : nat -> list string -> text -> Prop :=
| members_of o l ns t : leading "|" l -> names "|" ns t -> members o ns ("=" :: l ++ t).

Definition fields : nat -> list sdl_field -> text -> Prop := bracketed "{" "}" field.
Definition input_fields : nat -> list sdl_input -> text -> Prop := bracketed "{" "}" input_value.
Definition enum_values : nat -> list sdl_enum_value -> text -> Prop := bracketed "{" "}" enum_value.
Definition root_operations : nat -> list (operation_kind * string) -> text -> Prop := bracketed "{" "}" root_operation.

Definition a_location (_ : nat) (l : directive_location) (t : text) : Prop := exists n, In (n, l) location_names /\ t = chars n.

(** ** Definitions. *)
Inductive defines : nat -> sdl_def -> text -> Prop :=
| defines_schema o dirs td w ops t : optional directives (o + 6) dirs td -> blanks w ->
    root_operations (o + 6 + length td + length w) ops t ->
    defines o (DefSchema ops) (chars "schema" ++ td ++ w ++ t)
| defines_schema_extension o w1 w2 dirs td ops t : some_blanks w1 -> blanks w2 ->
    dirs = [] /\ td = [] \/ directives (o + 6 + length w1 + 6 + length w2) dirs td ->
    ops = [] /\ t = [] \/ root_operations (o + 6 + length w1 + 6 + length w2 + length td) ops t ->
    td ++ t <> [] ->
    defines o (ExtSchema ops) (chars "extend" ++ w1 ++ chars "schema" ++ w2 ++ td ++ t)
| defines_scalar o n desc h dirs td : headed "scalar" n desc h -> optional directives (o + length h) dirs td ->
    defines o (DefScalar n desc) (h ++ td)
| defines_scalar_extension o n h dirs td : extends "scalar" n h -> optional directives (o + length h) dirs td -> td <> [] ->
    defines o (ExtScalar n) (h ++ td)
| defines_enum o n desc h vs t : headed "enum" n desc h -> body enum_values (o + length h) vs t ->
    defines o (DefEnum n desc vs) (h ++ t)
| defines_enum_extension o n h vs t : extends "enum" n h -> body enum_values (o + length h) vs t -> t <> [] ->
    defines o (ExtEnum n vs) (h ++ t)
| defines_input o n desc h fs t : headed "input" n desc h -> body input_fields (o + length h) fs t ->
    defines o (DefInput n desc fs) (h ++ t)
| defines_input_extension o n h fs t : extends "input" n h -> body input_fields (o + length h) fs t -> t <> [] ->
    defines o (ExtInput n fs) (h ++ t)
| defines_union o n desc h ns t : headed "union" n desc h -> body members (o + length h) ns t ->
    defines o (DefUnion n desc ns) (h ++ t)
| defines_union_extension o n h ns t : extends "union" n h -> body members (o + length h) ns t -> t <> [] ->
    defines o (ExtUnion n ns) (h ++ t)
| defines_interface o n desc h fs t : headed "interface" n desc h -> body fields (o + length h) fs t ->
    defines o (DefInterface n desc fs) (h ++ t)
| defines_interface_extension o n h fs t : extends "interface" n h -> body fields (o + length h) fs t -> t <> [] ->
    defines o (ExtInterface n fs) (h ++ t)
| defines_object o n desc h ns ti fs t : headed "type" n desc h -> implements ns ti ->
    body fields (o + length h + length ti) fs t ->
    defines o (DefObject n desc ns fs) (h ++ ti ++ t)
| defines_object_extension o n h ns ti fs t : extends "type" n h -> implements ns ti ->
    body fields (o + length h + length ti) fs t -> ti ++ t <> [] ->
    defines o (ExtObject n ns fs) (h ++ ti ++ t)
| defines_directive o desc td w n args ta w1 w2 lead locs t : described desc td -> blanks w -> name n ->
    optional input_values (o + length td + 9 + length w + 1 + length (chars n)) args ta ->
    some_blanks w1 -> some_blanks w2 ->
    lead = [] \/ (exists w3, blanks w3 /\ lead = "|" :: w3) ->
    items (separator "|") a_location 0 locs t ->
    defines o (DefDirective n desc locs args)
            (td ++ chars "directive" ++ w ++ "@" :: chars n ++ ta ++ w1 ++ chars "on" ++ w2 ++ lead ++ t)
| defines_executable o d t : executable L atof o d t -> defines o DefExecutable t.

(** ** Documents. Two definitions may touch, but not where that would join two names. *)
Definition name_char (c : ascii) : Prop := letter c \/ digit c.
Definition joined (t t' : text) : Prop := exists u c c' u', t = u ++ [c] /\ t' = c' :: u' /\ name_char c /\ name_char c'.
Inductive definitions : nat -> list sdl_def -> text -> Prop :=
| definitions_one o d t : defines o d t -> definitions o [d] t
| definitions_more o d t w ds t' : defines o d t -> blanks w -> ~ (w = [] /\ joined t t') ->
    definitions (o + length t + length w) ds t' -> definitions o (d :: ds) (t ++ w ++ t').

Inductive schema_document : list sdl_def -> text -> Prop :=
| schema_document_of bom w ds t end_ : bom = [] \/ bom = byte_order_mark -> blanks w ->
    definitions (length bom + length w) ds t -> trailing end_ ->
    schema_document ds (bom ++ w ++ t ++ end_).
End Spells.
