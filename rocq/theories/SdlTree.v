(** How SchemaLoader reads the syntax tree of a schema document: the parts it picks out of the nodes, as the definitions of
    LoaderModel.v. *)
From Verif Require Import Cpp Value Ast SchemaModel LoaderModel.
From Verif Require Export TreeModel.
Local Open Scope list_scope.
Local Open Scope string_scope.

(** Grammar.h:933-954, 250-253: the names of the directive locations and of the operation types. SchemaLoader keeps the
    texts, LoaderModel.v the constructors. *)
Definition directive_location_of (s : string) : option directive_location :=
  assoc s [("QUERY", QUERY); ("MUTATION", MUTATION); ("SUBSCRIPTION", SUBSCRIPTION); ("FIELD", FIELD);
           ("FRAGMENT_DEFINITION", FRAGMENT_DEFINITION); ("FRAGMENT_SPREAD", FRAGMENT_SPREAD);
           ("INLINE_FRAGMENT", INLINE_FRAGMENT); ("SCHEMA", SCHEMA_LOC); ("SCALAR", SCALAR_LOC); ("OBJECT", OBJECT_LOC);
           ("FIELD_DEFINITION", FIELD_DEFINITION); ("ARGUMENT_DEFINITION", ARGUMENT_DEFINITION);
           ("INTERFACE", INTERFACE_LOC); ("UNION", UNION_LOC); ("ENUM", ENUM_LOC); ("ENUM_VALUE", ENUM_VALUE);
           ("INPUT_OBJECT", INPUT_OBJECT_LOC); ("INPUT_FIELD_DEFINITION", INPUT_FIELD_DEFINITION)].
Definition operation_kind_of (s : string) : option operation_kind :=
  assoc s [("query", OpQuery); ("mutation", OpMutation); ("subscription", OpSubscription)].

Section Read.
(** As in TreeModel.v; [unescape_j] is what tao::pegtl::unescape::unescape_j makes of the content of an escaped_unicode
    node (PEGTL is not in /repo; that it throws for a surrogate without its partner is left out). *)
Variable L : nat -> schema_location.
Variable atof : string -> spec_float.
Variable unescape_j : string -> string.

Notation "'let?' x ':=' a 'in' b" := (match a with Some x => b | None => None end) (at level 200, x pattern, a at level 100, b at level 200).

(** SyntaxTree.cpp:157-207 the transform of an escaped_char. *)
Definition unescaped_char (c : ascii) : ascii :=
  if Ascii.eqb c "b" then ascii_of_nat 8
  else if Ascii.eqb c "f" then ascii_of_nat 12
  else if Ascii.eqb c "n" then ascii_of_nat 10
  else if Ascii.eqb c "r" then ascii_of_nat 13
  else if Ascii.eqb c "t" then ascii_of_nat 9
  else c.

(** SyntaxTree.cpp:46-98 unescaped_view of a piece of a string, with what the transforms have set (157-235). *)
Definition unescaped_view (x : node rule) : string :=
  match n_type x with
  | R_escaped_char => match n_content x with c :: _ => String (unescaped_char c) "" | [] => "" end
  | R_string_quote_character | R_block_quote_character => text_of x
  | R_block_escape_sequence => string_of_list_ascii [""""; """"; """"]%char
  | t => match n_children x with
         | _ :: _ => joined_view x
         | [] => if rule_eqb t R_escaped_unicode then unescape_j (text_of x) else ""
         end
  end.

(** on_first_child<description>, as in SchemaLoader.cpp:656-662: only the first piece of the string is asked. *)
Definition read_description (l : list (node rule)) : string :=
  match first_child R_description l with
  | Some d => match n_children d with x :: _ => unescaped_view x | [] => "" end
  | None => ""
  end.

(** on_first_child for a name: it stays empty when there is none. *)
Definition read_name (r : rule) (l : list (node rule)) : string :=
  match first_child r l with Some x => text_of x | None => "" end.

(** SchemaLoader.cpp:1150-1187 getInputFields: what it takes from one child. The loop over the children keeps the last of
    each kind, here the first: the grammar gives at most one. [None]: [children.back()] of a default value without children, or a
    type or value node of another kind. *)
Definition read_input (x : node rule) : option sdl_input :=
  let ks := n_children x in
  let? y := List.find is_type_node ks in
  let? t := read_type y in
  let? d := match first_child R_default_value ks with
            | Some d => let? z := back (n_children d) in let? v := read_value L atof z in Some (Some (v, text_of z))
            | None => Some None
            end in
  Some (mkSdlInput (read_name R_argument_name ks) (read_description ks) t d).

(** SchemaLoader.cpp:1070-1148 getOutputFields, with the same simplification. *)
Definition read_field_definition (x : node rule) : option sdl_field :=
  let ks := n_children x in
  let? args := match first_child R_arguments_definition ks with
               | Some a => all read_input (n_children a)
               | None => Some []
               end in
  let? y := List.find is_type_node ks in
  let? t := read_type y in
  let? dirs := read_directives L atof ks in
  Some (mkSdlField (read_name R_field_name ks) (read_description ks) args t dirs).

(** SchemaLoader.cpp:863-921, one enum_value_definition. *)
Definition read_enum_value (x : node rule) : option sdl_enum_value :=
  let ks := n_children x in
  let? dirs := read_directives L atof ks in
  Some (mkSdlEnum (read_name R_enum_value ks) (read_description ks) dirs).

(** SchemaLoader.cpp:624-631, 636-643: [children.front()] and [children.back()]. *)
Definition read_operation_type (x : node rule) : option (operation_kind * string) :=
  let? k := front (n_children x) in
  let? n := back (n_children x) in
  let? kind := operation_kind_of (text_of k) in
  Some (kind, text_of n).

Definition read_block {A} (r : rule) (f : node rule -> option A) (l : list (node rule)) : option (list A) :=
  match first_child r l with Some b => all f (n_children b) | None => Some [] end.
Definition read_each {A} (r : rule) (f : node rule -> option A) (l : list (node rule)) : option (list A) :=
  all f (each_child r l).
Definition read_texts (r : rule) (l : list (node rule)) : list string := map text_of (each_child r l).

(** SchemaLoader.cpp:552-620 visitDefinition and the visitors of 622-1033. An extension of a scalar is not among the
    types that visitDefinition names; it goes where operations and fragments go. *)
Definition read_sdl (x : node rule) : option sdl_def :=
  let ks := n_children x in
  match n_type x with
  | R_schema_definition => let? ops := read_each R_root_operation_definition read_operation_type ks in Some (DefSchema ops)
  | R_schema_extension => let? ops := read_each R_operation_type_definition read_operation_type ks in Some (ExtSchema ops)
  | R_scalar_type_definition => Some (DefScalar (read_name R_scalar_name ks) (read_description ks))
  | R_enum_type_definition =>
      let? vs := read_each R_enum_value_definition read_enum_value ks in
      Some (DefEnum (read_name R_enum_name ks) (read_description ks) vs)
  | R_enum_type_extension =>
      let? vs := read_each R_enum_value_definition read_enum_value ks in Some (ExtEnum (read_name R_enum_name ks) vs)
  | R_input_object_type_definition =>
      let? fs := read_block R_input_fields_definition read_input ks in
      Some (DefInput (read_name R_object_name ks) (read_description ks) fs)
  | R_input_object_type_extension =>
      let? fs := read_block R_input_fields_definition read_input ks in Some (ExtInput (read_name R_object_name ks) fs)
  | R_union_type_definition =>
      Some (DefUnion (read_name R_union_name ks) (read_description ks) (read_texts R_union_type ks))
  | R_union_type_extension => Some (ExtUnion (read_name R_union_name ks) (read_texts R_union_type ks))
  | R_interface_type_definition =>
      let? fs := read_block R_fields_definition read_field_definition ks in
      Some (DefInterface (read_name R_interface_name ks) (read_description ks) fs)
  | R_interface_type_extension =>
      let? fs := read_block R_fields_definition read_field_definition ks in
      Some (ExtInterface (read_name R_interface_name ks) fs)
  | R_object_type_definition =>
      let? fs := read_block R_fields_definition read_field_definition ks in
      Some (DefObject (read_name R_object_name ks) (read_description ks) (read_texts R_interface_type ks) fs)
  | R_object_type_extension =>
      let? fs := read_block R_fields_definition read_field_definition ks in
      Some (ExtObject (read_name R_object_name ks) (read_texts R_interface_type ks) fs)
  | R_directive_definition =>
      let? locs := all directive_location_of (read_texts R_directive_location ks) in
      let? args := read_block R_arguments_definition read_input ks in
      Some (DefDirective (read_name R_directive_name ks) (read_description ks) locs args)
  | R_scalar_type_extension => Some (ExtScalar (read_name R_scalar_name ks))
  | _ => Some DefExecutable
  end.

(** SchemaLoader.cpp:166-169: every child of the root, in order. *)
Definition read_schema (l : list (node rule)) : option (list sdl_def) := all read_sdl l.

End Read.
