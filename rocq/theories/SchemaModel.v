(** The schema objects that validation and introspection read (include/graphqlservice/internal/Schema.h, src/Schema.cpp). *)
From Verif Require Import Cpp Ast.

(** IntrospectionSchema.h [enum class TypeKind]; LIST and NON_NULL are the kinds of wrapper types. *)
Inductive type_kind : Type := SCALAR | OBJECT | INTERFACE | UNION | ENUM | INPUT_OBJECT | LIST | NON_NULL.

(** IntrospectionSchema.h [enum class DirectiveLocation]. *)
Inductive directive_location : Type :=
| QUERY | MUTATION | SUBSCRIPTION | FIELD | FRAGMENT_DEFINITION | FRAGMENT_SPREAD | INLINE_FRAGMENT
| SCHEMA_LOC | SCALAR_LOC | OBJECT_LOC | FIELD_DEFINITION | ARGUMENT_DEFINITION | INTERFACE_LOC | UNION_LOC | ENUM_LOC
| ENUM_VALUE | INPUT_OBJECT_LOC | INPUT_FIELD_DEFINITION.

Definition kind_eqb (a b : type_kind) : bool :=
  match a, b with
  | SCALAR, SCALAR | OBJECT, OBJECT | INTERFACE, INTERFACE | UNION, UNION | ENUM, ENUM | INPUT_OBJECT, INPUT_OBJECT
  | LIST, LIST | NON_NULL, NON_NULL => true
  | _, _ => false
  end.
Definition dloc_dec (a b : directive_location) : {a = b} + {a <> b}.
Proof. decide equality. Defined.
Definition dloc_eqb (a b : directive_location) : bool := if dloc_dec a b then true else false.

(** Schema.h: InputValue, Field, EnumValue, Directive. A reference to a type (weak_ptr<const BaseType>) is the type
    expression it was built from with Schema::LookupType and Schema::WrapType: two references are the same pointer
    exactly when the expressions are equal, because named types are registered once and wrappers are interned
    (C29, C30). A [TNamed] whose name is not registered is a dangling weak_ptr: lock() gives null.
    The default value of an InputValue is its GraphQL text, empty when there is none. *)
Record input_value : Type := mkInput { iv_name : string; iv_desc : string; iv_type : tref; iv_default : string }.
Record field_def : Type := mkFieldDef {
  fd_name : string; fd_desc : string; fd_deprecated : option string; fd_type : tref; fd_args : list input_value }.
Record enum_value_def : Type := mkEnumValue { ev_name : string; ev_desc : string; ev_deprecated : option string }.
Record directive_def : Type := mkDirDef {
  dd_name : string; dd_desc : string; dd_locs : list directive_location; dd_args : list input_value }.

(** Schema.h: BaseType and its subclasses. Every accessor that a class does not override returns the empty vector
    (Schema.cpp:138-173), so one record with all the vectors is enough. *)
Record type_def : Type := mkTypeDef {
  td_kind : type_kind; td_desc : string; td_fields : list field_def; td_interfaces : list string;
  td_possible : list string; td_enums : list enum_value_def; td_inputs : list input_value }.

(** Schema.h:37-76 [Schema]. Simplifications: there is a query type (GraphQL requires one); the registered names are
    distinct (SchemaRegistry*.v models AddType and LookupType with repeated names). *)
Record schema : Type := mkSchema {
  s_types : list (string * type_def); s_query : string; s_mutation : option string; s_subscription : option string;
  s_directives : list directive_def; s_introspection : bool }.

(** The first entry with a given name. *)
Fixpoint assoc {A} (name : string) (m : list (string * A)) : option A :=
  match m with
  | [] => None
  | (k, v) :: m' => if String.eqb name k then Some v else assoc name m'
  end.

Definition find_type (S : schema) (name : string) : option type_def := assoc name (s_types S).

(** [weak.lock()] *)
Definition live (S : schema) (t : tref) : option tref :=
  match t with
  | TNamed n => match find_type S n with Some _ => Some t | None => None end
  | _ => Some t
  end.

(** [BaseType::name()]: wrappers have the empty name. *)
Definition type_name (t : tref) : string := match t with TNamed n => n | _ => ""%string end.

(** [BaseType::kind()] of a live reference. *)
Definition kind_of (S : schema) (t : tref) : type_kind :=
  match t with
  | TListOf _ => LIST
  | TNonNull _ => NON_NULL
  | TNamed n => match find_type S n with Some d => td_kind d | None => SCALAR end
  end.

(** operator== on ValidateType / pointer equality of types. *)
Fixpoint tref_eqb (a b : tref) : bool :=
  match a, b with
  | TNamed x, TNamed y => String.eqb x y
  | TListOf x, TListOf y => tref_eqb x y
  | TNonNull x, TNonNull y => tref_eqb x y
  | _, _ => false
  end.
