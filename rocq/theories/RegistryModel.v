(** The schema registry as it is built: schema::Schema and the type classes (src/Schema.cpp, include/graphqlservice/internal/Schema.h).
    Pointers to types are addresses of type objects; the addresses of new objects are taken in order. *)
From Verif Require Import Cpp Ast SortedMapModel SchemaModel.
Local Open Scope string_scope.
Local Open Scope list_scope.

Notation address := nat (only parsing).

(** Schema.h:298-400 [Field], [InputValue], [Directive]: their types are weak pointers. Lifetimes are not modelled: the schema keeps the
    types that were added and the wrappers alive. *)
Record input_obj : Type := mkInputObj { io_name : string; io_desc : string; io_type : address; io_default : string }.
Record field_obj : Type := mkFieldObj {
  fo_name : string; fo_desc : string; fo_deprecated : option string; fo_type : address; fo_args : list input_obj }.
Record directive_obj : Type := mkDirObj {
  do_name : string; do_desc : string; do_locs : list directive_location; do_args : list input_obj }.

(** Schema.h:81-296 [BaseType] and its classes, Schema.cpp:112-411. A class that does not override an accessor gives
    the empty vector, the empty name and no ofType (Schema.cpp:127-172). *)
Record type_obj : Type := mkTypeObj {
  to_kind : type_kind; to_name : string; to_desc : string; to_fields : list field_obj; to_interfaces : list address;
  to_possible : list address; to_enums : list enum_value_def; to_inputs : list input_obj; to_of : option address }.

(** Schema.h:37-78. [wrappers true] are _listWrappers, [wrappers false] are _nonNullWrappers. *)
Record registry : Type := mkReg {
  no_introspection : bool; heap : list type_obj; query : option address; mutation : option address; subscription : option address;
  type_map : list (string * nat); types : list (string * address); directives : list directive_obj;
  wrappers : bool -> list (address * address) }.

(** Schema.cpp:12-15. *)
Definition new_schema (noIntrospection : bool) : registry := mkReg noIntrospection [] None None None [] [] [] (fun _ => []).

(** The calls that build a schema. *)
Inductive call : Type :=
| Make (kind : type_kind) (name desc : string)         (* ScalarType::Make, ObjectType::Make, ... *)
| AddType (name : string) (t : address)
| AddQueryType (t : address)
| AddMutationType (t : address)
| AddSubscriptionType (t : address)
| AddDirective (d : directive_obj)
| AddInterfaces (object : address) (interfaces : list address)
| AddFields (t : address) (fields : list field_obj)
| AddPossibleTypes (union : address) (possible : list address)
| AddEnumValues (enum : address) (values : list enum_value_def)
| AddInputValues (input : address) (values : list input_obj)
| WrapType (kind : type_kind) (ofType : address).

Definition with_heap (r : registry) (h : list type_obj) : registry :=
  mkReg (no_introspection r) h (query r) (mutation r) (subscription r) (type_map r) (types r) (directives r) (wrappers r).
(** A member function of the object at an address. *)
Fixpoint update {A} (l : list A) (i : nat) (f : A -> A) : list A :=
  match l, i with
  | [], _ => []
  | x :: r, O => f x :: r
  | x :: r, S j => x :: update r j f
  end.
Definition on (r : registry) (t : address) (f : type_obj -> type_obj) : registry := with_heap r (update (heap r) t f).

(** Schema.cpp:180-190, 202-212, 250-260, 293-303, 325-335, 363-374, 396-406: the objects that Make gives. *)
Definition fresh_type (kind : type_kind) (name desc : string) (of : option address) : type_obj :=
  mkTypeObj kind name desc [] [] [] [] [] of.

Definition set_fields (fs : list field_obj) (o : type_obj) : type_obj :=
  mkTypeObj (to_kind o) (to_name o) (to_desc o) fs (to_interfaces o) (to_possible o) (to_enums o) (to_inputs o) (to_of o).
Definition set_interfaces (is : list address) (o : type_obj) : type_obj :=
  mkTypeObj (to_kind o) (to_name o) (to_desc o) (to_fields o) is (to_possible o) (to_enums o) (to_inputs o) (to_of o).
Definition set_possible (ps : list address) (o : type_obj) : type_obj :=
  mkTypeObj (to_kind o) (to_name o) (to_desc o) (to_fields o) (to_interfaces o) ps (to_enums o) (to_inputs o) (to_of o).
Definition set_enums (es : list enum_value_def) (o : type_obj) : type_obj :=
  mkTypeObj (to_kind o) (to_name o) (to_desc o) (to_fields o) (to_interfaces o) (to_possible o) es (to_inputs o) (to_of o).
Definition set_inputs (is : list input_obj) (o : type_obj) : type_obj :=
  mkTypeObj (to_kind o) (to_name o) (to_desc o) (to_fields o) (to_interfaces o) (to_possible o) (to_enums o) is (to_of o).

(** Schema.cpp:262-265 [InterfaceType::AddPossibleType]. *)
Definition add_possible (t : address) (o : type_obj) : type_obj := set_possible (to_possible o ++ [t]) o.

(** Schema.cpp:33-37 [AddType]. *)
Definition add_type (r : registry) (name : string) (t : address) : registry :=
  mkReg (no_introspection r) (heap r) (query r) (mutation r) (subscription r)
        (smap_assign shorter_or_less 0 (type_map r) name (length (types r))) (types r ++ [(name, t)]) (directives r) (wrappers r).

(** Schema.cpp:44-62 [LookupType]. _types[i] is not checked. *)
Definition lookup_type (r : registry) (name : string) : result address :=
  match smap_find shorter_or_less (type_map r) name with
  | None => Throw (SchemaEx [mkErr ("Type not found" ++ (if String.eqb name "" then "" else " name: " ++ name)) (mkLoc 0 1) []])
  | Some i => match nth_error (types r) i with Some (_, t) => Ok t | None => UB end
  end.

(** Schema.cpp:64-84 [WrapType] without other threads (WrapModel.v has them); also what it returns. *)
Definition wrap_type (r : registry) (kind : type_kind) (ofType : address) : registry * address :=
  let b := match kind with LIST => true | _ => false end in
  match smap_find Nat.ltb (wrappers r b) ofType with
  | Some w => (r, w)
  | None =>
      let w := length (heap r) in
      let m := fst (smap_emplace Nat.ltb (wrappers r b) ofType w) in
      (mkReg (no_introspection r) (heap r ++ [fresh_type kind "" "" (Some ofType)]) (query r) (mutation r) (subscription r)
             (type_map r) (types r) (directives r) (fun b' => if Bool.eqb b b' then m else wrappers r b'), w)
  end.

Definition exec (r : registry) (c : call) : registry :=
  match c with
  | Make kind name desc => with_heap r (heap r ++ [fresh_type kind name desc None])
  | AddType name t => add_type r name t
  (* Schema.cpp:17-30 *)
  | AddQueryType t => mkReg (no_introspection r) (heap r) (Some t) (mutation r) (subscription r) (type_map r) (types r) (directives r) (wrappers r)
  | AddMutationType t => mkReg (no_introspection r) (heap r) (query r) (Some t) (subscription r) (type_map r) (types r) (directives r) (wrappers r)
  | AddSubscriptionType t => mkReg (no_introspection r) (heap r) (query r) (mutation r) (Some t) (type_map r) (types r) (directives r) (wrappers r)
  (* Schema.cpp:86-89 *)
  | AddDirective d => mkReg (no_introspection r) (heap r) (query r) (mutation r) (subscription r) (type_map r) (types r) (directives r ++ [d]) (wrappers r)
  (* Schema.cpp:213-222 *)
  | AddInterfaces o is => fold_left (fun r i => on r i (add_possible o)) is (on r o (set_interfaces is))
  (* Schema.cpp:224-227, 267-270 *)
  | AddFields t fs => on r t (set_fields fs)
  (* Schema.cpp:304-307 *)
  | AddPossibleTypes t ps => on r t (set_possible ps)
  (* Schema.cpp:336-345 *)
  | AddEnumValues t vs => on r t (set_enums (map (fun v => mkEnumValue (ev_name v) (ev_desc v) (ev_deprecated v)) vs))
  (* Schema.cpp:375-378 *)
  | AddInputValues t vs => on r t (set_inputs vs)
  | WrapType kind t => fst (wrap_type r kind t)
  end.
Definition built (noIntrospection : bool) (h : list call) : registry := fold_left exec h (new_schema noIntrospection).

(** Schema.cpp:39-42 [supportsIntrospection]. *)
Definition supports_introspection (r : registry) : bool := negb (no_introspection r).

(** The object at an address (a shared_ptr is never dangling). *)
Definition object_at (r : registry) (t : address) : option type_obj := nth_error (heap r) t.
