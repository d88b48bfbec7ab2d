(** Introspection: the objects behind __schema and __type (src/Introspection.cpp and the generated src/IntrospectionSchema.cpp), reading
    the schema registry. *)
From Verif Require Import Cpp Value Ast ErrorModel SchemaModel RegistryModel ModifiersModel ExecModel ExecSem.
Local Open Scope string_scope.
Local Open Scope list_scope.

(** Introspection.h: one class per introspection type. Type holds a pointer to a schema::BaseType (an address), the others a pointer to
    an object that never changes after the schema is built (its content). *)
Inductive iobj : Type :=
| ISchema
| IType (t : address)
| IField (f : field_obj)
| IInput (i : input_obj)
| IEnum (e : enum_value_def)
| IDirective (d : directive_obj).

(** IntrospectionSchema.cpp:123-126, 192-195, 335-338, 415-418, 473-476, 531-534: the type names of the objects. *)
Definition i_typename (o : iobj) : string :=
  match o with
  | ISchema => "__Schema" | IType _ => "__Type" | IField _ => "__Field" | IInput _ => "__InputValue"
  | IEnum _ => "__EnumValue" | IDirective _ => "__Directive"
  end.
Definition i_types (o : iobj) : list string := [i_typename o].

(** The same constructors: the names of the resolvers. *)
Definition i_fields (o : iobj) : list string :=
  match o with
  | ISchema => ["types"; "queryType"; "__typename"; "directives"; "mutationType"; "subscriptionType"]
  | IType _ => ["kind"; "name"; "fields"; "ofType"; "__typename"; "enumValues"; "interfaces"; "description"; "inputFields"; "possibleTypes"]
  | IField _ => ["args"; "name"; "type"; "__typename"; "description"; "isDeprecated"; "deprecationReason"]
  | IInput _ => ["name"; "type"; "__typename"; "description"; "defaultValue"]
  | IEnum _ => ["name"; "__typename"; "description"; "isDeprecated"; "deprecationReason"]
  | IDirective _ => ["args"; "name"; "locations"; "__typename"; "description"]
  end.
Definition i_has (o : iobj) (f : string) : bool := existsb (String.eqb f) (i_fields o).

(** IntrospectionSchema.h:36-68: the positions in the enum classes. *)
Definition kind_index (k : type_kind) : nat :=
  match k with SCALAR => 0 | OBJECT => 1 | INTERFACE => 2 | UNION => 3 | ENUM => 4 | INPUT_OBJECT => 5 | LIST => 6 | NON_NULL => 7 end.
Definition location_index (l : directive_location) : nat :=
  match l with
  | QUERY => 0 | MUTATION => 1 | SUBSCRIPTION => 2 | FIELD => 3 | FRAGMENT_DEFINITION => 4 | FRAGMENT_SPREAD => 5 | INLINE_FRAGMENT => 6
  | SCHEMA_LOC => 7 | SCALAR_LOC => 8 | OBJECT_LOC => 9 | FIELD_DEFINITION => 10 | ARGUMENT_DEFINITION => 11 | INTERFACE_LOC => 12
  | UNION_LOC => 13 | ENUM_LOC => 14 | ENUM_VALUE => 15 | INPUT_OBJECT_LOC => 16 | INPUT_FIELD_DEFINITION => 17
  end.
(** IntrospectionSchema.cpp:22-31, 65-84. *)
Definition names_type_kind : list string := ["SCALAR"; "OBJECT"; "INTERFACE"; "UNION"; "ENUM"; "INPUT_OBJECT"; "LIST"; "NON_NULL"].
Definition names_directive_location : list string :=
  ["QUERY"; "MUTATION"; "SUBSCRIPTION"; "FIELD"; "FRAGMENT_DEFINITION"; "FRAGMENT_SPREAD"; "INLINE_FRAGMENT"; "SCHEMA"; "SCALAR"; "OBJECT";
   "FIELD_DEFINITION"; "ARGUMENT_DEFINITION"; "INTERFACE"; "UNION"; "ENUM"; "ENUM_VALUE"; "INPUT_OBJECT"; "INPUT_FIELD_DEFINITION"].

(** IntrospectionSchema.cpp:51-63, 104-116 [ModifiedResult<TypeKind>::convert], [ModifiedResult<DirectiveLocation>::convert]: the generated
    converters do not refuse sub-fields. *)
Definition enum_leaf (names : list string) (i : nat) : fres iobj :=
  FLeaf false false (match nth_error names i with Some s => Ok (VEnum s) | None => UB end).
Definition string_leaf (s : string) : fres iobj := FLeaf true false (Ok (VString s false)).
Definition bool_leaf (b : bool) : fres iobj := FLeaf true false (Ok (VBool b)).
(** [name.empty() ? std::nullopt : std::make_optional(name)] through convert<Nullable>. *)
Definition nullable_string (s : string) : fres iobj := FNullable (Ok (if String.eqb s "" then None else Some (string_leaf s))).
Definition optional_string (o : option string) : fres iobj := FNullable (Ok (option_map string_leaf o)).
(** convert, convert<Nullable> and convert<List> of a (vector of) shared_ptr to a generated object. For a null pointer convert<Nullable>
    gives null (GraphQLService.h:566-600). *)
Definition object_of (o : option iobj) : fres iobj := FDerived (Ok o).
Definition nullable_object (o : option iobj) : fres iobj := FNullable (Ok (option_map (fun x => FDerived (Ok (Some x))) o)).
Definition objects_of (l : list iobj) : fres iobj := FList (Ok (map (fun x => FDerived (Ok (Some x))) l)).
Definition nullable_objects (l : option (list iobj)) : fres iobj := FNullable (Ok (option_map objects_of l)).

(** IntrospectionSchema.cpp:242-256, 287-301: the argument includeDeprecated, read with find<Nullable> and else from the default. *)
Definition include_deprecated (p : fparams) : result (option bool) :=
  x <- read_declared (require [MNullable] (ILeaf KBool) "includeDeprecated") "includeDeprecated" (Some (VBool false)) (VMap (p_args p)) ;;
  match x with
  | XOpt None => Ok None
  | XOpt (Some (XBool b)) => Ok (Some b)
  | _ => UB
  end.

Definition undefined : answer iobj := AResult (FLeaf false false UB).
Definition answered (r : result (fres iobj)) : answer iobj :=
  match r with Ok f => AResult f | Throw e => AThrow e | UB => undefined end.

Section Answers.
  Variable r : registry.

  (** A weak or shared pointer to a type; an address that is not in the heap is an expired one. *)
  Definition type_ptr (t : address) : option iobj := match object_at r t with Some _ => Some (IType t) | None => None end.

  (** Introspection.cpp:13-61; IntrospectionSchema.cpp:137-190. *)
  Definition schema_answer (f : string) : answer iobj :=
    if String.eqb f "types" then AResult (objects_of (map (fun e => IType (snd e)) (types r)))
    else if String.eqb f "queryType" then AResult (object_of (option_map IType (query r)))
    else if String.eqb f "mutationType" then AResult (nullable_object (option_map IType (mutation r)))
    else if String.eqb f "subscriptionType" then AResult (nullable_object (option_map IType (subscription r)))
    else if String.eqb f "directives" then AResult (objects_of (map IDirective (directives r)))
    else AResult (string_leaf "__Schema").

  (** Introspection.cpp:90-117 [Type::getFields]. *)
  Definition get_fields (o : type_obj) (include : option bool) : option (list iobj) :=
    match to_kind o with
    | OBJECT | INTERFACE =>
        let deprecated := match include with Some b => b | None => false end in
        Some (map IField (filter (fun f => deprecated || negb (match fo_deprecated f with Some _ => true | None => false end)) (to_fields o)))
    | _ => None
    end.
  (** Introspection.cpp:119-139. *)
  Definition get_interfaces (o : type_obj) : option (list iobj) :=
    match to_kind o with OBJECT => Some (map IType (to_interfaces o)) | _ => None end.
  (** Introspection.cpp:141-166. *)
  Definition get_possible_types (o : type_obj) : option (list iobj) :=
    match to_kind o with INTERFACE | UNION => Some (map IType (to_possible o)) | _ => None end.
  (** Introspection.cpp:168-195. *)
  Definition get_enum_values (o : type_obj) (include : option bool) : option (list iobj) :=
    match to_kind o with
    | ENUM =>
        let deprecated := match include with Some b => b | None => false end in
        Some (map IEnum (filter (fun v => deprecated || negb (match ev_deprecated v with Some _ => true | None => false end)) (to_enums o)))
    | _ => None
    end.
  (** Introspection.cpp:197-218. *)
  Definition get_input_fields (o : type_obj) : option (list iobj) :=
    match to_kind o with INPUT_OBJECT => Some (map IInput (to_inputs o)) | _ => None end.
  (** Introspection.cpp:220-235. *)
  Definition get_of_type (o : type_obj) : option iobj :=
    match to_kind o with
    | LIST | NON_NULL => match to_of o with Some t => type_ptr t | None => None end
    | _ => None
    end.

  (** Introspection.cpp:63-88; IntrospectionSchema.cpp:210-333. Every getter reads the pointer to the type, which is not checked. *)
  Definition type_answer (t : address) (f : string) (p : fparams) : answer iobj :=
    match object_at r t with
    | None => if String.eqb f "__typename" then AResult (string_leaf "__Type") else undefined
    | Some o =>
        if String.eqb f "kind" then AResult (enum_leaf names_type_kind (kind_index (to_kind o)))
        else if String.eqb f "name" then AResult (nullable_string (to_name o))
        else if String.eqb f "description" then AResult (nullable_string (to_desc o))
        else if String.eqb f "fields" then answered (d <- include_deprecated p ;; Ok (nullable_objects (get_fields o d)))
        else if String.eqb f "interfaces" then AResult (nullable_objects (get_interfaces o))
        else if String.eqb f "possibleTypes" then AResult (nullable_objects (get_possible_types o))
        else if String.eqb f "enumValues" then answered (d <- include_deprecated p ;; Ok (nullable_objects (get_enum_values o d)))
        else if String.eqb f "inputFields" then AResult (nullable_objects (get_input_fields o))
        else if String.eqb f "ofType" then AResult (nullable_object (get_of_type o))
        else AResult (string_leaf "__Type")
    end.

  (** Introspection.cpp:237-288; IntrospectionSchema.cpp:350-413. *)
  Definition field_answer (x : field_obj) (f : string) : answer iobj :=
    if String.eqb f "name" then AResult (string_leaf (fo_name x))
    else if String.eqb f "description" then AResult (nullable_string (fo_desc x))
    else if String.eqb f "args" then AResult (objects_of (map IInput (fo_args x)))
    else if String.eqb f "type" then AResult (object_of (type_ptr (fo_type x)))
    else if String.eqb f "isDeprecated" then AResult (bool_leaf (match fo_deprecated x with Some _ => true | None => false end))
    else if String.eqb f "deprecationReason" then AResult (optional_string (fo_deprecated x))
    else AResult (string_leaf "__Field").

  (** Introspection.cpp:290-324; IntrospectionSchema.cpp:428-471. *)
  Definition input_answer (x : input_obj) (f : string) : answer iobj :=
    if String.eqb f "name" then AResult (string_leaf (io_name x))
    else if String.eqb f "description" then AResult (nullable_string (io_desc x))
    else if String.eqb f "type" then AResult (object_of (type_ptr (io_type x)))
    else if String.eqb f "defaultValue" then AResult (nullable_string (io_default x))
    else AResult (string_leaf "__InputValue").

  (** Introspection.cpp:326-357; IntrospectionSchema.cpp:486-529. *)
  Definition enum_answer (x : enum_value_def) (f : string) : answer iobj :=
    if String.eqb f "name" then AResult (string_leaf (ev_name x))
    else if String.eqb f "description" then AResult (nullable_string (ev_desc x))
    else if String.eqb f "isDeprecated" then AResult (bool_leaf (match ev_deprecated x with Some _ => true | None => false end))
    else if String.eqb f "deprecationReason" then AResult (optional_string (ev_deprecated x))
    else AResult (string_leaf "__EnumValue").

  (** Introspection.cpp:359-395; IntrospectionSchema.cpp:544-587. *)
  Definition directive_answer (x : directive_obj) (f : string) : answer iobj :=
    if String.eqb f "name" then AResult (string_leaf (do_name x))
    else if String.eqb f "description" then AResult (nullable_string (do_desc x))
    else if String.eqb f "locations" then
      AResult (FList (Ok (map (fun l => enum_leaf names_directive_location (location_index l)) (do_locs x))))
    else if String.eqb f "args" then AResult (objects_of (map IInput (do_args x)))
    else AResult (string_leaf "__Directive").

  (** The resolver of a field of an introspection object; only called for the names in [i_fields]. *)
  Definition i_ans (o : iobj) (f : string) (p : fparams) : answer iobj :=
    match o with
    | ISchema => schema_answer f
    | IType t => type_answer t f p
    | IField x => field_answer x f
    | IInput x => input_answer x f
    | IEnum x => enum_answer x f
    | IDirective x => directive_answer x f
    end.

  (** The fields that schemagen adds to the query type, unless noIntrospection: SchemaGenerator.cpp:1413-1424, 1570-1595 (as generated:
      samples/unified/TodaySchema.cpp:392-404). *)
  Definition query_schema_answer : answer iobj := AResult (FObject false (Ok (Some ISchema))).
  Definition query_type_answer (p : fparams) : answer iobj :=
    answered (x <- require [] (ILeaf KString) "name" (VMap (p_args p)) ;;
              match x with
              | XString name => t <- lookup_type r name ;; Ok (nullable_object (Some (IType t)))
              | _ => UB
              end).
End Answers.

(** A service that contains these objects, under the names [inj] gives them. *)
Section Host.
  Context {A B : Type}.
  Variable inj : A -> B.
  Definition rmap_opt (x : result (option A)) : result (option B) := rmap (option_map inj) x.
  Fixpoint fmap (f : fres A) : fres B :=
    match f with
    | FLeaf b u v => FLeaf b u v
    | FObject u x => FObject u (rmap_opt x)
    | FDerived x => FDerived (rmap_opt x)
    | FNullable (Ok o) => FNullable (Ok (option_map fmap o))
    | FNullable (Throw e) => FNullable (Throw e)
    | FNullable UB => FNullable UB
    | FList (Ok l) => FList (Ok (map fmap l))
    | FList (Throw e) => FList (Throw e)
    | FList UB => FList UB
    end.
  Definition amap (a : answer A) : answer B := match a with AThrow e => AThrow e | AResult f => AResult (fmap f) end.
End Host.

Section Hosts.
  Context {O : Type}.
  Variables (r : registry) (inj : iobj -> O) (typenames : O -> list string) (has_field : O -> string -> bool)
    (ans : O -> string -> fparams -> answer O) (root : O).
  Record hosts : Prop := mkHosts {
    ho_types : forall i, typenames (inj i) = i_types i;
    ho_has : forall i f, has_field (inj i) f = i_has i f;
    ho_ans : forall i f p, ans (inj i) f p = amap inj (i_ans r i f p);
    ho_schema : supports_introspection r = true -> has_field root "__schema" = true
      /\ forall p, ans root "__schema" p = amap inj query_schema_answer;
    ho_type : supports_introspection r = true -> has_field root "__type" = true
      /\ forall p, ans root "__type" p = amap inj (query_type_answer r p) }.
End Hosts.
