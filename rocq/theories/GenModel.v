(** schemagen's back end, as far as it generates the code that builds the schema (src/SchemaGenerator.cpp), and that code. *)
From Verif Require Import Cpp Value Ast ModifiersModel SchemaModel RegistryModel LoaderModel.
Local Open Scope string_scope.
Local Open Scope list_scope.

(** * The generated C++ code, as a program. Literals (raw strings) are their contents. *)
(** An expression for a type: a variable, schema->LookupType(name), schema->WrapType(kind, expression). *)
Inductive type_expr : Type := EVar (v : string) | ELookup (name : string) | EWrap (kind : type_kind) (e : type_expr).
Record input_expr : Type := mkInputE { ie_name : string; ie_desc : string; ie_type : type_expr; ie_default : string }.
Record field_expr : Type := mkFieldE {
  fe_name : string; fe_desc : string; fe_deprecated : option string; fe_type : type_expr; fe_args : list input_expr }.
(** service::s_names<enum>[static_cast<size_t>(<namespace>::<enum>::<value>)] *)
Record enum_expr : Type := mkEnumE { ee_enum : string; ee_value : string; ee_desc : string; ee_deprecated : option string }.
Inductive stmt : Type :=
| SAddScalar (name name' desc : string)                        (* schema->AddType(name, schema::ScalarType::Make(name', desc)) *)
| SMake (kind : type_kind) (v name desc : string)              (* auto v = schema::<kind>::Make(name, desc) *)
| SAddType (name v : string)                                   (* schema->AddType(name, v) *)
| SEnumValues (v : string) (values : list enum_expr)
| SInputValues (v : string) (values : list input_expr)
| SPossibleTypes (v : string) (types : list type_expr)
| SInterfaces (v : string) (types : list type_expr)
| SFields (v : string) (fields : list field_expr)
| SDirective (name desc : string) (locations : list directive_location) (args : list input_expr)
| SOperation (op : operation_kind) (v : string).
(** The body of AddTypesToSchema, and the enumerations with their s_names arrays: the enumerators and the names at the same index. *)
Record program : Type := mkProgram { p_enums : list (string * list (string * string)); p_body : list stmt }.

(** * The generator *)
(** SchemaGenerator.cpp:1987-2057 getIntrospectionType; [nonNull] is true at the beginning. *)
Fixpoint introspection_type (n : string) (ms : list modifier) (nonNull : bool) : type_expr :=
  match ms with
  | [] => if nonNull then EWrap NON_NULL (ELookup n) else ELookup n
  | MNullable :: r => introspection_type n r false
  | MList :: r => let e := EWrap LIST (introspection_type n r true) in if nonNull then EWrap NON_NULL e else e
  end.
Section Generator.
  Variables (noIntrospection separateFiles introspection : bool).
  Definition desc_of (s : string) : string := if noIntrospection then "" else s.
  (** The variable of a type with this C++ name. *)
  Definition type_var (cpp : string) : string := "type" ++ cpp.
  (** 1076-1093, 1183-1202, 1279-1298, 1688-1706 *)
  Definition gen_input (f : in_field) : input_expr :=
    mkInputE (in_name f) (desc_of (in_desc f)) (introspection_type (in_type f) (in_mods f) true) (in_default_text f).
  (** 1144-1207, 1644-1712 *)
  Definition gen_field (f : out_field) : field_expr :=
    mkFieldE (out_name f) (desc_of (out_desc f)) (out_deprecated f) (introspection_type (out_type f) (out_mods f) true) (map gen_input (out_args f)).
  (** 1008-1045 *)
  Definition gen_enum_value (cpp : string) (v : enum_val) : enum_expr := mkEnumE cpp (en_cpp v) (desc_of (en_desc v)) (en_deprecated v).
  Definition unless_nil {A B} (l : list A) (s : B) : list B := match l with [] => [] | _ => [s] end.
  (** 1600-1715 outputObjectIntrospection *)
  Definition gen_object (o : object_type) : list stmt :=
    unless_nil (ob_interfaces o)
      (SInterfaces (type_var (ob_cpp o))
         (map (fun i => if separateFiles then ELookup i else EVar (type_var (safe_cpp_name i))) (ob_interfaces o)))
    ++ unless_nil (ob_fields o) (SFields (type_var (ob_cpp o)) (map gen_field (ob_fields o))).
  Definition gen_type (kind : type_kind) (name cpp desc : string) : list stmt :=
    [SMake kind (type_var cpp) name (desc_of desc); SAddType name (type_var cpp)].
  (** 854-995 *)
  Definition gen_declarations (l : loader) : list stmt :=
    (if introspection then map (fun n => SAddScalar n n (desc_of "Built-in type")) builtin_types else [])
    ++ map (fun s => SAddScalar (sc_type s) (sc_type s) (desc_of (sc_desc s))) (l_scalars l)
    ++ flat_map (fun t => gen_type ENUM (et_type t) (et_cpp t) (et_desc t)) (l_enums l)
    ++ flat_map (fun t => gen_type INPUT_OBJECT (it_type t) (it_cpp t) (it_desc t)) (l_inputs l)
    ++ flat_map (fun t => gen_type UNION (un_type t) (un_cpp t) (un_desc t)) (l_unions l)
    ++ flat_map (fun t => gen_type INTERFACE (if_type t) (if_cpp t) (if_desc t)) (l_interfaces l)
    ++ flat_map (fun t => gen_type OBJECT (ob_type t) (ob_cpp t) (ob_desc t)) (l_objects l).
  (** 997-1335 *)
  Definition gen_details (l : loader) : list stmt :=
    flat_map (fun t => unless_nil (et_values t) (SEnumValues (type_var (et_cpp t)) (map (gen_enum_value (et_cpp t)) (et_values t)))) (l_enums l)
    ++ flat_map (fun t => unless_nil (it_fields t) (SInputValues (type_var (it_cpp t)) (map gen_input (it_fields t)))) (l_inputs l)
    ++ flat_map (fun t => unless_nil (un_options t) (SPossibleTypes (type_var (un_cpp t)) (map ELookup (un_options t)))) (l_unions l)
    ++ flat_map (fun t => unless_nil (if_fields t) (SFields (type_var (if_cpp t)) (map gen_field (if_fields t)))) (l_interfaces l)
    ++ flat_map gen_object (l_objects l)
    ++ map (fun d => SDirective (ld_name d) (desc_of (ld_desc d)) (ld_locations d) (map gen_input (ld_args d))) (l_directives l)
    ++ (if introspection then [] else map (fun o => SOperation (ot_operation o) (type_var (ot_cpp o))) (l_operations l)).
  (** 607-630 (s_names) and 390-425 in the header (the enumerations) *)
  Definition gen_enums (l : loader) : list (string * list (string * string)) :=
    map (fun t => (et_cpp t, map (fun v => (en_cpp v, en_value v)) (et_values t))) (l_enums l).
  Definition generate (l : loader) : program := mkProgram (gen_enums l) (gen_declarations l ++ gen_details l).
End Generator.

(** * Running the generated code. The arguments of a call are evaluated from left to right; C++ leaves the order of the arguments of
    Field::Make open, which makes no difference but for the addresses of wrappers. *)
Notation env := (list (string * address)) (only parsing).
Section Run.
  Variable enums : list (string * list (string * string)).
  (** A variable that is not declared does not compile; here it gives UB. *)
  Definition eval_var (e : env) (v : string) : result address := match assoc v e with Some a => Ok a | None => UB end.
  Fixpoint eval_type (r : registry) (e : env) (x : type_expr) : result (registry * address) :=
    match x with
    | EVar v => a <- eval_var e v ;; Ok (r, a)
    | ELookup n => a <- lookup_type r n ;; Ok (r, a)
    | EWrap k x => '(r1, a) <- eval_type r e x ;; Ok (wrap_type r1 k a)
    end.
  Section Each.
    Context {A B : Type} (f : registry -> A -> result (registry * B)).
    Fixpoint each (r : registry) (l : list A) : result (registry * list B) :=
      match l with
      | [] => Ok (r, [])
      | x :: xs => '(r1, y) <- f r x ;; '(r2, ys) <- each r1 xs ;; Ok (r2, y :: ys)
      end.
  End Each.
  Definition eval_input (e : env) (r : registry) (x : input_expr) : result (registry * input_obj) :=
    '(r1, a) <- eval_type r e (ie_type x) ;; Ok (r1, mkInputObj (ie_name x) (ie_desc x) a (ie_default x)).
  Definition eval_field (e : env) (r : registry) (x : field_expr) : result (registry * field_obj) :=
    '(r1, a) <- eval_type r e (fe_type x) ;; '(r2, args) <- each (eval_input e) r1 (fe_args x) ;;
    Ok (r2, mkFieldObj (fe_name x) (fe_desc x) (fe_deprecated x) a args).
  (** The name at the index of the enumerator. *)
  Definition eval_enum (x : enum_expr) : result enum_value_def :=
    match assoc (ee_enum x) enums with
    | Some entries => match assoc (ee_value x) entries with Some n => Ok (mkEnumValue n (ee_desc x) (ee_deprecated x)) | None => UB end
    | None => UB
    end.
  Definition eval_types (e : env) (r : registry) (l : list type_expr) : result (registry * list address) := each (fun r x => eval_type r e x) r l.
  Definition run_stmt (re : registry * env) (s : stmt) : result (registry * env) :=
    let (r, e) := re in
    match s with
    | SAddScalar n n' d => let a := length (heap r) in Ok (exec (exec r (Make SCALAR n' d)) (AddType n a), e)
    | SMake k v n d => Ok (exec r (Make k n d), (v, length (heap r)) :: e)
    | SAddType n v => a <- eval_var e v ;; Ok (exec r (AddType n a), e)
    | SEnumValues v xs => a <- eval_var e v ;; vs <- mapM eval_enum xs ;; Ok (exec r (AddEnumValues a vs), e)
    | SInputValues v xs => a <- eval_var e v ;; '(r1, vs) <- each (eval_input e) r xs ;; Ok (exec r1 (AddInputValues a vs), e)
    | SPossibleTypes v xs => a <- eval_var e v ;; '(r1, vs) <- eval_types e r xs ;; Ok (exec r1 (AddPossibleTypes a vs), e)
    | SInterfaces v xs => a <- eval_var e v ;; '(r1, vs) <- eval_types e r xs ;; Ok (exec r1 (AddInterfaces a vs), e)
    | SFields v xs => a <- eval_var e v ;; '(r1, vs) <- each (eval_field e) r xs ;; Ok (exec r1 (AddFields a vs), e)
    | SDirective n d locs xs => '(r1, vs) <- each (eval_input e) r xs ;; Ok (exec r1 (AddDirective (mkDirObj n d locs vs)), e)
    | SOperation op v =>
        a <- eval_var e v ;;
        Ok (exec r match op with OpQuery => AddQueryType a | OpMutation => AddMutationType a | OpSubscription => AddSubscriptionType a end, e)
    end.
  Fixpoint run_stmts (re : registry * env) (l : list stmt) : result (registry * env) :=
    match l with [] => Ok re | s :: r => re' <- run_stmt re s ;; run_stmts re' r end.
End Run.
Definition add_types (p : program) (r : registry) : result registry := '(r', _) <- run_stmts (p_enums p) (r, []) (p_body p) ;; Ok r'.

(** * SchemaLoader.cpp:46-144, the introspection schema; src/IntrospectionSchema.cpp is generated from it. *)
Definition nn (t : tref) : tref := TNonNull t.
Definition named_t (n : string) : tref := TNamed n.
Definition list_nn (n : string) : tref := TListOf (nn (named_t n)).
Definition plain_field (n : string) (t : tref) : sdl_field := mkSdlField n "" [] t [].
Definition plain_value (n : string) : sdl_enum_value := mkSdlEnum n "" [].
Definition include_deprecated (n : string) (t : tref) : sdl_field :=
  mkSdlField n "" [mkSdlInput "includeDeprecated" "" (named_t "Boolean") (Some (LBool (mkLoc 0 1) false, "false"))] t [].
Definition introspection_sdl : list sdl_def :=
  [DefObject "__Schema" "" []
     [plain_field "types" (nn (list_nn "__Type")); plain_field "queryType" (nn (named_t "__Type")); plain_field "mutationType" (named_t "__Type");
      plain_field "subscriptionType" (named_t "__Type"); plain_field "directives" (nn (list_nn "__Directive"))];
   DefObject "__Type" "" []
     [plain_field "kind" (nn (named_t "__TypeKind")); plain_field "name" (named_t "String"); plain_field "description" (named_t "String");
      include_deprecated "fields" (list_nn "__Field"); plain_field "interfaces" (list_nn "__Type"); plain_field "possibleTypes" (list_nn "__Type");
      include_deprecated "enumValues" (list_nn "__EnumValue"); plain_field "inputFields" (list_nn "__InputValue"); plain_field "ofType" (named_t "__Type")];
   DefObject "__Field" "" []
     [plain_field "name" (nn (named_t "String")); plain_field "description" (named_t "String"); plain_field "args" (nn (list_nn "__InputValue"));
      plain_field "type" (nn (named_t "__Type")); plain_field "isDeprecated" (nn (named_t "Boolean")); plain_field "deprecationReason" (named_t "String")];
   DefObject "__InputValue" "" []
     [plain_field "name" (nn (named_t "String")); plain_field "description" (named_t "String"); plain_field "type" (nn (named_t "__Type"));
      plain_field "defaultValue" (named_t "String")];
   DefObject "__EnumValue" "" []
     [plain_field "name" (nn (named_t "String")); plain_field "description" (named_t "String"); plain_field "isDeprecated" (nn (named_t "Boolean"));
      plain_field "deprecationReason" (named_t "String")];
   DefEnum "__TypeKind" "" (map plain_value ["SCALAR"; "OBJECT"; "INTERFACE"; "UNION"; "ENUM"; "INPUT_OBJECT"; "LIST"; "NON_NULL"]);
   DefObject "__Directive" "" []
     [plain_field "name" (nn (named_t "String")); plain_field "description" (named_t "String"); plain_field "locations" (nn (list_nn "__DirectiveLocation"));
      plain_field "args" (nn (list_nn "__InputValue"))];
   DefEnum "__DirectiveLocation" "" (map plain_value
     ["QUERY"; "MUTATION"; "SUBSCRIPTION"; "FIELD"; "FRAGMENT_DEFINITION"; "FRAGMENT_SPREAD"; "INLINE_FRAGMENT"; "SCHEMA"; "SCALAR"; "OBJECT";
      "FIELD_DEFINITION"; "ARGUMENT_DEFINITION"; "INTERFACE"; "UNION"; "ENUM"; "ENUM_VALUE"; "INPUT_OBJECT"; "INPUT_FIELD_DEFINITION"]);
   DefDirective "skip" "" [FIELD; FRAGMENT_SPREAD; INLINE_FRAGMENT] [mkSdlInput "if" "" (nn (named_t "Boolean")) None];
   DefDirective "include" "" [FIELD; FRAGMENT_SPREAD; INLINE_FRAGMENT] [mkSdlInput "if" "" (nn (named_t "Boolean")) None];
   DefDirective "deprecated" "" [FIELD_DEFINITION; ENUM_VALUE]
     [mkSdlInput "reason" "" (named_t "String") (Some (LString (mkLoc 0 1) "No longer supported", """No longer supported"""))]].

(** SchemaGenerator.cpp:1340-1365, the generated GetSchema when there is no schema yet. src/IntrospectionSchema.cpp is generated with the
    default options (2281). *)
Definition introspection_program : result program := rmap (generate false false true) (load true introspection_sdl).
Definition get_schema (noIntrospection : bool) (p : program) : result registry :=
  intro <- introspection_program ;; r <- add_types intro (new_schema noIntrospection) ;; add_types p r.
(** schemagen on a schema document, then GetSchema. *)
Definition schema_of (noIntrospection separateFiles : bool) (ds : list sdl_def) : result registry :=
  l <- load false ds ;; get_schema noIntrospection (generate noIntrospection separateFiles false l).
