(** schemagen's front end: SchemaLoader (src/SchemaLoader.cpp, include/SchemaLoader.h) with TypeVisitor and DefaultValueVisitor
    (src/GeneratorLoader.cpp). *)
From Verif Require Import Cpp Value Ast ModifiersModel SchemaModel.
Local Open Scope string_scope.
Local Open Scope list_scope.

(** * The definitions of a schema document, as the parser gives them (Grammar.h:540-1140). Positions, and with them the
    line and column in the texts of the exceptions, are left out; directives are kept where the loader reads them; a description that is
    missing is empty. A default value comes with its source text. *)
Record sdl_input : Type := mkSdlInput { si_name : string; si_desc : string; si_type : tref; si_default : option (lit * string) }.
Record sdl_field : Type := mkSdlField {
  sf_name : string; sf_desc : string; sf_args : list sdl_input; sf_type : tref; sf_dirs : list directive }.
Record sdl_enum_value : Type := mkSdlEnum { se_name : string; se_desc : string; se_dirs : list directive }.
Inductive operation_kind : Type := OpQuery | OpMutation | OpSubscription.      (* Grammar.h:250-253 operation_type *)
Inductive sdl_def : Type :=
| DefSchema (ops : list (operation_kind * string))
| ExtSchema (ops : list (operation_kind * string))
| DefScalar (name desc : string)
| ExtScalar (name : string)
| DefEnum (name desc : string) (values : list sdl_enum_value)
| ExtEnum (name : string) (values : list sdl_enum_value)
| DefInput (name desc : string) (fields : list sdl_input)
| ExtInput (name : string) (fields : list sdl_input)
| DefUnion (name desc : string) (options : list string)
| ExtUnion (name : string) (options : list string)
| DefInterface (name desc : string) (fields : list sdl_field)
| ExtInterface (name : string) (fields : list sdl_field)
| DefObject (name desc : string) (interfaces : list string) (fields : list sdl_field)
| ExtObject (name : string) (interfaces : list string) (fields : list sdl_field)
| DefDirective (name desc : string) (locations : list directive_location) (args : list sdl_input)
| DefExecutable.                                                                  (* an operation or a fragment *)

(** * SchemaLoader.h:43-208: what the loader keeps *)
Inductive schema_type : Type := TyScalar | TyEnum | TyInput | TyUnion | TyInterface | TyObject.  (* GeneratorLoader.h SchemaType *)
Inductive input_kind : Type := InBuiltin | InScalar | InEnum | InInput.
Inductive output_kind : Type := OutBuiltin | OutScalar | OutEnum | OutUnion | OutInterface | OutObject.

Record in_field : Type := mkInField {
  in_type : string; in_name : string; in_cpp : string; in_default_text : string; in_default : value; in_kind : input_kind;
  in_mods : list modifier; in_desc : string }.
Record out_field : Type := mkOutField {
  out_type : string; out_name : string; out_cpp : string; out_args : list in_field; out_kind : output_kind; out_mods : list modifier;
  out_desc : string; out_deprecated : option string; out_interface : bool; out_inherited : bool; out_accessor : string }.
Record enum_val : Type := mkEnumVal { en_value : string; en_cpp : string; en_desc : string; en_deprecated : option string }.
Record scalar_type : Type := mkScalar { sc_type : string; sc_desc : string }.
Record enum_type : Type := mkEnum { et_type : string; et_cpp : string; et_values : list enum_val; et_desc : string }.
(** InputType::dependencies is computed where it is used, in [reorder]. *)
Record input_type : Type := mkInputT { it_type : string; it_cpp : string; it_fields : list in_field; it_desc : string }.
Record union_type : Type := mkUnion { un_type : string; un_cpp : string; un_options : list string; un_desc : string }.
Record interface_type : Type := mkInterface { if_type : string; if_cpp : string; if_fields : list out_field; if_desc : string }.
(** ObjectType::unions (only used for the type conditions of the generated class) is left out. *)
Record object_type : Type := mkObject {
  ob_type : string; ob_cpp : string; ob_interfaces : list string; ob_fields : list out_field; ob_desc : string }.
Record loaded_directive : Type := mkLoadedDir {
  ld_name : string; ld_locations : list directive_location; ld_args : list in_field; ld_desc : string }.
Record operation_type : Type := mkOperationType { ot_type : string; ot_cpp : string; ot_operation : operation_kind }.

(** The members of SchemaLoader that change. The maps _objectNames, _interfaceNames ... from a name to the index of the last entry with that
    name are [last_index] of the vectors. *)
Record loader : Type := mkLoader {
  l_types : list (string * schema_type); l_scalars : list scalar_type; l_enums : list enum_type; l_inputs : list input_type;
  l_unions : list union_type; l_interfaces : list interface_type; l_objects : list object_type; l_directives : list loaded_directive;
  l_operations : list operation_type }.
Definition no_definitions : loader := mkLoader [] [] [] [] [] [] [] [] [].

(** SchemaLoader.cpp:20-26 s_builtinTypes, in the order of the std::map. *)
Definition builtin_types : list string := ["Boolean"; "Float"; "ID"; "Int"; "String"].
Definition is_builtin (n : string) : bool := existsb (String.eqb n) builtin_types.

(** * SchemaLoader.cpp:1035-1068 getSafeCppName. The cache does not change what it returns. *)
Definition underscore : ascii := "_"%char.
Definition is_capital (c : ascii) : bool := ((65 <=? N_of_ascii c) && (N_of_ascii c <=? 90))%N%bool.
(** regex_search with _{2,} *)
Fixpoint has_double (s : string) : bool :=
  match s with
  | String c (String d _ as r) => (Ascii.eqb c underscore && Ascii.eqb d underscore) || has_double r
  | _ => false
  end.
(** regex_search with ^_([A-Z]) *)
Definition has_leading (s : string) : bool :=
  match s with String c (String d _) => Ascii.eqb c underscore && is_capital d | _ => false end.
(** regex_replace of _{2,} with _ *)
Fixpoint squeeze (s : string) : string :=
  match s with
  | String c (String d _ as r) => if Ascii.eqb c underscore && Ascii.eqb d underscore then squeeze r else String c (squeeze r)
  | _ => s
  end.
(** regex_replace of ^_([A-Z]) with the group *)
Definition strip_leading (s : string) : string := match s with String _ r => if has_leading s then r else s | EmptyString => s end.
Definition safe_cpp_name (s : string) : string :=
  if has_double s || has_leading s then strip_leading (squeeze s) else s.

(** * GeneratorLoader.cpp:12-59 TypeVisitor: the name and the modifiers, the outermost first. *)
Fixpoint visit_type (t : tref) (nonNull : bool) : string * list modifier :=
  let nullable := if nonNull then [] else [MNullable] in
  match t with
  | TNamed n => (n, nullable)
  | TListOf e => let (n, ms) := visit_type e false in (n, nullable ++ MList :: ms)
  | TNonNull e => visit_type e true
  end.
Definition visit_field_type (t : tref) : string * list modifier := visit_type t false.

(** * GeneratorLoader.cpp:61-166 DefaultValueVisitor. A variable is a variable_value node, which none of the tests is for: the value stays
    null. An integer literal goes through atoi. *)
Fixpoint visit_default (l : lit) : result value :=
  match l with
  | LVar _ _ => Ok VNull
  | LInt _ z => if in_int_range z then Ok (VInt z) else UB
  | LFloat _ f => Ok (VFloat f)
  | LString _ s => Ok (VString s false)
  | LBool _ b => Ok (VBool b)
  | LNull _ => Ok VNull
  | LEnum _ s => Ok (VEnum s)
  | LList _ items =>
      (fix go (items : list lit) (vs : list value) : result value :=
         match items with
         | [] => Ok (VList vs)
         | x :: r => v <- visit_default x ;; go r (vs ++ [v])
         end) items []
  | LObject _ fields =>
      (fix go (fields : list (schema_location * (string * lit))) (es : list (string * value)) : result value :=
         match fields with
         | [] => Ok (VMap es)
         | x :: r => v <- visit_default (snd (snd x)) ;; go r (fst (map_emplace es (fst (snd x)) v))
         end) fields []
  end.

(** * SchemaLoader.cpp:1150-1209 getInputFields *)
Definition get_input_field (f : sdl_input) : result in_field :=
  '(text, v) <- match si_default f with None => Ok ("", VNull) | Some (l, text) => v <- visit_default l ;; Ok (text, v) end ;;
  let (n, ms) := visit_field_type (si_type f) in
  if negb (String.eqb text "") && match v with VNull => true | _ => false end && match ms with MNullable :: _ => false | _ => true end
  then Throw (Exn runtime_error ("Expected Non-Null default value for field name: " ++ si_name f))
  else Ok (mkInField n (si_name f) (safe_cpp_name (si_name f)) text v InBuiltin ms (si_desc f)).
Definition get_input_fields (fs : list sdl_input) : result (list in_field) := mapM get_input_field fs.

(** The first argument of a directive when it is a string called reason (SchemaLoader.cpp:888-911, 1109-1133). *)
Definition reason_argument (d : directive) : option string :=
  match d_args d with
  | a :: _ => if String.eqb (a_name a) "reason" then match a_value a with LString _ s => Some s | _ => None end else None
  | [] => None
  end.
(** SchemaLoader.cpp:1095-1139: of the fields; the reason of @deprecated without a reason is empty. The last one counts. *)
Definition field_deprecation (ds : list directive) : option string :=
  fold_left (fun acc d => if String.eqb (d_name d) "deprecated" then Some match reason_argument d with Some s => s | None => "" end else acc) ds None.
(** SchemaLoader.cpp:876-914: of the enum values; only a reason deprecates. *)
Definition enum_deprecation (ds : list directive) : option string :=
  fold_left (fun acc d => if String.eqb (d_name d) "deprecated" then match reason_argument d with Some s => Some s | None => acc end else acc) ds None.

(** * SchemaLoader.cpp:1070-1148 getOutputFields *)
Definition str_get : string := "get".
Definition str_apply : string := "apply".
Definition get_output_field (f : sdl_field) : result out_field :=
  args <- get_input_fields (sf_args f) ;;
  let (n, ms) := visit_field_type (sf_type f) in
  Ok (mkOutField n (sf_name f) (safe_cpp_name (sf_name f)) args OutBuiltin ms (sf_desc f) (field_deprecation (sf_dirs f)) false false str_get).
Definition get_output_fields (fs : list sdl_field) : result (list out_field) := mapM get_output_field fs.

(** SchemaLoader.cpp:863-920 *)
Definition get_enum_value (v : sdl_enum_value) : enum_val :=
  mkEnumVal (se_name v) (safe_cpp_name (se_name v)) (se_desc v) (enum_deprecation (se_dirs v)).

(** * The vectors with their name maps *)
Section Named.
  Context {A : Type} (name : A -> string).
  (** _xNames.find *)
  Definition is_name (n : string) (x : A) : bool := String.eqb n (name x).
  Definition declares (n : string) (l : list A) : bool := existsb (is_name n) l.
  (** The index that _xNames[n] was given last. *)
  Fixpoint last_index (n : string) (l : list A) : option nat :=
    match l with
    | [] => None
    | x :: r => match last_index n r with Some i => Some (S i) | None => if is_name n x then Some 0 else None end
    end.
  (** The extension visitors: change the entry with this name, or nothing if there is none. *)
  Fixpoint change_at (i : nat) (f : A -> A) (l : list A) : list A :=
    match l, i with
    | [], _ => []
    | x :: r, O => f x :: r
    | x :: r, S j => x :: change_at j f r
    end.
  Definition extend (n : string) (f : A -> A) (l : list A) : list A :=
    match last_index n l with Some i => change_at i f l | None => l end.
End Named.

(** _schemaTypes[name] = type *)
Definition set_type (n : string) (k : schema_type) (m : list (string * schema_type)) : list (string * schema_type) :=
  (n, k) :: filter (fun e => negb (String.eqb n (fst e))) m.
Definition find_schema_type (n : string) (m : list (string * schema_type)) : option schema_type := assoc n m.

Definition with_scalars (l : loader) m x := mkLoader m x (l_enums l) (l_inputs l) (l_unions l) (l_interfaces l) (l_objects l) (l_directives l) (l_operations l).
Definition with_enums (l : loader) m x := mkLoader m (l_scalars l) x (l_inputs l) (l_unions l) (l_interfaces l) (l_objects l) (l_directives l) (l_operations l).
Definition with_inputs (l : loader) m x := mkLoader m (l_scalars l) (l_enums l) x (l_unions l) (l_interfaces l) (l_objects l) (l_directives l) (l_operations l).
Definition with_unions (l : loader) m x := mkLoader m (l_scalars l) (l_enums l) (l_inputs l) x (l_interfaces l) (l_objects l) (l_directives l) (l_operations l).
Definition with_interfaces (l : loader) m x := mkLoader m (l_scalars l) (l_enums l) (l_inputs l) (l_unions l) x (l_objects l) (l_directives l) (l_operations l).
Definition with_objects (l : loader) m x := mkLoader m (l_scalars l) (l_enums l) (l_inputs l) (l_unions l) (l_interfaces l) x (l_directives l) (l_operations l).
Definition with_directives (l : loader) x := mkLoader (l_types l) (l_scalars l) (l_enums l) (l_inputs l) (l_unions l) (l_interfaces l) (l_objects l) x (l_operations l).
Definition with_operations (l : loader) x := mkLoader (l_types l) (l_scalars l) (l_enums l) (l_inputs l) (l_unions l) (l_interfaces l) (l_objects l) (l_directives l) x.

(** SchemaLoader.cpp:675-705 visitObjectTypeExtension: the fields are only read when the object is known. *)
Definition extend_object (l : loader) (n : string) (is : list string) (fs : list sdl_field) : result loader :=
  if declares ob_type n (l_objects l) then
    fields <- get_output_fields fs ;;
    Ok (with_objects l (l_types l) (extend ob_type n
          (fun o => mkObject (ob_type o) (ob_cpp o) (ob_interfaces o ++ is) (ob_fields o ++ fields) (ob_desc o)) (l_objects l)))
  else Ok l.
(** SchemaLoader.cpp:736-762 visitInterfaceTypeExtension *)
Definition extend_interface (l : loader) (n : string) (fs : list sdl_field) : result loader :=
  if declares if_type n (l_interfaces l) then
    fields <- get_output_fields fs ;;
    Ok (with_interfaces l (l_types l) (extend if_type n
          (fun o => mkInterface (if_type o) (if_cpp o) (if_fields o ++ fields) (if_desc o)) (l_interfaces l)))
  else Ok l.
(** SchemaLoader.cpp:793-819 visitInputObjectTypeExtension *)
Definition extend_input (l : loader) (n : string) (fs : list sdl_input) : result loader :=
  if declares it_type n (l_inputs l) then
    fields <- get_input_fields fs ;;
    Ok (with_inputs l (l_types l) (extend it_type n
          (fun o => mkInputT (it_type o) (it_cpp o) (it_fields o ++ fields) (it_desc o)) (l_inputs l)))
  else Ok l.
(** SchemaLoader.cpp:849-923 visitEnumTypeExtension *)
Definition extend_enum (l : loader) (n : string) (vs : list sdl_enum_value) : loader :=
  with_enums l (l_types l) (extend et_type n
    (fun o => mkEnum (et_type o) (et_cpp o) (et_values o ++ map get_enum_value vs) (et_desc o)) (l_enums l)).
(** SchemaLoader.cpp:977-996 visitUnionTypeExtension *)
Definition extend_union (l : loader) (n : string) (os : list string) : loader :=
  with_unions l (l_types l) (extend un_type n
    (fun o => mkUnion (un_type o) (un_cpp o) (un_options o ++ os) (un_desc o)) (l_unions l)).
(** SchemaLoader.cpp:622-644 visitSchemaDefinition, visitSchemaExtension *)
Definition add_operations (l : loader) (ops : list (operation_kind * string)) : loader :=
  with_operations l (l_operations l ++ map (fun e => mkOperationType (snd e) (safe_cpp_name (snd e)) (fst e)) ops).

(** * SchemaLoader.cpp:552-620 visitDefinition with the definition visitors (646-1033); a definition adds an entry, then it is visited as an
    extension. visitScalarTypeDefinition has no extension, and an extension of a scalar is not among the tests. *)
Definition visit_definition (l : loader) (d : sdl_def) : result loader :=
  match d with
  | DefSchema ops => Ok (add_operations l ops)
  | ExtSchema ops => Ok (add_operations l ops)
  | DefScalar n desc => Ok (with_scalars l (set_type n TyScalar (l_types l)) (l_scalars l ++ [mkScalar n desc]))
  | DefEnum n desc vs =>
      Ok (extend_enum (with_enums l (set_type n TyEnum (l_types l)) (l_enums l ++ [mkEnum n (safe_cpp_name n) [] desc])) n vs)
  | ExtEnum n vs => Ok (extend_enum l n vs)
  | DefInput n desc fs =>
      extend_input (with_inputs l (set_type n TyInput (l_types l)) (l_inputs l ++ [mkInputT n (safe_cpp_name n) [] desc])) n fs
  | ExtInput n fs => extend_input l n fs
  | DefUnion n desc os =>
      Ok (extend_union (with_unions l (set_type n TyUnion (l_types l)) (l_unions l ++ [mkUnion n (safe_cpp_name n) [] desc])) n os)
  | ExtUnion n os => Ok (extend_union l n os)
  | DefInterface n desc fs =>
      extend_interface (with_interfaces l (set_type n TyInterface (l_types l)) (l_interfaces l ++ [mkInterface n (safe_cpp_name n) [] desc])) n fs
  | ExtInterface n fs => extend_interface l n fs
  | DefObject n desc is fs =>
      extend_object (with_objects l (set_type n TyObject (l_types l)) (l_objects l ++ [mkObject n (safe_cpp_name n) [] [] desc])) n is fs
  | ExtObject n is fs => extend_object l n is fs
  | DefDirective n desc locs args =>
      fields <- get_input_fields args ;; Ok (with_directives l (l_directives l ++ [mkLoadedDir n locs fields desc]))
  | ExtScalar _ | DefExecutable => Throw (Exn runtime_error "Unexpected executable definition")
  end.
Fixpoint visit_definitions (l : loader) (ds : list sdl_def) : result loader :=
  match ds with [] => Ok l | d :: r => l' <- visit_definition l d ;; visit_definitions l' r end.

(** * SchemaLoader.cpp:443-498 fixupInputFieldList *)
Definition fixup_input (m : list (string * schema_type)) (f : in_field) : result in_field :=
  if is_builtin (in_type f) then Ok f
  else
    let set k := Ok (mkInField (in_type f) (in_name f) (in_cpp f) (in_default_text f) (in_default f) k (in_mods f) (in_desc f)) in
    match find_schema_type (in_type f) m with
    | None => Throw (Exn runtime_error ("Unknown argument type: " ++ in_type f))
    | Some TyScalar => set InScalar
    | Some TyEnum => set InEnum
    | Some TyInput => set InInput
    | Some _ => Throw (Exn runtime_error ("Invalid argument type: " ++ in_type f))
    end.
Definition fixup_inputs (m : list (string * schema_type)) (fs : list in_field) : result (list in_field) := mapM (fixup_input m) fs.

(** * SchemaLoader.cpp:358-441 fixupOutputFieldList; [interfaceFields] is None for an interface. The arguments of a field with a builtin
    type are not visited. *)
Definition fixup_output (m : list (string * schema_type)) (interfaceFields : option (list string)) (accessor : option string)
    (f : out_field) : result out_field :=
  let inherited := match interfaceFields with Some names => existsb (String.eqb (out_name f)) names | None => false end in
  let isInterface := match interfaceFields with Some _ => false | None => true end in
  let acc := match accessor with Some a => a | None => out_accessor f end in
  let set k args := mkOutField (out_type f) (out_name f) (out_cpp f) args k (out_mods f) (out_desc f) (out_deprecated f) isInterface inherited acc in
  if is_builtin (out_type f) then Ok (set (out_kind f) (out_args f))
  else
    k <- match find_schema_type (out_type f) m with
         | None => Throw (Exn runtime_error ("Unknown field type: " ++ out_type f))
         | Some TyScalar => Ok OutScalar
         | Some TyEnum => Ok OutEnum
         | Some TyUnion => Ok OutUnion
         | Some TyInterface => Ok OutInterface
         | Some TyObject => Ok OutObject
         | Some TyInput => Throw (Exn runtime_error ("Invalid field type: " ++ out_type f))
         end ;;
    args <- fixup_inputs m (out_args f) ;;
    Ok (set k args).
Definition fixup_outputs m interfaceFields accessor (fs : list out_field) : result (list out_field) :=
  mapM (fixup_output m interfaceFields accessor) fs.

(** * SchemaLoader.cpp:500-550 reorderInputTypeDependencies. The list [rest] is what begins at itr. *)
Definition dependencies (t : input_type) : list string :=
  flat_map (fun f => match in_kind f with InInput => [in_type f] | _ => [] end) (it_fields t).
Definition mem (n : string) (l : list string) : bool := existsb (String.eqb n) l.
Definition ready (handled : list string) (t : input_type) : bool := forallb (fun d => mem d handled) (dependencies t).
(** [fuel]: the loop makes progress or throws, so the number of types is enough (C34_total). *)
Fixpoint reorder_loop (fuel : nat) (handled : list string) (done rest : list input_type) : result (list input_type) :=
  match rest with
  | [] => Ok done
  | first :: _ =>
      match fuel with
      | O => UB
      | S fuel =>
          let front := filter (ready handled) rest in                             (* std::stable_partition *)
          let later := filter (fun t => negb (ready handled t)) rest in
          match front with
          | [] => Throw (Exn runtime_error ("Input object cycle type: " ++ it_type first))
          | _ => reorder_loop fuel (match later with [] => handled | _ => handled ++ map it_type front end) (done ++ front) later
          end
      end
  end.
Definition reorder (ts : list input_type) : result (list input_type) := reorder_loop (length ts) [] [] ts.

(** * SchemaLoader.cpp:174-356 validateSchema *)
(** 176-196: in the order of the std::map *)
Definition check_builtins (m : list (string * schema_type)) : result unit :=
  match List.find (fun n => match find_schema_type n m with Some _ => true | None => false end) builtin_types with
  | Some n => Throw (Exn runtime_error ("Builtin type overridden: " ++ n))
  | None => Ok tt
  end.
Definition operation_text (o : operation_kind) : string :=
  match o with OpQuery => "query" | OpMutation => "mutation" | OpSubscription => "subscription" end.
Definition is_query (o : operation_type) : bool := match ot_operation o with OpQuery => true | _ => false end.
Definition is_mutation (o : operation_type) : bool := match ot_operation o with OpMutation => true | _ => false end.
(** 212-266 *)
Definition default_operation (objects : list object_type) (name : string) (op : operation_kind) : list operation_type :=
  if declares ob_type name objects then [mkOperationType name (safe_cpp_name name) op] else [].
Definition check_operations (introspection : bool) (objects : list object_type) (ops : list operation_type) : result (list operation_type) :=
  if introspection then
    match ops with [] => Ok [] | _ => Throw (Exn runtime_error "Introspection should not define any operation types") end
  else
    ops' <- match ops with
            | [] => Ok (default_operation objects "Query" OpQuery ++ default_operation objects "Mutation" OpMutation
                        ++ default_operation objects "Subscription" OpSubscription)
            | _ => match List.find (fun o => negb (declares ob_type (ot_type o) objects)) ops with
                   | Some o => Throw (Exn runtime_error ("Unknown operation type: " ++ ot_type o ++ " operation: " ++ operation_text (ot_operation o)))
                   | None => Ok ops
                   end
            end ;;
    if existsb is_query ops' then Ok ops' else Throw (Exn runtime_error "Query operation type undefined").

(** 279-304: the names of the fields of the interfaces that an object implements *)
Definition interface_fields (interfaces : list interface_type) (o : object_type) : list string :=
  flat_map (fun n => match last_index if_type n interfaces with
                     | Some i => match nth_error interfaces i with Some t => map out_name (if_fields t) | None => [] end
                     | None => []
                     end) (ob_interfaces o).
Definition fixup_object m (interfaces : list interface_type) (mutationType : string) (o : object_type) : result object_type :=
  fs <- fixup_outputs m (Some (interface_fields interfaces o)) (if String.eqb mutationType (ob_type o) then Some str_apply else None) (ob_fields o) ;;
  Ok (mkObject (ob_type o) (ob_cpp o) (ob_interfaces o) fs (ob_desc o)).
Definition check_interfaces (interfaces : list interface_type) (objects : list object_type) : result unit :=
  match List.find (fun e => negb (declares if_type (snd e) interfaces)) (flat_map (fun o => map (fun i => (ob_type o, i)) (ob_interfaces o)) objects) with
  | Some (o, i) => Throw (Exn runtime_error ("Unknown interface: " ++ i ++ " implemented by: " ++ o))
  | None => Ok tt
  end.
Definition check_unions (objects : list object_type) (unions : list union_type) : result unit :=
  match List.find (fun e => negb (declares ob_type (snd e) objects)) (flat_map (fun u => map (fun o => (un_type u, o)) (un_options u)) unions) with
  | Some (u, o) => Throw (Exn runtime_error ("Unknown type: " ++ o ++ " included by: " ++ u))
  | None => Ok tt
  end.
Definition validate_schema (introspection : bool) (l : loader) : result loader :=
  _ <- check_builtins (l_types l) ;;
  inputs <- mapM (fun t => fs <- fixup_inputs (l_types l) (it_fields t) ;; Ok (mkInputT (it_type t) (it_cpp t) fs (it_desc t))) (l_inputs l) ;;
  inputs' <- reorder inputs ;;
  interfaces <- mapM (fun t => fs <- fixup_outputs (l_types l) None None (if_fields t) ;; Ok (mkInterface (if_type t) (if_cpp t) fs (if_desc t)))
                     (l_interfaces l) ;;
  ops <- check_operations introspection (l_objects l) (l_operations l) ;;
  let mutationType := match List.find is_mutation ops with Some o => ot_type o | None => "" end in
  objects <- mapM (fixup_object (l_types l) interfaces mutationType) (l_objects l) ;;
  _ <- check_interfaces interfaces objects ;;
  _ <- check_unions objects (l_unions l) ;;
  Ok (mkLoader (l_types l) (l_scalars l) (l_enums l) inputs' (l_unions l) interfaces objects (l_directives l) ops).

(** SchemaLoader.cpp:37-172: the constructor, after parsing. *)
Definition load (introspection : bool) (ds : list sdl_def) : result loader :=
  l <- visit_definitions no_definitions ds ;; validate_schema introspection l.

(** * SchemaLoader.cpp:1331-1469: the C++ types of fields *)
(** SchemaLoader.cpp:28-35 *)
Definition builtin_cpp_type (n : string) : option string :=
  assoc n [("Int", "response::IntType"); ("Float", "response::FloatType"); ("String", "response::StringType");
           ("Boolean", "response::BooleanType"); ("ID", "response::IdType")].
Definition get_cpp_type (l : loader) (n : string) : string :=
  match builtin_cpp_type n with
  | Some t => t
  | None => if declares sc_type n (l_scalars l) then "response::Value" else safe_cpp_name n
  end.
Fixpoint closing (n : nat) : string := match n with O => "" | S m => ">" ++ closing m end.
(** getInputCppType *)
Definition get_input_cpp_type (l : loader) (f : in_field) : string :=
  (List.fold_right (fun m s => match m with MNullable => "std::optional<" ++ s | MList => "std::vector<" ++ s end)
                   (get_cpp_type l (in_type f) ++ closing (length (in_mods f))) (in_mods f))%string.
(** getOutputCppType. The state of the loop: the text, templateCount, nonNull. *)
Definition is_composite (k : output_kind) : bool := match k with OutObject | OutUnion | OutInterface => true | _ => false end.
Definition get_output_cpp_type (l : loader) (f : out_field) : string :=
  let '(text, count, nonNull) :=
    fold_left (fun (st : string * nat * bool) m =>
                 let '(text, count, nonNull) := st in
                 let '(text, count) := if nonNull then (text, count) else ((text ++ "std::optional<")%string, S count) in
                 match m with
                 | MNullable => (text, count, false)
                 | MList => ((text ++ "std::vector<")%string, S count, true)
                 end) (out_mods f) ("", 0, true) in
  let '(text, count) := if is_composite (out_kind f) then ((text ++ "std::shared_ptr<")%string, S count)
                        else if nonNull then (text, count) else ((text ++ "std::optional<")%string, S count) in
  let name := match out_kind f with
              | OutBuiltin | OutScalar | OutEnum => get_cpp_type l (out_type f)
              | OutObject => ((if out_interface f then "object::" else "") ++ safe_cpp_name (out_type f))%string
              | OutUnion | OutInterface => "service::Object"
              end in
  text ++ name ++ closing count.
