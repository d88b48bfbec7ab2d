(** Type modifiers: service argument extraction, client variable serialisation and client response parsing. *)
From Verif Require Import Cpp Value Base64Model.
Local Open Scope string_scope.
Local Open Scope list_scope.

(** GraphQLService.h:287-292 and GraphQLClient.h:67-72 [TypeModifier]; a stack of modifiers, outermost first. The
    optional trailing None is the end of the list. *)
Inductive modifier : Type := MNullable | MList.

(** The types the converters are specialised for: the built-in scalars, response::Value (custom scalars) and the enum
    types the generators emit (name of the type and the s_names array). *)
Inductive scalar : Type :=
| KInt | KFloat | KString | KBool | KId | KValue | KEnum (tname : string) (names : list string).

(** Input types: leaves, or a generated input struct with its fields in order: name, modifiers, type, default value
    (None when the schema has none, or a null one). Input types may not be cyclic (C34). *)
Inductive itype : Type :=
| ILeaf (k : scalar)
| IStruct (fields : list (string * (list modifier * (itype * option value)))).

(** The client generator's response structs use the same shape, without defaults. *)
Definition field : Type := (string * (list modifier * (itype * option value)))%type.

(** C++ values of the generated types: ArgumentTraits/VariableTraits/ResponseTraits (GraphQLService.h:302-317,
    GraphQLClient.h:78-92, 188-201): std::optional for Nullable, std::vector for List; an enum is its index. *)
Inductive cppval : Type :=
| XInt (z : Z) | XFloat (f : spec_float) | XString (s : string) | XBool (b : bool) | XId (bytes : list ascii)
| XValue (v : value) | XEnum (i : nat) | XOpt (o : option cppval) | XVec (l : list cppval) | XStruct (fields : list cppval).

Definition schema_ex {A} (msg : string) : result A := Throw (SchemaEx [mkErr msg (mkLoc 0 1) []]).

(** [std::find] over the s_names array. *)
Fixpoint index_of (s : string) (names : list string) : option nat :=
  match names with
  | [] => None
  | n :: r => if String.eqb n s then Some 0 else option_map S (index_of s r)
  end.

(** GraphQLResponse.cpp:545-548 [maybe_enum]. *)
Definition enum_text (v : value) : option string :=
  match v with VEnum s => Some s | VString s true => Some s | _ => None end.

(** GraphQLService.cpp:526-596 [ModifiedArgument<T>::convert] for the built-in types; SchemaGenerator.cpp:630-657 for
    generated enums. *)
Definition convert_leaf (k : scalar) (v : value) : result cppval :=
  match k with
  | KInt => match v with VInt z => Ok (XInt z) | _ => schema_ex "not an integer" end
  | KFloat => match v with VFloat f => Ok (XFloat f) | VInt z => Ok (XFloat (int_to_double z)) | _ => schema_ex "not a float" end
  | KString => match v with VString s _ => Ok (XString s) | _ => schema_ex "not a string" end
  | KBool => match v with VBool b => Ok (XBool b) | _ => schema_ex "not a boolean" end
  | KValue => v' <- vcopy v ;; Ok (XValue v')
  | KId => match v with
           | VString s _ => match fromBase64 s with
                            | Ok b => Ok (XId b)
                            | Throw (Exn _ what) => schema_ex what
                            | Throw e => Throw e
                            | UB => UB
                            end
           | _ => schema_ex "not a string"
           end
  | KEnum tname names =>
      match enum_text v with
      | Some s => match index_of s names with Some i => Ok (XEnum i) | None => schema_ex ("not a valid " ++ tname ++ " value") end
      | None => schema_ex ("not a valid " ++ tname ++ " value")
      end
  end.

(** GraphQLService.h:323-344 [require] without modifiers: only schema_exception is caught and relabelled. *)
Definition relabel (name : string) (e : schema_error) : schema_error :=
  mkErr ("Invalid argument: " ++ name ++ " error: " ++ message e) (Cpp.location e) (path e).
Definition require_base (conv : value -> result cppval) (name : string) (args : value) : result cppval :=
  match (v <- index_name args name ;; conv v) with
  | Throw (SchemaEx errs) => Throw (SchemaEx (map (relabel name) errs))
  | r => r
  end.

(** GraphQLService.h:362-410 [require<Modifiers...>]. For List: [values.size()] throws unless the value is a list or
    an object, [get<ListType>] throws for an object; each element is copied into a single-entry map. *)
Fixpoint require_mods (base : string -> value -> result cppval) (ms : list modifier) (name : string) (args : value) : result cppval :=
  match ms with
  | [] => base name args
  | MNullable :: r =>
      match args with
      | VMap es =>
          match lookup name es with
          | None => Ok (XOpt None)
          | Some VNull => Ok (XOpt None)
          | Some _ => x <- require_mods base r name args ;; Ok (XOpt (Some x))
          end
      | _ => Throw (Exn logic_error "Invalid call to Value::find for MapType")
      end
  | MList :: r =>
      v <- index_name args name ;;
      match v with
      | VList l => xs <- mapM (fun e => e' <- vcopy e ;; require_mods base r name (VMap [(name, e')])) l ;; Ok (XVec xs)
      | VMap _ => Throw (Exn logic_error "Invalid call to Value::get for ListType")
      | _ => Throw (Exn logic_error "Invalid call to Value::size")
      end
  end.

(** GraphQLService.h:346-359, 412-426 [find]: the pair's second member, and the value when it is true. *)
Definition find_of (r : result cppval) : result (option cppval) :=
  match r with Ok x => Ok (Some x) | Throw _ => Ok None | UB => UB end.

(** SchemaGenerator.cpp:1848-1887 [getArgumentDeclaration]: how generated code reads one argument or input field.
    [read args] is require<Modifiers...>(name, args). *)
Definition read_declared (read : value -> result cppval) (name : string) (default : option value) (args : value) : result cppval :=
  match default with
  | None | Some VNull => read args
  | Some d =>
      found <- find_of (read args) ;;
      match found with
      | Some x => Ok x
      | None => read (VMap [(name, d)])
      end
  end.

(** SchemaGenerator.cpp:683-760: the generated convert of an input type. The default values of all fields are in one
    map; each field only looks up its own name, so a single-entry map is observably the same. *)
Fixpoint convert_input (t : itype) (v : value) : result cppval :=
  match t with
  | ILeaf k => convert_leaf k v
  | IStruct fields =>
      xs <- (fix go (fs : list field) : result (list cppval) :=
               match fs with
               | [] => Ok []
               | (name, (ms, (ft, d))) :: fs' =>
                   x <- read_declared (require_mods (require_base (convert_input ft)) ms name) name d v ;;
                   r <- go fs' ;;
                   Ok (x :: r)
               end) fields ;;
      Ok (XStruct xs)
  end.

Definition require (ms : list modifier) (t : itype) (name : string) (args : value) : result cppval :=
  require_mods (require_base (convert_input t)) ms name args.
Definition find (ms : list modifier) (t : itype) (name : string) (args : value) : result (option cppval) :=
  find_of (require ms t name args).

(** GraphQLClient.cpp:158-194 and ClientGenerator.cpp:506-524 [ModifiedVariable<T>::serialize]; also
    GraphQLService.cpp:615-690, SchemaGenerator.cpp:659-676: the value a service result converter builds. A value of
    another C++ type cannot occur; it is mapped to UB. *)
Definition serialize_leaf (k : scalar) (x : cppval) : result value :=
  match k, x with
  | KInt, XInt z => Ok (VInt z)
  | KFloat, XFloat f => Ok (VFloat f)
  | KString, XString s => Ok (VString s false)
  | KBool, XBool b => Ok (VBool b)
  | KId, XId bytes => s <- toBase64 bytes ;; Ok (VString s false)
  | KValue, XValue v => Ok v
  | KEnum _ names, XEnum i => match nth_error names i with Some s => Ok (VEnum s) | None => UB end
  | _, _ => UB
  end.

(** GraphQLClient.h:97-138 [serialize<Modifiers...>]. *)
Fixpoint serialize_mods (base : cppval -> result value) (ms : list modifier) (x : cppval) : result value :=
  match ms, x with
  | [], _ => base x
  | MNullable :: r, XOpt None => Ok VNull
  | MNullable :: r, XOpt (Some y) => serialize_mods base r y
  | MList :: r, XVec l => vs <- mapM (serialize_mods base r) l ;; Ok (VList vs)
  | _, _ => UB
  end.

(** ClientGenerator.cpp:526-561: the generated serialize of an input type: every field, in order, by emplace_back. *)
Fixpoint serialize_input (t : itype) (x : cppval) : result value :=
  match t, x with
  | ILeaf k, _ => serialize_leaf k x
  | IStruct fields, XStruct xs =>
      es <- (fix go (fs : list field) (xs : list cppval) (acc : list (string * value))
                : result (list (string * value)) :=
               match fs, xs with
               | [], [] => Ok acc
               | (name, (ms, (ft, _))) :: fs', y :: xs' =>
                   v <- serialize_mods (serialize_input ft) ms y ;;
                   go fs' xs' (fst (map_emplace acc name v))
               | _, _ => UB
               end) fields xs [] ;;
      Ok (VMap es)
  | _, _ => UB
  end.
Definition serialize (ms : list modifier) (t : itype) (x : cppval) : result value := serialize_mods (serialize_input t) ms x.

(** GraphQLClient.cpp:196-264 [ModifiedResponse<T>::parse]; ClientGenerator.cpp:563-592 for enums (the text is
    released, the comparison uses it). *)
Definition parse_leaf (k : scalar) (v : value) : result cppval :=
  match k with
  | KInt => match v with VInt z => Ok (XInt z) | _ => Throw (Exn logic_error "not an integer") end
  | KFloat => match v with VFloat f => Ok (XFloat f) | VInt z => Ok (XFloat (int_to_double z)) | _ => Throw (Exn logic_error "not a float") end
  | KString => match v with VString s _ => Ok (XString s) | _ => Throw (Exn logic_error "not a string") end
  | KBool => match v with VBool b => Ok (XBool b) | _ => Throw (Exn logic_error "not a boolean") end
  | KValue => Ok (XValue v)
  | KId => match v with VString s _ => b <- fromBase64 s ;; Ok (XId b) | _ => Throw (Exn logic_error "not a string") end
  | KEnum tname names =>
      match enum_text v with
      | Some s => match index_of s names with Some i => Ok (XEnum i) | None => Throw (Exn logic_error ("not a valid " ++ tname ++ " value")) end
      | None => Throw (Exn logic_error ("not a valid " ++ tname ++ " value"))
      end
  end.

(** GraphQLClient.h:206-252 [parse<Modifiers...>]: a value that is not a list gives an empty vector. *)
Fixpoint parse_mods (base : value -> result cppval) (ms : list modifier) (v : value) : result cppval :=
  match ms with
  | [] => base v
  | MNullable :: r => match v with VNull => Ok (XOpt None) | _ => x <- parse_mods base r v ;; Ok (XOpt (Some x)) end
  | MList :: r => match v with VList l => xs <- mapM (parse_mods base r) l ;; Ok (XVec xs) | _ => Ok (XVec []) end
  end.

(** value-initialised members of a generated response struct *)
Definition default_leaf (k : scalar) : cppval :=
  match k with
  | KInt => XInt 0 | KFloat => XFloat (S754_zero false) | KString => XString "" | KBool => XBool false
  | KId => XId [] | KValue => XValue VNull | KEnum _ _ => XEnum 0
  end.
Fixpoint default_of (t : itype) : cppval :=
  match t with
  | ILeaf k => default_leaf k
  | IStruct fields => XStruct (map (fun f : field => match fst (snd f) with
                                             | MNullable :: _ => XOpt None
                                             | MList :: _ => XVec []
                                             | [] => default_of (fst (snd (snd f)))
                                             end) fields)
  end.
Definition default_field (f : field) : cppval :=
  match fst (snd f) with
  | MNullable :: _ => XOpt None
  | MList :: _ => XVec []
  | [] => default_of (fst (snd (snd f)))
  end.

Fixpoint set_nth {A} (i : nat) (x : A) (l : list A) : list A :=
  match l, i with
  | [], _ => []
  | _ :: r, 0 => x :: r
  | y :: r, S i' => y :: set_nth i' x r
  end.

(** ClientGenerator.cpp:635-690 [parseResponse] and 755-830: every member of the object is matched against the field
    names in order and parsed into the struct; other members are ignored; anything but an object leaves the
    value-initialised struct. The recursive parser is passed in per field. *)
Definition parse_struct (names : list string) (parsers : list (value -> result cppval)) (init : list cppval) (v : value) : result cppval :=
  match v with
  | VMap es =>
      xs <- fold_left (fun (acc : result (list cppval)) (kv : string * value) =>
              xs <- acc ;;
              match index_of (fst kv) names with
              | None => Ok xs
              | Some i => match nth_error parsers i with Some p => x <- p (snd kv) ;; Ok (set_nth i x xs) | None => Ok xs end
              end) es (Ok init) ;;
      Ok (XStruct xs)
  | _ => Ok (XStruct init)
  end.
Fixpoint parse_output (t : itype) (v : value) : result cppval :=
  match t with
  | ILeaf k => parse_leaf k v
  | IStruct fields =>
      parse_struct (map fst fields) (map (fun f : field => parse_mods (parse_output (fst (snd (snd f)))) (fst (snd f))) fields) (map default_field fields) v
  end.
Definition parse (ms : list modifier) (t : itype) (v : value) : result cppval := parse_mods (parse_output t) ms v.
