(** The service that schemagen generates: the object classes with their resolvers (src/SchemaGenerator.cpp), around the accessors that a user
    writes, with the service library's converters (include/graphqlservice/GraphQLService.h). *)
From Verif Require Import Cpp Value Ast ModifiersModel SchemaModel LoaderModel ExecModel ExecSem IntroModel.
Local Open Scope string_scope.
Local Open Scope list_scope.

(** * What a user's accessor returns: FieldResult<T> (GraphQLService.h:205-245) of a value of the type getOutputCppType gives
    (SchemaLoader.cpp:1380-1469): std::optional for a nullable type except that of an object, std::vector for a list, std::shared_ptr for an
    object, and else the type of the leaf. *)
Section Values.
  Variable U : Type.
  Inductive outval : Type :=
  | OLeaf (x : cppval)
  | OPtr (p : option U)
  | OOpt (o : option outval)
  | OVec (l : list outval).
  Inductive accessed : Type :=
  | Now (v : outval)
  | Later (v : outval)
  | Failing (e : exn)                                                            (* a future that has an exception *)
  | Thrown (e : exn).                                                             (* the accessor throws *)
End Values.
Arguments OLeaf {U}. Arguments OPtr {U}. Arguments OOpt {U}. Arguments OVec {U}.
Arguments Now {U}. Arguments Later {U}. Arguments Failing {U}. Arguments Thrown {U}.

(** An object of the service: of a user's class, or one of the introspection objects. *)
Inductive gobj (U I : Type) : Type := GUser (u : U) | GIntro (i : I).
Arguments GUser {U I}. Arguments GIntro {U I}.

(** SchemaGenerator.cpp:1718-1850 getArgumentDefaultValue: the value that the generated code builds. A double goes through a stream with the
    default precision, of six digits ([six]); the texts are in raw string literals, modelled by their contents (as in GenModel). The scalar
    case cannot occur in a default value. *)
Fixpoint in_source (six : spec_float -> spec_float) (v : value) : value :=
  match v with
  | VFloat f => VFloat (six f)
  | VList l => VList (map (in_source six) l)
  | VMap es => VMap (map (fun e => (fst e, in_source six (snd e))) es)
  | VScalar (Some x) => VScalar (Some (in_source six x))
  | _ => v
  end.

Section Classes.
  Variables (l : loader) (noIntrospection : bool) (six : spec_float -> spec_float).

  (** SchemaLoader.cpp:1331-1347 getCppType with SchemaGenerator.cpp:1889-1943: the C++ type of a leaf. SchemaGenerator.cpp:600-676: s_names has
      the texts of the schema. *)
  Definition leaf_of (n : string) : option scalar :=
    if String.eqb n "Int" then Some KInt
    else if String.eqb n "Float" then Some KFloat
    else if String.eqb n "String" then Some KString
    else if String.eqb n "Boolean" then Some KBool
    else if String.eqb n "ID" then Some KId
    else if declares sc_type n (l_scalars l) then Some KValue
    else match List.find (is_name et_type n) (l_enums l) with
         | Some e => Some (KEnum (et_type e) (map en_value (et_values e)))
         | None => None
         end.
  (** Only the converters of enums allow sub-fields. *)
  Definition blocks (k : scalar) : bool := match k with KEnum _ _ => false | _ => true end.

  (** SchemaGenerator.cpp:1854-1887 getArgumentDeclaration: a default value that is null is none. *)
  Definition default_of (f : in_field) : option value := match in_default f with VNull => None | v => Some (in_source six v) end.
  (** The C++ type of an argument; [env] are the input structs. *)
  Definition arg_type (env : list (string * itype)) (n : string) : option itype :=
    match leaf_of n with Some k => Some (ILeaf k) | None => assoc n env end.
  Definition arg_field (env : list (string * itype)) (f : in_field) : option field :=
    match arg_type env (in_type f) with Some t => Some (in_name f, (in_mods f, (t, default_of f))) | None => None end.
  Fixpoint arg_fields (env : list (string * itype)) (fs : list in_field) : option (list field) :=
    match fs with
    | [] => Some []
    | f :: r => match arg_field env f, arg_fields env r with Some x, Some xs => Some (x :: xs) | _, _ => None end
    end.
  (** SchemaGenerator.cpp:683-766: the structs, in the order of the loader (C34). A struct with a member of a type that is not declared does
      not compile; it is left out. *)
  Definition structs : list (string * itype) :=
    fold_left (fun env t => match arg_fields env (it_fields t) with Some fs => env ++ [(it_type t, IStruct fs)] | None => env end) (l_inputs l) [].

  (** SchemaLoader.cpp:329-355: ObjectType::unions *)
  Definition unions_of (o : object_type) : list string :=
    flat_map (fun u => repeat (un_type u) (length (filter (String.eqb (ob_type o)) (un_options u)))) (l_unions l).
  (** SchemaGenerator.cpp:1376-1396: the type names given to the constructor of Object *)
  Definition class_types (o : object_type) : list string := ob_interfaces o ++ unions_of o ++ [ob_type o].
  (** SchemaGenerator.cpp:768-781: the first query operation *)
  Definition query_class : string := match List.find is_query (l_operations l) with Some o => ot_type o | None => "" end.
  Definition is_query_class (o : object_type) : bool := String.eqb (ob_type o) query_class && negb noIntrospection.
  (** SchemaGenerator.cpp:1398-1443: the names in the resolver map *)
  Definition class_fields (o : object_type) : list string :=
    map out_name (ob_fields o) ++ ["__typename"] ++ (if is_query_class o then ["__schema"; "__type"] else []).

  Section Users.
    (** The user's objects, the generated class that each derives from, and its overrides of the accessors. *)
    Context {U : Type} (class : U -> string) (access : U -> string -> fparams -> list cppval -> accessed U).
    (** The introspection objects. *)
    Context {I : Type} (itypes : I -> list string) (ihas : I -> string -> bool) (ians : I -> string -> fparams -> answer I).
    Variables (ischema : answer I) (itype : fparams -> answer I).
    Local Notation O := (gobj U I).
    Local Notation ptr p := (option_map (@GUser U I) p).

    (** GraphQLService.h:531-715, the overloads of ModifiedResult<Type>::convert, by getResultAccessType (SchemaGenerator.cpp:1917-1943). A
        nullable result is unwrapped into a promise, so what is below it is a future; what is in a list is not. [fut]: whether it is a
        future. The remaining cases are not well-typed C++. *)
    Definition pointer_result (k : output_kind) (fut : bool) (p : option U) : fres O :=
      match k with OutObject => FDerived (Ok (ptr p)) | _ => FObject fut (Ok (ptr p)) end.
    Fixpoint converted (k : output_kind) (leaf : option scalar) (ms : list modifier) (fut : bool) (v : outval U) : fres O :=
      match ms, v with
      | [], OLeaf x => match leaf with Some s => FLeaf (blocks s) fut (serialize_leaf s x) | None => FLeaf false fut UB end
      | [], OPtr p => pointer_result k fut p
      | MNullable :: _, OPtr None => FNullable (Ok None)
      | MNullable :: _, OPtr (Some u) => FNullable (Ok (Some (pointer_result k true (Some u))))
      | MNullable :: r, OOpt None => FNullable (Ok None)
      | MNullable :: r, OOpt (Some w) => FNullable (Ok (Some (converted k leaf r true w)))
      | MList :: r, OVec vs => FList (Ok (map (converted k leaf r false) vs))
      | _, _ => FLeaf false fut UB
      end.
    (** A future with an exception: get() throws where the chain of converters first calls it. *)
    Definition failing (k : output_kind) (leaf : option scalar) (ms : list modifier) (e : exn) : fres O :=
      match ms with
      | [] => match leaf with
              | Some s => FLeaf (blocks s) true (Throw e)
              | None => match k with OutObject => FDerived (Throw e) | _ => FObject true (Throw e) end
              end
      | MNullable :: _ => FNullable (Throw e)
      | MList :: _ => FList (Throw e)
      end.

    (** SchemaGenerator.cpp:1489-1550: the preamble that reads the arguments, in the order of the declaration. *)
    Definition read_field (args : entries) (f : field) : result cppval :=
      read_declared (require (fst (snd f)) (fst (snd (snd f))) (fst f)) (fst f) (snd (snd (snd f))) (VMap args).
    Definition read_arguments (x : out_field) (args : entries) : result (list cppval) :=
      match arg_fields structs (out_args x) with Some fs => mapM (read_field args) fs | None => UB end.
    (** SchemaGenerator.cpp:1480-1555: resolveX *)
    Definition resolve (u : U) (x : out_field) (p : fparams) : answer O :=
      match read_arguments x (p_args p) with
      | Throw e => AThrow e
      | UB => AResult (FLeaf false false UB)
      | Ok xs =>
          match access u (out_name x) p xs with
          | Thrown e => AThrow e
          | Now v => AResult (converted (out_kind x) (leaf_of (out_type x)) (out_mods x) false v)
          | Later v => AResult (converted (out_kind x) (leaf_of (out_type x)) (out_mods x) true v)
          | Failing e => AResult (failing (out_kind x) (leaf_of (out_type x)) (out_mods x) e)
          end
      end.

    (** SchemaGenerator.cpp:1398-1443: the map of the resolvers; __typename, and __schema and __type of the query type, replace fields of
        those names; of fields with the same name the first is kept. *)
    Definition class_answer (u : U) (o : object_type) (f : string) (p : fparams) : answer O :=
      if String.eqb f "__typename" then AResult (FLeaf true false (Ok (VString (ob_type o) false)))
      else if is_query_class o && String.eqb f "__schema" then amap GIntro ischema
      else if is_query_class o && String.eqb f "__type" then amap GIntro (itype p)
      else match List.find (fun x => String.eqb f (out_name x)) (ob_fields o) with
           | Some x => resolve u x p
           | None => AThrow (Exn runtime_error "")
           end.

    Definition class_of (u : U) : option object_type := List.find (is_name ob_type (class u)) (l_objects l).
    Definition gen_types (o : O) : list string :=
      match o with GUser u => match class_of u with Some c => class_types c | None => [] end | GIntro i => itypes i end.
    Definition gen_has (o : O) (f : string) : bool :=
      match o with GUser u => match class_of u with Some c => existsb (String.eqb f) (class_fields c) | None => false end | GIntro i => ihas i f end.
    Definition gen_ans (o : O) (f : string) (p : fparams) : answer O :=
      match o with
      | GUser u => match class_of u with Some c => class_answer u c f p | None => AThrow (Exn runtime_error "") end
      | GIntro i => amap GIntro (ians i f p)
      end.
  End Users.
End Classes.
