(** clientgen: what RequestLoader makes of a schema and a request document, and the C++ that ClientGenerator writes from it. The structs
    are those of ModifiersModel.v: the generated code that fills them is modelled there (parse_output). *)
From Coq Require Import String List Bool NArith.
From Verif Require Import Cpp Value Ast SchemaModel ModifiersModel LoaderModel ValidationModel ErrorModel ValidationSpec.
Import ListNotations.
Local Open Scope string_scope.
Local Open Scope list_scope.

(** RequestLoader.cpp:223-263 unwrapSchemaType: the modifiers, outermost first, and the named type at the end. [nonnull] is the variable of
    that name. *)
Fixpoint unwrap (nonnull : bool) (t : tref) : list modifier * string :=
  match t with
  | TNonNull t' => unwrap true t'
  | TListOf t' => let '(ms, n) := unwrap false t' in ((if nonnull then [] else [MNullable]) ++ MList :: ms, n)
  | TNamed n => (if nonnull then [] else [MNullable], n)
  end.

Section Request.
Variable S : schema.
Variable doc : document.

(** ClientGenerator.cpp:139-167 getResponseFieldCppType and SchemaLoader.cpp:1331-1353 getCppType for a type that is not an object, an
    interface or a union; for enums ClientGenerator.cpp:462-484, the s_names array: it has the C++ names. Simplification: a scalar type
    of the schema that is not built in is one that SchemaLoader has in _scalarNames (C46). *)
Definition leaf_scalar (n : string) (d : type_def) : scalar :=
  match assoc n [("Int", KInt); ("Float", KFloat); ("String", KString); ("Boolean", KBool); ("ID", KId)] with
  | Some k => k
  | None => match td_kind d with
            | ENUM => KEnum (safe_cpp_name n) (map (fun v => safe_cpp_name (ev_name v)) (td_enums d))
            | _ => KValue
            end
  end.

(** RequestLoader::SelectionVisitor: _names and _fields. *)
Definition visited : Type := (list string * list field)%type.
Definition mentions (k : string) (names : list string) : bool := existsb (String.eqb k) names.

(** RequestLoader.cpp:1049-1060: the meta-fields of the query type. A type that is not registered is a null pointer, and then the
    field is looked for in the type (1062). *)
Definition meta_type (T name : string) : option tref :=
  if (s_introspection S && String.eqb T (s_query S))%bool then
    if String.eqb name "__schema" then live S (TNamed "__Schema")
    else if String.eqb name "__type" then live S (TNamed "__Type")
    else None
  else None.

(** RequestLoader.cpp:1006-1118 visitField. [nested] is the visit of a selection set by a new SelectionVisitor. UB: a null pointer is
    dereferenced, which is the type of the selection set (1064) or of the field (1082). *)
Definition visit_field (nested : string -> list selection -> result (list field)) (T key name : string) (sub : option (list selection))
    (st : visited) : result visited :=
  let '(names, fields) := st in
  if mentions key names then Ok st
  else if String.eqb name "__typename" then Ok (key :: names, fields ++ [(key, ([], (ILeaf KString, None)))])
  else
    ty <- match meta_type T name with
          | Some t => Ok (Some t)
          | None => match find_type S T with
                    | Some d => Ok (option_map fd_type (List.find (fun f => String.eqb (fd_name f) name) (td_fields d)))
                    | None => UB
                    end
          end ;;
    match ty with
    | None => Ok (key :: names, fields)
    | Some ty =>
        let '(ms, n) := unwrap false ty in
        match find_type S n with
        | None => UB
        | Some d =>
            t <- match td_kind d with
                 | OBJECT | INTERFACE | UNION =>
                     fs <- match sub with Some sels => nested n sels | None => Ok [] end ;; Ok (IStruct fs)
                 | _ => Ok (ILeaf (leaf_scalar n d))
                 end ;;
            Ok (key :: names, fields ++ [(key, (ms, (t, None)))])
        end
    end.

(** RequestLoader.cpp:1168-1186 mergeFragmentFields. *)
Fixpoint merge_fields (fs : list field) (st : visited) : visited :=
  match fs with
  | [] => st
  | f :: r => let '(names, fields) := st in
      merge_fields r (if mentions (fst f) names then st else (fst f :: names, fields ++ [f]))
  end.

(** RequestLoader.cpp:733-738 collectFragments: std::unordered_map::emplace keeps the first of a name. *)
Definition fragment_named (name : string) : option fragment_def := List.find (fun f => String.eqb name (f_name f)) (fragments doc).

(** RequestLoader.cpp:987-1004, 1120-1166. *)
Definition visit_one (nested : string -> list selection -> result (list field)) (T : string) (s : selection) (st : visited) : result visited :=
  match s with
  | SField _ alias name _ _ sub => visit_field nested T (response_key alias name) name (option_map snd sub) st
  | SSpread loc name _ =>
      match fragment_named name with
      | None => Throw (SchemaEx [mkErr ("Unknown fragment name: " ++ name) loc []])
      | Some f => fs <- nested (f_cond f) (f_sel f) ;; Ok (merge_fields fs st)
      end
  | SInline _ cond _ sels =>
      fs <- nested (match cond with Some (_, t) => t | None => T end) sels ;; Ok (merge_fields fs st)
  end.
Fixpoint visit_each (nested : string -> list selection -> result (list field)) (T : string) (sels : list selection) (st : visited) : result visited :=
  match sels with
  | [] => Ok st
  | s :: r => st' <- visit_one nested T s st ;; visit_each nested T r st'
  end.
(** A new SelectionVisitor visits a selection set and gives its fields. Nothing bounds the recursion through fragments: without fuel
    the stack overflows. *)
Fixpoint visit_selections (fuel : nat) (T : string) (sels : list selection) : result (list field) :=
  match fuel with
  | O => UB
  | Datatypes.S m => st <- visit_each (visit_selections m) T sels ([], []) ;; Ok (snd st)
  end.

(** RequestLoader.cpp:659-731 findOperation. *)
Definition find_operation (wanted : string) : result (operation_def * string) :=
  match List.find (fun o => (String.eqb wanted "" || String.eqb (operation_name o) wanted)%bool) (operations doc) with
  | None => Throw (SchemaEx [mkErr "Missing operation" (mkLoc 0 1) []])
  | Some o =>
      match root_type S o with
      | Some T => Ok (o, T)
      | None => Throw (SchemaEx [mkErr ("Unsupported operation type: " ++ operation_kind o ++
                                         (if String.eqb (operation_name o) "" then "" else " name: " ++ operation_name o)) (mkLoc 0 1) []])
      end
  end.

(** RequestLoader.cpp:23-80: validateRequest (626-638), findOperation, the fields of the response. *)
Definition request_loader (fuel : nat) (wanted : string) : result (operation_def * list field) :=
  match fst (validate S doc initial) with
  | [] => '(o, T) <- find_operation wanted ;; fs <- visit_selections fuel T (op_sel o) ;; Ok (o, fs)
  | errors => Throw (SchemaEx errors)
  end.
End Request.

(** ClientGenerator.cpp:635-683: the generated parseResponse for the fields of the response. *)
Definition parse_response (fields : list field) (data : value) : result cppval := parse_output (IStruct fields) data.

(** RequestLoader.cpp:174-221 getOutputCppType: the C++ type of a member, as text. [nonnull] is the variable of that name. *)
Fixpoint opened (nonnull : bool) (ms : list modifier) : string * nat :=
  let '(s, n) := match ms with
                 | [] => if nonnull then ("", 0) else ("std::optional<", 1)
                 | m :: r =>
                     let '(s, n) := match m with
                                    | MNullable => opened false r
                                    | MList => let '(s, n) := opened true r in (("std::vector<" ++ s)%string, Datatypes.S n)
                                    end in
                     if nonnull then (s, n) else (("std::optional<" ++ s)%string, Datatypes.S n)
                 end in (s, n).
Definition output_cpp_type (base : string) (ms : list modifier) : string :=
  let '(s, n) := opened true ms in (s ++ base ++ closing n)%string.
