(** clientgen's schema (src/RequestLoader.cpp): the schema that the operations of a client are validated against when their code is
    generated. clientgen builds it itself from the schema document, without the code that schemagen generates. *)
From Verif Require Import Cpp Value Ast ModifiersModel SchemaModel RegistryModel LoaderModel GenModel ValidationModel.
Local Open Scope string_scope.
Local Open Scope list_scope.

(** std::map<std::string_view, std::shared_ptr<T>>: emplace keeps an entry that is there already. *)
Definition put (m : list (string * address)) (n : string) (a : address) : list (string * address) :=
  match assoc n m with Some _ => m | None => m ++ [(n, a)] end.
(** An exception inside a noexcept function ends the program. *)
Definition no_throw {A} (x : result A) : result A := match x with Ok a => Ok a | _ => UB end.

(** RequestLoader.cpp:567-624 getSchemaType: the modifiers from the last to the first. The state is the type so far, and nonNull. *)
Definition wrap_step (m : modifier) (s : (registry * address) * bool) : (registry * address) * bool :=
  let '((r, a), nonNull) := s in
  match m with
  | MList => let (r1, a1) := if nonNull then wrap_type r NON_NULL a else (r, a) in (wrap_type r1 LIST a1, true)
  | MNullable => ((r, a), false)
  end.
Definition schema_type (r : registry) (type : string) (modifiers : list modifier) : result (registry * address) :=
  a <- no_throw (lookup_type r type) ;;
  let '((r1, a1), nonNull) := fold_left (fun s m => wrap_step m s) (rev modifiers) ((r, a), true) in
  Ok (if nonNull then wrap_type r1 NON_NULL a1 else (r1, a1)).

(** 397-400, 445-448, 496-499, 536-539: schema::InputValue::Make *)
Definition schema_input (r : registry) (f : in_field) : result (registry * input_obj) :=
  '(r1, a) <- schema_type r (in_type f) (in_mods f) ;; Ok (r1, mkInputObj (in_name f) (in_desc f) a (in_default_text f)).
(** 436-456, 487-507: the arguments, then schema::Field::Make *)
Definition schema_field (r : registry) (f : out_field) : result (registry * field_obj) :=
  '(r1, args) <- each schema_input r (out_args f) ;;
  '(r2, a) <- schema_type r1 (out_type f) (out_mods f) ;;
  Ok (r2, mkFieldObj (out_name f) (out_desc f) (out_deprecated f) a args).

Section Loops.
  Context {A : Type} (f : registry -> A -> result registry).
  Fixpoint for_each (r : registry) (l : list A) : result registry := match l with [] => Ok r | x :: xs => r1 <- f r x ;; for_each r1 xs end.
End Loops.

(** 283-360: the declarations of one kind, and the map that is filled with them. *)
Fixpoint declare_types {A} (k : type_kind) (name desc : A -> string) (r : registry) (m : list (string * address)) (l : list A)
  : registry * list (string * address) :=
  match l with
  | [] => (r, m)
  | t :: ts =>
      let a := length (heap r) in
      let m' := put m (name t) a in
      let r1 := exec r (Make k (name t) (desc t)) in
      declare_types k name desc (exec r1 (AddType (name t) match assoc (name t) m' with Some x => x | None => a end)) m' ts
  end.
(** 274-281: scalars are not kept in a map. *)
Definition declare_scalars (r : registry) (l : list scalar_type) : registry :=
  fold_left (fun r t => exec (exec r (Make SCALAR (sc_type t) (sc_desc t))) (AddType (sc_type t) (length (heap r)))) l r.

(** 362-383 *)
Definition enum_details (m : list (string * address)) (r : registry) (t : enum_type) : result registry :=
  match assoc (et_type t) m, et_values t with
  | Some a, _ :: _ => Ok (exec r (AddEnumValues a (map (fun v => mkEnumValue (en_value v) (en_desc v) (en_deprecated v)) (et_values t))))
  | _, _ => Ok r
  end.
(** 385-405 *)
Definition input_details (m : list (string * address)) (r : registry) (t : input_type) : result registry :=
  match assoc (it_type t) m, it_fields t with
  | Some a, _ :: _ => '(r1, fs) <- each schema_input r (it_fields t) ;; Ok (exec r1 (AddInputValues a fs))
  | _, _ => Ok r
  end.
(** itr->second of the end of the map *)
Definition at_end (m : list (string * address)) (n : string) : result address := match assoc n m with Some a => Ok a | None => UB end.
(** 407-424 *)
Definition union_details (m : list (string * address)) (r : registry) (t : union_type) : result registry :=
  match un_options t with
  | [] => Ok r
  | os => a <- at_end m (un_type t) ;; ps <- mapM (fun n => no_throw (lookup_type r n)) os ;; Ok (exec r (AddPossibleTypes a ps))
  end.
(** 426-460 *)
Definition interface_details (m : list (string * address)) (r : registry) (t : interface_type) : result registry :=
  match if_fields t with
  | [] => Ok r
  | fs => a <- at_end m (if_type t) ;; '(r1, os) <- each schema_field r fs ;; Ok (exec r1 (AddFields a os))
  end.
(** 462-511. interfaceTypes[name] of a name that is not there is a null pointer, which AddInterfaces follows. *)
Definition object_details (interfaces m : list (string * address)) (r : registry) (t : object_type) : result registry :=
  r1 <- match ob_interfaces t with
        | [] => Ok r
        | is => a <- at_end m (ob_type t) ;; ps <- mapM (at_end interfaces) is ;; Ok (exec r (AddInterfaces a ps))
        end ;;
  match ob_fields t with
  | [] => Ok r1
  | fs => a <- at_end m (ob_type t) ;; '(r2, os) <- each schema_field r1 fs ;; Ok (exec r2 (AddFields a os))
  end.
(** 513-546. The locations are enum values already (LoaderModel.v); the loader's names are those of the grammar. *)
Definition directive_details (r : registry) (d : loaded_directive) : result registry :=
  '(r1, args) <- each schema_input r (ld_args d) ;; Ok (exec r1 (AddDirective (mkDirObj (ld_name d) (ld_desc d) (ld_locations d) args))).
(** 548-564 *)
Definition operation_details (m : list (string * address)) (r : registry) (o : LoaderModel.operation_type) : result registry :=
  a <- at_end m (ot_type o) ;;
  Ok (exec r match ot_operation o with OpQuery => AddQueryType a | OpMutation => AddMutationType a | OpSubscription => AddSubscriptionType a end).

(** 272-565 addTypesToSchema *)
Definition client_add_types (l : loader) (r : registry) : result registry :=
  let r0 := declare_scalars r (l_scalars l) in
  let '(r1, enumTypes) := declare_types ENUM et_type et_desc r0 [] (l_enums l) in
  let '(r2, inputTypes) := declare_types INPUT_OBJECT it_type it_desc r1 [] (l_inputs l) in
  let '(r3, unionTypes) := declare_types UNION un_type un_desc r2 [] (l_unions l) in
  let '(r4, interfaceTypes) := declare_types INTERFACE if_type if_desc r3 [] (l_interfaces l) in
  let '(r5, objectTypes) := declare_types OBJECT ob_type ob_desc r4 [] (l_objects l) in
  r6 <- for_each (enum_details enumTypes) r5 (l_enums l) ;;
  r7 <- for_each (input_details inputTypes) r6 (l_inputs l) ;;
  r8 <- for_each (union_details unionTypes) r7 (l_unions l) ;;
  r9 <- for_each (interface_details interfaceTypes) r8 (l_interfaces l) ;;
  r10 <- for_each (object_details interfaceTypes objectTypes) r9 (l_objects l) ;;
  r11 <- for_each directive_details r10 (l_directives l) ;;
  for_each (operation_details objectTypes) r11 (l_operations l).

(** 265-270 buildSchema *)
Definition build_schema (noIntrospection : bool) (l : loader) : result registry :=
  intro <- introspection_program ;; r <- add_types intro (new_schema noIntrospection) ;; client_add_types l r.
(** clientgen on a schema document (RequestLoader.cpp:23-31; --no-introspection is RequestOptions::noIntrospection) *)
Definition client_schema_of (noIntrospection : bool) (ds : list sdl_def) : result registry :=
  l <- load false ds ;; build_schema noIntrospection l.
(** 626-638 validateRequest, with a visitor of its own: the errors of the schema_exception that ends clientgen. *)
Definition validate_request (S : schema) (doc : document) : list schema_error := fst (validate S doc initial).
