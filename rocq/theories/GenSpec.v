(** C46: the schema that a schema document declares. *)
From Coq Require Import Permutation.
From Verif Require Import Cpp Value Ast SchemaModel LoaderModel LoaderSpec GenModel.
Local Open Scope string_scope.
Local Open Scope list_scope.

(** * Deprecation: the reason that @deprecated gives, or the default of its argument *)
Definition named_directive (n : string) (d : directive) : bool := String.eqb (d_name d) n.
Definition deprecation (ds : list directive) : option string :=
  match List.find (named_directive "deprecated") ds with
  | None => None
  | Some d => Some match List.find (fun a => String.eqb (a_name a) "reason") (d_args d) with
                   | Some a => match a_value a with LString _ s => s | _ => "" end
                   | None => "No longer supported"
                   end
  end.

Section Declared.
  (** --no-introspection: descriptions are left out. *)
  Variable noIntrospection : bool.
  Definition described (s : string) : string := if noIntrospection then "" else s.
  Definition declared_input (i : sdl_input) : input_value :=
    mkInput (si_name i) (described (si_desc i)) (si_type i) match si_default i with Some (_, text) => text | None => "" end.
  Definition declared_field (f : sdl_field) : field_def :=
    mkFieldDef (sf_name f) (described (sf_desc f)) (deprecation (sf_dirs f)) (sf_type f) (map declared_input (sf_args f)).
  Definition declared_value (v : sdl_enum_value) : enum_value_def := mkEnumValue (se_name v) (described (se_desc v)) (deprecation (se_dirs v)).

  (** The members that the definition of a type and its extensions give it, in the order of the document. *)
  Definition of_type {A} (n : string) (x : string * list A) : list A := if String.eqb n (fst x) then snd x else [].
  Definition values_of (ds : list sdl_def) (n : string) : list sdl_enum_value :=
    flat_map (fun d => match d with DefEnum m _ vs | ExtEnum m vs => of_type n (m, vs) | _ => [] end) ds.
  Definition inputs_of (ds : list sdl_def) (n : string) : list sdl_input :=
    flat_map (fun d => match d with DefInput m _ fs | ExtInput m fs => of_type n (m, fs) | _ => [] end) ds.
  Definition options_of (ds : list sdl_def) (n : string) : list string :=
    flat_map (fun d => match d with DefUnion m _ os | ExtUnion m os => of_type n (m, os) | _ => [] end) ds.
  Definition interface_fields_of (ds : list sdl_def) (n : string) : list sdl_field :=
    flat_map (fun d => match d with DefInterface m _ fs | ExtInterface m fs => of_type n (m, fs) | _ => [] end) ds.
  Definition object_fields_of (ds : list sdl_def) (n : string) : list sdl_field :=
    flat_map (fun d => match d with DefObject m _ _ fs | ExtObject m _ fs => of_type n (m, fs) | _ => [] end) ds.
  Definition interfaces_of (ds : list sdl_def) (n : string) : list string :=
    flat_map (fun d => match d with DefObject m _ is _ | ExtObject m is _ => of_type n (m, is) | _ => [] end) ds.
  (** The objects that implement an interface. *)
  Definition objects_of (ds : list sdl_def) : list string := flat_map (fun d => match d with DefObject n _ _ _ => [n] | _ => [] end) ds.
  Definition implementors (ds : list sdl_def) (i : string) : list string :=
    filter (fun o => existsb (String.eqb i) (interfaces_of ds o)) (objects_of ds).

  (** The type that a definition declares. *)
  Definition declared_type (ds : list sdl_def) (d : sdl_def) : list (string * type_def) :=
    match d with
    | DefScalar n desc => [(n, mkTypeDef SCALAR (described desc) [] [] [] [] [])]
    | DefEnum n desc _ => [(n, mkTypeDef ENUM (described desc) [] [] [] (map declared_value (values_of ds n)) [])]
    | DefInput n desc _ => [(n, mkTypeDef INPUT_OBJECT (described desc) [] [] [] [] (map declared_input (inputs_of ds n)))]
    | DefUnion n desc _ => [(n, mkTypeDef UNION (described desc) [] [] (options_of ds n) [] [])]
    | DefInterface n desc _ =>
        [(n, mkTypeDef INTERFACE (described desc) (map declared_field (interface_fields_of ds n)) [] (implementors ds n) [] [])]
    | DefObject n desc _ _ =>
        [(n, mkTypeDef OBJECT (described desc) (map declared_field (object_fields_of ds n)) (interfaces_of ds n) [] [] [])]
    | _ => []
    end.
  Definition declared_types (ds : list sdl_def) : list (string * type_def) := flat_map (declared_type ds) ds.
  Definition declared_directives (ds : list sdl_def) : list directive_def :=
    flat_map (fun d => match d with DefDirective n desc locs args => [mkDirDef n (described desc) locs (map declared_input args)] | _ => [] end) ds.
End Declared.
Definition declared_names (ds : list sdl_def) : list string := map fst (declared_types false ds).

(** The operations: those of the schema definition and its extensions, or the objects with the default names. *)
Definition schema_operations (ds : list sdl_def) : list (operation_kind * string) :=
  flat_map (fun d => match d with DefSchema ops | ExtSchema ops => ops | _ => [] end) ds.
Definition default_name (op : operation_kind) : string :=
  match op with OpQuery => "Query" | OpMutation => "Mutation" | OpSubscription => "Subscription" end.
Definition operation_eqb (a b : operation_kind) : bool :=
  match a, b with OpQuery, OpQuery | OpMutation, OpMutation | OpSubscription, OpSubscription => true | _, _ => false end.
Definition declared_root (ds : list sdl_def) (op : operation_kind) : option string :=
  match schema_operations ds with
  | [] => if existsb (String.eqb (default_name op)) (objects_of ds) then Some (default_name op) else None
  | ops => option_map snd (List.find (fun e => operation_eqb op (fst e)) ops)
  end.

(** The whole schema: the built-in scalars, the types and directives of introspection, and what the document declares. *)
Definition builtin_scalars : list (string * type_def) := map (fun n => (n, mkTypeDef SCALAR "Built-in type" [] [] [] [] [])) ["Boolean"; "Float"; "ID"; "Int"; "String"].
Definition standard_types : list (string * type_def) := builtin_scalars ++ declared_types false introspection_sdl.
Definition declared_schema (noIntrospection : bool) (ds : list sdl_def) : schema :=
  mkSchema (standard_types ++ declared_types noIntrospection ds)
           match declared_root ds OpQuery with Some q => q | None => "" end (declared_root ds OpMutation) (declared_root ds OpSubscription)
           (declared_directives false introspection_sdl ++ declared_directives noIntrospection ds) (negb noIntrospection).
(** The same schema up to the order in which the types are listed. *)
Definition same_schema (S S' : schema) : Prop :=
  Permutation (s_types S) (s_types S') /\ s_query S = s_query S' /\ s_mutation S = s_mutation S' /\ s_subscription S = s_subscription S'
  /\ s_directives S = s_directives S' /\ s_introspection S = s_introspection S'.

(** * Documents for which the generated code builds that schema *)
Definition extension_of (d : sdl_def) : option (type_kind * string) :=
  match d with
  | ExtEnum n _ => Some (ENUM, n) | ExtInput n _ => Some (INPUT_OBJECT, n) | ExtUnion n _ => Some (UNION, n) | ExtInterface n _ => Some (INTERFACE, n)
  | ExtObject n _ _ => Some (OBJECT, n) | _ => None
  end.
Definition definition_of (d : sdl_def) : option (type_kind * string) :=
  match d with
  | DefScalar n _ => Some (SCALAR, n) | DefEnum n _ _ => Some (ENUM, n) | DefInput n _ _ => Some (INPUT_OBJECT, n) | DefUnion n _ _ => Some (UNION, n)
  | DefInterface n _ _ => Some (INTERFACE, n) | DefObject n _ _ _ => Some (OBJECT, n) | _ => None
  end.
(** The types that the generated code has a variable for. *)
Definition variable_of (d : sdl_def) : list string := match definition_of d with Some (SCALAR, _) | None => [] | Some (_, n) => [safe_cpp_name n] end.
Definition usual_deprecation (ds : list directive) : Prop :=
  (forall d, In d ds -> d_name d = "deprecated" -> exists l l' s, d_args d = [(l, ("reason", LString l' s))])
  /\ length (filter (named_directive "deprecated") ds) <= 1.
(** Types that the loader does not look at: of the arguments of directives and of fields with built-in types. *)
Definition unchecked (d : sdl_def) : list sdl_input :=
  match d with
  | DefDirective _ _ _ args => args
  | DefInterface _ _ fs | ExtInterface _ fs | DefObject _ _ _ fs | ExtObject _ _ fs =>
      flat_map (fun f => if is_builtin (base_name (sf_type f)) then sf_args f else []) fs
  | _ => []
  end.
Definition fields_in (d : sdl_def) : list sdl_field :=
  match d with DefInterface _ _ fs | ExtInterface _ fs | DefObject _ _ _ fs | ExtObject _ _ fs => fs | _ => [] end.
Definition inputs_in (d : sdl_def) : list sdl_input :=
  match d with DefInput _ _ fs | ExtInput _ fs => fs | DefDirective _ _ _ args => args | _ => flat_map sf_args (fields_in d) end.
Definition values_in (d : sdl_def) : list sdl_enum_value := match d with DefEnum _ _ vs | ExtEnum _ vs => vs | _ => [] end.
Record usual (ds : list sdl_def) : Prop := mkUsual {
  (* GraphQL asks for these *)
  us_names : NoDup (map fst standard_types ++ declared_names ds);
  us_operations : NoDup (map fst (schema_operations ds));
  us_interfaces : forall o, NoDup (interfaces_of ds o);
  us_unchecked : forall d i, In d ds -> In i (unchecked d) -> In (base_name (si_type i)) (map fst standard_types ++ declared_names ds);
  (* the grammar has no !! *)
  us_fields : forall d f, In d ds -> In f (fields_in d) -> grammatical (sf_type f);
  us_inputs : forall d i, In d ds -> In i (inputs_in d) -> grammatical (si_type i);
  (* extensions come after the definition (C46_extension_first_refuted) *)
  us_extensions : forall before d after k n, ds = before ++ d :: after -> extension_of d = Some (k, n) -> exists d', In d' before /\ definition_of d' = Some (k, n);
  (* deprecation with a reason, once (C46_deprecation_refuted) *)
  us_deprecated_fields : forall d f, In d ds -> In f (fields_in d) -> usual_deprecation (sf_dirs f);
  us_deprecated_values : forall d v, In d ds -> In v (values_in d) -> usual_deprecation (se_dirs v);
  (* the generated code compiles (C46_variables_refuted): its variables and enumerators are distinct *)
  us_variables : NoDup (flat_map variable_of ds);
  us_enumerators : forall n, NoDup (map (fun v => safe_cpp_name (se_name v)) (values_of ds n)) }.
