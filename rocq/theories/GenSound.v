(** C58: what a schema document has to keep to besides what schemagen checks. *)
From Verif Require JSONSpec.
From Verif Require Import Cpp Value Ast ModifiersModel SchemaModel LoaderModel LoaderSpec GenModel GenSpec AcceptSpec.
Local Open Scope string_scope.
Local Open Scope list_scope.

(** The names of the directives of a document. *)
Definition directive_names (ds : list sdl_def) : list string := flat_map (fun d => match d with DefDirective n _ _ _ => [n] | _ => [] end) ds.
(** Names of the types that may be given as arguments: those that schemagen accepts, and the enums of introspection. *)
Definition argument_name (ds : list sdl_def) (n : string) : Prop := input_name ds n \/ is_a introspection_sdl ENUM n.

(** A field or argument is declared once, with a name that is not reserved; the arguments that schemagen does not look at have the types of arguments; a directive is declared
    once, and none of the built-in ones is declared again. *)
Record sound (ds : list sdl_def) : Prop := mkSound {
  so_names : forall n, In n (declared_names ds) -> n <> "";
  so_reserved : forall d f, In d ds -> In f (fields_in d) -> ~ In (sf_name f) [""; "__typename"; "__schema"; "__type"];
  so_object_fields : forall n, NoDup (map sf_name (object_fields_of ds n));
  so_interface_fields : forall n, NoDup (map sf_name (interface_fields_of ds n));
  so_input_fields : forall n, NoDup (map si_name (inputs_of ds n));
  so_arguments : forall d f, In d ds -> In f (fields_in d) -> NoDup (map si_name (sf_args f));
  so_unchecked : forall d i, In d ds -> In i (unchecked d) -> argument_name ds (base_name (si_type i));
  so_directives : NoDup (directive_names introspection_sdl ++ directive_names ds);
  so_directive_arguments : forall n desc locs args, In (DefDirective n desc locs args) ds -> NoDup (map si_name args) }.
(** The grammar has no default value without a text. *)
Definition texts_given (ds : list sdl_def) : Prop := forall d i v text, In d ds -> In i (inputs_in d) -> si_default i = Some (v, text) -> text <> "".

(** ** 3.6.1 of the GraphQL specification: an object has the fields of its interfaces *)
Section Fulfils.
  Variable ds : list sdl_def.
  Inductive covariant : tref -> tref -> Prop :=
  | cv_same n : covariant (TNamed n) (TNamed n)
  | cv_interface o i : is_a ds OBJECT o -> In i (interfaces_of ds o) -> covariant (TNamed o) (TNamed i)
  | cv_union o u : is_a ds UNION u -> In o (options_of ds u) -> covariant (TNamed o) (TNamed u)
  | cv_list a b : covariant a b -> covariant (TListOf a) (TListOf b)
  | cv_nonnull a b : covariant a b -> covariant (TNonNull a) (TNonNull b)
  | cv_stronger a b : covariant a b -> covariant (TNonNull a) b.
  Definition default_text (i : sdl_input) : string := match si_default i with Some (_, text) => text | None => "" end.
  (** The same arguments (with the same defaults, which the specification does not ask for), and perhaps others that are not required. *)
  Definition arguments_match (interface object : list sdl_input) : Prop :=
    (forall a, In a interface -> exists a', In a' object /\ si_name a' = si_name a /\ si_type a' = si_type a /\ default_text a' = default_text a) /\
    (forall a', In a' object -> si_default a' = None -> (exists t, si_type a' = TNonNull t) -> exists a, In a interface /\ si_name a = si_name a').
  Definition fulfils : Prop := forall o i g, is_a ds OBJECT o -> In i (interfaces_of ds o) -> In g (interface_fields_of ds i) ->
    exists f, In f (object_fields_of ds o) /\ sf_name f = sf_name g /\ covariant (sf_type f) (sf_type g) /\ arguments_match (sf_args g) (sf_args f).
End Fulfils.

(** Enum values that are their own C++ names, and names that a C++ string literal can hold: what the generated client needs. *)
Definition plain_names (ds : list sdl_def) : Prop := forall d, In d ds ->
  (forall v, In v (values_in d) -> safe_cpp_name (se_name v) = se_name v /\ JSONSpec.no_nul (se_name v) = true) /\ (forall i, In i (input_members d) -> JSONSpec.no_nul (si_name i) = true).
