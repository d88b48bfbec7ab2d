(** C47: schemagen accepts exactly the acceptable documents, and keeps what they say. *)
From Coq Require Import Relations Permutation.
From Verif Require Import Cpp Value Ast ModifiersModel SchemaModel ExecSpec LoaderModel LoaderSpec LoaderProofs GenModel LoaderProps GenSpec GenRun GenEval GenLoad GenDecl GenMain GenProps GenSamples
  AcceptSpec AcceptProofs AcceptLoaded.
Local Open Scope string_scope.
Local Open Scope list_scope.

Theorem C47_accepts_partial : forall ds, orderly ds -> ((exists l, load false ds = Ok l) <-> acceptable ds).
Proof. exact accepts. Qed.
(** Nothing but a std::runtime_error comes out; atoi is only called with a value out of range for a default that has one. No hypotheses. *)
Theorem C47_errors : forall introspection ds,
  match load introspection ds with
  | Ok _ => True
  | Throw e => exists what, e = Exn runtime_error what
  | UB => exists d i v text, In d ds /\ In i (inputs_in d) /\ si_default i = Some (v, text) /\ ~ ints_fit v
  end.
Proof.
  intros b ds. assert (H := fine_load b ds). destruct (load b ds); simpl in H; auto. destruct H as (d & i & Hd & Hi & v & text & E & Hn). exists d, i, v, text. auto.
Qed.
(** What is kept: the types, the members in their order, and for each its name, type, kind and default. *)
Theorem C47_loaded_partial : forall ds l, orderly ds -> load false ds = Ok l ->
  (forall n, In n (map it_type (l_inputs l)) <-> is_a ds INPUT_OBJECT n)
  /\ (forall t, In t (l_inputs l) -> Forall2 (loaded_input ds True) (inputs_of ds (it_type t)) (it_fields t))
  /\ (forall n, In n (map if_type (l_interfaces l)) <-> is_a ds INTERFACE n)
  /\ (forall t, In t (l_interfaces l) -> Forall2 (loaded_output ds False "get") (interface_fields_of ds (if_type t)) (if_fields t))
  /\ (forall n, In n (map ob_type (l_objects l)) <-> is_a ds OBJECT n)
  /\ (forall t, In t (l_objects l) -> ob_interfaces t = interfaces_of ds (ob_type t)
      /\ Forall2 (fun f x => loaded_output ds (inherits ds (ob_type t) (sf_name f)) (if String.eqb match declared_root ds OpMutation with Some n => n | None => "" end (ob_type t) then "apply" else "get") f x)
           (object_fields_of ds (ob_type t)) (ob_fields t)).
Proof.
  intros ds l O El. unfold load in El. destruct (visit_definitions no_definitions ds) as [l0|e|] eqn:Ev; cbn [bind] in El; try discriminate.
  split; [exact (input_names ds O l0 l Ev El)|]. split; [exact (loaded_inputs ds O l0 l Ev El)|]. split; [exact (interface_names ds O l0 l Ev El)|].
  split; [exact (loaded_interfaces ds O l0 l Ev El)|]. split; [exact (object_names ds O l0 l Ev El)|]. exact (loaded_objects ds O l0 l Ev El).
Qed.

(** * Concrete documents *)
Definition defaults_b (ds : list sdl_def) : bool :=
  forallb (fun d => forallb (fun i => match si_default i with Some (_, text) => negb (String.eqb text "") | None => true end) (inputs_in d)) ds.
Lemma usual_orderly ds : usual ds -> defaults_b ds = true -> orderly ds.
Proof.
  intros U H. constructor.
  - exact (nodup_app_r _ _ (us_names ds U)).
  - exact (us_extensions ds U).
  - exact (us_fields ds U).
  - exact (us_inputs ds U).
  - intros d i v text Hd Hi E. assert (Hx := forallb2 _ _ _ H d i Hd Hi). cbv beta in Hx. rewrite E in Hx. intros ->. discriminate.
Qed.
Lemma loads_ok ds : is_ok (load false ds) = true -> exists l, load false ds = Ok l.
Proof. destruct (load false ds) as [l|e|]; try discriminate. eauto. Qed.
Example C47_met : orderly ex46 /\ acceptable ex46 /\ orderly today_sdl /\ acceptable today_sdl /\ orderly validation_sdl /\ acceptable validation_sdl.
Proof.
  assert (H : forall ds, usual ds -> defaults_b ds = true -> is_ok (load false ds) = true -> orderly ds /\ acceptable ds).
  { intros ds U D E. assert (O := usual_orderly ds U D). split; [exact O|]. apply C47_accepts_partial; [exact O|]. apply loads_ok. exact E. }
  destruct (H ex46); [exact (proj1 C46_met)|vm_compute; reflexivity|vm_compute; reflexivity|].
  destruct (H today_sdl); [exact today_usual|vm_compute; reflexivity|vm_compute; reflexivity|].
  destruct (H validation_sdl); [exact validation_usual|vm_compute; reflexivity|vm_compute; reflexivity|]. auto 7.
Qed.
(** Each condition is needed: documents with one mistake, and what the user is told. *)
Definition fails (ds : list sdl_def) (what : string) : Prop := load false ds = Throw (Exn runtime_error what).
Definition field_ (n : string) (args : list sdl_input) (t : string) : sdl_field := mkSdlField n "" args (TNamed t) [].
Example C47_rejected :
  fails [query_; DefScalar "Int" ""] "Builtin type overridden: Int"
  /\ fails [query_; DefInput "I" "" [input_ "x" (TNamed "Nothing")]] "Unknown argument type: Nothing"
  /\ fails [query_; DefInput "I" "" [input_ "x" (TNamed "Query")]] "Invalid argument type: Query"
  /\ fails [DefObject "Query" "" [] [field_ "a" [] "I"]; DefInput "I" "" [input_ "x" (TNamed "Int")]] "Invalid field type: I"
  /\ fails [DefObject "Query" "" [] [field_ "a" [] "Nothing"]] "Unknown field type: Nothing"
  /\ fails [DefObject "Query" "" [] [field_ "a" [input_ "x" (TNamed "Query")] "Query"]] "Invalid argument type: Query"
  /\ fails [DefObject "Query" "" ["Query"] []] "Unknown interface: Query implemented by: Query"
  /\ fails [query_; DefUnion "U" "" ["U"]] "Unknown type: U included by: U"
  /\ fails [query_; DefSchema [(OpQuery, "Q")]] "Unknown operation type: Q operation: query"
  /\ fails [query_; DefSchema [(OpMutation, "Query")]] "Query operation type undefined"
  /\ fails [DefScalar "S" ""] "Query operation type undefined"
  /\ fails [query_; DefInput "I" "" [input_ "x" (TNamed "J")]; DefInput "J" "" [input_ "x" (TListOf (TNamed "I"))]] "Input object cycle type: I"
  /\ fails [query_; DefInput "I" "" [mkSdlInput "x" "" (TNonNull (TNamed "Int")) (Some (LNull L0, "null"))]] "Expected Non-Null default value for field name: x"
  /\ fails [query_; DefExecutable] "Unexpected executable definition".
Proof. repeat split; vm_compute; reflexivity. Qed.
(** What GraphQL forbids and schemagen accepts. *)
Definition accepted (ds : list sdl_def) : Prop := is_ok (load false ds) = true.
(** The arguments of a field with a built-in type can have a type that does not exist, or an output type. *)
Theorem C47_arguments_refuted : accepted [DefObject "Query" "" [] [field_ "a" [input_ "x" (TNamed "Nothing"); input_ "y" (TNamed "Query")] "Int"]].
Proof. reflexivity. Qed.
(** An object need not have the fields of the interfaces it implements. *)
Theorem C47_implements_refuted : accepted [DefInterface "Node" "" [field_ "id" [] "ID"]; DefObject "Query" "" ["Node"] [field_ "a" [] "Int"]].
Proof. reflexivity. Qed.
(** A default value need not be of the type of its field. *)
Theorem C47_default_type_refuted : accepted [query_; DefInput "I" "" [mkSdlInput "x" "" (TNamed "Int") (Some (LString L0 "one", """one"""))]].
Proof. reflexivity. Qed.
(** Two types with one name. *)
Theorem C47_duplicate_refuted : accepted [query_; DefScalar "S" ""; DefEnum "S" "" [plain_value "A"]].
Proof. reflexivity. Qed.
(** A default that is a variable is taken for null. *)
Theorem C47_variable_refuted : exists l f, load false [query_; DefInput "I" "" [mkSdlInput "x" "" (TNamed "Int") (Some (LVar L0 "v", "$v"))]] = Ok l
  /\ flat_map it_fields (l_inputs l) = [f] /\ in_default f = VNull /\ in_default_text f = "$v".
Proof. eexists. eexists. split; [vm_compute; reflexivity|]. repeat split. Qed.
