(** C10, C33, C41: typed arguments, client/service conversions, argument defaults. *)
From Verif Require Import Cpp Value Base64Model ModifiersModel JSONModel JSONSpec ModifiersSpec ModifiersProofs RoundTripProofs.
Local Open Scope string_scope.
Local Open Scope list_scope.

(** C10. For every modifier stack, input type (nested input structs included) and argument map, require returns [x]
    exactly when GraphQL coercion of the (possibly absent) argument gives [x]. *)
Theorem C10_require_iff_coerces : forall ms t name es x, plain t = true -> has_null_scalar (VMap es) = false ->
  (require ms t name (VMap es) = Ok x <-> coerces ms t (lookup name es) x).
Proof. intros. now apply require_iff. Qed.

(** In every other case it throws; there is no undefined behaviour for any input, map or not. *)
Theorem C10_require_total : forall ms t name args, (exists x, require ms t name args = Ok x) \/ (exists e, require ms t name args = Throw e).
Proof. intros. destruct (require ms t name args) eqn:E; eauto. now apply require_no_ub in E. Qed.

(** find never throws, and its flag is false exactly when require throws. *)
Theorem C10_find : forall ms t name args,
  (forall x, find ms t name args = Ok (Some x) <-> require ms t name args = Ok x) /\
  (find ms t name args = Ok None <-> exists e, require ms t name args = Throw e) /\
  (exists o, find ms t name args = Ok o).
Proof.
  intros. unfold find, find_of. pose proof (require_no_ub ms t name args) as N.
  destruct (require ms t name args) as [y|e|]; [| |congruence].
  - split; [intros x; split; intros E; injection E as <-; reflexivity|]. split; [|eauto]. split; [discriminate|intros [e E]; discriminate].
  - split; [intros x; split; discriminate|]. split; [|eauto]. split; eauto.
Qed.

(** A present value of the wrong type, without list modifiers, raises a schema_exception naming the argument. *)
Theorem C10_error_label_partial : forall k name es v e, k <> KValue -> lookup name es = Some v ->
  require [] (ILeaf k) name (VMap es) = Throw e ->
  exists errs, e = SchemaEx errs /\ Forall (labelled name) errs.
Proof. exact leaf_labelled. Qed.

(** Finding: not every failure is a schema_exception naming the argument: a missing required argument raises
    std::runtime_error("Missing Map member") and a non-list for a list type raises std::logic_error. *)
Theorem C10_error_label_refuted :
  (forall t name es, lookup name es = None -> require [] t name (VMap es) = Throw (Exn runtime_error "Missing Map member")) /\
  (forall ms t name es z, lookup name es = Some (VInt z) -> require (MList :: ms) t name (VMap es) = Throw (Exn logic_error "Invalid call to Value::size")).
Proof.
  split.
  - intros t name es L. unfold require; cbn. unfold require_base, index_name. now rewrite L.
  - intros ms t name es z L. unfold require; cbn. now rewrite L.
Qed.

Example C10_example :
  let t := IStruct [("a", ([MNullable], (ILeaf KInt, None))); ("b", ([MList; MNullable], (ILeaf KString, None)))] in
  plain t = true /\
  require [MNullable; MList] t "arg" (VMap [("arg", VList [VMap [("b", VList [VNull; VString "x" true])]])])
  = Ok (XOpt (Some (XVec [XStruct [XOpt None; XVec [XOpt None; XOpt (Some (XString "x"))]]]))).
Proof. split; reflexivity. Qed.

(** C33. A variable serialised by the client and read back by the service is the same C++ value, directly and through
    JSON text; the serialised value is representable. *)
Theorem C33_variable_roundtrip : forall ms t x, type_ok t = true -> stack_ok ms = true -> typed ms t x ->
  exists v, serialize ms t x = Ok v /\
    (forall name es, lookup name es = Some v -> require ms t name (VMap es) = Ok x) /\
    (forall trip, json_safe trip x -> representable v = true /\
       forall name es, lookup name es = Some (through_json trip v) -> require ms t name (VMap es) = Ok x).
Proof.
  intros ms t x W S T. destruct (both_typed ms t x W S T) as (v & E & (_ & _ & R & _) & J).
  exists v. split; [exact E|]. split; [exact R|]. intros trip JS. destruct (J trip JS) as (R' & (_ & _ & Q & _)). auto.
Qed.

(** A response built by the service converters and parsed by the client is the same C++ value, directly and through
    JSON text. *)
Theorem C33_response_roundtrip : forall ms t x, type_ok t = true -> stack_ok ms = true -> typed ms t x ->
  exists v, serialize ms t x = Ok v /\ parse ms t v = Ok x /\
    (forall trip, json_safe trip x -> parse ms t (through_json trip v) = Ok x).
Proof.
  intros ms t x W S T. destruct (both_typed ms t x W S T) as (v & E & (_ & _ & _ & R) & J).
  exists v. split; [exact E|]. split; [exact R|]. intros trip JS. destruct (J trip JS) as (_ & (_ & _ & _ & Q)). exact Q.
Qed.

(** Parsing a response object does not depend on the order of its members, and members that the client did not ask
    for are ignored. *)
Theorem C33_response_members : forall fields xs es, NoDup (map fst fields) -> NoDup (map fst es) ->
  Forall2 (fun (f : field) x => exists v, lookup (fst f) es = Some v /\ parse (fst (snd f)) (fst (snd (snd f))) v = Ok x) fields xs ->
  parse [] (IStruct fields) (VMap es) = Ok (XStruct xs).
Proof.
  intros fields xs es N NE F. unfold parse; cbn [parse_mods parse_output].
  apply parse_struct_members; rewrite ?map_length; auto.
  - symmetry. eapply Forall2_len; eassumption.
  - intros i k p x K P X. clear - F K P X. revert i K P X.
    induction F as [|[name [ms [ft d]]] y fs xs (v & L & R) _ IHF]; intros [|i] K P X; try discriminate.
    + cbn in *. injection K as <-. injection P as <-. injection X as <-. eauto.
    + cbn in *. eauto.
Qed.

(** Two different C++ values never serialise to the same value. *)
Theorem C33_serialize_injective : forall ms t x y v, type_ok t = true -> stack_ok ms = true -> typed ms t x -> typed ms t y ->
  serialize ms t x = Ok v -> serialize ms t y = Ok v -> x = y.
Proof.
  intros ms t x y v W S Tx Ty Ex Ey.
  destruct (C33_response_roundtrip ms t x W S Tx) as (vx & E1 & P1 & _).
  destruct (C33_response_roundtrip ms t y W S Ty) as (vy & E2 & P2 & _). congruence.
Qed.

(** Finding: the client does not notice a value of the wrong shape: anything but a list parses as an empty list, and
    anything but an object parses as a default constructed struct. *)
Theorem C33_shape_mismatch_refuted :
  (forall ms t v, (forall l, v <> VList l) -> parse (MList :: ms) t v = Ok (XVec [])) /\
  (forall fields v, (forall es, v <> VMap es) -> parse [] (IStruct fields) v = Ok (XStruct (map default_field fields))).
Proof.
  split.
  - intros ms t v N. destruct v; try reflexivity. exfalso; eapply N; reflexivity.
  - intros fields v N. destruct v; try reflexivity. exfalso; eapply N; reflexivity.
Qed.

Example C33_example :
  let t := IStruct [("id", ([], (ILeaf KId, None))); ("kind", ([MNullable], (ILeaf (KEnum "Kind" ["A"; "B"]), None))); ("tags", ([MList], (ILeaf KString, None)))] in
  let x := XVec [XOpt (Some (XStruct [XId ["x"; "y"]%char; XOpt (Some (XEnum 1)); XVec [XString "t"]])); XOpt None] in
  type_ok t = true /\ stack_ok [MList; MNullable] = true /\ typed [MList; MNullable] t x /\ json_safe (fun f => f) x /\
  serialize [MList; MNullable] t x = Ok (VList [VMap [("id", VString "eHk=" false); ("kind", VEnum "B"); ("tags", VList [VString "t" false])]; VNull]).
Proof. split; [reflexivity|]. split; [reflexivity|]. split; [repeat constructor|]. split; [cbn; tauto|vm_compute; reflexivity]. Qed.

(** C41. The generated code reads an argument that has a default value. For a type that is not nullable the default is
    used when the argument is absent. *)
Theorem C41_default_when_absent_partial : forall ms t name d es,
  d <> VNull -> (match ms with MNullable :: _ => False | _ => True end) -> lookup name es = None ->
  read_declared (require ms t name) name (Some d) (VMap es) = require ms t name (VMap [(name, d)]).
Proof.
  intros ms t name d es D M L.
  assert (F : find_of (require ms t name (VMap es)) = Ok None).
  { unfold require. destruct ms as [|[] ms]; [|tauto|]; cbn; unfold require_base, index_name; rewrite L; reflexivity. }
  unfold read_declared. rewrite F. destruct d; try reflexivity. congruence.
Qed.

(** A valid value that is given is used. *)
Theorem C41_given_value_used : forall ms t name d es x, plain t = true -> has_null_scalar (VMap es) = false ->
  coerces ms t (lookup name es) x -> read_declared (require ms t name) name d (VMap es) = Ok x.
Proof.
  intros ms t name d es x P N C. apply require_iff in C; auto. unfold read_declared, find_of. rewrite C. destruct d as [[]|]; reflexivity.
Qed.

(** Finding: for a nullable type the default is never used when the argument is absent; the accessor receives
    "no value". *)
Theorem C41_nullable_default_refuted : forall ms t name d es, lookup name es = None ->
  read_declared (require (MNullable :: ms) t name) name d (VMap es) = Ok (XOpt None).
Proof.
  intros ms t name d es L. assert (R : require (MNullable :: ms) t name (VMap es) = Ok (XOpt None)) by (unfold require; cbn; now rewrite L).
  unfold read_declared, find_of. rewrite R. destruct d as [[]|]; reflexivity.
Qed.

(** Finding: a given value of the wrong type is silently replaced by the default value. *)
Theorem C41_invalid_value_reported_refuted : forall ms t name d args e, d <> VNull ->
  require ms t name args = Throw e ->
  read_declared (require ms t name) name (Some d) args = require ms t name (VMap [(name, d)]).
Proof. intros ms t name d args e D R. unfold read_declared, find_of. rewrite R. destruct d; try reflexivity. congruence. Qed.

Example C41_example :
  read_declared (require [] (ILeaf KInt) "n") "n" (Some (VInt 5)) (VMap []) = Ok (XInt 5) /\
  read_declared (require [MNullable] (ILeaf KInt) "n") "n" (Some (VInt 5)) (VMap []) = Ok (XOpt None) /\
  read_declared (require [] (ILeaf KInt) "n") "n" (Some (VInt 5)) (VMap [("n", VString "7" false)]) = Ok (XInt 5).
Proof. repeat split. Qed.

Print Assumptions C10_require_iff_coerces.
Print Assumptions C10_require_total.
Print Assumptions C10_find.
Print Assumptions C10_error_label_partial.
Print Assumptions C10_error_label_refuted.
Print Assumptions C33_variable_roundtrip.
Print Assumptions C33_response_roundtrip.
Print Assumptions C33_response_members.
Print Assumptions C33_serialize_injective.
Print Assumptions C33_shape_mismatch_refuted.
Print Assumptions C41_default_when_absent_partial.
Print Assumptions C41_given_value_used.
Print Assumptions C41_nullable_default_refuted.
Print Assumptions C41_invalid_value_reported_refuted.
