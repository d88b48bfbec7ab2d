(** C57: a service that schemagen generates from a schema document is typed by the schema of the document, as far as its user's accessors are. *)
From Coq Require Import String List Bool Permutation Lia Arith NArith.
From Verif Require ExecRequest2 RegistrySpec.
From Verif Require Import RegistryModel IntroModel IntroSpec.
From Verif Require Import Cpp Value Ast ErrorModel ExecModel ExecSem ExecSpec ExecBigSpec ExecValues ExecRun ExecProps2 JSONModel JSONSpec JSONProofs SortedMapModel SchemaModel ModifiersModel ModifiersSpec ModifiersProofs RoundTripProofs
  LoaderModel LoaderSpec LoaderProofs LoaderProps AcceptSpec AcceptProofs GenModel GenSpec GenRun GenEval GenDecl GenProps ClientSchemaProps SchemaCheck GenServiceModel GenServiceSpec GenServiceArgs GenServiceLink GenServiceProofs GenServiceIntro GenServiceFail GenServiceValues
  ValidationModel ValidationSpec ValidationUse ValidationRepeats ValidationExamples ClientModel ClientSpec ClientProofs ClientProps
  TypedSpec TypedValues TypedExample TypedProps VariablesModel VariablesSpec VariablesProofs VariablesOrder VariablesCpp VariablesSent VariablesProps.
Import ListNotations.
Local Open Scope string_scope.
Local Open Scope list_scope.

(** The schema that the service has. *)
Lemma service_schema noI sep ds l r S : load false ds = Ok l -> usual ds -> schema_of noI sep ds = Ok r -> represents r S ->
  same_schema S (declared_schema noI ds) /\ exists h, RegistrySpec.after noI h r.
Proof.
  intros El U Er Rr. destruct (C46_generated_schema_partial noI sep ds l El U) as (r1 & h1 & S1 & E1 & A1 & P1 & Q1). rewrite E1 in Er. injection Er as ->. rewrite (represents_once noI h1 r S1 A1 P1 S Rr). eauto.
Qed.

(** ** Arguments: when the arguments of a field fit its declaration, the generated code reads for each a C++ value of the declared type. Only a custom scalar
    value that is itself null makes it throw. *)
Theorem C57_arguments_partial : forall noIntrospection separateFiles ds l r S, load false ds = Ok l -> usual ds -> schema_of noIntrospection separateFiles ds = Ok r -> represents r S ->
  schema_wf S -> own_types ds -> defaults_fit S ds ->
  forall six o d f, In o (l_objects l) -> find_type S (ob_type o) = Some d -> In f (td_fields d) ->
  exists x, In x (ob_fields o) /\ out_name x = fd_name f /\ forall args, inputs_fit S (fd_args f) args ->
    match read_arguments l six x args with
    | Ok xs => Forall2 (argument_value S) (fd_args f) xs
    | Throw _ => has_null_scalar (VMap args) = true
    | UB => False
    end.
Proof.
  intros noI sep ds l r S El U Er Rr WF OT DF six o d f Ho Hd Hf. destruct (service_schema noI sep ds l r S El U Er Rr) as [SS _]. assert (LK := loaded_linked S ds l noI El U SS OT DF).
  rewrite (lk_objects S l noI LK o Ho) in Hd. injection Hd as <-. destruct (field_found l noI o f Ho Hf) as (x & Hx & ->). exists x. split; [exact Hx|]. split; [reflexivity|]. intros args HI.
  exact (arguments_given S l noI six LK WF o x args Ho Hx HI).
Qed.

(** ** The service *)
Section Apart.
  Variables (noI : bool) (ds : list sdl_def) (l : loader) (S : schema).
  Hypothesis El : load false ds = Ok l.
  Hypothesis U : usual ds.
  Hypothesis LK : linked S l noI.
  Lemma standard_found n : In n (map fst standard_types) -> find_type S n = assoc n standard_types.
  Proof. intros Hn. apply (lk_standard S l noI LK). exact (loaded_apart ds l n El U Hn). Qed.
  Lemma object_loaded n : In n (map ob_type (l_objects l)) -> In n (loaded_names l).
  Proof. intros H. unfold loaded_names. rewrite !in_app_iff. tauto. Qed.
  Lemma query_apart : ~ In (s_query S) (map fst standard_types).
  Proof. intros H. rewrite (lk_query S l noI LK) in H. exact (loaded_apart ds l _ El U H (object_loaded _ (loaded_query ds l El U))). Qed.
  Lemma possible_apart t d o : find_type S t = Some d -> td_kind d = INTERFACE \/ td_kind d = UNION -> In o (td_possible d) -> ~ In o (map fst standard_types).
  Proof.
    intros Hd K Hin Ho. apply (loaded_apart ds l o El U Ho). apply object_loaded.
    assert (Hl : In t (loaded_names l)).
    { destruct (in_dec string_dec t (loaded_names l)) as [H|H]; [exact H|]. exfalso. rewrite (lk_standard S l noI LK t H) in Hd. destruct (standard_kinds t d Hd) as [N1 N2]. destruct K; contradiction. }
    destruct (in_loaded S l noI LK t Hl) as (d2 & Hd2 & H). rewrite Hd in Hd2. injection Hd2 as <-. destruct K as [K|K].
    - assert (Hi : In t (map if_type (l_interfaces l))) by (intuition congruence). apply in_map_iff in Hi as (i & <- & Hi). assert (Fi := lk_interfaces S l noI LK i Hi). rewrite Hd in Fi. injection Fi as ->.
      cbn in Hin. unfold implementing in Hin. apply in_flat_map in Hin as (o' & Ho' & Hr). apply in_repeat in Hr as [-> _]. apply in_map. exact Ho'.
    - assert (Hi : In t (map un_type (l_unions l))) by (intuition congruence). apply in_map_iff in Hi as (u & <- & Hi). assert (Fi := lk_unions S l noI LK u Hi). rewrite Hd in Fi. injection Fi as ->. cbn in Hin.
      exact (lk_options S l noI LK u o Hi Hin).
  Qed.
End Apart.

(** For all documents that schemagen loads, with whatever the user's accessors do with arguments of the declared types, as long as they return values of the C++ types that
    the schema asks for and pointers to objects of possible classes: the service answers as its schema says (C50 goes on from here). *)
Theorem C57_typed_service_partial : forall noIntrospection separateFiles ds l r S, load false ds = Ok l -> usual ds -> schema_of noIntrospection separateFiles ds = Ok r -> represents r S ->
  schema_wf S -> own_types ds -> defaults_fit S ds ->
  forall U (class : U -> string) access, implements S class ds access ->
  forall six ians ischema itype, hosted r ians ischema itype ->
  typed_service S (gen_types l class (fun i => i_types (proj1_sig i))) (gen_has l noIntrospection class (fun i => i_has (proj1_sig i)))
    (gen_ans l noIntrospection six class access ians ischema itype) (object_type_of class r).
Proof.
  intros noI sep ds l r S El U Er Rr WF OT DF Us class access IM six ians ischema itype HO. destruct (service_schema noI sep ds l r S El U Er Rr) as [SS (h & Ha)]. assert (LK := loaded_linked S ds l noI El U SS OT DF).
  assert (IN := hosted_introspects S r noI h Ha Rr (standard_found noI ds l S El U LK) (query_apart noI ds l S El U LK) (possible_apart noI ds l S El U LK) class ians ischema itype HO).
  exact (generated_typed S l noI six LK WF class access _ _ ians ischema itype _ ds (fun n => loaded_objects ds l n El U) IM IN).
Qed.
(** ** Calls: resolving a field calls the user's accessor of that field, once, with the values that the arguments of the field have, in the order of the declaration; the result of
    the field is what the accessor returned. Where an argument is not given, the accessor gets its default value ([members]; [six] are the six digits of a double). *)
Theorem C57_call_partial : forall noIntrospection separateFiles ds l r S, load false ds = Ok l -> usual ds -> schema_of noIntrospection separateFiles ds = Ok r -> represents r S ->
  schema_wf S -> own_types ds -> defaults_fit S ds ->
  forall U (class : U -> string) access, implements S class ds access ->
  forall six I (ians : I -> string -> fparams -> answer I) ischema itype u d f p, find_type S (class u) = Some d -> In f (td_fields d) -> inputs_fit S (fd_args f) (p_args p) -> has_null_scalar (VMap (p_args p)) = false ->
  exists args xs, Forall2 (fun a i => in_name a = iv_name i /\ stands_for (in_type a) (in_mods a) (iv_type i)) args (fd_args f) /\ members S l six args (p_args p) xs /\
    let a := gen_ans l noIntrospection six class access ians ischema itype (GUser u) (fd_name f) p in
    match access u (fd_name f) p xs with
    | Thrown e => a = AThrow e
    | Now v | Later v => exists res, a = AResult res /\ delivers S (fd_type f) v res
    | Failing e => exists b, a = AResult (FLeaf b true (Throw e))
    end.
Proof.
  intros noI sep ds l r S El U Er Rr WF OT DF Us class access IM six I ians ischema itype u d f p Hd Hf HI HN. destruct (service_schema noI sep ds l r S El U Er Rr) as [SS _]. assert (LK := loaded_linked S ds l noI El U SS OT DF).
  destruct (class_found S l class access ds (fun n => loaded_objects ds l n El U) IM u) as (o & Ec & Ho & En). assert (Fo := lk_objects S l noI LK o Ho). rewrite En, Hd in Fo. injection Fo as ->.
  destruct (field_found l noI o f Ho Hf) as (x & Hx & ->). destruct (wf_fields S WF _ _ (lk_objects S l noI LK o Ho)) as [ND W]. destruct (W _ Hf) as (NM & _). cbn [out_def fd_name fd_type fd_args] in *.
  destruct (lk_fields S l noI LK o x Ho Hx) as (Hs & _ & _ & Hn & HA). assert (AG := arguments_given S l noI six LK WF o x (p_args p) Ho Hx HI).
  destruct (read_arguments l six x (p_args p)) as [xs|e|] eqn:Ea; [|congruence|contradiction].
  exists (out_args x), xs. split; [|split; [exact (arguments_exact S l noI six LK WF o x _ xs Ho Hx HI HN Ea)|]].
  - clear - HA. induction (out_args x) as [|a l' IH]; cbn [map]; constructor; [|apply IH; intros b Hb; apply HA; right; exact Hb]. destruct (HA a (or_introl eq_refl)) as (H & _). split; [reflexivity|exact H].
  - cbn zeta. unfold gen_ans. rewrite Ec. unfold class_answer.
    assert (N1 : String.eqb (out_name x) "__typename" = false) by (apply String.eqb_neq; intros E; apply NM; rewrite E; cbn; tauto).
    assert (N2 : String.eqb (out_name x) "__schema" = false) by (apply String.eqb_neq; intros E; apply NM; rewrite E; cbn; tauto).
    assert (N3 : String.eqb (out_name x) "__type" = false) by (apply String.eqb_neq; intros E; apply NM; rewrite E; cbn; tauto). rewrite N1, N2, N3, !andb_false_r.
    destruct (List.find (fun y => String.eqb (out_name x) (out_name y)) (ob_fields o)) as [y|] eqn:Ef; [|exfalso; assert (N := List.find_none _ _ Ef x Hx); cbn in N; rewrite String.eqb_refl in N; discriminate].
    apply find_some in Ef as [Hy Ey]. apply String.eqb_eq in Ey. assert (y = x) as -> by (apply (nodup_map_eq out_name (ob_fields o) y x); [|exact Hy|exact Hx|symmetry; exact Ey]; cbn in ND; rewrite map_map in ND; exact ND).
    assert (M := im_access S class ds access IM u _ (out_def noI x) p xs Hd Hf AG). cbn [out_def fd_name fd_type] in M. unfold resolve. rewrite Ea.
    destruct (access u (out_name x) p xs) as [v|v|e|e].
    + eexists. split; [reflexivity|]. exact (converted_delivers S l noI LK class _ _ _ _ Hs Hn false v M).
    + eexists. split; [reflexivity|]. exact (converted_delivers S l noI LK class _ _ _ _ Hs Hn true v M).
    + destruct M as (n & Et & Lf). cbn [out_def fd_type] in Hs. rewrite Et in Hs. revert Hs. generalize (out_mods x). intros ms Hs. inversion Hs as [E1 E2| |ms' t Hs' E1 E2].
      * subst. destruct (leaf_found S l noI LK _ Hn Lf) as (k & Ek). cbn [failing]. rewrite Ek. eauto.
      * exfalso. subst. revert Hs'. apply no_double.
    + reflexivity.
Qed.

(** The introspection objects are there. *)
Theorem C57_hosted : forall noIntrospection separateFiles ds l r S, load false ds = Ok l -> usual ds -> schema_of noIntrospection separateFiles ds = Ok r -> represents r S ->
  exists ians ischema itype, hosted r ians ischema itype.
Proof.
  intros noI sep ds l r S El U Er Rr. destruct (service_schema noI sep ds l r S El U Er Rr) as [_ (h & Ha)]. exact (hosted_exists S r noI h Ha Rr).
Qed.

(** ** Failures: when the accessors throw only in fields of nullable types, and their futures do not fail, the service fails only where the schema allows null. *)
Theorem C57_failures_partial : forall noIntrospection separateFiles ds l r S, load false ds = Ok l -> usual ds -> schema_of noIntrospection separateFiles ds = Ok r -> represents r S ->
  schema_wf S -> own_types ds -> defaults_fit S ds ->
  forall U (class : U -> string) access, implements S class ds access -> careful S class access ->
  forall six ians ischema itype, hosted r ians ischema itype ->
  fails_mildly S (gen_ans l noIntrospection six class access ians ischema itype) (object_type_of class r).
Proof.
  intros noI sep ds l r S El U Er Rr WF OT DF Us class access IM CA six ians ischema itype HO. destruct (service_schema noI sep ds l r S El U Er Rr) as [SS (h & Ha)]. assert (LK := loaded_linked S ds l noI El U SS OT DF).
  exact (generated_fails_mildly S l noI six LK WF r Us class access ians ischema itype ds (fun n => loaded_objects ds l n El U) IM CA HO
    (fun i => has_fields S (standard_found noI ds l S El U LK) (query_apart noI ds l S El U LK) (proj1_sig i))).
Qed.

(** ** The whole way, from a schema document to the response to a request: the data of the response has the shape and the types of the request and the schema, with null only where
    the schema allows it. *)
Theorem C57_request_partial : forall noIntrospection separateFiles ds l r S, load false ds = Ok l -> usual ds -> schema_of noIntrospection separateFiles ds = Ok r -> represents r S ->
  schema_wf S -> interfaces_implemented S -> conditions_declared S -> own_types ds -> defaults_fit S ds ->
  forall U (class : U -> string) access, implements S class ds access -> careful S class access ->
  forall six ians ischema itype, hosted r ians ischema itype ->
  forall roots lch doc name given St (handler : St -> gobj U (iobject r) -> string -> fparams -> St * answer (gobj U (iobject r))) op T u,
  answers_alone handler (gen_ans l noIntrospection six class access ians ischema itype) ->
  document_wf doc -> accepted S doc ->
  selects name (operations doc) op -> op_kind op <> "subscription" -> root_type S op = Some T ->
  find_root _ (op_kind op) roots = Some (Some (GUser u)) -> class u = T ->
  copyable given -> variables_given S (op_vars op) given ->
  Forall (fun d => plain_args (map v_name (op_vars op)) (d_args d)) (op_dirs op) ->
  (forall f, In f (fragments doc) -> Forall (fun d => plain_args (map fst given) (d_args d)) (f_dirs f)) ->
  repeats_ok S doc (Some (op_vars op)) [] T (op_sel op) -> plain_below S doc (map v_name (op_vars op)) [] T (op_sel op) ->
  exists kvs errs, object_fits S doc nowhere [] T (op_sel op) kvs /\
    Forall (accessor_error S (gen_ans l noIntrospection six class access ians ischema itype) (object_type_of class r)) errs /\
    exists N, forall fuel, N <= fuel -> forall s d,
      responds handler s (start_request _ (gen_types l class (fun i => i_types (proj1_sig i))) (gen_has l noIntrospection class (fun i => i_has (proj1_sig i))) roots fuel
        (fun d => fst (validate S d initial)) lch doc name (VMap given)) d
      <-> d = Ok (VMap (("data", VMap kvs) :: match errs with [] => [] | _ => [("errors", VList (map build_error_entry errs))] end)).
Proof.
  intros noI sep ds l r S El U Er Rr WF II CD OT DF Us class access IM CA six ians ischema itype HO roots lch doc name given St handler op T u A DW AC Sel Ks Hroot Hfind Hot Hc HG Pop Pfr RO PB.
  apply (C50_mild_failures_partial S _ _ _ _ (object_type_of class r) roots lch doc name given St handler op T (GUser u)); auto.
  - exact (C57_typed_service_partial noI sep ds l r S El U Er Rr WF OT DF Us class access IM six ians ischema itype HO).
  - exact (C57_failures_partial noI sep ds l r S El U Er Rr WF OT DF Us class access IM CA six ians ischema itype HO).
Qed.
(** And the way there and back of a client that clientgen generates from a request: the service gets its variables, and it gets the data. *)
Theorem C57_exchange_partial : forall noIntrospection separateFiles ds l r S, load false ds = Ok l -> usual ds -> schema_of noIntrospection separateFiles ds = Ok r -> represents r S ->
  schema_wf S -> interfaces_implemented S -> interfaces_covariant S -> plain_enums S -> enums_distinct S -> conditions_declared S -> names_clean S -> not_recursive S -> own_types ds -> defaults_fit S ds ->
  forall U (class : U -> string) access, implements S class ds access -> careful S class access ->
  forall six ians ischema itype, hosted r ians ischema itype ->
  forall roots lch doc name St (handler : St -> gobj U (iobject r) -> string -> fparams -> St * answer (gobj U (iobject r))) op T u xs,
  answers_alone handler (gen_ans l noIntrospection six class access ians ischema itype) ->
  document_wf doc -> accepted S doc ->
  selects name (operations doc) op -> op_kind op <> "subscription" -> root_type S op = Some T ->
  find_root _ (op_kind op) roots = Some (Some (GUser u)) -> class u = T ->
  Forall default_readable (op_vars op) -> Forall (object_variable S) (op_vars op) -> Forall2 (member_of S) (op_vars op) xs ->
  Forall (fun d => plain_args (map v_name (op_vars op)) (d_args d)) (op_dirs op) ->
  (forall f, In f (fragments doc) -> Forall (fun d => plain_args (map v_name (op_vars op)) (d_args d)) (f_dirs f)) ->
  repeats_ok S doc (Some (op_vars op)) [] T (op_sel op) -> consistent_below S doc [] T (op_sel op) -> plain_below S doc (map v_name (op_vars op)) [] T (op_sel op) ->
  exists given, client_message S op xs = Ok (VMap given) /\ forall given', delivered xs given given' ->
  exists fields reply,
    (exists N, forall fuel, N <= fuel -> request_loader S doc fuel name = Ok (op, fields)) /\ declares S doc T (op_sel op) fields /\
    (exists N, forall fuel, N <= fuel -> forall s d,
      responds handler s (start_request _ (gen_types l class (fun i => i_types (proj1_sig i))) (gen_has l noIntrospection class (fun i => i_has (proj1_sig i))) roots fuel
        (fun d => fst (validate S d initial)) lch doc name (VMap given')) d <-> d = Ok reply) /\
    data_received fields reply /\
    forall trip big, representable reply = true -> filled reply = true ->
      exists events text, writeResponse reply = Ok events /\ spells trip events text /\
        exists reply', parse_events (reader_events big text) = Ok reply' /\ data_received fields reply'.
Proof.
  intros noI sep ds l r S El U Er Rr WF II COV PE DE CD CL NR OT DF Us class access IM CA six ians ischema itype HO roots lch doc name St handler op T u xs A DW AC Sel Ks Hroot Hfind Hot Hd Ho Hx Pop Pfr RO CB PB.
  apply (C56_exchange_failures_partial S _ _ _ (gen_ans l noI six class access ians ischema itype) (object_type_of class r) roots lch doc name St handler op T (GUser u) xs); auto.
  - exact (C57_typed_service_partial noI sep ds l r S El U Er Rr WF OT DF Us class access IM six ians ischema itype HO).
  - exact (C57_failures_partial noI sep ds l r S El U Er Rr WF OT DF Us class access IM CA six ians ischema itype HO).
Qed.
