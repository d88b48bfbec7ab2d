(** C58: which schema documents give well-formed schemas, and the way from a document to a response. *)
From Coq Require Import String List Bool Permutation Lia Arith NArith ZArith.
From Verif Require ExecRequest2 RegistrySpec.
From Verif Require Import RegistryModel IntroModel IntroSpec.
From Verif Require Import Cpp Value Ast ErrorModel ExecModel ExecSem ExecSpec ExecBigSpec ExecValues ExecRun ExecProps2 JSONModel JSONSpec JSONProofs SortedMapModel SchemaModel ModifiersModel ModifiersSpec ModifiersProofs RoundTripProofs
  LoaderModel LoaderSpec LoaderProofs LoaderProps AcceptSpec AcceptProofs GenModel GenSpec GenRun GenEval GenDecl GenProps ClientSchemaProps SchemaCheck GenServiceModel GenServiceSpec GenServiceArgs GenServiceLink GenServiceProofs GenServiceIntro GenServiceFail GenServiceValues
  ValidationModel ValidationSpec ValidationUse ValidationRepeats ValidationExamples ClientModel ClientSpec ClientProofs ClientProps
  TypedSpec TypedValues TypedExample TypedProps VariablesModel VariablesSpec VariablesProofs VariablesOrder VariablesCpp VariablesSent VariablesProps GenServiceProps GenServiceProps2 GenSound GenSoundProofs.
Import ListNotations.
Local Open Scope string_scope.
Local Open Scope list_scope.

Section Document.
  Variables (noI sep : bool) (ds : list sdl_def) (l : loader) (r : registry) (S : schema).
  Hypothesis El : load false ds = Ok l.
  Hypothesis U : usual ds.
  Hypothesis TG : texts_given ds.
  Hypothesis Er : schema_of noI sep ds = Ok r.
  Hypothesis Rr : represents r S.
  Lemma doc_same : same_schema S (declared_schema noI ds).
  Proof. exact (proj1 (service_schema noI sep ds l r S El U Er Rr)). Qed.
  Lemma doc_find n : find_type S n = find_type (declared_schema noI ds) n.
  Proof. exact (same_find S _ doc_same (names_of_schema noI ds U) n). Qed.
  Lemma doc_accepted : orderly ds /\ acceptable ds.
  Proof. assert (O := usual_orderly ds U TG). split; [exact O|]. apply (accepts ds O). eauto. Qed.
End Document.

(** ** The schema that the generated service registers is well-formed if, and only if, the document keeps to the rules in [sound]: schemagen checks all others. *)
Theorem C58_schema_wf : forall noIntrospection separateFiles ds l r S, load false ds = Ok l -> usual ds -> texts_given ds -> schema_of noIntrospection separateFiles ds = Ok r -> represents r S ->
  (schema_wf S <-> sound ds).
Proof.
  intros noI sep ds l r S El U TG Er Rr. destruct (doc_accepted ds l El U TG) as [O AC]. assert (SS := doc_same noI sep ds l r S El U Er Rr). assert (ND := names_of_schema noI ds U). split.
  - intros W. apply (wf_sound noI ds U O). apply (wf_same _ S (same_sym _ _ SS)); [|exact W]. destruct SS as (P & _). eapply Permutation_NoDup; [apply Permutation_map, Permutation_sym, P|exact ND].
  - intros SO. apply (wf_same S _ SS ND). exact (sound_wf noI ds U O AC SO).
Qed.
(** ** What schemagen checks by itself: no input type contains itself, the values of enums are distinct; and what it leaves to the document: interfaces. *)
Theorem C58_checked : forall noIntrospection separateFiles ds l r S, load false ds = Ok l -> usual ds -> texts_given ds -> schema_of noIntrospection separateFiles ds = Ok r -> represents r S ->
  not_recursive S /\ enums_distinct S.
Proof.
  intros noI sep ds l r S El U TG Er Rr. destruct (doc_accepted ds l El U TG) as [O AC]. assert (F := doc_find noI sep ds l r S El U Er Rr).
  split; [exact (recursive_same S _ F (accepted_not_recursive noI ds U AC))|exact (enums_same S _ F (accepted_enums noI ds U AC))].
Qed.
Theorem C58_interfaces : forall noIntrospection separateFiles ds l r S, load false ds = Ok l -> usual ds -> texts_given ds -> schema_of noIntrospection separateFiles ds = Ok r -> represents r S ->
  sound ds -> conditions_declared S /\ (fulfils ds -> interfaces_implemented S /\ interfaces_covariant S) /\ (plain_names ds -> plain_enums S /\ names_clean S).
Proof.
  intros noI sep ds l r S El U TG Er Rr SO. destruct (doc_accepted ds l El U TG) as [O AC]. assert (F := doc_find noI sep ds l r S El U Er Rr). destruct (doc_same noI sep ds l r S El U Er Rr) as (_ & _ & _ & _ & Ed & _).
  split; [exact (conditions_same S _ F Ed (sound_conditions noI ds SO))|]. split; [intros FU|intros PN].
  - split; [exact (implemented_same S _ F (fulfils_implemented noI ds U O AC FU))|exact (covariant_same S _ F (fulfils_covariant noI ds U AC SO FU))].
  - split; [exact (plain_same S _ F (plain_names_enums noI ds U PN))|exact (clean_same S _ F (plain_names_clean noI ds U PN))].
Qed.

(** ** From the document to the response: C57, with nothing left to ask of the schema. *)
Record good_document (noIntrospection : bool) (ds : list sdl_def) : Prop := mkGood {
  gd_usual : usual ds; gd_texts : texts_given ds; gd_sound : sound ds; gd_fulfils : fulfils ds; gd_own : own_types ds; gd_defaults : defaults_fit (declared_schema noIntrospection ds) ds }.
Lemma good_parts noI sep ds l r S : load false ds = Ok l -> good_document noI ds -> schema_of noI sep ds = Ok r -> represents r S ->
  schema_wf S /\ interfaces_implemented S /\ interfaces_covariant S /\ conditions_declared S /\ not_recursive S /\ enums_distinct S /\ defaults_fit S ds.
Proof.
  intros El [U TG SO FU OT DF] Er Rr. assert (W := proj2 (C58_schema_wf noI sep ds l r S El U TG Er Rr) SO). destruct (C58_checked noI sep ds l r S El U TG Er Rr) as [NR ED].
  destruct (C58_interfaces noI sep ds l r S El U TG Er Rr SO) as (CD & HI & _). destruct (HI FU) as [II IC]. assert (F := doc_find noI sep ds l r S El U Er Rr).
  split; [exact W|]. split; [exact II|]. split; [exact IC|]. split; [exact CD|]. split; [exact NR|]. split; [exact ED|]. intros d i c text v Hd Hi Es Ev N. exact (fits_same S _ F v _ (DF d i c text v Hd Hi Es Ev N)).
Qed.
Theorem C58_request_partial : forall noIntrospection separateFiles ds l r S, load false ds = Ok l -> good_document noIntrospection ds -> schema_of noIntrospection separateFiles ds = Ok r -> represents r S ->
  forall U (class : U -> string) access, implements S class ds access -> careful S class access ->
  forall six ians ischema itype, hosted r ians ischema itype ->
  forall roots lch doc name given St (handler : St -> gobj U (iobject r) -> string -> fparams -> St * answer (gobj U (iobject r))) op T u,
  answers_alone handler (gen_ans l noIntrospection six class access ians ischema itype) ->
  document_wf doc -> accepted S doc ->
  selects name (operations doc) op -> op_kind op <> "subscription" -> root_type S op = Some T ->
  find_root _ (op_kind op) roots = Some (Some (GUser u)) -> class u = T ->
  copyable given -> variables_given S (op_vars op) given ->
  Forall (fun d => plain_args (map v_name (op_vars op)) (d_args d)) (op_dirs op) ->
  (forall f, In f (fragments doc) -> Forall (fun d => plain_args (map fst given) (d_args d)) (f_dirs f)) ->
  repeats_ok S doc (Some (op_vars op)) [] T (op_sel op) -> plain_below S doc (map v_name (op_vars op)) [] T (op_sel op) ->
  exists kvs errs, object_fits S doc nowhere [] T (op_sel op) kvs /\
    Forall (accessor_error S (gen_ans l noIntrospection six class access ians ischema itype) (object_type_of class r)) errs /\
    exists N, forall fuel, N <= fuel -> forall s d,
      responds handler s (start_request _ (gen_types l class (fun i => i_types (proj1_sig i))) (gen_has l noIntrospection class (fun i => i_has (proj1_sig i))) roots fuel
        (fun d => fst (validate S d initial)) lch doc name (VMap given)) d
      <-> d = Ok (VMap (("data", VMap kvs) :: match errs with [] => [] | _ => [("errors", VList (map build_error_entry errs))] end)).
Proof.
  intros noI sep ds l r S El G Er Rr. destruct (good_parts noI sep ds l r S El G Er Rr) as (W & II & _ & CD & _ & _ & DF).
  exact (C57_request_partial noI sep ds l r S El (gd_usual _ _ G) Er Rr W II CD (gd_own _ _ G) DF).
Qed.
Theorem C58_exchange_partial : forall noIntrospection separateFiles ds l r S, load false ds = Ok l -> good_document noIntrospection ds -> plain_names ds -> schema_of noIntrospection separateFiles ds = Ok r -> represents r S ->
  forall U (class : U -> string) access, implements S class ds access -> careful S class access ->
  forall six ians ischema itype, hosted r ians ischema itype ->
  forall roots lch doc name St (handler : St -> gobj U (iobject r) -> string -> fparams -> St * answer (gobj U (iobject r))) op T u xs,
  answers_alone handler (gen_ans l noIntrospection six class access ians ischema itype) ->
  document_wf doc -> accepted S doc ->
  selects name (operations doc) op -> op_kind op <> "subscription" -> root_type S op = Some T ->
  find_root _ (op_kind op) roots = Some (Some (GUser u)) -> class u = T ->
  Forall default_readable (op_vars op) -> Forall (object_variable S) (op_vars op) -> Forall2 (member_of S) (op_vars op) xs ->
  Forall (fun d => plain_args (map v_name (op_vars op)) (d_args d)) (op_dirs op) ->
  (forall f, In f (fragments doc) -> Forall (fun d => plain_args (map v_name (op_vars op)) (d_args d)) (f_dirs f)) ->
  repeats_ok S doc (Some (op_vars op)) [] T (op_sel op) -> consistent_below S doc [] T (op_sel op) -> plain_below S doc (map v_name (op_vars op)) [] T (op_sel op) ->
  exists given, client_message S op xs = Ok (VMap given) /\ forall given', delivered xs given given' ->
  exists fields reply,
    (exists N, forall fuel, N <= fuel -> request_loader S doc fuel name = Ok (op, fields)) /\ declares S doc T (op_sel op) fields /\
    (exists N, forall fuel, N <= fuel -> forall s d,
      responds handler s (start_request _ (gen_types l class (fun i => i_types (proj1_sig i))) (gen_has l noIntrospection class (fun i => i_has (proj1_sig i))) roots fuel
        (fun d => fst (validate S d initial)) lch doc name (VMap given')) d <-> d = Ok reply) /\
    data_received fields reply /\
    forall trip big, representable reply = true -> filled reply = true ->
      exists events text, writeResponse reply = Ok events /\ spells trip events text /\
        exists reply', parse_events (reader_events big text) = Ok reply' /\ data_received fields reply'.
Proof.
  intros noI sep ds l r S El G PN Er Rr. destruct (good_parts noI sep ds l r S El G Er Rr) as (W & II & IC & CD & NR & ED & DF).
  destruct (C58_interfaces noI sep ds l r S El (gd_usual _ _ G) (gd_texts _ _ G) Er Rr (gd_sound _ _ G)) as (_ & _ & HP). destruct (HP PN) as [PE CL].
  exact (C57_exchange_partial noI sep ds l r S El (gd_usual _ _ G) Er Rr W II IC PE ED CD CL NR (gd_own _ _ G) DF).
Qed.

(** ** An example: the document of C57 *)
Lemma texts57 : texts_given ds57.
Proof. intros d i v text Hd Hi E. cbn in Hd. repeat destruct Hd as [<-|Hd]; try contradiction; cbn in Hi; repeat destruct Hi as [<-|Hi]; try contradiction; cbn in E; try discriminate; injection E as <- <-; discriminate. Qed.
Lemma fulfils57 : fulfils ds57.
Proof.
  intros o i g A I Hg. destruct A as (d & Hd & E). cbn in Hd. repeat destruct Hd as [<-|Hd]; try contradiction; cbn in E; try discriminate; injection E as <-; cbn in I; repeat destruct I as [<-|I]; try contradiction.
  all: cbn in Hg; destruct Hg as [<-|[]]; eexists; (split; [left; reflexivity|]); (split; [reflexivity|]); (split; [apply cv_nonnull, cv_same|]); split; intros a [].
Qed.
Lemma plain57 : plain_names ds57.
Proof.
  intros d Hd. cbn in Hd. repeat destruct Hd as [<-|Hd]; try contradiction; (split; [intros v Hv; cbn in Hv; repeat destruct Hv as [<-|Hv]; try contradiction; split; reflexivity|intros i Hi; cbn in Hi; repeat destruct Hi as [<-|Hi]; try contradiction; reflexivity]).
Qed.
Example C58_example : good_document false ds57 /\ plain_names ds57 /\ exists r, schema_of false false ds57 = Ok r /\ represents r S57.
Proof.
  destruct generated57 as (r & Er & Rr). split; [|split; [exact plain57|exists r; split; [exact Er|exact Rr]]].
  apply mkGood.
  - exact usual57.
  - exact texts57.
  - exact (proj1 (C58_schema_wf false false ds57 l57 r S57 load57 usual57 texts57 Er Rr) wf57).
  - exact fulfils57.
  - exact own57.
  - intros d i c text v Hd Hi E Ev N. apply (fits_same (declared_schema false ds57) S57 (fun n => eq_sym (doc_find false false ds57 l57 r S57 load57 usual57 Er Rr n))). exact (defaults57 d i c text v Hd Hi E Ev N).
Qed.

(** ** What schemagen accepts although the schema is not well-formed *)
Definition accepts_unsound (ds : list sdl_def) : Prop := (exists l, load false ds = Ok l) /\ usual ds /\ texts_given ds /\ ~ sound ds.
Lemma texts_no_defaults ds : (forall d i, In d ds -> In i (inputs_in d) -> si_default i = None) -> texts_given ds.
Proof. intros H d i v text Hd Hi E. rewrite (H d i Hd Hi) in E. discriminate. Qed.
Ltac unsound := split; [eexists; vm_compute; reflexivity|]; split; [apply usual_b_ok; vm_compute; reflexivity|]; split;
  [apply texts_no_defaults; intros d i Hd Hi; cbn in Hd; repeat destruct Hd as [<-|Hd]; try contradiction; cbn in Hi; repeat destruct Hi as [<-|Hi]; try contradiction; reflexivity|].
Definition q_ (fs : list sdl_field) : sdl_def := DefObject "Query" "" [] fs.
(** type Query { a: Int  a: String } *)
Theorem C58_duplicate_field_refuted : accepts_unsound [q_ [plain_field "a" (TNamed "Int"); plain_field "a" (TNamed "String")]].
Proof. unsound. intros H. assert (N := so_object_fields _ H "Query"). cbn in N. inversion N as [|? ? X _]. apply X. left. reflexivity. Qed.
(** type Query { __typename: Int } *)
Theorem C58_reserved_field_refuted : accepts_unsound [q_ [plain_field "__typename" (TNamed "Int")]].
Proof. unsound. intros H. apply (so_reserved _ H _ (plain_field "__typename" (TNamed "Int")) (or_introl eq_refl)); cbn; tauto. Qed.
(** type Query { a(x: Int, x: String): Int } *)
Theorem C58_duplicate_argument_refuted : accepts_unsound [q_ [mkSdlField "a" "" [input_ "x" (TNamed "Int"); input_ "x" (TNamed "String")] (TNamed "Int") []]].
Proof. unsound. intros H. assert (N := so_arguments _ H _ _ (or_introl eq_refl) (or_introl eq_refl)). cbn in N. inversion N as [|? ? X _]. apply X. left. reflexivity. Qed.
(** type Query { a(x: Query): Int }: an object type as an argument, next to a result of a built-in type. *)
Theorem C58_output_argument_refuted : accepts_unsound [q_ [mkSdlField "a" "" [input_ "x" (TNamed "Query")] (TNamed "Int") []]].
Proof.
  unsound. intros H. assert (N := so_unchecked _ H _ (input_ "x" (TNamed "Query")) (or_introl eq_refl)). cbn in N. destruct (N (or_introl eq_refl)) as [[B|(k & Hk & d & Hd & E)]|(d & Hd & E)].
  - cbn in B. intuition discriminate.
  - cbn in Hd. destruct Hd as [<-|[]]. cbn in E. injection E as <-. cbn in Hk. intuition discriminate.
  - cbn in Hd. repeat destruct Hd as [<-|Hd]; try contradiction; discriminate.
Qed.
(** directive @skip on FIELD: another directive with the name of a built-in one. *)
Theorem C58_directive_refuted : accepts_unsound [q_ [plain_field "a" (TNamed "Int")]; DefDirective "skip" "" [FIELD] []].
Proof. unsound. intros H. assert (N := so_directives _ H). cbn in N. inversion N as [|? ? X _]. apply X. cbn. tauto. Qed.
(** interface Node { id: ID }  type Query implements Node { a: Int } *)
Theorem C58_interface_refuted : (exists l, load false [DefInterface "Node" "" [plain_field "id" (TNamed "ID")]; DefObject "Query" "" ["Node"] [plain_field "a" (TNamed "Int")]] = Ok l) /\
  usual [DefInterface "Node" "" [plain_field "id" (TNamed "ID")]; DefObject "Query" "" ["Node"] [plain_field "a" (TNamed "Int")]] /\
  ~ fulfils [DefInterface "Node" "" [plain_field "id" (TNamed "ID")]; DefObject "Query" "" ["Node"] [plain_field "a" (TNamed "Int")]].
Proof.
  split; [eexists; vm_compute; reflexivity|]. split; [apply usual_b_ok; vm_compute; reflexivity|]. intros H.
  destruct (H "Query" "Node" (plain_field "id" (TNamed "ID"))) as (f & Hf & En & _); [eexists; split; [right; left; reflexivity|reflexivity]|left; reflexivity|left; reflexivity|]. cbn in Hf. destruct Hf as [<-|[]]. discriminate En.
Qed.
Print Assumptions C58_schema_wf. Print Assumptions C58_checked. Print Assumptions C58_interfaces. Print Assumptions C58_request_partial. Print Assumptions C58_exchange_partial. Print Assumptions C58_example.
Print Assumptions C58_duplicate_field_refuted. Print Assumptions C58_reserved_field_refuted. Print Assumptions C58_duplicate_argument_refuted. Print Assumptions C58_output_argument_refuted. Print Assumptions C58_directive_refuted. Print Assumptions C58_interface_refuted.
