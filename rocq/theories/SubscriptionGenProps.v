(** C59 for generated services: from a schema document to the events that the subscribers of the generated service receive. *)
From Coq Require Import String List Bool Permutation Lia Arith NArith ZArith.
From Verif Require Import SubscriptionModel SubscriptionSpec SubscriptionTypedProps.
From Verif Require Import RegistryModel IntroModel IntroSpec.
From Verif Require Import Cpp Value Ast ErrorModel ExecModel ExecSem ExecSpec ExecBigSpec ExecValues JSONModel JSONSpec JSONProofs SortedMapModel SchemaModel ModifiersModel
  LoaderModel LoaderSpec GenModel GenSpec GenProps ClientSchemaProps GenServiceModel GenServiceSpec GenServiceIntro
  ValidationModel ValidationSpec ValidationUse ValidationRepeats ClientModel ClientSpec ClientProofs ClientProps ValidationExamples TypedValues TypedExample GenRun GenEval
  TypedSpec TypedProofs TypedProps GenServiceProps GenServiceProps2 GenSound GenSoundProofs GenSoundProps.
Import ListNotations.
Local Open Scope string_scope.
Local Open Scope list_scope.

(** The service that schemagen generates from a good document, with the user's accessors: every event that is delivered on an object of the subscription type has
    data of the shape and the types of the subscription's operation, with null only where the schema allows it; and the struct that clientgen makes reads it, also by way of JSON. *)
Theorem C59_generated_partial : forall noIntrospection separateFiles ds l r S, load false ds = Ok l -> good_document noIntrospection ds -> plain_names ds -> schema_of noIntrospection separateFiles ds = Ok r -> represents r S ->
  forall U (class : U -> string) access, implements S class ds access -> careful S class access ->
  forall six ians ischema itype, hosted r ians ischema itype ->
  forall CB roots fuel (h : list (SubscriptionModel.call (gobj U (iobject r)) CB * SubscriptionModel.answered CB)) rg lch name f u log final,
  history (gobj U (iobject r)) (gen_types l class (fun i => i_types (proj1_sig i))) (gen_has l noIntrospection class (fun i => i_has (proj1_sig i))) roots CB
    (gen_ans l noIntrospection six class access ians ischema itype) fuel (validation S) (h ++ [(Deliver lch name f (Some (GUser u)), CalledBack log final)]) rg ->
  Forall plain_call h -> (made h < size_t_max)%N ->
  forall i s op, In i log -> In (i_key i, s) (SubscriptionSpec.live h) -> careful_subscription S s -> subscribed S s op (class u) -> consistent_below S (s_doc s) [] (class u) (op_sel op) ->
  exists kvs errs fields, i_document i = event_data kvs errs /\ object_fits S (s_doc s) nowhere [] (class u) (op_sel op) kvs /\
    (exists N, forall fuel, N <= fuel -> request_loader S (s_doc s) fuel (s_name s) = Ok (op, fields)) /\ data_received fields (i_document i) /\
    forall trip big, representable (i_document i) = true -> filled (i_document i) = true ->
      exists events text, writeResponse (i_document i) = Ok events /\ spells trip events text /\
        exists reply', parse_events (reader_events big text) = Ok reply' /\ data_received fields reply'.
Proof.
  intros noI sep ds l r S El G PN Er Rr Us class access IM CA six ians ischema itype HO CB roots fuel h rg lch name f u log final H P M i s op Ii Is Ca Sb CBl.
  destruct (good_parts noI sep ds l r S El G Er Rr) as (W & II & IC & CD & NR & ED & DF).
  destruct (C58_interfaces noI sep ds l r S El (gd_usual _ _ G) (gd_texts _ _ G) Er Rr (gd_sound _ _ G)) as (_ & _ & HP). destruct (HP PN) as [PE _].
  assert (TS := C57_typed_service_partial noI sep ds l r S El (gd_usual _ _ G) Er Rr W (gd_own _ _ G) DF Us class access IM six ians ischema itype HO).
  assert (FM := C57_failures_partial noI sep ds l r S El (gd_usual _ _ G) Er Rr W (gd_own _ _ G) DF Us class access IM CA six ians ischema itype HO).
  assert (Ho : forall o, event_object roots (Some (GUser u)) o -> object_type_of class r o = class u) by (intros o [E|(E & _)]; [injection E as <-; reflexivity|discriminate]).
  destruct (C59_no_failure_partial S _ CB _ _ _ (object_type_of class r) roots fuel h rg lch name f _ log final W II CD TS H P M FM i s op (class u) Ii Is Ca Sb Ho) as (kvs & errs & E & OF & _).
  destruct (C59_client_reads_partial S _ CB _ _ _ (object_type_of class r) roots fuel h rg lch name f _ log final W II IC PE ED CD TS H P M FM i s op (class u) Ii Is Ca Sb CBl Ho) as (fields & F1 & _ & F2 & F3).
  exists kvs, errs, fields. auto.
Qed.
Print Assumptions C59_generated_partial.

(** ** An example *)
(** type Item { id: ID!  size: Int }   type Query { a: Int }   type Subscription { changed(kind: Int): Item } *)
Definition ds59 : list sdl_def :=
  [DefObject "Item" "" [] [plain_field "id" (TNonNull (TNamed "ID")); plain_field "size" (TNamed "Int")];
   DefObject "Query" "" [] [plain_field "a" (TNamed "Int")];
   DefObject "Subscription" "" [] [mkSdlField "changed" "" [input_ "kind" (TNamed "Int")] (TNamed "Item") []]].
Definition l59 : loader := Eval vm_compute in match load false ds59 with Ok l => l | _ => no_definitions end.
Definition A59 : pschema := Eval vm_compute in match generated_run false false ds59 with Some A => A | None => no_types end.
Definition G59 : schema := Eval vm_compute in complete_schema false A59 "Query".
Lemma load59 : load false ds59 = Ok l59.
Proof. vm_compute. reflexivity. Qed.
Lemma usual59 : usual ds59.
Proof. apply usual_b_ok. vm_compute. reflexivity. Qed.
Lemma wf59 : schema_wf G59.
Proof. apply SchemaCheck.schema_wf_b_ok. vm_compute. reflexivity. Qed.
Lemma generated59 : exists r, schema_of false false ds59 = Ok r /\ represents r G59.
Proof. destruct (by_generated_run false false ds59 A59 "Query") as (r & h & Er & _ & Hr); [vm_compute; reflexivity|reflexivity|]. exists r. split; [exact Er|exact Hr]. Qed.
Lemma texts59 : texts_given ds59.
Proof. apply texts_no_defaults. intros d i Hd Hi. cbn in Hd. repeat destruct Hd as [<-|Hd]; try contradiction; cbn in Hi; repeat destruct Hi as [<-|Hi]; try contradiction; reflexivity. Qed.
Lemma good59 : good_document false ds59.
Proof.
  destruct generated59 as (r & Er & Rr). apply mkGood.
  - exact usual59.
  - exact texts59.
  - exact (proj1 (C58_schema_wf false false ds59 l59 r G59 load59 usual59 texts59 Er Rr) wf59).
  - intros o i g A I Hg. destruct A as (d & Hd & E). cbn in Hd. repeat destruct Hd as [<-|Hd]; try contradiction; cbn in E; try discriminate; injection E as <-; cbn in I; contradiction.
  - intros d i Hd Hi. cbn in Hd. repeat destruct Hd as [<-|Hd]; try contradiction; cbn in Hi; repeat destruct Hi as [<-|Hi]; try contradiction; vm_compute; tauto.
  - intros d i c text v Hd Hi Ed. exfalso. cbn in Hd. repeat destruct Hd as [<-|Hd]; try contradiction; cbn in Hi; repeat destruct Hi as [<-|Hi]; try contradiction; discriminate Ed.
Qed.
Lemma plain_names59 : plain_names ds59.
Proof.
  intros d Hd. cbn in Hd. repeat destruct Hd as [<-|Hd]; try contradiction; (split; [intros v Hv; cbn in Hv; repeat destruct Hv as [<-|Hv]; try contradiction; split; reflexivity|intros i Hi; cbn in Hi; repeat destruct Hi as [<-|Hi]; try contradiction; reflexivity]).
Qed.
Inductive user59 : Type := UQuery | UItem | USubscription.
Definition class59 (u : user59) : string := match u with UQuery => "Query" | UItem => "Item" | USubscription => "Subscription" end.
Definition access59 (u : user59) (f : string) (p : fparams) (xs : list cppval) : accessed user59 :=
  match u with
  | UQuery => Now (OOpt None)
  | UItem => if String.eqb f "id" then Now (OLeaf (XId ["a"%char])) else Thrown (Exn runtime_error "no size")
  | USubscription => Later (OPtr (Some UItem))
  end.
Lemma implements59 : implements G59 class59 ds59 access59.
Proof.
  split; [intros []; vm_compute; tauto|]. intros u d f p xs Hd Hf _. destruct u; cbn in Hd; injection Hd as <-; field57 Hf; cbn [access59 fd_name fd_type String.eqb Ascii.eqb Bool.eqb].
  - apply rt_null; [intros (t & E); discriminate E|intros n E; injection E as <-; left; kind_].
  - eapply rt_leaf; [left; kind_|constructor|constructor].
  - exact Logic.I.
  - apply rt_nullable_object; [left; kind_|]. intros u E. injection E as <-. left. split; [kind_|reflexivity].
Qed.
Lemma careful_access59 : careful G59 class59 access59.
Proof.
  intros u d f p xs Hd Hf _. destruct u; cbn in Hd; injection Hd as <-; field57 Hf; cbn [access59 fd_name fd_type String.eqb Ascii.eqb Bool.eqb]; try exact Logic.I. intros (t & E). discriminate E.
Qed.
(** subscription { changed(kind: 1) { id size } } *)
Definition opg59 : operation_def := mkOp (at_ 1) (Some "subscription") None [] []
  [SField (at_ 2) None "changed" [arg 2 "kind" (LInt (at_ 2) 1)] [] (Some (at_ 2, [fld 3 "id"; fld 4 "size"]))].
Definition docg59 : document := [DOp opg59].
Definition sg59 : SubscriptionSpec.subscription nat := mkSub docg59 "" (VMap []) 7.
Lemma tidyg59 : tidy G59 docg59 [] [] "Subscription" (op_sel opg59).
Proof.
  econstructor; [simpl; repeat apply col_field; apply col_nil| | |dirs50|].
  - simpl. nodup_.
  - intros o I. in_items I; injection I as <-. repeat constructor.
  - intros o ty args sub I Hof Es. in_items I; injection I as <-; cbn [oc_sub oc_parent oc_name oc_stack] in *; injection Es as <-.
    assert (E : named_type ty = "Item").
    { assert (Hd : field_of G59 "Subscription" "changed" (TNamed "Item") [mkInput "kind" "" (TNamed "Int") ""]).
      { eapply (field_declared G59 "Subscription") with (f := mkFieldDef "changed" "" None (TNamed "Item") [mkInput "kind" "" (TNamed "Int") ""]); [reflexivity|now left|now left]. }
      destruct (ValidationFields.field_of_fun G59 wf59 _ _ _ _ _ _ Hof Hd) as (-> & _). reflexivity. }
    rewrite E. econstructor; [simpl; repeat apply col_field; apply col_nil| | |dirs50|].
    + simpl. nodup_.
    + intros o I. in_items I; injection I as <-; constructor.
    + intros o ty' args' sub I Hof' Es. in_items I; injection I as <-; simpl in *; discriminate.
Qed.
Lemma carefulg59 : careful_subscription G59 sg59.
Proof.
  split; [doc_wf_|]. exists []. split; [reflexivity|]. split; [intros n v; discriminate|].
  intros op T (Ops & HT). injection Ops as <-. cbn in HT. injection HT as <-. destruct (tidy_ok _ _ _ _ _ _ tidyg59) as (DB & PB).
  split; [intros v []|split; [|exact PB]].
  apply (distinct_operation G59 docg59 "" opg59 "Subscription" wf59); [doc_wf_|vm_compute; reflexivity| |reflexivity|exact DB]. exists [], []. split; [reflexivity|]. split; [reflexivity|congruence].
Qed.
(** The event is delivered, and the client has its data: the id, and no size because that accessor throws. *)
Example C59_example_generated : exists r, schema_of false false ds59 = Ok r /\ represents r G59 /\ exists ians ischema itype, hosted r ians ischema itype /\
  let roots : list (string * option (gobj user59 (iobject r))) := [("query", Some (GUser UQuery)); ("subscription", Some (GUser USubscription))] in
  let h : list (SubscriptionModel.call (gobj user59 (iobject r)) nat * SubscriptionModel.answered nat) := [(Subscribe docg59 "" (VMap []) 7, GotKey 0%N)] in
  let six := fun x : spec_float => x in
  exists fuel rg i kvs errs fields,
    history (gobj user59 (iobject r)) (gen_types l59 class59 (fun i => i_types (proj1_sig i))) (gen_has l59 false class59 (fun i => i_has (proj1_sig i))) roots nat
      (gen_ans l59 false six class59 access59 ians ischema itype) fuel (validation G59)
      (h ++ [(Deliver LAsync "changed" (ByArguments [("kind", VInt 1)]) (Some (GUser USubscription)), CalledBack [i] (Ok tt))]) rg /\
    i_key i = 0%N /\ i_callback i = 7 /\ i_document i = event_data kvs errs /\ object_fits G59 docg59 nowhere [] "Subscription" (op_sel opg59) kvs /\
    (exists N, forall fuel, N <= fuel -> request_loader G59 docg59 fuel "" = Ok (opg59, fields)) /\ data_received fields (i_document i).
Proof.
  destruct generated59 as (r & Er & Rr). exists r. split; [exact Er|]. split; [exact Rr|].
  destruct (C57_hosted false false ds59 l59 r G59 load59 usual59 Er Rr) as (ians & ischema & itype & HO). exists ians, ischema, itype. split; [exact HO|]. intros roots h six.
  destruct (good_parts false false ds59 l59 r G59 load59 good59 Er Rr) as (W & II & IC & CD & NR & ED & DF).
  assert (TS := C57_typed_service_partial false false ds59 l59 r G59 load59 usual59 Er Rr W (gd_own _ _ good59) DF user59 class59 access59 implements59 six ians ischema itype HO).
  assert (H1 : exists rg, history (gobj user59 (iobject r)) (gen_types l59 class59 (fun i => i_types (proj1_sig i))) (gen_has l59 false class59 (fun i => i_has (proj1_sig i))) roots nat
      (gen_ans l59 false six class59 access59 ians ischema itype) 0 (validation G59) h rg).
  { eexists. refine (hi_call _ _ _ _ _ _ _ _ [] _ _ _ _ (hi_new _ _ _ _ _ _ _ _) _). apply se_subscribe. vm_compute. reflexivity. }
  destruct H1 as (rg & H1).
  assert (Hp : Forall plain_call h).
  { constructor; [|constructor]. split; [exists []; split; [reflexivity|intros n v; discriminate]|]. intros op [<-|[]] loc al args dirs sub [E|[]]. discriminate. }
  assert (Rs : recipients (default_types (gen_types l59 class59 (fun i => i_types (proj1_sig i))) roots) h "changed" (ByArguments [("kind", VInt 1)]) [(0%N, sg59)]).
  { split; [repeat constructor|]. intros k s. split.
    - intros [E|[]]. injection E as <- <-. split; [left; reflexivity|]. exists [("kind", VInt 1)], []. split.
      + exists [], opg59, []. split; [reflexivity|]. split; [reflexivity|]. split; [constructor|].
        exists [], (at_ 2), None, [arg 2 "kind" (LInt (at_ 2) 1)], [], (Some (at_ 2, [fld 3 "id"; fld 4 "size"])), []. split; [reflexivity|]. split; [constructor|]. split; [constructor|].
        split; [exists []; split; constructor|]. split; [split; intros; discriminate|]. exists [("kind", VInt 1)]. split; [|reflexivity]. repeat constructor.
      + split; intros n v; [intros [E|[]]; injection E as <- <-; reflexivity|intros []].
    - intros ([E|[]] & _). injection E as <- <-. left. reflexivity. }
  destruct (C59_delivered_partial G59 _ nat _ _ _ (object_type_of class59 r) roots 0 h rg LAsync "changed" (ByArguments [("kind", VInt 1)]) (Some (GUser USubscription)) (GUser USubscription) _
    W II CD TS H1 Hp eq_refl ltac:(discriminate) ltac:(discriminate) (or_introl eq_refl) ltac:(intros n v; eexists; reflexivity) ltac:(intros n v; eexists; reflexivity) Rs) as (N & HN).
  { intros k s [E|[]]. injection E as <- <-. split; [exact carefulg59|]. exists opg59. split; reflexivity. }
  destruct (HN N (le_n N)) as (log & H2 & Pm). apply Permutation_length in Pm as Ln. rewrite !map_length in Ln. destruct log as [|i [|]]; try discriminate Ln.
  apply Permutation_length_1 in Pm. unfold who, who_is in Pm. injection Pm as Ek Ec.
  destruct (tidy_ok _ _ _ _ _ _ tidyg59) as (DB & _).
  destruct (C59_generated_partial false false ds59 l59 r G59 load59 good59 plain_names59 Er Rr user59 class59 access59 implements59 careful_access59 six ians ischema itype HO nat roots N h rg
    LAsync "changed" (ByArguments [("kind", VInt 1)]) USubscription _ _ H2 Hp eq_refl i sg59 opg59 (or_introl eq_refl)) as (kvs & errs & fields & E1 & E2 & E3 & E4 & _).
  - rewrite Ek. left. reflexivity.
  - exact carefulg59.
  - split; reflexivity.
  - exact (distinct_consistent _ _ _ _ _ DB).
  - exists N, rg, i, kvs, errs, fields. auto 10.
Qed.
