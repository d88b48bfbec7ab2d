(** C54, together with C53: the document that a generated client marks as validated has no errors in the service. *)
From Coq Require Import String Ascii NArith Bool List Permutation.
From Verif Require Import Cpp Value Ast Layout ParseProps RequestTextModel RequestTextProofs RequestTextProps.
From Verif Require Import ModifiersModel SortedMapModel SchemaModel RegistryModel RegistrySpec RegistryProofs RegistryProps
  IntroModel IntroSpec LoaderModel LoaderSpec GenModel GenSpec GenProps ClientSchemaModel ClientSchemaProps.
From Verif Require Import ValidationModel ValidationSpec ValidationHistory ValidationHistory2 ValidationUse ValidationAlike ValidationExamples ValidationProps.
Local Open Scope string_scope.
Local Open Scope list_scope.

(** From a schema document to the service and to clientgen, from the request file to the document of the generated client ([GetRequestObject]): it is
    accepted by the service, so that marking it as validated changes nothing. *)
Theorem C54_service_accepts_partial : forall noIntrospection separateFiles sdl l r r' S S', load false sdl = Ok l -> usual sdl ->
  schema_of noIntrospection separateFiles sdl = Ok r -> represents r S -> client_schema_of noIntrospection sdl = Ok r' -> represents r' S' ->
  forall L L' atof file ns ds, parse_string file = Ok ns -> read_document L atof ns = Some ds -> validate_request S' ds = [] ->
  ~ ParseSpec.begins ParseSpec.byte_order_mark file -> ~ occurs (list_ascii_of_string ")gql""") file -> one_line_strings ds ->
  exists text ns' ds', get_request_text file = Some text /\ parse_string text = Ok ns' /\ read_document L' atof ns' = Some ds' /\ same_but_positions ds ds'
    /\ ValidationUse.accepted S ds' /\ forall history, Forall (supported S) history ->
      let st := ValidationHistory2.after S history initial in
      fst (fst (request_validate S (mkAst ds' true) st)) = fst (fst (request_validate S (mkAst ds' false) st))
      /\ snd (fst (request_validate S (mkAst ds' true) st)) = snd (fst (request_validate S (mkAst ds' false) st)).
Proof.
  intros b sep sdl l r r' S S' El U Er Rr Er' Rr' L L' atof file ns ds Ep Ed Ev Hb Hc Hs.
  assert (Ho : forall p, ~ In (DOther p) ds) by (intros p X; exact (other_error S' ds initial p X Ev)).
  destruct (C54_parsed_partial L L' atof ns ds file Ep Ed Ho Hb Hc Hs) as (text & ns' & ds' & E & Ep' & Ed' & Q). exists text, ns', ds'.
  assert (K := C54_same_errors S' ds ds' initial Q). unfold validate_request in Ev. rewrite Ev in K.
  assert (Ev' : validate_request S' ds' = []) by (unfold validate_request; destruct (fst (validate S' ds' initial)); [reflexivity|discriminate K]).
  destruct (C53_marked_validated_partial b sep sdl l r r' S S' El U Er Rr Er' Rr' ds' Ev') as [A H]. auto 8.
Qed.

(** A request file for the schema document of C46. *)
Definition file53 : list ascii := list_ascii_of_string "query Find($f: Filter!) {
	__schema { queryType { name } }
	id
	find(filter: $f) { ... on Node { id } ...Back } # the rest
}

fragment Back on Other { back { on } }
".
Definition tree53 := Eval vm_compute in match parse_string file53 with Ok ns => ns | _ => [] end.
Definition document53 := Eval vm_compute in match read_document (ParserModel.location_at file53) (fun _ => S754_zero false) tree53 with Some ds => ds | None => [] end.
Example C54_met atof : exists l r r' S S' ns ds, load false ex46 = Ok l /\ usual ex46 /\ schema_of false true ex46 = Ok r /\ represents r S /\ client_schema_of false ex46 = Ok r' /\ represents r' S'
  /\ parse_string file53 = Ok ns /\ read_document (ParserModel.location_at file53) atof ns = Some ds /\ validate_request S' ds = []
  /\ ~ ParseSpec.begins ParseSpec.byte_order_mark file53 /\ ~ occurs (list_ascii_of_string ")gql""") file53 /\ one_line_strings ds.
Proof.
  destruct C46_met as (U & [l El] & _). destruct (C46_generated_schema_partial false true ex46 l El U) as (r & h & S & E1 & _ & R1 & _).
  destruct (C53_client_schema_partial false ex46 l El U) as (r' & h' & S' & E2 & _ & R2 & Q2).
  exists l, r, r', S, S', tree53, document53. rewrite (by_declared false ex46 S' U Q2).
  split; [exact El|]. split; [exact U|]. split; [exact E1|]. split; [exact R1|]. split; [exact E2|]. split; [exact R2|].
  split; [vm_compute; reflexivity|]. split; [vm_compute; reflexivity|]. split; [vm_compute; reflexivity|].
  split; [intros [x X]; discriminate X|]. split; [apply occurs_b_false; vm_compute; reflexivity|].
  intros s X. exfalso. revert X. vm_compute. exact (fun X => X).
Qed.
