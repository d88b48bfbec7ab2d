(** C53: clientgen validates an operation against the schema that the service has. *)
From Coq Require Import Permutation.
From Verif Require Import Cpp Value Ast ModifiersModel SortedMapModel SchemaModel RegistryModel RegistrySpec RegistryProofs RegistryProps
  IntroModel IntroSpec IntroProofs LoaderModel LoaderSpec LoaderProofs GenModel LoaderProps GenSpec GenRun GenEval GenLoad GenDecl GenMain GenProps
  ClientSchemaModel ClientSchemaProofs ClientSchemaMain.
From Verif Require Import ValidationModel ValidationSpec ValidationHistory ValidationHistory2 ValidationUse ValidationAlike ValidationExamples ValidationProps.
Local Open Scope string_scope.
Local Open Scope list_scope.

(** What clientgen is given: descriptions are always kept, and --no-introspection only removes __schema and __type. *)
Definition client_declared (noIntrospection : bool) (ds : list sdl_def) : schema :=
  let S := declared_schema false ds in mkSchema (s_types S) (s_query S) (s_mutation S) (s_subscription S) (s_directives S) (negb noIntrospection).
Theorem C53_client_schema_partial : forall noIntrospection ds l, load false ds = Ok l -> usual ds ->
  exists r h S, client_schema_of noIntrospection ds = Ok r /\ RegistrySpec.after noIntrospection h r /\ represents r S /\ same_schema S (client_declared noIntrospection ds).
Proof.
  intros b ds l El U. assert (El0 := El). unfold load in El. destruct (visit_definitions no_definitions ds) as [l0|e|] eqn:Ev; cbn [bind] in El; try discriminate.
  assert (Hn : NoDup (flat_map name_of ds)).
  { assert (H := us_names ds U). apply nodup_app_r in H. unfold declared_names in H. rewrite names_are in H. exact H. }
  assert (L : loaded_as ds l0) by (apply (visit_all ds Hn (us_extensions ds U) ds [] l0); [rewrite app_nil_r; reflexivity|exact Ev]).
  assert (V := validate_parts l0 l El).
  destruct standard_runs as (p & E0 & Ep & Es). destruct (add_types_ok b p (new_schema b) no_types standard E0 (rep_new b) Es) as (r0 & Er0 & R0).
  assert (G : good (map fst (ps_types standard)) l).
  { eapply good_base; [|exact (loaded_good ds l0 l U L V)]. apply Permutation_map, Permutation_sym, standard_types_are. }
  destruct standard_rest as (Q1 & Q2 & Q3 & Q4). destruct (client_schema b l standard r0 G R0) as (r & Er & R). destruct (query_declared ds l0 l U L V) as [q Hq].
  assert (Eq := operations_are ds l0 l U L V). destruct (re_after _ _ _ _ _ R) as [h Hh].
  set (A := mkPS _ _ _ _ _) in *. exists r, h, (complete_schema b A q). split.
  - unfold client_schema_of, build_schema. rewrite El0. cbn [bind]. rewrite Ep. cbn [bind]. rewrite Er0. cbn [bind]. exact Er.
  - split; [exact Hh|]. split.
    + eapply rep_represents; [exact R|]. cbn. rewrite Q1. etransitivity; [|exact Hq]. rewrite <- (Eq OpQuery). reflexivity.
    + unfold same_schema, client_declared, declared_schema, complete_schema. cbn [s_types s_query s_mutation s_subscription s_directives s_introspection A ps_types ps_mutation ps_subscription ps_directives].
      split; [apply Permutation_app; [exact standard_types_are|exact (types_are ds l0 l U L V false)]|]. split; [rewrite Hq; reflexivity|].
      split; [rewrite Q2, <- (Eq OpMutation); reflexivity|]. split; [rewrite Q3, <- (Eq OpSubscription); reflexivity|]. split; [|reflexivity].
      rewrite Q4, (directives_are ds l0 l U L V false). reflexivity.
Qed.

(** * A registry represents one schema *)
Lemma schema_eta (A B : schema) : s_types A = s_types B -> s_query A = s_query B -> s_mutation A = s_mutation B -> s_subscription A = s_subscription B ->
  s_directives A = s_directives B -> s_introspection A = s_introspection B -> A = B.
Proof. destruct A, B. cbn. congruence. Qed.
Section Once.
  Variables (b : bool) (h : list RegistryModel.call) (r : registry) (S : schema).
  Hypotheses (Ha : RegistrySpec.after b h r) (Hr : represents r S).
  Lemma refers_once t a : refers r t a -> forall t', refers r t' a -> t = t'.
  Proof.
    assert (W : forall n a o, lookup_type r n = Ok a -> object_at r a = Some o -> to_kind o = LIST \/ to_kind o = NON_NULL -> False).
    { intros n x o Hl Ho Hk. destruct (IntroProofs.named_type b h r S Ha Hr n x Hl) as (o' & d & H1 & _ & _ & H2). rewrite H1 in Ho. injection Ho as <-. exact (H2 Hk). }
    induction 1 as [n a Hl|e p w o He IH Ho Hk Hof|e p w o He IH Ho Hk Hof]; intros t' H'; inversion H' as [m a' Hl'|e' p' w' o' He' Ho' Hk' Hof'|e' p' w' o' He' Ho' Hk' Hof']; subst;
      try (exfalso; eauto; fail); try (rewrite Ho in Ho'; injection Ho' as <-; congruence).
    - destruct (IntroProofs.named_type b h r S Ha Hr n a Hl) as (o & d & H1 & _ & (N1 & _) & _), (IntroProofs.named_type b h r S Ha Hr m a Hl') as (o' & d' & H1' & _ & (N2 & _) & _).
      rewrite H1 in H1'. injection H1' as <-. congruence.
    - rewrite Ho in Ho'. injection Ho' as <-. rewrite Hof in Hof'. injection Hof' as <-. f_equal. auto.
    - rewrite Ho in Ho'. injection Ho' as <-. rewrite Hof in Hof'. injection Hof' as <-. f_equal. auto.
  Qed.
  Lemma forall2_once {X Y} (P : X -> Y -> Prop) : (forall x y y', P x y -> P x y' -> y = y') -> forall l m m', Forall2 P l m -> Forall2 P l m' -> m = m'.
  Proof. intros H l m m' F. revert m'. induction F as [|x y l m Hxy F IH]; intros m' F'; inversion F'; subst; [reflexivity|]. f_equal; eauto. Qed.
  Lemma input_once x y y' : input_rep r x y -> input_rep r x y' -> y = y'.
  Proof. intros (H1 & H2 & H3 & H4) (K1 & K2 & K3 & K4). destruct y, y'. cbn in *. assert (H := refers_once _ _ H4 _ K4). congruence. Qed.
  Lemma field_once x y y' : field_rep r x y -> field_rep r x y' -> y = y'.
  Proof.
    intros (H1 & H2 & H3 & H4 & H5) (K1 & K2 & K3 & K4 & K5). destruct y, y'. cbn in *. assert (H := refers_once _ _ H4 _ K4). assert (H' := forall2_once _ input_once _ _ _ H5 K5). congruence.
  Qed.
  Lemma directive_once x y y' : directive_rep r x y -> directive_rep r x y' -> y = y'.
  Proof. intros (H1 & H2 & H3 & H4) (K1 & K2 & K3 & K4). destruct y, y'. cbn in *. assert (H' := forall2_once _ input_once _ _ _ H4 K4). congruence. Qed.
  Lemma name_once a n m : refers r (TNamed n) a -> refers r (TNamed m) a -> n = m.
  Proof. intros H K. assert (E := refers_once _ _ H _ K). congruence. Qed.
  Lemma type_once n o y y' : type_rep r n o y -> type_rep r n o y' -> y = y'.
  Proof.
    intros (H1 & H2 & H3 & H4 & H5 & H6 & H7 & H8) (K1 & K2 & K3 & K4 & K5 & K6 & K7 & K8). destruct y, y'. cbn in *.
    assert (E4 := forall2_once _ field_once _ _ _ H4 K4). assert (E5 := forall2_once _ name_once _ _ _ H5 K5). assert (E6 := forall2_once _ name_once _ _ _ H6 K6).
    assert (E8 := forall2_once _ input_once _ _ _ H8 K8). congruence.
  Qed.
  Lemma represents_once S' : represents r S' -> S' = S.
  Proof.
    intros [P1 P2 P3 P4 P5 P6 P7]. pose proof Hr as [T1 T2 T3 T4 T5 T6 T7].
    assert (E1 : s_types S' = s_types S).
    { eapply forall2_once; [|exact P1|exact T1]. intros [n a] [m d] [m' d'] (E & o & Ho & Ht) (E' & o' & Ho' & Ht'). cbn in *. subst m m'. rewrite Ho in Ho'. injection Ho' as <-. f_equal. eapply type_once; eauto. }
    assert (Ro : forall t n n', root_rep r t n -> root_rep r t n' -> n = n').
    { intros [t|] [n|] [n'|] H H'; simpl in *; try contradiction; try reflexivity. f_equal. eapply name_once; eauto. }
    assert (E3 := Ro _ _ _ P3 T3). assert (E4 := Ro _ _ _ P4 T4). assert (E5 := Ro _ _ _ P5 T5). assert (E6 := forall2_once _ directive_once _ _ _ P6 T6). injection E3 as E3.
    apply schema_eta; congruence.
  Qed.
End Once.

(** * The client's schema and the service's *)
Lemma bare_inputs b l : map bare_input (map (declared_input b) l) = map bare_input (map (declared_input false) l).
Proof. rewrite !map_map. reflexivity. Qed.
Lemma bare_fields b l : map bare_field (map (declared_field b) l) = map bare_field (map (declared_field false) l).
Proof. rewrite !map_map. apply map_ext. intros f. unfold bare_field, declared_field. cbn [fd_name fd_type fd_args]. rewrite bare_inputs. reflexivity. Qed.
Lemma bare_values b l : map bare_value (map (declared_value b) l) = map bare_value (map (declared_value false) l).
Proof. rewrite !map_map. reflexivity. Qed.
Definition bare_entry (e : string * type_def) : string * type_def := (fst e, bare_type (snd e)).
Lemma bare_types b ds : map bare_entry (declared_types b ds) = map bare_entry (declared_types false ds).
Proof.
  unfold declared_types. assert (H : forall l, map bare_entry (flat_map (declared_type b ds) l) = map bare_entry (flat_map (declared_type false ds) l)); [|apply H].
  induction l as [|d l IH]; [reflexivity|]. cbn [flat_map]. rewrite !map_app, IH. f_equal. destruct d; try reflexivity; cbn [declared_type map]; unfold bare_entry, bare_type;
    cbn [fst snd td_kind td_fields td_interfaces td_possible td_enums td_inputs map]; rewrite ?(bare_fields b), ?(bare_inputs b), ?(bare_values b); reflexivity.
Qed.
Lemma bare_directives b ds : map bare_directive (declared_directives b ds) = map bare_directive (declared_directives false ds).
Proof.
  unfold declared_directives. induction ds as [|d l IH]; [reflexivity|]. cbn [flat_map]. rewrite !map_app, IH. f_equal. destruct d; try reflexivity. cbn [map]. unfold bare_directive.
  cbn [dd_name dd_locs dd_args]. rewrite (bare_inputs b). reflexivity.
Qed.
Lemma find_bare n l : option_map bare_type (assoc n l) = assoc n (map bare_entry l).
Proof. induction l as [|[k d] l IH]; [reflexivity|]. cbn [assoc map bare_entry fst snd]. destruct (String.eqb n k); [reflexivity|exact IH]. Qed.
Lemma alike_sym S S' : alike S S' -> alike S' S.
Proof. intros []. constructor; intros; symmetry; auto. Qed.
Lemma alike_trans S S' S'' : alike S S' -> alike S' S'' -> alike S S''.
Proof. intros [] []. constructor; intros; etransitivity; eauto. Qed.
Lemma same_alike S S' : same_schema S S' -> NoDup (map fst (s_types S')) -> alike S S'.
Proof.
  intros (P & H1 & H2 & H3 & H4 & H5) Hn. constructor; auto; [|congruence]. intros n. unfold find_type. f_equal. apply assoc_permutation; [exact P|].
  eapply Permutation_NoDup; [apply Permutation_map, Permutation_sym; exact P|exact Hn].
Qed.
Lemma declared_alike b ds : alike (declared_schema b ds) (client_declared b ds).
Proof.
  constructor; try reflexivity.
  - intros n. unfold find_type. rewrite !find_bare. unfold declared_schema, client_declared. cbn [s_types declared_schema]. rewrite !map_app, (bare_types b). reflexivity.
  - unfold declared_schema, client_declared. cbn [s_directives declared_schema]. rewrite !map_app, (bare_directives b). reflexivity.
Qed.
Lemma names_of_schema b ds : usual ds -> NoDup (map fst (s_types (declared_schema b ds))).
Proof.
  intros U. assert (H := us_names ds U). unfold declared_schema. cbn [s_types].
  replace (map fst (standard_types ++ declared_types b ds)) with (map fst standard_types ++ declared_names ds); [exact H|].
  rewrite map_app. f_equal. unfold declared_names. assert (E := f_equal (map fst) (bare_types b ds)). rewrite !map_map in E. symmetry. exact E.
Qed.

(** Every usual schema document gives clientgen a schema, and it is the one of the generated service but for the descriptions that
    --no-introspection removes from the service. *)
Theorem C53_same_schema_partial : forall noIntrospection separateFiles ds l r r' S S', load false ds = Ok l -> usual ds ->
  schema_of noIntrospection separateFiles ds = Ok r -> represents r S -> client_schema_of noIntrospection ds = Ok r' -> represents r' S' ->
  alike S S' /\ (noIntrospection = false -> same_schema S S').
Proof.
  intros b sep ds l r r' S S' El U Er Rr Er' Rr'.
  destruct (C46_generated_schema_partial b sep ds l El U) as (r1 & h1 & S1 & E1 & A1 & P1 & Q1). rewrite E1 in Er. injection Er as ->. rewrite (represents_once b h1 r S1 A1 P1 S Rr) in *. clear E1 Rr.
  destruct (C53_client_schema_partial b ds l El U) as (r2 & h2 & S2 & E2 & A2 & P2 & Q2). rewrite E2 in Er'. injection Er' as ->. rewrite (represents_once b h2 r' S2 A2 P2 S' Rr') in *.
  split.
  - apply (alike_trans _ (declared_schema b ds)); [apply same_alike; [exact Q1|apply names_of_schema; exact U]|].
    apply (alike_trans _ (client_declared b ds)); [apply declared_alike|]. apply alike_sym, same_alike; [exact Q2|]. exact (names_of_schema false ds U).
  - intros ->. destruct Q1 as (H1 & H2 & H3 & H4 & H5 & H6), Q2 as (K1 & K2 & K3 & K4 & K5 & K6). unfold client_declared in *. cbn [s_types s_query s_mutation s_subscription s_directives s_introspection] in *.
    repeat split; try congruence; try (etransitivity; [eassumption|symmetry; eassumption]).
Qed.
(** For every document the errors of clientgen are those that the service would report. *)
Theorem C53_same_errors_partial : forall noIntrospection separateFiles ds l r r' S S', load false ds = Ok l -> usual ds ->
  schema_of noIntrospection separateFiles ds = Ok r -> represents r S -> client_schema_of noIntrospection ds = Ok r' -> represents r' S' ->
  forall doc, validate_request S' doc = fst (validate S doc initial).
Proof.
  intros b sep ds l r r' S S' El U Er Rr Er' Rr' doc. destruct (C53_same_schema_partial b sep ds l r r' S S' El U Er Rr Er' Rr') as [AL _]. unfold validate_request. rewrite (validate_alike S S' AL). reflexivity.
Qed.
(** The code that clientgen generates marks the document as validated (ClientGenerator.cpp:711), so that the service does not look at it: it has no
    errors there either, whatever the service was asked before. *)
Theorem C53_marked_validated_partial : forall noIntrospection separateFiles ds l r r' S S', load false ds = Ok l -> usual ds ->
  schema_of noIntrospection separateFiles ds = Ok r -> represents r S -> client_schema_of noIntrospection ds = Ok r' -> represents r' S' ->
  forall doc, validate_request S' doc = [] ->
  accepted S doc /\ forall history, Forall (supported S) history ->
    let st := after S history initial in
    fst (fst (request_validate S (mkAst doc true) st)) = fst (fst (request_validate S (mkAst doc false) st))
    /\ snd (fst (request_validate S (mkAst doc true) st)) = snd (fst (request_validate S (mkAst doc false) st)).
Proof.
  intros b sep ds l r r' S S' El U Er Rr Er' Rr' doc H. assert (E := C53_same_errors_partial b sep ds l r r' S S' El U Er Rr Er' Rr' doc). rewrite H in E. split; [symmetry; exact E|].
  intros history Hs. cbv zeta. assert (Eh := C22_history_independent_partial S history doc Hs). rewrite <- E in Eh. unfold request_validate. cbn [ast_validated ast_doc].
  destruct (validate S doc (after S history initial)) as [es st']. cbn [fst] in Eh. subst es. split; reflexivity.
Qed.

(** The same for every document that the generator can use ([good]: the names of the types, and those of the C++ variables made from them, are distinct and
    not those of the standard types, and every type that is named exists): it need not be usual, and the schema need not be the declared one. *)
Lemma bare_in b l : map bare_input (map (in_def b) l) = map bare_input (map (in_def false) l).
Proof. rewrite !map_map. reflexivity. Qed.
Lemma bare_out b l : map bare_field (map (out_def b) l) = map bare_field (map (out_def false) l).
Proof. rewrite !map_map. apply map_ext. intros f. unfold bare_field, out_def. cbn [fd_name fd_type fd_args]. rewrite (bare_in b). reflexivity. Qed.
Lemma bare_loaded b l : map bare_entry (loaded_types b l) = map bare_entry (loaded_types false l).
Proof.
  unfold loaded_types. rewrite !map_app, !map_map.
  assert (H1 : forall t, bare_entry (enum_entry b t) = bare_entry (enum_entry false t)).
  { intros t. unfold bare_entry, bare_type, enum_entry. cbn [fst snd td_kind td_fields td_interfaces td_possible td_enums td_inputs]. rewrite !map_map. reflexivity. }
  assert (H2 : forall t, bare_entry (input_entry b t) = bare_entry (input_entry false t)).
  { intros t. unfold bare_entry, bare_type, input_entry. cbn [fst snd td_kind td_fields td_interfaces td_possible td_enums td_inputs]. rewrite (bare_in b). reflexivity. }
  assert (H3 : forall t, bare_entry (interface_entry b l t) = bare_entry (interface_entry false l t)).
  { intros t. unfold bare_entry, bare_type, interface_entry. cbn [fst snd td_kind td_fields td_interfaces td_possible td_enums td_inputs]. rewrite (bare_out b). reflexivity. }
  assert (H4 : forall t, bare_entry (object_entry b t) = bare_entry (object_entry false t)).
  { intros t. unfold bare_entry, bare_type, object_entry. cbn [fst snd td_kind td_fields td_interfaces td_possible td_enums td_inputs]. rewrite (bare_out b). reflexivity. }
  rewrite (map_ext _ _ H1), (map_ext _ _ H2), (map_ext _ _ H3), (map_ext _ _ H4). reflexivity.
Qed.
Theorem C53_same_errors_good_partial : forall noIntrospection separateFiles ds l, load false ds = Ok l -> good (map fst standard_types) l ->
  (exists o, In o (l_operations l) /\ ot_operation o = OpQuery) ->
  exists r r' S S', schema_of noIntrospection separateFiles ds = Ok r /\ represents r S /\ client_schema_of noIntrospection ds = Ok r' /\ represents r' S'
    /\ alike S S' /\ forall doc, validate_request S' doc = fst (validate S doc initial).
Proof.
  intros b sep ds l El G (o & Ho & Eo). destruct standard_runs as (p & E0 & Ep & Es). destruct (add_types_ok b p (new_schema b) no_types standard E0 (rep_new b) Es) as (r0 & Er0 & R0). clear Es.
  assert (G' : good (map fst (ps_types standard)) l) by (eapply good_base; [|exact G]; apply Permutation_map, Permutation_sym, standard_types_are). clear G. rename G' into G.
  destruct (generated_schema b sep standard l G) as (E & Ea). destruct (add_types_ok b (generate b sep false l) r0 standard _ E R0 Ea) as (r & Er & R).
  destruct (client_schema b l standard r0 G R0) as (r' & Er' & R'). destruct standard_rest as (Q1 & _).
  assert (Hq : exists q, last_operation is_q None (l_operations l) = Some q).
  { clear -Ho Eo. unfold last_operation. assert (H : forall ops (x : option string), In o ops \/ x <> None -> exists q, fold_left (fun o x => if is_q (ot_operation x) then Some (ot_type x) else o) ops x = Some q).
    { induction ops as [|y ops IH]; intros x Hx; cbn [fold_left]; [destruct Hx as [[]|Hx]; destruct x as [q|]; [eauto|congruence]|]. apply IH. destruct Hx as [[<-|Hx]|Hx]; [|auto|].
      - right. rewrite Eo. discriminate.
      - right. destruct (is_q (ot_operation y)); [discriminate|exact Hx]. }
    apply H. auto. }
  destruct Hq as [q Hq]. rewrite <- Q1 in Hq.
  assert (Rr := rep_represents _ _ _ _ _ q R Hq). assert (Rr' := rep_represents _ _ _ _ _ q R' Hq).
  assert (AL : alike (complete_schema b (mkPS (ps_types standard ++ loaded_types b l) (last_operation is_q (ps_query standard) (l_operations l)) (last_operation is_m (ps_mutation standard) (l_operations l))
            (last_operation is_s (ps_subscription standard) (l_operations l)) (ps_directives standard ++ map (dir_def b) (l_directives l))) q)
          (complete_schema b (mkPS (ps_types standard ++ loaded_types false l) (last_operation is_q (ps_query standard) (l_operations l)) (last_operation is_m (ps_mutation standard) (l_operations l))
            (last_operation is_s (ps_subscription standard) (l_operations l)) (ps_directives standard ++ map (dir_def false) (l_directives l))) q)).
  { constructor; try reflexivity.
    - intros n. unfold find_type. rewrite !find_bare. unfold complete_schema. cbn [s_types ps_types]. rewrite !map_app, (bare_loaded b). reflexivity.
    - unfold complete_schema. cbn [s_directives ps_directives]. rewrite !map_app, !map_map. f_equal. apply map_ext. intros d. unfold bare_directive, dir_def. cbn [dd_name dd_locs dd_args].
      rewrite (bare_in b). reflexivity. }
  eexists r, r', _, _. split; [|split; [exact Rr|split; [|split; [exact Rr'|split; [exact AL|]]]]].
  - unfold schema_of. rewrite El. cbn [bind]. unfold get_schema. rewrite Ep. cbn [bind]. rewrite Er0. exact Er.
  - unfold client_schema_of, build_schema. rewrite El. cbn [bind]. rewrite Ep. cbn [bind]. rewrite Er0. cbn [bind]. exact Er'.
  - intros doc. unfold validate_request. rewrite (validate_alike _ _ AL). reflexivity.
Qed.

(** * Concrete documents *)
(** A query for the schema document of C46 with an argument, fragments on an interface and a union, and introspection; and one with errors. *)
Definition doc53 : document :=
  [op_ 1 (Some "query") None [var_ 1 "f" (TNonNull (TNamed "Filter")) None]
     [obj_fld 2 "__schema" [obj_fld 2 "queryType" [fld 2 "name"]]; fld 3 "id";
      SField (at_ 4) None "find" [arg 4 "filter" (LVar (at_ 4) "f")] [] (Some (at_ 4, [on_ 5 "Node" [fld 5 "id"]; spread 6 "Back"]))];
   frag_ 7 "Back" "Other" [obj_fld 8 "back" [fld 8 "on"]]].
Definition bad53 : document :=
  [op_ 1 (Some "query") None [] [SField (at_ 4) None "find" [arg 4 "limit" (LString (at_ 4) "x")] [] (Some (at_ 4, [fld 5 "id"]))]].
Lemma by_declared b ds S : usual ds -> same_schema S (client_declared b ds) -> forall doc, validate_request S doc = validate_request (client_declared b ds) doc.
Proof. intros U Hs doc. unfold validate_request. rewrite (validate_alike S (client_declared b ds)); [reflexivity|]. apply same_alike; [exact Hs|exact (names_of_schema false ds U)]. Qed.
Example C53_met : exists l r r' S S', load false ex46 = Ok l /\ usual ex46 /\ schema_of false true ex46 = Ok r /\ represents r S /\ client_schema_of false ex46 = Ok r' /\ represents r' S'
  /\ validate_request S' doc53 = [] /\ length (validate_request S' bad53) = 5.
Proof.
  destruct C46_met as (U & [l El] & _). destruct (C46_generated_schema_partial false true ex46 l El U) as (r & h & S & E1 & _ & R1 & _).
  destruct (C53_client_schema_partial false ex46 l El U) as (r' & h' & S' & E2 & _ & R2 & Q2). exists l, r, r', S, S'. rewrite !(by_declared false ex46 S' U Q2).
  split; [exact El|]. split; [exact U|]. split; [exact E1|]. split; [exact R1|]. split; [exact E2|]. split; [exact R2|]. split; vm_compute; reflexivity.
Qed.

(** * Full statement not met *)
(** clientgen without --no-introspection for a service that was generated with it: an operation that asks for the schema is accepted, marked as
    validated, and executed, although the service would have rejected it. *)
Theorem C53_introspection_refuted : exists r r' S S', schema_of true true ex46 = Ok r /\ represents r S /\ client_schema_of false ex46 = Ok r' /\ represents r' S'
  /\ validate_request S' doc53 = [] /\ fst (validate S doc53 initial) <> [] /\ fst (fst (request_validate S (mkAst doc53 true) initial)) = [].
Proof.
  destruct C46_met as (U & [l El] & _). destruct (C46_generated_schema_partial true true ex46 l El U) as (r & h & S & E1 & _ & R1 & Q1).
  destruct (C53_client_schema_partial false ex46 l El U) as (r' & h' & S' & E2 & _ & R2 & Q2). exists r, r', S, S'.
  split; [exact E1|]. split; [exact R1|]. split; [exact E2|]. split; [exact R2|]. split; [rewrite (by_declared false ex46 S' U Q2); vm_compute; reflexivity|]. split; [|reflexivity].
  rewrite (validate_alike S (declared_schema true ex46)) by (apply same_alike; [exact Q1|exact (names_of_schema true ex46 U)]).
  intros H. assert (Hb : match fst (validate (declared_schema true ex46) doc53 initial) with [] => true | _ => false end = false) by (vm_compute; reflexivity). rewrite H in Hb. discriminate.
Qed.
(** A type that is only named where the loader does not look: GetSchema of the service throws, which its caller can handle; clientgen looks the type up
    in a noexcept function and is terminated. *)
Theorem C53_unchecked_refuted :
  let ds := [DefObject "Query" "" [] [mkSdlField "a" "" [input_ "x" (TNamed "Missing")] (TNamed "Int") []]] in
  let ds' := [query_; DefDirective "d" "" [FIELD] [input_ "x" (TNamed "Missing")]] in
  (is_ok (load false ds) = true /\ schema_of false false ds = Throw (missing "Missing") /\ client_schema_of false ds = UB)
  /\ (is_ok (load false ds') = true /\ schema_of false false ds' = Throw (missing "Missing") /\ client_schema_of false ds' = UB).
Proof. repeat split; vm_compute; reflexivity. Qed.
(** A document that is not usual, because an extension comes before the definition. *)
Definition ex53 : list sdl_def := [query_; ExtEnum "E" [plain_value "B"]; DefEnum "E" "" [plain_value "A"]].
Example C53_met_good : exists l, load false ex53 = Ok l /\ good (map fst standard_types) l /\ (exists o, In o (l_operations l) /\ ot_operation o = OpQuery) /\ ~ usual ex53.
Proof.
  eexists. split; [vm_compute; reflexivity|]. split; [|split].
  - constructor.
    + apply distinct_nodup. vm_compute. reflexivity.
    + apply distinct_nodup. vm_compute. reflexivity.
    + intros t [].
    + intros t [<-|[]]. apply distinct_nodup. reflexivity.
    + intros t f [].
    + intros t n [].
    + intros t f [].
    + intros t f [<-|[]] [<-|[]]. split; [|intros a []]. apply in_or_app. left. apply in_map_iff. exists ("Int", mkTypeDef SCALAR "Built-in type" [] [] [] [] []). split; [reflexivity|].
      unfold standard_types, builtin_scalars. apply in_or_app. left. simpl. auto 8.
    + intros t n [<-|[]] [].
    + intros d f [].
    + intros o [<-|[]]. eexists. split; [left; reflexivity|]. split; reflexivity.
  - eexists. split; [left; reflexivity|reflexivity].
  - intros U. assert (H := us_extensions _ U [query_] (ExtEnum "E" [plain_value "B"]) [DefEnum "E" "" [plain_value "A"]] ENUM "E" eq_refl eq_refl). cbn in H. destruct H as (d & [<-|[]] & H). discriminate.
Qed.
