(** C46: the schema that the generated code builds at run time is the schema that the document declares. *)
From Coq Require Import Permutation.
From Verif Require Import Cpp Value Ast ModifiersModel SortedMapModel SchemaModel RegistryModel RegistrySpec RegistryProofs RegistryProps
  ExecModel ExecSpec ExecSem ExecBigSpec ExecBigProps IntroModel IntroSpec IntroProps
  LoaderModel LoaderSpec LoaderProofs GenModel LoaderProps GenSpec GenRun GenEval GenLoad GenDecl GenMain.
Local Open Scope string_scope.
Local Open Scope list_scope.

(** * The types of introspection *)
Definition standard_run : option (pschema * list (string * string)) :=
  match introspection_program with Ok p => a_stmts (p_enums p) no_types [] (p_body p) | _ => None end.
Definition standard : pschema := match standard_run with Some (A, _) => A | None => no_types end.
Lemma standard_runs : exists p E, introspection_program = Ok p /\ a_stmts (p_enums p) no_types [] (p_body p) = Some (standard, E).
Proof.
  unfold standard, standard_run. destruct introspection_program as [p|e|] eqn:Ep; [|vm_compute in Ep; discriminate|vm_compute in Ep; discriminate].
  exists p. destruct (a_stmts (p_enums p) no_types [] (p_body p)) as [[A E]|] eqn:Ea; [eauto|]. exfalso.
  assert (H : match introspection_program with Ok p => a_stmts (p_enums p) no_types [] (p_body p) | _ => None end <> None) by (vm_compute; discriminate).
  rewrite Ep in H. contradiction.
Qed.
Lemma standard_types_are : Permutation (ps_types standard) standard_types.
Proof.
  replace (ps_types standard) with (builtin_scalars ++
    (flat_map (part false introspection_sdl SCALAR) introspection_sdl ++ flat_map (part false introspection_sdl ENUM) introspection_sdl
     ++ flat_map (part false introspection_sdl INPUT_OBJECT) introspection_sdl ++ flat_map (part false introspection_sdl UNION) introspection_sdl
     ++ flat_map (part false introspection_sdl INTERFACE) introspection_sdl ++ flat_map (part false introspection_sdl OBJECT) introspection_sdl)) by (vm_compute; reflexivity).
  apply Permutation_app_head, Permutation_sym, declared_parts.
Qed.
Lemma standard_rest : ps_query standard = None /\ ps_mutation standard = None /\ ps_subscription standard = None
  /\ ps_directives standard = declared_directives false introspection_sdl.
Proof. repeat split; vm_compute; reflexivity. Qed.

Global Opaque standard.
Lemma good_base base base' l : Permutation base base' -> good base l -> good base' l.
Proof.
  intros P [G1 G2 G3 G4 G5 G6 G7 G8 G9 G10 G11]. assert (Hp : Permutation (base ++ loaded_names l) (base' ++ loaded_names l)) by (apply Permutation_app_tail; exact P).
  assert (Hin : forall n, In n (base ++ loaded_names l) -> In n (base' ++ loaded_names l)) by (intros n; apply Permutation_in; exact Hp).
  constructor; eauto using Permutation_NoDup.
  - intros t f Ht Hf. destruct (G7 t f Ht Hf). split; auto.
  - intros t f Ht Hf. destruct (G8 t f Ht Hf). split; auto.
Qed.

(** * The main theorem *)
Theorem C46_generated_schema_partial : forall noIntrospection separateFiles ds l, load false ds = Ok l -> usual ds ->
  exists r h S, schema_of noIntrospection separateFiles ds = Ok r /\ after noIntrospection h r /\ represents r S
    /\ same_schema S (declared_schema noIntrospection ds).
Proof.
  intros b sep ds l El U. unfold load in El. destruct (visit_definitions no_definitions ds) as [l0|e|] eqn:Ev; cbn [bind] in El; try discriminate.
  assert (Hn : NoDup (flat_map name_of ds)).
  { assert (H := us_names ds U). apply nodup_app_r in H. unfold declared_names in H. rewrite names_are in H. exact H. }
  assert (L : loaded_as ds l0) by (apply (visit_all ds Hn (us_extensions ds U) ds [] l0); [rewrite app_nil_r; reflexivity|exact Ev]).
  assert (V := validate_parts l0 l El).
  destruct standard_runs as (p & E0 & Ep & Es). destruct (add_types_ok b p (new_schema b) no_types standard E0 (rep_new b) Es) as (r0 & Er0 & R0).
  assert (G : good (map fst (ps_types standard)) l).
  { eapply good_base; [|exact (loaded_good ds l0 l U L V)]. apply Permutation_map, Permutation_sym, standard_types_are. }
  destruct (generated_schema b sep standard l G) as (E & Ea). destruct standard_rest as (Q1 & Q2 & Q3 & Q4).
  destruct (add_types_ok b (generate b sep false l) r0 standard _ E R0 Ea) as (r & Er & R). destruct (query_declared ds l0 l U L V) as [q Hq].
  assert (Eq := operations_are ds l0 l U L V).
  destruct (re_after _ _ _ _ _ R) as [h Hh].
  set (A := mkPS _ _ _ _ _) in *. exists r, h, (complete_schema b A q). split.
  - unfold schema_of, load. rewrite Ev. cbn [bind]. rewrite El. cbn [bind]. unfold get_schema. rewrite Ep. cbn [bind]. rewrite Er0. cbn [bind]. exact Er.
  - split; [exact Hh|]. split.
    + eapply rep_represents; [exact R|]. cbn. rewrite Q1. etransitivity; [|exact Hq]. rewrite <- (Eq OpQuery). reflexivity.
    + unfold same_schema, declared_schema, complete_schema. cbn [s_types s_query s_mutation s_subscription s_directives s_introspection A ps_types ps_mutation ps_subscription ps_directives].
      split; [apply Permutation_app; [exact standard_types_are|exact (types_are ds l0 l U L V b)]|]. split; [rewrite Hq; reflexivity|].
      split; [rewrite Q2, <- (Eq OpMutation); reflexivity|]. split; [rewrite Q3, <- (Eq OpSubscription); reflexivity|]. split; [|reflexivity].
      rewrite Q4, (directives_are ds l0 l U L V b). reflexivity.
Qed.

(** What can be asked of a schema does not depend on the order. *)
Lemma assoc_permutation {X} n (l l' : list (string * X)) : Permutation l l' -> NoDup (map fst l) -> assoc n l = assoc n l'.
Proof.
  induction 1 as [|[m x] l l' P IH|[m x] [k y] l|l l' l'' P1 IH1 P2 IH2]; intros Hn; [reflexivity| | |].
  - simpl in *. inversion Hn; subst. rewrite IH by assumption. reflexivity.
  - simpl in *. inversion Hn as [|? ? Hi _]; subst. destruct (String.eqb_spec n m) as [Em|]; destruct (String.eqb_spec n k) as [Ek|]; try reflexivity. exfalso. apply Hi. left. congruence.
  - rewrite IH1 by exact Hn. apply IH2. eapply Permutation_NoDup; [apply Permutation_map; exact P1|exact Hn].
Qed.
Theorem C46_same_types : forall S S' n, same_schema S S' -> NoDup (map fst (s_types S)) -> find_type S n = find_type S' n.
Proof. intros S S' n (P & _) Hn. exact (assoc_permutation n _ _ P Hn). Qed.
(** What a client sees: the answer to the standard introspection query is the declared schema. *)
Theorem C46_introspection_partial : forall separateFiles ds l, load false ds = Ok l -> usual ds ->
  exists r S, schema_of false separateFiles ds = Ok r /\ same_schema S (declared_schema false ds)
    /\ forall O (typenames : O -> list string) has_field ans root inj vars e loc n, hosts r inj typenames has_field ans root -> copyable vars -> e_vars e = VMap vars ->
       forall x, results typenames has_field ans e root [] [object_sel loc "__schema" (schema_sel loc n)] x <-> x = Ok (mkRR (VMap [("__schema", schema_json n S)]) []).
Proof.
  intros sep ds l El U. destruct (C46_generated_schema_partial false sep ds l El U) as (r & h & S & Er & Hh & Hr & Hs). exists r, S. split; [exact Er|]. split; [exact Hs|].
  intros O typenames has_field ans root inj vars e loc n Ho Hc Hv. apply (C31_standard_query O typenames has_field ans root r inj false h S vars e loc n Ho Hh Hr); auto.
  destruct Hs as (_ & _ & _ & _ & _ & ->). reflexivity.
Qed.

(** * Concrete documents *)
Definition run_from (A0 : pschema) (b sep : bool) (l : loader) : option pschema :=
  option_map fst (a_stmts (p_enums (generate b sep false l)) A0 [] (p_body (generate b sep false l))).
Lemma run_from_ok A0 r0 b sep l A : rep b r0 [] A0 [] -> run_from A0 b sep l = Some A -> exists r, add_types (generate b sep false l) r0 = Ok r /\ rep b r [] A [].
Proof.
  unfold run_from. intros R0 H. destruct (a_stmts _ A0 [] _) as [[A' E]|] eqn:Ea; [|discriminate]. injection H as ->. exact (add_types_ok b _ r0 A0 A E R0 Ea).
Qed.
Definition generated_run (b sep : bool) (ds : list sdl_def) : option pschema := match load false ds with Ok l => run_from standard b sep l | _ => None end.
Lemma by_generated_run b sep ds A q : generated_run b sep ds = Some A -> ps_query A = Some q ->
  exists r h, schema_of b sep ds = Ok r /\ after b h r /\ represents r (complete_schema b A q).
Proof.
  unfold generated_run. intros H Hq. destruct (load false ds) as [l|e|] eqn:El; try discriminate.
  destruct standard_runs as (p & E0 & Ep & Es). destruct (add_types_ok b p (new_schema b) no_types standard E0 (rep_new b) Es) as (r0 & Er0 & R0). clear Es.
  destruct (run_from_ok standard r0 b sep l A R0 H) as (r & Er & R). destruct (re_after _ _ _ _ _ R) as [h Hh]. exists r, h.
  split; [|split; [exact Hh|exact (rep_represents b r [] A [] q R Hq)]]. unfold schema_of. rewrite El. cbn [bind]. unfold get_schema. rewrite Ep. cbn [bind]. rewrite Er0. exact Er.
Qed.
Definition L0 : schema_location := mkLoc 1 1.
Definition input_ (n : string) (t : tref) : sdl_input := mkSdlInput n "" t None.
Definition reason_ (s : string) : directive := mkDir L0 "deprecated" [(L0, ("reason", LString L0 s))].
(** A document with everything: an extension, an interface, a union, arguments, defaults, a cycle between objects, a deprecation. *)
Definition ex46 : list sdl_def :=
  [DefScalar "Date" "a day"; DefEnum "Color" "" [mkSdlEnum "RED" "" []; mkSdlEnum "GREEN" "grass" [reason_ "faded"]];
   DefObject "Query" "the root" ["Node"]
     [mkSdlField "id" "" [] (TNonNull (TNamed "ID")) []; mkSdlField "find" "" [input_ "filter" (TNonNull (TNamed "Filter")); mkSdlInput "limit" "" (TNamed "Int") (Some (LInt L0 10, "10"))] (TListOf (TNonNull (TNamed "Hit"))) [reason_ "use search"];
      mkSdlField "on" "" [] (TNamed "Date") []];
   DefUnion "Hit" "" ["Query"; "Other"];
   DefInterface "Node" "" [mkSdlField "id" "" [] (TNonNull (TNamed "ID")) []];
   DefInput "Filter" "" [input_ "color" (TListOf (TNamed "Color")); input_ "inner" (TNonNull (TNamed "Inner"))];
   DefInput "Inner" "" [input_ "day" (TNamed "Date")];
   DefObject "Other" "" [] [mkSdlField "back" "" [] (TNamed "Query") []];
   ExtObject "Other" ["Node"] [mkSdlField "id" "" [] (TNonNull (TNamed "ID")) []];
   DefDirective "tag" "" [FIELD] [input_ "name" (TNamed "String")];
   DefSchema [(OpQuery, "Query"); (OpMutation, "Other")]].
Fixpoint distinct (l : list string) : bool := match l with [] => true | x :: r => negb (existsb (String.eqb x) r) && distinct r end.
Lemma distinct_nodup l : distinct l = true -> NoDup l.
Proof.
  induction l as [|x l IH]; simpl; intros H; constructor; apply andb_prop in H as [H1 H2]; [|auto]. intros Hi. rewrite negb_true_iff in H1.
  assert (existsb (String.eqb x) l = true) by (apply existsb_exists; exists x; split; [exact Hi|apply String.eqb_refl]). congruence.
Qed.
Lemma distinct_iff l : distinct l = true <-> NoDup l.
Proof.
  split; [apply distinct_nodup|]. induction 1 as [|x l Hx _ IH]; [reflexivity|]. simpl. rewrite IH, andb_true_r, negb_true_iff. destruct (existsb (String.eqb x) l) eqn:E; [|reflexivity].
  apply existsb_exists in E as (y & Hy & Ey). apply String.eqb_eq in Ey as ->. contradiction.
Qed.
(** A check of [usual], for concrete documents. *)
Fixpoint grammatical_b (t : tref) : bool :=
  match t with TNamed _ => true | TListOf e => grammatical_b e | TNonNull (TNonNull _) => false | TNonNull e => grammatical_b e end.
Lemma grammatical_b_ok t : grammatical_b t = true -> grammatical t.
Proof. induction t as [n|t IH|t IH]; simpl; auto. destruct t; auto; discriminate. Qed.
Definition usual_deprecation_b (ds : list directive) : bool :=
  forallb (fun d => if String.eqb (d_name d) "deprecated" then match d_args d with [(_, ("reason", LString _ _))] => true | _ => false end else true) ds
  && Nat.leb (length (filter (named_directive "deprecated") ds)) 1.
Lemma usual_deprecation_b_ok ds : usual_deprecation_b ds = true -> usual_deprecation ds.
Proof.
  unfold usual_deprecation_b. rewrite andb_true_iff, forallb_forall, Nat.leb_le. intros [H1 H2]. split; [|exact H2]. intros d Hd En. specialize (H1 d Hd). rewrite En, String.eqb_refl in H1.
  destruct (d_args d) as [|[l [n v]] r]; [discriminate|]. destruct (String.eqb_spec n "reason") as [->|Hn].
  - destruct v; try discriminate. destruct r; [|discriminate]. eauto.
  - exfalso. revert H1. clear -Hn.
    repeat match goal with |- context[match ?x with _ => _ end] => destruct x end; try discriminate; intros _; apply Hn; reflexivity.
Qed.
Definition same_definition (k : type_kind) (n : string) (d : sdl_def) : bool :=
  match definition_of d with Some (k', n') => kind_eqb k k' && String.eqb n n' | None => false end.
Fixpoint extensions_b (before ds : list sdl_def) : bool :=
  match ds with
  | [] => true
  | d :: r => match extension_of d with Some (k, n) => existsb (same_definition k n) before | None => true end && extensions_b (before ++ [d]) r
  end.
Lemma extensions_b_ok ds : forall before, extensions_b before ds = true -> forall b d after k n, ds = b ++ d :: after -> extension_of d = Some (k, n) ->
  exists d', In d' (before ++ b) /\ definition_of d' = Some (k, n).
Proof.
  induction ds as [|x ds IH]; intros before H b d after k n E Ex; [destruct b; discriminate|]. simpl in H. apply andb_prop in H as [H1 H2]. destruct b as [|y b].
  - injection E as -> ->. rewrite Ex in H1. apply existsb_exists in H1 as (d' & Hd & Hs). exists d'. rewrite app_nil_r. split; [exact Hd|]. unfold same_definition in Hs.
    destruct (definition_of d') as [[k' n']|]; [|discriminate]. apply andb_prop in Hs as [Hk Hn]. apply kind_eqb_eq in Hk as ->. apply String.eqb_eq in Hn as ->. reflexivity.
  - injection E as -> ->. destruct (IH (before ++ [y]) H2 b d after k n eq_refl Ex) as (d' & Hd & Hs). exists d'. rewrite <- app_assoc in Hd. auto.
Qed.
Definition type_names (ds : list sdl_def) : list string := flat_map (fun d => match definition_of d, extension_of d with Some (_, n), _ | None, Some (_, n) => [n] | _, _ => [] end) ds.
Definition usual_b (ds : list sdl_def) : bool :=
  distinct (map fst standard_types ++ declared_names ds)
  && distinct (map (fun e => default_name (fst e)) (schema_operations ds))
  && forallb (fun o => distinct (interfaces_of ds o)) (type_names ds)
  && forallb (fun d => forallb (fun i => existsb (String.eqb (base_name (si_type i))) (map fst standard_types ++ declared_names ds)) (unchecked d)) ds
  && forallb (fun d => forallb (fun f => grammatical_b (sf_type f) && usual_deprecation_b (sf_dirs f)) (fields_in d)) ds
  && forallb (fun d => forallb (fun i => grammatical_b (si_type i)) (inputs_in d)) ds
  && extensions_b [] ds
  && forallb (fun d => forallb (fun v => usual_deprecation_b (se_dirs v)) (values_in d)) ds
  && distinct (flat_map variable_of ds)
  && forallb (fun n => distinct (map (fun v => safe_cpp_name (se_name v)) (values_of ds n))) (type_names ds).
Lemma absent_members {A} (f : sdl_def -> list (string * list A)) ds n : (forall d m x, In (m, x) (f d) -> In m (type_names [d])) -> ~ In n (type_names ds) ->
  flat_map (fun d => flat_map (of_type n) (f d)) ds = [].
Proof.
  intros H Hn. unfold type_names in *. induction ds as [|d ds IH]; [reflexivity|]. cbn [flat_map] in *. rewrite in_app_iff in Hn. rewrite IH by tauto. rewrite app_nil_r.
  specialize (H d). rewrite app_nil_r in H. destruct (f d) as [|e l] eqn:Ef; [reflexivity|]. rewrite <- Ef in *. assert (Hx : forall e, In e (f d) -> of_type n e = []).
  { intros [m x] Hm. unfold of_type. simpl. destruct (String.eqb_spec n m) as [->|]; [|reflexivity]. exfalso. apply Hn. left. exact (H _ _ Hm). }
  clear -Hx. induction (f d) as [|e l IH]; [reflexivity|]. simpl. rewrite Hx by (left; reflexivity). apply IH. intros x Hi. apply Hx. right. exact Hi.
Qed.
Lemma interfaces_absent ds n : ~ In n (type_names ds) -> interfaces_of ds n = [].
Proof.
  intros H. rewrite <- (absent_members (fun d => match d with DefObject m _ is _ | ExtObject m is _ => [(m, is)] | _ => [] end) ds n) by (try exact H; intros []; simpl; try tauto; intros m x [E|[]]; injection E as -> ->; auto).
  unfold interfaces_of. apply flat_map_ext. intros []; simpl; rewrite ?app_nil_r; reflexivity.
Qed.
Lemma values_absent ds n : ~ In n (type_names ds) -> values_of ds n = [].
Proof.
  intros H. rewrite <- (absent_members (fun d => match d with DefEnum m _ is | ExtEnum m is => [(m, is)] | _ => [] end) ds n) by (try exact H; intros []; simpl; try tauto; intros m x [E|[]]; injection E as -> ->; auto).
  unfold values_of. apply flat_map_ext. intros []; simpl; rewrite ?app_nil_r; reflexivity.
Qed.
Lemma forallb2 {X Y} (f : X -> list Y) p l : forallb (fun x => forallb p (f x)) l = true -> forall x y, In x l -> In y (f x) -> p y = true.
Proof. intros H x y Hx Hy. rewrite forallb_forall in H. specialize (H x Hx). rewrite forallb_forall in H. exact (H y Hy). Qed.
Lemma usual_b_ok ds : usual_b ds = true -> usual ds.
Proof.
  unfold usual_b. rewrite !andb_true_iff. intros (((((((((H1 & H2) & H3) & H4) & H5) & H6) & H7) & H8) & H9) & H10).
  assert (H5' := forallb2 _ _ _ H5). cbn beta in H5'. rewrite forallb_forall in H3, H10. constructor.
  - apply distinct_nodup, H1.
  - apply distinct_nodup in H2. rewrite <- map_map in H2. exact (NoDup_map_inv _ _ H2).
  - intros o. destruct (in_dec string_dec o (type_names ds)) as [Hi|Hi]; [exact (distinct_nodup _ (H3 o Hi))|rewrite interfaces_absent by exact Hi; constructor].
  - intros d i Hd Hi. assert (H := forallb2 _ _ _ H4 d i Hd Hi). apply existsb_exists in H as (n & Hn & E). apply String.eqb_eq in E as ->. exact Hn.
  - intros d f Hd Hf. assert (H := H5' d f Hd Hf). apply andb_prop in H as [H _]. apply grammatical_b_ok, H.
  - intros d i Hd Hi. exact (grammatical_b_ok _ (forallb2 _ _ _ H6 d i Hd Hi)).
  - intros b d a k n E Ex. exact (extensions_b_ok ds [] H7 b d a k n E Ex).
  - intros d f Hd Hf. assert (H := H5' d f Hd Hf). apply andb_prop in H as [_ H]. apply usual_deprecation_b_ok, H.
  - intros d v Hd Hv. exact (usual_deprecation_b_ok _ (forallb2 _ _ _ H8 d v Hd Hv)).
  - exact (distinct_nodup _ H9).
  - intros n. destruct (in_dec string_dec n (type_names ds)) as [Hi|Hi]; [exact (distinct_nodup _ (H10 n Hi))|rewrite values_absent by exact Hi; constructor].
Qed.
Example C46_met : usual ex46 /\ (exists l, load false ex46 = Ok l)
  /\ find_type (declared_schema false ex46) "Node" = Some (mkTypeDef INTERFACE "" [mkFieldDef "id" "" None (TNonNull (TNamed "ID")) []] [] ["Query"; "Other"] [] [])
  /\ find_type (declared_schema false ex46) "Color" = Some (mkTypeDef ENUM "" [] [] [] [mkEnumValue "RED" "" None; mkEnumValue "GREEN" "grass" (Some "faded")] [])
  /\ s_mutation (declared_schema false ex46) = Some "Other" /\ length (s_types (declared_schema false ex46)) = 21.
Proof.
  split; [apply usual_b_ok; vm_compute; reflexivity|]. split; [|repeat split; vm_compute; reflexivity].
  destruct (load false ex46) as [l|e|] eqn:E; [eauto|vm_compute in E; discriminate|vm_compute in E; discriminate].
Qed.

(** * Full statement not met *)
Definition query_ : sdl_def := DefObject "Query" "" [] [plain_field "a" (TNamed "Int")].
Definition shows (ds : list sdl_def) (n : string) (d d' : type_def) : Prop :=
  (exists r h S, schema_of false false ds = Ok r /\ after false h r /\ represents r S /\ find_type S n = Some d) /\ find_type (declared_schema false ds) n = Some d' /\ d <> d'.
Lemma by_shows ds n d d' A q : generated_run false false ds = Some A -> ps_query A = Some q -> assoc n (ps_types A) = Some d ->
  find_type (declared_schema false ds) n = Some d' -> d <> d' -> shows ds n d d'.
Proof.
  intros H Hq Hd Hd' Hne. split; [|auto]. destruct (by_generated_run _ _ _ _ _ H Hq) as (r & h & Er & Hh & Hr). exists r, h, (complete_schema false A q). auto.
Qed.
Ltac show := match goal with |- shows ?ds _ _ _ =>
  let x := eval vm_compute in (generated_run false false ds) in
  match x with Some ?A => match A with mkPS _ (Some ?q) _ _ _ => apply (by_shows ds _ _ _ A q); [vm_compute; reflexivity|reflexivity|vm_compute; reflexivity|vm_compute; reflexivity|discriminate] end end end.
Definition enum_of (vs : list string) : type_def := mkTypeDef ENUM "" [] [] [] (map (fun v => mkEnumValue v "" None) vs) [].
(** An extension before the definition is dropped. *)
Theorem C46_extension_first_refuted :
  shows [query_; ExtEnum "E" [plain_value "B"]; DefEnum "E" "" [plain_value "A"]] "E" (enum_of ["A"]) (enum_of ["B"; "A"]).
Proof. show. Qed.
(** @deprecated without a reason: no deprecation of an enum value, an empty reason for a field. *)
Theorem C46_deprecation_refuted : let bare := mkDir L0 "deprecated" [] in
  shows [query_; DefEnum "E" "" [mkSdlEnum "A" "" [bare]]] "E" (enum_of ["A"]) (mkTypeDef ENUM "" [] [] [] [mkEnumValue "A" "" (Some "No longer supported")] [])
  /\ shows [DefObject "Query" "" [] [mkSdlField "a" "" [] (TNamed "Int") [bare]]] "Query"
       (mkTypeDef OBJECT "" [mkFieldDef "a" "" (Some "") (TNamed "Int") []] [] [] [] []) (mkTypeDef OBJECT "" [mkFieldDef "a" "" (Some "No longer supported") (TNamed "Int") []] [] [] [] []).
Proof. split; show. Qed.
(** The types of the arguments of a field with a built-in type, and those of a directive, are not looked at: the generated GetSchema throws. *)
Definition missing (n : string) : exn := SchemaEx [mkErr ("Type not found name: " ++ n) (mkLoc 0 1) []].
Theorem C46_unchecked_refuted :
  let ds := [DefObject "Query" "" [] [mkSdlField "a" "" [input_ "x" (TNamed "Missing")] (TNamed "Int") []]] in
  let ds' := [query_; DefDirective "d" "" [FIELD] [input_ "x" (TNamed "Missing")]] in
  (is_ok (load false ds) = true /\ schema_of false false ds = Throw (missing "Missing")) /\ (is_ok (load false ds') = true /\ schema_of false false ds' = Throw (missing "Missing")).
Proof. repeat split; vm_compute; reflexivity. Qed.
(** Types whose names become one C++ name: the generated code declares a variable twice. *)
Theorem C46_variables_refuted : exists l body1 body2 body3,
  load false [query_; DefObject "_A" "" [] [plain_field "a" (TNamed "Int")]; DefObject "A" "" [] [plain_field "a" (TNamed "Int")]] = Ok l
  /\ p_body (generate false false false l) = body1 ++ SMake OBJECT "typeA" "_A" "" :: body2 ++ SMake OBJECT "typeA" "A" "" :: body3.
Proof.
  eexists. exists [SMake OBJECT "typeQuery" "Query" ""; SAddType "Query" "typeQuery"], [SAddType "_A" "typeA"]. eexists. split; [vm_compute; reflexivity|]. vm_compute. reflexivity.
Qed.
(** An extension of a scalar is taken for an executable definition. *)
Theorem C46_extend_scalar_refuted : load false [query_; DefScalar "S" ""; ExtScalar "S"] = Throw (Exn runtime_error "Unexpected executable definition").
Proof. reflexivity. Qed.
(** An extension of a type that is not there is dropped, too; GraphQL asks for an error. *)
Theorem C46_extension_unknown_refuted : load false [query_; ExtEnum "E" [plain_value "B"]] = load false [query_].
Proof. reflexivity. Qed.
