(** Schema documents from text: C38 (the trees are well formed) and C51 (what is accepted, as what, and what is made of it). *)
From Coq Require Import String Ascii NArith ZArith Bool List Lia.
From Verif Require Import Cpp Value Ast SchemaModel IntroSpec LoaderModel LoaderSpec GenSpec GenModel GenProps GenSamples AcceptSpec AcceptProps RegistrySpec ParseProps.
From Verif Require Export SdlComplete SdlTexts.
Import ListNotations.
Local Open Scope list_scope.

(** ** C38. Every tree of a schema document has the children that SchemaLoader reads: [children.front()] and
    [children.back()] exist, and the nodes read as types and values are such. *)
Theorem C38_schema_readable L atof unescape_j text ns : parse_schema_string text = Ok ns ->
  exists ds, read_schema L atof unescape_j ns = Some ds.
Proof. intro H. destruct (parse_schema_sound L atof unescape_j text ns H) as (ds & _ & E). eauto. Qed.

(** ** C51. A text is parsed as a schema document exactly if it spells it. Partial: the language of SdlSpec.v is not quite
    that of the GraphQL specification (C51_..._refuted below). *)
Section Text.
Variable L : nat -> schema_location.
Variable atof : string -> spec_float.
Variable unescape_j : string -> string.
Notation schema_document := (schema_document L atof unescape_j).
Notation read_schema := (read_schema L atof unescape_j).

(** Without operations and fragments among the type system definitions, the two are the same. *)
Theorem C51_parsed_iff_spelled_partial text ds : ~ In DefExecutable ds ->
  (schema_document ds text <-> exists ns, parse_schema_string text = Ok ns /\ read_schema ns = Some ds).
Proof.
  intro N. split.
  - intro H. exact (parse_schema_complete L atof unescape_j ds text H N).
  - intros (ns & H & E). destruct (parse_schema_sound L atof unescape_j text ns H) as (ds' & H' & E'). rewrite E in E'. injection E' as <-. exact H'.
Qed.
(** With them: what is read is spelled. *)
Theorem C51_read_is_spelled text ns : parse_schema_string text = Ok ns ->
  exists ds, read_schema ns = Some ds /\ schema_document ds text.
Proof. intro H. destruct (parse_schema_sound L atof unescape_j text ns H) as (ds & H' & E). eauto. Qed.
Theorem C51_rejected text : (forall ds, ~ schema_document ds text) -> exists message, parse_schema_string text = Throw (parse_error message).
Proof.
  intro H. destruct (C38_parse_schema_total text) as [(ns & E)|E]; [|exact E].
  destruct (C51_read_is_spelled text ns E) as (ds & _ & X). exfalso. exact (H ds X).
Qed.
Theorem C51_unambiguous text ds ds' : ~ In DefExecutable ds -> ~ In DefExecutable ds' -> schema_document ds text -> schema_document ds' text -> ds = ds'.
Proof.
  intros N N' H H'. apply C51_parsed_iff_spelled_partial in H as (ns & E & R); [|exact N]. apply C51_parsed_iff_spelled_partial in H' as (ns' & E' & R'); [|exact N'].
  rewrite E in E'. injection E' as <-. rewrite R in R'. injection R' as ->. reflexivity.
Qed.

(** ** What SchemaLoader makes of a text *)
(** SchemaLoader.cpp:37-172. [None] is a child that is not there. *)
Definition schema_loader (introspection : bool) (t : text) : result loader :=
  ns <- parse_schema_string t ;;
  match read_schema ns with Some ds => load introspection ds | None => UB end.

Theorem C51_loads introspection text ds : schema_document ds text -> ~ In DefExecutable ds ->
  schema_loader introspection text = load introspection ds.
Proof.
  intros H N. destruct (parse_schema_complete L atof unescape_j ds text H N) as (ns & E & R). unfold schema_loader. rewrite E. cbn [bind]. rewrite R. reflexivity.
Qed.

(** Where it ends, for any text: with the types, with an exception, or at an integer that does not fit (C47). *)
Theorem C51_ends introspection text :
  match schema_loader introspection text with
  | Ok _ => exists ds, schema_document ds text
  | Throw e => (exists message, e = parse_error message /\ parse_schema_string text = Throw e)
      \/ (exists ds what, schema_document ds text /\ e = Exn runtime_error what /\ load introspection ds = Throw e)
  | UB => exists ds d i v t, schema_document ds text /\ In d ds /\ In i (inputs_in d) /\ si_default i = Some (v, t) /\ ~ ints_fit v
  end.
Proof.
  unfold schema_loader. destruct (C38_parse_schema_total text) as [(ns & E)|(m & E)]; rewrite E; cbn [bind]; [|left; exists m; auto].
  destruct (parse_schema_sound L atof unescape_j text ns E) as (ds & Hd & R). rewrite R. pose proof (C47_errors introspection ds) as X.
  destruct (load introspection ds) as [l|e|] eqn:El; [eauto|right; destruct X as (what & X); exists ds, what; auto|]. destruct X as (d & i & v & t & X). exists ds, d, i, v, t. auto.
Qed.

(** The parts of [orderly] and [usual] that every text has: no !! in a type, no default without a text. *)
Lemma type_ref_grammatical ty t : type_ref ty t -> grammatical ty.
Proof. induction 1 as [n Hn|w1 ty x w2 _ _ IH _|ty x w _ IH N _]; cbn; [exact I|exact IH|]. destruct ty; [exact I|exact IH|exfalso; eapply N; reflexivity]. Qed.
Definition fine_input (i : sdl_input) : Prop := grammatical (si_type i) /\ forall v t, si_default i = Some (v, t) -> t <> ""%string.
Lemma input_fine o i t : input_value L atof unescape_j o i t -> fine_input i.
Proof.
  intros [o' desc td n w1 w2 ty t' d tdef dirs tdirs _ _ _ _ Hty Hdef _]. split; [eapply type_ref_grammatical; exact Hty|]. cbn [si_default].
  intros v u ->. inversion Hdef as [|o2 w3 w4 v' t2 H3 H4 Hv]; subst. destruct (value_starts L atof _ _ _ Hv) as (c & r & -> & _). discriminate.
Qed.
Lemma items_all {A} (P : nat -> A -> text -> Prop) (Q : A -> Prop) sep : (forall o x t, P o x t -> Q x) -> forall o xs t, items sep P o xs t -> Forall Q xs.
Proof. intros HQ o xs t. induction 1; constructor; eauto. Qed.
Lemma bracketed_all {A} (P : nat -> A -> text -> Prop) (Q : A -> Prop) a b : (forall o x t, P o x t -> Q x) -> forall o xs t, bracketed a b P o xs t -> Forall Q xs.
Proof. intros HQ o xs t H. inversion H; subst. eapply items_all; eassumption. Qed.
Lemma optional_all {A} (P : nat -> list A -> text -> Prop) (Q : A -> Prop) : (forall o xs t, P o xs t -> Forall Q xs) -> forall o xs t, optional P o xs t -> Forall Q xs.
Proof. intros HQ o xs t [|o' w xs' t' _ H]; [constructor|eapply HQ; exact H]. Qed.
Definition fine_field (f : sdl_field) : Prop := grammatical (sf_type f) /\ Forall fine_input (sf_args f).
Lemma field_fine o f t : field L atof unescape_j o f t -> fine_field f.
Proof.
  intros [o' desc td n args ta w1 w2 ty t' dirs tdirs _ _ Ha _ _ Hty _]. split; [eapply type_ref_grammatical; exact Hty|]. cbn [sf_args].
  eapply optional_all; [|exact Ha]. intros p xs u. apply bracketed_all. exact input_fine.
Qed.
Lemma body_all {A} (P : nat -> list A -> text -> Prop) (Q : A -> Prop) : (forall o xs t, P o xs t -> Forall Q xs) -> forall o xs t, body L atof P o xs t -> Forall Q xs.
Proof. intros HQ o xs t [o' dirs td ys u _ H]. eapply optional_all; eassumption. Qed.
Lemma defines_fine o d t : defines L atof unescape_j o d t -> Forall fine_field (fields_in d) /\ Forall fine_input (inputs_in d).
Proof.
  assert (forall fs, Forall fine_field fs -> Forall fine_input (flat_map sf_args fs)) as X.
  { intros fs H. induction H as [|f fs [_ H] _ IH]; [constructor|]. cbn. apply Forall_app. auto. }
  assert (forall o xs t, body L atof (fields L atof unescape_j) o xs t -> Forall fine_field xs) as F by (apply body_all; apply bracketed_all; exact field_fine).
  assert (forall o xs t, body L atof (input_fields L atof unescape_j) o xs t -> Forall fine_input xs) as I by (apply body_all; apply bracketed_all; exact input_fine).
  destruct 1; cbn [fields_in inputs_in flat_map]; split; try constructor; try (eapply F; eassumption); try (eapply I; eassumption); try (apply X; eapply F; eassumption).
  eapply optional_all; [|eassumption]. intros p xs u. apply bracketed_all. exact input_fine.
Qed.
Lemma spelled_fine ds text d : schema_document ds text -> In d ds -> Forall fine_field (fields_in d) /\ Forall fine_input (inputs_in d).
Proof.
  intros [bom w ds' t e _ _ H _] Hd. revert Hd. induction H as [o d' t' Hx|o d' t' w' ds' t2 Hx _ _ _ IH]; cbn [In]; intros [<-|Hd]; try contradiction; eauto using defines_fine.
Qed.

(** Definitions and extensions in the order that C47 asks for. *)
Definition in_order (ds : list sdl_def) : Prop := forall before d after k n, ds = before ++ d :: after -> extension_of d = Some (k, n) ->
  exists d', In d' before /\ definition_of d' = Some (k, n).
(** From the text on: schemagen loads it exactly if it is acceptable. *)
Theorem C51_accepted_text text ds : schema_document ds text -> ~ In DefExecutable ds -> NoDup (declared_names ds) -> in_order ds ->
  ((exists l, schema_loader false text = Ok l) <-> acceptable ds).
Proof.
  intros H N Nd Ord. rewrite (C51_loads false text ds H N). apply C47_accepts_partial. constructor; [exact Nd|exact Ord|..].
  - intros d f Hd Hf. destruct (spelled_fine ds text d H Hd) as [X _]. rewrite Forall_forall in X. exact (proj1 (X f Hf)).
  - intros d i Hd Hi. destruct (spelled_fine ds text d H Hd) as [_ X]. rewrite Forall_forall in X. exact (proj1 (X i Hi)).
  - intros d i v t Hd Hi. destruct (spelled_fine ds text d H Hd) as [_ X]. rewrite Forall_forall in X. exact (proj2 (X i Hi) v t).
Qed.
(** And what the generated code then shows is what the text declares (C46). *)
Theorem C51_generated_schema noIntrospection separateFiles text ds l : schema_document ds text -> ~ In DefExecutable ds ->
  schema_loader false text = Ok l -> usual ds ->
  exists r h S, schema_of noIntrospection separateFiles ds = Ok r /\ RegistrySpec.after noIntrospection h r /\ represents r S /\ same_schema S (declared_schema noIntrospection ds).
Proof. intros H N E. rewrite (C51_loads false text ds H N) in E. exact (C46_generated_schema_partial noIntrospection separateFiles ds l E). Qed.
End Text.

(** ** The schema documents of the repository *)
(** SchemaLoader's own text, and the two samples: what they spell is what GenModel.v and GenSamples.v say, so that the theorems there
    (C46, C47) are about these texts. The locations and the functions that are not modelled play no role. *)
Definition nowhere : nat -> schema_location := fun _ => mkLoc 0 1.
Definition whole (atof : string -> spec_float) (unescape_j : string -> string) (t : text) : option (list sdl_def) :=
  match parse_schema_string t with Ok ns => read_schema nowhere atof unescape_j ns | _ => None end.
Lemma whole_spelled atof unescape_j t ds : whole atof unescape_j t = Some ds -> forallb (fun d => match d with DefExecutable => false | _ => true end) ds = true ->
  schema_document nowhere atof unescape_j ds t /\ ~ In DefExecutable ds.
Proof.
  unfold whole. destruct (parse_schema_string t) as [ns| |] eqn:E; try discriminate. intros R N.
  assert (~ In DefExecutable ds) as N' by (intro X; rewrite forallb_forall in N; discriminate (N _ X)).
  split; [|exact N']. apply C51_parsed_iff_spelled_partial; [exact N'|]. eauto.
Qed.
Theorem C51_repository atof unescape_j :
  schema_document nowhere atof unescape_j introspection_sdl introspection_text
  /\ schema_document nowhere atof unescape_j today_sdl today_text
  /\ schema_document nowhere atof unescape_j validation_sdl validation_text
  /\ ~ In DefExecutable (introspection_sdl ++ today_sdl ++ validation_sdl).
Proof.
  assert (whole atof unescape_j introspection_text = Some introspection_sdl) as H1 by (vm_compute; reflexivity).
  assert (whole atof unescape_j today_text = Some today_sdl) as H2 by (vm_compute; reflexivity).
  assert (whole atof unescape_j validation_text = Some validation_sdl) as H3 by (vm_compute; reflexivity).
  apply whole_spelled in H1 as [H1 N1]; [|vm_compute; reflexivity]. apply whole_spelled in H2 as [H2 N2]; [|vm_compute; reflexivity].
  apply whole_spelled in H3 as [H3 N3]; [|vm_compute; reflexivity]. split; [exact H1|]. split; [exact H2|]. split; [exact H3|].
  intro X. apply in_app_or in X as [X|X]; [exact (N1 X)|]. apply in_app_or in X as [X|X]; [exact (N2 X)|exact (N3 X)].
Qed.

(** A text with most of the constructs, and where the directives in it are. *)
Definition sample_text : text := chars "schema @s{query:Q subscription:S}
""the root"" type Q implements & N & M @a(b:[1]){ ""doc"" f(x: [I!]! = [{c: R}] @d, y:Int):[String!] @deprecated(reason:""old"")
  id:ID! }
extend type Q{g:U}interface N{id:ID!}union U=|Q|S
enum E{R @deprecated G}input I{c:E=R}scalar D @specifiedBy(url:""u"")
directive @a(b:[Int]) on |OBJECT|SCALAR # the end".
Definition sample_definitions (L : nat -> schema_location) : list sdl_def :=
  [DefSchema [(OpQuery, "Q"); (OpSubscription, "S")];
   DefObject "Q" "the root" ["N"; "M"]
     [mkSdlField "f" "doc"
        [mkSdlInput "x" "" (TNonNull (TListOf (TNonNull (TNamed "I")))) (Some (LList (L 101) [LObject (L 102) [(L 103, ("c", LEnum (L 106) "R"))]], "[{c: R}]"));
         mkSdlInput "y" "" (TNamed "Int") None]
        (TListOf (TNonNull (TNamed "String"))) [mkDir (L 131) "deprecated" [(L 143, ("reason", LString (L 150) "old"))]];
      mkSdlField "id" "" [] (TNonNull (TNamed "ID")) []];
   ExtObject "Q" [] [mkSdlField "g" "" [] (TNamed "U") []];
   DefInterface "N" "" [mkSdlField "id" "" [] (TNonNull (TNamed "ID")) []];
   DefUnion "U" "" ["Q"; "S"];
   DefEnum "E" "" [mkSdlEnum "R" "" [mkDir (L 227) "deprecated" []]; mkSdlEnum "G" "" []];
   DefInput "I" "" [mkSdlInput "c" "" (TNamed "E") (Some (LEnum (L 253) "R", "R"))];
   DefScalar "D" "";
   DefDirective "a" "" [OBJECT_LOC; SCALAR_LOC] [mkSdlInput "b" "" (TListOf (TNamed "Int")) None]]%string.
Theorem C51_sample L atof unescape_j : schema_document L atof unescape_j (sample_definitions L) sample_text.
Proof.
  apply C51_parsed_iff_spelled_partial.
  - intro H. cbn in H. repeat (destruct H as [H|H]; [discriminate|]). contradiction.
  - assert (match parse_schema_string sample_text with Ok ns => read_schema L atof unescape_j ns | _ => None end = Some (sample_definitions L)) as H by (vm_compute; reflexivity).
    destruct (parse_schema_string sample_text) as [ns| |]; [eauto|discriminate..].
Qed.

(** Where this language is not that of the specification. *)
Definition read_text (t : string) : option (list sdl_def) := whole (fun _ => S754_zero false) (fun s => s) (chars t).
Definition refused (t : string) : Prop := read_text t = None.
Definition taken (t : string) : Prop := read_text t <> None.
(** Nothing between two fields, between the arguments of a directive and [on], between [on] and a bar, or between a sigil and a name with
    something ignorable between. *)
Theorem C51_adjacent_refuted :
  refused "type A{a:[Int]b:Int}" /\ taken "type A{a:[Int] b:Int}"
  /\ refused "directive @a(x:Int)on FIELD" /\ taken "directive @a(x:Int) on FIELD"
  /\ refused "directive @a on|FIELD" /\ taken "directive @a on |FIELD"
  /\ refused "directive @ a on FIELD" /\ taken "directive @a on FIELD".
Proof. vm_compute. repeat split; discriminate. Qed.
(** An extension of the schema with directives, a blank and operations: the operations become an anonymous query. *)
Theorem C51_schema_extension_refuted :
  read_text "extend schema @a {query:Q}" = Some [ExtSchema []; DefExecutable]
  /\ read_text "extend schema @a{query:Q}" = Some [ExtSchema [(OpQuery, "Q"%string)]].
Proof. vm_compute. auto. Qed.
(** [true] is no enum value in GraphQL. *)
Theorem C51_enum_value_refuted : read_text "enum E{true null}" = Some [DefEnum "E" "" [mkSdlEnum "true" "" []; mkSdlEnum "null" "" []]].
Proof. vm_compute. reflexivity. Qed.
(** Of a description only what precedes the first escape arrives, or the first escape. *)
Theorem C51_description_refuted :
  read_text """a\tb"" scalar S" = Some [DefScalar "S" "a"] /\ read_text """""""a\""""""b"""""" scalar S" = Some [DefScalar "S" "a"]
  /\ read_text """\""a\"""" scalar S" = Some [DefScalar "S" """"].
Proof. vm_compute. auto. Qed.
