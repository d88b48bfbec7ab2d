(** C61: the default values in the code that schemagen writes. *)
From Coq Require Import ZArith NArith Arith Ascii String List Bool Lia SpecFloat.
From Verif Require Import Cpp ParseSpec SortedMapModel Value Ast ResponseModel ResponseSpec ResponseProofs LoaderModel GenServiceModel RequestTextModel RequestTextProofs RequestTextProps DefaultCodeModel DefaultCodeProofs DefaultCodeRun.
Import ListNotations.
Local Open Scope string_scope.
Local Open Scope list_scope.

Lemma given_code variable fs : filter has_default fs <> [] -> defaults_code variable fs =
  line 0 1 (chars "const auto " ++ chars variable ++ chars " = []()") ++ line 0 1 (chars "{") ++ line 0 2 (chars "response::Value values(response::Type::Map);")
  ++ line 0 2 (chars "response::Value entry;") ++ [feed]
  ++ flat_map (fun f => default_code 0 (in_default f) ++ line 0 2 (chars "values.emplace_back(""" ++ chars (in_name f) ++ chars """, std::move(entry));")) (filter has_default fs)
  ++ [feed] ++ line 0 2 (chars "return values;") ++ line 0 1 (chars "}();") ++ [feed].
Proof. intros N. unfold defaults_code. destruct (filter has_default fs); [congruence|reflexivity]. Qed.

Definition value_tokens (fs : list in_field) : list token := flat_map (fun f => default_tokens (in_default f) ++ named (code_ "values.emplace_back(") (in_name f)) fs.
Lemma defaults_tokens variable fs : In variable ["defaultArguments"; "defaultValue"] ->
  (forall f, In f fs -> has_default f = true -> writable (in_default f) /\ forallb plain_char (chars (in_name f)) = true) -> filter has_default fs <> [] ->
  lex Between (defaults_code variable fs) = Some ((code_ "const auto" ++ [Word (chars variable)] ++ code_ "= []() { response::Value values(response::Type::Map); response::Value entry;") ++
    value_tokens (filter has_default fs) ++ code_ "return values; }();").
Proof.
  intros V W N. apply gives_all. rewrite (given_code variable fs N).
  assert (Q : forall f, In f (filter has_default fs) -> writable (in_default f) /\ forallb plain_char (chars (in_name f)) = true) by (intros f I; apply filter_In in I as [I H]; auto).
  generalize dependent (filter has_default fs). intros given N Q.
  replace (code_ "const auto" ++ [Word (chars variable)] ++ code_ "= []() { response::Value values(response::Type::Map); response::Value entry;") with
    ((code_ "const auto" ++ [Word (chars variable)] ++ code_ "= []()") ++ code_ "{" ++ code_ "response::Value values(response::Type::Map);" ++ code_ "response::Value entry;" ++ []) by reflexivity.
  change (code_ "return values; }();") with ([] ++ code_ "return values;" ++ code_ "}();" ++ []).
  assert (V1 : gives (chars "const auto " ++ chars variable ++ chars " = []()") (code_ "const auto" ++ [Word (chars variable)] ++ code_ "= []()")).
  { destruct V as [<-|[<-|[]]]; closed. }
  generalize dependent (code_ "const auto" ++ [Word (chars variable)] ++ code_ "= []()"). intros first_line V1. rewrite <- !app_assoc.
  apply gives_app; [now apply gives_line|].
  repeat (apply gives_app; [first [apply gives_line; closed|apply gives_feed]|]). apply gives_app; [|repeat (apply gives_app; [first [apply gives_line; closed|apply gives_feed]|]); apply gives_feed].
  apply gives_flat. intros f I. destruct (Q f I) as [Wf Pf]. apply gives_app; [now apply default_gives|]. apply gives_line. exact (gives_named "values.emplace_back(" _ Pf eq_refl).
Qed.

(** The compiler reads the code as the definition of the variable, and when it has run the variable is a map of the arguments with a default value, in the order of the
    schema, each with its value (its doubles as the compiler reads what operator<< wrote). *)
Theorem C61_defaults_partial : forall variable fs, In variable ["defaultArguments"; "defaultValue"] ->
  (forall f, In f fs -> has_default f = true -> writable (in_default f) /\ forallb plain_char (chars (in_name f)) = true) -> NoDup (map in_name fs) ->
  (exists f, In f fs /\ has_default f = true) ->
  exists c, run_defaults variable (defaults_code variable fs) = Some c /\
    abs c = VMap (map (fun f => (in_name f, in_source written_double (in_default f))) (filter has_default fs)).
Proof.
  intros variable fs V W ND (f0 & I0 & H0).
  assert (N : filter has_default fs <> []) by (intros E; apply (in_nil (a := f0)); rewrite <- E; now apply filter_In).
  unfold run_defaults. rewrite (defaults_tokens variable fs V W N), after_app.
  assert (Q : forall f, In f (filter has_default fs) -> writable (in_default f)) by (intros f I; apply filter_In in I as [I H]; apply W; auto).
  assert (ND' : NoDup (map in_name (filter has_default fs))).
  { clear -ND. induction fs as [|f fs IH]; [constructor|]. simpl in ND. inversion ND as [|? ? Ni ND1]; subst. simpl. destruct (has_default f); [|auto]. simpl. constructor; auto.
    intros I. apply Ni. apply in_map_iff in I as (g & E & I). rewrite <- E. apply in_map. apply filter_In in I. apply I. }
  generalize dependent (filter has_default fs). intros given N Q ND'. unfold value_tokens.
  destruct (exec_members (fun f => default_tokens (in_default f)) (fun f => in_source written_double (in_default f)) in_name "values" (code_ "values.emplace_back(")) with
    (es := given) (map := @nil (string * cvalue)) (ms := @nil nat) (e := CNull) as (map' & ms' & e' & Am & Wm & Ex).
  { intros n r. rewrite <- (string_back n) at 2. unfold named. rewrite <- !app_assoc. generalize (chars n). intros k. vm_compute. reflexivity. }
  { vm_compute. lia. }
  { intros f I. exact (exec_default _ (Q f I)). }
  { apply (built_wf (cnew TMap)). constructor. }
  { exact ND'. }
  set (body := flat_map _ given) in *.
  rewrite (exec_mono (List.length body + 1) _ _ _ (mkFrame "values" (CMap map' ms') e', code_ "return values; }();")); [|rewrite app_length; lia|].
  2: { apply Ex. apply statement_none. vm_compute. reflexivity. }
  replace (after (code_ "return values; }();") (code_ "return values; }();")) with (Some (@nil token)) by (vm_compute; reflexivity). cbn [f_container]. exists (CMap map' ms'). split; [reflexivity|]. cbn [abs]. rewrite Am. reflexivity.
Qed.
(** So every argument finds in it what the model of the generated code in C41 and C57 takes as its default value, and an argument without default finds nothing. *)
Theorem C61_arguments_partial : forall variable fs, In variable ["defaultArguments"; "defaultValue"] ->
  (forall f, In f fs -> has_default f = true -> writable (in_default f) /\ forallb plain_char (chars (in_name f)) = true) -> NoDup (map in_name fs) ->
  (exists f, In f fs /\ has_default f = true) ->
  exists c es, run_defaults variable (defaults_code variable fs) = Some c /\ abs c = VMap es /\ NoDup (map fst es) /\
    forall f, In f fs -> match default_of written_double f with Some v => In (in_name f, v) es | None => ~ In (in_name f) (map fst es) end.
Proof.
  intros variable fs V W ND H. destruct (C61_defaults_partial variable fs V W ND H) as (c & R & A). exists c. eexists. split; [exact R|]. split; [exact A|]. rewrite map_map. cbn [fst].
  clear -ND. split.
  - induction fs as [|f fs IH]; [constructor|]. simpl in ND. inversion ND as [|? ? Ni ND1]; subst. simpl. destruct (has_default f); [|auto]. simpl. constructor; auto.
    intros I. apply Ni. apply in_map_iff in I as (g & E & I). rewrite <- E. apply in_map. apply filter_In in I. apply I.
  - intros f I. assert (D : default_of written_double f = if has_default f then Some (in_source written_double (in_default f)) else None) by (unfold default_of, has_default; destruct (in_default f); reflexivity).
    rewrite D. destruct (has_default f) eqn:E.
    + apply in_map_iff. exists f. split; [reflexivity|]. now apply filter_In.
    + intros J. apply in_map_iff in J as (g & En & J). apply filter_In in J as [J Eg]. assert (g = f); [|congruence].
      clear -ND I J En. induction fs as [|h fs IH]; [destruct I|]. simpl in ND. inversion ND as [|? ? Ni ND1]; subst.
      destruct I as [->|I], J as [->|J]; auto; [exfalso; apply Ni; rewrite <- En; now apply in_map|exfalso; apply Ni; rewrite En; now apply in_map].
Qed.

(** What the loader makes of the default values in the schema document is of this kind, if no string and no enum value holds the end of the raw string literal, the floats
    are finite, and the names of the members of objects are names. *)
Inductive safe : lit -> Prop :=
| sf_var loc n : safe (LVar loc n)
| sf_int loc z : safe (LInt loc z)
| sf_float loc f : is_finite f = true -> safe (LFloat loc f)
| sf_string loc s : ~ occurs closing (chars s) -> safe (LString loc s)
| sf_bool loc b : safe (LBool loc b)
| sf_null loc : safe (LNull loc)
| sf_enum loc s : ~ occurs closing (chars s) -> safe (LEnum loc s)
| sf_list loc items : (forall x, In x items -> safe x) -> safe (LList loc items)
| sf_object loc fields : (forall x, In x fields -> safe (snd (snd x)) /\ forallb plain_char (chars (fst (snd x))) = true) -> safe (LObject loc fields).

Lemma has_key_not n (es : list (string * value)) : has_key n es = false -> ~ In n (map fst es).
Proof.
  unfold has_key. induction es as [|[k v] es IH]; cbn [lookup map fst]; [intros _ []|]. intros H [->|I].
  - rewrite String.eqb_refl in H. discriminate H.
  - destruct (String.eqb n k); [discriminate H|]. exact (IH H I).
Qed.
Lemma NoDup_app_one {A} (l : list A) x : NoDup l -> ~ In x l -> NoDup (l ++ [x]).
Proof.
  intros H N. induction H as [|y l Ny H IH]; [repeat constructor; auto|]. cbn. constructor.
  - intros I. apply in_app_or in I as [I|[<-|[]]]; [auto|]. apply N. now left.
  - apply IH. intros I. apply N. now right.
Qed.
Definition visit_items : list lit -> list value -> result value :=
  fix go items vs := match items with [] => Ok (VList vs) | x :: r => v <- visit_default x ;; go r (vs ++ [v]) end.
Definition visit_members : list (schema_location * (string * lit)) -> list (string * value) -> result value :=
  fix go fields es := match fields with [] => Ok (VMap es) | x :: r => v <- visit_default (snd (snd x)) ;; go r (fst (map_emplace es (fst (snd x)) v)) end.
Lemma visit_default_list a items : visit_default (LList a items) = visit_items items []. Proof. reflexivity. Qed.
Lemma visit_default_object a fields : visit_default (LObject a fields) = visit_members fields []. Proof. reflexivity. Qed.
Theorem C61_literals : forall l v, safe l -> visit_default l = Ok v -> writable v.
Proof.
  induction l as [a n|a z|a f|a s|a b|a|a s|a items H|a fields H] using lit_ind'; intros v Sf Hv; inversion Sf; subst; try rewrite visit_default_list in Hv; try rewrite visit_default_object in Hv; cbn [visit_default] in Hv.
  - injection Hv as <-. constructor.
  - destruct (in_int_range z) eqn:E; [|discriminate Hv]. injection Hv as <-. now constructor.
  - injection Hv as <-. now constructor.
  - injection Hv as <-. now constructor.
  - injection Hv as <-. constructor.
  - injection Hv as <-. constructor.
  - injection Hv as <-. now constructor.
  - rename H1 into Q. clear Sf. assert (W : forall x, In x (@nil value) -> writable x) by (intros ? []). generalize dependent (@nil value).
    induction items as [|x items IH]; intros vs Hv W.
    + injection Hv as <-. now constructor.
    + inversion H as [|? ? Hx H']; subst. cbn [visit_items] in Hv.
      destruct (visit_default x) as [y|e|] eqn:E; cbn [bind] in Hv; try discriminate Hv.
      apply (IH H' (fun x0 I => Q x0 (or_intror I)) _ Hv). intros z I. apply in_app_or in I as [I|[<-|[]]]; [auto|]. apply (Hx y); [apply Q; now left|reflexivity].
  - rename H1 into Q. clear Sf. assert (W : (forall n x, In (n, x) (@nil (string * value)) -> writable x /\ forallb plain_char (chars n) = true) /\ NoDup (map fst (@nil (string * value)))) by (split; [intros ? ? []|constructor]).
    generalize dependent (@nil (string * value)). induction fields as [|x fields IH]; intros es Hv W.
    + injection Hv as <-. destruct W. now constructor.
    + inversion H as [|? ? Hx H']; subst. cbn [visit_members] in Hv.
      destruct (visit_default (snd (snd x))) as [y|e|] eqn:E; cbn [bind] in Hv; try discriminate Hv.
      apply (IH H' (fun x0 I => Q x0 (or_intror I)) _ Hv). unfold map_emplace. destruct (has_key (fst (snd x)) es) eqn:K; cbn [fst]; [exact W|]. destruct W as [W ND]. split.
      * intros n z I. apply in_app_or in I as [I|[I|[]]]; [now apply W|]. injection I as <- <-. destruct (Q x (or_introl eq_refl)) as [Sx Px]. split; [|exact Px]. exact (Hx y Sx eq_refl).
      * rewrite map_app. cbn [map fst]. apply NoDup_app_one; [exact ND|]. now apply has_key_not.
Qed.

(** So for the arguments of a field, or the fields of an input type, of a schema document that the loader accepts: *)
Definition given_default (f : sdl_input) : bool :=
  match si_default f with Some (l, _) => match visit_default l with Ok VNull => false | _ => true end | None => false end.
Lemma input_field_default a f : get_input_field a = Ok f ->
  in_name f = si_name a /\ (match si_default a with None => in_default f = VNull | Some (l, _) => visit_default l = Ok (in_default f) end).
Proof.
  unfold get_input_field. destruct (si_default a) as [[l t]|].
  - destruct (visit_default l) as [v|e|]; cbn [bind]; try discriminate. destruct (visit_field_type (si_type a)) as [n ms].
    match goal with |- (if ?b then _ else _) = _ -> _ => destruct b; [discriminate|] end. intros E. injection E as <-. auto.
  - cbn [bind]. destruct (visit_field_type (si_type a)) as [n ms]. match goal with |- (if ?b then _ else _) = _ -> _ => destruct b; [discriminate|] end. intros E. injection E as <-. auto.
Qed.
Lemma input_fields_match : forall args fs, get_input_fields args = Ok fs -> Forall2 (fun a f => get_input_field a = Ok f) args fs.
Proof.
  unfold get_input_fields. induction args as [|a args IH]; intros fs H; cbn [mapM] in H; [injection H as <-; constructor|].
  destruct (get_input_field a) as [f|e|] eqn:E; cbn [bind] in H; try discriminate H.
  destruct (mapM get_input_field args) as [fs'|e|]; cbn [bind] in H; try discriminate H. injection H as <-. constructor; auto.
Qed.
Theorem C61_document_partial : forall variable args fs, In variable ["defaultArguments"; "defaultValue"] -> get_input_fields args = Ok fs ->
  (forall a l t, In a args -> si_default a = Some (l, t) -> safe l) -> (forall a, In a args -> forallb plain_char (chars (si_name a)) = true) -> NoDup (map si_name args) ->
  (exists a, In a args /\ given_default a = true) ->
  exists c es, run_defaults variable (defaults_code variable fs) = Some c /\ abs c = VMap es /\ map fst es = map si_name (filter given_default args) /\
    forall a l t v, In a args -> si_default a = Some (l, t) -> visit_default l = Ok v -> v <> VNull -> In (si_name a, in_source written_double v) es.
Proof.
  intros variable args fs V G Sf P ND (a0 & I0 & D0). apply input_fields_match in G.
  assert (Same : forall a f, get_input_field a = Ok f -> has_default f = given_default a).
  { intros a f E. destruct (input_field_default a f E) as [_ D]. unfold given_default, has_default. destruct (si_default a) as [[l t]|]; rewrite D; [destruct (in_default f); reflexivity|reflexivity]. }
  assert (Names : map in_name fs = map si_name args).
  { clear -G. induction G as [|a f args fs E G IH]; [reflexivity|]. cbn [map]. destruct (input_field_default a f E) as [-> _]. now rewrite IH. }
  assert (Of : forall f, In f fs -> exists a, In a args /\ get_input_field a = Ok f).
  { clear -G. induction G as [|a f args fs E G IH]; intros g I; [destruct I|]. destruct I as [<-|I]; [exists a; split; [now left|exact E]|]. destruct (IH g I) as (b & J & E'). exists b. split; [now right|exact E']. }
  assert (To : forall a, In a args -> exists f, In f fs /\ get_input_field a = Ok f).
  { clear -G. induction G as [|a f args fs E G IH]; intros b I; [destruct I|]. destruct I as [<-|I]; [exists f; split; [now left|exact E]|]. destruct (IH b I) as (g & J & E'). exists g. split; [now right|exact E']. }
  destruct (C61_defaults_partial variable fs V) as (c & R & A).
  - intros f I H. destruct (Of f I) as (a & J & E). destruct (input_field_default a f E) as [En Ed]. split; [|rewrite En; now apply P].
    destruct (si_default a) as [[l t]|] eqn:El; [exact (C61_literals l _ (Sf a l t J El) Ed)|]. rewrite Ed. constructor.
  - now rewrite Names.
  - destruct (To a0 I0) as (f & I & E). exists f. split; [exact I|]. now rewrite (Same a0 f E).
  - exists c. eexists. split; [exact R|]. split; [exact A|]. split.
    + rewrite map_map. cbn [fst]. clear -G Same. induction G as [|a f args fs E G IH]; [reflexivity|]. cbn [filter]. rewrite (Same a f E). destruct (given_default a); [|exact IH]. cbn [map].
      destruct (input_field_default a f E) as [-> _]. now rewrite IH.
    + intros a l t v I El Ev Nv. destruct (To a I) as (f & J & E). destruct (input_field_default a f E) as [En Ed]. rewrite El, Ev in Ed. injection Ed as ->. rewrite <- En.
      apply in_map_iff. exists f. split; [reflexivity|]. apply filter_In. split; [exact J|]. unfold has_default. destruct (in_default f); congruence.
Qed.

(** A value without floats is exactly the value of the schema. *)
Inductive float_free : value -> Prop :=
| ff_map es : (forall n v, In (n, v) es -> float_free v) -> float_free (VMap es)
| ff_list l : (forall v, In v l -> float_free v) -> float_free (VList l)
| ff_string s j : float_free (VString s j)
| ff_null : float_free VNull
| ff_bool b : float_free (VBool b)
| ff_int z : float_free (VInt z)
| ff_enum s : float_free (VEnum s).
Theorem C61_without_floats : forall six v, float_free v -> in_source six v = v.
Proof.
  intros six v. induction v as [es IH|l IH|s j| |b|z|f|s| |o IH] using value_ind'; intros F; inversion F; subst; cbn [in_source]; try reflexivity.
  - f_equal. rewrite <- (map_id es) at 2. apply map_ext_in. intros [n x] I. cbn [fst snd id]. rewrite Forall_forall in IH. enough (E : in_source six x = x) by now rewrite E. apply (IH (n, x) I). cbn [snd]. match goal with Q : forall n v, In (n, v) es -> _ |- _ => exact (Q n x I) end.
  - f_equal. rewrite <- (map_id l) at 2. apply map_ext_in. intros x I. cbn [id]. rewrite Forall_forall in IH. apply (IH x I). auto.
Qed.

(** ** Examples *)
Definition argument (n : string) (v : value) : in_field := mkInField "Int" n n "" v InBuiltin [] "".
Definition half : spec_float := match double_literal (chars "0.5") with Some f => f | None => S754_nan end.
Definition fields61 : list in_field :=
  [argument "first" (VInt (-2147483648)); argument "none" VNull;
   argument "filter" (VMap [("name", VString "a ""b"" \ {}" false); ("kinds", VList [VEnum "RED"; VNull; VBool true; VList []]); ("ratio", VFloat (SFopp half)); ("empty", VMap [])]);
   argument "last" (VBool false)].
Example C61_example : (forall f, In f fields61 -> has_default f = true -> writable (in_default f) /\ forallb plain_char (chars (in_name f)) = true) /\ NoDup (map in_name fields61) /\
  exists c, run_defaults "defaultValue" (defaults_code "defaultValue" fields61) = Some c /\
    abs c = VMap [("first", VInt (-2147483648)); ("filter", VMap [("name", VString "a ""b"" \ {}" false); ("kinds", VList [VEnum "RED"; VNull; VBool true; VList []]); ("ratio", VFloat (SFopp half)); ("empty", VMap [])]);
                  ("last", VBool false)].
Proof.
  assert (W : forall f, In f fields61 -> has_default f = true -> writable (in_default f) /\ forallb plain_char (chars (in_name f)) = true).
  { intros f I _. destruct I as [<-|[<-|[<-|[<-|[]]]]]; (split; [|reflexivity]); cbn [in_default argument]; try (constructor; reflexivity).
    - constructor.
      + intros n v [E|[E|[E|[E|[]]]]]; injection E as <- <-; (split; [|reflexivity]).
        * constructor. apply occurs_b_false. reflexivity.
        * constructor. intros v [<-|[<-|[<-|[<-|[]]]]]; constructor; try (apply occurs_b_false; reflexivity). intros ? [].
        * constructor. vm_compute. reflexivity.
        * constructor; [intros ? ? []|constructor].
      + repeat (constructor; [cbn; intuition discriminate|]). constructor. }
  assert (N : NoDup (map in_name fields61)) by (repeat (constructor; [cbn; intuition discriminate|]); constructor).
  split; [exact W|]. split; [exact N|]. eexists. split; [vm_compute; reflexivity|]. vm_compute. reflexivity.
Qed.
(** The text is the one in samples/unified/TodaySchema.cpp:248-265. *)
Definition tabs (n : nat) (s : string) : text := padding n ++ chars s ++ [feed].
Example C61_sample : defaults_code "defaultArguments" [argument "ids" (VList [VString "ZmFrZUFwcG9pbnRtZW50SWQ=" false])] =
  tabs 1 "const auto defaultArguments = []()" ++ tabs 1 "{" ++ tabs 2 "response::Value values(response::Type::Map);" ++ tabs 2 "response::Value entry;" ++ tabs 0 "" ++
  tabs 2 "entry = []()" ++ tabs 2 "{" ++ tabs 3 "response::Value elements(response::Type::List);" ++ tabs 3 "response::Value entry;" ++ tabs 0 "" ++
  tabs 3 "entry = response::Value(std::string(R""gql(ZmFrZUFwcG9pbnRtZW50SWQ=)gql""));" ++ tabs 3 "elements.emplace_back(std::move(entry));" ++ tabs 3 "return elements;" ++ tabs 2 "}();" ++
  tabs 2 "values.emplace_back(""ids"", std::move(entry));" ++ tabs 0 "" ++ tabs 2 "return values;" ++ tabs 1 "}();" ++ tabs 0 "".
Proof. vm_compute. reflexivity. Qed.
(** samples/unified/TodaySchema.cpp:66-75 and src/IntrospectionSchema.cpp:242-251. *)
Example C61_sample_input : defaults_code "defaultValue" [argument "id" VNull; argument "testTaskState" VNull; argument "isComplete" (VBool true); argument "clientMutationId" VNull] =
  tabs 1 "const auto defaultValue = []()" ++ tabs 1 "{" ++ tabs 2 "response::Value values(response::Type::Map);" ++ tabs 2 "response::Value entry;" ++ tabs 0 "" ++
  tabs 2 "entry = response::Value(true);" ++ tabs 2 "values.emplace_back(""isComplete"", std::move(entry));" ++ tabs 0 "" ++ tabs 2 "return values;" ++ tabs 1 "}();" ++ tabs 0 "".
Proof. vm_compute. reflexivity. Qed.
Example C61_sample_introspection : defaults_code "defaultArguments" [argument "includeDeprecated" (VBool false)] =
  tabs 1 "const auto defaultArguments = []()" ++ tabs 1 "{" ++ tabs 2 "response::Value values(response::Type::Map);" ++ tabs 2 "response::Value entry;" ++ tabs 0 "" ++
  tabs 2 "entry = response::Value(false);" ++ tabs 2 "values.emplace_back(""includeDeprecated"", std::move(entry));" ++ tabs 0 "" ++ tabs 2 "return values;" ++ tabs 1 "}();" ++ tabs 0 "".
Proof. vm_compute. reflexivity. Qed.

(** ** What is not so *)
(** A default value with more than six significant digits is another value in the generated code. *)
Theorem C61_float_refuted : exists f c, double_literal (chars "0.1234567") = Some f /\ visit_default (LFloat (mkLoc 1 1) f) = Ok (VFloat f) /\
  run_defaults "defaultArguments" (defaults_code "defaultArguments" [argument "ratio" (VFloat f)]) = Some c /\
  (exists g, abs c = VMap [("ratio", VFloat g)] /\ double_literal (chars "0.123457") = Some g /\ g <> f).
Proof.
  eexists. eexists. split; [vm_compute; reflexivity|]. split; [reflexivity|]. split; [vm_compute; reflexivity|]. eexists. split; [reflexivity|]. split; [vm_compute; reflexivity|]. discriminate.
Qed.
(** A string that holds the end of the raw string literal makes code that a compiler refuses ... *)
Theorem C61_text_refuted : exists s, visit_default (LString (mkLoc 1 1) s) = Ok (VString s false) /\
  run_defaults "defaultArguments" (defaults_code "defaultArguments" [argument "text" (VString s false)]) = None.
Proof. exists "a)gql""b". split; [reflexivity|]. vm_compute. reflexivity. Qed.
(** ... or code that does something else. *)
Theorem C61_injection_refuted : exists s c, visit_default (LString (mkLoc 1 1) s) = Ok (VString s false) /\
  run_defaults "defaultArguments" (defaults_code "defaultArguments" [argument "text" (VString s false)]) = Some c /\ abs c = VMap [("text", VString "other" false)].
Proof. exists ("a)gql""" ++ ")); entry = response::Value(std::string(R""gql(other")%string. eexists. split; [reflexivity|]. split; vm_compute; reflexivity. Qed.

Print Assumptions C61_defaults_partial.
Print Assumptions C61_document_partial.
