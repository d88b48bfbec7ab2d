(** C57, continued: an example that meets the hypotheses, and what they keep out. *)
From Coq Require Import String List Bool Permutation Lia Arith NArith ZArith.
From Verif Require ExecRequest ExecRequest2 RegistrySpec.
From Verif Require Import RegistryModel IntroModel IntroSpec.
From Verif Require Import Cpp Value Ast ErrorModel ExecModel ExecSem ExecSpec ExecBigSpec ExecValues ExecRun ExecProps2 JSONModel JSONSpec JSONProofs SortedMapModel SchemaModel ModifiersModel ModifiersSpec ModifiersProofs RoundTripProofs
  LoaderModel LoaderSpec LoaderProofs LoaderProps AcceptSpec AcceptProofs GenModel GenSpec GenRun GenEval GenDecl GenProps ClientSchemaProps SchemaCheck GenServiceModel GenServiceSpec GenServiceArgs GenServiceLink GenServiceProofs GenServiceIntro GenServiceFail GenServiceValues
  ValidationModel ValidationSpec ValidationUse ValidationRepeats ValidationExamples ClientModel ClientSpec ClientProofs ClientProps
  TypedSpec TypedValues TypedExample TypedProps VariablesModel VariablesSpec VariablesProofs VariablesOrder VariablesCpp VariablesSent VariablesProps GenServiceProps.
Import ListNotations.
Local Open Scope string_scope.
Local Open Scope list_scope.

(** * An example *)
(** enum Color { RED GREEN }   input Range { from: Int! = 0  to: Int }   interface Node { id: ID! }   union Hit = Item
    type Item implements Node { id: ID!  color: Color  score: Float! }
    type Query { node(id: ID!): Node   items(range: Range, first: Int! = 2, colors: [Color!]): [Item!]!   hit: Hit } *)
Definition ds57 : list sdl_def :=
  [DefEnum "Color" "" [GenModel.plain_value "RED"; GenModel.plain_value "GREEN"];
   DefInput "Range" "" [mkSdlInput "from" "" (TNonNull (TNamed "Int")) (Some (LInt L0 0, "0")); input_ "to" (TNamed "Int")];
   DefInterface "Node" "" [plain_field "id" (TNonNull (TNamed "ID"))];
   DefUnion "Hit" "" ["Item"];
   DefObject "Item" "" ["Node"] [plain_field "id" (TNonNull (TNamed "ID")); plain_field "color" (TNamed "Color"); plain_field "score" (TNonNull (TNamed "Float"))];
   DefObject "Query" "" []
     [mkSdlField "node" "" [input_ "id" (TNonNull (TNamed "ID"))] (TNamed "Node") [];
      mkSdlField "items" "" [input_ "range" (TNamed "Range"); mkSdlInput "first" "" (TNonNull (TNamed "Int")) (Some (LInt L0 2, "2")); input_ "colors" (TListOf (TNonNull (TNamed "Color")))]
        (TNonNull (TListOf (TNonNull (TNamed "Item")))) [];
      plain_field "hit" (TNamed "Hit")]].
Definition l57 : loader := Eval vm_compute in match load false ds57 with Ok l => l | _ => no_definitions end.
Definition A57 : pschema := Eval vm_compute in match generated_run false false ds57 with Some A => A | None => no_types end.
Definition S57 : schema := Eval vm_compute in complete_schema false A57 "Query".
Lemma load57 : load false ds57 = Ok l57.
Proof. vm_compute. reflexivity. Qed.
Lemma usual57 : usual ds57.
Proof. apply usual_b_ok. vm_compute. reflexivity. Qed.
Lemma wf57 : schema_wf S57.
Proof. apply schema_wf_b_ok. vm_compute. reflexivity. Qed.
Lemma generated57 : exists r, schema_of false false ds57 = Ok r /\ represents r S57.
Proof. destruct (by_generated_run false false ds57 A57 "Query") as (r & h & Er & _ & Hr); [vm_compute; reflexivity|reflexivity|]. exists r. split; [exact Er|exact Hr]. Qed.
Lemma types57 (P : string -> type_def -> Prop) : Forall (fun x => P (fst x) (snd x)) (s_types S57) -> forall n d, find_type S57 n = Some d -> P n d.
Proof. intros H n d. exact (assoc_Forall (fun x => P (fst x) (snd x)) n d _ H). Qed.
Ltac all57 := repeat apply Forall_cons; try apply Forall_nil; cbn [fst snd td_kind td_fields td_possible td_enums].
Lemma implemented57 : interfaces_implemented S57 /\ interfaces_covariant S57.
Proof.
  assert (I57 : forall i di, find_type S57 i = Some di -> td_kind di = INTERFACE -> td_possible di = ["Item"] /\ map fd_name (td_fields di) = ["id"] /\ forall f, In f (td_fields di) -> fd_type f = TNonNull (TNamed "ID") /\ fd_args f = []).
  { apply (types57 (fun i di => td_kind di = INTERFACE -> td_possible di = ["Item"] /\ map fd_name (td_fields di) = ["id"] /\ forall f, In f (td_fields di) -> fd_type f = TNonNull (TNamed "ID") /\ fd_args f = [])).
    all57; intros K; try discriminate K. split; [reflexivity|]. split; [reflexivity|]. intros f [<-|[]]. auto. }
  split.
  - intros i di t dt f Hi Ki Ht Hdt Hf. destruct (I57 i di Hi Ki) as (Ep & En & Ef). rewrite Ep in Ht. destruct Ht as [<-|[]]. cbn in Hdt. injection Hdt as <-. destruct (Ef f Hf) as [E1 E2].
    eexists. split; [left; reflexivity|]. cbn [fd_name fd_type fd_args]. split.
    + destruct (td_fields di) as [|f0 [|]]; try discriminate En. destruct Hf as [<-|[]]. cbn in En. congruence.
    + rewrite E1, E2. split; [tauto|]. split; [auto|]. split; intros a [].
  - intros i di t dt f f' Hi Ki Ht Hdt Hf Hf' E. destruct (I57 i di Hi Ki) as (Ep & En & Ef). rewrite Ep in Ht. destruct Ht as [<-|[]]. cbn in Hdt. injection Hdt as <-. destruct (Ef f Hf) as [E1 _].
    assert (Ex : fd_name f = "id") by (destruct (td_fields di) as [|f0 [|]]; try discriminate En; destruct Hf as [<-|[]]; cbn in En; congruence).
    rewrite Ex in E. rewrite E1. cbn in Hf'. destruct Hf' as [<-|[<-|[<-|[]]]]; try discriminate E. apply st_nonnull, st_same.
Qed.
Lemma conditions57 : conditions_declared S57.
Proof. split; [kind_|]. intros dd Hd. cbn in Hd. repeat destruct Hd as [<-|Hd]; try contradiction; cbn; intros Hn; try (eexists; reflexivity); exfalso; intuition discriminate. Qed.
Lemma own57 : own_types ds57.
Proof. intros d i Hd Hi. cbn in Hd. repeat destruct Hd as [<-|Hd]; try contradiction; cbn in Hi; repeat destruct Hi as [<-|Hi]; try contradiction; vm_compute; tauto. Qed.
Lemma defaults57 : defaults_fit S57 ds57.
Proof.
  intros d i c text v Hd Hi Ed Ev _. cbn in Hd. repeat destruct Hd as [<-|Hd]; try contradiction; cbn in Hi; repeat destruct Hi as [<-|Hi]; try contradiction; cbn in Ed; try discriminate Ed; injection Ed as <- <-;
    vm_compute in Ev; injection Ev as <-; cbn [si_type].
  - apply if_nonnull; [discriminate|]. apply if_int. reflexivity.
  - apply if_nonnull; [discriminate|]. apply if_int. reflexivity.
Qed.

(** The user's objects. *)
Inductive user57 : Type := TheQuery | AnItem (i : Z).
Definition class57 (u : user57) : string := match u with TheQuery => "Query" | AnItem _ => "Item" end.
Definition access57 (u : user57) (f : string) (p : fparams) (xs : list cppval) : accessed user57 :=
  match u with
  | TheQuery =>
      if String.eqb f "node" then match xs with [XId b] => Later (OPtr (Some (AnItem (Z.of_nat (length b))))) | _ => Now (OPtr None) end
      else if String.eqb f "items" then
        match xs with
        | [XOpt (Some (XStruct [XInt from; _])); XInt n; _] => Now (OVec (map (fun i => OPtr (Some (AnItem (from + Z.of_nat i)))) (seq 0 (Z.to_nat n))))
        | _ => Later (OVec [])
        end
      else Now (OPtr None)
  | AnItem i =>
      if String.eqb f "id" then Now (OLeaf (XId ["a"%char]))
      else if String.eqb f "color" then (if Z.even i then Now (OOpt (Some (OLeaf (XEnum 1)))) else Thrown (Exn runtime_error "no color"))
      else Later (OLeaf (XFloat (S754_finite false 1 0)))
  end.
Ltac field57 Hf := cbn in Hf; repeat destruct Hf as [<-|Hf]; try contradiction.
Lemma implements57 : implements S57 class57 ds57 access57.
Proof.
  split; [intros [|i]; vm_compute; tauto|]. intros u d f p xs Hd Hf _.
  assert (PN : forall z, possible S57 "Node" (class57 (AnItem z))) by (intros z; right; do 2 eexists; split; [reflexivity|]; split; [left; reflexivity|]; split; [left; reflexivity|reflexivity]).
  assert (PI : forall z, possible S57 "Item" (class57 (AnItem z))) by (intros z; left; split; [kind_|reflexivity]).
  assert (CN : composite S57 "Node") by (right; left; kind_). assert (CI : composite S57 "Item") by (left; kind_). assert (CH : composite S57 "Hit") by (right; right; kind_).
  destruct u as [|z]; cbn in Hd; injection Hd as <-; field57 Hf; cbn [access57 fd_name fd_type String.eqb Ascii.eqb Bool.eqb].
  - assert (NL : returns S57 class57 (TNamed "Node") (OPtr None)) by (apply rt_nullable_object; [exact CN|discriminate]).
    repeat match goal with |- match (match ?x with _ => _ end) with _ => _ end => destruct x; try exact NL end. apply rt_nullable_object; [exact CN|]. intros u E. injection E as <-. apply PN.
  - assert (NL : returns S57 class57 (TNonNull (TListOf (TNonNull (TNamed "Item")))) (OVec [])) by (apply rt_list; intros v []).
    repeat match goal with |- match (match ?x with _ => _ end) with _ => _ end => destruct x; try exact NL end.
    apply rt_list. intros v Hv. apply in_map_iff in Hv as (k & <- & _). apply rt_object; [exact CI|apply PI].
  - apply rt_nullable_object; [exact CH|discriminate].
  - eapply rt_leaf; [left; kind_|constructor|constructor].
  - destruct (Z.even z); [|exact Logic.I]. apply rt_value; [intros (t & E); discriminate E|intros n E; injection E as <-; right; kind_|].
    eapply rt_leaf; [right; kind_|eapply (cl_enum S57 "Color" _ "Color"); reflexivity|constructor; cbn; lia].
  - eapply rt_leaf; [left; kind_|constructor|constructor].
Qed.
Lemma careful57 : careful S57 class57 access57.
Proof.
  intros u d f p xs Hd Hf _. destruct u as [|z]; cbn in Hd; injection Hd as <-; field57 Hf; cbn [access57 fd_name fd_type String.eqb Ascii.eqb Bool.eqb];
    repeat match goal with |- match (match ?x with _ => _ end) with _ => _ end => destruct x; try exact Logic.I end; try exact Logic.I. intros (t & E). discriminate E.
Qed.

(** query Q($r: Range!) { items(range: $r) { id color } node(id: "YQ==") { id ... on Item { score } } } *)
Definition op57 : operation_def := mkOp (at_ 1) (Some "query") (Some "Q") [var_ 1 "r" (TNonNull (TNamed "Range")) None] []
  [SField (at_ 2) None "items" [arg 2 "range" (LVar (at_ 2) "r")] [] (Some (at_ 2, [fld 3 "id"; fld 4 "color"]));
   SField (at_ 5) None "node" [arg 5 "id" (LString (at_ 5) "YQ==")] [] (Some (at_ 5, [fld 6 "id"; on_ 7 "Item" [fld 8 "score"]]))].
Definition doc57 : document := [DOp op57].
Lemma doc57_wf : document_wf doc57.
Proof. doc_wf_. Qed.
Lemma doc57_ok : accepted S57 doc57.
Proof. vm_compute. reflexivity. Qed.
Lemma field57_ T n d f ty args : find_type S57 T = Some d -> (td_kind d = OBJECT \/ td_kind d = INTERFACE) -> List.find (fun f => String.eqb (fd_name f) n) (td_fields d) = Some f -> field_of S57 T n ty args -> ty = fd_type f.
Proof. intros Hd K Hf H. apply find_some in Hf as [Hf E]. apply String.eqb_eq in E. subst n. exact (proj1 (ValidationFields.field_of_fun S57 wf57 _ _ _ _ _ _ H (field_declared S57 _ _ _ Hd K Hf))). Qed.
Lemma tidy57 : tidy S57 doc57 ["r"] [] "Query" (op_sel op57).
Proof.
  econstructor; [simpl; repeat apply col_field; apply col_nil| | |dirs50|].
  - simpl. nodup_.
  - intros o I. in_items I; injection I as <-; unfold plain_args; cbn; repeat match goal with |- _ \/ _ => solve [auto] | |- In _ _ => solve [simpl; auto] | _ => constructor; cbn end.
  - intros o ty args sub I Hof Es. in_items I; injection I as <-; cbn [oc_sub oc_parent oc_name oc_stack] in *; injection Es as <-.
    + eapply field57_ in Hof; [|reflexivity|left; reflexivity|reflexivity]. subst ty. cbn [named_type fd_type].
      econstructor; [simpl; repeat apply col_field; apply col_nil| | |dirs50|].
      * simpl. nodup_.
      * intros o I. in_items I; injection I as <-; constructor.
      * intros o ty' args' sub I Hof' Es. in_items I; injection I as <-; simpl in *; discriminate.
    + eapply field57_ in Hof; [|reflexivity|left; reflexivity|reflexivity]. subst ty. cbn [named_type fd_type].
      econstructor; [apply col_field; eapply col_inline; [split; [reflexivity|]; split; [left; kind_|right; exists "Item"; split; [right; do 2 eexists; split; [reflexivity|]; split; [left; reflexivity|]; split; [left; reflexivity|reflexivity]|left; split; [kind_|reflexivity]]]| |apply col_nil]; simpl; repeat apply col_field; apply col_nil| | |dirs50|].
      * simpl. nodup_.
      * intros o I. in_items I; injection I as <-; constructor.
      * intros o ty' args' sub I Hof' Es. in_items I; injection I as <-; simpl in *; discriminate.
Qed.
Definition xs57 : list cppval := [XStruct [XInt 6; XOpt None]].
Lemma member57 : Forall2 (member_of S57) (op_vars op57) xs57.
Proof.
  constructor; [|constructor]. exists (IStruct [("from", ([], (ILeaf KInt, None))); ("to", ([MNullable], (ILeaf KInt, None)))]). split.
  - eapply ic_struct; [reflexivity|reflexivity|]. cbn [td_inputs]. apply ics_cons; [constructor|apply ic_leaf; [left; kind_|constructor]|]. apply ics_cons; [constructor; constructor|apply ic_leaf; [left; kind_|constructor]|apply ics_nil].
  - constructor. apply tf_cons; [repeat constructor|]. apply tf_cons; constructor.
Qed.
Lemma enums57 : plain_enums S57 /\ enums_distinct S57 /\ names_clean S57.
Proof.
  split; [|split].
  - intros n d v Hd K Iv. revert v Iv. refine (types57 (fun n d => td_kind d = ENUM -> forall v, In v (td_enums d) -> safe_cpp_name (ev_name v) = ev_name v) _ n d Hd K).
    all57; try discriminate; intros _ v Iv; cbn in Iv; repeat destruct Iv as [<-|Iv]; try contradiction; reflexivity.
  - intros n d Hd K. refine (types57 (fun n d => td_kind d = ENUM -> NoDup (map ev_name (td_enums d)) /\ ~ builtin_scalar n) _ n d Hd K).
    all57; try discriminate; intros _; (split; [apply distinct_nodup; vm_compute; reflexivity|unfold builtin_scalar; simpl; intuition discriminate]).
  - refine (types57 (fun n d => (td_kind d = ENUM -> forall v, In v (td_enums d) -> no_nul (ev_name v) = true) /\ (td_kind d = INPUT_OBJECT -> forall f, In f (td_inputs d) -> no_nul (iv_name f) = true)) _).
    all57; (split; try discriminate); intros _ v Iv; cbn in Iv; repeat destruct Iv as [<-|Iv]; try contradiction; reflexivity.
Qed.
Lemma not_recursive57 : not_recursive S57.
Proof.
  apply (ranked S57 (fun _ => 0)). intros a b [(d & f & Hf & K & Hin & <-) (d' & Hb & Kb)]. exfalso.
  assert (X : named_type (iv_type f) = "Int").
  { revert f Hin Hb. refine (types57 (fun a d => td_kind d = INPUT_OBJECT -> forall f, In f (td_inputs d) -> find_type S57 (named_type (iv_type f)) = Some d' -> named_type (iv_type f) = "Int") _ a d Hf K).
    all57; try discriminate; intros _ f Hin _; cbn in Hin; repeat destruct Hin as [<-|Hin]; try contradiction; reflexivity. }
  rewrite X in Hb. cbn in Hb. injection Hb as <-. discriminate Kb.
Qed.
(** Everything together. *)
Example C57_example : exists r ians ischema itype, schema_of false false ds57 = Ok r /\ represents r S57 /\ hosted r ians ischema itype /\
  exists given, client_message S57 op57 xs57 = Ok (VMap given) /\ forall given', delivered xs57 given given' ->
  exists fields reply, (exists N, forall fuel, N <= fuel -> request_loader S57 doc57 fuel "Q" = Ok (op57, fields)) /\
    (exists N, forall fuel, N <= fuel -> forall s d,
      responds (stateless (gen_ans l57 false (fun x => x) class57 access57 ians ischema itype)) s
        (start_request _ (gen_types l57 class57 (fun i : iobject r => i_types (proj1_sig i))) (gen_has l57 false class57 (fun i => i_has (proj1_sig i))) [("query", Some (GUser TheQuery))] fuel
          (fun d => fst (validate S57 d initial)) LAsync doc57 "Q" (VMap given')) d <-> d = Ok reply) /\ data_received fields reply.
Proof.
  destruct generated57 as (r & Er & Rr). destruct (C57_hosted false false ds57 l57 r S57 load57 usual57 Er Rr) as (ians & ischema & itype & HO). exists r, ians, ischema, itype. split; [exact Er|]. split; [exact Rr|]. split; [exact HO|].
  destruct (tidy_ok _ _ _ _ _ _ tidy57) as (DB & PB). pose proof (distinct_consistent _ _ _ _ _ DB) as CB.
  assert (RO : repeats_ok S57 doc57 (Some (op_vars op57)) [] "Query" (op_sel op57)).
  { apply (distinct_operation S57 doc57 "Q" op57 "Query" wf57 doc57_wf doc57_ok); [|reflexivity|exact DB]. exists [], []. split; [reflexivity|]. split; [reflexivity|]. intros _. split; [reflexivity|intros o []]. }
  destruct (C57_exchange_partial false false ds57 l57 r S57 load57 usual57 Er Rr wf57 (proj1 implemented57) (proj2 implemented57) (proj1 enums57) (proj1 (proj2 enums57)) conditions57 (proj2 (proj2 enums57)) not_recursive57 own57 defaults57
    user57 class57 access57 implements57 careful57 (fun x => x) ians ischema itype HO [("query", Some (GUser TheQuery))] LAsync doc57 "Q" unit
    (stateless (gen_ans l57 false (fun x => x) class57 access57 ians ischema itype)) op57 "Query" TheQuery xs57) as (given & E & G); auto using doc57_wf, doc57_ok, member57.
  - intros s o f p. reflexivity.
  - exists [], []. split; [reflexivity|]. split; [reflexivity|]. intros _. split; [reflexivity|intros o []].
  - discriminate.
  - apply Forall_cons; [intros l E; discriminate E|apply Forall_nil].
  - apply Forall_cons; [exists "Range"; split; [kind_|right; reflexivity]|apply Forall_nil].
  - constructor.
  - intros f [].
  - exists given. split; [exact E|]. intros given' D. destruct (G given' D) as (fields & reply & H1 & _ & H2 & H3 & _). exists fields, reply. auto.
Qed.
(** The reply, whatever the introspection objects are: the argument "first" has its default, the accessor of the color of the item 7 throws. *)
Definition reply57 : value :=
  VMap [("data", VMap [("items", VList [VMap [("id", VString "YQ==" false); ("color", VEnum "GREEN")]; VMap [("id", VString "YQ==" false); ("color", VNull)]]);
                       ("node", VMap [("id", VString "YQ==" false); ("score", VFloat (S754_finite false 1 0))])]);
        ("errors", VList [VMap [("message", VString "Field error name: color unknown error: no color" false); ("locations", VList [VMap [("line", VInt 4); ("column", VInt 1)]]);
                                ("path", VList [VString "items" false; VInt 1; VString "color" false])]])].
Example C57_example_reply : forall r ians ischema itype,
  responds (stateless (gen_ans l57 false (fun x => x) class57 access57 ians ischema itype)) tt
    (start_request _ (gen_types l57 class57 (fun i : iobject r => i_types (proj1_sig i))) (gen_has l57 false class57 (fun i => i_has (proj1_sig i))) [("query", Some (GUser TheQuery))] 20
      (fun d => fst (validate S57 d initial)) LAsync doc57 "Q" (VMap [("r", VMap [("from", VInt 6); ("to", VNull)])])) (Ok reply57).
Proof.
  intros r ians ischema itype. apply (ExecRequest.responds_iff _ (gen_ans l57 false (fun x => x) class57 access57 ians ischema itype)); [intros s o f p; reflexivity|]. vm_compute. reflexivity.
Qed.

(** One call, of items(range: { from: 6 }): what the accessor gets, and what is made of its result. *)
Definition given57 : entries := [("range", VMap [("from", VInt 6)])].
Definition query57 : type_def := Eval vm_compute in match find_type S57 "Query" with Some d => d | None => mkTypeDef SCALAR "" [] [] [] [] [] end.
Definition items57 : field_def := Eval vm_compute in nth 1 (td_fields query57) (mkFieldDef "" "" None (TNamed "") []).
Definition items_args57 : list in_field := Eval vm_compute in flat_map (fun o => flat_map (fun x => if String.eqb (out_name x) "items" then out_args x else []) (ob_fields o)) (l_objects l57).
Example C57_call_example :
  find_type S57 (class57 TheQuery) = Some query57 /\ In items57 (td_fields query57) /\ inputs_fit S57 (fd_args items57) given57 /\
  members S57 l57 (fun x => x) items_args57 given57 [XOpt (Some (XStruct [XInt 6; XOpt None])); XInt 2; XOpt None] /\
  forall I (ians : I -> string -> fparams -> answer I) ischema itype,
  gen_ans l57 false (fun x => x) class57 access57 ians ischema itype (GUser TheQuery) "items" (mkParams CQuery [] no_fdirs [] "items" given57 [])
    = AResult (FList (Ok [FDerived (Ok (Some (GUser (AnItem 6)))); FDerived (Ok (Some (GUser (AnItem 7))))])).
Proof.
  split; [reflexivity|]. split; [right; left; reflexivity|].
  assert (HI : inputs_fit S57 (fd_args items57) given57).
  { constructor.
    - intros k v E. cbn in E. destruct (String.eqb_spec k "range") as [->|]; [|discriminate]. injection E as <-. eexists. split; [left; reflexivity|]. split; [reflexivity|]. constructor. cbn [iv_type].
      eapply if_object; [reflexivity|reflexivity|]. constructor.
      + intros k v E. cbn in E. destruct (String.eqb_spec k "from") as [->|]; [|discriminate]. injection E as <-. eexists. split; [left; reflexivity|]. split; [reflexivity|]. constructor. cbn [iv_type]. apply if_nonnull; [discriminate|]. apply if_int. reflexivity.
      + intros a Ha [Hd (t & Hn)]. cbn in Ha. destruct Ha as [<-|[<-|[]]]; discriminate.
    - intros a Ha [Hd (t & Hn)]. cbn in Ha. destruct Ha as [<-|[<-|[<-|[]]]]; discriminate. }
  split; [exact HI|]. split; [|intros; vm_compute; reflexivity].
  destruct generated57 as (r & Er & Rr). destruct (service_schema false false ds57 l57 r S57 load57 usual57 Er Rr) as [SS _]. assert (LK := loaded_linked S57 ds57 l57 false load57 usual57 SS own57 defaults57).
  assert (Ho : exists o x, In o (l_objects l57) /\ In x (ob_fields o) /\ out_args x = items_args57 /\ fd_args (out_def false x) = fd_args items57 /\ read_arguments l57 (fun x => x) x given57 = Ok [XOpt (Some (XStruct [XInt 6; XOpt None])); XInt 2; XOpt None]).
  { do 2 eexists. split; [right; left; reflexivity|]. split; [right; left; reflexivity|]. split; [reflexivity|]. split; [reflexivity|]. vm_compute. reflexivity. }
  destruct Ho as (o & x & Ho & Hx & Ea & Ef & Er'). rewrite <- Ea. rewrite <- Ef in HI. exact (arguments_exact S57 l57 false (fun x => x) LK wf57 o x given57 _ Ho Hx HI eq_refl Er').
Qed.

(** * What the hypotheses keep out *)
Definition serves57 (access : user57 -> string -> fparams -> list cppval -> accessed user57) (doc : document) (reply : value) : Prop := forall r ians ischema itype,
  responds (stateless (gen_ans l57 false (fun x => x) class57 access ians ischema itype)) tt
    (start_request _ (gen_types l57 class57 (fun i : iobject r => i_types (proj1_sig i))) (gen_has l57 false class57 (fun i => i_has (proj1_sig i))) [("query", Some (GUser TheQuery))] 20
      (fun d => fst (validate S57 d initial)) LAsync doc "" (VMap [])) (Ok reply).
Ltac serves := intros r ians ischema itype; match goal with |- responds (stateless ?a) _ _ _ => apply (ExecRequest.responds_iff _ a); [intros s o f p; reflexivity|] end; vm_compute; reflexivity.
(** A null pointer in a place of a type that is not null, here [Item!]!: the response has null there, and no error. *)
Definition doc57n : document := [op_ 1 None None [] [obj_fld 2 "items" [fld 3 "id"]]].
Definition data57n : entries := [("items", VList [VNull])].
Theorem C57_null_pointer_refuted : accepted S57 doc57n /\ serves57 (fun _ _ _ _ => Now (OVec [OPtr None])) doc57n (VMap [("data", VMap data57n)]) /\
  ~ object_fits S57 doc57n nowhere [] "Query" [obj_fld 2 "items" [fld 3 "id"]] data57n.
Proof.
  split; [vm_compute; reflexivity|]. split; [serves|]. intros H. inversion H as [p0 T0 s0 k0 _ E E1 E2 E3 E4]. specialize (E "items" (VList [VNull]) (or_introl eq_refl)).
  inversion E as [p1 T1 s1 k1 v1 name ty args sub HS HF HD E5 E6 E7 E8 E9]. clear E H.
  assert (Hn : name = "items").
  { subst. inversion HS as [l0 al n a d su sl Hin|l0 c d sl sl' k n su Hin|l0 nm d f sl k n su Hin]; subst; destruct Hin as [Hin|[]]; [|discriminate Hin|discriminate Hin]. injection Hin. congruence. }
  rewrite Hn in HF. eapply field57_ in HF; [|reflexivity|left; reflexivity|reflexivity]. cbn [fd_type] in HF. rewrite HF in HD. clear - HD.
  inversion HD as [T f p is t sl F|T f p is t sl F|T f p is t sl v NV HL|T f p is t sl vs HL|T f p is n v LF IF|T f p is n T' sl kvs P O]; subst.
  inversion HL as [T f p is t sl F|T f p is t sl F|T f p is t sl v NV' HL'|T f p is t sl vs HI|T f p is n v LF IF|T f p is n T' sl kvs P O]; subst. specialize (HI 0 VNull eq_refl).
  inversion HI as [T f p is t sl F|T f p is t sl F|T f p is t sl v NV' HL'|T f p is t sl vs HI'|T f p is n v LF IF|T f p is n T' sl kvs P O]; subst; [destruct F|apply F; eexists; reflexivity|congruence].
Qed.
(** A pointer to an object of a class that is not possible for an interface (the type of the accessor is a pointer to service::Object): the request is accepted, but the
    object does not know the fields of the interface. *)
Definition doc57c : document := [op_ 1 None None [] [SField (at_ 2) None "node" [arg 2 "id" (LString (at_ 2) "YQ==")] [] (Some (at_ 2, [fld 3 "id"]))]].
Theorem C57_wrong_class_refuted : accepted S57 doc57c /\ serves57 (fun _ _ _ _ => Now (OPtr (Some TheQuery))) doc57c
  (VMap [("data", VMap [("node", VMap [("id", VNull)])]);
         ("errors", VList [VMap [("message", VString "Unknown field name: id" false); ("locations", VList [VMap [("line", VInt 3); ("column", VInt 1)]]); ("path", VList [VString "node" false])]])]).
Proof. split; [vm_compute; reflexivity|serves]. Qed.

(** Default values. *)
Definition with_default (c : lit) (text : string) (t : tref) : list sdl_def := [DefObject "Query" "" [] [mkSdlField "a" "" [mkSdlInput "x" "" t (Some (c, text))] (TNamed "Int") []]].
Definition default_read (ds : list sdl_def) (six : spec_float -> spec_float) (r : result (list cppval)) : Prop := usual ds /\ exists l o x, load false ds = Ok l /\ l_objects l = [o] /\ ob_fields o = [x] /\ read_arguments l six x [] = r.
Ltac default_ := split; [apply usual_b_ok; vm_compute; reflexivity|]; do 3 eexists; split; [vm_compute; reflexivity|]; split; [reflexivity|]; split; [reflexivity|]; vm_compute; reflexivity.
(** A number with more than six digits: the generated code has it with six (a stream's default precision), so a client that leaves the argument out gets another one. *)
Theorem C57_float_default_refuted : forall six f, six f <> f -> exists r, default_read (with_default (LFloat L0 f) "1.2345678" (TNonNull (TNamed "Float"))) six (Ok [XFloat r]) /\ r <> f.
Proof.
  intros six f H. exists (six f). split; [|exact H]. split; [apply usual_b_ok; vm_compute; reflexivity|]; do 3 eexists; split; [vm_compute; reflexivity|]; split; [reflexivity|]; split; [reflexivity|]. vm_compute. reflexivity.
Qed.
(** A default value that does not fit its type is accepted: every call that leaves the argument out fails. *)
Theorem C57_default_type_refuted : default_read (with_default (LString L0 "one") """one""" (TNonNull (TNamed "Int"))) (fun f => f) (Throw (SchemaEx [mkErr "Invalid argument: x error: not an integer" (mkLoc 0 1) []])).
Proof. default_. Qed.
(** An argument of a type of introspection is accepted by schemagen, but the code does not compile. *)
Definition kind_argument : list sdl_def := [DefObject "Query" "" [] [mkSdlField "a" "" [input_ "k" (TNamed "__TypeKind")] (TNamed "Int") []]].
Theorem C57_introspection_argument_refuted : default_read kind_argument (fun f => f) UB.
Proof. default_. Qed.
Print Assumptions C57_arguments_partial. Print Assumptions C57_typed_service_partial. Print Assumptions C57_call_partial. Print Assumptions C57_hosted. Print Assumptions C57_failures_partial. Print Assumptions C57_request_partial. Print Assumptions C57_exchange_partial.
Print Assumptions C57_null_pointer_refuted. Print Assumptions C57_wrong_class_refuted. Print Assumptions C57_float_default_refuted. Print Assumptions C57_default_type_refuted. Print Assumptions C57_introspection_argument_refuted.
