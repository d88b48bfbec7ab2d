(** Operations in which response keys are used again: examples for C25, C26, C50 and C52. *)
From Coq Require Import List.
From Verif Require Import Cpp Value Ast ErrorModel ExecModel ExecSem ExecSpec ExecValues ExecBigSpec.
From Verif Require Import SchemaModel ValidationModel ValidationSpec ValidationFields ValidationCheck ValidationSelections ValidationUse ValidationRepeats ValidationExamples ValidationProps
  TypedSpec TypedValues TypedProofs TypedExample TypedProps ModifiersModel ClientModel ClientSpec ClientProofs ClientProps.
Import ListNotations.
Local Open Scope string_scope.
Local Open Scope list_scope.

(** Selection sets without arguments and directives, all of whose fields satisfy the rules; fields of one response key have one type and one sub-selection. *)
Inductive neat (S : schema) (doc : document) (stk : list string) (T : string) (sels : list selection) : Prop :=
| neat_intro items :
    collect S doc stk T sels items ->
    (forall loc ds, In (IDirs loc ds) items -> ds = []) ->
    (forall o, In (IField o) items -> oc_args o = [] /\ exists ty, field_of S (oc_parent o) (oc_name o) ty []) ->
    (forall o ty args, In (IField o) items -> field_of S (oc_parent o) (oc_name o) ty args -> (composite S (named_type ty) <-> oc_sub o <> None)) ->
    (forall o ty args sub, In (IField o) items -> field_of S (oc_parent o) (oc_name o) ty args -> oc_sub o = Some sub -> neat S doc (oc_stack o) (named_type ty) sub) ->
    (forall o o', In (IField o) items -> In (IField o') items -> oc_key o = oc_key o' -> oc_name o = oc_name o' /\ same_selections (oc_sub o) (oc_sub o') /\
       exists ty, field_of S (oc_parent o) (oc_name o) ty [] /\ field_of S (oc_parent o') (oc_name o') ty []) ->
    neat S doc stk T sels.
Lemma no_arguments S vars : arguments_unique [] /\ arguments_ok S vars [] [].
Proof. split; split; [constructor|constructor|intros a []|intros a []]. Qed.
Lemma neat_scope S (WF : schema_wf S) doc vars stk T sels : neat S doc stk T sels -> scope_ok S doc vars stk T sels /\ repeats_ok S doc vars stk T sels.
Proof.
  intros H. induction H as [stk T sels items C HD H1 H2 H3 IH H4].
  assert (A : forall o ty args, In (IField o) items -> field_of S (oc_parent o) (oc_name o) ty args -> arguments_ok S vars args (oc_args o)).
  { intros o ty args Io Hf. destruct (H1 o Io) as (-> & ty' & Hf'). destruct (field_of_fun S WF _ _ _ _ _ _ Hf Hf') as [_ ->]. exact (proj2 (no_arguments S vars)). }
  assert (FI : forall o, first_field items o -> In (IField o) items) by (intros o (pre & post & -> & _); apply in_or_app; right; left; reflexivity).
  split.
  - apply (scope_intro S doc vars stk T sels items C).
    + intros loc ds I. rewrite (HD loc ds I). split; [constructor|intros d []].
    + intros o Io. destruct (H1 o Io) as (-> & ty & Hf). split; [exact (proj1 (no_arguments S vars))|exists ty, []; exact Hf].
    + intros o ty args Fo Hf. split; [exact (A o ty args (FI o Fo) Hf)|exact (H2 o ty args (FI o Fo) Hf)].
    + intros o ty args sub Fo Hf Es. exact (proj1 (IH o ty args sub (FI o Fo) Hf Es)).
    + intros o o' pre mid post E _ K. assert (Io : In (IField o) items) by (rewrite E; apply in_or_app; right; left; reflexivity).
      assert (Io' : In (IField o') items) by (rewrite E; apply in_or_app; right; right; apply in_or_app; right; left; reflexivity).
      destruct (H4 o o' Io Io' (eq_sym K)) as (En & _ & ty & F1 & F2). exists ty, [], ty, []. split; [exact F1|]. split; [exact F2|]. split; [reflexivity|]. right. split; [exact En|].
      rewrite (proj1 (H1 o Io)), (proj1 (H1 o' Io')). split; [reflexivity|intros a []].
  - apply (repeats_intro S doc vars stk T sels items C).
    + intros pre o mid o' post ty args E _ K Hf. assert (Io' : In (IField o') items) by (rewrite E; apply in_or_app; right; right; apply in_or_app; right; left; reflexivity).
      split; [right; eauto|]. split; [eauto|]. intros sub Es. exact (proj1 (IH o' ty args sub Io' Hf Es)).
    + intros o ty args sub Io Hf Es. exact (proj2 (IH o ty args sub Io Hf Es)).
Qed.
Lemma neat_below : forall S doc stk T sels stk' T' sels', below S doc any stk T sels stk' T' sels' -> neat S doc stk T sels -> neat S doc stk' T' sels'.
Proof.
  intros S doc stk T sels stk' T' sels' B. induction B as [|stk T sels items o ty args sub stk' T' sels' C I F Ho Hs B IH]; auto.
  intro H. apply IH. inversion H as [items' C' _ _ _ Hsub _]. rewrite <- (collect_fun S doc _ _ _ _ C _ C') in *. eapply Hsub; eauto.
Qed.
Lemma neat_ok S doc known stk T sels : neat S doc stk T sels -> plain_below S doc known stk T sels /\ consistent_below S doc stk T sels.
Proof.
  intros H. split; intros stk' T' sels' items B C; apply (neat_below _ _ _ _ _ _ _ _ B) in H; inversion H as [items' C' HD H1 _ _ H4]; rewrite <- (collect_fun S doc _ _ _ _ C _ C') in *.
  - split; [intros o Io; rewrite (proj1 (H1 o Io)); constructor|intros loc ds I; rewrite (HD loc ds I); apply plain_nodirs].
  - intros o o' Io Io' K. exact (proj1 (proj2 (H4 o o' Io Io' K))).
Qed.

(** query Q {
      node { id self { id } }
      g
      node { id self { id } }
      u { ... on A { id only }
          ... on B { id } } } *)
Definition doc25 : document :=
  [op_ 1 (Some "query") (Some "Q") []
    [obj_fld 2 "node" [fld 2 "id"; obj_fld 2 "self" [fld 2 "id"]]; fld 3 "g"; obj_fld 4 "node" [fld 4 "id"; obj_fld 4 "self" [fld 4 "id"]];
     obj_fld 5 "u" [on_ 5 "A" [fld 5 "id"; fld 5 "only"]; on_ 6 "B" [fld 6 "id"]]]].
Definition op25 : operation_def := match operations doc25 with o :: _ => o | [] => mkOp (at_ 0) None None [] [] [] end.
Lemma doc25_wf : document_wf doc25.
Proof. doc_wf_. Qed.
Lemma doc25_accepted : accepted S0 doc25.
Proof. vm_compute. reflexivity. Qed.
(** not covered by [distinct_below] *)
Lemma repeated25 : ~ distinct_below S0 doc25 [] "Query" (op_sel op25).
Proof.
  intros D. specialize (D [] "Query" (op_sel op25)). assert (N : NoDup (keys _)) by (eapply D; [constructor|simpl; repeat apply col_field; apply col_nil]). simpl in N. inversion N as [|? ? X _]. apply X. simpl. auto.
Qed.
Ltac declared50 := lazymatch goal with |- field_of S0 ?T ?n _ _ => eapply (field_declared S0 T _ (field_ n _ [])); [reflexivity|first [left; reflexivity|right; reflexivity]|simpl; auto] end.
Ltac composite50 := first [left; kind_|right; left; kind_|right; right; kind_].
Lemma no_composite n d : find_type S0 n = Some d -> td_kind d = SCALAR -> composite S0 n <-> (None : option (list selection)) <> None.
Proof. intros F K. split; [|intro X; contradiction]. intros [X|[X|X]]; destruct X as (d' & X & Y); congruence. Qed.
Ltac leaf25 := eapply no_composite; reflexivity.
Lemma fun50 T n ty args ty' args' : field_of S0 T n ty args -> field_of S0 T n ty' args' -> ty = ty' /\ args = args'.
Proof. apply (field_of_fun S0 S0_wf). Qed.
Lemma neat_id stk T l : In T ["Node"; "A"; "B"] -> neat S0 doc25 stk T [fld l "id"].
Proof.
  intros HT. assert (F : field_of S0 T "id" (TNonNull (TNamed "ID")) []) by (destruct HT as [<-|[<-|[<-|[]]]]; declared50).
  econstructor; [apply col_field, col_nil| | | | |].
  - intros loc ds I. in_items I. injection I as _ <-. reflexivity.
  - intros o I. in_items I. injection I as <-. split; [reflexivity|eauto].
  - intros o ty args I Hf. in_items I. injection I as <-. cbn [oc_parent oc_name oc_sub option_map] in *. destruct (fun50 _ _ _ _ _ _ Hf F) as [-> ->]. leaf25.
  - intros o ty args sub I _ E. in_items I. injection I as <-. discriminate.
  - intros o o' I I' _. in_items I. in_items I'. injection I as <-. injection I' as <-. split; [reflexivity|]. split; [reflexivity|]. eauto.
Qed.
Lemma neat_node stk l : neat S0 doc25 stk "Node" [fld l "id"; obj_fld l "self" [fld l "id"]].
Proof.
  assert (F : field_of S0 "Node" "id" (TNonNull (TNamed "ID")) []) by declared50. assert (G : field_of S0 "Node" "self" (TNamed "Node") []) by declared50.
  econstructor; [repeat apply col_field; apply col_nil| | | | |].
  - intros loc ds I. in_items I; injection I as _ <-; reflexivity.
  - intros o I. in_items I; injection I as <-; (split; [reflexivity|eauto]).
  - intros o ty args I Hf. in_items I; injection I as <-; cbn [oc_parent oc_name oc_sub option_map] in *.
    + destruct (fun50 _ _ _ _ _ _ Hf F) as [-> ->]. leaf25.
    + destruct (fun50 _ _ _ _ _ _ Hf G) as [-> ->]. split; [discriminate|intros _; composite50].
  - intros o ty args sub I Hf E. in_items I; injection I as <-; cbn [oc_parent oc_name oc_sub oc_stack option_map] in *; [discriminate|]. injection E as <-.
    destruct (fun50 _ _ _ _ _ _ Hf G) as [-> ->]. apply neat_id. simpl. auto.
  - intros o o' I I' K. in_items I; in_items I'; injection I as <-; injection I' as <-; try discriminate K; (split; [reflexivity|]; split; [reflexivity|]; eauto).
Qed.
Lemma neat25 : neat S0 doc25 [] "Query" (op_sel op25).
Proof.
  assert (Fn : field_of S0 "Query" "node" (TNamed "Node") []) by declared50. assert (Fg : field_of S0 "Query" "g" (TNamed "Int") []) by declared50.
  assert (Fu : field_of S0 "Query" "u" (TNamed "U") []) by declared50.
  econstructor; [simpl; repeat apply col_field; apply col_nil| | | | |].
  - intros loc ds I. in_items I; injection I as _ <-; reflexivity.
  - intros o I. in_items I; injection I as <-; (split; [reflexivity|eauto]).
  - intros o ty args I Hf. in_items I; injection I as <-; cbn [oc_parent oc_name oc_sub option_map] in *.
    + destruct (fun50 _ _ _ _ _ _ Hf Fn) as [-> ->]. split; [discriminate|intros _; composite50].
    + destruct (fun50 _ _ _ _ _ _ Hf Fg) as [-> ->]. leaf25.
    + destruct (fun50 _ _ _ _ _ _ Hf Fn) as [-> ->]. split; [discriminate|intros _; composite50].
    + destruct (fun50 _ _ _ _ _ _ Hf Fu) as [-> ->]. split; [discriminate|intros _; composite50].
  - intros o ty args sub I Hf E. in_items I; injection I as <-; cbn [oc_parent oc_name oc_sub oc_stack option_map] in *; try discriminate; injection E as <-.
    + destruct (fun50 _ _ _ _ _ _ Hf Fn) as [-> ->]. apply neat_node.
    + destruct (fun50 _ _ _ _ _ _ Hf Fn) as [-> ->]. apply neat_node.
    + destruct (fun50 _ _ _ _ _ _ Hf Fu) as [-> ->]. cbn [named_type].
      assert (Fa : field_of S0 "A" "id" (TNonNull (TNamed "ID")) []) by declared50. assert (Fo : field_of S0 "A" "only" (TNamed "String") []) by declared50.
      assert (Fb : field_of S0 "B" "id" (TNonNull (TNamed "ID")) []) by declared50.
      econstructor; [eapply col_inline; [split; [reflexivity|]; split; [left; kind_|right; exists "A"; split; possible50_]|simpl; repeat apply col_field; apply col_nil|];
        eapply col_inline; [split; [reflexivity|]; split; [left; kind_|right; exists "B"; split; possible50_]|simpl; repeat apply col_field; apply col_nil|apply col_nil]| | | | |].
      * intros loc ds I. in_items I; injection I as _ <-; reflexivity.
      * intros o I. in_items I; injection I as <-; (split; [reflexivity|eauto]).
      * intros o ty args' I Hf'. in_items I; injection I as <-; cbn [oc_parent oc_name oc_sub option_map] in *.
        -- destruct (fun50 _ _ _ _ _ _ Hf' Fa) as [-> ->]. leaf25.
        -- destruct (fun50 _ _ _ _ _ _ Hf' Fo) as [-> ->]. leaf25.
        -- destruct (fun50 _ _ _ _ _ _ Hf' Fb) as [-> ->]. leaf25.
      * intros o ty args' sub I _ E. in_items I; injection I as <-; discriminate.
      * intros o o' I I' K. in_items I; in_items I'; injection I as <-; injection I' as <-; try discriminate K; (split; [reflexivity|]; split; [reflexivity|]; eauto).
  - intros o o' I I' K. in_items I; in_items I'; injection I as <-; injection I' as <-; try discriminate K; (split; [reflexivity|]; split; [reflexivity|]; eauto).
Qed.
Lemma selects25 : selects "Q" (operations doc25) op25.
Proof. exists [], []. split; [reflexivity|]. split; [reflexivity|]. intros _. split; [reflexivity|intros o []]. Qed.

(** C25: every field, the repeated ones too. *)
Example C25_example_repeats : forall stk T sels, below S0 doc25 any [] "Query" (op_sel op25) stk T sels ->
  exists items, collect S0 doc25 stk T sels items /\
  forall x, In (IField x) items -> exists ty args, field_of S0 (oc_parent x) (oc_name x) ty args /\
    arguments_unique (oc_args x) /\ arguments_ok S0 (Some []) args (oc_args x) /\ (composite S0 (named_type ty) <-> oc_sub x <> None).
Proof.
  intros stk T sels B. apply (C25_repeats S0 doc25 op25 "Query" stk T sels S0_wf doc25_wf doc25_accepted); [left; reflexivity|reflexivity| |exact B].
  exact (proj2 (neat_scope S0 S0_wf doc25 (Some (op_vars op25)) _ _ _ neat25)).
Qed.
(** C50 and C52: the reply, and what the client makes of it. *)
Example C52_example_repeats : exists fields reply,
  (exists N, forall fuel, N <= fuel -> request_loader S0 doc25 fuel "Q" = Ok (op25, fields)) /\ declares S0 doc25 "Query" (op_sel op25) fields /\
  (exists N, forall fuel, N <= fuel -> forall s d,
    responds (stateless (ans50 false)) s (start_request obj50 types50 has50 [("query", Some oQuery)] fuel (fun d => fst (validate S0 d initial)) LAsync doc25 "Q" (VMap [])) d <-> d = Ok reply) /\
  received fields reply.
Proof.
  destruct (neat_scope S0 S0_wf doc25 (Some (op_vars op25)) _ _ _ neat25) as (_ & RO). destruct (neat_ok S0 doc25 [] _ _ _ neat25) as (PB & CB).
  destruct (C52_client_reads_partial S0 obj50 types50 has50 (ans50 false) type50 [("query", Some oQuery)] LAsync doc25 "Q" []
    unit (stateless (ans50 false)) op25 "Query" oQuery) as (fields & reply & H1 & H2 & H3 & H4 & _); auto using S0_wf, implemented50, covariant50, conditions50, typed50, doc25_wf, doc25_accepted, selects25.
  - apply (proj1 enums50).
  - apply (proj2 enums50).
  - intros s o f p. reflexivity.
  - discriminate.
  - intros n v X. discriminate X.
  - intros v [].
  - constructor.
  - intros f [].
  - apply quiet50.
  - exists fields, reply. auto.
Qed.
Definition reply25 : value :=
  VMap [("data", VMap [("node", VMap [("id", VString "YQ==" false); ("self", VMap [("id", VString "YQ==" false)])]); ("g", VNull); ("u", VMap [("id", VString "YQ==" false); ("only", VString "x" false)])])].
Definition fields25 : list field :=
  [("node", ([MNullable], (IStruct [("id", ([], (ILeaf KId, None))); ("self", ([MNullable], (IStruct [("id", ([], (ILeaf KId, None)))], None)))], None)));
   ("g", ([MNullable], (ILeaf KInt, None)));
   ("u", ([MNullable], (IStruct [("id", ([], (ILeaf KId, None))); ("only", ([MNullable], (ILeaf KString, None)))], None)))].
Example C52_example_repeats_reply : request_loader S0 doc25 10 "Q" = Ok (op25, fields25) /\
  responds (stateless (ans50 false)) tt (start_request obj50 types50 has50 [("query", Some oQuery)] 20 (fun d => fst (validate S0 d initial)) LAsync doc25 "Q" (VMap [])) (Ok reply25).
Proof. split; [vm_compute; reflexivity|]. apply (ExecRequest.responds_iff _ (ans50 false)); [intros s o f p; reflexivity|]. vm_compute. reflexivity. Qed.
