(** C59: the events that reach the subscribers of a service whose accessors respect the schema have the types of the schema, and
    the struct that clientgen makes for the subscription reads them. *)
From Coq Require Import String List Bool NArith Arith Lia Permutation.
From Verif Require Import Cpp Value Ast ErrorModel SortedMapModel ExecModel ExecSem ExecSpec ExecDirect ExecMono ExecValues ExecCalls2 ExecBigSpec ExecProofs3 ExecRequest2
  JSONModel JSONSpec JSONProofs JSONProps SchemaModel ModifiersModel.
From Verif Require Import SubscriptionModel SubscriptionSpec SubscriptionProofs SubscriptionHistory SubscriptionDelivery SubscriptionProps SubscriptionProps2 SubscriptionProps3.
From Verif Require Import ValidationModel ValidationSpec ValidationFields ValidationSelections ValidationUse ValidationRepeats ValidationExamples TypedSpec TypedValues TypedProofs TypedExample TypedProps
  ClientModel ClientSpec ClientProofs ClientProps.
From Verif Require SchemaCheck.
Import ListNotations.
Local Open Scope string_scope.
Local Open Scope list_scope.

(** Request::validate of a service with the schema. *)
Definition validation (S : schema) (d : document) : list schema_error := fst (validate S d initial).

(** The operation of the subscription, and the object type its root field is one of. *)
Definition subscribed {CB} (S : schema) (s : subscription CB) (op : operation_def) (T : string) : Prop :=
  operations (s_doc s) = [op] /\ root_type S op = Some T.

(** The subscription was passed values of the declared types for all the variables of its operation (default values are not
    used, C44), and has nothing in its document that the rules do not look at (as in C50). *)
Definition careful_subscription {CB} (S : schema) (s : subscription CB) : Prop :=
  document_wf (s_doc s) /\ exists given, s_vars s = VMap given /\ copyable given /\
    forall op T, subscribed S s op T -> variables_fit S (op_vars op) given /\
      repeats_ok S (s_doc s) (Some (op_vars op)) [] T (op_sel op) /\ plain_below S (s_doc s) (map v_name (op_vars op)) [] T (op_sel op).

(** The document of an event: data, and errors if there are any. *)
Definition event_data (kvs : entries) (errs : list schema_error) : value :=
  VMap (("data", VMap kvs) :: match errs with [] => [] | _ => [("errors", VList (map build_error_entry errs))] end).

Section Live.
  Context {O CB : Type}.
  Variables (typenames : O -> list string) (has_field : O -> string -> bool) (roots : list (string * option O)) (ans : O -> string -> fparams -> answer O).
  Variable S : schema.
  Notation history fuel := (history O typenames has_field roots CB ans fuel (validation S)).

  (** What subscribing has computed. *)
  Lemma live_subscribed : forall fuel h r k s, history fuel h r -> Forall plain_call h -> (made h < size_t_max)%N -> In (k, s) (live h) ->
    exists given op frags ds, s_vars s = VMap given /\ copyable given /\ validation S (s_doc s) = [] /\ operations (s_doc s) = [op] /\ op_kind op = "subscription" /\
      fragments_of given (s_doc s) frags /\ dirs_value given (named_only (op_dirs op)) ds.
  Proof.
    intros fuel h r k s H P M I.
    destruct (history_follows _ _ _ _ _ _ _ _ _ _ H M) as [L Fo]. destruct (follows_matched_r _ _ _ _ _ _ _ _ _ _ Fo I) as [reg [IL Rg]].
    pose proof (live_plain _ _ _ P _ _ I) as [[given [V Hc]] FN]. unfold registered, make_registration in Rg. rewrite V in Rg.
    destruct (validation S (s_doc s)) eqn:Va; [|discriminate].
    destruct (mapM (make_fragment (VMap given)) (fragments (s_doc s))) as [frags| |] eqn:F; simpl in Rg; try discriminate.
    apply fragments_iff in F; auto.
    destruct (ExecModel.find_operation (s_doc s) (s_name s)) as [op|] eqn:Fo'; [|discriminate]. destruct (String.eqb_spec (op_kind op) "subscription") as [K|]; [|discriminate]. simpl in Rg.
    destruct (find_root O "subscription" roots) as [object|] eqn:R; [|discriminate].
    destruct (operations (s_doc s)) as [|op1 [|op2 ops]] eqn:Ops; [discriminate| |destruct (sub_visit _ _ _ _ _ _ _ _); discriminate].
    apply find_selects in Fo'. rewrite Ops in Fo'. assert (op1 = op). { destruct Fo' as [pre [post [E _]]]. destruct pre as [|a pre]; simpl in E; [congruence|]. injection E as _ E. destruct pre; discriminate. }
    subst op1. unfold sub_visit in Rg. destruct (sub_selections O typenames object (VMap given) frags (op_sel op) no_root_field) as [rf| |]; simpl in Rg; try discriminate.
    destruct (ExecModel.visit_directives (VMap given) (op_dirs op) []) as [ds| |] eqn:D; simpl in Rg; try discriminate.
    rewrite visit_directives_named in D. apply dirs_value_iff in D; auto; [|apply named_only_named].
    exists given, op, frags, ds. auto 10.
  Qed.

  Hypotheses (WF : schema_wf S) (II : interfaces_implemented S) (CD : conditions_declared S).
  Variable otype : O -> string.
  Hypothesis TS : typed_service S typenames has_field ans otype.

  (** Resolving a careful subscription on an object of its type. *)
  Lemma subscription_resolves : forall s op T l o given frags ds, validation S (s_doc s) = [] -> careful_subscription (CB := CB) S s -> subscribed S s op T ->
    s_vars s = VMap given -> fragments_of given (s_doc s) frags -> dirs_value given (named_only (op_dirs op)) ds -> otype o = T ->
    exists kvs errs,
      (forall r, results typenames has_field ans (mkEnv CSubscription ds frags (VMap given) l) o [] (op_sel op) r <-> r = Ok (mkRR (VMap kvs) errs)) /\
      Forall (accessor_error S ans otype) errs /\ object_fits S (s_doc s) (failed_at S ans otype) [] T (op_sel op) kvs.
  Proof.
    intros s op T l o given frags ds Va (DW & given' & V' & Hc & Hcare) Sb V F D Ho. rewrite V in V'. injection V' as <-.
    destruct (Hcare op T Sb) as (Vf & RO & PB). destruct Sb as (Ops & HT).
    assert (Iop : In op (operations (s_doc s))) by (rewrite Ops; now left).
    pose proof (proj1 (accepted_iff S (s_doc s) WF DW) Va) as (_ & _ & _ & _ & HO & _). destruct (HO op Iop) as (HV & _ & T' & ET & HS & _).
    rewrite HT in ET. injection ET as <-. pose proof (accepted_checked _ _ _ _ _ _ _ WF HS RO PB) as CK.
    assert (HP : possible S T (otype o)) by (left; rewrite Ho; split; [rewrite <- Ho; apply (ts_object _ _ _ _ _ TS)|reflexivity]).
    destruct (C50_execution S O typenames has_field ans otype (s_doc s) (op_vars op) given (mkEnv CSubscription ds frags (VMap given) l) given WF II CD TS Vf Hc eq_refl F
      [] T (op_sel op) CK o [] HP) as (kvs & errs & X & Y & Z). exists kvs, errs. rewrite Ho in Z. auto.
  Qed.
End Live.

(** Every event that is delivered on an object of the subscription's type: whatever happened before, in whatever order the
    callbacks run, and whether or not deliver returns normally. Missing from the full claim: subscriptions that are not careful
    (see C50_..._refuted), and events on objects of other types (C59_wrong_object_refuted). *)
Theorem C59_event_partial : forall S O CB (typenames : O -> list string) has_field ans otype roots fuel (h : list (SubscriptionModel.call O CB * answered CB)) r l name f object log final,
  schema_wf S -> interfaces_implemented S -> conditions_declared S -> typed_service S typenames has_field ans otype ->
  history O typenames has_field roots CB ans fuel (validation S) (h ++ [(Deliver l name f object, CalledBack log final)]) r ->
  Forall plain_call h -> (made h < size_t_max)%N ->
  forall i s op T, In i log -> In (i_key i, s) (live h) -> careful_subscription S s -> subscribed S s op T ->
  (forall o, event_object roots object o -> otype o = T) ->
  exists kvs errs, i_document i = event_data kvs errs /\ i_callback i = s_callback s /\
    Forall (accessor_error S ans otype) errs /\ object_fits S (s_doc s) (failed_at S ans otype) [] T (op_sel op) kvs.
Proof.
  intros S O CB typenames has_field ans otype roots fuel h r l name f object log final WF II CD TS H P M i s op T Ii Is Ca Sb Ho.
  destruct (C21_document _ _ _ _ _ _ _ _ _ _ _ _ _ _ _ _ H P M i Ii) as (o & s' & x & Eo & Is' & Cb & (given & op' & frags & ds & V & Ops & F & D & C) & Df).
  apply history_snoc in H as [r1 [H1 _]]. destruct (C20_keys _ _ _ _ _ _ _ _ _ _ H1 M) as [ND _].
  assert (s' = s).
  { clear -ND Is Is'. induction (live h) as [|[k0 s0] L IH]; simpl in *; [contradiction|]. inversion ND as [|? ? N1 N2]; subst.
    destruct Is as [E|Il], Is' as [E'|I']; try congruence; auto.
    - injection E as -> ->. exfalso. apply N1. now apply (in_map fst) in I'.
    - injection E' as -> ->. exfalso. apply N1. now apply (in_map fst) in Il. }
  subst s'. assert (op' = op) by (destruct Sb as (E & _); congruence). subst op'.
  destruct (live_subscribed _ _ _ _ _ _ _ _ _ _ H1 P M Is) as (_ & _ & _ & _ & _ & _ & Va & _).
  destruct (subscription_resolves typenames has_field ans S WF II CD otype TS s op T l o given frags ds Va Ca Sb V F D (Ho o Eo)) as (kvs & errs & R & Y & Z).
  exists kvs, errs. assert (X : x = Ok (mkRR (VMap kvs) errs)) by (apply R; split; [inversion Df; discriminate|exists fuel; exact C]).
  subst x. inversion Df as [x0 E1 E2|]; subst. split; [|auto]. unfold build_document, event_data. cbn [data errors]. destruct errs; reflexivity.
Qed.

(** Accessors that do not fail, or only where the type allows null: then there is null only where the schema allows it, and
    without failures there are no errors. *)
Theorem C59_no_failure_partial : forall S O CB (typenames : O -> list string) has_field ans otype roots fuel (h : list (SubscriptionModel.call O CB * answered CB)) r l name f object log final,
  schema_wf S -> interfaces_implemented S -> conditions_declared S -> typed_service S typenames has_field ans otype ->
  history O typenames has_field roots CB ans fuel (validation S) (h ++ [(Deliver l name f object, CalledBack log final)]) r ->
  Forall plain_call h -> (made h < size_t_max)%N -> fails_mildly S ans otype ->
  forall i s op T, In i log -> In (i_key i, s) (live h) -> careful_subscription S s -> subscribed S s op T ->
  (forall o, event_object roots object o -> otype o = T) ->
  exists kvs errs, i_document i = event_data kvs errs /\ object_fits S (s_doc s) nowhere [] T (op_sel op) kvs /\ (never_fails S ans otype -> errs = []).
Proof.
  intros S O CB typenames has_field ans otype roots fuel h r l name f object log final WF II CD TS H P M Mi i s op T Ii Is Ca Sb Ho.
  destruct (C59_event_partial S O CB typenames has_field ans otype roots fuel h r l name f object log final WF II CD TS H P M i s op T Ii Is Ca Sb Ho) as (kvs & errs & E & _ & A & F).
  exists kvs, errs. split; [exact E|]. split; [exact (mild_nowhere S O ans otype (s_doc s) Mi _ _ _ _ F)|]. intros NF.
  destruct errs as [|x errs]; auto. exfalso. inversion A as [|? ? A1 _]; subst.
  inversion A1 as [o g q ex loc y Pc Ea _|o g q r0 c w loc is Pc Ea L|o g q r0 is errs' y Pc Ea L _]; subst;
    [exact (NF _ _ _ _ (fa_throw S ans otype _ _ o q ex eq_refl Pc Ea))|exact (NF _ _ _ _ (fa_leaf S ans otype _ _ o q r0 is _ eq_refl Pc Ea L))|exact (NF _ _ _ _ (fa_leaf S ans otype _ _ o q r0 is _ eq_refl Pc Ea L))].
Qed.

(** The struct that clientgen makes for the operation of the subscription reads every event it is sent, directly or by way of JSON. *)
Theorem C59_client_reads_partial : forall S O CB (typenames : O -> list string) has_field ans otype roots fuel (h : list (SubscriptionModel.call O CB * answered CB)) r l name f object log final,
  schema_wf S -> interfaces_implemented S -> interfaces_covariant S -> plain_enums S -> enums_distinct S -> conditions_declared S ->
  typed_service S typenames has_field ans otype ->
  history O typenames has_field roots CB ans fuel (validation S) (h ++ [(Deliver l name f object, CalledBack log final)]) r ->
  Forall plain_call h -> (made h < size_t_max)%N -> fails_mildly S ans otype ->
  forall i s op T, In i log -> In (i_key i, s) (live h) -> careful_subscription S s -> subscribed S s op T ->
  consistent_below S (s_doc s) [] T (op_sel op) ->
  (forall o, event_object roots object o -> otype o = T) ->
  exists fields, (exists N, forall fuel, N <= fuel -> request_loader S (s_doc s) fuel (s_name s) = Ok (op, fields)) /\ declares S (s_doc s) T (op_sel op) fields /\
    data_received fields (i_document i) /\
    forall trip big, representable (i_document i) = true -> filled (i_document i) = true ->
      exists events text, writeResponse (i_document i) = Ok events /\ spells trip events text /\
        exists reply', parse_events (reader_events big text) = Ok reply' /\ data_received fields reply'.
Proof.
  intros S O CB typenames has_field ans otype roots fuel h r l name f object log final WF II COV PE DE CD TS H P M Mi i s op T Ii Is Ca Sb CB' Ho.
  destruct (C59_no_failure_partial S O CB typenames has_field ans otype roots fuel h r l name f object log final WF II CD TS H P M Mi i s op T Ii Is Ca Sb Ho) as (kvs & errs & E & OF & _).
  apply history_snoc in H as H'. destruct H' as [r1 [H1 _]].
  destruct (C44_single_root_field _ _ _ _ _ _ _ _ _ _ _ _ H1 P M Is) as (Va & op' & Ops & _ & Sel & _).
  pose proof Sb as (Ops' & HT). assert (op' = op) by congruence. subst op'. rewrite <- Ops in Sel.
  pose proof Ca as (DW & given & V & Hc & Hcare). destruct (Hcare op T Sb) as (_ & RO & _).
  destruct (C52_struct_partial S (s_doc s) (s_name s) op T WF COV PE DE DW Va Sel HT RO CB') as (fields & Mk & D & RD).
  destruct (C21_document _ _ _ _ _ _ _ _ _ _ _ _ _ _ _ _ H P M i Ii) as (o & _ & _ & Eo & _).
  assert (TO : type_is S T OBJECT) by (rewrite <- (Ho o Eo); apply (ts_object _ _ _ _ _ TS)).
  assert (HP : possible S T T) by (left; auto).
  exists fields. split; [exact Mk|]. split; [exact D|]. rewrite E. unfold event_data.
  set (tail := match errs with [] => [] | _ => [("errors", VList (map build_error_entry errs))] end) in *.
  assert (Dt : forall es rest, ~ In "data" (map fst rest) -> r_data (parse_service_response (VMap (("data", VMap es) :: rest))) = VMap es).
  { intros es rest N. cbn [parse_service_response parse_response_members]. change (String.eqb "data" "data") with true. cbv iota. cbn [r_errors].
    generalize (@nil client_error). induction rest as [|[k v] rest IH]; intros ce; [reflexivity|]. cbn [map fst] in N. cbn [parse_response_members].
    destruct (String.eqb_spec k "data") as [->|_]; [exfalso; apply N; now left|]. assert (N' : ~ In "data" (map fst rest)) by (intro I; apply N; now right).
    destruct (String.eqb k "errors"); [destruct v|]; cbn [r_data r_errors]; apply (IH N'). }
  assert (Nt : ~ In "data" (map fst tail) /\ forall trip, ~ In "data" (map fst (map (fun kv => (fst kv, through_json trip (snd kv))) tail))).
  { unfold tail. destruct errs; cbn; split; intros; intuition discriminate. }
  assert (G : forall es rest, ~ In "data" (map fst rest) -> object_fits S (s_doc s) nowhere [] T (op_sel op) es -> data_received fields (VMap (("data", VMap es) :: rest))).
  { intros es rest N E'. destruct (RD [] T es HP E') as (xs & E1 & E2). exists es, xs. rewrite (Dt es rest N). auto. }
  split; [apply G; [exact (proj1 Nt)|exact OF]|].
  intros trip big Rp Fl. destruct (C08_roundtrip trip big _ Rp) as (es & j & W & Sp & _ & Pj). exists es, j. split; [exact W|]. split; [exact Sp|].
  eexists. split; [exact Pj|]. change (through_json trip (VMap (("data", VMap kvs) :: tail))) with (VMap (("data", VMap (map (fun kv => (fst kv, through_json trip (snd kv))) kvs)) :: map (fun kv => (fst kv, through_json trip (snd kv))) tail)).
  apply G; [exact (proj2 Nt trip)|]. cbn in Fl. apply andb_true_iff in Fl as [Fl _]. apply data_entries_through; auto.
Qed.

(** ** More stack *)
Section More.
  Context {O CB : Type}.
  Variables (typenames : O -> list string) (has_field : O -> string -> bool) (roots : list (string * option O)) (ans : O -> string -> fparams -> answer O).
  Variables (fuel fuel' : nat).
  Hypothesis L : fuel <= fuel'.
  Lemma resolving_more : forall ctx l o reg r, resolving O typenames has_field CB ans fuel ctx l o reg r -> r <> UB -> resolving O typenames has_field CB ans fuel' ctx l o reg r.
  Proof.
    intros ctx l o reg r H N. apply resolving_iff. apply resolving_iff in H. apply computes_iff. apply computes_iff in H. rewrite <- H. apply dresolve_up; [exact L|congruence].
  Qed.
  Lemma collects_more : forall ctx l fA fD o subs keys is out, collects O CB (resolving O typenames has_field CB ans fuel ctx l) fA fD o subs keys is out -> out <> UB ->
    collects O CB (resolving O typenames has_field CB ans fuel' ctx l) fA fD o subs keys is out.
  Proof.
    intros ctx l fA fD o subs keys is out H. induction H as [|k keys E|k keys reg is out E R H IH|k keys reg e E R|k keys reg E R|k keys reg r d is out E R Rs Ed H IH|k keys reg r e E R Rs Ed|k keys reg r E R Rs Ed]; intros N; try congruence.
    - apply co_nil.
    - eapply co_filtered; eauto.
    - eapply co_filter_throws; eauto.
    - eapply co_deliver; eauto. apply resolving_more; auto. intros ->. discriminate.
    - eapply co_resolve_throws; eauto. apply resolving_more; auto. intros ->. discriminate.
  Qed.
  Lemma history_more : forall validate h r, history O typenames has_field roots CB ans fuel validate h r -> history O typenames has_field roots CB ans fuel' validate h r.
  Proof.
    intros validate h r H. induction H as [|h r c a r' H IH Sv]; [constructor|]. eapply hi_call; [exact IH|].
    inversion Sv as [r0 d0 n0 v0 c0 k0 r2 E0|r0 d0 n0 v0 c0 e0 E0|r0 l0 d0 n0 v0 c0 e0 E0|r0 l0 d0 n0 v0 c0 k0 r2 o reg x E0 E1 E2 E3|r0 l0 d0 n0 v0 c0 k0 r2 o reg e r3 E0 E1 E2 E3 E4|r0 k0 r2 E0|r0 k0 e0 E0|r0 l0 k0 e0 de E0 E1
      |r0 l0 k0 o reg x r2 E0 E1 E2 E3|r0 l0 k0 o reg e E0 E1 E2|r0 l0 k0 r2 E0 E1|r0 l0 n0 f0 o0 log0 final0 NU D]; subst.
    - now apply se_subscribe.
    - now apply se_subscribe_fails.
    - now apply se_async_fails.
    - eapply se_async_notified; eauto. apply resolving_more; [exact E3|discriminate].
    - eapply se_async_rejected; eauto. apply resolving_more; [exact E3|discriminate].
    - now apply se_unsubscribe.
    - now apply se_unsubscribe_throws.
    - eapply se_unasync_unknown; eauto.
    - eapply se_unasync_notified; eauto. apply resolving_more; [exact E2|discriminate].
    - eapply se_unasync_rejected; eauto. apply resolving_more; [exact E2|discriminate].
    - eapply se_unasync_unsupported; eauto.
    - apply se_deliver; auto. inversion D as [R0|R0 Ob|de o R0 Ob Fi|de o keys is out log final R0 Ob Fi Co Ca]; subst.
      + now apply de_unsupported.
      + now apply de_no_object.
      + eapply de_no_listener; eauto.
      + eapply de_listeners; eauto. apply collects_more; auto. intros ->. destruct Ca as (ss & asyncs & _ & _ & _ & _ & Ef). contradiction.
  Qed.
End More.

(** An event reaches all its recipients if they are careful subscriptions to its object's type: given enough stack nothing that
    resolving does ends the delivery before it is complete. *)
Theorem C59_delivered_partial : forall S O CB (typenames : O -> list string) has_field ans otype roots fuel0 (h : list (SubscriptionModel.call O CB * answered CB)) r l name f object o rs,
  schema_wf S -> interfaces_implemented S -> conditions_declared S -> typed_service S typenames has_field ans otype ->
  history O typenames has_field roots CB ans fuel0 (validation S) h r ->
  Forall plain_call h -> (made h < size_t_max)%N -> name <> "" ->
  find_root O "subscription" roots <> None -> event_object roots object o ->
  (forall n v, exists b, fst (filters_of f) n v = Ok b) -> (forall n v, exists b, snd (filters_of f) n v = Ok b) ->
  recipients (default_types typenames roots) h name f rs ->
  (forall k s, In (k, s) rs -> careful_subscription S s /\ exists op, subscribed S s op (otype o)) ->
  exists N, forall fuel, N <= fuel -> exists log,
    history O typenames has_field roots CB ans fuel (validation S) (h ++ [(Deliver l name f object, CalledBack log (Ok tt))]) r /\
    Permutation (map who log) (map who_is rs).
Proof.
  intros S O CB typenames has_field ans otype roots fuel0 h r l name f object o rs WF II CD TS H P M Nn NR Eo F1 F2 Rs Hc.
  assert (B : forall rs', incl rs' rs -> exists N, forall fuel, N <= fuel ->
    forall k s, In (k, s) rs' -> exists x d, resolves_to typenames has_field ans fuel CSubscription l o s x /\ document_for x d).
  2: { destruct (B rs (incl_refl _)) as [N HN]. exists (Nat.max fuel0 N). intros fuel Lf.
       apply (C20_delivered O typenames has_field roots CB ans fuel (validation S) h r l name f object o rs); auto.
       - apply (history_more typenames has_field roots ans fuel0 fuel); [lia|exact H].
       - intros k s I. apply (HN fuel) with k; [lia|exact I]. }
  induction rs' as [|[k s] rs' IH]; intros Inc.
  - exists 0. intros fuel _ k s [].
  - destruct IH as [N HN]; [intros x I; apply Inc; now right|].
    assert (I0 : In (k, s) rs) by (apply Inc; now left). destruct (Hc k s I0) as (Ca & op & Sb). pose proof (proj1 (proj2 Rs k s) I0) as (Il & _).
    destruct (live_subscribed typenames has_field roots ans S _ _ _ _ _ H P M Il) as (given & op' & frags & ds & V & _ & Va & Ops & _ & F & D).
    assert (op' = op) by (destruct Sb as (E & _); congruence). subst op'.
    destruct (subscription_resolves typenames has_field ans S WF II CD otype TS s op _ l o given frags ds Va Ca Sb V F D eq_refl) as (kvs & errs & R & _).
    destruct (proj2 (R _) eq_refl) as (_ & N0 & C). exists (Nat.max N0 N). intros fuel Lf k' s' [E|I]; [|apply (HN fuel) with k'; [lia|exact I]].
    injection E as <- <-. eexists _, _. split; [|apply df_result]. exists given, op, frags, ds. split; [exact V|]. split; [exact Ops|]. split; [exact F|]. split; [exact D|].
    apply computes_iff. apply computes_iff in C. rewrite <- C. apply dresolve_up; [lia|congruence].
Qed.

(** ** The hypotheses are met *)
(** type Node { f(x: Int): Int }  type Subscription { changed(k: Int): Node } *)
Definition S59 : schema := mkSchema
  [("Int", scalar_t); ("String", scalar_t); ("Boolean", scalar_t);
   ("Node", object_t [field_ "f" (TNamed "Int") [arg_ "x" (TNamed "Int") ""]] []);
   ("Query", object_t [field_ "f" (TNamed "Int") []] []);
   ("Sub", object_t [field_ "changed" (TNamed "Node") [arg_ "k" (TNamed "Int") ""]] [])]
  "Query" None (Some "Sub") [] false.
Lemma S59_wf : schema_wf S59.
Proof. apply SchemaCheck.schema_wf_b_ok. vm_compute. reflexivity. Qed.
Lemma implemented59 : interfaces_implemented S59.
Proof.
  intros i di t dt f Hi Ki It Ht If. exfalso.
  refine (assoc_Forall (fun x => td_kind (snd x) = INTERFACE -> False) i di _ _ Hi Ki). repeat apply Forall_cons; try apply Forall_nil; simpl; discriminate.
Qed.
Lemma covariant59 : interfaces_covariant S59.
Proof.
  intros i di t dt f f' Hi Ki. exfalso.
  refine (assoc_Forall (fun x => td_kind (snd x) = INTERFACE -> False) i di _ _ Hi Ki). repeat apply Forall_cons; try apply Forall_nil; simpl; discriminate.
Qed.
Lemma conditions59 : conditions_declared S59.
Proof. split; [kind_|]. intros dd []. Qed.
Lemma enums59 : plain_enums S59 /\ enums_distinct S59.
Proof.
  split; intros n d; [intros v|]; intros Hd Kd; exfalso; refine (assoc_Forall (fun x => td_kind (snd x) = ENUM -> False) n d _ _ Hd Kd);
    repeat apply Forall_cons; try apply Forall_nil; simpl; discriminate.
Qed.

Inductive obj59 : Type := oQ | oN | oS.
Definition type59 (o : obj59) : string := match o with oQ => "Query" | oN => "Node" | oS => "Sub" end.
Definition types59 (o : obj59) : list string := [type59 o].
Definition has59 (o : obj59) (f : string) : bool := existsb (String.eqb f) (match o with oS => ["changed"; "__typename"] | _ => ["f"; "__typename"] end).
(** If [bad], the accessor of f throws. *)
Definition ans59 (bad : bool) (o : obj59) (f : string) (p : fparams) : answer obj59 :=
  if String.eqb f "__typename" then AResult (FLeaf true false (Ok (VString (type59 o) false)))
  else if String.eqb f "changed" then AResult (FDerived (Ok (Some oN)))
  else if bad then AThrow (Exn runtime_error "no f")
  else AResult (FLeaf true false (Ok (VInt 42))).
Lemma typed59 : forall bad, typed_service S59 types59 has59 (ans59 bad) type59.
Proof.
  intro bad. constructor.
  - destruct o; kind_.
  - intros o t. split.
    + intros [<-|[]]. left. split; [destruct o; kind_|reflexivity].
    + intros [(_ & E)|(d & d' & Hd & Kd & _)]; [left; exact E|exfalso].
      refine (assoc_Forall (fun x => td_kind (snd x) = INTERFACE \/ td_kind (snd x) = UNION -> False) t d _ _ Hd Kd). repeat apply Forall_cons; try apply Forall_nil; simpl; intuition discriminate.
  - intros o f ty args H. unfold has59. apply existsb_exists. exists f. split; [|apply String.eqb_refl].
    inversion H as [d fd Hd Kd Hf|HC|HI HT|HI HT]; subst; try discriminate HI.
    + destruct o; cbn in Hd; injection Hd as <-; cbn in Hf; repeat (destruct Hf as [<-|Hf]; [simpl; auto 10|]); destruct Hf.
    + destruct o; simpl; auto 10.
  - intros o f ty args p H _. inversion H as [d fd Hd Kd Hf|HC|HI HT|HI HT]; subst; try discriminate HI.
    + destruct o; cbn in Hd; injection Hd as <-; cbn in Hf; (destruct Hf as [<-|[]]); cbn [fd_name fd_type fd_args field_]; unfold ans59; cbn [String.eqb Ascii.eqb Bool.eqb].
      1, 2: destruct bad; [exact Logic.I|]; apply rf_present; [notnn|]; apply rf_leaf; [left; kind_|]; apply if_nonnull; [discriminate|now apply if_int].
      apply rf_present; [notnn|]. apply rf_derived; [left; kind_|]. left. split; [kind_|reflexivity].
    + unfold ans59. cbn [String.eqb Ascii.eqb Bool.eqb]. apply rf_leaf; [left; kind_|]. apply if_nonnull; [discriminate|]. apply if_string.
Qed.
Lemma mild59 : forall bad, fails_mildly S59 (ans59 bad) type59.
Proof.
  intros bad T f p is ty args u F Hf Hp.
  assert (G : f <> "__typename" /\ is = []).
  { destruct F as [o q ex _ _ E|o q r is ex _ _ E L]; unfold ans59 in E; destruct (String.eqb_spec f "__typename"), (String.eqb_spec f "changed"), bad; try discriminate E; auto; injection E as <-; inversion L. }
  destruct G as (G & ->). inversion Hp as [t| |]; subst. inversion Hf as [d fd Hd Kd Ifd En|Hc En|Hi Eq En|Hi Eq En]; subst; try congruence; try discriminate Hi.
  refine (assoc_Forall (fun x => In fd (td_fields (snd x)) -> ~ is_nonnull (fd_type fd)) T d _ _ Hd Ifd).
  repeat apply Forall_cons; try apply Forall_nil; cbn [snd td_fields object_t scalar_t]; intro I'; repeat (destruct I' as [<-|I']; [intros (? & X); discriminate X|]); destruct I'.
Qed.

(** subscription ($n: Int = 3) { changed(k: 1) { f(x: $n) } } *)
Definition op59 : operation_def := mkOp (at_ 1) (Some "subscription") None [var_ 1 "n" (TNamed "Int") (Some (LInt (at_ 1) 3))] []
  [SField (at_ 2) None "changed" [arg 2 "k" (LInt (at_ 2) 1)] [] (Some (at_ 2, [ValidationExamples.call 3 "f" [arg 3 "x" (LVar (at_ 3) "n")]]))].
Definition doc59 : document := [DOp op59].
Definition s59 (given : entries) : subscription nat := mkSub doc59 "" (VMap given) 7.
Lemma tidy59 : tidy S59 doc59 ["n"] [] "Sub" (op_sel op59).
Proof.
  econstructor; [simpl; repeat apply col_field; apply col_nil| | |dirs50|].
  - simpl. nodup_.
  - intros o I. in_items I; injection I as <-. repeat constructor.
  - intros o ty args sub I Hof Es. in_items I; injection I as <-; simpl in *; injection Es as <-.
    assert (E : ty = TNamed "Node").
    { refine (proj1 (field_of_fun S59 S59_wf _ _ _ _ _ _ Hof _)). eapply (field_declared S59 "Sub") with (f := field_ "changed" (TNamed "Node") [arg_ "k" (TNamed "Int") ""]); [reflexivity|now left|now left]. }
    subst ty. econstructor; [simpl; repeat apply col_field; apply col_nil| | |dirs50|].
    + simpl. nodup_.
    + intros o I. in_items I; injection I as <-. constructor; [|constructor]. apply pl_var. now left.
    + intros o ty' args' sub I Hof' Es. in_items I; injection I as <-; simpl in *; discriminate.
Qed.
Lemma careful59 : careful_subscription S59 (s59 [("n", VInt 5)]).
Proof.
  split; [doc_wf_|]. exists [("n", VInt 5)]. split; [reflexivity|]. split; [intros n v; simpl; destruct (String.eqb n "n"); [|discriminate]; intro X; injection X as <-; reflexivity|].
  intros op T (Ops & HT). injection Ops as <-. cbn in HT. injection HT as <-. destruct (tidy_ok _ _ _ _ _ _ tidy59) as (DB & PB).
  split; [|split; [|exact PB]].
  - intros v [<-|[]]. exists (VInt 5). split; [reflexivity|]. split; [now apply if_int|discriminate].
  - apply (distinct_operation S59 doc59 "" op59 "Sub" S59_wf); [doc_wf_|vm_compute; reflexivity| |reflexivity|exact DB]. exists [], []. split; [reflexivity|]. split; [reflexivity|congruence].
Qed.
Definition roots59 : list (string * option obj59) := [("query", Some oQ); ("subscription", Some oS)].
Definition history59 (bad : bool) := history obj59 types59 has59 roots59 nat (ans59 bad) 9 (validation S59).
Definition before59 (given : entries) : list (SubscriptionModel.call obj59 nat * answered nat) := [(Subscribe doc59 "" (VMap given) 7, GotKey 0%N)].
Definition deliver59 (object : option obj59) : SubscriptionModel.call obj59 nat := Deliver LDeferred "changed" (ByArguments [("k", VInt 1)]) object.
Ltac history59_ :=
  eexists; unfold history59, before59; eapply hi_call; [refine (hi_call _ _ _ _ _ _ _ _ [] _ _ _ _ (hi_new _ _ _ _ _ _ _ _) _); apply se_subscribe; vm_compute; reflexivity|];
  apply se_deliver; [discriminate|]; eapply de_listeners; [reflexivity|reflexivity|vm_compute; reflexivity|
    eapply co_deliver; [vm_compute; reflexivity|vm_compute; reflexivity|apply resolving_iff, computes_iff; vm_compute; reflexivity|vm_compute; reflexivity|apply co_nil]
    |apply deferred_calls].
Lemma plain59 : forall given, copyable given -> Forall plain_call (before59 given).
Proof.
  intros given Hc. constructor; [|constructor]. split; [exists given; auto|]. intros op [<-|[]] loc al args dirs sub [E|[]]. discriminate.
Qed.
Definition event59 : value := VMap [("data", VMap [("changed", VMap [("f", VInt 42)])])].
Definition event59_bad : value := VMap [("data", VMap [("changed", VMap [("f", VNull)])]); ("errors", VList [build_error_entry (mkErr "Field error name: f unknown error: no f" (at_ 3) [PName "changed"; PName "f"])])].
Example C59_example :
  (exists r, history59 false (before59 [("n", VInt 5)] ++ [(deliver59 None, CalledBack [mkInv 0%N 7 event59] (Ok tt))]) r) /\
  (exists r, history59 true (before59 [("n", VInt 5)] ++ [(deliver59 None, CalledBack [mkInv 0%N 7 event59_bad] (Ok tt))]) r) /\
  In (0%N, s59 [("n", VInt 5)]) (live (before59 [("n", VInt 5)])) /\ subscribed S59 (s59 [("n", VInt 5)]) op59 "Sub" /\
  (forall o, event_object roots59 None o -> type59 o = "Sub") /\
  exists fields, (exists N, forall fuel, N <= fuel -> request_loader S59 doc59 fuel "" = Ok (op59, fields)) /\ data_received fields event59 /\ data_received fields event59_bad.
Proof.
  assert (H1 : exists r, history59 false (before59 [("n", VInt 5)] ++ [(deliver59 None, CalledBack [mkInv 0%N 7 event59] (Ok tt))]) r) by history59_.
  assert (H2 : exists r, history59 true (before59 [("n", VInt 5)] ++ [(deliver59 None, CalledBack [mkInv 0%N 7 event59_bad] (Ok tt))]) r) by history59_.
  assert (Hl : In (0%N, s59 [("n", VInt 5)]) (live (before59 [("n", VInt 5)]))) by (left; reflexivity).
  assert (Hs : subscribed S59 (s59 [("n", VInt 5)]) op59 "Sub") by (split; reflexivity).
  assert (Ho : forall o, event_object roots59 None o -> type59 o = "Sub").
  { intros o [E|(_ & E)]; [discriminate|]. injection E as <-. reflexivity. }
  split; [exact H1|]. split; [exact H2|]. split; [exact Hl|]. split; [exact Hs|]. split; [exact Ho|].
  assert (Hp : Forall plain_call (before59 [("n", VInt 5)])).
  { apply plain59. intros n v. simpl. destruct (String.eqb n "n"); [|discriminate]. intro X. injection X as <-. reflexivity. }
  destruct (tidy_ok _ _ _ _ _ _ tidy59) as (DB & _). pose proof (distinct_consistent _ _ _ _ _ DB) as CB.
  destruct enums59 as (PE & DE). destruct H1 as (r1 & H1), H2 as (r2 & H2).
  destruct (C59_client_reads_partial S59 obj59 nat types59 has59 (ans59 false) type59 roots59 9 (before59 [("n", VInt 5)]) r1 LDeferred "changed" (ByArguments [("k", VInt 1)]) None _ _
    S59_wf implemented59 covariant59 PE DE conditions59 (typed59 false) H1 Hp eq_refl (mild59 false) _ _ _ _ (or_introl eq_refl) Hl careful59 Hs CB Ho) as (fields & (N1 & F1) & _ & D1 & _).
  destruct (C59_client_reads_partial S59 obj59 nat types59 has59 (ans59 true) type59 roots59 9 (before59 [("n", VInt 5)]) r2 LDeferred "changed" (ByArguments [("k", VInt 1)]) None _ _
    S59_wf implemented59 covariant59 PE DE conditions59 (typed59 true) H2 Hp eq_refl (mild59 true) _ _ _ _ (or_introl eq_refl) Hl careful59 Hs CB Ho) as (fields' & (N2 & F2) & _ & D2 & _).
  exists fields. split; [exists N1; exact F1|]. split; [exact D1|].
  specialize (F1 (Nat.max N1 N2) (Nat.le_max_l _ _)). specialize (F2 (Nat.max N1 N2) (Nat.le_max_r _ _)). simpl s_doc in F1, F2. rewrite F1 in F2. injection F2 as <-. exact D2.
Qed.

(** ** Events that go wrong *)
(** "An event is resolved on an object of the subscription's type": refuted, deliver takes any object; the field is unknown to it, and the
    error tells of no accessor. *)
Theorem C59_wrong_object_refuted : never_fails S59 (ans59 false) type59 /\ careful_subscription S59 (s59 [("n", VInt 5)]) /\
  exists r, history59 false (before59 [("n", VInt 5)] ++ [(deliver59 (Some oN), CalledBack [mkInv 0%N 7
    (VMap [("data", VMap [("changed", VNull)]); ("errors", VList [build_error_entry (mkErr "Unknown field name: changed" (at_ 2) [])])])] (Ok tt))]) r.
Proof.
  split; [|split; [apply careful59|history59_]].
  intros T f p is F. destruct F as [o q ex _ _ E|o q r is ex _ _ E L]; unfold ans59 in E; destruct (String.eqb f "__typename"), (String.eqb f "changed"); try discriminate E; injection E as <-; inversion L.
Qed.
(** "A variable that is not passed has its default value, or is null": refuted. The document is accepted and the subscription made, but
    the whole field is null in each of its events, with an error that tells of no accessor. *)
Theorem C59_default_value_refuted : accepted S59 doc59 /\ variables_given S59 (op_vars op59) [] /\
  exists r, history59 false (before59 [] ++ [(deliver59 None, CalledBack [mkInv 0%N 7
    (VMap [("data", VMap [("changed", VNull)]); ("errors", VList [build_error_entry (mkErr "Unknown variable name: n" (at_ 3) [])])])] (Ok tt))]) r.
Proof.
  split; [vm_compute; reflexivity|]. split; [|history59_]. intros v [<-|[]]. cbn. now apply pl_int.
Qed.
Print Assumptions C59_event_partial. Print Assumptions C59_no_failure_partial. Print Assumptions C59_client_reads_partial. Print Assumptions C59_delivered_partial.
Print Assumptions C59_wrong_object_refuted. Print Assumptions C59_default_value_refuted.
