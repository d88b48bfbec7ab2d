(** C50: a request that validation accepts, on a service whose accessors respect the schema, goes wrong only in accessors,
    and its data has the types of the schema. *)
From Verif Require Import Cpp Value Ast ErrorModel ExecModel ExecSem ExecSpec ExecValues ExecBigSpec ExecBigProps IntroStandard.
From Verif Require Import SchemaModel ValidationModel ValidationSpec ValidationValues ValidationFields ValidationCheck ValidationSelections ValidationScope
  ValidationDocument ValidationUse ValidationRepeats ValidationExamples TypedSpec TypedValues TypedProofs TypedExample.
From Verif Require ExecRequest2.
From Coq Require Import List Lia.
Local Open Scope string_scope.
Local Open Scope list_scope.

(** The fragments of the execution are those of the document. *)
Lemma fragments_found : forall given doc frags, fragments_of given doc frags -> forall n, match find_frag doc n with
    | Some f => exists fr, find_fragment n frags = Some fr /\ fr_type fr = f_cond f /\ fr_sel fr = f_sel f
    | None => True end.
Proof.
  intros given doc frags H n. unfold fragments_of in H. unfold find_frag. induction H as [|d [k fr] l l' (E & E1 & E2 & _) F IH]; simpl in *; [exact I|].
  subst k. destruct (String.eqb n (f_name d)); [eauto|exact IH].
Qed.

(** Nothing in the selection sets below [sels] that the rules do not look at. *)
Definition plain_below (S : schema) (doc : document) (known : list string) (stk : list string) (T : string) (sels : list selection) : Prop :=
  forall stk' T' sels' items, below S doc any stk T sels stk' T' sels' -> collect S doc stk' T' sels' items ->
    (forall o, In (IField o) items -> plain_args known (oc_args o)) /\ (forall loc ds, In (IDirs loc ds) items -> plain_dirs known ds).

Lemma accepted_checked : forall S doc vars known stk T sels, schema_wf S -> scope_ok S doc (Some vars) stk T sels ->
  repeats_ok S doc (Some vars) stk T sels -> plain_below S doc known stk T sels -> checked S doc vars known stk T sels.
Proof.
  intros S doc vars known stk T sels W H R. generalize (repeats_thorough S doc (Some vars) W stk T sels R H). clear H R. intros H. induction H as [stk T sels items HC HD HF1 HF2 HF3 IH]. intros PB.
  destruct (PB stk T sels items (below_self _ _ _ _ _ _) HC) as (P1 & P2).
  econstructor; [exact HC| | | |].
  - intros loc ds I. split; [exact (HD loc ds I)|exact (P2 loc ds I)].
  - intros o I. destruct (HF1 o I) as (U & ex). split; [exact U|]. split; [exact (P1 o I)|exact ex].
  - intros o ty args I Hof. apply HF2; auto.
  - intros o ty args sub I Hof Es. apply (IH o ty args sub); auto.
    intros stk2 T2 sels2 items2 B2 C2. apply (PB stk2 T2 sels2 items2); auto. eapply below_sub; eauto. exact Logic.I.
Qed.
(** Without two fields of one response key there is nothing to ask. *)
Lemma distinct_operation : forall S doc name op T, schema_wf S -> document_wf doc -> accepted S doc -> selects name (operations doc) op -> root_type S op = Some T ->
  distinct_below S doc [] T (op_sel op) -> repeats_ok S doc (Some (op_vars op)) [] T (op_sel op).
Proof.
  intros S doc name op T W D A Sel HT DB. apply accepted_iff in A as (_ & _ & _ & _ & A & _); auto.
  assert (Iop : In op (operations doc)) by (destruct Sel as (pre & post & -> & _); apply in_or_app; right; now left).
  destruct (A op Iop) as (_ & _ & T1 & ET & HS & _). rewrite HT in ET. injection ET as <-. exact (distinct_repeats S doc (Some (op_vars op)) _ _ _ HS DB).
Qed.

(** The values given for the variables of an operation fit, and none that is needed is missing. *)
Definition variables_given (S : schema) (vs : list variable_def) (given : entries) : Prop := forall v, In v vs ->
  match lookup (v_name v) given, v_default v with
  | Some x, _ => input_fits S (v_type v) x /\ (var_nonnull_default v = true -> x <> VNull)
  | None, Some l => TypedSpec.plain [] l
  | None, None => ~ is_nonnull (v_type v)
  end.

Lemma variables_declared : forall S vs before, variables_ok S before vs ->
  NoDup (map v_name vs) /\ (forall v, In v vs -> ~ In (v_name v) (map v_name before)) /\
  forall v l, In v vs -> v_default v = Some l -> exists before', value_ok S (Some before') false (v_type v) l.
Proof.
  intros S vs. induction vs as [|v vs IH]; intros before H; simpl in *.
  - split; [constructor|]. split; [intros v []|intros v l []].
  - destruct H as (N & _ & D & H). destruct (IH _ H) as (N1 & N2 & N3). split; [|split].
    + constructor; auto. intro I. apply in_map_iff in I as (w & E & Iw). apply (N2 w Iw). rewrite map_app, E. apply in_or_app. right. now left.
    + intros w [<-|Iw]; auto. intro I. apply (N2 w Iw). rewrite map_app. apply in_or_app. now left.
    + intros w l [<-|Iw] E; [destruct (D l E); eauto|eauto].
Qed.

Lemma lookup_nodup : forall (es : entries) k v, NoDup (map fst es) -> In (k, v) es -> lookup k es = Some v.
Proof.
  intros es k v. induction es as [|[n x] es IH]; intros ND I; [destruct I|]. simpl in *. inversion ND as [|? ? N ND']; subst. destruct I as [E|I].
  - injection E as -> ->. now rewrite String.eqb_refl.
  - destruct (String.eqb_spec k n) as [->|]; [exfalso; apply N; apply (in_map fst) in I; exact I|auto].
Qed.

Lemma variables_exist : forall S vs given, variables_ok S [] vs -> variables_given S vs given ->
  exists es, variables_of vs given es /\ variables_fit S vs es.
Proof.
  intros S vs given HV HG. destruct (variables_declared _ _ _ HV) as (ND & _ & HD).
  destruct (forall2_build _ _ (fun (v : variable_def) (kv : string * value) => fst kv = v_name v /\
    match lookup (v_name v) given, v_default v with
    | Some x, _ => snd kv = x
    | None, Some l => lit_value given l (snd kv)
    | None, None => snd kv = VNull
    end) vs) as [es F].
  { intros v I. specialize (HG v I). destruct (lookup (v_name v) given) as [x|]; [exists (v_name v, x); auto|].
    destruct (v_default v) as [l|]; [|exists (v_name v, VNull); auto].
    destruct (plain_value [] given l) as [x Hx]; [intros n []|exact HG|exists (v_name v, x); auto]. }
  assert (Hk : map fst es = map v_name vs) by (clear - F; induction F as [|a b l l' (E & _) F IH]; simpl; [reflexivity|]; now rewrite E, IH).
  assert (Hl : forall v, In v vs -> exists x, lookup (v_name v) es = Some x /\ match lookup (v_name v) given, v_default v with
    | Some y, _ => x = y | None, Some l => lit_value given l x | None, None => x = VNull end).
  { intros v I. destruct (forall2_in_left _ _ _ _ _ _ F I) as ([k x] & Ix & E & M). simpl in E, M. subst k. exists x. split; [|exact M].
    apply lookup_nodup; auto. now rewrite Hk. }
  exists es. split; [split; [exact Hk|]|].
  - intros v I. destruct (Hl v I) as (x & Ex & M). destruct (lookup (v_name v) given) as [y|]; [now subst|]. destruct (v_default v) as [l|]; [eauto|now subst].
  - intros v I. destruct (Hl v I) as (x & Ex & M). specialize (HG v I). exists x. split; [exact Ex|].
    destruct (lookup (v_name v) given) as [y|]; [now subst|]. unfold var_nonnull_default. destruct (v_default v) as [l|] eqn:Ed.
    + destruct (HD v l I Ed) as (before & Hok).
      destruct (literal_fits S before given [] (fun w _ (f : In (v_name w) []) => match f with end) l false (v_type v) x Hok M HG) as [Fx|(E & _)]; [|discriminate].
      split; [exact Fx|]. intros Hn Hx. subst x. inversion M; subst; try discriminate. inversion HG as [? ? Hin| | | | | | | |]; subst. destruct Hin.
    + subst x. split; [now apply if_null|discriminate].
Qed.

Lemma plain_dirs_value : forall known (es : entries) ds, (forall n, In n known -> lookup n es <> None) ->
  Forall (fun d => plain_args known (d_args d)) ds -> exists ds', dirs_value es (named_only ds) ds'.
Proof.
  intros known es ds K P. rewrite Forall_forall in P.
  destruct (forall2_build _ _ (fun d (kv : string * value) => fst kv = d_name d /\ exists a, args_value es (d_args d) a /\ snd kv = VMap a) (named_only ds)) as [kvs F].
  { intros d Id. unfold named_only in Id. apply filter_In in Id as (Id & _). destruct (plain_args_value _ es _ K (P d Id)) as [a Ha]. exists (d_name d, VMap a). simpl. eauto. }
  exists (firsts kvs), kvs. auto.
Qed.

(** Executing a selection set all of whose fields have been checked, on an object of the type: there is a result; it is an
    object of the response data whose entries are selected fields with values of the fields' types; where a non-null
    value is missing an accessor failed at that path; and every error tells of a failing accessor. *)
Theorem C50_execution : forall S O (typenames : O -> list string) has_field ans otype doc vs es e given,
  schema_wf S -> interfaces_implemented S -> conditions_declared S -> typed_service S typenames has_field ans otype ->
  variables_fit S vs es -> copyable es -> e_vars e = VMap es -> fragments_of given doc (e_frags e) ->
  forall stk T sels, checked S doc vs (map v_name vs) stk T sels ->
  forall o p, possible S T (otype o) -> exists kvs errs,
    (forall r, results typenames has_field ans e o (rev p) sels r <-> r = Ok (mkRR (VMap kvs) errs)) /\
    Forall (accessor_error S ans otype) errs /\ object_fits S doc (failed_at S ans otype) p (otype o) sels kvs.
Proof.
  intros S O typenames has_field ans otype doc vs es e given WF II CD TS V HC HE HF stk T sels CK o p HP.
  destruct (checked_executes S WF II CD typenames has_field ans otype TS doc vs es e V HC (fragments_found _ _ _ HF) stk T sels CK) as [n Hn].
  destruct (Hn o p HP) as (kvs & errs & X & Y & Z). exists kvs, errs. split; [|auto].
  apply (C45_execution O typenames has_field ans es e n sels o p (VMap kvs) errs HC HE X).
Qed.

(** A request whose document is accepted, with variables of the declared types. Missing from the full claim: documents with
    a field that has the response key of an earlier one in its selection set and breaks the rules ([repeats_ok]), or with what the rules do not look at
    ([plain_below]: integers beyond 32 bits, undeclared variables inside custom scalars, @skip and @include without their
    argument or together); the theorems named C50_..._refuted show that these can go wrong. *)
Theorem C50_validated_request_partial : forall S O (typenames : O -> list string) has_field ans otype roots l doc name given
    St (handler : St -> O -> string -> fparams -> St * answer O) op T root,
  schema_wf S -> interfaces_implemented S -> conditions_declared S -> typed_service S typenames has_field ans otype -> answers_alone handler ans ->
  document_wf doc -> accepted S doc ->
  selects name (operations doc) op -> op_kind op <> "subscription" -> root_type S op = Some T ->
  find_root O (op_kind op) roots = Some (Some root) -> otype root = T ->
  copyable given -> variables_given S (op_vars op) given ->
  Forall (fun d => plain_args (map v_name (op_vars op)) (d_args d)) (op_dirs op) ->
  (forall f, In f (fragments doc) -> Forall (fun d => plain_args (map fst given) (d_args d)) (f_dirs f)) ->
  repeats_ok S doc (Some (op_vars op)) [] T (op_sel op) -> plain_below S doc (map v_name (op_vars op)) [] T (op_sel op) ->
  exists kvs errs,
    (exists N, forall fuel, N <= fuel -> forall s d,
      responds handler s (start_request O typenames has_field roots fuel (fun d => fst (validate S d initial)) l doc name (VMap given)) d
      <-> d = Ok (VMap (("data", VMap kvs) :: match errs with [] => [] | _ => [("errors", VList (map build_error_entry errs))] end))) /\
    Forall (accessor_error S ans otype) errs /\ object_fits S doc (failed_at S ans otype) [] T (op_sel op) kvs.
Proof.
  intros S O typenames has_field ans otype roots l doc name given St handler op T root WF II CD TS A DW AC Sel Ks Hroot Hfind Hot Hc HG Pop Pfr DB PB.
  assert (Iop : In op (operations doc)) by (destruct Sel as (pre & post & -> & _); apply in_or_app; right; now left).
  pose proof (proj1 (accepted_iff S doc WF DW) AC) as (_ & _ & _ & _ & HO & _). destruct (HO op Iop) as (HV & _ & T' & ET & HS & _).
  rewrite Hroot in ET. injection ET as <-.
  destruct (variables_exist S (op_vars op) given HV HG) as (es & Hvars & Vfit). destruct (variables_declared _ _ _ HV) as (NDv & _).
  assert (HFR : exists frags, fragments_of given doc frags).
  { unfold fragments_of. apply forall2_build. intros f If.
    destruct (plain_dirs_value (map fst given) given (f_dirs f)) as [ds Hds]; [intros n Hn; now apply lookup_present|auto|].
    exists (f_name f, mkFragment (f_cond f) ds (f_sel f)). simpl. auto. }
  destruct HFR as (frags & HFR).
  assert (Hknown : forall n, In n (map v_name (op_vars op)) -> lookup n es <> None).
  { intros n Hn. destruct Hvars as (E & _). rewrite <- E in Hn. now apply lookup_present. }
  destruct (plain_dirs_value _ es (op_dirs op) Hknown Pop) as (ds & Hds).
  pose proof (accepted_checked _ _ _ _ _ _ _ WF HS DB PB) as CK.
  set (e := mkEnv (if String.eqb (op_kind op) "mutation" then CMutation else CQuery) ds frags (VMap es) LDeferred).
  destruct (checked_executes S WF II CD typenames has_field ans otype TS doc (op_vars op) es e Vfit (ExecRequest2.variables_copyable _ _ _ Hc Hvars) (fragments_found _ _ _ HFR) [] T (op_sel op) CK) as [n Hn].
  assert (HP : possible S T (otype root)) by (left; rewrite Hot; split; [rewrite <- Hot; apply (ts_object _ _ _ _ _ TS)|reflexivity]).
  destruct (Hn root [] HP) as (kvs & errs & X & Y & Z). exists kvs, errs. split; [|rewrite <- Hot; auto].
  apply (C45_response O typenames has_field roots (fun d => fst (validate S d initial)) l doc name given ans St handler op es ds frags root n (VMap kvs) errs); auto.
Qed.

(** If no accessor fails there are no errors, and there is null only where the schema allows it. *)
Theorem C50_no_failure_partial : forall S O (typenames : O -> list string) has_field ans otype roots l doc name given
    St (handler : St -> O -> string -> fparams -> St * answer O) op T root,
  schema_wf S -> interfaces_implemented S -> conditions_declared S -> typed_service S typenames has_field ans otype -> answers_alone handler ans ->
  document_wf doc -> accepted S doc ->
  selects name (operations doc) op -> op_kind op <> "subscription" -> root_type S op = Some T ->
  find_root O (op_kind op) roots = Some (Some root) -> otype root = T ->
  copyable given -> variables_given S (op_vars op) given ->
  Forall (fun d => plain_args (map v_name (op_vars op)) (d_args d)) (op_dirs op) ->
  (forall f, In f (fragments doc) -> Forall (fun d => plain_args (map fst given) (d_args d)) (f_dirs f)) ->
  repeats_ok S doc (Some (op_vars op)) [] T (op_sel op) -> plain_below S doc (map v_name (op_vars op)) [] T (op_sel op) ->
  never_fails S ans otype ->
  exists kvs, object_fits S doc nowhere [] T (op_sel op) kvs /\
    exists N, forall fuel, N <= fuel -> forall s d,
      responds handler s (start_request O typenames has_field roots fuel (fun d => fst (validate S d initial)) l doc name (VMap given)) d
      <-> d = Ok (VMap [("data", VMap kvs)]).
Proof.
  intros S O typenames has_field ans otype roots l doc name given St handler op T root WF II CD TS A DW AC Sel Ks Hroot Hfind Hot Hc HG Pop Pfr DB PB NF.
  destruct (C50_validated_request_partial S O typenames has_field ans otype roots l doc name given St handler op T root) as (kvs & errs & R & E & F); auto.
  exists kvs. split; [exact (mild_nowhere S O ans otype doc (never_mild _ _ _ _ NF) _ _ _ _ F)|]. assert (errs = []); [|subst errs; exact R].
  destruct errs as [|x errs]; [reflexivity|]. exfalso. inversion E as [|? ? X _]; subst. destruct X; eapply NF; [eapply fa_throw; eauto|eapply fa_leaf; eauto|eapply fa_leaf; eauto].
Qed.
(** If accessors fail only where the type of the field, or of the element of its list, allows null, then the data has null only where the schema allows it;
    the errors tell of the failures. *)
Theorem C50_mild_failures_partial : forall S O (typenames : O -> list string) has_field ans otype roots l doc name given
    St (handler : St -> O -> string -> fparams -> St * answer O) op T root,
  schema_wf S -> interfaces_implemented S -> conditions_declared S -> typed_service S typenames has_field ans otype -> answers_alone handler ans ->
  document_wf doc -> accepted S doc ->
  selects name (operations doc) op -> op_kind op <> "subscription" -> root_type S op = Some T ->
  find_root O (op_kind op) roots = Some (Some root) -> otype root = T ->
  copyable given -> variables_given S (op_vars op) given ->
  Forall (fun d => plain_args (map v_name (op_vars op)) (d_args d)) (op_dirs op) ->
  (forall f, In f (fragments doc) -> Forall (fun d => plain_args (map fst given) (d_args d)) (f_dirs f)) ->
  repeats_ok S doc (Some (op_vars op)) [] T (op_sel op) -> plain_below S doc (map v_name (op_vars op)) [] T (op_sel op) ->
  fails_mildly S ans otype ->
  exists kvs errs, object_fits S doc nowhere [] T (op_sel op) kvs /\ Forall (accessor_error S ans otype) errs /\
    exists N, forall fuel, N <= fuel -> forall s d,
      responds handler s (start_request O typenames has_field roots fuel (fun d => fst (validate S d initial)) l doc name (VMap given)) d
      <-> d = Ok (VMap (("data", VMap kvs) :: match errs with [] => [] | _ => [("errors", VList (map build_error_entry errs))] end)).
Proof.
  intros S O typenames has_field ans otype roots l doc name given St handler op T root WF II CD TS A DW AC Sel Ks Hroot Hfind Hot Hc HG Pop Pfr DB PB MF.
  destruct (C50_validated_request_partial S O typenames has_field ans otype roots l doc name given St handler op T root) as (kvs & errs & R & E & F); auto.
  exists kvs, errs. split; [exact (mild_nowhere S O ans otype doc MF _ _ _ _ F)|]. auto.
Qed.

(** ** The hypotheses are met *)
(** A certificate for [distinct_below] and [plain_below]. *)
Inductive tidy (S : schema) (doc : document) (known : list string) (stk : list string) (T : string) (sels : list selection) : Prop :=
| tidy_intro items : collect S doc stk T sels items -> NoDup (keys items) ->
    (forall o, In (IField o) items -> plain_args known (oc_args o)) -> (forall loc ds, In (IDirs loc ds) items -> plain_dirs known ds) ->
    (forall o ty args sub, In (IField o) items -> field_of S (oc_parent o) (oc_name o) ty args -> oc_sub o = Some sub ->
       tidy S doc known (oc_stack o) (named_type ty) sub) ->
    tidy S doc known stk T sels.
Lemma tidy_below : forall S doc known stk T sels stk' T' sels', below S doc any stk T sels stk' T' sels' ->
  tidy S doc known stk T sels -> tidy S doc known stk' T' sels'.
Proof.
  intros S doc known stk T sels stk' T' sels' B. induction B as [|stk T sels items o ty args sub stk' T' sels' C I F Ho Hs B IH]; auto.
  intro H. apply IH. inversion H as [items' C' _ _ _ Hsub]. rewrite <- (collect_fun S doc _ _ _ _ C _ C') in *. eapply Hsub; eauto.
Qed.
Lemma tidy_ok : forall S doc known stk T sels, tidy S doc known stk T sels -> distinct_below S doc stk T sels /\ plain_below S doc known stk T sels.
Proof.
  intros S doc known stk T sels H. split; intros stk' T' sels' items B C; apply (tidy_below _ _ _ _ _ _ _ _ _ B) in H; inversion H as [items' C' N P1 P2 _];
    rewrite <- (collect_fun S doc _ _ _ _ C _ C') in *; auto.
Qed.

Lemma plain_nodirs : forall known, plain_dirs known [].
Proof. intro known. split; [constructor|]. intros ([] & _). Qed.
Lemma field50 : forall T d f ty args, find_type S0 T = Some d -> (td_kind d = OBJECT \/ td_kind d = INTERFACE) -> In f (td_fields d) ->
  field_of S0 T (fd_name f) ty args -> ty = fd_type f /\ args = fd_args f.
Proof. intros T d f ty args Hd Kd If H. apply (field_of_fun S0 S0_wf _ _ _ _ _ _ H). eapply field_declared; eauto. Qed.

Ltac in_items H := simpl in H; repeat match type of H with _ \/ _ => destruct H as [H|H] end; try contradiction; try discriminate H.
Ltac dirs50 := let loc := fresh in let ds := fresh in let I := fresh "I" in intros loc ds I; in_items I; injection I as <- <-; apply plain_nodirs.

Definition op50 : operation_def := match operations ok_doc with o :: _ => o | [] => mkOp (at_ 0) None None [] [] [] end.
Lemma tidy_leaf : forall stk T n l, find_type S0 T <> None -> (forall ty args, field_of S0 T n ty args -> True) -> tidy S0 ok_doc ["n"; "k"] stk T [fld l n].
Proof.
  intros stk T n l _ _. econstructor; [apply col_field, col_nil| | |dirs50|].
  - simpl. nodup_.
  - intros o I. in_items I. injection I as <-. constructor.
  - intros o ty args sub I _ E. in_items I. injection I as <-. discriminate.
Qed.
Lemma tidy50 : tidy S0 ok_doc ["n"; "k"] [] "Query" (op_sel op50).
Proof.
  econstructor; [simpl; repeat apply col_field; apply col_nil| | |dirs50|].
  - simpl. nodup_.
  - intros o I. in_items I; injection I as <-; unfold plain_args; cbn; repeat match goal with |- _ \/ _ => solve [auto] | |- In _ _ => solve [simpl; auto] | _ => constructor; cbn end.
  - intros o ty args sub I Hof Es. in_items I; injection I as <-; simpl in *; try discriminate; injection Es as <-.
    + destruct (field50 "Query" _ (field_ "node" (TNamed "Node") []) ty args eq_refl (or_introl eq_refl) (or_introl eq_refl) Hof) as (-> & _). simpl.
      econstructor; [eapply (col_spread S0 ok_doc [] "Node" (at_ 2) "F" [] []); [reflexivity|intros []|discriminate|left; reflexivity| |apply col_nil]; simpl; repeat apply col_field; apply col_nil| | |dirs50|].
      * simpl. nodup_.
      * intros o I. in_items I; injection I as <-; constructor.
      * intros o ty' args' sub I Hof' Es. in_items I; injection I as <-; simpl in *; try discriminate; injection Es as <-. apply tidy_leaf; [|auto].
        destruct (field50 "Node" _ (field_ "self" (TNamed "Node") []) ty' args' eq_refl (or_intror eq_refl) (or_intror (or_introl eq_refl)) Hof') as (-> & _). discriminate.
    + destruct (field50 "Query" _ (field_ "u" (TNamed "U") []) ty args eq_refl (or_introl eq_refl) (or_intror (or_introl eq_refl)) Hof) as (-> & _). simpl.
      econstructor; [eapply col_inline; [split; [reflexivity|]; split; [left; kind_|right; exists "A"; split; possible50_]| |apply col_nil]; simpl; repeat apply col_field; apply col_nil| | |dirs50|].
      * simpl. nodup_.
      * intros o I. in_items I; injection I as <-; constructor.
      * intros o ty' args' sub I Hof' Es. in_items I; injection I as <-; simpl in *; discriminate.
Qed.

(** query Q($n: Int!, $k: Int = 3) { node { ...F } u { ... on A { only } } f(x: $n, d: $k, l: [1, $k], o: {a: 1, c: [{a: 2}]}, c: RED) }
    with {"n": 5}, where the accessor of "only" throws. *)
Example C50_example : exists kvs errs,
  (exists N, forall fuel, N <= fuel -> forall d,
    responds (stateless (ans50 true)) tt (start_request obj50 types50 has50 [("query", Some oQuery)] fuel (fun d => fst (validate S0 d initial)) LAsync ok_doc "Q" (VMap [("n", VInt 5)])) d
    <-> d = Ok (VMap (("data", VMap kvs) :: match errs with [] => [] | _ => [("errors", VList (map build_error_entry errs))] end))) /\
  Forall (accessor_error S0 (ans50 true) type50) errs /\ object_fits S0 ok_doc (failed_at S0 (ans50 true) type50) [] "Query" (op_sel op50) kvs.
Proof.
  destruct (tidy_ok _ _ _ _ _ _ tidy50) as (DB & PB).
  destruct (C50_validated_request_partial S0 obj50 types50 has50 (ans50 true) type50 [("query", Some oQuery)] LAsync ok_doc "Q" [("n", VInt 5)]
    unit (stateless (ans50 true)) op50 "Query" oQuery) as (kvs & errs & (N & R) & E); auto.
  - apply S0_wf.
  - apply implemented50.
  - apply conditions50.
  - apply typed50.
  - intros s o f p. reflexivity.
  - apply ok_doc_wf.
  - exact ok_doc_accepted.
  - exists [], []. split; [reflexivity|]. split; [reflexivity|]. intros _. split; [reflexivity|intros o []].
  - discriminate.
  - intros n v. simpl. destruct (String.eqb n "n"); [|discriminate]. intro X. injection X as <-. reflexivity.
  - intros v [<-|[<-|[]]]; simpl.
    + split; [|discriminate]. apply if_nonnull; [discriminate|]. now apply if_int.
    + now constructor.
  - constructor.
  - intros f [<-|[]]. constructor.
  - apply (distinct_operation S0 ok_doc "Q" op50 "Query"); auto; [apply S0_wf|apply ok_doc_wf|exact ok_doc_accepted|].
    exists [], []. split; [reflexivity|]. split; [reflexivity|]. intros _. split; [reflexivity|intros o []].
  - exists kvs, errs. split; [|exact E]. exists N. intros fuel L d. apply R. exact L.
Qed.

(** ** What accepted documents can still run into, with accessors that never fail *)
Lemma quiet50 : never_fails S0 (ans50 false) type50.
Proof.
  assert (Q : forall o f q, match ans50 false o f q with AThrow _ => False | AResult r => forall is ex, ~ leaf_failure r is ex end).
  { intros o f q. unfold ans50. repeat (match goal with |- context [if ?c then _ else _] => destruct c end);
      try (intros is ex H; inversion H; fail); try (destruct o; intros is ex H; inversion H; fail).
    intros is ex H. inversion H as [|f' is' ex' H'|]; subst. destruct (lookup "x" (p_args q)) as [[| | | | |z| | |]|]; try (inversion H'; fail). destruct (in_int_range z); inversion H'. }
  intros T f p is H. destruct H as [o q ex _ _ E|o q r is ex _ _ E L]; specialize (Q o f q); rewrite E in Q; [exact Q|exact (Q _ _ L)].
Qed.
(** The document is accepted; its response, from accessors that never fail, is [r]. *)
Definition goes_wrong (doc : document) (r : result value) : Prop :=
  document_wf doc /\ accepted S0 doc /\
  responds (stateless (ans50 false)) tt
    (start_request obj50 types50 has50 [("query", Some oQuery)] 20 (fun d => fst (validate S0 d initial)) LAsync doc "" (VMap [])) r.
Lemma wrong50 : forall doc r, document_wf doc -> accepted S0 doc ->
  match start_request obj50 types50 has50 [("query", Some oQuery)] 20 (fun d => fst (validate S0 d initial)) LAsync doc "" (VMap []) with
  | RDone x => r = x | RTask l c => r = finish (ExecSemProofs.den obj50 (ans50 false) [] c) end -> goes_wrong doc r.
Proof.
  intros doc r D A H. split; [exact D|]. split; [exact A|]. apply (ExecRequest.responds_iff obj50 (ans50 false)); [intros s o f p; reflexivity|exact H].
Qed.
Ltac wrong_ := apply wrong50; [once doc_wf_|vm_compute; reflexivity|vm_compute; reflexivity].

(** { g @skip } *)
Theorem C50_missing_condition_refuted : goes_wrong [op_ 1 None None [] [SField (at_ 1) None "g" [] [mkDir (at_ 1) "skip" []] None]]
  (Throw (SchemaEx [mkErr "Missing argument directive: skip name: if" (mkLoc 0 1) []])).
Proof. wrong_. Qed.
(** { u { ... on B { x: self { id } } ... on A { x: self { missing } } } } *)
Theorem C50_same_key_refuted : goes_wrong
  [op_ 1 None None [] [obj_fld 1 "u" [on_ 2 "B" [as_fld 2 "x" "self" [fld 2 "id"]]; on_ 3 "A" [as_fld 3 "x" "self" [fld 3 "missing"]]]]]
  (Ok (VMap [("data", VMap [("u", VMap [("x", VMap [("missing", VNull)])])]);
             ("errors", VList [build_error_entry (mkErr "Unknown field name: missing" (at_ 3) [PName "u"; PName "x"])])])).
Proof. wrong_. Qed.
(** { f(x: 1, j: [$v]) } *)
Theorem C50_undeclared_variable_refuted : goes_wrong
  [op_ 1 None None [] [call 1 "f" [arg 1 "x" (LInt (at_ 1) 1); arg 1 "j" (LList (at_ 1) [LVar (at_ 1) "v"])]]]
  (Throw (SchemaEx [mkErr "Unknown variable name: v" (at_ 1) []])).
Proof. wrong_. Qed.
(** { f(x: 3000000000) } *)
Theorem C50_big_integer_refuted : goes_wrong [op_ 1 None None [] [call 1 "f" [arg 1 "x" (LInt (at_ 1) 3000000000)]]] UB.
Proof. wrong_. Qed.

Print Assumptions C50_execution. Print Assumptions C50_validated_request_partial. Print Assumptions C50_no_failure_partial.
Print Assumptions C50_missing_condition_refuted. Print Assumptions C50_same_key_refuted. Print Assumptions C50_undeclared_variable_refuted. Print Assumptions C50_big_integer_refuted.
