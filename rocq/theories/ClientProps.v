(** C52: a client generated for an operation declares a struct for its response and reads every response of a service of the schema. *)
From Coq Require Import String List Bool NArith Arith Lia.
From Verif Require Import Cpp Value Ast ErrorModel ExecModel ExecSem ExecSpec ExecBigSpec JSONModel JSONSpec JSONProofs JSONProps SchemaModel ModifiersModel Base64Spec
  LoaderModel LoaderSpec LoaderProofs.
From Verif Require Import ValidationModel ValidationSpec ValidationFields ValidationSelections ValidationUse ValidationRepeats ValidationExamples TypedSpec TypedValues TypedExample TypedProps
  ClientModel ClientSpec ClientProofs.
Import ListNotations.
Local Open Scope string_scope.
Local Open Scope list_scope.

(** ** The operation *)
Lemma found_operation : forall S doc name op T, selects name (operations doc) op -> root_type S op = Some T -> find_operation S doc name = Ok (op, T).
Proof.
  intros S doc name op T (pre & post & E & H0 & H1) R. unfold find_operation. rewrite E.
  assert (F : List.find (fun o => (String.eqb name "" || String.eqb (operation_name o) name)%bool) (pre ++ op :: post) = Some op).
  { destruct (string_dec name "") as [->|N].
    - rewrite (H0 eq_refl). reflexivity.
    - destruct (H1 N) as (En & Hp). clear E H0 H1. rewrite (proj2 (String.eqb_neq _ _) N). cbn [orb]. induction pre as [|o pre IH]; cbn [app List.find].
      + unfold operation_name. rewrite En, String.eqb_refl. reflexivity.
      + destruct (String.eqb_spec (operation_name o) name) as [Eo|_].
        * exfalso. apply (Hp o (or_introl eq_refl)). unfold operation_name in Eo. destruct (op_name o); congruence.
        * apply IH. intros o' I. apply Hp. now right. }
  rewrite F, R. reflexivity.
Qed.

(** The struct of an accepted operation. [repeats_ok]: fields that use a response key again (with the same field and the same arguments, as validation requires) have arguments and a
    sub-selection that are valid too, and type conditions that agree; [consistent_below]: they have the same sub-selection (both: ValidationRepeats). No response key twice is enough ([distinct_operation]). *)
Theorem C52_struct_partial : forall S doc name op T,
  schema_wf S -> interfaces_covariant S -> plain_enums S -> enums_distinct S -> document_wf doc -> accepted S doc ->
  selects name (operations doc) op -> root_type S op = Some T -> repeats_ok S doc (Some (op_vars op)) [] T (op_sel op) -> consistent_below S doc [] T (op_sel op) ->
  exists fields, (exists N, forall fuel, N <= fuel -> request_loader S doc fuel name = Ok (op, fields)) /\ declares S doc T (op_sel op) fields /\
    (* every object of the response to the operation is read *)
    forall p T' kvs, possible S T T' -> object_fits S doc nowhere p T' (op_sel op) kvs ->
    exists xs, parse_response fields (VMap kvs) = Ok (XStruct xs) /\ shows [] (IStruct fields) (VMap kvs) (XStruct xs).
Proof.
  intros S doc name op T WF COV PE DE DW AC Sel Hroot RO CB.
  assert (Iop : In op (operations doc)) by (destruct Sel as (pre & post & -> & _); apply in_or_app; right; now left).
  pose proof (proj1 (accepted_iff S doc WF DW) AC) as (_ & _ & _ & _ & HO & _). destruct (HO op Iop) as (HV & _ & T' & ET & HS & _).
  rewrite Hroot in ET. injection ET as <-. pose proof (accepted_selection S WF doc (Some (op_vars op)) [] T (op_sel op) HS RO CB) as SO.
  destruct (selection_generated S WF COV PE DE doc [] T (op_sel op) SO) as (fields & (N & M) & D & R).
  exists fields. split; [|split; [exact D|exact R]].
  exists N. intros fuel L. unfold request_loader. unfold accepted in AC. rewrite AC. rewrite (found_operation S doc name op T Sel Hroot). cbn [bind].
  specialize (M fuel L). unfold visit in M. rewrite M. reflexivity.
Qed.

(** The C++ type of a member is the one that belongs to the field's type (as for arguments, C36). *)
Lemma opened_false : forall ms, (forall r, ms <> MNullable :: r) -> opened false ms = (("std::optional<" ++ fst (opened true ms))%string, Datatypes.S (snd (opened true ms))).
Proof.
  intros [|[|] r] H; cbn [opened]; [reflexivity|exfalso; exact (H r eq_refl)|]. destruct (opened true r) as [s n]. reflexivity.
Qed.
Lemma sapp_assoc : forall a b c : string, ((a ++ b) ++ c)%string = (a ++ (b ++ c))%string.
Proof. induction a as [|x a IH]; intros b c; cbn; [reflexivity|]. now rewrite IH. Qed.
Theorem C52_member_type : forall base ty ms, stands_for (named_type ty) ms ty -> cpp_input base ty (output_cpp_type base ms).
Proof.
  intros base ty ms. generalize (named_type ty). intros n H. unfold output_cpp_type. induction H as [|ms e H IH|ms t H IH].
  - cbn [opened closing]. replace ("" ++ base ++ "")%string with base; [constructor|]. cbn. induction base; cbn; congruence.
  - cbn [opened]. destruct (opened true ms) as [s k]. rewrite closing_end, sapp_assoc, <- (sapp_assoc base), <- (sapp_assoc s). now apply ci_list.
  - cbn [opened]. assert (NN : forall r, ms <> MNullable :: r).
    { intros r ->. clear IH. assert (G : forall ms' t', stands_for n ms' t' -> forall t2 r', t' = TNonNull t2 -> ms' = MNullable :: r' -> False); [|exact (G _ _ H t r eq_refl eq_refl)].
      intros ms' t' H'. induction H' as [|ms' e H' IH'|ms' t' H' IH']; intros t2 r' E1 E2; try discriminate. injection E2 as <-. subst t'.
      inversion H' as [|? ? ? E|? ? H'']; subst. eapply IH'; reflexivity. }
    assert (Nt : nullable t).
    { destruct t as [| |t]; simpl; auto. exfalso. inversion H as [|? ? ? E|? ? H'']; subst. exact (NN _ eq_refl). }
    rewrite (opened_false ms NN). destruct (opened true ms) as [s k]. cbn [fst snd]. rewrite closing_end, !sapp_assoc, <- (sapp_assoc base), <- (sapp_assoc s). now apply ci_nullable.
Qed.

(** ** A service and its client *)
(** The client receives a document without errors, and parseResponse gives it the data. *)
Definition received (fields : list field) (reply : value) : Prop :=
  r_errors (parse_service_response reply) = [] /\
  exists kvs xs, r_data (parse_service_response reply) = VMap kvs /\ parse_response fields (r_data (parse_service_response reply)) = Ok (XStruct xs) /\
    shows [] (IStruct fields) (VMap kvs) (XStruct xs).

(** Custom scalars that hold something. *)
Fixpoint filled (v : value) : bool :=
  match v with
  | VScalar (Some x) => match x with VNull => false | _ => filled x end
  | VMap es => forallb (fun kv => filled (snd kv)) es
  | VList l => forallb filled l
  | _ => true
  end.
Lemma filled_not_null : forall trip v, filled v = true -> v <> VNull -> through_json trip v <> VNull.
Proof.
  intros trip v. induction v as [es IH|l IH| | | | | | | |v IH] using value_ind'; cbn; intros F N; try discriminate; try congruence.
  destruct v; try discriminate F; apply IH; auto; discriminate.
Qed.

Section Json.
Variables (S : schema) (doc : document) (trip : spec_float -> spec_float).
Lemma leaf_through : forall n v, leaf_type S n -> input_fits S (TNonNull (TNamed n)) v -> filled v = true -> input_fits S (TNonNull (TNamed n)) (through_json trip v).
Proof.
  intros n v L I F. inversion I as [t N| t v' NV I'| | | | | | | | | | |]; subst; [exfalso; apply N; eexists; reflexivity|]. clear I.
  inversion I' as [t N | | |n' td x Fx Kx Ix|n' td x Fx Kx Ix|z Hz|f|z Hz|s b|s b bytes Hb|b|n' v' Tn NB Nv|n' td kvs Fx Kx Hk]; subst.
  - congruence.
  - apply if_nonnull; [discriminate|]. eapply if_enum_json; eauto.
  - apply if_nonnull; [discriminate|]. eapply if_enum_json; eauto.
  - apply if_nonnull; [discriminate|]. now apply if_int.
  - apply if_nonnull; [discriminate|]. apply if_float.
  - apply if_nonnull; [discriminate|]. now apply if_float_int.
  - apply if_nonnull; [discriminate|]. apply if_string.
  - apply if_nonnull; [discriminate|]. eapply if_id; eauto.
  - apply if_nonnull; [discriminate|]. apply if_boolean.
  - apply if_nonnull; [apply filled_not_null; auto|]. apply if_custom; auto. apply filled_not_null; auto.
  - exfalso. destruct L as [(d & Fd & Kd)|(d & Fd & Kd)]; congruence.
Qed.
Lemma data_through : forall v T0 f0 p is t sels, data_fits S doc nowhere T0 f0 p is t sels v -> filled v = true -> data_fits S doc nowhere T0 f0 p is t sels (through_json trip v).
Proof.
  assert (NN : forall v, (forall T0 f0 p is n sels, data_fits S doc nowhere T0 f0 p is (TNamed n) sels v -> filled v = true -> data_fits S doc nowhere T0 f0 p is (TNamed n) sels (through_json trip v)) ->
    (forall T0 f0 p is t sels, data_fits S doc nowhere T0 f0 p is (TListOf t) sels v -> filled v = true -> data_fits S doc nowhere T0 f0 p is (TListOf t) sels (through_json trip v)) ->
    forall t T0 f0 p is sels, data_fits S doc nowhere T0 f0 p is t sels v -> filled v = true -> data_fits S doc nowhere T0 f0 p is t sels (through_json trip v)).
  { intros v H1 H2. induction t as [n|t _|t IH]; intros T0 f0 p is sels D F; auto.
    inversion D as [? ? ? ? ? ? Fa|? ? ? ? ? ? N|? ? ? ? ? ? v' NV D'| | |]; subst; [now apply df_failed|now apply df_null|]. apply df_nonnull; auto. now apply filled_not_null. }
  assert (LF : forall v T0 f0 p is n sels, (forall kvs, v <> VMap kvs) -> data_fits S doc nowhere T0 f0 p is (TNamed n) sels v -> filled v = true -> data_fits S doc nowhere T0 f0 p is (TNamed n) sels (through_json trip v)).
  { intros v T0 f0 p is n sels NM D F. inversion D as [? ? ? ? ? ? Fa|? ? ? ? ? ? N| | |? ? ? ? n' v' L I'|? ? ? ? n' T ? kvs HP OF]; subst; [now apply df_failed|now apply df_null| |exfalso; exact (NM kvs eq_refl)].
    apply df_leaf; auto. now apply leaf_through. }
  assert (LL : forall v T0 f0 p is t sels, (forall l, v <> VList l) -> data_fits S doc nowhere T0 f0 p is (TListOf t) sels v -> filled v = true -> data_fits S doc nowhere T0 f0 p is (TListOf t) sels (through_json trip v)).
  { intros v T0 f0 p is t sels NL D F. inversion D as [? ? ? ? ? ? Fa|? ? ? ? ? ? N| |? ? ? ? ? ? vs Hv| |]; subst; [now apply df_failed|now apply df_null|exfalso; exact (NL vs eq_refl)]. }
  induction v as [es IH|l IH| | | | | | | |v IH] using value_ind'; intros T0 f0 p is t sels; revert t T0 f0 p is sels;
    try (apply NN; intros; [apply LF; auto; discriminate|apply LL; auto; discriminate]).
  - apply NN; intros; [|apply LL; auto; discriminate]. rename H into D. rename H0 into F.
    inversion D as [? ? ? ? ? ? Fa|? ? ? ? ? ? N| | |? ? ? ? n' v' L I'|? ? ? ? n' T ? kvs HP OF]; subst; [apply df_leaf; auto; now apply leaf_through|].
    cbn [through_json]. eapply df_object; [exact HP|]. inversion OF as [? ? ? ? ND HE]; subst. apply of_intro.
    + rewrite map_map. cbn [fst]. exact ND.
    + intros k v I. apply in_map_iff in I as ([k' v'] & E & I). cbn [fst snd] in E. injection E as <- <-.
      pose proof (HE _ _ I) as EF. inversion EF as [? ? ? ? ? name ty args sub Hsel Hf DF]; subst. eapply ef_intro; [exact Hsel|exact Hf|].
      rewrite Forall_forall in IH. apply (IH _ I); auto. cbn [filled] in F. rewrite forallb_forall in F. exact (F _ I).
  - apply NN; intros; [apply LF; auto; discriminate|]. rename H into D. rename H0 into F.
    inversion D as [? ? ? ? ? ? Fa|? ? ? ? ? ? N| |? ? ? ? ? ? vs Hv| |]; subst. cbn [through_json]. apply df_list. intros i x E.
    apply (nth_map_inv (through_json trip)) in E as (y & Ey & <-). rewrite Forall_forall in IH. apply nth_error_In in Ey as Iy.
    apply (IH _ Iy); [exact (Hv i y Ey)|]. cbn [filled] in F. rewrite forallb_forall in F. exact (F _ Iy).
Qed.
End Json.

(** parseResponse gives the client the data, whatever the errors. *)
Definition data_received (fields : list field) (reply : value) : Prop :=
  exists kvs xs, r_data (parse_service_response reply) = VMap kvs /\ parse_response fields (r_data (parse_service_response reply)) = Ok (XStruct xs) /\
    shows [] (IStruct fields) (VMap kvs) (XStruct xs).
Lemma data_entries_through : forall S doc trip T sels kvs, type_is S T OBJECT -> object_fits S doc nowhere [] T sels kvs -> filled (VMap kvs) = true ->
  object_fits S doc nowhere [] T sels (map (fun kv => (fst kv, through_json trip (snd kv))) kvs).
Proof.
  intros S doc trip T sels kvs TO OF Fl.
  assert (HP : possible S T T) by (left; auto).
  pose proof (data_through S doc trip (VMap kvs) "" "" [] [] (TNamed T) sels (df_object S doc nowhere "" "" [] [] T T sels kvs HP OF) Fl) as DT.
  cbn [through_json] in DT. inversion DT as [| | | |? ? ? ? n v' L I'|? ? ? ? n' T' ? kvs' HP' OF']; subst.
  - exfalso. destruct L as [L|L]; discriminate (kind_fun S _ _ _ L TO).
  - destruct HP' as [(_ & E)|(d & d' & F & K & _)]; [subst T'; exact OF'|]. exfalso. destruct TO as (d2 & F2 & K2).
    assert (d2 = d) by congruence. subst d2. destruct K; congruence.
Qed.

(** A request of the generated client to a service of the same schema, whose accessors do not fail: the service answers with data that the
    client reads, directly or after the answer has been written as JSON and read again. *)
Theorem C52_client_reads_partial : forall S O (typenames : O -> list string) has_field ans otype roots l doc name given
    St (handler : St -> O -> string -> fparams -> St * answer O) op T root,
  schema_wf S -> interfaces_implemented S -> interfaces_covariant S -> plain_enums S -> enums_distinct S -> conditions_declared S ->
  typed_service S typenames has_field ans otype -> answers_alone handler ans ->
  document_wf doc -> accepted S doc ->
  selects name (operations doc) op -> op_kind op <> "subscription" -> root_type S op = Some T ->
  find_root O (op_kind op) roots = Some (Some root) -> otype root = T ->
  copyable given -> variables_given S (op_vars op) given ->
  Forall (fun d => plain_args (map v_name (op_vars op)) (d_args d)) (op_dirs op) ->
  (forall f, In f (fragments doc) -> Forall (fun d => plain_args (map fst given) (d_args d)) (f_dirs f)) ->
  repeats_ok S doc (Some (op_vars op)) [] T (op_sel op) -> consistent_below S doc [] T (op_sel op) -> plain_below S doc (map v_name (op_vars op)) [] T (op_sel op) ->
  never_fails S ans otype ->
  exists fields reply,
    (exists N, forall fuel, N <= fuel -> request_loader S doc fuel name = Ok (op, fields)) /\ declares S doc T (op_sel op) fields /\
    (exists N, forall fuel, N <= fuel -> forall s d,
      responds handler s (start_request O typenames has_field roots fuel (fun d => fst (validate S d initial)) l doc name (VMap given)) d <-> d = Ok reply) /\
    received fields reply /\
    forall trip big, representable reply = true -> filled reply = true ->
      exists events text, writeResponse reply = Ok events /\ spells trip events text /\
        exists reply', parse_events (reader_events big text) = Ok reply' /\ received fields reply'.
Proof.
  intros S O typenames has_field ans otype roots l doc name given St handler op T root WF II COV PE DE CD TS A DW AC Sel Ks Hroot Hfind Hot Hc HG Pop Pfr RO CB PB NF.
  destruct (C50_no_failure_partial S O typenames has_field ans otype roots l doc name given St handler op T root) as (kvs & OF & R); auto.
  destruct (C52_struct_partial S doc name op T WF COV PE DE DW AC Sel Hroot RO CB) as (fields & M & D & RD).
  assert (TO : type_is S T OBJECT) by (rewrite <- Hot; apply (ts_object _ _ _ _ _ TS)).
  assert (HP : possible S T T) by (left; auto).
  assert (G : forall es, object_fits S doc nowhere [] T (op_sel op) es -> received fields (VMap [("data", VMap es)])).
  { intros es E. destruct (RD [] T es HP E) as (xs & E1 & E2). split; [reflexivity|]. exists es, xs. auto. }
  exists fields, (VMap [("data", VMap kvs)]). split; [exact M|]. split; [exact D|]. split; [exact R|]. split; [auto|].
  intros trip big Rp Fl. destruct (C08_roundtrip trip big _ Rp) as (es & j & W & Sp & _ & P). exists es, j. split; [exact W|]. split; [exact Sp|].
  eexists. split; [exact P|]. change (through_json trip (VMap [("data", VMap kvs)])) with (VMap [("data", VMap (map (fun kv => (fst kv, through_json trip (snd kv))) kvs))]).
  apply G. cbn in Fl. rewrite andb_true_r in Fl. apply data_entries_through; auto.
Qed.
(** The same where accessors fail only where the type allows null: the reply has errors then, and the data is still read. *)
Theorem C52_client_reads_failures_partial : forall S O (typenames : O -> list string) has_field ans otype roots l doc name given
    St (handler : St -> O -> string -> fparams -> St * answer O) op T root,
  schema_wf S -> interfaces_implemented S -> interfaces_covariant S -> plain_enums S -> enums_distinct S -> conditions_declared S ->
  typed_service S typenames has_field ans otype -> answers_alone handler ans ->
  document_wf doc -> accepted S doc ->
  selects name (operations doc) op -> op_kind op <> "subscription" -> root_type S op = Some T ->
  find_root O (op_kind op) roots = Some (Some root) -> otype root = T ->
  copyable given -> variables_given S (op_vars op) given ->
  Forall (fun d => plain_args (map v_name (op_vars op)) (d_args d)) (op_dirs op) ->
  (forall f, In f (fragments doc) -> Forall (fun d => plain_args (map fst given) (d_args d)) (f_dirs f)) ->
  repeats_ok S doc (Some (op_vars op)) [] T (op_sel op) -> consistent_below S doc [] T (op_sel op) -> plain_below S doc (map v_name (op_vars op)) [] T (op_sel op) ->
  fails_mildly S ans otype ->
  exists fields reply,
    (exists N, forall fuel, N <= fuel -> request_loader S doc fuel name = Ok (op, fields)) /\ declares S doc T (op_sel op) fields /\
    (exists N, forall fuel, N <= fuel -> forall s d,
      responds handler s (start_request O typenames has_field roots fuel (fun d => fst (validate S d initial)) l doc name (VMap given)) d <-> d = Ok reply) /\
    data_received fields reply /\
    forall trip big, representable reply = true -> filled reply = true ->
      exists events text, writeResponse reply = Ok events /\ spells trip events text /\
        exists reply', parse_events (reader_events big text) = Ok reply' /\ data_received fields reply'.
Proof.
  intros S O typenames has_field ans otype roots l doc name given St handler op T root WF II COV PE DE CD TS A DW AC Sel Ks Hroot Hfind Hot Hc HG Pop Pfr RO CB PB NF.
  destruct (C50_mild_failures_partial S O typenames has_field ans otype roots l doc name given St handler op T root) as (kvs & errs & OF & _ & R); auto.
  destruct (C52_struct_partial S doc name op T WF COV PE DE DW AC Sel Hroot RO CB) as (fields & M & D & RD).
  assert (TO : type_is S T OBJECT) by (rewrite <- Hot; apply (ts_object _ _ _ _ _ TS)).
  assert (HP : possible S T T) by (left; auto).
  set (tail := match errs with [] => [] | _ => [("errors", VList (map build_error_entry errs))] end) in *.
  assert (Dt : forall es rest, ~ In "data" (map fst rest) -> r_data (parse_service_response (VMap (("data", VMap es) :: rest))) = VMap es).
  { intros es rest N. cbn [parse_service_response parse_response_members]. change (String.eqb "data" "data") with true. cbv iota. cbn [r_errors].
    generalize (@nil client_error). induction rest as [|[k v] rest IH]; intros ce; [reflexivity|]. cbn [map fst] in N. cbn [parse_response_members].
    destruct (String.eqb_spec k "data") as [Ek|_]; [exfalso; apply N; now left|]. assert (N' : ~ In "data" (map fst rest)) by (intro I; apply N; now right).
    destruct (String.eqb k "errors"); [destruct v|]; cbn [r_data r_errors]; apply (IH N'). }
  assert (Nt : ~ In "data" (map fst tail) /\ forall trip, ~ In "data" (map fst (map (fun kv => (fst kv, through_json trip (snd kv))) tail))).
  { unfold tail. destruct errs; cbn; split; intros; intuition discriminate. }
  assert (G : forall es rest, ~ In "data" (map fst rest) -> object_fits S doc nowhere [] T (op_sel op) es -> data_received fields (VMap (("data", VMap es) :: rest))).
  { intros es rest N E. destruct (RD [] T es HP E) as (xs & E1 & E2). exists es, xs. rewrite (Dt es rest N). auto. }
  exists fields, (VMap (("data", VMap kvs) :: tail)). split; [exact M|]. split; [exact D|]. split; [exact R|]. split; [apply G; [exact (proj1 Nt)|exact OF]|].
  intros trip big Rp Fl. destruct (C08_roundtrip trip big _ Rp) as (es & j & W & Sp & _ & P). exists es, j. split; [exact W|]. split; [exact Sp|].
  eexists. split; [exact P|]. change (through_json trip (VMap (("data", VMap kvs) :: tail))) with (VMap (("data", VMap (map (fun kv => (fst kv, through_json trip (snd kv))) kvs)) :: map (fun kv => (fst kv, through_json trip (snd kv))) tail)).
  apply G; [exact (proj2 Nt trip)|]. cbn in Fl. apply andb_true_iff in Fl as [Fl _]. apply data_entries_through; auto.
Qed.

(** ** The hypotheses are met *)
Lemma covariant50 : interfaces_covariant S0.
Proof.
  intros i di t dt f f' Hi Ki It Ht If If' E.
  refine (assoc_Forall (fun x => td_kind (snd x) = INTERFACE -> In t (td_possible (snd x)) -> In f (td_fields (snd x)) -> sub_type S0 (fd_type f') (fd_type f)) i di _ _ Hi Ki It If).
  repeat apply Forall_cons; try apply Forall_nil; cbn [snd td_kind td_possible td_fields object_t scalar_t]; try discriminate. intros _ I1 I2.
  assert (f' = f).
  { destruct I1 as [<-|[<-|[]]]; cbn in Ht; injection Ht as <-; simpl in If'; simpl in I2;
      repeat (destruct If' as [<-|If']; [repeat (destruct I2 as [<-|I2]; [first [reflexivity|discriminate E]|]); destruct I2|]); destruct If'. }
  subst f'. apply sub_type_refl.
Qed.
Lemma enums50 : plain_enums S0 /\ enums_distinct S0.
Proof.
  split.
  - intros n d v Hd Kd Iv. refine (assoc_Forall (fun x => td_kind (snd x) = ENUM -> In v (td_enums (snd x)) -> safe_cpp_name (ev_name v) = ev_name v) n d _ _ Hd Kd Iv).
    repeat apply Forall_cons; try apply Forall_nil; simpl; try discriminate. intros _ [<-|[<-|[]]]; reflexivity.
  - intros n d Hd Kd. refine (assoc_Forall (fun x => td_kind (snd x) = ENUM -> NoDup (map ev_name (td_enums (snd x))) /\ ~ builtin_scalar (fst x)) n d _ _ Hd Kd).
    repeat apply Forall_cons; try apply Forall_nil; simpl; try discriminate. intros _. split; [nodup_|]. unfold builtin_scalar. simpl. intuition discriminate.
Qed.

(** query Q($n: Int!, $k: Int = 3) { node { ...F } u { ... on A { only } } f(x: $n, ...) } fragment F on Node { id self { id } }
    struct Response { std::optional<node_Node> node; std::optional<u_U> u; std::optional<int> f; }; *)
Definition fields52 : list field :=
  [("node", ([MNullable], (IStruct [("id", ([], (ILeaf KId, None))); ("self", ([MNullable], (IStruct [("id", ([], (ILeaf KId, None)))], None)))], None)));
   ("u", ([MNullable], (IStruct [("only", ([MNullable], (ILeaf KString, None)))], None)));
   ("f", ([MNullable], (ILeaf KInt, None)))].
Example C52_example_struct : request_loader S0 ok_doc 5 "Q" = Ok (op50, fields52) /\ map (fun f : field => output_cpp_type "T" (fst (snd f))) fields52 = ["std::optional<T>"; "std::optional<T>"; "std::optional<T>"].
Proof. vm_compute. split; reflexivity. Qed.
Example C52_example : exists fields reply,
  (exists N, forall fuel, N <= fuel -> request_loader S0 ok_doc fuel "Q" = Ok (op50, fields)) /\ declares S0 ok_doc "Query" (op_sel op50) fields /\
  (exists N, forall fuel, N <= fuel -> forall s d,
    responds (stateless (ans50 false)) s (start_request obj50 types50 has50 [("query", Some oQuery)] fuel (fun d => fst (validate S0 d initial)) LAsync ok_doc "Q" (VMap [("n", VInt 5)])) d
    <-> d = Ok reply) /\
  received fields reply /\
  forall trip big, representable reply = true -> filled reply = true ->
    exists events text, writeResponse reply = Ok events /\ spells trip events text /\
      exists reply', parse_events (reader_events big text) = Ok reply' /\ received fields reply'.
Proof.
  destruct (tidy_ok _ _ _ _ _ _ tidy50) as (DB & PB). pose proof (distinct_consistent _ _ _ _ _ DB) as CB.
  assert (RO : repeats_ok S0 ok_doc (Some (op_vars op50)) [] "Query" (op_sel op50)).
  { apply (distinct_operation S0 ok_doc "Q" op50 "Query" S0_wf ok_doc_wf ok_doc_accepted); [|reflexivity|exact DB]. exists [], []. split; [reflexivity|]. split; [reflexivity|]. intros _. split; [reflexivity|intros o []]. }
  apply (C52_client_reads_partial S0 obj50 types50 has50 (ans50 false) type50 [("query", Some oQuery)] LAsync ok_doc "Q" [("n", VInt 5)]
    unit (stateless (ans50 false)) op50 "Query" oQuery); auto using S0_wf, implemented50, covariant50, conditions50, typed50, ok_doc_wf.
  - apply (proj1 enums50).
  - apply (proj2 enums50).
  - intros s o f p. reflexivity.
  - exact ok_doc_accepted.
  - exists [], []. split; [reflexivity|]. split; [reflexivity|]. intros _. split; [reflexivity|intros o []].
  - discriminate.
  - intros n v. simpl. destruct (String.eqb n "n"); [|discriminate]. intro X. injection X as <-. reflexivity.
  - intros v [<-|[<-|[]]]; simpl.
    + split; [|discriminate]. apply if_nonnull; [discriminate|]. now apply if_int.
    + now constructor.
  - constructor.
  - intros f [<-|[]]. constructor.
  - apply quiet50.
Qed.
(** The same client where the accessor of "only", a field of type String, throws. *)
Lemma mild50 : fails_mildly S0 (ans50 true) type50.
Proof.
  intros T f p is ty args u F Hf Hp.
  assert (Q : forall o q, match ans50 true o f q with AThrow _ => f = "only" | AResult r => forall is ex, leaf_failure r is ex -> is = [] /\ f = "g" end).
  { intros o q. unfold ans50. repeat (match goal with |- context [if String.eqb ?a ?b then _ else _] => destruct (String.eqb_spec a b) end);
      try (intros is' ex H; inversion H; fail); try (destruct o; intros is' ex H; inversion H; fail); try assumption.
    - intros is' ex H. inversion H as [|f' is2 ex' H'|]; subst. destruct (lookup "x" (p_args q)) as [[| | | | |z| | |]|]; try (inversion H'; fail). destruct (in_int_range z); inversion H'.
    - intros is' ex H. inversion H; subst. auto. }
  assert (G : is = [] /\ (f = "only" \/ f = "g")).
  { destruct F as [o q ex _ _ E|o q r is ex _ _ E L]; specialize (Q o q); rewrite E in Q; [auto|]. destruct (Q _ _ L) as (-> & ->). auto. }
  destruct G as (-> & G). inversion Hp as [t| |]; subst. inversion Hf as [d fd Hd Kd Ifd En|Hc En|Hi Eq En|Hi Eq En]; subst; try (destruct G; discriminate).
  refine (assoc_Forall (fun x => In fd (td_fields (snd x)) -> ~ is_nonnull (fd_type fd)) T d _ _ Hd Ifd).
  repeat apply Forall_cons; try apply Forall_nil; cbn [snd td_fields object_t scalar_t]; intro I';
    repeat (destruct I' as [<-|I']; [first [destruct G as [G|G]; discriminate G|intros (? & X); discriminate X]|]); destruct I'.
Qed.
Example C52_example_failure : exists fields reply,
  (exists N, forall fuel, N <= fuel -> request_loader S0 ok_doc fuel "Q" = Ok (op50, fields)) /\
  (exists N, forall fuel, N <= fuel -> forall s d,
    responds (stateless (ans50 true)) s (start_request obj50 types50 has50 [("query", Some oQuery)] fuel (fun d => fst (validate S0 d initial)) LAsync ok_doc "Q" (VMap [("n", VInt 5)])) d
    <-> d = Ok reply) /\ data_received fields reply.
Proof.
  destruct (tidy_ok _ _ _ _ _ _ tidy50) as (DB & PB). pose proof (distinct_consistent _ _ _ _ _ DB) as CB.
  assert (RO : repeats_ok S0 ok_doc (Some (op_vars op50)) [] "Query" (op_sel op50)).
  { apply (distinct_operation S0 ok_doc "Q" op50 "Query" S0_wf ok_doc_wf ok_doc_accepted); [|reflexivity|exact DB]. exists [], []. split; [reflexivity|]. split; [reflexivity|]. intros _. split; [reflexivity|intros o []]. }
  destruct (C52_client_reads_failures_partial S0 obj50 types50 has50 (ans50 true) type50 [("query", Some oQuery)] LAsync ok_doc "Q" [("n", VInt 5)]
    unit (stateless (ans50 true)) op50 "Query" oQuery) as (fields & reply & H1 & _ & H2 & H3 & _); auto using S0_wf, implemented50, covariant50, conditions50, typed50, ok_doc_wf.
  - apply (proj1 enums50).
  - apply (proj2 enums50).
  - intros s o f p. reflexivity.
  - exact ok_doc_accepted.
  - exists [], []. split; [reflexivity|]. split; [reflexivity|]. intros _. split; [reflexivity|intros o []].
  - discriminate.
  - intros n v. simpl. destruct (String.eqb n "n"); [|discriminate]. intro X. injection X as <-. reflexivity.
  - intros v [<-|[<-|[]]]; simpl.
    + split; [|discriminate]. apply if_nonnull; [discriminate|]. now apply if_int.
    + now constructor.
  - constructor.
  - intros f [<-|[]]. constructor.
  - apply mild50.
  - exists fields, reply. auto.
Qed.
(** The reply and what the client has then: the bytes of an ID, and members that were not in the reply as initialised. *)
Definition reply52 : value :=
  VMap [("data", VMap [("node", VMap [("id", VString "YQ==" false); ("self", VMap [("id", VString "YQ==" false)])]); ("u", VMap [("only", VString "x" false)]); ("f", VInt 5)])].
Example C52_example_reply :
  responds (stateless (ans50 false)) tt (start_request obj50 types50 has50 [("query", Some oQuery)] 20 (fun d => fst (validate S0 d initial)) LAsync ok_doc "Q" (VMap [("n", VInt 5)])) (Ok reply52) /\
  representable reply52 = true /\ filled reply52 = true /\
  parse_response fields52 (r_data (parse_service_response reply52)) =
    Ok (XStruct [XOpt (Some (XStruct [XId ["a"%char]; XOpt (Some (XStruct [XId ["a"%char]]))])); XOpt (Some (XStruct [XOpt (Some (XString "x"))])); XOpt (Some (XInt 5))]).
Proof.
  split; [|vm_compute; auto]. apply (ExecRequest.responds_iff obj50 (ans50 false)); [intros s o f p; reflexivity|]. vm_compute. reflexivity.
Qed.

(** ** What clients cannot read *)
(** An enum value whose C++ name differs from it: enum Color { _RED } gives the text "RED" in the client's table, so the value that the
    service sends is refused. *)
Definition S52 : schema := mkSchema
  [("Int", scalar_t); ("String", scalar_t); ("Boolean", scalar_t); ("Color", mkTypeDef ENUM "" [] [] [] [mkEnumValue "_RED" "" None] []);
   ("Query", object_t [field_ "c" (TNamed "Color") []] [])] "Query" None None [] false.
Definition doc52 : document := [op_ 1 None None [] [fld 1 "c"]].
Theorem C52_enum_names_refuted : accepted S52 doc52 /\
  object_fits S52 doc52 nowhere [] "Query" [fld 1 "c"] [("c", VEnum "_RED")] /\
  exists fields, (exists op, request_loader S52 doc52 5 "" = Ok (op, fields)) /\
    parse_response fields (VMap [("c", VEnum "_RED")]) = Throw (Exn logic_error "not a valid Color value").
Proof.
  split; [vm_compute; reflexivity|]. split.
  - apply of_intro; [nodup_|]. intros k v [E|[]]. injection E as <- <-.
    eapply ef_intro; [apply (sf_here S52 doc52 "Query" (at_ 1) None "c" [] [] None); now left| |].
    + eapply (field_declared S52 "Query") with (f := field_ "c" (TNamed "Color") []); [reflexivity|now left|now left].
    + apply df_leaf; [right; kind_|]. apply if_nonnull; [discriminate|]. eapply if_enum; [reflexivity|reflexivity|now left].
  - exists [("c", ([MNullable], (ILeaf (KEnum "Color" ["RED"]), None)))]. split; [eexists; vm_compute; reflexivity|vm_compute; reflexivity].
Qed.

(** An accessor that fails: its place is null although the type is non-null, and parseResponse throws; the rest of the data is lost with it.
    { node { id } } where the accessor of id throws. *)
Definition ans52 (o : obj50) (f : string) (p : fparams) : answer obj50 := if String.eqb f "id" then AThrow (Exn runtime_error "no id") else ans50 false o f p.
Definition doc52b : document := [op_ 1 None None [] [obj_fld 1 "node" [fld 1 "id"]]].
Theorem C52_failed_accessor_refuted : accepted S0 doc52b /\ typed_service S0 types50 has50 ans52 type50 /\
  exists fields reply, (exists op, request_loader S0 doc52b 5 "" = Ok (op, fields)) /\
    responds (stateless ans52) tt (start_request obj50 types50 has50 [("query", Some oQuery)] 20 (fun d => fst (validate S0 d initial)) LAsync doc52b "" (VMap [])) (Ok reply) /\
    r_data (parse_service_response reply) = VMap [("node", VMap [("id", VNull)])] /\
    parse_response fields (r_data (parse_service_response reply)) = Throw (Exn logic_error "not a string").
Proof.
  split; [vm_compute; reflexivity|]. split.
  - destruct (typed50 false) as [T1 T2 T3 T4]. constructor; auto. intros o f ty args p H H'. unfold ans52. destruct (String.eqb f "id"); [exact I|]. apply (T4 o f ty args p H H').
  - eexists _, _. split; [eexists; vm_compute; reflexivity|]. split.
    + apply (ExecRequest.responds_iff obj50 ans52); [intros s o f p; reflexivity|]. vm_compute. reflexivity.
    + split; vm_compute; reflexivity.
Qed.

(** The same response key on two object types: the struct of the first is used for both, and the fields that only the second selects
    are dropped. { u { ... on B { x: self { __typename } } ... on A { x: self { id } } } } *)
Definition doc52c : document := [op_ 1 None None [] [obj_fld 1 "u" [on_ 2 "B" [as_fld 2 "x" "self" [fld 2 "__typename"]]; on_ 3 "A" [as_fld 3 "x" "self" [fld 3 "id"]]]]].
Theorem C52_same_key_refuted : accepted S0 doc52c /\
  exists fields reply, (exists op, request_loader S0 doc52c 5 "" = Ok (op, fields)) /\
    responds (stateless (ans50 false)) tt (start_request obj50 types50 has50 [("query", Some oQuery)] 20 (fun d => fst (validate S0 d initial)) LAsync doc52c "" (VMap [])) (Ok reply) /\
    r_data (parse_service_response reply) = VMap [("u", VMap [("x", VMap [("id", VString "YQ==" false)])])] /\
    parse_response fields (r_data (parse_service_response reply)) = Ok (XStruct [XOpt (Some (XStruct [XOpt (Some (XStruct [XString ""]))]))]).
Proof.
  split; [vm_compute; reflexivity|]. eexists _, _. split; [eexists; vm_compute; reflexivity|]. split.
  - apply (ExecRequest.responds_iff obj50 (ans50 false)); [intros s o f p; reflexivity|]. vm_compute. reflexivity.
  - split; vm_compute; reflexivity.
Qed.

(** Two response keys with the same C++ name (RequestLoader.cpp:1032 getSafeCppName): the struct has two members of that name.
    { a__b: g a_b: g } *)
Definition doc52d : document := [op_ 1 None None [] [SField (at_ 1) (Some "a__b") "g" [] [] None; SField (at_ 1) (Some "a_b") "g" [] [] None]].
Theorem C52_member_names_refuted : accepted S0 doc52d /\
  exists op fields, request_loader S0 doc52d 5 "" = Ok (op, fields) /\ map (fun f : field => safe_cpp_name (fst f)) fields = ["a_b"; "a_b"].
Proof. split; [vm_compute; reflexivity|]. eexists _, _. vm_compute. split; reflexivity. Qed.

Print Assumptions C52_struct_partial. Print Assumptions C52_member_type. Print Assumptions C52_client_reads_partial.
Print Assumptions C52_enum_names_refuted. Print Assumptions C52_failed_accessor_refuted. Print Assumptions C52_same_key_refuted. Print Assumptions C52_member_names_refuted.
