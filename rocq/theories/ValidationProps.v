(** Validation: theorems C22-C28. The rules are in ValidationSpec.v; [accepted S d] is that validating [d] with a new
    Request for the schema [S] reports no error. *)
From Verif Require Import Cpp Value Ast SchemaModel.
From Verif Require Import ValidationModel ValidationSpec ValidationValues ValidationArgs ValidationFields ValidationCheck ValidationSelections ValidationScope
  ValidationDocument ValidationHistory2 ValidationUse ValidationRepeats ValidationExamples.
From Verif Require ExecModel ExecSpec ExecDirect ExecTerm ExecProofs3.
Local Open Scope string_scope.
Local Open Scope list_scope.

(** ** C28 *)
(** No errors are reported exactly for the valid documents. *)
Theorem C28_accepts_exactly_valid : forall S d, schema_wf S -> document_wf d -> (accepted S d <-> valid_document S d).
Proof. exact accepted_iff. Qed.
Example C28_example : schema_wf S0 /\ document_wf ok_doc /\ accepted S0 ok_doc /\ valid_document S0 ok_doc.
Proof.
  split; [exact S0_wf|]. split; [exact ok_doc_wf|]. split; [exact ok_doc_accepted|]. apply C28_accepts_exactly_valid; [exact S0_wf|exact ok_doc_wf|exact ok_doc_accepted].
Qed.

(** The rules about the definitions of a document, one by one. *)
Theorem C28_operation_rules : forall S d, schema_wf S -> document_wf d -> accepted S d ->
  NoDup (map operation_name (operations d)) /\
  (forall o, In o (operations d) -> operation_name o = "" -> operations d = [o]) /\
  NoDup (map f_name (fragments d)) /\
  (forall f, In f (fragments d) -> fragment_used S d (f_name f)) /\
  (forall o v, In o (operations d) -> In v (op_vars o) -> exists T, root_type S o = Some T /\
     (In (v_name v) (default_vars S (op_vars o)) \/ In (v_name v) (dirs_vars S (op_dirs o)) \/ scope_uses S d [] T (op_sel o) (v_name v))).
Proof.
  intros S d W D A. apply C28_accepts_exactly_valid in A as (_ & A1 & A2 & A3 & A4 & A5); auto.
  split; auto. split; auto. split; auto. split; [intros f H; apply A5; auto|].
  intros o v Ho Hv. destruct (A4 o Ho) as (_ & _ & T & HT & _ & _ & HU). eauto.
Qed.
(** Each violation of these rules is reported. *)
Theorem C28_violations_reported : forall S d, schema_wf S -> document_wf d ->
  ~ NoDup (map operation_name (operations d)) \/
  (exists o, In o (operations d) /\ operation_name o = "" /\ operations d <> [o]) \/
  ~ NoDup (map f_name (fragments d)) \/
  (exists f, In f (fragments d) /\ ~ fragment_used S d (f_name f)) \/
  (exists o v T, In o (operations d) /\ In v (op_vars o) /\ root_type S o = Some T /\
     ~ In (v_name v) (default_vars S (op_vars o)) /\ ~ In (v_name v) (dirs_vars S (op_dirs o)) /\ ~ scope_uses S d [] T (op_sel o) (v_name v)) ->
  fst (validate S d initial) <> [].
Proof.
  intros S d W D H A. apply C28_operation_rules in A as (A1 & A2 & A3 & A4 & A5); auto.
  destruct H as [H|[(o & H1 & H2 & H3)|[H|[(f & H1 & H2)|(o & v & T & H1 & H2 & H3 & H4 & H5 & H6)]]]]; auto.
  destruct (A5 o v H1 H2) as (T' & HT & [E|[E|E]]); auto. assert (T' = T) by congruence. subst. auto.
Qed.
Example C28_duplicates_example :
  fst (validate S0 [op_ 1 None (Some "Q") [] [fld 1 "g"]; op_ 2 None (Some "Q") [] [fld 2 "g"]] initial) = [mkErr "Duplicate operation name: Q" (at_ 2) []] /\
  fst (validate S0 [op_ 1 None None [] [fld 1 "g"]; op_ 2 None (Some "Q") [] [fld 2 "g"]] initial) = [mkErr "Anonymous operation not alone" (at_ 1) []] /\
  fst (validate S0 [op_ 1 None None [var_ 1 "v" (TNamed "Int") None] [fld 1 "g"]; frag_ 2 "F" "Query" [fld 2 "g"]] initial) =
    [mkErr "Unused variable name: v" (at_ 1) []; mkErr "Unused fragment definition name: F" (at_ 2) []].
Proof. vm_compute. auto. Qed.
(** A fragment that is only spread in an unused fragment is not reported. *)
Theorem C28_unused_fragments_refuted : exists d, document_wf d /\
  fst (validate S0 d initial) = [mkErr "Unused fragment definition name: F" (at_ 2) []] /\
  In (DFrag (mkFrag (at_ 3) "G" "Query" (at_ 3) [] [fld 3 "g"])) d /\
  (forall o T, In o (operations d) -> root_type S0 o = Some T -> ~ scope_spreads S0 d [] T (op_sel o) "G").
Proof.
  exists [op_ 1 None None [] [fld 1 "g"]; frag_ 2 "F" "Query" [spread 2 "G"]; frag_ 3 "G" "Query" [fld 3 "g"]].
  split; [doc_wf_|]. split; [vm_compute; reflexivity|]. split; [simpl; auto|]. intros o T [<-|[]] HT. cbn in HT. injection HT as <-. simpl.
  intro H. assert (C : forall items, collect S0 [op_ 1 None None [] [fld 1 "g"]; frag_ 2 "F" "Query" [spread 2 "G"]; frag_ 3 "G" "Query" [fld 3 "g"]]
    [] "Query" [fld 1 "g"] items -> items = [IDirs FIELD []; IField (mkOcc [] "Query" "g" "g" [] None)]).
  { intros items C. inversion C as [|stk T loc alias name args' dirs sub r items' H'| |]; subst. inversion H'; subst. reflexivity. }
  inversion H as [items HC I|items o ty args sub HC F Fo E Hs]; apply C in HC; subst items.
  - destruct I as [I|[I|[]]]; discriminate.
  - apply first_In in F. destruct F as [F|[F|[]]]; [discriminate|]. injection F as <-. discriminate.
Qed.

(** ** C22 *)
(** Documents whose operations are all of kinds that the schema supports leave no trace. Missing: a document with an
    operation the schema has no root type for. *)
Theorem C22_history_independent_partial : forall S history d, Forall (supported S) history ->
  fst (validate S d (after S history initial)) = fst (validate S d initial).
Proof. intros S history d H. apply validate_same; [apply after_settled; auto; apply settled_initial|apply settled_initial]. Qed.
Example C22_example : Forall (supported S0) [ok_doc; ok_doc] /\ fst (validate S0 ok_doc (after S0 [ok_doc; ok_doc] initial)) = [].
Proof. split; [|vm_compute; reflexivity]. repeat constructor; intros o [<-|[]]; discriminate. Qed.
(** A rejected document with an operation of an unsupported kind: a valid document is rejected after it. *)
Theorem C22_refuted : exists d d', document_wf d /\ document_wf d' /\ accepted S0 d' /\
  fst (validate S0 d' (after S0 [d] initial)) <> [].
Proof.
  exists [op_ 1 (Some "mutation") None [var_ 1 "v" (TNamed "Int") None] [fld 1 "g"]],
         [frag_ 1 "F" "Query" [call 1 "f" [arg 1 "x" (LVar (at_ 1) "n")]]; op_ 2 None None [var_ 2 "n" (TNonNull (TNamed "Int")) None] [spread 2 "F"]].
  split; [doc_wf_|]. split; [doc_wf_|]. split; [vm_compute; reflexivity|]. vm_compute. discriminate.
Qed.

(** ** C42 *)
(** A new ast of a document. *)
Definition fresh (d : document) : ast := mkAst d false.
(** Validating the same ast any number of times, between other documents, with one Request: each time the errors that
    the document has. Missing: histories with operations of unsupported kinds, as for C22. *)
Inductive validations (S : schema) (d : document) : ast -> vstate -> list (list schema_error) -> Prop :=
| vs_start st : settled S st -> validations S d (fresh d) st []
| vs_other a st rs d' : validations S d a st rs -> supported S d' -> validations S d a (snd (validate S d' st)) rs
| vs_again a st rs : validations S d a st rs -> supported S d ->
    validations S d (snd (fst (request_validate S a st))) (snd (request_validate S a st)) (fst (fst (request_validate S a st)) :: rs).
Theorem C42_repeated_partial : forall S d a st rs, validations S d a st rs -> forall r, In r rs -> r = fst (validate S d initial).
Proof.
  intros S d a st rs H.
  assert (G : settled S st /\ ast_doc a = d /\ (ast_validated a = true -> fst (validate S d initial) = []) /\
              forall r, In r rs -> r = fst (validate S d initial)); [|intros r; apply G].
  induction H as [st Hs|a st rs d' H (Hs & Hd & Hv & Hr) Su|a st rs H (Hs & Hd & Hv & Hr) Su].
  - split; [exact Hs|]. split; [reflexivity|]. split; [discriminate|intros r []].
  - split; [apply validate_settles; auto|auto].
  - unfold request_validate. destruct (ast_validated a) eqn:Ev; simpl.
    + split; [exact Hs|]. split; [exact Hd|]. split; [auto|]. intros r [<-|I]; [symmetry; apply Hv; reflexivity|auto].
    + rewrite Hd. pose proof (validate_settles S d st Su Hs) as Hs'. pose proof (validate_same S d st initial Hs (settled_initial S)) as E.
      destruct (validate S d st) as [es st'] eqn:Ed. simpl in *. split; [exact Hs'|]. split; [reflexivity|]. split.
      * destruct es; [intros _; auto|discriminate].
      * intros r [<-|I]; auto.
Qed.
Example C42_example : exists a st, validations S0 ok_doc a st [[]; []].
Proof.
  assert (Su : supported S0 ok_doc) by (intros o [<-|[]]; discriminate).
  pose proof (vs_again S0 ok_doc _ _ _ (vs_other S0 ok_doc _ _ _ ok_doc (vs_again S0 ok_doc _ _ _ (vs_start S0 ok_doc initial (settled_initial S0)) Su) Su) Su) as H.
  match type of H with validations _ _ ?a ?st ?rs => exists a, st; replace [[]; []] with rs by (vm_compute; reflexivity) end. exact H.
Qed.
(** An ast accepted by one Request is accepted by a Request for another schema that rejects the document. *)
Definition S1 : schema := mkSchema (s_types S0) "B" None None (s_directives S0) true.
Theorem C42_other_request_refuted : exists d, document_wf d /\
  let '(es, a, _) := request_validate S0 (fresh d) initial in es = [] /\
  fst (fst (request_validate S1 a initial)) = [] /\ fst (validate S1 d initial) <> [].
Proof. exists [op_ 1 None None [] [fld 1 "g"]]. split; [doc_wf_|]. vm_compute. split; [reflexivity|]. split; [reflexivity|discriminate]. Qed.

(** ** C23 *)
(** The type check by itself, for all types. *)
Theorem C23_variable_type : forall S var nonnull_default loc pos, schema_wf S ->
  proper var -> proper loc -> input_type S var -> input_type S loc ->
  (validate_variable_type S loc nonnull_default var pos = ([], true) <-> usage_allowed var nonnull_default loc).
Proof.
  intros S var nn loc pos W P1 P2 I1 I2. pose proof (variable_type_ok S W loc nn var pos P2 P1 I2 I1) as H.
  destruct (validate_variable_type S loc nn var pos) as [es b]. destruct H as [(-> & -> & H)|(H1 & -> & H2)]; [tauto|].
  split; [intro E; injection E as ->; contradiction|tauto].
Qed.
(** query($v: V = default) { field(arg: $v) }, where the field has only this argument, is accepted exactly when the usage
    is allowed and the default is a value of the type. *)
Theorem C23_variable_usage : forall S p field ty a v, schema_wf S ->
  field_of S (s_query S) field ty [a] -> ~ composite S (named_type ty) -> v_name v <> "" -> proper (v_type v) -> field <> "" ->
  (accepted S (single [v] p field [(p, (iv_name a, LVar p (v_name v)))] []) <->
   input_type S (v_type v) /\
   (forall l, v_default v = Some l -> unique_fields l /\ value_ok S (Some []) false (v_type v) l) /\
   usage_allowed (v_type v) (nonnull_default a || var_nonnull_default v) (iv_type a)).
Proof.
  intros S p field ty a v W Hf NC Nv Pv Nf. rewrite accepted_iff; auto; [|constructor].
  2: { intros o [<-|[]]. simpl. split; [discriminate|]. split; [|split; [discriminate|repeat constructor; auto]].
       repeat constructor; try discriminate; auto. }
  2: { intros f []. }
  rewrite single_valid; auto. split.
  - intros ((_ & H1 & H2 & _) & _ & _ & ty' & decl & Hf' & _ & (HA & _) & _). destruct (field_of_fun S W _ _ _ _ _ _ Hf Hf') as (<- & <-).
    split; auto. split; [exact H2|]. destruct (HA _ (or_introl eq_refl)) as (a' & [<-|[]] & _ & HV). simpl in HV.
    destruct HV as [(_ & q & E)|HV]; [discriminate|]. inversion HV; subst; try discriminate.
    + match goal with H : Some [v] = Some _, I : In _ _ |- _ => injection H as <-; destruct I as [<-|[]] end. assumption.
    + exfalso. match goal with N : forall p n, _ <> LVar p n |- _ => eapply N; reflexivity end.
    + exfalso. match goal with N : forall p n, _ <> LVar p n |- _ => eapply N; reflexivity end.
  - intros (H1 & H2 & H3). split; [simpl; auto|]. split; [split; [constructor|intros d []]|]. split.
    { split; [repeat constructor; intros []|]. apply Forall_cons; [apply uf_leaf; discriminate|apply Forall_nil]. }
    exists ty, [a]. split; [exact Hf|]. split; [exact NC|]. split.
    + split.
      * intros x [<-|[]]. exists a. split; [left; auto|]. split; [reflexivity|]. right. simpl. eapply ok_var; [reflexivity|left; reflexivity|exact H3].
      * intros x [<-|[]] _. left. reflexivity.
    + intros x [<-|[]]. right. left. unfold args_vars. simpl. rewrite String.eqb_refl. left. reflexivity.
Qed.
(** [Int!]! fits [Int!], [Int] and [Int]! positions, not the other way round; Int = 3 fits Int!, Int does not. *)
Example C23_example : let i := TNamed "Int" in
  usage_allowed (TNonNull (TListOf (TNonNull i))) false (TListOf i) /\ ~ usage_allowed (TListOf i) false (TListOf (TNonNull i)) /\
  usage_allowed i true (TNonNull i) /\ ~ usage_allowed i false (TNonNull i) /\
  (exists ty, field_of S0 (s_query S0) "__type" ty [mkInput "name" "" (TNonNull (TNamed "String")) ""] /\ composite S0 (named_type ty)).
Proof.
  cbv zeta. split.
  { left. apply compat_strict; [discriminate|]. apply compat_list. apply compat_strict; [discriminate|]. apply compat_named. }
  split.
  { intros [H|(H & _)]; [|discriminate]. inversion H as [| |v l H'|]; subst. inversion H'. }
  split; [right; split; auto; exists (TNamed "Int"); split; auto; constructor|]. split.
  { intros [H|(H & _)]; [inversion H|discriminate]. }
  exists (TNamed "__Type"). split; [apply field_type; reflexivity|]. left. kind_.
Qed.

(** ** C24 *)
(** { field(arg: l) }, where the field has only this argument and the literal is not a variable, is accepted exactly when
    the literal is a value of the type of the argument ([value_ok], with its deviations). *)
Theorem C24_literal : forall S p field ty a l, schema_wf S ->
  field_of S (s_query S) field ty [a] -> ~ composite S (named_type ty) -> field <> "" ->
  (accepted S (single [] p field [(p, (iv_name a, l))] []) <-> unique_fields l /\ argument_ok S (Some []) a l).
Proof.
  intros S p field ty a l W Hf NC Nf. rewrite accepted_iff; auto; [|constructor].
  2: { intros o [<-|[]]. simpl. split; [discriminate|]. split; [|split; [discriminate|repeat constructor; auto]].
       repeat constructor; try discriminate; auto. }
  2: { intros f []. }
  rewrite single_valid; auto. split.
  - intros (_ & _ & (_ & U) & ty' & decl & Hf' & _ & (HA & _) & _). destruct (field_of_fun S W _ _ _ _ _ _ Hf Hf') as (<- & <-).
    inversion U. split; auto. destruct (HA _ (or_introl eq_refl)) as (a' & [<-|[]] & _ & HV). exact HV.
  - intros (U & H). split; [exact Logic.I|]. split; [split; [constructor|intros d []]|]. split; [split; [repeat constructor; intros []|apply Forall_cons; [exact U|apply Forall_nil]]|].
    exists ty, [a]. split; [exact Hf|]. split; [exact NC|]. split; [|intros v []]. split.
    + intros x [<-|[]]. exists a. split; [left; auto|]. split; [reflexivity|exact H].
    + intros x [<-|[]] _. left. reflexivity.
Qed.

(** What [value_ok] means at each type. *)
Theorem C24_nonnull : forall S vars d t l, (forall p, l <> LNull p) -> (forall p n, l <> LVar p n) ->
  (value_ok S vars d (TNonNull t) l <-> value_ok S vars d t l).
Proof. intros. apply value_nonnull. split; auto. Qed.
Theorem C24_null : forall S vars t p, value_ok S vars false t (LNull p) <-> ~ is_nonnull t.
Proof. intros. rewrite value_null. intuition discriminate. Qed.
Theorem C24_lists : forall S vars d t l, (forall p, l <> LNull p) -> (forall p n, l <> LVar p n) ->
  (value_ok S vars d (TListOf t) l <-> exists q items, l = LList q items /\ forall x, In x items -> value_ok S vars false t x).
Proof.
  intros S vars d t l N1 N2. split.
  - intro H. inversion H; subst; try (exfalso; solve [eapply N1; reflexivity|eapply N2; reflexivity]). eauto.
  - intros (q & items & -> & H). constructor. exact H.
Qed.
Theorem C24_enums : forall S vars d n td l, find_type S n = Some td -> td_kind td = ENUM -> (forall p, l <> LNull p) -> (forall p n, l <> LVar p n) ->
  schema_wf S -> ~ builtin_scalar n ->
  (value_ok S vars d (TNamed n) l <-> exists q x, l = LEnum q x /\ In x (map ev_name (td_enums td))).
Proof.
  intros S vars d n td l Ht Hk N1 N2 W NB.
  assert (B : forall k, In k ["Int"; "Float"; "String"; "ID"; "Boolean"] -> n <> k) by (intros k Hk' ->; apply NB; exact Hk').
  split.
  - intro H. inversion H; subst; try (exfalso; solve [eapply N1; reflexivity|eapply N2; reflexivity]); try (exfalso; eapply B; [|reflexivity]; simpl; tauto).
    + assert (td0 = td) by congruence. subst. eauto.
    + match goal with T : type_is _ _ _ |- _ => destruct T as (d' & H1' & H2') end. congruence.
    + congruence.
  - intros (q & x & -> & I). eapply ok_enum; eauto.
Qed.
Theorem C24_builtin_scalars : forall S vars d l, schema_wf S -> (forall p, l <> LNull p) -> (forall p n, l <> LVar p n) ->
  type_is S "Int" SCALAR -> type_is S "Float" SCALAR -> type_is S "String" SCALAR -> type_is S "Boolean" SCALAR -> type_is S "ID" SCALAR ->
  (value_ok S vars d (TNamed "Int") l <-> exists p z, l = LInt p z) /\
  (value_ok S vars d (TNamed "Float") l <-> (exists p z, l = LInt p z) \/ (exists p f, l = LFloat p f)) /\
  (value_ok S vars d (TNamed "String") l <-> exists p s, l = LString p s) /\
  (value_ok S vars d (TNamed "Boolean") l <-> exists p b, l = LBool p b) /\
  (value_ok S vars d (TNamed "ID") l <-> exists p s bytes, l = LString p s /\ decodes s bytes).
Proof.
  intros S vars d l W N1 N2 T1 T2 T3 T4 T5.
  assert (K : forall n, type_is S n SCALAR -> forall td, find_type S n = Some td -> td_kind td = SCALAR) by (intros n (x & E1 & E2) td E; congruence).
  assert (B : forall n, In n ["Int"; "Float"; "String"; "ID"; "Boolean"] -> ~ builtin_scalar n -> False) by (unfold builtin_scalar; auto).
  assert (Fw : forall n, type_is S n SCALAR -> builtin_scalar n -> value_ok S vars d (TNamed n) l ->
    (n = "Int" /\ exists p z, l = LInt p z) \/ (n = "Float" /\ ((exists p z, l = LInt p z) \/ (exists p f, l = LFloat p f))) \/
    (n = "String" /\ exists p s, l = LString p s) \/ (n = "Boolean" /\ exists p b, l = LBool p b) \/
    (n = "ID" /\ exists p s bytes, l = LString p s /\ decodes s bytes)).
  { intros n Ty Bn H. inversion H; subst; try (exfalso; solve [eapply N1; reflexivity|eapply N2; reflexivity]).
    - match goal with F : find_type S ?n = Some ?td |- _ => rewrite (K n Ty td F) in *; discriminate end.
    - left. eauto.
    - right. left. eauto.
    - right. left. eauto.
    - right. right. left. eauto.
    - right. right. right. right. split; auto. eauto.
    - right. right. right. left. eauto.
    - contradiction.
    - match goal with F : find_type S ?n = Some ?td |- _ => rewrite (K n Ty td F) in *; discriminate end. }
  assert (Bi : forall n, In n ["Int"; "Float"; "String"; "ID"; "Boolean"] -> builtin_scalar n) by auto.
  split; [|split; [|split; [|split]]]; split; intro H.
  - destruct (Fw "Int") as [(E & F)|[(E & F)|[(E & F)|[(E & F)|(E & F)]]]]; auto; try discriminate. apply Bi. simpl. tauto.
  - destruct H as (p & z & ->). constructor. auto.
  - destruct (Fw "Float") as [(E & F)|[(E & F)|[(E & F)|[(E & F)|(E & F)]]]]; auto; try discriminate. apply Bi. simpl. tauto.
  - destruct H as [(p & z & ->)|(p & f & ->)]; [apply ok_float_int|apply ok_float]; auto.
  - destruct (Fw "String") as [(E & F)|[(E & F)|[(E & F)|[(E & F)|(E & F)]]]]; auto; try discriminate. apply Bi. simpl. tauto.
  - destruct H as (p & s & ->). constructor. auto.
  - destruct (Fw "Boolean") as [(E & F)|[(E & F)|[(E & F)|[(E & F)|(E & F)]]]]; auto; try discriminate. apply Bi. simpl. tauto.
  - destruct H as (p & b & ->). constructor. auto.
  - destruct (Fw "ID") as [(E & F)|[(E & F)|[(E & F)|[(E & F)|(E & F)]]]]; auto; try discriminate. apply Bi. simpl. tauto.
  - destruct H as (p & s & bytes & -> & Db). econstructor; eauto.
Qed.

Theorem C24_custom_scalars : forall S vars d n l, schema_wf S -> type_is S n SCALAR -> ~ builtin_scalar n ->
  (forall p, l <> LNull p) -> (forall p n, l <> LVar p n) -> value_ok S vars d (TNamed n) l.
Proof. intros. apply ok_custom; auto. Qed.
Theorem C24_input_objects : forall S vars d n td l, schema_wf S -> find_type S n = Some td -> td_kind td = INPUT_OBJECT ->
  (forall p, l <> LNull p) -> (forall p n, l <> LVar p n) ->
  (value_ok S vars d (TNamed n) l <->
   exists p fields, l = LObject p fields /\
     (forall fp k x, In (fp, (k, x)) fields -> exists a, In a (td_inputs td) /\ iv_name a = k /\ argument_ok S vars a x) /\
     (forall a, In a (td_inputs td) -> required a -> In (iv_name a) (map (fun f => fst (snd f)) fields))).
Proof.
  intros S vars d n td l W Ht Hk N1 N2.
  assert (K : forall k, type_is S n k -> k = INPUT_OBJECT) by (intros k (x & E1 & E2); congruence).
  split.
  - intro H. inversion H; subst; try (exfalso; solve [eapply N1; reflexivity|eapply N2; reflexivity]);
      try (match goal with T : type_is S _ _ |- _ => apply K in T; discriminate end).
    + congruence.
    + assert (td0 = td) by congruence. subst. do 2 eexists. split; [reflexivity|]. auto.
  - intros (p & fields & -> & H1 & H2). eapply ok_object; eauto.
Qed.
(** Null is accepted for a non-null argument that has a default. *)
Theorem C24_null_refuted : exists d, document_wf d /\ accepted S0 d /\
  operations d = [mkOp (at_ 1) None None [] [] [call 1 "f" [arg 1 "x" (LInt (at_ 1) 1); arg 1 "d" (LNull (at_ 1))]]] /\
  In (mkInput "d" "" (TNonNull (TNamed "Int")) "5") f_args.
Proof.
  exists [op_ 1 None None [] [call 1 "f" [arg 1 "x" (LInt (at_ 1) 1); arg 1 "d" (LNull (at_ 1))]]].
  split; [doc_wf_|]. split; [vm_compute; reflexivity|]. split; [reflexivity|simpl; auto].
Qed.
(** A single item, which GraphQL coerces to a list of one, is rejected. *)
Theorem C24_list_of_one_refuted : forall S p field ty a t x, schema_wf S ->
  field_of S (s_query S) field ty [a] -> ~ composite S (named_type ty) -> field <> "" -> iv_type a = TListOf t ->
  (forall q, x <> LNull q) -> (forall q n, x <> LVar q n) -> (forall q items, x <> LList q items) ->
  ~ accepted S (single [] p field [(p, (iv_name a, x))] []).
Proof.
  intros S p field ty a t x W Hf NC Nf Ht N1 N2 N3 A. apply (C24_literal S p field ty a x W Hf NC Nf) in A as (_ & [(_ & q & E)|A]).
  - apply (N1 q). exact E.
  - rewrite Ht in A. apply C24_lists in A as (q & items & E & _); auto. apply (N3 q items). exact E.
Qed.
(** An ID that is not Base64, and any integer ID, is rejected. *)
Theorem C24_ids_refuted : forall S p field ty a x, schema_wf S ->
  field_of S (s_query S) field ty [a] -> ~ composite S (named_type ty) -> field <> "" -> iv_type a = TNamed "ID" -> type_is S "ID" SCALAR ->
  (exists z, x = LInt p z) \/ (exists s, x = LString p s /\ forall bytes, ~ decodes s bytes) ->
  ~ accepted S (single [] p field [(p, (iv_name a, x))] []).
Proof.
  intros S p field ty a x W Hf NC Nf Ht Ti Hx A. apply (C24_literal S p field ty a x W Hf NC Nf) in A as (_ & [(_ & q & E)|A]).
  - destruct Hx as [(z & ->)|(s & -> & _)]; discriminate.
  - rewrite Ht in A.
    assert (NB : builtin_scalar "ID") by (unfold builtin_scalar; simpl; tauto).
    destruct Ti as (d & F1 & F2).
    destruct Hx as [(z & ->)|(s & -> & N)]; inversion A; subst; try congruence; try contradiction. eapply N; eauto.
Qed.
(** A variable inside a value for a custom scalar need not be declared. *)
Theorem C24_undefined_variable_refuted : exists d, document_wf d /\ accepted S0 d /\
  operations d = [mkOp (at_ 1) None None [] [] [call 1 "f" [arg 1 "x" (LInt (at_ 1) 1); arg 1 "j" (LList (at_ 1) [LVar (at_ 1) "missing"])]]].
Proof.
  exists [op_ 1 None None [] [call 1 "f" [arg 1 "x" (LInt (at_ 1) 1); arg 1 "j" (LList (at_ 1) [LVar (at_ 1) "missing"])]]].
  split; [doc_wf_|]. split; [vm_compute; reflexivity|reflexivity].
Qed.
Example C24_example : value_ok S0 (Some []) false (TNamed "In")
  (LObject (at_ 1) [(at_ 1, ("a", LInt (at_ 1) 1)); (at_ 1, ("c", LList (at_ 1) [LObject (at_ 1) [(at_ 1, ("a", LInt (at_ 1) 2))]]))]) /\
  ~ value_ok S0 (Some []) false (TNamed "In") (LObject (at_ 1) [(at_ 1, ("b", LInt (at_ 1) 1))]).
Proof.
  assert (A1 : type_is S0 "Int" SCALAR) by kind_.
  assert (Req : forall fs, In "a" (map (fun f : schema_location * (string * lit) => fst (snd f)) fs) ->
            forall a, In a [arg_ "a" (TNonNull (TNamed "Int")) ""; arg_ "b" (TNonNull (TNamed "Int")) "1"; arg_ "c" (TListOf (TNonNull (TNamed "In"))) ""] ->
            required a -> In (iv_name a) (map (fun f => fst (snd f)) fs)).
  { intros fs I a [<-|[<-|[<-|[]]]] (E & t & E'); [exact I|discriminate|discriminate]. }
  assert (V : forall p z, value_ok S0 (Some []) false (TNonNull (TNamed "Int")) (LInt p z)).
  { intros. apply ok_nonnull; [discriminate|discriminate|]. apply ok_int. exact A1. }
  split.
  - eapply ok_object; [reflexivity|reflexivity| |apply Req; simpl; auto].
    intros fp k x [E|[E|[]]]; injection E as <- <- <-.
    + exists (arg_ "a" (TNonNull (TNamed "Int")) ""). split; [simpl; auto|]. split; [reflexivity|]. right. apply V.
    + exists (arg_ "c" (TListOf (TNonNull (TNamed "In"))) ""). split; [simpl; auto|]. split; [reflexivity|]. right. simpl.
      apply ok_list. intros x [<-|[]]. apply ok_nonnull; [discriminate|discriminate|].
      eapply ok_object; [reflexivity|reflexivity| |apply Req; simpl; auto].
      intros fp k x [E|[]]; injection E as <- <- <-.
      exists (arg_ "a" (TNonNull (TNamed "Int")) ""). split; [simpl; auto|]. split; [reflexivity|]. right. apply V.
  - intro H. apply (C24_input_objects S0 (Some []) false "In") with (td := match find_type S0 "In" with Some d => d | None => scalar_t end) in H;
      [|exact S0_wf|reflexivity|reflexivity|discriminate|discriminate].
    destruct H as (p & fields & E & _ & R). injection E as <- <-. specialize (R (arg_ "a" (TNonNull (TNamed "Int")) "") (or_introl eq_refl)).
    assert (Q : required (arg_ "a" (TNonNull (TNamed "Int")) "")) by (split; [reflexivity|eexists; reflexivity]).
    destruct (R Q) as [E|[]]. discriminate.
Qed.

(** ** C25 *)
(** In an accepted document: in every selection set below an operation, reached through the first field of each response
    key, the fragments expand, every field exists on the type it is selected on, and the first field of each key has only
    defined arguments with values of their types, all required arguments, and a sub-selection exactly if its type is
    composite. Missing: the arguments and sub-selections of later fields with the same key ([C25_refuted]). *)
Theorem C25_selections_partial : forall S d o T stk T' sels, schema_wf S -> document_wf d -> accepted S d ->
  In o (operations d) -> root_type S o = Some T -> below S d first_field [] T (op_sel o) stk T' sels ->
  exists items, collect S d stk T' sels items /\
  forall x, In (IField x) items -> exists ty args, field_of S (oc_parent x) (oc_name x) ty args /\ arguments_unique (oc_args x) /\
    (first_field items x -> arguments_ok S (Some (op_vars o)) args (oc_args x) /\ (composite S (named_type ty) <-> oc_sub x <> None)).
Proof.
  intros S d o T stk T' sels W D A Ho HT B. apply accepted_iff in A as (_ & _ & _ & _ & A & _); auto.
  destruct (A o Ho) as (_ & _ & T0 & HT0 & HS & _). assert (T0 = T) by congruence. subst T0.
  apply (scope_below S d _ _ _ _ _ _ _ HS) in B. inversion B as [items C _ H1 H2 _ _]. exists items. split; auto. intros x Hx.
  destruct (H1 x Hx) as (U & ty & args & Hf). exists ty, args. split; [exact Hf|]. split; [exact U|]. intro F. apply (H2 x ty args F Hf).
Qed.
(** The full property holds if the fields with the response key of an earlier one, which validation only compares with it, are as [repeats_ok] says. *)
Theorem C25_repeats : forall S d o T stk T' sels, schema_wf S -> document_wf d -> accepted S d ->
  In o (operations d) -> root_type S o = Some T -> repeats_ok S d (Some (op_vars o)) [] T (op_sel o) ->
  below S d any [] T (op_sel o) stk T' sels ->
  exists items, collect S d stk T' sels items /\
  forall x, In (IField x) items -> exists ty args, field_of S (oc_parent x) (oc_name x) ty args /\
    arguments_unique (oc_args x) /\ arguments_ok S (Some (op_vars o)) args (oc_args x) /\ (composite S (named_type ty) <-> oc_sub x <> None).
Proof.
  intros S d o T stk T' sels W D A Ho HT RK B. apply accepted_iff in A as (_ & _ & _ & _ & A & _); auto. destruct (A o Ho) as (_ & _ & T1 & ET & HS & _). rewrite HT in ET. injection ET as <-.
  assert (TH := thorough_below S d (Some (op_vars o)) _ _ _ _ _ _ B (repeats_thorough S d (Some (op_vars o)) W _ _ _ RK HS)).
  inversion TH as [items C _ H1 H2 _]. exists items. split; [exact C|]. intros x Hx. destruct (H1 x Hx) as (U & ty & args & Hf). exists ty, args. split; [exact Hf|]. split; [exact U|]. exact (H2 x ty args Hx Hf).
Qed.
(** When no selection set has two fields with the same response key the full property holds. *)
Theorem C25_distinct_keys : forall S d o T stk T' sels, schema_wf S -> document_wf d -> accepted S d ->
  In o (operations d) -> root_type S o = Some T -> distinct_below S d [] T (op_sel o) ->
  below S d any [] T (op_sel o) stk T' sels ->
  exists items, collect S d stk T' sels items /\
  forall x, In (IField x) items -> exists ty args, field_of S (oc_parent x) (oc_name x) ty args /\
    arguments_unique (oc_args x) /\ arguments_ok S (Some (op_vars o)) args (oc_args x) /\ (composite S (named_type ty) <-> oc_sub x <> None).
Proof.
  intros S d o T stk T' sels W D A Ho HT DK B.
  destruct (C25_selections_partial S d o T stk T' sels W D A Ho HT (below_first _ _ _ _ _ _ _ _ DK B)) as (items & C & H).
  exists items. split; auto. intros x Hx. destruct (H x Hx) as (ty & args & Hf & U & HF). exists ty, args. split; [exact Hf|]. split; [exact U|].
  apply HF. apply distinct_first; auto. apply (DK stk T' sels items); auto.
Qed.
(** The fields of the fragment definitions as well. *)
Theorem C25_fragments_partial : forall S d f stk T' sels, schema_wf S -> document_wf d -> accepted S d ->
  In f (fragments d) -> below S d first_field [f_name f] (f_cond f) (f_sel f) stk T' sels ->
  composite S (f_cond f) /\
  exists items, collect S d stk T' sels items /\
  forall x, In (IField x) items -> exists ty args, field_of S (oc_parent x) (oc_name x) ty args /\ arguments_unique (oc_args x) /\
    (first_field items x -> arguments_ok S None args (oc_args x) /\ (composite S (named_type ty) <-> oc_sub x <> None)).
Proof.
  intros S d f stk T' sels W D A Hf0 B. apply accepted_iff in A as (_ & _ & _ & _ & _ & A); auto.
  destruct (A f Hf0) as ((_ & HC & HS) & _). split; auto.
  apply (scope_below S d _ _ _ _ _ _ _ HS) in B. inversion B as [items C _ H1 H2 _ _]. exists items. split; auto. intros x Hx.
  destruct (H1 x Hx) as (U & ty & args & Hf). exists ty, args. split; [exact Hf|]. split; [exact U|]. intro F. apply (H2 x ty args F Hf).
Qed.
Example C25_example : In (IField (mkOcc ["F"] "Node" "id" "id" [] None))
    [IDirs FRAGMENT_SPREAD []; IDirs FIELD []; IField (mkOcc ["F"] "Node" "id" "id" [] None); IDirs FIELD [];
     IField (mkOcc ["F"] "Node" "self" "self" [] (Some [fld 5 "id"])); ISpread "F"] /\
  exists stk T sels, below S0 ok_doc first_field [] "Query" (match operations ok_doc with [o] => op_sel o | _ => [] end) stk T sels /\
  collect S0 ok_doc stk T sels
    [IDirs FRAGMENT_SPREAD []; IDirs FIELD []; IField (mkOcc ["F"] "Node" "id" "id" [] None); IDirs FIELD [];
     IField (mkOcc ["F"] "Node" "self" "self" [] (Some [fld 5 "id"])); ISpread "F"].
Proof.
  split; [simpl; auto|]. exists [], "Node", [spread 2 "F"]. split.
  - eapply below_sub with (o := mkOcc [] "Query" "node" "node" [] (Some [spread 2 "F"])).
    + simpl. repeat apply col_field. apply col_nil.
    + simpl. auto.
    + exists [IDirs FIELD []]. eexists. split; [reflexivity|]. intros o' [E|[]]. discriminate.
    + eapply (fun d => field_declared S0 "Query" d (field_ "node" (TNamed "Node") [])); [reflexivity|left; reflexivity|simpl; auto].
    + reflexivity.
    + apply below_self.
  - apply (col_spread S0 ok_doc [] "Node" (at_ 2) "F" [] [] (mkFrag (at_ 5) "F" "Node" (at_ 5) [] [fld 5 "id"; obj_fld 5 "self" [fld 5 "id"]])
      [IDirs FIELD []; IField (mkOcc ["F"] "Node" "id" "id" [] None); IDirs FIELD []; IField (mkOcc ["F"] "Node" "self" "self" [] (Some [fld 5 "id"]))] []);
      [reflexivity|intros []|discriminate|left; reflexivity| |apply col_nil].
    simpl. repeat apply col_field. apply col_nil.
Qed.
(** { node { id } node { missing } } is accepted although Node has no such field. *)
Theorem C25_refuted : exists d o, document_wf d /\ accepted S0 d /\ In o (operations d) /\
  exists items x, below S0 d any [] "Query" (op_sel o) [] "Node" [fld 1 "missing"] /\ collect S0 d [] "Node" [fld 1 "missing"] items /\
    In (IField x) items /\ oc_parent x = "Node" /\ oc_name x = "missing" /\ forall ty args, ~ field_of S0 "Node" "missing" ty args.
Proof.
  exists [op_ 1 None None [] [obj_fld 1 "node" [fld 1 "id"]; obj_fld 1 "node" [fld 1 "missing"]]],
         (mkOp (at_ 1) None None [] [] [obj_fld 1 "node" [fld 1 "id"]; obj_fld 1 "node" [fld 1 "missing"]]).
  split; [doc_wf_|]. split; [vm_compute; reflexivity|]. split; [simpl; auto|].
  exists [IDirs FIELD []; IField (mkOcc [] "Node" "missing" "missing" [] None)], (mkOcc [] "Node" "missing" "missing" [] None).
  split; [|split; [|split; [|split; [|split]]]]; auto.
  - eapply below_sub with (o := mkOcc [] "Query" "node" "node" [] (Some [fld 1 "missing"])).
    + simpl. repeat apply col_field. apply col_nil.
    + simpl. auto.
    + exact Logic.I.
    + eapply (fun d => field_declared S0 "Query" d (field_ "node" (TNamed "Node") [])); [reflexivity|left; reflexivity|simpl; auto].
    + reflexivity.
    + apply below_self.
  - apply col_field. apply col_nil.
  - simpl. auto.
  - intros ty args H. inversion H as [dd f Hd _ I E1 E2 E3| | |]; subst. cbn in Hd. injection Hd as <-. simpl in I. destruct I as [<-|[<-|[]]]; discriminate.
Qed.

(** ** C27 *)
(** [d] is a directive defined by the schema for [loc], with arguments that it defines, of the right types, none twice. *)
Definition directive_known (S : schema) (vars : option (list variable_def)) (loc : directive_location) (d : directive) : Prop :=
  exists dd, In dd (s_directives S) /\ dd_name dd = d_name d /\ In loc (dd_locs dd) /\ NoDup (map a_name (d_args d)) /\
    (forall x, In x (d_args d) -> exists a, In a (dd_args dd) /\ iv_name a = a_name x /\ argument_ok S vars a (a_value x)) /\
    (d_args d <> [] -> forall a, In a (dd_args dd) -> required a -> In (iv_name a) (map a_name (d_args d))).
Lemma directives_known S vars loc ds : directives_ok S vars loc ds -> NoDup (map d_name ds) /\ forall d, In d ds -> directive_known S vars loc d.
Proof.
  intros (N & H). split; auto. intros d Hd. destruct (H d Hd) as (dd & I & E & L & HA). exists dd. split; auto. split; auto. split; auto.
  destruct HA as [->|((U & _) & A1 & A2)].
  - split; [constructor|]. split; [intros x []|congruence].
  - auto.
Qed.
(** The directives of the operations, of the fragments, and of everything selected below an operation through the first
    field of each response key. Missing: a directive without any arguments may lack required ones ([C27_refuted]). *)
Theorem C27_directives_partial : forall S d, schema_wf S -> document_wf d -> accepted S d ->
  (forall o, In o (operations d) ->
     NoDup (map d_name (op_dirs o)) /\ forall x, In x (op_dirs o) -> directive_known S (Some (op_vars o)) (operation_location o) x) /\
  (forall f, In f (fragments d) -> NoDup (map d_name (f_dirs f)) /\ forall x, In x (f_dirs f) -> directive_known S None FRAGMENT_DEFINITION x) /\
  (forall o T stk T' sels items loc ds, In o (operations d) -> root_type S o = Some T -> below S d first_field [] T (op_sel o) stk T' sels ->
     collect S d stk T' sels items -> In (IDirs loc ds) items ->
     NoDup (map d_name ds) /\ forall x, In x ds -> directive_known S (Some (op_vars o)) loc x).
Proof.
  intros S d W D A. apply accepted_iff in A as (_ & _ & _ & _ & A1 & A2); auto. split; [|split].
  - intros o Ho. destruct (A1 o Ho) as (_ & H & _). apply directives_known. exact H.
  - intros f Hf. destruct (A2 f Hf) as ((H & _) & _). apply directives_known. exact H.
  - intros o T stk T' sels items loc ds Ho HT B C I. destruct (A1 o Ho) as (_ & _ & T0 & HT0 & HS & _). assert (T0 = T) by congruence. subst T0.
    apply (scope_below S d _ _ _ _ _ _ _ HS) in B. inversion B as [items' C' H _ _ _ _]. rewrite <- (collect_fun S d _ _ _ _ C _ C') in *.
    apply directives_known. apply H. exact I.
Qed.
(** { field @... }, for a leaf field without required arguments: accepted exactly when the directives are all right. *)
Theorem C27_field_directives : forall S p field ty args ds, schema_wf S ->
  field_of S (s_query S) field ty args -> ~ composite S (named_type ty) -> (forall a, In a args -> ~ required a) -> field <> "" ->
  (accepted S (single [] p field [] ds) <-> directives_ok S (Some []) FIELD ds).
Proof.
  intros S p field ty args ds W Hf NC NR Nf. rewrite accepted_iff; auto; [|constructor].
  2: { intros o [<-|[]]. simpl. split; [discriminate|]. split; [|split; [discriminate|repeat constructor; auto]].
       repeat constructor; try discriminate; auto. }
  2: { intros f []. }
  rewrite single_valid; auto. split; [tauto|]. intro H. split; [exact Logic.I|]. split; auto. split; [split; constructor|].
  exists ty, args. split; [exact Hf|]. split; [exact NC|]. split; [|intros v []]. split; [intros x []|]. intros a I R. destruct (NR a I R).
Qed.
Example C27_example : directives_ok S0 (Some []) FIELD [mkDir (at_ 1) "skip" [arg 1 "if" (LBool (at_ 1) true)]] /\
  ~ directives_ok S0 (Some []) FIELD [mkDir (at_ 1) "live" []] /\
  fst (validate S0 (single [] (at_ 1) "g" [] [mkDir (at_ 1) "live" []]) initial) = [mkErr "Unexpected location for directive: live name: FIELD" (at_ 1) []].
Proof.
  split; [|split; [|vm_compute; reflexivity]].
  - split; [repeat constructor; intros []|]. intros x [<-|[]].
    exists (mkDirDef "skip" "" [FIELD; FRAGMENT_SPREAD; INLINE_FRAGMENT] [arg_ "if" (TNonNull (TNamed "Boolean")) ""]).
    split; [simpl; auto|]. split; [reflexivity|]. split; [simpl; auto|]. right. split; [split; [repeat constructor; intros []|apply Forall_cons; [apply uf_leaf; discriminate|constructor]]|].
    split.
    + intros x [<-|[]]. exists (arg_ "if" (TNonNull (TNamed "Boolean")) ""). split; [simpl; auto|]. split; [reflexivity|]. right. apply ok_nonnull; [discriminate|discriminate|].
      apply ok_boolean. kind_.
    + intros a [<-|[]] _. simpl. auto.
  - intros (_ & H). destruct (H _ (or_introl eq_refl)) as (dd & I & E & L & _). simpl in I. destruct I as [<-|[<-|[]]]; [discriminate|].
    simpl in L. destruct L as [L|[]]. discriminate.
Qed.
(** { g @skip } is accepted although @skip requires an argument. *)
Theorem C27_refuted : accepted S0 (single [] (at_ 1) "g" [] [mkDir (at_ 1) "skip" []]) /\
  forall dd, In dd (s_directives S0) -> dd_name dd = "skip" -> exists a, In a (dd_args dd) /\ required a.
Proof.
  split; [vm_compute; reflexivity|]. intros dd [<-|[<-|[]]] E; [|discriminate]. exists (arg_ "if" (TNonNull (TNamed "Boolean")) "").
  split; [simpl; auto|]. split; [reflexivity|]. eexists. reflexivity.
Qed.

(** ** C26 *)
(** Validation terminates: the visitor's recursion into fragments is bounded by the number of fragment definitions, so
    allowing any deeper nesting changes nothing. *)
Theorem C26_validation_ends : forall S extra d st, visit_document_at S extra d st = visit_document S d st.
Proof. exact visit_extra. Qed.

(** The fields of the fragments that validation only compares with the first of their response key. *)
Definition repeated_fields_ok (S : schema) (d : document) : Prop :=
  forall f, In f (fragments d) -> repeats_ok S d None [f_name f] (f_cond f) (f_sel f).
(** No selection set below a fragment has two fields with the same response key. *)
Definition distinct_keys (S : schema) (d : document) : Prop :=
  forall f, In f (fragments d) -> distinct_below S d [f_name f] (f_cond f) (f_sel f).
Lemma distinct_fragments S d : schema_wf S -> document_wf d -> accepted S d -> distinct_keys S d -> repeated_fields_ok S d.
Proof. intros W D A DK f I. apply accepted_iff in A as (_ & _ & _ & _ & _ & A); auto. destruct (A f I) as ((_ & _ & HS) & _). exact (distinct_repeats S d None _ _ _ HS (DK f I)). Qed.

Lemma find_fragment_frag d given frags n fr : ExecSpec.fragments_of given d frags -> ExecModel.find_fragment n frags = Some fr ->
  exists f, find_frag d n = Some f /\ f_sel f = ExecModel.fr_sel fr.
Proof.
  unfold ExecSpec.fragments_of, find_frag. induction 1 as [|f nf fs nfs (E1 & _ & E3 & _) H IH]; simpl; [discriminate|].
  destruct nf as [m x]. simpl in *. subst m. destruct (String.eqb n (f_name f)); [|exact IH]. intro E. injection E as <-. exists f. auto.
Qed.
Lemma spreads_expands d s n : ExecSpec.spreads s n -> forall stk, expands d stk s ->
  ~ In n stk /\ exists f, find_frag d n = Some f /\ forall s', In s' (f_sel f) -> expands d (n :: stk) s'.
Proof.
  induction 1 as [loc n dirs|loc al nm args dirs l sub s n I H IH|loc c dirs sel s n I H IH]; intros stk E; inversion E; subst.
  - split; auto. eexists. split; eauto.
  - apply IH. match goal with X : forall l sels s, _ = Some _ -> _ |- _ => eapply X; [reflexivity|exact I] end.
  - apply IH. auto.
Qed.
Lemma leads_expands d given frags a b : ExecSpec.fragments_of given d frags -> ExecSpec.leads frags a b ->
  forall stk fa, find_frag d a = Some fa -> (forall s, In s (f_sel fa) -> expands d stk s) ->
  ~ In b stk /\ exists fb stk', find_frag d b = Some fb /\ incl (b :: stk) stk' /\ forall s, In s (f_sel fb) -> expands d stk' s.
Proof.
  intros HF. induction 1 as [a fr s b Hf I H|a b c H1 IH1 H2 IH2]; intros stk fa Ha Ex.
  - destruct (find_fragment_frag d given frags a fr HF Hf) as (f & E1 & E2). assert (f = fa) by congruence. subst f. rewrite <- E2 in I.
    destruct (spreads_expands d s b H stk (Ex s I)) as (N & f & F & X). split; auto. exists f, (b :: stk). split; auto. split; [apply incl_refl|auto].
  - destruct (IH1 stk fa Ha Ex) as (N1 & fb & stk1 & F1 & I1 & X1). destruct (IH2 stk1 fb F1 X1) as (N2 & fc & stk2 & F2 & I2 & X2).
    split; [intro Hc; apply N2, I1; right; auto|]. exists fc, stk2. split; auto. split; auto. intros x [<-|Hx]; [apply I2; left; auto|].
    apply I2. right. apply I1. right. auto.
Qed.

(** In an accepted document no fragment leads to itself, and so every selection set can be executed to an end. Missing:
    documents in which a field that validation skips, having the response key of an earlier one, breaks the rules ([C26_validation_refuted]). *)
Theorem C26_accepted_acyclic_partial : forall S d given frags, schema_wf S -> document_wf d -> accepted S d -> repeated_fields_ok S d ->
  ExecSpec.fragments_of given d frags -> ExecSpec.acyclic frags.
Proof.
  intros S d given frags W D A DK HF n L. apply accepted_iff in A as (_ & _ & _ & _ & _ & A); auto.
  assert (exists fr, ExecModel.find_fragment n frags = Some fr) as (fr & E).
  { clear - L. remember n as m in L at 2. clear Heqm. induction L; eauto. }
  destruct (find_fragment_frag d given frags n fr HF E) as (f & F & _).
  destruct (find_frag_In d n f F) as (I & En). destruct (A f I) as ((_ & _ & HS) & _).
  destruct (leads_expands d given frags n n HF L [n] f F) as (N & _).
  - rewrite <- En. apply (thorough_expands S d None [f_name f] (f_cond f) (f_sel f)). apply (repeats_thorough S d None W); [apply DK; exact I|exact HS].
  - apply N. left. reflexivity.
Qed.
Theorem C26_accepted_terminates_partial : forall S d given frags, schema_wf S -> document_wf d -> accepted S d -> repeated_fields_ok S d ->
  ExecSpec.fragments_of given d frags ->
  forall Obj (typenames : Obj -> list string) has_field ans e o fp sels,
  ExecModel.e_frags e = frags -> ExecSpec.defined_answers ans ->
  (forall f, In f (fragments d) -> Forall ExecSpec.small_sel (f_sel f)) -> Forall ExecSpec.small_sel sels ->
  exists r, ExecSpec.results typenames has_field ans e o fp sels r.
Proof.
  intros S d given frags W D A DK HF Obj typenames has_field ans e o fp sels <- DA SF SS. apply ExecTerm.acyclic_defined; auto.
  - eapply C26_accepted_acyclic_partial; eauto.
  - intros n fr E. destruct (find_fragment_frag d given _ n fr HF E) as (f & F & <-). apply SF. apply (find_frag_In d n f F).
Qed.
Example C26_example : distinct_keys S0 ok_doc.
Proof.
  intros f [<-|[]] stk T sels items B C. simpl in B.
  assert (H : (T = "Node" /\ (sels = [fld 5 "id"; obj_fld 5 "self" [fld 5 "id"]] \/ sels = [fld 5 "id"]))).
  { inversion B as [|items1 o ty args sub stk' T' sels' C1 I1 F1 H1 E1 B1]; subst; [auto|].
    inversion C1 as [|stk' T' loc alias name args' dirs sub' r items' C2 E2| |]; subst.
    inversion C2 as [|stk' T' loc alias name args' dirs sub' r items2 C3 E3| |]; subst. inversion C3. subst.
    simpl in I1. destruct I1 as [I1|[I1|[I1|[I1|[]]]]]; try discriminate; injection I1 as <-; simpl in *; [discriminate|].
    injection E1 as <-. assert (ty = TNamed "Node").
    { inversion H1 as [dd ff Hd _ I E4 E5 E6| | |]; subst. cbn in Hd. injection Hd as <-. simpl in I. destruct I as [<-|[<-|[]]]; [discriminate|reflexivity]. }
    subst ty. simpl in B1. inversion B1 as [|items2 o ty args2 sub stk' T' sels' C4 I4 F4 H4 E4 B4]; subst; [auto|]. exfalso.
    inversion C4 as [|stk' T' loc alias name args' dirs sub' r items' C5 E5| |]; subst. inversion C5; subst.
    simpl in I4. destruct I4 as [I4|[I4|[]]]; [discriminate|]. injection I4 as <-. discriminate. }
  destruct H as (-> & [->| ->]).
  - inversion C as [|stk' T' loc alias name args' dirs sub' r items' C2 E2| |]; subst.
    inversion C2 as [|stk' T' loc alias name args' dirs sub' r items2 C3 E3| |]; subst. inversion C3. subst. simpl. nodup_.
  - inversion C as [|stk' T' loc alias name args' dirs sub' r items' C2 E2| |]; subst. inversion C2; subst. simpl. nodup_.
Qed.
Example C26_example_repeats : repeated_fields_ok S0 ok_doc.
Proof. apply distinct_fragments; [apply S0_wf|apply ok_doc_wf|exact ok_doc_accepted|exact C26_example]. Qed.

(** query { node { ...F } }  fragment F on Node { id ... on A { x: self { id } } ... on B { x: self { ...F } } } *)
Definition cyclic_doc : document :=
  [op_ 1 None None [] [obj_fld 1 "node" [spread 1 "F"]];
   frag_ 2 "F" "Node" [fld 2 "id"; on_ 2 "A" [as_fld 2 "x" "self" [fld 2 "id"]]; on_ 2 "B" [as_fld 2 "x" "self" [spread 2 "F"]]]].
(** an object of type B whose fields id and self are "b" and itself *)
Definition b_types (_ : unit) : list string := ["B"; "Node"].
Definition b_has (_ : unit) (f : string) : bool := existsb (String.eqb f) ["id"; "self"].
Definition b_ans (_ : unit) (f : string) (_ : ExecModel.fparams) : ExecModel.answer unit :=
  if String.eqb f "id" then ExecModel.AResult (ExecModel.FLeaf true false (Ok (VString "b" false)))
  else ExecModel.AResult (ExecModel.FDerived (Ok (Some tt))).
Definition cyclic_frags : list (string * ExecModel.fragment) :=
  [("F", ExecModel.mkFragment "Node" [] [fld 2 "id"; on_ 2 "A" [as_fld 2 "x" "self" [fld 2 "id"]]; on_ 2 "B" [as_fld 2 "x" "self" [spread 2 "F"]]])].
Definition cyclic_env : ExecModel.env := ExecModel.mkEnv ExecModel.CQuery [] cyclic_frags (VMap []) ExecModel.LAsync.
Lemma cyclic_diverges n : forall fp, ExecDirect.dresolve unit b_types b_has b_ans n cyclic_env tt fp [spread 2 "F"] = UB.
Proof.
  induction n as [n IH] using lt_wf_ind. intro fp. destruct n as [|[|[|n]]]; [reflexivity|reflexivity|reflexivity|].
  assert (E := IH n ltac:(lia) (PName "x" :: fp)).
  unfold ExecDirect.dresolve in *. set (rec := ExecDirect.dvisit unit b_types b_has b_ans n cyclic_env) in *.
  cbn -[ExecDirect.dresolve_with rec]. unfold ExecDirect.dresolve_with at 1. cbn -[ExecDirect.dresolve_with rec].
  unfold rec in E. rewrite E. reflexivity.
Qed.
(** The document is accepted although its fragment spreads itself, and executing it does not end. *)
Theorem C26_validation_refuted : document_wf cyclic_doc /\ accepted S0 cyclic_doc /\
  ExecSpec.fragments_of [] cyclic_doc cyclic_frags /\ ExecSpec.leads cyclic_frags "F" "F" /\
  forall fp r, ~ ExecSpec.results b_types b_has b_ans cyclic_env tt fp [spread 2 "F"] r.
Proof.
  split; [doc_wf_|]. split; [vm_compute; reflexivity|]. split.
  { constructor; [|constructor]. simpl. split; [reflexivity|]. split; [reflexivity|]. split; [reflexivity|]. exists []. split; [constructor|reflexivity]. }
  split.
  { eapply ExecSpec.ld_one; [reflexivity|right; right; left; reflexivity|]. eapply ExecSpec.sp_inline; [left; reflexivity|].
    eapply ExecSpec.sp_field; [left; reflexivity|]. apply ExecSpec.sp_here. }
  intros fp r H. apply ExecProofs3.results_iff in H as (N & n & E). rewrite cyclic_diverges in E. congruence.
Qed.

Print Assumptions C28_accepts_exactly_valid.
Print Assumptions C22_history_independent_partial.
Print Assumptions C22_refuted.
Print Assumptions C23_variable_usage.
Print Assumptions C24_literal.
Print Assumptions C24_builtin_scalars.
Print Assumptions C24_input_objects.
Print Assumptions C25_selections_partial.
Print Assumptions C25_repeats.
Print Assumptions C25_distinct_keys.
Print Assumptions C25_refuted.
Print Assumptions C26_validation_ends.
Print Assumptions C26_accepted_terminates_partial.
Print Assumptions C26_validation_refuted.
Print Assumptions C27_directives_partial.
Print Assumptions C27_field_directives.
