(** Consequences of the characterization of validation: the fields met below an operation, fragment cycles, and documents
    with a single field. *)
From Verif Require Import Cpp Value Ast SchemaModel.
From Verif Require Import ValidationModel ValidationSpec ValidationValues ValidationFields ValidationCheck ValidationSelections ValidationScope
  ValidationDocument ValidationHistory2.
Local Open Scope string_scope.
Local Open Scope list_scope.

(** The document is validated without errors by a Request that has not validated anything before. *)
Definition accepted (S : schema) (d : document) : Prop := fst (validate S d initial) = [].

Theorem accepted_iff S d : schema_wf S -> document_wf d -> (accepted S d <-> valid_document S d).
Proof.
  intros W D. pose proof (validate_ok S W d initial D (clean_initial S)) as H. unfold accepted, validate, checks in *.
  destruct (visit_document S d initial) as [[es u] st']. simpl. destruct H as [[-> [H _]]|[H1 H2]]; tauto.
Qed.

(** * The selection sets and fields below a selection set *)
Section Below.
  Variable S : schema.
  Variable doc : document.

  (** [below ok stk T sels stk' T' sels']: [sels'], of type [T'], is the selection set [sels] or the sub-selection of a
      field below it; on the way down only fields [o] with [ok items o] are entered. *)
  Inductive below (ok : list item -> occurrence -> Prop) (stk : list string) (T : string) (sels : list selection)
      : list string -> string -> list selection -> Prop :=
  | below_self : below ok stk T sels stk T sels
  | below_sub items o ty args sub stk' T' sels' :
      collect S doc stk T sels items -> In (IField o) items -> ok items o ->
      field_of S (oc_parent o) (oc_name o) ty args -> oc_sub o = Some sub ->
      below ok (oc_stack o) (named_type ty) sub stk' T' sels' -> below ok stk T sels stk' T' sels'.
  Definition any (items : list item) (o : occurrence) : Prop := True.

  Lemma scope_below vars stk T sels stk' T' sels' : scope_ok S doc vars stk T sels -> below first_field stk T sels stk' T' sels' ->
    scope_ok S doc vars stk' T' sels'.
  Proof.
    intros H B. induction B as [|stk T sels items o ty args sub stk' T' sels' C I F Ho Hs B IH]; auto.
    apply IH. inversion H as [items' C' _ _ _ Hsub _]. rewrite <- (collect_fun S doc _ _ _ _ C _ C') in *. eapply Hsub; eauto.
  Qed.

  (** the response keys of the fields of an expanded selection set *)
  Definition keys (items : list item) : list string := flat_map (fun i => match i with IField o => [oc_key o] | _ => [] end) items.
  Lemma key_in items o : In (IField o) items -> In (oc_key o) (keys items).
  Proof. intro H. unfold keys. apply in_flat_map. exists (IField o). split; [auto|left; auto]. Qed.
  Lemma distinct_first items o : NoDup (keys items) -> In (IField o) items -> first_field items o.
  Proof.
    intros N H. apply in_split in H as (pre & post & ->). exists pre, post. split; auto. intros o' H' E.
    unfold keys in N. rewrite flat_map_app in N. simpl in N. apply NoDup_remove_2 in N. apply N, in_or_app. left. rewrite <- E. exact (key_in pre o' H').
  Qed.
  Definition distinct_below (stk : list string) (T : string) (sels : list selection) : Prop :=
    forall stk' T' sels' items, below any stk T sels stk' T' sels' -> collect S doc stk' T' sels' items -> NoDup (keys items).
  Lemma below_first stk T sels stk' T' sels' : distinct_below stk T sels -> below any stk T sels stk' T' sels' -> below first_field stk T sels stk' T' sels'.
  Proof.
    intros D B. induction B as [|stk T sels items o ty args sub stk' T' sels' C I F Ho Hs B IH]; [constructor|].
    apply (below_sub _ stk T sels items o ty args sub stk' T' sels'); auto.
    - apply distinct_first; auto. apply (D stk T sels items); [constructor|auto].
    - apply IH. intros stk2 T2 sels2 items2 B2 C2. apply (D stk2 T2 sels2 items2); auto. eapply below_sub; eauto.
  Qed.

  (** * Fragment cycles *)
  (** Every spread met when [sels] is expanded, through fields as well, is of a defined fragment that is not being
      expanded. *)
  Inductive expands : list string -> selection -> Prop :=
  | ex_field stk loc alias name args dirs sub : (forall l sels s, sub = Some (l, sels) -> In s sels -> expands stk s) ->
      expands stk (SField loc alias name args dirs sub)
  | ex_inline stk loc cond dirs sels : (forall s, In s sels -> expands stk s) -> expands stk (SInline loc cond dirs sels)
  | ex_spread stk loc name dirs f : find_frag doc name = Some f -> ~ In name stk -> (forall s, In s (f_sel f) -> expands (name :: stk) s) ->
      expands stk (SSpread loc name dirs).

  Lemma collect_expands stk T sels items : collect S doc stk T sels items ->
    (forall o sub, In (IField o) items -> oc_sub o = Some sub -> forall s, In s sub -> expands (oc_stack o) s) ->
    forall s, In s sels -> expands stk s.
  Proof.
    induction 1 as [stk T|stk T loc alias name args dirs sub r items H IH|stk T loc cond dirs sels r T' i1 i2 Hc H1 IH1 H2 IH2|
                    stk T loc name dirs r f i1 i2 Hf Hn Ht Ho H1 IH1 H2 IH2]; intros HS s I; [destruct I| | |].
    - destruct I as [<-|I].
      + constructor. intros l sels s' E I. subst sub. specialize (HS (mkOcc stk T (response_key alias name) name args (Some sels)) sels).
        apply HS; simpl; auto.
      + apply IH; auto. intros o sub' I' E. apply HS; auto. simpl. auto.
    - destruct I as [<-|I].
      + constructor. apply IH1. intros o sub I' E. apply HS; auto. simpl. right. apply in_or_app. auto.
      + apply IH2; auto. intros o sub I' E. apply HS; auto. simpl. right. apply in_or_app. auto.
    - destruct I as [<-|I].
      + econstructor; eauto. apply IH1. intros o sub I' E. apply HS; auto. simpl. right. apply in_or_app. auto.
      + apply IH2; auto. intros o sub I' E. apply HS; auto. simpl. right. apply in_or_app. right. simpl. auto.
  Qed.
  Lemma scope_expands vars stk T sels : scope_ok S doc vars stk T sels -> distinct_below stk T sels -> forall s, In s sels -> expands stk s.
  Proof.
    induction 1 as [stk T sels items C _ F1 _ _ IH _]. intros D s I. eapply collect_expands; eauto. intros o sub Io Eo.
    assert (N : NoDup (keys items)) by (apply (D stk T sels items); [constructor|auto]).
    destruct (F1 o Io) as (_ & ty & args & Hf). eapply IH; eauto; [apply distinct_first; auto|].
    intros stk2 T2 sels2 items2 B2 C2. apply (D stk2 T2 sels2 items2); auto. eapply below_sub; eauto. exact Logic.I.
  Qed.
End Below.

(** * Documents with a single field *)
Section Single.
  Variable S : schema.
  Hypothesis WF : schema_wf S.
  Definition single (vars : list variable_def) (p : schema_location) (field : string) (args : list argument) (dirs : list directive) : document :=
    [DOp (mkOp p None None vars [] [SField p None field args dirs None])].

  Lemma single_collect vars p field args dirs : forall items, collect S (single vars p field args dirs) [] (s_query S) [SField p None field args dirs None] items <->
    items = [IDirs FIELD dirs; IField (mkOcc [] (s_query S) field field args None)].
  Proof.
    intro items. split.
    - intro H. inversion H as [|stk T loc alias name args' dirs' sub r items' H'| |]; subst. inversion H'; subst. reflexivity.
    - intros ->. apply (col_field S (single vars p field args dirs) [] (s_query S) p None field args dirs None [] []). constructor.
  Qed.

  Lemma single_valid vars p field args dirs :
    valid_document S (single vars p field args dirs) <->
    variables_ok S [] vars /\ directives_ok S (Some vars) FIELD dirs /\ arguments_unique args /\
    exists ty decl, field_of S (s_query S) field ty decl /\ ~ composite S (named_type ty) /\ arguments_ok S (Some vars) decl args /\
      forall v, In v vars -> In (v_name v) (default_vars S vars) \/ In (v_name v) (args_vars S decl args) \/ In (v_name v) (dirs_vars S dirs).
  Proof.
    set (o := mkOcc [] (s_query S) field field args None).
    assert (FF : first_field [IDirs FIELD dirs; IField o] o).
    { exists [IDirs FIELD dirs], []. split; auto. intros o' [E|[]]. discriminate. }
    assert (OF : forall x, In (IField x) [IDirs FIELD dirs; IField o] -> x = o).
    { intros x [E|[E|[]]]; congruence. }
    assert (FO : forall x, first_field [IDirs FIELD dirs; IField o] x -> x = o) by (intros x H; apply first_In in H; auto).
    split.
    - intros (_ & _ & _ & _ & HO & _). destruct (HO _ (or_introl eq_refl)) as (HV & _ & T & HT & HS & _ & HU). simpl in HV, HS, HU.
      cbn in HT. injection HT as <-. split; auto. inversion HS as [items C HD H1 H2 _ _].
      apply single_collect in C. subst items. split; [apply HD; left; reflexivity|]. destruct (H1 o) as (U & ty & decl & Hf); [simpl; auto|]. split; auto.
      exists ty, decl. split; [exact Hf|]. destruct (H2 o ty decl FF Hf) as (HA & HC). simpl in HC. split; [tauto|]. split; [exact HA|].
      intros v Hv. destruct (HU v Hv) as [E|[E|E]]; [auto|destruct E|]. right.
      inversion E as [items loc ds C I U'|items x ty' args' C F Fo I|items x ty' args' sub C F Fo E' U']; apply single_collect in C; subst items.
      + destruct I as [I|[I|[]]]; [|discriminate]. injection I as <- <-. right. exact U'.
      + apply FO in F. subst x. simpl in Fo, I. destruct (field_of_fun S WF _ _ _ _ _ _ Hf Fo) as (-> & ->). left. exact I.
      + apply FO in F. subst x. discriminate.
    - intros (HV & HD & U & ty & decl & Hf & NC & HA & HU). unfold valid_document. split; [intros loc [E|[]]; discriminate|].
      split; [constructor|]. split; [repeat constructor; intros []|]. split; [intros x [<-|[]] _; reflexivity|].
      split; [|intros f []]. intros x [<-|[]]. unfold operation_ok. simpl. split; auto. split; [split; [constructor|intros d []]|].
      exists (s_query S). split; [reflexivity|].
      assert (C : collect S (single vars p field args dirs) [] (s_query S) [SField p None field args dirs None] [IDirs FIELD dirs; IField o]) by (apply single_collect; reflexivity).
      split; [|split].
      + econstructor; [exact C| | | | |].
        * intros loc ds [E|[E|[]]]; [|discriminate]. injection E as <- <-. exact HD.
        * intros x Hx. apply OF in Hx. subst x. simpl. split; [exact U|eauto].
        * intros x ty' args' F Fx. apply FO in F. subst x. simpl in Fx |- *. destruct (field_of_fun S WF _ _ _ _ _ _ Hf Fx) as (<- & <-). tauto.
        * intros x ty' args' sub F _ E. apply FO in F. subst x. discriminate.
        * intros x y pre mid post E _ _. exfalso. destruct pre as [|i [|j pre]]; [discriminate| |].
          -- injection E as _ _ E. destruct mid; discriminate.
          -- injection E as _ _ E. destruct pre; discriminate.
      + discriminate.
      + intros v Hv. destruct (HU v Hv) as [E|[E|E]]; [auto| |]; right; right.
        * eapply uses_args; [exact C|exact FF|exact Hf|exact E].
        * eapply uses_dirs; [exact C|left; reflexivity|exact E].
  Qed.
End Single.
