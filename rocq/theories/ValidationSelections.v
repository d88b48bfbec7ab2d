(** Selections: the visitor reports no error on a selection set exactly if it can be expanded and [check]ed. *)
From Verif Require Import Cpp Value Ast SchemaModel SortedMapModel SortedMapSpec SortedMapProofs.
From Verif Require Import ValidationModel ValidationSpec ValidationMaps ValidationValues ValidationValues2 ValidationArgs ValidationFields ValidationCheck.
Local Open Scope string_scope.
Local Open Scope list_scope.

Lemma checks_seq {A B} (m : M A) (k : A -> M B) st (P P'' : Prop) Q Q' :
  checks m st P Q -> (P'' -> P) -> (forall a st', P -> Q a st' -> checks (k a) st' P'' Q') -> checks (mbind m k) st P'' Q'.
Proof.
  intros H1 HP H2. eapply checks_bind with (P' := P''); [exact H1|exact H2|tauto].
Qed.

Lemma checks_run_bind {A B} (m : M A) (k : A -> M B) st a st1 P Q : m st = ([], a, st1) -> checks (k a) st1 P Q -> checks (mbind m k) st P Q.
Proof. unfold checks, mbind. intros ->. destruct (k a st1) as [[e b] st2]. auto. Qed.

Section Selections.
  Variable S : schema.
  Hypothesis WF : schema_wf S.
  Variable doc : document.
  Hypothesis DWF : document_wf doc.
  Hypothesis NDF : NoDup (map f_name (fragments doc)).

  Definition tcache_ok (st : vstate) : Prop :=
    forall n fs, assoc n (typeFields st) = Some fs -> composite S n /\ fs = scoped_fields S (TNamed n).
  Definition sel_rel (F : list occurrence) (m : list (string * vfield)) : Prop :=
    forall k, match assoc k m, find_key_in k F with
              | Some vf, Some o => vfield_of S o vf /\ arguments_unique (oc_args o)
              | None, None => True
              | _, _ => False
              end.
  (** the state when the selections of type [T] are visited *)
  Record scope_st (vars : option (list variable_def)) (F : list occurrence) (stk : list string) (T : string) (st : vstate) : Prop := {
    ss_frags : forall n, assoc n (fragmentDefinitions st) = find_frag doc n;
    ss_cycles : fragmentCycles st = [];
    ss_vars : vars_rel S vars (operationVariables st);
    ss_stack : forall x, In x (fragmentStack st) <-> In x stk;
    ss_icache : icache_ok S st;
    ss_tcache : tcache_ok st;
    ss_scoped : scopedType st = Some (TNamed T);
    ss_fields : sel_rel F (selectionFields st) }.
  (** what a successful visit changes *)
  Record sstep (vars : option (list variable_def)) (F F' : list occurrence) (uv uf : list string) (st st' : vstate) : Prop := {
    sp_frags : fragmentDefinitions st' = fragmentDefinitions st;
    sp_ops : operationDefinitions st' = operationDefinitions st;
    sp_cycles : fragmentCycles st' = fragmentCycles st;
    sp_vars : operationVariables st' = operationVariables st;
    sp_defs : variableDefinitions st' = variableDefinitions st;
    sp_stack : fragmentStack st' = fragmentStack st;
    sp_scoped : scopedType st' = scopedType st;
    sp_icache : icache_ok S st';
    sp_tcache : tcache_ok st';
    sp_fields : sel_rel F' (selectionFields st');
    sp_count : fieldCount st' + length F = fieldCount st + length F';
    sp_refv : forall x, In x (referencedVariables st') <-> In x (referencedVariables st) \/ (vars <> None /\ In x uv);
    sp_reff : forall x, In x (referencedFragments st') <-> In x (referencedFragments st) \/ In x uf }.

  Lemma scope_step vars F F' uv uf stk T st st' : scope_st vars F stk T st -> sstep vars F F' uv uf st st' -> scope_st vars F' stk T st'.
  Proof.
    intros [H1 H2 H3 H4 H5 H6 H7 H8] [G1 G2 G3 G4 G5 G6 G7 G8 G9 G10 G11 G12 G13]. constructor; auto.
    - intro n. rewrite G1. auto.
    - congruence.
    - rewrite G4. auto.
    - intro x. rewrite G6. auto.
    - congruence.
  Qed.
  Lemma sstep_trans vars F F1 F2 u1 u2 f1 f2 st st1 st2 :
    sstep vars F F1 u1 f1 st st1 -> sstep vars F1 F2 u2 f2 st1 st2 -> sstep vars F F2 (u1 ++ u2) (f1 ++ f2) st st2.
  Proof.
    intros [G1 G2 G3 G4 G5 G6 G7 G8 G9 G10 G11 G12 G13] [K1 K2 K3 K4 K5 K6 K7 K8 K9 K10 K11 K12 K13].
    constructor; auto; try congruence; try lia.
    - intro x. rewrite K12, G12, in_app_iff. tauto.
    - intro x. rewrite K13, G13, in_app_iff. tauto.
  Qed.
  Lemma sstep_refl vars F stk T st : scope_st vars F stk T st -> sstep vars F F [] [] st st.
  Proof. intros [H1 H2 H3 H4 H5 H6 H7 H8]. constructor; auto; intro x; simpl; tauto. Qed.
  Lemma vstep_sstep vars F stk T uv st st' : scope_st vars F stk T st -> vstep S vars uv st st' -> sstep vars F F uv [] st st'.
  Proof.
    intros [H1 H2 H3 H4 H5 H6 H7 H8] (E & C & R). destruct st, st'; simpl in *. inversion E; subst.
    constructor; simpl in *; auto. intro x. tauto.
  Qed.
  Lemma sstep_eq vars F F' u1 uv f1 uf st st' : sstep vars F F' u1 f1 st st' -> (forall x, In x uv <-> In x u1) -> (forall x, In x uf <-> In x f1) ->
    sstep vars F F' uv uf st st'.
  Proof.
    intros [G1 G2 G3 G4 G5 G6 G7 G8 G9 G10 G11 G12 G13] H1 H2. constructor; auto.
    - intro x. rewrite G12, H1. tauto.
    - intro x. rewrite G13, H2. tauto.
  Qed.

  Definition sels_ok vars F stk T sels : Prop :=
    exists items F' uv uf, collect S doc stk T sels items /\ check S doc vars F items F' uv uf.
  Definition sels_post vars F stk T sels st st' : Prop :=
    exists items F' uv uf, collect S doc stk T sels items /\ check S doc vars F items F' uv uf /\ sstep vars F F' uv uf st st'.

  Definition free (stk : list string) : nat := length (filter (fun n => negb (mem n stk)) (map f_name (fragments doc))).
  Lemma free_push stk n : ~ In n stk -> In n (map f_name (fragments doc)) -> free stk = Datatypes.S (free (n :: stk)).
  Proof.
    unfold free. intros N Hi. apply mem_not_In in N. induction (map f_name (fragments doc)) as [|x l IH]; [contradiction|].
    inversion NDF as [|? ? N1 N2]; subst. clear NDF. simpl. destruct (string_dec x n) as [->|E].
    - rewrite N, String.eqb_refl. simpl. f_equal.
      assert (G : forall l, ~ In n l -> filter (fun m => negb (mem m stk)) l = filter (fun m => negb (mem m (n :: stk))) l).
      { clear. induction l as [|y r IH]; simpl; auto. intro H. destruct (String.eqb y n) eqn:E.
        - apply String.eqb_eq in E. subst. tauto.
        - simpl. rewrite IH by tauto. reflexivity. }
      rewrite G; auto.
    - assert (Hl : In n l) by (destruct Hi; congruence || auto). apply String.eqb_neq in E. rewrite E. simpl.
      destruct (mem x stk); simpl; auto.
  Qed.

  (** ** One field *)
  Lemma scoped_type_fields vars F stk T st : scope_st vars F stk T st ->
    exists found st', get_scoped_type_fields S st = ([], found, st') /\ sstep vars F F [] [] st st' /\
      ((composite S T /\ found = Some (scoped_fields S (TNamed T))) \/ (~ composite S T /\ found = None)).
  Proof.
    intros Hst. pose proof Hst as [H1 H2 H3 H4 H5 H6 H7 H8]. unfold get_scoped_type_fields. rewrite H7. cbn [type_name].
    destruct (assoc T (typeFields st)) as [fs|] eqn:E.
    - destruct (H6 _ _ E) as (HC & ->). do 2 eexists. split; [reflexivity|]. split; [eapply sstep_refl; eauto|]. auto.
    - simpl kind_of. destruct (find_type S T) as [d|] eqn:Ed.
      + pose proof (scalar_composite S T d Ed) as SC. destruct (is_scalar_kind (td_kind d)) eqn:Es.
        * do 2 eexists. split; [reflexivity|]. split; [eapply sstep_refl; eauto|]. right. split; auto. rewrite <- SC. discriminate.
        * do 2 eexists. split; [reflexivity|]. split; [|left; tauto]. constructor; auto; try (intro x; simpl; tauto).
          intros n fs. simpl. rewrite assoc_m_set. destruct (String.eqb n T) eqn:En; [|apply H6].
          apply String.eqb_eq in En. subst n. intro H. inversion H. subst. split; [tauto|auto].
      + simpl. do 2 eexists. split; [reflexivity|]. split; [eapply sstep_refl; eauto|]. right. split; auto.
        intros [(d & G & _)|[(d & G & _)|(d & G & _)]]; congruence.
  Qed.

  Lemma find_key_app k F o : find_key_in k (F ++ [o]) = match find_key_in k F with Some x => Some x | None => if String.eqb k (oc_key o) then Some o else None end.
  Proof. unfold find_key_in. induction F as [|x r IH]; simpl; auto. destruct (String.eqb k (oc_key x)); auto. Qed.

  Lemma collect_field stk T loc alias name args dirs sub items :
    collect S doc stk T [SField loc alias name args dirs sub] items <->
    items = [IDirs FIELD dirs; IField (mkOcc stk T (response_key alias name) name args (option_map snd sub))].
  Proof.
    split.
    - intro H. inversion H; subst. match goal with G : collect _ _ _ _ [] _ |- _ => inversion G; subst end. reflexivity.
    - intros ->. constructor. constructor.
  Qed.

  Lemma visit_field_ok vars F stk T st loc alias name args dirs sub vs :
    scope_st vars F stk T st -> sel_wf (SField loc alias name args dirs sub) ->
    match sub, vs with
    | None, None => True
    | Some (_, sels), Some v =>
        forall T' st', scope_st vars [] stk T' st' ->
          checks v st' (sels_ok vars [] stk T' sels) (fun _ st'' => sels_post vars [] stk T' sels st' st'')
    | _, _ => False
    end ->
    checks (visit_field S loc alias name args dirs vs) st (sels_ok vars F stk T [SField loc alias name args dirs sub])
      (fun _ st' => sels_post vars F stk T [SField loc alias name args dirs sub] st st').
  Proof.
    intros Hst Hwf Hsub. set (o := mkOcc stk T (response_key alias name) name args (option_map snd sub)).
    assert (PO : sels_ok vars F stk T [SField loc alias name args dirs sub] <->
                 directives_ok S vars FIELD dirs /\ exists F' uv uf, check S doc vars F [IField o] F' uv uf).
    { unfold sels_ok. split.
      - intros (items & F' & uv & uf & H1 & H2). apply collect_field in H1. subst items. inversion H2; subst. split; auto. eauto.
      - intros (H1 & F' & uv & uf & H2). do 4 eexists. split; [apply collect_field; reflexivity|]. constructor; eauto. }
    unfold visit_field. eapply checks_seq; [apply (visit_directives_ok S WF vars); [eapply ss_vars; eauto|eapply ss_icache; eauto]|tauto|].
    intros [] st1 HD Hst1. pose proof (vstep_sstep _ _ _ _ _ _ _ Hst Hst1) as SP1. pose proof (scope_step _ _ _ _ _ _ _ _ _ Hst SP1) as Hs1.
    eapply checks_imp with (P := exists F' uv uf, check S doc vars F [IField o] F' uv uf)
      (Q := fun _ st' => exists F' uv uf, check S doc vars F [IField o] F' uv uf /\ sstep vars F F' uv uf st1 st');
      [|tauto|intros [] st' _ (F' & uv & uf & H1 & H2); do 4 eexists; split; [apply collect_field; reflexivity|]; split; [constructor; eauto|];
        eapply (sstep_trans _ _ _ _ _ _ [] uf); eauto].
    clear st Hst Hst1 SP1 HD PO. rename st1 into st. rename Hs1 into Hst.
    apply checks_get_bind. rewrite (ss_scoped _ _ _ _ _ Hst). cbv zeta.
    destruct (scoped_type_fields _ _ _ _ _ Hst) as (found & st1 & Ef & SP1 & Hfound).
    eapply checks_run_bind; [exact Ef|].
    eapply checks_imp with (P := exists F' uv uf, check S doc vars F [IField o] F' uv uf)
      (Q := fun _ st' => exists F' uv uf, check S doc vars F [IField o] F' uv uf /\ sstep vars F F' uv uf st1 st');
      [|tauto|intros [] st' _ (F' & uv & uf & G2 & G3); exists F', uv, uf; split; auto; exact (sstep_trans _ _ _ _ [] uv [] uf _ _ _ SP1 G3)].
    pose proof (scope_step _ _ _ _ _ _ _ _ _ Hst SP1) as Hs1. clear st Hst Ef SP1. rename st1 into st. rename Hs1 into Hst.
    assert (NF : (forall ty a, ~ field_of S T name ty a) -> ~ exists F' uv uf, check S doc vars F [IField o] F' uv uf).
    { intros N (F' & uv & uf & H). apply check_fields with (o := o) in H; [|simpl; auto]. destruct H as (_ & ty & a & H). eapply N; eauto. }
    destruct Hfound as [(HC & ->)|(HC & ->)].
    2: { apply checks_emit. apply NF. intros ty a H. apply HC. eapply field_of_wf; eauto. }
    (* the field *)
    pose proof (scoped_fields_assoc S WF T name HC) as HA.
    assert (UN : kind_eqb (kind_of S (TNamed T)) UNION = true -> name <> "__typename" -> forall ty a, ~ field_of S T name ty a).
    { intros K Nt ty a H. apply kind_eqb_iff in K. inversion H as [d f Hd Kd Hf| |HI HT|HI HT]; subst; try congruence.
      - simpl in K. rewrite Hd in K. destruct Kd; congruence.
      - destruct (wf_query _ WF) as (d & H1 & H2). simpl in K. rewrite H1 in K. congruence.
      - destruct (wf_query _ WF) as (d & H1 & H2). simpl in K. rewrite H1 in K. congruence. }
    destruct (kind_eqb (kind_of S (TNamed T)) UNION && negb (String.eqb name "__typename"))%bool eqn:EU.
    { apply andb_prop in EU. destruct EU as (E1 & E2). apply Bool.negb_true_iff, String.eqb_neq in E2. apply checks_emit. apply NF, UN; auto. }
    assert (TY : match assoc name (scoped_fields S (TNamed T)) with
                 | Some f => exists ty a, field_of S T name ty a /\ f = mkVTF ty (get_arguments S a) /\
                     (if kind_eqb (kind_of S (TNamed T)) UNION then Some (TNamed "String", TNonNull (TNamed "String"))
                       else match inner_type S (tf_type f) with Some i => Some (i, tf_type f) | None => None end) = Some (TNamed (named_type ty), ty)
                 | None => (forall ty a, ~ field_of S T name ty a) /\ kind_eqb (kind_of S (TNamed T)) UNION = false
                 end).
    { destruct (assoc name (scoped_fields S (TNamed T))) as [f|].
      - destruct HA as (a & H1 & H2). exists (tf_type f), a. split; auto. split; [destruct f; simpl in *; congruence|].
        destruct (kind_eqb (kind_of S (TNamed T)) UNION) eqn:EK.
        + simpl in EU. apply Bool.negb_false_iff, String.eqb_eq in EU. subst name.
          destruct (field_of_fun S WF _ _ _ _ _ _ H1 (field_typename S T HC)) as (-> & _). reflexivity.
        + destruct (field_of_wf S WF _ _ _ _ H1) as (_ & _ & _ & d & Hd & _). rewrite (inner_named S _ _ Hd). reflexivity.
      - split; auto. destruct (kind_eqb (kind_of S (TNamed T)) UNION) eqn:EK; auto. exfalso.
        simpl in EU. apply Bool.negb_false_iff, String.eqb_eq in EU. subst name. eapply HA. apply field_typename; auto. }
    destruct (assoc name (scoped_fields S (TNamed T))) as [f|].
    2: { destruct TY as (TY & ->). apply checks_emit. apply NF. exact TY. }
    destruct TY as (ty & a & Hf & -> & ->). cbn [tf_args]. clear HA UN EU NF.
    destruct (field_of_wf S WF _ _ _ _ Hf) as (_ & Wa & Pty & d & Hd & Kd).
    assert (KEY : match alias with Some (String _ _ as x) => x | _ => name end = oc_key o).
    { unfold o. simpl. inversion Hwf as [? ? ? ? ? ? W1 W2 W3| |]; subst. destruct alias as [[|c r]|]; simpl; auto. congruence. }
    rewrite KEY. clear KEY.
    set (what := ("type: " ++ type_name (TNamed T) ++ " field: " ++ name)%string).
    pose proof (collect_args_iff what args) as HCA. destruct (collect_args what args [] [] []) as [es [[m alocs] names]].
    destruct HCA as (HU & HM).
    assert (UA : (exists F' uv uf, check S doc vars F [IField o] F' uv uf) -> arguments_unique args).
    { intros (F' & uv & uf & H). apply check_fields with (o := o) in H; [|simpl; auto]. apply H. }
    eapply checks_emits_bind with (P' := exists F' uv uf, check S doc vars F [IField o] F' uv uf); [exact HU| |tauto].
    intro U. destruct (HM U) as (Hm & ->). clear HM HU UA es.
    apply checks_get_bind.
    set (vf := mkVField (Some ty) (if kind_eqb (kind_of S (TNamed T)) OBJECT then Some (TNamed T) else None) name m).
    assert (VF : vfield_of S o vf) by (exists ty, a, m; auto).
    pose proof (ss_fields _ _ _ _ _ Hst (oc_key o)) as HP.
    destruct (assoc (oc_key o) (selectionFields st)) as [p|] eqn:EP.
    - (* the key was selected before *)
      destruct (find_key_in (oc_key o) F) as [o1|] eqn:EF; [|contradiction]. destruct HP as (HV1 & HU1).
      pose proof (merge_iff S WF o1 o p vf HV1 VF HU1 U) as HMG.
      destruct (vfield_eqb p vf) eqn:Ee.
      + assert (CK : check S doc vars F [IField o] F [] []).
        { apply k_dup with (o1 := o1) (ty := ty) (args := a); auto; [tauto|constructor]. }
        apply checks_ret; [eauto|]. exists F, [], []. split; auto. eapply sstep_refl; eauto.
      + apply checks_emit_bind. intros (F' & uv & uf & H). inversion H; subst; try congruence.
        match goal with G : find_key_in _ _ = Some ?x |- _ => assert (x = o1) by congruence; subst x end.
        assert (false = true) by tauto. discriminate.
    - destruct (find_key_in (oc_key o) F) as [o1|] eqn:EF; [contradiction|]. clear HP.
      apply checks_ret_bind.
      assert (INV : forall F' uv uf, check S doc vars F [IField o] F' uv uf -> arguments_ok S vars a args /\
                     ((oc_sub o = None /\ ~ composite S (named_type ty)) \/
                      exists sub, oc_sub o = Some sub /\ sels_ok vars [] stk (named_type ty) sub)).
      { intros F' uv uf H. inversion H; subst; try congruence;
          match goal with G : field_of S (oc_parent o) (oc_name o) ?t ?b |- _ => destruct (field_of_fun S WF _ _ _ _ _ _ Hf G) as (<- & <-) end.
        - split; auto.
        - split; auto. right. eexists. split; eauto. do 4 eexists. split; eauto. }
      eapply checks_seq; [apply (check_args_ok S WF what loc vars a args m alocs st); auto; [eapply ss_vars; eauto|eapply ss_icache; eauto]| |].
      { intros (F' & uv & uf & H). apply INV in H. tauto. }
      intros [] st1 HAO Hst1. pose proof (vstep_sstep _ _ _ _ _ _ _ Hst Hst1) as SP1. pose proof (scope_step _ _ _ _ _ _ _ _ _ Hst SP1) as Hs1.
      apply checks_modify_bind.
      set (st2 := set_sel_fields (fst (m_emplace (oc_key o) vf (selectionFields st1))) st1).
      assert (R2 : sel_rel (F ++ [o]) (selectionFields st2)).
      { intro k. unfold st2. cbn [selectionFields set_sel_fields]. pose proof (ss_fields _ _ _ _ _ Hs1 k) as Hk. pose proof (ss_fields _ _ _ _ _ Hs1 (oc_key o)) as Hko.
        unfold m_emplace. rewrite EF in Hko. destruct (assoc (oc_key o) (selectionFields st1)) as [p|] eqn:E1; [contradiction|].
        cbn [fst]. rewrite assoc_m_set, find_key_app. destruct (String.eqb k (oc_key o)) eqn:Ek.
        - apply String.eqb_eq in Ek. subst k. rewrite EF. auto.
        - destruct (find_key_in k F); auto. }
      assert (SP2 : forall stx u f, sstep vars [] [] u f st2 (set_count (fieldCount st2) (set_sel_fields (selectionFields st2) (set_scoped (scopedType st2) stx))) ->
                  sel_rel [] [] -> True) by auto. clear SP2.
      assert (FIN : forall u f st3, (* after the sub-selection, with the outer members restored *)
          fragmentDefinitions st3 = fragmentDefinitions st2 -> operationDefinitions st3 = operationDefinitions st2 ->
          fragmentCycles st3 = fragmentCycles st2 -> operationVariables st3 = operationVariables st2 -> variableDefinitions st3 = variableDefinitions st2 ->
          fragmentStack st3 = fragmentStack st2 -> scopedType st3 = scopedType st2 -> selectionFields st3 = selectionFields st2 ->
          fieldCount st3 = fieldCount st2 -> icache_ok S st3 -> tcache_ok st3 ->
          (forall x, In x (referencedVariables st3) <-> In x (referencedVariables st2) \/ (vars <> None /\ In x u)) ->
          (forall x, In x (referencedFragments st3) <-> In x (referencedFragments st2) \/ In x f) ->
          sstep vars F (F ++ [o]) (args_vars S a args ++ u) f st (set_count (fieldCount st3 + 1) st3)).
      { intros u f st3 E1 E2 E3 E4 E5 E6 E7 E8 E9 C1 C2 R3 R4.
        apply (sstep_trans vars F F (F ++ [o]) (args_vars S a args) u [] f st st1 _ SP1).
        unfold st2 in *. simpl in *. destruct st3. simpl in *. constructor; simpl; auto.
        - rewrite E8. exact R2.
        - rewrite E9. rewrite app_length. simpl. lia. }
      assert (Ci : icache_ok S st2) by (intros n fs; apply (ss_icache _ _ _ _ _ Hs1)).
      assert (Ct : tcache_ok st2) by (intros n fs; apply (ss_tcache _ _ _ _ _ Hs1)).
      destruct sub as [(sl, sels)|]; destruct vs as [v|]; try contradiction Hsub.
      + (* with a sub-selection *)
        inversion Hwf as [? ? ? ? ? ? W1 W2 W3| |]; subst. destruct (W3 _ _ eq_refl) as (Wn & Ws).
        set (st3 := set_scoped (Some (TNamed (named_type ty))) (set_sel_fields [] (set_count 0 st2))).
        assert (Hs3 : scope_st vars [] stk (named_type ty) st3).
        { destruct Hs1 as [H1 H2 H3 H4 H5 H6 H7 H8]. constructor; auto. intro k. simpl. auto. }
        pose proof (Hsub _ _ Hs3) as Hv. unfold checks in Hv |- *. unfold mbind, get, modify, ret. fold st2. fold st3.
        destruct (v st3) as [[ev uv'] st4]. destruct Hv as [(-> & HP4 & items & F1 & u1 & f1 & HC1 & HK1 & SP4)|(He & HN)].
        * destruct (collect_nonempty S doc DWF _ _ _ _ HC1 Wn Ws) as (o' & Ho').
          assert (HL : 0 < length F1) by (eapply check_nonempty; eauto).
          pose proof (sp_count _ _ _ _ _ _ _ SP4) as SC. simpl in SC.
          assert (CT : fieldCount st4 = length F1) by lia. rewrite CT. destruct (length F1) as [|n1] eqn:EL; [lia|].
          cbn [Nat.eqb andb app]. left. split; [reflexivity|].
          assert (CK : check S doc vars F [IField o] (F ++ [o]) (args_vars S a (oc_args o) ++ u1 ++ []) (f1 ++ [])).
          { apply k_sub with (ty := ty) (sub := sels) (items := items) (F1 := F1); auto. constructor. }
          rewrite !app_nil_r in CK. split; [eauto|]. exists (F ++ [o]), (args_vars S a args ++ u1), f1. split; [exact CK|].
          destruct SP4 as [K1 K2 K3 K4 K5 K6 K7 K8 K9 K10 K11 K12 K13].
          apply (FIN u1 f1 (set_count (fieldCount st2) (set_sel_fields (selectionFields st2) (set_scoped (scopedType st2) st4)))); auto.
        * cbn [app].
          match goal with |- context [if ?c then _ else _] => destruct c end; right; (split; [repeat apply app_not_nil_l; exact He|]); intros (F' & uv & uf & H); apply INV in H;
            destruct H as (_ & [(H & _)|(sub & H & H')]); simpl in H; try discriminate; inversion H; subst; contradiction.
      + (* without *)
        apply checks_ret_bind. cbn [Nat.eqb andb]. simpl kind_of. rewrite Hd. pose proof (scalar_composite S _ _ Hd) as SC.
        destruct (is_scalar_kind (td_kind d)) eqn:Es; simpl negb; cbv iota.
        * assert (NC : ~ composite S (named_type ty)) by (rewrite <- SC; discriminate).
          assert (CK : check S doc vars F [IField o] (F ++ [o]) (args_vars S a (oc_args o) ++ []) []).
          { apply k_leaf with (ty := ty); auto. constructor. }
          unfold checks, modify. left. split; auto. split; [eauto|]. exists (F ++ [o]), (args_vars S a args ++ []), []. split; [exact CK|].
          fold st2. apply (FIN [] [] st2); auto; intro x; simpl; tauto.
        * apply checks_emit. intros (F' & uv & uf & H). apply INV in H. destruct H as (_ & [(_ & H)|(s' & H & _)]); [tauto|discriminate].
  Qed.

  (** ** Fragments *)
  Definition sels_spec (avail : nat) (sels : list selection) : Prop :=
    forall vars F stk T st, scope_st vars F stk T st -> free stk <= avail ->
      checks (iter (visit_sel S avail) sels) st (sels_ok vars F stk T sels) (fun _ st' => sels_post vars F stk T sels st st').
  Definition sel_spec (avail : nat) (s : selection) : Prop :=
    forall vars F stk T st, scope_st vars F stk T st -> free stk <= avail ->
      checks (visit_sel S avail s) st (sels_ok vars F stk T [s]) (fun _ st' => sels_post vars F stk T [s] st st').

  Lemma sels_from_sel avail sels : Forall (sel_spec avail) sels -> sels_spec avail sels.
  Proof.
    induction 1 as [|s r Hs HF IH]; intros vars F stk T st Hst Hfr.
    - simpl. apply checks_ret.
      + exists [], F, [], []. split; constructor.
      + exists [], F, [], []. split; [constructor|]. split; [constructor|]. eapply sstep_refl; eauto.
    - simpl. assert (SP : forall items, collect S doc stk T (s :: r) items <-> exists i1 i2, items = i1 ++ i2 /\ collect S doc stk T [s] i1 /\ collect S doc stk T r i2).
      { intro items. apply (collect_app S doc stk T [s] r). }
      eapply checks_seq; [apply Hs; eauto| |].
      + intros (items & F' & uv & uf & H1 & H2). apply SP in H1. destruct H1 as (i1 & i2 & -> & H1 & H3).
        apply check_app in H2. destruct H2 as (F1 & u1 & u2 & f1 & f2 & H4 & H5 & _). exists i1, F1, u1, f1. auto.
      + intros [] st1 _ (i1 & F1 & u1 & f1 & HC1 & HK1 & SP1).
        eapply checks_imp; [apply (IH vars F1 stk T st1); auto; eapply scope_step; eauto| |].
        * split.
          -- intros (i2 & F2 & u2 & f2 & HC2 & HK2). exists (i1 ++ i2), F2, (u1 ++ u2), (f1 ++ f2). split; [apply SP; eauto|].
             apply check_app. do 5 eexists. eauto.
          -- intros (items & F' & uv & uf & H1 & H2). apply SP in H1. destruct H1 as (j1 & j2 & -> & H1 & H3).
             apply check_app in H2. destruct H2 as (G1 & v1 & v2 & g1 & g2 & H4 & H5 & _).
             rewrite <- (collect_fun _ _ _ _ _ _ HC1 _ H1) in H4. destruct (check_fun S WF _ _ _ _ _ _ _ HK1 _ _ _ H4) as (<- & _). do 4 eexists. eauto.
        * intros [] st2 _ (i2 & F2 & u2 & f2 & HC2 & HK2 & SP2). exists (i1 ++ i2), F2, (u1 ++ u2), (f1 ++ f2). split; [apply SP; eauto|].
          split; [apply check_app; do 5 eexists; eauto|]. eapply sstep_trans; eauto.
  Qed.

  Lemma visit_sel_eq avail s : visit_sel S avail s =
    match s with
    | SField loc alias name args dirs sub =>
        visit_field S loc alias name args dirs (match sub with Some (_, sels) => Some (iter (visit_sel S avail) sels) | None => None end)
    | SSpread loc name dirs =>
        visit_spread S loc name dirs (fun body => match avail with O => emit "out of fuel" loc | Datatypes.S a => iter (visit_sel S a) body end)
    | SInline _ cond dirs sels => visit_inline S cond dirs (iter (visit_sel S avail) sels)
    end.
  Proof. destruct avail; destruct s; reflexivity. Qed.

  Lemma visit_inline_ok avail loc cond dirs sels : sel_wf (SInline loc cond dirs sels) -> sels_spec avail sels -> sel_spec avail (SInline loc cond dirs sels).
  Proof.
    intros Hwf Hb vars F stk T st Hst Hfr. rewrite visit_sel_eq. unfold visit_inline.
    assert (CI : forall items, collect S doc stk T [SInline loc cond dirs sels] items <->
             exists T' i1, match cond with None => T' = T | Some (_, n) => T' = n /\ composite S n /\ overlap S T n end /\
               collect S doc stk T' sels i1 /\ items = IDirs INLINE_FRAGMENT dirs :: i1).
    { intro items. split.
      - intro H. inversion H; subst. match goal with G : collect _ _ _ _ [] _ |- _ => inversion G; subst end. rewrite app_nil_r. eauto 10.
      - intros (T' & i1 & H1 & H2 & ->). rewrite <- (app_nil_r i1). econstructor; eauto. constructor. }
    eapply checks_seq; [apply (visit_directives_ok S WF vars INLINE_FRAGMENT dirs st); [eapply ss_vars; eauto|eapply ss_icache; eauto]| |].
    { intros (items & F' & uv & uf & H1 & H2). apply CI in H1. destruct H1 as (T' & i1 & _ & _ & ->). inversion H2; subst. auto. }
    intros [] st1 HD Hst1. pose proof (vstep_sstep _ _ _ _ _ _ _ Hst Hst1) as SP1. pose proof (scope_step _ _ _ _ _ _ _ _ _ Hst SP1) as Hs1.
    apply checks_get_bind. rewrite (ss_scoped _ _ _ _ _ Hs1). cbv zeta.
    assert (BODY : forall T', match cond with None => T' = T | Some (_, n) => T' = n /\ composite S n /\ overlap S T n end ->
        checks (mbind (modify (set_scoped (Some (TNamed T')))) (fun _ => mbind (iter (visit_sel S avail) sels) (fun _ => modify (set_scoped (Some (TNamed T))))))
          st1 (sels_ok vars F stk T [SInline loc cond dirs sels]) (fun _ st' => sels_post vars F stk T [SInline loc cond dirs sels] st st')).
    { intros T' HT. apply checks_modify_bind.
      assert (Hs2 : scope_st vars F stk T' (set_scoped (Some (TNamed T')) st1)) by (destruct Hs1; constructor; auto).
      assert (TU : forall T2, match cond with None => T2 = T | Some (_, n) => T2 = n /\ composite S n /\ overlap S T n end -> T2 = T').
      { destruct cond as [(l, n)|]; intros T2 H; intuition congruence. }
      eapply checks_seq; [apply (Hb vars F stk T' _ Hs2 Hfr)| |].
      - intros (items & F' & uv & uf & H1 & H2). apply CI in H1. destruct H1 as (T2 & i1 & HT2 & H1 & ->). rewrite (TU _ HT2) in H1.
        inversion H2; subst. do 4 eexists. eauto.
      - intros [] st3 HP3 (i1 & F1 & u1 & f1 & HC1 & HK1 & SP3). unfold checks, modify. left. split; auto.
        assert (CC : collect S doc stk T [SInline loc cond dirs sels] (IDirs INLINE_FRAGMENT dirs :: i1)) by (apply CI; eauto).
        assert (KK : check S doc vars F (IDirs INLINE_FRAGMENT dirs :: i1) F1 (dirs_vars S dirs ++ u1) f1) by (constructor; auto).
        split; [do 4 eexists; eauto|]. do 4 eexists. split; [exact CC|]. split; [exact KK|].
        apply (sstep_trans _ _ _ _ _ _ [] f1 _ _ _ SP1).
        pose proof (ss_scoped _ _ _ _ _ Hs1) as Hsc. destruct SP3 as [K1 K2 K3 K4 K5 K6 K7 K8 K9 K10 K11 K12 K13].
        constructor; simpl in *; auto. }
    inversion Hwf as [| |? ? ? ? W1 W2 W3]; subst.
    destruct cond as [(cl, n)|].
    - destruct n as [|c r]; [exfalso; eapply W1; reflexivity|]. set (n := String c r) in *.
      destruct (find_type S n) as [d|] eqn:Ed.
      + pose proof (scalar_composite S n d Ed) as SC. destruct (is_scalar_kind (td_kind d)) eqn:Es.
        * apply checks_emit. intros (items & F' & uv & uf & H1 & H2). apply CI in H1. destruct H1 as (T' & i1 & (_ & H & _) & _). apply SC in H. discriminate.
        * destruct (matches_type S (type_name (TNamed T)) n) eqn:Em; simpl negb; cbv iota.
          -- apply BODY. apply matches_overlap in Em. tauto.
          -- apply checks_emit. intros (items & F' & uv & uf & H1 & H2). apply CI in H1. destruct H1 as (T' & i1 & (_ & _ & H) & _).
             apply matches_overlap in H. simpl in Em. congruence.
      + apply checks_emit. intros (items & F' & uv & uf & H1 & H2). apply CI in H1.
        destruct H1 as (T' & i1 & (_ & [(d & H & _)|[(d & H & _)|(d & H & _)]] & _) & _); congruence.
    - apply BODY. reflexivity.
  Qed.

  Lemma visit_spread_ok avail loc name dirs :
    (forall a, avail = Datatypes.S a -> forall f, In f (fragments doc) -> sels_spec a (f_sel f)) -> sel_spec avail (SSpread loc name dirs).
  Proof.
    intros Hb vars F stk T st Hst Hfr. rewrite visit_sel_eq. unfold visit_spread.
    assert (CI : forall items, collect S doc stk T [SSpread loc name dirs] items <->
             exists f i1, find_frag doc name = Some f /\ ~ In name stk /\ find_type S (f_cond f) <> None /\ overlap S T (f_cond f) /\
               collect S doc (name :: stk) (f_cond f) (f_sel f) i1 /\ items = IDirs FRAGMENT_SPREAD dirs :: i1 ++ [ISpread name]).
    { intro items. split.
      - intro H. inversion H; subst. match goal with G : collect _ _ _ _ [] _ |- _ => inversion G; subst end. eauto 10.
      - intros (f & i1 & H1 & H2 & H3 & H4 & H5 & ->). econstructor; eauto. constructor. }
    eapply checks_seq; [apply (visit_directives_ok S WF vars FRAGMENT_SPREAD dirs st); [eapply ss_vars; eauto|eapply ss_icache; eauto]| |].
    { intros (items & F' & uv & uf & H1 & H2). apply CI in H1. destruct H1 as (f & i1 & _ & _ & _ & _ & _ & ->). inversion H2; subst. auto. }
    intros [] st1 HD Hst1. pose proof (vstep_sstep _ _ _ _ _ _ _ Hst Hst1) as SP1. pose proof (scope_step _ _ _ _ _ _ _ _ _ Hst SP1) as Hs1.
    apply checks_get_bind. rewrite (ss_frags _ _ _ _ _ Hs1).
    destruct (find_frag doc name) as [f|] eqn:Ef.
    2: { apply checks_emit. intros (items & F' & uv & uf & H1 & H2). apply CI in H1. destruct H1 as (f & i1 & H & _). congruence. }
    destruct (mem name (fragmentStack st1)) eqn:Em.
    { rewrite (ss_cycles _ _ _ _ _ Hs1). simpl mem. cbv iota. apply checks_modify_bind. apply checks_emit.
      apply mem_In in Em. apply (ss_stack _ _ _ _ _ Hs1) in Em.
      intros (items & F' & uv & uf & H1 & H2). apply CI in H1. destruct H1 as (f' & i1 & _ & H & _). contradiction. }
    apply mem_not_In in Em. assert (Nstk : ~ In name stk) by (intro H; apply Em; apply (ss_stack _ _ _ _ _ Hs1); auto).
    rewrite (ss_scoped _ _ _ _ _ Hs1). cbv zeta. cbn [type_name].
    destruct (match find_type S (f_cond f) with Some _ => negb (matches_type S T (f_cond f)) | None => true end) eqn:Ec.
    { apply checks_emit. intros (items & F' & uv & uf & H1 & H2). apply CI in H1. destruct H1 as (f' & i1 & H3 & _ & H4 & H5 & _).
      inversion H3. subst f'. apply matches_overlap in H5. rewrite H5 in Ec. destruct (find_type S (f_cond f)); [discriminate|congruence]. }
    assert (Ht : find_type S (f_cond f) <> None /\ overlap S T (f_cond f)).
    { destruct (find_type S (f_cond f)); [|discriminate]. split; [discriminate|]. apply matches_overlap. apply Bool.negb_false_iff. auto. }
    destruct Ht as (Ht & Ho). destruct (find_frag_In _ _ _ Ef) as (Hin & Hname).
    apply checks_modify_bind.
    set (st2 := set_scoped (Some (TNamed (f_cond f))) (set_stack (s_add name (fragmentStack st1)) st1)).
    assert (Hs2 : scope_st vars F (name :: stk) (f_cond f) st2).
    { destruct Hs1 as [H1 H2 H3 H4 H5 H6 H7 H8]. constructor; auto. intro x. unfold st2. simpl. rewrite s_add_In, H4. intuition congruence. }
    assert (Hname' : In name (map f_name (fragments doc))) by (rewrite <- Hname; apply in_map; auto).
    pose proof (free_push stk name Nstk Hname') as Hfree. destruct avail as [|a]; [lia|].
    assert (Hfr' : free (name :: stk) <= a) by lia.
    eapply checks_seq; [apply (Hb a eq_refl f Hin vars F (name :: stk) (f_cond f) st2 Hs2 Hfr')| |].
    - intros (items & F' & uv & uf & H1 & H2). apply CI in H1. destruct H1 as (f' & i1 & H3 & _ & _ & _ & H4 & ->). inversion H3. subst f'.
      inversion H2; subst. match goal with G : check _ _ _ _ (i1 ++ _) _ _ _ |- _ => apply check_app in G; destruct G as (F1 & u1 & u2 & f1 & f2 & G1 & G2 & _) end.
      do 4 eexists. eauto.
    - intros [] st3 HP3 (i1 & F1 & u1 & f1 & HC1 & HK1 & SP3). unfold checks, modify. left. split; auto.
      assert (CC : collect S doc stk T [SSpread loc name dirs] (IDirs FRAGMENT_SPREAD dirs :: i1 ++ [ISpread name])) by (apply CI; eauto 10).
      assert (KK : check S doc vars F (IDirs FRAGMENT_SPREAD dirs :: i1 ++ [ISpread name]) F1 (dirs_vars S dirs ++ u1) (f1 ++ [name])).
      { constructor; auto. apply check_app. exists F1, u1, [], f1, [name]. rewrite app_nil_r. repeat split; auto. constructor. constructor. }
      split; [do 4 eexists; eauto|]. do 4 eexists. split; [exact CC|]. split; [exact KK|].
      apply (sstep_trans _ _ _ _ _ _ [] (f1 ++ [name]) _ _ _ SP1).
      destruct SP3 as [K1 K2 K3 K4 K5 K6 K7 K8 K9 K10 K11 K12 K13]. unfold st2 in *. simpl in *.
      constructor; simpl in *; auto.
      + rewrite K6. apply s_erase_add. auto.
      + rewrite <- (ss_scoped _ _ _ _ _ Hs1). reflexivity.
      + intro x. rewrite s_add_In, K13, in_app_iff. simpl. intuition congruence.
  Qed.

  Theorem visit_sel_ok avail : forall s, sel_wf s -> sel_spec avail s.
  Proof.
    induction avail as [|a IHa]; intro s.
    - induction s as [loc al n args ds|loc al n args ds l sub IH|loc n ds|loc c ds sel IH] using selection_ind'; intro Hwf.
      + intros vars F stk T st Hst Hfr. rewrite visit_sel_eq. apply visit_field_ok; auto.
      + intros vars F stk T st Hst Hfr. rewrite visit_sel_eq. apply visit_field_ok; auto. intros T' st' Hst'.
        apply sels_from_sel; auto. inversion Hwf as [? ? ? ? ? ? W1 W2 W3| |]; subst. destruct (W3 _ _ eq_refl) as (_ & W). rewrite Forall_forall in *. auto.
      + apply visit_spread_ok. discriminate.
      + inversion Hwf as [| |? ? ? ? W1 W2 W3]; subst. apply visit_inline_ok; auto. apply sels_from_sel. rewrite Forall_forall in *. auto.
    - induction s as [loc al n args ds|loc al n args ds l sub IH|loc n ds|loc c ds sel IH] using selection_ind'; intro Hwf.
      + intros vars F stk T st Hst Hfr. rewrite visit_sel_eq. apply visit_field_ok; auto.
      + intros vars F stk T st Hst Hfr. rewrite visit_sel_eq. apply visit_field_ok; auto. intros T' st' Hst'.
        apply sels_from_sel; auto. inversion Hwf as [? ? ? ? ? ? W1 W2 W3| |]; subst. destruct (W3 _ _ eq_refl) as (_ & W). rewrite Forall_forall in *. auto.
      + apply visit_spread_ok. intros a' Ea f Hf. inversion Ea. subst a'. apply sels_from_sel.
        destruct (dwf_frags _ DWF f Hf) as (_ & W). rewrite Forall_forall in *. auto.
      + inversion Hwf as [| |? ? ? ? W1 W2 W3]; subst. apply visit_inline_ok; auto. apply sels_from_sel. rewrite Forall_forall in *. auto.
  Qed.
  Theorem visit_sels_ok avail sels : Forall sel_wf sels -> sels_spec avail sels.
  Proof. intro W. apply sels_from_sel. rewrite Forall_forall in *. intros s Hs. apply visit_sel_ok. auto. Qed.
End Selections.
