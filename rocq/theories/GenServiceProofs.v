(** The generated classes are typed by the schema, if the user's accessors are (for C57). *)
From Coq Require Import Permutation.
From Verif Require Import Cpp Value Ast Base64Model Base64Spec Base64Proofs ModifiersModel ModifiersSpec ModifiersProofs SchemaModel LoaderModel LoaderSpec LoaderProofs GenModel LoaderProps GenSpec GenRun GenEval GenDecl
  ExecModel ExecSem IntroModel ValidationSpec TypedSpec ClientSpec VariablesSpec GenServiceModel GenServiceSpec GenServiceArgs GenServiceLink.
Local Open Scope string_scope.
Local Open Scope list_scope.

Lemma nodup_map_eq {X} (name : X -> string) : forall (xs : list X) a b, NoDup (map name xs) -> In a xs -> In b xs -> name a = name b -> a = b.
Proof.
  induction xs as [|x xs IH]; intros a b ND Ha Hb E; [contradiction|]. cbn in ND. inversion ND as [|? ? Hx ND']; subst. destruct Ha as [->|Ha], Hb as [->|Hb]; [reflexivity| | |apply IH; auto].
  - exfalso. apply Hx. rewrite E. apply in_map. exact Hb.
  - exfalso. apply Hx. rewrite <- E. apply in_map. exact Ha.
Qed.

Section Service.
  Variables (S : schema) (l : loader) (noI : bool) (six : spec_float -> spec_float).
  Hypothesis LK : linked S l noI.
  Hypothesis WF : schema_wf S.

  (** * Leaves *)
  Lemma builtin_spec n : In n builtin_types <-> builtin_scalar n.
  Proof. unfold builtin_types, builtin_scalar. cbn. tauto. Qed.
  Lemma loaded_not_builtin n : In n (loaded_names l) -> ~ builtin_scalar n.
  Proof. intros H B. apply builtin_spec in B. exact (nodup_app_disjoint _ _ (lk_names S l noI LK) n B H). Qed.
  Lemma declares_names {A} (name : A -> string) n (v : list A) : LoaderModel.declares name n v = true <-> In n (map name v).
  Proof. apply GenLoad.declares_in. Qed.
  Lemma scalar_loaded n : In n (map sc_type (l_scalars l)) -> In n (loaded_names l).
  Proof. intros H. unfold loaded_names. apply in_or_app. auto. Qed.
  Lemma is_builtin_name n : ~ In n builtin_types -> String.eqb n "Int" = false /\ String.eqb n "Float" = false /\ String.eqb n "String" = false /\ String.eqb n "Boolean" = false /\ String.eqb n "ID" = false.
  Proof. intros H. unfold builtin_types in H. cbn in H. repeat split; apply String.eqb_neq; intros ->; apply H; tauto. Qed.
  Lemma leaf_some n k : leaf_of l n = Some k -> leaf_type S n /\ cpp_leaf S n k.
  Proof.
    unfold leaf_of. intros E. assert (B : forall m, In m builtin_types -> leaf_type S m) by (intros m Hm; left; exact (lk_builtin S l noI LK m Hm)).
    destruct (String.eqb_spec n "Int") as [->|N1]; [injection E as <-; split; [apply B; unfold builtin_types; cbn; tauto|apply cl_int]|].
    destruct (String.eqb_spec n "Float") as [->|N2]; [injection E as <-; split; [apply B; unfold builtin_types; cbn; tauto|apply cl_float]|].
    destruct (String.eqb_spec n "String") as [->|N3]; [injection E as <-; split; [apply B; unfold builtin_types; cbn; tauto|apply cl_string]|].
    destruct (String.eqb_spec n "Boolean") as [->|N4]; [injection E as <-; split; [apply B; unfold builtin_types; cbn; tauto|apply cl_boolean]|].
    destruct (String.eqb_spec n "ID") as [->|N5]; [injection E as <-; split; [apply B; unfold builtin_types; cbn; tauto|apply cl_id]|].
    destruct (LoaderModel.declares sc_type n (l_scalars l)) eqn:Ed.
    - injection E as <-. apply declares_names in Ed. assert (T : type_is S n SCALAR).
      { apply in_map_iff in Ed as (t & <- & Ht). eexists. split; [exact (lk_scalars S l noI LK t Ht)|reflexivity]. }
      split; [left; exact T|]. apply cl_custom; [exact T|]. apply loaded_not_builtin, scalar_loaded, Ed.
    - destruct (List.find (is_name et_type n) (l_enums l)) as [e|] eqn:Ef; [|discriminate]. injection E as <-. apply find_some in Ef as [He Hn]. unfold is_name in Hn. apply String.eqb_eq in Hn as ->.
      assert (F := lk_enums S l noI LK e He). split; [right; eexists; split; [exact F|reflexivity]|].
      replace (map en_value (et_values e)) with (map ev_name (td_enums (snd (enum_entry noI e)))) by (cbn; rewrite map_map; reflexivity).
      exact (cl_enum S (et_type e) _ (et_type e) F eq_refl).
  Qed.
  Lemma in_loaded n : In n (loaded_names l) -> exists d, find_type S n = Some d /\
    ((td_kind d = SCALAR /\ In n (map sc_type (l_scalars l))) \/ (td_kind d = ENUM /\ In n (map et_type (l_enums l))) \/ (td_kind d = INPUT_OBJECT /\ In n (map it_type (l_inputs l)))
     \/ (td_kind d = UNION /\ In n (map un_type (l_unions l))) \/ (td_kind d = INTERFACE /\ In n (map if_type (l_interfaces l))) \/ (td_kind d = OBJECT /\ In n (map ob_type (l_objects l)))).
  Proof.
    unfold loaded_names. rewrite !in_app_iff. intros [H|[H|[H|[H|[H|H]]]]]; pose proof H as H'; apply in_map_iff in H' as (t & <- & Ht).
    - exists (snd (scalar_entry noI t)). split; [exact (lk_scalars S l noI LK t Ht)|]. left. split; [reflexivity|exact H].
    - exists (snd (enum_entry noI t)). split; [exact (lk_enums S l noI LK t Ht)|]. right. left. split; [reflexivity|exact H].
    - exists (snd (input_entry noI t)). split; [exact (lk_inputs S l noI LK t Ht)|]. right. right. left. split; [reflexivity|exact H].
    - exists (snd (union_entry noI t)). split; [exact (lk_unions S l noI LK t Ht)|]. right. right. right. left. split; [reflexivity|exact H].
    - exists (snd (interface_entry noI l t)). split; [exact (lk_interfaces S l noI LK t Ht)|]. right. right. right. right. left. split; [reflexivity|exact H].
    - exists (snd (object_entry noI t)). split; [exact (lk_objects S l noI LK t Ht)|]. right. right. right. right. right. split; [reflexivity|exact H].
  Qed.
  Lemma leaf_found n : In n (builtin_types ++ loaded_names l) -> leaf_type S n -> exists k, leaf_of l n = Some k.
  Proof.
    intros Hn HL. unfold leaf_of.
    destruct (String.eqb_spec n "Int"); [eauto|]. destruct (String.eqb_spec n "Float"); [eauto|]. destruct (String.eqb_spec n "String"); [eauto|].
    destruct (String.eqb_spec n "Boolean"); [eauto|]. destruct (String.eqb_spec n "ID"); [eauto|].
    destruct (LoaderModel.declares sc_type n (l_scalars l)) eqn:Ed; [eauto|].
    destruct (List.find (is_name et_type n) (l_enums l)) as [e|] eqn:Ef; [eauto|]. exfalso. apply in_app_or in Hn as [Hn|Hn].
    - unfold builtin_types in Hn. cbn in Hn. intuition congruence.
    - destruct (in_loaded n Hn) as (d & Hd & H). destruct HL as [(d' & Hd' & K)|(d' & Hd' & K)]; rewrite Hd in Hd'; injection Hd' as <-.
      + destruct H as [[_ H]|[[H _]|[[H _]|[[H _]|[[H _]|[H _]]]]]]; try congruence. apply declares_names in H. congruence.
      + destruct H as [[H _]|[[_ H]|[[H _]|[[H _]|[[H _]|[H _]]]]]]; try congruence. apply in_map_iff in H as (e & E & He). assert (F := find_none _ _ Ef e He). unfold is_name in F. rewrite E, String.eqb_refl in F. discriminate.
  Qed.

  (** * Arguments *)
  Lemma stands_named n ms t : stands_for n ms t -> named_type t = n.
  Proof. induction 1; cbn in *; auto. Qed.
  Lemma field_reads env fs : (forall f, In f fs -> input_linked S l noI f /\ ValidationSpec.input_type S (iv_type (in_def noI f)) /\
      (type_is S (in_type f) INPUT_OBJECT -> exists t, assoc (in_type f) env = Some t /\ read_as S (in_type f) t)) ->
    exists gs, arg_fields l six env fs = Some gs /\ reads_as S (map (in_def noI) fs) gs.
  Proof.
    induction fs as [|f fs IH]; intros H; [exists []; split; [reflexivity|constructor]|]. destruct IH as (gs & Eg & Hg); [intros g Hg; apply H; right; exact Hg|].
    destruct (H f (or_introl eq_refl)) as ((Hs & Hn & Hd & Ht) & HI & HE). cbn [arg_fields map]. unfold arg_field, arg_type.
    assert (EN := stands_named _ _ _ Hs). assert (R : exists t, match leaf_of l (in_type f) with Some k => Some (ILeaf k) | None => assoc (in_type f) env end = Some t /\ read_as S (in_type f) t).
    { destruct (leaf_of l (in_type f)) as [k|] eqn:El.
      - destruct (leaf_some _ _ El) as [L1 L2]. exists (ILeaf k). split; [reflexivity|exact (ra_leaf S _ k L1 L2)].
      - unfold ValidationSpec.input_type, input_named in HI. rewrite EN in HI. destruct HI as [T|[T|T]]; [| |exact (HE T)].
        + destruct (leaf_found _ Hn (or_introl T)) as (k & Ek). congruence.
        + destruct (leaf_found _ Hn (or_intror T)) as (k & Ek). congruence. }
    destruct R as (t & Et & Rt). rewrite Et, Eg. eexists. split; [reflexivity|].
    apply (ras_cons S (in_def noI f) (map (in_def noI) fs) (in_mods f) t (default_of six f) gs); [rewrite EN; exact Hs|rewrite EN; exact Rt| |exact Hg].
    assert (DN : default_of six f = None -> in_default f = VNull).
    { unfold default_of. intros E. destruct (in_default f) eqn:Ed; try discriminate. reflexivity. }
    split.
    - intros v Ev. assert (N : in_default f <> VNull) by (intros E; unfold default_of in Ev; rewrite E in Ev; discriminate). destruct (Hd N) as [D1 D2].
      assert (v = in_source six (in_default f)) as -> by (unfold default_of in Ev; destruct (in_default f); try (injection Ev as <-; reflexivity); contradiction).
      split; [rewrite source_null; exact N|]. split; [rewrite source_null_free; exact D1|]. apply source_fits. exact D2.
    - intros HD E. apply Ht; [exact HD|exact (DN E)].
  Qed.
  Definition step (env : list (string * itype)) (t : LoaderModel.input_type) : list (string * itype) :=
    match arg_fields l six env (it_fields t) with Some fs => env ++ [(it_type t, IStruct fs)] | None => env end.
  Lemma assoc_app {X} n (a b : list (string * X)) : assoc n (a ++ b) = match assoc n a with Some x => Some x | None => assoc n b end.
  Proof. induction a as [|[m x] a IH]; [reflexivity|]. cbn. destruct (String.eqb n m); [reflexivity|exact IH]. Qed.
  Lemma structs_prefix : forall before after, l_inputs l = before ++ after ->
    forall t, In t before -> exists x, assoc (it_type t) (fold_left step before []) = Some x /\ read_as S (it_type t) x.
  Proof.
    induction before as [|t before IH] using rev_ind; intros after E t0 H0; [contradiction|]. rewrite <- app_assoc in E. cbn [app] in E. specialize (IH _ E). rewrite fold_left_app. cbn [fold_left].
    set (env := fold_left step before []) in *. assert (Ht : In t (l_inputs l)) by (rewrite E; apply in_or_app; right; left; reflexivity).
    assert (F := lk_inputs S l noI LK t Ht). assert (W := wf_inputs S WF _ _ F eq_refl). destruct W as [_ W]. cbn in W.
    destruct (field_reads env (it_fields t)) as (gs & Eg & Hg).
    { intros f Hf. destruct (lk_members S l noI LK t f Ht Hf) as [HL HK]. split; [exact HL|]. split; [exact (proj2 (W _ (in_map (in_def noI) _ f Hf)))|]. intros T.
      assert (Hb : In (in_type f) (map it_type before)).
      { apply (lk_order S l noI LK before t after (in_type f) E). exists t, f. split; [left; reflexivity|]. split; [reflexivity|]. split; [exact Hf|]. split; [exact (HK T)|reflexivity]. }
      apply in_map_iff in Hb as (b & <- & Hb). exact (IH b Hb). }
    unfold step. rewrite Eg. rewrite assoc_app. destruct (assoc (it_type t0) env) as [x|] eqn:Ea.
    - apply in_app_or in H0 as [H0|[<-|[]]].
      + destruct (IH t0 H0) as (y & Ey & Ry). exists x. split; [reflexivity|]. congruence.
      + exfalso. assert (Hin : In (it_type t) (map it_type before)).
        { clear -Ea. assert (G : forall bs e x, assoc (it_type t) (fold_left step bs e) = Some x -> assoc (it_type t) e <> None \/ In (it_type t) (map it_type bs)).
          { induction bs as [|b bs IHb]; intros e y Ey; [left; cbn in Ey; congruence|]. cbn in Ey. destruct (IHb _ _ Ey) as [H|H]; [|right; right; exact H].
            unfold step in H. destruct (arg_fields l six e (it_fields b)); [|left; exact H]. rewrite assoc_app in H. destruct (assoc (it_type t) e); [left; discriminate|]. cbn in H.
            destruct (String.eqb_spec (it_type t) (it_type b)) as [->|]; [right; left; reflexivity|contradiction]. }
          destruct (G before [] x Ea) as [H|H]; [contradiction|exact H]. }
        assert (ND := lk_names S l noI LK). apply nodup_app_r in ND. unfold loaded_names in ND. apply nodup_app_r, nodup_app_r, nodup_app_l in ND. rewrite E, map_app in ND. cbn in ND.
        apply NoDup_remove_2 in ND. apply ND. apply in_or_app. left. exact Hin.
    - apply in_app_or in H0 as [H0|[<-|[]]].
      + destruct (IH t0 H0) as (y & Ey & Ry). congruence.
      + cbn. rewrite String.eqb_refl. exists (IStruct gs). split; [reflexivity|]. exact (ra_struct S (it_type t) _ gs F eq_refl Hg).
  Qed.
  Lemma structs_found n : In n (loaded_names l) -> type_is S n INPUT_OBJECT -> exists x, assoc n (structs l six) = Some x /\ read_as S n x.
  Proof.
    intros Hn (d & Hd & K). destruct (in_loaded n Hn) as (d' & Hd' & H). rewrite Hd in Hd'. injection Hd' as <-. assert (Hi : In n (map it_type (l_inputs l))) by (intuition congruence).
    apply in_map_iff in Hi as (t & <- & Ht). exact (structs_prefix (l_inputs l) [] (eq_sym (app_nil_r _)) t Ht).
  Qed.
  Lemma args_read o x : In o (l_objects l) -> In x (ob_fields o) -> exists gs, arg_fields l six (structs l six) (out_args x) = Some gs /\ reads_as S (fd_args (out_def noI x)) gs.
  Proof.
    intros Ho Hx. destruct (lk_fields S l noI LK o x Ho Hx) as (_ & _ & _ & _ & HA). assert (F := lk_objects S l noI LK o Ho). destruct (wf_fields S WF _ _ F) as [_ W].
    destruct (W _ (in_map (out_def noI) _ x Hx)) as (_ & _ & _ & (_ & WA)). apply field_reads. intros f Hf. split; [exact (HA f Hf)|]. split; [exact (proj2 (WA _ (in_map (in_def noI) _ f Hf)))|].
    intros T. destruct (HA f Hf) as (_ & Hn & _). apply in_app_or in Hn as [Hn|Hn]; [|exact (structs_found _ Hn T)].
    exfalso. destruct (lk_builtin S l noI LK _ Hn) as (d & Hd & K). destruct T as (d' & Hd' & K'). congruence.
  Qed.

  Lemma read_fields_convert args gs : mapM (read_field args) gs = convert_fields (VMap args) gs.
  Proof. induction gs as [|[n [ms [t d]]] gs IH]; [reflexivity|]. cbn [mapM convert_fields]. rewrite IH. reflexivity. Qed.
  Lemma input_names : forall n d, find_type S n = Some d -> td_kind d = INPUT_OBJECT -> forall a b, In a (td_inputs d) -> In b (td_inputs d) -> iv_name a = iv_name b -> a = b.
  Proof. intros n d Hf K a b Ha Hb E. destruct (wf_inputs S WF n d Hf K) as [ND _]. exact (nodup_map_eq iv_name _ a b ND Ha Hb E). Qed.
  Lemma positions decl kvs : NoDup (map iv_name decl) -> inputs_fit S decl kvs -> forall a, In a decl -> position S a kvs.
  Proof.
    intros ND H a Ha. inversion H as [? ? I1 I2]; subst. split; [|exact (I2 a Ha)]. intros v L. destruct (I1 _ _ L) as (b & Hb & E & P). assert (b = a) as <- by exact (nodup_map_eq iv_name _ b a ND Hb Ha E). exact P.
  Qed.
  Lemma values_arguments decl gs xs : reads_as S decl gs -> cpp_values gs xs -> Forall2 (argument_value S) decl xs.
  Proof.
    intros H. revert xs. induction H as [|a decl ms t d gs Hs Ht Hd Hr IH]; intros xs C; inversion C; subst; constructor; [|auto]. exists ms, t. split; [exact Hs|]. split; [exact (proj1 (read_cpp S) _ _ Ht)|assumption].
  Qed.
  Lemma arguments_given o x args : In o (l_objects l) -> In x (ob_fields o) -> inputs_fit S (fd_args (out_def noI x)) args ->
    match read_arguments l six x args with
    | Ok xs => Forall2 (argument_value S) (fd_args (out_def noI x)) xs
    | Throw _ => has_null_scalar (VMap args) = true
    | UB => False
    end.
  Proof.
    intros Ho Hx HI. destruct (args_read o x Ho Hx) as (gs & Eg & Hg). unfold read_arguments. rewrite Eg, read_fields_convert.
    assert (BU : forall n, builtin_scalar n -> type_is S n SCALAR) by (intros n B; apply (lk_builtin S l noI LK), builtin_spec, B).
    destruct (proj2 (all_convert S input_names BU) _ _ Hg) as [C _]. destruct (wf_fields S WF _ _ (lk_objects S l noI LK o Ho)) as [_ W]. destruct (W _ (in_map (out_def noI) _ x Hx)) as (_ & _ & _ & (ND & _)).
    destruct (C args (positions _ _ ND HI)) as [C1 C2]. destruct (convert_fields (VMap args) gs) as [xs|e|] eqn:E.
    - apply (values_arguments _ gs); [exact Hg|exact (C1 xs eq_refl)].
    - destruct (has_null_scalar (VMap args)); [reflexivity|]. destruct (C2 eq_refl) as (xs & Ex). discriminate.
    - apply (convert_no_ub (IStruct gs) (VMap args)). rewrite convert_struct, E. reflexivity.
  Qed.

  (** * Results *)
  Section Users.
    Context {U I : Type} (class : U -> string) (access : U -> string -> fparams -> list cppval -> accessed U).
    Context (itypes : I -> list string) (ihas : I -> string -> bool) (ians : I -> string -> fparams -> answer I).
    Variables (ischema : answer I) (itype : fparams -> answer I) (iotype : I -> string).
    Definition gen_otype (o : gobj U I) : string := match o with GUser u => class u | GIntro i => iotype i end.
    Notation fits := (result_fits S gen_otype).

    Lemma leaf_value n k x : cpp_leaf S n k -> typed_leaf k x -> exists v, serialize_leaf k x = Ok v /\ input_fits S (TNonNull (TNamed n)) v.
    Proof.
      intros C T. inversion T; subst; inversion C; subst; cbn.
      - eexists. split; [reflexivity|]. apply if_nonnull; [discriminate|apply if_int; assumption].
      - eexists. split; [reflexivity|]. apply if_nonnull; [discriminate|apply if_float].
      - eexists. split; [reflexivity|]. apply if_nonnull; [discriminate|apply if_string].
      - eexists. split; [reflexivity|]. apply if_nonnull; [discriminate|apply if_boolean].
      - rewrite toBase64_rfc. cbn. eexists. split; [reflexivity|]. apply if_nonnull; [discriminate|]. apply (if_id S _ false bytes). apply fromBase64_iff'. apply roundtrip.
      - eexists. split; [reflexivity|]. apply if_nonnull; [assumption|apply if_custom; assumption].
      - destruct (nth_error (map ev_name (td_enums d)) i) as [s|] eqn:E; [|apply nth_error_None in E; lia]. eexists. split; [reflexivity|].
        apply if_nonnull; [discriminate|]. apply (if_enum S n d); [assumption|assumption|]. exact (nth_error_In _ _ E).
    Qed.
    Lemma leaf_same n k k' x : cpp_leaf S n k -> cpp_leaf S n k' -> typed_leaf k x -> typed_leaf k' x.
    Proof.
      assert (NB : forall m, builtin_scalar m -> forall d, find_type S m = Some d -> td_kind d = ENUM -> False).
      { intros m B d Hf K. apply builtin_spec in B. destruct (lk_builtin S l noI LK m B) as (d' & Hd' & K'). congruence. }
      assert (NC : forall m, builtin_scalar m -> ~ builtin_scalar m -> False) by auto.
      intros C C' T. destruct C as [| | | | |n TS B|n d cpp Hf K]; inversion C' as [| | | | |? TS' B'|? d' cpp' Hf' K']; subst; try exact T;
        try (exfalso; match goal with H : ~ builtin_scalar _ |- _ => apply H; unfold builtin_scalar; simpl; tauto end);
        try (exfalso; match goal with H : find_type _ ?m = Some _, K : td_kind _ = ENUM |- _ => refine (NB m _ _ H K); unfold builtin_scalar; simpl; tauto end).
      - exfalso. destruct TS as (d & Hd & Kd). congruence.
      - exfalso. destruct TS' as (d' & Hd' & Kd'). congruence.
      - rewrite Hf in Hf'. injection Hf' as <-. inversion T; subst. apply tl_enum. assumption.
    Qed.
    Lemma possible_pointer k n fut u : composite S n -> possible S n (class u) -> fits (TNonNull (TNamed n)) (pointer_result k fut (Some u)).
    Proof. intros C P. unfold pointer_result. destruct k; cbn; ((apply rf_object; assumption) || (apply rf_derived; assumption)). Qed.
    Lemma converted_fits k n ms ty : stands_for n ms ty -> In n (builtin_types ++ loaded_names l) -> forall fut v, returns S class ty v -> fits ty (converted (I := I) k (leaf_of l n) ms fut v).
    Proof.
      intros Hs Hn. induction Hs as [|ms e Hs IH|ms t Hs IH]; intros fut v R.
      - inversion R as [? k' x Lf C T|? u Cp P| | |? N|? ? N]; subst; try (exfalso; apply N; eexists; reflexivity).
        + cbn. destruct (leaf_found n Hn Lf) as (k2 & E2). rewrite E2. destruct (leaf_some _ _ E2) as [_ C2]. destruct (leaf_value n k2 x C2 (leaf_same n k' k2 x C C2 T)) as (w & Ew & Fw).
          rewrite Ew. apply rf_leaf; [exact Lf|exact Fw].
        + cbn. apply possible_pointer; assumption.
      - inversion R as [| | |? vs Hv|? N|? ? N]; subst; try (exfalso; apply N; eexists; reflexivity). cbn. apply rf_list. intros f Hf. apply in_map_iff in Hf as (w & <- & Hw). apply IH. exact (Hv w Hw).
      - assert (NN : ~ is_nonnull t) by (intros (u & ->); revert Hs; apply no_double).
        inversion R as [? k' x Lf C T|? u Cp P|m p Cp P|? vs Hv|? N Q|? w N Q Rw]; subst; try (exfalso; apply NN; eexists; reflexivity).
        + assert (m = n) as -> by (apply stands_named in Hs; exact Hs). destruct p as [u|]; cbn; [|apply rf_null; exact NN]. apply rf_nullable; [exact NN|]. apply possible_pointer; [exact Cp|exact (P u eq_refl)].
        + cbn. apply rf_null. exact NN.
        + cbn. apply rf_nullable; [exact NN|]. apply IH. exact Rw.
    Qed.

    (** * Objects *)
    Variable ds : list sdl_def.
    Hypothesis OB : forall n, In n (GenSpec.objects_of ds) -> exists o, In o (l_objects l) /\ ob_type o = n.
    Hypothesis IM : implements S class ds access.
    Lemma object_names : NoDup (map ob_type (l_objects l)).
    Proof. assert (ND := lk_names S l noI LK). apply nodup_app_r in ND. unfold loaded_names in ND. do 5 apply nodup_app_r in ND. exact ND. Qed.
    Lemma class_found u : exists o, class_of l class u = Some o /\ In o (l_objects l) /\ ob_type o = class u.
    Proof.
      destruct (OB _ (im_class S class ds access IM u)) as (o & Ho & E). unfold class_of. destruct (List.find (is_name ob_type (class u)) (l_objects l)) as [o'|] eqn:F.
      - apply find_some in F as [Ho' Hn]. unfold is_name in Hn. apply String.eqb_eq in Hn. exists o'. auto.
      - exfalso. assert (N := find_none _ _ F o Ho). unfold is_name in N. rewrite E, String.eqb_refl in N. discriminate.
    Qed.
    Lemma in_repeat {X} (x y : X) n : In y (repeat x n) <-> y = x /\ 0 < n.
    Proof. induction n as [|n IH]; cbn; [split; [contradiction|intros [_ H]; lia]|]. rewrite IH. split; [intros [->|[-> _]]; split; (reflexivity || lia)|intros [-> _]; auto]. Qed.
    Lemma filter_some {X} (p : X -> bool) xs : 0 < length (filter p xs) <-> exists x, In x xs /\ p x = true.
    Proof.
      split.
      - destruct (filter p xs) as [|x r] eqn:E; [cbn; lia|]. intros _. exists x. apply filter_In. rewrite E. left. reflexivity.
      - intros (x & Hx & Px). destruct (filter p xs) as [|y r] eqn:E; [|cbn; lia]. exfalso. assert (H : In x (filter p xs)) by (apply filter_In; auto). rewrite E in H. exact H.
    Qed.
    Lemma standard_kinds n d : assoc n standard_types = Some d -> td_kind d <> INTERFACE /\ td_kind d <> UNION.
    Proof.
      assert (H : forallb (fun e => negb (kind_eqb (td_kind (snd e)) INTERFACE) && negb (kind_eqb (td_kind (snd e)) UNION)) standard_types = true) by (vm_compute; reflexivity).
      revert H. generalize standard_types. intros ts H E. rewrite forallb_forall in H. assert (Hi : In (n, d) ts).
      { clear H. induction ts as [|[m x] ts IH]; [discriminate|]. cbn in E. destruct (String.eqb_spec n m) as [->|]; [injection E as ->; left; reflexivity|right; auto]. }
      specialize (H _ Hi). cbn in H. destruct (td_kind d); cbn in H; try discriminate; split; discriminate.
    Qed.
    Lemma types_possible o : In o (l_objects l) -> forall t, In t (class_types l o) <-> possible S t (ob_type o).
    Proof.
      intros Ho t. assert (Fo := lk_objects S l noI LK o Ho). unfold class_types, unions_of. rewrite !in_app_iff, in_flat_map. split.
      - intros [H|[(u & Hu & H)|[<-|[]]]].
        + right. assert (Hi := lk_implements S l noI LK o t Ho H). apply in_map_iff in Hi as (i & <- & Hi). exists (snd (interface_entry noI l i)), (snd (object_entry noI o)).
          split; [exact (lk_interfaces S l noI LK i Hi)|]. split; [left; reflexivity|]. split; [|exact Fo]. cbn. unfold implementing. apply in_flat_map. exists o. split; [exact Ho|]. apply in_repeat. split; [reflexivity|].
          unfold times. apply filter_some. exists (if_type i). split; [exact H|apply String.eqb_refl].
        + right. apply in_repeat in H as [-> H]. apply filter_some in H as (x & Hx & E). apply String.eqb_eq in E as <-. exists (snd (union_entry noI u)), (snd (object_entry noI o)).
          split; [exact (lk_unions S l noI LK u Hu)|]. split; [right; reflexivity|]. split; [exact Hx|exact Fo].
        + left. split; [eexists; split; [exact Fo|reflexivity]|reflexivity].
      - intros [[_ E]|(d & d' & Hd & K & Hin & _)]; [right; right; left; auto|].
        assert (Hl : In t (loaded_names l)).
        { destruct (in_dec string_dec t (loaded_names l)) as [H|H]; [exact H|]. exfalso. rewrite (lk_standard S l noI LK t H) in Hd. destruct (standard_kinds t d Hd) as [N1 N2]. destruct K; contradiction. }
        destruct (in_loaded t Hl) as (d2 & Hd2 & H). rewrite Hd in Hd2. injection Hd2 as <-. destruct K as [K|K].
        + assert (Hi : In t (map if_type (l_interfaces l))) by (intuition congruence). apply in_map_iff in Hi as (i & <- & Hi). assert (Fi := lk_interfaces S l noI LK i Hi). rewrite Hd in Fi. injection Fi as ->.
          cbn in Hin. unfold implementing in Hin. apply in_flat_map in Hin as (o' & Ho' & Hr). apply in_repeat in Hr as [E Hr]. unfold times in Hr. apply filter_some in Hr as (x & Hx & Ex). apply String.eqb_eq in Ex as <-.
          assert (o' = o) as -> by exact (nodup_map_eq ob_type _ o' o object_names Ho' Ho (eq_sym E)). left. exact Hx.
        + assert (Hi : In t (map un_type (l_unions l))) by (intuition congruence). apply in_map_iff in Hi as (u & <- & Hi). assert (Fi := lk_unions S l noI LK u Hi). rewrite Hd in Fi. injection Fi as ->. cbn in Hin.
          right. left. exists u. split; [exact Hi|]. apply in_repeat. split; [reflexivity|]. apply filter_some. exists (ob_type o). split; [exact Hin|apply String.eqb_refl].
    Qed.

    (** What is asked of the introspection objects. *)
    Notation host := (amap (@GIntro U I)).
    Definition answer_fits (ty : tref) (a : answer (gobj U I)) : Prop := match a with AThrow _ => True | AResult r => fits ty r end.
    Record introspects : Prop := {
      in_object : forall i, type_is S (iotype i) OBJECT;
      in_types : forall i t, In t (itypes i) <-> possible S t (iotype i);
      in_has : forall i f ty args, field_of S (iotype i) f ty args -> ihas i f = true;
      in_ans : forall i f ty args p, field_of S (iotype i) f ty args -> inputs_fit S args (p_args p) -> answer_fits ty (host (ians i f p));
      in_schema : s_introspection S = true -> answer_fits (TNonNull (TNamed "__Schema")) (host ischema);
      in_type_ : s_introspection S = true -> forall p, inputs_fit S [mkInput "name" "" (TNonNull (TNamed "String")) ""] (p_args p) -> answer_fits (TNamed "__Type") (host (itype p)) }.
    Hypothesis IN : introspects.

    Lemma field_found o f : In o (l_objects l) -> In f (td_fields (snd (object_entry noI o))) -> exists x, In x (ob_fields o) /\ f = out_def noI x.
    Proof. intros Ho Hf. cbn in Hf. apply in_map_iff in Hf as (x & <- & Hx). eauto. Qed.
    Lemma stands_plain m ms n : stands_for m ms (TNonNull (TNamed n)) -> m = n /\ ms = [].
    Proof. intros H. inversion H as [| |ms' t Hs]; subst; [auto|]. exfalso. revert Hs. apply no_double. Qed.
    Lemma resolve_fits u o x p : class_of l class u = Some o -> In o (l_objects l) -> ob_type o = class u -> In x (ob_fields o) -> inputs_fit S (fd_args (out_def noI x)) (p_args p) ->
      answer_fits (fd_type (out_def noI x)) (resolve l six access u x p).
    Proof.
      intros Ec Ho En Hx HI. destruct (lk_fields S l noI LK o x Ho Hx) as (Hs & _ & _ & Hn & _). assert (HA := arguments_given o x (p_args p) Ho Hx HI). unfold resolve.
      destruct (read_arguments l six x (p_args p)) as [xs|e|]; [|exact Logic.I|contradiction]. assert (Fo := lk_objects S l noI LK o Ho). rewrite En in Fo.
      assert (M := im_access S class ds access IM u _ (out_def noI x) p xs Fo (in_map (out_def noI) _ x Hx) HA). cbn [out_def fd_name] in M.
      destruct (access u (out_name x) p xs) as [v|v|e|e]; cbn [answer_fits].
      - exact (converted_fits _ _ _ _ Hs Hn false v M).
      - exact (converted_fits _ _ _ _ Hs Hn true v M).
      - destruct M as (n & Et & Lf). change (mkFieldDef _ _ _ _ _) with (out_def noI x) in Et. rewrite Et in *. destruct (stands_plain _ _ _ Hs) as [E1 E2]. rewrite E1, E2 in *.
        destruct (leaf_found _ Hn Lf) as (k & Ek). rewrite Ek. cbn. apply rf_leaf; [exact Lf|exact Logic.I].
      - exact Logic.I.
    Qed.
    Notation gtypes := (gen_types l class itypes).
    Notation ghas := (gen_has l noI class ihas).
    Notation gans := (gen_ans l noI six class access ians ischema itype).
    Lemma query_class_of u o : class_of l class u = Some o -> In o (l_objects l) -> ob_type o = class u -> s_introspection S = true -> class u = s_query S -> is_query_class l noI o = true.
    Proof.
      intros Ec Ho En HS Hq. unfold is_query_class. rewrite En, Hq, (lk_query S l noI LK), String.eqb_refl. rewrite (lk_introspection S l noI LK) in HS. rewrite HS. reflexivity.
    Qed.
    Theorem generated_typed : typed_service S gtypes ghas gans gen_otype.
    Proof.
      constructor.
      - intros [u|i]; cbn; [|exact (in_object IN i)]. destruct (class_found u) as (o & _ & Ho & <-). eexists. split; [exact (lk_objects S l noI LK o Ho)|reflexivity].
      - intros [u|i] t; cbn; [|exact (in_types IN i t)]. destruct (class_found u) as (o & Ec & Ho & En). rewrite Ec, <- En. apply types_possible. exact Ho.
      - intros [u|i] f ty args F; cbn in *; [|exact (in_has IN i f ty args F)]. destruct (class_found u) as (o & Ec & Ho & En). rewrite Ec. apply existsb_exists. exists f. split; [|apply String.eqb_refl]. unfold class_fields.
        inversion F as [d g Hd K Hg|C|HS Hq|HS Hq]; subst.
        + rewrite <- En, (lk_objects S l noI LK o Ho) in Hd. injection Hd as <-. destruct (field_found o g Ho Hg) as (x & Hx & ->). apply in_or_app. left. cbn. apply in_map. exact Hx.
        + apply in_or_app. right. left. reflexivity.
        + rewrite (query_class_of u o Ec Ho En HS Hq). apply in_or_app. right. right. left. reflexivity.
        + rewrite (query_class_of u o Ec Ho En HS Hq). apply in_or_app. right. right. right. left. reflexivity.
      - intros [u|i] f ty args p F HI; cbn in *; [|exact (in_ans IN i f ty args p F HI)]. destruct (class_found u) as (o & Ec & Ho & En). rewrite Ec. unfold class_answer. change (answer_fits ty (if String.eqb f "__typename" then AResult (FLeaf true false (Ok (VString (ob_type o) false)))
          else if is_query_class l noI o && String.eqb f "__schema" then host ischema else if is_query_class l noI o && String.eqb f "__type" then host (itype p)
          else match List.find (fun x => String.eqb f (out_name x)) (ob_fields o) with Some x => resolve l six access u x p | None => AThrow (Exn runtime_error "") end)).
        inversion F as [d g Hd K Hg|C|HS Hq|HS Hq]; subst.
        + rewrite <- En, (lk_objects S l noI LK o Ho) in Hd. injection Hd as <-. destruct (field_found o g Ho Hg) as (x & Hx & ->). destruct (wf_fields S WF _ _ (lk_objects S l noI LK o Ho)) as [ND W].
          destruct (W _ Hg) as (NM & _). cbn [out_def fd_name] in *. assert (N1 : String.eqb (out_name x) "__typename" = false) by (apply String.eqb_neq; intros E; apply NM; rewrite E; cbn; tauto).
          assert (N2 : String.eqb (out_name x) "__schema" = false) by (apply String.eqb_neq; intros E; apply NM; rewrite E; cbn; tauto).
          assert (N3 : String.eqb (out_name x) "__type" = false) by (apply String.eqb_neq; intros E; apply NM; rewrite E; cbn; tauto). rewrite N1, N2, N3, !andb_false_r.
          destruct (List.find (fun y => String.eqb (out_name x) (out_name y)) (ob_fields o)) as [y|] eqn:Ef; [|exact Logic.I].
          apply find_some in Ef as [Hy Ey]. apply String.eqb_eq in Ey. assert (y = x) as -> by (apply (nodup_map_eq out_name (ob_fields o) y x); [|exact Hy|exact Hx|symmetry; exact Ey]; cbn in ND; rewrite map_map in ND; exact ND).
          exact (resolve_fits u o x p Ec Ho En Hx HI).
        + rewrite String.eqb_refl. cbn. apply rf_leaf; [left; exact (wf_string S WF)|]. apply if_nonnull; [discriminate|apply if_string].
        + rewrite (query_class_of u o Ec Ho En HS Hq). cbn. exact (in_schema IN HS).
        + rewrite (query_class_of u o Ec Ho En HS Hq). cbn. exact (in_type_ IN HS p HI).
    Qed.
  End Users.
End Service.
