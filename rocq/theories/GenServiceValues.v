(** The values that accessors get and that they return (for C57). *)
From Verif Require Import Cpp Value Ast Base64Model Base64Spec Base64Proofs ModifiersModel ModifiersSpec ModifiersProofs SchemaModel LoaderModel LoaderSpec LoaderProofs GenModel GenSpec GenRun GenEval GenDecl GenProps
  ExecModel ExecSem ValidationSpec TypedSpec ClientSpec VariablesSpec GenServiceModel GenServiceSpec GenServiceArgs GenServiceLink GenServiceProofs.
Local Open Scope string_scope.
Local Open Scope list_scope.

Section Values.
  Variables (S : schema) (l : loader) (noI : bool) (six : spec_float -> spec_float).
  Hypothesis LK : linked S l noI.
  Hypothesis WF : schema_wf S.
  Notation gets := (gets S l six).
  Notation gets_all := (gets_all S l six).
  Notation members := (members S l six).
  Notation member := (member S l six).
  Notation defaults := (defaults S l six).

  (** * Default values *)
  Lemma source_written v : written six v (in_source six v).
  Proof.
    induction v as [es H|vs H|s j| |b|z|f|s| |w H] using value_ind'; cbn [in_source]; try (constructor; fail).
    - constructor. induction H as [|[k v] es Hv H IH]; cbn [map fst snd]; constructor; assumption.
    - constructor. induction H as [|v vs Hv H IH]; cbn [map]; constructor; assumption.
    - constructor. constructor.
    - constructor. constructor. exact H.
  Qed.

  (** * The types of the generated code *)
  Inductive made : string -> itype -> Prop :=
  | md_leaf n k : leaf_type S n -> cpp_leaf S n k -> made n (ILeaf k)
  | md_struct t gs : In t (l_inputs l) -> makes (it_fields t) gs -> made (it_type t) (IStruct gs)
  with makes : list in_field -> list field -> Prop :=
  | mk_nil : makes [] []
  | mk_cons f fs t gs : made (in_type f) t -> makes fs gs -> makes (f :: fs) ((in_name f, (in_mods f, (t, default_of six f))) :: gs).
  Scheme made_mind := Minimality for made Sort Prop with makes_mind := Minimality for makes Sort Prop.
  Combined Scheme made_both from made_mind, makes_mind.
  Lemma arg_fields_makes env fs : (forall n t, assoc n env = Some t -> made n t) -> forall gs, arg_fields l six env fs = Some gs -> makes fs gs.
  Proof.
    intros HE. induction fs as [|f fs IH]; intros gs E; cbn [arg_fields] in E; [injection E as <-; constructor|].
    destruct (arg_field l six env f) as [g|] eqn:Eg; [|discriminate]. destruct (arg_fields l six env fs) as [gs'|]; [|discriminate]. injection E as <-.
    unfold arg_field, arg_type in Eg. destruct (leaf_of l (in_type f)) as [k|] eqn:El.
    - injection Eg as <-. constructor; [|auto]. destruct (leaf_some S l noI LK _ _ El) as [L1 L2]. constructor; assumption.
    - destruct (assoc (in_type f) env) as [t|] eqn:Ea; [|discriminate]. injection Eg as <-. constructor; [exact (HE _ _ Ea)|auto].
  Qed.
  Lemma structs_made n t : assoc n (structs l six) = Some t -> made n t.
  Proof.
    unfold structs. assert (G : forall ts env, (forall x, In x ts -> In x (l_inputs l)) -> (forall n t, assoc n env = Some t -> made n t) ->
      forall n t, assoc n (fold_left (fun env t => match arg_fields l six env (it_fields t) with Some fs => env ++ [(it_type t, IStruct fs)] | None => env end) ts env) = Some t -> made n t).
    { induction ts as [|x ts IH]; intros env Hin HE; [exact HE|]. cbn [fold_left]. apply IH; [intros y Hy; apply Hin; right; exact Hy|]. destruct (arg_fields l six env (it_fields x)) as [gs|] eqn:E; [|exact HE].
      intros m u Hu. rewrite assoc_app in Hu. destruct (assoc m env) as [w|] eqn:Ew; [injection Hu as <-; exact (HE _ _ Ew)|]. cbn in Hu. destruct (String.eqb_spec m (it_type x)) as [->|]; [|discriminate]. injection Hu as <-.
      constructor; [apply Hin; left; reflexivity|]. exact (arg_fields_makes env _ HE _ E). }
    apply G; [auto|discriminate].
  Qed.
  Lemma args_made x gs : arg_fields l six (structs l six) (out_args x) = Some gs -> makes (out_args x) gs.
  Proof. apply arg_fields_makes. exact structs_made. Qed.

  Lemma stands_mods f : input_linked S l noI f -> stands_for (named_type (iv_type (in_def noI f))) (in_mods f) (iv_type (in_def noI f)) /\ named_type (iv_type (in_def noI f)) = in_type f.
  Proof. intros (Hs & _). assert (E := stands_named _ _ _ Hs). rewrite E. auto. Qed.
  Lemma default_linked f : input_linked S l noI f -> default_ok S (in_def noI f) (in_mods f) (default_of six f).
  Proof.
    intros (Hs & Hn & Hd & Ht).
    assert (DN : default_of six f = None -> in_default f = VNull).
    { unfold default_of. intros E. destruct (in_default f) eqn:Ed; try discriminate. reflexivity. }
    split.
    - intros v Ev. assert (N : in_default f <> VNull) by (intros E; unfold default_of in Ev; rewrite E in Ev; discriminate). destruct (Hd N) as [D1 D2].
      assert (v = in_source six (in_default f)) as -> by (unfold default_of in Ev; destruct (in_default f); try (injection Ev as <-; reflexivity); contradiction).
      split; [rewrite source_null; exact N|]. split; [rewrite source_null_free; exact D1|]. apply source_fits. exact D2.
    - intros HD E. apply Ht; [exact HD|exact (DN E)].
  Qed.
  Lemma made_reads : (forall n t, made n t -> read_as S n t) /\ (forall fs gs, makes fs gs -> (forall f, In f fs -> input_linked S l noI f) -> reads_as S (map (in_def noI) fs) gs).
  Proof.
    apply made_both.
    - intros n k L C. constructor; assumption.
    - intros t gs Ht _ IH. apply (ra_struct S (it_type t) _ gs (lk_inputs S l noI LK t Ht) eq_refl). apply IH. intros f Hf. exact (proj1 (lk_members S l noI LK t f Ht Hf)).
    - intros _. constructor.
    - intros f fs t gs _ IHt _ IHs H. destruct (stands_mods f (H f (or_introl eq_refl))) as [Hs En]. cbn [map].
      apply (ras_cons S (in_def noI f) (map (in_def noI) fs) (in_mods f) t (default_of six f) gs); [exact Hs|rewrite En; exact IHt|exact (default_linked f (H f (or_introl eq_refl)))|]. apply IHs. intros g Hg. apply H. right. exact Hg.
  Qed.

  (** * Reading *)
  Definition exact_type (n : string) (t : itype) : Prop := forall v x, convert_input t v = Ok x -> has_null_scalar v = false -> v = VNull \/ input_fits S (TNamed n) v -> gets n [] v x.
  Lemma exact_mods n t : exact_type n t -> forall ms ty, stands_for n ms ty -> forall name es v x, lookup name es = Some v -> has_null_scalar v = false -> v = VNull \/ input_fits S ty v ->
    require_mods (require_base (convert_input t)) ms name (VMap es) = Ok x -> gets n ms v x.
  Proof.
    intros HC ms ty Hs. induction Hs as [|ms e Hs IH|ms ty Hs IH]; intros name es v x L NS F E; cbn [require_mods] in E.
    - apply require_base_ok in E. destruct E as (w & Lw & Ew). rewrite L in Lw. injection Lw as <-. apply (HC v x Ew NS). destruct F as [F|F]; [left; exact F|right].
      inversion F as [? N|? ? N F'| | | | | | | | | | |]; subst; [exfalso; apply N; eexists; reflexivity|exact F'].
    - cbn [index_name] in E. rewrite L in E. cbn [bind] in E. destruct v as [es0|vs| | | | | | |]; try discriminate E.
      destruct F as [F|F]; [discriminate F|]. inversion F as [? N|? ? N F'| | | | | | | | | | |]; subst. inversion F' as [| |? vs' Fv| | | | | | | | | |]; subst. rewrite Forall_forall in Fv.
      destruct (mapM _ vs) as [xs| |] eqn:M; cbn [bind] in E; try discriminate. injection E as <-. constructor. clear L F F' N.
      revert xs M. induction vs as [|w vs IHv]; intros xs M; cbn [mapM] in M; [injection M as <-; constructor|]. cbn [has_null_scalar existsb] in NS. apply orb_false_elim in NS as [Nw Nv]. rewrite (vcopy_ok w Nw) in M. cbn [bind] in M.
      destruct (require_mods _ ms name (VMap [(name, w)])) as [y| |] eqn:Ey; cbn [bind] in M; try discriminate. destruct (mapM _ vs) as [ys| |] eqn:Ms; cbn [bind] in M; try discriminate. injection M as <-.
      constructor; [exact (IH name _ w y (lookup_one name w) Nw (or_intror (Fv w (or_introl eq_refl))) Ey)|]. apply (IHv Nv (fun z Hz => Fv z (or_intror Hz)) ys eq_refl).
    - rewrite L in E. assert (D : v = VNull \/ v <> VNull) by (destruct v; (left; reflexivity) || (right; discriminate)). destruct D as [->|N].
      + injection E as <-. constructor.
      + assert (E0 : match v with VNull => Ok (XOpt None) | _ => x <- require_mods (require_base (convert_input t)) ms name (VMap es) ;; Ok (XOpt (Some x)) end
                   = (x <- require_mods (require_base (convert_input t)) ms name (VMap es) ;; Ok (XOpt (Some x)))) by (destruct v; try reflexivity; contradiction).
        rewrite E0 in E. destruct (require_mods _ ms name (VMap es)) as [y| |] eqn:Ey; cbn [bind] in E; try discriminate. injection E as <-. constructor; [exact N|]. apply (IH name es v y L NS); [|exact Ey].
        right. destruct F as [F|F]; [contradiction|]. apply if_nonnull; assumption.
  Qed.
  Lemma source_default f d : default_of six f = Some d -> in_default f <> VNull /\ d = in_source six (in_default f).
  Proof. unfold default_of. destruct (in_default f) eqn:E; try discriminate; intros H; injection H as <-; split; try discriminate; reflexivity. Qed.
  Lemma exact_default f t x : input_linked S l noI f -> exact_type (in_type f) t -> in_default f <> VNull ->
    require_mods (require_base (convert_input t)) (in_mods f) (in_name f) (VMap [(in_name f, in_source six (in_default f))]) = Ok x -> gets (in_type f) (in_mods f) (in_source six (in_default f)) x.
  Proof.
    intros HL HC N E. destruct HL as (Hs & Hn & Hd & Ht). destruct (Hd N) as [D1 D2].
    exact (exact_mods (in_type f) t HC (in_mods f) _ Hs (in_name f) _ _ x (lookup_one _ _) (eq_trans (source_null_free six _) D1) (or_intror (source_fits S six _ _ D2)) E).
  Qed.
  Lemma input_names' : forall n d, find_type S n = Some d -> td_kind d = INPUT_OBJECT -> forall a b, In a (td_inputs d) -> In b (td_inputs d) -> iv_name a = iv_name b -> a = b.
  Proof. intros n d Hf K a b Ha Hb E. destruct (wf_inputs S WF n d Hf K) as [ND _]. exact (nodup_map_eq iv_name _ a b ND Ha Hb E). Qed.
  Lemma builtins : forall n, builtin_scalar n -> type_is S n SCALAR.
  Proof. intros n B. apply (lk_builtin S l noI LK), builtin_spec, B. Qed.
  Lemma exact_member f t es x : input_linked S l noI f -> made (in_type f) t -> exact_type (in_type f) t -> position S (in_def noI f) es -> has_null_scalar (VMap es) = false ->
    read_declared (require_mods (require_base (convert_input t)) (in_mods f) (in_name f)) (in_name f) (default_of six f) (VMap es) = Ok x -> member f (lookup (in_name f) es) x.
  Proof.
    intros HL HM HC [HP HR] NS E. destruct (stands_mods f HL) as [Hs En]. assert (CV := proj1 (all_convert S input_names' builtins) _ _ (proj1 made_reads _ _ HM)). rewrite En in Hs.
    assert (R : forall v y, lookup (in_name f) es = Some v -> require_mods (require_base (convert_input t)) (in_mods f) (in_name f) (VMap es) = Ok y -> gets (in_type f) (in_mods f) v y).
    { intros v y L Ey. apply (exact_mods _ t HC _ _ Hs (in_name f) es v y L (lookup_null_free es _ v NS L)); [|exact Ey]. specialize (HP v L). inversion HP as [? ? F|? H]; subst; [right; exact F|left; reflexivity]. }
    unfold read_declared in E. destruct (default_of six f) as [d|] eqn:Ed.
    - destruct (source_default f d Ed) as [Nd ->]. assert (Ns : in_source six (in_default f) <> VNull) by (rewrite source_null; exact Nd).
      assert (E0 : forall A (u w : A), match in_source six (in_default f) with VNull => u | _ => w end = w) by (intros; destruct (in_source six (in_default f)); try reflexivity; contradiction). rewrite E0 in E.
      destruct (require_mods (require_base (convert_input t)) (in_mods f) (in_name f) (VMap es)) as [y|e|] eqn:Er; cbn [find_of bind] in E; [injection E as <-| |discriminate].
      + destruct (lookup (in_name f) es) as [v|] eqn:L; [constructor; exact (R v y eq_refl eq_refl)|]. destruct (in_mods f) as [|[|] ms] eqn:Em; cbn [require_mods] in Er.
        * apply require_base_ok in Er. destruct Er as (w & Lw & _). congruence.
        * rewrite L in Er. injection Er as <-. exact (mb_none S l six f ms Em).
        * cbn [index_name] in Er. rewrite L in Er. discriminate.
      + assert (NM : forall ms, in_mods f <> MNullable :: ms /\ (lookup (in_name f) es = None \/ lookup (in_name f) es = Some VNull)).
        { intros ms. destruct (lookup (in_name f) es) as [v|] eqn:L.
          - specialize (HP v L). inversion HP as [? ? F|? H]; subst.
            + exfalso. destruct (proj2 (mods_well S _ t CV (in_mods f) _ Hs (in_name f) es v L F) (lookup_null_free es _ v NS L)) as (y & Ey). congruence.
            + split; [|right; reflexivity]. intros Em. rewrite Em in Er. cbn [require_mods] in Er. rewrite L in Er. discriminate.
          - split; [|left; reflexivity]. intros Em. rewrite Em in Er. cbn [require_mods] in Er. rewrite L in Er. discriminate. }
        apply (mb_default S l six f _ (in_source six (in_default f))); [exact (proj2 (NM []))|intros ms; exact (proj1 (NM ms))|exact Nd|apply source_written|]. exact (exact_default f t x HL HC Nd E).
    - destruct (lookup (in_name f) es) as [v|] eqn:L; [constructor; exact (R v x eq_refl E)|]. destruct (in_mods f) as [|[|] ms] eqn:Em; cbn [require_mods] in E.
      + apply require_base_ok in E. destruct E as (w & Lw & _). congruence.
      + rewrite L in E. injection E as <-. exact (mb_none S l six f ms Em).
      + cbn [index_name] in E. rewrite L in E. discriminate.
  Qed.
  Definition exact_fields (fs : list in_field) (gs : list field) : Prop := (forall f, In f fs -> input_linked S l noI f) ->
    (forall es xs, (forall f, In f fs -> position S (in_def noI f) es) -> has_null_scalar (VMap es) = false -> convert_fields (VMap es) gs = Ok xs -> members fs es xs) /\
    (forall xs, convert_fields VNull gs = Ok xs -> defaults fs xs).
  Lemma convert_null ms t name x : require_mods (require_base (convert_input t)) ms name VNull = Ok x -> False.
  Proof. destruct ms as [|[|] ms]; cbn; discriminate. Qed.
  Lemma all_exact : (forall n t, made n t -> exact_type n t) /\ (forall fs gs, makes fs gs -> exact_fields fs gs).
  Proof.
    assert (G : (forall n t, made n t -> made n t /\ exact_type n t) /\ (forall fs gs, makes fs gs -> exact_fields fs gs)); [|split; [intros n t H; exact (proj2 (proj1 G n t H))|exact (proj2 G)]].
    apply made_both.
    - intros n k L C. split; [constructor; assumption|]. intros v x E NS _. apply (gt_leaf S l six n k v x L C). apply convert_leaf_iff; [exact NS|exact E].
    - intros t gs Ht HM IH. split; [constructor; assumption|]. intros v x E NS F. destruct IH as [H1 H2]; [intros f Hf; exact (proj1 (lk_members S l noI LK t f Ht Hf))|]. rewrite convert_struct in E.
      destruct (convert_fields v gs) as [xs| |] eqn:Ex; cbn [bind] in E; try discriminate. injection E as <-. destruct F as [->|F]; [apply gt_no_object; [exact Ht|exact (H2 xs Ex)]|].
      assert (Fd := lk_inputs S l noI LK t Ht).
      assert (Ev : v = VNull \/ exists kvs, v = VMap kvs /\ inputs_fit S (map (in_def noI) (it_fields t)) kvs).
      { assert (NB : forall n, n = it_type t -> builtin_scalar n -> False). { intros n -> B. destruct (builtins _ B) as (d & Hd & K). rewrite Fd in Hd. injection Hd as <-. discriminate K. }
        inversion F as [| | |? td y Hf' K' Hx|? td y Hf' K' Hx|z|f|z|s b|s b bytes|b|? ? (td & Hf' & K') B|? td kvs Hf' K' HI]; subst; try (left; reflexivity); try (exfalso; congruence);
          try (exfalso; eapply NB; [eassumption|unfold builtin_scalar; simpl; tauto]); try (exfalso; rewrite Fd in Hf'; injection Hf' as <-; discriminate K').
        right. rewrite Fd in Hf'. injection Hf' as <-. eauto. }
      destruct Ev as [->|(kvs & -> & HI)]; [apply gt_no_object; [exact Ht|exact (H2 xs Ex)]|]. apply gt_object; [exact Ht|]. apply H1; [|exact NS|exact Ex].
      destruct (wf_inputs S WF _ _ Fd eq_refl) as [ND _]. intros f Hf. exact (positions S _ _ ND HI _ (in_map (in_def noI) _ f Hf)).
    - intros _. split; [intros es xs _ _ E|intros xs E]; cbn in E; injection E as <-; constructor.
    - intros f fs t gs _ [HM HT] _ IH HL. destruct (IH (fun g Hg => HL g (or_intror Hg))) as [H1 H2]. split.
      + intros es xs HP NS E. cbn [convert_fields] in E. destruct (read_declared _ _ _ _) as [x| |] eqn:Ex; cbn [bind] in E; try discriminate. destruct (convert_fields (VMap es) gs) as [ys| |] eqn:Ey; cbn [bind] in E; try discriminate. injection E as <-.
        constructor; [exact (exact_member f t es x (HL f (or_introl eq_refl)) HM HT (HP f (or_introl eq_refl)) NS Ex)|exact (H1 es ys (fun g Hg => HP g (or_intror Hg)) NS Ey)].
      + intros xs E. cbn [convert_fields] in E. destruct (read_declared _ _ _ _) as [x| |] eqn:Ex; cbn [bind] in E; try discriminate. destruct (convert_fields VNull gs) as [ys| |] eqn:Ey; cbn [bind] in E; try discriminate. injection E as <-.
        unfold read_declared in Ex. destruct (default_of six f) as [d|] eqn:Ed; [|destruct (convert_null _ _ _ _ Ex)]. destruct (source_default f d Ed) as [Nd ->]. assert (Ns : in_source six (in_default f) <> VNull) by (rewrite source_null; exact Nd).
        assert (E0 : forall A (u w : A), match in_source six (in_default f) with VNull => u | _ => w end = w) by (intros; destruct (in_source six (in_default f)); try reflexivity; contradiction). rewrite E0 in Ex.
        destruct (require_mods (require_base (convert_input t)) (in_mods f) (in_name f) VNull) as [y|e|] eqn:Er; cbn [find_of bind] in Ex; [destruct (convert_null _ _ _ _ Er)| |discriminate].
        apply (df_cons S l six f fs (in_source six (in_default f))); [exact Nd|apply source_written|exact (exact_default f t x (HL f (or_introl eq_refl)) HT Nd Ex)|exact (H2 ys eq_refl)].
  Qed.
  Theorem arguments_exact o x args xs : In o (l_objects l) -> In x (ob_fields o) -> inputs_fit S (fd_args (out_def noI x)) args -> has_null_scalar (VMap args) = false ->
    read_arguments l six x args = Ok xs -> members (out_args x) args xs.
  Proof.
    intros Ho Hx HI NS E. unfold read_arguments in E. destruct (arg_fields l six (structs l six) (out_args x)) as [gs|] eqn:Eg; [|discriminate]. rewrite read_fields_convert in E.
    destruct (lk_fields S l noI LK o x Ho Hx) as (_ & _ & _ & _ & HA). destruct (proj2 all_exact _ _ (args_made x gs Eg) HA) as [H1 _]. apply H1; [|exact NS|exact E].
    destruct (wf_fields S WF _ _ (lk_objects S l noI LK o Ho)) as [_ W]. destruct (W _ (in_map (out_def noI) _ x Hx)) as (_ & _ & _ & (ND & _)).
    intros f Hf. exact (positions S _ _ ND HI _ (in_map (in_def noI) _ f Hf)).
  Qed.

  (** * Results *)
  Context {U : Type} (class : U -> string) {I : Type}.
  Notation O := (gobj U I).
  Lemma leaf_shown k x v : serialize_leaf k x = Ok v -> shown k x v.
  Proof.
    destruct k, x; cbn; try discriminate; intros E; try (injection E as <-; constructor).
    - rewrite toBase64_rfc in E. cbn in E. injection E as <-. constructor.
    - destruct (nth_error names i) as [s|] eqn:En; [|discriminate]. injection E as <-. constructor. exact En.
  Qed.
  Lemma pointer_delivers k n fut u : composite S n -> delivers S (U := U) (I := I) (TNonNull (TNamed n)) (OPtr (Some u)) (pointer_result k fut (Some u)).
  Proof. intros C. unfold pointer_result. destruct k; cbn; ((apply dl_object; exact C) || (apply dl_derived; exact C)). Qed.
  Lemma converted_delivers k n ms ty : stands_for n ms ty -> In n (builtin_types ++ loaded_names l) -> forall fut v, returns S class ty v -> delivers S (U := U) (I := I) ty v (converted (I := I) k (leaf_of l n) ms fut v).
  Proof.
    intros Hs Hn. induction Hs as [|ms e Hs IH|ms t Hs IH]; intros fut v R.
    - inversion R as [? k' x Lf C T|? u Cp P| | |? N|? ? N]; subst; try (exfalso; apply N; eexists; reflexivity).
      + cbn. destruct (leaf_found S l noI LK n Hn Lf) as (k2 & E2). rewrite E2. destruct (leaf_some S l noI LK _ _ E2) as [_ C2].
        destruct (leaf_value S (U := U) (I := I) (fun _ _ _ _ => Thrown (Exn runtime_error "")) (fun _ _ => false) (fun _ _ _ => AThrow (Exn runtime_error "")) n k2 x C2 (leaf_same S l noI LK n k' k2 x C C2 T)) as (w & Ew & Fw).
        rewrite Ew. apply (dl_leaf S n k2); [exact Lf|exact C2|exact (leaf_shown _ _ _ Ew)].
      + cbn. apply pointer_delivers; assumption.
    - inversion R as [| | |? vs Hv|? N|? ? N]; subst; try (exfalso; apply N; eexists; reflexivity). cbn. apply dl_list. clear R. induction vs as [|w vs IHv]; cbn [map]; constructor; [apply IH, Hv; left; reflexivity|apply IHv; intros z Hz; apply Hv; right; exact Hz].
    - assert (NN : ~ is_nonnull t) by (intros (u & ->); revert Hs; apply no_double).
      inversion R as [? k' x Lf C T|? u Cp P|m p Cp P|? vs Hv|? N Q|? w N Q Rw]; subst; try (exfalso; apply NN; eexists; reflexivity).
      + assert (m = n) as -> by (apply stands_named in Hs; exact Hs). destruct p as [u|]; cbn; [|apply dl_no_object]. apply dl_nullable_object. apply pointer_delivers. exact Cp.
      + cbn. apply dl_null. exact NN.
      + cbn. apply dl_value; [exact NN|]. apply IH. exact Rw.
  Qed.
End Values.
