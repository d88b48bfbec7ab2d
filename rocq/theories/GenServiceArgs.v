(** Reading the arguments of a call in generated code (for C57). *)
From Verif Require Import Cpp Value Ast Base64Model Base64Spec Base64Proofs ModifiersModel ModifiersSpec ModifiersProofs SchemaModel ExecModel LoaderSpec ValidationSpec TypedSpec ClientSpec VariablesSpec GenServiceModel GenServiceSpec.
Local Open Scope string_scope.
Local Open Scope list_scope.

Section Args.
Variable S : schema.
(** The names of the fields of an input type are distinct. *)
Hypothesis ND : forall n d, find_type S n = Some d -> td_kind d = INPUT_OBJECT -> forall a b, In a (td_inputs d) -> In b (td_inputs d) -> iv_name a = iv_name b -> a = b.

Definition default_ok (a : input_value) (ms : list modifier) (d : option value) : Prop :=
  (forall v, d = Some v -> v <> VNull /\ has_null_scalar v = false /\ input_fits S (iv_type a) v) /\ (has_default a -> d = None -> exists r, ms = MNullable :: r).
(** [input_cpp] with default values that fit. *)
Inductive read_as : string -> itype -> Prop :=
| ra_leaf n k : leaf_type S n -> cpp_leaf S n k -> read_as n (ILeaf k)
| ra_struct n d fields : find_type S n = Some d -> td_kind d = INPUT_OBJECT -> reads_as (td_inputs d) fields -> read_as n (IStruct fields)
with reads_as : list input_value -> list field -> Prop :=
| ras_nil : reads_as [] []
| ras_cons a l ms t d fs : stands_for (named_type (iv_type a)) ms (iv_type a) -> read_as (named_type (iv_type a)) t -> default_ok a ms d -> reads_as l fs ->
    reads_as (a :: l) ((iv_name a, (ms, (t, d))) :: fs).
Scheme read_as_mind := Minimality for read_as Sort Prop with reads_as_mind := Minimality for reads_as Sort Prop.
Combined Scheme read_as_both from read_as_mind, reads_as_mind.
Lemma read_cpp : (forall n t, read_as n t -> input_cpp S n t) /\ (forall l fs, reads_as l fs -> inputs_cpp S l fs).
Proof.
  apply read_as_both.
  - intros n k Hn Hk. apply ic_leaf; assumption.
  - intros n d fields Hf K _ IH. exact (ic_struct S n d fields Hf K IH).
  - constructor.
  - intros a l ms t d fs Hs _ IHt _ _ IHf. apply ics_cons; assumption.
Qed.

(** What a converter makes of a value that fits. *)
Definition reads_well (t : itype) (ms : list modifier) (v : value) (r : result cppval) : Prop :=
  (forall x, r = Ok x -> cpp_value ms t x) /\ (has_null_scalar v = false -> exists x, r = Ok x).
Definition converts (n : string) (t : itype) : Prop :=
  (forall v, v <> VNull -> input_fits S (TNamed n) v -> reads_well t [] v (convert_input t v)) /\
  (forall x, convert_input t VNull = Ok x -> cpp_value [] t x).

Lemma index_of_less s names i : index_of s names = Some i -> i < length names.
Proof. intros H. apply index_of_iff in H. inversion H as [? ? ? E _]; subst. apply nth_error_Some. congruence. Qed.
Lemma index_of_in s names : In s names -> exists i, index_of s names = Some i.
Proof. induction names as [|x names IH]; [contradiction|]. cbn [In index_of]. destruct (String.eqb_spec x s) as [->|N]; [eauto|]. intros [->|H]; [contradiction|]. destruct (IH H) as (i & ->). cbn. eauto. Qed.
Lemma decodes_from s bytes : decodes s bytes -> fromBase64 s = Ok bytes.
Proof. intros (k & E & H1 & H2). apply fromBase64_iff'. exists k. split; [exact E|]. split; assumption. Qed.

Hypothesis BU : forall n, builtin_scalar n -> type_is S n SCALAR.
Lemma builtin_kind n d k : builtin_scalar n -> find_type S n = Some d -> td_kind d = k -> k = SCALAR.
Proof. intros B F E. destruct (BU n B) as (d' & F' & K). congruence. Qed.
Lemma leaf_converts n k : leaf_type S n -> cpp_leaf S n k -> converts n (ILeaf k).
Proof.
  intros Hn Hk. split.
  - intros v Hv F. cbn [convert_input].
    assert (NO : forall td kvs, find_type S n = Some td -> td_kind td = INPUT_OBJECT -> v = VMap kvs -> False).
    { intros td kvs Hf K _. destruct Hn as [(d & Hd & Kd)|(d & Hd & Kd)]; congruence. }
    assert (NE : forall td, builtin_scalar n -> find_type S n = Some td -> td_kind td = ENUM -> False).
    { intros td B Hf K. assert (ENUM = SCALAR) by exact (builtin_kind n td ENUM B Hf K). discriminate. }
    destruct Hk as [| | | | |n TS B|n d cpp Hf K].
    + inversion F; subst; try (exfalso; congruence); try (exfalso; eapply NE; [|eassumption|eassumption]; unfold builtin_scalar; simpl; tauto); try (exfalso; eapply NO; eauto; fail).
      * split; [intros x E; injection E as <-; apply cv_leaf, tl_int; assumption|intros _; eexists; reflexivity].
      * exfalso. match goal with H : ~ builtin_scalar _ |- _ => apply H; unfold builtin_scalar; simpl; tauto end.
    + inversion F; subst; try (exfalso; congruence); try (exfalso; eapply NE; [|eassumption|eassumption]; unfold builtin_scalar; simpl; tauto); try (exfalso; eapply NO; eauto; fail);
        try (exfalso; match goal with H : ~ builtin_scalar _ |- _ => apply H; unfold builtin_scalar; simpl; tauto end);
        (split; [intros x E; injection E as <-; apply cv_leaf, tl_float|intros _; eexists; reflexivity]).
    + inversion F; subst; try (exfalso; congruence); try (exfalso; eapply NE; [|eassumption|eassumption]; unfold builtin_scalar; simpl; tauto); try (exfalso; eapply NO; eauto; fail);
        try (exfalso; match goal with H : ~ builtin_scalar _ |- _ => apply H; unfold builtin_scalar; simpl; tauto end);
        (split; [intros x E; injection E as <-; apply cv_leaf, tl_string|intros _; eexists; reflexivity]).
    + inversion F; subst; try (exfalso; congruence); try (exfalso; eapply NE; [|eassumption|eassumption]; unfold builtin_scalar; simpl; tauto); try (exfalso; eapply NO; eauto; fail);
        try (exfalso; match goal with H : ~ builtin_scalar _ |- _ => apply H; unfold builtin_scalar; simpl; tauto end);
        (split; [intros x E; injection E as <-; apply cv_leaf, tl_bool|intros _; eexists; reflexivity]).
    + inversion F; subst; try (exfalso; congruence); try (exfalso; eapply NE; [|eassumption|eassumption]; unfold builtin_scalar; simpl; tauto); try (exfalso; eapply NO; eauto; fail);
        try (exfalso; match goal with H : ~ builtin_scalar _ |- _ => apply H; unfold builtin_scalar; simpl; tauto end).
      match goal with H : decodes _ _ |- _ => apply decodes_from in H; unfold convert_leaf; rewrite H end.
      split; [intros x E; injection E as <-; apply cv_leaf, tl_id|intros _; eexists; reflexivity].
    + cbn [convert_leaf]. split; [|intros Hs; rewrite (vcopy_ok v Hs); cbn; eauto]. unfold vcopy. destruct (has_null_scalar v); cbn; intros x E; [discriminate|injection E as <-; apply cv_custom].
    + assert (NB : forall m, m = n -> builtin_scalar m -> False) by (intros m -> B; exact (NE d B Hf K)).
      assert (E : exists x, In x (map ev_name (td_enums d)) /\ (v = VEnum x \/ v = VString x true)).
      { inversion F as [| | |? td x Hf' K' Hx|? td x Hf' K' Hx|z|f|z|s b|s b bytes|b|? ? (td & Hf' & K') B|? td kvs Hf' K']; subst; try (exfalso; congruence);
          try (exfalso; eapply NB; [reflexivity|unfold builtin_scalar; simpl; tauto]); rewrite Hf in Hf'; injection Hf' as <-; eauto. }
      destruct E as (x & Hx & Ev). assert (Et : enum_text v = Some x) by (destruct Ev; subst v; reflexivity). cbn [convert_leaf]. rewrite Et. destruct (index_of_in x _ Hx) as (i & Ei). rewrite Ei.
      split; [|eauto]. intros y E. injection E as <-. apply cv_leaf, tl_enum. exact (index_of_less _ _ _ Ei).
  - intros x. cbn [convert_input]. destruct k; cbn; try discriminate. intros E. injection E as <-. apply cv_custom.
Qed.

Lemma lookup_one name (v : value) : lookup name [(name, v)] = Some v.
Proof. cbn. now rewrite String.eqb_refl. Qed.
Lemma no_double n ms t : ~ stands_for n ms (TNonNull (TNonNull t)).
Proof. intros H. remember (TNonNull (TNonNull t)) as u eqn:E. revert t E. induction H as [|ms e H IH|ms t' H IH]; intros t E; try discriminate. subst t'. exact (IH (TNonNull t) eq_refl). Qed.
Lemma mods_well n t : converts n t -> forall ms ty, stands_for n ms ty -> forall name es v, lookup name es = Some v -> input_fits S ty v ->
  reads_well t ms v (require_mods (require_base (convert_input t)) ms name (VMap es)).
Proof.
  intros [HC _] ms ty Hs. induction Hs as [|ms e Hs IH|ms ty Hs IH]; intros name es v L F.
  - inversion F as [? N|? ? N F'| | | | | | | | | | |]; subst; [exfalso; apply N; eexists; reflexivity|]. destruct (HC v N F') as [H1 H2]. cbn [require_mods]. split.
    + intros x E. apply require_base_ok in E. destruct E as (w & Lw & Ew). rewrite L in Lw. injection Lw as <-. exact (H1 x Ew).
    + intros Hv. destruct (H2 Hv) as (x & Ex). exists x. apply require_base_ok. eauto.
  - inversion F as [? N|? ? N F'| | | | | | | | | | |]; subst; [exfalso; apply N; eexists; reflexivity|]. cbn [require_mods index_name]. rewrite L. cbn [bind].
    inversion F' as [|? ? N2 F2|? vs Fv| | | | | | | | | |]; subst; [congruence|]. rewrite Forall_forall in Fv. split.
    + intros x E. destruct (mapM _ vs) as [xs|e0|] eqn:M; cbn [bind] in E; try discriminate. injection E as <-. apply cv_vec. clear L F F' N.
      revert xs M. induction vs as [|w vs IHv]; intros xs M x Hx; cbn [mapM] in M; [injection M as <-; contradiction|].
      destruct (vcopy w) as [w'| |] eqn:Ew; cbn [bind] in M; try discriminate. unfold vcopy in Ew. destruct (has_null_scalar w); [discriminate|]. injection Ew as <-.
      destruct (require_mods _ ms name (VMap [(name, w)])) as [y| |] eqn:Ey; cbn [bind] in M; try discriminate. destruct (mapM _ vs) as [ys| |] eqn:Ms; cbn [bind] in M; try discriminate. injection M as <-.
      destruct Hx as [->|Hx]; [exact (proj1 (IH name _ w (lookup_one name w) (Fv w (or_introl eq_refl))) x Ey)|]. apply (IHv (fun z Hz => Fv z (or_intror Hz)) ys eq_refl x Hx).
    + cbn [has_null_scalar]. intros Hn. assert (M : exists xs, mapM (fun e0 => e' <- vcopy e0 ;; require_mods (require_base (convert_input t)) ms name (VMap [(name, e')])) vs = Ok xs).
      { clear L F F' N. induction vs as [|w vs IHv]; [cbn; eauto|]. cbn [existsb has_null_scalar] in Hn. apply orb_false_elim in Hn as [Hw Hn]. cbn [mapM]. rewrite (vcopy_ok w Hw). cbn [bind].
        destruct (proj2 (IH name _ w (lookup_one name w) (Fv w (or_introl eq_refl))) Hw) as (y & ->). cbn [bind]. destruct (IHv (fun z Hz => Fv z (or_intror Hz)) Hn) as (ys & ->). cbn [bind]. eauto. }
      destruct M as (xs & ->). cbn [bind]. eauto.
  - cbn [require_mods]. rewrite L. assert (D : v = VNull \/ v <> VNull) by (destruct v; (left; reflexivity) || (right; discriminate)). destruct D as [->|N].
    + split; [intros x E; injection E as <-; constructor|eauto].
    + destruct (IH name es v L (if_nonnull S ty v N F)) as [H1 H2].
      assert (E0 : match v with VNull => Ok (XOpt None) | _ => x <- require_mods (require_base (convert_input t)) ms name (VMap es) ;; Ok (XOpt (Some x)) end
                   = (x <- require_mods (require_base (convert_input t)) ms name (VMap es) ;; Ok (XOpt (Some x)))) by (destruct v; try reflexivity; contradiction).
      rewrite E0. destruct (require_mods (require_base (convert_input t)) ms name (VMap es)) as [y|e|]; cbn [bind]; split; try discriminate.
      * intros x E. injection E as <-. apply cv_some. exact (H1 y eq_refl).
      * eauto.
      * intros Hn. destruct (H2 Hn) as (z & Ez). discriminate.
      * intros Hn. destruct (H2 Hn) as (z & Ez). discriminate.
Qed.

(** A declared position: what is given fits, and a required one is given. *)
Definition position (a : input_value) (es : entries) : Prop :=
  (forall v, lookup (iv_name a) es = Some v -> position_fits S a v) /\ (required a -> lookup (iv_name a) es <> None).
Definition given_null_scalar (name : string) (es : entries) : bool := match lookup name es with Some v => has_null_scalar v | None => false end.
Definition read_position (a : input_value) (ms : list modifier) (t : itype) (d : option value) (args : value) : result cppval :=
  read_declared (require_mods (require_base (convert_input t)) ms (iv_name a)) (iv_name a) d args.
Lemma nullable_mods n ms t : stands_for n ms t -> ~ is_nonnull t -> exists r, ms = MNullable :: r.
Proof. intros H N. destruct H as [|ms e H|ms t H]; [exfalso; apply N; eexists; reflexivity|exfalso; apply N; eexists; reflexivity|eauto]. Qed.
Lemma default_well a ms t d : converts (named_type (iv_type a)) t -> stands_for (named_type (iv_type a)) ms (iv_type a) -> default_ok a ms (Some d) ->
  exists x, require_mods (require_base (convert_input t)) ms (iv_name a) (VMap [(iv_name a, d)]) = Ok x /\ cpp_value ms t x.
Proof.
  intros HC Hs [HD _]. destruct (HD d eq_refl) as (_ & Hn & F). destruct (mods_well _ t HC ms _ Hs (iv_name a) _ d (lookup_one _ d) F) as [H1 H2].
  destruct (H2 Hn) as (x & Ex). eauto.
Qed.
Lemma null_mods n t ms name es x : converts n t -> lookup name es = Some VNull -> require_mods (require_base (convert_input t)) ms name (VMap es) = Ok x -> cpp_value ms t x.
Proof.
  intros [_ HN] L E. destruct ms as [|[|] ms]; cbn [require_mods] in E.
  - apply require_base_ok in E. destruct E as (w & Lw & Ew). rewrite L in Lw. injection Lw as <-. exact (HN x Ew).
  - rewrite L in E. injection E as <-. constructor.
  - cbn [index_name] in E. rewrite L in E. discriminate.
Qed.
Lemma nonnull_dec t : is_nonnull t \/ ~ is_nonnull t.
Proof. destruct t; [right; intros (u & E); discriminate|right; intros (u & E); discriminate|left; eexists; reflexivity]. Qed.
Lemma position_well a ms t d es : converts (named_type (iv_type a)) t -> stands_for (named_type (iv_type a)) ms (iv_type a) -> default_ok a ms d -> position a es ->
  (forall x, read_position a ms t d (VMap es) = Ok x -> cpp_value ms t x) /\ (given_null_scalar (iv_name a) es = false -> exists x, read_position a ms t d (VMap es) = Ok x).
Proof.
  intros HC Hs HD [HP HR].
  assert (T : forall x, require_mods (require_base (convert_input t)) ms (iv_name a) (VMap es) = Ok x -> cpp_value ms t x).
  { intros x E. destruct (lookup (iv_name a) es) as [v|] eqn:L.
    - specialize (HP v eq_refl). inversion HP as [? ? F|? H]; subst.
      + exact (proj1 (mods_well _ t HC ms _ Hs _ _ v L F) x E).
      + exact (null_mods _ t ms _ es x HC L E).
    - destruct ms as [|[|] ms]; cbn [require_mods] in E.
      + apply require_base_ok in E. destruct E as (w & Lw & _). congruence.
      + rewrite L in E. injection E as <-. constructor.
      + cbn [index_name] in E. rewrite L in E. discriminate. }
  unfold read_position, read_declared. destruct d as [d|].
  - destruct (default_well a ms t d HC Hs HD) as (y & Ey & Ty). destruct (proj1 HD d eq_refl) as (Nd & _).
    assert (E0 : forall A (u w : A), match d with VNull => u | _ => w end = w) by (intros; destruct d; try reflexivity; contradiction). rewrite E0.
    destruct (require_mods (require_base (convert_input t)) ms (iv_name a) (VMap es)) as [x|e|] eqn:E; cbn [find_of bind].
    + split; [intros z Ez; injection Ez as <-; apply T; reflexivity|eauto].
    + rewrite Ey. split; [intros z Ez; injection Ez as <-; exact Ty|eauto].
    + exfalso. revert E. apply mods_no_ub. intros n v. apply require_base_no_ub. apply convert_no_ub.
  - split; [exact T|]. intros HG. unfold given_null_scalar in HG. destruct (lookup (iv_name a) es) as [v|] eqn:L.
    + specialize (HP v eq_refl). inversion HP as [? ? F|? H]; subst.
      * exact (proj2 (mods_well _ t HC ms _ Hs _ _ v L F) HG).
      * destruct (proj2 HD H eq_refl) as (r & ->). cbn [require_mods]. rewrite L. eauto.
    + assert (N : exists r, ms = MNullable :: r).
      { destruct (String.string_dec (iv_default a) "") as [E|E]; [|exact (proj2 HD E eq_refl)]. apply (nullable_mods _ _ _ Hs). intros Hn. apply HR; [split; [exact E|exact Hn]|reflexivity]. }
      destruct N as (r & ->). cbn [require_mods]. rewrite L. eauto.
Qed.

Lemma convert_fields_cons v a ms t d fs : convert_fields v ((iv_name a, (ms, (t, d))) :: fs) = (x <- read_position a ms t d v ;; r <- convert_fields v fs ;; Ok (x :: r)).
Proof. reflexivity. Qed.
Lemma null_free_lookup es name : has_null_scalar (VMap es) = false -> given_null_scalar name es = false.
Proof. intros H. unfold given_null_scalar. destruct (lookup name es) as [v|] eqn:L; [|reflexivity]. exact (lookup_null_free es name v H L). Qed.
Definition fields_convert (l : list input_value) (fs : list field) : Prop :=
  (forall es, (forall a, In a l -> position a es) ->
     (forall xs, convert_fields (VMap es) fs = Ok xs -> cpp_values fs xs) /\ (has_null_scalar (VMap es) = false -> exists xs, convert_fields (VMap es) fs = Ok xs)) /\
  (forall xs, convert_fields VNull fs = Ok xs -> cpp_values fs xs).
Lemma all_convert : (forall n t, read_as n t -> converts n t) /\ (forall l fs, reads_as l fs -> fields_convert l fs).
Proof.
  apply read_as_both.
  - exact leaf_converts.
  - intros n d fs Hf K _ [H1 H2]. split.
    + intros v Hv F. assert (E : exists kvs, v = VMap kvs /\ inputs_fit S (td_inputs d) kvs).
      { assert (NB : builtin_scalar n -> False). { intros B. assert (INPUT_OBJECT = SCALAR) by exact (builtin_kind n d _ B Hf K). discriminate. }
        inversion F as [| | |? td x Hf' K' Hx|? td x Hf' K' Hx|z|f|z|s b|s b bytes|b|? ? (td & Hf' & K') B|? td kvs Hf' K' HI]; subst; try (exfalso; congruence);
          try (exfalso; apply NB; unfold builtin_scalar; simpl; tauto). rewrite Hf in Hf'. injection Hf' as <-. eauto. }
      destruct E as (kvs & -> & HI). inversion HI as [? ? I1 I2]; subst. rewrite convert_struct.
      assert (P : forall a, In a (td_inputs d) -> position a kvs).
      { intros a Ha. split; [|exact (I2 a Ha)]. intros w Lw. destruct (I1 _ _ Lw) as (b & Hb & Eb & Pb). assert (b = a); [|subst b; exact Pb]. revert Hb Ha Eb. clear -ND Hf K. intros Hb Ha Eb.
        exact (ND n d Hf K b a Hb Ha Eb). }
      destruct (H1 kvs P) as [C1 C2]. split.
      * intros x E. destruct (convert_fields (VMap kvs) fs) as [xs| |]; cbn [bind] in E; try discriminate. injection E as <-. apply cv_struct. exact (C1 xs eq_refl).
      * intros Hn. destruct (C2 Hn) as (xs & ->). cbn [bind]. eauto.
    + intros x. rewrite convert_struct. destruct (convert_fields VNull fs) as [xs| |]; cbn [bind]; intros E; try discriminate. injection E as <-. apply cv_struct. exact (H2 xs eq_refl).
  - split; [|intros xs E; injection E as <-; constructor]. intros es _. cbn [convert_fields]. split; [intros xs E; injection E as <-; constructor|eauto].
  - intros a l ms t d fs Hs _ HC HD _ [F1 F2]. split.
    + intros es P. destruct (position_well a ms t d es HC Hs HD (P a (or_introl eq_refl))) as [P1 P2]. destruct (F1 es (fun b Hb => P b (or_intror Hb))) as [G1 G2]. rewrite convert_fields_cons. split.
      * intros xs E. destruct (read_position a ms t d (VMap es)) as [x| |]; cbn [bind] in E; try discriminate. destruct (convert_fields (VMap es) fs) as [ys| |]; cbn [bind] in E; try discriminate.
        injection E as <-. constructor; [exact (P1 x eq_refl)|exact (G1 ys eq_refl)].
      * intros Hn. destruct (P2 (null_free_lookup es _ Hn)) as (x & ->). destruct (G2 Hn) as (ys & ->). cbn [bind]. eauto.
    + intros xs. rewrite convert_fields_cons. destruct (read_position a ms t d VNull) as [x| |] eqn:Ex; cbn [bind]; try discriminate. destruct (convert_fields VNull fs) as [ys| |] eqn:Ey; cbn [bind]; try discriminate.
      intros E. injection E as <-. constructor; [|exact (F2 ys eq_refl)].
      unfold read_position, read_declared in Ex. destruct d as [d|].
      * destruct (default_well a ms t d HC Hs HD) as (y & Ey' & Ty).
        destruct (require_mods (require_base (convert_input t)) ms (iv_name a) VNull) as [z|e|] eqn:Ez.
        -- exfalso. revert Ez. apply require_not_map. discriminate.
        -- destruct (proj1 HD d eq_refl) as (Nd & _). assert (E0 : x = y) by (destruct d; cbn [find_of bind] in Ex; try congruence). subst x. exact Ty.
        -- exfalso. revert Ez. apply mods_no_ub. intros n v. apply require_base_no_ub. apply convert_no_ub.
      * exfalso. revert Ex. apply require_not_map. discriminate.
Qed.
End Args.
