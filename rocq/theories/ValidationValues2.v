(** validateInputValue decides [value_ok]. *)
From Verif Require Import Cpp Value Ast SchemaModel SortedMapModel SortedMapSpec SortedMapProofs Base64Model Base64Spec Base64Proofs Base64Props.
From Verif Require Import ValidationModel ValidationSpec ValidationMaps ValidationValues.
From Coq Require Import Sorting.Sorted Permutation.
Local Open Scope string_scope.
Local Open Scope list_scope.

Section Values2.
  Variable S : schema.
  Hypothesis WF : schema_wf S.

  Lemma vstep_none vars st st' : vstep S None [] st st' -> vstep S vars [] st st'.
  Proof. intros (H1 & H2 & H3). split; auto. split; auto. intro x. rewrite H3. simpl. tauto. Qed.

  Lemma lit_vars_nonnull l t : lit_vars S l (TNonNull t) = lit_vars S l t.
  Proof. destruct l; reflexivity. Qed.
  Lemma lit_vars_list p items t : lit_vars S (LList p items) (TListOf t) = flat_map (fun x => lit_vars S x t) items.
  Proof. reflexivity. Qed.
  Definition entry_vars (td : type_def) (f : schema_location * (string * lit)) : list string :=
    match find_input (fst (snd f)) (td_inputs td) with Some a => lit_vars S (snd (snd f)) (iv_type a) | None => [] end.
  Lemma lit_vars_object p fields n td : find_type S n = Some td -> td_kind td = INPUT_OBJECT ->
    lit_vars S (LObject p fields) (TNamed n) = flat_map (entry_vars td) fields.
  Proof. intros H K. simpl. rewrite H, K. reflexivity. Qed.
  Lemma lit_vars_scalar l n td : plain l -> find_type S n = Some td -> td_kind td <> INPUT_OBJECT -> lit_vars S l (TNamed n) = [].
  Proof.
    intros (_ & N) H K. destruct l; simpl; auto; [exfalso; eapply N; eauto|]. rewrite H. destruct (td_kind td); auto. congruence.
  Qed.

  Lemma decides_unwrap pos base vars st d l : plain l ->
    forall t, input_type S t ->
    (forall t, input_type S t -> (forall t', t <> TNonNull t') -> decides S (base t) vars st (value_ok S vars d t l) (lit_vars S l t)) ->
    decides S (unwrap_nonnull S pos base t) vars st (value_ok S vars d t l) (lit_vars S l t).
  Proof.
    intros Pl t. induction t as [n|t IH|t IH]; intros It Hb; simpl.
    - apply Hb; auto. discriminate.
    - apply Hb; auto. discriminate.
    - rewrite (live_input S t It). eapply decides_iff; [apply IH; auto| |].
      + rewrite value_nonnull; tauto.
      + intros _ x. rewrite lit_vars_nonnull. tauto.
  Qed.

  Lemma decides_required name pos vars st inputs subs : icache_ok S st -> inputs_wf S inputs ->
    decides S (required_fields name pos subs (get_arguments S inputs)) vars st
      (forall a, In a inputs -> required a -> In (iv_name a) subs) [].
  Proof.
    intros C (N & W).
    assert (K : forall k a, In (k, a) (get_arguments S inputs) -> exists i, In i inputs /\ iv_name i = k /\ a = make_argument S i).
    { intros k a Hi. pose proof (fold_sorted iv_name (make_argument S) inputs [] (SSorted_nil _)) as Hso.
      pose proof (In_assoc _ _ _ (sorted_NoDup _ Hso) Hi) as Ha. change (assoc k (get_arguments S inputs) = Some a) in Ha.
      rewrite (get_arguments_assoc S inputs k N) in Ha.
      destruct (find_input k inputs) as [i|] eqn:E; [|discriminate]. simpl in Ha. inversion Ha. apply find_input_iff in E; auto.
      destruct E. eauto. }
    assert (A : decides S (required_fields name pos subs (get_arguments S inputs)) vars st
      (forall k a, In (k, a) (get_arguments S inputs) -> va_default a = false -> (exists t, va_type a = Some (TNonNull t)) -> In k subs) []).
    { revert K. generalize (get_arguments S inputs) as m. induction m as [|(k, a) r IH]; intro K; simpl.
      - apply decides_ret; auto. intros k a [].
      - destruct (K k a (or_introl eq_refl)) as (i & Hi & Hk & Ha).
        assert (Ht : va_type a = Some (iv_type i)) by (subst a; apply make_argument_type, W, Hi).
        destruct (va_default a) eqn:Ed; simpl.
        + eapply decides_iff; [apply IH; intros; apply K; right; auto| |intros _ x; tauto].
          split; [intros H k' a' [Hx|Hx]; [inversion Hx; congruence | apply H; auto] | intros H k' a' Hx; apply H; right; auto].
        + destruct (mem k subs) eqn:Em.
          * apply mem_In in Em.
            eapply decides_iff; [apply IH; intros; apply K; right; auto| |intros _ x; tauto].
            split; [intros H k' a' [Hx|Hx]; [inversion Hx; subst; auto | apply H; auto] | intros H k' a' Hx; apply H; right; auto].
          * apply mem_not_In in Em. rewrite Ht.
            destruct (iv_type i) as [n|t|t] eqn:Et.
            -- eapply decides_iff; [apply IH; intros; apply K; right; auto| |intros _ x; tauto].
               split; [intros H k' a' [Hx|Hx]; [inversion Hx; subst k' a'; intros _ (t' & Ht'); congruence | apply H; auto]
                      | intros H k' a' Hx; apply H; right; auto].
            -- eapply decides_iff; [apply IH; intros; apply K; right; auto| |intros _ x; tauto].
               split; [intros H k' a' [Hx|Hx]; [inversion Hx; subst k' a'; intros _ (t' & Ht'); congruence | apply H; auto]
                      | intros H k' a' Hx; apply H; right; auto].
            -- apply decides_fail. intro H. apply Em. eapply H; [left; reflexivity|auto|eauto]. }
    eapply decides_iff; [exact A| |intros _ x; tauto]. split.
    - intros H a Ha (R1 & t & R2). apply (H (iv_name a) (make_argument S a)).
      + apply assoc_In. rewrite get_arguments_assoc by auto.
        replace (find_input (iv_name a) inputs) with (Some a); [reflexivity|]. symmetry. apply find_input_iff; auto.
      + destruct (va_default (make_argument S a)) eqn:E; auto. apply make_argument_default in E. unfold has_default in E. congruence.
      + exists t. rewrite make_argument_type by (apply W, Ha). congruence.
    - intros H k a Ha D (t & T). destruct (K k a Ha) as (i & Hi & Hk & ->). subst k. apply H; auto. split.
      + destruct (string_dec (iv_default i) "") as [|Ne]; auto. exfalso.
        rewrite (proj2 (make_argument_default S i) Ne) in D. discriminate.
      + exists t. rewrite make_argument_type in T by (apply W, Hi). congruence.
  Qed.

  (** what validateInputValue is claimed to do for one literal *)
  Definition input_spec (l : lit) : Prop :=
    forall d t vars st, proper t -> input_type S t -> vars_rel S vars (operationVariables st) -> icache_ok S st ->
      decides S (validate_input S (snd (arg_value l)) d (Some t)) vars st (value_ok S vars d t l) (lit_vars S l t).

  Lemma decides_items vars t items : Forall input_spec items -> proper t -> input_type S t ->
    forall st, vars_rel S vars (operationVariables st) -> icache_ok S st ->
    decides S (validate_items (validate_input S) t (map (fun l => snd (arg_value l)) items)) vars st
      (forall x, In x items -> value_ok S vars false t x) (flat_map (fun x => lit_vars S x t) items).
  Proof.
    intros HF Pt It. induction HF as [|x r Hx HF IH]; intros st Vr C.
    - simpl. apply decides_ret; auto. intros x [].
    - cbn [map validate_items]. eapply decides_bind; [apply Hx; auto| | | |].
      + intros st' _ Hst. apply IH; [rewrite (vstep_vars _ _ _ _ _ Hst); auto | eapply vstep_cache; eauto].
      + reflexivity.
      + split; [intros H; split; [apply H; left; auto | intros y Hy; apply H; right; auto] | intros (H1 & H2) y [<-|Hy]; auto].
      + intros _ y. simpl. rewrite in_app_iff. tauto.
  Qed.

  Lemma decides_entries name pos vars td fs : Forall (fun f => input_spec (snd (snd f))) fs ->
    find_type S name = Some td -> td_kind td = INPUT_OBJECT -> inputs_wf S (td_inputs td) ->
    forall subs st, vars_rel S vars (operationVariables st) -> icache_ok S st ->
    decides S (validate_entries S (validate_input S) name pos (map entry fs) (get_arguments S (td_inputs td)) subs) vars st
      ((forall f, In f fs -> entry_ok S vars td f) /\
       (forall a, In a (td_inputs td) -> required a -> In (iv_name a) subs \/ In (iv_name a) (map (fun f => fst (snd f)) fs)))
      (flat_map (entry_vars td) fs).
  Proof.
    intros HF Ht Kt Wt. pose proof Wt as (Nt & At). induction HF as [|f r Hf HF IH]; intros subs st Vr C.
    - simpl. eapply decides_iff; [apply decides_required; auto| |intros _ x; tauto].
      split; [intros H; split; [intros f []|auto] | intros (_ & H) a Ha Hr; destruct (H a Ha Hr) as [H1|[]]; auto].
    - cbn [map validate_entries]. unfold entry at 1. set (k := fst (snd f)) in *. cbv beta iota.
      rewrite (get_arguments_assoc S _ _ Nt).
      destruct (find_input k (td_inputs td)) as [a|] eqn:Ef; cbn [option_map].
      + pose proof (proj1 (find_input_iff _ _ _ Nt) Ef) as (Ha & Hk). destruct (At a Ha) as (Pa & Ia).
        assert (U : forall a', In a' (td_inputs td) -> iv_name a' = k -> a' = a).
        { intros a' H1 H2. assert (H3 : find_input k (td_inputs td) = Some a') by (apply find_input_iff; auto). congruence. }
        assert (EV : entry_vars td f = lit_vars S (snd (snd f)) (iv_type a)) by (unfold entry_vars; fold k; rewrite Ef; reflexivity).
        destruct (negb (is_null (snd (arg_value (snd (snd f))))) || negb (va_default (make_argument S a)))%bool eqn:Ec.
        * rewrite make_argument_type by auto. eapply decides_bind with (u2 := flat_map (entry_vars td) r); [apply Hf; auto| | | |].
          -- intros st1 _ Hst1.
             destruct (input_fields_ok S name td st1 (vstep_cache _ _ _ _ _ Hst1) Ht Kt) as (st2 & E2 & V2 & C2 & R2).
             assert (D : decides S (validate_entries S (validate_input S) name pos (map entry r) (get_arguments S (td_inputs td)) (s_add k subs)) vars st2
                (((forall f, In f r -> entry_ok S vars td f) /\
       (forall a, In a (td_inputs td) -> required a -> In (iv_name a) (s_add k subs) \/ In (iv_name a) (map (fun f => fst (snd f)) r)))) (flat_map (entry_vars td) r)).
             { apply IH; auto. rewrite (vstep_vars _ _ _ _ _ V2), (vstep_vars _ _ _ _ _ Hst1). auto. }
             unfold decides, mbind in *. rewrite E2.
             destruct (validate_entries S (validate_input S) name pos (map entry r) (get_arguments S (td_inputs td)) (s_add k subs) st2) as [[e3 b3] st3].
             destruct D as [(-> & -> & D1 & D2)|D]; [left|right; exact D].
             split; auto. split; auto. split; [exact D1|]. eapply vstep_trans; [apply vstep_none; exact V2|exact D2|]. intro x. split; [auto|intros [[]|H]; exact H].
          -- reflexivity.
          -- assert (EO : entry_ok S vars td f <-> value_ok S vars (va_nonnull_default (make_argument S a)) (iv_type a) (snd (snd f))).
             { rewrite make_argument_nonnull. unfold entry_ok. fold k. split.
               - intros (a' & H1 & H2 & H3). rewrite (U a' H1 H2) in H3. destruct H3 as [(H3 & H4)|H3]; auto.
                 exfalso. apply make_argument_default with (S := S) in H3. apply arg_null in H4. rewrite H3, H4 in Ec. discriminate.
               - intro H. exists a. auto. }
             rewrite <- EO. split.
             ++ intros (H1 & H2). split; [apply H1; left; auto|]. split; [intros g Hg; apply H1; right; auto|].
                intros b Hb Hr. rewrite s_add_In. destruct (H2 b Hb Hr) as [H3|[H3|H3]]; auto.
             ++ intros (H1 & H2 & H3). split; [intros g [<-|Hg]; auto|].
                intros b Hb Hr. specialize (H3 b Hb Hr). rewrite s_add_In in H3. simpl. fold k. intuition auto.
          -- intros _ x. simpl. rewrite in_app_iff, EV. tauto.
        * apply Bool.orb_false_iff in Ec. destruct Ec as (Ec1 & Ec2). apply Bool.negb_false_iff in Ec1, Ec2.
          apply make_argument_default in Ec2. apply arg_null in Ec1. destruct Ec1 as (q & Eq).
          eapply decides_iff; [apply IH; auto| |].
          -- split.
             ++ intros (H2 & H3). split.
                ** intros g [<-|Hg]; auto. exists a. fold k. split; auto. split; auto. left. eauto.
                ** intros b Hb Hr. specialize (H3 b Hb Hr). rewrite s_add_In in H3. simpl. fold k. intuition auto.
             ++ intros (H1 & H2). split; [intros g Hg; apply H1; right; auto|].
                intros b Hb Hr. rewrite s_add_In. destruct (H2 b Hb Hr) as [H3|[H3|H3]]; auto.
          -- intros _ x. cbn [flat_map]. rewrite in_app_iff, EV, Eq. replace (lit_vars S (LNull q) (iv_type a)) with (@nil string); [simpl; tauto|].
             clear. induction (iv_type a) as [n|t IH|t IH]; simpl; auto.
      + apply decides_fail. intros (H & _). destruct (H f (or_introl eq_refl)) as (a & H1 & H2 & _).
        assert (find_input k (td_inputs td) = Some a) by (apply find_input_iff; auto). congruence.
  Qed.

  Lemma decides_variable d t vars st p n : proper t -> input_type S t -> vars_rel S vars (operationVariables st) -> icache_ok S st ->
    decides S (validate_variable S d p n t) vars st (value_ok S vars d t (LVar p n)) [n].
  Proof.
    intros Pt It Vr C. unfold decides, validate_variable, mbind, get, modify, emits, ret, fail, emit. simpl.
    destruct vars as [vs|]; simpl in Vr.
    - destruct Vr as (N & W & m & -> & Hm). rewrite Hm. destruct (find_var n vs) as [v|] eqn:Ev; simpl.
      + apply (find_key v_name) in Ev; auto. destruct Ev as (Hv & Hn). destruct (W v Hv) as (Pv & Iv).
        pose proof (variable_type_ok S WF t (d || var_nonnull_default v) (v_type v) p Pt Pv It Iv) as HV.
        destruct (validate_variable_type S t (d || var_nonnull_default v) (v_type v) p) as [es b]. rewrite app_nil_r.
        assert (U : value_ok S (Some vs) d t (LVar p n) <-> usage_allowed (v_type v) (d || var_nonnull_default v) t).
        { rewrite value_var. split.
          - intros [H|(vs' & v' & H1 & H2 & H3 & H4)]; [discriminate|]. inversion H1. subst vs'.
            assert (find_var n vs = Some v') by (apply (find_key v_name); auto).
            assert (find_var n vs = Some v) by (apply (find_key v_name); auto). congruence.
          - intro H. right. eauto 10. }
        destruct HV as [(-> & -> & HV)|(H1 & -> & H2)]; [left|right].
        * split; auto. split; auto. split; [tauto|]. split; [destruct st; reflexivity|]. split.
          -- intros n' fs. simpl. apply C.
          -- intro x. simpl. rewrite s_add_In. split; [intros [->|H]; auto; right; split; [discriminate|auto] | intros [H|(_ & [H|[]])]; auto].
        * repeat split; auto. tauto.
      + right. split; [discriminate|]. split; auto. rewrite value_var.
        intros [H|(vs' & v' & H1 & H2 & H3 & _)]; [discriminate|]. inversion H1. subst vs'.
        assert (find_var n vs = Some v') by (apply (find_key v_name); auto). congruence.
    - rewrite Vr. left. split; auto. split; auto. split; [apply ok_any_var; auto|]. apply vstep_refl; auto. congruence.
  Qed.

  Lemma decides_scalar vars d n l st : plain l -> type_is S n SCALAR -> icache_ok S st ->
    decides S (validate_scalar S n (snd (arg_value l))) vars st (value_ok S vars d (TNamed n) l) (lit_vars S l (TNamed n)).
  Proof.
    intros Pl Hs C. pose proof Hs as (td & Hd & Kd).
    rewrite (lit_vars_scalar l n td Pl Hd) by congruence.
    eapply decides_iff; [|symmetry; apply value_scalar; auto|intros _ x; apply iff_refl].
    assert (Df : is_scalar_type S n = true) by (unfold is_scalar_type; rewrite Hd, Kd; reflexivity).
    unfold validate_scalar. rewrite Df. pose proof (wf_names _ WF _ _ Hd) as (Ne & _).
    destruct (String.eqb n "") eqn:E0; [apply String.eqb_eq in E0; congruence|].
    assert (X : forall m, String.eqb n m = true -> n = m) by (intros; apply String.eqb_eq; auto).
    assert (Y : forall m, String.eqb n m = false -> n <> m) by (intros; apply String.eqb_neq; auto).
    destruct (String.eqb n "Int") eqn:E1.
    { apply X in E1. subst n. assert (SL : scalar_literal "Int" l <-> exists p z, l = LInt p z).
      { unfold scalar_literal. split; [intros [(_ & H)|[(H & _)|[(H & _)|[(H & _)|[(H & _)|H]]]]]; auto; try discriminate; exfalso; apply H; unfold builtin_scalar; simpl; auto 10 | intro H; left; auto]. }
      destruct l; simpl; try (apply decides_fail; rewrite SL; intros (? & ? & ?); discriminate); try (destruct (arg_items arg_value items)); try (destruct (arg_fields arg_value fields []));
        try (apply decides_fail; rewrite SL; intros (? & ? & ?); discriminate).
      apply decides_ret; auto. apply SL; eauto. }
    destruct (String.eqb n "Float") eqn:E2.
    { apply X in E2. subst n. assert (SL : scalar_literal "Float" l <-> ((exists p z, l = LFloat p z) \/ (exists p z, l = LInt p z))).
      { unfold scalar_literal. split; [intros [(H & _)|[(_ & H)|[(H & _)|[(H & _)|[(H & _)|H]]]]]; auto; try discriminate; exfalso; apply H; unfold builtin_scalar; simpl; auto 10 | intro H; right; left; auto]. }
      destruct l; simpl; try (apply decides_fail; rewrite SL; intros [(? & ? & ?)|(? & ? & ?)]; discriminate); try (destruct (arg_items arg_value items)); try (destruct (arg_fields arg_value fields []));
        try (apply decides_fail; rewrite SL; intros [(? & ? & ?)|(? & ? & ?)]; discriminate);
      apply decides_ret; auto; apply SL; eauto. }
    destruct (String.eqb n "String") eqn:E3.
    { apply X in E3. subst n. assert (SL : scalar_literal "String" l <-> exists p z, l = LString p z).
      { unfold scalar_literal. split; [intros [(H & _)|[(H & _)|[(_ & H)|[(H & _)|[(H & _)|H]]]]]; auto; try discriminate; exfalso; apply H; unfold builtin_scalar; simpl; auto 10 | intro H; do 2 right; left; auto]. }
      destruct l; simpl; try (apply decides_fail; rewrite SL; intros (? & ? & ?); discriminate); try (destruct (arg_items arg_value items)); try (destruct (arg_fields arg_value fields []));
        try (apply decides_fail; rewrite SL; intros (? & ? & ?); discriminate).
      apply decides_ret; auto. apply SL; eauto. }
    destruct (String.eqb n "ID") eqn:E4.
    { apply X in E4. subst n. assert (SL : scalar_literal "ID" l <-> exists p z bytes, l = LString p z /\ decodes z bytes).
      { unfold scalar_literal. split; [intros [(H & _)|[(H & _)|[(H & _)|[(_ & H)|[(H & _)|H]]]]]; auto; try discriminate; exfalso; apply H; unfold builtin_scalar; simpl; auto 10 | intro H; do 3 right; left; auto]. }
      destruct l as [| | |p s| | | | |]; simpl; try (apply decides_fail; rewrite SL; intros (? & ? & ? & ? & ?); discriminate); try (destruct (arg_items arg_value items)); try (destruct (arg_fields arg_value fields []));
        try (apply decides_fail; rewrite SL; intros (? & ? & ? & ? & ?); discriminate).
      destruct (C02_decode_total s) as [(bytes & Hb)|(w & Hb)]; rewrite Hb; simpl.
      - apply decides_ret; auto. apply SL. exists p, s, bytes. split; auto. apply C02_decode_iff in Hb. destruct Hb as (k & H1 & H2).
        exists k. split; auto.
      - apply decides_fail. rewrite SL. intros (p' & z & bytes & H & D). injection H as _ H. subst z.
        assert (fromBase64 s = Ok bytes); [|congruence]. apply C02_decode_iff. destruct D as (k & H1 & H2). exists k. split; auto. }
    destruct (String.eqb n "Boolean") eqn:E5.
    { apply X in E5. subst n. assert (SL : scalar_literal "Boolean" l <-> exists p z, l = LBool p z).
      { unfold scalar_literal. split; [intros [(H & _)|[(H & _)|[(H & _)|[(H & _)|[(_ & H)|H]]]]]; auto; try discriminate; exfalso; apply H; unfold builtin_scalar; simpl; auto 10 | intro H; do 4 right; left; auto]. }
      destruct l; simpl; try (apply decides_fail; rewrite SL; intros (? & ? & ?); discriminate); try (destruct (arg_items arg_value items)); try (destruct (arg_fields arg_value fields []));
        try (apply decides_fail; rewrite SL; intros (? & ? & ?); discriminate).
      apply decides_ret; auto. apply SL; eauto. }
    apply decides_ret; auto. do 5 right. intro H. unfold builtin_scalar in H. simpl in H.
    apply Y in E1, E2, E3, E4, E5. intuition congruence.
  Qed.

  Lemma decides_enum vars d n td l st : plain l -> find_type S n = Some td -> td_kind td = ENUM -> icache_ok S st ->
    decides S (validate_enum S n (snd (arg_value l))) vars st (value_ok S vars d (TNamed n) l) (lit_vars S l (TNamed n)).
  Proof.
    intros Pl Hd Kd C. rewrite (lit_vars_scalar l n td Pl Hd) by congruence.
    assert (Ns : ~ type_is S n SCALAR) by (intros (d' & H1 & H2); congruence).
    eapply decides_iff; [|symmetry; apply (value_enum S vars d n l td); auto|intros _ x; apply iff_refl].
    unfold validate_enum. pose proof (wf_names _ WF _ _ Hd) as (Ne & _). apply String.eqb_neq in Ne. rewrite Ne.
    destruct l as [| | | | | |p s| |]; simpl; try (apply decides_fail; intros (? & ? & ? & ?); discriminate);
      try (destruct (arg_items arg_value items)); try (destruct (arg_fields arg_value fields []));
      try (apply decides_fail; intros (? & ? & ? & ?); discriminate).
    unfold enum_values. rewrite Hd, Kd. simpl.
    destruct (mem s (map ev_name (td_enums td))) eqn:Em.
    - apply mem_In in Em. apply decides_ret; eauto.
    - apply mem_not_In in Em. apply decides_fail. intros (? & ? & H & H1). inversion H. subst. auto.
  Qed.

  Lemma input_plain l vars d t st : plain l -> unique_fields l ->
    (forall p items, l = LList p items -> Forall input_spec items) ->
    (forall p fields, l = LObject p fields -> Forall (fun f => input_spec (snd (snd f))) fields) ->
    proper t -> input_type S t -> vars_rel S vars (operationVariables st) -> icache_ok S st ->
    decides S (validate_input S (snd (arg_value l)) d (Some t)) vars st (value_ok S vars d t l) (lit_vars S l t).
  Proof.
    intros Pl Ul HL HO Pt It Vr C.
    set (base := fun t => match t with
                | TNonNull _ => ret true
                | TListOf t' =>
                    match snd (arg_value l) with
                    | AList pos items =>
                        match live S t' with
                        | None => fail "Unknown List type" pos
                        | Some _ => validate_items (validate_input S) t' items
                        end
                    | _ => fail "Expected List value" (a_pos (snd (arg_value l)))
                    end
                | TNamed name =>
                    match kind_of S t with
                    | INPUT_OBJECT =>
                        if String.eqb name "" then fail "Unknown Input Object type" (a_pos (snd (arg_value l)))
                        else match snd (arg_value l) with
                             | AMap pos values =>
                                 mbind (get_input_type_fields S name) (fun found =>
                                 match found with
                                 | None => fail ("Expected Input Object fields name: " ++ name) pos
                                 | Some fields => validate_entries S (validate_input S) name pos values fields []
                                 end)
                             | _ => fail ("Expected Input Object value name: " ++ name) (a_pos (snd (arg_value l)))
                             end
                    | ENUM => validate_enum S name (snd (arg_value l))
                    | SCALAR => validate_scalar S name (snd (arg_value l))
                    | _ => fail "Unexpected value type" (a_pos (snd (arg_value l)))
                    end
                end).
    assert (E : validate_input S (snd (arg_value l)) d (Some t) = unwrap_nonnull S (a_pos (snd (arg_value l))) base t).
    { unfold base. clear base. destruct Pl as (N1 & N2).
      destruct l; try reflexivity.
      - exfalso; eapply N2; eauto.
      - exfalso; eapply N1; eauto.
      - rewrite arg_list. reflexivity.
      - destruct (arg_object loc fields Ul) as (f' & _ & E & _). rewrite E. reflexivity. }
    rewrite E. clear E.
    assert (Pt' : forall t', named_type t' = named_type t -> input_type S t') by (unfold input_type; intros t' ->; exact It).
    clear Pt'.
    assert (G : forall t, proper t -> input_type S t -> (forall t', t <> TNonNull t') ->
               decides S (base t) vars st (value_ok S vars d t l) (lit_vars S l t)).
    { clear t Pt It. intros t Pt It Nt. destruct t as [n|t|t]; [| |exfalso; eapply Nt; eauto].
      - unfold base. destruct (input_kind S _ It) as (td & Hd & Kd). simpl kind_of. rewrite Hd.
        destruct Kd as [K|[K|K]]; rewrite K.
        + apply decides_scalar; auto. exists td. auto.
        + eapply decides_enum; eauto.
        + pose proof (wf_names _ WF _ _ Hd) as (Ne & _). apply String.eqb_neq in Ne. rewrite Ne.
          assert (Ns : ~ type_is S n SCALAR) by (intros (d' & H1 & H2); congruence).
          eapply decides_iff; [|symmetry; apply (value_object S vars d n l td); auto|intros _ x; apply iff_refl].
          destruct l; simpl snd; try (apply decides_fail; intros (? & ? & ? & ?); discriminate).
          * rewrite arg_items_eq. simpl. apply decides_fail; intros (? & ? & ? & ?); discriminate.
          * destruct (arg_object loc fields Ul) as (f' & Hp & Ea & _).
            change (snd (let '(es, m) := arg_fields arg_value fields [] in (es, AMap loc m))) with (snd (arg_value (LObject loc fields))).
            rewrite Ea. destruct (input_fields_ok S n td st C Hd K) as (st2 & E2 & V2 & C2 & R2).
            assert (D : decides S (validate_entries S (validate_input S) n loc (map entry f') (get_arguments S (td_inputs td)) []) vars st2
                ((forall f, In f f' -> entry_ok S vars td f) /\
                 (forall a, In a (td_inputs td) -> required a -> In (iv_name a) [] \/ In (iv_name a) (map (fun f => fst (snd f)) f')))
                (flat_map (entry_vars td) f')).
            { apply decides_entries; auto.
              - specialize (HO _ _ eq_refl). rewrite Forall_forall in *. intros f Hf. apply HO. eapply Permutation_in; [apply Permutation_sym; exact Hp|auto].
              - eapply wf_inputs; eauto.
              - rewrite (vstep_vars _ _ _ _ _ V2). auto. }
            assert (PE : ((forall f, In f f' -> entry_ok S vars td f) /\
                 (forall a, In a (td_inputs td) -> required a -> In (iv_name a) [] \/ In (iv_name a) (map (fun f => fst (snd f)) f'))) <->
                 (exists p fields0, LObject loc fields = LObject p fields0 /\ (forall f, In f fields0 -> entry_ok S vars td f) /\
                   (forall a, In a (td_inputs td) -> required a -> In (iv_name a) (map (fun f => fst (snd f)) fields0)))).
            { pose proof (Permutation_sym Hp) as Hp'. split.
              - intros (H1 & H2). exists loc, fields. split; auto. split.
                + intros f Hf. apply H1. eapply Permutation_in; eauto.
                + intros a Ha Hr. destruct (H2 a Ha Hr) as [[]|H3]. eapply Permutation_in; [apply Permutation_map; exact Hp'|auto].
              - intros (p & f0 & H0 & H1 & H2). inversion H0. subst p f0. split.
                + intros f Hf. apply H1. eapply Permutation_in; eauto.
                + intros a Ha Hr. right. eapply Permutation_in; [apply Permutation_map; exact Hp|auto]. }
            unfold decides, mbind in *. rewrite E2.
            destruct (validate_entries S (validate_input S) n loc (map entry f') (get_arguments S (td_inputs td)) [] st2) as [[e3 b3] st3].
            destruct D as [(-> & -> & D1 & D2)|(D1 & D2 & D3)]; [left|right].
            -- split; auto. split; auto. split; [apply PE; exact D1|].
               eapply vstep_trans; [apply vstep_none; exact V2|exact D2|].
               intro x. rewrite (lit_vars_object loc fields n td Hd K). simpl. rewrite !in_flat_map.
               split; [intros (f & H1 & H2); right; exists f; split; auto; eapply Permutation_in; eauto
                      | intros [[]|(f & H1 & H2)]; exists f; split; auto; eapply Permutation_in; [apply Permutation_sym; exact Hp|auto]].
            -- split; auto. split; auto. rewrite <- PE. exact D3.
      - unfold base. eapply decides_iff; [|symmetry; apply (value_list S vars d t l); auto|intros _ x; apply iff_refl].
        destruct l; simpl snd; try (apply decides_fail; intros (? & ? & ? & ?); discriminate).
        + rewrite arg_items_eq. simpl. rewrite (live_input S t It).
          eapply decides_iff; [apply decides_items; auto; apply (HL _ _ eq_refl)| |intros _ x; apply iff_refl].
          split; [intro H; eauto | intros (p & i & H & H1); inversion H; subst; auto].
        + destruct (arg_object loc fields Ul) as (f' & Hp & Ea & _).
          change (snd (let '(es, m) := arg_fields arg_value fields [] in (es, AMap loc m))) with (snd (arg_value (LObject loc fields))).
          rewrite Ea. apply decides_fail; intros (? & ? & ? & ?); discriminate. }
    assert (H : forall t, proper t -> input_type S t -> decides S (unwrap_nonnull S (a_pos (snd (arg_value l))) base t) vars st (value_ok S vars d t l) (lit_vars S l t)).
    { clear t Pt It. intro t. induction t as [n|t IH|t IH]; intros Pt It.
      - apply (G (TNamed n)); auto. discriminate.
      - apply (G (TListOf t)); auto. discriminate.
      - simpl. rewrite (live_input S t It). eapply decides_iff; [apply IH; auto; apply Pt| |].
        + rewrite value_nonnull; tauto.
        + intros _ x. rewrite lit_vars_nonnull. tauto. }
    apply H; auto.
  Qed.

  Lemma validate_input_ok l : unique_fields l -> input_spec l.
  Proof.
    induction l as [p n|p z|p f|p s|p b|p|p s|p items IH|p fields IH] using lit_ind'; intros U d t vars st Pt It Vr C;
      try (apply input_plain; auto; [split; discriminate | discriminate | discriminate]).
    - simpl. apply decides_variable; auto.
    - replace (lit_vars S (LNull p) t) with (@nil string) by (clear; induction t; simpl; auto).
      simpl. eapply decides_iff; [|symmetry; apply value_null|intros _ x; apply iff_refl].
      destruct t as [n|t|t]; simpl.
      + apply decides_ret; auto. right. intros (t' & H). discriminate.
      + apply decides_ret; auto. right. intros (t' & H). discriminate.
      + destruct d; simpl.
        * apply decides_ret; auto.
        * apply decides_fail. intros [H|H]; [discriminate|]. apply H. exists t. reflexivity.
    - apply input_plain; auto; [split; discriminate | | discriminate].
      intros p' items' H. inversion H. subst. inversion U as [? ? H1| |? H1 H2]; subst; [|exfalso; eapply H1; eauto].
      rewrite Forall_forall in *. auto.
    - apply input_plain; auto; [split; discriminate | discriminate |].
      intros p' fields' H. inversion H. subst. inversion U as [|? ? H1 H2|? H1 H2]; subst; [|exfalso; eapply H2; eauto].
      rewrite Forall_forall in *. auto.
  Qed.
End Values2.
