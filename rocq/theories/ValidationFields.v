(** Fields: lookups in the schema, fragment targets and merging of fields with the same response key. *)
From Verif Require Import Cpp Value Ast SchemaModel SortedMapModel SortedMapSpec SortedMapProofs.
From Verif Require Import ValidationModel ValidationSpec ValidationMaps ValidationValues ValidationValues2 ValidationArgs.
From Coq Require Import Sorting.Sorted Permutation.
Local Open Scope string_scope.
Local Open Scope list_scope.

Lemma tref_eqb_iff a : forall b, tref_eqb a b = true <-> a = b.
Proof.
  induction a as [n|a IH|a IH]; intros [m|b|b]; simpl; try (split; congruence).
  - rewrite String.eqb_eq. split; congruence.
  - rewrite IH. split; congruence.
  - rewrite IH. split; congruence.
Qed.
Lemma kind_eqb_iff a b : kind_eqb a b = true <-> a = b.
Proof. destruct a, b; simpl; split; congruence. Qed.

(** * Equal values *)
Lemma aval_eqb_list p q xs ys : aval_eqb (AList p xs) (AList q ys) = true <-> Forall2 (fun x y => aval_eqb x y = true) xs ys.
Proof.
  simpl. revert ys. induction xs as [|x xs IH]; intros [|y ys]; try (split; [discriminate|intro H; inversion H]).
  - split; auto.
  - rewrite Bool.andb_true_iff, IH. split; [intros (H1 & H2); constructor; auto | intro H; inversion H; auto].
Qed.
Lemma args_eqb_iff xs ys : args_eqb xs ys = true <-> Forall2 (fun x y => fst x = fst y /\ aval_eqb (snd x) (snd y) = true) xs ys.
Proof.
  revert ys. induction xs as [|(k, x) xs IH]; intros [|(k', y) ys]; simpl; try (split; [discriminate|intro H; inversion H]).
  - split; auto.
  - rewrite !Bool.andb_true_iff, IH, String.eqb_eq. split; [intros ((H1 & H2) & H3); constructor; auto | intro H; inversion H; subst; simpl in *; tauto].
Qed.
Lemma aval_eqb_map p q xs ys : aval_eqb (AMap p xs) (AMap q ys) = args_eqb xs ys.
Proof. simpl. revert ys. induction xs as [|(k, x) xs IH]; intros [|(k', y) ys]; simpl; rewrite ?IH; reflexivity. Qed.

Lemma Forall2_in_l {A B} (R : A -> B -> Prop) l l' x : Forall2 R l l' -> In x l -> exists y, In y l' /\ R x y.
Proof. induction 1 as [|a b l l' H F IH]; [intros []|]. intros [<-|H1]; [exists b; simpl; auto|]. destruct (IH H1) as (y & ? & ?). exists y. simpl. auto. Qed.
Lemma Forall2_same_length {A B} (R : A -> B -> Prop) l l' : Forall2 R l l' -> length l = length l'.
Proof. induction 1; simpl; auto. Qed.

Definition value_spec (l : lit) : Prop :=
  forall l', unique_fields l -> unique_fields l' -> (aval_eqb (snd (arg_value l)) (snd (arg_value l')) = true <-> same_value l l').

Lemma arg_map_elements args m k v : NoDup (map a_name args) -> arg_map args m ->
  (In (k, v) m <-> exists a, In a args /\ a_name a = k /\ v = snd (arg_value (a_value a))).
Proof.
  intros N (Hs & Hm). rewrite (assoc_iff _ _ _ (sorted_NoDup _ Hs)), Hm. split.
  - destruct (find_arg k args) as [a|] eqn:F; [|discriminate]. apply (find_key a_name) in F; auto. simpl. intro H. inversion H. destruct F. eauto.
  - intros (a & H1 & H2 & ->). replace (find_arg k args) with (Some a); auto. symmetry. apply (find_key a_name); auto.
Qed.
Lemma arg_map_length args m : NoDup (map a_name args) -> arg_map args m -> length m = length args.
Proof.
  intros N H. rewrite <- (map_length fst m), <- (map_length a_name args).
  pose proof (sorted_NoDup _ (proj1 H)) as N'. apply Nat.le_antisymm; apply NoDup_incl_length; auto; intros k Hk; apply in_map_iff in Hk.
  - destruct Hk as ((k', v) & <- & Hk). apply (arg_map_elements args m k' v N H) in Hk. destruct Hk as (a & H1 & H2 & _). simpl. rewrite <- H2. apply in_map. auto.
  - destruct Hk as (a & <- & Hk). apply in_map_iff. exists (a_name a, snd (arg_value (a_value a))). split; auto.
    apply (arg_map_elements args m _ _ N H). eauto.
Qed.
Lemma fields_eqb xs ys m m' :
  NoDup (map a_name xs) -> NoDup (map a_name ys) -> arg_map xs m -> arg_map ys m' ->
  (forall x, In x xs -> value_spec (a_value x)) ->
  (forall x, In x xs -> unique_fields (a_value x)) -> (forall x, In x ys -> unique_fields (a_value x)) ->
  (args_eqb m m' = true <-> same_args xs ys).
Proof.
  intros Nx Ny Mx My Hv Ux Uy. rewrite args_eqb_iff. split.
  - intro F. split.
    + rewrite <- (arg_map_length xs m), <- (arg_map_length ys m') by auto. eapply Forall2_same_length; eauto.
    + intros x Hx. assert (Hi : In (a_name x, snd (arg_value (a_value x))) m) by (apply (arg_map_elements xs m _ _ Nx Mx); eauto).
      destruct (Forall2_in_l _ _ _ _ F Hi) as ((k, v) & Hy & Hk & He). simpl in *. subst k.
      apply (arg_map_elements ys m' _ _ Ny My) in Hy. destruct Hy as (y & Hy & Hn & ->). exists y. split; auto. split; auto.
      apply Hv; auto.
  - intros (Hl & Hs). apply (sorted_ext (fun x y => aval_eqb x y = true)); [apply Mx|apply My|]. intro k.
    pose proof (proj2 Mx k) as E1. pose proof (proj2 My k) as E2. rewrite E1, E2.
    assert (Hincl : incl (map a_name xs) (map a_name ys)).
    { intros n Hn. apply in_map_iff in Hn. destruct Hn as (x & <- & Hx). destruct (Hs x Hx) as (y & Hy & <- & _). apply in_map. auto. }
    assert (Hincl' : incl (map a_name ys) (map a_name xs)).
    { apply NoDup_length_incl; auto. rewrite !map_length. lia. }
    destruct (find_arg k xs) as [x|] eqn:Fx.
    + apply (find_key a_name) in Fx; auto. destruct Fx as (Hx & <-). destruct (Hs x Hx) as (y & Hy & Hn & Hsv).
      replace (find_arg (a_name x) ys) with (Some y) by (symmetry; apply (find_key a_name); auto). simpl. apply Hv; auto.
    + apply (find_none_key a_name) in Fx. replace (find_arg k ys) with (@None argument); [exact I|].
      symmetry. apply (find_none_key a_name). intro H. apply Fx, Hincl', H.
Qed.

Lemma object_arg_map p fields : unique_fields (LObject p fields) ->
  exists m, snd (arg_value (LObject p fields)) = AMap p m /\ arg_map fields m /\ NoDup (map a_name fields).
Proof.
  intro U. pose proof U as U'. inversion U' as [|? ? H1 H2|? H1 H2]; subst; [|exfalso; eapply H2; eauto].
  destruct (arg_object p fields U) as (f' & Hp & E & Hs). exists (map entry f'). split; auto. split; auto. split; auto.
  intro k. pose proof (sorted_NoDup _ Hs) as N.
  destruct (find_arg k fields) as [x|] eqn:F; simpl.
  - apply (find_key a_name) in F; auto. destruct F as (Hx & <-). apply In_assoc; auto.
    apply in_map_iff. exists x. split; [reflexivity|]. eapply Permutation_in; eauto.
  - apply (find_none_key a_name) in F. apply assoc_None. intro H. apply F. rewrite map_map in H. apply in_map_iff in H.
    destruct H as (x & <- & Hx). apply (in_map a_name). eapply Permutation_in; [apply Permutation_sym; exact Hp|auto].
Qed.

Lemma same_value_ok l : value_spec l.
Proof.
  induction l as [p n|p z|p f|p s|p b|p|p s|p items IH|p fields IH] using lit_ind'; intros l' U U'.
  8: {
    destruct l' as [| | | | | | |q items'|q fields']; try (split; [simpl; rewrite arg_items_eq; discriminate|intro H; inversion H]).
    - rewrite !arg_list, aval_eqb_list.
      inversion U as [? ? H1| |? H1 H2]; subst; [|exfalso; eapply H1; eauto].
      inversion U' as [? ? H1'| |? H1' H2']; subst; [|exfalso; eapply H1'; eauto].
      clear U U'. assert (G : Forall2 (fun x y => aval_eqb x y = true) (map (fun l => snd (arg_value l)) items) (map (fun l => snd (arg_value l)) items') <-> Forall2 same_value items items').
      { revert items' H1'. induction items as [|x r IHr]; intros [|y r'] H1'; simpl; try (split; intro H; inversion H; fail).
        - split; constructor.
        - inversion IH as [|? ? I1 I2]. subst. inversion H1 as [|? ? V1 V2]. subst. inversion H1' as [|? ? W1 W2]. subst.
          split; intro H; inversion H as [|? ? ? ? Q1 Q2]; subst; constructor; try (apply I1; auto); apply IHr; auto. }
      rewrite G. split; [constructor; auto | intro H; inversion H; auto].
    - split; [|intro H; inversion H]. destruct (object_arg_map q fields' U') as (m & E & _). rewrite E, arg_list. simpl. discriminate. }
  8: {
    destruct (object_arg_map p fields U) as (m & E & Hm & N).
    destruct l' as [| | | | | | |q items'|q fields']; try (split; [rewrite E; simpl; discriminate|intro H; inversion H]).
    - split; [|intro H; inversion H]. rewrite E, arg_list. simpl. discriminate.
    - destruct (object_arg_map q fields' U') as (m' & E' & Hm' & N').
      inversion U as [|? ? H1 H2|? H1 H2]; subst; [|exfalso; eapply H2; eauto].
      inversion U' as [|? ? H1' H2'|? H1' H2']; subst; [|exfalso; eapply H2'; eauto].
      rewrite E, E', aval_eqb_map. rewrite (fields_eqb fields fields' m m') by (auto; rewrite Forall_forall in *; auto).
      split.
      + intros (L & H). constructor; auto. intros fp k x Hx. destruct (H _ Hx) as (y & Hy & Hk & Hv). destruct y as (gp, (k', y)).
        unfold a_name in Hk. simpl in Hk. subst k'. exists gp, y. auto.
      + intro H. inversion H as [| | | | | | | |? ? ? ? L G]. subst. split; auto. intros (fp, (k, x)) Hx.
        destruct (G _ _ _ Hx) as (gp & y & Hy & Hv). exists (gp, (k, y)). auto. }
  all: destruct l' as [| | | | | | |q items'|q fields'];
    try (match goal with |- context [LList q items'] => split; [rewrite arg_list; simpl; discriminate|intro H; inversion H] end);
    try (match goal with |- context [LObject q fields'] => destruct (object_arg_map q fields' U') as (m & E & _); rewrite E; split; [simpl; discriminate|intro H; inversion H] end);
    try (split; [simpl; discriminate|intro H; inversion H]).
  - simpl. rewrite String.eqb_eq. split; [intros ->; constructor|intro H; inversion H; auto].
  - simpl. rewrite Z.eqb_eq. split; [intros ->; constructor|intro H; inversion H; auto].
  - simpl. split; [intro H; constructor; auto|intro H; inversion H; auto].
  - simpl. rewrite String.eqb_eq. split; [intros ->; constructor|intro H; inversion H; auto].
  - simpl. rewrite Bool.eqb_true_iff. split; [intros ->; constructor|intro H; inversion H; auto].
  - simpl. split; [constructor|auto].
  - simpl. rewrite String.eqb_eq. split; [intros ->; constructor|intro H; inversion H; auto].
Qed.

Section Fields.
  Variable S : schema.
  Hypothesis WF : schema_wf S.

  (** * Fragment targets *)
  Lemma matching_possible n l : matching_types S n = Some l -> forall o, In o l <-> possible S n o.
  Proof.
    unfold matching_types, possible, type_is. destruct (find_type S n) as [d|] eqn:E; [|discriminate].
    destruct (is_scalar_kind (td_kind d)) eqn:Es; [discriminate|]. intros H o. inversion H. subst l. clear H.
    destruct (kind_eqb (td_kind d) OBJECT) eqn:K.
    - apply kind_eqb_iff in K. simpl. split.
      + intros [<-|[]]. left. eauto.
      + intros [(_ & ->)|(d0 & d' & H1 & H2 & _)]; auto. inversion H1. subst. destruct H2; congruence.
    - rewrite filter_In. assert (K' : td_kind d <> OBJECT) by (intro X; apply kind_eqb_iff in X; congruence). split.
      + intros (H1 & H2). right. destruct (find_type S o) as [d'|] eqn:E'; [|discriminate]. exists d, d'. repeat split; auto.
        destruct (td_kind d); simpl in Es; auto; discriminate || congruence.
      + intros [((d0 & H1 & H2) & _)|(d0 & d' & H1 & H2 & H3 & H4)]; [congruence|]. inversion H1. subst. rewrite H4. auto.
  Qed.
  Lemma matching_none n : matching_types S n = None -> forall o, ~ possible S n o.
  Proof.
    unfold matching_types, possible, type_is. destruct (find_type S n) as [d|] eqn:E.
    - destruct (is_scalar_kind (td_kind d)) eqn:Es; [|discriminate]. intros _ o [((d0 & H1 & H2) & _)|(d0 & d' & H1 & H2 & _)]; inversion H1; subst.
      + rewrite H2 in Es. discriminate.
      + destruct H2 as [H2|H2]; rewrite H2 in Es; discriminate.
    - intros _ o [((d0 & H1 & H2) & _)|(d0 & d' & H1 & H2 & _)]; congruence.
  Qed.
  Lemma matches_overlap a b : matches_type S a b = true <-> overlap S a b.
  Proof.
    unfold matches_type, overlap. destruct (String.eqb b a) eqn:E.
    - apply String.eqb_eq in E. split; auto.
    - apply String.eqb_neq in E.
      destruct (matching_types S a) as [la|] eqn:Ea; [destruct (matching_types S b) as [lb|] eqn:Eb|].
      + rewrite existsb_exists. split.
        * intros (o & H1 & H2). apply mem_In in H2. right. exists o. split; [eapply matching_possible; eauto|eapply matching_possible; eauto].
        * intros [H|(o & H1 & H2)]; [congruence|]. exists o. rewrite mem_In. split; [eapply matching_possible; eauto|eapply matching_possible; eauto].
      + split; [discriminate|]. intros [H|(o & H1 & H2)]; [congruence|]. exfalso. eapply matching_none; eauto.
      + split; [discriminate|]. intros [H|(o & H1 & H2)]; [congruence|]. exfalso. eapply matching_none; eauto.
  Qed.

  Lemma scalar_composite n d : find_type S n = Some d -> (is_scalar_kind (td_kind d) = false <-> composite S n).
  Proof.
    intro H. unfold composite, type_is. split.
    - intro K. destruct (td_kind d) eqn:E; simpl in K; try discriminate; eauto.
    - intros [(d' & H1 & H2)|[(d' & H1 & H2)|(d' & H1 & H2)]]; rewrite H in H1; inversion H1; subst; rewrite H2; reflexivity.
  Qed.

  (** * The fields of a type *)
  Definition find_field (k : string) (l : list field_def) : option field_def := find (fun f => String.eqb k (fd_name f)) l.
  Lemma declared_fields d n : find_type S n = Some d ->
    fold_left (fun m f => match live S (fd_type f) with
                | Some ty => if String.eqb (fd_name f) "" then m else m_set (fd_name f) (mkVTF ty (get_arguments S (fd_args f))) m
                | None => m
                end) (td_fields d) [] =
    fold_left (fun m f => m_set (fd_name f) (mkVTF (fd_type f) (get_arguments S (fd_args f))) m) (td_fields d) [].
  Proof.
    intro H. destruct (wf_fields _ WF _ _ H) as (_ & W). generalize (@nil (string * vtype_field)) as m.
    induction (td_fields d) as [|f r IH]; intro m; simpl; auto.
    destruct (W f (or_introl eq_refl)) as (Nf & Pf & (d' & Hd' & _) & _).
    assert (L : live S (fd_type f) = Some (fd_type f)).
    { destruct (fd_type f); auto. simpl in *. rewrite Hd'. reflexivity. }
    rewrite L. destruct (String.eqb (fd_name f) "") eqn:E; [apply String.eqb_eq in E; exfalso; apply Nf; simpl; auto|].
    apply IH. intros g Hg. apply W. right. auto.
  Qed.

  Lemma scoped_fields_assoc T k : composite S T ->
    match assoc k (scoped_fields S (TNamed T)) with
    | Some tf => exists args, field_of S T k (tf_type tf) args /\ tf_args tf = get_arguments S args
    | None => forall ty args, ~ field_of S T k ty args
    end.
  Proof.
    intro HC. assert (Hd : exists d, find_type S T = Some d /\ is_scalar_kind (td_kind d) = false).
    { pose proof HC as HC'. destruct HC' as [(d & H & K)|[(d & H & K)|(d & H & K)]]; exists d; rewrite K; auto. }
    destruct Hd as (d & Hd & Kd). destruct (wf_fields _ WF _ _ Hd) as (N & W).
    assert (R : forall f, In f (td_fields d) -> fd_name f <> "__typename" /\ fd_name f <> "__schema" /\ fd_name f <> "__type").
    { intros f Hf. destruct (W f Hf) as (Nf & _). simpl in Nf. intuition congruence. }
    unfold scoped_fields. cbn [type_name]. rewrite Hd. rewrite (declared_fields d T Hd). rewrite assoc_m_set.
    destruct (String.eqb k "__typename") eqn:E1.
    { apply String.eqb_eq in E1. subst k. exists []. split; [apply field_typename; auto|reflexivity]. }
    apply String.eqb_neq in E1.
    assert (M0 : match assoc k (fold_left (fun m f => m_set (fd_name f) (mkVTF (fd_type f) (get_arguments S (fd_args f))) m) (td_fields d) []) with
                 | Some tf => exists args, field_of S T k (tf_type tf) args /\ tf_args tf = get_arguments S args /\ k <> "__schema" /\ k <> "__type"
                 | None => forall f, In f (td_fields d) -> fd_name f <> k
                 end).
    { rewrite assoc_fold by auto. destruct (find (fun b => String.eqb k (fd_name b)) (td_fields d)) as [f|] eqn:F.
      - apply (find_key fd_name) in F; auto. destruct F as (Hf & Hk). exists (fd_args f). simpl. split.
        + rewrite <- Hk. eapply field_declared; eauto. destruct (td_kind d) eqn:K; simpl in Kd; auto; try discriminate.
          rewrite (wf_union _ WF _ _ Hd K) in Hf. contradiction.
        + split; auto. rewrite <- Hk. apply R; auto.
      - apply (find_none_key fd_name) in F. simpl. intros f Hf Hk. apply F. rewrite <- Hk. apply in_map. auto. }
    set (m0 := fold_left (fun m f => m_set (fd_name f) (mkVTF (fd_type f) (get_arguments S (fd_args f))) m) (td_fields d) []) in *.
    assert (D : forall ty args, k <> "__schema" -> k <> "__type" ->
               (forall f, In f (td_fields d) -> fd_name f <> k) -> ~ field_of S T k ty args).
    { intros ty args N1 N2 Nf H. inversion H; subst; try congruence. eapply Nf; eauto. rewrite Hd in *. match goal with E : Some d = Some _ |- _ => inversion E; subst end. auto. }
    destruct (s_introspection S && tref_eqb (TNamed T) (TNamed (s_query S)))%bool eqn:Ei.
    - apply andb_prop in Ei. destruct Ei as (Ei & Eq). apply tref_eqb_iff in Eq. injection Eq as Eq'. rewrite !assoc_m_set.
      destruct (String.eqb k "__type") eqn:E2.
      { apply String.eqb_eq in E2. subst k. eexists. split; [rewrite Eq'; apply field_type; auto|reflexivity]. }
      destruct (String.eqb k "__schema") eqn:E3.
      { apply String.eqb_eq in E3. subst k. exists []. split; [apply field_schema; auto|reflexivity]. }
      apply String.eqb_neq in E2, E3.
      destruct (assoc k m0) as [tf|]; [destruct M0 as (args & H1 & H2 & _); exists args; auto|]. intros ty args. apply D; auto.
    - destruct (assoc k m0) as [tf|]; [destruct M0 as (args & H1 & H2 & _); exists args; auto|]. intros ty args H.
      inversion H; subst; try congruence.
      + eapply M0; [|reflexivity]. rewrite Hd in *. match goal with E : Some d = Some _ |- _ => inversion E; subst end. auto.
      + assert (tref_eqb (TNamed (s_query S)) (TNamed (s_query S)) = true) by (apply tref_eqb_iff; auto).
        match goal with HI : s_introspection S = true, HT : tref_eqb _ _ = true |- _ => rewrite HI, HT in Ei end. discriminate.
      + assert (tref_eqb (TNamed (s_query S)) (TNamed (s_query S)) = true) by (apply tref_eqb_iff; auto).
        match goal with HI : s_introspection S = true, HT : tref_eqb _ _ = true |- _ => rewrite HI, HT in Ei end. discriminate.
  Qed.

  Lemma field_of_fun T k ty args ty' args' : field_of S T k ty args -> field_of S T k ty' args' -> ty = ty' /\ args = args'.
  Proof.
    intros H H'. assert (R : forall d f, find_type S T = Some d -> In f (td_fields d) -> fd_name f <> "__typename" /\ fd_name f <> "__schema" /\ fd_name f <> "__type").
    { intros d f Hd Hf. destruct (wf_fields _ WF _ _ Hd) as (_ & W). destruct (W f Hf) as (Nf & _). simpl in Nf. intuition congruence. }
    inversion H as [d f Hd Kd Hf|HC|HI HT|HI HT]; subst; inversion H' as [d' f' Hd' Kd' Hf' Hn|HC'|HI' HT'|HI' HT']; subst; auto;
      try (exfalso; match goal with X : find_type S _ = Some ?dd, Y : In ?ff (td_fields ?dd) |- _ => pose proof (R _ _ X Y) end; intuition congruence).
    rewrite Hd in Hd'. inversion Hd'. subst d'. destruct (wf_fields _ WF _ _ Hd) as (N & _).
    assert (F1 : find_field (fd_name f) (td_fields d) = Some f) by (apply (find_key fd_name); auto).
    assert (F2 : find_field (fd_name f) (td_fields d) = Some f') by (apply (find_key fd_name); auto).
    assert (f = f') by congruence. subst. auto.
  Qed.
  Lemma field_of_wf T k ty args : field_of S T k ty args ->
    composite S T /\ inputs_wf S args /\ proper ty /\ exists d, find_type S (named_type ty) = Some d /\ td_kind d <> INPUT_OBJECT.
  Proof.
    destruct (wf_string _ WF) as (sd & Hs & Ks). intro H. inversion H as [d f Hd Kd Hf|HC|HI HT|HI HT]; subst.
    - destruct (wf_fields _ WF _ _ Hd) as (_ & W). destruct (W f Hf) as (_ & H1 & H2 & H3). split; [|auto].
      unfold composite, type_is. destruct Kd; eauto.
    - split; auto. split; [split; [constructor|intros a []]|]. split; [simpl; split; [auto|discriminate]|]. exists sd. simpl. split; auto. congruence.
    - destruct (wf_introspection _ WF HI) as ((d & H1 & H2) & _). split; [left; apply (wf_query _ WF)|].
      split; [split; [constructor|intros a []]|]. split; [simpl; split; [auto|discriminate]|]. exists d. simpl. split; auto. congruence.
    - destruct (wf_introspection _ WF HI) as (_ & (d & H1 & H2)). split; [left; apply (wf_query _ WF)|]. split.
      + split; [constructor; [intros []|constructor]|]. intros a [<-|[]]. simpl. split; [split; [auto|discriminate]|]. left. exists sd. auto.
      + split; [exact I|]. exists d. simpl. split; auto. congruence.
  Qed.
  Lemma inner_named ty d : find_type S (named_type ty) = Some d -> inner_type S ty = Some (TNamed (named_type ty)).
  Proof. induction ty as [n|t IH|t IH]; simpl; intro H; auto. rewrite H. reflexivity. Qed.

  (** * Merging *)
  (** the record that the visitor keeps for a field *)
  Definition vfield_of (o : occurrence) (vf : vfield) : Prop :=
    exists ty args m, field_of S (oc_parent o) (oc_name o) ty args /\ arg_map (oc_args o) m /\
      vf = mkVField (Some ty) (if kind_eqb (kind_of S (TNamed (oc_parent o))) OBJECT then Some (TNamed (oc_parent o)) else None) (oc_name o) m.
  Lemma object_kind n d : find_type S n = Some d -> (kind_eqb (kind_of S (TNamed n)) OBJECT = true <-> type_is S n OBJECT).
  Proof.
    intro H. simpl. rewrite H, kind_eqb_iff. unfold type_is. split; [eauto|]. intros (d' & H1 & H2). congruence.
  Qed.
  Lemma merge_iff o o' vf vf' : vfield_of o vf -> vfield_of o' vf' -> arguments_unique (oc_args o) -> arguments_unique (oc_args o') ->
    (vfield_eqb vf vf' = true <-> mergeable S o o').
  Proof.
    intros (ty & args & m & Hf & Hm & ->) (ty' & args' & m' & Hf' & Hm' & ->) (N & U) (N' & U'). unfold vfield_eqb. cbn [vf_type vf_object vf_name vf_args].
    rewrite Forall_forall in U, U'.
    pose proof (fields_eqb (oc_args o) (oc_args o') m m' N N' Hm Hm' (fun x _ => same_value_ok (a_value x)) U U') as Ea.
    assert (Cd : exists d, find_type S (oc_parent o) = Some d).
    { destruct (field_of_wf _ _ _ _ Hf) as ([(d & H & _)|[(d & H & _)|(d & H & _)]] & _); eauto. }
    assert (Cd' : exists d, find_type S (oc_parent o') = Some d).
    { destruct (field_of_wf _ _ _ _ Hf') as ([(d & H & _)|[(d & H & _)|(d & H & _)]] & _); eauto. }
    destruct Cd as (d & Cd). destruct Cd' as (d' & Cd').
    pose proof (object_kind _ _ Cd) as K. pose proof (object_kind _ _ Cd') as K'.
    assert (MG : mergeable S o o' <-> ty = ty' /\ ((type_is S (oc_parent o) OBJECT /\ type_is S (oc_parent o') OBJECT /\ oc_parent o <> oc_parent o')
       \/ (oc_name o = oc_name o' /\ same_args (oc_args o) (oc_args o')))).
    { split.
      - intros (t1 & a1 & t2 & a2 & H1 & H2 & H3 & H4). destruct (field_of_fun _ _ _ _ _ _ Hf H1) as (-> & _).
        destruct (field_of_fun _ _ _ _ _ _ Hf' H2) as (-> & _). auto.
      - intros (H1 & H2). exists ty, args, ty', args'. auto. }
    rewrite MG. rewrite Bool.andb_true_iff, Bool.orb_true_iff, Bool.andb_true_iff, Ea, String.eqb_eq.
    unfold opt_tref_eqb. rewrite tref_eqb_iff.
    destruct (kind_eqb (kind_of S (TNamed (oc_parent o))) OBJECT).
    - destruct (kind_eqb (kind_of S (TNamed (oc_parent o'))) OBJECT).
      + rewrite Bool.negb_true_iff. assert (X : tref_eqb (TNamed (oc_parent o)) (TNamed (oc_parent o')) = false <-> oc_parent o <> oc_parent o').
        { simpl. apply String.eqb_neq. }
        rewrite X. assert (type_is S (oc_parent o) OBJECT) by tauto. assert (type_is S (oc_parent o') OBJECT) by tauto. tauto.
      + assert (~ type_is S (oc_parent o') OBJECT) by (rewrite <- K'; discriminate). split; [intros (H1 & [H2|H2]); [discriminate|auto]|]. intros (H1 & [H2|H2]); tauto.
    - assert (~ type_is S (oc_parent o) OBJECT) by (rewrite <- K; discriminate). split; [intros (H1 & [H2|H2]); [discriminate|auto]|]. intros (H1 & [H2|H2]); tauto.
  Qed.
End Fields.
