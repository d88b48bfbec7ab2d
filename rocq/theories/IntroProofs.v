(** Introspection objects answer what the schema says. *)
From Verif Require Import Cpp Value Ast ErrorModel SortedMapModel SchemaModel RegistryModel RegistrySpec RegistryProofs RegistryProps ModifiersModel
  ExecModel ExecSem ExecSpec ExecBigSpec ExecProofs4 ExecDirect IntroModel IntroSpec.
From Coq Require Import Lia.
Local Open Scope string_scope.
Local Open Scope list_scope.

(** ** Two services that answer the same are executed the same *)
Section Sim.
  Variables O1 O2 : Type.
  Variable R : O1 -> O2 -> Prop.

  Inductive fsim : fres O1 -> fres O2 -> Prop :=
  | fs_leaf b1 b2 f1 f2 v : (b2 = true -> b1 = true) -> fsim (FLeaf b1 f1 (Ok v)) (FLeaf b2 f2 (Ok v))
  | fs_derived o1 o2 : R o1 o2 -> fsim (FDerived (Ok (Some o1))) (FDerived (Ok (Some o2)))
  | fs_object f o1 o2 : R o1 o2 -> fsim (FDerived (Ok (Some o1))) (FObject f (Ok (Some o2)))
  | fs_null : fsim (FNullable (Ok None)) (FNullable (Ok None))
  | fs_nullable f1 f2 : fsim f1 f2 -> fsim f1 (FNullable (Ok (Some f2)))
  | fs_list l1 l2 : Forall2 fsim l1 l2 -> fsim (FList (Ok l1)) (FList (Ok l2)).

  Lemma fsim_ind' (P : fres O1 -> fres O2 -> Prop) :
    (forall b1 b2 f1 f2 v, (b2 = true -> b1 = true) -> P (FLeaf b1 f1 (Ok v)) (FLeaf b2 f2 (Ok v))) ->
    (forall o1 o2, R o1 o2 -> P (FDerived (Ok (Some o1))) (FDerived (Ok (Some o2)))) ->
    (forall f o1 o2, R o1 o2 -> P (FDerived (Ok (Some o1))) (FObject f (Ok (Some o2)))) ->
    P (FNullable (Ok None)) (FNullable (Ok None)) ->
    (forall f1 f2, fsim f1 f2 -> P f1 f2 -> P f1 (FNullable (Ok (Some f2)))) ->
    (forall l1 l2, Forall2 fsim l1 l2 -> Forall2 P l1 l2 -> P (FList (Ok l1)) (FList (Ok l2))) ->
    forall f1 f2, fsim f1 f2 -> P f1 f2.
  Proof.
    intros H1 H2 H3 H4 H5 H6. fix IH 3. intros f1 f2 F. destruct F; auto.
    apply H6; auto. induction H as [|x y l1 l2 Hxy H IHl]; constructor; auto.
  Qed.

  Lemma fsim_shape : forall f1 f2, fsim f1 f2 -> forall b, shape_ok b f1 -> shape_ok b f2.
  Proof.
    intros f1 f2 F. induction F as [b1 b2 g1 g2 v Hb|o1 o2 H|f o1 o2 H| |f1 f2 H IH|l1 l2 H IH] using fsim_ind'; intros b S; simpl in *; auto.
    - destruct b2; auto. intros Hb1. specialize (S Hb1). rewrite (Hb eq_refl) in S. discriminate.
    - clear H. induction IH as [|x y l1 l2 Hxy IH IHl]; simpl in *; auto. destruct S as [S1 S2]. split; [auto|]. apply IHl. exact S2.
  Qed.

  Lemma fsim_completed (obj1 : O1 -> list path_segment -> value -> list schema_error -> Prop)
      (obj2 : O2 -> list path_segment -> value -> list schema_error -> Prop) key loc :
    (forall o1 o2 p v errs, R o1 o2 -> obj1 o1 p v errs -> obj2 o2 p v errs) ->
    forall f1 f2, fsim f1 f2 -> forall p v errs, completed obj1 key loc f1 p v errs -> completed obj2 key loc f2 p v errs.
  Proof.
    intros Ho f1 f2 F. induction F as [b1 b2 g1 g2 v0 Hb|o1 o2 H|f o1 o2 H| |f1 f2 H IH|l1 l2 H IH] using fsim_ind'; intros p v errs C.
    - inversion C; subst. constructor.
    - inversion C; subst. apply cp_derived. eauto.
    - inversion C; subst. apply cp_object. eauto.
    - inversion C; subst. constructor.
    - apply cp_nullable. auto.
    - inversion C as [| | | | | | | | |? ? ves CI]; subst. apply cp_list. clear C H.
      revert CI. generalize 0%N as i. revert ves. induction IH as [|x y l1 l2 Hxy IH IHl]; intros ves i CI.
      + inversion CI; subst. constructor.
      + inversion CI as [|? ? ? ? v errs ves' C1 C2]; subst. constructor; auto.
  Qed.

  Definition asim (a1 : answer O1) (a2 : answer O2) : Prop :=
    match a1, a2 with AResult f1, AResult f2 => fsim f1 f2 | AThrow e, AThrow e' => e = e' | _, _ => False end.

  Variables (types1 : O1 -> list string) (has1 : O1 -> string -> bool) (ans1 : O1 -> string -> fparams -> answer O1).
  Variables (types2 : O2 -> list string) (has2 : O2 -> string -> bool) (ans2 : O2 -> string -> fparams -> answer O2).
  Hypothesis Ht : forall o1 o2, R o1 o2 -> types1 o1 = types2 o2.
  Hypothesis Hh : forall o1 o2 f, R o1 o2 -> has1 o1 f = has2 o2 f.
  Hypothesis Ha : forall o1 o2 f p, R o1 o2 -> has1 o1 f = true -> asim (ans1 o1 f p) (ans2 o2 f p).

  Lemma collects_known : forall vars frags types k1 k2 fd sels items, (forall f, k1 f = k2 f) ->
    collects vars frags types k1 fd sels items -> collects vars frags types k2 fd sels items.
  Proof.
    intros vars frags types k1 k2 fd sels items E C. induction C.
    - constructor.
    - econstructor; eauto.
    - eapply co_field_dropped; eauto; now rewrite <- E.
    - eapply co_spread; eauto.
    - eapply co_spread_dropped; eauto.
    - eapply co_inline; eauto.
    - eapply co_inline_dropped; eauto.
  Qed.

  Lemma executes_sim : forall vars e n sels o1 o2 p v errs, R o1 o2 ->
    executes types1 has1 ans1 vars e n sels o1 p v errs -> executes types2 has2 ans2 vars e n sels o2 p v errs.
  Proof.
    intros vars e n. induction n as [|n IH]; intros sels o1 o2 p v errs HR H; [destruct H|].
    destruct H as (items & outs & C & F & -> & ->). exists items, outs. split; [|split; [|auto]].
    - rewrite <- (Ht _ _ HR). eapply collects_known; [|exact C]. intros f. apply Hh; auto.
    - clear C. induction F as [|kc ve l outs Hf F IHF]; constructor; auto.
      inversion Hf as [Hu|ex Hu Hx|f v' errs' Hu Hx Hsh Hcm]; subst.
      + apply fv_unknown. now rewrite <- (Hh _ _ _ HR).
      + pose proof (Ha _ _ (ch_name (snd kc)) (called_with e p (fst kc) (snd kc)) HR Hu) as A. rewrite Hx in A.
        destruct (ans2 o2 (ch_name (snd kc)) (called_with e p (fst kc) (snd kc))) as [e'|] eqn:E; [|destruct A]. simpl in A. subst e'.
        eapply fv_throws; eauto. now rewrite <- (Hh _ _ _ HR).
      + pose proof (Ha _ _ (ch_name (snd kc)) (called_with e p (fst kc) (snd kc)) HR Hu) as A. rewrite Hx in A.
        destruct (ans2 o2 (ch_name (snd kc)) (called_with e p (fst kc) (snd kc))) as [|f2] eqn:E; [destruct A|]. simpl in A.
        eapply fv_result; [now rewrite <- (Hh _ _ _ HR) | exact E | eapply fsim_shape; eauto |].
        eapply fsim_completed; [|exact A|exact Hcm]. intros; eauto.
  Qed.
End Sim.

(** ** Wrapper types have neither name nor description *)
Lemma wrapper_unnamed : forall b h r, after b h r -> forall t o, object_at r t = Some o -> is_wrapper (to_kind o) -> to_name o = "" /\ to_desc o = "".
Proof.
  induction 1 as [|h r c H IH Ha]; intros t o Ho Hk; [destruct t; discriminate|].
  destruct (object_at r t) as [o0|] eqn:E.
  - destruct (object_back r c t o0 E o Ho) as (K & N & D & _). rewrite <- N, <- D. apply (IH t o0 E). now rewrite K.
  - unfold object_at in Ho, E. destruct (heap_length r c) as [L|[x L]].
    + exfalso. apply nth_error_None in E. assert (t < length (heap (exec r c))) by (apply nth_error_Some; congruence). lia.
    + rewrite L in Ho. destruct (object_app r x t o Ho) as [Ho'|[-> ->]]; [unfold object_at in Ho'; congruence|].
      destruct c as [k n d|n y|y|y|y|d|a is|y fs|y ps|y vs|y vs|k p]; simpl in L;
        try (exfalso; apply (f_equal (@length _)) in L; rewrite ?fold_interfaces_length in L; simpl in L; rewrite ?update_length, app_length in L; simpl in L; lia).
      * apply app_inv_head in L. injection L as <-. simpl in Ha, Hk. contradiction.
      * unfold wrap_type in L. destruct (smap_find _ _ _); simpl in L.
        { exfalso. apply (f_equal (@length _)) in L. rewrite app_length in L. simpl in L. lia. }
        apply app_inv_head in L. injection L as <-. auto.
Qed.

(** ** The answers *)
Section Answers.
  Variables (b : bool) (h : list call) (r : registry) (S : schema).
  Hypothesis Haf : after b h r.
  Hypothesis Hrep : represents r S.

  Lemma lookup_in : forall n t, lookup_type r n = Ok t <-> In (n, t) (types r).
  Proof.
    intros n t. rewrite (C30_lookup b h r n t Haf), <- (C30_types b h r Haf). split.
    - intros (l1 & l2 & -> & _). apply in_or_app. simpl. auto.
    - intros I. apply in_split in I as (l1 & l2 & E). exists l1, l2. split; auto. pose proof (rp_distinct _ _ Hrep) as ND. rewrite E, map_app in ND.
      simpl in ND. apply NoDup_remove_2 in ND. intros I. apply ND. apply in_or_app. auto.
  Qed.

  Lemma named_type : forall n t, lookup_type r n = Ok t ->
    exists o d, object_at r t = Some o /\ find_type S n = Some d /\ type_rep r n o d /\ ~ is_wrapper (to_kind o).
  Proof.
    intros n t L. apply lookup_in in L. destruct (RegistryProofs.i_types r (inv_after _ _ _ Haf) n t L) as (o & Ho & Hk).
    assert (G : exists d, find_type S n = Some d /\ type_rep r n o d); [|destruct G as (d & G1 & G2); eauto 8].
    unfold find_type. pose proof (rp_types _ _ Hrep) as F. pose proof (rp_distinct _ _ Hrep) as ND. revert L ND. clear Hrep.
    induction F as [|[n1 t1] [n2 d] l1 l2 [E (o' & H1 & H2)] F IH]; simpl in *; [tauto|]. subst n2. intros [I|I] ND.
    - injection I as -> ->. rewrite String.eqb_refl. exists d. split; auto. congruence.
    - inversion ND as [|? ? N ND']; subst. destruct (String.eqb_spec n n1) as [->|_]; auto.
      exfalso. apply N. apply in_map_iff. exists (n1, t). auto.
  Qed.

  Lemma refers_known : forall t a, refers r t a -> exists o, object_at r a = Some o.
  Proof. intros t a H. inversion H; subst; eauto. destruct (named_type n a H0) as (o & d & Ho & _). eauto. Qed.

  Variables (O : Type) (inj : iobj -> O).
  Definition R (s : sobj) (o : O) : Prop := exists i, irep r s i /\ o = inj i.

  Lemma wants_include : forall p, include_deprecated p = Ok (match lookup "includeDeprecated" (p_args p) with
      | Some VNull | None => None | Some (VBool x) => Some x | Some _ => Some false end).
  Proof.
    intros p. unfold include_deprecated, read_declared, require, require_mods, require_base, find_of. cbn [convert_input convert_leaf].
    unfold index_name. destruct (lookup "includeDeprecated" (p_args p)) as [v|] eqn:E; simpl; try rewrite E; auto.
    destruct v; simpl; try rewrite E; simpl; auto.
  Qed.

  Lemma in_has : forall i f, i_has i f = true -> In f (i_fields i).
  Proof. intros i f H. unfold i_has in H. apply existsb_exists in H as (x & I & E). apply String.eqb_eq in E. now subst. Qed.

  Lemma same_fields : forall s i f, irep r s i -> d_has S s f = i_has i f.
  Proof.
    assert (G : forall (l : list (string * shown)) (l' : list string) f, (forall x, existsb (String.eqb x) (map fst l) = existsb (String.eqb x) l') ->
              is_some (assoc f l) = existsb (String.eqb f) l').
    { intros l l' f <-. induction l as [|[k v] l IH]; simpl; auto. destruct (String.eqb f k); simpl; auto. }
    intros s i f H. unfold d_has, i_has. destruct s, i; simpl in H; try contradiction; unfold shows; apply G; intros x; simpl;
      repeat match goal with |- context [String.eqb x ?y] => destruct (String.eqb x y); simpl; auto end.
  Qed.

  Lemma sim_nullable_string : forall s, fsim sobj O R (match text_or_null s with Leaf v => FLeaf true false (Ok v) | _ => FNullable (Ok None) end)
    (fmap inj (nullable_string s)).
  Proof.
    intros s. unfold text_or_null, nullable_string. destruct (String.eqb s ""); simpl; [constructor|].
    apply fs_nullable. constructor. auto.
  Qed.

  Lemma sim_nullable_text : forall s, asim sobj O R (answer_of (text_or_null s)) (amap inj (AResult (nullable_string s))).
  Proof.
    intros s. unfold text_or_null, nullable_string, answer_of. destruct (String.eqb s ""); simpl; [constructor|].
    apply fs_nullable. constructor. auto.
  Qed.
  Lemma sim_reason : forall o, asim sobj O R (answer_of (reason o)) (amap inj (AResult (optional_string o))).
  Proof. intros [s|]; simpl; [apply fs_nullable|]; constructor; auto. Qed.
  Lemma sim_objects : forall ss is, Forall2 (irep r) ss is -> asim sobj O R (answer_of (Many ss)) (amap inj (AResult (objects_of is))).
  Proof.
    intros ss is F. simpl. constructor. induction F; simpl; constructor; auto. constructor. exists y. auto.
  Qed.
  Lemma sim_nullable_objects : forall ss is, Forall2 (irep r) ss is -> asim sobj O R (answer_of (Many ss)) (amap inj (AResult (nullable_objects (Some is)))).
  Proof. intros ss is F. simpl. apply fs_nullable. apply (sim_objects _ _ F). Qed.
  Lemma sim_null : asim sobj O R (answer_of Null) (amap inj (AResult (FNullable (Ok None)))).
  Proof. simpl. constructor. Qed.
  Lemma sim_text : forall s, asim sobj O R (answer_of (text s)) (amap inj (AResult (string_leaf s))).
  Proof. simpl. constructor. auto. Qed.
  Lemma sim_one : forall s i, irep r s i -> asim sobj O R (answer_of (One s)) (amap inj (AResult (object_of (Some i)))).
  Proof. intros s i H. simpl. constructor. exists i. auto. Qed.
  Lemma sim_nullable_one : forall s i, irep r s i -> asim sobj O R (answer_of (One s)) (amap inj (AResult (nullable_object (Some i)))).
  Proof. intros s i H. simpl. apply fs_nullable. constructor. exists i. auto. Qed.

  Lemma inputs_rep : forall ds xs, Forall2 (input_rep r) xs ds -> Forall2 (irep r) (map DInput ds) (map IInput xs).
  Proof. intros ds xs F. induction F; simpl; constructor; auto. Qed.
  Lemma named_rep : forall ns as_, Forall2 (fun a m => refers r (TNamed m) a) as_ ns -> Forall2 (irep r) (map named ns) (map IType as_).
  Proof. intros ns as_ F. induction F; simpl; constructor; auto. Qed.

  Lemma visible_rep : forall {A B} (P : A -> B -> Prop) (da : A -> option string) (db : B -> option string) args l l' inc,
    (forall x y, P x y -> da x = db y) -> wants_deprecated args = inc -> Forall2 P l l' ->
    Forall2 P (filter (fun f => inc || negb (match da f with Some _ => true | None => false end)) l) (visible db args l').
  Proof.
    intros A B P da db args l l' inc E W F. unfold visible. rewrite W. destruct inc; simpl.
    - replace (filter (fun _ => true) l) with l; auto. clear. induction l; simpl; congruence.
    - induction F as [|x y l l' H F IH]; simpl; [constructor|]. rewrite (E _ _ H). unfold is_some. destruct (db y); simpl; auto.
  Qed.

  Lemma map_rep : forall {A B} (P : A -> B -> Prop) (fa : A -> iobj) (fb : B -> sobj) l l', (forall x y, P x y -> irep r (fb y) (fa x)) ->
    Forall2 P l l' -> Forall2 (irep r) (map fb l') (map fa l).
  Proof. intros A B P fa fb l l' H F. induction F; simpl; constructor; auto. Qed.
  Lemma wants_inc : forall args, wants_deprecated args = match match lookup "includeDeprecated" args with
      | Some VNull | None => None | Some (VBool x) => Some x | Some _ => Some false end with Some x => x | None => false end.
  Proof. intros args. unfold wants_deprecated. destruct (lookup "includeDeprecated" args) as [[]|]; reflexivity. Qed.

  Ltac cases H := simpl in H; repeat (destruct H as [H|H]; [subst|]); try contradiction.

  Lemma answers_sim : forall s o f p, R s o -> d_has S s f = true ->
    forall ans : O -> string -> fparams -> answer O, (forall i f p, ans (inj i) f p = amap inj (i_ans r i f p)) ->
    asim sobj O R (d_ans S s f p) (ans o f p).
  Proof.
    intros s o f p (i & H & ->) Hf ans Hans. rewrite Hans. rewrite (same_fields s i f H) in Hf. apply in_has in Hf. unfold d_ans.
    destruct s as [|t|d|d|d|d], i as [|a|x|x|x|x]; simpl in H; try contradiction; unfold i_ans.
    - cases Hf; unfold shows; cbn [assoc String.eqb Ascii.eqb Bool.eqb schema_answer]; unfold schema_answer; cbn [String.eqb Ascii.eqb Bool.eqb].
      + apply sim_objects. pose proof (rp_types _ _ Hrep) as F. 
        assert (G : forall l l', Forall2 (fun e d => fst e = fst d /\ exists o, object_at r (snd e) = Some o /\ type_rep r (fst e) o (snd d)) l l' ->
                  (forall e, In e l -> In e (types r)) -> Forall2 (irep r) (map (fun e : string * type_def => named (fst e)) l') (map (fun e => IType (snd e)) l)).
        { intros l l' F'. induction F' as [|[n t] [n' d] l l' [E _] F' IH]; intros Hin; simpl; constructor.
          - simpl in E. subst n'. simpl. constructor. apply lookup_in. apply Hin. now left.
          - apply IH. intros e I. apply Hin. now right. }
        apply (G _ _ F). auto.
      + pose proof (rp_query _ _ Hrep) as Q. destruct (query r) as [t|]; simpl in Q; [|contradiction]. apply sim_one. exact Q.
      + apply sim_text.
      + apply sim_objects. pose proof (rp_directives _ _ Hrep) as F. induction F; simpl; constructor; auto.
      + pose proof (rp_mutation _ _ Hrep) as Q. destruct (mutation r) as [t|], (s_mutation S) as [n|]; simpl in Q; try contradiction;
          [apply (sim_nullable_one (named n) (IType t) Q)|apply sim_null].
      + pose proof (rp_subscription _ _ Hrep) as Q. destruct (subscription r) as [t|], (s_subscription S) as [n|]; simpl in Q; try contradiction;
          [apply (sim_nullable_one (named n) (IType t) Q)|apply sim_null].
    - assert (T : exists o, object_at r a = Some o /\ to_kind o = kind_of S t /\ to_name o = type_name t /\ to_desc o = td_desc (def_of S t) /\
                (~ is_wrapper (to_kind o) -> exists n, t = TNamed n /\ type_rep r n o (def_of S t)) /\
                (is_wrapper (to_kind o) -> exists e a', (t = TListOf e \/ t = TNonNull e) /\ to_of o = Some a' /\ refers r e a')).
      { inversion H as [n t' L|e p' w o E Ho Hk Hof|e p' w o E Ho Hk Hof]; subst.
        - destruct (named_type n a L) as (o & d & Ho & Fd & Rep & Nw). exists o. simpl. rewrite Fd.
          destruct Rep as (R1 & R2 & R3 & R4 & R5 & R6 & R7 & R8). repeat split; auto.
          + intros _. exists n. split; auto. repeat split; auto.
          + intros W. contradiction.
        - destruct (wrapper_unnamed b h r Haf a o Ho) as [N D]; [left; auto|]. exists o. simpl. repeat split; auto.
          + intros W. exfalso. apply W. now left.
          + intros _. exists e, p'. auto.
        - destruct (wrapper_unnamed b h r Haf a o Ho) as [N D]; [right; auto|]. exists o. simpl. repeat split; auto.
          + intros W. exfalso. apply W. now right.
          + intros _. exists e, p'. auto. }
      destruct T as (o & Ho & Hk & Hn & Hd & Hp & Hw). unfold type_answer. rewrite Ho.
      assert (Nw : forall k, to_kind o = k -> k <> LIST -> k <> NON_NULL -> exists n, t = TNamed n /\ type_rep r n o (def_of S t)).
      { intros k E N1 N2. apply Hp. rewrite E. intros [->| ->]; congruence. }
      cases Hf; unfold shows; cbn [assoc String.eqb Ascii.eqb Bool.eqb].
      + rewrite <- Hk. destruct (to_kind o); simpl; constructor; discriminate.
      + rewrite <- Hn. apply sim_nullable_text.
      + rewrite wants_include. cbn [bind answered]. unfold of_kind, get_fields. rewrite <- Hk.
        destruct (to_kind o) eqn:K; cbn [existsb kind_eqb orb]; try apply sim_null; (apply sim_nullable_objects;
          match type of K with _ = ?k => destruct (Nw k eq_refl) as (n & _ & Rep); try discriminate end;
          destruct Rep as (_ & _ & _ & Rf & _); apply (map_rep (field_rep r)); [|apply visible_rep; [intros x y Hx; apply Hx|apply wants_inc|exact Rf]]; auto).
      + unfold get_of_type. destruct (to_kind o) eqn:K;
          try (match type of K with _ = ?k => destruct (Nw k eq_refl) as (n & -> & Rep); try discriminate end; apply sim_null);
          (destruct (Hw ltac:(unfold is_wrapper; auto)) as (e & a' & Et & Eo & Er); rewrite Eo; unfold type_ptr;
           destruct (refers_known _ _ Er) as [o' Ho']; rewrite Ho'; destruct Et as [-> | ->]; apply (sim_nullable_one (DType e) (IType a') Er)).
      + apply sim_text.
      + rewrite wants_include. cbn [bind answered]. unfold of_kind, get_enum_values. rewrite <- Hk.
        destruct (to_kind o) eqn:K; cbn [existsb kind_eqb orb]; try apply sim_null. apply sim_nullable_objects.
        destruct (Nw ENUM eq_refl) as (n & _ & Rep); try discriminate. destruct Rep as (_ & _ & _ & _ & _ & _ & Re & _). rewrite Re.
        apply (map_rep eq); [intros x y ->; reflexivity|]. apply visible_rep; [intros x y ->; reflexivity|apply wants_inc|].
        clear. induction (td_enums (def_of S t)); constructor; auto.
      + unfold of_kind, get_interfaces. rewrite <- Hk. destruct (to_kind o) eqn:K; cbn [existsb kind_eqb orb]; try apply sim_null.
        apply sim_nullable_objects. destruct (Nw OBJECT eq_refl) as (n & _ & Rep); try discriminate. apply named_rep. apply Rep.
      + rewrite <- Hd. apply sim_nullable_text.
      + unfold of_kind, get_input_fields. rewrite <- Hk. destruct (to_kind o) eqn:K; cbn [existsb kind_eqb orb]; try apply sim_null.
        apply sim_nullable_objects. destruct (Nw INPUT_OBJECT eq_refl) as (n & _ & Rep); try discriminate. apply inputs_rep. apply Rep.
      + unfold of_kind, get_possible_types. rewrite <- Hk. destruct (to_kind o) eqn:K; cbn [existsb kind_eqb orb]; try apply sim_null;
        (apply sim_nullable_objects; match type of K with _ = ?k => destruct (Nw k eq_refl) as (n & _ & Rep); try discriminate end; apply named_rep; apply Rep).
    - destruct H as (N & D & Dp & T & A). cases Hf; unfold shows; cbn [assoc String.eqb Ascii.eqb Bool.eqb]; unfold field_answer; cbn [String.eqb Ascii.eqb Bool.eqb].
      + apply sim_objects, inputs_rep, A.
      + rewrite N. apply sim_text.
      + unfold type_ptr. destruct (refers_known _ _ T) as [o Ho]. rewrite Ho. apply sim_one. exact T.
      + apply sim_text.
      + rewrite D. apply sim_nullable_text.
      + rewrite Dp. simpl. constructor. auto.
      + rewrite Dp. apply sim_reason.
    - destruct H as (N & D & Df & T). cases Hf; unfold shows; cbn [assoc String.eqb Ascii.eqb Bool.eqb]; unfold input_answer; cbn [String.eqb Ascii.eqb Bool.eqb].
      + rewrite N. apply sim_text.
      + unfold type_ptr. destruct (refers_known _ _ T) as [o Ho]. rewrite Ho. apply sim_one. exact T.
      + apply sim_text.
      + rewrite D. apply sim_nullable_text.
      + rewrite Df. apply sim_nullable_text.
    - subst x. cases Hf; unfold shows; cbn [assoc String.eqb Ascii.eqb Bool.eqb]; unfold enum_answer; cbn [String.eqb Ascii.eqb Bool.eqb].
      + apply sim_text.
      + apply sim_text.
      + apply sim_nullable_text.
      + simpl. constructor. auto.
      + apply sim_reason.
    - destruct H as (N & D & L & A). cases Hf; unfold shows; cbn [assoc String.eqb Ascii.eqb Bool.eqb]; unfold directive_answer; cbn [String.eqb Ascii.eqb Bool.eqb].
      + apply sim_objects, inputs_rep, A.
      + rewrite N. apply sim_text.
      + rewrite L. clear L. simpl. constructor. induction (dd_locs d) as [|l ls IH]; simpl; constructor; auto. destruct l; simpl; constructor; discriminate.
      + apply sim_text.
      + rewrite D. apply sim_nullable_text.
  Qed.
End Answers.
