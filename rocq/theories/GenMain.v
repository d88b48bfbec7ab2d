(** From the declared schema to what the generated program needs and builds (for C46). *)
From Coq Require Import Permutation.
From Verif Require Import Cpp Value Ast ModifiersModel SchemaModel LoaderModel LoaderSpec LoaderProofs GenModel LoaderProps GenSpec GenRun GenEval GenLoad GenDecl.
Local Open Scope string_scope.
Local Open Scope list_scope.

Lemma flat_map_split {X Y} (f g h : X -> list Y) l : (forall x, h x = f x ++ g x) -> Permutation (flat_map h l) (flat_map f l ++ flat_map g l).
Proof.
  intros H. induction l as [|x l IH]; simpl; [constructor|]. rewrite H, <- !app_assoc. apply Permutation_app_head.
  eapply Permutation_trans; [apply Permutation_app_head; exact IH|]. rewrite !app_assoc. apply Permutation_app_tail. apply Permutation_app_comm.
Qed.
Lemma forall2_compose {X Y Z} (P : X -> Y -> Prop) (Q : Y -> Z -> Prop) xs ys zs : Forall2 P xs ys -> Forall2 Q ys zs -> Forall2 (fun x z => exists y, P x y /\ Q y z) xs zs.
Proof. intros H. revert zs. induction H as [|x y xs ys Hp _ IH]; intros zs Hq; inversion Hq; subst; constructor; eauto. Qed.
Lemma forall2_flip {X Y} (P : X -> Y -> Prop) xs ys : Forall2 P xs ys -> Forall2 (fun y x => P x y) ys xs.
Proof. induction 1; constructor; auto. Qed.

(** * The declared types, kind after kind *)
Section Parts.
  Variables (noI : bool) (ds : list sdl_def).
  Definition part (k : type_kind) (d : sdl_def) : list (string * type_def) :=
    match definition_of d with Some (k', _) => if kind_eqb k' k then declared_type noI ds d else [] | None => [] end.
  Lemma parts d : declared_type noI ds d = part SCALAR d ++ part ENUM d ++ part INPUT_OBJECT d ++ part UNION d ++ part INTERFACE d ++ part OBJECT d.
  Proof. destruct d; reflexivity. Qed.
  Lemma declared_parts : Permutation (declared_types noI ds)
    (flat_map (part SCALAR) ds ++ flat_map (part ENUM) ds ++ flat_map (part INPUT_OBJECT) ds ++ flat_map (part UNION) ds ++ flat_map (part INTERFACE) ds
     ++ flat_map (part OBJECT) ds).
  Proof.
    unfold declared_types. eapply Permutation_trans; [apply flat_map_split; exact parts|]. apply Permutation_app_head.
    eapply Permutation_trans; [apply flat_map_split; reflexivity|]. apply Permutation_app_head.
    eapply Permutation_trans; [apply flat_map_split; reflexivity|]. apply Permutation_app_head.
    eapply Permutation_trans; [apply flat_map_split; reflexivity|]. apply Permutation_app_head.
    eapply Permutation_trans; [apply flat_map_split; reflexivity|]. apply Permutation_refl.
  Qed.
  Definition full (k : type_kind) (nd : string * string) : string * type_def :=
    let (n, desc) := nd in
    (n, match k with
        | ENUM => mkTypeDef ENUM (described noI desc) [] [] [] (map (declared_value noI) (values_of ds n)) []
        | INPUT_OBJECT => mkTypeDef INPUT_OBJECT (described noI desc) [] [] [] [] (map (declared_input noI) (inputs_of ds n))
        | UNION => mkTypeDef UNION (described noI desc) [] [] (options_of ds n) [] []
        | INTERFACE => mkTypeDef INTERFACE (described noI desc) (map (declared_field noI) (interface_fields_of ds n)) [] (implementors ds n) [] []
        | OBJECT => mkTypeDef OBJECT (described noI desc) (map (declared_field noI) (object_fields_of ds n)) (interfaces_of ds n) [] [] []
        | _ => mkTypeDef SCALAR (described noI desc) [] [] [] [] []
        end).
  Lemma part_full k decl : (forall d, part k d = map (full k) (decl d)) -> flat_map (part k) ds = map (full k) (flat_map decl ds).
  Proof. intros H. rewrite map_flat_map'. apply flat_map_ext. exact H. Qed.
End Parts.
Lemma names_are noI ds : map fst (declared_types noI ds) = flat_map name_of ds.
Proof. unfold declared_types. rewrite map_flat_map'. apply flat_map_ext. intros []; reflexivity. Qed.

Lemma in_values ds n v : In v (values_of ds n) -> exists d, In d ds /\ In v (values_in d).
Proof.
  unfold values_of. rewrite in_flat_map. intros (d & Hd & Hv). exists d. split; [exact Hd|]. destruct d; simpl in *; try contradiction; unfold of_type in Hv; simpl in Hv; destruct (String.eqb n name); auto; contradiction.
Qed.
Lemma in_inputs ds n v : In v (inputs_of ds n) -> exists d, In d ds /\ In v (inputs_in d).
Proof.
  unfold inputs_of. rewrite in_flat_map. intros (d & Hd & Hv). exists d. split; [exact Hd|]. destruct d; simpl in *; try contradiction; unfold of_type in Hv; simpl in Hv; destruct (String.eqb n name); auto; contradiction.
Qed.
Lemma in_interface_fields ds n v : In v (interface_fields_of ds n) -> exists d, In d ds /\ In v (fields_in d).
Proof.
  unfold interface_fields_of. rewrite in_flat_map. intros (d & Hd & Hv). exists d. split; [exact Hd|]. destruct d; simpl in *; try contradiction; unfold of_type in Hv; simpl in Hv; destruct (String.eqb n name); auto; contradiction.
Qed.
Lemma in_object_fields ds n v : In v (object_fields_of ds n) -> exists d, In d ds /\ In v (fields_in d).
Proof.
  unfold object_fields_of. rewrite in_flat_map. intros (d & Hd & Hv). exists d. split; [exact Hd|]. destruct d; simpl in *; try contradiction; unfold of_type in Hv; simpl in Hv; destruct (String.eqb n name); auto; contradiction.
Qed.
Lemma args_in d f a : In f (fields_in d) -> In a (sf_args f) -> In a (inputs_in d).
Proof. intros Hf Ha. destruct d; simpl in *; try contradiction; apply in_flat_map; eauto. Qed.

Section Loaded.
  Variables (ds : list sdl_def) (l0 l : loader).
  Hypothesis U : usual ds.
  Hypothesis L : loaded_as ds l0.
  Hypothesis V : validated l0 l.

  Lemma field_in_fine d f : In d ds -> In f (fields_in d) -> field_fine f.
  Proof.
    intros Hd Hf. split; [exact (us_fields ds U d f Hd Hf)|]. split; [exact (us_deprecated_fields ds U d f Hd Hf)|]. intros a Ha. apply (us_inputs ds U d); [exact Hd|].
    exact (args_in d f a Hf Ha).
  Qed.

  Lemma scalar_part noI : map (scalar_entry noI) (l_scalars l) = flat_map (part noI ds SCALAR) ds.
  Proof.
    rewrite (vd_scalars _ _ V), (la_scalars _ _ L), (part_full noI ds SCALAR scalar_decl) by (intros []; reflexivity). rewrite map_map. apply map_ext. intros []; reflexivity.
  Qed.
  Lemma enum_part noI : map (enum_entry noI) (l_enums l) = flat_map (part noI ds ENUM) ds.
  Proof.
    rewrite (vd_enums _ _ V), (part_full noI ds ENUM enum_decl) by (intros []; reflexivity). eapply forall2_map; [exact (la_enums _ _ L)|].
    intros x [n desc] _ _ Hx. unfold holds_at, enum_R in Hx. cbn [fst snd] in Hx. rewrite Hx, values_chunk. unfold enum_entry, full. cbn. f_equal. f_equal.
    rewrite map_map. apply map_ext_in. intros v Hv. destruct (in_values ds n v Hv) as (d & Hd & Hvd). apply value_declared. exact (us_deprecated_values ds U d v Hd Hvd).
  Qed.
  Lemma input_part noI : Permutation (map (input_entry noI) (l_inputs l)) (flat_map (part noI ds INPUT_OBJECT) ds).
  Proof.
    destruct (vd_inputs _ _ V) as (ts & Hp & Hf). eapply Permutation_trans; [apply Permutation_map; exact Hp|].
    rewrite (part_full noI ds INPUT_OBJECT input_decl) by (intros []; reflexivity).
    match goal with |- Permutation ?a ?b => replace a with b; [apply Permutation_refl|] end.
    rewrite <- (forall2_map _ (input_entry noI) (full noI ds INPUT_OBJECT) _ _ (la_inputs _ _ L)).
    - eapply forall2_map; [exact Hf|]. intros x y _ _ (H1 & H2 & H3 & H4). unfold input_entry. rewrite H1, H3, (proj1 (fixup_inputs_keep noI _ _ _ H4)). reflexivity.
    - intros x [n desc] _ _ (H1 & H2 & H3 & H4). cbn [fst snd] in *. rewrite inputs_chunk in H4. unfold input_entry, full. rewrite H1, H3. f_equal. f_equal.
      refine (proj1 (inputs_declared noI _ _ H4 _)). intros i Hi. destruct (in_inputs ds n i Hi) as (d & Hd & Hid). exact (us_inputs ds U d i Hd Hid).
  Qed.
  Lemma union_part noI : map (union_entry noI) (l_unions l) = flat_map (part noI ds UNION) ds.
  Proof.
    rewrite (vd_unions _ _ V), (part_full noI ds UNION union_decl) by (intros []; reflexivity). eapply forall2_map; [exact (la_unions _ _ L)|].
    intros x [n desc] _ _ Hx. unfold holds_at, union_R in Hx. cbn [fst snd] in Hx. rewrite Hx, options_chunk. reflexivity.
  Qed.
  (** The objects, and the interfaces they have. *)
  Lemma objects_are : Forall2 (fun o nd => ob_type o = fst nd /\ ob_cpp o = safe_cpp_name (fst nd) /\ ob_desc o = snd nd /\ ob_interfaces o = interfaces_of ds (fst nd)
    /\ (forall noI, map (out_def noI) (ob_fields o) = map (declared_field noI) (object_fields_of ds (fst nd)))) (l_objects l) (flat_map object_decl ds).
  Proof.
    assert (H := forall2_compose _ _ _ _ _ (forall2_flip _ _ _ (vd_objects _ _ V)) (la_objects _ _ L)). eapply forall2_imp; [|exact H].
    intros o [n desc] (o0 & (F1 & F2 & F3 & F4 & inh & acc & F5) & (H1 & H2 & H3 & H4 & H5)). cbn [fst snd] in *. rewrite interfaces_chunk in H4. rewrite object_fields_chunk in H5.
    rewrite F1, F2, F3, F4. repeat split; auto. intros noI. rewrite (proj1 (fixup_outputs_keep noI _ _ _ _ _ F5)). apply (outputs_declared noI _ _ H5).
    intros f Hf. destruct (in_object_fields ds n f Hf) as (d & Hd & Hfd). exact (field_in_fine d f Hd Hfd).
  Qed.
  Lemma object_part noI : map (object_entry noI) (l_objects l) = flat_map (part noI ds OBJECT) ds.
  Proof.
    rewrite (part_full noI ds OBJECT object_decl) by (intros []; reflexivity). eapply forall2_map; [exact objects_are|].
    intros o [n desc] _ _ (H1 & H2 & H3 & H4 & H5). cbn [fst snd] in *. unfold object_entry, full. rewrite H1, H3, H4, H5. reflexivity.
  Qed.
  Lemma times_once i is : NoDup is -> times i is = if existsb (String.eqb i) is then 1 else 0.
  Proof.
    induction is as [|j is IH]; intros H; [reflexivity|]. inversion H as [|? ? Hj Hn]; subst. unfold times in *. simpl. destruct (String.eqb_spec i j) as [->|]; simpl; [|auto].
    rewrite IH by exact Hn. destruct (existsb (String.eqb j) is) eqn:E; [|reflexivity]. apply existsb_exists in E as (x & Hx & Ex). apply String.eqb_eq in Ex as ->. contradiction.
  Qed.
  Lemma implementing_are i : implementing l i = implementors ds i.
  Proof.
    unfold implementing, implementors. replace (objects_of ds) with (map fst (flat_map object_decl ds)).
    - induction objects_are as [|o nd os nds (H1 & _ & _ & H4 & _) _ IH]; simpl; [reflexivity|]. rewrite IH, H1, H4, times_once by apply (us_interfaces ds U).
      destruct (existsb (String.eqb i) (interfaces_of ds (fst nd))); reflexivity.
    - unfold objects_of. rewrite map_flat_map'. apply flat_map_ext. intros []; reflexivity.
  Qed.
  Lemma interfaces_are : Forall2 (fun o nd => if_type o = fst nd /\ if_cpp o = safe_cpp_name (fst nd) /\ if_desc o = snd nd
    /\ (forall noI, map (out_def noI) (if_fields o) = map (declared_field noI) (interface_fields_of ds (fst nd)))) (l_interfaces l) (flat_map interface_decl ds).
  Proof.
    assert (H := forall2_compose _ _ _ _ _ (forall2_flip _ _ _ (vd_interfaces _ _ V)) (la_interfaces _ _ L)). eapply forall2_imp; [|exact H].
    intros o [n desc] (o0 & (F1 & F2 & F3 & F5) & (H1 & H2 & H3 & H5)). cbn [fst snd] in *. rewrite interface_fields_chunk in H5.
    rewrite F1, F2, F3. repeat split; auto. intros noI. rewrite (proj1 (fixup_outputs_keep noI _ _ _ _ _ F5)). apply (outputs_declared noI _ _ H5).
    intros f Hf. destruct (in_interface_fields ds n f Hf) as (d & Hd & Hfd). exact (field_in_fine d f Hd Hfd).
  Qed.
  Lemma interface_part noI : map (interface_entry noI l) (l_interfaces l) = flat_map (part noI ds INTERFACE) ds.
  Proof.
    rewrite (part_full noI ds INTERFACE interface_decl) by (intros []; reflexivity). eapply forall2_map; [exact interfaces_are|].
    intros o [n desc] _ _ (H1 & H2 & H3 & H5). cbn [fst snd] in *. unfold interface_entry, full. rewrite H1, H3, H5, implementing_are. reflexivity.
  Qed.
  Theorem types_are noI : Permutation (loaded_types noI l) (declared_types noI ds).
  Proof.
    eapply Permutation_trans; [|apply Permutation_sym, declared_parts]. unfold loaded_types. rewrite scalar_part, enum_part, union_part, interface_part, object_part.
    do 2 apply Permutation_app_head. apply Permutation_app_tail. apply input_part.
  Qed.
  Theorem directives_are noI : map (dir_def noI) (l_directives l) = declared_directives noI ds.
  Proof.
    rewrite (vd_directives _ _ V). unfold declared_directives.
    replace (flat_map _ ds) with (map (fun x => let '(n, desc, locs, args) := x in mkDirDef n (described noI desc) locs (map (declared_input noI) args)) (flat_map directive_decl ds))
      by (rewrite map_flat_map'; apply flat_map_ext; intros []; reflexivity).
    eapply forall2_map; [exact (la_directives _ _ L)|]. intros x [[[n desc] locs] args] _ Hin (H1 & H2 & H3 & H4). unfold dir_def. rewrite H1, H2, H3. f_equal.
    refine (proj1 (inputs_declared noI _ _ H4 _)). intros i Hi. apply in_flat_map in Hin as (d & Hd & Hx). apply (us_inputs ds U d i Hd). destruct d; simpl in Hx; try contradiction.
    destruct Hx as [E|[]]. injection E as -> -> -> ->. exact Hi.
  Qed.

  (** * What the generated program needs *)
  Notation base := (map fst standard_types).
  Lemma loaded_names_fst noI : loaded_names l = map fst (loaded_types noI l).
  Proof. unfold loaded_names, loaded_types. rewrite !map_app, !map_map. reflexivity. Qed.
  Lemma names_perm : Permutation (loaded_names l) (declared_names ds).
  Proof. rewrite (loaded_names_fst false). apply Permutation_map. apply types_are. Qed.
  Lemma names_in n : In n (base ++ declared_names ds) -> In n (base ++ loaded_names l).
  Proof. rewrite !in_app_iff. intros [H|H]; [auto|]. right. eapply Permutation_in; [apply Permutation_sym, names_perm|exact H]. Qed.
  Lemma known_in n : known_name (l_types l0) n -> In n (base ++ loaded_names l).
  Proof.
    intros [H|[k H]]; apply names_in, in_or_app.
    - left. unfold standard_types. rewrite map_app, in_app_iff. left. unfold is_builtin in H. apply existsb_exists in H as (x & Hx & E). apply String.eqb_eq in E as ->. exact Hx.
    - right. unfold declared_names. rewrite names_are. exact (la_types _ _ L n k H).
  Qed.
  Lemma vars_perm : Permutation (loaded_vars l) (flat_map variable_of ds).
  Proof.
    set (var := fun nd : string * string => safe_cpp_name (fst nd)).
    assert (E1 : map et_cpp (l_enums l) = map var (flat_map enum_decl ds)).
    { rewrite (vd_enums _ _ V). eapply forall2_map; [exact (la_enums _ _ L)|]. intros x nd _ _ Hx. unfold holds_at, enum_R in Hx. rewrite Hx. reflexivity. }
    assert (E2 : Permutation (map it_cpp (l_inputs l)) (map var (flat_map input_decl ds))).
    { destruct (vd_inputs _ _ V) as (ts & Hp & Hf). eapply Permutation_trans; [apply Permutation_map; exact Hp|].
      replace (map it_cpp ts) with (map var (flat_map input_decl ds)); [apply Permutation_refl|]. symmetry.
      eapply forall2_map; [exact (forall2_compose _ _ _ _ _ (forall2_flip _ _ _ Hf) (la_inputs _ _ L))|].
      intros x nd _ _ (y & (_ & H2 & _) & (_ & H4 & _)). rewrite H2, H4. reflexivity. }
    assert (E3 : map un_cpp (l_unions l) = map var (flat_map union_decl ds)).
    { rewrite (vd_unions _ _ V). eapply forall2_map; [exact (la_unions _ _ L)|]. intros x nd _ _ Hx. unfold holds_at, union_R in Hx. rewrite Hx. reflexivity. }
    assert (E4 : map if_cpp (l_interfaces l) = map var (flat_map interface_decl ds)).
    { eapply forall2_map; [exact interfaces_are|]. intros x nd _ _ (_ & H & _). exact H. }
    assert (E5 : map ob_cpp (l_objects l) = map var (flat_map object_decl ds)).
    { eapply forall2_map; [exact objects_are|]. intros x nd _ _ (_ & H & _). exact H. }
    unfold loaded_vars. rewrite E1, E3, E4, E5.
    eapply Permutation_trans; [apply Permutation_app_head, Permutation_app_tail, E2|]. rewrite !map_flat_map'. apply Permutation_sym.
    eapply Permutation_trans; [apply (flat_map_split (fun d => map var (enum_decl d)) (fun d => map var (input_decl d) ++ map var (union_decl d) ++ map var (interface_decl d) ++ map var (object_decl d))); intros []; reflexivity|].
    apply Permutation_app_head.
    eapply Permutation_trans; [apply flat_map_split; reflexivity|]. apply Permutation_app_head.
    eapply Permutation_trans; [apply flat_map_split; reflexivity|]. apply Permutation_app_head.
    eapply Permutation_trans; [apply flat_map_split; reflexivity|]. apply Permutation_refl.
  Qed.
  Lemma input_arg_types is fs a : get_input_fields is = Ok fs -> In a fs -> exists i, In i is /\ (grammatical (si_type i) -> in_type a = base_name (si_type i)).
  Proof.
    intros H Ha. apply mapM_forall2 in H. destruct (forall2_in_r _ _ _ a H Ha) as (i & Hi & E). exists i. split; [exact Hi|]. intros Hg. apply (input_declared false i a E Hg).
  Qed.
  (** The arguments of a field with a built-in type. *)
  Lemma builtin_args fs xs f0 a : get_output_fields fs = Ok xs -> (forall f, In f fs -> exists d, In d ds /\ In f (fields_in d)) ->
    In f0 xs -> is_builtin (out_type f0) = true -> In a (out_args f0) -> In (in_type a) (base ++ loaded_names l).
  Proof.
    intros H Hfs H0 Hb Ha. apply mapM_forall2 in H. destruct (forall2_in_r _ _ _ f0 H H0) as (f & Hf & E). cbn in E. destruct (Hfs f Hf) as (d & Hd & Hfd).
    destruct (output_declared false f f0 E (field_in_fine d f Hd Hfd)) as (_ & Et & _). rewrite Et in Hb.
    unfold get_output_field in E. destruct (get_input_fields (sf_args f)) as [args|e|] eqn:Ea; cbn [bind] in E; try discriminate.
    destruct (visit_field_type (sf_type f)) as [n ms]. injection E as <-. cbn in Ha. destruct (input_arg_types _ _ _ Ea Ha) as (i & Hi & Ei).
    rewrite Ei by (apply (us_inputs ds U d); [exact Hd|exact (args_in d f i Hfd Hi)]).
    apply names_in. apply (us_unchecked ds U d i Hd). destruct d; simpl in *; try contradiction; apply in_flat_map; exists f; (split; [exact Hfd|]); rewrite Hb; exact Hi.
  Qed.
  Theorem loaded_good : good base l.
  Proof.
    constructor.
    - eapply Permutation_NoDup; [|exact (us_names ds U)]. apply Permutation_app_head, Permutation_sym, names_perm.
    - eapply Permutation_NoDup; [|exact (us_variables ds U)]. apply Permutation_sym, vars_perm.
    - intros t Ht. destruct (forall2_in_l _ _ _ t interfaces_are Ht) as (nd & _ & H1 & H2 & _). congruence.
    - intros t Ht. rewrite (vd_enums _ _ V) in Ht. destruct (forall2_in_l _ _ _ t (la_enums _ _ L) Ht) as ([n desc] & _ & Hx). unfold enum_R in Hx. cbn [fst snd] in Hx.
      rewrite Hx, values_chunk. cbn. rewrite map_map. exact (us_enumerators ds U n).
    - intros t f Ht Hf. destruct (vd_inputs _ _ V) as (ts & Hp & H). apply (Permutation_in _ Hp) in Ht. destruct (forall2_in_r _ _ _ t H Ht) as (t0 & _ & (_ & _ & _ & E)).
      apply known_in. exact (proj2 (proj2 (fixup_inputs_keep false _ _ _ E)) f Hf).
    - intros t n Ht Hn. apply in_or_app. right. unfold loaded_names. rewrite !in_app_iff. do 5 right. exact (vd_options _ _ V t n Ht Hn).
    - intros t f Ht Hf. destruct (forall2_in_r _ _ _ t (vd_interfaces _ _ V) Ht) as (t0 & Ht0 & (_ & _ & _ & E)).
      destruct (proj2 (fixup_outputs_keep false _ _ _ _ _ E) f Hf) as [K Ka]. split; [exact (known_in _ K)|]. intros a Ha. destruct (Ka a Ha) as [(f0 & Hf0 & Hb & Ha0)|Kn]; [|exact (known_in _ Kn)].
      destruct (forall2_in_l _ _ _ t0 (la_interfaces _ _ L) Ht0) as ([n desc] & _ & (_ & _ & _ & Eg)). cbn [fst snd] in Eg. rewrite interface_fields_chunk in Eg.
      apply (builtin_args _ _ f0 a Eg); auto. intros g Hg. exact (in_interface_fields ds n g Hg).
    - intros t f Ht Hf. destruct (forall2_in_r _ _ _ t (vd_objects _ _ V) Ht) as (t0 & Ht0 & (_ & _ & _ & _ & inh & acc & E)).
      destruct (proj2 (fixup_outputs_keep false _ _ _ _ _ E) f Hf) as [K Ka]. split; [exact (known_in _ K)|]. intros a Ha. destruct (Ka a Ha) as [(f0 & Hf0 & Hb & Ha0)|Kn]; [|exact (known_in _ Kn)].
      destruct (forall2_in_l _ _ _ t0 (la_objects _ _ L) Ht0) as ([n desc] & _ & (_ & _ & _ & _ & Eg)). cbn [fst snd] in Eg. rewrite object_fields_chunk in Eg.
      apply (builtin_args _ _ f0 a Eg); auto. intros g Hg. exact (in_object_fields ds n g Hg).
    - exact (vd_implements _ _ V).
    - intros d f Hd Hf. rewrite (vd_directives _ _ V) in Hd. destruct (forall2_in_l _ _ _ d (la_directives _ _ L) Hd) as ([[[n desc] locs] args] & Hin & (_ & _ & _ & E)).
      destruct (input_arg_types _ _ _ E Hf) as (i & Hi & Ei). apply in_flat_map in Hin as (x & Hx & Hxin). destruct x; simpl in Hxin; try contradiction. destruct Hxin as [Ex|[]]. injection Ex as -> -> -> ->.
      rewrite Ei by (apply (us_inputs ds U _ i Hx); exact Hi). apply names_in. exact (us_unchecked ds U _ i Hx Hi).
    - assert (Hop : forall n, declares ob_type n (l_objects l0) = true -> exists t, In t (l_objects l) /\ ob_type t = n /\ ob_cpp t = safe_cpp_name n).
      { intros n Hn. apply declares_in in Hn. apply in_map_iff in Hn as (t0 & En & Ht0). destruct (forall2_in_l _ _ _ t0 (vd_objects _ _ V) Ht0) as (t & Ht & (F1 & F2 & _)).
        exists t. split; [exact Ht|]. destruct (forall2_in_l _ _ _ t objects_are Ht) as (nd & _ & H1 & H2 & _). split; congruence. }
      assert (Hd : forall n k o, In o (default_operation (l_objects l0) n k) -> exists t, In t (l_objects l) /\ ob_type t = ot_type o /\ ob_cpp t = ot_cpp o).
      { intros n k o Ho. unfold default_operation in Ho. destruct (declares ob_type n (l_objects l0)) eqn:E; [|contradiction]. destruct Ho as [<-|[]]. exact (Hop n E). }
      intros o Ho. assert (Ec := vd_operations _ _ V). unfold check_operations in Ec. rewrite (la_operations _ _ L) in Ec.
      destruct (schema_operations ds) as [|e ops]; cbn [map] in Ec.
      + cbn [bind] in Ec. destruct (existsb is_query _); [|discriminate]. injection Ec as Ec. rewrite <- Ec, !in_app_iff in Ho. destruct Ho as [Ho|[Ho|Ho]]; exact (Hd _ _ _ Ho).
      + destruct (List.find _ _) eqn:Ef in Ec; [discriminate|]. cbn [bind] in Ec. destruct (existsb is_query _); [|discriminate]. injection Ec as Ec. rewrite <- Ec in Ho.
        assert (Hf := find_none _ _ Ef o Ho). rewrite negb_false_iff in Hf. destruct (Hop _ Hf) as (t & Ht & H1 & H2). exists t. split; [exact Ht|]. split; [exact H1|].
        rewrite H2. change (operation_of e :: map operation_of ops) with (map operation_of (e :: ops)) in Ho. apply in_map_iff in Ho as (x & <- & _). reflexivity.
  Qed.

  (** * The operations *)
  Definition is_op (op : operation_kind) (o : operation_kind) : bool := operation_eqb op o.
  Lemma last_operation_absent p ops : forall o, (forall x, In x ops -> p (ot_operation x) = false) -> last_operation p o ops = o.
  Proof. unfold last_operation. induction ops as [|x ops IH]; intros o H; simpl; [reflexivity|]. rewrite H by (left; reflexivity). apply IH. intros y Hy. apply H. right. exact Hy. Qed.
  Lemma op_eqb_eq a b : operation_eqb a b = true <-> a = b.
  Proof. destruct a, b; split; intros H; try reflexivity; discriminate. Qed.
  Lemma last_operation_find op ops : NoDup (map fst ops) ->
    last_operation (operation_eqb op) None (map operation_of ops) = option_map snd (List.find (fun e => operation_eqb op (fst e)) ops).
  Proof.
    induction ops as [|[k n] ops IH]; intros H; [reflexivity|]. cbn [map] in *. inversion H as [|? ? Hk Hn]; subst. unfold last_operation in *. cbn [fold_left operation_of ot_operation fst snd List.find ot_type].
    destruct (operation_eqb op k) eqn:E; [|exact (IH Hn)]. apply op_eqb_eq in E as ->. cbn. apply (last_operation_absent (operation_eqb k)).
    intros x Hx. apply in_map_iff in Hx as ([k' n'] & <- & Hx). cbn. destruct (operation_eqb k k') eqn:E; [|reflexivity]. apply op_eqb_eq in E as ->. exfalso. apply Hk. apply in_map_iff. exists (k', n'). auto.
  Qed.
  Lemma declared_object n : declares ob_type n (l_objects l0) = existsb (String.eqb n) (objects_of ds).
  Proof.
    assert (E : map ob_type (l_objects l0) = objects_of ds).
    { rewrite (kind_names ob_type object_decl object_chunk object_R object_R_name ds (l_objects l0) (la_objects _ _ L)). unfold objects_of. rewrite map_flat_map'. apply flat_map_ext. intros []; reflexivity. }
    destruct (existsb (String.eqb n) (objects_of ds)) eqn:Ee.
    - apply declares_in. rewrite E. apply existsb_exists in Ee as (x & Hx & Ex). apply String.eqb_eq in Ex as ->. exact Hx.
    - destruct (declares ob_type n (l_objects l0)) eqn:Ed; [|reflexivity]. apply declares_in in Ed. rewrite E in Ed. rewrite <- Ee. symmetry. apply existsb_exists. exists n. split; [exact Ed|apply String.eqb_refl].
  Qed.
  Theorem operations_are op : last_operation (operation_eqb op) None (l_operations l) = declared_root ds op.
  Proof.
    assert (Ec := vd_operations _ _ V). unfold check_operations in Ec. rewrite (la_operations _ _ L) in Ec. unfold declared_root. assert (Hn := us_operations ds U).
    destruct (schema_operations ds) as [|e ops]; cbn [map] in Ec.
    - cbn [bind] in Ec. destruct (existsb is_query _); [|discriminate]. injection Ec as <-. unfold default_operation. rewrite !declared_object. unfold last_operation.
      destruct op; cbn [default_name]; destruct (existsb (String.eqb "Query") (objects_of ds)), (existsb (String.eqb "Mutation") (objects_of ds)), (existsb (String.eqb "Subscription") (objects_of ds)); reflexivity.
    - destruct (List.find _ _) eqn:Ef in Ec; [discriminate|]. cbn [bind] in Ec. destruct (existsb is_query _); [|discriminate]. injection Ec as <-. apply (last_operation_find op (e :: ops)). exact Hn.
  Qed.
  Theorem query_declared : exists q, declared_root ds OpQuery = Some q.
  Proof.
    assert (Hq : existsb is_query (l_operations l) = true).
    { assert (Ec := vd_operations _ _ V). unfold check_operations in Ec.
      match type of Ec with bind ?x _ = _ => destruct x as [ops|e|]; cbn [bind] in Ec; try discriminate end. destruct (existsb is_query ops) eqn:E; [|discriminate]. injection Ec as <-. exact E. }
    rewrite <- operations_are. unfold last_operation. apply existsb_exists in Hq as (o & Ho & Hq). revert Ho. generalize (l_operations l). generalize (@None string).
    intros acc ops. revert acc. induction ops as [|x ops IH]; intros acc Ho; [contradiction|]. simpl. destruct Ho as [->|Ho]; [|apply IH; exact Ho].
    unfold is_query in Hq. destruct (ot_operation o); try discriminate. cbn. clear. generalize (ot_type o). induction ops as [|x ops IH]; intros s; simpl; [eauto|]. destruct (ot_operation x); simpl; apply IH.
  Qed.
End Loaded.
