(** What schemagen's loader keeps, against the schema that the document declares (for C57). *)
From Coq Require Import Permutation.
From Verif Require Import Cpp Value Ast ModifiersModel ModifiersSpec SchemaModel LoaderModel LoaderSpec LoaderProofs GenModel LoaderProps GenSpec GenRun GenEval GenLoad GenDecl GenMain GenProps
  ExecModel ExecSem ValidationSpec TypedSpec ClientSpec VariablesSpec GenServiceModel GenServiceSpec GenServiceArgs.
Local Open Scope string_scope.
Local Open Scope list_scope.

(** * Kinds *)
Definition schema_kind (k : schema_type) : type_kind :=
  match k with TyScalar => SCALAR | TyEnum => ENUM | TyInput => INPUT_OBJECT | TyUnion => UNION | TyInterface => INTERFACE | TyObject => OBJECT end.
Definition kinds_declared (ds : list sdl_def) (m : list (string * schema_type)) : Prop :=
  forall n k, find_schema_type n m = Some k -> exists d, In d ds /\ definition_of d = Some (schema_kind k, n).
Lemma kinds_set ds m d n k : kinds_declared ds m -> definition_of d = Some (schema_kind k, n) -> kinds_declared (ds ++ [d]) (set_type n k m).
Proof.
  intros H Hd x j. unfold find_schema_type, set_type. cbn [assoc]. destruct (String.eqb_spec x n) as [->|Hne].
  - intros E. injection E as <-. exists d. split; [apply in_or_app; right; left; reflexivity|exact Hd].
  - intros E. assert (E' : find_schema_type x m = Some j).
    { clear -E Hne. unfold find_schema_type. revert E. induction m as [|[y v] m IH]; simpl; [discriminate|]. destruct (String.eqb_spec n y) as [->|Hny]; simpl.
      - intros E. destruct (String.eqb_spec x y) as [->|]; [contradiction|]. auto.
      - destruct (String.eqb x y); auto. }
    destruct (H x j E') as (d' & Hd' & E2). exists d'. split; [apply in_or_app; left; exact Hd'|exact E2].
Qed.
Lemma kinds_more ds m d : kinds_declared ds m -> kinds_declared (ds ++ [d]) m.
Proof. intros H n k E. destruct (H n k E) as (d' & Hd' & E2). exists d'. split; [apply in_or_app; left; exact Hd'|exact E2]. Qed.
Lemma extend_object_types l n is fs l' : extend_object l n is fs = Ok l' -> l_types l' = l_types l.
Proof. unfold extend_object. destruct (LoaderModel.declares ob_type n (l_objects l)); [|intros H; injection H as <-; reflexivity]. destruct (get_output_fields fs); cbn [bind]; intros H; try discriminate. injection H as <-. reflexivity. Qed.
Lemma extend_interface_types l n fs l' : extend_interface l n fs = Ok l' -> l_types l' = l_types l.
Proof. unfold extend_interface. destruct (LoaderModel.declares if_type n (l_interfaces l)); [|intros H; injection H as <-; reflexivity]. destruct (get_output_fields fs); cbn [bind]; intros H; try discriminate. injection H as <-. reflexivity. Qed.
Lemma extend_input_types l n fs l' : extend_input l n fs = Ok l' -> l_types l' = l_types l.
Proof. unfold extend_input. destruct (LoaderModel.declares it_type n (l_inputs l)); [|intros H; injection H as <-; reflexivity]. destruct (get_input_fields fs); cbn [bind]; intros H; try discriminate. injection H as <-. reflexivity. Qed.
Lemma kinds_step ds l d l' : visit_definition l d = Ok l' -> kinds_declared ds (l_types l) -> kinds_declared (ds ++ [d]) (l_types l').
Proof.
  intros E H. destruct d; cbn [visit_definition] in E; try discriminate.
  all: try (injection E as <-; cbn; (apply kinds_set; [exact H|reflexivity]) || (apply kinds_more; exact H)).
  - apply extend_input_types in E. rewrite E. apply kinds_set; [exact H|reflexivity].
  - apply extend_input_types in E. rewrite E. apply kinds_more; exact H.
  - apply extend_interface_types in E. rewrite E. apply kinds_set; [exact H|reflexivity].
  - apply extend_interface_types in E. rewrite E. apply kinds_more; exact H.
  - apply extend_object_types in E. rewrite E. apply kinds_set; [exact H|reflexivity].
  - apply extend_object_types in E. rewrite E. apply kinds_more; exact H.
  - destruct (get_input_fields args); cbn [bind] in E; try discriminate. injection E as <-. apply kinds_more; exact H.
Qed.
Lemma kinds_all : forall ds pre l l', visit_definitions l ds = Ok l' -> kinds_declared pre (l_types l) -> kinds_declared (pre ++ ds) (l_types l').
Proof.
  induction ds as [|d ds IH]; intros pre l l' E H; cbn [visit_definitions] in E.
  - injection E as <-. rewrite app_nil_r. exact H.
  - destruct (visit_definition l d) as [l1|e|] eqn:E1; cbn [bind] in E; try discriminate. replace (pre ++ d :: ds) with ((pre ++ [d]) ++ ds) by (rewrite <- app_assoc; reflexivity).
    exact (IH _ l1 l' E (kinds_step pre l d l1 E1 H)).
Qed.

(** * Default values *)
Lemma visit_null_free : forall c v, visit_default c = Ok v -> has_null_scalar v = false.
Proof.
  induction c as [a n|a z|a f|a s|a b|a|a s|a items H|a fields H] using lit_ind'; intros v Hv; cbn in Hv; try (injection Hv as <-; reflexivity).
  - destruct (in_int_range z); [|discriminate]. injection Hv as <-. reflexivity.
  - assert (G : forall acc, (forall w, In w acc -> has_null_scalar w = false) -> forall v, (fix go (items : list lit) (vs : list value) : result value :=
         match items with [] => Ok (VList vs) | x :: r => v <- visit_default x ;; go r (vs ++ [v]) end) items acc = Ok v -> has_null_scalar v = false); [|exact (G [] (fun w Hw => match Hw with end) v Hv)].
    clear v Hv. induction H as [|x items Hx _ IH]; intros acc Ha v Hv.
    + injection Hv as <-. cbn. destruct (existsb has_null_scalar acc) eqn:E; [|reflexivity]. apply existsb_exists in E as (w & Hw & Ew). rewrite (Ha w Hw) in Ew. discriminate.
    + destruct (visit_default x) as [w|e|] eqn:Ex; cbn [bind] in Hv; try discriminate. apply (IH (acc ++ [w])); [|exact Hv]. intros u Hu. apply in_app_or in Hu as [Hu|[<-|[]]]; [exact (Ha u Hu)|exact (Hx w eq_refl)].
  - assert (G : forall es, (forall e, In e es -> has_null_scalar (snd e) = false) -> forall v, (fix go (fields : list (schema_location * (string * lit))) (es : list (string * value)) : result value :=
         match fields with [] => Ok (VMap es) | x :: r => v <- visit_default (snd (snd x)) ;; go r (fst (map_emplace es (fst (snd x)) v)) end) fields es = Ok v -> has_null_scalar v = false); [|exact (G [] (fun w Hw => match Hw with end) v Hv)].
    clear v Hv. induction H as [|x fields Hx _ IH]; intros es Ha v Hv.
    + injection Hv as <-. cbn. destruct (existsb (fun e => has_null_scalar (snd e)) es) eqn:E; [|reflexivity]. apply existsb_exists in E as (w & Hw & Ew). rewrite (Ha w Hw) in Ew. discriminate.
    + destruct (visit_default (snd (snd x))) as [w|e|] eqn:Ex; cbn [bind] in Hv; try discriminate. apply (IH (fst (map_emplace es (fst (snd x)) w))); [|exact Hv].
      intros u Hu. unfold map_emplace in Hu. destruct (has_key _ es); cbn [fst] in Hu; [exact (Ha u Hu)|]. apply in_app_or in Hu as [Hu|[<-|[]]]; [exact (Ha u Hu)|exact (Hx w eq_refl)].
Qed.
Section Source.
  Variables (S : schema) (six : spec_float -> spec_float).
  Local Notation src := (in_source six).
  Lemma source_null v : src v = VNull <-> v = VNull.
  Proof. split; [|intros ->; reflexivity]. destruct v as [| | | | | | | |o]; cbn; try discriminate; auto. destruct o; discriminate. Qed.
  Lemma source_null_free v : has_null_scalar (src v) = has_null_scalar v.
  Proof.
    induction v as [es IH|vs IH|s b| |b|z|f|s| |v IH] using value_ind'; cbn; try reflexivity.
    - induction IH as [|e es He _ IHe]; [reflexivity|]. cbn. rewrite He, IHe. reflexivity.
    - induction IH as [|e es He _ IHe]; [reflexivity|]. cbn. rewrite He, IHe. reflexivity.
    - exact IH.
  Qed.
  Lemma source_lookup k es : lookup k (map (fun e => (fst e, src (snd e))) es) = option_map src (lookup k es).
  Proof. induction es as [|[m v] es IH]; [reflexivity|]. cbn. destruct (String.eqb k m); [reflexivity|exact IH]. Qed.
  Lemma lookup_in k (es : list (string * value)) v : lookup k es = Some v -> In (k, v) es.
  Proof. induction es as [|[m w] es IH]; cbn; [discriminate|]. destruct (String.eqb_spec k m) as [->|]; [intros E; injection E as ->; auto|auto]. Qed.
  Lemma source_fits : forall v t, input_fits S t v -> input_fits S t (src v).
  Proof.
    assert (NN : forall t v, (forall t, input_fits S (TNamed t) v -> input_fits S (TNamed t) (src v)) -> (forall t, input_fits S (TListOf t) v -> input_fits S (TListOf t) (src v)) ->
      input_fits S t v -> input_fits S t (src v)).
    { intros t v H1 H2. induction t as [n|t IH|t IH]; [apply H1|apply H2|]. intros F. inversion F as [? N|? ? N F'| | | | | | | | | | |]; subst; [exfalso; apply N; eexists; reflexivity|].
      apply if_nonnull; [rewrite source_null; exact N|exact (IH F')]. }
    induction v as [es IH|vs IH|s b| |b|z|f|s| |v IH] using value_ind'; intros t; try (intros F; exact F).
    - apply NN; [|intros u F; inversion F]. intros n F. inversion F as [| | | | | | | | | | |? ? T B N|? td kvs Hf K Hi]; subst; [apply if_custom; [exact T|exact B|discriminate]|].
      cbn. apply (if_object S n td _ Hf K). inversion Hi as [? ? I1 I2]; subst. constructor.
      + intros k v L. rewrite source_lookup in L. destruct (lookup k es) as [w|] eqn:Lk; [|discriminate]. injection L as <-. destruct (I1 k w Lk) as (a & Ha & En & P). exists a. split; [exact Ha|]. split; [exact En|].
        inversion P as [? ? F'|? D]; subst; [|apply pf_default; exact D]. apply pf_fits. apply lookup_in in Lk. rewrite Forall_forall in IH. exact (IH _ Lk _ F').
      + intros a Ha R E. apply (I2 a Ha R). rewrite source_lookup in E. destruct (lookup (iv_name a) es); [discriminate|reflexivity].
    - apply NN.
      + intros n F. inversion F as [| | | | | | | | | | |? ? T B N|]; subst. apply if_custom; [exact T|exact B|discriminate].
      + intros u F. inversion F as [| |? ? Fv| | | | | | | | | |]; subst. cbn. apply if_list. clear F. induction Fv as [|w vs Hw _ IHv]; [constructor|]. inversion IH; subst. constructor; [auto|apply IHv; assumption].
    - apply NN; [|intros u F; inversion F]. intros n F. inversion F; subst; cbn; [apply if_float|]. apply if_custom; [assumption|assumption|discriminate].
    - apply NN; [|intros u F; inversion F]. intros n F. inversion F; subst; cbn. apply if_custom; [assumption|assumption|discriminate].
  Qed.
End Source.

(** * The loader's entries and the types of the schema *)
Section Linked.
  Variables (S : schema) (l : loader) (noI : bool).
  Definition input_linked (f : in_field) : Prop :=
    stands_for (in_type f) (in_mods f) (iv_type (in_def noI f)) /\ In (in_type f) (builtin_types ++ loaded_names l) /\
    (in_default f <> VNull -> has_null_scalar (in_default f) = false /\ input_fits S (iv_type (in_def noI f)) (in_default f)) /\
    (in_default_text f <> "" -> in_default f = VNull -> exists r, in_mods f = MNullable :: r).
  Definition kind_linked (k : output_kind) (n : string) : Prop :=
    match k with
    | OutBuiltin => In n builtin_types
    | OutScalar => type_is S n SCALAR | OutEnum => type_is S n ENUM
    | OutUnion => type_is S n UNION | OutInterface => type_is S n INTERFACE | OutObject => type_is S n OBJECT
    end.
  Definition field_linked (x : out_field) : Prop :=
    stands_for (out_type x) (out_mods x) (fd_type (out_def noI x)) /\ kind_linked (out_kind x) (out_type x) /\
    (out_kind x <> OutBuiltin -> ~ In (out_type x) builtin_types) /\ In (out_type x) (builtin_types ++ loaded_names l) /\
    forall a, In a (out_args x) -> input_linked a.
  Record linked : Prop := {
    lk_builtin : forall n, In n builtin_types -> type_is S n SCALAR;
    lk_names : NoDup (builtin_types ++ loaded_names l);
    lk_scalars : forall t, In t (l_scalars l) -> find_type S (sc_type t) = Some (snd (scalar_entry noI t));
    lk_enums : forall t, In t (l_enums l) -> find_type S (et_type t) = Some (snd (enum_entry noI t));
    lk_inputs : forall t, In t (l_inputs l) -> find_type S (it_type t) = Some (snd (input_entry noI t));
    lk_unions : forall t, In t (l_unions l) -> find_type S (un_type t) = Some (snd (union_entry noI t));
    lk_interfaces : forall t, In t (l_interfaces l) -> find_type S (if_type t) = Some (snd (interface_entry noI l t));
    lk_objects : forall t, In t (l_objects l) -> find_type S (ob_type t) = Some (snd (object_entry noI t));
    lk_standard : forall n, ~ In n (loaded_names l) -> find_type S n = assoc n standard_types;
    lk_fields : forall t x, In t (l_objects l) -> In x (ob_fields t) -> field_linked x;
    lk_members : forall t f, In t (l_inputs l) -> In f (it_fields t) -> input_linked f /\ (type_is S (in_type f) INPUT_OBJECT -> in_kind f = InInput);
    lk_order : in_order (l_inputs l);
    lk_options : forall u o, In u (l_unions l) -> In o (un_options u) -> In o (map ob_type (l_objects l));
    lk_implements : forall o i, In o (l_objects l) -> In i (ob_interfaces o) -> In i (map if_type (l_interfaces l));
    lk_query : s_query S = query_class l;
    lk_introspection : s_introspection S = negb noI }.
End Linked.

Lemma named_base t : named_type t = base_name t.
Proof. induction t; cbn; auto. Qed.
Lemma get_input_linked S l noI i f : get_input_field i = Ok f -> grammatical (si_type i) -> In (base_name (si_type i)) (builtin_types ++ loaded_names l) ->
  (forall c text v, si_default i = Some (c, text) -> visit_default c = Ok v -> v <> VNull -> input_fits S (si_type i) v) -> input_linked S l noI f.
Proof.
  intros E G Hn Hd. destruct (input_declared noI i f E G) as [Ei Et]. unfold input_linked. rewrite Et. split.
  - rewrite Ei. cbn. destruct (C35_modifiers (si_type i) G) as [H1 H2]. unfold get_input_field in E. destruct (visit_field_type (si_type i)) as [n ms]. cbn [fst snd] in *. subst n.
    match type of E with bind ?x _ = _ => destruct x as [[text v]|e|]; cbn [bind] in E; try discriminate end. destruct (negb _ && _ && _); [discriminate|]. injection E as <-. exact H1.
  - split; [exact Hn|]. rewrite Ei. cbn [declared_input iv_type]. unfold get_input_field in E. destruct (visit_field_type (si_type i)) as [n ms].
    destruct (si_default i) as [[c text]|] eqn:Ed; cbn [bind] in E.
    + destruct (visit_default c) as [v|e|] eqn:Ev; cbn [bind] in E; try discriminate.
      destruct (negb (String.eqb text "") && match v with VNull => true | _ => false end && match ms with MNullable :: _ => false | _ => true end) eqn:Ec; [discriminate|]. injection E as <-. cbn. split.
      * intros N. split; [exact (visit_null_free c v Ev)|exact (Hd c text v eq_refl Ev N)].
      * intros Nt ->. apply String.eqb_neq in Nt. rewrite Nt in Ec. cbn in Ec. destruct ms as [|[|] ms]; try discriminate. eauto.
    + destruct (negb _ && _ && _); [discriminate|]. injection E as <-. cbn. split; [intros N; contradiction|intros N; contradiction].
Qed.
Lemma fixup_input_linked S l noI m f f' : fixup_input m f = Ok f' -> input_linked S l noI f -> input_linked S l noI f'.
Proof.
  unfold fixup_input. destruct (is_builtin (in_type f)); [intros E; injection E as <-; auto|].
  destruct (find_schema_type (in_type f) m) as [[]|]; intros E; try discriminate; injection E as <-; auto.
Qed.
Lemma fixup_inputs_linked S l noI m fs fs' : fixup_inputs m fs = Ok fs' -> (forall f, In f fs -> input_linked S l noI f) -> forall f, In f fs' -> input_linked S l noI f.
Proof. intros E H f Hf. apply mapM_forall2 in E. destruct (forall2_in_r _ _ _ f E Hf) as (f0 & H0 & E0). exact (fixup_input_linked S l noI m f0 f E0 (H f0 H0)). Qed.

(** * From the document *)
Section Document.
  Variables (S : schema) (ds : list sdl_def) (l0 l : loader) (noI : bool).
  Hypothesis U : usual ds.
  Hypothesis Ev : visit_definitions no_definitions ds = Ok l0.
  Hypothesis L : loaded_as ds l0.
  Hypothesis El : validate_schema false l0 = Ok l.
  Hypothesis V : validated l0 l.
  Hypothesis SS : same_schema S (declared_schema noI ds).
  Hypothesis OT : own_types ds.
  Hypothesis DF : defaults_fit S ds.

  Lemma all_names : NoDup (map fst standard_types ++ loaded_names l).
  Proof. exact (gd_names _ _ (loaded_good ds l0 l U L V)). Qed.
  Lemma types_nodup : NoDup (map fst (s_types S)).
  Proof.
    destruct SS as (P & _). eapply Permutation_NoDup; [apply Permutation_map, Permutation_sym, P|]. unfold declared_schema. cbn [s_types]. rewrite map_app.
    eapply Permutation_NoDup; [|exact all_names]. apply Permutation_app_head. rewrite (names_are noI ds), <- (names_are false ds). exact (names_perm ds l0 l U L V).
  Qed.
  Lemma in_types n d : In (n, d) (standard_types ++ loaded_types noI l) -> find_type S n = Some d.
  Proof.
    intros H. unfold find_type. apply assoc_nodup; [exact types_nodup|]. destruct SS as (P & _). eapply Permutation_in; [apply Permutation_sym, P|]. cbn [declared_schema s_types].
    eapply Permutation_in; [|exact H]. apply Permutation_app_head. exact (types_are ds l0 l U L V noI).
  Qed.
  Lemma loaded_type n d : In (n, d) (loaded_types noI l) -> find_type S n = Some d.
  Proof. intros H. apply in_types, in_or_app. right. exact H. Qed.
  Lemma builtin_standard n : In n builtin_types -> In n (map fst standard_types).
  Proof. intros H. unfold standard_types. rewrite map_app. apply in_or_app. left. exact H. Qed.
  Lemma declared_kind d k n : In d ds -> definition_of d = Some (k, n) -> type_is S n k.
  Proof.
    intros Hd E. assert (H : exists t, In (n, t) (declared_type noI ds d) /\ td_kind t = k).
    { destruct d; cbn in E; try discriminate; injection E as <- <-; eexists; (split; [left; reflexivity|reflexivity]). }
    destruct H as (t & Ht & Hk). exists t. split; [|exact Hk]. unfold find_type. apply assoc_nodup; [exact types_nodup|]. destruct SS as (P & _). eapply Permutation_in; [apply Permutation_sym, P|].
    cbn [declared_schema s_types]. apply in_or_app. right. unfold declared_types. apply in_flat_map. eauto.
  Qed.
  Lemma found_kind n k : find_schema_type n (l_types l0) = Some k -> type_is S n (schema_kind k).
  Proof.
    intros E. assert (K : kinds_declared ds (l_types l0)) by (apply (kinds_all ds [] no_definitions l0 Ev); intros n' k' E'; discriminate).
    destruct (K n k E) as (d & Hd & E2). exact (declared_kind d _ n Hd E2).
  Qed.
  Lemma own_name d i : In d ds -> In i (inputs_in d) -> In (base_name (si_type i)) (builtin_types ++ loaded_names l).
  Proof.
    intros Hd Hi. assert (H := OT d i Hd Hi). rewrite in_app_iff in *. destruct H as [H|H]; [auto|]. right. eapply Permutation_in; [exact (Permutation_sym (names_perm ds l0 l U L V))|exact H].
  Qed.
  Lemma get_linked d i f : In d ds -> In i (inputs_in d) -> get_input_field i = Ok f -> input_linked S l noI f.
  Proof. intros Hd Hi E. apply (get_input_linked S l noI i f E (us_inputs ds U d i Hd Hi) (own_name d i Hd Hi)). intros c text v E1 E2 N. exact (DF d i c text v Hd Hi E1 E2 N). Qed.
  Lemma builtin_in n : is_builtin n = true <-> In n builtin_types.
  Proof. unfold is_builtin. rewrite existsb_exists. split; [intros (x & Hx & E); apply String.eqb_eq in E as ->; exact Hx|intros H; exists n; split; [exact H|apply String.eqb_refl]]. Qed.
  Lemma known_own n : known_name (l_types l0) n -> In n (builtin_types ++ loaded_names l).
  Proof.
    intros [H|[k H]]; apply in_or_app; [left; apply builtin_in; exact H|right]. eapply Permutation_in; [exact (Permutation_sym (names_perm ds l0 l U L V))|].
    unfold declared_names. rewrite names_are. exact (la_types _ _ L n k H).
  Qed.
  Lemma output_linked d s x0 inh acc x : In d ds -> In s (fields_in d) -> get_output_field s = Ok x0 -> fixup_output (l_types l0) inh acc x0 = Ok x -> field_linked S l noI x.
  Proof.
    intros Hd Hs E F. assert (G := us_fields ds U d s Hd Hs). assert (Hdecl := output_declared noI s x0 E (field_in_fine ds U d s Hd Hs)). destruct Hdecl as (Hx & Ht & _).
    destruct (fixup_output_keeps noI _ _ _ _ _ F) as (Hk & Kn & _). apply known_own in Kn. unfold field_linked. rewrite Hk, Hx. cbn [declared_field fd_type].
    assert (A0 : forall a, In a (out_args x0) -> input_linked S l noI a).
    { intros a Ha. unfold get_output_field in E. destruct (get_input_fields (sf_args s)) as [args|e|] eqn:Ea; cbn [bind] in E; try discriminate. destruct (visit_field_type (sf_type s)) as [n ms]. injection E as <-.
      cbn in Ha. apply mapM_forall2 in Ea. destruct (forall2_in_r _ _ _ a Ea Ha) as (i & Hi & Ei). exact (get_linked d i a Hd (args_in d s i Hs Hi) Ei). }
    assert (K0 : out_kind x0 = OutBuiltin).
    { unfold get_output_field in E. destruct (get_input_fields (sf_args s)) as [args|e|] eqn:Ea; cbn [bind] in E; try discriminate. destruct (visit_field_type (sf_type s)) as [n ms]. injection E as <-. reflexivity. }
    assert (M0 : stands_for (out_type x0) (out_mods x0) (sf_type s)).
    { destruct (C35_modifiers (sf_type s) G) as [H1 H2]. unfold get_output_field in E. destruct (get_input_fields (sf_args s)) as [args|e|] eqn:Ea; cbn [bind] in E; try discriminate. destruct (visit_field_type (sf_type s)) as [n ms].
      injection E as <-. exact H1. }
    unfold fixup_output in F. destruct (is_builtin (out_type x0)) eqn:Eb.
    - injection F as <-. cbn. split; [exact M0|]. split; [rewrite K0; apply builtin_in; exact Eb|]. split; [intros N; rewrite K0 in N; contradiction|]. split; [exact Kn|exact A0].
    - assert (NB : ~ In (out_type x0) builtin_types) by (rewrite <- builtin_in, Eb; discriminate).
      destruct (find_schema_type (out_type x0) (l_types l0)) as [k|] eqn:Ek; [|discriminate]. assert (T := found_kind _ _ Ek).
      destruct k; cbn [bind] in F; try discriminate;
        (destruct (fixup_inputs (l_types l0) (out_args x0)) as [args|e|] eqn:Ea; cbn [bind] in F; try discriminate; injection F as <-; cbn;
         split; [exact M0|]; split; [exact T|]; split; [intros _; exact NB|]; split; [exact Kn|]; exact (fixup_inputs_linked S l noI _ _ _ Ea A0)).
  Qed.
  Lemma last_find o ops : NoDup (map fst ops) -> last_operation (operation_eqb OpQuery) o (map operation_of ops) = match List.find is_query (map operation_of ops) with Some x => Some (ot_type x) | None => o end.
  Proof.
    revert o. induction ops as [|[k n] ops IH]; intros o H; [reflexivity|]. cbn [map] in *. inversion H as [|? ? Hk Hn]; subst. unfold last_operation in *. cbn [fold_left operation_of ot_operation fst snd List.find ot_type is_query].
    destruct k; cbn; try (apply IH; exact Hn). rewrite (IH _ Hn). destruct (List.find is_query (map operation_of ops)) as [x|] eqn:E; [|reflexivity].
    exfalso. apply find_some in E as [Hx Hq]. apply in_map_iff in Hx as ([k' n'] & <- & Hx). cbn in Hq. unfold is_query in Hq. cbn in Hq. destruct k'; try discriminate. apply Hk. apply in_map_iff. exists (OpQuery, n'). auto.
  Qed.
  Lemma query_found : s_query S = query_class l.
  Proof.
    destruct SS as (_ & -> & _). cbn. rewrite <- (operations_are ds l0 l U L V OpQuery). assert (Ec := vd_operations _ _ V). unfold check_operations in Ec. rewrite (la_operations _ _ L) in Ec. assert (Hn := us_operations ds U). unfold query_class.
    destruct (schema_operations ds) as [|e ops]; cbn [map] in Ec.
    - cbn [bind] in Ec. destruct (existsb is_query _); [|discriminate]. injection Ec as <-. unfold default_operation.
      destruct (LoaderModel.declares ob_type "Query" (l_objects l0)), (LoaderModel.declares ob_type "Mutation" (l_objects l0)), (LoaderModel.declares ob_type "Subscription" (l_objects l0)); reflexivity.
    - destruct (List.find _ _) eqn:Ef in Ec; [discriminate|]. cbn [bind] in Ec. destruct (existsb is_query _); [|discriminate]. injection Ec as <-.
      change (operation_of e :: map operation_of ops) with (map operation_of (e :: ops)). rewrite (last_find None (e :: ops) Hn). destruct (List.find is_query _); reflexivity.
  Qed.
  Lemma nodup_sub : NoDup (builtin_types ++ loaded_names l).
  Proof.
    assert (H := all_names). unfold standard_types in H. rewrite map_app, <- app_assoc in H. change (map fst builtin_scalars) with builtin_types in H.
    assert (H1 := nodup_app_l _ _ H). assert (H2 := nodup_app_r _ _ (nodup_app_r _ _ H)). assert (H3 := nodup_app_disjoint _ _ H). revert H1 H2 H3. clear. generalize builtin_types (map fst (declared_types false introspection_sdl)) (loaded_names l).
    intros a b c. induction a as [|x a IH]; intros H1 H2 H3; [exact H2|]. inversion H1; subst. cbn. constructor; [|apply IH; auto; intros y Hy; apply H3; right; exact Hy].
    intros Hx. apply in_app_or in Hx as [Hx|Hx]; [contradiction|]. apply (H3 x); [left; reflexivity|]. apply in_or_app. right. exact Hx.
  Qed.
  Theorem document_linked : linked S l noI.
  Proof.
    constructor.
    - intros n Hn. exists (mkTypeDef SCALAR "Built-in type" [] [] [] [] []). split; [|reflexivity]. apply in_types, in_or_app. left. unfold standard_types. apply in_or_app. left.
      unfold builtin_scalars. apply (in_map (fun n => (n, mkTypeDef SCALAR "Built-in type" [] [] [] [] []))). exact Hn.
    - exact nodup_sub.
    - intros t Ht. apply loaded_type. unfold loaded_types. rewrite !in_app_iff. left. exact (in_map (scalar_entry noI) _ t Ht).
    - intros t Ht. apply loaded_type. unfold loaded_types. rewrite !in_app_iff. right. left. exact (in_map (enum_entry noI) _ t Ht).
    - intros t Ht. apply loaded_type. unfold loaded_types. rewrite !in_app_iff. right. right. left. exact (in_map (input_entry noI) _ t Ht).
    - intros t Ht. apply loaded_type. unfold loaded_types. rewrite !in_app_iff. right. right. right. left. exact (in_map (union_entry noI) _ t Ht).
    - intros t Ht. apply loaded_type. unfold loaded_types. rewrite !in_app_iff. right. right. right. right. left. exact (in_map (interface_entry noI l) _ t Ht).
    - intros t Ht. apply loaded_type. unfold loaded_types. rewrite !in_app_iff. right. right. right. right. right. exact (in_map (object_entry noI) _ t Ht).
    - intros n Hn. destruct SS as (P & _). unfold find_type. rewrite (assoc_permutation n _ _ P types_nodup). cbn [declared_schema s_types].
      assert (Hd : ~ In n (map fst (declared_types noI ds))).
      { intros H. apply Hn. eapply Permutation_in; [exact (Permutation_sym (names_perm ds l0 l U L V))|]. unfold declared_names. rewrite names_are in *. exact H. }
      revert Hd. generalize (declared_types noI ds). intros r Hr. induction standard_types as [|[m d] ts IH]; cbn.
      + induction r as [|[m d] r IH]; [reflexivity|]. cbn in *. destruct (String.eqb_spec n m) as [->|]; [exfalso; apply Hr; auto|apply IH; auto].
      + destruct (String.eqb n m); [reflexivity|exact IH].
    - intros t x Ht Hx. destruct (forall2_in_r _ _ _ t (vd_objects _ _ V) Ht) as (t0 & Ht0 & (_ & _ & _ & _ & inh & acc & E)).
      destruct (forall2_in_l _ _ _ t0 (la_objects _ _ L) Ht0) as ([n desc] & _ & (_ & _ & _ & _ & Eg)). cbn [fst snd] in Eg. rewrite object_fields_chunk in Eg.
      apply mapM_forall2 in E. destruct (forall2_in_r _ _ _ x E Hx) as (x0 & Hx0 & E0). apply mapM_forall2 in Eg. destruct (forall2_in_r _ _ _ x0 Eg Hx0) as (s & Hs & Es).
      destruct (in_object_fields ds n s Hs) as (d & Hd & Hsd). exact (output_linked d s x0 inh acc x Hd Hsd Es E0).
    - intros t f Ht Hf. destruct (vd_inputs _ _ V) as (ts & Hp & H). apply (Permutation_in _ Hp) in Ht. destruct (forall2_in_r _ _ _ t H Ht) as (t0 & Ht0 & (_ & _ & _ & E)).
      destruct (forall2_in_l _ _ _ t0 (la_inputs _ _ L) Ht0) as ([n desc] & _ & (_ & _ & _ & Eg)). cbn [fst snd] in Eg. rewrite inputs_chunk in Eg.
      apply mapM_forall2 in E. destruct (forall2_in_r _ _ _ f E Hf) as (f0 & Hf0 & E0). apply mapM_forall2 in Eg. destruct (forall2_in_r _ _ _ f0 Eg Hf0) as (i & Hi & Ei).
      destruct (in_inputs ds n i Hi) as (d & Hd & Hid). split; [exact (fixup_input_linked S l noI _ f0 f E0 (get_linked d i f0 Hd Hid Ei))|].
      unfold fixup_input in E0. intros T. destruct (is_builtin (in_type f0)) eqn:Eb.
      + injection E0 as <-. apply builtin_in in Eb. exfalso. destruct T as (td & Ft & Kt). assert (Fb : find_type S (in_type f0) = Some (mkTypeDef SCALAR "Built-in type" [] [] [] [] [])); [|rewrite Ft in Fb; injection Fb as ->; discriminate].
        apply in_types, in_or_app. left. unfold standard_types. apply in_or_app. left. unfold builtin_scalars. apply (in_map (fun n => (n, mkTypeDef SCALAR "Built-in type" [] [] [] [] []))). exact Eb.
      + destruct (find_schema_type (in_type f0) (l_types l0)) as [k|] eqn:Ek; [|discriminate]. assert (T' := found_kind _ _ Ek). destruct T as (td & Ft & Kt). destruct T' as (td' & Ft' & Kt').
        destruct k; cbn in Kt'; try discriminate; injection E0 as <-; cbn in *; try reflexivity; congruence.
    - apply (C34_loaded false ds l). unfold load. rewrite Ev. cbn [bind]. exact El.
    - exact (vd_options _ _ V).
    - exact (vd_implements _ _ V).
    - exact query_found.
    - destruct SS as (_ & _ & _ & _ & _ & ->). reflexivity.
  Qed.
End Document.

Theorem loaded_linked S ds l noI : load false ds = Ok l -> usual ds -> same_schema S (declared_schema noI ds) -> own_types ds -> defaults_fit S ds -> linked S l noI.
Proof.
  intros E U SS OT DF. unfold load in E. destruct (visit_definitions no_definitions ds) as [l0|e|] eqn:Ev; cbn [bind] in E; try discriminate.
  assert (Hn : NoDup (flat_map name_of ds)). { assert (H := us_names ds U). apply nodup_app_r in H. unfold declared_names in H. rewrite names_are in H. exact H. }
  assert (L : loaded_as ds l0) by (apply (GenLoad.visit_all ds Hn (us_extensions ds U) ds [] l0); [rewrite app_nil_r; reflexivity|exact Ev]).
  exact (document_linked S ds l0 l noI U Ev L E (validate_parts l0 l E) SS OT DF).
Qed.
Lemma loaded_objects ds l n : load false ds = Ok l -> usual ds -> In n (GenSpec.objects_of ds) -> exists o, In o (l_objects l) /\ ob_type o = n.
Proof.
  intros E U Hn. unfold load in E. destruct (visit_definitions no_definitions ds) as [l0|e|] eqn:Ev; cbn [bind] in E; try discriminate.
  assert (Hd : NoDup (flat_map name_of ds)). { assert (H := us_names ds U). apply nodup_app_r in H. unfold declared_names in H. rewrite names_are in H. exact H. }
  assert (L : loaded_as ds l0) by (apply (GenLoad.visit_all ds Hd (us_extensions ds U) ds [] l0); [rewrite app_nil_r; reflexivity|exact Ev]).
  assert (H := objects_are ds l0 l U L (validate_parts l0 l E)). unfold GenSpec.objects_of in Hn. apply in_flat_map in Hn as (d & Hd' & Hx). destruct d; cbn in Hx; try contradiction. destruct Hx as [<-|[]].
  assert (Hi : In (name, desc) (flat_map object_decl ds)) by (apply in_flat_map; eexists; split; [exact Hd'|left; reflexivity]).
  destruct (forall2_in_r _ _ _ _ H Hi) as (o & Ho & E1 & _). eauto.
Qed.
Lemma loaded_apart ds l n : load false ds = Ok l -> usual ds -> In n (map fst standard_types) -> ~ In n (loaded_names l).
Proof.
  intros E U Hn. unfold load in E. destruct (visit_definitions no_definitions ds) as [l0|e|] eqn:Ev; cbn [bind] in E; try discriminate.
  assert (Hd : NoDup (flat_map name_of ds)). { assert (H := us_names ds U). apply nodup_app_r in H. unfold declared_names in H. rewrite names_are in H. exact H. }
  assert (L : loaded_as ds l0) by (apply (GenLoad.visit_all ds Hd (us_extensions ds U) ds [] l0); [rewrite app_nil_r; reflexivity|exact Ev]).
  exact (nodup_app_disjoint _ _ (all_names ds l0 l U L (validate_parts l0 l E)) n Hn).
Qed.
Lemma loaded_query ds l : load false ds = Ok l -> usual ds -> In (query_class l) (map ob_type (l_objects l)).
Proof.
  intros E U. unfold load in E. destruct (visit_definitions no_definitions ds) as [l0|e|] eqn:Ev; cbn [bind] in E; try discriminate. assert (V := validate_parts l0 l E).
  assert (N : map ob_type (l_objects l) = map ob_type (l_objects l0)).
  { assert (H := vd_objects _ _ V). induction H as [|a b' x y (E1 & _) H IH]; [reflexivity|]. cbn. f_equal; [congruence|exact IH]. }
  rewrite N. assert (Ec := vd_operations _ _ V). unfold check_operations in Ec. unfold query_class.
  assert (G : forall ops, (forall o, In o ops -> LoaderModel.declares ob_type (ot_type o) (l_objects l0) = true) -> existsb is_query ops = true ->
    In (match List.find is_query ops with Some o => ot_type o | None => "" end) (map ob_type (l_objects l0))).
  { intros ops H Hq. destruct (List.find is_query ops) as [o|] eqn:Ef; [apply find_some in Ef as [Ho _]; apply GenLoad.declares_in; exact (H o Ho)|].
    exfalso. apply existsb_exists in Hq as (o & Ho & Hq). rewrite (find_none _ _ Ef o Ho) in Hq. discriminate. }
  destruct (l_operations l0) as [|e ops].
  - cbn [bind] in Ec. destruct (existsb is_query _) eqn:Eq in Ec; [|discriminate]. injection Ec as <-. apply G; [|exact Eq]. intros o Ho. unfold default_operation in Ho. rewrite !in_app_iff in Ho.
    destruct Ho as [Ho|[Ho|Ho]]; (match type of Ho with In _ (if ?c then _ else _) => destruct c eqn:Ed end); cbn in Ho; try contradiction; destruct Ho as [<-|[]]; exact Ed.
  - destruct (List.find _ _) eqn:Ef in Ec; [discriminate|]. cbn [bind] in Ec. destruct (existsb is_query _) eqn:Eq in Ec; [|discriminate]. injection Ec as <-. apply G; [|exact Eq].
    intros o Ho. assert (H := find_none _ _ Ef o Ho). cbn in H. apply negb_false_iff in H. exact H.
Qed.
