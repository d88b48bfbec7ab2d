(** Which documents have well-formed schemas (for C58). *)
From Coq Require Import String List Bool Permutation Relations.
From Verif Require Import Cpp Value Ast ModifiersModel SchemaModel LoaderModel LoaderSpec GenModel GenSpec GenEval GenDecl GenProps AcceptSpec AcceptProofs SchemaCheck ValidationSpec TypedSpec ClientSpec VariablesSpec GenServiceLink GenServiceProofs ClientSchemaProps GenSound.
Import ListNotations.
Local Open Scope string_scope.
Local Open Scope list_scope.

Lemma usual_orderly ds : usual ds -> texts_given ds -> orderly ds.
Proof.
  intros U T. constructor.
  - assert (H := us_names ds U). exact (nodup_app_r _ _ H).
  - exact (us_extensions ds U).
  - exact (us_fields ds U).
  - exact (us_inputs ds U).
  - exact T.
Qed.
Lemma grammatical_proper t : grammatical t -> proper t.
Proof.
  induction t as [n|t IH|t IH]; cbn; intros H; [exact Logic.I|auto|]. destruct t; [|  |contradiction]; (split; [apply IH; exact H|discriminate]).
Qed.

(** * Schemas with the same types *)
Section Same.
  Variables S D : schema.
  Hypothesis F : forall n, find_type S n = find_type D n.
  Lemma is_same n k : type_is S n k <-> type_is D n k.
  Proof. unfold type_is. rewrite F. tauto. Qed.
  Lemma input_same t : input_type S t <-> input_type D t.
  Proof. unfold input_type, input_named. rewrite !is_same. tauto. Qed.
  Lemma inputs_same l : inputs_wf S l <-> inputs_wf D l.
  Proof. unfold inputs_wf. split; intros [N H]; (split; [exact N|]); intros a Ha; destruct (H a Ha) as [P I]; (split; [exact P|]); apply input_same; exact I. Qed.
  Lemma possible_same t o : possible S t o <-> possible D t o.
  Proof. unfold possible. rewrite is_same. split; intros [H|(d & d' & H)]; [left; exact H|right; exists d, d'; rewrite F in H; rewrite F in H; exact H|left; exact H|right; exists d, d'; rewrite !F; exact H]. Qed.
  Lemma composite_same t : composite S t <-> composite D t.
  Proof. unfold composite. rewrite !is_same. tauto. Qed.
  Lemma covers_same a b c d : covers D a b c d -> covers S a b c d.
  Proof. intros (H1 & H2 & H3). split; [rewrite !composite_same; exact H1|]. split; [intros o; rewrite !possible_same; apply H2|exact H3]. Qed.
  Lemma sub_same a b : sub_type D a b -> sub_type S a b.
  Proof. intros H. induction H; try (constructor; assumption). apply st_possible; [apply possible_same; assumption|apply is_same; assumption]. Qed.
  Lemma implemented_same : interfaces_implemented D -> interfaces_implemented S.
  Proof. intros H i di t dt f E K Ht Et Hf. rewrite F in E, Et. destruct (H i di t dt f E K Ht Et Hf) as (f' & H1 & H2 & H3). exists f'. split; [exact H1|]. split; [exact H2|apply covers_same; exact H3]. Qed.
  Lemma covariant_same : interfaces_covariant D -> interfaces_covariant S.
  Proof. intros H i di t dt f f' E K Ht Et Hf Hf' En. rewrite F in E, Et. exact (sub_same _ _ (H i di t dt f f' E K Ht Et Hf Hf' En)). Qed.
  Lemma conditions_same : s_directives S = s_directives D -> conditions_declared D -> conditions_declared S.
  Proof. intros E [H1 H2]. split; [apply is_same; exact H1|rewrite E; exact H2]. Qed.
  Lemma recursive_same : not_recursive D -> not_recursive S.
  Proof.
    intros H a C. apply (H a). revert C. apply clos_trans_imp. intros x y [(d & f & E & R) (d' & E' & K')]. rewrite F in E, E'. split; [exists d, f; auto|exists d'; auto].
  Qed.
  Lemma enums_same : enums_distinct D -> enums_distinct S.
  Proof. intros H n d E K. rewrite F in E. exact (H n d E K). Qed.
  Lemma plain_same : plain_enums D -> plain_enums S.
  Proof. intros H n d v E K Hv. rewrite F in E. exact (H n d v E K Hv). Qed.
  Lemma clean_same : names_clean D -> names_clean S.
  Proof. intros H n d E. rewrite F in E. exact (H n d E). Qed.
  Lemma fits_same : forall v t, input_fits D t v -> input_fits S t v.
  Proof.
    assert (NN : forall t v, (forall t, input_fits D (TNamed t) v -> input_fits S (TNamed t) v) -> (forall t, input_fits D (TListOf t) v -> input_fits S (TListOf t) v) -> input_fits D t v -> input_fits S t v).
    { intros t v H1 H2. induction t as [n|t IH|t IH]; [apply H1|apply H2|]. intros H. inversion H as [? N|? ? N F'| | | | | | | | | | |]; subst; [apply if_null; exact N|]. apply if_nonnull; [exact N|exact (IH F')]. }
    induction v as [es IH|vs IH|s b| |b|z|f|s| |v IH] using value_ind'; intros t; (apply NN; [intros n H|intros u H]);
      inversion H as [? N|? ? N F'|? ? Fv|? td y Hf K Hx|? td y Hf K Hx|z'|f'|z'|s' b'|s' b' bytes|b'|? ? T B Nn|? td kvs Hf K Hi]; subst; try (constructor; assumption); try (econstructor; eassumption);
      try (apply if_custom; [apply is_same; assumption|assumption|assumption]); try (eapply if_enum; [rewrite F; eassumption|assumption|assumption]); try (eapply if_enum_json; [rewrite F; eassumption|assumption|assumption]).
    - apply (if_object S n td es); [rewrite F; exact Hf|exact K|]. inversion Hi as [? ? I1 I2]; subst. constructor; [|exact I2]. intros k v Lk. destruct (I1 k v Lk) as (a & Ha & En & P). exists a. split; [exact Ha|]. split; [exact En|].
      inversion P as [? ? F'|? Dd]; subst; [|apply pf_default; exact Dd]. apply pf_fits. apply lookup_in in Lk. rewrite Forall_forall in IH. exact (IH _ Lk _ F').
    - apply if_list. clear H. induction Fv as [|w vs Hw _ IHv]; [constructor|]. inversion IH; subst. constructor; [auto|apply IHv; assumption].
  Qed.
End Same.
Lemma same_find S D : same_schema S D -> NoDup (map fst (s_types D)) -> forall n, find_type S n = find_type D n.
Proof.
  intros (P & _) N n. unfold find_type. apply assoc_permutation; [exact P|]. eapply Permutation_NoDup; [apply Permutation_map, Permutation_sym, P|exact N].
Qed.
Lemma same_sym S D : same_schema S D -> same_schema D S.
Proof. intros (P & A & B & C & E & G). split; [apply Permutation_sym; exact P|]. auto. Qed.
Lemma wf_same S D : same_schema S D -> NoDup (map fst (s_types D)) -> schema_wf D -> schema_wf S.
Proof.
  intros SS N W. assert (F := same_find S D SS N). destruct SS as (_ & Eq & Em & Es & Ed & Ei). constructor.
  - intros n d E. rewrite F in E. exact (wf_names D W n d E).
  - intros n d E. rewrite F in E. destruct (wf_fields D W n d E) as [ND H]. split; [exact ND|]. intros f Hf. destruct (H f Hf) as (H1 & H2 & H3 & H4). split; [exact H1|]. split; [exact H2|]. split; [rewrite F; exact H3|]. apply (inputs_same S D F). exact H4.
  - intros n d E. rewrite F in E. exact (wf_union D W n d E).
  - intros n d E K. rewrite F in E. apply (inputs_same S D F). exact (wf_inputs D W n d E K).
  - rewrite Ed. destruct (wf_directives D W) as [ND H]. split; [exact ND|]. intros dd Hd. apply (inputs_same S D F). exact (H dd Hd).
  - apply (is_same S D F). exact (wf_string D W).
  - rewrite Ei. intros E. rewrite !(is_same S D F). exact (wf_introspection D W E).
  - rewrite Eq. apply (is_same S D F). exact (wf_query D W).
  - rewrite Em. intros t E. apply (is_same S D F). exact (wf_mutation D W t E).
  - rewrite Es. intros t E. apply (is_same S D F). exact (wf_subscription D W t E).
Qed.

(** * The standard types *)
Definition D0 : schema := mkSchema standard_types "" None None (declared_directives false introspection_sdl) true.
Lemma standard_b : forallb (type_b D0) standard_types = true /\ forallb (fun d => inputs_b D0 (dd_args d)) (s_directives D0) = true.
Proof. split; vm_compute; reflexivity. Qed.
Lemma standard_only_input : forallb (fun e => negb (kind_eqb (td_kind (snd e)) INPUT_OBJECT)) standard_types = true.
Proof. vm_compute. reflexivity. Qed.

Definition enum_named (n : string) (d : sdl_def) : bool := match definition_of d with Some (ENUM, m) => String.eqb n m | _ => false end.
Lemma enum_found n : existsb (enum_named n) introspection_sdl = true -> is_a introspection_sdl ENUM n.
Proof.
  intros H. apply existsb_exists in H as (d & Hd & E). exists d. split; [exact Hd|]. unfold enum_named in E. destruct (definition_of d) as [[[] m]|]; try discriminate. apply String.eqb_eq in E. subst. reflexivity.
Qed.

Section Declared.
  Variables (noI : bool) (ds : list sdl_def).
  Hypothesis U : usual ds.
  Let D := declared_schema noI ds.
  Lemma D_names : NoDup (map fst (s_types D)).
  Proof. exact (names_of_schema noI ds U). Qed.
  Lemma D_declared n d : In (n, d) (declared_types noI ds) -> find_type D n = Some d.
  Proof. intros H. apply (assoc_nodup n (s_types D)); [exact D_names|]. cbn [s_types D declared_schema]. apply in_or_app. right. exact H. Qed.
  Lemma D_standard n d : find_type D0 n = Some d -> find_type D n = Some d.
  Proof. unfold find_type. cbn [s_types D D0 declared_schema]. rewrite assoc_app. intros ->. reflexivity. Qed.
  Lemma D_cases n d : find_type D n = Some d -> (find_type D0 n = Some d /\ In (n, d) standard_types) \/ In (n, d) (declared_types noI ds).
  Proof.
    intros H. assert (I : In (n, d) (standard_types ++ declared_types noI ds)) by exact (SchemaCheck.find_in D n d H). apply in_app_or in I as [I|I]; [left|right; exact I]. split; [|exact I].
    unfold find_type. cbn [s_types D0]. apply assoc_nodup; [|exact I]. assert (N : NoDup (map fst (standard_types ++ declared_types noI ds))) by exact D_names. rewrite map_app in N. exact (nodup_app_l _ _ N).
  Qed.
  Lemma is_declared k n : is_a ds k n -> type_is D n k.
  Proof.
    intros (d & Hd & E). assert (H : exists t, In (n, t) (declared_type noI ds d) /\ td_kind t = k).
    { destruct d; cbn in E; try discriminate; injection E as <- <-; eexists; (split; [left; reflexivity|reflexivity]). }
    destruct H as (t & Ht & Hk). exists t. split; [|exact Hk]. apply D_declared. apply in_flat_map. eauto.
  Qed.
  Lemma is_standard k n : is_a introspection_sdl k n -> type_is D n k.
  Proof.
    intros (d & Hd & E). cbn in Hd. repeat destruct Hd as [<-|Hd]; try contradiction; cbn in E; try discriminate; injection E as <- <-; eexists; (split; [apply D_standard; reflexivity|reflexivity]).
  Qed.
  Lemma is_builtin_scalar n : builtin n -> type_is D n SCALAR.
  Proof. intros H. cbn in H. repeat destruct H as [<-|H]; try contradiction; eexists; (split; [apply D_standard; reflexivity|reflexivity]). Qed.
  Lemma declared_is n d : In (n, d) (declared_types noI ds) -> is_a ds (td_kind d) n.
  Proof.
    intros H. apply in_flat_map in H as (x & Hx & H). exists x. split; [exact Hx|]. destruct x; cbn in H; try contradiction; destruct H as [H|[]]; injection H as <- <-; reflexivity.
  Qed.
  Lemma input_named_of n : argument_name ds n -> input_named D n.
  Proof.
    intros [[B|(k & Hk & A)]|E].
    - left. exact (is_builtin_scalar n B).
    - apply is_declared in A. unfold input_named. cbn in Hk. destruct Hk as [<-|[<-|[<-|[]]]]; auto.
    - right. left. exact (is_standard _ _ E).
  Qed.
  Lemma type_fun n k k' : type_is D n k -> type_is D n k' -> k = k'.
  Proof. intros (d & E & K) (d' & E' & K'). congruence. Qed.
  Lemma output_named_of n : output_name ds n -> exists d, find_type D n = Some d /\ td_kind d <> INPUT_OBJECT.
  Proof.
    intros [B|(k & Hk & A)].
    - destruct (is_builtin_scalar n B) as (d & E & K). exists d. split; [exact E|congruence].
    - destruct (is_declared k n A) as (d & E & K). exists d. split; [exact E|]. rewrite K. cbn in Hk. repeat destruct Hk as [<-|Hk]; try contradiction; discriminate.
  Qed.
  Lemma named_of n : input_named D n -> argument_name ds n.
  Proof.
    intros H. assert (G : exists d, find_type D n = Some d /\ In (td_kind d) [SCALAR; ENUM; INPUT_OBJECT]) by (destruct H as [(d & E & K)|[(d & E & K)|(d & E & K)]]; exists d; (split; [exact E|rewrite K; cbn; auto])).
    destruct G as (d & E & K). destruct (D_cases n d E) as [[_ I]|I].
    - clear - I K. cbn in I. repeat destruct I as [I|I]; try contradiction; injection I as <- <-; cbn in K;
        try (left; left; cbn; tauto); try (exfalso; intuition discriminate); right; apply enum_found; reflexivity.
    - left. right. exists (td_kind d). split; [exact K|exact (declared_is n d I)].
  Qed.

  (** ** The types of the document *)
  Lemma object_def_of n : is_a ds OBJECT n -> exists d, find_type D n = Some d /\ td_kind d = OBJECT /\ td_fields d = map (declared_field noI) (object_fields_of ds n).
  Proof.
    intros (d & Hd & E). destruct d; cbn in E; try discriminate. injection E as ->. eexists. split; [apply D_declared, in_flat_map; eexists; split; [exact Hd|left; reflexivity]|]. split; reflexivity.
  Qed.
  Lemma interface_def_of n : is_a ds INTERFACE n -> exists d, find_type D n = Some d /\ td_kind d = INTERFACE /\ td_fields d = map (declared_field noI) (interface_fields_of ds n).
  Proof.
    intros (d & Hd & E). destruct d; cbn in E; try discriminate. injection E as ->. eexists. split; [apply D_declared, in_flat_map; eexists; split; [exact Hd|left; reflexivity]|]. split; reflexivity.
  Qed.
  Lemma input_def_of n : is_a ds INPUT_OBJECT n -> exists d, find_type D n = Some d /\ td_kind d = INPUT_OBJECT /\ td_inputs d = map (declared_input noI) (inputs_of ds n).
  Proof.
    intros (d & Hd & E). destruct d; cbn in E; try discriminate. injection E as ->. eexists. split; [apply D_declared, in_flat_map; eexists; split; [exact Hd|left; reflexivity]|]. split; reflexivity.
  Qed.
  Lemma object_fields_in n f : In f (object_fields_of ds n) -> exists d, In d ds /\ In f (fields_in d).
  Proof.
    unfold object_fields_of. rewrite in_flat_map. intros (d & Hd & H). exists d. split; [exact Hd|]. destruct d; try contradiction; cbn in *; unfold of_type in H; cbn in H; destruct (String.eqb n name); auto; contradiction.
  Qed.
  Lemma interface_fields_in n f : In f (interface_fields_of ds n) -> exists d, In d ds /\ In f (fields_in d).
  Proof.
    unfold interface_fields_of. rewrite in_flat_map. intros (d & Hd & H). exists d. split; [exact Hd|]. destruct d; try contradiction; cbn in *; unfold of_type in H; cbn in H; destruct (String.eqb n name); auto; contradiction.
  Qed.
  Lemma field_args_in d f i : In f (fields_in d) -> In i (sf_args f) -> In i (inputs_in d).
  Proof. destruct d; cbn; try contradiction; intros Hf Hi; apply in_flat_map; eauto. Qed.
  Lemma unchecked_arg d f i : In f (fields_in d) -> builtin (base_name (sf_type f)) -> In i (sf_args f) -> In i (unchecked d).
  Proof. intros Hf B Hi. assert (E := proj2 (builtin_iff _) B). destruct d; cbn [unchecked fields_in] in *; try contradiction; apply in_flat_map; exists f; (split; [exact Hf|rewrite E; exact Hi]). Qed.
  Lemma unchecked_cases d i : In i (unchecked d) -> (exists n desc locs args, d = DefDirective n desc locs args /\ In i args) \/ (exists f, In f (fields_in d) /\ In i (sf_args f)).
  Proof.
    destruct d; cbn [unchecked fields_in]; try contradiction; intros H; [right|right|right|right|left; do 4 eexists; split; [reflexivity|exact H]];
      apply in_flat_map in H as (f & Hf & H); exists f; (split; [exact Hf|]); (destruct (is_builtin (base_name (sf_type f))); [exact H|contradiction]).
  Qed.
  Lemma input_names is : map iv_name (map (declared_input noI) is) = map si_name is.
  Proof. rewrite map_map. reflexivity. Qed.
  Lemma field_names fs : map fd_name (map (declared_field noI) fs) = map sf_name fs.
  Proof. rewrite map_map. reflexivity. Qed.
  Lemma directives_named b : map dd_name (declared_directives b ds) = directive_names ds.
  Proof. unfold declared_directives, directive_names. clear. induction ds as [|d r IH]; [reflexivity|]. cbn [flat_map]. rewrite map_app, IH. destruct d; reflexivity. Qed.

  Hypothesis OD : orderly ds.
  Hypothesis AC : acceptable ds.
  Section Sound.
    Hypothesis SO : sound ds.
    Lemma inputs_sound is : NoDup (map si_name is) -> (forall i, In i is -> grammatical (si_type i) /\ argument_name ds (base_name (si_type i))) -> inputs_wf D (map (declared_input noI) is).
    Proof.
      intros N H. split; [rewrite input_names; exact N|]. intros a Ha. apply in_map_iff in Ha as (i & <- & Hi). destruct (H i Hi) as [G A]. cbn [declared_input iv_type]. split; [apply grammatical_proper; exact G|].
      unfold input_type. rewrite named_base. apply input_named_of. exact A.
    Qed.
    Lemma field_sound d f : In d ds -> In f (fields_in d) ->
      ~ In (fd_name (declared_field noI f)) [""; "__typename"; "__schema"; "__type"] /\ proper (fd_type (declared_field noI f)) /\
      (exists d', find_type D (named_type (fd_type (declared_field noI f))) = Some d' /\ td_kind d' <> INPUT_OBJECT) /\ inputs_wf D (fd_args (declared_field noI f)).
    Proof.
      intros Hd Hf. cbn [declared_field fd_name fd_type fd_args]. split; [exact (so_reserved ds SO d f Hd Hf)|]. split; [apply grammatical_proper; exact (od_fields ds OD d f Hd Hf)|].
      split; [rewrite named_base; apply output_named_of; exact (ac_fields ds AC d f Hd Hf)|]. apply inputs_sound; [exact (so_arguments ds SO d f Hd Hf)|].
      intros i Hi. split; [exact (od_inputs ds OD d i Hd (field_args_in d f i Hf Hi))|]. destruct (builtin_dec (base_name (sf_type f))) as [B|B].
      - exact (so_unchecked ds SO d i Hd (unchecked_arg d f i Hf B Hi)).
      - left. exact (ac_arguments ds AC d f i Hd Hf B Hi).
    Qed.
    Lemma root_object op t : declared_root ds op = Some t -> type_is D t OBJECT.
    Proof.
      unfold declared_root. destruct (schema_operations ds) as [|e ops] eqn:E.
      - destruct (existsb (String.eqb (default_name op)) (GenSpec.objects_of ds)) eqn:H; [|discriminate]. intros X. injection X as <-. apply is_declared. apply existsb_exists in H as (m & Hm & Em). apply String.eqb_eq in Em. subst m. unfold GenSpec.objects_of in Hm. apply in_flat_map in Hm as (d & Hd & Hm). exists d. split; [exact Hd|]. destruct d; try contradiction. destruct Hm as [<-|[]]. reflexivity.
      - intros H. destruct (List.find _ (e :: ops)) as [x|] eqn:Ef; [|discriminate]. cbn in H. injection H as <-. apply find_some in Ef as [Hx _]. apply is_declared. apply (ac_operations ds AC x). rewrite E. exact Hx.
    Qed.
    Theorem sound_wf : schema_wf D.
    Proof.
      destruct standard_b as [SB DB]. rewrite forallb_forall in SB, DB.
      assert (INP : forall l, inputs_b D0 l = true -> inputs_wf D l).
      { intros l H. apply inputs_ok in H. destruct H as [N H]. split; [exact N|]. intros a Ha. destruct (H a Ha) as [P I]. split; [exact P|]. destruct I as [(d & E & K)|[(d & E & K)|(d & E & K)]]; [left|right; left|right; right]; exists d; (split; [exact (D_standard _ _ E)|exact K]). }
      assert (ST : forall n d, In (n, d) standard_types -> type_b D0 (n, d) = true) by (intros n d H; exact (SB (n, d) H)).
      constructor.
      - intros n d E. destruct (D_cases n d E) as [[_ I]|I].
        + specialize (ST n d I). unfold type_b in ST. cbn [fst snd] in ST. rewrite !andb_true_iff in ST. destruct ST as (((((T1 & T2) & T3) & T4) & T5) & T6). apply negb_true_iff, String.eqb_neq in T1. split; [exact T1|]. apply negb_true_iff in T2. cbn in T2.
          destruct (td_kind d); cbn in T2; try discriminate; split; discriminate.
        + split; [apply (so_names ds SO); unfold declared_names; assert (X := declared_is n d I); destruct X as (x & Hx & Ex); apply in_map_iff|].
          * destruct (declared_type false ds x) as [|[m d'] r] eqn:Ed; [destruct x; cbn in Ed, Ex; discriminate|]. exists (m, d'). assert (Em : m = n) by (destruct x; cbn in Ed, Ex; try discriminate; injection Ed as <- <- <-; injection Ex; congruence). split; [exact Em|].
            apply in_flat_map. exists x. split; [exact Hx|]. rewrite Ed. left. reflexivity.
          * destruct (declared_is n d I) as (x & _ & Ex). destruct (td_kind d); destruct x; cbn in Ex; try discriminate; split; discriminate.
      - intros n d E. destruct (D_cases n d E) as [[_ I]|I].
        + specialize (ST n d I). unfold type_b in ST. cbn [fst snd] in ST. rewrite !andb_true_iff in ST. destruct ST as (((((T1 & T2) & T3) & T4) & T5) & T6). split; [apply distinct_ok; exact T3|]. intros f Hf. rewrite forallb_forall in T4.
          destruct (SchemaCheck.field_ok D0 f (T4 f Hf)) as (F1 & F2 & (d' & F3 & F4) & _). split; [exact F1|]. split; [exact F2|]. split; [exists d'; split; [exact (D_standard _ _ F3)|exact F4]|]. apply INP. specialize (T4 f Hf). unfold field_b in T4. rewrite !andb_true_iff in T4. tauto.
        + apply in_flat_map in I as (x & Hx & I). destruct x; cbn in I; try contradiction; destruct I as [I|[]]; injection I as <- <-; cbn [td_fields]; try (split; [constructor|intros f []]).
          * rewrite field_names. split; [apply (so_interface_fields ds SO)|]. intros f Hf. apply in_map_iff in Hf as (s & <- & Hs). destruct (interface_fields_in _ s Hs) as (d & Hd & Hf). exact (field_sound d s Hd Hf).
          * rewrite field_names. split; [apply (so_object_fields ds SO)|]. intros f Hf. apply in_map_iff in Hf as (s & <- & Hs). destruct (object_fields_in _ s Hs) as (d & Hd & Hf). exact (field_sound d s Hd Hf).
      - intros n d E K. destruct (D_cases n d E) as [[_ I]|I].
        + specialize (ST n d I). unfold type_b in ST. cbn [fst snd] in ST. rewrite !andb_true_iff in ST. destruct ST as (((((T1 & T2) & T3) & T4) & T5) & T6). rewrite K in T5. cbn in T5. destruct (td_fields d); [reflexivity|discriminate].
        + apply in_flat_map in I as (x & Hx & I). destruct x; cbn in I; try contradiction; destruct I as [I|[]]; injection I as <- <-; cbn in K; try discriminate; reflexivity.
      - intros n d E K. destruct (D_cases n d E) as [[_ I]|I].
        + specialize (ST n d I). unfold type_b in ST. cbn [fst snd] in ST. rewrite !andb_true_iff in ST. destruct ST as (((((T1 & T2) & T3) & T4) & T5) & T6). rewrite K in T6. cbn in T6. apply INP. exact T6.
        + apply in_flat_map in I as (x & Hx & I). destruct x; cbn in I; try contradiction; destruct I as [I|[]]; injection I as <- <-; cbn in K; try discriminate. cbn [td_inputs].
          apply inputs_sound; [apply (so_input_fields ds SO)|]. intros i Hi. apply (inputs_of_in ds) in Hi as (d & Hd & Hi). split; [exact (od_inputs ds OD d i Hd (member_input d i Hi))|]. left. exact (ac_inputs ds AC d i Hd Hi).
      - cbn [s_directives D declared_schema]. split.
        + rewrite map_app, directives_named. exact (so_directives ds SO).
        + intros dd Hd. apply in_app_or in Hd as [Hd|Hd]; [apply INP, DB; exact Hd|]. apply in_flat_map in Hd as (x & Hx & Hd). destruct x as [ops|ops|n desc|n|n desc vs|n vs|n desc fs|n fs|n desc os|n os|n desc fs|n fs|n desc is fs|n is fs|n desc locs args|]; cbn in Hd; try contradiction. destruct Hd as [<-|[]]. cbn [dd_args].
          apply inputs_sound; [exact (so_directive_arguments ds SO _ _ _ _ Hx)|]. intros i Hi. split; [exact (od_inputs ds OD _ i Hx Hi)|exact (so_unchecked ds SO _ i Hx Hi)].
      - apply is_builtin_scalar. cbn. tauto.
      - intros _. split; eexists; (split; [apply D_standard; reflexivity|reflexivity]).
      - cbn [s_query D declared_schema]. destruct (ac_query ds AC) as (q & Eq). rewrite Eq. exact (root_object OpQuery q Eq).
      - intros t E. exact (root_object OpMutation t E).
      - intros t E. exact (root_object OpSubscription t E).
    Qed.
  End Sound.

  (** And the other way round. *)
  Lemma object_fields_nil n : ~ is_a ds OBJECT n -> object_fields_of ds n = [].
  Proof.
    intros N. destruct (object_fields_of ds n) as [|f r] eqn:E; [reflexivity|]. exfalso. apply N. assert (H : In f (object_fields_of ds n)) by (rewrite E; left; reflexivity). unfold object_fields_of in H. apply in_flat_map in H as (d & Hd & H).
    destruct d as [ops|ops|m desc|m|m desc vs|m vs|m desc fs|m fs|m desc os|m os|m desc fs|m fs|m desc is fs|m is fs|m desc locs args|]; try contradiction; unfold of_type in H; cbn in H; destruct (String.eqb_spec n m) as [->|]; try contradiction; eapply (member_declared ds OD OBJECT m); [exact Hd|left; reflexivity|exact Hd|right; reflexivity].
  Qed.
  Lemma interface_fields_nil n : ~ is_a ds INTERFACE n -> interface_fields_of ds n = [].
  Proof.
    intros N. destruct (interface_fields_of ds n) as [|f r] eqn:E; [reflexivity|]. exfalso. apply N. assert (H : In f (interface_fields_of ds n)) by (rewrite E; left; reflexivity). unfold interface_fields_of in H. apply in_flat_map in H as (d & Hd & H).
    destruct d as [ops|ops|m desc|m|m desc vs|m vs|m desc fs|m fs|m desc os|m os|m desc fs|m fs|m desc is fs|m is fs|m desc locs args|]; try contradiction; unfold of_type in H; cbn in H; destruct (String.eqb_spec n m) as [->|]; try contradiction; eapply (member_declared ds OD INTERFACE m); [exact Hd|left; reflexivity|exact Hd|right; reflexivity].
  Qed.
  Lemma inputs_nil n : ~ is_a ds INPUT_OBJECT n -> inputs_of ds n = [].
  Proof.
    intros N. destruct (inputs_of ds n) as [|f r] eqn:E; [reflexivity|]. exfalso. apply N. assert (H : In f (inputs_of ds n)) by (rewrite E; left; reflexivity). unfold inputs_of in H. apply in_flat_map in H as (d & Hd & H).
    destruct d as [ops|ops|m desc|m|m desc vs|m vs|m desc fs|m fs|m desc os|m os|m desc fs|m fs|m desc is fs|m is fs|m desc locs args|]; try contradiction; unfold of_type in H; cbn in H; destruct (String.eqb_spec n m) as [->|]; try contradiction; eapply (member_declared ds OD INPUT_OBJECT m); [exact Hd|left; reflexivity|exact Hd|right; reflexivity].
  Qed.
  Definition is_b_a (k : type_kind) (n : string) (d : sdl_def) : bool := match definition_of d with Some (k', m) => kind_eqb k k' && String.eqb n m | None => false end.
  Lemma is_a_dec k n : is_a ds k n \/ ~ is_a ds k n.
  Proof.
    destruct (existsb (is_b_a k n) ds) eqn:E.
    - left. apply existsb_exists in E as (d & Hd & E). exists d. split; [exact Hd|]. unfold is_b_a in E. destruct (definition_of d) as [[k' m]|]; [|discriminate]. apply andb_true_iff in E as [E1 E2]. apply kind_eqb_ok in E1. apply String.eqb_eq in E2. subst. reflexivity.
    - right. intros (d & Hd & Ed). assert (X : existsb (is_b_a k n) ds = true). { apply existsb_exists. exists d. split; [exact Hd|]. unfold is_b_a. rewrite Ed, String.eqb_refl, (proj2 (kind_eqb_ok k k) eq_refl). reflexivity. } congruence.
  Qed.
  Section Back.
    Hypothesis W : schema_wf D.
    Lemma field_back d f : In d ds -> In f (fields_in d) -> ~ In (sf_name f) [""; "__typename"; "__schema"; "__type"] /\ inputs_wf D (map (declared_input noI) (sf_args f)).
    Proof.
      intros Hd Hf. destruct (in_fields_of ds OD d f Hd Hf) as (n & [[A I]|[A I]]).
      - destruct (interface_def_of n A) as (t & E & _ & Ft). destruct (wf_fields D W n t E) as [_ H]. destruct (H (declared_field noI f)) as (H1 & _ & _ & H4); [rewrite Ft; apply in_map; exact I|]. split; assumption.
      - destruct (object_def_of n A) as (t & E & _ & Ft). destruct (wf_fields D W n t E) as [_ H]. destruct (H (declared_field noI f)) as (H1 & _ & _ & H4); [rewrite Ft; apply in_map; exact I|]. split; assumption.
    Qed.
    Lemma arg_back is i : inputs_wf D (map (declared_input noI) is) -> In i is -> argument_name ds (base_name (si_type i)).
    Proof. intros [_ H] Hi. destruct (H _ (in_map (declared_input noI) _ i Hi)) as [_ I]. cbn in I. unfold input_type in I. rewrite named_base in I. exact (named_of _ I). Qed.
    Lemma directive_back n desc locs args : In (DefDirective n desc locs args) ds -> inputs_wf D (map (declared_input noI) args).
    Proof.
      intros Hd. destruct (wf_directives D W) as [_ H]. apply (H (mkDirDef n (described noI desc) locs (map (declared_input noI) args))). apply in_or_app. right. apply in_flat_map. eexists. split; [exact Hd|left; reflexivity].
    Qed.
    Theorem wf_sound : sound ds.
    Proof.
      constructor.
      - intros n Hn. unfold declared_names in Hn. apply in_map_iff in Hn as ([m t] & <- & Hn). cbn [fst]. apply in_flat_map in Hn as (x & Hx & Hn).
        assert (A : exists k, is_a ds k m) by (destruct x; cbn in Hn; try contradiction; destruct Hn as [Hn|[]]; injection Hn as <- <-; eexists; eexists; (split; [exact Hx|reflexivity])).
        destruct A as (k & A). destruct (is_declared k m A) as (d & E & _). exact (proj1 (wf_names D W m d E)).
      - intros d f Hd Hf. exact (proj1 (field_back d f Hd Hf)).
      - intros n. destruct (is_a_dec OBJECT n) as [A|A]; [|rewrite (object_fields_nil n A); constructor]. destruct (object_def_of n A) as (t & E & _ & Ft). destruct (wf_fields D W n t E) as [H _]. rewrite Ft, field_names in H. exact H.
      - intros n. destruct (is_a_dec INTERFACE n) as [A|A]; [|rewrite (interface_fields_nil n A); constructor]. destruct (interface_def_of n A) as (t & E & _ & Ft). destruct (wf_fields D W n t E) as [H _]. rewrite Ft, field_names in H. exact H.
      - intros n. destruct (is_a_dec INPUT_OBJECT n) as [A|A]; [|rewrite (inputs_nil n A); constructor]. destruct (input_def_of n A) as (t & E & K & Ft). destruct (wf_inputs D W n t E K) as [H _]. rewrite Ft, input_names in H. exact H.
      - intros d f Hd Hf. destruct (field_back d f Hd Hf) as [_ [H _]]. rewrite input_names in H. exact H.
      - intros d i Hd Hi. destruct (unchecked_cases d i Hi) as [(n & desc & locs & args & -> & Ha)|(f & Hf & Ha)]; [exact (arg_back args i (directive_back _ _ _ _ Hd) Ha)|exact (arg_back _ i (proj2 (field_back d f Hd Hf)) Ha)].
      - destruct (wf_directives D W) as [H _]. cbn [s_directives D declared_schema] in H. rewrite map_app, directives_named in H. exact H.
      - intros n desc locs args Hd. destruct (directive_back _ _ _ _ Hd) as [H _]. rewrite input_names in H. exact H.
    Qed.
  End Back.

  (** * Interfaces *)
  Lemma interface_possible n d : In (n, d) (declared_types noI ds) -> td_kind d = INTERFACE -> td_possible d = implementors ds n /\ td_fields d = map (declared_field noI) (interface_fields_of ds n).
  Proof. intros I K. apply in_flat_map in I as (x & Hx & I). destruct x; cbn in I; try contradiction; destruct I as [I|[]]; injection I as <- <-; cbn in K; try discriminate. split; reflexivity. Qed.
  Lemma standard_no_interface n d : In (n, d) standard_types -> td_kind d = INTERFACE -> False.
  Proof.
    assert (H : forallb (fun e => negb (kind_eqb (td_kind (snd e)) INTERFACE)) standard_types = true) by (vm_compute; reflexivity). rewrite forallb_forall in H. intros I K. specialize (H _ I). cbn [snd] in H. rewrite K in H. discriminate.
  Qed.
  Lemma implementor o i : In o (implementors ds i) <-> is_a ds OBJECT o /\ In i (interfaces_of ds o).
  Proof.
    unfold implementors. rewrite filter_In. split; intros [H1 H2]; split.
    - unfold GenSpec.objects_of in H1. apply in_flat_map in H1 as (d & Hd & H). exists d. split; [exact Hd|]. destruct d; try contradiction. destruct H as [<-|[]]. reflexivity.
    - apply existsb_exists in H2 as (m & Hm & E). apply String.eqb_eq in E. subst. exact Hm.
    - destruct H1 as (d & Hd & E). apply in_flat_map. exists d. split; [exact Hd|]. destruct d; cbn in E; try discriminate. injection E as <-. left. reflexivity.
    - apply existsb_exists. exists i. split; [exact H2|apply String.eqb_refl].
  Qed.
  Lemma possible_interface o i : is_a ds OBJECT o -> In i (interfaces_of ds o) -> is_a ds INTERFACE i -> possible D i o.
  Proof.
    intros A I AI. right. destruct (interface_def_of i AI) as (d & E & K & _). destruct (is_declared OBJECT o A) as (d' & E' & _). exists d, d'. split; [exact E|]. split; [left; exact K|]. split; [|exact E'].
    destruct (D_cases i d E) as [[_ H]|H]; [destruct (standard_no_interface _ _ H K)|]. rewrite (proj1 (interface_possible i d H K)). apply implementor. auto.
  Qed.
  Lemma interfaces_in o i : In i (interfaces_of ds o) -> is_a ds INTERFACE i.
  Proof.
    unfold interfaces_of. rewrite in_flat_map. intros (d & Hd & H). apply (ac_interfaces ds AC d i Hd). destruct d; try contradiction; cbn in *; unfold of_type in H; cbn in H; destruct (String.eqb o name); auto; contradiction.
  Qed.
  Lemma options_in' o u : In o (options_of ds u) -> is_a ds OBJECT o.
  Proof.
    unfold options_of. rewrite in_flat_map. intros (d & Hd & H). apply (ac_options ds AC d o Hd). destruct d; try contradiction; cbn in *; unfold of_type in H; cbn in H; destruct (String.eqb u name); auto; contradiction.
  Qed.
  Lemma covariant_sub a b : covariant ds a b -> sub_type D a b.
  Proof.
    intros H. induction H as [n|o i A I|o u A I|a b H IH|a b H IH|a b H IH].
    - constructor.
    - apply st_possible; [apply possible_interface; [exact A|exact I|exact (interfaces_in o i I)]|apply is_declared; exact A].
    - assert (AO := options_in' o u I). apply st_possible; [|apply is_declared; exact AO]. right. destruct A as (d & Hd & E). destruct d; cbn in E; try discriminate. injection E as ->.
      destruct (is_declared OBJECT o AO) as (d' & E' & _). eexists. exists d'. split; [apply D_declared, in_flat_map; eexists; split; [exact Hd|left; reflexivity]|]. split; [right; reflexivity|]. split; [exact I|exact E'].
    - constructor; exact IH.
    - constructor; exact IH.
    - apply st_stronger; exact IH.
  Qed.
  Lemma sub_named a b : sub_type D a b -> named_type a = named_type b \/ (possible D (named_type b) (named_type a) /\ type_is D (named_type a) OBJECT).
  Proof. intros H. induction H; cbn; auto. Qed.
  Lemma sub_composite a b : sub_type D a b -> (composite D (named_type a) <-> composite D (named_type b)) /\ forall o, possible D (named_type a) o -> possible D (named_type b) o.
  Proof.
    intros H. apply sub_named in H as [->|[P T]]; [tauto|]. split.
    - split; intros _; [|left; exact T]. destruct P as [[P _]|(d & d' & E & K & _)]; [left; exact P|]. destruct K as [K|K]; [right; left|right; right]; exists d; auto.
    - intros o [[_ ->]|(d & d' & E & K & _)]; [exact P|]. destruct T as (d2 & E2 & K2). rewrite E in E2. injection E2 as <-. destruct K; congruence.
  Qed.
  Hypothesis SO : sound ds.
  Hypothesis FU : fulfils ds.
  Lemma interface_cases i di t dt f : find_type D i = Some di -> td_kind di = INTERFACE -> In t (td_possible di) -> find_type D t = Some dt -> In f (td_fields di) ->
    is_a ds OBJECT t /\ In i (interfaces_of ds t) /\ td_fields dt = map (declared_field noI) (object_fields_of ds t) /\ exists g, In g (interface_fields_of ds i) /\ f = declared_field noI g.
  Proof.
    intros Ei Ki Ht Et Hf. destruct (D_cases i di Ei) as [[_ H]|H]; [destruct (standard_no_interface _ _ H Ki)|]. destruct (interface_possible i di H Ki) as [P F]. rewrite P in Ht. rewrite F in Hf. apply implementor in Ht as [A I].
    split; [exact A|]. split; [exact I|]. destruct (object_def_of t A) as (d' & E' & _ & F'). rewrite Et in E'. injection E' as <-. split; [exact F'|]. apply in_map_iff in Hf as (g & <- & Hg). eauto.
  Qed.
  Lemma text_default a : default_text a = "" -> texts_given ds -> forall d, In d ds -> In a (inputs_in d) -> si_default a = None.
  Proof. unfold default_text. intros E T d Hd Ha. destruct (si_default a) as [[v text]|] eqn:Ea; [|reflexivity]. destruct (T d a v text Hd Ha Ea E). Qed.
  Theorem fulfils_implemented : interfaces_implemented D.
  Proof.
    intros i di t dt f Ei Ki Ht Et Hf. destruct (interface_cases i di t dt f Ei Ki Ht Et Hf) as (A & I & F & g & Hg & ->). destruct (FU t i g A I Hg) as (f' & Hf' & En & C & AM & AR).
    exists (declared_field noI f'). rewrite F. split; [apply in_map; exact Hf'|]. split; [exact En|]. destruct (sub_composite _ _ (covariant_sub _ _ C)) as [S1 S2]. split; [exact S1|]. split; [exact S2|]. cbn [declared_field fd_args]. split.
    - intros a Ha. apply in_map_iff in Ha as (a0 & <- & Ha). destruct (AM a0 Ha) as (a' & Ha' & N & T & DT). exists (declared_input noI a'). split; [apply in_map; exact Ha'|]. split; [exact N|]. split; [exact T|exact DT].
    - intros a' Ha' [R1 R2]. apply in_map_iff in Ha' as (a0 & <- & Ha'). destruct (object_fields_in t f' Hf') as (d & Hd & Hfd).
      assert (Dn : si_default a0 = None) by exact (text_default a0 R1 (od_defaults ds OD) d Hd (field_args_in d f' a0 Hfd Ha')).
      destruct (AR a0 Ha' Dn R2) as (a & Ha & N). exists (declared_input noI a). split; [apply in_map; exact Ha|exact N].
  Qed.
  Theorem fulfils_covariant : interfaces_covariant D.
  Proof.
    intros i di t dt f f' Ei Ki Ht Et Hf Hf' En. destruct (interface_cases i di t dt f Ei Ki Ht Et Hf) as (A & I & F & g & Hg & ->). rewrite F in Hf'. apply in_map_iff in Hf' as (s & <- & Hs). cbn in En.
    destruct (FU t i g A I Hg) as (f' & Hf' & En' & C & _). assert (s = f') as -> by (apply (nodup_map_eq sf_name _ s f' (so_object_fields ds SO t) Hs Hf'); congruence). cbn. exact (covariant_sub _ _ C).
  Qed.

  (** * The other conditions *)
  Theorem sound_conditions : conditions_declared D.
  Proof.
    split; [apply is_builtin_scalar; cbn; tauto|]. intros dd Hd Hn. cbn [s_directives D declared_schema] in Hd. apply in_app_or in Hd as [Hd|Hd].
    - cbn in Hd. repeat destruct Hd as [<-|Hd]; try contradiction; cbn in *; try (eexists; reflexivity); exfalso; intuition discriminate.
    - exfalso. assert (N := so_directives ds SO). rewrite <- (directives_named noI) in N. apply (nodup_app_disjoint _ _ N (dd_name dd)); [|apply in_map; exact Hd]. cbn in Hn |- *. tauto.
  Qed.
  Lemma standard_no_inputs n d : In (n, d) standard_types -> td_kind d = INPUT_OBJECT -> False.
  Proof. assert (H := standard_only_input). rewrite forallb_forall in H. intros I K. specialize (H _ I). cbn [snd] in H. rewrite K in H. discriminate. Qed.
  Lemma contains_refers a b : contains D a b -> input_refers ds a b.
  Proof.
    intros [(d & f & E & K & Hf & Eb) (d' & E' & K')].
    destruct (D_cases a d E) as [[_ H]|H]; [destruct (standard_no_inputs _ _ H K)|]. destruct (D_cases b d' E') as [[_ H']|H']; [destruct (standard_no_inputs _ _ H' K')|].
    apply declared_is in H, H'. rewrite K in H. rewrite K' in H'. destruct (input_def_of a H) as (d2 & E2 & _ & F). rewrite E in E2. injection E2 as <-. rewrite F in Hf. apply in_map_iff in Hf as (i & <- & Hi).
    exists i. split; [exact Hi|]. split; [|exact H']. cbn in Eb. rewrite named_base in Eb. exact Eb.
  Qed.
  Theorem accepted_not_recursive : not_recursive D.
  Proof. intros a H. apply (ac_acyclic ds AC). exists a. exact (clos_trans_imp _ _ a a contains_refers H). Qed.
  Theorem accepted_enums : enums_distinct D.
  Proof.
    intros n d E K. destruct (D_cases n d E) as [[_ H]|H].
    - assert (B : forallb (fun e => negb (kind_eqb (td_kind (snd e)) ENUM) || (distinct_b (map ev_name (td_enums (snd e))) && negb (existsb (String.eqb (fst e)) ["Int"; "Float"; "String"; "Boolean"; "ID"]))) standard_types = true) by (vm_compute; reflexivity).
      rewrite forallb_forall in B. specialize (B _ H). cbn [fst snd] in B. rewrite K in B. cbn [kind_eqb negb orb] in B. apply andb_true_iff in B as [B1 B2]. split; [apply distinct_ok; exact B1|]. apply negb_true_iff in B2. intros Hb.
      assert (X : existsb (String.eqb n) ["Int"; "Float"; "String"; "Boolean"; "ID"] = true) by (apply existsb_exists; exists n; split; [unfold builtin_scalar in Hb; cbn in Hb |- *; tauto|apply String.eqb_refl]). congruence.
    - split.
      + assert (EV : td_enums d = map (declared_value noI) (values_of ds n)) by (apply in_flat_map in H as (x & Hx & I); destruct x; cbn in I; try contradiction; destruct I as [I|[]]; injection I as <- <-; cbn in K; try discriminate; reflexivity).
        rewrite EV, map_map. assert (N := us_enumerators ds U n). rewrite <- (map_map se_name safe_cpp_name) in N. apply NoDup_map_inv in N. exact N.
      + intros B. apply (ac_builtin ds AC n); [|unfold builtin_scalar in B; cbn in B |- *; tauto]. apply declared_is in H. destruct H as (x & Hx & Ex). unfold declared_names. apply in_map_iff.
        destruct x; cbn in Ex; try discriminate; injection Ex as Ek En; subst n; (eexists (_, _); split; [reflexivity|apply in_flat_map; eexists; split; [exact Hx|left; reflexivity]]).
  Qed.
  Hypothesis PN : plain_names ds.
  Lemma enum_values n d : In (n, d) (declared_types noI ds) -> td_kind d = ENUM -> forall v, In v (td_enums d) -> exists x s, In x ds /\ In s (values_in x) /\ v = declared_value noI s.
  Proof.
    intros H K v Hv. apply in_flat_map in H as (x & Hx & I). destruct x; cbn in I; try contradiction; destruct I as [I|[]]; injection I as <- <-; cbn in K; try discriminate. cbn [td_enums] in Hv. apply in_map_iff in Hv as (s & <- & Hs).
    unfold values_of in Hs. apply in_flat_map in Hs as (y & Hy & Hs). exists y, s. split; [exact Hy|]. split; [|reflexivity]. destruct y; try contradiction; cbn in *; unfold of_type in Hs; cbn in Hs; destruct (String.eqb name name0); auto; contradiction.
  Qed.
  Theorem plain_names_enums : plain_enums D.
  Proof.
    intros n d v E K Hv. destruct (D_cases n d E) as [[_ H]|H].
    - assert (B : forallb (fun e => forallb (fun v => String.eqb (safe_cpp_name (ev_name v)) (ev_name v)) (td_enums (snd e))) standard_types = true) by (vm_compute; reflexivity).
      rewrite forallb_forall in B. specialize (B _ H). cbn [snd] in B. rewrite forallb_forall in B. apply String.eqb_eq. exact (B v Hv).
    - destruct (enum_values n d H K v Hv) as (x & s & Hx & Hs & ->). exact (proj1 (proj1 (PN x Hx) s Hs)).
  Qed.
  Theorem plain_names_clean : names_clean D.
  Proof.
    intros n d E. destruct (D_cases n d E) as [[_ H]|H].
    - split; [|intros K; destruct (standard_no_inputs n d H K)]. intros _ v Hv. assert (B : forallb (fun e => forallb (fun v => JSONSpec.no_nul (ev_name v)) (td_enums (snd e))) standard_types = true) by (vm_compute; reflexivity).
      rewrite forallb_forall in B. specialize (B _ H). cbn [snd] in B. rewrite forallb_forall in B. exact (B v Hv).
    - split; intros K.
      + intros v Hv. destruct (enum_values n d H K v Hv) as (x & s & Hx & Hs & ->). exact (proj2 (proj1 (PN x Hx) s Hs)).
      + apply declared_is in H. rewrite K in H. destruct (input_def_of n H) as (d2 & E2 & _ & F). rewrite E in E2. injection E2 as <-. rewrite F. intros f Hf. apply in_map_iff in Hf as (i & <- & Hi). apply (inputs_of_in ds) in Hi as (x & Hx & Hi). exact (proj2 (PN x Hx) i Hi).
  Qed.
End Declared.
