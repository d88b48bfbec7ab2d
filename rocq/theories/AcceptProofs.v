(** Which documents the loader accepts (for C47). *)
From Coq Require Import Relations Permutation.
From Verif Require Import Cpp Value Ast ModifiersModel SchemaModel LoaderModel LoaderSpec LoaderProofs GenModel LoaderProps GenSpec GenRun GenEval GenLoad GenDecl GenMain AcceptSpec.
Local Open Scope string_scope.
Local Open Scope list_scope.

Lemma mapM_ok {X Y} (f : X -> result Y) xs : (exists ys, mapM f xs = Ok ys) <-> forall x, In x xs -> exists y, f x = Ok y.
Proof.
  induction xs as [|x xs IH]; simpl; [split; [intros _ x []|eauto]|]. split.
  - intros [ys H]. destruct (f x) as [y|e|] eqn:E; simpl in H; try discriminate. destruct (mapM f xs) as [ys'|e|] eqn:E'; simpl in H; try discriminate.
    intros z [<-|Hz]; [eauto|]. apply IH; eauto.
  - intros H. destruct (H x (or_introl eq_refl)) as [y ->]. destruct (proj2 IH) as [ys ->]; [auto|]. simpl. eauto.
Qed.
Lemma builtin_iff n : is_builtin n = true <-> builtin n.
Proof.
  unfold is_builtin, builtin. rewrite existsb_exists. split.
  - intros (x & Hx & E). apply String.eqb_eq in E as ->. simpl in *. tauto.
  - intros H. exists n. split; [simpl in *; tauto|apply String.eqb_refl].
Qed.
Lemma builtin_dec n : builtin n \/ ~ builtin n.
Proof. rewrite <- builtin_iff. destruct (is_builtin n); [auto|right; discriminate]. Qed.

Lemma clos_trans_imp {A} (R S : A -> A -> Prop) a b : (forall x y, R x y -> S x y) -> clos_trans A R a b -> clos_trans A S a b.
Proof. intros H. induction 1; [apply t_step; auto|eapply t_trans; eauto]. Qed.

(** * Default values *)
Lemma default_visits : forall l, (exists v, visit_default l = Ok v) <-> ints_fit l.
Proof.
  induction l as [a n|a z|a f|a s|a b|a|a s|a items H|a fields H] using lit_ind'; simpl; try (split; [intros _; exact I|eauto]).
  - assert (Hz : in_int_range z = true <-> (-2147483648 <= z <= 2147483647)%Z) by (unfold in_int_range; rewrite andb_true_iff, !Z.leb_le; reflexivity).
    destruct (in_int_range z); split; try (intros [v Hv]; discriminate); intros; [apply Hz; reflexivity|eauto|]. apply Hz in H. discriminate.
  - match goal with |- (exists v, ?f items _ = _) <-> _ => set (go := f) end.
    enough (Hgo : forall vs, (exists v, go items vs = Ok v) <-> (fix go l := match l with [] => True | x :: r => ints_fit x /\ go r end) items) by apply Hgo.
    subst go. induction H as [|x items Hx _ IH]; intros vs; [split; [intros _; exact I|eauto]|]. rewrite <- Hx. clear Hx.
    destruct (visit_default x) as [v|e|]; simpl; [|split; [intros [w Hw]; discriminate|intros [[w Hw] _]; discriminate]..].
    rewrite (IH (vs ++ [v])). split; [intros; split; [eauto|assumption]|tauto].
  - match goal with |- (exists v, ?f fields _ = _) <-> _ => set (go := f) end.
    enough (Hgo : forall vs, (exists v, go fields vs = Ok v) <-> (fix go (l : list (schema_location * (string * lit))) := match l with [] => True | x :: r => ints_fit (snd (snd x)) /\ go r end) fields) by apply Hgo.
    subst go. induction H as [|x items Hx _ IH]; intros vs; [split; [intros _; exact I|eauto]|]. rewrite <- Hx. clear Hx.
    destruct (visit_default (snd (snd x))) as [v|e|]; simpl; [|split; [intros [w Hw]; discriminate|intros [[w Hw] _]; discriminate]..].
    rewrite (IH (fst (map_emplace vs (fst (snd x)) v))). split; [intros; split; [eauto|assumption]|tauto].
Qed.
Lemma default_list_not_null a items : forall vs v,
  (fix go (items : list lit) (vs : list value) : result value := match items with [] => Ok (VList vs) | x :: r => v <- visit_default x ;; go r (vs ++ [v]) end) items vs = Ok v ->
  v <> VNull /\ visit_default (LList a items) = visit_default (LList a items).
Proof.
  intros vs v H. split; [|reflexivity]. revert vs H. induction items as [|x items IH]; intros vs H; [injection H as <-; discriminate|].
  destruct (visit_default x) as [w|e|]; cbn [bind] in H; try discriminate. exact (IH _ H).
Qed.
Lemma default_null l v : visit_default l = Ok v -> (v = VNull <-> no_value l).
Proof.
  destruct l as [a n|a z|a f|a s|a b|a|a s|a items|a fields]; simpl; intros H; try (injection H as <-; split; [intros; exact I|reflexivity]); try (injection H as <-; split; [discriminate|intros []]).
  - destruct (in_int_range z); [injection H as <-; split; [discriminate|intros []]|discriminate].
  - split; [|intros []]. destruct (default_list_not_null a items [] v H). contradiction.
  - split; [|intros []]. revert H. generalize (@nil (string * value)). induction fields as [|x fields IH]; intros vs H; [injection H as <-; discriminate|].
    destruct (visit_default (snd (snd x))) as [w|e|]; cbn [bind] in H; try discriminate. exact (IH _ H).
Qed.
Lemma head_nullable t : grammatical t -> (exists ms, snd (visit_field_type t) = MNullable :: ms) <-> nullable t.
Proof.
  unfold visit_field_type. destruct t as [n|t|t]; simpl.
  - intros _. split; [intros; exact I|eauto].
  - intros _. destruct (visit_type t false). simpl. split; [intros; exact I|eauto].
  - destruct t as [n|t|t]; simpl; try contradiction; intros _.
    + split; [intros [ms H]; discriminate|contradiction].
    + destruct (visit_type t false). simpl. split; [intros [ms H]; discriminate|contradiction].
Qed.
Lemma input_field_ok i : grammatical (si_type i) -> (forall v text, si_default i = Some (v, text) -> text <> "") -> (exists f, get_input_field i = Ok f) <-> default_ok i.
Proof.
  intros Hg Ht. unfold get_input_field, default_ok. assert (Hn := head_nullable (si_type i) Hg). destruct (visit_field_type (si_type i)) as [n ms]. simpl in Hn.
  destruct (si_default i) as [[v text]|]; cbn [bind].
  - specialize (Ht v text eq_refl). apply String.eqb_neq in Ht. assert (Hv := default_visits v). destruct (visit_default v) as [w|e|] eqn:Ev; cbn [bind].
    + assert (Hw := default_null v w Ev). rewrite Ht. simpl. assert (Hfit : ints_fit v) by (apply Hv; eauto).
      destruct (match w with VNull => true | _ => false end) eqn:Ew.
      * assert (w = VNull) by (destruct w; try discriminate; reflexivity). simpl. destruct ms as [|[] ms].
        -- split; [intros [f H']; discriminate|]. intros [_ H']. destruct (proj2 Hn) as [x Hx]; [tauto|discriminate].
        -- split; [intros _; split; [exact Hfit|intros _; apply Hn; eauto]|eauto].
        -- split; [intros [f H']; discriminate|]. intros [_ H']. destruct (proj2 Hn) as [x Hx]; [tauto|discriminate].
      * simpl. split; [|eauto]. intros _. split; [exact Hfit|]. intros H. apply Hw in H. subst w. discriminate.
    + split; [intros [f H]; discriminate|]. intros [H _]. apply Hv in H as [w Hw]. discriminate.
    + split; [intros [f H]; discriminate|]. intros [H _]. apply Hv in H as [w Hw]. discriminate.
  - simpl. split; [auto|eauto].
Qed.
Lemma get_inputs_ok is : (forall i, In i is -> grammatical (si_type i)) -> (forall i v text, In i is -> si_default i = Some (v, text) -> text <> "") ->
  (exists fs, get_input_fields is = Ok fs) <-> forall i, In i is -> default_ok i.
Proof.
  intros Hg Ht. unfold get_input_fields. rewrite mapM_ok. split; intros H i Hi; apply input_field_ok; eauto.
Qed.
Lemma get_outputs_ok fs : (forall f i, In f fs -> In i (sf_args f) -> grammatical (si_type i)) -> (forall f i v text, In f fs -> In i (sf_args f) -> si_default i = Some (v, text) -> text <> "") ->
  (exists xs, get_output_fields fs = Ok xs) <-> forall i, In i (flat_map sf_args fs) -> default_ok i.
Proof.
  intros Hg Ht. unfold get_output_fields. rewrite mapM_ok.
  assert (Hf : forall f, In f fs -> (exists x, get_output_field f = Ok x) <-> forall i, In i (sf_args f) -> default_ok i).
  { intros f Hf. rewrite <- get_inputs_ok by eauto. unfold get_output_field. destruct (get_input_fields (sf_args f)) as [args|e|]; cbn [bind].
    - destruct (visit_field_type (sf_type f)). split; eauto.
    - split; intros [x H]; discriminate.
    - split; intros [x H]; discriminate. }
  split.
  - intros H i Hi. apply in_flat_map in Hi as (f & Hfin & Hi). exact (proj1 (Hf f Hfin) (H f Hfin) i Hi).
  - intros H f Hfin. apply (Hf f Hfin). intros i Hi. apply H. apply in_flat_map. eauto.
Qed.

(** * The definitions one after the other *)
Definition schema_type_of (k : type_kind) : option schema_type :=
  match k with SCALAR => Some TyScalar | ENUM => Some TyEnum | INPUT_OBJECT => Some TyInput | UNION => Some TyUnion | INTERFACE => Some TyInterface | OBJECT => Some TyObject | _ => None end.
Lemma set_type_exact n k m x : find_schema_type x (set_type n k m) = if String.eqb x n then Some k else find_schema_type x m.
Proof.
  unfold find_schema_type, set_type. simpl. destruct (String.eqb_spec x n) as [->|Hne]; [reflexivity|].
  induction m as [|[y v] m IH]; simpl; [reflexivity|]. destruct (String.eqb_spec n y) as [->|Hny]; simpl.
  - destruct (String.eqb_spec x y) as [->|]; [contradiction|exact IH].
  - destruct (String.eqb x y); auto.
Qed.
Lemma visit_types l d l' : visit_definition l d = Ok l' ->
  forall x, find_schema_type x (l_types l') = match definition_of d with Some (k, n) => if String.eqb x n then schema_type_of k else find_schema_type x (l_types l) | None => find_schema_type x (l_types l) end.
Proof.
  intros H x. destruct d; cbn [visit_definition] in H; unfold extend_input, extend_interface, extend_object in H;
    repeat match type of H with
    | (if ?b then _ else _) = _ => destruct b; cbn [bind] in H
    | bind ?r _ = _ => destruct r; cbn [bind] in H; try discriminate
    end; try discriminate; injection H as <-; cbn; try reflexivity; try apply set_type_exact.
Qed.

Section Document.
  Variable ds : list sdl_def.
  Hypothesis O : orderly ds.
  Lemma names_nodup : NoDup (flat_map name_of ds).
  Proof. assert (H := od_names ds O). unfold declared_names in H. rewrite names_are in H. exact H. Qed.
  Lemma types_prefix : forall pre post l, ds = pre ++ post -> visit_definitions no_definitions pre = Ok l ->
    forall k t n, schema_type_of k = Some t -> find_schema_type n (l_types l) = Some t <-> is_a pre k n.
  Proof.
    intros pre. induction pre as [|d pre IH] using rev_ind; intros post l E H k t n Hk.
    - injection H as <-. split; [discriminate|]. intros (d & [] & _).
    - rewrite visit_app in H. destruct (visit_definitions no_definitions pre) as [l0|e|] eqn:E0; cbn in H; try discriminate.
      destruct (visit_definition l0 d) as [l1|e|] eqn:E1; cbn in H; try discriminate. injection H as H. rewrite H in E1. rewrite <- app_assoc in E. cbn in E.
      rewrite (visit_types l0 d l E1). specialize (IH (d :: post) l0 E eq_refl k t n Hk).
      assert (Hsplit : is_a (pre ++ [d]) k n <-> is_a pre k n \/ definition_of d = Some (k, n)).
      { unfold is_a. split.
        - intros (x & Hx & Hd). apply in_app_iff in Hx as [Hx|[<-|[]]]; [left; eauto|auto].
        - intros [(x & Hx & Hd)|Hd]; [exists x|exists d]; rewrite in_app_iff; simpl; auto. }
      rewrite Hsplit, <- IH. destruct (definition_of d) as [[k' n']|] eqn:Ed; [|split; [auto|intros [?|?]; [auto|discriminate]]].
      destruct (String.eqb_spec n n') as [->|Hne]; [|split; [auto|intros [?|?]; [auto|congruence]]].
      split.
      + intros Ht. right. f_equal. f_equal. destruct k, k'; simpl in *; congruence.
      + intros [Ht|Ht]; [|congruence]. exfalso. apply IH in Ht as (x & Hx & Hd).
        assert (Hn := names_nodup). rewrite E, flat_map_app in Hn. apply (nodup_app_disjoint _ _ Hn n').
        * apply in_flat_map. exists x. split; [exact Hx|]. unfold name_of. rewrite Hd. left. reflexivity.
        * simpl. apply in_or_app. left. unfold name_of. rewrite Ed. left. reflexivity.
  Qed.
  Definition definable (d : sdl_def) : Prop := d <> DefExecutable /\ forall n, d <> ExtScalar n.
  Lemma visit_ok pre d post l : ds = pre ++ d :: post -> loaded_as pre l -> (exists l', visit_definition l d = Ok l') <-> definable d /\ forall i, In i (inputs_in d) -> default_ok i.
  Proof.
    intros E L. assert (Hd : In d ds) by (rewrite E; apply in_or_app; right; left; reflexivity).
    assert (Hin : forall is, (forall i, In i is -> In i (inputs_in d)) -> (exists fs, get_input_fields is = Ok fs) <-> forall i, In i is -> default_ok i).
    { intros is Hi. apply get_inputs_ok; [intros i Hii; exact (od_inputs ds O d i Hd (Hi i Hii))|intros i v text Hii; exact (od_defaults ds O d i v text Hd (Hi i Hii))]. }
    assert (Hout : forall fs, (forall i, In i (flat_map sf_args fs) -> In i (inputs_in d)) -> (exists xs, get_output_fields fs = Ok xs) <-> forall i, In i (flat_map sf_args fs) -> default_ok i).
    { intros fs Hi. apply get_outputs_ok; intros f i.
      - intros Hf Hii. apply (od_inputs ds O d i Hd), Hi. apply in_flat_map. eauto.
      - intros v text Hf Hii. apply (od_defaults ds O d i v text Hd), Hi. apply in_flat_map. eauto. }
    assert (Hbind : forall A (r : result A) (k : A -> loader) (P : Prop), (exists x, r = Ok x) <-> P -> (exists l', (x <- r ;; Ok (k x)) = Ok l') <-> definable d /\ P -> True) by auto. clear Hbind.
    assert (Hyes : forall (r : result loader) (P : Prop), (exists x, r = Ok x) <-> P -> d <> DefExecutable -> (forall n, d <> ExtScalar n) -> (exists x, r = Ok x) <-> definable d /\ P) by (unfold definable; tauto).
    destruct d as [ops|ops|n desc|n|n desc vs|n vs|n desc fs|n fs|n desc os|n os|n desc fs|n fs|n desc is fs|n is fs|n desc locs args|]; cbn [visit_definition inputs_in fields_in flat_map] in *.
    all: try (apply Hyes; [split; [intros _ i []|eauto]|discriminate..]).
    all: try (split; [intros [x Hx]; discriminate|intros [[H1 H2] _]; exfalso; first [apply H1; reflexivity|apply (H2 n); reflexivity]]).
    - apply Hyes; [|discriminate..]. unfold extend_input. cbn [with_inputs l_inputs l_types]. replace (declares it_type n _) with true.
      + rewrite <- Hin by auto. destruct (get_input_fields fs); cbn [bind]; split; intros [x Hx]; try discriminate; eauto.
      + symmetry. apply declares_in. rewrite map_app, in_app_iff. right. left. reflexivity.
    - apply Hyes; [|discriminate..]. unfold extend_input. replace (declares it_type n _) with true.
      + rewrite <- Hin by auto. destruct (get_input_fields fs); cbn [bind]; split; intros [x Hx]; try discriminate; eauto.
      + symmetry. apply declares_in. rewrite (kind_names it_type input_decl input_chunk input_R input_R_name _ _ (la_inputs _ _ L)).
        apply (ext_known ds (od_extensions ds O) input_decl INPUT_OBJECT pre _ post n E eq_refl). intros x m. destruct x; simpl; try discriminate. congruence.
    - apply Hyes; [|discriminate..]. unfold extend_interface. cbn [with_interfaces l_interfaces l_types]. replace (declares if_type n _) with true.
      + rewrite <- Hout by auto. destruct (get_output_fields fs); cbn [bind]; split; intros [x Hx]; try discriminate; eauto.
      + symmetry. apply declares_in. rewrite map_app, in_app_iff. right. left. reflexivity.
    - apply Hyes; [|discriminate..]. unfold extend_interface. replace (declares if_type n _) with true.
      + rewrite <- Hout by auto. destruct (get_output_fields fs); cbn [bind]; split; intros [x Hx]; try discriminate; eauto.
      + symmetry. apply declares_in. rewrite (kind_names if_type interface_decl interface_chunk interface_R interface_R_name _ _ (la_interfaces _ _ L)).
        apply (ext_known ds (od_extensions ds O) interface_decl INTERFACE pre _ post n E eq_refl). intros x m. destruct x; simpl; try discriminate. congruence.
    - apply Hyes; [|discriminate..]. unfold extend_object. cbn [with_objects l_objects l_types]. replace (declares ob_type n _) with true.
      + rewrite <- Hout by auto. destruct (get_output_fields fs); cbn [bind]; split; intros [x Hx]; try discriminate; eauto.
      + symmetry. apply declares_in. rewrite map_app, in_app_iff. right. left. reflexivity.
    - apply Hyes; [|discriminate..]. unfold extend_object. replace (declares ob_type n _) with true.
      + rewrite <- Hout by auto. destruct (get_output_fields fs); cbn [bind]; split; intros [x Hx]; try discriminate; eauto.
      + symmetry. apply declares_in. rewrite (kind_names ob_type object_decl object_chunk object_R object_R_name _ _ (la_objects _ _ L)).
        apply (ext_known ds (od_extensions ds O) object_decl OBJECT pre _ post n E eq_refl). intros x m. destruct x; simpl; try discriminate. congruence.
    - apply Hyes; [|discriminate..]. rewrite <- Hin by auto. destruct (get_input_fields args); cbn [bind]; split; intros [x Hx]; try discriminate; eauto.
  Qed.
  Lemma visits_ok : forall pre post, ds = pre ++ post -> (exists l, visit_definitions no_definitions pre = Ok l) <-> forall d, In d pre -> definable d /\ forall i, In i (inputs_in d) -> default_ok i.
  Proof.
    intros pre. induction pre as [|d pre IH] using rev_ind; intros post E; [split; [intros _ d []|simpl; eauto]|].
    rewrite <- app_assoc in E. cbn in E. specialize (IH (d :: post) E). rewrite visit_app.
    destruct (visit_definitions no_definitions pre) as [l|e|] eqn:Ev; cbn [bind visit_definitions].
    - assert (L := visit_all ds names_nodup (od_extensions ds O) pre (d :: post) l E Ev). assert (Hv := visit_ok pre d post l E L).
      assert (IH' := proj1 IH (ex_intro _ l eq_refl)).
      split.
      + intros H x Hx. apply in_app_iff in Hx as [Hx|[<-|[]]]; [exact (IH' x Hx)|]. apply Hv. destruct (visit_definition l d); destruct H as [y Hy]; cbn in Hy; try discriminate; eauto.
      + intros H. destruct (proj2 Hv) as [y Hy]; [apply H; apply in_or_app; right; left; reflexivity|]. rewrite Hy. simpl. eauto.
    - split; [intros [x Hx]; discriminate|]. intros H. exfalso. destruct (proj2 IH) as [x Hx]; [|discriminate]. intros x Hx. apply H. apply in_or_app. auto.
    - split; [intros [x Hx]; discriminate|]. intros H. exfalso. destruct (proj2 IH) as [x Hx]; [|discriminate]. intros x Hx. apply H. apply in_or_app. auto.
  Qed.

  (** * validateSchema *)
  Variable l0 : loader.
  Hypothesis Ev : visit_definitions no_definitions ds = Ok l0.
  Lemma L : loaded_as ds l0.
  Proof. apply (visit_all ds names_nodup (od_extensions ds O) ds [] l0); [rewrite app_nil_r; reflexivity|exact Ev]. Qed.
  Lemma types_exact k t n : schema_type_of k = Some t -> find_schema_type n (l_types l0) = Some t <-> is_a ds k n.
  Proof. apply (types_prefix ds [] l0); [rewrite app_nil_r; reflexivity|exact Ev]. Qed.
  Lemma types_known n : (exists t, find_schema_type n (l_types l0) = Some t) <-> In n (declared_names ds).
  Proof.
    unfold declared_names. rewrite names_are. split.
    - intros [t H]. exact (la_types _ _ L n t H).
    - intros H. apply in_flat_map in H as (d & Hd & Hn). unfold name_of in Hn. destruct (definition_of d) as [[k m]|] eqn:E; [|contradiction]. destruct Hn as [->|[]].
      assert (Ht : exists t, schema_type_of k = Some t) by (destruct d; simpl in E; try discriminate; injection E as <- <-; simpl; eauto).
      destruct Ht as [t Ht]. exists t. apply (types_exact k t n Ht). exists d. auto.
  Qed.
  Lemma builtins_ok : (exists u, check_builtins (l_types l0) = Ok u) <-> forall n, In n (declared_names ds) -> ~ builtin n.
  Proof.
    unfold check_builtins. destruct (List.find _ builtin_types) as [n|] eqn:E.
    - split; [intros [u H]; discriminate|]. intros H. exfalso. apply find_some in E as [Hn Ht]. apply (H n).
      + apply types_known. destruct (find_schema_type n (l_types l0)); [eauto|discriminate].
      + unfold builtin. simpl in *. tauto.
    - split; [|eauto]. intros _ n Hn Hb. apply types_known in Hn as [t Ht]. assert (X := find_none _ _ E n). cbv beta in X. rewrite Ht in X.
      assert (Hi : In n builtin_types) by (unfold builtin in Hb; simpl in *; tauto). specialize (X Hi). discriminate X.
  Qed.
  Lemma fixup_input_ok f : (exists f', fixup_input (l_types l0) f = Ok f') <-> input_name ds (in_type f).
  Proof.
    unfold fixup_input, input_name. rewrite <- builtin_iff. destruct (is_builtin (in_type f)); [split; eauto|].
    assert (H1 := types_exact SCALAR TyScalar (in_type f) eq_refl). assert (H2 := types_exact ENUM TyEnum (in_type f) eq_refl). assert (H3 := types_exact INPUT_OBJECT TyInput (in_type f) eq_refl).
    destruct (find_schema_type (in_type f) (l_types l0)) as [[]|]; split; intros H;
      try (right; first [exists SCALAR; split; [simpl; tauto|apply H1; reflexivity]|exists ENUM; split; [simpl; tauto|apply H2; reflexivity]|exists INPUT_OBJECT; split; [simpl; tauto|apply H3; reflexivity]]);
      try (destruct H as [? H]; discriminate); eauto;
      (exfalso; destruct H as [H|(k & [<-|[<-|[<-|[]]]] & H)]; [discriminate|apply H1 in H; discriminate|apply H2 in H; discriminate|apply H3 in H; discriminate]).
  Qed.
  Lemma fixup_inputs_ok fs : (exists fs', fixup_inputs (l_types l0) fs = Ok fs') <-> forall f, In f fs -> input_name ds (in_type f).
  Proof. unfold fixup_inputs. rewrite mapM_ok. split; intros H f Hf; apply fixup_input_ok; auto. Qed.
  Definition output_ok (t : string) (args : list string) : Prop := output_name ds t /\ (~ builtin t -> forall a, In a args -> input_name ds a).
  Lemma fixup_output_ok inh acc f : (exists f', fixup_output (l_types l0) inh acc f = Ok f') <-> output_ok (out_type f) (map in_type (out_args f)).
  Proof.
    unfold fixup_output, output_ok. destruct (is_builtin (out_type f)) eqn:Eb.
    - apply builtin_iff in Eb. split; [|eauto]. intros _. split; [left; exact Eb|]. intros H. contradiction.
    - assert (Hb : ~ builtin (out_type f)) by (rewrite <- builtin_iff, Eb; discriminate).
      assert (Ha : (exists x, fixup_inputs (l_types l0) (out_args f) = Ok x) <-> (~ builtin (out_type f) -> forall a, In a (map in_type (out_args f)) -> input_name ds a)).
      { rewrite fixup_inputs_ok. split; [intros H _ a Hi; apply in_map_iff in Hi as (x & <- & Hx); auto|]. intros H x Hx. apply (H Hb). apply in_map. exact Hx. }
      rewrite <- Ha. clear Ha.
      assert (H1 := types_exact SCALAR TyScalar (out_type f) eq_refl). assert (H2 := types_exact ENUM TyEnum (out_type f) eq_refl). assert (H3 := types_exact UNION TyUnion (out_type f) eq_refl).
      assert (H4 := types_exact INTERFACE TyInterface (out_type f) eq_refl). assert (H5 := types_exact OBJECT TyObject (out_type f) eq_refl).
      assert (Hyes : forall k t, schema_type_of k = Some t -> In k [SCALAR; ENUM; UNION; INTERFACE; OBJECT] -> find_schema_type (out_type f) (l_types l0) = Some t -> output_name ds (out_type f)).
      { intros k t Hk Hi Hf. right. exists k. split; [exact Hi|]. apply (types_exact k t _ Hk). exact Hf. }
      destruct (find_schema_type (out_type f) (l_types l0)) as [t|] eqn:Ef.
      + destruct t; cbn [bind].
        3: { split; [intros [x H]; discriminate|]. intros [[H|(k & [<-|[<-|[<-|[<-|[<-|[]]]]]] & H)] _]; [contradiction|apply H1 in H|apply H2 in H|apply H3 in H|apply H4 in H|apply H5 in H]; discriminate. }
        1: assert (Ho : output_name ds (out_type f)) by (apply (Hyes SCALAR TyScalar); auto; simpl; tauto).
        2: assert (Ho : output_name ds (out_type f)) by (apply (Hyes ENUM TyEnum); auto; simpl; tauto).
        3: assert (Ho : output_name ds (out_type f)) by (apply (Hyes UNION TyUnion); auto; simpl; tauto).
        4: assert (Ho : output_name ds (out_type f)) by (apply (Hyes INTERFACE TyInterface); auto; simpl; tauto).
        5: assert (Ho : output_name ds (out_type f)) by (apply (Hyes OBJECT TyObject); auto; simpl; tauto).
        all: destruct (fixup_inputs (l_types l0) (out_args f)) as [x|e|]; cbn [bind]; (split; [intros H|intros [_ H]]); try (destruct H as [y H]; discriminate); eauto.
      + cbn [bind]. split; [intros [x H]; discriminate|].
        intros [[H|(k & [<-|[<-|[<-|[<-|[<-|[]]]]]] & H)] _]; [contradiction|apply H1 in H|apply H2 in H|apply H3 in H|apply H4 in H|apply H5 in H]; discriminate.
  Qed.
  Lemma fixup_outputs_ok inh acc fs : (exists fs', fixup_outputs (l_types l0) inh acc fs = Ok fs') <-> forall f, In f fs -> output_ok (out_type f) (map in_type (out_args f)).
  Proof. unfold fixup_outputs. rewrite mapM_ok. split; intros H f Hf; apply (fixup_output_ok inh acc); auto. Qed.

  (** ** The members of the types are those of the definitions *)
  Lemma member_declared k n d : In d ds -> definition_of d = Some (k, n) \/ extension_of d = Some (k, n) -> is_a ds k n.
  Proof.
    intros Hd [H|H]; [exists d; auto|]. apply in_split in Hd as (pre & post & E). destruct (od_extensions ds O pre d post k n E H) as (d' & Hd' & H'). exists d'. split; [|exact H'].
    rewrite E. apply in_or_app. auto.
  Qed.
  Lemma decl_in (decl : sdl_def -> list (string * string)) k n : (forall d, definition_of d = Some (k, n) -> exists desc, In (n, desc) (decl d)) -> is_a ds k n -> exists desc, In (n, desc) (flat_map decl ds).
  Proof. intros H (d & Hd & Hk). destruct (H d Hk) as [desc Hi]. exists desc. apply in_flat_map. eauto. Qed.
  Lemma in_decl (decl : sdl_def -> list (string * string)) k nd : (forall d, In nd (decl d) -> definition_of d = Some (k, fst nd)) -> In nd (flat_map decl ds) -> is_a ds k (fst nd).
  Proof. intros H Hi. apply in_flat_map in Hi as (d & Hd & Hn). exists d. auto. Qed.
  Lemma in_inputs_of d i : In d ds -> In i (input_members d) -> exists n, is_a ds INPUT_OBJECT n /\ In i (inputs_of ds n).
  Proof.
    intros Hd Hi. destruct d as [ops|ops|n desc|n|n desc vs|n vs|n desc fs|n fs|n desc os|n os|n desc fs|n fs|n desc is fs|n is fs|n desc locs args|]; simpl in Hi; try contradiction;
      (exists n; split; [eapply (member_declared INPUT_OBJECT n); [exact Hd|simpl; auto]|]; apply in_flat_map; eexists; (split; [exact Hd|]); simpl; unfold of_type; simpl; rewrite String.eqb_refl; exact Hi).
  Qed.
  Lemma inputs_of_in n i : In i (inputs_of ds n) -> exists d, In d ds /\ In i (input_members d).
  Proof.
    unfold inputs_of. rewrite in_flat_map. intros (d & Hd & Hv). exists d. split; [exact Hd|]. destruct d; simpl in *; try contradiction; unfold of_type in Hv; simpl in Hv; destruct (String.eqb n name); auto; contradiction.
  Qed.
  Lemma member_input d i : In i (input_members d) -> In i (inputs_in d).
  Proof. destruct d; simpl; auto; contradiction. Qed.
  Lemma input_type_of i f d : In d ds -> In i (inputs_in d) -> get_input_field i = Ok f -> in_type f = base_name (si_type i).
  Proof. intros Hd Hi H. apply (input_declared false i f H). exact (od_inputs ds O d i Hd Hi). Qed.
  (** The input types and their fields. *)
  Lemma inputs_are n : is_a ds INPUT_OBJECT n -> exists t, In t (l_inputs l0) /\ it_type t = n /\ Forall2 (fun i f => get_input_field i = Ok f) (inputs_of ds n) (it_fields t).
  Proof.
    intros Hn. destruct (decl_in input_decl INPUT_OBJECT n) as [desc Hi]; [intros d; destruct d; simpl; try discriminate; intros E; injection E as ->; eauto|exact Hn|].
    destruct (forall2_in_r _ _ _ (n, desc) (la_inputs _ _ L) Hi) as (t & Ht & H1 & _ & _ & H4). cbn [fst snd] in *. rewrite inputs_chunk in H4. exists t. split; [exact Ht|]. split; [exact H1|].
    apply mapM_forall2. exact H4.
  Qed.
  Lemma inputs_known t : In t (l_inputs l0) -> is_a ds INPUT_OBJECT (it_type t) /\ Forall2 (fun i f => get_input_field i = Ok f) (inputs_of ds (it_type t)) (it_fields t).
  Proof.
    intros Ht. destruct (forall2_in_l _ _ _ t (la_inputs _ _ L) Ht) as ([n desc] & Hi & H1 & _ & _ & H4). cbn [fst snd] in *. rewrite inputs_chunk in H4. rewrite H1. split.
    - apply (in_decl input_decl INPUT_OBJECT (n, desc)); [|exact Hi]. intros d. destruct d; simpl; try contradiction. intros [E|[]]. injection E as <- <-. reflexivity.
    - apply mapM_forall2. exact H4.
  Qed.
  Lemma all_inputs : (forall t f, In t (l_inputs l0) -> In f (it_fields t) -> input_name ds (in_type f)) <-> forall d i, In d ds -> In i (input_members d) -> input_name ds (base_name (si_type i)).
  Proof.
    split.
    - intros H d i Hd Hi. destruct (in_inputs_of d i Hd Hi) as (n & Hn & Hin). destruct (inputs_are n Hn) as (t & Ht & _ & Hf). destruct (forall2_in_l _ _ _ i Hf Hin) as (f & Hff & E).
      rewrite <- (input_type_of i f d Hd (member_input d i Hi) E). exact (H t f Ht Hff).
    - intros H t f Ht Hf. destruct (inputs_known t Ht) as [_ Hk]. destruct (forall2_in_r _ _ _ f Hk Hf) as (i & Hi & E). destruct (inputs_of_in _ _ Hi) as (d & Hd & Hm).
      rewrite (input_type_of i f d Hd (member_input d i Hm) E). exact (H d i Hd Hm).
  Qed.
  (** The fields of interfaces and objects. *)
  Lemma output_type_of d f x : In d ds -> In f (fields_in d) -> get_output_field f = Ok x -> out_type x = base_name (sf_type f) /\ map in_type (out_args x) = map (fun i => base_name (si_type i)) (sf_args f).
  Proof.
    intros Hd Hf E. unfold get_output_field in E. destruct (get_input_fields (sf_args f)) as [args|e|] eqn:Ea; cbn [bind] in E; try discriminate.
    assert (Hb := proj2 (C35_modifiers _ (od_fields ds O d f Hd Hf))). destruct (visit_field_type (sf_type f)) as [n ms]. cbn [fst snd] in *. injection E as <-. cbn. split; [exact Hb|].
    refine (proj2 (inputs_declared false _ _ Ea _)). intros i Hi. exact (od_inputs ds O d i Hd (args_in d f i Hf Hi)).
  Qed.
  Lemma interfaces_known t : In t (l_interfaces l0) -> is_a ds INTERFACE (if_type t) /\ Forall2 (fun i f => get_output_field i = Ok f) (interface_fields_of ds (if_type t)) (if_fields t).
  Proof.
    intros Ht. destruct (forall2_in_l _ _ _ t (la_interfaces _ _ L) Ht) as ([n desc] & Hi & H1 & _ & _ & H4). cbn [fst snd] in *. rewrite interface_fields_chunk in H4. rewrite H1. split.
    - apply (in_decl interface_decl INTERFACE (n, desc)); [|exact Hi]. intros d. destruct d; simpl; try contradiction. intros [E|[]]. injection E as <- <-. reflexivity.
    - apply mapM_forall2. exact H4.
  Qed.
  Lemma interfaces_are' n : is_a ds INTERFACE n -> exists t, In t (l_interfaces l0) /\ if_type t = n /\ Forall2 (fun i f => get_output_field i = Ok f) (interface_fields_of ds n) (if_fields t).
  Proof.
    intros Hn. destruct (decl_in interface_decl INTERFACE n) as [desc Hi]; [intros d; destruct d; simpl; try discriminate; intros E; injection E as ->; eauto|exact Hn|].
    destruct (forall2_in_r _ _ _ (n, desc) (la_interfaces _ _ L) Hi) as (t & Ht & H1 & _ & _ & H4). cbn [fst snd] in *. rewrite interface_fields_chunk in H4. exists t. split; [exact Ht|]. split; [exact H1|].
    apply mapM_forall2. exact H4.
  Qed.
  Lemma objects_known t : In t (l_objects l0) -> is_a ds OBJECT (ob_type t) /\ ob_interfaces t = interfaces_of ds (ob_type t)
    /\ Forall2 (fun i f => get_output_field i = Ok f) (object_fields_of ds (ob_type t)) (ob_fields t).
  Proof.
    intros Ht. destruct (forall2_in_l _ _ _ t (la_objects _ _ L) Ht) as ([n desc] & Hi & H1 & _ & _ & H4 & H5). cbn [fst snd] in *. rewrite object_fields_chunk in H5. rewrite interfaces_chunk in H4. rewrite H1. split.
    - apply (in_decl object_decl OBJECT (n, desc)); [|exact Hi]. intros d. destruct d; simpl; try contradiction. intros [E|[]]. injection E as <- <-. reflexivity.
    - split; [exact H4|]. apply mapM_forall2. exact H5.
  Qed.
  Lemma objects_are' n : is_a ds OBJECT n -> exists t, In t (l_objects l0) /\ ob_type t = n /\ ob_interfaces t = interfaces_of ds n
    /\ Forall2 (fun i f => get_output_field i = Ok f) (object_fields_of ds n) (ob_fields t).
  Proof.
    intros Hn. destruct (decl_in object_decl OBJECT n) as [desc Hi]; [intros d; destruct d; simpl; try discriminate; intros E; injection E as ->; eauto|exact Hn|].
    destruct (forall2_in_r _ _ _ (n, desc) (la_objects _ _ L) Hi) as (t & Ht & H1 & _ & _ & H4 & H5). cbn [fst snd] in *. rewrite object_fields_chunk in H5. rewrite interfaces_chunk in H4. exists t. split; [exact Ht|]. split; [exact H1|].
    split; [exact H4|]. apply mapM_forall2. exact H5.
  Qed.
  Lemma in_fields_of d f : In d ds -> In f (fields_in d) -> exists n, (is_a ds INTERFACE n /\ In f (interface_fields_of ds n)) \/ (is_a ds OBJECT n /\ In f (object_fields_of ds n)).
  Proof.
    intros Hd Hi. destruct d as [ops|ops|n desc|n|n desc vs|n vs|n desc fs|n fs|n desc os|n os|n desc fs|n fs|n desc is fs|n is fs|n desc locs args|]; simpl in Hi; try contradiction;
      exists n; [left|left|right|right]; (split; [eapply (member_declared _ n); [exact Hd|simpl; auto]|]; apply in_flat_map; eexists; (split; [exact Hd|]); simpl; unfold of_type; simpl; rewrite String.eqb_refl; exact Hi).
  Qed.
  Definition field_ok (f : sdl_field) : Prop := output_ok (base_name (sf_type f)) (map (fun i => base_name (si_type i)) (sf_args f)).
  Lemma all_fields : ((forall t f, In t (l_interfaces l0) -> In f (if_fields t) -> output_ok (out_type f) (map in_type (out_args f)))
      /\ forall t f, In t (l_objects l0) -> In f (ob_fields t) -> output_ok (out_type f) (map in_type (out_args f)))
    <-> forall d f, In d ds -> In f (fields_in d) -> field_ok f.
  Proof.
    split.
    - intros [H1 H2] d f Hd Hf. unfold field_ok. destruct (in_fields_of d f Hd Hf) as (n & [[Hn Hin]|[Hn Hin]]).
      + destruct (interfaces_are' n Hn) as (t & Ht & _ & Hk). destruct (forall2_in_l _ _ _ f Hk Hin) as (x & Hx & E). destruct (output_type_of d f x Hd Hf E) as [<- <-]. exact (H1 t x Ht Hx).
      + destruct (objects_are' n Hn) as (t & Ht & _ & _ & Hk). destruct (forall2_in_l _ _ _ f Hk Hin) as (x & Hx & E). destruct (output_type_of d f x Hd Hf E) as [<- <-]. exact (H2 t x Ht Hx).
    - intros H. split; intros t x Ht Hx.
      + destruct (interfaces_known t Ht) as [_ Hk]. destruct (forall2_in_r _ _ _ x Hk Hx) as (f & Hf & E). destruct (in_interface_fields _ _ _ Hf) as (d & Hd & Hm).
        destruct (output_type_of d f x Hd Hm E) as [-> ->]. exact (H d f Hd Hm).
      + destruct (objects_known t Ht) as (_ & _ & Hk). destruct (forall2_in_r _ _ _ x Hk Hx) as (f & Hf & E). destruct (in_object_fields _ _ _ Hf) as (d & Hd & Hm).
        destruct (output_type_of d f x Hd Hm E) as [-> ->]. exact (H d f Hd Hm).
  Qed.
  (** Names of interfaces and objects. *)
  Lemma declares_interface n : declares if_type n (l_interfaces l0) = true <-> is_a ds INTERFACE n.
  Proof.
    rewrite declares_in, in_map_iff. split; [intros (t & <- & Ht); apply (interfaces_known t Ht)|]. intros H. destruct (interfaces_are' n H) as (t & Ht & E & _). eauto.
  Qed.
  Lemma declares_object n : declares ob_type n (l_objects l0) = true <-> is_a ds OBJECT n.
  Proof.
    rewrite declares_in, in_map_iff. split; [intros (t & <- & Ht); apply (objects_known t Ht)|]. intros H. destruct (objects_are' n H) as (t & Ht & E & _). eauto.
  Qed.
  Lemma declares_same {A} (name : A -> string) n l l' : map name l = map name l' -> declares name n l = declares name n l'.
  Proof.
    intros E. destruct (declares name n l) eqn:E1; destruct (declares name n l') eqn:E2; try reflexivity.
    - apply declares_in in E1. rewrite E in E1. apply declares_in in E1. congruence.
    - apply declares_in in E2. rewrite <- E in E2. apply declares_in in E2. congruence.
  Qed.
  Lemma interfaces_ok is os : map if_type is = map if_type (l_interfaces l0) -> map (fun o => (ob_type o, ob_interfaces o)) os = map (fun o => (ob_type o, ob_interfaces o)) (l_objects l0) ->
    (exists u, check_interfaces is os = Ok u) <-> forall d i, In d ds -> In i (implemented d) -> is_a ds INTERFACE i.
  Proof.
    intros Ei Eo. assert (E : (exists u, check_interfaces is os = Ok u) <-> forall o i, In o os -> In i (ob_interfaces o) -> is_a ds INTERFACE i).
    { unfold check_interfaces. destruct (List.find _ _) as [[o i]|] eqn:Ef.
      - split; [intros [u H]; discriminate|]. intros H. exfalso. apply find_some in Ef as [Hin Hd]. apply in_flat_map in Hin as (x & Hx & Hi). apply in_map_iff in Hi as (j & Ej & Hj). injection Ej as <- ->.
        cbn in Hd. rewrite (declares_same if_type i _ _ Ei), negb_true_iff in Hd. rewrite (proj2 (declares_interface i) (H x i Hx Hj)) in Hd. discriminate.
      - split; [|eauto]. intros _ o i Ho Hi. assert (H := find_none _ _ Ef (ob_type o, i)). cbn in H. rewrite negb_false_iff, (declares_same if_type i _ _ Ei) in H. apply declares_interface. apply H.
        apply in_flat_map. exists o. split; [exact Ho|]. apply in_map_iff. eauto. }
    rewrite E. clear E. split.
    - intros H d i Hd Hi.
      assert (Hn : exists n, is_a ds OBJECT n /\ In i (interfaces_of ds n)).
      { destruct d as [ops|ops|n desc|n|n desc vs|n vs|n desc fs|n fs|n desc os'|n os'|n desc fs|n fs|n desc js fs|n js fs|n desc locs args|]; simpl in Hi; try contradiction;
        (exists n; split; [eapply (member_declared OBJECT n); [exact Hd|simpl; auto]|]; apply in_flat_map; eexists; (split; [exact Hd|]); simpl; unfold of_type; simpl; rewrite String.eqb_refl; exact Hi). }
      destruct Hn as (n & Hn & Hin). destruct (objects_are' n Hn) as (t & Ht & En & Et & _). rewrite <- Et in Hin.
      assert (Hm : In (ob_type t, ob_interfaces t) (map (fun o => (ob_type o, ob_interfaces o)) os)) by (rewrite Eo; apply in_map_iff; eauto).
      apply in_map_iff in Hm as (o & Eq & Ho). injection Eq as _ Eq. apply (H o i Ho). rewrite Eq. exact Hin.
    - intros H o i Ho Hi. assert (Hm : In (ob_type o, ob_interfaces o) (map (fun o => (ob_type o, ob_interfaces o)) (l_objects l0))) by (rewrite <- Eo; apply in_map_iff; eauto).
      apply in_map_iff in Hm as (t & Eq & Ht). injection Eq as Eq1 Eq2. destruct (objects_known t Ht) as (_ & Ek & _). rewrite <- Eq2, Ek in Hi. unfold interfaces_of in Hi. apply in_flat_map in Hi as (d & Hd & Hi).
      apply (H d i Hd). destruct d; simpl in *; try contradiction; unfold of_type in Hi; simpl in Hi; destruct (String.eqb (ob_type t) name); auto; contradiction.
  Qed.
  Lemma unions_ok os : map ob_type os = map ob_type (l_objects l0) -> (exists u, check_unions os (l_unions l0) = Ok u) <-> forall d o, In d ds -> In o (options_in d) -> is_a ds OBJECT o.
  Proof.
    intros Eo. assert (E : (exists u, check_unions os (l_unions l0) = Ok u) <-> forall u o, In u (l_unions l0) -> In o (un_options u) -> is_a ds OBJECT o).
    { unfold check_unions. destruct (List.find _ _) as [[u o]|] eqn:Ef.
      - split; [intros [v H]; discriminate|]. intros H. exfalso. apply find_some in Ef as [Hin Hd]. apply in_flat_map in Hin as (x & Hx & Hi). apply in_map_iff in Hi as (j & Ej & Hj). injection Ej as <- ->.
        cbn in Hd. rewrite (declares_same ob_type o _ _ Eo), negb_true_iff in Hd. rewrite (proj2 (declares_object o) (H x o Hx Hj)) in Hd. discriminate.
      - split; [|eauto]. intros _ u o Hu Ho. assert (H := find_none _ _ Ef (un_type u, o)). cbn in H. rewrite negb_false_iff, (declares_same ob_type o _ _ Eo) in H. apply declares_object. apply H.
        apply in_flat_map. exists u. split; [exact Hu|]. apply in_map_iff. eauto. }
    rewrite E. clear E. split.
    - intros H d o Hd Hi.
      assert (Hn : exists n, is_a ds UNION n /\ In o (options_of ds n)).
      { destruct d as [ops|ops|n desc|n|n desc vs|n vs|n desc fs|n fs|n desc os'|n os'|n desc fs|n fs|n desc js fs|n js fs|n desc locs args|]; simpl in Hi; try contradiction;
        (exists n; split; [eapply (member_declared UNION n); [exact Hd|simpl; auto]|]; apply in_flat_map; eexists; (split; [exact Hd|]); simpl; unfold of_type; simpl; rewrite String.eqb_refl; exact Hi). }
      destruct Hn as (n & Hn & Hin). destruct (decl_in union_decl UNION n) as [desc Hdl]; [intros x; destruct x; simpl; try discriminate; intros E; injection E as ->; eauto|exact Hn|].
      destruct (forall2_in_r _ _ _ (n, desc) (la_unions _ _ L) Hdl) as (t & Ht & Hx). unfold holds_at, union_R in Hx. cbn [fst snd] in Hx. rewrite options_chunk in Hx. apply (H t o Ht). rewrite Hx. exact Hin.
    - intros H u o Hu Ho. destruct (forall2_in_l _ _ _ u (la_unions _ _ L) Hu) as ([n desc] & _ & Hx). unfold holds_at, union_R in Hx. cbn [fst snd] in Hx. rewrite options_chunk in Hx. rewrite Hx in Ho. cbn in Ho.
      unfold options_of in Ho. apply in_flat_map in Ho as (d & Hd & Hi). apply (H d o Hd). destruct d; simpl in *; try contradiction; unfold of_type in Hi; simpl in Hi; destruct (String.eqb n name); auto; contradiction.
  Qed.
  Lemma object_iff n : existsb (String.eqb n) (objects_of ds) = true <-> is_a ds OBJECT n.
  Proof. rewrite <- declares_object, (declared_object ds l0 L). reflexivity. Qed.
  Lemma operations_ok : (exists ops, check_operations false (l_objects l0) (l_operations l0) = Ok ops)
    <-> (forall e, In e (schema_operations ds) -> is_a ds OBJECT (snd e)) /\ exists q, declared_root ds OpQuery = Some q.
  Proof.
    unfold check_operations, declared_root. rewrite (la_operations _ _ L). destruct (schema_operations ds) as [|e ops]; cbn [map bind].
    - unfold default_operation. rewrite !(declared_object ds l0 L). cbn [default_name]. destruct (existsb (String.eqb "Query") (objects_of ds)) eqn:Eq.
      + cbn. split; [|eauto]. intros _. split; [intros e []|eauto].
      + split; [|intros [_ [q H]]; discriminate]. intros [x Hx]. exfalso.
        destruct (existsb (String.eqb "Mutation") (objects_of ds)), (existsb (String.eqb "Subscription") (objects_of ds)); discriminate.
    - change (operation_of e :: map operation_of ops) with (map operation_of (e :: ops)). generalize (e :: ops). clear e ops. intros ops.
      destruct (List.find (fun o => negb (declares ob_type (ot_type o) (l_objects l0))) (map operation_of ops)) as [o|] eqn:Ef; cbn [bind].
      + split; [intros [x Hx]; discriminate|]. intros [H _]. exfalso. apply find_some in Ef as [Hin Hd]. apply in_map_iff in Hin as (e & <- & He). cbn in Hd. rewrite negb_true_iff in Hd.
        rewrite (proj2 (declares_object (snd e)) (H e He)) in Hd. discriminate.
      + assert (Hall : forall e, In e ops -> is_a ds OBJECT (snd e)).
        { intros e He. assert (H := find_none _ _ Ef (operation_of e)). cbn in H. rewrite negb_false_iff in H. apply declares_object, H. apply in_map. exact He. }
        assert (Hq : existsb is_query (map operation_of ops) = true <-> exists q, option_map snd (List.find (fun e => operation_eqb OpQuery (fst e)) ops) = Some q).
        { clear. induction ops as [|[k n] ops IH]; cbn; [split; [discriminate|intros [q H]; discriminate]|]. destruct k; cbn; [split; eauto|exact IH|exact IH]. }
        destruct (existsb is_query (map operation_of ops)); split; intros H.
        * split; [exact Hall|apply Hq; reflexivity].
        * eauto.
        * destruct H as [x Hx]; discriminate.
        * destruct H as [_ H]. apply Hq in H. discriminate.
  Qed.
  (** The order of the input types. *)
  Lemma uses_refers inputs : (forall n, In n (declared_names ds) -> ~ builtin n) -> Forall2 (fixed_input (l_types l0)) (l_inputs l0) inputs ->
    forall a b, uses inputs a b <-> input_refers ds a b.
  Proof.
    intros Hbn F a b. assert (Hfix : forall f f', fixup_input (l_types l0) f = Ok f' -> in_type f' = in_type f /\ (in_kind f = InBuiltin -> in_kind f' = InInput <-> is_builtin (in_type f) = false /\ is_a ds INPUT_OBJECT (in_type f))).
    { intros f f' H. unfold fixup_input in H. destruct (is_builtin (in_type f)); [injection H as <-; split; [reflexivity|]; intros ->; split; [discriminate|intros [? _]; discriminate]|].
      assert (X := types_exact INPUT_OBJECT TyInput (in_type f) eq_refl).
      destruct (find_schema_type (in_type f) (l_types l0)) as [[]|]; try discriminate; injection H as <-; cbn; (split; [reflexivity|]); intros _; rewrite <- X; (split; [|intros [_ ?]; congruence]); intros; [discriminate|discriminate|auto]. }
    assert (Hkind : forall i f, get_input_field i = Ok f -> in_kind f = InBuiltin).
    { intros i f H. unfold get_input_field in H. destruct (match si_default i with None => _ | _ => _ end) as [[text v]|e|]; cbn [bind] in H; try discriminate.
      destruct (visit_field_type (si_type i)). destruct (negb _ && _ && _); [discriminate|]. injection H as <-. reflexivity. }
    unfold uses, input_refers. split.
    - intros (t' & f' & Ht' & <- & Hf' & Hk & <-). destruct (forall2_in_r _ _ _ t' F Ht') as (t & Ht & (E1 & _ & _ & E4)). apply mapM_forall2 in E4.
      destruct (forall2_in_r _ _ _ f' E4 Hf') as (f & Hf & E). cbn in E. destruct (Hfix f f' E) as [Et Hke]. destruct (inputs_known t Ht) as [_ Hkn]. destruct (forall2_in_r _ _ _ f Hkn Hf) as (i & Hi & Ei). cbn in Ei.
      rewrite E1. exists i. split; [exact Hi|]. destruct (inputs_of_in _ _ Hi) as (d & Hd & Hm). rewrite Et, (input_type_of i f d Hd (member_input d i Hm) Ei). split; [reflexivity|].
      apply (Hke (Hkind i f Ei)) in Hk as [_ Hk]. rewrite <- (input_type_of i f d Hd (member_input d i Hm) Ei). exact Hk.
    - intros (i & Hi & <- & Hb). destruct (inputs_of_in _ _ Hi) as (d & Hd & Hm). destruct (in_inputs_of d i Hd Hm) as (n & Hn & Hin).
      assert (Ha : is_a ds INPUT_OBJECT a).
      { unfold inputs_of in Hi. apply in_flat_map in Hi as (x & Hx & Hix). apply (member_declared INPUT_OBJECT a x Hx). destruct x; simpl in Hix; try contradiction; unfold of_type in Hix; simpl in Hix;
          destruct (String.eqb_spec a name) as [->|]; try contradiction; simpl; auto. }
      destruct (inputs_are a Ha) as (t & Ht & Et & Hf). destruct (forall2_in_l _ _ _ t F Ht) as (t' & Ht' & (E1 & _ & _ & E4)). apply mapM_forall2 in E4.
      destruct (forall2_in_l _ _ _ i Hf Hi) as (f & Hff & E). cbn in E. destruct (forall2_in_l _ _ _ f E4 Hff) as (f' & Hf' & E'). cbn in E'. destruct (Hfix f f' E') as [Etf Hke].
      exists t', f'. split; [exact Ht'|]. split; [congruence|]. split; [exact Hf'|]. assert (Ety := input_type_of i f d Hd (member_input d i Hm) E). split; [|congruence].
      apply (Hke (Hkind i f E)). rewrite Ety. split; [|exact Hb]. destruct (is_builtin (base_name (si_type i))) eqn:Eb; [|reflexivity]. exfalso.
      apply builtin_iff in Eb. apply (Hbn (base_name (si_type i))); [|exact Eb]. apply types_known. exists TyInput. apply (types_exact INPUT_OBJECT TyInput); [reflexivity|exact Hb].
  Qed.
  Lemma reorder_ok inputs : (forall n, In n (declared_names ds) -> ~ builtin n) -> Forall2 (fixed_input (l_types l0)) (l_inputs l0) inputs ->
    (exists ts, reorder inputs = Ok ts) <-> ~ exists a, clos_trans string (input_refers ds) a a.
  Proof.
    intros Hbn F. assert (Hu := uses_refers inputs Hbn F).
    assert (Hnames : map it_type inputs = map fst (flat_map input_decl ds)).
    { rewrite <- (kind_names it_type input_decl input_chunk input_R input_R_name _ _ (la_inputs _ _ L)). symmetry. eapply forall2_map; [exact F|]. intros x y _ _ (E & _). auto. }
    assert (Hcyc : cyclic inputs <-> exists a, clos_trans string (input_refers ds) a a).
    { unfold cyclic. split; intros [a H]; exists a; (eapply clos_trans_imp; [|exact H]); intros x y; apply Hu. }
    rewrite <- Hcyc. destruct (C34_cycle inputs) as [Hc _].
    - rewrite Hnames. assert (Hn := names_nodup). rewrite <- (app_nil_r (flat_map name_of ds)) in Hn.
      assert (H := proj1 (names_kind input_decl ds (name_decls input_decl ltac:(simpl; tauto)) [] Hn)). rewrite app_nil_r in H. exact H.
    - intros a b H. apply Hu in H as (i & _ & _ & Hb). rewrite Hnames. destruct (decl_in input_decl INPUT_OBJECT b) as [desc Hi]; [intros d; destruct d; simpl; try discriminate; intros E; injection E as ->; eauto|exact Hb|].
      apply in_map_iff. exists (b, desc). auto.
    - rewrite <- Hc. destruct (C34_total inputs) as [[ts E]|(t & _ & E)]; rewrite E.
      + split; [intros _ [e H]; discriminate|eauto].
      + split; [intros [x H]; discriminate|]. intros H. exfalso. apply H. eauto.
  Qed.

  Definition rest_ok : Prop :=
    (forall n, In n (declared_names ds) -> ~ builtin n) /\ (forall d i, In d ds -> In i (input_members d) -> input_name ds (base_name (si_type i)))
    /\ (forall d f, In d ds -> In f (fields_in d) -> field_ok f) /\ (forall d i, In d ds -> In i (implemented d) -> is_a ds INTERFACE i)
    /\ (forall d o, In d ds -> In o (options_in d) -> is_a ds OBJECT o)
    /\ ((forall e, In e (schema_operations ds) -> is_a ds OBJECT (snd e)) /\ exists q, declared_root ds OpQuery = Some q)
    /\ ~ exists a, clos_trans string (input_refers ds) a a.
  Lemma mapped_inputs : (exists ts, mapM (fun t => fs <- fixup_inputs (l_types l0) (it_fields t) ;; Ok (mkInputT (it_type t) (it_cpp t) fs (it_desc t))) (l_inputs l0) = Ok ts)
    <-> forall t f, In t (l_inputs l0) -> In f (it_fields t) -> input_name ds (in_type f).
  Proof.
    rewrite mapM_ok. split.
    - intros H t f Ht Hf. destruct (H t Ht) as [y Hy]. destruct (fixup_inputs (l_types l0) (it_fields t)) as [fs|e|] eqn:E; cbn [bind] in Hy; try discriminate.
      exact (proj1 (fixup_inputs_ok (it_fields t)) (ex_intro _ fs E) f Hf).
    - intros H t Ht. destruct (proj2 (fixup_inputs_ok (it_fields t)) (fun f Hf => H t f Ht Hf)) as [fs ->]. cbn [bind]. eauto.
  Qed.
  Lemma mapped_interfaces : (exists ts, mapM (fun t => fs <- fixup_outputs (l_types l0) None None (if_fields t) ;; Ok (mkInterface (if_type t) (if_cpp t) fs (if_desc t))) (l_interfaces l0) = Ok ts)
    <-> forall t f, In t (l_interfaces l0) -> In f (if_fields t) -> output_ok (out_type f) (map in_type (out_args f)).
  Proof.
    rewrite mapM_ok. split.
    - intros H t f Ht Hf. destruct (H t Ht) as [y Hy]. destruct (fixup_outputs (l_types l0) None None (if_fields t)) as [fs|e|] eqn:E; cbn [bind] in Hy; try discriminate.
      exact (proj1 (fixup_outputs_ok None None (if_fields t)) (ex_intro _ fs E) f Hf).
    - intros H t Ht. destruct (proj2 (fixup_outputs_ok None None (if_fields t)) (fun f Hf => H t f Ht Hf)) as [fs ->]. cbn [bind]. eauto.
  Qed.
  Lemma mapped_objects is mu : (exists ts, mapM (fixup_object (l_types l0) is mu) (l_objects l0) = Ok ts)
    <-> forall t f, In t (l_objects l0) -> In f (ob_fields t) -> output_ok (out_type f) (map in_type (out_args f)).
  Proof.
    rewrite mapM_ok. unfold fixup_object. split.
    - intros H t f Ht Hf. destruct (H t Ht) as [y Hy]. destruct (fixup_outputs (l_types l0) _ _ (ob_fields t)) as [fs|e|] eqn:E in Hy; cbn [bind] in Hy; try discriminate.
      exact (proj1 (fixup_outputs_ok _ _ (ob_fields t)) (ex_intro _ fs E) f Hf).
    - intros H t Ht. destruct (proj2 (fixup_outputs_ok (Some (interface_fields is t)) (if String.eqb mu (ob_type t) then Some str_apply else None) (ob_fields t)) (fun f Hf => H t f Ht Hf)) as [fs ->]. cbn [bind]. eauto.
  Qed.
  Lemma validate_ok : (exists l, validate_schema false l0 = Ok l) <-> rest_ok.
  Proof.
    unfold rest_ok. rewrite <- builtins_ok, <- all_inputs, <- all_fields, <- operations_ok, <- mapped_inputs, <- mapped_interfaces. unfold validate_schema.
    destruct (check_builtins (l_types l0)) as [u|e|] eqn:Eb; cbn [bind]; [|split; [intros [l H]; discriminate|intros ([x H] & _); discriminate]..].
    assert (Hbn := proj1 builtins_ok (ex_intro _ u Eb)).
    destruct (mapM _ (l_inputs l0)) as [inputs|e|] eqn:Ei; cbn [bind]; [|split; [intros [l H]; discriminate|intros (_ & [x H] & _); discriminate]..].
    assert (F : Forall2 (fixed_input (l_types l0)) (l_inputs l0) inputs).
    { apply mapM_forall2 in Ei. eapply forall2_imp; [|exact Ei]. cbn. intros t t' H. destruct (fixup_inputs (l_types l0) (it_fields t)) as [fs|e|] eqn:Efx; cbn in H; try discriminate. injection H as <-. repeat split; auto. }
    rewrite <- (reorder_ok inputs Hbn F).
    destruct (reorder inputs) as [inputs'|e|] eqn:Er; cbn [bind]; [|split; [intros [l H]; discriminate|intros (_ & _ & _ & _ & _ & _ & [x H]); discriminate]..].
    destruct (mapM _ (l_interfaces l0)) as [is|e|] eqn:Ef; cbn [bind]; [|split; [intros [l H]; discriminate|intros (_ & _ & ([x H] & _) & _); discriminate]..].
    destruct (check_operations false (l_objects l0) (l_operations l0)) as [ops|e|] eqn:Eo; cbn [bind]; [|split; [intros [l H]; discriminate|intros (_ & _ & _ & _ & _ & [x H] & _); discriminate]..].
    set (mu := match List.find is_mutation ops with Some o => ot_type o | None => "" end). rewrite <- (mapped_objects is mu).
    destruct (mapM (fixup_object (l_types l0) is mu) (l_objects l0)) as [os|e|] eqn:Eos; cbn [bind]; [|split; [intros [l H]; discriminate|intros (_ & _ & (_ & [x H]) & _); discriminate]..].
    assert (Nis : map if_type is = map if_type (l_interfaces l0)).
    { symmetry. eapply forall2_map; [apply mapM_forall2; exact Ef|]. cbn. intros t t' _ _ H. destruct (fixup_outputs (l_types l0) None None (if_fields t)); cbn in H; try discriminate. injection H as <-. reflexivity. }
    assert (Nos : map (fun o => (ob_type o, ob_interfaces o)) os = map (fun o => (ob_type o, ob_interfaces o)) (l_objects l0)).
    { symmetry. eapply forall2_map; [apply mapM_forall2; exact Eos|]. cbn. intros t t' _ _ H. unfold fixup_object in H. destruct (fixup_outputs (l_types l0) _ _ (ob_fields t)) in H; cbn in H; try discriminate. injection H as <-. reflexivity. }
    assert (Nos' : map ob_type os = map ob_type (l_objects l0)).
    { assert (X := f_equal (map fst) Nos). rewrite !map_map in X. exact X. }
    rewrite <- (interfaces_ok is os Nis Nos), <- (unions_ok os Nos').
    destruct (check_interfaces is os) as [v|e|] eqn:Ec; cbn [bind]; [|split; [intros [l H]; discriminate|intros (_ & _ & _ & [x H] & _); discriminate]..].
    destruct (check_unions os (l_unions l0)) as [w|e|] eqn:Eu; cbn [bind]; [|split; [intros [l H]; discriminate|intros (_ & _ & _ & _ & [x H] & _); discriminate]..].
    split; [|eauto]. intros _. repeat split; eauto.
  Qed.
End Document.

Theorem accepts ds : orderly ds -> (exists l, load false ds = Ok l) <-> acceptable ds.
Proof.
  intros O. unfold load. assert (Hv := visits_ok ds O ds [] (eq_sym (app_nil_r ds))). destruct (visit_definitions no_definitions ds) as [l0|e|] eqn:Ev; cbn [bind].
  - rewrite (validate_ok ds O l0 Ev). assert (Hvis := proj1 Hv (ex_intro _ l0 eq_refl)). unfold rest_ok, field_ok, output_ok. split.
    + intros (H1 & H2 & H3 & H4 & H5 & (H6 & H7) & H8). constructor; auto.
      * intros d Hd. exact (proj1 (Hvis d Hd)).
      * intros d i Hd Hi. exact (proj2 (Hvis d Hd) i Hi).
      * intros d f Hd Hf. exact (proj1 (H3 d f Hd Hf)).
      * intros d f a Hd Hf Hb Ha. apply (proj2 (H3 d f Hd Hf) Hb). apply in_map_iff. eauto.
    + intros [A1 A2 A3 A4 A5 A6 A7 A8 A9 A10 A11]. repeat (split; [solve [auto]|]). split; [|auto]. intros d f Hd Hf. split; [eauto|]. intros Hb a Ha. apply in_map_iff in Ha as (i & <- & Hi). eauto.
  - split; [intros [l H]; discriminate|]. intros A. exfalso. destruct (proj2 Hv) as [l H]; [|discriminate]. intros d Hd. split; [exact (ac_definitions ds A d Hd)|]. intros i Hi. exact (ac_defaults ds A d i Hd Hi).
  - split; [intros [l H]; discriminate|]. intros A. exfalso. destruct (proj2 Hv) as [l H]; [|discriminate]. intros d Hd. split; [exact (ac_definitions ds A d Hd)|]. intros i Hi. exact (ac_defaults ds A d i Hd Hi).
Qed.
