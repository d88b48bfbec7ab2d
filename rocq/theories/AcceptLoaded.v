(** What the loader keeps of an accepted document, and what it throws (for C47). *)
From Coq Require Import Relations Permutation.
From Verif Require Import Cpp Value Ast ModifiersModel SchemaModel ExecSpec ExecValues LoaderModel LoaderSpec LoaderProofs GenModel LoaderProps GenSpec GenRun GenEval GenLoad GenDecl GenMain AcceptSpec AcceptProofs.
Local Open Scope string_scope.
Local Open Scope list_scope.

(** * Default values *)
Lemma default_value : forall l v, visit_default l = Ok v -> no_variables l -> lit_value [] l v.
Proof.
  induction l as [a n|a z|a f|a s|a b|a|a s|a items H|a fields H] using lit_ind'; intros v Hv Hn; simpl in Hv; try contradiction; try (injection Hv as <-; constructor).
  - destruct (in_int_range z) eqn:E; [|discriminate]. injection Hv as <-. constructor. exact E.
  - assert (Hgo : forall items, Forall (fun l => forall v, visit_default l = Ok v -> no_variables l -> lit_value [] l v) items ->
      (fix go l := match l with [] => True | x :: r => no_variables x /\ go r end) items -> forall vs,
      (fix go (items : list lit) (vs : list value) : result value := match items with [] => Ok (VList vs) | x :: r => v <- visit_default x ;; go r (vs ++ [v]) end) items vs = Ok v ->
      exists ws, v = VList (vs ++ ws) /\ Forall2 (lit_value []) items ws).
    { clear. induction 1 as [|x items Hx _ IH]; intros Hn vs Hv; [injection Hv as <-; exists []; rewrite app_nil_r; auto|]. destruct Hn as [Hn1 Hn2].
      destruct (visit_default x) as [w|e|] eqn:E; cbn [bind] in Hv; try discriminate. destruct (IH Hn2 _ Hv) as (ws & -> & F). exists (w :: ws). rewrite <- app_assoc. split; [reflexivity|].
      constructor; auto. }
    destruct (Hgo items H Hn [] Hv) as (ws & -> & F). constructor. exact F.
  - assert (Hgo : forall fields, Forall (fun a => forall v, visit_default (snd (snd a)) = Ok v -> no_variables (snd (snd a)) -> lit_value [] (snd (snd a)) v) fields ->
      (fix go (l : list (schema_location * (string * lit))) := match l with [] => True | x :: r => no_variables (snd (snd x)) /\ go r end) fields -> forall es,
      (fix go (fields : list (schema_location * (string * lit))) (es : list (string * value)) : result value :=
         match fields with [] => Ok (VMap es) | x :: r => v <- visit_default (snd (snd x)) ;; go r (fst (map_emplace es (fst (snd x)) v)) end) fields es = Ok v ->
      exists kvs, v = VMap (emplace_all kvs es) /\ Forall2 (fun a kv => fst kv = fst (snd a) /\ lit_value [] (snd (snd a)) (snd kv)) fields kvs).
    { clear. induction 1 as [|x items Hx _ IH]; intros Hn vs Hv; [injection Hv as <-; exists []; auto|]. destruct Hn as [Hn1 Hn2].
      destruct (visit_default (snd (snd x))) as [w|e|] eqn:E; cbn [bind] in Hv; try discriminate. destruct (IH Hn2 _ Hv) as (kvs & -> & F). exists ((fst (snd x), w) :: kvs). split; [reflexivity|].
      constructor; auto. }
    destruct (Hgo fields H Hn [] Hv) as (ws & -> & F). rewrite emplace_all_nil. constructor. exact F.
Qed.
Lemma get_input_loaded i f : grammatical (si_type i) -> get_input_field i = Ok f -> in_name f = si_name i /\ in_type f = base_name (si_type i) /\ stands_for (in_type f) (in_mods f) (si_type i)
  /\ in_desc f = si_desc i /\ in_kind f = InBuiltin
  /\ match si_default i with None => in_default_text f = "" /\ in_default f = VNull | Some (v, text) => in_default_text f = text /\ (no_variables v -> lit_value [] v (in_default f)) end.
Proof.
  intros Hg H. unfold get_input_field in H. assert (Hb := C35_modifiers _ Hg). destruct (visit_field_type (si_type i)) as [n ms]. cbn [fst snd] in Hb. destruct Hb as [Hs Hb].
  destruct (si_default i) as [[v text]|]; cbn [bind] in H.
  - destruct (visit_default v) as [w|e|] eqn:Ev; cbn [bind] in H; try discriminate. destruct (negb _ && _ && _); [discriminate|]. injection H as <-. cbn. repeat split; auto. apply default_value. exact Ev.
  - destruct (negb _ && _ && _); [discriminate|]. injection H as <-. cbn. repeat split; auto.
Qed.
Lemma forall2_impl_in {X Y} (P Q : X -> Y -> Prop) xs ys : (forall x y, In x xs -> In y ys -> P x y -> Q x y) -> Forall2 P xs ys -> Forall2 Q xs ys.
Proof. intros H F. induction F as [|x y xs ys Hp _ IH]; constructor; [apply H; simpl; auto|]. apply IH. intros a b Ha Hb. apply H; simpl; auto. Qed.

Section Loaded.
  Variable ds : list sdl_def.
  Hypothesis O : orderly ds.
  Variables l0 l : loader.
  Hypothesis Ev : visit_definitions no_definitions ds = Ok l0.
  Hypothesis Hval : validate_schema false l0 = Ok l.
  Notation L := (AcceptProofs.L ds O l0 Ev).
  Notation m := (l_types l0).
  Lemma fixup_input_loaded d i f f' : In d ds -> In i (inputs_in d) -> get_input_field i = Ok f -> fixup_input m f = Ok f' -> loaded_input ds True i f'.
  Proof.
    intros Hd Hi E Ef. destruct (get_input_loaded i f (od_inputs ds O d i Hd Hi) E) as (H1 & H2 & H3 & H4 & H5 & H6). unfold fixup_input in Ef.
    assert (T1 := types_exact ds O l0 Ev SCALAR TyScalar (in_type f) eq_refl). assert (T2 := types_exact ds O l0 Ev ENUM TyEnum (in_type f) eq_refl). assert (T3 := types_exact ds O l0 Ev INPUT_OBJECT TyInput (in_type f) eq_refl).
    destruct (is_builtin (in_type f)) eqn:Eb.
    - injection Ef as <-. constructor; auto. intros _. rewrite H5. apply builtin_iff. exact Eb.
    - destruct (find_schema_type (in_type f) m) as [[]|]; try discriminate; injection Ef as <-; constructor; cbn; auto; intros _; [apply T1|apply T2|apply T3]; reflexivity.
  Qed.
  Lemma unchecked_input d i f : In d ds -> In i (inputs_in d) -> get_input_field i = Ok f -> forall P : Prop, (P -> False) -> loaded_input ds P i f.
  Proof.
    intros Hd Hi E P HP. destruct (get_input_loaded i f (od_inputs ds O d i Hd Hi) E) as (H1 & H2 & H3 & H4 & H5 & H6). constructor; auto. intros p. destruct (HP p).
  Qed.
  Lemma weaken_input (P : Prop) i f : loaded_input ds True i f -> loaded_input ds P i f.
  Proof. intros [H1 H2 H3 H4 H5 H6]. constructor; auto. Qed.
  Lemma fixup_output_loaded d f x x' inh acc : In d ds -> In f (fields_in d) -> get_output_field f = Ok x -> fixup_output m inh acc x = Ok x' ->
    loaded_output ds (match inh with Some names => In (sf_name f) names | None => False end) (match acc with Some a => a | None => "get" end) f x'
    /\ out_interface x' = match inh with Some _ => false | None => true end.
  Proof.
    intros Hd Hf E Ef. unfold get_output_field in E. destruct (get_input_fields (sf_args f)) as [args|e|] eqn:Ea; cbn [bind] in E; try discriminate.
    assert (Hb := C35_modifiers _ (od_fields ds O d f Hd Hf)). destruct (visit_field_type (sf_type f)) as [n ms]. cbn [fst snd] in *. destruct Hb as [Hs Hb]. injection E as <-.
    apply mapM_forall2 in Ea. assert (Hinh : match inh with Some names => existsb (String.eqb (sf_name f)) names | None => false end = true <-> match inh with Some names => In (sf_name f) names | None => False end).
    { destruct inh as [names|]; [|split; [discriminate|contradiction]]. rewrite existsb_exists. split; [intros (y & Hy & Ey); apply String.eqb_eq in Ey as ->; exact Hy|]. intros H. exists (sf_name f). split; [exact H|apply String.eqb_refl]. }
    unfold fixup_output in Ef. cbn [out_type out_args out_name out_accessor] in Ef. destruct (is_builtin n) eqn:Eb.
    - apply builtin_iff in Eb. injection Ef as <-. split; [|reflexivity]. constructor; cbn; auto. eapply forall2_impl_in; [|exact Ea]. cbn. intros i a Hi _ Hia.
      apply (unchecked_input d i a Hd (args_in d f i Hf Hi) Hia). intros X. exact (X Eb).
    - assert (Hk : exists k, (match find_schema_type n m with
         | None => Throw (Exn runtime_error ("Unknown field type: " ++ n)) | Some TyScalar => Ok OutScalar | Some TyEnum => Ok OutEnum | Some TyUnion => Ok OutUnion | Some TyInterface => Ok OutInterface | Some TyObject => Ok OutObject
         | Some TyInput => Throw (Exn runtime_error ("Invalid field type: " ++ n)) end) = Ok k /\ output_kind_is ds n k).
      { destruct (find_schema_type n m) as [t|] eqn:Et; [|discriminate]. destruct t; cbn [bind] in Ef; try discriminate.
        - exists OutScalar. split; [reflexivity|]. apply (types_exact ds O l0 Ev SCALAR TyScalar n eq_refl). exact Et.
        - exists OutEnum. split; [reflexivity|]. apply (types_exact ds O l0 Ev ENUM TyEnum n eq_refl). exact Et.
        - exists OutUnion. split; [reflexivity|]. apply (types_exact ds O l0 Ev UNION TyUnion n eq_refl). exact Et.
        - exists OutInterface. split; [reflexivity|]. apply (types_exact ds O l0 Ev INTERFACE TyInterface n eq_refl). exact Et.
        - exists OutObject. split; [reflexivity|]. apply (types_exact ds O l0 Ev OBJECT TyObject n eq_refl). exact Et. }
      destruct Hk as (k & Ek & Hk). rewrite Ek in Ef. cbn [bind] in Ef. destruct (fixup_inputs m args) as [args'|e|] eqn:Ea'; cbn [bind] in Ef; try discriminate. injection Ef as <-. split; [|reflexivity].
      constructor; cbn; auto. apply mapM_forall2 in Ea'. assert (F := forall2_compose _ _ _ _ _ Ea Ea'). eapply forall2_impl_in; [|exact F]. cbn. intros i a Hi _ (y & Hy & Hya).
      apply weaken_input. exact (fixup_input_loaded d i y a Hd (args_in d f i Hf Hi) Hy Hya).
  Qed.
  Lemma loaded_inputs t : In t (l_inputs l) -> Forall2 (loaded_input ds True) (inputs_of ds (it_type t)) (it_fields t).
  Proof.
    intros Ht. destruct (vd_inputs _ _ (validate_parts l0 l Hval)) as (ts & Hp & F). apply (Permutation_in _ Hp) in Ht. destruct (forall2_in_r _ _ _ t F Ht) as (t0 & Ht0 & (E1 & _ & _ & E4)).
    apply mapM_forall2 in E4. destruct (inputs_known ds O l0 Ev t0 Ht0) as [_ Hk]. rewrite E1. eapply forall2_impl_in; [|exact (forall2_compose _ _ _ _ _ Hk E4)]. cbn. intros i f Hi _ (y & Hy & Hyf).
    destruct (in_inputs _ _ _ Hi) as (d & Hd & Hm). exact (fixup_input_loaded d i y f Hd Hm Hy Hyf).
  Qed.
  Lemma input_names n : In n (map it_type (l_inputs l)) <-> is_a ds INPUT_OBJECT n.
  Proof.
    destruct (vd_inputs _ _ (validate_parts l0 l Hval)) as (ts & Hp & F). assert (E : map it_type ts = map it_type (l_inputs l0)) by (symmetry; eapply forall2_map; [exact F|]; intros x y _ _ (H & _); auto).
    assert (Hi : In n (map it_type (l_inputs l)) <-> In n (map it_type (l_inputs l0))).
    { rewrite <- E. split; apply Permutation_in; [|apply Permutation_sym]; apply Permutation_map; exact Hp. }
    rewrite Hi, in_map_iff. split; [intros (t & <- & Ht); apply (inputs_known ds O l0 Ev t Ht)|]. intros H. destruct (inputs_are ds O l0 Ev n H) as (t & Ht & Et & _). eauto.
  Qed.
  Lemma loaded_interfaces t : In t (l_interfaces l) -> Forall2 (loaded_output ds False "get") (interface_fields_of ds (if_type t)) (if_fields t).
  Proof.
    intros Ht. destruct (forall2_in_r _ _ _ t (vd_interfaces _ _ (validate_parts l0 l Hval)) Ht) as (t0 & Ht0 & (E1 & _ & _ & E4)).
    apply mapM_forall2 in E4. destruct (interfaces_known ds O l0 Ev t0 Ht0) as [_ Hk]. rewrite E1. eapply forall2_impl_in; [|exact (forall2_compose _ _ _ _ _ Hk E4)]. cbn. intros i f Hi _ (y & Hy & Hyf).
    destruct (in_interface_fields _ _ _ Hi) as (d & Hd & Hm). exact (proj1 (fixup_output_loaded d i y f None None Hd Hm Hy Hyf)).
  Qed.
  Lemma interface_names n : In n (map if_type (l_interfaces l)) <-> is_a ds INTERFACE n.
  Proof.
    assert (E : map if_type (l_interfaces l) = map if_type (l_interfaces l0)) by (symmetry; eapply forall2_map; [exact (vd_interfaces _ _ (validate_parts l0 l Hval))|]; intros x y _ _ (H & _); auto).
    rewrite E, <- declares_in. apply declares_interface; assumption.
  Qed.
  Lemma object_names n : In n (map ob_type (l_objects l)) <-> is_a ds OBJECT n.
  Proof.
    assert (E : map ob_type (l_objects l) = map ob_type (l_objects l0)) by (symmetry; eapply forall2_map; [exact (vd_objects _ _ (validate_parts l0 l Hval))|]; intros x y _ _ (H & _); auto).
    rewrite E, <- declares_in. apply declares_object; assumption.
  Qed.
  Lemma last_index_in {A} (name : A -> string) n xs : In n (map name xs) -> exists i x, last_index name n xs = Some i /\ nth_error xs i = Some x /\ name x = n.
  Proof.
    induction xs as [|x xs IH]; simpl; [contradiction|]. intros H. destruct (last_index name n xs) as [i|] eqn:E.
    - destruct (in_dec string_dec n (map name xs)) as [Hi|Hi].
      + destruct (IH Hi) as (j & y & Ej & Hy). injection Ej as <-. exists (S i), y. split; [reflexivity|]. exact Hy.
      + rewrite last_index_none in E by exact Hi. discriminate.
    - destruct H as [H|H]; [|destruct (IH H) as (j & y & Ej & _); discriminate]. unfold is_name. rewrite <- H, String.eqb_refl. exists 0, x. auto.
  Qed.
  Lemma object_step : exists is mu, Forall2 (fun o o' => fixup_object m is mu o = Ok o') (l_objects l0) (l_objects l) /\ is = l_interfaces l
    /\ mu = match List.find is_mutation (l_operations l) with Some o => ot_type o | None => "" end.
  Proof.
    assert (E := Hval). unfold validate_schema in E. destruct (check_builtins m); try discriminate. cbn [bind] in E.
    destruct (mapM _ (l_inputs l0)) as [inputs|e|]; try discriminate. cbn [bind] in E.
    destruct (reorder inputs) as [inputs'|e|]; try discriminate. cbn [bind] in E.
    destruct (mapM _ (l_interfaces l0)) as [is|e|]; try discriminate. cbn [bind] in E.
    destruct (check_operations false (l_objects l0) (l_operations l0)) as [ops|e|]; try discriminate. cbn [bind] in E.
    destruct (mapM _ (l_objects l0)) as [os|e|] eqn:Eb; try discriminate. cbn [bind] in E.
    destruct (check_interfaces is os); try discriminate. cbn [bind] in E. destruct (check_unions os (l_unions l0)); try discriminate. cbn [bind] in E.
    injection E as <-. cbn [l_objects l_interfaces l_operations]. eexists is, _. split; [apply mapM_forall2; exact Eb|auto].
  Qed.
  Lemma mutation_is : match List.find is_mutation (l_operations l) with Some o => ot_type o | None => "" end = match declared_root ds OpMutation with Some n => n | None => "" end.
  Proof.
    assert (Ec := vd_operations _ _ (validate_parts l0 l Hval)). unfold check_operations in Ec. rewrite (la_operations _ _ L) in Ec. unfold declared_root.
    destruct (schema_operations ds) as [|e ops]; cbn [map] in Ec.
    - cbn [bind] in Ec. destruct (existsb is_query _); [|discriminate]. injection Ec as <-. unfold default_operation. rewrite !(declared_object ds l0 L). cbn [default_name].
      destruct (existsb (String.eqb "Query") (objects_of ds)), (existsb (String.eqb "Mutation") (objects_of ds)), (existsb (String.eqb "Subscription") (objects_of ds)); reflexivity.
    - destruct (List.find _ _) eqn:Ef in Ec; [discriminate|]. cbn [bind] in Ec. destruct (existsb is_query _); [|discriminate]. injection Ec as <-.
      change (operation_of e :: map operation_of ops) with (map operation_of (e :: ops)). generalize (e :: ops). clear. induction l as [|[k n] ops IH]; [reflexivity|]. cbn. destruct k; cbn; [exact IH|reflexivity|exact IH].
  Qed.
  Lemma loaded_objects t : In t (l_objects l) -> ob_interfaces t = interfaces_of ds (ob_type t) /\
    Forall2 (fun f x => loaded_output ds (inherits ds (ob_type t) (sf_name f)) (if String.eqb match declared_root ds OpMutation with Some n => n | None => "" end (ob_type t) then "apply" else "get") f x)
      (object_fields_of ds (ob_type t)) (ob_fields t).
  Proof.
    intros Ht. destruct object_step as (is & mu & F & Eis & Emu). rewrite mutation_is in Emu. destruct (forall2_in_r _ _ _ t F Ht) as (t0 & Ht0 & E). cbn in E. unfold fixup_object in E.
    destruct (fixup_outputs m _ _ (ob_fields t0)) as [fs|e|] eqn:Ef in E; cbn [bind] in E; try discriminate. injection E as <-. cbn [ob_type ob_fields ob_interfaces].
    destruct (objects_known ds O l0 Ev t0 Ht0) as (_ & Ei & Hk). split; [exact Ei|]. apply mapM_forall2 in Ef. eapply forall2_impl_in; [|exact (forall2_compose _ _ _ _ _ Hk Ef)]. cbn. intros f x Hf _ (y & Hy & Hyx).
    destruct (in_object_fields _ _ _ Hf) as (d & Hd & Hm). destruct (fixup_output_loaded d f y x _ _ Hd Hm Hy Hyx) as [[H1 H2 H3 H4 H5 H6 H7 H8] _].
    constructor; auto.
    - rewrite H7. unfold interface_fields, inherits. rewrite in_flat_map, Ei.
      assert (Hif : forall n, is_a ds INTERFACE n -> exists i t', last_index if_type n is = Some i /\ nth_error is i = Some t' /\ In t' (l_interfaces l) /\ if_type t' = n).
      { intros n Hn. apply interface_names in Hn. rewrite <- Eis in Hn. destruct (last_index_in if_type n is Hn) as (i & t' & E1 & E2 & E3). exists i, t'. repeat split; auto. rewrite <- Eis. exact (nth_error_In _ _ E2). }
      split.
      + intros (n & Hn & Hin). destruct (last_index if_type n is) as [i|] eqn:E1; [|contradiction]. destruct (nth_error is i) as [t'|] eqn:E2; [|contradiction].
        assert (Hn' : is_a ds INTERFACE n).
        { apply interface_names. rewrite <- Eis. destruct (in_dec string_dec n (map if_type is)) as [Hi|Hi]; [exact Hi|]. rewrite last_index_none in E1 by exact Hi. discriminate. }
        destruct (Hif n Hn') as (i' & t'' & E1' & E2' & Ht'' & En). rewrite E1 in E1'. injection E1' as <-. rewrite E2 in E2'. injection E2' as <-.
        apply in_map_iff in Hin as (z & Ez & Hz). assert (Fz := loaded_interfaces t' Ht''). destruct (forall2_in_r _ _ _ z Fz Hz) as (g & Hg & Hgz). exists n, g. rewrite En in Hg. repeat split; auto. rewrite <- (lo_name _ _ _ _ _ Hgz). exact Ez.
      + intros (n & g & Hn & Hg & Eg). assert (Hn' : is_a ds INTERFACE n).
        { unfold interface_fields_of in Hg. apply in_flat_map in Hg as (d' & Hd' & Hg'). apply (member_declared ds O INTERFACE n d' Hd'). destruct d'; simpl in Hg'; try contradiction; unfold of_type in Hg'; simpl in Hg';
            destruct (String.eqb_spec n name) as [->|]; try contradiction; simpl; auto. }
        exists n. split; [exact Hn|]. destruct (Hif n Hn') as (i' & t'' & E1' & E2' & Ht'' & En). rewrite E1', E2'. rewrite <- En in Hg.
        destruct (forall2_in_l _ _ _ g (loaded_interfaces t'' Ht'') Hg) as (z & Hz & Hgz). rewrite <- Eg, <- (lo_name _ _ _ _ _ Hgz). apply in_map. exact Hz.
    - rewrite H8, <- Emu. destruct (String.eqb mu (ob_type t0)); reflexivity.
  Qed.
End Loaded.

(** * What it throws *)
Definition fine {A} (P : Prop) (r : result A) : Prop := match r with Ok _ => True | Throw e => exists what, e = Exn runtime_error what | UB => P end.
Lemma fine_bind {A B} P (r : result A) (k : A -> result B) : fine P r -> (forall a, r = Ok a -> fine P (k a)) -> fine P (bind r k).
Proof. destruct r; simpl; auto. Qed.
Lemma fine_weaken {A} (P Q : Prop) (r : result A) : (P -> Q) -> fine P r -> fine Q r.
Proof. destruct r; simpl; auto. Qed.
Lemma fine_mapM {X Y} P (f : X -> result Y) xs : (forall x, In x xs -> fine P (f x)) -> fine P (mapM f xs).
Proof. induction xs as [|x xs IH]; intros H; simpl; [exact I|]. apply fine_bind; [apply H; simpl; auto|]. intros y _. apply fine_bind; [apply IH; intros; apply H; simpl; auto|]. intros; exact I. Qed.
Lemma fine_default l : fine (~ ints_fit l) (visit_default l).
Proof.
  assert (Ht : forall l e, visit_default l <> Throw e).
  { clear l. induction l as [a n|a z|a f|a s|a b|a|a s|a items H|a fields H] using lit_ind'; intros e Hv; simpl in Hv; try discriminate.
    - destruct (in_int_range z); discriminate.
    - revert Hv. match goal with |- ?f items _ = _ -> _ => set (go := f) end. enough (Hgo : forall vs, go items vs <> Throw e) by apply Hgo.
      subst go. induction H as [|x items Hx _ IH]; intros vs Hv; [discriminate|]. destruct (visit_default x) as [w|e'|] eqn:E; cbn [bind] in Hv; try discriminate; [exact (IH _ Hv)|]. exact (Hx e' eq_refl).
    - revert Hv. match goal with |- ?f fields _ = _ -> _ => set (go := f) end. enough (Hgo : forall vs, go fields vs <> Throw e) by apply Hgo.
      subst go. induction H as [|x items Hx _ IH]; intros vs Hv; [discriminate|]. destruct (visit_default (snd (snd x))) as [w|e'|] eqn:E; cbn [bind] in Hv; try discriminate; [exact (IH _ Hv)|]. exact (Hx e' eq_refl). }
  destruct (visit_default l) as [v|e|] eqn:E; simpl; [exact I|destruct (Ht l e E)|]. intros Hf. apply default_visits in Hf as [v Hv]. congruence.
Qed.
Definition bad_default (i : sdl_input) : Prop := exists v text, si_default i = Some (v, text) /\ ~ ints_fit v.
Lemma fine_input i : fine (bad_default i) (get_input_field i).
Proof.
  unfold get_input_field, bad_default. apply fine_bind.
  - destruct (si_default i) as [[v text]|]; [|exact I]. apply fine_bind; [|intros; exact I]. eapply fine_weaken; [|apply fine_default]. eauto.
  - intros [text v] _. destruct (visit_field_type (si_type i)). destruct (negb _ && _ && _); simpl; eauto.
Qed.
Lemma fine_inputs is : fine (exists i, In i is /\ bad_default i) (get_input_fields is).
Proof. apply fine_mapM. intros i Hi. eapply fine_weaken; [|apply fine_input]. eauto. Qed.
Lemma fine_outputs fs : fine (exists i, In i (flat_map sf_args fs) /\ bad_default i) (get_output_fields fs).
Proof.
  apply fine_mapM. intros f Hf. unfold get_output_field. apply fine_bind; [|intros; destruct (visit_field_type (sf_type f)); exact I]. eapply fine_weaken; [|apply fine_inputs].
  intros (i & Hi & Hb). exists i. split; [apply in_flat_map; eauto|exact Hb].
Qed.
Lemma fine_visit l d : fine (exists i, In i (inputs_in d) /\ bad_default i) (visit_definition l d).
Proof.
  destruct d; cbn [visit_definition]; try exact I; try (simpl; eauto; fail); unfold extend_input, extend_interface, extend_object;
    repeat match goal with |- fine _ (if ?b then _ else _) => destruct b; [|exact I] end;
    (apply fine_bind; [|intros; exact I]); first [apply fine_inputs|apply fine_outputs].
Qed.
Lemma fine_visits ds : forall l, fine (exists d i, In d ds /\ In i (inputs_in d) /\ bad_default i) (visit_definitions l ds).
Proof.
  induction ds as [|d ds IH]; intros l; [exact I|]. cbn [visit_definitions]. apply fine_bind.
  - eapply fine_weaken; [|apply fine_visit]. intros (i & Hi & Hb). exists d, i. simpl. auto.
  - intros l' _. eapply fine_weaken; [|apply IH]. intros (x & i & Hx & Hi & Hb). exists x, i. simpl. auto.
Qed.
Lemma fine_validate introspection l : fine False (validate_schema introspection l).
Proof.
  assert (Hin : forall m f, fine False (fixup_input m f)).
  { intros m f. unfold fixup_input. destruct (is_builtin (in_type f)); [exact I|]. destruct (find_schema_type (in_type f) m) as [[]|]; simpl; eauto. }
  assert (Hout : forall m inh acc f, fine False (fixup_output m inh acc f)).
  { intros m inh acc f. unfold fixup_output. destruct (is_builtin (out_type f)); [exact I|]. apply fine_bind; [destruct (find_schema_type (out_type f) m) as [[]|]; simpl; eauto|].
    intros k _. apply fine_bind; [apply fine_mapM; auto|]. intros; exact I. }
  unfold validate_schema. apply fine_bind; [unfold check_builtins; destruct (List.find _ _); simpl; eauto|]. intros _ _.
  apply fine_bind; [apply fine_mapM; intros t _; apply fine_bind; [apply fine_mapM; auto|intros; exact I]|]. intros inputs _.
  apply fine_bind; [destruct (C34_total inputs) as [[ts ->]|(t & _ & ->)]; simpl; eauto|]. intros inputs' _.
  apply fine_bind; [apply fine_mapM; intros t _; apply fine_bind; [apply fine_mapM; auto|intros; exact I]|]. intros is _.
  apply fine_bind; [unfold check_operations; destruct introspection; [destruct (l_operations l); simpl; eauto|];
    apply fine_bind; [destruct (l_operations l); [exact I|]; destruct (List.find _ _); simpl; eauto|]; intros ops _; destruct (existsb is_query ops); simpl; eauto|]. intros ops _.
  apply fine_bind; [apply fine_mapM; intros t _; unfold fixup_object; apply fine_bind; [apply fine_mapM; auto|intros; exact I]|]. intros os _.
  apply fine_bind; [unfold check_interfaces; destruct (List.find _ _) as [[]|]; simpl; eauto|]. intros _ _.
  apply fine_bind; [unfold check_unions; destruct (List.find _ _) as [[]|]; simpl; eauto|]. intros _ _. exact I.
Qed.
Lemma fine_load introspection ds : fine (exists d i, In d ds /\ In i (inputs_in d) /\ bad_default i) (load introspection ds).
Proof. unfold load. apply fine_bind; [apply fine_visits|]. intros l _. eapply fine_weaken; [|apply fine_validate]. contradiction. Qed.
