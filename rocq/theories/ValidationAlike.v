(** Validation does not see descriptions, deprecation or the order in which the types are listed (for C53). *)
From Verif Require Import Cpp Value Ast SchemaModel ValidationModel ValidationHistory.
Local Open Scope string_scope.
Local Open Scope list_scope.
Local Open Scope m_scope.

Definition bare_input (i : input_value) : input_value := mkInput (iv_name i) "" (iv_type i) (iv_default i).
Definition bare_field (f : field_def) : field_def := mkFieldDef (fd_name f) "" None (fd_type f) (map bare_input (fd_args f)).
Definition bare_value (v : enum_value_def) : enum_value_def := mkEnumValue (ev_name v) "" None.
Definition bare_type (d : type_def) : type_def :=
  mkTypeDef (td_kind d) "" (map bare_field (td_fields d)) (td_interfaces d) (td_possible d) (map bare_value (td_enums d)) (map bare_input (td_inputs d)).
Definition bare_directive (d : directive_def) : directive_def := mkDirDef (dd_name d) "" (dd_locs d) (map bare_input (dd_args d)).
(** The same schema, but for descriptions, deprecation and the order of the types. *)
Record alike (S S' : schema) : Prop := mkAlike {
  al_types : forall n, option_map bare_type (find_type S n) = option_map bare_type (find_type S' n);
  al_query : s_query S = s_query S';
  al_mutation : s_mutation S = s_mutation S';
  al_subscription : s_subscription S = s_subscription S';
  al_directives : map bare_directive (s_directives S) = map bare_directive (s_directives S');
  al_introspection : s_introspection S = s_introspection S' }.

Lemma mbind_ext {A B} (m m' : M A) (k k' : A -> M B) : (forall st, m st = m' st) -> (forall a st, k a st = k' a st) -> forall st, mbind m k st = mbind m' k' st.
Proof. intros Hm Hk st. unfold mbind. rewrite Hm. destruct (m' st) as [[e a] st1]. rewrite Hk. reflexivity. Qed.
Lemma iter_ext {A} (f g : A -> M unit) l : (forall x, In x l -> forall st, f x st = g x st) -> forall st, iter f l st = iter g l st.
Proof. induction l as [|x l IH]; intros H; [reflexivity|]. simpl. apply mbind_ext; [apply H; left; reflexivity|]. intros _. apply IH. intros y Hy. apply H. right. exact Hy. Qed.

Section Alike.
  Variables S S' : schema.
  Hypothesis AL : alike S S'.
  Local Ltac both n := let E := fresh "E" in assert (E := al_types S S' AL n); destruct (find_type S n) as [d|], (find_type S' n) as [d'|]; try discriminate E; [injection E as K Kf Ki Kp Ke Kn|].
  Lemma live_alike t : live S t = live S' t.
  Proof. destruct t as [n| |]; try reflexivity. simpl. both n; reflexivity. Qed.
  Lemma kind_alike t : kind_of S t = kind_of S' t.
  Proof. destruct t as [n| |]; try reflexivity. simpl. both n; [exact K|reflexivity]. Qed.
  Lemma found_alike n {X} (a b : X) : (match find_type S n with Some _ => a | None => b end) = match find_type S' n with Some _ => a | None => b end.
  Proof. both n; reflexivity. Qed.
  Lemma matching_alike n : matching_types S n = matching_types S' n.
  Proof.
    unfold matching_types. both n; [|reflexivity]. rewrite K, Kp. destruct (is_scalar_kind (td_kind d')); [reflexivity|]. destruct (kind_eqb (td_kind d') OBJECT); [reflexivity|].
    f_equal. apply filter_ext. intros m. apply found_alike.
  Qed.
  Lemma matches_alike a b : matches_type S a b = matches_type S' a b.
  Proof. unfold matches_type. rewrite !matching_alike. reflexivity. Qed.
  Lemma enums_alike n : enum_values S n = enum_values S' n.
  Proof.
    unfold enum_values. both n; [|reflexivity]. rewrite K. destruct (kind_eqb (td_kind d') ENUM); [|reflexivity]. f_equal.
    apply (f_equal (map ev_name)) in Ke. rewrite !map_map in Ke. exact Ke.
  Qed.
  Lemma scalar_alike n : is_scalar_type S n = is_scalar_type S' n.
  Proof. unfold is_scalar_type. both n; [rewrite K|]; reflexivity. Qed.
  Lemma operation_alike op : operation_type S op = operation_type S' op.
  Proof. unfold operation_type. rewrite (al_query _ _ AL), (al_mutation _ _ AL), (al_subscription _ _ AL). reflexivity. Qed.
  Lemma argument_alike a b : bare_input a = bare_input b -> make_argument S a = make_argument S' b.
  Proof. intros H. injection H as _ H1 H2. unfold make_argument. rewrite H1, H2, live_alike. reflexivity. Qed.
  Lemma arguments_alike l l' : map bare_input l = map bare_input l' -> get_arguments S l = get_arguments S' l'.
  Proof.
    unfold get_arguments. generalize (@nil (string * vargument)). revert l'. induction l as [|a l IH]; intros [|b l'] m H; try discriminate H; [reflexivity|].
    cbn [map] in H. injection H as Hn Ht Hd H. cbn [fold_left]. rewrite (argument_alike a b) by (unfold bare_input; congruence). rewrite Hn. apply IH. exact H.
  Qed.
  Lemma directives_alike : directive_map S = directive_map S'.
  Proof.
    unfold directive_map. assert (H := al_directives _ _ AL). revert H. generalize (s_directives S) (s_directives S') (@nil (string * (list directive_location * list (string * vargument)))).
    induction l as [|a l IH]; intros [|b l'] m H; try discriminate H; [reflexivity|]. cbn [map] in H. injection H as Hn Hl Ha H. cbn [fold_left].
    rewrite (arguments_alike _ _ Ha), Hn, Hl. apply IH. exact H.
  Qed.
  Lemma fields_alike t : scoped_fields S t = scoped_fields S' t.
  Proof.
    unfold scoped_fields. rewrite (al_query _ _ AL), (al_introspection _ _ AL).
    assert (Hm : forall l l' m, map bare_field l = map bare_field l' ->
      fold_left (fun m f => match live S (fd_type f) with Some ty => if String.eqb (fd_name f) "" then m else m_set (fd_name f) (mkVTF ty (get_arguments S (fd_args f))) m | None => m end) l m
      = fold_left (fun m f => match live S' (fd_type f) with Some ty => if String.eqb (fd_name f) "" then m else m_set (fd_name f) (mkVTF ty (get_arguments S' (fd_args f))) m | None => m end) l' m).
    { induction l as [|a l IH]; intros [|b l'] m H; try discriminate H; [reflexivity|]. cbn [map] in H. injection H as Hn Ht Ha H. cbn [fold_left].
      rewrite Hn, Ht, live_alike, (arguments_alike _ _ Ha). apply IH. exact H. }
    both (type_name t); [|rewrite (Hm [] []) by reflexivity; reflexivity]. rewrite (Hm _ _ [] Kf). reflexivity.
  Qed.
  Lemma scoped_alike st : get_scoped_type_fields S st = get_scoped_type_fields S' st.
  Proof. unfold get_scoped_type_fields. destruct (scopedType st) as [t|]; [|reflexivity]. rewrite kind_alike, fields_alike. reflexivity. Qed.
  Lemma input_fields_alike n st : get_input_type_fields S n st = get_input_type_fields S' n st.
  Proof.
    unfold get_input_type_fields. destruct (assoc n (inputTypeFields st)); [reflexivity|]. both n; [|reflexivity]. rewrite K, (arguments_alike _ _ Kn). reflexivity.
  Qed.
  Lemma inner_alike t : inner_type S t = inner_type S' t.
  Proof. induction t as [n|t IH|t IH]; cbn [inner_type]; [apply live_alike|exact IH|exact IH]. Qed.
  Lemma is_input_alike t : is_input_type S t = is_input_type S' t.
  Proof. induction t as [n|t IH|t IH]; cbn [is_input_type]; [|exact IH|exact IH]. both n; [rewrite K|]; reflexivity. Qed.
  Lemma variable_type_alike input : forall nn var pos, validate_variable_type S input nn var pos = validate_variable_type S' input nn var pos.
  Proof.
    induction input as [n|t IH|t IH]; intros nn var; revert nn; induction var as [m|v IHv|v IHv]; intros nn pos; cbn [validate_variable_type];
      try (rewrite (live_alike v); destruct (live S' v); [exact (IHv true pos)|reflexivity]); rewrite ?live_alike, ?kind_alike, ?IH; reflexivity.
  Qed.
  Lemma scalar_value_alike n v st : validate_scalar S n v st = validate_scalar S' n v st.
  Proof. unfold validate_scalar. rewrite scalar_alike. reflexivity. Qed.
  Lemma enum_value_alike n v st : validate_enum S n v st = validate_enum S' n v st.
  Proof. unfold validate_enum. rewrite enums_alike. reflexivity. Qed.
  Lemma variable_alike d pos n t st : validate_variable S d pos n t st = validate_variable S' d pos n t st.
  Proof.
    unfold validate_variable. apply mbind_ext; [reflexivity|]. clear st. intros s st. destruct (operationVariables s) as [vars|]; [|reflexivity]. destruct (assoc n vars) as [v|]; [|reflexivity].
    apply mbind_ext; [reflexivity|]. clear st. intros _ st. destruct (va_type v) as [vt|]; [|reflexivity]. rewrite variable_type_alike. reflexivity.
  Qed.
  Lemma unwrap_alike pos (f g : tref -> M bool) t : (forall t st, f t st = g t st) -> forall st, unwrap_nonnull S pos f t st = unwrap_nonnull S' pos g t st.
  Proof. intros H. induction t as [n|t IH|t IH]; intros st; cbn [unwrap_nonnull]; try apply H. rewrite live_alike. destruct (live S' t); [apply IH|reflexivity]. Qed.
  Lemma items_alike (f g : aval -> bool -> option tref -> M bool) t l : (forall x, In x l -> forall d o st, f x d o st = g x d o st) ->
    forall st, validate_items f t l st = validate_items g t l st.
  Proof.
    induction l as [|x l IH]; intros H st; [reflexivity|]. cbn [validate_items]. apply mbind_ext; [intros s; apply H; left; reflexivity|]. clear st. intros [] st; [|reflexivity].
    apply IH. intros y Hy. apply H. right. exact Hy.
  Qed.
  Lemma entries_alike (f g : aval -> bool -> option tref -> M bool) n pos l : (forall k x, In (k, x) l -> forall d o st, f x d o st = g x d o st) ->
    forall fields subs st, validate_entries S f n pos l fields subs st = validate_entries S' g n pos l fields subs st.
  Proof.
    induction l as [|[k x] l IH]; intros H fields subs st; [reflexivity|]. cbn [validate_entries]. destruct (assoc k fields) as [a|]; [|reflexivity].
    assert (H' : forall k x, In (k, x) l -> forall d o st, f x d o st = g x d o st) by (intros k' y Hy; apply (H k'); right; exact Hy).
    destruct (negb (is_null x) || negb (va_default a)); [|apply IH, H'].
    apply mbind_ext; [intros s; apply (H k); left; reflexivity|]. clear st. intros [] st; [|reflexivity]. apply mbind_ext; [intros s; apply input_fields_alike|]. clear st. intros o st. apply IH, H'.
  Qed.
  Lemma input_alike v : forall d o st, validate_input S v d o st = validate_input S' v d o st.
  Proof.
    induction v as [p n|p z|p z|p z|p z|p|p z|p items IH|p fields IH] using aval_ind'; intros d [t0|] st; try reflexivity; cbn [validate_input];
      try apply variable_alike; apply unwrap_alike; clear st; intros [n|t|t] st; rewrite ?kind_alike, ?live_alike; try reflexivity;
      try (destruct (kind_of S' (TNamed n)); try reflexivity; try apply enum_value_alike; try apply scalar_value_alike).
    - destruct (live S' t); [|reflexivity]. apply items_alike. rewrite Forall_forall in IH. exact IH.
    - destruct (String.eqb n ""); [reflexivity|]. apply mbind_ext; [intros s; apply input_fields_alike|]. clear st. intros [fs|] st; [|reflexivity].
      apply entries_alike. intros k x Hx. rewrite Forall_forall in IH. exact (IH _ Hx).
  Qed.
  Lemma check_args_alike what pos defined m locs names st : check_args S what pos defined m locs names st = check_args S' what pos defined m locs names st.
  Proof.
    unfold check_args. apply mbind_ext; [reflexivity|]. clear st. intros _. apply iter_ext. intros [n a] _ st. destruct (assoc n m) as [v|]; [|reflexivity]. destruct (is_null v); [reflexivity|].
    apply mbind_ext; [intros s; apply input_alike|]. reflexivity.
  Qed.
  Lemma visit_directives_alike loc ds : forall seen st, visit_directives S loc seen ds st = visit_directives S' loc seen ds st.
  Proof.
    induction ds as [|d ds IH]; intros seen st; [reflexivity|]. cbn [visit_directives]. rewrite directives_alike. destruct (mem (d_name d) seen); [apply mbind_ext; [reflexivity|intros _; apply IH]|].
    apply mbind_ext; [|intros _; apply IH]. clear st. intros st. destruct (assoc (d_name d) (directive_map S')) as [[locs defined]|]; [|reflexivity].
    destruct (negb (existsb (dloc_eqb loc) locs)); [reflexivity|]. destruct (d_args d) as [|a args]; [reflexivity|].
    destruct (collect_args _ (a :: args) [] [] []) as [es [[m alocs] names]]. apply mbind_ext; [reflexivity|]. clear st. intros _ st. apply check_args_alike.
  Qed.
  Lemma visit_field_alike loc alias n args dirs sub sub' : match sub, sub' with Some f, Some g => forall st, f st = g st | None, None => True | _, _ => False end ->
    forall st, visit_field S loc alias n args dirs sub st = visit_field S' loc alias n args dirs sub' st.
  Proof.
    intros Hs st. unfold visit_field. apply mbind_ext; [intros s; apply visit_directives_alike|]. clear st. intros _. apply mbind_ext; [reflexivity|]. intros st0.
    apply mbind_ext; [intros s; apply scoped_alike|]. intros [fields|] st; [|reflexivity]. rewrite !kind_alike. destruct (_ && negb _); [reflexivity|].
    replace (match assoc n fields with Some f => match inner_type S (tf_type f) with Some i => Some (i, tf_type f) | None => None end | None => None end)
      with (match assoc n fields with Some f => match inner_type S' (tf_type f) with Some i => Some (i, tf_type f) | None => None end | None => None end)
      by (destruct (assoc n fields); [rewrite inner_alike|]; reflexivity).
    destruct (if kind_eqb _ UNION then _ else _) as [[inner wrapped]|]; [|reflexivity]. destruct (collect_args _ args [] [] []) as [es [[m alocs] names]].
    apply mbind_ext; [reflexivity|]. clear st. intros _. apply mbind_ext; [reflexivity|]. intros st1 st. rewrite ?kind_alike. destruct (match assoc _ (selectionFields st1) with Some p => _ | None => false end); [reflexivity|].
    apply mbind_ext; [reflexivity|]. clear st. intros _. apply mbind_ext; [intros st; destruct (assoc n fields); [apply check_args_alike|reflexivity]|]. intros _.
    apply mbind_ext; [reflexivity|]. intros _. apply mbind_ext.
    - intros st. destruct sub as [f|], sub' as [g|]; try contradiction; [|reflexivity]. apply mbind_ext; [reflexivity|]. clear st. intros outer. apply mbind_ext; [reflexivity|]. intros _.
      apply mbind_ext; [exact Hs|]. reflexivity.
    - reflexivity.
  Qed.
  Lemma visit_spread_alike loc n dirs f g : (forall l st, f l st = g l st) -> forall st, visit_spread S loc n dirs f st = visit_spread S' loc n dirs g st.
  Proof.
    intros H st. unfold visit_spread. apply mbind_ext; [intros s; apply visit_directives_alike|]. clear st. intros _. apply mbind_ext; [reflexivity|]. intros st0 st.
    destruct (assoc n (fragmentDefinitions st0)) as [d|]; [|reflexivity]. destruct (mem n (fragmentStack st0)); [reflexivity|]. rewrite matches_alike.
    rewrite (found_alike (f_cond d)). destruct (match find_type S' (f_cond d) with Some _ => _ | None => true end); [reflexivity|].
    apply mbind_ext; [reflexivity|]. clear st. intros _. apply mbind_ext; [intros st; apply H|]. reflexivity.
  Qed.
  Lemma visit_inline_alike cond dirs (f g : M unit) : (forall st, f st = g st) -> forall st, visit_inline S cond dirs f st = visit_inline S' cond dirs g st.
  Proof.
    intros H st. unfold visit_inline. apply mbind_ext; [intros s; apply visit_directives_alike|]. clear st. intros _. apply mbind_ext; [reflexivity|]. intros st0.
    assert (Hb : forall t st, (modify (set_scoped t) ;;; f ;;; modify (set_scoped (scopedType st0))) st = (modify (set_scoped t) ;;; g ;;; modify (set_scoped (scopedType st0))) st).
    { intros t st. apply mbind_ext; [reflexivity|]. clear st. intros _. apply mbind_ext; [exact H|]. reflexivity. }
    intros st. destruct cond as [[loc [|c r]]|]; try apply Hb. rewrite matches_alike. both (String c r); [|reflexivity]. rewrite K. destruct (is_scalar_kind (td_kind d')); [reflexivity|].
    destruct (negb _); [reflexivity|]. apply Hb.
  Qed.
  Lemma visit_sel_alike : forall avail s st, visit_sel S avail s st = visit_sel S' avail s st.
  Proof.
    induction avail as [|avail IHa]; (induction s as [loc alias n args dirs|loc alias n args dirs l sels IH|loc n dirs|loc cond dirs sels IH] using selection_ind'; intros st; cbn [visit_sel];
      [apply visit_field_alike; exact I|apply visit_field_alike; apply iter_ext; rewrite Forall_forall in IH; exact IH
      |apply visit_spread_alike; clear st; intros l st
      |apply visit_inline_alike; apply iter_ext; rewrite Forall_forall in IH; exact IH]).
    - reflexivity.
    - apply iter_ext. intros x _. apply IHa.
  Qed.
  Lemma visit_fragment_alike avail f st : visit_fragment_definition S avail f st = visit_fragment_definition S' avail f st.
  Proof.
    unfold visit_fragment_definition. apply mbind_ext; [intros s; apply visit_directives_alike|]. clear st. intros _ st. both (f_cond f); [|reflexivity]. rewrite K.
    destruct (is_scalar_kind (td_kind d')); [reflexivity|]. apply mbind_ext; [reflexivity|]. clear st. intros _. apply mbind_ext; [|reflexivity]. apply iter_ext. intros x _. apply visit_sel_alike.
  Qed.
  Lemma visit_variable_alike n v st : visit_variable S n v st = visit_variable S' n v st.
  Proof.
    unfold visit_variable. apply mbind_ext; [reflexivity|]. clear st. intros s st. destruct (assoc (v_name v) _); [reflexivity|]. rewrite is_input_alike. destruct (negb _); [reflexivity|].
    destruct (v_default v) as [l|]; [|reflexivity]. destruct (arg_value l) as [es a]. apply mbind_ext; [reflexivity|]. clear st. intros _. apply mbind_ext; [intros st; apply input_alike|]. reflexivity.
  Qed.
  Lemma visit_operation_alike avail o st : visit_operation_definition S avail o st = visit_operation_definition S' avail o st.
  Proof.
    unfold visit_operation_definition. apply mbind_ext; [reflexivity|]. clear st. intros _. apply mbind_ext; [apply iter_ext; intros x _ st; apply visit_variable_alike|]. intros _.
    apply mbind_ext; [intros st; apply visit_directives_alike|]. intros _ st. rewrite operation_alike. destruct (operation_type S' (op_type_of o)); [|reflexivity].
    apply mbind_ext; [reflexivity|]. clear st. intros _. apply mbind_ext; [|reflexivity]. apply iter_ext. intros x _. apply visit_sel_alike.
  Qed.
  Theorem validate_alike d st : validate S d st = validate S' d st.
  Proof.
    unfold validate, visit_document, visit_document_at.
    enough (H : forall st, visit_document_at S 0 d st = visit_document_at S' 0 d st) by (unfold visit_document_at in H; rewrite H; reflexivity).
    clear st. intros st. unfold visit_document_at. apply mbind_ext; [reflexivity|]. clear st. intros _. apply mbind_ext; [reflexivity|]. intros _. apply mbind_ext; [reflexivity|]. intros s.
    apply mbind_ext; [reflexivity|]. intros _. apply mbind_ext; [|reflexivity]. apply iter_ext. intros [o|f|l] _ st; [apply visit_operation_alike|apply visit_fragment_alike|reflexivity].
  Qed.
End Alike.
