(** Documents one after the other. *)
From Verif Require Import Cpp Value Ast SchemaModel SortedMapModel.
From Verif Require Import ValidationModel ValidationSpec ValidationMaps ValidationValues ValidationSelections ValidationDocument ValidationHistory.
Local Open Scope string_scope.
Local Open Scope list_scope.
Local Open Scope m_scope.

Section Documents.
  Variable S : schema.
  Ltac rmod := intros ? ? [? ? ? ? ? ? ? ? ? ? ? ? ? ? ? ?]; constructor; simpl; auto; try congruence.

  Lemma R_weaken b x y : R S b x y -> R S false x y.
  Proof. intros []; constructor; auto; discriminate. Qed.
  Lemma rel_from {A} f (m m' : M A) : (forall x y, R S false x y -> R S true (f x) (f y)) -> rel S true m m' ->
    rel S false (modify f ;;; m) (modify f ;;; m').
  Proof.
    intros Hf Hm x y H. destruct (Hm _ _ (Hf x y H)) as (e & a & x1 & y1 & E1 & E2 & H1). exists e, a, x1, y1. unfold mbind, modify. rewrite E1, E2.
    split; [reflexivity|]. split; [reflexivity|]. eapply R_weaken; eauto.
  Qed.
  Lemma rel_fragment b avail f : rel S b (visit_fragment_definition S avail f) (visit_fragment_definition S avail f).
  Proof.
    unfold visit_fragment_definition. apply rel_bind; [apply rel_directives|]. intros _. destruct (find_type S (f_cond f)) as [d|]; [|apply rel_emit].
    destruct (is_scalar_kind (td_kind d)); [apply rel_emit|]. apply rel_bind; [apply rel_modify; rmod|]. intros _.
    apply rel_bind; [apply rel_iter; intros; apply rel_sel|]. intros _. apply rel_modify. rmod.
  Qed.
  Lemma rel_variable_def b name v : rel S b (visit_variable S name v) (visit_variable S name v).
  Proof.
    unfold visit_variable. apply rel_get. intros x y H. rewrite <- (r_vars _ _ _ _ H). clear H y.
    assert (AD : forall a, rel S b
      (modify (fun st => set_op_vars (Some (fst (m_emplace (v_name v) a (match operationVariables st with Some m => m | None => [] end))))
                          (set_var_defs (fst (m_emplace (v_name v) v (variableDefinitions st))) st)))
      (modify (fun st => set_op_vars (Some (fst (m_emplace (v_name v) a (match operationVariables st with Some m => m | None => [] end))))
                          (set_var_defs (fst (m_emplace (v_name v) v (variableDefinitions st))) st)))).
    { intro a. apply rel_modify. intros x0 y0 H. rewrite <- (r_vars _ _ _ _ H), <- (r_defs _ _ _ _ H). destruct H; constructor; simpl; auto. }
    destruct (assoc (v_name v) (match operationVariables x with Some m => m | None => [] end)); [apply rel_emit|].
    destruct (negb (is_input_type S (v_type v))); [apply rel_emit|]. destruct (v_default v) as [l|]; auto.
    destruct (arg_value l) as [es a]. apply rel_bind; [apply rel_emits|]. intros _. apply rel_bind; [apply rel_input|]. intros [|]; [apply AD|apply rel_emit].
  Qed.
  Lemma rel_operation avail o : rel S false (visit_operation_definition S avail o) (visit_operation_definition S avail o).
  Proof.
    unfold visit_operation_definition. apply rel_bind; [apply rel_modify; rmod|]. intros _.
    apply rel_bind; [apply rel_iter; intros; apply rel_variable_def|]. intros _. apply rel_bind; [apply rel_directives|]. intros _.
    destruct (operation_type S (op_type_of o)) as [t|]; [|apply rel_emit].
    apply rel_from; [intros x y []; constructor; simpl; auto|].
    apply rel_bind; [apply rel_iter; intros; apply rel_sel|]. intros _. apply rel_get. intros x y H.
    rewrite <- (r_count _ _ _ _ H eq_refl), <- (r_refv _ _ _ _ H), <- (r_defs _ _ _ _ H). clear H.
    apply rel_bind; [match goal with |- rel _ _ (if ?c then _ else _) _ => destruct c end; [apply rel_emit|apply rel_ret]|]. intros _.
    apply rel_bind; [apply rel_modify; rmod|]. intros _.
    apply rel_bind; [apply rel_iter; intros d _; destruct (mem (fst d) (referencedVariables x)); [apply rel_ret|apply rel_emit]|]. intros _.
    apply rel_modify. rmod.
  Qed.
  Lemma rel_document extra d : rel S false (visit_document_at S extra d) (visit_document_at S extra d).
  Proof.
    unfold visit_document_at.
    apply rel_bind.
    { apply rel_iter. intros f _. apply rel_get. intros x y H. rewrite <- (r_frags _ _ _ _ H). destruct (m_emplace (f_name f) f (fragmentDefinitions x)) as [m i].
      apply rel_bind; [apply rel_modify; rmod|]. intros _. destruct i; [apply rel_ret|apply rel_emit]. }
    intros _. apply rel_bind.
    { apply rel_iter. intros o _. apply rel_get. intros x y H. rewrite <- (r_ops _ _ _ _ H). destruct (m_emplace (op_name_of o) o (operationDefinitions x)) as [m i].
      apply rel_bind; [apply rel_modify; rmod|]. intros _. destruct i; [apply rel_ret|apply rel_emit]. }
    intros _. apply rel_get. intros x y H. rewrite <- (r_frags _ _ _ _ H), <- (r_ops _ _ _ _ H). clear H.
    apply rel_bind.
    { destruct (Nat.ltb 1 (length (operationDefinitions x))); [|apply rel_ret]. destruct (assoc "" (operationDefinitions x)); [apply rel_emit|apply rel_ret]. }
    intros _. apply rel_bind.
    { apply rel_iter. intros [o|f|loc] _; [apply rel_operation|apply rel_fragment|apply rel_emit]. }
    intros _. apply rel_get. intros x1 y1 H. rewrite <- (r_frags _ _ _ _ H), <- (r_reff _ _ _ _ H). clear H.
    apply rel_bind; [apply rel_modify; rmod|]. intros _. apply rel_iter. intros e _. apply rel_emit.
  Qed.

  (** * The state between two documents *)
  Record settled (st : vstate) : Prop := {
    se_frags : fragmentDefinitions st = [];
    se_ops : operationDefinitions st = [];
    se_reff : referencedFragments st = [];
    se_cycles : fragmentCycles st = [];
    se_vars : operationVariables st = None;
    se_defs : variableDefinitions st = [];
    se_refv : referencedVariables st = [];
    se_stack : fragmentStack st = [];
    se_scoped : scopedType st = None;
    se_fields : selectionFields st = [];
    se_icache : icache_ok S st;
    se_tcache : tcache_ok S st }.
  Lemma settled_initial : settled initial.
  Proof. constructor; try reflexivity; intros n fs; discriminate. Qed.
  Lemma settled_clean st : settled st -> clean S st.
  Proof. intros []. constructor; auto. Qed.
  Lemma settled_R x y : settled x -> settled y -> R S false x y.
  Proof. intros [H1 H2 H3 H4 H5 H6 H7 H8 H9 H10 H11 H12] [G1 G2 G3 G4 G5 G6 G7 G8 G9 G10 G11 G12]. constructor; try congruence; auto. rewrite H9. simpl. auto. Qed.

  (** the members that an operation or a fragment sets are cleared at its end *)
  Record idle (st : vstate) : Prop := {
    id_vars : operationVariables st = None;
    id_defs : variableDefinitions st = [];
    id_refv : referencedVariables st = [];
    id_stack : fragmentStack st = [];
    id_scoped : scopedType st = None;
    id_fields : selectionFields st = [] }.
  Definition idles {A} (m : M A) : Prop := forall st, idle st -> idle (snd (m st)).
  Lemma idles_bind {A B} (m : M A) (k : A -> M B) : idles m -> (forall a, idles (k a)) -> idles (mbind m k).
  Proof.
    intros Hm Hk st Hst. unfold mbind. specialize (Hm st Hst). destruct (m st) as [[e a] st1]. specialize (Hk a st1 Hm). destruct (k a st1) as [[e2 b] st2]. exact Hk.
  Qed.
  Lemma idles_iter {X} (f : X -> M unit) l : (forall x, In x l -> idles (f x)) -> idles (iter f l).
  Proof. induction l as [|x r IH]; simpl; intro H; [intros st Hst; exact Hst|]. apply idles_bind; [apply H; auto|]. intros _. apply IH. auto. Qed.
  Lemma idles_same {A} (m : M A) : (forall st, snd (m st) = st) -> idles m.
  Proof. intros H st Hst. rewrite H. auto. Qed.

  (** visiting directives or values changes only the caches and the set of variables seen *)
  Record quiet (st st' : vstate) : Prop := {
    q_stack : fragmentStack st' = fragmentStack st; q_scoped : scopedType st' = scopedType st; q_fields : selectionFields st' = selectionFields st }.
  Definition quiets {A} (m : M A) : Prop := forall st, quiet st (snd (m st)).
  Lemma quiet_refl st : quiet st st.
  Proof. constructor; auto. Qed.
  Lemma quiets_bind {A B} (m : M A) (k : A -> M B) : quiets m -> (forall a, quiets (k a)) -> quiets (mbind m k).
  Proof.
    intros Hm Hk st. unfold mbind. specialize (Hm st). destruct (m st) as [[e a] st1]. specialize (Hk a st1). destruct (k a st1) as [[e2 b] st2].
    destruct Hm, Hk. constructor; simpl in *; congruence.
  Qed.
  Lemma quiets_ret {A} (a : A) : quiets (ret a).
  Proof. intro st. apply quiet_refl. Qed.
  Lemma quiets_emit msg loc : quiets (emit msg loc).
  Proof. intro st. apply quiet_refl. Qed.
  Lemma quiets_emits es : quiets (emits es).
  Proof. intro st. apply quiet_refl. Qed.
  Lemma quiets_fail msg loc : quiets (fail msg loc).
  Proof. intro st. apply quiet_refl. Qed.
  Lemma quiets_iter {X} (f : X -> M unit) l : (forall x, In x l -> quiets (f x)) -> quiets (iter f l).
  Proof. induction l as [|x r IH]; simpl; intro H; [apply quiets_ret|]. apply quiets_bind; [apply H; auto|]. intros _. apply IH. auto. Qed.
  Lemma quiets_input_fields name : quiets (get_input_type_fields S name).
  Proof.
    intro st. unfold get_input_type_fields. destruct (assoc name (inputTypeFields st)); [apply quiet_refl|]. destruct (find_type S name) as [d|]; [|apply quiet_refl].
    destruct (kind_eqb (td_kind d) INPUT_OBJECT); constructor; auto.
  Qed.
  Ltac k1 := first [apply quiets_ret|apply quiets_emit|apply quiets_emits|apply quiets_fail|apply quiets_input_fields].
  Ltac kif := match goal with |- quiets (if ?c then _ else _) => destruct c end.
  Lemma quiets_input v : forall d t, quiets (validate_input S v d t).
  Proof.
    assert (U : forall pos base t, (forall t, quiets (base t)) -> quiets (unwrap_nonnull S pos base t)).
    { intros pos base t Hb. induction t as [n|t IH|t IH]; simpl; auto. destruct (live S t); auto. k1. }
    assert (QR : forall name pos subs fields, quiets (required_fields name pos subs fields)).
    { intros name pos subs fields. induction fields as [|(k, a) r IH]; simpl; [k1|]. kif; auto. destruct (va_type a) as [[]|]; auto; k1. }
    assert (QS : forall name v, quiets (validate_scalar S name v)).
    { intros name w. unfold validate_scalar. repeat kif; try k1; destruct w; try k1; repeat kif; k1. }
    assert (QE : forall name v, quiets (validate_enum S name v)).
    { intros name w. unfold validate_enum. kif; [k1|]. destruct w; try k1. kif; k1. }
    assert (QV : forall d pos name t, quiets (validate_variable S d pos name t)).
    { intros d pos name t st. unfold validate_variable. rewrite bind_get. destruct (operationVariables st) as [vars|]; [|apply quiet_refl].
      destruct (assoc name vars) as [w|]; [|apply quiet_refl]. unfold mbind, modify. destruct (va_type w) as [vt|].
      - destruct (validate_variable_type S t (d || va_nonnull_default w) vt pos) as [es b]. constructor; reflexivity.
      - constructor; reflexivity. }
    induction v as [l n|l z|l z|l z|l z|l|l z|l items IH|l fields IH] using aval_ind'; intros d [t|]; try (simpl; k1; fail).
    - simpl. apply QV.
    - cbn [validate_input]. apply U. clear t. intros [n|t|t]; try k1. destruct (kind_of S (TNamed n)); try k1; auto. kif; k1.
    - cbn [validate_input]. apply U. clear t. intros [n|t|t]; try k1. destruct (kind_of S (TNamed n)); try k1; auto. kif; k1.
    - cbn [validate_input]. apply U. clear t. intros [n|t|t]; try k1. destruct (kind_of S (TNamed n)); try k1; auto. kif; k1.
    - cbn [validate_input]. apply U. clear t. intros [n|t|t]; try k1. destruct (kind_of S (TNamed n)); try k1; auto. kif; k1.
    - simpl. destruct t; try k1. destruct d; k1.
    - cbn [validate_input]. apply U. clear t. intros [n|t|t]; try k1. destruct (kind_of S (TNamed n)); try k1; auto. kif; k1.
    - cbn [validate_input]. apply U. clear t. intros [n|t|t]; try k1.
      + destruct (kind_of S (TNamed n)); try k1; auto. kif; k1.
      + destruct (live S t); [|k1]. induction IH as [|x r Hx IH IH2]; cbn [validate_items]; [k1|]. apply quiets_bind; [apply Hx|]. intros [|]; [exact IH2|k1].
    - cbn [validate_input]. apply U. clear t. intros [n|t|t]; try k1.
      destruct (kind_of S (TNamed n)); try k1; auto. kif; [k1|]. apply quiets_bind; [k1|]. intros [fs|]; [|k1].
      generalize (@nil string). revert fs. induction IH as [|(k, x) r Hx IH IH2]; intros fs subs; cbn [validate_entries]; [apply QR|].
      destruct (assoc k fs) as [f|]; [|k1]. kif; [|apply IH2].
      apply quiets_bind; [apply Hx|]. intros [|]; [|k1]. apply quiets_bind; [k1|]. intros again. apply IH2.
  Qed.
  Lemma quiets_check_args what pos defined m locs names : quiets (check_args S what pos defined m locs names).
  Proof.
    unfold check_args. apply quiets_bind; [apply quiets_iter; intros x _; destruct (assoc x defined); k1|]. intros _. apply quiets_iter. intros (name, a) _.
    destruct (assoc name m) as [v|].
    - destruct (is_null v).
      + kif; [k1|]. destruct (va_type a) as [[]|]; k1.
      + apply quiets_bind; [apply quiets_input|]. intros [|]; k1.
    - kif; [k1|]. destruct (va_type a) as [[]|]; k1.
  Qed.
  Lemma quiets_directives loc ds : forall seen, quiets (visit_directives S loc seen ds).
  Proof.
    induction ds as [|d r IH]; intro seen; cbn [visit_directives]; [k1|]. kif; [apply quiets_bind; [k1|auto]|].
    apply quiets_bind; [|auto]. destruct (assoc (d_name d) (directive_map S)) as [(locs, defined)|]; [|k1].
    kif; [k1|]. destruct (d_args d) as [|a args]; [k1|].
    destruct (collect_args ("directive: " ++ d_name d) (a :: args) [] [] []) as [es [[m alocs] names]]. apply quiets_bind; [k1|]. intros _. apply quiets_check_args.
  Qed.

  Lemma snd_bind {A B} (m : M A) (k : A -> M B) st : snd (mbind m k st) = snd (k (snd (fst (m st))) (snd (m st))).
  Proof. unfold mbind. destruct (m st) as [[e a] st1]. simpl. destruct (k a st1) as [[e2 b] st2]. reflexivity. Qed.

  Lemma iter_still {X} (f : X -> M unit) l : (forall x st, snd (f x st) = st) -> forall st, snd (iter f l st) = st.
  Proof. intro H. induction l as [|x r IH]; intro st; cbn [iter]; auto. rewrite snd_bind, IH. auto. Qed.

  Lemma idles_fragment avail f : idles (visit_fragment_definition S avail f).
  Proof.
    intros st Hst. unfold visit_fragment_definition. rewrite snd_bind.
    pose proof (keeps_directives S FRAGMENT_DEFINITION (f_dirs f) [] st) as K. pose proof (quiets_directives FRAGMENT_DEFINITION (f_dirs f) [] st) as Q.
    set (st1 := snd (visit_directives S FRAGMENT_DEFINITION [] (f_dirs f) st)) in *.
    assert (I1 : idle st1).
    { destruct Hst as [I1 I2 I3 I4 I5 I6], K as [K1 K2 K3 K4 K5 K6], Q as [Q1 Q2 Q3]. constructor; try congruence. rewrite K6; auto. }
    destruct (find_type S (f_cond f)) as [d|]; [|exact I1]. destruct (is_scalar_kind (td_kind d)); [exact I1|]. rewrite !snd_bind. unfold visit_sels. simpl.
    match goal with |- context [iter (visit_sel S avail) (f_sel f) ?s] => set (st2 := s); assert (K2 : frame st2 (snd (iter (visit_sel S avail) (f_sel f) st2))) end.
    { apply keeps_iter. intros x _. apply keeps_sel. }
    destruct I1 as [J1 J2 J3 J4 J5 J6], K2 as [L1 L2 L3 L4 L5 L6]. simpl in *. constructor; simpl; try congruence; auto. rewrite L6; auto.
  Qed.
  Lemma idles_operation avail o : root_type S o <> None -> idles (visit_operation_definition S avail o).
  Proof.
    intros Hr st Hst. unfold visit_operation_definition. rewrite !snd_bind.
    change (operation_type S (op_type_of o)) with (root_type S o). destruct (root_type S o) as [t|]; [|congruence].
    rewrite !snd_bind.
    match goal with |- idle (snd (modify _ (snd (iter ?f ?l (snd (modify ?g ?s)))))) =>
      assert (E1 : snd (iter f l (snd (modify g s))) = g s) by (apply iter_still; intros ? ?; match goal with |- snd ((if ?c then _ else _) _) = _ => destruct c end; reflexivity);
      rewrite E1 end.
    constructor; reflexivity.
  Qed.

  (** every operation of the document is of a kind that the schema supports *)
  Definition supported (d : document) : Prop := forall o, In o (operations d) -> root_type S o <> None.

  Theorem validate_settles d st : supported d -> settled st -> settled (snd (validate S d st)).
  Proof.
    intros Hd Hst. unfold validate, visit_document.
    destruct (rel_document 0 d st st (settled_R _ _ Hst Hst)) as (e & a & x' & y' & E1 & E2 & HR). rewrite E1.
    assert (I : idle x').
    { assert (I0 : idle st) by (destruct Hst; constructor; auto). change x' with (snd (e, a, x')). rewrite <- E1. revert st Hst I0 E1 E2. intros st _ I0 _ _. revert st I0.
      change (idles (visit_document_at S 0 d)). unfold visit_document_at.
      assert (ID : forall msg loc, idles (emit msg loc)) by (intros; apply idles_same; reflexivity).
      assert (IR : idles (ret tt)) by (apply idles_same; reflexivity).
      assert (IG : idles get) by (apply idles_same; reflexivity).
      apply idles_bind.
      { apply idles_iter. intros f _. apply idles_bind; [exact IG|]. intro s. destruct (m_emplace (f_name f) f (fragmentDefinitions s)) as [m i].
        apply idles_bind; [intros st []; constructor; auto|]. intros _. destruct i; auto. }
      intros _. apply idles_bind.
      { apply idles_iter. intros f _. apply idles_bind; [exact IG|]. intro s. destruct (m_emplace (op_name_of f) f (operationDefinitions s)) as [m i].
        apply idles_bind; [intros st []; constructor; auto|]. intros _. destruct i; auto. }
      intros _. apply idles_bind; [exact IG|]. intro s. apply idles_bind.
      { destruct (Nat.ltb 1 (length (operationDefinitions s))); auto. destruct (assoc "" (operationDefinitions s)); auto. }
      intros _. apply idles_bind.
      { apply idles_iter. intros [o|f|loc] Hx; auto; [apply idles_operation, Hd, in_ops; auto|apply idles_fragment]. }
      intros _. apply idles_bind; [exact IG|]. intro s2. apply idles_bind; [intros st []; constructor; auto|]. intros _. apply idles_iter. auto. }
    destruct I, HR. constructor; auto.
  Qed.

  (** the visitor after a history of documents *)
  Definition after (history : list document) (st : vstate) : vstate := fold_left (fun st d => snd (validate S d st)) history st.
  Lemma after_settled history : forall st, settled st -> Forall supported history -> settled (after history st).
  Proof. induction history as [|d r IH]; intros st Hst Hh; simpl; auto. inversion Hh. subst. apply IH; auto. apply validate_settles; auto. Qed.
  Theorem validate_same d x y : settled x -> settled y -> fst (validate S d x) = fst (validate S d y).
  Proof.
    intros Hx Hy. unfold validate, visit_document. destruct (rel_document 0 d x y (settled_R _ _ Hx Hy)) as (e & a & x' & y' & E1 & E2 & _). rewrite E1, E2. reflexivity.
  Qed.

  (** * The bound on the nesting of fragments does not matter *)
  Lemma filter_le {X} (f : X -> bool) l : length (filter f l) <= length l.
  Proof. induction l as [|x r IH]; simpl; auto. destruct (f x); simpl; lia. Qed.
  Lemma sels_fuel n n' l st : length (fragmentDefinitions st) <= n -> length (fragmentDefinitions st) <= n' ->
    iter (visit_sel S n) l st = iter (visit_sel S n') l st.
  Proof.
    intros H1 H2. apply (same_iter (fun st => room st <= n /\ room st <= n')).
    - intros x _. apply visit_fuel_at.
    - intros x s _. apply keeps_room. apply keeps_sel.
    - pose proof (filter_le (fun e : string * fragment_def => negb (mem (fst e) (fragmentStack st))) (fragmentDefinitions st)). unfold room. lia.
  Qed.
  Definition frags_are (n : nat) (st : vstate) : Prop := length (fragmentDefinitions st) = n.
  Lemma keeps_frags {A} (m : M A) n : keeps m -> forall st, frags_are n st -> frags_are n (snd (m st)).
  Proof. intros H st. unfold frags_are. rewrite (fr_frags _ _ (H st)). auto. Qed.
  Lemma mod_frags f n st : (forall st, fragmentDefinitions (f st) = fragmentDefinitions st) -> frags_are n st -> frags_are n (snd (modify f st)).
  Proof. intros Hf Hs. unfold frags_are in *. simpl. rewrite Hf. auto. Qed.
  Lemma vars_frags name vs n : forall s, frags_are n s -> frags_are n (snd (iter (visit_variable S name) vs s)).
  Proof.
    induction vs as [|v r IH]; intros s Hs; cbn [iter]; auto. rewrite snd_bind. apply IH.
    unfold visit_variable. rewrite bind_get. destruct (assoc (v_name v) (match operationVariables s with Some m => m | None => [] end)); auto.
    destruct (negb (is_input_type S (v_type v))); auto. destruct (v_default v) as [l|]; auto. destruct (arg_value l) as [es a].
    rewrite !snd_bind. simpl. pose proof (keeps_frags _ n (keeps_input S a false (Some (v_type v))) s Hs) as HK.
    destruct (validate_input S a false (Some (v_type v)) s) as [[e b] s']. simpl in *. destruct b; exact HK.
  Qed.
  Lemma operation_frags avail o n st : frags_are n st -> frags_are n (snd (visit_operation_definition S avail o st)).
  Proof.
    intro H. unfold visit_operation_definition. do 3 rewrite snd_bind.
    match goal with |- frags_are n (snd (_ ?s0)) => assert (H1 : frags_are n s0) end.
    { apply keeps_frags; [apply keeps_directives|]. apply vars_frags. exact H. }
    destruct (operation_type S (op_type_of o)); [|exact H1]. rewrite !snd_bind. apply mod_frags; [reflexivity|].
    rewrite iter_still; [|intros ? ?; match goal with |- snd ((if ?c then _ else _) _) = _ => destruct c end; reflexivity].
    apply mod_frags; [reflexivity|]. match goal with |- context [if ?c then _ else _] => destruct c end;
      (apply (keeps_frags _ n (keeps_iter _ _ (fun x _ => keeps_sel S avail x))), mod_frags; [reflexivity|exact H1]).
  Qed.
  Lemma fragment_frags avail f n st : frags_are n st -> frags_are n (snd (visit_fragment_definition S avail f st)).
  Proof.
    intro H. unfold visit_fragment_definition. rewrite snd_bind.
    pose proof (keeps_frags _ n (keeps_directives S FRAGMENT_DEFINITION (f_dirs f) []) st H) as H1.
    destruct (find_type S (f_cond f)) as [d|]; [|exact H1]. destruct (is_scalar_kind (td_kind d)); [exact H1|]. rewrite !snd_bind. apply mod_frags; [reflexivity|].
    apply (keeps_frags _ n (keeps_iter _ _ (fun x _ => keeps_sel S avail x))), mod_frags; [reflexivity|exact H1].
  Qed.
  Lemma same_get {A} (P : vstate -> Prop) (k k' : vstate -> M A) : (forall s, P s -> k s s = k' s s) -> same_at P (mbind get k) (mbind get k').
  Proof. intros H st Hst. rewrite !bind_get. auto. Qed.
  Theorem visit_extra extra d st : visit_document_at S extra d st = visit_document S d st.
  Proof.
    unfold visit_document. unfold visit_document_at.
    apply (same_bind (fun _ => True)); auto; [apply same_refl|]. intros _. apply (same_bind (fun _ => True)); auto; [apply same_refl|]. intros _.
    apply same_get. intros s _. cbn [Nat.add]. set (n := length (fragmentDefinitions s)).
    assert (Hs : frags_are n s) by reflexivity. clearbody n.
    enough (H : forall s0, same_at (frags_are n)
      ((if Nat.ltb 1 (length (operationDefinitions s0))
        then match assoc "" (operationDefinitions s0) with Some o => emit "Anonymous operation not alone" (op_loc o) | None => ret tt end
        else ret tt) ;;;
       iter (fun x => match x with
                   | DFrag f => visit_fragment_definition S (extra + n) f
                   | DOp o => visit_operation_definition S (extra + n) o
                   | DOther loc => emit "Unexpected type definition" loc
                   end) d ;;;
       st <~ get ;;
       modify (set_frags []) ;;;
       iter (fun e => emit ("Unused fragment definition name: " ++ fst e) (f_loc (snd e)))
         (fold_left (fun m name => m_erase name m) (referencedFragments st) (fragmentDefinitions st)))
      ((if Nat.ltb 1 (length (operationDefinitions s0))
        then match assoc "" (operationDefinitions s0) with Some o => emit "Anonymous operation not alone" (op_loc o) | None => ret tt end
        else ret tt) ;;;
       iter (fun x => match x with
                   | DFrag f => visit_fragment_definition S n f
                   | DOp o => visit_operation_definition S n o
                   | DOther loc => emit "Unexpected type definition" loc
                   end) d ;;;
       st <~ get ;;
       modify (set_frags []) ;;;
       iter (fun e => emit ("Unused fragment definition name: " ++ fst e) (f_loc (snd e)))
         (fold_left (fun m name => m_erase name m) (referencedFragments st) (fragmentDefinitions st)))) by (apply H; exact Hs).
    clear s Hs. intro s0. apply same_bind; [apply same_refl| |].
    { apply keeps_frags. destruct (Nat.ltb 1 (length (operationDefinitions s0))); [|apply keeps_ret]. destruct (assoc "" (operationDefinitions s0)); [apply keeps_emit|apply keeps_ret]. }
    assert (FM : forall f st, (forall st, fragmentDefinitions (f st) = fragmentDefinitions st) -> frags_are n st -> frags_are n (snd (modify f st))).
    { intros f s Hf Hs. unfold frags_are in *. simpl. rewrite Hf. auto. }
    intros _. apply same_bind; [| |intros _; apply same_refl].
    - apply same_iter.
      + intros [o|f|loc] _; [| |apply same_refl].
        * unfold visit_operation_definition. apply same_bind; [apply same_refl|intros ? ?; apply FM; [reflexivity|assumption]|]. intros _.
          apply same_bind; [apply same_refl| |].
          { intro s. apply vars_frags. }
          intros _. apply same_bind; [apply same_refl|apply keeps_frags, keeps_directives|]. intros _.
          destruct (operation_type S (op_type_of o)); [|apply same_refl]. apply same_bind; [apply same_refl|intros ? ?; apply FM; [reflexivity|assumption]|]. intros _.
          apply same_bind; [|apply keeps_frags, keeps_iter; intros; apply keeps_sel|intros _; apply same_refl].
          intros z Hz. unfold frags_are in Hz. apply sels_fuel; lia.
        * unfold visit_fragment_definition. apply same_bind; [apply same_refl|apply keeps_frags, keeps_directives|]. intros _.
          destruct (find_type S (f_cond f)) as [td|]; [|apply same_refl]. destruct (is_scalar_kind (td_kind td)); [apply same_refl|].
          apply same_bind; [apply same_refl|intros ? ?; apply FM; [reflexivity|assumption]|]. intros _.
          apply same_bind; [|apply keeps_frags, keeps_iter; intros; apply keeps_sel|intros _; apply same_refl].
          intros z Hz. unfold frags_are in Hz. apply sels_fuel; lia.
      + intros [o|f|loc] s _ Hs; [apply operation_frags|apply fragment_frags|]; exact Hs.
    - intros s Hs. revert s Hs. induction d as [|x r IH]; intros s Hs; cbn [iter]; auto. rewrite snd_bind. apply IH.
      destruct x as [o|f|loc]; [apply operation_frags|apply fragment_frags|]; exact Hs.
  Qed.
End Documents.
