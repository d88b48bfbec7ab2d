(** What a validation leaves behind, and that nothing else of the past is seen: two runs of the visitor from states that
    differ in their caches report the same errors. And the bound [avail] on the nesting of fragments does not matter. *)
From Verif Require Import Cpp Value Ast SchemaModel SortedMapModel.
From Verif Require Import ValidationModel ValidationSpec ValidationMaps ValidationValues ValidationSelections ValidationDocument.
Local Open Scope string_scope.
Local Open Scope list_scope.
Local Open Scope m_scope.

Section History.
  Variable S : schema.

  Definition named_scope (t : option tref) : Prop := match t with Some (TNamed _) | None => True | _ => False end.

  (** * Two runs *)
  Record R (b : bool) (x y : vstate) : Prop := {
    r_frags : fragmentDefinitions x = fragmentDefinitions y;
    r_ops : operationDefinitions x = operationDefinitions y;
    r_reff : referencedFragments x = referencedFragments y;
    r_cycles : fragmentCycles x = fragmentCycles y;
    r_vars : operationVariables x = operationVariables y;
    r_defs : variableDefinitions x = variableDefinitions y;
    r_refv : referencedVariables x = referencedVariables y;
    r_stack : fragmentStack x = fragmentStack y;
    r_count : b = true -> fieldCount x = fieldCount y;
    r_scoped : scopedType x = scopedType y;
    r_named : named_scope (scopedType x);
    r_fields : selectionFields x = selectionFields y;
    r_ic : icache_ok S x; r_ic' : icache_ok S y; r_tc : tcache_ok S x; r_tc' : tcache_ok S y }.
  Definition rel {A} (b : bool) (m m' : M A) : Prop :=
    forall x y, R b x y -> exists e a x' y', m x = (e, a, x') /\ m' y = (e, a, y') /\ R b x' y'.

  Lemma rel_ret {A} b (a : A) : rel b (ret a) (ret a).
  Proof. intros x y H. unfold ret. eauto 8. Qed.
  Lemma rel_emits b es : rel b (emits es) (emits es).
  Proof. intros x y H. unfold emits. eauto 8. Qed.
  Lemma rel_emit b msg loc : rel b (emit msg loc) (emit msg loc).
  Proof. intros x y H. unfold emit. eauto 8. Qed.
  Lemma rel_bind {A B} b (m m' : M A) (k k' : A -> M B) : rel b m m' -> (forall a, rel b (k a) (k' a)) -> rel b (mbind m k) (mbind m' k').
  Proof.
    intros Hm Hk x y H. destruct (Hm x y H) as (e & a & x1 & y1 & E1 & E2 & H1). destruct (Hk a x1 y1 H1) as (e2 & a2 & x2 & y2 & E3 & E4 & H2).
    exists (e ++ e2), a2, x2, y2. unfold mbind. rewrite E1, E2, E3, E4. auto.
  Qed.
  Lemma rel_get {A} b (k k' : vstate -> M A) : (forall x y, R b x y -> rel b (k x) (k' y)) -> rel b (mbind get k) (mbind get k').
  Proof.
    intros Hk x y H. destruct (Hk x y H x y H) as (e & a & x1 & y1 & E1 & E2 & H1). exists e, a, x1, y1. unfold mbind, get. rewrite E1, E2. auto.
  Qed.
  Lemma rel_modify b f f' : (forall x y, R b x y -> R b (f x) (f' y)) -> rel b (modify f) (modify f').
  Proof. intros Hf x y H. unfold modify. eauto 8. Qed.
  Lemma rel_fail b msg loc : rel b (fail msg loc) (fail msg loc).
  Proof. apply rel_bind; [apply rel_emit|intro; apply rel_ret]. Qed.
  Lemma rel_iter {X} b (f f' : X -> M unit) l : (forall x, In x l -> rel b (f x) (f' x)) -> rel b (iter f l) (iter f' l).
  Proof.
    induction l as [|x r IH]; simpl; intro H; [apply rel_ret|]. apply rel_bind; [apply H; auto|]. intros _. apply IH. auto.
  Qed.
  (** a change of the members that are the same in both runs *)
  Ltac rmod := intros ? ? [? ? ? ? ? ? ? ? ? ? ? ? ? ? ? ?]; constructor; simpl; auto; try congruence.

  Lemma rel_input_fields b name : rel b (get_input_type_fields S name) (get_input_type_fields S name).
  Proof.
    intros x y H. unfold get_input_type_fields. pose proof (r_ic _ _ _ H) as I1. pose proof (r_ic' _ _ _ H) as I2.
    assert (AD : forall st d, icache_ok S st -> find_type S name = Some d -> td_kind d = INPUT_OBJECT ->
              icache_ok S (set_input_fields (m_set name (get_arguments S (td_inputs d)) (inputTypeFields st)) st)).
    { intros st d Hst Hd Hk n fs. simpl. rewrite assoc_m_set. destruct (String.eqb n name) eqn:E; [|apply Hst].
      intro E'. inversion E'. subst. apply String.eqb_eq in E. subst. eauto. }
    assert (TC : forall st v, tcache_ok S st -> tcache_ok S (set_input_fields v st)) by auto.
    destruct (assoc name (inputTypeFields x)) as [fs|] eqn:Ex; destruct (assoc name (inputTypeFields y)) as [fs'|] eqn:Ey.
    - destruct (I1 _ _ Ex) as (d & H1 & H2 & ->), (I2 _ _ Ey) as (d' & H1' & H2' & ->). rewrite H1 in H1'. inversion H1'. subst. eauto 9.
    - destruct (I1 _ _ Ex) as (d & H1 & H2 & ->). rewrite H1, H2. simpl. do 4 eexists. split; [reflexivity|]. split; [reflexivity|].
      destruct H; constructor; simpl; auto.
    - destruct (I2 _ _ Ey) as (d & H1 & H2 & ->). rewrite H1, H2. simpl. do 4 eexists. split; [reflexivity|]. split; [reflexivity|].
      destruct H; constructor; simpl; auto.
    - destruct (find_type S name) as [d|]; [|eauto 9]. destruct (kind_eqb (td_kind d) INPUT_OBJECT) eqn:Ek; [|eauto 9].
      assert (td_kind d = INPUT_OBJECT) by (destruct (td_kind d); try discriminate; auto).
      do 4 eexists. split; [reflexivity|]. split; [reflexivity|]. destruct H; constructor; simpl; auto.
  Qed.
  Lemma kind_composite n : is_scalar_kind (kind_of S (TNamed n)) = false -> composite S n.
  Proof.
    simpl. unfold composite, type_is. destruct (find_type S n) as [d|]; [|discriminate]. destruct (td_kind d) eqn:E; try discriminate; eauto 6.
  Qed.
  Lemma composite_kind n : composite S n -> is_scalar_kind (kind_of S (TNamed n)) = false.
  Proof. simpl. intros [(d & -> & ->)|[(d & -> & ->)|(d & -> & ->)]]; reflexivity. Qed.
  Lemma rel_type_fields b : rel b (get_scoped_type_fields S) (get_scoped_type_fields S).
  Proof.
    intros x y H. unfold get_scoped_type_fields. rewrite <- (r_scoped _ _ _ H). pose proof (r_named _ _ _ H) as N.
    destruct (scopedType x) as [[n|t|t]|]; try contradiction; [|eauto 9]. cbn [type_name].
    assert (AD : forall st, tcache_ok S st -> is_scalar_kind (kind_of S (TNamed n)) = false ->
              tcache_ok S (set_type_fields (m_set n (scoped_fields S (TNamed n)) (typeFields st)) st)).
    { intros st Hst Hk n' fs. simpl. rewrite assoc_m_set. destruct (String.eqb n' n) eqn:E; [|apply Hst].
      intro E'. inversion E'. subst. apply String.eqb_eq in E. subst. split; auto. apply kind_composite. auto. }
    pose proof (r_tc _ _ _ H) as I1. pose proof (r_tc' _ _ _ H) as I2.
    destruct (assoc n (typeFields x)) as [fs|] eqn:Ex; destruct (assoc n (typeFields y)) as [fs'|] eqn:Ey.
    - destruct (I1 _ _ Ex) as (_ & ->), (I2 _ _ Ey) as (_ & ->). eauto 9.
    - destruct (I1 _ _ Ex) as (H1 & ->). rewrite (composite_kind _ H1). do 4 eexists. split; [reflexivity|]. split; [reflexivity|].
      destruct H; constructor; simpl; auto. apply AD; auto. apply composite_kind. auto.
    - destruct (I2 _ _ Ey) as (H1 & ->). rewrite (composite_kind _ H1). do 4 eexists. split; [reflexivity|]. split; [reflexivity|].
      destruct H; constructor; simpl; auto. apply AD; auto. apply composite_kind. auto.
    - destruct (is_scalar_kind (kind_of S (TNamed n))) eqn:Ek; [eauto 9|].
      do 4 eexists. split; [reflexivity|]. split; [reflexivity|]. destruct H; constructor; simpl; auto.
  Qed.

  Ltac r1 := first
    [ apply rel_ret | apply rel_emit | apply rel_emits | apply rel_fail | apply rel_input_fields | apply rel_type_fields
    | match goal with |- rel _ (mbind get _) _ => apply rel_get; intros end
    | apply rel_bind | apply rel_modify; rmod ].

  Lemma rel_required b name pos subs fields : rel b (required_fields name pos subs fields) (required_fields name pos subs fields).
  Proof.
    induction fields as [|(k, a) r IH]; simpl; [r1|]. destruct (va_default a || mem k subs); auto. destruct (va_type a) as [[]|]; auto; r1.
  Qed.
  Lemma rel_scalar b name v : rel b (validate_scalar S name v) (validate_scalar S name v).
  Proof.
    unfold validate_scalar. repeat match goal with |- rel _ (if ?c then _ else _) _ => destruct c end; try r1; destruct v; try r1;
      repeat match goal with |- rel _ (if ?c then _ else _) _ => destruct c end; r1.
  Qed.
  Lemma rel_enum b name v : rel b (validate_enum S name v) (validate_enum S name v).
  Proof.
    unfold validate_enum. destruct (String.eqb name ""); [r1|]. destruct v; try r1.
    match goal with |- rel _ (if ?c then _ else _) _ => destruct c end; r1.
  Qed.
  Lemma rel_variable b d pos name t : rel b (validate_variable S d pos name t) (validate_variable S d pos name t).
  Proof.
    unfold validate_variable. apply rel_get. intros x y H. rewrite <- (r_vars _ _ _ H). destruct (operationVariables x) as [vars|]; [|r1].
    destruct (assoc name vars) as [v|]; [|r1]. r1; [r1|]. intros _. destruct (va_type v); [|r1].
    destruct (validate_variable_type S t (d || va_nonnull_default v) t0 pos) as [es b0]. r1; [r1|]. intros _. r1.
  Qed.
  (** the recursion over argument values *)
  Section AvalInd.
    Variable P : aval -> Prop.
    Hypothesis HV : forall l n, P (AVar l n).
    Hypothesis HI : forall l z, P (AInt l z).
    Hypothesis HF : forall l z, P (AFloat l z).
    Hypothesis HS : forall l z, P (AString l z).
    Hypothesis HB : forall l z, P (ABool l z).
    Hypothesis HN : forall l, P (ANull l).
    Hypothesis HE : forall l z, P (AEnum l z).
    Hypothesis HL : forall l items, Forall P items -> P (AList l items).
    Hypothesis HM : forall l fields, Forall (fun f => P (snd f)) fields -> P (AMap l fields).
    Fixpoint aval_ind' (v : aval) : P v :=
      match v with
      | AVar l n => HV l n | AInt l z => HI l z | AFloat l z => HF l z | AString l z => HS l z | ABool l z => HB l z
      | ANull l => HN l | AEnum l z => HE l z
      | AList l items => HL l items ((fix go (is : list aval) : Forall P is :=
          match is with [] => Forall_nil _ | y :: r => Forall_cons y (aval_ind' y) (go r) end) items)
      | AMap l fields => HM l fields ((fix go (fs : list (string * aval)) : Forall (fun f => P (snd f)) fs :=
          match fs with [] => Forall_nil _ | y :: r => Forall_cons y (aval_ind' (snd y)) (go r) end) fields)
      end.
  End AvalInd.

  Lemma rel_input b v : forall d t, rel b (validate_input S v d t) (validate_input S v d t).
  Proof.
    assert (U : forall pos base t, (forall t, rel b (base t) (base t)) -> rel b (unwrap_nonnull S pos base t) (unwrap_nonnull S pos base t)).
    { intros pos base t Hb. induction t as [n|t IH|t IH]; simpl; auto. destruct (live S t); auto. r1. }
    induction v as [l n|l z|l z|l z|l z|l|l z|l items IH|l fields IH] using aval_ind'; intros d [t|]; try (simpl; r1; fail).
    - simpl. apply rel_variable.
    - cbn [validate_input]. apply U. clear t. intros [n|t|t]; try r1. destruct (kind_of S (TNamed n)); try r1; [apply rel_scalar|apply rel_enum|].
      destruct (String.eqb n ""); r1.
    - cbn [validate_input]. apply U. clear t. intros [n|t|t]; try r1. destruct (kind_of S (TNamed n)); try r1; [apply rel_scalar|apply rel_enum|].
      destruct (String.eqb n ""); r1.
    - cbn [validate_input]. apply U. clear t. intros [n|t|t]; try r1. destruct (kind_of S (TNamed n)); try r1; [apply rel_scalar|apply rel_enum|].
      destruct (String.eqb n ""); r1.
    - cbn [validate_input]. apply U. clear t. intros [n|t|t]; try r1. destruct (kind_of S (TNamed n)); try r1; [apply rel_scalar|apply rel_enum|].
      destruct (String.eqb n ""); r1.
    - simpl. destruct t; try r1. destruct d; r1.
    - cbn [validate_input]. apply U. clear t. intros [n|t|t]; try r1. destruct (kind_of S (TNamed n)); try r1; [apply rel_scalar|apply rel_enum|].
      destruct (String.eqb n ""); r1.
    - cbn [validate_input]. apply U. clear t. intros [n|t|t]; try r1.
      + destruct (kind_of S (TNamed n)); try r1; [apply rel_scalar|apply rel_enum|]. destruct (String.eqb n ""); r1.
      + destruct (live S t); [|r1]. induction IH as [|x r Hx IH IH2]; cbn [validate_items]; [r1|]. apply rel_bind; [apply Hx|]. intros [|]; [exact IH2|r1].
    - cbn [validate_input]. apply U. clear t. intros [n|t|t]; try r1.
      destruct (kind_of S (TNamed n)); try r1; [apply rel_scalar|apply rel_enum|]. destruct (String.eqb n ""); [r1|]. r1; [r1|]. intros [fs|]; [|r1].
      generalize (@nil string). revert fs. induction IH as [|(k, x) r Hx IH IH2]; intros fs subs; cbn [validate_entries]; [apply rel_required|].
      destruct (assoc k fs) as [f|]; [|r1]. destruct (negb (is_null x) || negb (va_default f)); [|apply IH2].
      apply rel_bind; [apply Hx|]. intros [|]; [|r1]. r1; [r1|]. intros again. apply IH2.
  Qed.

  Lemma rel_check_args b what pos defined m locs names : rel b (check_args S what pos defined m locs names) (check_args S what pos defined m locs names).
  Proof.
    unfold check_args. r1; [apply rel_iter; intros x _; destruct (assoc x defined); r1|]. intros _. apply rel_iter. intros (name, a) _.
    assert (Q : forall x, rel b (if va_default a then ret tt
              else match va_type a with
                   | Some (TNonNull _) => emit ((if x : bool then "Missing argument " else "Required non-null argument ") ++ what ++ " name: " ++ name) pos
                   | _ => ret tt
                   end) (if va_default a then ret tt
              else match va_type a with
                   | Some (TNonNull _) => emit ((if x : bool then "Missing argument " else "Required non-null argument ") ++ what ++ " name: " ++ name) pos
                   | _ => ret tt
                   end)).
    { intro x. destruct (va_default a); [r1|]. destruct (va_type a) as [[]|]; r1. }
    destruct (assoc name m) as [v|]; [|apply (Q true)]. destruct (is_null v); [apply (Q false)|]. apply rel_bind; [apply rel_input|]. intros [|]; r1.
  Qed.
  Lemma rel_directives b loc ds : forall seen, rel b (visit_directives S loc seen ds) (visit_directives S loc seen ds).
  Proof.
    induction ds as [|d r IH]; intro seen; cbn [visit_directives]; [r1|]. destruct (mem (d_name d) seen); [apply rel_bind; [r1|auto]|].
    apply rel_bind; [|auto]. destruct (assoc (d_name d) (directive_map S)) as [(locs, defined)|]; [|r1].
    destruct (negb (existsb (dloc_eqb loc) locs)); [r1|]. destruct (d_args d) as [|a args]; [r1|].
    destruct (collect_args ("directive: " ++ d_name d) (a :: args) [] [] []) as [es [[m alocs] names]]. apply rel_bind; [r1|]. intros _. apply rel_check_args.
  Qed.

  Lemma inner_named t i : inner_type S t = Some i -> exists n, i = TNamed n.
  Proof. induction t as [n|t IH|t IH]; simpl; auto. destruct (find_type S n); [|discriminate]. intro H. inversion H. eauto. Qed.

  Lemma rel_field b loc alias name args dirs sub sub' :
    match sub, sub' with Some m, Some m' => rel true m m' | None, None => True | _, _ => False end ->
    rel b (visit_field S loc alias name args dirs sub) (visit_field S loc alias name args dirs sub').
  Proof.
    intro Hsub. unfold visit_field. apply rel_bind; [apply rel_directives|]. intros _. apply rel_get. intros x y H. rewrite <- (r_scoped _ _ _ H).
    set (scoped := match scopedType x with Some t => t | None => TNamed "" end). clearbody scoped. clear x y H.
    apply rel_bind; [r1|]. intros [fields|]; [|r1].
    destruct (kind_eqb (kind_of S scoped) UNION && negb (String.eqb name "__typename")); [r1|].
    match goal with |- rel _ (match ?t with Some _ => _ | None => _ end) _ => destruct t as [(inner, wrapped)|] eqn:Et end; [|r1].
    assert (Hin : exists n, inner = TNamed n).
    { destruct (kind_eqb (kind_of S scoped) UNION); [inversion Et; eauto|]. destruct (assoc name fields) as [f|]; [|discriminate].
      destruct (inner_type S (tf_type f)) as [i|] eqn:Ei; [|discriminate]. inversion Et. subst. eapply inner_named; eauto. }
    destruct Hin as (inn & ->).
    destruct (collect_args ("type: " ++ type_name scoped ++ " field: " ++ name) args [] [] []) as [es [[m alocs] names]].
    apply rel_bind; [r1|]. intros _. apply rel_get. intros x y H. rewrite <- (r_fields _ _ _ H).
    match goal with |- rel _ (if ?c then _ else _) _ => destruct c end; [r1|].
    apply rel_bind; [destruct (assoc (match alias with Some (String _ _ as a) => a | _ => name end) (selectionFields x)); r1|]. intros _. clear x y H.
    apply rel_bind; [destruct (assoc name fields); [apply rel_check_args|r1]|]. intros _.
    apply rel_bind; [r1|]. intros _.
    apply rel_bind.
    - destruct sub as [s|], sub' as [s'|]; try contradiction; [|r1].
      intros x y H. set (x1 := set_scoped (Some (TNamed inn)) (set_sel_fields [] (set_count 0 x))). set (y1 := set_scoped (Some (TNamed inn)) (set_sel_fields [] (set_count 0 y))).
      assert (H1 : R true x1 y1) by (destruct H; constructor; simpl; auto).
      destruct (Hsub x1 y1 H1) as (e & a & x2 & y2 & E1 & E2 & H2). unfold mbind, get, modify, ret. fold x1 y1. rewrite E1, E2.
      do 4 eexists. split; [rewrite (r_count _ _ _ H2 eq_refl); reflexivity|]. split; [reflexivity|].
      destruct H, H2; constructor; simpl; auto.
    - intro count. match goal with |- rel _ (if ?c then _ else _) _ => destruct c end; [r1|]. apply rel_modify. rmod.
  Qed.
  Lemma rel_spread b loc name dirs body body' : (forall l, rel b (body l) (body' l)) ->
    rel b (visit_spread S loc name dirs body) (visit_spread S loc name dirs body').
  Proof.
    intro Hb. unfold visit_spread. apply rel_bind; [apply rel_directives|]. intros _. apply rel_get. intros x y H.
    rewrite <- (r_frags _ _ _ H), <- (r_stack _ _ _ H), <- (r_cycles _ _ _ H), <- (r_scoped _ _ _ H). pose proof (r_named _ _ _ H) as N. clear H.
    destruct (assoc name (fragmentDefinitions x)) as [f|]; [|r1].
    destruct (mem name (fragmentStack x)). { destruct (mem name (fragmentCycles x)); [r1|]. apply rel_bind; [r1|intros _; r1]. }
    match goal with |- rel _ (if ?c then _ else _) _ => destruct c end; [r1|].
    apply rel_bind; [r1|]. intros _. apply rel_bind; [apply Hb|]. intros _. r1.
  Qed.
  Lemma rel_inline b cond dirs body body' : rel b body body' -> rel b (visit_inline S cond dirs body) (visit_inline S cond dirs body').
  Proof.
    intro Hb. unfold visit_inline. apply rel_bind; [apply rel_directives|]. intros _. apply rel_get. intros x y H.
    rewrite <- (r_scoped _ _ _ H). pose proof (r_named _ _ _ H) as N. clear H.
    assert (HB : forall t, named_scope t -> rel b (modify (set_scoped t) ;;; body ;;; modify (set_scoped (scopedType x)))
                                                 (modify (set_scoped t) ;;; body' ;;; modify (set_scoped (scopedType x)))).
    { intros t Ht. apply rel_bind; [r1|]. intros _. apply rel_bind; [apply Hb|]. intros _. r1. }
    destruct cond as [(loc, [|c r])|]; auto. destruct (find_type S (String c r)) as [d|]; [|r1]. destruct (is_scalar_kind (td_kind d)); [r1|].
    match goal with |- rel _ (if ?c then _ else _) _ => destruct c end; [r1|]. apply HB. simpl. auto.
  Qed.
  Lemma rel_sel avail : forall s b, rel b (visit_sel S avail s) (visit_sel S avail s).
  Proof.
    induction avail as [|a IHa]; intro s;
      (induction s as [loc al n args ds|loc al n args ds l sub IH|loc n ds|loc c ds sel IH] using selection_ind'; intro b; rewrite visit_sel_eq;
        [apply rel_field; auto|apply rel_field; apply rel_iter; rewrite Forall_forall in IH; auto|
         apply rel_spread; intro body|apply rel_inline; apply rel_iter; rewrite Forall_forall in IH; auto]).
    - r1.
    - apply rel_iter. auto.
  Qed.
  Lemma bind_get {A} (k : vstate -> M A) st : mbind get k st = k st st.
  Proof. unfold mbind, get. destruct (k st st) as [[e a] st']. reflexivity. Qed.
  (** * What a visit of selections leaves unchanged *)
  Record frame (st st' : vstate) : Prop := {
    fr_frags : fragmentDefinitions st' = fragmentDefinitions st;
    fr_ops : operationDefinitions st' = operationDefinitions st;
    fr_vars : operationVariables st' = operationVariables st;
    fr_defs : variableDefinitions st' = variableDefinitions st;
    fr_stack : fragmentStack st' = fragmentStack st;
    fr_refv : operationVariables st = None -> referencedVariables st' = referencedVariables st }.
  Definition keeps {A} (m : M A) : Prop := forall st, frame st (snd (m st)).
  Lemma frame_refl st : frame st st.
  Proof. constructor; auto. Qed.
  Lemma frame_trans a b c : frame a b -> frame b c -> frame a c.
  Proof. intros [H1 H2 H3 H4 H5 H6] [G1 G2 G3 G4 G5 G6]. constructor; try congruence. intro E. rewrite G6, H6; congruence. Qed.
  Lemma keeps_ret {A} (a : A) : keeps (ret a).
  Proof. intro st. apply frame_refl. Qed.
  Lemma keeps_emit msg loc : keeps (emit msg loc).
  Proof. intro st. apply frame_refl. Qed.
  Lemma keeps_emits es : keeps (emits es).
  Proof. intro st. apply frame_refl. Qed.
  Lemma keeps_get : keeps get.
  Proof. intro st. apply frame_refl. Qed.
  Lemma keeps_bind {A B} (m : M A) (k : A -> M B) : keeps m -> (forall a, keeps (k a)) -> keeps (mbind m k).
  Proof.
    intros Hm Hk st. unfold mbind. specialize (Hm st). destruct (m st) as [[e a] st1]. specialize (Hk a st1). destruct (k a st1) as [[e2 b] st2].
    eapply frame_trans; eauto.
  Qed.
  Lemma keeps_modify f : (forall st, frame st (f st)) -> keeps (modify f).
  Proof. intros H st. apply H. Qed.
  Lemma keeps_fail msg loc : keeps (fail msg loc).
  Proof. intro st. apply frame_refl. Qed.
  Lemma keeps_iter {X} (f : X -> M unit) l : (forall x, In x l -> keeps (f x)) -> keeps (iter f l).
  Proof. induction l as [|x r IH]; simpl; intro H; [apply keeps_ret|]. apply keeps_bind; [apply H; auto|]. intros _. apply IH. auto. Qed.
  Lemma keeps_input_fields name : keeps (get_input_type_fields S name).
  Proof.
    intro st. unfold get_input_type_fields. destruct (assoc name (inputTypeFields st)); [apply frame_refl|]. destruct (find_type S name) as [d|]; [|apply frame_refl].
    destruct (kind_eqb (td_kind d) INPUT_OBJECT); constructor; auto.
  Qed.
  Lemma keeps_type_fields : keeps (get_scoped_type_fields S).
  Proof.
    intro st. unfold get_scoped_type_fields. destruct (scopedType st) as [t|]; [|apply frame_refl]. destruct (assoc (type_name t) (typeFields st)); [apply frame_refl|].
    destruct (is_scalar_kind (kind_of S t)); constructor; auto.
  Qed.
  Ltac kmod := apply keeps_modify; intro; constructor; simpl; auto.
  Ltac k1 := first [apply keeps_ret|apply keeps_emit|apply keeps_emits|apply keeps_fail|apply keeps_get|apply keeps_input_fields|apply keeps_type_fields].
  Ltac kif := match goal with |- keeps (if ?c then _ else _) => destruct c end.

  Lemma keeps_required name pos subs fields : keeps (required_fields name pos subs fields).
  Proof.
    induction fields as [|(k, a) r IH]; simpl; [k1|]. kif; auto. destruct (va_type a) as [[]|]; auto; k1.
  Qed.
  Lemma keeps_scalar name v : keeps (validate_scalar S name v).
  Proof. unfold validate_scalar. repeat kif; try k1; destruct v; try k1; repeat kif; k1. Qed.
  Lemma keeps_enum name v : keeps (validate_enum S name v).
  Proof. unfold validate_enum. kif; [k1|]. destruct v; try k1. kif; k1. Qed.
  Lemma keeps_variable d pos name t : keeps (validate_variable S d pos name t).
  Proof.
    intro st. unfold validate_variable, mbind, get. destruct (operationVariables st) as [vars|] eqn:E; [|apply frame_refl].
    destruct (assoc name vars) as [v|]; [|apply frame_refl]. unfold modify. destruct (va_type v) as [vt|].
    - destruct (validate_variable_type S t (d || va_nonnull_default v) vt pos) as [es b]. constructor; simpl; auto. congruence.
    - constructor; simpl; auto. congruence.
  Qed.
  Lemma keeps_input v : forall d t, keeps (validate_input S v d t).
  Proof.
    assert (U : forall pos base t, (forall t, keeps (base t)) -> keeps (unwrap_nonnull S pos base t)).
    { intros pos base t Hb. induction t as [n|t IH|t IH]; simpl; auto. destruct (live S t); auto. k1. }
    induction v as [l n|l z|l z|l z|l z|l|l z|l items IH|l fields IH] using aval_ind'; intros d [t|]; try (simpl; k1; fail).
    - simpl. apply keeps_variable.
    - cbn [validate_input]. apply U. clear t. intros [n|t|t]; try k1. destruct (kind_of S (TNamed n)); try k1; [apply keeps_scalar|apply keeps_enum|].
      kif; k1.
    - cbn [validate_input]. apply U. clear t. intros [n|t|t]; try k1. destruct (kind_of S (TNamed n)); try k1; [apply keeps_scalar|apply keeps_enum|].
      kif; k1.
    - cbn [validate_input]. apply U. clear t. intros [n|t|t]; try k1. destruct (kind_of S (TNamed n)); try k1; [apply keeps_scalar|apply keeps_enum|].
      kif; k1.
    - cbn [validate_input]. apply U. clear t. intros [n|t|t]; try k1. destruct (kind_of S (TNamed n)); try k1; [apply keeps_scalar|apply keeps_enum|].
      kif; k1.
    - simpl. destruct t; try k1. destruct d; k1.
    - cbn [validate_input]. apply U. clear t. intros [n|t|t]; try k1. destruct (kind_of S (TNamed n)); try k1; [apply keeps_scalar|apply keeps_enum|].
      kif; k1.
    - cbn [validate_input]. apply U. clear t. intros [n|t|t]; try k1.
      + destruct (kind_of S (TNamed n)); try k1; [apply keeps_scalar|apply keeps_enum|]. kif; k1.
      + destruct (live S t); [|k1]. induction IH as [|x r Hx IH IH2]; cbn [validate_items]; [k1|]. apply keeps_bind; [apply Hx|]. intros [|]; [exact IH2|k1].
    - cbn [validate_input]. apply U. clear t. intros [n|t|t]; try k1.
      destruct (kind_of S (TNamed n)); try k1; [apply keeps_scalar|apply keeps_enum|]. kif; [k1|]. apply keeps_bind; [k1|]. intros [fs|]; [|k1].
      generalize (@nil string). revert fs. induction IH as [|(k, x) r Hx IH IH2]; intros fs subs; cbn [validate_entries]; [apply keeps_required|].
      destruct (assoc k fs) as [f|]; [|k1]. kif; [|apply IH2].
      apply keeps_bind; [apply Hx|]. intros [|]; [|k1]. apply keeps_bind; [k1|]. intros again. apply IH2.
  Qed.
  Lemma keeps_check_args what pos defined m locs names : keeps (check_args S what pos defined m locs names).
  Proof.
    unfold check_args. apply keeps_bind; [apply keeps_iter; intros x _; destruct (assoc x defined); k1|]. intros _. apply keeps_iter. intros (name, a) _.
    destruct (assoc name m) as [v|].
    - destruct (is_null v).
      + kif; [k1|]. destruct (va_type a) as [[]|]; k1.
      + apply keeps_bind; [apply keeps_input|]. intros [|]; k1.
    - kif; [k1|]. destruct (va_type a) as [[]|]; k1.
  Qed.
  Lemma keeps_directives loc ds : forall seen, keeps (visit_directives S loc seen ds).
  Proof.
    induction ds as [|d r IH]; intro seen; cbn [visit_directives]; [k1|]. kif; [apply keeps_bind; [k1|auto]|].
    apply keeps_bind; [|auto]. destruct (assoc (d_name d) (directive_map S)) as [(locs, defined)|]; [|k1].
    kif; [k1|]. destruct (d_args d) as [|a args]; [k1|].
    destruct (collect_args ("directive: " ++ d_name d) (a :: args) [] [] []) as [es [[m alocs] names]]. apply keeps_bind; [k1|]. intros _. apply keeps_check_args.
  Qed.
  Lemma keeps_field loc alias name args dirs sub : match sub with Some m => keeps m | None => True end ->
    keeps (visit_field S loc alias name args dirs sub).
  Proof.
    intro Hsub. unfold visit_field. apply keeps_bind; [apply keeps_directives|]. intros _. apply keeps_bind; [k1|]. intro st0.
    apply keeps_bind; [k1|]. intros [fields|]; [|k1]. kif; [k1|].
    match goal with |- keeps (match ?t with Some _ => _ | None => _ end) => destruct t as [(inner, wrapped)|] end; [|k1].
    destruct (collect_args ("type: " ++ type_name (match scopedType st0 with Some t => t | None => TNamed "" end) ++ " field: " ++ name) args [] [] []) as [es [[m alocs] names]].
    apply keeps_bind; [k1|]. intros _. apply keeps_bind; [k1|]. intro st1. kif; [k1|].
    apply keeps_bind; [match goal with |- keeps (match ?t with Some _ => _ | None => _ end) => destruct t end; k1|]. intros _.
    apply keeps_bind; [destruct (assoc name fields); [apply keeps_check_args|k1]|]. intros _.
    apply keeps_bind; [kmod|]. intros _. apply keeps_bind.
    - destruct sub as [s|]; [|k1]. apply keeps_bind; [k1|]. intro outer. apply keeps_bind; [kmod|]. intros _. apply keeps_bind; [auto|]. intros _.
      apply keeps_bind; [k1|]. intro st2. apply keeps_bind; [kmod|]. intros _. k1.
    - intro count. kif; [k1|kmod].
  Qed.
  Lemma keeps_spread loc name dirs body : (forall l, keeps (body l)) -> keeps (visit_spread S loc name dirs body).
  Proof.
    intro Hb. unfold visit_spread. apply keeps_bind; [apply keeps_directives|]. intros _ st. rewrite bind_get.
    destruct (assoc name (fragmentDefinitions st)) as [f|]; [|apply frame_refl].
    destruct (mem name (fragmentStack st)) eqn:Em.
    { destruct (mem name (fragmentCycles st)); [apply frame_refl|]. constructor; reflexivity. }
    match goal with |- context [if ?c then _ else _] => destruct c end; [apply frame_refl|].
    unfold mbind, modify.
    match goal with |- context [body (f_sel f) ?s] => specialize (Hb (f_sel f) s); destruct (body (f_sel f) s) as [[e a] st1] end.
    simpl in Hb. destruct Hb as [H1 H2 H3 H4 H5 H6]. simpl in *. constructor; simpl; auto.
    rewrite H5. apply s_erase_add. apply mem_not_In. auto.
  Qed.
  Lemma keeps_inline cond dirs body : keeps body -> keeps (visit_inline S cond dirs body).
  Proof.
    intro Hb. unfold visit_inline. apply keeps_bind; [apply keeps_directives|]. intros _. apply keeps_bind; [k1|]. intro st.
    assert (HB : forall t, keeps (modify (set_scoped t) ;;; body ;;; modify (set_scoped (scopedType st)))).
    { intro t. apply keeps_bind; [kmod|]. intros _. apply keeps_bind; [auto|]. intros _. kmod. }
    destruct cond as [(loc, [|c r])|]; auto. destruct (find_type S (String c r)) as [d|]; [|k1]. kif; [k1|]. kif; [k1|]. apply HB.
  Qed.
  Lemma keeps_sel avail : forall s, keeps (visit_sel S avail s).
  Proof.
    induction avail as [|a IHa]; intro s;
      (induction s as [loc al n args ds|loc al n args ds l sub IH|loc n ds|loc c ds sel IH] using selection_ind'; rewrite visit_sel_eq;
        [apply keeps_field; auto|apply keeps_field; apply keeps_iter; rewrite Forall_forall in IH; auto|
         apply keeps_spread; intro body|apply keeps_inline; apply keeps_iter; rewrite Forall_forall in IH; auto]).
    - k1.
    - apply keeps_iter. auto.
  Qed.

  (** * The bound on the nesting *)
  Definition room (st : vstate) : nat := length (filter (fun e => negb (mem (fst e) (fragmentStack st))) (fragmentDefinitions st)).
  Definition same_at {A} (P : vstate -> Prop) (m m' : M A) : Prop := forall st, P st -> m st = m' st.
  Lemma same_bind {A B} (P : vstate -> Prop) (m m' : M A) (k k' : A -> M B) :
    same_at P m m' -> (forall st, P st -> P (snd (m st))) -> (forall a, same_at P (k a) (k' a)) -> same_at P (mbind m k) (mbind m' k').
  Proof.
    intros Hm HP Hk st Hst. unfold mbind. rewrite <- (Hm st Hst). specialize (HP st Hst). destruct (m st) as [[e a] st1]. rewrite (Hk a st1); auto.
  Qed.
  Lemma same_refl {A} P (m : M A) : same_at P m m.
  Proof. intros st _. reflexivity. Qed.
  Lemma room_frame st st' : frame st st' -> room st' = room st.
  Proof. intros [H1 H2 H3 H4 H5 H6]. unfold room. rewrite H1, H5. reflexivity. Qed.
  Lemma keeps_room {A} (m : M A) n n' : keeps m -> forall st, room st <= n /\ room st <= n' -> room (snd (m st)) <= n /\ room (snd (m st)) <= n'.
  Proof. intros H st. rewrite (room_frame _ _ (H st)). auto. Qed.
  Lemma mod_room f n n' : (forall st, room (f st) = room st) -> forall st, room st <= n /\ room st <= n' -> room (snd (modify f st)) <= n /\ room (snd (modify f st)) <= n'.
  Proof. intros H st. simpl. rewrite H. auto. Qed.
  Lemma room_push st name f x : assoc name (fragmentDefinitions st) = Some f -> mem name (fragmentStack st) = false ->
    room (set_scoped x (set_stack (s_add name (fragmentStack st)) st)) < room st.
  Proof.
    unfold room. simpl. intros Ha Hm. apply assoc_In in Ha. induction (fragmentDefinitions st) as [|e l IH]; [contradiction|].
    assert (LE : forall l : list (string * fragment_def), length (filter (fun e => negb (mem (fst e) (s_add name (fragmentStack st)))) l) <= length (filter (fun e => negb (mem (fst e) (fragmentStack st))) l)).
    { clear. induction l as [|e l IH]; cbn [filter]; auto. destruct (mem (fst e) (fragmentStack st)) eqn:E.
      - assert (E' : mem (fst e) (s_add name (fragmentStack st)) = true) by (apply mem_In, s_add_In; right; apply mem_In; auto). rewrite E'. simpl. auto.
      - destruct (mem (fst e) (s_add name (fragmentStack st))); simpl; lia. }
    cbn [filter]. destruct Ha as [->|Ha].
    - cbn [fst]. rewrite Hm. assert (E' : mem name (s_add name (fragmentStack st)) = true) by (apply mem_In, s_add_In; auto). rewrite E'. cbn [negb length].
      specialize (LE l). lia.
    - specialize (IH Ha). destruct (mem (fst e) (fragmentStack st)) eqn:E.
      + assert (E' : mem (fst e) (s_add name (fragmentStack st)) = true) by (apply mem_In, s_add_In; right; apply mem_In; auto). rewrite E'. simpl. auto.
      + destruct (mem (fst e) (s_add name (fragmentStack st))); cbn [negb length]; lia.
  Qed.

  Lemma same_iter {X} P (f f' : X -> M unit) l : (forall x, In x l -> same_at P (f x) (f' x)) -> (forall x st, In x l -> P st -> P (snd (f x st))) ->
    same_at P (iter f l) (iter f' l).
  Proof.
    induction l as [|x r IH]; simpl; intros H HP; [apply same_refl|]. apply same_bind; [auto|intros st Hst; apply HP; auto|]. intros _. apply IH; auto.
  Qed.
  Lemma same_field n n' loc alias name args dirs s s' :
    same_at (fun st => room st <= n /\ room st <= n') s s' -> keeps s ->
    same_at (fun st => room st <= n /\ room st <= n') (visit_field S loc alias name args dirs (Some s)) (visit_field S loc alias name args dirs (Some s')).
  Proof.
    intros Hs Ks. unfold visit_field. apply same_bind; [apply same_refl|apply keeps_room, keeps_directives|]. intros _.
    apply same_bind; [apply same_refl|apply keeps_room; k1|]. intro st0. apply same_bind; [apply same_refl|apply keeps_room; k1|].
    intros [fields|]; [|apply same_refl]. match goal with |- same_at _ (if ?c then _ else _) _ => destruct c end; [apply same_refl|].
    match goal with |- same_at _ (match ?t with Some _ => _ | None => _ end) _ => destruct t as [(inner, wrapped)|] end; [|apply same_refl].
    destruct (collect_args ("type: " ++ type_name (match scopedType st0 with Some t => t | None => TNamed "" end) ++ " field: " ++ name) args [] [] []) as [es [[m alocs] names]].
    apply same_bind; [apply same_refl|apply keeps_room; k1|]. intros _. apply same_bind; [apply same_refl|apply keeps_room; k1|]. intro st1.
    match goal with |- same_at _ (if ?c then _ else _) _ => destruct c end; [apply same_refl|].
    apply same_bind; [apply same_refl|apply keeps_room; match goal with |- keeps (match ?t with Some _ => _ | None => _ end) => destruct t end; k1|]. intros _.
    apply same_bind; [apply same_refl|apply keeps_room; destruct (assoc name fields); [apply keeps_check_args|k1]|]. intros _.
    apply same_bind; [apply same_refl|apply keeps_room; kmod|]. intros _.
    apply same_bind.
    - apply same_bind; [apply same_refl|apply keeps_room; k1|]. intro outer. apply same_bind; [apply same_refl|apply keeps_room; kmod|]. intros _.
      apply same_bind; [exact Hs|apply keeps_room; auto|]. intros _. apply same_refl.
    - apply keeps_room. apply keeps_bind; [k1|]. intro outer. apply keeps_bind; [kmod|]. intros _. apply keeps_bind; [auto|]. intros _.
      apply keeps_bind; [k1|]. intro st2. apply keeps_bind; [kmod|]. intros _. k1.
    - intro count. apply same_refl.
  Qed.
  Lemma same_inline n n' cond dirs s s' : same_at (fun st => room st <= n /\ room st <= n') s s' -> keeps s ->
    same_at (fun st => room st <= n /\ room st <= n') (visit_inline S cond dirs s) (visit_inline S cond dirs s').
  Proof.
    intros Hs Ks. unfold visit_inline. apply same_bind; [apply same_refl|apply keeps_room, keeps_directives|]. intros _.
    apply same_bind; [apply same_refl|apply keeps_room; k1|]. intro st.
    assert (HB : forall t, same_at (fun st => room st <= n /\ room st <= n') (modify (set_scoped t) ;;; s ;;; modify (set_scoped (scopedType st)))
                             (modify (set_scoped t) ;;; s' ;;; modify (set_scoped (scopedType st)))).
    { intro t. apply same_bind; [apply same_refl|apply keeps_room; kmod|]. intros _. apply same_bind; [auto|apply keeps_room; auto|]. intros _. apply same_refl. }
    destruct cond as [(loc, [|c r])|]; auto. destruct (find_type S (String c r)) as [d|]; [|apply same_refl].
    match goal with |- same_at _ (if ?c then _ else _) _ => destruct c end; [apply same_refl|].
    match goal with |- same_at _ (if ?c then _ else _) _ => destruct c end; [apply same_refl|]. apply HB.
  Qed.
  Lemma visit_fuel_at n : forall n' s, same_at (fun st => room st <= n /\ room st <= n') (visit_sel S n s) (visit_sel S n' s).
  Proof.
    induction n as [|n IHn]; intros n' s.
    all: induction s as [loc al name args ds|loc al name args ds l sub IH|loc name ds|loc c ds sel IH] using selection_ind'; rewrite !visit_sel_eq;
      [apply same_refl|apply same_field; [apply same_iter; [rewrite Forall_forall in IH; auto|intros; apply keeps_room; auto using keeps_sel]|apply keeps_iter; auto using keeps_sel]|
       |apply same_inline; [apply same_iter; [rewrite Forall_forall in IH; auto|intros; apply keeps_room; auto using keeps_sel]|apply keeps_iter; auto using keeps_sel]].
    - (* no room: no fragment is entered *)
      unfold visit_spread. apply same_bind; [apply same_refl|apply keeps_room, keeps_directives|]. intros _ st (H1 & H2). rewrite !bind_get.
      destruct (assoc name (fragmentDefinitions st)) as [f|] eqn:Ef; [|reflexivity]. destruct (mem name (fragmentStack st)) eqn:Em; [reflexivity|].
      pose proof (room_push st name f (Some (TNamed (f_cond f))) Ef Em). lia.
    - unfold visit_spread. apply same_bind; [apply same_refl|apply keeps_room, keeps_directives|]. intros _ st (H1 & H2). rewrite !bind_get.
      destruct (assoc name (fragmentDefinitions st)) as [f|] eqn:Ef; [|reflexivity]. destruct (mem name (fragmentStack st)) eqn:Em; [reflexivity|].
      match goal with |- context [if ?c then _ else _] => destruct c end; [reflexivity|].
      pose proof (room_push st name f (Some (TNamed (f_cond f))) Ef Em) as HR. destruct n' as [|n']; [lia|].
      unfold mbind, modify.
      match goal with |- context [iter (visit_sel S n) (f_sel f) ?s] => assert (E : iter (visit_sel S n) (f_sel f) s = iter (visit_sel S n') (f_sel f) s) end.
      { apply (same_iter (fun st => room st <= n /\ room st <= n')).
        - intros x _ st1 (G1 & G2). apply IHn; auto.
        - intros x st1 _. apply keeps_room, keeps_sel.
        - split; lia. }
      rewrite E. reflexivity.
  Qed.
  Theorem visit_fuel n n' s st : room st <= n -> room st <= n' -> visit_sel S n s st = visit_sel S n' s st.
  Proof. intros H1 H2. apply visit_fuel_at. auto. Qed.
End History.
