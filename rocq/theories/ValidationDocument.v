(** Documents: the visitor reports no error exactly if the document is valid. *)
From Verif Require Import Cpp Value Ast SchemaModel SortedMapModel.
From Verif Require Import ValidationModel ValidationSpec ValidationMaps ValidationValues ValidationValues2 ValidationArgs ValidationFields ValidationCheck
  ValidationSelections ValidationScope.
Local Open Scope string_scope.
Local Open Scope list_scope.
Local Open Scope m_scope.

Lemma checks_modify f st (P : Prop) (Q : unit -> vstate -> Prop) : P -> Q tt (f st) -> checks (modify f) st P Q.
Proof. unfold checks, modify. auto. Qed.
Lemma checks_decides_bind {A} S (m : M bool) (k : bool -> M A) vars uv st (P P' P'' : Prop) Q :
  decides S m vars st P uv -> (forall st', P -> vstep S vars uv st st' -> checks (k true) st' P' Q) -> (P'' <-> P /\ P') -> checks (mbind m k) st P'' Q.
Proof.
  unfold decides, checks, mbind. destruct (m st) as [[e b] st1]. intros [(-> & -> & H1 & H2)|(H1 & -> & H2)] Hk HP.
  - specialize (Hk st1 H1 H2). destruct (k true st1) as [[e2 a] st2]. simpl. destruct Hk as [(-> & H3 & H4)|(H3 & H4)]; [left|right]; tauto.
  - destruct (k false st1) as [[e2 a] st2]. right. split; [apply app_not_nil_l; auto|tauto].
Qed.

Section Variables.
  Variable S : schema.
  Hypothesis WF : schema_wf S.

  Lemma is_input_iff t : is_input_type S t = true <-> input_type S t.
  Proof.
    unfold input_type. induction t as [n|t IH|t IH]; simpl; auto. unfold input_named, type_is.
    destruct (find_type S n) as [d|]; [|split; [discriminate|intros [(d & H & _)|[(d & H & _)|(d & H & _)]]; discriminate]].
    destruct (td_kind d) eqn:E; split; intro H; try discriminate; eauto 8;
      destruct H as [(d' & H & H')|[(d' & H & H')|(d' & H & H')]]; inversion H; subst; congruence.
  Qed.

  (** the map of the variable definitions, for the check that all are used *)
  Definition defs_rel (vs : list variable_def) (m : list (string * variable_def)) : Prop :=
    sorted_keys m /\ forall n, assoc n m = find_var n vs.
  Record ostep (before vs : list variable_def) (st st' : vstate) : Prop := {
    os_frame : st' = set_op_vars (operationVariables st') (set_var_defs (variableDefinitions st')
                       (set_input_fields (inputTypeFields st') (set_ref_vars (referencedVariables st') st)));
    os_vars : vars_rel S (Some (before ++ vs)) (operationVariables st');
    os_defs : defs_rel (before ++ vs) (variableDefinitions st');
    os_icache : icache_ok S st';
    os_refv : forall x, In x (referencedVariables st') <-> In x (referencedVariables st) \/ In x (default_vars S vs) }.

  Lemma find_var_app n vs v : find_var n (vs ++ [v]) = match find_var n vs with Some x => Some x | None => if String.eqb n (v_name v) then Some v else None end.
  Proof. unfold find_var. induction vs as [|x r IH]; simpl; [destruct (String.eqb n (v_name v)); auto|]. destruct (String.eqb n (v_name x)); auto. Qed.
  Lemma find_var_none n vs : find_var n vs = None <-> ~ In n (map v_name vs).
  Proof. apply (find_none_key v_name). Qed.
  Lemma NoDup_snoc {A} (l : list A) x : NoDup l -> ~ In x l -> NoDup (l ++ [x]).
  Proof. intros H N. eapply Permutation.Permutation_NoDup; [apply Permutation.Permutation_cons_append|]. constructor; auto. Qed.

  Lemma add_rel before v m a : NoDup (map v_name before) -> ~ In (v_name v) (map v_name before) ->
    (forall n, assoc n m = option_map (variable_argument) (find_var n before)) -> a = variable_argument v ->
    forall n, assoc n (m_set (v_name v) a m) = option_map variable_argument (find_var n (before ++ [v])).
  Proof.
    intros ND N H -> n. rewrite assoc_m_set, find_var_app, H. destruct (String.eqb n (v_name v)) eqn:E.
    - apply String.eqb_eq in E. subst n. apply find_var_none in N. rewrite N. reflexivity.
    - destruct (find_var n before); reflexivity.
  Qed.
  Lemma defs_add before v m : ~ In (v_name v) (map v_name before) -> defs_rel before m -> defs_rel (before ++ [v]) (m_set (v_name v) v m).
  Proof.
    intros N (H1 & H2). split; [apply m_set_sorted; auto|]. intro n. rewrite assoc_m_set, find_var_app, H2. destruct (String.eqb n (v_name v)) eqn:E.
    - apply String.eqb_eq in E. subst n. apply find_var_none in N. rewrite N. reflexivity.
    - destruct (find_var n before); reflexivity.
  Qed.

  Definition variable_ok (before : list variable_def) (v : variable_def) : Prop :=
    ~ In (v_name v) (map v_name before) /\ input_type S (v_type v) /\
    (forall l, v_default v = Some l -> unique_fields l /\ value_ok S (Some before) false (v_type v) l).
  Lemma visit_variable_ok name before v st :
    vars_rel S (Some before) (operationVariables st) -> defs_rel before (variableDefinitions st) -> icache_ok S st -> proper (v_type v) ->
    checks (visit_variable S name v) st (variable_ok before v) (fun _ st' => ostep before [v] st st').
  Proof.
    intros Vr Dr C Pt. unfold visit_variable. apply checks_get_bind.
    assert (Vr0 := Vr). destruct Vr0 as (ND & Hv & m & Em & Hm). rewrite Em.
    destruct (assoc (v_name v) m) as [a|] eqn:Ea.
    { apply checks_emit. intros (N & _). apply find_var_none in N. rewrite Hm, N in Ea. discriminate. }
    assert (N : ~ In (v_name v) (map v_name before)).
    { apply find_var_none. rewrite Hm in Ea. destruct (find_var (v_name v) before); [discriminate|auto]. }
    destruct (is_input_type S (v_type v)) eqn:Ei; cbn [negb].
    2:{ apply checks_emit. intros (_ & H & _). apply is_input_iff in H. congruence. }
    apply is_input_iff in Ei.
    (* adding the variable *)
    assert (ADD : forall st1 a, vstep S (Some before) (default_vars S [v]) st st1 -> a = variable_argument v ->
      ostep before [v] st (set_op_vars (Some (fst (m_emplace (v_name v) a (match operationVariables st1 with Some m => m | None => [] end))))
                          (set_var_defs (fst (m_emplace (v_name v) v (variableDefinitions st1))) st1))).
    { intros st1 a (E1 & C1 & R1) Ha.
      assert (Ov : operationVariables st1 = Some m) by (rewrite E1; simpl; auto).
      assert (Od : variableDefinitions st1 = variableDefinitions st) by (rewrite E1; reflexivity).
      rewrite Ov, Od. assert (Ed : assoc (v_name v) (variableDefinitions st) = None) by (destruct Dr as (_ & Dr); rewrite Dr; apply find_var_none; auto).
      unfold m_emplace. rewrite Ea, Ed. simpl. constructor.
      - simpl. rewrite E1. destruct st; reflexivity.
      - simpl. split; [|split].
        + rewrite map_app. apply NoDup_snoc; auto.
        + intros x Hx. apply in_app_or in Hx. destruct Hx as [Hx|[<-|[]]]; auto.
        + eexists. split; [reflexivity|]. apply add_rel; auto.
      - simpl. apply defs_add; auto.
      - exact C1.
      - intro x. simpl. rewrite R1. intuition congruence. }
    destruct (v_default v) as [l|] eqn:Ed.
    - destruct (arg_value l) as [es a] eqn:El. pose proof (arg_value_ok l) as Hl. rewrite El in Hl. simpl in Hl.
      eapply checks_emits_bind; [exact Hl| |].
      + intro U. pose proof (validate_input_ok S WF l U false (v_type v) (Some before) st Pt Ei Vr C) as HD. rewrite El in HD. simpl in HD.
        eapply checks_decides_bind with (P' := True); [exact HD| |apply iff_refl].
        intros st1 Hok Hst1. cbn iota beta. apply checks_modify; auto. apply ADD.
        * unfold default_vars. simpl. rewrite Ed, app_nil_r. auto.
        * unfold variable_argument, var_nonnull_default. rewrite Ed. pose proof (arg_null l) as An. rewrite El in An. simpl in An.
          f_equal. destruct (is_null a) eqn:Ea'; simpl.
          -- destruct (proj1 An eq_refl) as (p & ->). reflexivity.
          -- destruct l; try reflexivity. assert (false = true) by (apply An; eauto). discriminate.
      + unfold variable_ok. rewrite Ed. split.
        * intros (H1 & H2 & H3). destruct (H3 l eq_refl). tauto.
        * intros (H1 & H2 & _). split; auto. split; auto. intros l' E. inversion E. subst. auto.
    - apply checks_modify.
      + split; auto. split; auto. rewrite Ed. discriminate.
      + apply ADD.
        * unfold default_vars. simpl. rewrite Ed. apply vstep_refl; auto.
        * unfold variable_argument, var_nonnull_default. rewrite Ed. reflexivity.
  Qed.

  Lemma visit_variables_ok name vs : forall before st,
    vars_rel S (Some before) (operationVariables st) -> defs_rel before (variableDefinitions st) -> icache_ok S st -> Forall (fun v => proper (v_type v)) vs ->
    checks (iter (visit_variable S name) vs) st (variables_ok S before vs) (fun _ st' => ostep before vs st st').
  Proof.
    induction vs as [|v r IH]; intros before st Vr Dr C Pt.
    - simpl. apply checks_ret; auto. constructor; rewrite ?app_nil_r; auto; [destruct st; reflexivity|]. intro x. simpl. tauto.
    - inversion Pt as [|? ? P1 P2]. subst. cbn [iter].
      eapply checks_bind with (P' := variables_ok S (before ++ [v]) r); [apply visit_variable_ok; eauto| |simpl; unfold variable_ok; tauto].
      intros [] st1 _ [O1 O2 O3 O4 O5]. eapply checks_imp; [apply IH; eauto|apply iff_refl|].
      intros [] st2 _ [Q1 Q2 Q3 Q4 Q5]. rewrite <- app_assoc in Q2, Q3. simpl in Q2, Q3. constructor; auto.
      + rewrite Q1 at 1. rewrite O1. destruct st; reflexivity.
      + intro x. rewrite Q5, O5. unfold default_vars. simpl. rewrite !in_app_iff. simpl. tauto.
  Qed.
End Variables.

Section Definitions.
  Variable S : schema.
  Hypothesis WF : schema_wf S.
  Variable doc : document.
  Hypothesis DWF : document_wf doc.
  Hypothesis NDF : NoDup (map f_name (fragments doc)).

  (** the state between two definitions; [used] are the fragments spread so far *)
  Record doc_st (used : string -> Prop) (st : vstate) : Prop := {
    dt_frags : forall n, assoc n (fragmentDefinitions st) = find_frag doc n;
    dt_sorted : sorted_keys (fragmentDefinitions st);
    dt_cycles : fragmentCycles st = [];
    dt_vars : operationVariables st = None;
    dt_defs : variableDefinitions st = [];
    dt_refv : referencedVariables st = [];
    dt_stack : fragmentStack st = [];
    dt_icache : icache_ok S st;
    dt_tcache : tcache_ok S st;
    dt_fields : selectionFields st = [];
    dt_used : forall n, In n (referencedFragments st) <-> used n }.

  Definition def_ok (x : definition) : Prop :=
    match x with DOp o => operation_ok S doc o | DFrag f => fragment_ok S doc f | DOther _ => False end.
  Definition def_spreads (x : definition) (n : string) : Prop :=
    match x with
    | DOp o => exists T, root_type S o = Some T /\ scope_spreads S doc [] T (op_sel o) n
    | DFrag f => scope_spreads S doc [f_name f] (f_cond f) (f_sel f) n
    | DOther _ => False
    end.

  Lemma root_type_eq o : operation_type S (op_type_of o) = root_type S o.
  Proof. reflexivity. Qed.
  Lemma sel_rel_nil : sel_rel S [] [].
  Proof. intro k. simpl. auto. Qed.
  Lemma free_avail stk : free doc stk <= length (map f_name (fragments doc)).
  Proof. unfold free. clear NDF. induction (map f_name (fragments doc)) as [|x l IH]; cbn [filter length]; auto. destruct (negb (mem x stk)); cbn [length]; lia. Qed.
  Lemma scope_kind n : find_type S n <> None -> (composite S n <-> exists d, find_type S n = Some d /\ is_scalar_kind (td_kind d) = false).
  Proof.
    intros _. unfold composite, type_is. split.
    - intros [(d & H & E)|[(d & H & E)|(d & H & E)]]; exists d; rewrite E; auto.
    - intros (d & H & E). destruct (td_kind d) eqn:K; try discriminate; eauto 6; exfalso; apply (wf_names _ WF) in H; tauto.
  Qed.

  Lemma visit_fragment_ok f used st avail : In f (fragments doc) -> doc_st used st -> length (map f_name (fragments doc)) <= avail ->
    checks (visit_fragment_definition S avail f) st (fragment_ok S doc f) (fun _ st' => doc_st (fun n => used n \/ def_spreads (DFrag f) n) st').
  Proof.
    intros Hf [D1 D2 D3 D4 D5 D6 D7 D8 D9 D10 D11] Ha. destruct (dwf_frags _ DWF f Hf) as (Wn & Wf).
    unfold visit_fragment_definition. eapply checks_bind with (P' := composite S (f_cond f) /\ scope_ok S doc None [f_name f] (f_cond f) (f_sel f));
      [apply (visit_directives_ok S WF None); auto| |unfold fragment_ok; tauto].
    intros [] st1 _ (E1 & C1 & R1).
    assert (R1' : referencedVariables st1 = []).
    { destruct (referencedVariables st1) as [|y l]; auto. exfalso. destruct (proj1 (R1 y) (or_introl eq_refl)) as [H|(H & _)]; [rewrite D6 in H; contradiction|congruence]. }
    destruct (find_type S (f_cond f)) as [d|] eqn:Ed.
    2:{ apply checks_emit. intros ([(d & H & _)|[(d & H & _)|(d & H & _)]] & _); congruence. }
    assert (CK := scope_kind (f_cond f)). rewrite Ed in CK. specialize (CK ltac:(discriminate)).
    destruct (is_scalar_kind (td_kind d)) eqn:Ek.
    { apply checks_emit. intros (H & _). apply CK in H. destruct H as (d' & H & E). inversion H. subst. congruence. }
    assert (CT : composite S (f_cond f)) by (apply CK; eauto).
    apply checks_modify_bind. eapply checks_bind with (P' := True).
    - apply (visit_sels_ok S WF doc DWF NDF avail (f_sel f) Wf None [] [f_name f] (f_cond f)).
      + rewrite E1. destruct st; simpl in *; subst. constructor; simpl; auto; try reflexivity; try apply sel_rel_nil; try (intro x; rewrite s_add_In; simpl; intuition congruence).
      + pose proof (free_avail [f_name f]). lia.
    - intros [] st2 Hok (items & F' & uv & uf & HC & HK & [G1 G2 G3 G4 G5 G6 G7 G8 G9 G10 G11 G12 G13]).
      apply checks_modify; auto. rewrite E1 in G1, G2, G3, G4, G5, G12, G13. destruct st; simpl in *. subst.
      constructor; simpl; auto; try congruence; try reflexivity.
      + destruct (referencedVariables st2) as [|y l]; auto. exfalso. destruct (proj1 (G12 y) (or_introl eq_refl)) as [H|(H & _)]; [rewrite R1' in H; contradiction|congruence].
      + intro n. rewrite G13, D11, (check_spreads S WF doc None _ _ _ _ _ HK), (scope_spreads_iff S doc _ _ _ _ n HC). tauto.
    - rewrite <- (scope_ok_iff S WF doc DWF None [f_name f] (f_cond f) (f_sel f) Wf). tauto.
  Qed.

  Lemma length_le_1 {A} (l : list A) : NoDup l -> (length l <= 1 <-> forall x y, In x l -> In y l -> x = y).
  Proof.
    intro N. destruct l as [|a [|b l]]; simpl.
    - split; [intros _ x y []|lia].
    - split; [|lia]. intros _ x y [<-|[]] [<-|[]]. reflexivity.
    - split; [lia|]. intro H. assert (a = b) by (apply H; auto). subst. inversion N as [|? ? N1 N2]. exfalso. apply N1. simpl. auto.
  Qed.

  Lemma iter_unused st0 (defs : list (string * variable_def)) st :
    checks (iter (fun d : string * variable_def =>
                if mem (fst d) (referencedVariables st0) then ret tt
                else emit ("Unused variable name: " ++ fst d) (v_loc (snd d))) defs) st
      (forall n v, In (n, v) defs -> In n (referencedVariables st0)) (fun _ st' => st' = st).
  Proof.
    induction defs as [|(n, v) r IH]; cbn [iter].
    - apply checks_ret; auto. intros n v [].
    - eapply checks_bind with (P := In n (referencedVariables st0)) (Q := fun _ st' => st' = st).
      + cbn [fst snd]. destruct (mem n (referencedVariables st0)) eqn:E; [apply mem_In in E; apply checks_ret; auto|apply mem_not_In in E; apply checks_emit; auto].
      + intros [] st' _ ->. exact IH.
      + split.
        * intro H. split; [apply (H n v); simpl; auto|intros k w Hk; apply (H k w); simpl; auto].
        * intros (H1 & H2) k w [E|Hk]; [inversion E; subst; auto|eauto].
  Qed.

  Lemma visit_operation_ok o used st avail : In o (operations doc) -> doc_st used st -> length (map f_name (fragments doc)) <= avail ->
    checks (visit_operation_definition S avail o) st (operation_ok S doc o) (fun _ st' => doc_st (fun n => used n \/ def_spreads (DOp o) n) st').
  Proof.
    intros Ho [D1 D2 D3 D4 D5 D6 D7 D8 D9 D10 D11] Ha. destruct (dwf_ops _ DWF o Ho) as (Wn & Wf & Wnm & Wv).
    unfold visit_operation_definition. apply checks_modify_bind.
    eapply checks_bind; [apply (visit_variables_ok S WF (op_name_of o) (op_vars o) [])| |unfold operation_ok; apply iff_refl].
    { simpl. split; [constructor|]. split; [intros v []|]. eexists. split; [reflexivity|]. intro n. reflexivity. }
    { simpl. rewrite D5. split; [constructor|]. intro n. reflexivity. }
    { exact D8. }
    { exact Wv. }
    intros [] st1 _ [O1 O2 O3 O4 O5]. simpl in O2, O3.
    eapply checks_bind; [apply (visit_directives_ok S WF (Some (op_vars o))); auto| |].
    2:{ change (if String.eqb (op_type_of o) "mutation" then MUTATION else if String.eqb (op_type_of o) "subscription" then SUBSCRIPTION else QUERY)
          with (operation_location o). apply iff_refl. }
    intros [] st2 _ (E2 & C2 & R2). rewrite root_type_eq. destruct (root_type S o) as [T|] eqn:ET.
    2:{ apply checks_emit. intros (T & H & _). discriminate. }
    apply checks_modify_bind.
    eapply checks_bind with (P' := (operation_kind o = "subscription" -> forall items, collect S doc [] T (op_sel o) items ->
                forall x y, In (IField x) items -> In (IField y) items -> oc_key x = oc_key y) /\
       (forall v, In v (op_vars o) ->
          In (v_name v) (default_vars S (op_vars o)) \/ In (v_name v) (dirs_vars S (op_dirs o)) \/ scope_uses S doc [] T (op_sel o) (v_name v)));
      [apply (visit_sels_ok S WF doc DWF NDF avail (op_sel o) Wf (Some (op_vars o)) [] [] T)| |].
    - rewrite E2, O1. destruct st; simpl in *; subst. constructor; simpl; auto; try reflexivity; try apply sel_rel_nil; try tauto.
    - pose proof (free_avail []). lia.
    - intros [] st3 Hok (items & F' & uv & uf & HC & HK & [G1 G2 G3 G4 G5 G6 G7 G8 G9 G10 G11 G12 G13]).
      apply checks_get_bind. simpl in G11. rewrite Nat.add_0_r in G11.
      destruct (check_keys S doc (Some (op_vars o)) _ _ _ _ _ HK (NoDup_nil _)) as (NK & KK).
      eapply checks_bind with (Q := fun _ st' => st' = st3)
        (P := operation_kind o = "subscription" -> forall items, collect S doc [] T (op_sel o) items ->
                forall x y, In (IField x) items -> In (IField y) items -> oc_key x = oc_key y).
      + assert (LE : length F' <= 1 <-> forall x y, In (IField x) items -> In (IField y) items -> oc_key x = oc_key y).
        { rewrite <- (map_length oc_key), (length_le_1 _ NK). split.
          - intros H x y Hx Hy. apply H; apply KK; right; eauto.
          - intros H k k' Hk Hk'. apply KK in Hk, Hk'. destruct Hk as [[]|(x & Hx & <-)], Hk' as [[]|(y & Hy & <-)]. apply H; auto. }
        change (op_type_of o) with (operation_kind o).
        destruct (String.eqb (operation_kind o) "subscription") eqn:EK; [apply String.eqb_eq in EK|apply String.eqb_neq in EK].
        2:{ rewrite Bool.andb_false_r. apply checks_ret; auto. intro; contradiction. }
        rewrite Bool.andb_true_r, G11. destruct (Nat.ltb 1 (length F')) eqn:EL; [apply Nat.ltb_lt in EL|apply Nat.ltb_ge in EL].
        * apply checks_emit. intro H. specialize (H EK items HC). apply LE in H. lia.
        * apply checks_ret; auto. intros _ items' HC'. rewrite <- (collect_fun _ _ _ _ _ _ HC _ HC'). apply LE. auto.
      + intros [] st' _ ->. apply checks_modify_bind.
        eapply checks_bind with (P' := True); [apply iter_unused| |apply iff_refl].
        intros [] st4 Hun ->. apply checks_modify; auto.
        rewrite E2, O1 in G1, G2, G3, G4, G5, G13. destruct st; simpl in *. subst.
        constructor; simpl; auto; try congruence; try reflexivity.
        intro n. rewrite G13, D11, (check_spreads S WF doc (Some (op_vars o)) _ _ _ _ _ HK), <- (scope_spreads_iff S doc _ _ _ _ n HC). split; intros [H|H]; auto.
          -- right. eauto.
          -- destruct H as (T' & H1 & H2). rewrite ET in H1. inversion H1. subst T'. auto.
      + rewrite E2, O1 in G5, G12. simpl in G5, G12. rewrite G5.
        assert (UV : forall x, In x (referencedVariables st3) <->
                       In x (default_vars S (op_vars o)) \/ In x (dirs_vars S (op_dirs o)) \/ scope_uses S doc [] T (op_sel o) x).
        { intro x. rewrite G12, R2, O5, (check_uses S WF doc _ _ _ _ _ _ HK x), <- (scope_uses_iff S doc _ _ _ _ x HC). simpl. rewrite D6. simpl.
          assert (Some (op_vars o) <> None) by discriminate. tauto. }
        destruct O3 as (O3 & O3'). destruct O2 as (O2 & _). split; intros (H1 & H2); (split; [exact H1|]).
        * split; auto. intros n v Hn. apply UV. apply (assoc_iff n v _ (sorted_NoDup _ O3)) in Hn. rewrite O3' in Hn.
          unfold find_var in Hn. apply (find_key v_name n (op_vars o) v O2) in Hn. destruct Hn as (Hn & <-). apply H2. auto.
        * destruct H2 as (H2 & _). intros v Hv. apply UV, (H2 (v_name v) v), (assoc_iff _ _ _ (sorted_NoDup _ O3)). rewrite O3'.
          unfold find_var. apply (find_key v_name). auto. auto.
    - rewrite (scope_ok_iff S WF doc DWF (Some (op_vars o)) [] T (op_sel o) Wf). split.
      + intros (T' & H & H1 & H2 & H3). inversion H. subst T'. auto.
      + intros (H1 & H2 & H3). exists T. auto.
  Qed.
End Definitions.

Section Document.
  Variable S : schema.
  Hypothesis WF : schema_wf S.

  (** the visitor between two documents *)
  Record clean (st : vstate) : Prop := {
    cl_frags : fragmentDefinitions st = [];
    cl_ops : operationDefinitions st = [];
    cl_reff : referencedFragments st = [];
    cl_cycles : fragmentCycles st = [];
    cl_vars : operationVariables st = None;
    cl_defs : variableDefinitions st = [];
    cl_refv : referencedVariables st = [];
    cl_stack : fragmentStack st = [];
    cl_icache : icache_ok S st;
    cl_tcache : tcache_ok S st;
    cl_fields : selectionFields st = [] }.
  Lemma clean_initial : clean initial.
  Proof. constructor; try reflexivity; intros n fs; discriminate. Qed.

  Lemma m_set_length {A} k (v : A) m : assoc k m = None -> length (m_set k v m) = Datatypes.S (length m).
  Proof.
    induction m as [|(k1, v1) r IH]; simpl; auto. destruct (String.eqb k k1); [discriminate|]. intro H. destruct (shorter_or_less k k1); simpl; auto.
  Qed.

  (** the first pass: the names *)
  Lemma iter_emplace {X} (key : X -> string) (msg : string) (pos : X -> schema_location) (proj : vstate -> list (string * X))
      (put : list (string * X) -> vstate -> vstate) :
    (forall m st, proj (put m st) = m) -> (forall m m' st, put m (put m' st) = put m st) -> (forall st, put (proj st) st = st) ->
    forall l st, sorted_keys (proj st) ->
    checks (iter (fun f => st <~ get ;;
                   let '(m, inserted) := m_emplace (key f) f (proj st) in
                   modify (put m) ;;;
                   if inserted then ret tt else emit (msg ++ key f) (pos f)) l) st
      (NoDup (map key l) /\ forall k, In k (map key l) -> assoc k (proj st) = None)
      (fun _ st' => exists m, st' = put m st /\ sorted_keys m /\ length m = length (proj st) + length l /\
         forall k, assoc k m = match find (fun f => String.eqb k (key f)) l with Some f => Some f | None => assoc k (proj st) end).
  Proof.
    intros P1 P2 P3. induction l as [|x r IH]; intros st Hs; cbn [iter].
    - apply checks_ret; [split; [constructor|intros k []]|]. exists (proj st). rewrite P3, Nat.add_0_r. auto.
    - eapply checks_bind with (P := assoc (key x) (proj st) = None) (Q := fun _ st' => st' = put (m_set (key x) x (proj st)) st).
      + apply checks_get_bind. unfold m_emplace. destruct (assoc (key x) (proj st)) eqn:E; apply checks_modify_bind; [apply checks_emit; discriminate|apply checks_ret; auto].
      + intros [] st' Hn ->. eapply checks_imp; [apply IH; rewrite P1; apply m_set_sorted; auto|apply iff_refl|].
        intros [] st2 (ND & Hk) (m & -> & Hm & Hl & Ha). rewrite P1 in *. exists m. rewrite P2. split; auto. split; auto. split.
        * rewrite Hl, m_set_length by auto. simpl. lia.
        * intro k. rewrite Ha, assoc_m_set. simpl. destruct (String.eqb k (key x)) eqn:E; auto.
          apply String.eqb_eq in E. subst k. destruct (find (fun f => String.eqb (key x) (key f)) r) eqn:Ef; auto. exfalso.
          assert (Hi : In (key x) (map key r)).
          { destruct (in_dec string_dec (key x) (map key r)) as [|N]; auto. apply (find_none_key key) in N. congruence. }
          apply Hk in Hi. rewrite assoc_m_set, String.eqb_refl in Hi. discriminate.
      + rewrite P1. simpl. split.
        * intros (ND & Hk). inversion ND as [|? ? N1 N2]. subst. split; [apply Hk; auto|]. split; auto. intros k Hi. rewrite assoc_m_set.
          destruct (String.eqb k (key x)) eqn:E; [apply String.eqb_eq in E; congruence|]. apply Hk. auto.
        * intros (H1 & N2 & Hk).
          assert (N1 : ~ In (key x) (map key r)). { intro Hi. apply Hk in Hi. rewrite assoc_m_set, String.eqb_refl in Hi. discriminate. }
          split; [constructor; auto|]. intros k [<-|Hi]; auto. specialize (Hk k Hi). rewrite assoc_m_set in Hk. destruct (String.eqb k (key x)); congruence.
  Qed.

  Lemma iter_definitions doc (DWF : document_wf doc) (NDF : NoDup (map f_name (fragments doc))) avail l :
    incl l doc -> length (map f_name (fragments doc)) <= avail -> forall used st, doc_st S doc used st ->
    checks (iter (fun x => match x with
                   | DFrag f => visit_fragment_definition S avail f
                   | DOp o => visit_operation_definition S avail o
                   | DOther loc => emit "Unexpected type definition" loc
                   end) l) st (forall x, In x l -> def_ok S doc x)
      (fun _ st' => doc_st S doc (fun n => used n \/ exists x, In x l /\ def_spreads S doc x n) st').
  Proof.
    intros Hl Ha. induction l as [|x r IH]; intros used st Hst; cbn [iter].
    - apply checks_ret; [intros x []|]. destruct Hst as [D1 D2 D3 D4 D5 D6 D7 D8 D9 D10 D11]. constructor; auto. intro n. rewrite D11.
      split; auto. intros [H|(x & [] & _)]; auto.
    - eapply checks_bind with (P := def_ok S doc x) (Q := fun _ st' => doc_st S doc (fun n => used n \/ def_spreads S doc x n) st').
      + assert (Hx : In x doc) by (apply Hl; simpl; auto). destruct x as [o|f|loc].
        * apply visit_operation_ok; auto. unfold operations. apply in_flat_map. exists (DOp o). simpl. auto.
        * apply visit_fragment_ok; auto. unfold fragments. apply in_flat_map. exists (DFrag f). simpl. auto.
        * apply checks_emit. simpl. auto.
      + intros [] st1 _ H1. eapply checks_imp; [apply IH; [intros y Hy; apply Hl; simpl; auto|exact H1]|apply iff_refl|].
        intros [] st2 _ [D1 D2 D3 D4 D5 D6 D7 D8 D9 D10 D11]. constructor; auto. intro n. rewrite D11. split.
        * intros [[H|H]|(y & Hy & H)]; auto; right; [exists x|exists y]; simpl; auto.
        * intros [H|(y & [<-|Hy] & H)]; auto. right. eauto.
      + split; [intros H; split; [apply H; simpl; auto|intros y Hy; apply H; simpl; auto]|intros (H1 & H2) y [<-|Hy]; auto].
  Qed.

  Lemma iter_emits {X} (msg : X -> string) (pos : X -> schema_location) (l : list X) st :
    checks (iter (fun e => emit (msg e) (pos e)) l) st (l = []) (fun _ st' => st' = st).
  Proof.
    destruct l as [|x r]; cbn [iter]; [apply checks_ret; auto|]. apply checks_emit_bind. discriminate.
  Qed.

  Lemma in_ops d o : In o (operations d) <-> In (DOp o) d.
  Proof.
    unfold operations. rewrite in_flat_map. split.
    - intros ([o'|f|loc] & H & Hi); simpl in Hi; try contradiction. destruct Hi as [<-|[]]. auto.
    - intro H. exists (DOp o). simpl. auto.
  Qed.
  Lemma in_frags d f : In f (fragments d) <-> In (DFrag f) d.
  Proof.
    unfold fragments. rewrite in_flat_map. split.
    - intros ([o'|f'|loc] & H & Hi); simpl in Hi; try contradiction. destruct Hi as [<-|[]]. auto.
    - intro H. exists (DFrag f). simpl. auto.
  Qed.

  Theorem validate_ok d st : document_wf d -> clean st ->
    checks (visit_document S d) st (valid_document S d) (fun _ st' => clean (reset st')).
  Proof.
    intros DWF [C1 C2 C3 C4 C5 C6 C7 C8 C9 C10 C11]. unfold visit_document, visit_document_at.
    eapply checks_bind with (P' := (forall loc, ~ In (DOther loc) d) /\ NoDup (map operation_name (operations d)) /\
        (forall o, In o (operations d) -> operation_name o = "" -> operations d = [o]) /\
        (forall o, In o (operations d) -> operation_ok S d o) /\
        (forall f, In f (fragments d) -> fragment_ok S d f /\ fragment_used S d (f_name f))).
    { apply (iter_emplace f_name "Duplicate fragment name: " f_loc fragmentDefinitions set_frags); try reflexivity.
      - intros []; reflexivity.
      - rewrite C1. constructor. }
    2:{ rewrite C1. unfold valid_document. simpl. tauto. }
    intros [] st1 (NDF & _) (mf & -> & Sf & Lf & Af). rewrite C1 in Lf, Af. simpl in Lf, Af.
    eapply checks_bind with (P' := (forall loc, ~ In (DOther loc) d) /\
        (forall o, In o (operations d) -> operation_name o = "" -> operations d = [o]) /\
        (forall o, In o (operations d) -> operation_ok S d o) /\
        (forall f, In f (fragments d) -> fragment_ok S d f /\ fragment_used S d (f_name f))).
    { apply (iter_emplace op_name_of "Duplicate operation name: " op_loc operationDefinitions set_ops); try reflexivity.
      - intros []; reflexivity.
      - simpl. rewrite C2. constructor. }
    2:{ simpl. rewrite C2. simpl. change op_name_of with operation_name. tauto. }
    intros [] st1 (NDO & _) (mo & -> & So & Lo & Ao). simpl in Lo, Ao. rewrite C2 in Lo, Ao. simpl in Lo, Ao. change op_name_of with operation_name in *.
    apply checks_get_bind. simpl operationDefinitions. simpl fragmentDefinitions. rewrite Lo.
    set (st1 := set_ops mo (set_frags mf st)).
    eapply checks_bind with (P := forall o, In o (operations d) -> operation_name o = "" -> operations d = [o]) (Q := fun _ st' => st' = st1)
      (P' := (forall loc, ~ In (DOther loc) d) /\ (forall o, In o (operations d) -> operation_ok S d o) /\
        (forall f, In f (fragments d) -> fragment_ok S d f /\ fragment_used S d (f_name f))); [| |tauto].
    { destruct (operations d) as [|o1 [|o2 r]] eqn:Eops.
      - simpl. apply checks_ret; auto. intros o [].
      - simpl. apply checks_ret; auto. intros o [<-|[]] _. reflexivity.
      - change (Nat.ltb 1 (length (o1 :: o2 :: r))) with true. cbn iota. rewrite Ao.
        destruct (find (fun f => String.eqb "" (operation_name f)) (o1 :: o2 :: r)) as [o|] eqn:Ef.
        + apply checks_emit. intro H. apply (find_key operation_name "" _ o NDO) in Ef. destruct Ef as (H1 & H2). apply H in H2; auto. discriminate.
        + apply checks_ret; auto. intros o Ho Hn. exfalso. apply (find_none_key operation_name) in Ef. apply Ef. rewrite <- Hn. apply in_map. auto. }
    intros [] st2 _ ->. change (length mf) with (length (fragmentDefinitions st1)).
    eapply checks_bind; [apply (iter_definitions d DWF NDF (length mf) d (incl_refl d)) with (used := fun _ => False)| |].
    - rewrite map_length. lia.
    - subst st1. destruct st; simpl in *. subst. constructor; simpl; auto; try reflexivity.
      intro n. rewrite Af. unfold find_frag. destruct (find (fun f => String.eqb n (f_name f)) (fragments d)); reflexivity.
    - intros [] st2 Hall [D1 D2 D3 D4 D5 D6 D7 D8 D9 D10 D11]. apply checks_get_bind, checks_modify_bind.
      eapply checks_imp with (P := fold_left (fun m name => m_erase name m) (referencedFragments st2) (fragmentDefinitions st2) = []).
      + apply (iter_emits (fun e => "Unused fragment definition name: " ++ fst e)%string (fun e => f_loc (snd e))).
      + assert (E : fold_left (fun m name => m_erase name m) (referencedFragments st2) (fragmentDefinitions st2) = [] <->
                    forall k, ~ In k (map fst (fold_left (fun m name => m_erase name m) (referencedFragments st2) (fragmentDefinitions st2)))).
        { destruct (fold_left (fun m name => m_erase name m) (referencedFragments st2) (fragmentDefinitions st2)) as [|(k, v) l]; split; try discriminate; auto.
          intro H. exfalso. apply (H k). simpl. auto. }
        rewrite E. assert (FE := fold_erase (referencedFragments st2) (fragmentDefinitions st2)).
        transitivity (forall f, In f (fragments d) -> fragment_used S d (f_name f)).
        2:{ reflexivity. }
        assert (U : forall n, In n (referencedFragments st2) <-> fragment_used S d n).
        { intro n. rewrite D11. unfold fragment_used. split.
          - intros [[]|([o|f|loc] & Hx & H)]; [left; apply in_ops in Hx; destruct H as (T & H1 & H2); eauto|right; apply in_frags in Hx; eauto|contradiction].
          - intros [(o & T & H1 & H2 & H3)|(f & H1 & H2)]; right; [exists (DOp o); split; [apply in_ops; auto|simpl; eauto]|exists (DFrag f); split; [apply in_frags; auto|auto]]. }
        split.
        * intros H f Hf. apply U. destruct (in_dec string_dec (f_name f) (referencedFragments st2)) as [|N]; auto. exfalso. apply (H (f_name f)).
          apply FE; [apply sorted_NoDup; auto|]. split; auto. destruct (in_dec string_dec (f_name f) (map fst (fragmentDefinitions st2))) as [|N']; auto.
          exfalso. apply assoc_None in N'. rewrite D1 in N'. apply (find_none_key f_name) in N'. apply N', in_map. auto.
        * intros H k Hk. apply FE in Hk; [|apply sorted_NoDup; auto]. destruct Hk as (Hk & Nk). apply Nk, U.
          apply in_map_iff in Hk. destruct Hk as ((k', f) & <- & Hk). simpl. apply (assoc_iff _ _ _ (sorted_NoDup _ D2)) in Hk. rewrite D1 in Hk.
          unfold find_frag in Hk. apply (find_key f_name _ _ f NDF) in Hk. destruct Hk as (Hk & <-). auto.
      + intros [] st3 _ ->. destruct st2; simpl in *. subst. constructor; auto.
    - unfold def_ok. split.
      + intros (H1 & H2 & H3). split.
        * intros [o|f|loc] Hx; [apply H2, in_ops; auto|apply H3, in_frags; auto|apply (H1 _ Hx)].
        * intros f Hf. apply H3. auto.
      + intros (H1 & H2). split; [intros loc Hl; apply (H1 _ Hl)|]. split.
        * intros o Ho. apply in_ops in Ho. apply (H1 _ Ho).
        * intros f Hf. split; auto. apply in_frags in Hf. apply (H1 _ Hf).
  Qed.
End Document.
