(** Expanded selections: [check] walks over the items of a selection set in order, like the visitor does; it is a
    function of the items, and the items are a function of the selections. *)
From Verif Require Import Cpp Value Ast SchemaModel SortedMapModel.
From Verif Require Import ValidationModel ValidationSpec ValidationMaps ValidationValues ValidationValues2 ValidationArgs ValidationFields.
Local Open Scope string_scope.
Local Open Scope list_scope.

Section Check.
  Variable S : schema.
  Hypothesis WF : schema_wf S.
  Variable doc : document.
  Variable vars : option (list variable_def).

  Definition find_key_in (k : string) (F : list occurrence) : option occurrence := find (fun o => String.eqb k (oc_key o)) F.

  (** [F]: the first fields of each key so far; [uv], [uf]: the variables used and the fragments spread *)
  Inductive check : list occurrence -> list item -> list occurrence -> list string -> list string -> Prop :=
  | k_nil F : check F [] F [] []
  | k_dirs F loc ds r F' uv uf : directives_ok S vars loc ds -> check F r F' uv uf ->
      check F (IDirs loc ds :: r) F' (dirs_vars S ds ++ uv) uf
  | k_spread F n r F' uv uf : check F r F' uv uf -> check F (ISpread n :: r) F' uv (n :: uf)
  | k_dup F o o1 ty args r F' uv uf : find_key_in (oc_key o) F = Some o1 -> arguments_unique (oc_args o) ->
      field_of S (oc_parent o) (oc_name o) ty args -> mergeable S o1 o -> check F r F' uv uf -> check F (IField o :: r) F' uv uf
  | k_leaf F o ty args r F' uv uf : find_key_in (oc_key o) F = None -> arguments_unique (oc_args o) ->
      field_of S (oc_parent o) (oc_name o) ty args -> arguments_ok S vars args (oc_args o) ->
      oc_sub o = None -> ~ composite S (named_type ty) -> check (F ++ [o]) r F' uv uf ->
      check F (IField o :: r) F' (args_vars S args (oc_args o) ++ uv) uf
  | k_sub F o ty args sub items F1 u1 f1 r F' uv uf : find_key_in (oc_key o) F = None -> arguments_unique (oc_args o) ->
      field_of S (oc_parent o) (oc_name o) ty args -> arguments_ok S vars args (oc_args o) ->
      oc_sub o = Some sub -> collect S doc (oc_stack o) (named_type ty) sub items -> check [] items F1 u1 f1 ->
      check (F ++ [o]) r F' uv uf ->
      check F (IField o :: r) F' (args_vars S args (oc_args o) ++ u1 ++ uv) (f1 ++ uf).

  Lemma collect_fun stk T sels items : collect S doc stk T sels items -> forall items', collect S doc stk T sels items' -> items = items'.
  Proof.
    induction 1 as [stk T|stk T loc alias name args dirs sub r items H IH|stk T loc cond dirs sels r T' i1 i2 Hc H1 IH1 H2 IH2|
                    stk T loc name dirs r f i1 i2 Hf Hn Ht Ho H1 IH1 H2 IH2]; intros items' H'; inversion H'; subst; auto.
    - f_equal. f_equal. auto.
    - f_equal. assert (T'0 = T') by (destruct cond as [(l, n)|]; [intuition congruence|congruence]). subst. rewrite (IH1 i0), (IH2 i3) by auto. reflexivity.
    - f_equal. assert (f0 = f) by congruence. subst. rewrite (IH1 i0), (IH2 i3) by auto. reflexivity.
  Qed.
  Lemma collect_app stk T l1 l2 items : collect S doc stk T (l1 ++ l2) items <->
    exists i1 i2, items = i1 ++ i2 /\ collect S doc stk T l1 i1 /\ collect S doc stk T l2 i2.
  Proof.
    split.
    - revert items. induction l1 as [|s r IH]; intros items H; simpl in *.
      + exists [], items. repeat split; auto. constructor.
      + inversion H; subst.
        * match goal with G : collect _ _ _ _ (r ++ l2) _ |- _ => destruct (IH _ G) as (i1 & i2 & -> & G1 & G2) end. eexists (_ :: _ :: i1), i2. split; [reflexivity|]. split; auto. constructor; auto.
        * match goal with G : collect _ _ _ _ (r ++ l2) _ |- _ => destruct (IH _ G) as (j1 & j2 & -> & G1 & G2) end.
          exists (IDirs INLINE_FRAGMENT dirs :: i1 ++ j1), j2. split; [simpl; rewrite app_assoc; reflexivity|]. split; auto. econstructor; eauto.
        * match goal with G : collect _ _ _ _ (r ++ l2) _ |- _ => destruct (IH _ G) as (j1 & j2 & -> & G1 & G2) end.
          exists (IDirs FRAGMENT_SPREAD dirs :: i1 ++ ISpread name :: j1), j2. split; [simpl; rewrite <- app_assoc; reflexivity|]. split; auto. econstructor; eauto.
    - intros (i1 & i2 & -> & H1 & H2). induction H1; simpl; auto.
      + constructor. auto.
      + rewrite <- app_assoc. econstructor; eauto.
      + rewrite <- app_assoc. simpl. econstructor; eauto.
  Qed.

  Lemma check_app F i1 i2 F' uv uf : check F (i1 ++ i2) F' uv uf <->
    exists F1 u1 u2 f1 f2, check F i1 F1 u1 f1 /\ check F1 i2 F' u2 f2 /\ uv = u1 ++ u2 /\ uf = f1 ++ f2.
  Proof.
    split.
    - revert F uv uf. induction i1 as [|i r IH]; intros F uv uf H; simpl in *.
      + exists F, [], uv, [], uf. repeat split; auto. constructor.
      + inversion H; subst; match goal with G : check _ (r ++ i2) _ _ _ |- _ => destruct (IH _ _ _ G) as (F1' & u1' & u2' & f1' & f2' & G1 & G2 & -> & ->) end.
        * exists F1', (dirs_vars S ds ++ u1'), u2', f1', f2'. rewrite app_assoc. repeat split; auto. constructor; auto.
        * exists F1', u1', u2', (n :: f1'), f2'. repeat split; auto. constructor; auto.
        * exists F1', u1', u2', f1', f2'. repeat split; auto. eapply k_dup; eauto.
        * exists F1', (args_vars S args (oc_args o) ++ u1'), u2', f1', f2'. rewrite app_assoc. repeat split; auto. eapply k_leaf; eauto.
        * exists F1', (args_vars S args (oc_args o) ++ u1 ++ u1'), u2', (f1 ++ f1'), f2'. rewrite !app_assoc. repeat split; auto. rewrite <- !app_assoc. eapply k_sub; eauto.
    - intros (F1 & u1 & u2 & f1 & f2 & H1 & H2 & -> & ->). induction H1; simpl; auto.
      + rewrite <- app_assoc. constructor; auto.
      + constructor; auto.
      + eapply k_dup; eauto.
      + rewrite <- app_assoc. eapply k_leaf; eauto.
      + rewrite <- !app_assoc. eapply k_sub; eauto.
  Qed.

  Lemma check_fun F items F1 u1 f1 : check F items F1 u1 f1 -> forall F2 u2 f2, check F items F2 u2 f2 -> F1 = F2 /\ u1 = u2 /\ f1 = f2.
  Proof.
    induction 1 as [F|F loc ds r F' uv uf Hd H IH|F n r F' uv uf H IH|F o o1 ty args r F' uv uf H1 H2 H3 H4 H IH|
                    F o ty args r F' uv uf H1 H2 H3 H4 H5 H6 H IH|F o ty args sub items F1 u1 f1 r F' uv uf H1 H2 H3 H4 H5 H6 H7 IH7 H IH];
      intros F2 u2 f2 C; inversion C; subst; auto; try congruence.
    - match goal with G : check _ r _ _ _ |- _ => destruct (IH _ _ _ G) as (-> & -> & ->) end. auto.
    - match goal with G : check _ r _ _ _ |- _ => destruct (IH _ _ _ G) as (-> & -> & ->) end. auto.
    - match goal with G : check _ r _ _ _ |- _ => destruct (IH _ _ _ G) as (-> & -> & ->) end.
      match goal with G : field_of S (oc_parent o) _ ?t ?a |- _ => destruct (field_of_fun S WF _ _ _ _ _ _ H3 G) as (<- & <-) end. auto.
    - match goal with G : check _ r _ _ _ |- _ => destruct (IH _ _ _ G) as (-> & -> & ->) end.
      match goal with G : field_of S (oc_parent o) _ ?t ?a |- _ => destruct (field_of_fun S WF _ _ _ _ _ _ H3 G) as (<- & <-) end.
      match goal with G : oc_sub o = Some ?s |- _ => rewrite H5 in G; inversion G; subst end.
      match goal with G : collect _ _ _ _ _ ?i, G' : check [] ?i _ _ _ |- _ => rewrite <- (collect_fun _ _ _ _ H6 _ G) in G'; destruct (IH7 _ _ _ G') as (-> & -> & ->) end. auto.
  Qed.

  (** non-empty selections have a field *)
  Hypothesis DWF : document_wf doc.
  Lemma find_frag_In n f : find_frag doc n = Some f -> In f (fragments doc) /\ f_name f = n.
  Proof. unfold find_frag. intro H. apply find_some in H. destruct H as (H1 & H2). apply String.eqb_eq in H2. auto. Qed.
  Lemma collect_nonempty stk T sels items : collect S doc stk T sels items -> sels <> [] -> Forall sel_wf sels -> exists o, In (IField o) items.
  Proof.
    induction 1 as [stk T|stk T loc alias name args dirs sub r items H IH|stk T loc cond dirs sels r T' i1 i2 Hc H1 IH1 H2 IH2|
                    stk T loc name dirs r f i1 i2 Hf Hn Ht Ho H1 IH1 H2 IH2]; intros N W.
    - congruence.
    - eexists. simpl. eauto.
    - inversion W as [|? ? W1 W2]. subst. inversion W1 as [| |? ? ? ? W3 W4 W5]. subst. destruct (IH1 W4 W5) as (o & Ho). exists o. right. apply in_or_app. auto.
    - apply find_frag_In in Hf. destruct Hf as (Hf & _). destruct (dwf_frags _ DWF f Hf) as (W1 & W2).
      destruct (IH1 W1 W2) as (o & Hi). exists o. right. apply in_or_app. auto.
  Qed.
  Lemma possible_composite a o : possible S a o -> composite S a.
  Proof. intros [(H & _)|(d & d' & H1 & [H2|H2] & _)]; unfold composite; auto; right; [left|right]; exists d; auto. Qed.
  Lemma overlap_composite a b : overlap S a b -> composite S b -> composite S a.
  Proof. intros [->|(o & H & _)] Hb; auto. eapply possible_composite; eauto. Qed.
  Lemma collect_composite stk T sels items : collect S doc stk T sels items -> sels <> [] -> Forall sel_wf sels ->
    (forall o, In (IField o) items -> exists ty args, field_of S (oc_parent o) (oc_name o) ty args) -> composite S T.
  Proof.
    induction 1 as [stk T|stk T loc alias name args dirs sub r items H IH|stk T loc cond dirs sels r T' i1 i2 Hc H1 IH1 H2 IH2|
                    stk T loc name dirs r f i1 i2 Hf Hn Ht Ho H1 IH1 H2 IH2]; intros N W Hfi.
    - congruence.
    - match type of Hfi with forall o, In (IField o) (_ :: IField ?o0 :: _) -> _ => destruct (Hfi o0 (or_intror (or_introl eq_refl))) as (ty & a & Hty) end.
      simpl in Hty. apply (field_of_wf S WF) in Hty. tauto.
    - inversion W as [|? ? W1 W2]. subst. inversion W1 as [| |? ? ? ? W3 W4 W5]. subst.
      assert (C : composite S T') by (apply IH1; auto; intros o Hi; apply Hfi; right; apply in_or_app; auto).
      destruct cond as [(l, n)|]; [|congruence]. destruct Hc as (-> & _ & Ho). eapply overlap_composite; eauto.
    - apply find_frag_In in Hf. destruct Hf as (Hf & _). destruct (dwf_frags _ DWF f Hf) as (W1 & W2).
      eapply overlap_composite; [exact Ho|]. apply IH1; auto. intros o Hi. apply Hfi. right. apply in_or_app. auto.
  Qed.
  Lemma check_grows F items F' uv uf : check F items F' uv uf -> length F <= length F'.
  Proof. induction 1; simpl in *; rewrite ?app_length in *; simpl in *; lia. Qed.
  Lemma find_key_nonempty k F o : find_key_in k F = Some o -> 0 < length F.
  Proof. destruct F; simpl; [discriminate|lia]. Qed.
  Lemma check_nonempty F items F' uv uf o : check F items F' uv uf -> In (IField o) items -> 0 < length F'.
  Proof.
    induction 1 as [F|F loc ds r F' uv uf Hd H IH|F n r F' uv uf H IH|F o' o1 ty args r F' uv uf H1 H2 H3 H4 H IH|
                    F o' ty args r F' uv uf H1 H2 H3 H4 H5 H6 H IH|F o' ty args sub items F1 u1 f1 r F' uv uf H1 H2 H3 H4 H5 H6 H7 IH7 H IH]; simpl.
    - intros [].
    - intros [E|E]; [discriminate|auto].
    - intros [E|E]; [discriminate|auto].
    - intros [E|E]; [|auto]. apply find_key_nonempty in H1. apply check_grows in H. lia.
    - intros [E|E]; [|auto]. apply check_grows in H. rewrite app_length in H. simpl in H. lia.
    - intros [E|E]; [|auto]. apply check_grows in H. rewrite app_length in H. simpl in H. lia.
  Qed.
  Lemma check_fields F items F' uv uf : check F items F' uv uf ->
    forall o, In (IField o) items -> arguments_unique (oc_args o) /\ exists ty args, field_of S (oc_parent o) (oc_name o) ty args.
  Proof.
    induction 1 as [F|F loc ds r F' uv uf Hd H IH|F n r F' uv uf H IH|F o' o1 ty args r F' uv uf H1 H2 H3 H4 H IH|
                    F o' ty args r F' uv uf H1 H2 H3 H4 H5 H6 H IH|F o' ty args sub items F1 u1 f1 r F' uv uf H1 H2 H3 H4 H5 H6 H7 IH7 H IH]; simpl; intros o Ho.
    - contradiction.
    - destruct Ho as [E|E]; [discriminate|auto].
    - destruct Ho as [E|E]; [discriminate|auto].
    - destruct Ho as [E|E]; [inversion E; subst; eauto|auto].
    - destruct Ho as [E|E]; [inversion E; subst; eauto|auto].
    - destruct Ho as [E|E]; [inversion E; subst; eauto|auto].
  Qed.
End Check.
