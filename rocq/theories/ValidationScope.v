(** [check]ing the expansion of a selection set is the same as the declarative [scope_ok], [scope_uses], [scope_spreads]. *)
From Verif Require Import Cpp Value Ast SchemaModel SortedMapModel.
From Verif Require Import ValidationModel ValidationSpec ValidationMaps ValidationValues ValidationValues2 ValidationArgs ValidationFields ValidationCheck ValidationSelections.
Local Open Scope string_scope.
Local Open Scope list_scope.

Section Scope.
  Variable S : schema.
  Hypothesis WF : schema_wf S.
  Variable doc : document.
  Hypothesis DWF : document_wf doc.
  Variable vars : option (list variable_def).

  Definition sub_wf (items : list item) : Prop :=
    forall o sub, In (IField o) items -> oc_sub o = Some sub -> sub <> [] /\ Forall sel_wf sub.
  Lemma collect_wf stk T sels items : collect S doc stk T sels items -> Forall sel_wf sels -> sub_wf items.
  Proof.
    induction 1 as [stk T|stk T loc alias name args dirs sub r items H IH|stk T loc cond dirs sels r T' i1 i2 Hc H1 IH1 H2 IH2|
                    stk T loc name dirs r f i1 i2 Hf Hn Ht Ho H1 IH1 H2 IH2]; intro W.
    - intros o sub [].
    - inversion W as [|? ? W1 W2]. subst. intros o s [E|[E|E]] Hs; [discriminate| |eapply IH; eauto].
      inversion E. subst o. simpl in Hs. destruct sub as [(l, x)|]; [|discriminate]. simpl in Hs. inversion Hs. subst.
      inversion W1 as [? ? ? ? ? ? W3 W4 W5| |]. subst. apply (W5 _ _ eq_refl).
    - inversion W as [|? ? W1 W2]. subst. inversion W1 as [| |? ? ? ? W3 W4 W5]. subst.
      intros o s [E|E] Hs; [discriminate|]. apply in_app_or in E. destruct E as [E|E]; [eapply IH1; eauto|eapply IH2; eauto].
    - inversion W as [|? ? W1 W2]. subst. apply find_frag_In in Hf. destruct Hf as (Hf & _). destruct (dwf_frags _ DWF f Hf) as (_ & W3).
      intros o s [E|E] Hs; [discriminate|]. apply in_app_or in E. destruct E as [E|[E|E]]; [eapply IH1; eauto|discriminate|eapply IH2; eauto].
  Qed.

  Definition later_pair (items : list item) (o o' : occurrence) : Prop :=
    exists pre mid post, items = pre ++ IField o :: mid ++ IField o' :: post /\ forall x, In (IField x) pre -> oc_key x <> oc_key o.
  Lemma first_nil o : ~ first_field [] o.
  Proof. intros (pre & post & H & _). destruct pre; discriminate. Qed.
  Lemma first_cons i r o : first_field (i :: r) o <-> i = IField o \/ (first_field r o /\ forall x, i = IField x -> oc_key x <> oc_key o).
  Proof.
    split.
    - intros (pre & post & H & N). destruct pre as [|j pre]; simpl in H; inversion H; subst; auto. right. split.
      + exists pre, post. split; auto. intros o' Ho'. apply N. right. auto.
      + intros x ->. apply N. left. auto.
    - intros [->|((pre & post & -> & N) & Hi)].
      + exists [], r. split; [reflexivity|intros o' []].
      + exists (i :: pre), post. split; [reflexivity|intros o' [E|E]; auto].
  Qed.
  Lemma pair_nil o o' : ~ later_pair [] o o'.
  Proof. intros (pre & mid & post & H & _). destruct pre; discriminate. Qed.
  Lemma pair_cons i r o o' : later_pair (i :: r) o o' <->
    (i = IField o /\ In (IField o') r) \/ (later_pair r o o' /\ forall x, i = IField x -> oc_key x <> oc_key o).
  Proof.
    split.
    - intros (pre & mid & post & H & N). destruct pre as [|j pre]; simpl in H; inversion H; subst.
      + left. split; auto. apply in_or_app. simpl. auto.
      + right. split; [|intros x ->; apply N; left; auto]. exists pre, mid, post. split; auto. intros x Hx. apply N. right. auto.
    - intros [(-> & H)|((pre & mid & post & -> & N) & Hi)].
      + apply in_split in H. destruct H as (mid & post & ->). exists [], mid, post. split; [reflexivity|intros x []].
      + exists (i :: pre), mid, post. split; [reflexivity|intros x [E|E]; auto].
  Qed.
  Lemma first_In items o : first_field items o -> In (IField o) items.
  Proof. intros (pre & post & -> & _). apply in_or_app. simpl. auto. Qed.

  (** the conditions on the items that follow the fields [F] *)
  Record rel (F : list occurrence) (items : list item) : Prop := {
    rel_dirs : forall loc ds, In (IDirs loc ds) items -> directives_ok S vars loc ds;
    rel_fields : forall o, In (IField o) items -> arguments_unique (oc_args o) /\ exists ty args, field_of S (oc_parent o) (oc_name o) ty args;
    rel_first : forall o ty args, first_field items o -> find_key_in (oc_key o) F = None -> field_of S (oc_parent o) (oc_name o) ty args ->
         arguments_ok S vars args (oc_args o) /\ (composite S (named_type ty) <-> oc_sub o <> None);
    rel_dup : forall o o1, In (IField o) items -> find_key_in (oc_key o) F = Some o1 -> mergeable S o1 o;
    rel_pair : forall o o', later_pair items o o' -> find_key_in (oc_key o) F = None -> oc_key o' = oc_key o -> mergeable S o o' }.

  Lemma find_key_app_none k F o : find_key_in k (F ++ [o]) = None <-> find_key_in k F = None /\ k <> oc_key o.
  Proof.
    rewrite find_key_app. destruct (find_key_in k F); [split; [discriminate|intros (H & _); discriminate]|].
    destruct (String.eqb k (oc_key o)) eqn:E; [apply String.eqb_eq in E|apply String.eqb_neq in E]; split; auto; try discriminate; try tauto.
  Qed.
  Lemma find_key_app_old k F o o1 : find_key_in k F = Some o1 -> find_key_in k (F ++ [o]) = Some o1.
  Proof. intro H. rewrite find_key_app, H. reflexivity. Qed.
  Lemma find_key_app_new k F o : find_key_in k F = None -> k = oc_key o -> find_key_in k (F ++ [o]) = Some o.
  Proof. intros H ->. rewrite find_key_app, H, String.eqb_refl. reflexivity. Qed.
  Lemma find_key_app_inv k F o o1 : find_key_in k (F ++ [o]) = Some o1 -> find_key_in k F = Some o1 \/ (find_key_in k F = None /\ k = oc_key o /\ o1 = o).
  Proof.
    rewrite find_key_app. destruct (find_key_in k F); [auto|]. destruct (String.eqb k (oc_key o)) eqn:E; [|discriminate].
    apply String.eqb_eq in E. intro H. injection H as H. right. auto.
  Qed.

  Lemma rel_other F i r : (forall o, i <> IField o) -> (forall loc ds, i = IDirs loc ds -> directives_ok S vars loc ds) -> (rel F (i :: r) <-> rel F r).
  Proof.
    intros Ni Hd. split; intros [H1 H2 H3 H4 H5]; constructor.
    - intros. apply H1. simpl. auto.
    - intros. apply H2. simpl. auto.
    - intros. apply H3; auto. apply first_cons. right. split; auto. intros x ->. exfalso. eapply Ni; eauto.
    - intros. apply H4; auto. simpl. auto.
    - intros. apply H5; auto. apply pair_cons. right. split; auto. intros x ->. exfalso. eapply Ni; eauto.
    - intros loc ds [E|E]; auto.
    - intros o [E|E]; [exfalso; eapply Ni; eauto|auto].
    - intros o ty args H. apply first_cons in H. destruct H as [H|(H & _)]; [exfalso; eapply Ni; eauto|]. apply H3; auto.
    - intros o o1 [E|E]; [exfalso; eapply Ni; eauto|auto].
    - intros o o' H. apply pair_cons in H. destruct H as [(H & _)|(H & _)]; [exfalso; eapply Ni; eauto|]. apply H5; auto.
  Qed.

  (** [check] implies the conditions *)
  Lemma check_rel F items F' uv uf : check S doc vars F items F' uv uf -> sub_wf items -> rel F items.
  Proof.
    induction 1 as [F|F loc ds r F' uv uf Hd H IH|F n r F' uv uf H IH|F o o1 ty args r F' uv uf H1 H2 H3 H4 H IH|
                    F o ty args r F' uv uf H1 H2 H3 H4 H5 H6 H IH|F o ty args sub items F1 u1 f1 r F' uv uf H1 H2 H3 H4 H5 H6 H7 IH7 H IH]; intro W.
    - constructor; try (intros; contradiction).
      + intros o ty args Hf. exfalso. eapply first_nil; eauto.
      + intros o o' Hf. exfalso. eapply pair_nil; eauto.
    - apply rel_other; [discriminate|intros ? ? E; inversion E; subst; auto|]. apply IH. intros x s Hx. apply W. simpl. auto.
    - apply rel_other; [discriminate|intros ? ? E; discriminate|]. apply IH. intros x s Hx. apply W. simpl. auto.
    - destruct IH as [R1 R2 R3 R4 R5]; [intros x s Hx; apply W; simpl; auto|]. constructor.
      + intros loc ds [E|E]; [discriminate|auto].
      + intros x [E|E]; [inversion E; subst; eauto|auto].
      + intros x t a Hf Hk. apply first_cons in Hf. destruct Hf as [E|(Hf & Nk)]; [inversion E; subst; congruence|]. apply R3; auto.
      + intros x x1 [E|E]; [inversion E; subst; congruence|auto].
      + intros x x' Hp Hk Hkk. apply pair_cons in Hp. destruct Hp as [(E & _)|(Hp & _)]; [inversion E; subst; congruence|]. apply R5; auto.
    - destruct IH as [R1 R2 R3 R4 R5]; [intros x s Hx; apply W; simpl; auto|]. constructor.
      + intros loc ds [E|E]; [discriminate|auto].
      + intros x [E|E]; [inversion E; subst; eauto|auto].
      + intros x t a Hf Hk Hfo. apply first_cons in Hf. destruct Hf as [E|(Hf & Nk)].
        * inversion E. subst x. destruct (field_of_fun S WF _ _ _ _ _ _ H3 Hfo) as (<- & <-). split; auto. rewrite H5. split; [contradiction|congruence].
        * apply R3; auto. apply find_key_app_none. split; auto. intro E. apply (Nk o eq_refl). auto.
      + intros x x1 [E|E] Hk; [inversion E; subst; congruence|]. apply R4; auto. apply find_key_app_old. auto.
      + intros x x' Hp Hk Hkk. apply pair_cons in Hp. destruct Hp as [(E & Hi)|(Hp & Nk)].
        * inversion E. subst x. apply R4; auto. apply find_key_app_new; congruence.
        * apply R5; auto. apply find_key_app_none. split; auto. intro E. apply (Nk o eq_refl). auto.
    - assert (CS : composite S (named_type ty)).
      { destruct (W o sub (or_introl eq_refl) H5) as (Wn & Ws). apply (collect_composite S WF doc DWF _ _ _ _ H6 Wn Ws). intros x Hx. apply (check_fields _ _ _ _ _ _ _ _ H7 x Hx). }
      destruct IH as [R1 R2 R3 R4 R5]; [intros x s Hx; apply W; simpl; auto|]. constructor.
      + intros loc ds [E|E]; [discriminate|auto].
      + intros x [E|E]; [inversion E; subst; eauto|auto].
      + intros x t a Hf Hk Hfo. apply first_cons in Hf. destruct Hf as [E|(Hf & Nk)].
        * inversion E. subst x. destruct (field_of_fun S WF _ _ _ _ _ _ H3 Hfo) as (<- & <-). split; auto. rewrite H5. split; [congruence|auto].
        * apply R3; auto. apply find_key_app_none. split; auto. intro E. apply (Nk o eq_refl). auto.
      + intros x x1 [E|E] Hk; [inversion E; subst; congruence|]. apply R4; auto. apply find_key_app_old. auto.
      + intros x x' Hp Hk Hkk. apply pair_cons in Hp. destruct Hp as [(E & Hi)|(Hp & Nk)].
        * inversion E. subst x. apply R4; auto. apply find_key_app_new; congruence.
        * apply R5; auto. apply find_key_app_none. split; auto. intro E. apply (Nk o eq_refl). auto.
  Qed.
  (** ... and that every first field's sub-selection can be checked *)
  Definition subs (P : list string -> string -> list selection -> Prop) (F : list occurrence) (items : list item) : Prop :=
    forall o ty args sub, first_field items o -> find_key_in (oc_key o) F = None -> field_of S (oc_parent o) (oc_name o) ty args -> oc_sub o = Some sub ->
      P (oc_stack o) (named_type ty) sub.
  Lemma rel_scope stk T sels items : collect S doc stk T sels items -> rel [] items -> subs (scope_ok S doc vars) [] items -> scope_ok S doc vars stk T sels.
  Proof.
    intros HC [R1 R2 R3 R4 R5] Hs. econstructor; eauto.
    intros o o' pre mid post E Hp Hk. apply R5; auto. exists pre, mid, post. auto.
  Qed.
  Lemma check_subs F items F' uv uf : check S doc vars F items F' uv uf -> sub_wf items -> subs (scope_ok S doc vars) F items.
  Proof.
    induction 1 as [F|F loc ds r F' uv uf Hd H IH|F n r F' uv uf H IH|F o o1 ty args r F' uv uf H1 H2 H3 H4 H IH|
                    F o ty args r F' uv uf H1 H2 H3 H4 H5 H6 H IH|F o ty args sub items F1 u1 f1 r F' uv uf H1 H2 H3 H4 H5 H6 H7 IH7 H IH]; intros W x t a s Hf Hk Hfo Hsub.
    - exfalso. eapply first_nil; eauto.
    - apply first_cons in Hf. destruct Hf as [E|(Hf & _)]; [discriminate|]. eapply IH; eauto. intros y z Hy. apply W. simpl. auto.
    - apply first_cons in Hf. destruct Hf as [E|(Hf & _)]; [discriminate|]. eapply IH; eauto. intros y z Hy. apply W. simpl. auto.
    - apply first_cons in Hf. destruct Hf as [E|(Hf & _)]; [inversion E; subst; congruence|]. eapply IH; eauto. intros y z Hy. apply W. simpl. auto.
    - apply first_cons in Hf. destruct Hf as [E|(Hf & Nk)]; [inversion E; subst; congruence|]. eapply IH; eauto; [intros y z Hy; apply W; simpl; auto|].
      apply find_key_app_none. split; auto. intro E. apply (Nk o eq_refl). auto.
    - apply first_cons in Hf. destruct Hf as [E|(Hf & Nk)].
      + inversion E. subst x. rewrite H5 in Hsub. inversion Hsub. subst s. destruct (field_of_fun S WF _ _ _ _ _ _ H3 Hfo) as (<- & <-).
        destruct (W o sub (or_introl eq_refl) H5) as (_ & Ws). pose proof (collect_wf _ _ _ _ H6 Ws) as W'.
        eapply rel_scope; eauto. eapply check_rel; eauto.
      + eapply IH; eauto; [intros y z Hy; apply W; simpl; auto|]. apply find_key_app_none. split; auto. intro E. apply (Nk o eq_refl). auto.
  Qed.

  (** conversely *)
  Lemma rel_check items : forall F, rel F items -> subs (fun stk T sels => sels_ok S doc vars [] stk T sels) F items ->
    exists F' uv uf, check S doc vars F items F' uv uf.
  Proof.
    induction items as [|i r IH]; intros F R Hs.
    - do 3 eexists. constructor.
    - assert (OTHER : (forall o, i <> IField o) -> exists F' uv uf, check S doc vars F r F' uv uf).
      { intro Ni. apply IH.
        - eapply rel_other; [| |exact R]; auto. intros loc ds ->. eapply rel_dirs; eauto. simpl. auto.
        - intros o ty args sub Hf. apply Hs. apply first_cons. right. split; auto. intros x ->. exfalso. eapply Ni; eauto. }
      destruct i as [o|loc ds|n].
      + clear OTHER. destruct R as [R1 R2 R3 R4 R5]. destruct (R2 o (or_introl eq_refl)) as (U & ty & args & Hfo).
        destruct (find_key_in (oc_key o) F) as [o1|] eqn:Ek.
        * destruct (IH F) as (F' & uv & uf & HK).
          -- constructor.
             ++ intros loc ds H. apply R1. simpl. auto.
             ++ intros x H. apply R2. simpl. auto.
             ++ intros x t a Hf Hk. apply R3; auto. apply first_cons. right. split; auto. intros y E. inversion E. subst y. intro E'. rewrite E' in Ek. congruence.
             ++ intros x x1 H. apply R4. simpl. auto.
             ++ intros x x' Hp Hk. apply R5; auto. apply pair_cons. right. split; auto. intros y E. inversion E. subst y. intro E'. rewrite E' in Ek. congruence.
          -- intros x t a s Hf Hk. apply Hs; auto. apply first_cons. right. split; auto. intros y E. inversion E. subst y. intro E'. rewrite E' in Ek. congruence.
          -- exists F', uv, uf. apply k_dup with (o1 := o1) (ty := ty) (args := args); auto. apply R4; simpl; auto.
        * destruct (IH (F ++ [o])) as (F' & uv & uf & HK).
          -- constructor.
             ++ intros loc ds H. apply R1. simpl. auto.
             ++ intros x H. apply R2. simpl. auto.
             ++ intros x t a Hf Hk. apply find_key_app_none in Hk. destruct Hk as (Hk & Nk). apply R3; auto. apply first_cons. right. split; auto.
                intros y E. inversion E. subst y. congruence.
             ++ intros x x1 H Hk. apply find_key_app_inv in Hk. destruct Hk as [Hk|(Hk & Ex & ->)].
                ** apply R4; auto. simpl. auto.
                ** apply R5; auto. apply pair_cons. left. auto.
             ++ intros x x' Hp Hk. apply find_key_app_none in Hk. destruct Hk as (Hk & Nk). apply R5; auto. apply pair_cons. right. split; auto.
                intros y E. inversion E. subst y. congruence.
          -- intros x t a s Hf Hk. apply find_key_app_none in Hk. destruct Hk as (Hk & Nk). apply Hs; auto. apply first_cons. right. split; auto.
             intros y E. inversion E. subst y. congruence.
          -- assert (Hff : first_field (IField o :: r) o) by (apply first_cons; auto).
             destruct (R3 o ty args Hff Ek Hfo) as (HA & HCS).
             destruct (oc_sub o) as [sub|] eqn:Es.
             ++ destruct (Hs o ty args sub Hff Ek Hfo Es) as (items & F1 & u1 & f1 & HC1 & HK1).
                exists F', (args_vars S args (oc_args o) ++ u1 ++ uv), (f1 ++ uf).
                apply k_sub with (ty := ty) (sub := sub) (items := items) (F1 := F1); auto.
             ++ exists F', (args_vars S args (oc_args o) ++ uv), uf. apply k_leaf with (ty := ty); auto. tauto.
      + destruct OTHER as (F' & uv & uf & H); [discriminate|]. exists F', (dirs_vars S ds ++ uv), uf. constructor; auto. eapply rel_dirs; eauto. simpl. auto.
      + destruct OTHER as (F' & uv & uf & H); [discriminate|]. exists F', uv, (n :: uf). constructor; auto.
  Qed.

  Lemma scope_sels stk T sels : scope_ok S doc vars stk T sels -> sels_ok S doc vars [] stk T sels.
  Proof.
    induction 1 as [stk T sels items HC H1 H2 H3 H4 IH H5].
    destruct (rel_check items []) as (F' & uv & uf & HK).
    - constructor; auto.
      + intros o o1 _ H. discriminate.
      + intros o o' (pre & mid & post & E & Hp) _ Hk. eapply H5; eauto.
    - intros o ty args sub Hf _ Hfo Hs. eapply IH; eauto.
    - do 4 eexists. eauto.
  Qed.
  Theorem scope_ok_iff stk T sels : Forall sel_wf sels -> (sels_ok S doc vars [] stk T sels <-> scope_ok S doc vars stk T sels).
  Proof.
    intro W. split; [|apply scope_sels]. intros (items & F' & uv & uf & HC & HK).
    pose proof (collect_wf _ _ _ _ HC W) as W'. eapply rel_scope; eauto; [eapply check_rel; eauto|eapply check_subs; eauto].
  Qed.

  (** ** The variables and the spreads that are met *)
  Definition uses (F : list occurrence) (items : list item) (v : string) : Prop :=
    (exists loc ds, In (IDirs loc ds) items /\ In v (dirs_vars S ds)) \/
    (exists o ty args, first_field items o /\ find_key_in (oc_key o) F = None /\ field_of S (oc_parent o) (oc_name o) ty args /\
       (In v (args_vars S args (oc_args o)) \/ exists sub, oc_sub o = Some sub /\ scope_uses S doc (oc_stack o) (named_type ty) sub v)).
  Definition spreads (F : list occurrence) (items : list item) (n : string) : Prop :=
    In (ISpread n) items \/
    (exists o ty args sub, first_field items o /\ find_key_in (oc_key o) F = None /\ field_of S (oc_parent o) (oc_name o) ty args /\
       oc_sub o = Some sub /\ scope_spreads S doc (oc_stack o) (named_type ty) sub n).
  Lemma scope_uses_iff stk T sels items v : collect S doc stk T sels items -> (scope_uses S doc stk T sels v <-> uses [] items v).
  Proof.
    intro HC. split.
    - intro H. destruct H as [i loc ds H1 H2 H3|i o ty args H1 H2 H3 H4|i o ty args sub H1 H2 H3 H4 H5]; rewrite <- (collect_fun _ _ _ _ _ _ HC _ H1) in *.
      + left. eauto.
      + right. exists o, ty, args. auto.
      + right. exists o, ty, args. split; auto. split; auto. split; auto. right. eauto.
    - intros [(loc & ds & H1 & H2)|(o & ty & args & H1 & _ & H2 & [H3|(sub & H3 & H4)])].
      + eapply uses_dirs; eauto.
      + eapply uses_args; eauto.
      + eapply uses_sub; eauto.
  Qed.
  Lemma scope_spreads_iff stk T sels items n : collect S doc stk T sels items -> (scope_spreads S doc stk T sels n <-> spreads [] items n).
  Proof.
    intro HC. split.
    - intro H. destruct H as [i H1 H2|i o ty args sub H1 H2 H3 H4 H5]; rewrite <- (collect_fun _ _ _ _ _ _ HC _ H1) in *.
      + left. auto.
      + right. exists o, ty, args, sub. auto.
    - intros [H1|(o & ty & args & sub & H1 & _ & H2 & H3 & H4)].
      + eapply spreads_here; eauto.
      + eapply spreads_sub; eauto.
  Qed.

  Lemma check_uses F items F' uv uf : check S doc vars F items F' uv uf -> forall v, In v uv <-> uses F items v.
  Proof.
    induction 1 as [F|F loc ds r F' uv uf Hd H IH|F n r F' uv uf H IH|F o o1 ty args r F' uv uf H1 H2 H3 H4 H IH|
                    F o ty args r F' uv uf H1 H2 H3 H4 H5 H6 H IH|F o ty args sub items F1 u1 f1 r F' uv uf H1 H2 H3 H4 H5 H6 H7 IH7 H IH]; intro v.
    - split; [intros []|]. intros [(l & d & [] & _)|(o & ty & args & Hf & _)]. eapply first_nil; eauto.
    - rewrite in_app_iff, IH. unfold uses. split.
      + intros [G|[(l & d & G1 & G2)|(x & t & a & G1 & G2)]].
        * left. exists loc, ds. simpl. auto.
        * left. exists l, d. simpl. auto.
        * right. exists x, t, a. split; auto. apply first_cons. right. split; auto. discriminate.
      + intros [(l & d & [E|G1] & G2)|(x & t & a & G1 & G2)].
        * inversion E. subst. auto.
        * right. left. eauto.
        * apply first_cons in G1. destruct G1 as [E|(G1 & _)]; [discriminate|]. right. right. eauto.
    - rewrite IH. unfold uses. split.
      + intros [(l & d & G1 & G2)|(x & t & a & G1 & G2)].
        * left. exists l, d. simpl. auto.
        * right. exists x, t, a. split; auto. apply first_cons. right. split; auto. discriminate.
      + intros [(l & d & [E|G1] & G2)|(x & t & a & G1 & G2)]; [discriminate|left; eauto|].
        apply first_cons in G1. destruct G1 as [E|(G1 & _)]; [discriminate|]. right. eauto.
    - rewrite IH. unfold uses. split.
      + intros [(l & d & G1 & G2)|(x & t & a & G1 & G2 & G3)].
        * left. exists l, d. simpl. auto.
        * right. exists x, t, a. split; auto. apply first_cons. right. split; auto. intros y E. inversion E. subst y. intro E'. rewrite E' in *. congruence.
      + intros [(l & d & [E|G1] & G2)|(x & t & a & G1 & G2 & G3)]; [discriminate|left; eauto|].
        apply first_cons in G1. destruct G1 as [E|(G1 & _)]; [inversion E; subst; congruence|]. right. exists x, t, a. auto.
    - rewrite in_app_iff, IH. unfold uses. split.
      + intros [G|[(l & d & G1 & G2)|(x & t & a & G1 & G2 & G3)]].
        * right. exists o, ty, args. split; [apply first_cons; auto|]. auto.
        * left. exists l, d. simpl. auto.
        * right. apply find_key_app_none in G2. destruct G2 as (G2 & Nk). exists x, t, a. split; auto. apply first_cons. right. split; auto.
          intros y E. inversion E. subst y. congruence.
      + intros [(l & d & [E|G1] & G2)|(x & t & a & G1 & G2 & G3 & G4)]; [discriminate|right; left; eauto|].
        apply first_cons in G1. destruct G1 as [E|(G1 & Nk)].
        * inversion E. subst x. destruct (field_of_fun S WF _ _ _ _ _ _ H3 G3) as (<- & <-). destruct G4 as [G4|(s & G4 & _)]; [auto|congruence].
        * right. right. exists x, t, a. split; auto. split; auto. apply find_key_app_none. split; auto. intro E. apply (Nk o eq_refl). auto.
    - rewrite !in_app_iff, IH, IH7, <- (scope_uses_iff _ _ _ _ v H6). unfold uses at 1. split.
      + intros [G|[G|[(l & d & G1 & G2)|(x & t & a & G1 & G2 & G3)]]].
        * right. exists o, ty, args. split; [apply first_cons; auto|]. auto.
        * right. exists o, ty, args. split; [apply first_cons; auto|]. split; auto. split; auto. right. eauto.
        * left. exists l, d. simpl. auto.
        * right. apply find_key_app_none in G2. destruct G2 as (G2 & Nk). exists x, t, a. split; auto. apply first_cons. right. split; auto.
          intros y E. inversion E. subst y. congruence.
      + intros [(l & d & [E|G1] & G2)|(x & t & a & G1 & G2 & G3 & G4)]; [discriminate|right; right; left; eauto|].
        apply first_cons in G1. destruct G1 as [E|(G1 & Nk)].
        * inversion E. subst x. destruct (field_of_fun S WF _ _ _ _ _ _ H3 G3) as (<- & <-). destruct G4 as [G4|(s & G4 & G5)]; [auto|].
          rewrite H5 in G4. inversion G4. subst. auto.
        * right. right. right. exists x, t, a. split; auto. split; auto. apply find_key_app_none. split; auto. intro E. apply (Nk o eq_refl). auto.
  Qed.

  Lemma check_spreads F items F' uv uf : check S doc vars F items F' uv uf -> forall n, In n uf <-> spreads F items n.
  Proof.
    induction 1 as [F|F loc ds r F' uv uf Hd H IH|F n r F' uv uf H IH|F o o1 ty args r F' uv uf H1 H2 H3 H4 H IH|
                    F o ty args r F' uv uf H1 H2 H3 H4 H5 H6 H IH|F o ty args sub items F1 u1 f1 r F' uv uf H1 H2 H3 H4 H5 H6 H7 IH7 H IH]; intro v.
    - split; [intros []|]. intros [[]|(o & ty & args & s & Hf & _)]. eapply first_nil; eauto.
    - rewrite IH. unfold spreads. split.
      + intros [G|(x & t & a & s & G1 & G2)]; [left; simpl; auto|]. right. exists x, t, a, s. split; auto. apply first_cons. right. split; auto. discriminate.
      + intros [[E|G]|(x & t & a & s & G1 & G2)]; [discriminate|auto|]. apply first_cons in G1. destruct G1 as [E|(G1 & _)]; [discriminate|]. right. exists x, t, a, s. auto.
    - simpl. rewrite IH. unfold spreads. split.
      + intros [->|[G|(x & t & a & s & G1 & G2)]]; [left; simpl; auto|left; simpl; auto|]. right. exists x, t, a, s. split; auto. apply first_cons. right. split; auto. discriminate.
      + intros [[E|G]|(x & t & a & s & G1 & G2)]; [inversion E; auto|auto|]. apply first_cons in G1. destruct G1 as [E|(G1 & _)]; [discriminate|]. right. right. exists x, t, a, s. auto.
    - rewrite IH. unfold spreads. split.
      + intros [G|(x & t & a & s & G1 & G2 & G3)]; [left; simpl; auto|]. right. exists x, t, a, s. split; auto. apply first_cons. right. split; auto.
        intros y E. inversion E. subst y. intro E'. rewrite E' in *. congruence.
      + intros [[E|G]|(x & t & a & s & G1 & G2 & G3)]; [discriminate|auto|]. apply first_cons in G1. destruct G1 as [E|(G1 & _)]; [inversion E; subst; congruence|]. right. exists x, t, a, s. auto.
    - rewrite IH. unfold spreads. split.
      + intros [G|(x & t & a & s & G1 & G2 & G3)]; [left; simpl; auto|]. apply find_key_app_none in G2. destruct G2 as (G2 & Nk).
        right. exists x, t, a, s. split; auto. apply first_cons. right. split; auto. intros y E. inversion E. subst y. congruence.
      + intros [[E|G]|(x & t & a & s & G1 & G2 & G3)]; [discriminate|auto|]. apply first_cons in G1. destruct G1 as [E|(G1 & Nk)].
        * inversion E. subst x. destruct G3 as (_ & G3 & _). congruence.
        * right. exists x, t, a, s. split; auto. split; auto. apply find_key_app_none. split; auto. intro E. apply (Nk o eq_refl). auto.
    - rewrite in_app_iff, IH, IH7, <- (scope_spreads_iff _ _ _ _ v H6). unfold spreads. split.
      + intros [G|[G|(x & t & a & s & G1 & G2 & G3)]].
        * right. exists o, ty, args, sub. split; [apply first_cons; auto|]. auto.
        * left. simpl. auto.
        * apply find_key_app_none in G2. destruct G2 as (G2 & Nk). right. exists x, t, a, s. split; auto. apply first_cons. right. split; auto. intros y E. inversion E. subst y. congruence.
      + intros [[E|G]|(x & t & a & s & G1 & G2 & G3 & G4 & G5)]; [discriminate|auto|]. apply first_cons in G1. destruct G1 as [E|(G1 & Nk)].
        * inversion E. subst x. destruct (field_of_fun S WF _ _ _ _ _ _ H3 G3) as (<- & <-). rewrite H5 in G4. inversion G4. subst. auto.
        * right. right. exists x, t, a, s. split; auto. split; [|auto]. apply find_key_app_none. split; auto. intro E. apply (Nk o eq_refl). auto.
  Qed.
  (** the first fields: one for each key *)
  Lemma check_keys F items F' uv uf : check S doc vars F items F' uv uf ->
    NoDup (map oc_key F) -> NoDup (map oc_key F') /\ forall k, In k (map oc_key F') <-> In k (map oc_key F) \/ exists o, In (IField o) items /\ oc_key o = k.
  Proof.
    assert (NK : forall k F, find_key_in k F = None <-> ~ In k (map oc_key F)) by (intros; apply (find_none_key oc_key)).
    assert (SK : forall k F o, find_key_in k F = Some o -> In k (map oc_key F)).
    { intros k G o H. destruct (in_dec string_dec k (map oc_key G)) as [|N]; auto. apply NK in N. congruence. }
    induction 1 as [F|F loc ds r F' uv uf Hd H IH|F n r F' uv uf H IH|F o o1 ty args r F' uv uf H1 H2 H3 H4 H IH|
                    F o ty args r F' uv uf H1 H2 H3 H4 H5 H6 H IH|F o ty args sub items F1 u1 f1 r F' uv uf H1 H2 H3 H4 H5 H6 H7 IH7 H IH]; intro N.
    - split; auto. intro k. split; auto. intros [G|(x & [] & _)]; auto.
    - destruct (IH N) as (N' & G). split; auto. intro k. rewrite G. split; (intros [A|(x & A & B)]; [auto|]).
      + right. exists x. simpl. auto.
      + destruct A as [A|A]; [discriminate|]. right. eauto.
    - destruct (IH N) as (N' & G). split; auto. intro k. rewrite G. split; (intros [A|(x & A & B)]; [auto|]).
      + right. exists x. simpl. auto.
      + destruct A as [A|A]; [discriminate|]. right. eauto.
    - destruct (IH N) as (N' & G). split; auto. intro k. rewrite G. split; (intros [A|(x & A & B)]; [auto|]).
      + right. exists x. simpl. auto.
      + destruct A as [A|A]; [inversion A; subst; left; eapply SK; eauto|]. right. eauto.
    - assert (N1 : NoDup (map oc_key (F ++ [o]))).
      { rewrite map_app. simpl. apply NK in H1. eapply Permutation.Permutation_NoDup; [apply Permutation.Permutation_cons_append|]. constructor; auto. }
      destruct (IH N1) as (N' & G). split; auto. intro k. rewrite G, map_app, in_app_iff. simpl. split.
      + intros [[A|[A|[]]]|(x & A & B)]; [auto|right; exists o; auto|right; exists x; auto].
      + intros [A|(x & [A|A] & B)]; [auto|inversion A; subst; auto|right; eauto].
    - assert (N1 : NoDup (map oc_key (F ++ [o]))).
      { rewrite map_app. simpl. apply NK in H1. eapply Permutation.Permutation_NoDup; [apply Permutation.Permutation_cons_append|]. constructor; auto. }
      destruct (IH N1) as (N' & G). split; auto. intro k. rewrite G, map_app, in_app_iff. simpl. split.
      + intros [[A|[A|[]]]|(x & A & B)]; [auto|right; exists o; auto|right; exists x; auto].
      + intros [A|(x & [A|A] & B)]; [auto|inversion A; subst; auto|right; eauto].
  Qed.
End Scope.
