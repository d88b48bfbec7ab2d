(** Selection sets in which a response key is used again. Validation (Validation.cpp:1531-1752 visitField) compares such a field with the first of its key and leaves it at that:
    "We already validated this field". What has to hold of the other fields is written down here; C25, C26, C50 and what is built on them need no more. *)
From Verif Require Import Cpp Value Ast SchemaModel.
From Verif Require Import ValidationModel ValidationSpec ValidationValues ValidationFields ValidationCheck ValidationSelections ValidationScope
  ValidationDocument ValidationHistory2 ValidationUse.
From Verif Require Layout.
From Coq Require Import List.
Local Open Scope string_scope.
Local Open Scope list_scope.

Section Repeats.
  Variable S : schema.
  Variable doc : document.
  Variable vars : option (list variable_def).

  (** A field [o'] with the response key of the first field [o]: its parent type is that of [o], or its arguments are right by themselves; it has a sub-selection exactly if its type is
      composite; and its sub-selection satisfies the rules. Likewise in all selection sets below. *)
  Inductive repeats_ok (stk : list string) (T : string) (sels : list selection) : Prop :=
  | repeats_intro items :
      collect S doc stk T sels items ->
      (forall pre o mid o' post ty args, items = pre ++ IField o :: mid ++ IField o' :: post -> (forall x, In (IField x) pre -> oc_key x <> oc_key o) -> oc_key o' = oc_key o ->
         field_of S (oc_parent o') (oc_name o') ty args ->
         (oc_parent o' = oc_parent o \/ arguments_ok S vars args (oc_args o')) /\ (composite S (named_type ty) <-> oc_sub o' <> None) /\
         forall sub, oc_sub o' = Some sub -> scope_ok S doc vars (oc_stack o') (named_type ty) sub) ->
      (forall o ty args sub, In (IField o) items -> field_of S (oc_parent o) (oc_name o) ty args -> oc_sub o = Some sub -> repeats_ok (oc_stack o) (named_type ty) sub) ->
      repeats_ok stk T sels.

  (** Selection sets all of whose fields, not only the first of each response key, satisfy the rules. *)
  Inductive thorough (stk : list string) (T : string) (sels : list selection) : Prop :=
  | thorough_intro items :
      collect S doc stk T sels items ->
      (forall loc ds, In (IDirs loc ds) items -> directives_ok S vars loc ds) ->
      (forall o, In (IField o) items -> arguments_unique (oc_args o) /\ exists ty args, field_of S (oc_parent o) (oc_name o) ty args) ->
      (forall o ty args, In (IField o) items -> field_of S (oc_parent o) (oc_name o) ty args -> arguments_ok S vars args (oc_args o) /\ (composite S (named_type ty) <-> oc_sub o <> None)) ->
      (forall o ty args sub, In (IField o) items -> field_of S (oc_parent o) (oc_name o) ty args -> oc_sub o = Some sub -> thorough (oc_stack o) (named_type ty) sub) ->
      thorough stk T sels.

  (** ** The same arguments are as right *)
  Lemma named_same {A} (fs gs : list (schema_location * (string * A))) (R : A -> A -> Prop) : NoDup (map (fun f => fst (snd f)) fs) -> NoDup (map (fun f => fst (snd f)) gs) -> length fs = length gs ->
    (forall fp k x, In (fp, (k, x)) fs -> exists gp y, In (gp, (k, y)) gs /\ R x y) ->
    forall gp k y, In (gp, (k, y)) gs -> exists fp x, In (fp, (k, x)) fs /\ R x y.
  Proof.
    intros N1 N2 L H gp k y Hy.
    assert (I : incl (map (fun f => fst (snd f)) fs) (map (fun f => fst (snd f)) gs)).
    { intros n Hn. apply in_map_iff in Hn as ([fp [k' x]] & E & I). cbn in E. subst k'. destruct (H _ _ _ I) as (gp' & y' & I' & _). apply in_map_iff. exists (gp', (n, y')). auto. }
    assert (J : In k (map (fun f => fst (snd f)) fs)).
    { refine (NoDup_length_incl N1 _ I _ _); [rewrite !map_length, L; apply le_n|]. apply in_map_iff. exists (gp, (k, y)). auto. }
    apply in_map_iff in J as ([fp [k' x]] & E & Hx). cbn in E. subst k'. destruct (H _ _ _ Hx) as (gp' & y' & Hy' & HR). exists fp, x. split; [exact Hx|].
    assert (EQ : (gp, (k, y)) = (gp', (k, y'))).
    { clear - N2 Hy Hy'. induction gs as [|g gs IH]; [destruct Hy|]. cbn in N2. inversion N2 as [|? ? X Y]; subst. destruct Hy as [->|Hy], Hy' as [E|Hy']; auto.
      - exfalso. apply X. apply in_map_iff. exists (gp', (k, y')). auto.
      - subst g. exfalso. apply X. apply in_map_iff. exists (gp, (k, y)). auto. }
    injection EQ as _ ->. exact HR.
  Qed.
  Lemma same_not_null x y : same_value x y -> (forall p, x <> LNull p) -> forall p, y <> LNull p.
  Proof. intros H N p E. subst y. inversion H; subst. eapply N. reflexivity. Qed.
  Lemma same_not_var x y : same_value x y -> (forall p n, x <> LVar p n) -> forall p n, y <> LVar p n.
  Proof. intros H N p n E. subst y. inversion H; subst. eapply N. reflexivity. Qed.
  Ltac leaf_same t IHt := match goal with V : value_ok _ _ _ _ _, SV : same_value _ _ |- _ => inversion SV; subst; inversion V; subst; try congruence end;
    first [solve [now apply ok_any_var]|solve [eapply ok_var; eauto]|solve [now apply ok_null]|solve [now apply ok_int]|solve [now apply ok_float]|solve [now apply ok_float_int]|solve [now apply ok_string]
      |solve [eapply ok_id; eauto]|solve [now apply ok_boolean]|solve [eapply ok_enum; eauto]|solve [apply ok_custom; auto; discriminate]|apply ok_nonnull; [discriminate|discriminate|eapply IHt; eauto]].
  Lemma value_same x : forall t d y, value_ok S vars d t x -> same_value x y -> unique_fields x -> unique_fields y -> value_ok S vars d t y.
  Proof.
    induction x as [p n|p z|p f|p s|p b|p|p s|p items IHx|p fields IHx] using lit_ind'; intros t; induction t as [n'|t' IHt|t' IHt]; intros d y V SV U1 U2.
    all: try (leaf_same t IHt; fail).
    - inversion SV as [| | | | | | |p' q xs ys F2|]; subst. inversion V as [| | | |d1 t1 p1 i1 VI| | | | | | | | |]; subst. apply ok_list.
      inversion U1 as [p2 i2 X1| |l1 X1 _]; subst; [|exfalso; eapply X1; reflexivity]. inversion U2 as [p3 i3 X2| |l2 X2 _]; subst; [|exfalso; eapply X2; reflexivity].
      clear - F2 IHx X1 X2 VI. induction F2 as [|x y xs ys E F2 IH2]; intros z Hz; [destruct Hz|]. inversion X1; inversion X2; inversion IHx; subst. destruct Hz as [<-|Hz].
      + eauto using in_eq.
      + apply IH2; auto. intros w Hw. apply VI. right. exact Hw.
    - inversion SV as [| | | | | | | |p' q fs gs L H]; subst. inversion V as [| | | | | | | | | | | |d1 n1 l1 K B N1 N2|d1 n1 p1 f1 td F K VF R]; subst; [apply ok_custom; auto; discriminate|].
      inversion U1 as [|p2 i2 D1 X1|l1 _ X1]; subst; [|exfalso; eapply X1; reflexivity]. inversion U2 as [|p3 i3 D2 X2|l2 _ X2]; subst; [|exfalso; eapply X2; reflexivity].
      apply (ok_object S vars d n' q gs td F K).
      + intros gp k y Hy. destruct (named_same fields gs (fun a b => same_value a b) D1 D2 L H gp k y Hy) as (fp & x & Hx & E). destruct (VF fp k x Hx) as (a & Ia & En & C). exists a. split; [exact Ia|]. split; [exact En|].
        destruct C as [(Hd & q' & ->)|C]; [left; split; [exact Hd|]; inversion E; subst; eauto|right].
        rewrite Forall_forall in X1, X2, IHx. exact (IHx _ Hx _ _ y C E (X1 _ Hx) (X2 _ Hy)).
      + intros a Ia Ra. specialize (R a Ia Ra). apply in_map_iff in R as ([fp [k x]] & Ek & Hx). cbn in Ek. destruct (H _ _ _ Hx) as (gp & y & Hy & _). apply in_map_iff. exists (gp, (k, y)). auto.
  Qed.
  Lemma arguments_same decl xs ys : arguments_ok S vars decl xs -> same_args xs ys -> arguments_unique xs -> arguments_unique ys -> arguments_ok S vars decl ys.
  Proof.
    intros [A R] [L SA] [N1 U1] [N2 U2]. rewrite Forall_forall in U1, U2. split.
    - intros [gp [k y]] Hy. destruct (named_same xs ys (fun a b => same_value a b)) with (gp := gp) (k := k) (y := y) as (fp & x & Hx & E).
      + exact N1. + exact N2. + exact L.
      + intros fp k' x Hx. destruct (SA _ Hx) as ([gp' [k2 y']] & Hy' & En & E). cbn in En. subst k2. eauto.
      + exact Hy.
      + destruct (A _ Hx) as (a & Ia & En & C). exists a. split; [exact Ia|]. split; [exact En|]. destruct C as [(Hd & p & Ep)|C].
        * left. split; [exact Hd|]. cbn in Ep. subst x. inversion E; subst. cbn. eauto.
        * right. exact (value_same _ _ _ _ C E (U1 _ Hx) (U2 _ Hy)).
    - intros a Ia Ra. specialize (R a Ia Ra). apply in_map_iff in R as (x & En & Hx). destruct (SA x Hx) as (y & Hy & E & _). apply in_map_iff. exists y. split; [congruence|exact Hy].
  Qed.

  (** ** Every field satisfies the rules *)
  Lemma first_or items : forall o', In (IField o') items -> first_field items o' \/ exists pre o mid post, items = pre ++ IField o :: mid ++ IField o' :: post /\ (forall x, In (IField x) pre -> oc_key x <> oc_key o) /\ oc_key o' = oc_key o.
  Proof.
    intros o' H. apply in_split in H as (l1 & l2 & ->).
    assert (D : (forall x, In (IField x) l1 -> oc_key x <> oc_key o') \/ exists pre o mid, l1 = pre ++ IField o :: mid /\ (forall x, In (IField x) pre -> oc_key x <> oc_key o') /\ oc_key o = oc_key o').
    { clear l2. induction l1 as [|i l1 IH]; [left; intros x []|]. destruct i as [o| |].
      - destruct (string_dec (oc_key o) (oc_key o')) as [E|N]; [right; exists [], o, l1; split; [reflexivity|]; split; [intros x []|exact E]|].
        destruct IH as [IH|(pre & o1 & mid & -> & P & E)]; [left; intros x [X|X]; [injection X as <-; exact N|auto]|right]. exists (IField o :: pre), o1, mid. split; [reflexivity|]. split; [intros x [X|X]; [injection X as <-; exact N|auto]|exact E].
      - destruct IH as [IH|(pre & o1 & mid & -> & P & E)]; [left; intros x [X|X]; [discriminate|auto]|right]. eexists (_ :: pre), o1, mid. split; [reflexivity|]. split; [intros x [X|X]; [discriminate|auto]|exact E].
      - destruct IH as [IH|(pre & o1 & mid & -> & P & E)]; [left; intros x [X|X]; [discriminate|auto]|right]. eexists (_ :: pre), o1, mid. split; [reflexivity|]. split; [intros x [X|X]; [discriminate|auto]|exact E]. }
    destruct D as [D|(pre & o & mid & -> & P & E)]; [left; exists l1, l2; split; [reflexivity|exact D]|right].
    exists pre, o, mid, l2. split; [rewrite <- app_assoc; reflexivity|]. split; [intros x Hx; rewrite E; auto|auto].
  Qed.
  Hypothesis WF : schema_wf S.
  Lemma repeats_thorough stk T sels : repeats_ok stk T sels -> scope_ok S doc vars stk T sels -> thorough stk T sels.
  Proof.
    induction 1 as [stk T sels items C R RB IH]. intros H. inversion H as [items' C' HD H1 H2 H3 H4]. rewrite <- (collect_fun S doc _ _ _ _ C _ C') in *. clear items' C'.
    apply (thorough_intro stk T sels items C HD H1).
    - intros o' ty args Io Hf. destruct (first_or items o' Io) as [F|(pre & o & mid & post & E & P & K)]; [exact (H2 o' ty args F Hf)|].
      destruct (R pre o mid o' post ty args E P K Hf) as (A & CS & _). split; [|exact CS]. destruct A as [A|A]; [|exact A].
      assert (Io1 : In (IField o) items) by (rewrite E; apply in_or_app; right; left; reflexivity).
      assert (F : first_field items o) by (exists pre, (mid ++ IField o' :: post); auto).
      destruct (H4 o o' pre mid post E P K) as (ty1 & a1 & ty2 & a2 & F1 & F2 & _ & [(_ & _ & N)|(En & SA)]); [congruence|].
      destruct (H1 o Io1) as (U & _). destruct (H1 o' Io) as (U' & _). destruct (H2 o ty1 a1 F F1) as (OK & _).
      rewrite A, <- En in F2. destruct (field_of_fun S WF _ _ _ _ _ _ F1 F2) as [<- <-]. rewrite A, <- En in Hf. destruct (field_of_fun S WF _ _ _ _ _ _ F1 Hf) as [<- <-].
      exact (arguments_same _ _ _ OK SA U U').
    - intros o' ty args sub Io Hf Es. apply (IH o' ty args sub Io Hf Es). destruct (first_or items o' Io) as [F|(pre & o & mid & post & E & P & K)]; [exact (H3 o' ty args sub F Hf Es)|].
      destruct (R pre o mid o' post ty args E P K Hf) as (_ & _ & X). exact (X sub Es).
  Qed.
  Lemma thorough_below stk T sels stk' T' sels' : below S doc any stk T sels stk' T' sels' -> thorough stk T sels -> thorough stk' T' sels'.
  Proof.
    induction 1 as [|stk T sels items o ty args sub stk' T' sels' C I F Ho Hs B IH]; auto. intros H. apply IH. inversion H as [items' C' _ _ _ X]. rewrite <- (collect_fun S doc _ _ _ _ C _ C') in *. eapply X; eauto.
  Qed.
  Lemma thorough_expands stk T sels : thorough stk T sels -> forall s, In s sels -> expands doc stk s.
  Proof.
    induction 1 as [stk T sels items C _ F1 _ _ IH]. intros s I. eapply collect_expands; eauto. intros o sub Io Eo. destruct (F1 o Io) as (_ & ty & args & Hf). eapply IH; eauto.
  Qed.
  (** Two fields of one response key have the same type. *)
  Lemma first_same items o o' : first_field items o -> first_field items o' -> oc_key o = oc_key o' -> o = o'.
  Proof.
    intros (p1 & q1 & E1 & H1) (p2 & q2 & E2 & H2) K. subst items. revert p2 E2 H1 H2. induction p1 as [|i p1 IH]; intros p2 E2 H1 H2; destruct p2 as [|j p2]; cbn in E2.
    - injection E2 as ->. reflexivity.
    - injection E2 as <- _. exfalso. apply (H2 o (or_introl eq_refl)). exact K.
    - injection E2 as -> _. exfalso. apply (H1 o' (or_introl eq_refl)). auto.
    - injection E2 as <- E2. apply (IH p2 E2); intros x Hx; [apply H1|apply H2]; right; exact Hx.
  Qed.
  Lemma same_key_type stk T sels items : scope_ok S doc vars stk T sels -> collect S doc stk T sels items -> forall o o', In (IField o) items -> In (IField o') items -> oc_key o = oc_key o' ->
    exists ty args args', field_of S (oc_parent o) (oc_name o) ty args /\ field_of S (oc_parent o') (oc_name o') ty args'.
  Proof.
    intros H C. inversion H as [items' C' HD H1 H2 H3 H4]. rewrite <- (collect_fun S doc _ _ _ _ C _ C') in *. clear items' C'.
    assert (G : forall o, In (IField o) items -> exists f, first_field items f /\ oc_key f = oc_key o /\ exists ty args args', field_of S (oc_parent f) (oc_name f) ty args /\ field_of S (oc_parent o) (oc_name o) ty args').
    { intros o Io. destruct (first_or items o Io) as [F|(pre & f & mid & post & E & P & K)].
      - exists o. split; [exact F|]. split; [reflexivity|]. destruct (H1 o Io) as (_ & ty & args & Hf). exists ty, args, args. auto.
      - exists f. split; [exists pre, (mid ++ IField o :: post); auto|]. split; [auto|]. destruct (H4 f o pre mid post E P K) as (ty & a & ty' & a' & F1 & F2 & <- & _). exists ty, a, a'. auto. }
    intros o o' Io Io' K. destruct (G o Io) as (f & F & Kf & ty & a & a1 & F1 & F2). destruct (G o' Io') as (f' & F' & Kf' & ty' & b & b1 & F1' & F2').
    assert (f = f') by (apply (first_same items); auto; congruence). subst f'. destruct (field_of_fun S WF _ _ _ _ _ _ F1 F1') as [<- <-]. exists ty, a1, b1. auto.
  Qed.
  Lemma thorough_scope stk T sels : repeats_ok stk T sels -> scope_ok S doc vars stk T sels -> forall items, collect S doc stk T sels items -> forall o ty args sub, In (IField o) items ->
    field_of S (oc_parent o) (oc_name o) ty args -> oc_sub o = Some sub -> repeats_ok (oc_stack o) (named_type ty) sub /\ scope_ok S doc vars (oc_stack o) (named_type ty) sub.
  Proof.
    intros R H items C o ty args sub Io Hf Es. inversion R as [i1 C1 R1 RB]. rewrite <- (collect_fun S doc _ _ _ _ C _ C1) in *. inversion H as [i2 C2 HD H1 H2 H3 H4]. rewrite <- (collect_fun S doc _ _ _ _ C _ C2) in *.
    split; [exact (RB o ty args sub Io Hf Es)|]. destruct (first_or items o Io) as [F|(pre & f & mid & post & E & P & K)]; [exact (H3 o ty args sub F Hf Es)|]. destruct (R1 pre f mid o post ty args E P K Hf) as (_ & _ & X). exact (X sub Es).
  Qed.
  (** Fields of one response key have the same sub-selection; where it is in the text does not matter. *)
  Definition same_selections (a b : option (list selection)) : Prop := option_map (Layout.strip_sels (fun s => s)) a = option_map (Layout.strip_sels (fun s => s)) b.
  Definition consistent_below (stk : list string) (T : string) (sels : list selection) : Prop :=
    forall stk' T' sels' items, below S doc any stk T sels stk' T' sels' -> collect S doc stk' T' sels' items ->
      forall o o', In (IField o) items -> In (IField o') items -> oc_key o = oc_key o' -> same_selections (oc_sub o) (oc_sub o').
  Lemma distinct_consistent stk T sels : distinct_below S doc stk T sels -> consistent_below stk T sels.
  Proof.
    intros D stk' T' sels' items B C o o' Io Io' K. assert (N := D _ _ _ _ B C). unfold same_selections. do 2 f_equal. apply (first_same items); auto; apply distinct_first; auto.
  Qed.
  (** No repetition, no condition. *)
  Lemma distinct_repeats stk T sels : scope_ok S doc vars stk T sels -> distinct_below S doc stk T sels -> repeats_ok stk T sels.
  Proof.
    induction 1 as [stk T sels items C _ F1 _ _ IH _]. intros D. assert (N : NoDup (keys items)) by (apply (D stk T sels items); [constructor|auto]). apply (repeats_intro stk T sels items C).
    - intros pre o mid o' post ty args E _ K _. exfalso. rewrite E in N. unfold keys in N. rewrite flat_map_app in N. cbn in N. apply NoDup_remove_2 in N. apply N. rewrite flat_map_app. apply in_or_app. right. apply in_or_app. right. rewrite <- K. left. reflexivity.
    - intros o ty args sub Io Hf Es. apply (IH o ty args sub); auto; [apply distinct_first; auto|]. intros stk2 T2 sels2 items2 B2 C2. apply (D stk2 T2 sels2 items2); auto. eapply below_sub; eauto. exact Logic.I.
  Qed.
End Repeats.
