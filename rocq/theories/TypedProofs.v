(** Executing a checked selection set on a typed service goes wrong only in accessors (C50). *)
From Verif Require Import Cpp Value Ast ErrorModel ExecModel ExecSem ExecSpec ExecValues ExecBigSpec ExecProofs4 IntroStandard.
From Verif Require Import SchemaModel ValidationSpec ValidationValues ValidationFields TypedSpec TypedValues.
From Coq Require Import List Lia.
Local Open Scope string_scope.
Local Open Scope list_scope.

Lemma uniform_bound : forall (A : Type) (P : A -> nat -> Prop) (l : list A), (forall x n m, n <= m -> P x n -> P x m) ->
  (forall x, In x l -> exists n, P x n) -> exists n, forall x, In x l -> P x n.
Proof.
  intros A P l M. induction l as [|x l IH]; intro H; [exists 0; intros x []|].
  destruct (H x (or_introl eq_refl)) as [n Hn]. destruct IH as [m Hm]; [intros y Hy; apply H; now right|].
  exists (Nat.max n m). intros y [<-|Hy]; [apply (M x n); [lia|exact Hn]|apply (M y m); [lia|auto]].
Qed.

(** Values of literals have no null scalars if the variables have none. *)
Lemma literal_copied : forall es, copyable es -> forall l v, lit_value es l v -> has_null_scalar v = false.
Proof.
  intros es C l. induction l as [loc n|loc z|loc f|loc s|loc b|loc|loc s|loc ls IH|loc fs IH] using lit_ind'; intros v H; inversion H as [? ? ? E| | | | | | |? ? vs F|? ? kvs F]; subst; try reflexivity.
  - exact (C _ _ E).
  - cbn [has_null_scalar]. clear H. induction F as [|x y ls vs H F IHF]; [reflexivity|]. inversion IH as [|? ? H1 H2]; subst. cbn [existsb]. rewrite (H1 _ H), (IHF H2). reflexivity.
  - assert (G : forall kv, In kv kvs -> has_null_scalar (snd kv) = false).
    { clear H. induction F as [|x y fs kvs (_ & H) F IHF]; [intros kv []|]. inversion IH as [|? ? H1 H2]; subst. intros kv [<-|I]; [exact (H1 _ H)|exact (IHF H2 _ I)]. }
    cbn [has_null_scalar]. destruct (existsb _ _) eqn:E; [|reflexivity]. apply existsb_exists in E as ([k v] & I & E). apply in_firsts in I. rewrite (G _ I) in E. discriminate.
Qed.
Lemma arguments_copied : forall es args avs, copyable es -> args_value es args avs -> has_null_scalar (VMap avs) = false.
Proof.
  intros es args avs C (kvs & F & ->). assert (G : forall kv, In kv kvs -> has_null_scalar (snd kv) = false).
  { intros kv I. induction F as [|x y args kvs (_ & H) F IHF]; [destruct I|]. destruct I as [<-|I]; [exact (literal_copied _ C _ _ H)|exact (IHF I)]. }
  cbn [has_null_scalar]. destruct (existsb _ _) eqn:E; [|reflexivity]. apply existsb_exists in E as ([k v] & I & E). apply in_firsts in I. rewrite (G _ I) in E. discriminate.
Qed.

Section Service.
  Variable S : schema.
  Hypothesis WF : schema_wf S.
  Hypothesis II : interfaces_implemented S.
  Hypothesis CD : conditions_declared S.
  Context {O : Type}.
  Variables (typenames : O -> list string) (has_field : O -> string -> bool) (ans : O -> string -> fparams -> answer O) (otype : O -> string).
  Hypothesis TS : typed_service S typenames has_field ans otype.
  Variable doc : document.
  Variables (vs : list variable_def) (es : entries) (e : env).
  Hypothesis V : variables_fit S vs es.
  Hypothesis CE : copyable es.
  Hypothesis FR : forall n, match find_frag doc n with
                            | Some f => exists fr, find_fragment n (e_frags e) = Some fr /\ fr_type fr = f_cond f /\ fr_sel fr = f_sel f
                            | None => True end.

  Lemma known_present : forall n, In n (map v_name vs) -> lookup n es <> None.
  Proof. intros n Hn. apply in_map_iff in Hn as (v & <- & Iv). destruct (V v Iv) as (x & -> & _). discriminate. Qed.

  Lemma fit_known : forall v, In v vs -> In (v_name v) (map v_name vs) ->
    exists x, lookup (v_name v) es = Some x /\ input_fits S (v_type v) x /\ (var_nonnull_default v = true -> x <> VNull).
  Proof. intros v I _. exact (V v I). Qed.

  Lemma type_is_fun : forall n k k', type_is S n k -> type_is S n k' -> k = k'.
  Proof. intros n k k' (d & H & <-) (d' & H' & <-). rewrite H in H'. injection H' as <-. reflexivity. Qed.
  Lemma leaf_not_composite : forall n, leaf_type S n -> ~ composite S n.
  Proof. intros n [L|L] [C|[C|C]]; pose proof (type_is_fun _ _ _ L C); discriminate. Qed.

  Lemma covers_refl : forall ty args, covers S ty ty args args.
  Proof. intros ty args. split; [tauto|]. split; [auto|]. split; [intros a Ia; exists a; auto|intros a Ia _; exists a; auto]. Qed.

  (** The fields of a type are fields of the objects of the type. *)
  Lemma object_field : forall T ot n ty args, type_is S ot OBJECT -> possible S T ot -> field_of S T n ty args ->
    exists ty' args', field_of S ot n ty' args' /\ covers S ty ty' args args'.
  Proof.
    intros T ot n ty args HO HP HF. destruct HP as [(HT & ->)|(d & d' & Hd & Kd & Io & Hd')].
    - exists ty, args. split; [exact HF|apply covers_refl].
    - inversion HF as [d1 f Hd1 Kd1 If|HC|HI HT|HI HT]; subst.
      + rewrite Hd in Hd1. injection Hd1 as <-. destruct Kd1 as [K1|K1]; [destruct Kd; congruence|].
        destruct (II T d ot d' f Hd K1 Io Hd' If) as (f' & If' & En & C).
        exists (fd_type f'), (fd_args f'). split; [|exact C]. rewrite <- En. destruct HO as (d2 & Hd2 & Kd2). rewrite Hd' in Hd2. injection Hd2 as <-.
        eapply field_declared; eauto.
      + exists (TNonNull (TNamed "String")), []. split; [constructor; now left|apply covers_refl].
      + exfalso. destruct (wf_query _ WF) as (d2 & Hd2 & Kd2). rewrite Hd in Hd2. injection Hd2 as <-. destruct Kd; congruence.
      + exfalso. destruct (wf_query _ WF) as (d2 & Hd2 & Kd2). rewrite Hd in Hd2. injection Hd2 as <-. destruct Kd; congruence.
  Qed.

  Lemma same_name : forall (l : list input_value) a b, NoDup (map iv_name l) -> In a l -> In b l -> iv_name a = iv_name b -> a = b.
  Proof.
    intros l a b. induction l as [|x l IH]; intros ND Ia Ib E; [destruct Ia|]. inversion ND as [|? ? N ND']; subst.
    destruct Ia as [->|Ia]; destruct Ib as [->|Ib]; auto; exfalso; apply N; [rewrite E|rewrite <- E]; now apply in_map.
  Qed.

  Lemma covers_fit : forall ty ty' args args' xs, covers S ty ty' args args' -> NoDup (map iv_name args') -> inputs_fit S args xs -> inputs_fit S args' xs.
  Proof.
    intros ty ty' args args' xs (_ & _ & C1 & C2) ND F. inversion F as [? ? F1 F2]; subst. constructor.
    - intros k v Hk. destruct (F1 k v Hk) as (a & Ia & Ea & P). destruct (C1 a Ia) as (a' & Ia' & En & Et & Ed).
      exists a'. split; auto. split; [congruence|]. inversion P as [? ? P'|? P']; subst.
      + apply pf_fits. now rewrite Et.
      + apply pf_default. unfold has_default in *. now rewrite Ed.
    - intros a' Ia' Ra'. destruct (C2 a' Ia' Ra') as (a & Ia & En). destruct (C1 a Ia) as (a'' & Ia'' & En'' & Et & Ed).
      assert (a'' = a') by (apply (same_name args'); auto; congruence). subst a''. rewrite <- En. apply F2; auto.
      destruct Ra' as (R1 & t & R2). split; [congruence|]. exists t. congruence.
  Qed.

  Let FA := failed_at S ans otype.

  (** ** Completing a field *)
  Section Complete.
    Variables (key : string) (loc : schema_location) (sub : list selection) (has_sub : bool).
    Variable obj : O -> list path_segment -> value -> list schema_error -> Prop.
    Variables (o : O) (f : string) (q : fparams) (r0 : fres O).
    Hypothesis A : ans o f q = AResult r0.
    Hypothesis Q : p_name q = key.
    Hypothesis PC : proper_call S otype o f q.

    Lemma fits_shape : forall ty r, result_fits S otype ty r -> (composite S (named_type ty) <-> has_sub = true) -> shape_ok has_sub r.
    Proof.
      induction 1 as [n b fut v L Hv|n fut ob C P|n ob C P|n fut C|n C|t fs HF IH|t N|t r N HR IH|t r N HR IH]; intros HC; simpl in *; auto; try (apply HC; exact C).
      - intro B. exfalso. apply (leaf_not_composite _ L). now apply HC.
      - clear HF. induction fs as [|r fs IHf]; simpl; auto. split; [apply IH; auto; now left|]. apply IHf. intros r' I' HC'. apply IH; auto. now right.
    Qed.

    Lemma completes : forall ty r, result_fits S otype ty r ->
      forall pre, (composite S (named_type ty) <-> has_sub = true) -> (has_sub = false -> sub = []) ->
      (forall ob p, possible S (named_type ty) (otype ob) -> has_sub = true -> exists kvs errs, obj ob p (VMap kvs) errs /\
         Forall (accessor_error S ans otype) errs /\ object_fits S doc FA p (otype ob) sub kvs) ->
      (forall is ex, leaf_failure r is ex -> leaf_failure r0 (pre ++ is) ex) ->
      exists v errs, completed obj key loc r (p_path q ++ map PIndex pre) v errs /\ Forall (accessor_error S ans otype) errs /\
        data_fits S doc FA (otype o) f (p_path q) pre ty sub v.
    Proof.
      induction 1 as [n b fut v L Hv|n fut ob C P|n ob C P|n fut C|n C|t fs HF IH|t N|t r N HR IH|t r N HR IH]; intros pre HC HS HO HL.
      - assert (B : has_sub = false) by (destruct has_sub; auto; exfalso; apply (leaf_not_composite _ L); apply HC; auto).
        destruct v as [x|ex|]; [| |destruct Hv].
        + exists x, []. split; [constructor|]. split; [constructor|]. rewrite (HS B). apply fits_nonnull_inv in Hv as (Nx & Hv).
          apply df_nonnull; auto. apply df_leaf; auto. apply if_nonnull; auto.
        + specialize (HL [] ex (lf_leaf b fut ex)). rewrite app_nil_r in HL. destruct ex as [c w|errs].
          * eexists VNull, _. split; [constructor|]. split.
            -- constructor; [|constructor]. rewrite <- Q. eapply ae_leaf; eauto.
            -- apply df_failed. eapply fa_leaf; eauto.
          * exists VNull, errs. split; [constructor|]. split.
            -- apply Forall_forall. intros x Ix. eapply ae_leaf_errors; eauto.
            -- apply df_failed. eapply fa_leaf; eauto.
      - assert (B : has_sub = true) by (apply HC; exact C).
        destruct (HO ob (p_path q ++ map PIndex pre) P B) as (kvs & errs & H1 & H2 & H3). exists (VMap kvs), errs.
        split; [now constructor|]. split; [exact H2|]. apply df_nonnull; [discriminate|]. eapply df_object; eauto.
      - assert (B : has_sub = true) by (apply HC; exact C).
        destruct (HO ob (p_path q ++ map PIndex pre) P B) as (kvs & errs & H1 & H2 & H3). exists (VMap kvs), errs.
        split; [now constructor|]. split; [exact H2|]. apply df_nonnull; [discriminate|]. eapply df_object; eauto.
      - exists VNull, []. split; [constructor|]. split; [constructor|]. apply df_null. intros (t & E). discriminate.
      - exists VNull, []. split; [constructor|]. split; [constructor|]. apply df_null. intros (t & E). discriminate.
      - (* list *)
        simpl in HC, HO.
        assert (G : forall rest k, (forall i r, nth_error rest i = Some r -> nth_error fs (k + i) = Some r) ->
          exists ves, completed_items obj key loc rest (p_path q ++ map PIndex pre) (N.of_nat k) ves /\
            Forall (accessor_error S ans otype) (flat_map snd ves) /\
            forall i v, nth_error (map fst ves) i = Some v -> data_fits S doc FA (otype o) f (p_path q) (pre ++ [N.of_nat (k + i)]) t sub v).
        { induction rest as [|r rest IHr]; intros k Hn.
          - exists []. split; [constructor|]. split; [constructor|]. intros [|i] v E; discriminate.
          - assert (Er : nth_error fs k = Some r) by (rewrite <- (Nat.add_0_r k); apply Hn; reflexivity).
            destruct (IH r (nth_error_In _ _ Er) (pre ++ [N.of_nat k]) HC HS HO) as (v & errs & C1 & C2 & C3).
            { intros is ex F. rewrite <- app_assoc. simpl. apply HL. econstructor; eauto. }
            rewrite map_app, app_assoc in C1. simpl in C1.
            destruct (IHr (Datatypes.S k)) as (ves & D1 & D2 & D3); [intros i r' E; replace (Datatypes.S k + i) with (k + Datatypes.S i) by lia; apply Hn; exact E|].
            exists ((v, errs) :: ves). split; [constructor; [exact C1|rewrite <- Nnat.Nat2N.inj_succ; exact D1]|]. split.
            + simpl. apply Forall_app. auto.
            + intros [|i] w E; simpl in E; [injection E as <-; rewrite Nat.add_0_r; exact C3|].
              replace (k + Datatypes.S i) with (Datatypes.S k + i) by lia. apply D3. exact E. }
        destruct (G fs 0) as (ves & D1 & D2 & D3); [intros i r E; exact E|].
        exists (VList (map fst ves)), (flat_map snd ves). split; [constructor; exact D1|]. split; [exact D2|].
        apply df_nonnull; [discriminate|]. apply df_list. intros i v E. apply (D3 i). exact E.
      - exists VNull, []. split; [constructor|]. split; [constructor|]. now apply df_null.
      - destruct (IH pre HC HS HO) as (v & errs & C1 & C2 & C3); [intros is ex F; apply HL; now constructor|].
        exists v, errs. split; [now constructor|]. split; [exact C2|].
        inversion C3 as [|? ? ? ? ? ? N'|? ? ? ? ? ? ? Nv C3'| | |]; subst; [now apply df_failed|exfalso; apply N'; exists t; reflexivity|exact C3'].
      - destruct (IH pre HC HS HO HL) as (v & errs & C1 & C2 & C3).
        exists v, errs. split; [exact C1|]. split; [exact C2|].
        inversion C3 as [|? ? ? ? ? ? N'|? ? ? ? ? ? ? Nv C3'| | |]; subst; [now apply df_failed|exfalso; apply N'; exists t; reflexivity|exact C3'].
    Qed.
  End Complete.

  (** ** Collecting the fields *)
  Definition from_item (ob : O) (items : list item) (sels : list selection) (k : string) (c : chosen) : Prop :=
    exists oc, In (IField oc) items /\ oc_name oc = ch_name c /\ oc_sub oc = option_map snd (ch_sub c) /\
      args_value es (oc_args oc) (ch_args c) /\ possible S (oc_parent oc) (otype ob) /\ selects_field S doc (otype ob) sels k (ch_name c) (sub_selections c).

  Lemma selects_weaken : forall T sels sels' k n sub, (forall s, In s sels -> In s sels') -> selects_field S doc T sels k n sub -> selects_field S doc T sels' k n sub.
  Proof.
    intros T sels sels' k n sub H F. destruct F as [loc al n args dirs sub sels I|loc c dirs sel sels k n sub I P F|loc name dirs f sels k n sub I E P F].
    - eapply sf_here; eauto.
    - eapply sf_inline; eauto.
    - eapply sf_spread; eauto.
  Qed.
  Lemma from_weaken : forall ob items items' sels sels' k c, (forall i, In i items -> In i items') -> (forall s, In s sels -> In s sels') ->
    from_item ob items sels k c -> from_item ob items' sels' k c.
  Proof.
    intros ob items items' sels sels' k c H1 H2 (oc & I & E1 & E2 & A & P & F). exists oc. split; auto. split; auto. split; auto. split; auto. split; auto.
    eapply selects_weaken; eauto.
  Qed.

  Lemma collected : forall stk T sels items, collect S doc stk T sels items ->
    (forall loc ds, In (IDirs loc ds) items -> exists ds' b, decided es ds ds' b) ->
    (forall oc, In (IField oc) items -> (exists avs, args_value es (oc_args oc) avs) /\ exists ty args, field_of S (oc_parent oc) (oc_name oc) ty args) ->
    forall ob, possible S T (otype ob) -> forall fd, exists citems,
      collects es (e_frags e) (typenames ob) (has_field ob) fd sels citems /\ forall k c, In (k, Some c) citems -> from_item ob items sels k c.
  Proof.
    induction 1 as [stk T|stk T loc alias name args dirs sub r items H IH|stk T loc cond dirs sels r T' i1 i2 Hc H1 IH1 H2 IH2|
                    stk T loc name dirs r f i1 i2 Hf Hn Ht Ho H1 IH1 H2 IH2]; intros HD HF ob HP fd.
    - exists []. split; [constructor|]. intros k c [].
    - destruct (HD FIELD dirs (or_introl eq_refl)) as (ds & b & Hd).
      destruct (HF _ (or_intror (or_introl eq_refl))) as ((avs & Ha) & ty & dargs & Hof). simpl in Ha, Hof.
      destruct (IH (fun l d I => HD l d (or_intror (or_intror I))) (fun oc I => HF oc (or_intror (or_intror I))) ob HP fd) as (ci & C & G).
      destruct b.
      + exists ((response_key alias name, Some (mkChosen loc name avs ds sub fd)) :: ci). split; [eapply co_field; eauto|].
        intros k c [E|I].
        * injection E as <- <-. exists (mkOcc stk T (response_key alias name) name args (option_map snd sub)). simpl.
          split; [right; left; reflexivity|]. split; auto. split; auto. split; auto. split; auto.
          unfold sub_selections. simpl. eapply sf_here. left. reflexivity.
        * eapply from_weaken; [| |apply G; exact I]; simpl; auto.
      + exists ((response_key alias name, None) :: ci). split.
        * eapply co_field_dropped; eauto. destruct (object_field _ _ _ _ _ (ts_object _ _ _ _ _ TS ob) HP Hof) as (ty' & args' & Hof' & _).
          eapply ts_fields; eauto.
        * intros k c [E|I]; [discriminate|]. eapply from_weaken; [| |apply G; exact I]; simpl; auto.
    - destruct (HD INLINE_FRAGMENT dirs (or_introl eq_refl)) as (ds & b & Hd).
      destruct (IH2 (fun l d I => HD l d (or_intror (in_or_app _ _ _ (or_intror I)))) (fun oc I => HF oc (or_intror (in_or_app _ _ _ (or_intror I)))) ob HP fd)
        as (ci2 & C2 & G2).
      assert (HT : (exists l t, cond = Some (l, t) /\ ~ In t (typenames ob)) \/ ((forall l t, cond = Some (l, t) -> In t (typenames ob)) /\ possible S T' (otype ob))).
      { destruct cond as [(l & t)|]; [|right; split; [discriminate|subst T'; exact HP]].
        destruct Hc as (-> & _). destruct (in_dec string_dec t (typenames ob)) as [I|N]; [right|left; eauto].
        split; [intros l' t' E; congruence|]. now apply (ts_types _ _ _ _ _ TS). }
      destruct HT as [HT|(HT & HP')].
      + exists ci2. split; [eapply co_inline_dropped; eauto|]. intros k c I. eapply from_weaken; [| |apply G2; exact I]; simpl; auto.
        intros i Ii. right. apply in_or_app. now right.
      + destruct b.
        * destruct (IH1 (fun l d I => HD l d (or_intror (in_or_app _ _ _ (or_introl I)))) (fun oc I => HF oc (or_intror (in_or_app _ _ _ (or_introl I)))) ob HP'
            (mkFD (fd_def fd) (fd_spread fd) (overlaid ds (fd_inline fd)))) as (ci1 & C1 & G1).
          exists (ci1 ++ ci2). split; [eapply co_inline; eauto|]. intros k c I. apply in_app_or in I as [I|I].
          -- destruct (G1 _ _ I) as (oc & Io & E1 & E2 & A & P & F). exists oc. split; [right; apply in_or_app; now left|]. split; auto. split; auto. split; auto. split; auto.
             eapply sf_inline; [left; reflexivity|intros l t E; apply (ts_types _ _ _ _ _ TS); eapply HT; exact E|exact F].
          -- eapply from_weaken; [| |apply G2; exact I]; simpl; auto. intros i Ii. right. apply in_or_app. now right.
        * exists ci2. split; [eapply co_inline_dropped; eauto|]. intros k c I. eapply from_weaken; [| |apply G2; exact I]; simpl; auto.
          intros i Ii. right. apply in_or_app. now right.
    - destruct (HD FRAGMENT_SPREAD dirs (or_introl eq_refl)) as (ds & b & Hd).
      assert (I2 : forall i, In i i2 -> In i (IDirs FRAGMENT_SPREAD dirs :: i1 ++ ISpread name :: i2)).
      { intros i Ii. right. apply in_or_app. right. now right. }
      assert (I1 : forall i, In i i1 -> In i (IDirs FRAGMENT_SPREAD dirs :: i1 ++ ISpread name :: i2)).
      { intros i Ii. right. apply in_or_app. now left. }
      destruct (IH2 (fun l d I => HD l d (I2 _ I)) (fun oc I => HF oc (I2 _ I)) ob HP fd) as (ci2 & C2 & G2).
      pose proof (FR name) as FRn. rewrite Hf in FRn. destruct FRn as (fr & Efr & Et & Es).
      destruct (in_dec string_dec (fr_type fr) (typenames ob)) as [I|N].
      + destruct b.
        * assert (HP' : possible S (f_cond f) (otype ob)) by (apply (ts_types _ _ _ _ _ TS); rewrite <- Et; exact I).
          destruct (IH1 (fun l d I => HD l d (I1 _ I)) (fun oc I => HF oc (I1 _ I)) ob HP'
            (mkFD (overlaid (fr_dirs fr) (fd_def fd)) (overlaid ds (fd_spread fd)) (fd_inline fd))) as (ci1 & C1 & G1).
          exists (ci1 ++ ci2). split; [eapply co_spread; eauto; rewrite Es; exact C1|]. intros k c Ic. apply in_app_or in Ic as [Ic|Ic].
          -- destruct (G1 _ _ Ic) as (oc & Io & E1 & E2 & A & P & F). exists oc. split; [auto|]. split; auto. split; auto. split; auto. split; auto.
             eapply sf_spread; [left; reflexivity|exact Hf|exact HP'|exact F].
          -- eapply from_weaken; [| |apply G2; exact Ic]; simpl; auto.
        * exists ci2. split; [eapply co_spread_dropped; eauto|]. intros k c Ic. eapply from_weaken; [| |apply G2; exact Ic]; simpl; auto.
      + exists ci2. split; [eapply co_spread_dropped; eauto|]. intros k c Ic. eapply from_weaken; [| |apply G2; exact Ic]; simpl; auto.
        Unshelve. all: exact ds.
  Qed.

  (** ** Execution *)
  Lemma first_chosen_in : forall items k c, In (k, c) (first_chosen items) -> In (k, Some c) items.
  Proof.
    intros items k c H. unfold first_chosen in H. apply in_flat_map in H as ([k' [c'|]] & I & H); [|destruct H]. destruct H as [E|[]]. injection E as -> ->.
    apply in_firsts in I. exact I.
  Qed.
  Lemma first_chosen_nodup : forall items, NoDup (map fst (first_chosen items)).
  Proof.
    intros items. unfold first_chosen. pose proof (firsts_nodup _ items) as ND. induction (firsts items) as [|[k [c|]] l IH]; simpl in *; [constructor| |].
    - inversion ND as [|? ? N ND']; subst. constructor; auto. intro I. apply N. apply in_map_iff in I as ([k' c'] & <- & I).
      apply in_flat_map in I as ([k2 [c2|]] & I2 & H); [|destruct H]. destruct H as [E|[]]. injection E as <- <-. apply (in_map fst) in I2. exact I2.
    - inversion ND; auto.
  Qed.

  Theorem checked_executes : forall stk T sels, checked S doc vs (map v_name vs) stk T sels ->
    exists n, forall ob p, possible S T (otype ob) -> exists kvs errs,
      executes typenames has_field ans es e n sels ob p (VMap kvs) errs /\ Forall (accessor_error S ans otype) errs /\
      object_fits S doc FA p (otype ob) sels kvs.
  Proof.
    induction 1 as [stk T sels items HC HD HF1 HF2 HF3 IH].
    set (P := fun (i : item) (n : nat) => forall oc ty args sub, i = IField oc -> field_of S (oc_parent oc) (oc_name oc) ty args -> oc_sub oc = Some sub ->
      forall ob p, possible S (named_type ty) (otype ob) -> exists kvs errs,
      executes typenames has_field ans es e n sub ob p (VMap kvs) errs /\ Forall (accessor_error S ans otype) errs /\ object_fits S doc FA p (otype ob) sub kvs).
    destruct (uniform_bound _ P items) as [n Hn].
    { intros i n m L H oc ty args sub E1 E2 E3 ob p HP. destruct (H oc ty args sub E1 E2 E3 ob p HP) as (kvs & errs & X & Y).
      exists kvs, errs. split; [eapply executes_mono; eauto|exact Y]. }
    { intros i Ii. destruct i as [oc|loc ds|nm]; [|exists 0; intros ? ? ? ? E; discriminate|exists 0; intros ? ? ? ? E; discriminate].
      destruct (HF1 oc Ii) as (_ & _ & ty & args & Hof). destruct (oc_sub oc) as [sub|] eqn:Es; [|exists 0; intros oc' ty' args' sub' E _ E3; injection E as <-; congruence].
      destruct (IH oc ty args sub Ii Hof Es) as [n Hn]. exists n. intros oc' ty' args' sub' E E2 E3. injection E as <-. rewrite Es in E3. injection E3 as <-.
      destruct (field_of_fun S WF _ _ _ _ _ _ Hof E2) as (<- & _). exact Hn. }
    exists (Datatypes.S n). intros ob p HP.
    destruct (collected stk T sels items HC) with (ob := ob) (fd := no_fdirs) as (ci & HCI & G); auto.
    { intros loc ds I. destruct (HD loc ds I) as (D1 & D2). apply (directives_decided S vs es _ fit_known known_present loc ds CD D1 D2). }
    { intros oc I. destruct (HF1 oc I) as (_ & PA & Hof). split; [|exact Hof]. apply (plain_args_value _ _ _ known_present PA). }
    assert (FV : forall k c, In (k, c) (first_chosen ci) -> exists v errs,
      field_value has_field ans e (executes typenames has_field ans es e n) ob p k c v errs /\ Forall (accessor_error S ans otype) errs /\
      entry_fits S doc FA p (otype ob) sels k v).
    { intros k c I. apply first_chosen_in in I. destruct (G k c I) as (oc & Io & En & Es & Ha & Hp & Hsel).
      destruct (HF1 oc Io) as (_ & PA & ty & args & Hof). destruct (HF2 oc ty args Io Hof) as (HA & Hcomp).
      destruct (object_field _ _ _ _ _ (ts_object _ _ _ _ _ TS ob) Hp Hof) as (ty' & args' & Hof' & Cov).
      pose proof (arguments_fit S vs es _ fit_known _ _ _ HA Ha PA) as Fit.
      destruct (field_of_wf S WF _ _ _ _ Hof') as (_ & (NDa & _) & _).
      pose proof (covers_fit _ _ _ _ _ Cov NDa Fit) as Fit'.
      rewrite En in Hof'. pose proof (ts_fields _ _ _ _ _ TS ob _ _ _ Hof') as Hfield.
      pose proof (ts_answers _ _ _ _ _ TS ob _ _ _ (called_with e p k c) Hof' Fit') as Hans.
      assert (PC : proper_call S otype ob (ch_name c) (called_with e p k c)) by (split; [exists ty', args'; auto|exact (arguments_copied _ _ _ CE Ha)]).
      destruct (ans ob (ch_name c) (called_with e p k c)) as [ex|r] eqn:A.
      - exists VNull, (located (ch_loc c) (p ++ [PName k]) k ex). split; [eapply fv_throws; eauto|]. split.
        + apply Forall_forall. intros x Ix. eapply (ae_throw S ans otype ob (ch_name c) (called_with e p k c)); eauto.
        + econstructor; [exact Hsel|exact Hof'|]. apply df_failed. change (p ++ [PName k]) with (p_path (called_with e p k c)). eapply (fa_throw S ans otype); eauto.
      - set (hs := match ch_sub c with Some _ => true | None => false end).
        assert (Hhs : composite S (named_type ty') <-> hs = true).
        { destruct Cov as (Cc & _). rewrite Cc, Hcomp, Es. unfold hs. destruct (ch_sub c); simpl; split; intros; congruence. }
        destruct (completes k (ch_loc c) (sub_selections c) hs (executes typenames has_field ans es e n (sub_selections c))
          ob (ch_name c) (called_with e p k c) r A eq_refl PC ty' r Hans []) as (v & errs & C1 & C2 & C3); auto.
        { unfold hs, sub_selections. destruct (ch_sub c); [discriminate|reflexivity]. }
        { intros ob' p' HP' B. unfold hs in B. destruct (ch_sub c) as [[l sub]|] eqn:Ec; [|discriminate]. unfold sub_selections. rewrite Ec.
          apply (Hn _ Io oc ty args sub eq_refl Hof); [exact Es|]. destruct Cov as (_ & Cp & _). auto. }
        simpl in C1, C3. rewrite app_nil_r in C1. exists v, errs. split; [|split; [exact C2|econstructor; eauto]].
        eapply fv_result; eauto. apply (fits_shape hs ty' r Hans Hhs). }
    assert (FV2 : exists outs : list (value * list schema_error),
      Forall2 (fun kc ve => field_value has_field ans e (executes typenames has_field ans es e n) ob p (fst kc) (snd kc) (fst ve) (snd ve) /\
        Forall (accessor_error S ans otype) (snd ve) /\ entry_fits S doc FA p (otype ob) sels (fst kc) (fst ve)) (first_chosen ci) outs).
    { apply forall2_build. intros [k c] I. destruct (FV k c I) as (v & errs & X). exists (v, errs). exact X. }
    destruct FV2 as (outs & F).
    exists (combine (map fst (first_chosen ci)) (map fst outs)), (flat_map snd outs). split; [|split].
    - exists ci, outs. split; [exact HCI|]. split; [|split; reflexivity]. clear - F. induction F as [|a b l l' (H & _) F IHF]; constructor; auto.
    - clear - F. induction F as [|a b l l' (_ & H & _) F IHF]; simpl; [constructor|]. apply Forall_app. auto.
    - constructor.
      + pose proof (first_chosen_nodup ci) as ND. assert (E : map fst (combine (map fst (first_chosen ci)) (map fst outs)) = map fst (first_chosen ci)).
        { clear - F. induction F as [|a b l l' _ F IHF]; simpl; [reflexivity|]. now rewrite IHF. }
        rewrite E. exact ND.
      + clear - F. induction F as [|a b l l' (_ & _ & H) F IHF]; simpl; [intros k v []|]. intros k v [E|I]; [injection E as <- <-; exact H|auto].
  Qed.
End Service.

(** ** Failures where the type allows null *)
Scheme data_fits_min := Minimality for data_fits Sort Prop
  with object_fits_min := Minimality for object_fits Sort Prop
  with entry_fits_min := Minimality for entry_fits Sort Prop.

Fixpoint nonnulls (k : nat) (t : tref) : tref := match k with 0 => t | Datatypes.S k => nonnulls k (TNonNull t) end.
Lemma nonnulls_list : forall k u i t', place u [i] t' -> place (nonnulls k u) [i] t'.
Proof. induction k as [|k IH]; intros u i t' H; [exact H|]. cbn [nonnulls]. apply IH. now apply place_nonnull. Qed.
Lemma place_element : forall t is u, place t is u -> forall k t' i, u = nonnulls k (TListOf t') -> place t (is ++ [i]) t'.
Proof.
  intros t is u H. induction H as [t|t j is u H IH|t j is u H IH]; intros k t' i E; cbn [app].
  - subst t. apply nonnulls_list. apply place_list, place_here.
  - apply place_nonnull. exact (IH k t' i E).
  - apply place_list. exact (IH k t' i E).
Qed.
Lemma mild_nowhere : forall S O (ans : O -> string -> fparams -> answer O) otype doc, fails_mildly S ans otype ->
  forall p T sels kvs, object_fits S doc (failed_at S ans otype) p T sels kvs -> object_fits S doc nowhere p T sels kvs.
Proof.
  intros S O ans otype doc MF.
  apply (object_fits_min S doc (failed_at S ans otype)
    (fun T f p is t sels v => forall ty args k, field_of S T f ty args -> place ty is (nonnulls k t) -> (k = 0 \/ v <> VNull) -> data_fits S doc nowhere T f p is t sels v)
    (fun p T sels kvs => object_fits S doc nowhere p T sels kvs)
    (fun p T sels k v => entry_fits S doc nowhere p T sels k v)).
  - intros T f p is t sels F ty args k Hf Hp [-> |N]; [|congruence]. apply df_null. exact (MF T f p is ty args t F Hf Hp).
  - intros T f p is t sels N ty args k _ _ _. now apply df_null.
  - intros T f p is t sels v NV D IH ty args k Hf Hp _. apply df_nonnull; [exact NV|]. apply (IH ty args (Datatypes.S k) Hf Hp). right. exact NV.
  - intros T f p is t sels vs _ IH ty args k Hf Hp _. apply df_list. intros i v E. apply (IH i v E ty args 0 Hf); [|left; reflexivity].
    exact (place_element _ _ _ Hp k t _ eq_refl).
  - intros T f p is n v L F ty args k _ _ _. now apply df_leaf.
  - intros T f p is n T' sels kvs HP _ IH ty args k _ _ _. exact (df_object S doc nowhere T f p is n T' sels kvs HP IH).
  - intros p T sels kvs ND _ IH. now apply of_intro.
  - intros p T sels k v name ty args sub Hs Hf _ IH. apply (ef_intro S doc nowhere p T sels k v name ty args sub Hs Hf). exact (IH ty args 0 Hf (place_here ty) (or_introl eq_refl)).
Qed.
Lemma never_mild : forall S O (ans : O -> string -> fparams -> answer O) otype, never_fails S ans otype -> fails_mildly S ans otype.
Proof. intros S O ans otype NF T f p is ty args u F. destruct (NF _ _ _ _ F). Qed.
