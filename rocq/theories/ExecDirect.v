(** The value a program computes, without tasks: a proof device. [den_resolve] shows that the programs of ExecModel.v
    compute exactly this, so that properties of values can be proved by recursion over selections. *)
From Verif Require Import Cpp Value Ast ErrorModel ExecModel ExecSem ExecSemProofs.

Section FresInd.
  Variable O : Type.
  Variable P : fres O -> Prop.
  Hypothesis HLeaf : forall b f v, P (FLeaf b f v).
  Hypothesis HObject : forall f r, P (FObject f r).
  Hypothesis HDerived : forall r, P (FDerived r).
  Hypothesis HNullSome : forall f, P f -> P (FNullable (Ok (Some f))).
  Hypothesis HNullNone : P (FNullable (Ok None)).
  Hypothesis HNullThrow : forall e, P (FNullable (Throw e)).
  Hypothesis HNullUB : P (FNullable UB).
  Hypothesis HListOk : forall l, Forall P l -> P (FList (Ok l)).
  Hypothesis HListThrow : forall e, P (FList (Throw e)).
  Hypothesis HListUB : P (FList UB).
  Fixpoint fres_ind' (f : fres O) : P f :=
    match f with
    | FLeaf b x v => HLeaf b x v
    | FObject x r => HObject x r
    | FDerived r => HDerived r
    | FNullable (Ok (Some f')) => HNullSome f' (fres_ind' f')
    | FNullable (Ok None) => HNullNone
    | FNullable (Throw e) => HNullThrow e
    | FNullable UB => HNullUB
    | FList (Ok l) => HListOk l ((fix go (l : list (fres O)) : Forall P l :=
        match l with [] => Forall_nil _ | y :: r => Forall_cons y (fres_ind' y) (go r) end) l)
    | FList (Throw e) => HListThrow e
    | FList UB => HListUB
    end.
End FresInd.

Definition join {A} (x : result (result A)) : result A := bind x (fun y => y).

Section Direct.
  Variable O : Type.

  Fixpoint dcollect_list (p : rparams) (i : N) (rs : list (result rr)) (acc : list value * list schema_error) : result rr :=
    match rs with
    | [] => Ok (mkRR (VList (fst acc)) (snd acc))
    | x :: r => acc' <- list_step p i x acc ;; dcollect_list p (N.succ i) r acc'
    end.

  Section DConvert.
    Variable drobj : O -> field_path -> result rr.
    Definition dbuild_object (p : rparams) (r : result (option O)) : result rr :=
      x <- r ;; match x with None => Ok (mkRR VNull []) | Some o => drobj o (rp_path p) end.
    Fixpoint dconvert (f : fres O) (p : rparams) {struct f} : result (result rr) :=
      match f with
      | FLeaf b _ v => _ <- (if b then block_sub_fields p else Ok tt) ;; Ok (build_leaf p v)
      | FObject isfut r =>
          _ <- require_sub_fields p ;;
          (if isfut then Ok (dbuild_object p r) else v <- dbuild_object p r ;; Ok (Ok v))
      | FDerived r => _ <- require_sub_fields p ;; Ok (dbuild_object p r)
      | FNullable r =>
          Ok (match r with
              | Ok None => Ok (mkRR VNull [])
              | Ok (Some f') => join (dconvert f' p)
              | Throw e => Throw e
              | UB => UB
              end)
      | FList r =>
          Ok (match r with
              | Ok l =>
                  rs <- (fix go (i : N) (l : list (fres O)) {struct l} : result (list (result rr)) :=
                           match l with
                           | [] => Ok []
                           | f' :: l' =>
                               x <- dconvert f' (with_path p (PIndex i :: rp_path p)) ;;
                               xs <- go (N.succ i) l' ;;
                               Ok (x :: xs)
                           end) 0%N l ;;
                  dcollect_list p 0 rs ([], [])
              | Throw e => Throw e
              | UB => UB
              end)
      end.
    Fixpoint dconvert_list (p : rparams) (i : N) (l : list (fres O)) {struct l} : result (list (result rr)) :=
      match l with
      | [] => Ok []
      | f' :: l' =>
          x <- dconvert f' (with_path p (PIndex i :: rp_path p)) ;;
          xs <- dconvert_list p (N.succ i) l' ;;
          Ok (x :: xs)
      end.
    Lemma dconvert_list_eq : forall p l, dconvert (FList (Ok l)) p = Ok (rs <- dconvert_list p 0 l ;; dcollect_list p 0 rs ([], [])).
    Proof.
      intros p l. simpl. do 2 f_equal. generalize 0%N. induction l as [|f l IH]; intro i; simpl; [reflexivity|].
      destruct (dconvert f (with_path p (PIndex i :: rp_path p))); simpl; auto. now rewrite IH.
    Qed.
  End DConvert.

  Variable typenames : O -> list string.
  Variable has_field : O -> string -> bool.
  Variable ans : O -> string -> fparams -> answer O.

  Record dstate : Type := mkD { d_names : list string; d_values : list (string * result rr) }.
  Definition dvisitor : Type := O -> field_path -> fdirs -> selection -> dstate -> result dstate.

  Section DVisitAll.
    Variable vis : selection -> dstate -> result dstate.
    Fixpoint dvisit_all (sels : list selection) (st : dstate) : result dstate :=
      match sels with
      | [] => Ok st
      | s :: r => st' <- vis s st ;; dvisit_all r st'
      end.
  End DVisitAll.

  Fixpoint dcollect_object (vals : list (string * result rr)) (acc : entries * list schema_error) : result rr :=
    match vals with
    | [] => Ok (mkRR (VMap (fst acc)) (snd acc))
    | (key, x) :: r => acc' <- object_step key x acc ;; dcollect_object r acc'
    end.

  Definition dresolve_with (vis : dvisitor) (o : O) (fp : field_path) (sels : list selection) : result rr :=
    st <- dvisit_all (vis o fp no_fdirs) sels (mkD [] []) ;; dcollect_object (d_values st) ([], []).

  Definition directives_of (env : env) (dirs : list directive) : result (entries * bool) :=
    ds <- visit_directives (e_vars env) dirs [] ;; sk <- should_skip ds ;; Ok (ds, sk).

  (** the outcome stored for a field that is executed *)
  Definition dfield (env : env) (rec : dvisitor) (o : O) (fp : field_path) (fd : fdirs)
      (loc : schema_location) (key name : string) (avs ds : entries)
      (sub : option (schema_location * list selection)) : result (result rr) :=
    let fp' := PName key :: fp in
    let p := mkParams (e_context env) (e_opdirs env) fd (build_error_path fp') key avs ds in
    let rp := mkRP key loc (option_map fst sub) fp' in
    match ans o name p with
    | AThrow e => Ok (Throw (field_exception loc key fp' e))
    | AResult f =>
        match dconvert (fun o' fp'' => dresolve_with rec o' fp'' (match sub with Some (_, l) => l | None => [] end)) f rp with
        | Ok r => Ok r
        | Throw e => Ok (Throw (field_exception loc key fp' e))
        | UB => UB
        end
    end.

  Definition dvisit_field (env : env) (rec : dvisitor) (o : O) (fp : field_path) (fd : fdirs)
      (loc : schema_location) (alias : option string) (name : string) (args : list argument) (dirs : list directive)
      (sub : option (schema_location * list selection)) (st : dstate) : result dstate :=
    let key := response_key alias name in
    if existsb (String.eqb key) (d_names st) then Ok st
    else
      let names := d_names st ++ [key] in
      if negb (has_field o name) then
        Ok (mkD names (d_values st ++ [(key, Throw (SchemaEx [mkErr ("Unknown field name: " ++ name) loc (build_error_path fp)]))]))
      else
        '(ds, skip) <- directives_of env dirs ;;
        if (skip : bool) then Ok (mkD names (d_values st))
        else
          avs <- visit_arguments (e_vars env) args [] ;;
          r <- dfield env rec o fp fd loc key name avs ds sub ;;
          Ok (mkD names (d_values st ++ [(key, r)])).

  Definition dvisit_spread (env : env) (rec : dvisitor) (o : O) (fp : field_path) (fd : fdirs)
      (loc : schema_location) (name : string) (dirs : list directive) (st : dstate) : result dstate :=
    match find_fragment name (e_frags env) with
    | None => Throw (SchemaEx [mkErr ("Unknown fragment name: " ++ name) loc (build_error_path fp)])
    | Some fr =>
        if negb (matches_type O typenames o (fr_type fr)) then Ok st
        else
          '(ds, skip) <- directives_of env dirs ;;
          if (skip : bool) then Ok st
          else dvisit_all (rec o fp (mkFD (merge_dirs (fr_dirs fr) (fd_def fd)) (merge_dirs ds (fd_spread fd)) (fd_inline fd))) (fr_sel fr) st
    end.

  Definition dvisit_inline (env : env) (rec : dvisitor) (o : O) (fp : field_path) (fd : fdirs)
      (cond : option (schema_location * string)) (dirs : list directive) (sel : list selection) (st : dstate) : result dstate :=
    '(ds, skip) <- directives_of env dirs ;;
    if (skip : bool) then Ok st
    else if match cond with None => true | Some (_, t) => matches_type O typenames o t end then
           dvisit_all (rec o fp (mkFD (fd_def fd) (fd_spread fd) (merge_dirs ds (fd_inline fd)))) sel st
         else Ok st.

  Fixpoint dvisit (fuel : nat) (env : env) (o : O) (fp : field_path) (fd : fdirs) (s : selection) (st : dstate) : result dstate :=
    match fuel with
    | 0 => UB
    | S n =>
        match s with
        | SField loc alias name args dirs sub => dvisit_field env (dvisit n env) o fp fd loc alias name args dirs sub st
        | SSpread loc name dirs => dvisit_spread env (dvisit n env) o fp fd loc name dirs st
        | SInline loc cond dirs sel => dvisit_inline env (dvisit n env) o fp fd cond dirs sel st
        end
    end.

  Definition dresolve (fuel : nat) (env : env) (o : O) (fp : field_path) (sels : list selection) : result rr :=
    dresolve_with (dvisit fuel env) o fp sels.

  (** ** The programs compute these values *)
  Notation den := (den O ans).
  Definition fv (tbl : list (result rr)) (f : fut) : result rr := match f with FReady r => r | FIdx i => nth i tbl UB end.
  Definition fok (tbl : list (result rr)) (f : fut) : Prop := match f with FReady _ => True | FIdx i => i < length tbl end.
  Definition ext (tbl tbl' : list (result rr)) : Prop := exists e, tbl' = tbl ++ e.

  Lemma ext_refl : forall t, ext t t.
  Proof. intros. exists []. now rewrite app_nil_r. Qed.
  Lemma ext_trans : forall a b c, ext a b -> ext b c -> ext a c.
  Proof. intros a b c [x ->] [y ->]. exists (x ++ y). now rewrite app_assoc. Qed.
  Lemma ext_snoc : forall t x, ext t (t ++ [x]).
  Proof. intros. now exists [x]. Qed.
  Hint Resolve ext_refl ext_snoc : core.
  Lemma fv_ext : forall t t' f, fok t f -> ext t t' -> fv t' f = fv t f.
  Proof. intros t t' [r|i] H [e ->]; simpl in *; auto. now apply app_nth1. Qed.
  Lemma fok_ext : forall t t' f, fok t f -> ext t t' -> fok t' f.
  Proof. intros t t' [r|i] H [e ->]; simpl in *; auto. rewrite app_length. lia. Qed.
  Lemma fok_new : forall t x, fok (t ++ [x]) (FIdx (length t)).
  Proof. intros. simpl. rewrite app_length. simpl. lia. Qed.
  Lemma fv_new : forall t x, fv (t ++ [x]) (FIdx (length t)) = x.
  Proof. intros. simpl. rewrite app_nth2, Nat.sub_diag; auto. Qed.

  Lemma den_get_fut : forall tbl f k, den tbl (get_fut O f k) = den tbl (k (fv tbl f)).
  Proof. intros tbl [r|i] k; reflexivity. Qed.

  Lemma den_collect_list : forall p futs i acc tbl k,
    den tbl (collect_list O p i futs acc k) = den tbl (k (dcollect_list p i (map (fv tbl) futs) acc)).
  Proof.
    intros p futs. induction futs as [|f futs IH]; intros i acc tbl k; simpl; [reflexivity|].
    rewrite den_get_fut. destruct (list_step p i (fv tbl f) acc); simpl; auto.
  Qed.

  Lemma den_collect_object : forall vals acc tbl k,
    den tbl (collect_object O vals acc k) = den tbl (k (dcollect_object (map (fun kv => (fst kv, fv tbl (snd kv))) vals) acc)).
  Proof.
    intros vals. induction vals as [|[key f] vals IH]; intros acc tbl k; simpl; [reflexivity|].
    rewrite den_get_fut. destruct (object_step key (fv tbl f) acc); simpl; auto.
  Qed.

  Definition means_robj (robj : O -> field_path -> M O (result rr)) (drobj : O -> field_path -> result rr) : Prop :=
    forall o fp tbl, exists tbl', ext tbl tbl' /\ forall k, den tbl (robj o fp k) = den tbl' (k (drobj o fp)).

  Definition rel_fut (tbl : list (result rr)) (x : result fut) (d : result (result rr)) : Prop :=
    match x, d with
    | Ok fu, Ok r => fok tbl fu /\ fv tbl fu = r
    | Throw e, Throw e' => e = e'
    | UB, UB => True
    | _, _ => False
    end.

  Section ConvertDen.
    Variable lch : launch.
    Variable robj : O -> field_path -> M O (result rr).
    Variable drobj : O -> field_path -> result rr.
    Hypothesis Hrobj : means_robj robj drobj.

    Lemma den_build_object : forall p r tbl, exists tbl', ext tbl tbl' /\
      forall k, den tbl (build_object O robj p r k) = den tbl' (k (dbuild_object drobj p r)).
    Proof.
      intros p [[o|]|e|] tbl; unfold build_object, dbuild_object; simpl.
      - apply Hrobj.
      - exists tbl. auto.
      - exists tbl. auto.
      - exists tbl. auto.
    Qed.

    Lemma den_spawned : forall p r, den [] (awaited O true p (build_object O robj p r Ret)) = dbuild_object drobj p r.
    Proof. intros. simpl. destruct (den_build_object p r []) as [t [_ E]]. rewrite E. reflexivity. Qed.

    Lemma den_convert : forall f p tbl, exists tbl' x, ext tbl tbl' /\ rel_fut tbl' x (dconvert drobj f p) /\
      forall k, den tbl (convert O lch robj f p k) = den tbl' (k x).
    Proof.
      induction f as [b isf v|isf r|r|f IH| |e| |l IH|e|] using fres_ind'; intros p tbl.
      - simpl. destruct (if b then block_sub_fields p else Ok tt) as [u|e|]; simpl.
        + destruct isf.
          * exists (tbl ++ [build_leaf p v]), (Ok (FIdx (length tbl))). split; [auto|]. split; [|reflexivity].
            split; [apply fok_new | apply fv_new].
          * exists tbl, (Ok (FReady (build_leaf p v))). simpl. auto.
        + exists tbl, (Throw e). simpl. auto.
        + exists tbl, UB. simpl. auto.
      - simpl. destruct (require_sub_fields p) as [u|e|]; simpl.
        + destruct isf.
          * exists (tbl ++ [dbuild_object drobj p r]), (Ok (FIdx (length tbl))). split; [auto|]. split.
            { split; [apply fok_new | apply fv_new]. }
            intros k. simpl. rewrite <- den_spawned. reflexivity.
          * destruct (den_build_object p r tbl) as [tbl' [E1 E2]].
            destruct (dbuild_object drobj p r) as [v|e|] eqn:D; simpl.
            { exists tbl', (Ok (FReady (Ok v))). split; [auto|]. split; [simpl; auto|]. intros k. now rewrite E2. }
            { exists tbl', (Throw e). split; [auto|]. split; [simpl; auto|]. intros k. now rewrite E2. }
            { exists tbl', UB. split; [auto|]. split; [simpl; auto|]. intros k. now rewrite E2. }
        + exists tbl, (Throw e). simpl. auto.
        + exists tbl, UB. simpl. auto.
      - simpl. destruct (require_sub_fields p) as [u|e|]; simpl.
        + exists (tbl ++ [dbuild_object drobj p r]), (Ok (FIdx (length tbl))). split; [auto|]. split.
          { split; [apply fok_new | apply fv_new]. }
          intros k. simpl. rewrite <- den_spawned. reflexivity.
        + exists tbl, (Throw e). simpl. auto.
        + exists tbl, UB. simpl. auto.
      - simpl. eexists (tbl ++ [_]), (Ok (FIdx (length tbl))). split; [auto|]. split.
        { split; [apply fok_new | apply fv_new]. }
        intros k. simpl. repeat f_equal.
        destruct (IH p []) as [t' [x [_ [R E]]]]. rewrite E.
        destruct x as [fu|e|], (dconvert drobj f p) as [r|e'|]; simpl in R; try contradiction; simpl.
        + rewrite den_get_fut. simpl. tauto.
        + now subst.
        + reflexivity.
      - simpl. exists (tbl ++ [Ok (mkRR VNull [])]), (Ok (FIdx (length tbl))). split; [auto|]. split; [|reflexivity].
        split; [apply fok_new | apply fv_new].
      - simpl. exists (tbl ++ [Throw e]), (Ok (FIdx (length tbl))). split; [auto|]. split; [|reflexivity].
        split; [apply fok_new | apply fv_new].
      - simpl. exists (tbl ++ [UB]), (Ok (FIdx (length tbl))). split; [auto|]. split; [|reflexivity].
        split; [apply fok_new | apply fv_new].
      - rewrite dconvert_list_eq. simpl convert. eexists (tbl ++ [_]), (Ok (FIdx (length tbl))). split; [auto|]. split.
        { split; [apply fok_new | apply fv_new]. }
        intros k. simpl. repeat f_equal.
        match goal with |- den [] (?g 0%N l []) = _ =>
          enough (G : forall l' i acc t, Forall (fun f => forall p tbl, exists tbl' x, ext tbl tbl' /\ rel_fut tbl' x (dconvert drobj f p) /\
             forall k, den tbl (convert O lch robj f p k) = den tbl' (k x)) l' -> Forall (fok t) acc ->
             den t (g i l' acc) = (rs <- dconvert_list drobj p i l' ;; dcollect_list p 0 (map (fv t) acc ++ rs) ([], []))) end.
        { rewrite G; auto. }
        clear l IH. induction l' as [|f l' IHl]; intros i acc t HF HA.
        + simpl. rewrite den_collect_list. simpl. now rewrite app_nil_r.
        + inversion HF as [|? ? Hf HF']; subst.
          destruct (Hf (with_path p (PIndex i :: rp_path p)) t) as [t' [x [X [R E]]]].
          rewrite E. simpl dconvert_list.
          destruct x as [fu|e|], (dconvert drobj f (with_path p (PIndex i :: rp_path p))) as [r|e'|]; simpl in R; try contradiction; simpl.
          * rewrite IHl; auto.
            2:{ apply Forall_app. split; [|constructor; [tauto|constructor]].
                eapply Forall_impl; [|exact HA]. intros a Ha. eapply fok_ext; eauto. }
            destruct (dconvert_list drobj p (N.succ i) l'); simpl; auto.
            rewrite map_app. simpl. rewrite <- app_assoc. simpl. destruct R as [_ ->].
            do 2 f_equal. apply map_ext_in. intros kv Ha. rewrite Forall_forall in HA. apply fv_ext; auto.
          * now subst.
          * reflexivity.
      - simpl. exists (tbl ++ [Throw e]), (Ok (FIdx (length tbl))). split; [auto|]. split; [|reflexivity].
        split; [apply fok_new | apply fv_new].
      - simpl. exists (tbl ++ [UB]), (Ok (FIdx (length tbl))). split; [auto|]. split; [|reflexivity].
        split; [apply fok_new | apply fv_new].
    Qed.
  End ConvertDen.

  (** visitor states *)
  Definition rel_st (tbl : list (result rr)) (st : vstate) (d : dstate) : Prop :=
    v_names st = d_names d /\ Forall (fun kv => fok tbl (snd kv)) (v_values st) /\
    map (fun kv => (fst kv, fv tbl (snd kv))) (v_values st) = d_values d.

  Definition rel_res (tbl : list (result rr)) (x : result vstate) (d : result dstate) : Prop :=
    match x, d with
    | Ok st, Ok ds => rel_st tbl st ds
    | Throw e, Throw e' => e = e'
    | UB, UB => True
    | _, _ => False
    end.

  Definition means_vis (vis : selection -> vstate -> M O (result vstate)) (dvis : selection -> dstate -> result dstate) : Prop :=
    forall s st ds tbl, rel_st tbl st ds -> exists tbl' x, ext tbl tbl' /\ rel_res tbl' x (dvis s ds) /\
      forall k, den tbl (vis s st k) = den tbl' (k x).

  Lemma rel_st_ext : forall t t' st d, rel_st t st d -> ext t t' -> rel_st t' st d.
  Proof.
    intros t t' st d [A [B C]] E. split; [exact A|]. split.
    - eapply Forall_impl; [|exact B]. simpl. intros a Ha. eapply fok_ext; eauto.
    - rewrite <- C. apply map_ext_in. intros a Ha. rewrite Forall_forall in B. f_equal. apply fv_ext; auto.
  Qed.

  Lemma den_visit_all : forall vis dvis, means_vis vis dvis -> forall sels st ds tbl, rel_st tbl st ds ->
    exists tbl' x, ext tbl tbl' /\ rel_res tbl' x (dvisit_all dvis sels ds) /\
      forall k, den tbl (visit_all O vis sels st k) = den tbl' (k x).
  Proof.
    intros vis dvis Hv. induction sels as [|s sels IH]; intros st ds tbl R; simpl.
    - exists tbl, (Ok st). simpl. auto.
    - destruct (Hv s st ds tbl R) as [t1 [x [E1 [R1 K1]]]].
      destruct x as [st'|e|], (dvis s ds) as [ds'|e'|]; simpl in R1; try contradiction; simpl.
      + destruct (IH st' ds' t1 R1) as [t2 [x [E2 [R2 K2]]]]. exists t2, x. split; [eapply ext_trans; eauto|]. split; [auto|].
        intros k. rewrite K1. apply K2.
      + subst. exists t1, (Throw e'). simpl. split; [auto|]. split; [auto|]. intros k. rewrite K1. reflexivity.
      + exists t1, UB. simpl. split; [auto|]. split; [auto|]. intros k. rewrite K1. reflexivity.
  Qed.

  Definition means_visitor (vis : visitor O) (dvis : dvisitor) : Prop :=
    forall o fp fd, means_vis (vis o fp fd) (dvis o fp fd).

  Lemma den_resolve_with : forall vis dvis, means_visitor vis dvis -> forall sels,
    means_robj (fun o fp => resolve_with O vis o fp sels) (fun o fp => dresolve_with dvis o fp sels).
  Proof.
    intros vis dvis Hv sels o fp tbl. unfold resolve_with, dresolve_with.
    destruct (den_visit_all _ _ (Hv o fp no_fdirs) sels (mkV [] []) (mkD [] []) tbl) as [t1 [x [E1 [R1 K1]]]].
    { split; [reflexivity|]. split; [constructor | reflexivity]. }
    exists t1. split; [auto|]. intros k. simpl. rewrite K1.
    destruct x as [st|e|], (dvisit_all (dvis o fp no_fdirs) sels (mkD [] [])) as [ds|e'|]; simpl in R1; try contradiction; simpl.
    - destruct R1 as [_ [_ R]]. rewrite den_collect_object, R. reflexivity.
    - now subst.
    - reflexivity.
  Qed.

  Notation visit := (visit O typenames has_field).

  Lemma rel_store : forall t t' st ds names key fu r, rel_st t st ds -> ext t t' -> fok t' fu -> fv t' fu = r ->
    rel_st t' (mkV names (v_values st ++ [(key, fu)])) (mkD names (d_values ds ++ [(key, r)])).
  Proof.
    intros t t' st ds names key fu r R E F V. destruct (rel_st_ext _ _ _ _ R E) as [_ [B C]].
    split; [reflexivity|]. split.
    - simpl. apply Forall_app. split; auto.
    - simpl. rewrite map_app, C. simpl. now rewrite V.
  Qed.

  Lemma rel_names : forall t st ds names, rel_st t st ds -> rel_st t (mkV names (v_values st)) (mkD names (d_values ds)).
  Proof. intros t st ds names [_ [B C]]. split; [reflexivity|]. split; auto. Qed.

  Lemma den_visit : forall fuel env, means_visitor (visit fuel env) (dvisit fuel env).
  Proof.
    induction fuel as [|n IH]; intros env o fp fd s st ds tbl R.
    { exists tbl, UB. simpl. auto. }
    destruct s as [loc alias name args dirs sub|loc name dirs|loc cond dirs sel].
    - simpl. unfold visit_field, dvisit_field, directives_of. destruct R as [RN RR]. rewrite RN.
      assert (R : rel_st tbl st ds) by (split; auto).
      set (key := response_key alias name).
      destruct (existsb (String.eqb key) (d_names ds)); [exists tbl, (Ok st); simpl; auto|].
      destruct (negb (has_field o name)).
      { eexists tbl, _. split; [auto|]. split; [|intros; reflexivity]. simpl. eapply rel_store; eauto; simpl; auto. }
      destruct (visit_directives (e_vars env) dirs []) as [dv|e|]; simpl; [|exists tbl, (Throw e); simpl; auto|exists tbl, UB; simpl; auto].
      destruct (should_skip dv) as [[|]|e|]; simpl; [| |exists tbl, (Throw e); simpl; auto|exists tbl, UB; simpl; auto].
      { eexists tbl, _. split; [auto|]. split; [|intros; reflexivity]. simpl. now apply rel_names. }
      destruct (visit_arguments (e_vars env) args []) as [avs|e|]; simpl; [|exists tbl, (Throw e); simpl; auto|exists tbl, UB; simpl; auto].
      unfold dfield. destruct (ans o name _) as [e|f] eqn:A.
      { eexists tbl, _. split; [auto|]. split; [|intros; cbn [ExecSemProofs.den]; reflexivity]. simpl. eapply rel_store; eauto; simpl; auto. }
      match goal with |- context [dconvert ?dr f ?rp] =>
        destruct (den_convert (e_launch env) _ dr (den_resolve_with _ _ (IH env) _) f rp tbl) as [t1 [x [E1 [R1 K1]]]];
        destruct x as [fu|e|], (dconvert dr f rp) as [r|e'|]; simpl in R1; try contradiction; simpl end.
      + eexists t1, _. split; [auto|]. split; [|intros k; cbn [ExecSemProofs.den]; try rewrite A; rewrite K1; reflexivity].
        destruct R1. eapply rel_store; eauto.
      + subst. eexists t1, _. split; [auto|]. split; [|intros k; cbn [ExecSemProofs.den]; try rewrite A; rewrite K1; reflexivity].
        eapply rel_store; eauto; simpl; auto.
      + exists t1, UB. simpl. split; [auto|]. split; [auto|]. intros k. cbn [ExecSemProofs.den]. try rewrite A. rewrite K1. reflexivity.
    - simpl. unfold visit_spread, dvisit_spread, directives_of.
      destruct (find_fragment name (e_frags env)) as [fr|]; [|eexists tbl, (Throw _); simpl; auto].
      destruct (negb (matches_type O typenames o (fr_type fr))); [exists tbl, (Ok st); simpl; auto|].
      destruct (visit_directives (e_vars env) dirs []) as [dv|e|]; simpl; [|exists tbl, (Throw e); simpl; auto|exists tbl, UB; simpl; auto].
      destruct (should_skip dv) as [[|]|e|]; simpl; [| |exists tbl, (Throw e); simpl; auto|exists tbl, UB; simpl; auto].
      { exists tbl, (Ok st). simpl. auto. }
      apply den_visit_all; auto. apply IH.
    - simpl. unfold visit_inline, dvisit_inline, directives_of.
      destruct (visit_directives (e_vars env) dirs []) as [dv|e|]; simpl; [|exists tbl, (Throw e); simpl; auto|exists tbl, UB; simpl; auto].
      destruct (should_skip dv) as [[|]|e|]; simpl; [| |exists tbl, (Throw e); simpl; auto|exists tbl, UB; simpl; auto].
      { exists tbl, (Ok st). simpl. auto. }
      destruct (match cond with Some (_, t) => matches_type O typenames o t | None => true end).
      + apply den_visit_all; auto. apply IH.
      + exists tbl, (Ok st). simpl. auto.
  Qed.

  Theorem den_resolve : forall fuel env o fp sels,
    den [] (resolve O typenames has_field fuel env o fp sels Ret) = dresolve fuel env o fp sels.
  Proof.
    intros. destruct (den_resolve_with _ _ (den_visit fuel env) sels o fp []) as [t [_ E]].
    unfold resolve. rewrite E. reflexivity.
  Qed.
End Direct.
