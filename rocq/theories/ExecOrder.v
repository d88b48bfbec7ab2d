(** The accessors of one object are called in the order of the document, each once, in every execution. *)
From Verif Require Import Cpp Value Ast ErrorModel ExecModel ExecSem ExecSpec ExecValues ExecDirect ExecProofs ExecProofs2 ExecProofs3 ExecCalls.
Local Open Scope string_scope.
Local Open Scope list_scope.

Section Order.
  Variable O : Type.
  Variable base : list path_segment.

  (** the key of a call at this level; deeper calls have longer paths *)
  Definition level_call (e : event O) : option string :=
    match e with
    | EvCall _ _ p => if Nat.eqb (length (p_path p)) (S (length base)) then Some (p_name p) else None
    | _ => None
    end.
  Fixpoint level_keys (evs : list (event O)) : list string :=
    match evs with
    | [] => []
    | e :: r => match level_call e with Some k => k :: level_keys r | None => level_keys r end
    end.
  Lemma level_keys_app : forall a b, level_keys (a ++ b) = level_keys a ++ level_keys b.
  Proof. induction a as [|e a IH]; intros b; simpl; auto. rewrite IH. destruct (level_call e); reflexivity. Qed.

  Definition deep (e : event O) : Prop := level_call e = None.
  Lemma deep_none : forall evs, Forall deep evs -> level_keys evs = [].
  Proof. induction 1 as [|e evs H F IH]; simpl; auto. rewrite H. exact IH. Qed.

  Fixpoint ordered (ks : list string) (c : comp O) : Prop :=
    match c with
    | Ret (Ok _) => ks = []
    | Ret _ => True
    | Call o f p k =>
        match level_call (EvCall o f p) with
        | None => forall a, ordered ks (k a)
        | Some key => exists ks', ks = key :: ks' /\ forall a, ordered ks' (k a)
        end
    | Emit e k => deep e /\ ordered ks k
    | Spawn _ c k => all_events O deep c /\ forall i, ordered ks (k i)
    | Get _ k => forall r, ordered ks (k r)
    end.

  Variable St : Type.
  Variable handler : St -> O -> string -> fparams -> St * answer O.

  Definition orderedT (ks : list string) (t : thread O) : Prop :=
    match t with T kids c => ordered ks c /\ Forall (all_eventsK O deep) kids end.

  Lemma ordered_step : forall s t ev s' t' ks, step handler s t ev s' t' -> orderedT ks t ->
    exists ks', ks = level_keys ev ++ ks' /\ orderedT ks' t'.
  Proof.
    intros s t ev s' t' ks H. inversion H; subst; intros [A B].
    - cbn [ordered] in A. cbn [level_keys]. destruct (level_call (EvCall o f p)) as [key|].
      + destruct A as [ks' [-> A]]. exists ks'. split; [reflexivity | split; [apply A | exact B]].
      + exists ks. split; [reflexivity | split; [apply A | exact B]].
    - destruct A as [A1 A2]. exists ks. simpl. rewrite A1. split; [reflexivity | split; [exact A2 | exact B]].
    - destruct A as [A1 A2]. exists ks. split; [reflexivity | split; [apply A2 | apply Forall_app; split; [exact B | constructor; [exact A1 | constructor]]]].
    - destruct A as [A1 A2]. exists ks. split; [reflexivity | split; [apply A2 | apply Forall_app; split; [exact B|]]].
      constructor; [split; [exact A1 | exact I] | constructor].
    - exists ks. split; [reflexivity | split; [exact A | apply Forall_update; auto]].
      rewrite Forall_forall in B. apply nth_error_In in H0. apply B in H0. split; [exact H0 | exact I].
    - exists ks. split; [reflexivity | split; [apply A | exact B]].
    - exists ks. split; [reflexivity | split; [apply A | exact B]].
    - assert (K : all_eventsT O deep t0). { rewrite Forall_forall in B. apply nth_error_In in H0. apply B in H0. exact H0. }
      destruct (all_events_step O deep St handler _ _ _ _ _ H1 K) as [E1 E2]. rewrite (deep_none _ E1).
      exists ks. split; [reflexivity | split; [exact A | apply Forall_update; auto]].
    - exists ks. split; [reflexivity | split; [exact A | apply Forall_update; [exact B | exact I]]].
  Qed.

  Lemma ordered_steps : forall n s t evs s' t' ks, steps handler n s t evs s' t' -> orderedT ks t ->
    exists ks', ks = level_keys evs ++ ks' /\ orderedT ks' t'.
  Proof.
    intros n s t evs s' t' ks H. revert ks. induction H as [|n s t ev s1 t1 evs s2 t2 H H0 IH]; intros ks A; [exists ks; split; [reflexivity | exact A]|].
    destruct (ordered_step _ _ _ _ _ _ H A) as [ks1 [-> A1]]. destruct (IH _ A1) as [ks2 [-> A2]].
    exists ks2. rewrite level_keys_app, app_assoc. auto.
  Qed.

  Lemma ordered_run : forall ks c n s evs s' t', ordered ks c -> steps handler n s (T [] c) evs s' t' ->
    (exists ks', ks = level_keys evs ++ ks') /\ (forall r, ended t' (Ok r) -> level_keys evs = ks).
  Proof.
    intros ks c n s evs s' t' A H. destruct (ordered_steps _ _ _ _ _ _ ks H (conj A (Forall_nil _))) as [ks' [E B]].
    destruct t' as [kids c']. destruct B as [B _]. split; [eauto|]. intros r Hr. destruct c' as [r'| | | |]; simpl in Hr; try contradiction.
    destruct Hr as [-> _]. simpl in B. subst. now rewrite app_nil_r.
  Qed.
End Order.

(** programs all of whose events are deep *)
Section Deep.
  Variable O : Type.
  Variables (typenames : O -> list string) (has_field : O -> string -> bool).
  Variable base : list path_segment.
  Notation deep := (deep O base).

  Lemma wp_all : forall (vis : selection -> vstate -> M O (result vstate)) sels,
    (forall s st, wp O deep (vis s st) (fun _ => True)) -> forall st, wp O deep (visit_all O vis sels st) (fun _ => True).
  Proof.
    intros vis sels H. induction sels as [|s sels IH]; intros st k Hk; simpl; auto.
    apply H. intros [st'|x|] _; auto. apply IH; auto.
  Qed.

  Lemma deep_visit : forall fuel e o fp fd s st, length base < length fp -> wp O deep (visit O typenames has_field fuel e o fp fd s st) (fun _ => True).
  Proof.
    induction fuel as [|n IH]; intros e o fp fd s st L k Hk; [now apply Hk|].
    destruct s as [loc al nm args dirs sub|loc nm dirs|loc cond dirs sel]; simpl.
    - unfold visit_field. destruct (existsb _ _); [now apply Hk|]. destruct (has_field o nm) eqn:HF; simpl; [|now apply Hk].
      destruct (bind (visit_directives (e_vars e) dirs []) _) as [[ds [|]]|x|] eqn:ED; try (now apply Hk).
      destruct (visit_arguments (e_vars e) args []) as [avs|x|] eqn:EA; try (now apply Hk). split.
      + unfold ExecOrder.deep. simpl. rewrite build_error_path_rev. simpl. rewrite app_length, rev_length. simpl.
        destruct (Nat.eqb_spec (length fp + 1) (S (length base))); auto. lia.
      + intros [x|f]; [now apply Hk|].
        apply (wp_convert O deep (e_launch e) _ (fun q => length base < length q)) with (Q := fun _ => True); auto.
        * simpl. intros. lia.
        * intros o' q Lq k' Hk'. unfold resolve_with. simpl. split; [reflexivity|].
          apply wp_all; [intros; now apply IH|]. intros [st'|x|] _; auto. simpl. split; [reflexivity|].
          apply (wp_collect_object O deep _ _ (fun _ => True)); auto.
        * intros q Lq. reflexivity.
        * simpl. lia.
        * intros [fu|x|] _; now apply Hk.
    - unfold visit_spread. destruct (find_fragment nm (e_frags e)) as [fr|] eqn:FF; [|now apply Hk].
      destruct (matches_type O typenames o (fr_type fr)) eqn:MT; simpl; [|now apply Hk].
      destruct (bind (visit_directives (e_vars e) dirs []) _) as [[ds [|]]|x|] eqn:ED; try (now apply Hk).
      apply wp_all; auto.
    - unfold visit_inline.
      destruct (bind (visit_directives (e_vars e) dirs []) _) as [[ds [|]]|x|] eqn:ED; try (now apply Hk).
      destruct (match cond with Some (_, t) => matches_type O typenames o t | None => true end) eqn:MT; [|now apply Hk].
      apply wp_all; auto.
  Qed.

  Lemma deep_resolve_with : forall fuel e o fp sels, length base < length fp ->
    wp O deep (resolve_with O (visit O typenames has_field fuel e) o fp sels) (fun _ => True).
  Proof.
    intros fuel e o fp sels L k Hk. unfold resolve_with. simpl. split; [reflexivity|].
    apply wp_all; [intros; now apply deep_visit|]. intros [st'|x|] _; auto. simpl. split; [reflexivity|].
    apply (wp_collect_object O deep _ _ (fun _ => True)); auto.
  Qed.
End Deep.

(** ordered programs with continuations *)
Section OrderedWp.
  Variable O : Type.
  Variable base : list path_segment.
  Notation ordered := (ordered O base).
  Notation deep := (deep O base).

  (** [m] makes no call of this level *)
  Definition quiet {A} (m : M O A) : Prop := forall ks k, (forall a, ordered ks (k a)) -> ordered ks (m k).

  Lemma quiet_get : forall f, quiet (get_fut O f).
  Proof. intros [r|i] ks k H; simpl; auto. Qed.
  Lemma quiet_collect_object : forall vals acc, quiet (collect_object O vals acc).
  Proof.
    induction vals as [|[key f] vals IH]; intros acc ks k H; simpl; auto.
    apply quiet_get. intros a. destruct (object_step key a acc); auto. now apply IH.
  Qed.

  Section Convert.
    Variable lch : launch.
    Variable robj : O -> field_path -> M O (result rr).
    Hypothesis Hq : forall o fp, length base < length fp -> quiet (robj o fp).
    Hypothesis Hd : forall o fp, length base < length fp -> wp O deep (robj o fp) (fun _ => True).

    Lemma deep_build : forall p r, length base < length (rp_path p) -> all_events O deep (build_object O robj p r Ret).
    Proof. intros p [[o|]|e|] L; simpl; auto. apply Hd; simpl; auto. Qed.

    Lemma quiet_convert : forall f p, length base < length (rp_path p) -> quiet (convert O lch robj f p).
    Proof.
      intros f p L ks k Hk. 
      assert (W : forall f p k, length base < length (rp_path p) -> (forall a, all_events O deep (k a)) -> all_events O deep (convert O lch robj f p k)).
      { intros f0 p0 k0 L0 H0. apply (wp_convert O deep lch robj (fun q => length base < length q)) with (Q := fun _ => True); auto.
        - simpl. intros. lia.
        - intros. reflexivity. }
      destruct f as [b isf v|isf r|r|r|r]; simpl.
      - destruct (if b then block_sub_fields p else Ok tt); auto. destruct isf; simpl; auto. split; auto. split; auto. reflexivity.
      - destruct (require_sub_fields p); auto. destruct isf; simpl.
        + split; auto. split; [reflexivity|]. now apply deep_build.
        + destruct r as [[o|]|e|]; simpl; auto. apply Hq; auto. intros [x|e|]; auto.
      - destruct (require_sub_fields p); auto. simpl. split; auto. split; [reflexivity|]. now apply deep_build.
      - split; auto. split; [reflexivity|]. destruct r as [[f'|]|e|]; simpl; auto. apply W; auto.
        intros [fu|e|]; simpl; auto. apply (wp_get_fut O deep fu (fun _ => True)); simpl; auto.
      - split; auto. split; [reflexivity|]. destruct r as [l|e|]; simpl; auto.
        match goal with |- all_events O _ (?g 0%N l []) => set (go := g) end.
        assert (Lg : forall i acc, all_events O deep (go i l acc)); [|apply Lg].
        induction l as [|f' l IHl]; intros i acc; simpl.
        + apply (wp_collect_list O deep p acc 0 ([], []) (fun _ => True)); simpl; auto.
        + apply W; simpl; auto. intros [fu|e|]; simpl; auto.
    Qed.
  End Convert.

  Variables (typenames : O -> list string) (has_field : O -> string -> bool).

  Lemma quiet_all : forall (vis : selection -> vstate -> M O (result vstate)) sels,
    (forall s st, quiet (vis s st)) -> forall st, quiet (visit_all O vis sels st).
  Proof.
    intros vis sels H. induction sels as [|s sels IH]; intros st ks k Hk; simpl; auto.
    apply H. intros [st'|x|]; auto. apply IH; auto.
  Qed.

  (** sub-selections make no call of this level *)
  Lemma quiet_visit : forall fuel e o fp fd s st, length base < length fp -> quiet (visit O typenames has_field fuel e o fp fd s st).
  Proof.
    induction fuel as [|n IH]; intros e o fp fd s st L ks k Hk; [now apply Hk|].
    destruct s as [loc al nm args dirs sub|loc nm dirs|loc cond dirs sel]; simpl.
    - unfold visit_field. destruct (existsb _ _); [now apply Hk|]. destruct (has_field o nm) eqn:HF; simpl; [|now apply Hk].
      destruct (bind (visit_directives (e_vars e) dirs []) _) as [[ds [|]]|x|] eqn:ED; try (now apply Hk).
      destruct (visit_arguments (e_vars e) args []) as [avs|x|] eqn:EA; try (now apply Hk).
      simpl. rewrite build_error_path_rev. simpl. rewrite app_length, rev_length. simpl.
      destruct (Nat.eqb_spec (length fp + 1) (S (length base))); [lia|].
      intros [x|f]; [now apply Hk|]. apply quiet_convert; simpl; try lia.
      + intros o' q Lq ks' k' Hk'. unfold resolve_with. simpl. split; [reflexivity|].
        apply quiet_all; [intros; now apply IH|]. intros [st'|x|]; auto. simpl. split; [reflexivity|]. now apply quiet_collect_object.
      + intros. now apply deep_resolve_with.
      + intros [fu|x|]; now apply Hk.
    - unfold visit_spread. destruct (find_fragment nm (e_frags e)) as [fr|] eqn:FF; [|now apply Hk].
      destruct (matches_type O typenames o (fr_type fr)) eqn:MT; simpl; [|now apply Hk].
      destruct (bind (visit_directives (e_vars e) dirs []) _) as [[ds [|]]|x|] eqn:ED; try (now apply Hk).
      apply quiet_all; auto.
    - unfold visit_inline.
      destruct (bind (visit_directives (e_vars e) dirs []) _) as [[ds [|]]|x|] eqn:ED; try (now apply Hk).
      destruct (match cond with Some (_, t) => matches_type O typenames o t | None => true end) eqn:MT; [|now apply Hk].
      apply quiet_all; auto.
  Qed.

  (** the visitor of this level *)
  Definition any_fail (k : result vstate -> comp O) : Prop := forall ks, (forall e, ordered ks (k (Throw e))) /\ ordered ks (k UB).

  Lemma scan_names : forall occs ns, incl ns (snd (scan occs ns)).
  Proof.
    induction occs as [|oc occs IH]; intros ns; simpl; [apply incl_refl|].
    destruct (existsb _ ns); [apply IH|].
    destruct (scan occs (ns ++ [oc_key oc])) eqn:E. simpl. specialize (IH (ns ++ [oc_key oc])). rewrite E in IH. simpl in IH.
    intros x Hx. apply IH. apply in_or_app. now left.
  Qed.

  Lemma visit_all_cons : forall (vis : selection -> vstate -> M O (result vstate)) s r st k,
    visit_all O vis (s :: r) st k = vis s st (fun x => match x with Ok st' => visit_all O vis r st' k | Throw e => k (Throw e) | UB => k UB end).
  Proof. reflexivity. Qed.
  Lemma visit_0 : forall e o fp fd s st k, visit O typenames has_field 0 e o fp fd s st k = k UB.
  Proof. reflexivity. Qed.
  Lemma visit_S_field : forall n e o fp fd loc al nm args dirs sub st,
    visit O typenames has_field (S n) e o fp fd (SField loc al nm args dirs sub) st =
    visit_field O has_field e (visit O typenames has_field n e) o fp fd loc al nm args dirs sub st.
  Proof. reflexivity. Qed.
  Lemma visit_S_spread : forall n e o fp fd loc nm dirs st,
    visit O typenames has_field (S n) e o fp fd (SSpread loc nm dirs) st =
    visit_spread O typenames e (visit O typenames has_field n e) o fp fd loc nm dirs st.
  Proof. reflexivity. Qed.
  Lemma visit_S_inline : forall n e o fp fd loc c dirs sel st,
    visit O typenames has_field (S n) e o fp fd (SInline loc c dirs sel) st =
    visit_inline O typenames e (visit O typenames has_field n e) o fp fd c dirs sel st.
  Proof. reflexivity. Qed.

  Lemma ordered_visit : forall vars frags types sels occs, expands vars frags types sels occs -> copyable vars ->
    forall e o, e_vars e = VMap vars -> e_frags e = frags -> typenames o = types ->
    Forall (fun oc => has_field o (oc_name oc) = true) occs ->
    forall n fp fd st rest k, length fp = length base -> any_fail k ->
    (forall st', v_names st' = snd (scan occs (v_names st)) -> ordered rest (k (Ok st'))) ->
    ordered (fst (scan occs (v_names st)) ++ rest) (visit_all O (visit O typenames has_field n e o fp fd) sels st k).
  Proof.
    intros vars frags types sels occs X Hc. induction X as [|loc al nm args dirs sub b rest0 occs D X IH
      |loc nm fr dirs rest0 o1 o2 F M D X1 IH1 X2 IH2|loc nm fr dirs rest0 o2 F M X IH|loc c dirs sel rest0 o1 o2 M D X1 IH1 X2 IH2
      |loc c dirs sel rest0 b o2 D M X IH]; intros e o Hv Hfr Ht HF n fp fd st rest k L AF Hk.
    - simpl. now apply Hk.
    - inversion HF as [|? ? HF1 HF2]; subst. cbn [oc_name oc_key oc_kept] in *.
      rewrite visit_all_cons. destruct n as [|n]; [rewrite visit_0; apply AF|].
      rewrite visit_S_field. unfold visit_field. cbn [scan oc_key oc_kept].
      destruct (existsb (String.eqb (response_key al nm)) (v_names st)) eqn:EX.
      + apply IH; auto. intros st' E. apply Hk. cbn [scan oc_key]. rewrite EX. exact E.
      + rewrite HF1. cbn [negb].
        destruct (decides_iff _ _ _ Hc D) as [ds [E1 E2]]. rewrite Hv, E1. cbn [bind]. rewrite E2. cbn [bind].
        destruct (scan occs (v_names st ++ [response_key al nm])) as [ks ns] eqn:ES. cbn [scan oc_key oc_kept] in Hk. rewrite EX, ES in Hk. simpl in Hk.
        assert (Rec : forall vals, ordered (ks ++ rest) (visit_all O (visit O typenames has_field (S n) e o fp fd) rest0 (mkV (v_names st ++ [response_key al nm]) vals) k)).
        { intros vals. pose proof (IH e o Hv eq_refl eq_refl HF2 (S n) fp fd (mkV (v_names st ++ [response_key al nm]) vals) rest k L AF) as R.
          cbn [v_names] in R. rewrite ES in R. cbn [fst snd] in R. apply R. exact Hk. }
        destruct b; cbn [negb fst app].
        * destruct (visit_arguments (VMap vars) args []) as [avs|x|]; [|apply AF|apply AF].
          cbn [ExecOrder.ordered level_call p_path p_name]. rewrite build_error_path_rev. simpl rev. rewrite app_length, rev_length. simpl length.
          destruct (Nat.eqb_spec (length fp + 1) (S (length base))); [|lia]. exists (ks ++ rest). split; [reflexivity|].
          intros [x|f]; [apply Rec|]. apply quiet_convert; simpl; try lia.
          -- intros o' q Lq ks' k' Hk'. unfold resolve_with. simpl. split; [reflexivity|].
             apply quiet_all; [intros; now apply quiet_visit|]. intros [st'|x|]; auto. simpl. split; [reflexivity|]. now apply quiet_collect_object.
          -- intros. now apply deep_resolve_with.
          -- intros [fu|x|]; [apply Rec | apply Rec | apply AF].
        * apply Rec.
    - subst. apply Forall_app in HF. destruct HF as [HFa HFb]. rewrite visit_all_cons. destruct n as [|n]; [rewrite visit_0; apply AF|].
      rewrite visit_S_spread. unfold visit_spread. rewrite F. rewrite (proj2 (matches_iff O typenames o _) M). cbn [negb].
      destruct (decides_iff _ _ _ Hc D) as [ds [E1 E2]]. rewrite Hv, E1. cbn [bind]. rewrite E2. cbn [bind negb].
      rewrite scan_app. cbn [fst snd]. rewrite <- app_assoc. apply IH1; auto.
      intros st' En. rewrite <- En. apply IH2; auto. intros st'' En'. apply Hk. rewrite scan_app. cbn [snd]. now rewrite En', En.
    - subst. rewrite visit_all_cons. destruct n as [|n]; [rewrite visit_0; apply AF|].
      rewrite visit_S_spread. unfold visit_spread. rewrite F.
      destruct (matches_type O typenames o (fr_type fr)) eqn:MT; cbn [negb]; [|apply IH; auto].
      destruct M as [M|D]; [apply matches_iff in MT; contradiction|].
      destruct (decides_iff _ _ _ Hc D) as [ds [E1 E2]]. rewrite Hv, E1. cbn [bind]. rewrite E2. cbn [bind negb]. apply IH; auto.
    - subst. apply Forall_app in HF. destruct HF as [HFa HFb]. rewrite visit_all_cons. destruct n as [|n]; [rewrite visit_0; apply AF|].
      rewrite visit_S_inline. unfold visit_inline.
      destruct (decides_iff _ _ _ Hc D) as [ds [E1 E2]]. rewrite Hv, E1. cbn [bind]. rewrite E2. cbn [bind negb].
      replace (match c with Some (_, t) => matches_type O typenames o t | None => true end) with true.
      + rewrite scan_app. cbn [fst snd]. rewrite <- app_assoc. apply IH1; auto.
        intros st' En. rewrite <- En. apply IH2; auto. intros st'' En'. apply Hk. rewrite scan_app. cbn [snd]. now rewrite En', En.
      + destruct c as [[l t]|]; auto. symmetry. apply matches_iff. eapply M; eauto.
    - subst. rewrite visit_all_cons. destruct n as [|n]; [rewrite visit_0; apply AF|].
      rewrite visit_S_inline. unfold visit_inline.
      destruct (decides_iff _ _ _ Hc D) as [ds [E1 E2]]. rewrite Hv, E1. cbn [bind]. rewrite E2. cbn [bind].
      destruct b; cbn [negb]; [|apply IH; auto]. destruct M as [M|[l [t [-> M]]]]; [discriminate|].
      replace (matches_type O typenames o t) with false by (symmetry; now apply matches_false). apply IH; auto.
  Qed.

  Lemma ordered_resolve : forall vars sels occs n e o fp, copyable vars -> e_vars e = VMap vars ->
    expands vars (e_frags e) (typenames o) sels occs -> Forall (fun oc => has_field o (oc_name oc) = true) occs ->
    length fp = length base ->
    ordered (first_kept occs) (resolve O typenames has_field n e o fp sels Ret).
  Proof.
    intros vars sels occs n e o fp Hc Hv X HF L. unfold resolve, resolve_with. simpl. split; [reflexivity|].
    pose proof (ordered_visit vars _ _ _ _ X Hc e o Hv eq_refl eq_refl HF n fp no_fdirs (mkV [] []) []) as H.
    rewrite app_nil_r in H. cbn [v_names] in H. rewrite scan_firsts in H.
    assert (E : first_kept occs = map fst (filter snd (filter (fun kv => negb (existsb (String.eqb (fst kv)) [])) (firsts (map (fun oc => (oc_key oc, oc_kept oc)) occs))))).
    { unfold first_kept. do 2 f_equal. symmetry. apply filter_true. reflexivity. }
    rewrite E. apply H; auto.
    - intros ks. split; intros; exact I.
    - intros st' _. simpl. split; [reflexivity|].
      assert (Q : forall vals acc, ordered [] (collect_object O vals acc Ret)).
      { induction vals as [|[key f] vals IHv]; intros acc; simpl; auto. destruct f as [r|i]; simpl.
        - destruct (object_step key r acc); simpl; auto.
        - intros r. destruct (object_step key r acc); simpl; auto. }
      apply Q.
  Qed.
End OrderedWp.
