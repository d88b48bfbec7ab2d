(** Root fields with immediate answers run one after the other. *)
From Verif Require Import Cpp Value Ast ErrorModel ExecModel ExecSem ExecSpec ExecSemProofs ExecProofs2 ExecCalls ExecOrder ExecSerial.
Local Open Scope string_scope.
Local Open Scope list_scope.

(** events below a path *)
Section Under.
  Variable O : Type.
  Variables (typenames : O -> list string) (has_field : O -> string -> bool).
  Variable key : string.
  Definition under (e : event O) : Prop := event_root e = Some key.
  Definition fp_under (fp : field_path) : Prop := exists r, rev fp = PName key :: r.
  Lemma fp_under_cons : forall fp s, fp_under fp -> fp_under (s :: fp).
  Proof. intros fp s [r E]. exists (r ++ [s]). simpl. now rewrite E. Qed.
  Lemma under_path : forall fp (e : event O), fp_under fp -> event_path e = build_error_path fp -> under e.
  Proof. intros fp e [r E] H. unfold under, event_root. rewrite H, build_error_path_rev, E. reflexivity. Qed.

  Lemma under_all : forall (vis : selection -> vstate -> M O (result vstate)) sels,
    (forall s st, wp O under (vis s st) (fun _ => True)) -> forall st, wp O under (visit_all O vis sels st) (fun _ => True).
  Proof.
    intros vis sels H. induction sels as [|s sels IH]; intros st k Hk; simpl; auto.
    apply H. intros [st'|x|] _; auto. apply IH; auto.
  Qed.

  Lemma under_visit : forall fuel e o fp fd s st, fp_under fp -> wp O under (visit O typenames has_field fuel e o fp fd s st) (fun _ => True).
  Proof.
    induction fuel as [|n IH]; intros e o fp fd s st L k Hk; [now apply Hk|].
    destruct s as [loc al nm args dirs sub|loc nm dirs|loc cond dirs sel]; simpl.
    - unfold visit_field. destruct (existsb _ _); [now apply Hk|]. destruct (has_field o nm) eqn:HF; simpl; [|now apply Hk].
      destruct (bind (visit_directives (e_vars e) dirs []) _) as [[ds [|]]|x|] eqn:ED; try (now apply Hk).
      destruct (visit_arguments (e_vars e) args []) as [avs|x|] eqn:EA; try (now apply Hk).
      pose proof (fp_under_cons _ (PName (response_key al nm)) L) as L'. split.
      + eapply under_path; [exact L'|reflexivity].
      + intros [x|f]; [now apply Hk|].
        apply (wp_convert O under (e_launch e) _ fp_under) with (Q := fun _ => True); auto.
        * intros. now apply fp_under_cons.
        * intros o' q Lq k' Hk'. unfold resolve_with. simpl. split; [eapply under_path; [exact Lq|reflexivity]|].
          apply under_all; [intros; now apply IH|]. intros [st'|x|] _; auto. simpl. split; [eapply under_path; [exact Lq|reflexivity]|].
          apply (wp_collect_object O under _ _ (fun _ => True)); auto.
        * intros q Lq. eapply under_path; [exact Lq|reflexivity].
        * intros [fu|x|] _; now apply Hk.
    - unfold visit_spread. destruct (find_fragment nm (e_frags e)) as [fr|] eqn:FF; [|now apply Hk].
      destruct (matches_type O typenames o (fr_type fr)) eqn:MT; simpl; [|now apply Hk].
      destruct (bind (visit_directives (e_vars e) dirs []) _) as [[ds [|]]|x|] eqn:ED; try (now apply Hk).
      apply under_all; auto.
    - unfold visit_inline.
      destruct (bind (visit_directives (e_vars e) dirs []) _) as [[ds [|]]|x|] eqn:ED; try (now apply Hk).
      destruct (match cond with Some (_, t) => matches_type O typenames o t | None => true end) eqn:MT; [|now apply Hk].
      apply under_all; auto.
  Qed.
  Lemma under_resolve : forall fuel e o fp sels, fp_under fp ->
    wp O under (resolve_with O (visit O typenames has_field fuel e) o fp sels) (fun _ => True).
  Proof.
    intros fuel e o fp sels L k Hk. unfold resolve_with. simpl. split; [eapply under_path; [exact L|reflexivity]|].
    apply under_all; [intros; now apply under_visit|]. intros [st'|x|] _; auto. simpl. split; [eapply under_path; [exact L|reflexivity]|].
    apply (wp_collect_object O under _ _ (fun _ => True)); auto.
  Qed.
End Under.

(** The invariant of the thread that resolves the root object: [past] are the root keys called so far, [cur] the last of
    them, [labels] the root key each future belongs to. *)
Section Ser.
  Variable O : Type.
  Definition root_key (e : event O) : option string := match root_calls [e] with k :: _ => Some k | [] => None end.

  Definition under_opt (cur : option string) (e : event O) : Prop := cur <> None /\ event_root e = cur.

  Fixpoint ser (past : list string) (cur : option string) (labels : list (option string)) (c : comp O) : Prop :=
    match c with
    | Ret _ => True
    | Call o f p k =>
        match root_key (EvCall o f p) with
        | Some key => ~ In key past /\ event_root (EvCall o f p) = Some key /\ forall a, immediate a -> ser (key :: past) (Some key) labels (k a)
        | None => under_opt cur (EvCall o f p) /\ forall a, ser past cur labels (k a)
        end
    | Emit e k => root_key e = None /\ (event_root e = None \/ under_opt cur e) /\ ser past cur labels k
    | Spawn l c' k => cur <> None /\ l = LDeferred /\ seq O c' /\ all_events O (fun e => under_opt cur e /\ root_key e = None) c' /\
                      ser past cur (labels ++ [cur]) (k (length labels))
    | Get i k => nth_error labels i = Some cur /\ forall r, ser past cur labels (k r)
    end.

  Definition serT (past : list string) (cur : option string) (t : thread O) : Prop :=
    match t with T kids c => solo O t /\ exists labels, ser past cur labels c /\
      Forall2 (fun lab kid => all_eventsK O (fun e => under_opt lab e /\ root_key e = None) kid) labels kids end.

  Variable St : Type.
  Variable handler : St -> O -> string -> fparams -> St * answer O.
  Hypothesis Himm : forall s o f p k, p_path p = [PName k] -> immediate (snd (handler s o f p)).

  Lemma Forall2_update : forall (A B : Type) (R : A -> B -> Prop) l ks i x, Forall2 R l ks ->
    (forall a, nth_error l i = Some a -> R a x) -> Forall2 R l (update i x ks).
  Proof.
    intros A B R l ks i x H. revert i. induction H as [|a b l ks H F IH]; intros [|i] E; simpl; constructor; auto.
  Qed.
  Lemma Forall2_nth : forall (A B : Type) (R : A -> B -> Prop) l ks i b, Forall2 R l ks -> nth_error ks i = Some b -> exists a, nth_error l i = Some a /\ R a b.
  Proof.
    intros A B R l ks i b H. revert i. induction H as [|x y l ks H F IH]; intros [|i] E; simpl in *; try discriminate.
    - inversion E; subst. eauto.
    - now apply IH.
  Qed.

  Lemma Forall2_len : forall (A B : Type) (R : A -> B -> Prop) l ks, Forall2 R l ks -> length l = length ks.
  Proof. induction 1; simpl; auto. Qed.

  (** the events of a step: at most one root call, which starts the next root field; all others belong to the current one *)
  Lemma ser_step : forall s t ev s' t' past cur, step handler s t ev s' t' -> serT past cur t ->
    (Forall (fun e => root_key e = None /\ (event_root e = None \/ under_opt cur e)) ev /\ serT past cur t') \/
    (exists e key, ev = [e] /\ root_key e = Some key /\ event_root e = Some key /\ ~ In key past /\ serT (key :: past) (Some key) t').
  Proof.
    intros s t ev s' t' past cur H. pose proof H as H0. inversion H; subst; intros [SO [labels [A B]]]; pose proof (solo_step O St handler _ _ _ _ _ H0 SO) as SO'.
    - cbn [ser] in A. destruct (root_key (EvCall o f p)) as [key|] eqn:RK.
      + right. destruct A as [N [E A]]. exists (EvCall o f p), key. split; auto. split; auto. split; auto. split; auto. split; auto. exists labels. split; [|exact B].
        apply A. unfold root_key, root_calls in RK. simpl in RK. destruct (p_path p) as [|[pn|pi] [|? ?]] eqn:PP; simpl in RK; try discriminate.
        eapply Himm. exact PP.
      + left. destruct A as [U A]. split; [constructor; auto|]. split; auto. exists labels. split; auto.
    - cbn [ser] in A. destruct A as [A1 [A2 A3]]. left. split; [auto|]. split; auto. exists labels. auto.
    - cbn [ser] in A. destruct A as [A0 [A1 [A2 [A3 A4]]]]. left. split; [constructor|]. split; auto. exists (labels ++ [cur]).
      split; [rewrite <- (Forall2_len _ _ _ _ _ B); exact A4|]. apply Forall2_app; auto.
    - cbn [ser] in A. destruct A as [_ [A1 _]]. contradiction.
    - left. split; [constructor|]. split; auto. exists labels. split; auto. apply Forall2_update; auto. intros a E.
      match goal with X : nth_error ks i = Some _ |- _ => destruct (Forall2_nth _ _ _ _ _ _ _ B X) as [a' [E' R]] end.
      assert (a = a') by congruence. subst. simpl. split; auto.
    - cbn [ser] in A. destruct A as [A1 A2]. left. split; [constructor|]. split; auto. exists labels. auto.
    - cbn [ser] in A. destruct A as [A1 A2]. left. split; [constructor|]. split; auto. exists labels. auto.
    - left. match goal with X : nth_error ks i = Some (KRun ?t0), Y : step handler _ _ _ _ _ |- _ =>
        assert_fails (constr_eq Y H); assert_fails (constr_eq Y H0); rename X into EX; rename Y into EY end.
      apply solo_iff in SO. destruct SO as [SO1 SO2]. destruct (SO2 _ _ EX) as [S1 [k' ->]]. cbn [ser] in A. destruct A as [A1 A2].
      destruct (Forall2_nth _ _ _ _ _ _ _ B EX) as [a [E R]]. assert (a = cur) by congruence. subst. simpl in R.
      destruct (all_events_step O _ St handler _ _ _ _ _ EY R) as [E1 E2]. split; [eapply Forall_impl; [|exact E1]; intros x [X1 X2]; auto|].
      split; auto. exists labels. split; [split; auto|]. apply Forall2_update; auto. intros a' Ea'. assert (a' = cur) by congruence. subst. exact E2.
    - left. split; [constructor|]. split; auto. exists labels. split; auto. apply Forall2_update; auto. intros. exact I.
  Qed.

  (** [past] seen from the events *)
  Lemma root_calls_app : forall a b : list (event O), root_calls (a ++ b) = root_calls a ++ root_calls b.
  Proof. intros. unfold root_calls. apply flat_map_app. Qed.
  Lemma root_calls_key : forall e : event O, root_calls [e] = match root_key e with Some k => [k] | None => [] end.
  Proof.
    intros e. unfold root_key, root_calls. destruct e as [o f p| | |]; simpl; auto. destruct (p_path p) as [|[|] [|]]; auto.
  Qed.
  Lemma root_calls_none : forall evs, Forall (fun e => root_key e = None) evs -> root_calls evs = [].
  Proof.
    intros evs H. induction H as [|e evs H F IH]; auto. change (e :: evs) with ([e] ++ evs). rewrite root_calls_app, root_calls_key, H, IH. reflexivity.
  Qed.

  Lemma app_split : forall (A : Type) (a b c d : list A) x, a ++ b = c ++ x :: d ->
    (exists e, a = c ++ x :: e /\ d = e ++ b) \/ (exists e, c = a ++ e /\ b = e ++ x :: d).
  Proof.
    intros A a. induction a as [|y a IH]; intros b c d x H; simpl in H.
    - right. exists c. auto.
    - destruct c as [|z c]; simpl in H; inversion H; subst.
      + left. exists a. auto.
      + destruct (IH _ _ _ _ H2) as [[e [-> ->]]|[e [-> ->]]]; [left | right]; exists e; auto.
  Qed.

  (** Events after the state (past, cur) never belong to a root key of past other than cur. *)
  Lemma ser_steps : forall n s t evs s' t', steps handler n s t evs s' t' -> forall past cur, serT past cur t ->
    (forall e k, In e evs -> event_root e = Some k -> In k past -> cur = Some k) /\
    (forall a o f p b, evs = a ++ EvCall o f p :: b -> root_calls [EvCall o f p] <> [] ->
     forall e k, In e b -> event_root e = Some k -> ~ In k (past ++ root_calls a)).
  Proof.
    induction 1 as [|n s t ev s1 t1 evs s2 t2 H H0 IH]; intros past cur A.
    - split; [intros e k []|]. intros a o f p b E. destruct a; discriminate.
    - destruct (ser_step _ _ _ _ _ _ _ H A) as [[F A']|[e [key [-> [RK [ER [N A']]]]]]].
      + destruct (IH _ _ A') as [I1 I2]. split.
        * intros e k I E P. apply in_app_or in I. destruct I as [I|I]; [|eapply I1; eauto].
          rewrite Forall_forall in F. destruct (F _ I) as [_ [X|[_ X]]]; congruence.
        * intros a o f p b E Rt e k Ie Ke Ik.
          assert (RN : root_calls ev = []) by (apply root_calls_none; eapply Forall_impl; [|exact F]; intros ? [X _]; exact X).
          apply app_split in E. destruct E as [[x [E1 E2]]|[x [E1 E2]]].
          -- exfalso. apply Rt. subst ev. rewrite Forall_app in F. destruct F as [_ F]. inversion F as [|? ? [F1 _] _]; subst. now rewrite root_calls_key, F1.
          -- subst a. rewrite root_calls_app, RN in Ik. simpl in Ik. eapply (I2 x o f p b); eauto.
      + destruct (IH _ _ A') as [I1 I2]. split.
        * intros e' k I E P. simpl in I. destruct I as [<-|I]; [congruence|].
          assert (Some key = Some k) by (eapply I1; eauto; now right). congruence.
        * intros a o f p b E Rt e' k Ie Ke Ik. destruct a as [|x a]; simpl in E; inversion E; subst.
          -- simpl in Ik. rewrite app_nil_r in Ik. assert (Some key = Some k) by (eapply I1; eauto; now right). congruence.
          -- change (x :: a) with ([x] ++ a) in Ik. rewrite root_calls_app, root_calls_key, RK in Ik.
             apply (I2 a o f p b eq_refl Rt e' k Ie Ke). apply in_app_or in Ik. simpl in Ik. simpl. rewrite in_app_iff. tauto.
  Qed.

  Lemma ser_run : forall c n s evs s' t', seq O c -> ser [] None [] c -> steps handler n s (T [] c) evs s' t' -> serial evs.
  Proof.
    intros c n s evs s' t' Sq Sr H. assert (A : serT [] None (T [] c)).
    { split; [apply solo_iff; split; auto; intros [|j] k E; discriminate|]. exists []. split; auto. }
    destruct (ser_steps _ _ _ _ _ _ H _ _ A) as [_ S]. intros a o f p b E Rt e k Ie Ke. exact (S a o f p b E Rt e k Ie Ke).
  Qed.
End Ser.

(** programs that satisfy it *)
Section SerWp.
  Variable O : Type.
  Variables (typenames : O -> list string) (has_field : O -> string -> bool).
  Notation ser := (ser O).

  Definition fut_ok (labels : list (option string)) (cur : option string) (f : fut) : Prop :=
    match f with FReady _ => True | FIdx i => nth_error labels i = Some cur end.
  Lemma fut_ok_app : forall labels l cur f, fut_ok labels cur f -> fut_ok (labels ++ l) cur f.
  Proof. intros labels l cur [r|i] H; simpl in *; auto. rewrite nth_error_app1; auto. apply nth_error_Some. congruence. Qed.

  Variable key : string.
  Notation cur := (Some key).

  Definition good_path (fp : field_path) : Prop := exists x r, rev fp = PName key :: x :: r.
  Lemma quiet_event : forall fp (e : event O), fp_under key fp -> event_path e = build_error_path fp -> (forall o f p, e <> EvCall o f p) ->
    under_opt O cur e /\ root_key O e = None.
  Proof.
    intros fp e U E N. split.
    - split; [discriminate|]. eapply under_path; eauto.
    - destruct e; auto. exfalso. eapply N. reflexivity.
  Qed.
  Lemma deep_call : forall fp o f p, fp_under key fp -> p_path p = build_error_path (PName f :: fp) ->
    forall nm, under_opt O cur (EvCall o nm p) /\ root_key O (EvCall o nm p) = None.
  Proof.
    intros fp o f p [r U] E nm. unfold under_opt, event_root, root_key, root_calls. simpl. rewrite E, build_error_path_rev. simpl. rewrite U. simpl.
    split; [split; [discriminate|reflexivity]|]. now destruct r.
  Qed.

  (** the tasks of nested fields *)
  Definition calm (e : event O) : Prop := under_opt O cur e /\ root_key O e = None.

  Lemma calm_all : forall (vis : selection -> vstate -> M O (result vstate)) sels,
    (forall s st, wp O calm (vis s st) (fun _ => True)) -> forall st, wp O calm (visit_all O vis sels st) (fun _ => True).
  Proof.
    intros vis sels H. induction sels as [|s sels IH]; intros st k Hk; simpl; auto.
    apply H. intros [st'|x|] _; auto. apply IH; auto.
  Qed.
  Lemma calm_visit : forall fuel e o fp fd s st, fp_under key fp -> wp O calm (visit O typenames has_field fuel e o fp fd s st) (fun _ => True).
  Proof.
    induction fuel as [|n IH]; intros e o fp fd s st L k Hk; [now apply Hk|].
    destruct s as [loc al nm args dirs sub|loc nm dirs|loc cond dirs sel]; simpl.
    - unfold visit_field. destruct (existsb _ _); [now apply Hk|]. destruct (has_field o nm) eqn:HF; simpl; [|now apply Hk].
      destruct (bind (visit_directives (e_vars e) dirs []) _) as [[ds [|]]|x|] eqn:ED; try (now apply Hk).
      destruct (visit_arguments (e_vars e) args []) as [avs|x|] eqn:EA; try (now apply Hk).
      pose proof (fp_under_cons key _ (PName (response_key al nm)) L) as L'. split.
      + eapply deep_call; [exact L|reflexivity].
      + intros [x|f]; [now apply Hk|].
        apply (wp_convert O calm (e_launch e) _ (fp_under key)) with (Q := fun _ => True); auto.
        * intros. now apply fp_under_cons.
        * intros o' q Lq k' Hk'. unfold resolve_with. simpl. split; [eapply quiet_event; [exact Lq|reflexivity|discriminate]|].
          apply calm_all; [intros; now apply IH|]. intros [st'|x|] _; auto. simpl. split; [eapply quiet_event; [exact Lq|reflexivity|discriminate]|].
          apply (wp_collect_object O calm _ _ (fun _ => True)); auto.
        * intros q Lq. eapply quiet_event; [exact Lq|reflexivity|discriminate].
        * intros [fu|x|] _; now apply Hk.
    - unfold visit_spread. destruct (find_fragment nm (e_frags e)) as [fr|] eqn:FF; [|now apply Hk].
      destruct (matches_type O typenames o (fr_type fr)) eqn:MT; simpl; [|now apply Hk].
      destruct (bind (visit_directives (e_vars e) dirs []) _) as [[ds [|]]|x|] eqn:ED; try (now apply Hk).
      apply calm_all; auto.
    - unfold visit_inline.
      destruct (bind (visit_directives (e_vars e) dirs []) _) as [[ds [|]]|x|] eqn:ED; try (now apply Hk).
      destruct (match cond with Some (_, t) => matches_type O typenames o t | None => true end) eqn:MT; [|now apply Hk].
      apply calm_all; auto.
  Qed.
  Lemma calm_resolve : forall fuel e o fp sels, fp_under key fp ->
    wp O calm (resolve_with O (visit O typenames has_field fuel e) o fp sels) (fun _ => True).
  Proof.
    intros fuel e o fp sels L k Hk. unfold resolve_with. simpl. split; [eapply quiet_event; [exact L|reflexivity|discriminate]|].
    apply calm_all; [intros; now apply calm_visit|]. intros [st'|x|] _; auto. simpl. split; [eapply quiet_event; [exact L|reflexivity|discriminate]|].
    apply (wp_collect_object O calm _ _ (fun _ => True)); auto.
  Qed.

  (** the part that runs in place: [N m good] *)
  Definition N {A} (pre : list (option string) -> Prop) (m : M O A) (good : list (option string) -> A -> Prop) : Prop :=
    forall past labels k, pre labels ->
      (forall more a, good (labels ++ more) a -> ser past cur (labels ++ more) (k a)) -> ser past cur labels (m k).
  Definition futs_ok (labels : list (option string)) (vals : list (string * fut)) : Prop := Forall (fun kv => fut_ok labels cur (snd kv)) vals.
  Lemma futs_ok_app : forall labels l vals, futs_ok labels vals -> futs_ok (labels ++ l) vals.
  Proof. intros labels l vals H. eapply Forall_impl; [|exact H]. intros a. apply fut_ok_app. Qed.

  Lemma ser_get : forall past labels f k, fut_ok labels cur f -> (forall r, ser past cur labels (k r)) -> ser past cur labels (get_fut O f k).
  Proof. intros past labels [r|i] k H Hk; simpl in *; auto. Qed.
  Lemma ser_collect_object : forall past labels vals acc k, futs_ok labels vals -> (forall r, ser past cur labels (k r)) ->
    ser past cur labels (collect_object O vals acc k).
  Proof.
    intros past labels vals. induction vals as [|[kk f] vals IH]; intros acc k H Hk; simpl; auto. inversion H; subst.
    apply ser_get; auto. intros r. destruct (object_step kk r acc); auto.
  Qed.

  Definition st_ok (labels : list (option string)) (x : result vstate) : Prop := match x with Ok st => futs_ok labels (v_values st) | _ => True end.

  (** both properties a deferred task needs, for any program of a nested conversion *)
  Lemma ser_convert : forall robj fp,
    (forall o q past labels k, fp_under key q -> (forall more r, ser past cur (labels ++ more) (k r)) -> ser past cur labels (robj o q k)) ->
    (forall o q, fp_under key q -> wp O calm (robj o q) (fun _ => True)) -> (forall o q, sw O (robj o q)) ->
    forall f p past labels k, rp_path p = fp -> fp_under key fp ->
    (forall more x, (match x with Ok fu => fut_ok (labels ++ more) cur fu | _ => True end) -> ser past cur (labels ++ more) (k x)) ->
    ser past cur labels (convert O LDeferred robj f p k).
  Proof.
    intros robj fp Hser Hcalm Hsw f p past labels k Ep U Hk.
    assert (K0 : forall x, (match x with Ok fu => fut_ok labels cur fu | _ => True end) -> ser past cur labels (k x)).
    { intros x Hx. specialize (Hk [] x). rewrite app_nil_r in Hk. auto. }
    assert (KI : ser past cur (labels ++ [cur]) (k (Ok (FIdx (length labels))))).
    { apply Hk. simpl. rewrite nth_error_app2, Nat.sub_diag; auto. }
    assert (SP : forall l c', l = LDeferred -> seq O c' -> all_events O calm c' ->
      ser past cur labels (Spawn l c' (fun i => k (Ok (FIdx i))))).
    { intros l c' -> S1 S2. cbn [ExecSerial2.ser]. split; [discriminate|]. split; auto. }
    assert (WP : forall g q, fp_under key (rp_path q) -> wp O calm (convert O LDeferred robj g q) (fun _ => True)).
    { intros g q Uq. apply (wp_convert O calm LDeferred robj (fp_under key)); auto.
      - intros. now apply fp_under_cons.
      - intros q' Lq. eapply quiet_event; [exact Lq|reflexivity|discriminate]. }
    pose proof (sw_convert O robj Hsw) as SW.
    (* a task of the conversion: take both properties from the general lemmas *)
    assert (WHOLE : forall g, all_events O calm (convert O LDeferred robj g p (fun _ => Ret UB)) /\ seq O (convert O LDeferred robj g p (fun _ => Ret UB))).
    { intros g. split; [apply WP; [now rewrite Ep | intros; exact I] | apply SW; intros; exact I]. }
    specialize (WHOLE f).
    destruct f as [b isf v|isf r|r|r|r]; simpl in WHOLE; cbn [convert].
    - destruct (if b then block_sub_fields p else Ok tt) eqn:EB; rewrite ?EB in WHOLE; [|apply K0; exact I|apply K0; exact I]. destruct isf; [|apply K0; exact I].
      simpl in WHOLE. apply SP; [reflexivity | simpl; tauto | simpl; tauto].
    - destruct (require_sub_fields p) eqn:EB; rewrite ?EB in WHOLE; [|apply K0; exact I|apply K0; exact I]. destruct isf; simpl in WHOLE.
      + apply SP; [reflexivity | simpl; tauto | simpl; tauto].
      + clear WHOLE. destruct r as [[o|]|e|]; simpl; [|apply K0; exact I|apply K0; exact I|apply K0; exact I].
        apply Hser; [now rewrite Ep|]. intros more [x|e|]; apply Hk; exact I.
    - destruct (require_sub_fields p) eqn:EB; rewrite ?EB in WHOLE; [|apply K0; exact I|apply K0; exact I]. simpl in WHOLE. apply SP; [reflexivity | simpl; tauto | simpl; tauto].
    - apply SP; [reflexivity | simpl; tauto | simpl; tauto].
    - apply SP; [reflexivity | simpl; tauto | simpl; tauto].
  Qed.

  Lemma ser_all : forall (vis : selection -> vstate -> M O (result vstate)) sels,
    (forall s st past labels k, futs_ok labels (v_values st) ->
       (forall more x, st_ok (labels ++ more) x -> ser past cur (labels ++ more) (k x)) -> ser past cur labels (vis s st k)) ->
    forall st past labels k, futs_ok labels (v_values st) ->
       (forall more x, st_ok (labels ++ more) x -> ser past cur (labels ++ more) (k x)) -> ser past cur labels (visit_all O vis sels st k).
  Proof.
    intros vis sels H. induction sels as [|s sels IH]; intros st past labels k F Hk.
    - simpl. specialize (Hk [] (Ok st)). rewrite app_nil_r in Hk. auto.
    - rewrite visit_all_cons. apply H; auto. intros more [st'|x|] Hx; simpl in Hx.
      + apply IH; auto. intros more' x Hx'. rewrite <- app_assoc in *. auto.
      + apply Hk. exact I.
      + apply Hk. exact I.
  Qed.

  Lemma ser_visit : forall fuel e, e_launch e = LDeferred -> forall o fp fd s st past labels k, fp_under key fp -> futs_ok labels (v_values st) ->
    (forall more x, st_ok (labels ++ more) x -> ser past cur (labels ++ more) (k x)) ->
    ser past cur labels (visit O typenames has_field fuel e o fp fd s st k).
  Proof.
    intros fuel e He. induction fuel as [|n IH]; intros o fp fd s st past labels k U F Hk.
    - rewrite visit_0. specialize (Hk [] UB I). now rewrite app_nil_r in Hk.
    - assert (K0 : forall x, st_ok labels x -> ser past cur labels (k x)).
      { intros x Hx. specialize (Hk [] x). rewrite app_nil_r in Hk. auto. }
      destruct s as [loc al nm args dirs sub|loc nm dirs|loc cond dirs sel].
      + rewrite visit_S_field. unfold visit_field. destruct (existsb _ _); [now apply K0|].
        destruct (has_field o nm) eqn:HF; cbn [negb]; [|apply K0; apply Forall_app; split; auto; constructor; [exact I|constructor]].
        destruct (bind (visit_directives (e_vars e) dirs []) _) as [[ds [|]]|x|] eqn:ED; try (now apply K0).
        destruct (visit_arguments (e_vars e) args []) as [avs|x|] eqn:EA; try (now apply K0).
        set (p := mkParams _ _ _ _ _ _ _).
        destruct (deep_call fp o (response_key al nm) p U eq_refl nm) as [D1 D2].
        cbn [ExecSerial2.ser]. rewrite D2. split; [exact D1|].
        assert (ST : forall more names x, fut_ok (labels ++ more) cur x -> st_ok (labels ++ more) (Ok (mkV names (v_values st ++ [(response_key al nm, x)])))).
        { intros. simpl. apply Forall_app. split; [now apply futs_ok_app|]. constructor; auto. }
        intros [x|f].
        * apply K0. simpl. apply Forall_app. split; auto. constructor; [exact I|constructor].
        * rewrite He. apply ser_convert with (fp := PName (response_key al nm) :: fp); auto; [| | |now apply fp_under_cons|].
          -- intros o' q past' labels' k' Uq Hk'. unfold resolve_with. cbn [ExecSerial2.ser]. split; [reflexivity|].
             split; [right; eapply quiet_event; [exact Uq|reflexivity|discriminate]|].
             apply ser_all; [intros; now apply IH|constructor|]. intros more [st'|x|] Hx; auto.
             cbn [ExecSerial2.ser]. split; [reflexivity|]. split; [right; eapply quiet_event; [exact Uq|reflexivity|discriminate]|].
             apply ser_collect_object; auto.
          -- intros o' q Uq. apply calm_resolve; auto.
          -- intros o' q k' Hk'. unfold resolve_with. simpl. apply sw_all; [intros; now apply sw_visit|]. intros [st'|x|]; auto. simpl. now apply sw_collect_object.
          -- intros more [fu|x|] Hx; apply Hk; [now apply ST | now apply ST | exact I].
      + rewrite visit_S_spread. unfold visit_spread. destruct (find_fragment nm (e_frags e)) as [fr|] eqn:FF; [|now apply K0].
        destruct (matches_type O typenames o (fr_type fr)) eqn:MT; cbn [negb]; [|now apply K0].
        destruct (bind (visit_directives (e_vars e) dirs []) _) as [[ds [|]]|x|] eqn:ED; try (now apply K0).
        apply ser_all; auto.
      + rewrite visit_S_inline. unfold visit_inline.
        destruct (bind (visit_directives (e_vars e) dirs []) _) as [[ds [|]]|x|] eqn:ED; try (now apply K0).
        destruct (match cond with Some (_, t) => matches_type O typenames o t | None => true end) eqn:MT; [|now apply K0].
        apply ser_all; auto.
  Qed.
End SerWp.

(** the root selection set *)
Section SerRoot.
  Variable O : Type.
  Variables (typenames : O -> list string) (has_field : O -> string -> bool).
  Notation ser := (ser O).

  Definition ready (vals : list (string * fut)) : Prop := Forall (fun kv => exists r, snd kv = FReady r) vals.
  Definition root_ok (past : list string) (st : vstate) : Prop := incl past (v_names st) /\ ready (v_values st).

  Lemma root_visit : forall fuel e, e_launch e = LDeferred -> forall o fd s st past cur labels k, root_ok past st ->
    (forall past' cur' labels' x, match x with Ok st' => root_ok past' st' | _ => True end -> ser past' cur' labels' (k x)) ->
    ser past cur labels (visit O typenames has_field fuel e o [] fd s st k).
  Proof.
    intros fuel e He. induction fuel as [|n IH]; intros o fd s st past cur labels k [R1 R2] Hk.
    - rewrite visit_0. apply Hk. exact I.
    - assert (ALL : forall fd' sels past cur labels st, root_ok past st -> ser past cur labels (visit_all O (visit O typenames has_field n e o [] fd') sels st k)).
      { intros fd' sels. induction sels as [|s' sels IHs]; intros past0 cur0 labels0 st0 R0.
        - simpl. apply Hk. exact R0.
        - rewrite visit_all_cons. apply IH; auto. intros past' cur' labels' [st'|x|] Hx; [|apply Hk; exact I|apply Hk; exact I].
          now apply IHs. }
      destruct s as [loc al nm args dirs sub|loc nm dirs|loc cond dirs sel].
      + rewrite visit_S_field. unfold visit_field. set (key := response_key al nm).
        assert (RD : forall r, ready (v_values st ++ [(key, FReady r)])) by (intros; apply Forall_app; split; [exact R2|constructor; [eexists; reflexivity|constructor]]).
        destruct (existsb _ _) eqn:EX; [apply Hk; split; auto|].
        destruct (has_field o nm) eqn:HF; cbn [negb]; [|apply Hk; split; [now apply incl_appl|apply RD]].
        destruct (bind (visit_directives (e_vars e) dirs []) _) as [[ds [|]]|x|] eqn:ED; try (apply Hk; exact I); [apply Hk; split; [now apply incl_appl|exact R2]|].
        destruct (visit_arguments (e_vars e) args []) as [avs|x|] eqn:EA; try (apply Hk; exact I).
        assert (NP : ~ In key past).
        { intros X. apply R1 in X. assert (existsb (String.eqb key) (v_names st) = true); [|congruence]. apply existsb_exists. exists key. split; auto. apply String.eqb_refl. }
        assert (IP : incl (key :: past) (v_names st ++ [key])). { intros x [<-|X]; apply in_or_app; [right; now left | left; auto]. }
        cbn [ExecSerial2.ser]. unfold root_key, root_calls, event_root. simpl. split; auto. split; auto.
        intros [x|f] Im; [apply Hk; split; [exact IP|apply RD]|]. rewrite He.
        destruct f as [b isf v|isf r|r|r|r]; simpl in Im; try contradiction; subst isf; simpl.
        * destruct (if b then _ else Ok tt); [|apply Hk; split; [exact IP|apply RD]|apply Hk; exact I]. apply Hk; split; [exact IP|apply RD].
        * destruct (require_sub_fields _); [|apply Hk; split; [exact IP|apply RD]|apply Hk; exact I].
          destruct r as [[o'|]|x|]; simpl; [|apply Hk; split; [exact IP|apply RD]|apply Hk; split; [exact IP|apply RD]|apply Hk; exact I].
          assert (U : fp_under key [PName key]) by (exists []; reflexivity).
          unfold resolve_with. cbn [ExecSerial2.ser]. split; [reflexivity|]. split; [right; eapply quiet_event; [exact U|reflexivity|discriminate]|].
          apply ser_all; [intros; now apply ser_visit|constructor|]. intros more [st'|x|] Hx; [|apply Hk; split; [exact IP|apply RD]|apply Hk; exact I].
          cbn [ExecSerial2.ser]. split; [reflexivity|]. split; [right; eapply quiet_event; [exact U|reflexivity|discriminate]|].
          apply ser_collect_object; auto. intros [x|x|]; apply Hk; try exact I; split; try exact IP; apply RD.
      + rewrite visit_S_spread. unfold visit_spread. destruct (find_fragment nm (e_frags e)) as [fr|] eqn:FF; [|apply Hk; exact I].
        destruct (matches_type O typenames o (fr_type fr)) eqn:MT; cbn [negb]; [|apply Hk; split; auto].
        destruct (bind (visit_directives (e_vars e) dirs []) _) as [[ds [|]]|x|] eqn:ED; try (apply Hk; exact I); [apply Hk; split; auto|].
        apply ALL. split; auto.
      + rewrite visit_S_inline. unfold visit_inline.
        destruct (bind (visit_directives (e_vars e) dirs []) _) as [[ds [|]]|x|] eqn:ED; try (apply Hk; exact I); [apply Hk; split; auto|].
        destruct (match cond with Some (_, t) => matches_type O typenames o t | None => true end) eqn:MT; [|apply Hk; split; auto].
        apply ALL. split; auto.
  Qed.

  Lemma ready_collect : forall vals acc past cur labels, ready vals -> ser past cur labels (collect_object O vals acc Ret).
  Proof.
    induction vals as [|[kk f] vals IH]; intros acc past cur labels H; simpl; auto. inversion H as [|? ? [r E] H']; subst. simpl in E. subst. simpl.
    destruct (object_step kk r acc); simpl; auto.
  Qed.

  Lemma root_resolve : forall fuel e o sels, e_launch e = LDeferred -> ser [] None [] (resolve O typenames has_field fuel e o [] sels Ret).
  Proof.
    intros fuel e o sels He. unfold resolve, resolve_with. cbn [ExecSerial2.ser]. split; [reflexivity|]. split; [left; reflexivity|].
    assert (ALL : forall sels past cur labels st, root_ok past st -> ser past cur labels
      (visit_all O (visit O typenames has_field fuel e o [] no_fdirs) sels st (fun x => match x with
          | Ok st => Emit (EvEnd o (build_error_path [])) (collect_object O (v_values st) ([], []) Ret) | Throw e => Ret (Throw e) | UB => Ret UB end))).
    { induction sels0 as [|s sels0 IH]; intros past cur labels st R.
      - simpl. split; [reflexivity|]. split; [left; reflexivity|]. apply ready_collect. apply R.
      - rewrite visit_all_cons. apply root_visit; auto. intros past' cur' labels' [st'|x|] Hx; [now apply IH|exact I|exact I]. }
    apply ALL. split; [intros x []|constructor].
  Qed.
End SerRoot.
