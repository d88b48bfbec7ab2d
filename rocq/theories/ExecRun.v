(** A scheduler, to exhibit executions; and what the thread waiting for a task adds to its execution: nothing. *)
From Verif Require Import Cpp Value Ast ErrorModel ExecModel ExecSem ExecSpec.

Section Run.
  Variables (O St : Type) (handler : St -> O -> string -> fparams -> St * answer O).

  Fixpoint next (d : nat) (s : St) (t : thread O) : option (list (event O) * St * thread O) :=
    match d with
    | 0 => None
    | S d' =>
        match t with
        | T ks c =>
            match c with
            | Ret _ => None
            | Call o f p k => Some ([EvCall o f p], fst (handler s o f p), T ks (k (snd (handler s o f p))))
            | Emit e k => Some ([e], s, T ks k)
            | Spawn LAsync c' k => Some ([], s, T (ks ++ [KRun (T [] c')]) (k (length ks)))
            | Spawn _ c' k => Some ([], s, T (ks ++ [KDef c']) (k (length ks)))
            | Get i k =>
                match nth_error ks i with
                | None => Some ([], s, T ks (k UB))
                | Some (KDone r) => Some ([], s, T ks (k r))
                | Some (KDef c') => Some ([], s, T (update i (KRun (T [] c')) ks) c)
                | Some (KRun (T ks' (Ret r))) => if existsb is_running ks' then None else Some ([], s, T (update i (KDone r) ks) c)
                | Some (KRun t') => match next d' s t' with Some (ev, s', t'') => Some (ev, s', T (update i (KRun t'') ks) c) | None => None end
                end
            end
        end
    end.

  Lemma next_sound : forall d s t ev s' t', next d s t = Some (ev, s', t') -> step handler s t ev s' t'.
  Proof.
    induction d as [|d IH]; intros s [ks c] ev s' t' H; [discriminate|]. simpl in H.
    destruct c as [r|o f p k|e k|l c k|i k]; try discriminate.
    - inversion H; subst. constructor.
    - inversion H; subst. constructor.
    - destruct l; inversion H; subst; constructor; discriminate.
    - destruct (nth_error ks i) as [[c'|t0|r]|] eqn:E.
      + inversion H; subst. now constructor.
      + assert (G : match next d s t0 with Some (ev, s', t'') => Some (ev, s', T (update i (KRun t'') ks) (Get i k)) | None => None end = Some (ev, s', t') -> step handler s (T ks (Get i k)) ev s' t').
        { destruct (next d s t0) as [[[ev0 s0] t1]|] eqn:N; intros X; inversion X; subst. eapply step_kid; eauto. }
        destruct t0 as [ks' c']. destruct c' as [r|o f p k'|e k'|l c' k'|j k']; auto.
        destruct (existsb is_running ks') eqn:R; [discriminate|]. inversion H; subst. eapply step_join; eauto. simpl. auto.
      + inversion H; subst. now constructor.
      + inversion H; subst. now constructor.
  Qed.

  Fixpoint run (n d : nat) (s : St) (t : thread O) : nat * list (event O) * St * thread O :=
    match n with
    | 0 => (0, [], s, t)
    | S n' =>
        match next d s t with
        | None => (0, [], s, t)
        | Some (ev, s1, t1) => match run n' d s1 t1 with (m, evs, s2, t2) => (S m, ev ++ evs, s2, t2) end
        end
    end.
  Lemma run_sound : forall n d s t m evs s' t', run n d s t = (m, evs, s', t') -> steps handler m s t evs s' t'.
  Proof.
    induction n as [|n IH]; intros d s t m evs s' t' H; simpl in H; [inversion H; constructor|].
    destruct (next d s t) as [[[ev s1] t1]|] eqn:N; [|inversion H; constructor].
    destruct (run n d s1 t1) as [[[m' evs'] s2] t2] eqn:R. inversion H; subst. econstructor; [eapply next_sound; eauto | eapply IH; eauto].
  Qed.

  (** the states of the thread that waits for the task [c] *)
  Inductive wait_state (l : launch) (c : comp O) (t : thread O) : thread O -> Prop :=
  | ws_start : t = T [] c -> wait_state l c t (T [] (wait_task O l c))
  | ws_deferred : t = T [] c -> wait_state l c t (T [KDef c] (Get 0 Ret))
  | ws_running : wait_state l c t (T [KRun t] (Get 0 Ret))
  | ws_done r : ended t r -> wait_state l c t (T [KDone r] (Get 0 Ret))
  | ws_end r : ended t r -> wait_state l c t (T [KDone r] (Ret r)).

  Lemma wait_step : forall l c t w s ev s' w', wait_state l c t w -> step handler s w ev s' w' ->
    (ev = [] /\ s' = s /\ wait_state l c t w') \/ (exists t', step handler s t ev s' t' /\ wait_state l c t' w').
  Proof.
    intros l c t w s ev s' w' W H.
    assert (N0 : forall (x : kid O) i t0, nth_error [x] i = Some (KRun t0) -> i = 0 /\ x = KRun t0).
    { intros x [|[|i]] t0 E; simpl in E; inversion E; auto. }
    destruct W as [E|E| |r E|r E].
    - subst t. inversion H; subst; try (destruct i; discriminate); left; repeat split; constructor; reflexivity.
    - subst t. inversion H; subst; simpl in *; try discriminate.
      + left. match goal with E : Some _ = Some _ |- _ => inversion E; subst end. repeat split. constructor.
      + match goal with E : nth_error [_] _ = Some (KRun _) |- _ => destruct (N0 _ _ _ E); discriminate end.
      + match goal with E : nth_error [_] _ = Some (KRun _) |- _ => destruct (N0 _ _ _ E); discriminate end.
    - inversion H; subst; simpl in *; try discriminate.
      + match goal with X : nth_error [_] _ = Some (KRun _) |- _ => destruct (N0 _ _ _ X) as [-> E] end. inversion E; subst. right. exists t'. split; auto. constructor.
      + match goal with X : nth_error [_] _ = Some (KRun _) |- _ => destruct (N0 _ _ _ X) as [-> E] end. inversion E; subst. left. repeat split. simpl. constructor. assumption.
    - inversion H; subst; simpl in *; try discriminate.
      + match goal with X : Some _ = Some _ |- _ => inversion X; subst end. left. repeat split. constructor. assumption.
      + match goal with E : nth_error [_] _ = Some (KRun _) |- _ => destruct (N0 _ _ _ E); discriminate end.
      + match goal with E : nth_error [_] _ = Some (KRun _) |- _ => destruct (N0 _ _ _ E); discriminate end.
    - inversion H; subst; simpl in *; try discriminate.
      + match goal with E : nth_error [_] _ = Some (KRun _) |- _ => destruct (N0 _ _ _ E); discriminate end.
      + match goal with E : nth_error [_] _ = Some (KRun _) |- _ => destruct (N0 _ _ _ E); discriminate end.
  Qed.

  Lemma wait_steps : forall l c n s w evs s' w', steps handler n s w evs s' w' -> forall t, wait_state l c t w ->
    exists m t', steps handler m s t evs s' t' /\ wait_state l c t' w'.
  Proof.
    intros l c n s w evs s' w' H. induction H as [s w|n s w ev s1 w1 evs s2 w2 H H0 IH]; intros t W.
    - exists 0, t. split; auto. constructor.
    - destruct (wait_step _ _ _ _ _ _ _ _ W H) as [[-> [-> W1]]|[t1 [S1 W1]]].
      + apply IH. exact W1.
      + destruct (IH _ W1) as [m [t' [S2 W2]]]. exists (S m), t'. split; auto. econstructor; eauto.
  Qed.

  Lemma wait_project : forall l c n s evs s' w, steps handler n s (T [] (wait_task O l c)) evs s' w ->
    exists m t, steps handler m s (T [] c) evs s' t /\ forall r, ended w r -> ended t r.
  Proof.
    intros l c n s evs s' w H. destruct (wait_steps l c _ _ _ _ _ _ H (T [] c)) as [m [t [S W]]]; [now constructor|].
    exists m, t. split; auto. intros r E. destruct W; simpl in E; try contradiction. destruct E as [-> _]. assumption.
  Qed.
End Run.
