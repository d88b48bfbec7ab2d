(** Programs that start no thread: there is one schedule, and synchronous root fields run one after the other. *)
From Verif Require Import Cpp Value Ast ErrorModel ExecModel ExecSem ExecSpec ExecSemProofs ExecProofs2 ExecCalls.
Local Open Scope string_scope.
Local Open Scope list_scope.

(** every task of the program is deferred *)
Section Seq.
  Variable O : Type.
  Fixpoint seq (c : comp O) : Prop :=
    match c with
    | Ret _ => True
    | Call o f p k => forall a, seq (k a)
    | Emit e k => seq k
    | Spawn l c' k => l = LDeferred /\ seq c' /\ forall i, seq (k i)
    | Get _ k => forall r, seq (k r)
    end.

  (** only the task somebody waits for is running *)
  Fixpoint solo (t : thread O) : Prop :=
    match t with
    | T ks c => seq c /\
        (fix go (j : nat) (l : list (kid O)) : Prop :=
           match l with
           | [] => True
           | k :: r => match k with
                       | KDef c' => seq c'
                       | KRun t' => solo t' /\ (exists k', c = Get j k')
                       | KDone _ => True
                       end /\ go (S j) r
           end) 0 ks
    end.
  Definition kid_ok (c : comp O) (j : nat) (k : kid O) : Prop :=
    match k with KDef c' => seq c' | KRun t' => solo t' /\ (exists k', c = Get j k') | KDone _ => True end.
  Lemma solo_iff : forall ks c, solo (T ks c) <-> seq c /\ forall j k, nth_error ks j = Some k -> kid_ok c j k.
  Proof.
    intros ks c. simpl. 
    assert (G : forall j, (fix go (j : nat) (l : list (kid O)) : Prop :=
           match l with [] => True | k :: r => match k with KDef c' => seq c' | KRun t' => solo t' /\ (exists k', c = Get j k') | KDone _ => True end /\ go (S j) r end) j ks
         <-> forall i k, nth_error ks i = Some k -> kid_ok c (j + i) k).
    { induction ks as [|k ks IH]; intros j; [split; auto; intros _ [|i] k H; discriminate|]. rewrite IH. split.
      - intros [H1 H2] [|i] k' E; simpl in E; [inversion E; subst; now rewrite Nat.add_0_r|]. specialize (H2 _ _ E). now rewrite Nat.add_succ_r.
      - intros H. split; [specialize (H 0 k eq_refl); now rewrite Nat.add_0_r in H|]. intros i k' E. specialize (H (S i) k' E). now rewrite Nat.add_succ_r in H. }
    rewrite (G 0). simpl. tauto.
  Qed.

  Lemma nth_update : forall (A : Type) i j (x : A) l k, nth_error (update i x l) j = Some k -> (i = j /\ k = x) \/ (i <> j /\ nth_error l j = Some k).
  Proof.
    intros A i j x l. revert i j. induction l as [|y l IH]; intros [|i] [|j] k H; simpl in H; try discriminate.
    - left. split; congruence.
    - right. split; auto.
    - right. split; auto.
    - apply IH in H. destruct H as [[-> ->]|[N H]]; [left | right]; auto.
  Qed.

  Variable St : Type.
  Variable handler : St -> O -> string -> fparams -> St * answer O.

  Lemma solo_kids_done : forall ks c r, solo (T ks c) -> c = Ret r -> existsb is_running ks = false.
  Proof.
    intros ks c r H ->. apply solo_iff in H. destruct H as [_ H]. destruct (existsb is_running ks) eqn:E; auto.
    apply existsb_exists in E. destruct E as [[c'|t|r'] [I E]]; try discriminate. apply In_nth_error in I. destruct I as [j I].
    specialize (H _ _ I). destruct H as [_ [k' H]]. discriminate.
  Qed.

  Lemma solo_step : forall s t ev s' t', step handler s t ev s' t' -> solo t -> solo t'.
  Proof.
    induction 1 as [s ks o f p k|s ks e k|s ks l c k Hl|s ks l c k Hl|s ks i k c E|s ks i k r E|s ks i k E|s ks c i t ev s' t' E H IH|s ks c i t r E H];
      intros A; apply solo_iff in A; destruct A as [A1 A2]; apply solo_iff.
    - simpl in A1. split; auto. intros j kd X. specialize (A2 _ _ X). destruct kd; simpl in *; auto. destruct A2 as [_ [k' A2]]. discriminate.
    - simpl in A1. split; auto. intros j kd X. specialize (A2 _ _ X). destruct kd; simpl in *; auto. destruct A2 as [_ [k' A2]]. discriminate.
    - simpl in A1. destruct A1 as [_ [A1 A3]]. split; auto. intros j kd X.
      destruct (Nat.lt_ge_cases j (length ks)) as [L|L].
      + rewrite nth_error_app1 in X by auto. specialize (A2 _ _ X). destruct kd; simpl in *; auto. destruct A2 as [_ [k' A2]]. discriminate.
      + rewrite nth_error_app2 in X by auto. destruct (j - length ks) as [|[|m]]; simpl in X; inversion X; subst. exact A1.
    - simpl in A1. destruct A1 as [A0 _]. congruence.
    - split; auto. intros j kd X. apply nth_update in X. destruct X as [[<- ->]|[N X]]; [|now apply A2]. simpl. split; [|eauto].
      split; [|exact I]. exact (A2 _ _ E).
    - simpl in A1. split; auto. intros j kd X. pose proof (A2 _ _ X) as Y. destruct kd; simpl in *; auto. destruct Y as [_ [k' Y]]. inversion Y; subst. congruence.
    - simpl in A1. split; auto. intros j kd X. pose proof (A2 _ _ X) as Y. destruct kd; simpl in *; auto. destruct Y as [_ [k' Y]]. inversion Y; subst. congruence.
    - split; auto. intros j kd X. apply nth_update in X. destruct X as [[<- ->]|[N X]]; [|now apply A2].
      pose proof (A2 _ _ E) as [Y1 Y2]. simpl. split; auto.
    - split; auto. intros j kd X. apply nth_update in X. destruct X as [[<- ->]|[N X]]; [exact I|now apply A2].
  Qed.

  (** one schedule *)
  Lemma solo_step_unique : forall s t ev s' t', step handler s t ev s' t' -> solo t -> forall ev2 s2 t2, step handler s t ev2 s2 t2 ->
    ev2 = ev /\ s2 = s' /\ t2 = t'.
  Proof.
    induction 1 as [s ks o f p k|s ks e k|s ks l c k Hl|s ks l c k Hl|s ks i k c E|s ks i k r E|s ks i k E|s ks c i t ev s' t' E H IH|s ks c i t r E H];
      intros A ev2 s2 t2 H2; pose proof A as A0; apply solo_iff in A; destruct A as [A1 A2];
      inversion H2; subst;
      try (match goal with X : nth_error _ _ = Some (KRun _) |- _ => destruct (A2 _ _ X) as [_ [? Y]]; discriminate end);
      try (simpl in A1; destruct A1; congruence);
      try (repeat split; congruence).
    all: try (match goal with X : nth_error _ _ = Some (KRun _) |- _ => destruct (A2 _ _ X) as [? [? Y]]; inversion Y; subst; congruence end).
    all: try (destruct (A2 _ _ E) as [S1 [? Y1]];
         match goal with X : nth_error _ _ = Some (KRun ?t0) |- _ => assert_fails (constr_eq X E); destruct (A2 _ _ X) as [_ [? Y2]]; rewrite Y1 in Y2; inversion Y2; subst;
           assert (t = t0) by congruence; subst end).
    - match goal with X : step handler _ _ _ _ _ |- _ => assert_fails (constr_eq X H); destruct (IH S1 _ _ _ X) as [-> [-> ->]] end. auto.
    - exfalso. eapply ended_stuck; eauto.
    - exfalso. eapply ended_stuck; eauto.
    - assert (r0 = r). { destruct t0 as [ks0 c0]. destruct c0; simpl in *; try contradiction. intuition congruence. } subst. auto.
  Qed.

  Lemma solo_steps : forall n s t evs s' t', steps handler n s t evs s' t' -> solo t -> solo t'.
  Proof. induction 1; auto. intros. apply IHsteps. eapply solo_step; eauto. Qed.

  (** two executions: one is the beginning of the other *)
  Lemma solo_unique : forall n s t evs s' t', steps handler n s t evs s' t' -> solo t -> forall m evs2 s2 t2, steps handler m s t evs2 s2 t2 -> n <= m ->
    exists evs', evs2 = evs ++ evs' /\ steps handler (m - n) s' t' evs' s2 t2.
  Proof.
    induction 1 as [s t|n s t ev s1 t1 evs s' t' H H0 IH]; intros A m evs2 s2 t2 X L.
    - exists evs2. rewrite Nat.sub_0_r. auto.
    - inversion X as [|m' ? ? ev' ? ? evs'' ? ? X1 X2]; subst; [lia|].
      destruct (solo_step_unique _ _ _ _ _ H A _ _ _ X1) as [-> [-> ->]].
      destruct (IH (solo_step _ _ _ _ _ H A) _ _ _ _ X2 ltac:(lia)) as [evs' [-> Y]]. exists evs'. rewrite app_assoc. split; auto.
  Qed.
End Seq.

(** resolving with the deferred policy starts no thread *)
Section SeqWp.
  Variable O : Type.
  Variables (typenames : O -> list string) (has_field : O -> string -> bool).
  Notation seq := (seq O).
  Definition sw {A} (m : M O A) : Prop := forall k, (forall a, seq (k a)) -> seq (m k).

  Lemma sw_get : forall f, sw (get_fut O f).
  Proof. intros [r|i] k H; simpl; auto. Qed.
  Lemma sw_collect_object : forall vals acc, sw (collect_object O vals acc).
  Proof.
    induction vals as [|[key f] vals IH]; intros acc k H; simpl; auto.
    apply sw_get. intros a. destruct (object_step key a acc); auto. now apply IH.
  Qed.
  Lemma sw_collect_list : forall p futs i acc, sw (collect_list O p i futs acc).
  Proof.
    intros p futs. induction futs as [|f futs IH]; intros i acc k H; simpl; auto.
    apply sw_get. intros a. destruct (list_step p i a acc); auto. now apply IH.
  Qed.

  Lemma sw_convert : forall robj, (forall o fp, sw (robj o fp)) -> forall f p, sw (convert O LDeferred robj f p).
  Proof.
    intros robj Hr.
    assert (B : forall p r k, (forall a, seq (k a)) -> seq (build_object O robj p r k)).
    { intros p [[o|]|e|] k H; simpl; auto. apply Hr; auto. }
    fix IH 1. intros f p k Hk. destruct f as [b isf v|isf r|r|r|r]; simpl.
    - destruct (if b then block_sub_fields p else Ok tt); auto. destruct isf; simpl; auto.
    - destruct (require_sub_fields p); auto. destruct isf; simpl.
      + split; auto. split; auto. apply B. simpl. auto.
      + apply B. intros [x|e|]; auto.
    - destruct (require_sub_fields p); auto. simpl. split; auto. split; auto. apply B. simpl. auto.
    - split; auto. split; auto. destruct r as [[f'|]|e|]; simpl; auto.
      apply (IH f' p). intros [fu|e|]; simpl; auto. apply (sw_get fu). simpl. auto.
    - split; auto. split; auto. destruct r as [l|e|]; simpl; auto.
      match goal with |- seq (?g 0%N l []) => set (go := g) end.
      assert (L : forall i acc, seq (go i l acc)); [|apply L].
      induction l as [|f' l IHl]; intros i acc; simpl.
      + apply (sw_collect_list p acc 0 ([], [])). simpl. auto.
      + apply (IH f' (with_path p (PIndex i :: rp_path p))). intros [fu|e|]; simpl; auto.
  Qed.

  Lemma sw_all : forall (vis : selection -> vstate -> M O (result vstate)) sels, (forall s st, sw (vis s st)) -> forall st, sw (visit_all O vis sels st).
  Proof.
    intros vis sels H. induction sels as [|s sels IH]; intros st k Hk; simpl; auto.
    apply H. intros [st'|x|]; auto. apply IH; auto.
  Qed.

  Lemma sw_visit : forall fuel e, e_launch e = LDeferred -> forall o fp fd s st, sw (visit O typenames has_field fuel e o fp fd s st).
  Proof.
    intros fuel e He. induction fuel as [|n IH]; intros o fp fd s st k Hk; [now apply Hk|].
    destruct s as [loc al nm args dirs sub|loc nm dirs|loc cond dirs sel]; simpl.
    - unfold visit_field. destruct (existsb _ _); [now apply Hk|]. destruct (has_field o nm) eqn:HF; simpl; [|now apply Hk].
      destruct (bind (visit_directives (e_vars e) dirs []) _) as [[ds [|]]|x|] eqn:ED; try (now apply Hk).
      destruct (visit_arguments (e_vars e) args []) as [avs|x|] eqn:EA; try (now apply Hk).
      intros [x|f]; [now apply Hk|]. rewrite He. apply sw_convert.
      + intros o' q k' Hk'. unfold resolve_with. simpl. apply sw_all; [intros; apply IH|]. intros [st'|x|]; auto. simpl. now apply sw_collect_object.
      + intros [fu|x|]; now apply Hk.
    - unfold visit_spread. destruct (find_fragment nm (e_frags e)) as [fr|] eqn:FF; [|now apply Hk].
      destruct (matches_type O typenames o (fr_type fr)) eqn:MT; simpl; [|now apply Hk].
      destruct (bind (visit_directives (e_vars e) dirs []) _) as [[ds [|]]|x|] eqn:ED; try (now apply Hk).
      apply sw_all; auto.
    - unfold visit_inline.
      destruct (bind (visit_directives (e_vars e) dirs []) _) as [[ds [|]]|x|] eqn:ED; try (now apply Hk).
      destruct (match cond with Some (_, t) => matches_type O typenames o t | None => true end) eqn:MT; [|now apply Hk].
      apply sw_all; auto.
  Qed.

  Lemma sw_resolve : forall fuel e o fp sels, e_launch e = LDeferred -> sw (resolve O typenames has_field fuel e o fp sels).
  Proof.
    intros fuel e o fp sels He k Hk. unfold resolve, resolve_with. simpl. apply sw_all; [intros; now apply sw_visit|].
    intros [st'|x|]; auto. simpl. now apply sw_collect_object.
  Qed.
End SeqWp.
