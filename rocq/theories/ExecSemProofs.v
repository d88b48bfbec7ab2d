(** Accessors whose answers do not depend on other calls: every execution computes the same value. *)
From Verif Require Import Cpp Value Ast ErrorModel ExecModel ExecSem.

Section Den.
  Variable O : Type.
  Variable ans : O -> string -> fparams -> answer O.

  Fixpoint den (tbl : list (result rr)) (c : comp O) : result rr :=
    match c with
    | Ret r => r
    | Call o f p k => den tbl (k (ans o f p))
    | Emit _ k => den tbl k
    | Spawn _ c k => den (tbl ++ [den [] c]) (k (length tbl))
    | Get i k => den tbl (k (nth i tbl UB))
    end.

  (** a bound on the number of steps *)
  Fixpoint cost (tbl : list (result rr)) (c : comp O) : nat :=
    match c with
    | Ret r => 0
    | Call o f p k => S (cost tbl (k (ans o f p)))
    | Emit _ k => S (cost tbl k)
    | Spawn _ c k => 3 + cost [] c + cost (tbl ++ [den [] c]) (k (length tbl))
    | Get i k => S (cost tbl (k (nth i tbl UB)))
    end.

  Fixpoint denT (t : thread O) : result rr :=
    match t with T ks c => den (map denK ks) c end
  with denK (k : kid O) : result rr :=
    match k with KDef c => den [] c | KRun t => denT t | KDone r => r end.

  Fixpoint costT (t : thread O) : nat :=
    match t with T ks c => cost (map denK ks) c + list_sum (map costK ks) end
  with costK (k : kid O) : nat :=
    match k with KDef c => 2 + cost [] c | KRun t => S (costT t) | KDone r => 0 end.

  Variable St : Type.
  Variable handler : St -> O -> string -> fparams -> St * answer O.
  Hypothesis Hpure : forall s o f p, snd (handler s o f p) = ans o f p.

  Lemma update_map : forall (A B : Type) (g : A -> B) i x (l : list A) y,
    nth_error l i = Some y -> g x = g y -> map g (update i x l) = map g l.
  Proof.
    intros A B g i x l; revert i; induction l as [|a l IH]; intros [|i] y H E; simpl in *; try discriminate.
    - inversion H; subst. now rewrite E.
    - f_equal. eapply IH; eauto.
  Qed.

  Lemma update_length : forall (A : Type) i (x : A) l, length (update i x l) = length l.
  Proof. intros A i x l; revert i; induction l as [|a l IH]; intros [|i]; simpl; auto. Qed.

  Lemma update_sum : forall (A : Type) (g : A -> nat) i x (l : list A) y,
    nth_error l i = Some y -> list_sum (map g (update i x l)) + g y = list_sum (map g l) + g x.
  Proof.
    intros A g i x l; revert i; induction l as [|a l IH]; intros [|i] y H; simpl in *; try discriminate.
    - inversion H; subst. lia.
    - specialize (IH i y H). lia.
  Qed.

  Lemma list_sum_snoc : forall l x, list_sum (l ++ [x]) = list_sum l + x.
  Proof. induction l; simpl; intros; [lia | rewrite IHl; lia]. Qed.

  Lemma nth_map : forall (ks : list (kid O)) i k, nth_error ks i = Some k -> nth i (map denK ks) UB = denK k.
  Proof.
    induction ks as [|a ks IH]; intros [|i] k H; simpl in *; try discriminate.
    - now inversion H.
    - now apply IH.
  Qed.

  Lemma nth_none : forall (ks : list (kid O)) i, nth_error ks i = None -> nth i (map denK ks) UB = UB.
  Proof. intros. apply nth_overflow. rewrite map_length. now apply nth_error_None. Qed.

  Lemma ended_den : forall t r, ended t r -> denT t = r.
  Proof. intros [ks [r'| | | |]] r H; simpl in *; try contradiction. tauto. Qed.

  Lemma step_sound : forall s t ev s' t', step handler s t ev s' t' -> denT t' = denT t /\ costT t' < costT t.
  Proof.
    induction 1; simpl.
    - rewrite Hpure. split; [reflexivity | lia].
    - split; [reflexivity | lia].
    - rewrite !map_app, map_length; simpl; rewrite list_sum_snoc. split; [reflexivity | lia].
    - rewrite !map_app, map_length; simpl; rewrite list_sum_snoc. split; [reflexivity | lia].
    - pose proof (update_map _ _ denK i (KRun (T [] c)) ks (KDef c) H eq_refl) as E. rewrite E.
      pose proof (update_sum _ costK i (KRun (T [] c)) ks (KDef c) H) as C. simpl in C. split; [reflexivity | lia].
    - rewrite (nth_map _ _ _ H). simpl. split; [reflexivity | lia].
    - rewrite (nth_none _ _ H). split; [reflexivity | lia].
    - destruct IHstep as [IH1 IH2].
      assert (E : map denK (update i (KRun t') ks) = map denK ks) by (eapply update_map; eauto).
      rewrite E. pose proof (update_sum _ costK i (KRun t') ks (KRun t) H) as C. simpl in C. split; [reflexivity | lia].
    - assert (E : map denK (update i (KDone r) ks) = map denK ks)
        by (eapply update_map; eauto; simpl; symmetry; now apply ended_den).
      rewrite E. pose proof (update_sum _ costK i (KDone r) ks (KRun t) H) as C. simpl in C. split; [reflexivity | lia].
  Qed.

  Lemma steps_sound : forall n s t evs s' t', steps handler n s t evs s' t' -> denT t' = denT t /\ n + costT t' <= costT t.
  Proof.
    induction 1 as [|n s t ev s1 t1 evs s2 t2 H H0 [IH1 IH2]]; [split; auto|].
    apply step_sound in H. destruct H as [H1 H2]. split; [congruence | lia].
  Qed.
End Den.

(** Every unfinished thread can move: no deadlock, whatever the accessors do. *)
Section Progress.
  Variables (O St : Type) (handler : St -> O -> string -> fparams -> St * answer O).

  Fixpoint thread_size (t : thread O) : nat :=
    match t with T ks c => S (list_sum (map kid_size ks)) end
  with kid_size (k : kid O) : nat := match k with KRun t => S (thread_size t) | _ => 0 end.

  Lemma kid_size_le : forall ks i k, nth_error ks i = Some k -> kid_size k <= list_sum (map kid_size ks).
  Proof.
    induction ks as [|a ks IH]; intros [|i] k H; simpl in *; try discriminate.
    - inversion H; subst; lia.
    - apply IH in H. lia.
  Qed.

  Lemma running_kid : forall (ks : list (kid O)), existsb is_running ks = true -> exists i t, nth_error ks i = Some (KRun t).
  Proof.
    induction ks as [|a ks IH]; intros H; simpl in H; [discriminate|].
    destruct a as [c|t|r]; simpl in H.
    - destruct (IH H) as [i [t E]]. exists (S i), t. exact E.
    - exists 0, t. reflexivity.
    - destruct (IH H) as [i [t E]]. exists (S i), t. exact E.
  Qed.

  Lemma progress_size : forall n t s, thread_size t < n ->
    (exists r, ended t r) \/ (exists ev s' t', step handler s t ev s' t').
  Proof.
    induction n as [|n IH]; intros [ks c] s Hn; [lia|]. simpl in Hn.
    assert (Kid : forall i t, nth_error ks i = Some (KRun t) -> exists ev s' t', step handler s (T ks c) ev s' t').
    { intros i t E. pose proof (kid_size_le _ _ _ E) as L. simpl in L.
      destruct (IH t s ltac:(lia)) as [[r Hr]|[ev [s' [t' Hs]]]].
      - do 3 eexists. eapply step_join; eauto.
      - do 3 eexists. eapply step_kid; eauto. }
    destruct c as [r|o f p k|e k|l c k|i k].
    - destruct (existsb (is_running) ks) eqn:E.
      + right. destruct (running_kid _ E) as [i [t Hi]]. eauto.
      + left. exists r. simpl. auto.
    - right. do 3 eexists. apply step_call.
    - right. do 3 eexists. apply step_emit.
    - right. destruct l; do 3 eexists; first [apply step_defer; discriminate | apply step_async; discriminate].
    - right. destruct (nth_error ks i) as [[c|t|r]|] eqn:E.
      + do 3 eexists. eapply step_force; eauto.
      + eauto.
      + do 3 eexists. eapply step_get; eauto.
      + do 3 eexists. eapply step_bad_get; eauto.
  Qed.

  Lemma progress : forall t s, (exists r, ended t r) \/ (exists ev s' t', step handler s t ev s' t').
  Proof. intros t s. apply (progress_size (S (thread_size t))). lia. Qed.

  Lemma ended_stuck : forall t r s ev s' t', ended t r -> ~ step handler s t ev s' t'.
  Proof.
    intros t r s ev s' t' He Hs. destruct t as [ks c]. destruct c; simpl in He; try contradiction.
    destruct He as [_ He].
    assert (K : forall i t, nth_error ks i = Some (KRun t) -> False).
    { intros i t Hi. assert (existsb (is_running) ks = true); [|congruence].
      apply existsb_exists. exists (KRun t). split; [eapply nth_error_In; eauto | reflexivity]. }
    inversion Hs; subst; eauto.
  Qed.
End Progress.
