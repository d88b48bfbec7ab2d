(** Facts about every accessor call of every execution: a property of a program that holds whatever the accessors
    answer and whatever the futures give, carried along all interleavings. *)
From Verif Require Import Cpp Value Ast ErrorModel ExecModel ExecSem ExecSpec.
Local Open Scope string_scope.
Local Open Scope list_scope.

Section Calls.
  Variable O : Type.
  (** what is claimed of every event *)
  Variable P : event O -> Prop.

  Fixpoint all_events (c : comp O) : Prop :=
    match c with
    | Ret _ => True
    | Call o f p k => P (EvCall o f p) /\ forall a, all_events (k a)
    | Emit e k => P e /\ all_events k
    | Spawn _ c k => all_events c /\ forall i, all_events (k i)
    | Get _ k => forall r, all_events (k r)
    end.

  Fixpoint all_eventsT (t : thread O) : Prop :=
    match t with T ks c => all_events c /\ (fix go (l : list (kid O)) : Prop := match l with [] => True | k :: r => all_eventsK k /\ go r end) ks end
  with all_eventsK (k : kid O) : Prop :=
    match k with KDef c => all_events c | KRun t => all_eventsT t | KDone _ => True end.

  Lemma all_eventsT_iff : forall ks c, all_eventsT (T ks c) <-> all_events c /\ Forall all_eventsK ks.
  Proof.
    intros ks c. simpl. split; intros [H1 H2]; split; auto; clear H1.
    - induction ks as [|k ks IH]; constructor; tauto.
    - induction H2; simpl; auto.
  Qed.

  Lemma Forall_update : forall (A : Type) (Q : A -> Prop) i x l, Forall Q l -> Q x -> Forall Q (update i x l).
  Proof. intros A Q i x l H. revert i. induction H; intros [|i] Hx; simpl; auto. Qed.

  Variable St : Type.
  Variable handler : St -> O -> string -> fparams -> St * answer O.

  Lemma all_events_step : forall s t ev s' t', step handler s t ev s' t' -> all_eventsT t -> Forall P ev /\ all_eventsT t'.
  Proof.
    induction 1; intros A; apply all_eventsT_iff in A; destruct A as [A1 A2]; simpl in A1.
    - destruct A1 as [A1 A3]. split; [auto|]. apply all_eventsT_iff. auto.
    - destruct A1 as [A1 A3]. split; [auto|]. apply all_eventsT_iff. auto.
    - destruct A1 as [A1 A3]. split; [auto|]. apply all_eventsT_iff. split; auto. apply Forall_app. split; auto.
    - destruct A1 as [A1 A3]. split; [auto|]. apply all_eventsT_iff. split; auto. apply Forall_app. split; auto. constructor; auto. simpl. auto.
    - split; [auto|]. apply all_eventsT_iff. split; auto. apply Forall_update; auto. rewrite Forall_forall in A2.
      apply nth_error_In in H. apply A2 in H. simpl. auto.
    - split; [auto|]. apply all_eventsT_iff. auto.
    - split; [auto|]. apply all_eventsT_iff. auto.
    - assert (K : all_eventsT t). { rewrite Forall_forall in A2. apply nth_error_In in H. apply A2 in H. exact H. }
      destruct (IHstep K) as [E1 E2]. split; auto. apply all_eventsT_iff. split; auto. apply Forall_update; auto.
    - split; [auto|]. apply all_eventsT_iff. split; auto. apply Forall_update; simpl; auto.
  Qed.

  Lemma all_events_steps : forall n s t evs s' t', steps handler n s t evs s' t' -> all_eventsT t -> Forall P evs.
  Proof.
    induction 1 as [|n s t ev s1 t1 evs s2 t2 H H0 IH]; intros A; auto.
    destruct (all_events_step _ _ _ _ _ H A) as [E A']. apply Forall_app. auto.
  Qed.

  Lemma all_events_run : forall c n s evs s' t', all_events c -> steps handler n s (T [] c) evs s' t' -> Forall P evs.
  Proof. intros. eapply all_events_steps; eauto. apply all_eventsT_iff. auto. Qed.
End Calls.

(** Weakest preconditions for the CPS programs. *)
Section Wp.
  Variable O : Type.
  Variable P : event O -> Prop.
  Definition wp {A} (m : M O A) (Q : A -> Prop) : Prop := forall k, (forall a, Q a -> all_events O P (k a)) -> all_events O P (m k).

  Lemma wp_get_fut : forall f (Q : result rr -> Prop), (forall r, Q r) -> wp (get_fut O f) Q.
  Proof. intros [r|i] Q H k Hk; simpl; auto. Qed.

  Lemma wp_collect_list : forall p futs i acc (Q : result rr -> Prop), (forall r, Q r) -> wp (collect_list O p i futs acc) Q.
  Proof.
    intros p futs. induction futs as [|f futs IH]; intros i acc Q H k Hk; simpl; auto.
    apply (wp_get_fut f (fun _ => True)); auto. intros a _. destruct (list_step p i a acc); auto. apply (IH _ _ Q); auto.
  Qed.
  Lemma wp_collect_object : forall vals acc (Q : result rr -> Prop), (forall r, Q r) -> wp (collect_object O vals acc) Q.
  Proof.
    intros vals. induction vals as [|[key f] vals IH]; intros acc Q H k Hk; simpl; auto.
    apply (wp_get_fut f (fun _ => True)); auto. intros a _. destruct (object_step key a acc); auto. apply (IH _ Q); auto.
  Qed.

  Section Convert.
    Variable lch : launch.
    Variable robj : O -> field_path -> M O (result rr).
    Variable good : field_path -> Prop.
    Hypothesis good_index : forall fp i, good fp -> good (PIndex i :: fp).
    Hypothesis Hrobj : forall o fp, good fp -> wp (robj o fp) (fun _ => True).
    Hypothesis Hawait : forall fp, good fp -> P (EvAwait (build_error_path fp)).

    Lemma wp_build_object : forall p r (Q : result rr -> Prop), good (rp_path p) -> (forall r, Q r) -> wp (build_object O robj p r) Q.
    Proof. intros p [[o|]|e|] Q G H k Hk; simpl; auto. apply Hrobj; auto. Qed.

    Lemma all_awaited : forall p c, good (rp_path p) -> all_events O P c -> all_events O P (awaited O true p c).
    Proof. intros. simpl. auto. Qed.

    Lemma wp_convert : forall f p (Q : result fut -> Prop), good (rp_path p) -> (forall r, Q r) -> wp (convert O lch robj f p) Q.
    Proof.
      fix IH 1. intros f p Q G H k Hk. destruct f as [b isf v|isf r|r|r|r]; simpl.
      - destruct (if b then block_sub_fields p else Ok tt); auto. destruct isf; simpl; auto.
      - destruct (require_sub_fields p); auto. destruct isf; simpl.
        + split; auto. split; auto. apply (wp_build_object p r (fun _ => True)); simpl; auto.
        + apply (wp_build_object p r (fun _ => True)); auto. intros [x|e|] _; auto.
      - destruct (require_sub_fields p); auto. simpl. split; auto. split; auto. apply (wp_build_object p r (fun _ => True)); simpl; auto.
      - split; auto. split; auto. destruct r as [[f'|]|e|]; simpl; auto.
        apply (IH f' p (fun _ => True)); auto. intros [fu|e|] _; simpl; auto. apply (wp_get_fut fu (fun _ => True)); simpl; auto.
      - split; auto. split; auto. destruct r as [l|e|]; simpl; auto. 
        match goal with |- all_events O P (?g 0%N l []) => set (go := g) end.
        assert (L : forall i acc, all_events O P (go i l acc)); [|apply L].
        induction l as [|f' l IHl]; intros i acc; simpl.
        + apply (wp_collect_list p acc 0 ([], []) (fun _ => True)); simpl; auto.
        + apply (IH f' (with_path p (PIndex i :: rp_path p)) (fun _ => True)); simpl; auto.
          intros [fu|e|] _; simpl; auto.
    Qed.
  End Convert.
End Wp.
