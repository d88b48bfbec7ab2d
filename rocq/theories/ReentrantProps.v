(** C60: callbacks that subscribe, unsubscribe and deliver while an event is being delivered to them. *)
From Coq Require Import Permutation Sorting.Sorted.
From Verif Require Import Cpp Value Ast ErrorModel SortedMapModel SortedMapProofs ExecModel ExecSem ExecSpec ExecDirect ExecMono ExecExamples ExecProps2
  SubscriptionModel SubscriptionSpec SubscriptionProofs SubscriptionHistory SubscriptionDelivery SubscriptionProps SubscriptionProps2 SubscriptionProps3 ReentrantModel.
Local Open Scope string_scope.
Local Open Scope list_scope.

Section Flat.
  Variable O : Type.
  Variables (typenames : O -> list string) (has_field : O -> string -> bool) (roots : list (string * option O)).
  Variable CB : Type.
  Variable ans : O -> string -> fparams -> answer O.
  Variable fuel : nat.
  Variable validate : document -> list schema_error.
  Notation history := (history O typenames has_field roots CB ans fuel validate).
  Notation performed := (performed O typenames has_field roots CB ans fuel validate).
  Notation performs := (performs O typenames has_field roots CB ans fuel validate).
  Notation waits := (waits O typenames has_field roots CB ans fuel validate).

  (** The tasks that were waited for, as the model of deliver without nested calls sees them. *)
  Lemma waits_waited : forall r is log e t r', waits r is log e t r' ->
    exists ss, map (st_inv CB) ss = is /\ (forall s, In s ss -> st_async CB s = false) /\ waited CB ss = (log, e).
  Proof.
    intros r is log e t r' H. induction H as [r|r i is t r1 log e ts r2 P W (ss & E & A & Wd)|r i is ex t r1 P].
    - exists []. split; [reflexivity|]. split; [intros s []|reflexivity].
    - exists (mkStarted CB false i None :: ss). split; [simpl; congruence|]. split; [intros s [<-|I]; auto|]. simpl. rewrite Wd. reflexivity.
    - exists (mkStarted CB false i (Some ex) :: map (fun j => mkStarted CB false j None) is). split; [simpl; rewrite map_map, map_id; reflexivity|].
      split; [|reflexivity]. intros s [<-|I]; auto. apply in_map_iff in I as (j & <- & _). reflexivity.
  Qed.
  Lemma waits_calls_back : forall r is log e t r', waits r is log e t r' ->
    calls_back CB LDeferred is (Ok tt) log (match e with None => Ok tt | Some ex => Throw ex end).
  Proof.
    intros r is log e t r' H. destruct (waits_waited _ _ _ _ _ _ H) as (ss & E & A & Wd). exists ss, []. split; [exact E|].
    split; [intros s I; rewrite (A s I); split; congruence|]. rewrite Wd. simpl. split; [|split; [apply interleaved_right|destruct e; reflexivity]].
    replace (filter (st_async CB) ss) with (@nil (started CB)); [constructor|]. clear -A. induction ss as [|s ss IH]; simpl; auto.
    rewrite (A s (or_introl eq_refl)). apply IH. intros x I. apply A. now right.
  Qed.
  Lemma delivered_first : forall r name f object default o keys is log e t r', find_root O "subscription" roots = Some default ->
    match object with Some x => Some x | None => default end = Some o -> smap_find string_lt (listeners CB r) name = Some keys ->
    collects O CB (resolving O typenames has_field CB ans fuel CSubscription LDeferred) (fst (filters_of f)) (snd (filters_of f)) o (subscriptions CB r) keys is (Ok tt) ->
    waits r is log e t r' ->
    serves O typenames has_field roots CB ans fuel validate r (Deliver LDeferred name f object) (CalledBack log (match e with None => Ok tt | Some ex => Throw ex end)) r.
  Proof.
    intros r name f object default o keys is log e t r' R Eo Fl C W. apply se_deliver; [destruct e; discriminate|].
    eapply de_listeners; [exact R|exact Eo|exact Fl|exact C|]. exact (waits_calls_back _ _ _ _ _ _ W).
  Qed.
  Lemma flat : (forall r t r', performed r t r' -> forall h, history h r -> history (h ++ t) r') /\
    (forall r c a t r', performs r c a t r' -> forall h, history h r -> history (h ++ t) r') /\
    (forall r is log e t r', waits r is log e t r' -> forall h, history h r -> history (h ++ t) r').
  Proof.
    apply (performed_mutind O typenames has_field roots CB ans fuel validate
      (fun r t r' _ => forall h, history h r -> history (h ++ t) r') (fun r c a t r' _ => forall h, history h r -> history (h ++ t) r')
      (fun r is log e t r' _ => forall h, history h r -> history (h ++ t) r')).
    - intros r h H. now rewrite app_nil_r.
    - intros r c a t r1 ts r2 _ IH1 _ IH2 h H. rewrite app_assoc. apply IH2, IH1, H.
    - intros r c a r' Sv h H. eapply hi_call; eauto.
    - intros r name f object default o keys is log e t r' R Eo Fl C W IH h H.
      change (h ++ ?x :: t) with (h ++ [x] ++ t). rewrite app_assoc. apply IH. eapply hi_call; [exact H|]. exact (delivered_first _ _ _ _ _ _ _ _ _ _ _ _ R Eo Fl C W).
    - intros r h H. now rewrite app_nil_r.
    - intros r i is t r1 log e ts r2 _ IH1 _ IH2 h H. rewrite app_assoc. apply IH2, IH1, H.
    - intros r i is ex t r1 _ IH h H. apply IH, H.
  Qed.
  Lemma history_prefix : forall h t r, history (h ++ t) r -> exists r1, history h r1.
  Proof.
    intros h t. revert h. induction t as [|x t IH] using rev_ind; intros h r H; [rewrite app_nil_r in H; eauto|].
    rewrite app_assoc in H. destruct x as [c a]. apply history_snoc in H as (r1 & H & _). eauto.
  Qed.
End Flat.

(** Calls that callbacks make while an event is delivered have the same effects and answers as if the delivery had been over when they
    were made: all theorems on sequences of calls (C20, C21, C43, C44, C59) hold for them. *)
Theorem C60_as_if_sequential : forall O typenames has_field roots CB ans fuel validate t r,
  performed O typenames has_field roots CB ans fuel validate (no_subscriptions CB) t r -> history O typenames has_field roots CB ans fuel validate t r.
Proof.
  intros O typenames has_field roots CB ans fuel validate t r H. exact (proj1 (flat O typenames has_field roots CB ans fuel validate) _ _ _ H [] (hi_new _ _ _ _ _ _ _ _)).
Qed.

(** Every delivery, nested in others or not: it calls the subscriptions back that were there when deliver was called, in the order of their keys,
    whatever the callbacks do; all of them unless a callback throws. *)
Theorem C60_delivery : forall O typenames has_field roots CB ans fuel validate t r (h : list (call O CB * answered CB)) name f object log final t',
  performed O typenames has_field roots CB ans fuel validate (no_subscriptions CB) t r ->
  t = h ++ (Deliver LDeferred name f object, CalledBack log final) :: t' ->
  Forall plain_call h -> (made h < size_t_max)%N -> name <> "" ->
  exists rs rest, recipients (default_types typenames roots) h name f rs /\ map who_is rs = map who log ++ rest /\ (final = Ok tt -> rest = []).
Proof.
  intros O typenames has_field roots CB ans fuel validate t r h name f object log final t' H E P M N.
  apply C60_as_if_sequential in H. subst t. change (h ++ ?x :: t') with (h ++ [x] ++ t') in H. rewrite app_assoc in H.
  apply history_prefix in H as (r1 & H). destruct (C20_delivery _ _ _ _ _ _ _ _ _ _ _ _ _ _ _ _ H P M N) as (rs & rest & R & _ & F & D).
  exists rs, rest. split; [exact R|]. split; [exact (D eq_refl)|exact F].
Qed.
(** And each gets the document of its own operation and variables on the object of that event. *)
Theorem C60_document : forall O typenames has_field roots CB ans fuel validate t r (h : list (call O CB * answered CB)) l name f object log final t',
  performed O typenames has_field roots CB ans fuel validate (no_subscriptions CB) t r ->
  t = h ++ (Deliver l name f object, CalledBack log final) :: t' -> Forall plain_call h -> (made h < size_t_max)%N ->
  forall i, In i log -> exists o s x, event_object roots object o /\ In (i_key i, s) (live h) /\ i_callback i = s_callback s /\
    resolves_to typenames has_field ans fuel CSubscription l o s x /\ document_for x (i_document i).
Proof.
  intros O typenames has_field roots CB ans fuel validate t r h l name f object log final t' H E P M.
  apply C60_as_if_sequential in H. subst t. change (h ++ ?x :: t') with (h ++ [x] ++ t') in H. rewrite app_assoc in H.
  apply history_prefix in H as (r1 & H). exact (C21_document _ _ _ _ _ _ _ _ _ _ _ _ _ _ _ _ H P M).
Qed.

(** The delivery gets to the end whatever the callbacks do, as long as none throws: [behaves i r] are the calls that the callback of [i] makes, and what they
    leave, when it is called while the Request is in the state [r]. *)
Theorem C60_completes : forall O typenames has_field roots CB ans fuel validate (h : list (call O CB * answered CB)) r name f object o rs
    (behaves : invocation CB -> registry CB -> list (call O CB * answered CB) * registry CB),
  performed O typenames has_field roots CB ans fuel validate (no_subscriptions CB) h r -> Forall plain_call h -> (made h < size_t_max)%N -> name <> "" ->
  find_root O "subscription" roots <> None -> event_object roots object o ->
  (forall n v, exists b, fst (filters_of f) n v = Ok b) -> (forall n v, exists b, snd (filters_of f) n v = Ok b) ->
  recipients (default_types typenames roots) h name f rs ->
  (forall k s, In (k, s) rs -> exists x d, resolves_to typenames has_field ans fuel CSubscription LDeferred o s x /\ document_for x d) ->
  (forall i r, performed O typenames has_field roots CB ans fuel validate r (fst (behaves i r)) (snd (behaves i r))) ->
  exists log t r', map who log = map who_is rs /\
    performed O typenames has_field roots CB ans fuel validate (no_subscriptions CB) (h ++ (Deliver LDeferred name f object, CalledBack log (Ok tt)) :: t) r'.
Proof.
  intros O typenames has_field roots CB ans fuel validate h r name f object o rs behaves H P M N NR Ob T1 T2 Rs X B.
  pose proof (C60_as_if_sequential _ _ _ _ _ _ _ _ _ _ H) as Hf.
  destruct (history_follows _ _ _ _ _ _ _ _ _ _ Hf M) as [L Fo].
  destruct (delivers_exists O typenames has_field roots CB ans fuel validate _ _ _ LDeferred name f object o P Fo N NR Ob T1 T2) as [log Dl].
  { intros k s es ds I Li A1 A2. apply (X k s). apply Rs. eauto 6. }
  assert (HD : history O typenames has_field roots CB ans fuel validate (h ++ [(Deliver LDeferred name f object, CalledBack log (Ok tt))]) r).
  { eapply hi_call; [exact Hf|]. apply se_deliver; [discriminate|exact Dl]. }
  destruct (C20_delivery _ _ _ _ _ _ _ _ _ _ _ _ _ _ _ _ HD P M N) as (rs' & rest & R' & _ & F & D). specialize (D eq_refl). rewrite (F eq_refl), app_nil_r in D.
  rewrite <- (C20_recipients_determined _ _ _ _ _ _ _ _ _ _ _ _ _ _ Hf M Rs R') in D.
  assert (App : forall c a t' r', performs O typenames has_field roots CB ans fuel validate r c a ((c, a) :: t') r' ->
    performed O typenames has_field roots CB ans fuel validate (no_subscriptions CB) (h ++ (c, a) :: t') r').
  { intros c a t' r' Hp. revert H Hp. generalize (no_subscriptions CB). intros r0 H. clear -H. induction H as [r|r c0 a0 t r1 ts r2 Hp Hs IH]; intros Hc.
    - replace ([] ++ (c, a) :: t') with (((c, a) :: t') ++ []) by (rewrite app_nil_r; reflexivity). eapply pd_call; [exact Hc|constructor].
    - rewrite <- app_assoc. eapply pd_call; [exact Hp|]. apply IH, Hc. }
  pose proof Dl as Dl'. inversion Dl as [R|R Eo|default o' R Eo Fl|default o' keys is out log' final' R Eo Fl C Cb]; subst.
  - exists [], [], r. split; [symmetry; exact D|]. apply App. apply pf_call. apply se_deliver; [discriminate|exact Dl'].
  - assert (W : forall is r, exists t r', waits O typenames has_field roots CB ans fuel validate r is is None t r').
    { induction is0 as [|i is0 IH]; intros ra; [exists [], ra; constructor|]. destruct (IH (snd (behaves i ra))) as (t & r' & W). exists (fst (behaves i ra) ++ t), r'.
      eapply wa_returns; [apply B|exact W]. }
    assert (Q : out = Ok tt /\ log = is).
    { destruct Cb as (ss & asyncs & E1 & E2 & E3). destruct out as [[]|e|]; [|destruct E3 as (_ & _ & ?); discriminate|destruct E3 as (_ & _ & ?); discriminate].
      split; [reflexivity|]. destruct (waited CB ss) as [lg e] eqn:Wd. destruct E3 as (E3 & E4 & E5).
      assert (As : filter (st_async CB) ss = []).
      { clear -E2. induction ss as [|s ss IH]; simpl; auto. destruct (st_async CB s) eqn:A; [exfalso; apply (proj1 (E2 s (or_introl eq_refl)) A eq_refl)|].
        apply IH. intros x I. apply E2. now right. }
      rewrite As in E3. apply Permutation_sym, Permutation_nil in E3. subst asyncs. apply interleaved_nil in E4. cbn [fst snd] in *. destruct e; [discriminate|]. subst is log.
      clear -As Wd. revert lg Wd. induction ss as [|s ss IH]; intros lg Wd; simpl in *; [injection Wd as <-; reflexivity|].
      destruct (st_async CB s); [discriminate|]. destruct (st_throws CB s); [discriminate|]. destruct (waited CB ss) as [l0 e0]. injection Wd as <- ->. simpl. f_equal. now apply IH. }
    destruct Q as [-> ->]. destruct (W is r) as (t & r' & Wt). exists is, t, r'. split; [symmetry; exact D|]. apply App.
    exact (pf_deliver O typenames has_field roots CB ans fuel validate r name f object default o' keys is is None t r' R Eo Fl C Wt).
Qed.

(** ** Examples *)
Definition sub_performed := performed obj ex_types ex_has sub_roots nat ex_ans 20 no_errors.
Definition echo1 : call obj nat := deliver_call "echo" (ByArguments [("a", VInt 1)]).
Definition a_doc_value : value := VMap [("data", VMap [("echo", VMap [("a", VInt 1)])])].
(** During the delivery, callback 7 unsubscribes callback 8 and subscribes callback 9, which gets the key that callback 8 had. Callback 8 is still called
    in this delivery, callback 9 only in the next one. *)
Definition nested_calls : list (call obj nat * answered nat) :=
  two_subscribed ++ (echo1, CalledBack [event_of 0 7 plain_doc_value; event_of 1 8 a_doc_value] (Ok tt)) ::
  [(Unsubscribe 1, Returned); (sub_call doc_plain 9, GotKey 1%N); (echo1, CalledBack [event_of 0 7 plain_doc_value; event_of 1 9 plain_doc_value] (Ok tt))].
Lemma performed_one c a r r' : serves obj ex_types ex_has sub_roots nat ex_ans 20 no_errors r c a r' -> forall t r'', sub_performed r' t r'' -> sub_performed r ((c, a) :: t) r''.
Proof. intros Sv t r'' H. exact (pd_call _ _ _ _ _ _ _ _ r c a [(c, a)] r' t r'' (pf_call _ _ _ _ _ _ _ _ _ _ _ _ Sv) H). Qed.
Definition in_delivery : list (call obj nat * answered nat) := [(Unsubscribe 1, Returned); (sub_call doc_plain 9, GotKey 1%N)].
Notation sub_waits := (waits obj ex_types ex_has sub_roots nat ex_ans 20 no_errors).
Lemma first_callback : sub_performed (reg_after [(doc_plain, 7); (doc_a, 8)]) in_delivery (reg_after [(doc_plain, 7); (doc_plain, 9)]).
Proof.
  apply performed_one with (r' := reg_after [(doc_plain, 7)]); [apply se_unsubscribe; vm_compute; reflexivity|].
  apply performed_one with (r' := reg_after [(doc_plain, 7); (doc_plain, 9)]); [apply se_subscribe; vm_compute; reflexivity|]. constructor.
Qed.
Lemma quiet i r : sub_waits r [i] [i] None [] r.
Proof. exact (wa_returns _ _ _ _ _ _ _ _ r i [] [] r [] None [] r (pd_nothing _ _ _ _ _ _ _ _ r) (wa_nothing _ _ _ _ _ _ _ _ r)). Qed.
Lemma one_delivery : performs obj ex_types ex_has sub_roots nat ex_ans 20 no_errors (reg_after [(doc_plain, 7); (doc_a, 8)]) echo1
  (CalledBack [event_of 0 7 plain_doc_value; event_of 1 8 a_doc_value] (Ok tt))
  ((echo1, CalledBack [event_of 0 7 plain_doc_value; event_of 1 8 a_doc_value] (Ok tt)) :: in_delivery ++ []) (reg_after [(doc_plain, 7); (doc_plain, 9)]).
Proof.
  unfold echo1, deliver_call. eapply (pf_deliver obj ex_types ex_has sub_roots nat ex_ans 20 no_errors) with (e := None); [reflexivity|reflexivity|vm_compute; reflexivity|sub_collect|].
  eapply wa_returns; [apply first_callback|apply quiet].
Qed.
Lemma nested_calls_ok : sub_performed (no_subscriptions nat) nested_calls (reg_after [(doc_plain, 7); (doc_plain, 9)]).
Proof.
  unfold nested_calls, two_subscribed. cbn [app].
  apply performed_one with (r' := reg_after [(doc_plain, 7)]); [apply se_subscribe; vm_compute; reflexivity|].
  apply performed_one with (r' := reg_after [(doc_plain, 7); (doc_a, 8)]); [apply se_subscribe; vm_compute; reflexivity|].
  refine (pd_call obj ex_types ex_has sub_roots nat ex_ans 20 no_errors _ _ _ _ _ _ _ one_delivery _).
  apply performed_one with (r' := reg_after [(doc_plain, 7); (doc_plain, 9)]); [|constructor]. apply se_deliver; [discriminate|].
  eapply de_listeners; [reflexivity|reflexivity|vm_compute; reflexivity| |]; [sub_collect|apply deferred_calls].
Qed.
Example C60_example : (exists r, sub_performed (no_subscriptions nat) nested_calls r) /\ Forall plain_call two_subscribed /\
  (made two_subscribed < size_t_max)%N /\ find_root obj "subscription" sub_roots <> None /\ event_object sub_roots None Root.
Proof.
  split; [eexists; apply nested_calls_ok|]. split; [apply two_subscribed_plain|]. split; [vm_compute; reflexivity|]. split; [discriminate|].
  right. split; reflexivity.
Qed.
(** "Once unsubscribe has returned, the callback is not called any more": refuted when unsubscribe is called by another callback of the same delivery. The first callback
    makes the calls [u], and then the second is run, whose key already belongs to a new subscription. *)
Theorem C60_unsubscribed_refuted : exists r i1 i2 u r1, sub_history two_subscribed r /\
  performs obj ex_types ex_has sub_roots nat ex_ans 20 no_errors r echo1 (CalledBack [i1; i2] (Ok tt)) ((echo1, CalledBack [i1; i2] (Ok tt)) :: u ++ []) r1 /\
  sub_performed r u r1 /\ sub_waits r1 [i2] [i2] None [] r1 /\
  u = [(Unsubscribe 1, Returned); (sub_call doc_plain 9, GotKey 1%N)] /\ i_key i2 = 1%N /\ i_callback i2 = 8.
Proof.
  exists (reg_after [(doc_plain, 7); (doc_a, 8)]), (event_of 0 7 plain_doc_value), (event_of 1 8 a_doc_value), in_delivery, (reg_after [(doc_plain, 7); (doc_plain, 9)]).
  split; [apply two_subscribed_ok|]. split; [apply one_delivery|]. split; [apply first_callback|]. split; [apply quiet|]. repeat split.
Qed.

Print Assumptions C60_as_if_sequential.
Print Assumptions C60_delivery.
Print Assumptions C60_document.
Print Assumptions C60_completes.
Print Assumptions C60_unsubscribed_refuted.
