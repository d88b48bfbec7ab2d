(** Theorems about subscriptions: C20 and C21. *)
From Coq Require Import Permutation Sorting.Sorted.
From Verif Require Import Cpp Value Ast ErrorModel SortedMapModel SortedMapProofs ExecModel ExecSem ExecSpec ExecDirect ExecMono ExecExamples ExecProps2
  SubscriptionModel SubscriptionSpec SubscriptionProofs SubscriptionHistory SubscriptionDelivery.
Local Open Scope string_scope.
Local Open Scope list_scope.

(** ** A service with one subscription object, and histories of calls on it, for the examples *)
Definition sub_roots : list (string * option obj) := [("subscription", Some Root)].
Definition sub_doc (args : list argument) (dirs : list directive) : document :=
  [DOp (mkOp (at_ 1) (Some "subscription") None [] [] [SField (at_ 2) None "echo" args dirs None])].
Definition sub_arg (n : string) (l : lit) : argument := (at_ 2, (n, l)).
Definition sub_call (doc : document) (cb : nat) : call obj nat := Subscribe doc "" (VMap []) cb.
Definition sub_history := history obj ex_types ex_has sub_roots nat ex_ans 20 no_errors.
Definition event_of (k : N) (cb : nat) (d : value) : invocation nat := mkInv k cb d.
Definition deliver_call (name : string) (f : filters) : call obj nat := Deliver LDeferred name f None.

Lemma sub_resolving ctx l reg r : dresolve obj ex_types ex_has ex_ans 20 (reg_env nat ctx l reg) Root [] (g_sel nat reg) = r ->
  resolving obj ex_types ex_has nat ex_ans 20 ctx l Root reg r.
Proof. intros H. apply resolving_iff, computes_iff. exact H. Qed.
Lemma deferred_calls (is : list (invocation nat)) : calls_back nat LDeferred is (Ok tt) is (Ok tt).
Proof.
  exists (map (fun i => mkStarted nat false i None) is), []. split; [rewrite map_map; apply map_id|].
  split; [intros s I; apply in_map_iff in I as [i [<- I]]; simpl; split; congruence|].
  assert (W : waited nat (map (fun i => mkStarted nat false i None) is) = (is, None)) by (induction is as [|i is IH]; simpl; auto; rewrite IH; auto).
  split; [|rewrite W; split; auto; apply interleaved_right]. replace (filter _ _) with (@nil (started nat)); [constructor|]. clear. induction is; simpl; auto.
Qed.
Ltac sub_collect :=
  first [ apply co_nil
        | eapply co_deliver; [vm_compute; reflexivity|vm_compute; reflexivity|apply sub_resolving; vm_compute; reflexivity|vm_compute; reflexivity|sub_collect]
        | eapply co_filtered; [vm_compute; reflexivity|vm_compute; reflexivity|sub_collect] ].

(** Subscribing two callbacks, with and without an argument. *)
Definition doc_plain : document := sub_doc [] [].
Definition doc_a : document := sub_doc [sub_arg "a" (LInt (at_ 2) 1)] [].
Definition reg_after (calls : list (document * nat)) : registry nat :=
  fold_left (fun r dc => match subscribe obj ex_types sub_roots nat no_errors (fst dc) "" (VMap []) (snd dc) r with Ok (_, r') => r' | _ => r end)
    calls (no_subscriptions nat).
Definition two_subscribed : list (call obj nat * answered nat) :=
  [(sub_call doc_plain 7, GotKey 0%N); (sub_call doc_a 8, GotKey 1%N)].
Lemma two_subscribed_ok : sub_history two_subscribed (reg_after [(doc_plain, 7); (doc_a, 8)]).
Proof.
  unfold sub_history, two_subscribed. change [?a; ?b] with (([] ++ [a]) ++ [b]).
  apply hi_call with (r := reg_after [(doc_plain, 7)]).
  - apply hi_call with (r := no_subscriptions nat); [constructor|]. apply se_subscribe. vm_compute. reflexivity.
  - apply se_subscribe. vm_compute. reflexivity.
Qed.
Lemma two_subscribed_plain : Forall plain_call two_subscribed.
Proof.
  repeat constructor; simpl; try (exists []; split; [reflexivity|intros n v E; discriminate]);
    intros op [<-|[]]; intros loc al args dirs sub [E|[]]; discriminate.
Qed.

(** ** C20 *)

(** The keys of the live subscriptions are distinct; a new key is that of none of them: it follows the last one, or is 0. *)
Theorem C20_keys : forall O typenames has_field roots CB ans fuel validate (h : list (call O CB * answered CB)) r,
  history O typenames has_field roots CB ans fuel validate h r -> (made h < size_t_max)%N ->
  NoDup (map fst (live h)) /\
  forall c k r', history O typenames has_field roots CB ans fuel validate (h ++ [(c, GotKey k)]) r' ->
    ~ In k (map fst (live h)) /\ (live h = [] /\ k = 0%N \/ exists before k' s, live h = before ++ [(k', s)] /\ k = (k' + 1)%N).
Proof.
  intros O typenames has_field roots CB ans fuel validate h r H M. destruct (history_follows _ _ _ _ _ _ _ _ _ _ H M) as [L Fo]. split.
  - rewrite (follows_keys _ _ _ _ _ _ _ _ Fo). apply sorted_nodup, keys_sorted, (ho_sorted _ _ _ (fo_holds _ _ _ _ _ _ _ _ Fo)).
  - intros c k r' H'. apply history_snoc in H' as [r1 [H1 S]]. rewrite <- (history_fun _ _ _ _ _ _ _ _ _ _ _ H H1 M) in S. clear r1 H1.
    assert (X : exists doc name vars cb, subscribe O typenames roots CB validate doc name vars cb r = Ok (k, r')) by (inversion S; subst; eauto).
    destruct X as [doc [name [vars [cb E]]]]. destruct (follows_add _ _ _ _ _ _ _ _ _ _ _ _ _ _ Fo M E) as [reg [R [H' [N Bk]]]].
    rewrite (follows_keys _ _ _ _ _ _ _ _ Fo). split; [exact N|].
    assert (Nk : k = next_key CB r). { unfold subscribe in E. destruct (make_registration _ _ _ _ _ _ _ _ _); simpl in E; try discriminate. unfold add_registration in E. congruence. }
    pose proof (fo_holds _ _ _ _ _ _ _ _ Fo) as Ho. pose proof (fo_live _ _ _ _ _ _ _ _ Fo) as F. rewrite Nk, (ho_next _ _ _ Ho).
    destruct (last_key CB L) as [k'|] eqn:El.
    + right. pose proof (fo_bound _ _ _ _ _ _ _ _ Fo _ El) as B.
      destruct L as [|x L0] using rev_ind; [discriminate|]. clear IHL0. destruct x as [k2 reg2]. rewrite last_key_app in El. injection El as ->.
      apply Forall2_app_inv_r in F as [S1 [S2 [_ [F2 E2]]]]. inversion F2 as [|[k3 s3] y l1 l2 [E3 _] F3]; subst. inversion F3; subst. simpl in E3. subst k3.
      exists S1, k', s3. split; auto. unfold size_t_succ. apply N.mod_small. lia.
    + apply last_key_none in El. subst L. inversion F; subst. auto.
Qed.

(** deliver calls back the live subscriptions the event is for, each once; when it returns normally, all of them; when
    deferred, in key order. *)
Theorem C20_delivery : forall O typenames has_field roots CB ans fuel validate (h : list (call O CB * answered CB)) r l name f object log final,
  history O typenames has_field roots CB ans fuel validate (h ++ [(Deliver l name f object, CalledBack log final)]) r ->
  Forall plain_call h -> (made h < size_t_max)%N -> name <> "" ->
  exists rs rest, recipients (default_types typenames roots) h name f rs /\
    Permutation (map who log ++ rest) (map who_is rs) /\ (final = Ok tt -> rest = []) /\
    (l = LDeferred -> map who_is rs = map who log ++ rest).
Proof.
  intros O typenames has_field roots CB ans fuel validate h r l name f object log final H P M N.
  apply history_snoc in H as [r1 [H1 S]]. destruct (history_follows _ _ _ _ _ _ _ _ _ _ H1 M) as [L Fo].
  inversion S as [| | | | | | | | | | |r0 l0 n0 f0 o0 log0 final0 NU D]; subst.
  destruct (delivery _ _ _ _ _ _ _ _ _ _ _ _ _ _ _ _ _ P Fo D) as [rest X].
  exists (rsel CB (fst (filters_of f)) (snd (filters_of f)) name (live h) L), rest. split; [|exact X].
  eapply recipients_of; eauto.
Qed.
(** The subscriptions an event is for are determined by the history. *)
Theorem C20_recipients_determined : forall O typenames has_field roots CB ans fuel validate (h : list (call O CB * answered CB)) r name f rs rs',
  history O typenames has_field roots CB ans fuel validate h r -> (made h < size_t_max)%N ->
  recipients (default_types typenames roots) h name f rs -> recipients (default_types typenames roots) h name f rs' -> rs = rs'.
Proof.
  intros O typenames has_field roots CB ans fuel validate h r name f rs rs' H M [S1 I1] [S2 I2].
  destruct (history_follows _ _ _ _ _ _ _ _ _ _ H M) as [L Fo].
  assert (ND : NoDup (map fst (live h))).
  { rewrite (follows_keys _ _ _ _ _ _ _ _ Fo). apply sorted_nodup, keys_sorted, (ho_sorted _ _ _ (fo_holds _ _ _ _ _ _ _ _ Fo)). }
  apply (sorted_perm_eq fst N.ltb SortedMapProofs.N_lt_strict).
  - clear -S1. unfold SortedMapProofs.sorted. induction rs as [|a rs IH]; simpl in *; constructor; inversion S1 as [|? ? S F]; subst; auto.
    apply Forall_forall. intros b I. apply N.ltb_lt. rewrite Forall_forall in F. apply F. apply in_map_iff. eauto.
  - clear -S2. unfold SortedMapProofs.sorted. induction rs' as [|a rs IH]; simpl in *; constructor; inversion S2 as [|? ? S F]; subst; auto.
    apply Forall_forall. intros b I. apply N.ltb_lt. rewrite Forall_forall in F. apply F. apply in_map_iff. eauto.
  - apply NoDup_Permutation.
    + apply NoDup_map_inv with (f := fst). now apply sorted_nodup.
    + apply NoDup_map_inv with (f := fst). now apply sorted_nodup.
    + intros [k s]. rewrite I1, I2. tauto.
Qed.

(** Once its key is unsubscribed, a callback is not called until the key is given out again. *)
Theorem C20_unsubscribed : forall O typenames has_field roots CB ans fuel validate (h1 h2 : list (call O CB * answered CB)) k u l name f object log final r,
  history O typenames has_field roots CB ans fuel validate (h1 ++ [(u, Returned)] ++ h2 ++ [(Deliver l name f object, CalledBack log final)]) r ->
  u = Unsubscribe k \/ (exists l', u = UnsubscribeAsync l' k) ->
  (forall c, ~ In (c, GotKey k) h2) -> Forall plain_call (h1 ++ [(u, Returned)] ++ h2) -> (made (h1 ++ [(u, Returned)] ++ h2) < size_t_max)%N ->
  forall i, In i log -> i_key i <> k.
Proof.
  intros O typenames has_field roots CB ans fuel validate h1 h2 k u l name f object log final r H U NG P M i I E.
  replace (h1 ++ [(u, Returned)] ++ h2 ++ _) with ((h1 ++ [(u, Returned)] ++ h2) ++ [(Deliver l name f object, CalledBack log final)]) in H by (rewrite <- !app_assoc; reflexivity).
  apply history_snoc in H as [r1 [H1 S]]. destruct (history_follows _ _ _ _ _ _ _ _ _ _ H1 M) as [L Fo].
  inversion S as [| | | | | | | | | | |r0 l0 n0 f0 o0 log0 final0 NU D]; subst.
  destruct (delivers_docs _ _ _ _ _ _ _ _ _ _ _ _ _ _ _ _ _ P Fo D i I) as [o [s [x [_ [Il _]]]]].
  revert Il. generalize (i_key i) NG U. clear. intros k NG U.
  assert (B : ~ In k (map fst (live (h1 ++ [(u, Returned)])))).
  { unfold live. rewrite fold_left_app. simpl. intros I. apply in_map_iff in I as [[k' s'] [E I]]. simpl in E. subst k'.
    destruct U as [->|[l' ->]]; simpl in I; apply filter_In in I as [_ I]; simpl in I; rewrite N.eqb_refl in I; discriminate. }
  intros Il. apply (in_map fst) in Il. simpl fst in Il. revert Il.
  assert (E : live (h1 ++ [(u, Returned)] ++ h2) = fold_left after_call h2 (live (h1 ++ [(u, Returned)]))) by (unfold live; rewrite app_assoc; apply fold_left_app).
  rewrite E. revert B. generalize (live (h1 ++ [(u, Returned)])). clear -NG. induction h2 as [|[c a] h2 IH]; simpl; intros subs B; auto.
  apply IH; [intros c' I; apply (NG c'); now right|]. intros I.
  assert (N : (c, a) <> (c, GotKey k)) by (intros E; apply (NG c); left; exact E).
  destruct c as [doc name vars cb|l doc name vars cb|k0|l k0|l name f object], a; simpl in I; try (exact (B I));
    try (rewrite map_app in I; apply in_app_or in I as [I|[I|[]]]; [exact (B I)|simpl in I; congruence]);
    apply in_map_iff in I as [x [E I]]; apply filter_In in I as [I _]; apply B; apply in_map_iff; eauto.
Qed.

(** unsubscribe never fails. *)
Theorem C20_unsubscribe_total : forall O typenames has_field roots CB ans fuel validate (h : list (call O CB * answered CB)) r k,
  history O typenames has_field roots CB ans fuel validate h r -> (made h < size_t_max)%N ->
  (exists r', history O typenames has_field roots CB ans fuel validate (h ++ [(Unsubscribe k, Returned)]) r') /\
  forall a r', history O typenames has_field roots CB ans fuel validate (h ++ [(Unsubscribe k, a)]) r' -> a = Returned.
Proof.
  intros O typenames has_field roots CB ans fuel validate h r k H M. destruct (history_follows _ _ _ _ _ _ _ _ _ _ H M) as [L Fo].
  destruct (unsubscribe_holds CB _ _ k (fo_holds _ _ _ _ _ _ _ _ Fo)) as [r' [E _]]. split.
  - exists r'. eapply hi_call; [exact H|]. now apply se_unsubscribe.
  - intros a r2 H2. apply history_snoc in H2 as [r1 [H1 S]]. rewrite <- (history_fun _ _ _ _ _ _ _ _ _ _ _ H H1 M) in S.
    inversion S; subst; congruence.
Qed.

(** Calls that fail, and deliver, leave no trace: what follows could have followed without them. *)
Theorem C20_no_trace : forall O typenames has_field roots CB ans fuel validate (h : list (call O CB * answered CB)) c a r,
  history O typenames has_field roots CB ans fuel validate (h ++ [(c, a)]) r -> (made h < size_t_max)%N ->
  (exists e, a = Failed e) \/ (exists l name f object, c = Deliver l name f object) ->
  history O typenames has_field roots CB ans fuel validate h r.
Proof.
  intros O typenames has_field roots CB ans fuel validate h c a r H M C. apply history_snoc in H as [r1 [H1 S]].
  destruct (history_follows _ _ _ _ _ _ _ _ _ _ H1 M) as [L Fo].
  destruct C as [[e ->]|[l [name [f [object ->]]]]]; inversion S; subst; auto.
  match goal with E : subscribe _ _ _ _ _ _ _ _ _ _ = Ok _, U : unsubscribe _ _ _ = Ok _ |- _ => now rewrite (rejected_same _ _ _ _ _ _ _ _ _ _ _ _ _ _ _ Fo M E U) end.
Qed.

(** An event is delivered to all its recipients, if there is an object to resolve their selections on, that gives documents
    for them, and the filters do not throw. *)
Theorem C20_delivered : forall O typenames has_field roots CB ans fuel validate (h : list (call O CB * answered CB)) r l name f object o rs,
  history O typenames has_field roots CB ans fuel validate h r -> Forall plain_call h -> (made h < size_t_max)%N -> name <> "" ->
  find_root O "subscription" roots <> None -> event_object roots object o ->
  (forall n v, exists b, fst (filters_of f) n v = Ok b) -> (forall n v, exists b, snd (filters_of f) n v = Ok b) ->
  recipients (default_types typenames roots) h name f rs ->
  (forall k s, In (k, s) rs -> exists x d, resolves_to typenames has_field ans fuel CSubscription l o s x /\ document_for x d) ->
  exists log, history O typenames has_field roots CB ans fuel validate (h ++ [(Deliver l name f object, CalledBack log (Ok tt))]) r /\
    Permutation (map who log) (map who_is rs).
Proof.
  intros O typenames has_field roots CB ans fuel validate h r l name f object o rs H P M N NR Ob T1 T2 Rs X.
  destruct (history_follows _ _ _ _ _ _ _ _ _ _ H M) as [L Fo].
  destruct (delivers_exists O typenames has_field roots CB ans fuel validate _ _ _ l name f object o P Fo N NR Ob T1 T2) as [log D].
  { intros k s es ds I Li A1 A2. apply (X k s). apply Rs. eauto 6. }
  exists log. assert (H' : history O typenames has_field roots CB ans fuel validate (h ++ [(Deliver l name f object, CalledBack log (Ok tt))]) r).
  { eapply hi_call; [exact H|]. apply se_deliver; [discriminate|exact D]. }
  split; [exact H'|]. destruct (C20_delivery _ _ _ _ _ _ _ _ _ _ _ _ _ _ _ _ H' P M N) as [rs' [rest [R' [Pm [Er _]]]]].
  rewrite (Er eq_refl), app_nil_r in Pm. now rewrite (C20_recipients_determined _ _ _ _ _ _ _ _ _ _ _ _ _ _ H M Rs R').
Qed.

(** Two callbacks subscribed, one removed: the other is called back. *)
Definition plain_doc_value : value := VMap [("data", VMap [("echo", VMap [])])].
Example C20_example :
  (exists r, sub_history (two_subscribed ++ [(deliver_call "echo" (ByArguments [("a", VInt 1)]), CalledBack
     [event_of 0 7 plain_doc_value; event_of 1 8 (VMap [("data", VMap [("echo", VMap [("a", VInt 1)])])])] (Ok tt))]) r) /\
  (exists r, sub_history ((two_subscribed ++ [(Unsubscribe 1, Returned)]) ++ [(deliver_call "echo" (ByArguments [("a", VInt 1)]), CalledBack [event_of 0 7 plain_doc_value] (Ok tt))]) r) /\
  (exists r, sub_history (two_subscribed ++ [(sub_call doc_plain 9, GotKey 2%N)]) r) /\
  Forall plain_call two_subscribed.
Proof.
  split; [|split; [|split]].
  - eexists. unfold sub_history. eapply hi_call; [apply two_subscribed_ok|]. apply se_deliver; [discriminate|]. eapply de_listeners; [reflexivity|reflexivity|vm_compute; reflexivity| |].
    + sub_collect.
    + apply deferred_calls.
  - eexists. unfold sub_history. eapply hi_call; [eapply hi_call; [apply two_subscribed_ok|]|].
    + apply se_unsubscribe. vm_compute. reflexivity.
    + apply se_deliver; [discriminate|]. eapply de_listeners; [reflexivity|reflexivity|vm_compute; reflexivity| |].
      * sub_collect.
      * apply deferred_calls.
  - eexists. unfold sub_history. eapply hi_call; [apply two_subscribed_ok|]. apply se_subscribe. vm_compute. reflexivity.
  - apply two_subscribed_plain.
Qed.

(** "A key means the same subscription for the life of the request": refuted. Keys are given out again, so unsubscribing twice with
    the same key can remove somebody else's subscription. *)
Theorem C20_key_reuse_refuted : exists r (h : list (call obj nat * answered nat)), sub_history h r /\ live h = [] /\
  h = [(sub_call doc_plain 7, GotKey 0%N); (Unsubscribe 0, Returned); (sub_call doc_plain 8, GotKey 0%N); (Unsubscribe 0, Returned)].
Proof.
  eexists _, _. split; [|split; [|reflexivity]]; [|reflexivity]. unfold sub_history. change [?a; ?b; ?c; ?d] with (((([] ++ [a]) ++ [b]) ++ [c]) ++ [d]).
  eapply hi_call; [eapply hi_call; [eapply hi_call; [eapply hi_call; [constructor|]|]|]|]; first [apply se_subscribe; vm_compute; reflexivity|apply se_unsubscribe; vm_compute; reflexivity].
Qed.
