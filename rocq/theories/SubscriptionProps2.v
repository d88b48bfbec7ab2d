(** Theorems about subscriptions: C21 (filters), C43 (notifications), C44 (documents). *)
From Coq Require Import Permutation Sorting.Sorted.
From Verif Require Import Cpp Value Ast ErrorModel SortedMapModel SortedMapProofs ExecModel ExecSem ExecSpec ExecDirect ExecMono ExecValues ExecCalls2 ExecOrder ExecProofs3 ExecRequest2
  ExecExamples ExecProps2 SubscriptionModel SubscriptionSpec SubscriptionProofs SubscriptionHistory SubscriptionDelivery SubscriptionProps.
Local Open Scope string_scope.
Local Open Scope list_scope.

(** ** C21 *)

(** Every entry has an equal one of the same name among the ones given. *)
Definition matched_by (given required : entries) : Prop :=
  forall n v, In (n, v) required -> exists v', lookup n given = Some v' /\ value_eqb v' v = true.

(** What the overloads of deliver accept. *)
Theorem C21_overloads : forall arguments directives applyArguments applyDirectives es,
  (accepts (fst (filters_of (ByMaps arguments directives))) es <-> matched_by arguments es) /\
  (accepts (snd (filters_of (ByMaps arguments directives))) es <-> matched_by directives es) /\
  (accepts (fst (filters_of (ByArguments arguments))) es <-> matched_by arguments es) /\
  (accepts (snd (filters_of (ByArguments arguments))) es <-> es = []) /\
  (accepts (fst (filters_of ByName)) es <-> es = []) /\ (accepts (snd (filters_of ByName)) es <-> es = []) /\
  (accepts (fst (filters_of (ByFilter applyArguments))) es <-> forall n v, In (n, v) es -> applyArguments n v = Ok true) /\
  accepts (snd (filters_of (ByFilter applyArguments))) es /\
  (accepts (fst (filters_of (ByFilters applyArguments applyDirectives))) es <-> forall n v, In (n, v) es -> applyArguments n v = Ok true) /\
  (accepts (snd (filters_of (ByFilters applyArguments applyDirectives))) es <-> forall n v, In (n, v) es -> applyDirectives n v = Ok true).
Proof.
  assert (M : forall a es, accepts (match_arguments a) es <-> matched_by a es).
  { intros a es. unfold accepts, matched_by, match_arguments. split; intros H n v I; specialize (H n v I).
    - destruct (lookup n a) as [v'|]; [|discriminate]. exists v'. split; congruence.
    - destruct H as [v' [-> ->]]. reflexivity. }
  assert (N : forall es, accepts (match_arguments []) es <-> es = []).
  { intros es. rewrite M. split; [|intros -> n v []]. destruct es as [|[n v] es]; auto. intros H. destruct (H n v (or_introl eq_refl)) as [v' [E _]]. discriminate. }
  intros. simpl. rewrite !N, !M. unfold accepts, match_any. tauto.
Qed.

(** An event that was delivered reached exactly the live subscriptions to that field whose arguments and directives the
    filters accept. *)
Theorem C21_reached : forall O typenames has_field roots CB ans fuel validate (h : list (call O CB * answered CB)) r l name f object log,
  history O typenames has_field roots CB ans fuel validate (h ++ [(Deliver l name f object, CalledBack log (Ok tt))]) r ->
  Forall plain_call h -> (made h < size_t_max)%N -> name <> "" ->
  forall k s, In (k, s) (live h) ->
    ((exists i, In i log /\ i_key i = k) <->
     exists es ds, listens (default_types typenames roots) s name es ds /\ accepts (fst (filters_of f)) es /\ accepts (snd (filters_of f)) ds).
Proof.
  intros O typenames has_field roots CB ans fuel validate h r l name f object log H P M N k s Il.
  destruct (C20_delivery _ _ _ _ _ _ _ _ _ _ _ _ _ _ _ _ H P M N) as [rs [rest [[_ Rs] [Pm [Er _]]]]]. rewrite (Er eq_refl), app_nil_r in Pm. clear Er rest.
  apply history_snoc in H as [r1 [H1 _]]. destruct (C20_keys _ _ _ _ _ _ _ _ _ _ H1 M) as [ND _].
  split.
  - intros [i [I <-]]. assert (X : In (who i) (map who_is rs)) by (eapply Permutation_in; [exact Pm|now apply in_map]).
    apply in_map_iff in X as [[k' s'] [E X]]. unfold who, who_is in E. simpl in E. injection E as -> E.
    pose proof (proj1 (Rs _ _) X) as [I' Y]. assert (s' = s); [|subst; exact Y].
    clear -ND Il I'. induction (live h) as [|[k0 s0] L IH]; simpl in *; [contradiction|]. inversion ND as [|? ? N1 N2]; subst.
    destruct Il as [E|Il], I' as [E'|I']; try congruence; auto.
    + injection E as -> ->. exfalso. apply N1. now apply (in_map fst) in I'.
    + injection E' as -> ->. exfalso. apply N1. now apply (in_map fst) in Il.
  - intros X. assert (Y : In (k, s) rs) by (apply Rs; auto). apply (in_map who_is) in Y.
    apply Permutation_sym in Pm. pose proof (Permutation_in _ Pm Y) as Z. apply in_map_iff in Z as [i [E I]]. exists i. split; auto.
    unfold who, who_is in E. simpl in E. congruence.
Qed.

(** Each callback gets the document of resolving the selections of its own subscription, with its own variables, on the object
    of the event. *)
Theorem C21_document : forall O typenames has_field roots CB ans fuel validate (h : list (call O CB * answered CB)) r l name f object log final,
  history O typenames has_field roots CB ans fuel validate (h ++ [(Deliver l name f object, CalledBack log final)]) r ->
  Forall plain_call h -> (made h < size_t_max)%N ->
  forall i, In i log -> exists o s x, event_object roots object o /\ In (i_key i, s) (live h) /\ i_callback i = s_callback s /\
    resolves_to typenames has_field ans fuel CSubscription l o s x /\ document_for x (i_document i).
Proof.
  intros O typenames has_field roots CB ans fuel validate h r l name f object log final H P M.
  apply history_snoc in H as [r1 [H1 S]]. destruct (history_follows _ _ _ _ _ _ _ _ _ _ H1 M) as [L Fo].
  inversion S as [| | | | | | | | | | |r0 l0 n0 f0 o0 log0 final0 NU D]; subst. eapply delivers_docs; eauto.
Qed.

(** Delivering needs an object. *)
Theorem C21_no_object : forall O typenames has_field roots CB ans fuel validate (h : list (call O CB * answered CB)) r l name f a,
  history O typenames has_field roots CB ans fuel validate (h ++ [(Deliver l name f None, a)]) r ->
  (find_root O "subscription" roots = None -> a = CalledBack [] (Throw (Exn logic_error "Subscriptions not supported"))) /\
  (find_root O "subscription" roots = Some None -> a = CalledBack [] (Throw (Exn invalid_argument "Missing subscriptionObject"))).
Proof.
  intros O typenames has_field roots CB ans fuel validate h r l name f a H. apply history_snoc in H as [r1 [H1 S]].
  inversion S as [| | | | | | | | | | |r0 l0 n0 f0 o0 log0 final0 NU D]; subst.
  split; intros R; inversion D; subst; try congruence.
Qed.

(** Two subscriptions, with argument a: 1 and without arguments: an event with a: 1 reaches both, one with a: 2 the second only. *)
Example C21_example :
  (exists r, sub_history (two_subscribed ++ [(deliver_call "echo" (ByMaps [("a", VInt 2)] []), CalledBack [event_of 0 7 plain_doc_value] (Ok tt))]) r) /\
  In (1%N, mkSub doc_a "" (VMap []) 8) (live two_subscribed) /\
  listens (default_types ex_types sub_roots) (mkSub doc_a "" (VMap []) 8) "echo" [("a", VInt 1)] [] /\
  ~ matched_by [("a", VInt 2)] [("a", VInt 1)] /\ matched_by [("b", VNull); ("a", VInt 1)] [("a", VInt 1)].
Proof.
  split; [|split; [|split; [|split]]].
  - eexists. unfold sub_history. eapply hi_call; [apply two_subscribed_ok|]. apply se_deliver; [discriminate|]. eapply de_listeners; [reflexivity|reflexivity|vm_compute; reflexivity| |].
    + sub_collect.
    + apply deferred_calls.
  - right. left. reflexivity.
  - exists [], (mkOp (at_ 1) (Some "subscription") None [] [] [SField (at_ 2) None "echo" [sub_arg "a" (LInt (at_ 2) 1)] [] None]), [].
    split; [reflexivity|]. split; [reflexivity|]. split; [constructor|]. exists [], (at_ 2), None, [sub_arg "a" (LInt (at_ 2) 1)], [], None, [].
    split; [reflexivity|]. split; [constructor|]. split; [constructor|]. split; [exists []; split; constructor|]. split; [split; intros; discriminate|].
    exists [("a", VInt 1)]. split; [|reflexivity]. repeat constructor.
  - intros H. destruct (H "a" (VInt 1) (or_introl eq_refl)) as [v [E1 E2]]. injection E1 as <-. discriminate.
  - intros n v [E|[]]. injection E as <- <-. exists (VInt 1). auto.
Qed.

(** "deliver(name, object) unconditionally invokes every subscribed callback" (doc/subscriptions.md:69-79): refuted, a subscription
    whose field has an argument is not called back. *)
Theorem C21_unconditional_refuted : exists r, sub_history (two_subscribed ++ [(deliver_call "echo" ByName, CalledBack [event_of 0 7 plain_doc_value] (Ok tt))]) r /\
  listens (default_types ex_types sub_roots) (mkSub doc_a "" (VMap []) 8) "echo" [("a", VInt 1)] [] /\ In (1%N, mkSub doc_a "" (VMap []) 8) (live two_subscribed).
Proof.
  eexists. split; [|split; apply C21_example]. unfold sub_history. eapply hi_call; [apply two_subscribed_ok|]. apply se_deliver; [discriminate|]. eapply de_listeners; [reflexivity|reflexivity|vm_compute; reflexivity| |].
  - sub_collect.
  - apply deferred_calls.
Qed.

(** "Directives that keep the field make no difference": refuted, deliver(name, arguments, object) does not reach a subscription
    whose field carries @include(if: true), whatever the arguments. *)
Definition doc_include : document := sub_doc [] [cond_dir "include" (LBool (at_ 2) true)].
Theorem C21_directive_refuted : exists r1, sub_history [(sub_call doc_include 7, GotKey 0%N)] r1 /\
  forall arguments l log final r, sub_history ([(sub_call doc_include 7, GotKey 0%N)] ++ [(Deliver l "echo" (ByArguments arguments) None, CalledBack log final)]) r -> log = [].
Proof.
  assert (H0 : sub_history [(sub_call doc_include 7, GotKey 0%N)] (reg_after [(doc_include, 7)])).
  { unfold sub_history. change [?a] with ([] ++ [a]). eapply hi_call; [constructor|]. apply se_subscribe. vm_compute. reflexivity. }
  eexists. split; [exact H0|]. intros arguments l log final r H.
  assert (P : Forall plain_call [(sub_call doc_include 7, GotKey (CB := nat) 0%N)]).
  { constructor; [|constructor]. split; [exists []; split; [reflexivity|intros n v E; discriminate]|].
    intros op [<-|[]]; intros loc al args dirs sub [E|[]]; discriminate. }
  destruct (C20_delivery _ _ _ _ _ _ _ _ _ _ _ _ _ _ _ _ H P eq_refl ltac:(discriminate)) as [rs [rest [[_ Rs] [Pm _]]]].
  destruct log as [|i log]; auto. exfalso.
  assert (X : In (who i) (map who_is rs)) by (eapply Permutation_in; [exact Pm|left; reflexivity]).
  apply in_map_iff in X as [[k s] [E X]]. apply Rs in X as [Il [es [ds [Li [_ A]]]]].
  destruct Il as [Il|[]]. injection Il as <- <-. apply (C21_overloads arguments [] (fun _ _ => UB) (fun _ _ => UB)) in A. subst ds.
  destruct Li as [given [op [frags [V [Op [F [before [loc [al [args [dirs [sub [after [E1 [_ [_ [D _]]]]]]]]]]]]]]]]]. injection Op as <-.
  destruct before as [|b before]; simpl in E1; [|injection E1 as _ E1; destruct before; discriminate]. injection E1 as <- <- <- <- <- <-.
  destruct D as [kvs [Fk Ek]]. inversion Fk; subst. destruct y. discriminate.
Qed.

(** "The same text matches": refuted, a string from JSON variables does not equal a string of the application. *)
Theorem C21_json_string_refuted : exists r (vars : entries),
  let doc := sub_doc [sub_arg "id" (LVar (at_ 2) "v")] [] in
  vars = [("v", VString "x" true)] /\
  sub_history ([(Subscribe doc "" (VMap vars) 7, GotKey 0%N)] ++ [(deliver_call "echo" (ByArguments [("id", VString "x" false)]), CalledBack [] (Ok tt))]) r.
Proof.
  eexists _, _. split; [reflexivity|]. unfold sub_history. change [?a] with ([] ++ [a]). eapply hi_call; [eapply hi_call; [constructor|]|].
  - apply se_subscribe. vm_compute. reflexivity.
  - apply se_deliver; [discriminate|]. eapply de_listeners; [reflexivity|reflexivity|vm_compute; reflexivity| |].
    + sub_collect.
    + apply deferred_calls.
Qed.
