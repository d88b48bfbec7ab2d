(** Theorems about subscriptions: C43 (notifications) and C44 (which documents can be subscribed). *)
From Coq Require Import Permutation Sorting.Sorted.
From Verif Require Import Cpp Value Ast ErrorModel SortedMapModel SortedMapSpec SortedMapProofs ExecModel ExecSem ExecSpec ExecDirect ExecMono ExecValues ExecCalls2 ExecOrder ExecProofs3 ExecRequest2
  ExecProps ExecExamples ExecProps2 SubscriptionModel SubscriptionSpec SubscriptionProofs SubscriptionHistory SubscriptionDelivery SubscriptionProps.
Local Open Scope string_scope.
Local Open Scope list_scope.

Lemma find_at {V} (m : list (N * V)) k v : sorted fst N.ltb m -> smap_find N.ltb m k = Some v -> smap_at N.ltb m k = Ok v.
Proof.
  intros S F. rewrite (smap_at_ok N.ltb N_lt_strict N.eq_dec) by auto. rewrite (smap_find_ok N.ltb N_lt_strict N.eq_dec) in F by auto. now rewrite F.
Qed.
Lemma at_find {V} (m : list (N * V)) k v : sorted fst N.ltb m -> smap_at N.ltb m k = Ok v -> smap_find N.ltb m k = Some v.
Proof.
  intros S F. rewrite (smap_at_ok N.ltb N_lt_strict N.eq_dec) in F by auto. rewrite (smap_find_ok N.ltb N_lt_strict N.eq_dec) by auto.
  destruct (a_find N.eq_dec m k); congruence.
Qed.
Lemma at_none {V} (m : list (N * V)) k : sorted fst N.ltb m -> smap_find N.ltb m k = None -> smap_at N.ltb m k = Throw (Exn out_of_range "key not found").
Proof.
  intros S F. rewrite (smap_at_ok N.ltb N_lt_strict N.eq_dec) by auto. rewrite (smap_find_ok N.ltb N_lt_strict N.eq_dec) in F by auto. now rewrite F.
Qed.

(** ** C43 *)

(** subscribe(launch, ...) gives a key exactly when the default object resolved the subscription's selections, told that
    it is being subscribed to; the subscription is then the same as one made without notification. *)
Theorem C43_subscribed : forall O typenames has_field roots CB ans fuel validate (h : list (call O CB * answered CB)) l doc name vars cb k r',
  plain_sub (mkSub doc name vars cb) -> (made h < size_t_max)%N ->
  (history O typenames has_field roots CB ans fuel validate (h ++ [(SubscribeAsync l doc name vars cb, GotKey k)]) r' <->
   history O typenames has_field roots CB ans fuel validate (h ++ [(Subscribe doc name vars cb, GotKey k)]) r' /\
   exists o x, find_root O "subscription" roots = Some (Some o) /\
     resolves_to typenames has_field ans fuel CNotifySubscribe l o (mkSub doc name vars cb) (Ok x)).
Proof.
  intros O typenames has_field roots CB ans fuel validate h l doc name vars cb k r' P M. split.
  - intros H. apply history_snoc in H as [r1 [H1 S]]. inversion S as [| | |r0 l0 d0 n0 v0 c0 k0 r2 o reg x E R A Rv| | | | | | | |]; subst.
    destruct (history_follows _ _ _ _ _ _ _ _ _ _ H1 M) as [L Fo]. destruct (follows_add _ _ _ _ _ _ _ _ _ _ _ _ _ _ Fo M E) as [reg' [Rg [Ho [Nk _]]]].
    split; [eapply hi_call; [exact H1|now apply se_subscribe]|]. exists o, x. split; auto.
    pose proof (ho_sorted _ _ _ Ho) as So. rewrite (ho_subs _ _ _ Ho) in A. apply at_find in A; auto.
    rewrite <- (ho_subs _ _ _ Ho) in A. apply (find_subs_some CB _ _ _ _ Ho) in A. apply in_app_or in A as [A|[A|[]]].
    + exfalso. apply Nk. now apply (in_map fst) in A.
    + injection A as ->. eapply (resolves_iff O typenames has_field roots CB ans fuel validate); eauto.
  - intros [H [o [x [R Rv]]]]. apply history_snoc in H as [r1 [H1 S]]. inversion S as [r0 d0 n0 v0 c0 k0 r2 E| | | | | | | | | | |]; subst.
    destruct (history_follows _ _ _ _ _ _ _ _ _ _ H1 M) as [L Fo]. destruct (follows_add _ _ _ _ _ _ _ _ _ _ _ _ _ _ Fo M E) as [reg' [Rg [Ho [Nk _]]]].
    eapply hi_call; [exact H1|]. eapply se_async_notified with (reg := reg'); eauto.
    + apply find_at; [rewrite (ho_subs _ _ _ Ho); apply (ho_sorted _ _ _ Ho)|]. apply (find_subs_some CB _ _ _ _ Ho). apply in_or_app. right. now left.
    + eapply (resolves_iff O typenames has_field roots CB ans fuel validate) in Rv; eauto.
Qed.

(** If resolving throws, the call fails and nothing stays subscribed. *)
Theorem C43_rejected : forall O typenames has_field roots CB ans fuel validate (h : list (call O CB * answered CB)) l doc name vars cb k r r' o e,
  plain_sub (mkSub doc name vars cb) -> (made h < size_t_max)%N ->
  history O typenames has_field roots CB ans fuel validate h r ->
  history O typenames has_field roots CB ans fuel validate (h ++ [(Subscribe doc name vars cb, GotKey k)]) r' ->
  find_root O "subscription" roots = Some (Some o) ->
  resolves_to typenames has_field ans fuel CNotifySubscribe l o (mkSub doc name vars cb) (Throw e) ->
  exists e', history O typenames has_field roots CB ans fuel validate (h ++ [(SubscribeAsync l doc name vars cb, Failed e')]) r.
Proof.
  intros O typenames has_field roots CB ans fuel validate h l doc name vars cb k r r' o e P M H0 H R Rv.
  apply history_snoc in H as [r1 [H1 S]]. inversion S as [r0 d0 n0 v0 c0 k0 r2 E| | | | | | | | | | |]; subst.
  rewrite <- (history_fun _ _ _ _ _ _ _ _ _ _ _ H0 H1 M) in *. clear r1 H1.
  destruct (history_follows _ _ _ _ _ _ _ _ _ _ H0 M) as [L Fo]. destruct (follows_add _ _ _ _ _ _ _ _ _ _ _ _ _ _ Fo M E) as [reg' [Rg [Ho [Nk _]]]].
  destruct (unsubscribe_holds CB _ _ k Ho) as [r2 [U Ho2]]. pose proof (rejected_same _ _ _ _ _ _ _ _ _ _ _ _ _ _ _ Fo M E U) as ->.
  eexists. eapply hi_call; [exact H0|]. eapply se_async_rejected with (reg := reg'); eauto.
  - apply find_at; [rewrite (ho_subs _ _ _ Ho); apply (ho_sorted _ _ _ Ho)|]. apply (find_subs_some CB _ _ _ _ Ho). apply in_or_app. right. now left.
  - eapply (resolves_iff O typenames has_field roots CB ans fuel validate) in Rv; eauto.
Qed.

(** unsubscribe(launch, key) removes a live subscription exactly when the default object resolved its selections, told that it is
    being unsubscribed; if that throws the subscription stays. *)
Theorem C43_unsubscribed : forall O typenames has_field roots CB ans fuel validate (h : list (call O CB * answered CB)) r l k s o x,
  Forall plain_call h -> (made h < size_t_max)%N ->
  history O typenames has_field roots CB ans fuel validate h r -> In (k, s) (live h) ->
  find_root O "subscription" roots = Some (Some o) ->
  resolves_to typenames has_field ans fuel CNotifyUnsubscribe l o s x ->
  match x with
  | Ok _ => exists r', history O typenames has_field roots CB ans fuel validate (h ++ [(UnsubscribeAsync l k, Returned)]) r' /\
              history O typenames has_field roots CB ans fuel validate (h ++ [(Unsubscribe k, Returned)]) r'
  | Throw e => history O typenames has_field roots CB ans fuel validate (h ++ [(UnsubscribeAsync l k, Failed e)]) r
  | UB => forall a r', ~ history O typenames has_field roots CB ans fuel validate (h ++ [(UnsubscribeAsync l k, a)]) r'
  end.
Proof.
  intros O typenames has_field roots CB ans fuel validate h r l k s o x P M H I R Rv.
  destruct (history_follows _ _ _ _ _ _ _ _ _ _ H M) as [L Fo]. pose proof (fo_holds _ _ _ _ _ _ _ _ Fo) as Ho.
  destruct (follows_matched_r _ _ _ _ _ _ _ _ _ _ Fo I) as [reg [IL Rg]]. pose proof (live_plain _ _ _ P _ _ I) as Ps.
  apply (resolves_iff O typenames has_field roots CB ans fuel validate _ _ _ _ _ _ Ps Rg) in Rv.
  pose proof (proj2 (find_subs_some CB _ _ _ _ Ho) IL) as Fs. assert (So : sorted fst N.ltb (subscriptions CB r)) by (rewrite (ho_subs _ _ _ Ho); apply Ho).
  pose proof (find_at _ _ _ So Fs) as At.
  destruct x as [x|e|].
  - destruct (unsubscribe_holds CB _ _ k Ho) as [r' [U _]]. exists r'. split; (eapply hi_call; [exact H|]); [eapply se_unasync_notified; eauto|now apply se_unsubscribe].
  - eapply hi_call; [exact H|]. eapply se_unasync_rejected; eauto.
  - intros a r' H'. apply history_snoc in H' as [r1 [H1 S]]. rewrite <- (history_fun _ _ _ _ _ _ _ _ _ _ _ H H1 M) in S.
    inversion S as [| | | | | | |r0 l0 k0 e0 d0 R0 A0|r0 l0 k0 o0 reg0 x0 r2 R0 A0 Rv0 U0|r0 l0 k0 o0 reg0 e0 R0 A0 Rv0| |]; subst; try congruence.
    + rewrite R in R0. injection R0 as <-. rewrite At in A0. injection A0 as <-. pose proof (resolving_fun _ _ _ _ _ _ _ _ _ _ _ _ Rv Rv0). discriminate.
    + rewrite R in R0. injection R0 as <-. rewrite At in A0. injection A0 as <-. pose proof (resolving_fun _ _ _ _ _ _ _ _ _ _ _ _ Rv Rv0). discriminate.
Qed.
(** A key that is not live cannot be unsubscribed this way (without notification it can, C20_unsubscribe_total). *)
Theorem C43_unknown_key : forall O typenames has_field roots CB ans fuel validate (h : list (call O CB * answered CB)) r l k a r',
  (made h < size_t_max)%N -> history O typenames has_field roots CB ans fuel validate h r -> ~ In k (map fst (live h)) ->
  find_root O "subscription" roots <> None ->
  history O typenames has_field roots CB ans fuel validate (h ++ [(UnsubscribeAsync l k, a)]) r' ->
  a = Failed (Exn out_of_range "key not found") /\ r' = r.
Proof.
  intros O typenames has_field roots CB ans fuel validate h r l k a r' M H N NR H'.
  apply history_snoc in H' as [r1 [H1 S]]. rewrite <- (history_fun _ _ _ _ _ _ _ _ _ _ _ H H1 M) in S.
  destruct (history_follows _ _ _ _ _ _ _ _ _ _ H M) as [L Fo]. pose proof (fo_holds _ _ _ _ _ _ _ _ Fo) as Ho.
  rewrite (follows_keys _ _ _ _ _ _ _ _ Fo) in N. apply (find_subs_none CB _ _ _ Ho) in N.
  assert (So : sorted fst N.ltb (subscriptions CB r)) by (rewrite (ho_subs _ _ _ Ho); apply Ho).
  pose proof (at_none _ _ So N) as At. inversion S; subst; try congruence. split; congruence.
Qed.

(** What the accessors see while a subscription's selections are resolved: all calls carry the context, and each root field of
    the selections is asked once, in order. *)
Theorem C43_calls : forall O (typenames : O -> list string) has_field fuel ctx l o given frags ds sels,
  copyable given ->
  forall St (handler : St -> O -> string -> fparams -> St * answer O) n s evs s' t,
    steps handler n s (T [] (resolve O typenames has_field fuel (mkEnv ctx ds frags (VMap given) l) o [] sels Ret)) evs s' t ->
    (forall o' f p, In (EvCall o' f p) evs -> p_context p = ctx /\ p_opdirs p = ds) /\
    forall occs, expands given frags (typenames o) sels occs -> Forall (fun oc => has_field o (oc_name oc) = true) occs -> unmixed occs ->
      forall x, ended t (Ok x) -> root_calls evs = kept_keys occs.
Proof.
  intros O typenames has_field fuel ctx l o given frags ds sels Hc St handler n s evs s' t H.
  set (e := mkEnv ctx ds frags (VMap given) l) in *. split.
  - intros o' f p I. destruct (C40_arguments O typenames has_field e given fuel o sels Hc eq_refl St handler n s evs s' t H o' f p I)
      as [_ [path [sels' [loc [al [args [dirs [sub [_ [_ [_ [_ [_ [_ [_ [C D]]]]]]]]]]]]]]]]. split; [exact C|exact D].
  - intros occs X HF U x E. pose proof (ordered_resolve O [] typenames has_field given sels occs fuel e o [] Hc eq_refl X HF eq_refl) as Or.
    destruct (ordered_run O [] St handler _ _ _ _ _ _ _ Or H) as [_ E2].
    rewrite (level_root_calls O typenames has_field fuel e o sels St handler _ _ _ _ _ given Hc eq_refl H) in *.
    rewrite (first_kept_kept_keys _ U) in *. eauto.
Qed.

(** "If the resolver fails, it is not left subscribed" (the comment at GraphQLService.cpp:2037): refuted. An accessor that throws
    when it is notified becomes a field error; the call gives a key, and the callback is called by the next event. *)
Definition notify_ans (o : obj) (f : string) (p : fparams) : answer obj :=
  match p_context p with CNotifySubscribe => AThrow (Exn runtime_error "no resources") | _ => ex_ans o f p end.
Definition notify_history := history obj ex_types ex_has sub_roots nat notify_ans 20 no_errors.
Lemma notify_resolving ctx l reg r : dresolve obj ex_types ex_has notify_ans 20 (reg_env nat ctx l reg) Root [] (g_sel nat reg) = r ->
  resolving obj ex_types ex_has nat notify_ans 20 ctx l Root reg r.
Proof. intros H. apply resolving_iff, computes_iff. exact H. Qed.
Theorem C43_failure_refuted :
  (forall p, p_context p = CNotifySubscribe -> notify_ans Root "echo" p = AThrow (Exn runtime_error "no resources")) /\
  exists r, notify_history ([(SubscribeAsync LDeferred doc_plain "" (VMap []) 7, GotKey 0%N)] ++
    [(deliver_call "echo" ByName, CalledBack [event_of 0 7 plain_doc_value] (Ok tt))]) r.
Proof.
  split; [intros p E; unfold notify_ans; now rewrite E|]. eexists. unfold notify_history. change [?a] with ([] ++ [a]).
  eapply hi_call; [eapply hi_call; [constructor|]|].
  - eapply se_async_notified with (o := Root); [vm_compute; reflexivity|reflexivity|vm_compute; reflexivity|apply notify_resolving; vm_compute; reflexivity].
  - apply se_deliver; [discriminate|]. eapply de_listeners; [reflexivity|reflexivity|vm_compute; reflexivity| |].
    + eapply co_deliver; [vm_compute; reflexivity|vm_compute; reflexivity|apply notify_resolving; vm_compute; reflexivity|vm_compute; reflexivity|constructor].
    + apply deferred_calls.
Qed.
(** "Without a default subscription object there is no notification" (doc/subscriptions.md:44-50): refuted. A schema with subscriptions
    and no default object cannot be subscribed with notification at all; without it works. *)
Definition null_roots : list (string * option obj) := [("subscription", None)].
Theorem C43_no_default_refuted :
  (exists r, history obj ex_types ex_has null_roots nat ex_ans 20 no_errors [(sub_call doc_plain 7, GotKey 0%N)] r) /\
  forall l a r, ~ history obj ex_types ex_has null_roots nat ex_ans 20 no_errors ([] ++ [(SubscribeAsync l doc_plain "" (VMap []) 7, a)]) r.
Proof.
  split.
  - eexists. change [?a] with ([] ++ [a]). eapply hi_call; [constructor|]. apply se_subscribe. vm_compute. reflexivity.
  - intros l a r H. apply history_snoc in H as [r1 [H1 S]]. inversion H1 as [E|h' r2 c' a' r3 H2 S2 E]; subst; [|destruct h'; discriminate].
    inversion S as [| |r0 l0 d0 n0 v0 c0 e0 E0|r0 l0 d0 n0 v0 c0 k0 r2 o reg x E0 R A Rv|r0 l0 d0 n0 v0 c0 k0 r2 o reg e r3 E0 R A Rv U| | | | | | |]; subst; try discriminate.
Qed.
Example C43_example :
  (exists r, sub_history ([(SubscribeAsync LAsync doc_a "" (VMap []) 7, GotKey 0%N)] ++ [(UnsubscribeAsync LAsync 0, Returned)]) r) /\
  (exists r, sub_history [(UnsubscribeAsync LAsync 3, Failed (Exn out_of_range "key not found"))] r) /\
  (* a required argument "if" is missing: resolving throws *)
  (exists r, sub_history [(SubscribeAsync LDeferred [DOp (mkOp (at_ 1) (Some "subscription") None [] [] [fld 2 "echo"; SInline (at_ 3) None [mkDir (at_ 3) "skip" []] []])] "" (VMap []) 7,
     Failed (SchemaEx [mkErr "Missing argument directive: skip name: if" (mkLoc 0 1) []]))] r).
Proof.
  split; [|split].
  - eexists. unfold sub_history. change [?a] with ([] ++ [a]). eapply hi_call; [eapply hi_call; [constructor|]|].
    + eapply se_async_notified with (o := Root); [vm_compute; reflexivity|reflexivity|vm_compute; reflexivity|apply sub_resolving; vm_compute; reflexivity].
    + eapply se_unasync_notified with (o := Root); [reflexivity|vm_compute; reflexivity|apply sub_resolving; vm_compute; reflexivity|vm_compute; reflexivity].
  - eexists. unfold sub_history. change [?a] with ([] ++ [a]). eapply hi_call; [constructor|]. eapply se_unasync_unknown; [reflexivity|vm_compute; reflexivity].
  - eexists. unfold sub_history. change [(SubscribeAsync ?a ?b ?c ?d ?e, ?f)] with ([] ++ [(SubscribeAsync (O := obj) a b c d e, f)]). eapply hi_call; [constructor|]. apply se_async_fails. vm_compute. reflexivity.
Qed.

(** ** C44 *)

(** A valid document with one subscription operation that selects one root field can be subscribed, whatever happened before. *)
Theorem C44_accepts_partial : forall O typenames has_field roots CB ans fuel validate (h : list (call O CB * answered CB)) r doc name given cb op loc al n args dirs sub es frags ods,
  history O typenames has_field roots CB ans fuel validate h r ->
  validate doc = [] -> operations doc = [op] -> selects name (operations doc) op -> op_kind op = "subscription" ->
  find_root O "subscription" roots <> None -> copyable given ->
  op_sel op = [SField loc al n args dirs sub] -> decides given dirs true -> args_value given args es ->
  fragments_of given doc frags -> dirs_value given (named_only (op_dirs op)) ods ->
  exists k r' ds, history O typenames has_field roots CB ans fuel validate (h ++ [(Subscribe doc name (VMap given) cb, GotKey k)]) r' /\
    listens (default_types typenames roots) (mkSub doc name (VMap given) cb) n es ds.
Proof.
  intros O typenames has_field roots CB ans fuel validate h r doc name given cb op loc al n args dirs sub es frags ods H V Ops Sel K NR Hc Es [ds [Nd [Dv [Vc [Oc Kp]]]]] Av F Od.
  destruct (find_root O "subscription" roots) as [object|] eqn:R; [|congruence].
  assert (Sk : should_skip ds = Ok false). { destruct (should_skip_iff _ Vc Oc) as [[] [E X]]; auto. exfalso. destruct Kp as [_ Kp]. specialize (Kp (proj1 X eq_refl)). discriminate. }
  assert (Nn : named_only dirs = dirs). { clear -Nd. unfold named_only. induction Nd as [|d dirs N Nd IH]; simpl; auto. destruct (String.eqb_spec (d_name d) ""); [contradiction|]. simpl. now rewrite IH. }
  assert (E : exists k r', subscribe O typenames roots CB validate doc name (VMap given) cb r = Ok (k, r')).
  { unfold subscribe, make_registration. rewrite V. pose proof (proj2 (fragments_iff given doc frags Hc) F) as Fm. rewrite Fm. simpl.
    rewrite (proj2 (find_selects doc name op) Sel), K. simpl. rewrite R, Ops. unfold sub_visit. rewrite Es. simpl. unfold sub_field. simpl.
    rewrite (proj2 (dirs_value_iff given Hc dirs ds Nd) Dv). simpl. rewrite Sk. simpl. rewrite (proj2 (args_value_iff given Hc args es) Av). simpl.
    rewrite visit_directives_named. rewrite (proj2 (dirs_value_iff given Hc _ ods (named_only_named _)) Od). simpl. eexists _, _. reflexivity. }
  destruct E as [k [r' E]]. exists k, r', ds. split; [eapply hi_call; [exact H|now apply se_subscribe]|].
  exists given, op, frags. split; [reflexivity|]. split; [exact Ops|]. split; [exact F|]. exists [], loc, al, args, dirs, sub, []. split; [exact Es|].
  split; [constructor|]. split; [constructor|]. rewrite Nn. split; [exact Dv|]. split; [now apply should_skip_not_dropped|exact Av].
Qed.

(** What a subscription is for: its document has a single operation, whose single root field it is. *)
Theorem C44_single_root_field : forall O typenames has_field roots CB ans fuel validate (h : list (call O CB * answered CB)) r k s,
  history O typenames has_field roots CB ans fuel validate h r -> Forall plain_call h -> (made h < size_t_max)%N -> In (k, s) (live h) ->
  validate (s_doc s) = [] /\
  exists op, operations (s_doc s) = [op] /\ op_kind op = "subscription" /\ selects (s_name s) [op] op /\
    ((exists n es ds, n <> "" /\ listens (default_types typenames roots) s n es ds) \/
     (exists given frags, s_vars s = VMap given /\ fragments_of given (s_doc s) frags /\ no_root_field_in given frags (default_types typenames roots) (op_sel op))).
Proof.
  intros O typenames has_field roots CB ans fuel validate h r k s H P M I.
  destruct (history_follows _ _ _ _ _ _ _ _ _ _ H M) as [L Fo]. destruct (follows_matched_r _ _ _ _ _ _ _ _ _ _ Fo I) as [reg [IL Rg]].
  pose proof (live_plain _ _ _ P _ _ I) as [[given [V Hc]] FN]. unfold registered, make_registration in Rg. rewrite V in Rg.
  destruct (validate (s_doc s)); [|discriminate]. split; auto.
  destruct (mapM (make_fragment (VMap given)) (fragments (s_doc s))) as [frags| |] eqn:F; simpl in Rg; try discriminate.
  apply fragments_iff in F; auto.
  destruct (find_operation (s_doc s) (s_name s)) as [op|] eqn:Fo'; [|discriminate]. destruct (String.eqb_spec (op_kind op) "subscription") as [K|]; [|discriminate]. simpl in Rg.
  destruct (find_root O "subscription" roots) as [object|] eqn:R; [|discriminate].
  destruct (operations (s_doc s)) as [|op1 [|op2 ops]] eqn:Ops; [discriminate| |destruct (sub_visit _ _ _ _ _ _ _ _); discriminate].
  apply find_selects in Fo'. rewrite Ops in Fo'. assert (op1 = op). { destruct Fo' as [pre [post [E _]]]. destruct pre as [|a pre]; simpl in E; [congruence|]. injection E as _ E. destruct pre; discriminate. }
  subst op1. exists op. split; auto. split; auto. split; auto.
  unfold sub_visit in Rg. destruct (sub_selections O typenames object (VMap given) frags (op_sel op) no_root_field) as [rf| |] eqn:S; simpl in Rg; try discriminate.
  assert (T : option_map typenames object = default_types typenames roots) by (unfold default_types; rewrite R; destruct object; auto).
  apply sub_selections_root in S; auto; [|apply FN; left; auto]. rewrite T in S.
  destruct S as [[-> N]|[n [es [ds [Nn [-> S]]]]]].
  - right. exists given, frags. auto.
  - left. exists n, es, ds. split; [exact Nn|]. exists given, op, frags. auto.
Qed.

(** Documents that are not subscribed: invalid ones, ones without the operation, ones where it is not a subscription. *)
Theorem C44_rejects : forall O typenames has_field roots CB ans fuel validate (h : list (call O CB * answered CB)) r doc name given cb a,
  history O typenames has_field roots CB ans fuel validate (h ++ [(Subscribe doc name (VMap given) cb, a)]) r -> copyable given ->
  (validate doc <> [] -> a = Failed (SchemaEx (validate doc))) /\
  (validate doc = [] -> forall frags, fragments_of given doc frags ->
    ((forall op, ~ selects name (operations doc) op) ->
      a = Failed (SchemaEx [mkErr ("Missing subscription" ++ quoted_name name) (mkLoc 0 1) []])) /\
    (forall op, selects name (operations doc) op -> op_kind op <> "subscription" ->
      a = Failed (SchemaEx [mkErr ("Unexpected operation type: " ++ op_kind op ++ quoted_name name) (op_loc op) []]))).
Proof.
  intros O typenames has_field roots CB ans fuel validate h r doc name given cb a H Hc.
  apply history_snoc in H as [r1 [H1 S]].
  assert (X : forall e, make_registration O typenames roots CB validate doc name (VMap given) cb = Throw e -> a = Failed e).
  { intros e E. inversion S as [r0 d0 n0 v0 c0 k0 r2 E0|r0 d0 n0 v0 c0 e0 E0| | | | | | | | | |]; subst; unfold subscribe in E0; rewrite E in E0; simpl in E0; congruence. }
  split.
  - intros N. apply X. unfold make_registration. destruct (validate doc); [congruence|reflexivity].
  - intros V frags F. apply fragments_iff in F; auto. split.
    + intros N. apply X. unfold make_registration. rewrite V, F. simpl. destruct (find_operation doc name) as [op|] eqn:Fo; auto.
      apply find_selects in Fo. exfalso. eapply N; eauto.
    + intros op Sl K. apply X. unfold make_registration. rewrite V, F. simpl. apply find_selects in Sl. rewrite Sl.
      destruct (String.eqb_spec (op_kind op) "subscription"); [contradiction|]. reflexivity.
Qed.

Definition no_defined_answer (doc : document) (name : string) (vars : value) : Prop :=
  forall a r, ~ sub_history ([] ++ [(Subscribe doc name vars 7, a)]) r.
Lemma undefined_subscribe doc name vars : make_registration obj ex_types sub_roots nat no_errors doc name vars 7 = UB -> no_defined_answer doc name vars.
Proof.
  intros E a r H. apply history_snoc in H as [r1 [H1 S]]. inversion S as [r0 d0 n0 v0 c0 k0 r2 E0|r0 d0 n0 v0 c0 e0 E0| | | | | | | | | |]; subst;
    unfold subscribe in E0; rewrite E in E0; discriminate.
Qed.
(** "Several operations, of which the name selects one" (as for resolve, C19): refuted for subscriptions. *)
Theorem C44_several_operations_refuted :
  no_defined_answer [named "subscription" "A" [fld 2 "echo"]; named "query" "B" [fld 3 "echo"]] "A" (VMap []) /\
  no_defined_answer [named "subscription" "A" [fld 2 "echo"]; named "subscription" "B" [fld 3 "hero"]] "B" (VMap []).
Proof. split; apply undefined_subscribe; vm_compute; reflexivity. Qed.
(** "The root field may be in a fragment": refuted. *)
Theorem C44_root_in_fragment_refuted :
  no_defined_answer [named "subscription" "A" [SInline (at_ 2) None [] [fld 2 "echo"]]] "A" (VMap []) /\
  no_defined_answer [named "subscription" "A" [SSpread (at_ 2) "F" []]; DFrag (mkFrag (at_ 3) "F" "Query" (at_ 3) [] [fld 4 "echo"])] "A" (VMap []).
Proof. split; apply undefined_subscribe; vm_compute; reflexivity. Qed.
(** "Variables that are not passed have their default values" (as for resolve, C18): refuted for subscriptions. *)
Theorem C44_default_values_refuted :
  let doc := [DOp (mkOp (at_ 1) (Some "subscription") None [var_n] [] [SField (at_ 2) None "echo" [sub_arg "a" (LVar (at_ 2) "n")] [] None])] in
  exists d, v_default var_n = Some d /\
  exists r, sub_history [(Subscribe doc "" (VMap []) 7, Failed (SchemaEx [mkErr "Unknown variable name: n" (at_ 2) []]))] r.
Proof.
  eexists. split; [reflexivity|]. eexists. unfold sub_history. change [(Subscribe ?b ?c ?d ?e, ?f)] with ([] ++ [(Subscribe (O := obj) b c d e, f)]).
  eapply hi_call; [constructor|]. apply se_subscribe_fails. vm_compute. reflexivity.
Qed.
(** "Only documents with a root field can be subscribed": refuted. If a directive drops the only root field, the subscription is
    made, for no field; delivering an event with an empty name then throws. *)
Theorem C44_dropped_root_refuted : exists r,
  sub_history ([(sub_call (sub_doc [] [cond_dir "skip" (LBool (at_ 2) true)]) 7, GotKey 0%N)] ++
    [(deliver_call "" ByName, CalledBack [] (Throw (Exn logic_error "Invalid call to Value::begin for MapType")))]) r.
Proof.
  eexists. unfold sub_history. change [?a] with ([] ++ [a]). eapply hi_call; [eapply hi_call; [constructor|]|].
  - apply se_subscribe. vm_compute. reflexivity.
  - apply se_deliver; [discriminate|]. eapply de_listeners; [reflexivity|reflexivity|vm_compute; reflexivity| |].
    + eapply co_filter_throws; vm_compute; reflexivity.
    + exists [], []. split; [reflexivity|]. split; [intros s []|]. split; [constructor|]. split; reflexivity.
Qed.
(** the hypotheses of C44_accepts_partial are met by the documents of C20_example *)
Example C44_example :
  let op := mkOp (at_ 1) (Some "subscription") None [] [] [SField (at_ 2) None "echo" [sub_arg "a" (LInt (at_ 2) 1)] [] None] in
  operations doc_a = [op] /\ selects "" (operations doc_a) op /\ decides [] [] true /\ args_value [] [sub_arg "a" (LInt (at_ 2) 1)] [("a", VInt 1)] /\
  fragments_of [] doc_a [] /\ dirs_value [] (named_only (op_dirs op)) [] /\
  (exists r, sub_history [(sub_call doc_a 7, GotKey 0%N)] r) /\
  (exists r, sub_history [(Subscribe [query [] [fld 2 "echo"]] "" (VMap []) 7, Failed (SchemaEx [mkErr "Unexpected operation type: query" (at_ 1) []]))] r).
Proof.
  split; [reflexivity|]. split; [exists [], []; split; [reflexivity|split; congruence]|].
  split; [exists []; split; [constructor|]; split; [exists []; split; [constructor|reflexivity]|]; split; [split; left; reflexivity|]; split; [left; reflexivity|];
          split; [discriminate|intros [E|E]; discriminate]|].
  split; [exists [("a", VInt 1)]; split; [repeat constructor|reflexivity]|]. split; [constructor|]. split; [exists []; split; [constructor|reflexivity]|].
  split; eexists; unfold sub_history; change [?a] with ([] ++ [a]); (eapply hi_call; [constructor|]); [apply se_subscribe|apply se_subscribe_fails]; vm_compute; reflexivity.
Qed.
