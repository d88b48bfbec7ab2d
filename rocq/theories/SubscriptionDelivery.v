(** Proofs about subscriptions: what deliver does, and the registry a history leaves. *)
From Coq Require Import Permutation Sorting.Sorted.
From Verif Require Import Cpp Value Ast ErrorModel SortedMapModel SortedMapSpec SortedMapProofs ExecModel ExecSem ExecSpec ExecValues ExecCalls2
  ExecRequest2 ExecMono SubscriptionModel SubscriptionSpec SubscriptionProofs SubscriptionHistory.
Local Open Scope string_scope.
Local Open Scope list_scope.

Section Delivery.
  Variable O : Type.
  Variable typenames : O -> list string.
  Variable has_field : O -> string -> bool.
  Variable roots : list (string * option O).
  Variable CB : Type.
  Variable ans : O -> string -> fparams -> answer O.
  Variable fuel : nat.
  Variable validate : document -> list schema_error.

  Notation registration := (registration CB).
  Notation registry := (registry CB).
  Notation serves := (serves O typenames has_field roots CB ans fuel validate).
  Notation history := (history O typenames has_field roots CB ans fuel validate).
  Notation resolving := (resolving O typenames has_field CB ans fuel).
  Notation default_types := (default_types typenames roots).
  Notation registered := (registered O typenames roots CB validate).
  Notation follows := (follows O typenames roots CB validate).
  Notation matched := (matched O typenames roots CB validate).
  Notation resolves_to := (resolves_to typenames has_field ans fuel).

  (** ** A history determines the registry *)
  Lemma matched_fun S L : Forall2 matched S L -> forall L', Forall2 matched S L' -> L = L'.
  Proof.
    induction 1 as [|[k s] [k1 r1] S L [E R] F IH]; intros L' H; inversion H as [|a [k2 r2] b L2 [E2 R2] F2]; subst; auto.
    simpl in *. subst. unfold SubscriptionHistory.registered in *. rewrite R in R2. injection R2 as <-. f_equal. auto.
  Qed.
  Lemma follows_fun h r L r' L' : follows h r L -> follows h r' L' -> r = r' /\ L = L'.
  Proof.
    intros A B. pose proof (matched_fun _ _ (fo_live _ _ _ _ _ _ _ _ A) _ (fo_live _ _ _ _ _ _ _ _ B)) as <-. split; auto.
    eapply holds_fun; [apply A|apply B].
  Qed.
  Lemma history_fun h r r' : history h r -> history h r' -> (made h < size_t_max)%N -> r = r'.
  Proof.
    intros A B M. destruct (history_follows _ _ _ _ _ _ _ _ _ _ A M) as [L F]. destruct (history_follows _ _ _ _ _ _ _ _ _ _ B M) as [L' F'].
    eapply follows_fun; eauto.
  Qed.

  Lemma follows_keys h r L : follows h r L -> map fst (live h) = map fst L.
  Proof. intros Fo. pose proof (fo_live _ _ _ _ _ _ _ _ Fo) as F. clear Fo. induction F as [|a b S L0 [E _] F IH]; simpl; auto. rewrite E. now f_equal. Qed.
  Lemma keys_sorted L : sorted fst N.ltb L -> StronglySorted N.lt (map (@fst N registration) L).
  Proof.
    unfold sorted. induction 1 as [|a L S IH F]; simpl; constructor; auto. apply Forall_forall. intros k I. apply in_map_iff in I as [b [<- I]].
    rewrite Forall_forall in F. specialize (F _ I). now apply N.ltb_lt.
  Qed.
  Lemma sorted_nodup l : StronglySorted N.lt l -> NoDup l.
  Proof. induction 1 as [|a l S IH F]; constructor; auto. intros I. rewrite Forall_forall in F. specialize (F _ I). lia. Qed.

  (** ** Resolving *)
  Lemma resolving_iff ctx l o reg r : resolving ctx l o reg r <->
    computes typenames has_field ans fuel (reg_env CB ctx l reg) o [] (g_sel CB reg) r.
  Proof. reflexivity. Qed.
  Lemma registered_run s reg : plain_sub s -> registered s reg -> exists given op frags ds,
    s_vars s = VMap given /\ operations (s_doc s) = [op] /\ fragments_of given (s_doc s) frags /\ dirs_value given (named_only (op_dirs op)) ds /\
    (forall ctx l, reg_env CB ctx l reg = mkEnv ctx ds frags (VMap given) l) /\ g_sel CB reg = op_sel op.
  Proof.
    intros [[given [V Hc]] FN] H. unfold SubscriptionHistory.registered, make_registration in H. rewrite V in H.
    destruct (validate (s_doc s)); [|discriminate].
    destruct (mapM (make_fragment (VMap given)) (fragments (s_doc s))) as [frags| |] eqn:F; simpl in H; try discriminate.
    apply fragments_iff in F; auto.
    destruct (find_operation (s_doc s) (s_name s)); [|discriminate]. destruct (negb _); [discriminate|].
    destruct (find_root O "subscription" roots) as [object|] eqn:R; [|discriminate].
    destruct (operations (s_doc s)) as [|op1 [|op2 ops]] eqn:Ops; [discriminate| |destruct (sub_visit _ _ _ _ _ _ _ _); discriminate].
    unfold sub_visit in H. destruct (sub_selections O typenames object (VMap given) frags (op_sel op1) no_root_field) as [rf| |] eqn:S; simpl in H; try discriminate.
    destruct (visit_directives (VMap given) (op_dirs op1) []) as [od| |] eqn:OD; simpl in H; try discriminate. injection H as <-. simpl.
    exists given, op1, frags, od. split; auto. split; auto. split; auto. split; [|split; auto]. now apply dirs_ok.
  Qed.
  Lemma resolves_iff s reg ctx l o r : plain_sub s -> registered s reg -> (resolves_to ctx l o s r <-> resolving ctx l o reg r).
  Proof.
    intros P R. destruct (registered_run _ _ P R) as [given [op [frags [ds [V [Op [F [D [E G]]]]]]]]].
    rewrite resolving_iff, E, G. split.
    - intros [given' [op' [frags' [ds' [V' [Op' [F' [D' C]]]]]]]]. rewrite V in V'. injection V' as <-. rewrite Op in Op'. injection Op' as <-.
      destruct P as [[g [V2 Hc]] _]. rewrite V in V2. injection V2 as <-. apply fragments_iff in F, F'; auto. rewrite F in F'. injection F' as <-.
      now rewrite (dirs_value_fun _ _ _ _ Hc D D').
    - intros C. exists given, op, frags, ds. auto.
  Qed.
  Lemma document_for_iff r d : document_for r d <-> event_document r = Ok d.
  Proof.
    split.
    - intros H. inversion H; subst; reflexivity.
    - destruct r as [x|[c w|errs]|]; simpl; intros E; try discriminate; injection E as <-; constructor.
  Qed.
  Lemma resolving_total ctx l o reg : exists r, resolving ctx l o reg r.
  Proof. eexists. apply resolving_iff, computes_iff. reflexivity. Qed.
  Lemma resolving_fun ctx l o reg r r' : resolving ctx l o reg r -> resolving ctx l o reg r' -> r = r'.
  Proof. rewrite !resolving_iff. intros A B. apply computes_iff in A, B. congruence. Qed.

  (** ** The documents *)
  Section Docs.
    Variables (fA fD : filter_callback) (ctx : resolver_context) (l : launch) (o : O) (subs : list (N * registration)).
    Lemma collects_docs keys is out : collects O CB (resolving ctx l) fA fD o subs keys is out -> forall i, In i is ->
      exists reg r, smap_find N.ltb subs (i_key i) = Some reg /\ i_callback i = g_callback CB reg /\ resolving ctx l o reg r /\ event_document r = Ok (i_document i).
    Proof.
      induction 1; intros i I; simpl in I; try contradiction; auto. destruct I as [<-|I]; auto. simpl. eauto 6.
    Qed.
  End Docs.
  Lemma delivers_docs h r L l name f object log final : Forall plain_call h -> follows h r L ->
    delivers O roots CB (resolving CSubscription l) l name (fst (filters_of f)) (snd (filters_of f)) object r log final ->
    forall i, In i log -> exists o s x, event_object roots object o /\ In (i_key i, s) (live h) /\ i_callback i = s_callback s /\
      resolves_to CSubscription l o s x /\ document_for x (i_document i).
  Proof.
    intros P Fo D i I. inversion D as [R|R Eo|default o R Eo Fl|default o keys is out log' final' R Eo Fl C Cb]; subst; try contradiction.
    destruct (calls_back_all _ _ _ _ _ _ Cb) as [rest [Pm _]].
    assert (I' : In i is) by (eapply Permutation_in; [exact Pm|apply in_or_app; auto]).
    destruct (collects_docs _ _ _ _ _ _ _ _ _ C _ I') as [reg [x [F1 [F2 [F3 F4]]]]].
    pose proof (fo_holds _ _ _ _ _ _ _ _ Fo) as H. apply (find_subs_some CB _ _ _ _ H) in F1.
    assert (X : exists s, In (i_key i, s) (live h) /\ registered s reg).
    { pose proof (fo_live _ _ _ _ _ _ _ _ Fo) as F. clear -F F1. induction F as [|[k1 s1] [k2 r2] S L [E R] F IH]; simpl in *; [destruct F1|].
      destruct F1 as [F1|F1]; [injection F1 as -> ->; subst; eauto|]. destruct (IH F1) as [s [A B]]. eauto. }
    destruct X as [s [Il Rg]]. pose proof (live_plain _ _ _ P _ _ Il) as Ps. exists o, s, x. split.
    { destruct object as [o'|]; [injection Eo as <-; left; reflexivity|right; split; auto; subst default; exact R]. }
    split; auto. split; [rewrite F2; apply (registered_listens _ _ _ _ _ _ _ Ps Rg)|]. split; [now apply (resolves_iff s reg)|now apply document_for_iff].
  Qed.

  (** ** Events are delivered *)
  Lemma collects_exists fA fD ctx l o subs keys :
    (forall k, In k keys -> exists reg b, smap_find N.ltb subs k = Some reg /\ reaches CB fA fD reg = Ok b /\
       (b = true -> exists r d, resolving ctx l o reg r /\ event_document r = Ok d)) ->
    exists is, collects O CB (resolving ctx l) fA fD o subs keys is (Ok tt).
  Proof.
    induction keys as [|k keys IH]; intros H; [exists []; constructor|].
    destruct IH as [is C]; [intros k' I; apply H; now right|]. destruct (H k (or_introl eq_refl)) as [reg [[] [F [R X]]]].
    - destruct (X eq_refl) as [r [d [A B]]]. eexists. eapply co_deliver; eauto.
    - exists is. eapply co_filtered; eauto.
  Qed.
  Lemma interleaved_left {A} (a : list A) : interleaved a [] a.
  Proof. induction a; constructor; auto. Qed.
  Lemma interleaved_right {A} (a : list A) : interleaved [] a a.
  Proof. induction a; constructor; auto. Qed.
  Lemma calls_back_exists l is : exists log, calls_back CB l is (Ok tt) log (Ok tt).
  Proof.
    destruct l.
    - exists is. exists (map (fun i => mkStarted CB false i None) is), []. split; [rewrite map_map; apply map_id|].
      split; [intros s I; apply in_map_iff in I as [i [<- I]]; simpl; split; congruence|].
      assert (W : waited CB (map (fun i => mkStarted CB false i None) is) = (is, None)) by (induction is as [|i is IH]; simpl; auto; rewrite IH; auto).
      split; [|rewrite W; split; auto; apply interleaved_right]. replace (filter _ _) with (@nil (started CB)); [constructor|]. clear. induction is; simpl; auto.
    - exists is. exists (map (fun i => mkStarted CB true i None) is), is. split; [rewrite map_map; apply map_id|].
      split; [intros s I; apply in_map_iff in I as [i [<- I]]; simpl; split; congruence|].
      assert (W : waited CB (map (fun i => mkStarted CB true i None) is) = ([], None)) by (induction is as [|i is IH]; simpl; auto; rewrite IH; auto).
      split; [|rewrite W; split; auto; apply interleaved_left]. replace (filter _ _) with (map (fun i => mkStarted CB true i None) is); [rewrite map_map, map_id; auto|].
      clear. induction is; simpl; auto. f_equal; auto.
    - exists is. exists (map (fun i => mkStarted CB false i None) is), []. split; [rewrite map_map; apply map_id|].
      split; [intros s I; apply in_map_iff in I as [i [<- I]]; simpl; split; congruence|].
      assert (W : waited CB (map (fun i => mkStarted CB false i None) is) = (is, None)) by (induction is as [|i is IH]; simpl; auto; rewrite IH; auto).
      split; [|rewrite W; split; auto; apply interleaved_right]. replace (filter _ _) with (@nil (started CB)); [constructor|]. clear. induction is; simpl; auto.
  Qed.

  Lemma follows_matched h r L k reg : follows h r L -> In (k, reg) L -> exists s, In (k, s) (live h) /\ registered s reg.
  Proof.
    intros Fo I. pose proof (fo_live _ _ _ _ _ _ _ _ Fo) as F. clear -F I. induction F as [|[k1 s1] [k2 r2] S L [E R] F IH]; simpl in *; [destruct I|].
    destruct I as [I|I]; [injection I as -> ->; subst; eauto|]. destruct (IH I) as [s [A B]]. eauto.
  Qed.
  Lemma follows_matched_r h r L k s : follows h r L -> In (k, s) (live h) -> exists reg, In (k, reg) L /\ registered s reg.
  Proof.
    intros Fo I. pose proof (fo_live _ _ _ _ _ _ _ _ Fo) as F. clear -F I. induction F as [|[k1 s1] [k2 r2] S L [E R] F IH]; simpl in *; [destruct I|].
    destruct I as [I|I]; [injection I as -> ->; subst; eauto|]. destruct (IH I) as [reg [A B]]. eauto.
  Qed.
  Lemma all_match_total f es : (forall n v, exists b, f n v = Ok b) -> exists b, all_match f es = Ok b.
  Proof.
    intros T. induction es as [|[n v] es [b IH]]; simpl; [eauto|]. destruct (T n v) as [[] E]; rewrite E; simpl; eauto.
  Qed.

  Lemma delivers_exists h r L l name f object o : Forall plain_call h -> follows h r L -> name <> "" ->
    find_root O "subscription" roots <> None -> event_object roots object o ->
    (forall n v, exists b, fst (filters_of f) n v = Ok b) -> (forall n v, exists b, snd (filters_of f) n v = Ok b) ->
    (forall k s es ds, In (k, s) (live h) -> listens default_types s name es ds -> accepts (fst (filters_of f)) es -> accepts (snd (filters_of f)) ds ->
       exists x d, resolves_to CSubscription l o s x /\ document_for x d) ->
    exists log, delivers O roots CB (resolving CSubscription l) l name (fst (filters_of f)) (snd (filters_of f)) object r log (Ok tt).
  Proof.
    intros P Fo N NR Ob T1 T2 X. pose proof (fo_holds _ _ _ _ _ _ _ _ Fo) as H.
    destruct (find_root O "subscription" roots) as [default|] eqn:R; [|congruence].
    assert (Eo : match object with Some x => Some x | None => default end = Some o).
    { destruct Ob as [->|[-> E]]; auto. congruence. }
    destruct (smap_find string_lt (listeners CB r) name) as [keys|] eqn:Fl.
    - pose proof Fl as Fl'. rewrite (ho_listeners _ _ _ H) in Fl'. assert (K : keys = keys_of CB name L) by (destruct (keys_of CB name L); congruence).
      destruct (collects_exists (fst (filters_of f)) (snd (filters_of f)) CSubscription l o (subscriptions CB r) keys) as [is C].
      { intros k I. rewrite K in I. apply keys_of_In in I as [reg [I Ef]]. exists reg.
        destruct (follows_matched _ _ _ _ _ Fo I) as [s [Il Rg]]. pose proof (live_plain _ _ _ P _ _ Il) as Ps.
        destruct (registered_listens _ _ _ _ _ _ _ Ps Rg) as [_ [_ [[n [es [ds [Nn [Li [En [Ea Ed]]]]]]]|[Ee _]]]]; [|congruence].
        rewrite Ef in En. subst n. destruct (all_match_total _ es T1) as [b1 B1]. destruct (all_match_total _ ds T2) as [b2 B2].
        exists (b1 && b2)%bool. split; [now apply (find_subs_some CB _ _ _ _ H)|]. split.
        { unfold reaches. rewrite Ea, Ed. simpl. rewrite B1. simpl. destruct b1; simpl; auto. }
        intros B. apply andb_prop in B as [-> ->]. apply all_match_accepts in B1, B2.
        destruct (X k s es ds Il Li B1 B2) as [x [d [Rx Dx]]]. exists x, d. split; [now apply (resolves_iff s reg)|now apply document_for_iff]. }
      destruct (calls_back_exists l is) as [log Cb]. exists log. eapply de_listeners; eauto.
    - exists []. eapply de_no_listener; eauto.
  Qed.
End Delivery.
