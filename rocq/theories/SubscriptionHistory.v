(** Proofs about subscriptions: histories of calls. *)
From Coq Require Import Permutation Sorting.Sorted.
From Verif Require Import Cpp Value Ast ErrorModel SortedMapModel SortedMapSpec SortedMapProofs ExecModel ExecSem ExecSpec ExecValues ExecCalls2
  ExecRequest2 SubscriptionModel SubscriptionSpec SubscriptionProofs.
Local Open Scope string_scope.
Local Open Scope list_scope.

(** ** The root field of a selection set is determined *)
Lemma dropped_not ds : dropped ds -> not_dropped ds -> False.
Proof. intros [D|[E D]] [N1 N2]; [exact (N1 D)|exact (N2 E D)]. Qed.
Lemma dirs_value_fun vars dirs a b : copyable vars -> dirs_value vars (named_only dirs) a -> dirs_value vars (named_only dirs) b -> a = b.
Proof.
  intros Hc A B. pose proof (named_only_named dirs) as N. apply dirs_value_iff in A, B; auto. congruence.
Qed.
Lemma args_value_fun vars args a b : copyable vars -> args_value vars args a -> args_value vars args b -> a = b.
Proof. intros Hc A B. apply args_value_iff in A, B; auto. congruence. Qed.
Lemma no_effect_field vars frags object loc al n args dirs sub : ~ no_effect vars frags object (SField loc al n args dirs sub).
Proof. intros H. inversion H. Qed.
Lemma field_kept vars frags object loc al n args dirs sub ds : copyable vars -> dirs_value vars (named_only dirs) ds -> not_dropped ds ->
  dropped_field vars (SField loc al n args dirs sub) \/ no_effect vars frags object (SField loc al n args dirs sub) -> False.
Proof.
  intros Hc D N [[l [a [n' [args' [dirs' [sub' [ds' [E [D' Dr]]]]]]]]]|H].
  - injection E as <- <- <- <- <- <-. rewrite (dirs_value_fun _ _ _ _ Hc D D') in N. eapply dropped_not; eauto.
  - eapply no_effect_field; eauto.
Qed.
Lemma root_field_fun vars frags object sels : copyable vars -> forall n es ds n' es' ds',
  root_field_is vars frags object sels n es ds -> root_field_is vars frags object sels n' es' ds' -> n = n' /\ es = es' /\ ds = ds'.
Proof.
  intros Hc n es ds n' es' ds' [before [loc [al [args [dirs [sub [after [E [B [A [D [N V]]]]]]]]]]]] [before' [loc' [al' [args' [dirs' [sub' [after' [E' [B' [A' [D' [N' V']]]]]]]]]]]].
  subst sels. revert before' B' E'. induction before as [|s before IH]; intros [|s' before'] B' E'; simpl in E'; inversion E'; subst.
  - rewrite (dirs_value_fun _ _ _ _ Hc D D'), (args_value_fun _ _ _ _ Hc V V'). auto.
  - inversion B' as [|? ? X _]; subst. exfalso. eapply field_kept; [exact Hc|exact D|exact N|exact X].
  - inversion B as [|? ? X _]; subst. exfalso. eapply field_kept; [exact Hc|exact D'|exact N'|exact X].
  - inversion B; inversion B'; subst. eapply IH; eauto.
Qed.
Lemma root_field_none vars frags object sels : copyable vars -> forall n es ds,
  root_field_is vars frags object sels n es ds -> no_root_field_in vars frags object sels -> False.
Proof.
  intros Hc n es ds [before [loc [al [args [dirs [sub [after [-> [B [A [D [N V]]]]]]]]]]]] F.
  unfold no_root_field_in in F. rewrite Forall_forall in F. eapply field_kept; [exact Hc|exact D|exact N|]. apply F. apply in_or_app. right. left. reflexivity.
Qed.

Section History.
  Variable O : Type.
  Variable typenames : O -> list string.
  Variable has_field : O -> string -> bool.
  Variable roots : list (string * option O).
  Variable CB : Type.
  Variable ans : O -> string -> fparams -> answer O.
  Variable fuel : nat.
  Variable validate : document -> list schema_error.

  Notation registration := (registration CB).
  Notation registry := (registry CB).
  Notation serves := (serves O typenames has_field roots CB ans fuel validate).
  Notation history := (history O typenames has_field roots CB ans fuel validate).
  Notation resolving := (resolving O typenames has_field CB ans fuel).

  Notation default_types := (default_types typenames roots).

  Definition registered (s : subscription CB) (reg : registration) : Prop :=
    make_registration O typenames roots CB validate (s_doc s) (s_name s) (s_vars s) (s_callback s) = Ok reg.
  Lemma registered_listens s reg : plain_sub s -> registered s reg -> g_callback CB reg = s_callback s /\ g_vars CB reg = s_vars s /\
    ((exists n es ds, n <> "" /\ listens default_types s n es ds /\ g_field CB reg = n /\ g_args CB reg = VMap es /\ g_dirs CB reg = VMap ds) \/
     (g_field CB reg = "" /\ g_args CB reg = VNull /\ forall n es ds, ~ listens default_types s n es ds)).
  Proof.
    intros [[given [V Hc]] FN] H. unfold registered, make_registration in H. rewrite V in H.
    destruct (validate (s_doc s)); [|discriminate].
    destruct (mapM (make_fragment (VMap given)) (fragments (s_doc s))) as [frags| |] eqn:F; simpl in H; try discriminate.
    apply fragments_iff in F; auto.
    destruct (find_operation (s_doc s) (s_name s)); [|discriminate]. destruct (negb _); [discriminate|].
    destruct (find_root O "subscription" roots) as [object|] eqn:R; [|discriminate].
    destruct (operations (s_doc s)) as [|op1 [|op2 ops]] eqn:Ops; [discriminate| |destruct (sub_visit _ _ _ _ _ _ _ _); discriminate].
    unfold sub_visit in H. destruct (sub_selections O typenames object (VMap given) frags (op_sel op1) no_root_field) as [rf| |] eqn:S; simpl in H; try discriminate.
    destruct (visit_directives (VMap given) (op_dirs op1) []) as [od| |] eqn:OD; simpl in H; try discriminate. injection H as <-. simpl.
    split; auto. split; auto.
    assert (T : option_map typenames object = default_types) by (unfold default_types; rewrite R; destruct object; auto).
    apply sub_selections_root in S; auto; [|apply FN; left; auto]. rewrite T in S.
    destruct S as [[-> N]|[n [es [ds [Nn [-> S]]]]]].
    - right. split; auto. split; auto. intros n es ds [given' [op [frags' [V' [O' [F' L]]]]]]. rewrite V in V'. injection V' as <-.
      rewrite Ops in O'. injection O' as <-. apply fragments_iff in F, F'; auto. rewrite F in F'. injection F' as <-.
      eapply root_field_none; eauto.
    - left. exists n, es, ds. split; [exact Nn|]. split; auto. exists given, op1, frags. auto.
  Qed.
  Lemma listens_fun (s : subscription CB) n es ds n' es' ds' : plain_sub s -> listens default_types s n es ds -> listens default_types s n' es' ds' -> n = n' /\ es = es' /\ ds = ds'.
  Proof.
    intros [[given [V Hc]] _] [g1 [op1 [f1 [V1 [O1 [F1 L1]]]]]] [g2 [op2 [f2 [V2 [O2 [F2 L2]]]]]].
    rewrite V in V1, V2. injection V1 as <-. injection V2 as <-. rewrite O1 in O2. injection O2 as <-.
    apply fragments_iff in F1, F2; auto. rewrite F1 in F2. injection F2 as <-. eapply root_field_fun; eauto.
  Qed.

  (** ** The invariant of histories *)
  Definition matched (ks : N * subscription CB) (kr : N * registration) : Prop :=
    fst ks = fst kr /\ registered (snd ks) (snd kr).
  Record follows (h : list (call O CB * answered CB)) (r : registry) (L : list (N * registration)) : Prop := {
    fo_holds : holds CB r L;
    fo_live : Forall2 matched (live h) L;
    fo_bound : forall k, last_key CB L = Some k -> (k < made h)%N }.

  Lemma live_snoc (h : list (call O CB * answered CB)) ca : live (h ++ [ca]) = after_call (live h) ca.
  Proof. unfold live. now rewrite fold_left_app. Qed.
  Lemma made_snoc (h : list (call O CB * answered CB)) c a : made (h ++ [(c, a)]) = (made h + match a with GotKey _ => 1 | _ => 0 end)%N.
  Proof.
    unfold made. rewrite filter_app, app_length. simpl. destruct a; simpl; lia.
  Qed.
  Lemma matched_without k S L : Forall2 matched S L -> Forall2 matched (filter (fun ks => negb (N.eqb (fst ks) k)) S) (without CB k L).
  Proof.
    unfold without. induction 1 as [|ks kr S L [E R] F IH]; simpl; [constructor|]. rewrite E. destruct (negb (N.eqb (fst kr) k)); auto.
    constructor; auto. split; auto.
  Qed.
  Lemma last_without k L k' m : (forall k, last_key CB L = Some k -> (k < m)%N) -> sorted fst N.ltb L -> last_key CB (without CB k L) = Some k' -> (k' < m)%N.
  Proof.
    intros B S E. destruct (last_key_max _ _ _ (sorted_filter CB _ _ S) E) as [[reg I] _]. apply filter_In in I as [I _].
    destruct (last_key CB L) as [k''|] eqn:E2.
    - destruct (last_key_max _ _ _ S E2) as [_ M]. specialize (M _ _ I). specialize (B _ eq_refl). lia.
    - apply last_key_none in E2. subst. destruct I.
  Qed.

  Lemma follows_add h r L doc name vars cb k r' : follows h r L -> (made h < size_t_max)%N ->
    subscribe O typenames roots CB validate doc name vars cb r = Ok (k, r') ->
    exists reg, registered (mkSub doc name vars cb) reg /\ holds CB r' (L ++ [(k, reg)]) /\ ~ In k (map fst L) /\ (k < made h + 1)%N.
  Proof.
    intros [H F B] M E. unfold subscribe in E. destruct (make_registration _ _ _ _ _ _ _ _ _) as [reg| |] eqn:R; simpl in E; try discriminate.
    assert (E' : add_registration CB reg r = (k, r')) by congruence. clear E. rename E' into E. exists reg. split; [exact R|].
    assert (B' : forall k', last_key CB L = Some k' -> (k' + 1 < size_t_max)%N) by (intros k' X; specialize (B _ X); lia).
    destruct (add_holds CB _ _ _ _ _ H B' E) as [H' [N Next]]. split; auto. split; auto.
    destruct Next as [[-> ->]|[k' [X ->]]]; [lia|]. specialize (B _ X). lia.
  Qed.
  Lemma follows_subscribed h r L c doc name vars cb k r' : follows h r L -> (made h < size_t_max)%N ->
    subscribe O typenames roots CB validate doc name vars cb r = Ok (k, r') ->
    after_call (live h) (c, GotKey k) = live h ++ [(k, mkSub doc name vars cb)] ->
    exists L', follows (h ++ [(c, GotKey k)]) r' L'.
  Proof.
    intros Fo M E A. destruct (follows_add _ _ _ _ _ _ _ _ _ Fo M E) as [reg [R [H' [N Bk]]]]. destruct Fo as [H F B].
    exists (L ++ [(k, reg)]). constructor; auto.
    - rewrite live_snoc, A. apply Forall2_app; auto. constructor; [|constructor]. split; auto.
    - intros k' X. rewrite last_key_app in X. injection X as <-. rewrite made_snoc. exact Bk.
  Qed.
  Lemma follows_same h r L c a : follows h r L -> after_call (live h) (c, a) = live h -> follows (h ++ [(c, a)]) r L.
  Proof.
    intros [H F B] A. constructor; auto; [now rewrite live_snoc, A|]. intros k X. specialize (B _ X). rewrite made_snoc. lia.
  Qed.
  Lemma follows_removed h r L c k r' : follows h r L -> unsubscribe CB k r = Ok r' ->
    after_call (live h) (c, Returned) = filter (fun ks => negb (N.eqb (fst ks) k)) (live h) -> follows (h ++ [(c, Returned)]) r' (without CB k L).
  Proof.
    intros [H F B] E A. destruct (unsubscribe_holds CB _ _ k H) as [r1 [E1 H1]]. rewrite E in E1. injection E1 as <-. constructor; auto.
    - rewrite live_snoc, A. now apply matched_without.
    - intros k' X. rewrite made_snoc. pose proof (last_without _ _ _ _ B (ho_sorted _ _ _ H) X). lia.
  Qed.
  Lemma without_last L k reg : ~ In k (map fst L) -> without CB k (L ++ [(k, reg)]) = L.
  Proof.
    intros N. unfold without. rewrite filter_app. simpl. rewrite N.eqb_refl. simpl. rewrite app_nil_r. now apply without_absent.
  Qed.

  Lemma made_le (h : list (call O CB * answered CB)) ca : (made h <= made (h ++ [ca]))%N.
  Proof. destruct ca as [c a]. rewrite made_snoc. lia. Qed.

  Lemma rejected_same h r L doc name vars cb k r' r'' : follows h r L -> (made h < size_t_max)%N ->
    subscribe O typenames roots CB validate doc name vars cb r = Ok (k, r') -> unsubscribe CB k r' = Ok r'' -> r'' = r.
  Proof.
    intros Fo M E U. destruct (follows_add _ _ _ _ _ _ _ _ _ Fo M E) as [reg [R [H' [N Bk]]]].
    destruct (unsubscribe_holds CB _ _ k H') as [r1 [E1 H1]]. rewrite U in E1. injection E1 as <-. rewrite without_last in H1 by auto.
    eapply holds_fun; [exact H1|apply Fo].
  Qed.

  Lemma serves_follows h r L c a r' : follows h r L -> (made h < size_t_max)%N -> serves r c a r' -> exists L', follows (h ++ [(c, a)]) r' L'.
  Proof.
    intros Fo M S. inversion S; subst.
    - eapply follows_subscribed; eauto.
    - exists L. now apply follows_same.
    - exists L. now apply follows_same.
    - eapply follows_subscribed; eauto.
    - match goal with E : subscribe _ _ _ _ _ _ _ _ _ _ = Ok _, U : unsubscribe _ _ _ = Ok _ |- _ => rewrite (rejected_same _ _ _ _ _ _ _ _ _ _ Fo M E U) end.
      exists L. now apply follows_same.
    - eexists. eapply follows_removed; eauto.
    - exists L. now apply follows_same.
    - exists L. now apply follows_same.
    - eexists. eapply follows_removed; eauto.
    - exists L. now apply follows_same.
    - eexists. eapply follows_removed; eauto.
    - exists L. now apply follows_same.
  Qed.
  Lemma history_follows h r : history h r -> (made h < size_t_max)%N -> exists L, follows h r L.
  Proof.
    induction 1 as [|h r c a r' H IH S]; intros M.
    - exists []. constructor; [apply holds_new|constructor|discriminate].
    - pose proof (made_le h (c, a)). destruct IH as [L Fo]; [lia|]. eapply serves_follows; eauto. lia.
  Qed.

  Lemma history_snoc h c a r' : history (h ++ [(c, a)]) r' -> exists r, history h r /\ serves r c a r'.
  Proof.
    intros H. inversion H as [E|h' r c' a' r'' H1 S E]; subst.
    - destruct h; discriminate.
    - apply app_inj_tail in E as [-> E]. injection E as -> ->. eauto.
  Qed.

  (** live subscriptions come from subscribe calls *)
  Lemma live_plain (h : list (call O CB * answered CB)) : Forall plain_call h -> forall k s, In (k, s) (live h) -> plain_sub s.
  Proof.
    induction h as [|[c a] h IH] using rev_ind; intros P k s I; [destruct I|].
    apply Forall_app in P as [P1 P2]. inversion P2 as [|? ? P3 _]; subst. rewrite live_snoc in I. specialize (IH P1).
    destruct c as [doc name vars cb|l doc name vars cb|k0|l k0|l name f object], a; simpl in I; eauto;
      try (apply filter_In in I as [I _]; eauto; fail);
      apply in_app_or in I as [I|[I|[]]]; eauto; injection I as <- <-; exact P3.
  Qed.

  (** ** Delivery *)
  Lemma all_match_accepts f es : all_match f es = Ok true <-> accepts f es.
  Proof.
    induction es as [|[n v] es IH]; simpl.
    - split; auto. intros _ n v [].
    - split.
      + intros H. destruct (f n v) as [[]| |] eqn:E; simpl in H; try discriminate. intros n' v' [I|I]; [injection I as <- <-; exact E|].
        apply IH in H. now apply H.
      + intros H. rewrite (H n v (or_introl eq_refl)). simpl. apply IH. intros n' v' I. apply H. now right.
  Qed.

  Section Events.
    Variables (fA fD : filter_callback) (name : string).
    Definition reach_true (reg : registration) : bool := match reaches CB fA fD reg with Ok true => true | _ => false end.
    Fixpoint rsel (S : list (N * subscription CB)) (L : list (N * registration)) : list (N * subscription CB) :=
      match S, L with
      | ks :: S', kr :: L' => if String.eqb (g_field CB (snd kr)) name && reach_true (snd kr) then ks :: rsel S' L' else rsel S' L'
      | _, _ => []
      end.
    Lemma rsel_In S L : Forall2 matched S L -> forall ks, In ks (rsel S L) <->
      exists kr, In (ks, kr) (combine S L) /\ g_field CB (snd kr) = name /\ reaches CB fA fD (snd kr) = Ok true.
    Proof.
      induction 1 as [|ks0 kr0 S L R F IH]; simpl; intros ks; [split; [intros []|intros [kr [[] _]]]|].
      destruct (String.eqb_spec (g_field CB (snd kr0)) name) as [E|E]; simpl.
      - unfold reach_true. destruct (reaches CB fA fD (snd kr0)) as [[]| |] eqn:X; simpl; rewrite IH; split; intros Y.
        + destruct Y as [<-|[kr [I Y]]]; [exists kr0; auto|exists kr; auto].
        + destruct Y as [kr [[I|I] Y]]; [injection I as <- <-; auto|right; exists kr; auto].
        + destruct Y as [kr [I Y]]; exists kr; auto.
        + destruct Y as [kr [[I|I] Y]]; [injection I as <- <-; destruct Y; congruence|exists kr; auto].
        + destruct Y as [kr [I Y]]; exists kr; auto.
        + destruct Y as [kr [[I|I] Y]]; [injection I as <- <-; destruct Y; congruence|exists kr; auto].
        + destruct Y as [kr [I Y]]; exists kr; auto.
        + destruct Y as [kr [[I|I] Y]]; [injection I as <- <-; destruct Y; congruence|exists kr; auto].
      - rewrite IH. split; intros [kr Y].
        + exists kr. tauto.
        + destruct Y as [[I|I] Y]; [injection I as <- <-; destruct Y; congruence|exists kr; auto].
    Qed.
    Lemma rsel_sorted S L : Forall2 matched S L -> sorted fst N.ltb L -> StronglySorted N.lt (map fst (rsel S L)).
    Proof.
      unfold sorted. induction 1 as [|ks0 kr0 S L [E R] F IH]; simpl; intros H; [constructor|]. inversion H as [|? ? H1 H2]; subst.
      destruct (_ && _)%bool; simpl; auto. constructor; auto. apply Forall_forall. intros k I. apply in_map_iff in I as [ks [<- I]].
      apply (rsel_In _ _ F) in I as [kr [I _]]. pose proof (in_combine_r _ _ _ _ I) as I2. rewrite Forall_forall in H2.
      assert (X : fst ks = fst kr). { clear -F I. induction F as [|a b S L [E R] F IH]; simpl in I; [destruct I|]. destruct I as [I|I]; auto. injection I as <- <-. exact E. }
      rewrite X, E. specialize (H2 _ I2). now apply N.ltb_lt.
    Qed.

    Lemma collects_prefix (res : O -> registration -> result rr -> Prop) o subs S L : Forall2 matched S L -> (forall ks, In ks S -> plain_sub (snd ks)) ->
      (forall kr, In kr L -> smap_find N.ltb subs (fst kr) = Some (snd kr)) ->
      forall is out, collects O CB res fA fD o subs (keys_of CB name L) is out ->
      exists rest, map who_is (rsel S L) = map who is ++ rest /\ (out = Ok tt -> rest = []).
    Proof.
      induction 1 as [|ks kr S L [E R] F IH]; intros P Fs is out C.
      - simpl in C. inversion C; subst. exists []. auto.
      - assert (IH' := IH (fun ks I => P ks (or_intror I)) (fun kr I => Fs kr (or_intror I))). clear IH.
        unfold keys_of in C. simpl in C. simpl. destruct (String.eqb (g_field CB (snd kr)) name); [|apply (IH' _ _ C)].
        simpl in C. fold (keys_of CB name L) in C. pose proof (Fs kr (or_introl eq_refl)) as Fk.
        inversion C; subst; unfold reach_true; simpl;
          match goal with H : smap_find N.ltb subs (fst kr) = _ |- _ => rewrite Fk in H; try discriminate; injection H as <- end;
          match goal with H : reaches _ _ _ _ = _ |- _ => rewrite H end; simpl.
        + match goal with H : collects _ _ _ _ _ _ _ (keys_of CB name L) _ _ |- _ => exact (IH' _ _ H) end.
        + eexists. split; [reflexivity|discriminate].
        + eexists. split; [reflexivity|discriminate].
        + match goal with H : collects _ _ _ _ _ _ _ (keys_of CB name L) _ _ |- _ => destruct (IH' _ _ H) as [rest [X Y]] end.
          exists rest. split; auto. simpl. rewrite X. f_equal. unfold who, who_is. simpl. rewrite E. f_equal.
          destruct (registered_listens _ _ (P ks (or_introl eq_refl)) R) as [-> _]. reflexivity.
        + eexists. split; [reflexivity|discriminate].
        + eexists. split; [reflexivity|discriminate].
    Qed.
  End Events.

  (** ** Running the callbacks *)
  Lemma interleaved_perm {A} (a b c : list A) : interleaved a b c -> Permutation (a ++ b) c.
  Proof.
    induction 1; simpl; auto. symmetry. apply Permutation_cons_app. now symmetry.
  Qed.
  Lemma interleaved_nil {A} (b c : list A) : interleaved [] b c -> c = b.
  Proof. remember [] as a. intros H. revert Heqa. induction H; intros; subst; auto; try discriminate. f_equal. auto. Qed.
  Lemma waited_perm (ss : list (started CB)) : exists rest,
    Permutation (map (st_inv CB) (filter (st_async CB) ss) ++ fst (waited CB ss) ++ rest) (map (st_inv CB) ss) /\ (snd (waited CB ss) = None -> rest = []).
  Proof.
    induction ss as [|s ss [rest [P N]]]; simpl; [exists []; auto|]. destruct s as [b i t]; simpl. destruct t as [e|]; simpl.
    - exists (map (st_inv CB) (filter (fun s => negb (st_async CB s)) ss)). split; [|discriminate].
      assert (X : Permutation (map (st_inv CB) (filter (st_async CB) ss) ++ map (st_inv CB) (filter (fun s => negb (st_async CB s)) ss)) (map (st_inv CB) ss)).
      { clear. induction ss as [|[b i t] ss IH]; simpl; auto. destruct b; simpl; [constructor; auto|]. symmetry. apply Permutation_cons_app. now symmetry. }
      destruct b; simpl; [constructor; exact X|]. symmetry. apply Permutation_cons_app. now symmetry.
    - destruct (waited CB ss) as [is e] eqn:W. simpl in *. exists rest. split; auto. destruct b; simpl; [constructor; exact P|].
      symmetry. apply Permutation_cons_app. now symmetry.
  Qed.
  Lemma waited_prefix (ss : list (started CB)) : Forall (fun s => st_async CB s = false) ss -> exists rest,
    map (st_inv CB) ss = fst (waited CB ss) ++ rest /\ (snd (waited CB ss) = None -> rest = []).
  Proof.
    induction 1 as [|[b i t] ss E F [rest [P N]]]; simpl; [exists []; auto|]. simpl in E. subst b. destruct t as [e|]; simpl.
    - exists (map (st_inv CB) ss). split; auto. discriminate.
    - destruct (waited CB ss) as [is e] eqn:W. simpl in *. exists rest. split; auto. now rewrite P.
  Qed.

  Lemma calls_back_all l is out log final : calls_back CB l is out log final -> exists rest, Permutation (log ++ rest) is /\
    (final = Ok tt -> out = Ok tt /\ rest = []) /\ (l = LDeferred -> is = log ++ rest).
  Proof.
    intros [ss [asyncs [Ei [Ml [Pa Out]]]]]. destruct (waited_perm ss) as [rest [P N]]. rewrite Ei in P.
    assert (D : l = LDeferred -> asyncs = [] /\ Forall (fun s => st_async CB s = false) ss).
    { intros ->. assert (F : Forall (fun s => st_async CB s = false) ss).
      { apply Forall_forall. intros s I. destruct (st_async CB s) eqn:A; auto. destruct (Ml s I) as [M _]. specialize (M A). congruence. }
      split; auto. replace (filter (st_async CB) ss) with (@nil (started CB)) in Pa; [apply Permutation_sym, Permutation_nil in Pa; exact Pa|].
      clear -F. induction F as [|s ss E F IH]; simpl; auto. now rewrite E. }
    destruct out as [[]|e|].
    - destruct Out as [Il Fi]. destruct l; [|exists rest..].
      + destruct (D eq_refl) as [-> F]. apply interleaved_nil in Il. subst log. destruct (waited_prefix _ F) as [rest' [Q N']].
        exists rest'. rewrite Ei in Q. split; [now rewrite Q|]. split; [|auto]. intros E. split; auto. apply N'.
        destruct (snd (waited CB ss)); [rewrite E in Fi; discriminate|reflexivity].
      + split; [|split; [|discriminate]].
        * rewrite <- P, <- (interleaved_perm _ _ _ Il), <- app_assoc, Pa. reflexivity.
        * intros E. split; auto. apply N. destruct (snd (waited CB ss)); [rewrite E in Fi; discriminate|reflexivity].
      + split; [|split; [|discriminate]].
        * rewrite <- P, <- (interleaved_perm _ _ _ Il), <- app_assoc, Pa. reflexivity.
        * intros E. split; auto. apply N. destruct (snd (waited CB ss)); [rewrite E in Fi; discriminate|reflexivity].
    - destruct Out as [-> ->]. destruct l; [exists is|exists (fst (waited CB ss) ++ rest)..].
      + destruct (D eq_refl) as [-> F]. split; auto. split; [discriminate|auto].
      + split; [now rewrite Pa|]. split; discriminate.
      + split; [now rewrite Pa|]. split; discriminate.
    - destruct Out as [-> ->]. destruct l; [exists is|exists (fst (waited CB ss) ++ rest)..].
      + destruct (D eq_refl) as [-> F]. split; auto. split; [discriminate|auto].
      + split; [now rewrite Pa|]. split; discriminate.
      + split; [now rewrite Pa|]. split; discriminate.
  Qed.

  (** the recipients, from the registry *)
  Lemma recipients_of (h : list (call O CB * answered CB)) r L name f : Forall plain_call h -> follows h r L -> name <> "" ->
    recipients default_types h name f (rsel (fst (filters_of f)) (snd (filters_of f)) name (live h) L).
  Proof.
    intros P Fo N. pose proof (fo_live _ _ _ Fo) as F. split; [apply rsel_sorted; auto; apply (ho_sorted _ _ _ (fo_holds _ _ _ Fo))|].
    intros k s. rewrite (rsel_In _ _ _ _ _ F). split.
    - intros [[k' reg] [I [E R]]]. simpl in *. pose proof (in_combine_l _ _ _ _ I) as Il. split; auto.
      assert (Rg : registered s reg). { clear -F I. induction F as [|a b S L [E R] F IH]; simpl in I; [destruct I|]. destruct I as [I|I]; auto. injection I as -> ->. exact R. }
      destruct (registered_listens _ _ (live_plain _ P _ _ Il) Rg) as [_ [_ [[n [es [ds [Nn [Li [Ef [Ea Ed]]]]]]]|[Ef _]]]]; [|congruence].
      rewrite E in Ef. subst n. exists es, ds. split; auto. unfold reaches in R. rewrite Ea, Ed in R. simpl in R.
      destruct (all_match (fst (filters_of f)) es) as [[]| |] eqn:A1; simpl in R; try discriminate. split; now apply all_match_accepts.
    - intros [Il [es [ds [Li [A1 A2]]]]].
      assert (X : exists reg, In (k, s, (k, reg)) (combine (live h) L) /\ registered s reg).
      { clear -F Il. induction F as [|[k1 s1] [k2 r2] S L [E R] F IH]; simpl in *; [destruct Il|]. subst k2. destruct Il as [Il|Il].
        - injection Il as -> ->. exists r2. auto.
        - destruct (IH Il) as [reg [I Rg]]. eauto. }
      destruct X as [reg [I Rg]]. exists (k, reg). split; auto. simpl.
      destruct (registered_listens _ _ (live_plain _ P _ _ Il) Rg) as [_ [_ [[n [es' [ds' [Nn [Li' [Ef [Ea Ed]]]]]]]|[_ [_ No]]]]]; [|exfalso; eapply No; eauto].
      destruct (listens_fun _ _ _ _ _ _ _ (live_plain _ P _ _ Il) Li Li') as [<- [<- <-]]. split; auto.
      unfold reaches. rewrite Ea, Ed. simpl. apply all_match_accepts in A1, A2. rewrite A1. simpl. exact A2.
  Qed.

  Lemma holds_found r L : holds CB r L -> forall kr, In kr L -> smap_find N.ltb (subscriptions CB r) (fst kr) = Some (snd kr).
  Proof. intros H [k reg] I. now apply (find_subs_some CB _ _ _ _ H). Qed.

  Lemma rsel_no_keys fA fD name S L : keys_of CB name L = [] -> rsel fA fD name S L = [].
  Proof.
    unfold keys_of. revert S. induction L as [|kr L IH]; intros [|ks S]; simpl; auto. destruct (String.eqb (g_field CB (snd kr)) name); simpl; [discriminate|auto].
  Qed.

  Lemma delivery h r L l name f object log final : Forall plain_call h -> follows h r L ->
    delivers O roots CB (resolving CSubscription l) l name (fst (filters_of f)) (snd (filters_of f)) object r log final ->
    exists rest, Permutation (map who log ++ rest) (map who_is (rsel (fst (filters_of f)) (snd (filters_of f)) name (live h) L)) /\
      (final = Ok tt -> rest = []) /\
      (l = LDeferred -> map who_is (rsel (fst (filters_of f)) (snd (filters_of f)) name (live h) L) = map who log ++ rest).
  Proof.
    intros P Fo D. pose proof (fo_holds _ _ _ Fo) as H. pose proof (fo_live _ _ _ Fo) as F.
    set (rs := rsel _ _ _ _ _). inversion D as [R|R Eo|default o R Eo Fl|default o keys is out log' final' R Eo Fl C Cb]; subst.
    - exists (map who_is rs). split; auto. split; [discriminate|auto].
    - exists (map who_is rs). split; auto. split; [discriminate|auto].
    - exists []. rewrite (ho_listeners _ _ _ H) in Fl. destruct (keys_of CB name L) eqn:K; [|discriminate].
      unfold rs. rewrite rsel_no_keys by auto. simpl. auto.
    - rewrite (ho_listeners _ _ _ H) in Fl. assert (K : keys = keys_of CB name L) by (destruct (keys_of CB name L); congruence). subst keys.
      destruct (collects_prefix _ _ _ _ _ _ _ _ F (fun ks I => live_plain _ P (fst ks) (snd ks) (eq_ind _ (fun x => In x (live h)) I _ (surjective_pairing ks))) (holds_found _ _ H) _ _ C) as [rest [E N]].
      destruct (calls_back_all _ _ _ _ _ Cb) as [rest' [E' [N' D']]]. exists (map who rest' ++ rest). fold rs in E. split; [|split].
      + rewrite E, app_assoc, <- map_app. apply Permutation_app_tail. now apply Permutation_map.
      + intros X. destruct (N' X) as [X1 ->]. rewrite (N X1). reflexivity.
      + intros X. rewrite E, (D' X), map_app, app_assoc. reflexivity.
  Qed.
End History.
