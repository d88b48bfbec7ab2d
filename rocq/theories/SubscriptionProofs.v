(** Proofs about subscriptions: the visitor and the registry. *)
From Coq Require Import Permutation Sorting.Sorted.
From Verif Require Import Cpp Value Ast ErrorModel SortedMapModel SortedMapSpec SortedMapProofs ExecModel ExecSem ExecSpec ExecValues ExecCalls2
  ExecRequest2 SubscriptionModel SubscriptionSpec.
Local Open Scope string_scope.
Local Open Scope list_scope.

(** ** The visitor *)
Lemma skip_argument_seen dn args b s : skip_argument dn args (Some b) = Ok s -> args = [] /\ s = Some b.
Proof. destruct args as [|[k v] r]; simpl; [intros H; injection H as <-; auto|discriminate]. Qed.
Lemma skip_argument_one dn args b : skip_argument dn args None = Ok (Some b) -> args = [("if", VBool b)].
Proof.
  destruct args as [|[k v] r]; simpl; [discriminate|]. destruct v; try discriminate.
  destruct (String.eqb_spec k "if"); [|discriminate]. intros H. apply skip_argument_seen in H as [-> H]. injection H as ->. subst. reflexivity.
Qed.
Lemma should_skip_dropped ds : should_skip ds = Ok true -> dropped ds.
Proof.
  unfold should_skip, dropped, condition. simpl. destruct (lookup "skip" ds) as [v|] eqn:Es.
  - destruct v as [args| | | | | | | |]; try discriminate. destruct (skip_argument "skip" args None) as [[[]|]| |] eqn:Ea; simpl; try discriminate.
    intros _. left. now rewrite (skip_argument_one _ _ _ Ea).
  - destruct (lookup "include" ds) as [v|] eqn:Ei; [|discriminate].
    destruct v as [args| | | | | | | |]; try discriminate. destruct (skip_argument "include" args None) as [[[]|]| |] eqn:Ea; simpl; try discriminate.
    intros _. right. split; auto. now rewrite (skip_argument_one _ _ _ Ea).
Qed.

Section Visitor.
  Variable O : Type.
  Variable typenames : O -> list string.
  Variable given : entries.
  Hypothesis Hc : copyable given.

  Lemma dirs_ok dirs ds : visit_directives (VMap given) dirs [] = Ok ds -> dirs_value given (named_only dirs) ds.
  Proof. rewrite visit_directives_named. intros H. apply dirs_value_iff; auto. apply named_only_named. Qed.

  Lemma matches_In o t : matches_type O typenames o t = true <-> In t (typenames o).
  Proof.
    unfold matches_type. rewrite existsb_exists. split.
    - intros [x [I E]]. apply String.eqb_eq in E. now subst.
    - intros I. exists t. split; auto. apply String.eqb_refl.
  Qed.
  Lemma matches_not_In o t : matches_type O typenames o t = false <-> ~ In t (typenames o).
  Proof. rewrite <- matches_In. destruct (matches_type O typenames o t); split; congruence. Qed.

  Lemma sub_inside_ok sel st st' : sub_inside sel st = Ok st' -> sel = [] /\ st' = st.
  Proof. destruct sel; simpl; [intros H; injection H as <-; auto|discriminate]. Qed.

  Lemma sub_spread_ok object frags loc n dirs st st' :
    sub_spread O typenames object (VMap given) frags loc n dirs st = Ok st' ->
    st' = st /\ no_effect given frags (option_map typenames object) (SSpread loc n dirs).
  Proof.
    unfold sub_spread. destruct (find_fragment n frags) as [fr|] eqn:F; [|discriminate]. destruct object as [o|]; [|discriminate].
    destruct (matches_type O typenames o (fr_type fr)) eqn:M.
    - apply matches_In in M. destruct (visit_directives (VMap given) dirs []) as [ds| |] eqn:D; simpl; try discriminate. apply dirs_ok in D.
      destruct (should_skip ds) as [[]| |] eqn:S; simpl; try discriminate; intros H.
      + injection H as <-. split; auto. eapply ne_spread_dropped; eauto. now apply should_skip_dropped.
      + apply sub_inside_ok in H as [E ->]. split; auto. eapply ne_spread_empty; eauto. now apply should_skip_not_dropped.
    - apply matches_not_In in M. intros H. injection H as <-. split; auto. eapply ne_spread_type; eauto. reflexivity.
  Qed.

  Lemma sub_inline_ok object frags loc c dirs sel st st' :
    sub_inline O typenames object (VMap given) c dirs sel st = Ok st' ->
    st' = st /\ no_effect given frags (option_map typenames object) (SInline loc c dirs sel).
  Proof.
    unfold sub_inline. destruct (visit_directives (VMap given) dirs []) as [ds| |] eqn:D; simpl; try discriminate. apply dirs_ok in D.
    destruct (should_skip ds) as [[]| |] eqn:S; simpl; try discriminate; intros H.
    - injection H as <-. split; auto. eapply ne_inline_dropped; eauto. now apply should_skip_dropped.
    - apply should_skip_not_dropped in S. destruct c as [[l t]|].
      + destruct object as [o|]; [|discriminate]. destruct (matches_type O typenames o t) eqn:M.
        * apply matches_In in M. apply sub_inside_ok in H as [-> ->]. split; auto.
          eapply ne_inline_empty with (types := typenames o); eauto. intros l' t' E. injection E as <- <-. split; auto.
        * apply matches_not_In in M. injection H as <-. split; auto. eapply ne_inline_type; eauto. reflexivity.
      + apply sub_inside_ok in H as [-> ->]. split; auto. eapply ne_inline_empty with (types := []); eauto. discriminate.
  Qed.


  Lemma sub_selections_full object frags sels : forall st st', rf_name st <> "" ->
    sub_selections O typenames object (VMap given) frags sels st = Ok st' ->
    st' = st /\ Forall (no_effect given frags (option_map typenames object)) sels.
  Proof.
    induction sels as [|s sels IH]; simpl; intros st st' N H; [injection H as <-; auto|].
    destruct s as [loc al n args dirs sub|loc n dirs|loc c dirs sel].
    - unfold sub_field in H. destruct (String.eqb_spec (rf_name st) ""); [contradiction|]. simpl in H. discriminate.
    - destruct (sub_spread _ _ _ _ _ _ _ _ _) as [st1| |] eqn:E; simpl in H; try discriminate.
      apply sub_spread_ok in E as [-> E]. apply IH in H as [-> H]; auto.
    - destruct (sub_inline _ _ _ _ _ _ _ _) as [st1| |] eqn:E; simpl in H; try discriminate.
      eapply sub_inline_ok with (frags := frags) (loc := loc) in E as [-> E]. apply IH in H as [-> H]; auto.
  Qed.

  Lemma sub_selections_root object frags sels : forall st', named_root sels ->
    sub_selections O typenames object (VMap given) frags sels no_root_field = Ok st' ->
    (st' = no_root_field /\ no_root_field_in given frags (option_map typenames object) sels) \/
    exists n es ds, n <> "" /\ st' = mkRF n (VMap es) (VMap ds) /\ root_field_is given frags (option_map typenames object) sels n es ds.
  Proof.
    induction sels as [|s sels IH]; intros st' FN H; [simpl in H; injection H as <-; left; split; auto; constructor|].
    assert (FN' : named_root sels) by (intros l a b c d I; eapply FN; right; eauto).
    assert (K : forall st1, (dropped_field given s \/ no_effect given frags (option_map typenames object) s) -> st1 = no_root_field ->
                sub_selections O typenames object (VMap given) frags sels st1 = Ok st' ->
      (st' = no_root_field /\ no_root_field_in given frags (option_map typenames object) (s :: sels)) \/
      exists n es ds, n <> "" /\ st' = mkRF n (VMap es) (VMap ds) /\ root_field_is given frags (option_map typenames object) (s :: sels) n es ds).
    { intros st1 D -> E. destruct (IH _ FN' E) as [[-> X]|[n [es [ds [N [-> [before [loc [al [args [dirs [sub [after [-> [B [A R]]]]]]]]]]]]]]]].
      - left. split; auto. constructor; auto.
      - right. exists n, es, ds. split; [exact N|]. split; auto. exists (s :: before), loc, al, args, dirs, sub, after. split; auto. }
    cbn [sub_selections] in H. destruct s as [loc al n args dirs sub|loc n dirs|loc c dirs sel].
    - unfold sub_field in H. simpl in H. destruct (visit_directives (VMap given) dirs []) as [ds| |] eqn:D; simpl in H; try discriminate. apply dirs_ok in D.
      destruct (should_skip ds) as [[]| |] eqn:S; simpl in H; try discriminate.
      + eapply K; [|reflexivity|exact H]. left. do 7 eexists. split; [reflexivity|]. split; [exact D|]. now apply should_skip_dropped.
      + destruct (visit_arguments (VMap given) args []) as [es| |] eqn:A; simpl in H; try discriminate. apply args_value_iff in A; auto.
        assert (N : n <> "") by (intros ->; eapply FN; left; reflexivity).
        eapply sub_selections_full in H as [-> F]; [|exact N]. right. exists n, es, ds. split; [exact N|]. split; auto.
        exists [], loc, al, args, dirs, sub, sels. split; auto. split; [constructor|]. split; [exact F|]. split; [exact D|].
        split; [now apply should_skip_not_dropped|exact A].
    - destruct (sub_spread _ _ _ _ _ _ _ _ _) as [st1| |] eqn:E; simpl in H; try discriminate.
      apply sub_spread_ok in E as [-> E]. eapply K; [right; exact E|reflexivity|exact H].
    - destruct (sub_inline _ _ _ _ _ _ _ _) as [st1| |] eqn:E; simpl in H; try discriminate.
      eapply sub_inline_ok with (frags := frags) (loc := loc) in E as [-> E]. eapply K; [right; exact E|reflexivity|exact H].
  Qed.
End Visitor.

(** ** Sorted vectors *)
Lemma sorted_perm_eq {E K} (key : E -> K) (comp : K -> K -> bool) : strict_total comp -> forall a b,
  sorted key comp a -> sorted key comp b -> Permutation a b -> a = b.
Proof.
  intros Hst. induction a as [|x a IH]; intros b Sa Sb P; [apply Permutation_nil in P; now subst|].
  destruct b as [|y b]; [symmetry in P; apply Permutation_nil in P; discriminate|].
  inversion Sa as [|? ? Sa' Fa]; subst. inversion Sb as [|? ? Sb' Fb]; subst. rewrite Forall_forall in Fa, Fb.
  assert (X : x = y).
  { assert (I : In x (y :: b)) by (eapply Permutation_in; [exact P|left; reflexivity]).
    assert (J : In y (x :: a)) by (eapply Permutation_in; [symmetry; exact P|left; reflexivity]).
    destruct I as [I|I]; auto. destruct J as [J|J]; auto. specialize (Fa _ J). specialize (Fb _ I).
    rewrite (st_asym _ Hst _ _ Fa) in Fb. discriminate. }
  subst y. f_equal. apply IH; auto. now apply Permutation_cons_inv in P.
Qed.

Lemma a_find_set {K V} (keq : forall a b : K, {a = b} + {a <> b}) (m : list (K * V)) k v k' :
  a_find keq (a_set keq m k v) k' = if keq k' k then Some v else a_find keq m k'.
Proof.
  induction m as [|[k1 v1] m IH]; simpl.
  - destruct (keq k' k); auto.
  - destruct (keq k k1) as [<-|]; simpl.
    + destruct (keq k' k); auto.
    + destruct (keq k' k1) as [->|]; [destruct (keq k1 k); [subst; congruence|auto]|exact IH].
Qed.
Lemma a_find_erase {K V} (keq : forall a b : K, {a = b} + {a <> b}) (m : list (K * V)) k k' :
  a_find keq (a_erase keq m k) k' = if keq k' k then None else a_find keq m k'.
Proof.
  induction m as [|[k1 v1] m IH]; simpl; [destruct (keq k' k); auto|].
  destruct (keq k k1) as [<-|]; simpl.
  - rewrite IH. destruct (keq k' k); auto.
  - rewrite IH. destruct (keq k' k1) as [->|]; auto. destruct (keq k1 k); [subst; congruence|auto].
Qed.

(** std::map operations on sorted vectors, by what they find *)
Section MapOps.
  Context {K V : Type} (comp : K -> K -> bool) (Hst : strict_total comp) (keq : forall a b : K, {a = b} + {a <> b}).
  Notation srt := (sorted (@fst K V) comp).
  Lemma find_assign default (m : list (K * V)) k v k' : srt m ->
    srt (smap_assign comp default m k v) /\
    smap_find comp (smap_assign comp default m k v) k' = if keq k' k then Some v else smap_find comp m k'.
  Proof.
    intros S. destruct (smap_assign_ok comp Hst default keq m k v S) as [S' P]. split; auto.
    rewrite !(smap_find_ok comp Hst keq) by auto. rewrite (a_find_perm keq _ _ k' (sorted_nodup fst comp Hst _ S') P). apply a_find_set.
  Qed.
  Lemma find_erase (m : list (K * V)) k k' : srt m ->
    srt (smap_erase comp m k) /\ smap_find comp (smap_erase comp m k) k' = if keq k' k then None else smap_find comp m k'.
  Proof.
    intros S. destruct m as [|[k0 v0] m0] eqn:Em.
    { simpl. split; auto. unfold smap_erase, smap_find. simpl. destruct (keq k' k); auto. }
    rewrite <- Em in *. clear Em m0 k0. pose proof (Rmap_step comp Hst v0 keq m m (OErase k) (conj S (Permutation_refl _))) as [_ [S' P]]. simpl in S', P.
    split; auto. rewrite !(smap_find_ok comp Hst keq) by auto. rewrite (a_find_perm keq _ _ k' (sorted_nodup fst comp Hst _ S') P). apply a_find_erase.
  Qed.
  Lemma erase_filter (m : list (K * V)) k : srt m ->
    smap_erase comp m k = filter (fun kv => if keq k (fst kv) then false else true) m.
  Proof.
    intros S. destruct m as [|[k0 v0] m0] eqn:Em; [reflexivity|]. rewrite <- Em in *. clear Em m0 k0.
    pose proof (Rmap_step comp Hst v0 keq m m (OErase k) (conj S (Permutation_refl _))) as [_ [S' P]]. simpl in S', P.
    apply (sorted_perm_eq fst comp Hst); auto. clear -S. unfold sorted in *. induction m as [|x m IH]; simpl; [constructor|].
    inversion S as [|? ? S' F]; subst. destruct (keq k (fst x)); auto. constructor; auto. apply Forall_forall. intros y I.
    apply filter_In in I. rewrite Forall_forall in F. apply F. tauto.
  Qed.
  Lemma emplace_last (m : list (K * V)) k v : srt m -> (forall e, In e m -> comp (fst e) k = true) -> smap_emplace comp m k v = (m ++ [(k, v)], true).
  Proof.
    intros S L. assert (N : ~ In k (map fst m)).
    { intros I. apply in_map_iff in I as [e [<- I]]. specialize (L _ I). rewrite (st_irrefl _ Hst) in L. discriminate. }
    unfold smap_emplace. destruct (emplace_absent fst comp Hst m (k, v) S N) as [l1 [l2 [-> [E S']]]]. simpl in E. rewrite E. f_equal.
    apply (sorted_perm_eq fst comp Hst); auto.
    - apply sorted_app. split; [exact S|]. split; [constructor; constructor|]. intros a b Ia [<-|[]]. apply L. exact Ia.
    - rewrite <- Permutation_middle. apply Permutation_cons_append.
  Qed.
End MapOps.

Lemma key_add_last (s : list N) k : sorted (fun x => x) N.ltb s -> (forall x, In x s -> (x < k)%N) -> key_add k s = s ++ [k].
Proof.
  intros S L. assert (N : ~ In k (map (fun x => x) s)). { rewrite map_id. intros I. specialize (L _ I). lia. }
  unfold key_add. destruct (emplace_absent (fun x => x) N.ltb N_lt_strict s k S N) as [l1 [l2 [-> [E S']]]]. rewrite E. simpl.
  apply (sorted_perm_eq (fun x => x) N.ltb N_lt_strict); auto.
  - apply sorted_app. split; [exact S|]. split; [constructor; constructor|]. intros a b Ia [<-|[]]. apply N.ltb_lt. apply L. exact Ia.
  - rewrite <- Permutation_middle. apply Permutation_cons_append.
Qed.
Lemma key_erase_filter (s : list N) k : sorted (fun x => x) N.ltb s -> key_erase k s = filter (fun x => negb (N.eqb x k)) s.
Proof.
  intros S. pose proof (Rset_step N.ltb N_lt_strict N.eq_dec s s (SErase k) (conj S (Permutation_refl _))) as [_ [S' P]].
  fold (key_erase k s) in S', P.
  assert (E : filter (fun x => if N.eq_dec k x then false else true) s = filter (fun x => negb (N.eqb x k)) s).
  { apply filter_ext. intros x. destruct (N.eq_dec k x), (N.eqb_spec x k); auto; congruence. }
  simpl in P. rewrite E in P. apply (sorted_perm_eq (fun x => x) N.ltb N_lt_strict); auto. clear -S. unfold sorted in *.
  induction s as [|x s IH]; simpl; [constructor|]. inversion S as [|? ? S' F]; subst. destruct (N.eqb x k); simpl; auto.
  constructor; auto. apply Forall_forall. intros y I. apply filter_In in I. rewrite Forall_forall in F. apply F. tauto.
Qed.

(** ** The registry *)
Section Registry.
  Variable CB : Type.
  Notation registration := (registration CB).
  Notation registry := (registry CB).

  Definition keys_of (f : string) (L : list (N * registration)) : list N :=
    map fst (filter (fun kr => String.eqb (g_field CB (snd kr)) f) L).
  (** The registry holds exactly [L], in key order. *)
  Record holds (r : registry) (L : list (N * registration)) : Prop := {
    ho_subs : subscriptions CB r = L;
    ho_sorted : sorted fst N.ltb L;
    ho_below : forall k reg, In (k, reg) L -> (k < size_t_max)%N;
    ho_lsorted : sorted fst string_lt (listeners CB r);
    ho_listeners : forall f, smap_find string_lt (listeners CB r) f = match keys_of f L with [] => None | ks => Some ks end;
    ho_next : next_key CB r = match last_key CB L with None => 0%N | Some k => size_t_succ k end }.

  Lemma holds_new : holds (no_subscriptions CB) [].
  Proof. constructor; simpl; auto; try constructor. contradiction. Qed.

  Lemma last_key_app L k reg : last_key CB (L ++ [(k, reg)]) = Some k.
  Proof. unfold last_key. rewrite rev_app_distr. reflexivity. Qed.
  Lemma last_key_max L k : sorted fst N.ltb L -> last_key CB L = Some k -> (exists reg, In (k, reg) L) /\ forall k' reg', In (k', reg') L -> (k' <= k)%N.
  Proof.
    unfold last_key. intros S. rewrite <- (rev_involutive L) in S |- *. rewrite rev_involutive. destruct (rev L) as [|[k0 reg0] M]; [discriminate|].
    intros E. injection E as ->. simpl in *. apply sorted_app in S as [S1 [_ S2]]. split.
    - exists reg0. apply in_or_app. simpl. auto.
    - intros k' reg' I. apply in_app_or in I as [I|[I|[]]]; [|injection I as <-; lia].
      specialize (S2 _ _ I (or_introl eq_refl)). simpl in S2. apply N.ltb_lt in S2. lia.
  Qed.
  Lemma last_key_none L : last_key CB L = None -> L = [].
  Proof.
    unfold last_key. destruct (rev L) as [|[k r] M] eqn:E; [|discriminate]. intros _. rewrite <- (rev_involutive L), E. reflexivity.
  Qed.

  (** The next key, while there is one. *)
  Lemma next_fresh r L k : holds r L -> next_key CB r = k -> (forall k', last_key CB L = Some k' -> (k' + 1 < size_t_max)%N) ->
    (k < size_t_max)%N /\ (forall k' reg, In (k', reg) L -> (k' < k)%N) /\ (L = [] /\ k = 0%N \/ exists k', last_key CB L = Some k' /\ k = (k' + 1)%N).
  Proof.
    intros H <- B. rewrite (ho_next _ _ H). destruct (last_key CB L) as [k'|] eqn:E.
    - specialize (B _ eq_refl). unfold size_t_succ. rewrite N.mod_small by lia. split; [lia|]. split.
      + intros k'' reg I. destruct (last_key_max _ _ (ho_sorted _ _ H) E) as [_ M]. specialize (M _ _ I). lia.
      + right. eauto.
    - apply last_key_none in E. subst. split; [reflexivity|]. split; [contradiction|auto].
  Qed.

  Lemma keys_of_app f L k reg : keys_of f (L ++ [(k, reg)]) = if String.eqb (g_field CB reg) f then keys_of f L ++ [k] else keys_of f L.
  Proof.
    unfold keys_of. rewrite filter_app. simpl. destruct (String.eqb (g_field CB reg) f); simpl; rewrite map_app; simpl; auto using app_nil_r.
  Qed.
  Lemma keys_of_In f L k : In k (keys_of f L) <-> exists reg, In (k, reg) L /\ g_field CB reg = f.
  Proof.
    unfold keys_of. rewrite in_map_iff. split.
    - intros [[k' reg] [<- I]]. apply filter_In in I as [I E]. simpl in E. apply String.eqb_eq in E. eauto.
    - intros [reg [I E]]. exists (k, reg). split; auto. apply filter_In. split; auto. simpl. now apply String.eqb_eq.
  Qed.
  Lemma sorted_filter (p : N * registration -> bool) L : sorted fst N.ltb L -> sorted fst N.ltb (filter p L).
  Proof.
    unfold sorted. induction L as [|x L IH]; simpl; intros S; [constructor|]. inversion S as [|? ? S' F]; subst.
    destruct (p x); auto. constructor; auto. apply Forall_forall. intros y I. apply filter_In in I. rewrite Forall_forall in F. apply F. tauto.
  Qed.
  Lemma sorted_keys L : sorted fst N.ltb L -> sorted (fun x => x) N.ltb (map (@fst N registration) L).
  Proof.
    unfold sorted. induction L as [|x L IH]; simpl; intros S; [constructor|]. inversion S as [|? ? S' F]; subst. constructor; auto.
    apply Forall_forall. intros y I. apply in_map_iff in I as [z [<- I]]. rewrite Forall_forall in F. now apply F.
  Qed.

  Lemma add_holds r L reg k r' : holds r L -> (forall k', last_key CB L = Some k' -> (k' + 1 < size_t_max)%N) ->
    add_registration CB reg r = (k, r') -> holds r' (L ++ [(k, reg)]) /\ ~ In k (map fst L) /\
    (L = [] /\ k = 0%N \/ exists k', last_key CB L = Some k' /\ k = (k' + 1)%N).
  Proof.
    intros H B E. unfold add_registration in E. injection E as Ek <-.
    destruct (next_fresh _ _ _ H Ek B) as [Bk [Lt Next]]. rewrite Ek.
    assert (NI : ~ In k (map fst L)). { intros I. apply in_map_iff in I as [[k' reg'] [Ek' I]]. simpl in Ek'. subst k'. specialize (Lt _ _ I). lia. }
    split; [|split; auto].
    assert (Cur : match smap_find string_lt (listeners CB r) (g_field CB reg) with Some s => s | None => [] end = keys_of (g_field CB reg) L).
    { rewrite (ho_listeners _ _ H). destruct (keys_of _ L); auto. }
    rewrite Cur. assert (Add : key_add k (keys_of (g_field CB reg) L) = keys_of (g_field CB reg) L ++ [k]).
    { apply key_add_last.
      - unfold keys_of. apply sorted_keys, sorted_filter, (ho_sorted _ _ H).
      - intros x I. apply keys_of_In in I as [reg' [I _]]. eauto. }
    rewrite Add. constructor; cbn [subscriptions listeners next_key].
    - rewrite (ho_subs _ _ H). rewrite (emplace_last N.ltb N_lt_strict); [reflexivity|apply (ho_sorted _ _ H)|].
      intros [k' reg'] I. apply N.ltb_lt. simpl. eauto.
    - apply sorted_app. split; [apply (ho_sorted _ _ H)|]. split; [constructor; constructor|].
      intros [k' reg'] y I [<-|[]]. simpl. apply N.ltb_lt. eauto.
    - intros k' reg' I. apply in_app_or in I as [I|[I|[]]]; [eapply (ho_below _ _ H); eauto|]. injection I as <- _. auto.
    - apply (find_assign string_lt string_lt_strict string_dec _ _ _ _ ""), (ho_lsorted _ _ H).
    - intros f. destruct (find_assign string_lt string_lt_strict string_dec [] (listeners CB r) (g_field CB reg) (keys_of (g_field CB reg) L ++ [k]) f (ho_lsorted _ _ H)) as [_ ->].
      rewrite keys_of_app. destruct (string_dec f (g_field CB reg)) as [->|Nf].
      + rewrite String.eqb_refl. destruct (keys_of (g_field CB reg) L ++ [k]) eqn:X; auto. destruct (keys_of (g_field CB reg) L); discriminate.
      + destruct (String.eqb_spec (g_field CB reg) f); [congruence|]. apply (ho_listeners _ _ H).
    - now rewrite last_key_app.
  Qed.

  Definition without (k : N) (L : list (N * registration)) : list (N * registration) := filter (fun kr => negb (N.eqb (fst kr) k)) L.

  Lemma keys_of_without f k L : keys_of f (without k L) = filter (fun x => negb (N.eqb x k)) (keys_of f L).
  Proof.
    unfold keys_of, without. induction L as [|[k' reg] L IH]; simpl; auto.
    destruct (N.eqb k' k) eqn:E; simpl; destruct (String.eqb (g_field CB reg) f); simpl; rewrite ?E; simpl; rewrite IH; auto.
  Qed.
  Lemma find_subs r L k : holds r L -> smap_find N.ltb (subscriptions CB r) k = a_find N.eq_dec L k.
  Proof. intros H. rewrite (ho_subs _ _ H). apply smap_find_ok; [apply N_lt_strict|apply (ho_sorted _ _ H)]. Qed.
  Lemma find_subs_some r L k reg : holds r L -> smap_find N.ltb (subscriptions CB r) k = Some reg <-> In (k, reg) L.
  Proof.
    intros H. rewrite (find_subs _ _ _ H). split; [apply a_find_some|]. apply a_find_in. apply (sorted_nodup fst N.ltb N_lt_strict), (ho_sorted _ _ H).
  Qed.
  Lemma find_subs_none r L k : holds r L -> smap_find N.ltb (subscriptions CB r) k = None <-> ~ In k (map fst L).
  Proof. intros H. rewrite (find_subs _ _ _ H). apply a_find_none. Qed.
  Lemma without_absent k L : ~ In k (map fst L) -> without k L = L.
  Proof.
    induction L as [|[k' reg] L IH]; simpl; intros N; auto. destruct (N.eqb_spec k' k); [subst; tauto|]. simpl. f_equal. apply IH. tauto.
  Qed.

  Lemma unsubscribe_holds r L k : holds r L -> exists r', unsubscribe CB k r = Ok r' /\ holds r' (without k L).
  Proof.
    intros H. unfold unsubscribe. destruct (smap_find N.ltb (subscriptions CB r) k) as [reg|] eqn:F.
    2:{ apply (find_subs_none _ _ _ H) in F. exists r. split; auto. now rewrite without_absent. }
    apply (find_subs_some _ _ _ _ H) in F. set (f := g_field CB reg).
    assert (I : In k (keys_of f L)) by (apply keys_of_In; exists reg; auto).
    assert (A : smap_at string_lt (listeners CB r) f = Ok (keys_of f L)).
    { rewrite (smap_at_ok string_lt string_lt_strict string_dec) by apply (ho_lsorted _ _ H).
      rewrite <- (smap_find_ok string_lt string_lt_strict string_dec) by apply (ho_lsorted _ _ H). rewrite (ho_listeners _ _ H).
      destruct (keys_of f L); [destruct I|reflexivity]. }
    rewrite A. cbn [bind]. eexists. split; [reflexivity|].
    assert (Ks : key_erase k (keys_of f L) = keys_of f (without k L)).
    { rewrite keys_of_without. apply key_erase_filter. unfold keys_of. apply sorted_keys, sorted_filter, (ho_sorted _ _ H). }
    rewrite Ks.
    assert (Es : smap_erase N.ltb (subscriptions CB r) k = without k L).
    { rewrite (ho_subs _ _ H), (erase_filter N.ltb N_lt_strict N.eq_dec) by apply (ho_sorted _ _ H). unfold without. apply filter_ext.
      intros [k' r']. simpl. destruct (N.eq_dec k k'), (N.eqb_spec k' k); auto; congruence. }
    assert (Other : forall g, g <> f -> keys_of g (without k L) = keys_of g L).
    { intros g Ng. rewrite keys_of_without. assert (NI : ~ In k (keys_of g L)).
      { intros X. apply keys_of_In in X as [reg' [X Eg]]. assert (reg' = reg); [|subst; contradiction].
        pose proof (proj2 (find_subs_some _ _ _ _ H) X). pose proof (proj2 (find_subs_some _ _ _ _ H) F). congruence. }
      clear -NI. induction (keys_of g L) as [|x l IH]; simpl in *; auto. destruct (N.eqb_spec x k); [subst; tauto|]. simpl. f_equal. apply IH. tauto. }
    destruct (find_assign string_lt string_lt_strict string_dec [] (listeners CB r) f (keys_of f (without k L)) f (ho_lsorted _ _ H)) as [Sl _].
    constructor; cbn [subscriptions listeners next_key].
    - exact Es.
    - apply sorted_filter, (ho_sorted _ _ H).
    - intros k' reg' J. apply filter_In in J as [J _]. eapply (ho_below _ _ H); eauto.
    - destruct (keys_of f (without k L)); [|exact Sl]. apply (find_erase string_lt string_lt_strict string_dec _ _ ""). exact Sl.
    - intros g. pose proof (proj2 (find_assign string_lt string_lt_strict string_dec [] (listeners CB r) f (keys_of f (without k L)) g (ho_lsorted _ _ H))) as Fa.
      destruct (keys_of f (without k L)) as [|x xs] eqn:X.
      + rewrite (proj2 (find_erase string_lt string_lt_strict string_dec _ f g Sl)), Fa.
        destruct (string_dec g f) as [->|Ng]; [now rewrite X|]. rewrite (Other _ Ng). apply (ho_listeners _ _ H).
      + rewrite Fa. destruct (string_dec g f) as [->|Ng]; [now rewrite X|]. rewrite (Other _ Ng). apply (ho_listeners _ _ H).
    - now rewrite Es.
  Qed.

  Lemma holds_fun r r' L : holds r L -> holds r' L -> r = r'.
  Proof.
    intros H H'. destruct r as [s l n], r' as [s' l' n']. pose proof (ho_subs _ _ H) as E1. pose proof (ho_subs _ _ H') as E2.
    pose proof (ho_next _ _ H) as E3. pose proof (ho_next _ _ H') as E4. simpl in *. subst. f_equal.
    pose proof (ho_lsorted _ _ H) as S1. pose proof (ho_lsorted _ _ H') as S2. simpl in *.
    assert (F : forall f, a_find string_dec l f = a_find string_dec l' f).
    { intros f. rewrite <- !(smap_find_ok string_lt string_lt_strict string_dec) by auto.
      pose proof (ho_listeners _ _ H f). pose proof (ho_listeners _ _ H' f). simpl in *. congruence. }
    apply (sorted_perm_eq fst string_lt string_lt_strict); auto.
    apply NoDup_Permutation; [apply (NoDup_map_inv fst), (sorted_nodup fst string_lt string_lt_strict); auto..|].
    intros [f ks]. pose proof (sorted_nodup fst string_lt string_lt_strict _ S1) as N1. pose proof (sorted_nodup fst string_lt string_lt_strict _ S2) as N2.
    split; intros I; apply (a_find_some string_dec); [rewrite <- F|rewrite F]; now apply a_find_in.
  Qed.
End Registry.
