(** Every accessor call of every execution is one the document asks for. *)
From Verif Require Import Cpp Value Ast ErrorModel ExecModel ExecSem ExecSpec ExecValues ExecDirect ExecProofs ExecProofs2 ExecCalls.
Local Open Scope string_scope.
Local Open Scope list_scope.

Lemma visit_directives_named : forall vars dirs es, visit_directives vars dirs es = visit_directives vars (named_only dirs) es.
Proof.
  intros vars dirs. induction dirs as [|d dirs IH]; intros es; simpl; auto.
  destruct (String.eqb (d_name d) "") eqn:E; simpl; [apply IH|]. rewrite E.
  destruct (visit_arguments vars (d_args d) []); simpl; auto.
Qed.
Lemma named_only_named : forall dirs, named_dirs (named_only dirs).
Proof.
  intros dirs. apply Forall_forall. intros d H. apply filter_In in H. destruct H as [_ H]. intros E. rewrite E in H. discriminate.
Qed.

Lemma should_skip_not_dropped : forall ds, should_skip ds = Ok false -> not_dropped ds.
Proof.
  intros ds H. unfold should_skip in H. simpl in H. split.
  - intros C. unfold condition in C. rewrite C in H. simpl in H. discriminate.
  - intros E C. unfold condition in C. rewrite E, C in H. simpl in H. discriminate.
Qed.

Lemma merge_overlay : forall outer inner, overlay inner outer (merge_dirs inner outer).
Proof.
  assert (M : forall outer inner, merge_dirs inner outer = emplace_all outer inner).
  { induction outer as [|[k v] outer IH]; intros inner; simpl; auto. }
  intros outer inner n. rewrite M, emplace_all_firsts, lookup_app. destruct (lookup n inner) eqn:E; auto.
  rewrite <- (lookup_firsts n outer). clear M.
  assert (NK : has_key n inner = false).
  { destruct (has_key n inner) eqn:K; auto. unfold has_key in K. now rewrite E in K. }
  induction (firsts outer) as [|[k v] l IH]; simpl; auto.
  destruct (has_key k inner) eqn:K; simpl; destruct (String.eqb_spec n k); auto.
  subst. congruence.
Qed.

Section Asked.
  Variable O : Type.
  Variables (typenames : O -> list string) (has_field : O -> string -> bool).
  Variables (e : env) (vars : entries).
  Hypothesis Hc : copyable vars.
  Hypothesis Hv : e_vars e = VMap vars.
  Variables (root : O) (path0 : list path_segment) (sels0 : list selection).

  Definition asked (ev : event O) : Prop :=
    match ev with
    | EvCall o f p => has_field o f = true /\ asked_for typenames vars (e_frags e) (e_context e) (e_opdirs e) root path0 sels0 o f p
    | _ => True
    end.

  Lemma eval_dirs : forall dirs ds b, (ds <- visit_directives (e_vars e) dirs [] ;; sk <- should_skip ds ;; Ok (ds, sk)) = Ok (ds, b) ->
    dirs_value vars (named_only dirs) ds /\ should_skip ds = Ok b.
  Proof.
    intros dirs ds b H. rewrite Hv, visit_directives_named in H.
    destruct (visit_directives (VMap vars) (named_only dirs) []) as [ds'| |] eqn:E; simpl in H; try discriminate.
    destruct (should_skip ds') as [b'| |] eqn:E2; simpl in H; try discriminate. inversion H; subst. split; auto.
    apply dirs_value_iff; auto. apply named_only_named.
  Qed.

  Lemma wp_visit_all : forall (vis : selection -> vstate -> M O (result vstate)) sels,
    (forall s st, In s sels -> wp O asked (vis s st) (fun _ => True)) ->
    forall st, wp O asked (visit_all O vis sels st) (fun _ => True).
  Proof.
    intros vis sels. induction sels as [|s sels IH]; intros H st k Hk; simpl; auto.
    apply H; [now left|]. intros [st'|x|] _; auto. apply IH; auto. intros s' st'' I. apply H. now right.
  Qed.

  Lemma wp_visit : forall fuel sels o fp, reached typenames vars (e_frags e) root path0 sels0 o (rev fp) sels ->
    forall s fd st, (forall f fd', visible vars (e_frags e) (typenames o) [s] fd f fd' -> visible vars (e_frags e) (typenames o) sels no_fdirs f fd') ->
    wp O asked (visit O typenames has_field fuel e o fp fd s st) (fun _ => True).
  Proof.
    induction fuel as [|n IH]; intros sels o fp R s fd st V k Hk; [now apply Hk|].
    destruct s as [loc al nm args dirs sub|loc nm dirs|loc cond dirs sel]; simpl.
    - unfold visit_field. destruct (existsb _ _); [now apply Hk|]. destruct (has_field o nm) eqn:HF; simpl; [|now apply Hk].
      destruct (bind (visit_directives (e_vars e) dirs []) _) as [[ds [|]]|x|] eqn:ED; try (now apply Hk).
      apply eval_dirs in ED. destruct ED as [ED1 ED2].
      destruct (visit_arguments (e_vars e) args []) as [avs|x|] eqn:EA; try (now apply Hk).
      rewrite Hv in EA. apply args_value_iff in EA; auto.
      assert (VF : visible vars (e_frags e) (typenames o) sels no_fdirs (SField loc al nm args dirs sub) fd) by (apply V; apply vi_field; now left).
      split.
      + split; auto. exists (rev fp), sels, loc, al, args, dirs, sub. rewrite build_error_path_rev. simpl.
        repeat (split; auto; try apply should_skip_not_dropped; auto).
      + intros [x|f]; [now apply Hk|].
        apply (wp_convert O asked (e_launch e) _ (fun q => exists is, q = map PIndex is ++ PName (response_key al nm) :: fp)) with (Q := fun _ => True); auto.
        * intros q i [is ->]. now exists (i :: is).
        * intros o' q [is ->] k' Hk'. unfold resolve_with. simpl. split; [exact I|].
          destruct sub as [[l sub]|]; simpl.
          -- apply wp_visit_all; [|intros [st'|x|] _; auto; simpl; split; auto; apply (wp_collect_object O asked _ _ (fun _ => True)); auto].
             intros s st' Is. apply (IH sub).
             ++ rewrite rev_app_distr. simpl. rewrite <- app_assoc. simpl. rewrite <- map_rev.
                eapply re_sub; [exact R | exact VF].
             ++ intros f' fd' VS. clear -VS Is.
                inversion VS; subst.
                ** destruct H as [H|[]]. subst s. now apply vi_field.
                ** destruct H as [H|[]]. subst s. eapply vi_inline; eauto.
                ** destruct H as [H|[]]. subst s. eapply vi_spread; eauto.
          -- split; auto.
        * intros q [is ->]. exact I.
        * exists []. reflexivity.
        * intros [fu|x|] _; now apply Hk.
    - unfold visit_spread. destruct (find_fragment nm (e_frags e)) as [fr|] eqn:FF; [|now apply Hk].
      destruct (matches_type O typenames o (fr_type fr)) eqn:MT; simpl; [|now apply Hk].
      destruct (bind (visit_directives (e_vars e) dirs []) _) as [[ds [|]]|x|] eqn:ED; try (now apply Hk).
      apply eval_dirs in ED. destruct ED as [ED1 ED2]. apply wp_visit_all; auto. intros s st' Is. apply (IH sels); auto.
      intros f fd' VS. apply V. eapply (vi_spread _ _ _ loc nm dirs ds fr); [now left | exact FF | now apply existsb_eqb_in | exact ED1 |
        now apply should_skip_not_dropped | apply merge_overlay | apply merge_overlay |].
      inversion VS; subst.
      + destruct H as [H|[]]. subst s. now apply vi_field.
      + destruct H as [H|[]]. subst s. eapply vi_inline; eauto.
      + destruct H as [H|[]]. subst s. eapply vi_spread; eauto.
    - unfold visit_inline.
      destruct (bind (visit_directives (e_vars e) dirs []) _) as [[ds [|]]|x|] eqn:ED; try (now apply Hk).
      apply eval_dirs in ED. destruct ED as [ED1 ED2].
      destruct (match cond with Some (_, t) => matches_type O typenames o t | None => true end) eqn:MT; [|now apply Hk].
      apply wp_visit_all; auto. intros s st' Is. apply (IH sels); auto. intros f fd' VS. apply V.
      eapply (vi_inline _ _ _ loc cond dirs ds sel); [now left | | exact ED1 | now apply should_skip_not_dropped | apply merge_overlay |].
      + intros l t ->. now apply existsb_eqb_in.
      + inversion VS; subst.
        * destruct H as [H|[]]. subst s. now apply vi_field.
        * destruct H as [H|[]]. subst s. eapply vi_inline; eauto.
        * destruct H as [H|[]]. subst s. eapply vi_spread; eauto.
  Qed.
End Asked.

Lemma asked_resolve : forall O (typenames : O -> list string) has_field e vars fuel o fp sels, copyable vars -> e_vars e = VMap vars ->
  all_events O (asked O typenames has_field e vars o (rev fp) sels) (resolve O typenames has_field fuel e o fp sels Ret).
Proof.
  intros O typenames has_field e vars fuel o fp sels Hc Hv. unfold resolve, resolve_with. simpl. split; [exact I|].
  apply wp_visit_all; [|intros [st|x|] _; simpl; auto; split; [exact I | apply (wp_collect_object O _ _ _ (fun _ => True)); simpl; auto]].
  intros s st Is. apply (wp_visit O typenames has_field e vars Hc Hv o (rev fp) sels fuel sels o fp); [constructor|].
  intros f fd' VS. inversion VS; subst.
  - destruct H as [H|[]]. subst s. now apply vi_field.
  - destruct H as [H|[]]. subst s. eapply vi_inline; eauto.
  - destruct H as [H|[]]. subst s. eapply vi_spread; eauto.
Qed.
