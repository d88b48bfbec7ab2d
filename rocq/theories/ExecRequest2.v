(** What a started request executes. *)
From Verif Require Import Cpp Value Ast ErrorModel ExecModel ExecSem ExecSpec ExecValues ExecSemProofs ExecMono ExecProofs
  ExecCalls ExecCalls2 ExecRequest ExecRun.
Local Open Scope string_scope.
Local Open Scope list_scope.

Lemma find_selects : forall doc name op, find_operation doc name = Some op <-> selects name (operations doc) op.
Proof.
  intros doc name op. unfold find_operation, selects. generalize (operations doc) as ops. clear doc.
  assert (N : forall o, op_named name o = true <-> (name = "" \/ (name <> "" /\ op_name o = Some name))).
  { intros o. unfold op_named. destruct (String.eqb_spec name "") as [->|Hn]; cbn [orb]; [split; auto|].
    destruct (op_name o) as [n|].
    - rewrite String.eqb_eq. split; [intros ->; auto|]. intros [?|[_ E]]; [contradiction|congruence].
    - rewrite String.eqb_eq. split; [intros E; subst; contradiction|]. intros [?|[_ E]]; [contradiction|discriminate]. }
  induction ops as [|o ops IH]; simpl.
  - split; [discriminate|]. intros [pre [post [E _]]]. destruct pre; discriminate.
  - destruct (op_named name o) eqn:E.
    + split.
      * intros X. inversion X; subst. exists [], ops. split; auto. split; auto. intros Hn. apply N in E. destruct E as [?|[_ E]]; [contradiction|].
        split; [exact E | intros x []].
      * intros [pre [post [X [P1 P2]]]]. destruct pre as [|o' pre]; simpl in X; inversion X; subst; auto.
        exfalso. apply N in E. destruct E as [E|[E1 E2]]; [specialize (P1 E); discriminate|]. destruct (P2 E1) as [_ P]. apply (P o'); simpl; auto.
    + rewrite IH. assert (Hn : name <> "" /\ op_name o <> Some name).
      { split; intros X; assert (op_named name o = true) by (apply N; destruct (String.eqb_spec name ""); auto); congruence. }
      destruct Hn as [Hn Ho]. split.
      * intros [pre [post [-> [P1 P2]]]]. exists (o :: pre), post. split; auto. split; [intros ->; contradiction|]. intros _.
        destruct (P2 Hn) as [P3 P4]. split; auto. intros x [<-|I]; auto.
      * intros [pre [post [X [P1 P2]]]]. destruct (P2 Hn) as [P3 P4]. destruct pre as [|o' pre]; simpl in X; inversion X; subst; [contradiction|].
        exists pre, post. split; auto. split; [intros ->; contradiction|]. intros _. split; auto. intros x I. apply P4. now right.
Qed.

Lemma fragments_iff : forall given doc frags, copyable given ->
  (mapM (make_fragment (VMap given)) (fragments doc) = Ok frags <-> fragments_of given doc frags).
Proof.
  intros given doc frags Hc. rewrite mapM_forall2. unfold fragments_of. apply Forall2_iff_in. apply Forall_forall. intros d _ [n fr].
  unfold make_fragment. rewrite visit_directives_named. pose proof (named_only_named (f_dirs d)) as Nm. simpl. split.
  - intros E. destruct (visit_directives _ _ []) as [ds| |] eqn:D; simpl in E; inversion E; subst. simpl. repeat split. now apply dirs_value_iff.
  - intros [-> [E1 [E2 D]]]. apply dirs_value_iff in D; auto. rewrite D. simpl. destruct fr as [t ds s]. simpl in *. congruence.
Qed.

(** values of literals can be copied *)
Lemma firsts_exists : forall (f : value -> bool) kvs, (forall kv, In kv kvs -> f (snd kv) = false) -> existsb (fun kv => f (snd kv)) (firsts kvs) = false.
Proof.
  intros f kvs H. destruct (existsb _ (firsts kvs)) eqn:E; auto. apply existsb_exists in E. destruct E as [kv [I E]].
  apply in_firsts in I. rewrite H in E by auto. discriminate.
Qed.
Lemma lit_value_copyable : forall vars, copyable vars -> forall l v, lit_value vars l v -> has_null_scalar v = false.
Proof.
  intros vars Hc l. induction l as [| | | | | | |loc is IH|loc fs IH] using lit_ind'; intros v H; inversion H; subst; simpl; auto.
  - eapply Hc; eauto.
  - match goal with F : Forall2 _ is _ |- _ => rename F into HF end. clear H. induction HF as [|x y xs ys E F IHF]; simpl; auto. inversion IH; subst.
    rewrite (H1 _ E). now apply IHF.
  - apply firsts_exists. match goal with F : Forall2 _ fs _ |- _ => rename F into HF end. clear H. intros kv I.
    induction HF as [|x y xs ys [E1 E2] F IHF]; simpl in *; [contradiction|]. inversion IH; subst. destruct I as [<-|I]; auto.
Qed.
Lemma variables_copyable : forall given decls es, copyable given -> variables_of decls given es -> copyable es.
Proof.
  intros given decls es Hc [K V] n v H.
  assert (I : In n (map v_name decls)). { rewrite <- K. clear -H. induction es as [|[k x] es IH]; simpl in *; [discriminate|]. destruct (String.eqb_spec n k); auto. }
  apply in_map_iff in I. destruct I as [d [<- I]]. specialize (V d I).
  destruct (lookup (v_name d) given) as [x|] eqn:G.
  - assert (v = x) by congruence. subst. eapply Hc; eauto.
  - destruct (v_default d) as [l|].
    + destruct V as [x [Hl E]]. assert (v = x) by congruence. subst. eapply lit_value_copyable; eauto.
    + assert (v = VNull) by congruence. now subst.
Qed.

Section Started.
  Variable O : Type.
  Variables (typenames : O -> list string) (has_field : O -> string -> bool) (roots : list (string * option O)).

  (** A request that starts a task: which operation, variables, directives and fragments it uses. *)
  Lemma started : forall fuel validate l doc name given l' c, copyable given ->
    (forall op, In op (operations doc) -> NoDup (map v_name (op_vars op))) ->
    start_request O typenames has_field roots fuel validate l doc name (VMap given) = RTask l' c ->
    validate doc = [] /\
    exists op es ds frags o, selects name (operations doc) op /\ op_kind op <> "subscription" /\ fragments_of given doc frags /\
      variables_of (op_vars op) given es /\ dirs_value es (named_only (op_dirs op)) ds /\
      find_root O (op_kind op) roots = Some (Some o) /\
      l' = (if String.eqb (op_kind op) "mutation" then LDeferred else l) /\
      c = resolve O typenames has_field fuel
            (mkEnv (if String.eqb (op_kind op) "mutation" then CMutation else CQuery) ds frags (VMap es) l') o [] (op_sel op) Ret.
  Proof.
    intros fuel validate l doc name given l' c Hc ND H. unfold start_request, start_operation in H.
    destruct (mapM (make_fragment (VMap given)) (fragments doc)) as [frags|[? ?|?]|] eqn:EF; simpl in H; try discriminate.
    destruct (validate doc) as [|er errs]; [|discriminate]. split; auto.
    destruct (find_operation doc name) as [op|] eqn:FO; [|discriminate].
    destruct (String.eqb_spec (op_kind op) "subscription") as [|NS]; [discriminate|].
    set (m := String.eqb (op_kind op) "mutation") in *.
    destruct (visit_operation O typenames has_field roots fuel (if m then CMutation else CQuery) (if m then LDeferred else l) frags (VMap given) op) as [c'|[? ?|?]|] eqn:EV;
      simpl in H; try discriminate. inversion H; subst c' l'. clear H.
    pose proof (visit_operation_cases O typenames has_field roots fuel (if m then CMutation else CQuery) (if m then LDeferred else l) frags (VMap given) op) as C.
    rewrite EV in C. destruct C as [es [ds [o [E1 [E2 [E3 E4]]]]]].
    apply find_selects in FO. assert (I : In op (operations doc)). { destruct FO as [pre [post [-> _]]]. apply in_or_app. right. now left. }
    pose proof (operation_variables_spec _ _ _ (ND _ I) Hc E1) as V. pose proof (variables_copyable _ _ _ Hc V) as Hce.
    rewrite visit_directives_named in E2. apply dirs_value_iff in E2; auto; [|apply named_only_named].
    exists op, es, ds, frags, o. repeat split; auto; try apply V. now apply fragments_iff.
  Qed.

  (** Every accessor call of a request is one its operation asks for. *)
  Lemma started_calls : forall fuel validate l doc name given l' c, copyable given ->
    (forall op, In op (operations doc) -> NoDup (map v_name (op_vars op))) ->
    start_request O typenames has_field roots fuel validate l doc name (VMap given) = RTask l' c ->
    exists op es ds frags root, selects name (operations doc) op /\ fragments_of given doc frags /\
      variables_of (op_vars op) given es /\ dirs_value es (named_only (op_dirs op)) ds /\
      find_root O (op_kind op) roots = Some (Some root) /\
      forall St (handler : St -> O -> string -> fparams -> St * answer O) n s evs s' t,
        steps handler n s (T [] (wait_task O l' c)) evs s' t ->
        forall o f p, In (EvCall o f p) evs -> has_field o f = true /\
          asked_for typenames es frags (if String.eqb (op_kind op) "mutation" then CMutation else CQuery) ds root [] (op_sel op) o f p.
  Proof.
    intros fuel validate l doc name given l' c Hc ND H. destruct (started _ _ _ _ _ _ _ _ Hc ND H) as [_ [op [es [ds [frags [root [S [K [F [V [D [R [L C]]]]]]]]]]]]].
    exists op, es, ds, frags, root. repeat (split; [assumption|]). intros St handler n s evs s' t X o f p I.
    apply wait_project in X. destruct X as [m [t' [X _]]]. subst c.
    assert (A := asked_resolve O typenames has_field
       (mkEnv (if String.eqb (op_kind op) "mutation" then CMutation else CQuery) ds frags (VMap es) l') es fuel root [] (op_sel op) (variables_copyable _ _ _ Hc V) eq_refl).
    pose proof (all_events_run O _ St handler _ _ _ _ _ _ A X) as AE. rewrite Forall_forall in AE. exact (AE _ I).
  Qed.
End Started.

(** Exceptions that resolve() turns into an error document carry errors. *)
Definition nonempty_ex (e : exn) : Prop := match e with SchemaEx [] => False | _ => True end.
Lemma visit_value_throws : forall vars l e, visit_value vars l = Throw e -> nonempty_ex e.
Proof.
  assert (M : forall A B (f : A -> result B) l e, Forall (fun x => forall e, f x = Throw e -> nonempty_ex e) l -> mapM f l = Throw e -> nonempty_ex e).
  { intros A B f l e H. revert e. induction H as [|x l Hx H IH]; intros e E; simpl in E; [discriminate|].
    destruct (f x) eqn:F; simpl in E; inversion E; subst; auto. destruct (mapM f l) eqn:G; simpl in E; inversion E; subst; auto. }
  intros vars l. induction l as [loc n|loc z| | | | | |loc is IH|loc fs IH] using lit_ind'; intros e H; simpl in H; try discriminate.
  - unfold visit_variable in H. destruct vars; try (inversion H; exact I). destruct (lookup n entries).
    + unfold vcopy in H. destruct (has_null_scalar v); inversion H. exact I.
    + inversion H. exact I.
  - destruct (in_int_range z); discriminate.
  - destruct (mapM (visit_value vars) is) eqn:E; simpl in H; inversion H; subst. eapply M; [|exact E]. exact IH.
  - destruct (mapM _ fs) eqn:E; simpl in H; inversion H; subst. eapply M; [|exact E]. eapply Forall_impl; [|exact IH].
    intros a Ha e' E'. cbv beta in Ha. destruct (visit_value vars (snd (snd a))) eqn:V; simpl in E'; inversion E'; subst. now apply Ha.
Qed.
Lemma visit_arguments_throws : forall vars args es e, visit_arguments vars args es = Throw e -> nonempty_ex e.
Proof.
  intros vars args. induction args as [|a args IH]; intros es e H; simpl in H; [discriminate|].
  destruct (visit_value vars (a_value a)) eqn:E; simpl in H; inversion H; subst; [eapply IH; eauto | eapply visit_value_throws; eauto].
Qed.
Lemma visit_directives_throws : forall vars dirs es e, visit_directives vars dirs es = Throw e -> nonempty_ex e.
Proof.
  intros vars dirs. induction dirs as [|d dirs IH]; intros es e H; simpl in H; [discriminate|].
  destruct (String.eqb (d_name d) ""); [eapply IH; eauto|].
  destruct (visit_arguments vars (d_args d) []) eqn:E; simpl in H; inversion H; subst; [eapply IH; eauto | eapply visit_arguments_throws; eauto].
Qed.
Lemma operation_variables_throws : forall vars decls es e, operation_variables vars decls es = Throw e -> nonempty_ex e.
Proof.
  intros vars decls. induction decls as [|d decls IH]; intros es e H; simpl in H; [discriminate|].
  destruct (variable_value vars d) eqn:E; simpl in H; inversion H; subst; [eapply IH; eauto|].
  unfold variable_value in E. destruct vars; try (inversion E; exact I). destruct (lookup (v_name d) entries).
  - unfold vcopy in E. destruct (has_null_scalar v); inversion E. exact I.
  - destruct (v_default d); inversion E. eapply visit_value_throws; eauto.
Qed.
Lemma start_throws : forall O (typenames : O -> list string) has_field roots fuel validate l doc name vars e,
  start_operation O typenames has_field roots fuel validate l doc name vars = Throw e -> nonempty_ex e.
Proof.
  intros O typenames has_field roots fuel validate l doc name vars e H. unfold start_operation in H.
  destruct (mapM (make_fragment vars) (fragments doc)) as [frags|x|] eqn:EF; simpl in H.
  - destruct (validate doc); [|inversion H; exact I].
    destruct (find_operation doc name) as [op|]; [|inversion H; exact I].
    destruct (String.eqb (op_kind op) "subscription"); [inversion H; exact I|].
    destruct (visit_operation O typenames has_field roots fuel _ _ frags vars op) as [c|x|] eqn:EV; simpl in H; inversion H; subst.
    unfold visit_operation in EV. destruct (operation_variables vars (op_vars op) []) as [es|x|] eqn:E1; simpl in EV; inversion EV; subst.
    + destruct (visit_directives (VMap es) (op_dirs op) []) as [ds|x|] eqn:E2; simpl in EV; inversion EV; subst.
      * destruct (find_root O (op_kind op) roots) as [[o|]|]; discriminate.
      * eapply visit_directives_throws; eauto.
    + eapply operation_variables_throws; eauto.
  - inversion H; subst. clear -EF. revert e EF. induction (fragments doc) as [|d ds IH]; intros e H; simpl in H; [discriminate|].
    unfold make_fragment in H at 1. destruct (visit_directives vars (f_dirs d) []) eqn:E; simpl in H; inversion H; subst.
    + destruct (mapM (make_fragment vars) ds) eqn:G; simpl in H; inversion H; subst; auto.
    + eapply visit_directives_throws; eauto.
  - discriminate.
Qed.
