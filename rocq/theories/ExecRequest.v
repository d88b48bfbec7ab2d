(** Proofs about whole requests. *)
From Verif Require Import Cpp Value Ast ErrorModel ExecModel ExecSem ExecSemProofs ExecDirect ExecSpec ExecValues ExecMono ExecProofs ExecProofs2 ExecProofs3.
Local Open Scope string_scope.
Local Open Scope list_scope.

(** ** The launch policy does not change values *)
Section Launch.
  Variable O : Type.
  Variables (typenames : O -> list string) (has_field : O -> string -> bool).
  Variable ans : O -> string -> fparams -> answer O.

  Lemma dvisit_launch : forall n c od fr va l1 l2 o fp fd s d,
    dvisit O typenames has_field ans n (mkEnv c od fr va l1) o fp fd s d = dvisit O typenames has_field ans n (mkEnv c od fr va l2) o fp fd s d.
  Proof.
    induction n as [|n IH]; intros c od fr va l1 l2 o fp fd s d; auto.
    destruct s as [loc al nm args dirs sub|loc nm dirs|loc cond dirs sel]; simpl.
    - unfold dvisit_field. destruct (existsb _ _); auto. destruct (negb _); auto. change (directives_of (mkEnv c od fr va l1) dirs) with (directives_of (mkEnv c od fr va l2) dirs).
      destruct (directives_of _ _) as [[ds [|]]| |]; simpl; auto. cbn [e_vars]. destruct (visit_arguments _ _ _) as [avs| |]; simpl; auto.
      unfold dfield. cbn [e_context e_opdirs]. destruct (ans o nm _); auto.
      rewrite (dconvert_ext O _ (fun o' fp'' => dresolve_with O (dvisit O typenames has_field ans n (mkEnv c od fr va l2)) o' fp''
        match sub with Some (_, l) => l | None => [] end)); auto.
      intros o' s. unfold dresolve_with. rewrite (dvisit_all_ext _ (dvisit O typenames has_field ans n (mkEnv c od fr va l2) o' (s ++ PName (response_key al nm) :: fp) no_fdirs)); auto.
    - unfold dvisit_spread. cbn [e_frags]. destruct (find_fragment _ _); auto. destruct (negb _); auto. change (directives_of (mkEnv c od fr va l1) dirs) with (directives_of (mkEnv c od fr va l2) dirs).
      destruct (directives_of _ _) as [[ds [|]]| |]; simpl; auto. apply dvisit_all_ext. intros. apply IH.
    - unfold dvisit_inline. change (directives_of (mkEnv c od fr va l1) dirs) with (directives_of (mkEnv c od fr va l2) dirs). destruct (directives_of _ _) as [[ds [|]]| |]; simpl; auto.
      destruct (match cond with Some _ => _ | None => _ end); auto. apply dvisit_all_ext. intros. apply IH.
  Qed.

  Lemma dresolve_launch : forall n c od fr va l1 l2 o fp sels,
    dresolve O typenames has_field ans n (mkEnv c od fr va l1) o fp sels = dresolve O typenames has_field ans n (mkEnv c od fr va l2) o fp sels.
  Proof.
    intros. unfold dresolve, dresolve_with. rewrite (dvisit_all_ext _ (dvisit O typenames has_field ans n (mkEnv c od fr va l2) o fp no_fdirs)); auto.
    intros. apply dvisit_launch.
  Qed.

  Variable St : Type.
  Variable handler : St -> O -> string -> fparams -> St * answer O.
  Hypothesis Hpure : answers_alone handler ans.

  Lemma wait_value : forall l c n s evs s' t r, steps handler n s (T [] (wait_task O l c)) evs s' t -> ended t r -> r = den O ans [] c.
  Proof.
    intros l c n s evs s' t r H E. apply (steps_sound O ans St handler Hpure) in H. destruct H as [H _].
    apply (ended_den O ans) in E. rewrite E in H. exact H.
  Qed.

  Lemma responds_iff : forall s req d, responds handler s req d <->
    match req with RDone r => d = r | RTask l c => d = finish (den O ans [] c) end.
  Proof.
    intros s [r|l c] d; simpl; [tauto|]. split.
    - intros [n [evs [s' [t [r [H [E ->]]]]]]]. now rewrite (wait_value _ _ _ _ _ _ _ _ H E).
    - intros ->. destruct (run_to_end O St ans handler Hpure _ (T [] (wait_task O l c)) s (le_n _)) as [m [evs [s' [t [r [H E]]]]]].
      exists m, evs, s', t, r. split; auto. split; auto. now rewrite (wait_value _ _ _ _ _ _ _ _ H E).
  Qed.
End Launch.

Section Requests.
  Variable O : Type.
  Variables (typenames : O -> list string) (has_field : O -> string -> bool) (roots : list (string * option O)).

  Notation start := (start_request O typenames has_field roots).

  Lemma visit_operation_cases : forall n ctx l fr vars op,
    match visit_operation O typenames has_field roots n ctx l fr vars op with
    | Ok c => exists es ds o, operation_variables vars (op_vars op) [] = Ok es /\ visit_directives (VMap es) (op_dirs op) [] = Ok ds /\
        find_root O (op_kind op) roots = Some (Some o) /\ c = resolve O typenames has_field n (mkEnv ctx ds fr (VMap es) l) o [] (op_sel op) Ret
    | Throw e => forall l', visit_operation O typenames has_field roots n ctx l' fr vars op = Throw e
    | UB => forall l', visit_operation O typenames has_field roots n ctx l' fr vars op = UB
    end.
  Proof.
    intros n ctx l fr vars op. unfold visit_operation.
    destruct (operation_variables vars (op_vars op) []) as [es|e|]; simpl; auto.
    destruct (visit_directives (VMap es) (op_dirs op) []) as [ds|e|] eqn:ED; simpl; auto.
    destruct (find_root O (op_kind op) roots) as [[o|]|]; [exists es, ds, o; auto | intros; reflexivity | intros; reflexivity].
  Qed.

  Lemma visit_operation_launch : forall n ctx fr vars op l1 l2 c1,
    visit_operation O typenames has_field roots n ctx l1 fr vars op = Ok c1 ->
    exists c2, visit_operation O typenames has_field roots n ctx l2 fr vars op = Ok c2 /\ forall ans, den O ans [] c1 = den O ans [] c2.
  Proof.
    intros n ctx fr vars op l1 l2 c1 H. unfold visit_operation in *.
    destruct (operation_variables vars (op_vars op) []) as [es|e|]; simpl in *; try discriminate.
    destruct (visit_directives (VMap es) (op_dirs op) []) as [ds|e|]; simpl in *; try discriminate.
    destruct (find_root O (op_kind op) roots) as [[o|]|]; try discriminate. inversion H; subst.
    eexists. split; [reflexivity|]. intros ans. rewrite !den_resolve. apply dresolve_launch.
  Qed.

  (** starting the same request with two launch policies *)
  Lemma start_launch : forall n validate l1 l2 doc name vars,
    match start n validate l1 doc name vars, start n validate l2 doc name vars with
    | RDone r1, RDone r2 => r1 = r2
    | RTask _ c1, RTask _ c2 => forall ans, den O ans [] c1 = den O ans [] c2
    | _, _ => False
    end.
  Proof.
    intros n validate l1 l2 doc name vars. unfold start_request, start_operation.
    destruct (mapM (make_fragment vars) (fragments doc)) as [fr|[c w|errs]|]; simpl; auto.
    destruct (validate doc); simpl; auto. destruct (find_operation doc name) as [op|]; simpl; auto.
    destruct (String.eqb (op_kind op) "subscription"); simpl; auto.
    destruct (String.eqb (op_kind op) "mutation").
    - destruct (visit_operation O typenames has_field roots n CMutation LDeferred fr vars op) as [c|[c w|errs]|]; simpl; auto.
    - pose proof (visit_operation_cases n CQuery l1 fr vars op) as C.
      destruct (visit_operation O typenames has_field roots n CQuery l1 fr vars op) as [c|[cl w|errs]|] eqn:E1; simpl.
      + destruct (visit_operation_launch _ _ _ _ _ _ l2 _ E1) as [c2 [-> D]]. simpl. exact D.
      + rewrite C. reflexivity.
      + rewrite C. reflexivity.
      + rewrite C. reflexivity.
  Qed.
End Requests.

(** ** Operation variables *)
Lemma operation_variables_app : forall vars decls es es', operation_variables vars decls es = Ok es' ->
  exists kvs, Forall2 (fun d kv => fst kv = v_name d /\ variable_value vars d = Ok (snd kv)) decls kvs /\ es' = emplace_all kvs es.
Proof.
  intros vars decls. induction decls as [|d decls IH]; intros es es' H; simpl in H.
  - inversion H. exists []. split; [constructor | reflexivity].
  - destruct (variable_value vars d) as [x| |] eqn:E; simpl in H; try discriminate.
    destruct (IH _ _ H) as [kvs [F ->]]. exists ((v_name d, x) :: kvs). split; [constructor; auto | reflexivity].
Qed.

Lemma firsts_id : forall (es : entries), NoDup (map fst es) -> firsts es = es.
Proof.
  induction es as [|[k v] es IH]; intros H; simpl; auto. inversion H as [|? ? N H']; subst. rewrite IH by auto. f_equal.
  clear -N. induction es as [|[k' v'] es IH]; simpl; auto. simpl in N.
  destruct (String.eqb_spec k' k); [exfalso; apply N; auto|]. simpl. f_equal. apply IH. tauto.
Qed.

Lemma operation_variables_spec : forall given decls es, NoDup (map v_name decls) -> copyable given ->
  operation_variables (VMap given) decls [] = Ok es -> variables_of decls given es.
Proof.
  intros given decls es ND Hc H. apply operation_variables_app in H. destruct H as [kvs [F ->]]. rewrite emplace_all_nil.
  assert (K : map fst kvs = map v_name decls). { clear -F. induction F as [|d [k v] ds kvs [E _] F IH]; simpl in *; congruence. }
  rewrite firsts_id by now rewrite K. split; auto. intros d I.
  assert (L : exists v, variable_value (VMap given) d = Ok v /\ lookup (v_name d) kvs = Some v).
  { clear Hc. induction F as [|d' [k v] ds kvs [E1 E2] F IH]; [contradiction|]. simpl in *. inversion ND; subst.
    destruct I as [->|I].
    - exists v. split; auto. now rewrite String.eqb_refl.
    - destruct (String.eqb_spec (v_name d) (v_name d')) as [E|E].
      + exfalso. apply H1. rewrite <- E. now apply in_map.
      + apply IH; auto. inversion K. congruence. }
  destruct L as [v [V L]]. simpl in V. destruct (lookup (v_name d) given) as [g|] eqn:G.
  - unfold vcopy in V. rewrite (Hc _ _ G) in V. inversion V; subst. exact L.
  - destruct (v_default d) as [l|].
    + exists v. split; auto. apply visit_value_iff; auto.
    + inversion V; subst. exact L.
Qed.
