(** Theorems about requests: C16, C17, C18, C19, C26 (execution), C32, C39, C40. *)
From Verif Require Import Cpp Value Ast ErrorModel ExecModel ExecSem ExecSpec ExecValues ExecSemProofs ExecDirect ExecMono ExecProofs ExecProofs2 ExecProofs3 ExecProofs4
  ExecCalls ExecCalls2 ExecOrder ExecRequest ExecTerm ExecRun ExecRequest2 ExecSerial ExecSerial2 ExecExamples ExecProps.
Local Open Scope string_scope.
Local Open Scope list_scope.

(** The requests of the example service. *)
Definition ex_roots : list (string * option obj) := [("query", Some Root); ("mutation", Some Root)].
Definition no_errors (d : document) : list schema_error := [].
Definition ex_start := start_request obj ex_types ex_has ex_roots 20 no_errors.
Definition query (vars : list variable_def) (sels : list selection) : definition := DOp (mkOp (at_ 1) None None vars [] sels).
Definition named (t n : string) (sels : list selection) : definition := DOp (mkOp (at_ 1) (Some t) (Some n) [] [] sels).
(** the accessors of the example, counting their calls *)
Definition ex_handler (s : nat) (o : obj) (f : string) (p : fparams) : nat * answer obj := (S s, ex_ans o f p).

Lemma ex_handler_alone : answers_alone ex_handler ex_ans.
Proof. intros s o f p. reflexivity. Qed.

(** ** C16 *)

(** The same response for all launch policies, schedules and histories of accessors whose answers depend on their inputs. *)
Theorem C16_same_response : forall O (typenames : O -> list string) has_field roots fuel validate doc name vars ans,
  forall St1 (h1 : St1 -> O -> string -> fparams -> St1 * answer O) St2 (h2 : St2 -> O -> string -> fparams -> St2 * answer O),
  answers_alone h1 ans -> answers_alone h2 ans ->
  forall l1 l2 s1 s2 d1 d2,
    responds h1 s1 (start_request O typenames has_field roots fuel validate l1 doc name vars) d1 ->
    responds h2 s2 (start_request O typenames has_field roots fuel validate l2 doc name vars) d2 -> d1 = d2.
Proof.
  intros O typenames has_field roots fuel validate doc name vars ans St1 h1 St2 h2 A1 A2 l1 l2 s1 s2 d1 d2 R1 R2.
  apply (responds_iff O ans St1 h1 A1) in R1. apply (responds_iff O ans St2 h2 A2) in R2.
  pose proof (start_launch O typenames has_field roots fuel validate l1 l2 doc name vars) as S.
  destruct (start_request _ _ _ _ _ _ l1 _ _ _), (start_request _ _ _ _ _ _ l2 _ _ _); try contradiction; subst; auto. now rewrite S.
Qed.

(** Every request answers; whatever the scheduler does, the execution ends after a bounded number of steps, and until
    then some thread can go on (no deadlock). *)
Theorem C16_always_answers : forall O (typenames : O -> list string) has_field roots fuel validate doc name vars ans
    St (h : St -> O -> string -> fparams -> St * answer O), answers_alone h ans ->
  forall l s, (exists d, responds h s (start_request O typenames has_field roots fuel validate l doc name vars) d) /\
  forall l' c, start_request O typenames has_field roots fuel validate l doc name vars = RTask l' c ->
    exists bound, forall n evs s' t, steps h n s (T [] (wait_task O l' c)) evs s' t ->
      n <= bound /\ ((exists r, ended t r) \/ exists ev s'' t', step h s' t ev s'' t').
Proof.
  intros O typenames has_field roots fuel validate doc name vars ans St h A l s. split.
  - destruct (start_request _ _ _ _ _ _ _ _ _ _) as [r|l' c] eqn:E; [exists r; reflexivity|].
    exists (finish (den O ans [] c)). apply (responds_iff O ans St h A). reflexivity.
  - intros l' c E. exists (costT O ans (T [] (wait_task O l' c))). intros n evs s' t H. split.
    + apply (steps_sound O ans St h A) in H. lia.
    + apply progress.
Qed.

Example C16_example :
  responds ex_handler 0 (ex_start LAsync [query [] [obj_fld 2 "heroes" [fld 3 "name"]; obj_fld 4 "hero" [obj_fld 5 "pet" [fld 6 "name"]]]] "" (VMap []))
    (Ok (VMap [("data", VMap [("heroes", VList [VMap [("name", VString "Luke" false)]; VNull; VMap [("name", VString "Rex" false)]]);
                              ("hero", VMap [("pet", VMap [("name", VString "Rex" false)])])])])).
Proof. apply (responds_iff obj ex_ans nat ex_handler ex_handler_alone). vm_compute. reflexivity. Qed.

(** ** C17 *)

Lemma level_root_calls : forall O (typenames : O -> list string) has_field fuel e o sels St (h : St -> O -> string -> fparams -> St * answer O) n s evs s' t vars,
  copyable vars -> e_vars e = VMap vars -> steps h n s (T [] (resolve O typenames has_field fuel e o [] sels Ret)) evs s' t ->
  level_keys O [] evs = root_calls evs.
Proof.
  intros O typenames has_field fuel e o sels St h n s evs s' t vars Hc Hv H.
  assert (A := asked_resolve O typenames has_field e vars fuel o [] sels Hc Hv).
  pose proof (all_events_run O _ St h _ _ _ _ _ _ A H) as AE. clear -AE. induction AE as [|ev evs E F IH]; auto.
  change (ev :: evs) with ([ev] ++ evs). rewrite root_calls_app, level_keys_app, IH. f_equal. clear IH F.
  destruct ev as [o' f p| | |]; auto. simpl in E. destruct E as [_ [path [sels' [loc [al [args [dirs [sub [Rd [Vi [E1 [E2 _]]]]]]]]]]]].
  unfold root_calls. simpl. rewrite E2. destruct path as [|[x|x] path].
  - reflexivity.
  - simpl. rewrite app_length. simpl. destruct (Nat.eqb_spec (S (length path + 1)) 1); [lia|]. destruct path; reflexivity.
  - simpl. rewrite app_length. simpl. destruct (Nat.eqb_spec (S (length path + 1)) 1); [lia|]. destruct path; reflexivity.
Qed.

(** In every execution of a mutation the accessors of the root fields are called in document order, each once. *)
Theorem C17_root_order : forall O (typenames : O -> list string) has_field roots fuel validate l doc name given l' c,
  copyable given -> (forall op, In op (operations doc) -> NoDup (map v_name (op_vars op))) ->
  start_request O typenames has_field roots fuel validate l doc name (VMap given) = RTask l' c ->
  exists op es frags root, selects name (operations doc) op /\ variables_of (op_vars op) given es /\ fragments_of given doc frags /\
    find_root O (op_kind op) roots = Some (Some root) /\
    forall occs, expands es frags (typenames root) (op_sel op) occs -> Forall (fun oc => has_field root (oc_name oc) = true) occs -> unmixed occs ->
    forall St (handler : St -> O -> string -> fparams -> St * answer O) n s evs s' t,
      steps handler n s (T [] (wait_task O l' c)) evs s' t ->
      (exists rest, kept_keys occs = root_calls evs ++ rest) /\ (forall r, ended t (Ok r) -> root_calls evs = kept_keys occs).
Proof.
  intros O typenames has_field roots fuel validate l doc name given l' c Hc ND H.
  destruct (started O typenames has_field roots _ _ _ _ _ _ _ _ Hc ND H) as [_ [op [es [ds [frags [root [S [K [F [V [D [R [L C]]]]]]]]]]]]].
  exists op, es, frags, root. repeat (split; [assumption|]). intros occs X HF U St handler n s evs s' t Hs.
  apply wait_project in Hs. destruct Hs as [m [t' [Hs He]]]. subst c.
  pose proof (variables_copyable _ _ _ Hc V) as Hce.
  set (e := mkEnv _ ds frags (VMap es) l') in *.
  pose proof (ordered_resolve O [] typenames has_field es (op_sel op) occs fuel e root [] Hce eq_refl X HF eq_refl) as Or.
  destruct (ordered_run O [] St handler _ _ _ _ _ _ _ Or Hs) as [[rest E1] E2].
  rewrite (level_root_calls O typenames has_field fuel e root (op_sel op) St handler _ _ _ _ _ es Hce eq_refl Hs) in *.
  rewrite (first_kept_kept_keys _ U) in *. split; [eauto|]. intros r Er. apply (E2 r). now apply He.
Qed.

(** A mutation runs on one thread: for given accessors there is one execution, whatever launch policy was asked for. *)
Theorem C17_one_schedule : forall O (typenames : O -> list string) has_field roots fuel validate l doc name given l' c,
  copyable given -> (forall op, In op (operations doc) -> NoDup (map v_name (op_vars op)) /\ op_kind op = "mutation") ->
  start_request O typenames has_field roots fuel validate l doc name (VMap given) = RTask l' c ->
  l' = LDeferred /\
  forall St (handler : St -> O -> string -> fparams -> St * answer O) n1 n2 s evs1 evs2 s1 s2 t1 t2,
    steps handler n1 s (T [] (wait_task O l' c)) evs1 s1 t1 -> steps handler n2 s (T [] (wait_task O l' c)) evs2 s2 t2 -> n1 <= n2 ->
    exists rest, evs2 = evs1 ++ rest.
Proof.
  intros O typenames has_field roots fuel validate l doc name given l' c Hc ND H.
  destruct (started O typenames has_field roots _ _ _ _ _ _ _ _ Hc (fun op I => proj1 (ND op I)) H) as [_ [op [es [ds [frags [root [S [K [F [V [D [R [L C]]]]]]]]]]]]].
  assert (M : op_kind op = "mutation"). { destruct S as [pre [post [E _]]]. apply (ND op). rewrite E. apply in_or_app. right. now left. }
  rewrite M in *. simpl in L, C. split; auto.
  intros St handler n1 n2 s evs1 evs2 s1 s2 t1 t2 H1 H2 Le.
  assert (Sq : solo O (T [] (wait_task O l' c))).
  { apply solo_iff. split; [|intros [|j] k E; discriminate]. simpl. split; auto. split; [|auto]. subst c. apply sw_resolve; [subst; reflexivity | intros; exact I]. }
  destruct (solo_unique O St handler _ _ _ _ _ _ H1 Sq _ _ _ _ H2 Le) as [rest [E _]]. eauto.
Qed.

(** Root fields whose answers are complete when their accessors return are executed serially: when an accessor is called
    nothing of the earlier root fields, their sub-selections included, is outstanding. *)
Theorem C17_serial_partial : forall O (typenames : O -> list string) has_field roots fuel validate l doc name given l' c,
  copyable given -> (forall op, In op (operations doc) -> NoDup (map v_name (op_vars op)) /\ op_kind op = "mutation") ->
  start_request O typenames has_field roots fuel validate l doc name (VMap given) = RTask l' c ->
  forall St (handler : St -> O -> string -> fparams -> St * answer O),
    (forall s o f p k, p_path p = [PName k] -> immediate (snd (handler s o f p))) ->
  forall n s evs s' t, steps handler n s (T [] (wait_task O l' c)) evs s' t -> serial evs.
Proof.
  intros O typenames has_field roots fuel validate l doc name given l' c Hc ND H St handler Im n s evs s' t Hs.
  destruct (started O typenames has_field roots _ _ _ _ _ _ _ _ Hc (fun op I => proj1 (ND op I)) H) as [_ [op [es [ds [frags [root [S [K [F [V [D [R [L C]]]]]]]]]]]]].
  assert (M : op_kind op = "mutation"). { destruct S as [pre [post [E _]]]. apply (ND op). rewrite E. apply in_or_app. right. now left. }
  rewrite M in *. simpl in L, C. apply wait_project in Hs. destruct Hs as [m [t' [Hs _]]]. subst c l'.
  eapply (ser_run O St handler Im); [| |exact Hs].
  - apply sw_resolve; [reflexivity | intros; exact I].
  - apply root_resolve. reflexivity.
Qed.

(** an immediate service *)
Definition im_ans (o : obj) (f : string) (p : fparams) : answer obj :=
  match o with
  | Root => if String.eqb f "hero" then AResult (FObject false (Ok (Some Human))) else if String.eqb f "numbers" then AResult (ex_leaf "x") else AThrow (Exn runtime_error "boom")
  | _ => ex_ans o f p
  end.
Definition im_handler (s : nat) (o : obj) (f : string) (p : fparams) : nat * answer obj :=
  (S s, match p_path p with [PName _] => im_ans Root f p | _ => im_ans o f p end).
Definition started_task (r : request obj) : comp obj := match r with RTask l c => wait_task obj l c | RDone _ => Ret UB end.
Definition im_doc : document := [named "mutation" "m" [obj_fld 2 "hero" [obj_fld 3 "pet" [fld 4 "name"]]; fld 5 "numbers"]].
Lemma run_exec : forall St (h : St -> obj -> string -> fparams -> St * answer obj) n d s t,
  match run obj St h n d s t with (m, evs, s', t') => steps h m s t evs s' t' end.
Proof. intros. destruct (run obj St h n d s t) as [[[m evs] s'] t'] eqn:E. eapply run_sound; eauto. Qed.

Example C17_serial_example :
  (forall s o f p k, p_path p = [PName k] -> immediate (snd (im_handler s o f p))) /\
  exists evs s' t, steps im_handler 19 0 (T [] (started_task (ex_start LAsync im_doc "m" (VMap [])))) evs s' t /\
    ended t (Ok (mkRR (VMap [("hero", VMap [("pet", VMap [("name", VString "Rex" false)])]); ("numbers", VString "x" false)]) [])) /\
    root_calls evs = ["hero"; "numbers"].
Proof.
  split.
  - intros s o f p k E. unfold im_handler. rewrite E. simpl. destruct (String.eqb f "hero"); simpl; auto. destruct (String.eqb f "numbers"); simpl; auto.
  - pose proof (run_exec nat im_handler 100 50 0 (T [] (started_task (ex_start LAsync im_doc "m" (VMap []))))) as H. vm_compute in H.
    eexists _, _, _. split; [exact H|]. vm_compute. auto.
Qed.

(** Not for the answers generated code gives for object types (a future): the second root accessor is called before the
    selections of the first root field are executed. *)
Theorem C17_deferred_refuted :
  exists evs s' t, steps ex_handler 34 0 (T [] (started_task (ex_start LAsync im_doc "m" (VMap [])))) evs s' t /\
    (exists r, ended t (Ok r)) /\ ~ serial evs.
Proof.
  pose proof (run_exec nat ex_handler 100 50 0 (T [] (started_task (ex_start LAsync im_doc "m" (VMap []))))) as H. vm_compute in H.
  eexists _, _, _. split; [exact H|]. split; [eexists; vm_compute; auto|]. intros S.
  match type of H with steps _ _ _ _ (?e1 :: ?e2 :: EvCall ?o ?f ?p :: ?e4 :: ?e5 :: ?r) _ _ =>
    apply (S [e1; e2] o f p (e4 :: e5 :: r) eq_refl ltac:(discriminate) e5 "hero") end.
  - right. left. reflexivity.
  - reflexivity.
  - left. reflexivity.
Qed.

(** ** C18, C19, C40 *)

(** A started request executes the selections of the operation the name selects; every accessor call in every execution
    is one of them, its arguments and directives being the values of the literals, with the operation's variables. *)
Theorem C18_variables_partial : forall O (typenames : O -> list string) has_field roots fuel validate l doc name given l' c,
  copyable given -> (forall op, In op (operations doc) -> NoDup (map v_name (op_vars op))) ->
  start_request O typenames has_field roots fuel validate l doc name (VMap given) = RTask l' c ->
  exists op es ds frags root, selects name (operations doc) op /\ fragments_of given doc frags /\
    variables_of (op_vars op) given es /\ dirs_value es (named_only (op_dirs op)) ds /\
    find_root O (op_kind op) roots = Some (Some root) /\
    forall St (handler : St -> O -> string -> fparams -> St * answer O) n s evs s' t,
      steps handler n s (T [] (wait_task O l' c)) evs s' t ->
      forall o f p, In (EvCall o f p) evs -> has_field o f = true /\
        asked_for typenames es frags (if String.eqb (op_kind op) "mutation" then CMutation else CQuery) ds root [] (op_sel op) o f p.
Proof. intros. eapply started_calls; eauto. Qed.

(** A variable that is not declared cannot be read. *)
Theorem C18_undeclared : forall decls given es loc n v, variables_of decls given es -> ~ In n (map v_name decls) -> ~ lit_value es (LVar loc n) v.
Proof.
  intros decls given es loc n v [K _] N H. inversion H; subst. apply N. rewrite <- K.
  match goal with X : lookup n es = Some v |- _ => revert X end. clear. induction es as [|[k x] es IH]; simpl; [discriminate|].
  destruct (String.eqb_spec n k); auto.
Qed.

Definition var_n : variable_def := mkVar (at_ 1) "n" (TNamed "Int") (at_ 1) (Some (LInt (at_ 1) 7)) (at_ 1).
Definition var_m : variable_def := mkVar (at_ 1) "m" (TNamed "Int") (at_ 1) None (at_ 1).
Definition echo : selection := SField (at_ 2) None "echo" [(at_ 2, ("a", LVar (at_ 2) "n")); (at_ 2, ("b", LList (at_ 2) [LVar (at_ 2) "m"]))] [] None.
Definition dir_n : directive := mkDir (at_ 3) "tag" [(at_ 3, ("x", LVar (at_ 3) "n"))].
Example C18_example :
  NoDup (map v_name [var_n; var_m]) /\ copyable [("n", VInt 3); ("z", VInt 9)] /\
  variables_of [var_n; var_m] [("n", VInt 3); ("z", VInt 9)] [("n", VInt 3); ("m", VNull)] /\
  variables_of [var_n; var_m] [] [("n", VInt 7); ("m", VNull)] /\
  responds ex_handler 0 (ex_start LAsync [query [var_n; var_m] [echo]] "" (VMap [("n", VInt 3); ("z", VInt 9)]))
    (Ok (VMap [("data", VMap [("echo", VMap [("a", VInt 3); ("b", VList [VNull])])])])) /\
  responds ex_handler 0 (ex_start LAsync [query [var_n; var_m] [echo]] "" (VMap []))
    (Ok (VMap [("data", VMap [("echo", VMap [("a", VInt 7); ("b", VList [VNull])])])])).
Proof.
  split; [repeat constructor; simpl; intuition discriminate|].
  split; [intros n v H; simpl in H; repeat (destruct (String.eqb n _); [inversion H; reflexivity|]); discriminate|].
  split; [split; [reflexivity|]; intros d [<-|[<-|[]]]; simpl; reflexivity|].
  split; [split; [reflexivity|]; intros d [<-|[<-|[]]]; simpl; [exists (VInt 7); split; [now constructor|reflexivity] | reflexivity]|].
  split; apply (responds_iff obj ex_ans nat ex_handler ex_handler_alone); vm_compute; reflexivity.
Qed.

(** Not in the directives of a fragment definition: they are evaluated before the defaults are known, and see variables
    the operation does not declare. *)
Theorem C18_fragment_directives_refuted :
  responds ex_handler 0 (ex_start LAsync [query [var_n] [SSpread (at_ 2) "F" []]; DFrag (mkFrag (at_ 3) "F" "Query" (at_ 3) [dir_n] [fld 4 "numbers"])] "" (VMap []))
    (Ok (VMap [("data", VNull); ("errors", VList [VMap [("message", VString "Unknown variable name: n" false); ("locations", VList [VMap [("line", VInt 3); ("column", VInt 1)]])]])])) /\
  (exists frags, fragments_of [("n", VInt 5)] [query [] []; DFrag (mkFrag (at_ 3) "F" "Query" (at_ 3) [dir_n] [])] frags).
Proof.
  split; [apply (responds_iff obj ex_ans nat ex_handler ex_handler_alone); vm_compute; reflexivity|].
  eexists. apply fragments_iff; [|vm_compute; reflexivity].
  intros n v H; simpl in H; repeat (destruct (String.eqb n _); [inversion H; reflexivity|]); discriminate.
Qed.

(** The operation executed is the one with the requested name, the first one for the empty name: which accessors are
    called is C18_variables_partial; which result is returned is that of resolving its selections on the root object. *)
Theorem C19_executes_selected : forall O (typenames : O -> list string) has_field roots fuel validate l doc name given l' c,
  copyable given -> (forall op, In op (operations doc) -> NoDup (map v_name (op_vars op))) ->
  start_request O typenames has_field roots fuel validate l doc name (VMap given) = RTask l' c ->
  exists op es ds frags root, selects name (operations doc) op /\ op_kind op <> "subscription" /\
    variables_of (op_vars op) given es /\ fragments_of given doc frags /\ dirs_value es (named_only (op_dirs op)) ds /\
    find_root O (op_kind op) roots = Some (Some root) /\
    forall St (handler : St -> O -> string -> fparams -> St * answer O) ans s d, answers_alone handler ans ->
      (responds handler s (RTask l' c) d <->
       exists r, computes typenames has_field ans fuel (mkEnv (if String.eqb (op_kind op) "mutation" then CMutation else CQuery) ds frags (VMap es) LDeferred) root [] (op_sel op) r /\ d = finish r).
Proof.
  intros O typenames has_field roots fuel validate l doc name given l' c Hc ND H.
  destruct (started O typenames has_field roots _ _ _ _ _ _ _ _ Hc ND H) as [_ [op [es [ds [frags [root [S [K [F [V [D [R [L C]]]]]]]]]]]]].
  exists op, es, ds, frags, root. repeat (split; [assumption|]). intros St handler ans s d A.
  rewrite (responds_iff O ans St handler A). subst c. rewrite (den_resolve O typenames has_field ans).
  rewrite (dresolve_launch O typenames has_field ans fuel _ _ _ _ l' LDeferred). split.
  - intros ->. eexists. split; [|reflexivity]. apply computes_iff. reflexivity.
  - intros [r [X ->]]. apply computes_iff in X. now subst.
Qed.

Lemma find_none_selects : forall doc name, (forall op, ~ selects name (operations doc) op) -> find_operation doc name = None.
Proof. intros doc name H. destruct (find_operation doc name) eqn:E; auto. exfalso. eapply H. apply find_selects. eassumption. Qed.

(** No such operation: an error document, and nothing is executed. *)
Theorem C19_missing : forall O (typenames : O -> list string) has_field roots fuel validate l doc name given frags,
  copyable given -> fragments_of given doc frags -> validate doc = [] -> (forall op, ~ selects name (operations doc) op) ->
  start_request O typenames has_field roots fuel validate l doc name (VMap given) =
  RDone (Ok (VMap [("data", VNull); ("errors", VList [VMap [("message",
    VString (if String.eqb name "" then "Missing operation" else "Missing operation name: " ++ name) false)]])])).
Proof.
  intros O typenames has_field roots fuel validate l doc name given frags Hc F V N. unfold start_request, start_operation.
  apply fragments_iff in F; auto. rewrite F. cbn [bind]. rewrite V, (find_none_selects _ _ N).
  unfold quoted_name, error_document, build_error_values, build_error_entry. simpl. destruct (String.eqb name ""); reflexivity.
Qed.
(** An operation that is a subscription cannot be executed this way. *)
Theorem C19_subscription : forall O (typenames : O -> list string) has_field roots fuel validate l doc name given frags op,
  copyable given -> fragments_of given doc frags -> validate doc = [] -> selects name (operations doc) op -> op_kind op = "subscription" ->
  exists msg, start_request O typenames has_field roots fuel validate l doc name (VMap given) =
    RDone (Ok (error_document [mkErr ("Unexpected subscription" ++ msg) (op_loc op) []])).
Proof.
  intros O typenames has_field roots fuel validate l doc name given frags op Hc F V S K. unfold start_request, start_operation.
  apply fragments_iff in F; auto. apply find_selects in S. rewrite F. cbn [bind]. rewrite V, S, K. simpl. eexists. reflexivity.
Qed.
(** A document that does not pass validation: all errors are reported, and nothing is executed. *)
Theorem C19_invalid : forall O (typenames : O -> list string) has_field roots fuel validate l doc name given frags,
  copyable given -> fragments_of given doc frags -> validate doc <> [] ->
  start_request O typenames has_field roots fuel validate l doc name (VMap given) =
  RDone (Ok (VMap [("data", VNull); ("errors", build_error_values (validate doc))])).
Proof.
  intros O typenames has_field roots fuel validate l doc name given frags Hc F V. unfold start_request, start_operation.
  apply fragments_iff in F; auto. rewrite F. cbn [bind]. destruct (validate doc); [contradiction|]. reflexivity.
Qed.

Definition two_ops : document := [named "query" "A" [fld 2 "numbers"]; named "query" "B" [obj_fld 3 "hero" [fld 4 "name"]]].
Example C19_example :
  selects "" (operations two_ops) (mkOp (at_ 1) (Some "query") (Some "A") [] [] [fld 2 "numbers"]) /\
  selects "B" (operations two_ops) (mkOp (at_ 1) (Some "query") (Some "B") [] [] [obj_fld 3 "hero" [fld 4 "name"]]) /\
  responds ex_handler 0 (ex_start LDeferred two_ops "B" (VMap [])) (Ok (VMap [("data", VMap [("hero", VMap [("name", VString "Luke" false)])])])) /\
  ex_start LDeferred two_ops "C" (VMap []) = RDone (Ok (VMap [("data", VNull); ("errors", VList [VMap [("message", VString "Missing operation name: C" false)]])])) /\
  (forall op, ~ selects "C" (operations two_ops) op).
Proof.
  split; [apply find_selects; reflexivity|]. split; [apply find_selects; reflexivity|].
  split; [apply (responds_iff obj ex_ans nat ex_handler ex_handler_alone); vm_compute; reflexivity|].
  split; [reflexivity|]. intros op S. apply find_selects in S. discriminate.
Qed.

(** C40: the view of C18_variables_partial from one accessor call. *)
Theorem C40_arguments : forall O (typenames : O -> list string) has_field e vars fuel root sels,
  copyable vars -> e_vars e = VMap vars ->
  forall St (handler : St -> O -> string -> fparams -> St * answer O) n s evs s' t,
    steps handler n s (T [] (resolve O typenames has_field fuel e root [] sels Ret)) evs s' t ->
    forall o f p, In (EvCall o f p) evs -> has_field o f = true /\
      asked_for typenames vars (e_frags e) (e_context e) (e_opdirs e) root [] sels o f p.
Proof.
  intros O typenames has_field e vars fuel root sels Hc Hv St handler n s evs s' t H o f p I.
  assert (A := asked_resolve O typenames has_field e vars fuel root [] sels Hc Hv).
  pose proof (all_events_run O _ St handler _ _ _ _ _ _ A H) as AE. rewrite Forall_forall in AE. exact (AE _ I).
Qed.
Definition nested_doc : document :=
  [query [var_n; var_m] [SInline (at_ 1) None [dir_n; mkDir (at_ 1) "u" []] [SInline (at_ 1) None [mkDir (at_ 1) "tag" []] [echo]]]].
(** the inner tag directive hides the outer one *)
Example C40_example : exists evs s' t, steps ex_handler 6 0 (T [] (started_task (ex_start LAsync nested_doc "" (VMap [("n", VInt 3)])))) evs s' t /\
  In (EvCall Root "echo" (mkParams CQuery [] (mkFD [] [] [("tag", VMap []); ("u", VMap [])]) [PName "echo"] "echo" [("a", VInt 3); ("b", VList [VNull])] [])) evs.
Proof.
  pose proof (run_exec nat ex_handler 100 50 0 (T [] (started_task (ex_start LAsync nested_doc "" (VMap [("n", VInt 3)]))))) as H. vm_compute in H.
  eexists _, _, _. split; [exact H|]. simpl. auto.
Qed.

(** ** C39 *)

(** Every document returned is a map with data first, followed by errors exactly when there are errors. *)
Theorem C39_document_shape_partial : forall O (typenames : O -> list string) has_field roots fuel validate l doc name vars
    St (handler : St -> O -> string -> fparams -> St * answer O) s d,
  responds handler s (start_request O typenames has_field roots fuel validate l doc name vars) (Ok d) ->
  exists data, d = VMap [("data", data)] \/ exists errs, errs <> [] /\ d = VMap [("data", data); ("errors", VList errs)].
Proof.
  intros O typenames has_field roots fuel validate l doc name vars St handler s d H. unfold start_request in H.
  destruct (start_operation O typenames has_field roots fuel validate l doc name vars) as [[l' c]|e|] eqn:E; [|apply start_throws in E; destruct e as [cl w|errs]|]; simpl in H.
  - destruct H as [n [evs [s' [t [r [H1 [H2 H3]]]]]]]. destruct r as [x|e|]; simpl in H3; inversion H3. exists (data x).
    unfold build_document. destruct (errors x) as [|er errs] eqn:EE; [left; reflexivity|]. right. exists (map build_error_entry (er :: errs)). split; [discriminate|reflexivity].
  - discriminate.
  - inversion H. exists VNull. right. exists (map build_error_entry errs). simpl in E. destruct errs; [contradiction|]. split; [discriminate|reflexivity].
  - discriminate.
Qed.
(** The errors entry is there exactly when the execution raised errors, and lists all of them. *)
Theorem C39_errors_listed : forall O (typenames : O -> list string) has_field roots fuel validate l doc name vars l' c,
  start_request O typenames has_field roots fuel validate l doc name vars = RTask l' c ->
  forall St (handler : St -> O -> string -> fparams -> St * answer O) s n evs s' t x,
  steps handler n s (T [] (wait_task O l' c)) evs s' t -> ended t (Ok x) ->
  responds handler s (RTask l' c) (Ok (VMap (("data", data x) :: match errors x with [] => [] | errs => [("errors", VList (map build_error_entry errs))] end))).
Proof.
  intros O typenames has_field roots fuel validate l doc name vars l' c H St handler s n evs s' t x S E.
  exists n, evs, s', t, (Ok x). split; [assumption|]. split; [assumption|]. simpl. unfold build_document. destruct (errors x); reflexivity.
Qed.
Example C39_example :
  responds ex_handler 0 (ex_start LAsync [query [] [fld 2 "numbers"; obj_fld 3 "hero" [fld 4 "boom"]]] "" (VMap []))
    (Ok (VMap [("data", VMap [("numbers", VList [VInt 1; VNull; VInt 3]); ("hero", VMap [("boom", VNull)])]);
      ("errors", VList [VMap [("message", VString "Field name: numbers unknown error: two" false); ("locations", VList [VMap [("line", VInt 2); ("column", VInt 1)]]); ("path", VList [VString "numbers" false; VInt 1])];
                        VMap [("message", VString "Field error name: boom unknown error: boom" false); ("locations", VList [VMap [("line", VInt 4); ("column", VInt 1)]]); ("path", VList [VString "hero" false; VString "boom" false])]])])).
Proof. apply (responds_iff obj ex_ans nat ex_handler ex_handler_alone). vm_compute. reflexivity. Qed.

(** Not every request returns a document: an exception raised while the root selections are visited leaves get(). *)
Theorem C39_exception_refuted :
  responds ex_handler 0 (ex_start LAsync [query [] [fld_d 2 "numbers" [mkDir (at_ 2) "skip" []]]] "" (VMap []))
    (Throw (SchemaEx [mkErr "Missing argument directive: skip name: if" (mkLoc 0 1) []])).
Proof. apply (responds_iff obj ex_ans nat ex_handler ex_handler_alone). vm_compute. reflexivity. Qed.

(** ** C26, execution *)

(** When no fragment leads to itself every selection set can be executed: with enough stack every schedule ends with a
    defined outcome. Missing: that validation guarantees it (C26_validation_refuted). *)
Theorem C26_execution_ends_partial : forall O (typenames : O -> list string) has_field ans e o fp sels,
  acyclic (e_frags e) -> defined_answers ans ->
  (forall n fr, find_fragment n (e_frags e) = Some fr -> Forall small_sel (fr_sel fr)) -> Forall small_sel sels ->
  exists r, results typenames has_field ans e o fp sels r.
Proof. exact acyclic_defined. Qed.

(** ** C32 *)

Lemma to_int32_fits : forall n, fits_int n -> to_int32 n = Z.of_N n.
Proof.
  intros n H. unfold fits_int, to_int32, int_max in *. rewrite Z.mod_small by lia. destruct (Z.leb_spec (Z.of_N n) 2147483647); lia.
Qed.

Lemma parse_build_error : forall e, plain_error e -> parse_error (build_error_entry e) = client_view e.
Proof.
  intros [m [ln co] p] [P1 [P2 P3]]. unfold build_error_entry, client_view, add_error_message, add_error_location, add_error_path. simpl in *.
  assert (Q : map parse_segment (map (fun s => match s with PName n => VString n false | PIndex i => VInt (to_int32 i) end) p) =
              map (fun s => match s with PName n => CName n | PIndex i => CIndex (Z.of_N i) end) p).
  { induction P3 as [|s p Hs P3 IH]; simpl; auto. rewrite IH. destruct s; simpl; auto. now rewrite to_int32_fits. }
  destruct (N.eqb_spec ln 0) as [->|Hn]; destruct p as [|s p]; simpl in Q; simpl; rewrite ?Q, ?to_int32_fits by auto; reflexivity.
Qed.

Lemma parse_build_errors : forall errs, Forall plain_error errs -> map parse_error (map build_error_entry errs) = map client_view errs.
Proof. induction 1 as [|e errs He H IH]; cbn [map]; auto. rewrite IH, parse_build_error; auto. Qed.

(** What the client reads from the document the service builds: the same data and the same errors in the same order. *)
Theorem C32_round_trip : forall x, Forall plain_error (errors x) ->
  parse_service_response (build_document x) = mkResp (data x) (map client_view (errors x)).
Proof.
  intros [d errs] H. unfold build_document. simpl in H. simpl errors. simpl data.
  destruct errs as [|e errs]; [reflexivity|]. 
  change (parse_service_response _) with (mkResp d (map parse_error (map build_error_entry (e :: errs)))). now rewrite parse_build_errors.
Qed.
Theorem C32_error_document_round_trip : forall errs, Forall plain_error errs ->
  parse_service_response (error_document errs) = mkResp VNull (map client_view errs).
Proof.
  intros errs H. change (parse_service_response _) with (mkResp VNull (map parse_error (map build_error_entry errs))). now rewrite parse_build_errors.
Qed.
(** The members of an error: message, then the location when known, then the path when there is one. *)
Theorem C32_error_members : forall m ln co p,
  fits_int ln -> fits_int co -> Forall (fun s => match s with PIndex i => fits_int i | _ => True end) p ->
  build_error_entry (mkErr m (mkLoc ln co) p) =
  VMap (("message", VString m false)
        :: (if N.eqb ln 0 then [] else [("locations", VList [VMap [("line", VInt (Z.of_N ln)); ("column", VInt (Z.of_N co))]])])
        ++ (match p with [] => [] | _ => [("path", VList (map (fun s => match s with PName n => VString n false | PIndex i => VInt (Z.of_N i) end) p))] end)).
Proof.
  intros m ln co p H1 H2 H3. unfold build_error_entry, add_error_message, add_error_location, add_error_path. simpl.
  assert (Q : map (fun s => match s with PName n => VString n false | PIndex i => VInt (to_int32 i) end) p =
              map (fun s => match s with PName n => VString n false | PIndex i => VInt (Z.of_N i) end) p).
  { induction H3 as [|s p Hs H3 IH]; simpl; auto. rewrite IH. destruct s; auto. now rewrite to_int32_fits. }
  destruct (N.eqb_spec ln 0); destruct p; simpl in *; rewrite ?Q, ?to_int32_fits by auto; reflexivity.
Qed.
(** The path of a field error: from the root to the field (see C13, C14 for the paths of located errors). *)
Theorem C32_path_order : forall p, build_error_path p = rev p.
Proof. exact build_error_path_rev. Qed.
Example C32_example : plain_error (mkErr "bad" (mkLoc 3 4) [PName "a"; PIndex 7; PName "b"]) /\ client_view (mkErr "bad" (mkLoc 3 4) [PName "a"; PIndex 7; PName "b"]) = mkCErr "bad" [mkCLoc 3 4] [CName "a"; CIndex 7; CName "b"].
Proof. split; [|reflexivity]. unfold plain_error, fits_int, int_max. simpl. repeat split; try lia. repeat constructor; simpl; lia. Qed.

Print Assumptions C16_same_response. Print Assumptions C16_always_answers. Print Assumptions C17_root_order. Print Assumptions C17_one_schedule.
Print Assumptions C17_serial_partial. Print Assumptions C17_deferred_refuted. Print Assumptions C18_variables_partial. Print Assumptions C18_undeclared.
Print Assumptions C18_fragment_directives_refuted. Print Assumptions C19_executes_selected. Print Assumptions C19_missing. Print Assumptions C19_subscription.
Print Assumptions C19_invalid. Print Assumptions C40_arguments. Print Assumptions C39_document_shape_partial. Print Assumptions C39_errors_listed.
Print Assumptions C39_exception_refuted. Print Assumptions C26_execution_ends_partial. Print Assumptions C32_round_trip. Print Assumptions C32_error_document_round_trip.
Print Assumptions C32_error_members.
