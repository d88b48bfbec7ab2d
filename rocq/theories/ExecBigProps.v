(** C45: a selection set is executed field by field. *)
From Verif Require Import Cpp Value Ast ErrorModel ExecModel ExecSem ExecSemProofs ExecDirect ExecSpec ExecValues ExecMono ExecProofs ExecProofs2 ExecProofs3 ExecProofs4
  ExecCalls ExecCalls2 ExecRequest ExecRequest2 ExecRun ExecExamples ExecProps ExecProps2 ExecBigSpec ExecBigProofs.
From Coq Require Import Lia.
Local Open Scope string_scope.
Local Open Scope list_scope.

Section Sound.
  Variable O : Type.
  Variables (typenames : O -> list string) (has_field : O -> string -> bool) (ans : O -> string -> fparams -> answer O).
  Variables (vars : entries) (e : env).
  Hypothesis Hc : copyable vars.
  Hypothesis Hv : e_vars e = VMap vars.
  Notation dresolve := (dresolve O typenames has_field ans).
  Notation executes := (executes typenames has_field ans vars e).

  Lemma completed_uniform : forall (Q : nat -> O -> list path_segment -> value -> list schema_error -> Prop) key loc f p v errs,
    completed (fun o p v errs => exists N, forall k, N <= k -> Q k o p v errs) key loc f p v errs ->
    exists N, forall k, N <= k -> completed (Q k) key loc f p v errs.
  Proof.
    intros Q key loc f p v errs C.
    apply (completed_mut O (fun o p v errs => exists N, forall k, N <= k -> Q k o p v errs) key loc
      (fun f p v errs _ => exists N, forall k, N <= k -> completed (Q k) key loc f p v errs)
      (fun fs p i ves _ => exists N, forall k, N <= k -> completed_items (Q k) key loc fs p i ves)); auto; clear;
      try (intros; exists 0; intros; constructor; fail).
    - intros fut o p v errs [N H]. exists N. intros k Hk. constructor. auto.
    - intros o p v errs [N H]. exists N. intros k Hk. constructor. auto.
    - intros f p v errs _ [N H]. exists N. intros k Hk. constructor. auto.
    - intros fs p ves _ [N H]. exists N. intros k Hk. constructor. auto.
    - intros f fs p i v errs ves _ [N H] _ [N' H']. exists (N + N'). intros k Hk. constructor; [apply H|apply H']; lia.
  Qed.

  Lemma executes_resolve : forall n sels o p v errs, executes n sels o p v errs ->
    exists N, forall k, N <= k -> dresolve k e o (rev p) sels = Ok (mkRR v errs).
  Proof.
    induction n as [|n IH]; intros sels o p v errs H; [destruct H|].
    destruct H as (items & outs & Hcol & Hout & -> & ->).
    assert (Hst : exists N, exists xs, Forall2 (fun kc x => stores O typenames has_field ans e o (rev p) N (fst kc) (snd kc) x) (first_chosen items) xs /\
              Forall2 (fun kx ve => outcome (fst kx) (snd kx) = Ok (mkRR (fst ve) (snd ve))) (combine (map fst (first_chosen items)) xs) outs /\
              length xs = length (first_chosen items)).
    { clear Hcol. induction Hout as [|[key c] [v errs] l outs Hf Hout IHo]; [exists 0, []; repeat split; constructor|].
      destruct IHo as (N0 & xs & H1 & H2 & H3).
      assert (Hx : exists N x, stores O typenames has_field ans e o (rev p) N key c x /\ outcome key x = Ok (mkRR v errs)).
      { cbn [fst snd] in Hf. inversion Hf as [Hu|ex Hu Ha|f v' errs' Hu Ha Hsh Hcm]; subst.
        - exists 0, (Throw (SchemaEx [mkErr ("Unknown field name: " ++ ch_name c) (ch_loc c) p])). split; [|reflexivity].
          split; [intros _; rewrite build_error_path_rev, rev_involutive; reflexivity|congruence].
        - exists 0, (Throw (field_exception (ch_loc c) key (PName key :: rev p) ex)). split.
          + split; [congruence|]. intros _ k _. unfold dfield. rewrite build_error_path_rev. simpl (rev _). rewrite rev_involutive.
            unfold called_with in Ha. rewrite Ha. reflexivity.
          + rewrite field_exception_located. simpl (rev _). rewrite rev_involutive. reflexivity.
        - destruct (completed_uniform (fun k o' p' v' errs' => dresolve k e o' (rev p') (sub_selections c) = Ok (mkRR v' errs')) key (ch_loc c) f
            (p ++ [PName key]) v errs) as [N HN].
          { eapply completed_mono; [|exact Hcm]. intros o' p' v' errs' Hx. apply (IH _ _ _ _ _ Hx). }
          exists N, (Ok (mkRR v errs)). split; [|reflexivity]. split; [congruence|]. intros _ k Hk.
          unfold dfield. rewrite build_error_path_rev. simpl (rev _). rewrite rev_involutive. unfold called_with in Ha. rewrite Ha.
          specialize (HN k Hk).
          pose proof (completed_convert O (fun o' fp'' => dresolve k e o' fp'' (sub_selections c)) key (ch_loc c) (option_map fst (ch_sub c)) f
             (p ++ [PName key]) v errs HN) as CC.
          rewrite rev_app_distr in CC. simpl in CC. unfold sub_selections, ExecDirect.dresolve in CC. rewrite CC; [reflexivity|].
          destruct (ch_sub c); exact Hsh. }
      destruct Hx as (N1 & x & Hx & Ho). exists (N0 + N1), (x :: xs). split; [|split].
      - constructor.
        + cbn [fst snd]. destruct Hx as [S1 S2]. split; auto. intros Hu k Hk. apply S2; [auto|lia].
        + clear -H1. induction H1 as [|kc y l ys Hy H1 IH]; constructor; auto. destruct Hy as [S1 S2]. split; auto. intros Hu k Hk. apply S2; [auto|lia].
      - simpl. constructor; auto.
      - simpl. congruence. }
    destruct Hst as (N & xs & H1 & H2 & H3).
    destruct (collects_visit O typenames has_field ans vars e Hc Hv o (rev p) _ _ _ Hcol N) as [m Hm].
    assert (Ef : fresh (mkD [] []) items = items) by (unfold fresh; simpl; apply filter_true; reflexivity).
    destruct (visits_first O typenames has_field ans e o (rev p) N items (mkD [] []) xs) as (d' & V & Ev); [rewrite Ef; exact H1|].
    rewrite Ef in Ev. simpl in Ev.
    exists m. intros k Hk. rewrite dresolve_eq, (Hm k _ d' Hk V). cbn [bind]. rewrite Ev.
    assert (Hmap : mapM (fun kv => outcome (fst kv) (snd kv)) (combine (map fst (first_chosen items)) xs) = Ok (map (fun ve => mkRR (fst ve) (snd ve)) outs)).
    { clear -H2. induction H2 as [|kx ve l outs Hx H2 IH]; simpl; auto. rewrite Hx. simpl. rewrite IH. reflexivity. }
    rewrite Hmap. cbn [bind]. rewrite combine_keys by (rewrite map_length; auto). rewrite map_map. simpl. do 2 f_equal.
    rewrite !flat_map_concat_map, map_map. reflexivity.
  Qed.
End Sound.

(** Whatever the schedule, the outcome of a selection set on an object is the map of its response keys in order of first appearance,
    each with the value that completing the accessor's answer for the first of its fields gives, and the errors of the fields in the
    same order; a field that is unknown or whose accessor throws is null and has an error with its location and path. *)
Theorem C45_execution : forall O (typenames : O -> list string) has_field ans vars e n sels o p v errs,
  copyable vars -> e_vars e = VMap vars -> executes typenames has_field ans vars e n sels o p v errs ->
  forall r, results typenames has_field ans e o (rev p) sels r <-> r = Ok (mkRR v errs).
Proof.
  intros O typenames has_field ans vars e n sels o p v errs Hc Hv H.
  destruct (executes_resolve O typenames has_field ans vars e Hc Hv n sels o p v errs H) as [N HN].
  assert (R : results typenames has_field ans e o (rev p) sels (Ok (mkRR v errs))).
  { apply results_iff. split; [discriminate|]. exists N. apply HN. lia. }
  intros r. split.
  - intros R'. eapply results_fun; eauto.
  - intros ->. exact R.
Qed.

Lemma lookup_position : forall (es : entries) ks, map fst es = ks -> NoDup ks ->
  Forall2 (fun k kv => fst kv = k /\ lookup k es = Some (snd kv)) ks es.
Proof.
  induction es as [|[k v] es IH]; intros ks <- ND; simpl; constructor.
  - simpl. rewrite String.eqb_refl. auto.
  - inversion ND as [|? ? N ND']; subst. specialize (IH _ eq_refl ND').
    assert (G : forall ks', (forall x, In x ks' -> In x (map fst es)) -> forall es', Forall2 (fun k0 kv => fst kv = k0 /\ lookup k0 es = Some (snd kv)) ks' es' ->
            Forall2 (fun k0 kv => fst kv = k0 /\ lookup k0 ((k, v) :: es) = Some (snd kv)) ks' es').
    { intros ks' Hin es' F. induction F as [|a b ks' es' [F1 F2] F IHF]; constructor.
      - split; auto. simpl. destruct (String.eqb_spec a k); [|auto]. subst a. exfalso. apply N. apply Hin. now left.
      - apply IHF. intros x Hx. apply Hin. now right. }
    apply G; auto.
Qed.

Lemma operation_variables_complete : forall given decls es, NoDup (map v_name decls) -> copyable given ->
  variables_of decls given es -> operation_variables (VMap given) decls [] = Ok es.
Proof.
  intros given decls es ND Hc [K V].
  assert (F : Forall2 (fun d kv => fst kv = v_name d /\ variable_value (VMap given) d = Ok (snd kv)) decls es).
  { pose proof (lookup_position es _ K ND) as L. clear K ND.
    assert (Hin : forall d, In d decls -> forall x, lookup (v_name d) es = Some x -> variable_value (VMap given) d = Ok x).
    { intros d I x Hx. specialize (V d I). unfold variable_value. destruct (lookup (v_name d) given) as [g|] eqn:G.
      - unfold vcopy. rewrite (Hc _ _ G). congruence.
      - destruct (v_default d) as [l|]; [|congruence]. destruct V as (y & V1 & V2). apply visit_value_iff in V1; auto. congruence. }
    clear V.
    assert (G : forall ks es', Forall2 (fun k kv => fst kv = k /\ lookup k es = Some (snd kv)) ks es' ->
              forall decls, ks = map v_name decls -> (forall d, In d decls -> forall x, lookup (v_name d) es = Some x -> variable_value (VMap given) d = Ok x) ->
              Forall2 (fun d kv => fst kv = v_name d /\ variable_value (VMap given) d = Ok (snd kv)) decls es').
    { clear. intros ks es' L. induction L as [|k kv ks es' [L1 L2] L IH]; intros decls E Hin; destruct decls as [|d decls]; try discriminate; constructor.
      - simpl in E. injection E as E1 E2. split; [congruence|]. apply Hin; [now left|]. congruence.
      - simpl in E. injection E as E1 E2. apply IH; auto. intros d' I. apply Hin. now right. }
    eapply G; eauto. }
  assert (Go : forall decls es acc, Forall2 (fun d kv => fst kv = v_name d /\ variable_value (VMap given) d = Ok (snd kv)) decls es ->
            NoDup (map fst acc ++ map v_name decls) -> operation_variables (VMap given) decls acc = Ok (acc ++ es)).
  { clear. intros decls es acc F. revert acc. induction F as [|d [k v] decls es [F1 F2] F IH]; intros acc ND; cbn [operation_variables].
    - now rewrite app_nil_r.
    - rewrite F2. cbn [bind]. simpl in F1. subst k. unfold map_emplace.
      assert (Kf : has_key (v_name d) acc = false).
      { apply has_key_notin. intros I. simpl in ND. apply NoDup_remove_2 in ND. apply ND. apply in_or_app. auto. }
      rewrite Kf. cbn [fst]. rewrite IH; [now rewrite <- app_assoc|]. rewrite map_app, <- app_assoc. exact ND. }
  rewrite (Go decls es [] F); auto.
Qed.

(** The whole response to a request for a query or mutation: "data" and, if there are any, "errors". *)
Theorem C45_response : forall O (typenames : O -> list string) has_field roots validate l doc name given ans
    St (handler : St -> O -> string -> fparams -> St * answer O) op es ds frags root n v errs,
  copyable given -> NoDup (map v_name (op_vars op)) -> answers_alone handler ans -> validate doc = [] ->
  selects name (operations doc) op -> op_kind op <> "subscription" ->
  variables_of (op_vars op) given es -> fragments_of given doc frags -> dirs_value es (named_only (op_dirs op)) ds ->
  find_root O (op_kind op) roots = Some (Some root) ->
  executes typenames has_field ans es (mkEnv (if String.eqb (op_kind op) "mutation" then CMutation else CQuery) ds frags (VMap es) LDeferred)
    n (op_sel op) root [] v errs ->
  exists N, forall fuel, N <= fuel -> forall s d,
    responds handler s (start_request O typenames has_field roots fuel validate l doc name (VMap given)) d
    <-> d = Ok (VMap (("data", v) :: match errs with [] => [] | _ => [("errors", VList (map build_error_entry errs))] end)).
Proof.
  intros O typenames has_field roots validate l doc name given ans St handler op es ds frags root n v errs
    Hc ND A Va Sel Ks Hvars Hfr Hds Hroot Hex.
  pose proof (variables_copyable _ _ _ Hc Hvars) as Hce.
  destruct (executes_resolve O typenames has_field ans es (mkEnv (if String.eqb (op_kind op) "mutation" then CMutation else CQuery) ds frags (VMap es) LDeferred) Hce eq_refl n _ _ _ _ _ Hex) as [N HN]. exists N. intros fuel Hf s d.
  unfold start_request, start_operation. apply fragments_iff in Hfr; auto. rewrite Hfr. cbn [bind]. rewrite Va.
  apply find_selects in Sel. rewrite Sel. destruct (String.eqb_spec (op_kind op) "subscription") as [|_]; [contradiction|].
  cbv zeta. unfold visit_operation. rewrite (operation_variables_complete _ _ _ ND Hc Hvars). cbn [bind].
  rewrite visit_directives_named. apply dirs_value_iff in Hds; auto; [|apply named_only_named]. rewrite Hds. cbn [bind].
  rewrite Hroot. cbn [bind].
  rewrite (responds_iff O ans St handler A). rewrite (den_resolve O typenames has_field ans).
  rewrite (dresolve_launch O typenames has_field ans fuel _ _ _ _ (if String.eqb (op_kind op) "mutation" then LDeferred else l) LDeferred).
  cbn [rev] in HN. rewrite (HN fuel Hf). unfold finish, build_document, rmap. simpl. destruct errs; reflexivity.
Qed.

(** A selection set with arguments, a fragment, a dropped field, a repeated key, a failing field, an unknown field and a list. *)
Definition ex45_frags : list (string * fragment) := [("F", mkFragment "Character" [("d", VMap [])] [obj_fld 3 "pet" [fld 4 "name"; fld 5 "boom"]])].
Definition ex45_sels : list selection :=
  [SField (at_ 1) (Some "e") "echo" [(at_ 1, ("x", LVar (at_ 1) "v"))] [] None; obj_fld 2 "hero" [SSpread (at_ 2) "F" []; fld 6 "name"];
   fld_d 7 "numbers" [cond_dir "include" (LBool (at_ 7) false)]; fld 8 "numbers"; fld 9 "nothing";
   SInline (at_ 10) None [] [obj_fld 10 "heroes" [fld 11 "name"]]].
Definition ex45_vars : entries := [("v", VInt 7)].
Definition ex45_data : value :=
  VMap [("e", VMap [("x", VInt 7)]); ("hero", VMap [("pet", VMap [("name", VString "Rex" false); ("boom", VNull)]); ("name", VString "Luke" false)]);
        ("nothing", VNull); ("heroes", VList [VMap [("name", VString "Luke" false)]; VNull; VMap [("name", VString "Rex" false)]])].
Definition ex45_errors : list schema_error := [mkErr "bad dog" (at_ 5) [PName "hero"; PName "pet"; PName "boom"]; mkErr "Unknown field name: nothing" (at_ 9) []].

Lemma decided_none : forall vars, decided vars [] [] true.
Proof.
  intros vars. split; [constructor|]. split; [exists []; split; [constructor | reflexivity]|]. split; [split; left; reflexivity|]. split; [left; reflexivity|].
  split; [discriminate|]. intros [H|H]; discriminate.
Qed.

Example C45_met : executes ex_types ex_has ex_ans ex45_vars (ex_env ex45_frags ex45_vars LDeferred) 3 ex45_sels Root [] ex45_data ex45_errors.
Proof.
  assert (D0 : decided ex45_vars [cond_dir "include" (LBool (at_ 7) false)] [("include", VMap [("if", VBool false)])] false).
  { split; [repeat constructor; discriminate|]. split; [apply dirs_value_iff; [| repeat constructor; discriminate | reflexivity]|].
    - intros k v. simpl. destruct (String.eqb_spec k "v"); [|discriminate]. intros E; injection E as <-. reflexivity.
    - split; [split; [left; reflexivity | right; exists false; reflexivity]|]. split; [left; reflexivity|].
      split; [intros _; right; reflexivity | reflexivity]. }
  assert (A1 : args_value ex45_vars [(at_ 1, ("x", LVar (at_ 1) "v"))] [("x", VInt 7)]) .
  { apply args_value_iff; [|reflexivity]. intros k v. simpl. destruct (String.eqb_spec k "v"); [|discriminate]. intros E; injection E as <-. reflexivity. }
  assert (A0 : args_value ex45_vars [] []) by (exists []; split; [constructor | reflexivity]).
  pose proof (decided_none ex45_vars) as N0.
  eexists _, [(VMap [("x", VInt 7)], []); (_, _); (VNull, _); (_, _)]. split; [|split].
  - eapply co_field; [exact N0 | exact A1|]. eapply co_field; [exact N0 | exact A0|].
    eapply co_field_dropped; [exact D0 | reflexivity|]. eapply co_field; [exact N0 | exact A0|]. eapply co_field; [exact N0 | exact A0|].
    eapply co_inline; [discriminate | exact N0 | | constructor]. eapply co_field; [exact N0 | exact A0 | constructor].
  - cbv [first_chosen firsts flat_map fst snd app response_key filter map negb]; simpl. constructor; [|constructor; [|constructor; [|constructor; [|constructor]]]]; cbn [fst snd].
    + eapply fv_result; [reflexivity | reflexivity | simpl; discriminate | constructor].
    + eapply fv_result; [reflexivity | reflexivity | simpl; reflexivity |]. eapply cp_derived. eexists _, [(_, _); (_, _)]. split; [|split; [|split; reflexivity]].
      * eapply co_spread with (i1 := [_]); [reflexivity | right; left; reflexivity | exact N0 | |].
        { simpl. eapply co_field; [exact N0 | exact A0 | constructor]. }
        eapply co_field; [exact N0 | exact A0 | constructor].
      * cbv [first_chosen firsts flat_map fst snd app response_key filter map negb]; simpl. constructor; [|constructor; [|constructor]]; cbn [fst snd].
        { eapply fv_result; [reflexivity | reflexivity | simpl; reflexivity |]. apply cp_nullable, cp_object. eexists _, [(_, _); (_, _)]. split; [|split; [|split; reflexivity]].
          - eapply co_field; [exact N0 | exact A0 |]. eapply co_field; [exact N0 | exact A0 | constructor].
          - constructor; [|constructor; [|constructor]]; cbn [fst snd].
            + eapply fv_result; [reflexivity | reflexivity | simpl; discriminate | constructor].
            + eapply fv_throws; reflexivity. }
        { eapply fv_result; [reflexivity | reflexivity | simpl; discriminate | constructor]. }
    + apply fv_unknown; reflexivity.
    + eapply fv_result; [reflexivity | reflexivity | simpl; repeat split |].
      eapply (cp_list _ _ _ _ _ [(VMap [("name", VString "Luke" false)], []); (VNull, []); (VMap [("name", VString "Rex" false)], [])]).
      apply ci_cons; [apply cp_derived|apply ci_cons; [apply cp_null|apply ci_cons; [apply cp_object|apply ci_nil]]];
        (eexists _, [(_, _)]; split; [eapply co_field; [exact N0 | exact A0 | constructor]|];
         split; [constructor; [|constructor]; eapply fv_result; [reflexivity | reflexivity | simpl; discriminate | constructor]|]; split; reflexivity).
  - split; reflexivity.
Qed.

(** Fields of the same response key are not merged: the sub-selection of the second one is not executed. *)
Theorem C45_merge_refuted : exists n1 n2,
  results ex_types ex_has ex_ans (ex_env [] [] LAsync) Root [] [obj_fld 1 "hero" [fld 1 n1]; obj_fld 2 "hero" [fld 2 n2]]
    (Ok (mkRR (VMap [("hero", VMap [(n1, VString "Luke" false)])]) [])) /\
  results ex_types ex_has ex_ans (ex_env [] [] LAsync) Root [] [obj_fld 2 "hero" [fld 2 n2]]
    (Ok (mkRR (VMap [("hero", VMap [(n2, VNull)])]) [mkErr "Field error name: boom unknown error: boom" (at_ 2) [PName "hero"; PName "boom"]])).
Proof. exists "name", "boom". split; by_run 5. Qed.

Print Assumptions C45_execution. Print Assumptions C45_response. Print Assumptions C45_merge_refuted.
