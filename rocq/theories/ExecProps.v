(** Theorems about execution: C11, C12, C13, C14, C15. *)
From Verif Require Import Cpp Value Ast ErrorModel ExecModel ExecSem ExecSemProofs ExecDirect ExecSpec ExecValues ExecMono
  ExecProofs ExecProofs2 ExecProofs3 ExecProofs4 ExecExamples.
Local Open Scope string_scope.
Local Open Scope list_scope.

Ltac by_run n := apply results_iff; split; [discriminate | exists n; vm_compute; reflexivity].

(** ** C11 *)

Lemma decides_eval : forall vars e dirs b, copyable vars -> e_vars e = VMap vars -> decides vars dirs b ->
  exists ds, dirs_value vars dirs ds /\ directives_of e dirs = Ok (ds, negb b).
Proof.
  intros vars e dirs b Hc Hv [es [Hn [Hd [Hvc [Ho He]]]]]. exists es. split; auto.
  apply (dirs_eval vars); auto. destruct (should_skip_iff es Hvc Ho) as [b' [E1 E2]]. rewrite E1. f_equal.
  destruct b, b'; simpl; auto.
  - assert (true = false) by tauto. discriminate.
  - assert (false = true) by tauto. discriminate.
Qed.

(** no event of a run of a program that only emits *)
Lemma emits_only : forall O St (h : St -> O -> string -> fparams -> St * answer O) a b r n s evs s' t',
  steps h n s (T [] (Emit a (Emit b (Ret r)))) evs s' t' -> incl evs [a; b].
Proof.
  intros O St h a b r n s evs s' t' H.
  assert (NK : forall (i : nat) (t : thread O), nth_error (@nil (kid O)) i = Some (KRun t) -> False) by (intros [|i] t E; discriminate).
  inversion H as [|m ? ? ev ? ? evs' ? ? S1 H']; subst; [intros x []|].
  inversion S1; subst; try (exfalso; eapply NK; eassumption).
  inversion H' as [|m' ? ? ev' ? ? evs'' ? ? S2 H'']; subst; [intros x Hx; rewrite app_nil_r in Hx; simpl in *; tauto|].
  inversion S2; subst; try (exfalso; eapply NK; eassumption).
  inversion H'' as [|m'' ? ? ev'' ? ? evs3 ? ? S3 H3]; subst; [intros x Hx; simpl in *; tauto|].
  inversion S3; subst; exfalso; eapply NK; eassumption.
Qed.

(** A field that is excluded: no accessor is called in any execution, and the result has no entry for it. *)
Theorem C11_field_dropped_partial : forall O (typenames : O -> list string) has_field vars e o fp loc al nm args dirs sub fuel,
  copyable vars -> e_vars e = VMap vars -> decides vars dirs false -> has_field o nm = true ->
  (forall St (h : St -> O -> string -> fparams -> St * answer O) n s evs s' t',
     steps h n s (T [] (resolve O typenames has_field (S fuel) e o fp [SField loc al nm args dirs sub] Ret)) evs s' t' ->
     forall o' f p, ~ In (EvCall o' f p) evs) /\
  (forall ans, results typenames has_field ans e o fp [SField loc al nm args dirs sub] (Ok (mkRR (VMap []) []))).
Proof.
  intros O typenames has_field vars e o fp loc al nm args dirs sub fuel Hc Hv D Hf.
  destruct (decides_eval _ e _ _ Hc Hv D) as [ds [Hd E]]. simpl in E. split.
  - intros St h n s evs s' t' H o' f p I.
    assert (P : resolve O typenames has_field (S fuel) e o fp [SField loc al nm args dirs sub] Ret =
                Emit (EvBegin o (build_error_path fp)) (Emit (EvEnd o (build_error_path fp)) (Ret (Ok (mkRR (VMap []) []))))).
    { unfold resolve, resolve_with. simpl. unfold visit_field. simpl. rewrite Hf. simpl. unfold directives_of in E. rewrite E. reflexivity. }
    rewrite P in H. apply emits_only in H. apply H in I. simpl in I. destruct I as [I|[I|[]]]; discriminate.
  - intros ans. apply results_iff. split; [discriminate|]. exists 1. rewrite dresolve_single. simpl. unfold dvisit_field. simpl. rewrite Hf. simpl. rewrite E. reflexivity.
Qed.

(** A field that is not excluded: its accessor is called in every complete execution. *)
Theorem C11_field_kept_partial : forall O (typenames : O -> list string) has_field vars e o fp loc al nm args avs dirs sub fuel,
  copyable vars -> e_vars e = VMap vars -> decides vars dirs true -> args_value vars args avs -> has_field o nm = true ->
  forall St (h : St -> O -> string -> fparams -> St * answer O) n s evs s' t' r,
    steps h n s (T [] (resolve O typenames has_field (S fuel) e o fp [SField loc al nm args dirs sub] Ret)) evs s' t' -> ended t' r ->
    exists p, In (EvCall o nm p) evs /\ p_path p = rev fp ++ [PName (response_key al nm)].
Proof.
  intros O typenames has_field vars e o fp loc al nm args avs dirs sub fuel Hc Hv D Ha Hf St h n s evs s' t' r H E0.
  destruct (decides_eval _ e _ _ Hc Hv D) as [ds [Hd E]]. simpl in E.
  assert (NK : forall (i : nat) (t : thread O), nth_error (@nil (kid O)) i = Some (KRun t) -> False) by (intros [|i] t E1; discriminate).
  unfold resolve, resolve_with in H. simpl in H. unfold visit_field in H. simpl in H. rewrite Hf in H. simpl in H.
  unfold directives_of in E. rewrite E in H. apply args_value_iff in Ha; auto. rewrite Hv, Ha in H.
  inversion H as [|m ? ? ev ? ? evs' ? ? S1 H']; subst; [simpl in E0; contradiction|].
  inversion S1; subst; try (exfalso; eapply NK; eassumption).
  inversion H' as [|m' ? ? ev' ? ? evs'' ? ? S2 H'']; subst; [simpl in E0; contradiction|].
  inversion S2; subst; try (exfalso; eapply NK; eassumption).
  eexists. split; [right; left; reflexivity|]. simpl. rewrite build_error_path_rev. reflexivity.
Qed.

(** A fragment spread or inline fragment that is excluded can be removed. *)
Theorem C11_spread_dropped_partial : forall O (typenames : O -> list string) has_field ans vars e o fp loc nm dirs fr pre post,
  copyable vars -> e_vars e = VMap vars -> find_fragment nm (e_frags e) = Some fr -> decides vars dirs false ->
  forall r, results typenames has_field ans e o fp (pre ++ [SSpread loc nm dirs] ++ post) r <->
            results typenames has_field ans e o fp (pre ++ post) r.
Proof.
  intros O typenames has_field ans vars e o fp loc nm dirs fr pre post Hc Hv Hf D.
  destruct (decides_eval _ e _ _ Hc Hv D) as [ds [Hd E]]. apply (spread_dropped O typenames has_field ans e o fp loc nm dirs fr); auto.
  left. eauto.
Qed.
Theorem C11_inline_dropped_partial : forall O (typenames : O -> list string) has_field ans vars e o fp loc cond dirs sel pre post,
  copyable vars -> e_vars e = VMap vars -> decides vars dirs false ->
  forall r, results typenames has_field ans e o fp (pre ++ [SInline loc cond dirs sel] ++ post) r <->
            results typenames has_field ans e o fp (pre ++ post) r.
Proof.
  intros O typenames has_field ans vars e o fp loc cond dirs sel pre post Hc Hv D.
  destruct (decides_eval _ e _ _ Hc Hv D) as [ds [Hd E]]. apply (inline_dropped O typenames has_field ans e o fp loc cond dirs sel ds true); auto.
Qed.

(** decide from the evaluation *)
Lemma decides_run : forall vars dirs es b, copyable vars -> named_dirs dirs -> visit_directives (VMap vars) dirs [] = Ok es ->
  valid_conditions es -> one_condition es -> (b = false <-> excluded es) -> decides vars dirs b.
Proof. intros vars dirs es b Hc Hn E V1 V2 V3. exists es. split; auto. split; [now apply dirs_value_iff | auto]. Qed.
Lemma copyable_v : copyable [("v", VBool true)].
Proof. intros n v H. simpl in H. destruct (String.eqb n "v"); inversion H. reflexivity. Qed.
Lemma copyable_nil : copyable [].
Proof. intros n v H. discriminate. Qed.

(** The hypotheses are met: variables, both directives, fields and fragments. *)
Example C11_met_false : decides [("v", VBool true)] [cond_dir "skip" (LVar (at_ 1) "v")] false.
Proof.
  apply (decides_run _ _ [("skip", VMap [("if", VBool true)])] _ copyable_v); [repeat constructor; discriminate | reflexivity | | |].
  - split; [right; exists true; reflexivity | left; reflexivity].
  - right; reflexivity.
  - split; [intros _; left; reflexivity | reflexivity].
Qed.
Example C11_met_true : decides [("v", VBool true)] [cond_dir "include" (LVar (at_ 1) "v"); mkDir (at_ 1) "other" []] true.
Proof.
  apply (decides_run _ _ [("include", VMap [("if", VBool true)]); ("other", VMap [])] _ copyable_v); [repeat constructor; discriminate | reflexivity | | |].
  - split; [left; reflexivity | right; exists true; reflexivity].
  - left; reflexivity.
  - split; [discriminate | intros [H|H]; discriminate].
Qed.

(** The full property is false: @skip(if: false) @include(if: false) keeps the field. *)
Theorem C11_both_directives_refuted : exists dirs ds,
  dirs_value [] dirs ds /\ excluded ds /\
  results ex_types ex_has ex_ans (ex_env [] [] LAsync) Human [] [fld_d 1 "name" dirs] (Ok (mkRR (VMap [("name", VString "Luke" false)]) [])).
Proof.
  exists [cond_dir "skip" (LBool (at_ 1) false); cond_dir "include" (LBool (at_ 1) false)],
    [("skip", VMap [("if", VBool false)]); ("include", VMap [("if", VBool false)])]. split; [|split].
  - apply dirs_value_iff; [apply copyable_nil | repeat constructor; discriminate | reflexivity].
  - right. reflexivity.
  - by_run 3.
Qed.

(** ** C12 *)

Lemma first_kept_kept_keys : forall occs, unmixed occs -> first_kept occs = kept_keys occs.
Proof.
  unfold first_kept, kept_keys. induction occs as [|oc occs IH]; intros U; simpl; auto.
  assert (U' : unmixed occs) by (intros a b Ha Hb; apply U; now right). specialize (IH U').
  assert (F : forall k l, map fst (filter snd (filter (fun kv : string * bool => negb (String.eqb (fst kv) k)) l)) =
                          filter (fun x => negb (String.eqb x k)) (map fst (filter snd l))).
  { intros k l. induction l as [|[x b] l IHl]; simpl; auto.
    destruct (String.eqb_spec x k); destruct b; simpl; rewrite ?IHl; subst; rewrite ?String.eqb_refl; auto.
    destruct (String.eqb_spec x k); [contradiction | reflexivity]. }
  assert (G : forall k (l : list (string * unit)), map fst (filter (fun kv => negb (String.eqb (fst kv) k)) l) =
                          filter (fun x => negb (String.eqb x k)) (map fst l)).
  { intros k l. induction l as [|[x b] l IHl]; simpl; auto. destruct (String.eqb_spec x k); simpl; rewrite IHl; auto. }
  destruct (oc_kept oc) eqn:K; simpl; rewrite F, IH.
  - now rewrite G.
  - clear F G IH. assert (N : ~ In (oc_key oc) (map fst (firsts (map (fun o => (oc_key o, tt)) (filter oc_kept occs))))).
    { intros H. apply in_map_iff in H. destruct H as [[k u] [Ek H]]. apply in_firsts in H. apply in_map_iff in H.
      destruct H as [oc' [E' H]]. apply filter_In in H. destruct H as [H1 H2]. simpl in Ek. inversion E'. subst k.
      rewrite (U oc oc') in K; [congruence | now left | now right | congruence]. }
    induction (map fst (firsts (map (fun o => (oc_key o, tt)) (filter oc_kept occs)))) as [|x l IHl]; simpl; auto.
    destruct (String.eqb_spec x (oc_key oc)); [exfalso; apply N; now left|]. simpl. rewrite IHl; auto. intros H. apply N. now right.
Qed.

(** The keys of the result are those of the kept fields after expanding fragments, in order of first appearance.
    Missing: a key some of whose occurrences are dropped (see the refutation), both directives on one selection (C11). *)
Theorem C12_result_keys_partial : forall O (typenames : O -> list string) has_field ans vars e o fp sels occs r,
  copyable vars -> e_vars e = VMap vars -> expands vars (e_frags e) (typenames o) sels occs ->
  Forall (fun oc => has_field o (oc_name oc) = true) occs -> unmixed occs ->
  results typenames has_field ans e o fp sels (Ok r) ->
  exists es, data r = VMap es /\ map fst es = kept_keys occs /\ NoDup (map fst es).
Proof.
  intros O typenames has_field ans vars e o fp sels occs r Hc Hv X HF U R. apply results_iff in R. destruct R as [_ [n R]].
  destruct (keys_exact O typenames has_field ans vars e o sels occs n fp r Hc Hv X HF R) as [es [E1 E2]].
  exists es. split; auto. rewrite E2, first_kept_kept_keys by auto. split; auto. apply firsts_nodup.
Qed.

(** Without [unmixed]: exactly the keys whose first occurrence is kept. *)
Theorem C12_result_keys_exact : forall O (typenames : O -> list string) has_field ans vars e o fp sels occs r,
  copyable vars -> e_vars e = VMap vars -> expands vars (e_frags e) (typenames o) sels occs ->
  Forall (fun oc => has_field o (oc_name oc) = true) occs ->
  results typenames has_field ans e o fp sels (Ok r) ->
  exists es, data r = VMap es /\
    map fst es = map fst (filter snd (firsts (map (fun oc => (oc_key oc, oc_kept oc)) occs))).
Proof.
  intros O typenames has_field ans vars e o fp sels occs r Hc Hv X HF R. apply results_iff in R. destruct R as [_ [n R]].
  destruct (keys_exact O typenames has_field ans vars e o sels occs n fp r Hc Hv X HF R) as [es E]. exists es. exact E.
Qed.

Definition no_dirs_decide : forall vars, decides vars [] true.
Proof.
  intros vars. exists []. split; [constructor|]. split; [exists []; split; [constructor | reflexivity]|].
  split; [split; left; reflexivity|]. split; [left; reflexivity|]. split; [discriminate | intros [H|H]; discriminate].
Defined.

(** A document with fragments, repeated keys and a dropped field. *)
Definition ex12_frags : list (string * fragment) := [("F", mkFragment "Character" [] [fld 3 "name"; obj_fld 3 "pet" [fld 4 "name"]])].
Definition ex12_sels : list selection :=
  [obj_fld 1 "self" [fld 2 "name"]; SSpread (at_ 5) "F" []; fld 6 "name"; SInline (at_ 7) (Some (at_ 7, "Dog")) [] [fld 8 "boom"];
   fld_d 9 "boom" [cond_dir "skip" (LVar (at_ 1) "v")]].
Example C12_met : exists r,
  expands [("v", VBool true)] ex12_frags (ex_types Human) ex12_sels
    [mkOcc "self" "self" true; mkOcc "name" "name" true; mkOcc "pet" "pet" true; mkOcc "name" "name" true; mkOcc "boom" "boom" false] /\
  results ex_types ex_has ex_ans (ex_env ex12_frags [("v", VBool true)] LAsync) Human [] ex12_sels (Ok r) /\
  exists es, data r = VMap es /\ map fst es = ["self"; "name"; "pet"].
Proof.
  eexists. split; [|split; [by_run 5|]].
  - unfold ex12_sels. apply ex_field; [apply no_dirs_decide|].
    change [mkOcc "name" "name" true; mkOcc "pet" "pet" true; mkOcc "name" "name" true; mkOcc "boom" "boom" false]
      with ([mkOcc "name" "name" true; mkOcc "pet" "pet" true] ++ [mkOcc "name" "name" true; mkOcc "boom" "boom" false]).
    eapply ex_spread; [reflexivity | simpl; tauto | apply no_dirs_decide | |].
    + apply ex_field; [apply no_dirs_decide|]. apply ex_field; [apply no_dirs_decide|]. apply ex_nil.
    + apply ex_field; [apply no_dirs_decide|]. eapply ex_inline_dropped; [apply no_dirs_decide | |].
      * right. exists (at_ 7), "Dog". split; auto. simpl. intros [H|[H|[]]]; discriminate.
      * apply ex_field; [apply C11_met_false | apply ex_nil].
  - eexists. split; reflexivity.
Qed.

(** The full property is false: a skipped field hides a later field with the same key. *)
Theorem C12_skipped_key_refuted : exists sels occs,
  expands [] [] (ex_types Human) sels occs /\ kept_keys occs = ["name"] /\
  results ex_types ex_has ex_ans (ex_env [] [] LAsync) Human [] sels (Ok (mkRR (VMap []) [])).
Proof.
  exists [fld_d 1 "name" [cond_dir "skip" (LBool (at_ 1) true)]; fld 2 "name"], [mkOcc "name" "name" false; mkOcc "name" "name" true].
  split; [|split; [reflexivity|by_run 3]].
  apply ex_field; [|apply ex_field; [apply no_dirs_decide|apply ex_nil]].
  apply (decides_run _ _ [("skip", VMap [("if", VBool true)])] _ copyable_nil); [repeat constructor; discriminate | reflexivity | | |].
  - split; [right; exists true; reflexivity | left; reflexivity].
  - right; reflexivity.
  - split; [intros _; left; reflexivity | reflexivity].
Qed.

(** ** C13 *)

(** Two services that differ only in what happens under response key [k] of this object: the other entries and errors
    are the same. In particular [k] may fail in one and succeed in the other. *)
Theorem C13_siblings : forall O (typenames : O -> list string) has_field a1 a2 e o fp k sels r1 r2,
  (forall k', k' <> k -> same_answers (rev fp ++ [PName k']) a1 a2) ->
  results typenames has_field a1 e o fp sels (Ok r1) -> results typenames has_field a2 e o fp sels (Ok r2) ->
  exists es1 es2, data r1 = VMap es1 /\ data r2 = VMap es2 /\ map fst es1 = map fst es2 /\
    (forall k', k' <> k -> lookup k' es1 = lookup k' es2) /\
    exists pre e1 e2 post, errors r1 = pre ++ e1 ++ post /\ errors r2 = pre ++ e2 ++ post.
Proof. intros. eapply siblings; eauto. Qed.

Lemma nodup_parts : forall (A : Type) (a b : list A) x, NoDup (a ++ x :: b) -> NoDup a /\ NoDup b.
Proof.
  intros A a b x. induction a as [|y a IH]; simpl; intros H.
  - inversion H; subst. split; [constructor | auto].
  - inversion H as [|? ? N H']; subst. destruct (IH H') as [I1 I2]. split; auto. constructor; auto.
    intros I. apply N. apply in_or_app. now left.
Qed.

(** A field whose accessor throws: null under its key, and its errors (with location and path) between those of the
    fields before and after it, which are what they are on their own. *)
Theorem C13_failed_field_partial : forall O (typenames : O -> list string) has_field ans vars e o fp pre post keys1 keys2 loc al nm args avs dirs ds sub ex r1 r2,
  copyable vars -> e_vars e = VMap vars -> decides vars dirs true -> dirs_value vars dirs ds -> args_value vars args avs -> has_field o nm = true ->
  fields_with_keys pre keys1 -> fields_with_keys post keys2 -> NoDup (keys1 ++ response_key al nm :: keys2) ->
  ans o nm (mkParams (e_context e) (e_opdirs e) no_fdirs (rev fp ++ [PName (response_key al nm)]) (response_key al nm) avs ds) = AThrow ex ->
  results typenames has_field ans e o fp pre (Ok r1) -> results typenames has_field ans e o fp post (Ok r2) ->
  exists es1 es2, data r1 = VMap es1 /\ data r2 = VMap es2 /\
  results typenames has_field ans e o fp (pre ++ SField loc al nm args dirs sub :: post)
    (Ok (mkRR (VMap (es1 ++ (response_key al nm, VNull) :: es2))
              (errors r1 ++ located loc (rev fp ++ [PName (response_key al nm)]) (response_key al nm) ex ++ errors r2))).
Proof.
  intros O typenames has_field ans vars e o fp pre post keys1 keys2 loc al nm args avs dirs ds sub ex r1 r2 Hc Hv D Hd Ha Hf K1 K2 ND A R1 R2.
  destruct (decides_eval _ e _ _ Hc Hv D) as [ds' [Hd' E]]. simpl in E.
  destruct D as [es0 [Hn _]].
  assert (E2 : visit_directives (VMap vars) dirs [] = Ok ds) by (apply dirs_value_iff in Hd; auto).
  assert (Hs : should_skip ds = Ok false).
  { unfold directives_of in E. rewrite Hv, E2 in E. simpl in E. destruct (should_skip ds); simpl in E; inversion E; congruence. }
  pose proof (failed_field O typenames has_field ans vars e o fp loc al nm args dirs sub avs ds ex Hc Hv Hn Hd Hs Ha Hf A) as F.
  pose proof (nodup_parts _ _ _ _ ND) as ND1.
  apply (results_fields O typenames has_field ans e o fp pre keys1 K1 (proj1 ND1)) in R1. destruct R1 as [rs1 [F1 J1]].
  apply (results_fields O typenames has_field ans e o fp post keys2 K2 (proj2 ND1)) in R2. destruct R2 as [rs2 [F2 J2]].
  exists (flat_map entries_of rs1), (flat_map entries_of rs2). split; [now rewrite J1|]. split; [now rewrite J2|].
  apply (results_fields O typenames has_field ans e o fp _ (keys1 ++ response_key al nm :: keys2)); auto.
  - apply Forall2_app; auto; constructor; auto; reflexivity.
  - eexists (rs1 ++ _ :: rs2). split.
    + apply Forall2_app; [exact F1|]. constructor; [exact F | exact F2].
    + unfold join_rr. rewrite !flat_map_app. simpl. now rewrite J1, J2.
Qed.

Example C13_met :
  results ex_types ex_has ex_ans (ex_env [] [] LAsync) Human [] [fld 1 "name"; fld 2 "boom"; obj_fld 3 "pet" [fld 4 "name"]]
    (Ok (mkRR (VMap [("name", VString "Luke" false); ("boom", VNull); ("pet", VMap [("name", VString "Rex" false)])])
              [mkErr "Field error name: boom unknown error: boom" (at_ 2) [PName "boom"]])).
Proof. by_run 5. Qed.

(** The full property is false: an exception delivered by a future of an object gets neither location nor path. *)
Theorem C13_future_location_refuted : 
  results ex_types ex_has ex_ans (ex_env [] [] LAsync) Root [] [obj_fld 7 "late" [fld 8 "name"]]
    (Ok (mkRR (VMap [("late", VNull)]) [mkErr "Field error name: late unknown error: gone" (mkLoc 0 1) []])).
Proof. by_run 5. Qed.

(** ** C14 *)

(** A field whose result is a list (of lists, of nullable or non-null leaves and objects): one entry per element in
    order, leaves that fail give null and an error with their index, when every object in it resolves.
    Missing: object elements that fail, location of structured errors of elements (see the refutations). *)
Theorem C14_lists_partial : forall O (typenames : O -> list string) has_field ans vars e o fp loc al nm args avs dirs ds sub f v errs,
  copyable vars -> e_vars e = VMap vars -> decides vars dirs true -> dirs_value vars dirs ds -> args_value vars args avs -> has_field o nm = true ->
  ans o nm (mkParams (e_context e) (e_opdirs e) no_fdirs (rev fp ++ [PName (response_key al nm)]) (response_key al nm) avs ds) = AResult f ->
  shape_ok (match sub with Some _ => true | None => false end) f ->
  (exists fuel, completed (fun o' p' v' errs' =>
     computes typenames has_field ans fuel e o' (rev p') (match sub with Some (_, l) => l | None => [] end) (Ok (mkRR v' errs')))
    (response_key al nm) loc f (rev fp ++ [PName (response_key al nm)]) v errs) ->
  results typenames has_field ans e o fp [SField loc al nm args dirs sub] (Ok (mkRR (VMap [(response_key al nm, v)]) errs)).
Proof.
  intros O typenames has_field ans vars e o fp loc al nm args avs dirs ds sub f v errs Hc Hv D Hd Ha Hf A Sh [fuel C].
  destruct (decides_eval _ e _ _ Hc Hv D) as [ds' [Hd' E]]. simpl in E. destruct D as [es0 [Hn _]].
  assert (E2 : visit_directives (VMap vars) dirs [] = Ok ds) by (apply dirs_value_iff in Hd; auto).
  assert (Hs : should_skip ds = Ok false).
  { unfold directives_of in E. rewrite Hv, E2 in E. simpl in E. destruct (should_skip ds); simpl in E; inversion E; congruence. }
  apply results_iff. split; [discriminate|]. exists (S fuel).
  rewrite (resolve_field O typenames has_field ans vars fuel e o fp loc al nm args dirs sub avs ds); auto.
  unfold dfield. rewrite build_error_path_rev. simpl (rev (PName (response_key al nm) :: fp)). rewrite A. simpl.
  assert (C' : completed (fun o' p' v' errs' => (fun o' fp'' => dresolve_with O (dvisit O typenames has_field ans fuel e) o' fp'' (match sub with Some (_, l) => l | None => [] end)) o' (rev p') = Ok (mkRR v' errs'))
     (response_key al nm) loc f (rev fp ++ [PName (response_key al nm)]) v errs).
  { eapply completed_mono; [|exact C]. intros o' p' v' errs' H. apply computes_iff in H. exact H. }
  pose proof (completed_convert O _ (response_key al nm) loc (option_map fst sub) f (rev fp ++ [PName (response_key al nm)]) v errs C') as CC.
  rewrite rev_app_distr, rev_involutive in CC. simpl in CC. rewrite CC.
  - simpl. reflexivity.
  - destruct sub; exact Sh.
Qed.

Example C14_met :
  completed (fun o' p' v' errs' =>
     computes ex_types ex_has ex_ans 3 (ex_env [] [] LAsync) o' (rev p') [fld 2 "name"] (Ok (mkRR v' errs'))) "heroes" (at_ 1)
    (FList (Ok [FDerived (Ok (Some Human)); FNullable (Ok None); FObject true (Ok (Some Dog))])) [PName "heroes"]
    (VList [VMap [("name", VString "Luke" false)]; VNull; VMap [("name", VString "Rex" false)]]) [].
Proof.
  apply (cp_list _ _ _ _ _ [(VMap [("name", VString "Luke" false)], []); (VNull, []); (VMap [("name", VString "Rex" false)], [])]).
  repeat constructor; apply computes_iff; vm_compute; reflexivity.
Qed.
Example C14_met_leaves :
  results ex_types ex_has ex_ans (ex_env [] [] LAsync) Root [] [fld 5 "numbers"]
    (Ok (mkRR (VMap [("numbers", VList [VInt 1; VNull; VInt 3])])
              [mkErr "Field name: numbers unknown error: two" (at_ 5) [PName "numbers"; PIndex 1]])).
Proof. by_run 4. Qed.

(** The full property is false: a failing object element disappears and the elements after it move up. *)
Theorem C14_failed_object_refuted :
  results ex_types ex_has ex_ans (ex_env [] [] LAsync) Root [] [obj_fld 5 "lazy" [fld 6 "name"]]
    (Ok (mkRR (VMap [("lazy", VList [VMap [("name", VString "Rex" false)]; VMap [("name", VString "Luke" false)]])])
              [mkErr "Field error name: lazy unknown error: gone" (at_ 5) [PName "lazy"; PIndex 1]])).
Proof. by_run 4. Qed.

(** A structured error of a list element without a path keeps an empty path. *)
Theorem C14_structured_error_path_refuted :
  results ex_types ex_has (fun _ _ _ => AResult (FList (Ok [FLeaf true false (Throw (SchemaEx [mkErr "bad" (mkLoc 0 1) []]))])))
    (ex_env [] [] LAsync) Root [] [fld 5 "numbers"]
    (Ok (mkRR (VMap [("numbers", VList [VNull])]) [mkErr "bad" (mkLoc 0 1) []])).
Proof. by_run 4. Qed.

(** ** C15 *)

(** Spreading a fragment whose type condition holds is writing its selections inline; otherwise the spread contributes
    nothing. The same for inline fragments. *)
Theorem C15_spread_matching : forall O (typenames : O -> list string) has_field ans vars e o fp loc nm dirs fr pre post,
  copyable vars -> e_vars e = VMap vars -> ignores_fragment_directives ans -> find_fragment nm (e_frags e) = Some fr ->
  decides vars dirs true -> In (fr_type fr) (typenames o) ->
  forall r, results typenames has_field ans e o fp (pre ++ [SSpread loc nm dirs] ++ post) r <->
            results typenames has_field ans e o fp (pre ++ fr_sel fr ++ post) r.
Proof.
  intros O typenames has_field ans vars e o fp loc nm dirs fr pre post Hc Hv HI Hf D M.
  destruct (decides_eval _ e _ _ Hc Hv D) as [ds [Hd E]]. eapply spread_kept; eauto.
Qed.
Theorem C15_spread_not_matching : forall O (typenames : O -> list string) has_field ans e o fp loc nm dirs fr pre post,
  find_fragment nm (e_frags e) = Some fr -> ~ In (fr_type fr) (typenames o) ->
  forall r, results typenames has_field ans e o fp (pre ++ [SSpread loc nm dirs] ++ post) r <->
            results typenames has_field ans e o fp (pre ++ post) r.
Proof. intros. eapply spread_dropped; eauto. Qed.
Theorem C15_inline_matching : forall O (typenames : O -> list string) has_field ans vars e o fp loc cond dirs sel pre post,
  copyable vars -> e_vars e = VMap vars -> ignores_fragment_directives ans -> decides vars dirs true ->
  (forall l t, cond = Some (l, t) -> In t (typenames o)) ->
  forall r, results typenames has_field ans e o fp (pre ++ [SInline loc cond dirs sel] ++ post) r <->
            results typenames has_field ans e o fp (pre ++ sel ++ post) r.
Proof.
  intros O typenames has_field ans vars e o fp loc cond dirs sel pre post Hc Hv HI D M.
  destruct (decides_eval _ e _ _ Hc Hv D) as [ds [Hd E]]. eapply inline_kept; eauto.
Qed.
Theorem C15_inline_not_matching : forall O (typenames : O -> list string) has_field ans vars e o fp loc l t dirs b sel pre post,
  copyable vars -> e_vars e = VMap vars -> decides vars dirs b -> ~ In t (typenames o) ->
  forall r, results typenames has_field ans e o fp (pre ++ [SInline loc (Some (l, t)) dirs sel] ++ post) r <->
            results typenames has_field ans e o fp (pre ++ post) r.
Proof.
  intros O typenames has_field ans vars e o fp loc l t dirs b sel pre post Hc Hv D M.
  destruct (decides_eval _ e _ _ Hc Hv D) as [ds [Hd E]]. eapply inline_dropped; eauto.
Qed.
(** A spread of a fragment the document does not define stops the whole selection set with an error. *)
Theorem C15_unknown_fragment : forall O (typenames : O -> list string) has_field ans e o fp loc nm dirs,
  find_fragment nm (e_frags e) = None ->
  results typenames has_field ans e o fp [SSpread loc nm dirs] (Throw (SchemaEx [mkErr ("Unknown fragment name: " ++ nm) loc (rev fp)])).
Proof.
  intros O typenames has_field ans e o fp loc nm dirs H. apply results_iff. split; [discriminate|]. exists 1.
  rewrite dresolve_single. simpl. unfold dvisit_spread. rewrite H, build_error_path_rev. reflexivity.
Qed.

Example C15_met :
  ignores_fragment_directives ex_ans /\ find_fragment "F" ex12_frags = Some (mkFragment "Character" [] [fld 3 "name"; obj_fld 3 "pet" [fld 4 "name"]]) /\
  In "Character" (ex_types Human) /\ ~ In "Character" (ex_types Dog) /\
  results ex_types ex_has ex_ans (ex_env ex12_frags [] LAsync) Human [] [SSpread (at_ 1) "F" []]
    (Ok (mkRR (VMap [("name", VString "Luke" false); ("pet", VMap [("name", VString "Rex" false)])]) [])) /\
  results ex_types ex_has ex_ans (ex_env ex12_frags [] LAsync) Dog [] [fld 1 "name"; SSpread (at_ 1) "F" []]
    (Ok (mkRR (VMap [("name", VString "Rex" false)]) [])).
Proof.
  split; [intros o f [? ? ? ? ? ? ?] fd; reflexivity|]. split; [reflexivity|]. split; [simpl; tauto|].
  split; [simpl; intros [H|[H|[]]]; discriminate|]. split; [by_run 6 | by_run 6].
Qed.
