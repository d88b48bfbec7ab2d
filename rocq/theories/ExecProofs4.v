(** Siblings and lists at the level of outcomes. *)
From Verif Require Import Cpp Value Ast ErrorModel ExecModel ExecSem ExecSemProofs ExecDirect ExecSpec ExecValues ExecMono ExecProofs ExecProofs2 ExecProofs3.
Local Open Scope string_scope.
Local Open Scope list_scope.

Lemma field_exception_located : forall loc key fp e, field_exception loc key fp e = SchemaEx (located loc (rev fp) key e).
Proof.
  intros loc key fp [c w|errs]; simpl; rewrite ?build_error_path_rev; auto. do 2 f_equal.
  unfold fill_error. rewrite build_error_path_rev. reflexivity.
Qed.

Lemma fields_with_keys_iff : forall sels ks, fields_with_keys sels ks <-> map key_of sels = map Some ks.
Proof.
  intros sels. induction sels as [|s sels IH]; intros ks; split; intros H.
  - inversion H; reflexivity.
  - destruct ks; [constructor | discriminate].
  - inversion H as [|? k ? ks' H1 H2]; subst. apply IH in H2. destruct s; try contradiction. simpl. now rewrite H1, H2.
  - destruct ks as [|k ks]; [discriminate|]. simpl in H. inversion H as [[H1 H2]]. constructor; [|now apply IH].
    destruct s; simpl in H1; try discriminate. now inversion H1.
Qed.

Lemma Forall2_impl : forall (A B : Type) (P Q : A -> B -> Prop) l l', (forall a b, P a b -> Q a b) -> Forall2 P l l' -> Forall2 Q l l'.
Proof. intros A B P Q l l' H F. induction F; constructor; auto. Qed.

Section Siblings.
  Variable O : Type.
  Variables (typenames : O -> list string) (has_field : O -> string -> bool).
  Notation dresolve := (dresolve O typenames has_field).

  Lemma lookup_combine_same : forall k (a b : list (string * result rr)) rs1 rs2, same_but k a b ->
    mapM (fun kv => outcome (fst kv) (snd kv)) a = Ok rs1 -> mapM (fun kv => outcome (fst kv) (snd kv)) b = Ok rs2 ->
    map fst a = map fst b /\
    forall k', k' <> k -> lookup k' (combine (map fst a) (map data rs1)) = lookup k' (combine (map fst b) (map data rs2)).
  Proof.
    intros k a b rs1 rs2 H. revert rs1 rs2. induction H as [|[ka ra] [kb rb] a b [E1 E2] H IH]; intros rs1 rs2 H1 H2; simpl in *; auto.
    subst kb. destruct (outcome ka ra) as [x| |] eqn:Ex; simpl in H1; try discriminate.
    destruct (outcome ka rb) as [y| |] eqn:Ey; simpl in H2; try discriminate.
    destruct (mapM _ a) as [xs| |]; simpl in H1; try discriminate. destruct (mapM _ b) as [ys| |]; simpl in H2; try discriminate.
    inversion H1; inversion H2; subst. destruct (IH _ _ eq_refl eq_refl) as [K L]. split; [now rewrite K|].
    intros k' N. simpl. destruct (String.eqb_spec k' ka); auto. subst. assert (ra = rb) by auto. subst.
    rewrite Ex in Ey. now inversion Ey.
  Qed.

  Lemma errors_same : forall k (a b : list (string * result rr)) rs1 rs2, same_but k a b -> NoDup (map fst a) ->
    mapM (fun kv => outcome (fst kv) (snd kv)) a = Ok rs1 -> mapM (fun kv => outcome (fst kv) (snd kv)) b = Ok rs2 ->
    (~ In k (map fst a) -> rs1 = rs2) /\
    exists pre e1 e2 post, flat_map errors rs1 = pre ++ e1 ++ post /\ flat_map errors rs2 = pre ++ e2 ++ post.
  Proof.
    intros k a b rs1 rs2 H. revert rs1 rs2. induction H as [|[ka ra] [kb rb] a b [E1 E2] H IH]; intros rs1 rs2 ND H1 H2; simpl in *.
    - inversion H1; inversion H2. split; auto. exists [], [], [], []. auto.
    - subst kb. inversion ND as [|? ? NI ND']; subst.
      destruct (outcome ka ra) as [x| |] eqn:Ex; simpl in H1; try discriminate.
      destruct (outcome ka rb) as [y| |] eqn:Ey; simpl in H2; try discriminate.
      destruct (mapM _ a) as [xs| |]; simpl in H1; try discriminate. destruct (mapM _ b) as [ys| |]; simpl in H2; try discriminate.
      inversion H1; inversion H2; subst. destruct (IH _ _ ND' eq_refl eq_refl) as [K [pre [e1 [e2 [post [P1 P2]]]]]].
      destruct (string_dec ka k) as [->|N].
      + split; [tauto|]. rewrite (K NI). exists [], (errors x), (errors y), (flat_map errors ys). auto.
      + assert (ra = rb) by auto. subst. rewrite Ex in Ey. inversion Ey; subst. split.
        * intros NK. rewrite K; auto.
        * exists (errors y ++ pre), e1, e2, post. simpl. rewrite P1, P2, <- !app_assoc. auto.
  Qed.

  Lemma siblings : forall a1 a2 e o fp k sels r1 r2,
    (forall k', k' <> k -> same_answers (rev fp ++ [PName k']) a1 a2) ->
    results typenames has_field a1 e o fp sels (Ok r1) -> results typenames has_field a2 e o fp sels (Ok r2) ->
    exists es1 es2, data r1 = VMap es1 /\ data r2 = VMap es2 /\ map fst es1 = map fst es2 /\
      (forall k', k' <> k -> lookup k' es1 = lookup k' es2) /\
      exists pre e1 e2 post, errors r1 = pre ++ e1 ++ post /\ errors r2 = pre ++ e2 ++ post.
  Proof.
    intros a1 a2 e o fp k sels r1 r2 A R1 R2. apply results_iff in R1, R2. destruct R1 as [_ [n1 R1]], R2 as [_ [n2 R2]].
    set (n := Nat.max n1 n2).
    assert (D1 : dresolve a1 n e o fp sels = Ok r1) by (rewrite (dresolve_up O typenames has_field a1 n1); [auto | lia | congruence]).
    assert (D2 : dresolve a2 n e o fp sels = Ok r2) by (rewrite (dresolve_up O typenames has_field a2 n2); [auto | lia | congruence]).
    rewrite dresolve_eq in D1, D2.
    pose proof (same_all k _ _ (fun s d1 d2 => same_visit O typenames has_field a1 a2 e o fp k A n no_fdirs s d1 d2) sels (mkD [] []) (mkD [] [])
                  (conj eq_refl (Forall2_nil _))) as S.
    destruct (dvisit_all (dvisit O typenames has_field a1 n e o fp no_fdirs) sels (mkD [] [])) as [d1| |] eqn:V1; simpl in D1; try discriminate.
    destruct (dvisit_all (dvisit O typenames has_field a2 n e o fp no_fdirs) sels (mkD [] [])) as [d2| |] eqn:V2; simpl in D2; try discriminate.
    simpl in S. destruct S as [_ S].
    destruct (mapM _ (d_values d1)) as [rs1| |] eqn:M1; simpl in D1; try discriminate.
    destruct (mapM _ (d_values d2)) as [rs2| |] eqn:M2; simpl in D2; try discriminate.
    inversion D1; inversion D2; subst r1 r2. simpl. do 2 eexists. split; [reflexivity|]. split; [reflexivity|].
    destruct (lookup_combine_same _ _ _ _ _ S M1 M2) as [K L].
    pose proof (mapM_length _ _ _ _ _ M1) as L1. pose proof (mapM_length _ _ _ _ _ M2) as L2.
    split; [rewrite !combine_keys; rewrite ?map_length; auto|]. split; [exact L|].
    assert (W : wf_st d1).
    { eapply (wf_all (dvisit O typenames has_field a1 n e o fp no_fdirs)); [|apply wf_nil|exact V1].
      intros s d d' W0 E. eapply wf_visit; eauto. }
    destruct W as [ND _]. destruct (errors_same _ _ _ _ _ S ND M1 M2) as [_ E]. exact E.
  Qed.

  (** a failing field among fields with distinct keys *)
  Lemma results_fields : forall ans e o fp sels ks, fields_with_keys sels ks -> NoDup ks ->
    forall r, results typenames has_field ans e o fp sels (Ok r) <->
    exists rs, Forall2 (fun s x => results typenames has_field ans e o fp [s] (Ok x)) sels rs /\ r = join_rr rs.
  Proof.
    intros ans e o fp sels ks K ND r. apply fields_with_keys_iff in K. rewrite results_iff. split.
    - intros [_ [n E]]. apply (proj1 (fields_compose O typenames has_field ans n e o fp sels ks K ND r)) in E.
      destruct E as [rs [F J]]. exists rs. split; auto.
      eapply Forall2_impl; [|exact F]. intros s x H. cbv beta in H. apply results_iff. split; [discriminate | exists n; exact H].
    - intros [rs [F J]]. split; [discriminate|].
      assert (X : exists n, Forall2 (fun s x => dresolve ans n e o fp [s] = Ok x) sels rs).
      { clear K ND J. induction F as [|s x sels rs H F [n IH]].
        - exists 0. constructor.
        - apply results_iff in H. destruct H as [_ [m H]]. exists (Nat.max n m). constructor.
          + rewrite (dresolve_up O typenames has_field ans m); [auto | lia | congruence].
          + eapply Forall2_impl; [|exact IH]. intros s' x' H'. cbv beta in H'.
            rewrite (dresolve_up O typenames has_field ans n); [auto | lia | congruence]. }
      destruct X as [n X]. exists n. apply (fields_compose O typenames has_field ans n e o fp sels ks K ND r). eauto.
  Qed.

  Lemma failed_field : forall ans vars e o fp loc al nm args dirs sub avs ds ex, copyable vars -> e_vars e = VMap vars ->
    named_dirs dirs -> dirs_value vars dirs ds -> should_skip ds = Ok false -> args_value vars args avs -> has_field o nm = true ->
    ans o nm (mkParams (e_context e) (e_opdirs e) no_fdirs (rev fp ++ [PName (response_key al nm)]) (response_key al nm) avs ds) = AThrow ex ->
    results typenames has_field ans e o fp [SField loc al nm args dirs sub]
      (Ok (mkRR (VMap [(response_key al nm, VNull)]) (located loc (rev fp ++ [PName (response_key al nm)]) (response_key al nm) ex))).
  Proof.
    intros ans vars e o fp loc al nm args dirs sub avs ds ex Hc Hv Hn Hd Hs Ha Hf A. apply results_iff. split; [discriminate|].
    exists 1. rewrite (resolve_field O typenames has_field ans vars 0 e o fp loc al nm args dirs sub avs ds); auto.
    unfold dfield. rewrite build_error_path_rev. simpl (rev (PName (response_key al nm) :: fp)). rewrite A. simpl.
    rewrite field_exception_located. simpl. reflexivity.
  Qed.
End Siblings.

(** ** Lists *)
Section Lists.
  Variable O : Type.

  Lemma list_data_ok : forall xs, list_data (map Ok xs) = map data xs.
  Proof. induction xs as [|x xs IH]; simpl; auto. now rewrite IH. Qed.
  Lemma list_errors_ok : forall p xs i, list_errors p i (map Ok xs) = flat_map errors xs.
  Proof. intros p xs. induction xs as [|x xs IH]; intros i; simpl; auto. now rewrite IH. Qed.

  Lemma collect_ok : forall p xs, dcollect_list p 0 (map Ok xs) ([], []) = Ok (mkRR (VList (map data xs)) (flat_map errors xs)).
  Proof.
    intros p xs. rewrite dcollect_list_eq.
    - simpl. now rewrite list_data_ok, list_errors_ok.
    - apply Forall_forall. intros r H. apply in_map_iff in H. destruct H as [x [<- _]]. discriminate.
  Qed.

  Scheme completed_mut := Induction for completed Sort Prop
    with completed_items_mut := Induction for completed_items Sort Prop.

  Lemma completed_mono : forall (P Q : O -> list path_segment -> value -> list schema_error -> Prop) key loc,
    (forall o p v errs, P o p v errs -> Q o p v errs) ->
    forall f p v errs, completed P key loc f p v errs -> completed Q key loc f p v errs.
  Proof.
    intros P Q key loc H f p v errs C.
    apply (completed_mut O P key loc (fun f p v errs _ => completed Q key loc f p v errs)
      (fun fs p i ves _ => completed_items Q key loc fs p i ves)); auto; clear -H; try (intros; constructor; auto; fail).
  Qed.

  Lemma completed_convert : forall (drobj : O -> field_path -> result rr) key loc sub f p v errs,
    completed (fun o p v errs => drobj o (rev p) = Ok (mkRR v errs)) key loc f p v errs ->
    shape_ok (match sub with Some _ => true | None => false end) f ->
    dconvert O drobj f (mkRP key loc sub (rev p)) = Ok (Ok (mkRR v errs)).
  Proof.
    intros drobj key loc sub f p v errs C.
    apply (completed_mut O (fun o p v errs => drobj o (rev p) = Ok (mkRR v errs)) key loc
      (fun f p v errs _ => shape_ok (match sub with Some _ => true | None => false end) f ->
         dconvert O drobj f (mkRP key loc sub (rev p)) = Ok (Ok (mkRR v errs)))
      (fun fs p i ves _ => Forall (shape_ok (match sub with Some _ => true | None => false end)) fs ->
         dconvert_list O drobj (mkRP key loc sub (rev p)) i fs = Ok (map (fun ve => Ok (mkRR (fst ve) (snd ve))) ves))); auto; clear.
    - intros b fut v p H. simpl. destruct sub; simpl in *; [rewrite H; auto | destruct b; auto].
    - intros b fut c w p H. simpl. rewrite build_error_path_rev. simpl. rewrite rev_involutive. destruct sub; simpl in *; [rewrite H; auto | destruct b; auto].
    - intros b fut errs p H. simpl. destruct sub; simpl in *; [rewrite H; auto | destruct b; auto].
    - intros fut p H. simpl. destruct sub; [|discriminate]. simpl. destruct fut; auto.
    - intros fut o p v errs E H. simpl. destruct sub; [|discriminate]. simpl. rewrite E. destruct fut; auto.
    - intros p H. simpl. destruct sub; [|discriminate]. reflexivity.
    - intros o p v errs E H. simpl. destruct sub; [|discriminate]. simpl. now rewrite E.
    - intros f p v errs C IH H. simpl. rewrite IH; auto.
    - intros fs p ves C IH H. rewrite dconvert_list_eq. simpl in H.
      assert (F : Forall (shape_ok (match sub with Some _ => true | None => false end)) fs).
      { clear C IH. induction fs as [|f fs IHf]; constructor; destruct H; auto. }
      rewrite (IH F). simpl. rewrite <- (map_map (fun ve => mkRR (fst ve) (snd ve)) Ok ves), collect_ok, map_map. simpl. do 2 f_equal.
      rewrite flat_map_concat_map, map_map, <- flat_map_concat_map. reflexivity.
    - intros f fs p i v errs ves C IH1 CI IH2 H. inversion H; subst. simpl. unfold with_path. simpl.
      rewrite rev_app_distr in IH1. simpl in IH1. rewrite IH1 by auto. simpl. rewrite IH2 by auto. reflexivity.
  Qed.
End Lists.
