(** Properties of the values execution computes, continued: locality, single fields, lists, fragments. *)
From Verif Require Import Cpp Value Ast ErrorModel ExecModel ExecSem ExecSemProofs ExecDirect ExecSpec ExecValues ExecMono ExecProofs.
Local Open Scope string_scope.
Local Open Scope list_scope.

Lemma push_front_all_rev : forall p acc, push_front_all p acc = rev p ++ acc.
Proof. induction p as [|s p IH]; intros acc; simpl; auto. rewrite IH, <- app_assoc. reflexivity. Qed.
Lemma build_error_path_rev : forall p, build_error_path p = rev p.
Proof. intros. unfold build_error_path. rewrite push_front_all_rev. apply app_nil_r. Qed.

Section Locality.
  Variable O : Type.
  Variables (typenames : O -> list string) (has_field : O -> string -> bool).

  Definition agree_under (q : list path_segment) (a1 a2 : O -> string -> fparams -> answer O) : Prop :=
    forall o f p t, p_path p = q ++ t -> a1 o f p = a2 o f p.

  Lemma agree_under_sub : forall q t a1 a2, agree_under q a1 a2 -> agree_under (q ++ t) a1 a2.
  Proof. intros q t a1 a2 H o f p t' E. apply (H o f p (t ++ t')). now rewrite app_assoc. Qed.

  Lemma dconvert_ext : forall d1 d2 f p, (forall o s, d1 o (s ++ rp_path p) = d2 o (s ++ rp_path p)) ->
    dconvert O d1 f p = dconvert O d2 f p.
  Proof.
    intros d1 d2 f. induction f as [b isf v|isf r|r|f IH| |e| |l IH|e|] using fres_ind'; intros p H; try reflexivity.
    - simpl. assert (E : dbuild_object O d1 p r = dbuild_object O d2 p r) by (unfold dbuild_object; destruct r as [[o|]|e|]; simpl; auto; apply (H o [])).
      now rewrite E.
    - simpl. assert (E : dbuild_object O d1 p r = dbuild_object O d2 p r) by (unfold dbuild_object; destruct r as [[o|]|e|]; simpl; auto; apply (H o [])).
      now rewrite E.
    - simpl. now rewrite IH.
    - rewrite !dconvert_list_eq. assert (E : forall i, dconvert_list O d1 p i l = dconvert_list O d2 p i l); [|now rewrite E].
      induction IH as [|f l Hf IH IHl]; intros i; simpl; auto.
      rewrite Hf; [|intros o s; simpl; specialize (H o (s ++ [PIndex i])); rewrite <- app_assoc in H; exact H].
      now rewrite IHl.
  Qed.

  Lemma dvisit_all_ext : forall v1 v2, (forall s d, v1 s d = v2 s d) -> forall sels d, dvisit_all v1 sels d = dvisit_all v2 sels d.
  Proof. intros v1 v2 H. induction sels as [|s sels IH]; intros d; simpl; auto. rewrite H. destruct (v2 s d); simpl; auto. Qed.

  Variables a1 a2 : O -> string -> fparams -> answer O.
  Notation dv1 := (dvisit O typenames has_field a1).
  Notation dv2 := (dvisit O typenames has_field a2).

  Lemma field_local : forall n env,
    (forall fp o fd s d, agree_under (rev fp) a1 a2 -> dv1 n env o fp fd s d = dv2 n env o fp fd s d) ->
    forall fp o fd loc al nm args dirs sub d, agree_under (rev fp ++ [PName (response_key al nm)]) a1 a2 ->
    dv1 (S n) env o fp fd (SField loc al nm args dirs sub) d = dv2 (S n) env o fp fd (SField loc al nm args dirs sub) d.
  Proof.
    intros n env IH fp o fd loc al nm args dirs sub d A. simpl. unfold dvisit_field.
    destruct (existsb _ _); auto. destruct (negb _); auto. destruct (directives_of env dirs) as [[ds [|]]| |]; simpl; auto.
    destruct (visit_arguments _ _ _) as [avs| |]; simpl; auto. unfold dfield.
    rewrite <- (A o nm _ []); [|simpl; rewrite build_error_path_rev; simpl; now rewrite app_nil_r].
    destruct (a1 o nm _) as [e|f]; auto.
    rewrite (dconvert_ext _ (fun o' fp'' => dresolve_with O (dv2 n env) o' fp'' (match sub with Some (_, l) => l | None => [] end))); auto.
    intros o' s. unfold dresolve_with. rewrite (dvisit_all_ext _ (dv2 n env o' (s ++ PName (response_key al nm) :: fp) no_fdirs)); auto.
    intros s' d'. apply IH. rewrite rev_app_distr. simpl. now apply agree_under_sub.
  Qed.

  Lemma visit_local : forall n env fp o fd s d, agree_under (rev fp) a1 a2 -> dv1 n env o fp fd s d = dv2 n env o fp fd s d.
  Proof.
    induction n as [|n IH]; intros env fp o fd s d A; auto.
    destruct s as [loc al nm args dirs sub|loc nm dirs|loc cond dirs sel].
    - apply field_local; [intros; now apply IH | now apply agree_under_sub].
    - simpl. unfold dvisit_spread. destruct (find_fragment _ _); auto. destruct (negb _); auto.
      destruct (directives_of env dirs) as [[ds [|]]| |]; simpl; auto. apply dvisit_all_ext. intros. now apply IH.
    - simpl. unfold dvisit_inline. destruct (directives_of env dirs) as [[ds [|]]| |]; simpl; auto.
      destruct (match cond with Some _ => _ | None => _ end); auto. apply dvisit_all_ext. intros. now apply IH.
  Qed.

  Lemma resolve_field_local : forall n env o fp s k, key_of s = Some k -> agree_under (rev fp ++ [PName k]) a1 a2 ->
    dresolve O typenames has_field a1 n env o fp [s] = dresolve O typenames has_field a2 n env o fp [s].
  Proof.
    intros n env o fp s k Hk A. rewrite !dresolve_single. destruct n as [|n]; auto.
    destruct s as [loc al nm args dirs sub| |]; try discriminate. simpl in Hk. inversion Hk; subst k.
    rewrite field_local; auto. intros. now apply visit_local.
  Qed.
End Locality.

Section Fields.
  Variable O : Type.
  Variables (typenames : O -> list string) (has_field : O -> string -> bool).
  Variable ans : O -> string -> fparams -> answer O.
  Notation dvisit := (dvisit O typenames has_field ans).
  Notation dresolve := (dresolve O typenames has_field ans).

  (** a field that is kept and whose arguments have values *)
  Lemma resolve_field : forall vars n env o fp loc al nm args dirs sub avs ds, copyable vars -> e_vars env = VMap vars ->
    named_dirs dirs -> dirs_value vars dirs ds -> should_skip ds = Ok false -> args_value vars args avs -> has_field o nm = true ->
    dresolve (S n) env o fp [SField loc al nm args dirs sub] =
    (x <- dfield O ans env (dvisit n env) o fp no_fdirs loc (response_key al nm) nm avs ds sub ;;
     y <- outcome (response_key al nm) x ;; Ok (mkRR (VMap [(response_key al nm, data y)]) (errors y))).
  Proof.
    intros vars n env o fp loc al nm args dirs sub avs ds Hc Hv Hn Hd Hs Ha Hf. rewrite dresolve_single.
    simpl. unfold dvisit_field. simpl. rewrite Hf. simpl. unfold directives_of. rewrite Hv.
    apply dirs_value_iff in Hd; auto. rewrite Hd. simpl. rewrite Hs. simpl. apply args_value_iff in Ha; auto. rewrite Ha. simpl.
    destruct (dfield _ _ _ _ _ _ _ _ _ _ _ _) as [x| |]; simpl; auto.
    destruct (outcome _ x); simpl; auto. now rewrite app_nil_r.
  Qed.

  Lemma resolve_field_dropped : forall vars n env o fp loc al nm args dirs sub ds, copyable vars -> e_vars env = VMap vars ->
    named_dirs dirs -> dirs_value vars dirs ds -> should_skip ds = Ok true -> has_field o nm = true ->
    dresolve (S n) env o fp [SField loc al nm args dirs sub] = Ok (mkRR (VMap []) []).
  Proof.
    intros vars n env o fp loc al nm args dirs sub ds Hc Hv Hn Hd Hs Hf. rewrite dresolve_single.
    simpl. unfold dvisit_field. simpl. rewrite Hf. simpl. unfold directives_of. rewrite Hv.
    apply dirs_value_iff in Hd; auto. rewrite Hd. simpl. rewrite Hs. reflexivity.
  Qed.

  (** ** Fragments *)

  (** accessors that do not look at the directives of enclosing fragments *)
  Definition insensitive : Prop := forall o f p fd,
    ans o f p = ans o f (mkParams (p_context p) (p_opdirs p) fd (p_path p) (p_name p) (p_args p) (p_dirs p)).

  Lemma dvisit_fd : insensitive -> forall n env o fp fd fd' s d, dvisit n env o fp fd s d = dvisit n env o fp fd' s d.
  Proof.
    intros HI. induction n as [|n IH]; intros env o fp fd fd' s d; auto.
    destruct s as [loc al nm args dirs sub|loc nm dirs|loc cond dirs sel]; simpl.
    - unfold dvisit_field. destruct (existsb _ _); auto. destruct (negb _); auto.
      destruct (directives_of env dirs) as [[ds [|]]| |]; simpl; auto. destruct (visit_arguments _ _ _) as [avs| |]; simpl; auto.
      unfold dfield. rewrite (HI _ _ (mkParams _ _ fd _ _ _ _) fd'). reflexivity.
    - unfold dvisit_spread. destruct (find_fragment _ _); auto. destruct (negb _); auto.
      destruct (directives_of env dirs) as [[ds [|]]| |]; simpl; auto. apply dvisit_all_ext. intros. apply IH.
    - unfold dvisit_inline. destruct (directives_of env dirs) as [[ds [|]]| |]; simpl; auto.
      destruct (match cond with Some _ => _ | None => _ end); auto. apply dvisit_all_ext. intros. apply IH.
  Qed.

  Lemma dvisit_all_app : forall v a b d, dvisit_all v (a ++ b) d = (d' <- dvisit_all v a d ;; dvisit_all v b d').
  Proof. intros v a. induction a as [|s a IH]; intros b d; simpl; auto. destruct (v s d); simpl; auto. Qed.

  (** replacing a selection by an equivalent list of selections *)
  Lemma dresolve_replace : forall n env o fp pre mid mid' post,
    (forall d, dvisit_all (dvisit n env o fp no_fdirs) mid d = dvisit_all (dvisit n env o fp no_fdirs) mid' d) ->
    dresolve n env o fp (pre ++ mid ++ post) = dresolve n env o fp (pre ++ mid' ++ post).
  Proof.
    intros n env o fp pre mid mid' post H. rewrite !dresolve_eq, !dvisit_all_app.
    destruct (dvisit_all _ pre (mkD [] [])) as [d| |]; simpl; auto. rewrite !dvisit_all_app, H. reflexivity.
  Qed.

  Lemma dvisit_all_le : forall n m env o fp fd sels d, n <= m -> le_rst (dvisit_all (dvisit n env o fp fd) sels d) (dvisit_all (dvisit m env o fp fd) sels d).
  Proof.
    intros n m env o fp fd sels d H. apply le_visit_all; [|apply le_st_refl].
    replace m with ((m - n) + n) by lia. apply le_visit_more.
  Qed.

  (** le_res versions of replacement, when the two sides use different amounts of stack *)
  Lemma dresolve_le : forall n m env o fp pre mid mid' post, n <= m ->
    (forall d d', le_st d d' -> le_rst (dvisit_all (dvisit n env o fp no_fdirs) mid d) (dvisit_all (dvisit m env o fp no_fdirs) mid' d')) ->
    le_res (dresolve n env o fp (pre ++ mid ++ post)) (dresolve m env o fp (pre ++ mid' ++ post)).
  Proof.
    intros n m env o fp pre mid mid' post L H. unfold dresolve, dresolve_with. rewrite !dvisit_all_app.
    assert (LV : forall sels d d', le_st d d' -> le_rst (dvisit_all (dvisit n env o fp no_fdirs) sels d) (dvisit_all (dvisit m env o fp no_fdirs) sels d')).
    { intros. apply le_visit_all; auto. replace m with ((m - n) + n) by lia. apply le_visit_more. }
    pose proof (LV pre (mkD [] []) (mkD [] []) (le_st_refl _)) as P.
    destruct (dvisit_all (dvisit n env o fp no_fdirs) pre (mkD [] [])) as [d| |]; simpl in P; [|rewrite P; simpl; auto|now left].
    destruct P as [d' [-> P]]. simpl. rewrite !dvisit_all_app. specialize (H _ _ P).
    destruct (dvisit_all (dvisit n env o fp no_fdirs) mid d) as [d1| |]; simpl in H; [|rewrite H; simpl; auto|now left].
    destruct H as [d1' [-> H]]. simpl. specialize (LV post _ _ H).
    destruct (dvisit_all (dvisit n env o fp no_fdirs) post d1) as [d2| |]; simpl in LV; [|rewrite LV; simpl; auto|now left].
    destruct LV as [d2' [-> LV]]. simpl. apply le_collect_object. apply LV.
  Qed.

  Lemma le_eq : forall A (x y : result A), le_res x y -> x <> UB -> y = x.
  Proof. intros A x y [H|H] N; [contradiction | auto]. Qed.

  Lemma inline_body : forall n env o fp cond sel d loc,
    (forall l t, cond = Some (l, t) -> matches_type O typenames o t = true) ->
    dvisit_all (dvisit (S n) env o fp no_fdirs) [SInline loc cond [] sel] d = dvisit_all (dvisit n env o fp no_fdirs) sel d.
  Proof.
    intros n env o fp cond sel d loc H. simpl. unfold dvisit_inline, directives_of. simpl.
    replace (match cond with Some (_, t) => matches_type O typenames o t | None => true end) with true.
    - change (mkFD [] [] []) with no_fdirs. destruct (dvisit_all _ sel d); reflexivity.
    - destruct cond as [[l t]|]; auto. symmetry. eapply H; eauto.
  Qed.

  Lemma spread_body : forall n env o fp nm fr d loc, insensitive -> find_fragment nm (e_frags env) = Some fr ->
    matches_type O typenames o (fr_type fr) = true ->
    dvisit_all (dvisit (S n) env o fp no_fdirs) [SSpread loc nm []] d = dvisit_all (dvisit n env o fp no_fdirs) (fr_sel fr) d.
  Proof.
    intros n env o fp nm fr d loc HI F M. simpl. unfold dvisit_spread, directives_of. rewrite F, M. simpl.
    rewrite (dvisit_all_ext _ (dvisit n env o fp no_fdirs)); [|intros; now apply dvisit_fd].
    destruct (dvisit_all _ (fr_sel fr) d); reflexivity.
  Qed.

  (** ** Lists *)
  Definition list_error (p : rparams) (i : N) (e : exn) : list schema_error :=
    match e with
    | SchemaEx errs => errs
    | Exn _ w => [mkErr ("Field error name: " ++ rp_name p ++ " unknown error: " ++ w) (rp_loc p) (build_error_path (PIndex i :: rp_path p))]
    end.
  Fixpoint list_data (rs : list (result rr)) : list value :=
    match rs with [] => [] | Ok x :: r => data x :: list_data r | _ :: r => list_data r end.
  Fixpoint list_errors (p : rparams) (i : N) (rs : list (result rr)) : list schema_error :=
    match rs with
    | [] => []
    | Ok x :: r => errors x ++ list_errors p (N.succ i) r
    | Throw e :: r => list_error p i e ++ list_errors p (N.succ i) r
    | UB :: r => list_errors p (N.succ i) r
    end.

  Lemma dcollect_list_eq : forall p rs i acc, Forall (fun r => r <> UB) rs ->
    dcollect_list p i rs acc = Ok (mkRR (VList (fst acc ++ list_data rs)) (snd acc ++ list_errors p i rs)).
  Proof.
    intros p rs. induction rs as [|r rs IH]; intros i acc H; simpl.
    - now rewrite !app_nil_r.
    - inversion H; subst. destruct r as [x|[c w|errs]|]; simpl; [| | |contradiction].
      + rewrite IH by auto. simpl. now rewrite <- !app_assoc.
      + rewrite IH by auto. simpl. now rewrite <- !app_assoc.
      + rewrite IH by auto. simpl. now rewrite <- !app_assoc.
  Qed.
End Fields.
