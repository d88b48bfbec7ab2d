(** Executions: existence and uniqueness of the outcome; more stack does not change a defined outcome. *)
From Verif Require Import Cpp Value Ast ErrorModel ExecModel ExecSem ExecSemProofs ExecDirect ExecSpec.

Section Run.
  Variables (O St : Type) (ans : O -> string -> fparams -> answer O).
  Variable handler : St -> O -> string -> fparams -> St * answer O.
  Hypothesis Hpure : forall s o f p, snd (handler s o f p) = ans o f p.

  Lemma run_to_end : forall n t s, costT O ans t <= n -> exists m evs s' t' r, steps handler m s t evs s' t' /\ ended t' r.
  Proof.
    induction n as [|n IH]; intros t s Hn.
    - destruct (progress O St handler t s) as [[r Hr]|[ev [s' [t' Hs]]]].
      + exists 0, [], s, t, r. split; [constructor | auto].
      + pose proof (step_sound O ans St handler Hpure _ _ _ _ _ Hs) as [_ H]. lia.
    - destruct (progress O St handler t s) as [[r Hr]|[ev [s' [t' Hs]]]].
      + exists 0, [], s, t, r. split; [constructor | auto].
      + pose proof (step_sound O ans St handler Hpure _ _ _ _ _ Hs) as [_ H].
        destruct (IH t' s' ltac:(lia)) as [m [evs [s2 [t2 [r [H1 H2]]]]]].
        exists (S m), (ev ++ evs), s2, t2, r. split; auto. econstructor; eauto.
  Qed.
End Run.

Lemma unit_state : forall O (h : unit -> O -> string -> fparams -> unit * answer O) n s t evs s' t',
  steps h n s t evs s' t' -> s' = tt.
Proof. intros. now destruct s'. Qed.

Lemma computes_iff : forall O typenames has_field ans fuel e (o : O) fp sels r,
  computes typenames has_field ans fuel e o fp sels r <-> dresolve O typenames has_field ans fuel e o fp sels = r.
Proof.
  intros. rewrite <- den_resolve. unfold computes. set (c := resolve O typenames has_field fuel e o fp sels Ret).
  assert (HP : forall s o f p, snd (stateless ans s o f p) = ans o f p) by reflexivity. split.
  - intros [n [evs [t [H E]]]]. apply (steps_sound O ans unit (stateless ans) HP) in H. destruct H as [H _].
    apply (ended_den O ans) in E. rewrite E in H. symmetry. exact H.
  - intros E. destruct (run_to_end O unit ans (stateless ans) HP _ (T [] c) tt (le_n _)) as [m [evs [s' [t' [r' [H1 H2]]]]]].
    pose proof (unit_state _ _ _ _ _ _ _ _ H1); subst s'. exists m, evs, t'. split; auto.
    apply (steps_sound O ans unit (stateless ans) HP) in H1. destruct H1 as [H1 _].
    pose proof (ended_den O ans _ _ H2) as H3. rewrite H3 in H1. change (r' = den O ans [] c) in H1. rewrite E in H1. subst r'. exact H2.
Qed.

(** ** Order on results: undefined below everything *)
Definition le_res {A} (x y : result A) : Prop := x = UB \/ x = y.
Lemma le_refl : forall A (x : result A), le_res x x.
Proof. right. reflexivity. Qed.
#[export] Hint Resolve le_refl : core.

Definition le2 {A} (x y : result (result A)) : Prop :=
  match x with
  | UB => True
  | Throw e => y = Throw e
  | Ok a => exists b, y = Ok b /\ le_res a b
  end.
Lemma le2_refl : forall A (x : result (result A)), le2 x x.
Proof. intros A [a|e|]; simpl; eauto. Qed.
#[export] Hint Resolve le2_refl : core.

Definition le_vals (a b : list (string * result rr)) : Prop := Forall2 (fun x y => fst x = fst y /\ le_res (snd x) (snd y)) a b.
Definition le_st (a b : dstate) : Prop := d_names a = d_names b /\ le_vals (d_values a) (d_values b).
Definition le_rst (x y : result dstate) : Prop :=
  match x with
  | UB => True
  | Throw e => y = Throw e
  | Ok a => exists b, y = Ok b /\ le_st a b
  end.

Lemma le_vals_refl : forall a, le_vals a a.
Proof. induction a; constructor; auto. Qed.
Lemma le_st_refl : forall a, le_st a a.
Proof. intros. split; auto using le_vals_refl. Qed.
#[export] Hint Resolve le_vals_refl le_st_refl : core.

Lemma le_join : forall A (x y : result (result A)), le2 x y -> le_res (join x) (join y).
Proof.
  intros A [a|e|] y H; simpl in *.
  - destruct H as [b [-> H]]. exact H.
  - subst. auto.
  - now left.
Qed.

Lemma le_list_step : forall p i r r' acc, le_res r r' -> le_res (list_step p i r acc) (list_step p i r' acc).
Proof. intros p i r r' acc [->| ->]; [now left | auto]. Qed.
Lemma le_object_step : forall k r r' acc, le_res r r' -> le_res (object_step k r acc) (object_step k r' acc).
Proof. intros k r r' acc [->| ->]; [now left | auto]. Qed.

Lemma le_collect_list : forall p rs rs' i acc, Forall2 le_res rs rs' -> le_res (dcollect_list p i rs acc) (dcollect_list p i rs' acc).
Proof.
  intros p rs rs' i acc H. revert i acc. induction H as [|x y rs rs' Hx H IH]; intros i acc; simpl; auto.
  destruct (le_list_step p i x y acc Hx) as [E|E]; rewrite E; simpl; [now left|].
  destruct (list_step p i y acc); simpl; auto.
Qed.

Lemma le_collect_object : forall rs rs' acc, le_vals rs rs' -> le_res (dcollect_object rs acc) (dcollect_object rs' acc).
Proof.
  intros rs rs' acc H. revert acc. induction H as [|[k x] [k' y] rs rs' [Hk Hx] H IH]; intros acc; simpl in *; auto. subst k'.
  destruct (le_object_step k x y acc Hx) as [E|E]; rewrite E; simpl; [now left|].
  destruct (object_step k y acc); simpl; auto.
Qed.

Section Mono.
  Variable O : Type.
  Variables (typenames : O -> list string) (has_field : O -> string -> bool).
  Variable ans : O -> string -> fparams -> answer O.

  Section Convert.
    Variables d1 d2 : O -> field_path -> result rr.
    Hypothesis Hd : forall o fp, le_res (d1 o fp) (d2 o fp).

    Lemma le_build_object : forall p r, le_res (dbuild_object O d1 p r) (dbuild_object O d2 p r).
    Proof. intros p [[o|]|e|]; unfold dbuild_object; simpl; auto. Qed.

    Lemma le_dconvert : forall f p, le2 (dconvert O d1 f p) (dconvert O d2 f p).
    Proof.
      induction f as [b isf v|isf r|r|f IH| |e| |l IH|e|] using fres_ind'; intros p.
      - simpl. destruct (if b then block_sub_fields p else Ok tt); simpl; eauto.
      - simpl. destruct (require_sub_fields p); simpl; auto. destruct isf.
        + simpl. eexists; split; [reflexivity | apply le_build_object].
        + destruct (le_build_object p r) as [E|E]; rewrite E; simpl; auto.
      - simpl. destruct (require_sub_fields p); simpl; auto. eexists; split; [reflexivity | apply le_build_object].
      - simpl. eexists; split; [reflexivity|]. apply le_join. apply IH.
      - simpl. eauto.
      - simpl. eauto.
      - simpl. eauto.
      - rewrite !dconvert_list_eq. simpl. eexists; split; [reflexivity|].
        assert (L : forall i, match dconvert_list O d1 p i l with
                 | UB => True | Throw e => dconvert_list O d2 p i l = Throw e
                 | Ok a => exists b, dconvert_list O d2 p i l = Ok b /\ Forall2 le_res a b end).
        { induction IH as [|f l Hf IH IHl]; intros i; simpl; [eauto|].
          pose proof (Hf (with_path p (PIndex i :: rp_path p))) as F.
          destruct (dconvert O d1 f (with_path p (PIndex i :: rp_path p))) as [a|e|]; simpl in *; auto.
          - destruct F as [b [-> F]]. simpl. specialize (IHl (N.succ i)).
            destruct (dconvert_list O d1 p (N.succ i) l) as [as'|e|]; simpl; auto.
            + destruct IHl as [bs [-> IHl]]. simpl. eexists; split; [reflexivity|]. constructor; auto.
            + rewrite IHl. reflexivity.
          - rewrite F. reflexivity. }
        specialize (L 0%N). destruct (dconvert_list O d1 p 0 l) as [a|e|]; simpl.
        + destruct L as [b [-> L]]. simpl. now apply le_collect_list.
        + rewrite L. simpl. auto.
        + now left.
      - simpl. eauto.
      - simpl. eauto.
    Qed.
  End Convert.

  Definition le_vis (v1 v2 : selection -> dstate -> result dstate) : Prop :=
    forall s a b, le_st a b -> le_rst (v1 s a) (v2 s b).

  Lemma le_visit_all : forall v1 v2, le_vis v1 v2 -> forall sels a b, le_st a b -> le_rst (dvisit_all v1 sels a) (dvisit_all v2 sels b).
  Proof.
    intros v1 v2 Hv. induction sels as [|s sels IH]; intros a b Hab; simpl; [eauto|].
    pose proof (Hv s a b Hab) as H. destruct (v1 s a) as [a'|e|]; simpl in *; auto.
    - destruct H as [b' [-> H]]. simpl. now apply IH.
    - rewrite H. reflexivity.
  Qed.

  Definition le_visitor (v1 v2 : dvisitor O) : Prop := forall o fp fd, le_vis (v1 o fp fd) (v2 o fp fd).

  Lemma le_resolve_with : forall v1 v2, le_visitor v1 v2 -> forall o fp sels,
    le_res (dresolve_with O v1 o fp sels) (dresolve_with O v2 o fp sels).
  Proof.
    intros v1 v2 Hv o fp sels. unfold dresolve_with.
    pose proof (le_visit_all _ _ (Hv o fp no_fdirs) sels (mkD [] []) (mkD [] []) (le_st_refl _)) as H.
    destruct (dvisit_all (v1 o fp no_fdirs) sels (mkD [] [])) as [a|e|]; simpl in H.
    - destruct H as [b [-> H]]. simpl. apply le_collect_object. apply H.
    - rewrite H. simpl. auto.
    - now left.
  Qed.

  Lemma le_snoc : forall a b names k x y, le_st a b -> le_res x y ->
    le_st (mkD names (d_values a ++ [(k, x)])) (mkD names (d_values b ++ [(k, y)])).
  Proof. intros a b names k x y [_ H] Hx. split; [reflexivity|]. simpl. apply Forall2_app; [exact H|]. constructor; [split; auto | constructor]. Qed.

  Notation dvisit := (dvisit O typenames has_field ans).

  Lemma le_step : forall v1 v2 env, le_visitor v1 v2 ->
    le_visitor (fun o fp fd s st => match s with
        | SField loc alias name args dirs sub => dvisit_field O has_field ans env v1 o fp fd loc alias name args dirs sub st
        | SSpread loc name dirs => dvisit_spread O typenames env v1 o fp fd loc name dirs st
        | SInline loc cond dirs sel => dvisit_inline O typenames env v1 o fp fd cond dirs sel st end)
      (fun o fp fd s st => match s with
        | SField loc alias name args dirs sub => dvisit_field O has_field ans env v2 o fp fd loc alias name args dirs sub st
        | SSpread loc name dirs => dvisit_spread O typenames env v2 o fp fd loc name dirs st
        | SInline loc cond dirs sel => dvisit_inline O typenames env v2 o fp fd cond dirs sel st end).
  Proof.
    intros v1 v2 env Hv o fp fd s a b Hab.
    destruct s as [loc alias name args dirs sub|loc name dirs|loc cond dirs sel].
    - unfold dvisit_field. destruct Hab as [Hn Hvv]. rewrite Hn. assert (Hab : le_st a b) by (split; auto).
      destruct (existsb _ _); [simpl; eauto|].
      destruct (negb _).
      { simpl. eexists; split; [reflexivity|]. apply le_snoc; auto. }
      destruct (directives_of env dirs) as [[ds [|]]|e|]; simpl; auto.
      { eexists; split; [reflexivity|]. split; simpl; auto. }
      destruct (visit_arguments (e_vars env) args []) as [avs|e|]; simpl; auto.
      unfold dfield. destruct (ans o name _) as [e|f]; simpl.
      { eexists; split; [reflexivity|]. apply le_snoc; auto. }
      match goal with |- context [dconvert O ?d1 f ?rp] => match goal with |- context [dconvert O ?d2 f rp] => lazymatch d1 with d2 => fail | _ =>
        pose proof (le_dconvert d1 d2 ltac:(intros; apply le_resolve_with; auto) f rp) as L end end end.
      match goal with |- context [dconvert O ?d f ?rp] => destruct (dconvert O d f rp) as [x|e|] eqn:E1 end; simpl in *; auto.
      + destruct L as [y [-> L]]. simpl. eexists; split; [reflexivity|]. apply le_snoc; auto.
      + rewrite L. simpl. eexists; split; [reflexivity|]. apply le_snoc; auto.
    - unfold dvisit_spread. destruct (find_fragment name (e_frags env)) as [fr|]; simpl; auto.
      destruct (negb _); [simpl; eauto|].
      destruct (directives_of env dirs) as [[ds [|]]|e|]; simpl; eauto.
      apply le_visit_all; auto.
    - unfold dvisit_inline. destruct (directives_of env dirs) as [[ds [|]]|e|]; simpl; eauto.
      destruct (match cond with Some _ => _ | None => _ end); [|simpl; eauto].
      apply le_visit_all; auto.
  Qed.

  Lemma le_visit : forall n env, le_visitor (dvisit n env) (dvisit (S n) env).
  Proof.
    induction n as [|n IH]; intros env o fp fd s a b Hab.
    - simpl. exact I.
    - exact (le_step _ _ env (IH env) o fp fd s a b Hab).
  Qed.

  Lemma le_rst_trans : forall x y z, le_rst x y -> le_rst y z -> le_rst x z.
  Proof.
    intros [a|e|] y z H1 H2; simpl in *; auto.
    - destruct H1 as [b [-> [A1 A2]]]. simpl in H2. destruct H2 as [c [-> [B1 B2]]]. exists c. split; auto. split; [congruence|].
      clear A1 B1. revert A2 B2. generalize (d_values a) (d_values b) (d_values c). intros l1 l2 l3 H. revert l3.
      induction H as [|u v l1 l2 [E1 E2] H IH]; intros l3 H3; inversion H3 as [|? w ? l3' [F1 F2] H3']; subst; constructor.
      + split; [congruence|]. destruct E2 as [E2|E2]; [now left|]. rewrite E2. exact F2.
      + now apply IH.
    - subst y. exact H2.
  Qed.

  Lemma le_refl_visit : forall n env, le_visitor (dvisit n env) (dvisit n env).
  Proof.
    induction n as [|n IH]; intros env o fp fd s a b Hab; [simpl; exact I|].
    exact (le_step _ _ env (IH env) o fp fd s a b Hab).
  Qed.

  Lemma le_visit_more : forall k n env, le_visitor (dvisit n env) (dvisit (k + n) env).
  Proof.
    induction k as [|k IH]; intros n env; simpl plus; [apply le_refl_visit|].
    intros o fp fd s a b Hab. eapply le_rst_trans; [apply (IH n env o fp fd s a b Hab)|]. apply le_visit. auto.
  Qed.

  (** more stack does not change a defined outcome *)
  Theorem dresolve_more : forall n m env o fp sels, n <= m ->
    dresolve O typenames has_field ans n env o fp sels <> UB ->
    dresolve O typenames has_field ans m env o fp sels = dresolve O typenames has_field ans n env o fp sels.
  Proof.
    intros n m env o fp sels H Hn. replace m with ((m - n) + n) by lia.
    destruct (le_resolve_with _ _ (le_visit_more (m - n) n env) o fp sels) as [E|E]; [contradiction | symmetry; exact E].
  Qed.
End Mono.
