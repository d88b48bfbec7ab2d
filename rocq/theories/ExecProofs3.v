(** Results independent of the amount of stack; removing and splicing selections; siblings of a failing field. *)
From Verif Require Import Cpp Value Ast ErrorModel ExecModel ExecSem ExecSemProofs ExecDirect ExecSpec ExecValues ExecMono ExecProofs ExecProofs2.
Local Open Scope string_scope.
Local Open Scope list_scope.

Section Results.
  Variable O : Type.
  Variables (typenames : O -> list string) (has_field : O -> string -> bool).
  Variable ans : O -> string -> fparams -> answer O.
  Notation dvisit := (dvisit O typenames has_field ans).
  Notation dresolve := (dresolve O typenames has_field ans).
  Notation results := (results typenames has_field ans).

  Lemma results_iff : forall e o fp sels r, results e o fp sels r <-> r <> UB /\ exists n, dresolve n e o fp sels = r.
  Proof.
    intros. unfold ExecSpec.results. split; intros [H [n E]]; split; auto; exists n; now apply computes_iff.
  Qed.

  Lemma dresolve_up : forall n m e o fp sels, n <= m -> dresolve n e o fp sels <> UB -> dresolve m e o fp sels = dresolve n e o fp sels.
  Proof.
    intros n m e o fp sels L N. eapply dresolve_more; eauto.
  Qed.

  Lemma results_fun : forall e o fp sels r r', results e o fp sels r -> results e o fp sels r' -> r = r'.
  Proof.
    intros e o fp sels r r' H H'. apply results_iff in H, H'. destruct H as [N [n E]], H' as [N' [m E']].
    rewrite <- (dresolve_up n (Nat.max n m)) in E by (try lia; congruence).
    rewrite <- (dresolve_up m (Nat.max n m)) in E' by (try lia; congruence). congruence.
  Qed.

  (** two lists of selections with the same results at related amounts of stack *)
  Lemma results_le : forall e o fp a b,
    (forall n, le_res (dresolve n e o fp a) (dresolve (S n) e o fp b)) ->
    (forall n, le_res (dresolve n e o fp b) (dresolve (S n) e o fp a)) ->
    forall r, results e o fp a r <-> results e o fp b r.
  Proof.
    intros e o fp a b H1 H2 r. rewrite !results_iff. split; intros [N [n E]]; split; auto; exists (S n).
    - rewrite <- E. apply le_eq; auto. now rewrite E.
    - rewrite <- E. apply le_eq; auto. now rewrite E.
  Qed.

  Lemma dvisit_all_le' : forall n m env o fp fd sels d d', n <= m -> le_st d d' ->
    le_rst (dvisit_all (dvisit n env o fp fd) sels d) (dvisit_all (dvisit m env o fp fd) sels d').
  Proof.
    intros n m env o fp fd sels d d' H L. apply le_visit_all; auto.
    replace m with ((m - n) + n) by lia. apply le_visit_more.
  Qed.

  (** the meaning of a single selection that stands for the list [body] *)
  Lemma results_splice : forall e o fp s body pre post,
    (forall d, dvisit_all (dvisit 0 e o fp no_fdirs) [s] d = UB) ->
    (forall n d, dvisit_all (dvisit (S n) e o fp no_fdirs) [s] d = dvisit_all (dvisit n e o fp no_fdirs) body d) ->
    forall r, results e o fp (pre ++ [s] ++ post) r <-> results e o fp (pre ++ body ++ post) r.
  Proof.
    intros e o fp s body pre post H0 HS. apply results_le; intros n; apply dresolve_le; try lia; intros d d' L.
    - destruct n as [|n].
      + rewrite H0. exact I.
      + rewrite HS. apply dvisit_all_le'; auto; lia.
    - rewrite HS. now apply dvisit_all_le'.
  Qed.

  Lemma results_drop : forall e o fp s pre post,
    (forall n d, dvisit_all (dvisit (S n) e o fp no_fdirs) [s] d = Ok d) ->
    forall r, results e o fp (pre ++ [s] ++ post) r <-> results e o fp (pre ++ post) r.
  Proof.
    intros e o fp s pre post HS r. change (pre ++ post) with (pre ++ [] ++ post).
    revert r. apply results_splice.
    - intros d. reflexivity.
    - intros n d. rewrite HS. reflexivity.
  Qed.

  Lemma dirs_eval : forall vars e dirs ds b, copyable vars -> e_vars e = VMap vars -> named_dirs dirs -> dirs_value vars dirs ds ->
    should_skip ds = Ok b -> directives_of e dirs = Ok (ds, b).
  Proof.
    intros vars e dirs ds b Hc Hv Hn Hd Hs. unfold directives_of. rewrite Hv. apply dirs_value_iff in Hd; auto.
    rewrite Hd. simpl. now rewrite Hs.
  Qed.

  Lemma matches_iff : forall o t, matches_type O typenames o t = true <-> In t (typenames o).
  Proof. intros. unfold matches_type. apply existsb_eqb_in. Qed.
  Lemma matches_false : forall o t, matches_type O typenames o t = false <-> ~ In t (typenames o).
  Proof. intros. unfold matches_type. apply existsb_eqb_notin. Qed.

  Lemma inline_kept : forall e o fp loc cond dirs sel ds pre post, insensitive O ans ->
    directives_of e dirs = Ok (ds, false) -> (forall l t, cond = Some (l, t) -> In t (typenames o)) ->
    forall r, results e o fp (pre ++ [SInline loc cond dirs sel] ++ post) r <-> results e o fp (pre ++ sel ++ post) r.
  Proof.
    intros e o fp loc cond dirs sel ds pre post HI Hd Hc. apply results_splice; [reflexivity|].
    intros n d. simpl. unfold dvisit_inline. rewrite Hd. simpl.
    replace (match cond with Some (_, t) => matches_type O typenames o t | None => true end) with true.
    - rewrite (dvisit_all_ext _ (dvisit n e o fp no_fdirs)); [|intros; apply dvisit_fd; auto].
      destruct (dvisit_all _ sel d); reflexivity.
    - destruct cond as [[l t]|]; auto. symmetry. apply matches_iff. eapply Hc; eauto.
  Qed.

  Lemma inline_dropped : forall e o fp loc cond dirs sel ds b pre post,
    directives_of e dirs = Ok (ds, b) -> b = true \/ (exists l t, cond = Some (l, t) /\ ~ In t (typenames o)) ->
    forall r, results e o fp (pre ++ [SInline loc cond dirs sel] ++ post) r <-> results e o fp (pre ++ post) r.
  Proof.
    intros e o fp loc cond dirs sel ds b pre post Hd Hc. apply results_drop.
    intros n d. simpl. unfold dvisit_inline. rewrite Hd. simpl. destruct b; [reflexivity|].
    destruct Hc as [Hc|[l [t [-> Hc]]]]; [discriminate|]. apply matches_false in Hc. rewrite Hc. reflexivity.
  Qed.

  Lemma spread_kept : forall e o fp loc nm dirs fr ds pre post, insensitive O ans ->
    find_fragment nm (e_frags e) = Some fr -> directives_of e dirs = Ok (ds, false) -> In (fr_type fr) (typenames o) ->
    forall r, results e o fp (pre ++ [SSpread loc nm dirs] ++ post) r <-> results e o fp (pre ++ fr_sel fr ++ post) r.
  Proof.
    intros e o fp loc nm dirs fr ds pre post HI Hf Hd Hc. apply results_splice; [reflexivity|].
    intros n d. simpl. unfold dvisit_spread. rewrite Hf. apply matches_iff in Hc. rewrite Hc. simpl. rewrite Hd. simpl.
    rewrite (dvisit_all_ext _ (dvisit n e o fp no_fdirs)); [|intros; apply dvisit_fd; auto].
    destruct (dvisit_all _ (fr_sel fr) d); reflexivity.
  Qed.

  Lemma spread_dropped : forall e o fp loc nm dirs fr pre post,
    find_fragment nm (e_frags e) = Some fr ->
    (exists ds, directives_of e dirs = Ok (ds, true)) \/ ~ In (fr_type fr) (typenames o) ->
    forall r, results e o fp (pre ++ [SSpread loc nm dirs] ++ post) r <-> results e o fp (pre ++ post) r.
  Proof.
    intros e o fp loc nm dirs fr pre post Hf Hc. apply results_drop.
    intros n d. simpl. unfold dvisit_spread. rewrite Hf. destruct (matches_type O typenames o (fr_type fr)) eqn:M; simpl; [|reflexivity].
    destruct Hc as [[ds Hd]|Hc]; [now rewrite Hd|]. apply matches_false in Hc. congruence.
  Qed.
End Results.

(** ** Siblings *)
Section Siblings.
  Variable O : Type.
  Variables (typenames : O -> list string) (has_field : O -> string -> bool).
  Variables a1 a2 : O -> string -> fparams -> answer O.
  Variable e : env.
  Variables (o : O) (fp : field_path) (k : string).
  Hypothesis agree : forall k', k' <> k -> agree_under O (rev fp ++ [PName k']) a1 a2.
  Notation dv1 := (dvisit O typenames has_field a1).
  Notation dv2 := (dvisit O typenames has_field a2).

  Definition same_but (a b : list (string * result rr)) : Prop :=
    Forall2 (fun x y => fst x = fst y /\ (fst x <> k -> snd x = snd y)) a b.
  Definition same_st (a b : dstate) : Prop := d_names a = d_names b /\ same_but (d_values a) (d_values b).
  Definition same_res (x y : result dstate) : Prop :=
    match x, y with
    | Ok a, Ok b => same_st a b
    | Throw a, Throw b => a = b
    | UB, _ | _, UB => True
    | _, _ => False
    end.

  Lemma same_store : forall v1 v2 key x y n1 n2, n1 = n2 -> same_but v1 v2 -> (key <> k -> x = y) ->
    same_st (mkD n1 (v1 ++ [(key, x)])) (mkD n2 (v2 ++ [(key, y)])).
  Proof.
    intros v1 v2 key x y n1 n2 H1 H2 H3. split; simpl; [exact H1|]. apply Forall2_app; auto.
  Qed.

  Lemma same_all : forall v1 v2, (forall s d1 d2, same_st d1 d2 -> same_res (v1 s d1) (v2 s d2)) ->
    forall sels d1 d2, same_st d1 d2 -> same_res (dvisit_all v1 sels d1) (dvisit_all v2 sels d2).
  Proof.
    intros v1 v2 H. induction sels as [|s sels IH]; intros d1 d2 S; simpl; auto.
    specialize (H s _ _ S). destruct (v1 s d1) as [a|a|], (v2 s d2) as [b|b|]; simpl in *; try contradiction; try exact I.
    - now apply IH.
    - destruct (dvisit_all v1 sels a); exact I.
    - exact H.
  Qed.

  Lemma same_visit : forall n fd s d1 d2, same_st d1 d2 -> same_res (dv1 n e o fp fd s d1) (dv2 n e o fp fd s d2).
  Proof.
    induction n as [|n IH]; intros fd s d1 d2 [N V]; [exact I|].
    destruct s as [loc al nm args dirs sub|loc nm dirs|loc cond dirs sel].
    - destruct (String.eqb_spec (response_key al nm) k) as [Hk|Hk].
      + simpl. unfold dvisit_field. rewrite N. destruct (existsb _ _); [split; auto|].
        destruct (negb _); [apply same_store; auto|]. destruct (directives_of e dirs) as [[ds [|]]| |]; simpl; auto.
        * split; simpl; auto.
        * destruct (visit_arguments _ _ _) as [avs| |]; simpl; auto.
          assert (F : forall a rec, (exists x, dfield O a e rec o fp fd loc (response_key al nm) nm avs ds sub = Ok x) \/
                     dfield O a e rec o fp fd loc (response_key al nm) nm avs ds sub = UB).
          { intros a rec. unfold dfield. destruct (a o nm _); [left; eauto|]. destruct (dconvert _ _ _ _); eauto. }
          destruct (F a1 (dv1 n e)) as [[x ->]| ->]; simpl; auto.
          destruct (F a2 (dv2 n e)) as [[y ->]| ->]; simpl; auto. apply same_store; auto.
          intro; contradiction.
      + rewrite (field_local O typenames has_field a1 a2 n e) by (try (intros; now apply visit_local); apply agree; auto).
        simpl. unfold dvisit_field. rewrite N. destruct (existsb _ _); [split; auto|].
        destruct (negb _); [apply same_store; auto|]. destruct (directives_of e dirs) as [[ds [|]]| |]; simpl; auto.
        * split; simpl; auto.
        * destruct (visit_arguments _ _ _) as [avs| |]; simpl; auto.
          destruct (dfield _ _ _ _ _ _ _ _ _ _ _ _); simpl; auto. apply same_store; auto.
    - simpl. unfold dvisit_spread. destruct (find_fragment _ _); [|reflexivity].
      destruct (negb _); [split; auto|]. destruct (directives_of e dirs) as [[ds [|]]| |]; simpl; auto.
      + split; auto.
      + apply same_all; [|split; auto]. intros. now apply IH.
    - simpl. unfold dvisit_inline. destruct (directives_of e dirs) as [[ds [|]]| |]; simpl; auto.
      + split; auto.
      + destruct (match cond with Some _ => _ | None => _ end); [|split; auto].
        apply same_all; [|split; auto]. intros. now apply IH.
  Qed.
End Siblings.
