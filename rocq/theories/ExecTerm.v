(** Without fragment cycles the stack needed is bounded. *)
From Verif Require Import Cpp Value Ast ErrorModel ExecModel ExecSem ExecSemProofs ExecDirect ExecSpec ExecValues ExecMono ExecProofs ExecProofs2 ExecProofs3.
Local Open Scope string_scope.
Local Open Scope list_scope.

Lemma mapM_defined : forall (A B : Type) (f : A -> result B) l, Forall (fun x => f x <> UB) l -> mapM f l <> UB.
Proof.
  intros A B f l H. induction H as [|x l Hx H IH]; simpl; [discriminate|].
  destruct (f x); simpl; try congruence. destruct (mapM f l); simpl; congruence.
Qed.

Lemma visit_value_defined : forall vars l, small l -> visit_value vars l <> UB.
Proof.
  intros vars l. induction l as [loc n|loc z|loc f|loc s|loc b|loc|loc s|loc is IH|loc fs IH] using lit_ind'; intros H; simpl; try discriminate.
  - unfold visit_variable. destruct vars as [es| | | | | | | |]; try discriminate. destruct (lookup n es) as [v|]; [|discriminate]. unfold vcopy. destruct (has_null_scalar v); discriminate.
  - inversion H as [|? ? E| | | | | | |]; subst. rewrite E. discriminate.
  - inversion H as [| | | | | | |? ? F|]; subst.
    assert (D : mapM (visit_value vars) is <> UB).
    { apply mapM_defined. clear H. induction IH as [|x is Hx IH' IHl]; constructor; inversion F; subst; auto. }
    destruct (mapM (visit_value vars) is); simpl; congruence.
  - inversion H as [| | | | | | | |? ? F]; subst.
    match goal with |- bind ?m _ <> UB => assert (D : m <> UB) end.
    { apply mapM_defined. clear H. induction IH as [|x fs Hx IH' IHl]; constructor; inversion F; subst; auto.
      specialize (Hx H1). destruct (visit_value vars (snd (snd x))); simpl; congruence. }
    match goal with |- bind ?m _ <> UB => destruct m; simpl; congruence end.
Qed.

Lemma visit_arguments_defined : forall vars args es, small_args args -> visit_arguments vars args es <> UB.
Proof.
  intros vars args es H. revert es. induction H as [|a args Ha H IH]; intros es; simpl; [discriminate|].
  pose proof (visit_value_defined vars _ Ha). destruct (visit_value vars (a_value a)); simpl; [apply IH | discriminate | contradiction].
Qed.
Lemma visit_directives_defined : forall vars dirs es, small_dirs dirs -> visit_directives vars dirs es <> UB.
Proof.
  intros vars dirs es H. revert es. induction H as [|d dirs Hd H IH]; intros es; simpl; [discriminate|].
  destruct (String.eqb _ _); auto. pose proof (visit_arguments_defined vars _ [] Hd).
  destruct (visit_arguments vars (d_args d) []); simpl; [apply IH | discriminate | contradiction].
Qed.
Lemma skip_argument_defined : forall d args seen, skip_argument d args seen <> UB.
Proof. intros d args. induction args as [|[k v] args IH]; intros seen; simpl; [discriminate|]. destruct seen; [discriminate|]. destruct v; try discriminate. destruct (String.eqb k "if"); auto; discriminate. Qed.
Lemma should_skip_defined : forall ds, should_skip ds <> UB.
Proof.
  intros ds. unfold should_skip. generalize [(true, "skip"); (false, "include")] as ns. induction ns as [|[b d] ns IH]; simpl; [discriminate|].
  destruct (lookup d ds) as [v|]; auto. destruct v as [es| | | | | | | |]; try discriminate.
  pose proof (skip_argument_defined d es None). destruct (skip_argument d es None) as [[[|]|]| |]; simpl; try discriminate; congruence.
Qed.
Lemma directives_of_defined : forall e dirs, small_dirs dirs -> directives_of e dirs <> UB.
Proof.
  intros e dirs H. unfold directives_of. pose proof (visit_directives_defined (e_vars e) dirs [] H).
  destruct (visit_directives _ _ _) as [ds| |]; simpl; try congruence. pose proof (should_skip_defined ds). destruct (should_skip ds); simpl; congruence.
Qed.

(** [fits n s]: visiting [s] needs at most [n] nested calls *)
Fixpoint fits (frags : list (string * fragment)) (n : nat) (s : selection) : Prop :=
  match n with
  | 0 => False
  | S m =>
      match s with
      | SField _ _ _ _ _ None => True
      | SField _ _ _ _ _ (Some (_, sub)) => Forall (fits frags m) sub
      | SSpread _ nm _ => match find_fragment nm frags with Some fr => Forall (fits frags m) (fr_sel fr) | None => True end
      | SInline _ _ _ sel => Forall (fits frags m) sel
      end
  end.

Lemma fits_mono : forall frags n m s, n <= m -> fits frags n s -> fits frags m s.
Proof.
  intros frags. induction n as [|n IH]; intros m s L H; [destruct H|]. destruct m as [|m]; [lia|].
  assert (A : forall l, Forall (fits frags n) l -> Forall (fits frags m) l).
  { intros l F. induction F; constructor; auto. apply IH; auto. lia. }
  destruct s as [loc al nm args dirs [[l sub]|]|loc nm dirs|loc c dirs sel]; simpl in *; auto. destruct (find_fragment nm frags); auto.
Qed.

Section Defined.
  Variable O : Type.
  Variables (typenames : O -> list string) (has_field : O -> string -> bool).
  Variable ans : O -> string -> fparams -> answer O.
  Hypothesis Hans : defined_answers ans.
  Variable e : env.
  Hypothesis Hfr : forall n fr, find_fragment n (e_frags e) = Some fr -> Forall small_sel (fr_sel fr).
  Notation dvisit := (dvisit O typenames has_field ans).

  Definition def_st (d : dstate) : Prop := Forall (fun kv => snd kv <> UB) (d_values d).
  Definition def_res (r : result dstate) : Prop := match r with Ok d => def_st d | Throw _ => True | UB => False end.

  Lemma def_all : forall v sels, (forall s d, In s sels -> def_st d -> def_res (v s d)) -> forall d, def_st d -> def_res (dvisit_all v sels d).
  Proof.
    intros v sels. induction sels as [|s sels IH]; intros H d D; simpl; auto.
    pose proof (H s d (or_introl eq_refl) D) as R. destruct (v s d); simpl in *; auto.
  Qed.

  Lemma collect_defined : forall vals acc, Forall (fun kv => snd kv <> UB) vals -> dcollect_object vals acc <> UB.
  Proof.
    induction vals as [|[k r] vals IH]; intros acc H; simpl; [discriminate|]. inversion H as [|? ? H1 H2]; subst. simpl in H1.
    destruct r as [x|[c w|errs]|]; simpl; [| | |contradiction].
    - destruct (map_emplace (fst acc) k (data x)). simpl. now apply IH.
    - now apply IH.
    - now apply IH.
  Qed.
  Lemma collect_list_defined : forall p rs i acc, Forall (fun r => r <> UB) rs -> dcollect_list p i rs acc <> UB.
  Proof. intros. rewrite dcollect_list_eq by auto. discriminate. Qed.

  Lemma convert_defined : forall drobj f p, (forall o q, drobj o q <> UB) -> defined_fres f ->
    match dconvert O drobj f p with Ok r => r <> UB | Throw _ => True | UB => False end.
  Proof.
    intros drobj f p Hd. revert p. 
    assert (B : forall p r, r <> UB -> dbuild_object O drobj p r <> UB).
    { intros p [[o|]|x|] H; simpl; try discriminate; auto. }
    induction f as [b isf v|isf r|r|f IH| |x| |l IH|x|] using fres_ind'; intros p D; simpl in D.
    - simpl. unfold block_sub_fields. destruct b; [destruct (rp_sub p)|]; simpl; auto; unfold build_leaf; destruct v as [v|[c w|errs]|]; try discriminate; congruence.
    - simpl. unfold require_sub_fields. destruct (rp_sub p); simpl; auto. destruct isf; simpl; [now apply B|].
      pose proof (B p r D). destruct (dbuild_object O drobj p r); simpl; auto; discriminate.
    - simpl. unfold require_sub_fields. destruct (rp_sub p); simpl; auto.
    - simpl. destruct D as [_ D]. specialize (IH p D). destruct (dconvert O drobj f p); simpl; [exact IH | discriminate | contradiction].
    - simpl. discriminate.
    - simpl. discriminate.
    - destruct D. congruence.
    - rewrite dconvert_list_eq. destruct D as [_ D].
      assert (L : forall i, match dconvert_list O drobj p i l with Ok rs => Forall (fun r => r <> UB) rs | Throw _ => True | UB => False end).
      { induction IH as [|f l Hf IH IHl]; intros i; simpl; [constructor|]. destruct D as [D1 D2].
        specialize (Hf (with_path p (PIndex i :: rp_path p)) D1). destruct (dconvert O drobj f _); simpl; auto.
        specialize (IHl D2 (N.succ i)). destruct (dconvert_list O drobj p (N.succ i) l); simpl; auto. }
      specialize (L 0%N). destruct (dconvert_list O drobj p 0 l) as [rs| |]; simpl; try discriminate; [|contradiction].
      now apply collect_list_defined.
    - simpl. discriminate.
    - destruct D. congruence.
  Qed.

  Lemma visit_defined : forall n s, fits (e_frags e) n s -> small_sel s -> forall o fp fd d, def_st d -> def_res (dvisit n e o fp fd s d).
  Proof.
    induction n as [|n IH]; intros s F SM o fp fd d D; [destruct F|].
    destruct s as [loc al nm args dirs sub|loc nm dirs|loc cond dirs sel]; simpl.
    - inversion SM as [? ? ? ? ? ? SA SD SS| |]; subst. unfold dvisit_field. destruct (existsb _ _); [exact D|].
      destruct (negb _); [simpl; apply Forall_app; split; [exact D | constructor; [discriminate | constructor]]|].
      pose proof (directives_of_defined e dirs SD) as ND. destruct (directives_of e dirs) as [[ds [|]]| |]; simpl; auto.
      pose proof (visit_arguments_defined (e_vars e) args [] SA) as NA. destruct (visit_arguments _ _ _) as [avs| |]; simpl; auto.
      assert (R : forall o' q, dresolve_with O (dvisit n e) o' q (match sub with Some (_, l) => l | None => [] end) <> UB).
      { intros o' q. unfold dresolve_with.
        assert (V : def_res (dvisit_all (dvisit n e o' q no_fdirs) (match sub with Some (_, l) => l | None => [] end) (mkD [] []))).
        { apply def_all; [|constructor]. intros s d' Is Dd. destruct sub as [[l sub]|]; [|contradiction].
          simpl in F. specialize (SS _ _ eq_refl). rewrite Forall_forall in F, SS. apply IH; auto. }
        destruct (dvisit_all _ _ _) as [d'| |]; simpl in *; [now apply collect_defined | discriminate | contradiction]. }
      unfold dfield. pose proof (Hans o nm (mkParams (e_context e) (e_opdirs e) fd (build_error_path (PName (response_key al nm) :: fp)) (response_key al nm) avs ds)) as HA.
      destruct (ans o nm _) as [x|f]; simpl.
      + apply Forall_app; split; [exact D | constructor; [discriminate | constructor]].
      + pose proof (convert_defined _ f (mkRP (response_key al nm) loc (option_map fst sub) (PName (response_key al nm) :: fp)) R HA) as CD.
        destruct (dconvert _ _ _ _) as [r|x|]; simpl; [| |contradiction].
        * apply Forall_app; split; [exact D | constructor; [exact CD | constructor]].
        * apply Forall_app; split; [exact D | constructor; [discriminate | constructor]].
    - inversion SM as [|? ? ? SD|]; subst. unfold dvisit_spread. simpl in F. destruct (find_fragment nm (e_frags e)) as [fr|] eqn:FF; [|exact I].
      destruct (negb _); [exact D|]. pose proof (directives_of_defined e dirs SD) as ND. destruct (directives_of e dirs) as [[ds [|]]| |]; simpl; auto.
      apply def_all; auto. intros s d' Is Dd. pose proof (Hfr _ _ FF) as SF. rewrite Forall_forall in F, SF. apply IH; auto.
    - inversion SM as [| |? ? ? ? SD SS]; subst. unfold dvisit_inline. simpl in F.
      pose proof (directives_of_defined e dirs SD) as ND. destruct (directives_of e dirs) as [[ds [|]]| |]; simpl; auto.
      destruct (match cond with Some _ => _ | None => _ end); [|exact D].
      apply def_all; auto. intros s d' Is Dd. rewrite Forall_forall in F, SS. apply IH; auto.
  Qed.

  Lemma resolve_defined : forall n sels o fp, Forall (fits (e_frags e) n) sels -> Forall small_sel sels ->
    dresolve O typenames has_field ans n e o fp sels <> UB.
  Proof.
    intros n sels o fp F SM. unfold dresolve, dresolve_with.
    assert (V : def_res (dvisit_all (dvisit n e o fp no_fdirs) sels (mkD [] []))).
    { apply def_all; [|constructor]. intros s d Is D. rewrite Forall_forall in F, SM. apply visit_defined; auto. }
    destruct (dvisit_all _ _ _) as [d'| |]; simpl in *; [now apply collect_defined | discriminate | contradiction].
  Qed.
End Defined.

(** ** Acyclic fragments fit *)
Section Acyclic.
  Variable frags : list (string * fragment).
  Hypothesis Ac : acyclic frags.

  Lemma fits_all : forall l, Forall (fun s => exists n, fits frags n s) l -> exists n, Forall (fits frags n) l.
  Proof.
    induction 1 as [|s l [n Hs] F [m IH]]; [exists 0; constructor|]. exists (Nat.max n m). constructor.
    - eapply fits_mono; [|exact Hs]. lia.
    - eapply Forall_impl; [|exact IH]. intros a Ha. cbv beta in Ha. eapply fits_mono; [|exact Ha]. lia.
  Qed.

  (** a selection fits when the fragments it spreads do *)
  Lemma fits_sel : forall s, (forall n, spreads s n -> exists m, fits frags m (SSpread (mkLoc 0 0) n [])) -> exists m, fits frags m s.
  Proof.
    induction s as [loc al n args ds|loc al n args ds l sub IH|loc n ds|loc c ds sel IH] using selection_ind'; intros H.
    - exists 1. exact I.
    - assert (X : exists m, Forall (fits frags m) sub).
      { apply fits_all. rewrite Forall_forall in *. intros s Is. apply IH; auto. intros x Sx. apply H. eapply sp_field; eauto. }
      destruct X as [m X]. exists (S m). exact X.
    - destruct (H n (sp_here _ _ _)) as [m X]. exists m. destruct m; [destruct X|]. exact X.
    - assert (X : exists m, Forall (fits frags m) sel).
      { apply fits_all. rewrite Forall_forall in *. intros s Is. apply IH; auto. intros x Sx. apply H. eapply sp_inline; eauto. }
      destruct X as [m X]. exists (S m). exact X.
  Qed.

  Lemma find_in : forall n fr, find_fragment n frags = Some fr -> In n (map fst frags).
  Proof.
    clear Ac. induction frags as [|[k f] l IH]; intros n fr H; simpl in *; [discriminate|].
    destruct (String.eqb_spec n k); [now left|]. right. eapply IH; eauto.
  Qed.

  (** [above]: fragments that lead to [n] *)
  Lemma fits_spread : forall k above n, length (map fst frags) - length above <= k -> NoDup above -> incl above (map fst frags) ->
    (forall a, In a above -> leads frags a n) -> exists m, fits frags m (SSpread (mkLoc 0 0) n []).
  Proof.
    induction k as [|k IH]; intros above n L ND I Ab.
    - destruct (find_fragment n frags) as [fr|] eqn:FF; [|exists 1; simpl; now rewrite FF].
      exfalso. assert (N : ~ In n above) by (intros X; apply Ab in X; now apply (Ac n)).
      assert (ND' : NoDup (n :: above)) by (constructor; auto).
      assert (I' : incl (n :: above) (map fst frags)) by (intros x [<-|Hx]; auto; eapply find_in; eauto).
      pose proof (NoDup_incl_length ND' I'). simpl in *. lia.
    - destruct (find_fragment n frags) as [fr|] eqn:FF; [|exists 1; simpl; now rewrite FF].
      assert (N : ~ In n above) by (intros X; apply Ab in X; now apply (Ac n)).
      assert (ND' : NoDup (n :: above)) by (constructor; auto).
      assert (I' : incl (n :: above) (map fst frags)) by (intros x [<-|Hx]; auto; eapply find_in; eauto).
      assert (X : exists m, Forall (fits frags m) (fr_sel fr)).
      { apply fits_all. apply Forall_forall. intros s Is. apply fits_sel. intros x Sx. apply (IH (n :: above)); auto.
        - simpl. pose proof (NoDup_incl_length ND' I') as Q. simpl in Q. lia.
        - intros a [<-|Ha]; [eapply ld_one; eauto|]. eapply ld_more; [apply Ab; exact Ha | eapply ld_one; eauto]. }
      destruct X as [m X]. exists (S m). simpl. now rewrite FF.
  Qed.

  Lemma acyclic_fits : forall sels, exists m, Forall (fits frags m) sels.
  Proof.
    intros sels. apply fits_all. apply Forall_forall. intros s _. apply fits_sel. intros n _.
    apply (fits_spread (length (map fst frags)) [] n); [simpl; lia | constructor | intros x [] | intros a []].
  Qed.
End Acyclic.

Lemma acyclic_defined : forall O (typenames : O -> list string) has_field ans e o fp sels, acyclic (e_frags e) -> defined_answers ans ->
  (forall n fr, find_fragment n (e_frags e) = Some fr -> Forall small_sel (fr_sel fr)) -> Forall small_sel sels ->
  exists r, results typenames has_field ans e o fp sels r.
Proof.
  intros O typenames has_field ans e o fp sels Ac D F S. destruct (acyclic_fits (e_frags e) Ac sels) as [m M].
  pose proof (resolve_defined O typenames has_field ans D e F m sels o fp M S) as R.
  exists (dresolve O typenames has_field ans m e o fp sels). apply results_iff. split; auto. now exists m.
Qed.
