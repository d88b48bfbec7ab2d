(** Values of literals that are valid for a type fit the type (C50). *)
From Verif Require Import Cpp Value Ast ErrorModel ExecModel ExecSpec ExecValues ExecBigSpec SchemaModel ValidationSpec ValidationValues TypedSpec.
From Coq Require Import List.
Local Open Scope string_scope.
Local Open Scope list_scope.

Lemma forall2_build : forall (A B : Type) (R : A -> B -> Prop) l, (forall x, In x l -> exists y, R x y) -> exists l', Forall2 R l l'.
Proof.
  intros A B R l. induction l as [|x l IH]; intro H; [exists []; constructor|].
  destruct (H x (or_introl eq_refl)) as [y Hy]. destruct IH as [l' H']; [intros z Hz; apply H; now right|]. exists (y :: l'). constructor; auto.
Qed.
Lemma forall2_in_right : forall (A B : Type) (R : A -> B -> Prop) l l' y, Forall2 R l l' -> In y l' -> exists x, In x l /\ R x y.
Proof.
  intros A B R l l' y F. induction F as [|a b l l' H F IH]; [intros []|]. intros [<-|Hy].
  - exists a. split; [now left|exact H].
  - destruct (IH Hy) as (x & Hx & Hr). exists x. split; [now right|exact Hr].
Qed.
Lemma forall2_in_left : forall (A B : Type) (R : A -> B -> Prop) l l' x, Forall2 R l l' -> In x l -> exists y, In y l' /\ R x y.
Proof.
  intros A B R l l' x F. induction F as [|a b l l' H F IH]; [intros []|]. intros [<-|Hy].
  - exists b. split; [now left|exact H].
  - destruct (IH Hy) as (z & Hz & Hr). exists z. split; [now right|exact Hr].
Qed.
Lemma lookup_in : forall (es : entries) k v, lookup k es = Some v -> In (k, v) es.
Proof.
  intros es k v. induction es as [|[n x] es IH]; simpl; [discriminate|]. destruct (String.eqb_spec k n) as [->|N].
  - intro E. injection E as ->. now left.
  - intro E. right. auto.
Qed.
Lemma lookup_present : forall (es : entries) k, In k (map fst es) -> lookup k es <> None.
Proof.
  intros es k. induction es as [|[n x] es IH]; simpl; [intros []|]. destruct (String.eqb_spec k n) as [->|N]; [discriminate|].
  intros [E|H]; [congruence|auto].
Qed.
Lemma lookup_absent : forall (es : entries) k, ~ In k (map fst es) -> lookup k es = None.
Proof.
  intros es k N. destruct (lookup k es) eqn:E; [|reflexivity]. exfalso. apply N. apply lookup_in in E. apply (in_map fst) in E. exact E.
Qed.

(** Plain literals have a value. *)
Lemma plain_value : forall known (es : entries) l, (forall n, In n known -> lookup n es <> None) -> TypedSpec.plain known l -> exists v, lit_value es l v.
Proof.
  intros known es l K. induction l as [p n|p z|p f|p s|p b|p|p s|p items IH|p fields IH] using lit_ind'; intro P.
  - inversion P as [? ? Hn| | | | | | | |]; subst. destruct (lookup n es) as [v|] eqn:E; [|exfalso; eapply K; eauto]. exists v. now constructor.
  - inversion P as [|? ? Hz| | | | | | |]; subst. exists (VInt z). now constructor.
  - exists (VFloat f). constructor.
  - exists (VString s false). constructor.
  - exists (VBool b). constructor.
  - exists VNull. constructor.
  - exists (VEnum s). constructor.
  - inversion P as [| | | | | | |? ? Hi|]; subst. rewrite Forall_forall in IH, Hi.
    destruct (forall2_build _ _ (lit_value es) items) as [vs F]; [intros x Hx; apply IH; auto|]. exists (VList vs). now constructor.
  - inversion P as [| | | | | | | |? ? Hi]; subst. rewrite Forall_forall in IH, Hi.
    destruct (forall2_build _ _ (fun (a : schema_location * (string * lit)) (kv : string * value) => fst kv = fst (snd a) /\ lit_value es (snd (snd a)) (snd kv)) fields) as [kvs F].
    { intros x Hx. destruct (IH x Hx (Hi x Hx)) as [v Hv]. exists (fst (snd x), v). auto. }
    exists (VMap (firsts kvs)). now constructor.
Qed.

Lemma plain_args_value : forall known (es : entries) args, (forall n, In n known -> lookup n es <> None) -> plain_args known args -> exists avs, args_value es args avs.
Proof.
  intros known es args K P. unfold plain_args in P. rewrite Forall_forall in P.
  destruct (forall2_build _ _ (fun (a : argument) (kv : string * value) => fst kv = a_name a /\ lit_value es (a_value a) (snd kv)) args) as [kvs F].
  { intros x Hx. destruct (plain_value known es (a_value x) K (P x Hx)) as [v Hv]. exists (a_name x, v). auto. }
  exists (firsts kvs), kvs. auto.
Qed.

Section Fits.
  Variable S : schema.

  Lemma fits_nonnull_inv : forall t v, input_fits S (TNonNull t) v -> v <> VNull /\ input_fits S t v.
  Proof.
    intros t v H. inversion H as [t' N|t' v' Nv H'| | | | | | | | | | |]; subst; auto. exfalso. apply N. exists t. reflexivity.
  Qed.
  Lemma value_strip : forall vars d t l, ValidationValues.plain l -> value_ok S vars d (TNonNull t) l -> value_ok S vars d t l.
  Proof. intros vars d t l P H. exact (proj1 (value_nonnull S vars d t l P) H). Qed.
  Lemma compatible_fits : forall tv tl, compatible tv tl -> forall x, input_fits S tv x -> input_fits S tl x.
  Proof.
    induction 1 as [v l H IH|v l N H IH|v l H IH|n]; intros x F; auto.
    - apply fits_nonnull_inv in F as (Nx & F). apply if_nonnull; auto.
    - apply fits_nonnull_inv in F as (Nx & F). auto.
    - inversion F as [t' N| |t' vs Fs| | | | | | | | | |]; subst; [apply if_null; intros (t & E); discriminate|]. apply if_list.
      rewrite Forall_forall in *. auto.
  Qed.

  Variables (vs : list variable_def) (es : entries) (known : list string).
  Hypothesis V : forall v, In v vs -> In (v_name v) known -> exists x, lookup (v_name v) es = Some x /\ input_fits S (v_type v) x /\ (var_nonnull_default v = true -> x <> VNull).

  Lemma lit_not_null : forall l v, ValidationValues.plain l -> lit_value es l v -> v <> VNull.
  Proof. intros l v (N1 & N2) H. destruct H; try discriminate; exfalso; [eapply N2; eauto|eapply N1; eauto]. Qed.

  Lemma required_present : forall (declared : list input_value) (names : list string) (kvs : entries),
    map fst kvs = names -> (forall a, In a declared -> required a -> In (iv_name a) names) ->
    forall a, In a declared -> required a -> lookup (iv_name a) (firsts kvs) <> None.
  Proof. intros declared names kvs <- H a Ia Ra. rewrite lookup_firsts. apply lookup_present. auto. Qed.

  Theorem literal_fits : forall l d t v, value_ok S (Some vs) d t l -> lit_value es l v -> TypedSpec.plain known l ->
    input_fits S t v \/ (d = true /\ v = VNull).
  Proof.
    induction l as [p n|p z|p f|p s|p b|p|p s|p items IH|p fields IH] using lit_ind'.
    - (* variable *)
      intros d t v H L P. apply value_var in H as [H|(vs' & x & E & Ix & <- & U)]; [discriminate|]. injection E as <-.
      inversion L as [? ? ? Lk| | | | | | | |]; subst. inversion P as [? ? Hkn| | | | | | | |]; subst. destruct (V x Ix Hkn) as (y & Ey & Fy & Ny). rewrite Ey in Lk. injection Lk as ->.
      destruct U as [C|(Fl & l & -> & C)]; [left; eapply compatible_fits; eauto|].
      apply Bool.orb_true_iff in Fl. destruct Fl as [->|Fl].
      + destruct v; auto; left; apply if_nonnull; try discriminate; eapply compatible_fits; eauto.
      + left. apply if_nonnull; [auto|]. eapply compatible_fits; eauto.
    - intros d t v H L P. inversion L as [|? ? Z| | | | | | |]; subst. left. clear L.
      induction t as [n|t IHt|t IHt].
      + inversion H; subst; try (constructor; auto; fail); apply if_custom; auto; discriminate.
      + inversion H.
      + apply value_strip in H; [|split; discriminate]. apply if_nonnull; [discriminate|auto].
    - intros d t v H L P. inversion L; subst. left. clear L.
      induction t as [n|t IHt|t IHt].
      + inversion H; subst; try (constructor; auto; fail); apply if_custom; auto; discriminate.
      + inversion H.
      + apply value_strip in H; [|split; discriminate]. apply if_nonnull; [discriminate|auto].
    - intros d t v H L P. inversion L; subst. left. clear L.
      induction t as [n|t IHt|t IHt].
      + inversion H; subst; try (econstructor; eauto; fail); apply if_custom; auto; discriminate.
      + inversion H.
      + apply value_strip in H; [|split; discriminate]. apply if_nonnull; [discriminate|auto].
    - intros d t v H L P. inversion L; subst. left. clear L.
      induction t as [n|t IHt|t IHt].
      + inversion H; subst; try (econstructor; eauto; fail); apply if_custom; auto; discriminate.
      + inversion H.
      + apply value_strip in H; [|split; discriminate]. apply if_nonnull; [discriminate|auto].
    - intros d t v H L P. inversion L; subst. apply value_null in H as [->|N]; auto. left. now apply if_null.
    - intros d t v H L P. inversion L; subst. left. clear L.
      induction t as [n|t IHt|t IHt].
      + inversion H; subst; try (eapply if_enum; eauto; fail); apply if_custom; auto; discriminate.
      + inversion H.
      + apply value_strip in H; [|split; discriminate]. apply if_nonnull; [discriminate|auto].
    - (* list *)
      intros d t v H L P. inversion L as [| | | | | | |? ? ws F|]; subst. left. clear L.
      inversion P as [| | | | | | |? ? Pi|]; subst. rewrite Forall_forall in IH, Pi.
      induction t as [n|t IHt|t IHt].
      + inversion H; subst; apply if_custom; auto; discriminate.
      + inversion H as [| | | |? ? ? ? Hi| | | | | | | | |]; subst. apply if_list. apply Forall_forall. intros w Hw.
        destruct (forall2_in_right _ _ _ _ _ _ F Hw) as (x & Ix & Lx). destruct (IH x Ix false t w) as [?|(? & _)]; auto. discriminate.
      + apply value_strip in H; [|split; discriminate]. apply if_nonnull; [discriminate|auto].
    - (* object *)
      intros d t v H L P. inversion L as [| | | | | | | |? ? kvs F]; subst. left. clear L.
      inversion P as [| | | | | | | |? ? Pi]; subst. rewrite Forall_forall in IH, Pi.
      induction t as [n|t IHt|t IHt].
      + inversion H as [| | | | | | | | | | | |? ? ? N1 N2 N3 N4|? ? ? ? td Hd Kd Hf Hr]; subst; [apply if_custom; auto; discriminate|].
        apply (if_object S n td); auto. constructor.
        * intros k w Hk. rewrite lookup_firsts in Hk. apply lookup_in in Hk. destruct (forall2_in_right _ _ _ _ _ _ F Hk) as ((fp, (k', x)) & Ix & E & Lx).
          simpl in E, Lx. subst k'. destruct (Hf _ _ _ Ix) as (a & Ia & Ea & C). exists a. split; auto. split; auto.
          destruct C as [(Da & q & ->)|C]; [inversion Lx; subst; now apply pf_default|].
          destruct (IH _ Ix (nonnull_default a) (iv_type a) w C Lx (Pi _ Ix)) as [G|(Da & ->)]; [now apply pf_fits|].
          apply pf_default. unfold has_default. intro E. unfold nonnull_default in Da. rewrite E in Da. discriminate.
        * apply (required_present _ (map (fun f : schema_location * (string * lit) => fst (snd f)) fields)); auto.
          clear - F. induction F as [|a b l l' (E & _) F IH]; simpl; [reflexivity|]. rewrite E, IH. reflexivity.
      + inversion H.
      + apply value_strip in H; [|split; discriminate]. apply if_nonnull; [discriminate|auto].
  Qed.

  Theorem arguments_fit : forall declared args avs, arguments_ok S (Some vs) declared args -> args_value es args avs -> plain_args known args ->
    inputs_fit S declared avs.
  Proof.
    intros declared args avs (H1 & H2) (kvs & F & ->) P. unfold plain_args in P. rewrite Forall_forall in P. constructor.
    - intros k w Hk. rewrite lookup_firsts in Hk. apply lookup_in in Hk. destruct (forall2_in_right _ _ _ _ _ _ F Hk) as (x & Ix & E & Lx).
      simpl in E, Lx. subst k. destruct (H1 x Ix) as (a & Ia & Ea & C). exists a. split; auto. split; auto.
      destruct C as [(Da & q & Eq)|C]; [rewrite Eq in Lx; inversion Lx; subst; now apply pf_default|].
      destruct (literal_fits _ _ _ _ C Lx (P x Ix)) as [G|(Da & ->)]; [now apply pf_fits|].
      apply pf_default. unfold has_default. intro E. unfold nonnull_default in Da. rewrite E in Da. discriminate.
    - apply (required_present _ (map a_name args)); auto.
      clear - F. induction F as [|a b l l' (E & _) F IH]; simpl; [reflexivity|]. rewrite E, IH. reflexivity.
  Qed.

  Hypothesis K : forall n, In n known -> lookup n es <> None.

  (** ** @skip and @include *)
  Lemma fits_boolean : forall v, type_is S "Boolean" SCALAR -> input_fits S (TNonNull (TNamed "Boolean")) v -> exists b, v = VBool b.
  Proof.
    intros v (d & Hd & Kd) H. apply fits_nonnull_inv in H as (N & H).
    inversion H as [| | |? td ? E K1|? td ? E K1| | | | | |b|n w Hs Nb|n td ? E K1]; subst; try congruence; try (exfalso; congruence).
    - eauto.
    - exfalso. apply Nb. unfold builtin_scalar. simpl. auto 10.
  Qed.

  Lemma lookup_all : forall (kvs : entries) k v, lookup k kvs = Some v -> forall w, NoDup (map fst kvs) -> In (k, w) kvs -> w = v.
  Proof.
    intros kvs k v. induction kvs as [|[n x] kvs IH]; simpl; [discriminate|]. intros E w ND. inversion ND as [|? ? N ND']; subst.
    destruct (String.eqb_spec k n) as [->|Ne].
    - injection E as ->. intros [E|H]; [congruence|]. exfalso. apply N. apply (in_map fst) in H. exact H.
    - intros [E'|H]; [congruence|]. auto.
  Qed.

  Theorem directives_decided : forall loc ds, conditions_declared S -> directives_ok S (Some vs) loc ds -> plain_dirs known ds ->
    exists es' b, decided es ds es' b.
  Proof.
    intros loc ds (CB & CD) (ND & HD) (HP & HO). rewrite Forall_forall in HP.
    destruct (forall2_build _ _ (fun d (kv : string * value) => fst kv = d_name d /\ exists a, args_value es (d_args d) a /\ snd kv = VMap a) ds) as [kvs F].
    { intros d Id. destruct (HP d Id) as (_ & Pa & _). destruct (plain_args_value _ es _ K Pa) as [a Ha]. exists (d_name d, VMap a). simpl. eauto. }
    assert (Hkeys : map fst kvs = map d_name ds).
    { clear - F. induction F as [|a b l l' (E & _) F IH]; simpl; [reflexivity|]. rewrite E, IH. reflexivity. }
    assert (C : forall dn, In dn ["skip"; "include"] -> valid_condition (firsts kvs) dn).
    { intros dn Hdn. unfold valid_condition, condition. rewrite lookup_firsts. destruct (lookup dn kvs) as [w|] eqn:E; [|now left]. right.
      apply lookup_in in E. destruct (forall2_in_right _ _ _ _ _ _ F E) as (d & Id & En & a & Ha & Ea). simpl in En, Ea. subst dn w.
      destruct (HD d Id) as (dd & Idd & Edd & _ & Hargs). destruct (HP d Id) as (_ & Pa & Hne). specialize (Hne Hdn).
      destruct Hargs as [E0|(U & HA)]; [contradiction|]. rewrite <- Edd in Hdn. destruct (CD dd Idd Hdn) as (desc & Ed). rewrite Ed in HA.
      pose proof (arguments_fit _ _ _ HA Ha Pa) as Fit. destruct Ha as (avs & Fa & ->).
      destruct HA as (HA1 & HA2). destruct U as (NDa & _).
      assert (Hlen : exists x, d_args d = [x]).
      { destruct (d_args d) as [|x [|y r]]; [contradiction|eauto|]. exfalso.
        destruct (HA1 x (or_introl eq_refl)) as (a1 & [<-|[]] & E1 & _). destruct (HA1 y (or_intror (or_introl eq_refl))) as (a2 & [<-|[]] & E2 & _).
        simpl in E1, E2. inversion NDa as [|? ? Nx _]. apply Nx. left. congruence. }
      destruct Hlen as (x & Ex). rewrite Ex in *. inversion Fa as [|? kv ? ? (Ek & Lk) Fa']; subst. inversion Fa'; subst. destruct kv as [k w]. simpl in *.
      destruct (HA1 x (or_introl eq_refl)) as (a1 & [<-|[]] & E1 & _). simpl in E1. subst k. rewrite <- E1 in *.
      inversion Fit as [declared kvs' Hf _]; subst. specialize (Hf "if" w). simpl in Hf. destruct (Hf eq_refl) as (a2 & [<-|[]] & _ & Pf).
      inversion Pf as [? ? Fw|? Hdef]; subst; [|exfalso; apply Hdef; reflexivity]. simpl in Fw. destruct (fits_boolean w CB Fw) as (b & ->). exists b. reflexivity. }
    exists (firsts kvs).
    assert (One : one_condition (firsts kvs)).
    { unfold one_condition. rewrite !lookup_firsts. destruct (in_dec string_dec "skip" (map d_name ds)) as [I1|N1].
      - right. apply lookup_absent. rewrite Hkeys. tauto.
      - left. apply lookup_absent. rewrite Hkeys. exact N1. }
    assert (Base : named_dirs ds /\ dirs_value es ds (firsts kvs) /\ valid_conditions (firsts kvs) /\ one_condition (firsts kvs)).
    { split; [apply Forall_forall; intros d Id; apply HP; auto|]. split; [exists kvs; auto|]. split; [split; apply C; simpl; auto|exact One]. }
    assert (Dec : excluded (firsts kvs) \/ ~ excluded (firsts kvs)).
    { unfold excluded, condition. destruct (C "skip") as [E1|(b1 & E1)]; [simpl; auto| |]; destruct (C "include") as [E2|(b2 & E2)]; try (simpl; auto);
        unfold condition in E1, E2; rewrite E1, E2; try (right; intros [E|E]; discriminate);
        try destruct b1; try destruct b2; auto; right; intros [E|E]; discriminate. }
    destruct Dec as [X|X]; [exists false|exists true]; unfold decided; destruct Base as (B1 & B2 & B3 & B4); repeat (split; auto).
    - intros; discriminate.
    - intros; contradiction.
  Qed.
End Fits.
