(** Looking one byte ahead, and working with matches. *)
From Verif Require Export ParserModel.
Local Open Scope list_scope.

Section Look.
Variable sel : rule -> keeps.
Notation M := (matches grammar sel).

Inductive verdict : Type := VFail | VPass | VUnknown.

(** What is certain about an attempt when only the next byte is known ([None]: the end of the input). *)
Fixpoint look_re (lk : rule -> option ascii -> verdict) (r : ex) (h : option ascii) : verdict :=
    match r with
    | Eps => VPass
    | Chr p => match h with Some c => if p c then VUnknown else VFail | None => VFail end
    | Str l => match l, h with
               | [], _ => VPass
               | _ :: _, None => VFail
               | c :: _, Some d => if Ascii.eqb c d then VUnknown else VFail
               end
    | Utf8 lo hi => match h with
                    | None => VFail
                    | Some c => if N.eqb (N.land (byte c) 128) 0
                                then if N.leb lo (byte c) && N.leb (byte c) hi then VUnknown else VFail
                                else VUnknown
                    end
    | Eof => match h with None => VPass | Some _ => VFail end
    | Bof => VUnknown
    | Seq a b => match look_re lk a h with VFail => VFail | VPass => look_re lk b h | VUnknown => VUnknown end
    | Sor a b => match look_re lk a h with VFail => look_re lk b h | VPass => VPass | VUnknown => VUnknown end
    | Star a => match look_re lk a h with VFail => VPass | _ => VUnknown end
    | NotAt a => match look_re lk a h with VFail => VPass | VPass => VFail | VUnknown => VUnknown end
    | Must _ a => match look_re lk a h with VPass => VPass | _ => VUnknown end
    | Ref k => lk k h
    end.
Fixpoint look_rule (n : nat) (k : rule) (h : option ascii) : verdict :=
  match n with
  | O => VUnknown
  | S n => match look_re (look_rule n) (grammar k) h with VFail => VFail | _ => VUnknown end
  end.
Definition look (n : nat) : ex -> option ascii -> verdict := look_re (look_rule n).

Lemma look_re_sound lk
  (Hlk : forall k h, lk k h <> VPass /\ (lk k h = VFail -> forall o s, hd_error s = h -> M (Ref k) o s Fail)) :
  forall r h, (look_re lk r h = VFail -> forall o s, hd_error s = h -> M r o s Fail)
  /\ (look_re lk r h = VPass -> forall o s, hd_error s = h -> M r o s (Match [] o s)).
Proof.
  induction r as [|p|l|lo hi| | |a IHa b IHb|a IHa b IHb|a IHa|a IHa|msg a IHa|k]; intro h; cbn [look_re].
  - split; [discriminate|intros _ o s Hs; constructor].
  - split; [|destruct h as [c|]; [destruct (p c); discriminate|discriminate]].
    intros H o s Hs. destruct s as [|c s]; cbn in Hs; subst h; [constructor|].
    destruct (p c) eqn:E; [discriminate|constructor; exact E].
  - destruct l as [|c l].
    { split; [discriminate|]. intros _ o s Hs. rewrite <- (Nat.add_0_r o) at 2. apply (m_str _ _ []). reflexivity. }
    split; [|destruct h as [d|]; [destruct (Ascii.eqb c d); discriminate|discriminate]].
    intros H o s Hs. destruct s as [|d s]; cbn in Hs; subst h; constructor; cbn; [reflexivity|].
    destruct (Ascii.eqb c d); [discriminate|reflexivity].
  - split; [|destruct h as [d|]; [destruct (N.eqb _ _); [destruct (_ && _); discriminate|discriminate]|discriminate]].
    intros H o s Hs. destruct s as [|d s]; cbn in Hs; subst h; constructor; [reflexivity|].
    unfold utf8_range, peek_utf8. destruct (N.eqb _ _); [|discriminate]. destruct (_ && _); [discriminate|reflexivity].
  - split; intros H o s Hs; destruct h as [c|]; try discriminate; destruct s; try discriminate; constructor.
  - split; discriminate.
  - destruct (IHa h) as [A1 A2], (IHb h) as [B1 B2]. split; destruct (look_re lk a h); intros H o s Hs; try discriminate.
    + apply m_seq_fail. auto.
    + apply (m_seq _ _ a b o s [] o s _ (A2 eq_refl o s Hs) (B1 H o s Hs)).
    + apply (m_seq _ _ a b o s [] o s _ (A2 eq_refl o s Hs) (B2 H o s Hs)).
  - destruct (IHa h) as [A1 A2], (IHb h) as [B1 B2]. split; destruct (look_re lk a h); intros H o s Hs; try discriminate.
    + apply m_sor_r; auto.
    + apply m_sor_r; auto.
    + apply m_sor_l; auto.
  - destruct (IHa h) as [A1 A2]. split; destruct (look_re lk a h); intros H o s Hs; try discriminate. apply m_star_end. auto.
  - destruct (IHa h) as [A1 A2]. split; destruct (look_re lk a h); intros H o s Hs; try discriminate.
    + eapply m_not_fail. eauto.
    + apply m_not. auto.
  - destruct (IHa h) as [A1 A2]. split; destruct (look_re lk a h); intros H o s Hs; try discriminate. apply m_must. auto.
  - destruct (Hlk k h) as [A1 A2]. split; [exact A2|]. intro H. contradiction.
Qed.

Lemma look_sound n : forall r h, (look n r h = VFail -> forall o s, hd_error s = h -> M r o s Fail)
  /\ (look n r h = VPass -> forall o s, hd_error s = h -> M r o s (Match [] o s)).
Proof.
  induction n as [|n IHn]; apply look_re_sound; intros k h; cbn [look_rule].
  - split; discriminate.
  - destruct (IHn (grammar k) h) as [A1 A2]. unfold look in *. destruct (look_re (look_rule n) (grammar k) h);
      (split; [discriminate|]); intros H o s Hs; try discriminate. apply m_ref_fail. auto.
Qed.

Definition all_ascii : list ascii := map ascii_of_nat (seq 0 256).
Lemma all_ascii_complete c : In c all_ascii.
Proof.
  unfold all_ascii. apply in_map_iff. exists (nat_of_ascii c). split; [apply ascii_nat_embedding|].
  apply in_seq. pose proof (nat_ascii_bounded c). lia.
Qed.

Definition fails_on (r : ex) (p : ascii -> bool) : bool :=
  forallb (fun c => negb (p c) || match look 8 r (Some c) with VFail => true | _ => false end) all_ascii.
Definition passes_on (r : ex) (p : ascii -> bool) : bool :=
  forallb (fun c => negb (p c) || match look 8 r (Some c) with VPass => true | _ => false end) all_ascii.

Lemma fails_head r p : fails_on r p = true -> forall c s o, p c = true -> M r o (c :: s) Fail.
Proof.
  intros H c s o Hc. unfold fails_on in H. rewrite forallb_forall in H. specialize (H c (all_ascii_complete c)).
  rewrite Hc in H. cbn [negb orb] in H. destruct (look 8 r (Some c)) eqn:E; try discriminate.
  eapply look_sound; [exact E|reflexivity].
Qed.
Lemma passes_head r p : passes_on r p = true -> forall c s o, p c = true -> M r o (c :: s) (Match [] o (c :: s)).
Proof.
  intros H c s o Hc. unfold passes_on in H. rewrite forallb_forall in H. specialize (H c (all_ascii_complete c)).
  rewrite Hc in H. cbn [negb orb] in H. destruct (look 8 r (Some c)) eqn:E; try discriminate.
  eapply look_sound; [exact E|reflexivity].
Qed.
Lemma fails_char r c : look 8 r (Some c) = VFail -> forall s o, M r o (c :: s) Fail.
Proof. intros H s o. eapply look_sound; [exact H|reflexivity]. Qed.
Lemma passes_char r c : look 8 r (Some c) = VPass -> forall s o, M r o (c :: s) (Match [] o (c :: s)).
Proof. intros H s o. eapply look_sound; [exact H|reflexivity]. Qed.
Lemma fails_end r : look 8 r None = VFail -> forall o, M r o [] Fail.
Proof. intros H o. eapply look_sound; [exact H|reflexivity]. Qed.
Lemma passes_end r : look 8 r None = VPass -> forall o, M r o [] (Match [] o []).
Proof. intros H o. eapply look_sound; [exact H|reflexivity]. Qed.

(** [acc r o t rest ns]: at offset [o], in front of [t ++ rest], [r] consumes exactly [t]. *)
Definition acc (r : ex) (o : nat) (t rest : list ascii) (ns : list (node rule)) : Prop :=
  M r o (t ++ rest) (Match ns (o + length t) rest).

Lemma acc_match r o s ns o' s' : M r o s (Match ns o' s') -> exists t, s = t ++ s' /\ acc r o t s' ns.
Proof.
  intro H. destruct (matches_consumes _ _ _ _ _ _ H _ _ _ eq_refl) as (t & -> & ->). exists t. split; [reflexivity|exact H].
Qed.

Lemma acc_eps o rest : acc Eps o [] rest [].
Proof. unfold acc. cbn. rewrite Nat.add_0_r. constructor. Qed.

Lemma acc_nil r o rest : M r o rest (Match [] o rest) -> acc r o [] rest [].
Proof. unfold acc. cbn. rewrite Nat.add_0_r. auto. Qed.

Lemma acc_chr p o c rest : p c = true -> acc (Chr p) o [c] rest [].
Proof. intro H. unfold acc. cbn. constructor. exact H. Qed.

Lemma acc_str l o rest : acc (Str l) o l rest [].
Proof. unfold acc. constructor. apply strip_app. reflexivity. Qed.

Lemma acc_seq a b o t1 t2 rest ns ms : acc a o t1 (t2 ++ rest) ns -> acc b (o + length t1) t2 rest ms ->
  acc (a >> b) o (t1 ++ t2) rest (ns ++ ms).
Proof.
  unfold acc. intros H1 H2. rewrite <- app_assoc, app_length, Nat.add_assoc.
  change (Match (ns ++ ms) (o + length t1 + length t2) rest) with (prepend ns (Match ms (o + length t1 + length t2) rest)).
  eapply m_seq; eassumption.
Qed.

Lemma acc_sor_l a b o t rest ns : acc a o t rest ns -> acc (a </> b) o t rest ns.
Proof. unfold acc. apply m_sor_l. Qed.
Lemma acc_sor_r a b o t rest ns : M a o (t ++ rest) Fail -> acc b o t rest ns -> acc (a </> b) o t rest ns.
Proof. unfold acc. apply m_sor_r. Qed.
Lemma acc_must m a o t rest ns : acc a o t rest ns -> acc (Must m a) o t rest ns.
Proof. unfold acc. apply m_must. Qed.
Lemma acc_opt a o t rest ns : acc a o t rest ns -> acc (opt a) o t rest ns.
Proof. apply acc_sor_l. Qed.
Lemma acc_opt_none a o rest : M a o rest Fail -> acc (opt a) o [] rest [].
Proof. intro H. apply acc_sor_r; [exact H|apply acc_eps]. Qed.
Lemma acc_not a o rest : M a o rest Fail -> acc (NotAt a) o [] rest [].
Proof. intro H. apply acc_nil. apply m_not. exact H. Qed.

Lemma acc_star_nil a o rest : M a o rest Fail -> acc (Star a) o [] rest [].
Proof. intro H. apply acc_nil. apply m_star_end. exact H. Qed.
Lemma acc_star_cons a o t1 t2 rest ns ms : acc a o t1 (t2 ++ rest) ns -> acc (Star a) (o + length t1) t2 rest ms ->
  acc (Star a) o (t1 ++ t2) rest (ns ++ ms).
Proof.
  unfold acc. intros H1 H2. rewrite <- app_assoc, app_length, Nat.add_assoc.
  change (Match (ns ++ ms) (o + length t1 + length t2) rest) with (prepend ns (Match ms (o + length t1 + length t2) rest)).
  eapply m_star; eassumption.
Qed.

Lemma acc_ref k o t rest ns : acc (grammar k) o t rest ns -> sel k = Keep -> acc (Ref k) o t rest [Node k o t ns].
Proof.
  unfold acc. intros H E. apply m_ref in H. rewrite E in H. cbn [select] in H.
  replace (o + length t - o) with (length t) in H by lia.
  rewrite firstn_app, firstn_all, Nat.sub_diag, firstn_O, app_nil_r in H. exact H.
Qed.

Lemma acc_ref_skip k o t rest ns : acc (grammar k) o t rest ns -> sel k = Skip -> acc (Ref k) o t rest ns.
Proof. unfold acc. intros H E. apply m_ref in H. rewrite E in H. exact H. Qed.

Lemma acc_ref_fold k o t rest x : acc (grammar k) o t rest [x] -> sel k = FoldOne -> acc (Ref k) o t rest [x].
Proof. unfold acc. intros H E. apply m_ref in H. rewrite E in H. exact H. Qed.

(** ** Taking a match apart. *)
Lemma seq_inv a b o s ns o' s' : M (a >> b) o s (Match ns o' s') ->
  exists n1 o1 s1 n2, M a o s (Match n1 o1 s1) /\ M b o1 s1 (Match n2 o' s') /\ ns = n1 ++ n2.
Proof.
  intro H. inversion H as [| | | | | | | | | | | |a' b' oo ss n1 o1 s1 x H1 H2 Ea Eo Es Ex| | | | | | | | | | | | | | | | |]; subst.
  destruct x as [n2 o2 s2| |]; cbn in Ex; try discriminate. injection Ex as <- <- <-. exists n1, o1, s1, n2. auto.
Qed.
Lemma sor_inv a b o s ns o' s' : M (a </> b) o s (Match ns o' s') ->
  M a o s (Match ns o' s') \/ (M a o s Fail /\ M b o s (Match ns o' s')).
Proof. intro H. inversion H; subst; auto. Qed.
Lemma must_inv m a o s ns o' s' : M (Must m a) o s (Match ns o' s') -> M a o s (Match ns o' s').
Proof. intro H. inversion H; subst; auto. Qed.
Lemma opt_inv a o s ns o' s' : M (opt a) o s (Match ns o' s') ->
  M a o s (Match ns o' s') \/ (M a o s Fail /\ ns = [] /\ o' = o /\ s' = s).
Proof. intro H. apply sor_inv in H as [H|[F H]]; [auto|]. inversion H; subst. auto. Qed.
Lemma not_inv a o s ns o' s' : M (NotAt a) o s (Match ns o' s') -> M a o s Fail /\ ns = [] /\ o' = o /\ s' = s.
Proof. intro H. inversion H; subst. auto. Qed.
Lemma chr_inv p o s ns o' s' : M (Chr p) o s (Match ns o' s') -> exists c, s = c :: s' /\ p c = true /\ ns = [] /\ o' = o + 1.
Proof. intro H. inversion H; subst. eauto. Qed.
Lemma str_inv l o s ns o' s' : M (Str l) o s (Match ns o' s') -> s = l ++ s' /\ ns = [] /\ o' = o + length l.
Proof. intro H. inversion H as [| | | |l' oo ss s1 E| | | | | | | | | | | | | | | | | | | | | | | | |]; subst. apply strip_app in E. auto. Qed.
Lemma ref_inv k o s ns o' s' : M (Ref k) o s (Match ns o' s') ->
  exists ks t, M (grammar k) o s (Match ks o' s') /\ s = t ++ s' /\ o' = o + length t
               /\ ns = select (sel k) (Node k o t ks).
Proof.
  intro H. inversion H as [| | | | | | | | | | | | | | | | | | | | | | | | | | |n' oo ss ks o1 s1 H1| |]; subst.
  destruct (matches_consumes _ _ _ _ _ _ H1 _ _ _ eq_refl) as (t & -> & ->). exists ks, t.
  split; [exact H1|]. split; [reflexivity|]. split; [reflexivity|].
  replace (o + length t - o) with (length t) by lia.
  rewrite firstn_app, firstn_all, Nat.sub_diag, firstn_O, app_nil_r. reflexivity.
Qed.
Lemma keep_inv k o s ns o' s' : M (Ref k) o s (Match ns o' s') -> sel k = Keep ->
  exists ks t, M (grammar k) o s (Match ks o' s') /\ s = t ++ s' /\ o' = o + length t /\ ns = [Node k o t ks].
Proof.
  intros H E. apply ref_inv in H as (ks & t & H1 & H2 & H3 & H4). rewrite E in H4. exists ks, t. auto.
Qed.
Lemma skip_inv k o s ns o' s' : M (Ref k) o s (Match ns o' s') -> sel k = Skip -> M (grammar k) o s (Match ns o' s').
Proof. intros H E. apply ref_inv in H as (ks & t & H1 & H2 & H3 & H4). rewrite E in H4. cbn in H4. subst. exact H1. Qed.

(** The attempts of a star. *)
Inductive rounds (a : ex) : nat -> list ascii -> list (node rule) -> nat -> list ascii -> Prop :=
| rounds_nil o s : M a o s Fail -> rounds a o s [] o s
| rounds_cons o s n1 o1 s1 n2 o2 s2 : M a o s (Match n1 o1 s1) -> rounds a o1 s1 n2 o2 s2 -> rounds a o s (n1 ++ n2) o2 s2.

Lemma star_inv a o s ns o' s' : M (Star a) o s (Match ns o' s') -> rounds a o s ns o' s'.
Proof.
  intro H. remember (Star a) as r eqn:Er. remember (Match ns o' s') as x eqn:Ex. revert ns Ex.
  induction H; intros ks Ex; try discriminate.
  - injection Er as ->. injection Ex as <- <- <-. constructor. assumption.
  - injection Er as ->. destruct x as [n2 o2 s2| |]; cbn in Ex; try discriminate. injection Ex as <- <- <-.
    econstructor; [eassumption|]. apply IHmatches2; reflexivity.
Qed.

End Look.
