(** Names, ignored text, keywords and numbers: what the rules consume. *)
From Verif Require Import Cpp Value Ast.
From Verif Require Export PegLook TreeModel ParseSpec.
Local Open Scope list_scope.

Ltac by_look := vm_compute; reflexivity.

(** ** Characters. *)
Lemma in_range_iff a b c : in_range a b c = true <-> between a b c.
Proof. unfold in_range, between. rewrite andb_true_iff, !N.leb_le. reflexivity. Qed.
Lemma digit_iff c : is_digit c = true <-> digit c.
Proof. apply in_range_iff. Qed.
Lemma letter_iff c : is_alpha_ c = true <-> letter c.
Proof.
  unfold is_alpha_, letter. rewrite !orb_true_iff, !in_range_iff, Ascii.eqb_eq. tauto.
Qed.
Lemma ident_iff c : is_ident c = true <-> letter c \/ digit c.
Proof. unfold is_ident. rewrite orb_true_iff, letter_iff, digit_iff. reflexivity. Qed.
Lemma hex_iff c : is_xdigit c = true <-> hex_digit c.
Proof. unfold is_xdigit, hex_digit, digit. rewrite !orb_true_iff, !in_range_iff. tauto. Qed.

(** The next byte is not one of [p]. *)
Definition head_not (p : ascii -> bool) (s : text) : Prop := match s with c :: _ => p c = false | [] => True end.
Definition blank_start (c : ascii) : bool := existsb (Ascii.eqb c) [" "; ","; "#"; code 9; code 10; code 11; code 12; code 13]%char.
Notation stop := (head_not blank_start).
Notation ends := (head_not is_ident).

Lemma head_not_app p s t : head_not p s -> head_not p t -> head_not p (s ++ t).
Proof. destruct s; cbn; auto. Qed.

Section Lex.
Variable sel : rule -> keeps.
Notation M := (matches grammar sel).
Notation acc := (acc sel).

(** A test of bytes, repeated. *)
Lemma chr_fail p o s : head_not p s -> M (Chr p) o s Fail.
Proof. destruct s; cbn; intro; constructor; assumption. Qed.
Lemma chr_fail_inv p o s : M (Chr p) o s Fail -> head_not p s.
Proof. intro H. inversion H; subst; cbn; auto. Qed.

Lemma acc_chars p l : forall o rest, Forall (fun c => p c = true) l -> head_not p rest -> acc (Star (Chr p)) o l rest [].
Proof.
  induction l as [|c l IH]; intros o rest Hl Hr.
  - apply acc_star_nil. apply chr_fail. exact Hr.
  - inversion Hl as [|? ? Hc Hl']; subst. apply (acc_star_cons sel (Chr p) o [c] l rest [] []).
    + apply acc_chr. exact Hc.
    + apply IH; assumption.
Qed.

Lemma chars_inv p o s ns o' s' : M (Star (Chr p)) o s (Match ns o' s') ->
  exists l, s = l ++ s' /\ Forall (fun c => p c = true) l /\ ns = [] /\ o' = o + length l /\ head_not p s'.
Proof.
  intro H. apply star_inv in H. induction H as [o s F|o s n1 o1 s1 n2 o2 s2 M1 R IH].
  - exists []. cbn. repeat split; auto. eapply chr_fail_inv; eassumption.
  - apply chr_inv in M1 as (c & -> & Hc & -> & ->). destruct IH as (l & -> & Hl & -> & -> & Hr).
    exists (c :: l). cbn. repeat split; auto. lia.
Qed.

(** ** Names. *)
Lemma name_chars n : name n -> exists c r, chars n = c :: r /\ is_alpha_ c = true /\ Forall (fun c => is_ident c = true) r.
Proof.
  unfold name. destruct (chars n) as [|c r]; [contradiction|]. intros [Hc Hr]. exists c, r.
  split; [reflexivity|]. split; [apply letter_iff; exact Hc|].
  revert Hr. apply Forall_impl. intros a Ha. apply ident_iff. exact Ha.
Qed.

Lemma chars_str l : chars (str l) = l.
Proof. apply list_ascii_of_string_of_list_ascii. Qed.
Lemma str_chars n : str (chars n) = n.
Proof. apply string_of_list_ascii_of_string. Qed.

Lemma name_of_chars c r : is_alpha_ c = true -> Forall (fun c => is_ident c = true) r -> name (str (c :: r)).
Proof.
  intros Hc Hr. unfold name. rewrite chars_str. split; [apply letter_iff; exact Hc|].
  revert Hr. apply Forall_impl. intros a Ha. apply ident_iff. exact Ha.
Qed.

Lemma alpha_ident c : is_alpha_ c = true -> is_ident c = true.
Proof. unfold is_ident. intros ->. reflexivity. Qed.

Lemma name_idents n : name n -> Forall (fun c => is_ident c = true) (chars n) /\ chars n <> [].
Proof.
  intro H. destruct (name_chars _ H) as (c & r & -> & Hc & Hr). split; [|discriminate].
  constructor; [apply alpha_ident; exact Hc|exact Hr].
Qed.

Lemma acc_name n o rest : name n -> ends rest -> acc g_name o (chars n) rest [].
Proof.
  intros H Hr. destruct (name_chars _ H) as (c & r & -> & Hc & Hl).
  apply (acc_seq sel (Chr is_alpha_) (Star (Chr is_ident)) o [c] r rest [] []).
  - apply acc_chr. exact Hc.
  - apply acc_chars; assumption.
Qed.

Lemma name_inv o s ns o' s' : M g_name o s (Match ns o' s') ->
  exists n, name n /\ s = chars n ++ s' /\ ns = [] /\ o' = o + length (chars n) /\ ends s'.
Proof.
  intro H. apply seq_inv in H as (n1 & o1 & s1 & n2 & H1 & H2 & ->).
  apply chr_inv in H1 as (c & -> & Hc & -> & ->). apply chars_inv in H2 as (l & -> & Hl & -> & -> & Hr).
  exists (str (c :: l)). rewrite chars_str. split; [apply name_of_chars; assumption|].
  split; [reflexivity|]. split; [reflexivity|]. split; [cbn; lia|exact Hr].
Qed.

(** ** Ignored text. *)
Lemma in_existsb c l : In c l <-> existsb (Ascii.eqb c) l = true.
Proof.
  rewrite existsb_exists. split.
  - intro H. exists c. split; [exact H|apply Ascii.eqb_refl].
  - intros (d & H & E). apply Ascii.eqb_eq in E. subst. exact H.
Qed.

Lemma ignored_fails s o : stop s -> M g_ignored o s Fail.
Proof.
  destruct s as [|c s]; intro H; [apply fails_end; by_look|].
  apply (fails_head sel g_ignored (fun c => negb (blank_start c))); [by_look|]. unfold head_not in H. rewrite H. reflexivity.
Qed.

Lemma eolf_lf o rest : acc (Eof </> p_eol) o [lf] rest [].
Proof.
  apply acc_sor_r; [apply fails_char; by_look|]. apply acc_sor_l. apply (acc_str sel [lf]).
Qed.

Lemma acc_until body o rest : ~ In lf body -> acc until_eolf o (body ++ [lf]) rest [].
Proof.
  intro Hb.
  assert (forall o, exists b1 b2, body = b1 ++ b2 /\ (b2 = [] \/ b2 = [cr])
            /\ acc (Star (NotAt (Eof </> p_eol) >> Chr (fun _ => true))) o b1 ((b2 ++ [lf]) ++ rest) []) as H.
  { clear o. revert Hb. induction body as [|c body IH]; intros Hb o.
    - exists [], []. split; [reflexivity|]. split; [auto|]. apply acc_star_nil. apply m_seq_fail.
      eapply m_not_fail. apply (eolf_lf o rest).
    - assert (c <> lf) as Hc by (intro E; apply Hb; left; exact E).
      assert (~ In lf body) as Hb' by (intro E; apply Hb; right; exact E).
      destruct (Ascii.eqb_spec c cr) as [->|Ecr].
      + destruct body as [|d body].
        * exists [], [cr]. split; [reflexivity|]. split; [auto|]. apply acc_star_nil. apply m_seq_fail.
          eapply m_not_fail. apply m_sor_r; [apply fails_char; by_look|].
          apply m_sor_r; [apply fails_char; by_look|]. apply (m_str _ _ [cr; lf]). reflexivity.
        * destruct (IH Hb' (o + 1)) as (b1 & b2 & E & H2 & A). exists (cr :: b1), b2.
          split; [rewrite E; reflexivity|]. split; [exact H2|].
          assert (d <> lf) as Hd by (intro E2; apply Hb'; left; exact E2).
          apply (acc_star_cons sel _ o [cr] b1 _ [] []); [|exact A].
          apply (acc_seq sel _ _ o [] [cr] _ [] []); [|apply acc_chr; reflexivity]. apply acc_not.
          cbn [app]. apply m_sor_r; [apply fails_char; by_look|]. apply m_sor_r; [apply fails_char; by_look|].
          constructor. cbn [strip]. rewrite Ascii.eqb_refl.
          assert (exists r, b1 ++ (b2 ++ [lf]) ++ rest = d :: r) as [r ->].
          { rewrite app_assoc, app_assoc, <- E. cbn. eauto. }
          cbn [strip]. destruct (Ascii.eqb_spec lf d); [congruence|reflexivity].
      + destruct (IH Hb' (o + 1)) as (b1 & b2 & E & H2 & A). exists (c :: b1), b2.
        split; [rewrite E; reflexivity|]. split; [exact H2|].
        apply (acc_star_cons sel _ o [c] b1 _ [] []); [|exact A].
        apply (acc_seq sel _ _ o [] [c] _ [] []); [|apply acc_chr; reflexivity]. apply acc_not. cbn [app].
        apply (fails_head sel _ (fun c => negb (Ascii.eqb c lf) && negb (Ascii.eqb c cr))); [by_look|].
        apply andb_true_iff. split; apply negb_true_iff; apply Ascii.eqb_neq; assumption. }
  destruct (H o) as (b1 & b2 & -> & H2 & A).
  rewrite <- app_assoc. apply (acc_seq sel _ _ o b1 (b2 ++ [lf]) rest [] []); [exact A|].
  destruct H2 as [->| ->]; [apply eolf_lf|].
  apply acc_sor_r; [apply fails_char; by_look|]. apply acc_sor_r; [apply fails_char; by_look|].
  apply (acc_str sel [cr; lf]).
Qed.

Lemma until_inv o s ns o' s' : M until_eolf o s (Match ns o' s') ->
  exists body, ~ In lf body /\ ns = [] /\ ((s = body ++ lf :: s' /\ o' = o + length body + 1) \/ (s = body /\ s' = [] /\ o' = o + length body)).
Proof.
  intro H. apply seq_inv in H as (n1 & o1 & s1 & n2 & H1 & H2 & ->).
  assert (exists body, ~ In lf body /\ n1 = [] /\ s = body ++ s1 /\ o1 = o + length body) as (b & Hb & -> & -> & ->).
  { apply star_inv in H1. clear H2. induction H1 as [o s F|o s n1 o1 s1 n3 o2 s2 M1 R IH].
    - exists []. cbn. repeat split; auto.
    - apply seq_inv in M1 as (m1 & oo & ss & m2 & A & B & ->). apply not_inv in A as (F & -> & -> & ->).
      apply chr_inv in B as (c & -> & _ & -> & ->). destruct IH as (b & Hb & -> & -> & ->).
      exists (c :: b). cbn. repeat split; auto; [|lia]. intros [->|I]; [|contradiction].
      pose proof (eolf_lf o (b ++ s2)) as A. apply (matches_det _ _ _ _ _ _ _ F) in A. discriminate. }
  cbn [app]. apply sor_inv in H2 as [H2|[_ H2]].
  - inversion H2; subst. exists b. split; [exact Hb|]. split; [reflexivity|]. right. rewrite app_nil_r. auto.
  - apply sor_inv in H2 as [H2|[_ H2]]; apply str_inv in H2 as (-> & -> & ->).
    + exists b. split; [exact Hb|]. split; [reflexivity|]. left. split; reflexivity.
    + exists (b ++ [cr]). split; [|split; [reflexivity|]].
      * intro I. apply in_app_or in I as [I|[I|[]]]; [contradiction|discriminate].
      * left. rewrite <- app_assoc, app_length. cbn. split; [reflexivity|lia].
Qed.

Lemma acc_blank b o rest : blank b -> acc g_ignored o b rest [].
Proof.
  intro H. inversion H as [c Hc|body Hb]; subst.
  - repeat (destruct Hc as [<-|Hc];
      [first [apply acc_sor_l; apply acc_chr; reflexivity
             |apply acc_sor_r; [apply fails_char; by_look|]; apply acc_sor_l; apply acc_chr; reflexivity]|]).
    destruct Hc.
  - apply acc_sor_r; [apply fails_char; by_look|]. apply acc_sor_r; [apply fails_char; by_look|].
    apply (acc_seq sel _ _ o ["#"%char] (body ++ [lf]) rest [] []); [apply acc_chr; reflexivity|].
    apply acc_until. exact Hb.
Qed.

Lemma ignored_inv o s ns o' s' : M g_ignored o s (Match ns o' s') ->
  ns = [] /\ exists b, s = b ++ s' /\ o' = o + length b
    /\ (blank b \/ (s' = [] /\ exists body, b = "#"%char :: body /\ ~ In lf body)).
Proof.
  intro H. apply sor_inv in H as [H|[_ H]].
  - apply chr_inv in H as (c & -> & Hc & -> & ->). split; [reflexivity|]. exists [c]. split; [reflexivity|]. split; [reflexivity|].
    left. apply blank_char. apply in_existsb in Hc. cbn in Hc |- *. unfold code, lf, cr in *. tauto.
  - apply sor_inv in H as [H|[_ H]].
    + apply chr_inv in H as (c & -> & Hc & -> & ->). split; [reflexivity|]. exists [c]. split; [reflexivity|]. split; [reflexivity|].
      left. apply blank_char. apply in_existsb in Hc. cbn in Hc |- *. tauto.
    + apply seq_inv in H as (n1 & o1 & s1 & n2 & H1 & H2 & ->).
      apply chr_inv in H1 as (c & -> & Hc & -> & ->). apply in_existsb in Hc. destruct Hc as [<-|[]].
      apply until_inv in H2 as (body & Hb & -> & [[-> ->]|(-> & -> & ->)]).
      * split; [reflexivity|]. exists ("#"%char :: body ++ [lf]). cbn. rewrite <- app_assoc, app_length. cbn.
        split; [reflexivity|]. split; [lia|]. left. apply blank_comment. exact Hb.
      * split; [reflexivity|]. exists ("#"%char :: body). cbn. rewrite app_nil_r. split; [reflexivity|]. split; [lia|].
        right. split; [reflexivity|]. eauto.
Qed.

Lemma acc_blanks w : blanks w -> forall o rest, stop rest -> acc (Star g_ignored) o w rest [].
Proof.
  induction 1 as [|b w Hb Hw IH]; intros o rest Hr.
  - apply acc_star_nil. apply ignored_fails. exact Hr.
  - apply (acc_star_cons sel _ o b w rest [] []); [apply acc_blank; exact Hb|apply IH; exact Hr].
Qed.

Lemma blank_nonempty b : blank b -> b <> [].
Proof. intros H. inversion H; discriminate. Qed.

Lemma acc_some_blanks w o rest : some_blanks w -> stop rest -> acc (plus g_ignored) o w rest [].
Proof.
  intros [Hw Hn] Hr. inversion Hw as [|b w' Hb Hw']; subst; [contradiction|].
  apply (acc_seq sel _ _ o b w' rest [] []); [apply acc_blank; exact Hb|apply acc_blanks; assumption].
Qed.

(** What a star of ignored text consumes: up to the end of the input if there is an unfinished comment. *)
Lemma blanks_inv o s ns o' s' : M (Star g_ignored) o s (Match ns o' s') ->
  ns = [] /\ exists w, s = w ++ s' /\ o' = o + length w /\ (blanks w \/ (s' = [] /\ trailing w)).
Proof.
  intro H. apply star_inv in H. induction H as [o s F|o s n1 o1 s1 n2 o2 s2 M1 R [-> (w & -> & -> & Hw)]].
  - split; [reflexivity|]. exists []. cbn. split; [reflexivity|]. split; [lia|]. left. constructor.
  - apply ignored_inv in M1 as (-> & b & -> & -> & Hb). split; [reflexivity|].
    exists (b ++ w). rewrite app_assoc, app_length. split; [reflexivity|]. split; [lia|].
    destruct Hb as [Hb|(E & body & -> & Hbody)].
    + destruct Hw as [Hw|[-> Hw]]; [left; constructor; assumption|]. right. split; [reflexivity|].
      inversion Hw as [w' Hw'|w' body Hw' Hbody]; subst.
      * apply trailing_blanks. constructor; assumption.
      * rewrite app_assoc. apply trailing_comment; [constructor; assumption|exact Hbody].
    + apply app_eq_nil in E as [-> ->]. right. split; [reflexivity|]. rewrite app_nil_r.
      apply (trailing_comment []); [constructor|exact Hbody].
Qed.

Lemma blanks_inv_more o s ns o' s' : M (Star g_ignored) o s (Match ns o' s') -> s' <> [] ->
  ns = [] /\ exists w, s = w ++ s' /\ o' = o + length w /\ blanks w.
Proof.
  intros H Hn. apply blanks_inv in H as (-> & w & -> & -> & [Hw|[-> _]]); [|contradiction].
  split; [reflexivity|]. exists w. auto.
Qed.

Lemma some_blanks_inv o s ns o' s' : M (plus g_ignored) o s (Match ns o' s') -> s' <> [] ->
  ns = [] /\ exists w, s = w ++ s' /\ o' = o + length w /\ some_blanks w.
Proof.
  intros H Hn. apply seq_inv in H as (n1 & o1 & s1 & n2 & H1 & H2 & ->).
  apply blanks_inv_more in H2 as (-> & w & -> & -> & Hw); [|exact Hn].
  apply ignored_inv in H1 as (-> & b & -> & -> & [Hb|(E & _)]).
  - split; [reflexivity|]. exists (b ++ w). rewrite app_assoc, app_length. split; [reflexivity|]. split; [lia|].
    split; [constructor; assumption|]. intro E. apply app_eq_nil in E as [-> _]. exact (blank_nonempty _ Hb eq_refl).
  - apply app_eq_nil in E as [_ ->]. contradiction.
Qed.

Lemma one_inv l o s ns o' s' : M (one l) o s (Match ns o' s') -> exists c, s = c :: s' /\ In c l /\ ns = [] /\ o' = o + 1.
Proof.
  intro H. apply chr_inv in H as (c & -> & Hc & -> & ->). exists c. apply in_existsb in Hc. auto.
Qed.
Lemma acc_one c l o rest : In c l -> acc (one l) o [c] rest [].
Proof. intro H. apply acc_chr. apply in_existsb. exact H. Qed.

(** ** Keywords. *)
Lemma acc_keyword w o rest : ends rest -> acc (keyword w) o (chars w) rest [].
Proof.
  intro H. rewrite <- (app_nil_r (chars w)) at 1.
  apply (acc_seq sel _ _ o (chars w) [] rest [] []); [apply acc_str|]. apply acc_not. apply chr_fail. exact H.
Qed.

Lemma keyword_inv w o s ns o' s' : M (keyword w) o s (Match ns o' s') ->
  s = chars w ++ s' /\ ns = [] /\ o' = o + length (chars w) /\ ends s'.
Proof.
  intro H. apply seq_inv in H as (n1 & o1 & s1 & n2 & H1 & H2 & ->). apply str_inv in H1 as (-> & -> & ->).
  apply not_inv in H2 as (F & -> & -> & ->). apply chr_fail_inv in F. auto.
Qed.

Lemma prefix_names (a b : text) ra rb : a ++ ra = b ++ rb -> Forall (fun c => is_ident c = true) a ->
  Forall (fun c => is_ident c = true) b -> ends ra -> ends rb -> a = b.
Proof.
  revert b. induction a as [|c a IH]; intros [|d b] E Ha Hb Ra Rb; auto; cbn in E.
  - subst ra. inversion Hb; subst. cbn in Ra. congruence.
  - subst rb. inversion Ha; subst. cbn in Rb. congruence.
  - injection E as -> E. f_equal. inversion Ha; inversion Hb; subst. eapply IH; eassumption.
Qed.

Lemma keyword_fails w n o rest : name w -> name n -> n <> w -> ends rest -> M (keyword w) o (chars n ++ rest) Fail.
Proof.
  intros Hw Hn Ne Hr. unfold keyword.
  destruct (strip (chars w) (chars n ++ rest)) as [s'|] eqn:E; [|apply m_seq_fail; constructor; exact E].
  pose proof E as E'. apply strip_app in E'.
  apply (m_seq _ _ _ _ _ _ [] (o + length (chars w)) s' Fail); [apply m_str; exact E|].
  destruct s' as [|c s'].
  - exfalso. apply Ne. rewrite <- (str_chars n), <- (str_chars w). f_equal.
    apply (prefix_names _ _ rest []); [exact E'| | |exact Hr|exact I]; apply name_idents; assumption.
  - destruct (is_ident c) eqn:Ec; [eapply m_not_fail; apply m_chr; exact Ec|]. exfalso. apply Ne.
    rewrite <- (str_chars n), <- (str_chars w). f_equal.
    apply (prefix_names _ _ rest (c :: s')); [exact E'| | |exact Hr|exact Ec]; apply name_idents; assumption.
Qed.

(** ** Numbers. *)
Lemma digits_fold ds acc : digits_value acc ds = fold_left (fun z c => 10 * z + (Z.of_N (N_of_ascii c) - 48))%Z ds acc.
Proof. revert acc. induction ds as [|c ds IH]; intro acc; cbn [digits_value fold_left]; [reflexivity|]. rewrite IH. f_equal. unfold digit_value. ring. Qed.
Lemma int_number t : int_value t = number t.
Proof. unfold int_value, number, decimal. destruct t; [reflexivity|]. rewrite !digits_fold. reflexivity. Qed.

Lemma Forall_digit l : Forall digit l <-> Forall (fun c => is_digit c = true) l.
Proof. split; apply Forall_impl; intros a; apply digit_iff. Qed.

Lemma acc_int t o rest : int_text t -> head_not is_digit rest -> acc g_integer_part o t rest [].
Proof.
  intros (sign & ds & -> & Hs & Hd) Hr. apply (acc_seq sel _ _ o sign ds rest [] []).
  - assert (exists c r, ds = c :: r /\ is_digit c = true) as (c & r & -> & Hc).
    { destruct Hd as [->|(d & r & -> & Hd & _)]; [eexists; eexists; split; [reflexivity|reflexivity]|].
      exists d, r. split; [reflexivity|]. apply digit_iff. unfold digit, between in *.
      change (N_of_ascii "1") with 49%N in Hd. change (N_of_ascii "0") with 48%N. lia. }
    destruct Hs as [->| ->].
    + apply acc_opt_none. apply (fails_head sel _ is_digit); [by_look|exact Hc].
    + apply acc_opt. apply acc_one. left. reflexivity.
  - destruct Hd as [->|(d & r & -> & Hd & Hl)].
    + apply acc_sor_l. apply acc_one. left. reflexivity.
    + apply acc_sor_r.
      * apply (fails_head sel _ (in_range "1" "9")); [by_look|]. apply in_range_iff. exact Hd.
      * apply (acc_seq sel _ _ _ [d] r rest [] []); [apply acc_chr; apply in_range_iff; exact Hd|].
        apply acc_chars; [apply Forall_digit; exact Hl|exact Hr].
Qed.

Lemma int_inv o s ns o' s' : M g_integer_part o s (Match ns o' s') ->
  ns = [] /\ exists t, s = t ++ s' /\ o' = o + length t /\ int_text t.
Proof.
  intro H. apply seq_inv in H as (n1 & o1 & s1 & n2 & H1 & H2 & ->).
  assert (n1 = [] /\ exists sign, s = sign ++ s1 /\ o1 = o + length sign /\ (sign = [] \/ sign = ["-"%char])) as (-> & sign & -> & -> & Hs).
  { apply opt_inv in H1 as [H1|(_ & -> & -> & ->)].
    - apply one_inv in H1 as (c & -> & [<-|[]] & -> & ->). split; [reflexivity|]. exists ["-"%char]. auto.
    - split; [reflexivity|]. exists []. cbn. auto. }
  apply sor_inv in H2 as [H2|[_ H2]].
  - apply one_inv in H2 as (c & -> & [<-|[]] & -> & ->). split; [reflexivity|].
    exists (sign ++ ["0"%char]). rewrite <- app_assoc, app_length. cbn. split; [reflexivity|]. split; [lia|].
    exists sign, ["0"%char]. auto.
  - apply seq_inv in H2 as (m1 & o2 & s2 & m2 & H1' & H2 & ->). apply chr_inv in H1' as (d & -> & Hd & -> & ->).
    apply chars_inv in H2 as (l & -> & Hl & -> & -> & _). split; [reflexivity|].
    exists (sign ++ d :: l). rewrite <- app_assoc, app_length. cbn. split; [reflexivity|]. split; [lia|].
    exists sign, (d :: l). split; [reflexivity|]. split; [exact Hs|]. right. exists d, l.
    split; [reflexivity|]. split; [apply in_range_iff; exact Hd|apply Forall_digit; exact Hl].
Qed.

Lemma acc_digits ds o rest : ds <> [] -> Forall digit ds -> head_not is_digit rest -> acc (plus p_digit) o ds rest [].
Proof.
  intros Hn Hd Hr. destruct ds as [|d ds]; [contradiction|]. apply Forall_digit in Hd. inversion Hd; subst.
  apply (acc_seq sel _ _ o [d] ds rest [] []); [apply acc_chr; assumption|apply acc_chars; assumption].
Qed.
Lemma digits_inv o s ns o' s' : M (plus p_digit) o s (Match ns o' s') ->
  ns = [] /\ exists ds, s = ds ++ s' /\ o' = o + length ds /\ ds <> [] /\ Forall digit ds.
Proof.
  intro H. apply seq_inv in H as (n1 & o1 & s1 & n2 & H1 & H2 & ->). apply chr_inv in H1 as (d & -> & Hd & -> & ->).
  apply chars_inv in H2 as (l & -> & Hl & -> & -> & _). split; [reflexivity|]. exists (d :: l). cbn.
  split; [reflexivity|]. split; [lia|]. split; [discriminate|]. apply Forall_digit. constructor; assumption.
Qed.

Lemma acc_fraction t o rest : fraction_text t -> head_not is_digit rest -> acc g_fractional_part o t rest [].
Proof.
  intros (ds & -> & Hn & Hd) Hr. apply (acc_seq sel _ _ o ["."%char] ds rest [] []); [apply acc_one; left; reflexivity|].
  apply acc_must. apply acc_digits; assumption.
Qed.
Lemma fraction_inv o s ns o' s' : M g_fractional_part o s (Match ns o' s') ->
  ns = [] /\ exists t, s = t ++ s' /\ o' = o + length t /\ fraction_text t.
Proof.
  intro H. apply seq_inv in H as (n1 & o1 & s1 & n2 & H1 & H2 & ->). apply one_inv in H1 as (c & -> & [<-|[]] & -> & ->).
  apply must_inv in H2. apply digits_inv in H2 as (-> & ds & -> & -> & Hn & Hd). split; [reflexivity|].
  exists ("."%char :: ds). cbn. split; [reflexivity|]. split; [lia|]. exists ds. auto.
Qed.

Lemma acc_exponent t o rest : exponent_text t -> head_not is_digit rest -> acc g_exponent_part o t rest [].
Proof.
  intros (e & sign & ds & -> & He & Hs & Hn & Hd) Hr.
  apply (acc_seq sel _ _ o [e] (sign ++ ds) rest [] []); [apply acc_one; destruct He as [->| ->]; cbn; auto|].
  apply acc_must. apply (acc_seq sel _ _ _ sign ds rest [] []); [|apply acc_digits; assumption].
  destruct Hs as [->|Hs].
  - apply acc_opt_none. destruct ds as [|d ds]; [contradiction|]. apply (fails_head sel _ is_digit); [by_look|].
    apply digit_iff. inversion Hd; assumption.
  - apply acc_opt. destruct Hs as [->| ->]; apply acc_one; cbn; auto.
Qed.
Lemma exponent_inv o s ns o' s' : M g_exponent_part o s (Match ns o' s') ->
  ns = [] /\ exists t, s = t ++ s' /\ o' = o + length t /\ exponent_text t.
Proof.
  intro H. apply seq_inv in H as (n1 & o1 & s1 & n2 & H1 & H2 & ->). apply one_inv in H1 as (e & -> & He & -> & ->).
  apply must_inv in H2. apply seq_inv in H2 as (m1 & o2 & s2 & m2 & H1' & H2 & ->).
  apply digits_inv in H2 as (-> & ds & -> & -> & Hn & Hd).
  assert (m1 = [] /\ exists sign, s1 = sign ++ ds ++ s' /\ o2 = o + 1 + length sign
            /\ (sign = [] \/ sign = ["+"%char] \/ sign = ["-"%char])) as (-> & sign & -> & -> & Hs).
  { apply opt_inv in H1' as [H1|(_ & -> & -> & ->)].
    - apply one_inv in H1 as (c & -> & [<-|[<-|[]]] & -> & ->); (split; [reflexivity|]);
        [exists ["+"%char]|exists ["-"%char]]; auto.
    - split; [reflexivity|]. exists []. cbn. split; [reflexivity|]. split; [lia|auto]. }
  split; [reflexivity|]. exists (e :: sign ++ ds). cbn. rewrite <- app_assoc, app_length.
  split; [reflexivity|]. split; [lia|]. exists e, sign, ds. split; [reflexivity|].
  split; [destruct He as [<-|[<-|[]]]; auto|]. auto.
Qed.
End Lex.
