(** Values and arguments: every spelling is accepted and read back as what it spells. *)
From Coq Require Import String Ascii NArith ZArith Bool List Lia.
From Verif Require Import Cpp Value Ast.
From Verif Require Export TreeModel ParseSpec PegLook ParseLex ParseUtf8 ParseStrings.
Import ListNotations.
Local Open Scope list_scope.

(** ** First bytes. *)
Definition all_bytes (p : ascii -> bool) : bool := forallb p all_ascii.
Lemma all_bytes_spec p : all_bytes p = true -> forall c, p c = true.
Proof. intros H c. unfold all_bytes in H. rewrite forallb_forall in H. apply H. apply all_ascii_complete. Qed.
Lemma disjoint p q : all_bytes (fun c => negb (p c) || negb (q c)) = true -> forall c, p c = true -> q c = false.
Proof. intros H c Hc. pose proof (all_bytes_spec _ H c) as X. cbn in X. rewrite Hc in X. cbn in X. destruct (q c); [discriminate|reflexivity]. Qed.

Definition starts (p : ascii -> bool) (t : text) : Prop := exists c r, t = c :: r /\ p c = true.
Lemma starts_head p q t s : starts p t -> all_bytes (fun c => negb (p c) || negb (q c)) = true -> head_not q (t ++ s).
Proof. intros (c & r & -> & Hc) H. cbn. eapply disjoint; eassumption. Qed.
Lemma starts_app p t s : starts p t -> starts p (t ++ s).
Proof. intros (c & r & -> & H). exists c, (r ++ s). auto. Qed.
Lemma starts_imp (p q : ascii -> bool) t : starts p t -> (forall c, p c = true -> q c = true) -> starts q t.
Proof. intros (c & r & -> & H) I. exists c, r. auto. Qed.
Lemma starts_eqb c r : starts (Ascii.eqb c) (c :: r).
Proof. exists c, r. split; [reflexivity|apply Ascii.eqb_refl]. Qed.

Lemma starts_name n : name n -> starts is_alpha_ (chars n).
Proof. intro H. destruct (name_chars _ H) as (c & r & -> & Hc & _). exists c, r. auto. Qed.

Lemma blank_starts b : blank b -> starts blank_start b.
Proof.
  intro H. inversion H as [c Hc|body Hb]; subst.
  - exists c, []. split; [reflexivity|]. unfold blank_start. apply in_existsb.
    cbn in Hc |- *. intuition.
  - eexists. eexists. split; [reflexivity|reflexivity].
Qed.
Lemma blanks_app v w : blanks v -> blanks w -> blanks (v ++ w).
Proof. induction 1; intro; [assumption|]. rewrite <- app_assoc. constructor; auto. Qed.
Lemma some_blanks_starts w : some_blanks w -> starts blank_start w.
Proof.
  intros [H N]. inversion H as [|b v Hb Hv]; subst; [contradiction|]. apply starts_app. apply blank_starts. exact Hb.
Qed.
Lemma some_starts w : blanks w -> w <> [] -> starts blank_start w.
Proof. intros. apply some_blanks_starts. split; assumption. Qed.
Lemma blanks_head p w s : blanks w -> all_bytes (fun c => negb (blank_start c) || negb (p c)) = true -> head_not p s -> head_not p (w ++ s).
Proof.
  intros Hw Hp Hs. destruct w as [|c w]; [exact Hs|]. apply (starts_head blank_start); [|exact Hp].
  apply some_starts; [exact Hw|discriminate].
Qed.

(** The next byte that is not ignored is not one of [p]. *)
Definition follow (p : ascii -> bool) (rest : text) : Prop :=
  trailing rest \/ exists w s, rest = w ++ s /\ blanks w /\ stop s /\ head_not p s.
Lemma follow_intro p w s : blanks w -> stop s -> head_not p s -> follow p (w ++ s).
Proof. intros. right. exists w, s. auto. Qed.
Lemma follow_now p s : stop s -> head_not p s -> follow p s.
Proof. intros. right. exists [], s. repeat split; auto. constructor. Qed.
Lemma follow_end p e : trailing e -> follow p e.
Proof. left. assumption. Qed.
Lemma trailing_more w e : blanks w -> trailing e -> trailing (w ++ e).
Proof.
  intros Hw He. destruct He as [v Hv|v body Hv Hb]; [apply trailing_blanks; apply blanks_app; assumption|].
  rewrite app_assoc. apply trailing_comment; [apply blanks_app; assumption|exact Hb].
Qed.
Lemma follow_blanks p w s : blanks w -> follow p s -> follow p (w ++ s).
Proof.
  intros Hw [He|(v & u & -> & Hv & A & B)]; [left; apply trailing_more; assumption|].
  rewrite app_assoc. apply follow_intro; auto using blanks_app.
Qed.
Lemma follow_imp p q s : follow p s -> (forall c, q c = true -> p c = true) -> follow q s.
Proof.
  intros [He|(w & u & -> & Hw & A & B)] H; [left; exact He|]. apply follow_intro; [assumption..|]. destruct u as [|c u]; cbn in *; [exact I|].
  destruct (q c) eqn:E; [rewrite (H _ E) in B; discriminate|reflexivity].
Qed.
Lemma head_not_imp (p q : ascii -> bool) s : head_not p s -> (forall c, q c = true -> p c = true) -> head_not q s.
Proof.
  intros B H. destruct s as [|c u]; cbn in *; [exact I|]. destruct (q c) eqn:E; [rewrite (H _ E) in B; discriminate|reflexivity].
Qed.

(** What may come after a value. *)
Definition goes_on (c : ascii) : bool := is_ident c || Ascii.eqb c "."%char || Ascii.eqb c """"%char.
Notation after_value := (head_not goes_on).

Definition value_first (c : ascii) : bool :=
  is_ident c || existsb (Ascii.eqb c) ["-"; """"; "["; "{"; "$"]%char.

Section Items.
Variable sel : rule -> keeps.
Notation M := (matches grammar sel).
Notation acc := (acc sel).

Lemma fail_head r p : fails_on r (fun c => negb (p c)) = true -> look 8 r None = VFail ->
  forall o s, head_not p s -> M r o s Fail.
Proof.
  intros H E o [|c s] Hs; [apply fails_end; exact E|]. apply (fails_head sel r (fun c => negb (p c)) H). cbn in Hs. rewrite Hs. reflexivity.
Qed.

Lemma acc_trailing e : trailing e -> forall o, acc (Star g_ignored) o e [] [].
Proof.
  assert (forall body, ~ In lf body -> forall o, acc until_eolf o body [] []) as Until.
  { intros body Hb o. rewrite <- (app_nil_r body). apply (acc_seq sel _ _ o body [] [] [] []); [|apply acc_sor_l; apply acc_nil; constructor].
    revert o. induction body as [|c body IH]; intro o.
    - apply acc_star_nil. apply m_seq_fail. eapply m_not_fail. apply m_sor_l. constructor.
    - apply (acc_star_cons sel _ o [c] body _ [] []); [|apply IH; intro X; apply Hb; right; exact X].
      apply (acc_seq sel _ _ o [] [c] _ [] []); [|apply acc_chr; reflexivity]. apply acc_not.
      apply m_sor_r; [constructor|]. rewrite app_nil_r. cbn [app]. apply eol_fails.
      + intro X. apply Hb. left. exact X.
      + intros _. destruct body as [|b body]; [exact I|]. cbn [head_not]. apply eqb_neq. intro X. apply Hb. right. left. symmetry. exact X. }
  intros H o. destruct H as [w Hw|w body Hw Hb]; [apply acc_blanks; [exact Hw|exact I]|].
  revert o. induction Hw as [|b w Hbl Hw IH]; intro o.
  - cbn [app]. rewrite <- (app_nil_r ("#"%char :: body)) at 1. apply (acc_star_cons sel _ o ("#"%char :: body) [] _ [] []).
    + apply acc_sor_r; [apply fails_char; by_look|]. apply acc_sor_r; [apply fails_char; by_look|].
      apply (acc_seq sel _ _ o ["#"%char] body _ [] []); [apply acc_one; left; reflexivity|]. apply Until. exact Hb.
    + apply acc_star_nil. apply fails_end. by_look.
  - rewrite <- app_assoc. apply (acc_star_cons sel _ o b _ _ [] []); [apply acc_blank; exact Hbl|apply IH].
Qed.

Lemma rounds_star a o s ns o' s' : rounds sel a o s ns o' s' -> M (Star a) o s (Match ns o' s').
Proof.
  induction 1 as [o s F|o s n1 o1 s1 n2 o2 s2 A R IH]; [apply m_star_end; exact F|].
  apply (m_star _ _ a o s n1 o1 s1 (Match n2 o2 s2)); assumption.
Qed.
Lemma trailing_some e : trailing e -> forall o, (M g_ignored o e Fail /\ e = []) \/ M (plus g_ignored) o e (Match [] (o + length e) []).
Proof.
  intros H o. pose proof (acc_trailing e H o) as T. unfold PegLook.acc in T. rewrite app_nil_r in T.
  apply star_inv in T. remember (o + length e) as o' eqn:Eo. remember [] as ns eqn:En in T at 1. remember [] as s' eqn:Es in T.
  destruct T as [o s F|o s n1 o1 s1 n2 o2 s2 A R].
  - left. subst s. auto.
  - right. apply app_eq_nil in En as [-> ->]. subst s2 o2. apply (m_seq _ _ _ _ o s [] o1 s1 (Match [] (o + length s) [])); [exact A|].
    apply rounds_star. exact R.
Qed.

(** [Star ignored >> r] at a place where [r] does not follow. *)
Lemma ignored_then_fails r p : fails_on r (fun c => negb (p c)) = true -> look 8 r None = VFail ->
  forall o rest, follow p rest -> M (Star g_ignored >> r) o rest Fail.
Proof.
  intros H E o rest [He|(w & s & -> & Hw & Hs & Hp)].
  { pose proof (acc_trailing rest He o) as T. unfold PegLook.acc in T. rewrite app_nil_r in T.
    eapply m_seq with (x := Fail); [exact T|]. apply fails_end. exact E. }
  eapply m_seq with (x := Fail); [apply (acc_blanks sel w Hw o s Hs)|].
  apply (fail_head r p); assumption.
Qed.
Lemma some_ignored_then_fails r p : fails_on r (fun c => negb (p c)) = true -> look 8 r None = VFail ->
  forall o rest, follow p rest -> M (plus g_ignored >> r) o rest Fail.
Proof.
  intros H E o rest [He|(w & s & -> & Hw & Hs & Hp)].
  { destruct (trailing_some rest He o) as [[F ->]|T]; [apply m_seq_fail; apply m_seq_fail; exact F|].
    eapply m_seq with (x := Fail); [exact T|]. apply fails_end. exact E. }
  destruct Hw as [|b w Hb Hw].
  - apply m_seq_fail. apply m_seq_fail. apply ignored_fails. exact Hs.
  - eapply m_seq with (x := Fail); [apply (acc_some_blanks sel (b ++ w) o s)|].
    + split; [constructor; assumption|]. intro X. apply app_eq_nil in X as [-> _]. apply (blank_nonempty _ Hb). reflexivity.
    + exact Hs.
    + apply (fail_head r p); assumption.
Qed.

Lemma acc_blanks_seq w r o t rest ns : blanks w -> stop (t ++ rest) -> acc r (o + length w) t rest ns ->
  acc (Star g_ignored >> r) o (w ++ t) rest ns.
Proof. intros Hw Hs H. apply (acc_seq sel _ _ o w t rest [] ns); [apply acc_blanks; assumption|exact H]. Qed.
Lemma acc_some_blanks_seq w r o t rest ns : some_blanks w -> stop (t ++ rest) -> acc r (o + length w) t rest ns ->
  acc (plus g_ignored >> r) o (w ++ t) rest ns.
Proof. intros Hw Hs H. apply (acc_seq sel _ _ o w t rest [] ns); [apply acc_some_blanks; assumption|exact H]. Qed.

(** A list of items. *)
Section List.
Context {A : Type}.
Variable P : nat -> A -> text -> Prop.
Variable r : ex.
Variable rd : node rule -> option A.
Variable q : text -> Prop.
Variable p : ascii -> bool.        (* the first byte of an item *)
Hypothesis Hp : all_bytes (fun c => negb (p c) || negb (blank_start c)) = true.
Hypothesis Hfirst : forall o x t, P o x t -> starts p t.
Hypothesis Hq : forall w o x t s, some_blanks w -> P o x t -> q (w ++ t ++ s).
Variable N : nat.
Hypothesis Hacc : forall o x t, P o x t -> length t < N -> forall rest, q rest -> exists n, acc r o t rest [n] /\ rd n = Some x.

Lemma item_stop o x t s : P o x t -> stop (t ++ s).
Proof. intro H. eapply starts_head; [eapply Hfirst; exact H|exact Hp]. Qed.

Lemma acc_items o xs t : items some_blanks P o xs t -> length t < N -> forall rest, q rest ->
  (forall o, M (plus g_ignored >> r) o rest Fail) ->
  exists ns, acc (list_of r (plus g_ignored)) o t rest ns /\ all rd ns = Some xs.
Proof.
  intro H. enough (length t < N -> forall rest, q rest -> (forall o, M (plus g_ignored >> r) o rest Fail) ->
    exists n t1 t2 ns, t = t1 ++ t2 /\ acc r o t1 (t2 ++ rest) [n] /\ acc (Star (plus g_ignored >> r)) (o + length t1) t2 rest ns
      /\ all rd (n :: ns) = Some xs) as E.
  { intros Hl rest Hr Hf. destruct (E Hl rest Hr Hf) as (n & t1 & t2 & ns & -> & A1 & A2 & A3). exists ([n] ++ ns).
    split; [|exact A3]. apply acc_seq; assumption. }
  induction H as [o x t Hx|o x t w xs t' Hx Hw Hxs IH]; intros Hl rest Hr Hf.
  - destruct (Hacc o x t Hx Hl rest Hr) as (n & A1 & A2). exists n, t, [], []. rewrite app_nil_r. split; [reflexivity|].
    split; [exact A1|]. split; [apply acc_star_nil; apply Hf|]. cbn. rewrite A2. reflexivity.
  - rewrite !app_length in Hl. destruct (IH ltac:(lia) rest Hr Hf) as (n & t1 & t2 & ns & -> & A1 & A2 & A3).
    assert (exists o' y s', P o' y s' /\ exists s'', (t1 ++ t2) ++ rest = s' ++ s'') as (o' & y & s' & Hy & s'' & E).
    { clear - Hxs. inversion Hxs; subst; [eexists; eexists; eexists; split; [eassumption|eexists; reflexivity]|].
      eexists; eexists; eexists; split; [eassumption|]. rewrite <- !app_assoc. eexists; reflexivity. }
    assert (q ((w ++ t1 ++ t2) ++ rest)) as Q by (rewrite <- app_assoc, E; eapply Hq; eassumption).
    destruct (Hacc o x t Hx ltac:(lia) _ Q) as (m & B1 & B2).
    exists m, t, (w ++ t1 ++ t2), ([n] ++ ns). split; [reflexivity|]. split; [exact B1|]. split.
    + rewrite app_assoc. apply acc_star_cons.
      * apply acc_some_blanks_seq; [exact Hw| |exact A1]. rewrite app_assoc, E. eapply item_stop; exact Hy.
      * rewrite app_length, Nat.add_assoc. exact A2.
    + cbn [app]. cbn [all]. cbn [all] in A3. rewrite B2. rewrite A3. reflexivity.
Qed.

Lemma items_start sep o xs t : items sep P o xs t -> starts p t.
Proof. intro H. inversion H; subst; [eapply Hfirst; eassumption|]. apply starts_app. eapply Hfirst; eassumption. Qed.

(** Items between brackets: [Hclose] says the closing bracket is not an item and ends one. *)
Variable close : ascii.
Hypothesis Hclose : blank_start close = false.
Hypothesis Hq' : forall w s, blanks w -> q (w ++ close :: s).
Hypothesis Hfails : forall o s, M r o (close :: s) Fail.

Lemma acc_inside o xs t w2 rest : items some_blanks P o xs t -> length t < N -> blanks w2 ->
  exists ns, acc (list_of r (plus g_ignored)) o t (w2 ++ close :: rest) ns /\ all rd ns = Some xs.
Proof.
  intros Hx Hl H2.
  assert (forall o, M (plus g_ignored >> r) o (w2 ++ close :: rest) Fail) as F.
  { intro o'. destruct w2 as [|c w2].
    - apply m_seq_fail. apply m_seq_fail. apply ignored_fails. exact Hclose.
    - eapply m_seq with (x := Fail); [apply (acc_some_blanks sel (c :: w2) o' (close :: rest)); [split; [assumption|discriminate]|exact Hclose]|].
      apply Hfails. }
  apply (acc_items _ _ _ Hx Hl (w2 ++ close :: rest) (Hq' _ _ H2) F).
Qed.
End List.

Lemma acc_brackets open close mo mi inner o w1 t w2 rest ns : blanks w1 -> blanks w2 -> stop (t ++ w2 ++ close :: rest) ->
  blank_start close = false -> acc inner (o + 1 + length w1) t (w2 ++ close :: rest) ns ->
  acc (one [open] >> Must mo (Star g_ignored >> inner >> Star g_ignored >> Must mi (one [close]))) o
    (open :: w1 ++ t ++ w2 ++ [close]) rest ns.
Proof.
  intros H1 H2 Ht Hc H. apply (acc_seq sel _ _ o [open] (w1 ++ t ++ w2 ++ [close]) rest [] ns); [apply acc_one; left; reflexivity|].
  apply acc_must. apply acc_blanks_seq; [exact H1|rewrite <- !app_assoc; exact Ht|].
  rewrite <- (app_nil_r ns). apply acc_seq; [rewrite <- app_assoc; exact H|].
  apply (acc_seq sel _ _ _ w2 [close] rest [] []); [apply acc_blanks; [assumption|exact Hc]|].
  apply acc_must. apply acc_one. left. reflexivity.
Qed.
End Items.

Section Values.
Variable sel : rule -> keeps.
Hypothesis Hsel : forall r, ast_keeps r = true -> sel r = Keep.
Variable L : nat -> schema_location.
Variable atof : string -> spec_float.
Notation M := (matches grammar sel).
Notation acc := (acc sel).
Notation value := (value L atof).
Notation read_value := (read_value L atof).
Notation read_argument := (read_argument L atof).

Lemma read_list b c ks : read_value (Node R_list_value b c ks) =
  match all read_value ks with Some vs => Some (LList (L b) vs) | None => None end.
Proof.
  cbn. f_equal. enough ((fix go (l : list (node rule)) : option (list lit) :=
    match l with [] => Some [] | y :: r => match read_value y with Some v => match go r with Some vs => Some (v :: vs) | None => None end | None => None end end) ks
    = all read_value ks) as -> by reflexivity.
  induction ks as [|x ks IH]; [reflexivity|]. cbn [all]. rewrite IH. reflexivity.
Qed.

Lemma read_object b c ks : read_value (Node R_object_value b c ks) =
  match all read_argument ks with Some vs => Some (LObject (L b) vs) | None => None end.
Proof.
  cbn. match goal with |- match ?a with _ => _ end = _ => enough (a = all read_argument ks) as -> by reflexivity end.
  induction ks as [|[t' b' c' ks'] ks IH]; [reflexivity|]. cbn [all]. unfold TreeModel.read_argument at 1. cbn [n_children n_begin].
  destruct (front ks') as [n|]; [|reflexivity].
  match goal with |- match ?a with _ => _ end = _ =>
    assert (a = match back ks' with Some y => read_value y | None => None end) as -> end.
  { clear. induction ks' as [|x [|y ks'] IH]; try reflexivity. cbn [back] in *. exact IH. }
  destruct (back ks') as [y|]; [|reflexivity]. destruct (read_value y); [|reflexivity]. rewrite IH.
  reflexivity.
Qed.

Lemma int_starts t : int_text t -> starts (fun c => is_digit c || Ascii.eqb c "-"%char) t.
Proof.
  intros (sign & ds & -> & [->| ->] & Hd).
  - destruct Hd as [->|(d & r & -> & Hd & _)]; eexists; eexists; split; try reflexivity.
    assert (digit d) as X by (unfold digit, between in *; cbn in *; lia). apply digit_iff in X. rewrite X. reflexivity.
  - eexists; eexists; split; reflexivity.
Qed.

Lemma value_starts o v t : value o v t -> starts value_first t.
Proof.
  assert (forall n, name n -> starts value_first (chars n)) as Hname.
  { intros n H. eapply starts_imp; [apply starts_name; exact H|]. intros c Hc. unfold value_first, is_ident. rewrite Hc. reflexivity. }
  assert (forall i, int_text i -> starts value_first i) as Hint.
  { intros i H. eapply starts_imp; [apply int_starts; exact H|]. intros c Hc. unfold value_first, is_ident. apply orb_true_iff in Hc as [Hc|Hc].
    - rewrite Hc, orb_true_r. reflexivity.
    - cbn [existsb]. rewrite Hc. cbn. apply orb_true_r. }
  intro H. inversion H; subst; try (eexists; eexists; split; [reflexivity|reflexivity]); auto.
  - apply starts_app. auto.
  - match goal with X : bracketed _ _ _ _ _ _ |- _ => inversion X; subst end. eexists; eexists; split; reflexivity.
  - match goal with X : bracketed _ _ _ _ _ _ |- _ => inversion X; subst end. eexists; eexists; split; reflexivity.
Qed.

Lemma value_stop o v t s : value o v t -> stop (t ++ s).
Proof. intro H. eapply starts_head; [eapply value_starts; exact H|by_look]. Qed.

Lemma sor_start a p o t rest : fails_on a p = true -> starts p t -> M a o (t ++ rest) Fail.
Proof. intros H (c & r & -> & Hc). apply (fails_head sel a p H). exact Hc. Qed.

Lemma acc_keep k o t rest ns : ast_keeps k = true -> acc (grammar k) o t rest ns -> acc (Ref k) o t rest [Node k o t ns].
Proof. intros E H. apply acc_ref; auto. Qed.

Lemma disjoint_value : all_bytes (fun c => negb (value_first c) || negb (blank_start c)) = true.
Proof. by_look. Qed.
Lemma disjoint_name : all_bytes (fun c => negb (is_alpha_ c) || negb (blank_start c)) = true.
Proof. by_look. Qed.
Lemma no_value o s : M g_input_value_content o ("]"%char :: s) Fail.
Proof. apply fails_char. by_look. Qed.
Lemma no_field o s : M (Ref R_object_field) o ("}"%char :: s) Fail.
Proof. apply fails_char. by_look. Qed.
Lemma no_argument o s : M (Ref R_argument) o (")"%char :: s) Fail.
Proof. apply fails_char. by_look. Qed.

(** A name, a colon and a value. *)
Lemma acc_named N (HV : forall o v t, value o v t -> length t < N -> forall rest, after_value rest ->
    exists n, acc g_input_value_content o t rest [n] /\ read_value n = Some v)
  k kn (Hk : ast_keeps k = true) (Hkn : ast_keeps kn = true) m (Gn : grammar kn = g_name)
  (Gk : grammar k = (Ref kn >> Must m (Star g_ignored >> one [":"%char] >> Star g_ignored >> g_input_value))) :
  forall o x t, named L value o x t -> length t < N -> forall rest, after_value rest ->
    exists n, acc (Ref k) o t rest [n] /\ read_argument n = Some x.
Proof.
  intros o x t H Hl rest Hr. destruct H as [o n w1 w2 v t Hn H1 H2 Hv].
  assert (length t < N) as Ht by (rewrite !app_length in Hl; cbn in Hl; rewrite app_length in Hl; lia).
  destruct (HV _ _ _ Hv Ht rest Hr) as (y & A1 & A2).
  exists (Node k o (chars n ++ w1 ++ ":"%char :: w2 ++ t) [Node kn o (chars n) []; y]). split.
  - apply acc_keep; [exact Hk|]. rewrite Gk.
    apply (acc_seq sel _ _ o (chars n) _ rest [Node kn o (chars n) []] [y]).
    + apply acc_keep; [exact Hkn|]. rewrite Gn. apply acc_name; [exact Hn|]. rewrite <- app_assoc.
      apply blanks_head; [exact H1|by_look|reflexivity].
    + apply acc_must. apply acc_blanks_seq; [exact H1|reflexivity|].
      apply (acc_seq sel _ _ _ [":"%char] (w2 ++ t) rest [] [y]); [apply acc_one; left; reflexivity|].
      apply acc_blanks_seq; [exact H2|eapply value_stop; exact Hv|]. apply acc_must.
      exact_at A1.
  - unfold TreeModel.read_argument. cbn [front back n_children]. rewrite A2. unfold text_of. cbn [n_content n_begin].
    rewrite str_chars. reflexivity.
Qed.

Lemma named_starts o x t : named L value o x t -> starts is_alpha_ t.
Proof. intros [o' n w1 w2 v t' Hn H1 H2 Hv]. apply starts_app. apply starts_name. exact Hn. Qed.

Lemma after_value_blanks w s : blanks w -> after_value s -> after_value (w ++ s).
Proof. intros H. apply blanks_head; [exact H|by_look]. Qed.
Lemma after_value_some w s : some_blanks w -> after_value (w ++ s).
Proof. intro H. eapply starts_head; [apply some_blanks_starts; exact H|by_look]. Qed.
Lemma after_value_ends s : after_value s -> ends s.
Proof. intro H. eapply head_not_imp; [exact H|]. intros c Hc. unfold goes_on. rewrite Hc. reflexivity. Qed.
Lemma after_value_digits s : after_value s -> head_not is_digit s.
Proof. intro H. eapply head_not_imp; [exact H|]. intros c Hc. unfold goes_on, is_ident. rewrite Hc, orb_true_r. reflexivity. Qed.

Lemma name_decide n : match chars n with c :: r => is_alpha_ c && forallb is_ident r | [] => false end = true -> name n.
Proof.
  unfold name. destruct (chars n) as [|c r]; [discriminate|]. intro H. apply andb_true_iff in H as [H1 H2].
  split; [apply letter_iff; exact H1|]. rewrite forallb_forall in H2. apply Forall_forall. intros x Hx. apply ident_iff. auto.
Qed.
Lemma name_true : name "true". Proof. apply name_decide. reflexivity. Qed.
Lemma name_false : name "false". Proof. apply name_decide. reflexivity. Qed.
Lemma name_null : name "null". Proof. apply name_decide. reflexivity. Qed.

Ltac pass t := first [apply acc_sor_r; [apply (sor_start _ t); [by_look|]|]].

Lemma acc_value : forall N o v t, value o v t -> length t < N -> forall rest, after_value rest ->
  exists n, acc g_input_value_content o t rest [n] /\ read_value n = Some v.
Proof.
  induction N as [|N IH]; intros o v t Hv Hl rest Hr; [lia|].
  unfold g_input_value_content. inversion Hv as [o' n Hn|o' t' Ht|o' i f Hi Hf|o' t' d Ht|o' t' Ht| | | |o' n Hn Hne|o' w Hw|o' vs t' Hb|o' w Hw|o' fs t' Hb]; subst; clear Hv.
  - (* variable *)
    exists (Node R_variable_value o ("$"%char :: chars n) []). split; [|cbn; unfold without_first; cbn [tl]; rewrite str_chars; reflexivity].
    do 2 (apply acc_sor_r; [apply fails_char; by_look|]). apply acc_sor_l. apply acc_keep; [reflexivity|].
    apply (acc_seq sel _ _ o ["$"%char] (chars n) rest [] []); [apply acc_one; left; reflexivity|].
    apply acc_must. apply acc_name; [exact Hn|apply after_value_ends; exact Hr].
  - (* integer *)
    exists (Node R_integer_value o t []). split; [|cbn; rewrite int_number; reflexivity].
    pose proof (int_starts _ Ht) as S.
    do 3 (apply acc_sor_r; [eapply sor_start; [|exact S]; by_look|]).
    apply acc_sor_r.
    + apply m_ref_fail. eapply m_seq with (x := Fail); [apply (acc_int sel t o rest Ht (after_value_digits _ Hr))|].
      apply (fail_head sel _ goes_on); [by_look|by_look|exact Hr].
    + apply acc_sor_l. apply acc_keep; [reflexivity|]. apply acc_int; [exact Ht|apply after_value_digits; exact Hr].
  - (* float *)
    exists (Node R_float_value o (i ++ f) []). split; [|reflexivity].
    pose proof (starts_app _ _ f (int_starts _ Hi)) as S.
    do 3 (apply acc_sor_r; [eapply sor_start; [|exact S]; by_look|]).
    apply acc_sor_l. apply acc_keep; [reflexivity|]. apply (acc_seq sel _ _ o i f rest [] []).
    + apply acc_int; [exact Hi|]. destruct Hf as [(ds & -> & _)|(e & sg & ds & -> & He & _)]; [reflexivity|].
      destruct He as [->| ->]; reflexivity.
    + destruct Hf as [Hf|Hf].
      * apply acc_sor_l. apply acc_fraction; [exact Hf|apply after_value_digits; exact Hr].
      * apply acc_sor_r; [|apply acc_sor_l; apply acc_exponent; [exact Hf|apply after_value_digits; exact Hr]].
        destruct Hf as (e & sg & ds & -> & [->| ->] & _); apply fails_char; by_look.
  - (* string *)
    destruct (acc_string_quoted sel Hsel t' d o rest Ht) as (ns & A & E).
    { eapply head_not_imp; [exact Hr|]. intros c Hc. apply Ascii.eqb_eq in Hc. subst c. reflexivity. }
    exists (Node R_string_value o (""""%char :: t' ++ [""""%char]) ns). split.
    + do 5 (apply acc_sor_r; [apply fails_char; by_look|]). apply acc_sor_l. apply acc_keep; [reflexivity|exact A].
    + cbn [TreeModel.read_value]. unfold joined_view. cbn [n_children]. unfold content in E. rewrite E. reflexivity.
  - (* block string *)
    destruct (acc_string_block sel Hsel t' o rest Ht) as (ns & A & E).
    exists (Node R_string_value o (q3 ++ t' ++ q3) ns). split.
    + do 5 (apply acc_sor_r; [apply fails_char; by_look|]). apply acc_sor_l. apply acc_keep; [reflexivity|exact A].
    + cbn [TreeModel.read_value]. unfold joined_view. cbn [n_children]. unfold content in E. rewrite E. reflexivity.
  - (* true *)
    exists (Node R_true_keyword o (chars "true") []). split; [|reflexivity].
    do 6 (apply acc_sor_r; [apply fails_char; by_look|]). apply acc_sor_l. apply acc_sor_l. apply acc_keep; [reflexivity|].
    apply acc_keyword. apply after_value_ends. exact Hr.
  - exists (Node R_false_keyword o (chars "false") []). split; [|reflexivity].
    do 6 (apply acc_sor_r; [apply fails_char; by_look|]). apply acc_sor_l. apply acc_sor_r; [apply fails_char; by_look|].
    apply acc_keep; [reflexivity|]. apply acc_keyword. apply after_value_ends. exact Hr.
  - exists (Node R_null_keyword o (chars "null") []). split; [|reflexivity].
    do 7 (apply acc_sor_r; [apply fails_char; by_look|]). apply acc_sor_l. apply acc_keep; [reflexivity|].
    apply acc_keyword. apply after_value_ends. exact Hr.
  - (* enum value *)
    exists (Node R_enum_value o (chars n) []). split; [|cbn; rewrite str_chars; reflexivity].
    pose proof (starts_name _ Hn) as S. apply after_value_ends in Hr.
    assert (M (Ref R_true_keyword) o (chars n ++ rest) Fail) as F1.
    { apply m_ref_fail. apply keyword_fails; auto using name_true. intros ->. apply Hne. left. reflexivity. }
    do 6 (apply acc_sor_r; [eapply sor_start; [|exact S]; by_look|]).
    apply acc_sor_r. { apply m_sor_r; [exact F1|]. apply m_ref_fail. apply keyword_fails; auto using name_false. intros ->. apply Hne. cbn. auto. }
    apply acc_sor_r. { apply m_ref_fail. apply keyword_fails; auto using name_null. intros ->. apply Hne. cbn. auto. }
    apply acc_keep; [reflexivity|]. apply (acc_seq sel _ _ o [] (chars n) rest [] []).
    + apply acc_not. apply m_seq_fail. exact F1.
    + apply acc_name; [exact Hn|exact Hr].
  - (* [] *)
    exists (Node R_list_value o ("["%char :: w ++ ["]"%char]) []). split; [|reflexivity].
    apply acc_sor_l. apply acc_keep; [reflexivity|].
    apply (acc_seq sel _ _ o ["["%char] (w ++ ["]"%char]) rest [] []); [apply acc_one; left; reflexivity|].
    apply acc_must. apply acc_blanks_seq; [exact Hw|reflexivity|].
    apply (acc_seq sel _ _ _ [] ["]"%char] rest [] []); [apply acc_opt_none; apply fails_char; by_look|].
    apply (acc_seq sel _ _ _ [] ["]"%char] rest [] []); [apply acc_star_nil; apply fails_char; by_look|].
    apply acc_must. apply acc_one. left. reflexivity.
  - inversion Hb as [o' w1 xs t2 w2 H1 Hx H2]; subst; clear Hb.
    rewrite ?app_length in Hl; cbn [length] in Hl; rewrite ?app_length in Hl.
    destruct (acc_inside sel value g_input_value_content read_value (head_not goes_on) value_first disjoint_value value_starts
       (fun w o x t s Hw _ => after_value_some w (t ++ s) Hw) N IH "]"%char eq_refl
       (fun w s Hw => after_value_blanks w ("]"%char :: s) Hw eq_refl) no_value
       (o + 1 + length w1) vs t2 w2 rest Hx ltac:(lia) H2) as (ns & A1 & A2).
    exists (Node R_list_value o ("["%char :: w1 ++ t2 ++ w2 ++ ["]"%char]) ns). split; [|rewrite read_list, A2; reflexivity].
    apply acc_sor_l. apply acc_keep; [reflexivity|]. apply acc_brackets; try assumption; try reflexivity.
    + eapply starts_head; [eapply items_start; [apply value_starts|exact Hx]|by_look].
    + apply acc_opt. exact A1.
  - exists (Node R_object_value o ("{"%char :: w ++ ["}"%char]) []). split; [|reflexivity].
    apply acc_sor_r; [apply fails_char; by_look|]. apply acc_sor_l. apply acc_keep; [reflexivity|].
    apply (acc_seq sel _ _ o ["{"%char] (w ++ ["}"%char]) rest [] []); [apply acc_one; left; reflexivity|].
    apply acc_must. apply acc_blanks_seq; [exact Hw|reflexivity|].
    apply (acc_seq sel _ _ _ [] ["}"%char] rest [] []); [apply acc_opt_none; apply fails_char; by_look|].
    apply (acc_seq sel _ _ _ [] ["}"%char] rest [] []); [apply acc_star_nil; apply fails_char; by_look|].
    apply acc_must. apply acc_one. left. reflexivity.
  - inversion Hb as [o' w1 xs t2 w2 H1 Hx H2]; subst; clear Hb.
    rewrite ?app_length in Hl; cbn [length] in Hl; rewrite ?app_length in Hl.
    destruct (acc_inside sel (A := argument) (named L value) (Ref R_object_field) read_argument (head_not goes_on) is_alpha_ disjoint_name named_starts
       (fun w o x t s Hw _ => after_value_some w (t ++ s) Hw) N
       (acc_named N IH R_object_field R_object_field_name eq_refl eq_refl _ eq_refl eq_refl) "}"%char eq_refl
       (fun w s Hw => after_value_blanks w ("}"%char :: s) Hw eq_refl) no_field
       (o + 1 + length w1) fs t2 w2 rest Hx ltac:(lia) H2) as (ns & A1 & A2).
    exists (Node R_object_value o ("{"%char :: w1 ++ t2 ++ w2 ++ ["}"%char]) ns). split; [|rewrite read_object, A2; reflexivity].
    apply acc_sor_r; [apply fails_char; by_look|].
    apply acc_sor_l. apply acc_keep; [reflexivity|]. apply acc_brackets; try assumption; try reflexivity.
    + eapply starts_head; [eapply items_start; [apply named_starts|exact Hx]|by_look].
    + apply acc_opt. exact A1.
Qed.

(** ** Arguments and directives. *)
Lemma acc_arguments o a t rest : arguments L atof o a t ->
  exists ks, acc (Ref R_arguments) o t rest [Node R_arguments o t ks] /\ all read_argument ks = Some a.
Proof.
  intro H. inversion H as [o' w1 xs t2 w2 H1 Hx H2]; subst; clear H.
  destruct (acc_inside sel (A := argument) (named L value) (Ref R_argument) read_argument (head_not goes_on) is_alpha_ disjoint_name named_starts
     (fun w o x t s Hw _ => after_value_some w (t ++ s) Hw) (S (length t2))
     (acc_named _ (acc_value _) R_argument R_argument_name eq_refl eq_refl _ eq_refl eq_refl) ")"%char eq_refl
     (fun w s Hw => after_value_blanks w (")"%char :: s) Hw eq_refl) no_argument
     (o + 1 + length w1) a t2 w2 rest Hx ltac:(lia) H2) as (ns & A1 & A2).
  exists ns. split; [|exact A2]. apply acc_keep; [reflexivity|]. apply acc_brackets; try assumption; try reflexivity.
  eapply starts_head; [eapply items_start; [apply named_starts|exact Hx]|by_look].
Qed.
Lemma arguments_starts o a t : arguments L atof o a t -> starts (Ascii.eqb "("%char) t.
Proof. intro H. inversion H; subst. apply starts_eqb. Qed.

(** Something optional, before which something may be ignored. *)
Lemma optional_follow {A} (P : nat -> list A -> text -> Prop) o xs t rest q p : optional P o xs t ->
  (forall o xs t, P o xs t -> starts q t) -> all_bytes (fun c => negb (q c) || negb (blank_start c)) = true ->
  all_bytes (fun c => negb (q c) || negb (p c)) = true -> follow p rest -> follow p (t ++ rest).
Proof.
  intros H HP Hq Hqp Hr. destruct H as [o|o w xs t Hw Ht]; [exact Hr|]. rewrite <- app_assoc.
  apply follow_intro; [exact Hw| |]; (eapply starts_head; [eapply HP; exact Ht|assumption]).
Qed.
Lemma optional_head {A} (P : nat -> list A -> text -> Prop) o xs t rest q p : optional P o xs t ->
  (forall o xs t, P o xs t -> starts q t) -> all_bytes (fun c => negb (blank_start c) || negb (p c)) = true ->
  all_bytes (fun c => negb (q c) || negb (p c)) = true -> head_not p rest -> head_not p (t ++ rest).
Proof.
  intros H HP Hq Hqp Hr. destruct H as [o|o w xs t Hw Ht]; [exact Hr|]. rewrite <- app_assoc.
  apply blanks_head; [exact Hw|exact Hq|]. eapply starts_head; [eapply HP; exact Ht|exact Hqp].
Qed.

Lemma acc_optional_arguments o a t rest : optional (arguments L atof) o a t -> follow (Ascii.eqb "("%char) rest ->
  exists ns, acc (opt (Star g_ignored >> Ref R_arguments)) o t rest ns
    /\ ((ns = [] /\ a = [] /\ t = []) \/ exists b c ks, ns = [Node R_arguments b c ks] /\ all read_argument ks = Some a).
Proof.
  intros H Hr. destruct H as [o|o w xs t Hw Ht].
  - exists []. split; [|left; auto]. apply acc_opt_none. apply (ignored_then_fails sel _ (Ascii.eqb "("%char)); [by_look|by_look|exact Hr].
  - destruct (acc_arguments _ _ _ rest Ht) as (ks & A1 & A2). exists [Node R_arguments (o + length w) t ks]. split; [|right; eauto].
    apply acc_opt. apply acc_blanks_seq; [exact Hw| |exact A1]. eapply starts_head; [eapply arguments_starts; exact Ht|by_look].
Qed.

Definition after_directive (rest : text) : Prop := ends rest /\ follow (Ascii.eqb "("%char) rest.
Lemma acc_directive o d t : directive_use L atof o d t -> forall rest, after_directive rest ->
  exists n, acc (Ref R_directive) o t rest [n] /\ read_directive L atof n = Some d.
Proof.
  intros H rest [Hr1 Hr2]. destruct H as [o n a t Hn Ha].
  destruct (acc_optional_arguments _ _ _ rest Ha Hr2) as (ns & A1 & A2).
  exists (Node R_directive o ("@"%char :: chars n ++ t) (Node R_directive_name (o + 1) (chars n) [] :: ns)). split.
  - apply acc_keep; [reflexivity|].
    apply (acc_seq sel _ _ o ["@"%char] (chars n ++ t) rest [] (Node R_directive_name (o + 1) (chars n) [] :: ns)); [apply acc_one; left; reflexivity|].
    apply acc_must. apply (acc_seq sel _ _ _ (chars n) t rest [Node R_directive_name (o + 1) (chars n) []] ns).
    + apply acc_keep; [reflexivity|]. apply acc_name; [exact Hn|].
      eapply optional_head; [exact Ha|apply arguments_starts|by_look|by_look|exact Hr1].
    + exact_at A1.
  - unfold read_directive, read_arguments, first_child. cbn [n_children n_begin List.find is_type n_type].
    replace (is_type R_directive_name (Node R_directive_name (o + 1) (chars n) [])) with true by reflexivity.
    replace (is_type R_arguments (Node R_directive_name (o + 1) (chars n) [])) with false by reflexivity.
    unfold text_of. cbn [n_content]. rewrite str_chars.
    destruct A2 as [(-> & -> & ->)|(b & c & ks & -> & A2)]; cbn [List.find]; [reflexivity|].
    replace (is_type R_arguments (Node R_arguments b c ks)) with true by reflexivity. cbn [n_children]. rewrite A2. reflexivity.
Qed.
Lemma directive_starts o d t : directive_use L atof o d t -> starts (Ascii.eqb "@"%char) t.
Proof. intro H. destruct H. apply starts_eqb. Qed.
Lemma directives_starts o d t : directives L atof o d t -> starts (Ascii.eqb "@"%char) t.
Proof. intro H. eapply items_start; [apply directive_starts|exact H]. Qed.

Lemma ends_blanks w s : blanks w -> ends s -> ends (w ++ s).
Proof. intros H. apply blanks_head; [exact H|by_look]. Qed.
Lemma ends_some w s : some_blanks w -> ends (w ++ s).
Proof. intro H. eapply starts_head; [apply some_blanks_starts; exact H|by_look]. Qed.

Lemma acc_directives o d t rest : directives L atof o d t -> after_directive rest -> follow (Ascii.eqb "@"%char) rest ->
  exists ks, acc (Ref R_directives) o t rest [Node R_directives o t ks] /\ all (read_directive L atof) ks = Some d.
Proof.
  intros H Hr Hr2.
  destruct (acc_items sel (directive_use L atof) (Ref R_directive) (read_directive L atof) after_directive (Ascii.eqb "@"%char) eq_refl directive_starts) with (N := S (length t)) (o := o) (xs := d) (t := t) (rest := rest) as (ns & A1 & A2); auto.
  - intros w o' x t' s Hw Hx. split; [apply ends_some; exact Hw|].
    apply follow_intro; [apply Hw|eapply starts_head; [eapply directive_starts; exact Hx|by_look]..].
  - intros o' x t' Hx _ rest' Hr'. eapply acc_directive; eassumption.
  - intro o'. apply (some_ignored_then_fails sel _ (Ascii.eqb "@"%char)); [by_look|by_look|exact Hr2].
  - exists ns. split; [apply acc_keep; [reflexivity|exact A1]|exact A2].
Qed.

Lemma acc_optional_directives o d t rest : optional (directives L atof) o d t -> after_directive rest -> follow (Ascii.eqb "@"%char) rest ->
  exists ns, acc (opt (Star g_ignored >> Ref R_directives)) o t rest ns
    /\ ((ns = [] /\ d = [] /\ t = [])
        \/ (acc (Star g_ignored >> Ref R_directives) o t rest ns
            /\ exists b c ks, ns = [Node R_directives b c ks] /\ all (read_directive L atof) ks = Some d)).
Proof.
  intros H Hr Hr2. destruct H as [o|o w xs t Hw Ht].
  - exists []. split; [|left; auto]. apply acc_opt_none. apply (ignored_then_fails sel _ (Ascii.eqb "@"%char)); [by_look|by_look|exact Hr2].
  - destruct (acc_directives _ _ _ rest Ht Hr Hr2) as (ks & A1 & A2). exists [Node R_directives (o + length w) t ks].
    assert (acc (Star g_ignored >> Ref R_directives) o (w ++ t) rest [Node R_directives (o + length w) t ks]) as A.
    { apply acc_blanks_seq; [exact Hw| |exact A1]. eapply starts_head; [eapply directives_starts; exact Ht|by_look]. }
    split; [apply acc_opt; exact A|right; eauto 6].
Qed.

(** ** Types. *)
Lemma type_starts ty t : type_ref ty t -> starts (fun c => is_alpha_ c || Ascii.eqb c "["%char) t.
Proof.
  induction 1 as [n Hn|w1 ty x w2 H1 Ht IH H2|ty x w Ht IH Hne H1].
  - eapply starts_imp; [apply starts_name; exact Hn|]. intros c Hc. rewrite Hc. reflexivity.
  - eexists; eexists; split; reflexivity.
  - apply starts_app. exact IH.
Qed.

Lemma acc_type ty t : type_ref ty t -> forall o rest, ends rest ->
  ((forall u, ty <> TNonNull u) -> exists n, acc (Ref R_list_type </> Ref R_named_type) o t rest [n] /\ read_type n = Some ty /\ is_type_node n = true /\ n_begin n = o)
  /\ (follow (Ascii.eqb "!"%char) rest -> exists n, acc (Ref R_nonnull_type </> Ref R_list_type </> Ref R_named_type) o t rest [n]
       /\ read_type n = Some ty /\ is_type_node n = true /\ n_begin n = o).
Proof.
  assert (forall ty t o rest, follow (Ascii.eqb "!"%char) rest ->
    (exists n, acc (Ref R_list_type </> Ref R_named_type) o t rest [n] /\ read_type n = Some ty /\ is_type_node n = true /\ n_begin n = o) ->
    exists n, acc (Ref R_nonnull_type </> Ref R_list_type </> Ref R_named_type) o t rest [n] /\ read_type n = Some ty /\ is_type_node n = true /\ n_begin n = o) as Plain.
  { intros ty' t' o rest Hf (n & A & B). exists n. split; [|exact B]. apply acc_sor_r; [|exact A]. apply m_ref_fail.
    change Fail with (prepend [n] (@Fail rule)). eapply m_seq; [exact A|].
    apply (ignored_then_fails sel _ (Ascii.eqb "!"%char)); [by_look|by_look|exact Hf]. }
  induction 1 as [n Hn|w1 ty x w2 H1 Ht IH H2|ty x w Ht IH Hne Hw]; intros o rest Hr.
  - assert (exists m, acc (Ref R_list_type </> Ref R_named_type) o (chars n) rest [m] /\ read_type m = Some (TNamed n) /\ is_type_node m = true /\ n_begin m = o) as A.
    { exists (Node R_named_type o (chars n) []). split; [|split; [cbn; rewrite str_chars; reflexivity|split; reflexivity]].
      apply acc_sor_r; [eapply sor_start; [|apply starts_name; exact Hn]; by_look|]. apply acc_keep; [reflexivity|].
      apply acc_name; assumption. }
    split; [intros _; exact A|]. intro Hf. apply Plain; assumption.
  - assert (forall o rest, exists m, acc (Ref R_list_type </> Ref R_named_type) o ("["%char :: w1 ++ x ++ w2 ++ ["]"%char]) rest [m]
       /\ read_type m = Some (TListOf ty) /\ is_type_node m = true /\ n_begin m = o) as A.
    { clear o rest Hr. intros o rest. destruct (IH (o + 1 + length w1) (w2 ++ "]"%char :: rest)) as [_ I].
      { apply ends_blanks; [exact H2|reflexivity]. }
      destruct I as (n & A1 & A2 & _ & _). { apply follow_intro; [exact H2|reflexivity..]. }
      exists (Node R_list_type o ("["%char :: w1 ++ x ++ w2 ++ ["]"%char]) [n]). split; [|split; [cbn [read_type]; rewrite A2; reflexivity|split; reflexivity]].
      apply acc_sor_l. apply acc_keep; [reflexivity|]. apply acc_brackets; try assumption; try reflexivity.
      eapply starts_head; [eapply type_starts; exact Ht|by_look]. }
    split; [intros _; apply A|]. intro Hf. apply Plain; auto.
  - split; [intro X; destruct (X ty eq_refl)|]. intros _. destruct (IH o (w ++ "!"%char :: rest)) as [I _].
    { apply ends_blanks; [exact Hw|reflexivity]. }
    destruct (I Hne) as (n & A1 & A2 & _ & _). exists (Node R_nonnull_type o (x ++ w ++ ["!"%char]) [n]).
    split; [|split; [cbn [read_type]; rewrite A2; reflexivity|split; reflexivity]].
    apply acc_sor_l. apply acc_keep; [reflexivity|].
    apply (acc_seq sel _ _ o x (w ++ ["!"%char]) rest [n] []).
    + rewrite <- app_assoc. exact A1.
    + apply acc_blanks_seq; [exact Hw|reflexivity|]. apply acc_one. left. reflexivity.
Qed.
End Values.
