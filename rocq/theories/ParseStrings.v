(** String literals: what the parser accepts between the quotes and what it delivers. *)
From Coq Require Import String Ascii NArith ZArith Bool List Lia.
From Verif Require Import Cpp Value Ast TreeModel ParseSpec PegLook ParseLex ParseUtf8.
Import ListNotations.
Local Open Scope list_scope.

(** The same match, the offset written differently. *)
Ltac exact_at H :=
  match type of H with PegLook.acc _ _ ?x _ _ _ =>
    match goal with |- PegLook.acc _ _ ?y _ _ _ =>
      replace y with x; [exact H|repeat match goal with h := _ : text |- _ => unfold h end; cbn [length]; rewrite ?app_length; cbn [length]; lia] end end.

Section Strings.
Variable sel : rule -> keeps.
Hypothesis Hsel : forall r, ast_keeps r = true -> sel r = Keep.
Notation M := (matches grammar sel).
Notation acc := (acc sel).

Lemma chr_fails_on p c s o : p c = false -> M (Chr p) o (c :: s) Fail.
Proof. intro H. constructor. exact H. Qed.

Lemma acc_utf8 c o rest : source_code c -> acc (Utf8 32 65535) o (utf8 c) rest [].
Proof.
  intro H. unfold PegLook.acc. pose proof (utf8_range_code c rest H) as E.
  pose proof (m_utf8 grammar sel 32 65535 o (utf8 c ++ rest) _ E) as X.
  rewrite skipn_app, skipn_all, Nat.sub_diag in X. exact X.
Qed.
Lemma utf8_inv o s ns o' s' : M (Utf8 32 65535) o s (Match ns o' s') ->
  exists c, s = utf8 c ++ s' /\ o' = o + length (utf8 c) /\ source_code c /\ ns = [].
Proof.
  intro H. inversion H; subst.
  match goal with E : utf8_range _ _ _ = Some _ |- _ => apply utf8_range_decode in E as (c & r & -> & -> & Hc) end.
  exists c. rewrite skipn_app, skipn_all, Nat.sub_diag. cbn. auto.
Qed.

(** A source character as the grammar has it. *)
Definition source (u : text) : Prop := (exists c, source_code c /\ u = utf8 c) \/ u = [code 9] \/ u = [code 10] \/ u = [code 13].
Lemma acc_source u o rest : source u -> acc g_source_character o u rest [].
Proof.
  intros [(c & Hc & ->)|H].
  - apply acc_sor_r; [|apply acc_utf8; exact Hc]. destruct Hc as [[H1 H2] _].
    destruct (utf8_head c H2) as (a & r & E & A & B). rewrite E. cbn [app].
    apply chr_fails_on. destruct (N.ltb_spec c 128) as [Hl|Hl].
    + destruct (A Hl) as [-> _]. destruct (existsb _ _) eqn:X; [|reflexivity]. apply in_existsb in X.
      cbn in X. destruct X as [X|[X|[X|[]]]]; apply (f_equal N_of_ascii) in X; rewrite N_ascii_embedding in X by lia; cbn in X; lia.
    + specialize (B Hl). destruct (existsb _ _) eqn:X; [|reflexivity]. apply in_existsb in X.
      cbn in X. destruct X as [X|[X|[X|[]]]]; subst a; cbn in B; lia.
  - apply acc_sor_l. destruct H as [->|[->| ->]]; apply acc_one; cbn; auto.
Qed.
Lemma source_inv o s ns o' s' : M g_source_character o s (Match ns o' s') ->
  exists u, s = u ++ s' /\ o' = o + length u /\ source u /\ ns = [].
Proof.
  intro H. apply sor_inv in H as [H|[_ H]].
  - apply one_inv in H as (c & -> & Hc & -> & ->). exists [c]. split; [reflexivity|]. split; [reflexivity|]. split; [|reflexivity].
    right. destruct Hc as [<-|[<-|[<-|[]]]]; auto.
  - apply utf8_inv in H as (c & -> & -> & Hc & ->). exists (utf8 c). split; [reflexivity|]. split; [reflexivity|].
    split; [|reflexivity]. left. eauto.
Qed.

(** ** Quoted strings. *)
Definition unit_ : ex := NotAt g_backslash_token >> NotAt g_quote_token >> NotAt p_eol >> g_source_character.
Definition piece : ex := g_string_escape_sequence </> Ref R_string_quote_character.
Definition more_unicode : ex := (g_backslash_token >> one ["u"%char]) >> g_escaped_unicode_codepoint.

Definition plain (u : text) : Prop := (exists c, source_code c /\ c <> 34%N /\ c <> 92%N /\ u = utf8 c) \/ u = [code 9] \/ u = [code 13].

Lemma plain_source u : plain u -> source u.
Proof. intros [(c & H & _ & _ & E)|[E|E]]; unfold source; eauto. Qed.

Lemma plain_head u : plain u -> exists a r, u = a :: r /\ a <> "\"%char /\ a <> """"%char /\ a <> lf /\ (a = cr -> u = [cr]).
Proof.
  intros [(c & [[H1 H2] H3] & N1 & N2 & ->)|[->| ->]].
  - destruct (utf8_head c H2) as (a & r & E & A & B). exists a, r. split; [exact E|].
    destruct (N.ltb_spec c 128) as [Hl|Hl].
    + destruct (A Hl) as [-> ->].
      split; [|split; [|split]]; intro X; apply (f_equal N_of_ascii) in X; rewrite N_ascii_embedding in X by lia; cbn in X; lia.
    + specialize (B Hl). split; [|split; [|split]]; intro X; subst a; cbn in B; lia.
  - exists (code 9), []. repeat split; try discriminate.
  - exists (code 13), []. repeat split; try discriminate.
Qed.

Lemma eqb_neq a b : a <> b -> Ascii.eqb a b = false.
Proof. apply Ascii.eqb_neq. Qed.

Lemma one_fails a l s o : ~ In a l -> M (one l) o (a :: s) Fail.
Proof.
  intro H. apply chr_fails_on. destruct (existsb _ _) eqn:X; [|reflexivity]. apply in_existsb in X. contradiction.
Qed.

Lemma acc_not4 a b c d o t rest : M a o (t ++ rest) Fail -> M b o (t ++ rest) Fail -> M c o (t ++ rest) Fail -> acc d o t rest [] ->
  acc (NotAt a >> NotAt b >> NotAt c >> d) o t rest [].
Proof.
  intros A B C D. apply (acc_seq sel _ _ o [] t rest [] []); [apply acc_not; exact A|].
  apply (acc_seq sel _ _ _ [] t rest [] []); [apply acc_not; cbn; rewrite Nat.add_0_r; exact B|].
  apply (acc_seq sel _ _ _ [] t rest [] []); [apply acc_not; cbn; rewrite !Nat.add_0_r; exact C|].
  cbn. rewrite !Nat.add_0_r. exact D.
Qed.

Lemma eol_fails a s o : a <> lf -> (a = cr -> head_not (Ascii.eqb lf) s) -> M p_eol o (a :: s) Fail.
Proof.
  intros N1 N2. apply m_sor_r.
  - constructor. cbn [strip]. rewrite eqb_neq; [reflexivity|congruence].
  - constructor. cbn [strip]. destruct (Ascii.eqb_spec cr a) as [<-|Ne]; [|reflexivity].
    specialize (N2 eq_refl). destruct s as [|b s]; [reflexivity|]. cbn [head_not] in N2. cbn [strip]. rewrite N2. reflexivity.
Qed.

Lemma acc_unit u o rest : plain u -> (u = [cr] -> head_not (Ascii.eqb lf) rest) -> acc unit_ o u rest [].
Proof.
  intros Hp Hr. destruct (plain_head _ Hp) as (a & r & E & N1 & N2 & N3 & N4). apply acc_not4.
  - rewrite E. apply one_fails. cbn. intuition congruence.
  - rewrite E. apply one_fails. cbn. intuition congruence.
  - rewrite E. cbn [app]. apply eol_fails; [exact N3|]. intro X. rewrite (N4 X) in E. injection E as _ <-. auto.
  - apply acc_source. apply plain_source. exact Hp.
Qed.

Lemma not_eol_char o s : M p_eol o s Fail -> head_not (Ascii.eqb lf) s /\ forall r, s <> cr :: lf :: r.
Proof.
  intro H. inversion H; subst.
  match goal with A : M (Str [lf]) _ _ Fail, B : M (Str [cr; lf]) _ _ Fail |- _ => inversion A; inversion B; subst end.
  split.
  - destruct s as [|a s]; [exact I|]. cbn [strip head_not] in *. destruct (Ascii.eqb lf a); [discriminate|reflexivity].
  - intros r ->. cbn in *. discriminate.
Qed.
Lemma not_one_head a o s : M (one [a]) o s Fail -> head_not (Ascii.eqb a) s.
Proof.
  intro H. apply chr_fail_inv in H. destruct s as [|b s]; [exact I|]. cbn [head_not existsb] in *. rewrite orb_false_r in H.
  rewrite Ascii.eqb_sym. exact H.
Qed.

Lemma unit_inv o s ns o' s' : M unit_ o s (Match ns o' s') ->
  exists u, s = u ++ s' /\ o' = o + length u /\ ns = [] /\ plain u /\ (u = [cr] -> head_not (Ascii.eqb lf) s').
Proof.
  intro H. apply seq_inv in H as (n1 & o1 & s1 & n2 & A & H & ->). apply not_inv in A as (A & -> & -> & ->).
  apply seq_inv in H as (n1 & o1 & s1 & n3 & B & H & ->). apply not_inv in B as (B & -> & -> & ->).
  apply seq_inv in H as (n1 & o1 & s1 & n2 & C & H & ->). apply not_inv in C as (C & -> & -> & ->).
  apply source_inv in H as (u & -> & -> & Hu & ->). exists u. split; [reflexivity|]. split; [reflexivity|]. split; [reflexivity|].
  apply not_one_head in A. apply not_one_head in B. apply not_eol_char in C as [C C'].
  split.
  - destruct Hu as [(c & Hc & ->)|[->|[->| ->]]].
    + left. exists c. split; [exact Hc|]. split; [|split; [|reflexivity]]; intros ->; [cbn in B|cbn in A]; discriminate.
    + right. left. reflexivity.
    + cbn in C. discriminate.
    + right. right. reflexivity.
  - intros ->. destruct s' as [|b r]; cbn [head_not]; [exact I|]. destruct (Ascii.eqb_spec lf b) as [<-|Ne]; [|reflexivity].
    exfalso. apply (C' r). reflexivity.
Qed.

Definition content (ns : list (node rule)) : text := flat_map n_content ns.
Lemma content_app a b : content (a ++ b) = content a ++ content b.
Proof. apply flat_map_app. Qed.

Notation "'quote'" := (""""%char) (only parsing).

Lemma quoted_head after t d rest : quoted after t d -> head_not (Ascii.eqb lf) (t ++ quote :: rest).
Proof.
  intro H. inversion H as [|a c t' d' Hc N1 N2 Ht|a c t' d' Hc Ht|a c t' d' Hc Ht|a h1 h2 h3 h4 t' d' A B C D Ht]; subst; try reflexivity.
  - destruct (plain_head (utf8 c)) as (x & r & -> & _ & _ & N & _); [left; eauto|]. cbn [head_not app]. apply eqb_neq. congruence.
  - destruct Hc as [->| ->]; reflexivity.
Qed.

Lemma unit_fails_quote o s : M unit_ o (quote :: s) Fail.
Proof.
  apply (m_seq grammar sel _ _ o _ [] o (quote :: s) Fail); [apply m_not; apply fails_char; by_look|].
  apply m_seq_fail. eapply m_not_fail. apply (acc_one sel quote [quote] o s). left. reflexivity.
Qed.
Lemma unit_fails_backslash o s : M unit_ o ("\"%char :: s) Fail.
Proof. apply m_seq_fail. eapply m_not_fail. apply (acc_one sel "\"%char ["\"%char] o s). left. reflexivity. Qed.
Lemma piece_fails_quote o s : M piece o (quote :: s) Fail.
Proof.
  apply m_sor_r; [apply fails_char; by_look|]. apply m_ref_fail. apply m_seq_fail. apply unit_fails_quote.
Qed.

Lemma more_fails o s a : a <> "\"%char -> M more_unicode o (a :: s) Fail.
Proof. intro H. apply m_seq_fail. apply m_seq_fail. apply one_fails. cbn. intuition congruence. Qed.

Lemma acc_codepoint o h1 h2 h3 h4 rest : hex_digit h1 -> hex_digit h2 -> hex_digit h3 -> hex_digit h4 ->
  acc g_escaped_unicode_codepoint o [h1; h2; h3; h4] rest [].
Proof.
  intros A B C D. apply hex_iff in A, B, C, D.
  apply (acc_seq sel _ _ o [h1] [h2; h3; h4] rest [] []); [apply acc_chr; exact A|].
  apply (acc_seq sel _ _ _ [h2] [h3; h4] rest [] []); [apply acc_chr; exact B|].
  apply (acc_seq sel _ _ _ [h3] [h4] rest [] []); [apply acc_chr; exact C|]. apply acc_chr. exact D.
Qed.
Lemma codepoint_inv o s ns o' s' : M g_escaped_unicode_codepoint o s (Match ns o' s') -> ns = [] /\ o' = o + 4 /\
  exists h1 h2 h3 h4, s = h1 :: h2 :: h3 :: h4 :: s' /\ hex_digit h1 /\ hex_digit h2 /\ hex_digit h3 /\ hex_digit h4.
Proof.
  intro H. apply seq_inv in H as (n1 & o1 & s1 & n2 & A & H & ->). apply chr_inv in A as (h1 & -> & A & -> & ->).
  apply seq_inv in H as (n1 & o1 & s2 & n3 & B & H & ->). apply chr_inv in B as (h2 & -> & B & -> & ->).
  apply seq_inv in H as (n1 & o1 & s3 & n2 & C & H & ->). apply chr_inv in C as (h3 & -> & C & -> & ->).
  apply chr_inv in H as (h4 & -> & D & -> & ->). split; [reflexivity|]. split; [lia|]. exists h1, h2, h3, h4.
  apply hex_iff in A, B, C, D. auto.
Qed.

Lemma keeps_quote : sel R_string_quote_character = Keep. Proof. apply Hsel. reflexivity. Qed.
Lemma keeps_unicode : sel R_escaped_unicode = Keep. Proof. apply Hsel. reflexivity. Qed.
Lemma keeps_char : sel R_escaped_char = Keep. Proof. apply Hsel. reflexivity. Qed.

(** All pieces of a quoted string; at a unicode escape inside a group of them; inside a run of plain characters. *)
Definition goals (after : bool) (t d : text) (o : nat) (rest : text) : Prop :=
  (after = false -> exists ns, acc (Star piece) o t (quote :: rest) ns /\ content ns = d)
  /\ (after = true -> exists t1 t2 ns, t = t1 ++ t2 /\ acc (Star more_unicode) o t1 (t2 ++ quote :: rest) []
        /\ acc (Star piece) (o + length t1) t2 (quote :: rest) ns /\ d = t1 ++ content ns)
  /\ (after = false -> exists t1 t2 ns, t = t1 ++ t2 /\ acc (Star unit_) o t1 (t2 ++ quote :: rest) []
        /\ acc (Star piece) (o + length t1) t2 (quote :: rest) ns /\ d = t1 ++ content ns).

Lemma goals_plain u after t d o rest : plain u -> quoted false t d -> (forall o, goals false t d o rest) ->
  goals after (u ++ t) (u ++ d) o rest.
Proof.
  intros Hp Hq IH. destruct (plain_head _ Hp) as (a & r & E & Na & _ & _ & _).
  assert (forall o, exists t1 t2 ns, t = t1 ++ t2 /\ acc (Star unit_) o (u ++ t1) (t2 ++ quote :: rest) []
     /\ acc (Star piece) (o + length (u ++ t1)) t2 (quote :: rest) ns /\ d = t1 ++ content ns) as Run.
  { intro p. destruct (IH (p + length u)) as (_ & _ & R). destruct (R eq_refl) as (t1 & t2 & ns & -> & R1 & R2 & ->).
    exists t1, t2, ns. split; [reflexivity|]. split.
    - apply (acc_star_cons sel unit_ p u t1 (t2 ++ quote :: rest) [] []); [|exact R1].
      apply acc_unit; [exact Hp|]. intros _. rewrite app_assoc. eapply quoted_head; eassumption.
    - split; [|reflexivity]. rewrite app_length, Nat.add_assoc. exact R2. }
  assert (forall o, exists ns, acc (Star piece) o (u ++ t) (quote :: rest) ns /\ content ns = u ++ d) as All.
  { intro p. destruct (IH (p + length u)) as (_ & _ & R). destruct (R eq_refl) as (t1 & t2 & ns & -> & R1 & R2 & ->).
    exists ([Node R_string_quote_character p (u ++ t1) []] ++ ns). split.
    - rewrite app_assoc. apply acc_star_cons; [|rewrite app_length, Nat.add_assoc; exact R2].
      apply acc_sor_r; [rewrite E; apply m_seq_fail; apply one_fails; cbn; intuition congruence|].
      apply acc_ref; [|apply keeps_quote].
      apply (acc_seq sel unit_ (Star unit_) p u t1 _ [] []); [|exact R1].
      apply acc_unit; [exact Hp|]. intros _. rewrite app_assoc. eapply quoted_head; eassumption.
    - cbn [content flat_map n_content app]. fold (content ns). rewrite app_assoc. reflexivity. }
  split; [|split]; intros _.
  - apply All.
  - destruct (All o) as (ns & R1 & R2). exists [], (u ++ t), ns. split; [reflexivity|].
    split; [apply acc_star_nil; rewrite E; apply more_fails; exact Na|]. cbn [length app]. rewrite Nat.add_0_r. auto.
  - destruct (Run o) as (t1 & t2 & ns & -> & R1 & R2 & ->). exists (u ++ t1), t2, ns. rewrite !app_assoc. auto.
Qed.

Lemma quoted_acc after t d : quoted after t d -> forall o rest, goals after t d o rest.
Proof.
  induction 1 as [after|after c t d Hc N1 N2 Ht IH|after c t d Hc Ht IH|after c t d Hc Ht IH|after h1 h2 h3 h4 t d A B C D Ht IH]; intros o rest.
  - assert (forall o, acc (Star piece) o [] (quote :: rest) []) as P by (intro; apply acc_star_nil; apply piece_fails_quote).
    split; [|split]; intros _.
    + exists []. auto.
    + exists [], [], []. split; [reflexivity|]. split; [apply acc_star_nil; apply more_fails; discriminate|]. auto.
    + exists [], [], []. split; [reflexivity|]. split; [apply acc_star_nil; apply unit_fails_quote|]. auto.
  - apply goals_plain; [left; eauto|exact Ht|intro; apply IH].
  - apply (goals_plain [c]); [right; destruct Hc as [->| ->]; auto|exact Ht|intro; apply IH].
  - assert (forall o, exists ns, acc (Star piece) o ("\"%char :: c :: t) (quote :: rest) ns /\ content ns = c :: d) as All.
    { intro p. destruct (IH (p + 2) rest) as (R & _ & _). destruct (R eq_refl) as (ns & R1 & R2).
      exists ([Node R_escaped_char (p + 1) [c] []] ++ ns). split.
      - apply (acc_star_cons sel piece p ["\"%char; c] t); [|exact R1]. apply acc_sor_l.
        apply (acc_seq sel _ _ p ["\"%char] [c] _ []); [apply acc_one; left; reflexivity|]. apply acc_must.
        apply acc_sor_r; [|apply acc_ref; [apply acc_one; exact Hc|apply keeps_char]].
        apply m_ref_fail. apply m_seq_fail. apply one_fails. intros [<-|[]].
        cbn in Hc. destruct Hc as [X|[X|[X|[X|[X|[X|[X|[X|[]]]]]]]]]; discriminate.
      - cbn [content flat_map n_content app]. fold (content ns). rewrite R2. reflexivity. }
    destruct (All o) as (ns & R1 & R2).
    split; [|split]; intros _.
    + apply All.
    + exists [], ("\"%char :: c :: t), ns. split; [reflexivity|].
      split; [|cbn [length app]; rewrite Nat.add_0_r; auto]. apply acc_star_nil. cbn [app].
      apply m_seq_fail. eapply m_seq with (x := Fail); [apply (acc_one sel "\"%char ["\"%char] o); left; reflexivity|].
      apply one_fails. intros [<-|[]]. cbn in Hc. destruct Hc as [X|[X|[X|[X|[X|[X|[X|[X|[]]]]]]]]]; discriminate.
    + exists [], ("\"%char :: c :: t), ns. split; [reflexivity|].
      split; [|cbn [length app]; rewrite Nat.add_0_r; auto]. apply acc_star_nil. apply unit_fails_backslash.
  - set (hs := [h1; h2; h3; h4]).
    assert (forall o rest, acc g_escaped_unicode_codepoint o hs rest []) as Code by (intros; apply acc_codepoint; assumption).
    destruct after.
    + destruct (IH (o + 6) rest) as (_ & R & _). destruct (R eq_refl) as (t1 & t2 & ns & -> & R1 & R2 & ->).
      split; [discriminate|]. split; [|discriminate]. intros _.
      exists ("\"%char :: "u"%char :: hs ++ t1), t2, ns. split; [reflexivity|]. split; [|split; [|reflexivity]].
      * apply (acc_star_cons sel more_unicode o ("\"%char :: "u"%char :: hs) t1 _ [] []); [|exact R1].
        apply (acc_seq sel _ _ o ["\"%char; "u"%char] hs _ [] []); [|apply Code].
        apply (acc_seq sel _ _ o ["\"%char] ["u"%char] _ [] []); apply acc_one; left; reflexivity.
      * replace (o + length ("\"%char :: "u"%char :: hs ++ t1)) with (o + 6 + length t1) by (subst hs; cbn; lia). exact R2.
    + assert (forall o, exists ns, acc (Star piece) o ("\"%char :: "u"%char :: hs ++ t) (quote :: rest) ns
               /\ content ns = "u"%char :: hs ++ d) as All.
      { intro p. destruct (IH (p + 6) rest) as (_ & R & _). destruct (R eq_refl) as (t1 & t2 & ns & -> & R1 & R2 & ->).
        exists ([Node R_escaped_unicode (p + 1) ("u"%char :: hs ++ t1) []] ++ ns). split.
        - apply (acc_star_cons sel piece p ("\"%char :: "u"%char :: hs ++ t1) t2).
          + apply acc_sor_l. apply (acc_seq sel _ _ p ["\"%char] ("u"%char :: hs ++ t1) _ []); [apply acc_one; left; reflexivity|].
            apply acc_must. apply acc_sor_l. apply acc_ref; [|apply keeps_unicode].
            apply (acc_seq sel _ _ _ ["u"%char] (hs ++ t1) _ [] []); [apply acc_one; left; reflexivity|].
            apply acc_must. apply (acc_seq sel _ _ _ hs t1 _ [] []); [apply Code|].
            exact_at R1.
          + replace (p + length ("\"%char :: "u"%char :: hs ++ t1)) with (p + 6 + length t1) by (subst hs; cbn; lia). exact R2.
        - cbn [content flat_map n_content app]. fold (content ns). rewrite <- app_assoc. reflexivity. }
      destruct (All o) as (ns & R1 & R2).
      split; [intros _; apply All|]. split; [discriminate|]. intros _.
      exists [], ("\"%char :: "u"%char :: hs ++ t), ns. split; [reflexivity|].
      split; [|cbn [length app]; rewrite Nat.add_0_r; auto]. apply acc_star_nil. apply unit_fails_backslash.
Qed.

Lemma acc_quoted t d o rest : quoted false t d -> exists ns, acc g_string_quote o (quote :: t ++ [quote]) rest ns /\ content ns = d.
Proof.
  intro H. destruct (quoted_acc _ _ _ H (o + 1) rest) as (R & _ & _). destruct (R eq_refl) as (ns & R1 & R2). exists ns.
  split; [|exact R2]. apply (acc_seq sel _ _ o [quote] (t ++ [quote]) rest [] ns); [apply acc_one; left; reflexivity|].
  apply acc_must. rewrite <- (app_nil_r ns). apply acc_seq; [exact R1|]. apply acc_must. apply acc_one. left. reflexivity.
Qed.

(** The other direction. *)
Lemma units_inv o s ns o' s' : M (Star unit_) o s (Match ns o' s') -> ns = [] /\ exists t, s = t ++ s' /\ o' = o + length t /\
  forall t' d', quoted false t' d' -> quoted false (t ++ t') (t ++ d').
Proof.
  intro H. apply star_inv in H. induction H as [o s F|o s n1 o1 s1 n2 o2 s2 A R [-> (t & -> & -> & IH)]].
  - split; [reflexivity|]. exists []. cbn. split; [reflexivity|]. split; [lia|auto].
  - apply unit_inv in A as (u & -> & -> & -> & Hu & _). split; [reflexivity|]. exists (u ++ t).
    split; [apply app_assoc|]. split; [rewrite app_length; lia|]. intros t' d' Q. rewrite <- !app_assoc. apply IH in Q.
    destruct Hu as [(c & Hc & N1 & N2 & ->)|[->| ->]]; [apply q_char; assumption|apply q_control; auto|apply q_control; auto].
Qed.

Lemma quoted_true t d o s : quoted false t d -> M more_unicode o (t ++ s) Fail -> quoted true t d.
Proof.
  intros H F. inversion H as [|a c t' d' Hc N1 N2 Ht|a c t' d' Hc Ht|a c t' d' Hc Ht|a h1 h2 h3 h4 t' d' A B C D Ht]; subst;
    [constructor; assumption..|]. exfalso.
  assert (acc more_unicode o ("\"%char :: "u"%char :: [h1; h2; h3; h4]) (t' ++ s) []) as X.
  { apply (acc_seq sel _ _ o ["\"%char; "u"%char] [h1; h2; h3; h4] _ [] []); [|apply acc_codepoint; assumption].
    apply (acc_seq sel _ _ o ["\"%char] ["u"%char] _ [] []); apply acc_one; left; reflexivity. }
  pose proof (matches_det _ _ _ _ _ _ _ F X). discriminate.
Qed.

Lemma more_inv o s ns o' s' : M (Star more_unicode) o s (Match ns o' s') -> ns = [] /\ exists t, s = t ++ s' /\ o' = o + length t /\
  M more_unicode o' s' Fail /\ forall t' d', quoted true t' d' -> quoted true (t ++ t') (t ++ d').
Proof.
  intro H. apply star_inv in H. induction H as [o s F|o s n1 o1 s1 n2 o2 s2 A R [-> (t & -> & -> & F & IH)]].
  - split; [reflexivity|]. exists []. cbn. rewrite Nat.add_0_r. auto.
  - apply seq_inv in A as (m1 & p1 & q1 & m2 & A & B & ->). apply codepoint_inv in B as (-> & -> & h1 & h2 & h3 & h4 & -> & C).
    apply seq_inv in A as (m3 & p2 & q2 & m4 & A & B & ->). apply one_inv in A as (c & -> & [<-|[]] & -> & ->).
    apply one_inv in B as (c & -> & [<-|[]] & -> & ->). split; [reflexivity|].
    exists ("\"%char :: "u"%char :: h1 :: h2 :: h3 :: h4 :: t). split; [reflexivity|]. split; [cbn; lia|]. split; [exact F|].
    intros t' d' Q. apply IH in Q. destruct C as (C1 & C2 & C3 & C4). apply (q_unicode true); assumption.
Qed.

Lemma pieces_inv o s ns o' s' : M (Star piece) o s (Match ns o' s') ->
  exists t, s = t ++ s' /\ o' = o + length t /\ quoted false t (content ns).
Proof.
  intro H. apply star_inv in H. induction H as [o s F|o s n1 o1 s1 n2 o2 s2 A R (t & -> & -> & IH)].
  - exists []. cbn. split; [reflexivity|]. split; [lia|constructor].
  - apply sor_inv in A as [A|[_ A]].
    + apply seq_inv in A as (m1 & p1 & q1 & m2 & A & B & ->). apply one_inv in A as (c & -> & [<-|[]] & -> & ->).
      apply must_inv in B. apply sor_inv in B as [B|[_ B]].
      * apply keep_inv in B as (ks & u & B & -> & -> & ->); [|apply keeps_unicode].
        apply seq_inv in B as (m3 & p2 & q2 & m4 & B1 & B & ->). apply one_inv in B1 as (c & E & [<-|[]] & -> & ->).
        apply must_inv in B. apply seq_inv in B as (m5 & p3 & q3' & m6 & B1 & B & ->).
        apply codepoint_inv in B1 as (-> & -> & h1 & h2 & h3 & h4 & -> & C1 & C2 & C3 & C4).
        apply more_inv in B as (-> & v & -> & Eo & F & Hv).
        assert (u = "u"%char :: h1 :: h2 :: h3 :: h4 :: v) as ->.
        { change ("u"%char :: h1 :: h2 :: h3 :: h4 :: v ++ t ++ s2) with (("u"%char :: h1 :: h2 :: h3 :: h4 :: v) ++ (t ++ s2)) in E.
          apply app_inv_tail in E. exact E. }
        exists ("\"%char :: ("u"%char :: h1 :: h2 :: h3 :: h4 :: v) ++ t). split; [cbn; rewrite <- app_assoc; reflexivity|].
        split; [cbn; rewrite app_length; lia|]. cbn [content flat_map n_content app].
        apply (q_unicode false); try assumption. apply Hv. eapply quoted_true; eassumption.
      * apply keep_inv in B as (ks & u & B & -> & -> & ->); [|apply keeps_char].
        apply one_inv in B as (c & E & Hc & -> & _). change (c :: t ++ s2) with ([c] ++ (t ++ s2)) in E. apply app_inv_tail in E. subst u.
        exists ("\"%char :: c :: t). split; [reflexivity|]. split; [cbn; lia|]. cbn [content flat_map n_content app].
        apply q_escape; assumption.
    + apply keep_inv in A as (ks & u & B & -> & -> & ->); [|apply keeps_quote].
      apply seq_inv in B as (m3 & p2 & q2 & m4 & B1 & B & ->). apply unit_inv in B1 as (v & E & -> & -> & Hv & _).
      apply units_inv in B as (-> & w & -> & Eo & Hw).
      rewrite (app_assoc v w) in E. apply app_inv_tail in E. subst u. exists ((v ++ w) ++ t). split; [apply app_assoc|].
      split; [rewrite (app_length (v ++ w)); lia|]. cbn [content flat_map n_content app]. fold (content n2).
      rewrite <- !app_assoc. apply Hw in IH.
      destruct Hv as [(c & Hc & N1 & N2 & ->)|[->| ->]]; [apply q_char; assumption|apply q_control; auto|apply q_control; auto].
Qed.

Lemma quoted_inv o s ns o' s' : M g_string_quote o s (Match ns o' s') ->
  exists t, s = (quote :: t ++ [quote]) ++ s' /\ quoted false t (content ns).
Proof.
  intro H. apply seq_inv in H as (n1 & o1 & s1 & n2 & A & H & ->). apply one_inv in A as (c & -> & [<-|[]] & -> & ->).
  apply must_inv in H. apply seq_inv in H as (m1 & o2 & s2 & m2 & A & H & ->). apply must_inv in H.
  apply one_inv in H as (c & -> & [<-|[]] & -> & ->). apply pieces_inv in A as (t & -> & _ & Q). exists t.
  rewrite app_nil_r. split; [cbn; rewrite <- app_assoc; reflexivity|exact Q].
Qed.

(** ** Block strings. *)
Lemma acc_q3 o rest : acc g_block_quote_token o q3 rest [].
Proof.
  apply (acc_seq sel _ _ o [quote] [quote; quote] rest [] []); [apply acc_one; left; reflexivity|].
  apply (acc_seq sel _ _ _ [quote] [quote] rest [] []); apply acc_one; left; reflexivity.
Qed.
Lemma q3_inv o s ns o' s' : M g_block_quote_token o s (Match ns o' s') -> s = q3 ++ s' /\ ns = [] /\ o' = o + 3.
Proof.
  intro H. apply seq_inv in H as (n1 & o1 & s1 & n2 & A & H & ->). apply one_inv in A as (c & -> & [<-|[]] & -> & ->).
  apply seq_inv in H as (n1 & o1 & s2 & n3 & A & H & ->). apply one_inv in A as (c & -> & [<-|[]] & -> & ->).
  apply one_inv in H as (c & -> & [<-|[]] & -> & ->). split; [reflexivity|]. split; [reflexivity|lia].
Qed.
Lemma q3_fails o s : ~ begins q3 s -> M g_block_quote_token o s Fail.
Proof.
  intro H. unfold g_block_quote_token, g_quote_token.
  destruct s as [|a s]; [apply fails_end; by_look|].
  destruct (Ascii.eqb_spec a quote) as [->|Na]; [|apply m_seq_fail; apply one_fails; cbn; intuition congruence].
  eapply m_seq with (x := Fail); [apply (acc_one sel quote [quote] o s); left; reflexivity|].
  destruct s as [|b s]; [apply fails_end; by_look|].
  destruct (Ascii.eqb_spec b quote) as [->|Nb]; [|apply m_seq_fail; apply one_fails; cbn; intuition congruence].
  eapply m_seq with (x := Fail); [apply (acc_one sel quote [quote] (o + 1) s); left; reflexivity|].
  destruct s as [|c s]; [apply fails_end; by_look|].
  destruct (Ascii.eqb_spec c quote) as [->|Nc]; [|apply one_fails; cbn; intuition congruence].
  exfalso. apply H. exists s. reflexivity.
Qed.
Lemma begins_q3_fails o s : M g_block_quote_token o s Fail -> ~ begins q3 s.
Proof. intros F (r & ->). pose proof (matches_det _ _ _ _ _ _ _ F (acc_q3 o r)). discriminate. Qed.

Lemma acc_bq3 o rest : acc g_block_escape_sequence o ("\"%char :: q3) rest [].
Proof. apply (acc_seq sel _ _ o ["\"%char] q3 rest [] []); [apply acc_one; left; reflexivity|apply acc_q3]. Qed.
Lemma bq3_fails o s : ~ begins ("\"%char :: q3) s -> M g_block_escape_sequence o s Fail.
Proof.
  intro H. destruct s as [|a s]; [apply fails_end; by_look|].
  destruct (Ascii.eqb_spec a "\"%char) as [->|Na]; [|apply m_seq_fail; apply one_fails; cbn; intuition congruence].
  eapply m_seq with (x := Fail); [apply (acc_one sel "\"%char ["\"%char] o s); left; reflexivity|].
  apply q3_fails. intros (r & ->). apply H. exists r. reflexivity.
Qed.

Definition block_unit : ex := NotAt g_block_quote_token >> NotAt (Ref R_block_escape_sequence) >> g_source_character.
Definition block_piece : ex := Ref R_block_escape_sequence </> Ref R_block_quote_character.

Lemma keeps_bescape : sel R_block_escape_sequence = Keep. Proof. apply Hsel. reflexivity. Qed.
Lemma keeps_bquote : sel R_block_quote_character = Keep. Proof. apply Hsel. reflexivity. Qed.

Lemma begins_cut (p s r : text) : length p <= length s -> begins p (s ++ r) -> begins p s.
Proof.
  revert s. induction p as [|a p IH]; intros s Hl (x & E); [exists s; reflexivity|].
  destruct s as [|b s]; cbn in Hl; [lia|]. cbn in E. injection E as -> E. destruct (IH s) as (y & ->); [lia|exists x; exact E|].
  exists y. reflexivity.
Qed.

Definition block_source (u : text) (after : text) : Prop := source u /\ ~ begins q3 (u ++ after) /\ ~ begins ("\"%char :: q3) (u ++ after).

Lemma acc_block_unit u o rest : block_source u rest -> acc block_unit o u rest [].
Proof.
  intros (Hu & N1 & N2). apply (acc_seq sel _ _ o [] u rest [] []); [apply acc_not; apply q3_fails; exact N1|].
  apply (acc_seq sel _ _ _ [] u rest [] []); [apply acc_not; apply m_ref_fail; apply bq3_fails; exact N2|].
  apply acc_source. exact Hu.
Qed.

Lemma source_of_block c : source_code c \/ c = 9%N \/ c = 10%N \/ c = 13%N -> source (utf8 c).
Proof. intros [H|[->|[->| ->]]]; [left; eauto|right; auto..]. Qed.
Lemma source_to_block u : source u -> exists c, u = utf8 c /\ (source_code c \/ c = 9%N \/ c = 10%N \/ c = 13%N).
Proof.
  intros [(c & H & ->)|[->|[->| ->]]]; [eauto|exists 9%N; auto|exists 10%N; auto|exists 13%N; auto].
Qed.
Lemma source_nonempty u : source u -> u <> [].
Proof.
  intros [(c & [[_ H] _] & ->)|[->|[->| ->]]]; try discriminate. destruct (utf8_head c H) as (a & r & -> & _). discriminate.
Qed.

Lemma block_acc t : block_chars t -> forall o rest,
  (exists ns, acc (Star block_piece) o t (q3 ++ rest) ns /\ content ns = t)
  /\ (exists t1 t2 ns, t = t1 ++ t2 /\ acc (Star block_unit) o t1 (t2 ++ q3 ++ rest) []
        /\ acc (Star block_piece) (o + length t1) t2 (q3 ++ rest) ns /\ t2 = content ns).
Proof.
  induction 1 as [|c t Hc N1 N2 Ht IH|t Ht IH]; intros o rest.
  - assert (forall o, acc (Star block_piece) o [] (q3 ++ rest) []) as P.
    { intro p. apply acc_star_nil. apply m_sor_r; [apply fails_char; by_look|]. apply m_ref_fail. apply m_seq_fail.
      apply m_seq_fail. eapply m_not_fail. apply acc_q3. }
    split; [exists []; auto|]. exists [], [], []. split; [reflexivity|]. split; [|split; [apply P|reflexivity]].
    apply acc_star_nil. apply m_seq_fail. eapply m_not_fail. apply acc_q3.
  - apply source_of_block in Hc. set (u := utf8 c) in *. pose proof (source_nonempty _ Hc) as Hn.
    assert (1 <= length u) as Hl by (destruct u; [contradiction|cbn; lia]).
    assert (block_source u (t ++ q3 ++ rest)) as Hu.
    { split; [exact Hc|]. rewrite !app_assoc.
      split; intro X; [apply N1|apply N2]; rewrite ?app_assoc; (eapply begins_cut; [|exact X]); rewrite !app_length; cbn; lia. }
    destruct (IH (o + length u) rest) as (_ & t1 & t2 & ns & -> & R1 & R2 & E2).
    assert (acc (Star block_unit) o (u ++ t1) (t2 ++ q3 ++ rest) []) as R.
    { apply (acc_star_cons sel block_unit o u t1 _ [] []); [|exact R1]. apply acc_block_unit. rewrite app_assoc. exact Hu. }
    split.
    + exists ([Node R_block_quote_character o (u ++ t1) []] ++ ns). split.
      * rewrite app_assoc. apply acc_star_cons; [|rewrite app_length, Nat.add_assoc; exact R2].
        apply acc_sor_r; [|apply acc_ref; [|apply keeps_bquote]].
        -- apply m_ref_fail. apply bq3_fails. rewrite <- !app_assoc in *. apply Hu.
        -- apply (acc_seq sel block_unit (Star block_unit) o u t1 _ [] []); [|exact R1]. apply acc_block_unit. rewrite app_assoc. exact Hu.
      * cbn [content flat_map n_content app]. fold (content ns). rewrite <- E2. symmetry. apply app_assoc.
    + exists (u ++ t1), t2, ns. split; [apply app_assoc|]. split; [exact R|]. split; [rewrite app_length, Nat.add_assoc; exact R2|exact E2].
  - destruct (IH (o + 4) rest) as ((ns & R1 & R2) & _).
    assert (acc (Star block_piece) o ("\"%char :: q3 ++ t) (q3 ++ rest) ([Node R_block_escape_sequence o ("\"%char :: q3) []] ++ ns)) as R.
    { apply (acc_star_cons sel block_piece o ("\"%char :: q3) t); [|exact R1]. apply acc_sor_l. apply acc_ref; [apply acc_bq3|apply keeps_bescape]. }
    assert (content ([Node R_block_escape_sequence o ("\"%char :: q3) []] ++ ns) = "\"%char :: q3 ++ t) as E.
    { cbn [content flat_map n_content app]. fold (content ns). rewrite R2. reflexivity. }
    split; [eauto|]. exists [], ("\"%char :: q3 ++ t), ([Node R_block_escape_sequence o ("\"%char :: q3) []] ++ ns).
    split; [reflexivity|]. split; [|cbn [length]; rewrite Nat.add_0_r; auto].
    apply acc_star_nil. cbn [app].
    apply (m_seq grammar sel _ _ o _ [] o ("\"%char :: (q3 ++ t) ++ q3 ++ rest) Fail).
    + apply m_not. apply fails_char. by_look.
    + apply m_seq_fail. eapply m_not_fail. apply (acc_ref sel R_block_escape_sequence o ("\"%char :: q3) (t ++ q3 ++ rest)); [|apply keeps_bescape].
      apply acc_bq3.
Qed.

Lemma acc_block t o rest : block_chars t -> exists ns, acc g_block_quote o (q3 ++ t ++ q3) rest ns /\ content ns = t.
Proof.
  intro H. destruct (block_acc _ H (o + 3) rest) as ((ns & R1 & R2) & _). exists ns.
  split; [|exact R2]. apply (acc_seq sel _ _ o q3 (t ++ q3) rest [] ns); [apply acc_q3|].
  apply acc_must. rewrite <- (app_nil_r ns). apply acc_seq; [exact R1|]. apply acc_must. apply acc_q3.
Qed.

Lemma block_unit_inv o s ns o' s' : M block_unit o s (Match ns o' s') ->
  exists u, s = u ++ s' /\ o' = o + length u /\ ns = [] /\ block_source u s'.
Proof.
  intro H. apply seq_inv in H as (n1 & o1 & s1 & n2 & A & H & ->). apply not_inv in A as (A & -> & -> & ->).
  apply seq_inv in H as (n1 & o1 & s1 & n3 & B & H & ->). apply not_inv in B as (B & -> & -> & ->).
  apply source_inv in H as (u & -> & -> & Hu & ->). exists u. split; [reflexivity|]. split; [reflexivity|]. split; [reflexivity|].
  split; [exact Hu|]. split; [eapply begins_q3_fails; eassumption|]. intros (r & E). rewrite E in B.
  assert (acc (Ref R_block_escape_sequence) o ("\"%char :: q3) r [Node R_block_escape_sequence o ("\"%char :: q3) []]) as X
    by (apply acc_ref; [apply acc_bq3|apply keeps_bescape]).
  pose proof (matches_det _ _ _ _ _ _ _ B X). discriminate.
Qed.

Lemma block_cons u t rest : block_source u (t ++ q3 ++ rest) -> block_chars t -> block_chars (u ++ t).
Proof.
  intros (Hu & N1 & N2) Ht. destruct (source_to_block _ Hu) as (c & -> & Hc). apply bc_char; [exact Hc| | |exact Ht].
  - intros (r & E). apply N1. exists (r ++ rest). rewrite !app_assoc in *. rewrite E. reflexivity.
  - intros (r & E). apply N2. exists (r ++ rest). rewrite !app_assoc in *. rewrite E. reflexivity.
Qed.

Lemma block_units_inv o s ns o' s' : M (Star block_unit) o s (Match ns o' s') -> ns = [] /\ exists t, s = t ++ s' /\ o' = o + length t /\
  forall t' rest, s' = t' ++ q3 ++ rest -> block_chars t' -> block_chars (t ++ t').
Proof.
  intro H. apply star_inv in H. induction H as [o s F|o s n1 o1 s1 n2 o2 s2 A R [-> (t & -> & -> & IH)]].
  - split; [reflexivity|]. exists []. cbn. split; [reflexivity|]. split; [lia|auto].
  - apply block_unit_inv in A as (u & -> & -> & -> & Hu). split; [reflexivity|]. exists (u ++ t).
    split; [apply app_assoc|]. split; [rewrite app_length; lia|]. intros t' rest -> Q. rewrite <- !app_assoc.
    apply (block_cons _ _ rest); [rewrite <- !app_assoc; exact Hu|]. apply (IH t' rest); auto.
Qed.

Lemma block_pieces_inv o s ns o' s' rest : M (Star block_piece) o s (Match ns o' s') -> s' = q3 ++ rest ->
  exists t, s = t ++ s' /\ o' = o + length t /\ block_chars t /\ content ns = t.
Proof.
  intros H Es. apply star_inv in H. induction H as [o s F|o s n1 o1 s1 n2 o2 s2 A R IH].
  - exists []. cbn. split; [reflexivity|]. split; [lia|]. split; [constructor|reflexivity].
  - destruct (IH Es) as (t & -> & -> & Ht & Ec). clear IH. apply sor_inv in A as [A|[_ A]].
    + apply keep_inv in A as (ks & u & B & -> & -> & ->); [|apply keeps_bescape].
      apply seq_inv in B as (m1 & p1 & q1 & m2 & A & B & ->). apply one_inv in A as (c & E & [<-|[]] & -> & ->).
      apply q3_inv in B as (-> & -> & Eo). change ("\"%char :: q3 ++ t ++ s2) with (("\"%char :: q3) ++ t ++ s2) in E.
      apply app_inv_tail in E. subst u. exists (("\"%char :: q3) ++ t). split; [reflexivity|].
      split; [rewrite app_length; lia|]. split; [apply bc_escape; exact Ht|]. cbn [content flat_map n_content app].
      fold (content n2). rewrite Ec. reflexivity.
    + apply keep_inv in A as (ks & u & B & -> & -> & ->); [|apply keeps_bquote].
      apply seq_inv in B as (m3 & p2 & q2 & m4 & B1 & B & ->). apply block_unit_inv in B1 as (v & E & -> & -> & Hv).
      apply block_units_inv in B as (-> & w & -> & Eo & Hw).
      rewrite (app_assoc v w) in E. apply app_inv_tail in E. subst u. exists ((v ++ w) ++ t). split; [apply app_assoc|].
      split; [rewrite (app_length (v ++ w)); lia|]. cbn [content flat_map n_content app]. fold (content n2).
      split; [|rewrite Ec; reflexivity]. subst s2. rewrite <- app_assoc.
      apply (block_cons _ _ rest); [rewrite <- !app_assoc; exact Hv|]. apply (Hw t rest); auto.
Qed.

Lemma block_inv o s ns o' s' : M g_block_quote o s (Match ns o' s') ->
  exists t, s = (q3 ++ t ++ q3) ++ s' /\ block_chars t /\ content ns = t.
Proof.
  intro H. apply seq_inv in H as (n1 & o1 & s1 & n2 & A & H & ->). apply q3_inv in A as (-> & -> & ->).
  apply must_inv in H. apply seq_inv in H as (m1 & o2 & s2 & m2 & A & H & ->). apply must_inv in H.
  apply q3_inv in H as (-> & -> & ->). eapply block_pieces_inv in A as (t & -> & _ & Ht & E); [|reflexivity]. exists t.
  rewrite app_nil_r. split; [rewrite <- !app_assoc; reflexivity|auto].
Qed.

(** ** string_value *)
Lemma no_block t d o rest : quoted false t d -> head_not (Ascii.eqb quote) rest -> M g_block_quote o ((quote :: t ++ [quote]) ++ rest) Fail.
Proof.
  intros H Hr. apply m_seq_fail. apply q3_fails. intros (r & X). cbn in X. injection X as X.
  inversion H as [|a c t' d' Hc N1 N2 Ht|a c t' d' Hc Ht|a c t' d' Hc Ht|a h1 h2 h3 h4 t' d' A B C D Ht]; subst; cbn in X.
  - injection X as X. rewrite X in Hr. cbn in Hr. discriminate.
  - destruct (plain_head (utf8 c)) as (x & r' & Ex & _ & N & _); [left; eauto|]. rewrite Ex in X. cbn in X. congruence.
  - destruct Hc as [->| ->]; discriminate.
  - discriminate.
  - discriminate.
Qed.
Lemma acc_string_quoted t d o rest : quoted false t d -> head_not (Ascii.eqb quote) rest ->
  exists ns, acc g_string_value o (quote :: t ++ [quote]) rest ns /\ content ns = d.
Proof.
  intros H Hr. destruct (acc_quoted t d o rest H) as (ns & R & E). exists ns. split; [|exact E].
  apply acc_sor_r; [eapply no_block; eassumption|exact R].
Qed.
Lemma acc_string_block t o rest : block_chars t -> exists ns, acc g_string_value o (q3 ++ t ++ q3) rest ns /\ content ns = t.
Proof. intro H. destruct (acc_block t o rest H) as (ns & R & E). exists ns. split; [apply acc_sor_l; exact R|exact E]. Qed.

Lemma string_inv o s ns o' s' : M g_string_value o s (Match ns o' s') ->
  (exists t, s = (quote :: t ++ [quote]) ++ s' /\ quoted false t (content ns))
  \/ (exists t, s = (q3 ++ t ++ q3) ++ s' /\ block_chars t /\ content ns = t).
Proof.
  intro H. apply sor_inv in H as [H|[_ H]]; [right; apply block_inv in H; exact H|left; apply quoted_inv in H; exact H].
Qed.
End Strings.
