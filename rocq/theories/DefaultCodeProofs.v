(** The code of default values, read by the compiler, has the statements that were meant (proofs for C61). *)
From Coq Require Import ZArith NArith Ascii String List Bool Lia Decimal DecimalString DecimalFacts DecimalN DecimalPos SpecFloat.
From Verif Require Import Cpp ParseSpec SortedMapModel Value ResponseModel ResponseSpec ResponseProofs LoaderModel GenServiceModel RequestTextModel RequestTextProofs DefaultCodeModel.
Import ListNotations.
Local Open Scope string_scope.
Local Open Scope list_scope.

(** ** Lexing a piece of text whatever follows *)
Fixpoint lexs (st : lexing) (t : text) : option (list token * lexing) :=
  match t with
  | [] => Some ([], st)
  | c :: r =>
      let risky := match st with
                   | Between => Ascii.eqb c "." && match r with [] => true | _ => false end
                   | InWord _ => Ascii.eqb c dquote || Ascii.eqb c "." && match r with [] => true | _ => false end
                   | InString _ => false
                   | _ => true
                   end in
      if risky then None
      else match lex_step st c r with
           | Some (ts, st') => match lexs st' r with Some (ts', st'') => Some (ts ++ ts', st'') | None => None end
           | None => None
           end
  end.
Definition put {A} (a : list A) (o : option (list A)) : option (list A) := match o with Some b => Some (a ++ b) | None => None end.
Lemma put_put {A} (a b : list A) o : put a (put b o) = put (a ++ b) o.
Proof. destruct o; simpl; [now rewrite app_assoc|reflexivity]. Qed.
Lemma put_nil {A} (o : option (list A)) : put [] o = o.
Proof. destruct o; reflexivity. Qed.
Lemma starts_token_more c t r : Ascii.eqb c "." && match t with [] => true | _ => false end = false -> starts_token c (t ++ r) = starts_token c t.
Proof.
  intros H. unfold starts_token. destruct (Ascii.eqb c "."); [|reflexivity]. destruct t; [discriminate|reflexivity].
Qed.
Lemma lexs_lex t : forall st ts st', lexs st t = Some (ts, st') -> forall r, lex st (t ++ r) = put ts (lex st' r).
Proof.
  induction t as [|c t IH]; intros st ts st' H r; cbn [lexs] in H.
  { injection H as <- <-. simpl. now rewrite put_nil. }
  match type of H with (if ?b then _ else _) = _ => destruct b eqn:B end; [discriminate|].
  assert (E : lex_step st c (t ++ r) = lex_step st c t).
  { destruct st as [|w|s|n|s|n]; try discriminate B; cbn [lex_step].
    - apply starts_token_more. exact B.
    - apply orb_false_iff in B as [B1 B2]. rewrite B1, (starts_token_more c t r B2). reflexivity.
    - reflexivity. }
  cbn [app lex]. rewrite E. destruct (lex_step st c t) as [[ts1 st1]|]; [|discriminate].
  destruct (lexs st1 t) as [[ts2 st2]|] eqn:L; [|discriminate]. injection H as <- <-. rewrite (IH _ _ _ L r).
  rewrite <- put_put. destruct (put ts2 _); reflexivity.
Qed.
(** [t], read between two tokens, is the tokens [ts]. *)
Definition gives (t : text) (ts : list token) : Prop := forall r, lex Between (t ++ r) = put ts (lex Between r).
Lemma gives_nil : gives [] [].
Proof. intros r. simpl. now rewrite put_nil. Qed.
Lemma gives_app a b ta tb : gives a ta -> gives b tb -> gives (a ++ b) (ta ++ tb).
Proof. intros A B r. rewrite <- app_assoc, A, B. apply put_put. Qed.
Lemma gives_lexs t ts : lexs Between t = Some (ts, Between) -> gives t ts.
Proof. intros H r. now apply lexs_lex. Qed.
Lemma gives_all t ts : gives t ts -> lex Between t = Some ts.
Proof. intros H. specialize (H []). rewrite app_nil_r in H. rewrite H. simpl. now rewrite app_nil_r. Qed.
Ltac closed := apply gives_lexs; vm_compute; reflexivity.
Lemma gives_padding n : gives (padding n) [].
Proof.
  induction n as [|n IH]; [apply gives_nil|]. change (padding (S n)) with ([tab_char] ++ padding n). change (@nil token) with (@nil token ++ []). apply gives_app; [closed|exact IH].
Qed.
Lemma gives_feed : gives [feed] [].
Proof. closed. Qed.
Lemma gives_line level tabs s ts : gives s ts -> gives (line level tabs s) ts.
Proof.
  intros H. unfold line. change ts with ([] ++ [] ++ ts). apply gives_app; [apply gives_padding|]. apply gives_app; [apply gives_padding|].
  rewrite <- (app_nil_r ts). apply gives_app; [exact H|apply gives_feed].
Qed.

(** *** literals *)
Lemma no_closing_first c s r : ~ occurs closing (c :: s) -> without_prefix closing (c :: s ++ closing ++ r) = None.
Proof.
  intros N. unfold closing at 1. cbn [list_ascii_of_string without_prefix]. destruct (Ascii.eqb ")" c) eqn:E1; [|reflexivity].
  destruct s as [|d1 s]; [reflexivity|]. cbn [app]. destruct (Ascii.eqb "g" d1) eqn:E2; [|reflexivity].
  destruct s as [|d2 s]; [reflexivity|]. cbn [app]. destruct (Ascii.eqb "q" d2) eqn:E3; [|reflexivity].
  destruct s as [|d3 s]; [reflexivity|]. cbn [app]. destruct (Ascii.eqb "l" d3) eqn:E4; [|reflexivity].
  destruct s as [|d4 s]; [reflexivity|]. cbn [app]. destruct (Ascii.eqb """" d4) eqn:E5; [|reflexivity].
  exfalso. apply N. apply Ascii.eqb_eq in E1, E2, E3, E4, E5. subst. exists [], s. reflexivity.
Qed.
Lemma lex_cons st c r ts st' : lex_step st c r = Some (ts, st') -> lex st (c :: r) = put ts (lex st' r).
Proof. intros H. cbn [lex]. now rewrite H. Qed.
Ltac lex1 := etransitivity; [apply lex_cons; reflexivity|]; rewrite ?put_nil.
Lemma lex_closing k : forall r, lex (InRaw k) (closing ++ r) = put [RawStr k] (lex Between r).
Proof.
  intros r. unfold closing. cbn [list_ascii_of_string app]. lex1. f_equal. lex1. lex1. lex1. lex1. reflexivity.
Qed.
Lemma lex_raw s : forall k r, ~ occurs closing s -> lex (InRaw k) (s ++ closing ++ r) = put [RawStr (k ++ s)] (lex Between r).
Proof.
  induction s as [|c s IH]; intros k r N.
  - rewrite app_nil_r. apply lex_closing.
  - cbn [app lex]. unfold lex_step. rewrite (no_closing_first c s r N). rewrite IH.
    + rewrite <- app_assoc. cbn [app]. destruct (lex Between r); reflexivity.
    + intros (a & b & E). apply N. exists (c :: a), b. rewrite E. reflexivity.
Qed.
Lemma gives_raw s : ~ occurs closing s -> gives (opening ++ s ++ closing) [RawStr s].
Proof.
  intros N r. rewrite <- !app_assoc. unfold opening. cbn [list_ascii_of_string app]. lex1. lex1. lex1. lex1. lex1. lex1. exact (lex_raw s [] r N).
Qed.
Definition plain_char (c : ascii) : bool := negb (Ascii.eqb c dquote || Ascii.eqb c backslash || Ascii.eqb c feed).
Lemma lexs_string s : forall k, forallb plain_char s = true -> lexs (InString k) s = Some ([], InString (k ++ s)).
Proof.
  induction s as [|c s IH]; intros k H; cbn [lexs]; [now rewrite app_nil_r|]. simpl in H. apply andb_true_iff in H as [H1 H2].
  unfold plain_char in H1. apply negb_true_iff, orb_false_iff in H1 as [H1 H3]. apply orb_false_iff in H1 as [H1 H4].
  cbn [lex_step]. rewrite H1, H4, H3. cbn [orb]. rewrite (IH _ H2). now rewrite <- app_assoc.
Qed.
Lemma gives_string s : forallb plain_char s = true -> gives (chars """" ++ s ++ chars """") [Str s].
Proof.
  intros H r. rewrite <- !app_assoc. cbn [list_ascii_of_string app]. lex1.
  rewrite (lexs_lex s _ _ _ (lexs_string s [] H)), put_nil. apply lex_cons. reflexivity.
Qed.
(** a word, before a closing parenthesis *)
Lemma gives_word w c ts t : lexs Between w = Some ([], InWord w) -> (forall k r, lex (InWord k) (t ++ r) = put (Word k :: ts) (lex Between r)) -> c = t -> gives (w ++ c) (Word w :: ts).
Proof. intros L T -> r. rewrite <- app_assoc, (lexs_lex w _ _ _ L), T. now rewrite put_nil. Qed.

(** ** Numbers *)
Lemma digit_ok d : is_digit d = true -> continues [] d = true /\ isspace d = false /\ Ascii.eqb d dquote = false /\ (Ascii.eqb d "." = false) /\ (Ascii.eqb d "-" = false).
Proof.
  intros H. destruct d as [[] [] [] [] [] [] [] []]; vm_compute in H; try discriminate H; vm_compute; auto.
Qed.
Lemma digits_uint u : forallb is_digit (chars (NilEmpty.string_of_uint u)) = true.
Proof. induction u; simpl; auto. Qed.
Lemma digits_digits n : forallb is_digit (digits_of n) = true.
Proof. apply digits_uint. Qed.
Lemma digits_some n : digits_of n <> [].
Proof.
  unfold digits_of. destruct n as [|p]; [discriminate|]. simpl. pose proof (Unsigned.to_uint_nonnil p) as H. destruct (Pos.to_uint p); try discriminate. congruence.
Qed.
Lemma continues_digit k d : is_digit d = true -> continues k d = true.
Proof. intros H. unfold continues. rewrite H, orb_true_r. reflexivity. Qed.
Lemma lexs_digits ds : forall k, forallb is_digit ds = true -> lexs (InWord k) ds = Some ([], InWord (k ++ ds)).
Proof.
  induction ds as [|d ds IH]; intros k H; cbn [lexs]; [now rewrite app_nil_r|]. simpl in H. apply andb_true_iff in H as [H1 H2].
  destruct (digit_ok d H1) as (_ & _ & Q & P & _). rewrite Q, P. cbn [orb andb lex_step]. rewrite (continues_digit k d H1), (IH _ H2). now rewrite <- app_assoc.
Qed.
Lemma lexs_app a : forall st ta st1 b tb st2, lexs st a = Some (ta, st1) -> lexs st1 b = Some (tb, st2) -> lexs st (a ++ b) = Some (ta ++ tb, st2).
Proof.
  induction a as [|c a IH]; intros st ta st1 b tb st2 A B; cbn [lexs] in A; [injection A as <- <-; exact B|].
  match type of A with (if ?x then _ else _) = _ => destruct x eqn:X end; [discriminate|].
  cbn [app lexs].
  replace (match st with Between => Ascii.eqb c "." && match a ++ b with [] => true | _ => false end | InWord _ => Ascii.eqb c dquote || Ascii.eqb c "." && match a ++ b with [] => true | _ => false end
           | InString _ => false | _ => true end) with false.
  2: { assert (Q : Ascii.eqb c "." && match a with [] => true | _ => false end = false -> Ascii.eqb c "." && match a ++ b with [] => true | _ => false end = false).
       { destruct a; [rewrite andb_true_r; intros ->; reflexivity|auto]. }
       destruct st; try discriminate X; [rewrite (Q X); reflexivity| |reflexivity]. apply orb_false_iff in X as [-> X]. rewrite (Q X). reflexivity. }
  assert (E : lex_step st c (a ++ b) = lex_step st c a).
  { destruct st as [|w|s|n|s|n]; try discriminate X; cbn [lex_step]; try reflexivity.
    - apply starts_token_more. exact X.
    - apply orb_false_iff in X as [B1 B2]. rewrite B1, (starts_token_more c a b B2). reflexivity. }
  rewrite E. destruct (lex_step st c a) as [[ts1 st']|]; [|discriminate]. destruct (lexs st' a) as [[ts2 st'']|] eqn:L; [|discriminate].
  injection A as <- <-. rewrite (IH _ _ _ _ _ _ L B). now rewrite app_assoc.
Qed.
Lemma lexs_number d ds : is_digit d = true -> forallb is_digit ds = true -> lexs Between (d :: ds) = Some ([], InWord (d :: ds)).
Proof.
  intros H Hs. cbn [lexs]. destruct (digit_ok d H) as (_ & Sp & Q & P & _). rewrite P. cbn [andb lex_step]. unfold starts_token. rewrite Sp, Q, H, orb_true_r. rewrite (lexs_digits ds [d] Hs). reflexivity.
Qed.
Lemma number_digits n : number (digits_of n) = Some n.
Proof.
  assert (E : NilEmpty.uint_of_string (string_of_list_ascii (digits_of n)) = Some (N.to_uint n)) by (unfold digits_of; rewrite string_of_list_ascii_of_string; apply NilEmpty.usu).
  unfold number. destruct (digits_of n) as [|c [|d r]] eqn:D.
  - destruct (digits_some n D).
  - rewrite E. rewrite DecimalN.Unsigned.of_to. destruct c as [[] [] [] [] [] [] [] []]; reflexivity.
  - rewrite E. rewrite DecimalN.Unsigned.of_to. destruct c as [[] [] [] [] [] [] [] []]; try reflexivity.
    (* no leading zero *)
    exfalso. clear E. unfold digits_of in D. pose proof (DecimalN.Unsigned.to_of (N.to_uint n)) as Q. rewrite DecimalN.Unsigned.of_to in Q.
    destruct (N.to_uint n) as [|u|u|u|u|u|u|u|u|u|u]; try discriminate D. unfold Decimal.unorm in Q. simpl in Q.
    destruct (Decimal.nzhead u) as [|w|w|w|w|w|w|w|w|w|w] eqn:Hw; try discriminate Q.
    + injection Q as ->. discriminate D.
    + injection Q as ->. exact (DecimalFacts.nzhead_nonzero _ _ Hw).
Qed.

(** *** doubles *)
Definition is_numeral (w : text) : Prop := exists d i fr ex, w = (d :: i) ++ fr ++ ex /\ is_digit d = true /\ forallb is_digit i = true /\
  (fr = [] \/ exists f, fr = "."%char :: f /\ f <> [] /\ forallb is_digit f = true) /\
  (ex = [] \/ exists s x, ex = "e"%char :: s :: x /\ (s = "+"%char \/ s = "-"%char) /\ x <> [] /\ forallb is_digit x = true).
Lemma numeral_lexs w : is_numeral w -> lexs Between w = Some ([], InWord w).
Proof.
  intros (d & i & fr & ex & -> & Hd & Hi & Hf & He).
  change (@nil token) with (@nil token ++ []). eapply lexs_app; [exact (lexs_number d i Hd Hi)|].
  assert (F : lexs (InWord (d :: i)) fr = Some ([], InWord ((d :: i) ++ fr))).
  { destruct Hf as [->|(f & -> & Nf & Hf)]; [now rewrite app_nil_r|]. destruct f as [|f0 f]; [congruence|].
    cbn [lexs]. cbn [andb orb Ascii.eqb lex_step]. replace (continues (d :: i) ".") with true by (unfold continues; rewrite Hd; reflexivity).
    change (lexs (InWord ((d :: i) ++ ["."%char])) (f0 :: f)) with (lexs (InWord ((d :: i) ++ ["."%char])) (f0 :: f)).
    replace (Ascii.eqb "." dquote) with false by reflexivity. cbn [Ascii.eqb andb orb].
    change (match lexs (InWord ((d :: i) ++ ["."%char])) (f0 :: f) with Some (ts', st'') => Some ([] ++ ts', st'') | None => None end = Some (@nil token, InWord ((d :: i) ++ "."%char :: f0 :: f))).
    rewrite (lexs_digits (f0 :: f) _ Hf). cbn [app]. rewrite <- app_assoc. reflexivity. }
  change (@nil token) with (@nil token ++ []). eapply lexs_app; [exact F|]. rewrite app_assoc. set (k := (d :: i) ++ fr).
  assert (Hk : exists r, k = d :: r) by (unfold k; simpl; eauto). destruct Hk as (r & Hk). clearbody k.
  destruct He as [->|(s & x & -> & Hs & Nx & Hx)]; [now rewrite app_nil_r|].
  assert (L : last (k ++ ["e"%char]) d = "e"%char) by apply last_last.
  assert (C1 : continues k "e" = true) by reflexivity.
  assert (C2 : continues (k ++ ["e"%char]) s = true).
  { subst k. unfold continues. cbn [app]. cbn [app] in L. rewrite L, Hd. destruct Hs as [-> | ->]; reflexivity. }
  assert (S1 : forall q st', lex_step (InWord k) "e" q = st' -> st' = Some ([], InWord (k ++ ["e"%char]))) by (intros q st' <-; cbn [lex_step]; rewrite C1; reflexivity).
  cbn [lexs]. replace (Ascii.eqb "e" dquote || Ascii.eqb "e" "." && match s :: x with [] => true | _ => false end) with false by reflexivity.
  rewrite (S1 _ _ eq_refl).
  replace (Ascii.eqb s dquote || Ascii.eqb s "." && match x with [] => true | _ => false end) with false by (destruct Hs as [-> | ->]; reflexivity).
  cbn [lex_step]. rewrite C2. rewrite (lexs_digits x _ Hx). rewrite <- !app_assoc. reflexivity.
Qed.
Lemma span_digits a r : forallb is_digit a = true -> match r with c :: _ => is_digit c = false | [] => True end -> span is_digit (a ++ r) = (a, r).
Proof.
  intros H R. induction a as [|c a IH]; simpl.
  - destruct r as [|c r]; [reflexivity|]. simpl. now rewrite R.
  - simpl in H. apply andb_true_iff in H as [-> H]. now rewrite IH.
Qed.
Lemma numeral_double w : is_numeral w -> exists f, double_literal w = Some f.
Proof.
  intros (d & i & fr & ex & -> & Hd & Hi & Hf & He). unfold double_literal.
  assert (E : match ex with c :: _ => is_digit c = false | [] => True end) by (destruct He as [->|(s & x & -> & _)]; [exact I|reflexivity]).
  rewrite (span_digits (d :: i) (fr ++ ex)); [|simpl; rewrite Hd; exact Hi|destruct Hf as [->|(f & -> & _)]; [exact E|reflexivity]].
  assert (M : exists f0, (match fr ++ ex with "."%char :: r' => span is_digit r' | _ => ([], fr ++ ex) end) = (f0, ex)).
  { destruct Hf as [->|(f & -> & Nf & Hf)].
    - exists []. cbn [app]. destruct He as [->|(s & x & -> & _)]; reflexivity.
    - exists f. cbn [app]. now apply span_digits. }
  destruct M as [f0 ->]. destruct He as [->|(s & x & -> & Hs & Nx & Hx)]; [eauto|].
  assert (X : span is_digit x = (x, [])) by (rewrite <- (app_nil_r x) at 1; now apply span_digits).
  destruct Hs as [-> | ->]; cbv beta iota; rewrite X; destruct x; try congruence; eauto.
Qed.
Lemma digits_rev t : forallb is_digit t = true -> forallb is_digit (rev t) = true.
Proof. rewrite !forallb_forall. intros H x Hx. apply H. now apply in_rev. Qed.
Lemma digits_app a b : forallb is_digit a = true -> forallb is_digit b = true -> forallb is_digit (a ++ b) = true.
Proof. intros A B. now rewrite forallb_app, A, B. Qed.
Lemma digits_skip n : forall t, forallb is_digit t = true -> forallb is_digit (skipn n t) = true.
Proof. intros t H. rewrite <- (firstn_skipn n t) in H. rewrite forallb_app in H. apply andb_true_iff in H. apply H. Qed.
Lemma digits_first n : forall t, forallb is_digit t = true -> forallb is_digit (firstn n t) = true.
Proof. intros t H. rewrite <- (firstn_skipn n t) in H. rewrite forallb_app in H. apply andb_true_iff in H. apply H. Qed.
Lemma digits_zeros n : forallb is_digit (repeat "0"%char n) = true.
Proof. induction n; simpl; auto. Qed.
Lemma digits_without t : forallb is_digit t = true -> forallb is_digit (without_zeros t) = true.
Proof.
  induction t as [|c t IH]; [auto|]. intros H. pose proof H as H'. simpl in H'. apply andb_true_iff in H' as [_ H']. specialize (IH H').
  destruct c as [[] [] [] [] [] [] [] []]; try exact H. exact IH.
Qed.
Lemma fraction_shape t : forallb is_digit t = true -> fraction t = [] \/ exists f, fraction t = "."%char :: f /\ f <> [] /\ forallb is_digit f = true.
Proof.
  intros H. unfold fraction. pose proof (digits_without (rev t) (digits_rev t H)) as W. destruct (without_zeros (rev t)) as [|c r]; [now left|].
  right. exists (rev (c :: r)). split; [reflexivity|]. split; [|apply digits_rev, W]. simpl. intros E. apply app_eq_nil in E. destruct E; discriminate.
Qed.
Lemma exponent_shape x : exists s e, show_exponent x = "e"%char :: s :: e /\ (s = "+"%char \/ s = "-"%char) /\ e <> [] /\ forallb is_digit e = true.
Proof.
  unfold show_exponent. set (d := digits_of (Z.abs_N x)). assert (D : forallb is_digit d = true) by apply digits_digits. assert (N : d <> []) by apply digits_some. clearbody d.
  exists (if (x <? 0)%Z then "-"%char else "+"%char), (if Nat.ltb (List.length d) 2 then "0"%char :: d else d). split; [reflexivity|]. split; [destruct (x <? 0)%Z; auto|].
  split; destruct (Nat.ltb (List.length d) 2); auto; discriminate.
Qed.
Lemma numeral_positive num den : is_numeral (show_positive num den).
Proof.
  unfold show_positive. destruct (six_digits num den) as [q x]. set (d := digits_of q). assert (D : forallb is_digit d = true) by apply digits_digits. assert (N : d <> []) by apply digits_some. clearbody d.
  assert (Fst : forall n, exists c r, firstn (S n) d = c :: r /\ is_digit c = true /\ forallb is_digit r = true).
  { intros n. pose proof (digits_first (S n) d D) as Fd. destruct d as [|c d]; [congruence|]. simpl in *. apply andb_true_iff in Fd. destruct Fd. eauto 6. }
  destruct ((x <? -4)%Z || (6 <=? x)%Z).
  - destruct (Fst 0) as (c & r & -> & Hc & Hr). exists c, r, (fraction (skipn 1 d)), (show_exponent x). split; [reflexivity|]. split; [exact Hc|]. split; [exact Hr|].
    split; [apply fraction_shape, digits_skip, D|right; apply exponent_shape].
  - destruct (x <? 0)%Z.
    + exists "0"%char, [], (fraction (repeat "0"%char (Z.to_nat (- x - 1)) ++ d)), []. split; [now rewrite app_nil_r|]. split; [reflexivity|]. split; [reflexivity|].
      split; [apply fraction_shape, digits_app; [apply digits_zeros|exact D]|now left].
    + destruct (Fst (Z.to_nat x)) as (c & r & -> & Hc & Hr). exists c, r, (fraction (skipn (S (Z.to_nat x)) d)), []. split; [now rewrite app_nil_r|]. split; [exact Hc|]. split; [exact Hr|].
      split; [apply fraction_shape, digits_skip, D|now left].
Qed.
Definition is_finite (f : spec_float) : bool := match f with S754_zero _ | S754_finite _ _ _ => true | _ => false end.
Lemma float_shape f : is_finite f = true -> exists s w, show_float f = show_sign s ++ w /\ is_numeral w.
Proof.
  destruct f as [s|s| |s m e]; intros H; try discriminate H.
  - exists s, ["0"%char]. split; [reflexivity|]. exists "0"%char, [], [], []. repeat split; auto.
  - exists s. eexists. split; [reflexivity|]. destruct (0 <=? e)%Z; apply numeral_positive.
Qed.
