(** Parsing expressions: the PEGTL combinators that include/graphqlservice/internal/Grammar.h is written in. *)
From Coq Require Export String Ascii Arith Lia Bool NArith List.
Export ListNotations.
Local Open Scope list_scope.

(** PEGTL itself (tao/pegtl) is not in /repo: what follows is the documented meaning of the combinators that Grammar.h
    uses. A rule is tried at a position of the input. It matches and consumes a prefix, or fails and consumes nothing,
    or raises parse_error, which abandons the whole parse. [sor] tries its alternatives in order and keeps the first
    match; [star] is greedy and never gives anything back. *)

Section Peg.
Context {rule : Type}.

(** The combinators (Grammar.h:62-1176). [Chr] is one<...>/range<...>/digit/xdigit/space (a test of a byte), [Utf8] is
    utf8::range<lo, hi>, [Must msg r] is must<r> where [msg] is the error_message of ast_control<r>
    (SyntaxTree.cpp:551-733), [Ref n] a named rule for which a selector keeps a node. *)
Inductive re : Type :=
| Eps
| Chr (p : ascii -> bool)
| Str (l : list ascii)
| Utf8 (lo hi : N)
| Eof
| Bof
| Seq (a b : re)
| Sor (a b : re)
| Star (a : re)
| NotAt (a : re)
| Must (msg : string) (a : re)
| Ref (n : rule).

(** SyntaxTree.h:27-152 class ast_node: its type, where it begins (here: a byte offset), its content (the matched bytes)
    and its children. *)
Inductive node : Type := Node (ty : rule) (begin : nat) (content : list ascii) (children : list node).

Definition n_type (x : node) : rule := let 'Node t _ _ _ := x in t.
Definition n_begin (x : node) : nat := let 'Node _ b _ _ := x in b.
Definition n_content (x : node) : list ascii := let 'Node _ _ c _ := x in c.
Definition n_children (x : node) : list node := let 'Node _ _ _ k := x in k.

(** What an attempt gives: the nodes for the parent, the offset after the match and the rest of the input. *)
Inductive out : Type :=
| Match (ns : list node) (o : nat) (s : list ascii)
| Fail
| Raise (msg : string).

(** What a selector does with the node of a rule (SyntaxTree.cpp:107-549): std::true_type keeps it, std::false_type
    hands its children to the parent, parse_tree::fold_one replaces it by its child if it has exactly one. *)
Inductive keeps : Type := Keep | Skip | FoldOne.

Definition select (k : keeps) (x : node) : list node :=
  match k with
  | Keep => [x]
  | Skip => n_children x
  | FoldOne => match n_children x with [y] => [y] | _ => [x] end
  end.

Definition prepend (ns : list node) (x : out) : out :=
  match x with Match ms o s => Match (ns ++ ms) o s | _ => x end.

(** PEGTL internal/peek_utf8.hpp: the code point at the head of the input and its length in bytes; none if the bytes
    are not well formed UTF-8 (overlong forms, surrogates and code points above 10FFFF are rejected). *)
Definition byte (c : ascii) : N := N_of_ascii c.
Definition tail_byte (c : ascii) : bool := N.eqb (N.land (byte c) 192) 128.
Definition bits6 (acc : N) (c : ascii) : N := N.lor (N.shiftl acc 6) (N.land (byte c) 63).

Definition peek_utf8 (s : list ascii) : option (N * nat) :=
  match s with
  | [] => None
  | c0 :: s1 =>
    let b := byte c0 in
    if N.eqb (N.land b 128) 0 then Some (b, 1)
    else if N.eqb (N.land b 224) 192 then
      match s1 with
      | c1 :: _ =>
        if tail_byte c1 then
          let c := bits6 (N.land b 31) c1 in
          if N.leb 128 c then Some (c, 2) else None
        else None
      | _ => None
      end
    else if N.eqb (N.land b 240) 224 then
      match s1 with
      | c1 :: c2 :: _ =>
        if tail_byte c1 && tail_byte c2 then
          let c := bits6 (bits6 (N.land b 15) c1) c2 in
          if N.leb 2048 c && negb (N.leb 55296 c && N.leb c 57343) then Some (c, 3) else None
        else None
      | _ => None
      end
    else if N.eqb (N.land b 248) 240 then
      match s1 with
      | c1 :: c2 :: c3 :: _ =>
        if tail_byte c1 && tail_byte c2 && tail_byte c3 then
          let c := bits6 (bits6 (bits6 (N.land b 7) c1) c2) c3 in
          if N.leb 65536 c && N.leb c 1114111 then Some (c, 4) else None
        else None
      | _ => None
      end
    else None
  end.

(** PEGTL utf8::range<lo, hi>: the number of bytes it consumes. *)
Definition utf8_range (lo hi : N) (s : list ascii) : option nat :=
  match peek_utf8 s with
  | Some (c, n) => if N.leb lo c && N.leb c hi then Some n else None
  | None => None
  end.

(** PEGTL string<...>: the rest of the input after the literal. *)
Fixpoint strip (l s : list ascii) : option (list ascii) :=
  match l, s with
  | [], _ => Some s
  | c :: l', d :: s' => if Ascii.eqb c d then strip l' s' else None
  | _ :: _, [] => None
  end.

Variable grammar : rule -> re.
Variable selector : rule -> keeps.

(** The meaning of the combinators as an interpreter with fuel; [None]: the fuel ran out. *)
Fixpoint run (f : nat) (r : re) (o : nat) (s : list ascii) : option out :=
  match f with
  | O => None
  | S f =>
    match r with
    | Eps => Some (Match [] o s)
    | Chr p => match s with c :: s' => if p c then Some (Match [] (o + 1) s') else Some Fail | [] => Some Fail end
    | Str l => match strip l s with Some s' => Some (Match [] (o + length l) s') | None => Some Fail end
    | Utf8 lo hi => match utf8_range lo hi s with
                    | Some n => Some (Match [] (o + n) (skipn n s))
                    | None => Some Fail
                    end
    | Eof => match s with [] => Some (Match [] o s) | _ => Some Fail end
    | Bof => if Nat.eqb o 0 then Some (Match [] o s) else Some Fail
    | Seq a b => match run f a o s with
                 | Some (Match ns o' s') => option_map (prepend ns) (run f b o' s')
                 | x => x
                 end
    | Sor a b => match run f a o s with
                 | Some Fail => run f b o s
                 | x => x
                 end
    | Star a => match run f a o s with
                | Some (Match ns o' s') => option_map (prepend ns) (run f (Star a) o' s')
                | Some Fail => Some (Match [] o s)
                | x => x
                end
    | NotAt a => match run f a o s with
                 | Some (Match _ _ _) => Some Fail
                 | Some Fail => Some (Match [] o s)
                 | x => x
                 end
    | Must msg a => match run f a o s with
                    | Some Fail => Some (Raise msg)
                    | x => x
                    end
    | Ref n => match run f (grammar n) o s with
               | Some (Match ns o' s') =>
                   Some (Match (select (selector n) (Node n o (firstn (o' - o) s) ns)) o' s')
               | x => x
               end
    end
  end.

(** The same as a relation. *)
Inductive matches : re -> nat -> list ascii -> out -> Prop :=
| m_eps o s : matches Eps o s (Match [] o s)
| m_chr p o c s : p c = true -> matches (Chr p) o (c :: s) (Match [] (o + 1) s)
| m_chr_fail p o c s : p c = false -> matches (Chr p) o (c :: s) Fail
| m_chr_end p o : matches (Chr p) o [] Fail
| m_str l o s s' : strip l s = Some s' -> matches (Str l) o s (Match [] (o + length l) s')
| m_str_fail l o s : strip l s = None -> matches (Str l) o s Fail
| m_utf8 lo hi o s n : utf8_range lo hi s = Some n -> matches (Utf8 lo hi) o s (Match [] (o + n) (skipn n s))
| m_utf8_fail lo hi o s : utf8_range lo hi s = None -> matches (Utf8 lo hi) o s Fail
| m_eof o : matches Eof o [] (Match [] o [])
| m_eof_fail o c s : matches Eof o (c :: s) Fail
| m_bof s : matches Bof 0 s (Match [] 0 s)
| m_bof_fail o s : o <> 0 -> matches Bof o s Fail
| m_seq a b o s ns o' s' x : matches a o s (Match ns o' s') -> matches b o' s' x -> matches (Seq a b) o s (prepend ns x)
| m_seq_fail a b o s : matches a o s Fail -> matches (Seq a b) o s Fail
| m_seq_raise a b o s m : matches a o s (Raise m) -> matches (Seq a b) o s (Raise m)
| m_sor_l a b o s ns o' s' : matches a o s (Match ns o' s') -> matches (Sor a b) o s (Match ns o' s')
| m_sor_r a b o s x : matches a o s Fail -> matches b o s x -> matches (Sor a b) o s x
| m_sor_raise a b o s m : matches a o s (Raise m) -> matches (Sor a b) o s (Raise m)
| m_star_end a o s : matches a o s Fail -> matches (Star a) o s (Match [] o s)
| m_star a o s ns o' s' x : matches a o s (Match ns o' s') -> matches (Star a) o' s' x -> matches (Star a) o s (prepend ns x)
| m_star_raise a o s m : matches a o s (Raise m) -> matches (Star a) o s (Raise m)
| m_not a o s : matches a o s Fail -> matches (NotAt a) o s (Match [] o s)
| m_not_fail a o s ns o' s' : matches a o s (Match ns o' s') -> matches (NotAt a) o s Fail
| m_not_raise a o s m : matches a o s (Raise m) -> matches (NotAt a) o s (Raise m)
| m_must a msg o s ns o' s' : matches a o s (Match ns o' s') -> matches (Must msg a) o s (Match ns o' s')
| m_must_fail a msg o s : matches a o s Fail -> matches (Must msg a) o s (Raise msg)
| m_must_raise a msg o s m : matches a o s (Raise m) -> matches (Must msg a) o s (Raise m)
| m_ref n o s ns o' s' : matches (grammar n) o s (Match ns o' s') ->
    matches (Ref n) o s (Match (select (selector n) (Node n o (firstn (o' - o) s) ns)) o' s')
| m_ref_fail n o s : matches (grammar n) o s Fail -> matches (Ref n) o s Fail
| m_ref_raise n o s m : matches (grammar n) o s (Raise m) -> matches (Ref n) o s (Raise m).

Lemma run_matches f : forall r o s x, run f r o s = Some x -> matches r o s x.
Proof.
  induction f as [|f IH]; intros r o s x H; [discriminate|].
  destruct r as [|p|l|lo hi| | |a b|a b|a|a|msg a|n]; cbn in H.
  - injection H as <-. constructor.
  - destruct s as [|c s']; [injection H as <-; constructor|].
    destruct (p c) eqn:E; injection H as <-; constructor; exact E.
  - destruct (strip l s) eqn:E; injection H as <-; constructor; exact E.
  - destruct (utf8_range lo hi s) eqn:E; injection H as <-; constructor; exact E.
  - destruct s; injection H as <-; constructor.
  - destruct (Nat.eqb_spec o 0) as [->|E]; injection H as <-; constructor; exact E.
  - destruct (run f a o s) as [[ns o' s'| |m]|] eqn:E; try discriminate.
    + destruct (run f b o' s') as [y|] eqn:E2; [|discriminate]. injection H as <-.
      eapply m_seq; eauto.
    + injection H as <-. apply m_seq_fail. eauto.
    + injection H as <-. apply m_seq_raise. eauto.
  - destruct (run f a o s) as [[ns o' s'| |m]|] eqn:E; try discriminate.
    + injection H as <-. apply m_sor_l. eauto.
    + apply m_sor_r; eauto.
    + injection H as <-. apply m_sor_raise. eauto.
  - destruct (run f a o s) as [[ns o' s'| |m]|] eqn:E; try discriminate.
    + destruct (run f (Star a) o' s') as [y|] eqn:E2; [|discriminate]. injection H as <-.
      eapply m_star; eauto.
    + injection H as <-. apply m_star_end. eauto.
    + injection H as <-. apply m_star_raise. eauto.
  - destruct (run f a o s) as [[ns o' s'| |m]|] eqn:E; try discriminate; injection H as <-.
    + eapply m_not_fail; eauto.
    + apply m_not; eauto.
    + apply m_not_raise; eauto.
  - destruct (run f a o s) as [[ns o' s'| |m]|] eqn:E; try discriminate; injection H as <-.
    + apply m_must; eauto.
    + apply m_must_fail; eauto.
    + apply m_must_raise; eauto.
  - destruct (run f (grammar n) o s) as [[ns o' s'| |m]|] eqn:E; try discriminate; injection H as <-.
    + apply m_ref; eauto.
    + apply m_ref_fail; eauto.
    + apply m_ref_raise; eauto.
Qed.

Lemma run_mono f : forall r o s x, run f r o s = Some x -> forall g, f <= g -> run g r o s = Some x.
Proof.
  induction f as [|f IH]; intros r o s x H g Hg; [discriminate|].
  destruct g as [|g]; [lia|]. apply le_S_n in Hg.
  destruct r as [|p|l|lo hi| | |a b|a b|a|a|msg a|n]; cbn in *; auto.
  - destruct (run f a o s) as [y|] eqn:E; [|discriminate]. rewrite (IH _ _ _ _ E g Hg).
    destruct y as [ns o' s'| |m]; auto.
    destruct (run f b o' s') as [y|] eqn:E2; [|discriminate]. rewrite (IH _ _ _ _ E2 g Hg). exact H.
  - destruct (run f a o s) as [y|] eqn:E; [|discriminate]. rewrite (IH _ _ _ _ E g Hg).
    destruct y as [ns o' s'| |m]; eauto.
  - destruct (run f a o s) as [y|] eqn:E; [|discriminate]. rewrite (IH _ _ _ _ E g Hg).
    destruct y as [ns o' s'| |m]; auto.
    destruct (run f (Star a) o' s') as [y|] eqn:E2; [|discriminate]. rewrite (IH _ _ _ _ E2 g Hg). exact H.
  - destruct (run f a o s) as [y|] eqn:E; [|discriminate]. rewrite (IH _ _ _ _ E g Hg). exact H.
  - destruct (run f a o s) as [y|] eqn:E; [|discriminate]. rewrite (IH _ _ _ _ E g Hg). exact H.
  - destruct (run f (grammar n) o s) as [y|] eqn:E; [|discriminate]. rewrite (IH _ _ _ _ E g Hg). exact H.
Qed.

Lemma matches_run r o s x : matches r o s x -> exists f, run f r o s = Some x.
Proof.
  induction 1 as
    [ o s | p o c s E | p o c s E | p o | l o s s' E | l o s E | lo hi o s n E | lo hi o s E | o | o c s | s | o s E
    | a b o s ns o' s' x _ [f1 H1] _ [f2 H2] | a b o s _ [f1 H1] | a b o s m _ [f1 H1]
    | a b o s ns o' s' _ [f1 H1] | a b o s x _ [f1 H1] _ [f2 H2] | a b o s m _ [f1 H1]
    | a o s _ [f1 H1] | a o s ns o' s' x _ [f1 H1] _ [f2 H2] | a o s m _ [f1 H1]
    | a o s _ [f1 H1] | a o s ns o' s' _ [f1 H1] | a o s m _ [f1 H1]
    | a msg o s ns o' s' _ [f1 H1] | a msg o s _ [f1 H1] | a msg o s m _ [f1 H1]
    | n o s ns o' s' _ [f1 H1] | n o s _ [f1 H1] | n o s m _ [f1 H1] ];
  try (exists 1; cbn; rewrite ?E; reflexivity);
  try (exists (S f1); cbn; rewrite H1; reflexivity);
  try (exists (S (f1 + f2)); cbn; rewrite (run_mono _ _ _ _ _ H1 (f1 + f2)) by lia;
       rewrite (run_mono _ _ _ _ _ H2 (f1 + f2)) by lia; reflexivity).
  exists 1. cbn. destruct (Nat.eqb_spec o 0); [contradiction|reflexivity].
Qed.

Lemma matches_det r o s x y : matches r o s x -> matches r o s y -> x = y.
Proof.
  intros H1 H2. apply matches_run in H1 as [f1 H1]. apply matches_run in H2 as [f2 H2].
  pose proof (run_mono _ _ _ _ _ H1 (f1 + f2) ltac:(lia)) as A.
  pose proof (run_mono _ _ _ _ _ H2 (f1 + f2) ltac:(lia)) as B.
  rewrite A in B. injection B as ->. reflexivity.
Qed.

(** A match consumes a prefix, and the offset moves by its length. *)
Lemma strip_app l : forall s s', strip l s = Some s' <-> s = l ++ s'.
Proof.
  induction l as [|c l IH]; intros s s'; cbn; [split; [intros [= ->]; reflexivity|intros ->; reflexivity]|].
  destruct s as [|d s]; [split; discriminate|].
  destruct (Ascii.eqb_spec c d) as [->|E].
  - rewrite IH. split; [intros ->; reflexivity|intros [= ->]; reflexivity].
  - split; [discriminate|intros [= -> _]; contradiction].
Qed.

Lemma peek_len s c n : peek_utf8 s = Some (c, n) -> 1 <= n <= length s.
Proof.
  unfold peek_utf8. destruct s as [|c0 s1]; [discriminate|]. cbn [length].
  destruct (N.eqb (N.land (byte c0) 128) 0); [intros [= _ <-]; lia|].
  destruct (N.eqb (N.land (byte c0) 224) 192).
  { destruct s1 as [|c1 s2]; [discriminate|]. destruct (tail_byte c1); [|discriminate].
    destruct (N.leb _ _); [|discriminate]. intros [= _ <-]. cbn. lia. }
  destruct (N.eqb (N.land (byte c0) 240) 224).
  { destruct s1 as [|c1 [|c2 s2]]; try discriminate. destruct (_ && _); [|discriminate].
    destruct (_ && _); [|discriminate]. intros [= _ <-]. cbn. lia. }
  destruct (N.eqb (N.land (byte c0) 248) 240); [|discriminate].
  destruct s1 as [|c1 [|c2 [|c3 s2]]]; try discriminate. destruct (_ && _); [|discriminate].
  destruct (_ && _); [|discriminate]. intros [= _ <-]. cbn. lia.
Qed.

Lemma utf8_len lo hi s n : utf8_range lo hi s = Some n -> 1 <= n <= length s.
Proof.
  unfold utf8_range. destruct (peek_utf8 s) as [[c k]|] eqn:E; [|discriminate].
  destruct (_ && _); [|discriminate]. intros [= <-]. eapply peek_len; eassumption.
Qed.

Lemma prepend_match ns x ms o s : prepend ns x = Match ms o s -> exists ms', x = Match ms' o s /\ ms = ns ++ ms'.
Proof. destruct x; cbn; try discriminate. intros [= <- <- <-]. eauto. Qed.

Lemma matches_consumes r o s x : matches r o s x ->
  forall ns o' s', x = Match ns o' s' -> exists t, s = t ++ s' /\ o' = o + length t.
Proof.
  induction 1 as
    [ o s | p o c s E | p o c s E | p o | l o s s' E | l o s E | lo hi o s n E | lo hi o s E | o | o c s | s | o s E
    | a b o s ns o' s' x _ H1 _ H2 | a b o s _ H1 | a b o s m _ H1
    | a b o s ns o' s' _ H1 | a b o s x _ H1 _ H2 | a b o s m _ H1
    | a o s _ H1 | a o s ns o' s' x _ H1 _ H2 | a o s m _ H1
    | a o s _ H1 | a o s ns o' s' _ H1 | a o s m _ H1
    | a msg o s ns o' s' _ H1 | a msg o s _ H1 | a msg o s m _ H1
    | n o s ns o' s' _ H1 | n o s _ H1 | n o s m _ H1 ]; intros ks oo ss Eq; try discriminate.
  - injection Eq as <- <- <-. exists []. cbn. split; [reflexivity|lia].
  - injection Eq as <- <- <-. exists [c]. split; reflexivity.
  - injection Eq as <- <- <-. apply strip_app in E. exists l. split; [exact E|reflexivity].
  - injection Eq as <- <- <-. exists (firstn n s). rewrite firstn_skipn. split; [reflexivity|].
    apply utf8_len in E. rewrite firstn_length. lia.
  - injection Eq as <- <- <-. exists []. cbn. split; [reflexivity|lia].
  - injection Eq as <- <- <-. exists []. cbn. split; [reflexivity|lia].
  - apply prepend_match in Eq as (ms & -> & ->).
    destruct (H1 _ _ _ eq_refl) as (t1 & -> & ->). destruct (H2 _ _ _ eq_refl) as (t2 & -> & ->).
    exists (t1 ++ t2). rewrite app_assoc, app_length. split; [reflexivity|lia].
  - eapply H1; eassumption.
  - eapply H2; eassumption.
  - injection Eq as <- <- <-. exists []. cbn. split; [reflexivity|lia].
  - apply prepend_match in Eq as (ms & -> & ->).
    destruct (H1 _ _ _ eq_refl) as (t1 & -> & ->). destruct (H2 _ _ _ eq_refl) as (t2 & -> & ->).
    exists (t1 ++ t2). rewrite app_assoc, app_length. split; [reflexivity|lia].
  - injection Eq as <- <- <-. exists []. cbn. split; [reflexivity|lia].
  - eapply H1; eassumption.
  - injection Eq as <- <- <-. eapply H1; reflexivity.
Qed.

(** ** Every attempt ends: the analysis. *)

(** Whether a match may consume nothing ([nb]: the same for the named rules). *)
Variable nb : rule -> bool.
Fixpoint empty_ok (r : re) : bool :=
  match r with
  | Eps | Eof | Bof | NotAt _ | Star _ => true
  | Chr _ | Utf8 _ _ => false
  | Str l => match l with [] => true | _ => false end
  | Seq a b => empty_ok a && empty_ok b
  | Sor a b => empty_ok a || empty_ok b
  | Must _ a => empty_ok a
  | Ref n => nb n
  end.

Variable rank : rule -> nat.
(** The rules that may be tried before anything is consumed have a rank below [k]. *)
Fixpoint left_ok (k : nat) (r : re) : bool :=
  match r with
  | Eps | Chr _ | Str _ | Utf8 _ _ | Eof | Bof => true
  | Seq a b => left_ok k a && (if empty_ok a then left_ok k b else true)
  | Sor a b => left_ok k a && left_ok k b
  | Star a | NotAt a => left_ok k a
  | Must _ a => left_ok k a
  | Ref n => Nat.ltb (rank n) k
  end.

(** What is repeated consumes something. *)
Fixpoint stars_ok (r : re) : bool :=
  match r with
  | Eps | Chr _ | Str _ | Utf8 _ _ | Eof | Bof | Ref _ => true
  | Seq a b | Sor a b => stars_ok a && stars_ok b
  | Star a => negb (empty_ok a) && stars_ok a
  | NotAt a => stars_ok a
  | Must _ a => stars_ok a
  end.

Fixpoint size (r : re) : nat :=
  match r with
  | Eps | Chr _ | Str _ | Utf8 _ _ | Eof | Bof | Ref _ => 1
  | Seq a b | Sor a b => S (size a + size b)
  | Star a | NotAt a => S (size a)
  | Must _ a => S (size a)
  end.

Variable top sz : nat.
Definition well_formed_rule (n : rule) : bool :=
  (negb (empty_ok (grammar n)) || nb n) && left_ok (rank n) (grammar n) && stars_ok (grammar n)
  && Nat.ltb (rank n) top && Nat.ltb (size (grammar n)) sz.

Hypothesis wf : forall n, well_formed_rule n = true.

Lemma wf_all n : (empty_ok (grammar n) = true -> nb n = true) /\ left_ok (rank n) (grammar n) = true
  /\ stars_ok (grammar n) = true /\ rank n < top /\ size (grammar n) < sz.
Proof.
  specialize (wf n). unfold well_formed_rule in wf. rewrite !andb_true_iff, orb_true_iff, negb_true_iff in wf.
  destruct wf as [[[[H1 H2] H3] H4] H5]. apply Nat.ltb_lt in H4. apply Nat.ltb_lt in H5.
  repeat split; auto. intro E. destruct H1 as [H1|H1]; congruence.
Qed.

(** A rule that is not [empty_ok] consumes something. *)
Lemma matches_nonempty r o s x : matches r o s x -> empty_ok r = false ->
  forall ns o' s', x = Match ns o' s' -> length s' < length s.
Proof.
  induction 1 as
    [ o s | p o c s E | p o c s E | p o | l o s s' E | l o s E | lo hi o s n E | lo hi o s E | o | o c s | s | o s E
    | a b o s ns o' s' x M1 H1 M2 H2 | a b o s _ H1 | a b o s m _ H1
    | a b o s ns o' s' _ H1 | a b o s x _ H1 _ H2 | a b o s m _ H1
    | a o s _ H1 | a o s ns o' s' x _ H1 _ H2 | a o s m _ H1
    | a o s _ H1 | a o s ns o' s' _ H1 | a o s m _ H1
    | a msg o s ns o' s' _ H1 | a msg o s _ H1 | a msg o s m _ H1
    | n o s ns o' s' _ H1 | n o s _ H1 | n o s m _ H1 ]; intros En ks oo ss Eq; try discriminate; cbn in En.
  - injection Eq as <- <- <-. cbn. lia.
  - injection Eq as <- <- <-. apply strip_app in E. subst s. destruct l as [|c l]; [discriminate|].
    rewrite app_length. cbn. lia.
  - injection Eq as <- <- <-. apply utf8_len in E. rewrite skipn_length. lia.
  - apply prepend_match in Eq as (ms & -> & ->).
    destruct (matches_consumes _ _ _ _ M1 _ _ _ eq_refl) as (t1 & E1 & _).
    destruct (matches_consumes _ _ _ _ M2 _ _ _ eq_refl) as (t2 & E2 & _).
    assert (length s = length t1 + length s') by (rewrite E1, app_length; reflexivity).
    assert (length s' = length t2 + length ss) by (rewrite E2, app_length; reflexivity).
    apply andb_false_iff in En as [En|En].
    + specialize (H1 En _ _ _ eq_refl). lia.
    + specialize (H2 En _ _ _ eq_refl). lia.
  - apply orb_false_iff in En as [En _]. eapply H1; eassumption.
  - apply orb_false_iff in En as [_ En]. eapply H2; eassumption.
  - eapply H1; eassumption.
  - injection Eq as <- <- <-. destruct (wf_all n) as [W _].
    eapply H1; [|reflexivity]. destruct (empty_ok (grammar n)); [|reflexivity]. specialize (W eq_refl). congruence.
Qed.

(** The fuel that is always enough. *)
Definition per_byte : nat := top * sz + sz.

Lemma left_ok_mono k k' r : k <= k' -> left_ok k r = true -> left_ok k' r = true.
Proof.
  intro Hk. induction r as [| | | | | |a IHa b IHb|a IHa b IHb|a IHa|a IHa|msg a IHa|n]; cbn; auto.
  - rewrite !andb_true_iff. intros [A B]. split; [auto|]. destruct (empty_ok a); auto.
  - rewrite !andb_true_iff. intros [A B]. auto.
  - intro H. apply Nat.ltb_lt in H. apply Nat.ltb_lt. lia.
Qed.

Lemma left_ok_top r : left_ok top r = true.
Proof.
  induction r as [| | | | | |a IHa b IHb|a IHa b IHb|a IHa|a IHa|msg a IHa|n]; cbn; auto.
  - rewrite IHa, IHb. destruct (empty_ok a); reflexivity.
  - rewrite IHa, IHb. reflexivity.
  - apply Nat.ltb_lt. apply wf_all.
Qed.

Lemma run_total f : forall r o s k, size r <= sz -> stars_ok r = true -> left_ok k r = true -> k <= top ->
  length s * per_byte + k * sz + size r <= f -> run f r o s <> None.
Proof.
  induction f as [|f IH]; intros r o s k Hsz Hst Hl Hk Hf.
  { assert (1 <= size r) by (destruct r; cbn; lia). generalize dependent (length s * per_byte). generalize (k * sz).
    intros; lia. }
  pose proof (fun n => wf_all n) as W.
  assert (forall a (Hz : size a <= sz) (Hs : stars_ok a = true) s', length s' < length s ->
            forall o', size a <= size r -> run f a o' s' <> None) as Later.
  { clear Hst Hl. intros a Ha Hs s' Hlen o' Hle. apply (IH a o' s' top); auto using left_ok_top.
    assert ((length s' + 1) * per_byte <= length s * per_byte) by (apply Nat.mul_le_mono_r; lia).
    rewrite Nat.mul_add_distr_r, Nat.mul_1_l in H. assert (1 <= size a) by (destruct a; cbn; lia).
    assert (per_byte = top * sz + sz) as E by reflexivity. lia. }
  destruct r as [|p|l|lo hi| | |a b|a b|a|a|msg a|n]; cbn in *;
    rewrite ?andb_true_iff in *.
  - discriminate.
  - destruct s as [|c s']; [discriminate|]. destruct (p c); discriminate.
  - destruct (strip l s); discriminate.
  - destruct (utf8_range lo hi s); discriminate.
  - destruct s; discriminate.
  - destruct (Nat.eqb o 0); discriminate.
  - destruct Hst as [S1 S2], Hl as [L1 L2].
    destruct (run f a o s) as [x|] eqn:E; [|exfalso; revert E; apply (IH a o s k); auto; lia].
    destruct x as [ns o' s'| |m]; try discriminate.
    assert (run f b o' s' <> None) as N.
    { apply run_matches in E. destruct (matches_consumes _ _ _ _ E _ _ _ eq_refl) as (t & Et & _).
      destruct (empty_ok a) eqn:Ea.
      - destruct t as [|c t].
        + cbn in Et. subst s'. apply (IH b o' s k); auto; lia.
        + apply Later; auto; [lia| |lia]. subst s. rewrite app_length. cbn. lia.
      - apply Later; auto; [lia| |lia]. eapply matches_nonempty; [exact E|exact Ea|reflexivity]. }
    destruct (run f b o' s'); [discriminate|contradiction].
  - destruct Hst as [S1 S2], Hl as [L1 L2].
    destruct (run f a o s) as [x|] eqn:E; [|exfalso; revert E; apply (IH a o s k); auto; lia].
    destruct x as [ns o' s'| |m]; try discriminate. apply (IH b o s k); auto; lia.
  - destruct Hst as [S1 S2]. apply negb_true_iff in S1.
    destruct (run f a o s) as [x|] eqn:E; [|exfalso; revert E; apply (IH a o s k); auto; lia].
    destruct x as [ns o' s'| |m]; try discriminate.
    assert (run f (Star a) o' s' <> None) as N.
    { apply Later; auto; [cbn; rewrite S1, S2; reflexivity|].
      apply run_matches in E. eapply matches_nonempty; [exact E|exact S1|reflexivity]. }
    destruct (run f (Star a) o' s'); [discriminate|contradiction].
  - destruct (run f a o s) as [x|] eqn:E; [|exfalso; revert E; apply (IH a o s k); auto; lia].
    destruct x; discriminate.
  - destruct (run f a o s) as [x|] eqn:E; [|exfalso; revert E; apply (IH a o s k); auto; lia].
    destruct x; discriminate.
  - apply Nat.ltb_lt in Hl. destruct (W n) as (_ & Wl & Ws & Wr & Wz).
    destruct (run f (grammar n) o s) as [x|] eqn:E.
    { destruct x; discriminate. }
    exfalso. revert E. apply (IH _ o s (rank n)); auto; [lia| |].
    + lia.
    + assert ((rank n + 1) * sz <= k * sz) by (apply Nat.mul_le_mono_r; lia). lia.
Qed.

End Peg.
Arguments re : clear implicits.
Arguments node : clear implicits.
Arguments out : clear implicits.
