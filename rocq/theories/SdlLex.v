(** Three things about matches that the proofs about schema documents use: what is consumed does not depend on the selector; where
    the consumed text ends; what is heard of a description. *)
From Coq Require Import String Ascii NArith ZArith Bool List Lia.
From Verif Require Import Cpp Value Ast SchemaModel LoaderModel.
From Verif Require Export ParseTotal SdlTree SdlSpec.
Import ListNotations.
Local Open Scope list_scope.

(** ** What is consumed does not depend on the selector. *)
Definition same_for (sel : rule -> keeps) (r : ex) (o : nat) (s : text) (x : out rule) : Prop :=
  match x with
  | Match _ o' s' => exists ns, matches grammar sel r o s (Match ns o' s')
  | Fail => matches grammar sel r o s Fail
  | Raise m => matches grammar sel r o s (Raise m)
  end.
Lemma other_selector sel sel' r o s x : matches grammar sel r o s x -> same_for sel' r o s x.
Proof.
  induction 1 as
    [ o s | p o c s E | p o c s E | p o | l o s s' E | l o s E | lo hi o s n E | lo hi o s E | o | o c s | s | o s E
    | a b o s ns o' s' x _ [ms H1] _ H2 | a b o s _ H1 | a b o s m _ H1
    | a b o s ns o' s' _ [ms H1] | a b o s x _ H1 _ H2 | a b o s m _ H1
    | a o s _ H1 | a o s ns o' s' x _ [ms H1] _ H2 | a o s m _ H1
    | a o s _ H1 | a o s ns o' s' _ [ms H1] | a o s m _ H1
    | a msg o s ns o' s' _ [ms H1] | a msg o s _ H1 | a msg o s m _ H1
    | n o s ns o' s' _ [ms H1] | n o s _ H1 | n o s m _ H1 ]; cbn [same_for prepend] in *;
  try (eexists; constructor; eassumption); try (constructor; eassumption).
  - destruct x as [k p q| |m]; cbn [same_for prepend] in *.
    + destruct H2 as [ks H2]. exists (ms ++ ks). apply (m_seq _ _ a b o s ms o' s' (Match ks p q)); assumption.
    + apply (m_seq _ _ a b o s ms o' s' Fail); assumption.
    + apply (m_seq _ _ a b o s ms o' s' (Raise m)); assumption.
  - destruct x as [k p q| |m]; cbn [same_for] in *.
    + destruct H2 as [ks H2]. exists ks. apply m_sor_r; assumption.
    + apply m_sor_r; assumption.
    + apply m_sor_r; assumption.
  - destruct x as [k p q| |m]; cbn [same_for prepend] in *.
    + destruct H2 as [ks H2]. exists (ms ++ ks). apply (m_star _ _ a o s ms o' s' (Match ks p q)); assumption.
    + apply (m_star _ _ a o s ms o' s' Fail); assumption.
    + apply (m_star _ _ a o s ms o' s' (Raise m)); assumption.
  - eapply m_not_fail. eassumption.
Qed.

(** ** Where the consumed text ends. *)
Section Tidy.
Variable sel : rule -> keeps.
Notation M := (matches grammar sel).

(** What is left does not begin with a name character, or what was consumed does not end with one. *)
Definition tidy (t s' : text) : Prop := ends s' \/ exists u c, t = u ++ [c] /\ is_ident c = false.

Definition no_ident (p : ascii -> bool) : bool := forallb (fun c => negb (p c && is_ident c)) all_ascii.
Definition all_ident (p : ascii -> bool) : bool := forallb (fun c => negb (is_ident c) || p c) all_ascii.
Definition last_plain (l : text) : bool := match rev l with c :: _ => negb (is_ident c) | [] => false end.

(** [hard]: every match is tidy; [soft]: every match is tidy or empty. *)
Fixpoint soft_hard (lk : rule -> bool) (r : ex) : bool * bool :=
  match r with
  | Eps | Bof => (true, false)
  | Chr p => (no_ident p, no_ident p)
  | Str l => (last_plain l, last_plain l)
  | Utf8 _ _ => (false, false)
  | Eof => (true, true)
  | Seq a b => let '(sb, hb) := soft_hard lk b in
               if hb then (true, true) else if sb then soft_hard lk a else (false, false)
  | Sor a b => let '(sa, ha) := soft_hard lk a in let '(sb, hb) := soft_hard lk b in (sa && sb, ha && hb)
  | Star a => match a with
              | Chr p => let '(sa, _) := soft_hard lk a in (all_ident p || sa, all_ident p)
              | _ => let '(sa, _) := soft_hard lk a in (sa, false)
              end
  | NotAt a => match a with Chr p => (true, all_ident p) | _ => (true, false) end
  | Must _ a => soft_hard lk a
  | Ref k => (lk k, lk k)
  end.
Fixpoint hard_rules (rs : list rule) (n : nat) : list rule :=
  match n with
  | O => []
  | S n => let l := hard_rules rs n in List.filter (fun k => snd (soft_hard (fun k => existsb (rule_eqb k) l) (grammar k))) rs
  end.
Definition hard_rule (rs : list rule) (n : nat) : rule -> bool := let l := hard_rules rs n in fun k => existsb (rule_eqb k) l.

Lemma no_ident_spec p c : no_ident p = true -> p c = true -> is_ident c = false.
Proof.
  intros H Hc. unfold no_ident in H. rewrite forallb_forall in H. specialize (H c (all_ascii_complete c)). rewrite Hc in H.
  cbn in H. destruct (is_ident c); [discriminate|reflexivity].
Qed.
Lemma all_ident_spec p c : all_ident p = true -> p c = false -> is_ident c = false.
Proof.
  intros H Hc. unfold all_ident in H. rewrite forallb_forall in H. specialize (H c (all_ascii_complete c)). rewrite Hc in H.
  destruct (is_ident c); [discriminate|reflexivity].
Qed.
Lemma tidy_app a b s : tidy b s -> tidy (a ++ b) s.
Proof. intros [H|(u & c & -> & H)]; [left; exact H|right]. exists (a ++ u), c. split; [apply app_assoc|exact H]. Qed.

Definition soft_at (t s' : text) : Prop := t = [] \/ tidy t s'.
Definition claim (lk : rule -> bool) (r : ex) : Prop := forall o s ns o' s' t, M r o s (Match ns o' s') -> s = t ++ s' ->
  (fst (soft_hard lk r) = true -> soft_at t s') /\ (snd (soft_hard lk r) = true -> tidy t s').

Lemma consumed r o s ns o' s' : M r o s (Match ns o' s') -> exists t, s = t ++ s'.
Proof. intro H. destruct (matches_consumes _ _ _ _ _ _ H _ _ _ eq_refl) as (t & -> & _). eauto. Qed.

Lemma nothing (t s : text) : s = t ++ s -> t = [].
Proof. intro H. apply (f_equal (@length _)) in H. rewrite app_length in H. destruct t; [reflexivity|cbn in H; lia]. Qed.

Lemma claim_seq lk a b : claim lk a -> claim lk b -> claim lk (a >> b).
Proof.
  intros Ha Hb o s ns o' s' t H E. apply seq_inv in H as (n1 & o1 & s1 & n2 & H1 & H2 & ->).
  destruct (consumed _ _ _ _ _ _ H1) as (t1 & E1). destruct (consumed _ _ _ _ _ _ H2) as (t2 & E2).
  assert (t = t1 ++ t2) as -> by (apply (app_inv_tail s'); rewrite <- app_assoc; rewrite <- E2, <- E1; symmetry; exact E).
  destruct (Ha _ _ _ _ _ _ H1 E1) as [A1 A2]. destruct (Hb _ _ _ _ _ _ H2 E2) as [B1 B2]. cbn [soft_hard].
  destruct (soft_hard lk a) as [sa ha]. destruct (soft_hard lk b) as [sb hb]. cbn [fst snd] in *.
  destruct hb; [|destruct sb; [|split; discriminate]].
  - split; intros _; [right|]; apply tidy_app; auto.
  - cbn [fst snd]. destruct (B1 eq_refl) as [->|B].
    + cbn in E2. subst s1. rewrite app_nil_r. auto.
    + split; intros _; [right|]; apply tidy_app; exact B.
Qed.

Lemma claim_star lk a : claim lk a -> fst (soft_hard lk a) = true -> forall o s ns o' s' t, M (Star a) o s (Match ns o' s') -> s = t ++ s' -> soft_at t s'.
Proof.
  intros Ha X o s ns o' s' t H. apply star_inv in H. revert t.
  induction H as [o s F|o s n1 o1 s1 n2 o2 s2 A R IH]; intros t E.
  - left. apply (nothing t s). exact E.
  - destruct (consumed _ _ _ _ _ _ A) as (t1 & E1).
    assert (exists t2, s1 = t2 ++ s2) as (t2 & E2).
    { clear -R. induction R as [o s F|o s n1 o1 s1 n2 o2 s2 A R (u & ->)]; [exists []; reflexivity|].
      destruct (consumed _ _ _ _ _ _ A) as (v & ->). exists (v ++ u). apply app_assoc. }
    assert (t = t1 ++ t2) as -> by (apply (app_inv_tail s2); rewrite <- app_assoc; rewrite <- E2, <- E1; symmetry; exact E).
    destruct (IH _ E2) as [->|T]; [|right; apply tidy_app; exact T]. cbn in E2. subst s2. rewrite app_nil_r.
    apply (Ha _ _ _ _ _ _ A E1). exact X.
Qed.

Lemma soft_hard_sound lk (Hlk : forall k, lk k = true -> forall o s ns o' s' t, M (Ref k) o s (Match ns o' s') -> s = t ++ s' -> tidy t s') :
  forall r, claim lk r.
Proof.
  induction r as [|p|l|lo hi| | |a IHa b IHb|a IHa b IHb|a IHa|a IHa|msg a IHa|k]; try (apply claim_seq; assumption); intros o s ns o' s' t H E; cbn [soft_hard].
  - revert E. inversion H; subst. intro E. split; [|discriminate]. intros _. left. exact (nothing _ _ E).
  - apply chr_inv in H as (c & -> & Hc & _ & _). change (c :: s') with ([c] ++ s') in E. apply app_inv_tail in E. subst t.
    assert (no_ident p = true -> tidy [c] s') as T by (intro X; right; exists [], c; split; [reflexivity|eapply no_ident_spec; eassumption]).
    cbn [fst snd]. split; [intro X; right|intro X]; auto.
  - apply str_inv in H as (-> & _ & _). apply app_inv_tail in E. subst t.
    assert (last_plain l = true -> tidy l s') as T.
    { unfold last_plain. destruct (rev l) as [|c r] eqn:R; [discriminate|]. intro X. right. exists (rev r), c.
      split; [|apply negb_true_iff; exact X]. rewrite <- (rev_involutive l), R. reflexivity. }
    cbn [fst snd]. split; [intro X; right|intro X]; auto.
  - split; discriminate.
  - clear E. inversion H; subst. cbn. split; intros _; [right|]; left; exact I.
  - revert E. inversion H; subst. intro E. split; [|discriminate]. intros _. left. exact (nothing _ _ E).
  - destruct (soft_hard lk a) as [sa ha] eqn:Ea. destruct (soft_hard lk b) as [sb hb] eqn:Eb. unfold claim in *. rewrite Ea in IHa. rewrite Eb in IHb. cbn [fst snd] in *.
    apply sor_inv in H as [H|[_ H]].
    + destruct (IHa _ _ _ _ _ _ H E) as [A1 A2]. split; intro X; apply andb_true_iff in X as [X Y]; auto.
    + destruct (IHb _ _ _ _ _ _ H E) as [A1 A2]. split; intro X; apply andb_true_iff in X as [X Y]; auto.
  - assert (fst (soft_hard lk a) = true -> soft_at t s') as S by (intro X; eapply claim_star; eassumption).
    assert (forall p, a = Chr p -> all_ident p = true -> tidy t s') as T.
    { intros p -> X. left. apply star_inv in H. clear -H X.
      induction H as [o s F|o s n1 o1 s1 n2 o2 s2 A R IH]; [|exact IH].
      apply chr_fail_inv in F. destruct s as [|c s]; [exact I|]. cbn [head_not] in *. eapply all_ident_spec; eassumption. }
    destruct a; cbn [soft_hard] in *; try (split; [exact S|discriminate]);
      try (match goal with |- context [let '(sa, _) := ?x in _] => destruct x as [sa ha] end; cbn [fst snd] in *; split; [exact S|discriminate]).
    cbn [fst snd] in *. split; [|apply (T _ eq_refl)]. intro X. apply orb_true_iff in X as [X|X]; [right; apply (T _ eq_refl X)|auto].
  - apply not_inv in H as (F & -> & -> & ->). apply nothing in E. subst t.
    destruct a; cbn [fst snd]; (split; [left; reflexivity|]); try discriminate.
    intro X. left. apply chr_fail_inv in F. destruct s as [|c s]; [exact I|]. cbn [head_not] in *. eapply all_ident_spec; eassumption.
  - apply must_inv in H. apply (IHa _ _ _ _ _ _ H E).
  - cbn [fst snd]. split; [intro X; right|intro X]; eapply Hlk; eassumption.
Qed.

Lemma hard_rule_sound rs n : forall k, hard_rule rs n k = true -> forall o s ns o' s' t, M (Ref k) o s (Match ns o' s') -> s = t ++ s' -> tidy t s'.
Proof.
  induction n as [|n IH]; intros k Hk; [discriminate|]. unfold hard_rule in Hk. apply existsb_exists in Hk as (k' & Hk & E').
  destruct (rule_eqb_spec k k') as [<-|]; [|discriminate]. cbn [hard_rules] in Hk. apply filter_In in Hk as [_ Hk].
  intros o s ns o' s' t H E.
  apply ref_inv in H as (ks & u & H & _ & _ & _). apply (soft_hard_sound _ IH _ _ _ _ _ _ _ H E). exact Hk.
Qed.
Definition last_rules : list rule :=
  [R_directives; R_directive; R_directive_name; R_arguments; R_selection_set; R_named_type; R_interface_type; R_union_type; R_directive_location;
   R_scalar_name; R_object_name; R_interface_name; R_union_name; R_enum_name; R_fields_definition; R_input_fields_definition;
   R_operation_definition; R_fragment_definition; R_schema_definition; R_scalar_type_definition; R_object_type_definition;
   R_interface_type_definition; R_union_type_definition; R_enum_type_definition; R_input_object_type_definition; R_directive_definition;
   R_schema_extension; R_scalar_type_extension; R_object_type_extension; R_interface_type_extension; R_union_type_extension;
   R_enum_type_extension; R_input_object_type_extension].
Lemma tidy_match r : snd (soft_hard (hard_rule last_rules 4) r) = true -> forall o s ns o' s' t, M r o s (Match ns o' s') -> s = t ++ s' -> tidy t s'.
Proof. intros Hr o s ns o' s' t H E. apply (soft_hard_sound _ (hard_rule_sound last_rules 4) _ _ _ _ _ _ _ H E). exact Hr. Qed.
End Tidy.

Lemma definitions_tidy : snd (soft_hard (hard_rule last_rules 4) g_mixed_definition) = true.
Proof. vm_compute. reflexivity. Qed.

(** ** What is heard of a description. *)
Section Heard.
Variable sel : rule -> keeps.
Hypothesis Hsel : forall r, ast_keeps r = true -> sel r = Keep.
Variable unescape_j : string -> string.
Notation M := (matches grammar sel).
Notation heard := (heard unescape_j).
Notation unescaped_view := (unescaped_view unescape_j).
Notation "'quote'" := (""""%char) (only parsing).

Definition first_heard (ns : list (node rule)) : string := match ns with x :: _ => unescaped_view x | [] => ""%string end.

Lemma star_intro a o s ns o' s' : rounds sel a o s ns o' s' -> M (Star a) o s (Match ns o' s').
Proof.
  induction 1 as [o s F|o s n1 o1 s1 n2 o2 s2 A R IH]; [apply m_star_end; exact F|].
  apply (m_star _ _ a o s n1 o1 s1 (Match n2 o2 s2)); assumption.
Qed.

Definition continuation (c : N) : bool := forallb (fun a => N.leb 128 (byte a)) (tl (utf8 c)).
Lemma all_continue : for_codes continuation = true.
Proof. vm_compute. reflexivity. Qed.
Lemma utf8_tail c : (c <= 65535)%N -> Forall (fun a => (128 <= byte a)%N) (tl (utf8 c)).
Proof.
  intro H. pose proof (for_codes_all _ all_continue c H) as X. unfold continuation in X. rewrite forallb_forall in X.
  apply Forall_forall. intros a Ha. apply N.leb_le. auto.
Qed.
Lemma high_not_backslash a : (128 <= byte a)%N -> Ascii.eqb a "\"%char = false.
Proof. intro H. destruct (Ascii.eqb_spec a "\"%char) as [->|]; [|reflexivity]. exfalso. revert H. vm_compute. intro H. apply H. reflexivity. Qed.
Lemma plain_bytes u : ParseStrings.plain u -> Forall (fun a => Ascii.eqb a "\"%char = false) u.
Proof.
  intro H. pose proof (plain_head _ H) as (a & r & E & N1 & _). destruct H as [(c & Hc & _ & _ & ->)|[->| ->]]; [|repeat constructor..].
  pose proof (utf8_tail c ltac:(destruct Hc; lia)) as T. rewrite E in *. cbn [tl] in T.
  constructor; [apply ParseStrings.eqb_neq; exact N1|]. eapply Forall_impl; [|exact T]. intros b Hb. apply high_not_backslash. exact Hb.
Qed.

Lemma plain_run_app u t : Forall (fun a => Ascii.eqb a "\"%char = false) u -> plain_run (u ++ t) = u ++ plain_run t.
Proof. induction 1 as [|a u Ha _ IH]; [reflexivity|]. cbn [app plain_run]. rewrite Ha, IH. reflexivity. Qed.
Lemma heard_plain u t : Forall (fun a => Ascii.eqb a "\"%char = false) u -> u <> [] -> heard (u ++ t) = str (plain_run (u ++ t)).
Proof.
  intros H Hu. destruct u as [|a u]; [congruence|]. apply Forall_inv in H. cbn [app]. unfold SdlSpec.heard. rewrite H. destruct (u ++ t); reflexivity.
Qed.

Lemma unescaped_same c : In c [""""; "\"; "/"; "b"; "f"; "n"; "r"; "t"]%char -> unescaped_char c = ParseStringSpec.escaped c.
Proof. cbn. intuition subst; reflexivity. Qed.

Lemma units_more o s ns o' s' : M (Star unit_) o s (Match ns o' s') ->
  ns = [] /\ exists t, s = t ++ s' /\ Forall (fun a => Ascii.eqb a "\"%char = false) t /\ M unit_ o' s' Fail.
Proof.
  intro H. apply star_inv in H. induction H as [o s F|o s n1 o1 s1 n2 o2 s2 A R [-> (t & -> & Ht & F)]].
  - split; [reflexivity|]. exists []. auto.
  - apply unit_inv in A as (u & -> & -> & -> & Hu & _). split; [reflexivity|]. exists (u ++ t).
    split; [apply app_assoc|]. split; [apply Forall_app; split; [apply plain_bytes; exact Hu|exact Ht]|exact F].
Qed.

Lemma more_run o s ns o' s' : M (Star more_unicode) o s (Match ns o' s') ->
  exists t, s = t ++ s' /\ forall r, escapes_run (t ++ r) = t ++ escapes_run r.
Proof.
  intro H. apply star_inv in H. induction H as [o s F|o s n1 o1 s1 n2 o2 s2 A R (t & -> & IH)].
  - exists []. auto.
  - apply seq_inv in A as (m1 & p1 & q1 & m2 & A & B & ->). apply codepoint_inv in B as (-> & -> & h1 & h2 & h3 & h4 & -> & C).
    apply seq_inv in A as (m3 & p2 & q2 & m4 & A & B & ->). apply one_inv in A as (c & -> & [<-|[]] & -> & ->).
    apply one_inv in B as (c & -> & [<-|[]] & -> & ->).
    exists ("\"%char :: "u"%char :: h1 :: h2 :: h3 :: h4 :: t). split; [reflexivity|]. intro r. cbn [app escapes_run]. rewrite IH. reflexivity.
Qed.

Lemma quoted_no_run t d o rest : quoted false t d -> M more_unicode o (t ++ quote :: rest) Fail -> escapes_run t = [].
Proof.
  intros H F. inversion H as [|a c t' d' Hc N1 N2 Ht|a c t' d' Hc Ht|a c t' d' Hc Ht|a h1 h2 h3 h4 t' d' A B C D Ht]; subst.
  - reflexivity.
  - destruct (plain_head (utf8 c)) as (x & r & -> & N & _); [left; eauto|]. cbn [app escapes_run].
    destruct (r ++ t') as [|? [|? [|? [|? [|? ?]]]]]; try reflexivity. rewrite (proj2 (Ascii.eqb_neq _ _) N). reflexivity.
  - destruct Hc as [->| ->]; destruct t' as [|? [|? [|? [|? [|? ?]]]]]; reflexivity.
  - destruct t' as [|? [|? [|? [|? ?]]]]; try reflexivity. cbn [escapes_run]. rewrite Ascii.eqb_refl. cbn [andb].
    rewrite (proj2 (Ascii.eqb_neq c "u"%char)); [reflexivity|]. intros ->. cbn in Hc. intuition discriminate.
  - exfalso. pose proof (quoted_true sel _ _ o (quote :: rest) H F) as Q.
    assert (acc sel more_unicode o ("\"%char :: "u"%char :: [h1; h2; h3; h4]) (t' ++ quote :: rest) []) as X.
    { apply (acc_seq sel _ _ o ["\"%char; "u"%char] [h1; h2; h3; h4] _ [] []); [|apply acc_codepoint; assumption].
      apply (acc_seq sel _ _ o ["\"%char] ["u"%char] _ [] []); apply acc_one; left; reflexivity. }
    pose proof (matches_det _ _ _ _ _ _ _ F X). discriminate.
Qed.

Lemma quoted_no_chars t d o rest : quoted false t d -> M unit_ o (t ++ quote :: rest) Fail -> plain_run t = [].
Proof.
  intros H F. inversion H as [|a c t' d' Hc N1 N2 Ht|a c t' d' Hc Ht|a c t' d' Hc Ht|a h1 h2 h3 h4 t' d' A B C D Ht]; subst; try reflexivity.
  - exfalso. assert (ParseStrings.plain (utf8 c)) as P by (left; eauto).
    pose proof (acc_unit sel _ o (t' ++ quote :: rest) P) as X. rewrite <- app_assoc in F. apply (matches_det _ _ _ _ _ _ _ F) in X; [discriminate|].
    intros _. eapply quoted_head. exact Ht.
  - exfalso. assert (ParseStrings.plain [c]) as P by (destruct Hc as [->| ->]; [right; left|right; right]; reflexivity).
    pose proof (acc_unit sel _ o (t' ++ quote :: rest) P) as X. apply (matches_det _ _ _ _ _ _ _ F) in X; [discriminate|].
    intros _. eapply quoted_head. exact Ht.
Qed.

Lemma pieces_heard o s ns o' rest : M (Star ParseStrings.piece) o s (Match ns o' (quote :: rest)) ->
  forall t, s = t ++ quote :: rest -> heard t = first_heard ns.
Proof.
  intros H t E. apply star_inv in H. revert E.
  inversion H as [p s0 F|p s0 n1 o1 s1 n2 o2 s2 A R]; subst; intro E.
  { apply (nothing t) in E. subst t. reflexivity. }
  apply star_intro in R. apply pieces_inv in R as (v & -> & -> & Q); [|exact Hsel].
  apply sor_inv in A as [A|[_ A]].
  - apply seq_inv in A as (m1 & p1 & q1 & m2 & A & B & ->). apply one_inv in A as (c & Ec & [<-|[]] & -> & ->).
    apply must_inv in B. apply sor_inv in B as [B|[_ B]].
    + apply keep_inv in B as (ks & u & B & -> & Eo & ->); [|apply keeps_unicode; exact Hsel].
      apply seq_inv in B as (m3 & p2 & q2 & m4 & B1 & B & ->). apply one_inv in B1 as (c & E2 & [<-|[]] & -> & ->).
      apply must_inv in B. apply seq_inv in B as (m5 & p3 & q3' & m6 & B1 & B & ->).
      apply codepoint_inv in B1 as (-> & -> & h1 & h2 & h3 & h4 & -> & C1 & C2 & C3 & C4).
      pose proof B as B'. apply more_run in B' as (x & Ex & Hx). apply more_inv in B as (-> & x' & Ex' & _ & F & _).
      assert (x' = x) as -> by (rewrite Ex in Ex'; apply app_inv_tail in Ex'; symmetry; exact Ex'). clear Ex'. subst q3'.
      assert (u = "u"%char :: h1 :: h2 :: h3 :: h4 :: x) as ->.
      { change ("u"%char :: h1 :: h2 :: h3 :: h4 :: x ++ v ++ quote :: rest) with (("u"%char :: h1 :: h2 :: h3 :: h4 :: x) ++ (v ++ quote :: rest)) in E2.
        apply app_inv_tail in E2. exact E2. }
      assert (t = "\"%char :: ("u"%char :: h1 :: h2 :: h3 :: h4 :: x) ++ v) as ->.
      { apply (app_inv_tail (quote :: rest)). rewrite <- E, Ec. cbn. rewrite <- app_assoc. reflexivity. }
      cbn [app]. unfold SdlSpec.heard. rewrite !Ascii.eqb_refl.
      change (escapes_run ("\"%char :: "u"%char :: h1 :: h2 :: h3 :: h4 :: x ++ v)) with ("\"%char :: "u"%char :: h1 :: h2 :: h3 :: h4 :: escapes_run (x ++ v)).
      rewrite Hx, (quoted_no_run v _ _ rest Q F), app_nil_r. cbn [tl]. reflexivity.
    + apply keep_inv in B as (ks & u & B & -> & Eo & ->); [|apply keeps_char; exact Hsel].
      apply one_inv in B as (c & E2 & Hc & -> & _). change (c :: v ++ quote :: rest) with ([c] ++ (v ++ quote :: rest)) in E2. apply app_inv_tail in E2. subst u.
      assert (t = "\"%char :: c :: v) as -> by (apply (app_inv_tail (quote :: rest)); rewrite <- E, Ec; reflexivity).
      unfold SdlSpec.heard. rewrite Ascii.eqb_refl. rewrite (proj2 (Ascii.eqb_neq c "u"%char)); [|intros ->; cbn in Hc; intuition discriminate].
      cbn [app first_heard]. unfold SdlTree.unescaped_view. cbn [n_type n_content]. rewrite unescaped_same by exact Hc. reflexivity.
  - apply keep_inv in A as (ks & u & B & Eu & Eo & ->); [|apply keeps_quote; exact Hsel].
    apply seq_inv in B as (m3 & p2 & q2 & m4 & B1 & B & ->). apply unit_inv in B1 as (y & E1 & -> & -> & Hy & _).
    apply units_more in B as (-> & x & -> & Hx & F).
    assert (u = y ++ x) as -> by (apply (app_inv_tail (v ++ quote :: rest)); rewrite <- Eu, E1, app_assoc; reflexivity).
    assert (t = (y ++ x) ++ v) as -> by (apply (app_inv_tail (quote :: rest)); rewrite <- E, E1, <- !app_assoc; reflexivity).
    assert (Forall (fun a => Ascii.eqb a "\"%char = false) (y ++ x)) as P by (apply Forall_app; split; [apply plain_bytes; exact Hy|exact Hx]).
    rewrite heard_plain; [|exact P|destruct (plain_head _ Hy) as (a & r & -> & _); discriminate].
    rewrite plain_run_app by exact P. rewrite (quoted_no_chars v _ _ rest Q F), app_nil_r. reflexivity.
Qed.

Lemma quoted_heard o s ns o' s' : M g_string_quote o s (Match ns o' s') ->
  exists t, s = (quote :: t ++ [quote]) ++ s' /\ quoted false t (content ns) /\ heard t = first_heard ns.
Proof.
  intro H. pose proof H as H0. apply quoted_inv in H0 as (t & E & Q); [|exact Hsel]. exists t. split; [exact E|]. split; [exact Q|].
  apply seq_inv in H as (n1 & o1 & s1 & n2 & A & H & ->). apply one_inv in A as (c & -> & [<-|[]] & -> & ->).
  apply must_inv in H. apply seq_inv in H as (m1 & o2 & s2 & m2 & A & H & ->). apply must_inv in H.
  apply one_inv in H as (c & -> & [<-|[]] & -> & ->). cbn [app]. rewrite app_nil_r.
  eapply pieces_heard; [exact A|]. cbn in E. injection E as ->. rewrite <- app_assoc. reflexivity.
Qed.

(** Block strings. *)
Lemma not_escaped u s : ~ begins ("\"%char :: q3) (u ++ s) -> u <> [] -> quotes_escaped (u ++ s) = false.
Proof.
  intros H Hu. unfold quotes_escaped. destruct (list_eq_dec _ _ _) as [E|]; [|reflexivity]. exfalso. apply H.
  exists (skipn 4 (u ++ s)). rewrite <- E. symmetry. apply firstn_skipn.
Qed.
Lemma not_escaped_here a s : Ascii.eqb a "\"%char = false -> quotes_escaped (a :: s) = false.
Proof.
  intro H. unfold quotes_escaped. destruct (list_eq_dec _ _ _) as [E|]; [|reflexivity]. exfalso. cbn in E. injection E as -> _. cbn in H. discriminate.
Qed.
Lemma source_tail u : source u -> exists a r, u = a :: r /\ Forall (fun a => Ascii.eqb a "\"%char = false) r.
Proof.
  intros [(c & Hc & ->)|[->|[->| ->]]]; [|eexists _, []; split; [reflexivity|constructor]..].
  pose proof (utf8_tail c ltac:(destruct Hc; lia)) as T. destruct (utf8_head c ltac:(destruct Hc; lia)) as (a & r & E & _). rewrite E in T.
  exists a, r. split; [exact E|]. eapply Forall_impl; [|exact T]. intros b Hb. apply high_not_backslash. exact Hb.
Qed.
Lemma plain_block_unit u after t rest : block_source u (t ++ rest) -> after = t ++ rest -> rest = q3 ++ skipn 3 rest ->
  plain_block (u ++ t) = u ++ plain_block t /\ quotes_escaped (u ++ t) = false.
Proof.
  intros (Hs & _ & Hb) _ Hr. destruct (source_tail _ Hs) as (a & r & -> & F).
  assert (quotes_escaped ((a :: r) ++ t) = false) as Q.
  { unfold quotes_escaped. destruct (list_eq_dec _ _ _) as [E|]; [|reflexivity]. exfalso. apply Hb.
    exists (skipn 4 ((a :: r) ++ t) ++ rest). rewrite <- E. rewrite !app_assoc. rewrite firstn_skipn. reflexivity. }
  split; [|exact Q]. cbn [app] in *. cbn [plain_block]. rewrite Q. f_equal. clear Q Hb Hs.
  induction F as [|b r Hb _ IH]; [reflexivity|]. cbn [app plain_block]. rewrite not_escaped_here by exact Hb. rewrite IH. reflexivity.
Qed.

Lemma block_units_more o s ns o' s' : M (Star block_unit) o s (Match ns o' s') -> forall t rest, s = t ++ q3 ++ rest ->
  forall v, s' = v ++ q3 ++ rest -> exists x, t = x ++ v /\ plain_block t = x ++ plain_block v /\ M block_unit o' s' Fail.
Proof.
  intro H. apply star_inv in H. induction H as [o s F|o s n1 o1 s1 n2 o2 s2 A R IH]; intros t rest E v Ev.
  - assert (t = v) as -> by (apply (app_inv_tail (q3 ++ rest)); rewrite <- E; exact Ev). exists []. auto.
  - apply block_unit_inv in A as (u & -> & -> & -> & Hu); [|exact Hsel].
    assert (exists v', s1 = v' ++ q3 ++ rest) as (v' & Ev').
    { apply star_intro in R. apply consumed in R as (x & ->). rewrite Ev. exists (x ++ v). rewrite <- app_assoc. reflexivity. }
    destruct (IH v' rest Ev' v Ev) as (x & -> & P & F).
    assert (t = u ++ x ++ v) as -> by (apply (app_inv_tail (q3 ++ rest)); rewrite <- E, Ev', <- !app_assoc; reflexivity).
    exists (u ++ x). split; [apply app_assoc|]. split; [|exact F]. rewrite Ev' in Hu.
    destruct (plain_block_unit u _ (x ++ v) (q3 ++ rest) Hu eq_refl eq_refl) as [-> _]. rewrite P. apply app_assoc.
Qed.

Lemma block_no_chars t o rest : block_chars t -> M block_unit o (t ++ q3 ++ rest) Fail -> plain_block t = [].
Proof.
  intros H F. inversion H as [|c t' Hc N1 N2 Ht|t' Ht]; subst; [reflexivity| |reflexivity].
  exfalso. assert (block_source (utf8 c) (t' ++ q3 ++ rest)) as B.
  { split; [apply source_of_block; exact Hc|].
    assert (forall p, length p <= 4 -> p <> [] -> ~ begins p (utf8 c ++ t' ++ q3) -> ~ begins p (utf8 c ++ t' ++ q3 ++ rest)) as X.
    { intros p Hp Hne N B. apply N. replace (utf8 c ++ t' ++ q3 ++ rest) with ((utf8 c ++ t' ++ q3) ++ rest) in B by (rewrite <- !app_assoc; reflexivity).
      eapply begins_cut; [|exact B].
      rewrite !app_length. pose proof (source_nonempty _ (source_of_block c Hc)). destruct (utf8 c); [congruence|]. cbn. lia. }
    split; apply X; try assumption; try (cbn; lia); discriminate. }
  pose proof (acc_block_unit sel _ o _ B) as X. rewrite <- app_assoc in F. pose proof (matches_det _ _ _ _ _ _ _ F X). discriminate.
Qed.

Lemma block_heard o s ns o' s' : M g_block_quote o s (Match ns o' s') ->
  exists t, s = (q3 ++ t ++ q3) ++ s' /\ block_chars t /\ heard_block t = first_heard ns.
Proof.
  intro H. pose proof H as H0. apply block_inv in H0 as (t & E & Q & _); [|exact Hsel]. exists t. split; [exact E|]. split; [exact Q|].
  apply seq_inv in H as (n1 & o1 & s1 & n2 & A & H & ->). apply q3_inv in A as (-> & -> & ->).
  apply must_inv in H. apply seq_inv in H as (m1 & o2 & s2 & m2 & A & H & ->). apply must_inv in H.
  apply q3_inv in H as (-> & -> & ->). cbn [app]. rewrite app_nil_r.
  assert (s1 = t ++ q3 ++ s') as -> by (apply (app_inv_head q3); rewrite E, <- !app_assoc; reflexivity). clear E.
  apply star_inv in A. remember (t ++ q3 ++ s') as s0 eqn:Es. remember (q3 ++ s') as s5 eqn:Es5. revert Es Es5.
  destruct A as [p s0 F|p s0 n3 o3 s3 n4 o4 s4 B R]; intros Es Es5.
  { apply (nothing t) in Es. subst t. reflexivity. }
  subst s0 s4.
  apply star_intro in R. eapply block_pieces_inv in R as (v & -> & -> & Hv & _); [|exact Hsel|reflexivity].
  apply sor_inv in B as [B|[_ B]].
  - apply keep_inv in B as (ks & u & B & E & Eo & ->); [|apply keeps_bescape; exact Hsel].
    apply seq_inv in B as (k1 & p1 & q1 & k2 & B1 & B & ->). apply one_inv in B1 as (c & E1 & [<-|[]] & -> & ->).
    apply q3_inv in B as (-> & -> & _).
    assert (t = ("\"%char :: q3) ++ v) as -> by (apply (app_inv_tail (q3 ++ s')); rewrite E1, <- !app_assoc; reflexivity).
    reflexivity.
  - apply keep_inv in B as (ks & u & B & E & Eo & ->); [|apply keeps_bquote; exact Hsel].
    apply seq_inv in B as (k1 & p1 & q1 & k2 & B1 & B & ->). apply block_unit_inv in B1 as (y & E1 & -> & -> & Hy); [|exact Hsel].
    assert (exists w, q1 = w ++ q3 ++ s') as (w & Ew).
    { apply consumed in B as (x & ->). exists (x ++ v). rewrite <- app_assoc. reflexivity. }
    destruct (block_units_more _ _ _ _ _ B w s' Ew v eq_refl) as (x & -> & P & F). rewrite Ew in Hy.
    assert (t = y ++ x ++ v) as -> by (apply (app_inv_tail (q3 ++ s')); rewrite E1, Ew, <- !app_assoc; reflexivity).
    assert (u = y ++ x) as -> by (apply (app_inv_tail (v ++ q3 ++ s')); rewrite <- E, <- !app_assoc; reflexivity).
    destruct (plain_block_unit y _ (x ++ v) (q3 ++ s') Hy eq_refl eq_refl) as [P1 P2].
    unfold heard_block. rewrite P2, P1, P. rewrite (block_no_chars v _ s' Hv F), app_nil_r. reflexivity.
Qed.

Lemma string_heard o s ns o' s' : M g_string_value o s (Match ns o' s') ->
  (exists t d, s = (quote :: t ++ [quote]) ++ s' /\ quoted false t d /\ heard t = first_heard ns)
  \/ (exists t, s = (q3 ++ t ++ q3) ++ s' /\ block_chars t /\ heard_block t = first_heard ns).
Proof.
  intro H. apply sor_inv in H as [H|[_ H]]; [right; apply block_heard in H; exact H|left].
  apply quoted_heard in H as (t & E & Q & Hh). eauto.
Qed.
End Heard.
