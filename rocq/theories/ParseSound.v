(** Whatever the parser accepts is a spelling of what its tree is read as: values, arguments, directives, types. *)
From Coq Require Import String Ascii NArith ZArith Bool List Lia.
From Verif Require Import Cpp Value Ast.
From Verif Require Export ParseDocument.
Import ListNotations.
Local Open Scope list_scope.

Section Inv.
Variable sel : rule -> keeps.
Notation M := (matches grammar sel).

Lemma nonempty r o s ns o' s' : empty_ok nb r = false -> M r o s (Match ns o' s') -> length s' < length s.
Proof. intros E H. eapply (matches_nonempty grammar sel nb rank top sz grammar_well_formed); [exact H|exact E|reflexivity]. Qed.

(** [Star ignored >> r]. *)
Lemma ignored_then_inv r o s ns o' s' : empty_ok nb r = false -> M (Star g_ignored >> r) o s (Match ns o' s') ->
  exists w s1, s = w ++ s1 /\ blanks w /\ M r (o + length w) s1 (Match ns o' s').
Proof.
  intros E H. apply seq_inv in H as (n1 & o1 & s1 & n2 & H1 & H2 & ->).
  apply blanks_inv_more in H1 as (-> & w & -> & -> & Hw); [|intros ->; apply nonempty in H2; [cbn in H2; lia|exact E]].
  exists w, s1. auto.
Qed.
Lemma some_ignored_then_inv r o s ns o' s' : empty_ok nb r = false -> M (plus g_ignored >> r) o s (Match ns o' s') ->
  exists w s1, s = w ++ s1 /\ some_blanks w /\ M r (o + length w) s1 (Match ns o' s').
Proof.
  intros E H. apply seq_inv in H as (n1 & o1 & s1 & n2 & H1 & H2 & ->).
  apply some_blanks_inv in H1 as (-> & w & -> & -> & Hw); [|intros ->; apply nonempty in H2; [cbn in H2; lia|exact E]].
  exists w, s1. auto.
Qed.

Lemma some_sep r : empty_ok nb r = false -> forall o s ns o' s', M (plus g_ignored >> r) o s (Match ns o' s') ->
  exists w s1, s = w ++ s1 /\ some_blanks w /\ M r (o + length w) s1 (Match ns o' s').
Proof. intros E o s ns o' s'. apply some_ignored_then_inv. exact E. Qed.

Lemma brackets_inv open close mo mi inner o s ns o' s' :
  M (one [open] >> Must mo (Star g_ignored >> inner >> Star g_ignored >> Must mi (one [close]))) o s (Match ns o' s') ->
  exists w1 s1 o2 w2, s = open :: w1 ++ s1 /\ blanks w1 /\ blanks w2
    /\ M inner (o + 1 + length w1) s1 (Match ns o2 (w2 ++ close :: s')).
Proof.
  intro H. apply seq_inv in H as (n1 & o1 & s1 & n2 & H1 & H2 & ->). apply one_inv in H1 as (c & -> & [<-|[]] & -> & ->).
  apply must_inv in H2. apply ignored_then_inv in H2 as (w1 & s2 & -> & Hw1 & H2); [|cbn; rewrite andb_false_r; reflexivity].
  apply seq_inv in H2 as (n3 & o3 & s3 & n4 & H2 & H3 & ->). apply ignored_then_inv in H3 as (w2 & s4 & -> & Hw2 & H3); [|reflexivity].
  apply must_inv in H3. apply one_inv in H3 as (c & -> & [<-|[]] & -> & ->). rewrite app_nil_r in *.
  exists w1, s2, o3, w2. auto.
Qed.

Section Items.
Context {A : Type}.
Variable P : nat -> A -> text -> Prop.
Variable r : ex.
Variable rd : node rule -> option A.

Definition sound_below (N : nat) : Prop := forall o s ns o' s', M r o s (Match ns o' s') -> length s < N ->
  exists x t n, s = t ++ s' /\ o' = o + length t /\ ns = [n] /\ P o x t /\ rd n = Some x.

Variable N : nat.
Hypothesis Hr : sound_below N.
Hypothesis Hne : empty_ok nb r = false.

Section Sep.
Variable sep_rule : ex.
Variable sep : text -> Prop.
Hypothesis Hsep : forall o s ns o' s', M (sep_rule >> r) o s (Match ns o' s') ->
  exists w s1, s = w ++ s1 /\ sep w /\ M r (o + length w) s1 (Match ns o' s').

Lemma items_inv o s ns o' s' : M (list_of r sep_rule) o s (Match ns o' s') -> length s < N ->
  exists xs t, s = t ++ s' /\ o' = o + length t /\ items sep P o xs t /\ all rd ns = Some xs.
Proof.
  intros H Hl. apply seq_inv in H as (n1 & o1 & s1 & n2 & H1 & H2 & ->).
  destruct (Hr _ _ _ _ _ H1 Hl) as (x & t & n & -> & -> & -> & Hx & Ex). apply star_inv in H2.
  rewrite app_length in Hl. assert (length s1 < N) as Hl1 by lia. clear Hl H1.
  assert (exists xs u, s1 = u ++ s' /\ o' = o + length t + length u /\ all rd n2 = Some xs /\ items sep P o (x :: xs) (t ++ u)) as
    (xs & u & -> & -> & E & Hi).
  2:{ exists (x :: xs), (t ++ u). split; [apply app_assoc|]. split; [rewrite app_length; lia|]. split; [exact Hi|]. cbn. rewrite Ex, E. reflexivity. }
  clear Ex n. remember (o + length t) as p eqn:Ep. revert o x t Hx Ep.
  induction H2 as [p s F|p s n1 o1 s2 n2 o2 s3 A1 R IH]; intros o x t Hx Ep.
  - exists [], []. cbn. rewrite !app_nil_r. split; [reflexivity|]. split; [lia|]. split; [reflexivity|]. constructor. exact Hx.
  - apply Hsep in A1 as (w & s4 & -> & Hw & A1). rewrite app_length in Hl1.
    destruct (Hr _ _ _ _ _ A1 ltac:(lia)) as (y & v & m & -> & -> & -> & Hy & Ey).
    rewrite app_length in Hl1. destruct (IH ltac:(lia) _ y v Hy eq_refl) as (xs & u & -> & -> & E & Hi).
    exists (y :: xs), (w ++ v ++ u). split; [rewrite <- !app_assoc; reflexivity|]. split; [rewrite !app_length; lia|].
    split; [cbn [app all]; rewrite Ey, E; reflexivity|]. subst p. constructor; assumption.
Qed.
End Sep.
End Items.

Lemma bracketed_inv {A} (P : nat -> A -> text -> Prop) r rd N (Hr : sound_below P r rd N) (Hne : empty_ok nb r = false)
  open close mo mi o s ns o' s' :
  M (one [open] >> Must mo (Star g_ignored >> list_of r (plus g_ignored) >> Star g_ignored >> Must mi (one [close]))) o s (Match ns o' s') ->
  length s <= N ->
  exists xs t, s = t ++ s' /\ bracketed open close P o xs t /\ all rd ns = Some xs.
Proof.
  intros H Hl. apply brackets_inv in H as (w1 & s1 & o2 & w2 & -> & H1 & H2 & H). cbn [length] in Hl. rewrite app_length in Hl.
  destruct (items_inv P r rd N Hr (plus g_ignored) some_blanks (some_sep r Hne) _ _ _ _ _ H ltac:(lia))
    as (xs & t & -> & -> & Hx & E).
  exists xs, (open :: w1 ++ t ++ w2 ++ [close]). split; [cbn; rewrite <- !app_assoc; reflexivity|]. split; [|exact E].
  constructor; assumption.
Qed.
End Inv.

Section Values.
Variable sel : rule -> keeps.
Hypothesis Hsel : forall r, ast_keeps r = true -> sel r = Keep.
Variable L : nat -> schema_location.
Variable atof : string -> spec_float.
Notation M := (matches grammar sel).
Notation value := (value L atof).
Notation read_value := (read_value L atof).
Notation read_argument := (read_argument L atof).

Lemma kept k o s ns o' s' : M (Ref k) o s (Match ns o' s') -> ast_keeps k = true ->
  exists ks t, M (grammar k) o s (Match ks o' s') /\ s = t ++ s' /\ o' = o + length t /\ ns = [Node k o t ks].
Proof. intros H E. apply (keep_inv sel); auto. Qed.

Lemma same_end (a b s : text) : a ++ s = b ++ s -> a = b.
Proof. apply app_inv_tail. Qed.

Lemma named_sound N (HV : sound_below sel value g_input_value_content read_value N)
  k kn (Hk : ast_keeps k = true) (Hkn : ast_keeps kn = true) m (Gn : grammar kn = g_name)
  (Gk : grammar k = (Ref kn >> Must m (Star g_ignored >> one [":"%char] >> Star g_ignored >> g_input_value))) :
  sound_below sel (A := argument) (named L value) (Ref k) read_argument N.
Proof.
  intros o s ns o' s' H Hl. apply kept in H as (ks & t & H & -> & -> & ->); [|exact Hk]. rewrite Gk in H.
  apply seq_inv in H as (n1 & o1 & s1 & n2 & H1 & H2 & ->). apply kept in H1 as (ks1 & t1 & H1 & E1 & -> & ->); [|exact Hkn].
  rewrite Gn in H1. rewrite E1 in H1. apply name_inv in H1 as (n & Hn & E2 & -> & _ & _). apply same_end in E2. subst t1.
  apply must_inv in H2. apply ignored_then_inv in H2 as (w1 & s2 & -> & Hw1 & H2); [|reflexivity].
  apply seq_inv in H2 as (n3 & o3 & s3 & n4 & H2 & H3 & ->). apply one_inv in H2 as (c & -> & [<-|[]] & -> & ->).
  apply ignored_then_inv in H3 as (w2 & s4 & -> & Hw2 & H3); [|reflexivity]. apply must_inv in H3.
  assert (length s4 < N) as Hl4 by (rewrite E1 in Hl; rewrite !app_length in Hl; cbn in Hl; rewrite app_length in Hl; lia).
  destruct (HV _ _ _ _ _ H3 Hl4) as (v & u & y & -> & Eo & -> & Hv & Ev).
  assert (t = chars n ++ w1 ++ ":"%char :: w2 ++ u) as ->.
  { apply (same_end _ _ s'). rewrite E1. rewrite <- !app_assoc. cbn. rewrite <- app_assoc. reflexivity. }
  exists (L o, (n, v)). eexists. eexists. split; [reflexivity|]. split; [reflexivity|]. split; [reflexivity|]. split.
  - constructor; assumption.
  - unfold TreeModel.read_argument. cbn [app front back n_children n_begin]. rewrite Ev. unfold text_of. cbn [n_content]. rewrite str_chars. reflexivity.
Qed.

Lemma no_keyword k n o s : M (keyword k) o (chars n ++ s) Fail -> ends s -> n <> k.
Proof. intros F E ->. pose proof (acc_keyword sel k o s E) as X. pose proof (matches_det _ _ _ _ _ _ _ F X). discriminate. Qed.
Lemma no_keyword_ref r k n o s : grammar r = keyword k -> M (Ref r) o (chars n ++ s) Fail -> ends s -> n <> k.
Proof.
  intros G F E. apply (no_keyword k n o s); [|exact E]. inversion F; subst. rewrite <- G. assumption.
Qed.

Lemma value_sound N : sound_below sel value g_input_value_content read_value N.
Proof.
  induction N as [|N IH]; intros o s ns o' s' H Hl; [lia|].
  apply sor_inv in H as [H|[_ H]].
  { (* list *)
    apply kept in H as (ks & t & H & -> & -> & ->); [|reflexivity].
    apply brackets_inv in H as (w1 & s1 & o2 & w2 & E & H1 & H2 & H).
    rewrite E in Hl. cbn [length] in Hl. rewrite app_length in Hl.
    apply opt_inv in H as [H|(_ & -> & -> & <-)].
    - apply (items_inv sel value g_input_value_content read_value N IH (plus g_ignored) some_blanks
        (some_sep sel g_input_value_content eq_refl)) in H as (xs & u & -> & -> & Hx & Ex); [|lia].
      assert (t = "["%char :: w1 ++ u ++ w2 ++ ["]"%char]) as -> by (apply (same_end _ _ s'); rewrite E; cbn; rewrite <- !app_assoc; reflexivity).
      exists (LList (L o) xs). eexists. eexists. split; [reflexivity|]. split; [reflexivity|]. split; [reflexivity|].
      split; [|rewrite read_list, Ex; reflexivity]. apply value_list. constructor; assumption.
    - assert (t = "["%char :: (w1 ++ w2) ++ ["]"%char]) as -> by (apply (same_end _ _ s'); rewrite E; cbn; rewrite <- !app_assoc; reflexivity).
      exists (LList (L o) []). eexists. eexists. split; [reflexivity|]. split; [reflexivity|]. split; [reflexivity|].
      split; [|reflexivity]. apply value_list_empty. apply blanks_app; assumption. }
  apply sor_inv in H as [H|[_ H]].
  { (* object *)
    apply kept in H as (ks & t & H & -> & -> & ->); [|reflexivity].
    apply brackets_inv in H as (w1 & s1 & o2 & w2 & E & H1 & H2 & H).
    rewrite E in Hl. cbn [length] in Hl. rewrite app_length in Hl.
    apply opt_inv in H as [H|(_ & -> & -> & <-)].
    - apply (items_inv sel (A := argument) (named L value) (Ref R_object_field) read_argument N
        (named_sound N IH R_object_field R_object_field_name eq_refl eq_refl _ eq_refl eq_refl) (plus g_ignored) some_blanks
        (some_sep sel (Ref R_object_field) eq_refl)) in H as (xs & u & -> & -> & Hx & Ex); [|lia].
      assert (t = "{"%char :: w1 ++ u ++ w2 ++ ["}"%char]) as -> by (apply (same_end _ _ s'); rewrite E; cbn; rewrite <- !app_assoc; reflexivity).
      exists (LObject (L o) xs). eexists. eexists. split; [reflexivity|]. split; [reflexivity|]. split; [reflexivity|].
      split; [|rewrite read_object, Ex; reflexivity]. apply value_object. constructor; assumption.
    - assert (t = "{"%char :: (w1 ++ w2) ++ ["}"%char]) as -> by (apply (same_end _ _ s'); rewrite E; cbn; rewrite <- !app_assoc; reflexivity).
      exists (LObject (L o) []). eexists. eexists. split; [reflexivity|]. split; [reflexivity|]. split; [reflexivity|].
      split; [|reflexivity]. apply value_object_empty. apply blanks_app; assumption. }
  apply sor_inv in H as [H|[_ H]].
  { (* variable *)
    apply kept in H as (ks & t & H & -> & -> & ->); [|reflexivity].
    apply seq_inv in H as (n1 & o1 & s1 & n2 & H1 & H2 & ->). apply one_inv in H1 as (c & E & [<-|[]] & -> & ->).
    apply must_inv in H2. apply name_inv in H2 as (n & Hn & -> & -> & _ & _).
    change ("$"%char :: chars n ++ s') with (("$"%char :: chars n) ++ s') in E. apply same_end in E. subst t.
    exists (LVar (L o) n). eexists. eexists. split; [reflexivity|]. split; [reflexivity|]. split; [reflexivity|].
    split; [constructor; exact Hn|]. cbn. unfold without_first. cbn [tl]. rewrite str_chars. reflexivity. }
  apply sor_inv in H as [H|[_ H]].
  { (* float *)
    apply kept in H as (ks & t & H & -> & -> & ->); [|reflexivity].
    apply seq_inv in H as (n1 & o1 & s1 & n2 & H1 & H2 & ->). apply int_inv in H1 as (-> & i & E & -> & Hi).
    assert (exists f, s1 = f ++ s' /\ n2 = [] /\ (fraction_text f \/ exponent_text f)) as (f & -> & -> & Hf).
    { apply sor_inv in H2 as [H2|[F1 H2]]; [apply fraction_inv in H2 as (-> & f & -> & _ & Hf); eauto|].
      apply sor_inv in H2 as [H2|[F2 H2]]; [apply exponent_inv in H2 as (-> & f & -> & _ & Hf); eauto|].
      apply seq_inv in H2 as (n3 & o3 & s3 & n4 & H2 & _ & _). pose proof (matches_det _ _ _ _ _ _ _ F1 H2). discriminate. }
    rewrite app_assoc in E. apply same_end in E. subst t.
    exists (LFloat (L o) (atof (str (i ++ f)))). eexists. eexists. split; [reflexivity|]. split; [reflexivity|]. split; [reflexivity|].
    split; [constructor; assumption|reflexivity]. }
  apply sor_inv in H as [H|[_ H]].
  { (* integer *)
    apply kept in H as (ks & t & H & -> & -> & ->); [|reflexivity].
    apply int_inv in H as (-> & i & E & _ & Hi). apply same_end in E. subst t.
    exists (LInt (L o) (number i)). eexists. eexists. split; [reflexivity|]. split; [reflexivity|]. split; [reflexivity|].
    split; [constructor; assumption|]. cbn. rewrite int_number. reflexivity. }
  apply sor_inv in H as [H|[_ H]].
  { (* string *)
    apply kept in H as (ks & t & H & -> & -> & ->); [|reflexivity].
    apply (string_inv sel Hsel) in H as [(u & E & Hq)|(u & E & Hb & Ec)]; apply same_end in E; subst t.
    - exists (LString (L o) (str (content ks))). eexists. eexists. split; [reflexivity|]. split; [reflexivity|]. split; [reflexivity|].
      split; [constructor; exact Hq|reflexivity].
    - exists (LString (L o) (str u)). eexists. eexists. split; [reflexivity|]. split; [reflexivity|]. split; [reflexivity|].
      split; [apply value_block; exact Hb|]. rewrite <- Ec. reflexivity. }
  apply sor_inv in H as [H|[F1 H]].
  { apply sor_inv in H as [H|[_ H]].
    - apply kept in H as (ks & t & H & -> & -> & ->); [|reflexivity]. apply keyword_inv in H as (E & -> & _ & _). apply same_end in E. subst t.
      exists (LBool (L o) true). eexists. eexists. split; [reflexivity|]. split; [reflexivity|]. split; [reflexivity|]. split; [constructor|reflexivity].
    - apply kept in H as (ks & t & H & -> & -> & ->); [|reflexivity]. apply keyword_inv in H as (E & -> & _ & _). apply same_end in E. subst t.
      exists (LBool (L o) false). eexists. eexists. split; [reflexivity|]. split; [reflexivity|]. split; [reflexivity|]. split; [constructor|reflexivity]. }
  apply sor_inv in H as [H|[F2 H]].
  { apply kept in H as (ks & t & H & -> & -> & ->); [|reflexivity]. apply keyword_inv in H as (E & -> & _ & _). apply same_end in E. subst t.
    exists (LNull (L o)). eexists. eexists. split; [reflexivity|]. split; [reflexivity|]. split; [reflexivity|]. split; [constructor|reflexivity]. }
  apply kept in H as (ks & t & H & -> & -> & ->); [|reflexivity].
  apply seq_inv in H as (n1 & o1 & s1 & n2 & H1 & H2 & ->). apply not_inv in H1 as (_ & -> & -> & ->).
  apply name_inv in H2 as (n & Hn & E & -> & _ & He). apply same_end in E. subst t.
  exists (LEnum (L o) n). eexists. eexists. split; [reflexivity|]. split; [reflexivity|]. split; [reflexivity|].
  split; [|cbn; rewrite str_chars; reflexivity]. constructor; [exact Hn|].
  inversion F1 as [| | | | | | | | | | | | | | | |a b oo ss x Fa Fb| | | | | | | | | | | | |]; subst.
  intros [<-|[<-|[<-|[]]]].
  - eapply (no_keyword_ref R_true_keyword "true"); [reflexivity|exact Fa|exact He|reflexivity].
  - eapply (no_keyword_ref R_false_keyword "false"); [reflexivity|exact Fb|exact He|reflexivity].
  - eapply (no_keyword_ref R_null_keyword "null"); [reflexivity|exact F2|exact He|reflexivity].
Qed.

Lemma arguments_sound o s ns o' s' : M (Ref R_arguments) o s (Match ns o' s') ->
  exists a t ks, s = t ++ s' /\ o' = o + length t /\ ns = [Node R_arguments o t ks] /\ arguments L atof o a t /\ all read_argument ks = Some a.
Proof.
  intro H. apply kept in H as (ks & t & H & -> & -> & ->); [|reflexivity].
  apply (bracketed_inv sel (A := argument) (named L value) (Ref R_argument) read_argument (length (t ++ s'))) in H as (xs & u & E & Hb & Ex);
    [|eapply (named_sound _ (value_sound _) R_argument R_argument_name); reflexivity|reflexivity|lia].
  apply same_end in E. subst u. exists xs, t, ks. auto.
Qed.

(** An optional part. *)
Lemma optional_inv {A} (P : nat -> list A -> text -> Prop) r (Q : list A -> list (node rule) -> Prop) (Hne : empty_ok nb r = false)
  (Hr : forall o s ns o' s', M r o s (Match ns o' s') -> exists xs t, s = t ++ s' /\ o' = o + length t /\ P o xs t /\ Q xs ns)
  o s ns o' s' : M (opt (Star g_ignored >> r)) o s (Match ns o' s') ->
  exists xs t, s = t ++ s' /\ o' = o + length t /\ optional P o xs t /\ ((xs = [] /\ ns = []) \/ Q xs ns).
Proof.
  intro H. apply opt_inv in H as [H|(_ & -> & -> & <-)].
  - apply ignored_then_inv in H as (w & s1 & -> & Hw & H); [|exact Hne]. destruct (Hr _ _ _ _ _ H) as (xs & t & -> & -> & HP & HQ).
    exists xs, (w ++ t). split; [apply app_assoc|]. split; [rewrite app_length; lia|]. split; [constructor; assumption|auto].
  - exists [], []. cbn. split; [reflexivity|]. split; [lia|]. split; [constructor|auto].
Qed.

Definition args_nodes (a : list argument) (ns : list (node rule)) : Prop :=
  exists b c ks, ns = [Node R_arguments b c ks] /\ all read_argument ks = Some a.
Lemma optional_arguments_inv o s ns o' s' : M (opt (Star g_ignored >> Ref R_arguments)) o s (Match ns o' s') ->
  exists xs t, s = t ++ s' /\ o' = o + length t /\ optional (arguments L atof) o xs t /\ ((xs = [] /\ ns = []) \/ args_nodes xs ns).
Proof.
  apply (optional_inv (arguments L atof) (Ref R_arguments) args_nodes eq_refl).
  intros p s1 m p' s2 H. apply arguments_sound in H as (a & t & ks & -> & -> & -> & Ha & E). exists a, t.
  split; [reflexivity|]. split; [reflexivity|]. split; [exact Ha|]. exists p, t, ks. auto.
Qed.

Lemma directive_sound N : sound_below sel (directive_use L atof) (Ref R_directive) (read_directive L atof) N.
Proof.
  intros o s ns o' s' H _. apply kept in H as (ks & t & H & -> & -> & ->); [|reflexivity].
  apply seq_inv in H as (n1 & o1 & s1 & n2 & H1 & H2 & ->). apply one_inv in H1 as (c & E & [<-|[]] & -> & ->).
  apply must_inv in H2. apply seq_inv in H2 as (n3 & o3 & s3 & n4 & H2 & H3 & ->).
  apply kept in H2 as (ks1 & t1 & H2 & -> & -> & ->); [|reflexivity]. apply name_inv in H2 as (n & Hn & E1 & -> & _ & _).
  apply same_end in E1. subst t1. apply optional_arguments_inv in H3 as (a & u & -> & Eo & Ha & D).
  assert (t = "@"%char :: chars n ++ u) as -> by (apply (same_end _ _ s'); rewrite E; cbn; rewrite <- app_assoc; reflexivity).
  exists (mkDir (L o) n a). eexists. eexists. split; [reflexivity|]. split; [reflexivity|]. split; [reflexivity|].
  split; [constructor; assumption|].
  cbn [app]. unfold read_directive. cbn [n_children n_begin].
  change (first_child R_directive_name (Node R_directive_name (o + 1) (chars n) [] :: n4)) with (Some (Node R_directive_name (o + 1) (chars n) [])).
  assert (read_arguments L atof (Node R_directive_name (o + 1) (chars n) [] :: n4) = Some a) as ->.
  { unfold read_arguments. destruct D as [(-> & ->)|(b & c & ks2 & -> & D)]; [reflexivity|exact D]. }
  unfold text_of. cbn [n_content]. rewrite str_chars. reflexivity.
Qed.

Lemma directives_sound o s ns o' s' : M (Ref R_directives) o s (Match ns o' s') ->
  exists d t ks, s = t ++ s' /\ o' = o + length t /\ ns = [Node R_directives o t ks] /\ directives L atof o d t /\ all (read_directive L atof) ks = Some d.
Proof.
  intro H. apply kept in H as (ks & t & H & -> & -> & ->); [|reflexivity].
  apply (items_inv sel (directive_use L atof) (Ref R_directive) (read_directive L atof) (S (length (t ++ s'))) (directive_sound _) (plus g_ignored) some_blanks
        (some_sep sel (Ref R_directive) eq_refl)) in H as (xs & u & E & _ & Hx & Ex); [|lia].
  apply same_end in E. subst u. exists xs, t, ks. auto.
Qed.

Definition dirs_nodes (d : list directive) (ns : list (node rule)) : Prop :=
  exists b c ks, ns = [Node R_directives b c ks] /\ all (read_directive L atof) ks = Some d.
Lemma some_directives_inv o s ns o' s' : M (Star g_ignored >> Ref R_directives) o s (Match ns o' s') ->
  exists xs t, s = t ++ s' /\ o' = o + length t /\ optional (directives L atof) o xs t /\ dirs_nodes xs ns.
Proof.
  intro H. apply ignored_then_inv in H as (w & s1 & -> & Hw & H); [|reflexivity].
  apply directives_sound in H as (a & t & ks & -> & -> & -> & Ha & E). exists a, (w ++ t).
  split; [apply app_assoc|]. split; [rewrite app_length; lia|]. split; [constructor; assumption|]. exists (o + length w), t, ks. auto.
Qed.
Lemma optional_directives_inv o s ns o' s' : M (opt (Star g_ignored >> Ref R_directives)) o s (Match ns o' s') ->
  exists xs t, s = t ++ s' /\ o' = o + length t /\ optional (directives L atof) o xs t /\ ((xs = [] /\ ns = []) \/ dirs_nodes xs ns).
Proof.
  intro H. apply opt_inv in H as [H|(_ & -> & -> & <-)].
  - apply some_directives_inv in H as (xs & t & H). exists xs, t. intuition.
  - exists [], []. cbn. split; [reflexivity|]. split; [lia|]. split; [constructor|auto].
Qed.

(** Types. *)
Lemma type_sound N : forall o s ns o' s', length s < N ->
  (M (Ref R_list_type </> Ref R_named_type) o s (Match ns o' s') ->
   exists ty t n, s = t ++ s' /\ o' = o + length t /\ ns = [n] /\ type_ref ty t /\ (forall u, ty <> TNonNull u) /\ read_type n = Some ty /\ is_type_node n = true /\ n_begin n = o)
  /\ (M (Ref R_nonnull_type </> Ref R_list_type </> Ref R_named_type) o s (Match ns o' s') ->
   exists ty t n, s = t ++ s' /\ o' = o + length t /\ ns = [n] /\ type_ref ty t /\ read_type n = Some ty /\ is_type_node n = true /\ n_begin n = o).
Proof.
  induction N as [|N IH]; intros o s ns o' s' Hl; [lia|].
  assert (forall ns o' s', M (Ref R_list_type </> Ref R_named_type) o s (Match ns o' s') ->
   exists ty t n, s = t ++ s' /\ o' = o + length t /\ ns = [n] /\ type_ref ty t /\ (forall u, ty <> TNonNull u) /\ read_type n = Some ty /\ is_type_node n = true /\ n_begin n = o) as Plain.
  { clear ns o' s'. intros ns o' s' H. apply sor_inv in H as [H|[_ H]].
    - apply kept in H as (ks & t & H & -> & -> & ->); [|reflexivity].
      apply brackets_inv in H as (w1 & s1 & o2 & w2 & E & H1 & H2 & H). rewrite E in Hl. cbn in Hl. rewrite app_length in Hl.
      apply IH in H as (ty & x & n & -> & -> & -> & Ht & Er & _ & _); [|lia].
      assert (t = "["%char :: w1 ++ x ++ w2 ++ ["]"%char]) as -> by (apply (same_end _ _ s'); rewrite E; cbn; rewrite <- !app_assoc; reflexivity).
      exists (TListOf ty). eexists. eexists. split; [reflexivity|]. split; [reflexivity|]. split; [reflexivity|].
      split; [constructor; assumption|]. split; [discriminate|]. cbn [read_type]. rewrite Er. auto.
    - apply kept in H as (ks & t & H & -> & -> & ->); [|reflexivity]. apply name_inv in H as (n & Hn & E1 & -> & _ & _).
      apply same_end in E1. subst t. exists (TNamed n). eexists. eexists. split; [reflexivity|]. split; [reflexivity|]. split; [reflexivity|].
      split; [constructor; exact Hn|]. split; [discriminate|]. cbn. rewrite str_chars. auto. }
  split; [apply Plain|]. intro H. apply sor_inv in H as [H|[_ H]].
  - apply kept in H as (ks & t & H & -> & -> & ->); [|reflexivity].
    apply seq_inv in H as (n1 & o1 & s1 & n2 & H1 & H2 & ->). apply Plain in H1 as (ty & x & n & E & -> & -> & Ht & Hne & Er & _ & _).
    apply ignored_then_inv in H2 as (w & s2 & -> & Hw & H2); [|reflexivity]. apply one_inv in H2 as (c & -> & [<-|[]] & -> & _).
    assert (t = x ++ w ++ ["!"%char]) as -> by (apply (same_end _ _ s'); rewrite E; rewrite <- !app_assoc; reflexivity).
    exists (TNonNull ty). eexists. eexists. split; [reflexivity|]. split; [reflexivity|]. split; [reflexivity|].
    split; [constructor; assumption|]. cbn [app read_type]. rewrite Er. auto.
  - apply Plain in H as (ty & t & n & H). exists ty, t, n. intuition.
Qed.
End Values.
