(** Selections, operations, fragments and documents: every spelling is accepted and read back as what it spells. *)
From Coq Require Import String Ascii NArith ZArith Bool List Lia.
From Verif Require Import Cpp Value Ast.
From Verif Require Export ParseValue.
Import ListNotations.
Local Open Scope list_scope.

Section Executable.
Notation sel := executable_selector.
Variable L : nat -> schema_location.
Variable atof : string -> spec_float.
Notation M := (matches grammar sel).
Notation acc := (acc sel).

Lemma exec_keeps r : ast_keeps r = true -> sel r = Keep.
Proof. destruct r; try discriminate; reflexivity. Qed.

Notation read_selection := (read_selection L atof).
Notation selects := (selects L atof).
Notation arguments := (arguments L atof).
Notation directives := (directives L atof).

Definition read_sub (s : option (node rule)) : option (option (schema_location * list selection)) :=
  match s with
  | None => Some None
  | Some s => match all read_selection (n_children s) with Some ss => Some (Some (L (n_begin s), ss)) | None => None end
  end.

Lemma all_fix ks : (fix go (k : list (node rule)) : option (list selection) :=
    match k with [] => Some [] | y :: k' => match read_selection y with Some s => match go k' with Some ss => Some (s :: ss) | None => None end | None => None end end) ks
  = all read_selection ks.
Proof. induction ks as [|x ks IH]; [reflexivity|]. cbn [all]. rewrite IH. reflexivity. Qed.

Lemma read_field b c ks : read_selection (Node R_field b c ks) =
  match first_child R_field_name ks with
  | None => None
  | Some n =>
    match read_arguments L atof ks with
    | None => None
    | Some args =>
      match read_directives L atof ks with
      | None => None
      | Some dirs =>
        match read_sub (first_child R_selection_set ks) with
        | None => None
        | Some sub => Some (SField (L b) (option_map text_of (first_child R_alias_name ks)) (text_of n) args dirs sub)
        end
      end
    end
  end.
Proof.
  cbn [TreeModel.read_selection]. destruct (first_child R_field_name ks) as [n|]; [|reflexivity].
  destruct (read_arguments L atof ks) as [args|]; [|reflexivity]. destruct (read_directives L atof ks) as [dirs|]; [|reflexivity].
  match goal with |- match ?a with _ => _ end = _ => enough (a = read_sub (first_child R_selection_set ks)) as -> by reflexivity end.
  induction ks as [|[t' b' c' ks'] ks IH]; [reflexivity|]. unfold first_child. cbn [List.find]. unfold is_type at 1. cbn [n_type].
  destruct (rule_eqb t' R_selection_set).
  - cbn [read_sub n_children n_begin]. rewrite all_fix. reflexivity.
  - exact IH.
Qed.

Lemma read_inline b c ks : read_selection (Node R_inline_fragment b c ks) =
  match (match first_child R_type_condition ks with
         | Some y => match read_condition L y with Some c => Some (Some c) | None => None end
         | None => Some None end) with
  | None => None
  | Some cond =>
    match read_directives L atof ks with
    | None => None
    | Some dirs =>
      match first_child R_selection_set ks with
      | None => None
      | Some s => match all read_selection (n_children s) with Some ss => Some (SInline (L b) cond dirs ss) | None => None end
      end
    end
  end.
Proof.
  cbn [TreeModel.read_selection]. destruct (match first_child R_type_condition ks with Some _ => _ | None => _ end) as [cond|]; [|reflexivity].
  destruct (read_directives L atof ks) as [dirs|]; [|reflexivity].
  match goal with |- match ?a with _ => _ end = _ => enough (a = match first_child R_selection_set ks with None => None
      | Some s => all read_selection (n_children s) end) as -> by (destruct (first_child R_selection_set ks); reflexivity) end.
  induction ks as [|[t' b' c' ks'] ks IH]; [reflexivity|]. unfold first_child. cbn [List.find]. unfold is_type at 1. cbn [n_type].
  destruct (rule_eqb t' R_selection_set).
  - cbn [n_children]. rewrite all_fix. reflexivity.
  - exact IH.
Qed.

(** What may come after a selection. *)
Definition opens (c : ascii) : bool := existsb (Ascii.eqb c) ["("; "@"; "{"; ":"]%char.
Definition after_selection (rest : text) : Prop := ends rest /\ follow opens rest.
Lemma opens_one c : In c ["("; "@"; "{"; ":"]%char -> forall d, Ascii.eqb c d = true -> opens d = true.
Proof. intros H d E. apply Ascii.eqb_eq in E. subst d. apply in_existsb. exact H. Qed.

Definition set_of (P : nat -> selection -> text -> Prop) := bracketed "{"%char "}"%char P.

Lemma set_starts P o ss t : set_of P o ss t -> starts (Ascii.eqb "{"%char) t.
Proof. intro H. inversion H; subst. apply starts_eqb. Qed.

Definition first_of_selection (c : ascii) : bool := is_alpha_ c || Ascii.eqb c "."%char.
Lemma selects_starts o s t : selects o s t -> starts first_of_selection t.
Proof.
  intro H. destruct H as [o al ta n args targs dirs tdirs sub tsub Ha Hn _ _ _| |].
  - apply starts_imp with (p := is_alpha_); [|intros c Hc; unfold first_of_selection; rewrite Hc; reflexivity].
    destruct Ha as [|m w1 w2 Hm H1 H2].
    + rewrite app_nil_l. apply starts_app. apply starts_name. exact Hn.
    + apply starts_app. apply starts_app. apply starts_name. exact Hm.
  - eexists; eexists; split; reflexivity.
  - eexists; eexists; split; reflexivity.
Qed.

Lemma disjoint_selection : all_bytes (fun c => negb (first_of_selection c) || negb (blank_start c)) = true.
Proof. by_look. Qed.

Lemma acc_set N (HS : forall o s t, selects o s t -> length t < N -> forall rest, after_selection rest ->
    exists n, acc g_selection o t rest [n] /\ read_selection n = Some s) :
  forall o ss t, set_of selects o ss t -> length t <= N -> forall rest,
    exists ks, acc (Ref R_selection_set) o t rest [Node R_selection_set o t ks] /\ all read_selection ks = Some ss.
Proof.
  intros o ss t H Hl rest. inversion H as [o' w1 xs t2 w2 H1 Hx H2]; subst; clear H.
  cbn [length] in Hl. rewrite ?app_length in Hl. cbn [length] in Hl. rewrite ?app_length in Hl.
  destruct (acc_inside sel selects g_selection read_selection after_selection first_of_selection disjoint_selection selects_starts)
    with (N := N) (close := "}"%char) (o := o + 1 + length w1) (xs := ss) (t := t2) (w2 := w2) (rest := rest) as (ns & A1 & A2);
    try assumption; try reflexivity; try lia.
  - intros w o' x t s Hw Hs. split; [apply ends_some; exact Hw|].
    apply follow_intro; [apply Hw|eapply starts_head; [eapply selects_starts; exact Hs|by_look]..].
  - intros w s Hw. split; [apply ends_blanks; [exact Hw|reflexivity]|]. apply follow_intro; [exact Hw|reflexivity..].
  - intros o' s. apply fails_char. by_look.
  - exists ns. split; [|exact A2]. apply acc_ref; [|reflexivity]. apply acc_brackets; try assumption; try reflexivity.
    eapply starts_head; [eapply items_start; [apply selects_starts|exact Hx]|by_look].
Qed.

Lemma subfields_follow o sub t rest p : subfields L selects o sub t -> p "{"%char = false -> follow p rest -> follow p (t ++ rest).
Proof.
  intros H Hp Hr. destruct H as [o|o w ss t Hw Hs]; [exact Hr|]. rewrite <- app_assoc. inversion Hs; subst.
  apply follow_intro; [exact Hw|reflexivity|]. exact Hp.
Qed.
Lemma subfields_ends o sub t rest : subfields L selects o sub t -> ends rest -> ends (t ++ rest).
Proof.
  intros H Hr. destruct H as [o|o w ss t Hw Hs]; [exact Hr|]. rewrite <- app_assoc. apply ends_blanks; [exact Hw|].
  inversion Hs; subst. reflexivity.
Qed.

Lemma arguments_follow o a t rest p : optional arguments o a t -> p "("%char = false -> follow p rest -> follow p (t ++ rest).
Proof.
  intros H Hp Hr. destruct H as [o|o w xs t Hw Ht]; [exact Hr|]. rewrite <- app_assoc.
  destruct (arguments_starts _ _ _ _ _ Ht) as (c & r & -> & Hc). apply Ascii.eqb_eq in Hc. subst c.
  apply follow_intro; [exact Hw|reflexivity|exact Hp].
Qed.
Lemma directives_follow o a t rest p : optional directives o a t -> p "@"%char = false -> follow p rest -> follow p (t ++ rest).
Proof.
  intros H Hp Hr. destruct H as [o|o w xs t Hw Ht]; [exact Hr|]. rewrite <- app_assoc.
  destruct (directives_starts _ _ _ _ _ Ht) as (c & r & -> & Hc). apply Ascii.eqb_eq in Hc. subst c.
  apply follow_intro; [exact Hw|reflexivity|exact Hp].
Qed.
Lemma arguments_ends o a t rest : optional arguments o a t -> ends rest -> ends (t ++ rest).
Proof. intros H. eapply optional_head; [exact H|apply arguments_starts|by_look|by_look]. Qed.
Lemma directives_ends o a t rest : optional directives o a t -> ends rest -> ends (t ++ rest).
Proof. intros H. eapply optional_head; [exact H|apply directives_starts|by_look|by_look]. Qed.

(** [on] and a type. *)
Lemma acc_condition o lc c t rest : condition L o (lc, c) t -> ends rest ->
  exists n, acc (Ref R_type_condition) o t rest [Node R_type_condition o t [n]] /\ text_of n = c /\ lc = L o.
Proof.
  intros H Hr. inversion H as [o' w n Hw Hn]; subst; clear H.
  exists (Node R_named_type (o + 2 + length w) (chars c) []). split; [|split; [unfold text_of; apply str_chars|reflexivity]].
  apply acc_ref; [|reflexivity]. apply (acc_seq sel _ _ o (chars "on") (w ++ chars c) rest [] [Node R_named_type (o + 2 + length w) (chars c) []]).
  - apply acc_keyword. rewrite <- app_assoc. apply ends_some. exact Hw.
  - apply acc_must. apply acc_some_blanks_seq; [exact Hw|eapply starts_head; [apply starts_name; exact Hn|by_look]|].
    apply acc_ref; [|reflexivity]. apply acc_name; assumption.
Qed.

Lemma name_on : name "on". Proof. apply name_decide. reflexivity. Qed.

Lemma stop_ends_condition o c t s : condition L o c t -> stop (t ++ s).
Proof. intro H. destruct H. reflexivity. Qed.

Ltac kids := unfold first_child; repeat (cbn [List.find app]; unfold is_type at 1; cbn [n_type];
  match goal with |- context [rule_eqb ?a ?b] => let x := eval vm_compute in (rule_eqb a b) in change (rule_eqb a b) with x; cbv iota end).

Lemma acc_selection : forall N o s t, selects o s t -> length t < N -> forall rest, after_selection rest ->
    exists n, acc g_selection o t rest [n] /\ read_selection n = Some s.
Proof.
  induction N as [|N IH]; intros o s t H Hl rest [Hr1 Hr2]; [lia|].
  destruct H as [o al ta n args targs dirs tdirs sub tsub Ha Hn Hargs Hdirs Hsub|o w n dirs tdirs Hw Hn Hne Hdirs|o c tc dirs tdirs w ss t Hc Hdirs Hw Hset].
  - (* field *)
    assert (forall c, In c ["("; "@"; "{"; ":"]%char -> follow (Ascii.eqb c) rest) as Hrest.
    { intros c Hc. eapply follow_imp; [exact Hr2|]. apply opens_one. exact Hc. }
    rewrite ?app_length in Hl.
    assert (exists ns3, (sub = None /\ tsub = [] /\ ns3 = [] \/ acc g_field_selection_set (o + length ta + length (chars n) + length targs + length tdirs) tsub rest ns3)
       /\ read_sub (first_child R_selection_set ns3) = Some sub /\ (ns3 = [] \/ exists b c k, ns3 = [Node R_selection_set b c k])) as (ns3 & S1 & S2 & S3).
    { destruct Hsub as [o'|o' w ss t Hw Hs]; [exists []; auto 6|].
      destruct (acc_set N IH _ _ _ Hs ltac:(rewrite ?app_length in Hl; lia) rest) as (ks & A1 & A2).
      exists [Node R_selection_set (o' + length w) t ks]. split; [right|split; [|right; eauto]].
      - apply acc_blanks_seq; [exact Hw| |exact A1]. inversion Hs; subst. reflexivity.
      - cbn. rewrite A2. reflexivity. }
    assert (after_directive (tsub ++ rest)) as Had.
    { split; [eapply subfields_ends; eassumption|]. eapply subfields_follow; [exact Hsub|reflexivity|]. apply Hrest. cbn. auto. }
    assert (follow (Ascii.eqb "@"%char) (tsub ++ rest)) as Hat.
    { eapply subfields_follow; [exact Hsub|reflexivity|]. apply Hrest. cbn. auto. }
    destruct (acc_optional_directives sel exec_keeps L atof _ _ _ (tsub ++ rest) Hdirs Had Hat) as (ns2 & D1 & D2).
    assert (follow (Ascii.eqb "("%char) (tdirs ++ tsub ++ rest)) as Hpar.
    { eapply directives_follow; [exact Hdirs|reflexivity|]. apply Had. }
    destruct (acc_optional_arguments sel exec_keeps L atof _ _ _ (tdirs ++ tsub ++ rest) Hargs Hpar) as (ns1 & A1 & A2).
    assert (ends (targs ++ tdirs ++ tsub ++ rest)) as Hends.
    { eapply arguments_ends; [exact Hargs|]. eapply directives_ends; [exact Hdirs|]. apply Had. }
    assert (follow (Ascii.eqb ":"%char) (targs ++ tdirs ++ tsub ++ rest)) as Hcol.
    { eapply arguments_follow; [exact Hargs|reflexivity|]. eapply directives_follow; [exact Hdirs|reflexivity|].
      eapply subfields_follow; [exact Hsub|reflexivity|]. apply Hrest. cbn. auto. }
    set (nn := Node R_field_name (o + length ta) (chars n) []).
    assert (exists ns0, acc g_field_start o (ta ++ chars n) (targs ++ tdirs ++ tsub ++ rest) (ns0 ++ [nn])
              /\ (ns0 = [] /\ al = None \/ exists b c a, al = Some a /\ ns0 = [Node R_alias_name b c []] /\ str c = a)) as (ns0 & B1 & B2).
    { destruct Ha as [|a w1 w2 Hna H1 H2].
      - exists []. split; [|auto]. apply (acc_seq sel _ _ o [] (chars n) _ [] [nn]).
        + apply acc_opt_none. apply m_seq_fail. apply m_ref_fail.
          eapply m_seq with (x := Fail).
          * apply (acc_ref sel R_alias_name o (chars n) (targs ++ tdirs ++ tsub ++ rest)); [apply acc_name; assumption|reflexivity].
          * apply (ignored_then_fails sel _ (Ascii.eqb ":"%char)); [by_look|by_look|exact Hcol].
        + apply acc_ref; [apply acc_name; assumption|reflexivity].
      - exists [Node R_alias_name o (chars a) []]. split; [|right; exists o, (chars a), a; split; [reflexivity|]; split; [reflexivity|apply str_chars]].
        assert (stop (chars n ++ targs ++ tdirs ++ tsub ++ rest)) as Hst by (eapply starts_head; [apply starts_name; exact Hn|by_look]).
        apply (acc_seq sel _ _ o (chars a ++ w1 ++ ":"%char :: w2) (chars n) _ [Node R_alias_name o (chars a) []] [nn]).
        + apply acc_opt. replace (chars a ++ w1 ++ ":"%char :: w2) with ((chars a ++ w1 ++ [":"%char]) ++ w2) by (rewrite <- !app_assoc; reflexivity).
          apply (acc_seq sel _ _ o (chars a ++ w1 ++ [":"%char]) w2 _ [Node R_alias_name o (chars a) []] []).
          * apply acc_ref_fold; [|reflexivity]. apply (acc_seq sel _ _ o (chars a) (w1 ++ [":"%char]) _ [Node R_alias_name o (chars a) []] []).
            -- apply acc_ref; [|reflexivity]. apply acc_name; [exact Hna|]. rewrite <- !app_assoc. apply ends_blanks; [exact H1|reflexivity].
            -- apply acc_blanks_seq; [exact H1|reflexivity|]. apply acc_one. left. reflexivity.
          * apply acc_blanks; assumption.
        + apply acc_ref; [apply acc_name; assumption|reflexivity]. }
    assert (acc g_field_content (o + length ta + length (chars n)) (targs ++ tdirs ++ tsub) rest (ns1 ++ ns2 ++ ns3)) as C1.
    { rewrite <- app_assoc in D1 || idtac.
      assert (acc (g_field_arguments >> opt g_field_directives) (o + length ta + length (chars n)) (targs ++ tdirs) (tsub ++ rest) (ns1 ++ ns2)) as AD.
      { apply acc_seq; [exact A1|exact D1]. }
      destruct S1 as [(-> & -> & ->)|S1].
      - rewrite !app_nil_r in *. cbn [app] in *. apply acc_sor_r.
        + rewrite <- app_assoc. eapply m_seq with (x := Fail); [exact A1|]. eapply m_seq with (x := Fail); [exact D1|].
          apply (ignored_then_fails sel _ (Ascii.eqb "{"%char)); [by_look|by_look|]. apply Hrest. cbn. auto.
        + destruct D2 as [(-> & -> & ->)|(D2 & _)].
          * rewrite !app_nil_r in *. cbn [app] in *. apply acc_sor_r; [|exact A1]. eapply m_seq with (x := Fail); [exact A1|].
            apply (ignored_then_fails sel _ (Ascii.eqb "@"%char)); [by_look|by_look|exact Hat].
          * apply acc_sor_l. apply acc_seq; assumption.
      - apply acc_sor_l. apply acc_seq; [rewrite <- app_assoc; exact A1|]. apply acc_seq; [exact D1|exact S1]. }
    exists (Node R_field o (ta ++ chars n ++ targs ++ tdirs ++ tsub) (ns0 ++ nn :: ns1 ++ ns2 ++ ns3)). split.
    + apply acc_sor_l. apply acc_ref; [|reflexivity].
      replace (ta ++ chars n ++ targs ++ tdirs ++ tsub) with ((ta ++ chars n) ++ targs ++ tdirs ++ tsub) by (rewrite <- app_assoc; reflexivity).
      replace (ns0 ++ nn :: ns1 ++ ns2 ++ ns3) with ((ns0 ++ [nn]) ++ ns1 ++ ns2 ++ ns3) by (rewrite <- app_assoc; reflexivity).
      apply acc_seq; [rewrite <- !app_assoc; exact B1|]. apply acc_must. exact_at C1.
    + rewrite read_field.
      assert (text_of nn = n) as En by (unfold text_of, nn; apply str_chars).
      assert (first_child R_field_name (ns0 ++ nn :: ns1 ++ ns2 ++ ns3) = Some nn) as ->.
      { destruct B2 as [[-> _]|(b & c & a & _ & -> & _)]; reflexivity. }
      assert (read_arguments L atof (ns0 ++ nn :: ns1 ++ ns2 ++ ns3) = Some args) as ->.
      { unfold read_arguments. assert (first_child R_arguments (ns0 ++ nn :: ns1 ++ ns2 ++ ns3) = first_child R_arguments (ns1 ++ ns2 ++ ns3)) as ->
          by (destruct B2 as [[-> _]|(b & c & a & _ & -> & _)]; reflexivity).
        destruct A2 as [(-> & -> & _)|(b & c & k & -> & A2)]; [|exact A2].
        destruct D2 as [(-> & _ & _)|(_ & b & c & k & -> & _)]; destruct S3 as [->|(b' & c' & k' & ->)]; reflexivity. }
      assert (read_directives L atof (ns0 ++ nn :: ns1 ++ ns2 ++ ns3) = Some dirs) as ->.
      { unfold read_directives. assert (first_child R_directives (ns0 ++ nn :: ns1 ++ ns2 ++ ns3) = first_child R_directives (ns2 ++ ns3)) as ->.
        { destruct B2 as [[-> _]|(b & c & a & _ & -> & _)]; destruct A2 as [(-> & _)|(b' & c' & k' & -> & _)]; reflexivity. }
        destruct D2 as [(-> & -> & _)|(_ & b & c & k & -> & D2)]; [|exact D2]. destruct S3 as [->|(b' & c' & k' & ->)]; reflexivity. }
      assert (first_child R_selection_set (ns0 ++ nn :: ns1 ++ ns2 ++ ns3) = first_child R_selection_set ns3) as ->.
      { destruct B2 as [[-> _]|(b & c & a & _ & -> & _)]; destruct A2 as [(-> & _)|(b' & c' & k' & -> & _)];
          destruct D2 as [(-> & _ & _)|(_ & b2 & c2 & k2 & -> & _)]; reflexivity. }
      rewrite S2, En.
      assert (option_map text_of (first_child R_alias_name (ns0 ++ nn :: ns1 ++ ns2 ++ ns3)) = al) as ->; [|reflexivity].
      destruct B2 as [[-> ->]|(b & c & a & -> & -> & <-)]; [|reflexivity].
      destruct A2 as [(-> & _)|(b' & c' & k' & -> & _)];
        destruct D2 as [(-> & _ & _)|(_ & b2 & c2 & k2 & -> & _)]; destruct S3 as [->|(b3 & c3 & k3 & ->)]; reflexivity.
  - (* fragment spread *)
    assert (forall c, In c ["("; "@"; "{"; ":"]%char -> follow (Ascii.eqb c) rest) as Hrest.
    { intros c Hc. eapply follow_imp; [exact Hr2|]. apply opens_one. exact Hc. }
    assert (after_directive rest) as Had by (split; [exact Hr1|apply Hrest; cbn; auto]).
    destruct (acc_optional_directives sel exec_keeps L atof _ _ _ rest Hdirs Had (Hrest "@"%char ltac:(cbn; auto))) as (ns2 & D1 & D2).
    assert (ends (tdirs ++ rest)) as He by (eapply directives_ends; eassumption).
    set (nn := Node R_fragment_name (o + 3 + length w) (chars n) []).
    exists (Node R_fragment_spread (o + 3) (w ++ chars n ++ tdirs) (nn :: ns2)). split.
    + apply acc_sor_r; [apply fails_char; by_look|].
      apply (acc_seq sel _ _ o (chars "...") (w ++ chars n ++ tdirs) rest [] [Node R_fragment_spread (o + 3) (w ++ chars n ++ tdirs) (nn :: ns2)]); [apply (acc_str sel)|].
      apply acc_must. apply acc_sor_l. apply acc_ref; [|reflexivity]. apply acc_blanks_seq; [exact Hw| |].
      { rewrite <- app_assoc. eapply starts_head; [apply starts_name; exact Hn|by_look]. }
      apply (acc_seq sel _ _ _ (chars n) tdirs rest [nn] ns2); [|exact_at D1].
      apply acc_ref; [|reflexivity]. apply (acc_seq sel _ _ _ [] (chars n) _ [] []).
      * apply acc_not. apply keyword_fails; auto using name_on.
      * apply acc_name; assumption.
    + cbn [TreeModel.read_selection front]. assert (read_directives L atof (nn :: ns2) = Some dirs) as ->.
      { unfold read_directives. destruct D2 as [(-> & -> & _)|(_ & b & c & k & -> & D2)]; [reflexivity|exact D2]. }
      unfold text_of, nn. cbn [n_content]. rewrite str_chars. reflexivity.
  - (* inline fragment *)
    rewrite ?app_length in Hl. cbn [length] in Hl.
    destruct (acc_set N IH _ _ _ Hset ltac:(lia) rest) as (ks & S1 & S2).
    assert (stop (t ++ rest)) as Hst by (inversion Hset; subst; reflexivity).
    assert (forall p, p "{"%char = false -> follow p (w ++ t ++ rest)) as Hf.
    { intros p Hp. apply follow_intro; [exact Hw|exact Hst|]. inversion Hset; subst. exact Hp. }
    assert (ends (w ++ t ++ rest)) as He by (apply ends_blanks; [exact Hw|inversion Hset; subst; reflexivity]).
    destruct (acc_optional_directives sel exec_keeps L atof _ _ _ (w ++ t ++ rest) Hdirs (conj He (Hf _ eq_refl)) (Hf _ eq_refl)) as (ns2 & D1 & D2).
    set (ns3 := [Node R_selection_set (o + 3 + length tc + length tdirs + length w) t ks]).
    assert (acc (opt (Star g_ignored >> Ref R_directives) >> Star g_ignored >> Ref R_selection_set) (o + 3 + length tc) (tdirs ++ w ++ t) rest (ns2 ++ ns3)) as T1.
    { apply acc_seq; [rewrite <- app_assoc; exact D1|]. apply acc_blanks_seq; [exact Hw|exact Hst|exact S1]. }
    assert (ends (tdirs ++ w ++ t ++ rest)) as He2 by (eapply directives_ends; eassumption).
    assert (exists ns1, acc (opt (Star g_ignored >> Ref R_type_condition)) (o + 3) tc (tdirs ++ w ++ t ++ rest) ns1
       /\ M g_fragment_spread (o + 3) (tc ++ tdirs ++ w ++ t ++ rest) Fail
       /\ (ns1 = [] /\ c = None \/ exists b cc y m, ns1 = [Node R_type_condition b cc [y]] /\ c = Some (m, text_of y) /\ m = L b)) as (ns1 & C1 & C2 & C3).
    { destruct Hc as [o'|o' wc [lc c] t' Hwc Hc].
      - exists []. assert (follow is_alpha_ (tdirs ++ w ++ t ++ rest)) as F by (eapply directives_follow; [exact Hdirs|reflexivity|apply Hf; reflexivity]).
        split; [apply acc_opt_none; apply (ignored_then_fails sel _ is_alpha_); [by_look|by_look|exact F]|]. split; [|auto].
        cbn [app]. unfold g_fragment_spread. apply (ignored_then_fails sel _ is_alpha_); [by_look|by_look|exact F].
      - destruct (acc_condition _ _ _ _ (tdirs ++ w ++ t ++ rest) Hc He2) as (y & A1 & A2 & A3).
        exists [Node R_type_condition (o' + length wc) t' [y]]. split; [|split].
        + apply acc_opt. apply acc_blanks_seq; [exact Hwc|eapply stop_ends_condition; exact Hc|exact A1].
        + rewrite <- app_assoc. eapply m_seq with (x := Fail); [apply (acc_blanks sel wc Hwc o'); eapply stop_ends_condition; exact Hc|].
          apply m_seq_fail. apply m_ref_fail. apply m_seq_fail. inversion Hc as [oo ww nn Hww Hnn]; subst.
          eapply m_not_fail. rewrite <- !app_assoc. apply (acc_keyword sel "on"). apply ends_some. exact Hww.
        + right. exists (o' + length wc), t', y, lc. rewrite A2. auto. }
    exists (Node R_inline_fragment (o + 3) (tc ++ tdirs ++ w ++ t) (ns1 ++ ns2 ++ ns3)). split.
    + apply acc_sor_r; [apply fails_char; by_look|].
      apply (acc_seq sel _ _ o (chars "...") (tc ++ tdirs ++ w ++ t) rest [] [Node R_inline_fragment (o + 3) (tc ++ tdirs ++ w ++ t) (ns1 ++ ns2 ++ ns3)]); [apply (acc_str sel)|].
      apply acc_must. apply acc_sor_r; [apply m_ref_fail; rewrite <- !app_assoc; exact C2|]. apply acc_ref; [|reflexivity].
      apply acc_seq; [rewrite <- !app_assoc; exact C1|]. exact_at T1.
    + rewrite read_inline.
      assert (read_directives L atof (ns1 ++ ns2 ++ ns3) = Some dirs) as ->.
      { unfold read_directives. assert (first_child R_directives (ns1 ++ ns2 ++ ns3) = first_child R_directives (ns2 ++ ns3)) as ->.
        { destruct C3 as [[-> _]|(b & cc & y & m & -> & _)]; reflexivity. }
        destruct D2 as [(-> & -> & _)|(_ & b & cc & k & -> & D2)]; [reflexivity|exact D2]. }
      assert (first_child R_selection_set (ns1 ++ ns2 ++ ns3) = Some (Node R_selection_set (o + 3 + length tc + length tdirs + length w) t ks)) as ->.
      { destruct C3 as [[-> _]|(b & cc & y & m & -> & _)]; destruct D2 as [(-> & -> & _)|(_ & b2 & c2 & k2 & -> & D2)]; reflexivity. }
      cbn [n_children]. rewrite S2.
      destruct C3 as [[-> ->]|(b & cc & y & m & -> & -> & ->)].
      * assert (first_child R_type_condition ([] ++ ns2 ++ ns3) = None) as ->; [|reflexivity].
        destruct D2 as [(-> & -> & _)|(_ & b2 & c2 & k2 & -> & D2)]; reflexivity.
      * reflexivity.
Qed.
End Executable.
