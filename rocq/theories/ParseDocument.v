(** Operations, fragments and documents: every spelling is accepted and read back as what it spells. *)
From Coq Require Import String Ascii NArith ZArith Bool List Lia.
From Verif Require Import Cpp Value Ast.
From Verif Require Export ParseComplete.
Import ListNotations.
Local Open Scope list_scope.

Ltac exact_at H ::=
  match type of H with PegLook.acc _ _ ?x _ _ _ =>
    match goal with |- PegLook.acc _ _ ?y _ _ _ =>
      replace y with x; [exact H|repeat match goal with h := _ : text |- _ => unfold h end; cbn [length list_ascii_of_string]; rewrite ?app_length; cbn [length list_ascii_of_string]; lia] end end.

Section Document.
Notation sel := executable_selector.
Variable L : nat -> schema_location.
Variable atof : string -> spec_float.
Notation M := (matches grammar sel).
Notation acc := (acc sel).
Notation directives := (directives L atof).
Notation selects := (selects L atof).
Notation selection_set := (selection_set L atof).

(** ** Variables. *)
Definition bang_or_default (c : ascii) : bool := existsb (Ascii.eqb c) ["!"; "="]%char.
Definition after_variable (rest : text) : Prop := after_value rest /\ follow bang_or_default rest.

Definition read_variable' (n : node rule) : option variable_def :=
  if is_type R_variable n then read_variable L atof n else None.

Lemma variable_starts o x t : variable L atof o x t -> starts (Ascii.eqb "$"%char) t.
Proof. intro H. destruct H. apply starts_eqb. Qed.

Lemma acc_variable o x t : variable L atof o x t -> forall rest, after_variable rest ->
  exists n, acc (Ref R_variable) o t rest [n] /\ read_variable' n = Some x.
Proof.
  intros H rest [Hr1 Hr2]. destruct H as [o n w1 w2 ty t d dl td Hn H1 H2 Ht Hd].
  set (o1 := o + 1 + length (chars n) + length w1 + 1 + length w2) in *.
  assert (follow (Ascii.eqb "!"%char) (td ++ rest)) as Hbang.
  { destruct Hd as [o'|o' v1 v2 v t' Hv1 Hv2 Hv].
    - eapply follow_imp; [exact Hr2|]. intros c Hc. apply Ascii.eqb_eq in Hc. subst c. reflexivity.
    - rewrite <- app_assoc. apply follow_intro; [exact Hv1|reflexivity..]. }
  assert (ends (td ++ rest)) as Hends.
  { destruct Hd as [o'|o' v1 v2 v t' Hv1 Hv2 Hv]; [apply after_value_ends; exact Hr1|].
    rewrite <- app_assoc. apply ends_blanks; [exact Hv1|reflexivity]. }
  destruct (acc_type sel exec_keeps ty t Ht o1 (td ++ rest) Hends) as [_ A]. destruct (A Hbang) as (tn & A1 & A2 & A3 & A4). clear A.
  assert (exists ns, acc (opt (Star g_ignored >> Ref R_default_value)) (o1 + length t) td rest ns
    /\ (ns = [] /\ d = None /\ dl = mkLoc 0 1
        \/ exists b c z v, ns = [Node R_default_value b c [z]] /\ read_value L atof z = Some v /\ d = Some v /\ dl = L b)) as (ns & B1 & B2).
  { destruct Hd as [o'|o' v1 v2 v t' Hv1 Hv2 Hv].
    - exists []. split; [|auto]. apply acc_opt_none. apply (ignored_then_fails sel _ (Ascii.eqb "="%char)); [by_look|by_look|].
      eapply follow_imp; [exact Hr2|]. intros c Hc. apply Ascii.eqb_eq in Hc. subst c. reflexivity.
    - destruct (acc_value sel exec_keeps L atof (S (length t')) _ _ _ Hv ltac:(lia) rest Hr1) as (z & Z1 & Z2).
      exists [Node R_default_value (o' + length v1) ("="%char :: v2 ++ t') [z]]. split; [|right; exists (o' + length v1), ("="%char :: v2 ++ t'), z, v; auto].
      apply acc_opt. apply acc_blanks_seq; [exact Hv1|reflexivity|]. apply acc_ref; [|reflexivity].
      apply (acc_seq sel _ _ _ ["="%char] (v2 ++ t') rest [] [z]); [apply acc_one; left; reflexivity|]. apply acc_must.
      apply acc_blanks_seq; [exact Hv2|eapply value_stop; exact Hv|]. apply acc_must. exact_at Z1. }
  set (nn := Node R_variable_name o ("$"%char :: chars n) []).
  exists (Node R_variable o ("$"%char :: chars n ++ w1 ++ ":"%char :: w2 ++ t ++ td) (nn :: tn :: ns)). split.
  - apply acc_ref; [|reflexivity].
    change ("$"%char :: chars n ++ w1 ++ ":"%char :: w2 ++ t ++ td) with (("$"%char :: chars n) ++ w1 ++ ":"%char :: w2 ++ t ++ td).
    apply (acc_seq sel _ _ o ("$"%char :: chars n) _ rest [nn] (tn :: ns)).
    + apply acc_ref; [|reflexivity]. apply (acc_seq sel _ _ o ["$"%char] (chars n) _ [] []); [apply acc_one; left; reflexivity|].
      apply acc_must. apply acc_name; [exact Hn|]. rewrite <- app_assoc. apply ends_blanks; [exact H1|reflexivity].
    + apply acc_must. apply acc_blanks_seq; [exact H1|reflexivity|].
      apply (acc_seq sel _ _ _ [":"%char] (w2 ++ t ++ td) rest [] (tn :: ns)); [apply acc_one; left; reflexivity|].
      apply acc_blanks_seq; [exact H2|rewrite <- app_assoc; eapply starts_head; [eapply type_starts; exact Ht|by_look]|].
      apply (acc_seq sel _ _ _ t td rest [tn] ns).
      * apply acc_must. subst o1. exact_at A1.
      * subst o1. exact_at B1.
  - unfold read_variable'. change (is_type R_variable _) with true. cbv iota. unfold read_variable. cbn [n_children n_begin].
    change (first_child R_variable_name (nn :: tn :: ns)) with (Some nn). cbn [List.find]. change (is_type_node nn) with false. cbv iota.
    rewrite A3, A2, A4.
    assert (first_child R_default_value (nn :: tn :: ns) = first_child R_default_value ns) as ->.
    { unfold first_child. cbn [List.find]. change (is_type R_default_value nn) with false. cbv iota.
      destruct (is_type R_default_value tn) eqn:E; [|reflexivity]. unfold is_type_node, is_type in *. destruct (rule_eqb_spec (n_type tn) R_default_value) as [X|]; [|discriminate].
      rewrite X in A3. discriminate. }
    assert (without_first (n_content nn) = n) as -> by (unfold without_first, nn; cbn [n_content tl]; apply str_chars).
    destruct B2 as [(-> & -> & ->)|(b & c & z & v & -> & B2 & -> & ->)]; [reflexivity|]. cbn. rewrite B2. reflexivity.
Qed.

Lemma all_variables ns xs : all read_variable' ns = Some xs -> all (read_variable L atof) ns = Some xs /\ Forall (fun n => n_type n = R_variable) ns.
Proof.
  revert xs. induction ns as [|n ns IH]; intros xs H; [split; [exact H|constructor]|]. cbn [all] in *.
  destruct (read_variable' n) as [x|] eqn:E; [|discriminate]. destruct (all read_variable' ns) as [ys|]; [|discriminate].
  destruct (IH ys eq_refl) as [A B]. unfold read_variable', is_type in E. destruct (rule_eqb_spec (n_type n) R_variable) as [X|]; [|discriminate].
  rewrite E, A. auto.
Qed.

Lemma acc_variables o vars t rest : optional (bracketed "("%char ")"%char (variable L atof)) o vars t -> follow (Ascii.eqb "("%char) rest ->
  exists ns, acc (opt (Star g_ignored >> g_variable_definitions)) o t rest ns /\ all (read_variable L atof) ns = Some vars /\ Forall (fun n => n_type n = R_variable) ns.
Proof.
  intros H Hr. destruct H as [o|o w xs t Hw Ht].
  - exists []. split; [|split; [reflexivity|constructor]]. apply acc_opt_none. apply (ignored_then_fails sel _ (Ascii.eqb "("%char)); [by_look|by_look|exact Hr].
  - inversion Ht as [o' w1 xs' t2 w2 H1 Hx H2]; subst; clear Ht.
    destruct (acc_inside sel (variable L atof) (Ref R_variable) read_variable' after_variable (Ascii.eqb "$"%char) eq_refl variable_starts)
      with (N := S (length t2)) (close := ")"%char) (o := o + length w + 1 + length w1) (xs := xs) (t := t2) (w2 := w2) (rest := rest) as (ns & A1 & A2);
      try assumption; try reflexivity; try lia.
    + intros v o' x t s Hv Hs. split; [apply after_value_some; exact Hv|].
      apply follow_intro; [apply Hv|eapply starts_head; [eapply variable_starts; exact Hs|by_look]..].
    + intros o' x t Hx' _ rest' Hr'. eapply acc_variable; eassumption.
    + intros v s Hv. split; [apply after_value_blanks; [exact Hv|reflexivity]|]. apply follow_intro; [exact Hv|reflexivity..].
    + intros o' s. apply fails_char. by_look.
    + exists ns. split; [|apply all_variables; exact A2]. apply acc_opt.
      apply acc_blanks_seq; [exact Hw|reflexivity|]. apply acc_brackets; try assumption; try reflexivity.
      eapply starts_head; [eapply items_start; [apply variable_starts|exact Hx]|by_look].
Qed.

(** ** Operations. *)
Lemma acc_selection_set o ss t rest : selection_set o ss t ->
  exists ks, acc (Ref R_selection_set) o t rest [Node R_selection_set o t ks] /\ all (read_selection L atof) ks = Some ss.
Proof. intro H. apply (acc_set L atof (length t) (acc_selection L atof (length t)) o ss t H (le_n _) rest). Qed.

Lemma acc_operation_type o k rest : In k ["query"; "mutation"; "subscription"]%string -> ends rest ->
  acc (Ref R_operation_type) o (chars k) rest [Node R_operation_type o (chars k) []].
Proof.
  intros Hk Hr. apply acc_ref; [|reflexivity]. cbn in Hk. destruct Hk as [<-|[<-|[<-|[]]]].
  - apply acc_sor_l. apply acc_keyword. exact Hr.
  - apply acc_sor_r; [apply fails_char; by_look|]. apply acc_sor_l. apply acc_keyword. exact Hr.
  - apply acc_sor_r; [apply fails_char; by_look|]. apply acc_sor_r; [apply fails_char; by_look|]. apply acc_keyword. exact Hr.
Qed.

Lemma find_none_type r ns r' : rule_eqb r' r = false -> Forall (fun n => n_type n = r') ns -> first_child r ns = None.
Proof.
  intros E H. induction H as [|n ns Hn _ IH]; [reflexivity|]. unfold first_child in *. cbn [List.find]. unfold is_type at 1. rewrite Hn, E. exact IH.
Qed.
Lemma find_app r a b : first_child r (a ++ b) = match first_child r a with Some x => Some x | None => first_child r b end.
Proof. unfold first_child. induction a as [|x a IH]; [reflexivity|]. cbn [app List.find]. destruct (is_type r x); [reflexivity|exact IH]. Qed.
Lemma filter_same r ns : Forall (fun n => n_type n = r) ns -> each_child r ns = ns.
Proof.
  intro H. induction H as [|n ns Hn _ IH]; [reflexivity|]. unfold each_child in *. cbn [List.filter]. unfold is_type at 1. rewrite Hn.
  destruct (rule_eqb_spec r r); [|contradiction]. f_equal. exact IH.
Qed.
Lemma each_app r a b : each_child r (a ++ b) = each_child r a ++ each_child r b.
Proof. apply List.filter_app. Qed.
Lemma back_app a (x : node rule) : back (a ++ [x]) = Some x.
Proof. induction a as [|y a IH]; [reflexivity|]. cbn [app back]. destruct (a ++ [x]) eqn:E; [destruct a; discriminate|exact IH]. Qed.

Definition read_executable (n : node rule) : option definition := read_definition L atof n.

Lemma operation_starts o d t : operation L atof o d t -> starts (fun c => existsb (Ascii.eqb c) ["q"; "m"; "s"; "{"]%char) t.
Proof.
  intro H. destruct H as [o ss t Hs|o k n tn vars tv dirs td w ss t Hk _ _ _ _ _].
  - inversion Hs; subst. eexists; eexists; split; reflexivity.
  - cbn in Hk. destruct Hk as [<-|[<-|[<-|[]]]]; eexists; eexists; split; reflexivity.
Qed.

Lemma acc_operation o d t rest : operation L atof o d t ->
  exists n, acc g_executable_definition o t rest [n] /\ read_executable n = Some (DOp d).
Proof.
  intro H. pose proof (operation_starts _ _ _ H) as St.
  assert (forall ns, acc g_operation_definition o t rest ns -> acc g_executable_definition o t rest [Node R_operation_definition o t ns]) as Wrap.
  { intros ns A. apply acc_sor_r; [|apply acc_ref; [exact A|reflexivity]]. eapply sor_start; [|exact St]. by_look. }
  destruct H as [o ss t Hs|o k n tn vars tv dirs td w ss t Hk Hn Hv Hd Hw Hs].
  - destruct (acc_selection_set _ _ _ rest Hs) as (ks & A1 & A2). eexists. split.
    + apply Wrap. apply acc_sor_r; [|exact A1]. inversion Hs; subst. apply fails_char. by_look.
    + cbn. rewrite A2. reflexivity.
  - assert (starts (Ascii.eqb "{"%char) t) as Ht by (inversion Hs; subst; apply starts_eqb).
    assert (stop (t ++ rest)) as Hst by (eapply starts_head; [exact Ht|by_look]).
    destruct (acc_selection_set _ _ _ rest Hs) as (ks & A1 & A2).
    assert (forall p, p "{"%char = false -> follow p (w ++ t ++ rest)) as Hf.
    { intros p Hp. apply follow_intro; [exact Hw|exact Hst|]. inversion Hs; subst. exact Hp. }
    assert (ends (w ++ t ++ rest)) as He by (apply ends_blanks; [exact Hw|eapply starts_head; [exact Ht|by_look]]).
    destruct (acc_optional_directives sel exec_keeps L atof _ _ _ (w ++ t ++ rest) Hd (conj He (Hf _ eq_refl)) (Hf _ eq_refl)) as (ns2 & D1 & D2).
    assert (follow (Ascii.eqb "("%char) (td ++ w ++ t ++ rest)) as Hp by (eapply directives_follow; [exact Hd|reflexivity|apply Hf; reflexivity]).
    destruct (acc_variables _ _ _ (td ++ w ++ t ++ rest) Hv Hp) as (nsv & V1 & V2 & V3).
    assert (ends (tv ++ td ++ w ++ t ++ rest)) as He2.
    { eapply optional_head; [exact Hv|intros o' xs t' X; inversion X; subst; apply starts_eqb|by_look|by_look|].
      eapply directives_ends; eassumption. }
    assert (follow is_alpha_ (tv ++ td ++ w ++ t ++ rest)) as Ha.
    { assert (follow is_alpha_ (td ++ w ++ t ++ rest)) as X by (eapply directives_follow; [exact Hd|reflexivity|apply Hf; reflexivity]).
      eapply optional_follow; [exact Hv|intros o' xs t' Y; inversion Y; subst; apply starts_eqb|by_look|by_look|exact X]. }
    assert (exists ns1, acc (opt (plus g_ignored >> Ref R_operation_name)) (o + length (chars k)) tn (tv ++ td ++ w ++ t ++ rest) ns1
       /\ (ns1 = [] /\ n = None \/ exists b c, ns1 = [Node R_operation_name b c []] /\ n = Some (str c))) as (ns1 & N1 & N2).
    { destruct Hn as [|v n Hv' Hn].
      - exists []. split; [|auto]. apply acc_opt_none. apply (some_ignored_then_fails sel _ is_alpha_); [by_look|by_look|exact Ha].
      - exists [Node R_operation_name (o + length (chars k) + length v) (chars n) []]. split; [|right; eexists; eexists; split; [reflexivity|rewrite str_chars; reflexivity]].
        apply acc_opt. apply acc_some_blanks_seq; [exact Hv'|eapply starts_head; [apply starts_name; exact Hn|by_look]|].
        apply acc_ref; [|reflexivity]. apply acc_name; assumption. }
    assert (ends (tn ++ tv ++ td ++ w ++ t ++ rest)) as He3.
    { destruct Hn as [|v n Hv' Hn]; [exact He2|]. rewrite <- app_assoc. apply ends_some. exact Hv'. }
    set (ns3 := [Node R_selection_set (o + length (chars k) + length tn + length tv + length td + length w) t ks]) in *.
    set (nk := Node R_operation_type o (chars k) []).
    eexists. split.
    + apply Wrap. apply acc_sor_l. apply (acc_seq sel _ _ o (chars k) (tn ++ tv ++ td ++ w ++ t) rest [nk] (ns1 ++ nsv ++ ns2 ++ ns3)).
      * apply acc_operation_type; [exact Hk|]. rewrite <- !app_assoc. exact He3.
      * apply acc_must. apply acc_seq; [rewrite <- !app_assoc; exact N1|].
        apply acc_seq; [rewrite <- !app_assoc; exact V1|]. apply acc_seq; [rewrite <- !app_assoc; exact D1|].
        apply acc_blanks_seq; [exact Hw|exact Hst|exact A1].
    + unfold read_executable, read_definition. cbn [n_type]. unfold read_operation. cbn [n_children n_begin].
      set (all_kids := [nk] ++ ns1 ++ nsv ++ ns2 ++ ns3).
      assert (each_child R_variable all_kids = nsv) as ->.
      { unfold all_kids. rewrite !each_app. rewrite (filter_same _ _ V3).
        destruct N2 as [[-> _]|(b & c & -> & _)]; destruct D2 as [(-> & _)|(_ & b2 & c2 & k2 & -> & _)]; cbn; apply app_nil_r. }
      rewrite V2.
      assert (read_directives L atof all_kids = Some dirs) as ->.
      { unfold read_directives, all_kids. rewrite !find_app. rewrite (find_none_type R_directives nsv R_variable eq_refl V3).
        destruct N2 as [[-> _]|(b & c & -> & _)]; destruct D2 as [(-> & -> & _)|(_ & b2 & c2 & k2 & -> & D2)]; cbn; try reflexivity; exact D2. }
      assert (read_last_set L atof all_kids = Some ss) as ->.
      { unfold read_last_set, all_kids, ns3. rewrite !app_assoc. rewrite back_app. cbn [n_children]. exact A2. }
      assert (first_child R_operation_type all_kids = Some nk) as -> by reflexivity.
      assert (option_map text_of (first_child R_operation_name all_kids) = n) as ->.
      { unfold all_kids. rewrite !find_app. rewrite (find_none_type R_operation_name nsv R_variable eq_refl V3).
        destruct N2 as [[-> ->]|(b & c & -> & ->)]; [|reflexivity].
        destruct D2 as [(-> & -> & _)|(_ & b2 & c2 & k2 & -> & D2)]; reflexivity. }
      cbn [option_map]. unfold text_of, nk. cbn [n_content]. rewrite str_chars. reflexivity.
Qed.

(** ** Fragments. *)
Lemma acc_fragment o d t rest : fragment L atof o d t ->
  exists n, acc g_executable_definition o t rest [n] /\ read_executable n = Some (DFrag d).
Proof.
  intro H. destruct H as [o w1 n w2 lc c tc dirs td w ss t H1 Hn Hne H2 Hc Hd Hw Hs].
  assert (starts (Ascii.eqb "{"%char) t) as Ht by (inversion Hs; subst; apply starts_eqb).
  assert (stop (t ++ rest)) as Hst by (eapply starts_head; [exact Ht|by_look]).
  destruct (acc_selection_set _ _ _ rest Hs) as (ks & A1 & A2).
  assert (forall p, p "{"%char = false -> follow p (w ++ t ++ rest)) as Hf.
  { intros p Hp. apply follow_intro; [exact Hw|exact Hst|]. inversion Hs; subst. exact Hp. }
  assert (ends (w ++ t ++ rest)) as He by (apply ends_blanks; [exact Hw|eapply starts_head; [exact Ht|by_look]]).
  destruct (acc_optional_directives sel exec_keeps L atof _ _ _ (w ++ t ++ rest) Hd (conj He (Hf _ eq_refl)) (Hf _ eq_refl)) as (ns2 & D1 & D2).
  assert (ends (td ++ w ++ t ++ rest)) as He2 by (eapply directives_ends; eassumption).
  destruct (acc_condition L _ _ _ _ (td ++ w ++ t ++ rest) Hc He2) as (y & C1 & C2 & C3).
  set (oc := o + 8 + length w1 + length (chars n) + length w2) in *.
  set (nc := Node R_type_condition oc tc [y]) in *.
  set (ns3 := [Node R_selection_set (oc + length tc + length td + length w) t ks]) in *.
  set (nn := Node R_fragment_name (o + 8 + length w1) (chars n) []).
  exists (Node R_fragment_definition o (chars "fragment" ++ w1 ++ chars n ++ w2 ++ tc ++ td ++ w ++ t) (nn :: nc :: ns2 ++ ns3)). split.
  - apply acc_sor_l. apply acc_ref; [|reflexivity].
    apply (acc_seq sel _ _ o (chars "fragment") _ rest [] (nn :: nc :: ns2 ++ ns3)).
    + apply acc_keyword. rewrite <- app_assoc. apply ends_some. exact H1.
    + apply acc_must. apply acc_some_blanks_seq; [exact H1|rewrite <- app_assoc; eapply starts_head; [apply starts_name; exact Hn|by_look]|].
      apply (acc_seq sel _ _ _ (chars n) _ rest [nn] (nc :: ns2 ++ ns3)).
      * apply acc_ref; [|reflexivity]. apply (acc_seq sel _ _ _ [] (chars n) _ [] []).
        -- apply acc_not. apply keyword_fails; auto using name_on. rewrite <- app_assoc. apply ends_some. exact H2.
        -- apply acc_name; [exact Hn|]. rewrite <- app_assoc. apply ends_some. exact H2.
      * apply acc_some_blanks_seq; [exact H2|rewrite <- app_assoc; eapply stop_ends_condition; exact Hc|].
        apply (acc_seq sel _ _ _ tc _ rest [nc] (ns2 ++ ns3)); [rewrite <- !app_assoc; subst oc; exact_at C1|].
        apply acc_seq; [rewrite <- !app_assoc; subst oc; exact_at D1|].
        apply acc_blanks_seq; [exact Hw|exact Hst|]. subst oc. exact_at A1.
  - unfold read_executable, read_definition. cbn [n_type]. unfold read_fragment. cbn [n_children n_begin front second].
    assert (read_condition L nc = Some (L oc, c)) as ->.
    { unfold read_condition, nc. cbn [n_children front n_begin]. rewrite C2. reflexivity. }
    assert (read_directives L atof (nn :: nc :: ns2 ++ ns3) = Some dirs) as ->.
    { unfold read_directives. change (nn :: nc :: ns2 ++ ns3) with ([nn; nc] ++ ns2 ++ ns3). rewrite !find_app.
      destruct D2 as [(-> & -> & _)|(_ & b2 & c2 & k2 & -> & D2)]; cbn; try reflexivity; exact D2. }
    assert (read_last_set L atof (nn :: nc :: ns2 ++ ns3) = Some ss) as ->.
    { unfold read_last_set, ns3. change (nn :: nc :: ns2 ++ [Node R_selection_set (oc + length tc + length td + length w) t ks])
        with ((nn :: nc :: ns2) ++ [Node R_selection_set (oc + length tc + length td + length w) t ks]). rewrite back_app. exact A2. }
    cbn [fst snd]. unfold text_of, nn. cbn [n_content]. rewrite str_chars, C3. reflexivity.
Qed.

(** ** The document. *)
Lemma acc_executable o d t rest : executable L atof o d t ->
  exists n, acc g_executable_definition o t rest [n] /\ read_executable n = Some d.
Proof. intro H. destruct H; [apply acc_operation; assumption|apply acc_fragment; assumption]. Qed.

Lemma executable_starts o d t : executable L atof o d t -> starts (fun c => is_alpha_ c || Ascii.eqb c "{"%char) t.
Proof.
  intro H. destruct H as [o d t H|o d t H].
  - destruct (operation_starts _ _ _ H) as (c & r & -> & Hc). exists c, r. split; [reflexivity|].
    apply in_existsb in Hc. cbn in Hc. destruct Hc as [<-|[<-|[<-|[<-|[]]]]]; reflexivity.
  - destruct H. eexists; eexists; split; reflexivity.
Qed.

Lemma acc_definitions o ds t : items blanks (executable L atof) o ds t -> forall e, trailing e ->
  exists ns, acc (list_of g_executable_definition (Star g_ignored)) o t e ns /\ all read_executable ns = Some ds.
Proof.
  intros H e He.
  enough (exists n t1 t2 ns, t = t1 ++ t2 /\ acc g_executable_definition o t1 (t2 ++ e) [n]
            /\ acc (Star (Star g_ignored >> g_executable_definition)) (o + length t1) t2 e ns
            /\ all read_executable (n :: ns) = Some ds) as (n & t1 & t2 & ns & -> & A1 & A2 & A3).
  { exists ([n] ++ ns). split; [apply acc_seq; assumption|exact A3]. }
  induction H as [o x t Hx|o x t w xs t' Hx Hw Hxs IH].
  - destruct (acc_executable o x t e Hx) as (n & A1 & A2). exists n, t, [], []. rewrite app_nil_r. split; [reflexivity|].
    split; [exact A1|]. split; [|cbn; rewrite A2; reflexivity]. apply acc_star_nil.
    pose proof (acc_trailing sel e He (o + length t)) as T. unfold PegLook.acc in T. rewrite app_nil_r in T.
    eapply m_seq with (x := Fail); [exact T|]. apply fails_end. by_look.
  - destruct IH as (n & t1 & t2 & ns & -> & A1 & A2 & A3).
    destruct (acc_executable o x t ((w ++ t1 ++ t2) ++ e) Hx) as (m & B1 & B2).
    exists m, t, (w ++ t1 ++ t2), ([n] ++ ns). split; [reflexivity|]. split; [exact B1|]. split.
    + rewrite app_assoc. apply acc_star_cons.
      * apply acc_blanks_seq; [exact Hw| |exact A1].
        assert (starts (fun c => is_alpha_ c || Ascii.eqb c "{"%char) (t1 ++ t2)) as St
          by (eapply items_start; [apply executable_starts|exact Hxs]).
        rewrite app_assoc. eapply starts_head; [exact St|by_look].
      * rewrite app_length, Nat.add_assoc. exact A2.
    + cbn [app]. cbn [all]. cbn [all] in A3. rewrite B2. rewrite A3. reflexivity.
Qed.

Theorem acc_document ds t : document L atof ds t ->
  exists ns, M g_executable_document 0 t (Match ns (length t) []) /\ read_document L atof ns = Some ds.
Proof.
  intro H. destruct H as [bom w ds t e Hbom Hw Hds He].
  destruct (acc_definitions _ _ _ Hds e He) as (ns & A1 & A2). exists ns. split; [|exact A2].
  assert (starts (fun c => is_alpha_ c || Ascii.eqb c "{"%char) t) as St by (eapply items_start; [apply executable_starts|exact Hds]).
  assert (acc g_executable_document 0 (bom ++ w ++ t ++ e) [] ns) as X; [|unfold PegLook.acc in X; rewrite app_nil_r in X; exact X].
  apply acc_must. apply (acc_seq sel _ _ 0 [] (bom ++ w ++ t ++ e) [] [] ns); [apply acc_nil; constructor|].
  apply (acc_seq sel _ _ _ bom (w ++ t ++ e) [] [] ns).
  - destruct Hbom as [->| ->].
    + apply acc_opt_none. destruct Hw as [|b w Hb Hw].
      * eapply sor_start with (t := t ++ e); [|apply starts_app; exact St]. by_look.
      * eapply sor_start with (t := ((b ++ w) ++ t ++ e)); [|apply starts_app; apply starts_app; apply blank_starts; exact Hb]. by_look.
    + apply acc_opt. unfold PegLook.acc. pose proof (m_utf8 grammar sel 65279 65279 (0 + 0) (byte_order_mark ++ (w ++ t ++ e) ++ []) 3 eq_refl) as X.
      exact X.
  - apply acc_blanks_seq; [exact Hw|rewrite <- app_assoc; eapply starts_head; [exact St|by_look]|].
    rewrite <- (app_nil_r ns). apply acc_seq; [rewrite app_nil_r; exact_at A1|].
    rewrite <- (app_nil_r e). apply (acc_seq sel _ _ _ e [] [] [] []); [apply acc_trailing; exact He|]. apply acc_nil. constructor.
Qed.
End Document.
