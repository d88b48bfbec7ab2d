(** Whatever the parser accepts is a spelling of what its tree is read as: selections, operations, fragments, documents. *)
From Coq Require Import String Ascii NArith ZArith Bool List Lia.
From Verif Require Import Cpp Value Ast.
From Verif Require Export ParseSound.
Import ListNotations.
Local Open Scope list_scope.

Section Selections.
Notation sel := executable_selector.
Variable L : nat -> schema_location.
Variable atof : string -> spec_float.
Notation M := (matches grammar sel).
Notation arguments := (arguments L atof).
Notation directives := (directives L atof).
Notation selects := (selects L atof).
Notation selection_set := (selection_set L atof).
Notation read_selection := (read_selection L atof).
Notation args_nodes := (args_nodes L atof).
Notation dirs_nodes := (dirs_nodes L atof).

Notation kept := (keep_inv sel).

Lemma set_sound N (HS : sound_below sel selects g_selection read_selection N) o s ns o' s' :
  M (Ref R_selection_set) o s (Match ns o' s') -> length s <= N ->
  exists ss t ks, s = t ++ s' /\ o' = o + length t /\ ns = [Node R_selection_set o t ks] /\ selection_set o ss t
    /\ all read_selection ks = Some ss.
Proof.
  intros H Hl. apply kept in H as (ks & t & H & -> & -> & ->); [|reflexivity].
  apply (bracketed_inv sel selects g_selection read_selection N HS eq_refl) in H as (ss & u & E & Hb & Ex); [|exact Hl].
  apply same_end in E. subst u. exists ss, t, ks. auto.
Qed.

Definition sub_nodes (sub : option (schema_location * list selection)) (ns : list (node rule)) : Prop :=
  (sub = None /\ ns = []) \/ exists b c ks ss, ns = [Node R_selection_set b c ks] /\ all read_selection ks = Some ss /\ sub = Some (L b, ss).

Lemma field_content_inv N (HS : sound_below sel selects g_selection read_selection N) o s ns o' s' :
  M g_field_content o s (Match ns o' s') -> length s <= N ->
  exists args ta dirs td sub ts n1 n2 n3, s = ta ++ td ++ ts ++ s' /\ ns = n1 ++ n2 ++ n3
    /\ optional arguments o args ta /\ ((args = [] /\ n1 = []) \/ args_nodes args n1)
    /\ optional directives (o + length ta) dirs td /\ ((dirs = [] /\ n2 = []) \/ dirs_nodes dirs n2)
    /\ subfields L selects (o + length ta + length td) sub ts /\ sub_nodes sub n3.
Proof.
  intros H Hl. apply sor_inv in H as [H|[_ H]]; [|apply sor_inv in H as [H|[_ H]]].
  - apply seq_inv in H as (n1 & o1 & s1 & n2 & H1 & H2 & ->).
    apply (optional_arguments_inv sel exec_keeps L atof) in H1 as (args & ta & -> & -> & Ha & Na).
    apply seq_inv in H2 as (n3 & o3 & s3 & n4 & H2 & H3 & ->).
    apply (optional_directives_inv sel exec_keeps L atof) in H2 as (dirs & td & -> & -> & Hd & Nd).
    apply ignored_then_inv in H3 as (w & s4 & -> & Hw & H3); [|reflexivity].
    apply (set_sound N HS) in H3 as (ss & t & ks & -> & -> & -> & Hs & Es); [|rewrite !app_length in Hl; lia].
    exists args, ta, dirs, td, (Some (L (o + length ta + length td + length w), ss)), (w ++ t), n1, n3. eexists.
    split; [rewrite <- !app_assoc; reflexivity|]. split; [reflexivity|]. split; [exact Ha|]. split; [exact Na|].
    split; [exact Hd|]. split; [exact Nd|]. split; [constructor; assumption|]. right. eexists _, _, ks, ss. auto.
  - apply seq_inv in H as (n1 & o1 & s1 & n2 & H1 & H2 & ->).
    apply (optional_arguments_inv sel exec_keeps L atof) in H1 as (args & ta & -> & -> & Ha & Na).
    apply (some_directives_inv sel exec_keeps L atof) in H2 as (dirs & td & -> & -> & Hd & Nd).
    exists args, ta, dirs, td, None, [], n1, n2, []. rewrite app_nil_r. cbn [app].
    split; [reflexivity|]. split; [reflexivity|]. split; [exact Ha|]. split; [exact Na|].
    split; [exact Hd|]. split; [right; exact Nd|]. split; [constructor|]. left. auto.
  - apply (optional_arguments_inv sel exec_keeps L atof) in H as (args & ta & -> & -> & Ha & Na).
    exists args, ta, [], [], None, [], ns, [], []. rewrite !app_nil_r. cbn [app].
    split; [reflexivity|]. split; [reflexivity|]. split; [exact Ha|]. split; [exact Na|].
    split; [constructor|]. split; [left; auto|]. split; [constructor|]. left. auto.
Qed.

Lemma field_start_inv o s ns o' s' : M g_field_start o s (Match ns o' s') ->
  exists al ta n na c ks, s = ta ++ chars n ++ s' /\ o' = o + length ta + length (chars n) /\ alias al ta /\ name n
    /\ ns = na ++ [Node R_field_name c (chars n) ks] /\ ((al = None /\ na = []) \/ exists m b ks', al = Some m /\ na = [Node R_alias_name b (chars m) ks']).
Proof.
  intro H. apply seq_inv in H as (n1 & o1 & s1 & n2 & H1 & H2 & ->).
  apply kept in H2 as (ks & t & H2 & -> & -> & ->); [|reflexivity].
  apply name_inv in H2 as (n & Hn & E & -> & _ & _). apply same_end in E. subst t.
  apply opt_inv in H1 as [H1|(_ & -> & -> & <-)].
  - apply seq_inv in H1 as (n3 & o3 & s3 & n4 & H1 & H3 & ->).
    apply ref_inv in H1 as (ks2 & t2 & H1 & E2 & -> & ->).
    apply seq_inv in H1 as (n5 & o5 & s5 & n6 & H1 & H4 & ->). apply kept in H1 as (ks1 & t1 & H1 & E1 & -> & ->); [|reflexivity].
    rewrite E1 in H1. apply name_inv in H1 as (m & Hm & E & -> & _ & _). apply same_end in E. subst t1.
    apply ignored_then_inv in H4 as (w1 & s6 & E6 & Hw1 & H4); [|reflexivity]. apply one_inv in H4 as (c & -> & [<-|[]] & -> & _).
    subst s5.
    apply blanks_inv_more in H3 as (-> & w2 & -> & -> & Hw2); [|destruct n; [destruct Hn|discriminate]].
    assert (t2 = chars m ++ w1 ++ [":"%char]) as ->.
    { rewrite E2 in E1. apply (same_end _ _ (w2 ++ chars n ++ s')). rewrite E1. rewrite <- !app_assoc. reflexivity. }
    exists (Some m), (chars m ++ w1 ++ ":"%char :: w2), n. eexists [Node R_alias_name o (chars m) []], _, _.
    split; [rewrite E2; rewrite <- !app_assoc; cbn; rewrite <- ?app_assoc; reflexivity|].
    split; [rewrite !app_length; cbn [length]; lia|]. split; [constructor; assumption|]. split; [exact Hn|].
    split; [reflexivity|]. right. eexists _, _, _. auto.
  - exists None, [], n, []. eexists _, _. split; [reflexivity|]. split; [cbn; lia|]. split; [constructor|]. split; [exact Hn|].
    split; [reflexivity|]. auto.
Qed.

Lemma condition_inv o s ns o' s' : M (Ref R_type_condition) o s (Match ns o' s') ->
  exists c t n, s = t ++ s' /\ o' = o + length t /\ ns = [n] /\ condition L o c t /\ n_type n = R_type_condition /\ read_condition L n = Some c.
Proof.
  intro H. apply kept in H as (ks & t & H & -> & -> & ->); [|reflexivity].
  apply seq_inv in H as (n1 & o1 & s1 & n2 & H1 & H2 & ->). apply keyword_inv in H1 as (E & -> & -> & _).
  apply must_inv in H2. apply some_ignored_then_inv in H2 as (w & s2 & -> & Hw & H2); [|reflexivity].
  apply kept in H2 as (ks & u & H2 & -> & Eo & ->); [|reflexivity]. apply name_inv in H2 as (n & Hn & Eu & -> & _ & _).
  apply same_end in Eu. subst u.
  assert (t = chars "on" ++ w ++ chars n) as -> by (apply (same_end _ _ s'); rewrite E; rewrite <- !app_assoc; reflexivity).
  exists (L o, n). eexists. eexists. split; [reflexivity|]. split; [reflexivity|]. split; [reflexivity|].
  split; [constructor; assumption|]. split; [reflexivity|]. unfold read_condition. cbn [app n_children front n_begin].
  unfold text_of. cbn [n_content]. rewrite str_chars. reflexivity.
Qed.

Lemma fragment_name_inv o s ns o' s' : M (Ref R_fragment_name) o s (Match ns o' s') ->
  exists n ks, s = chars n ++ s' /\ o' = o + length (chars n) /\ name n /\ n <> "on"%string /\ ns = [Node R_fragment_name o (chars n) ks].
Proof.
  intro H. apply kept in H as (ks & t & H & -> & -> & ->); [|reflexivity].
  apply seq_inv in H as (n1 & o1 & s1 & n2 & H1 & H2 & ->). apply not_inv in H1 as (F & -> & -> & ->).
  apply name_inv in H2 as (n & Hn & E & -> & _ & He). apply same_end in E. subst t.
  exists n. eexists. split; [reflexivity|]. split; [reflexivity|]. split; [exact Hn|]. split; [|reflexivity].
  eapply no_keyword; [exact F|exact He].
Qed.

Lemma directives_only (dirs : list directive) nd pre post : ((dirs = [] /\ nd = []) \/ dirs_nodes dirs nd) ->
  first_child R_directives pre = None -> first_child R_directives post = None -> read_directives L atof (pre ++ nd ++ post) = Some dirs.
Proof.
  intros H H1 H2. unfold read_directives. rewrite find_app, H1, find_app.
  destruct H as [(-> & ->)|(b & c & ks & -> & E)]; [cbn; rewrite H2; reflexivity|]. cbn. exact E.
Qed.

Lemma selection_sound N : sound_below sel selects g_selection read_selection N.
Proof.
  induction N as [|N IH]; intros o s ns o' s' H Hl; [lia|].
  apply sor_inv in H as [H|[_ H]].
  { apply kept in H as (ks & t & H & -> & -> & ->); [|reflexivity].
    apply seq_inv in H as (n1 & o1 & s1 & n2 & H1 & H2 & ->).
    apply field_start_inv in H1 as (al & ta & n & na & c & kn & E & -> & Hal & Hn & -> & Na).
    apply must_inv in H2.
    apply (field_content_inv N IH) in H2 as (args & targs & dirs & td & sub & ts & na2 & nd & nsub & -> & -> & Ha & Na2 & Hd & Nd & Hs & Ns).
    2:{ rewrite E in Hl. rewrite !app_length in Hl. destruct n; [destruct Hn|]. cbn [length list_ascii_of_string] in Hl. rewrite ?app_length in *. lia. }
    assert (t = ta ++ chars n ++ targs ++ td ++ ts) as -> by (apply (same_end _ _ s'); rewrite E; rewrite <- !app_assoc; reflexivity).
    exists (SField (L o) al n args dirs sub). eexists. eexists. split; [reflexivity|]. split; [reflexivity|]. split; [reflexivity|].
    split; [constructor; assumption|]. rewrite read_field.
    destruct Na as [(-> & ->)|(m & b & ks' & -> & ->)]; (destruct Na2 as [(-> & ->)|(b2 & c2 & ks2 & -> & E2)];
      (destruct Nd as [(-> & ->)|(b3 & c3 & ks3 & -> & E3)]; (destruct Ns as [(-> & ->)|(b4 & c4 & ks4 & ss & -> & E4 & ->)];
        cbn -[list_ascii_of_string string_of_list_ascii]; rewrite ?E2, ?E3, ?E4; unfold text_of; cbn [n_content]; rewrite ?str_chars; reflexivity))). }
  apply seq_inv in H as (n1 & o1 & s1 & n2 & H1 & H2 & ->). apply str_inv in H1 as (-> & -> & ->).
  apply must_inv in H2. apply sor_inv in H2 as [H|[_ H]].
  - apply kept in H as (ks & t & H & -> & -> & ->); [|reflexivity].
    apply ignored_then_inv in H as (w & s2 & E & Hw & H); [|reflexivity].
    apply seq_inv in H as (n1 & o1 & s3 & n2 & H1 & H2 & ->). apply fragment_name_inv in H1 as (n & kn & -> & -> & Hn & Hon & ->).
    apply (optional_directives_inv sel exec_keeps L atof) in H2 as (dirs & td & -> & _ & Hd & Nd).
    assert (t = w ++ chars n ++ td) as -> by (apply (same_end _ _ s'); rewrite E; rewrite <- !app_assoc; reflexivity).
    exists (SSpread (L (o + 3)) n dirs), (chars "..." ++ w ++ chars n ++ td). eexists. split; [reflexivity|]. split; [rewrite !app_length; cbn [length list_ascii_of_string]; lia|]. split; [reflexivity|].
    split; [constructor; assumption|]. cbn [app TreeModel.read_selection front].
    match goal with |- context [Node R_fragment_name ?p _ _ :: n2] =>
      pose proof (directives_only dirs n2 [Node R_fragment_name p (chars n) kn] [] Nd eq_refl eq_refl) as X end.
    rewrite app_nil_r in X. cbn [app] in X. rewrite X. unfold text_of. cbn [n_content]. rewrite str_chars. reflexivity.
  - apply kept in H as (ks & t & H & -> & -> & ->); [|reflexivity].
    apply seq_inv in H as (n1 & o1 & s1 & n2 & H1 & H2 & ->).
    assert (exists c tc, t ++ s' = tc ++ s1 /\ o1 = o + 3 + length tc /\ on_type L (o + 3) c tc
       /\ (c = None /\ n1 = [] \/ exists x d, c = Some d /\ n1 = [x] /\ n_type x = R_type_condition /\ read_condition L x = Some d)) as (c & tc & E & -> & Hc & Nc).
    { apply opt_inv in H1 as [H1|(_ & -> & -> & <-)].
      - apply ignored_then_inv in H1 as (w & s2 & -> & Hw & H1); [|reflexivity].
        apply condition_inv in H1 as (c & u & x & -> & -> & -> & Hc & T & R).
        exists (Some c), (w ++ u). split; [apply app_assoc|]. split; [rewrite app_length; cbn; lia|]. split; [constructor; assumption|].
        right. exists x, c. auto.
      - exists None, []. split; [reflexivity|]. split; [cbn; lia|]. split; [constructor|auto]. }
    apply seq_inv in H2 as (n3 & o3 & s3 & n4 & H2 & H3 & ->).
    apply (optional_directives_inv sel exec_keeps L atof) in H2 as (dirs & td & -> & -> & Hd & Nd).
    apply ignored_then_inv in H3 as (w & s4 & -> & Hw & H3); [|reflexivity].
    apply (set_sound N IH) in H3 as (ss & u & ks & -> & _ & -> & Hs & Es).
    2:{ rewrite E in Hl. rewrite !app_length in Hl. cbn [length list_ascii_of_string] in Hl. rewrite ?app_length in *. lia. }
    assert (t = tc ++ td ++ w ++ u) as -> by (apply (same_end _ _ s'); rewrite E; rewrite <- !app_assoc; reflexivity).
    exists (SInline (L (o + 3)) c dirs ss), (chars "..." ++ tc ++ td ++ w ++ u). eexists. split; [reflexivity|]. split; [rewrite !app_length; cbn [length list_ascii_of_string]; lia|]. split; [reflexivity|].
    split; [constructor; assumption|]. rewrite read_inline. cbn [app].
    rewrite (directives_only dirs n3 n1 _ Nd).
    2:{ destruct Nc as [(-> & ->)|(x & d & -> & -> & T & R)]; [reflexivity|]. unfold first_child. cbn. unfold is_type. rewrite T. reflexivity. }
    2: reflexivity.
    destruct Nc as [(-> & ->)|(x & d & -> & -> & T & R)].
    + destruct Nd as [(-> & ->)|(b3 & c3 & ks3 & -> & E3)]; cbn -[TreeModel.read_selection all]; rewrite Es; reflexivity.
    + rewrite !find_app.
      assert (first_child R_selection_set [x] = None) as -> by (unfold first_child; cbn; unfold is_type; rewrite T; reflexivity).
      assert (first_child R_type_condition [x] = Some x) as -> by (unfold first_child; cbn; unfold is_type; rewrite T; reflexivity).
      rewrite R. destruct Nd as [(-> & ->)|(b3 & c3 & ks3 & -> & E3)]; cbn -[TreeModel.read_selection all]; rewrite Es; reflexivity.
Qed.

(** ** Variables. *)
Notation variable := (variable L atof).
Notation read_variable := (read_variable L atof).

Lemma default_inv o s ns o' s' : M (opt (Star g_ignored >> Ref R_default_value)) o s (Match ns o' s') ->
  exists d dl t, s = t ++ s' /\ o' = o + length t /\ default L atof o d dl t
    /\ (ns = [] /\ d = None /\ dl = mkLoc 0 1
        \/ exists b c z v, ns = [Node R_default_value b c [z]] /\ read_value L atof z = Some v /\ d = Some v /\ dl = L b).
Proof.
  intro H. apply opt_inv in H as [H|(_ & -> & -> & <-)].
  - apply ignored_then_inv in H as (w1 & s1 & -> & H1 & H); [|reflexivity].
    apply kept in H as (ks & t & H & -> & -> & ->); [|reflexivity].
    apply seq_inv in H as (n1 & o1 & s1 & n2 & H & H2 & ->). apply one_inv in H as (c & E & [<-|[]] & -> & ->).
    apply must_inv in H2. apply ignored_then_inv in H2 as (w2 & s2 & -> & Hw2 & H2); [|reflexivity]. apply must_inv in H2.
    destruct (value_sound sel exec_keeps L atof (S (length s2)) _ _ _ _ _ H2 (Nat.lt_succ_diag_r _)) as (v & u & z & -> & _ & -> & Hv & Ev).
    assert (t = "="%char :: w2 ++ u) as -> by (apply (same_end _ _ s'); rewrite E; cbn; rewrite <- app_assoc; reflexivity).
    exists (Some v), (L (o + length w1)), (w1 ++ "="%char :: w2 ++ u).
    split; [rewrite <- !app_assoc; reflexivity|]. split; [rewrite !app_length; cbn [length]; lia|]. split; [constructor; assumption|].
    right. eexists _, _, z, v. auto.
  - exists None, (mkLoc 0 1), []. split; [reflexivity|]. split; [cbn; lia|]. split; [constructor|]. auto.
Qed.

Lemma variable_sound N : sound_below sel variable (Ref R_variable) (read_variable' L atof) N.
Proof.
  intros o s ns o' s' H _. apply kept in H as (ks & t & H & -> & -> & ->); [|reflexivity].
  apply seq_inv in H as (n1 & o1 & s1 & n2 & H1 & H2 & ->).
  apply kept in H1 as (ks1 & t1 & H1 & E & -> & ->); [|reflexivity].
  apply seq_inv in H1 as (n3 & o3 & s3 & n4 & H1 & H3 & ->). apply one_inv in H1 as (c & E1 & [<-|[]] & -> & ->).
  apply must_inv in H3. apply name_inv in H3 as (n & Hn & -> & -> & _ & _).
  assert (t1 = "$"%char :: chars n) as -> by (apply (same_end _ _ s1); rewrite <- E, E1; reflexivity).
  clear E1. apply must_inv in H2. apply ignored_then_inv in H2 as (w1 & s2 & -> & Hw1 & H2); [|reflexivity].
  apply seq_inv in H2 as (n3 & o3 & s3 & n4 & H2 & H3 & ->). apply one_inv in H2 as (c & -> & [<-|[]] & -> & ->).
  apply ignored_then_inv in H3 as (w2 & s4 & -> & Hw2 & H3); [|reflexivity].
  apply seq_inv in H3 as (n5 & o5 & s5 & n6 & H3 & H4 & ->). apply must_inv in H3.
  destruct (type_sound sel exec_keeps L (S (length s4)) (o + length ("$"%char :: chars n) + length w1 + 1 + length w2) s4 n5 o5 s5 (Nat.lt_succ_diag_r _)) as [_ T].
  apply T in H3 as (ty & u & tn & -> & -> & -> & Ht & A2 & A3 & A4). clear T.
  apply default_inv in H4 as (d & dl & td & -> & _ & Hd & B2).
  set (nn := Node R_variable_name o ("$"%char :: chars n) []).
  assert (t = "$"%char :: chars n ++ w1 ++ ":"%char :: w2 ++ u ++ td) as ->.
  { apply (same_end _ _ s'). rewrite E. cbn. rewrite <- !app_assoc. cbn. rewrite <- !app_assoc. reflexivity. }
  eexists (mkVar _ n ty _ d dl). eexists. eexists. split; [reflexivity|]. split; [reflexivity|]. split; [reflexivity|].
  split.
  - constructor; try assumption. cbn [length] in Hd.
    replace (o + 1 + length (chars n) + length w1 + 1 + length w2 + length u) with (o + S (length (chars n)) + length w1 + 1 + length w2 + length u) by lia.
    exact Hd.
  - cbn [app]. fold nn. unfold read_variable'. change (is_type R_variable _) with true. cbv iota. unfold TreeModel.read_variable. cbn [n_children n_begin].
    change (first_child R_variable_name (nn :: tn :: n6)) with (Some nn). cbn [List.find]. change (is_type_node nn) with false. cbv iota.
    rewrite A3, A2, A4.
    assert (first_child R_default_value (nn :: tn :: n6) = first_child R_default_value n6) as ->.
    { unfold first_child. cbn [List.find]. change (is_type R_default_value nn) with false. cbv iota.
      destruct (is_type R_default_value tn) eqn:X; [|reflexivity]. unfold is_type_node, is_type in *. destruct (rule_eqb_spec (n_type tn) R_default_value) as [Y|]; [|discriminate].
      rewrite Y in A3. discriminate. }
    assert (without_first (n_content nn) = n) as -> by (unfold without_first, nn; cbn [n_content tl]; apply str_chars).
    cbn [length].
    replace (o + S (length (chars n)) + length w1 + 1 + length w2) with (o + 1 + length (chars n) + length w1 + 1 + length w2) by lia.
    destruct B2 as [(-> & -> & ->)|(b & c & z & v & -> & B2 & -> & ->)]; [reflexivity|]. cbn. rewrite B2. reflexivity.
Qed.

Lemma variables_inv o s ns o' s' : M (opt (Star g_ignored >> g_variable_definitions)) o s (Match ns o' s') ->
  exists vars t, s = t ++ s' /\ o' = o + length t /\ optional (bracketed "("%char ")"%char variable) o vars t
    /\ all read_variable ns = Some vars /\ Forall (fun n => n_type n = R_variable) ns.
Proof.
  intro H. pose proof H as C. apply (matches_consumes _ _ _ _ _ _) with (ns := ns) (o' := o') (s' := s') in C as (tt & Et & Eo); [|reflexivity].
  apply opt_inv in H as [H|(_ & -> & -> & <-)].
  - apply ignored_then_inv in H as (w & s1 & E & Hw & H); [|reflexivity].
    apply (bracketed_inv sel variable (Ref R_variable) (read_variable' L atof) (length s1) (variable_sound _) eq_refl) in H as (vars & t & -> & Hb & Ex); [|lia].
    rewrite E, app_assoc in Et. apply same_end in Et. subst tt. exists vars, (w ++ t).
    split; [rewrite E, app_assoc; reflexivity|]. split; [exact Eo|]. split; [constructor; assumption|]. apply all_variables. exact Ex.
  - exists [], []. split; [reflexivity|]. split; [cbn; lia|]. split; [constructor|]. split; [reflexivity|constructor].
Qed.

(** ** Operations. *)
Lemma set_at o s ns o' s' : M (Star g_ignored >> Ref R_selection_set) o s (Match ns o' s') ->
  exists w ss t ks, s = w ++ t ++ s' /\ blanks w /\ o' = o + length w + length t /\ ns = [Node R_selection_set (o + length w) t ks]
    /\ selection_set (o + length w) ss t /\ all read_selection ks = Some ss.
Proof.
  intro H. apply ignored_then_inv in H as (w & s1 & -> & Hw & H); [|reflexivity].
  apply (set_sound _ (selection_sound (length s1))) in H as (ss & t & ks & -> & -> & -> & Hs & Es); [|lia].
  exists w, ss, t, ks. auto 8.
Qed.

Lemma operation_type_inv o s ns o' s' : M (Ref R_operation_type) o s (Match ns o' s') ->
  exists k ks, In k ["query"; "mutation"; "subscription"]%string /\ s = chars k ++ s' /\ o' = o + length (chars k) /\ ns = [Node R_operation_type o (chars k) ks].
Proof.
  intro H. apply kept in H as (ks & t & H & -> & -> & ->); [|reflexivity].
  assert (exists k, In k ["query"; "mutation"; "subscription"]%string /\ t = chars k) as (k & Hk & ->); [|eauto 8].
  apply sor_inv in H as [H|[_ H]]; [|apply sor_inv in H as [H|[_ H]]]; apply keyword_inv in H as (E & _ & _ & _); apply same_end in E; eexists; (split; [|exact E]); cbn; auto.
Qed.

Lemma operation_name_inv o s ns o' s' : M (opt (plus g_ignored >> Ref R_operation_name)) o s (Match ns o' s') ->
  exists n t, s = t ++ s' /\ o' = o + length t /\ operation_name n t
    /\ (n = None /\ ns = [] \/ exists m b ks, n = Some m /\ ns = [Node R_operation_name b (chars m) ks]).
Proof.
  intro H. apply opt_inv in H as [H|(_ & -> & -> & <-)].
  - apply some_ignored_then_inv in H as (w & s1 & -> & Hw & H); [|reflexivity].
    apply kept in H as (ks & t & H & -> & -> & ->); [|reflexivity]. apply name_inv in H as (n & Hn & E & -> & _ & _). apply same_end in E. subst t.
    exists (Some n), (w ++ chars n). split; [apply app_assoc|]. split; [rewrite app_length; lia|]. split; [constructor; assumption|]. right. eauto 8.
  - exists None, []. split; [reflexivity|]. split; [cbn; lia|]. split; [constructor|]. auto.
Qed.

Lemma operation_sound o s ns o' s' : M (Ref R_operation_definition) o s (Match ns o' s') ->
  exists d t n, s = t ++ s' /\ o' = o + length t /\ ns = [n] /\ operation L atof o d t /\ read_executable L atof n = Some (DOp d).
Proof.
  intro H. apply kept in H as (ks & t & H & -> & -> & ->); [|reflexivity]. apply sor_inv in H as [H|[_ H]].
  - apply seq_inv in H as (n1 & o1 & s1 & n2 & H1 & H2 & ->).
    apply operation_type_inv in H1 as (k & ks & Hk & E & -> & ->). apply must_inv in H2.
    apply seq_inv in H2 as (n3 & o3 & s3 & n4 & H1 & H2 & ->).
    apply operation_name_inv in H1 as (nm & tn & -> & -> & Hnm & Nn).
    apply seq_inv in H2 as (n5 & o5 & s5 & n6 & H1 & H2 & ->).
    apply variables_inv in H1 as (vars & tv & -> & -> & Hv & Ev & Tv).
    apply seq_inv in H2 as (n7 & o7 & s7 & n8 & H1 & H2 & ->).
    apply (optional_directives_inv sel exec_keeps L atof) in H1 as (dirs & td & -> & -> & Hd & Nd).
    apply set_at in H2 as (w & ss & u & kk & -> & Hw & _ & -> & Hs & Es).
    assert (t = chars k ++ tn ++ tv ++ td ++ w ++ u) as -> by (apply (same_end _ _ s'); rewrite E; rewrite <- !app_assoc; reflexivity).
    exists (mkOp (L o) (Some k) nm vars dirs ss). eexists. eexists. split; [reflexivity|]. split; [reflexivity|]. split; [reflexivity|].
    split; [constructor; assumption|].
    set (a := Node R_operation_type o (chars k) ks). set (z := Node R_selection_set _ u kk).
    unfold read_executable, read_definition. cbn [n_type]. unfold read_operation. cbn [n_children n_begin].
    assert (first_child R_directives n3 = None /\ each_child R_variable n3 = [] /\ first_child R_operation_name n3 = option_map (fun m => match n3 with x :: _ => x | [] => a end) nm
      /\ option_map text_of (first_child R_operation_name n3) = nm) as (X1 & X2 & _ & X4).
    { destruct Nn as [(-> & ->)|(m & b & kn & -> & ->)]; cbn -[list_ascii_of_string]; unfold text_of; cbn -[list_ascii_of_string]; rewrite ?str_chars; auto. }
    assert (each_child R_variable ([a] ++ n3 ++ n5 ++ n7 ++ [z]) = n5) as ->.
    { rewrite !each_app, X2, (filter_same R_variable n5 Tv). destruct Nd as [(-> & ->)|(b & c & kd & -> & _)]; cbn; apply app_nil_r. }
    rewrite Ev.
    assert (read_directives L atof ([a] ++ n3 ++ n5 ++ n7 ++ [z]) = Some dirs) as ->.
    { replace ([a] ++ n3 ++ n5 ++ n7 ++ [z]) with (([a] ++ n3 ++ n5) ++ n7 ++ [z]) by (rewrite <- !app_assoc; reflexivity).
      apply directives_only; [exact Nd| |reflexivity]. rewrite !find_app, X1, (find_none_type R_directives n5 R_variable eq_refl Tv). reflexivity. }
    assert (read_last_set L atof ([a] ++ n3 ++ n5 ++ n7 ++ [z]) = Some ss) as ->.
    { unfold read_last_set. replace ([a] ++ n3 ++ n5 ++ n7 ++ [z]) with (([a] ++ n3 ++ n5 ++ n7) ++ [z]) by (rewrite <- !app_assoc; reflexivity).
      rewrite back_app. cbn [n_children z]. exact Es. }
    assert (option_map text_of (first_child R_operation_type ([a] ++ n3 ++ n5 ++ n7 ++ [z])) = Some k) as ->.
    { cbn -[list_ascii_of_string]. unfold text_of. cbn [n_content a]. rewrite str_chars. reflexivity. }
    assert (option_map text_of (first_child R_operation_name ([a] ++ n3 ++ n5 ++ n7 ++ [z])) = nm) as ->; [|reflexivity].
    rewrite find_app. change (first_child R_operation_name [a]) with (@None (node rule)). cbv iota. rewrite find_app.
    destruct nm as [m|].
    + destruct (first_child R_operation_name n3); [exact X4|discriminate].
    + destruct (first_child R_operation_name n3); [discriminate|]. rewrite find_app, (find_none_type R_operation_name n5 R_variable eq_refl Tv).
      destruct Nd as [(-> & ->)|(b & c & kd & -> & _)]; reflexivity.
  - apply (set_sound _ (selection_sound (length (t ++ s')))) in H as (ss & u & kk & E & _ & -> & Hs & Es); [|lia].
    apply same_end in E. subst u. exists (mkOp (L o) None None [] [] ss). eexists. eexists. split; [reflexivity|]. split; [reflexivity|]. split; [reflexivity|].
    split; [constructor; exact Hs|]. unfold read_executable, read_definition. cbn [n_type]. unfold read_operation. cbn -[TreeModel.read_selection all]. rewrite Es. reflexivity.
Qed.

Lemma fragment_sound o s ns o' s' : M (Ref R_fragment_definition) o s (Match ns o' s') ->
  exists d t n, s = t ++ s' /\ o' = o + length t /\ ns = [n] /\ fragment L atof o d t /\ read_executable L atof n = Some (DFrag d).
Proof.
  intro H. apply kept in H as (ks & t & H & -> & -> & ->); [|reflexivity].
  apply seq_inv in H as (n1 & o1 & s1 & n2 & H1 & H2 & ->). apply keyword_inv in H1 as (E & -> & -> & _). apply must_inv in H2.
  apply some_ignored_then_inv in H2 as (w1 & s2 & -> & Hw1 & H2); [|reflexivity].
  apply seq_inv in H2 as (n3 & o3 & s3 & n4 & H1 & H2 & ->).
  apply fragment_name_inv in H1 as (n & kn & -> & -> & Hn & Hon & ->).
  apply some_ignored_then_inv in H2 as (w2 & s4 & -> & Hw2 & H2); [|reflexivity].
  apply seq_inv in H2 as (n5 & o5 & s5 & n6 & H1 & H2 & ->).
  apply condition_inv in H1 as ([lc c] & tc & x & -> & -> & -> & Hc & Tc & Rc).
  apply seq_inv in H2 as (n7 & o7 & s7 & n8 & H1 & H2 & ->).
  apply (optional_directives_inv sel exec_keeps L atof) in H1 as (dirs & td & -> & -> & Hd & Nd).
  apply set_at in H2 as (w & ss & u & kk & -> & Hw & _ & -> & Hs & Es).
  assert (t = chars "fragment" ++ w1 ++ chars n ++ w2 ++ tc ++ td ++ w ++ u) as -> by (apply (same_end _ _ s'); rewrite E; rewrite <- !app_assoc; reflexivity).
  exists (mkFrag (L o) n c lc dirs ss). eexists. eexists. split; [reflexivity|]. split; [reflexivity|]. split; [reflexivity|].
  split; [constructor; assumption|].
  set (a := Node R_fragment_name _ (chars n) kn). set (z := Node R_selection_set _ u kk).
  unfold read_executable, read_definition. cbn [n_type]. unfold read_fragment. cbn [app n_children n_begin front second].
  rewrite Rc.
  assert (read_directives L atof (a :: x :: n7 ++ [z]) = Some dirs) as ->.
  { apply (directives_only dirs n7 [a; x] [z]); [exact Nd| |reflexivity]. unfold first_child. cbn [List.find]. unfold is_type. rewrite Tc. reflexivity. }
  assert (read_last_set L atof (a :: x :: n7 ++ [z]) = Some ss) as ->.
  { unfold read_last_set. change (a :: x :: n7 ++ [z]) with ((a :: x :: n7) ++ [z]). rewrite back_app. exact Es. }
  unfold text_of. cbn [n_content a fst snd]. rewrite str_chars. reflexivity.
Qed.

Lemma executable_sound N : sound_below sel (executable L atof) g_executable_definition (read_executable L atof) N.
Proof.
  intros o s ns o' s' H _. apply sor_inv in H as [H|[_ H]].
  - apply fragment_sound in H as (d & t & n & H1 & H2 & H3 & H4 & H5). exists (DFrag d), t, n. auto 8 using executable_fragment.
  - apply operation_sound in H as (d & t & n & H1 & H2 & H3 & H4 & H5). exists (DOp d), t, n. auto 8 using executable_operation.
Qed.

(** ** Documents. *)
Theorem document_sound t ns o' s' : M g_executable_document 0 t (Match ns o' s') ->
  exists ds, document L atof ds t /\ read_document L atof ns = Some ds.
Proof.
  intro H. apply must_inv in H. apply seq_inv in H as (n1 & o1 & s1 & n2 & H1 & H2 & ->).
  inversion H1; subst; clear H1.
  apply seq_inv in H2 as (n3 & o3 & s3 & n4 & H1 & H2 & ->).
  assert (exists bom, (bom = [] \/ bom = byte_order_mark) /\ s1 = bom ++ s3 /\ o3 = length bom /\ n3 = []) as (bom & Hbom & -> & -> & ->).
  { apply opt_inv in H1 as [H1|(_ & -> & -> & <-)]; [|exists []; auto].
    inversion H1; subst.
    match goal with X : utf8_range _ _ _ = Some _ |- _ => unfold utf8_range in X; destruct (peek_utf8 s1) as [[c k]|] eqn:P; [|discriminate];
      destruct (N.leb_spec 65279 c); [|discriminate]; destruct (N.leb_spec c 65279); [|discriminate]; injection X as -> end.
    apply peek_decode in P as (r & -> & -> & _); [|lia]. assert (c = 65279%N) as -> by lia.
    exists byte_order_mark. split; [auto|]. rewrite skipn_app, skipn_all, Nat.sub_diag. cbn. auto. }
  apply ignored_then_inv in H2 as (w & s4 & -> & Hw & H2); [|reflexivity].
  apply seq_inv in H2 as (n5 & o5 & s5 & n6 & H2 & H3 & ->).
  apply (items_inv sel (executable L atof) g_executable_definition (read_executable L atof) (S (length s4)) (executable_sound _) (Star g_ignored) blanks)
    in H2 as (ds & u & -> & -> & Hd & Ed).
  2:{ intros p s ns p' s'' H. apply ignored_then_inv in H; [exact H|reflexivity]. }
  2: lia.
  apply seq_inv in H3 as (n7 & o7 & s7 & n8 & H3 & H4 & ->). apply blanks_inv in H3 as (-> & v & -> & -> & Hv).
  inversion H4; subst. exists ds. split; [|cbn [app]; rewrite app_nil_r; exact Ed].
  rewrite app_nil_r. constructor; try assumption. destruct Hv as [Hv|[_ Hv]]; [constructor; exact Hv|exact Hv].
Qed.
End Selections.
