(** Every spelling of a type system definition is accepted, and the loader reads back what it spells. *)
From Coq Require Import String Ascii NArith ZArith Bool List Lia.
From Verif Require Import Cpp Value Ast SchemaModel LoaderModel.
From Verif Require Export SdlSound.
Import ListNotations.
Local Open Scope list_scope.

Lemma starts_not p q t : starts p t -> all_bytes (fun c => negb (p c) || negb (q c)) = true -> head_not q t.
Proof. intros H E. rewrite <- (app_nil_r t). eapply starts_head; eassumption. Qed.
Lemma start_fails a p o t : fails_on a p = true -> starts p t -> matches grammar schema_selector a o t Fail.
Proof. intros H S. rewrite <- (app_nil_r t). eapply sor_start; eassumption. Qed.
Lemma tidy_ends t s : ends s -> tidy t s.
Proof. left. assumption. Qed.
Lemma tidy_suffix a t s : t <> [] -> tidy (a ++ t) s -> tidy t s.
Proof.
  intros N [H|(u & c & E & H)]; [left; exact H|]. right. destruct (exists_last N) as (v & d & ->). exists v, d. split; [reflexivity|].
  rewrite app_assoc in E. apply app_inj_tail in E as [_ ->]. exact H.
Qed.
Lemma tidy_name a n s : name n -> tidy (a ++ chars n) s -> ends s.
Proof.
  intros Hn [H|(u & c & E & H)]; [exact H|]. exfalso.
  assert (exists v d, chars n = v ++ [d] /\ is_ident d = true) as (v & d & Ed & Hd).
  { destruct (name_chars _ Hn) as (x & r & -> & Hx & Hr). destruct r as [|y r].
    - exists [], x. split; [reflexivity|]. apply alpha_ident. exact Hx.
    - destruct (@exists_last _ (y :: r)) as (v & d & Ev); [discriminate|]. exists (x :: v), d. rewrite Ev. split; [reflexivity|].
      rewrite Ev in Hr. apply Forall_app in Hr as [_ Hr]. apply Forall_inv in Hr. exact Hr. }
  rewrite Ed, app_assoc in E. apply app_inj_tail in E as [_ ->]. congruence.
Qed.
Lemma name_nonempty n : name n -> chars n <> [].
Proof. intro H. destruct (name_chars _ H) as (c & r & -> & _). discriminate. Qed.

(** The words of the type system, and what may come after a definition. *)
Definition words : list string :=
  ["schema"; "scalar"; "type"; "interface"; "union"; "enum"; "input"; "directive"; "extend"]%string.
Lemma words_names k : In k words -> name k.
Proof. cbn. intros H. repeat (destruct H as [<-|H]; [apply name_decide; reflexivity|]). contradiction. Qed.
Definition opening (u : text) : Prop :=
  starts (Ascii.eqb """"%char) u \/ exists k s, u = chars k ++ s /\ In k words /\ ends s.
Definition next (rest : text) : Prop := trailing rest \/ exists w u, rest = w ++ u /\ blanks w /\ opening u.

Definition opener (c : ascii) : bool := is_alpha_ c || Ascii.eqb c """"%char.
Lemma opening_starts u : opening u -> starts opener u.
Proof.
  intros [(c & r & -> & H)|(k & s & -> & H & _)].
  - exists c, r. split; [reflexivity|]. apply Ascii.eqb_eq in H. subst c. reflexivity.
  - apply starts_app. eapply starts_imp; [apply starts_name, words_names, H|]. intros c Hc. unfold opener. rewrite Hc. reflexivity.
Qed.
Lemma next_follow p rest : all_bytes (fun c => negb (opener c) || negb (p c)) = true -> next rest -> follow p rest.
Proof.
  intros Hp [H|(w & u & -> & Hw & Hu)]; [left; exact H|]. apply opening_starts in Hu.
  apply follow_intro; [exact Hw|eapply starts_not; [exact Hu|by_look]|eapply starts_not; [exact Hu|exact Hp]].
Qed.

Section Sdl.
Notation sel := schema_selector.
Variable L : nat -> schema_location.
Variable atof : string -> spec_float.
Variable unescape_j : string -> string.
Notation M := (matches grammar sel).
Notation acc := (acc sel).
Notation described := (described unescape_j).
Notation directives := (directives L atof).
Notation read_input := (read_input L atof unescape_j).
Notation read_field_definition := (read_field_definition L atof unescape_j).
Notation read_enum_value := (read_enum_value L atof unescape_j).
Notation read_sdl := (read_sdl L atof unescape_j).
Notation input_value := (input_value L atof unescape_j).
Notation field := (field L atof unescape_j).
Notation enum_value := (enum_value L atof unescape_j).
Notation desc_nodes := (desc_nodes unescape_j).
Notation dirs_nodes := (dirs_nodes L atof).

Lemma next_no_implements o rest : next rest -> M (plus g_ignored >> g_implements_interfaces) o rest Fail.
Proof.
  intros [H|(w & u & -> & Hw & Hu)].
  - apply (some_ignored_then_fails sel _ is_alpha_); [by_look|by_look|left; exact H].
  - destruct Hu as [Hu|(k & s & -> & Hk & He)].
    + apply (some_ignored_then_fails sel _ is_alpha_); [by_look|by_look|]. apply follow_intro; [exact Hw|eapply starts_not; [exact Hu|by_look]..].
    + pose proof (words_names k Hk) as Hn. assert (stop (chars k ++ s)) as St by (eapply starts_head; [apply starts_name; exact Hn|by_look]).
      destruct Hw as [|b w Hb Hw].
      * apply m_seq_fail. apply m_seq_fail. apply ignored_fails. exact St.
      * eapply m_seq with (x := Fail); [apply (acc_some_blanks sel (b ++ w) o (chars k ++ s))|].
        -- split; [constructor; assumption|]. intro X. apply app_eq_nil in X as [-> _]. apply (blank_nonempty _ Hb). reflexivity.
        -- exact St.
        -- apply m_seq_fail. apply keyword_fails; [apply name_decide; reflexivity|exact Hn| |exact He]. intros ->. cbn in Hk. intuition discriminate.
Qed.

(** ** Descriptions. *)
Lemma acc_described desc td o rest : described desc td -> starts is_alpha_ rest ->
  exists nd, acc (opt (Ref R_description >> Star g_ignored)) o td rest nd /\ desc_nodes desc nd.
Proof.
  intros H Hr. assert (stop rest) as Hst by (eapply starts_not; [exact Hr|by_look]).
  destruct H as [|t d w Hq Hw|t w Hb Hw].
  - exists []. split; [|left; auto]. apply acc_opt_none. eapply start_fails; [|exact Hr]. by_look.
  - assert (head_not (Ascii.eqb """"%char) (w ++ rest)) as Hh.
    { apply blanks_head; [exact Hw|by_look|]. eapply starts_not; [exact Hr|by_look]. }
    destruct (acc_quoted sel schema_keeps t d o (w ++ rest) Hq) as (ns & R & _).
    pose proof R as R'. apply (quoted_heard sel schema_keeps unescape_j) in R' as (t' & E & _ & Eh). apply same_end in E.
    injection E as E. apply app_inj_tail in E as [<- _].
    eexists [_]. split; [|right; eexists _, _, ns; split; [reflexivity|symmetry; exact Eh]].
    apply acc_opt. replace (""""%char :: t ++ """"%char :: w) with ((""""%char :: t ++ [""""%char]) ++ w) by (cbn; rewrite <- app_assoc; reflexivity).
    apply (acc_seq sel _ _ o (""""%char :: t ++ [""""%char]) w rest [_] []); [|apply acc_blanks; assumption].
    apply acc_ref; [|reflexivity]. apply acc_sor_r; [eapply no_block; eassumption|exact R].
  - destruct (acc_block sel schema_keeps t o (w ++ rest) Hb) as (ns & R & _).
    pose proof R as R'. apply (block_heard sel schema_keeps unescape_j) in R' as (t' & E & _ & Eh). apply same_end in E.
    apply app_inv_head in E. apply app_inv_tail in E. subst t'.
    eexists [_]. split; [|right; eexists _, _, ns; split; [reflexivity|symmetry; exact Eh]].
    apply acc_opt. replace (q3 ++ t ++ q3 ++ w) with ((q3 ++ t ++ q3) ++ w) by (rewrite <- !app_assoc; reflexivity).
    apply (acc_seq sel _ _ o (q3 ++ t ++ q3) w rest [_] []); [|apply acc_blanks; assumption].
    apply acc_ref; [|reflexivity]. apply acc_sor_l. exact R.
Qed.
Lemma described_starts desc td t : described desc td -> starts is_alpha_ t -> starts opener (td ++ t).
Proof.
  intros [|u d w _ _|u w _ _] H.
  - eapply starts_imp; [exact H|]. intros c Hc. unfold opener. rewrite Hc. reflexivity.
  - eexists _, _. split; reflexivity.
  - eexists _, _. split; reflexivity.
Qed.

Lemma acc_start desc td k o t rest nk : described desc td -> starts is_alpha_ t -> acc k (o + length td) t rest nk ->
  exists nd, acc (opt (Ref R_description >> Star g_ignored) >> k) o (td ++ t) rest (nd ++ nk) /\ desc_nodes desc nd.
Proof.
  intros Hd Ht H. destruct (acc_described desc td o (t ++ rest) Hd (starts_app _ _ _ Ht)) as (nd & A & D).
  exists nd. split; [apply acc_seq; assumption|exact D].
Qed.

(** ** Directives. *)
Lemma acc_directives_tidy o d t rest : directives o d t -> tidy t rest -> follow (Ascii.eqb "("%char) rest -> follow (Ascii.eqb "@"%char) rest ->
  exists ks, acc (Ref R_directives) o t rest [Node R_directives o t ks] /\ all (read_directive L atof) ks = Some d.
Proof.
  intros H T F1 F2.
  assert (forall o d t, directive_use L atof o d t -> forall rest, tidy t rest -> follow (Ascii.eqb "("%char) rest ->
    exists n, acc (Ref R_directive) o t rest [n] /\ read_directive L atof n = Some d) as One.
  { clear. intros o d t H rest T F. inversion H as [o' n a u Hn Ha]; subst. inversion Ha as [o1|o1 w xs v Hw Hv]; subst.
    - rewrite app_nil_r in *. change ("@"%char :: chars n) with (["@"%char] ++ chars n) in T. apply tidy_name in T; [|exact Hn].
      destruct (acc_directive sel schema_keeps L atof _ _ _ H rest (conj T F)) as (m & A1 & A2). exists m. auto.
    - destruct (acc_arguments sel schema_keeps L atof _ _ _ rest Hv) as (ks & A1 & A2).
      exists (Node R_directive o ("@"%char :: chars n ++ w ++ v) [Node R_directive_name (o + 1) (chars n) []; Node R_arguments (o + 1 + length (chars n) + length w) v ks]). split.
      + apply acc_keep; [exact schema_keeps|reflexivity|].
        apply (acc_seq sel _ _ o ["@"%char] (chars n ++ w ++ v) rest [] [Node R_directive_name (o + 1) (chars n) []; Node R_arguments (o + 1 + length (chars n) + length w) v ks]); [apply acc_one; left; reflexivity|].
        apply acc_must. apply (acc_seq sel _ _ _ (chars n) (w ++ v) rest [Node R_directive_name (o + 1) (chars n) []] [_]).
        * apply acc_keep; [exact schema_keeps|reflexivity|]. apply acc_name; [exact Hn|]. rewrite <- app_assoc. apply ends_blanks; [exact Hw|].
          eapply starts_head; [eapply arguments_starts; exact Hv|by_look].
        * apply acc_opt. apply acc_blanks_seq; [exact Hw|eapply starts_head; [eapply arguments_starts; exact Hv|by_look]|]. exact_at A1.
      + unfold read_directive, read_arguments, first_child. cbn [n_children n_begin List.find is_type n_type].
        replace (is_type R_directive_name (Node R_directive_name (o + 1) (chars n) [])) with true by reflexivity.
        replace (is_type R_arguments (Node R_directive_name (o + 1) (chars n) [])) with false by reflexivity.
        unfold text_of. cbn [n_content]. rewrite str_chars.
        replace (is_type R_arguments (Node R_arguments (o + 1 + length (chars n) + length w) v ks)) with true by reflexivity.
        cbn [n_children]. rewrite A2. reflexivity. }
  assert (exists n t1 t2 ns, t = t1 ++ t2 /\ acc (Ref R_directive) o t1 (t2 ++ rest) [n] /\ acc (Star (plus g_ignored >> Ref R_directive)) (o + length t1) t2 rest ns
      /\ all (read_directive L atof) (n :: ns) = Some d) as (n & t1 & t2 & ns & E & A1 & A2 & A3).
  2:{ exists ([n] ++ ns). split; [|exact A3]. apply acc_ref; [|reflexivity]. rewrite E. apply acc_seq; assumption. }
  induction H as [o x t Hx|o x t w xs t' Hx Hw Hxs IH].
  - destruct (One _ _ _ Hx rest T F1) as (n & A1 & A2). exists n, t, [], []. rewrite app_nil_r. split; [reflexivity|].
    split; [exact A1|]. split; [|cbn; rewrite A2; reflexivity]. apply acc_star_nil.
    apply (some_ignored_then_fails sel _ (Ascii.eqb "@"%char)); [by_look|by_look|exact F2].
  - assert (starts (Ascii.eqb "@"%char) t') as St by (eapply items_start; [apply directive_starts|exact Hxs]).
    destruct IH as (n & t1 & t2 & ns & -> & A1 & A2 & A3).
    { apply (tidy_suffix (t ++ w)); [intros ->; destruct St as (? & ? & X & _); discriminate|]. rewrite <- app_assoc. exact T. }
    assert (tidy t ((w ++ t1 ++ t2) ++ rest) /\ follow (Ascii.eqb "("%char) ((w ++ t1 ++ t2) ++ rest)) as [T' F'].
    { rewrite <- app_assoc. split; [apply tidy_ends; apply ends_some; exact Hw|].
      apply follow_intro; [apply Hw|eapply starts_head; [exact St|by_look]..]. }
    destruct (One _ _ _ Hx _ T' F') as (m & B1 & B2).
    exists m, t, (w ++ t1 ++ t2), ([n] ++ ns). split; [reflexivity|]. split; [exact B1|]. split.
    + rewrite app_assoc. apply acc_star_cons.
      * apply acc_some_blanks_seq; [exact Hw| |exact A1]. rewrite app_assoc. eapply starts_head; [exact St|by_look].
      * rewrite app_length, Nat.add_assoc. exact A2.
    + cbn [app]. cbn [all]. cbn [all] in A3. rewrite B2. rewrite A3. reflexivity.
Qed.
Notation dirs_there := (Star g_ignored >> Ref R_directives).
Lemma acc_dirs o d t rest : optional directives o d t -> t = [] \/ tidy t rest -> follow (Ascii.eqb "("%char) rest -> follow (Ascii.eqb "@"%char) rest ->
  exists ns, acc (opt dirs_there) o t rest ns /\ ((d = [] /\ ns = [] /\ t = [] /\ M dirs_there o rest Fail) \/ (acc dirs_there o t rest ns /\ dirs_nodes d ns)).
Proof.
  intros H T F1 F2. destruct H as [o|o w xs t Hw Ht].
  - exists []. assert (M dirs_there o rest Fail) as F by (apply (ignored_then_fails sel _ (Ascii.eqb "@"%char)); [by_look|by_look|exact F2]).
    split; [apply acc_opt_none; exact F|left; auto].
  - pose proof (directives_starts _ _ _ _ _ Ht) as St.
    assert (tidy t rest) as T'. { destruct T as [T|T]; [|eapply tidy_suffix; [|exact T]]; destruct St as (c & r & -> & _); [apply app_eq_nil in T as [_ T]; discriminate|discriminate]. }
    destruct (acc_directives_tidy _ _ _ rest Ht T' F1 F2) as (ks & A1 & A2).
    assert (acc dirs_there o (w ++ t) rest [Node R_directives (o + length w) t ks]) as A.
    { apply acc_blanks_seq; [exact Hw| |exact A1]. eapply starts_head; [exact St|by_look]. }
    eexists. split; [apply acc_opt; exact A|right; split; [exact A|]]. eexists _, _, _. split; [reflexivity|exact A2].
Qed.
Lemma dirs_maybe d ns o t rest : (d = [] /\ ns = [] /\ t = [] /\ M dirs_there o rest Fail) \/ (acc dirs_there o t rest ns /\ dirs_nodes d ns) ->
  (d = [] /\ ns = []) \/ dirs_nodes d ns.
Proof. intros [(-> & -> & _)|[_ H]]; auto. Qed.

(** ** Names. *)
Lemma acc_named_node k o n rest : grammar k = g_name -> sel k = Keep -> name n -> ends rest -> acc (Ref k) o (chars n) rest [Node k o (chars n) []].
Proof. intros G K Hn Hr. apply acc_ref; [|exact K]. rewrite G. apply acc_name; assumption. Qed.

(** ** Items. *)
Definition marks (c : ascii) : bool := existsb (Ascii.eqb c) ["("; "@"; "!"; "="]%char.
Definition after_item (rest : text) : Prop := after_value rest /\ follow marks rest.
Lemma marks_follow c rest : marks c = true -> follow marks rest -> follow (Ascii.eqb c) rest.
Proof. intros H F. eapply follow_imp; [exact F|]. intros d Hd. apply Ascii.eqb_eq in Hd. subst d. exact H. Qed.
Lemma after_item_some w s p : some_blanks w -> starts p s -> all_bytes (fun c => negb (p c) || negb (blank_start c)) = true ->
  all_bytes (fun c => negb (p c) || negb (marks c)) = true -> after_item (w ++ s).
Proof.
  intros Hw Hs H1 H2. split; [apply after_value_some; exact Hw|]. apply follow_intro; [apply Hw|eapply starts_not; eassumption..].
Qed.
Lemma after_item_close w c s : blanks w -> goes_on c = false -> blank_start c = false -> marks c = false -> after_item (w ++ c :: s).
Proof. intros Hw H1 H2 H3. split; [apply after_value_blanks; [exact Hw|exact H1]|]. apply follow_intro; [exact Hw|exact H2|exact H3]. Qed.

Lemma acc_default o d t rest : with_default L atof o d t -> after_value rest -> follow (Ascii.eqb "="%char) rest ->
  exists ns, acc (opt (Star g_ignored >> Ref R_default_value)) o t rest ns /\ only R_default_value ns /\ default_of L atof ns = Some d.
Proof.
  intros H Hv Hf. destruct H as [o|o w1 w2 v t H1 H2 H].
  - exists []. split; [|split; [apply only_nil|reflexivity]]. apply acc_opt_none.
    apply (ignored_then_fails sel _ (Ascii.eqb "="%char)); [by_look|by_look|exact Hf].
  - destruct (acc_value sel schema_keeps L atof (S (length t)) _ _ _ H ltac:(lia) rest Hv) as (z & Z1 & Z2).
    pose proof Z1 as V. apply value_node in V as (k & u & kz & Ez & En). apply same_end in Ez. subst u. injection En as ->.
    exists [Node R_default_value (o + length w1) ("="%char :: w2 ++ t) [Node k (o + length w1 + 1 + length w2) t kz]].
    split; [|split; [apply only_one|]].
    + apply acc_opt. apply acc_blanks_seq; [exact H1|reflexivity|]. apply acc_ref; [|reflexivity].
      apply (acc_seq sel _ _ _ ["="%char] (w2 ++ t) rest [] [Node k (o + length w1 + 1 + length w2) t kz]); [apply acc_one; left; reflexivity|]. apply acc_must.
      apply acc_blanks_seq; [exact H2|eapply value_stop; exact H|]. apply acc_must. exact Z1.
    + unfold default_of. match goal with |- context [first_child _ [?x]] => change (first_child R_default_value [x]) with (Some x) end.
      cbn [n_children back]. rewrite Z2. reflexivity.
Qed.
Lemma default_head p o d t rest : with_default L atof o d t -> all_bytes (fun c => negb (blank_start c) || negb (p c)) = true -> p "="%char = false ->
  head_not p rest -> head_not p (t ++ rest).
Proof. intros [|o' w1 w2 v u H1 H2 H] B E Hr; [exact Hr|]. rewrite <- app_assoc. apply blanks_head; [exact H1|exact B|exact E]. Qed.
Lemma default_follow p o d t rest : with_default L atof o d t -> p "="%char = false -> follow p rest -> follow p (t ++ rest).
Proof. intros [|o' w1 w2 v u H1 H2 H] E Hr; [exact Hr|]. rewrite <- app_assoc. apply follow_intro; [exact H1|reflexivity|exact E]. Qed.
Lemma dirs_head p o d t rest : optional directives o d t -> all_bytes (fun c => negb (blank_start c) || negb (p c)) = true -> p "@"%char = false ->
  head_not p rest -> head_not p (t ++ rest).
Proof.
  intros [|o' w xs u Hw H] B E Hr; [exact Hr|]. rewrite <- app_assoc. apply blanks_head; [exact Hw|exact B|].
  destruct (directives_starts _ _ _ _ _ H) as (c & r & -> & Hc). apply Ascii.eqb_eq in Hc. subst c. exact E.
Qed.
Lemma dirs_follow p o d t rest : optional directives o d t -> p "@"%char = false -> follow p rest -> follow p (t ++ rest).
Proof.
  intros [|o' w xs u Hw H] E Hr; [exact Hr|]. rewrite <- app_assoc. destruct (directives_starts _ _ _ _ _ H) as (c & r & -> & Hc).
  apply Ascii.eqb_eq in Hc. subst c. apply follow_intro; [exact Hw|reflexivity|exact E].
Qed.

Lemma acc_input_value o x t : input_value o x t -> forall rest, after_item rest ->
  exists n, acc (Ref R_input_field_definition) o t rest [n] /\ typed R_input_field_definition read_input n = Some x.
Proof.
  intros H rest [Hv Hm]. destruct H as [o desc td n w1 w2 ty t d tdef dirs tdirs Hd Hn H1 H2 Ht Hdef Hdirs].
  set (o1 := o + length td + length (chars n) + length w1 + 1 + length w2 + length t) in *.
  destruct (acc_dirs _ _ _ rest Hdirs (or_intror (tidy_ends _ _ (after_value_ends _ Hv))) (marks_follow "("%char _ eq_refl Hm) (marks_follow "@"%char _ eq_refl Hm)) as (nx & A1 & A2).
  assert (after_value (tdirs ++ rest)) as Hv1 by (eapply dirs_head; [exact Hdirs|by_look|reflexivity|exact Hv]).
  assert (follow (Ascii.eqb "="%char) (tdirs ++ rest)) as Hf1 by (eapply dirs_follow; [exact Hdirs|reflexivity|apply marks_follow; [reflexivity|exact Hm]]).
  destruct (acc_default _ _ _ _ Hdef Hv1 Hf1) as (ndef & B1 & B2 & B3).
  assert (ends (tdef ++ tdirs ++ rest)) as He.
  { eapply default_head; [exact Hdef|by_look|reflexivity|apply after_value_ends; exact Hv1]. }
  assert (follow (Ascii.eqb "!"%char) (tdef ++ tdirs ++ rest)) as Hf2.
  { eapply default_follow; [exact Hdef|reflexivity|]. eapply dirs_follow; [exact Hdirs|reflexivity|apply marks_follow; [reflexivity|exact Hm]]. }
  destruct (acc_type sel schema_keeps ty t Ht (o + length td + length (chars n) + length w1 + 1 + length w2) _ He) as [_ A].
  destruct (A Hf2) as (tn & C1 & C2 & C3 & _). clear A.
  set (tl := w1 ++ ":"%char :: w2 ++ t ++ tdef ++ tdirs).
  set (nn := Node R_argument_name (o + length td) (chars n) []).
  destruct (acc_start desc td (Ref R_argument_name) o (chars n) (tl ++ rest) [nn]) as (nd & D1 & D2).
  { exact Hd. } { apply starts_name. exact Hn. }
  { apply acc_named_node; [reflexivity|reflexivity|exact Hn|]. unfold tl. rewrite <- app_assoc. apply ends_blanks; [exact H1|reflexivity]. }
  eexists. split.
  - apply acc_ref; [|reflexivity].
    replace (td ++ chars n ++ tl) with ((td ++ chars n) ++ tl) by (rewrite <- app_assoc; reflexivity).
    apply (acc_seq sel _ _ o (td ++ chars n) tl rest (nd ++ [nn]) ([tn] ++ ndef ++ nx)); [exact D1|].
    apply acc_must. unfold tl.
    replace (w1 ++ ":"%char :: w2 ++ t ++ tdef ++ tdirs) with ((w1 ++ ":"%char :: w2 ++ t) ++ tdef ++ tdirs) by (rewrite <- app_assoc; cbn [app]; rewrite <- app_assoc; reflexivity).
    apply acc_seq.
    + apply acc_blanks_seq; [exact H1|reflexivity|].
      apply (acc_seq sel _ _ _ [":"%char] (w2 ++ t) _ [] [tn]); [apply acc_one; left; reflexivity|].
      apply acc_blanks_seq; [exact H2|eapply starts_head; [eapply type_starts; exact Ht|by_look]|].
      apply acc_must. rewrite <- app_assoc. rewrite app_length. cbn [length]. rewrite Nat.add_assoc. exact C1.
    + match goal with |- acc _ ?p _ _ _ => replace p with o1 by (unfold o1; rewrite !app_length; cbn [length]; rewrite ?app_length; lia) end.
      destruct A2 as [(-> & -> & -> & F)|[A2 _]].
      * rewrite !app_nil_r in *. apply acc_sor_r; [|exact B1]. eapply m_seq with (x := Fail); [exact B1|]. exact F.
      * apply acc_sor_l. apply acc_seq; [exact B1|exact A2].
  - rewrite typed_of, <- app_assoc. apply dirs_maybe in A2.
    exact (input_reads L atof unescape_j _ _ desc nd _ n tn ty ndef nx d D2 C3 C2 B2 (maybe_any L atof _ _ A2) B3).
Qed.

(** Items between brackets. *)
Section Block.
Context {A : Type}.
Variable P : nat -> A -> text -> Prop.
Variable k : rule.
Variable rd : node rule -> option A.
Hypothesis Hfirst : forall o x t, P o x t -> starts opener t.
Hypothesis Hacc : forall o x t, P o x t -> forall rest, after_item rest -> exists n, acc (Ref k) o t rest [n] /\ typed k rd n = Some x.
Variables open close : ascii.
Hypothesis Hclose : goes_on close || blank_start close || marks close = false.
Hypothesis Hfail : look 8 (Ref k) (Some close) = VFail.

Lemma acc_block_items mi o xs t rest : bracketed open close P o xs t ->
  exists ks, (forall mo, acc (one [open] >> Must mo (Star g_ignored >> list_of (Ref k) (plus g_ignored) >> Star g_ignored >> Must mi (one [close]))) o t rest ks)
    /\ acc (one [open] >> Star g_ignored >> list_of (Ref k) (plus g_ignored) >> Star g_ignored >> Must mi (one [close])) o t rest ks
    /\ all rd ks = Some xs /\ only k ks.
Proof.
  intro H. inversion H as [o' w1 xs' t2 w2 H1 Hx H2]; subst; clear H.
  apply orb_false_iff in Hclose as [HC Hc3]. apply orb_false_iff in HC as [Hc1 Hc2].
  destruct (acc_inside sel P (Ref k) (typed k rd) after_item opener eq_refl Hfirst
    (fun w o x t s Hw Hs => after_item_some w (t ++ s) opener Hw (starts_app _ _ _ (Hfirst _ _ _ Hs)) eq_refl eq_refl)
    (S (length t2)) (fun o x t Hx _ rest Hr => Hacc o x t Hx rest Hr) close Hc2
    (fun w s Hw => after_item_close w close s Hw Hc1 Hc2 Hc3) (fun o s => fails_char sel (Ref k) close Hfail s o)
    (o + 1 + length w1) xs t2 w2 rest Hx ltac:(lia) H2) as (ns & A1 & A2).
  apply all_typed in A2 as [A2 O].
  assert (forall mo, acc (one [open] >> Must mo (Star g_ignored >> list_of (Ref k) (plus g_ignored) >> Star g_ignored >> Must mi (one [close]))) o (open :: w1 ++ t2 ++ w2 ++ [close]) rest ns) as Q.
  { intro mo. apply acc_brackets; try assumption. eapply starts_head; [eapply items_start; [exact Hfirst|exact Hx]|by_look]. }
  exists ns. split; [exact Q|]. split; [|auto]. pose proof (Q ""%string) as Q0. unfold PegLook.acc in *.
  apply seq_inv in Q0 as (n1 & o1 & s1 & n2 & Q1 & Q2 & ->). apply must_inv in Q2.
  exact (m_seq grammar sel _ _ o _ n1 o1 s1 (Match n2 _ rest) Q1 Q2).
Qed.
Lemma acc_block_node kb mo mi : grammar kb = (one [open] >> Must mo (Star g_ignored >> list_of (Ref k) (plus g_ignored) >> Star g_ignored >> Must mi (one [close]))) ->
  sel kb = Keep -> forall o xs t rest, bracketed open close P o xs t ->
  exists ns, acc (Ref kb) o t rest ns /\ only kb ns /\ read_block kb rd ns = Some xs.
Proof.
  intros G K o xs t rest H. destruct (acc_block_items mi o xs t rest H) as (ks & A1 & _ & A2 & _). exists [Node kb o t ks].
  split; [apply acc_ref; [rewrite G; apply A1|exact K]|]. split; [apply only_one|].
  unfold read_block, first_child. cbn [List.find]. unfold is_type. cbn [n_type]. destruct (rule_eqb_spec kb kb); [exact A2|contradiction].
Qed.
End Block.

Lemma alpha_opener t : starts is_alpha_ t -> starts opener t.
Proof. intro H. eapply starts_imp; [exact H|]. intros c Hc. unfold opener. rewrite Hc. reflexivity. Qed.
Lemma input_value_starts o x t : input_value o x t -> starts opener t.
Proof. intros [o' desc td n w1 w2 ty u d tdef dirs tdirs Hd Hn _ _ _ _ _]. eapply described_starts; [exact Hd|]. apply starts_app, starts_name. exact Hn. Qed.
Lemma field_starts o x t : field o x t -> starts opener t.
Proof. intros [o' desc td n args ta w1 w2 ty u dirs tdirs Hd Hn _ _ _ _ _]. eapply described_starts; [exact Hd|]. apply starts_app, starts_name. exact Hn. Qed.
Lemma enum_value_starts o x t : enum_value o x t -> starts opener t.
Proof. intros [o' desc td n dirs tdirs Hd Hn _]. eapply described_starts; [exact Hd|]. apply starts_app, starts_name. exact Hn. Qed.
Lemma operation_kinds k kind : In (k, kind) operation_names -> name k /\ operation_kind_of k = Some kind /\ In k ["query"; "mutation"; "subscription"]%string.
Proof.
  intro H. cbn in H. repeat (destruct H as [H|H]; [injection H as <- <-; split; [apply name_decide; reflexivity|split; [reflexivity|cbn; tauto]]|]). contradiction.
Qed.
Lemma root_operation_starts o x t : root_operation o x t -> starts opener t.
Proof. intros [o' k kind w1 w2 n Hk _ _ _]. apply alpha_opener, starts_app, starts_name. apply (operation_kinds _ _ Hk). Qed.

Notation input_values := (input_values L atof unescape_j).
Lemma acc_arguments_definition o xs t rest : input_values o xs t ->
  exists ns, acc (Ref R_arguments_definition) o t rest ns /\ only R_arguments_definition ns /\ read_block R_arguments_definition read_input ns = Some xs.
Proof.
  apply (acc_block_node input_value R_input_field_definition read_input input_value_starts acc_input_value "("%char ")"%char eq_refl ltac:(by_look) R_arguments_definition _ _ eq_refl eq_refl).
Qed.
Lemma acc_input_values o xs t rest : optional input_values o xs t -> follow (Ascii.eqb "("%char) rest ->
  exists ns, acc (opt (Star g_ignored >> Ref R_arguments_definition)) o t rest ns /\ only R_arguments_definition ns
    /\ read_block R_arguments_definition read_input ns = Some xs.
Proof.
  intros H Hr. destruct H as [o|o w xs t Hw Ht].
  - exists []. split; [|split; [apply only_nil|reflexivity]]. apply acc_opt_none. apply (ignored_then_fails sel _ (Ascii.eqb "("%char)); [by_look|by_look|exact Hr].
  - destruct (acc_arguments_definition _ _ _ rest Ht) as (ns & A1 & A2). exists ns. split; [|exact A2].
    apply acc_opt. apply acc_blanks_seq; [exact Hw| |exact A1]. inversion Ht; subst. reflexivity.
Qed.
Lemma input_values_head p o d t rest : optional input_values o d t -> all_bytes (fun c => negb (blank_start c) || negb (p c)) = true -> p "("%char = false ->
  head_not p rest -> head_not p (t ++ rest).
Proof.
  intros [|o' w xs u Hw H] B E Hr; [exact Hr|]. rewrite <- app_assoc. apply blanks_head; [exact Hw|exact B|]. inversion H; subst. exact E.
Qed.

Lemma acc_field o x t : field o x t -> forall rest, after_item rest ->
  exists n, acc (Ref R_field_definition) o t rest [n] /\ typed R_field_definition read_field_definition n = Some x.
Proof.
  intros H rest [Hv Hm]. destruct H as [o desc td n args ta w1 w2 ty t dirs tdirs Hd Hn Ha H1 H2 Ht Hdirs].
  set (o1 := o + length td + length (chars n) + length ta + length w1 + 1 + length w2) in *.
  destruct (acc_dirs _ _ _ rest Hdirs (or_intror (tidy_ends _ _ (after_value_ends _ Hv))) (marks_follow "("%char _ eq_refl Hm) (marks_follow "@"%char _ eq_refl Hm)) as (nx & A1 & A2).
  assert (ends (tdirs ++ rest)) as He by (eapply dirs_head; [exact Hdirs|by_look|reflexivity|apply after_value_ends; exact Hv]).
  assert (follow (Ascii.eqb "!"%char) (tdirs ++ rest)) as Hf by (eapply dirs_follow; [exact Hdirs|reflexivity|apply marks_follow; [reflexivity|exact Hm]]).
  destruct (acc_type sel schema_keeps ty t Ht o1 _ He) as [_ A]. destruct (A Hf) as (tn & C1 & C2 & C3 & _). clear A.
  set (tl := w1 ++ ":"%char :: w2 ++ t ++ tdirs).
  destruct (acc_input_values _ _ _ (tl ++ rest) Ha) as (n3 & B1 & B2 & B3).
  { unfold tl. rewrite <- app_assoc. apply follow_intro; [exact H1|reflexivity..]. }
  set (nn := Node R_field_name (o + length td) (chars n) []).
  destruct (acc_start desc td (Ref R_field_name) o (chars n) ((ta ++ tl) ++ rest) [nn]) as (nd & D1 & D2).
  { exact Hd. } { apply starts_name. exact Hn. }
  { apply acc_named_node; [reflexivity|reflexivity|exact Hn|]. rewrite <- app_assoc. eapply input_values_head; [exact Ha|by_look|reflexivity|].
    unfold tl. rewrite <- app_assoc. apply ends_blanks; [exact H1|reflexivity]. }
  eexists. split.
  - apply acc_ref; [|reflexivity].
    replace (td ++ chars n ++ ta ++ tl) with ((td ++ chars n) ++ ta ++ tl) by (rewrite <- app_assoc; reflexivity).
    apply (acc_seq sel _ _ o (td ++ chars n) (ta ++ tl) rest (nd ++ [nn]) (n3 ++ [tn] ++ nx)); [exact D1|].
    apply acc_must. rewrite app_length, Nat.add_assoc. apply acc_seq; [exact B1|]. unfold tl.
    apply acc_blanks_seq; [exact H1|reflexivity|].
    apply (acc_seq sel _ _ _ [":"%char] (w2 ++ t ++ tdirs) _ [] ([tn] ++ nx)); [apply acc_one; left; reflexivity|].
    apply acc_blanks_seq; [exact H2|rewrite <- app_assoc; eapply starts_head; [eapply type_starts; exact Ht|by_look]|].
    cbn [length]. fold o1. apply acc_seq; [apply acc_must; exact C1|exact A1].
  - rewrite typed_of, <- app_assoc. apply dirs_maybe in A2.
    exact (field_reads L atof unescape_j _ _ desc nd _ n args n3 tn ty dirs nx D2 B2 B3 C3 C2 A2).
Qed.

Lemma acc_enum_name o n rest : name n -> ends rest -> acc (Ref R_enum_value) o (chars n) rest [Node R_enum_value o (chars n) []].
Proof.
  intros Hn Hr. apply acc_ref; [|reflexivity]. apply (acc_seq sel _ _ o [] (chars n) rest [] []).
  - apply acc_not. destruct (string_dec n "true") as [->|N].
    + eapply m_seq with (x := Fail); [apply (acc_ref sel R_true_keyword o (chars "true") rest [] (acc_keyword sel "true"%string o rest Hr) eq_refl)|].
      apply m_seq_fail. apply (fail_head sel _ is_ident); [by_look|by_look|exact Hr].
    + apply m_seq_fail. apply m_ref_fail. apply keyword_fails; auto using name_true.
  - apply acc_name; assumption.
Qed.
Lemma acc_enum_value o x t : enum_value o x t -> forall rest, after_item rest ->
  exists n, acc (Ref R_enum_value_definition) o t rest [n] /\ typed R_enum_value_definition read_enum_value n = Some x.
Proof.
  intros H rest [Hv Hm]. destruct H as [o desc td n dirs tdirs Hd Hn Hdirs].
  destruct (acc_dirs _ _ _ rest Hdirs (or_intror (tidy_ends _ _ (after_value_ends _ Hv))) (marks_follow "("%char _ eq_refl Hm) (marks_follow "@"%char _ eq_refl Hm)) as (nx & A1 & A2).
  assert (ends (tdirs ++ rest)) as He by (eapply dirs_head; [exact Hdirs|by_look|reflexivity|apply after_value_ends; exact Hv]).
  set (nn := Node R_enum_value (o + length td) (chars n) []).
  destruct (acc_start desc td (Ref R_enum_value) o (chars n) (tdirs ++ rest) [nn]) as (nd & D1 & D2).
  { exact Hd. } { apply starts_name. exact Hn. } { apply acc_enum_name; [exact Hn|exact He]. }
  eexists. split.
  - apply acc_ref; [|reflexivity].
    replace (td ++ chars n ++ tdirs) with ((td ++ chars n) ++ tdirs) by (rewrite <- app_assoc; reflexivity).
    apply (acc_seq sel _ _ o (td ++ chars n) tdirs rest (nd ++ [nn]) nx); [exact D1|].
    apply acc_must. rewrite app_length, Nat.add_assoc. exact A1.
  - rewrite typed_of, <- app_assoc. apply dirs_maybe in A2. exact (enum_value_reads L atof unescape_j _ _ desc nd _ n dirs nx D2 A2).
Qed.

Lemma acc_operation_kind o k rest : In k ["query"; "mutation"; "subscription"]%string -> ends rest ->
  acc (Ref R_operation_type) o (chars k) rest [Node R_operation_type o (chars k) []].
Proof.
  intros Hk Hr. apply acc_ref; [|reflexivity]. cbn in Hk. destruct Hk as [<-|[<-|[<-|[]]]].
  - apply acc_sor_l. apply acc_keyword. exact Hr.
  - apply acc_sor_r; [apply fails_char; by_look|]. apply acc_sor_l. apply acc_keyword. exact Hr.
  - apply acc_sor_r; [apply fails_char; by_look|]. apply acc_sor_r; [apply fails_char; by_look|]. apply acc_keyword. exact Hr.
Qed.
Lemma acc_root_operation kr : grammar kr = g_root_operation_definition -> sel kr = Keep -> forall o x t, root_operation o x t -> forall rest, after_item rest ->
  exists n, acc (Ref kr) o t rest [n] /\ typed kr read_operation_type n = Some x.
Proof.
  intros G K o x t H rest [Hv _]. destruct H as [o k kind w1 w2 n Hk H1 H2 Hn].
  destruct (operation_kinds _ _ Hk) as (Nk & Ek & Hk').
  set (nk := Node R_operation_type o (chars k) []). set (nn := Node R_named_type (o + length (chars k) + length w1 + 1 + length w2) (chars n) []).
  exists (Node kr o (chars k ++ w1 ++ ":"%char :: w2 ++ chars n) [nk; nn]). split.
  - apply acc_ref; [|exact K]. rewrite G. apply (acc_seq sel _ _ o (chars k) _ rest [nk] [nn]).
    + apply acc_operation_kind; [exact Hk'|]. rewrite <- app_assoc. apply ends_blanks; [exact H1|reflexivity].
    + apply acc_must. apply acc_blanks_seq; [exact H1|reflexivity|].
      apply (acc_seq sel _ _ _ [":"%char] (w2 ++ chars n) rest [] [nn]); [apply acc_one; left; reflexivity|].
      apply acc_blanks_seq; [exact H2|eapply starts_head; [apply starts_name; exact Hn|by_look]|].
      apply acc_named_node; [reflexivity|reflexivity|exact Hn|apply after_value_ends; exact Hv].
  - rewrite typed_of. unfold read_operation_type. cbn [n_children app front back]. unfold text_of, nk, nn. cbn [n_content]. rewrite !str_chars, Ek. reflexivity.
Qed.

(** ** The kinds of contents. *)
Notation fields := (fields L atof unescape_j).
Notation input_fields := (input_fields L atof unescape_j).
Notation enum_values := (enum_values L atof unescape_j).
Lemma acc_fields o xs t rest : fields o xs t ->
  exists ns, acc (Ref R_fields_definition) o t rest ns /\ only R_fields_definition ns /\ read_block R_fields_definition read_field_definition ns = Some xs.
Proof. apply (acc_block_node field R_field_definition read_field_definition field_starts acc_field "{"%char "}"%char eq_refl ltac:(by_look) R_fields_definition _ _ eq_refl eq_refl). Qed.
Lemma acc_input_fields o xs t rest : input_fields o xs t ->
  exists ns, acc (Ref R_input_fields_definition) o t rest ns /\ only R_input_fields_definition ns /\ read_block R_input_fields_definition read_input ns = Some xs.
Proof. apply (acc_block_node input_value R_input_field_definition read_input input_value_starts acc_input_value "{"%char "}"%char eq_refl ltac:(by_look) R_input_fields_definition _ _ eq_refl eq_refl). Qed.
Lemma acc_enum_values o xs t rest : enum_values o xs t ->
  exists ns, acc g_enum_values_definition o t rest ns /\ only R_enum_value_definition ns /\ all read_enum_value ns = Some xs.
Proof.
  intro H. destruct (acc_block_items enum_value R_enum_value_definition read_enum_value enum_value_starts acc_enum_value "{"%char "}"%char eq_refl ltac:(by_look)
    "Expected }"%string o xs t rest H) as (ks & A1 & _ & A2 & A3). exists ks. split; [apply A1|auto].
Qed.
Lemma acc_root_operations kr o xs t rest : grammar kr = g_root_operation_definition -> sel kr = Keep -> look 8 (Ref kr) (Some "}"%char) = VFail ->
  bracketed "{"%char "}"%char root_operation o xs t ->
  exists ns, acc (one ["{"%char] >> Star g_ignored >> list_of (Ref kr) (plus g_ignored) >> Star g_ignored >> Must "Expected }" (one ["}"%char])) o t rest ns
    /\ only kr ns /\ all read_operation_type ns = Some xs.
Proof.
  intros G K F H. destruct (acc_block_items root_operation kr read_operation_type root_operation_starts (acc_root_operation kr G K) "{"%char "}"%char eq_refl F
    "Expected }"%string o xs t rest H) as (ks & _ & A1 & A2 & A3). exists ks. auto.
Qed.

(** ** Names with separators. *)
Lemma acc_separated {A} (P : nat -> A -> text -> Prop) k (rd : node rule -> option A) c
  (Hfirst : forall o x t, P o x t -> starts is_alpha_ t)
  (Hacc : forall o x t, P o x t -> forall rest, ends rest -> exists n, acc (Ref k) o t rest [n] /\ typed k rd n = Some x)
  (Hany : forall o p x t, P o x t -> P p x t) (Hc : is_ident c = false) (Hb : blank_start c = false) :
  forall o xs t rest, items (separator c) P 0 xs t -> ends rest -> follow (Ascii.eqb c) rest ->
  exists ns, acc (list_of (Ref k) (Star g_ignored >> one [c] >> Star g_ignored)) o t rest ns /\ all rd ns = Some xs /\ only k ns.
Proof.
  intros o xs t rest H He Hf. apply (items_any _ _ Hany) with (p := o) in H.
  assert (exists n t1 t2 ns, t = t1 ++ t2 /\ acc (Ref k) o t1 (t2 ++ rest) [n] /\ acc (Star ((Star g_ignored >> one [c] >> Star g_ignored) >> Ref k)) (o + length t1) t2 rest ns
      /\ all (typed k rd) (n :: ns) = Some xs) as (n & t1 & t2 & ns & E & A1 & A2 & A3).
  2:{ apply all_typed in A3. exists ([n] ++ ns). split; [|exact A3]. rewrite E. apply acc_seq; assumption. }
  induction H as [o x t Hx|o x t w xs t' Hx Hw Hxs IH].
  - destruct (Hacc _ _ _ Hx rest He) as (n & A1 & A2). exists n, t, [], []. rewrite app_nil_r. split; [reflexivity|].
    split; [exact A1|]. split; [|cbn; rewrite A2; reflexivity]. apply acc_star_nil. apply m_seq_fail.
    destruct Hf as [Hf|(v & s & -> & Hv & Hs & Hn)].
    + pose proof (acc_trailing sel rest Hf (o + length t)) as T. unfold PegLook.acc in T. rewrite app_nil_r in T.
      eapply m_seq with (x := Fail); [exact T|]. apply m_seq_fail. constructor.
    + eapply m_seq with (x := Fail); [apply (acc_blanks sel v Hv _ s Hs)|]. apply m_seq_fail. apply chr_fail.
      destruct s as [|d s]; [exact I|]. cbn in *. rewrite Ascii.eqb_sym, Hn. reflexivity.
  - destruct IH as (n & t1 & t2 & ns & -> & A1 & A2 & A3).
    assert (starts is_alpha_ (t1 ++ t2)) as St by (eapply items_start; [exact Hfirst|exact Hxs]).
    destruct Hw as (w1 & w2 & -> & Hw1 & Hw2).
    destruct (Hacc _ _ _ Hx (((w1 ++ c :: w2) ++ t1 ++ t2) ++ rest)) as (m & B1 & B2).
    { rewrite <- !app_assoc. apply ends_blanks; [exact Hw1|]. cbn. exact Hc. }
    exists m, t, ((w1 ++ c :: w2) ++ t1 ++ t2), ([n] ++ ns). split; [reflexivity|]. split; [exact B1|]. split.
    + rewrite app_assoc. apply acc_star_cons.
      * apply (acc_seq sel _ _ _ (w1 ++ c :: w2) t1 _ [] [n]).
        -- apply acc_blanks_seq; [exact Hw1|exact Hb|].
           apply (acc_seq sel _ _ _ [c] w2 _ [] []); [apply acc_one; left; reflexivity|]. apply acc_blanks; [exact Hw2|].
           rewrite app_assoc. eapply starts_head; [exact St|by_look].
        -- exact A1.
      * rewrite app_length, Nat.add_assoc. exact A2.
    + cbn [app]. cbn [all]. cbn [all] in A3. rewrite B2. rewrite A3. reflexivity.
Qed.

Lemma acc_names c k o xs t rest : grammar k = g_name -> sel k = Keep -> is_ident c = false -> blank_start c = false ->
  names c xs t -> ends rest -> follow (Ascii.eqb c) rest ->
  exists ns, acc (list_of (Ref k) (Star g_ignored >> one [c] >> Star g_ignored)) o t rest ns /\ map text_of ns = xs /\ only k ns.
Proof.
  intros G K Hc Hb H He Hf.
  destruct (acc_separated SdlSpec.a_name k (fun n => Some (text_of n)) c) with (o := o) (xs := xs) (t := t) (rest := rest) as (ns & A1 & A2 & A3); try assumption.
  - intros o' x t' [Hn ->]. apply starts_name. exact Hn.
  - intros o' x t' [Hn ->] rest' Hr. exists (Node k o' (chars x) []). split; [apply acc_named_node; assumption|].
    rewrite typed_of. unfold text_of. cbn [n_content]. rewrite str_chars. reflexivity.
  - intros o' p' x t' X. exact X.
  - exists ns. rewrite all_some in A2. injection A2 as A2. auto.
Qed.
Lemma names_starts c xs t : names c xs t -> starts is_alpha_ t.
Proof. intro H. eapply items_start; [|exact H]. intros o x u [Hn ->]. apply starts_name. exact Hn. Qed.
Lemma items_last {A} sep (P : nat -> A -> text -> Prop) o xs t : items sep P o xs t -> exists a p x u, t = a ++ u /\ P p x u.
Proof.
  induction 1 as [o x t H|o x t w xs t' H Hw _ IH]; [exists [], o, x, t; auto|].
  destruct IH as (a & p & y & u & -> & Hy). exists (t ++ w ++ a), p, y, u. rewrite <- !app_assoc. auto.
Qed.
Lemma names_tidy c xs t a rest : names c xs t -> tidy (a ++ t) rest -> ends rest.
Proof.
  intros H T. destruct (items_last _ _ _ _ _ H) as (b & p & x & u & -> & [Hx ->]). rewrite app_assoc in T. eapply tidy_name; eassumption.
Qed.
Lemma acc_leading c r o w t rest ns : leading c w -> starts is_alpha_ t -> is_alpha_ c = false -> blank_start c = false ->
  acc r (o + length w) t rest ns ->
  acc (opt (Star g_ignored >> one [c]) >> Star g_ignored >> r) o (w ++ t) rest ns.
Proof.
  intros Hw Ht Ha Hb H. assert (stop (t ++ rest)) as St by (eapply starts_head; [exact Ht|by_look]).
  destruct Hw as [Hw|(w1 & w2 & -> & H1 & H2)].
  - apply (acc_seq sel _ _ o [] (w ++ t) rest [] ns).
    + apply acc_opt_none. rewrite <- app_assoc. eapply m_seq with (x := Fail); [apply (acc_blanks sel w Hw o _ St)|]. apply chr_fail.
      destruct Ht as (d & r' & -> & Hd). cbn. destruct (Ascii.eqb_spec d c); [congruence|reflexivity].
    + apply acc_blanks_seq; [exact Hw|exact St|]. cbn [length]. rewrite Nat.add_0_r. exact H.
  - replace ((w1 ++ c :: w2) ++ t) with ((w1 ++ [c]) ++ w2 ++ t) by (rewrite <- !app_assoc; reflexivity).
    apply (acc_seq sel _ _ o (w1 ++ [c]) (w2 ++ t) rest [] ns).
    + apply acc_opt. apply acc_blanks_seq; [exact H1|exact Hb|]. apply acc_one. left. reflexivity.
    + apply acc_blanks_seq; [exact H2|exact St|]. rewrite !app_length in *. cbn [length] in *.
      replace (o + (length w1 + 1) + length w2) with (o + (length w1 + S (length w2))) by lia. exact H.
Qed.

Lemma acc_members o xs t rest : members o xs t -> tidy t rest -> next rest ->
  exists ns, acc g_union_member_types o t rest ns /\ (only R_union_type ns /\ map text_of ns = xs).
Proof.
  intros H T Hn. destruct H as [o l ns t Hl Hns].
  destruct (acc_names "|"%char R_union_type (o + 1 + length l) ns t rest eq_refl eq_refl eq_refl eq_refl Hns) as (ks & A1 & A2 & A3).
  { eapply (names_tidy _ _ _ ("="%char :: l)); eassumption. }
  { apply next_follow; [by_look|exact Hn]. }
  exists ks. split; [|auto]. apply (acc_seq sel _ _ o ["="%char] (l ++ t) rest [] ks); [apply acc_one; left; reflexivity|].
  apply acc_must. apply acc_leading; [exact Hl|eapply names_starts; exact Hns|reflexivity|reflexivity|exact A1].
Qed.

Lemma leading_ends c l s : leading c l -> l <> [] -> is_ident c = false -> ends (l ++ s).
Proof.
  intros [H|(w1 & w2 & -> & H1 & H2)] N Hc; [apply ends_some; split; assumption|]. rewrite <- app_assoc. apply ends_blanks; [exact H1|exact Hc].
Qed.
Lemma acc_implements o xs t rest : implements xs t -> t <> [] -> ends rest -> follow (Ascii.eqb "&"%char) rest ->
  exists ns, acc (plus g_ignored >> g_implements_interfaces) o t rest ns /\ map text_of ns = xs /\ only R_interface_type ns.
Proof.
  intros H N He Hf. destruct H as [|w l ns t Hw Hl Nl Hns]; [congruence|].
  destruct (acc_names "&"%char R_interface_type (o + length w + 10 + length l) ns t rest eq_refl eq_refl eq_refl eq_refl Hns He Hf) as (ks & A1 & A2 & A3).
  exists ks. split; [|auto]. apply acc_some_blanks_seq; [exact Hw|reflexivity|].
  apply (acc_seq sel _ _ _ (chars "implements") (l ++ t) rest [] ks).
  - apply acc_keyword. rewrite <- app_assoc. apply (leading_ends "&"%char); [exact Hl|exact Nl|reflexivity].
  - apply acc_must. apply acc_leading; [exact Hl|eapply names_starts; exact Hns|reflexivity|reflexivity|]. exact A1.
Qed.

(** ** Bodies. *)
Lemma next_starts_off p rest : all_bytes (fun c => negb (opener c) || negb (p c)) = true -> all_bytes (fun c => negb (blank_start c) || negb (p c)) = true ->
  next rest -> head_not p rest.
Proof.
  intros Hp Hb [[w Hw|w body Hw _]|(w & u & -> & Hw & Hu)].
  - rewrite <- (app_nil_r w). apply blanks_head; [exact Hw|exact Hb|exact I].
  - apply blanks_head; [exact Hw|exact Hb|]. cbn. eapply (disjoint blank_start); [exact Hb|reflexivity].
  - apply blanks_head; [exact Hw|exact Hb|]. eapply starts_not; [apply opening_starts; exact Hu|exact Hp].
Qed.
(** What is ignored before the next definition, and where it starts. *)
Lemma next_split r o rest : fails_on r opener = true -> look 8 r None = VFail -> next rest ->
  exists v s, rest = v ++ s /\ acc (Star g_ignored) o v s [] /\ forall o, M r o s Fail.
Proof.
  intros H E [Hr|(w & u & -> & Hw & Hu)].
  - exists rest, []. rewrite app_nil_r. split; [reflexivity|]. split; [apply acc_trailing; exact Hr|]. intro o'. apply fails_end. exact E.
  - apply opening_starts in Hu. exists w, u. split; [reflexivity|]. split; [apply acc_blanks; [exact Hw|eapply starts_not; [exact Hu|by_look]]|].
    intro o'. eapply start_fails; eassumption.
Qed.

Section Body.
Context {A : Type}.
Variable P : nat -> list A -> text -> Prop.
Variable b : ex.
Variable Q : list A -> list (node rule) -> Prop.
Variable f : ascii.
Hypothesis Hfirst : forall o xs t, P o xs t -> starts (Ascii.eqb f) t.
Hypothesis Hf : blank_start f || is_ident f || Ascii.eqb "("%char f || Ascii.eqb "@"%char f = false.
Hypothesis Hb : fails_on b (fun c => negb (Ascii.eqb f c)) = true.
Hypothesis Hb1 : fails_on b opener = true.
Hypothesis Hb0 : look 8 b None = VFail.
Hypothesis Hacc : forall o xs t rest, P o xs t -> tidy t rest -> next rest -> exists ns, acc b o t rest ns /\ Q xs ns.

Lemma first_off p o xs t s : P o xs t -> p f = false -> head_not p (t ++ s).
Proof. intros H E. destruct (Hfirst _ _ _ H) as (c & r & -> & Hc). apply Ascii.eqb_eq in Hc. subst c. exact E. Qed.
Lemma f_facts : blank_start f = false /\ is_ident f = false /\ Ascii.eqb "("%char f = false /\ Ascii.eqb "@"%char f = false.
Proof.
  pose proof Hf as H. apply orb_false_iff in H as [H H4]. apply orb_false_iff in H as [H H3]. apply orb_false_iff in H as [H1 H2]. auto.
Qed.
Lemma content_fails o rest : next rest -> M (Star g_ignored >> b) o rest Fail.
Proof.
  intro Hn. destruct (next_split b o rest Hb1 Hb0 Hn) as (v & s & -> & A1 & A2). eapply m_seq with (x := Fail); [exact A1|apply A2].
Qed.

(** Directives and contents. *)
Lemma acc_contents o dirs td w xs t rest : optional directives o dirs td -> blanks w -> P (o + length td + length w) xs t -> tidy t rest -> next rest ->
  exists ns, acc (opt dirs_there >> (Star g_ignored >> b)) o (td ++ w ++ t) rest ns /\ body_nodes Q xs ns.
Proof.
  intros Hd Hw Hp T Hn. destruct f_facts as (F1 & F2 & F3 & F4).
  destruct (Hacc _ _ _ rest Hp T Hn) as (n2 & A1 & A2).
  destruct (acc_dirs _ _ _ ((w ++ t) ++ rest) Hd) as (n1 & B1 & B2).
  { right. apply tidy_ends. rewrite <- app_assoc. apply ends_blanks; [exact Hw|]. apply (first_off _ _ _ _ _ Hp F2). }
  { rewrite <- app_assoc. apply follow_intro; [exact Hw|apply (first_off _ _ _ _ _ Hp F1)|apply (first_off _ _ _ _ _ Hp F3)]. }
  { rewrite <- app_assoc. apply follow_intro; [exact Hw|apply (first_off _ _ _ _ _ Hp F1)|apply (first_off _ _ _ _ _ Hp F4)]. }
  exists (n1 ++ n2). split.
  - apply acc_seq; [exact B1|]. apply acc_blanks_seq; [exact Hw|apply (first_off _ _ _ _ _ Hp F1)|exact A1].
  - apply dirs_maybe in B2. exists n1, n2. split; [reflexivity|]. split; [apply any_dirs_only, (maybe_any L atof _ _ B2)|auto].
Qed.
Lemma acc_body o xs t rest : body L atof P o xs t -> t = [] \/ tidy t rest -> next rest ->
  exists ns, acc ((opt dirs_there >> (Star g_ignored >> b)) </> opt dirs_there) o t rest ns /\ body_nodes Q xs ns.
Proof.
  intros H T Hn. destruct H as [o dirs td xs t Hd Ht]. inversion Ht as [o'|o' w xs' u Hw Hu]; subst; clear Ht.
  - rewrite app_nil_r in *. destruct (acc_dirs _ _ _ rest Hd T) as (n1 & B1 & B2); [apply next_follow; [by_look|exact Hn]..|].
    exists n1. split.
    + apply acc_sor_r; [|exact B1]. change Fail with (prepend n1 (@Fail rule)). eapply m_seq; [exact B1|]. apply content_fails. exact Hn.
    + apply dirs_maybe in B2. exists n1, []. split; [symmetry; apply app_nil_r|]. split; [apply any_dirs_only, (maybe_any L atof _ _ B2)|auto].
  - assert (u <> []) as Nu by (destruct (Hfirst _ _ _ Hu) as (c & r & -> & _); discriminate).
    assert (tidy u rest) as Tu.
    { destruct T as [T|T]; [apply app_eq_nil in T as [_ T]; apply app_eq_nil in T as [_ T]; contradiction|]. rewrite app_assoc in T. eapply tidy_suffix; eassumption. }
    destruct (acc_contents _ _ _ _ _ _ _ Hd Hw Hu Tu Hn) as (ns & A1 & A2). exists ns. split; [apply acc_sor_l; exact A1|exact A2].
Qed.
Lemma acc_extension o xs t rest : body L atof P o xs t -> t <> [] -> tidy t rest -> next rest ->
  exists ns, acc (Star g_ignored >> ((opt (Ref R_directives >> Star g_ignored) >> b) </> Ref R_directives)) o t rest ns /\ body_nodes Q xs ns.
Proof.
  intros H N T Hn. destruct f_facts as (F1 & F2 & F3 & F4).
  destruct H as [o dirs td xs t Hd Ht]. inversion Hd as [o'|o' v ds d Hv Hds]; subst; clear Hd; inversion Ht as [o'|o' w xs' u Hw Hu]; subst; clear Ht.
  - exfalso; apply N; reflexivity.
  - cbn [app length] in *. rewrite Nat.add_0_r in *.
    assert (u <> []) as Nu by (destruct (Hfirst _ _ _ Hu) as (c & r & -> & _); discriminate).
    destruct (Hacc _ _ _ rest Hu (tidy_suffix _ _ _ Nu T) Hn) as (n2 & A1 & A2). exists n2. split.
    + apply acc_blanks_seq; [exact Hw|apply (first_off _ _ _ _ _ Hu F1)|]. apply acc_sor_l. apply (acc_seq sel _ _ _ [] u rest [] n2).
      * apply acc_opt_none. apply m_seq_fail. destruct (Hfirst _ _ _ Hu) as (c & r & -> & Hc). apply Ascii.eqb_eq in Hc. subst c.
        apply (fails_head sel (Ref R_directives) (fun c => negb (Ascii.eqb "@"%char c))); [by_look|]. rewrite F4. reflexivity.
      * cbn [length]. rewrite Nat.add_0_r. exact A1.
    + exists [], n2. split; [reflexivity|]. split; [apply only_nil|auto].
  - rewrite app_nil_r in *. pose proof (directives_starts _ _ _ _ _ Hds) as St.
    destruct (acc_directives_tidy _ _ _ rest Hds) as (ks & A1 & A2).
    { eapply tidy_suffix; [|exact T]. destruct St as (c & r & -> & _). discriminate. }
    { apply next_follow; [by_look|exact Hn]. } { apply next_follow; [by_look|exact Hn]. }
    eexists. split.
    + apply acc_blanks_seq; [exact Hv|eapply starts_head; [exact St|by_look]|]. apply acc_sor_r; [|exact A1].
      destruct (next_split b (o + length v + length d) rest Hb1 Hb0 Hn) as (w' & s & -> & B1 & B2).
      apply (m_seq grammar sel _ _ (o + length v) (d ++ w' ++ s) ([Node R_directives (o + length v) d ks] ++ []) (o + length v + length d + length w') s Fail); [|apply B2]. apply m_sor_l.
      apply (m_seq grammar sel _ _ _ _ [Node R_directives (o + length v) d ks] (o + length v + length d) (w' ++ s) (Match [] _ s)); [exact A1|exact B1].
    + eexists [_], []. split; [reflexivity|]. split; [apply only_one|auto].
  - assert (u <> []) as Nu by (destruct (Hfirst _ _ _ Hu) as (c & r & -> & _); discriminate).
    pose proof (directives_starts _ _ _ _ _ Hds) as St.
    assert (tidy u rest) as Tu by (rewrite app_assoc in T; eapply tidy_suffix; eassumption).
    destruct (Hacc _ _ _ rest Hu Tu Hn) as (n2 & A1 & A2).
    destruct (acc_directives_tidy _ _ _ ((w ++ u) ++ rest) Hds) as (ks & B1 & B2).
    { apply tidy_ends. rewrite <- app_assoc. apply ends_blanks; [exact Hw|]. apply (first_off _ _ _ _ _ Hu F2). }
    { rewrite <- app_assoc. apply follow_intro; [exact Hw|apply (first_off _ _ _ _ _ Hu F1)|apply (first_off _ _ _ _ _ Hu F3)]. }
    { rewrite <- app_assoc. apply follow_intro; [exact Hw|apply (first_off _ _ _ _ _ Hu F1)|apply (first_off _ _ _ _ _ Hu F4)]. }
    exists ([Node R_directives (o + length v) d ks] ++ n2). split.
    + rewrite <- app_assoc. apply acc_blanks_seq; [exact Hv|rewrite <- app_assoc; eapply starts_head; [exact St|by_look]|]. apply acc_sor_l.
      rewrite app_assoc. apply acc_seq.
      * apply acc_opt. apply (acc_seq sel _ _ _ d w _ [_] []); [rewrite app_assoc; exact B1|]. apply acc_blanks; [exact Hw|apply (first_off _ _ _ _ _ Hu F1)].
      * rewrite app_length in *. replace (o + length v + (length d + length w)) with (o + (length v + length d) + length w) by lia. exact A1.
    + eexists [_], n2. split; [reflexivity|]. split; [apply only_one|auto].
Qed.
End Body.

(** ** Object types. *)
Notation implements_there := (plus g_ignored >> g_implements_interfaces).
Notation implements_opt := (opt implements_there).
Notation fields_there := (Star g_ignored >> Ref R_fields_definition).
Notation object_nodes := (object_nodes L atof unescape_j).
Notation field_nodes := (fun xs ns => only R_fields_definition ns /\ read_block R_fields_definition read_field_definition ns = Some xs).

Lemma fields_starts o xs t : fields o xs t -> starts (Ascii.eqb "{"%char) t.
Proof. intro H. inversion H; subst. apply starts_eqb. Qed.
Lemma acc_fields' o xs t rest : fields o xs t -> tidy t rest -> next rest ->
  exists ns, acc (Ref R_fields_definition) o t rest ns /\ field_nodes xs ns.
Proof. intros H _ _. apply acc_fields. exact H. Qed.
Lemma body_head {A} (P : nat -> list A -> text -> Prop) f (Hfirst : forall o xs t, P o xs t -> starts (Ascii.eqb f) t) p o xs t rest :
  body L atof P o xs t -> all_bytes (fun c => negb (blank_start c) || negb (p c)) = true -> p "@"%char = false -> p f = false -> head_not p rest -> head_not p (t ++ rest).
Proof.
  intros [o' dirs td ys u Hd Hu] Hb Ha Hf Hr. rewrite <- app_assoc. eapply dirs_head; [exact Hd|exact Hb|exact Ha|].
  destruct Hu as [|o2 w zs v Hw Hv]; [exact Hr|]. rewrite <- app_assoc. apply blanks_head; [exact Hw|exact Hb|].
  destruct (Hfirst _ _ _ Hv) as (c & r & -> & Hc). apply Ascii.eqb_eq in Hc. subst c. exact Hf.
Qed.
Lemma body_follow {A} (P : nat -> list A -> text -> Prop) f (Hfirst : forall o xs t, P o xs t -> starts (Ascii.eqb f) t) p o xs t rest :
  body L atof P o xs t -> p "@"%char = false -> p f = false -> blank_start f = false -> follow p rest -> follow p (t ++ rest).
Proof.
  intros [o' dirs td ys u Hd Hu] Ha Hf Hb Hr. rewrite <- app_assoc. eapply dirs_follow; [exact Hd|exact Ha|].
  destruct Hu as [|o2 w zs v Hw Hv]; [exact Hr|]. rewrite <- app_assoc.
  destruct (Hfirst _ _ _ Hv) as (c & r & -> & Hc). apply Ascii.eqb_eq in Hc. subst c. apply follow_intro; [exact Hw|exact Hb|exact Hf].
Qed.
Lemma body_ends {A} (P : nat -> list A -> text -> Prop) f (Hfirst : forall o xs t, P o xs t -> starts (Ascii.eqb f) t) o xs t rest a n :
  body L atof P o xs t -> is_ident f = false -> name n -> tidy ((a ++ chars n) ++ t) rest -> ends (t ++ rest).
Proof.
  intros [o' dirs td ys u Hd Hu] Hf Hn T. destruct Hd as [o'|o' w ds v Hw Hv].
  - cbn [app] in *. destruct Hu as [o2|o2 w zs v Hw Hv].
    + rewrite app_nil_r in T. cbn [app]. eapply tidy_name; eassumption.
    + rewrite <- app_assoc. apply ends_blanks; [exact Hw|]. destruct (Hfirst _ _ _ Hv) as (c & r & -> & Hc). apply Ascii.eqb_eq in Hc. subst c. exact Hf.
  - rewrite <- !app_assoc. apply ends_blanks; [exact Hw|]. eapply starts_head; [eapply directives_starts; exact Hv|by_look].
Qed.
Lemma no_implements o dirs td xs u rest p : optional directives o dirs td -> optional fields (o + length td) xs u -> next rest ->
  M implements_there p ((td ++ u) ++ rest) Fail.
Proof.
  intros Hd Hu Hn. rewrite <- app_assoc. destruct Hd as [o'|o' w ds v Hw Hv].
  - destruct Hu as [o2|o2 w zs v Hw Hv]; [apply next_no_implements; exact Hn|]. cbn [app]. rewrite <- app_assoc.
    apply (some_ignored_then_fails sel _ is_alpha_); [by_look|by_look|].
    apply follow_intro; [exact Hw|eapply starts_head; [eapply fields_starts; exact Hv|by_look]..].
  - rewrite <- app_assoc. apply (some_ignored_then_fails sel _ is_alpha_); [by_look|by_look|].
    apply follow_intro; [exact Hw|eapply starts_head; [eapply directives_starts; exact Hv|by_look]..].
Qed.
Lemma implements_nil is ti : implements is ti -> ti = [] -> is = [].
Proof. intros [|w l ns t [_ Hw] _ _ _] E; [reflexivity|]. apply app_eq_nil in E as [-> _]. congruence. Qed.
Lemma implements_last is ti : implements is ti -> ti <> [] -> exists a n, name n /\ ti = a ++ chars n.
Proof.
  intros H N. destruct H as [|w l ns t Hw Hl Nl Hns]; [congruence|].
  destruct (items_last _ _ _ _ _ Hns) as (a & p & x & u & -> & [Hx ->]). exists (w ++ chars "implements" ++ l ++ a), x. rewrite <- !app_assoc. auto.
Qed.

Lemma acc_object_body last (Hlast : last = implements_opt \/ last = implements_there) o is ti xs t rest : implements is ti -> body L atof fields (o + length ti) xs t ->
  (last = implements_there -> ti ++ t <> []) -> ti ++ t = [] \/ tidy (ti ++ t) rest -> next rest ->
  exists ns, acc ((implements_opt >> opt dirs_there >> fields_there) </> (implements_opt >> dirs_there) </> last) o (ti ++ t) rest ns /\ object_nodes is xs ns.
Proof.
  intros Hi Hb Hne T Hn. inversion Hb as [o' dirs td xs' u Hd Hu]; subst.
  (* the interfaces *)
  assert (exists ni, acc implements_opt o ti ((td ++ u) ++ rest) ni /\ map text_of ni = is /\ only R_interface_type ni /\ (ti <> [] -> acc implements_there o ti ((td ++ u) ++ rest) ni))
    as (ni & I1 & I2 & I3 & I4).
  { destruct ti as [|c ti].
    - exists []. rewrite (implements_nil _ _ Hi eq_refl).
      split; [apply acc_opt_none; eapply no_implements; eassumption|]. split; [reflexivity|]. split; [apply only_nil|congruence].
    - remember (c :: ti) as ti' eqn:Et. assert (ti' <> []) as N by (subst ti'; discriminate). clear c ti Et.
      destruct (implements_last _ _ Hi N) as (a & n & Hname & Ea).
      destruct T as [T|T]; [apply app_eq_nil in T as [-> _]; congruence|].
      destruct (acc_implements o is ti' ((td ++ u) ++ rest) Hi N) as (ni & A1 & A2 & A3).
      { eapply (body_ends fields "{"%char fields_starts); [exact Hb|reflexivity|exact Hname|]. rewrite <- Ea. exact T. }
      { eapply (body_follow fields "{"%char fields_starts); [exact Hb|reflexivity|reflexivity|reflexivity|]. apply next_follow; [by_look|exact Hn]. }
      exists ni. split; [apply acc_opt; exact A1|auto]. }
  inversion Hu as [o2|o2 w zs v Hw Hv]; subst; clear Hu.
  - (* no fields *)
    rewrite app_nil_r in *.
    assert (td = [] \/ tidy td rest) as Td.
    { destruct td as [|c td]; [auto|]. right. destruct T as [T|T]; [apply app_eq_nil in T as [_ T]; discriminate|]. eapply tidy_suffix; [discriminate|exact T]. }
    destruct (acc_dirs _ _ _ rest Hd Td) as (nd & B1 & B2); [apply next_follow; [by_look|exact Hn]..|].
    assert (forall p, M fields_there p rest Fail) as F by (intro p; apply (content_fails (Ref R_fields_definition)); [by_look|by_look|exact Hn]).
    assert (M (implements_opt >> opt dirs_there >> fields_there) o ((ti ++ td) ++ rest) Fail) as F1.
    { rewrite <- app_assoc. change Fail with (prepend ni (@Fail rule)). eapply m_seq; [exact I1|]. change Fail with (prepend nd (@Fail rule)). eapply m_seq; [exact B1|apply F]. }
    pose proof (dirs_maybe _ _ _ _ _ B2) as Nx. exists (ni ++ nd). split.
    + apply acc_sor_r; [exact F1|]. destruct B2 as [(-> & -> & -> & B2)|[B2 _]].
      * rewrite !app_nil_r in *. apply acc_sor_r.
        -- change Fail with (prepend ni (@Fail rule)). eapply m_seq; [exact I1|]. exact B2.
        -- destruct Hlast as [->| ->]; [exact I1|]. apply I4. apply Hne. reflexivity.
      * apply acc_sor_l. apply acc_seq; [exact I1|exact B2].
    + exists ni, nd, []. rewrite app_nil_r. split; [reflexivity|]. split; [reflexivity|]. split; [exact I3|].
      split; [apply any_dirs_only, (maybe_any L atof _ _ Nx)|]. split; [apply only_nil|reflexivity].
  - assert (v <> []) as Nv by (destruct (fields_starts _ _ _ Hv) as (c & r & -> & _); discriminate).
    assert (tidy v rest) as Tv.
    { destruct T as [T|T]; [apply app_eq_nil in T as [_ T]; apply app_eq_nil in T as [_ T]; apply app_eq_nil in T as [_ T]; contradiction|].
      rewrite !app_assoc in T. eapply tidy_suffix; eassumption. }
    destruct (acc_contents fields (Ref R_fields_definition) field_nodes "{"%char fields_starts eq_refl acc_fields'
      _ _ _ _ _ _ rest Hd Hw Hv Tv Hn) as (ns & A1 & (n1 & n2 & -> & O3 & Q)).
    exists (ni ++ n1 ++ n2). split.
    + apply acc_sor_l. apply acc_seq; [exact I1|exact A1].
    + exists ni, n1, n2. split; [reflexivity|]. split; [reflexivity|]. split; [exact I3|]. split; [exact O3|].
      destruct Q as [[-> ->]|Q]; [split; [apply only_nil|reflexivity]|exact Q].
Qed.

(** ** Heads. *)
Lemma acc_assoc a b c o t rest ns : acc (a >> b >> c) o t rest ns -> acc ((a >> b) >> c) o t rest ns.
Proof.
  unfold PegLook.acc. intro H. apply seq_inv in H as (n1 & o1 & s1 & n2 & H1 & H & ->). apply seq_inv in H as (n3 & o3 & s3 & n4 & H2 & H3 & ->).
  rewrite app_assoc. apply (m_seq grammar sel _ _ _ _ (n1 ++ n3) o3 s3 (Match n4 _ rest)); [|exact H3].
  apply (m_seq grammar sel _ _ _ _ n1 o1 s1 (Match n3 o3 s3)); assumption.
Qed.
Lemma acc_headed word kn m k o n desc h t rest nr : name word -> grammar kn = g_name -> sel kn = Keep -> headed unescape_j word n desc h ->
  ends (t ++ rest) -> acc k (o + length h) t rest nr ->
  exists nd p, acc ((opt (Ref R_description >> Star g_ignored) >> keyword word) >> Must m (plus g_ignored >> Ref kn >> k)) o (h ++ t) rest
    (nd ++ [Node kn p (chars n) []] ++ nr) /\ desc_nodes desc nd.
Proof.
  intros Nw G K H He Hk. destruct H as [td w Hd Hw Hn].
  destruct (acc_start desc td (keyword word) o (chars word) ((w ++ chars n ++ t) ++ rest) []) as (nd & A1 & A2).
  { exact Hd. } { apply starts_name. exact Nw. } { apply acc_keyword. rewrite <- app_assoc. apply ends_some. exact Hw. }
  rewrite app_nil_r in A1. exists nd, (o + length (td ++ chars word) + length w). split; [|exact A2].
  replace ((td ++ chars word ++ w ++ chars n) ++ t) with ((td ++ chars word) ++ w ++ chars n ++ t) by (rewrite <- !app_assoc; reflexivity).
  apply acc_seq; [exact A1|]. apply acc_must.
  apply acc_some_blanks_seq; [exact Hw|rewrite <- app_assoc; eapply starts_head; [apply starts_name; exact Hn|by_look]|].
  apply acc_seq; [apply acc_named_node; assumption|].
  rewrite !app_length in *. replace (o + (length td + length (chars word)) + length w + length (chars n)) with (o + (length td + (length (chars word) + (length w + length (chars n))))) by lia. exact Hk.
Qed.
Lemma acc_extend_word word m k o w t rest nr : some_blanks w -> name word -> ends (t ++ rest) -> acc k (o + 6 + length w + length (chars word)) t rest nr ->
  acc ((keyword "extend" >> plus g_ignored >> keyword word) >> Must m k) o (chars "extend" ++ w ++ chars word ++ t) rest nr.
Proof.
  intros Hw Nw He Hk. replace (chars "extend" ++ w ++ chars word ++ t) with ((chars "extend" ++ w ++ chars word) ++ t) by (rewrite <- !app_assoc; reflexivity).
  apply (acc_seq sel _ _ o (chars "extend" ++ w ++ chars word) t rest [] nr).
  - apply (acc_seq sel _ _ o (chars "extend") (w ++ chars word) _ [] []); [apply acc_keyword; rewrite <- app_assoc; apply ends_some; exact Hw|].
    apply acc_some_blanks_seq; [exact Hw|eapply starts_head; [apply starts_name; exact Nw|by_look]|]. apply acc_keyword. exact He.
  - apply acc_must. rewrite !app_length. change (length (chars "extend")) with 6. replace (o + (6 + (length w + length (chars word)))) with (o + 6 + length w + length (chars word)) by lia. exact Hk.
Qed.
Lemma acc_extends word kn gap m k o n h t rest nr : name word -> grammar kn = g_name -> sel kn = Keep -> gap = plus g_ignored \/ gap = Star g_ignored ->
  extends word n h -> ends (t ++ rest) -> acc k (o + length h) t rest nr ->
  exists p, acc ((keyword "extend" >> plus g_ignored >> keyword word) >> Must m (gap >> Ref kn >> k)) o (h ++ t) rest ([Node kn p (chars n) []] ++ nr).
Proof.
  intros Nw G K Hg H He Hk. destruct H as [w1 w2 H1 H2 Hn]. exists (o + 6 + length w1 + length (chars word) + length w2).
  replace ((chars "extend" ++ w1 ++ chars word ++ w2 ++ chars n) ++ t) with (chars "extend" ++ w1 ++ chars word ++ (w2 ++ chars n ++ t)) by (rewrite <- !app_assoc; reflexivity).
  apply acc_extend_word; [exact H1|exact Nw|rewrite <- app_assoc; apply ends_some; exact H2|].
  assert (stop ((chars n ++ t) ++ rest)) as St by (rewrite <- app_assoc; eapply starts_head; [apply starts_name; exact Hn|by_look]).
  assert (acc (Ref kn >> k) (o + 6 + length w1 + length (chars word) + length w2) (chars n ++ t) rest ([Node kn (o + 6 + length w1 + length (chars word) + length w2) (chars n) []] ++ nr)) as A.
  { apply acc_seq; [apply acc_named_node; assumption|]. rewrite !app_length in Hk. change (length (chars "extend")) with 6 in Hk.
    replace (o + 6 + length w1 + length (chars word) + length w2 + length (chars n)) with (o + (6 + (length w1 + (length (chars word) + (length w2 + length (chars n)))))) by lia. exact Hk. }
  destruct Hg as [->| ->]; [apply acc_some_blanks_seq|apply acc_blanks_seq; [apply H2|..]]; assumption.
Qed.

Lemma headed_last word n desc h : headed unescape_j word n desc h -> name n /\ exists a, h = a ++ chars n.
Proof. intros [td w Hd Hw Hn]. split; [exact Hn|]. exists (td ++ chars word ++ w). rewrite <- !app_assoc. reflexivity. Qed.
Lemma extends_last word n h : extends word n h -> name n /\ exists a, h = a ++ chars n.
Proof. intros [w1 w2 H1 H2 Hn]. split; [exact Hn|]. exists (chars "extend" ++ w1 ++ chars word ++ w2). rewrite <- !app_assoc. reflexivity. Qed.
Lemma tidy_rest h u rest : tidy (h ++ u) rest -> u = [] \/ tidy u rest.
Proof. intro T. destruct u as [|c u]; [auto|]. right. eapply tidy_suffix; [discriminate|exact T]. Qed.

(** ** Definitions. *)
Notation defines := (defines L atof unescape_j).
Definition accepted_as (k : rule) (o : nat) (d : sdl_def) (t rest : text) : Prop :=
  exists n, acc (Ref k) o t rest [n] /\ read_sdl n = Some d.

Lemma enum_values_starts o xs t : enum_values o xs t -> starts (Ascii.eqb "{"%char) t.
Proof. intro H. inversion H; subst. apply starts_eqb. Qed.
Lemma input_fields_starts o xs t : input_fields o xs t -> starts (Ascii.eqb "{"%char) t.
Proof. intro H. inversion H; subst. apply starts_eqb. Qed.
Lemma members_starts o xs t : members o xs t -> starts (Ascii.eqb "="%char) t.
Proof. intros []. apply starts_eqb. Qed.
Notation enum_nodes := (fun xs ns => only R_enum_value_definition ns /\ all read_enum_value ns = Some xs).
Notation input_nodes := (fun xs ns => only R_input_fields_definition ns /\ read_block R_input_fields_definition read_input ns = Some xs).
Notation member_nodes := (fun xs ns => only R_union_type ns /\ map text_of ns = xs).
Lemma acc_enum_values' o xs t rest : enum_values o xs t -> tidy t rest -> next rest -> exists ns, acc g_enum_values_definition o t rest ns /\ enum_nodes xs ns.
Proof. intros H _ _. apply acc_enum_values. exact H. Qed.
Lemma acc_input_fields' o xs t rest : input_fields o xs t -> tidy t rest -> next rest -> exists ns, acc (Ref R_input_fields_definition) o t rest ns /\ input_nodes xs ns.
Proof. intros H _ _. apply acc_input_fields. exact H. Qed.

Lemma none_of k r b c ks rest : rule_eqb k r = false -> first_child r ([Node k b c ks] ++ rest) = first_child r rest.
Proof. intro E. apply (find_only r k _ _ (only_one k b c ks) E). Qed.
Ltac skip :=
  repeat match goal with
  | |- context [first_child ?r ([Node ?k ?x ?y ?z] ++ ?b)] => rewrite (none_of k r x y z b eq_refl)
  | H : only ?k ?a |- context [first_child ?r (?a ++ ?b)] => rewrite (find_only r k a b H eq_refl)
  | H : only ?k ?a |- context [first_child ?r ?a] => rewrite (find_only_end r k a H eq_refl)
  | |- context [read_each ?r ?f ([Node ?k ?x ?y ?z] ++ ?b)] => rewrite (read_each_skip r f k _ b (only_one k x y z) eq_refl)
  | H : only ?k ?a |- context [read_each ?r ?f (?a ++ ?b)] => rewrite (read_each_skip r f k a b H eq_refl)
  | H : only ?k ?a |- context [read_each ?k ?f ?a] => rewrite (read_each_these k f a H)
  | |- context [read_block ?r ?f ([Node ?k ?x ?y ?z] ++ ?b)] => rewrite (read_block_skip r f k _ b (only_one k x y z) eq_refl)
  | H : only ?k ?a |- context [read_block ?r ?f (?a ++ ?b)] => rewrite (read_block_skip r f k a b H eq_refl)
  | |- context [read_texts ?r ([Node ?k ?x ?y ?z] ++ ?b)] => rewrite (read_texts_skip r k _ b (only_one k x y z) eq_refl)
  | H : only ?k ?a |- context [read_texts ?r (?a ++ ?b)] => rewrite (read_texts_skip r k a b H eq_refl)
  | H : only ?k ?a |- context [read_texts ?r ?a] => rewrite (read_texts_end r k a H eq_refl)
  end.
Ltac headed_rest Nd kn p n desc nd :=
  rewrite (read_named_after unescape_j kn p n desc nd _ Nd eq_refl), (read_desc unescape_j desc nd _ Nd); [reflexivity|]; skip; reflexivity.

Lemma acc_scalar o n desc h dirs td rest : headed unescape_j "scalar" n desc h -> optional directives (o + length h) dirs td -> tidy (h ++ td) rest -> next rest ->
  accepted_as R_scalar_type_definition o (DefScalar n desc) (h ++ td) rest.
Proof.
  intros Hh Hd T Hn. destruct (headed_last _ _ _ _ Hh) as (Nn & a & Ea).
  destruct (acc_dirs _ _ _ rest Hd (tidy_rest _ _ _ T)) as (nx & A1 & A2); [apply next_follow; [by_look|exact Hn]..|]. apply dirs_maybe in A2.
  assert (ends (td ++ rest)) as He.
  { destruct td as [|c td]; [rewrite app_nil_r, Ea in T; eapply tidy_name; eassumption|]. inversion Hd as [|o' w ds v Hw Hv]; subst. rewrite <- app_assoc. apply ends_blanks; [exact Hw|].
    eapply starts_head; [eapply directives_starts; exact Hv|by_look]. }
  destruct (acc_headed "scalar"%string R_scalar_name (expected "ScalarTypeDefinition") (opt dirs_there) o n desc h td rest nx (name_decide "scalar"%string eq_refl) eq_refl eq_refl Hh He A1) as (nd & p & B1 & B2).
  eexists. split; [apply acc_ref; [exact B1|reflexivity]|]. pose proof (any_dirs_only _ (maybe_any L atof _ _ A2)) as O3.
  unfold SdlTree.read_sdl. cbn [n_type n_children]. headed_rest B2 R_scalar_name p n desc nd.
Qed.
Lemma acc_scalar_extension o n h dirs td rest : extends "scalar" n h -> optional directives (o + length h) dirs td -> td <> [] -> tidy (h ++ td) rest -> next rest ->
  accepted_as R_scalar_type_extension o (ExtScalar n) (h ++ td) rest.
Proof.
  intros Hh Hd N T Hn. destruct (extends_last _ _ _ Hh) as (Nn & a & Ea).
  destruct (acc_dirs _ _ _ rest Hd (tidy_rest _ _ _ T)) as (nx & _ & A2); [apply next_follow; [by_look|exact Hn]..|].
  destruct A2 as [(_ & _ & -> & _)|[A1 A2]]; [congruence|].
  assert (ends (td ++ rest)) as He.
  { destruct Hd as [|o' w ds v Hw Hv]; [congruence|]. rewrite <- app_assoc. apply ends_blanks; [exact Hw|].
    eapply starts_head; [eapply directives_starts; exact Hv|by_look]. }
  destruct (acc_extends "scalar"%string R_scalar_name (Star g_ignored) (expected "ScalarTypeExtension") dirs_there o n h td rest nx (name_decide "scalar"%string eq_refl) eq_refl eq_refl (or_intror eq_refl) Hh He A1) as (p & B1).
  eexists. split; [apply acc_ref; [exact B1|reflexivity]|].
  unfold SdlTree.read_sdl. cbn [n_type n_children]. rewrite (read_named R_scalar_name p n). reflexivity.
Qed.

Ltac by_body word kn P b Q f starts_ ac m assoc :=
  intros Hh Hb T Hn; destruct (headed_last _ _ _ _ Hh) as (Nn & a & Ea);
  destruct (acc_body P b Q f starts_ eq_refl ltac:(by_look) ltac:(by_look) ac _ _ _ _ Hb (tidy_rest _ _ _ T) Hn) as (nx & A1 & (n1 & n2 & -> & O3 & R));
  pose proof T as He; rewrite Ea in He; apply (body_ends P f starts_ _ _ _ _ _ _ Hb eq_refl Nn) in He;
  destruct (acc_headed word kn m _ _ _ _ _ _ _ (n1 ++ n2) (name_decide word eq_refl) eq_refl eq_refl Hh He A1) as (nd & p & B1 & B2);
  eexists; split; [apply acc_ref; [|reflexivity]; assoc B1|]; pose proof (desc_only _ _ _ B2) as O1;
  unfold SdlTree.read_sdl; cbn [n_type n_children].
Ltac by_extension word kn P b Q f starts_ ac m :=
  intros Hh Hb N T Hn; destruct (extends_last _ _ _ Hh) as (Nn & a & Ea);
  destruct (acc_extension P b Q f starts_ eq_refl ltac:(by_look) ltac:(by_look) ac _ _ _ _ Hb N (tidy_suffix _ _ _ N T) Hn) as (nx & A1 & (n1 & n2 & -> & O3 & R));
  pose proof T as He; rewrite Ea in He; apply (body_ends P f starts_ _ _ _ _ _ _ Hb eq_refl Nn) in He;
  destruct (acc_extends word kn (plus g_ignored) m _ _ _ _ _ _ (n1 ++ n2) (name_decide word eq_refl) eq_refl eq_refl (or_introl eq_refl) Hh He A1) as (p & B1);
  eexists; split; [apply acc_ref; [exact B1|reflexivity]|];
  unfold SdlTree.read_sdl; cbn [n_type n_children].
Lemma must_assoc x m a b c o t rest ns : acc (x >> Must m (a >> b >> c)) o t rest ns -> acc (x >> Must m ((a >> b) >> c)) o t rest ns.
Proof.
  unfold PegLook.acc. intro H. apply seq_inv in H as (n1 & o1 & s1 & n2 & H1 & H & ->). apply must_inv in H.
  apply (m_seq grammar sel _ _ _ _ n1 o1 s1 (Match n2 _ rest)); [exact H1|]. apply m_must.
  apply seq_inv in H as (n3 & o3 & s3 & n4 & H2 & H & ->). apply seq_inv in H as (n5 & o5 & s5 & n6 & H3 & H4 & ->).
  rewrite app_assoc. apply (m_seq grammar sel _ _ _ _ (n3 ++ n5) o5 s5 (Match n6 _ rest)); [|exact H4].
  apply (m_seq grammar sel _ _ _ _ n3 o3 s3 (Match n5 o5 s5)); assumption.
Qed.

Lemma acc_enum o n desc h vs t rest : headed unescape_j "enum" n desc h -> body L atof enum_values (o + length h) vs t -> tidy (h ++ t) rest -> next rest ->
  accepted_as R_enum_type_definition o (DefEnum n desc vs) (h ++ t) rest.
Proof.
  by_body "enum"%string R_enum_name constr:(enum_values) g_enum_values_definition constr:(enum_nodes) "{"%char enum_values_starts acc_enum_values' (expected "EnumTypeDefinition")
    ltac:(fun B => apply must_assoc; exact B).
  assert (enum_nodes vs n2) as [O4 R4] by (destruct R as [[-> ->]|R]; [split; [apply only_nil|reflexivity]|exact R]).
  skip. rewrite R4. headed_rest B2 R_enum_name p n desc nd.
Qed.

Ltac contents R := destruct R as [[-> ->]|R]; [split; [apply only_nil|reflexivity]|exact R].
Lemma acc_enum_extension o n h vs t rest : extends "enum" n h -> body L atof enum_values (o + length h) vs t -> t <> [] -> tidy (h ++ t) rest -> next rest ->
  accepted_as R_enum_type_extension o (ExtEnum n vs) (h ++ t) rest.
Proof.
  by_extension "enum"%string R_enum_name constr:(enum_values) g_enum_values_definition constr:(enum_nodes) "{"%char enum_values_starts acc_enum_values' (expected "EnumTypeExtension").
  assert (enum_nodes vs n2) as [O4 R4] by contents R.
  skip. rewrite R4. rewrite (read_named R_enum_name p n). reflexivity.
Qed.
Lemma acc_input o n desc h vs t rest : headed unescape_j "input" n desc h -> body L atof input_fields (o + length h) vs t -> tidy (h ++ t) rest -> next rest ->
  accepted_as R_input_object_type_definition o (DefInput n desc vs) (h ++ t) rest.
Proof.
  by_body "input"%string R_object_name constr:(input_fields) constr:(Ref R_input_fields_definition) constr:(input_nodes) "{"%char input_fields_starts acc_input_fields' (expected "InputObjectTypeDefinition")
    ltac:(fun B => apply must_assoc; exact B).
  assert (input_nodes vs n2) as [O4 R4] by contents R.
  skip. rewrite R4. headed_rest B2 R_object_name p n desc nd.
Qed.
Lemma acc_input_extension o n h vs t rest : extends "input" n h -> body L atof input_fields (o + length h) vs t -> t <> [] -> tidy (h ++ t) rest -> next rest ->
  accepted_as R_input_object_type_extension o (ExtInput n vs) (h ++ t) rest.
Proof.
  by_extension "input"%string R_object_name constr:(input_fields) constr:(Ref R_input_fields_definition) constr:(input_nodes) "{"%char input_fields_starts acc_input_fields' (expected "InputObjectTypeExtension").
  assert (input_nodes vs n2) as [O4 R4] by contents R.
  skip. rewrite R4. rewrite (read_named R_object_name p n). reflexivity.
Qed.
Lemma acc_interface o n desc h vs t rest : headed unescape_j "interface" n desc h -> body L atof fields (o + length h) vs t -> tidy (h ++ t) rest -> next rest ->
  accepted_as R_interface_type_definition o (DefInterface n desc vs) (h ++ t) rest.
Proof.
  by_body "interface"%string R_interface_name constr:(fields) constr:(Ref R_fields_definition) constr:(field_nodes) "{"%char fields_starts acc_fields' (expected "InterfaceTypeDefinition")
    ltac:(fun B => apply must_assoc; exact B).
  assert (field_nodes vs n2) as [O4 R4] by contents R.
  skip. rewrite R4. headed_rest B2 R_interface_name p n desc nd.
Qed.
Lemma acc_interface_extension o n h vs t rest : extends "interface" n h -> body L atof fields (o + length h) vs t -> t <> [] -> tidy (h ++ t) rest -> next rest ->
  accepted_as R_interface_type_extension o (ExtInterface n vs) (h ++ t) rest.
Proof.
  by_extension "interface"%string R_interface_name constr:(fields) constr:(Ref R_fields_definition) constr:(field_nodes) "{"%char fields_starts acc_fields' (expected "InterfaceTypeExtension").
  assert (field_nodes vs n2) as [O4 R4] by contents R.
  skip. rewrite R4. rewrite (read_named R_interface_name p n). reflexivity.
Qed.
Lemma acc_union o n desc h vs t rest : headed unescape_j "union" n desc h -> body L atof members (o + length h) vs t -> tidy (h ++ t) rest -> next rest ->
  accepted_as R_union_type_definition o (DefUnion n desc vs) (h ++ t) rest.
Proof.
  by_body "union"%string R_union_name constr:(members) g_union_member_types constr:(member_nodes) "="%char members_starts acc_members (expected "UnionTypeDefinition")
    ltac:(fun B => exact B).
  assert (member_nodes vs n2) as [O4 R4] by contents R.
  skip. rewrite (read_texts_all _ _ O4), R4. headed_rest B2 R_union_name p n desc nd.
Qed.
Lemma acc_union_extension o n h vs t rest : extends "union" n h -> body L atof members (o + length h) vs t -> t <> [] -> tidy (h ++ t) rest -> next rest ->
  accepted_as R_union_type_extension o (ExtUnion n vs) (h ++ t) rest.
Proof.
  by_extension "union"%string R_union_name constr:(members) g_union_member_types constr:(member_nodes) "="%char members_starts acc_members (expected "UnionTypeExtension").
  assert (member_nodes vs n2) as [O4 R4] by contents R.
  skip. rewrite (read_texts_all _ _ O4), R4. rewrite (read_named R_union_name p n). reflexivity.
Qed.

Lemma object_ends o h is ti xs t rest n a : name n -> h = a ++ chars n -> implements is ti -> body L atof fields (o + length h + length ti) xs t -> tidy (h ++ ti ++ t) rest ->
  ends ((ti ++ t) ++ rest).
Proof.
  intros Hn -> Hi Hb T. destruct Hi as [|w l ns ti Hw Hl Nl Hns].
  - cbn [app] in *. eapply (body_ends fields "{"%char fields_starts); [exact Hb|reflexivity|exact Hn|exact T].
  - rewrite <- !app_assoc. apply ends_some. exact Hw.
Qed.
Lemma acc_object o n desc h is ti xs t rest : headed unescape_j "type" n desc h -> implements is ti -> body L atof fields (o + length h + length ti) xs t ->
  tidy (h ++ ti ++ t) rest -> next rest -> accepted_as R_object_type_definition o (DefObject n desc is xs) (h ++ ti ++ t) rest.
Proof.
  intros Hh Hi Hb T Hn. destruct (headed_last _ _ _ _ Hh) as (Nn & a & Ea). pose proof (object_ends _ _ _ _ _ _ _ _ _ Nn Ea Hi Hb T) as He.
  destruct (acc_object_body implements_opt (or_introl eq_refl) _ _ _ _ _ _ Hi Hb ltac:(discriminate) (tidy_rest _ _ _ T) Hn) as (nx & A1 & (ni & n1 & n2 & -> & Ei & Oi & O3 & O4 & R4)).
  destruct (acc_headed "type"%string R_object_name (expected "ObjectTypeDefinition") _ _ _ _ _ _ _ (ni ++ n1 ++ n2) (name_decide "type"%string eq_refl) eq_refl eq_refl Hh He A1) as (nd & p & B1 & B2).
  eexists. split; [apply acc_ref; [|reflexivity]; apply must_assoc; exact B1|]. pose proof (desc_only _ _ _ B2) as O1.
  unfold SdlTree.read_sdl. cbn [n_type n_children].
  skip. rewrite R4, (read_texts_these _ _ _ Oi), Ei. skip. rewrite app_nil_r. headed_rest B2 R_object_name p n desc nd.
Qed.
Lemma acc_object_extension o n h is ti xs t rest : extends "type" n h -> implements is ti -> body L atof fields (o + length h + length ti) xs t -> ti ++ t <> [] ->
  tidy (h ++ ti ++ t) rest -> next rest -> accepted_as R_object_type_extension o (ExtObject n is xs) (h ++ ti ++ t) rest.
Proof.
  intros Hh Hi Hb N T Hn. destruct (extends_last _ _ _ Hh) as (Nn & a & Ea). pose proof (object_ends _ _ _ _ _ _ _ _ _ Nn Ea Hi Hb T) as He.
  destruct (acc_object_body implements_there (or_intror eq_refl) _ _ _ _ _ _ Hi Hb (fun _ => N) (tidy_rest _ _ _ T) Hn) as (nx & A1 & (ni & n1 & n2 & -> & Ei & Oi & O3 & O4 & R4)).
  destruct (acc_extends "type"%string R_object_name (plus g_ignored) (expected "ObjectTypeExtension") _ _ _ _ _ _ (ni ++ n1 ++ n2) (name_decide "type"%string eq_refl) eq_refl eq_refl (or_introl eq_refl) Hh He A1) as (p & B1).
  eexists. split; [apply acc_ref; [exact B1|reflexivity]|].
  unfold SdlTree.read_sdl. cbn [n_type n_children].
  skip. rewrite R4, (read_texts_these _ _ _ Oi), Ei. skip. rewrite app_nil_r. rewrite (read_named R_object_name p n). reflexivity.
Qed.

(** ** Schemas. *)
Notation op_nodes kr := (fun xs ns => only kr ns /\ all read_operation_type ns = Some xs).
Notation op_block kr := (one ["{"%char] >> Star g_ignored >> list_of (Ref kr) (plus g_ignored) >> Star g_ignored >> Must "Expected }" (one ["}"%char])).
Lemma root_operations_starts o xs t : root_operations o xs t -> starts (Ascii.eqb "{"%char) t.
Proof. intro H. inversion H; subst. apply starts_eqb. Qed.
Lemma acc_root_operations' o xs t rest : root_operations o xs t -> tidy t rest -> next rest ->
  exists ns, acc (op_block R_root_operation_definition) o t rest ns /\ op_nodes R_root_operation_definition xs ns.
Proof. intros H _ _. exact (acc_root_operations R_root_operation_definition _ _ _ rest eq_refl eq_refl eq_refl H). Qed.
Lemma acc_schema o dirs td w ops t rest : optional directives (o + 6) dirs td -> blanks w -> root_operations (o + 6 + length td + length w) ops t ->
  tidy (chars "schema" ++ td ++ w ++ t) rest -> next rest -> accepted_as R_schema_definition o (DefSchema ops) (chars "schema" ++ td ++ w ++ t) rest.
Proof.
  intros Hd Hw Ho T Hn.
  assert (t <> []) as Nt by (destruct (root_operations_starts _ _ _ Ho) as (c & r & -> & _); discriminate).
  assert (tidy t rest) as Tt by (rewrite !app_assoc in T; eapply tidy_suffix; eassumption).
  destruct (acc_contents root_operations (op_block R_root_operation_definition) (op_nodes R_root_operation_definition) "{"%char root_operations_starts eq_refl acc_root_operations'
    _ _ _ _ _ _ rest Hd Hw Ho Tt Hn) as (ns & A1 & (n1 & n2 & -> & O3 & R)).
  assert (op_nodes R_root_operation_definition ops n2) as [O4 R4] by contents R.
  eexists. split.
  - apply acc_ref; [|reflexivity]. apply (acc_seq sel _ _ o (chars "schema") (td ++ w ++ t) rest [] (n1 ++ n2)).
    + apply acc_keyword. rewrite <- !app_assoc. eapply dirs_head; [exact Hd|by_look|reflexivity|]. apply blanks_head; [exact Hw|by_look|].
      destruct (root_operations_starts _ _ _ Ho) as (c & r & -> & Hc). apply Ascii.eqb_eq in Hc. subst c. reflexivity.
    + apply acc_must. exact A1.
  - unfold SdlTree.read_sdl. cbn [n_type n_children app]. skip. rewrite R4. reflexivity.
Qed.
Lemma acc_schema_extension o w1 w2 dirs td ops t rest : some_blanks w1 -> blanks w2 ->
  dirs = [] /\ td = [] \/ directives (o + 6 + length w1 + 6 + length w2) dirs td ->
  ops = [] /\ t = [] \/ root_operations (o + 6 + length w1 + 6 + length w2 + length td) ops t -> td ++ t <> [] ->
  tidy (chars "extend" ++ w1 ++ chars "schema" ++ w2 ++ td ++ t) rest -> next rest ->
  accepted_as R_schema_extension o (ExtSchema ops) (chars "extend" ++ w1 ++ chars "schema" ++ w2 ++ td ++ t) rest.
Proof.
  intros Hw1 Hw2 Hd Ho N T Hn. set (p := o + 6 + length w1 + 6 + length w2) in *.
  assert (tidy (td ++ t) rest) as Tt by (rewrite !app_assoc in T; rewrite <- app_assoc in T; eapply tidy_suffix; [exact N|exact T]).
  assert (exists nd nb, acc ((opt (Ref R_directives) >> op_block R_operation_type_definition) </> Ref R_directives) p (td ++ t) rest (nd ++ nb)
    /\ only R_directives nd /\ only R_operation_type_definition nb /\ all read_operation_type nb = Some ops) as (nd & nb & A1 & O3 & O4 & R4).
  { destruct Ho as [[-> ->]|Ho].
    - destruct Hd as [[-> ->]|Hd]; [exfalso; apply N; reflexivity|]. rewrite app_nil_r in *.
      destruct (acc_directives_tidy _ _ _ rest Hd Tt) as (ks & A1 & _); [apply next_follow; [by_look|exact Hn]..|].
      eexists [_], []. split; [|split; [apply only_one|split; [apply only_nil|reflexivity]]].
      apply acc_sor_r; [|exact A1]. change Fail with (prepend [Node R_directives p td ks] (@Fail rule)).
      eapply m_seq; [apply m_sor_l; exact A1|]. apply m_seq_fail. apply chr_fail.
      apply next_starts_off; [by_look|by_look|exact Hn].
    - destruct (acc_root_operations R_operation_type_definition _ _ _ rest eq_refl eq_refl eq_refl Ho) as (nb & A1 & O4 & R4).
      pose proof (root_operations_starts _ _ _ Ho) as (c & r & -> & Hc). apply Ascii.eqb_eq in Hc. subst c.
      destruct Hd as [[-> ->]|Hd].
      + exists [], nb. split; [|split; [apply only_nil|auto]]. apply acc_sor_l. apply (acc_seq sel _ _ p [] ("{"%char :: r) rest [] nb).
        * apply acc_opt_none. apply (fails_head sel (Ref R_directives) (fun c => negb (Ascii.eqb "@"%char c))); [by_look|reflexivity].
        * exact A1.
      + destruct (acc_directives_tidy _ _ _ (("{"%char :: r) ++ rest) Hd) as (ks & B1 & _).
        { apply tidy_ends. reflexivity. }
        { apply (follow_intro _ [] _ blanks_nil); reflexivity. } { apply (follow_intro _ [] _ blanks_nil); reflexivity. }
        exists [Node R_directives p td ks], nb. split; [|split; [apply only_one|auto]]. apply acc_sor_l.
        apply acc_seq; [apply acc_opt; exact B1|exact A1]. }
  assert (starts (fun c => Ascii.eqb "@"%char c || Ascii.eqb "{"%char c) (td ++ t)) as St.
  { destruct Hd as [[-> ->]|Hd].
    - destruct Ho as [[-> ->]|Ho]; [exfalso; apply N; reflexivity|]. eapply starts_imp; [eapply root_operations_starts; exact Ho|]. intros c ->. apply orb_true_r.
    - apply starts_app. eapply starts_imp; [eapply directives_starts; exact Hd|]. intros c Hc. rewrite Hc. reflexivity. }
  eexists. split.
  - apply acc_ref; [|reflexivity]. apply acc_extend_word; [exact Hw1|apply name_decide; reflexivity| |].
    + rewrite <- app_assoc. apply ends_blanks; [exact Hw2|]. eapply starts_head; [exact St|by_look].
    + apply acc_blanks_seq; [exact Hw2|eapply starts_head; [exact St|by_look]|]. exact A1.
  - unfold SdlTree.read_sdl. cbn [n_type n_children]. skip. rewrite R4. reflexivity.
Qed.

(** ** Choices. *)
Fixpoint alts (e : ex) : list ex := match e with Sor a b => alts a ++ alts b | _ => [e] end.
Lemma alts_fail e o s : (forall b, In b (alts e) -> M b o s Fail) -> M e o s Fail.
Proof.
  induction e; cbn [alts]; intro H; try (apply H; left; reflexivity).
  apply m_sor_r; [apply IHe1|apply IHe2]; intros b Hb; apply H, in_or_app; auto.
Qed.
Lemma alts_acc e a o t rest ns : In a (alts e) -> (forall b, In b (alts e) -> b = a \/ M b o (t ++ rest) Fail) -> acc a o t rest ns -> acc e o t rest ns.
Proof.
  induction e; cbn [alts]; intros Ha H X; try (destruct Ha as [->|[]]; exact X).
  assert (In a (alts e1) \/ (forall b, In b (alts e1) -> M b o (t ++ rest) Fail)) as [Hin|Hf].
  { assert (forall b, In b (alts e1) -> b = a \/ M b o (t ++ rest) Fail) as Y by (intros b Hb; apply H, in_or_app; auto).
    clear -Y. induction (alts e1) as [|b l IH]; [right; contradiction|].
    destruct (Y b (or_introl eq_refl)) as [->|Fb]; [left; left; reflexivity|].
    destruct IH as [IH|IH]; [intros c Hc; apply Y; right; exact Hc|left; right; exact IH|]. right. intros c [<-|Hc]; [exact Fb|exact (IH c Hc)]. }
  - apply acc_sor_l. apply IHe1; [exact Hin|intros b Hb; apply H, in_or_app; auto|exact X].
  - destruct (in_app_or _ _ _ Ha) as [Hin|Hin].
    + apply acc_sor_l. apply IHe1; [exact Hin|intros b Hb; apply H, in_or_app; auto|exact X].
    + apply acc_sor_r; [apply alts_fail; exact Hf|]. apply IHe2; [exact Hin|intros b Hb; apply H, in_or_app; auto|exact X].
Qed.

(** ** Directives. *)
Lemma location_names_ok n l : In (n, l) location_names -> name n /\ directive_location_of n = Some l.
Proof. cbn. intro H. repeat (destruct H as [H|H]; [injection H as <- <-; split; [apply name_decide|]; reflexivity|]). contradiction. Qed.
Lemma acc_location o x t : a_location o x t -> forall rest, ends rest ->
  exists n, acc (Ref R_directive_location) o t rest [n] /\ typed R_directive_location (fun n => directive_location_of (text_of n)) n = Some x.
Proof.
  intros (n & Hn & ->) rest He. destruct (location_names_ok _ _ Hn) as [Nn El]. exists (Node R_directive_location o (chars n) []). split.
  - apply acc_ref; [|reflexivity]. apply (alts_acc g_directive_location (keyword n)).
    + change (alts g_directive_location) with (map (fun p => keyword (fst p)) location_names). apply in_map_iff. exists (n, x). auto.
    + change (alts g_directive_location) with (map (fun p => keyword (fst p)) location_names). intros b Hb. apply in_map_iff in Hb as ([m y] & <- & Hm). cbn [fst].
      destruct (string_dec n m) as [->|Ne]; [auto|]. right. apply keyword_fails; [apply (location_names_ok _ _ Hm)|exact Nn|exact Ne|exact He].
    + apply acc_keyword. exact He.
  - rewrite typed_of. unfold text_of. cbn [n_content]. rewrite str_chars. exact El.
Qed.
Lemma location_starts o x t : a_location o x t -> starts is_alpha_ t.
Proof. intros (n & Hn & ->). apply starts_name. apply (location_names_ok _ _ Hn). Qed.

Lemma acc_directive_definition o desc td w n args ta w1 w2 lead locs t rest : described desc td -> blanks w -> name n ->
  optional input_values (o + length td + 9 + length w + 1 + length (chars n)) args ta -> some_blanks w1 -> some_blanks w2 ->
  lead = [] \/ (exists w3, blanks w3 /\ lead = "|"%char :: w3) -> items (separator "|"%char) a_location 0 locs t ->
  tidy (td ++ chars "directive" ++ w ++ "@"%char :: chars n ++ ta ++ w1 ++ chars "on" ++ w2 ++ lead ++ t) rest -> next rest ->
  accepted_as R_directive_definition o (DefDirective n desc locs args)
    (td ++ chars "directive" ++ w ++ "@"%char :: chars n ++ ta ++ w1 ++ chars "on" ++ w2 ++ lead ++ t) rest.
Proof.
  intros Hd Hw Hn Ha Hw1 Hw2 Hl Hi T Hnext.
  assert (starts is_alpha_ t) as St by (eapply items_start; [exact location_starts|exact Hi]).
  assert (ends rest) as He.
  { destruct (items_last _ _ _ _ _ Hi) as (b & q & x & u & -> & (m & Hm & ->)). apply (tidy_name (td ++ chars "directive" ++ w ++ "@"%char :: chars n ++ ta ++ w1 ++ chars "on" ++ w2 ++ lead ++ b) m).
    - apply (location_names_ok _ _ Hm).
    - repeat (rewrite <- !app_assoc; cbn [app]). repeat (rewrite <- !app_assoc in T; cbn [app] in T). exact T. }
  destruct (acc_start desc td (keyword "directive") o (chars "directive") ((w ++ "@"%char :: chars n ++ ta ++ w1 ++ chars "on" ++ w2 ++ lead ++ t) ++ rest) []) as (nd & A1 & A2).
  { exact Hd. } { apply starts_name, name_decide. reflexivity. } { apply acc_keyword. rewrite <- app_assoc. apply ends_blanks; [exact Hw|reflexivity]. }
  rewrite app_nil_r in A1.
  set (p := o + length td + 9 + length w + 1) in *.
  destruct (acc_input_values _ _ _ ((w1 ++ chars "on" ++ w2 ++ lead ++ t) ++ rest) Ha) as (na & B1 & O3 & R3).
  { rewrite <- app_assoc. apply follow_intro; [apply Hw1|reflexivity|reflexivity]. }
  destruct (acc_separated a_location R_directive_location (fun n => directive_location_of (text_of n)) "|"%char location_starts acc_location ltac:(intros ? ? ? ? X; exact X) eq_refl eq_refl
    (p + length (chars n) + length ta + length w1 + 2 + length w2 + length lead) locs t rest Hi He) as (nl & C1 & C2 & O4).
  { apply next_follow; [by_look|exact Hnext]. }
  eexists. split.
  - apply acc_ref; [|reflexivity]. rewrite app_assoc. apply (acc_seq sel _ _ o (td ++ chars "directive") _ rest nd ([Node R_directive_name p (chars n) []] ++ na ++ nl)); [exact A1|]. apply acc_must.
    apply acc_blanks_seq; [exact Hw|reflexivity|].
    apply (acc_seq sel _ _ _ ["@"%char] (chars n ++ ta ++ w1 ++ chars "on" ++ w2 ++ lead ++ t) rest [] ([Node R_directive_name p (chars n) []] ++ na ++ nl)); [apply acc_one; left; reflexivity|].
    replace (o + length (td ++ chars "directive") + length w + length ["@"%char]) with p by (unfold p; rewrite app_length; reflexivity || (cbn [length list_ascii_of_string]; lia)).
    apply acc_seq.
    { apply acc_named_node; [reflexivity|reflexivity|exact Hn|]. rewrite <- app_assoc. eapply input_values_head; [exact Ha|by_look|reflexivity|]. rewrite <- app_assoc. apply ends_some. exact Hw1. }
    apply acc_seq; [exact B1|]. apply acc_some_blanks_seq; [exact Hw1|reflexivity|].
    apply (acc_seq sel _ _ _ (chars "on") (w2 ++ lead ++ t) rest [] nl); [apply acc_keyword; rewrite <- app_assoc; apply ends_some; exact Hw2|].
    apply acc_some_blanks_seq; [exact Hw2| |].
    { destruct Hl as [->|(w3 & _ & ->)]; [eapply starts_head; [exact St|by_look]|reflexivity]. }
    change (length (chars "on")) with 2. unfold g_directive_locations.
    apply (acc_seq sel _ _ _ lead t rest [] nl); [|exact C1].
    destruct Hl as [->|(w3 & Hw3 & ->)].
    + apply acc_opt_none. apply m_seq_fail. apply chr_fail. eapply starts_head; [exact St|by_look].
    + apply acc_opt. apply (acc_seq sel _ _ _ ["|"%char] w3 _ [] []); [apply acc_one; left; reflexivity|]. apply acc_blanks; [exact Hw3|]. eapply starts_head; [exact St|by_look].
  - unfold SdlTree.read_sdl. cbn [n_type n_children]. pose proof (desc_only _ _ _ A2) as O1.
    skip. rewrite (read_texts_all _ _ O4), all_map, C2. rewrite (read_block_here R_arguments_definition read_input _ _ _ O4 eq_refl), R3.
    headed_rest A2 R_directive_name p n desc nd.
Qed.

(** ** Which rule. *)
Definition key (k : rule) : bool * string :=
  match k with
  | R_schema_definition => (false, "schema") | R_scalar_type_definition => (false, "scalar") | R_object_type_definition => (false, "type")
  | R_interface_type_definition => (false, "interface") | R_union_type_definition => (false, "union") | R_enum_type_definition => (false, "enum")
  | R_input_object_type_definition => (false, "input") | R_directive_definition => (false, "directive")
  | R_schema_extension => (true, "schema") | R_scalar_type_extension => (true, "scalar") | R_object_type_extension => (true, "type")
  | R_interface_type_extension => (true, "interface") | R_union_type_extension => (true, "union") | R_enum_type_extension => (true, "enum")
  | R_input_object_type_extension => (true, "input")
  | _ => (false, "")
  end%string.
Inductive keyed : bool * string -> text -> Prop :=
| keyed_word desc td word s : described desc td -> ends s -> keyed (false, word) (td ++ chars word ++ s)
| keyed_extend w word s : some_blanks w -> ends s -> keyed (true, word) (chars "extend" ++ w ++ chars word ++ s).
Lemma described_empty desc td : described desc td -> td = [] \/ exists r, td = """"%char :: r.
Proof. intros [|t d w _ _|t w _ _]; [auto|right; eexists; reflexivity|right; eexists; reflexivity]. Qed.
Lemma word_fails word' desc td word s o : described desc td -> name word -> name word' -> word <> word' -> ends s ->
  M (keyword word') o (td ++ chars word ++ s) Fail.
Proof.
  intros Hd Hn Hn' Ne He. destruct (described_empty _ _ Hd) as [->|(r & ->)]; [apply keyword_fails; assumption|].
  destruct (name_chars _ Hn') as (c & r' & E & Hc & _). unfold keyword. rewrite E. apply m_seq_fail. constructor. cbn [strip app].
  destruct (Ascii.eqb_spec c """"%char) as [->|]; [discriminate|reflexivity].
Qed.
Lemma start_word_fails word' desc td word s o b : described desc td -> name word -> name word' -> word <> word' -> ends s ->
  M ((opt (Ref R_description >> Star g_ignored) >> keyword word') >> b) o (td ++ chars word ++ s) Fail.
Proof.
  intros Hd Hn Hn' Ne He. destruct (acc_described desc td o (chars word ++ s) Hd) as (nd & A1 & _); [apply starts_app, starts_name; exact Hn|].
  apply m_seq_fail. change Fail with (prepend nd (@Fail rule)). eapply m_seq; [exact A1|]. apply keyword_fails; assumption.
Qed.
Lemma extend_word_fails word' w word s o b : some_blanks w -> name word -> name word' -> word <> word' -> ends s ->
  M ((keyword "extend" >> plus g_ignored >> keyword word') >> b) o (chars "extend" ++ w ++ chars word ++ s) Fail.
Proof.
  intros Hw Hn Hn' Ne He. apply m_seq_fail. eapply m_seq with (x := Fail); [apply acc_keyword; apply ends_some; exact Hw|].
  eapply m_seq with (x := Fail); [apply acc_some_blanks; [exact Hw|]|apply keyword_fails; assumption].
  eapply starts_head; [apply starts_name; exact Hn|by_look].
Qed.
Lemma keys_words k : In k other_rules -> name (snd (key k)) /\ snd (key k) <> "extend"%string /\ In (snd (key k)) words.
Proof. cbn. intro H. repeat (destruct H as [<-|H]; [split; [apply name_decide; reflexivity|]; split; [discriminate|cbn; tauto]|]). contradiction. Qed.
Lemma keys_differ k k' : In k other_rules -> In k' other_rules -> key k = key k' -> k = k'.
Proof.
  assert (forallb (fun a => forallb (fun b => rule_eqb a b || negb (Bool.eqb (fst (key a)) (fst (key b)) && String.eqb (snd (key a)) (snd (key b)))) other_rules) other_rules = true) as H
    by (vm_compute; reflexivity).
  intros H1 H2 E. rewrite forallb_forall in H. specialize (H _ H1). cbn beta in H. rewrite forallb_forall in H. specialize (H _ H2). cbn beta in H.
  rewrite E, Bool.eqb_reflx, String.eqb_refl in H. cbn in H. rewrite orb_false_r in H. destruct (rule_eqb_spec k k'); [assumption|discriminate].
Qed.
Lemma key_fails k k' o u : In k other_rules -> In k' other_rules -> k' <> k -> keyed (key k) u -> M (Ref k') o u Fail.
Proof.
  intros Hk Hk' Ne Hu. destruct (keys_words _ Hk) as (N1 & X1 & _). destruct (keys_words _ Hk') as (N2 & X2 & _).
  assert (key k <> key k') as Nk by (intro E; apply Ne; symmetry; exact (keys_differ _ _ Hk Hk' E)). clear Ne Hk.
  destruct (key k) as [e word]. cbn [snd] in *.
  assert (forall b o, snd (key k') <> word \/ e = true -> M (keyword (snd (key k')) >> b) o u Fail) as F1.
  { intros b p X. apply m_seq_fail. inversion Hu as [desc td word' s Hd Hs|w word' s Hw Hs]; subst.
    - destruct X as [X|X]; [|discriminate]. eapply word_fails; [exact Hd|..]; try assumption. congruence.
    - apply keyword_fails; [exact N2|apply name_decide; reflexivity|congruence|apply ends_some; exact Hw]. }
  assert (forall b o, snd (key k') <> word \/ e = true -> M ((opt (Ref R_description >> Star g_ignored) >> keyword (snd (key k'))) >> b) o u Fail) as F2.
  { intros b p X. inversion Hu as [desc td word' s Hd Hs|w word' s Hw Hs]; subst.
    - destruct X as [X|X]; [|discriminate]. eapply start_word_fails; [exact Hd|..]; try assumption. congruence.
    - apply (start_word_fails _ ""%string [] "extend"%string (w ++ chars word ++ s)); [constructor|apply name_decide; reflexivity|exact N2|congruence|apply ends_some; exact Hw]. }
  assert (forall b o, snd (key k') <> word \/ e = false -> M ((keyword "extend" >> plus g_ignored >> keyword (snd (key k'))) >> b) o u Fail) as F3.
  { intros b p X. inversion Hu as [desc td word' s Hd Hs|w word' s Hw Hs]; subst.
    - apply m_seq_fail, m_seq_fail. eapply word_fails; [exact Hd|exact N1|apply name_decide; reflexivity|exact X1|exact Hs].
    - destruct X as [X|X]; [|discriminate]. apply extend_word_fails; [exact Hw|exact N1|exact N2|congruence|exact Hs]. }
  assert (forall b : bool, (fst (key k') = b -> snd (key k') <> word \/ e = negb b)) as D.
  { intros b Eb. destruct (string_dec (snd (key k')) word) as [Ew|Ew]; [|auto]. right. destruct e, b; try reflexivity; exfalso; apply Nk; rewrite <- Ew, <- Eb; destruct (key k'); reflexivity. }
  apply m_ref_fail. clear Nk N1 N2 X1 X2 Hu.
  cbn in Hk'. repeat (destruct Hk' as [<-|Hk']; [first [apply F1, (D false); reflexivity|apply F2, (D false); reflexivity|apply F3, (D true); reflexivity]|]). contradiction.
Qed.

Lemma alternatives : alts g_schema_type_definition = map Ref other_rules.
Proof. reflexivity. Qed.
Lemma chosen k o d t rest : In k other_rules -> keyed (key k) (t ++ rest) -> accepted_as k o d t rest ->
  exists n, acc g_schema_type_definition o t rest [n] /\ read_sdl n = Some d.
Proof.
  intros Hk Hu (n & A1 & A2). exists n. split; [|exact A2]. apply (alts_acc _ (Ref k)).
  - rewrite alternatives. apply in_map. exact Hk.
  - rewrite alternatives. intros b Hb. apply in_map_iff in Hb as (k' & <- & Hk').
    destruct (rule_eqb_spec k' k) as [->|Ne]; [auto|]. right. apply (key_fails k); assumption.
  - exact A1.
Qed.
Lemma keyed_opening k u : In k other_rules -> keyed (key k) u -> opening u.
Proof.
  intros Hk Hu. destruct (keys_words _ Hk) as (_ & _ & W). destruct (key k) as [e word]. cbn [snd] in W. inversion Hu as [desc td word' s Hd Hs|w word' s Hw Hs]; subst.
  - destruct (described_empty _ _ Hd) as [->|(r & ->)]; [right; exists word, s; auto|left; exists """"%char, (r ++ chars word ++ s); auto].
  - right. exists "extend"%string, (w ++ chars word ++ s). split; [reflexivity|]. split; [cbn; tauto|apply ends_some; exact Hw].
Qed.

Lemma headed_keyed word n desc h t rest : headed unescape_j word n desc h -> keyed (false, word) ((h ++ t) ++ rest).
Proof. intros [td w Hd Hw Hn]. rewrite <- !app_assoc. econstructor; [exact Hd|]. apply ends_some. exact Hw. Qed.
Lemma extends_keyed word n h t rest : extends word n h -> keyed (true, word) ((h ++ t) ++ rest).
Proof. intros [w1 w2 H1 H2 Hn]. rewrite <- !app_assoc. econstructor; [exact H1|]. apply ends_some. exact H2. Qed.
Lemma defines_as o d t : defines o d t -> d <> DefExecutable ->
  exists k, In k other_rules /\ (forall rest, keyed (key k) (t ++ rest)) /\ (forall rest, tidy t rest -> next rest -> accepted_as k o d t rest).
Proof.
  intros H N. destruct H.
  - exists R_schema_definition. split; [cbn; tauto|]. split; [|intros; eapply acc_schema; eassumption].
    intro rest. rewrite <- !app_assoc. apply (keyed_word ""%string [] "schema"%string); [constructor|].
    eapply dirs_head; [eassumption|by_look|reflexivity|]. apply blanks_head; [assumption|by_look|]. eapply starts_head; [eapply root_operations_starts; eassumption|by_look].
  - exists R_schema_extension. split; [cbn; tauto|]. split; [|intros; eapply acc_schema_extension; eassumption].
    intro rest. rewrite <- !app_assoc. apply (keyed_extend w1 "schema"%string); [assumption|]. apply ends_blanks; [assumption|].
    destruct H1 as [[-> ->]|H1].
    + destruct H2 as [[-> ->]|H2]; [exfalso; apply H3; reflexivity|]. cbn [app]. eapply starts_head; [eapply root_operations_starts; eassumption|by_look].
    + eapply starts_head; [eapply directives_starts; eassumption|by_look].
  - exists R_scalar_type_definition. split; [cbn; tauto|]. split; [intro; eapply headed_keyed; eassumption|intros; eapply acc_scalar; eassumption].
  - exists R_scalar_type_extension. split; [cbn; tauto|]. split; [intro; eapply extends_keyed; eassumption|intros; eapply acc_scalar_extension; eassumption].
  - exists R_enum_type_definition. split; [cbn; tauto|]. split; [intro; eapply headed_keyed; eassumption|intros; eapply acc_enum; eassumption].
  - exists R_enum_type_extension. split; [cbn; tauto|]. split; [intro; eapply extends_keyed; eassumption|intros; eapply acc_enum_extension; eassumption].
  - exists R_input_object_type_definition. split; [cbn; tauto|]. split; [intro; eapply headed_keyed; eassumption|intros; eapply acc_input; eassumption].
  - exists R_input_object_type_extension. split; [cbn; tauto|]. split; [intro; eapply extends_keyed; eassumption|intros; eapply acc_input_extension; eassumption].
  - exists R_union_type_definition. split; [cbn; tauto|]. split; [intro; eapply headed_keyed; eassumption|intros; eapply acc_union; eassumption].
  - exists R_union_type_extension. split; [cbn; tauto|]. split; [intro; eapply extends_keyed; eassumption|intros; eapply acc_union_extension; eassumption].
  - exists R_interface_type_definition. split; [cbn; tauto|]. split; [intro; eapply headed_keyed; eassumption|intros; eapply acc_interface; eassumption].
  - exists R_interface_type_extension. split; [cbn; tauto|]. split; [intro; eapply extends_keyed; eassumption|intros; eapply acc_interface_extension; eassumption].
  - exists R_object_type_definition. split; [cbn; tauto|]. split; [intro; eapply headed_keyed; eassumption|intros; eapply acc_object; eassumption].
  - exists R_object_type_extension. split; [cbn; tauto|]. split; [intro; eapply extends_keyed; eassumption|intros; eapply acc_object_extension; eassumption].
  - exists R_directive_definition. split; [cbn; tauto|]. split; [|intros; eapply acc_directive_definition; eassumption].
    intro rest. rewrite <- !app_assoc. econstructor; [eassumption|]. apply ends_blanks; [assumption|reflexivity].
  - congruence.
Qed.
Lemma defines_opening o d t rest : defines o d t -> d <> DefExecutable -> opening (t ++ rest).
Proof. intros H N. destruct (defines_as _ _ _ H N) as (k & H1 & H2 & _). eapply keyed_opening; [exact H1|apply H2]. Qed.
Lemma acc_defines o d t rest : defines o d t -> d <> DefExecutable -> tidy t rest -> next rest ->
  exists n, acc g_schema_type_definition o t rest [n] /\ read_sdl n = Some d.
Proof. intros H N T Hn. destruct (defines_as _ _ _ H N) as (k & H1 & H2 & H3). eapply chosen; [exact H1|apply H2|apply H3; assumption]. Qed.

(** ** Documents. *)
Lemma tidy_separate t w t' rest : blanks w -> ~ (w = [] /\ joined t t') -> starts (fun _ => true) t -> starts (fun _ => true) t' -> tidy t (w ++ t' ++ rest).
Proof.
  intros Hw J (c & r & E & _) (c' & r' & -> & _). destruct w as [|x w]; [|left; apply ends_some; split; [exact Hw|discriminate]].
  cbn [app]. destruct (is_ident c') eqn:E'; [|left; exact E']. right.
  destruct (@exists_last _ t) as (u & d & ->); [rewrite E; discriminate|]. exists u, d. split; [reflexivity|].
  destruct (is_ident d) eqn:Ed; [|reflexivity]. exfalso. apply J. split; [reflexivity|].
  exists u, d, c', r'. split; [reflexivity|]. split; [reflexivity|]. split; apply ident_iff; assumption.
Qed.
Lemma defines_first o d t : defines o d t -> d <> DefExecutable -> starts opener t.
Proof. intros H N. apply opening_starts. rewrite <- (app_nil_r t). eapply defines_opening; eassumption. Qed.
Lemma definitions_first o ds t : definitions L atof unescape_j o ds t -> ~ In DefExecutable ds -> starts opener t.
Proof.
  intros [o' d t' H|o' d t' w ds' t2 H _ _ _] N; [|apply starts_app]; (eapply defines_first; [exact H|]); intros ->; apply N; left; reflexivity.
Qed.
Lemma trailing_ends e : trailing e -> ends e.
Proof. intros [w Hw|w body Hw _]; [rewrite <- (app_nil_r w)|]; apply ends_blanks; try exact Hw; reflexivity. Qed.
Lemma definitions_opening o ds t rest : definitions L atof unescape_j o ds t -> ~ In DefExecutable ds -> opening (t ++ rest).
Proof.
  intros [o' d t' H|o' d t' w ds' t2 H _ _ _] N; [|rewrite <- app_assoc]; (eapply defines_opening; [exact H|]); intros ->; apply N; left; reflexivity.
Qed.
Lemma acc_definitions o ds t : definitions L atof unescape_j o ds t -> ~ In DefExecutable ds -> forall e, trailing e ->
  exists ns, acc (list_of g_schema_type_definition (Star g_ignored)) o t e ns /\ all read_sdl ns = Some ds.
Proof.
  intros H N e He.
  enough (exists n t1 t2 ns, t = t1 ++ t2 /\ acc g_schema_type_definition o t1 (t2 ++ e) [n]
            /\ acc (Star (Star g_ignored >> g_schema_type_definition)) (o + length t1) t2 e ns
            /\ all read_sdl (n :: ns) = Some ds) as (n & t1 & t2 & ns & -> & A1 & A2 & A3).
  { exists ([n] ++ ns). split; [apply acc_seq; assumption|exact A3]. }
  induction H as [o d t Hd|o d t w ds t' Hd Hw J Hds IH].
  - destruct (acc_defines o d t e Hd) as (n & A1 & A2).
    { intros ->. apply N. left. reflexivity. } { left. apply trailing_ends. exact He. } { left. exact He. }
    exists n, t, [], []. rewrite app_nil_r. split; [reflexivity|].
    split; [exact A1|]. split; [|cbn [all]; rewrite A2; reflexivity]. apply acc_star_nil.
    pose proof (acc_trailing sel e He (o + length t)) as T. unfold PegLook.acc in T. rewrite app_nil_r in T.
    eapply m_seq with (x := Fail); [exact T|]. apply fails_end. by_look.
  - assert (~ In DefExecutable ds) as N' by (intro X; apply N; right; exact X).
    assert (d <> DefExecutable) as Nd by (intros ->; apply N; left; reflexivity).
    destruct (IH N') as (n & t1 & t2 & ns & E & A1 & A2 & A3).
    pose proof (definitions_first _ _ _ Hds N') as St.
    destruct (acc_defines o d t ((w ++ t') ++ e) Hd Nd) as (m & B1 & B2).
    { rewrite <- app_assoc. apply tidy_separate; [exact Hw|exact J|eapply starts_imp; [eapply defines_first; eassumption|auto]|eapply starts_imp; [exact St|auto]]. }
    { right. exists w, (t' ++ e). rewrite <- app_assoc. split; [reflexivity|]. split; [exact Hw|]. eapply definitions_opening; eassumption. }
    exists m, t, (w ++ t'), ([n] ++ ns). split; [reflexivity|]. split; [exact B1|]. split.
    + subst t'. rewrite app_assoc. apply acc_star_cons.
      * apply acc_blanks_seq; [exact Hw| |exact A1]. rewrite app_assoc. eapply starts_head; [exact St|by_look].
      * rewrite app_length, Nat.add_assoc. exact A2.
    + cbn [app]. cbn [all]. cbn [all] in A3. rewrite B2. rewrite A3. reflexivity.
Qed.

Lemma acc_schema_document ds t : schema_document L atof unescape_j ds t -> ~ In DefExecutable ds ->
  exists ns, M g_schema_document 0 t (Match ns (length t) []) /\ read_schema L atof unescape_j ns = Some ds.
Proof.
  intros H N. destruct H as [bom w ds t e Hbom Hw Hds He].
  destruct (acc_definitions _ _ _ Hds N e He) as (ns & A1 & A2). exists ns. split; [|exact A2].
  pose proof (definitions_first _ _ _ Hds N) as St.
  assert (acc g_schema_document 0 (bom ++ w ++ t ++ e) [] ns) as X; [|unfold PegLook.acc in X; rewrite app_nil_r in X; exact X].
  apply acc_must. apply (acc_seq sel _ _ 0 [] (bom ++ w ++ t ++ e) [] [] ns); [apply acc_nil; constructor|].
  apply (acc_seq sel _ _ _ bom (w ++ t ++ e) [] [] ns).
  - destruct Hbom as [->| ->].
    + apply acc_opt_none. destruct Hw as [|b w Hb Hw].
      * eapply sor_start with (t := t ++ e); [|apply starts_app; exact St]. by_look.
      * eapply sor_start with (t := ((b ++ w) ++ t ++ e)); [|apply starts_app; apply starts_app; apply blank_starts; exact Hb]. by_look.
    + apply acc_opt. unfold PegLook.acc. pose proof (m_utf8 grammar sel 65279 65279 (0 + 0) (byte_order_mark ++ (w ++ t ++ e) ++ []) 3 eq_refl) as X.
      exact X.
  - apply acc_blanks_seq; [exact Hw|rewrite <- app_assoc; eapply starts_head; [exact St|by_look]|].
    rewrite <- (app_nil_r ns). apply (acc_seq sel _ _ _ t e [] ns []); [rewrite app_nil_r; exact A1|].
    rewrite <- (app_nil_r e). apply (acc_seq sel _ _ _ e [] [] [] []); [apply acc_trailing; exact He|]. apply acc_nil. constructor.
Qed.

Theorem parse_schema_complete ds t : schema_document L atof unescape_j ds t -> ~ In DefExecutable ds ->
  exists ns, parse_schema_string t = Ok ns /\ read_schema L atof unescape_j ns = Some ds.
Proof.
  intros H N. destruct (acc_schema_document _ _ H N) as (ns & A1 & A2). exists ns. split; [|exact A2].
  apply parse_with_iff in A1; [|cbn; tauto]. unfold parse_schema_string, parse_twice. rewrite A1. reflexivity.
Qed.

End Sdl.
