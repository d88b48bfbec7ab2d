(** Whatever the parser accepts as a type system definition is a spelling of what the loader reads in its tree. *)
From Coq Require Import String Ascii NArith ZArith Bool List Lia.
From Verif Require Import Cpp Value Ast SchemaModel LoaderModel.
From Verif Require Export SdlLex.
Import ListNotations.
Local Open Scope list_scope.

Lemma schema_keeps : forall r, ast_keeps r = true -> schema_selector r = Keep.
Proof. intros []; intro H; first [discriminate H|reflexivity]. Qed.

(** ** Nodes of one type. *)
Definition only (k : rule) (ns : list (node rule)) : Prop := Forall (fun n => n_type n = k) ns.
Lemma only_one k b c ks : only k [Node k b c ks].
Proof. constructor; [reflexivity|constructor]. Qed.
Lemma only_nil k : only k [].
Proof. constructor. Qed.
Lemma find_only r k a b : only k a -> rule_eqb k r = false -> first_child r (a ++ b) = first_child r b.
Proof. intros H E. rewrite find_app, (find_none_type r a k E H). reflexivity. Qed.
Lemma find_only_end r k a : only k a -> rule_eqb k r = false -> first_child r a = None.
Proof. intros H E. apply (find_none_type r a k E H). Qed.
Lemma each_only_end r k a : only k a -> rule_eqb k r = false -> each_child r a = [].
Proof.
  intros H E. induction H as [|n a Hn _ IH]; [reflexivity|]. unfold each_child in *. cbn [List.filter]. unfold is_type at 1. rewrite Hn, E. exact IH.
Qed.
Lemma each_only r k a b : only k a -> rule_eqb k r = false -> each_child r (a ++ b) = each_child r b.
Proof. intros H E. rewrite each_app, (each_only_end r k a H E). reflexivity. Qed.
Lemma each_these k a b : only k a -> each_child k (a ++ b) = a ++ each_child k b.
Proof. intro H. rewrite each_app, (filter_same k a H). reflexivity. Qed.

Ltac pick :=
  repeat match goal with
  | H : only ?k ?a |- context [first_child ?r (?a ++ ?b)] => rewrite (find_only r k a b H eq_refl)
  | H : only ?k ?a |- context [first_child ?r ?a] => rewrite (find_only_end r k a H eq_refl)
  | H : only ?k ?a |- context [each_child ?r (?a ++ ?b)] => rewrite (each_only r k a b H eq_refl)
  | H : only ?k ?a |- context [each_child ?r ?a] => rewrite (each_only_end r k a H eq_refl)
  | H : only ?k ?a |- context [each_child ?k (?a ++ ?b)] => rewrite (each_these k a b H)
  | H : only ?k ?a |- context [each_child ?k ?a] => rewrite (filter_same k a H)
  end.

Definition typed {A} (k : rule) (rd : node rule -> option A) (n : node rule) : option A := if is_type k n then rd n else None.
Lemma all_typed {A} k (rd : node rule -> option A) ns : forall xs, all (typed k rd) ns = Some xs -> all rd ns = Some xs /\ only k ns.
Proof.
  induction ns as [|n ns IH]; intros xs H; [split; [exact H|constructor]|]. cbn [all] in *. unfold typed at 1 in H.
  destruct (is_type k n) eqn:T; [|discriminate]. destruct (rd n); [|discriminate]. destruct (all (typed k rd) ns) as [ys|]; [|discriminate].
  injection H as <-. destruct (IH _ eq_refl) as [-> O]. split; [reflexivity|]. constructor; [|exact O].
  unfold is_type in T. destruct (rule_eqb_spec (n_type n) k); [assumption|discriminate].
Qed.

Lemma items_any {A} sep (P : nat -> A -> text -> Prop) (HP : forall o p x t, P o x t -> P p x t) o xs t :
  items sep P o xs t -> forall p, items sep P p xs t.
Proof. induction 1 as [o x t H|o x t w xs t' H Hw _ IH]; intro p; constructor; eauto. Qed.

Section Sdl.
Notation sel := schema_selector.
Variable L : nat -> schema_location.
Variable atof : string -> spec_float.
Variable unescape_j : string -> string.
Notation M := (matches grammar sel).
Notation kept := (keep_inv sel).
Notation described := (described unescape_j).
Notation directives := (directives L atof).
Notation first_heard := (first_heard unescape_j).
Notation read_input := (read_input L atof unescape_j).
Notation read_field_definition := (read_field_definition L atof unescape_j).
Notation read_enum_value := (read_enum_value L atof unescape_j).
Notation read_sdl := (read_sdl L atof unescape_j).
Notation input_value := (input_value L atof unescape_j).
Notation field := (field L atof unescape_j).
Notation enum_value := (enum_value L atof unescape_j).
Notation read_description := (read_description unescape_j).

Lemma named_not_empty (n : string) (s : text) : name n -> chars n ++ s <> [].
Proof. destruct n; [intros []|discriminate]. Qed.

(** ** Descriptions. *)
Definition desc_nodes (desc : string) (ns : list (node rule)) : Prop :=
  (desc = ""%string /\ ns = []) \/ exists b c ks, ns = [Node R_description b c ks] /\ first_heard ks = desc.
Lemma desc_only desc ns : desc_nodes desc ns -> only R_description ns.
Proof. intros [[_ ->]|(b & c & ks & -> & _)]; [apply only_nil|apply only_one]. Qed.

Lemma read_desc desc nd rest : desc_nodes desc nd -> first_child R_description rest = None -> read_description (nd ++ rest) = desc.
Proof.
  intros [[-> ->]|(b & c & ks & -> & <-)] H; unfold SdlTree.read_description.
  - cbn [app]. rewrite H. reflexivity.
  - reflexivity.
Qed.

Lemma described_inv o s ns o' s' : M (opt (Ref R_description >> Star g_ignored)) o s (Match ns o' s') -> s' <> [] ->
  exists desc td, s = td ++ s' /\ o' = o + length td /\ described desc td /\ desc_nodes desc ns.
Proof.
  intros H Hs. apply opt_inv in H as [H|(_ & -> & -> & <-)].
  - apply seq_inv in H as (n1 & o1 & s1 & n2 & H1 & H2 & ->). apply blanks_inv_more in H2 as (-> & w & -> & -> & Hw); [|exact Hs].
    apply kept in H1 as (ks & t & H1 & E & -> & ->); [|reflexivity]. rewrite app_nil_r.
    apply (string_heard sel schema_keeps unescape_j) in H1 as [(u & d & E1 & Hq & Hh)|(u & E1 & Hq & Hh)]; rewrite E in E1; apply same_end in E1; subst t.
    + exists (first_heard ks), (""""%char :: u ++ """"%char :: w).
      split; [rewrite E; cbn; rewrite <- !app_assoc; reflexivity|]. split; [cbn; rewrite !app_length; cbn; lia|].
      split; [rewrite <- Hh; econstructor; eassumption|right; eauto 6].
    + exists (first_heard ks), (q3 ++ u ++ q3 ++ w).
      split; [rewrite E; rewrite <- !app_assoc; reflexivity|]. split; [rewrite !app_length; lia|].
      split; [rewrite <- Hh; constructor; assumption|right; eauto 6].
  - exists ""%string, []. split; [reflexivity|]. split; [cbn; lia|]. split; [constructor|left; auto].
Qed.

Lemma start_inv k o s ns o' s' : empty_ok nb k = false -> M (opt (Ref R_description >> Star g_ignored) >> k) o s (Match ns o' s') ->
  exists desc td nd nk s1, s = td ++ s1 /\ described desc td /\ desc_nodes desc nd /\ ns = nd ++ nk /\ M k (o + length td) s1 (Match nk o' s').
Proof.
  intros E H. apply seq_inv in H as (n1 & o1 & s1 & n2 & H1 & H2 & ->).
  apply described_inv in H1 as (desc & td & -> & -> & Hd & Nd); [|intros ->; apply nonempty in H2; [cbn in H2; lia|exact E]].
  exists desc, td, n1, n2, s1. auto.
Qed.

(** ** Names. *)
Lemma named_inv k o s ns o' s' : grammar k = g_name -> sel k = Keep -> M (Ref k) o s (Match ns o' s') ->
  exists n, name n /\ s = chars n ++ s' /\ o' = o + length (chars n) /\ ns = [Node k o (chars n) []] /\ ends s'.
Proof.
  intros G K H. apply kept in H as (ks & t & H & -> & -> & ->); [|exact K]. rewrite G in H.
  apply name_inv in H as (n & Hn & E & -> & _ & He). apply same_end in E. subst t. eauto 8.
Qed.
Lemma enum_name_inv o s ns o' s' : M (Ref R_enum_value) o s (Match ns o' s') ->
  exists n, name n /\ s = chars n ++ s' /\ o' = o + length (chars n) /\ ns = [Node R_enum_value o (chars n) []] /\ ends s'.
Proof.
  intro H. apply kept in H as (ks & t & H & -> & -> & ->); [|reflexivity].
  apply seq_inv in H as (n1 & o1 & s1 & n2 & H1 & H2 & ->). apply not_inv in H1 as (_ & -> & -> & ->).
  apply name_inv in H2 as (n & Hn & E & -> & _ & He). apply same_end in E. subst t. eauto 8.
Qed.
Lemma read_named k o n rest : read_name k ([Node k o (chars n) []] ++ rest) = n.
Proof.
  unfold read_name, first_child. cbn [app List.find]. unfold is_type. cbn [n_type]. destruct (rule_eqb_spec k k); [|contradiction].
  unfold text_of. cbn [n_content]. apply str_chars.
Qed.
Lemma read_named_after k o n desc nd rest : desc_nodes desc nd -> rule_eqb R_description k = false ->
  read_name k (nd ++ [Node k o (chars n) []] ++ rest) = n.
Proof.
  intros H E. unfold read_name. rewrite (find_only k R_description nd _ (desc_only _ _ H) E). exact (read_named k o n rest).
Qed.

(** ** Directives, values, types. *)
Definition any_dirs (ns : list (node rule)) : Prop := ns = [] \/ exists b c ks, ns = [Node R_directives b c ks].
Lemma any_dirs_only ns : any_dirs ns -> only R_directives ns.
Proof. intros [->|(b & c & ks & ->)]; [apply only_nil|apply only_one]. Qed.
Lemma some_any dirs ns : dirs_nodes L atof dirs ns -> any_dirs ns.
Proof. intros (b & c & ks & -> & _). right. eauto. Qed.
Lemma maybe_any dirs ns : ((dirs = [] /\ ns = []) \/ dirs_nodes L atof dirs ns) -> any_dirs ns.
Proof. intros [[_ ->]|H]; [left; reflexivity|apply (some_any _ _ H)]. Qed.
Lemma read_dirs dirs nd : ((dirs = [] /\ nd = []) \/ dirs_nodes L atof dirs nd) -> read_directives L atof nd = Some dirs.
Proof. intros [[-> ->]|(b & c & ks & -> & E)]; [reflexivity|exact E]. Qed.
Lemma read_dirs_skip k a b : only k a -> rule_eqb k R_directives = false -> read_directives L atof (a ++ b) = read_directives L atof b.
Proof. intros H E. unfold read_directives. rewrite (find_only R_directives k a b H E). reflexivity. Qed.

Lemma dirs_inv o s ns o' s' : M (opt (Star g_ignored >> Ref R_directives)) o s (Match ns o' s') ->
  exists xs t, s = t ++ s' /\ o' = o + length t /\ optional directives o xs t /\ ((xs = [] /\ ns = []) \/ dirs_nodes L atof xs ns).
Proof. exact (optional_directives_inv sel schema_keeps L atof o s ns o' s'). Qed.
Lemma some_dirs_inv o s ns o' s' : M (Star g_ignored >> Ref R_directives) o s (Match ns o' s') ->
  exists xs t, s = t ++ s' /\ o' = o + length t /\ optional directives o xs t /\ dirs_nodes L atof xs ns.
Proof. exact (some_directives_inv sel schema_keeps L atof o s ns o' s'). Qed.

Lemma type_inv o s ns o' s' : M g_type_name o s (Match ns o' s') ->
  exists ty t n k, s = t ++ s' /\ o' = o + length t /\ ns = [n] /\ type_ref ty t /\ read_type n = Some ty /\ is_type_node n = true
    /\ only k [n] /\ In k [R_named_type; R_list_type; R_nonnull_type].
Proof.
  intro H. apply must_inv in H. destruct (type_sound sel schema_keeps L (S (length s)) o s ns o' s' (Nat.lt_succ_diag_r _)) as [_ T].
  apply T in H as (ty & t & n & -> & -> & -> & Ht & Hr & Hi & _). exists ty, t, n, (n_type n).
  repeat (split; [first [reflexivity|assumption]|]). split; [constructor; [reflexivity|constructor]|].
  unfold is_type_node in Hi. destruct n as [k b c ks]. cbn [n_type] in *. destruct k; try discriminate; cbn; auto.
Qed.

Lemma value_node o s ns o' s' : M g_input_value_content o s (Match ns o' s') ->
  exists k t ks, s = t ++ s' /\ ns = [Node k o t ks].
Proof.
  intro H.
  repeat match goal with
  | H : M (_ </> _) _ _ _ |- _ => apply sor_inv in H as [H|[_ H]]
  | H : M g_input_value_content _ _ _ |- _ => unfold g_input_value_content in H
  | H : M g_bool_value _ _ _ |- _ => unfold g_bool_value in H
  | H : M (Ref ?r) _ _ _ |- _ => apply kept in H as (ks & t & H & -> & _ & ->); [eexists _, _, _; split; reflexivity|reflexivity]
  end.
Qed.

Lemma with_default_inv o s ns o' s' : M (opt (Star g_ignored >> Ref R_default_value)) o s (Match ns o' s') ->
  exists d t, s = t ++ s' /\ o' = o + length t /\ with_default L atof o d t /\ only R_default_value ns
    /\ (match first_child R_default_value ns with
        | Some d => match back (n_children d) with
                    | Some z => match read_value L atof z with Some v => Some (Some (v, text_of z)) | None => None end
                    | None => None
                    end
        | None => Some None
        end = Some d).
Proof.
  intro H. apply opt_inv in H as [H|(_ & -> & -> & <-)].
  - apply ignored_then_inv in H as (w1 & s1 & -> & H1 & H); [|reflexivity].
    apply kept in H as (ks & t & H & -> & -> & ->); [|reflexivity].
    apply seq_inv in H as (n1 & o1 & s1 & n2 & H & H2 & ->). apply one_inv in H as (c & E & [<-|[]] & -> & ->).
    apply must_inv in H2. apply ignored_then_inv in H2 as (w2 & s2 & -> & Hw2 & H2); [|reflexivity]. apply must_inv in H2.
    pose proof H2 as V. apply value_node in V as (k & u' & kz & Ez & En).
    destruct (value_sound sel schema_keeps L atof (S (length s2)) _ _ _ _ _ H2 (Nat.lt_succ_diag_r _)) as (v & u & z & -> & _ & -> & Hv & Ev).
    apply same_end in Ez. subst u'. injection En as ->.
    assert (t = "="%char :: w2 ++ u) as -> by (apply (same_end _ _ s'); rewrite E; cbn; rewrite <- app_assoc; reflexivity).
    exists (Some (v, str u)), (w1 ++ "="%char :: w2 ++ u).
    split; [rewrite <- !app_assoc; reflexivity|]. split; [rewrite !app_length; cbn [length]; lia|]. split; [constructor; assumption|].
    split; [apply only_one|]. cbn [app].
    change (first_child R_default_value [Node R_default_value (o + length w1) ("="%char :: w2 ++ u) [Node k (o + length w1 + 1 + length w2) u kz]])
      with (Some (Node R_default_value (o + length w1) ("="%char :: w2 ++ u) [Node k (o + length w1 + 1 + length w2) u kz])).
    cbn [n_children back]. rewrite Ev. reflexivity.
  - exists None, []. split; [reflexivity|]. split; [cbn; lia|]. split; [constructor|]. split; [apply only_nil|reflexivity].
Qed.

Lemma typed_of {A} k (rd : node rule -> option A) b c ks : typed k rd (Node k b c ks) = rd (Node k b c ks).
Proof. unfold typed, is_type. cbn [n_type]. destruct (rule_eqb_spec k k); [reflexivity|contradiction]. Qed.

Lemma find_type_only k a b : only k a -> ~ In k [R_named_type; R_list_type; R_nonnull_type] -> List.find is_type_node (a ++ b) = List.find is_type_node b.
Proof.
  intros H N. induction H as [|n a Hn _ IH]; [reflexivity|]. cbn [app List.find]. destruct (is_type_node n) eqn:T; [|exact IH].
  exfalso. apply N. rewrite <- Hn. clear -T. unfold is_type_node, is_type in T. destruct (n_type n); try discriminate; cbn; auto.
Qed.
Lemma not_type k r : In k [R_named_type; R_list_type; R_nonnull_type] -> ~ In r [R_named_type; R_list_type; R_nonnull_type] -> rule_eqb k r = false.
Proof. intros H N. destruct (rule_eqb_spec k r) as [->|]; [contradiction|reflexivity]. Qed.

(** ** Input values. *)
Lemma type_node n : is_type_node n = true -> exists k, only k [n] /\ In k [R_named_type; R_list_type; R_nonnull_type].
Proof.
  intro Hi. exists (n_type n). split; [constructor; [reflexivity|constructor]|]. unfold is_type_node in Hi. destruct n as [k b c ks]. cbn [n_type] in *. destruct k; try discriminate; cbn; auto.
Qed.
Definition default_of (ns : list (node rule)) : option (option (lit * string)) :=
  match first_child R_default_value ns with
  | Some d => match back (n_children d) with
              | Some z => match read_value L atof z with Some v => Some (Some (v, text_of z)) | None => None end
              | None => None
              end
  | None => Some None
  end.
Lemma input_reads o t desc nd p n tn ty ndef ndirs d : desc_nodes desc nd -> is_type_node tn = true -> read_type tn = Some ty ->
  only R_default_value ndef -> any_dirs ndirs -> default_of ndef = Some d ->
  read_input (Node R_input_field_definition o t (nd ++ [Node R_argument_name p (chars n) []] ++ [tn] ++ ndef ++ ndirs)) = Some (mkSdlInput n desc ty d).
Proof.
  intros Nd It Rt Odef Adirs Rdef. destruct (type_node tn It) as (k & Ok & Hk). unfold SdlTree.read_input. cbn [n_children].
  pose proof (desc_only _ _ Nd) as O1. pose proof (any_dirs_only _ Adirs) as O3.
  set (nn := Node R_argument_name _ (chars n) []).
  assert (only R_argument_name [nn]) as O2 by apply only_one.
  rewrite (find_type_only _ _ _ O1) by (cbn; intuition discriminate). rewrite (find_type_only _ _ _ O2) by (cbn; intuition discriminate).
  cbn [app List.find]. rewrite It, Rt. change (nn :: tn :: ndef ++ ndirs) with ([nn] ++ [tn] ++ ndef ++ ndirs).
  assert (first_child R_default_value (nd ++ [nn] ++ [tn] ++ ndef ++ ndirs) = first_child R_default_value ndef) as ->.
  { pick. rewrite (find_only _ k [tn] _ Ok) by (apply (not_type _ _ Hk); cbn; intuition discriminate).
    rewrite find_app. pick. destruct (first_child R_default_value ndef); reflexivity. }
  unfold default_of in Rdef. rewrite Rdef. subst nn. rewrite (read_named_after R_argument_name _ n desc nd _ Nd eq_refl).
  rewrite (read_desc desc nd _ Nd); [reflexivity|].
  pick. rewrite (find_only _ k [tn] _ Ok) by (apply (not_type _ _ Hk); cbn; intuition discriminate). pick. reflexivity.
Qed.

Lemma input_sound N : sound_below sel input_value (Ref R_input_field_definition) (typed R_input_field_definition read_input) N.
Proof.
  intros o s ns o' s' H _. apply kept in H as (ks & t & H & -> & -> & ->); [|reflexivity].
  apply seq_inv in H as (n1 & o1 & s1 & n2 & H1 & H2 & ->).
  apply start_inv in H1 as (desc & td & nd & nk & s2 & E & Hd & Nd & -> & H1); [|reflexivity].
  apply named_inv in H1 as (n & Hn & -> & -> & -> & _); [|reflexivity..].
  apply must_inv in H2. apply seq_inv in H2 as (n3 & o3 & s3 & n4 & H1 & H2 & ->).
  apply ignored_then_inv in H1 as (w1 & s4 & -> & Hw1 & H1); [|reflexivity].
  apply seq_inv in H1 as (n5 & o5 & s5 & n6 & H3 & H1 & ->). apply one_inv in H3 as (c & -> & [<-|[]] & -> & ->).
  apply ignored_then_inv in H1 as (w2 & s6 & -> & Hw2 & H1); [|reflexivity].
  apply type_inv in H1 as (ty & tt & tn & k & -> & -> & -> & Ht & Rt & It & Ok & Hk).
  assert (exists d tdef dirs tdirs ndef ndirs, s3 = tdef ++ tdirs ++ s' /\ n4 = ndef ++ ndirs
    /\ with_default L atof (o + length td + length (chars n) + length w1 + 1 + length w2 + length tt) d tdef
    /\ optional directives (o + length td + length (chars n) + length w1 + 1 + length w2 + length tt + length tdef) dirs tdirs
    /\ only R_default_value ndef /\ any_dirs ndirs
    /\ (match first_child R_default_value ndef with
        | Some d => match back (n_children d) with
                    | Some z => match read_value L atof z with Some v => Some (Some (v, text_of z)) | None => None end
                    | None => None
                    end
        | None => Some None
        end = Some d)) as (d & tdef & dirs & tdirs & ndef & ndirs & -> & -> & Hdef & Hdirs & Odef & Adirs & Rdef).
  { apply sor_inv in H2 as [H2|[_ H2]].
    - apply seq_inv in H2 as (m1 & p1 & q1 & m2 & H2 & H3 & ->). apply with_default_inv in H2 as (d & tdef & -> & -> & Hdef & Odef & Rdef).
      apply some_dirs_inv in H3 as (dirs & tdirs & -> & _ & Hdirs & Nx). exists d, tdef, dirs, tdirs, m1, m2.
      repeat (split; [first [reflexivity|assumption]|]). split; [apply (some_any _ _ Nx)|exact Rdef].
    - apply with_default_inv in H2 as (d & tdef & -> & _ & Hdef & Odef & Rdef). exists d, tdef, [], [], n4, [].
      split; [reflexivity|]. split; [symmetry; apply app_nil_r|]. split; [exact Hdef|]. split; [constructor|]. split; [exact Odef|]. split; [left; reflexivity|exact Rdef]. }
  assert (t = td ++ chars n ++ w1 ++ ":"%char :: w2 ++ tt ++ tdef ++ tdirs) as ->.
  { apply (same_end _ _ s'). rewrite E. rewrite <- !app_assoc. cbn. rewrite <- !app_assoc. reflexivity. }
  exists (mkSdlInput n desc ty d). eexists. eexists. split; [reflexivity|]. split; [reflexivity|]. split; [reflexivity|].
  split; [econstructor; eassumption|]. rewrite typed_of, <- app_assoc.
  exact (input_reads _ _ desc nd _ n tn ty ndef ndirs d Nd It Rt Odef Adirs Rdef).
Qed.

(** What is between brackets, as nodes: [all]. *)
Lemma block_inv {A} (P : nat -> A -> text -> Prop) k kb (rd : node rule -> option A)
  (Hr : forall N, sound_below sel P (Ref k) (typed k rd) N) (Hne : nb k = false) open close mo mi :
  grammar kb = (one [open] >> Must mo (Star g_ignored >> list_of (Ref k) (plus g_ignored) >> Star g_ignored >> Must mi (one [close]))) ->
  sel kb = Keep -> forall o s ns o' s', M (Ref kb) o s (Match ns o' s') ->
  exists xs t ks, s = t ++ s' /\ o' = o + length t /\ bracketed open close P o xs t /\ ns = [Node kb o t ks] /\ all rd ks = Some xs.
Proof.
  intros G K o s ns o' s' H. apply kept in H as (ks & t & H & -> & -> & ->); [|exact K]. rewrite G in H.
  apply (bracketed_inv sel P (Ref k) (typed k rd) (length (t ++ s'))) in H as (xs & u & E & Hb & Ex); [|apply Hr|exact Hne|lia].
  apply same_end in E. subst u. apply all_typed in Ex as [Ex _]. exists xs, t, ks. auto.
Qed.
(** The same without a node of its own, and with or without the outer [must]. *)
Lemma bare_block_inv {A} (P : nat -> A -> text -> Prop) k (rd : node rule -> option A)
  (Hr : forall N, sound_below sel P (Ref k) (typed k rd) N) (Hne : nb k = false) open close mi o s ns o' s' :
  M (one [open] >> Star g_ignored >> list_of (Ref k) (plus g_ignored) >> Star g_ignored >> Must mi (one [close])) o s (Match ns o' s') ->
  exists xs t, s = t ++ s' /\ o' = o + length t /\ bracketed open close P o xs t /\ all rd ns = Some xs /\ only k ns.
Proof.
  intro H.
  assert (M (one [open] >> Must ""%string (Star g_ignored >> list_of (Ref k) (plus g_ignored) >> Star g_ignored >> Must mi (one [close]))) o s (Match ns o' s')) as H'.
  { apply seq_inv in H as (n1 & o1 & s1 & n2 & H1 & H2 & ->). apply (m_seq grammar sel _ _ o s n1 o1 s1 (Match n2 o' s')); [exact H1|].
    apply m_must. exact H2. }
  destruct (matches_consumes _ _ _ _ _ _ H _ _ _ eq_refl) as (u & -> & ->).
  apply (bracketed_inv sel P (Ref k) (typed k rd) (length (u ++ s'))) in H' as (xs & t & E & Hb & Ex); [|apply Hr|exact Hne|lia].
  apply same_end in E. subst t. apply all_typed in Ex as [Ex O]. exists xs, u. auto.
Qed.

Notation input_values := (input_values L atof unescape_j).
Lemma arguments_definition_inv o s ns o' s' : M (Ref R_arguments_definition) o s (Match ns o' s') ->
  exists xs t ks, s = t ++ s' /\ o' = o + length t /\ input_values o xs t /\ ns = [Node R_arguments_definition o t ks] /\ all read_input ks = Some xs.
Proof. apply (block_inv input_value R_input_field_definition R_arguments_definition read_input input_sound eq_refl "("%char ")"%char _ _ eq_refl eq_refl). Qed.
Lemma optional_input_values_inv o s ns o' s' : M (opt (Star g_ignored >> Ref R_arguments_definition)) o s (Match ns o' s') ->
  exists xs t, s = t ++ s' /\ o' = o + length t /\ optional input_values o xs t /\ only R_arguments_definition ns
    /\ read_block R_arguments_definition read_input ns = Some xs.
Proof.
  intro H.
  apply (optional_inv sel input_values (Ref R_arguments_definition)
    (fun xs ns => only R_arguments_definition ns /\ read_block R_arguments_definition read_input ns = Some xs) eq_refl) in H
    as (xs & t & E & Eo & Ho & [[-> ->]|[O R]]).
  - exists [], t. auto using only_nil.
  - exists xs, t. auto.
  - intros p s1 m p' s2 H1. apply arguments_definition_inv in H1 as (ys & u & ks & -> & -> & Hb & -> & Ey). exists ys, u.
    repeat (split; [first [reflexivity|assumption]|]). split; [apply only_one|exact Ey].
Qed.
Lemma read_block_skip {A} r (f : node rule -> option A) k a b : only k a -> rule_eqb k r = false -> read_block r f (a ++ b) = read_block r f b.
Proof. intros H E. unfold read_block. rewrite (find_only r k a b H E). reflexivity. Qed.
Lemma read_block_here {A} r (f : node rule -> option A) k a b : only k b -> rule_eqb k r = false -> read_block r f (a ++ b) = read_block r f a.
Proof.
  intros H E. unfold read_block. rewrite find_app, (find_only_end r k b H E). destruct (first_child r a); reflexivity.
Qed.

(** ** Fields. *)
Lemma field_reads o t desc nd p n args n3 tn ty dirs n8 : desc_nodes desc nd -> only R_arguments_definition n3 ->
  read_block R_arguments_definition read_input n3 = Some args -> is_type_node tn = true -> read_type tn = Some ty ->
  ((dirs = [] /\ n8 = []) \/ dirs_nodes L atof dirs n8) ->
  read_field_definition (Node R_field_definition o t (nd ++ [Node R_field_name p (chars n) []] ++ n3 ++ [tn] ++ n8)) = Some (mkSdlField n desc args ty dirs).
Proof.
  intros Nd Oa Ra It Rt Nx. destruct (type_node tn It) as (k & Ok & Hk). unfold SdlTree.read_field_definition. cbn [n_children].
  pose proof (desc_only _ _ Nd) as O1. pose proof (any_dirs_only _ (maybe_any _ _ Nx)) as O3.
  set (nn := Node R_field_name _ (chars n) []).
  assert (only R_field_name [nn]) as O2 by apply only_one.
  assert (forall r, ~ In r [R_named_type; R_list_type; R_nonnull_type] -> rule_eqb k r = false) as Nk by (intros r Hr; apply (not_type _ _ Hk Hr)).
  change (match first_child R_arguments_definition (nd ++ [nn] ++ n3 ++ [tn] ++ n8) with Some a => all read_input (n_children a) | None => Some [] end)
    with (read_block R_arguments_definition read_input (nd ++ [nn] ++ n3 ++ [tn] ++ n8)).
  rewrite (read_block_skip R_arguments_definition read_input _ _ _ O1 eq_refl), (read_block_skip R_arguments_definition read_input _ _ _ O2 eq_refl).
  assert (read_block R_arguments_definition read_input (n3 ++ [tn] ++ n8) = Some args) as ->.
  { rewrite app_assoc, (read_block_here R_arguments_definition read_input _ _ _ O3 eq_refl), (read_block_here _ _ k _ _ Ok); [exact Ra|]. apply Nk. cbn. intuition discriminate. }
  rewrite (find_type_only _ _ _ O1) by (cbn; intuition discriminate). rewrite (find_type_only _ _ _ O2) by (cbn; intuition discriminate).
  rewrite (find_type_only _ _ _ Oa) by (cbn; intuition discriminate). cbn [app List.find]. rewrite It, Rt.
  change (nn :: n3 ++ tn :: n8) with ([nn] ++ n3 ++ [tn] ++ n8).
  rewrite (read_dirs_skip _ _ _ O1 eq_refl), (read_dirs_skip _ _ _ O2 eq_refl), (read_dirs_skip _ _ _ Oa eq_refl).
  rewrite (read_dirs_skip k [tn] n8 Ok) by (apply Nk; cbn; intuition discriminate). rewrite (read_dirs _ _ Nx).
  subst nn. rewrite (read_named_after R_field_name _ n desc nd _ Nd eq_refl).
  rewrite (read_desc desc nd _ Nd); [reflexivity|].
  pick. rewrite (find_only _ k [tn] _ Ok) by (apply Nk; cbn; intuition discriminate). pick. reflexivity.
Qed.
Lemma field_sound N : sound_below sel field (Ref R_field_definition) (typed R_field_definition read_field_definition) N.
Proof.
  intros o s ns o' s' H _. apply kept in H as (ks & t & H & -> & -> & ->); [|reflexivity].
  apply seq_inv in H as (n1 & o1 & s1 & n2 & H1 & H2 & ->).
  apply start_inv in H1 as (desc & td & nd & nk & s2 & E & Hd & Nd & -> & H1); [|reflexivity].
  apply named_inv in H1 as (n & Hn & -> & -> & -> & _); [|reflexivity..].
  apply must_inv in H2. apply seq_inv in H2 as (n3 & o3 & s3 & n4 & H1 & H2 & ->).
  apply optional_input_values_inv in H1 as (args & ta & -> & -> & Ha & Oa & Ra).
  apply ignored_then_inv in H2 as (w1 & s4 & -> & Hw1 & H2); [|reflexivity].
  apply seq_inv in H2 as (n5 & o5 & s5 & n6 & H3 & H2 & ->). apply one_inv in H3 as (c & -> & [<-|[]] & -> & ->).
  apply ignored_then_inv in H2 as (w2 & s6 & -> & Hw2 & H2); [|reflexivity].
  apply seq_inv in H2 as (n7 & o7 & s7 & n8 & H3 & H2 & ->).
  apply type_inv in H3 as (ty & tt & tn & k & -> & -> & -> & Ht & Rt & It & Ok & Hk).
  apply dirs_inv in H2 as (dirs & tdirs & -> & _ & Hdirs & Nx).
  assert (t = td ++ chars n ++ ta ++ w1 ++ ":"%char :: w2 ++ tt ++ tdirs) as ->.
  { apply (same_end _ _ s'). rewrite E. rewrite <- !app_assoc. cbn. rewrite <- !app_assoc. reflexivity. }
  exists (mkSdlField n desc args ty dirs). eexists. eexists. split; [reflexivity|]. split; [reflexivity|]. split; [reflexivity|].
  split; [econstructor; eassumption|]. rewrite typed_of, <- app_assoc.
  exact (field_reads _ _ desc nd _ n args n3 tn ty dirs n8 Nd Oa Ra It Rt Nx).
Qed.

(** ** Enum values. *)
Lemma enum_value_reads o t desc nd p n dirs nx : desc_nodes desc nd -> ((dirs = [] /\ nx = []) \/ dirs_nodes L atof dirs nx) ->
  read_enum_value (Node R_enum_value_definition o t (nd ++ [Node R_enum_value p (chars n) []] ++ nx)) = Some (mkSdlEnum n desc dirs).
Proof.
  intros Nd Nx. unfold SdlTree.read_enum_value. cbn [n_children].
  pose proof (desc_only _ _ Nd) as O1. pose proof (any_dirs_only _ (maybe_any _ _ Nx)) as O3.
  set (nn := Node R_enum_value _ (chars n) []).
  assert (only R_enum_value [nn]) as O2 by apply only_one.
  rewrite (read_dirs_skip _ _ _ O1 eq_refl), (read_dirs_skip _ _ _ O2 eq_refl), (read_dirs _ _ Nx).
  subst nn. rewrite (read_named_after R_enum_value _ n desc nd _ Nd eq_refl).
  rewrite (read_desc desc nd _ Nd); [reflexivity|]. pick. reflexivity.
Qed.
Lemma enum_value_sound N : sound_below sel enum_value (Ref R_enum_value_definition) (typed R_enum_value_definition read_enum_value) N.
Proof.
  intros o s ns o' s' H _. apply kept in H as (ks & t & H & -> & -> & ->); [|reflexivity].
  apply seq_inv in H as (n1 & o1 & s1 & n2 & H1 & H2 & ->).
  apply start_inv in H1 as (desc & td & nd & nk & s2 & E & Hd & Nd & -> & H1); [|reflexivity].
  apply enum_name_inv in H1 as (n & Hn & -> & -> & -> & _).
  apply must_inv in H2. apply dirs_inv in H2 as (dirs & tdirs & -> & _ & Hdirs & Nx).
  assert (t = td ++ chars n ++ tdirs) as ->.
  { apply (same_end _ _ s'). rewrite E. rewrite <- !app_assoc. reflexivity. }
  exists (mkSdlEnum n desc dirs). eexists. eexists. split; [reflexivity|]. split; [reflexivity|]. split; [reflexivity|].
  split; [econstructor; eassumption|]. rewrite typed_of, <- app_assoc. exact (enum_value_reads _ _ desc nd _ n dirs n2 Nd Nx).
Qed.

(** ** Root operations. *)
Lemma operation_kind_inv o s ns o' s' : M (Ref R_operation_type) o s (Match ns o' s') ->
  exists k kind ks, In (k, kind) operation_names /\ operation_kind_of k = Some kind /\ s = chars k ++ s' /\ o' = o + length (chars k) /\ ns = [Node R_operation_type o (chars k) ks].
Proof.
  intro H. apply kept in H as (ks & t & H & -> & -> & ->); [|reflexivity].
  assert (exists k kind, In (k, kind) operation_names /\ operation_kind_of k = Some kind /\ t = chars k) as (k & kind & Hk & Ek & ->); [|eauto 10].
  apply sor_inv in H as [H|[_ H]]; [|apply sor_inv in H as [H|[_ H]]]; apply keyword_inv in H as (E & _ & _ & _); apply same_end in E; subst t;
    [exists "query"%string, OpQuery|exists "mutation"%string, OpMutation|exists "subscription"%string, OpSubscription];
    (split; [|split; reflexivity]); cbn; auto.
Qed.
Lemma root_sound kr : grammar kr = g_root_operation_definition -> sel kr = Keep -> forall N, sound_below sel root_operation (Ref kr) (typed kr read_operation_type) N.
Proof.
  intros G K N o s ns o' s' H _. apply kept in H as (ks & t & H & -> & -> & ->); [|exact K]. rewrite G in H.
  apply seq_inv in H as (n1 & o1 & s1 & n2 & H1 & H2 & ->). apply operation_kind_inv in H1 as (k & kind & kn & Hk & Ek & E & -> & ->).
  apply must_inv in H2. apply ignored_then_inv in H2 as (w1 & s4 & -> & Hw1 & H2); [|reflexivity].
  apply seq_inv in H2 as (n5 & o5 & s5 & n6 & H3 & H2 & ->). apply one_inv in H3 as (c & -> & [<-|[]] & -> & ->).
  apply ignored_then_inv in H2 as (w2 & s6 & -> & Hw2 & H2); [|reflexivity].
  apply named_inv in H2 as (n & Hn & -> & _ & -> & _); [|reflexivity..].
  assert (t = chars k ++ w1 ++ ":"%char :: w2 ++ chars n) as ->.
  { apply (same_end _ _ s'). rewrite E. rewrite <- !app_assoc. cbn. rewrite <- !app_assoc. reflexivity. }
  exists (kind, n). eexists. eexists. split; [reflexivity|]. split; [reflexivity|]. split; [reflexivity|].
  split; [constructor; assumption|]. rewrite typed_of. unfold read_operation_type. cbn [n_children app front back].
  unfold text_of. cbn [n_content]. rewrite !str_chars, Ek. reflexivity.
Qed.

(** ** Names in a list. *)
Lemma sep_inv c r : empty_ok nb r = false -> forall o s ns o' s', M ((Star g_ignored >> one [c] >> Star g_ignored) >> r) o s (Match ns o' s') ->
  exists w s1, s = w ++ s1 /\ separator c w /\ M r (o + length w) s1 (Match ns o' s').
Proof.
  intros Hne o s ns o' s' H. apply seq_inv in H as (n1 & o1 & s1 & n2 & H1 & H2 & ->).
  assert (s1 <> []) as Hs by (intros ->; apply nonempty in H2; [cbn in H2; lia|exact Hne]).
  apply ignored_then_inv in H1 as (w1 & s2 & -> & Hw1 & H1); [|reflexivity].
  apply seq_inv in H1 as (n3 & o3 & s3 & n4 & H1 & H3 & ->). apply one_inv in H1 as (c' & -> & [<-|[]] & -> & ->).
  apply blanks_inv_more in H3 as (-> & w2 & -> & -> & Hw2); [|exact Hs].
  exists (w1 ++ c :: w2), s1. split; [rewrite <- app_assoc; reflexivity|]. split; [exists w1, w2; auto|].
  rewrite app_length. cbn [length app]. replace (o + (length w1 + S (length w2))) with (o + length w1 + 1 + length w2) by lia. exact H2.
Qed.
Lemma a_name_sound k : grammar k = g_name -> sel k = Keep -> forall N, sound_below sel SdlSpec.a_name (Ref k) (typed k (fun n => Some (text_of n))) N.
Proof.
  intros G K N o s ns o' s' H _. apply named_inv in H as (n & Hn & -> & -> & -> & _); [|assumption..].
  exists n. eexists. eexists. split; [reflexivity|]. split; [reflexivity|]. split; [reflexivity|]. split; [split; [exact Hn|reflexivity]|].
  rewrite typed_of. unfold text_of. cbn [n_content]. rewrite str_chars. reflexivity.
Qed.
Lemma all_some {A B} (f : A -> B) l : all (fun x => Some (f x)) l = Some (map f l).
Proof. induction l as [|x l IH]; [reflexivity|]. cbn [all map]. rewrite IH. reflexivity. Qed.
Lemma names_inv c k : grammar k = g_name -> sel k = Keep -> forall o s ns o' s',
  M (list_of (Ref k) (Star g_ignored >> one [c] >> Star g_ignored)) o s (Match ns o' s') ->
  exists xs t, s = t ++ s' /\ o' = o + length t /\ names c xs t /\ map text_of ns = xs /\ only k ns.
Proof.
  intros G K o s ns o' s' H.
  assert (empty_ok nb (Ref k) = false) as Hne.
  { clear -G. destruct k; try discriminate G; reflexivity. }
  apply (items_inv sel SdlSpec.a_name (Ref k) (typed k (fun n => Some (text_of n))) (S (length s)) (a_name_sound k G K _) _ (separator c)
    (sep_inv c _ Hne)) in H as (xs & t & E & Eo & Hi & Ex); [|lia].
  apply all_typed in Ex as [Ex O]. rewrite all_some in Ex. injection Ex as Ex.
  exists xs, t. split; [exact E|]. split; [exact Eo|]. split; [|auto]. unfold names. eapply items_any; [|exact Hi]. intros p q x u H1. exact H1.
Qed.
Lemma names_letter c xs t : names c xs t -> forall s, exists a r, t ++ s = a :: r /\ is_ident a = true.
Proof.
  intros H s. assert (exists n r, name n /\ t = chars n ++ r) as (n & r & Hn & ->).
  { inversion H as [o x u [Hx ->]|o x u w ys t' [Hx ->] Hw Hi]; subst; [exists x, []; rewrite app_nil_r; auto|eauto]. }
  apply name_chars in Hn as (a & l & -> & Ha & _). cbn. eexists a, _. split; [reflexivity|apply alpha_ident; exact Ha].
Qed.
Lemma leading_inv c r : empty_ok nb r = false -> forall o s ns o' s', M (opt (Star g_ignored >> one [c]) >> Star g_ignored >> r) o s (Match ns o' s') ->
  exists w s1, s = w ++ s1 /\ leading c w /\ M r (o + length w) s1 (Match ns o' s').
Proof.
  intros Hne o s ns o' s' H. apply seq_inv in H as (n1 & o1 & s1 & n2 & H1 & H2 & ->).
  apply ignored_then_inv in H2 as (w2 & s2 & -> & Hw2 & H2); [|exact Hne].
  apply opt_inv in H1 as [H1|(_ & -> & -> & E)].
  - apply ignored_then_inv in H1 as (w1 & s3 & -> & Hw1 & H1); [|reflexivity]. apply one_inv in H1 as (c' & -> & [<-|[]] & -> & ->).
    exists (w1 ++ c :: w2), s2. split; [rewrite <- app_assoc; reflexivity|]. split; [right; exists w1, w2; auto|].
    rewrite app_length. cbn [length app]. replace (o + (length w1 + S (length w2))) with (o + length w1 + 1 + length w2) by lia. exact H2.
  - subst s. exists w2, s2. split; [reflexivity|]. split; [left; exact Hw2|exact H2].
Qed.

Lemma interfaces_inv o s ns o' s' : M g_implements_interfaces o s (Match ns o' s') ->
  exists l xs t, s = chars "implements" ++ l ++ t ++ s' /\ o' = o + 10 + length l + length t /\ leading "&" l /\ l <> [] /\ names "&" xs t
    /\ map text_of ns = xs /\ only R_interface_type ns.
Proof.
  intro H. apply seq_inv in H as (n1 & o1 & s1 & n2 & H1 & H2 & ->). apply keyword_inv in H1 as (-> & -> & -> & He).
  apply must_inv in H2. apply leading_inv in H2 as (l & s2 & -> & Hl & H2); [|reflexivity].
  apply (names_inv "&"%char R_interface_type eq_refl eq_refl) in H2 as (xs & t & -> & -> & Hn & Ex & O).
  exists l, xs, t. repeat (split; [first [reflexivity|assumption]|]). split; [|auto].
  intros ->. destruct (names_letter _ _ _ Hn s') as (a & r & Ea & Ia). cbn [app] in He. rewrite Ea in He. cbn in He. congruence.
Qed.
Lemma implements_inv o s ns o' s' : M (plus g_ignored >> g_implements_interfaces) o s (Match ns o' s') ->
  exists xs t, s = t ++ s' /\ o' = o + length t /\ implements xs t /\ t <> [] /\ map text_of ns = xs /\ only R_interface_type ns.
Proof.
  intro H. apply some_ignored_then_inv in H as (w & s1 & -> & Hw & H); [|reflexivity].
  apply interfaces_inv in H as (l & xs & t & -> & -> & Hl & Hne & Hn & Ex & O).
  exists xs, (w ++ chars "implements" ++ l ++ t). split; [rewrite <- !app_assoc; reflexivity|].
  split; [rewrite !app_length; cbn [length list_ascii_of_string]; lia|]. split; [constructor; assumption|].
  split; [|auto]. destruct Hw as [_ Hw]. destruct w; [congruence|discriminate].
Qed.
Lemma optional_implements_inv o s ns o' s' : M (opt (plus g_ignored >> g_implements_interfaces)) o s (Match ns o' s') ->
  exists xs t, s = t ++ s' /\ o' = o + length t /\ implements xs t /\ map text_of ns = xs /\ only R_interface_type ns.
Proof.
  intro H. apply opt_inv in H as [H|(_ & -> & -> & <-)].
  - apply implements_inv in H as (xs & t & H1 & H2 & H3 & _ & H5). exists xs, t. tauto.
  - exists [], []. split; [reflexivity|]. split; [cbn; lia|]. split; [constructor|]. split; [reflexivity|apply only_nil].
Qed.

(** ** Bodies. *)
Section Body.
Context {A : Type}.
Variable P : nat -> list A -> text -> Prop.
Variable b : ex.
Variable Q : list A -> list (node rule) -> Prop.
Hypothesis Hne : empty_ok nb b = false.
Hypothesis Hb : forall o s ns o' s', M b o s (Match ns o' s') -> exists xs t, s = t ++ s' /\ o' = o + length t /\ P o xs t /\ Q xs ns.

Definition body_nodes (xs : list A) (ns : list (node rule)) : Prop :=
  exists nd nb, ns = nd ++ nb /\ only R_directives nd /\ ((xs = [] /\ nb = []) \/ Q xs nb).

Lemma opt_body o s ns o' s' : M (opt (Star g_ignored >> Ref R_directives) >> (Star g_ignored >> b)) o s (Match ns o' s') ->
  exists xs t, s = t ++ s' /\ o' = o + length t /\ body L atof P o xs t /\ body_nodes xs ns.
Proof.
  intro H. apply seq_inv in H as (n1 & o1 & s1 & n2 & H1 & H2 & ->).
  apply dirs_inv in H1 as (dirs & td & -> & -> & Hd & Nd). apply ignored_then_inv in H2 as (w & s2 & -> & Hw & H2); [|exact Hne].
  apply Hb in H2 as (xs & t & -> & -> & Hp & Hq). exists xs, (td ++ w ++ t). split; [rewrite <- !app_assoc; reflexivity|].
  split; [rewrite !app_length; lia|]. split; [econstructor; [exact Hd|constructor; assumption]|].
  exists n1, n2. split; [reflexivity|]. split; [apply any_dirs_only, (maybe_any _ _ Nd)|auto].
Qed.
Lemma dirs_body o s ns o' s' : M (Star g_ignored >> Ref R_directives) o s (Match ns o' s') ->
  exists xs t, s = t ++ s' /\ o' = o + length t /\ body L atof P o xs t /\ t <> [] /\ body_nodes xs ns.
Proof.
  intro H. pose proof (nonempty sel _ _ _ _ _ _ (eq_refl : empty_ok nb (Star g_ignored >> Ref R_directives) = false) H) as Hl.
  apply some_dirs_inv in H as (dirs & td & -> & -> & Hd & Nd).
  exists [], td. split; [reflexivity|]. split; [reflexivity|].
  split; [rewrite <- (app_nil_r td); econstructor; [exact Hd|constructor]|].
  split; [intros ->; cbn in Hl; lia|].
  exists ns, []. split; [symmetry; apply app_nil_r|]. split; [apply any_dirs_only, (some_any _ _ Nd)|auto].
Qed.
Lemma no_body o : body L atof P o [] [].
Proof. apply (body_of L atof P o [] [] [] []); constructor. Qed.
Lemma no_nodes : body_nodes [] [].
Proof. exists [], []. split; [reflexivity|]. split; [apply only_nil|auto]. Qed.

(** Directives and contents, or directives. *)
Lemma body_inv o s ns o' s' : M ((opt (Star g_ignored >> Ref R_directives) >> (Star g_ignored >> b)) </> opt (Star g_ignored >> Ref R_directives)) o s (Match ns o' s') ->
  exists xs t, s = t ++ s' /\ o' = o + length t /\ body L atof P o xs t /\ body_nodes xs ns.
Proof.
  intro H. apply sor_inv in H as [H|[_ H]]; [apply opt_body; exact H|]. apply opt_inv in H as [H|(_ & -> & -> & <-)].
  - apply dirs_body in H as (xs & t & H1 & H2 & H3 & _ & H4). exists xs, t. auto.
  - exists [], []. split; [reflexivity|]. split; [cbn; lia|]. split; [apply no_body|apply no_nodes].
Qed.
Lemma extension_inv o s ns o' s' : M (Star g_ignored >> ((opt (Ref R_directives >> Star g_ignored) >> b) </> Ref R_directives)) o s (Match ns o' s') ->
  exists xs t, s = t ++ s' /\ o' = o + length t /\ body L atof P o xs t /\ t <> [] /\ body_nodes xs ns.
Proof.
  intro H. assert (empty_ok nb ((opt (Ref R_directives >> Star g_ignored) >> b) </> Ref R_directives) = false) as Hne'.
  { cbn. rewrite Hne. reflexivity. }
  apply ignored_then_inv in H as (w & s1 & -> & Hw & H); [|exact Hne'].
  apply sor_inv in H as [H|[_ H]].
  - apply seq_inv in H as (n1 & o1 & s2 & n2 & H1 & H2 & ->). pose proof (nonempty sel _ _ _ _ _ _ Hne H2) as Hl.
    apply opt_inv in H1 as [H1|(_ & -> & -> & E)].
    + apply seq_inv in H1 as (n3 & o3 & s3 & n4 & H1 & H3 & ->).
      apply blanks_inv_more in H3 as (-> & w2 & -> & -> & Hw2); [|intros ->; cbn in Hl; lia].
      apply (directives_sound sel schema_keeps L atof) in H1 as (dirs & td & ks & -> & -> & -> & Hd & Ed).
      apply Hb in H2 as (xs & t & -> & -> & Hp & Hq). exists xs, ((w ++ td) ++ w2 ++ t).
      split; [rewrite <- !app_assoc; reflexivity|]. split; [rewrite !app_length; lia|].
      split; [econstructor; [constructor; eassumption|constructor; [assumption|]]|].
      { rewrite app_length. replace (o + (length w + length td) + length w2) with (o + length w + length td + length w2) by lia. exact Hp. }
      split; [rewrite app_length in Hl; destruct t; [cbn in Hl; lia|]; intro X; apply app_eq_nil in X as [_ X]; apply app_eq_nil in X as [_ X]; discriminate|].
      eexists [_], n2. split; [reflexivity|]. split; [apply only_one|auto].
    + subst s2. apply Hb in H2 as (xs & t & -> & -> & Hp & Hq). exists xs, ([] ++ w ++ t).
      split; [rewrite <- !app_assoc; reflexivity|]. split; [rewrite !app_length; cbn; lia|].
      split; [econstructor; [constructor|constructor; [assumption|]]|].
      { cbn [length]. rewrite Nat.add_0_r. exact Hp. }
      split; [rewrite app_length in Hl; destruct t; [cbn in Hl; lia|]; intro X; apply app_eq_nil in X as [_ X]; apply app_eq_nil in X as [_ X]; discriminate|].
      exists [], n2. split; [reflexivity|]. split; [apply only_nil|auto].
  - apply (directives_sound sel schema_keeps L atof) in H as (dirs & td & ks & -> & -> & -> & Hd & Ed).
    exists [], ((w ++ td) ++ []). split; [rewrite <- !app_assoc; reflexivity|]. split; [rewrite !app_length; cbn; lia|].
    split; [econstructor; [constructor; eassumption|constructor]|].
    split. { rewrite app_nil_r. destruct Hd as [? ? ? Hx|? ? ? ? ? ? Hx]; destruct Hx; intro X; apply app_eq_nil in X as [_ X]; discriminate. }
    eexists [_], []. split; [reflexivity|]. split; [apply only_one|auto].
Qed.
End Body.

(** The kinds of contents. *)
Lemma block_nodes {A} (P : nat -> A -> text -> Prop) open close kb (rd : node rule -> option A) :
  (forall o s ns o' s', M (Ref kb) o s (Match ns o' s') -> exists xs t ks, s = t ++ s' /\ o' = o + length t /\ bracketed open close P o xs t /\ ns = [Node kb o t ks] /\ all rd ks = Some xs) ->
  forall o s ns o' s', M (Ref kb) o s (Match ns o' s') -> exists xs t, s = t ++ s' /\ o' = o + length t /\ bracketed open close P o xs t
    /\ (only kb ns /\ read_block kb rd ns = Some xs).
Proof.
  intros H o s ns o' s' X. apply H in X as (xs & t & ks & E1 & E2 & Hb & -> & Ex). exists xs, t. repeat (split; [assumption|]).
  split; [apply only_one|]. unfold read_block, first_child. cbn [List.find]. unfold is_type. cbn [n_type].
  destruct (rule_eqb_spec kb kb); [exact Ex|contradiction].
Qed.
Notation fields := (fields L atof unescape_j).
Notation input_fields := (input_fields L atof unescape_j).
Notation enum_values := (enum_values L atof unescape_j).

Lemma fields_inv : forall o s ns o' s', M (Ref R_fields_definition) o s (Match ns o' s') -> exists xs t, s = t ++ s' /\ o' = o + length t /\ fields o xs t
    /\ (only R_fields_definition ns /\ read_block R_fields_definition read_field_definition ns = Some xs).
Proof. apply block_nodes. apply (block_inv field R_field_definition R_fields_definition read_field_definition field_sound eq_refl "{"%char "}"%char _ _ eq_refl eq_refl). Qed.
Lemma input_fields_inv : forall o s ns o' s', M (Ref R_input_fields_definition) o s (Match ns o' s') -> exists xs t, s = t ++ s' /\ o' = o + length t /\ input_fields o xs t
    /\ (only R_input_fields_definition ns /\ read_block R_input_fields_definition read_input ns = Some xs).
Proof. apply block_nodes. apply (block_inv input_value R_input_field_definition R_input_fields_definition read_input input_sound eq_refl "{"%char "}"%char _ _ eq_refl eq_refl). Qed.
Lemma enum_values_inv : forall o s ns o' s', M g_enum_values_definition o s (Match ns o' s') -> exists xs t, s = t ++ s' /\ o' = o + length t /\ enum_values o xs t
    /\ (only R_enum_value_definition ns /\ all read_enum_value ns = Some xs).
Proof.
  intros o s ns o' s' H. destruct (matches_consumes _ _ _ _ _ _ H _ _ _ eq_refl) as (u & -> & ->).
  apply (bracketed_inv sel enum_value (Ref R_enum_value_definition) (typed R_enum_value_definition read_enum_value) (length (u ++ s'))) in H
    as (xs & t & E & Hb & Ex); [|apply enum_value_sound|reflexivity|lia].
  apply same_end in E. subst t. apply all_typed in Ex as [Ex O]. exists xs, u. auto.
Qed.
Lemma members_inv : forall o s ns o' s', M g_union_member_types o s (Match ns o' s') -> exists xs t, s = t ++ s' /\ o' = o + length t /\ members o xs t
    /\ (only R_union_type ns /\ map text_of ns = xs).
Proof.
  intros o s ns o' s' H. apply seq_inv in H as (n1 & o1 & s1 & n2 & H1 & H2 & ->). apply one_inv in H1 as (c & -> & [<-|[]] & -> & ->).
  apply must_inv in H2. apply leading_inv in H2 as (l & s2 & -> & Hl & H2); [|reflexivity].
  apply (names_inv "|"%char R_union_type eq_refl eq_refl) in H2 as (xs & t & -> & -> & Hn & Ex & O).
  exists xs, ("="%char :: l ++ t). split; [cbn; rewrite <- app_assoc; reflexivity|]. split; [cbn [length]; rewrite app_length; lia|].
  split; [constructor; assumption|auto].
Qed.

(** ** Heads. *)
Lemma assoc_inv a b c o s ns o' s' : M ((a >> b) >> c) o s (Match ns o' s') -> M (a >> b >> c) o s (Match ns o' s').
Proof.
  intro H. apply seq_inv in H as (n1 & o1 & s1 & n2 & H1 & H2 & ->). apply seq_inv in H1 as (n3 & o3 & s3 & n4 & H1 & H3 & ->).
  rewrite <- app_assoc. apply (m_seq grammar sel _ _ o s n3 o3 s3 (Match (n4 ++ n2) o' s')); [exact H1|].
  apply (m_seq grammar sel _ _ o3 s3 n4 o1 s1 (Match n2 o' s')); assumption.
Qed.
Lemma start_word_inv word rest m o s ns o' s' : word <> ""%string ->
  M ((opt (Ref R_description >> Star g_ignored) >> keyword word) >> Must m rest) o s (Match ns o' s') ->
  exists desc td nd nr s1, s = td ++ chars word ++ s1 /\ described desc td /\ desc_nodes desc nd /\ ns = nd ++ nr
    /\ M rest (o + length td + length (chars word)) s1 (Match nr o' s').
Proof.
  intros Hw H. apply seq_inv in H as (n1 & o1 & s1 & n2 & H1 & H2 & ->). apply must_inv in H2.
  apply seq_inv in H1 as (n3 & o3 & s3 & n4 & H1 & H3 & ->). apply keyword_inv in H3 as (-> & -> & -> & He). rewrite app_nil_r.
  apply described_inv in H1 as (desc & td & -> & -> & Hd & Nd); [|destruct word; [congruence|discriminate]].
  exists desc, td, n3, n2, s1. auto 8.
Qed.
Lemma name_then_inv kn rest o s ns o' s' : grammar kn = g_name -> sel kn = Keep -> M (plus g_ignored >> Ref kn >> rest) o s (Match ns o' s') ->
  exists w n s1 nr, s = w ++ chars n ++ s1 /\ some_blanks w /\ name n /\ ns = [Node kn (o + length w) (chars n) []] ++ nr
    /\ M rest (o + length w + length (chars n)) s1 (Match nr o' s').
Proof.
  intros G K H. apply some_ignored_then_inv in H as (w & s1 & -> & Hw & H); [|clear -G; destruct kn; try discriminate G; reflexivity].
  apply seq_inv in H as (n1 & o1 & s2 & n2 & H1 & H2 & ->). apply named_inv in H1 as (n & Hn & -> & -> & -> & _); [|assumption..].
  exists w, n, s2, n2. auto 8.
Qed.
Lemma headed_inv word kn rest m o s ns o' s' : word <> ""%string -> grammar kn = g_name -> sel kn = Keep ->
  M ((opt (Ref R_description >> Star g_ignored) >> keyword word) >> Must m (plus g_ignored >> Ref kn >> rest)) o s (Match ns o' s') ->
  exists desc n h nd p nr s1, s = h ++ s1 /\ headed unescape_j word n desc h /\ desc_nodes desc nd /\ ns = nd ++ [Node kn p (chars n) []] ++ nr
    /\ M rest (o + length h) s1 (Match nr o' s').
Proof.
  intros Hw G K H. apply start_word_inv in H as (desc & td & nd & nr & s1 & -> & Hd & Nd & -> & H); [|exact Hw].
  apply name_then_inv in H as (w & n & s2 & n2 & -> & Hb & Hn & -> & H); [|assumption..].
  exists desc, n, (td ++ chars word ++ w ++ chars n), nd. eexists _, n2, s2. split; [rewrite <- !app_assoc; reflexivity|].
  split; [constructor; assumption|]. split; [exact Nd|]. split; [reflexivity|].
  rewrite !app_length. replace (o + (length td + (length (chars word) + (length w + length (chars n))))) with (o + length td + length (chars word) + length w + length (chars n)) by lia.
  exact H.
Qed.
Lemma extend_word_inv word rest m o s ns o' s' : word <> ""%string ->
  M ((keyword "extend" >> plus g_ignored >> keyword word) >> Must m rest) o s (Match ns o' s') ->
  exists w s1, s = chars "extend" ++ w ++ chars word ++ s1 /\ some_blanks w /\ ends s1
    /\ M rest (o + 6 + length w + length (chars word)) s1 (Match ns o' s').
Proof.
  intros Hw H. apply seq_inv in H as (n1 & o1 & s1 & n2 & H1 & H2 & ->). apply must_inv in H2.
  apply seq_inv in H1 as (n3 & o3 & s3 & n4 & H1 & H3 & ->). apply keyword_inv in H1 as (-> & -> & -> & _).
  apply seq_inv in H3 as (n5 & o5 & s5 & n6 & H1 & H3 & ->). apply keyword_inv in H3 as (-> & -> & -> & He).
  apply some_blanks_inv in H1 as (-> & w & -> & -> & Hb); [|destruct word; [congruence|discriminate]].
  exists w, s1. auto.
Qed.
Lemma extends_inv word kn gap rest m o s ns o' s' : word <> ""%string -> grammar kn = g_name -> sel kn = Keep ->
  gap = plus g_ignored \/ gap = Star g_ignored ->
  M ((keyword "extend" >> plus g_ignored >> keyword word) >> Must m (gap >> Ref kn >> rest)) o s (Match ns o' s') ->
  exists n h p nr s1, s = h ++ s1 /\ extends word n h /\ ns = [Node kn p (chars n) []] ++ nr
    /\ M rest (o + length h) s1 (Match nr o' s').
Proof.
  intros Hw G K Hg H. apply extend_word_inv in H as (w1 & s1 & -> & Hw1 & He & H); [|exact Hw].
  assert (exists w n s2 nr, s1 = w ++ chars n ++ s2 /\ some_blanks w /\ name n /\ (exists p, ns = [Node kn p (chars n) []] ++ nr)
    /\ M rest (o + 6 + length w1 + length (chars word) + length w + length (chars n)) s2 (Match nr o' s')) as (w2 & n & s2 & nr & -> & Hw2 & Hn & (p & ->) & H2).
  { destruct Hg as [->| ->].
    - apply name_then_inv in H as (w & n & s2 & n2 & -> & Hb & Hn & -> & H); [|assumption..]. exists w, n, s2, n2. eauto 8.
    - apply ignored_then_inv in H as (w & s2 & -> & Hb & H); [|clear -G; destruct kn; try discriminate G; reflexivity].
      apply seq_inv in H as (n1 & o1 & s3 & n2 & H1 & H2 & ->). apply named_inv in H1 as (n & Hn & -> & -> & -> & _); [|assumption..].
      exists w, n, s3, n2. split; [reflexivity|]. split; [|eauto]. split; [exact Hb|]. intros ->. cbn [app] in He.
      apply name_chars in Hn as (a & r & Ea & Ha & _). rewrite Ea in He. cbn in He. rewrite (alpha_ident _ Ha) in He. discriminate. }
  exists n, (chars "extend" ++ w1 ++ chars word ++ w2 ++ chars n), p, nr, s2. split; [rewrite <- !app_assoc; reflexivity|].
  split; [constructor; assumption|]. split; [reflexivity|].
  rewrite !app_length. cbn [length list_ascii_of_string].
  replace (o + (6 + (length w1 + (length (chars word) + (length w2 + length (chars n)))))) with (o + 6 + length w1 + length (chars word) + length w2 + length (chars n)) by lia.
  exact H2.
Qed.

(** ** Definitions. *)
Notation defines := (defines L atof unescape_j).
Definition def_sound (k : rule) : Prop := forall o s ns o' s', M (Ref k) o s (Match ns o' s') ->
  exists d t ks, s = t ++ s' /\ o' = o + length t /\ ns = [Node k o t ks] /\ defines o d t /\ read_sdl (Node k o t ks) = Some d.

Ltac opened H := let ks := fresh "ks" in let t := fresh "t" in
  intros o s ns o' s' H; apply kept in H as (ks & t & H & -> & -> & ->); [|reflexivity].

Lemma none_of k r b c ks rest : rule_eqb k r = false -> first_child r ([Node k b c ks] ++ rest) = first_child r rest.
Proof. intro E. apply (find_only r k _ _ (only_one k b c ks) E). Qed.
Lemma read_each_skip {A} r (f : node rule -> option A) k a b : only k a -> rule_eqb k r = false -> read_each r f (a ++ b) = read_each r f b.
Proof. intros H E. unfold read_each. rewrite (each_only r k a b H E). reflexivity. Qed.
Lemma read_each_these {A} r (f : node rule -> option A) a : only r a -> read_each r f a = all f a.
Proof. intro H. unfold read_each. rewrite (filter_same r a H). reflexivity. Qed.
Lemma read_texts_skip r k a b : only k a -> rule_eqb k r = false -> read_texts r (a ++ b) = read_texts r b.
Proof. intros H E. unfold read_texts. rewrite (each_only r k a b H E). reflexivity. Qed.
Lemma read_texts_these r a b : only r a -> read_texts r (a ++ b) = map text_of a ++ read_texts r b.
Proof. intro H. unfold read_texts. rewrite (each_these r a b H). apply map_app. Qed.
Lemma read_texts_end r k a : only k a -> rule_eqb k r = false -> read_texts r a = [].
Proof. intros H E. unfold read_texts. rewrite (each_only_end r k a H E). reflexivity. Qed.
Lemma must_assoc x m a b c o s ns o' s' : M (x >> Must m ((a >> b) >> c)) o s (Match ns o' s') -> M (x >> Must m (a >> b >> c)) o s (Match ns o' s').
Proof.
  intro H. apply seq_inv in H as (n1 & o1 & s1 & n2 & H1 & H2 & ->). apply must_inv, assoc_inv in H2.
  apply (m_seq grammar sel _ _ o s n1 o1 s1 (Match n2 o' s')); [exact H1|]. apply m_must. exact H2.
Qed.

Ltac skip :=
  repeat match goal with
  | |- context [first_child ?r ([Node ?k ?x ?y ?z] ++ ?b)] => rewrite (none_of k r x y z b eq_refl)
  | H : only ?k ?a |- context [first_child ?r (?a ++ ?b)] => rewrite (find_only r k a b H eq_refl)
  | H : only ?k ?a |- context [first_child ?r ?a] => rewrite (find_only_end r k a H eq_refl)
  | |- context [read_each ?r ?f ([Node ?k ?x ?y ?z] ++ ?b)] => rewrite (read_each_skip r f k _ b (only_one k x y z) eq_refl)
  | H : only ?k ?a |- context [read_each ?r ?f (?a ++ ?b)] => rewrite (read_each_skip r f k a b H eq_refl)
  | H : only ?k ?a |- context [read_each ?k ?f ?a] => rewrite (read_each_these k f a H)
  | |- context [read_block ?r ?f ([Node ?k ?x ?y ?z] ++ ?b)] => rewrite (read_block_skip r f k _ b (only_one k x y z) eq_refl)
  | H : only ?k ?a |- context [read_block ?r ?f (?a ++ ?b)] => rewrite (read_block_skip r f k a b H eq_refl)
  | |- context [read_texts ?r ([Node ?k ?x ?y ?z] ++ ?b)] => rewrite (read_texts_skip r k _ b (only_one k x y z) eq_refl)
  | H : only ?k ?a |- context [read_texts ?r (?a ++ ?b)] => rewrite (read_texts_skip r k a b H eq_refl)
  | H : only ?k ?a |- context [read_texts ?r ?a] => rewrite (read_texts_end r k a H eq_refl)
  end.

Lemma scalar_sound : def_sound R_scalar_type_definition.
Proof.
  opened H. apply (headed_inv "scalar"%string R_scalar_name) in H as (desc & n & h & nd & p & nr & s1 & E & Hh & Nd & -> & H); [|discriminate|reflexivity..].
  apply dirs_inv in H as (dirs & td & -> & _ & Hd & Nx).
  assert (t = h ++ td) as -> by (apply (same_end _ _ s'); rewrite E, <- app_assoc; reflexivity).
  eexists _, _, _. split; [reflexivity|]. split; [reflexivity|]. split; [reflexivity|]. split; [eapply defines_scalar; eassumption|].
  pose proof (any_dirs_only _ (maybe_any _ _ Nx)) as O3.
  unfold SdlTree.read_sdl. cbn [n_type n_children]. rewrite (read_named_after R_scalar_name p n desc nd nr Nd eq_refl).
  rewrite (read_desc desc nd _ Nd); [reflexivity|]. skip. reflexivity.
Qed.
Lemma scalar_extension_sound : def_sound R_scalar_type_extension.
Proof.
  opened H. apply (extends_inv "scalar"%string R_scalar_name) in H as (n & h & p & nr & s1 & E & Hh & -> & H); [|discriminate|reflexivity|reflexivity|auto].
  pose proof (nonempty sel _ _ _ _ _ _ (eq_refl : empty_ok nb (Star g_ignored >> Ref R_directives) = false) H) as Hl.
  apply some_dirs_inv in H as (dirs & td & -> & _ & Hd & Nx).
  assert (t = h ++ td) as -> by (apply (same_end _ _ s'); rewrite E, <- app_assoc; reflexivity).
  eexists _, _, _. split; [reflexivity|]. split; [reflexivity|]. split; [reflexivity|].
  split; [eapply defines_scalar_extension; [eassumption|eassumption|intros ->; cbn in Hl; lia]|].
  unfold SdlTree.read_sdl. cbn [n_type n_children]. rewrite (read_named R_scalar_name p n nr). reflexivity.
Qed.

(** A description, a word, a name and a body. *)
Ltac by_body H word kn P b inv con :=
  apply (headed_inv word kn) in H as (desc & n & h & nd & p & nr & s1 & E & Hh & Nd & -> & H); [|discriminate|reflexivity..];
  apply (body_inv P b _ eq_refl inv) in H as (xs & u & -> & _ & Hb & (n1 & n2 & -> & O3 & Q));
  match type of E with ?t ++ ?s' = _ => assert (t = h ++ u) as -> by (apply (same_end _ _ s'); rewrite E, <- app_assoc; reflexivity) end;
  eexists _, _, _; split; [reflexivity|]; split; [reflexivity|]; split; [reflexivity|]; split; [eapply con; eassumption|];
  unfold SdlTree.read_sdl; cbn [n_type n_children]; pose proof (desc_only _ _ Nd) as O1.
Ltac headed_rest Nd kn p n desc nd :=
  rewrite (read_named_after kn p n desc nd _ Nd eq_refl), (read_desc desc nd _ Nd); [reflexivity|]; skip; reflexivity.
(** The word [extend], a word, a name and a body. *)
Ltac by_extension H word kn P b inv con :=
  apply (extends_inv word kn) in H as (n & h & p & nr & s1 & E & Hh & -> & H); [|discriminate|reflexivity|reflexivity|auto];
  apply (extension_inv P b _ eq_refl inv) in H as (xs & u & -> & _ & Hb & Hu & (n1 & n2 & -> & O3 & Q));
  match type of E with ?t ++ ?s' = _ => assert (t = h ++ u) as -> by (apply (same_end _ _ s'); rewrite E, <- app_assoc; reflexivity) end;
  eexists _, _, _; split; [reflexivity|]; split; [reflexivity|]; split; [reflexivity|]; split; [eapply con; eassumption|];
  unfold SdlTree.read_sdl; cbn [n_type n_children].

Lemma enum_sound : def_sound R_enum_type_definition.
Proof.
  opened H. apply must_assoc in H. by_body H "enum"%string R_enum_name constr:(enum_values) g_enum_values_definition enum_values_inv defines_enum.
  assert (only R_enum_value_definition n2 /\ all read_enum_value n2 = Some xs) as [O4 R4] by (destruct Q as [[-> ->]|Q]; [split; [apply only_nil|reflexivity]|exact Q]).
  skip. rewrite R4. headed_rest Nd R_enum_name p n desc nd.
Qed.
Lemma enum_extension_sound : def_sound R_enum_type_extension.
Proof.
  opened H. by_extension H "enum"%string R_enum_name constr:(enum_values) g_enum_values_definition enum_values_inv defines_enum_extension.
  assert (only R_enum_value_definition n2 /\ all read_enum_value n2 = Some xs) as [O4 R4] by (destruct Q as [[-> ->]|Q]; [split; [apply only_nil|reflexivity]|exact Q]).
  skip. rewrite R4. rewrite (read_named R_enum_name p n). reflexivity.
Qed.
Lemma input_definition_sound : def_sound R_input_object_type_definition.
Proof.
  opened H. apply must_assoc in H. by_body H "input"%string R_object_name constr:(input_fields) (Ref R_input_fields_definition) input_fields_inv defines_input.
  assert (only R_input_fields_definition n2 /\ read_block R_input_fields_definition read_input n2 = Some xs) as [O4 R4] by (destruct Q as [[-> ->]|Q]; [split; [apply only_nil|reflexivity]|exact Q]).
  skip. rewrite R4. headed_rest Nd R_object_name p n desc nd.
Qed.
Lemma input_extension_sound : def_sound R_input_object_type_extension.
Proof.
  opened H. by_extension H "input"%string R_object_name constr:(input_fields) (Ref R_input_fields_definition) input_fields_inv defines_input_extension.
  assert (only R_input_fields_definition n2 /\ read_block R_input_fields_definition read_input n2 = Some xs) as [O4 R4] by (destruct Q as [[-> ->]|Q]; [split; [apply only_nil|reflexivity]|exact Q]).
  skip. rewrite R4. rewrite (read_named R_object_name p n). reflexivity.
Qed.
Lemma interface_sound : def_sound R_interface_type_definition.
Proof.
  opened H. apply must_assoc in H. by_body H "interface"%string R_interface_name constr:(fields) (Ref R_fields_definition) fields_inv defines_interface.
  assert (only R_fields_definition n2 /\ read_block R_fields_definition read_field_definition n2 = Some xs) as [O4 R4] by (destruct Q as [[-> ->]|Q]; [split; [apply only_nil|reflexivity]|exact Q]).
  skip. rewrite R4. headed_rest Nd R_interface_name p n desc nd.
Qed.
Lemma interface_extension_sound : def_sound R_interface_type_extension.
Proof.
  opened H. by_extension H "interface"%string R_interface_name constr:(fields) (Ref R_fields_definition) fields_inv defines_interface_extension.
  assert (only R_fields_definition n2 /\ read_block R_fields_definition read_field_definition n2 = Some xs) as [O4 R4] by (destruct Q as [[-> ->]|Q]; [split; [apply only_nil|reflexivity]|exact Q]).
  skip. rewrite R4. rewrite (read_named R_interface_name p n). reflexivity.
Qed.
Lemma read_texts_all r a : only r a -> read_texts r a = map text_of a.
Proof. intro H. unfold read_texts. rewrite (filter_same r a H). reflexivity. Qed.
Lemma union_sound : def_sound R_union_type_definition.
Proof.
  opened H. by_body H "union"%string R_union_name constr:(members) g_union_member_types members_inv defines_union.
  assert (only R_union_type n2 /\ map text_of n2 = xs) as [O4 R4] by (destruct Q as [[-> ->]|Q]; [split; [apply only_nil|reflexivity]|exact Q]).
  skip. rewrite (read_texts_all _ _ O4), R4. headed_rest Nd R_union_name p n desc nd.
Qed.
Lemma union_extension_sound : def_sound R_union_type_extension.
Proof.
  opened H. by_extension H "union"%string R_union_name constr:(members) g_union_member_types members_inv defines_union_extension.
  assert (only R_union_type n2 /\ map text_of n2 = xs) as [O4 R4] by (destruct Q as [[-> ->]|Q]; [split; [apply only_nil|reflexivity]|exact Q]).
  skip. rewrite (read_texts_all _ _ O4), R4. rewrite (read_named R_union_name p n). reflexivity.
Qed.

(** ** Object types. *)
Notation implements_opt := (opt (plus g_ignored >> g_implements_interfaces)).
Notation fields_there := (Star g_ignored >> Ref R_fields_definition).
Notation dirs_there := (Star g_ignored >> Ref R_directives).
Definition object_nodes (is : list string) (xs : list sdl_field) (ns : list (node rule)) : Prop :=
  exists ni nd nb, ns = ni ++ nd ++ nb /\ map text_of ni = is /\ only R_interface_type ni /\ only R_directives nd
    /\ only R_fields_definition nb /\ read_block R_fields_definition read_field_definition nb = Some xs.
Lemma object_body_inv last (Hlast : last = implements_opt \/ last = (plus g_ignored >> g_implements_interfaces)) o s ns o' s' :
  M ((implements_opt >> opt dirs_there >> fields_there) </> (implements_opt >> dirs_there) </> last) o s (Match ns o' s') ->
  exists is ti xs t, s = ti ++ t ++ s' /\ o' = o + length ti + length t /\ implements is ti /\ body L atof fields (o + length ti) xs t
    /\ (last = (plus g_ignored >> g_implements_interfaces) -> ti ++ t <> []) /\ object_nodes is xs ns.
Proof.
  intro H. apply sor_inv in H as [H|[_ H]]; [|apply sor_inv in H as [H|[_ H]]].
  - apply seq_inv in H as (n1 & o1 & s1 & n2 & H1 & H & ->). apply optional_implements_inv in H1 as (is & ti & -> & -> & Hi & Ei & Oi).
    pose proof (nonempty sel _ _ _ _ _ _ (eq_refl : empty_ok nb (opt dirs_there >> fields_there) = false) H) as Hl.
    apply (opt_body fields (Ref R_fields_definition) _ eq_refl fields_inv) in H as (xs & t & -> & -> & Hb & (m1 & m2 & -> & O3 & Q)).
    exists is, ti, xs, t. repeat (split; [first [reflexivity|assumption]|]).
    split; [intros _ X; apply app_eq_nil in X as [_ ->]; cbn in Hl; lia|].
    exists n1, m1, m2. repeat (split; [first [reflexivity|assumption]|]). destruct Q as [[-> ->]|Q]; [split; [apply only_nil|reflexivity]|exact Q].
  - apply seq_inv in H as (n1 & o1 & s1 & n2 & H1 & H & ->). apply optional_implements_inv in H1 as (is & ti & -> & -> & Hi & Ei & Oi).
    apply (dirs_body fields (fun _ _ => False)) in H as (xs & t & -> & -> & Hb & Ht & (m1 & m2 & -> & O3 & [[-> ->]|[]])).
    exists is, ti, [], t. repeat (split; [first [reflexivity|assumption]|]).
    split; [intros _ X; apply app_eq_nil in X as [_ ->]; congruence|].
    exists n1, m1, []. repeat (split; [first [reflexivity|assumption]|]). split; [apply only_nil|reflexivity].
  - assert (exists is ti, s = ti ++ s' /\ o' = o + length ti /\ implements is ti /\ (last = (plus g_ignored >> g_implements_interfaces) -> ti <> [])
      /\ map text_of ns = is /\ only R_interface_type ns) as (is & ti & -> & -> & Hi & Hne & Ei & Oi).
    { destruct Hlast as [->| ->].
      - apply optional_implements_inv in H as (is & ti & H1 & H2 & H3 & H4 & H5). exists is, ti. repeat (split; [assumption|]). split; [discriminate|auto].
      - apply implements_inv in H as (is & ti & H1 & H2 & H3 & H4 & H5). exists is, ti. tauto. }
    exists is, ti, [], []. split; [reflexivity|]. split; [cbn; lia|]. split; [exact Hi|]. split; [apply no_body|].
    split; [rewrite app_nil_r; exact Hne|]. exists ns, [], []. split; [symmetry; apply app_nil_r|].
    split; [exact Ei|]. split; [exact Oi|]. split; [apply only_nil|]. split; [apply only_nil|reflexivity].
Qed.
Lemma object_sound : def_sound R_object_type_definition.
Proof.
  opened H. apply must_assoc in H.
  apply (headed_inv "type"%string R_object_name) in H as (desc & n & h & nd & p & nr & s1 & E & Hh & Nd & -> & H); [|discriminate|reflexivity..].
  apply (object_body_inv implements_opt (or_introl eq_refl)) in H as (is & ti & xs & u & -> & _ & Hi & Hb & _ & (ni & n1 & n2 & -> & Ei & Oi & O3 & O4 & R4)).
  assert (t = h ++ ti ++ u) as -> by (apply (same_end _ _ s'); rewrite E, <- !app_assoc; reflexivity).
  eexists _, _, _. split; [reflexivity|]. split; [reflexivity|]. split; [reflexivity|]. split; [eapply defines_object; eassumption|].
  unfold SdlTree.read_sdl. cbn [n_type n_children]. pose proof (desc_only _ _ Nd) as O1.
  skip. rewrite R4, (read_texts_these _ _ _ Oi), Ei. skip. rewrite app_nil_r.
  headed_rest Nd R_object_name p n desc nd.
Qed.
Lemma object_extension_sound : def_sound R_object_type_extension.
Proof.
  opened H.
  apply (extends_inv "type"%string R_object_name) in H as (n & h & p & nr & s1 & E & Hh & -> & H); [|discriminate|reflexivity|reflexivity|auto].
  apply (object_body_inv _ (or_intror eq_refl)) in H as (is & ti & xs & u & -> & _ & Hi & Hb & Hne & (ni & n1 & n2 & -> & Ei & Oi & O3 & O4 & R4)).
  specialize (Hne eq_refl).
  assert (t = h ++ ti ++ u) as -> by (apply (same_end _ _ s'); rewrite E, <- !app_assoc; reflexivity).
  eexists _, _, _. split; [reflexivity|]. split; [reflexivity|]. split; [reflexivity|]. split; [eapply defines_object_extension; eassumption|].
  unfold SdlTree.read_sdl. cbn [n_type n_children].
  skip. rewrite R4, (read_texts_these _ _ _ Oi), Ei. skip. rewrite app_nil_r. rewrite (read_named R_object_name p n). reflexivity.
Qed.

(** ** Schemas. *)
Lemma schema_sound : def_sound R_schema_definition.
Proof.
  opened H. apply seq_inv in H as (n1 & o1 & s1 & n2 & H1 & H & ->). apply keyword_inv in H1 as (E & -> & -> & _).
  apply must_inv in H. apply seq_inv in H as (n3 & o3 & s3 & n4 & H1 & H & ->). apply dirs_inv in H1 as (dirs & td & -> & -> & Hd & Nd).
  apply ignored_then_inv in H as (w & s4 & -> & Hw & H); [|reflexivity].
  apply (bare_block_inv root_operation R_root_operation_definition read_operation_type (root_sound R_root_operation_definition eq_refl eq_refl) eq_refl) in H as (ops & u & -> & _ & Hb & R4 & O4).
  assert (t = chars "schema" ++ td ++ w ++ u) as -> by (apply (same_end _ _ s'); rewrite E, <- !app_assoc; reflexivity).
  eexists _, _, _. split; [reflexivity|]. split; [reflexivity|]. split; [reflexivity|].
  split; [eapply defines_schema; eassumption|]. cbn [app].
  pose proof (any_dirs_only _ (maybe_any _ _ Nd)) as O3.
  unfold SdlTree.read_sdl. cbn [n_type n_children]. skip. rewrite R4. reflexivity.
Qed.
Lemma schema_extension_sound : def_sound R_schema_extension.
Proof.
  opened H. apply (extend_word_inv "schema"%string) in H as (w1 & s1 & E & Hw1 & _ & H); [|discriminate].
  apply ignored_then_inv in H as (w2 & s2 & -> & Hw2 & H); [|reflexivity].
  pose proof (nonempty sel _ _ _ _ _ _ (eq_refl : empty_ok nb ((opt (Ref R_directives) >> g_schema_extension_operation_type_definitions) </> Ref R_directives) = false) H) as Hl.
  change (length (chars "schema")) with 6 in H.
  assert (exists dirs td ops u nd nb, s2 = td ++ u ++ s'
    /\ (dirs = [] /\ td = [] \/ directives (o + 6 + length w1 + 6 + length w2) dirs td)
    /\ (ops = [] /\ u = [] \/ root_operations (o + 6 + length w1 + 6 + length w2 + length td) ops u)
    /\ ks = nd ++ nb /\ only R_directives nd /\ only R_operation_type_definition nb /\ all read_operation_type nb = Some ops)
    as (dirs & td & ops & u & nd & nb' & -> & Hd & Ho & -> & O3 & O4 & R4).
  { apply sor_inv in H as [H|[_ H]].
    - apply seq_inv in H as (n1 & o1 & s3 & n2 & H1 & H & ->).
      assert (exists dirs td, s2 = td ++ s3 /\ o1 = o + 6 + length w1 + 6 + length w2 + length td /\ only R_directives n1
        /\ (dirs = [] /\ td = [] \/ directives (o + 6 + length w1 + 6 + length w2) dirs td)) as (dirs & td & -> & -> & O3 & Hd).
      { apply opt_inv in H1 as [H1|(_ & -> & -> & <-)].
        - apply (directives_sound sel schema_keeps L atof) in H1 as (dirs & td & kd & -> & -> & -> & Hd & Ed). exists dirs, td.
          repeat (split; [reflexivity|]). split; [apply only_one|auto].
        - exists [], []. split; [reflexivity|]. split; [cbn; lia|]. split; [apply only_nil|auto]. }
      apply (bare_block_inv root_operation R_operation_type_definition read_operation_type (root_sound R_operation_type_definition eq_refl eq_refl) eq_refl) in H as (ops & u & -> & _ & Hb & R4 & O4).
      exists dirs, td, ops, u, n1, n2. split; [reflexivity|]. split; [exact Hd|]. split; [right; exact Hb|]. auto.
    - apply (directives_sound sel schema_keeps L atof) in H as (dirs & td & kd & -> & _ & -> & Hd & Ed).
      exists dirs, td, [], []. eexists [_], []. split; [reflexivity|]. split; [auto|]. split; [auto|]. split; [reflexivity|].
      split; [apply only_one|]. split; [apply only_nil|reflexivity]. }
  assert (t = chars "extend" ++ w1 ++ chars "schema" ++ w2 ++ td ++ u) as -> by (apply (same_end _ _ s'); rewrite E, <- !app_assoc; reflexivity).
  eexists _, _, _. split; [reflexivity|]. split; [reflexivity|]. split; [reflexivity|].
  split; [eapply defines_schema_extension; try eassumption|].
  { intro X. apply app_eq_nil in X as [-> ->]. cbn in Hl. lia. }
  unfold SdlTree.read_sdl. cbn [n_type n_children]. skip. rewrite R4. reflexivity.
Qed.

(** ** Directives. *)
Lemma location_inv o s ns o' s' : M (Ref R_directive_location) o s (Match ns o' s') ->
  exists n l, In (n, l) location_names /\ directive_location_of n = Some l /\ s = chars n ++ s' /\ o' = o + length (chars n)
    /\ exists ks, ns = [Node R_directive_location o (chars n) ks].
Proof.
  intro H. apply kept in H as (ks & t & H & -> & -> & ->); [|reflexivity].
  assert (exists n l, In (n, l) location_names /\ directive_location_of n = Some l /\ t = chars n) as (n & l & H1 & H2 & ->); [|exists n, l; eauto 8].
  assert (exists n, In n (map fst location_names) /\ t = chars n) as (n & Hn & ->).
  { repeat match goal with
    | H : M (_ </> _) _ _ _ |- _ => apply sor_inv in H as [H|[_ H]]
    | H : M (grammar _) _ _ _ |- _ => cbn [grammar] in H; unfold g_directive_location, g_executable_directive_location, g_type_system_directive_location in H
    | H : M g_executable_directive_location _ _ _ |- _ => unfold g_executable_directive_location in H
    | H : M g_type_system_directive_location _ _ _ |- _ => unfold g_type_system_directive_location in H
    | H : M (keyword ?k) _ _ _ |- _ => exists k; apply keyword_inv in H as (E & _ & _ & _); apply same_end in E; split; [cbn; tauto|exact E]
    end. }
  apply in_map_iff in Hn as ([m l] & E & Hn). cbn in E. subst m. exists n, l. split; [exact Hn|]. split; [|reflexivity].
  cbn in Hn. repeat (destruct Hn as [Hn|Hn]; [injection Hn as <- <-; reflexivity|]). contradiction.
Qed.
Lemma location_sound N : sound_below sel a_location (Ref R_directive_location) (typed R_directive_location (fun n => directive_location_of (text_of n))) N.
Proof.
  intros o s ns o' s' H _. apply location_inv in H as (n & l & Hn & El & -> & -> & ks & ->).
  exists l. eexists. eexists. split; [reflexivity|]. split; [reflexivity|]. split; [reflexivity|]. split; [exists n; auto|].
  rewrite typed_of. unfold text_of. cbn [n_content]. rewrite str_chars. exact El.
Qed.
Lemma all_map {A B C} (f : A -> B) (g : B -> option C) l : all g (map f l) = all (fun x => g (f x)) l.
Proof. induction l as [|x l IH]; [reflexivity|]. cbn [all map]. rewrite IH. reflexivity. Qed.

Lemma directive_sound' : def_sound R_directive_definition.
Proof.
  opened H. apply (start_word_inv "directive"%string) in H as (desc & td & nd & nr & s1 & E & Hd & Nd & -> & H); [|discriminate].
  apply ignored_then_inv in H as (w & s2 & -> & Hw & H); [|reflexivity].
  apply seq_inv in H as (n1 & o1 & s3 & n2 & H1 & H & ->). apply one_inv in H1 as (c & -> & [<-|[]] & -> & ->).
  apply seq_inv in H as (n3 & o3 & s4 & n4 & H1 & H & ->). apply named_inv in H1 as (n & Hn & -> & -> & -> & _); [|reflexivity..].
  apply seq_inv in H as (n5 & o5 & s5 & n6 & H1 & H & ->). apply optional_input_values_inv in H1 as (args & ta & -> & -> & Ha & Oa & Ra).
  apply some_ignored_then_inv in H as (w1 & s6 & -> & Hw1 & H); [|reflexivity].
  apply seq_inv in H as (n7 & o7 & s7 & n8 & H1 & H & ->). apply keyword_inv in H1 as (-> & -> & -> & _).
  apply some_ignored_then_inv in H as (w2 & s8 & -> & Hw2 & H); [|reflexivity].
  apply seq_inv in H as (n9 & o9 & s9 & n10 & H1 & H & ->).
  pose proof (nonempty sel _ _ _ _ _ _ (eq_refl : empty_ok nb (list_of (Ref R_directive_location) (Star g_ignored >> one ["|"%char] >> Star g_ignored)) = false) H) as Hl.
  assert (exists lead, s8 = lead ++ s9 /\ n9 = [] /\ (lead = [] \/ (exists w3, blanks w3 /\ lead = "|"%char :: w3))) as (lead & -> & -> & Hlead).
  { apply opt_inv in H1 as [H1|(_ & -> & -> & <-)]; [|exists []; auto].
    apply seq_inv in H1 as (m1 & p1 & q1 & m2 & H1 & H2 & ->). apply one_inv in H1 as (c & -> & [<-|[]] & -> & ->).
    apply blanks_inv_more in H2 as (-> & w3 & -> & -> & Hw3); [|intros ->; cbn in Hl; lia]. exists ("|"%char :: w3). eauto 8. }
  apply (items_inv sel a_location (Ref R_directive_location) _ (S (length s9)) (location_sound _) _ (separator "|"%char)
    (sep_inv "|"%char (Ref R_directive_location) eq_refl)) in H as (locs & u & -> & _ & Hi & Ex); [|lia].
  apply all_typed in Ex as [Ex O].
  assert (t = td ++ chars "directive" ++ w ++ "@"%char :: chars n ++ ta ++ w1 ++ chars "on" ++ w2 ++ lead ++ u) as ->.
  { apply (same_end _ _ s'). rewrite E. rewrite <- !app_assoc. cbn [app]. rewrite <- !app_assoc. reflexivity. }
  eexists _, _, _. split; [reflexivity|]. split; [reflexivity|]. split; [reflexivity|].
  split.
  { eapply defines_directive; try eassumption.
    eapply items_any; [|exact Hi]. intros p q x v X. exact X. }
  unfold SdlTree.read_sdl. cbn [n_type n_children]. cbn [app]. pose proof (desc_only _ _ Nd) as O1.
  match goal with |- context [?x :: n5 ++ n10] => change (x :: n5 ++ n10) with ([x] ++ n5 ++ n10) end.
  skip. rewrite (read_texts_all _ _ O), all_map, Ex. rewrite (read_block_here R_arguments_definition read_input _ _ _ O eq_refl), Ra.
  match goal with |- context [Node R_directive_name ?p _ _] => headed_rest Nd R_directive_name p n desc nd end.
Qed.

(** ** All of them. *)
Lemma other_sound k : In k other_rules -> def_sound k.
Proof.
  intro H. cbn in H.
  repeat (destruct H as [<-|H]; [first [exact schema_sound|exact scalar_sound|exact object_sound|exact interface_sound|exact union_sound|exact enum_sound
    |exact input_definition_sound|exact directive_sound'|exact schema_extension_sound|exact scalar_extension_sound|exact object_extension_sound
    |exact interface_extension_sound|exact union_extension_sound|exact enum_extension_sound|exact input_extension_sound]|]).
  contradiction.
Qed.
Lemma any_other_inv o s ns o' s' : M (g_type_system_definition </> g_type_system_extension) o s (Match ns o' s') ->
  exists r, In r other_rules /\ M (Ref r) o s (Match ns o' s').
Proof.
  intro H.
  repeat match goal with
  | H : M (_ </> _) _ _ _ |- _ => apply sor_inv in H as [H|[_ H]]
  | H : M g_type_system_definition _ _ _ |- _ => unfold g_type_system_definition in H
  | H : M g_type_definition _ _ _ |- _ => unfold g_type_definition in H
  | H : M g_type_system_extension _ _ _ |- _ => unfold g_type_system_extension in H
  | H : M g_type_extension _ _ _ |- _ => unfold g_type_extension in H
  | H : M (Ref ?r) _ _ _ |- _ => exists r; split; [cbn; tauto|exact H]
  end.
Qed.
Lemma type_system_sound N : sound_below sel defines g_schema_type_definition read_sdl N.
Proof.
  intros o s ns o' s' H _. apply any_other_inv in H as (k & Hk & H). apply (other_sound k Hk) in H as (d & t & ks & H1 & H2 & H3 & H4 & H5).
  exists d, t. eauto 8.
Qed.
Lemma mixed_definition_sound N : sound_below sel defines g_mixed_definition read_sdl N.
Proof.
  intros o s ns o' s' H Hl. apply sor_inv in H as [H|[_ H]]; [|apply (type_system_sound N _ _ _ _ _ H Hl)].
  pose proof (other_selector _ executable_selector _ _ _ _ H) as [ms X]. cbn in X.
  destruct (executable_sound L atof N _ _ _ _ _ X Hl) as (d & t & n & -> & -> & _ & Hx & _).
  assert (exists k ks, In k [R_fragment_definition; R_operation_definition] /\ ns = [Node k o t ks]) as (k & ks & Hk & ->).
  { apply sor_inv in H as [H|[_ H]]; (apply kept in H as (ks & u & _ & E & _ & ->); [|reflexivity]); apply same_end in E; subst u; eexists _, _; (split; [|reflexivity]); cbn; auto. }
  exists DefExecutable, t. eexists. split; [reflexivity|]. split; [reflexivity|]. split; [reflexivity|].
  split; [econstructor; exact Hx|]. cbn in Hk. destruct Hk as [<-|[<-|[]]]; reflexivity.
Qed.

(** ** Documents. *)
Lemma untidy t w t' : tidy t (w ++ t' ) -> ~ (w = [] /\ joined t t').
Proof.
  intros H [-> (u & c & c' & u' & -> & -> & Hc & Hc')]. cbn [app] in H. destruct H as [H|(v & d & E & Hd)].
  - unfold ends in H. cbn in H. apply ident_iff in Hc'. rewrite Hc' in H. discriminate.
  - apply app_inj_tail in E as [_ <-]. apply ident_iff in Hc. congruence.
Qed.
Lemma joined_front t t' v : joined t t' -> joined t (t' ++ v).
Proof. intros (u & c & c' & u' & -> & -> & H1 & H2). exists u, c, c', (u' ++ v). auto. Qed.

Section Items.
Variable def : ex.
Hypothesis Hr : forall N, sound_below sel defines def read_sdl N.
Hypothesis Hne : empty_ok nb def = false.
Hypothesis Htidy : snd (soft_hard (hard_rule last_rules 4) def) = true.
Lemma definitions_inv o s ns o' s' : M (list_of def (Star g_ignored)) o s (Match ns o' s') ->
  exists xs t, s = t ++ s' /\ o' = o + length t /\ definitions L atof unescape_j o xs t /\ all read_sdl ns = Some xs.
Proof.
  intros H. apply seq_inv in H as (n1 & o1 & s1 & n2 & H1 & H2 & ->).
  destruct (Hr (S (length s)) _ _ _ _ _ H1 (le_n _)) as (x & t & n & E & -> & -> & Hx & Ex). apply star_inv in H2.
  pose proof (tidy_match sel _ Htidy _ _ _ _ _ _ H1 E) as T. subst s. clear H1.
  assert (exists xs u, s1 = u ++ s' /\ o' = o + length t + length u /\ all read_sdl n2 = Some xs /\ definitions L atof unescape_j o (x :: xs) (t ++ u)) as
    (xs & u & -> & -> & E & Hi).
  2:{ exists (x :: xs), (t ++ u). split; [apply app_assoc|]. split; [rewrite app_length; lia|]. split; [exact Hi|]. cbn. rewrite Ex, E. reflexivity. }
  clear Ex n. remember (o + length t) as p eqn:Ep. revert o x t Hx Ep T.
  induction H2 as [p s F|p s n1 o1 s2 n2 o2 s3 A1 R IH]; intros o x t Hx Ep T.
  - exists [], []. cbn. rewrite !app_nil_r. split; [reflexivity|]. split; [lia|]. split; [reflexivity|]. constructor. exact Hx.
  - apply ignored_then_inv in A1 as (w & s4 & -> & Hw & A1); [|exact Hne].
    destruct (Hr (S (length s4)) _ _ _ _ _ A1 (le_n _)) as (y & v & m & E & -> & -> & Hy & Ey).
    pose proof (tidy_match sel _ Htidy _ _ _ _ _ _ A1 E) as T'. subst s4.
    destruct (IH _ y v Hy eq_refl T') as (xs & u & -> & -> & E & Hi).
    exists (y :: xs), (w ++ v ++ u). split; [rewrite <- !app_assoc; reflexivity|]. split; [rewrite !app_length; lia|].
    split; [cbn [app all]; rewrite Ey, E; reflexivity|]. subst p. constructor; try assumption.
    intros [-> J]. apply (joined_front _ _ s3) in J. rewrite <- app_assoc in J. exact (untidy _ [] _ T (conj eq_refl J)).
Qed.

Lemma schema_document_inv m t ns o' s' :
  M (Must m (Bof >> opt p_bom >> Star g_ignored >> list_of def (Star g_ignored) >> Star g_ignored >> Eof)) 0 t (Match ns o' s') ->
  exists ds, schema_document L atof unescape_j ds t /\ read_schema L atof unescape_j ns = Some ds.
Proof.
  intro H. apply must_inv in H. apply seq_inv in H as (n1 & o1 & s1 & n2 & H1 & H2 & ->).
  inversion H1; subst; clear H1.
  apply seq_inv in H2 as (n3 & o3 & s3 & n4 & H1 & H2 & ->).
  assert (exists bom, (bom = [] \/ bom = byte_order_mark) /\ s1 = bom ++ s3 /\ o3 = length bom /\ n3 = []) as (bom & Hbom & -> & -> & ->).
  { apply opt_inv in H1 as [H1|(_ & -> & -> & <-)]; [|exists []; auto].
    inversion H1; subst.
    match goal with X : utf8_range _ _ _ = Some _ |- _ => unfold utf8_range in X; destruct (peek_utf8 s1) as [[c k]|] eqn:P1; [|discriminate];
      destruct (N.leb_spec 65279 c); [|discriminate]; destruct (N.leb_spec c 65279); [|discriminate]; injection X as -> end.
    apply peek_decode in P1 as (r & -> & -> & _); [|lia]. assert (c = 65279%N) as -> by lia.
    exists byte_order_mark. split; [auto|]. rewrite skipn_app, skipn_all, Nat.sub_diag. cbn. auto. }
  apply ignored_then_inv in H2 as (w & s4 & -> & Hw & H2); [|cbn; rewrite Hne; reflexivity].
  apply seq_inv in H2 as (n5 & o5 & s5 & n6 & H2 & H3 & ->).
  apply definitions_inv in H2 as (ds & u & -> & -> & Hd & Ed).
  apply seq_inv in H3 as (n7 & o7 & s7 & n8 & H3 & H4 & ->). apply blanks_inv in H3 as (-> & v & -> & -> & Hv).
  inversion H4; subst. exists ds. rewrite app_nil_r. split; [|cbn [app]; rewrite app_nil_r; exact Ed].
  econstructor; try eassumption.
  destruct Hv as [Hv|[_ Hv]]; [constructor; exact Hv|exact Hv].
Qed.
End Items.

Lemma type_system_tidy : snd (soft_hard (hard_rule last_rules 4) g_schema_type_definition) = true.
Proof. vm_compute. reflexivity. Qed.

Theorem parse_schema_sound text ns : parse_schema_string text = Ok ns ->
  exists ds, schema_document L atof unescape_j ds text /\ read_schema L atof unescape_j ns = Some ds.
Proof.
  unfold parse_schema_string. intro H. destruct (parse_twice_cases schema_selector g_schema_document text) as [X|[X|X]]; [cbn; auto|..].
  - destruct X as (ns' & o & s & E & X). rewrite E in H. injection H as ->.
    exact (schema_document_inv g_schema_type_definition type_system_sound eq_refl type_system_tidy _ _ _ _ _ X).
  - destruct X as (ns' & o & s & m & E & _ & X). rewrite E in H. injection H as ->.
    exact (schema_document_inv g_mixed_definition mixed_definition_sound eq_refl definitions_tidy _ _ _ _ _ X).
  - destruct X as (m & m' & E & _). rewrite E in H. discriminate.
Qed.
End Sdl.
