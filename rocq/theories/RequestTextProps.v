(** C54: the document that a generated client sends is the one that clientgen read and validated. *)
From Coq Require Import String Ascii NArith Arith Bool List Lia.
From Verif Require Import Cpp Value Ast Layout SchemaModel ValidationModel ValidationLayout ClientSchemaModel.
From Verif Require Import ParseSpec ParseTotal ParseProps RequestTextModel RequestTextProofs.
Import ListNotations.
Local Open Scope list_scope.

(** ** The text *)
(** Everything is laid out differently; only the lines of a block string, after the first, have two more tabs before them. *)
Theorem C54_request_text_partial L L' atof ds file :
  document L atof ds file -> ~ begins byte_order_mark file -> ~ occurs closing file ->
  exists text ds', get_request_text file = Some text /\ document L' atof ds' text /\ strip_doc (fun s => s) ds' = strip_doc tab_string ds.
Proof.
  intros H Hbom Hc. destruct H as [bom w ds t e Hb Hw Hi He]. destruct Hb as [->| ->]; [|exfalso; apply Hbom; eexists; reflexivity]. cbn [app length] in *.
  destruct (items_ends _ _ _ _ _ _ Hi) as [Hs Hen]. destruct (trim_document w t e Hw Hs Hen He) as (w' & e' & Hw' & He' & Et & Ends).
  set (before := [feed; tab_char; tab_char] ++ tab w').
  destruct (executables_tab L L' atof _ _ _ Hi (length before)) as (ds' & Hi' & Es).
  exists (([feed; tab_char; tab_char] ++ tab (w' ++ t ++ e') ++ [feed]) ++ [tab_char]), ds'.
  assert (Hoc : ~ occurs closing (w' ++ t ++ e')).
  { rewrite <- Et. intros (a & b & X). apply Hc. unfold trim_whitespace in X. destruct (_ <=? _)%nat; [|exists a, b; exact X].
    set (k := length (w ++ t ++ e) - length (skip_spaces (w ++ t ++ e))) in *. set (n := length (skip_spaces (rev (w ++ t ++ e))) - k) in *.
    exists (firstn k (w ++ t ++ e) ++ a), (b ++ skipn n (skipn k (w ++ t ++ e))). rewrite <- (firstn_skipn k (w ++ t ++ e)) at 1. rewrite <- (firstn_skipn n (skipn k (w ++ t ++ e))) at 1.
    rewrite X, <- !app_assoc. reflexivity. }
  split; [|split; [|exact Es]].
  - unfold get_request_text, literal, request_code. rewrite without_prefix_app, Et. unfold lines. rewrite (lines_are [] (w' ++ t ++ e')) by exact Ends.
    assert (Hoc' : ~ occurs closing ([feed; tab_char; tab_char] ++ tab (w' ++ t ++ e') ++ [feed])).
    { assert (E : [feed; tab_char; tab_char] ++ tab (w' ++ t ++ e') ++ [feed; tab_char; tab_char] = tab (feed :: (w' ++ t ++ e') ++ [feed])).
      { rewrite tab_feed, (tab_app (w' ++ t ++ e') [feed]). reflexivity. }
      intros (a & b & X). apply Hoc.
      destruct (occurs_tab closing (feed :: (w' ++ t ++ e') ++ [feed]) ltac:(cbn; intuition discriminate) ltac:(cbn; intuition discriminate) ltac:(discriminate)) as (a' & b' & Y).
      { exists a, (b ++ [tab_char; tab_char]). rewrite <- E. rewrite (app_assoc a), (app_assoc (a ++ closing)), <- (app_assoc a), <- X, <- !app_assoc. reflexivity. }
      destruct a' as [|y a']; [discriminate Y|]. assert (Y' : (w' ++ t ++ e') ++ [feed] = a' ++ closing ++ b') by (injection Y as _ Y; exact Y). clear Y. rename Y' into Y. destruct (exists_last (l := closing ++ b')) as (m & z & Ez); [discriminate|]. rewrite Ez, (app_assoc a' m [z]) in Y. apply app_inj_tail in Y. destruct Y as [Y <-].
      destruct b' as [|q b']; [rewrite app_nil_r in Ez; apply (f_equal (fun l => last l "x"%char)) in Ez; rewrite last_last in Ez; discriminate Ez|].
      destruct (exists_last (l := q :: b')) as (m' & z' & Ez'); [discriminate|]. rewrite Ez', app_assoc in Ez. apply app_inj_tail in Ez. destruct Ez as [<- _]. exists a', m'. exact Y. }
    assert (R := raw_first (chars "s") _ Hoc'). rewrite <- !app_assoc in R. cbn [app] in R |- *. rewrite <- !app_assoc. cbn [app]. rewrite R. reflexivity.
  - assert (E : (([feed; tab_char; tab_char] ++ tab (w' ++ t ++ e') ++ [feed]) ++ [tab_char]) = [] ++ before ++ tab t ++ (tab e' ++ [feed; tab_char])).
    { unfold before. rewrite !tab_app, <- !app_assoc. reflexivity. }
    rewrite E. apply (document_of L' atof [] before ds' (tab t)); [left; reflexivity| |exact Hi'|].
    + unfold before. apply blanks_app; [|apply blanks_tab; exact Hw']. apply (blanks_tab [feed]). apply blanks_one. constructor. cbn. auto 8.
    + assert (T : blanks [tab_char]) by (apply blanks_one; constructor; cbn; auto). assert (F : blanks [feed; tab_char]) by (apply (blanks_cons [feed]); [constructor; cbn; auto 8|exact T]).
      destruct He' as [v Hv|v body Hv Hbo].
      * constructor. apply blanks_app; [apply blanks_tab; exact Hv|exact F].
      * constructor. rewrite tab_app, tab_cons, (tab_none body Hbo) by reflexivity. rewrite <- app_assoc. apply blanks_app; [apply blanks_tab; exact Hv|].
        replace (("#"%char :: body) ++ [feed; tab_char]) with (("#"%char :: body ++ [code 10]) ++ [tab_char]) by (cbn [app]; rewrite <- app_assoc; reflexivity).
        constructor; [constructor; exact Hbo|exact T].
Qed.

(** Without line feeds in its string literals the document is the same. *)
Lemma tab_string_none s : ~ In feed (chars s) -> tab_string s = s.
Proof. intros H. unfold tab_string. rewrite tab_none by exact H. apply string_of_list_ascii_of_string. Qed.
Definition one_line_strings (ds : list definition) : Prop := forall s, In s (doc_strings ds) -> ~ In (code 10) (chars s).
Theorem C54_same_document_partial L L' atof ds file :
  document L atof ds file -> ~ begins byte_order_mark file -> ~ occurs (chars ")gql""") file -> one_line_strings ds ->
  exists text ds', get_request_text file = Some text /\ document L' atof ds' text /\ same_but_positions ds ds'.
Proof.
  intros H Hb Hc Hs. destruct (C54_request_text_partial L L' atof ds file H Hb Hc) as (text & ds' & E & H' & Es). exists text, ds'. split; [exact E|]. split; [exact H'|].
  unfold same_but_positions. rewrite Es. apply strip_doc_ext. intros s X. symmetry. apply tab_string_none. exact (Hs s X).
Qed.
(** The same, as the parser sees it: what clientgen read from the file, and what the client reads from the text that it was given. *)
Theorem C54_parsed_partial L L' atof ns ds file :
  parse_string file = Ok ns -> read_document L atof ns = Some ds -> (forall l, ~ In (DOther l) ds) ->
  ~ begins byte_order_mark file -> ~ occurs (chars ")gql""") file -> one_line_strings ds ->
  exists text ns' ds', get_request_text file = Some text /\ parse_string text = Ok ns' /\ read_document L' atof ns' = Some ds' /\ same_but_positions ds ds'.
Proof.
  intros Ep Er Ho Hb Hc Hs. assert (H : document L atof ds file) by (apply C48_parsed_iff_spelled_partial; split; [exists ns; auto|exact Ho]).
  destruct (C54_same_document_partial L L' atof ds file H Hb Hc Hs) as (text & ds' & E & H' & Q). apply C48_parsed_iff_spelled_partial in H'. destruct H' as [(ns' & Ep' & Er') _].
  exists text, ns', ds'. auto.
Qed.

(** ** Its errors *)
(** Two documents that differ in their layout get the same errors, in the same order, from every schema and whatever was validated before. *)
Theorem C54_same_errors S d d' st : same_but_positions d d' ->
  map (fun e => (message e, path e)) (fst (validate S d st)) = map (fun e => (message e, path e)) (fst (validate S d' st)).
Proof.
  intros H. assert (E := validate_same_layout S d d' st H). apply (f_equal (map (fun e => (message e, path e)))) in E. unfold strip_errs in E. rewrite !map_map in E. exact E.
Qed.
Lemma iter_error {A} (f : A -> M unit) l x : In x l -> (forall st, fst (fst (f x st)) <> []) -> forall st, fst (fst (iter f l st)) <> [].
Proof.
  intros Hx Hf. induction l as [|y l IH]; intros st; [contradiction|]. cbn [iter]. unfold mbind. destruct (f y st) as [[e1 u] st1] eqn:E1. destruct (iter f l st1) as [[e2 v] st2] eqn:E2. cbn [fst].
  destruct Hx as [->|Hx]; intros X; apply app_eq_nil in X; destruct X as [X1 X2]; subst.
  - apply (Hf st). rewrite E1. reflexivity.
  - apply (IH Hx st1). rewrite E2. reflexivity.
Qed.
Lemma bind_error_l {A B} (m : M A) (k : A -> M B) st : fst (fst (mbind m k st)) = [] -> fst (fst (m st)) = [] /\ fst (fst (k (snd (fst (m st))) (snd (m st)))) = [].
Proof. unfold mbind. destruct (m st) as [[e1 a] st1]. cbn [fst snd]. destruct (k a st1) as [[e2 b] st2]. cbn [fst]. intros X. apply app_eq_nil in X. exact X. Qed.
Lemma other_error S d st l : In (DOther l) d -> fst (validate S d st) <> [].
Proof.
  intros H X. unfold validate, visit_document in X. destruct (visit_document_at S 0 d st) as [[es u] st'] eqn:E. cbn [fst] in X. assert (Y : fst (fst (visit_document_at S 0 d st)) = []) by (rewrite E; exact X).
  clear E X. unfold visit_document_at in Y. do 4 (apply bind_error_l in Y; destruct Y as [_ Y]). apply bind_error_l in Y. destruct Y as [Y _].
  revert Y. apply (iter_error _ d _ H). intros s. discriminate.
Qed.
(** So the document that the client marks as validated (ClientGenerator.cpp:709-712) is valid, since clientgen found no error in the file. *)
Theorem C54_still_valid_partial S L L' atof ns ds file :
  parse_string file = Ok ns -> read_document L atof ns = Some ds -> validate_request S ds = [] ->
  ~ begins byte_order_mark file -> ~ occurs (chars ")gql""") file -> one_line_strings ds ->
  exists text ns' ds', get_request_text file = Some text /\ parse_string text = Ok ns' /\ read_document L' atof ns' = Some ds' /\ validate_request S ds' = [].
Proof.
  intros Ep Er Ev Hb Hc Hs. assert (Ho : forall l, ~ In (DOther l) ds) by (intros l X; exact (other_error S ds initial l X Ev)).
  destruct (C54_parsed_partial L L' atof ns ds file Ep Er Ho Hb Hc Hs) as (text & ns' & ds' & E & Ep' & Er' & Q). exists text, ns', ds'. split; [exact E|]. split; [exact Ep'|]. split; [exact Er'|].
  assert (K := C54_same_errors S ds ds' initial Q). unfold validate_request in *. rewrite Ev in K. destruct (fst (validate S ds' initial)); [reflexivity|discriminate K].
Qed.

(** ** An example *)
Definition file54 : text := chars "  # a query
query Q($n: Int) {
	f(n: $n, s: ""tab	or"") { ...F } # more

}
fragment F on T { g }  # the end  
".
Definition text54 : text := chars "
		# a query
		query Q($n: Int) {
			f(n: $n, s: ""tab	or"") { ...F } # more
		
		}
		fragment F on T { g }  # the end
	".
Example C54_text_of_example : get_request_text file54 = Some text54.
Proof. vm_compute. reflexivity. Qed.
Lemma spells54 L atof : exists ds, document L atof ds file54 /\ one_line_strings ds.
Proof.
  destruct (parse_string file54) as [ns| |] eqn:E; [|exfalso; revert E; vm_compute; discriminate..].
  destruct (C38_parsed_readable L atof _ _ E) as [ds Ed]. exists ds. assert (K : (forall l, ~ In (DOther l) ds) /\ one_line_strings ds).
  { revert E Ed. vm_compute. intros [= <-] [= <-]. split.
    - intros l [X|[X|[]]]; discriminate X.
    - intros s [<-|[]] X. cbn in X. repeat (destruct X as [X|X]; [discriminate X|]). exact X. }
  split; [|apply K]. apply C48_parsed_iff_spelled_partial. split; [exists ns; auto|apply K].
Qed.
Fixpoint occurs_b (p t : text) : bool :=
  match without_prefix p t with Some _ => true | None => match t with [] => false | _ :: r => occurs_b p r end end.
Lemma occurs_b_false p t : occurs_b p t = false -> ~ occurs p t.
Proof.
  induction t as [|c t IH]; cbn [occurs_b]; intros H (a & b & X).
  - destruct a as [|]; [|discriminate X]. cbn [app] in X. rewrite X, without_prefix_app in H. discriminate H.
  - destruct (without_prefix p (c :: t)) as [r|] eqn:E; [discriminate H|]. destruct a as [|x a]; [cbn [app] in X; rewrite X, without_prefix_app in E; discriminate E|].
    injection X as <- X. apply (IH H). exists a, b. exact X.
Qed.
Example C54_example L L' atof : exists ds ds', document L atof ds file54 /\ document L' atof ds' text54 /\ same_but_positions ds ds'.
Proof.
  destruct (spells54 L atof) as (ds & H & Hs). destruct (C54_same_document_partial L L' atof ds file54 H) as (text & ds' & E & H' & Q).
  - intros [r X]. discriminate X.
  - apply occurs_b_false. vm_compute. reflexivity.
  - exact Hs.
  - rewrite C54_text_of_example in E. injection E as <-. exists ds, ds'. auto.
Qed.

(** ** Where it goes wrong *)
(** A byte order mark, which the parser ignores at the beginning of the file, is no longer there: the client's document does not parse. *)
Definition marked_file : text := byte_order_mark ++ chars "{a}".
Theorem C54_byte_order_mark_refuted :
  is_ok (parse_string marked_file) = true /\ exists text, get_request_text marked_file = Some text /\ is_ok (parse_string text) = false.
Proof.
  split; [vm_compute; reflexivity|]. exists ([feed; tab_char; tab_char] ++ marked_file ++ [feed; tab_char]). split; vm_compute; reflexivity.
Qed.
(** The lines of a block string get the two tabs that the lines of the file get; they are part of the value that the service is sent. *)
Definition block_file : text := chars "{a(b: """"""x
y"""""")}".
Definition strings_of (atof : string -> spec_float) (t : text) : option (list string) :=
  match parse_string t with Ok ns => option_map doc_strings (read_document (location_at t) atof ns) | _ => None end.
Theorem C54_block_string_refuted atof : strings_of atof block_file = Some ["x
y"%string] /\ exists text, get_request_text block_file = Some text /\ strings_of atof text = Some ["x
		y"%string].
Proof.
  split; [vm_compute; reflexivity|]. exists ([feed; tab_char; tab_char] ++ tab block_file ++ [feed; tab_char]). split; vm_compute; reflexivity.
Qed.
(** The end of the literal inside the document, in a string: the generated code is not a definition of the text. *)
Definition quoted_file : text := chars "{a(b: "")gql"")}".
Theorem C54_delimiter_refuted : is_ok (parse_string quoted_file) = true /\ get_request_text quoted_file = None.
Proof. split; vm_compute; reflexivity. Qed.
(** In a comment: the text is cut there, and the rest of the comment becomes code. *)
Definition code_file : text := chars "{a} # )gql""s; run(); auto t = R""gql(".
Theorem C54_comment_is_code_refuted : is_ok (parse_string code_file) = true /\
  literal (request_code code_file) = Some (chars "
		{a} # ", chars "s; run(); auto t = R""gql(
	)gql""s").
Proof. split; vm_compute; reflexivity. Qed.
