(** Parsing: C37 (string literals), C38 (totality, well formed trees), C48 (what is accepted, and as what). *)
From Coq Require Import String Ascii NArith ZArith Bool List Lia.
From Verif Require Import Cpp Value Ast.
From Verif Require Export ParseTotal.
Import ListNotations.
Local Open Scope list_scope.

(** ** C38. Parsing any text ends with a tree or with a parse_error; the model's [UB] (no root, or a parser that never
    returns) does not occur. *)
Theorem C38_parse_total text :
  (exists ns, parse_string text = Ok ns) \/ (exists message, parse_string text = Throw (parse_error message)).
Proof.
  destruct (parse_twice_cases executable_selector g_executable_document text) as [(ns & o & s & E & _)|[(ns & o & s & m & E & _)|(m & m' & E & _)]];
    [left; reflexivity|left|left|right]; eauto.
Qed.
Theorem C38_parse_schema_total text :
  (exists ns, parse_schema_string text = Ok ns) \/ (exists message, parse_schema_string text = Throw (parse_error message)).
Proof.
  destruct (parse_twice_cases schema_selector g_schema_document text) as [(ns & o & s & E & _)|[(ns & o & s & m & E & _)|(m & m' & E & _)]];
    [right; left; reflexivity|left|left|right]; eauto.
Qed.

(** Every tree of an executable document has the children that validation and execution read: reading it never meets a
    missing child ([None]), whatever the locations and the float conversion. *)
Theorem C38_parsed_readable L atof text ns : parse_string text = Ok ns -> exists ds, read_document L atof ns = Some ds.
Proof.
  intro H. destruct (parse_twice_cases executable_selector g_executable_document text) as [(ns' & o & s & E & Hm)|[(ns' & o & s & m & E & _ & Hm)|(m & m' & E & _)]];
    [left; reflexivity|..]; unfold parse_string in H; rewrite E in H; try discriminate; injection H as ->.
  - destruct (document_sound L atof _ _ _ _ Hm) as (ds & _ & Ed). eauto.
  - destruct (mixed_document_sound L atof _ _ _ _ Hm) as (ds & Ed & _). eauto.
Qed.

(** ** C48. A text is parsed as an executable document exactly if it spells that document. Partial: the grammar of
    ParseSpec.v is narrower than that of GraphQL in the places listed there (C48_..._refuted below). *)
Theorem C48_parsed_iff_spelled_partial L atof text ds :
  document L atof ds text <->
  (exists ns, parse_string text = Ok ns /\ read_document L atof ns = Some ds) /\ forall l, ~ In (DOther l) ds.
Proof.
  split.
  - intro H. split.
    + destruct (acc_document L atof ds text H) as (ns & Hm & Ed). exists ns. split; [|exact Ed].
      unfold parse_string, parse_twice. apply (parse_with_iff executable_selector) in Hm; [|cbn; auto]. rewrite Hm. reflexivity.
    + destruct H as [bom w ds t e _ _ Hd _]. eapply executable_items_none. exact Hd.
  - intros [(ns & Ep & Ed) Hn].
    destruct (parse_twice_cases executable_selector g_executable_document text) as [(ns' & o & s & E & Hm)|[(ns' & o & s & m & E & _ & Hm)|(m & m' & E & _)]];
      [left; reflexivity|..]; unfold parse_string in Ep; rewrite E in Ep; try discriminate; injection Ep as ->.
    + destruct (document_sound L atof _ _ _ _ Hm) as (ds' & Hd & Ed'). rewrite Ed in Ed'. injection Ed' as <-. exact Hd.
    + destruct (mixed_document_sound L atof _ _ _ _ Hm) as (ds' & Ed' & Hd). rewrite Ed in Ed'. injection Ed' as <-. apply Hd. exact Hn.
Qed.

(** So a text spells at most one document, and a text that spells none is an error or has other definitions in it. *)
(** The locations are those of the first byte of each piece: lines are counted by line feeds, columns in bytes, both from 1. *)
Definition feeds (t : text) : nat := length (filter (Ascii.eqb (code 10)) t).
Lemma advance_line a b line column : ~ In (code 10) b -> (a = [] \/ last a (code 10) = code 10) ->
  advance line column (a ++ b) = mkLoc (line + N.of_nat (feeds a)) (match a with [] => column | _ => 1 end + N.of_nat (length b))%N.
Proof.
  intros Hb. assert (forall line column, advance line column b = mkLoc line (column + N.of_nat (length b))) as base.
  { induction b as [|c b IH]; intros l k; [cbn [advance length]; f_equal; lia|]. cbn [advance length]. unfold GrammarModel.lf.
    destruct (Ascii.eqb_spec c (ascii_of_nat 10)) as [->|_]; [exfalso; apply Hb; left; reflexivity|].
    rewrite IH by (intro X; apply Hb; right; exact X). f_equal. lia. }
  revert line column. induction a as [|c a IH]; intros line column Ha.
  - rewrite app_nil_l, base. f_equal. cbn. lia.
  - cbn [app advance]. unfold GrammarModel.lf. destruct Ha as [Ha|Ha]; [discriminate|].
    destruct a as [|d a].
    + change (c = ascii_of_nat 10) in Ha. subst c. destruct (Ascii.eqb_spec (ascii_of_nat 10) (ascii_of_nat 10)) as [_|X]; [|exfalso; apply X; reflexivity].
      rewrite app_nil_l, base. change (feeds [ascii_of_nat 10]) with 1. f_equal. lia.
    + assert (last (d :: a) (code 10) = code 10) as Ha' by exact Ha.
      assert (feeds (c :: d :: a) = (if Ascii.eqb c (ascii_of_nat 10) then 1 else 0) + feeds (d :: a)) as Ef.
      { unfold feeds. cbn [filter]. rewrite (Ascii.eqb_sym c). change (ascii_of_nat 10) with (code 10). destruct (Ascii.eqb (code 10) c); reflexivity. }
      rewrite Ef. destruct (Ascii.eqb c (ascii_of_nat 10)); rewrite IH by (right; exact Ha'); f_equal; lia.
Qed.
Theorem C48_locations before line rest :
  (before = [] \/ last before (code 10) = code 10) -> ~ In (code 10) line ->
  location_at (before ++ line ++ rest) (length (before ++ line))
  = mkLoc (1 + N.of_nat (feeds before)) (1 + N.of_nat (length line)).
Proof.
  intros Hb Hl. unfold location_at. rewrite app_assoc, firstn_app, Nat.sub_diag, firstn_O, app_nil_r, firstn_all.
  rewrite advance_line by assumption. f_equal. destruct before; reflexivity.
Qed.
Theorem C48_parsed_at atof text ds : document (location_at text) atof ds text ->
  exists ns, parse_string text = Ok ns /\ read_document (location_at text) atof ns = Some ds.
Proof. intro H. apply C48_parsed_iff_spelled_partial in H. exact (proj1 H). Qed.

Theorem C48_unambiguous L atof text ds ds' : document L atof ds text -> document L atof ds' text -> ds = ds'.
Proof.
  intros H1 H2. apply C48_parsed_iff_spelled_partial in H1 as [(ns & E1 & R1) _]. apply C48_parsed_iff_spelled_partial in H2 as [(ns' & E2 & R2) _].
  rewrite E1 in E2. injection E2 as <-. rewrite R1 in R2. injection R2 as ->. reflexivity.
Qed.
Theorem C48_rejected L atof text : (forall ds, ~ document L atof ds text) ->
  (exists message, parse_string text = Throw (parse_error message))
  \/ exists ns ds l, parse_string text = Ok ns /\ read_document L atof ns = Some ds /\ In (DOther l) ds.
Proof.
  intro H. destruct (C38_parse_total text) as [(ns & E)|E]; [right|left; exact E].
  destruct (C38_parsed_readable L atof text ns E) as (ds & Ed). exists ns, ds.
  assert (forall d : definition, (exists l, d = DOther l) \/ (forall l, d <> DOther l)) as dec.
  { intros [d|d|l]; [right; discriminate|right; discriminate|left; eauto]. }
  assert ((exists l, In (DOther l) ds) \/ forall l, ~ In (DOther l) ds) as [(l & Hl)|Hn].
  { clear -dec. induction ds as [|d ds IH]; [right; intros l []|]. destruct (dec d) as [(l & ->)|Hd]; [left; exists l; left; reflexivity|].
    destruct IH as [(l & Hl)|IH]; [left; exists l; right; exact Hl|right]. intros l [X|X]; [exact (Hd l X)|exact (IH l X)]. }
  - exists l. auto.
  - exfalso. apply (H ds). apply C48_parsed_iff_spelled_partial. split; [exists ns; auto|exact Hn].
Qed.

(** A document with most of the constructs, with where each thing is; by C48 it spells what is read. *)
Definition sample_text : text := chars "query Q($a: [Int!] = [1, 2]) { x: f(n: $a) @skip(if: true) { ...F ... on T { g } } } fragment F on T { g }".
Definition sample_document (L : nat -> schema_location) : list definition :=
  [DOp (mkOp (L 0) (Some "query"%string) (Some "Q"%string)
     [mkVar (L 8) "a" (TListOf (TNonNull (TNamed "Int"))) (L 12) (Some (LList (L 21) [LInt (L 22) 1; LInt (L 25) 2])) (L 19)] []
     [SField (L 31) (Some "x"%string) "f" [(L 36, ("n"%string, LVar (L 39) "a"))] [mkDir (L 43) "skip" [(L 49, ("if"%string, LBool (L 53) true))]]
        (Some (L 59, [SSpread (L 64) "F" []; SInline (L 69) (Some (L 70, "T"%string)) [] [SField (L 77) None "g" [] [] None]]))]);
   DFrag (mkFrag (L 85) "F" "T" (L 96) [] [SField (L 103) None "g" [] [] None])].
Theorem C48_sample L atof : document L atof (sample_document L) sample_text.
Proof.
  apply C48_parsed_iff_spelled_partial. split.
  - destruct (parse_string sample_text) as [ns| |] eqn:E; [|exfalso; revert E; vm_compute; discriminate..].
    exists ns. split; [reflexivity|]. revert E. vm_compute. intros [= <-]. reflexivity.
  - intros l H. cbn in H. destruct H as [H|[H|[]]]; discriminate.
Qed.

(** Texts that the specification treats alike (they have the same tokens) but this parser does not: one of each pair is
    rejected, the other accepted. *)
Definition accepted (t : text) : bool := is_ok (parse_string t).
(** Two selections, or two string literals, with nothing between them. *)
Theorem C48_adjacent_items_refuted :
  accepted (chars "{a{b}c}") = false /\ accepted (chars "{a{b} c}") = true
  /\ accepted (chars "{a(b:[""x""""y""])}") = false /\ accepted (chars "{a(b:[""x"" ""y""])}") = true.
Proof. vm_compute. auto. Qed.
(** Ignorable text between a sigil and its name. *)
Theorem C48_sigil_refuted :
  accepted (chars "query($ a:Int){b}") = false /\ accepted (chars "query($a:Int){b}") = true
  /\ accepted (chars "{a@ b}") = false /\ accepted (chars "{a@b}") = true.
Proof. vm_compute. auto. Qed.
(** A float literal with a fraction and an exponent. *)
Theorem C48_float_refuted :
  accepted (chars "{a(b:1.5e10)}") = false /\ accepted (chars "{a(b:1.5)}") = true /\ accepted (chars "{a(b:15e9)}") = true.
Proof. vm_compute. auto. Qed.
(** A comment that ends at a carriage return, and a byte order mark between two tokens. *)
Theorem C48_ignored_refuted :
  accepted (chars "{a#x" ++ code 13 :: chars "b}") = false /\ accepted (chars "{a#x" ++ code 10 :: chars "b}") = true
  /\ accepted (chars "{a " ++ byte_order_mark ++ chars "b}") = false /\ accepted (chars "{a b}") = true
  /\ accepted (byte_order_mark ++ chars "{a b}") = true.
Proof. vm_compute. auto. Qed.

(** ** C37. String literals. *)

(** What the library delivers for the pieces of a quoted string; [after]: the piece before is a unicode escape. *)
Fixpoint delivered (after : bool) (ps : list piece) : text :=
  match ps with
  | [] => []
  | PChar c :: r => utf8 c ++ delivered false r
  | PControl c :: r => c :: delivered false r
  | PEscape c :: r => c :: delivered false r
  | PUnicode h1 h2 h3 h4 :: r => (if after then ["\"%char] else []) ++ "u"%char :: h1 :: h2 :: h3 :: h4 :: delivered true r
  end.

Lemma quoted_pieces ps : Forall piece_ok ps -> forall after, quoted after (flat_map spelled ps) (delivered after ps).
Proof.
  induction 1 as [|p ps Hp _ IH]; intros b; [constructor|]. destruct p as [c|c|c|h1 h2 h3 h4]; cbn [flat_map spelled delivered piece_ok] in *.
  - destruct Hp as (H1 & H2 & H3). apply q_char; auto.
  - apply q_control; auto.
  - apply q_escape; auto.
  - destruct Hp as (H1 & H2 & H3 & H4). apply q_unicode; auto.
Qed.
Lemma pieces_of_quoted after t d : quoted after t d -> exists ps, Forall piece_ok ps /\ t = flat_map spelled ps /\ d = delivered after ps.
Proof.
  induction 1 as [after|after c t d H1 H2 H3 _ (ps & Hps & -> & ->)|after c t d H _ (ps & Hps & -> & ->)|after c t d H _ (ps & Hps & -> & ->)|after h1 h2 h3 h4 t d H1 H2 H3 H4 _ (ps & Hps & -> & ->)].
  - exists []. auto.
  - exists (PChar c :: ps). split; [constructor; [cbn; auto|exact Hps]|auto].
  - exists (PControl c :: ps). split; [constructor; [cbn; auto|exact Hps]|auto].
  - exists (PEscape c :: ps). split; [constructor; [cbn; auto|exact Hps]|auto].
  - exists (PUnicode h1 h2 h3 h4 :: ps). split; [constructor; [cbn; auto|exact Hps]|auto].
Qed.

(** The pieces for which delivering what is spelled is right: no unicode escape, and no escape for a control character. *)
Definition faithful (p : piece) : Prop :=
  match p with
  | PEscape c => In c [""""; "\"; "/"]%char
  | PUnicode _ _ _ _ => False
  | _ => True
  end.

Lemma utf8_short c : length (utf8 c) <= 3.
Proof. unfold utf8. destruct (c <? 128)%N; [cbn; lia|]. destruct (c <? 2048)%N; cbn; lia. Qed.

Lemma delivered_longer ps : forall after, length (flat_map denoted ps) <= length (delivered after ps).
Proof.
  induction ps as [|p ps IH]; intros b; [reflexivity|]. destruct p as [c|c|c|h1 h2 h3 h4]; cbn [flat_map denoted delivered].
  - rewrite !app_length. specialize (IH false). lia.
  - cbn [app length]. specialize (IH false). lia.
  - cbn [app length]. specialize (IH false). lia.
  - rewrite !app_length. specialize (IH true). pose proof (utf8_short (((hex_value h1 * 16 + hex_value h2) * 16 + hex_value h3) * 16 + hex_value h4)%N) as X.
    cbn [length]. lia.
Qed.

Lemma escaped_same c : In c (map fst escapes) -> (escaped c = c <-> In c [""""; "\"; "/"]%char).
Proof.
  cbn. intros [<-|[<-|[<-|[<-|[<-|[<-|[<-|[<-|[]]]]]]]]]; vm_compute; split; auto; try discriminate; intuition discriminate.
Qed.

(** Exactly which quoted strings are delivered as what they denote. *)
Theorem C37_quoted_exact ps : Forall piece_ok ps ->
  (delivered false ps = flat_map denoted ps <-> Forall faithful ps).
Proof.
  intro H. generalize false. induction H as [|p ps Hp _ IH]; intros b; [split; [constructor|reflexivity]|].
  destruct p as [c|c|c|h1 h2 h3 h4]; cbn [flat_map denoted delivered piece_ok] in *.
  - rewrite Forall_cons_iff. rewrite <- (IH false). split; [intro E; apply app_inv_head in E; cbn; auto|intros [_ ->]; reflexivity].
  - rewrite Forall_cons_iff. rewrite <- (IH false). split; [intros [= E]; cbn; auto|intros [_ ->]; reflexivity].
  - rewrite Forall_cons_iff. rewrite <- (IH false). cbn [app faithful]. rewrite <- (escaped_same c Hp).
    split; [intros [= E1 E2]; auto|intros [E1 ->]; rewrite E1; reflexivity].
  - split; [|intro F; inversion F as [|x l F1 F2]; destruct F1]. intro E. exfalso. apply (f_equal (@length ascii)) in E.
    rewrite !app_length in E. cbn [length] in E. pose proof (delivered_longer ps true) as X.
    pose proof (utf8_short (((hex_value h1 * 16 + hex_value h2) * 16 + hex_value h3) * 16 + hex_value h4)%N) as Y. lia.
Qed.

(** The string an argument gets: the document [{f(a:"...")}] with the literal in it is parsed, and the argument is the
    string [delivered]. *)
Definition with_literal (t : text) : text := chars "{f(a:" ++ t ++ chars ")}".
Definition with_string (L : nat -> schema_location) (s : string) : list definition :=
  [DOp (mkOp (L 0) None None [] [] [SField (L 1) None "f" [(L 3, ("a"%string, LString (L 5) s))] [] None])].

Lemma letter_name c : letter c -> name (String c "").
Proof. intro H. cbn. auto. Qed.
Lemma literal_document L atof t s : value L atof 5 (LString (L 5) s) t -> document L atof (with_string L s) (with_literal t).
Proof.
  intro H.
  assert (named L (value L atof) 3 (L 3, ("a"%string, LString (L 5) s)) (chars "a" ++ [] ++ ":"%char :: [] ++ t)) as Hn.
  { constructor; [apply letter_name; left; unfold between; cbn; lia|constructor|constructor|exact H]. }
  assert (arguments L atof 2 [(L 3, ("a"%string, LString (L 5) s))] ("("%char :: [] ++ (chars "a" ++ [] ++ ":"%char :: [] ++ t) ++ [] ++ [")"%char])) as Ha.
  { apply (bracketed_items "("%char ")"%char (named L (value L atof)) 2 [] _ _ []); [constructor|constructor; exact Hn|constructor]. }
  assert (selects L atof 1 (SField (L 1) None "f" [(L 3, ("a"%string, LString (L 5) s))] [] None)
    ([] ++ chars "f" ++ ([] ++ ("("%char :: [] ++ (chars "a" ++ [] ++ ":"%char :: [] ++ t) ++ [] ++ [")"%char])) ++ [] ++ [])) as Hs.
  { constructor; [constructor|apply letter_name; left; unfold between; cbn; lia| |constructor|constructor].
    apply optional_some; [constructor|]. exact Ha. }
  replace (with_literal t) with ([] ++ [] ++ ("{"%char :: [] ++ ([] ++ chars "f" ++ ([] ++ ("("%char :: [] ++ (chars "a" ++ [] ++ ":"%char :: [] ++ t) ++ [] ++ [")"%char])) ++ [] ++ []) ++ [] ++ ["}"%char]) ++ []).
  2:{ unfold with_literal. cbn. rewrite ?app_nil_r, <- ?app_assoc. reflexivity. }
  constructor; [left; reflexivity|constructor| |constructor; constructor].
  constructor. apply executable_operation. apply operation_short. constructor; [constructor|constructor; exact Hs|constructor].
Qed.

Theorem C37_quoted_delivered L atof ps : Forall piece_ok ps ->
  exists ns, parse_string (with_literal (""""%char :: flat_map spelled ps ++ [""""%char])) = Ok ns
    /\ read_document L atof ns = Some (with_string L (str (delivered false ps))).
Proof.
  intro H. apply C48_parsed_iff_spelled_partial. apply literal_document. apply value_string. apply quoted_pieces. exact H.
Qed.

(** String literals without escapes (or with escaped quotes, backslashes and slashes) arrive as what they denote. *)
Theorem C37_quoted_partial L atof ps : Forall piece_ok ps -> Forall faithful ps ->
  exists ns, parse_string (with_literal (""""%char :: flat_map spelled ps ++ [""""%char])) = Ok ns
    /\ read_document L atof ns = Some (with_string L (str (flat_map denoted ps))).
Proof.
  intros H F. apply (C37_quoted_exact ps H) in F. rewrite <- F. apply C37_quoted_delivered. exact H.
Qed.

(** With other escapes they never do: the letter of the escape arrives instead of the character. *)
Theorem C37_escapes_refuted L atof ps : Forall piece_ok ps -> ~ Forall faithful ps ->
  exists ns s, parse_string (with_literal (""""%char :: flat_map spelled ps ++ [""""%char])) = Ok ns
    /\ read_document L atof ns = Some (with_string L s) /\ s <> str (flat_map denoted ps).
Proof.
  intros H F. destruct (C37_quoted_delivered L atof ps H) as (ns & E & R). exists ns, (str (delivered false ps)).
  split; [exact E|]. split; [exact R|]. intro X. apply F. apply (C37_quoted_exact ps H).
  apply (f_equal list_ascii_of_string) in X. rewrite !list_ascii_of_string_of_list_ascii in X. exact X.
Qed.
(** [line \n feed]: a backslash and the letter n arrive as the letter n; so does the letter A written as a unicode escape
    arrive as [u0041]. *)
Definition newline_escape : list piece := [PChar 97; PEscape "n"; PChar 98].
Definition letter_escape : list piece := [PUnicode "0" "0" "4" "1"; PUnicode "0" "0" "4" "2"].
Theorem C37_escapes_example :
  str (flat_map spelled newline_escape) = "a\nb"%string /\ str (delivered false newline_escape) = "anb"%string
  /\ flat_map denoted newline_escape = ["a"%char; code 10; "b"%char]
  /\ str (flat_map spelled letter_escape) = "\u0041\u0042"%string /\ str (delivered false letter_escape) = "u0041\u0042"%string
  /\ str (flat_map denoted letter_escape) = "AB"%string
  /\ Forall piece_ok (newline_escape ++ letter_escape) /\ ~ Forall faithful newline_escape /\ ~ Forall faithful letter_escape.
Proof.
  repeat (split; [reflexivity|]). split; [|split; intro F; unfold newline_escape, letter_escape in F; rewrite !Forall_cons_iff in F].
  - assert (forall c, (97 <= c <= 98)%N -> piece_ok (PChar c)) as A by (intros c Hc; unfold piece_ok, source_code; lia).
    assert (forall h, In h ["0"; "1"; "2"; "4"]%char -> hex_digit h) as B.
    { intros h Hh. left. unfold digit, between. cbn in Hh. destruct Hh as [<-|[<-|[<-|[<-|[]]]]]; cbn; lia. }
    unfold newline_escape, letter_escape. cbn [app].
    apply Forall_cons; [apply A; lia|]. apply Forall_cons; [cbn; tauto|]. apply Forall_cons; [apply A; lia|].
    apply Forall_cons; [unfold piece_ok; repeat split; apply B; cbn; tauto|]. apply Forall_cons; [unfold piece_ok; repeat split; apply B; cbn; tauto|]. apply Forall_nil.
  - destruct F as (_ & X & _). cbn in X. intuition discriminate.
  - destruct F as (X & _). exact X.
Qed.

(** ** Block strings arrive exactly as they are spelled ... *)
Lemma block_raw_chars t d : block_raw t d -> block_chars t.
Proof. induction 1; constructor; assumption. Qed.
Theorem C37_block_delivered L atof t d : block_raw t d ->
  exists ns, parse_string (with_literal (q3 ++ t ++ q3)) = Ok ns /\ read_document L atof ns = Some (with_string L (str t)).
Proof. intro H. apply C48_parsed_iff_spelled_partial. apply literal_document. apply value_block. eapply block_raw_chars. exact H. Qed.

(** ... which is what they denote if there is nothing to remove: no escaped triple quote, no carriage return, the first
    and the last line not blank, and a later line that is not indented if there are later lines. *)
Lemma lines_no_cr t : ~ In cr t -> forall l, join (lines_from l t) = rev l ++ t.
Proof.
  intro H. induction t as [|c t IH]; intro l; [cbn; rewrite app_nil_r; reflexivity|]. cbn [lines_from].
  assert (forall l t, lines_from l t <> []) as ne.
  { clear. intros l t. revert l. induction t as [|c t IH]; intro l; [discriminate|]. cbn [lines_from]. destruct (Ascii.eqb c lf); [discriminate|].
    destruct (Ascii.eqb c cr); [|apply IH]. destruct t; [discriminate|]. destruct (Ascii.eqb a lf); discriminate. }
  destruct (Ascii.eqb_spec c lf) as [->|Hc].
  - specialize (IH (fun X => H (or_intror X)) []). cbn [rev app] in IH. cbn [join].
    destruct (lines_from [] t) eqn:E; [exfalso; exact (ne [] t E)|]. rewrite <- E in *. rewrite IH. reflexivity.
  - destruct (Ascii.eqb_spec c cr) as [->|_]; [exfalso; apply H; left; reflexivity|].
    rewrite IH by (intro X; apply H; right; exact X). cbn. rewrite <- app_assoc. reflexivity.
Qed.
Definition nothing_to_remove (t : text) : Prop :=
  ~ In cr t /\ all_white (hd [] (lines t)) = false /\ all_white (last (lines t) []) = false
  /\ (common_indent (lines t) = None \/ common_indent (lines t) = Some 0).
Lemma drop_blank_none ls : all_white (hd [] ls) = false -> drop_blank ls = ls.
Proof. destruct ls as [|l r]; [reflexivity|]. cbn [hd drop_blank]. intros ->. reflexivity. Qed.
Theorem C37_block_value t : nothing_to_remove t -> block_value t = t.
Proof.
  intros (H1 & H2 & H3 & H4). unfold block_value.
  assert (dedent (lines t) = lines t) as ->.
  { unfold dedent. destruct (lines t) as [|l r]; [reflexivity|]. destruct H4 as [-> | ->]; [reflexivity|].
    f_equal. clear. induction r as [|x r IH]; [reflexivity|]. cbn [map skipn]. f_equal. exact IH. }
  rewrite (drop_blank_none (lines t) H2). rewrite drop_blank_none.
  - rewrite rev_involutive. unfold lines. rewrite (lines_no_cr t H1). reflexivity.
  - enough (hd [] (rev (lines t)) = last (lines t) []) as -> by exact H3.
    generalize (lines t). intro ls. induction ls as [|x ls IH] using rev_ind; [reflexivity|]. rewrite rev_app_distr, last_last. reflexivity.
Qed.
Theorem C37_block_partial L atof t : block_raw t t -> nothing_to_remove t ->
  exists ns, parse_string (with_literal (q3 ++ t ++ q3)) = Ok ns /\ read_document L atof ns = Some (with_string L (str (block_value t))).
Proof. intros H N. rewrite (C37_block_value t N). eapply C37_block_delivered. exact H. Qed.

(** The indentation and the blank lines of other block strings are kept, and so is the backslash of an escaped triple quote. *)
Definition indented : text := code 10 :: chars "  a" ++ code 10 :: chars "  ".
Definition escaped_quotes : text := chars "a\""""""b".
Theorem C37_block_refuted L atof :
  (exists ns, parse_string (with_literal (q3 ++ indented ++ q3)) = Ok ns /\ read_document L atof ns = Some (with_string L (str indented)))
  /\ str (block_value indented) = "a"%string /\ str indented <> "a"%string
  /\ (exists ns, parse_string (with_literal (q3 ++ escaped_quotes ++ q3)) = Ok ns /\ read_document L atof ns = Some (with_string L (str escaped_quotes)))
  /\ (exists d, block_raw escaped_quotes d /\ d <> escaped_quotes).
Proof.
  split; [|split; [reflexivity|split; [vm_compute; discriminate|split]]].
  - destruct (parse_string (with_literal (q3 ++ indented ++ q3))) as [ns| |] eqn:E; [|exfalso; revert E; vm_compute; discriminate..].
    exists ns. split; [reflexivity|]. revert E. vm_compute. intros [= <-]. reflexivity.
  - destruct (parse_string (with_literal (q3 ++ escaped_quotes ++ q3))) as [ns| |] eqn:E; [|exfalso; revert E; vm_compute; discriminate..].
    exists ns. split; [reflexivity|]. revert E. vm_compute. intros [= <-]. reflexivity.
  - exists (chars "a""""""b"). split; [|discriminate].
    apply (br_char 97 _ (chars """""""b")); [left; unfold source_code; lia|intros (r & X); vm_compute in X; discriminate X..|].
    apply (br_escape (chars "b") (chars "b")).
    apply (br_char 98 [] []); [left; unfold source_code; lia|intros (r & X); vm_compute in X; discriminate X..|constructor].
Qed.
