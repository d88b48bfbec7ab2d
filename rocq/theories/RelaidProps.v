(** C55, from the text of a request on: texts with the same tokens are the same request. *)
From Coq Require Import String Ascii NArith ZArith Bool List Lia.
From Verif Require Import Cpp Value Ast Layout ErrorModel ExecModel ExecSem ExecSpec ExecRequest ExecExamples ExecProps2 ExecLayout LayoutProps.
From Verif Require Import SchemaModel ValidationModel ClientSchemaModel.
From Verif Require Import ParserModel TreeModel ParseSpec ParseProps Relaid RelaidProofs RequestTextModel RequestTextProofs RequestTextProps.
Import ListNotations.
Local Open Scope string_scope.
Local Open Scope list_scope.

(** ** The specification: relaid texts *)
Lemma relaid_quote x y : relaid x y -> begins [quote] y -> begins [quote] x.
Proof.
  assert (B : forall w q, blanks w -> w <> [] -> begins [quote] (w ++ q) -> False).
  { intros w q Hw Hn [s E]. destruct w as [|c w]; [congruence|]. injection E as -> E. assert (X := blanks_first _ _ _ Hw eq_refl). revert X. out. }
  intros H [s E]. destruct H as [e e' He He'|c t t' Hc Hq H|u t t' Hs Hn H|u t t' Hs H|v v' t t' Hv Hv' H|c v v' t t' Hc Hv Hv' H|v v' t t' Hv Hv' H|c v v' t t' Hc Hv Hv' H].
  - exfalso. subst e'. exact (trailing_solid _ He' (solid_cons quote _ ltac:(out))).
  - injection E as -> E. congruence.
  - eexists. reflexivity.
  - eexists. reflexivity.
  - exfalso. destruct Hv' as [Hv' Hn]. apply (B v' t' Hv' Hn). exists s. exact E.
  - injection E as -> E. exfalso. revert Hc. out.
  - discriminate E.
  - exfalso. destruct v' as [|z v']; [injection E as -> E; revert Hc; out|]. apply (B (z :: v') (c :: t') Hv' ltac:(discriminate)). exists s. exact E.
Qed.
(** It does not matter which of the two is the given one. *)
Theorem C55_relaid_symmetric : forall t t', relaid t t' -> relaid t' t.
Proof.
  induction 1 as [e e' He He'|c t t' Hc Hq H IH|s t t' Hs Hn H IH|s t t' Hs H IH|v v' t t' Hv Hv' H IH|c v v' t t' Hc Hv Hv' H IH|v v' t t' Hv Hv' H IH|c v v' t t' Hc Hv Hv' H IH].
  - apply relaid_end; assumption.
  - apply relaid_char; assumption.
  - apply relaid_string; [exact Hs| |exact IH]. intros E B. apply (Hn E). apply (relaid_quote t t' H B).
  - apply relaid_block; assumption.
  - apply relaid_blanks; assumption.
  - apply relaid_after; assumption.
  - apply relaid_spread; assumption.
  - apply relaid_before; assumption.
Qed.

(** ** Documents *)
Theorem C55_same_document_partial : forall L L' atof ds t t', document L atof ds t -> relaid t t' -> exists ds', document L' atof ds' t' /\ same_but_positions ds ds'.
Proof. intros L L' atof ds t t' H R. exact (document_relaid L L' atof ds t H t' R). Qed.
(** What the parser reads: it accepts both texts or neither, and reads the same. *)
Theorem C55_parsed_partial : forall L L' atof t t' ns ds, relaid t t' ->
  parse_string t = Ok ns -> read_document L atof ns = Some ds -> (forall l, ~ In (DOther l) ds) ->
  exists ns' ds', parse_string t' = Ok ns' /\ read_document L' atof ns' = Some ds' /\ same_but_positions ds ds'.
Proof.
  intros L L' atof t t' ns ds R Ep Er Ho. assert (H : document L atof ds t) by (apply C48_parsed_iff_spelled_partial; split; [exists ns; auto|exact Ho]).
  destruct (C55_same_document_partial L L' atof ds t t' H R) as (ds' & H' & Q). apply C48_parsed_iff_spelled_partial in H'. destruct H' as [(ns' & Ep' & Er') _]. exists ns', ds'. auto.
Qed.
(** A text is a request for a schema: it is parsed, and has no validation errors. *)
Definition valid_text (S : schema) (t : text) : Prop :=
  exists ns ds, parse_string t = Ok ns /\ read_document (location_at t) (fun _ => S754_zero false) ns = Some ds /\ validate_request S ds = [].
Theorem C55_valid_texts_partial : forall S t t', relaid t t' -> (valid_text S t <-> valid_text S t').
Proof.
  assert (K : forall S t t', relaid t t' -> valid_text S t -> valid_text S t').
  { intros S t t' R (ns & ds & Ep & Er & Ev). assert (Ho : forall l, ~ In (DOther l) ds) by (intros l X; exact (other_error S ds initial l X Ev)).
    destruct (C55_parsed_partial _ (location_at t') _ t t' ns ds R Ep Er Ho) as (ns' & ds' & Ep' & Er' & Q). exists ns', ds'. split; [exact Ep'|]. split; [exact Er'|].
    assert (E := C54_same_errors S ds ds' initial Q). unfold validate_request in *. rewrite Ev in E. destruct (fst (validate S ds' initial)); [reflexivity|discriminate E]. }
  intros S t t' R. split; [apply K; exact R|apply K; apply C55_relaid_symmetric; exact R].
Qed.

(** ** Requests *)
(** The request with a text: it is parsed, and the operation is started. *)
Section Texts.
  Variables (O : Type) (typenames : O -> list string) (has_field : O -> string -> bool) (roots : list (string * option O)).
  Variables (St : Type) (handler : St -> O -> string -> fparams -> St * answer O).
  Definition text_responds (atof : string -> spec_float) (fuel : nat) (check : Ast.document -> list schema_error) (l : launch) (t : text) (name : string) (vars : Value.value) (s : St) (d : result Value.value) : Prop :=
    exists ns ds, parse_string t = Ok ns /\ read_document (location_at t) atof ns = Some ds /\ (forall p, ~ In (DOther p) ds)
      /\ responds handler s (start_request O typenames has_field roots fuel check l ds name vars) d.
Theorem C55_same_request_partial : forall atof fuel check l t t' name vars, layout_blind check -> relaid t t' ->
  forall s d, text_responds atof fuel check l t name vars s d -> exists d', text_responds atof fuel check l t' name vars s d' /\ same_response d d'.
Proof.
  intros atof fuel check l t t' name vars B R s d (ns & ds & Ep & Er & Ho & H).
  assert (Hd : document (location_at t) atof ds t) by (apply C48_parsed_iff_spelled_partial; split; [exists ns; auto|exact Ho]).
  destruct (C55_same_document_partial _ (location_at t') atof ds t t' Hd R) as (ds' & H' & Q). apply C48_parsed_iff_spelled_partial in H'. destruct H' as [(ns' & Ep' & Er') Ho'].
  destruct (C55_same_response O typenames has_field roots St handler fuel check l ds ds' name vars B Q s d H) as (d' & Hd' & Sd). exists d'. split; [|exact Sd]. exists ns', ds'. auto.
Qed.
(** The text of a generated client (C54) and its request file. *)
Theorem C55_client_text_partial : forall atof fuel check l file name vars, layout_blind check ->
  ~ begins byte_order_mark file -> ~ occurs (chars ")gql""") file ->
  (forall ns ds, parse_string file = Ok ns -> read_document (location_at file) atof ns = Some ds -> one_line_strings ds) ->
  forall s d, text_responds atof fuel check l file name vars s d ->
  exists text d', get_request_text file = Some text /\ text_responds atof fuel check l text name vars s d' /\ same_response d d'.
Proof.
  intros atof fuel check l file name vars B Hb Hc Hs s d (ns & ds & Ep & Er & Ho & H).
  assert (Hd : document (location_at file) atof ds file) by (apply C48_parsed_iff_spelled_partial; split; [exists ns; auto|exact Ho]).
  assert (X : exists text, get_request_text file = Some text) by (destruct (C54_same_document_partial (location_at file) (location_at file) atof ds file Hd Hb Hc (Hs ns ds Ep Er)) as (text & ? & E & _); exists text; exact E).
  destruct X as [text0 E0].
  destruct (C54_same_document_partial (location_at file) (location_at text0) atof ds file Hd Hb Hc (Hs ns ds Ep Er)) as (text & ds' & E & H' & Q). assert (text0 = text) by congruence. subst text0.
  apply C48_parsed_iff_spelled_partial in H'. destruct H' as [(ns' & Ep' & Er') Ho'].
  destruct (C55_same_response O typenames has_field roots St handler fuel check l ds ds' name vars B Q s d H) as (d' & Hd' & Sd). exists text, d'. split; [exact E|]. split; [|exact Sd]. exists ns', ds'. auto.
Qed.
End Texts.

(** ** An example *)
Definition short55 : text := chars "{a:heroes{name} unknown(b:""x # y"",c:[1,2]){d}}".
Definition long55 : text := chars "{
  a: heroes{
    name # of each
  }

  unknown(
    b: ""x # y""
    c: [ 1 2 ]
  ){ d }
}
# the end".
Lemma blanks_char c w : In c [" "; ","; code 9; code 10; code 11; code 12; code 13]%char -> blanks w -> blanks (c :: w).
Proof. intros H Hw. apply (blanks_cons [c] w); [constructor; exact H|exact Hw]. Qed.
Ltac blanks_ := repeat first [apply blanks_nil|apply blanks_char; [cbn; auto 9|]].
Ltac some_ := split; [blanks_|discriminate].
Ltac chars_ n := match n with 0%nat => idtac | Datatypes.S ?m => apply relaid_char; [out|discriminate|]; chars_ m end.
Definition nl (n : nat) : text := code 10 :: repeat " "%char n.
Ltac after_ c v w := apply (relaid_after c v w); [cbn; auto 9|cbn; blanks_|cbn; blanks_|].
Ltac before_ c v w := apply (relaid_before c v w); [cbn; auto 9|cbn; blanks_|cbn; blanks_|].
Ltac gap_ v w := apply (relaid_blanks v w); [split; [cbn; blanks_|discriminate]|split; [cbn; blanks_|discriminate]|].
Lemma relaid55 : relaid short55 long55.
Proof.
  unfold short55, long55. cbn [chars list_ascii_of_string].
  after_ "{"%char (@nil ascii) (nl 2). chars_ 1. after_ ":"%char (@nil ascii) [" "%char]. chars_ 6. after_ "{"%char (@nil ascii) (nl 4). chars_ 4.
  apply (relaid_before "}"%char [] (" "%char :: (chars "# of each" ++ [code 10]) ++ [" "; " "]%char)); [cbn; auto|constructor|apply blanks_char; [cbn; auto|]; apply blanks_cons; [apply (blank_comment (chars " of each")); out|blanks_]|].
  chars_ 1. gap_ [" "%char] (code 10 :: nl 2). chars_ 7. after_ "("%char (@nil ascii) (nl 4). chars_ 1. after_ ":"%char (@nil ascii) [" "%char].
  apply (relaid_string (chars "x # y")); [cbn; repeat (apply string_byte; [discriminate|discriminate|]); constructor|discriminate|]. gap_ [","%char] (nl 4). chars_ 1. after_ ":"%char (@nil ascii) [" "%char].
  after_ "["%char (@nil ascii) [" "%char]. chars_ 1. gap_ [","%char] [" "%char]. chars_ 1. before_ "]"%char (@nil ascii) [" "%char]. chars_ 1. before_ ")"%char (@nil ascii) (nl 2). chars_ 1.
  after_ "{"%char (@nil ascii) [" "%char]. chars_ 1. before_ "}"%char (@nil ascii) [" "%char]. chars_ 1. before_ "}"%char (@nil ascii) (nl 0). chars_ 1.
  apply (relaid_end [] (nl 0 ++ chars "# the end")); [apply trailing_blanks; constructor|apply (trailing_comment (nl 0) (chars " the end")); [cbn; blanks_|out]].
Qed.
(** The same request for the service of the examples, from the two texts; only the position of the error differs. *)
Definition reply55t (line column : Z) : Value.value :=
  VMap [("data", VMap [("a", VList [VMap [("name", VString "Luke" false)]; VNull; VMap [("name", VString "Rex" false)]]); ("unknown", VNull)]);
        ("errors", VList [VMap [("message", VString "Unknown field name: unknown" false); ("locations", VList [VMap [("line", VInt line); ("column", VInt column)]])]])].
Example C55_texts_met atof : relaid short55 long55
  /\ text_responds obj ex_types ex_has ex_roots nat ex_handler atof 20 no_errors LAsync short55 "" (VMap []) 0 (Ok (reply55t 1 17))
  /\ text_responds obj ex_types ex_has ex_roots nat ex_handler atof 20 no_errors LAsync long55 "" (VMap []) 0 (Ok (reply55t 6 3)).
Proof.
  split; [exact relaid55|]. split.
  - eexists _, _. split; [vm_compute; reflexivity|]. split; [vm_compute; reflexivity|]. split; [intros p [X|[]]; discriminate X|]. apply (responds_iff obj ex_ans nat ex_handler ex_handler_alone); vm_compute; reflexivity.
  - eexists _, _. split; [vm_compute; reflexivity|]. split; [vm_compute; reflexivity|]. split; [intros p [X|[]]; discriminate X|]. apply (responds_iff obj ex_ans nat ex_handler ex_handler_alone); vm_compute; reflexivity.
Qed.

(** ** What is not only layout for this parser *)
(** Nothing between two selections, and blanks after a sigil: the same tokens, by the specification; one text of each pair is a request, the other is not. *)
Theorem C55_separators_refuted : ParseProps.accepted (chars "{a{b}c}") = false /\ ParseProps.accepted (chars "{a{b} c}") = true
  /\ ParseProps.accepted (chars "{a@ b}") = false /\ ParseProps.accepted (chars "{a@b}") = true.
Proof. vm_compute. auto. Qed.
(** The layout of a block string is part of its value (no indentation is removed), although its lines are only indented differently. *)
Definition block_text (n : nat) : text := chars "{a(b:" ++ q3 ++ nl n ++ chars "x" ++ nl n ++ chars "y" ++ nl n ++ q3 ++ chars ")}".
Theorem C55_block_indentation_refuted : forall atof, strings_of atof (block_text 0) <> None /\ strings_of atof (block_text 0) <> strings_of atof (block_text 2).
Proof. intros atof. split; vm_compute; discriminate. Qed.
