(** C49: how long parsing takes, in match attempts. *)
From Coq Require Import String Ascii NArith ZArith Bool List Lia.
From Verif Require Import Cpp Value Ast.
From Verif Require Export PegCost ParseProps.
Import ListNotations.
Local Open Scope list_scope.

(** A list type nested [n] deep around [I]. *)
Fixpoint nested_type (n : nat) : tref := match n with O => TNamed "I" | S n => TListOf (nested_type n) end.
Fixpoint nested (n : nat) : text := match n with O => chars "I" | S n => "["%char :: nested n ++ ["]"%char] end.

Lemma nested_spelled n : type_ref (nested_type n) (nested n).
Proof.
  induction n as [|n IH]; [apply type_named; apply letter_name; right; left; unfold between; cbn; lia|].
  apply (type_list [] (nested_type n) (nested n) []); [constructor|exact IH|constructor].
Qed.
Lemma nested_length n : length (nested n) = 2 * n + 1.
Proof. induction n as [|n IH]; [reflexivity|]. cbn [nested length]. rewrite app_length. cbn. lia. Qed.

Section Attempts.
Notation sel := executable_selector.
Notation M := (matches grammar sel).
Notation tries := (tries sel).

Lemma tries_positive r o s k : tries r o s k -> 1 <= k.
Proof. intro H. destruct H; lia. Qed.
Lemma tries_ref n o s k : tries (Ref n) o s k -> exists j, tries (grammar n) o s j /\ j < k.
Proof. intro H. inversion H; subst. eexists. split; [eassumption|lia]. Qed.
Lemma tries_must m a o s k : tries (Must m a) o s k -> exists j, tries a o s j /\ j < k.
Proof. intro H. inversion H; subst. eexists. split; [eassumption|lia]. Qed.

Lemma nonnull_fails n o rest : ends rest -> follow (Ascii.eqb "!"%char) rest -> M (Ref R_nonnull_type) o (nested n ++ rest) Fail.
Proof.
  intros He Hf. destruct (acc_type sel exec_keeps _ _ (nested_spelled n) o rest He) as [A _].
  destruct A as (x & A & _); [destruct n; discriminate|]. apply m_ref_fail.
  change Fail with (prepend [x] (@Fail rule)). eapply m_seq; [exact A|].
  apply (ignored_then_fails sel _ (Ascii.eqb "!"%char)); [by_look|by_look|exact Hf].
Qed.

Lemma nested_head n : exists c r, nested n = c :: r /\ (c = "["%char \/ c = "I"%char).
Proof. destruct n; cbn; eauto. Qed.

Lemma type_tries n : forall o rest k, ends rest -> follow (Ascii.eqb "!"%char) rest ->
  tries g_type_name_content o (nested n ++ rest) k -> 2 ^ n <= k.
Proof.
  induction n as [|n IH]; intros o rest k He Hf H; [apply tries_positive in H; exact H|].
  assert (forall k, tries (Ref R_list_type </> Ref R_named_type) o (nested (S n) ++ rest) k -> 2 ^ n <= k) as Inner.
  { clear k H. intros k H. apply tries_first_sor in H as (k1 & H & L1). apply tries_ref in H as (k2 & H & L2).
    cbn [nested app] in H. rewrite <- app_assoc in H. cbn [app] in H.
    eapply tries_then in H as (k3 & H & L3); [|apply (acc_one sel "["%char ["["%char] o (nested n ++ "]"%char :: rest)); left; reflexivity].
    apply tries_must in H as (k4 & H & L4).
    destruct (nested_head n) as (c & r & E & Hc).
    eapply tries_then in H as (k5 & H & L5).
    2:{ rewrite E. cbn [app]. destruct Hc as [-> | ->]; apply (passes_char sel); by_look. }
    apply tries_first_seq in H as (k6 & H & L6).
    change (c :: r ++ "]"%char :: rest) with ((c :: r) ++ "]"%char :: rest) in H. rewrite <- E in H.
    apply IH in H; [lia|reflexivity|]. apply follow_now; reflexivity. }
  apply tries_both in H as (i & j & H1 & H2 & Hl); [|apply nonnull_fails; assumption].
  apply Inner in H2. apply tries_ref in H1 as (i1 & H1 & L1). apply tries_first_seq in H1 as (i2 & H1 & L2). apply Inner in H1.
  cbn [Nat.pow]. lia.
Qed.

(** A small operation with a variable of that type. *)
Definition nested_query (n : nat) : text := chars "query($a:" ++ nested n ++ chars "){b}".

Lemma query_tries n k : tries g_executable_document 0 (nested_query n) k -> 2 ^ n <= k.
Proof.
  intro H. unfold nested_query in H. apply tries_must in H as (k1 & H & L1).
  eapply tries_then in H as (k2 & H & L2); [|apply m_bof].
  eapply tries_then in H as (k3 & H & L3); [|apply (passes_char sel); by_look].
  eapply tries_then in H as (k4 & H & L4); [|apply (passes_char sel); by_look].
  apply tries_first_seq in H as (k5 & H & L5). apply tries_first_seq in H as (k6 & H & L6).
  apply tries_both in H as (i & j & _ & H & L7); [|apply fails_char; by_look].
  apply tries_ref in H as (k7 & H & L8). apply tries_first_sor in H as (k8 & H & L9).
  eapply tries_then in H as (k9 & H & L10); [|apply (acc_operation_type 0 "query" (chars "($a:" ++ nested n ++ chars "){b}")); [left; reflexivity|reflexivity]].
  apply tries_must in H as (k10 & H & L11).
  eapply tries_then in H as (k11 & H & L12); [|apply (passes_char sel); by_look].
  apply tries_first_seq in H as (k12 & H & L13). apply tries_first_sor in H as (k13 & H & L14).
  eapply tries_then in H as (k14 & H & L15); [|apply (passes_char sel); by_look].
  eapply tries_then in H as (k15 & H & L16); [|apply (acc_one sel "("%char ["("%char] _ (chars "$a:" ++ nested n ++ chars "){b}")); left; reflexivity].
  apply tries_must in H as (k16 & H & L17).
  eapply tries_then in H as (k17 & H & L18); [|apply (passes_char sel); by_look].
  apply tries_first_seq in H as (k18 & H & L19). apply tries_first_seq in H as (k19 & H & L20). apply tries_ref in H as (k20 & H & L21).
  eapply tries_then in H as (k21 & H & L22).
  2:{ apply (acc_ref sel R_variable_name _ (chars "$a") (chars ":" ++ nested n ++ chars "){b}") []); [|reflexivity].
      apply (acc_seq sel _ _ _ ["$"%char] (chars "a") _ [] []); [apply acc_one; left; reflexivity|]. apply acc_must.
      apply acc_name; [apply letter_name; left; unfold between; cbn; lia|reflexivity]. }
  apply tries_must in H as (k22 & H & L23).
  eapply tries_then in H as (k23 & H & L24); [|apply (passes_char sel); by_look].
  eapply tries_then in H as (k24 & H & L25); [|apply (acc_one sel ":"%char [":"%char] _ (nested n ++ chars "){b}")); left; reflexivity].
  destruct (nested_head n) as (c & r & E & Hc).
  eapply tries_then in H as (k25 & H & L26).
  2:{ rewrite E. cbn [app]. destruct Hc as [-> | ->]; apply (passes_char sel); by_look. }
  apply tries_first_seq in H as (k26 & H & L27). apply tries_must in H as (k27 & H & L28).
  change (c :: r ++ chars "){b}") with ((c :: r) ++ chars "){b}") in H. rewrite <- E in H.
  apply type_tries in H; [lia|reflexivity|apply follow_now; reflexivity].
Qed.
End Attempts.

(** Every parse makes a definite number of attempts. *)
Theorem C49_attempts_definite text : exists k, forall j, tries executable_selector g_executable_document 0 text j <-> j = k.
Proof.
  destruct (parse_with_total executable_selector g_executable_document text) as (x & _ & H); [left; reflexivity|].
  apply tries_exists in H as (k & H). exists k. intro j. split; [|intros ->; exact H]. intro J. eapply tries_det; eassumption.
Qed.

(** The parsing time is not bounded by any polynomial in the length of the document: a valid query of length [2 n + 14]
    takes at least [2 ^ n] attempts. Each level of a list type is parsed once to see whether [!] follows, and again because
    it does not. *)
Theorem C49_polynomial_time_refuted n : length (nested_query n) = 2 * n + 14
  /\ (forall L atof, exists ds, document L atof ds (nested_query n))
  /\ (forall k, tries executable_selector g_executable_document 0 (nested_query n) k -> 2 ^ n <= k).
Proof.
  split; [unfold nested_query; rewrite !app_length, nested_length; cbn [length list_ascii_of_string]; lia|]. split; [|intro k; apply query_tries].
  intros L atof. eexists.
  assert (name "a" /\ name "b") as [Na Nb] by (split; apply letter_name; left; unfold between; cbn; lia).
  replace (nested_query n) with ([] ++ [] ++ (chars "query" ++ [] ++ ([] ++ "("%char :: [] ++ ("$"%char :: chars "a" ++ [] ++ ":"%char :: [] ++ nested n ++ []) ++ [] ++ [")"%char]) ++ [] ++ []
     ++ ("{"%char :: [] ++ ([] ++ chars "b" ++ [] ++ [] ++ []) ++ [] ++ ["}"%char])) ++ []).
  2:{ unfold nested_query. cbn. rewrite ?app_nil_r, <- ?app_assoc. reflexivity. }
  constructor; [left; reflexivity|constructor| |constructor; constructor].
  constructor. apply executable_operation. apply operation_long; [left; reflexivity|constructor| |constructor|constructor|].
  - apply optional_some; [constructor|]. constructor; [constructor| |constructor]. constructor.
    apply variable_typed with (ty := nested_type n); [exact Na|constructor|constructor|apply nested_spelled|constructor].
  - constructor; [constructor| |constructor]. constructor. apply selects_field; [constructor|exact Nb|constructor|constructor|constructor].
Qed.
