(** Reading one character: the decoder of the parser and the UTF-8 encoding agree on every source character. *)
From Verif Require Export ParseLex.
Local Open Scope list_scope.

Lemma peek_app u c n rest : peek_utf8 u = Some (c, n) -> peek_utf8 (u ++ rest) = Some (c, n).
Proof.
  unfold peek_utf8. destruct u as [|c0 s1]; [discriminate|]. cbn [app].
  destruct (N.eqb (N.land (byte c0) 128) 0); [auto|].
  destruct (N.eqb (N.land (byte c0) 224) 192); [destruct s1; [discriminate|auto]|].
  destruct (N.eqb (N.land (byte c0) 240) 224); [destruct s1 as [|? [|? ?]]; try discriminate; auto|].
  destruct (N.eqb (N.land (byte c0) 248) 240); [destruct s1 as [|? [|? [|? ?]]]; try discriminate; auto|discriminate].
Qed.

Definition codes : list N := map N.of_nat (seq 0 256).
(** All the code points up to FFFF. *)
Definition for_codes (f : N -> bool) : bool := forallb (fun h => forallb (fun l => f (h * 256 + l)%N) codes) codes.
Lemma for_codes_all f : for_codes f = true -> forall c, (c <= 65535)%N -> f c = true.
Proof.
  unfold for_codes. intros H c Hc. rewrite forallb_forall in H.
  assert (forall x, (x < 256)%N -> In x codes) as C.
  { intros x Hx. unfold codes. apply in_map_iff. exists (N.to_nat x). split; [apply N2Nat.id|]. apply in_seq. lia. }
  specialize (H (c / 256)%N). rewrite forallb_forall in H.
  rewrite (N.div_mod' c 256), N.mul_comm. apply H.
  - apply C. apply N.div_lt_upper_bound; lia.
  - apply C. apply N.mod_lt. lia.
Qed.

Definition encodes (c : N) : bool :=
  match peek_utf8 (utf8 c) with
  | Some (d, n) => N.eqb c d && Nat.eqb n (length (utf8 c))
  | None => N.leb 55296 c && N.leb c 57343
  end.
Lemma all_encode : for_codes encodes = true.
Proof. vm_compute. reflexivity. Qed.

Lemma peek_utf8_code c rest : (c <= 65535)%N -> ~ (55296 <= c <= 57343)%N ->
  peek_utf8 (utf8 c ++ rest) = Some (c, length (utf8 c)).
Proof.
  intros Hc Hs. apply peek_app. pose proof (for_codes_all _ all_encode c Hc) as H. unfold encodes in H.
  destruct (peek_utf8 (utf8 c)) as [[d n]|].
  - apply andb_true_iff in H as [H1 H2]. apply N.eqb_eq in H1. apply Nat.eqb_eq in H2. subst. reflexivity.
  - apply andb_true_iff in H as [H1 H2]. apply N.leb_le in H1. apply N.leb_le in H2. exfalso. apply Hs. auto.
Qed.

(** And back: what the decoder takes for a code point up to FFFF is the encoding of it. *)
Definition tails : list ascii := filter tail_byte all_ascii.
Definition text_eqb (a b : text) : bool := if list_eq_dec ascii_dec a b then true else false.
Definition decodes (u : text) : bool :=
  match peek_utf8 u with
  | Some (c, n) => N.leb 65536 c || (text_eqb (firstn n u) (utf8 c) && negb (N.leb 55296 c && N.leb c 57343))
  | None => true
  end.
Definition leads2 : list ascii := filter (fun c => N.eqb (N.land (byte c) 224) 192) all_ascii.
Definition leads3 : list ascii := filter (fun c => N.eqb (N.land (byte c) 240) 224) all_ascii.
Lemma all_decode1 : forallb (fun a => negb (N.eqb (N.land (byte a) 128) 0) || decodes [a]) all_ascii = true.
Proof. vm_compute. reflexivity. Qed.
Lemma all_decode2 : forallb (fun a => forallb (fun b => decodes [a; b]) tails) leads2 = true.
Proof. vm_compute. reflexivity. Qed.
Lemma all_decode3 : forallb (fun a => forallb (fun b => forallb (fun c => decodes [a; b; c]) tails) tails) leads3 = true.
Proof. vm_compute. reflexivity. Qed.

Lemma decodes_spec u c : decodes u = true -> peek_utf8 u = Some (c, length u) -> (c <= 65535)%N ->
  u = utf8 c /\ ~ (55296 <= c <= 57343)%N.
Proof.
  unfold decodes. intros H E Hc. rewrite E, firstn_all in H. apply orb_true_iff in H as [H|H].
  - apply N.leb_le in H. lia.
  - apply andb_true_iff in H as [H1 H2]. unfold text_eqb in H1. destruct (list_eq_dec ascii_dec u (utf8 c)); [|discriminate].
    split; [assumption|]. intros [A B]. apply N.leb_le in A. apply N.leb_le in B. rewrite A, B in H2. discriminate.
Qed.

Lemma tails_in c : tail_byte c = true -> In c tails.
Proof. intro H. apply filter_In. split; [apply all_ascii_complete|exact H]. Qed.

Lemma peek_decode s c n : peek_utf8 s = Some (c, n) -> (c <= 65535)%N ->
  exists r, s = utf8 c ++ r /\ n = length (utf8 c) /\ ~ (55296 <= c <= 57343)%N.
Proof.
  intros H Hc. destruct s as [|a s1]; [discriminate|].
  assert (forall u r, a :: s1 = u ++ r -> n = length u -> decodes u = true -> peek_utf8 u = Some (c, n) ->
            exists r, a :: s1 = utf8 c ++ r /\ n = length (utf8 c) /\ ~ (55296 <= c <= 57343)%N) as Done.
  { intros u r E -> D P. destruct (decodes_spec u c D P Hc) as [-> Hs]. exists r. auto. }
  pose proof H as P. unfold peek_utf8 in H.
  destruct (N.eqb (N.land (byte a) 128) 0) eqn:E1.
  { injection H as <- <-. pose proof all_decode1 as A. rewrite forallb_forall in A.
    specialize (A a (all_ascii_complete a)). rewrite E1 in A. cbn [negb orb] in A.
    apply (Done [a] s1); auto. unfold peek_utf8. rewrite E1. reflexivity. }
  destruct (N.eqb (N.land (byte a) 224) 192) eqn:E2.
  { destruct s1 as [|b s2]; [discriminate|]. destruct (tail_byte b) eqn:Tb; [|discriminate].
    pose proof all_decode2 as A. rewrite forallb_forall in A.
    assert (In a leads2) as La by (apply filter_In; split; [apply all_ascii_complete|exact E2]).
    specialize (A a La). rewrite forallb_forall in A. specialize (A b (tails_in _ Tb)).
    destruct (N.leb 128 _) eqn:E3; [|discriminate]. injection H as <- <-. apply (Done [a; b] s2); auto.
    unfold peek_utf8. rewrite E1, E2, Tb, E3. reflexivity. }
  destruct (N.eqb (N.land (byte a) 240) 224) eqn:E3.
  { destruct s1 as [|b [|d s2]]; try discriminate. destruct (tail_byte b && tail_byte d) eqn:T; [|discriminate].
    pose proof T as T'. apply andb_true_iff in T' as [Tb Td].
    pose proof all_decode3 as A. rewrite forallb_forall in A.
    assert (In a leads3) as La by (apply filter_In; split; [apply all_ascii_complete|exact E3]).
    specialize (A a La). rewrite forallb_forall in A. specialize (A b (tails_in _ Tb)).
    rewrite forallb_forall in A. specialize (A d (tails_in _ Td)).
    destruct (_ && _) eqn:E4 in H; [|discriminate]. injection H as <- <-. apply (Done [a; b; d] s2); auto.
    unfold peek_utf8. rewrite E1, E2, E3, T, E4. reflexivity. }
  destruct (N.eqb (N.land (byte a) 248) 240); [|discriminate].
  destruct s1 as [|b [|d [|e s2]]]; try discriminate. destruct (_ && _); [|discriminate].
  destruct (_ && _) eqn:E4; [|discriminate]. apply andb_true_iff in E4 as [E4 _]. apply N.leb_le in E4.
  injection H as <- <-. lia.
Qed.

Lemma utf8_range_code c rest : source_code c -> utf8_range 32 65535 (utf8 c ++ rest) = Some (length (utf8 c)).
Proof.
  intros [[H1 H2] H3]. unfold utf8_range. rewrite peek_utf8_code by assumption.
  apply N.leb_le in H1. apply N.leb_le in H2. rewrite H1, H2. reflexivity.
Qed.

Lemma utf8_range_decode s n : utf8_range 32 65535 s = Some n ->
  exists c r, s = utf8 c ++ r /\ n = length (utf8 c) /\ source_code c.
Proof.
  unfold utf8_range. destruct (peek_utf8 s) as [[c k]|] eqn:E; [|discriminate].
  destruct (_ && _) eqn:R; [|discriminate]. intros [= <-]. apply andb_true_iff in R as [R1 R2].
  apply N.leb_le in R1. apply N.leb_le in R2. destruct (peek_decode _ _ _ E R2) as (r & -> & -> & Hs).
  exists c, r. split; [reflexivity|]. split; [reflexivity|]. split; [lia|exact Hs].
Qed.

(** The first byte of an encoding: the character itself below 128, a byte above 127 otherwise. *)
Definition first_byte (c : N) : bool :=
  match utf8 c with
  | a :: _ => if N.ltb c 128 then N.eqb (byte a) c else N.leb 128 (byte a)
  | [] => false
  end.
Lemma all_first : for_codes first_byte = true.
Proof. vm_compute. reflexivity. Qed.

Lemma utf8_head c : (c <= 65535)%N -> exists a r, utf8 c = a :: r
  /\ ((c < 128)%N -> a = ascii_of_N c /\ r = []) /\ ((128 <= c)%N -> (128 <= byte a)%N).
Proof.
  intro Hc. pose proof (for_codes_all _ all_first c Hc) as H. unfold first_byte in H.
  destruct (utf8 c) as [|a r] eqn:E; [discriminate|]. exists a, r. split; [reflexivity|].
  destruct (N.ltb_spec c 128) as [Hl|Hl].
  - split; [|lia]. intros _. unfold utf8 in E. destruct (N.ltb_spec c 128); [|lia]. injection E as <- <-. auto.
  - split; [lia|]. intros _. apply N.leb_le. exact H.
Qed.
