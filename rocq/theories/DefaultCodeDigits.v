(** The six digits that the generator writes for a double (proofs for C61, third part). *)
From Coq Require Import ZArith NArith Arith Ascii String List Bool Lia Decimal DecimalString DecimalN SpecFloat.
From Verif Require Import Cpp ParseSpec Value RequestTextModel DefaultCodeModel DefaultCodeProofs.
Import ListNotations.
Local Open Scope string_scope.
Local Open Scope list_scope.

(** ** What digits mean *)
Definition digit (c : ascii) : N := (N_of_ascii c - 48)%N.
Fixpoint val (acc : N) (t : text) : N := match t with [] => acc | c :: r => val (10 * acc + digit c) r end.
Lemma val_app a b : forall acc, val acc (a ++ b) = val (val acc a) b.
Proof. induction a as [|c a IH]; intros acc; [reflexivity|]. cbn. apply IH. Qed.
Lemma val_acc t : forall acc, val acc t = (acc * 10 ^ N.of_nat (List.length t) + val 0 t)%N.
Proof.
  induction t as [|c t IH]; intros acc; [cbn; lia|]. cbn [val List.length]. rewrite IH, (IH (10 * 0 + digit c)%N), Nat2N.inj_succ, N.pow_succ_r'. lia.
Qed.
Lemma digit_9 c : is_digit c = true -> (digit c < 10)%N.
Proof. intros H. destruct c as [[] [] [] [] [] [] [] []]; vm_compute in H; try discriminate H; vm_compute; reflexivity. Qed.
Lemma val_bound t : forallb is_digit t = true -> (val 0 t < 10 ^ N.of_nat (List.length t))%N.
Proof.
  induction t as [|c t IH]; intros H; [cbn; lia|]. simpl in H. apply andb_true_iff in H as [Hc Ht]. specialize (IH Ht). cbn [val List.length]. rewrite val_acc, Nat2N.inj_succ, N.pow_succ_r'.
  pose proof (digit_9 c Hc). nia.
Qed.
Lemma val_zeros k : forall acc, val acc (repeat "0"%char k) = (acc * 10 ^ N.of_nat k)%N.
Proof. induction k as [|k IH]; intros acc; [cbn; lia|]. cbn [repeat val]. rewrite IH, Nat2N.inj_succ, N.pow_succ_r'. change (digit "0") with 0%N. lia. Qed.

Ltac digit_value := apply f_equal2; [|reflexivity]; match goal with |- context [digit ?c] => let d := eval vm_compute in (digit c) in change (digit c) with d end; lia.
Lemma uint_val t : forallb is_digit t = true -> exists u, NilEmpty.uint_of_string (string_of_list_ascii t) = Some u /\
  (forall p, N.pos (Pos.of_uint_acc u p) = val (N.pos p) t) /\ N.of_uint u = val 0 t.
Proof.
  induction t as [|c t IH]; intros H; [exists Nil; repeat split|]. simpl in H. apply andb_true_iff in H as [Hc Ht]. destruct (IH Ht) as (u & E & A & V).
  cbn [string_of_list_ascii NilEmpty.uint_of_string]. rewrite E.
  destruct c as [[] [] [] [] [] [] [] []]; vm_compute in Hc; try discriminate Hc; (eexists; split; [reflexivity|]); (split; [intros p; cbn [Pos.of_uint_acc val]; rewrite A; digit_value|]);
    unfold N.of_uint; cbn [Pos.of_uint val]; first [exact V|rewrite A; digit_value].
Qed.
Lemma decimal_val t : forallb is_digit t = true -> decimal t = val 0 t.
Proof. intros H. destruct (uint_val t H) as (u & E & _ & V). unfold decimal. rewrite E. exact V. Qed.
Lemma val_digits n : val 0 (digits_of n) = n.
Proof.
  rewrite <- decimal_val by apply digits_digits. unfold decimal, digits_of. rewrite string_of_list_ascii_of_string, NilEmpty.usu. apply DecimalN.Unsigned.of_to.
Qed.
Lemma digits_length n : (0 < n)%N -> exists k, List.length (digits_of n) = S k /\ (10 ^ N.of_nat k <= n < 10 ^ N.of_nat (S k))%N.
Proof.
  intros P. pose proof (number_digits n) as Q. pose proof (digits_digits n) as D. pose proof (val_digits n) as V. destruct (digits_of n) as [|c r]; [cbn in V; lia|].
  exists (List.length r). split; [reflexivity|]. pose proof (val_bound _ D) as B. rewrite V in B. split; [|exact B].
  simpl in D. apply andb_true_iff in D as [Dc Dr]. cbn [val] in V. rewrite val_acc in V.
  assert (Z : (1 <= digit c \/ n = 0)%N).
  { destruct r as [|d r]; [cbn in V; lia|]. destruct (Ascii.ascii_dec c "0") as [->|N]; [discriminate Q|]. left.
    destruct c as [[] [] [] [] [] [] [] []]; vm_compute in Dc; try discriminate Dc; try (exfalso; apply N; reflexivity); vm_compute; discriminate. }
  nia.
Qed.

(** ** The exponent and the digits *)
Lemma pow10_pos z : (0 < pow10 z)%N.
Proof. unfold pow10. assert (10 ^ Z.to_N z <> 0)%N by (apply N.pow_nonzero; lia). lia. Qed.
Lemma pow10_neg z : (z <= 0)%Z -> pow10 z = 1%N.
Proof. intros H. unfold pow10. destruct z; [reflexivity|lia|reflexivity]. Qed.
Lemma pow10_add a b : (0 <= a)%Z -> (0 <= b)%Z -> pow10 (a + b) = (pow10 a * pow10 b)%N.
Proof. intros A B. unfold pow10. rewrite Z2N.inj_add by lia. apply N.pow_add_r. Qed.
Lemma pow10_of_nat k : pow10 (Z.of_nat k) = (10 ^ N.of_nat k)%N.
Proof. unfold pow10. now rewrite <- nat_N_Z, N2Z.id. Qed.
Lemma pow10_swap a b : (pow10 (a + b) * pow10 (- a) * pow10 (- b) = pow10 a * pow10 b * pow10 (- (a + b)))%N.
Proof.
  destruct (Z.le_gt_cases 0 a) as [A|A], (Z.le_gt_cases 0 b) as [B|B].
  - rewrite (pow10_neg (- a)), (pow10_neg (- b)), (pow10_neg (- (a + b))), pow10_add by lia. lia.
  - rewrite (pow10_neg (- a)), (pow10_neg b) by lia. destruct (Z.le_gt_cases 0 (a + b)) as [C|C].
    + rewrite (pow10_neg (- (a + b))) by lia. replace a with ((a + b) + - b)%Z at 2 by lia. rewrite (pow10_add (a + b) (- b)) by lia. lia.
    + rewrite (pow10_neg (a + b)) by lia. replace (- b)%Z with (a + - (a + b))%Z by lia. rewrite (pow10_add a (- (a + b))) by lia. lia.
  - rewrite (pow10_neg a), (pow10_neg (- b)) by lia. destruct (Z.le_gt_cases 0 (a + b)) as [C|C].
    + rewrite (pow10_neg (- (a + b))) by lia. replace b with ((a + b) + - a)%Z at 2 by lia. rewrite (pow10_add (a + b) (- a)) by lia. lia.
    + rewrite (pow10_neg (a + b)) by lia. replace (- a)%Z with (b + - (a + b))%Z by lia. rewrite (pow10_add b (- (a + b))) by lia. lia.
  - rewrite (pow10_neg a), (pow10_neg b), (pow10_neg (a + b)) by lia. replace (- (a + b))%Z with (- a + - b)%Z by lia. rewrite pow10_add by lia. lia.
Qed.

Lemma leading_spec den : forall fuel num k, (den <= num * 10 ^ N.of_nat fuel)%N ->
  exists j, leading fuel num den k = (k + Z.of_nat j)%Z /\ (den <= num * 10 ^ N.of_nat j)%N /\ (j = O \/ exists i, j = S i /\ num * 10 ^ N.of_nat i < den)%N.
Proof.
  induction fuel as [|fuel IH]; intros num k H; cbn [leading].
  - exists O. split; [lia|]. split; [exact H|now left].
  - destruct (N.leb_spec den num) as [L|L].
    + exists O. split; [lia|]. split; [cbn; lia|now left].
    + rewrite Nat2N.inj_succ, N.pow_succ_r' in H. destruct (IH (10 * num)%N (k + 1)%Z) as (j & E & B & C); [lia|]. exists (S j). split; [rewrite E; lia|].
      split; [rewrite Nat2N.inj_succ, N.pow_succ_r'; lia|]. right. exists j. split; [reflexivity|]. destruct C as [->|(i & -> & C)]; [cbn; lia|]. rewrite Nat2N.inj_succ, N.pow_succ_r'. lia.
Qed.
Lemma exponent_spec num den : (0 < num)%N -> (0 < den)%N -> (den <= num * 10 ^ 400)%N ->
  (den * pow10 (exponent num den) <= num * pow10 (- exponent num den))%N /\ (num * pow10 (- (exponent num den + 1)) < den * pow10 (exponent num den + 1))%N.
Proof.
  intros Pn Pd H. unfold exponent. destruct (N.leb_spec den num) as [L|L].
  - assert (Pq : (0 < num / den)%N) by (apply N.div_str_pos; lia). destruct (digits_length _ Pq) as (k & -> & A & B).
    replace (Z.of_nat (S k) - 1)%Z with (Z.of_nat k) by lia. rewrite (pow10_neg (- Z.of_nat k)), (pow10_neg (- (Z.of_nat k + 1))) by lia.
    replace (Z.of_nat k + 1)%Z with (Z.of_nat (S k)) by lia. rewrite !pow10_of_nat. pose proof (N.div_mod' num den). pose proof (N.mod_lt num den). nia.
  - destruct (leading_spec den 400 num 0%Z H) as (j & -> & B & C). rewrite Z.add_0_l. destruct C as [->|(i & -> & C)]; [cbn in B; lia|].
    rewrite (pow10_neg (- Z.of_nat (S i))), (pow10_neg (- Z.of_nat (S i) + 1)) by lia. rewrite Z.opp_involutive.
    replace (- (- Z.of_nat (S i) + 1))%Z with (Z.of_nat i) by lia. rewrite !pow10_of_nat. lia.
Qed.

(** The number num/den is at most half a unit from q * 10^k. *)
Definition rounds_to (num den q : N) (k : Z) : Prop :=
  (2 * Z.abs (Z.of_N (num * pow10 (- k)) - Z.of_N (q * (den * pow10 k))) <= Z.of_N (den * pow10 k))%Z.
(** A power of ten is only used for what is close below it (what is further below has a digit more). *)
Definition close_below (num den q : N) (k : Z) : Prop :=
  q = 100000%N -> (20 * (Z.of_N (q * (den * pow10 k)) - Z.of_N (num * pow10 (- k))) <= Z.of_N (den * pow10 k))%Z.
Lemma nearest_spec num den : (0 < den)%N -> (2 * Z.abs (Z.of_N num - Z.of_N (nearest num den * den)) <= Z.of_N den)%Z.
Proof.
  intros P. unfold nearest. pose proof (N.div_eucl_spec num den) as S. assert (R : (snd (N.div_eucl num den) < den)%N) by (change (num mod den < den)%N; apply N.mod_lt; lia).
  destruct (N.div_eucl num den) as [q r]. cbn [snd] in R. subst num.
  destruct (N.compare_spec (2 * r) den) as [E|E|E]; [destruct (N.even q)| |]; nia.
Qed.
Lemma six_digits_spec num den : (0 < num)%N -> (0 < den)%N -> (den <= num * 10 ^ 400)%N ->
  exists q x, six_digits num den = (q, x) /\ (100000 <= q < 1000000)%N /\ rounds_to num den q (x - 5) /\ close_below num den q (x - 5).
Proof.
  intros Pn Pd H. destruct (exponent_spec num den Pn Pd H) as [A B]. unfold six_digits. set (x := exponent num den) in *. clearbody x.
  set (q := nearest _ _). pose proof (nearest_spec (num * pow10 (5 - x)) (den * pow10 (x - 5))) as S. fold q in S.
  assert (P5 : (0 < den * pow10 (x - 5))%N) by (pose proof (pow10_pos (x - 5)); nia). specialize (S P5). clearbody q.
  assert (LA : (100000 * (den * pow10 (x - 5)) <= num * pow10 (5 - x))%N).
  { pose proof (pow10_swap x (-5)) as W. change (pow10 (- -5)) with 100000%N in W. change (pow10 (-5)) with 1%N in W. replace (x + -5)%Z with (x - 5)%Z in W by lia. replace (- (x - 5))%Z with (5 - x)%Z in W by lia.
    pose proof (pow10_pos (- x)). pose proof (pow10_pos (5 - x)). apply (N.mul_le_mono_pos_r _ _ (pow10 (- x))); [lia|].
    replace (100000 * (den * pow10 (x - 5)) * pow10 (- x))%N with (den * (pow10 (x - 5) * pow10 (- x) * 100000))%N by lia. rewrite W. nia. }
  assert (LB : (num * pow10 (5 - x) < 1000000 * (den * pow10 (x - 5)))%N).
  { pose proof (pow10_swap (x + 1) (-6)) as W. change (pow10 (- -6)) with 1000000%N in W. change (pow10 (-6)) with 1%N in W. replace (x + 1 + -6)%Z with (x - 5)%Z in W by lia. replace (- (x - 5))%Z with (5 - x)%Z in W by lia.
    pose proof (pow10_pos (- (x + 1))). pose proof (pow10_pos (5 - x)). apply (N.mul_lt_mono_pos_r (pow10 (- (x + 1)))); [lia|].
    replace (1000000 * (den * pow10 (x - 5)) * pow10 (- (x + 1)))%N with (den * (pow10 (x - 5) * pow10 (- (x + 1)) * 1000000))%N by lia. rewrite W. nia. }
  assert (Q : (100000 <= q <= 1000000)%N) by (set (a := (num * pow10 (5 - x))%N) in *; set (b := (den * pow10 (x - 5))%N) in *; clearbody a b; nia).
  assert (R : rounds_to num den q (x - 5)) by (unfold rounds_to; replace (- (x - 5))%Z with (5 - x)%Z by lia; exact S).
  destruct (N.leb_spec 1000000 q) as [L|L].
  - assert (q = 1000000%N) by lia. subst q. change (1000000 / 10)%N with 100000%N. exists 100000%N, (x + 1)%Z. split; [reflexivity|]. split; [lia|].
    unfold rounds_to, close_below in *. replace (x + 1 - 5)%Z with (x - 5 + 1)%Z by lia. set (k := (x - 5)%Z) in *. clearbody k. clear -R Pd. destruct (Z.le_gt_cases 0 k) as [K|K].
    + rewrite (pow10_neg (- k)) in R by lia. rewrite (pow10_neg (- (k + 1))), pow10_add by lia. change (pow10 1) with 10%N. pose proof (pow10_pos k). split; [nia|intros _; nia].
    + rewrite (pow10_neg k) in R by lia. rewrite (pow10_neg (k + 1)) by lia. replace (- k)%Z with (- (k + 1) + 1)%Z in R by lia. rewrite pow10_add in R by lia. change (pow10 1) with 10%N in R. split; [nia|intros _; nia].
  - exists q, x. split; [reflexivity|]. split; [lia|]. split; [exact R|]. intros ->. replace (- (x - 5))%Z with (5 - x)%Z by lia. lia.
Qed.

(** ** The text and what it is read as *)
Lemma without_zeros_spec t : exists z, t = repeat "0"%char z ++ without_zeros t.
Proof.
  induction t as [|c t [z IH]]; [exists O; reflexivity|]. destruct (Ascii.ascii_dec c "0") as [->|N]; [exists (S z); cbn; now rewrite <- IH|].
  exists O. destruct c as [[] [] [] [] [] [] [] []]; try reflexivity. exfalso. apply N. reflexivity.
Qed.
Definition point (f : text) : text := match f with [] => [] | _ => "."%char :: f end.
Lemma fraction_spec t : forallb is_digit t = true -> exists f z, t = f ++ repeat "0"%char z /\ fraction t = point f /\ forallb is_digit f = true.
Proof.
  intros H. destruct (without_zeros_spec (rev t)) as [z E]. exists (rev (without_zeros (rev t))), z. split; [|split].
  - rewrite <- (rev_involutive t) at 1. rewrite E at 1. rewrite rev_app_distr. f_equal. clear. induction z as [|z IH]; [reflexivity|]. cbn [repeat rev]. rewrite IH. clear. induction z as [|z IH]; [reflexivity|]. cbn. now rewrite IH.
  - unfold fraction. destruct (without_zeros (rev t)) as [|c r]; [reflexivity|]. unfold point. destruct (rev (c :: r)) eqn:R; [|reflexivity]. apply (f_equal (@List.length ascii)) in R. rewrite rev_length in R. discriminate R.
  - apply digits_rev, digits_without, digits_rev, H.
Qed.
Lemma literal_value i f : i <> [] -> forallb is_digit i = true -> forallb is_digit f = true ->
  double_literal (i ++ point f) = Some (nearest_double (val 0 (i ++ f)) (- Z.of_nat (List.length f))) /\
  forall x, double_literal (i ++ point f ++ show_exponent x) = Some (nearest_double (val 0 (i ++ f)) (x - Z.of_nat (List.length f))).
Proof.
  intros Ni Hi Hf. rewrite <- (decimal_val (i ++ f)) by now apply digits_app.
  assert (R : forall ex, match ex with c :: _ => is_digit c = false /\ c <> "."%char | [] => True end -> span is_digit (i ++ point f ++ ex) = (i, point f ++ ex) /\
    match point f ++ ex with "."%char :: r' => span is_digit r' | _ => ([], point f ++ ex) end = (f, ex)).
  { intros ex E. split.
    - apply span_digits; [exact Hi|]. destruct f as [|c f]; [destruct ex as [|d ex]; [exact I|apply E]|reflexivity].
    - destruct f as [|c f]; cbn [point app].
      + destruct ex as [|d ex]; [reflexivity|]. destruct E as [_ E]. destruct d as [[] [] [] [] [] [] [] []]; try reflexivity. exfalso. apply E. reflexivity.
      + change (c :: f ++ ex) with ((c :: f) ++ ex). apply span_digits; [exact Hf|]. destruct ex; [exact I|apply E]. }
  split.
  - destruct (R [] I) as [R1 R2]. rewrite app_nil_r in *. unfold double_literal. rewrite R1, R2. destruct i; [congruence|reflexivity].
  - intros x. unfold show_exponent. set (d := digits_of (Z.abs_N x)). set (e := if Nat.ltb (List.length d) 2 then "0"%char :: d else d).
    assert (D : forallb is_digit d = true) by apply digits_digits. assert (De : forallb is_digit e = true) by (unfold e; destruct (Nat.ltb _ 2); [exact D|exact D]).
    assert (Ne : e <> []) by (unfold e; destruct (Nat.ltb _ 2); [discriminate|apply digits_some]).
    assert (Ve : decimal e = Z.abs_N x) by (rewrite (decimal_val e De); unfold e; destruct (Nat.ltb _ 2); [change (val 0 d = Z.abs_N x)|]; apply val_digits).
    clearbody e. destruct (R ("e"%char :: (if (x <? 0)%Z then "-"%char else "+"%char) :: e)) as [R1 R2]; [split; [reflexivity|discriminate]|].
    assert (X : span is_digit e = (e, [])) by (rewrite <- (app_nil_r e) at 1; now apply span_digits).
    unfold double_literal. rewrite R1, R2. destruct i; [congruence|]. destruct (Z.ltb_spec x 0) as [L|L]; cbv beta iota; rewrite X; destruct e; try congruence; rewrite Ve; do 2 f_equal; lia.
Qed.
Definition written_as (q : N) (x : Z) : text :=
  let d := digits_of q in
  if (x <? -4)%Z || (6 <=? x)%Z then firstn 1 d ++ fraction (skipn 1 d) ++ show_exponent x
  else if (x <? 0)%Z then "0"%char :: fraction (repeat "0"%char (Z.to_nat (- x - 1)) ++ d)
  else firstn (S (Z.to_nat x)) d ++ fraction (skipn (S (Z.to_nat x)) d).
Lemma written_value q x : (100000 <= q < 1000000)%N -> exists n a, double_literal (written_as q x) = Some (nearest_double n (x - 5 + Z.of_nat a)) /\ q = (n * 10 ^ N.of_nat a)%N.
Proof.
  intros Q. unfold written_as. pose proof (val_digits q) as V. pose proof (digits_digits q) as D. destruct (digits_length q ltac:(lia)) as (k & L & B1 & B2).
  assert (k = 5%nat).
  { destruct (Nat.lt_trichotomy k 5) as [C|[C|C]]; [exfalso| exact C|exfalso].
    - assert (10 ^ N.of_nat (S k) <= 10 ^ 5)%N by (apply N.pow_le_mono_r; lia). change (10 ^ 5)%N with 100000%N in *. lia.
    - assert (10 ^ 6 <= 10 ^ N.of_nat k)%N by (apply N.pow_le_mono_r; lia). change (10 ^ 6)%N with 1000000%N in *. lia. }
  subst k. set (d := digits_of q) in *. clearbody d.
  assert (Some1 : forall n, firstn (S n) d <> []) by (intros n E; destruct d; [discriminate L|discriminate E]).
  destruct ((x <? -4)%Z || (6 <=? x)%Z) eqn:Big.
  - destruct (fraction_spec (skipn 1 d) (digits_skip 1 d D)) as (f & z & E & -> & Hf). destruct (literal_value (firstn 1 d) f (Some1 O) (digits_first 1 d D) Hf) as [_ ->].
    exists (val 0 (firstn 1 d ++ f)), z. assert (Lz : (List.length f + z = 5)%nat).
    { apply (f_equal (@List.length ascii)) in E. rewrite app_length, repeat_length, skipn_length, L in E. lia. }
    split; [do 2 f_equal; lia|]. rewrite <- val_zeros, <- val_app, <- app_assoc, <- E, firstn_skipn. auto.
  - apply orb_false_iff in Big as [G1 G2]. apply Z.ltb_ge in G1. apply Z.leb_gt in G2. destruct (Z.ltb_spec x 0) as [X|X].
    + set (z0 := Z.to_nat (- x - 1)). assert (Dz : forallb is_digit (repeat "0"%char z0 ++ d) = true) by (apply digits_app; [apply digits_zeros|exact D]).
      destruct (fraction_spec _ Dz) as (f & z & E & -> & Hf). destruct (literal_value ["0"%char] f ltac:(discriminate) eq_refl Hf) as [F _]. change ("0"%char :: point f) with (["0"%char] ++ point f). rewrite F.
      exists (val 0 (["0"%char] ++ f)), z. assert (Lz : (List.length f + z = z0 + 6)%nat).
      { apply (f_equal (@List.length ascii)) in E. rewrite !app_length, !repeat_length, L in E. lia. }
      split; [do 2 f_equal; lia|]. rewrite <- val_zeros, <- val_app, <- app_assoc, <- E. rewrite val_app. change (val 0 ["0"%char]) with 0%N. rewrite val_app, val_zeros. cbn [N.mul]. auto.
    + set (i := Z.to_nat x). destruct (fraction_spec (skipn (S i) d) (digits_skip (S i) d D)) as (f & z & E & -> & Hf).
      destruct (literal_value (firstn (S i) d) f (Some1 i) (digits_first (S i) d D) Hf) as [-> _].
      exists (val 0 (firstn (S i) d ++ f)), z. assert (Lz : (List.length f + z = 6 - S i)%nat).
      { apply (f_equal (@List.length ascii)) in E. rewrite app_length, repeat_length, skipn_length, L in E. lia. }
      split; [do 2 f_equal; lia|]. rewrite <- val_zeros, <- val_app, <- app_assoc, <- E, firstn_skipn. auto.
Qed.
