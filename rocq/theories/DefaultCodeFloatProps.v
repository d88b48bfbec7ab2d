(** C61: what becomes of doubles. *)
From Coq Require Import ZArith NArith Arith Ascii String List Bool Lia SpecFloat.
From Verif Require Import Cpp ParseSpec Value RequestTextModel DefaultCodeModel DefaultCodeProofs DefaultCodeRun DefaultCodeDigits.
Import ListNotations.
Local Open Scope string_scope.
Local Open Scope list_scope.

Lemma written_from s w g f : show_float f = show_sign s ++ w -> is_numeral w -> double_literal w = Some g -> written_double f = if s then SFopp g else g.
Proof.
  intros E N G. pose proof (lex_word w (numeral_lexs w N)) as L.
  assert (LX : lex Between (show_float f) = Some ((if s then [Punct "-"] else []) ++ [Word w])).
  { rewrite E. destruct s; cbn [show_sign app]; [|exact L]. rewrite (lex_cons Between "-" w [Punct "-"] Between) by reflexivity. rewrite L. reflexivity. }
  unfold written_double. rewrite LX. destruct s; cbn [app float_value]; rewrite G; reflexivity.
Qed.

(** The numerator and the denominator of the absolute value of a finite double. *)
Definition numerator (m : positive) (e : Z) : N := (Npos m * 2 ^ Z.to_N e)%N.
Definition denominator (e : Z) : N := (2 ^ Z.to_N (- e))%N.

(** The double that the compiler reads is the one nearest to a decimal of six digits, q * 10^k, that is at most half a unit of its last digit away from the double of the schema.
    A power of ten is
    at most a twentieth of a unit above it, because what is further below has a digit more. (The text may have fewer digits: q * 10^k is n * 10^(k+a). The exponent of a double is
    at least -1074.) *)
Theorem C61_six_digits : forall s m e, (-1074 <= e)%Z -> exists q k n a,
  (100000 <= q < 1000000)%N /\
  (2 * Z.abs (Z.of_N (numerator m e * 10 ^ Z.to_N (- k)) - Z.of_N (q * (denominator e * 10 ^ Z.to_N k))) <= Z.of_N (denominator e * 10 ^ Z.to_N k))%Z /\
  (q = 100000%N -> 20 * (Z.of_N (q * (denominator e * 10 ^ Z.to_N k)) - Z.of_N (numerator m e * 10 ^ Z.to_N (- k))) <= Z.of_N (denominator e * 10 ^ Z.to_N k))%Z /\
  q = (n * 10 ^ N.of_nat a)%N /\
  written_double (S754_finite s m e) = (if s then SFopp (nearest_double n (k + Z.of_nat a)) else nearest_double n (k + Z.of_nat a)).
Proof.
  intros s m e H.
  assert (W : show_float (S754_finite s m e) = show_sign s ++ show_positive (numerator m e) (denominator e)).
  { unfold show_float, numerator, denominator. destruct (Z.leb_spec 0 e) as [L|L]; do 2 f_equal; [replace (Z.to_N (- e)) with 0%N by lia; reflexivity|replace (Z.to_N e) with 0%N by lia; cbn; lia]. }
  assert (Pn : (0 < numerator m e)%N) by (unfold numerator; assert (2 ^ Z.to_N e <> 0)%N by (apply N.pow_nonzero; lia); nia).
  assert (Pd : (0 < denominator e)%N) by (unfold denominator; assert (2 ^ Z.to_N (- e) <> 0)%N by (apply N.pow_nonzero; lia); lia).
  assert (B : (denominator e <= numerator m e * 10 ^ 400)%N).
  { apply N.le_trans with (2 ^ 1074)%N; [unfold denominator; apply N.pow_le_mono_r; lia|]. apply N.le_trans with (1 * 10 ^ 400)%N; [vm_compute; discriminate|]. apply N.mul_le_mono_r. lia. }
  destruct (six_digits_spec _ _ Pn Pd B) as (q & x & E & Q & R & C). destruct (written_value q x Q) as (n & a & G & A).
  exists q, (x - 5)%Z, n, a. split; [exact Q|]. split; [exact R|]. split; [exact C|]. split; [exact A|].
  apply (written_from s (written_as q x)); [| |exact G].
  - rewrite W. f_equal. unfold show_positive, written_as. now rewrite E.
  - pose proof (numeral_positive (numerator m e) (denominator e)) as N. unfold show_positive in N. rewrite E in N. exact N.
Qed.
