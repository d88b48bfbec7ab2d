(** nearest_double gives the double nearest to n * 10^e (proofs for C61, with Flocq). *)
From Coq Require Import ZArith NArith Reals Lia Lra Psatz SpecFloat.
From Flocq Require Import Core Relative BinarySingleNaN.
From Verif Require Import DefaultCodeModel DefaultCodeDigits.
Local Open Scope R_scope.

Definition ten : radix := Build_radix 10 eq_refl.
Lemma pow10_bpow z : (0 <= z)%Z -> IZR (Z.of_N (pow10 z)) = bpow ten z.
Proof. intros H. unfold pow10. rewrite N2Z.inj_pow, Z2N.id by lia. rewrite <- IZR_Zpower by lia. reflexivity. Qed.
Lemma bpow_pos10 z : 0 < bpow ten z.
Proof. apply bpow_gt_0. Qed.
Lemma pow10_quotient z : IZR (Z.of_N (pow10 z)) / IZR (Z.of_N (pow10 (- z))) = bpow ten z.
Proof.
  destruct (Z.le_gt_cases 0 z) as [H|H].
  - rewrite (pow10_neg (- z)) by lia. rewrite pow10_bpow by lia. change (Z.of_N 1) with 1%Z. field.
  - rewrite (pow10_neg z) by lia. rewrite (pow10_bpow (- z)) by lia. rewrite bpow_opp. change (Z.of_N 1) with 1%Z. field. apply Rgt_not_eq, bpow_gt_0.
Qed.

Lemma aux_equiv sx mx ex lx : SpecFloat.binary_round_aux 53 1024 sx mx ex lx = binary_round_aux 53 1024 mode_NE sx mx ex lx.
Proof.
  unfold SpecFloat.binary_round_aux, binary_round_aux. set (mrse := shr_fexp _ _ _). destruct mrse as [mrs e']. cbn [choice_mode].
  replace (round_nearest_even (shr_m mrs) (loc_of_shr_record mrs)) with (Round.cond_incr (Round.round_N (negb (Z.even (shr_m mrs))) (loc_of_shr_record mrs)) (shr_m mrs)); [reflexivity|].
  destruct (loc_of_shr_record mrs) as [|[]]; try reflexivity. cbn. unfold Round.cond_incr. destruct (Z.even _); reflexivity.
Qed.

Local Notation fexp64 := (SpecFloat.fexp 53 1024).
Definition decimal_real (n : N) (e : Z) : R := IZR (Z.of_N n) * bpow ten e.
Lemma p53 : Prec_gt_0 53. Proof. reflexivity. Qed.
Lemma p1024 : Prec_lt_emax 53 1024. Proof. reflexivity. Qed.
#[local] Existing Instance p53.

Lemma nearest_double_correct p e : let z := nearest_double (Npos p) e in let x := decimal_real (Npos p) e in
  bpow radix2 (-1022) <= x <= bpow radix2 1023 ->
  valid_binary 53 1024 z = true /\ SF2R radix2 z = round radix2 fexp64 ZnearestE x /\ is_finite_SF z = true /\ sign_SF z = false /\ Rabs (SF2R radix2 z - x) <= / 2 * bpow radix2 (-52) * x.
Proof.
  intros z x [Lo Hi].
  pose proof (pow10_pos e) as Pe. pose proof (pow10_pos (- e)) as Pm. pose proof (pow10_quotient e) as Qe.
  unfold nearest_double in z. destruct (pow10 e) as [|a] eqn:Ea; [lia|]. destruct (pow10 (- e)) as [|b] eqn:Eb; [lia|].
  pose proof (@Bdiv_correct_aux 53 1024 p53 p1024 mode_NE false (p * a) 0 false b 0) as B. cbn [cond_Zopp xorb Z.of_N] in *.
  assert (X : F2R (Float radix2 (Z.pos (p * a)) 0) / F2R (Float radix2 (Z.pos b) 0) = x).
  { unfold F2R, x, decimal_real. cbn [Fnum Fexp Z.of_N]. rewrite <- Qe, Pos2Z.inj_mul, mult_IZR. change (bpow radix2 0) with 1. field. apply IZR_neq. discriminate. }
  assert (Zz : z = (let '(mz, ez, lz) := SFdiv_core_binary 53 1024 (Z.pos (p * a)) 0 (Z.pos b) 0 in binary_round_aux 53 1024 mode_NE false mz ez lz)).
  { unfold z. change (Z.pos p * Z.pos a)%Z with (Z.pos (p * a)). destruct (SFdiv_core_binary 53 1024 (Z.pos (p * a)) 0 (Z.pos b) 0) as [[mz ez] lz]. apply aux_equiv. }
  cbv zeta in B. rewrite <- Zz, X in B. clearbody z. destruct B as [V B].
  assert (P : 0 < x) by (apply Rlt_le_trans with (2 := Lo); apply bpow_gt_0).
  assert (Er : Rabs (round radix2 fexp64 ZnearestE x - x) <= / 2 * bpow radix2 (-52) * x).
  { rewrite <- (Rabs_pos_eq x) at 3 by lra. apply (relative_error_N_FLT radix2 (-1074) 53 p53 (fun z => negb (Z.even z)) x). cbn [Z.add Z.sub Z.opp Z.pos_sub Pos.pred_double]. rewrite Rabs_pos_eq by lra. exact Lo. }
  assert (Ro : Rabs (round radix2 fexp64 ZnearestE x) <= bpow radix2 1023).
  { apply abs_round_le_generic; [apply (FLT_exp_valid (-1074) 53)|apply valid_rnd_N| |rewrite Rabs_pos_eq; lra]. apply generic_format_bpow. vm_compute. discriminate. }
  rewrite Rlt_bool_true in B.
  2: { cbn [round_mode]. apply Rle_lt_trans with (1 := Ro). apply bpow_lt. lia. }
  destruct B as (S & F & G). cbn [round_mode] in S. rewrite S. repeat (split; [assumption || reflexivity|]). exact Er.
Qed.
Lemma same_double z1 z2 : valid_binary 53 1024 z1 = true -> valid_binary 53 1024 z2 = true -> is_finite_SF z1 = true -> is_finite_SF z2 = true ->
  SF2R radix2 z1 = SF2R radix2 z2 -> SF2R radix2 z1 <> 0 -> z1 = z2.
Proof.
  intros V1 V2 F1 F2 E N.
  assert (S : forall z, is_finite_SF z = true -> SF2R radix2 z <> 0 -> is_finite_strict_SF z = true) by (intros [s|s| |s m e] F M; try discriminate F; [destruct M; reflexivity|reflexivity]).
  assert (B : SF2B z1 V1 = SF2B z2 V2).
  { apply B2R_inj; [rewrite is_finite_strict_SF2B; auto|rewrite is_finite_strict_SF2B; apply S; congruence|]. now rewrite !B2R_SF2B. }
  apply (f_equal B2SF) in B. now rewrite !B2SF_SF2B in B.
Qed.
