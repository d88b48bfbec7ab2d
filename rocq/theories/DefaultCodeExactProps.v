(** C61: a double that has at most six digits arrives exactly. *)
From Coq Require Import ZArith NArith Reals Lia Lra Psatz SpecFloat Bool.
From Flocq Require Import Core Relative BinarySingleNaN.
From Verif Require Import Cpp Value DefaultCodeModel DefaultCodeRun DefaultCodeDigits DefaultCodeFloatProps DefaultCodeRounding.
Local Open Scope R_scope.

Lemma ten_more k e : (k < e)%Z -> 10 * bpow ten k <= bpow ten e.
Proof.
  intros H. replace (10 * bpow ten k) with (bpow ten (k + 1)); [apply bpow_le; lia|]. rewrite bpow_plus_1. reflexivity.
Qed.
Lemma six_unique F n e q k : (100000 <= n < 1000000)%Z -> (100000 <= q < 1000000)%Z -> Rabs (F - IZR n * bpow ten e) <= / 2 * bpow radix2 (-52) * (IZR n * bpow ten e) ->
  Rabs (F - IZR q * bpow ten k) <= bpow ten k / 2 -> (q = 100000%Z -> IZR q * bpow ten k - F <= bpow ten k / 20) -> IZR q * bpow ten k = IZR n * bpow ten e.
Proof.
  intros Hn Hq Hx Hr Hl.
  assert (Pk : 0 < bpow ten k) by apply bpow_gt_0. assert (Pe : 0 < bpow ten e) by apply bpow_gt_0.
  assert (N1 : 100000 <= IZR n) by (apply (IZR_le 100000); lia). assert (N2 : IZR n <= 999999) by (apply (IZR_le n 999999); lia).
  assert (Q1 : 100000 <= IZR q) by (apply (IZR_le 100000); lia). assert (Q2 : IZR q <= 999999) by (apply (IZR_le q 999999); lia).
  assert (Ep : / 2 * bpow radix2 (-52) <= / 1000000000000000).
  { change (bpow radix2 (-52)) with (/ IZR 4503599627370496). assert (0 < IZR 4503599627370496) by (apply IZR_lt; lia). lra. }
  set (x := IZR n * bpow ten e) in *. set (y := IZR q * bpow ten k) in *.
  assert (X1 : 100000 * bpow ten e <= x) by (apply Rmult_le_compat_r; lra). assert (X2 : x <= 999999 * bpow ten e) by (apply Rmult_le_compat_r; lra).
  assert (Y1 : 100000 * bpow ten k <= y) by (apply Rmult_le_compat_r; lra). assert (Y2 : y <= 999999 * bpow ten k) by (apply Rmult_le_compat_r; lra).
  assert (Hx' : Rabs (F - x) <= / 1000000000000000 * x) by (apply Rle_trans with (1 := Hx); apply Rmult_le_compat_r; lra).
  apply Rabs_le_inv in Hx'. apply Rabs_le_inv in Hr.
  destruct (Z.lt_trichotomy k e) as [C|[C|C]].
  - exfalso. pose proof (ten_more k e C). lra.
  - subst k. assert (q = n); [|subst; reflexivity].
    assert (D1 : y - x < bpow ten e) by lra. assert (D2 : x - y < bpow ten e) by lra. unfold x, y in D1, D2. rewrite <- Rmult_minus_distr_r in D1, D2. rewrite <- minus_IZR in D1, D2.
    assert (IZR (q - n) < 1) by (apply Rmult_lt_reg_r with (1 := Pe); lra). assert (IZR (n - q) < 1) by (apply Rmult_lt_reg_r with (1 := Pe); lra).
    assert (q - n < 1)%Z by (apply lt_IZR; assumption). assert (n - q < 1)%Z by (apply lt_IZR; assumption). lia.
  - exfalso. pose proof (ten_more e k C). destruct (Z.eq_dec q 100000) as [E|E]; [specialize (Hl E); lra|].
    assert (Q3 : 100001 <= IZR q) by (apply (IZR_le 100001); lia). assert (100001 * bpow ten k <= y) by (apply Rmult_le_compat_r; lra). lra.
Qed.

Lemma value_quotient m e : SF2R radix2 (S754_finite false m e) = IZR (Z.of_N (numerator m e)) / IZR (Z.of_N (denominator e)).
Proof.
  cbn [SF2R cond_Zopp]. unfold F2R, numerator, denominator. cbn [Fnum Fexp]. destruct (Z.le_gt_cases 0 e) as [H|H].
  - replace (Z.to_N (- e)) with 0%N by lia. rewrite N2Z.inj_mul, N2Z.inj_pow, Z2N.id by lia. rewrite mult_IZR. change (Z.of_N 2) with (radix_val radix2). rewrite IZR_Zpower by lia.
    change (Z.of_N (2 ^ 0)) with 1%Z. change (Z.of_N (N.pos m)) with (Z.pos m). field.
  - replace (Z.to_N e) with 0%N by lia. rewrite N2Z.inj_pow, Z2N.id by lia. change (Z.of_N 2) with (radix_val radix2). rewrite IZR_Zpower by lia. rewrite bpow_opp, N2Z.inj_mul, mult_IZR.
    change (Z.of_N (2 ^ 0)) with 1%Z. change (Z.of_N (N.pos m)) with (Z.pos m). field. apply Rgt_not_eq, bpow_gt_0.
Qed.
Lemma close_real num den q k : (0 < den)%N -> (2 * Z.abs (Z.of_N (num * pow10 (- k)) - Z.of_N (q * (den * pow10 k))) <= Z.of_N (den * pow10 k))%Z ->
  (q = 100000%N -> (20 * (Z.of_N (q * (den * pow10 k)) - Z.of_N (num * pow10 (- k))) <= Z.of_N (den * pow10 k))%Z) ->
  let F := IZR (Z.of_N num) / IZR (Z.of_N den) in
  Rabs (F - IZR (Z.of_N q) * bpow ten k) <= bpow ten k / 2 /\ (Z.of_N q = 100000%Z -> IZR (Z.of_N q) * bpow ten k - F <= bpow ten k / 20).
Proof.
  intros Pd H1 H2 F. rewrite !N2Z.inj_mul in H1, H2. rewrite <- (pow10_quotient k). pose proof (pow10_pos k) as P1. pose proof (pow10_pos (- k)) as P2.
  set (a := Z.of_N (pow10 k)) in *. set (b := Z.of_N (pow10 (- k))) in *. assert (Pa : (0 < a)%Z) by lia. assert (Pb : (0 < b)%Z) by lia. clearbody a b.
  assert (Ra : 0 < IZR a) by (apply (IZR_lt 0); lia). assert (Rb : 0 < IZR b) by (apply (IZR_lt 0); lia). assert (Rd : 0 < IZR (Z.of_N den)) by (apply (IZR_lt 0); lia).
  set (Q := Z.of_N q) in *. set (D := Z.of_N den) in *. set (M := Z.of_N num) in *.
  assert (I : 0 < / (IZR D * IZR b)) by (apply Rinv_0_lt_compat, Rmult_lt_0_compat; assumption).
  assert (E : F - IZR Q * (IZR a / IZR b) = IZR (M * b - Q * (D * a)) * / (IZR D * IZR b)) by (unfold F; rewrite minus_IZR, !mult_IZR; field; lra).
  assert (U : IZR a / IZR b = IZR (D * a) * / (IZR D * IZR b)) by (rewrite mult_IZR; field; lra).
  split.
  - rewrite E, U. apply Rabs_le. assert (A1 : (2 * (M * b - Q * (D * a)) <= D * a)%Z) by lia. assert (A2 : (- (D * a) <= 2 * (M * b - Q * (D * a)))%Z) by lia.
    apply IZR_le in A1, A2. rewrite mult_IZR in A1, A2. rewrite opp_IZR in A2.
    set (w := / (IZR D * IZR b)) in *. set (A := IZR (M * b - Q * (D * a))) in *. set (B := IZR (D * a)) in *. clearbody w A B. nra.
  - intros Eq. assert (Eq' : q = 100000%N) by lia. specialize (H2 Eq'). replace (IZR Q * (IZR a / IZR b) - F) with (- (F - IZR Q * (IZR a / IZR b))) by lra. rewrite E, U.
    apply IZR_le in H2. rewrite mult_IZR, minus_IZR in H2. rewrite minus_IZR. set (w := / (IZR D * IZR b)) in *. set (A := IZR (M * b)) in *. set (B := IZR (D * a)) in *. set (C := IZR (Q * (D * a))) in *. clearbody w A B C. nra.
Qed.

Lemma six_digits_of n e : (0 < n < 1000000)%N -> exists c t, (100000 <= c < 1000000)%Z /\ IZR c * bpow ten t = decimal_real n e.
Proof.
  intros [P H]. destruct (digits_length n P) as (k & _ & A & B). assert (k <= 5)%nat.
  { destruct (Nat.le_gt_cases k 5) as [C|C]; [exact C|exfalso]. assert (10 ^ 6 <= 10 ^ N.of_nat k)%N by (apply N.pow_le_mono_r; lia). change (10 ^ 6)%N with 1000000%N in *. lia. }
  exists (Z.of_N n * 10 ^ Z.of_nat (5 - k))%Z, (e - Z.of_nat (5 - k))%Z. split.
  - destruct k as [|[|[|[|[|[|k]]]]]]; cbn [Nat.sub] in *; cbn in A, B |- *; lia.
  - rewrite mult_IZR. change 10%Z with (radix_val ten). rewrite IZR_Zpower by lia. unfold decimal_real. rewrite Rmult_assoc, <- bpow_plus. do 2 f_equal. lia.
Qed.
Lemma in_range n e : (0 < n < 1000000)%N -> (-307 <= e <= 301)%Z -> bpow radix2 (-1022) <= decimal_real n e <= bpow radix2 1023.
Proof.
  intros [P H] [E1 E2]. unfold decimal_real. assert (N1 : 1 <= IZR (Z.of_N n)) by (apply (IZR_le 1); lia). assert (N2 : IZR (Z.of_N n) <= bpow ten 6) by (apply (IZR_le _ 1000000); lia).
  pose proof (bpow_gt_0 ten e) as Pe. split.
  - apply Rle_trans with (bpow ten e).
    + apply Rle_trans with (bpow ten (-307)); [|apply bpow_le; lia]. change (-1022)%Z with (- (1022))%Z. change (-307)%Z with (- (307))%Z. rewrite !bpow_opp. apply Rinv_le; [apply bpow_gt_0|].
      rewrite <- !IZR_Zpower by lia. apply IZR_le. vm_compute. discriminate.
    + nra.
  - apply Rle_trans with (bpow ten 6 * bpow ten 301).
    + apply Rmult_le_compat; [lra|lra|exact N2|apply bpow_le; lia].
    + rewrite <- bpow_plus, <- !IZR_Zpower by lia. apply IZR_le. vm_compute. discriminate.
Qed.
Lemma exponent_bound m e : valid_binary 53 1024 (S754_finite false m e) = true -> (-1074 <= e)%Z.
Proof.
  unfold valid_binary, bounded, canonical_mantissa. intros H. apply andb_true_iff in H as [H _]. apply Zeq_bool_eq in H. unfold SpecFloat.fexp, SpecFloat.emin in H. lia.
Qed.

(** The double nearest to n * 10^e, where n has at most six digits, is printed, read and arrives as it was. *)
Theorem C61_six_digit_doubles : forall n e, (n < 1000000)%N -> (-307 <= e <= 301)%Z ->
  written_double (nearest_double n e) = nearest_double n e /\ written_double (SFopp (nearest_double n e)) = SFopp (nearest_double n e).
Proof.
  intros n e Hn He. destruct n as [|p]; [split; reflexivity|].
  assert (Rg : (0 < N.pos p < 1000000)%N) by lia. destruct (nearest_double_correct p e (in_range _ _ Rg He)) as (V & S & Fi & Sg & Er).
  destruct (six_digits_of (N.pos p) e Rg) as (c & t & Hc & Ec). pose proof (in_range _ _ Rg He) as [Lo _].
  assert (P : 0 < decimal_real (N.pos p) e) by (apply Rlt_le_trans with (2 := Lo); apply bpow_gt_0).
  assert (Nz : SF2R radix2 (nearest_double (N.pos p) e) <> 0).
  { intros Z. rewrite Z in Er. apply Rabs_le_inv in Er. change (bpow radix2 (-52)) with (/ IZR 4503599627370496) in Er. assert (1 < IZR 4503599627370496) by (apply IZR_lt; lia).
    assert (/ IZR 4503599627370496 < 1) by (rewrite <- Rinv_1; apply Rinv_lt_contravar; lra). nra. }
  set (f := nearest_double (N.pos p) e) in *. clearbody f. destruct f as [s|s| |s m ex]; try discriminate Fi; [destruct Nz; reflexivity|]. cbn [sign_SF] in Sg. subst s.
  pose proof (exponent_bound m ex V) as Hex.
  assert (G : forall s, written_double (S754_finite s m ex) = S754_finite s m ex).
  { intros s. destruct (C61_six_digits s m ex Hex) as (q & k & n & a & Q & R1 & R2 & A & W).
    assert (Pd : (0 < denominator ex)%N) by (unfold denominator; assert (2 ^ Z.to_N (- ex) <> 0)%N by (apply N.pow_nonzero; lia); lia).
    destruct (close_real (numerator m ex) (denominator ex) q k Pd R1 R2) as [C1 C2]. rewrite <- value_quotient in C1, C2. rewrite <- Ec in Er.
    assert (U : IZR (Z.of_N q) * bpow ten k = IZR c * bpow ten t) by (apply (six_unique (SF2R radix2 (S754_finite false m ex))); [exact Hc|lia|exact Er|exact C1|exact C2]).
    assert (X : decimal_real n (k + Z.of_nat a) = decimal_real (N.pos p) e).
    { rewrite <- Ec, <- U, A. unfold decimal_real. rewrite N2Z.inj_mul, mult_IZR, bpow_plus. rewrite N2Z.inj_pow, nat_N_Z. change (Z.of_N 10) with (radix_val ten). rewrite IZR_Zpower by lia. ring. }
    destruct n as [|p']; [cbn in A; lia|].
    destruct (nearest_double_correct p' (k + Z.of_nat a)) as (V' & S' & Fi' & Sg' & _); [rewrite X; apply (in_range _ _ Rg He)|].
    rewrite W. replace (nearest_double (N.pos p') (k + Z.of_nat a)) with (S754_finite false m ex); [destruct s; reflexivity|].
    apply same_double; auto. rewrite S', X. exact S. }
  split; [apply G|]. cbn [SFopp negb]. apply G.
Qed.

Close Scope R_scope.
From Coq Require Import Ascii String List.
From Verif Require Import Cpp ParseSpec SortedMapModel Value Ast ResponseModel ResponseSpec LoaderModel GenServiceModel RequestTextModel RequestTextProps DefaultCodeModel DefaultCodeProofs DefaultCodeRun DefaultCodeProps.
Import ListNotations.
Local Open Scope string_scope.
Local Open Scope list_scope.

(** Values whose doubles have at most six digits. *)
Inductive six_digit_floats : value -> Prop :=
| sd_map es : (forall n v, In (n, v) es -> six_digit_floats v) -> six_digit_floats (VMap es)
| sd_list l : (forall v, In v l -> six_digit_floats v) -> six_digit_floats (VList l)
| sd_string s j : six_digit_floats (VString s j)
| sd_null : six_digit_floats VNull
| sd_bool b : six_digit_floats (VBool b)
| sd_int z : six_digit_floats (VInt z)
| sd_enum s : six_digit_floats (VEnum s)
| sd_float n e : (n < 1000000)%N -> (-307 <= e <= 301)%Z -> six_digit_floats (VFloat (nearest_double n e))
| sd_negative n e : (n < 1000000)%N -> (-307 <= e <= 301)%Z -> six_digit_floats (VFloat (SFopp (nearest_double n e))).
Lemma six_digits_kept : forall v, six_digit_floats v -> in_source written_double v = v.
Proof.
  intros v. induction v as [es IH|l IH|s j| |b|z|f|s| |o IH] using value_ind'; intros F; inversion F; subst; cbn [in_source]; try reflexivity.
  - f_equal. rewrite <- (map_id es) at 2. apply map_ext_in. intros [n x] I. cbn [fst snd id]. rewrite Forall_forall in IH. enough (E : in_source written_double x = x) by now rewrite E.
    apply (IH (n, x) I). cbn [snd]. match goal with Q : forall n v, In (n, v) es -> _ |- _ => exact (Q n x I) end.
  - f_equal. rewrite <- (map_id l) at 2. apply map_ext_in. intros x I. cbn [id]. rewrite Forall_forall in IH. apply (IH x I). auto.
  - f_equal. now apply C61_six_digit_doubles.
  - f_equal. now apply C61_six_digit_doubles.
Qed.
(** Then the variable is a map of exactly the default values of the schema. *)
Theorem C61_exact_partial : forall variable fs, In variable ["defaultArguments"; "defaultValue"] ->
  (forall f, In f fs -> has_default f = true -> writable (in_default f) /\ six_digit_floats (in_default f) /\ forallb plain_char (chars (in_name f)) = true) -> NoDup (map in_name fs) ->
  (exists f, In f fs /\ has_default f = true) ->
  exists c, run_defaults variable (defaults_code variable fs) = Some c /\ abs c = VMap (map (fun f => (in_name f, in_default f)) (filter has_default fs)).
Proof.
  intros variable fs V W N H. destruct (C61_defaults_partial variable fs V) as (c & R & A); [intros f I D; destruct (W f I D) as (W1 & _ & W2); auto|exact N|exact H|].
  exists c. split; [exact R|]. rewrite A. f_equal. apply map_ext_in. intros f I. apply filter_In in I as [I D]. destruct (W f I D) as (_ & S & _). now rewrite (six_digits_kept _ S).
Qed.

(** The same for the arguments of a schema document whose literals have at most six digits. *)
Inductive short_floats : lit -> Prop :=
| sh_var loc n : short_floats (LVar loc n)
| sh_int loc z : short_floats (LInt loc z)
| sh_float loc n e : (n < 1000000)%N -> (-307 <= e <= 301)%Z -> short_floats (LFloat loc (nearest_double n e))
| sh_negative loc n e : (n < 1000000)%N -> (-307 <= e <= 301)%Z -> short_floats (LFloat loc (SFopp (nearest_double n e)))
| sh_string loc s : short_floats (LString loc s)
| sh_bool loc b : short_floats (LBool loc b)
| sh_null loc : short_floats (LNull loc)
| sh_enum loc s : short_floats (LEnum loc s)
| sh_list loc items : (forall x, In x items -> short_floats x) -> short_floats (LList loc items)
| sh_object loc fields : (forall x, In x fields -> short_floats (snd (snd x))) -> short_floats (LObject loc fields).
Lemma short_floats_visit : forall l v, short_floats l -> visit_default l = Ok v -> six_digit_floats v.
Proof.
  induction l as [a n|a z|a f|a s|a b|a|a s|a items H|a fields H] using lit_ind'; intros v Sf Hv; inversion Sf; subst; try rewrite visit_default_list in Hv; try rewrite visit_default_object in Hv; cbn [visit_default] in Hv.
  - injection Hv as <-. constructor.
  - destruct (in_int_range z) eqn:E; [|discriminate Hv]. injection Hv as <-. constructor.
  - injection Hv as <-. now apply sd_float.
  - injection Hv as <-. now apply sd_negative.
  - injection Hv as <-. constructor.
  - injection Hv as <-. constructor.
  - injection Hv as <-. constructor.
  - injection Hv as <-. constructor.
  - rename H1 into Q. clear Sf. assert (W : forall x, In x (@nil value) -> six_digit_floats x) by (intros ? []). generalize dependent (@nil value).
    induction items as [|x items IH]; intros vs Hv W.
    + injection Hv as <-. now constructor.
    + inversion H as [|? ? Hx H']; subst. cbn [visit_items] in Hv. destruct (visit_default x) as [y|e|] eqn:E; cbn [bind] in Hv; try discriminate Hv.
      apply (IH H' (fun x0 I => Q x0 (or_intror I)) _ Hv). intros z I. apply in_app_or in I as [I|[<-|[]]]; [auto|]. apply (Hx y); [apply Q; now left|reflexivity].
  - rename H1 into Q. clear Sf. assert (W : forall n x, In (n, x) (@nil (string * value)) -> six_digit_floats x) by (intros ? ? []).
    generalize dependent (@nil (string * value)). induction fields as [|x fields IH]; intros es Hv W.
    + injection Hv as <-. now constructor.
    + inversion H as [|? ? Hx H']; subst. cbn [visit_members] in Hv. destruct (visit_default (snd (snd x))) as [y|e|] eqn:E; cbn [bind] in Hv; try discriminate Hv.
      apply (IH H' (fun x0 I => Q x0 (or_intror I)) _ Hv). unfold map_emplace. destruct (has_key (fst (snd x)) es); cbn [fst]; [exact W|].
      intros n z I. apply in_app_or in I as [I|[I|[]]]; [now apply (W n)|]. injection I as <- <-. exact (Hx y (Q x (or_introl eq_refl)) eq_refl).
Qed.
Theorem C61_document_exact_partial : forall variable args fs, In variable ["defaultArguments"; "defaultValue"] -> get_input_fields args = Ok fs ->
  (forall a l t, In a args -> si_default a = Some (l, t) -> safe l /\ short_floats l) -> (forall a, In a args -> forallb plain_char (chars (si_name a)) = true) -> NoDup (map si_name args) ->
  (exists a, In a args /\ given_default a = true) ->
  exists c es, run_defaults variable (defaults_code variable fs) = Some c /\ abs c = VMap es /\ map fst es = map si_name (filter given_default args) /\
    forall a l t v, In a args -> si_default a = Some (l, t) -> visit_default l = Ok v -> v <> VNull -> In (si_name a, v) es.
Proof.
  intros variable args fs V G Sf P ND H. destruct (C61_document_partial variable args fs V G) as (c & es & R & A & M & I); auto.
  - intros a l t J E. apply (Sf a l t J E).
  - exists c, es. repeat (split; [assumption|]). intros a l t v J E Ev Nv. rewrite <- (six_digits_kept v); [eauto|]. apply (short_floats_visit l); [apply (Sf a l t J E)|exact Ev].
Qed.

(** 0.1, -2.5e-10 and 1000000 have at most six digits; the double nearest to 0.1 is not 0.1, and arrives all the same. *)
Example C61_exact_example : exists c,
  run_defaults "defaultArguments" (defaults_code "defaultArguments" [argument "a" (VFloat (nearest_double 1 (-1))); argument "b" (VList [VFloat (SFopp (nearest_double 25 (-11))); VFloat (nearest_double 1 6)])]) = Some c /\
  abs c = VMap [("a", VFloat (nearest_double 1 (-1))); ("b", VList [VFloat (SFopp (nearest_double 25 (-11))); VFloat (nearest_double 1 6)])].
Proof.
  apply (C61_exact_partial "defaultArguments"); [now left| | |eexists; split; [now left|reflexivity]].
  - intros f [<-|[<-|[]]] _; cbn [in_default argument].
    + split; [constructor; vm_compute; reflexivity|]. split; [|reflexivity]. constructor; [reflexivity|split; discriminate].
    + split; [|split; [|reflexivity]].
      * constructor. intros v [<-|[<-|[]]]; constructor; vm_compute; reflexivity.
      * constructor. intros v [<-|[<-|[]]]; [apply sd_negative|apply sd_float]; try reflexivity; split; discriminate.
  - repeat (constructor; [cbn; intuition discriminate|]). constructor.
Qed.

(** The hypotheses of C61_document_exact_partial hold of (limit: Int, box: Box = {size: [0.1, null], size: 2}). *)
Definition args61 : list sdl_input := let at_ := mkLoc 1 1 in
  [mkSdlInput "limit" "" (TNamed "Int") None;
   mkSdlInput "box" "" (TNamed "Box") (Some (LObject at_ [(at_, ("size", LList at_ [LFloat at_ (nearest_double 1 (-1)); LNull at_])); (at_, ("size", LInt at_ 2))], "{size: [0.1, null], size: 2}"))].
Example C61_document_example : exists fs c es, get_input_fields args61 = Ok fs /\ run_defaults "defaultArguments" (defaults_code "defaultArguments" fs) = Some c /\ abs c = VMap es /\
  map fst es = ["box"] /\ In ("box", VMap [("size", VList [VFloat (nearest_double 1 (-1)); VNull])]) es.
Proof.
  eexists. destruct (C61_document_exact_partial "defaultArguments" args61) with (fs := match get_input_fields args61 with Ok fs => fs | _ => [] end) as (c & es & R & A & M & I).
  - now left.
  - vm_compute. reflexivity.
  - intros a l t J E. destruct J as [<-|[<-|[]]]; [discriminate E|]. injection E as <- _. split.
    + constructor. intros x [<-|[<-|[]]]; (split; [|reflexivity]); constructor. intros y [<-|[<-|[]]]; constructor. vm_compute. reflexivity.
    + constructor. intros x [<-|[<-|[]]]; cbn [snd]; constructor. intros y [<-|[<-|[]]]; [|constructor]. apply (sh_float (mkLoc 1 1) 1 (-1)); [reflexivity|split; discriminate].
  - intros a [<-|[<-|[]]]; reflexivity.
  - repeat (constructor; [cbn; intuition discriminate|]). constructor.
  - eexists. split; [right; left; reflexivity|]. reflexivity.
  - exists c, es. split; [vm_compute; reflexivity|]. split; [exact R|]. split; [exact A|]. split; [exact M|].
    eapply (I _ _ _ _ (or_intror (or_introl eq_refl)) eq_refl); [reflexivity|discriminate].
Qed.

Print Assumptions C61_six_digits.
Print Assumptions C61_six_digit_doubles.
Print Assumptions C61_exact_partial.
