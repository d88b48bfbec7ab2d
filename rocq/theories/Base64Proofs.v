From Verif Require Import Cpp Base64Model Base64Spec.
From Coq Require Import ZifyBool ZifyNat ZifyN.
Local Open Scope N_scope.
Local Arguments N.shiftr : simpl never.
Local Arguments N.shiftl : simpl never.
Local Arguments N.land : simpl never.
Local Arguments N.lor : simpl never.

(** * Finite sweeps over bytes *)
Definition all_bool : list bool := [true; false].
Definition all_ascii : list ascii :=
  flat_map (fun b0 => flat_map (fun b1 => flat_map (fun b2 => flat_map (fun b3 =>
  flat_map (fun b4 => flat_map (fun b5 => flat_map (fun b6 => map (fun b7 =>
    Ascii b0 b1 b2 b3 b4 b5 b6 b7) all_bool) all_bool) all_bool) all_bool) all_bool) all_bool) all_bool) all_bool.

Lemma all_bool_in b : In b all_bool.
Proof. destruct b; simpl; auto. Qed.

Lemma all_ascii_in a : In a all_ascii.
Proof.
  destruct a as [b0 b1 b2 b3 b4 b5 b6 b7]. unfold all_ascii.
  repeat (apply in_flat_map; eexists; split; [apply all_bool_in|]).
  apply in_map. apply all_bool_in.
Qed.

Lemma forall_ascii (P : ascii -> bool) :
  forallb P all_ascii = true -> forall a, P a = true.
Proof. intros H a. rewrite forallb_forall in H. apply H, all_ascii_in. Qed.

Lemma forall_ascii2 (P : ascii -> ascii -> bool) :
  forallb (fun a => forallb (P a) all_ascii) all_ascii = true -> forall a b, P a b = true.
Proof.
  intros H a b. rewrite forallb_forall in H. specialize (H a (all_ascii_in a)).
  rewrite forallb_forall in H. apply H, all_ascii_in.
Qed.

Lemma ascii_lt a : N_of_ascii a < 256.
Proof. apply N_ascii_bounded. Qed.

Lemma u8_val x : N_of_ascii (u8 x) = x mod 256.
Proof. unfold u8. apply N_ascii_embedding. apply N.mod_lt. lia. Qed.

Lemma u8_inj_N a x : N_of_ascii a = x -> u8 x = a.
Proof. intros <-. unfold u8. rewrite N.mod_small by apply ascii_lt. apply ascii_N_embedding. Qed.

(** * Masks and shifts as arithmetic *)
Lemma lor_shiftl_add h k a : a < 2 ^ k -> N.lor (N.shiftl h k) a = h * 2 ^ k + a.
Proof.
  intros Ha. rewrite N.shiftl_mul_pow2.
  rewrite <- N.lxor_lor, <- N.add_nocarry_lxor; [reflexivity| |].
  - apply N.bits_inj_0. intros n. rewrite N.land_spec, <- N.shiftl_mul_pow2.
    destruct (N.lt_ge_cases n k) as [Hn|Hn].
    + rewrite N.shiftl_spec_low by lia. reflexivity.
    + assert (N.testbit a n = false) as ->; [|apply andb_false_r].
      destruct (N.eq_dec a 0) as [->|Hz]; [apply N.bits_0|].
      apply N.bits_above_log2. apply N.lt_le_trans with k; [|lia].
      apply N.log2_lt_pow2; lia.
  - apply N.bits_inj_0. intros n. rewrite N.land_spec, <- N.shiftl_mul_pow2.
    destruct (N.lt_ge_cases n k) as [Hn|Hn].
    + rewrite N.shiftl_spec_low by lia. reflexivity.
    + assert (N.testbit a n = false) as ->; [|apply andb_false_r].
      destruct (N.eq_dec a 0) as [->|Hz]; [apply N.bits_0|].
      apply N.bits_above_log2. apply N.lt_le_trans with k; [|lia].
      apply N.log2_lt_pow2; lia.
Qed.

Lemma mask_shift x k m :
  N.shiftr (N.land x (N.shiftl (N.ones m) k)) k = (x / 2 ^ k) mod 2 ^ m.
Proof.
  rewrite N.shiftr_land, N.shiftr_shiftl_l by lia.
  rewrite N.sub_diag, N.shiftl_0_r, N.land_ones, N.shiftr_div_pow2. reflexivity.
Qed.

Lemma mask_low x m : N.land x (N.ones m) = x mod 2 ^ m.
Proof. apply N.land_ones. Qed.

Ltac pow_norm :=
  change (2 ^ 2) with 4 in *; change (2 ^ 4) with 16 in *; change (2 ^ 6) with 64 in *;
  change (2 ^ 8) with 256 in *; change (2 ^ 10) with 1024 in *; change (2 ^ 12) with 4096 in *;
  change (2 ^ 16) with 65536 in *; change (2 ^ 18) with 262144 in *.

Ltac Zify.zify_post_hook ::= Z.div_mod_to_equations.

(** ** the four sextets of a full segment *)
Definition seg24 (a b c : N) := N.lor (N.lor (N.shiftl a 16) (N.shiftl b 8)) c.

Lemma seg24_val a b c : a < 256 -> b < 256 -> c < 256 -> seg24 a b c = a * 65536 + b * 256 + c.
Proof.
  intros. unfold seg24. rewrite <- N.lor_assoc, (lor_shiftl_add b) by (pow_norm; lia).
  rewrite lor_shiftl_add by (pow_norm; lia). pow_norm. lia.
Qed.

Lemma seg24_0 a b c : a < 256 -> b < 256 -> c < 256 ->
  N_of_ascii (u8 (N.shiftr (N.land (seg24 a b c) 16515072) 18)) = a / 4.
Proof.
  intros. rewrite u8_val. change 16515072 with (N.shiftl (N.ones 6) 18).
  rewrite mask_shift, seg24_val by assumption. pow_norm. lia.
Qed.
Lemma seg24_1 a b c : a < 256 -> b < 256 -> c < 256 ->
  N_of_ascii (u8 (N.shiftr (N.land (seg24 a b c) 258048) 12)) = (a mod 4) * 16 + b / 16.
Proof.
  intros. rewrite u8_val. change 258048 with (N.shiftl (N.ones 6) 12).
  rewrite mask_shift, seg24_val by assumption. pow_norm. lia.
Qed.
Lemma seg24_2 a b c : a < 256 -> b < 256 -> c < 256 ->
  N_of_ascii (u8 (N.shiftr (N.land (seg24 a b c) 4032) 6)) = (b mod 16) * 4 + c / 64.
Proof.
  intros. rewrite u8_val. change 4032 with (N.shiftl (N.ones 6) 6).
  rewrite mask_shift, seg24_val by assumption. pow_norm. lia.
Qed.
Lemma seg24_3 a b c : a < 256 -> b < 256 -> c < 256 ->
  N_of_ascii (u8 (N.land (seg24 a b c) 63)) = c mod 64.
Proof.
  intros. rewrite u8_val. change 63 with (N.ones 6).
  rewrite mask_low, seg24_val by assumption. pow_norm. lia.
Qed.

(** ** the spec's sextets as numbers *)
Lemma spec_char_sweep :
  forallb (fun b5 => forallb (fun b4 => forallb (fun b3 => forallb (fun b2 => forallb (fun b1 => forallb (fun b0 =>
    let i := N.of_nat (sextet_index b5 b4 b3 b2 b1 b0) in
    (Ascii.eqb (to_char i) (sextet_char b5 b4 b3 b2 b1 b0)
     && negb (Ascii.eqb (to_char i) padding) && N.ltb i 64 && N.eqb (from_char (to_char i)) i)%bool)
    all_bool) all_bool) all_bool) all_bool) all_bool) all_bool = true.
Proof. vm_compute. reflexivity. Qed.

Lemma spec_char b5 b4 b3 b2 b1 b0 :
  let i := N.of_nat (sextet_index b5 b4 b3 b2 b1 b0) in
  verify_to i = Ok (sextet_char b5 b4 b3 b2 b1 b0)
  /\ verify_from (sextet_char b5 b4 b3 b2 b1 b0) = Ok i
  /\ i < 64
  /\ sextet_char b5 b4 b3 b2 b1 b0 <> padding.
Proof.
  pose proof spec_char_sweep as H.
  rewrite forallb_forall in H; specialize (H b5 (all_bool_in _)).
  rewrite forallb_forall in H; specialize (H b4 (all_bool_in _)).
  rewrite forallb_forall in H; specialize (H b3 (all_bool_in _)).
  rewrite forallb_forall in H; specialize (H b2 (all_bool_in _)).
  rewrite forallb_forall in H; specialize (H b1 (all_bool_in _)).
  rewrite forallb_forall in H; specialize (H b0 (all_bool_in _)).
  cbv zeta in H |- *. set (i := N.of_nat _) in *. clearbody i.
  set (ch := sextet_char _ _ _ _ _ _) in *. clearbody ch.
  apply andb_prop in H as [H H4]. apply andb_prop in H as [H H3]. apply andb_prop in H as [H1 H2].
  apply Ascii.eqb_eq in H1. apply N.ltb_lt in H3. apply N.eqb_eq in H4.
  apply negb_true_iff in H2.
  unfold verify_to, verify_from. rewrite H2. subst ch. rewrite H4.
  destruct (N.ltb_spec 63 i); [lia|]. repeat split; auto.
  intros E. rewrite E in H2. discriminate.
Qed.

Lemma sidx_val b5 b4 b3 b2 b1 b0 :
  N.of_nat (sextet_index b5 b4 b3 b2 b1 b0) =
  32 * N.b2n b5 + 16 * N.b2n b4 + 8 * N.b2n b3 + 4 * N.b2n b2 + 2 * N.b2n b1 + N.b2n b0.
Proof. destruct b5, b4, b3, b2, b1, b0; reflexivity. Qed.

Lemma ascii_val b0 b1 b2 b3 b4 b5 b6 b7 :
  N_of_ascii (Ascii b0 b1 b2 b3 b4 b5 b6 b7) =
  128 * N.b2n b7 + 64 * N.b2n b6 + 32 * N.b2n b5 + 16 * N.b2n b4 + 8 * N.b2n b3 + 4 * N.b2n b2 + 2 * N.b2n b1 + N.b2n b0.
Proof. destruct b0, b1, b2, b3, b4, b5, b6, b7; reflexivity. Qed.

Lemma b2n_le b : N.b2n b <= 1.
Proof. destruct b; simpl; lia. Qed.

Ltac gen_b2n :=
  repeat match goal with |- context [N.b2n ?b] =>
    let H := fresh in pose proof (b2n_le b) as H; revert H; generalize (N.b2n b); intros ? ? end.

Lemma verify_to_at i b5 b4 b3 b2 b1 b0 :
  i = N.of_nat (sextet_index b5 b4 b3 b2 b1 b0) -> verify_to i = Ok (sextet_char b5 b4 b3 b2 b1 b0).
Proof. intros ->. apply spec_char. Qed.

Ltac sidx := rewrite ?sidx_val, ?ascii_val; simpl (N.b2n false); gen_b2n; lia.

Lemma list3_ind {A} (P : list A -> Prop) :
  P [] -> (forall a, P [a]) -> (forall a b, P [a; b]) ->
  (forall a b c l, P l -> P (a :: b :: c :: l)) -> forall l, P l.
Proof.
  intros H0 H1 H2 H3. fix IH 1. intros [|a [|b [|c l]]]; [exact H0|apply H1|apply H2|apply H3, IH].
Qed.

Lemma unpadded_cons3 a b c l :
  exists c0 c1 c2 c3, rfc4648_unpadded (a :: b :: c :: l)
    = String c0 (String c1 (String c2 (String c3 (rfc4648_unpadded l))))
    /\ rfc4648_unpadded [a; b; c] = String c0 (String c1 (String c2 (String c3 EmptyString))).
Proof.
  destruct a, b, c. unfold rfc4648_unpadded. cbn [flat_map byte_bits app sextets]. do 4 eexists. split; reflexivity.
Qed.

Lemma padding_cons3 a b c l : rfc4648_padding (a :: b :: c :: l) = rfc4648_padding l.
Proof.
  unfold rfc4648_padding.
  replace (List.length (a :: b :: c :: l)) with (List.length l + 1 * 3)%nat by (simpl; lia).
  rewrite Nat.mod_add by lia. reflexivity.
Qed.

Lemma app_string_assoc (a b c : string) : ((a ++ b) ++ c = a ++ (b ++ c))%string.
Proof. induction a as [|x a IH]; simpl; [reflexivity|]. now rewrite IH. Qed.
Lemma app_string_nil_r (a : string) : (a ++ "" = a)%string.
Proof. induction a as [|x a IH]; simpl; [reflexivity|]. now rewrite IH. Qed.

Lemma to_loop_rfc bs : forall acc, to_loop acc bs = Ok (acc ++ rfc4648 bs)%string.
Proof.
  induction bs as [|a|a b|a b c l IH] using list3_ind; intros acc.
  - simpl. unfold rfc4648. simpl. now rewrite app_string_nil_r.
  - cbn [to_loop to_tail]. rewrite N.lor_0_r, N.shiftl_mul_pow2. pow_norm.
    pose proof (ascii_lt a) as Ha.
    destruct a as [a0 a1 a2 a3 a4 a5 a6 a7].
    set (x := N_of_ascii _) in *.
    assert (E0 : N_of_ascii (u8 (N.shiftr (N.land (u16 (x * 256)) 64512) 10)) = x / 4).
    { rewrite u8_val. change 64512 with (N.shiftl (N.ones 6) 10). rewrite mask_shift. unfold u16. pow_norm. lia. }
    assert (E1 : N_of_ascii (u8 (N.shiftr (N.land (u16 (x * 256)) 1008) 4)) = (x mod 4) * 16).
    { rewrite u8_val. change 1008 with (N.shiftl (N.ones 6) 4). rewrite mask_shift. unfold u16. pow_norm. lia. }
    rewrite E0, E1. subst x.
    rewrite (verify_to_at _ a7 a6 a5 a4 a3 a2) by sidx.
    rewrite (verify_to_at _ a1 a0 false false false false) by sidx.
    reflexivity.
  - cbn [to_loop to_tail].
    pose proof (ascii_lt a) as Ha. pose proof (ascii_lt b) as Hb.
    destruct a as [a0 a1 a2 a3 a4 a5 a6 a7], b as [b0 b1 b2 b3 b4 b5 b6 b7].
    set (x := N_of_ascii _) in *. set (y := N_of_ascii (Ascii b0 _ _ _ _ _ _ _)) in *.
    rewrite (lor_shiftl_add x 8 y) by (pow_norm; lia). pow_norm.
    assert (E0 : N_of_ascii (u8 (N.shiftr (N.land (u16 (x * 256 + y)) 64512) 10)) = x / 4).
    { rewrite u8_val. change 64512 with (N.shiftl (N.ones 6) 10). rewrite mask_shift. unfold u16. pow_norm. lia. }
    assert (E1 : N_of_ascii (u8 (N.shiftr (N.land (u16 (x * 256 + y)) 1008) 4)) = (x mod 4) * 16 + y / 16).
    { rewrite u8_val. change 1008 with (N.shiftl (N.ones 6) 4). rewrite mask_shift. unfold u16. pow_norm. lia. }
    assert (E2 : N_of_ascii (u8 (N.shiftl (N.land (u16 (x * 256 + y)) 15) 2)) = (y mod 16) * 4).
    { rewrite u8_val, N.shiftl_mul_pow2. change 15 with (N.ones 4). rewrite mask_low. unfold u16. pow_norm. lia. }
    rewrite E0, E1, E2. subst x y.
    rewrite (verify_to_at _ a7 a6 a5 a4 a3 a2) by sidx.
    rewrite (verify_to_at _ a1 a0 b7 b6 b5 b4) by sidx.
    rewrite (verify_to_at _ b3 b2 b1 b0 false false) by sidx.
    reflexivity.
  - cbn [to_loop].
    change (N.lor (N.lor (N.shiftl (N_of_ascii a) 16) (N.shiftl (N_of_ascii b) 8)) (N_of_ascii c))
      with (seg24 (N_of_ascii a) (N_of_ascii b) (N_of_ascii c)).
    rewrite seg24_0, seg24_1, seg24_2, seg24_3 by apply ascii_lt.
    destruct a as [a0 a1 a2 a3 a4 a5 a6 a7], b as [b0 b1 b2 b3 b4 b5 b6 b7], c as [c0 c1 c2 c3 c4 c5 c6 c7].
    rewrite (verify_to_at _ a7 a6 a5 a4 a3 a2) by sidx.
    rewrite (verify_to_at _ a1 a0 b7 b6 b5 b4) by sidx.
    rewrite (verify_to_at _ b3 b2 b1 b0 c7 c6) by sidx.
    rewrite (verify_to_at _ c5 c4 c3 c2 c1 c0) by sidx.
    cbn [bind]. rewrite IH. unfold rfc4648. rewrite padding_cons3, app_string_assoc. reflexivity.
Qed.

Lemma toBase64_rfc bs : toBase64 bs = Ok (rfc4648 bs).
Proof. destruct bs as [|a l]; [reflexivity|]. unfold toBase64. rewrite to_loop_rfc. reflexivity. Qed.

(** * Decoding *)

(** the characters accepted, and the bits they stand for *)
Lemma verify_from_inv ch v : verify_from ch = Ok v ->
  exists b5 b4 b3 b2 b1 b0, ch = sextet_char b5 b4 b3 b2 b1 b0 /\ v = N.of_nat (sextet_index b5 b4 b3 b2 b1 b0).
Proof.
  assert (H : forallb (fun c => match verify_from c with
     | Ok v => existsb (fun b5 => existsb (fun b4 => existsb (fun b3 => existsb (fun b2 => existsb (fun b1 => existsb (fun b0 =>
        (Ascii.eqb c (sextet_char b5 b4 b3 b2 b1 b0) && N.eqb v (N.of_nat (sextet_index b5 b4 b3 b2 b1 b0)))%bool)
       all_bool) all_bool) all_bool) all_bool) all_bool) all_bool
     | _ => true end) all_ascii = true) by (vm_compute; reflexivity).
  intros E. pose proof (forall_ascii _ H ch) as H1. cbv beta in H1. rewrite E in H1.
  apply existsb_exists in H1 as (b5 & _ & H1). apply existsb_exists in H1 as (b4 & _ & H1).
  apply existsb_exists in H1 as (b3 & _ & H1). apply existsb_exists in H1 as (b2 & _ & H1).
  apply existsb_exists in H1 as (b1 & _ & H1). apply existsb_exists in H1 as (b0 & _ & H1).
  apply andb_prop in H1 as [H1 H2]. apply Ascii.eqb_eq in H1. apply N.eqb_eq in H2.
  exists b5, b4, b3, b2, b1, b0. auto.
Qed.

Lemma verify_from_cases ch : (exists v, verify_from ch = Ok v) \/ (exists m, verify_from ch = Throw (Exn logic_error m)).
Proof. unfold verify_from. destruct (N.ltb 63 (from_char ch)); eauto. Qed.

Lemma verify_from_padding : verify_from padding = Throw (Exn logic_error "invalid character in base64 encoded string").
Proof. reflexivity. Qed.

Definition seg4 (a b c d : N) := N.lor (N.lor (N.lor (N.shiftl a 18) (N.shiftl b 12)) (N.shiftl c 6)) d.
Lemma seg4_val a b c d : a < 64 -> b < 64 -> c < 64 -> d < 64 -> seg4 a b c d = a * 262144 + b * 4096 + c * 64 + d.
Proof.
  intros. unfold seg4. rewrite <- !N.lor_assoc, (lor_shiftl_add c) by (pow_norm; lia).
  rewrite (lor_shiftl_add b) by (pow_norm; lia). rewrite lor_shiftl_add by (pow_norm; lia). pow_norm. lia.
Qed.
Lemma seg4_0 a b c d : a < 64 -> b < 64 -> c < 64 -> d < 64 ->
  N.shiftr (N.land (seg4 a b c d) 16711680) 16 = a * 4 + b / 16.
Proof. intros. change 16711680 with (N.shiftl (N.ones 8) 16). rewrite mask_shift, seg4_val by assumption. pow_norm. lia. Qed.
Lemma seg4_1 a b c d : a < 64 -> b < 64 -> c < 64 -> d < 64 ->
  N.shiftr (N.land (seg4 a b c d) 65280) 8 = (b mod 16) * 16 + c / 4.
Proof. intros. change 65280 with (N.shiftl (N.ones 8) 8). rewrite mask_shift, seg4_val by assumption. pow_norm. lia. Qed.
Lemma seg4_2 a b c d : a < 64 -> b < 64 -> c < 64 -> d < 64 ->
  N.land (seg4 a b c d) 255 = (c mod 4) * 64 + d.
Proof. intros. change 255 with (N.ones 8). rewrite mask_low, seg4_val by assumption. pow_norm. lia. Qed.

Lemma unpadded_app_full acc l :
  (List.length acc mod 3 = 0)%nat -> rfc4648_unpadded (acc ++ l) = (rfc4648_unpadded acc ++ rfc4648_unpadded l)%string.
Proof.
  induction acc as [|a|a b|a b c acc IH] using list3_ind; intros H; try discriminate.
  - reflexivity.
  - replace (List.length (a :: b :: c :: acc)) with (List.length acc + 1 * 3)%nat in H by (simpl; lia).
    rewrite Nat.mod_add in H by lia. simpl app.
    destruct (unpadded_cons3 a b c (acc ++ l)) as (c0 & c1 & c2 & c3 & -> & E).
    destruct (unpadded_cons3 a b c acc) as (d0 & d1 & d2 & d3 & -> & E').
    rewrite E in E'. injection E' as -> -> -> ->. rewrite IH by assumption. reflexivity.
Qed.

(** a full segment: the four characters are exactly the encoding of the three bytes *)
Lemma full_segment ca cb cc cd va vb vc vd :
  verify_from ca = Ok va -> verify_from cb = Ok vb -> verify_from cc = Ok vc -> verify_from cd = Ok vd ->
  rfc4648_unpadded [u8 (N.shiftr (N.land (seg4 va vb vc vd) 16711680) 16);
                    u8 (N.shiftr (N.land (seg4 va vb vc vd) 65280) 8);
                    u8 (N.land (seg4 va vb vc vd) 255)] = String ca (String cb (String cc (String cd EmptyString))).
Proof.
  intros Ha Hb Hc Hd.
  apply verify_from_inv in Ha as (a5 & a4 & a3 & a2 & a1 & a0 & -> & ->).
  apply verify_from_inv in Hb as (b5 & b4 & b3 & b2 & b1 & b0 & -> & ->).
  apply verify_from_inv in Hc as (c5 & c4 & c3 & c2 & c1 & c0 & -> & ->).
  apply verify_from_inv in Hd as (d5 & d4 & d3 & d2 & d1 & d0 & -> & ->).
  rewrite seg4_0, seg4_1, seg4_2 by apply spec_char.
  rewrite (u8_inj_N (Ascii b4 b5 a0 a1 a2 a3 a4 a5)) by sidx.
  rewrite (u8_inj_N (Ascii c2 c3 c4 c5 b0 b1 b2 b3)) by sidx.
  rewrite (u8_inj_N (Ascii d0 d1 d2 d3 d4 d5 c0 c1)) by sidx.
  reflexivity.
Qed.

(** conversely, decoding the encoding of three bytes *)
Lemma decode3 a b c : exists ca cb cc cd va vb vc vd,
  rfc4648_unpadded [a; b; c] = String ca (String cb (String cc (String cd EmptyString))) /\
  verify_from ca = Ok va /\ verify_from cb = Ok vb /\ verify_from cc = Ok vc /\ verify_from cd = Ok vd /\
  cd <> padding /\
  u8 (N.shiftr (N.land (seg4 va vb vc vd) 16711680) 16) = a /\
  u8 (N.shiftr (N.land (seg4 va vb vc vd) 65280) 8) = b /\
  u8 (N.land (seg4 va vb vc vd) 255) = c.
Proof.
  destruct a as [a0 a1 a2 a3 a4 a5 a6 a7], b as [b0 b1 b2 b3 b4 b5 b6 b7], c as [c0 c1 c2 c3 c4 c5 c6 c7].
  do 8 eexists. split; [reflexivity|].
  do 4 (split; [apply spec_char|]). split; [apply spec_char|].
  rewrite seg4_0, seg4_1, seg4_2 by apply spec_char.
  repeat split; apply u8_inj_N; sidx.
Qed.

Fixpoint slen (s : string) : nat := match s with EmptyString => O | String _ s' => S (slen s') end.

Lemma string4_ind (P : string -> Prop) :
  (forall s, (String.length s < 4)%nat -> P s) ->
  (forall a b c d s, P s -> P (String a (String b (String c (String d s))))) -> forall s, P s.
Proof.
  intros H0 H4. fix IH 1. intros [|a [|b [|c [|d s]]]].
  1-4: apply H0; simpl; lia.
  apply H4, IH.
Qed.

Lemma check_rest_pad s : check_rest s = true <-> exists k, s = pad k /\ (k <= 2)%nat.
Proof.
  split.
  - destruct s as [|a [|b [|c s]]]; simpl; intros H.
    + exists 0%nat. auto.
    + apply Ascii.eqb_eq in H as ->. exists 1%nat. auto.
    + apply andb_prop in H as [H1 H2]. apply Ascii.eqb_eq in H1 as ->. apply Ascii.eqb_eq in H2 as ->. exists 2%nat. auto.
    + discriminate.
  - intros (k & -> & Hk). destruct k as [|[|[|k]]]; try reflexivity. lia.
Qed.

Definition max_pad (bs : list ascii) : nat := match (List.length bs mod 3)%nat with O => 1 | _ => 2 end.

(** what the tail accepts, starting from [acc] with a multiple of 3 bytes *)
Definition seg2 (a b : N) (t : N) := u16 (N.lor (N.lor (N.shiftl a 10) (N.shiftl b 4)) (N.shiftr t 2)).
Lemma seg2_val a b t : a < 64 -> b < 64 -> t < 64 -> seg2 a b t = a * 1024 + b * 16 + t / 4.
Proof.
  intros. unfold seg2. rewrite <- N.lor_assoc, N.shiftr_div_pow2. pow_norm.
  rewrite (lor_shiftl_add b) by (pow_norm; lia). rewrite lor_shiftl_add by (pow_norm; lia). unfold u16. pow_norm. lia.
Qed.

Lemma tail3 ca cb cc va vb vc :
  verify_from ca = Ok va -> verify_from cb = Ok vb -> verify_from cc = Ok vc -> N.land vc 3 = 0 ->
  rfc4648_unpadded [u8 (N.shiftr (N.land (seg2 va vb vc) 65280) 8); u8 (N.land (seg2 va vb vc) 255)]
  = String ca (String cb (String cc EmptyString)).
Proof.
  intros Ha Hb Hc Hz.
  apply verify_from_inv in Ha as (a5 & a4 & a3 & a2 & a1 & a0 & -> & ->).
  apply verify_from_inv in Hb as (b5 & b4 & b3 & b2 & b1 & b0 & -> & ->).
  apply verify_from_inv in Hc as (c5 & c4 & c3 & c2 & c1 & c0 & -> & ->).
  rewrite seg2_val by apply spec_char.
  change 65280 with (N.shiftl (N.ones 8) 8). change 255 with (N.ones 8). rewrite mask_shift, mask_low. pow_norm.
  change 3 with (N.ones 2) in Hz. rewrite mask_low in Hz. pow_norm.
  assert (c1 = false /\ c0 = false) as [-> ->].
  { rewrite sidx_val in Hz. destruct c1, c0; simpl N.b2n in Hz; try (exfalso; revert Hz; gen_b2n; lia); auto. }
  rewrite (u8_inj_N (Ascii b4 b5 a0 a1 a2 a3 a4 a5)) by sidx.
  rewrite (u8_inj_N (Ascii c2 c3 c4 c5 b0 b1 b2 b3)) by sidx.
  reflexivity.
Qed.

Lemma tail2 ca cb va vb :
  verify_from ca = Ok va -> verify_from cb = Ok vb -> N.land (seg2 va vb 0) 255 = 0 ->
  rfc4648_unpadded [u8 (N.shiftr (N.land (seg2 va vb 0) 65280) 8)] = String ca (String cb EmptyString).
Proof.
  intros Ha Hb Hz.
  apply verify_from_inv in Ha as (a5 & a4 & a3 & a2 & a1 & a0 & -> & ->).
  apply verify_from_inv in Hb as (b5 & b4 & b3 & b2 & b1 & b0 & -> & ->).
  rewrite seg2_val in * by (try apply spec_char; lia).
  change 65280 with (N.shiftl (N.ones 8) 8). change 255 with (N.ones 8) in Hz. rewrite mask_low in Hz. rewrite mask_shift. pow_norm.
  assert (b3 = false /\ b2 = false /\ b1 = false /\ b0 = false) as (-> & -> & -> & ->).
  { rewrite !sidx_val in Hz. repeat split.
    - destruct b3; auto; exfalso; revert Hz; simpl N.b2n; gen_b2n; lia.
    - destruct b2; auto; exfalso; revert Hz; simpl N.b2n; gen_b2n; lia.
    - destruct b1; auto; exfalso; revert Hz; simpl N.b2n; gen_b2n; lia.
    - destruct b0; auto; exfalso; revert Hz; simpl N.b2n; gen_b2n; lia. }
  rewrite (u8_inj_N (Ascii b4 b5 a0 a1 a2 a3 a4 a5)) by sidx.
  reflexivity.
Qed.

Lemma decode2 a b : exists ca cb cc va vb vc,
  rfc4648_unpadded [a; b] = String ca (String cb (String cc EmptyString)) /\
  verify_from ca = Ok va /\ verify_from cb = Ok vb /\ verify_from cc = Ok vc /\ N.land vc 3 = 0 /\
  cc <> padding /\
  u8 (N.shiftr (N.land (seg2 va vb vc) 65280) 8) = a /\ u8 (N.land (seg2 va vb vc) 255) = b.
Proof.
  destruct a as [a0 a1 a2 a3 a4 a5 a6 a7], b as [b0 b1 b2 b3 b4 b5 b6 b7].
  do 6 eexists. split; [reflexivity|].
  do 3 (split; [apply spec_char|]).
  split. { change 3 with (N.ones 2). rewrite mask_low. pow_norm. sidx. }
  split; [apply spec_char|].
  rewrite seg2_val by apply spec_char.
  change 65280 with (N.shiftl (N.ones 8) 8). change 255 with (N.ones 8). rewrite mask_shift, mask_low. pow_norm.
  split; apply u8_inj_N; sidx.
Qed.

Lemma decode1 a : exists ca cb va vb,
  rfc4648_unpadded [a] = String ca (String cb EmptyString) /\
  verify_from ca = Ok va /\ verify_from cb = Ok vb /\ N.land (seg2 va vb 0) 255 = 0 /\
  u8 (N.shiftr (N.land (seg2 va vb 0) 65280) 8) = a.
Proof.
  destruct a as [a0 a1 a2 a3 a4 a5 a6 a7].
  do 4 eexists. split; [reflexivity|].
  do 2 (split; [apply spec_char|]).
  rewrite seg2_val by (try apply spec_char; lia).
  change 65280 with (N.shiftl (N.ones 8) 8). change 255 with (N.ones 8). rewrite mask_shift, mask_low. pow_norm.
  split; [sidx|]. apply u8_inj_N; sidx.
Qed.

Lemma len_app_mod3 (acc l : list ascii) : (List.length acc mod 3 = 0 -> List.length (acc ++ l) mod 3 = List.length l mod 3)%nat.
Proof.
  intros H. rewrite app_length, Nat.add_mod, H by lia. rewrite Nat.add_0_l. apply Nat.mod_mod. lia.
Qed.

Lemma from_tail_sound acc s bs :
  (List.length acc mod 3 = 0)%nat -> from_tail acc s = Ok bs ->
  exists l k, bs = acc ++ l /\ s = (rfc4648_unpadded l ++ pad k)%string /\ (k <= max_pad l)%nat /\ (List.length l < 3)%nat.
Proof.
  intros Hacc. unfold from_tail.
  destruct s as [|a [|b rest]].
  - simpl. intros [= <-]. exists [], 0%nat. rewrite app_nil_r. cbn. repeat split; lia.
  - destruct (check_rest (String a "")) eqn:E; intros [= <-].
    apply check_rest_pad in E as (k & E & Hk). destruct k as [|[|k]]; try discriminate.
    injection E as ->. exists [], 1%nat. rewrite app_nil_r. cbn. repeat split; lia.
  - destruct rest as [|c r].
    + cbn [bind]. destruct (verify_from a) as [va| |] eqn:Ha; try discriminate. cbn [bind].
      destruct (verify_from b) as [vb| |] eqn:Hb; try discriminate. cbn [bind].
      change (u16 (N.lor (N.lor (N.shiftl va 10) (N.shiftl vb 4)) (N.shiftr 0 2))) with (seg2 va vb 0).
      destruct (N.eqb_spec (N.land (seg2 va vb 0) 255) 0) as [Hz|]; simpl negb; try discriminate.
      change (check_rest "") with true. cbv iota. intros [= <-]. eexists [_], 0%nat. split; [reflexivity|]. split.
      * rewrite (tail2 a b va vb) by assumption. reflexivity.
      * cbn. lia.
    + destruct (Ascii.eqb padding c) eqn:Ep.
      * cbn [bind]. destruct (verify_from a) as [va| |] eqn:Ha; try discriminate. cbn [bind].
        destruct (verify_from b) as [vb| |] eqn:Hb; try discriminate. cbn [bind].
        change (u16 (N.lor (N.lor (N.shiftl va 10) (N.shiftl vb 4)) (N.shiftr 0 2))) with (seg2 va vb 0).
        destruct (N.eqb_spec (N.land (seg2 va vb 0) 255) 0) as [Hz|]; simpl negb; try discriminate.
        destruct (check_rest (String c r)) eqn:E; try discriminate. cbv iota. intros [= <-].
        apply check_rest_pad in E as (k & -> & Hk).
        eexists [_], k. split; [reflexivity|]. split.
        -- rewrite (tail2 a b va vb) by assumption. reflexivity.
        -- cbn. lia.
      * destruct (verify_from c) as [vc| |] eqn:Hc; try discriminate. cbn [bind].
        destruct (verify_from a) as [va| |] eqn:Ha; try discriminate. cbn [bind].
        destruct (verify_from b) as [vb| |] eqn:Hb; try discriminate. cbn [bind].
        change (u16 (N.lor (N.lor (N.shiftl va 10) (N.shiftl vb 4)) (N.shiftr vc 2))) with (seg2 va vb vc).
        destruct (N.eqb_spec (N.land vc 3) 0) as [Hz|]; simpl negb; try discriminate.
        destruct (check_rest r) eqn:E; try discriminate. cbv iota. intros [= <-].
        apply check_rest_pad in E as (k & -> & Hk).
        eexists [_; _], k. split; [reflexivity|]. split.
        -- rewrite (tail3 a b c va vb vc) by assumption. reflexivity.
        -- cbn. lia.
Qed.

Lemma max_pad_app acc l : (List.length acc mod 3 = 0)%nat -> max_pad (acc ++ l) = max_pad l.
Proof. intros H. unfold max_pad. rewrite len_app_mod3 by assumption. reflexivity. Qed.

Lemma from_loop_sound s : forall acc bs,
  (List.length acc mod 3 = 0)%nat -> from_loop acc s = Ok bs ->
  exists l k, bs = acc ++ l /\ s = (rfc4648_unpadded l ++ pad k)%string /\ (k <= max_pad l)%nat.
Proof.
  induction s as [s Hs|ca cb cc cd s IH] using string4_ind; intros acc bs Hacc H.
  - assert (E : from_loop acc s = from_tail acc s).
    { destruct s as [|? [|? [|? [|? ?]]]]; try reflexivity. simpl in Hs. lia. }
    rewrite E in H. apply from_tail_sound in H as (l & k & H1 & H2 & H3 & _); eauto.
  - cbn [from_loop] in H. destruct (Ascii.eqb cd padding) eqn:Ed.
    + apply from_tail_sound in H as (l & k & H1 & H2 & H3 & _); eauto.
    + destruct (verify_from ca) as [va| |] eqn:Ha; try discriminate. cbn [bind] in H.
      destruct (verify_from cb) as [vb| |] eqn:Hb; try discriminate. cbn [bind] in H.
      destruct (verify_from cc) as [vc| |] eqn:Hc; try discriminate. cbn [bind] in H.
      destruct (verify_from cd) as [vd| |] eqn:Hd; try discriminate. cbn [bind] in H.
      change (N.lor (N.lor (N.lor (N.shiftl va 18) (N.shiftl vb 12)) (N.shiftl vc 6)) vd) with (seg4 va vb vc vd) in H.
      set (g := [_; _; _]) in H.
      assert (Hg : (List.length (acc ++ g) mod 3 = 0)%nat) by (rewrite len_app_mod3 by assumption; reflexivity).
      apply IH in H as (l & k & -> & -> & Hk); [|assumption].
      exists (g ++ l), k. rewrite app_assoc. split; [reflexivity|].
      rewrite (unpadded_app_full g l) by reflexivity.
      rewrite max_pad_app by reflexivity. split; [|assumption].
      unfold g. rewrite (full_segment ca cb cc cd va vb vc vd) by assumption. reflexivity.
Qed.

Lemma from_tail_complete acc l k :
  (List.length l < 3)%nat -> (k <= max_pad l)%nat -> from_tail acc (rfc4648_unpadded l ++ pad k)%string = Ok (acc ++ l).
Proof.
  intros Hl Hk. destruct l as [|a [|b [|? ?]]]; [| | |simpl in Hl; lia].
  - cbn in Hk. rewrite app_nil_r. destruct k as [|[|k]]; try reflexivity. lia.
  - destruct (decode1 a) as (ca & cb & va & vb & -> & Ha & Hb & Hz & Hv).
    assert (Hk2 : (k <= 2)%nat) by (cbn in Hk; lia).
    assert (Hc : check_rest (pad k) = true) by (apply check_rest_pad; eauto).
    change ((String ca (String cb "") ++ pad k)%string) with (String ca (String cb (pad k))).
    unfold from_tail. remember (pad k) as r eqn:Hr.
    assert (Hnone : match r with String c _ => if Ascii.eqb padding c then None else Some c | EmptyString => None end = None).
    { subst r. destruct k; reflexivity. }
    rewrite Hnone. cbn [bind]. rewrite Ha. cbn [bind]. rewrite Hb. cbn [bind].
    change (u16 (N.lor (N.lor (N.shiftl va 10) (N.shiftl vb 4)) (N.shiftr 0 2))) with (seg2 va vb 0).
    rewrite Hz, Hc, Hv. reflexivity.
  - destruct (decode2 a b) as (ca & cb & cc & va & vb & vc & -> & Ha & Hb & Hc & Hz & Hp & Hv1 & Hv2).
    assert (Hk2 : (k <= 2)%nat) by (cbn in Hk; lia).
    assert (Hr : check_rest (pad k) = true) by (apply check_rest_pad; eauto).
    change ((String ca (String cb (String cc "")) ++ pad k)%string) with (String ca (String cb (String cc (pad k)))).
    unfold from_tail.
    assert (Ep : Ascii.eqb padding cc = false) by (apply Ascii.eqb_neq; congruence).
    rewrite Ep, Hc. cbn [bind]. rewrite Ha. cbn [bind]. rewrite Hb. cbn [bind].
    change (u16 (N.lor (N.lor (N.shiftl va 10) (N.shiftl vb 4)) (N.shiftr vc 2))) with (seg2 va vb vc).
    rewrite Hz, Hr, Hv1, Hv2. reflexivity.
Qed.

Lemma from_loop_complete l : forall acc k, (k <= max_pad l)%nat ->
  from_loop acc (rfc4648_unpadded l ++ pad k)%string = Ok (acc ++ l).
Proof.
  assert (Htail : forall l acc k, (List.length l < 3)%nat -> (k <= max_pad l)%nat ->
     from_loop acc (rfc4648_unpadded l ++ pad k)%string = from_tail acc (rfc4648_unpadded l ++ pad k)%string).
  { clear. intros l acc k Hl Hk. destruct l as [|a [|b [|? ?]]]; [| | |simpl in Hl; lia].
    - cbn in Hk. destruct k as [|[|k]]; try reflexivity; lia.
    - destruct (decode1 a) as (ca & cb & va & vb & -> & _). cbn in Hk.
      destruct k as [|[|[|k]]]; try reflexivity; lia.
    - destruct (decode2 a b) as (ca & cb & cc & va & vb & vc & -> & _). cbn in Hk.
      destruct k as [|[|[|k]]]; try reflexivity; lia. }
  induction l as [|a|a b|a b c l IH] using list3_ind; intros acc k Hk.
  1-3: rewrite Htail by (assumption || (simpl; lia)); apply from_tail_complete; (assumption || (simpl; lia)).
  change (a :: b :: c :: l) with ([a; b; c] ++ l) in *.
  rewrite max_pad_app in Hk by reflexivity.
  rewrite (unpadded_app_full [a; b; c] l) by reflexivity.
  destruct (decode3 a b c) as (ca & cb & cc & cd & va & vb & vc & vd & -> & Ha & Hb & Hc & Hd & Hp & H1 & H2 & H3).
  cbn [String.append from_loop].
  assert (Ep : Ascii.eqb cd padding = false) by (apply Ascii.eqb_neq; congruence).
  rewrite Ep, Ha, Hb, Hc, Hd. cbn [bind].
  change (N.lor (N.lor (N.lor (N.shiftl va 18) (N.shiftl vb 12)) (N.shiftl vc 6)) vd) with (seg4 va vb vc vd).
  rewrite H1, H2, H3, IH by assumption. rewrite <- app_assoc. reflexivity.
Qed.

Lemma fromBase64_loop s : fromBase64 s = from_loop [] s.
Proof. destruct s; reflexivity. Qed.

Lemma fromBase64_iff s bs :
  fromBase64 s = Ok bs <->
  exists k, s = (rfc4648_unpadded bs ++ pad k)%string /\ (k <= max_pad bs)%nat.
Proof.
  rewrite fromBase64_loop. split.
  - intros H. apply from_loop_sound in H as (l & k & -> & -> & Hk); [|reflexivity]. exists k. auto.
  - intros (k & -> & Hk). apply (from_loop_complete bs [] k Hk).
Qed.

Lemma verify_from_no_ub c : verify_from c <> UB /\ forall e, verify_from c = Throw e -> exists m, e = Exn logic_error m.
Proof.
  destruct (verify_from_cases c) as [[v ->]|[m ->]]; split; try discriminate.
  intros e [= <-]. eauto.
Qed.

Definition benign {A} (r : result A) : Prop := match r with Ok _ => True | Throw (Exn logic_error _) => True | _ => False end.
Lemma benign_bind {A B} (r : result A) (f : A -> result B) :
  benign r -> (forall a, benign (f a)) -> benign (bind r f).
Proof. destruct r as [a|e|]; simpl; auto. Qed.
Lemma benign_verify c : benign (verify_from c).
Proof. unfold verify_from. destruct (N.ltb _ _); exact I. Qed.

Lemma from_tail_benign acc s : benign (from_tail acc s).
Proof.
  unfold from_tail. destruct s as [|a [|b rest]].
  1-2: destruct (check_rest _); exact I.
  apply benign_bind.
  { destruct rest as [|c r]; [exact I|]. destruct (Ascii.eqb padding c); [exact I|apply benign_verify]. }
  intros t. apply benign_bind; [apply benign_verify|]. intros va. apply benign_bind; [apply benign_verify|]. intros vb.
  destruct (match rest with String c _ => _ | EmptyString => None end).
  - destruct (negb _); [exact I|]. destruct (check_rest _); exact I.
  - destruct (negb _); [exact I|]. destruct (check_rest _); exact I.
Qed.

Lemma from_loop_benign s : forall acc, benign (from_loop acc s).
Proof.
  induction s as [s Hs|ca cb cc cd s IH] using string4_ind; intros acc.
  - destruct s as [|? [|? [|? [|? ?]]]]; try apply from_tail_benign. simpl in Hs. lia.
  - cbn [from_loop]. destruct (Ascii.eqb cd padding); [apply from_tail_benign|].
    repeat (apply benign_bind; [apply benign_verify|]; intros ?). apply IH.
Qed.

Lemma fromBase64_total s : (exists bs, fromBase64 s = Ok bs) \/ (exists m, fromBase64 s = Throw (Exn logic_error m)).
Proof.
  rewrite fromBase64_loop. pose proof (from_loop_benign s []) as H.
  destruct (from_loop [] s) as [bs|e|]; [left; eauto| |destruct H].
  destruct e as [cls m|?]; [|destruct H]. destruct cls; try destruct H. right. eauto.
Qed.

Lemma pad_rfc_le bs : (rfc4648_padding bs <= max_pad bs)%nat.
Proof.
  unfold rfc4648_padding, max_pad. pose proof (Nat.mod_upper_bound (List.length bs) 3) as H.
  destruct (List.length bs mod 3)%nat as [|[|[|]]]; lia.
Qed.

Lemma roundtrip bs : fromBase64 (rfc4648 bs) = Ok bs.
Proof. apply fromBase64_iff. eexists. split; [reflexivity|apply pad_rfc_le]. Qed.

Lemma slength_app a b : (String.length (a ++ b) = String.length a + String.length b)%nat.
Proof. induction a as [|x a IH]; simpl; [reflexivity|]. now rewrite IH. Qed.

Lemma rfc_length bs : (String.length (rfc4648 bs) = 4 * ((List.length bs + 2) / 3))%nat.
Proof.
  induction bs as [|a|a b|a b c l IH] using list3_ind.
  - reflexivity.
  - destruct a; reflexivity.
  - destruct a, b; reflexivity.
  - unfold rfc4648 in *. rewrite padding_cons3, slength_app in *.
    destruct (unpadded_cons3 a b c l) as (c0 & c1 & c2 & c3 & -> & _).
    cbn [List.length String.length].
    replace (S (S (S (List.length l))) + 2)%nat with (List.length l + 2 + 1 * 3)%nat by lia.
    rewrite Nat.div_add by lia. lia.
Qed.

Lemma toBase64_injective b1 b2 text : toBase64 b1 = Ok text -> toBase64 b2 = Ok text -> b1 = b2.
Proof.
  rewrite !toBase64_rfc. intros [= E1] [= E2]. pose proof (roundtrip b1) as H1. pose proof (roundtrip b2) as H2.
  rewrite E1 in H1. rewrite E2 in H2. congruence.
Qed.

Lemma fromBase64_iff' text bytes :
  fromBase64 text = Ok bytes <->
  exists k, text = (rfc4648_unpadded bytes ++ pad k)%string /\ (k <= 2 /\ (List.length bytes mod 3 = 0 -> k <= 1))%nat.
Proof.
  rewrite fromBase64_iff. unfold max_pad.
  split; intros (k & -> & Hk); exists k; (split; [reflexivity|]); destruct (List.length bytes mod 3)%nat; lia.
Qed.

Lemma sextets_alphabet bits : forall i c, String.get i (sextets bits) = Some c -> exists j, String.get j alphabet = Some c.
Proof.
  assert (Hc : forall b5 b4 b3 b2 b1 b0, exists j, String.get j alphabet = Some (sextet_char b5 b4 b3 b2 b1 b0)).
  { intros. exists (sextet_index b5 b4 b3 b2 b1 b0). destruct b5, b4, b3, b2, b1, b0; reflexivity. }
  revert bits. fix IH 1. intros bits.
  destruct bits as [|b5 [|b4 [|b3 [|b2 [|b1 [|b0 rest]]]]]]; intros i c; cbn [sextets].
  1: destruct i; discriminate.
  1-5: destruct i as [|i]; cbn [String.get]; [intros [= <-]; apply Hc|destruct i; discriminate].
  destruct i as [|i]; cbn [String.get]; [intros [= <-]; apply Hc|apply IH].
Qed.

Lemma get_app a b i c : String.get i (a ++ b)%string = Some c ->
  String.get i a = Some c \/ exists j, String.get j b = Some c.
Proof.
  revert i. induction a as [|x a IH]; intros i; simpl; [eauto|].
  destruct i as [|i]; [auto|]. apply IH.
Qed.

Lemma get_pad k j c : String.get j (pad k) = Some c -> c = "="%char.
Proof. revert j. induction k as [|k IH]; intros [|j]; simpl; try discriminate; [congruence|apply IH]. Qed.

Lemma decode_alphabet text bytes i c :
  fromBase64 text = Ok bytes -> String.get i text = Some c ->
  (exists j, String.get j alphabet = Some c) \/ c = "="%char.
Proof.
  intros H Hi. apply fromBase64_iff in H as (k & -> & _). apply get_app in Hi as [Hi|[j Hj]].
  - left. eapply sextets_alphabet; eauto.
  - right. eapply get_pad; eauto.
Qed.

Lemma canonical_refuted : ~ (forall text bytes, fromBase64 text = Ok bytes -> text = rfc4648 bytes).
Proof.
  intros H. specialize (H "="%string []). vm_compute in H. specialize (H eq_refl). discriminate.
Qed.

Lemma toBase64_length bytes text :
  toBase64 bytes = Ok text -> (String.length text = 4 * ((List.length bytes + 2) / 3))%nat.
Proof. rewrite toBase64_rfc. intros [= <-]. apply rfc_length. Qed.
