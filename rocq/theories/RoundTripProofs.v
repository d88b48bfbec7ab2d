From Verif Require Import Cpp Value Base64Model Base64Spec Base64Proofs ModifiersModel JSONModel JSONSpec JSONProofs ModifiersSpec ModifiersProofs.
Local Open Scope list_scope.

Fixpoint serialize_fields (fs : list field) (xs : list cppval) (acc : list (string * value)) : result (list (string * value)) :=
  match fs, xs with
  | [], [] => Ok acc
  | (name, (ms, (ft, _))) :: fs', y :: xs' =>
      v <- serialize_mods (serialize_input ft) ms y ;;
      serialize_fields fs' xs' (fst (map_emplace acc name v))
  | _, _ => UB
  end.
Lemma serialize_struct fs xs : serialize_input (IStruct fs) (XStruct xs) = (es <- serialize_fields fs xs [] ;; Ok (VMap es)).
Proof. reflexivity. Qed.

(** what a serialised value must satisfy, for a parser pair *)
Definition good (t : itype) (x : cppval) (v : value) : Prop :=
  v <> VNull /\ has_null_scalar v = false /\ convert_input t v = Ok x /\ parse_output t v = Ok x.
Definition goodm (ms : list modifier) (t : itype) (x : cppval) (v : value) : Prop :=
  (match ms with MNullable :: _ => True | _ => v <> VNull end) /\ has_null_scalar v = false /\
  (forall name es, lookup name es = Some v -> require_mods (require_base (convert_input t)) ms name (VMap es) = Ok x) /\
  parse_mods (parse_output t) ms v = Ok x.

Lemma good_base t x v : good t x v -> goodm [] t x v.
Proof.
  intros (A & B & C & D). repeat split; auto. intros name es L. cbn. apply require_base_ok. eauto.
Qed.

Definition both (ms : list modifier) (t : itype) (x : cppval) : Prop :=
  exists v, serialize_mods (serialize_input t) ms x = Ok v /\ goodm ms t x v /\
    forall trip, json_safe trip x -> representable v = true /\ goodm ms t x (through_json trip v).

Scheme typed_mind := Minimality for typed Sort Prop
  with typed_all_mind := Minimality for typed_all Sort Prop
  with typed_fields_mind := Minimality for typed_fields Sort Prop.

(** lists of modifiers over a base that round trips *)
Lemma both_mods t : (forall x, typed [] t x -> both [] t x) -> forall ms x, stack_ok ms = true -> typed ms t x -> both ms t x.
Proof.
  intros HB. induction ms as [|[] ms IH]; intros x S T; auto.
  - assert (S' : stack_ok ms = true) by (destruct ms as [|[] ms]; [reflexivity|discriminate|exact S]).
    inversion T as [| ? ? y Ty | | |]; subst.
    + exists VNull. split; [reflexivity|]. split.
      * split; [exact I|]. split; [reflexivity|]. split; [intros name es L; cbn; now rewrite L|reflexivity].
      * intros trip _. split; [reflexivity|]. cbn. split; [exact I|]. split; [reflexivity|]. split; [intros name es L; cbn; now rewrite L|reflexivity].
    + destruct (IH y S' Ty) as (v & E & G & J).
      assert (K : forall w, goodm ms t y w -> goodm (MNullable :: ms) t (XOpt (Some y)) w).
      { intros w (W1 & W2 & W3 & W4). assert (W1' : w <> VNull) by (destruct ms as [|[] ms]; [exact W1|discriminate|exact W1]).
        split; [exact I|]. split; [exact W2|]. split.
        - intros name es L. cbn. rewrite L. rewrite (W3 name es L). destruct w; cbn; congruence.
        - cbn. rewrite W4. destruct w; cbn; congruence. }
      exists v. split; [exact E|]. split; [now apply K|]. intros trip JS. destruct (J trip JS). auto.
  - assert (S' : stack_ok ms = true) by exact S.
    inversion T as [| |? ? l Ta| |]; subst.
    assert (G : exists vs, mapM (serialize_mods (serialize_input t) ms) l = Ok vs /\
       Forall2 (goodm ms t) l vs /\ forall trip, json_safe trip (XVec l) -> forallb representable vs = true /\ Forall2 (goodm ms t) l (map (through_json trip) vs)).
    { clear T. induction l as [|y l IHl].
      - exists []. repeat split; constructor.
      - inversion Ta; subst. destruct (IH y S' H3) as (v & E & G & J). destruct (IHl H4) as (vs & Es & Gs & Js).
        exists (v :: vs). cbn [mapM]. rewrite E. cbn [bind]. rewrite Es. split; [reflexivity|]. split; [now constructor|].
        intros trip [J1 J2]. destruct (J trip J1) as [R1 G1]. destruct (Js trip J2) as [R2 G2]. cbn. rewrite R1, R2.
        split; [reflexivity|now constructor]. }
    destruct G as (vs & E & F & J).
    assert (K : forall ws, Forall2 (goodm ms t) l ws -> goodm (MList :: ms) t (XVec l) (VList ws)).
    { intros ws FW. split; [discriminate|]. split.
      - cbn. clear - FW. induction FW as [|y w l ws (_ & N & _) _ IHF]; cbn; [reflexivity|]. now rewrite N.
      - split.
        + intros name es L. cbn [require_mods]. unfold index_name. rewrite L. cbn [bind].
          assert (M : mapM (fun e => e' <- vcopy e ;; require_mods (require_base (convert_input t)) ms name (VMap [(name, e')])) ws = Ok l).
          { clear - FW. induction FW as [|y w l ws (_ & N & R & _) _ IHF]; cbn [mapM]; [reflexivity|].
            rewrite vcopy_ok by assumption. cbn [bind]. rewrite R by (cbn; now rewrite String.eqb_refl). cbn [bind]. now rewrite IHF. }
          now rewrite M.
        + cbn [parse_mods]. assert (M : mapM (parse_mods (parse_output t) ms) ws = Ok l).
          { clear - FW. induction FW as [|y w l ws (_ & _ & _ & R) _ IHF]; cbn [mapM]; [reflexivity|]. rewrite R. cbn [bind]. now rewrite IHF. }
          now rewrite M. }
    exists (VList vs). cbn [serialize_mods]. rewrite E. split; [reflexivity|]. split; [now apply K|].
    intros trip JS. destruct (J trip JS) as [R FW]. split; [exact R|]. now apply K.
Qed.

(** ** leaves *)
Lemma no_nul_get s : (forall i c, String.get i s = Some c -> c <> zero) -> no_nul s = true.
Proof.
  induction s as [|c s IH]; intros H; cbn; [reflexivity|].
  rewrite IH; [|intros i c' G; apply (H (S i) c' G)]. rewrite andb_true_r, negb_true_iff.
  destruct (Ascii.eqb_spec c zero); [|reflexivity]. exfalso. apply (H 0 c); [reflexivity|assumption].
Qed.

Lemma base64_no_nul bytes s : toBase64 bytes = Ok s -> no_nul s = true.
Proof.
  intros E. rewrite toBase64_rfc in E. injection E as <-. apply no_nul_get. intros i c G ->.
  destruct (decode_alphabet _ _ i zero (roundtrip bytes) G) as [[j A]|A]; [|discriminate].
  assert (Z : no_nul alphabet = true) by (vm_compute; reflexivity).
  clear - A Z. revert j A. revert Z. generalize alphabet. intros a. induction a as [|c s IH]; intros Z j A; [discriminate|].
  cbn in Z. apply andb_prop in Z as [Z1 Z2]. destruct j; cbn in A; [injection A as ->; discriminate|eauto].
Qed.

Lemma index_of_nth names i s : NoDup names -> nth_error names i = Some s -> index_of s names = Some i.
Proof.
  intros N E. apply index_of_iff. constructor; [exact E|]. intros j L E'.
  assert (i = j); [|lia]. eapply NoDup_nth_error; [exact N|apply nth_error_Some; congruence|congruence].
Qed.

Lemma both_leaf k x : type_ok (ILeaf k) = true -> typed_leaf k x -> both [] (ILeaf k) x.
Proof.
  intros W T. destruct T.
  - exists (VInt z). split; [reflexivity|]. split; [apply good_base; repeat split; discriminate|].
    intros trip _. split; [exact H|]. apply good_base; repeat split; discriminate.
  - exists (VFloat f). split; [reflexivity|]. split; [apply good_base; repeat split; discriminate|].
    intros trip (A & B & C). cbn. rewrite A, B. split; [reflexivity|]. apply good_base; repeat split; try discriminate; cbn; now rewrite C.
  - exists (VString s false). split; [reflexivity|]. split; [apply good_base; repeat split; discriminate|].
    intros trip A. split; [exact A|]. apply good_base; repeat split; discriminate.
  - exists (VBool b). split; [reflexivity|]. split; [apply good_base; repeat split; discriminate|].
    intros trip A. split; [reflexivity|]. apply good_base; repeat split; discriminate.
  - exists (VString (rfc4648 bytes) false). cbn [serialize_mods serialize_input serialize_leaf]. rewrite toBase64_rfc. split; [reflexivity|].
    assert (K : forall j, good (ILeaf KId) (XId bytes) (VString (rfc4648 bytes) j)).
    { intros j. split; [discriminate|]. split; [reflexivity|]. cbn. rewrite roundtrip. split; reflexivity. }
    split; [apply good_base, K|]. intros trip _. split; [|apply good_base, K]. cbn. eapply base64_no_nul. apply toBase64_rfc.
  - exists v. split; [reflexivity|]. split; [apply good_base; repeat split; auto; cbn; now rewrite vcopy_ok|]. intros trip [].
  - cbn in W. apply andb_prop in W as [U NN]. apply unique_nodup in U.
    destruct (nth_error names i) as [s|] eqn:E; [|apply nth_error_None in E; lia].
    exists (VEnum s). cbn [serialize_mods serialize_input serialize_leaf]. rewrite E. split; [reflexivity|].
    assert (K : forall v, enum_text v = Some s -> v <> VNull -> has_null_scalar v = false -> good (ILeaf (KEnum t names)) (XEnum i) v).
    { intros v V1 V2 V3. split; [assumption|]. split; [assumption|]. cbn. rewrite V1, (index_of_nth _ _ _ U E). split; reflexivity. }
    split; [apply good_base, K; try reflexivity; discriminate|]. intros trip _. split.
    + cbn. rewrite forallb_forall in NN. apply NN. eapply nth_error_In; eassumption.
    + apply good_base, K; try reflexivity; discriminate.
Qed.

(** ** structs *)
Lemma lookup_in_unique es k v : NoDup (map fst es) -> In (k, v) es -> lookup k es = Some v.
Proof.
  induction es as [|[k' v'] es IH]; cbn; [tauto|]. intros N H. inversion N; subst.
  destruct (String.eqb_spec k k') as [->|D].
  - destruct H as [E|I]; [injection E as ->; reflexivity|]. exfalso. apply H2. change k' with (fst (k', v)). now apply in_map.
  - destruct H as [E|I]; [injection E as -> ->; congruence|auto].
Qed.

Lemma lookup_in es k v : lookup k es = Some v -> In (k, v) es.
Proof.
  induction es as [|[k' v'] es IH]; cbn; [discriminate|]. destruct (String.eqb_spec k k') as [->|D].
  - intros E; injection E as ->; auto.
  - auto.
Qed.

Lemma nth_error_set_nth {A} (l : list A) i j x : nth_error (set_nth i x l) j = if Nat.eqb i j then (if Nat.ltb j (length l) then Some x else None) else nth_error l j.
Proof.
  revert i j; induction l as [|y l IH]; intros [|i] [|j]; cbn; auto.
  - now destruct (Nat.eqb i j).
  - rewrite IH. reflexivity.
Qed.
Lemma length_set_nth {A} (l : list A) i x : length (set_nth i x l) = length l.
Proof. revert i; induction l as [|y l IH]; intros [|i]; cbn; auto. Qed.

Definition pstep (names : list string) (parsers : list (value -> result cppval)) (acc : result (list cppval)) (kv : string * value) : result (list cppval) :=
  xs <- acc ;;
  match index_of (fst kv) names with
  | None => Ok xs
  | Some i => match nth_error parsers i with Some p => x <- p (snd kv) ;; Ok (set_nth i x xs) | None => Ok xs end
  end.

Lemma parse_fold names parsers (want : nat -> cppval) : length parsers = length names -> NoDup names ->
  forall es, NoDup (map fst es) ->
  (forall k v i p, In (k, v) es -> nth_error names i = Some k -> nth_error parsers i = Some p -> p v = Ok (want i)) ->
  forall cur, length cur = length names ->
  exists out, fold_left (pstep names parsers) es (Ok cur) = Ok out /\ length out = length names /\
    forall i k, nth_error names i = Some k -> nth_error out i = if in_dec string_dec k (map fst es) then Some (want i) else nth_error cur i.
Proof.
  intros LP N. induction es as [|[k v] es IH]; intros NE H cur LC; cbn [fold_left map].
  - exists cur. split; [reflexivity|]. split; [assumption|]. intros i k _. reflexivity.
  - inversion NE as [|? ? NI NE']; subst.
    assert (H' : forall k v i p, In (k, v) es -> nth_error names i = Some k -> nth_error parsers i = Some p -> p v = Ok (want i))
      by (intros; eapply H; [right; eassumption|eassumption|assumption]).
    unfold pstep at 2. cbn [bind fst snd].
    destruct (index_of k names) as [i|] eqn:I.
    + apply index_of_iff in I. rewrite fp_iff in I. destruct I as [I1 I2].
      assert (LI : i < length names) by (apply nth_error_Some; congruence).
      destruct (nth_error parsers i) as [p|] eqn:Pi; [|apply nth_error_None in Pi; lia].
      rewrite (H k v i p (or_introl eq_refl) I1 Pi). cbn [bind].
      destruct (IH NE' H' (set_nth i (want i) cur)) as (out & E & L & O); [now rewrite length_set_nth|].
      exists out. split; [exact E|]. split; [exact L|]. intros j k' J. rewrite (O j k' J).
      assert (LJ : j < length names) by (apply nth_error_Some; congruence).
      rewrite nth_error_set_nth. cbn [fst].
      destruct (in_dec string_dec k' (map fst es)) as [y|n], (in_dec string_dec k' (k :: map fst es)) as [y'|n'].
      * reflexivity.
      * exfalso; apply n'; now right.
      * destruct y' as [->|y']; [|tauto].
        assert (i = j) as ->; [eapply NoDup_nth_error; [exact N|assumption|congruence]|].
        rewrite Nat.eqb_refl. destruct (Nat.ltb_spec j (length cur)); [reflexivity|lia].
      * destruct (Nat.eqb_spec i j) as [->|]; [|reflexivity]. exfalso. apply n'. left. congruence.
    + destruct (IH NE' H' cur LC) as (out & E & L & O). exists out. split; [exact E|]. split; [exact L|].
      intros j k' J. rewrite (O j k' J). cbn [fst].
      assert (k' <> k). { intros ->. rewrite (index_of_nth _ _ _ N J) in I. discriminate. }
      destruct (in_dec string_dec k' (map fst es)) as [y|n], (in_dec string_dec k' (k :: map fst es)) as [y'|n']; try reflexivity.
      * exfalso; apply n'; now right.
      * destruct y' as [->|y']; tauto.
Qed.

Lemma parse_struct_members names parsers init xs es : length parsers = length names -> length init = length names -> length xs = length names ->
  NoDup names -> NoDup (map fst es) ->
  (forall i k p x, nth_error names i = Some k -> nth_error parsers i = Some p -> nth_error xs i = Some x ->
     exists v, lookup k es = Some v /\ p v = Ok x) ->
  parse_struct names parsers init (VMap es) = Ok (XStruct xs).
Proof.
  intros LP LI LX N NE H. cbn [parse_struct].
  destruct (parse_fold names parsers (fun i => nth i xs (XInt 0)) LP N es NE) with (cur := init) as (out & E & L & O); auto.
  { intros k v i p I K P. assert (LL : i < length names) by (apply nth_error_Some; congruence).
    destruct (nth_error xs i) as [x|] eqn:X; [|apply nth_error_None in X; lia].
    destruct (H i k p x K P X) as (v' & LK & PV). rewrite (lookup_in_unique _ _ _ NE I) in LK. injection LK as <-.
    rewrite PV. f_equal. symmetry. now apply nth_error_nth. }
  change (fold_left _ es (Ok init)) with (fold_left (pstep names parsers) es (Ok init)). rewrite E. cbn [bind]. do 2 f_equal.
  apply nth_ext with (d := XInt 0) (d' := XInt 0); [congruence|]. intros i LL. rewrite L in LL.
  destruct (nth_error names i) as [k|] eqn:K; [|apply nth_error_None in K; lia].
  pose proof (O i k K) as OI.
  destruct (nth_error xs i) as [x|] eqn:X; [|apply nth_error_None in X; lia].
  destruct (nth_error parsers i) as [p|] eqn:P; [|apply nth_error_None in P; lia].
  destruct (H i k p x K P X) as (v & LK & _). apply lookup_in in LK.
  destruct (in_dec string_dec k (map fst es)) as [y|n]; [now apply nth_error_nth|].
  exfalso. apply n. change k with (fst (k, v)). now apply in_map.
Qed.

Lemma typed_fields_length fs xs : typed_fields fs xs -> length xs = length fs.
Proof. induction fs in xs |- *; intros T; inversion T; subst; cbn; auto. Qed.

(** every field present in the object with a good value *)
Definition fields_good (fs : list field) (xs : list cppval) (es : list (string * value)) : Prop :=
  Forall2 (fun (f : field) x => exists v, lookup (fst f) es = Some v /\ goodm (fst (snd f)) (fst (snd (snd f))) x v) fs xs.

Lemma struct_good fs xs es : NoDup (map fst fs) -> NoDup (map fst es) -> has_null_scalar (VMap es) = false ->
  fields_good fs xs es -> good (IStruct fs) (XStruct xs) (VMap es).
Proof.
  intros N NE NS F. split; [discriminate|]. split; [exact NS|]. split.
  - rewrite convert_struct. assert (C : convert_fields (VMap es) fs = Ok xs); [|now rewrite C].
    clear N. induction F as [|[name [ms [ft d]]] x fs xs (v & L & (_ & _ & R & _)) _ IHF]; [reflexivity|].
    cbn [fst snd] in *. cbn [convert_fields]. unfold read_declared, find_of. rewrite (R name es L), IHF. cbn [bind].
    destruct d as [[]|]; reflexivity.
  - cbn [parse_output]. apply parse_struct_members; rewrite ?map_length; auto.
    + symmetry. clear - F. induction F; cbn; auto.
    + intros i k p x K P X. clear - F K P X. revert i K P X.
      induction F as [|[name [ms [ft d]]] y fs xs (v & L & (_ & _ & _ & R)) _ IHF]; intros [|i] K P X; try discriminate.
      * cbn in *. injection K as <-. injection P as <-. injection X as <-. eauto.
      * cbn in *. eauto.
Qed.

Lemma serialize_fields_ok fs : forall xs acc, Forall2 (fun (f : field) x => exists v, serialize_mods (serialize_input (fst (snd (snd f)))) (fst (snd f)) x = Ok v) fs xs ->
  NoDup (map fst acc ++ map fst fs) ->
  exists vs, serialize_fields fs xs acc = Ok (acc ++ combine (map fst fs) vs) /\
    Forall2 (fun (f : field) (p : cppval * value) => serialize_mods (serialize_input (fst (snd (snd f)))) (fst (snd f)) (fst p) = Ok (snd p)) fs (combine xs vs) /\ length vs = length fs.
Proof.
  induction fs as [|[name [ms [ft d]]] fs IH]; intros xs acc F N; inversion F as [|? x ? xs' (v & E) F']; subst.
  - exists []. cbn. rewrite app_nil_r. repeat split; constructor.
  - cbn [fst snd] in E. cbn [serialize_fields]. rewrite E. cbn [bind].
    assert (NI : ~ In name (map fst acc)).
    { cbn in N. apply NoDup_remove_2 in N. rewrite in_app_iff in N. tauto. }
    unfold map_emplace, has_key. apply lookup_none in NI. rewrite NI. cbn [fst].
    destruct (IH xs' (acc ++ [(name, v)]) F') as (vs & S & G & L).
    { rewrite map_app, <- app_assoc. exact N. }
    exists (v :: vs). rewrite S. cbn. rewrite <- app_assoc. split; [reflexivity|]. split; [constructor; assumption|]. now rewrite L.
Qed.

Lemma Forall2_len {A B} (R : A -> B -> Prop) l l' : Forall2 R l l' -> length l = length l'.
Proof. induction 1; cbn; auto. Qed.

Lemma combine_fst {A B} (l : list A) (l' : list B) : length l' = length l -> map fst (combine l l') = l.
Proof. revert l'; induction l as [|a l IH]; intros [|b l'] H; cbn in *; try discriminate; auto. f_equal; auto. Qed.

Lemma both_all t : type_ok t = true -> forall x, typed [] t x -> both [] t x.
Proof.
  induction t as [k|fs IH] using itype_ind'; intros W x T.
  - inversion T; subst. now apply both_leaf.
  - inversion T as [| | | |? xs TF]; subst. cbn [type_ok] in W. apply andb_prop in W as [U W]. apply unique_nodup in U.
    assert (B : Forall2 (fun (f : field) x => both (fst (snd f)) (fst (snd (snd f))) x) fs xs).
    { clear U T. induction TF as [|name ms t d fs x xs Tx _ IHT]; [constructor|]. inversion IH; subst. cbn in W.
      apply andb_prop in W as [W1 W2]. apply andb_prop in W1 as [W1 W3]. apply andb_prop in W1 as [_ W1].
      constructor; [|auto]. cbn in *. apply both_mods; auto. }
    clear IH T TF.
    destruct (serialize_fields_ok fs xs []) as (vs & S & G & L).
    { clear - B. induction B as [|f x fs xs (v & E & _) _ IHB]; constructor; eauto. }
    { exact U. }
    exists (VMap (combine (map fst fs) vs)). cbn [serialize_mods]. rewrite serialize_struct, S. split; [reflexivity|].
    assert (LV : length vs = length xs). { apply Forall2_len in B. congruence. }
    assert (K : forall h, Forall2 (fun (f : field) (p : cppval * value) => goodm (fst (snd f)) (fst (snd (snd f))) (fst p) (h (snd p))) fs (combine xs vs) ->
       good (IStruct fs) (XStruct xs) (VMap (combine (map fst fs) (map h vs)))).
    { intros h F. assert (KN : map fst (combine (map fst fs) (map h vs)) = map fst fs) by (apply combine_fst; now rewrite !map_length).
      apply struct_good; auto.
      - now rewrite KN.
      - cbn. clear - F LV. revert vs F LV. generalize xs. induction fs as [|f fs IHfs]; intros xs' vs F LV; [reflexivity|].
        destruct xs' as [|x xs'], vs as [|v vs]; try (now inversion F); try discriminate. cbn in *.
        inversion F as [|? ? ? ? (_ & NS & _) F']; subst. cbn in NS. rewrite NS. cbn. eapply IHfs; [exact F'|congruence].
      - unfold fields_good.
        assert (Z : forall pre, (forall n, In n (map fst pre) -> ~ In n (map fst fs)) ->
          Forall2 (fun (f : field) x => exists v, lookup (fst f) (pre ++ combine (map fst fs) (map h vs)) = Some v /\ goodm (fst (snd f)) (fst (snd (snd f))) x v) fs xs).
        { clear - F LV U. revert xs vs F LV. induction fs as [|f fs IHfs]; intros xs vs F LV pre D.
          - destruct xs as [|x xs], vs as [|v vs]; try discriminate; [constructor|inversion F].
          - destruct xs as [|x xs], vs as [|v vs]; try discriminate; [inversion F|]. inversion F as [|? ? ? ? F1 F']; subst. cbn in U. inversion U as [|? ? NI U']; subst.
            constructor.
            + exists (h v). split; [|exact F1]. cbn.
              assert (LN : lookup (fst f) pre = None). { apply lookup_none. intros I. apply (D _ I). now left. }
              clear - LN. induction pre as [|[k w] pre IHp]; cbn in *; [now rewrite String.eqb_refl|].
              destruct (String.eqb (fst f) k); [discriminate|auto].
            + cbn [map combine]. specialize (IHfs U' xs vs F' ltac:(cbn in LV; congruence) (pre ++ [(fst f, h v)])).
              rewrite <- app_assoc in IHfs. apply IHfs. intros n I. rewrite map_app, in_app_iff in I. cbn in I.
              destruct I as [I|[<-|[]]]; [|exact NI]. intros I'. apply (D n I). now right. }
        apply (Z []). intros n []. }
    split.
    + apply good_base. specialize (K (fun v => v)). rewrite map_id in K. apply K.
      clear - B G. revert vs G. induction B as [|f x fs xs (v & E & M & _) B IHB]; intros vs G.
      * constructor.
      * destruct vs as [|w vs]; [inversion G|]. cbn in *. inversion G; subst. constructor; [|now apply IHB]. cbn in *. congruence.
    + intros trip JS. cbn in JS. split.
      * cbn [representable]. rewrite combine_fst by (rewrite map_length; auto). rewrite (proj2 (unique_nodup _) U). cbn.
        clear - B G JS W. revert vs G W. induction B as [|f x fs xs (v & E & _ & J) B IHB]; intros vs G W; [reflexivity|].
        destruct vs as [|w vs]; [inversion G|]. cbn in *. inversion G; subst. destruct JS as [J1 J2].
        apply andb_prop in W as [W1 W2]. apply andb_prop in W1 as [W1 _]. apply andb_prop in W1 as [W1 _]. cbn in *. rewrite W1.
        destruct (J trip J1) as [R _]. assert (w = v) as -> by congruence. rewrite R. cbn. now apply IHB.
      * apply good_base. cbn [through_json].
        replace (map (fun kv => (fst kv, through_json trip (snd kv))) (combine (map fst fs) vs)) with (combine (map fst fs) (map (through_json trip) vs)).
        2: { clear. revert vs. induction fs as [|f fs IHfs]; intros [|v vs]; cbn; auto. now rewrite IHfs. }
        apply K. clear - B G JS. revert vs G. induction B as [|f x fs xs (v & E & _ & J) B IHB]; intros vs G; [constructor|].
        destruct vs as [|w vs]; [inversion G|]. cbn in *. inversion G; subst. destruct JS as [J1 J2].
        constructor; [|now apply IHB]. cbn in *. assert (w = v) as -> by congruence. now apply J.
Qed.

Lemma both_typed ms t x : type_ok t = true -> stack_ok ms = true -> typed ms t x -> both ms t x.
Proof. intros W S T. apply both_mods; auto. now apply both_all. Qed.
