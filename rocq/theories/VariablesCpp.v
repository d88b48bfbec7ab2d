(** The C++ types of a client's variables and the values it sends (for C56). *)
From Coq Require Import String List Bool Relations Permutation Lia Arith.
From Verif Require Import Cpp Value Ast Base64Model Base64Spec Base64Proofs JSONModel JSONSpec JSONProofs SchemaModel ModifiersModel ModifiersSpec ModifiersProofs RoundTripProofs
  LoaderModel LoaderSpec LoaderProofs ValidationModel ValidationSpec ClientModel ClientSpec ClientProofs TypedSpec TypedValues VariablesModel VariablesSpec VariablesProofs.
Import ListNotations.
Local Open Scope string_scope.
Local Open Scope list_scope.

Scheme input_cpp_mind := Minimality for input_cpp Sort Prop
  with inputs_cpp_mind := Minimality for inputs_cpp Sort Prop.
Combined Scheme input_cpp_both from input_cpp_mind, inputs_cpp_mind.

Lemma no_double n ms t : ~ stands_for n ms (TNonNull (TNonNull t)).
Proof.
  intros H. remember (TNonNull (TNonNull t)) as u. revert t Hequ. induction H as [|ms e H IH|ms u H IH]; intros t Hu; [discriminate|discriminate|].
  apply (IH (TNonNull t)). now subst u.
Qed.
Lemma stands_fun n ms ty : stands_for n ms ty -> forall ms', stands_for n ms' ty -> ms' = ms.
Proof.
  induction 1 as [|ms e H IH|ms u H IH]; intros ms' H'.
  - inversion H' as [|ms2 e2 H2|ms2 u2 H2]; subst; [reflexivity|exfalso; exact (no_double _ _ _ H2)].
  - inversion H' as [|ms2 e2 H2|ms2 u2 H2]; subst; [f_equal; apply IH; exact H2|exfalso; exact (no_double _ _ _ H2)].
  - inversion H' as [|ms2 e2 H2|ms2 u2 H2]; subst.
    + exfalso. exact (no_double _ _ _ H).
    + exfalso. exact (no_double _ _ _ H).
    + f_equal. apply IH. exact H2.
Qed.
Lemma stands_ok n ms ty : stands_for n ms ty -> stack_ok ms = true.
Proof.
  induction 1 as [|ms e H IH|ms u H IH]; [reflexivity|exact IH|]. destruct ms as [|[] ms]; [reflexivity| |exact IH]. exfalso. inversion H as [| |ms2 u2 H2]. exact (no_double _ _ _ H2).
Qed.

Section Types.
Variable S : schema.
Hypothesis WF : schema_wf S.
Hypothesis DE : enums_distinct S.

Lemma leaf_fun n k k' : cpp_leaf S n k -> cpp_leaf S n k' -> k = k' \/ exists c c' names, k = KEnum c names /\ k' = KEnum c' names.
Proof.
  intros H H'. assert (B : forall m, In m ["Int"; "Float"; "String"; "Boolean"; "ID"] -> builtin_scalar m) by (intros m; unfold builtin_scalar; cbn; tauto).
  assert (E : forall m d, find_type S m = Some d -> td_kind d = ENUM -> ~ builtin_scalar m) by (intros m d F K; exact (proj2 (DE m d F K))).
  assert (X : forall m d, find_type S m = Some d -> td_kind d = ENUM -> ~ type_is S m SCALAR) by (intros m d F K (d' & F' & K'); congruence).
  inversion H; subst; inversion H'; subst; auto; try discriminate;
    try (match goal with Hn : ~ builtin_scalar _ |- _ => exfalso; apply Hn; apply B; cbn; tauto end);
    try (match goal with F : find_type S _ = Some ?d, K : td_kind ?d = ENUM |- _ => exfalso; apply (E _ _ F K); apply B; cbn; tauto end);
    try (match goal with F : find_type S _ = Some ?d, K : td_kind ?d = ENUM, T : type_is _ _ SCALAR |- _ => exfalso; exact (X _ _ F K T) end).
  right. match goal with F : find_type S _ = Some ?d, F' : find_type S _ = Some ?d' |- _ => assert (d' = d) by congruence; subst d' end. eauto.
Qed.

(** Two C++ types of the same input type have the same values, which are sent alike. *)
Definition alike_types (t t' : itype) : Prop := forall x, (typed [] t x -> typed [] t' x) /\ serialize_input t x = serialize_input t' x.
Lemma mods_alike t t' ms : alike_types t t' -> forall x, (typed ms t x -> typed ms t' x) /\ serialize_mods (serialize_input t) ms x = serialize_mods (serialize_input t') ms x.
Proof.
  intros H. induction ms as [|[] ms IH]; intros x.
  - apply H.
  - split; [|destruct x as [| | | | | | |[y|]| |]; cbn [serialize_mods]; auto; apply IH]. intros T. inversion T; subst; constructor. now apply IH.
  - split.
    + intros T. inversion T as [| |? ? l Tl| |]; subst. constructor. clear T. induction l as [|y l IHl]; [constructor|]. inversion Tl; subst. constructor; [now apply IH|auto].
    + destruct x; cbn [serialize_mods]; auto. assert (E : mapM (serialize_mods (serialize_input t) ms) l = mapM (serialize_mods (serialize_input t') ms) l); [|rewrite E; reflexivity].
      induction l as [|y l IHl]; [reflexivity|]. cbn [mapM]. rewrite (proj2 (IH y)), IHl. reflexivity.
Qed.
Lemma types_alike : (forall n t, input_cpp S n t -> forall t', input_cpp S n t' -> alike_types t t') /\
  (forall l fs, inputs_cpp S l fs -> forall fs', inputs_cpp S l fs' -> forall xs, (typed_fields fs xs -> typed_fields fs' xs) /\ forall acc, serialize_fields fs xs acc = serialize_fields fs' xs acc).
Proof.
  apply input_cpp_both.
  - intros n k Hn Hk t' H'. inversion H' as [? k' Hn' Hk'|? d fs Hf K Hi]; subst.
    + destruct (leaf_fun n k k' Hk Hk') as [<-|(c & c' & names & -> & ->)]; [intros x; auto|]. intros x. split; [|reflexivity]. intros T. inversion T as [| | |? ? L|]; subst. inversion L; subst. repeat constructor. assumption.
    + exfalso. destruct Hn as [(d' & F' & K')|(d' & F' & K')]; congruence.
  - intros n d fs Hf K _ IH t' H'. inversion H' as [? k' Hn' Hk'|? d' fs' Hf' K' Hi]; subst.
    + exfalso. destruct Hn' as [(d' & F' & K')|(d' & F' & K')]; congruence.
    + assert (d' = d) by congruence. subst d'. intros x. split.
      * intros T. inversion T as [| | | |? xs Tx]; subst. constructor. apply (IH fs' Hi xs). exact Tx.
      * destruct x; try reflexivity. rewrite !serialize_struct. rewrite (proj2 (IH fs' Hi _) []). reflexivity.
  - intros fs' H' xs. inversion H'; subst. auto.
  - intros a l ms t d fs Hs _ IHt _ IHf fs' H' xs. inversion H' as [|? ? ms' t' d' fs2 Hs' Ht' Hf']; subst. rewrite (stands_fun _ _ _ Hs _ Hs') in *. split.
    + intros T. inversion T as [|? ? ? ? ? x xs' Tx Txs]; subst. constructor; [apply (mods_alike t t' ms (IHt t' Ht')); exact Tx|apply (IHf fs2 Hf'); exact Txs].
    + intros acc. destruct xs as [|x xs]; [reflexivity|]. cbn [serialize_fields]. rewrite (proj2 (mods_alike t t' ms (IHt t' Ht') x)). destruct (serialize_mods (serialize_input t') ms x); cbn [bind]; try reflexivity. apply (IHf fs2 Hf').
Qed.
Lemma same_sent n t t' ms x : input_cpp S n t -> input_cpp S n t' -> (typed ms t x -> typed ms t' x) /\ serialize ms t x = serialize ms t' x.
Proof. intros H H'. apply mods_alike. exact (proj1 types_alike n t H t' H'). Qed.

Lemma types_ok : names_clean S -> (forall n t, input_cpp S n t -> type_ok t = true) /\
  (forall l fs, inputs_cpp S l fs -> NoDup (map iv_name l) -> (forall a, In a l -> no_nul (iv_name a) = true) -> map fst fs = map iv_name l /\
     forallb (fun f : field => no_nul (fst f) && stack_ok (fst (snd f)) && type_ok (fst (snd (snd f)))) fs = true).
Proof.
  intros CL. apply input_cpp_both.
  - intros n k Hn Hk. inversion Hk as [| | | | |? ? ?|? d c Hf K]; subst; try reflexivity. cbn [type_ok]. apply andb_true_intro. split.
    + apply unique_nodup. apply (DE n d Hf K).
    + apply forallb_forall. intros x Hx. apply in_map_iff in Hx. destruct Hx as (v & <- & Hv). apply (proj1 (CL n d Hf) K v Hv).
  - intros n d fs Hf K _ IH. destruct (IH (proj1 (wf_inputs S WF n d Hf K)) (proj2 (CL n d Hf) K)) as [E B]. cbn [type_ok]. apply andb_true_intro. split; [|exact B]. apply unique_nodup. replace (map fst fs) with (map iv_name (td_inputs d)). apply (wf_inputs S WF n d Hf K).
  - auto.
  - intros a l ms t d fs Hs _ IHt _ IHf Hn Hc. inversion Hn as [|? ? N1 N2]; subst. destruct (IHf N2 (fun b Hb => Hc b (or_intror Hb))) as [E B]. split; [cbn [map fst]; f_equal; exact E|].
    cbn [forallb fst snd]. rewrite (Hc a (or_introl eq_refl)), (stands_ok _ _ _ Hs), IHt, B. reflexivity.
Qed.

(** What is sent, as it is or as JSON. *)
Section Sent.
Variable trip : option (spec_float -> spec_float).
Definition sent (v : value) : value := match trip with Some f => through_json f v | None => v end.
Definition safe (x : cppval) : Prop := match trip with Some f => json_safe f x | None => True end.
Lemma sent_list l : sent (VList l) = VList (map sent l).
Proof. unfold sent. destruct trip; [reflexivity|]. now rewrite map_id. Qed.
Lemma sent_map es : sent (VMap es) = VMap (map (fun kv => (fst kv, sent (snd kv))) es).
Proof. unfold sent. destruct trip; [reflexivity|]. f_equal. induction es as [|[k v] es IH]; [reflexivity|]. cbn [map fst snd]. now rewrite <- IH. Qed.
Lemma safe_vec l : safe (XVec l) -> Forall safe l.
Proof. unfold safe. destruct trip; [|intros _; induction l; constructor; auto]. cbn [json_safe]. induction l as [|x l IH]; [constructor|]. cbn [fold_right]. intros [H1 H2]. constructor; auto. Qed.
Lemma safe_struct l : safe (XStruct l) -> Forall safe l.
Proof. unfold safe. destruct trip; [|intros _; induction l; constructor; auto]. cbn [json_safe]. induction l as [|x l IH]; [constructor|]. cbn [fold_right]. intros [H1 H2]. constructor; auto. Qed.

Definition fits_here (n : string) (t : itype) : Prop := forall x v, safe x -> typed [] t x -> serialize_input t x = Ok v -> sent v <> VNull /\ input_fits S (TNamed n) (sent v).
Lemma fits_mods n t : fits_here n t -> forall ms ty, stands_for n ms ty -> forall x v, safe x -> typed ms t x -> serialize_mods (serialize_input t) ms x = Ok v -> input_fits S ty (sent v).
Proof.
  intros H ms ty Hs. induction Hs as [|ms e Hs IH|ms ty Hs IH]; intros x v Sx T E.
  - destruct (H x v Sx T E) as [N F]. apply if_nonnull; assumption.
  - inversion T as [| |? ? l Tl| |]; subst. cbn [serialize_mods] in E. destruct (mapM (serialize_mods (serialize_input t) ms) l) as [vs| |] eqn:M; try discriminate. cbn [bind] in E. injection E as <-. rewrite sent_list.
    apply if_nonnull; [discriminate|]. apply if_list. apply safe_vec in Sx. clear T Hs. revert vs M. induction l as [|y l IHl]; intros vs M; cbn [mapM] in M.
    + injection M as <-. constructor.
    + destruct (serialize_mods (serialize_input t) ms y) as [w| |] eqn:Ew; try discriminate. cbn [bind] in M. destruct (mapM _ l) as [ws| |] eqn:Ews; try discriminate. cbn [bind] in M. injection M as <-.
      inversion Tl as [|? ? ? ? Ty Tl']; subst. inversion Sx as [|? ? Sy Sl]; subst. cbn [map]. constructor; [exact (IH y w Sy Ty Ew)|apply IHl; auto].
  - inversion T as [|? ? y Ty| | |]; subst; cbn [serialize_mods] in E.
    + injection E as <-. replace (sent VNull) with VNull by (unfold sent; destruct trip; reflexivity). apply if_null. intros (u & ->). exact (no_double _ _ _ Hs).
    + assert (F : input_fits S (TNonNull ty) (sent v)).
      { apply (IH y v); auto. }
      inversion F as [u N|u w N F'| | | | | | | | | | |]; subst; [exfalso; apply N; eexists; reflexivity|exact F'].
Qed.
Lemma forall2_combine_sent names vs : length vs = length names -> map (fun kv : string * value => (fst kv, sent (snd kv))) (combine names vs) = combine names (map sent vs).
Proof. revert vs. induction names as [|a names IH]; intros [|v vs] H; cbn in *; try discriminate; [reflexivity|]. f_equal. apply IH. congruence. Qed.
Lemma types_fit : names_clean S -> (forall n t, input_cpp S n t -> fits_here n t) /\
  (forall l fs, inputs_cpp S l fs -> forall xs vs, Forall safe xs -> typed_fields fs xs ->
     Forall2 (fun (f : field) (p : cppval * value) => serialize_mods (serialize_input (fst (snd (snd f)))) (fst (snd f)) (fst p) = Ok (snd p)) fs (combine xs vs) -> length vs = length fs ->
     Forall2 (fun a kv => fst kv = iv_name a /\ input_fits S (iv_type a) (snd kv)) l (combine (map fst fs) (map sent vs))).
Proof.
  intros CL. apply input_cpp_both.
  - intros n k Hn Hk x v Sx T E. inversion T as [| | |? ? L|]; subst. cbn [serialize_input] in E.
    inversion Hk; subst; inversion L; subst; cbn [serialize_leaf] in E; unfold sent; try (injection E as <-).
    + destruct trip; (split; [discriminate|now apply if_int]).
    + destruct trip; (split; [discriminate|now apply if_float]).
    + destruct trip; (split; [discriminate|now apply if_string]).
    + destruct trip; (split; [discriminate|now apply if_boolean]).
    + rewrite toBase64_rfc in E. cbn [bind] in E. injection E as <-. assert (D : decodes (rfc4648 bytes) bytes).
      { assert (R := roundtrip bytes). apply fromBase64_iff in R. destruct R as (k & E & B). exists k. unfold max_pad in B. split; [exact E|]. destruct (List.length bytes mod 3); split; try lia. }
      destruct trip; (split; [discriminate|eapply if_id; exact D]).
    + unfold safe in Sx. destruct trip; [contradiction|]. split; [assumption|now apply if_custom].
    + destruct (nth_error (map ev_name (td_enums d)) i) as [s|] eqn:Ei; [|discriminate]. injection E as <-. apply nth_error_In in Ei. destruct trip; (split; [discriminate|]); [eapply if_enum_json|eapply if_enum]; eauto.
  - intros n d fs Hf K Hi IH x v Sx T E. inversion T as [| | | |? xs Tx]; subst. rewrite serialize_struct in E. apply safe_struct in Sx.
    assert (W := wf_inputs S WF n d Hf K). destruct (proj2 (types_ok CL) _ _ Hi (proj1 W) (proj2 (CL n d Hf) K)) as [En Ok_].
    destruct (serialize_fields_ok fs xs []) as (vs & Es & G & L).
    { clear -Tx Ok_. induction Tx as [|name ms t d fs x xs Tx _ IHT]; [constructor|]. cbn [forallb fst snd] in Ok_. apply andb_prop in Ok_. destruct Ok_ as [O1 O2]. apply andb_prop in O1. destruct O1 as [O1 O3]. apply andb_prop in O1. destruct O1 as [_ O1].
      constructor; [|exact (IHT O2)]. cbn [fst snd]. destruct (both_typed ms t x O3 O1 Tx) as (v & Ev & _). exists v. exact Ev. }
    { cbn [map app]. rewrite En. apply W. }
    rewrite Es in E. cbn [bind app] in E. injection E as <-. assert (F := IH xs vs Sx Tx G L). rewrite sent_map, forall2_combine_sent by (rewrite map_length; exact L).
    split; [discriminate|]. apply (if_object S n d _ Hf K). constructor.
    + intros k w Hw. apply TypedValues.lookup_in in Hw. destruct (forall2_in_right _ _ _ _ _ _ F Hw) as (a & Ia & Ea & Fa). exists a. split; [exact Ia|]. split; [symmetry; exact Ea|]. apply pf_fits. exact Fa.
    + intros a Ia _. apply lookup_present. rewrite combine_fst by (rewrite !map_length; exact L). rewrite En. apply in_map. exact Ia.
  - intros xs vs _ T G L. inversion T; subst. destruct vs; [|discriminate]. constructor.
  - intros a l ms t d fs Hs _ IHt _ IHf xs vs Sx T G L. inversion T as [|? ? ? ? ? x xs' Tx Txs]; subst. destruct vs as [|v vs]; [discriminate|]. cbn [combine] in G. inversion G as [|? ? ? ? G1 G2]; subst. inversion Sx as [|? ? S1 S2]; subst. cbn [fst snd] in G1.
    cbn [map fst combine]. constructor; [|apply (IHf xs' vs); auto]. cbn [fst snd]. split; [reflexivity|]. exact (fits_mods _ t IHt ms _ Hs x v S1 Tx G1).
Qed.
End Sent.
End Types.
