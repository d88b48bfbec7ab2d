From Verif Require Import Cpp Value JSONModel JSONSpec.

Section JsonInd.
  Variable P : json -> Prop.
  Hypothesis HNull : P JNull.
  Hypothesis HBool : forall b, P (JBool b).
  Hypothesis HInt : forall z, P (JInt z).
  Hypothesis HDouble : forall f, P (JDouble f).
  Hypothesis HString : forall s, P (JString s).
  Hypothesis HObject : forall ms, Forall (fun kv => P (snd kv)) ms -> P (JObject ms).
  Hypothesis HArray : forall l, Forall P l -> P (JArray l).
  Fixpoint json_ind' (j : json) : P j :=
    match j with
    | JNull => HNull | JBool b => HBool b | JInt z => HInt z | JDouble f => HDouble f | JString s => HString s
    | JObject ms => HObject ms ((fix go (ms : list (string * json)) : Forall (fun kv => P (snd kv)) ms :=
        match ms with [] => Forall_nil _ | kv :: ms' => Forall_cons kv (json_ind' (snd kv)) (go ms') end) ms)
    | JArray l => HArray l ((fix go (l : list json) : Forall P l :=
        match l with [] => Forall_nil _ | x :: l' => Forall_cons x (json_ind' x) (go l') end) l)
    end.
End JsonInd.

Section Members.
  Variable big : Z -> spec_float.
  Fixpoint json_members (ms : list (string * json)) : result (list (string * value)) :=
    match ms with [] => Ok [] | (k, x) :: ms' => v <- json_value big x ;; r <- json_members ms' ;; Ok ((c_str k, v) :: r) end.
  Fixpoint json_items (l : list json) : result (list value) :=
    match l with [] => Ok [] | x :: l' => v <- json_value big x ;; r <- json_items l' ;; Ok (v :: r) end.
End Members.

Lemma json_value_object big ms : json_value big (JObject ms) = (es <- json_members big ms ;; Ok (VMap (dedup [] es))).
Proof.
  reflexivity.
Qed.
Lemma json_value_array big l : json_value big (JArray l) = (es <- json_items big l ;; Ok (VList es)).
Proof. reflexivity. Qed.

(** the handler is ready for a value *)
Definition ready (h : handler) : Prop :=
  match responseStack h with
  | [] => False
  | VMap _ :: _ => keyStack h <> []
  | _ => True
  end.

Lemma ready_set h v : ready h -> exists h', setValue h v = Ok h'.
Proof.
  destruct h as [ks [|[]]]; cbn; try tauto; eauto.
  destruct ks; [congruence|eauto].
Qed.

Lemma handle_all_app h e1 e2 : handle_all h (e1 ++ e2) = (h' <- handle_all h e1 ;; handle_all h' e2).
Proof.
  revert h; induction e1 as [|e e1 IH]; intros h; cbn; [reflexivity|].
  destruct (handle h e); cbn; auto.
Qed.

Lemma bind_assoc {A B C} (x : result A) (f : A -> result B) (g : B -> result C) :
  bind (bind x f) g = bind x (fun a => bind (f a) g).
Proof. destruct x; reflexivity. Qed.

Definition add_all (acc es : list (string * value)) := fold_left (fun a kv => fst (map_emplace a (fst kv) (snd kv))) es acc.

Lemma lookup_none name es : lookup name es = None <-> ~ In name (map fst es).
Proof.
  induction es as [|[k v] es IH]; cbn; [tauto|].
  destruct (String.eqb_spec name k); subst; [split; [discriminate|tauto]|].
  rewrite IH. split; [intros H [E|E]; [congruence|auto]|tauto].
Qed.

Lemma dedup_ext seen seen' es : (forall x, In x seen <-> In x seen') -> dedup seen es = dedup seen' es.
Proof.
  revert seen seen'; induction es as [|[k v] es IH]; intros; cbn; [reflexivity|].
  destruct (in_dec string_dec k seen) as [i|i], (in_dec string_dec k seen') as [i'|i'].
  - apply IH; auto.
  - exfalso; apply i', H, i.
  - exfalso; apply i, H, i'.
  - f_equal; apply IH. intros x; cbn. rewrite H; tauto.
Qed.

Lemma add_all_dedup acc es : add_all acc es = acc ++ dedup (map fst acc) es.
Proof.
  revert acc; induction es as [|[k v] es IH]; intros acc; [cbn; now rewrite app_nil_r|].
  change (add_all (fst (map_emplace acc k v)) es = acc ++ dedup (map fst acc) ((k, v) :: es)).
  unfold map_emplace, has_key. cbn [dedup].
  destruct (lookup k acc) eqn:L.
  - cbn [fst]. rewrite IH. destruct (in_dec string_dec k (map fst acc)) as [|n]; [reflexivity|].
    apply lookup_none in n; congruence.
  - cbn [fst]. rewrite IH. apply lookup_none in L.
    destruct (in_dec string_dec k (map fst acc)) as [|n]; [tauto|].
    rewrite map_app. cbn. rewrite <- app_assoc. cbn. do 2 f_equal.
    apply dedup_ext. intros x; rewrite in_app_iff; cbn; tauto.
Qed.


Lemma reader_value big j : forall h, ready h ->
  handle_all h (reader_events big j) = (v <- json_value big j ;; setValue h v).
Proof.
  induction j as [| | | | |ms IH|l IH] using json_ind'; intros h R.
  1,2,4,5: cbn; destruct (setValue h _); reflexivity.
  - cbn [reader_events handle_all json_value]. unfold number_event, int_value, in_int_range, int_min, int_max.
    destruct (Z.leb_spec 0 z), (Z.ltb_spec z (2 ^ 32)), (Z.leb_spec (-2147483648) z), (Z.ltb_spec z 0),
      (Z.ltb_spec z (2 ^ 64)), (Z.leb_spec (- 2 ^ 63) z), (Z.leb_spec z 2147483647); try lia; cbn [andb handle bind]; unfold int_max;
      try (destruct (Z.ltb_spec 2147483647 z); try lia; cbn [bind]); try reflexivity;
      destruct (setValue h _); reflexivity.
  - rewrite json_value_object. cbn [reader_events handle_all handle bind].
    rewrite handle_all_app.
    assert (L : forall acc, handle_all (mkHandler (keyStack h) (VMap acc :: responseStack h))
        (flat_map (fun kv => EKey (fst kv) :: reader_events big (snd kv)) ms)
        = (es <- json_members big ms ;; Ok (mkHandler (keyStack h) (VMap (add_all acc es) :: responseStack h)))).
    { induction IH as [|[k x] ms Hx _ IHms]; intros acc; cbn [flat_map handle_all json_members]; [reflexivity|].
      cbn [fst snd] in *. cbn [app handle_all handle bind keyStack responseStack]. rewrite handle_all_app.
      rewrite Hx by (cbn; congruence). rewrite !bind_assoc.
      destruct (json_value big x) as [v| |]; cbn [bind]; try reflexivity.
      cbn [setValue responseStack keyStack bind]. rewrite IHms.
      destruct (json_members big ms); reflexivity. }
    rewrite L, !bind_assoc. destruct (json_members big ms) as [es| |]; cbn [bind]; try reflexivity.
    cbn [handle_all handle getResponse responseStack keyStack bind].
    rewrite add_all_dedup. cbn [map app].
    destruct h as [ks rs]. cbn [keyStack responseStack]. destruct (setValue _ _); reflexivity.
  - rewrite json_value_array. cbn [reader_events handle_all handle bind].
    rewrite handle_all_app.
    assert (L : forall acc, handle_all (mkHandler (keyStack h) (VList acc :: responseStack h))
        (flat_map (reader_events big) l)
        = (es <- json_items big l ;; Ok (mkHandler (keyStack h) (VList (acc ++ es) :: responseStack h)))).
    { induction IH as [|x l Hx _ IHl]; intros acc; cbn [flat_map handle_all json_items bind]; [now rewrite app_nil_r|].
      rewrite handle_all_app.
      rewrite Hx by exact I. rewrite !bind_assoc.
      destruct (json_value big x) as [v| |]; cbn [bind]; try reflexivity.
      cbn [setValue responseStack keyStack bind]. rewrite IHl.
      destruct (json_items big l); cbn [bind]; try reflexivity. now rewrite <- app_assoc. }
    rewrite L, !bind_assoc. destruct (json_items big l) as [es| |]; cbn [bind]; try reflexivity.
    cbn [handle_all handle getResponse responseStack keyStack bind app].
    destruct h as [ks rs]. cbn [keyStack responseStack]. destruct (setValue _ _); reflexivity.
Qed.

Lemma parse_reader big j : parse_events (reader_events big j) = json_value big j.
Proof.
  unfold parse_events. rewrite reader_value by exact I.
  destruct (json_value big j); reflexivity.
Qed.

(** ** the writer *)
Scheme spells_mind := Minimality for spells Sort Prop
  with spells_members_mind := Minimality for spells_members Sort Prop
  with spells_items_mind := Minimality for spells_items Sort Prop.
Combined Scheme spells_mutind from spells_mind, spells_members_mind, spells_items_mind.

Lemma spells_det_aux trip :
  (forall e1 j1, spells trip e1 j1 -> forall e2 j2 t1 t2, spells trip e2 j2 -> e1 ++ t1 = e2 ++ t2 -> j1 = j2 /\ t1 = t2) /\
  (forall e1 m1, spells_members trip e1 m1 -> forall e2 m2 t1 t2, spells_members trip e2 m2 -> e1 ++ EEndObject :: t1 = e2 ++ EEndObject :: t2 -> m1 = m2 /\ t1 = t2) /\
  (forall e1 l1, spells_items trip e1 l1 -> forall e2 l2 t1 t2, spells_items trip e2 l2 -> e1 ++ EEndArray :: t1 = e2 ++ EEndArray :: t2 -> l1 = l2 /\ t1 = t2).
Proof.
  apply spells_mutind.
  1-5: intros; match goal with H : spells _ _ _ |- _ => inversion H; subst end; cbn in *;
       repeat match goal with H : _ :: _ = _ :: _ |- _ => injection H as; subst end; try discriminate; try congruence; auto.
  - intros es ms H IH e2 j2 t1 t2 S E. inversion S; subst; try discriminate. cbn in E. injection E as E.
    rewrite <- !app_assoc in E. cbn in E. destruct (IH _ _ _ _ H0 E) as [-> ->]; auto.
  - intros es ms H IH e2 j2 t1 t2 S E. inversion S; subst; try discriminate. cbn in E. injection E as E.
    rewrite <- !app_assoc in E. cbn in E. destruct (IH _ _ _ _ H0 E) as [-> ->]; auto.
  - intros e2 m2 t1 t2 S E. inversion S; subst; cbn in E; [injection E as ->; auto|discriminate].
  - intros k e1 j e1' ms H IH H' IH' e2 m2 t1 t2 S E. inversion S; subst; cbn in E; [discriminate|].
    injection E as -> E. rewrite <- !app_assoc in E. destruct (IH _ _ _ _ H0 E) as [-> E'].
    destruct (IH' _ _ _ _ H1 E') as [-> ->]; auto.
  - intros e2 m2 t1 t2 S E. inversion S; subst; cbn in E; [injection E as ->; auto|].
    inversion H; subst; discriminate.
  - intros e1 j e1' ms H IH H' IH' e2 m2 t1 t2 S E. inversion S; subst; cbn in E.
    + inversion H; subst; discriminate.
    + rewrite <- !app_assoc in E. destruct (IH _ _ _ _ H0 E) as [-> E'].
      destruct (IH' _ _ _ _ H1 E') as [-> ->]; auto.
Qed.

Lemma spells_det trip es j1 j2 : spells trip es j1 -> spells trip es j2 -> j1 = j2.
Proof. intros A B. now destruct (proj1 (spells_det_aux trip) es j1 A es j2 [] [] B eq_refl). Qed.

(** the document written for a value, as a function *)
Fixpoint doc (trip : spec_float -> spec_float) (v : value) : json :=
  match v with
  | VMap es => JObject (map (fun kv => (c_str (fst kv), doc trip (snd kv))) es)
  | VList l => JArray (map (doc trip) l)
  | VString s _ => JString (c_str s)
  | VEnum s => JString (c_str s)
  | VNull => JNull
  | VBool b => JBool b
  | VInt z => JInt z
  | VFloat f => JDouble (trip f)
  | VScalar (Some x) => doc trip x
  | VScalar None => JNull
  end.

Fixpoint write_members (ms : list (string * value)) : result (list event) :=
  match ms with
  | [] => Ok []
  | (k, x) :: ms' => ex <- writeResponse x ;; r <- write_members ms' ;; Ok (EKey (c_str k) :: ex ++ r)
  end.
Fixpoint write_items (l : list value) : result (list event) :=
  match l with
  | [] => Ok []
  | x :: l' => ex <- writeResponse x ;; r <- write_items l' ;; Ok (ex ++ r)
  end.
Lemma writeResponse_map ms : writeResponse (VMap ms) = (es <- write_members ms ;; Ok (EStartObject :: es ++ [EEndObject])).
Proof. reflexivity. Qed.
Lemma writeResponse_list l : writeResponse (VList l) = (es <- write_items l ;; Ok (EStartArray :: es ++ [EEndArray])).
Proof. reflexivity. Qed.

(** no NaN, no infinity, no empty scalar: everything the writer can spell *)
Fixpoint writable (v : value) : bool :=
  match v with
  | VMap es => forallb (fun kv => writable (snd kv)) es
  | VList l => forallb writable l
  | VFloat f => negb (is_nan f) && negb (is_inf f)
  | VScalar (Some x) => writable x
  | VScalar None => false
  | _ => true
  end.

Lemma write_spells trip v : writable v = true -> exists es, writeResponse v = Ok es /\ spells trip es (doc trip v).
Proof.
  induction v as [es IH|l IH| | | | | | | |] using value_ind'; intros W; cbn in W.
  - rewrite writeResponse_map.
    assert (exists e, write_members es = Ok e /\ spells_members trip e (map (fun kv => (c_str (fst kv), doc trip (snd kv))) es)) as (e & -> & S).
    { induction IH as [|[k x] es Hx _ IHes]; [exists []; split; [reflexivity|constructor]|].
      cbn in *. apply andb_prop in W as [W1 W2]. destruct (Hx W1) as (e1 & -> & S1).
      destruct (IHes W2) as (e2 & -> & S2). cbn. eexists; split; [reflexivity|]. now constructor. }
    cbn. eexists; split; [reflexivity|]. now constructor.
  - rewrite writeResponse_list.
    assert (exists e, write_items l = Ok e /\ spells_items trip e (map (doc trip) l)) as (e & -> & S).
    { induction IH as [|x l Hx _ IHl]; [exists []; split; [reflexivity|constructor]|].
      cbn in *. apply andb_prop in W as [W1 W2]. destruct (Hx W1) as (e1 & -> & S1).
      destruct (IHl W2) as (e2 & -> & S2). cbn. eexists; split; [reflexivity|]. now constructor. }
    cbn. eexists; split; [reflexivity|]. now constructor.
  - eexists; split; [reflexivity|]; constructor.
  - eexists; split; [reflexivity|]; constructor.
  - eexists; split; [reflexivity|]; constructor.
  - eexists; split; [reflexivity|]; constructor.
  - apply andb_prop in W as [A B]. apply negb_true_iff in A, B. eexists; split; [reflexivity|]; constructor; assumption.
  - eexists; split; [reflexivity|]; constructor.
  - discriminate.
  - cbn. auto.
Qed.

Lemma representable_writable v : representable v = true -> writable v = true.
Proof.
  induction v as [es IH|l IH| | | | | | | |] using value_ind'; cbn; intros W; auto.
  - apply andb_prop in W as [_ W]. rewrite forallb_forall in *. rewrite Forall_forall in IH.
    intros x Hx. apply IH; auto. specialize (W x Hx). now apply andb_prop in W.
  - rewrite forallb_forall in *. rewrite Forall_forall in IH. auto.
Qed.

Lemma c_str_no_nul s : no_nul s = true -> c_str s = s.
Proof.
  induction s as [|c s IH]; cbn; [reflexivity|].
  intros H; apply andb_prop in H as [A B]. apply negb_true_iff in A. rewrite A. now rewrite IH.
Qed.

Lemma c_str_idem s : c_str (c_str s) = c_str s.
Proof.
  induction s as [|c s IH]; cbn; [reflexivity|].
  destruct (Ascii.eqb c zero) eqn:E; cbn; [reflexivity|]. now rewrite E, IH.
Qed.

Lemma existsb_eqb x l : existsb (String.eqb x) l = true <-> In x l.
Proof.
  rewrite existsb_exists. split.
  - intros (y & H & E). apply String.eqb_eq in E. now subst.
  - intros H. exists x. split; [assumption|apply String.eqb_refl].
Qed.

Lemma unique_nodup l : unique l = true <-> NoDup l.
Proof.
  induction l as [|x l IH]; cbn; [split; auto; constructor|].
  rewrite andb_true_iff, negb_true_iff, IH. split.
  - intros [A B]. constructor; auto. intros I. apply existsb_eqb in I. congruence.
  - intros H. inversion H; subst. split; auto. destruct (existsb (String.eqb x) l) eqn:E; auto.
    apply existsb_eqb in E. tauto.
Qed.

Lemma dedup_unique seen es : NoDup (map fst es) -> (forall x, In x seen -> ~ In x (map fst es)) -> dedup seen es = es.
Proof.
  revert seen; induction es as [|[k v] es IH]; intros seen N D; cbn in *; [reflexivity|].
  inversion N; subst. destruct (in_dec string_dec k seen) as [i|]; [exfalso; apply (D k i); auto|].
  f_equal. apply IH; auto. intros x [->|I] J; [auto|]. apply (D x I); auto.
Qed.

Lemma doc_value trip big v : representable v = true -> json_value big (doc trip v) = Ok (through_json trip v).
Proof.
  induction v as [es IH|l IH| | | | | | | |] using value_ind'; intros W; cbn in W.
  - cbn [doc through_json]. rewrite json_value_object. apply andb_prop in W as [U W].
    assert (M : json_members big (map (fun kv => (c_str (fst kv), doc trip (snd kv))) es)
        = Ok (map (fun kv => (fst kv, through_json trip (snd kv))) es)).
    { clear U. induction IH as [|[k x] es Hx _ IHes]; [reflexivity|].
      cbn in *. apply andb_prop in W as [W1 W2]. apply andb_prop in W1 as [W0 W1].
      rewrite Hx, IHes by assumption. cbn. now rewrite !(c_str_no_nul k). }
    rewrite M. cbn [bind]. do 2 f_equal. apply dedup_unique; [|cbn; tauto].
    rewrite map_map. cbn. now apply unique_nodup.
  - cbn [doc through_json]. rewrite json_value_array.
    assert (M : json_items big (map (doc trip) l) = Ok (map (through_json trip) l)).
    { induction IH as [|x l Hx _ IHl]; [reflexivity|].
      cbn in *. apply andb_prop in W as [W1 W2]. now rewrite Hx, IHl by assumption. }
    now rewrite M.
  - cbn. rewrite !(c_str_no_nul s); auto.
  - reflexivity.
  - reflexivity.
  - cbn. unfold int_value. now rewrite W.
  - reflexivity.
  - cbn. rewrite !(c_str_no_nul s); auto.
  - discriminate.
  - cbn. auto.
Qed.

(** ** no undefined behaviour for anything the reader may deliver *)
Inductive matches : list ctx -> list string -> list value -> Prop :=
| m_top ks v : (forall es, v <> VMap es) -> (forall l, v <> VList l) -> matches [CTop] ks [v]
| m_done ks v : matches [CDone] ks [v]
| m_key cs ks es rs : matches cs ks rs -> matches (CObjKey :: cs) ks (VMap es :: rs)
| m_val cs ks k es rs : matches cs ks rs -> matches (CObjVal :: cs) (k :: ks) (VMap es :: rs)
| m_arr cs ks l rs : matches cs ks rs -> matches (CArr :: cs) ks (VList l :: rs).

Lemma matches_set cs cs' h v : matches cs (keyStack h) (responseStack h) -> after_value cs = Some cs' ->
  exists h', setValue h v = Ok h' /\ matches cs' (keyStack h') (responseStack h').
Proof.
  destruct h as [ks rs]. cbn. intros M A. unfold setValue; cbn. inversion M; subst; cbn in A; try discriminate; injection A as <-.
  - destruct v0; try (eexists; split; [reflexivity|]; cbn; constructor).
    exfalso; eapply H; reflexivity.
  - eexists; split; [reflexivity|]; cbn. now constructor.
  - eexists; split; [reflexivity|]; cbn. now constructor.
Qed.

Lemma matches_step cs cs' h e : matches cs (keyStack h) (responseStack h) -> reader_step cs e = Some cs' ->
  (exists h', handle h e = Ok h' /\ matches cs' (keyStack h') (responseStack h')) \/ handle h e = overflow.
Proof.
  intros M A. destruct e; cbn in A; cbn [handle];
    try (left; eapply matches_set; eassumption).
  - destruct (Z.ltb int_max z); [right; reflexivity|left; eapply matches_set; eassumption].
  - right; reflexivity.
  - right; reflexivity.
  - left. destruct (after_value cs); [|discriminate]. injection A as <-. eexists; split; [reflexivity|]. cbn. now constructor.
  - left. destruct cs as [|[] cs]; try discriminate. injection A as <-. eexists; split; [reflexivity|]. cbn.
    inversion M; subst. now constructor.
  - left. destruct h as [ks rs0]. cbn [keyStack responseStack] in M. destruct cs as [|[] cs]; try discriminate. inversion M; subst.
    cbn [getResponse responseStack keyStack bind].
    eapply (matches_set cs cs' (mkHandler _ rs)); eauto.
  - left. destruct (after_value cs); [|discriminate]. injection A as <-. eexists; split; [reflexivity|]. cbn. now constructor.
  - left. destruct h as [ks rs0]. cbn [keyStack responseStack] in M. destruct cs as [|[] cs]; try discriminate. inversion M; subst.
    cbn [getResponse responseStack keyStack bind].
    eapply (matches_set cs cs' (mkHandler _ rs)); eauto.
Qed.

Lemma matches_run es : forall cs cs' h, matches cs (keyStack h) (responseStack h) -> reader_run cs es = Some cs' ->
  (exists v, (h' <- handle_all h es ;; getResponse h') = Ok v) \/ handle_all h es = overflow.
Proof.
  induction es as [|e es IH]; intros cs cs' h M R; cbn in *.
  - left. destruct h as [ks rs]; inversion M; subst; cbn in *; subst; eexists; reflexivity.
  - destruct (reader_step cs e) as [cs1|] eqn:S; [|discriminate].
    destruct (matches_step _ _ _ _ M S) as [(h1 & -> & M1)| ->]; cbn; [|right; reflexivity].
    eapply IH; eassumption.
Qed.

Lemma parse_no_ub es : reader_may_deliver es -> (exists v, parse_events es = Ok v) \/ parse_events es = overflow.
Proof.
  intros [cs R]. unfold parse_events.
  destruct (matches_run es [CTop] cs handler_init) as [[[v h'] H]|H]; auto.
  - constructor; discriminate.
  - left. exists v. destruct (handle_all handler_init es) as [h| |]; cbn in *; try discriminate. now rewrite H.
  - right. now rewrite H.
Qed.

(** well formed documents are among the sequences the reader may deliver *)
Lemma reader_run_app es1 : forall es2 cs, reader_run cs (es1 ++ es2) = match reader_run cs es1 with Some cs' => reader_run cs' es2 | None => None end.
Proof.
  induction es1 as [|e es1 IH]; intros; cbn; [reflexivity|]. destruct (reader_step cs e); auto.
Qed.

Lemma document_delivered_aux big j : forall cs cs', after_value cs = Some cs' -> reader_run cs (reader_events big j) = Some cs'.
Proof.
  induction j as [| | | | |ms IH|l IH] using json_ind'; intros cs cs' A; cbn [reader_events reader_run reader_step].
  1,2,4,5: now rewrite A.
  - unfold number_event. repeat match goal with |- context [if ?b then _ else _] => destruct b end; cbn; now rewrite A.
  - rewrite A. rewrite reader_run_app.
    assert (L : reader_run (CObjKey :: cs) (flat_map (fun kv => EKey (fst kv) :: reader_events big (snd kv)) ms) = Some (CObjKey :: cs)).
    { induction IH as [|[k x] ms Hx _ IHms]; cbn; [reflexivity|]. rewrite reader_run_app. cbn in Hx.
      rewrite (Hx (CObjVal :: cs) (CObjKey :: cs)) by reflexivity. exact IHms. }
    rewrite L. cbn. now rewrite A.
  - rewrite A. rewrite reader_run_app.
    assert (L : reader_run (CArr :: cs) (flat_map (reader_events big) l) = Some (CArr :: cs)).
    { induction IH as [|x l Hx _ IHl]; cbn; [reflexivity|]. rewrite reader_run_app.
      rewrite (Hx (CArr :: cs) (CArr :: cs)) by reflexivity. exact IHl. }
    rewrite L. cbn. now rewrite A.
Qed.

Lemma prefix_delivered big j es es' : reader_events big j = es ++ es' -> reader_may_deliver es.
Proof.
  intros E. pose proof (document_delivered_aux big j [CTop] [CDone] eq_refl) as R.
  rewrite E, reader_run_app in R. unfold reader_may_deliver. destruct (reader_run [CTop] es); [eauto|discriminate].
Qed.

(** range safety of every integer in a parsed value *)
Fixpoint ints_ok (v : value) : bool :=
  match v with
  | VMap es => forallb (fun kv => ints_ok (snd kv)) es
  | VList l => forallb ints_ok l
  | VInt z => in_int_range z
  | VScalar (Some x) => ints_ok x
  | _ => true
  end.

(** what the argument types of the callbacks guarantee *)
Definition event_in_range (e : event) : Prop :=
  match e with EInt z => in_int_range z = true | EUint z => (0 <= z < 2 ^ 32)%Z | _ => True end.

Lemma lookup_forall_emplace es k v : forallb (fun kv => ints_ok (snd kv)) es = true -> ints_ok v = true ->
  forallb (fun kv => ints_ok (snd kv)) (fst (map_emplace es k v)) = true.
Proof.
  intros A B. unfold map_emplace. destruct (has_key k es); cbn; auto.
  rewrite forallb_app, A. cbn. now rewrite B.
Qed.

Lemma set_ints h v h' : Forall (fun v => ints_ok v = true) (responseStack h) -> ints_ok v = true ->
  setValue h v = Ok h' -> Forall (fun v => ints_ok v = true) (responseStack h').
Proof.
  intros F V. unfold setValue. destruct h as [ks [|x rs]]; cbn in *; [discriminate|].
  inversion F; subst. destruct x; try (intros E; injection E as <-; cbn; constructor; assumption).
  - destruct ks; intros E; [discriminate|]. injection E as <-. constructor; auto. cbn [ints_ok].
    now apply lookup_forall_emplace.
  - intros E; injection E as <-. constructor; auto. cbn in *. now rewrite forallb_app, H1; cbn; rewrite V.
Qed.

Lemma handle_ints h e h' : Forall (fun v => ints_ok v = true) (responseStack h) -> event_in_range e ->
  handle h e = Ok h' -> Forall (fun v => ints_ok v = true) (responseStack h').
Proof.
  intros F R. destruct e; cbn [handle]; try (eapply set_ints; [assumption|]; try reflexivity; assumption).
  - destruct (Z.ltb_spec int_max z); [discriminate|]. apply set_ints; auto. cbn. unfold in_int_range, int_min, int_max in *.
    cbn in R. apply andb_true_intro; split; apply Z.leb_le; lia.
  - discriminate.
  - discriminate.
  - intros E; injection E as <-. constructor; auto.
  - intros E; injection E as <-. auto.
  - unfold getResponse. destruct h as [ks [|x rs]]; cbn in *; [discriminate|]. inversion F; subst.
    intros E. eapply (set_ints (mkHandler ks rs) x); eassumption.
  - intros E; injection E as <-. constructor; auto.
  - unfold getResponse. destruct h as [ks [|x rs]]; cbn in *; [discriminate|]. inversion F; subst.
    intros E. eapply (set_ints (mkHandler ks rs) x); eassumption.
Qed.

Lemma parse_ints es v : Forall event_in_range es -> parse_events es = Ok v -> ints_ok v = true.
Proof.
  intros R. unfold parse_events.
  assert (G : forall h, Forall (fun v => ints_ok v = true) (responseStack h) -> forall h', handle_all h es = Ok h' ->
    Forall (fun v => ints_ok v = true) (responseStack h')).
  { induction R as [|e es Re _ IH]; intros h F h' E; cbn in E; [injection E as <-; auto|].
    destruct (handle h e) as [h1| |] eqn:H1; try discriminate. cbn in E. eapply IH; [|exact E]. eapply handle_ints; eassumption. }
  destruct (handle_all handler_init es) as [h| |] eqn:E; try discriminate. cbn.
  specialize (G handler_init (Forall_cons VNull eq_refl (Forall_nil _)) h E).
  unfold getResponse. destruct (responseStack h); [discriminate|]. cbn. intros X; injection X as <-. now inversion G.
Qed.
