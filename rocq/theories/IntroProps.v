(** C31: introspection shows the schema. *)
From Verif Require Import Cpp Value Ast ErrorModel SchemaModel RegistryModel RegistrySpec RegistryProofs RegistryProps ModifiersModel
  ExecModel ExecSem ExecSpec ExecValues ExecProofs ExecProofs3 ExecProofs4 ExecProps ExecBigSpec ExecBigProofs ExecBigProps IntroModel IntroSpec IntroProofs IntroStandard.
From Coq Require Import Lia.
Local Open Scope string_scope.
Local Open Scope list_scope.

Lemma hosted_executes : forall O (typenames : O -> list string) has_field ans root r inj b h Sc vars e n sels s i p v errs,
  hosts r inj typenames has_field ans root -> after b h r -> represents r Sc -> irep r s i ->
  executes d_types (d_has Sc) (d_ans Sc) vars e n sels s p v errs ->
  executes typenames has_field ans vars e n sels (inj i) p v errs.
Proof.
  intros O typenames has_field ans root r inj b h Sc vars e n sels s i p v errs Ho Haf Hrep Hi Hex.
  apply (executes_sim sobj O (R r O inj) d_types (d_has Sc) (d_ans Sc) typenames has_field ans) with (o1 := s); [| | |exists i; auto|exact Hex].
  - intros s' o (i' & Hi' & ->). rewrite (ho_types _ _ _ _ _ _ Ho). destruct s', i'; simpl in Hi'; try contradiction; reflexivity.
  - intros s' o f (i' & Hi' & ->). rewrite (ho_has _ _ _ _ _ _ Ho). apply (same_fields r Sc); auto.
  - intros s' o f p' HR Hf. apply (answers_sim b h r Sc Haf Hrep O inj s' o f p' HR Hf). apply (ho_ans _ _ _ _ _ _ Ho).
Qed.

(** Every selection set on an introspection object gives what the GraphQL specification's description of the schema ([shows]) gives. *)
Theorem C31_objects : forall O (typenames : O -> list string) has_field ans root r inj b h Sc vars e n sels s i p v errs,
  hosts r inj typenames has_field ans root -> after b h r -> represents r Sc -> irep r s i ->
  copyable vars -> e_vars e = VMap vars ->
  executes d_types (d_has Sc) (d_ans Sc) vars e n sels s p v errs ->
  forall x, results typenames has_field ans e (inj i) (rev p) sels x <-> x = Ok (mkRR v errs).
Proof.
  intros O typenames has_field ans root r inj b h Sc vars e n sels s i p v errs Ho Haf Hrep Hi Hc Hv Hex.
  eapply C45_execution; eauto. eapply hosted_executes; eauto.
Qed.

Lemma one_field : forall O (typenames : O -> list string) has_field ans vars e n loc al name args dirs ds avs l sub o p key f v errs,
  decided vars dirs ds true -> args_value vars args avs -> has_field o name = true -> key = response_key al name ->
  ans o name (mkParams (e_context e) (e_opdirs e) no_fdirs (p ++ [PName key]) key avs ds) = AResult f -> shape_ok true f ->
  completed (executes typenames has_field ans vars e n sub) key loc f (p ++ [PName key]) v errs ->
  executes typenames has_field ans vars e (S n) [SField loc al name args dirs (Some (l, sub))] o p (VMap [(key, v)]) errs.
Proof.
  intros O typenames has_field ans vars e n loc al name args dirs ds avs l sub o p key f v errs Hd Hargs Hf -> Hans Hsh Hcm.
  exists [(response_key al name, Some (mkChosen loc name avs ds (Some (l, sub)) no_fdirs))], [(v, errs)].
  split; [eapply co_field; eauto; constructor|]. split; [|simpl; now rewrite app_nil_r].
  constructor; [|constructor]. eapply fv_result; eauto.
Qed.

(** The fields of the query type: __schema and __type. *)
Theorem C31_query_schema : forall O (typenames : O -> list string) has_field ans root r inj b h Sc vars e n loc al args avs dirs ds l sub p v errs,
  hosts r inj typenames has_field ans root -> after b h r -> represents r Sc -> s_introspection Sc = true ->
  copyable vars -> e_vars e = VMap vars -> decided vars dirs ds true -> args_value vars args avs ->
  executes d_types (d_has Sc) (d_ans Sc) vars e n sub DSchema (p ++ [PName (response_key al "__schema")]) v errs ->
  forall x, results typenames has_field ans e root (rev p) [SField loc al "__schema" args dirs (Some (l, sub))] x
    <-> x = Ok (mkRR (VMap [(response_key al "__schema", v)]) errs).
Proof.
  intros O typenames has_field ans root r inj b h Sc vars e n loc al args avs dirs ds l sub p v errs Ho Haf Hrep Hin Hc Hv Hd Hargs Hex.
  rewrite <- (rp_introspection _ _ Hrep) in Hin. destruct (ho_schema _ _ _ _ _ _ Ho Hin) as [Hf Ha].
  eapply (C45_execution _ _ _ _ vars _ (S n)); eauto.
  eapply one_field; [exact Hd|exact Hargs|exact Hf|reflexivity|apply Ha|reflexivity|].
  simpl. apply cp_object. eapply (hosted_executes _ _ _ _ _ _ _ _ _ _ _ _ _ _ DSchema ISchema); eauto. simpl. auto.
Qed.
Theorem C31_query_type : forall O (typenames : O -> list string) has_field ans root r inj b h Sc vars e n loc al args avs dirs ds l sub p name fj d v errs,
  hosts r inj typenames has_field ans root -> after b h r -> represents r Sc -> s_introspection Sc = true ->
  copyable vars -> e_vars e = VMap vars -> decided vars dirs ds true -> args_value vars args avs -> lookup "name" avs = Some (VString name fj) ->
  find_type Sc name = Some d ->
  executes d_types (d_has Sc) (d_ans Sc) vars e n sub (DType (TNamed name)) (p ++ [PName (response_key al "__type")]) v errs ->
  forall x, results typenames has_field ans e root (rev p) [SField loc al "__type" args dirs (Some (l, sub))] x
    <-> x = Ok (mkRR (VMap [(response_key al "__type", v)]) errs).
Proof.
  intros O typenames has_field ans root r inj b h Sc vars e n loc al args avs dirs ds l sub p name fj d v errs Ho Haf Hrep Hin Hc Hv Hd Hargs Hl Hd' Hex.
  rewrite <- (rp_introspection _ _ Hrep) in Hin. destruct (ho_type _ _ _ _ _ _ Ho Hin) as [Hf Ha].
  assert (Hin' : exists t, lookup_type r name = Ok t).
  { pose proof (rp_types _ _ Hrep) as F. unfold find_type in Hd'.
    assert (G : exists t, In (name, t) (types r)); [|destruct G as [t G]; exists t; apply (lookup_in b h r Sc Haf Hrep); exact G].
    clear -F Hd'. revert F. generalize (types r) as ts. induction (s_types Sc) as [|[m d'] l IH]; intros ts F; simpl in Hd'; [discriminate|].
    inversion F as [|[n1 t1] ? l1 ? [E _] F']; subst. simpl in E. destruct (String.eqb_spec name m) as [->|_].
    - exists t1. left. congruence.
    - destruct (IH Hd' _ F') as [t I]. exists t. now right. }
  destruct Hin' as [t Ht].
  eapply (C45_execution _ _ _ _ vars _ (S n)); eauto.
  eapply one_field; [exact Hd|exact Hargs|exact Hf|reflexivity| | |].
  - rewrite Ha. unfold query_type_answer, require, require_mods, require_base, index_name. cbn [p_args]. rewrite Hl. simpl. rewrite Ht. reflexivity.
  - simpl. auto.
  - simpl. apply cp_nullable, cp_derived. eapply (hosted_executes _ _ _ _ _ _ _ _ _ _ _ _ _ _ (DType (TNamed name)) (IType t)); eauto. simpl. constructor. exact Ht.
Qed.

(** GraphQL asks for null when there is no type of that name. The library also reports an error. *)
Theorem C31_unknown_type_refuted : forall O (typenames : O -> list string) has_field ans root r inj b h vars e loc al args avs dirs ds l sub p name fj,
  hosts r inj typenames has_field ans root -> after b h r -> supports_introspection r = true ->
  copyable vars -> e_vars e = VMap vars -> decided vars dirs ds true -> args_value vars args avs -> lookup "name" avs = Some (VString name fj) ->
  name <> "" -> ~ In name (map fst (types r)) ->
  forall x, results typenames has_field ans e root (rev p) [SField loc al "__type" args dirs (Some (l, sub))] x
    <-> x = Ok (mkRR (VMap [(response_key al "__type", VNull)]) [mkErr ("Type not found name: " ++ name) loc (p ++ [PName (response_key al "__type")])]).
Proof.
  intros O typenames has_field ans root r inj b h vars e loc al args avs dirs ds l sub p name fj Ho Haf Hin Hc Hv Hd Hargs Hl Hne Hn.
  destruct (ho_type _ _ _ _ _ _ Ho Hin) as [Hf Ha].
  assert (Ht : lookup_type r name = Throw (SchemaEx [mkErr ("Type not found name: " ++ name) (mkLoc 0 1) []])).
  { rewrite (C30_lookup_unknown b h r name Haf); [|rewrite <- (C30_types b h r Haf); exact Hn]. destruct (String.eqb_spec name ""); [contradiction|]. reflexivity. }
  eapply (C45_execution _ _ _ _ vars _ 1); eauto.
  exists [(response_key al "__type", Some (mkChosen loc "__type" avs ds (Some (l, sub)) no_fdirs))],
    [(VNull, [mkErr ("Type not found name: " ++ name) loc (p ++ [PName (response_key al "__type")])])].
  split; [eapply co_field; eauto; constructor|]. split; [|split; reflexivity].
  constructor; [|constructor].
  pose proof (fv_throws has_field ans e (executes typenames has_field ans vars e 0) root p (response_key al "__type")
    (mkChosen loc "__type" avs ds (Some (l, sub)) no_fdirs) (SchemaEx [mkErr ("Type not found name: " ++ name) (mkLoc 0 1) []]) Hf) as V.
  apply V. simpl. rewrite Ha. unfold query_type_answer, require, require_mods, require_base, index_name, called_with. cbn [p_args ch_args]. rewrite Hl.
  cbn [find_of convert_input convert_leaf bind]. rewrite Ht. reflexivity.
Qed.

(** ** The standard query *)

(** The whole schema in the response of the standard introspection query. *)
Theorem C31_standard_query : forall O (typenames : O -> list string) has_field ans root r inj b h Sc vars e l n,
  hosts r inj typenames has_field ans root -> after b h r -> represents r Sc -> s_introspection Sc = true ->
  copyable vars -> e_vars e = VMap vars ->
  forall x, results typenames has_field ans e root [] [object_sel l "__schema" (schema_sel l n)] x
    <-> x = Ok (mkRR (VMap [("__schema", schema_json n Sc)]) []).
Proof.
  intros O typenames has_field ans root r inj b h Sc vars e l n Ho Haf Hrep Hin Hc Hv.
  assert (ND : NoDup (map fst (s_types Sc))).
  { replace (map fst (s_types Sc)) with (map fst (types r)); [apply (rp_distinct _ _ Hrep)|].
    pose proof (rp_types _ _ Hrep) as F. induction F as [|x y l1 l2 [E _] F IH]; simpl; auto. now f_equal. }
  destruct (schema_gives vars e Sc l n ND) as [m G].
  apply (C31_query_schema O typenames has_field ans root r inj b h Sc vars e m l None [] [] [] [] l (schema_sel l n) []);
    [exact Ho|exact Haf|exact Hrep|exact Hin|exact Hc|exact Hv|apply decided_none| |apply G].
  exists []. split; [constructor|reflexivity].
Qed.

(** A schema that was built completely is some schema. *)
Lemma forall2_exists {A B} (P : A -> B -> Prop) l : (forall x, In x l -> exists y, P x y) -> exists l', Forall2 P l l'.
Proof.
  induction l as [|x l IH]; intros H; [exists []; constructor|]. destruct (H x) as [y Hy]; [now left|].
  destruct IH as [l' Hl]; [intros; apply H; now right|]. exists (y :: l'). now constructor.
Qed.

Section Back.
  Variables (b : bool) (h : list call) (r : registry).
  Hypothesis Haf : after b h r.
  Hypothesis Hc : complete r.

  Lemma lookup_added : forall n t, In (n, t) (types r) -> lookup_type r n = Ok t.
  Proof.
    intros n t I. rewrite (C30_lookup b h r n t Haf), <- (C30_types b h r Haf). apply in_split in I as (l1 & l2 & E). exists l1, l2. split; auto.
    pose proof (cm_distinct _ Hc) as ND. rewrite E, map_app in ND. simpl in ND. apply NoDup_remove_2 in ND. intros I. apply ND. apply in_or_app. auto.
  Qed.
  Lemma plain_refers : forall t, plain_at r t -> exists n, refers r (TNamed n) t.
  Proof. intros t (o & Ho & Hk). exists (to_name o). constructor. apply lookup_added. exact (cm_added _ Hc t o Ho Hk). Qed.
  Lemma known_refers : forall t, known r t -> exists e, refers r e t.
  Proof.
    induction t as [t IH] using (well_founded_induction Wf_nat.lt_wf). intros [o Ho].
    assert (D : is_wrapper (to_kind o) \/ ~ is_wrapper (to_kind o)) by (unfold is_wrapper; destruct (to_kind o); auto; right; intros [|]; discriminate).
    destruct D as [W|W].
    - destruct (i_of r (inv_after _ _ _ Haf) t o Ho W) as (p & Hp & L).
      assert (K : known r p). { unfold known, object_at. assert (p < length (heap r)). { assert (t < length (heap r)) by (apply nth_error_Some; unfold object_at in Ho; congruence). lia. }
        destruct (nth_error (heap r) p) eqn:E; eauto. apply nth_error_None in E. lia. }
      destruct (IH p L K) as [e He]. destruct W as [W|W]; [exists (TListOf e)|exists (TNonNull e)]; econstructor; eauto.
    - destruct (plain_refers t) as [n Hn]; [exists o; auto|]. eauto.
  Qed.
  Lemma input_back : forall i, input_known r i -> exists d, input_rep r i d.
  Proof. intros i K. destruct (known_refers _ K) as [e He]. exists (mkInput (io_name i) (io_desc i) e (io_default i)). repeat split; auto. Qed.
  Lemma field_back : forall f, field_known r f -> exists d, field_rep r f d.
  Proof.
    intros f [K Ka]. destruct (known_refers _ K) as [e He]. destruct (forall2_exists (input_rep r) (fo_args f)) as [args Ha].
    { intros i I. apply input_back. auto. }
    exists (mkFieldDef (fo_name f) (fo_desc f) (fo_deprecated f) e args). repeat split; auto.
  Qed.
  Lemma type_back : forall n t, In (n, t) (types r) -> exists o d, object_at r t = Some o /\ type_rep r n o d.
  Proof.
    intros n t I. destruct (cm_names _ Hc n t I) as (o & Ho & Hn).
    destruct (forall2_exists (field_rep r) (to_fields o)) as [fs Hf]; [intros f If; apply field_back; exact (cm_fields _ Hc t o f Ho If)|].
    destruct (forall2_exists (fun a m => refers r (TNamed m) a) (to_interfaces o)) as [is Hi]; [intros a Ia; apply plain_refers; exact (cm_interfaces _ Hc t o a Ho Ia)|].
    destruct (forall2_exists (fun a m => refers r (TNamed m) a) (to_possible o)) as [ps Hp]; [intros a Ia; apply plain_refers; exact (cm_possible _ Hc t o a Ho Ia)|].
    destruct (forall2_exists (input_rep r) (to_inputs o)) as [ins Hin]; [intros i Ii; apply input_back; exact (cm_inputs _ Hc t o i Ho Ii)|].
    exists o, (mkTypeDef (to_kind o) (to_desc o) fs is ps (to_enums o) ins). split; auto. split; [exact Hn|]. simpl. auto 10.
  Qed.
End Back.

Theorem C31_represented : forall b h r, after b h r -> complete r -> exists Sc, represents r Sc.
Proof.
  intros b h r Haf Hc.
  destruct (forall2_exists (fun (e : string * nat) (d : string * type_def) => fst e = fst d /\ exists o, object_at r (snd e) = Some o /\ type_rep r (fst e) o (snd d)) (types r)) as [ts Ht].
  { intros [n t] I. destruct (type_back b h r Haf Hc n t I) as (o & d & Ho & Hd). exists (n, d). split; auto. exists o. auto. }
  destruct (forall2_exists (directive_rep r) (directives r)) as [ds Hd].
  { intros d I. destruct (forall2_exists (input_rep r) (do_args d)) as [args Ha].
    - intros i Ii. apply (input_back b h r Haf Hc). exact (cm_directives _ Hc d i I Ii).
    - exists (mkDirDef (do_name d) (do_desc d) (do_locs d) args). repeat split; auto. }
  destruct (cm_query _ Hc) as (q & Hq & Pq). destruct (plain_refers b h r Haf Hc q Pq) as [qn Rq].
  assert (Hm : exists m, root_rep r (mutation r) m).
  { pose proof (cm_mutation _ Hc) as M. destruct (mutation r) as [t|]; [|exists None; exact I]. destruct (plain_refers b h r Haf Hc t (M t eq_refl)) as [m Rm]. exists (Some m). exact Rm. }
  assert (Hs : exists m, root_rep r (subscription r) m).
  { pose proof (cm_subscription _ Hc) as M. destruct (subscription r) as [t|]; [|exists None; exact I]. destruct (plain_refers b h r Haf Hc t (M t eq_refl)) as [m Rm]. exists (Some m). exact Rm. }
  destruct Hm as [m Hm], Hs as [s Hs]. exists (mkSchema ts qn m s ds (supports_introspection r)).
  constructor; simpl; auto; [apply (cm_distinct _ Hc)|rewrite Hq; exact Rq].
Qed.

(** The response shows the schema: different schemas give different responses. *)
Lemma map_inj {A B C} (f : A -> C) (g : B -> C) (P : A -> B -> Prop) l1 : forall l2, map f l1 = map g l2 ->
  (forall x y, In x l1 -> In y l2 -> f x = g y -> P x y) -> Forall2 P l1 l2.
Proof.
  induction l1 as [|x l1 IH]; intros [|y l2] E H; try discriminate; [constructor|]. simpl in E. injection E as E1 E2.
  constructor; [apply H; simpl; auto|]. apply IH; auto. intros. apply H; simpl; auto.
Qed.
Lemma forall2_eq {A} (l1 l2 : list A) : Forall2 eq l1 l2 -> l1 = l2.
Proof. induction 1; congruence. Qed.
Lemma map_same {A C} (f g : A -> C) l1 l2 : map f l1 = map g l2 -> (forall x y, In x l1 -> In y l2 -> f x = g y -> x = y) -> l1 = l2.
Proof. intros E H. apply forall2_eq. eapply map_inj; eauto. Qed.

Section Injective.
  Variables (n : nat) (S1 S2 : schema).
  Hypothesis H1 : fits n S1.
  Hypothesis H2 : fits n S2.

  Lemma str_or_null_inj : forall a c, str_or_null a = str_or_null c -> a = c.
  Proof. intros a c. unfold str_or_null, str. destruct (String.eqb_spec a "") as [->|], (String.eqb_spec c "") as [->|]; congruence. Qed.
  Lemma reason_inj : forall a c, reason_value a = reason_value c -> a = c.
  Proof. intros [a|] [c|]; simpl; unfold str; congruence. Qed.
  Lemma kind_text_inj : forall a c, kind_text a = kind_text c -> a = c.
  Proof. intros a c. destruct a, c; simpl; congruence. Qed.
  Lemma location_text_inj : forall a c, location_text a = location_text c -> a = c.
  Proof. intros a c. destruct a, c; simpl; congruence. Qed.

  Lemma find_in : forall S m d, find_type S m = Some d -> In (m, d) (s_types S).
  Proof.
    intros S m d. unfold find_type. induction (s_types S) as [|[k x] ts IH]; simpl; [discriminate|].
    destruct (String.eqb_spec m k) as [->|]; [intros E; injection E as ->; auto|auto].
  Qed.
  Lemma named_plain : forall S m, fits n S -> ~ is_wrapper (kind_of S (TNamed m)).
  Proof.
    intros S m F. simpl. destruct (find_type S m) as [d|] eqn:E; [exact (ft_kind _ _ F m d (find_in _ _ _ E))|]. intros [|]; discriminate.
  Qed.

  Lemma type_ref_inj : forall k t1 t2, depth t1 <= k -> depth t2 <= k -> type_ref_value S1 k t1 = type_ref_value S2 k t2 -> t1 = t2.
  Proof.
    induction k as [|k IH]; intros t1 t2 D1 D2 E.
    - destruct t1, t2; simpl in D1, D2; try lia. simpl in E. injection E as _ E. apply str_or_null_inj in E. congruence.
    - cbn [type_ref_value] in E.
      match type of E with VMap [(_, VEnum ?x); (_, ?y); (_, ?z)] = VMap [(_, VEnum ?x'); (_, ?y'); (_, ?z')] =>
        assert (Ek : x = x') by congruence; assert (En : y = y') by congruence; assert (Eo : z = z') by congruence end.
      clear E. apply kind_text_inj in Ek. destruct t1 as [m1|e1|e1], t2 as [m2|e2|e2].
      + apply str_or_null_inj in En. simpl in En. congruence.
      + exfalso. apply (named_plain S1 m1 H1). rewrite Ek. now left.
      + exfalso. apply (named_plain S1 m1 H1). rewrite Ek. now right.
      + exfalso. apply (named_plain S2 m2 H2). rewrite <- Ek. now left.
      + simpl in D1, D2. f_equal. apply IH; auto; lia.
      + discriminate.
      + exfalso. apply (named_plain S2 m2 H2). rewrite <- Ek. now right.
      + discriminate.
      + simpl in D1, D2. f_equal. apply IH; auto; lia.
  Qed.
  Lemma input_inj : forall x y, depth (iv_type x) <= n -> depth (iv_type y) <= n -> input_json n S1 x = input_json n S2 y -> x = y.
  Proof.
    intros [a1 b1 t1 d1] [a2 b2 t2 d2] D1 D2 E. unfold input_json in E. cbn in D1, D2. injection E as Ea Eb Et Ed. cbn in *.
    apply str_or_null_inj in Eb, Ed. apply type_ref_inj in Et; auto. congruence.
  Qed.
  Lemma inputs_inj : forall xs ys, inputs_fit n xs -> inputs_fit n ys -> map (input_json n S1) xs = map (input_json n S2) ys -> xs = ys.
  Proof. intros xs ys F1 F2 E. apply (map_same _ _ _ _ E). intros x y I1 I2. apply input_inj; auto. Qed.
  Lemma field_inj : forall x y, depth (fd_type x) <= n -> inputs_fit n (fd_args x) -> depth (fd_type y) <= n -> inputs_fit n (fd_args y) ->
    field_json n S1 x = field_json n S2 y -> x = y.
  Proof.
    intros [a1 b1 c1 t1 d1] [a2 b2 c2 t2 d2] D1 F1 D2 F2 E. unfold field_json in E. cbn in D1, D2, F1, F2. injection E as Ea Eb Ed Et _ Ec. cbn in *.
    apply str_or_null_inj in Eb. apply type_ref_inj in Et; auto. apply inputs_inj in Ed; auto. apply reason_inj in Ec. congruence.
  Qed.
  Lemma enum_inj : forall x y, enum_json x = enum_json y -> x = y.
  Proof.
    intros [a1 b1 c1] [a2 b2 c2] E. unfold enum_json in E. injection E as Ea Eb _ Ec. cbn in *. apply str_or_null_inj in Eb. apply reason_inj in Ec. congruence.
  Qed.
  Lemma list_if_inj : forall {A} k ks (f g : A -> value) l1 l2, only_in k ks l1 -> only_in k ks l2 ->
    list_if k ks (map f l1) = list_if k ks (map g l2) -> (In k ks -> map f l1 = map g l2 -> l1 = l2) -> l1 = l2.
  Proof.
    intros A k ks f g l1 l2 O1 O2 E H. unfold list_if in E. destruct (existsb (kind_eqb k) ks) eqn:X.
    - apply H; [|congruence]. apply existsb_exists in X as (k' & I & Q). replace k with k'; auto. destruct k, k'; simpl in Q; congruence.
    - assert (N : ~ In k ks). { intros I. assert (existsb (kind_eqb k) ks = true); [|congruence]. apply existsb_exists. exists k. split; auto. destruct k; reflexivity. }
      rewrite (O1 N), (O2 N). reflexivity.
  Qed.
  Lemma type_inj : forall x y, In x (s_types S1) -> In y (s_types S2) -> type_json n S1 x = type_json n S2 y -> x = y.
  Proof.
    intros [m1 d1] [m2 d2] I1 I2 E. unfold type_json in E. injection E as Ek En Ed Ef Ei Eif Ee Ep.
    apply kind_text_inj in Ek. apply str_or_null_inj in En, Ed. subst m2.
    destruct (ft_fields _ _ H1 _ _ I1) as [F1 G1], (ft_fields _ _ H2 _ _ I2) as [F2 G2].
    destruct (ft_inputs _ _ H1 _ _ I1) as [J1 K1], (ft_inputs _ _ H2 _ _ I2) as [J2 K2].
    pose proof (ft_interfaces _ _ H1 _ _ I1) as L1. pose proof (ft_interfaces _ _ H2 _ _ I2) as L2.
    pose proof (ft_possible _ _ H1 _ _ I1) as M1. pose proof (ft_possible _ _ H2 _ _ I2) as M2.
    pose proof (ft_enums _ _ H1 _ _ I1) as N1. pose proof (ft_enums _ _ H2 _ _ I2) as N2.
    destruct d1 as [k1 de1 f1 i1 p1 e1 in1], d2 as [k2 de2 f2 i2 p2 e2 in2]. cbn in *. subst k2 de2. f_equal. f_equal.
    - apply (list_if_inj _ _ _ _ _ _ F1 F2 Ef). intros _ E. apply (map_same _ _ _ _ E). intros x y Ix Iy. destruct (G1 x Ix), (G2 y Iy). apply field_inj; auto.
    - apply (list_if_inj _ _ _ _ _ _ L1 L2 Eif). intros _ E. apply (map_same _ _ _ _ E). intros x y Ix Iy Exy. apply type_ref_inj in Exy; simpl; try lia. congruence.
    - apply (list_if_inj _ _ _ _ _ _ M1 M2 Ep). intros _ E. apply (map_same _ _ _ _ E). intros x y Ix Iy Exy. apply type_ref_inj in Exy; simpl; try lia. congruence.
    - apply (list_if_inj _ _ _ _ _ _ N1 N2 Ee). intros _ E. apply (map_same _ _ _ _ E). intros x y Ix Iy. apply enum_inj.
    - apply (list_if_inj _ _ _ _ _ _ J1 J2 Ei). intros _ E. apply inputs_inj; auto.
  Qed.
  Lemma directive_inj : forall x y, inputs_fit n (dd_args x) -> inputs_fit n (dd_args y) -> directive_json n S1 x = directive_json n S2 y -> x = y.
  Proof.
    intros [a1 b1 l1 d1] [a2 b2 l2 d2] F1 F2 E. unfold directive_json in E. cbn in F1, F2. injection E as Ea Eb El Ed. cbn in *.
    apply str_or_null_inj in Eb. apply inputs_inj in Ed; auto. assert (l1 = l2); [|congruence].
    apply (map_same _ _ _ _ El). intros x y _ _ Exy. injection Exy as Exy. now apply location_text_inj.
  Qed.
  Lemma root_inj : forall a c, root_json a = root_json c -> a = c.
  Proof. intros [a|] [c|] E; try discriminate; auto. injection E as E. apply str_or_null_inj in E. congruence. Qed.
End Injective.

Theorem C31_complete_response : forall n S1 S2, fits n S1 -> fits n S2 -> s_introspection S1 = s_introspection S2 ->
  schema_json n S1 = schema_json n S2 -> S1 = S2.
Proof.
  intros n S1 S2 H1 H2 Hi E. unfold schema_json in E. injection E as Eq Em Es Et Ed.
  apply str_or_null_inj in Eq. apply root_inj in Em, Es.
  assert (s_types S1 = s_types S2) by (apply (map_same _ _ _ _ Et); intros x y I1 I2 Exy; exact (type_inj n S1 S2 H1 H2 x y I1 I2 Exy)).
  assert (s_directives S1 = s_directives S2).
  { apply (map_same _ _ _ _ Ed). intros x y I1 I2. apply (directive_inj n S1 S2 H1 H2); [exact (ft_directives _ _ H1 _ I1)|exact (ft_directives _ _ H2 _ I2)]. }
  destruct S1, S2; cbn in *; congruence.
Qed.

(** Met: a query type that only has __schema and __type, on any registry. *)
Section Met.
  Variable r : registry.
  Definition ex31_types (o : option iobj) : list string := match o with Some i => IntroModel.i_types i | None => ["Query"] end.
  Definition ex31_has (o : option iobj) (f : string) : bool :=
    match o with Some i => i_has i f | None => String.eqb f "__schema" || String.eqb f "__type" end.
  Definition ex31_ans (o : option iobj) (f : string) (p : fparams) : answer (option iobj) :=
    match o with
    | Some i => amap Some (i_ans r i f p)
    | None => amap Some (if String.eqb f "__schema" then query_schema_answer else query_type_answer r p)
    end.
  Lemma C31_hosts_met : hosts r Some ex31_types ex31_has ex31_ans None.
  Proof. constructor; auto. Qed.
End Met.

(** A schema with all kinds of types, built completely. *)
Definition ex31_calls : list call :=
  [ Make SCALAR "Int" "Built-in type"; AddType "Int" 0; Make OBJECT "Query" "the root"; AddType "Query" 1; Make INTERFACE "Node" ""; AddType "Node" 2;
    Make OBJECT "A" ""; AddType "A" 3; Make OBJECT "B" ""; AddType "B" 4; Make UNION "U" ""; AddType "U" 5; Make ENUM "E" ""; AddType "E" 6;
    Make INPUT_OBJECT "In" ""; AddType "In" 7; AddQueryType 1; WrapType NON_NULL 0; WrapType LIST 8;
    AddInterfaces 3 [2]; AddInterfaces 4 [2]; AddFields 1 [mkFieldObj "u" "" (Some "old") 5 [mkInputObj "x" "" 7 "{n: [1]}"]];
    AddFields 2 [mkFieldObj "id" "" None 8 []]; AddPossibleTypes 5 [3; 4];
    AddEnumValues 6 [mkEnumValue "X" "" None; mkEnumValue "Y" "" (Some "gone")]; AddInputValues 7 [mkInputObj "n" "" 9 "[1]"];
    AddDirective (mkDirObj "d" "" [QUERY; FIELD] [mkInputObj "a" "an argument" 8 ""]) ].
Example C31_met : after false ex31_calls (built false ex31_calls) /\ complete (built false ex31_calls) /\ supports_introspection (built false ex31_calls) = true.
Proof.
  split; [|split]; [| |reflexivity].
  - apply (after_more false [] ex31_calls (new_schema false)); [constructor|].
    simpl allowed_all.
    repeat match goal with |- _ /\ _ => split end; auto; unfold plain_at, kind_at, known, is_wrapper; auto;
    try (eexists; split; [vm_compute; reflexivity|simpl; try reflexivity; intros [H|H]; discriminate]);
    try (intros [H|H]; discriminate); try (eexists; vm_compute; reflexivity).
    + intros i [<-|[]]. eexists; split; [vm_compute; reflexivity|reflexivity].
    + intros i [<-|[]]. eexists; split; [vm_compute; reflexivity|reflexivity].
    + left. eexists; split; [vm_compute; reflexivity|reflexivity].
    + right. eexists; split; [vm_compute; reflexivity|reflexivity].
  - assert (C : forall t o, object_at (built false ex31_calls) t = Some o -> t < 10).
    { intros t o H. change 10 with (length (heap (built false ex31_calls))). apply nth_error_Some. unfold object_at in H. congruence. }
    assert (K : forall t, t < 10 -> known (built false ex31_calls) t).
    { intros t L. do 10 (destruct t as [|t]; [eexists; vm_compute; reflexivity|]). lia. }
    assert (P : forall t, t < 8 -> plain_at (built false ex31_calls) t).
    { intros t L. do 8 (destruct t as [|t]; [eexists; split; [vm_compute; reflexivity|intros [H|H]; discriminate]|]). lia. }
    constructor.
    + intros t o H W. pose proof (C t o H) as L. do 8 (destruct t as [|t]; [vm_compute in H; injection H as <-; vm_compute; tauto|]).
      do 2 (destruct t as [|t]; [vm_compute in H; injection H as <-; exfalso; apply W; unfold is_wrapper; simpl; auto|]). lia.
    + intros n t H. vm_compute in H. repeat (destruct H as [H|H]; [injection H as <- <-; eexists; split; vm_compute; reflexivity|]). destruct H.
    + vm_compute. repeat constructor; simpl; intros H; repeat (destruct H as [H|H]; [discriminate|]); exact H.
    + intros t o f H I. pose proof (C t o H) as L. do 10 (destruct t as [|t]; [vm_compute in H; injection H as <-; vm_compute in I;
        repeat (destruct I as [I|I]; [subst f; split; [apply K; vm_compute; lia|simpl; intros i J; repeat (destruct J as [J|J]; [subst i; apply K; vm_compute; lia|]); destruct J]|]); destruct I|]). lia.
    + intros t o i H I. pose proof (C t o H) as L. do 10 (destruct t as [|t]; [vm_compute in H; injection H as <-; vm_compute in I;
        repeat (destruct I as [I|I]; [subst i; apply K; vm_compute; lia|]); destruct I|]). lia.
    + intros t o i H I. pose proof (C t o H) as L. do 10 (destruct t as [|t]; [vm_compute in H; injection H as <-; vm_compute in I;
        repeat (destruct I as [I|I]; [subst i; apply P; vm_compute; lia|]); destruct I|]). lia.
    + intros t o i H I. pose proof (C t o H) as L. do 10 (destruct t as [|t]; [vm_compute in H; injection H as <-; vm_compute in I;
        repeat (destruct I as [I|I]; [subst i; apply P; vm_compute; lia|]); destruct I|]). lia.
    + intros d i H I. vm_compute in H. destruct H as [<-|[]]. destruct I as [<-|[]]. apply K. simpl. lia.
    + exists 1. split; [reflexivity|]. apply P. lia.
    + discriminate.
    + discriminate.
Qed.

Print Assumptions C31_objects. Print Assumptions C31_query_schema. Print Assumptions C31_query_type. Print Assumptions C31_unknown_type_refuted.
Print Assumptions C31_standard_query. Print Assumptions C31_represented. Print Assumptions C31_complete_response. Print Assumptions C31_met.
