(** What clientgen's schema is (for C53). *)
From Verif Require Import Cpp Value Ast ModifiersModel SortedMapModel SchemaModel RegistryModel RegistrySpec RegistryProofs RegistryProps
  IntroModel IntroSpec LoaderModel LoaderSpec GenModel GenRun GenEval ClientSchemaModel.
Local Open Scope string_scope.
Local Open Scope list_scope.

(** * Types *)
Lemma fold_rev {X Y} (f : Y -> X -> X) ms x : fold_left (fun s m => f m s) (rev ms) x = fold_right f x ms.
Proof. rewrite <- (rev_involutive ms) at 2. rewrite fold_left_rev_right. reflexivity. Qed.
Lemma wrap_eval r n a ms : lookup_type r n = Ok a ->
  let s := fold_right wrap_step ((r, a), true) ms in
  eval_type r [] (introspection_type n ms false) = Ok (fst s)
  /\ eval_type r [] (introspection_type n ms true) = Ok (if snd s then wrap_type (fst (fst s)) NON_NULL (snd (fst s)) else fst s).
Proof.
  intros Hl. induction ms as [|[] ms IH]; cbn [fold_right introspection_type].
  - simpl. rewrite Hl. auto.
  - cbv zeta in IH. destruct (fold_right wrap_step (r, a, true) ms) as [[r1 a1] nn]. cbn [fst snd wrap_step] in *. destruct IH as [IH _]. auto.
  - cbv zeta in IH. destruct (fold_right wrap_step (r, a, true) ms) as [[r1 a1] nn]. cbn [fst snd wrap_step] in *. destruct IH as [_ IH].
    cbn [eval_type]. rewrite IH. cbn [bind]. destruct (if nn then wrap_type r1 NON_NULL a1 else (r1, a1)) as [r2 a2]. cbn [fst snd bind].
    destruct (wrap_type r2 LIST a2) as [r3 a3]. cbn [fst snd]. auto.
Qed.
Lemma schema_type_eval r n a ms : lookup_type r n = Ok a -> schema_type r n ms = eval_type r [] (introspection_type n ms true).
Proof.
  intros Hl. unfold schema_type. rewrite Hl. cbn [no_throw bind]. rewrite fold_rev. destruct (wrap_eval r n a ms Hl) as [_ H]. rewrite H. clear H.
  destruct (fold_right wrap_step (r, a, true) ms) as [[r1 a1] nn]. reflexivity.
Qed.

Definition diag {X} (e : list (string * X)) : list (string * string) := map (fun x => (fst x, fst x)) e.
Lemma rep_no_env b r e A E : rep b r e A E -> rep b r [] A [].
Proof. intros []. constructor; auto. Qed.
Section Steps.
  Variable b : bool.
  Lemma schema_type_ok r e A E n ms : rep b r e A E -> In n (map fst (ps_types A)) ->
    exists r' a, schema_type r n ms = Ok (r', a) /\ grown b r r' /\ refers r' (type_from n ms true) a.
  Proof.
    intros R Hn. destruct (rep_lookup _ _ _ _ _ n R Hn) as (a & Hl & _). rewrite (schema_type_eval r n a ms Hl).
    apply (eval_type_ok b r [] A [] (rep_no_env _ _ _ _ _ R)); [apply type_from_is|rewrite type_from_base; exact Hn].
  Qed.
  Definition known_input (A : pschema) (f : in_field) : option input_value := if has_type A (in_type f) then Some (in_def false f) else None.
  Lemma schema_inputs_ok e A E r fs : rep b r e A E -> (forall f, In f fs -> In (in_type f) (map fst (ps_types A))) ->
    exists r' ys, each schema_input r fs = Ok (r', ys) /\ grown b r r' /\ Forall2 (input_rep r') ys (map (in_def false) fs).
  Proof.
    intros R Hf. apply (each_ok b e A E schema_input (known_input A) input_rep).
    - intros r0 r' y z K. apply input_keeps. exact K.
    - intros r0 x z R0 Ex. unfold known_input in Ex. destruct (has_type A (in_type x)) eqn:Eh; [|discriminate]. injection Ex as <-. apply has_type_in in Eh.
      destruct (schema_type_ok r0 e A E (in_type x) (in_mods x) R0 Eh) as (r' & a & H1 & G & Hr). unfold schema_input. rewrite H1. cbn [bind].
      eexists _, _. split; [reflexivity|]. split; [exact G|]. repeat split; exact Hr.
    - exact R.
    - clear R. induction fs as [|f fs IH]; [reflexivity|]. cbn [omap_all map]. unfold known_input at 1. rewrite (proj2 (has_type_in A (in_type f))) by (apply Hf; left; reflexivity).
      rewrite IH; [reflexivity|]. intros g Hg. apply Hf. right. exact Hg.
  Qed.
  Definition field_known (A : pschema) (f : out_field) : Prop :=
    In (out_type f) (map fst (ps_types A)) /\ forall a, In a (out_args f) -> In (in_type a) (map fst (ps_types A)).
  Definition known_field (A : pschema) (f : out_field) : option field_def :=
    if has_type A (out_type f) && forallb (fun a => has_type A (in_type a)) (out_args f) then Some (out_def false f) else None.
  Lemma schema_fields_ok e A E r fs : rep b r e A E -> (forall f, In f fs -> field_known A f) ->
    exists r' ys, each schema_field r fs = Ok (r', ys) /\ grown b r r' /\ Forall2 (field_rep r') ys (map (out_def false) fs).
  Proof.
    intros R Hf. apply (each_ok b e A E schema_field (known_field A) field_rep).
    - intros r0 r' y z K. apply field_keeps. exact K.
    - intros r0 x z R0 Ex. unfold known_field in Ex. destruct (has_type A (out_type x) && _) eqn:Eh; [|discriminate]. injection Ex as <-.
      apply andb_prop in Eh as [Eh Ea]. apply has_type_in in Eh. rewrite forallb_forall in Ea.
      destruct (schema_inputs_ok e A E r0 (out_args x) R0) as (r1 & ys & H1 & G1 & P1); [intros a Ha; apply has_type_in, Ea, Ha|].
      destruct (schema_type_ok r1 e A E (out_type x) (out_mods x) (rep_grown _ _ _ _ _ _ R0 G1) Eh) as (r2 & a & H2 & G2 & Hr).
      unfold schema_field. rewrite H1. cbn [bind]. rewrite H2. cbn [bind]. eexists _, _. split; [reflexivity|]. split; [eapply grown_trans; eauto|].
      repeat split; auto. simpl. eapply forall2_imp; [|exact P1]. intros i j. apply input_keeps. eapply grown_keeps; exact G2.
    - exact R.
    - clear R. induction fs as [|f fs IH]; [reflexivity|]. cbn [omap_all map]. unfold known_field at 1. destruct (Hf f (or_introl eq_refl)) as [H1 H2].
      rewrite (proj2 (has_type_in A (out_type f)) H1). replace (forallb _ (out_args f)) with true by (symmetry; apply forallb_forall; intros a Ha; apply has_type_in, H2, Ha).
      cbn [andb]. rewrite IH; [reflexivity|]. intros g Hg. apply Hf. right. exact Hg.
  Qed.

  (** * Declarations *)
  Lemma declared_env r r' e : (forall n t, lookup_type r n = Ok t -> lookup_type r' n = Ok t) ->
    Forall2 (fun x y => fst x = fst y /\ lookup_type r (snd y) = Ok (snd x)) e (diag e) ->
    Forall2 (fun x y => fst x = fst y /\ lookup_type r' (snd y) = Ok (snd x)) e (diag e).
  Proof. intros H. apply forall2_imp. intros x y [H1 H2]. auto. Qed.
  Lemma declare_types_ok {X} k (name desc : X -> string) : plain_kind k = true -> forall l r m e A,
    rep b r e A (diag e) -> NoDup (map fst (ps_types A) ++ map name l) -> (forall n a, In (n, a) m -> In n (map fst (ps_types A))) ->
    exists r' new, declare_types k name desc r m l = (r', m ++ new) /\ map fst new = map name l
      /\ rep b r' (e ++ new) (with_types A (ps_types A ++ map (fun t => (name t, new_def k (desc t))) l)) (diag (e ++ new)).
  Proof.
    intros Hk l. induction l as [|t l IH]; intros r m e A R Hn Hm.
    - exists r, []. cbn [map]. rewrite !app_nil_r. split; [reflexivity|]. split; [reflexivity|]. destruct A. exact R.
    - cbn [map] in Hn. destruct (nodup_mid _ _ _ Hn) as [H1 H2]. cbn [declare_types].
      assert (Ea : assoc (name t) m = None).
      { destruct (assoc (name t) m) as [x|] eqn:E; [|reflexivity]. exfalso. apply H1. apply assoc_in' in E. exact (Hm _ _ E). }
      set (a := length (heap r)). assert (Ep : put m (name t) a = m ++ [(name t, a)]) by (unfold put; rewrite Ea; reflexivity).
      assert (Eq : assoc (name t) (m ++ [(name t, a)]) = Some a).
      { clear -Ea. induction m as [|[n x] m IHm]; simpl in *; [rewrite String.eqb_refl; reflexivity|]. destruct (String.eqb (name t) n); [discriminate|auto]. }
      rewrite Ep, Eq.
      assert (Ed := declare_new A k (name t) (desc t) H1 Hk). destruct (declare_ok b r e A (diag e) k (name t) (desc t) _ R Ed) as [R1 Hl]. cbv zeta in R1, Hl. fold a in R1, Hl.
      set (r1 := exec (exec r (Make k (name t) (desc t))) (AddType (name t) a)) in *.
      assert (R1' : rep b r1 (e ++ [(name t, a)]) (with_types A (ps_types A ++ [(name t, new_def k (desc t))])) (diag (e ++ [(name t, a)]))).
      { destruct R1 as [T1 T2 T3 T4 T5 T6 T7 T8]. constructor; auto. unfold diag. rewrite map_app. apply Forall2_app; [exact T4|]. constructor; [|constructor]. auto. }
      destruct (IH r1 (m ++ [(name t, a)]) (e ++ [(name t, a)]) _ R1') as (r' & new & E1 & E2 & R').
      + cbn [ps_types with_types]. rewrite map_app. exact H2.
      + intros n x Hi. cbn [ps_types with_types]. rewrite map_app. apply in_app_iff in Hi as [Hi|[Hi|[]]]; apply in_or_app; [left; exact (Hm _ _ Hi)|right; left; injection Hi as <- _; reflexivity].
      + exists r', ((name t, a) :: new). rewrite E1. split; [rewrite <- app_assoc; reflexivity|]. split; [simpl; congruence|].
        cbn [ps_types with_types ps_query ps_mutation ps_subscription ps_directives map] in R'. rewrite <- !app_assoc in R'. exact R'.
  Qed.
  Lemma declare_scalars_ok : forall l r A, rep b r [] A [] -> NoDup (map fst (ps_types A) ++ map sc_type l) ->
    rep b (declare_scalars r l) [] (with_types A (ps_types A ++ map (fun s => (sc_type s, new_def SCALAR (sc_desc s))) l)) [].
  Proof.
    unfold declare_scalars. induction l as [|t l IH]; intros r A R Hn; [simpl; rewrite app_nil_r; destruct A; exact R|]. cbn [map] in Hn. destruct (nodup_mid _ _ _ Hn) as [H1 H2].
    destruct (declare_ok b r [] A [] SCALAR (sc_type t) (sc_desc t) _ R (declare_new A SCALAR _ _ H1 eq_refl)) as [R1 _]. cbv zeta in R1. cbn [fold_left].
    assert (R' := IH _ _ R1). cbn [ps_types with_types map] in R'. rewrite map_app in R'. specialize (R' H2). rewrite <- app_assoc in R'. exact R'.
  Qed.

  (** * Details *)
  Lemma with_types_same A : with_types A (updated (all_updates []) (ps_types A)) = A.
  Proof. unfold updated, all_updates. simpl. rewrite (map_ext _ (fun x => x)), map_id by (intros []; reflexivity). destruct A; reflexivity. Qed.
  Lemma one_update n g A : with_types A (change n g (ps_types A)) = with_types A (updated (all_updates [u_one n g]) (ps_types A)).
  Proof. rewrite change_updated. reflexivity. Qed.

  Section Detail.
    Variables (e : list (string * address)) (sg : list (string * type_kind)).
    Local Notation E := (diag e).
    Local Notation names := (map fst sg).
    Lemma sig_names A : signature A = sg -> map fst (ps_types A) = names.
    Proof. intros <-. rewrite signature_names. reflexivity. Qed.
    Lemma env_lookup r A n a : rep b r e A E -> In (n, a) e -> lookup_type r n = Ok a.
    Proof.
      intros R Hi. assert (H := re_env _ _ _ _ _ R). clear R. induction e as [|x l IH]; [contradiction|]. cbn [diag map] in H. inversion H as [|? ? ? ? [H1 H2] H3]; subst.
      destruct Hi as [->|Hi]; [exact H2|auto].
    Qed.
    (** A step that does the updates [us]. *)
    Definition step_does {X} (f : registry -> X -> result registry) (us : X -> list (string -> type_def -> type_def)) (x : X) : Prop :=
      (forall n d, td_kind (all_updates (us x) n d) = td_kind d) /\
      forall A r, signature A = sg -> rep b r e A E ->
        exists r', f r x = Ok r' /\ rep b r' e (with_types A (updated (all_updates (us x)) (ps_types A))) E.
    Lemma for_each_ok {X} (f : registry -> X -> result registry) us : forall l, (forall x, In x l -> step_does f us x) ->
      forall A r, signature A = sg -> rep b r e A E ->
        exists r', for_each f r l = Ok r' /\ rep b r' e (with_types A (updated (all_updates (flat_map us l)) (ps_types A))) E
          /\ signature (with_types A (updated (all_updates (flat_map us l)) (ps_types A))) = sg.
    Proof.
      induction l as [|x l IH]; intros H A r HA R.
      - exists r. cbn [flat_map]. rewrite with_types_same. auto.
      - destruct (H x (or_introl eq_refl)) as [Hk Hs]. destruct (Hs A r HA R) as (r1 & E1 & R1).
        assert (HA1 : signature (with_types A (updated (all_updates (us x)) (ps_types A))) = sg) by (rewrite updated_sig; auto).
        destruct (IH (fun y Hy => H y (or_intror Hy)) _ r1 HA1 R1) as (r2 & E2 & R2 & HA2). exists r2. cbn [for_each]. rewrite E1. cbn [bind]. split; [exact E2|].
        assert (Eu : with_types (with_types A (updated (all_updates (us x)) (ps_types A))) (updated (all_updates (flat_map us l)) (ps_types (with_types A (updated (all_updates (us x)) (ps_types A)))))
                     = with_types A (updated (all_updates (flat_map us (x :: l))) (ps_types A))).
        { unfold with_types. cbn [ps_types ps_query ps_mutation ps_subscription ps_directives]. f_equal. unfold updated. rewrite map_map. apply map_ext. intros [n d]. cbn [fst snd flat_map].
          rewrite all_updates_app. reflexivity. }
        rewrite Eu in R2, HA2. auto.
    Qed.
    Lemma kind_here A r n a k : signature A = sg -> rep b r e A E -> lookup_type r n = Ok a -> assoc n sg = Some k -> kind_at r a k.
    Proof.
      intros HA R Hl Hs. eapply kind_one; [apply (rep_kind b r e A E [k] n a R Hl)|reflexivity]. rewrite has_kind_sig, HA, Hs. simpl. destruct k; reflexivity.
    Qed.
    Lemma one_all_kind {X} (l : list X) n g : (forall d, td_kind (g d) = td_kind d) -> forall m d, td_kind (all_updates (unless_nil l (u_one n g)) m d) = td_kind d.
    Proof. intros H m d. rewrite unless_one. destruct (String.eqb n m); [|reflexivity]. destruct l; auto. Qed.

    Lemma enum_step m t a : assoc (et_type t) m = Some a -> In (et_type t, a) e -> assoc (et_type t) sg = Some ENUM -> step_does (enum_details m) (enum_updates false) t.
    Proof.
      intros Hm Hi Hs. split; [apply one_all_kind; reflexivity|]. intros A r HA R. unfold enum_details, enum_updates. rewrite Hm.
      destruct (et_values t) as [|v vs] eqn:Ev; [exists r; cbn [unless_nil]; rewrite with_types_same; auto|]. eexists. split; [reflexivity|]. cbn [unless_nil]. rewrite <- one_update.
      assert (Hl := env_lookup r A _ _ R Hi). apply (rep_one b r e A E _ (et_type t) a _ R); auto.
      + simpl. exact (kind_here A r _ a ENUM HA R Hl Hs).
      + intros t' o Ht. simpl. rewrite neq_eqb; auto.
      + intros o d Hr. cbn [effect]. rewrite Nat.eqb_refl. destruct Hr as (r1 & r2 & r3 & r4 & r5 & r6 & r7 & r8). repeat split; auto.
    Qed.
    Lemma input_step m t a : assoc (it_type t) m = Some a -> In (it_type t, a) e -> assoc (it_type t) sg = Some INPUT_OBJECT ->
      (forall f, In f (it_fields t) -> In (in_type f) names) -> step_does (input_details m) (input_updates false) t.
    Proof.
      intros Hm Hi Hs Hf. split; [apply one_all_kind; reflexivity|]. intros A r HA R. unfold input_details, input_updates. rewrite Hm.
      destruct (it_fields t) as [|v vs] eqn:Ev; [exists r; cbn [unless_nil]; rewrite with_types_same; auto|]. rewrite <- Ev in *.
      destruct (schema_inputs_ok e A E r (it_fields t) R) as (r1 & ys & H1 & G & P); [rewrite (sig_names A HA); exact Hf|].
      rewrite H1. cbn [bind]. eexists. split; [reflexivity|]. replace (unless_nil (it_fields t) (u_one (it_type t) (d_inputs (map (in_def false) (it_fields t)))))
        with [u_one (it_type t) (d_inputs (map (in_def false) (it_fields t)))] by (rewrite Ev; reflexivity). rewrite <- one_update.
      assert (R1 := rep_grown _ _ _ _ _ _ R G). assert (Hl := env_lookup r1 A _ _ R1 Hi). apply (rep_one b r1 e A E _ (it_type t) a _ R1); auto.
      + simpl. exact (kind_here A r1 _ a INPUT_OBJECT HA R1 Hl Hs).
      + intros t' o Ht. simpl. rewrite neq_eqb; auto.
      + intros o dd Hr. cbn [effect]. rewrite Nat.eqb_refl. destruct Hr as (q1 & q2 & q3 & q4 & q5 & q6 & q7 & q8).
        assert (K : keeps r1 (exec r1 (AddInputValues a ys))) by (apply keeps_exec; reflexivity). repeat split; auto. cbn [to_inputs set_inputs td_inputs d_inputs].
        eapply forall2_imp; [|exact P]. intros x y. apply input_keeps. exact K.
    Qed.
    Lemma fields_step r A n a fs : signature A = sg -> rep b r e A E -> In (n, a) e -> (assoc n sg = Some OBJECT \/ assoc n sg = Some INTERFACE) ->
      (forall f, In f fs -> In (out_type f) names /\ forall x, In x (out_args f) -> In (in_type x) names) ->
      exists r1 ys, each schema_field r fs = Ok (r1, ys) /\ rep b (exec r1 (AddFields a ys)) e (with_types A (change n (d_fields (map (out_def false) fs)) (ps_types A))) E.
    Proof.
      intros HA R Hi Hs Hf. destruct (schema_fields_ok e A E r fs R) as (r1 & ys & H1 & G & P); [unfold field_known; rewrite (sig_names A HA); exact Hf|].
      exists r1, ys. split; [exact H1|]. assert (R1 := rep_grown _ _ _ _ _ _ R G). assert (Hl := env_lookup r1 A _ _ R1 Hi). apply (rep_one b r1 e A E _ n a _ R1); auto.
      + simpl. destruct Hs as [Hs|Hs]; [left|right]; exact (kind_here A r1 _ a _ HA R1 Hl Hs).
      + intros t' o Ht. simpl. rewrite neq_eqb; auto.
      + intros o dd Hr. cbn [effect]. rewrite Nat.eqb_refl. destruct Hr as (q1 & q2 & q3 & q4 & q5 & q6 & q7 & q8).
        assert (K : keeps r1 (exec r1 (AddFields a ys))) by (apply keeps_exec; reflexivity). repeat split; auto. cbn [to_fields set_fields td_fields d_fields].
        eapply forall2_imp; [|exact P]. intros x y. apply field_keeps. exact K.
    Qed.
    Lemma interface_step m t a : assoc (if_type t) m = Some a -> In (if_type t, a) e -> assoc (if_type t) sg = Some INTERFACE ->
      (forall f, In f (if_fields t) -> In (out_type f) names /\ forall x, In x (out_args f) -> In (in_type x) names) -> step_does (interface_details m) (interface_updates false) t.
    Proof.
      intros Hm Hi Hs Hf. split; [apply one_all_kind; reflexivity|]. intros A r HA R. unfold interface_details, interface_updates, at_end. rewrite Hm. cbn [bind].
      destruct (if_fields t) as [|v vs] eqn:Ev; [exists r; cbn [unless_nil]; rewrite with_types_same; auto|]. rewrite <- Ev in *.
      destruct (fields_step r A (if_type t) a (if_fields t) HA R Hi (or_intror Hs) Hf) as (r1 & ys & H1 & R1). rewrite H1. cbn [bind]. eexists. split; [reflexivity|].
      replace (unless_nil (if_fields t) (u_one (if_type t) (d_fields (map (out_def false) (if_fields t))))) with [u_one (if_type t) (d_fields (map (out_def false) (if_fields t)))]
        by (rewrite Ev; reflexivity). rewrite <- one_update. exact R1.
    Qed.
    Lemma lookups_ok r A os : rep b r e A E -> (forall n, In n os -> In n (map fst (ps_types A))) ->
      exists ps, mapM (fun n => no_throw (lookup_type r n)) os = Ok ps /\ Forall2 (fun a n => refers r (TNamed n) a) ps os.
    Proof.
      intros R. induction os as [|o os IH]; intros H; [exists []; split; [reflexivity|constructor]|]. destruct (rep_lookup b r e A E o R (H o (or_introl eq_refl))) as (a & Hl & _).
      destruct (IH (fun n Hn => H n (or_intror Hn))) as (ps & E1 & P1). exists (a :: ps). cbn [mapM]. rewrite Hl. cbn [no_throw bind]. rewrite E1. cbn [bind]. split; [reflexivity|].
      constructor; [constructor; exact Hl|exact P1].
    Qed.
    Lemma union_step m t a : assoc (un_type t) m = Some a -> In (un_type t, a) e -> assoc (un_type t) sg = Some UNION ->
      (forall n, In n (un_options t) -> In n names) -> step_does (union_details m) union_updates t.
    Proof.
      intros Hm Hi Hs Hf. split; [apply one_all_kind; reflexivity|]. intros A r HA R. unfold union_details, union_updates, at_end. rewrite Hm. cbn [bind].
      destruct (un_options t) as [|v vs] eqn:Ev; [exists r; cbn [unless_nil]; rewrite with_types_same; auto|]. rewrite <- Ev in *.
      destruct (lookups_ok r A (un_options t) R) as (ps & H1 & P); [rewrite (sig_names A HA); exact Hf|]. rewrite H1. cbn [bind]. eexists. split; [reflexivity|].
      replace (unless_nil (un_options t) (u_one (un_type t) (d_possible (un_options t)))) with [u_one (un_type t) (d_possible (un_options t))] by (rewrite Ev; reflexivity).
      rewrite <- one_update. assert (Hl := env_lookup r A _ _ R Hi). apply (rep_one b r e A E _ (un_type t) a _ R); auto.
      + simpl. exact (kind_here A r _ a UNION HA R Hl Hs).
      + intros t' o Ht. simpl. rewrite neq_eqb; auto.
      + intros o dd Hr. cbn [effect]. rewrite Nat.eqb_refl. destruct Hr as (q1 & q2 & q3 & q4 & q5 & q6 & q7 & q8).
        assert (K : keeps r (exec r (AddPossibleTypes a ps))) by (apply keeps_exec; reflexivity). repeat split; auto. cbn [to_possible set_possible td_possible d_possible].
        eapply forall2_imp; [|exact P]. intros x y. apply refers_keeps. exact K.
    Qed.
    (** AddInterfaces: the statement of the generated code with variables for everything. *)
    Lemma interfaces_step r A n a is ps : signature A = sg -> rep b r e A E -> NoDup (map fst e) -> In (n, a) e -> assoc n sg = Some OBJECT ->
      Forall2 (fun i p => In (i, p) e /\ assoc i sg = Some INTERFACE) is ps ->
      rep b (exec r (AddInterfaces a ps)) e (with_types A (updated (all_updates [u_implement n is]) (ps_types A))) E.
    Proof.
      intros HA R Hn Hi Hs Hp.
      assert (Hv : forall i p, In (i, p) e -> assoc i e = Some p) by (intros i p; apply assoc_nodup; exact Hn).
      assert (HE : forall i p, In (i, p) e -> assoc i E = Some i).
      { intros i p Hip. apply assoc_nodup; [unfold diag; rewrite map_map; exact Hn|]. unfold diag. apply in_map_iff. exists (i, p). auto. }
      assert (Ha : a_stmt [] E A (SInterfaces n (map EVar is)) = Some (with_types A (implement n is (ps_types A)))).
      { cbn [a_stmt]. rewrite (on_kind_ok E sg A [OBJECT] n n OBJECT _ HA (HE n a Hi) Hs eq_refl).
        rewrite (omap_all_map _ _ (fun i => i)).
        - rewrite map_id. assert (Hf : forallb (has_kind A [INTERFACE]) is = true).
          { apply forallb_forall. intros i Hii. rewrite has_kind_sig, HA. clear -Hp Hii. induction Hp as [|x y xs ys [_ H] _ IH]; [contradiction|]. destruct Hii as [->|Hii]; [rewrite H; reflexivity|auto]. }
          rewrite Hf. reflexivity.
        - intros i Hii. unfold a_name, a_known. cbn [a_type]. assert (Hx : (exists p, In (i, p) e) /\ assoc i sg = Some INTERFACE).
          { clear -Hp Hii. induction Hp as [|x y xs ys [H1 H] _ IH]; [contradiction|]. destruct Hii as [->|Hii]; [eauto|auto]. }
          destruct Hx as [[p Hip] His]. rewrite (HE i p Hip). cbn [option_map base_name].
          destruct (has_type A i) eqn:Eh; [reflexivity|]. exfalso. assert (Hin : In i (map fst (ps_types A))).
          { rewrite (sig_names A HA). apply (in_map fst) with (x := (i, INTERFACE)), assoc_in'. exact His. }
          apply has_type_in in Hin. congruence. }
      destruct (a_stmt_ok [] b r e A E _ _ R Ha) as (r' & H1 & R').
      assert (Er : exec r (AddInterfaces a ps) = r').
      { cbn [run_stmt] in H1. unfold eval_var at 1 in H1. rewrite (Hv n a Hi) in H1. cbn [bind] in H1.
        assert (Ee : eval_types e r (map EVar is) = Ok (r, ps)).
        { unfold eval_types. clear -Hp Hv. induction Hp as [|x y xs ys [H _] _ IH]; [reflexivity|]. cbn [map each eval_type]. unfold eval_var. rewrite (Hv x y H). cbn [bind]. rewrite IH. reflexivity. }
        rewrite Ee in H1. cbn [bind] in H1. injection H1 as <-. reflexivity. }
      rewrite Er. unfold implement in R'. rewrite change_map, map_map in R'. exact R'.
    Qed.
    Lemma implement_kind n is m d : td_kind (u_implement n is m d) = td_kind d.
    Proof. unfold u_implement, u_one. destruct (String.eqb n m); reflexivity. Qed.
    Lemma object_step ms m t a : NoDup (map fst e) -> assoc (ob_type t) m = Some a -> In (ob_type t, a) e -> assoc (ob_type t) sg = Some OBJECT ->
      (forall i, In i (ob_interfaces t) -> exists p, assoc i ms = Some p /\ In (i, p) e /\ assoc i sg = Some INTERFACE) ->
      (forall f, In f (ob_fields t) -> In (out_type f) names /\ forall x, In x (out_args f) -> In (in_type x) names) -> step_does (object_details ms m) (object_updates false) t.
    Proof.
      intros Hn Hm Hi Hs Hif Hf. split.
      { intros n d. unfold object_updates. rewrite all_updates_app, one_all_kind by reflexivity. destruct (ob_interfaces t); [reflexivity|]. apply implement_kind. }
      intros A r HA R. unfold object_details, object_updates, at_end at 1 3. rewrite Hm. cbn [bind].
      assert (H1 : exists r1, match ob_interfaces t with [] => Ok r | is => ps <- mapM (at_end ms) is ;; Ok (exec r (AddInterfaces a ps)) end = Ok r1
        /\ rep b r1 e (with_types A (updated (all_updates (unless_nil (ob_interfaces t) (u_implement (ob_type t) (ob_interfaces t)))) (ps_types A))) E).
      { destruct (ob_interfaces t) as [|i is] eqn:Ei; [exists r; cbn [unless_nil]; rewrite with_types_same; auto|]. rewrite <- Ei in *.
        assert (Hps : exists ps, mapM (at_end ms) (ob_interfaces t) = Ok ps /\ Forall2 (fun i p => In (i, p) e /\ assoc i sg = Some INTERFACE) (ob_interfaces t) ps).
        { clear Ei. induction (ob_interfaces t) as [|x xs IH]; [exists []; split; [reflexivity|constructor]|]. destruct (Hif x (or_introl eq_refl)) as (p & H1 & H2 & H3).
          destruct (IH (fun j Hj => Hif j (or_intror Hj))) as (ps & E1 & P1). exists (p :: ps). cbn [mapM]. unfold at_end at 1. rewrite H1. cbn [bind]. rewrite E1. split; [reflexivity|]. constructor; auto. }
        destruct Hps as (ps & E1 & P1). rewrite E1. cbn [bind]. eexists. split; [reflexivity|].
        replace (unless_nil (ob_interfaces t) (u_implement (ob_type t) (ob_interfaces t))) with [u_implement (ob_type t) (ob_interfaces t)] by (rewrite Ei; reflexivity).
        exact (interfaces_step r A (ob_type t) a (ob_interfaces t) ps HA R Hn Hi Hs P1). }
      destruct H1 as (r1 & E1 & R1). rewrite E1. cbn [bind].
      set (A1 := with_types A (updated (all_updates (unless_nil (ob_interfaces t) (u_implement (ob_type t) (ob_interfaces t)))) (ps_types A))) in *.
      assert (HA1 : signature A1 = sg) by (unfold A1; rewrite updated_sig; [exact HA|intros n d; destruct (ob_interfaces t); [reflexivity|apply implement_kind]]).
      assert (Eu : forall us, with_types A1 (updated (all_updates us) (ps_types A1)) = with_types A (updated (all_updates (unless_nil (ob_interfaces t) (u_implement (ob_type t) (ob_interfaces t)) ++ us)) (ps_types A))).
      { intros us. unfold A1, with_types. cbn [ps_types ps_query ps_mutation ps_subscription ps_directives]. f_equal. unfold updated. rewrite map_map. apply map_ext. intros [n d]. cbn [fst snd].
        rewrite all_updates_app. reflexivity. }
      rewrite <- Eu. destruct (ob_fields t) as [|v vs] eqn:Ev; [exists r1; cbn [unless_nil]; rewrite with_types_same; auto|]. rewrite <- Ev in *.
      destruct (fields_step r1 A1 (ob_type t) a (ob_fields t) HA1 R1 Hi (or_introl Hs) Hf) as (r2 & ys & H2 & R2). rewrite H2. cbn [bind]. eexists. split; [reflexivity|].
      replace (unless_nil (ob_fields t) (u_one (ob_type t) (d_fields (map (out_def false) (ob_fields t))))) with [u_one (ob_type t) (d_fields (map (out_def false) (ob_fields t)))]
        by (rewrite Ev; reflexivity). rewrite <- one_update. exact R2.
    Qed.
    (** Directives and operations leave the types alone. *)
    Lemma directives_ok : forall ds A r, (forall d f, In d ds -> In f (ld_args d) -> In (in_type f) names) -> signature A = sg -> rep b r e A E ->
      exists r', for_each directive_details r ds = Ok r' /\ rep b r' e (mkPS (ps_types A) (ps_query A) (ps_mutation A) (ps_subscription A) (ps_directives A ++ map (dir_def false) ds)) E.
    Proof.
      induction ds as [|d ds IH]; intros A r Hd HA R; [exists r; cbn [for_each map]; rewrite app_nil_r; destruct A; auto|]. cbn [for_each].
      destruct (schema_inputs_ok e A E r (ld_args d) R) as (r1 & ys & H1 & G & P); [rewrite (sig_names A HA); intros f; apply Hd; left; reflexivity|].
      unfold directive_details at 1. rewrite H1. cbn [bind].
      assert (R1 : rep b (exec r1 (AddDirective (mkDirObj (ld_name d) (ld_desc d) (ld_locations d) ys))) e
                (mkPS (ps_types A) (ps_query A) (ps_mutation A) (ps_subscription A) (ps_directives A ++ [dir_def false d])) E).
      { assert (K : keeps r1 (exec r1 (AddDirective (mkDirObj (ld_name d) (ld_desc d) (ld_locations d) ys)))) by (apply keeps_exec; reflexivity).
        destruct (rep_grown _ _ _ _ _ _ R G) as [[h Ha] R2 R3 R4 R5 R6 R7 R8]. constructor; auto; try exact (root_keeps _ _ _ _ K R5); try exact (root_keeps _ _ _ _ K R6); try exact (root_keeps _ _ _ _ K R7).
        + eexists. constructor; [exact Ha|exact I].
        + eapply forall2_imp; [|exact R2]. intros x y (E1 & o & Ho & Hr). split; [exact E1|]. exists o. split; [exact Ho|eapply type_keeps; eauto].
        + simpl. apply Forall2_app; [eapply forall2_imp; [|exact R8]; intros x y; apply directive_keeps; exact K|].
          constructor; [|constructor]. repeat split. simpl. eapply forall2_imp; [|exact P]. intros x y. apply input_keeps. exact K. }
      destruct (IH _ _ (fun d' f Hd' => Hd d' f (or_intror Hd')) (HA : signature (mkPS _ _ _ _ _) = sg) R1) as (r' & E' & R'). exists r'. split; [exact E'|].
      cbn [ps_types ps_query ps_mutation ps_subscription ps_directives] in R'. rewrite <- app_assoc in R'. exact R'.
    Qed.
    Lemma operations_ok m : NoDup (map fst e) -> forall ops A r, (forall o, In o ops -> exists a, assoc (ot_type o) m = Some a /\ In (ot_type o, a) e /\ assoc (ot_type o) sg = Some OBJECT) ->
      signature A = sg -> rep b r e A E ->
      exists r', for_each (operation_details m) r ops = Ok r'
        /\ rep b r' e (mkPS (ps_types A) (last_operation is_q (ps_query A) ops) (last_operation is_m (ps_mutation A) ops) (last_operation is_s (ps_subscription A) ops) (ps_directives A)) E.
    Proof.
      intros Hn ops. induction ops as [|o ops IH]; intros A r Ho HA R; [exists r; destruct A; auto|]. destruct (Ho o (or_introl eq_refl)) as (a & H1 & H2 & H3).
      assert (HE : assoc (ot_type o) E = Some (ot_type o)).
      { apply assoc_nodup; [unfold diag; rewrite map_map; exact Hn|]. unfold diag. apply in_map_iff. exists (ot_type o, a). auto. }
      assert (Hv : assoc (ot_type o) e = Some a) by (apply assoc_nodup; auto).
      cbn [for_each]. unfold operation_details at 1, at_end. rewrite H1. cbn [bind].
      assert (Ha : exists A1, a_stmt [] E A (SOperation (ot_operation o) (ot_type o)) = Some A1 /\
        A1 = mkPS (ps_types A) (last_operation is_q (ps_query A) [o]) (last_operation is_m (ps_mutation A) [o]) (last_operation is_s (ps_subscription A) [o]) (ps_directives A)).
      { eexists. cbn [a_stmt]. rewrite (on_kind_ok E sg A [OBJECT] _ _ OBJECT _ HA HE H3 eq_refl). split; [reflexivity|]. unfold last_operation. cbn [fold_left]. destruct (ot_operation o); reflexivity. }
      destruct Ha as (A1 & Ha & EA). destruct (a_stmt_ok [] b r e A E _ _ R Ha) as (r1 & Er & R1). cbn [run_stmt] in Er. unfold eval_var in Er. rewrite Hv in Er. cbn [bind] in Er. injection Er as Er. rewrite Er.
      subst A1. destruct (IH _ _ (fun o' Ho' => Ho o' (or_intror Ho')) (HA : signature (mkPS _ _ _ _ _) = sg) R1) as (r' & E' & R'). exists r'. split; [exact E'|]. exact R'.
    Qed.
  End Detail.
End Steps.
