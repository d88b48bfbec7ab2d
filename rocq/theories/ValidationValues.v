(** Values: the visitor's checks of literals and variables decide the rules of ValidationSpec.v. *)
From Verif Require Import Cpp Value Ast SchemaModel SortedMapModel SortedMapSpec SortedMapProofs Base64Model Base64Spec Base64Proofs.
From Verif Require Import ValidationModel ValidationSpec ValidationMaps.
From Coq Require Import Sorting.Sorted Permutation.
Local Open Scope string_scope.
Local Open Scope list_scope.

(** A step of the visitor that reports no error exactly if [P] holds; then [Q] holds of the result and the new state. *)
Definition checks {A} (m : M A) (st : vstate) (P : Prop) (Q : A -> vstate -> Prop) : Prop :=
  let '(es, a, st') := m st in (es = [] /\ P /\ Q a st') \/ (es <> [] /\ ~ P).

Lemma app_not_nil_l {A} (a b : list A) : a <> [] -> a ++ b <> [].
Proof. destruct a; simpl; congruence. Qed.
Lemma app_not_nil_r {A} (a b : list A) : b <> [] -> a ++ b <> [].
Proof. destruct a; simpl; congruence. Qed.

Lemma checks_bind {A B} (m : M A) (k : A -> M B) st P P' P'' Q Q' :
  checks m st P Q -> (forall a st', P -> Q a st' -> checks (k a) st' P' Q') -> (P'' <-> P /\ P') -> checks (mbind m k) st P'' Q'.
Proof.
  unfold checks, mbind. destruct (m st) as [[e1 a] st1] eqn:E. intros H1 H2 HP.
  destruct H1 as [(-> & H1 & H3)|(H1 & H3)].
  - specialize (H2 a st1 H1 H3). destruct (k a st1) as [[e2 b] st2]. simpl.
    destruct H2 as [(-> & H4 & H5)|(H4 & H5)]; [left|right]; tauto.
  - destruct (k a st1) as [[e2 b] st2]. right. split; [apply app_not_nil_l; auto|tauto].
Qed.
Lemma checks_ret {A} (a : A) st (P : Prop) (Q : A -> vstate -> Prop) : P -> Q a st -> checks (ret a) st P Q.
Proof. unfold checks, ret. auto. Qed.
Lemma checks_emit msg loc st (P : Prop) (Q : unit -> vstate -> Prop) : ~ P -> checks (emit msg loc) st P Q.
Proof. unfold checks, emit. intro H. right. split; [discriminate|auto]. Qed.
Lemma checks_imp {A} (m : M A) st P P' (Q Q' : A -> vstate -> Prop) :
  checks m st P Q -> (P <-> P') -> (forall a st', P -> Q a st' -> Q' a st') -> checks m st P' Q'.
Proof.
  unfold checks. destruct (m st) as [[e1 a] st1]. intros [(H1 & H2 & H3)|(H1 & H2)] HP HQ; [left|right]; try tauto.
  split; [tauto|]. split; [tauto|]. auto.
Qed.
(** an error first *)
Lemma checks_emit_bind {A} msg loc (k : M A) st (P : Prop) Q : ~ P -> checks (mbind (emit msg loc) (fun _ => k)) st P Q.
Proof. unfold checks, mbind, emit. intro H. destruct (k st) as [[e a] st']. right. split; [discriminate|auto]. Qed.
Lemma checks_modify_bind {A} f (k : M A) st P Q : checks k (f st) P Q -> checks (mbind (modify f) (fun _ => k)) st P Q.
Proof. unfold checks, mbind, modify. destruct (k (f st)) as [[e a] st']. auto. Qed.
Lemma checks_get_bind {A} (k : vstate -> M A) st P Q : checks (k st) st P Q -> checks (mbind get k) st P Q.
Proof. unfold checks, mbind, get. destruct (k st st) as [[e a] st']. auto. Qed.
Lemma checks_ret_bind {A B} (x : B) (k : B -> M A) st P Q : checks (k x) st P Q -> checks (mbind (ret x) k) st P Q.
Proof. unfold checks, mbind, ret. destruct (k x st) as [[e a] st']. auto. Qed.
Lemma checks_emits_bind {A} es (k : M A) st (P P' P'' : Prop) Q :
  (es = [] <-> P) -> (P -> checks k st P' Q) -> (P'' <-> P /\ P') -> checks (mbind (emits es) (fun _ => k)) st P'' Q.
Proof.
  unfold checks, mbind, emits. intros He Hk HP. destruct (k st) as [[e a] st']. destruct es as [|x es].
  - simpl. destruct (Hk (proj1 He eq_refl)) as [(-> & H4 & H5)|(H4 & H5)]; [left|right]; tauto.
  - right. split; [discriminate|]. intro H. apply HP in H. assert (x :: es = []) by tauto. discriminate.
Qed.

Section Values.
  Variable S : schema.
  Hypothesis WF : schema_wf S.

  Notation compatible := (compatible).
  Lemma compatible_nonnull v l : compatible (TNonNull v) (TNonNull l) <-> compatible v l.
  Proof. split; intro H; [inversion H; subst; auto; congruence | constructor; auto]. Qed.
  Lemma compatible_strict v l : (forall l', l <> TNonNull l') -> (compatible (TNonNull v) l <-> compatible v l).
  Proof. intro N. split; intro H; [inversion H; subst; auto; exfalso; eapply N; eauto | constructor; auto]. Qed.
  Lemma compatible_weak v l : (forall v', v <> TNonNull v') -> ~ compatible v (TNonNull l).
  Proof. intros N H. inversion H; subst; eapply N; eauto. Qed.

  Lemma live_input t : input_type S t -> live S t = Some t.
  Proof.
    destruct t; auto. unfold input_type, input_named, type_is. simpl. intros [(d & H & _)|[(d & H & _)|(d & H & _)]]; rewrite H; auto.
  Qed.
  Lemma input_kind n : input_type S (TNamed n) -> exists d, find_type S n = Some d /\ (td_kind d = SCALAR \/ td_kind d = ENUM \/ td_kind d = INPUT_OBJECT).
  Proof. unfold input_type, input_named, type_is. simpl. intros [(d & H1 & H2)|[(d & H1 & H2)|(d & H1 & H2)]]; eauto. Qed.
  Lemma input_not_empty n : input_type S (TNamed n) -> n <> "".
  Proof. intro H. apply input_kind in H. destruct H as (d & H & _). apply (wf_names _ WF _ _ H). Qed.

  (** ** Variables *)
  Lemma variable_type_ok input : forall nn var pos,
    proper input -> proper var -> input_type S input -> input_type S var ->
    let '(es, b) := validate_variable_type S input nn var pos in
    (es = [] /\ b = true /\ usage_allowed var nn input) \/ (es <> [] /\ b = false /\ ~ usage_allowed var nn input).
  Proof.
    assert (E : forall input nn var' pos, input_type S (TNonNull var') ->
       validate_variable_type S input nn (TNonNull var') pos = validate_variable_type S input true var' pos).
    { intros i nn v' pos Hi. destruct i; simpl; rewrite (live_input v' Hi); reflexivity. }
    induction input as [n|input IH|input IH]; intros nn var pos Pi Pv Ii Iv.
    - (* named *)
      assert (A : forall nn var, (forall v', var <> TNonNull v') -> input_type S var ->
                let '(es, b) := validate_variable_type S (TNamed n) nn var pos in
                (es = [] /\ b = true /\ compatible var (TNamed n)) \/ (es <> [] /\ b = false /\ ~ compatible var (TNamed n))).
      { clear nn var Pv Iv. intros nn var Nv Iv. destruct (input_kind _ Ii) as (d & Hd & Kd).
        pose proof (input_not_empty _ Ii) as Nn. destruct var as [m|v|v]; [| |exfalso; eapply Nv; eauto].
        - destruct (input_kind _ Iv) as (d' & Hd' & Kd'). pose proof (input_not_empty _ Iv) as Nm.
          simpl. rewrite Hd, Hd'. apply String.eqb_neq in Nn. apply String.eqb_neq in Nm. rewrite Nm, Nn.
          destruct (String.eqb m n) eqn:Emn.
          + apply String.eqb_eq in Emn. subst m. rewrite Hd in Hd'. inversion Hd'. subst d'.
            destruct Kd as [K|[K|K]]; rewrite K; simpl; left; (split; [|split]); auto; constructor.
          + apply String.eqb_neq in Emn.
            assert (~ compatible (TNamed m) (TNamed n)) by (intro C; inversion C; congruence).
            destruct Kd as [K|[K|K]]; rewrite K; destruct Kd' as [K'|[K'|K']]; rewrite K'; simpl; right; (split; [|split]); auto; discriminate.
        - simpl. rewrite Hd.
          assert (~ compatible (TListOf v) (TNamed n)) by (intro C; inversion C).
          destruct Kd as [K|[K|K]]; rewrite K; simpl; right; (split; [|split]); auto; discriminate. }
      assert (U : forall nn var, usage_allowed var nn (TNamed n) <-> compatible var (TNamed n)).
      { intros. unfold usage_allowed. split; [intros [H|(_ & l & H & _)]; auto; discriminate | auto]. }
      destruct var as [m|v|v].
      + specialize (A nn (TNamed m)). destruct (validate_variable_type S (TNamed n) nn (TNamed m) pos) as [es b].
        rewrite U. apply A; auto; discriminate.
      + specialize (A nn (TListOf v)). destruct (validate_variable_type S (TNamed n) nn (TListOf v) pos) as [es b].
        rewrite U. apply A; auto; discriminate.
      + rewrite E by auto. simpl in Pv. destruct Pv as (Pv & Nv).
        specialize (A true v Nv Iv). destruct (validate_variable_type S (TNamed n) true v pos) as [es b].
        rewrite U. rewrite compatible_strict by discriminate. exact A.
    - (* list *)
      assert (A : forall nn var, (forall v', var <> TNonNull v') -> proper var -> input_type S var ->
                let '(es, b) := validate_variable_type S (TListOf input) nn var pos in
                (es = [] /\ b = true /\ compatible var (TListOf input)) \/ (es <> [] /\ b = false /\ ~ compatible var (TListOf input))).
      { clear nn var Pv Iv. intros nn var Nv Pv Iv. destruct var as [m|v|v]; [| |exfalso; eapply Nv; eauto].
        - simpl. right. repeat split; try discriminate. intro C; inversion C.
        - simpl. rewrite (live_input v Iv), (live_input input Ii). specialize (IH false v pos Pi Pv Ii Iv).
          destruct (validate_variable_type S input false v pos) as [es b].
          assert (U : usage_allowed v false input <-> compatible (TListOf v) (TListOf input)).
          { unfold usage_allowed. split; [intros [H|(H & _)]; [constructor; auto|discriminate] | intro H; inversion H; auto]. }
          rewrite <- U. exact IH. }
      assert (U : forall nn var, usage_allowed var nn (TListOf input) <-> compatible var (TListOf input)).
      { intros. unfold usage_allowed. split; [intros [H|(_ & l & H & _)]; auto; discriminate | auto]. }
      destruct var as [m|v|v].
      + specialize (A nn (TNamed m)). destruct (validate_variable_type S (TListOf input) nn (TNamed m) pos) as [es b].
        rewrite U. apply A; auto; discriminate.
      + specialize (A nn (TListOf v)). destruct (validate_variable_type S (TListOf input) nn (TListOf v) pos) as [es b].
        rewrite U. apply A; auto; discriminate.
      + rewrite E by auto. simpl in Pv. destruct Pv as (Pv & Nv).
        specialize (A true v Nv Pv Iv). destruct (validate_variable_type S (TListOf input) true v pos) as [es b].
        rewrite U. rewrite compatible_strict by discriminate. exact A.
    - (* non-null *)
      simpl in Pi. destruct Pi as (Pi & Ni).
      assert (A : forall var, (forall v', var <> TNonNull v') -> proper var -> input_type S var ->
                let '(es, b) := validate_variable_type S (TNonNull input) true var pos in
                (es = [] /\ b = true /\ compatible var input) \/ (es <> [] /\ b = false /\ ~ compatible var input)).
      { clear var Pv Iv. intros var Nv Pv Iv.
        assert (X : validate_variable_type S (TNonNull input) true var pos = validate_variable_type S input false var pos).
        { destruct var as [m|v|v]; [| |exfalso; eapply Nv; eauto]; simpl; rewrite (live_input input Ii); reflexivity. }
        rewrite X. specialize (IH false var pos Pi Pv Ii Iv). destruct (validate_variable_type S input false var pos) as [es b].
        assert (U : usage_allowed var false input <-> compatible var input).
        { unfold usage_allowed. split; [intros [H|(H & _)]; [auto|discriminate] | auto]. }
        rewrite <- U. exact IH. }
      destruct var as [m|v|v].
      + destruct nn.
        * specialize (A (TNamed m)). destruct (validate_variable_type S (TNonNull input) true (TNamed m) pos) as [es b].
          assert (U : usage_allowed (TNamed m) true (TNonNull input) <-> compatible (TNamed m) input).
          { unfold usage_allowed. split.
            - intros [H|(_ & l & H & H1)]; [exfalso; revert H; apply compatible_weak; discriminate | inversion H; subst; auto].
            - intro H. right. eauto. }
          rewrite U. apply A; auto; discriminate.
        * simpl. right. repeat split; try discriminate. intros [H|(H & _)]; [|discriminate]. revert H. apply compatible_weak. discriminate.
      + destruct nn.
        * specialize (A (TListOf v)). destruct (validate_variable_type S (TNonNull input) true (TListOf v) pos) as [es b].
          assert (U : usage_allowed (TListOf v) true (TNonNull input) <-> compatible (TListOf v) input).
          { unfold usage_allowed. split.
            - intros [H|(_ & l & H & H1)]; [exfalso; revert H; apply compatible_weak; discriminate | inversion H; subst; auto].
            - intro H. right. eauto. }
          rewrite U. apply A; auto; discriminate.
        * simpl. right. repeat split; try discriminate. intros [H|(H & _)]; [|discriminate]. revert H. apply compatible_weak. discriminate.
      + rewrite E by auto. simpl in Pv. destruct Pv as (Pv & Nv).
        specialize (A v Nv Pv Iv). destruct (validate_variable_type S (TNonNull input) true v pos) as [es b].
        assert (U : usage_allowed (TNonNull v) nn (TNonNull input) <-> compatible v input).
        { unfold usage_allowed. rewrite compatible_nonnull. split; [|auto].
          intros [H|(_ & l & H & H1)]; auto. injection H as H. subst l. apply (proj1 (compatible_strict v input Ni)) in H1. exact H1. }
        rewrite U. exact A.
  Qed.

  (** ** Literals *)
  Lemma arg_items_eq items : arg_items arg_value items = (flat_map (fun l => fst (arg_value l)) items, map (fun l => snd (arg_value l)) items).
  Proof.
    induction items as [|x r IH]; simpl; auto. rewrite IH. destruct (arg_value x); reflexivity.
  Qed.
  Definition entry (f : schema_location * (string * lit)) : string * aval := (fst (snd f), snd (arg_value (snd (snd f)))).
  Lemma m_set_perm {A} k (v : A) m : ~ In k (map fst m) -> Permutation (m_set k v m) ((k, v) :: m).
  Proof.
    induction m as [|(k1, v1) r IH]; simpl; intro N; auto.
    destruct (String.eqb k k1) eqn:E; [apply String.eqb_eq in E; subst; tauto|].
    destruct (shorter_or_less k k1); auto. rewrite IH by tauto. apply perm_swap.
  Qed.
  Lemma arg_fields_ok fields : forall m,
    (forall f, In f fields -> fst (arg_value (snd (snd f))) = []) ->
    NoDup (map fst m ++ map (fun f => fst (snd f)) fields) -> sorted_keys m ->
    fst (arg_fields arg_value fields m) = [] /\ sorted_keys (snd (arg_fields arg_value fields m)) /\
    Permutation (snd (arg_fields arg_value fields m)) (m ++ map entry fields).
  Proof.
    induction fields as [|(fp, (k, x)) r IH]; intros m Hf N Hs; simpl.
    - rewrite app_nil_r. auto.
    - simpl in N. destruct (assoc k m) eqn:E.
      + exfalso. apply assoc_In in E. apply NoDup_remove_2 in N. apply N, in_or_app. left. apply in_map_iff. exists (k, a). auto.
      + pose proof (Hf _ (or_introl eq_refl)) as Hx. simpl in Hx. destruct (arg_value x) as [e1 v] eqn:Ex. simpl in Hx. subst e1.
        apply assoc_None in E.
        destruct (IH (m_set k v m)) as (H1 & H2 & H3).
        * intros f Hf'. apply Hf. right. auto.
        * eapply Permutation_NoDup; [|exact N].
          rewrite (Permutation_map fst (m_set_perm k v m E)). simpl. symmetry. apply Permutation_middle.
        * apply m_set_sorted; auto.
        * destruct (arg_fields arg_value r (m_set k v m)) as [e2 m'] eqn:E2. simpl in *. subst e2. split; [reflexivity|]. split; auto.
          rewrite H3, (m_set_perm k v m E). unfold entry at 2. simpl. rewrite Ex. simpl. apply Permutation_middle.
  Qed.
  Lemma arg_fields_errors fields : forall m,
    fst (arg_fields arg_value fields m) = [] ->
    (NoDup (map (fun f => fst (snd f)) fields) /\ forall f, In f fields -> fst (arg_value (snd (snd f))) = [] /\ ~ In (fst (snd f)) (map fst m)).
  Proof.
    induction fields as [|(fp, (k, x)) r IH]; intros m H; simpl in *.
    - split; [constructor|]. tauto.
    - destruct (assoc k m) eqn:E.
      + destruct (arg_fields arg_value r m) as [e2 m']. discriminate H.
      + destruct (arg_value x) as [e1 v] eqn:Ex. destruct (arg_fields arg_value r (m_set k v m)) as [e2 m'] eqn:E2. simpl in H.
        apply app_eq_nil in H. destruct H as (-> & ->).
        destruct (IH (m_set k v m)) as (H1 & H2); [rewrite E2; reflexivity|]. split.
        * constructor; auto. intro HI. apply in_map_iff in HI. destruct HI as (f & Hk & HI). apply H2 in HI. destruct HI as (_ & HI).
          apply HI. rewrite m_set_keys. simpl in Hk. auto.
        * intros f [<-|Hf]; simpl.
          { rewrite Ex. split; auto. apply assoc_None. auto. }
          { destruct (H2 f Hf) as (H3 & H4). split; auto. intro HI. apply H4. apply m_set_keys. auto. }
  Qed.

  Lemma unique_leaf l : (forall p items, l <> LList p items) -> (forall p fields, l <> LObject p fields) -> unique_fields l.
  Proof. apply uf_leaf. Qed.
  Lemma arg_value_ok l : fst (arg_value l) = [] <-> unique_fields l.
  Proof.
    induction l as [p n|p z|p f|p s|p b|p|p s|p items IH|p fields IH] using lit_ind'; simpl;
      try (split; [intros _; apply unique_leaf; discriminate|auto]).
    - rewrite arg_items_eq. simpl. split.
      + intro H. constructor. rewrite Forall_forall in *. intros x Hx. apply IH; auto.
        destruct (fst (arg_value x)) as [|e es] eqn:E; auto. exfalso.
        assert (In e (flat_map (fun l => fst (arg_value l)) items)) by (apply in_flat_map; exists x; rewrite E; simpl; auto).
        rewrite H in *. contradiction.
      + intro H. inversion H as [? ? H1| |? H1 H2]; subst; [|exfalso; eapply H1; eauto]. rewrite Forall_forall in *.
        destruct (flat_map _ items) as [|e es] eqn:E; auto. exfalso.
        assert (He : In e (flat_map (fun l => fst (arg_value l)) items)) by (rewrite E; simpl; auto).
        apply in_flat_map in He. destruct He as (x & Hx & He). apply H1 in Hx as Hu. apply IH in Hu; auto. rewrite Hu in He. contradiction.
    - destruct (arg_fields arg_value fields []) as [es m] eqn:E. simpl. split.
      + intros ->. destruct (arg_fields_errors fields []) as (H1 & H2); [rewrite E; reflexivity|].
        constructor; auto. rewrite Forall_forall in *. intros f Hf. apply IH; auto. apply H2; auto.
      + intro H. inversion H as [|? ? H1 H2|? H1 H2]; subst; [|exfalso; eapply H2; eauto].
        destruct (arg_fields_ok fields []) as (H3 & _).
        * intros f Hf. rewrite Forall_forall in *. apply IH; auto.
        * simpl. auto.
        * constructor.
        * rewrite E in H3. exact H3.
  Qed.

  (** the map of an object literal: its fields in key order *)
  Lemma arg_object p fields : unique_fields (LObject p fields) ->
    exists fields', Permutation fields fields' /\ snd (arg_value (LObject p fields)) = AMap p (map entry fields') /\ sorted_keys (map entry fields').
  Proof.
    intro H. inversion H as [|? ? H1 H2|? H1 H2]; subst; [|exfalso; eapply H2; eauto].
    destruct (arg_fields_ok fields []) as (H3 & H4 & H5).
    - intros f Hf. rewrite Forall_forall in *. apply arg_value_ok; auto.
    - simpl. auto.
    - constructor.
    - simpl. destruct (arg_fields arg_value fields []) as [es m]. simpl in *.
      symmetry in H5. apply Permutation_sym, Permutation_map_inv in H5. destruct H5 as (f' & -> & H5). exists f'. auto.
  Qed.
  Lemma arg_list p items : snd (arg_value (LList p items)) = AList p (map (fun l => snd (arg_value l)) items).
  Proof. simpl. rewrite arg_items_eq. reflexivity. Qed.
  Lemma arg_pos l : a_pos (snd (arg_value l)) = lit_loc l.
  Proof.
    destruct l; simpl; auto.
    - destruct (arg_items arg_value items); reflexivity.
    - destruct (arg_fields arg_value fields []); reflexivity.
  Qed.
  Lemma arg_null l : is_null (snd (arg_value l)) = true <-> exists p, l = LNull p.
  Proof.
    destruct l; simpl; split; intro H; try discriminate; try (destruct H as (p & H); discriminate); eauto.
    - destruct (arg_items arg_value items); discriminate.
    - destruct (arg_fields arg_value fields []); discriminate.
  Qed.

  (** ** The rules for values, by the form of the literal *)
  Definition plain (l : lit) : Prop := (forall p, l <> LNull p) /\ (forall p n, l <> LVar p n).
  Lemma value_var vars d t p n :
    value_ok S vars d t (LVar p n) <->
    vars = None \/ exists vs v, vars = Some vs /\ In v vs /\ v_name v = n /\ usage_allowed (v_type v) (d || var_nonnull_default v) t.
  Proof.
    split.
    - intro H. inversion H; subst; auto; try (exfalso; match goal with N : forall p n, LVar _ _ <> LVar p n |- _ => eapply N; eauto end).
      right. eauto 10.
    - intros [H|(vs & v & H1 & H2 & <- & H3)]; [apply ok_any_var; auto | eapply ok_var; eauto].
  Qed.
  Lemma value_null vars d t p : value_ok S vars d t (LNull p) <-> (d = true \/ ~ is_nonnull t).
  Proof.
    split.
    - intro H. inversion H; subst; auto; exfalso; match goal with N : forall p, LNull _ <> LNull p |- _ => eapply N; eauto end.
    - apply ok_null.
  Qed.
  Lemma value_nonnull vars d t l : plain l -> (value_ok S vars d (TNonNull t) l <-> value_ok S vars d t l).
  Proof.
    intros (N1 & N2). split.
    - intro H. inversion H; subst; auto; exfalso; try (eapply N1; eauto; fail); eapply N2; eauto.
    - apply ok_nonnull; auto.
  Qed.
  Lemma value_list vars d t l : plain l ->
    (value_ok S vars d (TListOf t) l <-> exists p items, l = LList p items /\ forall x, In x items -> value_ok S vars false t x).
  Proof.
    intros (N1 & N2). split.
    - intro H. inversion H; subst; try (exfalso; eapply N1; eauto; fail); try (exfalso; eapply N2; eauto; fail). eauto.
    - intros (p & items & -> & H). constructor; auto.
  Qed.
  Definition entry_ok vars (td : type_def) (f : schema_location * (string * lit)) : Prop :=
    exists a, In a (td_inputs td) /\ iv_name a = fst (snd f) /\
      ((has_default a /\ exists q, snd (snd f) = LNull q) \/ value_ok S vars (nonnull_default a) (iv_type a) (snd (snd f))).
  Lemma value_object vars d n l td : plain l -> find_type S n = Some td -> td_kind td = INPUT_OBJECT -> ~ type_is S n SCALAR ->
    (value_ok S vars d (TNamed n) l <->
     exists p fields, l = LObject p fields /\ (forall f, In f fields -> entry_ok vars td f) /\
       (forall a, In a (td_inputs td) -> required a -> In (iv_name a) (map (fun f => fst (snd f)) fields))).
  Proof.
    intros (N1 & N2) Hd Kd Ns. split.
    - intro H. inversion H; subst; try (exfalso; eapply N1; eauto; fail); try (exfalso; eapply N2; eauto; fail);
        try (exfalso; apply Ns; assumption); try (exfalso; congruence).
      rewrite Hd in *. match goal with E : Some td = Some _ |- _ => inversion E; subst end.
      exists p, fields. split; auto. split; auto. intros (fp, (k, x)) Hf. unfold entry_ok. simpl. eauto.
    - intros (p & fields & -> & H1 & H2). eapply ok_object; eauto.
      intros fp k x Hf. apply (H1 _ Hf).
  Qed.
  Lemma value_enum vars d n l td : plain l -> find_type S n = Some td -> td_kind td = ENUM -> ~ type_is S n SCALAR ->
    (value_ok S vars d (TNamed n) l <-> exists p x, l = LEnum p x /\ In x (map ev_name (td_enums td))).
  Proof.
    intros (N1 & N2) Hd Kd Ns. split.
    - intro H. inversion H; subst; try (exfalso; eapply N1; eauto; fail); try (exfalso; eapply N2; eauto; fail);
        try (exfalso; apply Ns; assumption); try (exfalso; congruence).
      rewrite Hd in *. match goal with E : Some td = Some _ |- _ => inversion E; subst end. eauto.
    - intros (p & x & -> & H). eapply ok_enum; eauto.
  Qed.
  Definition scalar_literal (n : string) (l : lit) : Prop :=
    (n = "Int" /\ exists p z, l = LInt p z) \/
    (n = "Float" /\ ((exists p f, l = LFloat p f) \/ exists p z, l = LInt p z)) \/
    (n = "String" /\ exists p s, l = LString p s) \/
    (n = "ID" /\ exists p s bytes, l = LString p s /\ decodes s bytes) \/
    (n = "Boolean" /\ exists p b, l = LBool p b) \/
    ~ builtin_scalar n.
  Lemma value_scalar vars d n l : plain l -> type_is S n SCALAR ->
    (value_ok S vars d (TNamed n) l <-> scalar_literal n l).
  Proof.
    intros (N1 & N2) Hs. split.
    - intro H. unfold scalar_literal. pose proof Hs as (td & Hd & Kd).
      inversion H; subst; try (exfalso; eapply N1; eauto; fail); try (exfalso; eapply N2; eauto; fail);
        try (exfalso; congruence).
      + left. eauto.
      + right. left. eauto.
      + right. left. eauto.
      + do 2 right. left. eauto.
      + do 3 right. left. eauto 10.
      + do 4 right. left. eauto.
      + do 5 right. auto.
    - intros [(-> & p & z & ->)|[(-> & [(p & f & ->)|(p & z & ->)])|[(-> & p & s & ->)|[(-> & p & s & bytes & -> & H)|[(-> & p & b & ->)|H]]]]].
      + apply ok_int; auto.
      + apply ok_float; auto.
      + apply ok_float_int; auto.
      + apply ok_string; auto.
      + eapply ok_id; eauto.
      + apply ok_boolean; auto.
      + apply ok_custom; auto.
  Qed.

  (** ** The visitor's state *)
  Definition icache_ok (st : vstate) : Prop :=
    forall n fs, assoc n (inputTypeFields st) = Some fs ->
      exists d, find_type S n = Some d /\ td_kind d = INPUT_OBJECT /\ fs = get_arguments S (td_inputs d).
  Definition variable_argument (v : variable_def) : vargument :=
    mkVArg (match v_default v with Some _ => true | None => false end) (var_nonnull_default v) (Some (v_type v)).
  Definition find_var (n : string) (vs : list variable_def) : option variable_def := find (fun v => String.eqb n (v_name v)) vs.
  Definition vars_rel (vars : option (list variable_def)) (ov : option (list (string * vargument))) : Prop :=
    match vars with
    | None => ov = None
    | Some vs => NoDup (map v_name vs) /\ (forall v, In v vs -> proper (v_type v) /\ input_type S (v_type v)) /\
                 exists m, ov = Some m /\ forall n, assoc n m = option_map variable_argument (find_var n vs)
    end.
  (** the new state differs only in the variables [uv] it has seen and in the cache of input types *)
  Definition vstep (vars : option (list variable_def)) (uv : list string) (st st' : vstate) : Prop :=
    st' = set_input_fields (inputTypeFields st') (set_ref_vars (referencedVariables st') st) /\ icache_ok st' /\
    (forall x, In x (referencedVariables st') <-> In x (referencedVariables st) \/ (vars <> None /\ In x uv)).
  Lemma vstep_refl vars uv st : icache_ok st -> (vars <> None -> uv = []) -> vstep vars uv st st.
  Proof.
    intros H E. split; [destruct st; reflexivity|]. split; auto. intro x. split; auto. intros [H1|(H1 & H2)]; auto.
    rewrite (E H1) in H2. contradiction.
  Qed.
  Lemma vstep_trans vars u1 u2 uv st st1 st2 : vstep vars u1 st st1 -> vstep vars u2 st1 st2 ->
    (forall x, In x uv <-> In x u1 \/ In x u2) -> vstep vars uv st st2.
  Proof.
    intros (E1 & C1 & R1) (E2 & C2 & R2) H. split; [|split; auto].
    - rewrite E2 at 1. rewrite E1. destruct st; reflexivity.
    - intro x. rewrite R2, R1, H. tauto.
  Qed.
  Lemma vstep_eq vars u1 uv st st1 : vstep vars u1 st st1 -> (forall x, In x uv <-> In x u1) -> vstep vars uv st st1.
  Proof. intros (E1 & C1 & R1) H. split; auto. split; auto. intro x. rewrite R1, H. tauto. Qed.
  Lemma vstep_vars vars uv st st' : vstep vars uv st st' -> operationVariables st' = operationVariables st.
  Proof. intros (E & _). rewrite E. destruct st; reflexivity. Qed.
  Lemma vstep_cache vars uv st st' : vstep vars uv st st' -> icache_ok st'.
  Proof. intros (_ & H & _). exact H. Qed.

  (** the arguments of the cache *)
  Lemma get_arguments_assoc l k : NoDup (map iv_name l) -> assoc k (get_arguments S l) = option_map (make_argument S) (find_input k l).
  Proof.
    intro N. unfold get_arguments. rewrite assoc_fold by auto. unfold find_input.
    destruct (find (fun b => String.eqb k (iv_name b)) l); reflexivity.
  Qed.
  Lemma find_input_iff l k a : NoDup (map iv_name l) -> (find_input k l = Some a <-> In a l /\ iv_name a = k).
  Proof. intro N. unfold find_input. apply (find_key iv_name); auto. Qed.
  Lemma find_input_none l k : find_input k l = None <-> ~ In k (map iv_name l).
  Proof. unfold find_input. apply (find_none_key iv_name). Qed.
  Lemma make_argument_default a : va_default (make_argument S a) = true <-> has_default a.
  Proof.
    unfold make_argument, has_default. simpl. rewrite Bool.negb_true_iff, String.eqb_neq. tauto.
  Qed.
  Lemma make_argument_nonnull a : va_nonnull_default (make_argument S a) = nonnull_default a.
  Proof. reflexivity. Qed.
  Lemma make_argument_type a : input_type S (iv_type a) -> va_type (make_argument S a) = Some (iv_type a).
  Proof. unfold make_argument. simpl. apply live_input. Qed.

  Lemma input_fields_ok n td st : icache_ok st -> find_type S n = Some td -> td_kind td = INPUT_OBJECT ->
    exists st', get_input_type_fields S n st = ([], Some (get_arguments S (td_inputs td)), st') /\
      vstep None [] st st' /\ icache_ok st' /\ referencedVariables st' = referencedVariables st.
  Proof.
    intros C Hd Kd. unfold get_input_type_fields. destruct (assoc n (inputTypeFields st)) as [fs|] eqn:E.
    - destruct (C _ _ E) as (d & H1 & H2 & ->). rewrite Hd in H1. inversion H1. subst d. eexists. split; [reflexivity|].
      split; [apply vstep_refl; auto|]. auto.
    - rewrite Hd, Kd. simpl. eexists. split; [reflexivity|].
      assert (C' : icache_ok (set_input_fields (m_set n (get_arguments S (td_inputs td)) (inputTypeFields st)) st)).
      { intros n' fs. simpl. rewrite assoc_m_set. destruct (String.eqb n' n) eqn:En; [|apply C].
        apply String.eqb_eq in En. subst n'. intro H. inversion H. subst. eauto. }
      split; [|split; auto]. split; [destruct st; reflexivity|]. split; auto. intro x. simpl. tauto.
  Qed.

  (** results of validateInputValue *)
  Definition decides (m : M bool) (vars : option (list variable_def)) (st : vstate) (P : Prop) (uv : list string) : Prop :=
    let '(es, b, st') := m st in
    (es = [] /\ b = true /\ P /\ vstep vars uv st st') \/ (es <> [] /\ b = false /\ ~ P).
  Lemma decides_fail vars st msg loc (P : Prop) uv : ~ P -> decides (fail msg loc) vars st P uv.
  Proof. unfold decides, fail, mbind, emit, ret. simpl. intro H. right. split; [discriminate|]. auto. Qed.
  Lemma decides_ret vars st (P : Prop) uv : icache_ok st -> P -> (vars <> None -> uv = []) -> decides (ret true) vars st P uv.
  Proof. unfold decides, ret. intros. left. split; auto. split; auto. split; auto. apply vstep_refl; auto. Qed.
  Lemma decides_iff m vars st (P P' : Prop) uv uv' : decides m vars st P uv -> (P <-> P') -> (P -> forall x, In x uv' <-> In x uv) -> decides m vars st P' uv'.
  Proof.
    unfold decides. destruct (m st) as [[es b] st']. intros [(H1 & H2 & H3 & H4)|H] HP Hu; [left|right]; try tauto.
    split; auto. split; auto. split; [tauto|]. eapply vstep_eq; eauto.
  Qed.

  Lemma decides_bind m k vars st (P P' P'' : Prop) u1 u2 uv :
    decides m vars st P u1 ->
    (forall st', P -> vstep vars u1 st st' -> decides (k true) vars st' P' u2) ->
    (forall st', k false st' = ([], false, st')) ->
    (P'' <-> P /\ P') -> (P'' -> forall x, In x uv <-> In x u1 \/ In x u2) ->
    decides (mbind m k) vars st P'' uv.
  Proof.
    unfold decides, mbind. destruct (m st) as [[e1 b] st1]. intros H1 H2 H3 HP Hu.
    destruct H1 as [(-> & -> & H4 & H5)|(H4 & -> & H5)].
    - specialize (H2 st1 H4 H5). destruct (k true st1) as [[e2 b2] st2]. simpl.
      destruct H2 as [(-> & -> & H6 & H7)|(H6 & -> & H7)].
      + assert (P'') by tauto. left. split; auto. split; auto. split; auto. eapply vstep_trans; eauto.
      + right. repeat split; auto; tauto.
    - rewrite H3. right. rewrite app_nil_r. repeat split; auto; tauto.
  Qed.
End Values.
