(** Arguments and directives: the visitor decides [arguments_unique], [arguments_ok] and [directives_ok]. *)
From Verif Require Import Cpp Value Ast SchemaModel SortedMapModel SortedMapSpec SortedMapProofs.
From Verif Require Import ValidationModel ValidationSpec ValidationMaps ValidationValues ValidationValues2.
From Coq Require Import Sorting.Sorted Permutation.
Local Open Scope string_scope.
Local Open Scope list_scope.

Section Args.
  Variable S : schema.
  Hypothesis WF : schema_wf S.

  Definition find_arg (k : string) (args : list argument) : option argument := find (fun a => String.eqb k (a_name a)) args.
  Definition arg_map (args : list argument) (m : list (string * aval)) : Prop :=
    sorted_keys m /\ forall k, assoc k m = option_map (fun a => snd (arg_value (a_value a))) (find_arg k args).

  Lemma collect_args_ok what args : forall m locs names,
    NoDup (map fst m ++ map a_name args) -> Forall (fun a => unique_fields (a_value a)) args -> sorted_keys m ->
    let '(es, (m', locs', names')) := collect_args what args m locs names in
    es = [] /\ names' = names ++ map a_name args /\ sorted_keys m' /\
    forall k, assoc k m' = match find_arg k args with Some a => Some (snd (arg_value (a_value a))) | None => assoc k m end.
  Proof.
    induction args as [|a r IH]; intros m locs names N U Hs; simpl.
    - rewrite app_nil_r. auto.
    - simpl in N. inversion U as [|? ? U1 U2]. subst. destruct (assoc (a_name a) m) eqn:E.
      + exfalso. apply assoc_In in E. apply NoDup_remove_2 in N. apply N, in_or_app. left. apply in_map_iff. exists (a_name a, a0). auto.
      + apply assoc_None in E. destruct (arg_value (a_value a)) as [e1 v] eqn:Ev.
        assert (e1 = []) by (apply arg_value_ok in U1; rewrite Ev in U1; exact U1). subst e1.
        specialize (IH (m_set (a_name a) v m) (m_set (a_name a) (a_loc a) locs) (names ++ [a_name a])).
        assert (N' : NoDup (map fst (m_set (a_name a) v m) ++ map a_name r)).
        { eapply Permutation_NoDup; [|exact N].
          rewrite (Permutation_map fst (m_set_perm (a_name a) v m E)). simpl. symmetry. apply Permutation_middle. }
        specialize (IH N' U2 (m_set_sorted _ _ _ Hs)).
        destruct (collect_args what r (m_set (a_name a) v m) (m_set (a_name a) (a_loc a) locs) (names ++ [a_name a])) as [es [[m' locs'] names']].
        destruct IH as (-> & -> & H3 & H4). split; auto. split; [rewrite <- app_assoc; reflexivity|]. split; auto.
        intro k. rewrite H4. unfold find_arg. simpl. rewrite assoc_m_set.
        destruct (String.eqb k (a_name a)) eqn:Ek; [|reflexivity].
        destruct (find (fun a0 => String.eqb k (a_name a0)) r) eqn:F; [|rewrite Ev; reflexivity].
        exfalso. apply find_some in F. destruct F as (F1 & F2). apply String.eqb_eq in Ek, F2.
        apply NoDup_remove_2 in N. apply N, in_or_app. right. rewrite <- Ek, F2. apply in_map. auto.
  Qed.
  Lemma collect_args_errors what args : forall m locs names,
    fst (collect_args what args m locs names) = [] -> arguments_unique args /\ forall a, In a args -> ~ In (a_name a) (map fst m).
  Proof.
    induction args as [|a r IH]; intros m locs names H; simpl in *.
    - split; [split; constructor|]. tauto.
    - destruct (assoc (a_name a) m) eqn:E.
      + destruct (collect_args what r m locs names). discriminate H.
      + destruct (arg_value (a_value a)) as [e1 v] eqn:Ev.
        destruct (collect_args what r (m_set (a_name a) v m) (m_set (a_name a) (a_loc a) locs) (names ++ [a_name a])) as [es x] eqn:Ec.
        simpl in H. apply app_eq_nil in H. destruct H as (-> & ->).
        specialize (IH (m_set (a_name a) v m) (m_set (a_name a) (a_loc a) locs) (names ++ [a_name a])).
        rewrite Ec in IH. destruct (IH eq_refl) as ((H1 & H2) & H3). split.
        * split.
          -- simpl. constructor; auto. intro HI. apply in_map_iff in HI. destruct HI as (b & Hk & HI). apply H3 in HI. apply HI.
             rewrite m_set_keys. auto.
          -- constructor; auto. apply arg_value_ok. rewrite Ev. reflexivity.
        * intros b [<-|Hb]; [apply assoc_None; auto|]. intro HI. apply (H3 b Hb). apply m_set_keys. auto.
  Qed.
  Lemma collect_args_iff what args :
    let '(es, (m, _, names)) := collect_args what args [] [] [] in
    (es = [] <-> arguments_unique args) /\ (arguments_unique args -> arg_map args m /\ names = map a_name args).
  Proof.
    pose proof (collect_args_errors what args [] [] []) as He. pose proof (collect_args_ok what args [] [] []) as Hk.
    destruct (collect_args what args [] [] []) as [es [[m locs] names]]. simpl in *.
    assert (G : arguments_unique args -> es = [] /\ arg_map args m /\ names = map a_name args).
    { intros (H1 & H2). destruct Hk as (-> & -> & H3 & H4); [exact H1|exact H2|constructor|]. split; [reflexivity|]. split; [|reflexivity]. split; [exact H3|].
      intro k. rewrite H4. destruct (find_arg k args); reflexivity. }
    split; [split; [intro H; apply He; auto | intro H; apply G; auto] | intro H; apply G; auto].
  Qed.

  Lemma iter_vstep {A} (f : A -> M unit) vars (P : A -> Prop) (U : A -> list string) l :
    (forall x st, In x l -> vars_rel S vars (operationVariables st) -> icache_ok S st -> checks (f x) st (P x) (fun _ st' => vstep S vars (U x) st st')) ->
    forall st, vars_rel S vars (operationVariables st) -> icache_ok S st ->
    checks (iter f l) st (forall x, In x l -> P x) (fun _ st' => vstep S vars (flat_map U l) st st').
  Proof.
    induction l as [|x r IH]; intros H st Vr C.
    - simpl. apply checks_ret; [intros x []|]. apply vstep_refl; auto.
    - simpl. eapply checks_bind; [apply H; simpl; auto| |].
      + intros [] st1 HP Hst1.
        eapply checks_imp; [apply IH; [intros; apply H; simpl; auto|rewrite (vstep_vars _ _ _ _ _ Hst1); auto|eapply vstep_cache; eauto]|apply iff_refl|].
        intros [] st2 _ Hst2. eapply vstep_trans; [exact Hst1|exact Hst2|]. intro y. apply in_app_iff.
      + split; [intros G; split; [apply G; auto|intros y Hy; apply G; auto] | intros (G1 & G2) y [<-|Hy]; auto].
  Qed.

  Definition declared_ok vars (args : list argument) (a : input_value) : Prop :=
    (forall x, In x args -> a_name x = iv_name a -> argument_ok S vars a (a_value x)) /\
    (required a -> In (iv_name a) (map a_name args)).
  Definition declared_vars (args : list argument) (a : input_value) : list string :=
    match find_arg (iv_name a) args with Some x => lit_vars S (a_value x) (iv_type a) | None => [] end.

  Lemma lit_vars_null p t : lit_vars S (LNull p) t = [].
  Proof. induction t; simpl; auto. Qed.

  Lemma not_required a : ~ required a <-> has_default a \/ ~ is_nonnull (iv_type a).
  Proof.
    unfold required, has_default, is_nonnull. destruct (string_dec (iv_default a) "") as [E|E].
    - rewrite E. destruct (iv_type a) as [n|t|t].
      + split; [intros _; right; intros (t' & H); discriminate | intros _ (_ & t' & H); discriminate].
      + split; [intros _; right; intros (t' & H); discriminate | intros _ (_ & t' & H); discriminate].
      + split; [intro H; exfalso; apply H; eauto | intros [H|H]; [congruence|]; exfalso; apply H; eauto].
    - split; [auto|]. intros _ (H & _). congruence.
  Qed.
  Lemma argument_null vars a p : argument_ok S vars a (LNull p) <-> ~ required a.
  Proof.
    rewrite not_required. unfold argument_ok. rewrite value_null. split.
    - intros [(H & _)|[H|H]]; auto. left. unfold nonnull_default in H. unfold has_default.
      apply andb_prop in H. destruct H as (H & _). apply Bool.negb_true_iff, String.eqb_neq in H. auto.
    - intros [H|H]; eauto.
  Qed.

  Lemma required_ok (a : input_value) msg pos vars st : input_type S (iv_type a) -> icache_ok S st ->
    checks (if va_default (make_argument S a) then ret tt
            else match va_type (make_argument S a) with Some (TNonNull _) => emit msg pos | _ => ret tt end) st
      (~ required a) (fun _ st' => vstep S vars [] st st').
  Proof.
    intros Ia C. eapply checks_imp; [|symmetry; apply not_required|intros u st' _ H; exact H]. destruct (va_default (make_argument S a)) eqn:E.
    - apply make_argument_default in E. apply checks_ret; auto. apply vstep_refl; auto.
    - assert (Nd : ~ has_default a) by (rewrite <- (make_argument_default S); congruence).
      rewrite make_argument_type by auto. unfold is_nonnull. destruct (iv_type a) as [n|t|t].
      + apply checks_ret; [right; intros (t' & H); discriminate|]. apply vstep_refl; auto.
      + apply checks_ret; [right; intros (t' & H); discriminate|]. apply vstep_refl; auto.
      + apply checks_emit. intros [H|H]; [auto|]. apply H. eauto.
  Qed.

  Lemma get_arguments_elements declared k a : NoDup (map iv_name declared) ->
    (In (k, a) (get_arguments S declared) <-> exists i, In i declared /\ iv_name i = k /\ a = make_argument S i).
  Proof.
    intro N. pose proof (fold_sorted iv_name (make_argument S) declared [] (SSorted_nil _)) as Hso.
    change (sorted_keys (get_arguments S declared)) in Hso.
    rewrite (assoc_iff _ _ _ (sorted_NoDup _ Hso)), (get_arguments_assoc S declared k N). split.
    - destruct (find_input k declared) as [i|] eqn:E; [|discriminate]. simpl. intro H. inversion H.
      apply find_input_iff in E; auto. destruct E. eauto.
    - intros (i & H1 & H2 & ->). replace (find_input k declared) with (Some i); auto. symmetry. apply find_input_iff; auto.
  Qed.

  Lemma check_args_ok what pos vars declared args m locs st :
    inputs_wf S declared -> arguments_unique args -> arg_map args m -> vars_rel S vars (operationVariables st) -> icache_ok S st ->
    checks (check_args S what pos (get_arguments S declared) m locs (map a_name args)) st (arguments_ok S vars declared args)
      (fun _ st' => vstep S vars (args_vars S declared args) st st').
  Proof.
    intros (Nd & Wd) (Na & Ua) (Hs & Hm) Vr C. unfold check_args.
    eapply checks_bind with (P := forall k, In k (map a_name args) -> In k (map iv_name declared)) (Q := fun _ st' => vstep S vars [] st st').
    - eapply checks_imp; [apply iter_vstep with (vars := vars) (P := fun k => In k (map iv_name declared)) (U := fun _ => []); auto| |].
      + intros k st0 _ _ C0. rewrite (get_arguments_assoc S declared k Nd). destruct (find_input k declared) as [i|] eqn:E; simpl.
        * apply checks_ret; [|apply vstep_refl; auto]. apply find_input_iff in E; auto. destruct E as (E & <-). apply in_map. auto.
        * apply checks_emit. apply find_input_none. auto.
      + reflexivity.
      + intros [] st' _ H. eapply vstep_eq; [exact H|]. intro x. rewrite in_flat_map. simpl. split; [tauto|]. intros (? & _ & []).
    - intros [] st1 HP Hst1.
      eapply checks_imp; [apply iter_vstep with (vars := vars)
         (P := fun d => forall i, In i declared -> iv_name i = fst d -> declared_ok vars args i)
         (U := fun d => match find_input (fst d) declared with Some i => declared_vars args i | None => [] end)| |].
      + intros (k, a) st0 Hi Vr0 C0. apply get_arguments_elements in Hi; auto. destruct Hi as (i & Hi & Hk & ->).
        destruct (Wd i Hi) as (Pi & Ii). cbn [fst]. rewrite Hm.
        assert (Fi : find_input k declared = Some i) by (apply find_input_iff; auto). rewrite Fi.
        unfold declared_vars. rewrite Hk.
        assert (DI : (forall i0, In i0 declared -> iv_name i0 = k -> declared_ok vars args i0) <-> declared_ok vars args i).
        { split; [intro H; apply H; auto|]. intros H i0 H1 H2. assert (find_input k declared = Some i0) by (apply find_input_iff; auto). congruence. }
        destruct (find_arg k args) as [x|] eqn:Fx; cbn [option_map].
        * apply (find_key a_name) in Fx; auto. destruct Fx as (Hx & Hxk).
          assert (DA : declared_ok vars args i <-> argument_ok S vars i (a_value x)).
          { unfold declared_ok. rewrite Hk. split; [intros (H & _); apply H; auto|]. intro H. split.
            - intros y Hy Hyk. assert (F1 : find_arg k args = Some y) by (apply (find_key a_name); auto).
              assert (F2 : find_arg k args = Some x) by (apply (find_key a_name); auto). congruence.
            - intros _. rewrite <- Hxk. apply in_map. auto. }
          destruct (is_null (snd (arg_value (a_value x)))) eqn:En.
          -- apply arg_null in En. destruct En as (p & En). eapply checks_imp; [apply required_ok with (vars := vars); auto| |].
             ++ rewrite DI, DA, En, argument_null. tauto.
             ++ intros [] st' _ H. eapply vstep_eq; [exact H|]. intro y. rewrite En, lit_vars_null. tauto.
          -- rewrite make_argument_type by auto.
             assert (Ux : unique_fields (a_value x)) by (rewrite Forall_forall in Ua; apply Ua; auto).
             pose proof (validate_input_ok S WF (a_value x) Ux (va_nonnull_default (make_argument S i)) (iv_type i) vars st0 Pi Ii Vr0 C0) as D.
             unfold decides, checks, mbind in *.
             destruct (validate_input S (snd (arg_value (a_value x))) (va_nonnull_default (make_argument S i)) (Some (iv_type i)) st0) as [[e1 b] st2].
             assert (AV : argument_ok S vars i (a_value x) <-> value_ok S vars (va_nonnull_default (make_argument S i)) (iv_type i) (a_value x)).
             { unfold argument_ok. rewrite make_argument_nonnull. split; [|auto]. intros [(_ & H)|H]; auto. apply arg_null in H. congruence. }
             destruct D as [(-> & -> & D1 & D2)|(D1 & -> & D2)]; [left|right].
             ++ simpl. split; auto. split; [rewrite DI, DA; tauto|]. exact D2.
             ++ simpl. split; [apply app_not_nil_l; auto|]. rewrite DI, DA. tauto.
        * eapply checks_imp; [apply required_ok with (vars := vars); auto| |].
          -- rewrite DI. apply (find_none_key a_name) in Fx. unfold declared_ok. rewrite Hk. split.
             ++ intro H. split; [|intro; contradiction]. intros y Hy Hyk. exfalso. apply Fx. rewrite <- Hyk. apply in_map. auto.
             ++ intros (_ & H) H1. apply Fx, H, H1.
          -- intros [] st' _ H. exact H.
      + rewrite (vstep_vars _ _ _ _ _ Hst1); auto.
      + eapply vstep_cache; eauto.
      + assert (EQ : (forall d, In d (get_arguments S declared) -> forall i, In i declared -> iv_name i = fst d -> declared_ok vars args i) <->
                     forall i, In i declared -> declared_ok vars args i).
        { split.
          - intros H i Hi. apply (H (iv_name i, make_argument S i)); auto. apply get_arguments_elements; eauto.
          - intros H d _ i Hi _. auto. }
        exact EQ.
      + intros [] st2 _ Hst2. eapply vstep_trans; [exact Hst1|exact Hst2|]. intro v. simpl. split.
        * intro H. right. unfold args_vars in H. apply in_flat_map in H. destruct H as (x & Hx & H).
          destruct (find_input (a_name x) declared) as [i|] eqn:Fi; [|contradiction H].
          pose proof (proj1 (find_input_iff _ _ _ Nd) Fi) as (Hi & Hk).
          apply in_flat_map. exists (iv_name i, make_argument S i). split; [apply get_arguments_elements; eauto|].
          simpl. rewrite Hk, Fi. unfold declared_vars. rewrite Hk.
          replace (find_arg (a_name x) args) with (Some x); auto. symmetry. apply (find_key a_name); auto.
        * intros [[]|H]. apply in_flat_map in H. destruct H as ((k, a) & Hi & H). simpl in H.
          destruct (find_input k declared) as [i|] eqn:Fi; [|contradiction H].
          pose proof (proj1 (find_input_iff _ _ _ Nd) Fi) as (Hi' & Hk). unfold declared_vars in H. rewrite Hk in H.
          destruct (find_arg k args) as [x|] eqn:Fx; [|contradiction H]. apply (find_key a_name) in Fx; auto. destruct Fx as (Hx & Hxk).
          unfold args_vars. apply in_flat_map. exists x. split; auto. rewrite Hxk, Fi. auto.
    - unfold arguments_ok, declared_ok. split.
      + intros (H1 & H2). split.
        * intros k Hk. apply in_map_iff in Hk. destruct Hk as (x & <- & Hx). destruct (H1 x Hx) as (a & Ha & <- & _). apply in_map. auto.
        * intros i Hi. split; auto. intros x Hx Hk. destruct (H1 x Hx) as (a & Ha & Hk' & Hok).
          assert (a = i); [|subst; auto].
          assert (F1 : find_input (a_name x) declared = Some a) by (apply find_input_iff; auto).
          assert (F2 : find_input (a_name x) declared = Some i) by (apply find_input_iff; auto). congruence.
      + intros (H1 & H2). split; [|intros a Ha Hr; apply (H2 a Ha); auto].
        intros x Hx. assert (Hk : In (a_name x) (map iv_name declared)) by (apply H1, in_map, Hx).
        apply in_map_iff in Hk. destruct Hk as (a & Ha & Hk). exists a. split; auto. split; auto. apply (H2 a Hk); auto.
  Qed.

  (** ** Directives *)
  Lemma directive_map_assoc n : assoc n (directive_map S) = option_map (fun dd => (dd_locs dd, get_arguments S (dd_args dd))) (find_directive S n).
  Proof.
    destruct (wf_directives _ WF) as (N & _). unfold directive_map. rewrite assoc_fold by auto. unfold find_directive.
    destruct (find (fun b => String.eqb n (dd_name b)) (s_directives S)); reflexivity.
  Qed.
  Definition directive_ok vars loc (d : directive) : Prop :=
    exists dd, In dd (s_directives S) /\ dd_name dd = d_name d /\ In loc (dd_locs dd) /\
       (d_args d = [] \/ (arguments_unique (d_args d) /\ arguments_ok S vars (dd_args dd) (d_args d))).
  Definition directive_vars (d : directive) : list string :=
    match find_directive S (d_name d) with Some dd => args_vars S (dd_args dd) (d_args d) | None => [] end.

  Lemma dloc_eqb_iff a b : dloc_eqb a b = true <-> a = b.
  Proof. unfold dloc_eqb. destruct (dloc_dec a b); split; congruence. Qed.

  Lemma visit_directive_ok vars loc d st : vars_rel S vars (operationVariables st) -> icache_ok S st ->
    checks (match assoc (d_name d) (directive_map S) with
          | None => emit ("Undefined directive name: " ++ d_name d) (d_loc d)
          | Some (locs, defined) =>
              if negb (existsb (dloc_eqb loc) locs)
              then emit ("Unexpected location for directive: " ++ d_name d ++ location_name loc) (d_loc d)
              else match d_args d with
                   | [] => ret tt
                   | args =>
                       let what := ("directive: " ++ d_name d)%string in
                       let '(es, (m, alocs, names)) := collect_args what args [] [] [] in
                       mbind (emits es) (fun _ => check_args S what (d_loc d) defined m alocs names)
                   end
          end) st (directive_ok vars loc d) (fun _ st' => vstep S vars (directive_vars d) st st').
  Proof.
    intros Vr C. rewrite directive_map_assoc. destruct (wf_directives _ WF) as (N & W).
    unfold directive_vars. destruct (find_directive S (d_name d)) as [dd|] eqn:E; cbn [option_map].
    - apply (find_key dd_name) in E; auto. destruct E as (Hd & Hn).
      assert (DO : directive_ok vars loc d <-> In loc (dd_locs dd) /\ (d_args d = [] \/ (arguments_unique (d_args d) /\ arguments_ok S vars (dd_args dd) (d_args d)))).
      { split; [|intros (H1 & H2); exists dd; auto]. intros (dd' & H1 & H2 & H3).
        assert (dd' = dd); [|subst; auto].
        assert (F1 : find_directive S (d_name d) = Some dd) by (apply (find_key dd_name); auto).
        assert (F2 : find_directive S (d_name d) = Some dd') by (apply (find_key dd_name); auto). congruence. }
      assert (EL : existsb (dloc_eqb loc) (dd_locs dd) = true <-> In loc (dd_locs dd)).
      { rewrite existsb_exists. split; [intros (x & H1 & H2); apply dloc_eqb_iff in H2; subst; auto | intro H; exists loc; split; auto; apply dloc_eqb_iff; auto]. }
      destruct (existsb (dloc_eqb loc) (dd_locs dd)) eqn:El; simpl negb; cbv iota.
      + destruct (d_args d) as [|a r] eqn:Ea.
        * apply checks_ret; [rewrite DO; tauto|]. apply vstep_refl; auto.
        * rewrite <- Ea in *. cbv zeta. pose proof (collect_args_iff ("directive: " ++ d_name d)%string (d_args d)) as H.
          destruct (collect_args ("directive: " ++ d_name d)%string (d_args d) [] [] []) as [es [[m locs] names]]. destruct H as (H1 & H2).
          eapply checks_emits_bind; [exact H1| |].
          -- intro U. destruct (H2 U) as (H3 & ->). apply check_args_ok; auto.
          -- rewrite DO. split; [intros (_ & [G|G]); [rewrite Ea in G; discriminate|auto] | intro G; split; [tauto|auto]].
      + apply checks_emit. rewrite DO. intros (H & _). apply EL in H. discriminate.
    - apply checks_emit. apply (find_none_key dd_name) in E. intros (dd & H1 & H2 & _). apply E. rewrite <- H2. apply in_map. auto.
  Qed.

  Lemma visit_directives_gen vars loc ds : forall seen st, vars_rel S vars (operationVariables st) -> icache_ok S st ->
    checks (visit_directives S loc seen ds) st
      (NoDup (map d_name ds) /\ forall d, In d ds -> ~ In (d_name d) seen /\ directive_ok vars loc d)
      (fun _ st' => vstep S vars (dirs_vars S ds) st st').
  Proof.
    induction ds as [|d r IH]; intros seen st Vr C.
    - simpl. apply checks_ret; [split; [constructor|intros d []]|]. apply vstep_refl; auto.
    - cbn [visit_directives]. cbv zeta. destruct (mem (d_name d) seen) eqn:Em.
      + apply checks_emit_bind. apply mem_In in Em. intros (_ & H). apply (H d); simpl; auto.
      + apply mem_not_In in Em. eapply checks_bind; [apply visit_directive_ok; eauto| |].
        * intros [] st1 HP Hst1. eapply checks_imp; [apply IH; [rewrite (vstep_vars _ _ _ _ _ Hst1); auto|eapply vstep_cache; eauto]|apply iff_refl|].
          intros [] st2 _ Hst2. eapply vstep_trans; [exact Hst1|exact Hst2|]. intro y. unfold dirs_vars. simpl. apply in_app_iff.
        * simpl. split.
          -- intros (N & H). inversion N as [|? ? N1 N2]. subst. split; [apply (H d); auto|]. split; auto.
             intros x Hx. rewrite s_add_In. split; [|apply H; auto]. intros [E|E]; [|revert E; apply H; auto].
             apply N1. rewrite <- E. apply in_map. auto.
          -- intros (H1 & H2 & H3). split.
             ++ constructor; auto. intro HI. apply in_map_iff in HI. destruct HI as (x & E & Hx).
                destruct (H3 x Hx) as (H4 & _). apply H4. apply s_add_In. auto.
             ++ intros x [<-|Hx]; auto. destruct (H3 x Hx) as (H4 & H5). split; auto. intro H6. apply H4. apply s_add_In. auto.
  Qed.
  Lemma visit_directives_ok vars loc ds st : vars_rel S vars (operationVariables st) -> icache_ok S st ->
    checks (visit_directives S loc [] ds) st (directives_ok S vars loc ds) (fun _ st' => vstep S vars (dirs_vars S ds) st st').
  Proof.
    intros Vr C. eapply checks_imp; [apply visit_directives_gen; eauto| |auto].
    unfold directives_ok. split; intros (H1 & H2); split; auto.
    - intros d Hd. apply (H2 d Hd).
    - intros d Hd. split; [simpl; auto|]. apply (H2 d Hd).
  Qed.
End Args.
