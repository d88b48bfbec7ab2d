From Verif Require Import Cpp Value Base64Model Base64Spec Base64Proofs ModifiersModel JSONModel JSONSpec JSONProofs ModifiersSpec.
Local Open Scope list_scope.

Section ItypeInd.
  Variable P : itype -> Prop.
  Hypothesis HLeaf : forall k, P (ILeaf k).
  Hypothesis HStruct : forall fs, Forall (fun f : field => P (fst (snd (snd f)))) fs -> P (IStruct fs).
  Fixpoint itype_ind' (t : itype) : P t :=
    match t with
    | ILeaf k => HLeaf k
    | IStruct fs => HStruct fs ((fix go (fs : list field) : Forall (fun f : field => P (fst (snd (snd f)))) fs :=
        match fs with [] => Forall_nil _ | f :: fs' => Forall_cons f (itype_ind' (fst (snd (snd f)))) (go fs') end) fs)
    end.
End ItypeInd.

Fixpoint convert_fields (v : value) (fs : list field) : result (list cppval) :=
  match fs with
  | [] => Ok []
  | (name, (ms, (ft, d))) :: fs' =>
      x <- read_declared (require_mods (require_base (convert_input ft)) ms name) name d v ;;
      r <- convert_fields v fs' ;;
      Ok (x :: r)
  end.
Lemma convert_struct fs v : convert_input (IStruct fs) v = (xs <- convert_fields v fs ;; Ok (XStruct xs)).
Proof. cbn. f_equal. induction fs as [|[n [ms [t d]]] fs IH]; cbn; [reflexivity|]. now rewrite IH. Qed.

Lemma lookup_null_free es name v : has_null_scalar (VMap es) = false -> lookup name es = Some v -> has_null_scalar v = false.
Proof.
  cbn. induction es as [|[k x] es IH]; cbn; [discriminate|]. intros H; apply orb_false_elim in H as [H1 H2].
  destruct (String.eqb name k); [intros E; injection E as <-; assumption|auto].
Qed.

Lemma vcopy_ok v : has_null_scalar v = false -> vcopy v = Ok v.
Proof. unfold vcopy. now intros ->. Qed.

Lemma fp_iff s names i : first_position s names i <-> nth_error names i = Some s /\ (forall j, j < i -> nth_error names j <> Some s).
Proof. split; [intros H; inversion H; subst; auto|intros [A B]; now constructor]. Qed.

Lemma index_of_iff s names i : index_of s names = Some i <-> first_position s names i.
Proof.
  rewrite fp_iff. revert i; induction names as [|n names IH]; intros i; cbn.
  - split; [discriminate|]. intros [H _]. destruct i; discriminate.
  - destruct (String.eqb_spec n s) as [->|N].
    + split.
      * intros E; injection E as <-. split; [reflexivity|]. intros j L; lia.
      * intros [H1 H2]. destruct i; [reflexivity|]. exfalso. apply (H2 0); [lia|reflexivity].
    + split.
      * destruct (index_of s names) as [j|] eqn:E; [|discriminate]. intros E'; injection E' as <-.
        destruct (proj1 (IH j) eq_refl) as [H1 H2]. split; [exact H1|].
        intros j' L. destruct j' as [|j']; [cbn; congruence|]. apply (H2 j'). lia.
      * intros [H1 H2]. destruct i as [|i]; [cbn in H1; congruence|].
        rewrite (proj2 (IH i)); [reflexivity|]. split; [exact H1|]. intros j L. apply (H2 (S j)). lia.
Qed.

Lemma fromBase64_cases s : (exists b, fromBase64 s = Ok b) \/ (exists w, fromBase64 s = Throw (Exn logic_error w)).
Proof. apply fromBase64_total. Qed.

Lemma convert_leaf_iff k v x : has_null_scalar v = false -> convert_leaf k v = Ok x <-> coerces_leaf k v x.
Proof.
  intros N. split.
  - destruct k; cbn; unfold schema_ex.
    + destruct v; try discriminate. intros E; injection E as <-; constructor.
    + destruct v; try discriminate; intros E; injection E as <-; constructor.
    + destruct v; try discriminate; intros E; injection E as <-; constructor.
    + destruct v; try discriminate; intros E; injection E as <-; constructor.
    + destruct v; try discriminate. destruct (fromBase64_cases s) as [[b E]|[w E]]; rewrite E; [|discriminate].
      intros E'; injection E' as <-; now constructor.
    + rewrite vcopy_ok by assumption. cbn. intros E; injection E as <-; constructor.
    + unfold enum_text. destruct v as [| |s []| | | | |s|]; try discriminate;
      destruct (index_of s names) eqn:I; try discriminate; intros E; injection E as <-; constructor; now apply index_of_iff.
  - destruct 1; cbn; try reflexivity.
    + now rewrite H.
    + now rewrite vcopy_ok.
    + apply index_of_iff in H. now rewrite H.
    + apply index_of_iff in H. now rewrite H.
Qed.

Scheme coerces_mind := Minimality for coerces Sort Prop
  with coerces_all_mind := Minimality for coerces_all Sort Prop
  with coerces_fields_mind := Minimality for coerces_fields Sort Prop.

Lemma require_base_ok conv name es x :
  require_base conv name (VMap es) = Ok x <-> exists v, lookup name es = Some v /\ conv v = Ok x.
Proof.
  unfold require_base, index_name. destruct (lookup name es) as [v|]; cbn.
  - destruct (conv v) as [y|[]|] eqn:E; split; try discriminate.
    + intros H; injection H as <-. eauto.
    + intros (v' & H & H'). injection H as <-. congruence.
    + intros (v' & H & H'). injection H as <-. congruence.
    + intros (v' & H & H'). injection H as <-. congruence.
    + intros (v' & H & H'). injection H as <-. congruence.
  - split; [discriminate|]. intros (v & H & _). discriminate.
Qed.

Lemma mods_iff conv t : (forall v x, has_null_scalar v = false -> conv v = Ok x <-> coerces [] t (Some v) x) ->
  forall ms name es x, has_null_scalar (VMap es) = false ->
  require_mods (require_base conv) ms name (VMap es) = Ok x <-> coerces ms t (lookup name es) x.
Proof.
  intros HC. induction ms as [|[] ms IH]; intros name es x N; cbn [require_mods].
  - rewrite require_base_ok. split.
    + intros (v & L & E). rewrite L. apply HC; [|exact E]. eapply lookup_null_free; eassumption.
    + intros C. destruct (lookup name es) as [v|] eqn:L; [|inversion C].
      exists v; split; [reflexivity|]. apply HC; [|exact C]. eapply lookup_null_free; eassumption.
  - specialize (IH name es). destruct (lookup name es) as [v|] eqn:L.
    + destruct v eqn:V; try (split;
        [ destruct (require_mods (require_base conv) ms name (VMap es)) as [y| |]; try discriminate; cbn;
          intros E; injection E as <-; apply co_some; [discriminate|]; now apply IH
        | intros C; inversion C as [| |ms' t' v' y NV Cy| | |]; subst; apply IH in Cy; [|assumption]; now rewrite Cy ]).
      split; [intros E; injection E as <-; constructor|]. intros C; inversion C; subst; [reflexivity|congruence].
    + split; [intros E; injection E as <-; constructor|]. intros C; inversion C; subst; reflexivity.
  - unfold index_name. destruct (lookup name es) as [v|] eqn:L; cbn [bind].
    + pose proof (lookup_null_free _ _ _ N L) as NV.
      destruct v; try (split; [discriminate|intros C; inversion C]).
      rename items into l. clear L.
      assert (G : forall xs, mapM (fun e => e' <- vcopy e ;; require_mods (require_base conv) ms name (VMap [(name, e')])) l = Ok xs
                  <-> coerces_all ms t l xs).
      { cbn in NV. induction l as [|e l IHl]; intros xs; cbn [mapM].
        - split; [intros E; injection E as <-; constructor|]. intros C; inversion C; reflexivity.
        - cbn in NV. apply orb_false_elim in NV as [N1 N2]. rewrite vcopy_ok by assumption. cbn [bind].
          assert (N3 : has_null_scalar (VMap [(name, e)]) = false) by (cbn; now rewrite N1).
          pose proof (fun x => IH name [(name, e)] x N3) as IHe. cbn [lookup] in IHe. rewrite String.eqb_refl in IHe.
          split.
          + destruct (require_mods _ ms name _) as [y| |]; try discriminate. cbn [bind].
            destruct (mapM _ l) as [ys| |]; try discriminate. cbn [bind]. intros E; injection E as <-.
            constructor; [now apply IHe|now apply IHl].
          + intros C; inversion C as [|? ? ? y ? ys C1 C2]; subst. apply IHe in C1. rewrite C1. cbn [bind].
            apply IHl in C2; [|assumption]. now rewrite C2. }
      split.
      * destruct (mapM _ l) as [xs| |]; try discriminate. cbn. intros E; injection E as <-. constructor. now apply G.
      * intros C; inversion C as [| | |? ? ? ? H0| |]; subst. apply G in H0. now rewrite H0.
    + split; [discriminate|intros C; inversion C].
Qed.

Lemma require_not_map conv ms name v x : (forall es, v <> VMap es) -> require_mods (require_base conv) ms name v <> Ok x.
Proof.
  intros N. destruct ms as [|[] ms]; cbn; unfold require_base; destruct v; cbn; try discriminate; exfalso; eapply N; reflexivity.
Qed.

Lemma convert_iff t : plain t = true -> forall v x, has_null_scalar v = false -> convert_input t v = Ok x <-> coerces [] t (Some v) x.
Proof.
  induction t as [k|fs IH] using itype_ind'; intros P v x N.
  - cbn. rewrite convert_leaf_iff by assumption. split; [intros; now constructor|]. intros C; inversion C; subst; assumption.
  - rewrite convert_struct.
    assert (P' : forallb (fun f : field => match snd (snd (snd f)) with None => plain (fst (snd (snd f))) | Some _ => false end) fs = true)
      by (destruct fs; [discriminate|exact P]).
    assert (G : forall es xs, v = VMap es -> convert_fields v fs = Ok xs <-> coerces_fields fs es xs).
    { intros es xs ->. clear P. revert xs. induction IH as [|[name [ms [ft d]]] fs Hf _ IHfs]; intros xs; cbn [convert_fields].
      - split; [intros E; injection E as <-; constructor|]. intros C; inversion C; reflexivity.
      - cbn [forallb fst snd] in P', Hf. apply andb_prop in P' as [P1 P2]. destruct d; [discriminate|].
        cbn [read_declared]. pose proof (fun x => mods_iff (convert_input ft) ft (Hf P1) ms name es x N) as M.
        split.
        + destruct (require_mods _ ms name _) as [y| |]; try discriminate. cbn [bind].
          destruct (convert_fields _ fs) as [ys| |]; try discriminate. cbn [bind]. intros E; injection E as <-.
          constructor; [now apply M|now apply IHfs].
        + intros C; inversion C as [|? ? ? ? ? ? y ys C1 C2]; subst. apply M in C1. rewrite C1. cbn [bind].
          apply IHfs in C2; [|assumption]. now rewrite C2. }
    split.
    + destruct v as [es| | | | | | | |];
        try (intros E; exfalso; destruct fs as [|[name [ms [ft d]]] fs]; [discriminate|]; cbn [forallb fst snd] in P';
             destruct d; [discriminate|]; cbn [convert_fields read_declared] in E;
             destruct (require_mods _ ms name _) eqn:R; try discriminate;
             eapply require_not_map; [|exact R]; intros; discriminate).
      intros E. destruct (convert_fields _ fs) as [xs| |] eqn:F; try discriminate. injection E as <-.
      constructor. now apply (G es xs eq_refl).
    + intros C; inversion C as [| | | | |? es xs H1]; subst. apply (G es xs eq_refl) in H1. now rewrite H1.
Qed.

Lemma require_iff ms t name es x : plain t = true -> has_null_scalar (VMap es) = false ->
  require ms t name (VMap es) = Ok x <-> coerces ms t (lookup name es) x.
Proof. intros P N. apply mods_iff; [|assumption]. now apply convert_iff. Qed.

(** ** no undefined behaviour *)
Lemma convert_leaf_no_ub k v : convert_leaf k v <> UB.
Proof.
  destruct k; cbn; unfold schema_ex, vcopy; destruct v as [| |s [] | | | | |s|]; try discriminate;
  try (destruct (fromBase64_cases s) as [[b E]|[w E]]; rewrite E; discriminate);
  try (destruct (has_null_scalar _); discriminate); cbn;
  try (destruct (index_of _ _); discriminate); discriminate.
Qed.

Lemma require_base_no_ub conv name v : (forall w, conv w <> UB) -> require_base conv name v <> UB.
Proof.
  intros H. unfold require_base. destruct (index_name v name) as [w|[]|] eqn:I; cbn; try discriminate.
  - destruct (conv w) as [|[]|] eqn:E; try discriminate. now apply H in E.
  - unfold index_name in I. destruct v; try discriminate. destruct (lookup name entries); discriminate.
Qed.

Lemma mapM_no_ub {A B} (f : A -> result B) l : (forall a, f a <> UB) -> mapM f l <> UB.
Proof.
  intros H. induction l as [|a l IH]; cbn; [discriminate|].
  destruct (f a) as [b| |] eqn:E; cbn; try discriminate; [|now apply H in E].
  destruct (mapM f l); cbn; try discriminate. congruence.
Qed.

Lemma mods_no_ub base : (forall n v, base n v <> UB) -> forall ms name v, require_mods base ms name v <> UB.
Proof.
  intros H. induction ms as [|[] ms IH]; intros name v; cbn; auto.
  - destruct v; try discriminate. destruct (lookup name entries) as [w|]; try discriminate.
    destruct w; try discriminate; destruct (require_mods base ms name (VMap entries)) eqn:E; cbn; try discriminate; now apply IH in E.
  - unfold index_name. destruct v; cbn; try discriminate. destruct (lookup name entries) as [w|]; cbn; try discriminate.
    destruct w; try discriminate. match goal with |- context [mapM ?f ?l] => assert (M : mapM f l <> UB) end.
    { apply mapM_no_ub. intros a. unfold vcopy. destruct (has_null_scalar a); cbn; [discriminate|]. apply IH. }
    destruct (mapM _ _); cbn; try discriminate. congruence.
Qed.

Lemma convert_no_ub t : forall v, convert_input t v <> UB.
Proof.
  induction t as [k|fs IH] using itype_ind'; intros v.
  - apply convert_leaf_no_ub.
  - rewrite convert_struct. assert (G : convert_fields v fs <> UB).
    { induction IH as [|[name [ms [ft d]]] fs Hf _ IHfs]; cbn [convert_fields]; [discriminate|]. cbn [fst snd] in Hf.
      assert (R : forall w, require_mods (require_base (convert_input ft)) ms name w <> UB).
      { intros w. apply mods_no_ub. intros n u. now apply require_base_no_ub. }
      assert (D : read_declared (require_mods (require_base (convert_input ft)) ms name) name d v <> UB).
      { unfold read_declared, find_of. destruct d as [[]|]; try apply R;
        destruct (require_mods _ ms name v) eqn:E; cbn; try discriminate; try apply R; now apply R in E. }
      destruct (read_declared _ name d v); cbn; try discriminate; [|congruence].
      destruct (convert_fields v fs); cbn; try discriminate. congruence. }
    destruct (convert_fields v fs); cbn; try discriminate. congruence.
Qed.

Lemma require_no_ub ms t name v : require ms t name v <> UB.
Proof. apply mods_no_ub. intros. apply require_base_no_ub. apply convert_no_ub. Qed.

(** ** error labels *)
Definition labelled (name : string) (e : schema_error) : Prop := exists msg, message e = ("Invalid argument: " ++ name ++ " error: " ++ msg)%string.

Lemma convert_leaf_throw k v e : k <> KValue -> convert_leaf k v = Throw e -> exists errs, e = SchemaEx errs.
Proof.
  intros K. destruct k; cbn; unfold schema_ex, enum_text; try congruence;
  destruct v as [| |s []| | | | |s|]; try discriminate; try (intros E; injection E as <-; eauto; fail);
  try (destruct (fromBase64_cases s) as [[b E]|[w E]]; rewrite E; try discriminate; intros E'; injection E' as <-; eauto);
  destruct (index_of s names); try discriminate; intros E; injection E as <-; eauto.
Qed.

Lemma leaf_labelled k name es v e : k <> KValue -> lookup name es = Some v ->
  require [] (ILeaf k) name (VMap es) = Throw e -> exists errs, e = SchemaEx errs /\ Forall (labelled name) errs.
Proof.
  intros K L. unfold require; cbn [require_mods]. unfold require_base, index_name. rewrite L. cbn [bind convert_input].
  destruct (convert_leaf k v) as [|e'|] eqn:E; try discriminate. destruct (convert_leaf_throw k v e' K E) as [errs ->].
  intros H; injection H as <-. eexists; split; [reflexivity|]. apply Forall_map, Forall_forall. intros x _. eexists; reflexivity.
Qed.
