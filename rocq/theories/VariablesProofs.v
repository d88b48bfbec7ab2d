(** The collected types and their order (for C56). *)
From Coq Require Import String List Bool Relations Permutation Lia Arith.
From Verif Require Import Cpp Value Ast SchemaModel ModifiersModel LoaderModel ValidationSpec ClientModel VariablesModel VariablesSpec.
From Verif Require LoaderProofs.
Import ListNotations.
Local Open Scope string_scope.
Local Open Scope list_scope.

Lemma mem_in n l : mem n l = true <-> In n l.
Proof. unfold mem. rewrite existsb_exists. split; [intros (x & Hx & E); apply String.eqb_eq in E; subst; exact Hx|intros H; exists n; split; [exact H|apply String.eqb_refl]]. Qed.
Lemma mem_not n l : mem n l = false <-> ~ In n l.
Proof. rewrite <- mem_in. destruct (mem n l); split; congruence. Qed.

Section Collect.
Variable S : schema.
Hypothesis registered : inputs_registered S.

Definition unseen (c : list string) : nat := length (filter (fun k => negb (mem k c)) (map fst (s_types S))).
Lemma filter_less {A} (p q : A -> bool) l : (forall x, q x = true -> p x = true) -> length (filter q l) <= length (filter p l).
Proof.
  intros H. induction l as [|x l IH]; [reflexivity|]. cbn [filter]. destruct (q x) eqn:E; [rewrite (H x E); cbn [length]; lia|]. destruct (p x); cbn [length]; lia.
Qed.
Lemma unseen_app c d : unseen (c ++ d) <= unseen c.
Proof. unfold unseen. apply filter_less. intros x H. apply negb_true_iff in H. apply negb_true_iff. apply mem_not in H. apply mem_not. intros X. apply H. apply in_or_app. auto. Qed.
Lemma unseen_new c n d : find_type S n = Some d -> ~ In n c -> unseen (c ++ [n]) < unseen c.
Proof.
  intros Hf Hn. unfold find_type in Hf. unfold unseen. set (l := s_types S) in *. assert (Hin : In n (map fst l)).
  { clear -Hf. induction l as [|[k x] l IH]; [discriminate|]. cbn [assoc] in Hf. cbn [map fst]. destruct (String.eqb_spec n k) as [->|]; [left; reflexivity|right; apply IH; exact Hf]. }
  clear Hf. induction (map fst l) as [|k ks IH]; [contradiction|]. cbn [filter].
  assert (M : forall x, negb (mem x (c ++ [n])) = true -> negb (mem x c) = true).
  { intros x H. apply negb_true_iff, mem_not in H. apply negb_true_iff, mem_not. intros X. apply H. apply in_or_app. auto. }
  destruct (string_dec k n) as [->|Ne].
  - replace (mem n (c ++ [n])) with true by (symmetry; apply mem_in; apply in_or_app; right; left; reflexivity). replace (mem n c) with false by (symmetry; apply mem_not; exact Hn). cbn [negb length].
    assert (X := filter_less _ _ ks M). lia.
  - destruct Hin as [E|Hin]; [congruence|]. specialize (IH Hin). destruct (negb (mem k (c ++ [n]))) eqn:E; [rewrite (M k E); cbn [length]; lia|]. destruct (negb (mem k c)); cbn [length]; lia.
Qed.
Lemma unseen_all c : unseen c <= length (s_types S).
Proof. unfold unseen. rewrite <- (map_length fst (s_types S)). generalize (map fst (s_types S)). intros l. induction l as [|x l IH]; [reflexivity|]. cbn [filter]. destruct (negb (mem x c)); cbn [length]; lia. Qed.

(** From [c] to [c']: the new types, all of them reached from [roots], with all they contain; the new enums, from their fields or from [roots]. *)
Record grown (reach direct : string -> Prop) (c c' : referenced) (ni ne : list string) : Prop := {
  g_inputs : r_inputs c' = r_inputs c ++ ni;
  g_enums : r_enums c' = r_enums c ++ ne;
  g_once : NoDup (r_inputs c) -> NoDup (r_inputs c');
  g_enum_once : NoDup (r_enums c) -> NoDup (r_enums c');
  g_reach : forall m, In m ni -> input_object S m /\ reach m;
  g_closed : forall m b, In m ni -> contains S m b -> In b (r_inputs c');
  g_fields : forall m e, In m ni -> has_field_of S m e -> enum_type S e -> In e (r_enums c');
  g_from : forall e, In e ne -> enum_type S e /\ (direct e \/ exists m, In m ni /\ has_field_of S m e) }.
Lemma grown_nil reach direct c : grown reach direct c c [] [].
Proof. constructor; try (rewrite app_nil_r; reflexivity); auto; intros; contradiction. Qed.
Lemma grown_trans reach direct c c1 c2 i1 e1 i2 e2 : grown reach direct c c1 i1 e1 -> grown reach direct c1 c2 i2 e2 -> grown reach direct c c2 (i1 ++ i2) (e1 ++ e2).
Proof.
  intros [A1 A2 A3 A4 A5 A6 A7 A8] [B1 B2 B3 B4 B5 B6 B7 B8]. constructor; auto.
  - rewrite B1, A1, app_assoc. reflexivity.
  - rewrite B2, A2, app_assoc. reflexivity.
  - intros m H. apply in_app_or in H. destruct H; auto.
  - intros m b H Hc. apply in_app_or in H. destruct H as [H|H]; [rewrite B1; apply in_or_app; left; exact (A6 m b H Hc)|exact (B6 m b H Hc)].
  - intros m e H Hf He. apply in_app_or in H. destruct H as [H|H]; [rewrite B2; apply in_or_app; left; exact (A7 m e H Hf He)|exact (B7 m e H Hf He)].
  - intros e H. apply in_app_or in H. destruct H as [H|H].
    + destruct (A8 e H) as [X [D|(m & Hm & F)]]; split; auto. right. exists m. split; [apply in_or_app; auto|exact F].
    + destruct (B8 e H) as [X [D|(m & Hm & F)]]; split; auto. right. exists m. split; [apply in_or_app; auto|exact F].
Qed.
Lemma grown_weaken (reach reach' direct direct' : string -> Prop) c c' i e : (forall m, reach m -> reach' m) -> (forall m, direct m -> direct' m) -> grown reach direct c c' i e -> grown reach' direct' c c' i e.
Proof.
  intros H H' [A1 A2 A3 A4 A5 A6 A7 A8]. constructor; auto.
  - intros m Hm. destruct (A5 m Hm). auto.
  - intros x Hx. destruct (A8 x Hx) as [X [D|F]]; auto.
Qed.
Lemma collect_enum_grown (reach direct : string -> Prop) n c d : find_type S n = Some d -> (enum_type S n -> direct n) ->
  exists c' ne, collect_enum S n c = Ok c' /\ grown reach direct c c' [] ne /\ (enum_type S n -> In n (r_enums c')).
Proof.
  intros Hf Hd. unfold collect_enum. rewrite Hf.
  assert (K : td_kind d = ENUM \/ td_kind d <> ENUM) by (destruct (td_kind d); auto; right; discriminate). destruct K as [K|K].
  - assert (He : enum_type S n) by (exists d; auto). rewrite K. destruct (mem n (r_enums c)) eqn:M.
    + exists c, []. split; [reflexivity|]. split; [apply grown_nil|]. intros _. apply mem_in. exact M.
    + exists (mkRef (r_inputs c) (r_enums c ++ [n])), [n]. split; [reflexivity|]. cbn [r_enums]. split; [|intros _; apply in_or_app; right; left; reflexivity].
      constructor; cbn [r_inputs r_enums].
      * rewrite app_nil_r. reflexivity.
      * reflexivity.
      * auto.
      * intros Hn. apply mem_not in M. apply (Permutation_NoDup (l := n :: r_enums c)); [apply Permutation_cons_append|constructor; assumption].
      * intros m [].
      * intros m b [].
      * intros m e [].
      * intros e [<-|[]]. auto.
  - exists c, []. split; [destruct (td_kind d); congruence|]. split; [apply grown_nil|]. intros (d' & E & K'). congruence.
Qed.
Lemma object_or n d : find_type S n = Some d -> input_object S n \/ ~ input_object S n /\ td_kind d <> INPUT_OBJECT.
Proof. intros Hf. destruct (td_kind d) eqn:K; [right..|left; exists d; auto|right|right]; split; try discriminate; intros (d' & E & K'); congruence. Qed.

Lemma collect_inputs_grown fuel : forall n c d, find_type S n = Some d -> unseen (r_inputs c) < fuel ->
  exists c' ni ne, collect_inputs S fuel n c = Ok c' /\ grown (fun m => input_object S n /\ clos_refl_trans string (contains S) n m) (fun _ => False) c c' ni ne
    /\ (input_object S n -> In n (r_inputs c')).
Proof.
  induction fuel as [|fuel IH]; intros n c d Hf Hu; [lia|]. cbn [collect_inputs]. rewrite Hf.
  destruct (object_or n d Hf) as [Ho|[Ho K]].
  2: { exists c, [], []. split; [destruct (td_kind d); congruence|]. split; [apply grown_nil|contradiction]. }
  assert (K : td_kind d = INPUT_OBJECT) by (destruct Ho as (d' & E & K); congruence). rewrite K. destruct (mem n (r_inputs c)) eqn:M.
  { exists c, [], []. split; [reflexivity|]. split; [apply grown_nil|]. intros _. apply mem_in. exact M. }
  apply mem_not in M. set (c0 := mkRef (r_inputs c ++ [n]) (r_enums c)).
  assert (Hu0 : unseen (r_inputs c0) < fuel) by (assert (X := unseen_new (r_inputs c) n d Hf M); unfold c0; cbn [r_inputs]; lia).
  assert (L : forall fs c1, (forall f, In f fs -> In f (td_inputs d)) -> unseen (r_inputs c1) < fuel ->
    exists c2 ni ne, (fix each (fs : list input_value) (c : referenced) : result referenced :=
                      match fs with
                      | [] => Ok c
                      | f :: r => c1 <- collect_inputs S fuel (named_type (iv_type f)) c ;;
                                  c2 <- collect_enum S (named_type (iv_type f)) c1 ;; each r c2
                      end) fs c1 = Ok c2
      /\ grown (fun m => clos_refl_trans string (contains S) n m) (fun e => has_field_of S n e) c1 c2 ni ne
      /\ forall f, In f fs -> (input_object S (named_type (iv_type f)) -> In (named_type (iv_type f)) (r_inputs c2)) /\ (enum_type S (named_type (iv_type f)) -> In (named_type (iv_type f)) (r_enums c2))).
  { induction fs as [|f fs IHf]; intros c1 Hin Hu1; [exists c1, [], []; split; [reflexivity|]; split; [apply grown_nil|intros f []]|].
    assert (F : has_field_of S n (named_type (iv_type f))) by (exists d, f; split; [exact Hf|]; split; [exact K|]; split; [apply Hin; left; reflexivity|reflexivity]).
    destruct (registered _ _ F) as [d' Hd']. destruct (IH _ c1 d' Hd' Hu1) as (c2 & ni & ne & E & G & I).
    destruct (collect_enum_grown (fun m => clos_refl_trans string (contains S) n m) (fun e => has_field_of S n e) _ c2 d' Hd' (fun _ => F)) as (c3 & ne' & E' & G' & I').
    assert (Hu3 : unseen (r_inputs c3) < fuel).
    { rewrite (g_inputs _ _ _ _ _ _ G'), app_nil_r, (g_inputs _ _ _ _ _ _ G). assert (X := unseen_app (r_inputs c1) ni). lia. }
    destruct (IHf c3 (fun g Hg => Hin g (or_intror Hg)) Hu3) as (c4 & ni2 & ne2 & E2 & G2 & I2).
    exists c4, ((ni ++ []) ++ ni2), ((ne ++ ne') ++ ne2). rewrite E. cbn [bind]. rewrite E'. split; [exact E2|]. split.
    - apply (grown_trans _ _ c1 c3 c4); [|exact G2]. apply (grown_trans _ _ c1 c2 c3); [|exact G'].
      apply (grown_weaken _ _ _ _ _ _ _ _) with (3 := G); [|intros m []]. intros m [Hm Rm]. apply rt_trans with (named_type (iv_type f)); [apply rt_step; split; assumption|exact Rm].
    - intros g [<-|Hg]; [|apply I2; exact Hg]. split; intros X.
      + rewrite (g_inputs _ _ _ _ _ _ G2), (g_inputs _ _ _ _ _ _ G'), app_nil_r. apply in_or_app. left. apply I. exact X.
      + rewrite (g_enums _ _ _ _ _ _ G2). apply in_or_app. left. apply I'. exact X. }
  destruct (L (td_inputs d) c0 (fun f H => H) Hu0) as (c2 & ni & ne & E & G & I). exists c2, (n :: ni), ne. split; [exact E|].
  destruct G as [A1 A2 A3 A4 A5 A6 A7 A8]. unfold c0 in A1, A2, A3, A4. cbn [r_inputs r_enums] in A1, A2, A3, A4. split.
  - constructor; auto.
    + rewrite A1, <- app_assoc. reflexivity.
    + intros Hn. apply A3. apply (Permutation_NoDup (l := n :: r_inputs c)); [apply Permutation_cons_append|constructor; assumption].
    + intros m [<-|Hm]; [split; [exact Ho|split; [exact Ho|apply rt_refl]]|]. destruct (A5 m Hm). auto.
    + intros m b [<-|Hm] Hc; [|exact (A6 m b Hm Hc)]. destruct Hc as [(d1 & f & Hd1 & _ & Hin & <-) Hb]. rewrite Hf in Hd1. injection Hd1 as <-. apply (I f Hin). exact Hb.
    + intros m e [<-|Hm] Hfl He; [|exact (A7 m e Hm Hfl He)]. destruct Hfl as (d1 & f & Hd1 & _ & Hin & <-). rewrite Hf in Hd1. injection Hd1 as <-. apply (I f Hin). exact He.
    + intros e He. destruct (A8 e He) as [X [D|(m & Hm & F)]]; (split; [exact X|right]); [exists n; split; [left; reflexivity|exact D]|exists m; split; [right; exact Hm|exact F]].
  - intros _. rewrite A1. apply in_or_app. left. apply in_or_app. right. left. reflexivity.
Qed.

Lemma collect_types_grown vs : (forall v, In v vs -> exists d, find_type S (rv_type v) = Some d) -> forall c,
  exists c' ni ne, collect_types S vs c = Ok c' /\ grown (needed S (map rv_type vs)) (fun e => In e (map rv_type vs)) c c' ni ne
    /\ forall v, In v vs -> (input_object S (rv_type v) -> In (rv_type v) (r_inputs c')) /\ (enum_type S (rv_type v) -> In (rv_type v) (r_enums c')).
Proof.
  induction vs as [|v vs IH]; intros Hr c; [exists c, [], []; split; [reflexivity|]; split; [apply grown_nil|intros v []]|]. cbn [collect_types].
  destruct (Hr v (or_introl eq_refl)) as [d Hd]. destruct (collect_inputs_grown (Datatypes.S (length (s_types S))) (rv_type v) c d Hd ltac:(assert (X := unseen_all (r_inputs c)); lia)) as (c1 & ni & ne & E & G & I).
  destruct (collect_enum_grown (needed S (map rv_type (v :: vs))) (fun e => In e (map rv_type (v :: vs))) _ c1 d Hd (fun _ => or_introl eq_refl)) as (c2 & ne' & E' & G' & I').
  destruct (IH (fun w H => Hr w (or_intror H)) c2) as (c3 & ni2 & ne2 & E2 & G2 & I2). exists c3, ((ni ++ []) ++ ni2), ((ne ++ ne') ++ ne2). rewrite E. cbn [bind]. rewrite E'. split; [exact E2|]. split.
  - apply (grown_trans _ _ c c2 c3); [apply (grown_trans _ _ c c1 c2); [|exact G']|].
    + apply (grown_weaken _ _ _ _ _ _ _ _) with (3 := G); [|intros m []]. intros m [Ho Rm]. exists (rv_type v). split; [left; reflexivity|auto].
    + apply (grown_weaken _ _ _ _ _ _ _ _) with (3 := G2); [|intros m Hm; right; exact Hm]. intros m (a & Ha & X). exists a. split; [right; exact Ha|exact X].
  - intros w [<-|Hw]; [|apply I2; exact Hw]. split; intros X.
    + rewrite (g_inputs _ _ _ _ _ _ G2), (g_inputs _ _ _ _ _ _ G'), app_nil_r. apply in_or_app. left. apply I. exact X.
    + rewrite (g_enums _ _ _ _ _ _ G2). apply in_or_app. left. apply I'. exact X.
Qed.
Lemma collected vs : (forall v, In v vs -> exists d, find_type S (rv_type v) = Some d) ->
  exists c, collect_types S vs (mkRef [] []) = Ok c /\ NoDup (r_inputs c) /\ NoDup (r_enums c)
    /\ (forall b, In b (r_inputs c) <-> needed S (map rv_type vs) b) /\ forall e, In e (r_enums c) <-> needed_enum S (map rv_type vs) e.
Proof.
  intros Hr. destruct (collect_types_grown vs Hr (mkRef [] [])) as (c & ni & ne & E & [A1 A2 A3 A4 A5 A6 A7 A8] & I). cbn [r_inputs r_enums app] in *. exists c. split; [exact E|].
  split; [apply A3; constructor|]. split; [apply A4; constructor|]. rewrite A1, A2 in *.
  assert (N : forall b, In b ni <-> needed S (map rv_type vs) b).
  { intros b. split; [intros Hb; apply (A5 b Hb)|]. intros (a & Ha & Ho & R). apply in_map_iff in Ha. destruct Ha as (v & <- & Hv). assert (Hin := proj1 (I v Hv) Ho). clear Ho I.
    apply clos_rt_rtn1 in R. induction R as [|x y Hxy _ IH]; [exact Hin|]. apply (A6 x y IH Hxy). }
  split; [exact N|]. intros e. split.
  - intros He. destruct (A8 e He) as [X [D|(m & Hm & F)]]; (split; [exact X|]); [left; exact D|right]. exists m. split; [apply N; exact Hm|exact F].
  - intros [X [D|(b & Hb & F)]].
    + apply in_map_iff in D. destruct D as (v & <- & Hv). apply (I v Hv). exact X.
    + apply (A7 b e); [apply N; exact Hb|exact F|exact X].
Qed.
End Collect.
