(** The maps and sets of ValidationModel.v: lookups, order, and agreement with SortedMapModel.v. *)
From Verif Require Import Cpp Value Ast SchemaModel SortedMapModel SortedMapSpec SortedMapProofs ValidationModel.
From Coq Require Import Sorting.Sorted Permutation.
Local Open Scope string_scope.
Local Open Scope list_scope.

Lemma mem_In k s : mem k s = true <-> In k s.
Proof.
  unfold mem. rewrite existsb_exists. split.
  - intros (x & H & E). apply String.eqb_eq in E. congruence.
  - intro H. exists k. rewrite String.eqb_refl. auto.
Qed.
Lemma mem_not_In k s : mem k s = false <-> ~ In k s.
Proof. rewrite <- mem_In. destruct (mem k s); split; intro H; try congruence. Qed.

Lemma assoc_m_set {A} k k' (v : A) m : assoc k' (m_set k v m) = if String.eqb k' k then Some v else assoc k' m.
Proof.
  induction m as [|(k1, v1) r IH]; simpl.
  - destruct (String.eqb k' k) eqn:E; auto.
  - destruct (String.eqb k k1) eqn:E1.
    + apply String.eqb_eq in E1. subst k1. simpl. destruct (String.eqb k' k); auto.
    + destruct (shorter_or_less k k1); simpl.
      * destruct (String.eqb k' k); auto.
      * destruct (String.eqb k' k1) eqn:E2; [|apply IH].
        apply String.eqb_eq in E2. subst k'. rewrite (String.eqb_sym k1 k), E1. reflexivity.
Qed.

Lemma assoc_In {A} k (v : A) m : assoc k m = Some v -> In (k, v) m.
Proof.
  induction m as [|(k1, v1) r IH]; simpl; [discriminate|].
  destruct (String.eqb k k1) eqn:E; intro H.
  - apply String.eqb_eq in E. left. congruence.
  - auto.
Qed.
Lemma assoc_None {A} k (m : list (string * A)) : assoc k m = None <-> ~ In k (map fst m).
Proof.
  induction m as [|(k1, v1) r IH]; simpl; [tauto|].
  destruct (String.eqb k k1) eqn:E.
  - apply String.eqb_eq in E. split; intro H; [discriminate|]. exfalso. apply H. auto.
  - apply String.eqb_neq in E. rewrite IH. split; intros H; [intros [H1|H1]; congruence || auto | auto].
Qed.
Lemma In_assoc {A} k (v : A) m : NoDup (map fst m) -> In (k, v) m -> assoc k m = Some v.
Proof.
  induction m as [|(k1, v1) r IH]; simpl; [tauto|]. intros N [H|H].
  - inversion H. subst. rewrite String.eqb_refl. reflexivity.
  - inversion N as [|? ? N1 N2]. subst. destruct (String.eqb k k1) eqn:E; auto.
    apply String.eqb_eq in E. subst. exfalso. apply N1. apply in_map_iff. exists (k1, v). auto.
Qed.
Lemma assoc_iff {A} k (v : A) m : NoDup (map fst m) -> (In (k, v) m <-> assoc k m = Some v).
Proof. split; [apply In_assoc; auto | apply assoc_In]. Qed.

Lemma m_set_keys {A} k k' (v : A) m : In k' (map fst (m_set k v m)) <-> k' = k \/ In k' (map fst m).
Proof.
  destruct (assoc k' (m_set k v m)) eqn:E.
  - split; intros _.
    + rewrite assoc_m_set in E. destruct (String.eqb k' k) eqn:E1; [left; apply String.eqb_eq; auto|].
      right. apply assoc_In in E. apply in_map_iff. exists (k', a). auto.
    + apply assoc_In in E. apply in_map_iff. exists (k', a). auto.
  - pose proof (proj1 (assoc_None _ _) E) as H. split; [tauto|]. intro H1. exfalso. apply H.
    destruct H1 as [->|H1]; rewrite assoc_m_set in E.
    + rewrite String.eqb_refl in E. discriminate.
    + destruct (String.eqb k' k); [discriminate|]. apply assoc_None in E. tauto.
Qed.

(** the keys stay in strictly increasing order *)
Definition key_lt (a b : string) : Prop := shorter_or_less a b = true.
Definition sorted_keys {A} (m : list (string * A)) : Prop := StronglySorted key_lt (map fst m).

Lemma key_lt_irrefl a : ~ key_lt a a.
Proof. unfold key_lt. rewrite (st_irrefl _ shorter_or_less_strict). discriminate. Qed.
Lemma sorted_NoDup {A} (m : list (string * A)) : sorted_keys m -> NoDup (map fst m).
Proof.
  unfold sorted_keys. induction (map fst m) as [|k l IH]; intro H; constructor; inversion H as [|? ? H1 H2]; subst.
  - intro HI. rewrite Forall_forall in H2. apply (key_lt_irrefl k). auto.
  - auto.
Qed.
Lemma m_set_sorted {A} k (v : A) m : sorted_keys m -> sorted_keys (m_set k v m).
Proof.
  unfold sorted_keys. induction m as [|(k1, v1) r IH]; simpl; intro H.
  - repeat constructor.
  - inversion H as [|? ? H1 H2]. subst. destruct (String.eqb k k1) eqn:E1.
    + apply String.eqb_eq in E1. subst. simpl. auto.
    + destruct (shorter_or_less k k1) eqn:E2; simpl.
      * constructor; [constructor; auto|]. constructor; [exact E2|].
        rewrite Forall_forall in *. intros x Hx. apply (st_trans _ shorter_or_less_strict k k1 x); auto. apply H2; auto.
      * constructor; [auto|]. rewrite Forall_forall in *. intros x Hx. apply m_set_keys in Hx. destruct Hx as [->|Hx]; auto.
        unfold key_lt. destruct (shorter_or_less k1 k) eqn:E3; auto.
        rewrite (st_total _ shorter_or_less_strict k k1 E2 E3) in E1. rewrite String.eqb_refl in E1. discriminate.
Qed.

(** two sorted maps with the same lookups have the same keys in the same order *)
Lemma sorted_ext {A B} (R : A -> B -> Prop) (m : list (string * A)) : forall (m' : list (string * B)),
  sorted_keys m -> sorted_keys m' ->
  (forall k, match assoc k m, assoc k m' with Some x, Some y => R x y | None, None => True | _, _ => False end) ->
  Forall2 (fun x y => fst x = fst y /\ R (snd x) (snd y)) m m'.
Proof.
  induction m as [|(k, v) r IH]; intros m' Hs Hs' H.
  - destruct m' as [|(k', v') r']; [constructor|]. specialize (H k'). simpl in H. rewrite String.eqb_refl in H. tauto.
  - destruct m' as [|(k', v') r'].
    { specialize (H k). simpl in H. rewrite String.eqb_refl in H. tauto. }
    assert (Hk : k = k').
    { pose proof (H k) as H1. pose proof (H k') as H2. simpl in H1, H2. rewrite String.eqb_refl in H1, H2.
      destruct (String.eqb k k') eqn:E; [apply String.eqb_eq; auto|]. rewrite String.eqb_sym, E in H2.
      destruct (assoc k r') as [b0|] eqn:E1; [|tauto]. destruct (assoc k' r) as [a0|] eqn:E2; [|tauto].
      apply assoc_In in E1. apply assoc_In in E2.
      unfold sorted_keys in Hs, Hs'. simpl in Hs, Hs'. inversion Hs as [|? ? S1 S2]. inversion Hs' as [|? ? S3 S4]. subst.
      rewrite Forall_forall in S2, S4.
      assert (L1 : key_lt k k') by (apply S2; apply in_map_iff; exists (k', a0); auto).
      assert (L2 : key_lt k' k) by (apply S4; apply in_map_iff; exists (k, b0); auto).
      unfold key_lt in *. rewrite (st_asym _ shorter_or_less_strict _ _ L1) in L2. discriminate. }
    subst k'. unfold sorted_keys in Hs, Hs'. simpl in Hs, Hs'. inversion Hs as [|? ? S1 S2]. inversion Hs' as [|? ? S3 S4]. subst.
    constructor.
    + split; auto. specialize (H k). simpl in H. rewrite String.eqb_refl in H. exact H.
    + apply IH; auto. intro k'. specialize (H k'). simpl in H. destruct (String.eqb k' k) eqn:E; auto.
      apply String.eqb_eq in E. subst k'. rewrite Forall_forall in S2, S4.
      destruct (assoc k r) eqn:E1; [exfalso; apply assoc_In in E1; apply (key_lt_irrefl k), S2, in_map_iff; exists (k, a); auto|].
      destruct (assoc k r') eqn:E2; [exfalso; apply assoc_In in E2; apply (key_lt_irrefl k), S4, in_map_iff; exists (k, b); auto|]. auto.
Qed.

(** building a map by assignments: the last one of a key wins; with distinct keys every one stays *)
Lemma assoc_fold {A B} (key : B -> string) (val : B -> A) l : forall m k,
  NoDup (map key l) ->
  assoc k (fold_left (fun m b => m_set (key b) (val b) m) l m) =
  match find (fun b => String.eqb k (key b)) l with Some b => Some (val b) | None => assoc k m end.
Proof.
  induction l as [|b r IH]; intros m k N; simpl; auto. inversion N as [|? ? N1 N2]. subst.
  rewrite IH by auto. rewrite assoc_m_set. destruct (String.eqb k (key b)) eqn:E; auto.
  destruct (find (fun b0 => String.eqb k (key b0)) r) eqn:F; auto. exfalso.
  apply find_some in F. destruct F as (F1 & F2). apply String.eqb_eq in E, F2. apply N1. rewrite <- E, F2. apply in_map. auto.
Qed.
Lemma fold_sorted {A B} (key : B -> string) (val : B -> A) l : forall m,
  sorted_keys m -> sorted_keys (fold_left (fun m b => m_set (key b) (val b) m) l m).
Proof. induction l as [|b r IH]; intros m H; simpl; auto. apply IH, m_set_sorted, H. Qed.
Lemma find_key {B} (key : B -> string) k (l : list B) b :
  NoDup (map key l) -> (find (fun b => String.eqb k (key b)) l = Some b <-> In b l /\ key b = k).
Proof.
  intro N. split.
  - intro F. apply find_some in F. destruct F as (F1 & F2). apply String.eqb_eq in F2. auto.
  - intros (H & <-). induction l as [|x r IH]; [contradiction H|]. simpl. inversion N as [|? ? N1 N2]. subst. destruct H as [->|H].
    + rewrite String.eqb_refl. reflexivity.
    + destruct (String.eqb (key b) (key x)) eqn:E; auto. apply String.eqb_eq in E. exfalso. apply N1. rewrite <- E. apply in_map. auto.
Qed.
Lemma find_none_key {B} (key : B -> string) k (l : list B) :
  find (fun b => String.eqb k (key b)) l = None <-> ~ In k (map key l).
Proof.
  split.
  - intros F H. apply in_map_iff in H. destruct H as (b & <- & H). pose proof (find_none _ _ F _ H) as E. simpl in E.
    rewrite String.eqb_refl in E. discriminate.
  - intro H. destruct (find (fun b => String.eqb k (key b)) l) eqn:F; auto. apply find_some in F. destruct F as (F1 & F2).
    apply String.eqb_eq in F2. exfalso. apply H. rewrite F2. apply in_map. auto.
Qed.

(** sets *)
Lemma s_add_In k x s : In x (s_add k s) <-> x = k \/ In x s.
Proof.
  induction s as [|y r IH]; simpl; [intuition congruence|].
  destruct (String.eqb k y) eqn:E.
  - apply String.eqb_eq in E. subst. simpl. intuition congruence.
  - destruct (shorter_or_less k y); simpl; [intuition congruence|]. rewrite IH. intuition congruence.
Qed.
Lemma s_erase_add k s : ~ In k s -> s_erase k (s_add k s) = s.
Proof.
  induction s as [|y r IH]; simpl; intro H.
  - rewrite String.eqb_refl. reflexivity.
  - destruct (String.eqb k y) eqn:E; [apply String.eqb_eq in E; subst; exfalso; apply H; auto|].
    destruct (shorter_or_less k y); simpl.
    + rewrite String.eqb_refl. reflexivity.
    + rewrite E, IH; auto.
Qed.
Lemma m_erase_In {A} k k' (m : list (string * A)) :
  NoDup (map fst m) -> (In k' (map fst (m_erase k m)) <-> k' <> k /\ In k' (map fst m)).
Proof.
  induction m as [|(k1, v1) r IH]; simpl; intro N; [tauto|]. inversion N as [|? ? N1 N2]. subst.
  destruct (String.eqb k k1) eqn:E.
  - apply String.eqb_eq in E. subst. split; [intro H; split; [intros ->; auto|auto] | intros (H1 & [H2|H2]); congruence || auto].
  - apply String.eqb_neq in E. simpl. rewrite IH by auto. intuition congruence.
Qed.
Lemma m_erase_incl {A} k (m : list (string * A)) x : In x (m_erase k m) -> In x m.
Proof. induction m as [|(k1, v1) r IH]; simpl; auto. destruct (String.eqb k k1); simpl; tauto. Qed.
Lemma m_erase_NoDup {A} k (m : list (string * A)) : NoDup (map fst m) -> NoDup (map fst (m_erase k m)).
Proof.
  induction m as [|(k1, v1) r IH]; simpl; intro N; auto. inversion N as [|? ? N1 N2]. subst.
  destruct (String.eqb k k1) eqn:E; auto. simpl. constructor; auto. intro H. apply N1.
  apply in_map_iff in H. destruct H as (y & H1 & H2). apply in_map_iff. exists y. split; auto. eapply m_erase_incl; eauto.
Qed.
Lemma fold_erase {A} names : forall (m : list (string * A)) k,
  NoDup (map fst m) ->
  (In k (map fst (fold_left (fun m name => m_erase name m) names m)) <-> In k (map fst m) /\ ~ In k names).
Proof.
  induction names as [|n r IH]; intros m k N; simpl; [tauto|].
  rewrite IH by (apply m_erase_NoDup; auto). rewrite m_erase_In by auto. intuition congruence.
Qed.

(** * Agreement with the bisection of SortedMap.h *)
Lemma sorted_keys_sorted {A} (m : list (string * A)) : sorted_keys m <-> sorted fst shorter_or_less m.
Proof.
  unfold sorted_keys, sorted, key_lt. induction m as [|(k, v) r IH]; simpl; [split; constructor|].
  split; intro H; inversion H as [|? ? H1 H2]; subst; constructor; try (apply IH; assumption); rewrite Forall_forall in *.
  - intros x Hx. apply H2. apply in_map, Hx.
  - intros x Hx. apply in_map_iff in Hx. destruct Hx as (y & <- & Hy). apply (H2 y), Hy.
Qed.
Lemma a_find_assoc {A} (m : list (string * A)) k : a_find string_dec m k = assoc k m.
Proof.
  induction m as [|(k', v) r IH]; simpl; auto. destruct (string_dec k k') as [->|N].
  - rewrite String.eqb_refl. reflexivity.
  - apply String.eqb_neq in N. rewrite N. exact IH.
Qed.
Lemma sorted_eq {A} (m m' : list (string * A)) :
  sorted_keys m -> sorted_keys m' -> (forall k, assoc k m = assoc k m') -> m = m'.
Proof.
  intros H H' E. assert (F : Forall2 (fun x y => fst x = fst y /\ snd x = snd y) m m').
  { apply (sorted_ext eq); auto. intro k. rewrite E. destruct (assoc k m'); auto. }
  clear - F. induction F as [|[a b] [c d] r r' (H1 & H2) F IH]; auto. simpl in *. congruence.
Qed.
Lemma perm_assoc {A} (m m' : list (string * A)) k : NoDup (map fst m) -> Permutation m m' -> assoc k m = assoc k m'.
Proof. intros N P. rewrite <- !a_find_assoc. apply a_find_perm; auto. Qed.
Lemma perm_sorted {A} (m m' : list (string * A)) : sorted_keys m -> sorted_keys m' -> Permutation m m' -> m = m'.
Proof. intros H H' P. apply sorted_eq; auto. intro k. apply perm_assoc; auto. apply sorted_NoDup, H. Qed.

Lemma find_agrees {A} (m : list (string * A)) k : sorted_keys m -> smap_find shorter_or_less m k = assoc k m.
Proof.
  intro H. rewrite (smap_find_ok shorter_or_less shorter_or_less_strict string_dec) by (apply sorted_keys_sorted, H). apply a_find_assoc.
Qed.
Lemma assign_agrees {A} (default : A) m k v : sorted_keys m -> smap_assign shorter_or_less default m k v = m_set k v m.
Proof.
  intro H. destruct (smap_assign_ok shorter_or_less shorter_or_less_strict default string_dec m k v (proj1 (sorted_keys_sorted m) H)) as (H1 & H2).
  apply sorted_keys_sorted in H1. apply sorted_eq; auto; [apply m_set_sorted, H|]. intro k'.
  rewrite (perm_assoc _ _ k' (sorted_NoDup _ H1) H2). rewrite assoc_m_set. clear.
  induction m as [|(k1, v1) r IH]; simpl; [destruct (String.eqb k' k); auto|].
  destruct (string_dec k k1) as [->|N]; simpl.
  - destruct (String.eqb k' k1); auto.
  - rewrite IH. destruct (String.eqb k' k1) eqn:E; auto. apply String.eqb_eq in E. subst k'.
    apply not_eq_sym, String.eqb_neq in N. rewrite N. reflexivity.
Qed.
Lemma emplace_agrees {A} m k (v : A) : sorted_keys m -> smap_emplace shorter_or_less m k v = m_emplace k v m.
Proof.
  intro H. unfold smap_emplace, m_emplace. pose proof (proj1 (sorted_keys_sorted m) H) as Hs.
  destruct (assoc k m) as [x|] eqn:E.
  - destruct (emplace_present fst shorter_or_less shorter_or_less_strict m k (k, v) Hs) as (i & Hi & _).
    { apply in_map_iff. exists (k, x). split; auto. apply assoc_In, E. }
    rewrite Hi. reflexivity.
  - pose proof (proj1 (assoc_None _ _) E) as N.
    destruct (emplace_absent fst shorter_or_less shorter_or_less_strict m (k, v) Hs N) as (l1 & l2 & E1 & Hi & Hso).
    simpl in Hi. rewrite Hi. f_equal. apply sorted_keys_sorted in Hso.
    apply sorted_eq; auto; [apply m_set_sorted, H|]. intro k'. rewrite assoc_m_set. subst m.
    rewrite (perm_assoc _ ((k, v) :: l1 ++ l2) k' (sorted_NoDup _ Hso)) by (symmetry; apply Permutation_middle). reflexivity.
Qed.
Lemma m_erase_absent {A} k (m : list (string * A)) : ~ In k (map fst m) -> m_erase k m = m.
Proof.
  induction m as [|(k', v) r IH]; simpl; auto. intro H. destruct (String.eqb k k') eqn:E.
  - apply String.eqb_eq in E. subst. tauto.
  - rewrite IH; tauto.
Qed.
Lemma m_erase_split {A} k x (l1 l2 : list (string * A)) : ~ In k (map fst l1) -> m_erase k (l1 ++ (k, x) :: l2) = l1 ++ l2.
Proof.
  induction l1 as [|(k', v) r IH]; simpl; intro H.
  - rewrite String.eqb_refl. reflexivity.
  - destruct (String.eqb k k') eqn:E; [apply String.eqb_eq in E; subst; tauto|]. rewrite IH; tauto.
Qed.
Lemma erase_agrees {A} k (m : list (string * A)) : sorted_keys m -> smap_erase shorter_or_less m k = m_erase k m.
Proof.
  intro H. unfold smap_erase. pose proof (proj1 (sorted_keys_sorted m) H) as Hs.
  destruct (in_dec string_dec k (map fst m)) as [Hi|Hi].
  - destruct (erase_present fst shorter_or_less shorter_or_less_strict m k Hs Hi) as (l1 & x & l2 & E & Hk & He & _).
    rewrite He. simpl. destruct x as (k', x). simpl in Hk. subst k' m. symmetry. apply m_erase_split.
    pose proof (sorted_NoDup _ H) as N. rewrite map_app in N. simpl in N. apply NoDup_remove_2 in N. intro. apply N, in_or_app. auto.
  - rewrite (erase_absent fst shorter_or_less shorter_or_less_strict m k Hs Hi). rewrite m_erase_absent; auto.
Qed.
