From Verif Require Import Cpp SortedMapSpec SortedMapModel.
From Coq Require Import Permutation Sorting.Sorted.

Lemma st_asym {K} (lt : K -> K -> bool) : strict_total lt -> forall a b, lt a b = true -> lt b a = false.
Proof.
  intros H a b Hab. destruct (lt b a) eqn:E; [|reflexivity].
  pose proof (st_trans _ H _ _ _ Hab E) as Haa. rewrite (st_irrefl _ H) in Haa. discriminate.
Qed.

(** * string order *)
Lemma string_lt_irrefl a : string_lt a a = false.
Proof. induction a as [|x a IH]; simpl; [reflexivity|]. rewrite N.ltb_irrefl. exact IH. Qed.

Lemma string_lt_trans a : forall b c, string_lt a b = true -> string_lt b c = true -> string_lt a c = true.
Proof.
  induction a as [|x a IH]; intros [|y b] [|z c]; simpl; try discriminate; auto.
  destruct (N.ltb_spec (N_of_ascii x) (N_of_ascii y)) as [H1|H1];
  destruct (N.ltb_spec (N_of_ascii y) (N_of_ascii z)) as [H2|H2];
  destruct (N.ltb_spec (N_of_ascii x) (N_of_ascii z)) as [H3|H3]; auto; try (exfalso; lia);
  destruct (N.ltb_spec (N_of_ascii y) (N_of_ascii x)) as [H4|H4]; try discriminate;
  destruct (N.ltb_spec (N_of_ascii z) (N_of_ascii y)) as [H5|H5]; try discriminate;
  destruct (N.ltb_spec (N_of_ascii z) (N_of_ascii x)) as [H6|H6]; try (exfalso; lia); eauto.
Qed.

Lemma string_lt_total a : forall b, string_lt a b = false -> string_lt b a = false -> a = b.
Proof.
  induction a as [|x a IH]; intros [|y b]; simpl; try discriminate; auto.
  destruct (N.ltb_spec (N_of_ascii x) (N_of_ascii y)) as [H1|H1]; try discriminate.
  destruct (N.ltb_spec (N_of_ascii y) (N_of_ascii x)) as [H2|H2]; try discriminate.
  intros Ha Hb. f_equal; auto.
  rewrite <- (ascii_N_embedding x), <- (ascii_N_embedding y). f_equal. lia.
Qed.

Lemma string_lt_strict : strict_total string_lt.
Proof. constructor; [exact string_lt_irrefl|exact string_lt_trans|exact string_lt_total]. Qed.

Lemma shorter_or_less_strict : strict_total shorter_or_less.
Proof.
  unfold shorter_or_less. constructor.
  - intros a. rewrite Nat.eqb_refl. apply string_lt_irrefl.
  - intros a b c.
    destruct (Nat.eqb_spec (String.length a) (String.length b)) as [H1|H1];
    destruct (Nat.eqb_spec (String.length b) (String.length c)) as [H2|H2];
    destruct (Nat.eqb_spec (String.length a) (String.length c)) as [H3|H3];
      rewrite ?Nat.ltb_lt; intros Ha Hb; try lia.
    eapply string_lt_trans; eauto.
  - intros a b. rewrite (Nat.eqb_sym (String.length b)).
    destruct (Nat.eqb_spec (String.length a) (String.length b)) as [H1|H1].
    + apply string_lt_total.
    + rewrite !Nat.ltb_ge. lia.
Qed.

Lemma shorter_first a b : String.length a < String.length b -> shorter_or_less a b = true.
Proof.
  intros H. unfold shorter_or_less. destruct (Nat.eqb_spec (String.length a) (String.length b)); [lia|].
  apply Nat.ltb_lt. exact H.
Qed.

Definition N_lt_strict : strict_total N.ltb.
Proof.
  constructor.
  - intros a. apply N.ltb_irrefl.
  - intros a b c. rewrite !N.ltb_lt. lia.
  - intros a b. rewrite !N.ltb_ge. lia.
Qed.
Definition nat_lt_strict : strict_total Nat.ltb.
Proof.
  constructor.
  - intros a. apply Nat.ltb_irrefl.
  - intros a b c. rewrite !Nat.ltb_lt. lia.
  - intros a b. rewrite !Nat.ltb_ge. lia.
Qed.

(** * Bisection finds the partition point *)
Section Proofs.
  Context {E K : Type} (key : E -> K) (comp : K -> K -> bool) (Hst : strict_total comp).

  Definition partitioned (p : E -> bool) (data : list E) (n : nat) : Prop :=
    n <= length data /\
    (forall i e, i < n -> nth_error data i = Some e -> p e = true) /\
    (forall i e, n <= i -> nth_error data i = Some e -> p e = false).

  Lemma bisect_spec p data n : partitioned p data n ->
    forall fuel first len, len < fuel -> first <= n -> n <= first + len -> first + len <= length data ->
    bisect fuel data p first len = n.
  Proof.
    intros (Hn & Hlo & Hhi). induction fuel as [|fuel IH]; intros first len Hf H1 H2 H3; [lia|].
    simpl. destruct len as [|len']; [lia|].
    set (len := S len') in *.
    assert (Hhalf : Nat.div2 len < len) by (apply Nat.lt_div2; unfold len; lia).
    destruct (nth_error data (first + Nat.div2 len)) as [e|] eqn:Ee.
    - destruct (p e) eqn:Ep.
      + apply IH; try lia.
        destruct (Nat.le_gt_cases n (first + Nat.div2 len)) as [Hle|Hgt]; [|lia].
        rewrite (Hhi _ _ Hle Ee) in Ep. discriminate.
      + apply IH; try lia.
        destruct (Nat.le_gt_cases n (first + Nat.div2 len)) as [Hle|Hgt]; [lia|].
        rewrite (Hlo _ _ Hgt Ee) in Ep. discriminate.
    - apply nth_error_None in Ee. lia.
  Qed.

  (** strictly sorted vectors *)
  Definition sorted (data : list E) : Prop := StronglySorted (fun a b => comp (key a) (key b) = true) data.

  Lemma sorted_app l1 l2 : sorted (l1 ++ l2) <->
    sorted l1 /\ sorted l2 /\ (forall a b, In a l1 -> In b l2 -> comp (key a) (key b) = true).
  Proof.
    induction l1 as [|x l1 IH]; simpl.
    - split; [intros H; repeat split; auto; try constructor; try contradiction|intros (_ & H & _); exact H].
    - split.
      + intros H. inversion H as [|? ? Hs Hf]; subst. apply IH in Hs as (Hs1 & Hs2 & Hs3).
        rewrite Forall_app in Hf. destruct Hf as [Hf1 Hf2]. repeat split; auto.
        * constructor; auto.
        * intros a b [<-|Ha] Hb; auto. rewrite Forall_forall in Hf2. auto.
      + intros (H1 & H2 & H3). inversion H1 as [|? ? Hs Hf]; subst. constructor.
        * apply IH. repeat split; auto.
        * rewrite Forall_app. split; auto. apply Forall_forall. auto.
  Qed.

  (** splitting a sorted vector at a key *)
  Lemma sorted_split data k : sorted data ->
    (exists l1 l2, data = l1 ++ l2 /\ (forall e, In e l1 -> comp (key e) k = true) /\ (forall e, In e l2 -> comp k (key e) = true))
    \/ (exists l1 x l2, data = l1 ++ x :: l2 /\ key x = k /\ (forall e, In e l1 -> comp (key e) k = true)
         /\ (forall e, In e l2 -> comp k (key e) = true)).
  Proof.
    induction data as [|x data IH]; intros Hs.
    - left. exists [], []. simpl. repeat split; contradiction.
    - inversion Hs as [|? ? Hs' Hf]; subst. rewrite Forall_forall in Hf.
      destruct (comp (key x) k) eqn:E1.
      + destruct (IH Hs') as [(l1 & l2 & -> & H1 & H2)|(l1 & y & l2 & -> & Hy & H1 & H2)].
        * left. exists (x :: l1), l2. simpl. repeat split; auto. intros e [<-|He]; auto.
        * right. exists (x :: l1), y, l2. simpl. repeat split; auto. intros e [<-|He]; auto.
      + destruct (comp k (key x)) eqn:E2.
        * left. exists [], (x :: data). simpl. repeat split; auto; try contradiction.
          intros e [<-|He]; auto. eapply st_trans; eauto.
        * assert (key x = k) by (eapply st_total; eauto). subst k.
          right. exists [], x, data. simpl. repeat split; auto; try contradiction.
  Qed.

  Lemma partition_point p l1 l2 :
    (forall e, In e l1 -> p e = true) -> (forall e, In e l2 -> p e = false) -> partitioned p (l1 ++ l2) (length l1).
  Proof.
    intros H1 H2. repeat split.
    - rewrite app_length. lia.
    - intros i e Hi He. apply H1. rewrite nth_error_app1 in He by lia. eapply nth_error_In; eauto.
    - intros i e Hi He. apply H2. rewrite nth_error_app2 in He by lia. eapply nth_error_In; eauto.
  Qed.

  Lemma bounds_absent l1 l2 k :
    (forall e, In e l1 -> comp (key e) k = true) -> (forall e, In e l2 -> comp k (key e) = true) ->
    equal_range key comp (l1 ++ l2) k = (length l1, length l1).
  Proof.
    intros H1 H2. unfold equal_range, lower_bound, upper_bound. f_equal.
    - apply bisect_spec with (n := length l1); rewrite ?app_length; try lia.
      apply partition_point; auto. intros e He. apply st_asym; auto.
    - apply bisect_spec with (n := length l1); rewrite ?app_length; try lia.
      apply partition_point; intros e He; [apply negb_true_iff, st_asym|apply negb_false_iff]; auto.
  Qed.

  Lemma bounds_present l1 x l2 :
    (forall e, In e l1 -> comp (key e) (key x) = true) -> (forall e, In e l2 -> comp (key x) (key e) = true) ->
    equal_range key comp (l1 ++ x :: l2) (key x) = (length l1, S (length l1)).
  Proof.
    intros H1 H2. unfold equal_range, lower_bound, upper_bound. f_equal.
    - apply bisect_spec with (n := length l1); rewrite ?app_length; simpl; try lia.
      apply partition_point; auto. intros e [<-|He]; [apply st_irrefl; auto|apply st_asym; auto].
    - replace (S (length l1)) with (length (l1 ++ [x])) by (rewrite app_length; simpl; lia).
      apply bisect_spec with (n := length (l1 ++ [x])); rewrite ?app_length; simpl; try lia.
      replace (l1 ++ x :: l2) with ((l1 ++ [x]) ++ l2) by (rewrite <- app_assoc; reflexivity).
      replace (length l1 + 1) with (length (l1 ++ [x])) by (rewrite app_length; simpl; lia).
      apply partition_point.
      + intros e He. apply in_app_or in He as [He|[<-|[]]]; apply negb_true_iff; [apply st_asym; auto|apply st_irrefl; auto].
      + intros e He. apply negb_false_iff; auto.
  Qed.

  (** characterisations used by clients of the container *)
  Lemma sv_find_absent data k : sorted data -> ~ In k (map key data) -> sv_find key comp data k = length data.
  Proof.
    intros Hs Hk. destruct (sorted_split data k Hs) as [(l1 & l2 & -> & H1 & H2)|(l1 & x & l2 & -> & <- & H1 & H2)].
    - unfold sv_find. rewrite bounds_absent by auto. rewrite Nat.eqb_refl. reflexivity.
    - exfalso. apply Hk. rewrite map_app. apply in_or_app. right. left. reflexivity.
  Qed.

  Lemma sv_find_present data e : sorted data -> In e data -> exists i, sv_find key comp data (key e) = i /\ nth_error data i = Some e.
  Proof.
    intros Hs He. destruct (sorted_split data (key e) Hs) as [(l1 & l2 & -> & H1 & H2)|(l1 & x & l2 & -> & Hx & H1 & H2)].
    - exfalso. apply in_app_or in He as [He|He]; [specialize (H1 _ He)|specialize (H2 _ He)];
        rewrite st_irrefl in *; auto; discriminate.
    - assert (x = e) as ->.
      { apply in_app_or in He as [He|[He|He]]; auto; exfalso; [specialize (H1 _ He)|specialize (H2 _ He)];
          rewrite st_irrefl in *; auto; discriminate. }
      exists (length l1). split.
      + unfold sv_find. rewrite bounds_present by auto. destruct (Nat.eqb_spec (length l1) (S (length l1))); lia.
      + rewrite nth_error_app2, Nat.sub_diag by lia. reflexivity.
  Qed.

  Lemma emplace_present data k e : sorted data -> In k (map key data) ->
    exists i, sv_emplace key comp data k e = (data, (i, false)) /\ exists x, nth_error data i = Some x /\ key x = k.
  Proof.
    intros Hs Hk. destruct (sorted_split data k Hs) as [(l1 & l2 & -> & H1 & H2)|(l1 & x & l2 & -> & <- & H1 & H2)].
    - exfalso. apply in_map_iff in Hk as (y & <- & Hy).
      apply in_app_or in Hy as [Hy|Hy]; [specialize (H1 _ Hy)|specialize (H2 _ Hy)]; rewrite st_irrefl in *; auto; discriminate.
    - exists (length l1). split.
      + unfold sv_emplace. rewrite bounds_present by auto. destruct (Nat.eqb_spec (length l1) (S (length l1))); [lia|]. reflexivity.
      + exists x. rewrite nth_error_app2, Nat.sub_diag by lia. auto.
  Qed.

  Lemma emplace_absent data e : sorted data -> ~ In (key e) (map key data) ->
    exists l1 l2, data = l1 ++ l2 /\ sv_emplace key comp data (key e) e = (l1 ++ e :: l2, (length l1, true))
      /\ sorted (l1 ++ e :: l2).
  Proof.
    intros Hs Hk. destruct (sorted_split data (key e) Hs) as [(l1 & l2 & -> & H1 & H2)|(l1 & x & l2 & -> & Hx & H1 & H2)].
    - exists l1, l2. split; [reflexivity|]. split.
      + unfold sv_emplace. rewrite bounds_absent by auto. rewrite Nat.eqb_refl. simpl. unfold insert_at.
        rewrite firstn_app, Nat.sub_diag, firstn_all, skipn_app, Nat.sub_diag, skipn_all. simpl. rewrite app_nil_r. reflexivity.
      + apply sorted_app in Hs as (Hs1 & Hs2 & Hs3). apply sorted_app. repeat split; auto.
        * constructor; auto. apply Forall_forall. auto.
        * intros a b Ha [<-|Hb]; auto.
    - exfalso. apply Hk. rewrite <- Hx. rewrite map_app. apply in_or_app. right. left. reflexivity.
  Qed.

  Lemma erase_absent data k : sorted data -> ~ In k (map key data) -> sv_erase key comp data k = (data, length data).
  Proof.
    intros Hs Hk. destruct (sorted_split data k Hs) as [(l1 & l2 & -> & H1 & H2)|(l1 & x & l2 & -> & <- & H1 & H2)].
    - unfold sv_erase. rewrite bounds_absent by auto. rewrite Nat.eqb_refl. reflexivity.
    - exfalso. apply Hk. rewrite map_app. apply in_or_app. right. left. reflexivity.
  Qed.

  Lemma erase_present data k : sorted data -> In k (map key data) ->
    exists l1 x l2, data = l1 ++ x :: l2 /\ key x = k /\ sv_erase key comp data k = (l1 ++ l2, length l1) /\ sorted (l1 ++ l2).
  Proof.
    intros Hs Hk. destruct (sorted_split data k Hs) as [(l1 & l2 & -> & H1 & H2)|(l1 & x & l2 & -> & <- & H1 & H2)].
    - exfalso. apply in_map_iff in Hk as (y & <- & Hy).
      apply in_app_or in Hy as [Hy|Hy]; [specialize (H1 _ Hy)|specialize (H2 _ Hy)]; rewrite st_irrefl in *; auto; discriminate.
    - exists l1, x, l2. split; [reflexivity|]. split; [reflexivity|]. split.
      + unfold sv_erase. rewrite bounds_present by auto. destruct (Nat.eqb_spec (length l1) (S (length l1))); [lia|].
        unfold erase_at. rewrite firstn_app, Nat.sub_diag, firstn_all, skipn_app.
        rewrite skipn_all2 by lia. replace (S (length l1) - length l1) with 1 by lia. simpl. rewrite app_nil_r. reflexivity.
      + apply sorted_app in Hs as (Hs1 & Hs2 & Hs3). apply sorted_app.
        inversion Hs2; subst. repeat split; auto. intros a b Ha Hb. apply Hs3; simpl; auto.
  Qed.

  Lemma sorted_nodup data : sorted data -> NoDup (map key data).
  Proof.
    induction data as [|x data IH]; intros Hs; [constructor|]. inversion Hs as [|? ? Hs' Hf]; subst. simpl. constructor; auto.
    intros Hin. apply in_map_iff in Hin as (y & Hy & Hin). rewrite Forall_forall in Hf. specialize (Hf _ Hin).
    rewrite Hy, st_irrefl in Hf by auto. discriminate.
  Qed.

  Lemma insert_sorted_perm e l : Permutation (insert_sorted key comp e l) (e :: l).
  Proof.
    induction l as [|x l IH]; simpl; [reflexivity|]. destruct (comp (key x) (key e)); [|reflexivity].
    rewrite IH. apply perm_swap.
  Qed.
  Lemma sv_init_perm l : Permutation (sv_init key comp l) l.
  Proof. induction l as [|x l IH]; simpl; [reflexivity|]. rewrite insert_sorted_perm. constructor. exact IH. Qed.

  Lemma insert_sorted_sorted e l : sorted l -> ~ In (key e) (map key l) -> sorted (insert_sorted key comp e l).
  Proof.
    induction l as [|x l IH]; intros Hs Hk; simpl; [constructor; constructor|].
    inversion Hs as [|? ? Hs' Hf]; subst. rewrite Forall_forall in Hf. simpl in Hk.
    destruct (comp (key x) (key e)) eqn:E1.
    - constructor; [apply IH; tauto|]. apply Forall_forall. intros y Hy.
      apply (Permutation_in y (insert_sorted_perm e l)) in Hy as [<-|Hy]; auto.
    - assert (E2 : comp (key e) (key x) = true).
      { destruct (comp (key e) (key x)) eqn:E2; auto. exfalso. apply Hk. left. eapply st_total; eauto. }
      constructor; auto. apply Forall_forall. intros y [<-|Hy]; auto. eapply st_trans; eauto.
  Qed.
  Lemma sv_init_sorted l : NoDup (map key l) -> sorted (sv_init key comp l).
  Proof.
    induction l as [|x l IH]; intros Hn; simpl; [constructor|]. inversion Hn as [|? ? Hx Hn']; subst.
    apply insert_sorted_sorted; auto. intros Hin. apply Hx.
    eapply Permutation_in; [|exact Hin]. apply Permutation_map, sv_init_perm.
  Qed.
End Proofs.


Section MapRefine.
  Context {K V : Type} (comp : K -> K -> bool) (Hst : strict_total comp) (default : V)
          (keq : forall a b : K, {a = b} + {a <> b}).
  Notation srt := (sorted (E := K * V) fst comp).

  Lemma a_find_in (m : list (K * V)) k v : NoDup (map fst m) -> In (k, v) m -> a_find keq m k = Some v.
  Proof.
    induction m as [|[k' v'] m IH]; simpl; [contradiction|]. intros Hn. inversion Hn as [|? ? Hx Hn']; subst.
    intros [E|Hin].
    { injection E as -> ->. destruct (keq k k); congruence. }
    destruct (keq k k') as [->|Hne]; auto.
    exfalso. apply Hx. apply in_map_iff. exists (k', v). auto.
  Qed.
  Lemma a_find_some (m : list (K * V)) k v : a_find keq m k = Some v -> In (k, v) m.
  Proof.
    induction m as [|[k' v'] m IH]; simpl; [discriminate|]. destruct (keq k k') as [->|]; [intros [= ->]|]; auto.
  Qed.
  Lemma a_find_none (m : list (K * V)) k : a_find keq m k = None <-> ~ In k (map fst m).
  Proof.
    induction m as [|[k' v'] m IH]; simpl; [tauto|]. destruct (keq k k') as [->|Hne].
    - split; [discriminate|tauto].
    - rewrite IH. split; [intros H [E|E]|]; try tauto. congruence.
  Qed.
  Lemma a_find_perm (m m' : list (K * V)) k : NoDup (map fst m) -> Permutation m m' -> a_find keq m k = a_find keq m' k.
  Proof.
    intros Hn HP. destruct (a_find keq m' k) as [v|] eqn:E.
    - apply a_find_in; auto. eapply Permutation_in; [symmetry; exact HP|]. apply a_find_some; auto.
    - apply a_find_none. apply a_find_none in E. intros H. apply E. eapply Permutation_in; [|exact H]. apply Permutation_map. exact HP.
  Qed.

  Lemma smap_find_ok (m : list (K * V)) k : srt m -> smap_find comp m k = a_find keq m k.
  Proof.
    intros Hs. unfold smap_find. destruct (a_find keq m k) as [v|] eqn:E.
    - apply a_find_some in E. destruct (sv_find_present fst comp Hst m (k, v) Hs E) as (i & Hi & Hn).
      simpl in Hi. rewrite Hi, Hn. reflexivity.
    - apply a_find_none in E. rewrite (sv_find_absent fst comp Hst m k Hs E).
      destruct (nth_error m (length m)) eqn:En; [|reflexivity].
      assert (length m < length m) by (apply nth_error_Some; congruence). lia.
  Qed.

  Definition Rmap (m a : list (K * V)) : Prop := srt m /\ Permutation m a.

  Lemma a_erase_perm (m m' : list (K * V)) k : Permutation m m' -> Permutation (a_erase keq m k) (a_erase keq m' k).
  Proof.
    induction 1; simpl.
    - constructor.
    - destruct (keq k (fst x)); auto.
    - destruct (keq k (fst x)), (keq k (fst y)); auto. apply perm_swap.
    - etransitivity; eauto.
  Qed.
  Lemma a_erase_absent (m : list (K * V)) k : ~ In k (map fst m) -> a_erase keq m k = m.
  Proof.
    induction m as [|[k' v'] m IH]; simpl; auto. intros H. destruct (keq k k') as [->|]; [tauto|]. f_equal. apply IH. tauto.
  Qed.
  Lemma a_erase_app (m1 m2 : list (K * V)) k : a_erase keq (m1 ++ m2) k = a_erase keq m1 k ++ a_erase keq m2 k.
  Proof. apply filter_app. Qed.

  Lemma a_set_absent (m : list (K * V)) k v : ~ In k (map fst m) -> a_set keq m k v = m ++ [(k, v)].
  Proof.
    induction m as [|[k' v'] m IH]; simpl; auto. intros H. destruct (keq k k') as [->|]; [tauto|]. f_equal. apply IH. tauto.
  Qed.
  Lemma a_set_present (m1 : list (K * V)) k v0 v m2 : ~ In k (map fst m1) -> a_set keq (m1 ++ (k, v0) :: m2) k v = m1 ++ (k, v) :: m2.
  Proof.
    induction m1 as [|[k' v'] m1 IH]; simpl; intros H.
    - destruct (keq k k); congruence.
    - destruct (keq k k') as [->|]; [tauto|]. f_equal. apply IH. tauto.
  Qed.
  Lemma nodup_split_key (m1 : list (K * V)) k v0 m2 : NoDup (map fst (m1 ++ (k, v0) :: m2)) -> ~ In k (map fst m1) /\ ~ In k (map fst m2).
  Proof.
    rewrite map_app. simpl. intros H. apply NoDup_remove_2 in H. split; intros Hi; apply H; apply in_or_app; auto.
  Qed.
  Lemma a_set_perm (m m' : list (K * V)) k v : NoDup (map fst m) -> Permutation m m' -> Permutation (a_set keq m k v) (a_set keq m' k v).
  Proof.
    intros Hn HP.
    assert (Hn' : NoDup (map fst m')) by (eapply Permutation_NoDup; [apply Permutation_map; exact HP|exact Hn]).
    destruct (in_dec keq k (map fst m)) as [Hi|Hi].
    - assert (Hi' : In k (map fst m')) by (eapply Permutation_in; [apply Permutation_map; exact HP|exact Hi]).
      apply in_map_iff in Hi as ([k0 v0] & E & Hi). simpl in E. subst k0.
      apply in_split in Hi as (l1 & l2 & ->).
      apply in_map_iff in Hi' as ([k0 v1] & E & Hi'). simpl in E. subst k0.
      assert (v1 = v0) as ->.
      { assert (H1 : a_find keq m' k = Some v1) by (apply a_find_in; auto).
        rewrite <- (a_find_perm _ _ k Hn HP) in H1. rewrite (a_find_in _ k v0) in H1; auto; [congruence|].
        apply in_or_app. simpl. auto. }
      apply in_split in Hi' as (l3 & l4 & ->).
      destruct (nodup_split_key _ _ _ _ Hn) as [Ha Hb]. destruct (nodup_split_key _ _ _ _ Hn') as [Hc Hd].
      rewrite !a_set_present by assumption.
      apply Permutation_app_inv in HP. apply Permutation_elt. exact HP.
    - assert (Hi' : ~ In k (map fst m')).
      { intros H. apply Hi. eapply Permutation_in; [apply Permutation_map; symmetry; exact HP|exact H]. }
      rewrite !a_set_absent by assumption. apply Permutation_app_tail. exact HP.
  Qed.

  Lemma sorted_set_value l1 k v v' l2 : srt (l1 ++ (k, v) :: l2) -> srt (l1 ++ (k, v') :: l2).
  Proof.
    rewrite !sorted_app. intros (H1 & H2 & H3). repeat split; auto.
    - inversion H2; subst. constructor; auto.
    - intros a b Ha [<-|Hb].
      + apply (H3 a (k, v)); simpl; auto.
      + apply H3; simpl; auto.
  Qed.

  Lemma set_at_app (l1 : list (K * V)) k v v' l2 : set_at (l1 ++ (k, v) :: l2) (length l1) v' = l1 ++ (k, v') :: l2.
  Proof.
    unfold set_at. rewrite nth_error_app2, Nat.sub_diag by lia. cbn [nth_error].
    rewrite firstn_app, Nat.sub_diag, firstn_all. rewrite skipn_app, skipn_all2 by lia.
    replace (S (length l1) - length l1) with 1 by lia. simpl. rewrite app_nil_r. reflexivity.
  Qed.

  Lemma smap_assign_ok (m : list (K * V)) k v : srt m ->
    srt (smap_assign comp default m k v) /\ Permutation (smap_assign comp default m k v) (a_set keq m k v).
  Proof.
    intros Hs. unfold smap_assign, smap_index.
    pose proof (sorted_nodup fst comp Hst m Hs) as Hn.
    destruct (sorted_split fst comp Hst m k Hs) as [(l1 & l2 & -> & H1 & H2)|(l1 & x & l2 & -> & Hx & H1 & H2)].
    - rewrite (bounds_absent fst comp Hst l1 l2 k H1 H2), Nat.eqb_refl. cbn [negb]. unfold insert_at.
      rewrite firstn_app, Nat.sub_diag, firstn_all, skipn_app, Nat.sub_diag, skipn_all. simpl. rewrite app_nil_r.
      rewrite set_at_app. split.
      + apply sorted_app in Hs as (Hs1 & Hs2 & Hs3). apply sorted_app. repeat split; auto.
        * constructor; auto. apply Forall_forall. auto.
        * intros a b Ha [<-|Hb]; auto.
      + rewrite a_set_absent.
        * rewrite <- Permutation_cons_append. symmetry. apply Permutation_middle.
        * intros Hi. apply in_map_iff in Hi as (y & <- & Hy).
          apply in_app_or in Hy as [Hy|Hy]; [specialize (H1 _ Hy)|specialize (H2 _ Hy)]; rewrite st_irrefl in *; auto; discriminate.
    - destruct x as [k' v0]. simpl in Hx. subst k'.
      pose proof (bounds_present fst comp Hst l1 (k, v0) l2 H1 H2) as Hb. simpl fst in Hb. rewrite Hb.
      destruct (Nat.eqb_spec (length l1) (S (length l1))); [lia|]. cbn [negb]. rewrite set_at_app. split.
      + eapply sorted_set_value; eauto.
      + rewrite a_set_present; [reflexivity|]. apply nodup_split_key in Hn. tauto.
  Qed.

  Lemma Rmap_step m a o : Rmap m a ->
    let (m', r) := smap_step comp default m o in let (a', r') := a_step keq a o in r = r' /\ Rmap m' a'.
  Proof.
    intros [Hs HP]. pose proof (sorted_nodup fst comp Hst m Hs) as Hn.
    destruct o as [k v|k|k|k v| |]; simpl.
    - unfold smap_emplace.
      destruct (a_find keq a k) as [v0|] eqn:E.
      + rewrite <- (a_find_perm _ _ k Hn HP) in E. apply a_find_some in E.
        assert (Hi : In k (map fst m)) by (apply in_map_iff; exists (k, v0); auto).
        destruct (emplace_present fst comp Hst m k (k, v) Hs Hi) as (i & -> & _). split; [reflexivity|]. split; auto.
      + rewrite <- (a_find_perm _ _ k Hn HP) in E. apply a_find_none in E.
        destruct (emplace_absent fst comp Hst m (k, v) Hs E) as (l1 & l2 & -> & Hem & Hs'). simpl fst in Hem. rewrite Hem.
        split; [reflexivity|]. split; auto.
        rewrite <- HP. rewrite <- Permutation_cons_append. symmetry. apply Permutation_middle.
    - split; [reflexivity|]. unfold smap_erase.
      destruct (in_dec keq k (map fst m)) as [Hi|Hi].
      + destruct (erase_present fst comp Hst m k Hs Hi) as (l1 & [k' v'] & l2 & -> & Hk & -> & Hs'). simpl in Hk. subst k'. split; auto.
        simpl fst. rewrite <- (a_erase_perm _ _ k HP). rewrite a_erase_app.
        destruct (nodup_split_key _ _ _ _ Hn) as [Ha Hb]. simpl. destruct (keq k k); [|congruence].
        rewrite a_erase_absent by assumption. change (filter _ l2) with (a_erase keq l2 k). rewrite a_erase_absent by assumption. reflexivity.
      + rewrite (erase_absent fst comp Hst m k Hs Hi). split; auto. simpl fst. rewrite <- (a_erase_perm _ _ k HP).
        rewrite a_erase_absent by assumption. reflexivity.
    - rewrite smap_find_ok by assumption. rewrite (a_find_perm _ _ k Hn HP). split; [reflexivity|]. split; auto.
    - split; [reflexivity|]. destruct (smap_assign_ok m k v Hs) as [H1 H2]. split; auto. rewrite H2. apply a_set_perm; auto.
    - split; [reflexivity|]. split; constructor.
    - rewrite (Permutation_length HP). split; [reflexivity|]. split; auto.
  Qed.

  Lemma Rmap_run ops : forall m a, Rmap m a ->
    let (m', r) := run (smap_step comp default) m ops in let (a', r') := run (a_step keq) a ops in r = r' /\ Rmap m' a'.
  Proof.
    induction ops as [|o ops IH]; intros m a HR; simpl; [auto|].
    pose proof (Rmap_step m a o HR) as H1. destruct (smap_step comp default m o) as [m1 r1], (a_step keq a o) as [a1 r1'].
    destruct H1 as [-> HR1]. pose proof (IH _ _ HR1) as H2.
    destruct (run (smap_step comp default) m1 ops) as [m2 r2], (run (a_step keq) a1 ops) as [a2 r2'].
    destruct H2 as [-> HR2]. auto.
  Qed.

  Lemma smap_refines ops m rs a rs' :
    run (smap_step comp default) [] ops = (m, rs) -> run (a_step keq) [] ops = (a, rs') ->
    rs = rs' /\ Permutation m a /\ StronglySorted (fun x y => comp (fst x) (fst y) = true) m.
  Proof.
    intros H1 H2. assert (HR : Rmap [] []) by (split; constructor).
    pose proof (Rmap_run ops [] [] HR) as H. rewrite H1, H2 in H. destruct H as [-> [Hs HP]]. auto.
  Qed.

  (** [at] *)
  Lemma smap_at_ok (m : list (K * V)) k : srt m -> smap_at comp m k =
    match a_find keq m k with Some v => Ok v | None => Throw (Exn out_of_range "key not found") end.
  Proof.
    intros Hs. unfold smap_at. pose proof (sorted_nodup fst comp Hst m Hs) as Hn.
    destruct (sorted_split fst comp Hst m k Hs) as [(l1 & l2 & -> & H1 & H2)|(l1 & [k' v] & l2 & -> & Hx & H1 & H2)].
    - rewrite (bounds_absent fst comp Hst l1 l2 k H1 H2), Nat.eqb_refl.
      destruct (a_find keq (l1 ++ l2) k) as [v|] eqn:E; [|reflexivity]. apply a_find_some in E. exfalso.
      apply in_app_or in E as [Hy|Hy]; [specialize (H1 _ Hy)|specialize (H2 _ Hy)]; simpl in *; rewrite st_irrefl in *; auto; discriminate.
    - simpl in Hx. subst k'. pose proof (bounds_present fst comp Hst l1 (k, v) l2 H1 H2) as Hb. simpl fst in Hb. rewrite Hb.
      destruct (Nat.eqb_spec (length l1) (S (length l1))); [lia|].
      rewrite nth_error_app2, Nat.sub_diag by lia. simpl.
      rewrite (a_find_in _ k v); auto. apply in_or_app. simpl. auto.
  Qed.
End MapRefine.

Section SetRefine.
  Context {K : Type} (comp : K -> K -> bool) (Hst : strict_total comp)
          (keq : forall a b : K, {a = b} + {a <> b}).
  Notation srt := (sorted (E := K) (fun x => x) comp).
  Definition Rset (m a : list K) : Prop := srt m /\ Permutation m a.

  Lemma filter_perm {A} (f : A -> bool) m m' : Permutation m m' -> Permutation (filter f m) (filter f m').
  Proof.
    induction 1; simpl; auto.
    - destruct (f x); auto.
    - destruct (f x), (f y); auto. apply perm_swap.
    - etransitivity; eauto.
  Qed.
  Lemma filter_absent k m : ~ In k m -> filter (fun x => if keq k x then false else true) m = m.
  Proof. induction m as [|x m IH]; simpl; auto. intros H. destruct (keq k x) as [->|]; [tauto|]. f_equal. tauto. Qed.

  Lemma Rset_step m a o : Rset m a ->
    let (m', r) := sset_step comp m o in let (a', r') := a_sstep keq a o in r = r' /\ Rset m' a'.
  Proof.
    intros [Hs HP]. pose proof (sorted_nodup (fun x => x) comp Hst m Hs) as Hn. rewrite map_id in Hn.
    assert (Hin : forall k, In k a <-> In k m).
    { intros k. split; intros H; [eapply Permutation_in; [symmetry; exact HP|exact H]|eapply Permutation_in; eauto]. }
    destruct o as [k|k|k| |]; simpl.
    - destruct (in_dec keq k a) as [Hi|Hi].
      + apply Hin in Hi. rewrite <- (map_id m) in Hi.
        destruct (emplace_present (fun x => x) comp Hst m k k Hs Hi) as (i & -> & _). split; [reflexivity|]. split; auto.
      + assert (Hi' : ~ In k (map (fun x => x) m)) by (rewrite map_id; intros H; apply Hi, Hin; auto).
        destruct (emplace_absent (fun x => x) comp Hst m k Hs Hi') as (l1 & l2 & -> & -> & Hs'). split; [reflexivity|]. split; auto.
        rewrite <- HP. rewrite <- Permutation_cons_append. symmetry. apply Permutation_middle.
    - split; [reflexivity|]. destruct (in_dec keq k m) as [Hi|Hi].
      + rewrite <- (map_id m) in Hi.
        destruct (erase_present (fun x => x) comp Hst m k Hs Hi) as (l1 & x & l2 & -> & <- & -> & Hs'). split; auto. simpl fst.
        rewrite <- (filter_perm _ _ _ HP), filter_app. simpl. destruct (keq x x); [|congruence].
        apply NoDup_remove_2 in Hn. rewrite !filter_absent; auto; intros H; apply Hn, in_or_app; auto.
      + rewrite (erase_absent (fun x => x) comp Hst m k Hs) by (rewrite map_id; auto). split; auto. simpl fst.
        rewrite <- (filter_perm _ _ _ HP), filter_absent; auto.
    - split.
      + f_equal. destruct (in_dec keq k a) as [Hi|Hi].
        * apply Hin in Hi. destruct (sv_find_present (fun x => x) comp Hst m k Hs Hi) as (i & -> & Hnth).
          destruct (Nat.eqb_spec i (length m)) as [->|]; [|reflexivity].
          assert (length m < length m) by (apply nth_error_Some; congruence). lia.
        * rewrite (sv_find_absent (fun x => x) comp Hst m k Hs); [rewrite Nat.eqb_refl; reflexivity|].
          rewrite map_id. intros H. apply Hi, Hin, H.
      + split; auto.
    - split; [reflexivity|]. split; constructor.
    - rewrite (Permutation_length HP). split; [reflexivity|]. split; auto.
  Qed.

  Lemma sset_refines ops : forall m rs a rs',
    run (sset_step comp) [] ops = (m, rs) -> run (a_sstep keq) [] ops = (a, rs') ->
    rs = rs' /\ Permutation m a /\ StronglySorted (fun x y => comp x y = true) m.
  Proof.
    assert (HR : forall ops m a, Rset m a ->
      let (m', r) := run (sset_step comp) m ops in let (a', r') := run (a_sstep keq) a ops in r = r' /\ Rset m' a').
    { clear ops. induction ops as [|o ops IH]; intros m a HR; simpl; [auto|].
      pose proof (Rset_step m a o HR) as H1. destruct (sset_step comp m o) as [m1 r1], (a_sstep keq a o) as [a1 r1'].
      destruct H1 as [-> HR1]. pose proof (IH _ _ HR1) as H2.
      destruct (run (sset_step comp) m1 ops) as [m2 r2], (run (a_sstep keq) a1 ops) as [a2 r2'].
      destruct H2 as [-> HR2]. auto. }
    intros m rs a rs' H1 H2. assert (H0 : Rset [] []) by (split; constructor).
    pose proof (HR ops [] [] H0) as H. rewrite H1, H2 in H. destruct H as [-> [Hs HP]]. auto.
  Qed.
End SetRefine.

Lemma sv_init_dup_refuted :
  ~ (forall init : list (string * N), NoDup (map fst (sv_init fst shorter_or_less init))).
Proof.
  intros H. specialize (H [("a"%string, 1%N); ("a"%string, 2%N)]). vm_compute in H. inversion H as [|? ? Hx]; subst.
  apply Hx. left. reflexivity.
Qed.
