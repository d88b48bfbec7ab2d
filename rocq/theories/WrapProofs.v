From Verif Require Import Cpp SortedMapModel SortedMapSpec SortedMapProofs SchemaModel WrapModel.
From Coq Require Import Lia.
Local Open Scope list_scope.

(** * Lists of threads *)
Definition count (f : pc -> bool) (l : list pc) : nat := length (filter f l).
Definition one (b : bool) : nat := if b then 1 else 0.

Lemma count_set f l : forall t a x, nth_error l t = Some a ->
  count f (set_nth l t x) + one (f a) = count f l + one (f x).
Proof.
  unfold count. induction l as [|y l IH]; intros [|t] a x H; simpl in *; try discriminate.
  - injection H as ->. destruct (f a), (f x); simpl; lia.
  - specialize (IH _ _ x H). destruct (f y); simpl; lia.
Qed.

Lemma count_pos f l t a : nth_error l t = Some a -> f a = true -> 1 <= count f l.
Proof.
  unfold count. revert t. induction l as [|y l IH]; intros [|t] H Hf; simpl in *; try discriminate.
  - injection H as ->. rewrite Hf. simpl. lia.
  - specialize (IH _ H Hf). destruct (f y); simpl; lia.
Qed.

Lemma count_two f l : forall t u a b, t <> u -> nth_error l t = Some a -> nth_error l u = Some b ->
  f a = true -> f b = true -> 2 <= count f l.
Proof.
  induction l as [|y l IH]; intros [|t] [|u] a b Hne Ha Hb Hfa Hfb; simpl in *; try discriminate; try congruence.
  - injection Ha as ->. unfold count. simpl. rewrite Hfa. simpl. pose proof (count_pos f l u b Hb Hfb). unfold count in *. lia.
  - injection Hb as ->. unfold count. simpl. rewrite Hfb. simpl. pose proof (count_pos f l t a Ha Hfa). unfold count in *. lia.
  - assert (2 <= count f l) by (apply (IH t u a b); auto). unfold count in *. simpl. destruct (f y); simpl; lia.
Qed.

Lemma nth_set_same (l : list pc) t a x : nth_error l t = Some a -> nth_error (set_nth l t x) t = Some x.
Proof. revert t. induction l; intros [|t] H; simpl in *; try discriminate; auto. Qed.

Lemma nth_set_other {A} (l : list A) : forall t u x, t <> u -> nth_error (set_nth l t x) u = nth_error l u.
Proof. induction l; intros [|t] [|u] x H; simpl; auto; try congruence. Qed.

Lemma upd_same {A} (f : bool -> A) b x : upd f b x b = x.
Proof. unfold upd. rewrite eqb_reflx. reflexivity. Qed.
Lemma upd_other {A} (f : bool -> A) b b' x : b <> b' -> upd f b x b' = f b'.
Proof. intros H. unfold upd. destruct (eqb_spec b b'); congruence. Qed.

Lemma NoDup_snoc (l : list N) x : NoDup l -> ~ In x l -> NoDup (l ++ [x]).
Proof.
  intros Hn Hx. induction l as [|y l IH]; simpl; [constructor; auto; constructor|].
  inversion Hn; subst. simpl in Hx. constructor; [|apply IH; tauto].
  rewrite in_app_iff. simpl. intros [H|[H|[]]]; [auto|]. apply Hx. auto.
Qed.

Section Inv.
  Context (bases : list N).

  Definition two_kinds (k : type_kind) : Prop := k = LIST \/ k = NON_NULL.
  Lemma two_kinds_list k k' : two_kinds k -> two_kinds k' -> is_list k = is_list k' -> k = k'.
  Proof. intros [->| ->] [->| ->]; simpl; congruence. Qed.

  Definition points (s : state) (k : type_kind) (p : N) (itr : nat) : Prop :=
    exists q, nth_error (maps s (is_list k)) itr = Some (p, q).
  Definition pending (p : pc) : option (type_kind * N) :=
    match p with
    | Idle => None
    | LockShared k p | Find k p | ReturnShared k p _ | UnlockShared k p | LockUnique k p | Emplace k p | ReturnUnique k p _ => Some (k, p)
    end.
  Definition ok_itr (s : state) (p : pc) : Prop :=
    match p with ReturnShared k p i | ReturnUnique k p i => points s k p i | _ => True end.

  Record inv (s : state) : Prop := mkInv {
    i_sorted : forall b, sorted fst N.ltb (maps s b);
    i_readers : forall b, readers (locks s b) = count (reads b) (threads s);
    i_writers : forall b, count (writes b) (threads s) = one (writer (locks s b));
    i_excl : forall b, writer (locks s b) = true -> readers (locks s b) = 0;
    i_nodup : NoDup (map fst (heap s));
    i_bases : forall q, In q (map fst (heap s)) -> ~ In q bases;
    i_maps : forall b p q, In (p, q) (maps s b) <-> exists k, is_list k = b /\ In (q, (k, p)) (heap s);
    i_heap : forall q k p, In (q, (k, p)) (heap s) -> two_kinds k /\ In (k, p) (asked s);
    i_asked : forall k p, In (k, p) (asked s) -> two_kinds k /\ In p (alive bases s);
    i_pending : forall t x k p, nth_error (threads s) t = Some x -> pending x = Some (k, p) -> In (k, p) (asked s);
    i_itr : forall t x, nth_error (threads s) t = Some x -> ok_itr s x;
    i_answers : forall k p q, In (k, p, q) (answers s) -> In (q, (k, p)) (heap s)
  }.

  Lemma inv_start n : inv (start n).
  Proof.
    assert (Hc : forall f, f Idle = false -> count f (repeat Idle n) = 0).
    { intros f Hf. unfold count. induction n; simpl; auto. rewrite Hf. auto. }
    assert (Hn : forall t x, nth_error (repeat Idle n) t = Some x -> x = Idle).
    { intros t x H. apply nth_error_In in H. apply repeat_spec in H. auto. }
    constructor; simpl; intros; try tauto; try constructor.
    - rewrite Hc; auto.
    - rewrite Hc; auto.
    - intros [].
    - intros (k & _ & []).
    - apply Hn in H. subst. discriminate.
    - apply Hn in H. subst. exact I.
  Qed.

  (** Steps that only move a thread and change a mutex. *)
  Lemma inv_move s t x y b m :
    inv s -> nth_error (threads s) t = Some x ->
    (forall k p, pending y = Some (k, p) -> pending x = Some (k, p)) ->
    ok_itr s y ->
    (forall b', b' <> b -> reads b' x = reads b' y /\ writes b' x = writes b' y) ->
    readers m + one (reads b x) = readers (locks s b) + one (reads b y) ->
    one (writer m) + one (writes b x) = one (writer (locks s b)) + one (writes b y) ->
    (writer m = true -> readers m = 0) ->
    inv (locked (goes s t y) b m).
  Proof.
    intros Hi Hx Hp Hitr Ho Hr Hw He.
    assert (Hth : forall u z, nth_error (set_nth (threads s) t y) u = Some z -> (u = t /\ z = y) \/ nth_error (threads s) u = Some z).
    { intros u z Hz. destruct (Nat.eq_dec t u) as [<-|Hne].
      - rewrite (nth_set_same _ _ _ _ Hx) in Hz. injection Hz as <-. auto.
      - rewrite nth_set_other in Hz by auto. auto. }
    constructor; unfold locked, goes; simpl; try apply Hi.
    - intros b'. pose proof (count_set (reads b') _ _ _ y Hx) as Hc. rewrite <- (i_readers _ Hi) in Hc.
      destruct (bool_dec b b') as [<-|Hne].
      + rewrite upd_same. lia.
      + rewrite upd_other by auto. destruct (Ho b') as [Hq _]; [congruence|]. rewrite Hq in Hc. lia.
    - intros b'. pose proof (count_set (writes b') _ _ _ y Hx) as Hc. rewrite (i_writers _ Hi) in Hc.
      destruct (bool_dec b b') as [<-|Hne].
      + rewrite upd_same. lia.
      + rewrite upd_other by auto. destruct (Ho b') as [_ Hq]; [congruence|]. rewrite Hq in Hc. lia.
    - intros b'. destruct (bool_dec b b') as [<-|Hne].
      + rewrite upd_same. auto.
      + rewrite upd_other by auto. apply Hi.
    - intros u z k p Hz Hk. apply Hth in Hz as [[-> ->]|Hz].
      + apply (i_pending _ Hi t x); auto.
      + apply (i_pending _ Hi u z); auto.
    - intros u z Hz. apply Hth in Hz as [[-> ->]|Hz]; [exact Hitr|]. apply (i_itr _ Hi u z Hz).
  Qed.

  Lemma inv_same_lock s t y : inv (locked (goes s t y) true (locks s true)) -> inv (goes s t y).
  Proof.
    intros H. assert (E : forall b, upd (locks s) true (locks s true) b = locks s b).
    { intros []; reflexivity. }
    destruct H as [H1 H2 H3 H4 H5 H6 H7 H8 H9 H10 H11 H12]. unfold locked, goes in *. simpl in *.
    constructor; simpl; auto.
    - intros b. rewrite <- E. auto.
    - intros b. rewrite <- E. auto.
    - intros b. rewrite <- E. auto.
  Qed.

  Lemma inv_answer s k p q : inv s -> In (q, (k, p)) (heap s) -> inv (with_answer s (k, p, q)).
  Proof.
    intros Hi Hq. constructor; unfold with_answer; simpl; try apply Hi.
    intros k' p' q' H. apply in_app_or in H as [H|[H|[]]]; [apply Hi; auto|]. injection H as <- <- <-. auto.
  Qed.

  Lemma points_heap s k p q itr p' : inv s -> two_kinds k -> points s k p itr ->
    nth_error (maps s (is_list k)) itr = Some (p', q) -> p' = p /\ In (q, (k, p)) (heap s).
  Proof.
    intros Hi Hk (q' & Hq) H. rewrite Hq in H. injection H as <- <-. split; [reflexivity|].
    apply nth_error_In in Hq. apply (i_maps _ Hi) in Hq as (k' & Hk' & Hin).
    rewrite (two_kinds_list k k'); auto. apply (i_heap _ Hi _ _ _ Hin).
  Qed.

  Lemma other_writer s t u x y b : inv s -> nth_error (threads s) t = Some x -> nth_error (threads s) u = Some y ->
    writes b x = true -> t <> u -> reads b y = false /\ writes b y = false.
  Proof.
    intros Hi Hx Hy Hw Hne. assert (Hp := count_pos _ _ _ _ Hx Hw). assert (Hc := i_writers _ Hi b).
    split.
    - destruct (reads b y) eqn:E; [|reflexivity]. exfalso. assert (Hr := count_pos _ _ _ _ Hy E).
      rewrite <- (i_readers _ Hi) in Hr. assert (He := i_excl _ Hi b).
      destruct (writer (locks s b)); simpl in *; [specialize (He eq_refl)|]; lia.
    - destruct (writes b y) eqn:E; [|reflexivity]. exfalso.
      assert (H2 := count_two _ _ _ _ _ _ Hne Hx Hy Hw E). destruct (writer (locks s b)); simpl in *; lia.
  Qed.

  Lemma kind_ok s t x k p : inv s -> nth_error (threads s) t = Some x -> pending x = Some (k, p) -> two_kinds k.
  Proof. intros Hi Hx Hp. eapply i_asked; eauto. eapply i_pending; eauto. Qed.

  Lemma pc_of_same k : pc_of (is_list k) k = true.
  Proof. apply eqb_reflx. Qed.
  Lemma pc_of_other b k : b <> is_list k -> pc_of b k = false.
  Proof. intros H. unfold pc_of. destruct (eqb_spec b (is_list k)); congruence. Qed.
End Inv.

Ltac other := intros ?b' ?Hb'; simpl; rewrite ?pc_of_other by auto; auto.

Section Inv2.
  Context (bases : list N).
  Notation inv := (inv bases).

  Lemma inv_emplace s t k p q m' itr inserted : inv s ->
    nth_error (threads s) t = Some (Emplace k p) -> ~ In q (alive bases s) ->
    sv_emplace fst N.ltb (maps s (is_list k)) p (p, q) = (m', (itr, inserted)) ->
    inv (mkState (set_nth (threads s) t (ReturnUnique k p itr)) (upd (maps s) (is_list k) m') (locks s)
                        (if inserted then heap s ++ [(q, (k, p))] else heap s) (asked s) (answers s)).
  Proof.
    intros Hi Hx Hq He.
    assert (Hk : two_kinds k) by (eapply kind_ok; eauto; reflexivity).
    assert (Hth : forall u z, nth_error (set_nth (threads s) t (ReturnUnique k p itr)) u = Some z ->
                  (u = t /\ z = ReturnUnique k p itr) \/ (u <> t /\ nth_error (threads s) u = Some z)).
    { intros u z Hz. destruct (Nat.eq_dec t u) as [<-|Hne].
      - rewrite (nth_set_same _ _ _ _ Hx) in Hz. injection Hz as <-. auto.
      - rewrite nth_set_other in Hz by auto. auto. }
    assert (Hw : writes (is_list k) (Emplace k p) = true) by (apply pc_of_same).
    (* no other thread holds an iterator into this map *)
    assert (Hoth : forall u z, u <> t -> nth_error (threads s) u = Some z ->
                  match z with ReturnShared k' _ _ | ReturnUnique k' _ _ => is_list k' <> is_list k | _ => True end).
    { intros u z Hne Hz. destruct (other_writer bases s t u _ z (is_list k) Hi Hx Hz Hw) as [Hr1 Hr2]; auto.
      destruct z; auto; simpl in *; intros E; rewrite <- E, pc_of_same in *; discriminate. }
    assert (Hr : forall b, count (reads b) (set_nth (threads s) t (ReturnUnique k p itr)) = count (reads b) (threads s)).
    { intros b. pose proof (count_set (reads b) _ _ _ (ReturnUnique k p itr) Hx). simpl in *. lia. }
    assert (Hwr : forall b, count (writes b) (set_nth (threads s) t (ReturnUnique k p itr)) = count (writes b) (threads s)).
    { intros b. pose proof (count_set (writes b) _ _ _ (ReturnUnique k p itr) Hx). simpl in *. lia. }
    destruct (in_dec N.eq_dec p (map fst (maps s (is_list k)))) as [Hin|Hin].
    - (* already there *)
      destruct (emplace_present fst N.ltb N_lt_strict _ p (p, q) (i_sorted _ _ Hi (is_list k)) Hin) as (i & Hem & [p' q'] & Hn & Hp').
      simpl in Hp'. subst p'. rewrite Hem in He. injection He as <- <- <-.
      assert (E : forall b, upd (maps s) (is_list k) (maps s (is_list k)) b = maps s b).
      { intros b. destruct (bool_dec (is_list k) b) as [<-|Hne]; [apply upd_same|apply upd_other; auto]. }
      constructor; simpl; try apply Hi.
      + intros b. rewrite E. apply Hi.
      + intros b. rewrite Hr. apply Hi.
      + intros b. rewrite Hwr. apply Hi.
      + intros b. rewrite E. apply Hi.
      + intros u z k' p' Hz Hk'. apply Hth in Hz as [[-> ->]|[_ Hz]].
        * simpl in Hk'. injection Hk' as <- <-. apply (i_pending _ _ Hi t (Emplace k p)); auto.
        * apply (i_pending _ _ Hi u z); auto.
      + intros u z Hz. apply Hth in Hz as [[-> ->]|[_ Hz]].
        * simpl. unfold points. simpl. rewrite E. eauto.
        * apply (i_itr _ _ Hi) in Hz. destruct z; simpl in *; auto; unfold points in *; simpl; rewrite E; auto.
    - (* inserted *)
      destruct (emplace_absent fst N.ltb N_lt_strict _ (p, q) (i_sorted _ _ Hi (is_list k)) Hin) as (l1 & l2 & Hm & Hem & Hs).
      simpl in Hem. rewrite Hem in He. injection He as <- <- <-.
      unfold alive in Hq. rewrite in_app_iff in Hq.
      constructor; simpl; try apply Hi.
      + intros b. destruct (bool_dec (is_list k) b) as [<-|Hne].
        * rewrite upd_same. auto.
        * rewrite upd_other by auto. apply Hi.
      + intros b. rewrite Hr. apply Hi.
      + intros b. rewrite Hwr. apply Hi.

      + rewrite map_app. apply NoDup_snoc; [apply Hi|tauto].
      + intros q' H. rewrite map_app, in_app_iff in H. destruct H as [H|[<-|[]]]; [apply (i_bases _ _ Hi); auto|tauto].
      + intros b p' q'. destruct (bool_dec (is_list k) b) as [<-|Hne].
        * rewrite upd_same. pose proof (i_maps _ _ Hi (is_list k) p' q') as Hm'. rewrite Hm in Hm'.
          rewrite in_app_iff in *. simpl. split.
          -- intros H. assert (H' : (p', q') = (p, q) \/ (In (p', q') l1 \/ In (p', q') l2)) by (destruct H as [H|[H|H]]; auto).
             destruct H' as [H'|H'].
             ++ injection H' as -> ->. exists k. rewrite in_app_iff. simpl. auto.
             ++ apply Hm' in H' as (k' & Hk' & H'). exists k'. rewrite in_app_iff. auto.
          -- intros (k' & Hk' & H'). apply in_app_or in H' as [H'|[H'|[]]].
             ++ assert (H2 : In (p', q') l1 \/ In (p', q') l2) by (apply Hm'; eauto). tauto.
             ++ injection H' as -> -> ->. auto.
        * rewrite upd_other by auto. rewrite (i_maps _ _ Hi b p' q'). split.
          -- intros (k' & Hk' & H'). exists k'. rewrite in_app_iff. auto.
          -- intros (k' & Hk' & H'). apply in_app_or in H' as [H'|[H'|[]]]; [eauto|]. injection H' as -> -> ->. congruence.
      + intros q' k' p' H. apply in_app_or in H as [H|[H|[]]]; [apply (i_heap _ _ Hi q' k' p' H)|].
        injection H as <- <- <-. split; [auto|]. apply (i_pending _ _ Hi t (Emplace k p)); auto.
      + intros k' p' H. destruct (i_asked _ _ Hi _ _ H) as [H1 H2]. split; [auto|].
        unfold alive in *. simpl. rewrite map_app, !in_app_iff in *. tauto.
      + intros u z k' p' Hz Hk'. apply Hth in Hz as [[-> ->]|[_ Hz]].
        * simpl in Hk'. injection Hk' as <- <-. apply (i_pending _ _ Hi t (Emplace k p)); auto.
        * apply (i_pending _ _ Hi u z); auto.
      + intros u z Hz. apply Hth in Hz as [[-> ->]|[Hne Hz]].
        * simpl. unfold points. simpl. rewrite upd_same. exists q. rewrite nth_error_app2, Nat.sub_diag by lia. reflexivity.
        * assert (Ho := Hoth _ _ Hne Hz). apply (i_itr _ _ Hi) in Hz.
          destruct z; simpl in *; auto; unfold points in *; simpl; rewrite upd_other by auto; auto.
      + intros k' p' q' H. apply in_or_app. left. apply (i_answers _ _ Hi). auto.
  Qed.

  Lemma inv_step s t s' : inv s -> step bases t s s' -> inv s'.
  Proof.
    intros Hi Hs. destruct Hs as
      [t s k p Hx Hp Hk|t s k p Hx Hw|t s k p Hx m itr|t s k p itr p' q Hx Hn|t s k p Hx|t s k p Hx Hr Hw|t s k p q m' itr ins Hx Hq He|t s k p itr p' q Hx Hn].
    - (* call *)
      assert (Hi' : inv (mkState (threads s) (maps s) (locks s) (heap s) (asked s ++ [(k, p)]) (answers s))).
      { constructor; simpl; try apply Hi.
        - intros q' k' p' H. destruct (i_heap _ _ Hi _ _ _ H). rewrite in_app_iff. auto.
        - intros k' p' H. apply in_app_or in H as [H|[H|[]]]; [apply (i_asked _ _ Hi _ _ H)|]. injection H as <- <-. auto.
        - intros u x k' p' H1 H2. rewrite in_app_iff. left. eapply i_pending; eauto. }
      assert (Hth : forall u z, nth_error (set_nth (threads s) t (LockShared k p)) u = Some z -> (u = t /\ z = LockShared k p) \/ nth_error (threads s) u = Some z).
      { intros u z Hz. destruct (Nat.eq_dec t u) as [<-|Hne].
        - rewrite (nth_set_same _ _ _ _ Hx) in Hz. injection Hz as <-. auto.
        - rewrite nth_set_other in Hz by auto. auto. }
      constructor; simpl; try apply Hi'.
      + intros b. pose proof (count_set (reads b) _ _ _ (LockShared k p) Hx). simpl in *. rewrite (i_readers _ _ Hi). lia.
      + intros b. pose proof (count_set (writes b) _ _ _ (LockShared k p) Hx). simpl in *. rewrite <- (i_writers _ _ Hi). lia.
      + intros u z k' p' Hz Hk'. apply Hth in Hz as [[-> ->]|Hz].
        * simpl in Hk'. injection Hk' as <- <-. rewrite in_app_iff. simpl. auto.
        * rewrite in_app_iff. left. apply (i_pending _ _ Hi u z); auto.
      + intros u z Hz. apply Hth in Hz as [[-> ->]|Hz]; [exact I|]. apply (i_itr _ _ Hi u z Hz).
    - eapply inv_move; eauto; simpl; auto.
      + other.
      + rewrite pc_of_same. simpl. lia.
      + rewrite Hw. reflexivity.
      + discriminate.
    - apply inv_same_lock. eapply inv_move; eauto.
      + intros k' p' H. destruct (Nat.eqb itr (length m)); auto.
      + destruct (Nat.eqb_spec itr (length m)) as [E|E]; [exact I|]. simpl. unfold points.
        assert (Hin : In p (map fst m)).
        { destruct (in_dec N.eq_dec p (map fst m)) as [H|H]; [exact H|]. exfalso. apply E. apply sv_find_absent; auto; [apply N_lt_strict|apply (i_sorted _ _ Hi)]. }
        apply in_map_iff in Hin as ([p' q] & Hp' & Hin). simpl in Hp'. subst p'.
        destruct (sv_find_present fst N.ltb N_lt_strict m (p, q) (i_sorted _ _ Hi _) Hin) as (i & Hf & Hn).
        simpl in Hf. exists q. subst itr. rewrite Hf. exact Hn.
      + intros b' _. destruct (Nat.eqb itr (length m)); auto.
      + destruct (Nat.eqb itr (length m)); simpl; unfold pc_of; reflexivity.
      + destruct (Nat.eqb itr (length m)); simpl; reflexivity.
      + apply Hi.
    - assert (Hk : two_kinds k) by (eapply kind_ok; eauto; reflexivity).
      assert (Hpt := i_itr _ _ Hi _ _ Hx). simpl in Hpt.
      destruct (points_heap bases s k p q itr p' Hi Hk Hpt Hn) as [-> Hh].
      assert (Hpos : 1 <= readers (locks s (is_list k))).
      { rewrite (i_readers _ _ Hi). eapply count_pos; eauto. apply pc_of_same. }
      apply inv_answer; [|exact Hh].
      eapply inv_move; eauto; simpl; auto.
      + discriminate.
      + other.
      + rewrite pc_of_same. simpl. lia.
      + intros Hw. assert (He := i_excl _ _ Hi _ Hw). lia.
    - assert (Hpos : 1 <= readers (locks s (is_list k))).
      { rewrite (i_readers _ _ Hi). eapply count_pos; eauto. apply pc_of_same. }
      eapply inv_move; eauto; simpl; auto.
      + other.
      + rewrite pc_of_same. simpl. lia.
      + intros Hw. assert (He := i_excl _ _ Hi _ Hw). lia.
    - eapply inv_move; eauto; simpl; auto.
      + other.
      + rewrite Hw, pc_of_same. reflexivity.
    - eapply inv_emplace; eauto.
    - assert (Hk : two_kinds k) by (eapply kind_ok; eauto; reflexivity).
      assert (Hpt := i_itr _ _ Hi _ _ Hx). simpl in Hpt.
      destruct (points_heap bases s k p q itr p' Hi Hk Hpt Hn) as [-> Hh].
      assert (Hpos : 1 <= one (writer (locks s (is_list k)))).
      { rewrite <- (i_writers _ _ Hi). eapply count_pos; eauto. apply pc_of_same. }
      apply inv_answer; [|exact Hh].
      eapply inv_move; eauto; simpl; auto.
      + discriminate.
      + other.
      + rewrite pc_of_same. destruct (writer (locks s (is_list k))); simpl in *; lia.
      + discriminate.
  Qed.

  Lemma inv_reachable n s : reachable bases n s -> inv s.
  Proof. induction 1; [apply inv_start|eapply inv_step; eauto]. Qed.
End Inv2.
