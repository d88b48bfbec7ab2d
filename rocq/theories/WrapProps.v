(** C29: Schema::WrapType called by any number of threads, interleaved in any way. *)
From Verif Require Import Cpp SortedMapModel SortedMapSpec SortedMapProofs SchemaModel WrapModel WrapProofs.
From Coq Require Import Lia Permutation.
Local Open Scope list_scope.

Section Props.
  Context (bases : list N) (n : nat).

  (** Calls for the same kind and type, from any threads at any time, return the same wrapper; different calls, different ones. *)
Theorem C29_interned s k p q q' : reachable bases n s ->
    In (k, p, q) (answers s) -> In (k, p, q') (answers s) -> q = q'.
  Proof.
    intros Hr H H'. assert (Hi := inv_reachable _ _ _ Hr).
    apply (i_answers _ _ Hi) in H, H'.
    assert (Hm : In (p, q) (maps s (is_list k))) by (apply (i_maps _ _ Hi); eauto).
    assert (Hm' : In (p, q') (maps s (is_list k))) by (apply (i_maps _ _ Hi); eauto).
    assert (Hn := sorted_nodup fst N.ltb N_lt_strict _ (i_sorted _ _ Hi (is_list k))).
    clear -Hn Hm Hm'. induction (maps s (is_list k)) as [|[a b] l IH]; simpl in *; [contradiction|].
    inversion Hn as [|? ? Hx Hn']; subst. destruct Hm as [Hm|Hm], Hm' as [Hm'|Hm']; auto; try congruence.
    - injection Hm as -> ->. exfalso. apply Hx. apply in_map_iff. exists (p, q'). auto.
    - injection Hm' as -> ->. exfalso. apply Hx. apply in_map_iff. exists (p, q). auto.
  Qed.

  Lemma heap_at s q a a' : inv bases s -> In (q, a) (heap s) -> In (q, a') (heap s) -> a = a'.
  Proof.
    intros Hi H H'. assert (Hn := i_nodup _ _ Hi). clear -Hn H H'.
    induction (heap s) as [|[x b] l IH]; simpl in *; [contradiction|].
    inversion Hn as [|? ? Hx Hn']; subst. destruct H as [H|H], H' as [H'|H']; auto; try congruence.
    - injection H as -> ->. exfalso. apply Hx. apply in_map_iff. exists (q, a'). auto.
    - injection H' as -> ->. exfalso. apply Hx. apply in_map_iff. exists (q, a). auto.
  Qed.

Theorem C29_distinct s k p k' p' q : reachable bases n s ->
    In (k, p, q) (answers s) -> In (k', p', q) (answers s) -> k = k' /\ p = p'.
  Proof.
    intros Hr H H'. assert (Hi := inv_reachable _ _ _ Hr). apply (i_answers _ _ Hi) in H, H'.
    assert (E := heap_at _ _ _ _ Hi H H'). injection E as -> ->. auto.
  Qed.

  (** What a call returned is an object that is alive, that is not one of the other types, and whose kind() and ofType() are the
      arguments of that call. It stays so whatever the threads do later. *)
Theorem C29_wrapper s k p q : reachable bases n s -> In (k, p, q) (answers s) ->
    (forall a, In (q, a) (heap s) <-> a = (k, p)) /\ ~ In q bases
    /\ forall t s', step bases t s s' -> In (k, p, q) (answers s').
  Proof.
    intros Hr H. assert (Hi := inv_reachable _ _ _ Hr). assert (Hh := i_answers _ _ Hi _ _ _ H).
    split; [|split].
    - intros a. split; [intros Ha; eapply heap_at; eauto|intros ->; auto].
    - apply (i_bases _ _ Hi). apply in_map_iff. exists (q, (k, p)). auto.
    - intros t s' Hs. destruct Hs; simpl; auto; apply in_or_app; auto.
  Qed.

  (** Never more wrappers than distinct requests: no request has two, and every wrapper was asked for. *)
Theorem C29_bounded s : reachable bases n s -> NoDup (map snd (heap s)) /\ incl (map snd (heap s)) (asked s).
  Proof.
    intros Hr. assert (Hi := inv_reachable _ _ _ Hr). split.
    - assert (Hinj : forall q q' a, In (q, a) (heap s) -> In (q', a) (heap s) -> q = q').
      { intros q q' [k p] H H'.
        assert (Hm : In (p, q) (maps s (is_list k))) by (apply (i_maps _ _ Hi); eauto).
        assert (Hm' : In (p, q') (maps s (is_list k))) by (apply (i_maps _ _ Hi); eauto).
        assert (Hn := sorted_nodup fst N.ltb N_lt_strict _ (i_sorted _ _ Hi (is_list k))).
        clear -Hn Hm Hm'. induction (maps s (is_list k)) as [|[a b] l IH]; simpl in *; [contradiction|].
        inversion Hn as [|? ? Hx Hn']; subst. destruct Hm as [Hm|Hm], Hm' as [Hm'|Hm']; auto; try congruence.
        - injection Hm as -> ->. exfalso. apply Hx. apply in_map_iff. exists (p, q'). auto.
        - injection Hm' as -> ->. exfalso. apply Hx. apply in_map_iff. exists (p, q). auto. }
      assert (Hn := i_nodup _ _ Hi). revert Hn Hinj. generalize (heap s) as h.
      induction h as [|[q a] h IH]; intros Hn Hinj; simpl; constructor.
      + intros Hin. apply in_map_iff in Hin as ([q' a'] & Ha & Hin). simpl in Ha. subst a'.
        assert (q = q') as <- by (eapply Hinj; [left; reflexivity|right; exact Hin]).
        inversion Hn as [|? ? Hx _]; subst. apply Hx. apply in_map_iff. exists (q, a). auto.
      + inversion Hn; subst. apply IH; auto. intros q1 q2 a2 Hq1 Hq2. eapply Hinj; right; eauto.
    - intros a Ha. apply in_map_iff in Ha as ([q [k p]] & <- & Ha). apply (i_heap _ _ Hi _ _ _ Ha).
  Qed.

  (** While a thread changes a map no other thread reads or changes the same map. *)
Theorem C29_no_race s t u x y b : reachable bases n s -> t <> u ->
    nth_error (threads s) t = Some x -> nth_error (threads s) u = Some y -> writes b x = true ->
    reads b y = false /\ writes b y = false.
  Proof. intros Hr Hne Hx Hy Hw. exact (other_writer bases s t u x y b (inv_reachable _ _ _ Hr) Hx Hy Hw Hne). Qed.

  (** The iterator that is dereferenced to return points at the entry of the type that was asked for. *)
Theorem C29_defined s t k p itr : reachable bases n s ->
    nth_error (threads s) t = Some (ReturnShared k p itr) \/ nth_error (threads s) t = Some (ReturnUnique k p itr) ->
    exists q, nth_error (maps s (is_list k)) itr = Some (p, q).
  Proof.
    intros Hr [H|H]; apply (i_itr _ _ (inv_reachable _ _ _ Hr) _ _ H).
  Qed.

  Lemma fresh (l : list N) : exists q, ~ In q l.
  Proof.
    exists (fold_right N.max 0%N l + 1)%N. intros H.
    assert (Hle : forall q, In q l -> (q <= fold_right N.max 0 l)%N).
    { clear. induction l as [|x l IH]; intros q; simpl; [contradiction|]. intros [->|Hq]; [lia|]. specialize (IH _ Hq). lia. }
    specialize (Hle _ H). lia.
  Qed.

  Lemma count_zero f l : (forall x, In x l -> f x = false) -> count f l = 0.
  Proof.
    unfold count. induction l as [|x l IH]; intros H; simpl; auto.
    rewrite (H x (or_introl eq_refl)). apply IH. intros y Hy. apply H. right. exact Hy.
  Qed.

  (** No deadlock: while some call has not returned, some thread that is inside a call can go on. *)
Theorem C29_never_stuck s t x : reachable bases n s -> nth_error (threads s) t = Some x -> x <> Idle ->
    exists u y s', nth_error (threads s) u = Some y /\ y <> Idle /\ step bases u s s'.
  Proof.
    intros Hr Hx Hne. assert (Hi := inv_reachable _ _ _ Hr).
    assert (Hgo : forall u y, nth_error (threads s) u = Some y -> reads true y || reads false y || (writes true y || writes false y) = true ->
             exists s', step bases u s s').
    { intros u y Hy Hb. destruct y as [|k p|k p|k p i|k p|k p|k p|k p i]; try discriminate Hb.
      - eexists. eapply st_find; eauto.
      - destruct (i_itr _ _ Hi _ _ Hy) as (q & Hq). eexists. eapply st_return_shared; eauto.
      - eexists. eapply st_unlock_shared; eauto.
      - destruct (fresh (alive bases s)) as (q & Hq).
        destruct (sv_emplace fst N.ltb (maps s (is_list k)) p (p, q)) as [m' [itr ins]] eqn:E.
        eexists. eapply st_emplace; eauto.
      - destruct (i_itr _ _ Hi _ _ Hy) as (q & Hq). eexists. eapply st_return_unique; eauto. }
    destruct (existsb (fun y => reads true y || reads false y || (writes true y || writes false y)) (threads s)) eqn:E.
    - apply existsb_exists in E as (y & Hin & Hy). apply In_nth_error in Hin as (u & Hu).
      destruct (Hgo u y Hu Hy) as (s' & Hs). exists u, y, s'. split; [exact Hu|]. split; [|exact Hs].
      intros ->. discriminate Hy.
    - assert (Hf : forall y, In y (threads s) -> reads true y || reads false y || (writes true y || writes false y) = false).
      { intros y Hy. destruct (reads true y || reads false y || (writes true y || writes false y)) eqn:Ey; [|reflexivity].
        exfalso. assert (existsb (fun y => reads true y || reads false y || (writes true y || writes false y)) (threads s) = true)
          by (apply existsb_exists; eauto). congruence. }
      assert (H0 : forall b, readers (locks s b) = 0 /\ writer (locks s b) = false).
      { intros b. split.
        - rewrite (i_readers _ _ Hi). apply count_zero. intros y Hy. apply Hf in Hy. rewrite !orb_false_iff in Hy. destruct b; tauto.
        - assert (Hw := i_writers _ _ Hi b). rewrite count_zero in Hw; [destruct (writer (locks s b)); [discriminate|reflexivity]|].
          intros y Hy. apply Hf in Hy. rewrite !orb_false_iff in Hy. destruct b; tauto. }
      destruct x as [|k p|k p|k p i|k p|k p|k p|k p i]; try congruence;
        try (destruct (Hgo t _ Hx) as (s' & Hs); [simpl; destruct k; reflexivity|]; eauto 8).
      + destruct (H0 (is_list k)). exists t, (LockShared k p). eexists. split; [exact Hx|]. split; [discriminate|]. eapply st_lock_shared; eauto.
      + destruct (H0 (is_list k)). exists t, (LockUnique k p). eexists. split; [exact Hx|]. split; [discriminate|]. eapply st_lock_unique; eauto.
  Qed.

  (** What is left to do. *)
  Definition left_in (x : pc) : nat :=
    match x with Idle => 0 | LockShared _ _ => 6 | Find _ _ => 5 | UnlockShared _ _ => 4 | LockUnique _ _ => 3 | Emplace _ _ => 2
               | ReturnShared _ _ _ | ReturnUnique _ _ _ => 1 end.
  Definition left_over (s : state) : nat := list_sum (map left_in (threads s)).

  Lemma left_set l : forall t a x, nth_error l t = Some a ->
    list_sum (map left_in (set_nth l t x)) + left_in a = list_sum (map left_in l) + left_in x.
  Proof.
    induction l as [|y l IH]; intros [|t] a x H; simpl in *; try discriminate.
    - injection H as ->. lia.
    - specialize (IH _ _ x H). unfold list_sum in *. lia.
  Qed.

  (** Every call ends: each step of a thread inside a call leaves less to do, a call adds at most 6 steps. *)
Theorem C29_ends s t s' : step bases t s s' ->
    (asked s' = asked s /\ left_over s' < left_over s)
    \/ (length (asked s') = S (length (asked s)) /\ left_over s' = left_over s + 6).
  Proof.
    intros Hs. unfold left_over.
    destruct Hs as [t s k p Hx Hp Hk|t s k p Hx Hw|t s k p Hx m itr|t s k p itr p' q Hx Hn|t s k p Hx|t s k p Hx Hr Hw|t s k p q m' itr ins Hx Hq He|t s k p itr p' q Hx Hn];
      simpl; [right; rewrite app_length; simpl|left; split; [reflexivity|]..].
    - split; [lia|]. pose proof (left_set _ _ _ (LockShared k p) Hx). simpl in *. lia.
    - pose proof (left_set _ _ _ (Find k p) Hx). simpl in *. lia.
    - pose proof (left_set _ _ _ (if Nat.eqb itr (length m) then UnlockShared k p else ReturnShared k p itr) Hx).
      destruct (Nat.eqb itr (length m)); simpl in *; lia.
    - pose proof (left_set _ _ _ Idle Hx). simpl in *. lia.
    - pose proof (left_set _ _ _ (LockUnique k p) Hx). simpl in *. lia.
    - pose proof (left_set _ _ _ (Emplace k p) Hx). simpl in *. lia.
    - pose proof (left_set _ _ _ (ReturnUnique k p itr) Hx). simpl in *. lia.
    - pose proof (left_set _ _ _ Idle Hx). simpl in *. lia.
  Qed.

  Definition inside (l : list pc) : list (type_kind * N) := flat_map (fun x => match pending x with Some a => [a] | None => [] end) l.

  Lemma inside_set l : forall t a x, nth_error l t = Some a ->
    Permutation (inside (set_nth l t x) ++ match pending a with Some c => [c] | None => [] end)
                (inside l ++ match pending x with Some c => [c] | None => [] end).
  Proof.
    assert (Hc : forall y l, inside (y :: l) = match pending y with Some c => [c] | None => [] end ++ inside l) by reflexivity.
    induction l as [|y l IH]; intros [|t] a x H; cbn [set_nth nth_error] in *; try discriminate; rewrite !Hc.
    - injection H as ->. rewrite <- !app_assoc. etransitivity; [apply Permutation_app_comm|]. rewrite <- app_assoc.
      apply Permutation_app_swap_app.
    - specialize (IH _ _ x H). rewrite <- !app_assoc. apply Permutation_app_head. exact IH.
  Qed.

  (** Every call that was made is answered once or still inside: when no thread is inside a call, the calls that were
      answered are exactly the calls that were made. *)
Theorem C29_answered s : reachable bases n s ->
    Permutation (map fst (answers s) ++ inside (threads s)) (asked s).
  Proof.
    intros Hr. induction Hr as [|s t s' Hr IH Hs].
    - simpl. assert (inside (repeat Idle n) = []) as -> by (unfold inside; induction n; simpl; auto). constructor.
    - destruct Hs as [t s k p Hx Hp Hk|t s k p Hx Hw|t s k p Hx m itr|t s k p itr p' q Hx Hn|t s k p Hx|t s k p Hx Hr' Hw|t s k p q m' itr ins Hx Hq He|t s k p itr p' q Hx Hn]; simpl.
      + rewrite <- IH, <- app_assoc. apply Permutation_app_head. pose proof (inside_set _ _ _ (LockShared k p) Hx) as H. simpl in H.
        rewrite app_nil_r in H. exact H.
      + rewrite <- IH. apply Permutation_app_head. pose proof (inside_set _ _ _ (Find k p) Hx) as H. simpl in H.
        eapply Permutation_app_inv_r; exact H.
      + rewrite <- IH. apply Permutation_app_head.
        pose proof (inside_set _ _ _ (if Nat.eqb itr (length m) then UnlockShared k p else ReturnShared k p itr) Hx) as H.
        destruct (Nat.eqb itr (length m)); simpl in H; eapply Permutation_app_inv_r; exact H.
      + rewrite <- IH. rewrite map_app, <- app_assoc. apply Permutation_app_head. simpl.
        pose proof (inside_set _ _ _ Idle Hx) as H. simpl in H. rewrite app_nil_r, Permutation_app_comm in H. exact H.
      + rewrite <- IH. apply Permutation_app_head. pose proof (inside_set _ _ _ (LockUnique k p) Hx) as H. simpl in H.
        eapply Permutation_app_inv_r; exact H.
      + rewrite <- IH. apply Permutation_app_head. pose proof (inside_set _ _ _ (Emplace k p) Hx) as H. simpl in H.
        eapply Permutation_app_inv_r; exact H.
      + rewrite <- IH. apply Permutation_app_head. pose proof (inside_set _ _ _ (ReturnUnique k p itr) Hx) as H. simpl in H.
        eapply Permutation_app_inv_r; exact H.
      + rewrite <- IH. rewrite map_app, <- app_assoc. apply Permutation_app_head. simpl.
        pose proof (inside_set _ _ _ Idle Hx) as H. simpl in H. rewrite app_nil_r, Permutation_app_comm in H. exact H.
  Qed.
End Props.

(** Two threads miss the same wrapper with the shared lock, both go on to make one; the second finds the first's. A third call
    asks for the list of that wrapper. *)
Ltac forth t tac :=
  match goal with H : reachable ?b ?n _ |- _ =>
    let H' := fresh in eassert (H' : reachable b n _) by (eapply (re_step b n _ t _ H); tac); clear H; cbv in H' end.

Example C29_race : exists s, reachable [7%N] 2 s
  /\ answers s = [(NON_NULL, 7, 100); (NON_NULL, 7, 100); (LIST, 100, 101)]%N /\ heap s = [(100, (NON_NULL, 7)); (101, (LIST, 100))]%N.
Proof.
  assert (H := re_start [7%N] 2). cbv in H.
  forth 0 ltac:(apply (st_call _ _ _ NON_NULL 7%N); [reflexivity|left; reflexivity|auto]).
  forth 1 ltac:(apply (st_call _ _ _ NON_NULL 7%N); [reflexivity|left; reflexivity|auto]).
  forth 1 ltac:(eapply st_lock_shared; reflexivity).
  forth 0 ltac:(eapply st_lock_shared; reflexivity).
  forth 1 ltac:(eapply st_find; reflexivity).
  forth 0 ltac:(eapply st_find; reflexivity).
  forth 1 ltac:(eapply st_unlock_shared; reflexivity).
  forth 0 ltac:(eapply st_unlock_shared; reflexivity).
  forth 0 ltac:(eapply st_lock_unique; reflexivity).
  forth 0 ltac:(eapply (st_emplace _ _ _ _ _ 100%N); [reflexivity|simpl; lia|reflexivity]).
  forth 0 ltac:(eapply st_return_unique; reflexivity).
  forth 1 ltac:(eapply st_lock_unique; reflexivity).
  forth 1 ltac:(eapply (st_emplace _ _ _ _ _ 101%N); [reflexivity|simpl; lia|reflexivity]).
  forth 1 ltac:(eapply st_return_unique; reflexivity).
  forth 0 ltac:(apply (st_call _ _ _ LIST 100%N); [reflexivity|right; left; reflexivity|auto]).
  forth 0 ltac:(eapply st_lock_shared; reflexivity).
  forth 0 ltac:(eapply st_find; reflexivity).
  forth 0 ltac:(eapply st_unlock_shared; reflexivity).
  forth 0 ltac:(eapply st_lock_unique; reflexivity).
  forth 0 ltac:(eapply (st_emplace _ _ _ _ _ 101%N); [reflexivity|simpl; lia|reflexivity]).
  forth 0 ltac:(eapply st_return_unique; reflexivity).
  match goal with H : reachable _ _ ?s |- _ => exists s; split; [exact H|split; reflexivity] end.
Qed.

Print Assumptions C29_interned.
Print Assumptions C29_distinct.
Print Assumptions C29_wrapper.
Print Assumptions C29_bounded.
Print Assumptions C29_no_race.
Print Assumptions C29_defined.
Print Assumptions C29_never_stuck.
Print Assumptions C29_ends.
Print Assumptions C29_answered.
