From Verif Require Import Cpp Ast SortedMapModel SortedMapSpec SortedMapProofs SchemaModel RegistryModel RegistrySpec.
From Coq Require Import Lia Permutation.
Local Open Scope list_scope.

(** * Objects *)
Lemma nth_update {A} (l : list A) : forall i j f, nth_error (update l i f) j = if Nat.eqb i j then option_map f (nth_error l j) else nth_error l j.
Proof. induction l as [|x l IH]; intros [|i] [|j] f; simpl; auto. - destruct (Nat.eqb i j); reflexivity. Qed.

Lemma update_length {A} (l : list A) : forall i f, length (update l i f) = length l.
Proof. induction l as [|x l IH]; intros [|i] f; simpl; auto. Qed.

Definition same_identity (o o' : type_obj) : Prop :=
  to_kind o = to_kind o' /\ to_name o = to_name o' /\ to_desc o = to_desc o' /\ to_of o = to_of o'.

(** What one call does to an object. *)
Definition effect (c : call) (t : address) (o : type_obj) : type_obj :=
  match c with
  | AddInterfaces a is =>
      let o1 := if Nat.eqb a t then set_interfaces is o else o in
      set_possible (to_possible o1 ++ repeat a (length (filter (Nat.eqb t) is))) o1
  | AddFields a fs => if Nat.eqb a t then set_fields fs o else o
  | AddPossibleTypes a ps => if Nat.eqb a t then set_possible ps o else o
  | AddEnumValues a vs => if Nat.eqb a t then set_enums vs o else o
  | AddInputValues a vs => if Nat.eqb a t then set_inputs vs o else o
  | _ => o
  end.

Lemma effect_identity c t o : same_identity o (effect c t o).
Proof. destruct c; simpl; try (repeat split; reflexivity); destruct (Nat.eqb _ t); repeat split; reflexivity. Qed.

Lemma set_possible_same o : set_possible (to_possible o) o = o.
Proof. destruct o. reflexivity. Qed.
Lemma map_same vs : map (fun v => mkEnumValue (ev_name v) (ev_desc v) (ev_deprecated v)) vs = vs.
Proof. induction vs as [|[n d p] vs IH]; simpl; [|rewrite IH]; reflexivity. Qed.

Lemma fold_interfaces a is : forall r t o, object_at r t = Some o ->
  object_at (fold_left (fun r i => on r i (add_possible a)) is r) t
  = Some (set_possible (to_possible o ++ repeat a (length (filter (Nat.eqb t) is))) o).
Proof.
  induction is as [|i is IH]; intros r t o Ho; simpl.
  - rewrite app_nil_r, set_possible_same. exact Ho.
  - assert (Hs : object_at (on r i (add_possible a)) t = Some (if Nat.eqb i t then add_possible a o else o)).
    { unfold object_at, on. simpl. rewrite nth_update. unfold object_at in Ho. rewrite Ho. destruct (Nat.eqb i t); reflexivity. }
    rewrite (IH _ _ _ Hs). f_equal. rewrite (Nat.eqb_sym t i). destruct (Nat.eqb i t); simpl; [|reflexivity].
    rewrite <- app_assoc. reflexivity.
Qed.

Lemma fold_interfaces_length a is : forall r, length (heap (fold_left (fun r i => on r i (add_possible a)) is r)) = length (heap r).
Proof. induction is as [|i is IH]; intros r; simpl; [reflexivity|]. rewrite IH. apply update_length. Qed.

Lemma exec_object r c t o : object_at r t = Some o -> object_at (exec r c) t = Some (effect c t o).
Proof.
  intros Ho. assert (Hlt : t < length (heap r)) by (apply nth_error_Some; unfold object_at in Ho; congruence).
  assert (Hon : forall a f, object_at (on r a f) t = Some (if Nat.eqb a t then f o else o)).
  { intros a f. unfold object_at, on. simpl. rewrite nth_update. unfold object_at in Ho. rewrite Ho. destruct (Nat.eqb a t); reflexivity. }
  destruct c; simpl; auto.
  - unfold object_at in *. simpl. rewrite nth_error_app1; auto.
  - rewrite (fold_interfaces object interfaces _ _ _ (Hon object (set_interfaces interfaces))).
    destruct (Nat.eqb object t); reflexivity.
  - rewrite map_same. auto.
  - unfold wrap_type. destruct (smap_find _ _ _); simpl; auto. unfold object_at in *. simpl. rewrite nth_error_app1; auto.
Qed.

Lemma fold_interfaces_rest a is : forall r,
  let r' := fold_left (fun r i => on r i (add_possible a)) is r in
  no_introspection r' = no_introspection r /\ query r' = query r /\ mutation r' = mutation r /\ subscription r' = subscription r
  /\ type_map r' = type_map r /\ types r' = types r /\ directives r' = directives r /\ wrappers r' = wrappers r.
Proof. induction is as [|i is IH]; intros r; simpl in *; [auto 10|]. specialize (IH (on r i (add_possible a))). simpl in IH. exact IH. Qed.

(** * The index of the types *)
Definition indexed (ts : list (string * address)) (m : list (string * nat)) : Prop :=
  sorted fst shorter_or_less m /\
  forall n, match a_find string_dec m n with
            | Some i => exists t, nth_error ts i = Some (n, t) /\ ~ In n (map fst (skipn (S i) ts))
            | None => ~ In n (map fst ts)
            end.

Lemma a_find_set (m : list (string * nat)) k v n :
  a_find string_dec (a_set string_dec m k v) n = if string_dec n k then Some v else a_find string_dec m n.
Proof.
  induction m as [|[k' v'] m IH]; simpl.
  - destruct (string_dec n k); reflexivity.
  - destruct (string_dec k k') as [<-|Hne]; simpl.
    + destruct (string_dec n k); reflexivity.
    + rewrite IH. destruct (string_dec n k') as [->|]; [|reflexivity]. destruct (string_dec k' k); [congruence|reflexivity].
Qed.

Lemma indexed_add ts m n t : indexed ts m -> indexed (ts ++ [(n, t)]) (smap_assign shorter_or_less 0 m n (length ts)).
Proof.
  intros [Hs Hf]. destruct (smap_assign_ok shorter_or_less shorter_or_less_strict 0 string_dec m n (length ts) Hs) as [Hs' Hp].
  split; [exact Hs'|]. intros x.
  rewrite (a_find_perm string_dec _ _ x (sorted_nodup fst shorter_or_less shorter_or_less_strict _ Hs') Hp), a_find_set.
  destruct (string_dec x n) as [->|Hne].
  - exists t. rewrite nth_error_app2, Nat.sub_diag by lia. split; [reflexivity|].
    rewrite skipn_all2; [simpl; tauto|]. rewrite app_length. simpl. lia.
  - specialize (Hf x). destruct (a_find string_dec m x) as [i|].
    + destruct Hf as (t' & Hn & Hni). exists t'. assert (i < length ts) by (apply nth_error_Some; congruence).
      rewrite nth_error_app1 by auto. split; [exact Hn|]. rewrite skipn_app, map_app, in_app_iff. intros [H'|H']; [auto|].
      replace (S i - length ts) with 0 in H' by lia. simpl in H'. destruct H' as [H'|[]]. congruence.
    + rewrite map_app, in_app_iff. simpl. intros [H'|[H'|[]]]; [auto|congruence].
Qed.

(** * The invariant *)
Definition kind_of_map (b : bool) : type_kind := if b then LIST else NON_NULL.
Record inv (r : registry) : Prop := mkInv {
  i_index : indexed (types r) (type_map r);
  i_sorted : forall b, sorted fst Nat.ltb (wrappers r b);
  i_wrappers : forall b p w, In (p, w) (wrappers r b) <-> exists o, object_at r w = Some o /\ to_kind o = kind_of_map b /\ to_of o = Some p;
  i_plain : forall t o, object_at r t = Some o -> ~ is_wrapper (to_kind o) -> to_of o = None;
  i_of : forall t o, object_at r t = Some o -> is_wrapper (to_kind o) -> exists p, to_of o = Some p /\ p < t;
  i_types : forall n t, In (n, t) (types r) -> plain_at r t
}.

Lemma object_back r c t o : object_at r t = Some o -> forall o', object_at (exec r c) t = Some o' -> same_identity o o'.
Proof. intros Ho o' Ho'. rewrite (exec_object r c t o Ho) in Ho'. injection Ho' as <-. apply effect_identity. Qed.

Lemma heap_length r c : length (heap (exec r c)) = length (heap r) \/ exists x, heap (exec r c) = heap r ++ [x].
Proof.
  destruct c; simpl; auto; try (left; apply update_length).
  - right. eauto.
  - left. rewrite fold_interfaces_length. apply update_length.
  - unfold wrap_type. destruct (smap_find _ _ _); simpl; auto. right. eauto.
Qed.

(** Calls that leave the maps alone and make no objects. *)
Lemma inv_quiet r r' : inv r -> types r' = types r -> type_map r' = type_map r -> wrappers r' = wrappers r ->
  (forall t o, object_at r t = Some o -> exists o', object_at r' t = Some o' /\ same_identity o o') ->
  length (heap r') = length (heap r) -> inv r'.
Proof.
  intros Hi Ht Hm Hw Ho Hl.
  assert (Hb : forall t o', object_at r' t = Some o' -> exists o, object_at r t = Some o /\ same_identity o o').
  { intros t o' H'. destruct (object_at r t) as [o|] eqn:E.
    - exists o. split; [reflexivity|]. destruct (Ho t o E) as (o2 & H2 & Hs). rewrite H' in H2. injection H2 as <-. exact Hs.
    - exfalso. unfold object_at in *. apply nth_error_None in E. assert (t < length (heap r')) by (apply nth_error_Some; congruence). lia. }
  constructor.
  - rewrite Ht, Hm. apply Hi.
  - intros b. rewrite Hw. apply Hi.
  - intros b p w. rewrite Hw, (i_wrappers _ Hi). split.
    + intros (o & H1 & H2 & H3). destruct (Ho w o H1) as (o' & H' & (Hk & _ & _ & Hf)). exists o'. repeat split; congruence.
    + intros (o' & H1 & H2 & H3). destruct (Hb w o' H1) as (o & H' & (Hk & _ & _ & Hf)). exists o. repeat split; congruence.
  - intros t o' H' Hk. destruct (Hb t o' H') as (o & H & (H1 & _ & _ & H4)). rewrite <- H4. apply (i_plain _ Hi t o H). congruence.
  - intros t o' H' Hk. destruct (Hb t o' H') as (o & H & (H1 & _ & _ & H4)). rewrite <- H4. apply (i_of _ Hi t o H). congruence.
  - intros n t H. rewrite Ht in H. destruct (i_types _ Hi n t H) as (o & H1 & H2). destruct (Ho t o H1) as (o' & H' & (H3 & _)).
    exists o'. split; [exact H'|congruence].
Qed.

Lemma object_app r x t o : nth_error (heap r ++ [x]) t = Some o -> object_at r t = Some o \/ (t = length (heap r) /\ o = x).
Proof.
  intros H. destruct (Nat.lt_ge_cases t (length (heap r))) as [Hlt|Hge].
  - rewrite nth_error_app1 in H by auto. left. exact H.
  - rewrite nth_error_app2 in H by auto. destruct (t - length (heap r)) as [|d] eqn:E; simpl in H.
    + right. injection H as <-. split; [lia|reflexivity].
    + destruct d; discriminate.
Qed.

Lemma object_old r x t o : object_at r t = Some o -> nth_error (heap r ++ [x]) t = Some o.
Proof. intros H. rewrite nth_error_app1; [exact H|]. apply nth_error_Some. unfold object_at in H. congruence. Qed.

Lemma inv_exec r c : inv r -> allowed r c -> inv (exec r c).
Proof.
  intros Hi Ha.
  assert (Hquiet : forall r', r' = exec r c -> types r' = types r -> type_map r' = type_map r -> wrappers r' = wrappers r ->
            length (heap r') = length (heap r) -> inv r').
  { intros r' -> H1 H2 H3 H4. apply (inv_quiet r); auto.
    intros t o Ho. exists (effect c t o). split; [apply exec_object; auto|apply effect_identity]. }
  destruct c as [k n d|n t|t|t|t|d|a is|t fs|t ps|t vs|t vs|k p]; simpl in Ha;
    try solve [apply Hquiet; simpl; auto using update_length].
  - (* Make *)
    constructor; simpl; try apply Hi.
    + intros b p w. rewrite (i_wrappers _ Hi). split.
      * intros (o & H1 & H2). exists o. split; [apply object_old; exact H1|exact H2].
      * intros (o & H1 & H2 & H3). apply object_app in H1 as [H1|[-> ->]]; [eauto|]. discriminate.
    + intros t o H Hk. apply object_app in H as [H|[-> ->]]; [eapply i_plain; eauto|reflexivity].
    + intros t o H Hk. apply object_app in H as [H|[-> ->]]; [eapply i_of; eauto|]. contradiction.
    + intros n' t H. destruct (i_types _ Hi n' t H) as (o & H1 & H2). exists o. split; [apply object_old; exact H1|exact H2].
  - (* AddType *)
    constructor; simpl; try apply Hi.
    + apply indexed_add. apply Hi.
    + intros n' t' H. apply in_app_or in H as [H|[H|[]]]; [apply (i_types _ Hi n' t' H)|]. injection H as <- <-. exact Ha.
  - (* AddInterfaces *) destruct (fold_interfaces_rest a is (on r a (set_interfaces is))) as (_ & _ & _ & _ & H1 & H2 & _ & H3).
    apply Hquiet; auto. simpl. rewrite fold_interfaces_length. apply update_length.
  - (* WrapType *)
    destruct Ha as [Hk (op & Hp)]. simpl.
    set (b := match k with LIST => true | _ => false end).
    assert (Hkb : k = kind_of_map b) by (unfold b; destruct Hk as [->| ->]; reflexivity).
    unfold wrap_type. cbv zeta. fold b.
    destruct (smap_find Nat.ltb (wrappers r b) p) as [w|] eqn:E; [exact Hi|].
    rewrite (smap_find_ok Nat.ltb nat_lt_strict Nat.eq_dec _ _ (i_sorted _ Hi b)) in E. apply a_find_none in E.
    destruct (emplace_absent fst Nat.ltb nat_lt_strict _ (p, length (heap r)) (i_sorted _ Hi b) E) as (l1 & l2 & Hm & Hem & Hs).
    cbn [fst] in Hem. cbn [fst]. unfold smap_emplace. rewrite Hem. cbn [fst].
    assert (Hplt : p < length (heap r)) by (apply nth_error_Some; unfold object_at in Hp; congruence).
    constructor; simpl; try apply Hi.
    + intros b'. destruct (Bool.eqb b b'); [exact Hs|apply Hi].
    + intros b' p' w. destruct (Bool.eqb b b') eqn:Eb.
      * apply eqb_prop in Eb. subst b'. pose proof (i_wrappers _ Hi b p' w) as Hw. rewrite Hm, in_app_iff in Hw.
        rewrite in_app_iff. simpl. split.
        -- intros H. assert (H' : (p', w) = (p, length (heap r)) \/ (In (p', w) l1 \/ In (p', w) l2)) by (destruct H as [H|[H|H]]; auto).
           destruct H' as [H'|H'].
           ++ injection H' as -> ->. exists (fresh_type k "" "" (Some p)). unfold object_at. simpl.
              rewrite nth_error_app2, Nat.sub_diag by lia. simpl. repeat split. exact Hkb.
           ++ apply Hw in H' as (o & H1 & H2). exists o. split; [apply object_old; exact H1|exact H2].
        -- intros (o & H1 & H2 & H3). unfold object_at in H1. simpl in H1. apply object_app in H1 as [H1|[-> ->]].
           ++ assert (In (p', w) l1 \/ In (p', w) l2) by (apply Hw; eauto). tauto.
           ++ simpl in H3. injection H3 as ->. auto.
      * rewrite (i_wrappers _ Hi). split.
        -- intros (o & H1 & H2). exists o. split; [apply object_old; exact H1|exact H2].
        -- intros (o & H1 & H2 & H3). unfold object_at in H1. simpl in H1. apply object_app in H1 as [H1|[-> ->]]; [eauto|].
           simpl in H2. rewrite Hkb in H2. exfalso. destruct b, b'; simpl in *; congruence.
    + intros t o H Hk'. apply object_app in H as [H|[-> ->]]; [eapply i_plain; eauto|]. contradiction.
    + intros t o H Hk'. apply object_app in H as [H|[-> ->]]; [eapply i_of; eauto|]. exists p. auto.
    + intros n' t H. destruct (i_types _ Hi n' t H) as (o & H1 & H2). exists o. split; [apply object_old; exact H1|exact H2].
Qed.

Lemma inv_after b h r : after b h r -> inv r.
Proof.
  induction 1 as [|h r c H IH Ha].
  - constructor; simpl; try tauto.
    + split; [constructor|]. intros n. simpl. tauto.
    + intros b0. constructor.
    + intros b0 p w. split; [intros []|intros (o & H & _); unfold object_at in H; simpl in H; destruct w; discriminate].
    + intros t o H. unfold object_at in H. simpl in H. destruct t; discriminate.
    + intros t o H. unfold object_at in H. simpl in H. destruct t; discriminate.
  - apply inv_exec; auto.
Qed.
