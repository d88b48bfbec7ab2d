(** C30: what is added to a schema is what it answers. *)
From Verif Require Import Cpp Ast SortedMapModel SortedMapSpec SortedMapProofs SchemaModel RegistryModel RegistrySpec RegistryProofs.
From Coq Require Import Lia Permutation.
Local Open Scope string_scope.
Local Open Scope list_scope.

(** types(): all that was added, in order, also a name that is added again. *)
Theorem C30_types : forall b h r, after b h r -> types r = added h.
Proof.
  induction 1 as [|h r c H IH Ha]; [reflexivity|]. unfold added. rewrite flat_map_app. fold (added h). rewrite <- IH.
  destruct c; simpl; rewrite ?app_nil_r; auto.
  - destruct (fold_interfaces_rest object interfaces (on r object (set_interfaces interfaces))) as (_ & _ & _ & _ & _ & H2 & _).
    simpl in H2. exact H2.
  - unfold wrap_type. destruct (smap_find _ _ _); reflexivity.
Qed.

Lemma lookup_cases b h r n : after b h r ->
  (exists t before later, added h = before ++ (n, t) :: later /\ ~ In n (map fst later) /\ lookup_type r n = Ok t)
  \/ (~ In n (map fst (added h)) /\
      lookup_type r n = Throw (SchemaEx [mkErr ("Type not found" ++ (if String.eqb n "" then "" else " name: " ++ n)) (mkLoc 0 1) []])).
Proof.
  intros H. assert (Hi := inv_after _ _ _ H). rewrite <- (C30_types _ _ _ H). destruct (i_index _ Hi) as [Hs Hf].
  unfold lookup_type. rewrite (smap_find_ok shorter_or_less shorter_or_less_strict string_dec _ _ Hs). specialize (Hf n).
  destruct (a_find string_dec (type_map r) n) as [i|]; [left|right; auto].
  destruct Hf as (t & Hn & Hl). exists t, (firstn i (types r)), (skipn (S i) (types r)). rewrite Hn. repeat split; auto.
  clear -Hn. revert i Hn. induction (types r) as [|x l IH]; intros [|i] Hn; simpl in *; try discriminate; [congruence|].
  f_equal. apply IH. exact Hn.
Qed.

(** LookupType(name) gives the type that was added last under that name. *)
Theorem C30_lookup : forall b h r n t, after b h r ->
  (lookup_type r n = Ok t <-> exists before later, added h = before ++ (n, t) :: later /\ ~ In n (map fst later)).
Proof.
  intros b h r n t H. split.
  - intros Hl. destruct (lookup_cases b h r n H) as [(t' & before & later & H1 & H2 & H3)|[_ H3]]; rewrite H3 in Hl; [|discriminate].
    injection Hl as <-. eauto.
  - intros (before & later & H1 & H2). destruct (lookup_cases b h r n H) as [(t' & before' & later' & H1' & H2' & H3)|[Hn _]].
    + rewrite H3. f_equal. rewrite H1 in H1'. clear -H1' H2 H2'. revert before' H1'. induction before as [|x before IH]; intros [|y before'] E; simpl in E.
      * congruence.
      * injection E as <- E. exfalso. apply H2. rewrite E, map_app, in_app_iff. simpl. auto.
      * injection E as -> E. exfalso. apply H2'. rewrite <- E, map_app, in_app_iff. simpl. auto.
      * injection E as -> E. eauto.
    + exfalso. apply Hn. rewrite H1, map_app, in_app_iff. simpl. auto.
Qed.

(** A name that was not added gives a schema_exception that names it; nothing else can happen. *)
Theorem C30_lookup_unknown : forall b h r n, after b h r -> ~ In n (map fst (added h)) ->
  lookup_type r n = Throw (SchemaEx [mkErr ("Type not found" ++ (if String.eqb n "" then "" else " name: " ++ n)) (mkLoc 0 1) []]).
Proof.
  intros b h r n H Hn. destruct (lookup_cases b h r n H) as [(t & before & later & H1 & _)|[_ H3]]; [|exact H3].
  exfalso. apply Hn. rewrite H1, map_app, in_app_iff. simpl. auto.
Qed.
Theorem C30_lookup_defined : forall b h r n, after b h r -> lookup_type r n <> UB /\ forall c w, lookup_type r n <> Throw (Exn c w).
Proof.
  intros b h r n H. destruct (lookup_cases b h r n H) as [(t & before & later & _ & _ & E)|[_ E]]; rewrite E; split; intros; discriminate.
Qed.

Lemma last_snoc {A} (f : call -> option A) h c : last_of f (h ++ [c]) = match f c with Some x => Some x | None => last_of f h end.
Proof. unfold last_of. rewrite fold_left_app. reflexivity. Qed.

(** queryType(), mutationType(), subscriptionType(), directives(), supportsIntrospection(). *)
Theorem C30_roots : forall b h r, after b h r ->
  query r = last_of (fun c => match c with AddQueryType t => Some t | _ => None end) h
  /\ mutation r = last_of (fun c => match c with AddMutationType t => Some t | _ => None end) h
  /\ subscription r = last_of (fun c => match c with AddSubscriptionType t => Some t | _ => None end) h
  /\ directives r = flat_map (fun c => match c with AddDirective d => [d] | _ => [] end) h
  /\ supports_introspection r = negb b.
Proof.
  induction 1 as [|h r c H (H1 & H2 & H3 & H4 & H5) Ha]; [repeat split; reflexivity|].
  rewrite !last_snoc, flat_map_app. simpl. rewrite <- H1, <- H2, <- H3, <- H4, <- H5.
  destruct c; simpl; rewrite ?app_nil_r; auto 10.
  - destruct (fold_interfaces_rest object interfaces (on r object (set_interfaces interfaces))) as (E1 & E2 & E3 & E4 & _ & _ & E5 & _).
    unfold supports_introspection. simpl in *. rewrite E1, E2, E3, E4, E5. auto 10.
  - unfold wrap_type. destruct (smap_find _ _ _); simpl; auto 10.
Qed.

(** A type object keeps its kind, name, description and wrapped type; its members are those of the last call that set them.
    A new object has none. *)
Theorem C30_made : forall b h r k n d, after b (h ++ [Make k n d]) r ->
  exists t o, object_at r t = Some o /\ length (heap r) = S t /\ to_kind o = k /\ to_name o = n /\ to_desc o = d.
Proof.
  intros b h r k n d H. inversion H as [|h' r' c' H' Ha E1 E2].
  - destruct h; discriminate.
  - apply app_inj_tail in E1 as [-> ->]. simpl. exists (length (heap r')), (fresh_type k n d None). unfold object_at. simpl.
    rewrite nth_error_app2, Nat.sub_diag, app_length by lia. simpl. repeat split. lia.
Qed.
Theorem C30_identity : forall b h r c t o, after b (h ++ [c]) (exec r c) -> object_at r t = Some o ->
  exists o', object_at (exec r c) t = Some o' /\ to_kind o' = to_kind o /\ to_name o' = to_name o /\ to_desc o' = to_desc o /\ to_of o' = to_of o.
Proof.
  intros b h r c t o _ Ho. exists (effect c t o). split; [apply exec_object; auto|].
  destruct (effect_identity c t o) as (H1 & H2 & H3 & H4). auto.
Qed.

Lemma no_call_yet b h r : after b h r -> forall t, length (heap r) <= t ->
  (forall fs, ~ In (AddFields t fs) h) /\ (forall is, ~ In (AddInterfaces t is) h) /\ (forall vs, ~ In (AddEnumValues t vs) h)
  /\ (forall vs, ~ In (AddInputValues t vs) h) /\ (forall ps, ~ In (AddPossibleTypes t ps) h)
  /\ forall a is, In (AddInterfaces a is) h -> ~ In t is.
Proof.
  induction 1 as [|h r c H IH Ha]; intros t Ht; [simpl; repeat split; auto|].
  assert (Ht' : length (heap r) <= t).
  { destruct (heap_length r c) as [E|[x E]]; rewrite E in Ht; [auto|]. rewrite app_length in Ht. simpl in Ht. lia. }
  assert (Hno : forall k, ~ kind_at r t k).
  { intros k (o & Ho & _). unfold object_at in Ho. assert (t < length (heap r)) by (apply nth_error_Some; congruence). lia. }
  destruct (IH t Ht') as (I1 & I2 & I3 & I4 & I5 & I6).
  assert (S : forall x, In x (h ++ [c]) -> In x h \/ c = x) by (intros x Hx; apply in_app_or in Hx as [Hx|[Hx|[]]]; auto).
  repeat split; intros; intros Hx.
  - apply S in Hx as [Hx| ->]; [exact (I1 _ Hx)|]. simpl in Ha. destruct Ha as [Ha|Ha]; exact (Hno _ Ha).
  - apply S in Hx as [Hx| ->]; [exact (I2 _ Hx)|]. simpl in Ha. destruct Ha as [Ha _]; exact (Hno _ Ha).
  - apply S in Hx as [Hx| ->]; [exact (I3 _ Hx)|]. exact (Hno _ Ha).
  - apply S in Hx as [Hx| ->]; [exact (I4 _ Hx)|]. exact (Hno _ Ha).
  - apply S in Hx as [Hx| ->]; [exact (I5 _ Hx)|]. exact (Hno _ Ha).
  - apply S in H0 as [H0| ->]; [exact (I6 _ _ H0 Hx)|]. simpl in Ha. destruct Ha as [_ Ha]; exact (Hno _ (Ha _ Hx)).
Qed.

Lemma last_none {A} (f : call -> option A) h : (forall c, In c h -> f c = None) -> last_of f h = None.
Proof.
  induction h as [|c h IH] using rev_ind; intros H; [reflexivity|]. rewrite last_snoc, H, IH; auto.
  - intros x Hx. apply H. apply in_or_app. auto.
  - apply in_or_app. simpl. auto.
Qed.

Lemma filter_none t (is : list address) : ~ In t is -> filter (Nat.eqb t) is = [].
Proof.
  induction is as [|x is IH]; intros H; simpl; [reflexivity|]. simpl in H. destruct (Nat.eqb_spec t x) as [->|]; [exfalso; apply H; left; reflexivity|]. apply IH. tauto.
Qed.

Lemma flat_map_nil_all' {A B} (f : A -> list B) l : (forall x, In x l -> f x = []) -> flat_map f l = [].
Proof. induction l as [|x l IH]; intros H; simpl; [reflexivity|]. rewrite H by (left; reflexivity). apply IH. intros y Hy. apply H. right. exact Hy. Qed.

Lemma members_new h r b t : after b h r -> length (heap r) <= t -> forall k n d of, members h t (fresh_type k n d of).
Proof.
  intros H Ht k n d of. destruct (no_call_yet _ _ _ H t Ht) as (I1 & I2 & I3 & I4 & I5 & I6).
  unfold members, fresh_type. simpl.
  rewrite !last_none.
  - repeat split; auto. intros _. unfold implemented_by. symmetry. induction h as [|c h IH'] using rev_ind; [reflexivity|].
    clear IH'. apply flat_map_nil_all'. intros c' Hc. destruct c'; auto. rewrite filter_none; [reflexivity|]. eapply I6; eauto.
  - intros [] Hc; auto. destruct (Nat.eqb_spec union t) as [->|]; auto. exfalso. eapply I5; eauto.
  - intros [] Hc; auto. destruct (Nat.eqb_spec input t) as [->|]; auto. exfalso. eapply I4; eauto.
  - intros [] Hc; auto. destruct (Nat.eqb_spec enum t) as [->|]; auto. exfalso. eapply I3; eauto.
  - intros [] Hc; auto. destruct (Nat.eqb_spec object t) as [->|]; auto. exfalso. eapply I2; eauto.
  - intros [] Hc; auto. destruct (Nat.eqb_spec t0 t) as [->|]; auto. exfalso. eapply I1; eauto.
Qed.

(** The members of a type: fields(), interfaces(), enumValues(), inputFields() are what the last call gave. possibleTypes() of a
    union likewise; that of an interface has an object once for each time the object's AddInterfaces named it. *)
Theorem C30_members : forall b h r t o, after b h r -> object_at r t = Some o -> members h t o.
Proof.
  intros b h r t o H. revert t o. induction H as [|h r c H IH Ha]; intros t o Ho.
  - unfold object_at in Ho. simpl in Ho. destruct t; discriminate.
  - destruct (object_at r t) as [o0|] eqn:E.
    + rewrite (exec_object r c t o0 E) in Ho. injection Ho as <-.
      destruct (IH t o0 E) as (M1 & M2 & M3 & M4 & M5 & M6). unfold members, implemented_by. rewrite !last_snoc, flat_map_app. fold (implemented_by t h).
      destruct c as [k n d|n x|x|x|x|d|a is|x fs|x ps|x vs|x vs|k p]; simpl; rewrite ?app_nil_r; try (repeat split; assumption).
      * assert (Hka : forall i, In i is -> to_kind o0 <> INTERFACE -> i <> t).
        { intros i Hi Hk ->. destruct Ha as [_ Ha]. destruct (Ha t Hi) as (o' & H1 & H2). congruence. }
        assert (Hf : to_kind o0 <> INTERFACE -> filter (Nat.eqb t) is = []).
        { intros Hk. apply filter_none. intros Hi. exact (Hka t Hi Hk eq_refl). }
        destruct (Nat.eqb_spec a t) as [->|Hne]; simpl.
        -- repeat split; auto.
           ++ intros Hk. rewrite Hf by congruence. simpl. rewrite app_nil_r. auto.
           ++ intros Hk. rewrite M6; auto.
        -- repeat split; auto.
           ++ intros Hk. rewrite Hf by congruence. simpl. rewrite app_nil_r. auto.
           ++ intros Hk. rewrite M6; auto.
      * destruct (Nat.eqb_spec x t) as [->|Hne]; simpl; repeat split; assumption.
      * destruct (Nat.eqb_spec x t) as [->|Hne]; simpl; repeat split; try assumption.
        intros Hk. exfalso. destruct Ha as (o' & H1 & H2). congruence.
      * destruct (Nat.eqb_spec x t) as [->|Hne]; simpl; repeat split; assumption.
      * destruct (Nat.eqb_spec x t) as [->|Hne]; simpl; repeat split; assumption.
    + (* made by this call *)
      assert (Hn : length (heap r) <= t) by (apply nth_error_None; exact E).
      assert (Hc : exists k n d of, o = fresh_type k n d of /\ length (heap r) <= t /\
                   match c with Make _ _ _ | WrapType _ _ => True | _ => False end).
      { destruct (heap_length r c) as [El|[x El]].
        - exfalso. unfold object_at in Ho. assert (t < length (heap (exec r c))) by (apply nth_error_Some; congruence). lia.
        - destruct c; simpl in El; try (exfalso; apply (f_equal (@length type_obj)) in El; rewrite app_length in El; simpl in El;
            rewrite ?fold_interfaces_length in El; simpl in El; rewrite ?update_length in El; lia).
          + unfold object_at in Ho. simpl in Ho. apply object_app in Ho as [Ho|[-> ->]]; [congruence|]. eauto 10.
          + unfold object_at in Ho. simpl in Ho. unfold wrap_type in *. destruct (smap_find _ _ _); simpl in *; [unfold object_at in E; congruence|].
            apply object_app in Ho as [Ho|[-> ->]]; [congruence|]. eauto 10. }
      destruct Hc as (k & n & d & of & -> & _ & Hc).
      destruct (members_new _ _ _ t H Hn k n d of) as (M1 & M2 & M3 & M4 & M5 & M6). unfold members, implemented_by. rewrite !last_snoc, flat_map_app.
      fold (implemented_by t h). destruct c; try contradiction; simpl; rewrite ?app_nil_r; repeat split; assumption.
Qed.

(** If every object calls AddInterfaces once and with distinct interfaces, an interface's possible types are exactly the
    objects that have it among their interfaces, each once. *)
Theorem C30_possible_types : forall b h r, after b h r ->
  (forall h1 a is is' h2, h = h1 ++ AddInterfaces a is :: h2 -> NoDup is /\ ~ In (AddInterfaces a is') h1 /\ ~ In (AddInterfaces a is') h2) ->
  forall t i, object_at r t = Some i -> to_kind i = INTERFACE ->
  NoDup (to_possible i) /\ forall a, In a (to_possible i) <-> exists o, object_at r a = Some o /\ In t (to_interfaces o).
Proof.
  intros b h r H Hone t i Hi Hk.
  assert (Hp : to_possible i = implemented_by t h) by (apply (C30_members b h r t i H Hi); exact Hk).
  assert (Hcount : forall is, NoDup is -> In t is -> length (filter (Nat.eqb t) is) = 1).
  { clear. induction is as [|x is IH]; intros Hn Hin; simpl in *; [contradiction|]. inversion Hn; subst.
    destruct (Nat.eqb_spec t x) as [->|Hne]; simpl.
    - rewrite filter_none by auto. reflexivity.
    - destruct Hin as [->|Hin]; [congruence|]. auto. }
  assert (Hin : forall a, In a (implemented_by t h) <-> exists is, In (AddInterfaces a is) h /\ In t is).
  { intros a. unfold implemented_by. rewrite in_flat_map. split.
    - intros (c & Hc & Ha). destruct c; simpl in Ha; try contradiction. apply repeat_spec in Ha as Ha'. subst a. exists interfaces. split; [exact Hc|].
      destruct (in_dec Nat.eq_dec t interfaces) as [Hy|Hy]; [exact Hy|]. rewrite filter_none in Ha by exact Hy. contradiction.
    - intros (is & Hc & Ht). exists (AddInterfaces a is). split; [exact Hc|].
      apply in_split in Hc as (h1 & h2 & Hh). destruct (Hone h1 a is [] h2 Hh) as [Hnd _]. rewrite Hcount by auto. simpl. auto. }
  rewrite Hp. split.
  - clear Hin Hp Hi Hk i H r. revert Hone. induction h as [|c h IH]; intros Hone; [constructor|].
    assert (Hone' : forall h1 a is is' h2, h = h1 ++ AddInterfaces a is :: h2 -> NoDup is /\ ~ In (AddInterfaces a is') h1 /\ ~ In (AddInterfaces a is') h2).
    { intros h1 a is is' h2 E. destruct (Hone (c :: h1) a is is' h2) as (H1 & H2 & H3); [simpl; congruence|]. simpl in H2. tauto. }
    destruct c as [k n d|n x|x|x|x|d|a is|x fs|x ps|x vs|x vs|k p]; simpl; try (apply IH; exact Hone').
    destruct (in_dec Nat.eq_dec t is) as [Ht|Ht]; [|rewrite filter_none by auto; apply IH; exact Hone'].
    destruct (Hone [] a is [] h eq_refl) as (Hnd & _ & _). rewrite Hcount by auto. simpl. constructor; [|apply IH; exact Hone'].
    intros Ha. unfold implemented_by in Ha. apply in_flat_map in Ha as (c & Hc & Ha). destruct c; simpl in Ha; try contradiction.
    apply repeat_spec in Ha. subst object. destruct (Hone [] a is interfaces h eq_refl) as (_ & _ & Hno). contradiction.
  - intros a. rewrite Hin. split.
    + intros (is & Hc & Ht). assert (Ha : exists o, object_at r a = Some o).
      { destruct (object_at r a) as [o|] eqn:E; [eauto|]. exfalso. unfold object_at in E. apply nth_error_None in E.
        destruct (no_call_yet _ _ _ H a E) as (_ & I2 & _). exact (I2 _ Hc). }
      destruct Ha as (o & Ho). exists o. split; [exact Ho|].
      destruct (C30_members b h r a o H Ho) as (_ & M2 & _). rewrite M2.
      apply in_split in Hc as (h1 & h2 & Hh). rewrite Hh. unfold last_of. rewrite fold_left_app. simpl. rewrite Nat.eqb_refl.
      assert (Hn2 : forall is', ~ In (AddInterfaces a is') h2) by (intros is'; apply (Hone h1 a is is' h2 Hh)).
      clear -Hn2 Ht. induction h2 as [|c h2 IH] using rev_ind; [exact Ht|]. rewrite fold_left_app. simpl.
      destruct c; try (apply IH; intros is' Hi; apply (Hn2 is'); apply in_or_app; auto).
      destruct (Nat.eqb_spec object a) as [->|]; [|apply IH; intros is' Hi; apply (Hn2 is'); apply in_or_app; auto].
      exfalso. apply (Hn2 interfaces). apply in_or_app. simpl. auto.
    + intros (o & Ho & Ht). destruct (C30_members b h r a o H Ho) as (_ & M2 & _). rewrite M2 in Ht.
      clear -Ht. induction h as [|c h IH] using rev_ind; [contradiction|]. rewrite last_snoc in Ht.
      assert (Hgo : In t (or_nil (last_of (fun c => match c with AddInterfaces a0 is => if Nat.eqb a0 a then Some is else None | _ => None end) h)) ->
                    exists is, In (AddInterfaces a is) (h ++ [c]) /\ In t is).
      { intros Hx. destruct (IH Hx) as (is & H1 & H2). exists is. split; [apply in_or_app; auto|exact H2]. }
      destruct c; try (apply Hgo; exact Ht). destruct (Nat.eqb_spec object a) as [->|]; [|apply Hgo; exact Ht].
      exists interfaces. split; [apply in_or_app; simpl; auto|exact Ht].
Qed.

(** WrapType gives an object of the kind that wraps the type, the same one each time. *)
Theorem C30_wrap : forall b h r k p, after b h r -> is_wrapper k -> known r p ->
  let (r', w) := wrap_type r k p in
  forall w', (exists o, object_at r' w' = Some o /\ to_kind o = k /\ to_of o = Some p) <-> w' = w.
Proof.
  intros b h r k p H Hk Hp. assert (Hi := inv_after _ _ _ H). assert (Hi' := inv_exec r (WrapType k p) Hi (conj Hk Hp)). simpl in Hi'.
  assert (Hkb : k = kind_of_map (match k with LIST => true | _ => false end)) by (destruct Hk as [->| ->]; reflexivity).
  destruct (wrap_type r k p) as [r' w] eqn:E. simpl in Hi'.
  set (m := match k with LIST => true | _ => false end) in *.
  assert (Hw : In (p, w) (wrappers r' m)).
  { unfold wrap_type in E. cbv zeta in E. fold m in E. destruct (smap_find Nat.ltb (wrappers r m) p) as [x|] eqn:F.
    - injection E as <- <-. rewrite (smap_find_ok Nat.ltb nat_lt_strict Nat.eq_dec _ _ (i_sorted _ Hi m)) in F. apply a_find_some in F. exact F.
    - rewrite (smap_find_ok Nat.ltb nat_lt_strict Nat.eq_dec _ _ (i_sorted _ Hi m)) in F. apply a_find_none in F.
      destruct (emplace_absent fst Nat.ltb nat_lt_strict _ (p, length (heap r)) (i_sorted _ Hi m) F) as (l1 & l2 & Hm & Hem & Hs).
      cbn [fst] in Hem. unfold smap_emplace in E. rewrite Hem in E. injection E as <- <-. simpl. rewrite eqb_reflx. apply in_or_app. simpl. auto. }
  intros w'. split.
  - intros (o & H1 & H2 & H3). assert (Hw' : In (p, w') (wrappers r' m)) by (apply (i_wrappers _ Hi'); exists o; rewrite <- Hkb; auto).
    assert (Hn := sorted_nodup fst Nat.ltb nat_lt_strict _ (i_sorted _ Hi' m)). clear -Hn Hw Hw'.
    induction (wrappers r' m) as [|[a c] l IH]; simpl in *; [contradiction|].
    inversion Hn as [|? ? Hx Hn']; subst. destruct Hw as [Hw|Hw], Hw' as [Hw'|Hw']; auto; try congruence.
    + injection Hw as -> ->. exfalso. apply Hx. apply in_map_iff. exists (p, w'). auto.
    + injection Hw' as -> ->. exfalso. apply Hx. apply in_map_iff. exists (p, w). auto.
  - intros ->. apply (i_wrappers _ Hi') in Hw as (o & H1 & H2 & H3). exists o. rewrite Hkb. auto.
Qed.

(** Two type expressions stand for the same pointer exactly when they are equal, if no type object was added twice: this is
    what comparing types by pointer relies on. *)
Theorem C30_references : forall b h r, after b h r -> NoDup (map snd (added h)) ->
  forall e e' t t', refers r e t -> refers r e' t' -> (t = t' <-> e = e').
Proof.
  intros b h r H Hnd. assert (Hi := inv_after _ _ _ H). rewrite <- (C30_types _ _ _ H) in Hnd.
  assert (Huniq : forall m p w w', In (p, w) (wrappers r m) -> In (p, w') (wrappers r m) -> w = w').
  { intros m p w w' Hw Hw'. assert (Hn := sorted_nodup fst Nat.ltb nat_lt_strict _ (i_sorted _ Hi m)). clear -Hn Hw Hw'.
    induction (wrappers r m) as [|[a c] l IH]; simpl in *; [contradiction|].
    inversion Hn as [|? ? Hx Hn']; subst. destruct Hw as [Hw|Hw], Hw' as [Hw'|Hw']; auto; try congruence.
    - injection Hw as -> ->. exfalso. apply Hx. apply in_map_iff. exists (p, w'). auto.
    - injection Hw' as -> ->. exfalso. apply Hx. apply in_map_iff. exists (p, w). auto. }
  assert (Hnamed : forall n t, lookup_type r n = Ok t -> In (n, t) (types r)).
  { intros n t Hl. apply (C30_lookup b h r n t H) in Hl as (before & later & E & _). rewrite (C30_types _ _ _ H), E. apply in_or_app. simpl. auto. }
  assert (Hplain : forall n t o, lookup_type r n = Ok t -> object_at r t = Some o -> ~ is_wrapper (to_kind o)).
  { intros n t o Hl Ho. destruct (i_types _ Hi _ _ (Hnamed _ _ Hl)) as (o' & H1 & H2). congruence. }
  intros e. induction e as [n|e IH|e IH]; intros e' t t' He He'; inversion He; subst; inversion He'; subst; split; intros E; subst; try congruence.
  - f_equal. assert (Ha := Hnamed _ _ H1). assert (Hb := Hnamed _ _ H0). clear -Hnd Ha Hb.
    induction (types r) as [|[a c] l IH]; simpl in *; [contradiction|]. inversion Hnd as [|? ? Hx Hn']; subst.
    destruct Ha as [Ha|Ha], Hb as [Hb|Hb]; auto; try congruence.
    + injection Ha as -> ->. exfalso. apply Hx. apply in_map_iff. exists (n0, t'). auto.
    + injection Hb as -> ->. exfalso. apply Hx. apply in_map_iff. exists (n, t'). auto.
  - exfalso. apply (Hplain _ _ _ H1 H2). left. assumption.
  - exfalso. apply (Hplain _ _ _ H1 H2). right. assumption.
  - exfalso. eapply Hplain; eauto. left. assumption.
  - f_equal. assert (o = o0) as -> by congruence. assert (p = p0) as -> by congruence. eapply IH; eauto.
  - injection E as ->. assert (p = p0) as -> by (eapply IH; eauto).
    apply (Huniq true p0); apply (i_wrappers _ Hi); eauto.
  - exfalso. eapply Hplain; eauto. right. assumption.
  - f_equal. assert (o = o0) as -> by congruence. assert (p = p0) as -> by congruence. eapply IH; eauto.
  - injection E as ->. assert (p = p0) as -> by (eapply IH; eauto).
    apply (Huniq false p0); apply (i_wrappers _ Hi); eauto.
Qed.

(** A schema with an interface, two objects that implement it, a union, an enum, an input object and wrapped types; "A" is added twice. *)
Definition ex_calls : list call :=
  [ Make SCALAR "Int" ""; AddType "Int" 0; Make OBJECT "Query" "the root"; AddType "Query" 1; Make INTERFACE "Node" ""; AddType "Node" 2;
    Make OBJECT "A" ""; AddType "A" 3; Make OBJECT "B" ""; AddType "B" 4; Make UNION "U" ""; AddType "U" 5; Make ENUM "E" ""; AddType "E" 6;
    Make INPUT_OBJECT "In" ""; AddType "In" 7; AddQueryType 1; WrapType NON_NULL 0; WrapType LIST 8; WrapType NON_NULL 0;
    AddInterfaces 3 [2]; AddInterfaces 4 [2]; AddFields 2 [mkFieldObj "id" "" None 8 []]; AddPossibleTypes 5 [3; 4];
    AddEnumValues 6 [mkEnumValue "X" "" None]; AddInputValues 7 [mkInputObj "n" "" 9 "[1]"]; AddDirective (mkDirObj "d" "" [] []);
    Make OBJECT "A" "again"; AddType "A" 10 ].
Fixpoint allowed_all (r : registry) (h : list call) : Prop :=
  match h with [] => True | c :: h => allowed r c /\ allowed_all (exec r c) h end.
Lemma after_more b h0 h : forall r, after b h0 r -> allowed_all r h -> after b (h0 ++ h) (fold_left exec h r).
Proof.
  revert h0. induction h as [|c h IH]; intros h0 r H Ha; simpl; [rewrite app_nil_r; exact H|].
  destruct Ha as [H1 H2]. replace (h0 ++ c :: h) with ((h0 ++ [c]) ++ h) by (rewrite <- app_assoc; reflexivity).
  apply IH; [constructor; auto|exact H2].
Qed.
Example C30_example : after false ex_calls (built false ex_calls)
  /\ lookup_type (built false ex_calls) "A" = Ok 10 /\ lookup_type (built false ex_calls) "Node" = Ok 2
  /\ refers (built false ex_calls) (TListOf (TNonNull (TNamed "Int"))) 9
  /\ NoDup (map snd (added ex_calls))
  /\ option_map to_possible (object_at (built false ex_calls) 2) = Some [3; 4].
Proof.
  split; [|split; [|split; [|split; [|split]]]]; try (vm_compute; reflexivity).
  - apply (after_more false [] ex_calls (new_schema false)); [constructor|].
    assert (Hn : forall k, k <> LIST -> k <> NON_NULL -> ~ is_wrapper k) by (intros k H1 H2 [H|H]; auto).
    simpl allowed_all.
    repeat match goal with |- _ /\ _ => split end; auto; unfold plain_at, kind_at, known, is_wrapper; auto;
    try (eexists; split; [vm_compute; reflexivity|simpl; try reflexivity; intros [H|H]; discriminate]);
    try (intros [H|H]; discriminate); try (eexists; vm_compute; reflexivity).
    + intros i [<-|[]]. eexists; split; [vm_compute; reflexivity|reflexivity].
    + intros i [<-|[]]. eexists; split; [vm_compute; reflexivity|reflexivity].
    + right. eexists; split; [vm_compute; reflexivity|reflexivity].
  - eapply rf_list; [|vm_compute; reflexivity|reflexivity|reflexivity].
    eapply rf_nonnull; [|vm_compute; reflexivity|reflexivity|reflexivity]. constructor. vm_compute. reflexivity.
  - vm_compute. repeat constructor; simpl; intuition discriminate.
Qed.

Print Assumptions C30_members.
Print Assumptions C30_possible_types.
Print Assumptions C30_references.
Print Assumptions C30_lookup.
Print Assumptions C30_wrap.
