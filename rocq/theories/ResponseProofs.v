From Verif Require Import Cpp Base64Model Base64Spec Base64Proofs SortedMapSpec SortedMapModel SortedMapProofs Value ResponseModel ResponseSpec.
From Coq Require Import Permutation Sorting.Sorted.

(** * Generalities *)
Lemma nth_error_ext {A} : forall l1 l2 : list A, (forall i, nth_error l1 i = nth_error l2 i) -> l1 = l2.
Proof.
  induction l1 as [|x l1 IH]; intros [|y l2] H; auto.
  - specialize (H 0). discriminate.
  - specialize (H 0). discriminate.
  - f_equal; [specialize (H 0); simpl in H; congruence|]. apply IH. intros i. apply (H (S i)).
Qed.
Lemma bisect_ext {E} (data : list E) p q : (forall e, In e data -> p e = q e) ->
  forall fuel first len, bisect fuel data p first len = bisect fuel data q first len.
Proof.
  intros H. induction fuel as [|fuel IH]; intros first len; simpl; [reflexivity|].
  destruct len as [|len]; [reflexivity|]. destruct (nth_error data _) as [e|] eqn:Ee; [|reflexivity].
  rewrite (H e) by (eapply nth_error_In; eauto). destruct (q e); apply IH.
Qed.

Lemma equal_range_ext {E K} (key key' : E -> K) comp data k :
  (forall e, In e data -> key e = key' e) -> equal_range key comp data k = equal_range key' comp data k.
Proof.
  intros H. unfold equal_range, lower_bound, upper_bound. f_equal; apply bisect_ext; intros e He; rewrite (H e He); reflexivity.
Qed.

Lemma sorted_ext {E K} (key key' : E -> K) comp data :
  (forall e, In e data -> key e = key' e) -> sorted key comp data -> sorted key' comp data.
Proof.
  induction data as [|x data IH]; intros H Hs; [constructor|]. inversion Hs as [|? ? Hs' Hf]; subst. constructor.
  - apply IH; auto. intros e He. apply H. simpl. auto.
  - rewrite Forall_forall in *. intros y Hy. rewrite <- (H x), <- (H y); simpl; auto.
Qed.

Lemma sorted_perm_unique {E K} (key : E -> K) comp (Hst : strict_total comp) :
  forall l1 l2, sorted key comp l1 -> sorted key comp l2 -> Permutation l1 l2 -> l1 = l2.
Proof.
  induction l1 as [|x l1 IH]; intros l2 H1 H2 HP.
  - apply Permutation_nil in HP. congruence.
  - destruct l2 as [|y l2]; [symmetry in HP; apply Permutation_nil in HP; discriminate|].
    inversion H1 as [|? ? H1' Hf1]; subst. inversion H2 as [|? ? H2' Hf2]; subst. rewrite Forall_forall in Hf1, Hf2.
    assert (x = y) as ->.
    { assert (Hx : In x (y :: l2)) by (eapply Permutation_in; [exact HP|left; reflexivity]).
      assert (Hy : In y (x :: l1)) by (eapply Permutation_in; [symmetry; exact HP|left; reflexivity]).
      destruct Hx as [->|Hx]; [reflexivity|]. destruct Hy as [->|Hy]; [reflexivity|].
      specialize (Hf1 _ Hy). specialize (Hf2 _ Hx). rewrite (st_asym _ Hst _ _ Hf1) in Hf2. discriminate. }
    f_equal. apply IH; auto. eapply Permutation_cons_inv; eauto.
Qed.

(** * The index invariant *)
Definition wf_index (map : list (string * cvalue)) (members : list nat) : Prop :=
  Permutation members (seq 0 (length map)) /\ sorted (member_name map) string_lt members.

Inductive wf : cvalue -> Prop :=
| wf_map map members : wf_index map members -> (forall n x, In (n, x) map -> wf x) -> wf (CMap map members)
| wf_list l : (forall x, In x l -> wf x) -> wf (CList l)
| wf_string s j : wf (CString s j)
| wf_null : wf CNull
| wf_bool b : wf (CBool b)
| wf_int z : wf (CInt z)
| wf_float f : wf (CFloat f)
| wf_enum s : wf (CEnum s)
| wf_scalar_none : wf (CScalar None)
| wf_scalar x : wf x -> wf (CScalar (Some x)).

Lemma names_seq (map : list (string * cvalue)) : List.map (member_name map) (seq 0 (length map)) = List.map fst map.
Proof.
  apply nth_error_ext. intros i. rewrite !nth_error_map.
  destruct (Nat.lt_ge_cases i (length map)) as [Hi|Hi].
  - rewrite (nth_error_nth' (seq 0 (length map)) 0) by (rewrite seq_length; lia).
    rewrite seq_nth by lia. simpl. unfold member_name. destruct (nth_error map i) as [[n x]|] eqn:E; [reflexivity|].
    apply nth_error_None in E. lia.
  - assert (nth_error (seq 0 (length map)) i = None) as -> by (apply nth_error_None; rewrite seq_length; lia).
    assert (nth_error map i = None) as -> by (apply nth_error_None; lia). reflexivity.
Qed.

Lemma wf_index_names map members : wf_index map members ->
  Permutation (List.map (member_name map) members) (List.map fst map).
Proof. intros [HP _]. rewrite <- names_seq. apply Permutation_map. exact HP. Qed.

Lemma wf_index_nodup map members : wf_index map members -> NoDup (List.map fst map).
Proof.
  intros H. eapply Permutation_NoDup; [apply wf_index_names; exact H|].
  destruct H as [_ Hs]. eapply sorted_nodup; [apply string_lt_strict|exact Hs].
Qed.

Lemma wf_index_lt map members i : wf_index map members -> In i members -> i < length map.
Proof.
  intros [HP _] Hi. assert (H : In i (seq 0 (length map))) by (eapply Permutation_in; eauto).
  apply in_seq in H. lia.
Qed.

Lemma wf_members_ok map members : wf_index map members -> members_ok map members = true.
Proof.
  intros H. unfold members_ok. apply forallb_forall. intros i Hi. apply Nat.ltb_lt. eapply wf_index_lt; eauto.
Qed.

Lemma wf_index_in map members name : wf_index map members ->
  In name (List.map (member_name map) members) <-> In name (List.map fst map).
Proof.
  intros H. pose proof (wf_index_names _ _ H) as HP. split; intros Hi; (eapply Permutation_in; [|exact Hi]); [exact HP|symmetry; exact HP].
Qed.

Lemma member_name_app map e i : i < length map -> member_name (map ++ [e]) i = member_name map i.
Proof. intros Hi. unfold member_name. rewrite nth_error_app1 by lia. reflexivity. Qed.
Lemma member_name_last map n x : member_name (map ++ [(n, x)]) (length map) = n.
Proof. unfold member_name. rewrite nth_error_app2, Nat.sub_diag by lia. reflexivity. Qed.

Lemma emplace_present_c map members name x : wf_index map members -> In name (List.map fst map) ->
  c_emplace_back (CMap map members) name x = Ok (CMap map members, false).
Proof.
  intros H Hi. unfold c_emplace_back. rewrite wf_members_ok by assumption. cbn [negb].
  apply (wf_index_in _ _ _ H) in Hi. destruct H as [HP Hs].
  destruct (emplace_present (member_name map) string_lt string_lt_strict members name 0 Hs Hi) as (i & He & _).
  unfold sv_emplace in He. destruct (equal_range _ _ _ _) as [itr itrEnd].
  destruct (negb (Nat.eqb itr itrEnd)); [reflexivity|discriminate].
Qed.

Lemma emplace_absent_c map members name x : wf_index map members -> ~ In name (List.map fst map) ->
  exists members', c_emplace_back (CMap map members) name x = Ok (CMap (map ++ [(name, x)]) members', true)
    /\ wf_index (map ++ [(name, x)]) members'.
Proof.
  intros H Hi. pose proof (wf_members_ok _ _ H) as Hok. unfold c_emplace_back. rewrite Hok. cbn [negb].
  assert (Hi' : ~ In name (List.map (member_name map) members)) by (intros Hx; apply Hi; eapply wf_index_in; eauto).
  pose proof (wf_index_lt map members) as Hlt. destruct H as [HP Hs].
  assert (Hlen : length members = length map) by (rewrite (Permutation_length HP), seq_length; reflexivity).
  set (map' := map ++ [(name, x)]) in *.
  assert (Hext : forall e, In e members -> member_name map e = member_name map' e).
  { intros e He. symmetry. apply member_name_app. apply Hlt; auto. split; auto. }
  assert (Hs' : sorted (member_name map') string_lt members) by (eapply sorted_ext; eauto).
  assert (Hkey : member_name map' (length members) = name) by (rewrite Hlen; apply member_name_last).
  assert (Hni : ~ In (member_name map' (length members)) (List.map (member_name map') members)).
  { rewrite Hkey. rewrite <- (map_ext_in _ _ _ Hext). exact Hi'. }
  destruct (emplace_absent (member_name map') string_lt string_lt_strict members (length members) Hs' Hni)
    as (l1 & l2 & Hm & He & Hsorted).
  rewrite Hkey in He. unfold sv_emplace in He.
  rewrite (equal_range_ext _ _ string_lt members name Hext).
  destruct (equal_range (member_name map') string_lt members name) as [itr itrEnd] eqn:Er.
  destruct (Nat.eqb_spec itr itrEnd) as [->|Hne]; cbn [negb] in He |- *; [|discriminate].
  injection He as He1 He2. eexists. split; [reflexivity|]. rewrite He1. split; auto.
  unfold map'. rewrite app_length. simpl length. rewrite Nat.add_1_r, seq_S. simpl.
  transitivity (length members :: (l1 ++ l2)); [symmetry; apply Permutation_middle|].
  rewrite <- Hm, Hlen. transitivity (length map :: seq 0 (length map)); [constructor; exact HP|].
  apply Permutation_cons_append.
Qed.

Lemma find_present_c map members name x i : wf_index map members -> nth_error map i = Some (name, x) ->
  c_find (CMap map members) name = Ok i.
Proof.
  intros H Hi. unfold c_find. rewrite wf_members_ok by assumption. cbn [negb].
  destruct H as [HP Hs].
  assert (Hin : In i members).
  { eapply Permutation_in; [symmetry; exact HP|]. apply in_seq. split; [lia|]. simpl. apply nth_error_Some. congruence. }
  destruct (sv_find_present (member_name map) string_lt string_lt_strict members i Hs Hin) as (j & Hf & Hn).
  unfold member_name at 2 in Hf. rewrite Hi in Hf. unfold sv_find in Hf.
  destruct (equal_range _ _ _ _) as [itr itrEnd]. destruct (Nat.eqb_spec itr itrEnd) as [->|Hne].
  - subst j. assert (length members < length members) by (apply nth_error_Some; congruence). lia.
  - subst j. rewrite Hn. reflexivity.
Qed.

Lemma find_absent_c map members name : wf_index map members -> ~ In name (List.map fst map) ->
  c_find (CMap map members) name = Ok (length map).
Proof.
  intros H Hi. unfold c_find. rewrite wf_members_ok by assumption. cbn [negb].
  assert (Hi' : ~ In name (List.map (member_name map) members)) by (intros Hx; apply Hi; eapply wf_index_in; eauto).
  destruct H as [HP Hs].
  destruct (sorted_split (member_name map) string_lt string_lt_strict members name Hs) as [(l1 & l2 & -> & H1 & H2)|(l1 & y & l2 & -> & <- & H1 & H2)].
  - rewrite (bounds_absent (member_name map) string_lt string_lt_strict l1 l2 name H1 H2), Nat.eqb_refl. reflexivity.
  - exfalso. apply Hi'. rewrite map_app. apply in_or_app. right. left. reflexivity.
Qed.

(** * copy *)
Lemma combine_snoc {A} (l : list A) x : forall z,
  combine (l ++ [x]) (seq z (length l) ++ [z + length l]) = combine l (seq z (length l)) ++ [(x, z + length l)].
Proof.
  induction l as [|a l IH]; intros z; simpl; [reflexivity|]. rewrite Nat.add_succ_r. f_equal. apply (IH (S z)).
Qed.
Lemma copy_members_ok map : NoDup (List.map fst map) -> wf_index map (copy_members map).
Proof.
  intros Hn. unfold copy_members.
  assert (H : forall pre post, map = pre ++ post ->
    let m := fold_left (fun (m : list (string * nat)) (e : string * cvalue) => smap_assign string_lt 0 m (fst e) (length m)) pre [] in
    sorted fst string_lt m /\ Permutation m (combine (List.map fst pre) (seq 0 (length pre)))).
  { induction pre as [|e pre IH] using rev_ind; intros post Hmap.
    - simpl. split; constructor.
    - rewrite fold_left_app. cbn [fold_left]. rewrite <- app_assoc in Hmap. simpl in Hmap.
      destruct (IH _ Hmap) as [Hs HP].
      set (m := fold_left _ pre []) in *.
      assert (Hlen : length m = length pre).
      { rewrite (Permutation_length HP), combine_length, map_length, seq_length. lia. }
      destruct (smap_assign_ok string_lt string_lt_strict 0 string_dec m (fst e) (length m) Hs) as [Hs' HP'].
      split; [exact Hs'|]. rewrite HP'.
      rewrite a_set_absent.
      + rewrite Hlen, HP, map_app, app_length. simpl length. rewrite Nat.add_1_r, seq_S. simpl.
        rewrite <- (map_length fst pre). pose proof (combine_snoc (List.map fst pre) (fst e) 0) as Hcs. simpl plus in Hcs. rewrite Hcs. reflexivity.
      + intros Hin.
        assert (Hin' : In (fst e) (List.map fst pre)).
        { apply in_map_iff in Hin as ([n i] & En & Hin). simpl in En. subst n.
          assert (Hc : In (fst e, i) (combine (List.map fst pre) (seq 0 (length pre)))) by (eapply Permutation_in; eauto).
          apply in_combine_l in Hc. exact Hc. }
        rewrite Hmap, map_app in Hn. simpl in Hn. apply NoDup_remove_2 in Hn. apply Hn. apply in_or_app. auto. }
  destruct (H map [] (eq_sym (app_nil_r map))) as [Hs HP]. clear H.
  set (m := fold_left _ map []) in *.
  assert (Hfst : forall e, In e m -> fst e = member_name map (snd e)).
  { intros [n i] He. assert (Hc : In (n, i) (combine (List.map fst map) (seq 0 (length map)))) by (eapply Permutation_in; eauto).
    simpl. clear -Hc. apply In_nth_error in Hc as [j Hj].
    assert (Hj1 : nth_error (List.map fst map) j = Some n /\ nth_error (seq 0 (length map)) j = Some i).
    { revert Hj. generalize (List.map fst map) (seq 0 (length map)). intros l1. revert j.
      induction l1 as [|a l1 IH]; intros [|j] [|b l2]; simpl; try discriminate; auto. intros [= -> ->]. auto. }
    destruct Hj1 as [Hj1 Hj2].
    assert (Hlt : j < length map) by (rewrite <- (map_length fst map); apply nth_error_Some; congruence).
    rewrite (nth_error_nth' (seq 0 (length map)) 0) in Hj2 by (rewrite seq_length; lia). rewrite seq_nth in Hj2 by lia.
    simpl in Hj2. injection Hj2 as <-. unfold member_name. rewrite nth_error_map in Hj1.
    destruct (nth_error map j) as [[a b]|]; simpl in Hj1; congruence. }
  split.
  - rewrite HP. clear. assert (H : forall (l : list string) z, List.map snd (combine l (seq z (length l))) = seq z (length l)).
    { induction l as [|a l IH]; intros z; simpl; [reflexivity|]. now rewrite IH. }
    rewrite <- (map_length fst map). rewrite H. reflexivity.
  - clear HP. unfold sorted in *. induction Hs as [|e m' Hs IH Hf]; simpl; [constructor|]. constructor.
    + apply IH. intros e' He'. apply Hfst. simpl. auto.
    + rewrite Forall_forall in *. intros i Hi. apply in_map_iff in Hi as (e' & <- & He').
      rewrite <- (Hfst e), <- (Hfst e'); simpl; auto.
Qed.

Lemma copy_members_eq map members : wf_index map members -> copy_members map = members.
Proof.
  intros H. pose proof (copy_members_ok map (wf_index_nodup _ _ H)) as [HP' Hs']. destruct H as [HP Hs].
  eapply sorted_perm_unique; eauto using string_lt_strict. rewrite HP', HP. reflexivity.
Qed.

(** induction on concrete values *)
Section CInd.
  Variable P : cvalue -> Prop.
  Hypothesis HMap : forall es ms, Forall (fun kv => P (snd kv)) es -> P (CMap es ms).
  Hypothesis HList : forall l, Forall P l -> P (CList l).
  Hypothesis HString : forall s j, P (CString s j).
  Hypothesis HNull : P CNull.
  Hypothesis HBool : forall b, P (CBool b).
  Hypothesis HInt : forall z, P (CInt z).
  Hypothesis HFloat : forall f, P (CFloat f).
  Hypothesis HEnum : forall s, P (CEnum s).
  Hypothesis HScalarNone : P (CScalar None).
  Hypothesis HScalar : forall v, P v -> P (CScalar (Some v)).
  Fixpoint cvalue_ind' (v : cvalue) : P v :=
    match v with
    | CMap es ms => HMap es ms ((fix go (es : list (string * cvalue)) : Forall (fun kv => P (snd kv)) es :=
        match es with [] => Forall_nil _ | kv :: es' => Forall_cons kv (cvalue_ind' (snd kv)) (go es') end) es)
    | CList l => HList l ((fix go (l : list cvalue) : Forall P l :=
        match l with [] => Forall_nil _ | x :: l' => Forall_cons x (cvalue_ind' x) (go l') end) l)
    | CString s j => HString s j
    | CNull => HNull
    | CBool b => HBool b
    | CInt z => HInt z
    | CFloat f => HFloat f
    | CEnum s => HEnum s
    | CScalar None => HScalarNone
    | CScalar (Some v') => HScalar v' (cvalue_ind' v')
    end.
End CInd.

Lemma copy_wf v : wf v ->
  c_copy v = if has_null_scalar (abs v) then Throw (Exn logic_error "Invalid call to Value::get for ScalarType") else Ok v.
Proof.
  induction v as [es ms IH|l IH|s j| |b|z|f|s| |v IH] using cvalue_ind'; intros Hwf; try reflexivity.
  - inversion Hwf as [? ? Hidx Hsub| | | | | | | | |]; subst. cbn [c_copy abs has_null_scalar].
    set (go := fix go (es : list (string * cvalue)) : result (list (string * cvalue)) := _).
    assert (Hgo : go es = if existsb (fun kv => has_null_scalar (snd kv)) (List.map (fun kv => (fst kv, abs (snd kv))) es)
                          then Throw (Exn logic_error "Invalid call to Value::get for ScalarType") else Ok es).
    { clear Hidx Hwf. induction es as [|[k x] es IHes]; [reflexivity|].
      inversion IH as [|? ? IHx IH']; subst. simpl. simpl in IHx. rewrite IHx by (eapply Hsub; simpl; eauto).
      destruct (has_null_scalar (abs x)); [reflexivity|]. cbn [bind orb].
      change (go es = if existsb (fun kv => has_null_scalar (snd kv)) (List.map (fun kv => (fst kv, abs (snd kv))) es) then
        Throw (Exn logic_error "Invalid call to Value::get for ScalarType") else Ok es) in IHes || idtac.
      rewrite IHes; auto.
      - destruct (existsb _ _); reflexivity.
      - intros n y Hy. eapply Hsub. right. exact Hy. }
    rewrite Hgo. destruct (existsb _ _); [reflexivity|]. cbn [bind].
    rewrite (copy_members_eq _ _ Hidx). reflexivity.
  - inversion Hwf as [|? Hsub| | | | | | | |]; subst. cbn [c_copy abs has_null_scalar].
    set (go := fix go (l : list cvalue) : result (list cvalue) := _).
    assert (Hgo : go l = if existsb has_null_scalar (List.map abs l)
                          then Throw (Exn logic_error "Invalid call to Value::get for ScalarType") else Ok l).
    { clear Hwf. induction l as [|x l IHl]; [reflexivity|].
      inversion IH as [|? ? IHx IH']; subst. simpl. rewrite IHx by (apply Hsub; simpl; auto).
      destruct (has_null_scalar (abs x)); [reflexivity|]. cbn [bind orb].
      rewrite IHl; auto.
      - destruct (existsb _ _); reflexivity.
      - intros y Hy. apply Hsub. right. exact Hy. }
    rewrite Hgo. destruct (existsb _ _); reflexivity.
  - inversion Hwf as [| | | | | | | | |? Hx]; subst. cbn. rewrite IH by assumption.
    destruct (has_null_scalar (abs v)); reflexivity.
Qed.

(** * every value a program can build is well formed *)
Lemma emplace_wf v n x v' b : wf v -> wf x -> c_emplace_back v n x = Ok (v', b) -> wf v'.
Proof.
  intros Hv Hx H. destruct v as [map members| | | | | | | |]; try discriminate.
  inversion Hv as [? ? Hidx Hsub| | | | | | | | |]; subst.
  destruct (in_dec string_dec n (List.map fst map)) as [Hi|Hi].
  - rewrite emplace_present_c in H by assumption. injection H as <- <-. exact Hv.
  - destruct (emplace_absent_c map members n x Hidx Hi) as (members' & He & Hidx'). rewrite He in H. injection H as <- <-.
    constructor; auto. intros n' y Hy. apply in_app_or in Hy as [Hy|[[= <- <-]|[]]]; eauto.
Qed.

Lemma wf_index_nil : wf_index [] [].
Proof. split; constructor. Qed.

Lemma built_wf v : built v -> wf v.
Proof.
  induction 1.
  - destruct t; simpl; constructor; try apply wf_index_nil; simpl; contradiction.
  - constructor.
  - constructor.
  - constructor.
  - constructor.
  - constructor.
  - eapply emplace_wf; [| |eassumption]; assumption.
  - destruct v; try discriminate. injection H1 as <-. inversion IHbuilt1; subst. constructor. intros y Hy.
    apply in_app_or in Hy as [Hy|[<-|[]]]; auto.
  - destruct v; try discriminate; injection H0 as <-; constructor.
  - destruct v; try discriminate; injection H0 as <-; constructor.
  - destruct v; try discriminate; injection H0 as <-; constructor.
  - destruct v; try discriminate; injection H0 as <-; constructor.
  - destruct v; try discriminate; injection H1 as <-; constructor; assumption.
  - destruct v; try discriminate. simpl in H0. destruct (toBase64 id); try discriminate. injection H0 as <-. constructor.
  - rewrite copy_wf in H0 by assumption. destruct (has_null_scalar (abs v)); [discriminate|]. injection H0 as <-. assumption.
  - destruct v; simpl; auto; constructor; try apply wf_index_nil; simpl; contradiction.
  - destruct v; simpl; auto; constructor.
  - destruct v; try discriminate. injection H0 as <-. inversion IHbuilt; subst. eauto.
  - destruct v; try discriminate. injection H0 as <-. inversion IHbuilt; subst. eauto.
  - destruct v as [| | | | | | | |[y|]]; try discriminate. injection H0 as <-. inversion IHbuilt; subst. auto.
  - destruct v; simpl; auto; constructor; try apply wf_index_nil; simpl; contradiction.
  - destruct v; simpl; auto; constructor; simpl; contradiction.
  - destruct v; simpl; auto; constructor.
  - destruct v as [| | | | | | | |[y|]]; simpl; auto; constructor.
  - destruct v; simpl; auto; constructor.
Qed.

(** * The C05 statements *)
Lemma c05_map_inv v es : c_entries v = Ok es -> exists ms, v = CMap es ms.
Proof. destruct v; simpl; try discriminate. intros [= <-]. eauto. Qed.

Lemma c05_unique v es : built v -> c_entries v = Ok es -> NoDup (List.map fst es).
Proof.
  intros Hb He. apply built_wf in Hb. apply c05_map_inv in He as [ms ->]. inversion Hb; subst. eapply wf_index_nodup; eauto.
Qed.
Lemma c05_emplace_present v es name x : built v -> c_entries v = Ok es -> In name (List.map fst es) ->
  c_emplace_back v name x = Ok (v, false).
Proof.
  intros Hb He Hi. apply built_wf in Hb. apply c05_map_inv in He as [ms ->]. inversion Hb; subst. apply emplace_present_c; auto.
Qed.
Lemma c05_emplace_absent v es name x : built v -> c_entries v = Ok es -> ~ In name (List.map fst es) ->
  exists v', c_emplace_back v name x = Ok (v', true) /\ c_entries v' = Ok (es ++ [(name, x)]).
Proof.
  intros Hb He Hi. apply built_wf in Hb. apply c05_map_inv in He as [ms ->]. inversion Hb; subst.
  destruct (emplace_absent_c es ms name x) as (ms' & H' & _); auto. eexists. split; [exact H'|reflexivity].
Qed.
Lemma c05_find v es name : built v -> c_entries v = Ok es ->
  (forall i x, nth_error es i = Some (name, x) -> c_find v name = Ok i) /\
  (~ In name (List.map fst es) -> c_find v name = Ok (length es)).
Proof.
  intros Hb He. apply built_wf in Hb. apply c05_map_inv in He as [ms ->]. inversion Hb; subst. split.
  - intros. eapply find_present_c; eauto.
  - apply find_absent_c; auto.
Qed.
Lemma c05_index v es name : built v -> c_entries v = Ok es ->
  (forall x, In (name, x) es -> c_index_name v name = Ok x) /\
  (~ In name (List.map fst es) -> c_index_name v name = Throw (Exn runtime_error "Missing Map member")).
Proof.
  intros Hb He. destruct (c05_find v es name Hb He) as [Hf1 Hf2]. unfold c_index_name. rewrite He. split.
  - intros x Hx. apply In_nth_error in Hx as [i Hi]. rewrite (Hf1 _ _ Hi). cbn [bind]. rewrite Hi. reflexivity.
  - intros Hn. rewrite (Hf2 Hn). cbn [bind]. assert (nth_error es (length es) = None) as -> by (apply nth_error_None; lia). reflexivity.
Qed.

Lemma emplace_all_wf ins : forall v es, wf v -> (forall n x, In (n, x) ins -> wf x) -> c_entries v = Ok es ->
  exists v', emplace_all v ins = Ok v' /\ c_entries v' = Ok (es ++ first_entries (List.map fst es) ins) /\ wf v'.
Proof.
  induction ins as [|[n x] ins IH]; intros v es Hv Hins He; simpl.
  - exists v. rewrite app_nil_r. auto.
  - apply c05_map_inv in He as [ms ->]. inversion Hv as [? ? Hidx Hsub| | | | | | | | |]; subst.
    destruct (in_dec string_dec n (List.map fst es)) as [Hi|Hi].
    + rewrite emplace_present_c by assumption. cbn [bind]. apply IH; auto. intros. eapply Hins. simpl. eauto.
    + destruct (emplace_absent_c es ms n x Hidx Hi) as (ms' & -> & Hidx'). cbn [bind].
      destruct (IH (CMap (es ++ [(n, x)]) ms') (es ++ [(n, x)])) as (v' & H1 & H2 & H3).
      * constructor; auto. intros n' y Hy. apply in_app_or in Hy as [Hy|[[= <- <-]|[]]]; eauto. eapply Hins. simpl. eauto.
      * intros. eapply Hins. simpl. eauto.
      * reflexivity.
      * exists v'. split; auto. split; auto. rewrite H2, <- app_assoc. simpl. do 3 f_equal.
        rewrite map_app. simpl. clear. generalize (List.map fst es) as seen. intros seen.
        assert (Hperm : forall s1 s2, (forall k, In k s1 <-> In k s2) -> @first_entries cvalue s1 ins = first_entries s2 ins).
        { induction ins as [|[k y] ins IH]; intros s1 s2 Hs; simpl; auto.
          destruct (in_dec string_dec k s1) as [H1|H1], (in_dec string_dec k s2) as [H2|H2].
          - auto.
          - exfalso. apply H2, Hs, H1.
          - exfalso. apply H1, Hs, H2.
          - f_equal. apply IH. intros k'. simpl. rewrite Hs. tauto. }
        apply Hperm. intros k. rewrite in_app_iff. simpl. tauto.
Qed.

Lemma emplace_all_history ins : (forall n x, In (n, x) ins -> built x) ->
  exists v, emplace_all (cnew TMap) ins = Ok v /\ c_entries v = Ok (first_entries [] ins).
Proof.
  intros H. destruct (emplace_all_wf ins (cnew TMap) []) as (v & H1 & H2 & _).
  - apply built_wf. constructor.
  - intros n x Hx. apply built_wf. eauto.
  - reflexivity.
  - eauto.
Qed.

Lemma copy_built v : built v ->
  c_copy v = if has_null_scalar (abs v) then Throw (Exn logic_error "Invalid call to Value::get for ScalarType") else Ok v.
Proof. intros H. apply copy_wf, built_wf, H. Qed.

(** refinement to the abstract value *)
Lemma lookup_none es name : lookup name es = None <-> ~ In name (List.map fst es).
Proof.
  induction es as [|[k v] es IH]; simpl; [tauto|]. destruct (String.eqb_spec name k) as [->|Hne].
  - split; [discriminate|tauto].
  - rewrite IH. split; [intros H [E|E]|]; try tauto. congruence.
Qed.

Lemma abs_emplace v n x es : built v -> c_entries v = Ok es ->
  exists v' b, c_emplace_back v n x = Ok (v', b) /\
    exists aes, abs v = VMap aes /\ (let (aes', b') := map_emplace aes n (abs x) in abs v' = VMap aes' /\ b = b').
Proof.
  intros Hb He. pose proof He as He'. apply c05_map_inv in He' as [ms ->].
  set (f := fun kv : string * cvalue => (fst kv, abs (snd kv))).
  assert (Hfst : List.map fst (List.map f es) = List.map fst es) by (rewrite map_map; reflexivity).
  destruct (in_dec string_dec n (List.map fst es)) as [Hi|Hi].
  - rewrite (c05_emplace_present _ _ n x Hb He Hi). do 2 eexists. split; [reflexivity|].
    exists (List.map f es). split; [reflexivity|]. unfold map_emplace, has_key.
    destruct (lookup n (List.map f es)) eqn:El; [auto|]. apply lookup_none in El. rewrite Hfst in El. tauto.
  - destruct (c05_emplace_absent _ _ n x Hb He Hi) as (v' & H1 & H2). rewrite H1. do 2 eexists. split; [reflexivity|].
    exists (List.map f es). split; [reflexivity|]. unfold map_emplace, has_key.
    assert (El : lookup n (List.map f es) = None) by (apply lookup_none; rewrite Hfst; exact Hi). rewrite El.
    apply c05_map_inv in H2 as [ms' ->]. simpl. rewrite map_app. auto.
Qed.

Lemma lookup_map es name :
  lookup name (List.map (fun kv : string * cvalue => (fst kv, abs (snd kv))) es)
  = option_map abs (match find (fun kv => String.eqb name (fst kv)) es with Some kv => Some (snd kv) | None => None end).
Proof.
  induction es as [|[k v] es IH]; simpl; [reflexivity|]. destruct (String.eqb name k); [reflexivity|exact IH].
Qed.

(** * equality *)
Lemma SFeqb_spec a b : SFeqb a b = true <->
  a <> S754_nan /\ b <> S754_nan /\ (a = b \/ (exists s1 s2, a = S754_zero s1 /\ b = S754_zero s2)).
Proof.
  assert (Hcc : forall m1 m2, Pos.compare_cont Eq m1 m2 = Pos.compare m1 m2) by reflexivity.
  unfold SFeqb, SFcompare. split.
  - destruct a as [s1|s1| |s1 m1 e1], b as [s2|s2| |s2 m2 e2]; try discriminate;
      try destruct s1; try destruct s2; try discriminate; intros H; (split; [discriminate|split; [discriminate|]]); eauto;
      rewrite Hcc in H; destruct (Z.compare_spec e1 e2) as [->|?|?]; try discriminate;
      destruct (Pos.compare_spec m1 m2) as [->|?|?]; try discriminate; auto.
  - intros (H1 & H2 & [->|(s1 & s2 & -> & ->)]); [|reflexivity].
    destruct b as [s2|s2| |s2 m2 e2]; try congruence; try destruct s2; auto;
      rewrite Hcc, Z.compare_refl, Pos.compare_refl; reflexivity.
Qed.

Lemma double_eqb_sym a b : double_eqb a b = double_eqb b a.
Proof.
  unfold double_eqb. destruct (SFeqb a b) eqn:E1, (SFeqb b a) eqn:E2; auto.
  - apply SFeqb_spec in E1 as (H1 & H2 & H). assert (E : SFeqb b a = true); [|congruence].
    apply SFeqb_spec. repeat split; auto. destruct H as [->|(s1 & s2 & -> & ->)]; eauto.
  - apply SFeqb_spec in E2 as (H1 & H2 & H). assert (E : SFeqb a b = true); [|congruence].
    apply SFeqb_spec. repeat split; auto. destruct H as [->|(s1 & s2 & -> & ->)]; eauto.
Qed.
Lemma double_eqb_trans a b c : double_eqb a b = true -> double_eqb b c = true -> double_eqb a c = true.
Proof.
  unfold double_eqb. rewrite !SFeqb_spec. intros (H1 & H2 & H) (H3 & H4 & H').
  repeat split; auto. destruct H as [->|(s1 & s2 & -> & ->)]; [exact H'|].
  destruct H' as [<-|(s3 & s4 & E1 & ->)]; eauto.
Qed.
Lemma double_eqb_refl a : double_eqb a a = match a with S754_nan => false | _ => true end.
Proof.
  unfold double_eqb. destruct (SFeqb a a) eqn:E.
  - apply SFeqb_spec in E as (H & _). destruct a; congruence.
  - assert (Ha : a <> S754_nan -> SFeqb a a = true) by (intros Hn; apply SFeqb_spec; auto).
    destruct a; auto; rewrite Ha in E; discriminate.
Qed.

(** list views of the nested loops *)
Fixpoint entries_eqb (eqb : value -> value -> bool) (e1 e2 : list (string * value)) : bool :=
  match e1, e2 with
  | [], [] => true
  | (k1, v1) :: e1', (k2, v2) :: e2' => String.eqb k1 k2 && eqb v1 v2 && entries_eqb eqb e1' e2'
  | _, _ => false
  end.
Fixpoint items_eqb (eqb : value -> value -> bool) (l1 l2 : list value) : bool :=
  match l1, l2 with
  | [], [] => true
  | v1 :: l1', v2 :: l2' => eqb v1 v2 && items_eqb eqb l1' l2'
  | _, _ => false
  end.
Lemma value_eqb_map e1 e2 : value_eqb (VMap e1) (VMap e2) = entries_eqb value_eqb e1 e2.
Proof.
  simpl. revert e2. induction e1 as [|[k1 v1] e1 IH]; intros [|[k2 v2] e2]; simpl; auto. rewrite IH. reflexivity.
Qed.
Lemma value_eqb_list e1 e2 : value_eqb (VList e1) (VList e2) = items_eqb value_eqb e1 e2.
Proof. simpl. revert e2. induction e1 as [|v1 e1 IH]; intros [|v2 e2]; simpl; auto. rewrite IH. reflexivity. Qed.

Lemma value_eqb_refl v : value_eqb v v = negb (has_nan v).
Proof.
  induction v as [es IH|l IH|s j| |b|z|f|s| |v IH] using value_ind'.
  - rewrite value_eqb_map. simpl. induction es as [|[k x] es IHes]; [reflexivity|]. inversion IH as [|? ? Hx IH']; subst.
    simpl in *. rewrite String.eqb_refl, Hx, IHes by assumption. destruct (has_nan x); reflexivity.
  - rewrite value_eqb_list. simpl. induction l as [|x l IHl]; [reflexivity|]. inversion IH as [|? ? Hx IH']; subst.
    simpl in *. rewrite Hx, IHl by assumption. destruct (has_nan x); reflexivity.
  - simpl. rewrite eqb_reflx, String.eqb_refl. reflexivity.
  - reflexivity.
  - simpl. rewrite eqb_reflx. reflexivity.
  - simpl. rewrite Z.eqb_refl. reflexivity.
  - simpl. rewrite double_eqb_refl. destruct f; reflexivity.
  - simpl. rewrite String.eqb_refl. reflexivity.
  - reflexivity.
  - simpl. exact IH.
Qed.

Lemma eqb_sym_bool a b : Bool.eqb a b = Bool.eqb b a.
Proof. destruct a, b; reflexivity. Qed.

Lemma value_eqb_sym v : forall w, value_eqb v w = value_eqb w v.
Proof.
  induction v as [es IH|l IH|s j| |b|z|f|s| |v IH] using value_ind'; intros w.
  - destruct w as [es2| | | | | | | |[?|]]; try reflexivity. rewrite !value_eqb_map. revert es2.
    induction es as [|[k x] es IHes]; intros [|[k2 x2] es2]; simpl; auto. inversion IH as [|? ? Hx IH']; subst. simpl in Hx.
    rewrite Hx, IHes, String.eqb_sym by assumption. reflexivity.
  - destruct w as [|l2| | | | | | |[?|]]; try reflexivity. rewrite !value_eqb_list. revert l2.
    induction l as [|x l IHl]; intros [|x2 l2]; simpl; auto. inversion IH as [|? ? Hx IH']; subst.
    rewrite Hx, IHl by assumption. reflexivity.
  - destruct w as [| | | | | | | |[?|]]; try reflexivity. simpl. rewrite eqb_sym_bool, String.eqb_sym. reflexivity.
  - destruct w as [| | | | | | | |[?|]]; reflexivity.
  - destruct w as [| | | | | | | |[?|]]; try reflexivity. simpl. apply eqb_sym_bool.
  - destruct w as [| | | | | | | |[?|]]; try reflexivity. simpl. apply Z.eqb_sym.
  - destruct w as [| | | | | | | |[?|]]; try reflexivity. simpl. apply double_eqb_sym.
  - destruct w as [| | | | | | | |[?|]]; try reflexivity. simpl. apply String.eqb_sym.
  - destruct w as [| | | | | | | |[?|]]; reflexivity.
  - destruct w as [| | | | | | | |[?|]]; try reflexivity. simpl. apply IH.
Qed.

Lemma value_eqb_trans v : forall w u, value_eqb v w = true -> value_eqb w u = true -> value_eqb v u = true.
Proof.
  induction v as [es IH|l IH|s j| |b|z|f|s| |v IH] using value_ind'; intros w u.
  - destruct w as [es2| | | | | | | |[?|]]; try discriminate. destruct u as [es3| | | | | | | |[?|]]; try discriminate.
    rewrite !value_eqb_map. revert es2 es3.
    induction es as [|[k x] es IHes]; intros [|[k2 x2] es2] [|[k3 x3] es3]; simpl; auto; try discriminate.
    inversion IH as [|? ? Hx IH']; subst. simpl in Hx. rewrite !andb_true_iff.
    intros [[H1 H2] H3] [[H4 H5] H6]. apply String.eqb_eq in H1 as ->. apply String.eqb_eq in H4 as ->.
    rewrite String.eqb_refl. repeat split; eauto.
  - destruct w as [|l2| | | | | | |[?|]]; try discriminate. destruct u as [|l3| | | | | | |[?|]]; try discriminate.
    rewrite !value_eqb_list. revert l2 l3.
    induction l as [|x l IHl]; intros [|x2 l2] [|x3 l3]; simpl; auto; try discriminate.
    inversion IH as [|? ? Hx IH']; subst. rewrite !andb_true_iff.
    intros [H2 H3] [H5 H6]. split; eauto.
  - destruct w as [| | | | | | | |[?|]]; try discriminate. destruct u as [| | | | | | | |[?|]]; try discriminate. simpl.
    rewrite !andb_true_iff, !eqb_true_iff, !String.eqb_eq. intros [-> ->] [-> ->]. auto.
  - destruct w as [| | | | | | | |[?|]]; try discriminate. auto.
  - destruct w as [| | | | | | | |[?|]]; try discriminate. destruct u as [| | | | | | | |[?|]]; try discriminate. simpl.
    rewrite !eqb_true_iff. congruence.
  - destruct w as [| | | | | | | |[?|]]; try discriminate. destruct u as [| | | | | | | |[?|]]; try discriminate. simpl.
    rewrite !Z.eqb_eq. congruence.
  - destruct w as [| | | | | | | |[?|]]; try discriminate. destruct u as [| | | | | | | |[?|]]; try discriminate. simpl.
    apply double_eqb_trans.
  - destruct w as [| | | | | | | |[?|]]; try discriminate. destruct u as [| | | | | | | |[?|]]; try discriminate. simpl.
    rewrite !String.eqb_eq. congruence.
  - destruct w as [| | | | | | | |[?|]]; try discriminate. auto.
  - destruct w as [| | | | | | | |[?|]]; try discriminate. destruct u as [| | | | | | | |[?|]]; try discriminate. simpl. apply IH.
Qed.

Lemma value_eqb_type v w : value_eqb v w = true -> type_of v = type_of w.
Proof. destruct v as [| | | | | | | |[?|]], w as [| | | | | | | |[?|]]; simpl; auto; discriminate. Qed.

Lemma abs_type v : type_of (abs v) = ctype v.
Proof. destruct v; reflexivity. Qed.

Lemma c_eqb_abs v : forall w, c_eqb v w = value_eqb (abs v) (abs w).
Proof.
  induction v as [es ms IH|l IH|s j| |b|z|f|s| |v IH] using cvalue_ind'; intros w;
    destruct w as [es2 ms2|l2|s2 j2| |b2|z2|f2|s2|[x2|]]; try reflexivity.
  - cbn [abs]. rewrite value_eqb_map. simpl. clear ms ms2. revert es2.
    induction es as [|[k x] es IHes]; intros [|[k2 x2] es2]; simpl; auto. inversion IH as [|? ? Hx IH']; subst. simpl in Hx.
    rewrite Hx, IHes by assumption. reflexivity.
  - cbn [abs]. rewrite value_eqb_list. simpl. revert l2.
    induction l as [|x l IHl]; intros [|x2 l2]; simpl; auto. inversion IH as [|? ? Hx IH']; subst.
    rewrite Hx, IHl by assumption. reflexivity.
  - simpl. apply IH.
Qed.

Lemma copy_equal v v' : built v -> c_copy v = Ok v' -> c_eqb v v' = negb (has_nan (abs v)).
Proof.
  intros Hb H. rewrite (copy_built v Hb) in H. destruct (has_null_scalar (abs v)); [discriminate|]. injection H as <-.
  rewrite c_eqb_abs. apply value_eqb_refl.
Qed.

(** * C06 *)
Lemma size_le_53 z : in_int_range z = true -> match z with Z0 => True | Zpos p | Zneg p => (N.size (Npos p) <= 32)%N end.
Proof.
  unfold in_int_range, int_min, int_max. rewrite andb_true_iff, !Z.leb_le. intros [H1 H2].
  destruct z as [|p|p]; auto.
  - assert (H : (N.pos p < 2 ^ 32)%N) by lia. rewrite N.size_log2 by lia. apply N.log2_lt_pow2 in H; lia.
  - assert (H : (N.pos p < 2 ^ 32)%N) by lia. rewrite N.size_log2 by lia. apply N.log2_lt_pow2 in H; lia.
Qed.

(** the double has the integer's exact value: m * 2^e = |z| with e <= 0, and is a valid binary64 number *)
Definition exact_double (z : Z) (f : spec_float) : Prop :=
  match f with
  | S754_zero s => z = 0%Z /\ s = false
  | S754_finite s m e => (e <= 0 /\ Zpos m = Z.abs z * 2 ^ (- e) /\ s = (z <? 0))%Z
  | _ => False
  end.

Lemma shiftl_val p k : (0 <= k)%Z -> Zpos (Pos.shiftl p (Z.to_N k)) = (Zpos p * 2 ^ k)%Z.
Proof.
  intros Hk.
  assert (H : forall n, Zpos (Pos.shiftl p n) = (Zpos p * 2 ^ Z.of_N n)%Z).
  { intros [|n]; [simpl; lia|]. simpl Pos.shiftl. induction n as [|n IH] using Pos.peano_ind.
    - simpl. lia.
    - rewrite Pos.iter_succ. change (Z.pos (Pos.iter xO p n)~0) with (2 * Z.pos (Pos.iter xO p n))%Z. rewrite IH.
      change (Z.of_N (N.pos (Pos.succ n))) with (Z.pos (Pos.succ n)). change (Z.of_N (N.pos n)) with (Z.pos n).
      rewrite Pos2Z.inj_succ, Z.pow_succ_r by lia. lia. }
  rewrite H, Z2N.id by assumption. reflexivity.
Qed.

Lemma int_to_double_exact z : in_int_range z = true -> exact_double z (int_to_double z).
Proof.
  intros H. apply size_le_53 in H. destruct z as [|p|p]; cbn [int_to_double exact_double].
  - auto.
  - set (k := (53 - Z.of_N (N.size (N.pos p)))%Z). assert (Hk : (0 <= k)%Z) by (unfold k; lia).
    rewrite shiftl_val by assumption. rewrite Z.opp_involutive. repeat split; try reflexivity. lia.
  - set (k := (53 - Z.of_N (N.size (N.pos p)))%Z). assert (Hk : (0 <= k)%Z) by (unfold k; lia).
    rewrite shiftl_val by assumption. rewrite Z.opp_involutive. repeat split; try reflexivity. lia.
Qed.

Lemma exact_double_inj z1 z2 f : exact_double z1 f -> exact_double z2 f -> z1 = z2.
Proof.
  destruct f as [s|s| |s m e]; simpl; try contradiction.
  - intros [-> _] [-> _]. reflexivity.
  - intros (He & H1 & ->) (_ & H2 & Hs).
    assert (0 < 2 ^ (- e))%Z by (apply Z.pow_pos_nonneg; lia).
    assert (Z.abs z1 = Z.abs z2) by nia.
    destruct (Z.ltb_spec z1 0), (Z.ltb_spec z2 0); try discriminate; lia.
Qed.

Definition set_get_statement : Prop :=
  (forall v x v', c_set_string v x = Ok v' -> c_get_string v' = Ok x /\ ctype v' = ctype v) /\
  (forall v x v', c_set_bool v x = Ok v' -> c_get_bool v' = Ok x /\ ctype v' = ctype v) /\
  (forall v x v', c_set_int v x = Ok v' -> ctype v = TInt -> c_get_int v' = Ok x /\ ctype v' = TInt) /\
  (forall v x v', c_set_int v x = Ok v' -> in_int_range x = true ->
     exists f, c_get_float v' = Ok f /\ exact_double x f /\ ctype v' = ctype v) /\
  (forall v x v', c_set_float v x = Ok v' -> c_get_float v' = Ok x /\ ctype v' = ctype v) /\
  (forall v x v', c_set_scalar v x = Ok v' -> c_get_scalar v' = Ok x /\ ctype v' = ctype v) /\
  (forall v x v', c_set_id v x = Ok v' -> c_get_id v' = Ok x /\ ctype v' = ctype v).

Lemma set_get : set_get_statement.
Proof.
  unfold set_get_statement.
  split; [intros v x v' H; destruct v; try discriminate; injection H as <-; split; reflexivity|].
  split; [intros v x v' H; destruct v; try discriminate; injection H as <-; split; reflexivity|].
  split; [intros v x v' H Ht; destruct v; try discriminate; injection H as <-; split; reflexivity|].
  split.
  { intros v x v' H Hr. destruct v; try discriminate; injection H as <-; eexists; (split; [reflexivity|]); split;
      try reflexivity; apply int_to_double_exact; assumption. }
  split; [intros v x v' H; destruct v; try discriminate; injection H as <-; split; reflexivity|].
  split; [intros v x v' H; destruct v; try discriminate; injection H as <-; split; reflexivity|].
  intros v x v' H. destruct v; try discriminate. unfold c_set_id in H. rewrite toBase64_rfc in H. injection H as <-.
  split; [apply roundtrip|reflexivity].
Qed.

Lemma c_eqb_trans u v w : c_eqb u v = true -> c_eqb v w = true -> c_eqb u w = true.
Proof. rewrite !c_eqb_abs. apply value_eqb_trans. Qed.
Lemma c_eqb_type v w : c_eqb v w = true -> ctype v = ctype w.
Proof. rewrite c_eqb_abs, <- !abs_type. apply value_eqb_type. Qed.

Lemma get_wrong_type a v : readable a (ctype v) = false -> exists what, get_outcome a v = Throw (Exn logic_error what).
Proof. destruct a, v as [| | | | | | | |[?|]]; try discriminate; intros _; eexists; reflexivity. Qed.

Lemma get_right_type a v : readable a (ctype v) = true ->
  get_outcome a v = Ok tt \/
  (a = AScalar /\ v = CScalar None) \/
  (a = AId /\ exists text j, v = CString text j /\ ~ exists bytes, fromBase64 text = Ok bytes).
Proof.
  destruct a, v as [| |text j| | | | | |[?|]]; try discriminate; intros _; auto.
  unfold get_outcome, c_get_id. destruct (fromBase64_total text) as [[bs H]|[m H]]; rewrite H; auto.
  right. right. split; [reflexivity|]. exists text, j. split; [reflexivity|]. intros [bs Hb]. congruence.
Qed.

Lemma set_iff_writable a v s b z f x id :
  (writable a (ctype v) = true -> exists v', set_outcome a v s b z f x id = Ok v') /\
  (writable a (ctype v) = false -> exists what, set_outcome a v s b z f x id = Throw (Exn logic_error what)).
Proof.
  split; destruct a, v; try discriminate; intros _; try (eexists; reflexivity).
  simpl. rewrite toBase64_rfc. eexists. reflexivity.
Qed.

Lemma release_spec :
  (forall v, snd (c_release_map v) = match v with CMap m _ => Ok m | _ => invalid_call "release for MapType" end /\
             fst (c_release_map v) = match v with CMap _ _ => cnew TMap | _ => v end) /\
  (forall v, snd (c_release_list v) = match v with CList m => Ok m | _ => invalid_call "release for ListType" end /\
             fst (c_release_list v) = match v with CList _ => cnew TList | _ => v end) /\
  (forall v s, c_get_string v = Ok s -> c_release_string v = (cnew (ctype v), Ok s)) /\
  (forall v, readable AString (ctype v) = false -> c_release_string v = (v, invalid_call "release for StringType")) /\
  (forall v x, c_get_scalar v = Ok x -> c_release_scalar v = (cnew TScalar, Ok x)) /\
  (forall v x, c_get_id v = Ok x -> exists v', c_release_id v = (v', Ok x) /\ c_get_string v' = Ok EmptyString).
Proof.
  split; [intros v; destruct v; split; reflexivity|].
  split; [intros v; destruct v; split; reflexivity|].
  split; [intros v s H; destruct v; try discriminate; injection H as <-; reflexivity|].
  split; [intros v H; destruct v; try discriminate; reflexivity|].
  split; [intros v x H; destruct v as [| | | | | | | |[?|]]; try discriminate; injection H as <-; reflexivity|].
  intros v x H. destruct v; try discriminate. simpl in *. rewrite H. eexists. split; reflexivity.
Qed.

Lemma emplace_all_built ins : forall v v', built v -> (forall n x, In (n, x) ins -> built x) -> emplace_all v ins = Ok v' -> built v'.
Proof.
  induction ins as [|[n x] ins IH]; simpl; intros v v' Hv Hins H; [congruence|].
  destruct (c_emplace_back v n x) as [[v1 b]| |] eqn:E; try discriminate. simpl in H.
  eapply IH; [|intros n' x' Hx; eapply Hins; right; exact Hx|exact H].
  eapply b_emplace; [exact Hv|eapply Hins; left; reflexivity|exact E].
Qed.
