(** Literals, arguments, directives: the visitors compute what ExecSpec.v says. *)
From Verif Require Import Cpp Value Ast ErrorModel ExecModel ExecSem ExecSpec.
Local Open Scope string_scope.
Local Open Scope list_scope.

Definition emplace_all (kvs acc : entries) : entries := fold_left (fun es kv => fst (map_emplace es (fst kv) (snd kv))) kvs acc.

Lemma lookup_app : forall n (a b : entries), lookup n (a ++ b) = match lookup n a with Some v => Some v | None => lookup n b end.
Proof. intros n a b. induction a as [|[k v] a IH]; simpl; auto. destruct (String.eqb n k); auto. Qed.

Lemma has_key_app : forall n (a b : entries), has_key n (a ++ b) = (has_key n a || has_key n b)%bool.
Proof. intros. unfold has_key. rewrite lookup_app. destruct (lookup n a); auto. Qed.

Lemma filter_filter : forall (A : Type) (f g : A -> bool) l, filter f (filter g l) = filter (fun x => g x && f x)%bool l.
Proof. intros A f g l. induction l as [|x l IH]; simpl; auto. destruct (g x); simpl; rewrite ?IH; auto. Qed.

Lemma emplace_all_firsts : forall kvs acc, emplace_all kvs acc = acc ++ filter (fun kv => negb (has_key (fst kv) acc)) (firsts kvs).
Proof.
  induction kvs as [|[k v] kvs IH]; intros acc; simpl.
  - now rewrite app_nil_r.
  - unfold emplace_all in *; simpl. rewrite IH. unfold map_emplace. rewrite filter_filter.
    destruct (has_key k acc) eqn:E; simpl.
    + f_equal. apply filter_ext. intros [k' v']; simpl. destruct (String.eqb_spec k' k); subst; simpl; auto. now rewrite E.
    + rewrite <- app_assoc. simpl. do 2 f_equal. apply filter_ext. intros [k' v']; simpl.
      rewrite has_key_app. unfold has_key at 2. simpl. destruct (String.eqb k' k); simpl; destruct (has_key k' acc); auto.
Qed.

Lemma filter_true : forall (A : Type) (f : A -> bool) l, (forall x, f x = true) -> filter f l = l.
Proof. intros A f l H. induction l; simpl; auto. rewrite H. now f_equal. Qed.

Lemma emplace_all_nil : forall kvs, emplace_all kvs [] = firsts kvs.
Proof. intros. rewrite emplace_all_firsts. simpl. now apply filter_true. Qed.

Lemma lookup_filter_neq : forall n k (es : entries), n <> k -> lookup n (filter (fun kv => negb (String.eqb (fst kv) k)) es) = lookup n es.
Proof.
  intros n k es H. induction es as [|[k' v] es IH]; simpl; auto.
  destruct (String.eqb_spec k' k); simpl.
  - subst. destruct (String.eqb_spec n k); [contradiction|]. exact IH.
  - destruct (String.eqb n k'); auto.
Qed.

Lemma lookup_firsts : forall n (es : entries), lookup n (firsts es) = lookup n es.
Proof.
  intros n es. induction es as [|[k v] es IH]; simpl; auto.
  destruct (String.eqb_spec n k); auto. rewrite lookup_filter_neq; auto.
Qed.

Lemma in_firsts : forall (A : Type) (es : list (string * A)) x, In x (firsts es) -> In x es.
Proof.
  intros A es x. induction es as [|[k v] es IH]; simpl; auto.
  intros [H|H]; auto. apply filter_In in H. tauto.
Qed.

Lemma firsts_nodup : forall (A : Type) (es : list (string * A)), NoDup (map fst (firsts es)).
Proof.
  intros A es. induction es as [|[k v] es IH]; simpl; [constructor|]. constructor.
  - intros H. apply in_map_iff in H. destruct H as [[k' v'] [E H]]. simpl in E. subst. apply filter_In in H.
    simpl in H. rewrite String.eqb_refl in H. destruct H. discriminate.
  - clear -IH. induction (firsts es) as [|[k' v'] l IHl]; simpl; [constructor|].
    simpl in IH. inversion IH as [|? ? N ND]; subst. destruct (String.eqb k' k); simpl; auto. constructor; auto.
    intros H. apply N. apply in_map_iff in H. destruct H as [y [E H]]. apply filter_In in H. apply in_map_iff. exists y. tauto.
Qed.

Section Literals.
  Variable vars : entries.
  Hypothesis Hcopy : copyable vars.

  Lemma mapM_forall2 : forall (A B : Type) (f : A -> result B) l ys, mapM f l = Ok ys <-> Forall2 (fun x y => f x = Ok y) l ys.
  Proof.
    intros A B f l. induction l as [|x l IH]; intros ys; simpl; split; intros H.
    - inversion H; constructor.
    - inversion H; reflexivity.
    - destruct (f x) as [y| |] eqn:E; simpl in H; try discriminate.
      destruct (mapM f l) as [l'| |]; simpl in H; try discriminate. inversion H; subst. constructor; auto. now apply IH.
    - inversion H as [|? y ? l' E H']; subst. rewrite E. simpl. apply IH in H'. rewrite H'. reflexivity.
  Qed.

  Lemma Forall2_iff_in : forall (A B : Type) (P Q : A -> B -> Prop) l ys, Forall (fun x => forall y, P x y <-> Q x y) l ->
    (Forall2 P l ys <-> Forall2 Q l ys).
  Proof.
    intros A B P Q l ys H. revert ys. induction H as [|x l Hx H IH]; intros ys; split; intros F; inversion F; subst; constructor;
      try apply Hx; try apply IH; auto.
  Qed.

  Lemma visit_value_iff : forall l v, visit_value (VMap vars) l = Ok v <-> lit_value vars l v.
  Proof.
    induction l using lit_ind'; intros v; simpl; try (split; intros E; inversion E; subst; try constructor; reflexivity).
    - split; intros E.
      + destruct (lookup n vars) eqn:L; [|discriminate]. unfold vcopy in E.
        rewrite (Hcopy _ _ L) in E. inversion E; subst. now constructor.
      + inversion E; subst. match goal with H : lookup n vars = _ |- _ => rewrite H; unfold vcopy; now rewrite (Hcopy _ _ H) end.
    - split; intros E.
      + destruct (in_int_range z) eqn:R; [|discriminate]. inversion E; subst. now constructor.
      + inversion E; subst. match goal with H : in_int_range z = true |- _ => now rewrite H end.
    - pose proof (fun ys => Forall2_iff_in _ _ (fun x y => visit_value (VMap vars) x = Ok y) (lit_value vars) is ys H) as F.
      split; intros E.
      + destruct (mapM (visit_value (VMap vars)) is) as [ys| |] eqn:M; simpl in E; try discriminate. inversion E; subst.
        constructor. apply F. now apply mapM_forall2.
      + inversion E; subst. match goal with H : Forall2 _ is ?vs |- _ => apply F in H; apply mapM_forall2 in H; rewrite H end.
        reflexivity.
    - set (g := fun a : schema_location * (string * lit) => v0 <- visit_value (VMap vars) (snd (snd a)) ;; Ok (fst (snd a), v0)).
      assert (F : forall ys, Forall2 (fun a y => g a = Ok y) fs ys <->
        Forall2 (fun a kv => fst kv = fst (snd a) /\ lit_value vars (snd (snd a)) (snd kv)) fs ys).
      { intros ys. apply Forall2_iff_in. eapply Forall_impl; [|exact H]. intros a Ha [k' v']. unfold g. simpl.
        pose proof (Ha v') as Hv; cbv beta in Hv; rewrite <- Hv; clear Hv. destruct (visit_value (VMap vars) (snd (snd a))) as [x| |]; simpl; split; intros E.
        - inversion E; subst. auto.
        - destruct E as [E1 E2]. inversion E2; subst. reflexivity.
        - discriminate.
        - destruct E as [_ E2]; discriminate.
        - discriminate.
        - destruct E as [_ E2]; discriminate. }
      split; intros E.
      + destruct (mapM g fs) as [ys| |] eqn:M; simpl in E; try discriminate. inversion E; subst.
        fold (emplace_all ys []). rewrite emplace_all_nil. constructor. apply F. now apply mapM_forall2.
      + inversion E; subst. match goal with H : Forall2 _ fs ?vs |- _ => apply F in H; apply mapM_forall2 in H; rewrite H end.
        simpl. fold (emplace_all kvs []). now rewrite emplace_all_nil.
  Qed.

  Lemma visit_arguments_iff : forall args acc es, visit_arguments (VMap vars) args acc = Ok es <->
    exists kvs, Forall2 (fun a kv => fst kv = a_name a /\ lit_value vars (a_value a) (snd kv)) args kvs /\ es = emplace_all kvs acc.
  Proof.
    induction args as [|a args IH]; intros acc es; simpl.
    - split.
      + intros E. inversion E; subst. exists []. split; [constructor | reflexivity].
      + intros [kvs [F ->]]. inversion F; subst. reflexivity.
    - split.
      + destruct (visit_value (VMap vars) (a_value a)) as [v| |] eqn:V; simpl; try discriminate. intros E. apply IH in E.
        destruct E as [kvs [F ->]]. exists ((a_name a, v) :: kvs). split; [|reflexivity]. constructor; auto. split; auto.
        now apply visit_value_iff.
      + intros [kvs [F ->]]. inversion F as [|? [k v] ? kvs' [E1 E2] F']; subst. simpl in *. subst.
        apply visit_value_iff in E2. rewrite E2. simpl. apply IH. eauto.
  Qed.

  Lemma args_value_iff : forall args es, visit_arguments (VMap vars) args [] = Ok es <-> args_value vars args es.
  Proof.
    intros. rewrite visit_arguments_iff. unfold args_value. split; intros [kvs [F ->]]; exists kvs; split; auto;
      [|symmetry]; apply emplace_all_nil.
  Qed.

  Lemma visit_directives_iff : forall dirs, named_dirs dirs -> forall acc es, visit_directives (VMap vars) dirs acc = Ok es <->
    exists kvs, Forall2 (fun d kv => fst kv = d_name d /\ exists a, args_value vars (d_args d) a /\ snd kv = VMap a) dirs kvs /\ es = emplace_all kvs acc.
  Proof.
    intros dirs Hn. induction Hn as [|d dirs Hd Hn IH]; intros acc es; simpl.
    - split.
      + intros E. inversion E; subst. exists []. split; [constructor | reflexivity].
      + intros [kvs [F ->]]. inversion F; subst. reflexivity.
    - destruct (String.eqb_spec (d_name d) ""); [contradiction|]. split.
      + destruct (visit_arguments (VMap vars) (d_args d) []) as [v| |] eqn:V; simpl; try discriminate. intros E. apply IH in E.
        destruct E as [kvs [F ->]]. exists ((d_name d, VMap v) :: kvs). split; [|reflexivity]. constructor; auto. split; auto.
        exists v. split; auto. now apply args_value_iff.
      + intros [kvs [F ->]]. inversion F as [|? [k v] ? kvs' [E1 [a [E2 E3]]] F']; subst. simpl in *. subst.
        apply args_value_iff in E2. rewrite E2. simpl. apply IH. eauto.
  Qed.

  Lemma dirs_value_iff : forall dirs es, named_dirs dirs -> (visit_directives (VMap vars) dirs [] = Ok es <-> dirs_value vars dirs es).
  Proof.
    intros dirs es Hn. rewrite visit_directives_iff; auto. unfold dirs_value. split; intros [kvs [F ->]]; exists kvs; split; auto;
      [|symmetry]; apply emplace_all_nil.
  Qed.

End Literals.

Lemma should_skip_iff : forall es, valid_conditions es -> one_condition es ->
  exists b, should_skip es = Ok b /\ (b = true <-> excluded es).
Proof.
  intros es [Hs Hi] Ho. unfold should_skip, excluded, valid_condition, condition in *. simpl.
  destruct Hs as [Hs|[b Hs]]; rewrite Hs; simpl.
  - destruct Hi as [Hi|[b Hi]]; rewrite Hi; simpl.
    + exists false. split; auto. split; [discriminate | intros [H|H]; discriminate].
    + destruct b; simpl; eexists; (split; [reflexivity|]); split; auto; try discriminate.
      intros [H|H]; inversion H.
  - destruct Ho as [Ho|Ho]; [rewrite Ho in Hs; discriminate|]. rewrite Ho.
    destruct b; simpl; eexists; (split; [reflexivity|]); split; auto; try discriminate. intros [H|H]; inversion H.
Qed.

Lemma decides_iff : forall vars dirs b, copyable vars -> decides vars dirs b ->
  exists ds, visit_directives (VMap vars) dirs [] = Ok ds /\ should_skip ds = Ok (negb b).
Proof.
  intros vars dirs b Hc [es [Hn [Hd [Hv [Ho He]]]]]. apply dirs_value_iff in Hd; auto. exists es. split; auto.
  destruct (should_skip_iff es Hv Ho) as [b' [E1 E2]]. rewrite E1. f_equal.
  destruct b, b'; simpl; auto.
  - assert (true = false) by tauto. discriminate.
  - assert (false = true) by tauto. discriminate.
Qed.
