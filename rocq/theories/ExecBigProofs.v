(** The programs of ExecModel.v give what ExecBigSpec.v asks for. *)
From Verif Require Import Cpp Value Ast ErrorModel ExecModel ExecSem ExecSemProofs ExecDirect ExecSpec ExecValues ExecMono ExecProofs ExecProofs2 ExecProofs3 ExecProofs4 ExecBigSpec.
From Coq Require Import Lia.
Local Open Scope string_scope.
Local Open Scope list_scope.

Lemma filter_comm {A} (f g : A -> bool) l : filter f (filter g l) = filter g (filter f l).
Proof. induction l as [|x l IH]; simpl; auto. destruct (g x) eqn:G, (f x) eqn:F; simpl; rewrite ?F, ?G; rewrite IH; auto. Qed.

Lemma merge_overlaid : forall outer inner, merge_dirs inner outer = overlaid inner outer.
Proof.
  unfold overlaid. induction outer as [|[k v] outer IH]; intros inner; simpl; [now rewrite app_nil_r|].
  rewrite IH. unfold map_emplace. destruct (has_key k inner) eqn:K; simpl.
  - assert (E : existsb (String.eqb k) (map fst inner) = true) by (apply existsb_eqb_in, has_key_in, K). rewrite E. simpl. f_equal.
    rewrite filter_comm. clear IH. induction (firsts outer) as [|[k' v'] l IH]; simpl; auto.
    destruct (existsb (String.eqb k') (map fst inner)) eqn:E'; simpl; auto. destruct (String.eqb_spec k' k); simpl; [|f_equal; auto].
    subst. congruence.
  - assert (E : existsb (String.eqb k) (map fst inner) = false) by (apply existsb_eqb_notin, has_key_notin, K). rewrite E. simpl.
    rewrite <- app_assoc. simpl. do 2 f_equal. rewrite filter_comm, filter_filter. apply filter_ext. intros [k' v']. simpl.
    rewrite map_app, existsb_app. simpl. now rewrite Bool.orb_false_r, Bool.negb_orb.
Qed.

Section Big.
  Variable O : Type.
  Variables (typenames : O -> list string) (has_field : O -> string -> bool) (ans : O -> string -> fparams -> answer O).
  Notation dvisit := (dvisit O typenames has_field ans).
  Notation dresolve := (dresolve O typenames has_field ans).
  Variables (vars : entries) (e : env).
  Hypothesis Hc : copyable vars.
  Hypothesis Hv : e_vars e = VMap vars.

  Lemma decided_eval : forall dirs ds b, decided vars dirs ds b -> directives_of e dirs = Ok (ds, negb b).
  Proof.
    intros dirs ds b [Hn [Hd [Hvc [Ho He]]]]. apply (dirs_eval vars); auto.
    destruct (should_skip_iff ds Hvc Ho) as [b' [E1 E2]]. rewrite E1. f_equal.
    destruct b, b'; simpl; auto.
    - assert (true = false) by tauto. discriminate.
    - assert (false = true) by tauto. discriminate.
  Qed.

  Variables (o : O) (fp : field_path).

  (** what visiting stores for a field, from fuel [n0] on *)
  Definition stores (n0 : nat) (key : string) (c : chosen) (x : result rr) : Prop :=
    (has_field o (ch_name c) = false -> x = Throw (SchemaEx [mkErr ("Unknown field name: " ++ ch_name c) (ch_loc c) (build_error_path fp)])) /\
    (has_field o (ch_name c) = true -> forall n, n0 <= n ->
       dfield O ans e (dvisit n e) o fp (ch_around c) (ch_loc c) key (ch_name c) (ch_args c) (ch_dirs c) (ch_sub c) = Ok x).

  Inductive visits (n0 : nat) : list (string * option chosen) -> dstate -> dstate -> Prop :=
  | vs_nil d : visits n0 [] d d
  | vs_seen k x rest d d' : In k (d_names d) -> visits n0 rest d d' -> visits n0 ((k, x) :: rest) d d'
  | vs_dropped k rest d d' : ~ In k (d_names d) -> visits n0 rest (mkD (d_names d ++ [k]) (d_values d)) d' -> visits n0 ((k, None) :: rest) d d'
  | vs_stored k c x rest d d' : ~ In k (d_names d) -> stores n0 k c x ->
      visits n0 rest (mkD (d_names d ++ [k]) (d_values d ++ [(k, x)])) d' -> visits n0 ((k, Some c) :: rest) d d'.

  Lemma visits_app : forall n0 a b d d', visits n0 (a ++ b) d d' -> exists d1, visits n0 a d d1 /\ visits n0 b d1 d'.
  Proof.
    intros n0 a. induction a as [|[k x] a IH]; intros b d d' H; simpl in H.
    - exists d. split; [constructor|exact H].
    - inversion H; subst.
      + destruct (IH _ _ _ H6) as (d1 & H1 & H2). exists d1. split; [apply vs_seen|]; auto.
      + destruct (IH _ _ _ H6) as (d1 & H1 & H2). exists d1. split; [apply vs_dropped|]; auto.
      + destruct (IH _ _ _ H7) as (d1 & H1 & H2). exists d1. split; [eapply vs_stored; eauto|]; auto.
  Qed.

  Lemma collects_visit : forall fd sels items, collects vars (e_frags e) (typenames o) (has_field o) fd sels items ->
    forall n0, exists m, forall n d d', m <= n -> visits n0 items d d' -> dvisit_all (dvisit n e o fp fd) sels d = Ok d'.
  Proof.
    intros fd sels items H n0.
    induction H as [fd|fd loc al nm args avs dirs ds sub rest items D A X IH|fd loc al nm args dirs ds sub rest items D K X IH
      |fd loc nm fr dirs ds rest i1 i2 F T D X1 IH1 X2 IH2|fd loc nm fr dirs ds rest i2 F T X2 IH2
      |fd loc c dirs ds sel rest i1 i2 C D X1 IH1 X2 IH2|fd loc c dirs ds b sel rest i2 D C X2 IH2].
    - exists 0. intros n d d' _ V. inversion V; subst. reflexivity.
    - destruct IH as [m IH]. exists (S (m + n0)). intros n d d' Hn V. destruct n as [|n]; [lia|]. cbn [dvisit_all]. rewrite dvisit_S. cbn [dstep].
      assert (Hrest : forall d1, visits n0 items d1 d' -> dvisit_all (dvisit (S n) e o fp fd) rest d1 = Ok d') by (intros; apply IH; [lia|auto]).
      unfold dvisit_field. inversion V; subst.
      + assert (E : existsb (String.eqb (response_key al nm)) (d_names d) = true) by (apply existsb_eqb_in; auto). rewrite E. cbn [bind]. auto.
      + assert (E : existsb (String.eqb (response_key al nm)) (d_names d) = false) by (apply existsb_eqb_notin; auto). rewrite E.
        destruct H5 as [S1 S2]. cbn [ch_name ch_loc ch_around ch_args ch_dirs ch_sub] in S1, S2.
        destruct (has_field o nm) eqn:Hf; cbn [negb].
        * rewrite (decided_eval _ _ _ D). cbn [bind negb]. apply args_value_iff in A; auto. rewrite Hv, A. cbn [bind].
          rewrite (S2 eq_refl n) by lia. cbn [bind]. auto.
        * rewrite (S1 eq_refl) in H6. cbn [bind]. auto.
    - destruct IH as [m IH]. exists (S (m + n0)). intros n d d' Hn V. destruct n as [|n]; [lia|]. cbn [dvisit_all]. rewrite dvisit_S. cbn [dstep].
      assert (Hrest : forall d1, visits n0 items d1 d' -> dvisit_all (dvisit (S n) e o fp fd) rest d1 = Ok d') by (intros; apply IH; [lia|auto]).
      unfold dvisit_field. rewrite K. inversion V; subst.
      + assert (E : existsb (String.eqb (response_key al nm)) (d_names d) = true) by (apply existsb_eqb_in; auto). rewrite E. cbn [bind]. auto.
      + assert (E : existsb (String.eqb (response_key al nm)) (d_names d) = false) by (apply existsb_eqb_notin; auto). rewrite E.
        cbn [negb]. rewrite (decided_eval _ _ _ D). cbn [bind negb]. auto.
    - destruct IH1 as [m1 IH1], IH2 as [m2 IH2]. exists (S (m1 + m2)). intros n d d' Hn V. destruct n as [|n]; [lia|].
      apply visits_app in V as (d1 & V1 & V2). cbn [dvisit_all]. rewrite dvisit_S. cbn [dstep]. unfold dvisit_spread. rewrite F.
      assert (M : matches_type O typenames o (fr_type fr) = true) by (apply matches_iff; auto). rewrite M. cbn [negb].
      rewrite (decided_eval _ _ _ D). cbn [bind negb]. rewrite !merge_overlaid. rewrite (IH1 n d d1) by (lia || auto). cbn [bind].
      apply IH2; [lia|auto].
    - destruct IH2 as [m2 IH2]. exists (S m2). intros n d d' Hn V. destruct n as [|n]; [lia|]. cbn [dvisit_all]. rewrite dvisit_S. cbn [dstep]. unfold dvisit_spread. rewrite F.
      destruct (matches_type O typenames o (fr_type fr)) eqn:M; cbn [negb bind]; [|apply IH2; [lia|auto]].
      destruct T as [T|D]; [apply matches_iff in M; contradiction|]. rewrite (decided_eval _ _ _ D). cbn [bind negb]. apply IH2; [lia|auto].
    - destruct IH1 as [m1 IH1], IH2 as [m2 IH2]. exists (S (m1 + m2)). intros n d d' Hn V. destruct n as [|n]; [lia|].
      apply visits_app in V as (d1 & V1 & V2). cbn [dvisit_all]. rewrite dvisit_S. cbn [dstep]. unfold dvisit_inline. rewrite (decided_eval _ _ _ D). cbn [bind negb].
      assert (M : (match c with Some (_, t) => matches_type O typenames o t | None => true end) = true).
      { destruct c as [[l t]|]; auto. apply matches_iff. eapply C; eauto. }
      rewrite M, merge_overlaid. rewrite (IH1 n d d1) by (lia || auto). cbn [bind]. apply IH2; [lia|auto].
    - destruct IH2 as [m2 IH2]. exists (S m2). intros n d d' Hn V. destruct n as [|n]; [lia|]. cbn [dvisit_all]. rewrite dvisit_S. cbn [dstep]. unfold dvisit_inline.
      rewrite (decided_eval _ _ _ D). cbn [bind]. destruct b; cbn [negb bind]; [|apply IH2; [lia|auto]].
      destruct C as [C|[l [t [-> C]]]]; [discriminate|]. apply matches_false in C. rewrite C. cbn [bind]. apply IH2; [lia|auto].
  Qed.

  Lemma firsts_filter : forall {A} f (l : list (string * A)),
    filter (fun kv => f (fst kv)) (firsts l) = firsts (filter (fun kv => f (fst kv)) l).
  Proof.
    intros A f l. induction l as [|[k v] l IH]; simpl; auto. destruct (f k) eqn:E; simpl.
    - f_equal. rewrite filter_comm. now rewrite IH.
    - rewrite <- IH. rewrite filter_comm. clear IH. induction (firsts l) as [|[k' v'] r IH]; simpl; auto.
      destruct (f k') eqn:E'; simpl; auto. destruct (String.eqb_spec k' k); simpl; [congruence|]. now rewrite IH.
  Qed.

  Definition fresh (d : dstate) (items : list (string * option chosen)) := filter (fun kc => negb (existsb (String.eqb (fst kc)) (d_names d))) items.

  (** visiting stores the first of each key *)
  Lemma visits_first : forall n0 items d xs,
    Forall2 (fun kc x => stores n0 (fst kc) (snd kc) x) (first_chosen (fresh d items)) xs ->
    exists d', visits n0 items d d' /\ d_values d' = d_values d ++ combine (map fst (first_chosen (fresh d items))) xs.
  Proof.
    intros n0 items. induction items as [|[k x] items IH]; intros d xs H.
    - inversion H; subst. exists d. split; [constructor|]. simpl. now rewrite app_nil_r.
    - unfold fresh in *. simpl in *. destruct (existsb (String.eqb k) (d_names d)) eqn:E; simpl in *.
      + destruct (IH d xs H) as (d' & V & Ev). exists d'. split; [apply vs_seen; [apply existsb_eqb_in; auto|auto]|auto].
      + apply existsb_eqb_notin in E. unfold first_chosen in *. cbn [firsts flat_map fst snd] in *.
        assert (F : forall vals, filter (fun kv : string * option chosen => negb (fst kv =? k)) (firsts (filter (fun kc : string * option chosen => negb (existsb (String.eqb (fst kc)) (d_names d))) items))
                 = firsts (filter (fun kc : string * option chosen => negb (existsb (String.eqb (fst kc)) (d_names (mkD (d_names d ++ [k]) vals)))) items)).
        { intros vals. rewrite (firsts_filter (fun s => negb (s =? k))). f_equal. rewrite filter_filter. apply filter_ext. intros [k' y]. simpl.
          rewrite existsb_app. simpl. rewrite Bool.orb_false_r, Bool.negb_orb. reflexivity. }
        destruct x as [c|]; simpl in H.
        * inversion H as [|? x ? xs' Hx Hr]; subst. rewrite (F (d_values d ++ [(k, x)])) in *. destruct (IH _ _ Hr) as (d' & V & Ev).
          exists d'. split; [eapply vs_stored; eauto|]. rewrite Ev. simpl. now rewrite <- app_assoc.
        * rewrite (F (d_values d)) in *. destruct (IH _ _ H) as (d' & V & Ev). exists d'. split; [apply vs_dropped; auto|]. rewrite Ev. reflexivity.
  Qed.
End Big.
