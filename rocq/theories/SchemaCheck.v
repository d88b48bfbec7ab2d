(** Decides [schema_wf], for examples. *)
From Verif Require Import Cpp Value Ast SchemaModel ValidationSpec.
Local Open Scope string_scope.
Local Open Scope list_scope.

Section Check.
  Variable S : schema.
  Fixpoint distinct_b (l : list string) : bool := match l with [] => true | x :: r => negb (existsb (String.eqb x) r) && distinct_b r end.
  Definition is_b (n : string) (ks : list type_kind) : bool := match find_type S n with Some d => existsb (kind_eqb (td_kind d)) ks | None => false end.
  Fixpoint proper_b (t : tref) : bool := match t with TNamed _ => true | TListOf t' => proper_b t' | TNonNull (TNonNull _) => false | TNonNull t' => proper_b t' end.
  Definition inputs_b (l : list input_value) : bool :=
    distinct_b (map iv_name l) && forallb (fun a => proper_b (iv_type a) && is_b (named_type (iv_type a)) [SCALAR; ENUM; INPUT_OBJECT]) l.
  Definition field_b (f : field_def) : bool :=
    negb (existsb (String.eqb (fd_name f)) [""; "__typename"; "__schema"; "__type"]) && proper_b (fd_type f) &&
    match find_type S (named_type (fd_type f)) with Some d => negb (kind_eqb (td_kind d) INPUT_OBJECT) | None => false end && inputs_b (fd_args f).
  Definition type_b (e : string * type_def) : bool :=
    negb (String.eqb (fst e) "") && negb (existsb (kind_eqb (td_kind (snd e))) [LIST; NON_NULL]) &&
    distinct_b (map fd_name (td_fields (snd e))) && forallb field_b (td_fields (snd e)) &&
    (negb (kind_eqb (td_kind (snd e)) UNION) || match td_fields (snd e) with [] => true | _ => false end) &&
    (negb (kind_eqb (td_kind (snd e)) INPUT_OBJECT) || inputs_b (td_inputs (snd e))).
  Definition root_b (o : option string) : bool := match o with Some t => is_b t [OBJECT] | None => true end.
  Definition schema_wf_b : bool :=
    forallb type_b (s_types S) && (distinct_b (map dd_name (s_directives S)) && forallb (fun d => inputs_b (dd_args d)) (s_directives S)) &&
    is_b "String" [SCALAR] && (negb (s_introspection S) || is_b "__Schema" [OBJECT] && is_b "__Type" [OBJECT]) &&
    is_b (s_query S) [OBJECT] && root_b (s_mutation S) && root_b (s_subscription S).

  Lemma distinct_ok l : distinct_b l = true -> NoDup l.
  Proof.
    induction l as [|x l IH]; intros H; [constructor|]. cbn in H. apply andb_true_iff in H as [H1 H2]. constructor; [|auto]. intros Hx. apply negb_true_iff in H1.
    assert (H : existsb (String.eqb x) l = true) by (apply existsb_exists; exists x; split; [exact Hx|apply String.eqb_refl]). congruence.
  Qed.
  Lemma kind_eqb_ok a b : kind_eqb a b = true <-> a = b.
  Proof. destruct a, b; cbn; split; intros H; congruence. Qed.
  Lemma is_ok_b n ks : is_b n ks = true -> exists k, In k ks /\ type_is S n k.
  Proof.
    unfold is_b. destruct (find_type S n) as [d|] eqn:E; [|discriminate]. intros H. apply existsb_exists in H as (k & Hk & Ek). apply kind_eqb_ok in Ek. exists k. split; [exact Hk|]. exists d. auto.
  Qed.
  Lemma is_one n k : is_b n [k] = true -> type_is S n k.
  Proof. intros H. apply is_ok_b in H as (k' & [<-|[]] & H). exact H. Qed.
  Lemma proper_ok t : proper_b t = true -> proper t.
  Proof.
    induction t as [n|t IH|t IH]; cbn; intros H.
    - exact Logic.I.
    - auto.
    - destruct t; try discriminate; split; try discriminate; auto.
  Qed.
  Lemma inputs_ok l : inputs_b l = true -> inputs_wf S l.
  Proof.
    unfold inputs_b. intros H. apply andb_true_iff in H as [H1 H2]. split; [apply distinct_ok; exact H1|]. intros a Ha. rewrite forallb_forall in H2. specialize (H2 a Ha). apply andb_true_iff in H2 as [H2 H3].
    split; [apply proper_ok; exact H2|]. unfold input_type, input_named. apply is_ok_b in H3 as (k & [<-|[<-|[<-|[]]]] & H3); auto.
  Qed.
  Lemma find_in n d : find_type S n = Some d -> In (n, d) (s_types S).
  Proof. unfold find_type. induction (s_types S) as [|[m x] ts IH]; cbn; [discriminate|]. destruct (String.eqb_spec n m) as [->|]; intros E; [injection E as ->; left; reflexivity|right; auto]. Qed.
  Lemma field_ok f : field_b f = true -> ~ In (fd_name f) [""; "__typename"; "__schema"; "__type"] /\ proper (fd_type f) /\
    (exists d', find_type S (named_type (fd_type f)) = Some d' /\ td_kind d' <> INPUT_OBJECT) /\ inputs_wf S (fd_args f).
  Proof.
    unfold field_b. rewrite !andb_true_iff. intros (((H1 & H2) & H3) & H4). split; [|split; [apply proper_ok; exact H2|split; [|apply inputs_ok; exact H4]]].
    - apply negb_true_iff in H1. intros H. assert (X : existsb (String.eqb (fd_name f)) [""; "__typename"; "__schema"; "__type"] = true) by (apply existsb_exists; exists (fd_name f); split; [exact H|apply String.eqb_refl]). congruence.
    - destruct (find_type S (named_type (fd_type f))) as [d|]; [|discriminate]. exists d. split; [reflexivity|]. intros E. apply negb_true_iff in H3. assert (X := proj2 (kind_eqb_ok (td_kind d) INPUT_OBJECT) E). congruence.
  Qed.
  Lemma schema_wf_b_ok : schema_wf_b = true -> schema_wf S.
  Proof.
    unfold schema_wf_b. rewrite !andb_true_iff. intros ((((((HT & (HD1 & HD2)) & HS) & HI) & HQ) & HM) & HU). rewrite forallb_forall in HT, HD2.
    assert (T : forall n d, find_type S n = Some d -> type_b (n, d) = true) by (intros n d E; apply HT, find_in; exact E). clear HT. unfold type_b in T. cbn [fst snd] in T.
    constructor.
    - intros n d E. specialize (T n d E). rewrite !andb_true_iff in T. destruct T as (((((T1 & T2) & T3) & T4) & T5) & T6). apply negb_true_iff, String.eqb_neq in T1. split; [exact T1|]. apply negb_true_iff in T2. cbn in T2.
      destruct (td_kind d); cbn in T2; try discriminate; split; discriminate.
    - intros n d E. specialize (T n d E). rewrite !andb_true_iff in T. destruct T as (((((T1 & T2) & T3) & T4) & T5) & T6). split; [apply distinct_ok; exact T3|]. intros f Hf. rewrite forallb_forall in T4. exact (field_ok f (T4 f Hf)).
    - intros n d E K. specialize (T n d E). rewrite !andb_true_iff in T. destruct T as (((((T1 & T2) & T3) & T4) & T5) & T6). rewrite K in T5. cbn in T5. destruct (td_fields d); [reflexivity|discriminate].
    - intros n d E K. specialize (T n d E). rewrite !andb_true_iff in T. destruct T as (((((T1 & T2) & T3) & T4) & T5) & T6). rewrite K in T6. cbn in T6. apply inputs_ok. exact T6.
    - split; [apply distinct_ok; exact HD1|]. intros dd Hd. apply inputs_ok, HD2. exact Hd.
    - apply is_one. exact HS.
    - intros E. rewrite E in HI. cbn in HI. apply andb_true_iff in HI as [H1 H2]. split; apply is_one; assumption.
    - apply is_one. exact HQ.
    - intros t E. rewrite E in HM. apply is_one. exact HM.
    - intros t E. rewrite E in HU. apply is_one. exact HU.
  Qed.
End Check.
