(** Properties of the values execution computes. *)
From Verif Require Import Cpp Value Ast ErrorModel ExecModel ExecSem ExecSemProofs ExecDirect ExecSpec ExecValues ExecMono.
From Coq Require Import Sorting.Permutation.
Local Open Scope string_scope.
Local Open Scope list_scope.

Lemma existsb_eqb_in : forall k l, existsb (String.eqb k) l = true <-> In k l.
Proof.
  intros k l. rewrite existsb_exists. split.
  - intros [x [H E]]. apply String.eqb_eq in E. now subst.
  - intros H. exists k. split; auto. apply String.eqb_refl.
Qed.
Lemma existsb_eqb_notin : forall k l, existsb (String.eqb k) l = false <-> ~ In k l.
Proof. intros. rewrite <- existsb_eqb_in. destruct (existsb (String.eqb k) l); split; congruence. Qed.

(** ** Collecting the fields of an object *)

(** what one field contributes: its value and its errors *)
Definition outcome (k : string) (r : result rr) : result rr :=
  match r with
  | Ok x => Ok x
  | Throw (SchemaEx errs) => Ok (mkRR VNull errs)
  | Throw (Exn _ w) => Ok (mkRR VNull [mkErr ("Field error name: " ++ k ++ " unknown error: " ++ w) (mkLoc 0 1) []])
  | UB => UB
  end.

Lemma has_key_in : forall k (es : entries), has_key k es = true <-> In k (map fst es).
Proof.
  intros k es. unfold has_key. induction es as [|[k' v] es IH]; simpl; [split; [discriminate|tauto]|].
  destruct (String.eqb_spec k k'); [split; auto|]. rewrite IH. split; auto. intros [H|H]; congruence.
Qed.
Lemma has_key_notin : forall k (es : entries), has_key k es = false <-> ~ In k (map fst es).
Proof. intros. rewrite <- has_key_in. destruct (has_key k es); split; congruence. Qed.

Lemma dcollect_object_eq : forall vals acc, NoDup (map fst vals) -> (forall k, In k (map fst vals) -> ~ In k (map fst (fst acc))) ->
  dcollect_object vals acc =
  (rs <- mapM (fun kv => outcome (fst kv) (snd kv)) vals ;;
   Ok (mkRR (VMap (fst acc ++ combine (map fst vals) (map data rs))) (snd acc ++ flat_map errors rs))).
Proof.
  induction vals as [|[k r] vals IH]; intros [es errs] ND D; simpl.
  - now rewrite !app_nil_r.
  - inversion ND as [|? ? N ND']; subst. assert (K : has_key k es = false) by (apply has_key_notin; apply D; simpl; auto).
    assert (Go : forall v er, dcollect_object vals (es ++ [(k, v)], errs ++ er) =
      (rs <- mapM (fun kv => outcome (fst kv) (snd kv)) vals ;;
       Ok (mkRR (VMap (es ++ (k, v) :: combine (map fst vals) (map data rs))) (errs ++ er ++ flat_map errors rs)))).
    { intros v er. rewrite IH; auto.
      - simpl. destruct (mapM _ vals); simpl; auto. now rewrite <- !app_assoc.
      - simpl. intros k' H' H''. rewrite map_app in H''. apply in_app_iff in H''. simpl in H''. destruct H'' as [H''|[H''|[]]].
        + eapply D; eauto. simpl. auto.
        + subst. contradiction. }
    unfold object_step, map_emplace. simpl fst; simpl snd. rewrite K.
    destruct r as [x|[cls w|er]|]; simpl; try (rewrite Go; destruct (mapM _ vals); reflexivity). reflexivity.
Qed.

Section Values.
  Variable O : Type.
  Variables (typenames : O -> list string) (has_field : O -> string -> bool).
  Variable ans : O -> string -> fparams -> answer O.
  Notation dvisit := (dvisit O typenames has_field ans).
  Notation dresolve := (dresolve O typenames has_field ans).

  Definition dstep (env : env) (v : dvisitor O) : dvisitor O :=
    fun o fp fd s st => match s with
        | SField loc alias name args dirs sub => dvisit_field O has_field ans env v o fp fd loc alias name args dirs sub st
        | SSpread loc name dirs => dvisit_spread O typenames env v o fp fd loc name dirs st
        | SInline loc cond dirs sel => dvisit_inline O typenames env v o fp fd cond dirs sel st end.
  Lemma dvisit_S : forall n env o fp fd s st, dvisit (S n) env o fp fd s st = dstep env (dvisit n env) o fp fd s st.
  Proof. reflexivity. Qed.

  (** the stored keys are names that were visited, once each *)
  Definition wf_st (d : dstate) : Prop := NoDup (map fst (d_values d)) /\ incl (map fst (d_values d)) (d_names d).

  Lemma wf_all : forall v, (forall s d d', wf_st d -> v s d = Ok d' -> wf_st d') ->
    forall sels d d', wf_st d -> dvisit_all v sels d = Ok d' -> wf_st d'.
  Proof.
    intros v Hv. induction sels as [|s sels IH]; intros d d' W H; simpl in H.
    - inversion H; now subst.
    - destruct (v s d) as [d1| |] eqn:E; simpl in H; try discriminate. eapply IH; [eapply Hv; eauto | exact H].
  Qed.

  Lemma wf_store : forall d k r, wf_st d -> ~ In k (d_names d) -> wf_st (mkD (d_names d ++ [k]) (d_values d ++ [(k, r)])).
  Proof.
    intros d k r [ND I] N. split; simpl; rewrite map_app; simpl.
    - apply (Permutation_NoDup (l := k :: map fst (d_values d))).
      + apply Permutation_cons_append.
      + constructor; auto.
    - intros x Hx. apply in_app_iff in Hx. apply in_app_iff. destruct Hx as [Hx|Hx]; auto.
  Qed.
  Lemma wf_names : forall d k, wf_st d -> wf_st (mkD (d_names d ++ [k]) (d_values d)).
  Proof. intros d k [ND I]. split; simpl; auto. intros x Hx. apply in_app_iff. auto. Qed.

  Lemma wf_visit : forall n env o fp fd s d d', wf_st d -> dvisit n env o fp fd s d = Ok d' -> wf_st d'.
  Proof.
    induction n as [|n IH]; intros env o fp fd s d d' W H; [discriminate|].
    rewrite dvisit_S in H. destruct s as [loc alias name args dirs sub|loc name dirs|loc cond dirs sel]; simpl in H.
    - unfold dvisit_field in H. set (key := response_key alias name) in *.
      destruct (existsb (String.eqb key) (d_names d)) eqn:E; [inversion H; now subst|].
      apply existsb_eqb_notin in E.
      destruct (negb (has_field o name)); [inversion H; subst; now apply wf_store|].
      destruct (directives_of env dirs) as [[ds [|]]| |]; simpl in H; try discriminate.
      + inversion H; subst. now apply wf_names.
      + destruct (visit_arguments (e_vars env) args []); simpl in H; try discriminate.
        destruct (dfield _ _ _ _ _ _ _ _ _ _ _ _); simpl in H; try discriminate. inversion H; subst. now apply wf_store.
    - unfold dvisit_spread in H. destruct (find_fragment name (e_frags env)); try discriminate.
      destruct (negb _); [inversion H; now subst|].
      destruct (directives_of env dirs) as [[ds [|]]| |]; simpl in H; try discriminate; [inversion H; now subst|].
      eapply wf_all; [|exact W|exact H]. intros; eapply IH; eauto.
    - unfold dvisit_inline in H.
      destruct (directives_of env dirs) as [[ds [|]]| |]; simpl in H; try discriminate; [inversion H; now subst|].
      destruct (match cond with Some _ => _ | None => _ end); [|inversion H; now subst].
      eapply wf_all; [|exact W|exact H]. intros; eapply IH; eauto.
  Qed.

  Lemma wf_nil : wf_st (mkD [] []).
  Proof. split; simpl; [constructor | intros x []]. Qed.

  (** the outcome of a selection set, from the values stored *)
  Lemma dresolve_eq : forall n env o fp sels, dresolve n env o fp sels =
    (d <- dvisit_all (dvisit n env o fp no_fdirs) sels (mkD [] []) ;;
     rs <- mapM (fun kv => outcome (fst kv) (snd kv)) (d_values d) ;;
     Ok (mkRR (VMap (combine (map fst (d_values d)) (map data rs))) (flat_map errors rs))).
  Proof.
    intros. unfold dresolve, dresolve_with. destruct (dvisit_all _ sels (mkD [] [])) as [d| |] eqn:E; simpl; auto.
    rewrite dcollect_object_eq; simpl; auto.
    apply (wf_all (dvisit n env o fp no_fdirs)) in E; [apply E | intros; eapply wf_visit; eauto | apply wf_nil].
  Qed.

  Lemma mapM_length : forall (A B : Type) (f : A -> result B) l ys, mapM f l = Ok ys -> length ys = length l.
  Proof. intros A B f l ys H. apply mapM_forall2 in H. induction H; simpl; auto. Qed.

  Lemma combine_keys : forall (A : Type) (ks : list string) (vs : list A), length ks = length vs -> map fst (combine ks vs) = ks.
  Proof. intros A ks. induction ks; intros [|v vs] H; simpl in *; try lia; auto. f_equal. apply IHks. lia. Qed.

  (** ** C12 *)
  Definition first_kept (occs : list occurrence) : list string :=
    map fst (filter snd (firsts (map (fun oc => (oc_key oc, oc_kept oc)) occs))).

  Fixpoint scan (occs : list occurrence) (ns : list string) : list string * list string :=
    match occs with
    | [] => ([], ns)
    | oc :: r =>
        if existsb (String.eqb (oc_key oc)) ns then scan r ns
        else let (ks, ns') := scan r (ns ++ [oc_key oc]) in ((if oc_kept oc then [oc_key oc] else []) ++ ks, ns')
    end.

  Lemma scan_app : forall a b ns, scan (a ++ b) ns =
    (fst (scan a ns) ++ fst (scan b (snd (scan a ns))), snd (scan b (snd (scan a ns)))).
  Proof.
    induction a as [|oc a IH]; intros b ns; simpl; [now destruct (scan b ns)|].
    destruct (existsb _ ns); [apply IH|]. rewrite IH. destruct (scan a (ns ++ [oc_key oc])) as [ks ns']. simpl.
    now rewrite app_assoc.
  Qed.

  Definition tracks (occs : list occurrence) (d d' : dstate) : Prop :=
    d_names d' = snd (scan occs (d_names d)) /\ map fst (d_values d') = map fst (d_values d) ++ fst (scan occs (d_names d)).

  Lemma tracks_app : forall a b d1 d2 d3, tracks a d1 d2 -> tracks b d2 d3 -> tracks (a ++ b) d1 d3.
  Proof.
    intros a b d1 d2 d3 [A1 A2] [B1 B2]. unfold tracks. rewrite scan_app. simpl. rewrite <- A1. split; auto.
    rewrite B2, A2, <- app_assoc. reflexivity.
  Qed.

  Lemma expand_visit : forall vars types frags sels occs, expands vars frags types sels occs -> copyable vars ->
    forall env o, e_vars env = VMap vars -> e_frags env = frags -> typenames o = types ->
    Forall (fun oc => has_field o (oc_name oc) = true) occs ->
    forall n fp fd d d', dvisit_all (dvisit n env o fp fd) sels d = Ok d' -> tracks occs d d'.
  Proof.
    intros vars types frags sels occs H Hc env o Hv Hf Ht.
    assert (Dec : forall dirs b, decides vars dirs b -> exists ds, directives_of env dirs = Ok (ds, negb b)).
    { intros dirs b D. destruct (decides_iff _ _ _ Hc D) as [ds [E1 E2]]. exists ds. unfold directives_of. rewrite Hv, E1. simpl. now rewrite E2. }
    assert (MT : forall t, matches_type O typenames o t = true <-> In t types).
    { intros t. unfold matches_type. rewrite existsb_eqb_in, Ht. tauto. }
    induction H as [|loc al nm args dirs sub b rest occs D X IH|loc nm fr dirs rest o1 o2 F T D X1 IH1 X2 IH2
      |loc nm fr dirs rest o2 F T X2 IH2|loc c dirs sel rest o1 o2 C D X1 IH1 X2 IH2|loc c dirs sel rest b o2 D C X2 IH2];
      intros HF n fp fd d d' E; simpl in E.
    - inversion E; subst. split; simpl; auto. now rewrite app_nil_r.
    - destruct (dvisit n env o fp fd _ d) as [d1| |] eqn:V; simpl in E; try discriminate.
      inversion HF as [|? ? HF1 HF2]; subst.
      change (mkOcc (response_key al nm) nm b :: occs) with ([mkOcc (response_key al nm) nm b] ++ occs).
      eapply tracks_app; [|eapply IH; eauto].
      destruct n as [|n]; [discriminate|]. rewrite dvisit_S in V. simpl in V. unfold dvisit_field in V. simpl in HF1. rewrite HF1 in V. simpl in V.
      unfold tracks. simpl. destruct (existsb _ (d_names d)) eqn:Ex.
      { inversion V; subst. simpl. now rewrite app_nil_r. }
      destruct (Dec _ _ D) as [ds Ed]. rewrite Ed in V. simpl in V. destruct b; simpl in V.
      + destruct (visit_arguments (e_vars env) args []); simpl in V; try discriminate.
        destruct (dfield _ _ _ _ _ _ _ _ _ _ _ _); simpl in V; try discriminate. inversion V; subst. simpl.
        rewrite map_app. split; auto.
      + inversion V; subst. simpl. now rewrite app_nil_r.
    - destruct (dvisit n env o fp fd _ d) as [d1| |] eqn:V; simpl in E; try discriminate.
      apply Forall_app in HF. destruct HF as [HF1 HF2]. eapply tracks_app; [|eapply IH2; eauto].
      destruct n as [|n]; [discriminate|]. rewrite dvisit_S in V. simpl in V. unfold dvisit_spread in V. rewrite Hf, F in V.
      apply MT in T. rewrite T in V. simpl in V. destruct (Dec _ _ D) as [ds Ed]. rewrite Ed in V. simpl in V.
      eapply IH1; eauto.
    - destruct (dvisit n env o fp fd _ d) as [d1| |] eqn:V; simpl in E; try discriminate.
      assert (d1 = d) as ->; [|eapply IH2; eauto].
      destruct n as [|n]; [discriminate|]. rewrite dvisit_S in V. simpl in V. unfold dvisit_spread in V. rewrite Hf, F in V.
      destruct (matches_type O typenames o (fr_type fr)) eqn:M; simpl in V; [|now inversion V].
      destruct T as [T|D]; [apply MT in M; contradiction|]. destruct (Dec _ _ D) as [ds Ed]. rewrite Ed in V. simpl in V. now inversion V.
    - destruct (dvisit n env o fp fd _ d) as [d1| |] eqn:V; simpl in E; try discriminate.
      apply Forall_app in HF. destruct HF as [HF1 HF2]. eapply tracks_app; [|eapply IH2; eauto].
      destruct n as [|n]; [discriminate|]. rewrite dvisit_S in V. simpl in V. unfold dvisit_inline in V.
      destruct (Dec _ _ D) as [ds Ed]. rewrite Ed in V. simpl in V.
      assert (M : (match c with Some (_, t) => matches_type O typenames o t | None => true end) = true).
      { destruct c as [[l t]|]; auto. apply MT. eapply C; eauto. }
      rewrite M in V. eapply IH1; eauto.
    - destruct (dvisit n env o fp fd _ d) as [d1| |] eqn:V; simpl in E; try discriminate.
      assert (d1 = d) as ->; [|eapply IH2; eauto].
      destruct n as [|n]; [discriminate|]. rewrite dvisit_S in V. simpl in V. unfold dvisit_inline in V.
      destruct (Dec _ _ D) as [ds Ed]. rewrite Ed in V. simpl in V. destruct b; simpl in V; [|now inversion V].
      destruct C as [C|[l [t [-> C]]]]; [discriminate|]. destruct (matches_type O typenames o t) eqn:M; [apply MT in M; contradiction|now inversion V].
  Qed.

  Lemma scan_firsts : forall occs ns, fst (scan occs ns) =
    map fst (filter snd (filter (fun kv => negb (existsb (String.eqb (fst kv)) ns)) (firsts (map (fun oc => (oc_key oc, oc_kept oc)) occs)))).
  Proof.
    induction occs as [|oc occs IH]; intros ns; simpl; auto.
    destruct (existsb (String.eqb (oc_key oc)) ns) eqn:E; simpl.
    - rewrite IH. rewrite (filter_filter _ _ (fun kv => negb (String.eqb (fst kv) (oc_key oc)))). do 2 f_equal.
      apply filter_ext. intros [k b]; simpl. destruct (String.eqb_spec k (oc_key oc)); subst; simpl; auto. now rewrite E.
    - specialize (IH (ns ++ [oc_key oc])). destruct (scan occs (ns ++ [oc_key oc])) as [ks ns'] eqn:S. simpl in *.
      rewrite IH. rewrite (filter_filter _ _ (fun kv => negb (String.eqb (fst kv) (oc_key oc)))).
      assert (X : filter (fun kv => negb (existsb (String.eqb (fst kv)) (ns ++ [oc_key oc]))) (firsts (map (fun oc => (oc_key oc, oc_kept oc)) occs))
        = filter (fun x => negb (fst x =? oc_key oc) && negb (existsb (String.eqb (fst x)) ns))%bool (firsts (map (fun oc => (oc_key oc, oc_kept oc)) occs))).
      { apply filter_ext. intros [k b]; simpl. rewrite existsb_app. simpl. rewrite Bool.orb_false_r, Bool.negb_orb. apply Bool.andb_comm. }
      rewrite X. destruct (oc_kept oc); reflexivity.
  Qed.

  (** the keys of the result: those whose first occurrence is kept *)
  Lemma keys_exact : forall vars env o sels occs n fp r, copyable vars -> e_vars env = VMap vars ->
    expands vars (e_frags env) (typenames o) sels occs -> Forall (fun oc => has_field o (oc_name oc) = true) occs ->
    dresolve n env o fp sels = Ok r -> exists es, data r = VMap es /\ map fst es = first_kept occs.
  Proof.
    intros vars env o sels occs n fp r Hc Hv X HF E. rewrite dresolve_eq in E.
    destruct (dvisit_all _ sels (mkD [] [])) as [d| |] eqn:V; simpl in E; try discriminate.
    destruct (mapM _ (d_values d)) as [rs| |] eqn:M; simpl in E; try discriminate. inversion E; subst. simpl.
    eexists; split; [reflexivity|]. rewrite combine_keys.
    - destruct (expand_visit _ _ _ _ _ X Hc env o Hv eq_refl eq_refl HF _ _ _ _ _ V) as [_ K]. rewrite K. simpl.
      rewrite scan_firsts. unfold first_kept. do 2 f_equal. apply filter_true. reflexivity.
    - rewrite !map_length. symmetry. eapply mapM_length; eauto.
  Qed.

  (** ** C13: fields are independent *)
  Definition key_of (s : selection) : option string :=
    match s with SField _ al n _ _ _ => Some (response_key al n) | _ => None end.

  Lemma field_alone : forall n env o fp fd s k d, key_of s = Some k -> ~ In k (d_names d) ->
    dvisit n env o fp fd s d =
    (x <- dvisit n env o fp fd s (mkD [] []) ;; Ok (mkD (d_names d ++ d_names x) (d_values d ++ d_values x))).
  Proof.
    intros n env o fp fd s k d Hk N. destruct n as [|n]; [reflexivity|]. destruct s as [loc al nm args dirs sub| |]; try discriminate.
    simpl in Hk. inversion Hk; subst k. rewrite !dvisit_S. simpl. unfold dvisit_field. simpl.
    apply existsb_eqb_notin in N. rewrite N.
    destruct (negb _); simpl; auto.
    destruct (directives_of env dirs) as [[ds [|]]| |]; simpl; auto.
    { now rewrite app_nil_r. }
    destruct (visit_arguments _ _ _); simpl; auto. destruct (dfield _ _ _ _ _ _ _ _ _ _ _ _); simpl; auto.
  Qed.

  Lemma field_names : forall n env o fp fd s k d, key_of s = Some k -> dvisit n env o fp fd s (mkD [] []) = Ok d ->
    d_names d = [k] /\ incl (map fst (d_values d)) [k] /\ NoDup (map fst (d_values d)).
  Proof.
    intros n env o fp fd s k d Hk H. pose proof (wf_visit _ _ _ _ _ _ _ _ wf_nil H) as [W1 W2].
    assert (E0 : d_names d = [k]); [|split; [auto|]; split; [rewrite E0 in W2; exact W2|auto]].
    destruct n as [|n]; [discriminate|]. destruct s as [loc al nm args dirs sub| |]; try discriminate.
    simpl in Hk. inversion Hk; subst k. rewrite !dvisit_S in H. simpl in H. unfold dvisit_field in H. simpl in H.
    destruct (negb _); simpl in H; [inversion H; subst; reflexivity|].
    destruct (directives_of env dirs) as [[ds [|]]| |]; simpl in H; try discriminate.
    { inversion H; subst; reflexivity. }
    destruct (visit_arguments _ _ _); simpl in H; try discriminate. destruct (dfield _ _ _ _ _ _ _ _ _ _ _ _); simpl in H; try discriminate.
    inversion H; subst; reflexivity.
  Qed.

  Lemma fields_alone : forall n env o fp fd sels ks, map key_of sels = map Some ks -> NoDup ks ->
    forall d, (forall k, In k ks -> ~ In k (d_names d)) ->
    dvisit_all (dvisit n env o fp fd) sels d =
    (xs <- mapM (fun s => dvisit n env o fp fd s (mkD [] [])) sels ;;
     Ok (mkD (d_names d ++ flat_map d_names xs) (d_values d ++ flat_map d_values xs))).
  Proof.
    intros n env o fp fd. induction sels as [|s sels IH]; intros ks Hk ND d D; simpl.
    - now rewrite !app_nil_r; destruct d.
    - destruct ks as [|k ks]; [discriminate|]. simpl in Hk. inversion Hk as [[Hk1 Hk2]]. inversion ND as [|? ? N ND']; subst.
      rewrite (field_alone n env o fp fd s k d Hk1); [|apply D; simpl; auto].
      destruct (dvisit n env o fp fd s (mkD [] [])) as [x| |] eqn:X; simpl; auto.
      destruct (field_names _ _ _ _ _ _ _ _ Hk1 X) as [Nm _].
      rewrite (IH ks Hk2 ND').
      + destruct (mapM _ sels); simpl; auto. now rewrite <- !app_assoc.
      + simpl. rewrite Nm. intros k' H' H''. apply in_app_iff in H''. simpl in H''. destruct H'' as [H''|[H''|[]]].
        * eapply D; eauto. simpl. auto.
        * subst. contradiction.
  Qed.

  Lemma dresolve_single : forall n env o fp s, dresolve n env o fp [s] =
    (d <- dvisit n env o fp no_fdirs s (mkD [] []) ;;
     rs <- mapM (fun kv => outcome (fst kv) (snd kv)) (d_values d) ;;
     Ok (mkRR (VMap (combine (map fst (d_values d)) (map data rs))) (flat_map errors rs))).
  Proof. intros. rewrite dresolve_eq. simpl. now destruct (dvisit n env o fp no_fdirs s (mkD [] [])). Qed.

  Definition entries_of (r : rr) : entries := match data r with VMap es => es | _ => [] end.

  Lemma mapM_app : forall (A B : Type) (f : A -> result B) a b, mapM f (a ++ b) = (x <- mapM f a ;; y <- mapM f b ;; Ok (x ++ y)).
  Proof.
    intros A B f a b. induction a as [|x a IH]; simpl.
    - now destruct (mapM f b).
    - destruct (f x); simpl; auto. rewrite IH. destruct (mapM f a); simpl; auto. destruct (mapM f b); reflexivity.
  Qed.

  Lemma combine_app : forall (A B : Type) (a a' : list A) (b b' : list B), length a = length b ->
    combine (a ++ a') (b ++ b') = combine a b ++ combine a' b'.
  Proof. intros A B a. induction a as [|x a IH]; intros a' [|y b] b' H; simpl in *; try lia; auto. f_equal. apply IH. lia. Qed.

  Definition join_rr (rs : list rr) : rr := mkRR (VMap (flat_map entries_of rs)) (flat_map errors rs).

  (** a list of fields with distinct keys: the results of the fields on their own, put together *)
  Lemma fields_compose : forall n env o fp sels ks, map key_of sels = map Some ks -> NoDup ks ->
    forall r, dresolve n env o fp sels = Ok r <->
    exists rs, Forall2 (fun s x => dresolve n env o fp [s] = Ok x) sels rs /\ r = join_rr rs.
  Proof.
    intros n env o fp sels ks Hk ND r. rewrite dresolve_eq.
    rewrite (fields_alone n env o fp no_fdirs sels ks Hk ND); [|simpl; auto].
    clear Hk ND ks. simpl.
    transitivity (exists xs rss, Forall2 (fun s x => dvisit n env o fp no_fdirs s (mkD [] []) = Ok x) sels xs /\
       Forall2 (fun x rs => mapM (fun kv => outcome (fst kv) (snd kv)) (d_values x) = Ok rs) xs rss /\
       r = mkRR (VMap (combine (map fst (flat_map d_values xs)) (map data (concat rss)))) (flat_map errors (concat rss))).
    - assert (G : forall xs rs, mapM (fun kv => outcome (fst kv) (snd kv)) (flat_map d_values xs) = Ok rs <->
         exists rss, Forall2 (fun x rs => mapM (fun kv => outcome (fst kv) (snd kv)) (d_values x) = Ok rs) xs rss /\ rs = concat rss).
      { induction xs as [|x xs IH]; intros rs; simpl.
        - split; [intros H; inversion H; exists []; split; [constructor|reflexivity] | intros [rss [H ->]]; inversion H; reflexivity].
        - rewrite mapM_app. split.
          + destruct (mapM _ (d_values x)) as [a| |] eqn:E1; simpl; try discriminate.
            destruct (mapM _ (flat_map d_values xs)) as [b| |] eqn:E2; simpl; try discriminate. intros H. inversion H; subst.
            destruct (IH b) as [IH1 _]. destruct (IH1 eq_refl) as [rss [F ->]]. exists (a :: rss). split; auto.
          + intros [rss [H ->]]. inversion H as [|? a ? rss' H1 H2]; subst. rewrite H1. simpl.
            destruct (IH (concat rss')) as [_ IH2]. rewrite IH2; [reflexivity|eauto]. }
      split.
      + destruct (mapM (fun s => dvisit n env o fp no_fdirs s (mkD [] [])) sels) as [xs| |] eqn:E; simpl; try discriminate.
        destruct (mapM _ (flat_map d_values xs)) as [rs| |] eqn:E2; simpl; try discriminate. intros H; inversion H; subst.
        apply mapM_forall2 in E. apply G in E2. destruct E2 as [rss [F ->]]. exists xs, rss. auto.
      + intros [xs [rss [F1 [F2 ->]]]]. apply mapM_forall2 in F1. rewrite F1. simpl.
        destruct (G xs (concat rss)) as [_ G2]. rewrite G2; [reflexivity | eauto].
    - split.
      + intros [xs [rss [F1 [F2 ->]]]].
        exists (map (fun xr => mkRR (VMap (combine (map fst (d_values (fst xr))) (map data (snd xr)))) (flat_map errors (snd xr))) (combine xs rss)).
        revert rss F2. induction F1 as [|s x sels xs E F1 IH]; intros rss F2; inversion F2 as [|? rs ? rss' E2 F2']; subst; simpl.
        * split; [constructor | reflexivity].
        * destruct (IH _ F2') as [I1 I2]. split.
          { constructor; auto. rewrite dresolve_single, E. simpl. now rewrite E2. }
          unfold join_rr in *. simpl. inversion I2 as [[J1 J2]].
          assert (L : length (map fst (d_values x)) = length (map data rs)) by (rewrite !map_length; symmetry; eapply mapM_length; eauto).
          rewrite !map_app, combine_app, flat_map_app by auto. rewrite J1, J2. reflexivity.
      + intros [rs [F ->]]. unfold join_rr. induction F as [|s x sels rs E F IH].
        * exists [], []. split; [constructor|]. split; [constructor|]. reflexivity.
        * destruct IH as [xs [rss [F1 [F2 J]]]]. rewrite dresolve_single in E.
          destruct (dvisit n env o fp no_fdirs s (mkD [] [])) as [d| |] eqn:V; simpl in E; try discriminate.
          destruct (mapM _ (d_values d)) as [rs1| |] eqn:M; simpl in E; try discriminate. inversion E; subst x.
          exists (d :: xs), (rs1 :: rss). split; [constructor; auto|]. split; [constructor; auto|].
          inversion J as [[J1 J2]]. simpl.
          assert (L : length (map fst (d_values d)) = length (map data rs1)) by (rewrite !map_length; symmetry; eapply mapM_length; eauto).
          rewrite !map_app, combine_app, flat_map_app by auto. rewrite J1, J2. reflexivity.
  Qed.
End Values.
