(** Proofs about clientgen (C52). *)
From Coq Require Import String List Bool NArith Arith Lia.
From Verif Require Import Cpp Value Ast ErrorModel ExecModel ExecSem ExecSpec ExecBigSpec SchemaModel ModifiersModel RoundTripProofs Base64Spec Base64Model Base64Proofs LoaderModel LoaderSpec.
From Verif Require Import ValidationModel ValidationSpec ValidationFields ValidationCheck ValidationSelections ValidationUse ValidationRepeats TypedSpec TypedValues ClientModel ClientSpec.
From Verif Require Layout TypedProofs.
Import ListNotations.
Local Open Scope string_scope.
Local Open Scope list_scope.

(** ** Modifiers *)
Lemma unwrap_name : forall t b, snd (unwrap b t) = named_type t.
Proof.
  induction t as [n|t IH|t IH]; intro b; cbn [unwrap named_type]; [reflexivity| |apply IH].
  specialize (IH false). destruct (unwrap false t) as [ms n]. exact IH.
Qed.
Lemma unwrap_stands : forall t b, proper t -> (b = true -> forall t', t <> TNonNull t') ->
  stands_for (named_type t) (fst (unwrap b t)) (if b then TNonNull t else t).
Proof.
  induction t as [n|t IH|t IH]; intros b P B; cbn [unwrap named_type].
  - destruct b; simpl; [constructor|apply sf_nullable; constructor].
  - specialize (IH false P). destruct (unwrap false t) as [ms n] eqn:E. cbn [fst] in *.
    assert (H : stands_for (named_type t) ms t) by (apply IH; discriminate).
    destruct b; simpl; [now constructor|apply sf_nullable; now constructor].
  - destruct P as (P & N). destruct b; [exfalso; exact (B eq_refl t eq_refl)|]. apply (IH true P). auto.
Qed.

(** ** Structs *)
Lemma forall_choice {A B} (R : A -> B -> Prop) (l : list A) : (forall a, In a l -> exists b, R a b) -> exists l', Forall2 R l l'.
Proof.
  induction l as [|a l IH]; intro H; [exists []; constructor|]. destruct (H a (or_introl eq_refl)) as (b & Hb).
  destruct IH as (l' & F); [intros x I; apply H; now right|]. exists (b :: l'). now constructor.
Qed.
Lemma forall2_nth {A B} (R : A -> B -> Prop) l l' : Forall2 R l l' -> forall i a, nth_error l i = Some a -> exists b, nth_error l' i = Some b /\ R a b.
Proof.
  induction 1 as [|a b l l' H F IH]; intros i x E; [destruct i; discriminate|]. destruct i as [|i]; cbn in *; [injection E as <-; eauto|eauto].
Qed.
Lemma forall2_len {A B} (R : A -> B -> Prop) l l' : Forall2 R l l' -> length l' = length l.
Proof. induction 1; simpl; congruence. Qed.
Lemma nth_forall2 {A B} (R : A -> B -> Prop) l l' : length l' = length l ->
  (forall i a b, nth_error l i = Some a -> nth_error l' i = Some b -> R a b) -> Forall2 R l l'.
Proof.
  revert l'. induction l as [|a l IH]; intros [|b l'] L H; try discriminate; [constructor|]. constructor.
  - now apply (H 0).
  - apply IH; [now injection L|]. intros i. apply (H (Datatypes.S i)).
Qed.

Lemma nth_map_inv {A B} (g : A -> B) l : forall i b, nth_error (map g l) i = Some b -> exists a, nth_error l i = Some a /\ g a = b.
Proof. induction l as [|a l IH]; intros [|i] b E; try discriminate; cbn in *; [injection E as <-; eauto|auto]. Qed.
Lemma nth_map_some {A B} (g : A -> B) l : forall i a, nth_error l i = Some a -> nth_error (map g l) i = Some (g a).
Proof. induction l as [|x l IH]; intros [|i] a E; try discriminate; cbn in *; [now injection E as <-|auto]. Qed.

(** A generated struct is filled from an object: member by member. *)
Lemma struct_filled : forall (fs : list field) (kvs : list (string * value)), NoDup (map fst fs) -> NoDup (map fst kvs) ->
  (forall f v, In f fs -> lookup (fst f) kvs = Some v -> exists x, parse (fst (snd f)) (fst (snd (snd f))) v = Ok x) ->
  exists xs, parse_output (IStruct fs) (VMap kvs) = Ok (XStruct xs) /\
    Forall2 (fun (f : field) x => match lookup (fst f) kvs with
                                  | Some v => parse (fst (snd f)) (fst (snd (snd f))) v = Ok x
                                  | None => x = default_field f
                                  end) fs xs.
Proof.
  intros fs kvs N NK H.
  destruct (forall_choice (fun (f : field) x => match lookup (fst f) kvs with
      | Some v => parse (fst (snd f)) (fst (snd (snd f))) v = Ok x | None => x = default_field f end) fs) as (want & F).
  { intros f I. destruct (lookup (fst f) kvs) as [v|] eqn:L; [apply (H f v I L)|eauto]. }
  exists want. split; [|exact F]. pose proof (forall2_len _ _ _ F) as Lw.
  cbn [parse_output]. unfold parse_struct.
  destruct (parse_fold (map fst fs) (map (fun f : field => parse_mods (parse_output (fst (snd (snd f)))) (fst (snd f))) fs)
             (fun i => nth i want (XInt 0))) with (es := kvs) (cur := map default_field fs) as (out & E & L & O).
  - now rewrite !map_length.
  - exact N.
  - exact NK.
  - intros k v i p I K P. apply (nth_map_inv (A := field)) in K as (f & Ef & K). apply (nth_map_inv (A := field)) in P as (f' & Ef' & <-). rewrite Ef in Ef'. injection Ef' as <-.
    destruct (forall2_nth _ _ _ F i f Ef) as (x & Ex & R).
    rewrite K, (lookup_in_unique _ _ _ NK I) in R. rewrite (nth_error_nth want i (XInt 0) Ex). exact R.
  - now rewrite !map_length.
  - change (fold_left _ kvs (Ok (map default_field fs))) with
      (fold_left (pstep (map fst fs) (map (fun f : field => parse_mods (parse_output (fst (snd (snd f)))) (fst (snd f))) fs)) kvs (Ok (map default_field fs))).
    rewrite E. cbn [bind]. do 2 f_equal. rewrite map_length in L.
    apply nth_ext with (d := XInt 0) (d' := XInt 0); [etransitivity; [exact L|symmetry; exact Lw]|]. intros i Li. rewrite L in Li. change (i < @length field fs) in Li.
    destruct (nth_error fs i) as [f|] eqn:Ef; [|apply nth_error_None in Ef; lia].
    destruct (forall2_nth _ _ _ F i f Ef) as (x & Ex & R).
    assert (On := O i (fst f) (nth_map_some (A := field) fst fs i f Ef)). rewrite (nth_map_some (A := field) default_field fs i f Ef) in On.
    destruct (in_dec string_dec (fst f) (map fst kvs)) as [y|n].
    + apply (nth_error_nth out i (XInt 0)) in On. exact On.
    + rewrite (nth_error_nth out i (XInt 0) On), (nth_error_nth want i (XInt 0) Ex).
      destruct (lookup (fst f) kvs) as [v|] eqn:Lk; [|symmetry; exact R]. exfalso. apply n. apply lookup_in in Lk. apply (in_map fst) in Lk. exact Lk.
Qed.

Fixpoint initial_value (t : itype) : initialised [] t (default_of t).
Proof.
  destruct t as [k|fs]; [apply iv_leaf; destruct k; constructor|]. cbn [default_of]. apply iv_struct. induction fs as [|(k & ms & u & d) fs IH]; [constructor|].
  cbn [map]. apply ai_cons; [|exact IH]. cbn [fst snd]. destruct ms as [|[|] ms]; [apply initial_value|constructor|constructor].
Defined.
Lemma default_untouched : forall f, untouched f (default_field f).
Proof. intros (k & ms & t & d). unfold untouched, default_field. cbn [fst snd]. destruct ms as [|[|] ms]; [apply initial_value|constructor|constructor]. Qed.

Lemma shown_fields : forall (fs : list field) kvs xs,
  Forall2 (fun (f : field) x => match lookup (fst f) kvs with
                                | Some v => parse (fst (snd f)) (fst (snd (snd f))) v = Ok x
                                | None => x = default_field f
                                end) fs xs ->
  (forall f v x, In f fs -> lookup (fst f) kvs = Some v -> parse (fst (snd f)) (fst (snd (snd f))) v = Ok x -> shows (fst (snd f)) (fst (snd (snd f))) v x) ->
  shows_fields fs kvs xs.
Proof.
  intros fs kvs xs F. induction F as [|f x fs xs R F IH]; intro H; [constructor|].
  assert (G : shows_fields fs kvs xs) by (apply IH; intros; eapply H; eauto; now right).
  destruct (lookup (fst f) kvs) as [v|] eqn:E.
  - destruct f as (k & ms & t & d). eapply sfs_there; [exact E| |exact G]. exact (H _ v x (or_introl eq_refl) E R).
  - subst x. apply sfs_absent; [exact E|apply default_untouched|exact G].
Qed.

(** ** Leaves *)
Lemma index_found : forall names s, In s names -> exists i, index_of s names = Some i /\ nth_error names i = Some s.
Proof.
  induction names as [|n r IH]; intros s I; [destruct I|]. cbn [index_of]. destruct (String.eqb_spec n s) as [->|N]; [exists 0; auto|].
  destruct I as [->|I]; [congruence|]. destruct (IH s I) as (i & E & E'). exists (Datatypes.S i). rewrite E. auto.
Qed.

Section Proofs.
Variable S : schema.
Hypothesis WF : schema_wf S.
Hypothesis COV : interfaces_covariant S.
Hypothesis PE : plain_enums S.
Hypothesis DE : enums_distinct S.

Lemma leaf_scalar_cases : forall n d, find_type S n = Some d ->
  (builtin_scalar n /\ cpp_leaf S n (leaf_scalar n d)) \/
  (~ builtin_scalar n /\ leaf_scalar n d = match td_kind d with ENUM => KEnum (safe_cpp_name n) (map (fun v => safe_cpp_name (ev_name v)) (td_enums d)) | _ => KValue end).
Proof.
  intros n d F. unfold leaf_scalar, assoc, builtin_scalar.
  destruct (String.eqb_spec n "Int") as [->|N1]; [left; split; [simpl; auto 7|constructor]|].
  destruct (String.eqb_spec n "Float") as [->|N2]; [left; split; [simpl; auto 7|constructor]|].
  destruct (String.eqb_spec n "String") as [->|N3]; [left; split; [simpl; auto 7|constructor]|].
  destruct (String.eqb_spec n "Boolean") as [->|N4]; [left; split; [simpl; auto 6|constructor]|].
  destruct (String.eqb_spec n "ID") as [->|N5]; [left; split; [simpl; auto 6|constructor]|].
  right. split; [|reflexivity]. intros [E|[E|[E|[E|[E|[]]]]]]; congruence.
Qed.

Lemma plain_names : forall n d, find_type S n = Some d -> td_kind d = ENUM -> map (fun v => safe_cpp_name (ev_name v)) (td_enums d) = map ev_name (td_enums d).
Proof. intros n d F K. apply map_ext_in. intros v I. now apply (PE n d). Qed.

Lemma leaf_declared : forall n d, find_type S n = Some d -> td_kind d = SCALAR \/ td_kind d = ENUM -> cpp_leaf S n (leaf_scalar n d).
Proof.
  intros n d F K. destruct (leaf_scalar_cases n d F) as [(_ & H)|(NB & E)]; [exact H|]. rewrite E. destruct K as [K|K]; rewrite K.
  - apply cl_custom; auto. now exists d.
  - rewrite (plain_names n d F K). now apply cl_enum.
Qed.

Lemma leaf_read : forall n d v, find_type S n = Some d -> td_kind d = SCALAR \/ td_kind d = ENUM ->
  input_fits S (TNonNull (TNamed n)) v -> exists x, parse_leaf (leaf_scalar n d) v = Ok x /\ leaf_shows (leaf_scalar n d) v x.
Proof.
  intros n d v F K I. inversion I as [t N| t v' NV I'| | | | | | | | | | |]; subst; [exfalso; apply N; eexists; reflexivity|]. clear I.
  assert (KE : forall td, find_type S n = Some td -> td_kind td = ENUM -> leaf_scalar n d = KEnum (safe_cpp_name n) (map ev_name (td_enums d)) /\ td = d).
  { intros td F' K'. assert (td = d) by congruence. subst td. split; [|reflexivity].
    destruct (leaf_scalar_cases n d F) as [(B & _)|(_ & E)]; [exfalso; exact (proj2 (DE n d F K') B)|].
    rewrite E, K', (plain_names n d F K'). reflexivity. }
  inversion I' as [t N | | |n' td x Fx Kx Ix|n' td x Fx Kx Ix|z Hz|f|z Hz|s b|s b bytes Hb|b|n' v' Tn NB Nv|n' td kvs Fx Kx Hk]; subst.
  - congruence.
  - destruct (KE td Fx Kx) as (E & Etd). subst td. rewrite E. destruct (index_found _ _ Ix) as (i & E1 & E2).
    exists (XEnum i). unfold parse_leaf. cbn [enum_text]. rewrite E1. split; [reflexivity|now constructor].
  - destruct (KE td Fx Kx) as (E & Etd). subst td. rewrite E. destruct (index_found _ _ Ix) as (i & E1 & E2).
    exists (XEnum i). unfold parse_leaf. cbn [enum_text]. rewrite E1. split; [reflexivity|now constructor].
  - exists (XInt z). split; [reflexivity|constructor].
  - exists (XFloat f). split; [reflexivity|constructor].
  - exists (XFloat (int_to_double z)). split; [reflexivity|constructor].
  - exists (XString s). split; [reflexivity|constructor].
  - exists (XId bytes). split; [|now apply ls_id].
    change (parse_leaf KId (VString s b) = Ok (XId bytes)). unfold parse_leaf. apply (proj2 (fromBase64_iff' s bytes)) in Hb. rewrite Hb. reflexivity.
  - exists (XBool b). split; [reflexivity|constructor].
  - destruct Tn as (d' & Fd & Kd). assert (d' = d) by congruence. subst d'.
    destruct (leaf_scalar_cases n d F) as [(B & _)|(_ & E)]; [contradiction|]. rewrite E, Kd. exists (XValue v). split; [reflexivity|constructor].
  - assert (td = d) by congruence. subst td. destruct K; congruence.
Qed.

(** ** Fields of objects and of their interfaces *)
Lemma sub_type_refl : forall t, sub_type S t t.
Proof. induction t; [apply st_same|apply st_list|apply st_nonnull]; auto. Qed.
Lemma kind_fun : forall n k k', type_is S n k -> type_is S n k' -> k = k'.
Proof. intros n k k' (d & F & K) (d' & F' & K'). congruence. Qed.

Lemma object_field : forall P T name ty args ty' args', possible S P T -> field_of S P name ty args -> field_of S T name ty' args' -> sub_type S ty' ty.
Proof.
  intros P T name ty args ty' args' HP H H'. destruct HP as [(_ & ->)|(d & d' & F & K & I & F')].
  - destruct (field_of_fun S WF _ _ _ _ _ _ H H') as (-> & _). apply sub_type_refl.
  - assert (NQ : P <> s_query S).
    { intros ->. destruct (wf_query S WF) as (q & Fq & Kq). destruct K; congruence. }
    inversion H as [dp f Fp Kp If En|Hc En|Hi Eq En|Hi Eq En]; subst; try contradiction.
    + assert (dp = d) by congruence. subst dp.
      pose proof (proj2 (wf_fields S WF _ _ F) f If) as (Nm & _).
      inversion H' as [dt f' Ft Kt If' En'|Hc En'|Hi Eq En'|Hi Eq En']; subst.
      * assert (dt = d') by congruence. subst dt. destruct K as [K|K].
        -- eapply (COV P d T d' f f'); eauto.
        -- pose proof (wf_union S WF _ _ F K) as U. rewrite U in If. destruct If.
      * exfalso. apply Nm. rewrite <- En'. simpl. auto.
      * exfalso. apply Nm. rewrite <- En'. simpl. auto.
      * exfalso. apply Nm. rewrite <- En'. simpl. auto 6.
    + inversion H' as [dt f' Ft Kt If' En'|Hc' En'| |]; subst.
      * exfalso. pose proof (proj2 (wf_fields S WF _ _ Ft) f' If') as (Nm & _). apply Nm. rewrite En'. simpl. auto.
      * apply sub_type_refl.
Qed.

Section Service.
Variable doc : document.

Lemma data_sub : forall a b, sub_type S a b -> forall T0 f0 p is sels v, data_fits S doc nowhere T0 f0 p is a sels v -> data_fits S doc nowhere T0 f0 p is b sels v.
Proof.
  induction 1 as [n|n o HP HO|a b H IH|a b H IH|a b H IH]; intros T0 f0 p is sels v D.
  - exact D.
  - inversion D as [? ? ? ? ? ? Fa|? ? ? ? ? ? N| | |? ? ? ? n' v' L I'|? ? ? ? n' T ? kvs HP' OF]; subst; [now apply df_failed|apply df_null; intros (? & E); discriminate| |].
    + exfalso. destruct L as [L|L]; discriminate (kind_fun _ _ _ L HO).
    + eapply df_object; [|exact OF]. destruct HP' as [(_ & ->)|(d & d' & F & K & _)]; [exact HP|].
      exfalso. destruct HO as (d2 & F2 & K2). assert (d2 = d) by congruence. subst. destruct K; congruence.
  - inversion D as [? ? ? ? ? ? Fa|? ? ? ? ? ? N| |? ? ? ? ? ? vs Hv| |]; subst; [now apply df_failed|apply df_null; intros (? & E); discriminate|].
    apply df_list. intros i x E. apply IH. now apply Hv.
  - inversion D as [? ? ? ? ? ? Fa|? ? ? ? ? ? N|? ? ? ? ? ? v' NV D'| | |]; subst; [now apply df_failed|exfalso; apply N; eexists; reflexivity|]. apply df_nonnull; auto.
  - inversion D as [? ? ? ? ? ? Fa|? ? ? ? ? ? N|? ? ? ? ? ? v' NV D'| | |]; subst; [exfalso; exact Fa|exfalso; apply N; eexists; reflexivity|]. auto.
Qed.

(** Reading a value through the modifiers of its type. *)
Lemma mods_read : forall (t : itype) ty sub, proper ty ->
  (forall T0 f0 p is v, v <> VNull -> data_fits S doc nowhere T0 f0 p is (TNamed (named_type ty)) sub v -> exists x, parse_output t v = Ok x /\ shows [] t v x) ->
  forall b T0 f0 p is v, (b = true -> forall t', ty <> TNonNull t') -> (b = true -> v <> VNull) -> data_fits S doc nowhere T0 f0 p is ty sub v ->
  exists x, parse (fst (unwrap b ty)) t v = Ok x /\ shows (fst (unwrap b ty)) t v x.
Proof.
  intros t ty sub. induction ty as [n|ty IH|ty IH]; intros P B b T0 f0 p is v Hb Hv D.
  - cbn [unwrap fst]. cbn [named_type] in B. destruct b.
    + apply (B T0 f0 p is v (Hv eq_refl) D).
    + assert (Dec : v = VNull \/ v <> VNull) by (destruct v; (left; reflexivity) || (right; discriminate)). destruct Dec as [->|NV].
      * exists (XOpt None). split; [reflexivity|apply sh_null].
      * destruct (B T0 f0 p is v NV D) as (x & E & H). exists (XOpt (Some x)). split; [|now apply sh_some].
        unfold parse in *. cbn [parse_mods]. rewrite E. destruct v; try reflexivity; congruence.
  - cbn [unwrap named_type] in *. specialize (IH P B false). destruct (unwrap false ty) as [ms n] eqn:E. cbn [fst] in *.
    assert (L : forall vs, (forall i x, nth_error vs i = Some x -> data_fits S doc nowhere T0 f0 p (is ++ [N.of_nat i]) ty sub x) ->
      exists xs, parse_mods (parse_output t) (MList :: ms) (VList vs) = Ok (XVec xs) /\ shows_all ms t vs xs).
    { intros vs Hvs. assert (G : forall v, In v vs -> exists x, parse ms t v = Ok x /\ shows ms t v x).
      { intros x Ix. apply In_nth_error in Ix as (i & Ei). apply (IH T0 f0 p (is ++ [N.of_nat i]) x ltac:(discriminate) ltac:(discriminate) (Hvs i x Ei)). }
      clear Hvs. assert (G' : exists xs, mapM (parse_mods (parse_output t) ms) vs = Ok xs /\ shows_all ms t vs xs).
      { induction vs as [|x vs IHv]; [exists []; split; [reflexivity|constructor]|].
        destruct (G x (or_introl eq_refl)) as (y & Ey & Sy). destruct IHv as (ys & Eys & Sys); [intros w Iw; apply G; now right|].
        exists (y :: ys). unfold parse in Ey. cbn [mapM]. rewrite Ey. cbn [bind]. rewrite Eys. split; [reflexivity|now constructor]. }
      destruct G' as (xs & E1 & E2). exists xs. cbn [parse_mods]. rewrite E1. auto. }
    inversion D as [? ? ? ? ? ? Fa|? ? ? ? ? ? N| |? ? ? ? ? ? vs Hvs| |]; subst.
    + exfalso; exact Fa.
    + destruct b; [exfalso; exact (Hv eq_refl eq_refl)|]. exists (XOpt None). split; [reflexivity|constructor].
    + destruct (L vs Hvs) as (xs & E1 & E2). destruct b; cbn [app].
      * exists (XVec xs). split; [exact E1|now constructor].
      * exists (XOpt (Some (XVec xs))). split; [|apply sh_some; [discriminate|now constructor]].
        unfold parse. change (parse_mods (parse_output t) (MNullable :: MList :: ms) (VList vs)) with (x <- parse_mods (parse_output t) (MList :: ms) (VList vs) ;; Ok (XOpt (Some x))).
        rewrite E1. reflexivity.
  - destruct P as (P & N). destruct b; [exfalso; exact (Hb eq_refl ty eq_refl)|]. cbn [unwrap named_type] in *.
    inversion D as [? ? ? ? ? ? Fa|? ? ? ? ? ? N'|? ? ? ? ? ? v' NV D'| | |]; subst; [exfalso; exact Fa|exfalso; apply N'; eexists; reflexivity|].
    apply (IH P B true T0 f0 p is v); auto.
Qed.

(** ** The selections of an operation *)
Inductive selection_ok (stk : list string) (T : string) (sels : list selection) : Prop :=
| so_intro items : collect S doc stk T sels items ->
    (forall o o', In (IField o) items -> In (IField o') items -> oc_key o = oc_key o' -> same_selections (oc_sub o) (oc_sub o') /\
       exists ty args args', field_of S (oc_parent o) (oc_name o) ty args /\ field_of S (oc_parent o') (oc_name o') ty args') ->
    (forall o, In (IField o) items -> exists ty args, field_of S (oc_parent o) (oc_name o) ty args) ->
    (forall o ty args, In (IField o) items -> field_of S (oc_parent o) (oc_name o) ty args -> (composite S (named_type ty) <-> oc_sub o <> None)) ->
    (forall o ty args sub, In (IField o) items -> field_of S (oc_parent o) (oc_name o) ty args -> oc_sub o = Some sub ->
       selection_ok (oc_stack o) (named_type ty) sub) ->
    selection_ok stk T sels.
Lemma accepted_selection : forall vars stk T sels, scope_ok S doc vars stk T sels -> repeats_ok S doc vars stk T sels -> consistent_below S doc stk T sels -> selection_ok stk T sels.
Proof.
  intros vars stk T sels H R. revert H. induction R as [stk T sels items HC HR RB IH]. intros H CB.
  assert (TH := repeats_thorough S doc vars WF stk T sels (repeats_intro S doc vars stk T sels items HC HR RB) H). inversion TH as [items' C' _ H1 H2 _]. rewrite <- (collect_fun S doc _ _ _ _ HC _ C') in *. clear items' C'.
  apply (so_intro stk T sels items HC).
  - intros o o' I I' E. split; [apply (CB stk T sels items); auto; constructor|]. exact (same_key_type S doc vars WF stk T sels items H HC o o' I I' E).
  - intros o I. exact (proj2 (H1 o I)).
  - intros o ty args I Ho. exact (proj2 (H2 o ty args I Ho)).
  - intros o ty args sub I Ho Es. apply (IH o ty args sub I Ho Es).
    + exact (proj2 (thorough_scope S doc vars stk T sels (repeats_intro S doc vars stk T sels items HC HR RB) H items HC o ty args sub I Ho Es)).
    + intros stk2 T2 sels2 items2 B2 C2. apply (CB stk2 T2 sels2 items2); auto. eapply below_sub; eauto. exact Logic.I.
Qed.

(** Data that fits a selection set fits the same one elsewhere. *)
Local Notation bare := (Layout.strip_sels (fun s => s)).
Lemma bare_in : forall a b, bare a = bare b -> forall s, In s a -> exists s', In s' b /\ Layout.strip_sel (fun s => s) s = Layout.strip_sel (fun s => s) s'.
Proof.
  intros a b E s I. assert (J : In (Layout.strip_sel (fun s => s) s) (bare b)) by (rewrite <- E; now apply in_map). apply in_map_iff in J as (s' & E' & J). exists s'. auto.
Qed.
Lemma selects_same : forall T sels k n sub, selects_field S doc T sels k n sub -> forall sels', bare sels = bare sels' -> exists sub', selects_field S doc T sels' k n sub' /\ bare sub = bare sub'.
Proof.
  intros T sels k n sub H. induction H as [loc al n args dirs sub sels I|loc c dirs sel sels k n sub I P H IH|loc name dirs f sels k n sub I F P H IH]; intros sels' E; destruct (bare_in _ _ E _ I) as (s' & I' & E').
  - destruct s' as [loc' al' n' args' dirs' sub'| |]; cbn [Layout.strip_sel] in E'; try discriminate. injection E' as <- <- _ _ Es. eexists. split; [eapply sf_here; exact I'|].
    destruct sub as [[p s]|], sub' as [[p' s']|]; try discriminate; [injection Es as Es; exact Es|reflexivity].
  - destruct s' as [| |loc' c' dirs' sel']; cbn [Layout.strip_sel] in E'; try discriminate. injection E' as Ec _ Es. destruct (IH sel' Es) as (sub' & H' & Eb). exists sub'. split; [|exact Eb].
    eapply sf_inline; [exact I'| |exact H']. intros l t ->. destruct c as [[l0 t0]|]; cbn in Ec; [|discriminate]. injection Ec as ->. eapply P. reflexivity.
  - destruct s' as [|loc' name' dirs'|]; cbn [Layout.strip_sel] in E'; try discriminate. injection E' as <- _. exists sub. split; [|reflexivity]. eapply sf_spread; eauto.
Qed.
Lemma data_same : forall failed T f p is t sels v, data_fits S doc failed T f p is t sels v -> forall sels', bare sels = bare sels' -> data_fits S doc failed T f p is t sels' v.
Proof.
  intros failed.
  apply (TypedProofs.data_fits_min S doc failed (fun T f p is t sels v => forall sels', bare sels = bare sels' -> data_fits S doc failed T f p is t sels' v)
    (fun p T sels kvs => forall sels', bare sels = bare sels' -> object_fits S doc failed p T sels' kvs)
    (fun p T sels k v => forall sels', bare sels = bare sels' -> entry_fits S doc failed p T sels' k v)).
  - intros T f p is t sels F sels' _. now apply df_failed.
  - intros T f p is t sels N sels' _. now apply df_null.
  - intros T f p is t sels v N _ IH sels' E. apply df_nonnull; auto.
  - intros T f p is t sels vs _ IH sels' E. apply df_list. intros i v Hi. exact (IH i v Hi sels' E).
  - intros T f p is n v L Hv sels' E. destruct sels'; [|discriminate]. now apply df_leaf.
  - intros T f p is n T' sels kvs HP _ IH sels' E. eapply df_object; eauto.
  - intros p T sels kvs N _ IH sels' E. apply of_intro; [exact N|]. intros k v I. exact (IH k v I sels' E).
  - intros p T sels k v name ty args sub Hs Hf _ IH sels' E. destruct (selects_same _ _ _ _ _ Hs sels' E) as (sub' & Hs' & Eb). eapply ef_intro; eauto.
Qed.

Definition subs (o : option (list selection)) : list selection := match o with Some l => l | None => [] end.
Lemma subs_map : forall (sub : option (schema_location * list selection)), subs (option_map snd sub) = match sub with Some (_, l) => l | None => [] end.
Proof. intros [[l s]|]; reflexivity. Qed.

Lemma collect_selected : forall stk T sels items, collect S doc stk T sels items -> forall o, In (IField o) items ->
  selected doc T sels (oc_key o) (oc_parent o) (oc_name o) (subs (oc_sub o)).
Proof.
  assert (W : forall T sels k P n sub s, selected doc T sels k P n sub -> selected doc T (s :: sels) k P n sub).
  { intros T sels k P n sub s H. destruct H as [T loc al n args dirs sub sels I|T loc c dirs sel sels k P n sub I H|T loc name dirs f sels k P n sub I F H].
    - eapply sel_here. right. exact I.
    - eapply sel_inline; [right; exact I|exact H].
    - eapply sel_spread; [right; exact I|exact F|exact H]. }
  induction 1 as [stk T|stk T loc alias name args dirs sub r items H IH|stk T loc cond dirs sels r T' i1 i2 Hc H1 IH1 H2 IH2|
                  stk T loc name dirs r f i1 i2 Hf Hn Ht Ho H1 IH1 H2 IH2]; intros o I; [destruct I| | |].
  - destruct I as [E|[E|I]]; [discriminate| |apply W; auto]. injection E as <-. cbn [oc_key oc_parent oc_name oc_sub]. rewrite subs_map.
    eapply sel_here. left. reflexivity.
  - destruct I as [E|I]; [discriminate|]. apply in_app_or in I as [I|I]; [|apply W; auto]. eapply sel_inline; [left; reflexivity|].
    replace (match cond with Some (_, t) => t | None => T end) with T'; [auto|]. destruct cond as [[l n]|]; [exact (proj1 Hc)|exact Hc].
  - destruct I as [E|I]; [discriminate|]. apply in_app_or in I as [I|[E|I]]; [|discriminate|apply W; auto]. eapply sel_spread; [left; reflexivity|exact Hf|auto].
Qed.

Lemma collect_field : forall stk T sels items, collect S doc stk T sels items -> forall loc al n args dirs sub, In (SField loc al n args dirs sub) sels ->
  In (IField (mkOcc stk T (response_key al n) n args (option_map snd sub))) items.
Proof.
  induction 1 as [stk T|stk T loc alias name args dirs sub r items H IH|stk T loc cond dirs sels r T' i1 i2 Hc H1 IH1 H2 IH2|
                  stk T loc name dirs r f i1 i2 Hf Hn Ht Ho H1 IH1 H2 IH2]; intros loc' al n args' dirs' sub' I; [destruct I| | |]; destruct I as [E|I]; try discriminate.
  - injection E as <- <- <- <- <- <-. right. now left.
  - right. right. eauto.
  - right. apply in_or_app. right. eauto.
  - right. apply in_or_app. right. right. eauto.
Qed.
Lemma collect_inline : forall stk T sels items, collect S doc stk T sels items -> forall loc c dirs sel, In (SInline loc c dirs sel) sels ->
  exists i1, collect S doc stk (match c with Some (_, t) => t | None => T end) sel i1 /\ incl i1 items.
Proof.
  induction 1 as [stk T|stk T loc alias name args dirs sub r items H IH|stk T loc cond dirs sels r T' i1 i2 Hc H1 IH1 H2 IH2|
                  stk T loc name dirs r f i1 i2 Hf Hn Ht Ho H1 IH1 H2 IH2]; intros loc' c dirs' sel I; [destruct I| | |]; destruct I as [E|I]; try discriminate.
  - destruct (IH _ _ _ _ I) as (i & C & In1). exists i. split; [exact C|]. intros x Ix. right. right. auto.
  - injection E as <- <- <- <-. exists i1. split.
    + replace (match cond with Some (_, t) => t | None => T end) with T'; [exact H1|]. destruct cond as [[l n]|]; [exact (proj1 Hc)|exact Hc].
    + intros x Ix. right. apply in_or_app. now left.
  - destruct (IH2 _ _ _ _ I) as (i & C & In1). exists i. split; [exact C|]. intros x Ix. right. apply in_or_app. right. auto.
  - destruct (IH2 _ _ _ _ I) as (i & C & In1). exists i. split; [exact C|]. intros x Ix. right. apply in_or_app. right. right. auto.
Qed.
Lemma collect_spread : forall stk T sels items, collect S doc stk T sels items -> forall loc name dirs f, In (SSpread loc name dirs) sels -> find_frag doc name = Some f ->
  exists i1, collect S doc (name :: stk) (f_cond f) (f_sel f) i1 /\ incl i1 items.
Proof.
  induction 1 as [stk T|stk T loc alias name args dirs sub r items H IH|stk T loc cond dirs sels r T' i1 i2 Hc H1 IH1 H2 IH2|
                  stk T loc name dirs r f i1 i2 Hf Hn Ht Ho H1 IH1 H2 IH2]; intros loc' name' dirs' f' I F'; [destruct I| | |]; destruct I as [E|I]; try discriminate.
  - destruct (IH _ _ _ _ I F') as (i & C & In1). exists i. split; [exact C|]. intros x Ix. right. right. auto.
  - destruct (IH2 _ _ _ _ I F') as (i & C & In1). exists i. split; [exact C|]. intros x Ix. right. apply in_or_app. right. auto.
  - injection E as <- <- <-. rewrite Hf in F'. injection F' as <-. exists i1. split; [exact H1|]. intros x Ix. right. apply in_or_app. now left.
  - destruct (IH2 _ _ _ _ I F') as (i & C & In1). exists i. split; [exact C|]. intros x Ix. right. apply in_or_app. right. right. auto.
Qed.

Lemma selected_collect : forall T sels k P n sub, selected doc T sels k P n sub -> forall stk items, collect S doc stk T sels items ->
  exists o, In (IField o) items /\ oc_key o = k /\ oc_parent o = P /\ oc_name o = n /\ subs (oc_sub o) = sub.
Proof.
  induction 1 as [T loc al n args dirs sub sels I|T loc c dirs sel sels k P n sub I H IH|T loc name dirs f sels k P n sub I F H IH]; intros stk items C.
  - eexists. split; [eapply collect_field; eauto|]. cbn [oc_key oc_parent oc_name oc_sub]. rewrite subs_map. auto.
  - destruct (collect_inline _ _ _ _ C _ _ _ _ I) as (i1 & C1 & In1). destruct (IH _ _ C1) as (o & Io & R). exists o. auto.
  - destruct (collect_spread _ _ _ _ C _ _ _ _ I F) as (i1 & C1 & In1). destruct (IH _ _ C1) as (o & Io & R). exists o. auto.
Qed.
Lemma selects_collect : forall T' sels k n sub, selects_field S doc T' sels k n sub -> forall stk T items, collect S doc stk T sels items -> possible S T T' ->
  exists o, In (IField o) items /\ oc_key o = k /\ oc_name o = n /\ subs (oc_sub o) = sub /\ possible S (oc_parent o) T'.
Proof.
  intros T' sels k n sub H.
  induction H as [loc al n args dirs sub sels I|loc c dirs sel sels k n sub I Hc H IH|loc name dirs f sels k n sub I F Hp H IH]; intros stk T items C HP.
  - eexists. split; [eapply collect_field; eauto|]. cbn [oc_key oc_parent oc_name oc_sub]. rewrite subs_map. auto.
  - destruct (collect_inline _ _ _ _ C _ _ _ _ I) as (i1 & C1 & In1). destruct (IH _ _ _ C1) as (o & Io & R); [|exists o; auto].
    destruct c as [[l t]|]; [apply (Hc l t eq_refl)|exact HP].
  - destruct (collect_spread _ _ _ _ C _ _ _ _ I F) as (i1 & C1 & In1). destruct (IH _ _ _ C1 Hp) as (o & Io & R). exists o. auto.
Qed.

(** ** Visiting *)
Definition visit (m : nat) := visit_selections S doc m.
Definition makes (o : occurrence) (f : field) : Prop := fst f = oc_key o /\
  exists N, forall m, N <= m -> forall names fields, mentions (oc_key o) names = false ->
    visit_field S (visit m) (oc_parent o) (oc_key o) (oc_name o) (oc_sub o) (names, fields) = Ok (oc_key o :: names, fields ++ [f]).
Definition occs (items : list item) : list occurrence := flat_map (fun i => match i with IField o => [o] | _ => [] end) items.
Lemma occs_in : forall items o, In o (occs items) <-> In (IField o) items.
Proof.
  intros items o. unfold occs. rewrite in_flat_map. split.
  - intros ([o'|loc ds|n] & I & I'); simpl in I'; [|destruct I'|destruct I']. destruct I' as [<-|[]]. exact I.
  - intro I. exists (IField o). simpl. auto.
Qed.
Lemma occs_keys : forall items, keys items = map oc_key (occs items).
Proof. induction items as [|[o|loc ds|n] items IH]; simpl; auto. now f_equal. Qed.
Lemma occs_app : forall a b, occs (a ++ b) = occs a ++ occs b.
Proof. intros. unfold occs. apply flat_map_app. Qed.

Lemma mentions_iff : forall k names, mentions k names = true <-> In k names.
Proof.
  intros k names. unfold mentions. rewrite existsb_exists. split.
  - intros (x & I & E). apply String.eqb_eq in E. now subst.
  - intro I. exists k. split; auto. apply String.eqb_refl.
Qed.
Lemma mentions_false : forall k names, mentions k names = false <-> ~ In k names.
Proof. intros. rewrite <- mentions_iff. destruct (mentions k names); split; congruence. Qed.

(** The fields whose keys are not among the names, and not among those before. *)
Fixpoint news (names : list string) (fs : list field) : list field :=
  match fs with
  | [] => []
  | f :: r => if mentions (fst f) names then news names r else f :: news (fst f :: names) r
  end.
Lemma news_ext : forall fs names names', (forall k, In k names <-> In k names') -> news names fs = news names' fs.
Proof.
  induction fs as [|f fs IH]; intros names names' H; cbn [news]; [reflexivity|].
  assert (E : mentions (fst f) names = mentions (fst f) names').
  { destruct (mentions (fst f) names) eqn:E1, (mentions (fst f) names') eqn:E2; try reflexivity.
    - apply mentions_iff, H, mentions_iff in E1. congruence.
    - apply mentions_iff, H, mentions_iff in E2. congruence. }
  rewrite E. destruct (mentions (fst f) names'); [now apply IH|]. f_equal. apply IH. intro k. simpl. rewrite H. tauto.
Qed.
Lemma news_app : forall a b names, news names (a ++ b) = news names a ++ news (map fst a ++ names) b.
Proof.
  induction a as [|f a IH]; intros b names; cbn [news app map]; [reflexivity|]. destruct (mentions (fst f) names) eqn:E.
  - rewrite IH. f_equal. apply news_ext. intro k. apply mentions_iff in E. simpl. rewrite !in_app_iff. split; [tauto|]. intros [<-|H]; auto.
  - cbn [app]. f_equal. rewrite IH. f_equal. apply news_ext. intro k. simpl. rewrite !in_app_iff. simpl. tauto.
Qed.
Lemma news_news : forall fs seen names, (forall k, In k seen -> In k names) -> news names (news seen fs) = news names fs.
Proof.
  induction fs as [|f fs IH]; intros seen names H; cbn [news]; [reflexivity|]. destruct (mentions (fst f) seen) eqn:E.
  - assert (E' : mentions (fst f) names = true) by (apply mentions_iff, H, mentions_iff; exact E). rewrite E'. now apply IH.
  - cbn [news]. destruct (mentions (fst f) names) eqn:E'.
    + apply IH. intros k [<-|I]; [now apply mentions_iff|auto].
    + f_equal. apply IH. intros k [<-|I]; [now left|right; auto].
Qed.
Lemma news_keys : forall fs names k, In k names \/ In k (map fst (news names fs)) <-> In k names \/ In k (map fst fs).
Proof.
  induction fs as [|f fs IH]; intros names k; cbn [news map]; [tauto|]. destruct (mentions (fst f) names) eqn:E.
  - rewrite IH. apply mentions_iff in E. simpl. split; [tauto|]. intros [H|[<-|H]]; auto.
  - cbn [map]. specialize (IH (fst f :: names) k). simpl in *. tauto.
Qed.
Lemma news_keys0 : forall fs k, In k (map fst (news [] fs)) <-> In k (map fst fs).
Proof. intros fs k. generalize (news_keys fs [] k). simpl. tauto. Qed.
Lemma news_nodup : forall fs names, NoDup (map fst (news names fs)) /\ forall k, In k (map fst (news names fs)) -> ~ In k names.
Proof.
  induction fs as [|f fs IH]; intros names; cbn [news map]; [split; [constructor|intros k []]|]. destruct (mentions (fst f) names) eqn:E; [apply IH|].
  destruct (IH (fst f :: names)) as (N & D). cbn [map]. split; [constructor; [intro I; apply (D _ I); now left|exact N]|].
  intros k [<-|I]; [now apply mentions_false|]. intro J. apply (D k I). now right.
Qed.
Lemma news_in : forall fs names f, In f (news names fs) -> In f fs.
Proof.
  induction fs as [|g fs IH]; intros names f I; cbn [news] in I; [destruct I|]. destruct (mentions (fst g) names); [right; eauto|]. destruct I as [<-|I]; [now left|right; eauto].
Qed.
Lemma merge_news : forall fs names fields,
  exists names', merge_fields fs (names, fields) = (names', fields ++ news names fs) /\ forall k, In k names' <-> In k names \/ In k (map fst fs).
Proof.
  induction fs as [|f fs IH]; intros names fields; cbn [merge_fields news map].
  - exists names. rewrite app_nil_r. split; auto. intro k. simpl. tauto.
  - destruct (mentions (fst f) names) eqn:E.
    + destruct (IH names fields) as (names' & E' & H). exists names'. split; [exact E'|]. intro k. rewrite H. apply mentions_iff in E. simpl. split; [tauto|]. intros [X|[<-|X]]; auto.
    + destruct (IH (fst f :: names) (fields ++ [f])) as (names' & E' & H). exists names'. split; [rewrite <- app_assoc in E'; exact E'|]. intro k. rewrite H. simpl. tauto.
Qed.

(** Visiting a selection set makes one member for every response key, of the first field with it. *)
Lemma visit_collect : forall (Q : occurrence -> field -> Prop) stk T sels items, collect S doc stk T sels items ->
  (forall o, In o (occs items) -> exists f, makes o f /\ Q o f) ->
  exists fs, map fst fs = map oc_key (occs items) /\ Forall2 Q (occs items) fs /\
  exists N, forall m, N <= m -> forall names fields,
    exists names', visit_each S doc (visit m) T sels (names, fields) = Ok (names', fields ++ news names fs) /\
      forall k, In k names' <-> In k names \/ In k (map oc_key (occs items)).
Proof.
  intros Q stk T sels items C.
  induction C as [stk T|stk T loc alias name args dirs sub r items H IH|stk T loc cond dirs sels r T' i1 i2 Hc H1 IH1 H2 IH2|
                  stk T loc name dirs r f i1 i2 Hf Hn Ht Ho H1 IH1 H2 IH2]; intros HM.
  - exists []. split; [reflexivity|]. split; [constructor|]. exists 0. intros m _ names fields. exists names. cbn [visit_each news]. rewrite app_nil_r.
    split; [reflexivity|]. intro k. simpl. tauto.
  - set (o := mkOcc stk T (response_key alias name) name args (option_map snd sub)).
    change (occs (IDirs FIELD dirs :: IField o :: items)) with (o :: occs items) in *. cbn [map].
    destruct (HM o (or_introl eq_refl)) as (f & (Ef & Nf & Mf) & Qf).
    destruct (IH (fun o' I => HM o' (or_intror I))) as (fs & Kfs & F & N & M).
    exists (f :: fs). split; [cbn [map]; now f_equal|]. split; [now constructor|]. exists (Nf + N). intros m L names fields.
    cbn [visit_each visit_one news]. destruct (mentions (fst f) names) eqn:E.
    + rewrite Ef in E. change (oc_key o) with (response_key alias name) in E. unfold visit_field at 1. rewrite E. cbn [bind]. destruct (M m ltac:(lia) names fields) as (names' & E' & HK).
      exists names'. split; [exact E'|]. intro k. rewrite HK. apply mentions_iff in E. cbn [oc_key o In]. split; [tauto|]. intros [X|[<-|X]]; auto.
    + rewrite Ef in E. specialize (Mf m ltac:(lia) names fields E). cbn [oc_key oc_parent oc_name oc_sub o] in Mf. rewrite Mf. cbn [bind].
      destruct (M m ltac:(lia) (oc_key o :: names) (fields ++ [f])) as (names' & E' & HK).
      exists names'. split; [cbn [oc_key o] in E'; rewrite E', <- app_assoc, Ef; reflexivity|]. intro k. rewrite HK. simpl. tauto.
  - change (occs (IDirs INLINE_FRAGMENT dirs :: i1 ++ i2)) with (occs (i1 ++ i2)) in *. rewrite occs_app in *. rewrite map_app in *.
    destruct (IH1 (fun o I => HM o (in_or_app _ _ _ (or_introl I)))) as (fs1 & K1 & F1 & N1 & M1).
    destruct (IH2 (fun o I => HM o (in_or_app _ _ _ (or_intror I)))) as (fs2 & K2 & F2 & N2 & M2).
    exists (fs1 ++ fs2). split; [rewrite map_app; now f_equal|]. split; [now apply Forall2_app|]. exists (Datatypes.S (N1 + N2)). intros m L names fields.
    cbn [visit_each visit_one].
    assert (ET : match cond with Some (_, t) => t | None => T end = T') by (destruct cond as [[l n]|]; symmetry; [exact (proj1 Hc)|exact Hc]).
    rewrite ET. destruct m as [|m]; [lia|]. unfold visit at 1. cbn [visit_selections].
    destruct (M1 m ltac:(lia) [] []) as (n1 & E1 & _). unfold visit in E1. rewrite E1. cbn [bind snd app].
    destruct (merge_news (news [] fs1) names fields) as (n2 & E2 & HK2). rewrite E2. rewrite (news_news fs1 [] names) by (intros k []).
    destruct (M2 (Datatypes.S m) ltac:(lia) n2 (fields ++ news names fs1)) as (n3 & E3 & HK3).
    exists n3. rewrite E3, news_app, <- app_assoc. rewrite (news_ext fs2 n2 (map fst fs1 ++ names)).
    + split; [reflexivity|]. intro k. rewrite HK3, HK2, news_keys0, K1, in_app_iff. simpl. tauto.
    + intro k. rewrite HK2, news_keys0, in_app_iff. simpl. tauto.
  - change (occs (IDirs FRAGMENT_SPREAD dirs :: i1 ++ ISpread name :: i2)) with (occs (i1 ++ ISpread name :: i2)) in *. rewrite occs_app in *.
    change (occs (ISpread name :: i2)) with (occs i2) in *. rewrite map_app in *.
    destruct (IH1 (fun o I => HM o (in_or_app _ _ _ (or_introl I)))) as (fs1 & K1 & F1 & N1 & M1).
    destruct (IH2 (fun o I => HM o (in_or_app _ _ _ (or_intror I)))) as (fs2 & K2 & F2 & N2 & M2).
    exists (fs1 ++ fs2). split; [rewrite map_app; now f_equal|]. split; [now apply Forall2_app|]. exists (Datatypes.S (N1 + N2)). intros m L names fields.
    cbn [visit_each visit_one]. change (fragment_named doc name) with (find_frag doc name). rewrite Hf.
    destruct m as [|m]; [lia|]. unfold visit at 1. cbn [visit_selections].
    destruct (M1 m ltac:(lia) [] []) as (n1 & E1 & _). unfold visit in E1. rewrite E1. cbn [bind snd app].
    destruct (merge_news (news [] fs1) names fields) as (n2 & E2 & HK2). rewrite E2. rewrite (news_news fs1 [] names) by (intros k []).
    destruct (M2 (Datatypes.S m) ltac:(lia) n2 (fields ++ news names fs1)) as (n3 & E3 & HK3).
    exists n3. rewrite E3, news_app, <- app_assoc. rewrite (news_ext fs2 n2 (map fst fs1 ++ names)).
    + split; [reflexivity|]. intro k. rewrite HK3, HK2, news_keys0, K1, in_app_iff. simpl. tauto.
    + intro k. rewrite HK2, news_keys0, in_app_iff. simpl. tauto.
Qed.

(** ** The type of a selected field *)
(** [made_type P name ty ct]: what RequestLoader finds for the field, of type [ty]. *)
Lemma found_type : forall P name ty args, field_of S P name ty args -> name <> "__typename" ->
  exists ct, (match meta_type S P name with
              | Some t => Ok (Some t)
              | None => match find_type S P with
                        | Some d => Ok (option_map fd_type (List.find (fun f => String.eqb (fd_name f) name) (td_fields d)))
                        | None => UB
                        end
              end) = Ok (Some ct) /\ named_type ct = named_type ty /\ sub_type S ty ct /\ proper ct /\ proper ty /\ member P name ty (fst (unwrap false ct)).
Proof.
  intros P name ty args H NT. inversion H as [d f F K I En|Hc En|Hi Eq En|Hi Eq En]; subst; [|congruence| |].
  - exists (fd_type f). pose proof (proj2 (wf_fields S WF _ _ F) f I) as (Nm & Pr & _).
    assert (M : meta_type S P (fd_name f) = None).
    { unfold meta_type. destruct (_ && _)%bool; [|reflexivity].
      destruct (String.eqb_spec (fd_name f) "__schema") as [E|]; [exfalso; apply Nm; rewrite E; simpl; auto|].
      destruct (String.eqb_spec (fd_name f) "__type") as [E|]; [exfalso; apply Nm; rewrite E; simpl; auto 6|reflexivity]. }
    rewrite M, F. split; [|repeat split; auto using sub_type_refl].
    + replace (List.find _ _) with (Some f); [reflexivity|]. symmetry.
      pose proof (proj1 (wf_fields S WF _ _ F)) as ND. clear - I ND. induction (td_fields d) as [|g l IH]; [destruct I|]. cbn [List.find map] in *.
      inversion ND as [|? ? N ND']; subst. destruct (String.eqb_spec (fd_name g) (fd_name f)) as [E|E].
      * destruct I as [->|I]; [reflexivity|]. exfalso. apply N. rewrite E. now apply in_map.
      * destruct I as [->|I]; [congruence|auto].
    + apply mb_field. apply (unwrap_stands (fd_type f) false Pr). discriminate.
  - exists (TNamed "__Schema"). unfold meta_type, live. rewrite Hi, String.eqb_refl. cbn [andb]. rewrite String.eqb_refl.
    destruct (proj1 (wf_introspection S WF Hi)) as (d & F & K). rewrite F. split; [reflexivity|]. split; [reflexivity|].
    split; [apply st_stronger; apply st_same|]. split; [exact Logic.I|]. split; [split; [exact Logic.I|discriminate]|]. apply mb_schema.
  - exists (TNamed "__Type"). unfold meta_type, live. rewrite Hi, String.eqb_refl. cbn [andb].
    change (String.eqb "__type" "__schema") with false. cbv iota. rewrite String.eqb_refl.
    destruct (proj2 (wf_introspection S WF Hi)) as (d & F & K). rewrite F. split; [reflexivity|]. split; [reflexivity|].
    split; [apply st_same|]. split; [exact Logic.I|]. split; [exact Logic.I|]. apply mb_field. cbn. apply sf_nullable. constructor.
Qed.

(** A member of the generated struct reads every value of the field, on every object. *)
Definition reads_member (o : occurrence) (f : field) : Prop := forall T0 f0 p is v ty args ty', field_of S (oc_parent o) (oc_name o) ty args -> sub_type S ty' ty ->
  data_fits S doc nowhere T0 f0 p is ty' (subs (oc_sub o)) v ->
  exists x, parse (fst (snd f)) (fst (snd (snd f))) v = Ok x /\ shows (fst (snd f)) (fst (snd (snd f))) v x.
Definition declares_member (o : occurrence) (f : field) : Prop := exists ty args, field_of S (oc_parent o) (oc_name o) ty args /\
  member (oc_parent o) (oc_name o) ty (fst (snd f)) /\ member_type S doc (named_type ty) (subs (oc_sub o)) (fst (snd (snd f))).
Definition reads (T : string) (sels : list selection) (fs : list field) : Prop := forall p T' kvs, possible S T T' -> object_fits S doc nowhere p T' sels kvs ->
  exists xs, parse_output (IStruct fs) (VMap kvs) = Ok (XStruct xs) /\ shows [] (IStruct fs) (VMap kvs) (XStruct xs).
Definition generated (T : string) (sels : list selection) (fs : list field) : Prop :=
  (exists N, forall m, N <= m -> visit m T sels = Ok fs) /\ declares S doc T sels fs /\ reads T sels fs.

Lemma field_kind : forall P name ty args, field_of S P name ty args -> exists d, find_type S (named_type ty) = Some d /\
  ((composite S (named_type ty) /\ (td_kind d = OBJECT \/ td_kind d = INTERFACE \/ td_kind d = UNION)) \/
   (~ composite S (named_type ty) /\ (td_kind d = SCALAR \/ td_kind d = ENUM))).
Proof.
  intros P name ty args H.
  assert (E : exists d, find_type S (named_type ty) = Some d /\ td_kind d <> INPUT_OBJECT).
  { destruct H as [d f F K I|Hc|Hi Eq|Hi Eq].
    - destruct (proj2 (wf_fields S WF _ _ F) f I) as (_ & _ & Ex & _). exact Ex.
    - destruct (wf_string S WF) as (d & F & K). exists d. cbn [named_type]. split; congruence.
    - destruct (proj1 (wf_introspection S WF Hi)) as (d & F & K). exists d. cbn [named_type]. split; congruence.
    - destruct (proj2 (wf_introspection S WF Hi)) as (d & F & K). exists d. cbn [named_type]. split; congruence. }
  destruct E as (d & F & K). exists d. split; [exact F|]. destruct (wf_names S WF _ _ F) as (_ & K1 & K2).
  assert (NC : forall k, td_kind d = k -> k <> OBJECT -> k <> INTERFACE -> k <> UNION -> ~ composite S (named_type ty)).
  { intros k E N1 N2 N3 [C|[C|C]]; destruct C as (d' & F' & K'); congruence. }
  destruct (td_kind d) eqn:Ed; try congruence.
  - right. split; [eapply NC; eauto; discriminate|auto].
  - left. split; [left; now exists d|auto].
  - left. split; [right; left; now exists d|auto].
  - left. split; [right; right; now exists d|auto].
  - right. split; [eapply NC; eauto; discriminate|auto].
Qed.

Lemma field_generated : forall o ty args, field_of S (oc_parent o) (oc_name o) ty args ->
  (composite S (named_type ty) <-> oc_sub o <> None) ->
  (forall sub, oc_sub o = Some sub -> exists fs, generated (named_type ty) sub fs) ->
  exists f, makes o f /\ reads_member o f /\ declares_member o f.
Proof.
  intros o ty args H HC IH. destruct (field_kind _ _ _ _ H) as (d & Fd & K).
  (* the type of the member *)
  assert (MT : exists t, (exists N, forall m, N <= m ->
      (match td_kind d with
       | OBJECT | INTERFACE | UNION => fs <- match oc_sub o with Some sels => visit m (named_type ty) sels | None => Ok [] end ;; Ok (IStruct fs)
       | _ => Ok (ILeaf (leaf_scalar (named_type ty) d))
       end) = Ok t) /\ member_type S doc (named_type ty) (subs (oc_sub o)) t /\
      forall T0 f0 p is v, v <> VNull -> data_fits S doc nowhere T0 f0 p is (TNamed (named_type ty)) (subs (oc_sub o)) v -> exists x, parse_output t v = Ok x /\ shows [] t v x).
  { destruct K as [(C & K)|(C & K)].
    - destruct (oc_sub o) as [sub|] eqn:Es; [|exfalso; exact (proj1 HC C eq_refl)]. destruct (IH sub eq_refl) as (fs & (N & M) & D & R).
      exists (IStruct fs). split; [|split].
      + exists N. intros m L. rewrite (M m L). cbn [bind]. destruct K as [K|[K|K]]; rewrite K; reflexivity.
      + now apply mt_struct.
      + intros T0 f0 p is v NV DF. inversion DF as [? ? ? ? ? ? Fa| | | |? ? ? ? n v' L I'|? ? ? ? n T ? kvs HP OF]; subst; [exfalso; exact Fa|congruence| |].
        * exfalso. destruct L as [(d' & F' & K')|(d' & F' & K')]; assert (d' = d) by congruence; subst d'; destruct K as [K|[K|K]]; congruence.
        * destruct (R (p ++ map PIndex is) T kvs HP OF) as (xs & E1 & E2). exists (XStruct xs). auto.
    - destruct (oc_sub o) as [sub|] eqn:Es; [exfalso; apply C; apply HC; discriminate|].
      exists (ILeaf (leaf_scalar (named_type ty) d)). split; [|split].
      + exists 0. intros m _. destruct K as [K|K]; rewrite K; reflexivity.
      + cbn [subs]. apply mt_leaf. apply (leaf_declared (named_type ty) d Fd K).
      + intros T0 f0 p is v NV DF. inversion DF as [? ? ? ? ? ? Fa| | | |? ? ? ? n v' L I'|? ? ? ? n T ? kvs HP OF]; subst; [exfalso; exact Fa|congruence| |].
        * destruct (leaf_read (named_type ty) d v Fd K I') as (x & E1 & E2). exists x. split; [exact E1|now constructor].
        * exfalso. destruct HP as [((d' & F' & K') & _)|(d' & d2 & F' & K' & _)]; assert (d' = d) by congruence; subst d'; destruct K as [K|K]; [congruence|congruence| |]; destruct K'; congruence. }
  destruct MT as (t & (N & M) & MT & R).
  assert (CT : exists ms ct, fst (unwrap false ct) = ms /\ named_type ct = named_type ty /\ sub_type S ty ct /\ proper ct /\
      member (oc_parent o) (oc_name o) ty ms /\ makes o (oc_key o, (ms, (t, None)))).
  { destruct (string_dec (oc_name o) "__typename") as [Et|Nt].
    - inversion H as [d' f F' K' I' En|Hc En|Hi Eq En|Hi Eq En]; subst.
      + exfalso. destruct (proj2 (wf_fields S WF _ _ F') f I') as (Nm & _). apply Nm. rewrite En, Et. simpl. auto.
      + exists [], (TNonNull (TNamed "String")). split; [reflexivity|]. split; [reflexivity|]. split; [apply sub_type_refl|].
        split; [split; [exact Logic.I|discriminate]|]. split; [apply mb_field; constructor|].
        split; [reflexivity|]. exists N. intros m L names fields Me. unfold visit_field. rewrite Me, Et, String.eqb_refl.
        specialize (M m L). cbn [named_type] in *. destruct (wf_string S WF) as (ds & Fs & Ks). assert (d = ds) by congruence. subst ds.
        rewrite Ks in M. injection M as <-. reflexivity.
      + congruence.
      + congruence.
    - destruct (found_type _ _ _ _ H Nt) as (ct & Ef & Nn & Hs & Pc & Pt & Mb). exists (fst (unwrap false ct)), ct.
      split; [reflexivity|]. split; [exact Nn|]. split; [exact Hs|]. split; [exact Pc|]. split; [exact Mb|]. split; [reflexivity|].
      exists N. intros m L names fields Me. unfold visit_field. rewrite Me. rewrite (proj2 (String.eqb_neq _ _) Nt). cbv zeta. rewrite Ef. cbn [bind].
      pose proof (unwrap_name ct false) as Un. destruct (unwrap false ct) as [ms n]. cbn [fst snd] in *. subst n. rewrite Nn, Fd, (M m L). reflexivity. }
  destruct CT as (ms & ct & Ems & Nn & Hs & Pc & Mb & Mk). exists (oc_key o, (ms, (t, None))). split; [exact Mk|]. split.
  - intros T0 f0 p is v ty2 args2 ty' Hf ST DF. destruct (field_of_fun S WF _ _ _ _ _ _ H Hf) as [<- _]. cbn [fst snd]. rewrite <- Ems. apply (mods_read t ct (subs (oc_sub o)) Pc) with (T0 := T0) (f0 := f0) (p := p) (is := is); try discriminate.
    + rewrite Nn. exact R.
    + apply (data_sub ty ct Hs). apply (data_sub ty' ty); [exact ST|exact DF].
  - exists ty, args. cbn [fst snd]. auto.
Qed.

Theorem selection_generated : forall stk T sels, selection_ok stk T sels -> exists fs, generated T sels fs.
Proof.
  intros stk T sels H. induction H as [stk T sels items C ND HF HC HS IH].
  destruct (visit_collect (fun o f => fst f = oc_key o /\ reads_member o f /\ declares_member o f) stk T sels items C) as (fs & Kfs & F & N & M).
  { intros o I. apply occs_in in I. destruct (HF o I) as (ty & args & Ho). destruct (field_generated o ty args Ho (HC o ty args I Ho)) as (f & Mk & R & D).
    - intros sub Es. exact (IH o ty args sub I Ho Es).
    - exists f. split; [exact Mk|]. split; [exact (proj1 Mk)|auto]. }
  destruct (news_nodup fs []) as (NDf & _). assert (KN : forall k, In k (map fst (news [] fs)) <-> In k (map oc_key (occs items))).
  { intro k. rewrite <- Kfs. apply news_keys0. }
  exists (news [] fs). split; [|split].
  - exists (Datatypes.S N). intros m L. destruct m as [|m]; [lia|]. unfold visit. cbn [visit_selections].
    destruct (M m ltac:(lia) [] []) as (n & E & _). unfold visit in E. rewrite E. reflexivity.
  - apply declares_intro.
    + exact NDf.
    + intros k ms t d I. apply news_in in I. destruct (forall2_in_right _ _ _ _ _ _ F I) as (o & Io & Ek & _ & ty & args & Ho & Mb & MT). cbn [fst snd] in *.
      apply occs_in in Io. exists (oc_parent o), (oc_name o), ty, args, (subs (oc_sub o)).
      subst k. split; [now apply (collect_selected stk T sels items)|]. auto.
    + intros k P name sub Hsel. destruct (selected_collect _ _ _ _ _ _ Hsel _ _ C) as (o & Io & <- & _). apply KN. apply in_map. now apply occs_in.
  - intros p T' kvs HP OF. inversion OF as [? ? ? ? NK HE]; subst.
    assert (R : forall f v, In f (news [] fs) -> lookup (fst f) kvs = Some v ->
      exists x, parse (fst (snd f)) (fst (snd (snd f))) v = Ok x /\ shows (fst (snd f)) (fst (snd (snd f))) v x).
    { intros f v I L. apply news_in in I. destruct (forall2_in_right _ _ _ _ _ _ F I) as (o & Io & Ek & Rd & _). apply occs_in in Io. apply lookup_in in L.
      pose proof (HE _ _ L) as EF; inversion EF as [q ? ? ? ? name ty args sub Hsel Hf DF]; subst.
      destruct (selects_collect _ _ _ _ _ Hsel stk T items C HP) as (o' & Io' & Ek' & En & Es & HP').
      destruct (ND o o' Io Io' ltac:(congruence)) as (Esub & ty0 & a0 & a1 & F0 & F1). apply (Rd T' name (p ++ [PName (fst f)]) [] v ty0 a0 ty F0).
      - apply (object_field (oc_parent o') T' name ty0 a1 ty args HP'); [now rewrite <- En|exact Hf].
      - refine (data_same _ _ _ _ _ _ _ _ DF (subs (oc_sub o)) _). rewrite <- Es. unfold same_selections in Esub. destruct (oc_sub o), (oc_sub o'); try discriminate; [injection Esub as Esub; symmetry; exact Esub|reflexivity]. }
    destruct (struct_filled (news [] fs) kvs) as (xs & E1 & E2); [exact NDf|exact NK|intros f v I L; destruct (R f v I L) as (x & E & _); eauto|].
    exists xs. split; [exact E1|]. apply sh_struct.
    + intros k I. apply in_map_iff in I as ([k' v] & Ek & I). cbn [fst] in Ek. subst k'. pose proof (HE _ _ I) as EF; inversion EF as [q ? ? ? ? name ty args sub Hsel Hf DF]; subst.
      destruct (selects_collect _ _ _ _ _ Hsel stk T items C HP) as (o' & Io' & <- & _). apply KN. apply in_map. now apply occs_in.
    + apply shown_fields; [exact E2|]. intros f v x I L E. destruct (R f v I L) as (x' & E' & Sh). rewrite E in E'. injection E' as ->. exact Sh.
Qed.
End Service.
End Proofs.
