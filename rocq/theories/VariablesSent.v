(** From a client's variables to a service's arguments (for C56). *)
From Coq Require Import String List Bool Relations Permutation Lia Arith.
From Verif Require Import Cpp Value Ast ErrorModel ExecModel ExecSem ExecSpec ExecValues JSONModel JSONSpec JSONProofs SchemaModel ModifiersModel ModifiersSpec ModifiersProofs RoundTripProofs
  LoaderModel LoaderSpec LoaderProofs LoaderProps AcceptSpec AcceptProofs ValidationModel ValidationSpec ClientModel ClientSpec ClientProofs TypedSpec TypedValues TypedProps
  VariablesModel VariablesSpec VariablesProofs VariablesCpp.
Import ListNotations.
Local Open Scope string_scope.
Local Open Scope list_scope.

Lemma proper_grammatical t : proper t -> grammatical t.
Proof.
  induction t as [n|t IH|t IH]; cbn [proper grammatical]; auto. intros [P N]. specialize (IH P). destruct t; auto. destruct (N t eq_refl).
Qed.
Lemma base_named t : base_name t = named_type t.
Proof. induction t; auto. Qed.

Section Sent.
Variable S : schema.
Hypothesis WF : schema_wf S.
Hypothesis PE : plain_enums S.
Hypothesis DE : enums_distinct S.

(** ** The structs *)
Definition struct_fields (m : nat) : list input_value -> option (list field) :=
  fix each (fs : list input_value) : option (list field) :=
    match fs with
    | [] => Some []
    | f :: r => match input_struct S m (snd (unwrap false (iv_type f))), each r with
                | Some t, Some l => Some ((iv_name f, (fst (unwrap false (iv_type f)), (t, None))) :: l)
                | _, _ => None
                end
    end.
Lemma input_struct_object m n d : find_type S n = Some d -> td_kind d = INPUT_OBJECT -> input_struct S (Datatypes.S m) n = option_map IStruct (struct_fields m (td_inputs d)).
Proof. intros Hf K. cbn [input_struct]. rewrite Hf, K. reflexivity. Qed.
Lemma input_struct_leaf m n d : find_type S n = Some d -> td_kind d = SCALAR \/ td_kind d = ENUM -> input_struct S (Datatypes.S m) n = Some (ILeaf (leaf_scalar n d)).
Proof. intros Hf K. cbn [input_struct]. rewrite Hf. destruct K as [-> | ->]; reflexivity. Qed.
Lemma struct_cpp m : forall n t, input_named S n -> input_struct S m n = Some t -> input_cpp S n t.
Proof.
  induction m as [|m IH]; intros n t Hn E; [discriminate|]. destruct Hn as [(d & Hf & K)|[(d & Hf & K)|(d & Hf & K)]].
  - rewrite (input_struct_leaf m n d Hf (or_introl K)) in E. injection E as <-. constructor; [left; exists d; auto|]. apply (leaf_declared S PE n d Hf). auto.
  - rewrite (input_struct_leaf m n d Hf (or_intror K)) in E. injection E as <-. constructor; [right; exists d; auto|]. apply (leaf_declared S PE n d Hf). auto.
  - rewrite (input_struct_object m n d Hf K) in E. destruct (struct_fields m (td_inputs d)) as [fs|] eqn:Es; [|discriminate]. injection E as <-. apply (ic_struct S n d fs Hf K).
    assert (W := proj2 (wf_inputs S WF n d Hf K)). clear Hf K. revert fs Es. induction (td_inputs d) as [|f l IHl]; intros fs Es; cbn [struct_fields] in Es; [injection Es as <-; constructor|].
    destruct (W f (or_introl eq_refl)) as [P I]. assert (U := unwrap_name (iv_type f) false). assert (St := unwrap_stands (iv_type f) false P ltac:(discriminate)). rewrite U in Es.
    destruct (input_struct S m (named_type (iv_type f))) as [t|] eqn:Et; [|discriminate]. fold (struct_fields m l) in Es. destruct (struct_fields m l) as [fs'|]; [|discriminate]. injection Es as <-.
    constructor; [exact St|apply IH; assumption|]. apply IHl; [intros a Ha; apply W; right; exact Ha|reflexivity].
Qed.

Inductive chain : string -> list string -> Prop :=
| ch_one a : input_object S a -> chain a [a]
| ch_more a b l : contains S a b -> input_object S a -> chain b l -> chain a (a :: l).
Lemma chain_reaches a l : chain a l -> forall b, In b l -> clos_refl_trans string (contains S) a b.
Proof.
  induction 1 as [a _|a b l Hc _ _ IH]; intros x Hx.
  - destruct Hx as [<-|[]]. apply rt_refl.
  - destruct Hx as [<-|Hx]; [apply rt_refl|]. apply rt_trans with b; [apply rt_step; exact Hc|apply IH; exact Hx].
Qed.
Lemma step_then a b c : contains S a b -> clos_refl_trans string (contains S) b c -> clos_trans string (contains S) a c.
Proof.
  intros H R. apply clos_rt_rt1n in R. revert a H. induction R as [y|y z w Hyz _ IH]; intros a H; [apply t_step; exact H|]. apply t_trans with y; [apply t_step; exact H|]. apply IH. exact Hyz.
Qed.
Lemma chain_nodup a l : not_recursive S -> chain a l -> NoDup l.
Proof.
  intros NR. induction 1 as [a _|a b l Hc _ Hch IH]; [repeat constructor; auto|]. constructor; [|exact IH]. intros Hin. apply (NR a). assert (R := chain_reaches b l Hch a Hin).
  exact (step_then a b a Hc R).
Qed.
Lemma chain_types a l : chain a l -> incl l (map fst (s_types S)).
Proof.
  assert (X : forall n, input_object S n -> In n (map fst (s_types S))).
  { intros n (d & Hf & _). unfold find_type in Hf. clear -Hf. induction (s_types S) as [|[k x] l IH]; [discriminate|]. cbn [assoc] in Hf. cbn [map fst]. destruct (String.eqb_spec n k) as [->|]; [left; reflexivity|right; apply IH; exact Hf]. }
  induction 1 as [a Ha|a b l _ Ha _ IH]; intros x [<-|Hx]; auto. destruct Hx.
Qed.
Lemma struct_or_chain m : forall n, input_named S n -> (exists t, input_struct S (Datatypes.S m) n = Some t) \/ exists l, chain n l /\ length l = Datatypes.S m.
Proof.
  induction m as [|m IH]; intros n Hn; (destruct Hn as [(d & Hf & K)|[(d & Hf & K)|(d & Hf & K)]]; [left; eexists; exact (input_struct_leaf _ n d Hf (or_introl K))|left; eexists; exact (input_struct_leaf _ n d Hf (or_intror K))|]).
  - right. exists [n]. split; [constructor; exists d; auto|reflexivity].
  - rewrite (input_struct_object _ n d Hf K). assert (W := proj2 (wf_inputs S WF n d Hf K)).
    assert (F : (exists fs, struct_fields (Datatypes.S m) (td_inputs d) = Some fs) \/ exists f l, In f (td_inputs d) /\ chain (named_type (iv_type f)) l /\ length l = Datatypes.S m).
    { clear Hf K. induction (td_inputs d) as [|f l IHl]; [left; eexists; reflexivity|]. destruct (IHl (fun a Ha => W a (or_intror Ha))) as [(fs & Es)|(g & p & Hg & Hp)]; [|right; exists g, p; split; [right; exact Hg|exact Hp]].
      destruct (IH (named_type (iv_type f)) (proj2 (W f (or_introl eq_refl)))) as [(t & Et)|(p & Hp & Lp)]; [|right; exists f, p; split; [left; reflexivity|auto]].
      left. cbn [struct_fields]. rewrite (unwrap_name (iv_type f) false). rewrite Et. fold (struct_fields (Datatypes.S m) l). rewrite Es. eexists. reflexivity. }
    destruct F as [(fs & ->)|(f & l & Hin & Hch & Hl)]; [left; eexists; reflexivity|]. right. exists (n :: l). split; [|cbn [length]; congruence].
    apply (ch_more n (named_type (iv_type f)) l); [|exists d; auto|exact Hch]. split; [exists d, f; auto|]. inversion Hch; assumption.
Qed.
Lemma struct_exists n m : not_recursive S -> input_named S n -> length (s_types S) < m -> exists t, input_struct S m n = Some t.
Proof.
  intros NR Hn Hm. destruct m as [|m]; [lia|]. destruct (struct_or_chain m n Hn) as [H|(l & Hch & Hl)]; [exact H|]. exfalso.
  assert (X := NoDup_incl_length (chain_nodup n l NR Hch) (chain_types n l Hch)). rewrite map_length in X. lia.
Qed.

(** ** The variables *)
Definition variable_read (v : variable_def) (r : request_variable) : Prop := rv_name r = v_name v /\ rv_type r = named_type (v_type v) /\ stands_for (rv_type r) (rv_mods r) (v_type v) /\ input_named S (rv_type r).
Definition default_readable (v : variable_def) : Prop := forall l, v_default v = Some l -> ints_fit l /\ forall a n, l <> LVar a n.
Lemma variables_read vs before : variables_ok S before vs -> Forall (fun v => proper (v_type v)) vs -> Forall default_readable vs ->
  exists rs, mapM (collect_variable S) vs = Ok rs /\ Forall2 variable_read vs rs.
Proof.
  revert before. induction vs as [|v vs IH]; intros before Hv Hp Hd; [exists []; split; [reflexivity|constructor]|]. destruct Hv as (_ & Hi & Hl & Hr). inversion Hp as [|? ? P Ps]; subst. inversion Hd as [|? ? D Ds]; subst.
  destruct (IH _ Hr Ps Ds) as (rs & Er & Fr). destruct (C35_modifiers (v_type v) (proper_grammatical _ P)) as [St B]. rewrite base_named in B.
  assert (Hn : exists d, find_type S (named_type (v_type v)) = Some d) by (destruct Hi as [(d & Hf & _)|[(d & Hf & _)|(d & Hf & _)]]; eauto). destruct Hn as (d & Hf).
  assert (C : collect_variable S v = Ok (mkRV (v_name v) (fst (visit_field_type (v_type v))) (snd (visit_field_type (v_type v))))).
  { unfold collect_variable. assert (X := head_nullable (v_type v) (proper_grammatical _ P)). destruct (visit_field_type (v_type v)) as [n ms]. cbn [fst snd] in *. subst n.
    destruct (v_default v) as [l|] eqn:El; [|rewrite Hf; reflexivity]. destruct (D l El) as [Hfit Hvar]. destruct (proj2 (default_visits l) Hfit) as [w Ew]. rewrite Ew, Hf. cbn [andb].
    destruct w; try reflexivity. cbn [andb]. assert (Nv := proj1 (default_null l VNull Ew) eq_refl). destruct l; try contradiction; [destruct (Hvar loc name eq_refl)|].
    assert (Hnull : nullable (v_type v)).
    { destruct (Hl _ eq_refl) as [_ V]. destruct (v_type v) as [m|t|t]; try exact I. exfalso. inversion V as [| |? ? ? [D1|D1]|? ? ? D1 D2 D3| | | | | | | | | |]; subst; [discriminate|apply D1; eexists; reflexivity|exact (D1 _ eq_refl)]. }
    apply X in Hnull. destruct Hnull as [x ->]. reflexivity. }
  exists (mkRV (v_name v) (fst (visit_field_type (v_type v))) (snd (visit_field_type (v_type v))) :: rs). cbn [mapM]. rewrite C. cbn [bind]. rewrite Er. split; [reflexivity|]. constructor; [|exact Fr].
  unfold variable_read. cbn [rv_name rv_type rv_mods]. split; [reflexivity|]. split; [exact B|]. split; [exact St|]. rewrite B. exact Hi.
Qed.
Lemma fields_exist rs m : not_recursive S -> length (s_types S) < m -> (forall r, In r rs -> input_named S (rv_type r)) -> exists fields, variable_fields S m rs = Some fields.
Proof.
  intros NR Hm. induction rs as [|r rs IH]; intros Hn; [eexists; reflexivity|]. destruct (struct_exists (rv_type r) m NR (Hn r (or_introl eq_refl)) Hm) as (t & Et). destruct (IH (fun x Hx => Hn x (or_intror Hx))) as (fs & Ef).
  cbn [variable_fields]. unfold variable_fields in Ef. rewrite Et, Ef. eexists. reflexivity.
Qed.
Definition field_read (r : request_variable) (f : field) : Prop := fst f = rv_name r /\ fst (snd f) = rv_mods r /\ input_cpp S (rv_type r) (fst (snd (snd f))).
Lemma fields_read rs m fields : (forall r, In r rs -> input_named S (rv_type r)) -> variable_fields S m rs = Some fields -> Forall2 field_read rs fields.
Proof.
  revert fields. induction rs as [|r rs IH]; intros fields Hn E; cbn [variable_fields] in E; [injection E as <-; constructor|]. destruct (input_struct S m (rv_type r)) as [t|] eqn:Et; [|discriminate].
  fold (variable_fields S m rs) in E. destruct (variable_fields S m rs) as [fs|]; [|discriminate]. injection E as <-. constructor; [|apply IH; auto; intros x Hx; apply Hn; right; exact Hx].
  split; [reflexivity|]. split; [reflexivity|]. cbn [fst snd]. apply (struct_cpp m); [apply Hn; left; reflexivity|exact Et].
Qed.

(** ** The message *)
Hypothesis CL : names_clean S.
(** The member of struct Variables and the value that goes to the serialize function. *)
Definition member_sent (f : field) (x y : cppval) : Prop := typed [] (fst (snd (snd f))) x /\ member_value (fst (snd f)) x = Some y.
Lemma member_typed ms t x y : typed [] t x -> member_value ms x = Some y -> typed ms t y.
Proof. intros T M. destruct ms as [|[] [|]]; try discriminate; injection M as <-; [exact T|now constructor]. Qed.
Lemma fields_typed fields : forall xs ys, length xs = length fields -> length ys = length fields ->
  (forall i f x y, nth_error fields i = Some f -> nth_error xs i = Some x -> nth_error ys i = Some y -> member_sent f x y) -> typed_fields fields ys.
Proof.
  induction fields as [|[n [ms [t d]]] fields IH]; intros [|x xs] [|y ys] Lx Ly H; try discriminate; [constructor|]. constructor.
  - destruct (H 0 (n, (ms, (t, d))) x y eq_refl eq_refl eq_refl) as [T M]. exact (member_typed _ _ _ _ T M).
  - apply (IH xs ys); [cbn in Lx; congruence|cbn in Ly; congruence|]. intros i f a b. apply (H (Datatypes.S i)).
Qed.
Lemma typed_nth fields ys : typed_fields fields ys -> forall i f y, nth_error fields i = Some f -> nth_error ys i = Some y -> typed (fst (snd f)) (fst (snd (snd f))) y.
Proof. induction 1 as [|n ms t d fs y ys T _ IH]; intros [|i] f z Hf Hy; try discriminate; [injection Hf as <-; injection Hy as <-; exact T|exact (IH i f z Hf Hy)]. Qed.
Lemma fields_ok rs fields : Forall2 field_read rs fields -> (forall r, In r rs -> stack_ok (rv_mods r) = true) ->
  Forall (fun f : field => stack_ok (fst (snd f)) = true /\ type_ok (fst (snd (snd f))) = true) fields.
Proof.
  induction 1 as [|r f rs fs (_ & Em & Hc) _ IH]; intros Hs; constructor; [|apply IH; intros x Hx; apply Hs; right; exact Hx]. split; [rewrite Em; apply Hs; left; reflexivity|].
  exact (proj1 (types_ok S WF DE CL) _ _ Hc).
Qed.
Lemma message rs fields ys : Forall2 field_read rs fields -> (forall r, In r rs -> stack_ok (rv_mods r) = true) -> NoDup (map rv_name rs) -> typed_fields fields ys ->
  exists vs, serialize_variables fields ys = Ok (VMap (combine (map rv_name rs) vs)) /\ length vs = length rs /\
    forall i f y v, nth_error fields i = Some f -> nth_error ys i = Some y -> nth_error vs i = Some v -> serialize (fst (snd f)) (fst (snd (snd f))) y = Ok v.
Proof.
  intros Hr Hs Nd T. assert (Names : map fst fields = map rv_name rs) by (clear -Hr; induction Hr as [|r f rs fs (E & _) _ IH]; [reflexivity|cbn [map]; rewrite E; f_equal; exact IH]).
  assert (Ho := fields_ok rs fields Hr Hs). destruct (serialize_fields_ok fields ys []) as (vs & Es & G & L).
  - clear -T Ho. induction T as [|n ms t d fs y ys Ty _ IH]; [constructor|]. inversion Ho as [|? ? [O1 O2] O3]; subst. constructor; [|exact (IH O3)]. cbn [fst snd] in *. destruct (both_typed ms t y O2 O1 Ty) as (v & E & _). exists v. exact E.
  - cbn [map app]. rewrite Names. exact Nd.
  - exists vs. unfold serialize_variables. rewrite serialize_struct, Es. cbn [bind app]. rewrite Names. split; [reflexivity|]. split.
    + rewrite L. symmetry. clear -Hr. induction Hr; cbn; congruence.
    + clear -G L T. revert ys vs T G L. induction fields as [|f fields IH]; intros ys vs T G L [|i] g y v Hf Hy Hv; try discriminate.
      * destruct ys as [|y0 ys], vs as [|v0 vs]; try discriminate. cbn [combine] in G. inversion G as [|? ? ? ? G1 _]; subst. injection Hf as <-. injection Hy as <-. injection Hv as <-. exact G1.
      * destruct ys as [|y0 ys], vs as [|v0 vs]; try discriminate. cbn [combine] in G. inversion G as [|? ? ? ? _ G2]; subst. inversion T; subst. apply (IH ys vs) with (i := i) (f := g) (y := y); auto.
Qed.

(** One variable, as it is or as JSON: what was serialised is what the service's accessors get. *)
Lemma received_one trip n t t' x v : input_cpp S n t -> input_cpp S n t' -> typed [] t x -> safe trip x -> serialize [] t x = Ok v ->
  has_null_scalar (sent trip v) = false /\ sent trip v <> VNull /\ forall a es, lookup a es = Some (sent trip v) -> require [] t' a (VMap es) = Ok x /\ require [MNullable] t' a (VMap es) = Ok (XOpt (Some x)).
Proof.
  intros Hc Hc' T Sx E. destruct (same_sent S DE n t t' [] x Hc Hc') as [T1 E1]. specialize (T1 T). rewrite E1 in E.
  assert (Ok_ := proj1 (types_ok S WF DE CL) _ _ Hc').
  destruct (both_typed [] t' x Ok_ eq_refl T1) as (w & Ew & (N1 & G1 & R1 & _) & J1).
  destruct (both_typed [MNullable] t' (XOpt (Some x)) Ok_ eq_refl (ty_some _ _ _ T1)) as (w2 & Ew2 & (_ & _ & R2 & _) & J2).
  cbn [serialize_mods] in Ew, Ew2. unfold serialize in E. cbn [serialize_mods] in E. assert (w = v) by congruence. assert (w2 = v) by congruence. subst w w2.
  unfold sent, safe in *. destruct trip as [f|].
  - destruct (J1 f Sx) as [_ (N1' & G1' & R1' & _)]. destruct (J2 f Sx) as [_ (_ & _ & R2' & _)]. split; [exact G1'|]. split; [exact N1'|]. intros a es L. split; [exact (R1' a es L)|exact (R2' a es L)].
  - split; [exact G1|]. split; [exact N1|]. intros a es L. split; [exact (R1 a es L)|exact (R2 a es L)].
Qed.
End Sent.
