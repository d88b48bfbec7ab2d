(** C56: the variables of a generated client: their types are declared, each once, and what is put into them is what the service's accessors get. *)
From Coq Require Import String List Bool Relations Permutation Lia Arith NArith.
From Verif Require ExecRequest2.
From Verif Require Import Cpp Value Ast ErrorModel ExecModel ExecSem ExecSpec ExecBigSpec ExecValues ExecRun ExecProps2 JSONModel JSONSpec JSONProofs SchemaModel ModifiersModel ModifiersSpec ModifiersProofs RoundTripProofs
  LoaderModel LoaderSpec LoaderProofs LoaderProps AcceptSpec AcceptProofs ValidationModel ValidationSpec ValidationUse ValidationRepeats ValidationExamples ClientModel ClientSpec ClientProofs ClientProps
  TypedSpec TypedValues TypedExample TypedProps VariablesModel VariablesSpec VariablesProofs VariablesOrder VariablesCpp VariablesSent.
Import ListNotations.
Local Open Scope string_scope.
Local Open Scope list_scope.

Lemma registered_inputs S : schema_wf S -> inputs_registered S.
Proof.
  intros WF a b (d & f & Hf & K & Hin & <-). destruct (proj2 (wf_inputs S WF a d Hf K) f Hin) as [_ [(x & H & _)|[(x & H & _)|(x & H & _)]]]; eauto.
Qed.
Lemma operation_variables S doc op : schema_wf S -> document_wf doc -> accepted S doc -> In op (operations doc) -> variables_ok S [] (op_vars op) /\ Forall (fun v => proper (v_type v)) (op_vars op).
Proof.
  intros WF DW AC Hop. apply (accepted_iff S doc WF DW) in AC. destruct AC as (_ & _ & _ & _ & Ho & _). destruct (dwf_ops doc DW op Hop) as (_ & _ & _ & P). split; [|exact P]. destruct (Ho op Hop). tauto.
Qed.

(** The variables of an operation and the types they need: each input type and each enum once, and nothing else, in an order that is a permutation of
    what was found; all for every schema without recursive input types and every document that validation accepts, whose defaults are readable. *)
Theorem C56_declarations_partial : forall S doc op,
  schema_wf S -> not_recursive S -> document_wf doc -> accepted S doc -> In op (operations doc) -> Forall default_readable (op_vars op) ->
  exists vs types enums, variable_types S op = Ok (vs, types, enums) /\
    Forall2 (fun v r => rv_name r = v_name v /\ rv_type r = named_type (v_type v) /\ stands_for (named_type (v_type v)) (rv_mods r) (v_type v)) (op_vars op) vs /\
    NoDup types /\ NoDup enums /\
    (forall b, In b types <-> needed S (map (fun v => named_type (v_type v)) (op_vars op)) b) /\
    (forall e, In e enums <-> needed_enum S (map (fun v => named_type (v_type v)) (op_vars op)) e) /\
    (only_nullable S -> declared_first S types).
Proof.
  intros S doc op WF NR DW AC Hop Hd. destruct (operation_variables S doc op WF DW AC Hop) as [Hv Hp]. destruct (variables_read S (op_vars op) [] Hv Hp Hd) as (vs & Ev & Fv).
  assert (Names : map (fun v => named_type (v_type v)) (op_vars op) = map rv_type vs) by (clear -Fv; induction Fv as [|v r l l' (_ & E & _) _ IH]; [reflexivity|cbn [map]; rewrite E; f_equal; exact IH]).
  assert (Reg : forall r, In r vs -> exists d, find_type S (rv_type r) = Some d).
  { intros r Hr. destruct (forall2_in_right _ _ _ _ _ _ Fv Hr) as (v & _ & _ & _ & _ & [(d & H & _)|[(d & H & _)|(d & H & _)]]); eauto. }
  destruct (collected S (registered_inputs S WF) vs Reg) as (c & Ec & N1 & N2 & I1 & I2).
  destruct (reorder_orders S NR (r_inputs c)) as (ts & Et & P & O).
  - intros t Ht. apply I1 in Ht. destruct Ht as (a & _ & Ha & R). apply clos_rt_rtn1 in R. destruct R as [|y z [_ Hz] _]; assumption.
  - intros t b Ht Hc. apply I1 in Ht. apply I1. destruct Ht as (a & H1 & H2 & R). exists a. split; [exact H1|]. split; [exact H2|]. apply rt_trans with t; [exact R|apply rt_step; exact Hc].
  - exists vs, ts, (r_enums c). split; [unfold variable_types, collect_variables; rewrite Ev; cbn [bind]; rewrite Ec; cbn [bind]; rewrite Et; reflexivity|]. split.
    { clear -Fv. induction Fv as [|v r l l' (E1 & E2 & E3 & _) _ IH]; constructor; [|exact IH]. rewrite <- E2. auto. }
    split; [apply (Permutation_NoDup (Permutation_sym P)); exact N1|]. split; [exact N2|]. rewrite Names. split; [|split; [exact I2|intros On; exact (ordered_declared S ts On O)]].
    intros b. rewrite <- I1. split; intros Hb; [exact (Permutation_in _ P Hb)|exact (Permutation_in _ (Permutation_sym P) Hb)].
Qed.

(** Variables whose type is an input type: the ones for which the generated code is compiled. *)
Definition object_variable (S : schema) (v : variable_def) : Prop := exists n, input_object S n /\ (v_type v = TNamed n \/ v_type v = TNonNull (TNamed n)).
(** A C++ value of the type of the variable. *)
Definition member_of (S : schema) (v : variable_def) (x : cppval) : Prop := exists t, input_cpp S (named_type (v_type v)) t /\ typed [] t x.
(** What arrives: what was sent, or its JSON text as it is read. *)
Definition delivered (xs : list cppval) (given given' : entries) : Prop :=
  given' = given \/ exists trip, Forall (json_safe trip) xs /\ VMap given' = through_json trip (VMap given).

Lemma object_mods n ms t : stands_for n ms t -> (t = TNamed n \/ t = TNonNull (TNamed n)) -> ms = [] \/ ms = [MNullable].
Proof.
  intros H [-> | ->].
  - inversion H as [| |ms' u H']; subst. inversion H' as [|? ? ?|ms2 u2 H2]; subst; [right; reflexivity|exfalso; exact (no_double _ _ _ H2)].
  - inversion H as [| |ms' u H']; subst; [left; reflexivity|exfalso; exact (no_double _ _ _ H')].
Qed.
Lemma nth_both {A B} (R : A -> B -> Prop) l l' : Forall2 R l l' -> forall i a, nth_error l i = Some a -> exists b, nth_error l' i = Some b /\ R a b.
Proof. induction 1 as [|a b l l' H _ IH]; intros [|i] x Hx; try discriminate; [injection Hx as <-; exists b; auto|exact (IH i x Hx)]. Qed.
Lemma lookup_combine : forall (names : list string) (vs : list value) i n v, NoDup names -> nth_error names i = Some n -> nth_error vs i = Some v -> lookup n (combine names vs) = Some v.
Proof.
  induction names as [|a names IH]; intros [|w vs] [|i] n v Nd Hn Hv; try discriminate; cbn [combine lookup].
  - injection Hn as <-. injection Hv as <-. now rewrite String.eqb_refl.
  - inversion Nd as [|? ? Ni Nd']; subst. destruct (String.eqb_spec n a) as [->|]; [exfalso; apply Ni; exact (nth_error_In names i Hn)|]. exact (IH vs i n v Nd' Hn Hv).
Qed.
Lemma combine_lookup : forall (names : list string) (vs : list value) n v, lookup n (combine names vs) = Some v -> exists i, nth_error names i = Some n /\ nth_error vs i = Some v.
Proof.
  induction names as [|a names IH]; intros [|w vs] n v H; try discriminate; cbn [combine lookup] in H. destruct (String.eqb_spec n a) as [->|].
  - injection H as <-. exists 0. auto.
  - destruct (IH vs n v H) as (i & H1 & H2). exists (Datatypes.S i). auto.
Qed.

(** What the generated client sends for its variables, and what the service's accessors get for an argument that is a variable. *)
Lemma sent_received S op trip xs : schema_wf S -> plain_enums S -> enums_distinct S -> names_clean S -> not_recursive S ->
  variables_ok S [] (op_vars op) -> Forall (fun v => proper (v_type v)) (op_vars op) -> Forall default_readable (op_vars op) -> Forall (object_variable S) (op_vars op) ->
  Forall2 (member_of S) (op_vars op) xs ->
  exists vs, client_message S op xs = Ok (VMap (combine (map v_name (op_vars op)) vs)) /\ length vs = length (op_vars op) /\
    forall i v x w, nth_error (op_vars op) i = Some v -> nth_error xs i = Some x -> nth_error vs i = Some w -> safe trip x ->
      has_null_scalar (sent trip w) = false /\ sent trip w <> VNull /\ input_fits S (v_type v) (sent trip w) /\
      forall t a es, input_cpp S (named_type (v_type v)) t -> lookup a es = Some (sent trip w) -> require [] t a (VMap es) = Ok x /\ require [MNullable] t a (VMap es) = Ok (XOpt (Some x)).
Proof.
  intros WF PE DE CL NR Hv Hp Hd Ho Hx. destruct (variables_read S (op_vars op) [] Hv Hp Hd) as (rs & Er & Fr).
  assert (Hn : forall r, In r rs -> input_named S (rv_type r)). { intros r Hr. destruct (forall2_in_right _ _ _ _ _ _ Fr Hr) as (v & _ & _ & _ & _ & H). exact H. }
  destruct (fields_exist S WF rs (Datatypes.S (length (s_types S))) NR ltac:(lia) Hn) as (fields & Ef). assert (Ff := fields_read S WF PE rs _ fields Hn Ef).
  assert (Names : map rv_name rs = map v_name (op_vars op)) by (clear -Fr; induction Fr as [|v r l l' (E & _) _ IH]; [reflexivity|cbn [map]; rewrite E; f_equal; exact IH]).
  assert (Mods : forall r, In r rs -> rv_mods r = [] \/ rv_mods r = [MNullable]).
  { intros r Hr. destruct (forall2_in_right _ _ _ _ _ _ Fr Hr) as (v & Iv & _ & E & St & _). rewrite Forall_forall in Ho. destruct (Ho v Iv) as (n & _ & Hty). assert (rv_type r = n) by (rewrite E; destruct Hty as [-> | ->]; reflexivity). subst n. exact (object_mods _ _ _ St Hty). }
  assert (Stacks : forall r, In r rs -> stack_ok (rv_mods r) = true) by (intros r Hr; destruct (Mods r Hr) as [-> | ->]; reflexivity).
  assert (M : exists ys, member_values fields xs = Some ys /\ length ys = length fields /\ length xs = length fields /\ forall i f x y, nth_error fields i = Some f -> nth_error xs i = Some x -> nth_error ys i = Some y -> member_sent f x y).
  { clear Er Ef Names Stacks Hn Hv Hp Hd Ho. revert xs fields Hx Ff. induction Fr as [|v r l rs (_ & Et & _) Fr IH]; intros xs fields Hx Ff; inversion Hx as [|? x ? xs' (t0 & H0 & T0) Hx']; subst; inversion Ff as [|? f ? fs (_ & Em & Hc) Ff']; subst.
    - exists []. split; [reflexivity|]. split; [reflexivity|]. split; [reflexivity|]. intros [|i] f x y Hf; discriminate.
    - destruct (IH (fun r' H => Mods r' (or_intror H)) xs' fs Hx' Ff') as (ys & E & Ly & Lx & G). destruct f as [n [ms [t d]]]. cbn [fst snd] in Em, Hc. rewrite Et in Hc. assert (Tx := proj1 (same_sent S DE _ t0 t [] x H0 Hc) T0).
      assert (MV : exists y, member_value ms x = Some y) by (destruct (Mods r (or_introl eq_refl)) as [E'|E']; rewrite <- Em in E'; rewrite E'; eexists; reflexivity). destruct MV as (y & Ey).
      exists (y :: ys). cbn [member_values]. rewrite Ey, E. split; [reflexivity|]. split; [cbn [length]; congruence|]. split; [cbn [length]; congruence|]. intros [|i] g a b Hg Ha Hb; [|exact (G i g a b Hg Ha Hb)].
      injection Hg as <-. injection Ha as <-. injection Hb as <-. split; assumption. }
  destruct M as (ys & Ey & Ly & Lx & Hm). assert (T := fields_typed fields xs ys Lx Ly Hm).
  assert (Nd : NoDup (map rv_name rs)) by (rewrite Names; apply (variables_declared S (op_vars op) [] Hv)).
  destruct (message S WF DE CL rs fields ys Ff Stacks Nd T) as (vs & Es & Lv & Hs).
  assert (Lr : length rs = length (op_vars op)) by (rewrite <- (map_length rv_name rs), Names, map_length; reflexivity).
  exists vs. split; [|split; [congruence|]].
  - unfold client_message, collect_variables. rewrite Er. cbn [bind]. rewrite Ef, Ey, Es, Names. reflexivity.
  - intros i v x w Iv Ix Iw Sx. destruct (nth_both _ _ _ Fr i v Iv) as (r & Ir & _ & Et & St & _). destruct (nth_both _ _ _ Ff i r Ir) as (f & If & _ & Em & Hc).
    assert (Iy : exists y, nth_error ys i = Some y). { destruct (nth_error ys i) eqn:E; [eauto|]. apply nth_error_None in E. assert (i < length fields) by (apply nth_error_Some; congruence). lia. } destruct Iy as (y & Iy).
    destruct (Hm i f x y If Ix Iy) as [Tx My]. assert (E := Hs i f y w If Iy Iw). rewrite Em in E, My.
    assert (E0 : serialize [] (fst (snd (snd f))) x = Ok w) by (destruct (Mods r (nth_error_In _ _ Ir)) as [E'|E']; rewrite E' in E, My; cbn [member_value] in My; injection My as <-; exact E).
    rewrite Et in Hc, St. destruct (received_one S WF DE CL trip _ _ _ x w Hc Hc Tx Sx E0) as (G1 & G2 & _).
    split; [exact G1|]. split; [exact G2|]. split.
    + rewrite Forall_forall in Ho. destruct (Ho v (nth_error_In _ _ Iv)) as (n & _ & Hty).
      assert (F : input_fits S (TNamed (named_type (v_type v))) (sent trip w)) by (apply (proj1 (types_fit S WF DE trip CL) _ _ Hc x w Sx Tx E0)).
      destruct Hty as [Hty|Hty]; rewrite Hty in F |- *; cbn [named_type] in F; [exact F|apply if_nonnull; assumption].
    + intros t a es Ht L. exact (proj2 (proj2 (received_one S WF DE CL trip _ _ t x w Hc Ht Tx Sx E0)) a es L).
Qed.

Lemma delivered_sent S op xs vs given' : Forall2 (member_of S) (op_vars op) xs -> length vs = length (op_vars op) -> delivered xs (combine (map v_name (op_vars op)) vs) given' ->
  exists trip, (forall x, In x xs -> safe trip x) /\ given' = combine (map v_name (op_vars op)) (map (sent trip) vs).
Proof.
  intros Hx L [-> |(f & J & E)].
  - exists None. split; [intros x _; exact I|]. unfold sent. now rewrite map_id.
  - exists (Some f). split; [intros x Ix; rewrite Forall_forall in J; exact (J x Ix)|]. change (through_json f (VMap ?es)) with (sent (Some f) (VMap es)) in E. rewrite sent_map in E. rewrite forall2_combine_sent in E by (rewrite map_length; exact L).
    injection E as E. exact E.
Qed.

(** The message of the client has every variable, and each fits the variable's declared type: directly, or as JSON text. *)
Theorem C56_sent_partial : forall S doc op xs,
  schema_wf S -> plain_enums S -> enums_distinct S -> names_clean S -> not_recursive S -> document_wf doc -> accepted S doc -> In op (operations doc) ->
  Forall default_readable (op_vars op) -> Forall (object_variable S) (op_vars op) -> Forall2 (member_of S) (op_vars op) xs ->
  exists given, client_message S op xs = Ok (VMap given) /\ map fst given = map v_name (op_vars op) /\
    forall given', delivered xs given given' -> copyable given' /\ variables_given S (op_vars op) given'.
Proof.
  intros S doc op xs WF PE DE CL NR DW AC Hop Hd Ho Hx. destruct (operation_variables S doc op WF DW AC Hop) as [Hv Hp].
  assert (Nd : NoDup (map v_name (op_vars op))) by (apply (variables_declared S (op_vars op) [] Hv)).
  destruct (sent_received S op None xs WF PE DE CL NR Hv Hp Hd Ho Hx) as (vs & E & L & _). exists (combine (map v_name (op_vars op)) vs). split; [exact E|]. split; [apply combine_fst; rewrite map_length; exact L|].
  intros given' D. destruct (delivered_sent S op xs vs given' Hx L D) as (trip & Sx & ->). destruct (sent_received S op trip xs WF PE DE CL NR Hv Hp Hd Ho Hx) as (vs2 & E2 & L2 & R). rewrite E in E2. injection E2 as E2.
  assert (vs2 = vs). { clear -E2 L L2. assert (map snd (combine (map v_name (op_vars op)) vs) = map snd (combine (map v_name (op_vars op)) vs2)) by (f_equal; exact E2).
    assert (X : forall ws : list value, length ws = length (op_vars op) -> map snd (combine (map v_name (op_vars op)) ws) = ws).
    { clear. induction (op_vars op) as [|v l IH]; intros [|w ws] H; try discriminate; [reflexivity|]. cbn [map combine snd]. f_equal. apply IH. cbn in H. congruence. }
    rewrite (X vs L), (X vs2 L2) in H. congruence. }
  subst vs2. assert (Lx : length xs = length (op_vars op)) by (clear -Hx; induction Hx; cbn; congruence).
  assert (At : forall i v, nth_error (op_vars op) i = Some v -> exists x w, nth_error xs i = Some x /\ nth_error vs i = Some w /\ safe trip x).
  { intros i v Iv. assert (B : i < length (op_vars op)) by (apply nth_error_Some; congruence). destruct (nth_error xs i) as [x|] eqn:Ix; [|apply nth_error_None in Ix; lia]. destruct (nth_error vs i) as [w|] eqn:Iw; [|apply nth_error_None in Iw; lia].
    exists x, w. split; [reflexivity|]. split; [reflexivity|]. apply Sx. exact (nth_error_In _ _ Ix). }
  split.
  - intros n w Hw. destruct (combine_lookup _ _ n w Hw) as (i & Hn & Hi). rewrite nth_error_map in Hn. destruct (nth_error (op_vars op) i) as [v|] eqn:Iv; [|discriminate]. destruct (At i v Iv) as (x & u & Ix & Iu & S1).
    rewrite nth_error_map, Iu in Hi. injection Hi as <-. exact (proj1 (R i v x u Iv Ix Iu S1)).
  - intros v Iv. destruct (In_nth_error _ _ Iv) as (i & Hi). destruct (At i v Hi) as (x & u & Ix & Iu & S1). destruct (R i v x u Hi Ix Iu S1) as (_ & N & F & _).
    rewrite (lookup_combine (map v_name (op_vars op)) (map (sent trip) vs) i (v_name v) (sent trip u) Nd); [auto|rewrite nth_error_map, Hi; reflexivity|rewrite nth_error_map, Iu; reflexivity].
Qed.

(** Every accessor that a request with these variables calls gets, for an argument that is a variable of the operation, the value that the client's
    member had: read as a required or as an optional argument, with the C++ type of the service (which may have default values). *)
Theorem C56_received_partial : forall S doc op xs,
  schema_wf S -> plain_enums S -> enums_distinct S -> names_clean S -> not_recursive S -> document_wf doc -> accepted S doc -> In op (operations doc) ->
  Forall default_readable (op_vars op) -> Forall (object_variable S) (op_vars op) -> Forall2 (member_of S) (op_vars op) xs ->
  exists given, client_message S op xs = Ok (VMap given) /\
    forall given', delivered xs given given' ->
    forall O (typenames : O -> list string) has_field roots fuel validate l name l' c,
      start_request O typenames has_field roots fuel validate l doc name (VMap given') = RTask l' c -> selects name (operations doc) op ->
      forall St (handler : St -> O -> string -> fparams -> St * answer O) n s evs s' t, steps handler n s (T [] (wait_task O l' c)) evs s' t ->
      forall o f p, In (EvCall o f p) evs ->
        exists es frags sels loc al args dirs sub, variables_of (op_vars op) given' es /\ visible es frags (typenames o) sels no_fdirs (SField loc al f args dirs sub) (p_frdirs p) /\ p_name p = response_key al f /\
          args_value es args (p_args p) /\
          (NoDup (map a_name args) -> forall pos a vpos v x, In (pos, (a, LVar vpos (v_name v))) args -> (exists i, nth_error (op_vars op) i = Some v /\ nth_error xs i = Some x) ->
             forall ty, input_cpp S (named_type (v_type v)) ty -> require [] ty a (VMap (p_args p)) = Ok x /\ require [MNullable] ty a (VMap (p_args p)) = Ok (XOpt (Some x))).
Proof.
  intros S doc op xs WF PE DE CL NR DW AC Hop Hd Ho Hx. destruct (C56_sent_partial S doc op xs WF PE DE CL NR DW AC Hop Hd Ho Hx) as (given & E & Kg & G). exists given. split; [exact E|].
  intros given' D O typenames has_field roots fuel validate l name l' c Hreq Hsel St handler n s evs s' t Hst o f p Hcall. destruct (G given' D) as [Hc _].
  assert (ND : forall op', In op' (operations doc) -> NoDup (map v_name (op_vars op'))). { intros op' Hop'. destruct (operation_variables S doc op' WF DW AC Hop') as [Hv' _]. apply (variables_declared S (op_vars op') [] Hv'). }
  destruct (C18_variables_partial O typenames has_field roots fuel validate l doc name given' l' c Hc ND Hreq) as (op2 & es & ds & frags & root & Sel & _ & V & _ & _ & H).
  assert (op2 = op). { apply ExecRequest2.find_selects in Sel. apply ExecRequest2.find_selects in Hsel. congruence. } subst op2.
  destruct (H St handler n s evs s' t Hst o f p Hcall) as (_ & path & sels & loc & al & args & dirs & sub & _ & Vis & Pn & _ & Av & _).
  exists es, frags, sels, loc, al, args, dirs, sub. split; [exact V|]. split; [exact Vis|]. split; [exact Pn|]. split; [exact Av|].
  intros Na pos a vpos v x Ia (i & Iv & Ix) ty Hty. destruct Av as (kvs & Fa & Ep). destruct (forall2_in_left _ _ _ _ _ _ Fa Ia) as ([k w] & Ik & Ek & Lw). cbn [fst snd a_name a_value] in Ek, Lw.
  inversion Lw as [? ? w' Hl | | | | | | | | ]; subst. destruct (operation_variables S doc op WF DW AC Hop) as [Hv Hp].
  assert (Lk : lookup (v_name v) given' <> None -> lookup (v_name v) given' = Some w).
  { intros Hne. destruct V as [_ V]. specialize (V v (nth_error_In _ _ Iv)). destruct (lookup (v_name v) given'); [congruence|congruence]. }
  assert (La : lookup a (p_args p) = Some w).
  { rewrite Ep, lookup_firsts. apply (lookup_nodup kvs a w); [|exact Ik]. replace (map fst kvs) with (map a_name args); [exact Na|]. clear -Fa. induction Fa as [|b kv l l' [Eb _] _ IH]; [reflexivity|]. cbn [map]. rewrite Eb. f_equal. exact IH. }
  destruct (sent_received S op None xs WF PE DE CL NR Hv Hp Hd Ho Hx) as (vs & E1 & L1 & _). assert (given = combine (map v_name (op_vars op)) vs) by congruence. subst given.
  destruct (delivered_sent S op xs vs given' Hx L1 D) as (trip & Sx & Eg). destruct (sent_received S op trip xs WF PE DE CL NR Hv Hp Hd Ho Hx) as (vs2 & E2 & L2 & R).
  assert (Iw : exists u, nth_error vs i = Some u). { destruct (nth_error vs i) eqn:Eu; [eauto|]. apply nth_error_None in Eu. assert (i < length (op_vars op)) by (apply nth_error_Some; congruence). lia. } destruct Iw as (u & Iu).
  assert (Lg : lookup (v_name v) given' = Some (sent trip u)).
  { rewrite Eg. apply (lookup_combine (map v_name (op_vars op)) (map (sent trip) vs) i); [exact (ND op Hop)|rewrite nth_error_map, Iv; reflexivity|rewrite nth_error_map, Iu; reflexivity]. }
  assert (w = sent trip u) by (assert (lookup (v_name v) given' = Some w) by (apply Lk; congruence); congruence). subst w.
  assert (vs2 = vs). { assert (Q : combine (map v_name (op_vars op)) vs = combine (map v_name (op_vars op)) vs2) by congruence. clear -Q L1 L2. assert (X : forall ws : list value, length ws = length (op_vars op) -> map snd (combine (map v_name (op_vars op)) ws) = ws).
    { clear. induction (op_vars op) as [|v l IH]; intros [|w ws] H; try discriminate; [reflexivity|]. cbn [map combine snd]. f_equal. apply IH. cbn in H. congruence. }
    rewrite <- (X vs L1), <- (X vs2 L2), Q. reflexivity. }
  subst vs2. exact (proj2 (proj2 (proj2 (R i v x u Iv Ix Iu (Sx x (nth_error_In _ _ Ix))))) ty a (p_args p) Hty La).
Qed.

(** The whole exchange: a service of the schema whose accessors do not fail answers this client with data that it reads (C52). *)
Theorem C56_exchange_partial : forall S O (typenames : O -> list string) has_field ans otype roots l doc name
    St (handler : St -> O -> string -> fparams -> St * answer O) op T root xs,
  schema_wf S -> interfaces_implemented S -> interfaces_covariant S -> plain_enums S -> enums_distinct S -> conditions_declared S -> names_clean S -> not_recursive S ->
  typed_service S typenames has_field ans otype -> answers_alone handler ans ->
  document_wf doc -> accepted S doc ->
  selects name (operations doc) op -> op_kind op <> "subscription" -> root_type S op = Some T ->
  find_root O (op_kind op) roots = Some (Some root) -> otype root = T ->
  Forall default_readable (op_vars op) -> Forall (object_variable S) (op_vars op) -> Forall2 (member_of S) (op_vars op) xs ->
  Forall (fun d => plain_args (map v_name (op_vars op)) (d_args d)) (op_dirs op) ->
  (forall f, In f (fragments doc) -> Forall (fun d => plain_args (map v_name (op_vars op)) (d_args d)) (f_dirs f)) ->
  repeats_ok S doc (Some (op_vars op)) [] T (op_sel op) -> consistent_below S doc [] T (op_sel op) -> plain_below S doc (map v_name (op_vars op)) [] T (op_sel op) ->
  never_fails S ans otype ->
  exists given, client_message S op xs = Ok (VMap given) /\ forall given', delivered xs given given' ->
  exists fields reply,
    (exists N, forall fuel, N <= fuel -> request_loader S doc fuel name = Ok (op, fields)) /\ declares S doc T (op_sel op) fields /\
    (exists N, forall fuel, N <= fuel -> forall s d,
      responds handler s (start_request O typenames has_field roots fuel (fun d => fst (validate S d initial)) l doc name (VMap given')) d <-> d = Ok reply) /\
    received fields reply /\
    forall trip big, representable reply = true -> filled reply = true ->
      exists events text, writeResponse reply = Ok events /\ spells trip events text /\
        exists reply', parse_events (reader_events big text) = Ok reply' /\ received fields reply'.
Proof.
  intros S O typenames has_field ans otype roots l doc name St handler op T root xs WF II COV PE DE CD CL NR TS A DW AC Sel Ks Hroot Hfind Hot Hd Ho Hx Pop Pfr RO CB PB NF.
  assert (Hop : In op (operations doc)) by (destruct Sel as (pre & post & Es & _); rewrite Es; apply in_or_app; right; left; reflexivity).
  destruct (C56_sent_partial S doc op xs WF PE DE CL NR DW AC Hop Hd Ho Hx) as (given & E & Kg & G). exists given. split; [exact E|]. intros given' D. destruct (G given' D) as [Hc Hg].
  assert (Kg' : map fst given' = map v_name (op_vars op)).
  { rewrite <- Kg. destruct D as [-> |(f & _ & Ej)]; [reflexivity|]. cbn [through_json] in Ej. injection Ej as ->. rewrite map_map. reflexivity. }
  apply (C52_client_reads_partial S O typenames has_field ans otype roots l doc name given' St handler op T root); auto.
  intros f Hf. rewrite Kg'. exact (Pfr f Hf).
Qed.
(** The same where accessors fail only where the type allows null. *)
Theorem C56_exchange_failures_partial : forall S O (typenames : O -> list string) has_field ans otype roots l doc name
    St (handler : St -> O -> string -> fparams -> St * answer O) op T root xs,
  schema_wf S -> interfaces_implemented S -> interfaces_covariant S -> plain_enums S -> enums_distinct S -> conditions_declared S -> names_clean S -> not_recursive S ->
  typed_service S typenames has_field ans otype -> answers_alone handler ans ->
  document_wf doc -> accepted S doc ->
  selects name (operations doc) op -> op_kind op <> "subscription" -> root_type S op = Some T ->
  find_root O (op_kind op) roots = Some (Some root) -> otype root = T ->
  Forall default_readable (op_vars op) -> Forall (object_variable S) (op_vars op) -> Forall2 (member_of S) (op_vars op) xs ->
  Forall (fun d => plain_args (map v_name (op_vars op)) (d_args d)) (op_dirs op) ->
  (forall f, In f (fragments doc) -> Forall (fun d => plain_args (map v_name (op_vars op)) (d_args d)) (f_dirs f)) ->
  repeats_ok S doc (Some (op_vars op)) [] T (op_sel op) -> consistent_below S doc [] T (op_sel op) -> plain_below S doc (map v_name (op_vars op)) [] T (op_sel op) ->
  fails_mildly S ans otype ->
  exists given, client_message S op xs = Ok (VMap given) /\ forall given', delivered xs given given' ->
  exists fields reply,
    (exists N, forall fuel, N <= fuel -> request_loader S doc fuel name = Ok (op, fields)) /\ declares S doc T (op_sel op) fields /\
    (exists N, forall fuel, N <= fuel -> forall s d,
      responds handler s (start_request O typenames has_field roots fuel (fun d => fst (validate S d initial)) l doc name (VMap given')) d <-> d = Ok reply) /\
    data_received fields reply /\
    forall trip big, representable reply = true -> filled reply = true ->
      exists events text, writeResponse reply = Ok events /\ spells trip events text /\
        exists reply', parse_events (reader_events big text) = Ok reply' /\ data_received fields reply'.
Proof.
  intros S O typenames has_field ans otype roots l doc name St handler op T root xs WF II COV PE DE CD CL NR TS A DW AC Sel Ks Hroot Hfind Hot Hd Ho Hx Pop Pfr RO CB PB NF.
  assert (Hop : In op (operations doc)) by (destruct Sel as (pre & post & Es & _); rewrite Es; apply in_or_app; right; left; reflexivity).
  destruct (C56_sent_partial S doc op xs WF PE DE CL NR DW AC Hop Hd Ho Hx) as (given & E & Kg & G). exists given. split; [exact E|]. intros given' D. destruct (G given' D) as [Hc Hg].
  assert (Kg' : map fst given' = map v_name (op_vars op)).
  { rewrite <- Kg. destruct D as [-> |(f & _ & Ej)]; [reflexivity|]. cbn [through_json] in Ej. injection Ej as ->. rewrite map_map. reflexivity. }
  apply (C52_client_reads_failures_partial S O typenames has_field ans otype roots l doc name given' St handler op T root); auto.
  intros f Hf. rewrite Kg'. exact (Pfr f Hf).
Qed.

(** ** The hypotheses are met *)
(** enum Color { RED GREEN }  input Item { name: String! kind: Color tags: [String!] }  input Order { id: ID! item: Item count: Int }
    type Query { put(o: Order! i: Item): Int } *)
Definition color56 : type_def := mkTypeDef ENUM "" [] [] [] [mkEnumValue "RED" "" None; mkEnumValue "GREEN" "" None] [].
Definition item56 : type_def := mkTypeDef INPUT_OBJECT "" [] [] [] [] [arg_ "name" (TNonNull (TNamed "String")) ""; arg_ "kind" (TNamed "Color") ""; arg_ "tags" (TListOf (TNonNull (TNamed "String"))) ""].
Definition order56 : type_def := mkTypeDef INPUT_OBJECT "" [] [] [] [] [arg_ "id" (TNonNull (TNamed "ID")) ""; arg_ "item" (TNamed "Item") ""; arg_ "count" (TNamed "Int") ""].
Definition S56 : schema := mkSchema
  [("Int", scalar_t); ("Float", scalar_t); ("String", scalar_t); ("ID", scalar_t); ("Boolean", scalar_t); ("Color", color56); ("Item", item56); ("Order", order56);
   ("Query", object_t [field_ "put" (TNamed "Int") [arg_ "o" (TNonNull (TNamed "Order")) ""; arg_ "i" (TNamed "Item") ""]] [])]
  "Query" None None [mkDirDef "skip" "" [FIELD] [arg_ "if" (TNonNull (TNamed "Boolean")) ""]] false.
Ltac schema_wf_ S :=
  constructor;
  [ let n := fresh in let d := fresh in let E := fresh in intros n d E;
    refine (assoc_Forall (fun e => fst e <> "" /\ td_kind (snd e) <> LIST /\ td_kind (snd e) <> NON_NULL) n d _ _ E); repeat constructor; discriminate
  | let n := fresh in let d := fresh in let E := fresh in intros n d E;
    refine (assoc_Forall (fun e => NoDup (map fd_name (td_fields (snd e))) /\
      forall f, In f (td_fields (snd e)) ->
        ~ In (fd_name f) [""; "__typename"; "__schema"; "__type"] /\ proper (fd_type f) /\
        (exists d', find_type S (named_type (fd_type f)) = Some d' /\ td_kind d' <> INPUT_OBJECT) /\ inputs_wf S (fd_args f)) n d _ _ E);
    repeat apply Forall_cons; try apply Forall_nil; (split; [nodup_|]);
      let f := fresh in let H := fresh in intros f H; simpl in H; repeat (destruct H as [<-|H]; [field_wf_|]); destruct H
  | let n := fresh in let d := fresh in let E := fresh in intros n d E;
    refine (assoc_Forall (fun e => td_kind (snd e) = UNION -> td_fields (snd e) = []) n d _ _ E); repeat constructor; discriminate
  | let n := fresh in let d := fresh in let E := fresh in intros n d E;
    refine (assoc_Forall (fun e => td_kind (snd e) = INPUT_OBJECT -> inputs_wf S (td_inputs (snd e))) n d _ _ E);
    repeat apply Forall_cons; try apply Forall_nil; simpl; try discriminate; intros _; inputs_
  | split; [nodup_|]; let dd := fresh in let H := fresh in intros dd H; simpl in H; repeat (destruct H as [<-|H]; [inputs_|]); destruct H
  | kind_ | discriminate | kind_ | discriminate | discriminate ].
Lemma S56_wf : schema_wf S56.
Proof. schema_wf_ S56. Qed.
Lemma object56 n : input_object S56 n -> n = "Item" \/ n = "Order".
Proof.
  intros (d & Hf & K). refine (assoc_Forall (fun e => td_kind (snd e) = INPUT_OBJECT -> fst e = "Item" \/ fst e = "Order") n d _ _ Hf K). repeat apply Forall_cons; try apply Forall_nil; simpl; try discriminate; auto.
Qed.
Lemma contains56 a b : contains S56 a b -> a = "Order" /\ b = "Item".
Proof.
  intros [(d & f & Hf & K & Hin & <-) Hb]. apply object56 in Hb.
  refine (assoc_Forall (fun e => td_kind (snd e) = INPUT_OBJECT -> In f (td_inputs (snd e)) -> fst e = "Order" /\ named_type (iv_type f) = "Item") a d _ _ Hf K Hin).
  repeat apply Forall_cons; try apply Forall_nil; simpl; try discriminate; intros _ H; repeat (destruct H as [<-|H]; [simpl in *; destruct Hb; try discriminate; auto|]); destruct H.
Qed.
Lemma ranked S (r : string -> nat) : (forall a b, contains S a b -> r b < r a) -> not_recursive S.
Proof.
  intros H a C. assert (X : forall x y, clos_trans string (contains S) x y -> r y < r x) by (induction 1 as [x y Hs|x y z _ IH1 _ IH2]; [apply H; exact Hs|lia]). specialize (X a a C). lia.
Qed.
Lemma not_recursive56 : not_recursive S56.
Proof. apply (ranked S56 (fun n => if String.eqb n "Order" then 1 else 0)). intros a b H. apply contains56 in H. destruct H as [-> ->]. cbn. lia. Qed.
Lemma nullable56 : only_nullable S56.
Proof.
  intros a d f Hf K Hin Ho. assert (C : contains S56 a (named_type (iv_type f))) by (split; [exists d, f; auto|exact Ho]). apply contains56 in C. destruct C as [-> E]. cbn in Hf. injection Hf as <-.
  cbn in Hin. repeat (destruct Hin as [<-|Hin]; [try discriminate E; reflexivity|]). destruct Hin.
Qed.
Lemma enums56 : plain_enums S56 /\ enums_distinct S56 /\ names_clean S56.
Proof.
  split; [|split].
  - intros n d v Hd Kd Iv. refine (assoc_Forall (fun x => td_kind (snd x) = ENUM -> In v (td_enums (snd x)) -> safe_cpp_name (ev_name v) = ev_name v) n d _ _ Hd Kd Iv).
    repeat apply Forall_cons; try apply Forall_nil; simpl; try discriminate. intros _ [<-|[<-|[]]]; reflexivity.
  - intros n d Hd Kd. refine (assoc_Forall (fun x => td_kind (snd x) = ENUM -> NoDup (map ev_name (td_enums (snd x))) /\ ~ builtin_scalar (fst x)) n d _ _ Hd Kd).
    repeat apply Forall_cons; try apply Forall_nil; simpl; try discriminate. intros _. split; [nodup_|]. unfold builtin_scalar. simpl. intuition discriminate.
  - intros n d Hd. split; intros K x Hx.
    + refine (assoc_Forall (fun e => td_kind (snd e) = ENUM -> In x (td_enums (snd e)) -> no_nul (ev_name x) = true) n d _ _ Hd K Hx).
      repeat apply Forall_cons; try apply Forall_nil; simpl; try discriminate. intros _ [<-|[<-|[]]]; reflexivity.
    + refine (assoc_Forall (fun e => td_kind (snd e) = INPUT_OBJECT -> In x (td_inputs (snd e)) -> no_nul (iv_name x) = true) n d _ _ Hd K Hx).
      repeat apply Forall_cons; try apply Forall_nil; simpl; try discriminate; intros _ [<-|[<-|[<-|[]]]]; reflexivity.
Qed.

(** query Q($o: Order!, $i: Item) { put(o: $o, i: $i) } *)
Definition op56 : operation_def := mkOp (at_ 1) (Some "query") (Some "Q") [var_ 1 "o" (TNonNull (TNamed "Order")) None; var_ 1 "i" (TNamed "Item") None] []
  [call 2 "put" [arg 2 "o" (LVar (at_ 2) "o"); arg 2 "i" (LVar (at_ 2) "i")]].
Definition doc56 : document := [DOp op56].
Lemma doc56_wf : document_wf doc56.
Proof. doc_wf_. Qed.
Lemma doc56_ok : accepted S56 doc56.
Proof. vm_compute. reflexivity. Qed.
Lemma readable56 : Forall default_readable (op_vars op56).
Proof. apply Forall_cons; [intros l E; discriminate E|]. apply Forall_cons; [intros l E; discriminate E|apply Forall_nil]. Qed.
Lemma objects56 : Forall (object_variable S56) (op_vars op56).
Proof. apply Forall_cons; [exists "Order"; split; [kind_|right; reflexivity]|]. apply Forall_cons; [exists "Item"; split; [kind_|left; reflexivity]|apply Forall_nil]. Qed.
Example C56_example_declarations : variable_types S56 op56 = Ok ([mkRV "o" "Order" []; mkRV "i" "Item" [MNullable]], ["Item"; "Order"], ["Color"]) /\
  exists vs types enums, variable_types S56 op56 = Ok (vs, types, enums) /\ NoDup types /\ declared_first S56 types.
Proof.
  split; [vm_compute; reflexivity|]. destruct (C56_declarations_partial S56 doc56 op56 S56_wf not_recursive56 doc56_wf doc56_ok (or_introl eq_refl) readable56) as (vs & ts & es & E & _ & N & _ & _ & _ & D).
  exists vs, ts, es. split; [exact E|]. split; [exact N|]. apply D, nullable56.
Qed.

(** The service's structs, with a default value for count. *)
Definition item_type56 : itype := IStruct [("name", ([], (ILeaf KString, None))); ("kind", ([MNullable], (ILeaf (KEnum "Color" ["RED"; "GREEN"]), None))); ("tags", ([MNullable; MList], (ILeaf KString, None)))].
Definition order_type56 : itype := IStruct [("id", ([], (ILeaf KId, None))); ("item", ([MNullable], (item_type56, None))); ("count", ([MNullable], (ILeaf KInt, Some (VInt 1))))].
Lemma item_cpp56 : input_cpp S56 "Item" item_type56.
Proof.
  eapply ic_struct; [reflexivity|reflexivity|]. cbn [td_inputs item56]. apply ics_cons; [constructor|apply ic_leaf; [left; kind_|constructor]|].
  apply ics_cons; [apply LoaderSpec.sf_nullable; constructor|apply ic_leaf; [right; kind_|apply (cl_enum S56 "Color" color56 "Color"); reflexivity]|].
  apply ics_cons; [apply LoaderSpec.sf_nullable; apply LoaderSpec.sf_list; constructor|apply ic_leaf; [left; kind_|constructor]|]. constructor.
Qed.
Lemma order_cpp56 : input_cpp S56 "Order" order_type56.
Proof.
  eapply ic_struct; [reflexivity|reflexivity|]. cbn [td_inputs order56]. apply ics_cons; [constructor|apply ic_leaf; [left; kind_|constructor]|].
  apply ics_cons; [apply LoaderSpec.sf_nullable; constructor|exact item_cpp56|].
  apply ics_cons; [apply LoaderSpec.sf_nullable; constructor|apply ic_leaf; [left; kind_|constructor]|]. constructor.
Qed.
(** Variables { { "a", Item { "x", GREEN, { "s", "t" } }, nullopt }, { "y", nullopt, nullopt } } *)
Definition item_value56 : cppval := XStruct [XString "x"; XOpt (Some (XEnum 1)); XOpt (Some (XVec [XString "s"; XString "t"]))].
Definition xs56 : list cppval := [XStruct [XId ["a"%char]; XOpt (Some item_value56); XOpt None]; XStruct [XString "y"; XOpt None; XOpt None]].
Lemma members56 : Forall2 (member_of S56) (op_vars op56) xs56.
Proof.
  assert (I : typed [] item_type56 item_value56). { constructor. apply tf_cons; [repeat constructor|]. apply tf_cons; [apply ty_some; apply ty_leaf; constructor; cbn; lia|]. apply tf_cons; [|constructor]. apply ty_some, ty_vec. repeat constructor. }
  constructor; [|constructor; [|constructor]].
  - exists order_type56. split; [exact order_cpp56|]. constructor. apply tf_cons; [repeat constructor|]. apply tf_cons; [apply ty_some; exact I|]. apply tf_cons; constructor.
  - exists item_type56. split; [exact item_cpp56|]. constructor. apply tf_cons; [repeat constructor|]. apply tf_cons; [constructor|]. apply tf_cons; constructor.
Qed.
(** The message: every field is there, nullopt as null. *)
Definition given56 : entries :=
  [("o", VMap [("id", VString "YQ==" false); ("item", VMap [("name", VString "x" false); ("kind", VEnum "GREEN"); ("tags", VList [VString "s" false; VString "t" false])]); ("count", VNull)]);
   ("i", VMap [("name", VString "y" false); ("kind", VNull); ("tags", VNull)])].
Example C56_example_message : client_message S56 op56 xs56 = Ok (VMap given56).
Proof. vm_compute. reflexivity. Qed.

Definition ans56 (o : unit) (f : string) (p : fparams) : answer unit :=
  if String.eqb f "__typename" then AResult (FLeaf true false (Ok (VString "Query" false)))
  else AResult (FLeaf true true (match require [] order_type56 "o" (VMap (p_args p)) with Ok _ => Ok (VInt 1) | _ => Ok (VInt 0) end)).
Definition types56 (o : unit) : list string := ["Query"].
Definition has56 (o : unit) (f : string) : bool := existsb (String.eqb f) ["put"; "__typename"].
Lemma typed56 : typed_service S56 types56 has56 ans56 (fun _ => "Query").
Proof.
  constructor.
  - intros o. kind_.
  - intros o t. split.
    + intros [<-|[]]. left. split; [kind_|reflexivity].
    + intros [(_ & E)|(d & d' & Hd & Kd & Io & _)]; [left; exact E|]. exfalso.
      refine (assoc_Forall (fun x => (td_kind (snd x) = INTERFACE \/ td_kind (snd x) = UNION) -> False) t d _ _ Hd Kd). repeat apply Forall_cons; try apply Forall_nil; simpl; intros [K|K]; discriminate.
  - intros o f ty args H. inversion H as [d fd Hd Kd Hf|HC|HI HT|HI HT]; subst; try reflexivity; try discriminate HI. cbn in Hd. injection Hd as <-. cbn in Hf. destruct Hf as [<-|[]]. reflexivity.
  - intros o f ty args p H _. inversion H as [d fd Hd Kd Hf|HC|HI HT|HI HT]; subst; try discriminate HI.
    + cbn in Hd. injection Hd as <-. cbn in Hf. destruct Hf as [<-|[]]. unfold ans56. cbn [fd_name fd_type field_ String.eqb Ascii.eqb Bool.eqb]. apply rf_present; [notnn|]. apply rf_leaf; [left; kind_|].
      destruct (require [] order_type56 "o" (VMap (p_args p))); (apply if_nonnull; [discriminate|apply if_int; reflexivity]).
    + unfold ans56. cbn [String.eqb Ascii.eqb Bool.eqb]. apply rf_leaf; [left; kind_|]. apply if_nonnull; [discriminate|]. apply if_string.
Qed.
Lemma quiet56 : never_fails S56 ans56 (fun _ => "Query").
Proof.
  assert (Q : forall o f q, match ans56 o f q with AThrow _ => False | AResult r => forall is ex, ~ leaf_failure r is ex end).
  { intros o f q. unfold ans56. destruct (String.eqb f "__typename"); [intros is ex H; inversion H|]. destruct (require [] order_type56 "o" (VMap (p_args q))); intros is ex H; inversion H. }
  intros T f p is H. destruct H as [o q ex _ _ E|o q r is ex _ _ E L]; specialize (Q o f q); rewrite E in Q; [exact Q|exact (Q _ _ L)].
Qed.
Lemma tidy56 : tidy S56 doc56 ["o"; "i"] [] "Query" (op_sel op56).
Proof.
  econstructor; [simpl; repeat apply col_field; apply col_nil| | |dirs50|].
  - simpl. nodup_.
  - intros o I. in_items I; injection I as <-; unfold plain_args; cbn; repeat match goal with |- _ \/ _ => solve [auto] | |- In _ _ => solve [simpl; auto] | _ => constructor; cbn end.
  - intros o ty args sub I Hof Es. in_items I; injection I as <-; simpl in *; discriminate.
Qed.
Example C56_example_exchange : exists given, client_message S56 op56 xs56 = Ok (VMap given) /\ forall given', delivered xs56 given given' ->
  exists fields reply, (exists N, forall fuel, N <= fuel -> request_loader S56 doc56 fuel "Q" = Ok (op56, fields)) /\
    (exists N, forall fuel, N <= fuel -> forall s d, responds (stateless ans56) s (start_request unit types56 has56 [("query", Some tt)] fuel (fun d => fst (validate S56 d initial)) LAsync doc56 "Q" (VMap given')) d <-> d = Ok reply) /\
    received fields reply.
Proof.
  destruct (tidy_ok _ _ _ _ _ _ tidy56) as (DB & PB). pose proof (distinct_consistent _ _ _ _ _ DB) as CB.
  assert (RO : repeats_ok S56 doc56 (Some (op_vars op56)) [] "Query" (op_sel op56)).
  { apply (distinct_operation S56 doc56 "Q" op56 "Query" S56_wf doc56_wf doc56_ok); [|reflexivity|exact DB]. exists [], []. split; [reflexivity|]. split; [reflexivity|]. intros _. split; [reflexivity|intros o []]. }
  destruct (C56_exchange_partial S56 unit types56 has56 ans56 (fun _ => "Query") [("query", Some tt)] LAsync doc56 "Q" unit (stateless ans56) op56 "Query" tt xs56) as (given & E & G);
    auto using S56_wf, typed56, doc56_wf, doc56_ok, not_recursive56, readable56, objects56, members56, quiet56.
  - intros i di t dt f Hi Ki. exfalso. revert Ki. refine (assoc_Forall (fun x => td_kind (snd x) = INTERFACE -> False) i di _ _ Hi). repeat apply Forall_cons; try apply Forall_nil; simpl; intros X; discriminate X.
  - intros i di t dt f f' Hi Ki. exfalso. revert Ki. refine (assoc_Forall (fun x => td_kind (snd x) = INTERFACE -> False) i di _ _ Hi). repeat apply Forall_cons; try apply Forall_nil; simpl; intros X; discriminate X.
  - apply enums56.
  - apply enums56.
  - split; [kind_|]. intros dd [<-|[]] Hn. exists "". reflexivity.
  - apply enums56.
  - intros s o f p. reflexivity.
  - exists [], []. split; [reflexivity|]. split; [reflexivity|]. intros _. split; [reflexivity|intros o []].
  - discriminate.
  - constructor.
  - intros f [].
  - exists given. split; [exact E|]. intros given' D. destruct (G given' D) as (fields & reply & H1 & _ & H2 & H3 & _). exists fields, reply. auto.
Qed.
(** The service gets the members, through the arguments of the call that the request makes; from the JSON text of the message too. *)
Definition task56 (given : entries) : comp unit := match start_request unit types56 has56 [("query", Some tt)] 20 (fun d => fst (validate S56 d initial)) LAsync doc56 "Q" (VMap given) with RTask l c => wait_task unit l c | RDone _ => Ret UB end.
Definition call_args56 (evs : list (ExecModel.event unit)) : list entries := flat_map (fun e => match e with EvCall _ _ p => [p_args p] | _ => [] end) evs.
Definition gets56 (es : entries) : Prop := require [] order_type56 "o" (VMap es) = Ok (nth 0 xs56 (XInt 0)) /\ require [MNullable] item_type56 "i" (VMap es) = Ok (XOpt (Some (nth 1 xs56 (XInt 0)))).
Example C56_example_received : forall given, given = given56 \/ VMap given = through_json (fun f => f) (VMap given56) ->
  exists n evs s' t es, steps (stateless ans56) n tt (T [] (task56 given)) evs s' t /\ call_args56 evs = [es] /\ gets56 es.
Proof.
  assert (R : forall c, exists n s' t, steps (stateless ans56) n tt (T [] c) (snd (fst (fst (run unit unit (stateless ans56) 100 50 tt (T [] c))))) s' t).
  { intros c. destruct (run unit unit (stateless ans56) 100 50 tt (T [] c)) as [[[m evs] s'] t'] eqn:E. exists m, s', t'. cbn [fst snd]. eapply run_sound. exact E. }
  assert (X : forall g, call_args56 (snd (fst (fst (run unit unit (stateless ans56) 100 50 tt (T [] (task56 g)))))) = [g] -> gets56 g ->
    exists n evs s' t es, steps (stateless ans56) n tt (T [] (task56 g)) evs s' t /\ call_args56 evs = [es] /\ gets56 es).
  { intros g H1 H2. destruct (R (task56 g)) as (n & s' & t & Hs). exists n, (snd (fst (fst (run unit unit (stateless ans56) 100 50 tt (T [] (task56 g)))))), s', t, g. auto. }
  intros given [-> |E]; [|cbn in E; injection E as ->]; apply X; try (vm_compute; reflexivity); split; vm_compute; reflexivity.
Qed.

(** ** What does not hold *)
(** input A { b: B! }  input B { x: Int }  type Query { f(a: A!): Int }  query($a: A!) { f(a: $a) }
    Only fields of a nullable input type count as dependencies: A is declared first, and names B. The same for a list. *)
Definition S56b (t : tref) : schema := mkSchema
  [("Int", scalar_t); ("String", scalar_t); ("Boolean", scalar_t); ("A", mkTypeDef INPUT_OBJECT "" [] [] [] [] [arg_ "b" t ""]); ("B", mkTypeDef INPUT_OBJECT "" [] [] [] [] [arg_ "x" (TNamed "Int") ""]);
   ("Query", object_t [field_ "f" (TNamed "Int") [arg_ "a" (TNonNull (TNamed "A")) ""]] [])] "Query" None None [] false.
Definition op56b : operation_def := mkOp (at_ 1) (Some "query") None [var_ 1 "a" (TNonNull (TNamed "A")) None] [] [call 2 "f" [arg 2 "a" (LVar (at_ 2) "a")]].
Theorem C56_order_refuted : forall t, t = TNonNull (TNamed "B") \/ t = TListOf (TNamed "B") ->
  schema_wf (S56b t) /\ not_recursive (S56b t) /\ accepted (S56b t) [DOp op56b] /\ variable_types (S56b t) op56b = Ok ([mkRV "a" "A" []], ["A"; "B"], []) /\ ~ declared_first (S56b t) ["A"; "B"].
Proof.
  intros t Ht. assert (C : forall a b, contains (S56b t) a b -> a = "A" /\ b = "B").
  { intros a b [(d & f & Hf & K & Hin & <-) (d' & Hb & Kb)]. cbn in Hf. repeat match type of Hf with (if String.eqb a ?k then _ else _) = _ => destruct (String.eqb_spec a k) as [->|]; [injection Hf as <-; cbn in K; try discriminate K|] end; try discriminate Hf.
    - destruct Hin as [<-|[]]. destruct Ht as [-> | ->]; auto.
    - destruct Hin as [<-|[]]. cbn in Hb. injection Hb as <-. discriminate Kb. }
  split; [destruct Ht as [-> | ->]; [schema_wf_ (S56b (TNonNull (TNamed "B")))|schema_wf_ (S56b (TListOf (TNamed "B")))]|].
  split; [apply (ranked (S56b t) (fun n => if String.eqb n "A" then 1 else 0)); intros a b H; apply C in H; destruct H as [-> ->]; cbn; lia|].
  split; [destruct Ht as [-> | ->]; vm_compute; reflexivity|]. split; [destruct Ht as [-> | ->]; vm_compute; reflexivity|].
  intros D. assert (X : In "B" []); [|destruct X]. apply (D [] "A" ["B"] "B" eq_refl). split; [|kind_]. eexists _, (arg_ "b" t ""). split; [reflexivity|]. split; [reflexivity|]. split; [left; reflexivity|]. destruct Ht as [-> | ->]; reflexivity.
Qed.

(** type Query { g(x: Int! y: Int!): Int }; both documents pass the validation, and clientgen ends with std::terminate: collectVariables is noexcept.
    query($a: Int!, $b: Int! = $a) { g(x: $a, y: $b) }    query($a: Int! = 4294967296) { g(x: $a, y: $a) } *)
Definition S56c : schema := mkSchema [("Int", scalar_t); ("String", scalar_t); ("Boolean", scalar_t); ("Query", object_t [field_ "g" (TNamed "Int") [arg_ "x" (TNonNull (TNamed "Int")) ""; arg_ "y" (TNonNull (TNamed "Int")) ""]] [])] "Query" None None [] false.
Definition op56c (vars : list variable_def) (b : string) : operation_def := mkOp (at_ 1) (Some "query") None vars [] [call 2 "g" [arg 2 "x" (LVar (at_ 2) "a"); arg 2 "y" (LVar (at_ 2) b)]].
Definition op56_var : operation_def := op56c [var_ 1 "a" (TNonNull (TNamed "Int")) None; var_ 1 "b" (TNonNull (TNamed "Int")) (Some (LVar (at_ 1) "a"))] "b".
Definition op56_big : operation_def := op56c [var_ 1 "a" (TNonNull (TNamed "Int")) (Some (LInt (at_ 1) 4294967296))] "a".
Theorem C56_default_refuted : schema_wf S56c /\ accepted S56c [DOp op56_var] /\ collect_variables S56c op56_var = UB /\ accepted S56c [DOp op56_big] /\ collect_variables S56c op56_big = UB.
Proof. split; [schema_wf_ S56c|]. vm_compute. auto. Qed.

(** The code that is generated is compiled only for some variables.
    A scalar variable: serializeVariables has ModifiedVariable<Variables::response::IntType>, which struct Variables does not declare.
    An input type inside another: the serialize function of Order has ModifiedVariable<Item>, outside of struct Variables, where Item is not declared; only
    the enum Color is. A list: the member has the type of its elements. *)
Definition op56_scalar : operation_def := op56c [var_ 1 "a" (TNonNull (TNamed "Int")) None] "a".
Definition S56d : schema := mkSchema
  [("Int", scalar_t); ("String", scalar_t); ("Boolean", scalar_t); ("B", mkTypeDef INPUT_OBJECT "" [] [] [] [] [arg_ "x" (TNamed "Int") ""]);
   ("Query", object_t [field_ "f" (TNamed "Int") [arg_ "a" (TListOf (TNamed "B")) ""]] [])] "Query" None None [] false.
Definition op56_list : operation_def := mkOp (at_ 1) (Some "query") None [var_ 1 "a" (TListOf (TNamed "B")) None] [] [call 2 "f" [arg 2 "a" (LVar (at_ 2) "a")]].
Theorem C56_compiled_refuted :
  (accepted S56c [DOp op56_scalar] /\ exists vs ts es, variable_types S56c op56_scalar = Ok (vs, ts, es) /\ ~ incl (used_names no_definitions vs) (declared_names no_definitions ts)) /\
  (accepted S56 doc56 /\ exists vs ts es, variable_types S56 op56 = Ok (vs, ts, es) /\ In "Item" (field_names S56 no_definitions ts) /\ ~ In "Item" (map (get_cpp_type no_definitions) es)) /\
  (accepted S56d [DOp op56_list] /\ forall xs, client_message S56d op56_list xs = UB).
Proof.
  split; [split; [vm_compute; reflexivity|]|split; [split; [vm_compute; reflexivity|]|split; [vm_compute; reflexivity|]]].
  - exists [mkRV "a" "Int" []], [], []. split; [vm_compute; reflexivity|]. intros H. destruct (H "response::IntType"); vm_compute; auto.
  - exists [mkRV "o" "Order" []; mkRV "i" "Item" [MNullable]], ["Item"; "Order"], ["Color"]. split; [vm_compute; reflexivity|]. split; [vm_compute; auto 9|]. vm_compute. intuition discriminate.
  - intros [|x [|y xs]]; reflexivity.
Qed.

(** enum Color { _RED }  input Paint { c: Color! }: the client sends RED, which is not a value of the enum. *)
Definition color56e : type_def := mkTypeDef ENUM "" [] [] [] [mkEnumValue "_RED" "" None] [].
Definition paint56e : type_def := mkTypeDef INPUT_OBJECT "" [] [] [] [] [arg_ "c" (TNonNull (TNamed "Color")) ""].
Definition S56e : schema := mkSchema
  [("Int", scalar_t); ("String", scalar_t); ("Boolean", scalar_t); ("Color", color56e); ("Paint", paint56e);
   ("Query", object_t [field_ "f" (TNamed "Int") [arg_ "a" (TNonNull (TNamed "Paint")) ""]] [])] "Query" None None [] false.
Definition op56e : operation_def := mkOp (at_ 1) (Some "query") None [var_ 1 "a" (TNonNull (TNamed "Paint")) None] [] [call 2 "f" [arg 2 "a" (LVar (at_ 2) "a")]].
Theorem C56_enum_names_refuted : accepted S56e [DOp op56e] /\ client_message S56e op56e [XStruct [XEnum 0]] = Ok (VMap [("a", VMap [("c", VEnum "RED")])]) /\
  exists t, input_cpp S56e "Paint" t /\ typed [] t (XStruct [XEnum 0]) /\ is_ok (require [] t "a" (VMap [("a", VMap [("c", VEnum "RED")])])) = false.
Proof.
  split; [vm_compute; reflexivity|]. split; [vm_compute; reflexivity|]. exists (IStruct [("c", ([], (ILeaf (KEnum "Color" ["_RED"]), None)))]). split; [|split; [|vm_compute; reflexivity]].
  - apply (ic_struct S56e "Paint" paint56e); [reflexivity|reflexivity|]. cbn [td_inputs paint56e]. apply ics_cons; [| |apply ics_nil]; cbn [iv_type arg_].
    + constructor.
    + apply ic_leaf; [right; kind_|]. apply (cl_enum S56e "Color" color56e "Color"); reflexivity.
  - constructor. apply tf_cons; [constructor; constructor; cbn; lia|constructor].
Qed.
Print Assumptions C56_declarations_partial. Print Assumptions C56_sent_partial. Print Assumptions C56_received_partial. Print Assumptions C56_exchange_partial.
Print Assumptions C56_order_refuted. Print Assumptions C56_default_refuted. Print Assumptions C56_compiled_refuted. Print Assumptions C56_enum_names_refuted.
