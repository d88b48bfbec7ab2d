(** C34, C35, C36: input types, type references and names in schemagen. *)
From Coq Require Import Relations Permutation.
From Verif Require Import Cpp Value Ast ModifiersModel SchemaModel LoaderModel LoaderSpec LoaderProofs GenModel.
Local Open Scope string_scope.
Local Open Scope list_scope.

(** * C36 *)
Theorem C36_never_reserved : forall s, ~ reserved (safe_cpp_name s).
Proof.
  intros s H. apply reserved_iff in H. rewrite safe_is in H.
  rewrite strip_leading_double, strip_leading_leading in H by apply squeeze_double. discriminate.
Qed.
Theorem C36_safe_unchanged : forall s, ~ reserved s -> safe_cpp_name s = s.
Proof. intros s H. unfold safe_cpp_name. destruct (has_double s || has_leading s) eqn:E; [exfalso; apply H, reserved_iff, E|reflexivity]. Qed.
Theorem C36_idempotent : forall s, safe_cpp_name (safe_cpp_name s) = safe_cpp_name s.
Proof. intros s. apply C36_safe_unchanged, C36_never_reserved. Qed.
(** Which name it is: every run of underscores becomes one, and one before a capital at the beginning goes. *)
Theorem C36_exact : forall s, exists t, tidied s t /\
  ((exists c r, capital c /\ t = String "_"%char (String c r) /\ safe_cpp_name s = String c r) \/
   ((forall c r, capital c -> t <> String "_"%char (String c r)) /\ safe_cpp_name s = t)).
Proof.
  intros s. destruct (tidied_total s) as [t Ht]. exists t. split; [exact Ht|]. rewrite safe_is, (tidied_squeeze s t Ht). unfold strip_leading.
  destruct t as [|x t]; [right; split; [discriminate|reflexivity]|]. destruct (has_leading (String x t)) eqn:E.
  - left. apply has_leading_iff in E as (c & r & Hc & E). injection E as -> ->. exists c, r. auto.
  - right. split; [|reflexivity]. intros c r Hc Et. assert (has_leading (String x t) = true) by (apply has_leading_iff; eauto). congruence.
Qed.
(** Full statement not met: different names may get the same C++ name, and a C++ keyword stays what it is. *)
Theorem C36_distinct_refuted : safe_cpp_name "_A" = safe_cpp_name "A" /\ safe_cpp_name "a__b" = safe_cpp_name "a_b" /\ safe_cpp_name "class" = "class".
Proof. repeat split. Qed.
Example C36_met : reserved "__TypeKind" /\ safe_cpp_name "__TypeKind" = "TypeKind" /\ tidied "__Type__X" "_Type_X" /\ safe_cpp_name "__Type__X" = "Type_X".
Proof.
  split; [left; exists "", "TypeKind"; reflexivity|]. split; [reflexivity|]. split; [|reflexivity].
  apply (td_run 1 "Type__X" "Type_X"); [discriminate|]. repeat (apply td_char; [discriminate|]). apply (td_run 1 "X" "X"); [discriminate|].
  apply td_char; [discriminate|constructor].
Qed.

(** * C35 *)
Theorem C35_modifiers : forall t, grammatical t -> stands_for (fst (visit_field_type t)) (snd (visit_field_type t)) t /\ fst (visit_field_type t) = base_name t.
Proof. intros t H. apply (visit_stands t false H). discriminate. Qed.
Theorem C35_reading : forall n ms t t', stands_for n ms t -> stands_for n ms t' -> t = t'.
Proof. intros n ms t t' H H'. exact (stands_functional n ms t H t' H'). Qed.
Theorem C35_distinct : forall t t', grammatical t -> grammatical t' -> visit_field_type t = visit_field_type t' -> t = t'.
Proof.
  intros t t' H H' E. destruct (C35_modifiers t H) as [H1 _]. destruct (C35_modifiers t' H') as [H2 _]. rewrite E in H1. exact (C35_reading _ _ _ _ H1 H2).
Qed.
(** The type that an introspection expression builds. *)
Fixpoint built_type (e : type_expr) : option tref :=
  match e with
  | ELookup n => Some (TNamed n)
  | EWrap LIST e => option_map TListOf (built_type e)
  | EWrap NON_NULL e => option_map TNonNull (built_type e)
  | _ => None
  end.
Lemma stands_grammatical n ms t : stands_for n ms t -> grammatical t.
Proof.
  induction 1 as [|ms e H IH|ms t H IH]; [exact I|exact IH|]. destruct t; [exact I|exact IH|contradiction IH].
Qed.
Lemma introspection_stands n ms t : stands_for n ms t ->
  built_type (introspection_type n ms true) = Some t /\ forall u, t = TNonNull u -> built_type (introspection_type n ms false) = Some u.
Proof.
  induction 1 as [|ms e H [IH _]|ms t H [_ IH]].
  - split; [reflexivity|]. intros u E. injection E as <-. reflexivity.
  - split; simpl; rewrite IH; [reflexivity|]. intros u E. injection E as <-. reflexivity.
  - split; simpl; [apply IH; reflexivity|]. intros u ->. destruct (stands_grammatical _ _ _ H).
Qed.
(** The schema that is built at run time has for a field exactly the type reference of the document. *)
Theorem C35_introspection : forall t, grammatical t ->
  built_type (introspection_type (fst (visit_field_type t)) (snd (visit_field_type t)) true) = Some t.
Proof. intros t H. destruct (C35_modifiers t H) as [H1 _]. exact (proj1 (introspection_stands _ _ _ H1)). Qed.
(** The C++ types. [f] is what the loader keeps for a field with the type [t]. *)
Theorem C35_input_cpp_type : forall l f t, grammatical t -> (in_type f, in_mods f) = visit_field_type t ->
  cpp_input (get_cpp_type l (in_type f)) t (get_input_cpp_type l f).
Proof.
  intros l f t H E. unfold get_input_cpp_type. assert (E2 := f_equal snd E). simpl in E2. rewrite E2.
  apply (input_cpp (get_cpp_type l (in_type f)) t false H). discriminate.
Qed.
Theorem C35_output_cpp_type : forall l f t, grammatical t -> (out_type f, out_mods f) = visit_field_type t ->
  cpp_output (is_composite (out_kind f))
    match out_kind f with
    | OutObject => (if out_interface f then "object::" else "") ++ safe_cpp_name (out_type f)
    | OutUnion | OutInterface => "service::Object"
    | _ => get_cpp_type l (out_type f)
    end t (get_output_cpp_type l f).
Proof.
  intros l f t H E. assert (E2 := f_equal snd E). simpl in E2. rewrite output_is, E2.
  set (base := match out_kind f with OutObject => _ | OutUnion | OutInterface => _ | _ => _ end).
  destruct (output_cpp (is_composite (out_kind f)) base t false "" 0 H) as (s & Hs & Es); [discriminate|].
  assert (E3 : out_finish (is_composite (out_kind f)) base (fold_left out_step (snd (visit_type t false)) ("", 0, true)) = s).
  { rewrite Es. simpl. apply str_app_nil. }
  unfold visit_field_type. replace (match out_kind f with OutBuiltin | OutScalar | OutEnum => get_cpp_type l (out_type f) | OutObject => _ | _ => _ end) with base
    by (unfold base; destruct (out_kind f); reflexivity).
  rewrite E3. exact Hs.
Qed.
(** Both relations have one result. *)
Theorem C35_cpp_types_functional : forall base t s s', grammatical t ->
  (cpp_input base t s -> cpp_input base t s' -> s = s') /\ (forall c, cpp_output c base t s -> cpp_output c base t s' -> s = s').
Proof.
  intros base t s s' _. split.
  - intros H. revert s'. induction H as [n|e s H IH|t s Hn H IH]; intros s' H'.
    + inversion H' as [| |t' u Hn]; [reflexivity|]. subst. contradiction.
    + inversion H' as [|e' u He|t' u Hn]; [|subst; contradiction]. subst. rewrite (IH u He). reflexivity.
    + inversion H' as [n E|e u He E|t' u Hn' He]; subst; try contradiction. rewrite (IH u He). reflexivity.
  - intros c H. revert s'. induction H as [n E|n E|n E|n E|e s H IH|e s H IH]; intros s' H'; inversion H'; subst; try congruence; try discriminate.
    + match goal with X : cpp_output _ _ e ?u |- _ => match u with s => fail 1 | _ => rewrite (IH u X) end end. reflexivity.
    + match goal with X : cpp_output _ _ e ?u |- _ => match u with s => fail 1 | _ => rewrite (IH u X) end end. reflexivity.
Qed.
Example C35_met : let t := TListOf (TNonNull (TListOf (TNamed "Int"))) in
  grammatical t /\ visit_field_type t = ("Int", [MNullable; MList; MList; MNullable])
  /\ get_input_cpp_type no_definitions (mkInField "Int" "x" "x" "" VNull InBuiltin [MNullable; MList; MList; MNullable] "")
     = "std::optional<std::vector<std::vector<std::optional<response::IntType>>>>".
Proof. repeat split. Qed.

(** * C34 *)
(** Never anything but an order or the report of a cycle. *)
Theorem C34_order : forall ts ts', reorder ts = Ok ts' -> Permutation ts' ts /\ in_order ts'.
Proof. intros ts ts' E. pose proof (reorder_spec ts) as H. rewrite E in H. exact H. Qed.
Theorem C34_total : forall ts, (exists ts', reorder ts = Ok ts') \/ exists t, In t ts /\ reorder ts = Throw (Exn runtime_error ("Input object cycle type: " ++ it_type t)).
Proof.
  intros ts. pose proof (reorder_spec ts) as H. destruct (reorder ts) as [ts'|e|]; [eauto| |contradiction].
  destruct H as (t & done & rest & -> & Hp & Hin & _). right. exists t. split; [|reflexivity].
  eapply Permutation_in; [exact Hp|]. apply in_or_app. auto.
Qed.
(** Distinct types, all the dependencies among them: a cycle is reported exactly when there is one, and the reported type leads to a cycle. *)
Theorem C34_cycle : forall ts, NoDup (map it_type ts) -> (forall a b, uses ts a b -> In b (map it_type ts)) ->
  ((exists e, reorder ts = Throw e) <-> cyclic ts)
  /\ forall t, reorder ts = Throw (Exn runtime_error ("Input object cycle type: " ++ t)) -> exists b, clos_refl_trans string (uses ts) t b /\ clos_trans string (uses ts) b b.
Proof.
  intros ts Hnd Hd. assert (Hthrow : forall t, reorder ts = Throw (Exn runtime_error ("Input object cycle type: " ++ t)) ->
    exists b, clos_trans string (uses ts) t b /\ clos_trans string (uses ts) b b).
  { intros t E. pose proof (reorder_spec ts) as H. rewrite E in H. destruct H as (x & done & rest & Ex & Hp & Hin & Hs).
    assert (Ht : t = it_type x). { assert (En : ("Input object cycle type: " ++ t)%string = ("Input object cycle type: " ++ it_type x)%string) by congruence. simpl in En. injection En as En. exact En. }
    apply (successor_cycle (uses ts) (map it_type rest)); [|rewrite Ht; apply in_map; exact Hin].
    intros a Ha. apply in_map_iff in Ha as (y & <- & Hy). destruct (Hs y Hy) as (b & Hu & Hn).
    assert (Hy' : In y ts) by (eapply Permutation_in; [exact Hp|apply in_or_app; auto]).
    exists b. assert (Hu' := uses_in ts y b Hy' Hu). split; [exact Hu'|].
    apply Hd in Hu'. apply (Permutation_in b (Permutation_map it_type (Permutation_sym Hp))) in Hu'. rewrite map_app, in_app_iff in Hu'. tauto. }
  split; [split|].
  - intros [e E]. destruct (C34_total ts) as [[ts' E']|(t & _ & E')]; [congruence|]. destruct (Hthrow _ E') as (b & _ & Hb). exists b. exact Hb.
  - intros Hc. destruct (C34_total ts) as [[ts' E']|(t & _ & E')]; [|eauto]. exfalso. destruct (C34_order ts ts' E') as [Hp Ho].
    apply (ordered_acyclic ts' Ho); [eapply Permutation_NoDup; [apply Permutation_map; symmetry; exact Hp|exact Hnd]|].
    destruct Hc as [a Ha]. exists a.
    assert (M : forall a b, clos_trans string (uses ts) a b -> clos_trans string (uses ts') a b); [|apply M; exact Ha].
    clear -Hp. intros a b Ha. induction Ha as [a b (t & f & Ht & H)|a b c H1 IH1 H2 IH2]; [|eapply t_trans; eauto].
    constructor. exists t, f. split; [eapply Permutation_in; [symmetry; exact Hp|exact Ht]|exact H].
  - intros t E. destruct (Hthrow t E) as (b & Hb & Hc). exists b. split; [|exact Hc]. clear -Hb. induction Hb; [apply rt_step; auto|eapply rt_trans; eauto].
Qed.
(** In every schema that schemagen accepts, each input type comes after those it uses. *)
Theorem C34_loaded : forall introspection ds l, load introspection ds = Ok l -> in_order (l_inputs l).
Proof.
  intros introspection ds l E. unfold load in E. destruct (visit_definitions no_definitions ds) as [l0|e|]; try discriminate. simpl in E.
  unfold validate_schema in E. destruct (check_builtins (l_types l0)); try discriminate. simpl in E.
  destruct (mapM _ (l_inputs l0)) as [inputs|e|]; try discriminate. simpl in E.
  destruct (reorder inputs) as [inputs'|e|] eqn:Er; try discriminate. simpl in E.
  destruct (mapM _ (l_interfaces l0)) as [is|e|]; try discriminate. simpl in E.
  destruct (check_operations introspection (l_objects l0) (l_operations l0)) as [ops|e|]; try discriminate. simpl in E.
  destruct (mapM _ (l_objects l0)) as [os|e|]; try discriminate. simpl in E.
  destruct (check_interfaces is os); try discriminate. simpl in E. destruct (check_unions os (l_unions l0)); try discriminate. simpl in E.
  injection E as <-. simpl. exact (proj2 (C34_order _ _ Er)).
Qed.
(** Full statement not met: GraphQL allows an input type to refer to itself through a nullable field or a list. *)
Definition recursive_input : list sdl_def :=
  [DefObject "Query" "" [] [plain_field "f" (named_t "Int")]; DefInput "Tree" "" [mkSdlInput "children" "" (TListOf (nn (named_t "Tree"))) None]].
Theorem C34_recursive_refuted : load false recursive_input = Throw (Exn runtime_error "Input object cycle type: Tree").
Proof. reflexivity. Qed.
Definition ex_inputs : list sdl_def :=
  [DefObject "Query" "" [] [plain_field "f" (named_t "Int")];
   DefInput "A" "" [mkSdlInput "b" "" (nn (named_t "B")) None; mkSdlInput "c" "" (named_t "C") None];
   DefInput "B" "" [mkSdlInput "c" "" (TListOf (named_t "C")) None]; DefInput "D" "" [mkSdlInput "x" "" (named_t "Int") None];
   DefInput "C" "" [mkSdlInput "x" "" (named_t "Int") None]].
Example C34_met : rmap (fun l => map it_type (l_inputs l)) (load false ex_inputs) = Ok ["D"; "C"; "B"; "A"].
Proof. reflexivity. Qed.
Example C34_cycle_met : exists ts, NoDup (map it_type ts) /\ (forall a b, uses ts a b -> In b (map it_type ts)) /\ cyclic ts
  /\ reorder ts = Throw (Exn runtime_error "Input object cycle type: A").
Proof.
  set (f := fun b => mkInField b "x" "x" "" VNull InInput [] "").
  exists [mkInputT "C" "C" [] ""; mkInputT "A" "A" [f "B"; f "C"] ""; mkInputT "B" "B" [f "A"] ""]. repeat split.
  - simpl. repeat constructor; simpl; intuition discriminate.
  - intros a b (t & g & Ht & <- & Hg & _ & <-). simpl in *. intuition (subst; simpl in *; intuition (subst; simpl; auto)).
  - exists "A". eapply t_trans; constructor.
    + exists (mkInputT "A" "A" [f "B"; f "C"] ""), (f "B"). simpl. auto 8.
    + exists (mkInputT "B" "B" [f "A"] ""), (f "A"). simpl. auto 8.
Qed.
