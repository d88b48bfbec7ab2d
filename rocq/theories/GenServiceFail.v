(** Where a generated service fails (for C57). *)
From Verif Require Import RegistryModel RegistrySpec IntroModel IntroSpec IntroProofs.
From Verif Require Import Cpp Value Ast ModifiersModel ModifiersSpec ModifiersProofs SchemaModel LoaderModel LoaderSpec LoaderProofs GenModel GenSpec GenRun GenEval GenDecl GenProps
  ExecModel ExecSem ValidationSpec ValidationFields TypedSpec VariablesSpec GenServiceModel GenServiceSpec GenServiceArgs GenServiceLink GenServiceProofs GenServiceIntro.
Local Open Scope string_scope.
Local Open Scope list_scope.

Definition quiet {O} (f : fres O) : Prop := forall is ex, ~ leaf_failure f is ex.
Definition aquiet {O} (a : answer O) : Prop := match a with AThrow _ => False | AResult f => quiet f end.

Lemma quiet_object {O} u (x : result (option O)) : quiet (FObject u x).
Proof. intros is ex H. inversion H. Qed.
Lemma quiet_derived {O} (x : result (option O)) : quiet (FDerived x).
Proof. intros is ex H. inversion H. Qed.
Lemma quiet_null {O} : quiet (@FNullable O (Ok None)).
Proof. intros is ex H. inversion H. Qed.
Lemma quiet_nullable {O} (f : fres O) : quiet f -> quiet (FNullable (Ok (Some f))).
Proof. intros Q is ex H. inversion H as [|f' is' ex' H'|]; subst. exact (Q _ _ H'). Qed.
Lemma quiet_list {O} (l : list (fres O)) : (forall f, In f l -> quiet f) -> quiet (FList (Ok l)).
Proof. intros Q is ex H. inversion H as [| |fs i f is' ex' E H']; subst. exact (Q _ (nth_error_In _ _ E) _ _ H'). Qed.
Lemma quiet_leaf {O} b u v : quiet (@FLeaf O b u (Ok v)).
Proof. intros is ex H. inversion H. Qed.
Lemma quiet_ub {O} b u : quiet (@FLeaf O b u UB).
Proof. intros is ex H. inversion H. Qed.

Section Intro.
  Variable r : registry.
  Lemma quiet_string s : quiet (string_leaf s). Proof. apply quiet_leaf. Qed.
  Lemma quiet_bool b : quiet (bool_leaf b). Proof. apply quiet_leaf. Qed.
  Lemma quiet_nullable_string s : quiet (nullable_string s).
  Proof. unfold nullable_string. destruct (String.eqb s ""); [apply quiet_null|apply quiet_nullable, quiet_string]. Qed.
  Lemma quiet_optional_string s : quiet (optional_string s).
  Proof. destruct s; [apply quiet_nullable, quiet_string|apply quiet_null]. Qed.
  Lemma quiet_enum names i : quiet (enum_leaf names i).
  Proof. unfold enum_leaf. destruct (nth_error names i); [apply quiet_leaf|apply quiet_ub]. Qed.
  Lemma quiet_nullable_object o : quiet (nullable_object o).
  Proof. destruct o; [apply quiet_nullable, quiet_derived|apply quiet_null]. Qed.
  Lemma quiet_objects l : quiet (IntroModel.objects_of l).
  Proof. apply quiet_list. intros f Hf. apply in_map_iff in Hf as (x & <- & _). apply quiet_derived. Qed.
  Lemma quiet_nullable_objects o : quiet (nullable_objects o).
  Proof. destruct o; [apply quiet_nullable, quiet_objects|apply quiet_null]. Qed.
  Ltac quiet_ := first [apply quiet_string|apply quiet_bool|apply quiet_nullable_string|apply quiet_optional_string|apply quiet_enum|apply quiet_nullable_object|apply quiet_objects|apply quiet_nullable_objects|apply quiet_derived|apply quiet_ub].
  Lemma answers_quiet i f p : aquiet (i_ans r i f p).
  Proof.
    destruct i; unfold i_ans.
    - unfold schema_answer, object_of. repeat (match goal with |- context [if ?c then _ else _] => destruct c end); cbn [aquiet]; quiet_.
    - unfold type_answer. destruct (object_at r t) as [o|]; [|destruct (String.eqb f "__typename"); [apply quiet_string|apply quiet_ub]]. repeat (match goal with |- context [if ?c then _ else _] => destruct c end); rewrite ?wants_include; cbn [bind answered aquiet]; quiet_.
    - unfold field_answer, object_of. repeat (match goal with |- context [if ?c then _ else _] => destruct c end); cbn [aquiet]; quiet_.
    - unfold input_answer, object_of. repeat (match goal with |- context [if ?c then _ else _] => destruct c end); cbn [aquiet]; quiet_.
    - unfold enum_answer. repeat (match goal with |- context [if ?c then _ else _] => destruct c end); cbn [aquiet]; quiet_.
    - unfold directive_answer. repeat (match goal with |- context [if ?c then _ else _] => destruct c end); cbn [aquiet]; try quiet_.
      apply quiet_list. intros g Hg. apply in_map_iff in Hg as (l & <- & _). apply quiet_enum.
  Qed.
  Lemma type_quiet p : match query_type_answer r p with AThrow _ => True | AResult f => quiet f end.
  Proof.
    unfold query_type_answer. destruct (require [] (ILeaf KString) "name" (VMap (p_args p))) as [[]|e|]; cbn; try exact Logic.I; try apply quiet_ub.
    destruct (lookup_type r s) as [t|e|]; cbn; try exact Logic.I; [apply quiet_nullable, quiet_derived|apply quiet_ub].
  Qed.
End Intro.

Lemma failure_unmap {A B} (g : A -> B) : forall f is ex, leaf_failure (fmap g f) is ex -> leaf_failure f is ex.
Proof.
  intros f is ex H. remember (fmap g f) as f' eqn:E. revert f E.
  induction H as [b u ex|f' is ex H IH|fs i f' is ex En H IH]; intros f E.
  - destruct f as [b' u' v|u' x|x|[[f|]|e|]|[l|e|]]; cbn in E; try discriminate. injection E as E1 E2 E3. subst. constructor.
  - destruct f as [b' u' v|u' x|x|[[f|]|e|]|[l|e|]]; cbn in E; try discriminate. injection E as ->. constructor. exact (IH f eq_refl).
  - destruct f as [b' u' v|u' x|x|[[f|]|e|]|[l|e|]]; cbn in E; try discriminate. injection E as ->. rewrite nth_error_map in En. destruct (nth_error l i) as [f|] eqn:Ef; [|discriminate]. injection En as <-.
    econstructor; [exact Ef|exact (IH f eq_refl)].
Qed.
Lemma failure_map {A B} (g : A -> B) : forall f is ex, leaf_failure f is ex -> leaf_failure (fmap g f) is ex.
Proof.
  intros f is ex H. induction H as [b u ex|f' is ex H IH|fs i f' is ex En H IH]; cbn.
  - constructor.
  - now constructor.
  - apply (lf_list (map (fmap g) fs) i (fmap g f')); [|exact IH]. rewrite nth_error_map, En. reflexivity.
Qed.
Lemma aquiet_map {A B C} (g : A -> B) (h : A -> C) a a' : amap g a = a' -> (match a' with AThrow _ => True | AResult f => quiet f end) -> match amap h a with AThrow _ => exists e, a' = AThrow e | AResult f => quiet f end.
Proof.
  intros E Q. destruct a as [e|f]; cbn in *; subst a'; [eauto|]. intros is ex H. apply failure_unmap in H. apply (Q is ex). now apply failure_map.
Qed.

Section Service.
  Variables (S : schema) (l : loader) (noI : bool) (six : spec_float -> spec_float).
  Hypothesis LK : linked S l noI.
  Hypothesis WF : schema_wf S.
  Variables (r : registry) (U : Type) (class : U -> string) (access : U -> string -> fparams -> list cppval -> accessed U).
  Variables (ians : iobject r -> string -> fparams -> answer (iobject r)) (ischema : answer (iobject r)) (itype : fparams -> answer (iobject r)).
  Variable ds : list sdl_def.
  Hypothesis OB : forall n, In n (GenSpec.objects_of ds) -> exists o, In o (l_objects l) /\ ob_type o = n.
  Hypothesis IM : implements S class ds access.
  Hypothesis CA : careful S class access.
  Hypothesis HO : hosted r ians ischema itype.
  Hypothesis IH_ : forall (i : iobject r) f ty args, field_of S (i_typename (proj1_sig i)) f ty args -> i_has (proj1_sig i) f = true.
  Notation O := (gobj U (iobject r)).

  Lemma converted_quiet k n ms ty : stands_for n ms ty -> In n (builtin_types ++ loaded_names l) -> forall fut v, returns S class ty v -> quiet (converted (I := iobject r) k (leaf_of l n) ms fut v).
  Proof.
    intros Hs Hn. induction Hs as [|ms e Hs IH|ms t Hs IH]; intros fut v R.
    - inversion R as [? k' x Lf C T|? u Cp P| | |? N|? ? N]; subst; try (exfalso; apply N; eexists; reflexivity).
      + cbn. destruct (leaf_found S l noI LK n Hn Lf) as (k2 & E2). rewrite E2. destruct (leaf_some S l noI LK _ _ E2) as [_ C2]. destruct (leaf_value S access (fun _ _ => false) ians n k2 x C2 (leaf_same S l noI LK n k' k2 x C C2 T)) as (w & Ew & _).
        rewrite Ew. apply quiet_leaf.
      + cbn. unfold pointer_result. destruct k; (apply quiet_object || apply quiet_derived).
    - inversion R as [| | |? vs Hv|? N|? ? N]; subst; try (exfalso; apply N; eexists; reflexivity). cbn. apply quiet_list. intros f Hf. apply in_map_iff in Hf as (w & <- & Hw). apply IH. exact (Hv w Hw).
    - assert (NN : ~ is_nonnull t) by (intros (u & ->); revert Hs; apply no_double).
      inversion R as [? k' x Lf C T|? u Cp P|m p Cp P|? vs Hv|? N Q|? w N Q Rw]; subst; try (exfalso; apply NN; eexists; reflexivity).
      + destruct p as [u|]; cbn; [|apply quiet_null]. apply quiet_nullable. unfold pointer_result. destruct k; (apply quiet_object || apply quiet_derived).
      + cbn. apply quiet_null.
      + cbn. apply quiet_nullable. apply IH. exact Rw.
  Qed.

  (** The answer to a proper call. *)
  Definition mild (ty : tref) (a : answer O) : Prop := match a with AThrow _ => ~ is_nonnull ty | AResult f => quiet f end.
  Lemma resolve_mild u o x p : class_of l class u = Some o -> In o (l_objects l) -> ob_type o = class u -> In x (ob_fields o) -> inputs_fit S (fd_args (out_def noI x)) (p_args p) ->
    has_null_scalar (VMap (p_args p)) = false -> mild (fd_type (out_def noI x)) (resolve l six access u x p).
  Proof.
    intros Ec Ho En Hx HI HN. destruct (lk_fields S l noI LK o x Ho Hx) as (Hs & _ & _ & Hn & _). assert (HA := arguments_given S l noI six LK WF o x (p_args p) Ho Hx HI). unfold resolve.
    destruct (read_arguments l six x (p_args p)) as [xs|e|]; [|congruence|contradiction]. assert (Fo := lk_objects S l noI LK o Ho). rewrite En in Fo.
    assert (M := im_access S class ds access IM u _ (out_def noI x) p xs Fo (in_map (out_def noI) _ x Hx) HA). cbn [out_def fd_name] in M.
    assert (C := CA u _ (out_def noI x) p xs Fo (in_map (out_def noI) _ x Hx) HA). cbn [out_def fd_name] in C.
    destruct (access u (out_name x) p xs) as [v|v|e|e]; cbn [mild].
    - exact (converted_quiet _ _ _ _ Hs Hn false v M).
    - exact (converted_quiet _ _ _ _ Hs Hn true v M).
    - contradiction.
    - exact C.
  Qed.
  Lemma generated_mild o f ty args p : field_of S (object_type_of class r o) f ty args -> inputs_fit S args (p_args p) -> has_null_scalar (VMap (p_args p)) = false ->
    mild ty (gen_ans l noI six class access ians ischema itype o f p).
  Proof.
    intros F HI HN. destruct o as [u|i]; cbn in *.
    - destruct (class_found S l class access ds OB IM u) as (o & Ec & Ho & En). rewrite Ec. unfold class_answer.
      inversion F as [d g Hd K Hg|C|HS Hq|HS Hq]; subst.
      + rewrite <- En, (lk_objects S l noI LK o Ho) in Hd. injection Hd as <-. destruct (field_found l noI o g Ho Hg) as (x & Hx & ->). destruct (wf_fields S WF _ _ (lk_objects S l noI LK o Ho)) as [ND W].
        destruct (W _ Hg) as (NM & _). cbn [out_def fd_name] in *. assert (N1 : String.eqb (out_name x) "__typename" = false) by (apply String.eqb_neq; intros E; apply NM; rewrite E; cbn; tauto).
        assert (N2 : String.eqb (out_name x) "__schema" = false) by (apply String.eqb_neq; intros E; apply NM; rewrite E; cbn; tauto).
        assert (N3 : String.eqb (out_name x) "__type" = false) by (apply String.eqb_neq; intros E; apply NM; rewrite E; cbn; tauto). rewrite N1, N2, N3, !andb_false_r.
        destruct (List.find (fun y => String.eqb (out_name x) (out_name y)) (ob_fields o)) as [y|] eqn:Ef.
        * apply find_some in Ef as [Hy Ey]. apply String.eqb_eq in Ey. assert (y = x) as -> by (apply (nodup_map_eq out_name (ob_fields o) y x); [|exact Hy|exact Hx|symmetry; exact Ey]; cbn in ND; rewrite map_map in ND; exact ND).
          exact (resolve_mild u o x p Ec Ho En Hx HI HN).
        * exfalso. assert (N := List.find_none _ _ Ef x Hx). cbn in N. rewrite String.eqb_refl in N. discriminate.
      + rewrite String.eqb_refl. cbn. apply quiet_leaf.
      + rewrite (query_class_of S l noI LK class u o Ec Ho En HS Hq). cbn [String.eqb Ascii.eqb Bool.eqb andb].
        assert (Q := aquiet_map (@proj1_sig _ _) (@GIntro U (iobject r)) _ _ (hd_schema r _ _ _ HO) (quiet_object false (Ok (Some ISchema)))). unfold mild. destruct (amap GIntro ischema); [destruct Q as (e' & E); discriminate E|exact Q].
      + rewrite (query_class_of S l noI LK class u o Ec Ho En HS Hq). cbn [String.eqb Ascii.eqb Bool.eqb andb].
        assert (Q := aquiet_map (@proj1_sig _ _) (@GIntro U (iobject r)) _ _ (hd_type r _ _ _ HO p) (type_quiet r p)). unfold mild. destruct (amap GIntro (itype p)); [intros (t & E); discriminate E|exact Q].
    - assert (QA := answers_quiet r (proj1_sig i) f p). assert (E := hd_ans r _ _ _ HO i f p (IH_ i f ty args F)).
      assert (Q := aquiet_map (@proj1_sig _ _) (@GIntro U (iobject r)) _ _ E). unfold mild, aquiet in *. destruct (i_ans r (proj1_sig i) f p) as [e|g]; [contradiction|]. specialize (Q QA).
      destruct (amap GIntro (ians i f p)); [destruct Q as (e' & E'); discriminate E'|exact Q].
  Qed.
  Lemma field_type_once T f ty args ty' args' : field_of S T f ty args -> field_of S T f ty' args' -> ty = ty'.
  Proof. intros H H'. exact (proj1 (ValidationFields.field_of_fun S WF _ _ _ _ _ _ H H')). Qed.
  Theorem generated_fails_mildly : fails_mildly S (gen_ans l noI six class access ians ischema itype) (object_type_of class r).
  Proof.
    intros T f p is ty args u F Hf Hp. destruct F as [o q ex <- ((ty' & args' & F' & HI) & HN) E|o q g is ex <- ((ty' & args' & F' & HI) & HN) E L]; assert (M := generated_mild o f ty' args' q F' HI HN); unfold mild in M; rewrite E in M.
    - assert (u = ty) by (inversion Hp; reflexivity). subst u. rewrite (field_type_once _ _ _ _ _ _ Hf F'). exact M.
    - destruct (M _ _ L).
  Qed.
End Service.
