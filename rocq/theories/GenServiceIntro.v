(** The introspection objects of a generated service are typed by its schema (for C57). *)
From Coq Require Import Permutation.
From Verif Require Import Cpp Value Ast SortedMapModel ModifiersModel ModifiersProofs SchemaModel RegistryModel RegistrySpec LoaderModel LoaderSpec LoaderProofs GenModel GenSpec GenRun GenEval GenDecl GenProps
  ExecModel ExecSem IntroModel IntroSpec IntroProofs ValidationSpec TypedSpec GenServiceModel GenServiceSpec GenServiceLink GenServiceProofs.
Local Open Scope string_scope.
Local Open Scope list_scope.

(** * Every object in a result *)
Section All.
  Context {A : Type} (P : A -> Prop).
  Definition all_in (x : result (option A)) : Prop := match x with Ok (Some a) => P a | _ => True end.
  Fixpoint fall (f : fres A) : Prop :=
    match f with
    | FLeaf _ _ _ => True
    | FObject _ x => all_in x
    | FDerived x => all_in x
    | FNullable (Ok (Some g)) => fall g
    | FNullable _ => True
    | FList (Ok l) => (fix go (l : list (fres A)) : Prop := match l with [] => True | g :: r => fall g /\ go r end) l
    | FList _ => True
    end.
  Definition aall (a : answer A) : Prop := match a with AResult f => fall f | AThrow _ => True end.

  Definition lift_opt (x : result (option A)) : all_in x -> result (option {a | P a}) :=
    match x return all_in x -> _ with
    | Ok (Some a) => fun H => Ok (Some (exist P a H))
    | Ok None => fun _ => Ok None
    | Throw e => fun _ => Throw e
    | UB => fun _ => UB
    end.
  Fixpoint lift (f : fres A) : fall f -> fres {a | P a} :=
    match f return fall f -> fres {a | P a} with
    | FLeaf b u v => fun _ => FLeaf b u v
    | FObject u x => fun H => FObject u (lift_opt x H)
    | FDerived x => fun H => FDerived (lift_opt x H)
    | FNullable (Ok (Some g)) => fun H => FNullable (Ok (Some (lift g H)))
    | FNullable (Ok None) => fun _ => FNullable (Ok None)
    | FNullable (Throw e) => fun _ => FNullable (Throw e)
    | FNullable UB => fun _ => FNullable UB
    | FList (Ok l) => fun H => FList (Ok ((fix go (l : list (fres A)) : (fix go (l : list (fres A)) : Prop := match l with [] => True | g :: r => fall g /\ go r end) l -> list (fres {a | P a}) :=
        match l with [] => fun _ => [] | g :: r => fun H => lift g (proj1 H) :: go r (proj2 H) end) l H))
    | FList (Throw e) => fun _ => FList (Throw e)
    | FList UB => fun _ => FList UB
    end.
  Definition alift (a : answer A) : aall a -> answer {a | P a} :=
    match a return aall a -> _ with AThrow e => fun _ => AThrow e | AResult f => fun H => AResult (lift f H) end.

  Lemma lift_opt_proj x H : rmap_opt (@proj1_sig _ _) (lift_opt x H) = x.
  Proof. destruct x as [[a|]|e|]; reflexivity. Qed.
  Fixpoint lift_proj (f : fres A) : forall H : fall f, fmap (@proj1_sig _ _) (lift f H) = f.
  Proof.
    destruct f as [b u v|u x|x|[[g|]|e|]|[l|e|]]; intros H; cbn; try reflexivity.
    - f_equal. apply lift_opt_proj.
    - f_equal. apply lift_opt_proj.
    - do 3 f_equal. apply lift_proj.
    - do 2 f_equal. cbn in H. revert H. induction l as [|g r IH]; intros H; [reflexivity|]. cbn. f_equal; [apply lift_proj|apply IH].
  Qed.
  Lemma alift_proj a H : amap (@proj1_sig _ _) (alift a H) = a.
  Proof. destruct a as [e|f]; cbn; [reflexivity|]. f_equal. apply lift_proj. Qed.
  Lemma fall_list l : (forall f, In f l -> fall f) -> fall (FList (Ok l)).
  Proof. induction l as [|g r IH]; intros H; cbn; [exact Logic.I|]. split; [apply H; left; reflexivity|]. apply IH. intros f Hf. apply H. right. exact Hf. Qed.
End All.

Fixpoint fmap_id {A} (f : fres A) : fmap (fun x => x) f = f.
Proof.
  destruct f as [b u v|u x|x|[[g|]|e|]|[l|e|]]; cbn; try reflexivity.
  - destruct x as [[a|]|e|]; reflexivity.
  - destruct x as [[a|]|e|]; reflexivity.
  - do 3 f_equal. apply fmap_id.
  - do 2 f_equal. induction l as [|g r IH]; [reflexivity|]. cbn. f_equal; [apply fmap_id|apply IH].
Qed.
Lemma amap_id {A} (a : answer A) : amap (fun x => x) a = a.
Proof. destruct a; cbn; [reflexivity|]. f_equal. apply fmap_id. Qed.
Fixpoint fmap_comp {A B C} (f : A -> B) (g : B -> C) (x : fres A) : fmap g (fmap f x) = fmap (fun a => g (f a)) x.
Proof.
  destruct x as [b u v|u x|x|[[h|]|e|]|[l|e|]]; cbn; try reflexivity.
  - destruct x as [[a|]|e|]; reflexivity.
  - destruct x as [[a|]|e|]; reflexivity.
  - do 3 f_equal. apply fmap_comp.
  - do 2 f_equal. induction l as [|h r IH]; [reflexivity|]. cbn. f_equal; [apply fmap_comp|apply IH].
Qed.

(** A result fits whatever the objects are called. *)
Lemma fits_fmap {A B C} S (otA : B -> string) (otB : C -> string) (pa : A -> B) (pb : A -> C) : (forall x, otA (pa x) = otB (pb x)) ->
  forall ty fr, result_fits S otA ty fr -> forall f, fr = fmap pa f -> result_fits S otB ty (fmap pb f).
Proof.
  intros E ty fr R. induction R as [n b fut v L H|n fut o C0 P|n o C0 P|n fut C0|n C0|t fs Hf IH|t N|t f N R IH|t f N R IH]; intros g Eg.
  - destruct g as [b' u' v'|u' x|x|[[h|]|e|]|[l|e|]]; try discriminate. cbn in Eg. injection Eg as <- <- <-. apply rf_leaf; assumption.
  - destruct g as [b' u' v'|u' x|x|[[h|]|e|]|[l|e|]]; try discriminate. cbn in Eg. injection Eg as <- Ex. destruct x as [[a|]|e|]; try discriminate. cbn in Ex. injection Ex as ->. cbn. apply rf_object; [assumption|]. rewrite <- E. exact P.
  - destruct g as [b' u' v'|u' x|x|[[h|]|e|]|[l|e|]]; try discriminate. cbn in Eg. injection Eg as Ex. destruct x as [[a|]|e|]; try discriminate. cbn in Ex. injection Ex as ->. cbn. apply rf_derived; [assumption|]. rewrite <- E. exact P.
  - destruct g as [b' u' v'|u' x|x|[[h|]|e|]|[l|e|]]; try discriminate. cbn in Eg. injection Eg as <- Ex. destruct x as [[a|]|e|]; try discriminate. apply rf_no_object. assumption.
  - destruct g as [b' u' v'|u' x|x|[[h|]|e|]|[l|e|]]; try discriminate. cbn in Eg. injection Eg as Ex. destruct x as [[a|]|e|]; try discriminate. apply rf_no_derived. assumption.
  - destruct g as [b' u' v'|u' x|x|[[h|]|e|]|[l|e|]]; try discriminate. cbn in Eg. injection Eg as ->. cbn. apply rf_list. intros f Hf'. apply in_map_iff in Hf' as (h & <- & Hh). apply (IH (fmap pa h)); [apply in_map; exact Hh|reflexivity].
  - destruct g as [b' u' v'|u' x|x|[[h|]|e|]|[l|e|]]; try discriminate. apply rf_null. exact N.
  - destruct g as [b' u' v'|u' x|x|[[h|]|e|]|[l|e|]]; try discriminate. cbn in Eg. injection Eg as ->. cbn. apply rf_nullable; [exact N|]. apply IH. reflexivity.
  - apply rf_present; [exact N|]. apply IH. exact Eg.
Qed.

Section Intro.
  Variables (S : schema) (r : registry) (b : bool) (h : list call).
  Hypothesis Haf : after b h r.
  Hypothesis Hrep : represents r S.
  Hypothesis ST : forall n, In n (map fst standard_types) -> find_type S n = assoc n standard_types.
  Hypothesis NQ : ~ In (s_query S) (map fst standard_types).
  Hypothesis PO : forall t d o, find_type S t = Some d -> td_kind d = INTERFACE \/ td_kind d = UNION -> In o (td_possible d) -> ~ In o (map fst standard_types).

  (** The introspection objects that stand for something in the schema. *)
  Notation live := (live r).

  Lemma sim_live f1 f2 : fsim sobj iobj (R r iobj (fun x => x)) f1 f2 -> fall live f2.
  Proof.
    intros F. induction F as [b1 b2 g1 g2 v Hb|o1 o2 H|f o1 o2 H| |f1 f2 H IH|l1 l2 H IH] using fsim_ind'; cbn; auto.
    - destruct H as (i & Hi & ->). exists o1. exact Hi.
    - destruct H as (i & Hi & ->). exists o1. exact Hi.
    - clear H. induction IH as [|x y l1 l2 Hxy IH IHl]; [exact Logic.I|]. split; assumption.
  Qed.
  Lemma answers_live i f p : live i -> i_has i f = true -> aall live (i_ans r i f p).
  Proof.
    intros (s & Hs) Hf. assert (A := answers_sim b h r S Haf Hrep iobj (fun x => x) s i f p). rewrite <- (same_fields r S s i f Hs) in Hf.
    specialize (A (ex_intro _ i (conj Hs eq_refl)) Hf (i_ans r)). assert (Ei : forall i f p, i_ans r i f p = amap (fun x => x) (i_ans r i f p)) by (intros; symmetry; apply amap_id). specialize (A Ei).
    unfold asim in A. destruct (d_ans S s f p) as [e1|f1], (i_ans r i f p) as [e2|f2]; try contradiction; [exact Logic.I|]. cbn. exact (sim_live f1 f2 A).
  Qed.
  Lemma type_answers_live p : aall live (query_type_answer r p).
  Proof.
    unfold query_type_answer. destruct (require [] (ILeaf KString) "name" (VMap (p_args p))) as [[]|e|]; cbn; auto. destruct (lookup_type r s) as [t|e|] eqn:E; cbn; auto.
    exists (DType (TNamed s)). cbn. constructor. exact E.
  Qed.

  (** * The types of the fields *)
  Lemma std n d : assoc n standard_types = Some d -> find_type S n = Some d.
  Proof.
    intros E. rewrite ST; [exact E|]. revert E. generalize standard_types. intros ts E. induction ts as [|[m x] ts IH]; [discriminate|]. cbn in *. destruct (String.eqb_spec n m) as [->|]; [left; reflexivity|right; auto].
  Qed.
  Definition fields_typed (n : string) : option (type_kind * list (string * tref)) :=
    option_map (fun d => (td_kind d, map (fun g => (fd_name g, fd_type g)) (td_fields d))) (assoc n standard_types).
  Lemma std_field n l f ty args : fields_typed n = Some (OBJECT, l) -> field_of S n f ty args -> In (f, ty) (("__typename", TNonNull (TNamed "String")) :: l).
  Proof.
    intros E F. unfold fields_typed in E. destruct (assoc n standard_types) as [d|] eqn:Ed; [|discriminate]. cbn in E. injection E as Ek El.
    assert (Hn : In n (map fst standard_types)).
    { revert Ed. generalize standard_types. intros ts E. induction ts as [|[m x] ts IH]; [discriminate|]. cbn in *. destruct (String.eqb_spec n m) as [->|]; [left; reflexivity|right; auto]. }
    inversion F as [d' g Hd K Hg|C|HS Hq|HS Hq]; subst.
    - rewrite (std n d Ed) in Hd. injection Hd as <-. right. apply in_map_iff. exists g. auto.
    - left. reflexivity.
    - contradiction.
    - contradiction.
  Qed.
  Lemma std_kind n k l : fields_typed n = Some (k, l) -> type_is S n k.
  Proof. intros E. unfold fields_typed in E. destruct (assoc n standard_types) as [d|] eqn:Ed; [|discriminate]. cbn in E. injection E as Ek El. exists d. split; [exact (std n d Ed)|exact Ek]. Qed.
  Ltac kind_of_ := eapply std_kind; vm_compute; reflexivity.
  Lemma object_typed i : type_is S (i_typename i) OBJECT.
  Proof. destruct i; cbn [i_typename]; kind_of_. Qed.
  Lemma named_standard i : In (i_typename i) (map fst standard_types).
  Proof. assert (H : existsb (String.eqb (i_typename i)) (map fst standard_types) = true) by (destruct i; vm_compute; reflexivity). apply existsb_exists in H as (x & Hx & E). apply String.eqb_eq in E as ->. exact Hx. Qed.
  Lemma only_itself i t : In t (i_types i) <-> possible S t (i_typename i).
  Proof.
    unfold i_types. split.
    - intros [<-|[]]. left. split; [apply object_typed|reflexivity].
    - intros [[_ E]|(d & d' & Hd & K & Hin & _)]; [left; exact E|]. exfalso. exact (PO t d _ Hd K Hin (named_standard i)).
  Qed.

  Notation fits := (result_fits S i_typename).
  Lemma leaf_ n k l : fields_typed n = Some (k, l) -> k = SCALAR \/ k = ENUM -> leaf_type S n.
  Proof. intros E [->| ->]; [left|right]; exact (std_kind n _ l E). Qed.
  Lemma not_nn_named n : ~ is_nonnull (TNamed n).
  Proof. intros (u & E). discriminate. Qed.
  Lemma not_nn_list t : ~ is_nonnull (TListOf t).
  Proof. intros (u & E). discriminate. Qed.
  Lemma fits_string s : fits (TNonNull (TNamed "String")) (string_leaf s).
  Proof. apply rf_leaf; [apply (leaf_ "String" SCALAR []); [vm_compute; reflexivity|auto]|]. apply if_nonnull; [discriminate|apply if_string]. Qed.
  Lemma fits_bool x : fits (TNonNull (TNamed "Boolean")) (bool_leaf x).
  Proof. apply rf_leaf; [apply (leaf_ "Boolean" SCALAR []); [vm_compute; reflexivity|auto]|]. apply if_nonnull; [discriminate|apply if_boolean]. Qed.
  Lemma fits_nullable_string s : fits (TNamed "String") (nullable_string s).
  Proof. unfold nullable_string. destruct (String.eqb s ""); [apply rf_null, not_nn_named|]. apply rf_nullable; [apply not_nn_named|apply fits_string]. Qed.
  Lemma fits_optional_string s : fits (TNamed "String") (optional_string s).
  Proof. unfold optional_string. destruct s; cbn; [apply rf_nullable; [apply not_nn_named|apply fits_string]|apply rf_null, not_nn_named]. Qed.
  Lemma fits_enum n names i : option_map (fun d => (td_kind d, map ev_name (td_enums d))) (assoc n standard_types) = Some (ENUM, names) -> i < length names -> fits (TNonNull (TNamed n)) (enum_leaf names i).
  Proof.
    intros E L. destruct (assoc n standard_types) as [d|] eqn:Ed; [|discriminate]. cbn in E. injection E as Ek El. apply std in Ed. unfold enum_leaf.
    destruct (nth_error names i) as [s|] eqn:En; [|apply nth_error_None in En; lia]. apply rf_leaf; [right; exists d; auto|]. apply if_nonnull; [discriminate|]. apply (if_enum S n d s Ed Ek). rewrite El. exact (nth_error_In _ _ En).
  Qed.
  Lemma fits_object i : fits (TNonNull (TNamed (i_typename i))) (FDerived (Ok (Some i))).
  Proof. apply rf_derived; [left; apply object_typed|left; split; [apply object_typed|reflexivity]]. Qed.
  Lemma fits_nullable_object n o : (forall i, o = Some i -> i_typename i = n) -> fits (TNamed n) (nullable_object o).
  Proof. intros H. unfold nullable_object. destruct o as [i|]; cbn; [|apply rf_null, not_nn_named]. apply rf_nullable; [apply not_nn_named|]. rewrite <- (H i eq_refl). apply fits_object. Qed.
  Lemma fits_objects {X} n (c : X -> iobj) l : (forall x, i_typename (c x) = n) -> fits (TNonNull (TListOf (TNonNull (TNamed n)))) (objects_of (map c l)).
  Proof. intros H. unfold objects_of. apply rf_list. intros f Hf. rewrite map_map in Hf. apply in_map_iff in Hf as (x & <- & _). rewrite <- (H x). apply fits_object. Qed.
  Lemma fits_nullable_objects {X} n (c : X -> iobj) o : (forall x, i_typename (c x) = n) -> fits (TListOf (TNonNull (TNamed n))) (nullable_objects (option_map (map c) o)).
  Proof. intros H. unfold nullable_objects. destruct o as [l|]; cbn; [|apply rf_null, not_nn_list]. apply rf_nullable; [apply not_nn_list|]. apply fits_objects. exact H. Qed.

  Lemma live_type a : live (IType a) -> exists o, object_at r a = Some o.
  Proof. intros (s & Hs). destruct s; cbn in Hs; try contradiction. exact (refers_known b h r S Haf Hrep t a Hs). Qed.
  Ltac cases H := simpl in H; repeat (destruct H as [H|H]; [injection H as <- <-|]); try contradiction.
  Definition ifits (ty : tref) (a : answer iobj) : Prop := match a with AThrow _ => True | AResult f => fits ty f end.
  Lemma answers_fit i f ty args p : live i -> field_of S (i_typename i) f ty args -> ifits ty (i_ans r i f p).
  Proof.
    intros Lv F. destruct i as [|a|x|x|x|x]; cbn [i_typename] in F; (eapply std_field in F; [|vm_compute; reflexivity]); unfold i_ans.
    - cases F; unfold schema_answer; cbn [String.eqb Ascii.eqb Bool.eqb ifits].
      + apply fits_string.
      + apply (fits_objects "__Type" (fun e : string * address => IType (snd e))). reflexivity.
      + pose proof (rp_query _ _ Hrep) as Q. destruct (query r) as [t|]; simpl in Q; [|contradiction]. exact (fits_object (IType t)).
      + apply fits_nullable_object. intros i E. destruct (mutation r); [injection E as <-; reflexivity|discriminate].
      + apply fits_nullable_object. intros i E. destruct (subscription r); [injection E as <-; reflexivity|discriminate].
      + apply fits_objects. reflexivity.
    - destruct (live_type a Lv) as (o & Ho). unfold type_answer. rewrite Ho. cases F; cbn [String.eqb Ascii.eqb Bool.eqb ifits].
      + apply fits_string.
      + apply fits_enum; [vm_compute; reflexivity|destruct (to_kind o); cbn; lia].
      + apply fits_nullable_string.
      + apply fits_nullable_string.
      + rewrite wants_include. cbn [bind answered ifits]. unfold get_fields.
        destruct (to_kind o); try (apply rf_null, not_nn_list); apply (fits_nullable_objects "__Field" IntroModel.IField (Some _)); reflexivity.
      + unfold get_interfaces. destruct (to_kind o); try (apply rf_null, not_nn_list). apply (fits_nullable_objects "__Type" IType (Some _)). reflexivity.
      + unfold get_possible_types. destruct (to_kind o); try (apply rf_null, not_nn_list); apply (fits_nullable_objects "__Type" IType (Some _)); reflexivity.
      + rewrite wants_include. cbn [bind answered ifits]. unfold get_enum_values. destruct (to_kind o); try (apply rf_null, not_nn_list). apply (fits_nullable_objects "__EnumValue" IEnum (Some _)). reflexivity.
      + unfold get_input_fields. destruct (to_kind o); try (apply rf_null, not_nn_list). apply (fits_nullable_objects "__InputValue" IInput (Some _)). reflexivity.
      + apply fits_nullable_object. intros i E. unfold get_of_type, type_ptr in E. destruct (to_kind o); try discriminate; destruct (to_of o) as [t|]; try discriminate; destruct (object_at r t); try discriminate; injection E as <-; reflexivity.
    - destruct Lv as (s & Hs). destruct s; cbn in Hs; try contradiction. destruct Hs as (_ & _ & _ & T & _). destruct (refers_known b h r S Haf Hrep _ _ T) as (o & Ho). cases F; unfold field_answer; cbn [String.eqb Ascii.eqb Bool.eqb ifits].
      + apply fits_string.
      + apply fits_string.
      + apply fits_nullable_string.
      + apply fits_objects. reflexivity.
      + unfold type_ptr. rewrite Ho. exact (fits_object (IType _)).
      + apply fits_bool.
      + apply fits_optional_string.
    - destruct Lv as (s & Hs). destruct s; cbn in Hs; try contradiction. destruct Hs as (_ & _ & _ & T). destruct (refers_known b h r S Haf Hrep _ _ T) as (o & Ho). cases F; unfold input_answer; cbn [String.eqb Ascii.eqb Bool.eqb ifits].
      + apply fits_string.
      + apply fits_string.
      + apply fits_nullable_string.
      + unfold type_ptr. rewrite Ho. exact (fits_object (IType _)).
      + apply fits_nullable_string.
    - cases F; unfold enum_answer; cbn [String.eqb Ascii.eqb Bool.eqb ifits].
      + apply fits_string.
      + apply fits_string.
      + apply fits_nullable_string.
      + apply fits_bool.
      + apply fits_optional_string.
    - cases F; unfold directive_answer; cbn [String.eqb Ascii.eqb Bool.eqb ifits].
      + apply fits_string.
      + apply fits_string.
      + apply fits_nullable_string.
      + apply rf_list. intros f Hf. apply in_map_iff in Hf as (l & <- & _). apply fits_enum; [vm_compute; reflexivity|destruct l; cbn; lia].
      + apply fits_objects. reflexivity.
  Qed.
  Lemma has_fields i f ty args : field_of S (i_typename i) f ty args -> i_has i f = true.
  Proof.
    intros F. destruct i; cbn [i_typename] in F; (eapply std_field in F; [|vm_compute; reflexivity]); cases F; reflexivity.
  Qed.
  Lemma schema_fits : ifits (TNonNull (TNamed "__Schema")) query_schema_answer.
  Proof. apply rf_object; [left; exact (object_typed ISchema)|left; split; [exact (object_typed ISchema)|reflexivity]]. Qed.
  Lemma string_required args : match require [] (ILeaf KString) "name" args with Ok (XString _) => True | Ok _ => False | Throw _ => True | UB => False end.
  Proof.
    unfold require, require_mods, require_base. destruct (index_name args "name") as [v|[c w|errs]|] eqn:E; cbn; try exact Logic.I.
    - destruct v; cbn; exact Logic.I.
    - unfold index_name in E. destruct args as [es| | | | | | | |]; try discriminate. destruct (lookup "name" es); discriminate.
  Qed.
  Lemma type_fits p : ifits (TNamed "__Type") (query_type_answer r p).
  Proof.
    unfold query_type_answer. assert (H := string_required (VMap (p_args p))). destruct (require [] (ILeaf KString) "name" (VMap (p_args p))) as [[]|e|]; try contradiction; cbn; [|exact Logic.I].
    destruct (lookup_type r s) as [t|e|] eqn:E; cbn; [|exact Logic.I|exfalso; exact (proj1 (RegistryProps.C30_lookup_defined b h r s Haf) E)]. apply rf_nullable; [apply not_nn_named|]. exact (fits_object (IType _)).
  Qed.

  (** * The objects of the service *)
  Notation iobject := {i : iobj | live i}.
  Notation hosted := (hosted r).
  Lemma hosted_exists : exists ians ischema itype, hosted ians ischema itype.
  Proof.
    exists (fun i f p => match Bool.bool_dec (i_has (proj1_sig i) f) true with
                         | left E => alift live (i_ans r (proj1_sig i) f p) (answers_live (proj1_sig i) f p (proj2_sig i) E)
                         | right _ => AThrow (Exn runtime_error "")
                         end).
    assert (Ls : aall live query_schema_answer) by (exists DSchema; exact Logic.I).
    exists (alift live query_schema_answer Ls), (fun p => alift live (query_type_answer r p) (type_answers_live p)). constructor.
    - intros i f p E. destruct (Bool.bool_dec (i_has (proj1_sig i) f) true) as [E'|N]; [apply alift_proj|contradiction].
    - apply alift_proj.
    - intros p. apply alift_proj.
  Qed.
  Lemma amap_inv {U I} (pr : I -> iobj) (class : U -> string) ty a a' : amap pr a = a' -> ifits ty a' -> answer_fits S class (fun i => i_typename (pr i)) ty (amap (@GIntro U I) a).
  Proof.
    intros E F. destruct a as [e|f]; cbn in *; [exact Logic.I|]. subst a'. cbn in F. apply (fits_fmap S i_typename (gen_otype class (fun i => i_typename (pr i))) pr (@GIntro U I)) with (fr := fmap pr f); [reflexivity|exact F|reflexivity].
  Qed.
  Lemma hosted_introspects {U} (class : U -> string) ians ischema itype : hosted ians ischema itype ->
    introspects S class (fun i : iobject => i_types (proj1_sig i)) (fun i => i_has (proj1_sig i)) ians ischema itype (fun i => i_typename (proj1_sig i)).
  Proof.
    intros H. constructor.
    - intros i. apply object_typed.
    - intros i t. apply only_itself.
    - intros i f ty args F. exact (has_fields _ f ty args F).
    - intros i f ty args p F _. apply (amap_inv _ class ty _ _ (hd_ans r _ _ _ H i f p (has_fields _ f ty args F))). exact (answers_fit _ f ty args p (proj2_sig i) F).
    - intros _. apply (amap_inv _ class _ _ _ (hd_schema r _ _ _ H)). apply schema_fits.
    - intros _ p _. apply (amap_inv _ class _ _ _ (hd_type r _ _ _ H p)). apply type_fits.
  Qed.
End Intro.
