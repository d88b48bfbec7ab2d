(** The loader after validateSchema, against what the document declares (for C46). *)
From Coq Require Import Permutation.
From Verif Require Import Cpp Value Ast ModifiersModel SchemaModel LoaderModel LoaderSpec LoaderProofs GenModel LoaderProps GenSpec GenRun GenEval GenLoad.
Local Open Scope string_scope.
Local Open Scope list_scope.

Lemma mapM_forall2 {X Y} (f : X -> result Y) xs : forall ys, mapM f xs = Ok ys -> Forall2 (fun x y => f x = Ok y) xs ys.
Proof.
  induction xs as [|x xs IH]; intros ys H; simpl in H; [injection H as <-; constructor|].
  destruct (f x) as [y|e|] eqn:E; simpl in H; try discriminate. destruct (mapM f xs) as [ys'|e|]; simpl in H; try discriminate. injection H as <-. constructor; auto.
Qed.
Lemma forall2_map {X Y Z} (P : X -> Y -> Prop) (f : X -> Z) (g : Y -> Z) xs ys : Forall2 P xs ys -> (forall x y, In x xs -> In y ys -> P x y -> f x = g y) -> map f xs = map g ys.
Proof.
  induction 1 as [|x y xs ys H _ IH]; intros Hf; simpl; [reflexivity|]. rewrite (Hf x y) by (simpl; auto). rewrite IH; [reflexivity|].
  intros a b Ha Hb. apply Hf; simpl; auto.
Qed.
Lemma forall2_in_r {X Y} (P : X -> Y -> Prop) xs ys y : Forall2 P xs ys -> In y ys -> exists x, In x xs /\ P x y.
Proof. induction 1 as [|a b xs ys H _ IH]; simpl; [contradiction|]. intros [->|Hi]; [eauto|]. destruct (IH Hi) as (x & Hx & Hp). eauto. Qed.
Lemma forall2_in_l {X Y} (P : X -> Y -> Prop) xs ys x : Forall2 P xs ys -> In x xs -> exists y, In y ys /\ P x y.
Proof. induction 1 as [|a b xs ys H _ IH]; simpl; [contradiction|]. intros [->|Hi]; [eauto|]. destruct (IH Hi) as (y & Hx & Hp). eauto. Qed.

(** * validateSchema *)
Definition fixed_input m (t t' : input_type) : Prop :=
  it_type t' = it_type t /\ it_cpp t' = it_cpp t /\ it_desc t' = it_desc t /\ fixup_inputs m (it_fields t) = Ok (it_fields t').
Definition fixed_interface m (t t' : interface_type) : Prop :=
  if_type t' = if_type t /\ if_cpp t' = if_cpp t /\ if_desc t' = if_desc t /\ fixup_outputs m None None (if_fields t) = Ok (if_fields t').
Definition fixed_object m (t t' : object_type) : Prop :=
  ob_type t' = ob_type t /\ ob_cpp t' = ob_cpp t /\ ob_desc t' = ob_desc t /\ ob_interfaces t' = ob_interfaces t
  /\ exists inherited accessor, fixup_outputs m inherited accessor (ob_fields t) = Ok (ob_fields t').
Record validated (l0 l : loader) : Prop := mkValidated {
  vd_types : l_types l = l_types l0;
  vd_scalars : l_scalars l = l_scalars l0;
  vd_enums : l_enums l = l_enums l0;
  vd_unions : l_unions l = l_unions l0;
  vd_directives : l_directives l = l_directives l0;
  vd_inputs : exists ts, Permutation (l_inputs l) ts /\ Forall2 (fixed_input (l_types l0)) (l_inputs l0) ts;
  vd_interfaces : Forall2 (fixed_interface (l_types l0)) (l_interfaces l0) (l_interfaces l);
  vd_objects : Forall2 (fixed_object (l_types l0)) (l_objects l0) (l_objects l);
  vd_operations : check_operations false (l_objects l0) (l_operations l0) = Ok (l_operations l);
  vd_implements : forall o i, In o (l_objects l) -> In i (ob_interfaces o) -> In i (map if_type (l_interfaces l));
  vd_options : forall u o, In u (l_unions l) -> In o (un_options u) -> In o (map ob_type (l_objects l)) }.
Lemma find_none {X} (p : X -> bool) l : List.find p l = None -> forall x, In x l -> p x = false.
Proof. intros H x Hx. exact (List.find_none p l H x Hx). Qed.
Lemma validate_parts l0 l : validate_schema false l0 = Ok l -> validated l0 l.
Proof.
  intros E. unfold validate_schema in E. destruct (check_builtins (l_types l0)); try discriminate. cbn [bind] in E.
  destruct (mapM _ (l_inputs l0)) as [inputs|e|] eqn:Ei; try discriminate. cbn [bind] in E.
  destruct (reorder inputs) as [inputs'|e|] eqn:Er; try discriminate. cbn [bind] in E.
  destruct (mapM _ (l_interfaces l0)) as [is|e|] eqn:Ef; try discriminate. cbn [bind] in E.
  destruct (check_operations false (l_objects l0) (l_operations l0)) as [ops|e|] eqn:Eo; try discriminate. cbn [bind] in E.
  destruct (mapM _ (l_objects l0)) as [os|e|] eqn:Eb; try discriminate. cbn [bind] in E.
  destruct (check_interfaces is os) eqn:Ec; try discriminate. cbn [bind] in E. destruct (check_unions os (l_unions l0)) eqn:Eu; try discriminate. cbn [bind] in E.
  injection E as <-. constructor; cbn [l_types l_scalars l_enums l_inputs l_unions l_interfaces l_objects l_directives l_operations]; auto.
  - exists inputs. split; [exact (proj1 (C34_order _ _ Er))|]. apply mapM_forall2 in Ei. eapply forall2_imp; [|exact Ei]. cbn. intros t t' H.
    destruct (fixup_inputs (l_types l0) (it_fields t)) as [fs|e|] eqn:Efx; cbn in H; try discriminate. injection H as <-. repeat split; auto.
  - apply mapM_forall2 in Ef. eapply forall2_imp; [|exact Ef]. cbn. intros t t' H.
    destruct (fixup_outputs (l_types l0) None None (if_fields t)) as [fs|e|] eqn:Efx; cbn in H; try discriminate. injection H as <-. repeat split; auto.
  - apply mapM_forall2 in Eb. eapply forall2_imp; [|exact Eb]. intros t t' H. unfold fixup_object in H.
    match type of H with bind ?x _ = _ => destruct x as [fs|e|] eqn:Efx; cbn in H; try discriminate end. injection H as <-. repeat split; auto. eexists. eexists. exact Efx.
  - intros o i Ho Hi. unfold check_interfaces in Ec. destruct (List.find _ _) as [[x y]|] eqn:Efi in Ec; [discriminate|].
    assert (H := find_none _ _ Efi (ob_type o, i)). cbn in H. rewrite negb_false_iff in H. apply declares_in. apply H.
    apply in_flat_map. exists o. split; [exact Ho|]. apply in_map_iff. eauto.
  - intros u o Hu Ho. unfold check_unions in Eu. destruct (List.find _ _) as [[x y]|] eqn:Efi in Eu; [discriminate|].
    assert (H := find_none _ _ Efi (un_type u, o)). cbn in H. rewrite negb_false_iff in H. apply declares_in. apply H.
    apply in_flat_map. exists u. split; [exact Hu|]. apply in_map_iff. eauto.
Qed.

(** What the fixups keep, and what they have checked. *)
Definition known_name m (n : string) : Prop := is_builtin n = true \/ exists k, find_schema_type n m = Some k.
Lemma fixup_input_keeps noI m f f' : fixup_input m f = Ok f' -> in_def noI f' = in_def noI f /\ in_type f' = in_type f /\ known_name m (in_type f).
Proof.
  unfold fixup_input, known_name. destruct (is_builtin (in_type f)); [intros H; injection H as <-; auto|].
  destruct (find_schema_type (in_type f) m) as [[]|]; intros H; try discriminate; injection H as <-; repeat split; eauto.
Qed.
Lemma fixup_inputs_keep noI m fs fs' : fixup_inputs m fs = Ok fs' ->
  map (in_def noI) fs' = map (in_def noI) fs /\ map in_type fs' = map in_type fs /\ forall f, In f fs' -> known_name m (in_type f).
Proof.
  intros H. apply mapM_forall2 in H. split; [symmetry; eapply forall2_map; [exact H|]|split; [symmetry; eapply forall2_map; [exact H|]|]].
  - intros x y _ _ Hx. cbn in Hx. symmetry. apply (fixup_input_keeps noI m x y Hx).
  - intros x y _ _ Hx. cbn in Hx. symmetry. apply (fixup_input_keeps noI m x y Hx).
  - intros f Hf. destruct (forall2_in_r _ _ _ f H Hf) as (x & Hx & Hxf). cbn in Hxf. destruct (fixup_input_keeps noI m x f Hxf) as (_ & E & K). rewrite E. exact K.
Qed.
Lemma fixup_output_keeps noI m inh acc f f' : fixup_output m inh acc f = Ok f' ->
  out_def noI f' = out_def noI f /\ known_name m (out_type f') /\ (forall a, In a (out_args f') -> (is_builtin (out_type f) = true /\ In a (out_args f)) \/ known_name m (in_type a)).
Proof.
  unfold fixup_output. destruct (is_builtin (out_type f)) eqn:Eb.
  - intros H. injection H as <-. repeat split; [left; exact Eb|]. intros a Ha. left. auto.
  - destruct (find_schema_type (out_type f) m) as [k|] eqn:Ek; [|discriminate].
    destruct k; cbn [bind]; intros H; try discriminate;
      (destruct (fixup_inputs m (out_args f)) as [args|e|] eqn:Ea; cbn [bind] in H; try discriminate; injection H as <-;
       destruct (fixup_inputs_keep noI m _ _ Ea) as (H1 & _ & H2); split; [unfold out_def; cbn; rewrite H1; reflexivity|]; split; [right; eauto|]; intros a Ha; right; auto).
Qed.
Lemma fixup_outputs_keep noI m inh acc fs fs' : fixup_outputs m inh acc fs = Ok fs' ->
  map (out_def noI) fs' = map (out_def noI) fs /\ forall f, In f fs' -> known_name m (out_type f)
    /\ forall a, In a (out_args f) -> (exists f0, In f0 fs /\ is_builtin (out_type f0) = true /\ In a (out_args f0)) \/ known_name m (in_type a).
Proof.
  intros H. apply mapM_forall2 in H. split; [symmetry; eapply forall2_map; [exact H|]|].
  - intros x y _ _ Hx. symmetry. apply (fixup_output_keeps noI m inh acc x y Hx).
  - intros f Hf. destruct (forall2_in_r _ _ _ f H Hf) as (x & Hx & Hxf). cbn in Hxf. destruct (fixup_output_keeps noI m inh acc x f Hxf) as (_ & K & Ka). split; [exact K|].
    intros a Ha. destruct (Ka a Ha) as [[H1 H2]|H1]; eauto 6.
Qed.

(** * One field, one argument, one value *)
Lemma type_from_visit t : grammatical t -> type_from (fst (visit_field_type t)) (snd (visit_field_type t)) true = t.
Proof.
  intros H. assert (H1 := C35_introspection t H). assert (H2 := type_from_is [] (fst (visit_field_type t)) (snd (visit_field_type t)) true).
  assert (Hb : forall e u, built_type e = Some u -> a_type [] e = Some u).
  { induction e as [v|n|k e IH]; intros u Hu.
    - discriminate.
    - exact Hu.
    - destruct k; simpl in *; try discriminate; destruct (built_type e) as [w|]; try discriminate; rewrite (IH w eq_refl); exact Hu. }
  apply Hb in H1. congruence.
Qed.
Lemma input_declared noI i f : get_input_field i = Ok f -> grammatical (si_type i) -> in_def noI f = declared_input noI i /\ in_type f = base_name (si_type i).
Proof.
  intros H Hg. unfold get_input_field in H.
  assert (Hv := type_from_visit (si_type i) Hg). assert (Hb := proj2 (C35_modifiers _ Hg)). destruct (visit_field_type (si_type i)) as [n ms]. cbn [fst snd] in *.
  assert (Hfin : forall text v, (if negb (String.eqb text "") && match v with VNull => true | _ => false end && match ms with MNullable :: _ => false | _ => true end
     then Throw (Exn runtime_error ("Expected Non-Null default value for field name: " ++ si_name i)) else
     Ok (mkInField n (si_name i) (safe_cpp_name (si_name i)) text v InBuiltin ms (si_desc i))) = Ok f ->
     text = match si_default i with Some (_, t) => t | None => "" end -> in_def noI f = declared_input noI i /\ in_type f = base_name (si_type i)).
  { intros text v Hx ->. destruct (negb _ && _ && _); [discriminate|]. injection Hx as <-. cbn. split; [|exact Hb]. unfold in_def, declared_input. cbn. rewrite Hv. reflexivity. }
  destruct (si_default i) as [[dv text]|]; cbn [bind] in H.
  - destruct (visit_default dv) as [v|e|]; cbn [bind] in H; try discriminate. exact (Hfin text v H eq_refl).
  - exact (Hfin "" VNull H eq_refl).
Qed.
Lemma inputs_declared noI is fs : get_input_fields is = Ok fs -> (forall i, In i is -> grammatical (si_type i)) ->
  map (in_def noI) fs = map (declared_input noI) is /\ map in_type fs = map (fun i => base_name (si_type i)) is.
Proof.
  intros H Hg. apply mapM_forall2 in H. split; symmetry; (eapply forall2_map; [exact H|]; intros x y Hx _ Hxy; symmetry; apply (input_declared noI x y Hxy (Hg x Hx))).
Qed.
Lemma reason_usual d l l' s : d_args d = [(l, ("reason", LString l' s))] -> reason_argument d = Some s.
Proof. intros E. unfold reason_argument. rewrite E. reflexivity. Qed.
Lemma deprecation_fold (f : option string -> directive -> option string) ds :
  (forall acc d, In d ds -> d_name d <> "deprecated" -> f acc d = acc) ->
  (forall acc d l l' s, In d ds -> d_name d = "deprecated" -> d_args d = [(l, ("reason", LString l' s))] -> f acc d = Some s) ->
  usual_deprecation ds -> fold_left f ds None = deprecation ds.
Proof.
  intros H1 H2 [Hu Hl].
  assert (Hno : forall l acc, (forall d, In d l -> In d ds) -> filter (named_directive "deprecated") l = [] -> fold_left f l acc = acc).
  { clear -H1. induction l as [|d l IH]; intros acc Hin Hf; [reflexivity|]. cbn in *. unfold named_directive at 1 in Hf.
    destruct (String.eqb_spec (d_name d) "deprecated"); [discriminate|]. rewrite H1 by auto. apply IH; auto. }
  unfold deprecation. assert (Hgen : forall l, (forall d, In d l -> In d ds) -> length (filter (named_directive "deprecated") l) <= 1 -> fold_left f l None =
    match List.find (named_directive "deprecated") l with
    | Some d => Some match List.find (fun a => String.eqb (Ast.a_name a) "reason") (d_args d) with Some a => match a_value a with LString _ s => s | _ => "" end | None => "No longer supported" end
    | None => None end); [|apply Hgen; auto].
  induction l as [|d l IH]; intros Hin Hlen; [reflexivity|]. cbn [fold_left List.find filter] in *. unfold named_directive at 1 in Hlen. unfold named_directive at 1.
  destruct (String.eqb_spec (d_name d) "deprecated") as [En|En].
  - destruct (Hu d (Hin d (or_introl eq_refl)) En) as (a & b & s & Ea). rewrite (H2 None d a b s (Hin d (or_introl eq_refl)) En Ea), Hno.
    + rewrite Ea. reflexivity.
    + intros x Hx. apply Hin. right. exact Hx.
    + cbn in Hlen. destruct (filter _ l) as [|y ys]; [reflexivity|]. cbn in Hlen. lia.
  - rewrite H1 by (auto; apply Hin; left; reflexivity). apply IH; [intros x Hx; apply Hin; right; exact Hx|exact Hlen].
Qed.
Lemma field_deprecation_declared ds : usual_deprecation ds -> field_deprecation ds = deprecation ds.
Proof.
  intros H. unfold field_deprecation. apply deprecation_fold; [| |exact H].
  - intros acc d _ Hn. apply String.eqb_neq in Hn. rewrite Hn. reflexivity.
  - intros acc d l l' s _ -> Ea. rewrite String.eqb_refl, (reason_usual d l l' s Ea). reflexivity.
Qed.
Lemma enum_deprecation_declared ds : usual_deprecation ds -> enum_deprecation ds = deprecation ds.
Proof.
  intros H. unfold enum_deprecation. apply deprecation_fold; [| |exact H].
  - intros acc d _ Hn. apply String.eqb_neq in Hn. rewrite Hn. reflexivity.
  - intros acc d l l' s _ -> Ea. rewrite String.eqb_refl, (reason_usual d l l' s Ea). reflexivity.
Qed.
Definition field_fine (f : sdl_field) : Prop := grammatical (sf_type f) /\ usual_deprecation (sf_dirs f) /\ forall a, In a (sf_args f) -> grammatical (si_type a).
Lemma output_declared noI f x : get_output_field f = Ok x -> field_fine f ->
  out_def noI x = declared_field noI f /\ out_type x = base_name (sf_type f) /\ map in_type (out_args x) = map (fun i => base_name (si_type i)) (sf_args f).
Proof.
  intros H (Hg & Hd & Ha). unfold get_output_field in H. destruct (get_input_fields (sf_args f)) as [args|e|] eqn:Ea; cbn [bind] in H; try discriminate.
  destruct (inputs_declared noI _ _ Ea Ha) as [Hi Ht]. assert (Hv := type_from_visit (sf_type f) Hg). assert (Hb := proj2 (C35_modifiers _ Hg)).
  destruct (visit_field_type (sf_type f)) as [n ms]. cbn [fst snd] in *. injection H as <-. cbn. split; [|auto]. unfold out_def, declared_field. cbn.
  rewrite Hv, Hi, field_deprecation_declared by exact Hd. reflexivity.
Qed.
Lemma outputs_declared noI fs xs : get_output_fields fs = Ok xs -> (forall f, In f fs -> field_fine f) -> map (out_def noI) xs = map (declared_field noI) fs.
Proof.
  intros H Hf. apply mapM_forall2 in H. symmetry. eapply forall2_map; [exact H|]. intros f x Hin _ Hx. symmetry. apply (output_declared noI f x Hx (Hf f Hin)).
Qed.
Lemma value_declared noI v : usual_deprecation (se_dirs v) -> enum_def noI (get_enum_value v) = declared_value noI v.
Proof. intros H. unfold enum_def, get_enum_value, declared_value. cbn. rewrite enum_deprecation_declared by exact H. reflexivity. Qed.

(** * The members of a type *)
Lemma concat_chunk {A} (f : string -> sdl_def -> list (list A)) (g : sdl_def -> list A) n ds : (forall d, concat (f n d) = g d) -> concat (flat_map (f n) ds) = flat_map g ds.
Proof. intros H. induction ds as [|d ds IH]; simpl; [reflexivity|]. rewrite concat_app, H, IH. reflexivity. Qed.
Lemma chunk_concat {A} n (x : string * list A) : concat (chunk_of n x) = of_type n x.
Proof. unfold chunk_of, of_type. destruct (String.eqb n (fst x)); simpl; rewrite ?app_nil_r; reflexivity. Qed.
Lemma values_chunk ds n : concat (flat_map (enum_chunk n) ds) = values_of ds n.
Proof. apply concat_chunk. intros []; simpl; try reflexivity; apply (chunk_concat n (name, values)). Qed.
Lemma inputs_chunk ds n : concat (flat_map (input_chunk n) ds) = inputs_of ds n.
Proof. apply concat_chunk. intros []; simpl; try reflexivity; apply (chunk_concat n (name, fields)). Qed.
Lemma options_chunk ds n : concat (flat_map (union_chunk n) ds) = options_of ds n.
Proof. apply concat_chunk. intros []; simpl; try reflexivity; apply (chunk_concat n (name, options)). Qed.
Lemma interface_fields_chunk ds n : concat (flat_map (interface_chunk n) ds) = interface_fields_of ds n.
Proof. apply concat_chunk. intros []; simpl; try reflexivity; apply (chunk_concat n (name, fields)). Qed.
Lemma map_flat_map' {A B C} (f : B -> C) (g : A -> list B) l : map f (flat_map g l) = flat_map (fun x => map f (g x)) l.
Proof. induction l as [|x l IH]; simpl; [reflexivity|]. rewrite map_app, IH. reflexivity. Qed.
Lemma object_fields_chunk ds n : concat (map snd (flat_map (object_chunk n) ds)) = object_fields_of ds n.
Proof.
  rewrite map_flat_map'. apply (concat_chunk (fun n d => map snd (object_chunk n d))). intros []; simpl; try reflexivity; unfold chunk_of, of_type; simpl; destruct (String.eqb n name); simpl; rewrite ?app_nil_r; reflexivity.
Qed.
Lemma interfaces_chunk ds n : concat (map fst (flat_map (object_chunk n) ds)) = interfaces_of ds n.
Proof.
  rewrite map_flat_map'. apply (concat_chunk (fun n d => map fst (object_chunk n d))). intros []; simpl; try reflexivity; unfold chunk_of, of_type; simpl; destruct (String.eqb n name); simpl; rewrite ?app_nil_r; reflexivity.
Qed.
