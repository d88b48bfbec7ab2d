(** What the loader keeps of a document, in terms of what the document declares (for C46). *)
From Coq Require Import Permutation.
From Verif Require Import Cpp Value Ast ModifiersModel SchemaModel LoaderModel LoaderSpec LoaderProofs GenModel GenSpec GenRun GenEval.
Local Open Scope string_scope.
Local Open Scope list_scope.

Lemma mapM_app {X Y} (f : X -> result Y) a b ys : mapM f (a ++ b) = Ok ys <-> exists u v, mapM f a = Ok u /\ mapM f b = Ok v /\ ys = u ++ v.
Proof.
  revert ys. induction a as [|x a IH]; intros ys; simpl.
  - split; [intros H; exists [], ys; auto|]. intros (u & v & E & H & ->). injection E as <-. exact H.
  - destruct (f x) as [y|e|]; simpl; [|split; [discriminate|intros (u & v & H & _); discriminate]|split; [discriminate|intros (u & v & H & _); discriminate]].
    destruct (mapM f (a ++ b)) as [ys'|e|] eqn:E; simpl.
    + destruct (proj1 (IH ys') eq_refl) as (u & v & H1 & H2 & ->). rewrite H1. simpl. split.
      * intros H. injection H as <-. exists (y :: u), v. auto.
      * intros (u' & v' & E1 & E2 & ->). injection E1 as <-. rewrite H2 in E2. injection E2 as <-. reflexivity.
    + split; [discriminate|]. intros (u & v & H1 & H2 & _). destruct (mapM f a) as [u'| |] eqn:Ea; simpl in H1; try discriminate.
      assert (X0 : Throw e = Ok (u' ++ v)) by (apply IH; eauto). discriminate.
    + split; [discriminate|]. intros (u & v & H1 & H2 & _). destruct (mapM f a) as [u'| |] eqn:Ea; simpl in H1; try discriminate.
      assert (X0 : UB = Ok (u' ++ v)) by (apply IH; eauto). discriminate.
Qed.

(** * Vectors with names *)
Lemma last_index_none {A} (name : A -> string) n l : ~ In n (map name l) -> last_index name n l = None.
Proof.
  induction l as [|x l IH]; simpl; intros H; [reflexivity|]. rewrite IH by tauto. unfold is_name. destruct (String.eqb_spec n (name x)) as [->|]; [exfalso; apply H; auto|reflexivity].
Qed.
Lemma map_if_absent {A} (name : A -> string) n (f : A -> A) l : ~ In n (map name l) -> map (fun x => if String.eqb n (name x) then f x else x) l = l.
Proof.
  induction l as [|x l IH]; simpl; intros H; [reflexivity|]. rewrite IH by tauto. destruct (String.eqb_spec n (name x)) as [->|]; [exfalso; apply H; auto|reflexivity].
Qed.
Lemma extend_map {A} (name : A -> string) n (f : A -> A) l : NoDup (map name l) -> extend name n f l = map (fun x => if String.eqb n (name x) then f x else x) l.
Proof.
  unfold extend. induction l as [|x l IH]; intros H; [reflexivity|]. simpl in H. inversion H as [|? ? Hx Hn]; subst. specialize (IH Hn). simpl.
  unfold is_name at 1. destruct (String.eqb_spec n (name x)) as [->|Hne].
  - rewrite last_index_none by exact Hx. simpl. rewrite map_if_absent by exact Hx. reflexivity.
  - destruct (last_index name n l) as [i|]; simpl; f_equal; exact IH.
Qed.

Section Kind.
  Context {X M : Type} (name : X -> string) (decls : sdl_def -> list (string * string)) (chunk : string -> sdl_def -> list M)
          (R : string -> string -> list M -> X -> Prop).
  Hypothesis R_name : forall n desc ms x, R n desc ms x -> name x = n.
  Definition holds_at (pre : list sdl_def) (x : X) (nd : string * string) : Prop := R (fst nd) (snd nd) (flat_map (chunk (fst nd)) pre) x.
  Definition kind_inv (pre : list sdl_def) (vec : list X) : Prop := Forall2 (holds_at pre) vec (flat_map decls pre).
  Lemma kind_names pre vec : kind_inv pre vec -> map name vec = map fst (flat_map decls pre).
  Proof. unfold kind_inv. generalize (flat_map decls pre). induction 1 as [|x nd v l H _ IH]; simpl; [reflexivity|]. rewrite (R_name _ _ _ _ H), IH. reflexivity. Qed.
  Lemma inv_other pre d vec : decls d = [] -> (forall n, chunk n d = []) -> kind_inv pre vec -> kind_inv (pre ++ [d]) vec.
  Proof.
    intros H1 H2 H. unfold kind_inv in *. rewrite flat_map_app. simpl. rewrite H1, !app_nil_r. eapply forall2_imp; [|exact H]. intros x nd Hx. unfold holds_at in *.
    rewrite flat_map_app. simpl. rewrite H2, !app_nil_r. exact Hx.
  Qed.
  Lemma ext_step pre d n ms (f : X -> X) vec nds :
    (forall m, chunk m d = if String.eqb m n then [ms] else []) ->
    (forall desc old x, R n desc old x -> R n desc (old ++ [ms]) (f x)) ->
    NoDup (map name vec) -> Forall2 (holds_at pre) vec nds -> Forall2 (holds_at (pre ++ [d])) (extend name n f vec) nds.
  Proof.
    intros Hc Hf Hn H. rewrite extend_map by exact Hn. clear Hn. induction H as [|x nd vec nds Hx _ IH]; simpl; constructor; auto.
    unfold holds_at in *. rewrite flat_map_app. simpl. rewrite Hc, app_nil_r, (R_name _ _ _ _ Hx). destruct nd as [m desc]. simpl in *. rewrite (String.eqb_sym n m).
    destruct (String.eqb_spec m n) as [->|]; [apply Hf; exact Hx|rewrite app_nil_r; exact Hx].
  Qed.
  Lemma inv_ext pre d vec n ms (f : X -> X) : decls d = [] -> (forall m, chunk m d = if String.eqb m n then [ms] else []) ->
    (forall desc old x, R n desc old x -> R n desc (old ++ [ms]) (f x)) -> NoDup (map fst (flat_map decls pre)) ->
    kind_inv pre vec -> kind_inv (pre ++ [d]) (extend name n f vec).
  Proof.
    intros H1 H2 Hf Hn H. unfold kind_inv. rewrite flat_map_app. simpl. rewrite H1, !app_nil_r. apply (ext_step pre d n ms f vec); auto.
    rewrite (kind_names pre vec H). exact Hn.
  Qed.
  Lemma inv_def pre d vec n desc ms fresh (f : X -> X) : decls d = [(n, desc)] -> (forall m, chunk m d = if String.eqb m n then [ms] else []) ->
    R n desc [] fresh -> (forall desc old x, R n desc old x -> R n desc (old ++ [ms]) (f x)) ->
    NoDup (map fst (flat_map decls pre) ++ [n]) -> flat_map (chunk n) pre = [] ->
    kind_inv pre vec -> kind_inv (pre ++ [d]) (extend name n f (vec ++ [fresh])).
  Proof.
    intros H1 H2 Hr Hf Hn Hc H. unfold kind_inv. rewrite flat_map_app. simpl. rewrite H1. simpl. apply (ext_step pre d n ms f (vec ++ [fresh])); auto.
    - rewrite map_app, (kind_names pre vec H). simpl. rewrite (R_name _ _ _ _ Hr). exact Hn.
    - apply Forall2_app; [exact H|]. constructor; [|constructor]. unfold holds_at. simpl. rewrite Hc. exact Hr.
  Qed.
End Kind.

(** * The six kinds *)
Definition scalar_decl (d : sdl_def) := match d with DefScalar n desc => [(n, desc)] | _ => [] end.
Definition enum_decl (d : sdl_def) := match d with DefEnum n desc _ => [(n, desc)] | _ => [] end.
Definition input_decl (d : sdl_def) := match d with DefInput n desc _ => [(n, desc)] | _ => [] end.
Definition union_decl (d : sdl_def) := match d with DefUnion n desc _ => [(n, desc)] | _ => [] end.
Definition interface_decl (d : sdl_def) := match d with DefInterface n desc _ => [(n, desc)] | _ => [] end.
Definition object_decl (d : sdl_def) := match d with DefObject n desc _ _ => [(n, desc)] | _ => [] end.
Definition chunk_of {A} (n : string) (x : string * A) : list A := if String.eqb n (fst x) then [snd x] else [].
Definition enum_chunk n (d : sdl_def) := match d with DefEnum m _ vs | ExtEnum m vs => chunk_of n (m, vs) | _ => [] end.
Definition input_chunk n (d : sdl_def) := match d with DefInput m _ vs | ExtInput m vs => chunk_of n (m, vs) | _ => [] end.
Definition union_chunk n (d : sdl_def) := match d with DefUnion m _ vs | ExtUnion m vs => chunk_of n (m, vs) | _ => [] end.
Definition interface_chunk n (d : sdl_def) := match d with DefInterface m _ vs | ExtInterface m vs => chunk_of n (m, vs) | _ => [] end.
Definition object_chunk n (d : sdl_def) := match d with DefObject m _ is vs | ExtObject m is vs => chunk_of n (m, (is, vs)) | _ => [] end.
Definition enum_R (n desc : string) (ms : list (list sdl_enum_value)) (x : enum_type) : Prop := x = mkEnum n (safe_cpp_name n) (map get_enum_value (concat ms)) desc.
Definition input_R (n desc : string) (ms : list (list sdl_input)) (x : input_type) : Prop :=
  it_type x = n /\ it_cpp x = safe_cpp_name n /\ it_desc x = desc /\ get_input_fields (concat ms) = Ok (it_fields x).
Definition union_R (n desc : string) (ms : list (list string)) (x : union_type) : Prop := x = mkUnion n (safe_cpp_name n) (concat ms) desc.
Definition interface_R (n desc : string) (ms : list (list sdl_field)) (x : interface_type) : Prop :=
  if_type x = n /\ if_cpp x = safe_cpp_name n /\ if_desc x = desc /\ get_output_fields (concat ms) = Ok (if_fields x).
Definition object_R (n desc : string) (ms : list (list string * list sdl_field)) (x : object_type) : Prop :=
  ob_type x = n /\ ob_cpp x = safe_cpp_name n /\ ob_desc x = desc /\ ob_interfaces x = concat (map fst ms) /\ get_output_fields (concat (map snd ms)) = Ok (ob_fields x).
Definition directive_decl (d : sdl_def) := match d with DefDirective n desc locs args => [(n, desc, locs, args)] | _ => [] end.
Definition directive_R (x : loaded_directive) (d : string * string * list directive_location * list sdl_input) : Prop :=
  let '(n, desc, locs, args) := d in ld_name x = n /\ ld_desc x = desc /\ ld_locations x = locs /\ get_input_fields args = Ok (ld_args x).
Definition name_of (d : sdl_def) : list string := match definition_of d with Some (_, n) => [n] | None => [] end.
Definition operation_of (e : operation_kind * string) : operation_type := mkOperationType (snd e) (safe_cpp_name (snd e)) (fst e).

Record loaded_as (pre : list sdl_def) (l : loader) : Prop := mkLoadedAs {
  la_types : forall n k, find_schema_type n (l_types l) = Some k -> In n (flat_map name_of pre);
  la_scalars : l_scalars l = map (fun nd => mkScalar (fst nd) (snd nd)) (flat_map scalar_decl pre);
  la_enums : kind_inv enum_decl enum_chunk enum_R pre (l_enums l);
  la_inputs : kind_inv input_decl input_chunk input_R pre (l_inputs l);
  la_unions : kind_inv union_decl union_chunk union_R pre (l_unions l);
  la_interfaces : kind_inv interface_decl interface_chunk interface_R pre (l_interfaces l);
  la_objects : kind_inv object_decl object_chunk object_R pre (l_objects l);
  la_directives : Forall2 directive_R (l_directives l) (flat_map directive_decl pre);
  la_operations : l_operations l = map operation_of (schema_operations pre) }.

Lemma enum_R_name n desc ms x : enum_R n desc ms x -> et_type x = n. Proof. intros ->. reflexivity. Qed.
Lemma input_R_name n desc ms x : input_R n desc ms x -> it_type x = n. Proof. intros (H & _). exact H. Qed.
Lemma union_R_name n desc ms x : union_R n desc ms x -> un_type x = n. Proof. intros ->. reflexivity. Qed.
Lemma interface_R_name n desc ms x : interface_R n desc ms x -> if_type x = n. Proof. intros (H & _). exact H. Qed.
Lemma object_R_name n desc ms x : object_R n desc ms x -> ob_type x = n. Proof. intros (H & _). exact H. Qed.

Lemma visit_app l a b : visit_definitions l (a ++ b) = (l' <- visit_definitions l a ;; visit_definitions l' b).
Proof. revert l. induction a as [|d a IH]; intros l; simpl; [reflexivity|]. destruct (visit_definition l d); simpl; auto. Qed.

Lemma set_type_find n k m x j : find_schema_type x (set_type n k m) = Some j -> x = n \/ find_schema_type x m = Some j.
Proof.
  unfold find_schema_type, set_type. simpl. destruct (String.eqb_spec x n) as [->|Hne]; [auto|]. intros H. right.
  revert H. induction m as [|[y v] m IH]; simpl; [discriminate|]. destruct (String.eqb_spec n y) as [->|Hny]; simpl.
  - intros H. destruct (String.eqb_spec x y) as [->|]; [contradiction|]. auto.
  - destruct (String.eqb x y); auto.
Qed.

(** * Every prefix of the document *)
Section Prefix.
  Variable ds : list sdl_def.
  Hypothesis Hnames : NoDup (flat_map name_of ds).
  Hypothesis Hext : forall before d after k n, ds = before ++ d :: after -> extension_of d = Some (k, n) -> exists d', In d' before /\ definition_of d' = Some (k, n).
  Lemma prefix_nodup pre d post : ds = pre ++ d :: post -> NoDup (flat_map name_of pre ++ name_of d).
  Proof. intros E. rewrite E, flat_map_app in Hnames. simpl in Hnames. rewrite app_assoc in Hnames. exact (nodup_app_l _ _ Hnames). Qed.
  (** Names of one kind. *)
  Lemma names_kind (decl : sdl_def -> list (string * string)) pre : (forall d, decl d = [] \/ map fst (decl d) = name_of d) ->
    forall extra, NoDup (flat_map name_of pre ++ extra) -> NoDup (map fst (flat_map decl pre) ++ extra) /\ forall n, In n (map fst (flat_map decl pre)) -> In n (flat_map name_of pre).
  Proof.
    intros Hd. assert (Hin : forall n l, In n (map fst (flat_map decl l)) -> In n (flat_map name_of l)).
    { intros n l. induction l as [|d l IH]; simpl; [auto|]. rewrite map_app, !in_app_iff. intros [H|H]; [|auto]. left. destruct (Hd d) as [E|E]; rewrite E in H; [destruct H|exact H]. }
    intros extra H. split; [|auto]. induction pre as [|d pre IH]; simpl in *; [exact H|]. rewrite map_app, <- app_assoc. rewrite <- app_assoc in H.
    destruct (Hd d) as [E|E]; rewrite E; simpl; [apply IH; exact (nodup_app_r _ _ H)|].
    assert (H' := nodup_app_r _ _ H). specialize (IH H').
    unfold name_of in *. destruct (definition_of d) as [[k n]|]; simpl in *; [|exact IH]. inversion H as [|? ? Hx _]; subst. constructor; [|exact IH].
    rewrite in_app_iff in *. intros [Hi|Hi]; apply Hx; auto.
  Qed.
  (** No part of a type before its definition. *)
  Lemma no_chunk {M} (chunk : string -> sdl_def -> list M) k pre d post n :
    ds = pre ++ d :: post -> definition_of d = Some (k, n) ->
    (forall m x, chunk m x <> [] -> definition_of x = Some (k, m) \/ extension_of x = Some (k, m)) -> flat_map (chunk n) pre = [].
  Proof.
    intros E Hd Hc. assert (Hn := prefix_nodup pre d post E). unfold name_of at 2 in Hn. rewrite Hd in Hn.
    assert (Hno : forall x k', In x pre -> definition_of x = Some (k', n) -> False).
    { intros x k' Hx Hk. apply (nodup_app_disjoint _ _ Hn n); [|left; reflexivity]. apply in_flat_map. exists x. split; [exact Hx|]. unfold name_of. rewrite Hk. left. reflexivity. }
    assert (Hall : forall x, In x pre -> chunk n x = []).
    { intros x Hx. destruct (chunk n x) as [|c cs] eqn:Ec; [reflexivity|exfalso]. assert (Hne : chunk n x <> []) by (rewrite Ec; discriminate).
      destruct (Hc n x Hne) as [Hk|Hk]; [exact (Hno x k Hx Hk)|].
      apply in_split in Hx as (p1 & p2 & Ep). destruct (Hext p1 x (p2 ++ d :: post) k n) as (d' & Hd' & Hk'); [rewrite E, Ep, <- app_assoc; reflexivity|exact Hk|].
      apply (Hno d' k); [rewrite Ep; apply in_or_app; auto|exact Hk']. }
    clear -Hall. induction pre as [|x pre IH]; simpl; [reflexivity|]. rewrite Hall by (left; reflexivity). apply IH. intros y Hy. apply Hall. right. exact Hy.
  Qed.
  Lemma ext_known (decl : sdl_def -> list (string * string)) k pre d post n : ds = pre ++ d :: post -> extension_of d = Some (k, n) ->
    (forall x m, definition_of x = Some (k, m) -> map fst (decl x) = [m]) -> In n (map fst (flat_map decl pre)).
  Proof.
    intros E Hk Hd. destruct (Hext pre d post k n E Hk) as (x & Hx & Hdx). clear -Hx Hdx Hd. induction pre as [|y pre IH]; [contradiction|]. simpl. rewrite map_app, in_app_iff.
    destruct Hx as [->|Hx]; [left; rewrite (Hd x n Hdx); left; reflexivity|right; auto].
  Qed.

  Lemma name_decls (decl : sdl_def -> list (string * string)) : In decl [scalar_decl; enum_decl; input_decl; union_decl; interface_decl; object_decl] ->
    forall d, decl d = [] \/ map fst (decl d) = name_of d.
  Proof. intros H d. simpl in H. destruct H as [<-|[<-|[<-|[<-|[<-|[<-|[]]]]]]]; destruct d; simpl; auto. Qed.
  Lemma other_types pre d l : loaded_as pre l -> forall n k, find_schema_type n (l_types l) = Some k -> In n (flat_map name_of (pre ++ [d])).
  Proof. intros L n k H. rewrite flat_map_app. apply in_or_app. left. exact (la_types _ _ L n k H). Qed.
  Lemma def_types pre d l n k : loaded_as pre l -> name_of d = [n] ->
    forall x j, find_schema_type x (set_type n k (l_types l)) = Some j -> In x (flat_map name_of (pre ++ [d])).
  Proof.
    intros L Hd x j H. rewrite flat_map_app. apply in_or_app. apply set_type_find in H as [->|H]; [right; simpl; rewrite Hd; left; reflexivity|left; exact (la_types _ _ L x j H)].
  Qed.
  Lemma decls_nodup pre d post decl : ds = pre ++ d :: post -> In decl [scalar_decl; enum_decl; input_decl; union_decl; interface_decl; object_decl] ->
    NoDup (map fst (flat_map decl pre) ++ name_of d).
  Proof. intros E H. apply (names_kind decl pre (name_decls decl H)). exact (prefix_nodup pre d post E). Qed.
  Lemma decls_nodup' pre d post decl : ds = pre ++ d :: post -> In decl [scalar_decl; enum_decl; input_decl; union_decl; interface_decl; object_decl] ->
    NoDup (map fst (flat_map decl pre)).
  Proof. intros E H. exact (nodup_app_l _ _ (decls_nodup pre d post decl E H)). Qed.
  Lemma declares_in {A} (name : A -> string) n l : declares name n l = true <-> In n (map name l).
  Proof.
    unfold declares, is_name. rewrite existsb_exists, in_map_iff. split; [intros (x & H1 & H2%String.eqb_eq); eauto|].
    intros (x & <- & H). exists x. split; [exact H|apply String.eqb_refl].
  Qed.
  Lemma concat_snoc {A} (ms : list (list A)) m : concat (ms ++ [m]) = concat ms ++ m.
  Proof. rewrite concat_app. simpl. rewrite app_nil_r. reflexivity. Qed.
  Lemma enum_R_ext n vs desc old x : enum_R n desc old x -> enum_R n desc (old ++ [vs]) (mkEnum (et_type x) (et_cpp x) (et_values x ++ map get_enum_value vs) (et_desc x)).
  Proof. intros ->. unfold enum_R. rewrite concat_snoc, map_app. reflexivity. Qed.
  Lemma union_R_ext n vs desc old x : union_R n desc old x -> union_R n desc (old ++ [vs]) (mkUnion (un_type x) (un_cpp x) (un_options x ++ vs) (un_desc x)).
  Proof. intros ->. unfold union_R. rewrite concat_snoc. reflexivity. Qed.
  Lemma input_R_ext n fs fields desc old x : get_input_fields fs = Ok fields -> input_R n desc old x ->
    input_R n desc (old ++ [fs]) (mkInputT (it_type x) (it_cpp x) (it_fields x ++ fields) (it_desc x)).
  Proof. intros Hf (H1 & H2 & H3 & H4). repeat split; auto. rewrite concat_snoc. apply mapM_app. eauto 6. Qed.
  Lemma interface_R_ext n fs fields desc old x : get_output_fields fs = Ok fields -> interface_R n desc old x ->
    interface_R n desc (old ++ [fs]) (mkInterface (if_type x) (if_cpp x) (if_fields x ++ fields) (if_desc x)).
  Proof. intros Hf (H1 & H2 & H3 & H4). repeat split; auto. rewrite concat_snoc. apply mapM_app. eauto 6. Qed.
  Lemma object_R_ext n is fs fields desc old x : get_output_fields fs = Ok fields -> object_R n desc old x ->
    object_R n desc (old ++ [(is, fs)]) (mkObject (ob_type x) (ob_cpp x) (ob_interfaces x ++ is) (ob_fields x ++ fields) (ob_desc x)).
  Proof.
    intros Hf (H1 & H2 & H3 & H4 & H5). repeat split; auto; rewrite map_app; cbn [map fst snd]; rewrite concat_snoc; [cbn [ob_interfaces]; congruence|]. apply mapM_app. eauto 6.
  Qed.

  Ltac other L := first [exact (la_enums _ _ L)|exact (la_inputs _ _ L)|exact (la_unions _ _ L)|exact (la_interfaces _ _ L)|exact (la_objects _ _ L)].
  Ltac others L := cbn; first
    [ apply inv_other; [reflexivity|reflexivity|other L]
    | rewrite (la_scalars _ _ L), flat_map_app; cbn; rewrite app_nil_r; reflexivity
    | rewrite flat_map_app; cbn; rewrite app_nil_r; exact (la_directives _ _ L)
    | rewrite (la_operations _ _ L); unfold schema_operations; rewrite flat_map_app; cbn; rewrite app_nil_r; reflexivity
    | exact (other_types _ _ _ L)
    | apply (def_types _ _ _ _ _ L); reflexivity
    | idtac ].
  Lemma visit_step pre d post l l' : ds = pre ++ d :: post -> loaded_as pre l -> visit_definition l d = Ok l' -> loaded_as (pre ++ [d]) l'.
  Proof.
    intros E L H. destruct d as [ops|ops|n desc|n|n desc vs|n vs|n desc fs|n fs|n desc os|n os|n desc fs|n fs|n desc is fs|n is fs|n desc locs args|]; cbn [visit_definition] in H.
    - injection H as <-. constructor; others L. cbn. rewrite (la_operations _ _ L). unfold schema_operations. rewrite flat_map_app, map_app. cbn. rewrite app_nil_r. reflexivity.
    - injection H as <-. constructor; others L. cbn. rewrite (la_operations _ _ L). unfold schema_operations. rewrite flat_map_app, map_app. cbn. rewrite app_nil_r. reflexivity.
    - injection H as <-. constructor; others L. cbn. rewrite (la_scalars _ _ L), flat_map_app, map_app. reflexivity.
    - discriminate.
    - injection H as <-. constructor; others L. cbn.
      eapply (inv_def et_type enum_decl enum_chunk enum_R enum_R_name) with (ms := vs) (desc := desc).
      + reflexivity.
      + intros m. reflexivity.
      + reflexivity.
      + intros desc0 old x. apply enum_R_ext.
      + exact (decls_nodup pre _ post enum_decl E ltac:(simpl; tauto)).
      + apply (no_chunk enum_chunk ENUM pre _ post n E eq_refl). intros m x. destruct x; simpl; unfold chunk_of; simpl; try congruence;
          destruct (String.eqb_spec m name) as [->|]; auto; congruence.
      + exact (la_enums _ _ L).
    - injection H as <-. constructor; others L. cbn.
      eapply (inv_ext et_type enum_decl enum_chunk enum_R enum_R_name) with (ms := vs).
      + reflexivity.
      + intros m. reflexivity.
      + intros desc0 old x. apply enum_R_ext.
      + exact (decls_nodup' pre _ post enum_decl E ltac:(simpl; tauto)).
      + exact (la_enums _ _ L).
    - unfold extend_input in H. cbn [with_inputs l_inputs with_interfaces l_interfaces with_objects l_objects] in H. destruct (declares it_type n _) eqn:Ed in H.
      2: { exfalso. assert (X : declares it_type n (l_inputs l ++ [mkInputT n (safe_cpp_name n) [] desc]) = true) by (apply declares_in; rewrite map_app, in_app_iff; right; left; reflexivity). congruence. }
      destruct (get_input_fields fs) as [fields|e|] eqn:Ef; cbn in H; try discriminate. injection H as <-. constructor; others L. cbn.
      eapply (inv_def it_type input_decl input_chunk input_R input_R_name) with (ms := fs) (desc := desc).
      + reflexivity.
      + intros m. reflexivity.
      + repeat split.
      + intros desc0 old x. apply input_R_ext. exact Ef.
      + exact (decls_nodup pre _ post input_decl E ltac:(simpl; tauto)).
      + apply (no_chunk input_chunk INPUT_OBJECT pre _ post n E eq_refl). intros m x. destruct x; simpl; unfold chunk_of; simpl; try congruence;
          destruct (String.eqb_spec m name) as [->|]; auto; congruence.
      + exact (la_inputs _ _ L).
    - assert (Hk := ext_known input_decl INPUT_OBJECT pre _ post n E eq_refl). unfold extend_input in H. destruct (declares it_type n _) eqn:Ed in H.
      2: { exfalso. assert (X : declares it_type n (l_inputs l) = true); [|congruence]. apply declares_in. rewrite (kind_names it_type input_decl input_chunk input_R input_R_name _ _ (la_inputs _ _ L)).
           apply Hk. intros x m. destruct x; simpl; try discriminate. congruence. }
      destruct (get_input_fields fs) as [fields|e|] eqn:Ef; cbn in H; try discriminate. injection H as <-. constructor; others L. cbn.
      eapply (inv_ext it_type input_decl input_chunk input_R input_R_name) with (ms := fs).
      + reflexivity.
      + intros m. reflexivity.
      + intros desc0 old x. apply input_R_ext. exact Ef.
      + exact (decls_nodup' pre _ post input_decl E ltac:(simpl; tauto)).
      + exact (la_inputs _ _ L).
    - injection H as <-. constructor; others L. cbn.
      eapply (inv_def un_type union_decl union_chunk union_R union_R_name) with (ms := os) (desc := desc).
      + reflexivity.
      + intros m. reflexivity.
      + reflexivity.
      + intros desc0 old x. apply union_R_ext.
      + exact (decls_nodup pre _ post union_decl E ltac:(simpl; tauto)).
      + apply (no_chunk union_chunk UNION pre _ post n E eq_refl). intros m x. destruct x; simpl; unfold chunk_of; simpl; try congruence;
          destruct (String.eqb_spec m name) as [->|]; auto; congruence.
      + exact (la_unions _ _ L).
    - injection H as <-. constructor; others L. cbn.
      eapply (inv_ext un_type union_decl union_chunk union_R union_R_name) with (ms := os).
      + reflexivity.
      + intros m. reflexivity.
      + intros desc0 old x. apply union_R_ext.
      + exact (decls_nodup' pre _ post union_decl E ltac:(simpl; tauto)).
      + exact (la_unions _ _ L).
    - unfold extend_interface in H. cbn [with_inputs l_inputs with_interfaces l_interfaces with_objects l_objects] in H. destruct (declares if_type n _) eqn:Ed in H.
      2: { exfalso. assert (X : declares if_type n (l_interfaces l ++ [mkInterface n (safe_cpp_name n) [] desc]) = true) by (apply declares_in; rewrite map_app, in_app_iff; right; left; reflexivity). congruence. }
      destruct (get_output_fields fs) as [fields|e|] eqn:Ef; cbn in H; try discriminate. injection H as <-. constructor; others L. cbn.
      eapply (inv_def if_type interface_decl interface_chunk interface_R interface_R_name) with (ms := fs) (desc := desc).
      + reflexivity.
      + intros m. reflexivity.
      + repeat split.
      + intros desc0 old x. apply interface_R_ext. exact Ef.
      + exact (decls_nodup pre _ post interface_decl E ltac:(simpl; tauto)).
      + apply (no_chunk interface_chunk INTERFACE pre _ post n E eq_refl). intros m x. destruct x; simpl; unfold chunk_of; simpl; try congruence;
          destruct (String.eqb_spec m name) as [->|]; auto; congruence.
      + exact (la_interfaces _ _ L).
    - assert (Hk := ext_known interface_decl INTERFACE pre _ post n E eq_refl). unfold extend_interface in H. destruct (declares if_type n _) eqn:Ed in H.
      2: { exfalso. assert (X : declares if_type n (l_interfaces l) = true); [|congruence]. apply declares_in. rewrite (kind_names if_type interface_decl interface_chunk interface_R interface_R_name _ _ (la_interfaces _ _ L)).
           apply Hk. intros x m. destruct x; simpl; try discriminate. congruence. }
      destruct (get_output_fields fs) as [fields|e|] eqn:Ef; cbn in H; try discriminate. injection H as <-. constructor; others L. cbn.
      eapply (inv_ext if_type interface_decl interface_chunk interface_R interface_R_name) with (ms := fs).
      + reflexivity.
      + intros m. reflexivity.
      + intros desc0 old x. apply interface_R_ext. exact Ef.
      + exact (decls_nodup' pre _ post interface_decl E ltac:(simpl; tauto)).
      + exact (la_interfaces _ _ L).
    - unfold extend_object in H. cbn [with_inputs l_inputs with_interfaces l_interfaces with_objects l_objects] in H. destruct (declares ob_type n _) eqn:Ed in H.
      2: { exfalso. assert (X : declares ob_type n (l_objects l ++ [mkObject n (safe_cpp_name n) [] [] desc]) = true) by (apply declares_in; rewrite map_app, in_app_iff; right; left; reflexivity). congruence. }
      destruct (get_output_fields fs) as [fields|e|] eqn:Ef; cbn in H; try discriminate. injection H as <-. constructor; others L. cbn.
      eapply (inv_def ob_type object_decl object_chunk object_R object_R_name) with (ms := (is, fs)) (desc := desc).
      + reflexivity.
      + intros m. reflexivity.
      + repeat split.
      + intros desc0 old x. apply object_R_ext. exact Ef.
      + exact (decls_nodup pre _ post object_decl E ltac:(simpl; tauto)).
      + apply (no_chunk object_chunk OBJECT pre _ post n E eq_refl). intros m x. destruct x; simpl; unfold chunk_of; simpl; try congruence;
          destruct (String.eqb_spec m name) as [->|]; auto; congruence.
      + exact (la_objects _ _ L).
    - assert (Hk := ext_known object_decl OBJECT pre _ post n E eq_refl). unfold extend_object in H. destruct (declares ob_type n _) eqn:Ed in H.
      2: { exfalso. assert (X : declares ob_type n (l_objects l) = true); [|congruence]. apply declares_in. rewrite (kind_names ob_type object_decl object_chunk object_R object_R_name _ _ (la_objects _ _ L)).
           apply Hk. intros x m. destruct x; simpl; try discriminate. congruence. }
      destruct (get_output_fields fs) as [fields|e|] eqn:Ef; cbn in H; try discriminate. injection H as <-. constructor; others L. cbn.
      eapply (inv_ext ob_type object_decl object_chunk object_R object_R_name) with (ms := (is, fs)).
      + reflexivity.
      + intros m. reflexivity.
      + intros desc0 old x. apply object_R_ext. exact Ef.
      + exact (decls_nodup' pre _ post object_decl E ltac:(simpl; tauto)).
      + exact (la_objects _ _ L).
    - destruct (get_input_fields args) as [fields|e|] eqn:Ef; cbn in H; try discriminate. injection H as <-. constructor; others L. cbn.
      rewrite flat_map_app. cbn. apply Forall2_app; [exact (la_directives _ _ L)|]. constructor; [|constructor]. cbn. auto.
    - discriminate.
  Qed.
  Lemma visit_all : forall pre post l, ds = pre ++ post -> visit_definitions no_definitions pre = Ok l -> loaded_as pre l.
  Proof.
    intros pre. induction pre as [|d pre IH] using rev_ind; intros post l E H.
    - injection H as <-. constructor; try constructor. intros n k Hn. discriminate.
    - rewrite visit_app in H. destruct (visit_definitions no_definitions pre) as [l0|e|] eqn:E0; cbn in H; try discriminate.
      destruct (visit_definition l0 d) as [l1|e|] eqn:E1; cbn in H; try discriminate. injection H as <-. rewrite <- app_assoc in E. cbn in E.
      apply (visit_step pre d post l0 l1 E); [|exact E1]. exact (IH (d :: post) l0 E eq_refl).
  Qed.
End Prefix.
