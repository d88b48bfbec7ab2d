(** Running the generated code, followed on the schema that the registry represents at each moment (for C46). *)
From Verif Require Import Cpp Value Ast ModifiersModel SortedMapModel SchemaModel RegistryModel RegistrySpec RegistryProofs RegistryProps
  IntroModel IntroSpec LoaderModel LoaderSpec GenModel.
Local Open Scope string_scope.
Local Open Scope list_scope.

(** A schema that is not complete yet. *)
Record pschema : Type := mkPS {
  ps_types : list (string * type_def); ps_query : option string; ps_mutation : option string; ps_subscription : option string;
  ps_directives : list directive_def }.
Definition no_types : pschema := mkPS [] None None None [].
Definition with_types (A : pschema) ts : pschema := mkPS ts (ps_query A) (ps_mutation A) (ps_subscription A) (ps_directives A).

(** * The same statements on schemas: None where the real ones could fail *)
Section OMap.
  Context {X Y : Type} (f : X -> option Y).
  Fixpoint omap_all (l : list X) : option (list Y) :=
    match l with
    | [] => Some []
    | x :: r => match f x, omap_all r with Some y, Some ys => Some (y :: ys) | _, _ => None end
    end.
End OMap.
Definition has_type (A : pschema) (n : string) : bool := existsb (String.eqb n) (map fst (ps_types A)).
Definition has_kind (A : pschema) (ks : list type_kind) (n : string) : bool :=
  match assoc n (ps_types A) with Some d => existsb (kind_eqb (td_kind d)) ks | None => false end.
Section Abstract.
  Variable enums : list (string * list (string * string)).
  Variable E : list (string * string).
  Fixpoint a_type (x : type_expr) : option tref :=
    match x with
    | EVar v => option_map TNamed (assoc v E)
    | ELookup n => Some (TNamed n)
    | EWrap LIST x => option_map TListOf (a_type x)
    | EWrap NON_NULL x => option_map TNonNull (a_type x)
    | EWrap _ _ => None
    end.
  Definition a_known (A : pschema) (x : type_expr) : option tref :=
    match a_type x with Some t => if has_type A (base_name t) then Some t else None | None => None end.
  Definition a_input (A : pschema) (x : input_expr) : option input_value :=
    option_map (fun t => mkInput (ie_name x) (ie_desc x) t (ie_default x)) (a_known A (ie_type x)).
  Definition a_field (A : pschema) (x : field_expr) : option field_def :=
    match a_known A (fe_type x), omap_all (a_input A) (fe_args x) with
    | Some t, Some args => Some (mkFieldDef (fe_name x) (fe_desc x) (fe_deprecated x) t args)
    | _, _ => None
    end.
  Definition a_name (A : pschema) (x : type_expr) : option string :=
    match a_known A x with Some (TNamed n) => Some n | _ => None end.
  Definition change (n : string) (f : type_def -> type_def) (ts : list (string * type_def)) : list (string * type_def) :=
    map (fun e => if String.eqb n (fst e) then (fst e, f (snd e)) else e) ts.
  Definition d_fields fs d := mkTypeDef (td_kind d) (td_desc d) fs (td_interfaces d) (td_possible d) (td_enums d) (td_inputs d).
  Definition d_interfaces is d := mkTypeDef (td_kind d) (td_desc d) (td_fields d) is (td_possible d) (td_enums d) (td_inputs d).
  Definition d_possible ps d := mkTypeDef (td_kind d) (td_desc d) (td_fields d) (td_interfaces d) ps (td_enums d) (td_inputs d).
  Definition d_enums es d := mkTypeDef (td_kind d) (td_desc d) (td_fields d) (td_interfaces d) (td_possible d) es (td_inputs d).
  Definition d_inputs is d := mkTypeDef (td_kind d) (td_desc d) (td_fields d) (td_interfaces d) (td_possible d) (td_enums d) is.
  Definition new_def (k : type_kind) (desc : string) : type_def := mkTypeDef k desc [] [] [] [] [].
  Definition plain_kind (k : type_kind) : bool := match k with LIST | NON_NULL => false | _ => true end.
  Definition declare (A : pschema) (k : type_kind) (n desc : string) : option pschema :=
    if negb (has_type A n) && plain_kind k then Some (with_types A (ps_types A ++ [(n, new_def k desc)])) else None.
  Definition times (m : string) (is : list string) : nat := length (filter (String.eqb m) is).
  (** The interfaces of an object, and the object among the possible types of the interfaces. *)
  Definition implement (n : string) (is : list string) (ts : list (string * type_def)) : list (string * type_def) :=
    map (fun e => (fst e, d_possible (td_possible (snd e) ++ repeat n (times (fst e) is)) (snd e))) (change n (d_interfaces is) ts).
  Definition on_kind (A : pschema) (ks : list type_kind) (v : string) (f : string -> option pschema) : option pschema :=
    match assoc v E with Some n => if has_kind A ks n then f n else None | None => None end.
  Definition a_stmt (A : pschema) (s : stmt) : option pschema :=
    match s with
    | SAddScalar n n' d => if String.eqb n n' then declare A SCALAR n d else None
    | SMake _ _ _ _ | SAddType _ _ => None
    | SEnumValues v xs => on_kind A [ENUM] v (fun n =>
        match mapM (eval_enum enums) xs with Ok vs => Some (with_types A (change n (d_enums vs) (ps_types A))) | _ => None end)
    | SInputValues v xs => on_kind A [INPUT_OBJECT] v (fun n =>
        option_map (fun is => with_types A (change n (d_inputs is) (ps_types A))) (omap_all (a_input A) xs))
    | SPossibleTypes v xs => on_kind A [UNION] v (fun n =>
        option_map (fun ps => with_types A (change n (d_possible ps) (ps_types A))) (omap_all (a_name A) xs))
    | SInterfaces v xs => on_kind A [OBJECT] v (fun n =>
        match omap_all (a_name A) xs with
        | Some is => if forallb (has_kind A [INTERFACE]) is then Some (with_types A (implement n is (ps_types A))) else None
        | None => None
        end)
    | SFields v xs => on_kind A [OBJECT; INTERFACE] v (fun n =>
        option_map (fun fs => with_types A (change n (d_fields fs) (ps_types A))) (omap_all (a_field A) xs))
    | SDirective n d locs xs =>
        option_map (fun args => mkPS (ps_types A) (ps_query A) (ps_mutation A) (ps_subscription A) (ps_directives A ++ [mkDirDef n d locs args]))
          (omap_all (a_input A) xs)
    | SOperation op v => on_kind A [OBJECT] v (fun n => Some
        match op with
        | OpQuery => mkPS (ps_types A) (Some n) (ps_mutation A) (ps_subscription A) (ps_directives A)
        | OpMutation => mkPS (ps_types A) (ps_query A) (Some n) (ps_subscription A) (ps_directives A)
        | OpSubscription => mkPS (ps_types A) (ps_query A) (ps_mutation A) (Some n) (ps_directives A)
        end)
    end.
End Abstract.
Fixpoint a_stmts (enums : list (string * list (string * string))) (A : pschema) (E : list (string * string)) (l : list stmt)
  : option (pschema * list (string * string)) :=
  match l with
  | [] => Some (A, E)
  | SMake k v n d :: l' =>
      match l' with
      | SAddType n' v' :: rest =>
          if String.eqb n n' && String.eqb v v' then
            match declare A k n d with Some A' => a_stmts enums A' ((v, n) :: E) rest | None => None end
          else None
      | _ => None
      end
  | s :: rest => match a_stmt enums E A s with Some A' => a_stmts enums A' E rest | None => None end
  end.

(** * What the registry keeps when calls are made *)
Definition keeps (r r' : registry) : Prop :=
  (forall t o, object_at r t = Some o -> exists o', object_at r' t = Some o' /\ same_identity o o')
  /\ (forall n t, lookup_type r n = Ok t -> lookup_type r' n = Ok t).
Lemma keeps_refl r : keeps r r.
Proof. split; [|auto]. intros t o H. exists o. split; [exact H|repeat split]. Qed.
Lemma keeps_trans r r1 r2 : keeps r r1 -> keeps r1 r2 -> keeps r r2.
Proof.
  intros [H1 H2] [H3 H4]. split; [|auto]. intros t o Ho. destruct (H1 t o Ho) as (o1 & E1 & a1 & b1 & c1 & d1).
  destruct (H3 t o1 E1) as (o2 & E2 & a2 & b2 & c2 & d2). exists o2. split; [exact E2|]. repeat split; congruence.
Qed.
Lemma refers_keeps r r' : keeps r r' -> forall t a, refers r t a -> refers r' t a.
Proof.
  intros [H1 H2] t a H. induction H as [n t H|e p w o He IH Ho Hk Hf|e p w o He IH Ho Hk Hf].
  - constructor. auto.
  - destruct (H1 w o Ho) as (o' & Ho' & Ek & _ & _ & Ef). apply (rf_list r' e p w o'); congruence.
  - destruct (H1 w o Ho) as (o' & Ho' & Ek & _ & _ & Ef). apply (rf_nonnull r' e p w o'); congruence.
Qed.
Lemma forall2_imp {X Y} (P Q : X -> Y -> Prop) l l' : (forall x y, P x y -> Q x y) -> Forall2 P l l' -> Forall2 Q l l'.
Proof. intros H. induction 1; constructor; auto. Qed.
Lemma input_keeps r r' i d : keeps r r' -> input_rep r i d -> input_rep r' i d.
Proof. intros K (H1 & H2 & H3 & H4). repeat split; auto. eapply refers_keeps; eauto. Qed.
Lemma field_keeps r r' f d : keeps r r' -> field_rep r f d -> field_rep r' f d.
Proof.
  intros K (H1 & H2 & H3 & H4 & H5). repeat split; auto; [eapply refers_keeps; eauto|].
  eapply forall2_imp; [|exact H5]. intros x y. apply input_keeps. exact K.
Qed.
Lemma directive_keeps r r' x d : keeps r r' -> directive_rep r x d -> directive_rep r' x d.
Proof. intros K (H1 & H2 & H3 & H4). repeat split; auto. eapply forall2_imp; [|exact H4]. intros i j. apply input_keeps. exact K. Qed.
Lemma root_keeps r r' t n : keeps r r' -> root_rep r t n -> root_rep r' t n.
Proof. intros K. destruct t, n; simpl; auto. apply refers_keeps. exact K. Qed.
Lemma type_keeps r r' n o d : keeps r r' -> type_rep r n o d -> type_rep r' n o d.
Proof.
  intros K (H1 & H2 & H3 & H4 & H5 & H6 & H7 & H8). repeat split; auto.
  - eapply forall2_imp; [|exact H4]. intros x y. apply field_keeps. exact K.
  - eapply forall2_imp; [|exact H5]. intros x y. apply refers_keeps. exact K.
  - eapply forall2_imp; [|exact H6]. intros x y. apply refers_keeps. exact K.
  - eapply forall2_imp; [|exact H8]. intros x y. apply input_keeps. exact K.
Qed.

(** Calls that leave the index of the types alone. *)
Lemma keeps_exec r c : types (exec r c) = types r -> type_map (exec r c) = type_map r -> keeps r (exec r c).
Proof.
  intros Et Em. split.
  - intros t o Ho. exists (effect c t o). split; [apply exec_object; exact Ho|apply effect_identity].
  - intros n t. unfold lookup_type. rewrite Et, Em. auto.
Qed.

(** The registry with more wrappers. *)
Record grown (b : bool) (r r' : registry) : Prop := mkGrown {
  gr_after : exists h, after b h r';
  gr_objects : forall t o, object_at r t = Some o -> object_at r' t = Some o;
  gr_types : types r' = types r;
  gr_map : type_map r' = type_map r;
  gr_query : query r' = query r; gr_mutation : mutation r' = mutation r; gr_subscription : subscription r' = subscription r;
  gr_directives : directives r' = directives r }.
Lemma grown_refl b r h : after b h r -> grown b r r.
Proof. intros H. constructor; eauto. Qed.
Lemma grown_trans b r r1 r2 : grown b r r1 -> grown b r1 r2 -> grown b r r2.
Proof. intros [] []. constructor; try congruence; auto. Qed.
Lemma grown_keeps b r r' : grown b r r' -> keeps r r'.
Proof.
  intros [_ H1 H2 H3 _ _ _ _]. split.
  - intros t o Ho. exists o. split; [auto|repeat split].
  - intros n t. unfold lookup_type. rewrite H2, H3. auto.
Qed.
Lemma grown_lookup b r r' n : grown b r r' -> lookup_type r' n = lookup_type r n.
Proof. intros G. unfold lookup_type. rewrite (gr_types _ _ _ G), (gr_map _ _ _ G). reflexivity. Qed.

Lemma refers_known b h r t a : after b h r -> refers r t a -> known r a.
Proof.
  intros H Hr. destruct Hr as [n t Hl|e p w o _ Ho _ _|e p w o _ Ho _ _]; [|exists o; exact Ho|exists o; exact Ho].
  apply (C30_lookup b h r n t H) in Hl as (before & later & E & _).
  assert (Hp : plain_at r t). { apply (RegistryProofs.i_types _ (inv_after _ _ _ H) n). rewrite (C30_types _ _ _ H), E. apply in_or_app. simpl. auto. }
  destruct Hp as (o & Ho & _). exists o. exact Ho.
Qed.
Lemma wrap_grown b h r k p : after b h r -> is_wrapper k -> known r p ->
  grown b r (fst (wrap_type r k p)) /\ exists o, object_at (fst (wrap_type r k p)) (snd (wrap_type r k p)) = Some o /\ to_kind o = k /\ to_of o = Some p.
Proof.
  intros H Hk Hp. assert (Hw := C30_wrap b h r k p H Hk Hp).
  assert (Ha : after b (h ++ [WrapType k p]) (exec r (WrapType k p))) by (constructor; simpl; auto).
  simpl in Ha. destruct (wrap_type r k p) as [r' w] eqn:Ew. simpl in *. split; [|exact (proj2 (Hw w) eq_refl)].
  unfold wrap_type in Ew. destruct (smap_find _ _ _) as [x|]; injection Ew as <- <-; simpl in *.
  - eapply grown_refl; eauto.
  - constructor; simpl; eauto. intros t o Ho. unfold object_at in *. simpl. rewrite nth_error_app1; [exact Ho|]. apply nth_error_Some. congruence.
Qed.

(** * The registry represents the schema *)
Definition types_rep (r : registry) (ts : list (string * address)) (ds : list (string * type_def)) : Prop :=
  Forall2 (fun e d => fst e = fst d /\ exists o, object_at r (snd e) = Some o /\ type_rep r (fst e) o (snd d)) ts ds.
Record rep (b : bool) (r : registry) (e : list (string * address)) (A : pschema) (E : list (string * string)) : Prop := mkRep {
  re_after : exists h, after b h r;
  re_types : types_rep r (types r) (ps_types A);
  re_distinct : NoDup (map fst (ps_types A));
  re_env : Forall2 (fun x y => fst x = fst y /\ lookup_type r (snd y) = Ok (snd x)) e E;
  re_query : root_rep r (query r) (ps_query A);
  re_mutation : root_rep r (mutation r) (ps_mutation A);
  re_subscription : root_rep r (subscription r) (ps_subscription A);
  re_directives : Forall2 (directive_rep r) (directives r) (ps_directives A) }.

Lemma types_names r ts ds : types_rep r ts ds -> map fst ts = map fst ds.
Proof. induction 1 as [|e d ts ds [H _] _ IH]; simpl; congruence. Qed.
Lemma rep_grown b r r' e A E : rep b r e A E -> grown b r r' -> rep b r' e A E.
Proof.
  intros [H1 H2 H3 H4 H5 H6 H7 H8] G. assert (K := grown_keeps _ _ _ G). destruct G as [G1 G2 G3 G4 G5 G6 G7 G8].
  constructor; auto; rewrite ?G3, ?G5, ?G6, ?G7, ?G8; try (eapply root_keeps; eauto).
  - eapply forall2_imp; [|exact H2]. intros x y (E1 & o & Ho & Hr). split; [exact E1|]. exists o. split; [auto|eapply type_keeps; eauto].
  - eapply forall2_imp; [|exact H4]. intros x y (E1 & Hl). split; [exact E1|]. apply (proj2 K). exact Hl.
  - eapply forall2_imp; [|exact H8]. intros x y. apply directive_keeps. exact K.
Qed.

Lemma has_type_in A n : has_type A n = true <-> In n (map fst (ps_types A)).
Proof.
  unfold has_type. rewrite existsb_exists. split; [intros (x & H & ->%String.eqb_eq); exact H|intros H; exists n; split; [exact H|apply String.eqb_refl]].
Qed.
(** The address of a name. *)
Lemma rep_lookup b r e A E n : rep b r e A E -> In n (map fst (ps_types A)) -> exists a, lookup_type r n = Ok a /\ In (n, a) (types r).
Proof.
  intros [[h H] Ht Hd _ _ _ _ _] Hn. rewrite <- (types_names _ _ _ Ht) in Hn, Hd. apply in_map_iff in Hn as ([m a] & <- & Hin). simpl.
  exists a. split; [|exact Hin]. apply (C30_lookup b h r m a H). rewrite <- (C30_types _ _ _ H).
  apply in_split in Hin as (l1 & l2 & El). exists l1, l2. split; [exact El|]. rewrite El, map_app in Hd. simpl in Hd. apply NoDup_remove_2 in Hd.
  intros Hi. apply Hd. apply in_or_app. auto.
Qed.
Lemma lookup_added b h r n a : after b h r -> lookup_type r n = Ok a -> In (n, a) (types r).
Proof. intros H Hl. apply (C30_lookup b h r n a H) in Hl as (l1 & l2 & E & _). rewrite (C30_types _ _ _ H), E. apply in_or_app. simpl. auto. Qed.
(** What is at it. *)
Lemma types_at r ts ds n a : types_rep r ts ds -> NoDup (map fst ds) -> In (n, a) ts ->
  exists d o, assoc n ds = Some d /\ In (n, d) ds /\ object_at r a = Some o /\ type_rep r n o d.
Proof.
  induction 1 as [|x y ts ds [E1 (o & Ho & Hr)] Hrest IH]; intros Hn Hin; [contradiction|]. destruct x as [m c], y as [m' d]. simpl in *. subst m'.
  inversion Hn as [|? ? Hx Hn']; subst. destruct Hin as [Eq|Hin].
  - injection Eq as -> ->. exists d, o. rewrite String.eqb_refl. auto.
  - destruct (IH Hn' Hin) as (d' & o' & H1 & H2 & H3 & H4). exists d', o'. destruct (String.eqb_spec n m) as [->|_]; [|auto].
    exfalso. apply Hx. rewrite <- (types_names _ _ _ Hrest). apply in_map_iff. exists (m, a). auto.
Qed.
Lemma rep_at b r e A E n a : rep b r e A E -> lookup_type r n = Ok a ->
  exists d o, assoc n (ps_types A) = Some d /\ object_at r a = Some o /\ type_rep r n o d.
Proof.
  intros R Hl. destruct (re_after _ _ _ _ _ R) as [h H]. destruct (types_at r _ _ n a (re_types _ _ _ _ _ R) (re_distinct _ _ _ _ _ R) (lookup_added b h r n a H Hl))
    as (d & o & H1 & _ & H2 & H3). eauto 6.
Qed.
Lemma kind_eqb_eq a c : kind_eqb a c = true <-> a = c.
Proof. destruct a, c; simpl; split; congruence. Qed.
Lemma rep_kind b r e A E ks n a : rep b r e A E -> lookup_type r n = Ok a -> has_kind A ks n = true -> exists k, In k ks /\ kind_at r a k.
Proof.
  intros R Hl Hk. destruct (rep_at b r e A E n a R Hl) as (d & o & H1 & H2 & H3). unfold has_kind in Hk. rewrite H1 in Hk.
  apply existsb_exists in Hk as (k & Hin & Hk). apply kind_eqb_eq in Hk. exists k. split; [exact Hin|]. exists o. split; [exact H2|].
  destruct H3 as (_ & H3 & _). congruence.
Qed.
Lemma rep_var b r e A E v n : rep b r e A E -> assoc v E = Some n -> exists a, eval_var e v = Ok a /\ lookup_type r n = Ok a.
Proof.
  intros R. assert (H := re_env _ _ _ _ _ R). clear R. unfold eval_var. induction H as [|x y e E [E1 Hl] _ IH]; intros Ha; [discriminate|].
  destruct x as [v1 a1], y as [v2 n2]. simpl in *. subst v2. destruct (String.eqb v v1); [|apply IH; exact Ha]. injection Ha as <-. eauto.
Qed.

(** * Expressions *)
Lemma eval_type_ok b r e A E : rep b r e A E -> forall x t, a_type E x = Some t -> In (base_name t) (map fst (ps_types A)) ->
  exists r' a, eval_type r e x = Ok (r', a) /\ grown b r r' /\ refers r' t a.
Proof.
  intros R x. induction x as [v|n|k x IH]; intros t Et Hb; simpl in Et.
  - destruct (assoc v E) as [n|] eqn:Ev; [|discriminate]. injection Et as <-. destruct (rep_var _ _ _ _ _ v n R Ev) as (a & H1 & H2).
    exists r, a. simpl. rewrite H1. simpl. split; [reflexivity|]. destruct (re_after _ _ _ _ _ R) as [h H]. split; [eapply grown_refl; eauto|constructor; exact H2].
  - injection Et as <-. simpl in Hb. destruct (rep_lookup _ _ _ _ _ n R Hb) as (a & H1 & _). exists r, a. simpl. rewrite H1. simpl. split; [reflexivity|].
    destruct (re_after _ _ _ _ _ R) as [h H]. split; [eapply grown_refl; eauto|constructor; exact H1].
  - assert (Hx : exists u, a_type E x = Some u /\ base_name u = base_name t /\ ((k = LIST /\ t = TListOf u) \/ (k = NON_NULL /\ t = TNonNull u))).
    { destruct k; try discriminate; destruct (a_type E x) as [u|]; try discriminate; injection Et as <-; exists u; auto 6. }
    destruct Hx as (u & Eu & Ebn & Hk). rewrite <- Ebn in Hb. destruct (IH u Eu Hb) as (r1 & a & H1 & G & Hr).
    assert (Hw : is_wrapper k) by (destruct Hk as [[-> _]|[-> _]]; [left|right]; reflexivity).
    destruct (gr_after _ _ _ G) as [h1 Ha1]. destruct (wrap_grown b h1 r1 k a Ha1 Hw (refers_known b h1 r1 u a Ha1 Hr)) as (G2 & o & Ho & Ko & Fo).
    simpl. rewrite H1. simpl. destruct (wrap_type r1 k a) as [r2 w]. simpl in *. exists r2, w. split; [reflexivity|]. split; [eapply grown_trans; eauto|].
    assert (Hr2 : refers r2 u a) by (eapply refers_keeps; [eapply grown_keeps; eauto|exact Hr]).
    destruct Hk as [[-> ->]|[-> ->]]; [apply (rf_list r2 u a w o)|apply (rf_nonnull r2 u a w o)]; auto.
Qed.
Lemma known_type_ok b r e A E x t : rep b r e A E -> a_known E A x = Some t -> exists r' a, eval_type r e x = Ok (r', a) /\ grown b r r' /\ refers r' t a.
Proof.
  intros R Ex. unfold a_known in Ex. destruct (a_type E x) as [t'|] eqn:Et; [|discriminate]. destruct (has_type A (base_name t')) eqn:Eh; [|discriminate].
  injection Ex as ->. apply (eval_type_ok b r e A E R x t Et). apply has_type_in. exact Eh.
Qed.
(** Lists of expressions. *)
Lemma each_ok {X Y Z} b e A E (f : registry -> X -> result (registry * Y)) (g : X -> option Z) (P : registry -> Y -> Z -> Prop) :
  (forall r r' y z, keeps r r' -> P r y z -> P r' y z) ->
  (forall r x z, rep b r e A E -> g x = Some z -> exists r' y, f r x = Ok (r', y) /\ grown b r r' /\ P r' y z) ->
  forall xs r zs, rep b r e A E -> omap_all g xs = Some zs -> exists r' ys, each f r xs = Ok (r', ys) /\ grown b r r' /\ Forall2 (P r') ys zs.
Proof.
  intros Hmono Hf xs. induction xs as [|x xs IH]; intros r zs R Ez; simpl in Ez.
  - injection Ez as <-. exists r, []. split; [reflexivity|]. destruct (re_after _ _ _ _ _ R) as [h H]. split; [eapply grown_refl; eauto|constructor].
  - destruct (g x) as [z|] eqn:Eg; [|discriminate]. destruct (omap_all g xs) as [zs'|] eqn:Eo; [|discriminate]. injection Ez as <-.
    destruct (Hf r x z R Eg) as (r1 & y & H1 & G1 & P1). destruct (IH r1 zs' (rep_grown _ _ _ _ _ _ R G1) eq_refl) as (r2 & ys & H2 & G2 & P2).
    exists r2, (y :: ys). simpl. rewrite H1. simpl. rewrite H2. simpl. split; [reflexivity|]. split; [eapply grown_trans; eauto|].
    constructor; [|exact P2]. eapply Hmono; [eapply grown_keeps; eauto|exact P1].
Qed.
Lemma eval_input_ok b e A E r x z : rep b r e A E -> a_input E A x = Some z -> exists r' y, eval_input e r x = Ok (r', y) /\ grown b r r' /\ input_rep r' y z.
Proof.
  intros R Ex. unfold a_input in Ex. destruct (a_known E A (ie_type x)) as [t|] eqn:Et; [|discriminate]. injection Ex as <-.
  destruct (known_type_ok b r e A E _ t R Et) as (r' & a & H1 & G & Hr). exists r', (mkInputObj (ie_name x) (ie_desc x) a (ie_default x)).
  unfold eval_input. rewrite H1. simpl. split; [reflexivity|]. split; [exact G|]. repeat split; exact Hr.
Qed.
Lemma eval_inputs_ok b e A E r xs zs : rep b r e A E -> omap_all (a_input E A) xs = Some zs ->
  exists r' ys, each (eval_input e) r xs = Ok (r', ys) /\ grown b r r' /\ Forall2 (input_rep r') ys zs.
Proof.
  apply (each_ok b e A E (eval_input e) (a_input E A) input_rep).
  - intros r0 r' y z K. apply input_keeps. exact K.
  - intros r0 x z R. apply (eval_input_ok b e A E r0 x z R).
Qed.
Lemma eval_fields_ok b e A E r xs zs : rep b r e A E -> omap_all (a_field E A) xs = Some zs ->
  exists r' ys, each (eval_field e) r xs = Ok (r', ys) /\ grown b r r' /\ Forall2 (field_rep r') ys zs.
Proof.
  apply (each_ok b e A E (eval_field e) (a_field E A) field_rep).
  - intros r0 r' y z K. apply field_keeps. exact K.
  - intros r0 x z R Ex. unfold a_field in Ex. destruct (a_known E A (fe_type x)) as [t|] eqn:Et; [|discriminate].
    destruct (omap_all (a_input E A) (fe_args x)) as [args|] eqn:Ea; [|discriminate]. injection Ex as <-.
    destruct (known_type_ok b r0 e A E _ t R Et) as (r1 & a & H1 & G1 & Hr).
    destruct (eval_inputs_ok b e A E r1 _ _ (rep_grown _ _ _ _ _ _ R G1) Ea) as (r2 & ys & H2 & G2 & P2).
    exists r2, (mkFieldObj (fe_name x) (fe_desc x) (fe_deprecated x) a ys). unfold eval_field. rewrite H1. simpl. rewrite H2. simpl.
    split; [reflexivity|]. split; [eapply grown_trans; eauto|]. repeat split; auto. simpl. eapply refers_keeps; [eapply grown_keeps; exact G2|exact Hr].
Qed.
Lemma eval_names_ok b e A E r xs zs : rep b r e A E -> omap_all (a_name E A) xs = Some zs ->
  exists r' ys, eval_types e r xs = Ok (r', ys) /\ grown b r r' /\ Forall2 (fun a n => refers r' (TNamed n) a) ys zs.
Proof.
  apply (each_ok b e A E (fun r x => eval_type r e x) (a_name E A) (fun r a n => refers r (TNamed n) a)).
  - intros r0 r' y z K. apply refers_keeps. exact K.
  - intros r0 x z R Ex. unfold a_name in Ex. destruct (a_known E A x) as [[n| |]|] eqn:Et; try discriminate. injection Ex as <-.
    apply (known_type_ok b r0 e A E x (TNamed n) R Et).
Qed.

(** * Statements *)
Lemma fold_quiet r c : match c with AddType _ _ | WrapType _ _ => False | _ => True end -> types (exec r c) = types r /\ type_map (exec r c) = type_map r.
Proof.
  destruct c; simpl; try tauto; auto. intros _.
  destruct (fold_interfaces_rest object interfaces (on r object (set_interfaces interfaces))) as (_ & _ & _ & _ & H1 & H2 & _). simpl in *. auto.
Qed.
Lemma assoc_in' {X} n (l : list (string * X)) x : assoc n l = Some x -> In (n, x) l.
Proof. induction l as [|[m y] l IH]; simpl; [discriminate|]. destruct (String.eqb_spec n m) as [->|]; [intros E; injection E as ->; auto|auto]. Qed.

(** A call that changes the members of types. [f] is what it does to the definition with each name. *)
Lemma rep_members b r e A E c (f : string -> type_def -> type_def) :
  rep b r e A E -> allowed r c ->
  match c with AddFields _ _ | AddInterfaces _ _ | AddPossibleTypes _ _ | AddEnumValues _ _ | AddInputValues _ _ => True | _ => False end ->
  (forall n a o d, lookup_type r n = Ok a -> object_at r a = Some o -> type_rep r n o d -> assoc n (ps_types A) = Some d ->
     type_rep (exec r c) n (effect c a o) (f n d)) ->
  rep b (exec r c) e (with_types A (map (fun x => (fst x, f (fst x) (snd x))) (ps_types A))) E.
Proof.
  intros R Ha Hc Hf.
  assert (Hq : types (exec r c) = types r /\ type_map (exec r c) = type_map r) by (apply fold_quiet; destruct c; simpl in *; tauto).
  destruct Hq as [Et Em]. assert (K := keeps_exec r c Et Em).
  assert (Hrest : query (exec r c) = query r /\ mutation (exec r c) = mutation r /\ subscription (exec r c) = subscription r /\ directives (exec r c) = directives r).
  { destruct c; simpl in Hc; try contradiction; simpl; auto.
    destruct (fold_interfaces_rest object interfaces (on r object (set_interfaces interfaces))) as (_ & H1 & H2 & H3 & _ & _ & H4 & _). simpl in *. auto. }
  destruct Hrest as (Eq & Emu & Es & Ed).
  assert (Hl : forall n a, In (n, a) (types r) -> lookup_type r n = Ok a).
  { intros n a Hin. destruct (rep_lookup b r e A E n R) as (a' & Ha' & Hin').
    - rewrite <- (types_names _ _ _ (re_types _ _ _ _ _ R)). apply in_map_iff. exists (n, a). auto.
    - assert (Hnd := re_distinct _ _ _ _ _ R). rewrite <- (types_names _ _ _ (re_types _ _ _ _ _ R)) in Hnd.
      assert (a = a'); [|congruence]. clear -Hnd Hin Hin'. induction (types r) as [|[m x] l IH]; simpl in *; [contradiction|].
      inversion Hnd as [|? ? Hx Hnd']; subst. destruct Hin as [E|Hin], Hin' as [E'|Hin']; try congruence; auto.
      + injection E as -> ->. exfalso. apply Hx. apply in_map_iff. exists (n, a'). auto.
      + injection E' as -> ->. exfalso. apply Hx. apply in_map_iff. exists (n, a). auto. }
  destruct R as [[h H] H2 H3 H4 H5 H6 H7 H8]. constructor; simpl; rewrite ?Et, ?Eq, ?Emu, ?Es, ?Ed; try (eapply root_keeps; eauto).
  - exists (h ++ [c]). constructor; auto.
  - assert (Hall : forall n a d o, In (n, a) (types r) -> In (n, d) (ps_types A) -> object_at r a = Some o -> type_rep r n o d -> type_rep (exec r c) n (effect c a o) (f n d)).
    { intros n a d o Hin Hd Ho Hr. apply (Hf n a o d); auto. clear -H3 Hd. induction (ps_types A) as [|[m x] l IH]; simpl in *; [contradiction|].
      inversion H3 as [|? ? Hx Hn]; subst. destruct Hd as [E|Hd]; [injection E as -> ->; rewrite String.eqb_refl; reflexivity|].
      destruct (String.eqb_spec n m) as [->|]; [|auto]. exfalso. apply Hx. apply in_map_iff. exists (m, d). auto. }
    clear -H2 Hall. revert H2 Hall. generalize (types r) (ps_types A). intros ts ds H. induction H as [|x y ts ds [E1 (o & Ho & Hr)] _ IH]; intros Hall; [constructor|].
    simpl. constructor.
    + simpl. split; [exact E1|]. exists (effect c (snd x) o). split; [apply exec_object; exact Ho|]. rewrite <- E1. apply Hall; auto.
      * left. destruct x. reflexivity.
      * left. destruct x, y. simpl in *. congruence.
    + apply IH. intros n a d o0 Hin Hd. apply Hall; right; auto.
  - rewrite map_map. simpl. exact H3.
  - eapply forall2_imp; [|exact H4]. intros x y (E1 & Hy). split; [exact E1|]. apply (proj2 K). exact Hy.
  - eapply forall2_imp; [|exact H8]. intros x y. apply directive_keeps. exact K.
Qed.

(** Members of one type. *)
Lemma change_map n f ts : change n f ts = map (fun x => (fst x, (if String.eqb n (fst x) then f (snd x) else snd x))) ts.
Proof. unfold change. apply map_ext. intros [m d]. simpl. destruct (String.eqb n m); reflexivity. Qed.
Lemma same_address b r e A E n m a o o' d d' : rep b r e A E -> lookup_type r n = Ok a -> lookup_type r m = Ok a ->
  object_at r a = Some o -> type_rep r n o d -> object_at r a = Some o' -> type_rep r m o' d' -> n = m.
Proof. intros _ _ _ H1 H2 H3 H4. destruct H2 as [H2 _], H4 as [H4 _]. congruence. Qed.

Lemma rep_one b r e A E c n a (g : type_def -> type_def) :
  rep b r e A E -> allowed r c -> lookup_type r n = Ok a ->
  match c with AddFields _ _ | AddPossibleTypes _ _ | AddEnumValues _ _ | AddInputValues _ _ => True | _ => False end ->
  (forall t o, t <> a -> effect c t o = o) ->
  (forall o d, type_rep (exec r c) n o d -> type_rep (exec r c) n (effect c a o) (g d)) ->
  rep b (exec r c) e (with_types A (change n g (ps_types A))) E.
Proof.
  intros R Ha Hl Hc Hother Hthis. rewrite change_map. apply (rep_members b r e A E c (fun m d => if String.eqb n m then g d else d) R Ha).
  - destruct c; auto.
  - intros m a' o d Hm Ho Hr _.
    assert (K : keeps r (exec r c)). { destruct (fold_quiet r c) as [E1 E2]; [destruct c; simpl in *; tauto|]. apply keeps_exec; assumption. }
    destruct (String.eqb_spec n m) as [<-|Hne].
    + assert (a' = a) by congruence. subst a'. apply Hthis. eapply type_keeps; eauto.
    + rewrite Hother; [eapply type_keeps; eauto|]. intros ->. apply Hne.
      destruct (rep_at b r e A E n a R Hl) as (d0 & o0 & _ & Ho0 & Hr0). destruct Hr0 as [Hr0 _], Hr as [Hr _]. congruence.
Qed.

Lemma on_kind_some E A ks v f A' : on_kind E A ks v f = Some A' -> exists n, assoc v E = Some n /\ has_kind A ks n = true /\ f n = Some A'.
Proof. unfold on_kind. destruct (assoc v E) as [n|]; [|discriminate]. destruct (has_kind A ks n) eqn:Eh; [|discriminate]. eauto. Qed.

Lemma kind_one r a ks k : (exists k0, In k0 ks /\ kind_at r a k0) -> ks = [k] -> kind_at r a k.
Proof. intros (k0 & Hin & Hk) ->. destruct Hin as [<-|[]]. exact Hk. Qed.
Lemma neq_eqb a t : t <> a -> Nat.eqb a t = false.
Proof. intros H. apply Nat.eqb_neq. congruence. Qed.

Lemma declare_ok b r e A E k n d A' : rep b r e A E -> declare A k n d = Some A' ->
  let a := length (heap r) in
  let r' := exec (exec r (Make k n d)) (AddType n a) in
  rep b r' e A' E /\ lookup_type r' n = Ok a.
Proof.
  intros R Ed a r'. unfold declare in Ed. destruct (negb (has_type A n) && plain_kind k) eqn:Ec; [|discriminate]. injection Ed as <-.
  apply andb_true_iff in Ec as [Hn Hk]. apply negb_true_iff in Hn.
  assert (Hnew : ~ In n (map fst (ps_types A))) by (rewrite <- has_type_in; congruence).
  assert (Hw : ~ is_wrapper k) by (intros [-> | ->]; discriminate).
  destruct (re_after _ _ _ _ _ R) as [h H].
  assert (H1 : after b (h ++ [Make k n d]) (exec r (Make k n d))) by (constructor; auto).
  assert (Hobj : object_at (exec r (Make k n d)) a = Some (fresh_type k n d None)).
  { unfold object_at. simpl. rewrite nth_error_app2, Nat.sub_diag by (unfold a; lia). reflexivity. }
  assert (H2 : after b ((h ++ [Make k n d]) ++ [AddType n a]) r').
  { constructor; [exact H1|]. simpl. exists (fresh_type k n d None). split; [exact Hobj|exact Hw]. }
  assert (Htypes : types r' = types r ++ [(n, a)]) by reflexivity.
  assert (Hl : lookup_type r' n = Ok a).
  { apply (C30_lookup b _ r' n a H2). rewrite <- (C30_types _ _ _ H2), Htypes. exists (types r), []. split; [reflexivity|simpl; tauto]. }
  assert (Hk' : keeps r r').
  { split.
    - intros t o Ho. exists o. split; [|repeat split]. unfold object_at in *. simpl. rewrite nth_error_app1; [exact Ho|]. apply nth_error_Some. congruence.
    - intros m t Hm. apply (C30_lookup b _ r m t H) in Hm as (l1 & l2 & El & Hn2). apply (C30_lookup b _ r' m t H2).
      rewrite <- (C30_types _ _ _ H2), Htypes. rewrite (C30_types _ _ _ H), El. exists l1, (l2 ++ [(n, a)]). split; [rewrite <- app_assoc; reflexivity|].
      rewrite map_app, in_app_iff. simpl. intros [Hi|[Hi|[]]]; [tauto|]. subst m. apply Hnew.
      rewrite <- (types_names _ _ _ (re_types _ _ _ _ _ R)), (C30_types _ _ _ H), El, map_app. apply in_or_app. simpl. auto. }
  assert (Hobj' : object_at r' a = Some (fresh_type k n d None)) by exact Hobj.
  assert (Hsame : forall t o, object_at r t = Some o -> object_at r' t = Some o).
  { intros t o Ho. unfold object_at in *. simpl. rewrite nth_error_app1; [exact Ho|]. apply nth_error_Some. congruence. }
  assert (Hrest : query r' = query r /\ mutation r' = mutation r /\ subscription r' = subscription r /\ directives r' = directives r) by (repeat split).
  destruct Hrest as (Q1 & Q2 & Q3 & Q4).
  split; [|exact Hl]. clearbody r'. destruct R as [_ R2 R3 R4 R5 R6 R7 R8]. constructor; simpl; rewrite ?Q1, ?Q2, ?Q3, ?Q4; try (eapply root_keeps; eauto).
  - eauto.
  - rewrite Htypes. unfold types_rep. apply Forall2_app.
    + eapply forall2_imp; [|exact R2]. intros x y (E1 & o & Ho & Hr). split; [exact E1|]. exists o. split; [auto|eapply type_keeps; eauto].
    + constructor; [|constructor]. simpl. split; [reflexivity|]. exists (fresh_type k n d None). split; [exact Hobj'|]. repeat split; constructor.
  - rewrite map_app. simpl. apply (Permutation.Permutation_NoDup (Permutation.Permutation_cons_append (map fst (ps_types A)) n)). constructor; auto.
  - eapply forall2_imp; [|exact R4]. intros x y (E1 & Hy). split; [exact E1|]. apply (proj2 Hk'). exact Hy.
  - eapply forall2_imp; [|exact R8]. intros x y. apply directive_keeps. exact Hk'.
Qed.

Lemma named_lookup r n a : refers r (TNamed n) a -> lookup_type r n = Ok a.
Proof. intros H. inversion H. assumption. Qed.

Lemma a_stmt_ok enums b r e A E s A' : rep b r e A E -> a_stmt enums E A s = Some A' ->
  exists r', run_stmt enums (r, e) s = Ok (r', e) /\ rep b r' e A' E.
Proof.
  intros R Es. destruct s as [n n' d|k v n d|n v|v xs|v xs|v xs|v xs|v xs|n d locs xs|op v]; cbn [a_stmt] in Es; try discriminate.
  - destruct (String.eqb_spec n n') as [<-|]; [|discriminate]. destruct (declare_ok b r e A E SCALAR n d A' R Es) as [H _]. simpl in H. eexists. split; [reflexivity|exact H].
  - apply on_kind_some in Es as (n & Ev & Hk & Ef). destruct (mapM (eval_enum enums) xs) as [vs| |] eqn:Em; try discriminate. injection Ef as <-.
    destruct (rep_var _ _ _ _ _ v n R Ev) as (a & H1 & H2). exists (exec r (AddEnumValues a vs)). split; [cbn [run_stmt]; rewrite H1; simpl; rewrite Em; reflexivity|].
    apply (rep_one b r e A E (AddEnumValues a vs) n a (d_enums vs) R); auto.
    + simpl. eapply kind_one; [eapply rep_kind; eauto|reflexivity].
    + intros t o Ht. simpl. rewrite neq_eqb; auto.
    + intros o dd Hr. simpl. rewrite Nat.eqb_refl. destruct Hr as (r1 & r2 & r3 & r4 & r5 & r6 & r7 & r8). repeat split; auto.
  - apply on_kind_some in Es as (n & Ev & Hk & Ef). destruct (omap_all (a_input E A) xs) as [is|] eqn:Em; [|discriminate]. injection Ef as <-.
    destruct (rep_var _ _ _ _ _ v n R Ev) as (a & H1 & H2). destruct (eval_inputs_ok b e A E r xs is R Em) as (r1 & ys & H3 & G & P).
    exists (exec r1 (AddInputValues a ys)). split; [cbn [run_stmt]; rewrite H1; simpl; rewrite H3; reflexivity|].
    assert (R1 := rep_grown _ _ _ _ _ _ R G). rewrite <- (grown_lookup b r r1 n G) in H2.
    apply (rep_one b r1 e A E (AddInputValues a ys) n a (d_inputs is) R1); auto.
    + simpl. eapply kind_one; [eapply rep_kind; eauto|reflexivity].
    + intros t o Ht. simpl. rewrite neq_eqb; auto.
    + intros o dd Hr. cbn [effect]. rewrite Nat.eqb_refl. destruct Hr as (q1 & q2 & q3 & q4 & q5 & q6 & q7 & q8).
      assert (K : keeps r1 (exec r1 (AddInputValues a ys))) by (apply keeps_exec; reflexivity). repeat split; auto. simpl.
      eapply forall2_imp; [|exact P]. intros x y. apply input_keeps. exact K.
  - apply on_kind_some in Es as (n & Ev & Hk & Ef). destruct (omap_all (a_name E A) xs) as [is|] eqn:Em; [|discriminate]. injection Ef as <-.
    destruct (rep_var _ _ _ _ _ v n R Ev) as (a & H1 & H2). destruct (eval_names_ok b e A E r xs is R Em) as (r1 & ys & H3 & G & P).
    exists (exec r1 (AddPossibleTypes a ys)). split; [cbn [run_stmt]; rewrite H1; simpl; rewrite H3; reflexivity|].
    assert (R1 := rep_grown _ _ _ _ _ _ R G). rewrite <- (grown_lookup b r r1 n G) in H2.
    apply (rep_one b r1 e A E (AddPossibleTypes a ys) n a (d_possible is) R1); auto.
    + simpl. eapply kind_one; [eapply rep_kind; eauto|reflexivity].
    + intros t o Ht. simpl. rewrite neq_eqb; auto.
    + intros o dd Hr. cbn [effect]. rewrite Nat.eqb_refl. destruct Hr as (q1 & q2 & q3 & q4 & q5 & q6 & q7 & q8).
      assert (K : keeps r1 (exec r1 (AddPossibleTypes a ys))) by (apply keeps_exec; reflexivity). repeat split; auto. simpl.
      eapply forall2_imp; [|exact P]. intros x y. apply refers_keeps. exact K.
  - apply on_kind_some in Es as (n & Ev & Hk & Ef). destruct (omap_all (a_name E A) xs) as [is|] eqn:Em; [|discriminate].
    destruct (forallb (has_kind A [INTERFACE]) is) eqn:Ek; [|discriminate]. injection Ef as <-.
    destruct (rep_var _ _ _ _ _ v n R Ev) as (a & H1 & H2). destruct (eval_names_ok b e A E r xs is R Em) as (r1 & ys & H3 & G & P).
    exists (exec r1 (AddInterfaces a ys)). split; [cbn [run_stmt]; rewrite H1; simpl; rewrite H3; reflexivity|].
    assert (R1 := rep_grown _ _ _ _ _ _ R G). rewrite <- (grown_lookup b r r1 n G) in H2.
    unfold implement. rewrite change_map, map_map. cbn [fst snd].
    apply (rep_members b r1 e A E (AddInterfaces a ys)
             (fun m d => d_possible (td_possible (if String.eqb n m then d_interfaces is d else d) ++ repeat n (times m is)) (if String.eqb n m then d_interfaces is d else d)) R1); [|exact I|].
    + split; [eapply kind_one; [eapply rep_kind; eauto|reflexivity]|]. intros i Hi. rewrite forallb_forall in Ek.
      assert (Hx : exists m, In m is /\ refers r1 (TNamed m) i). { clear -P Hi. induction P as [|x y ys is H P IH]; [contradiction|]. destruct Hi as [->|Hi]; [exists y; simpl; auto|].
        destruct (IH Hi) as (m & Hm & Hr). exists m. simpl. auto. }
      destruct Hx as (m & Hm & Hr). eapply kind_one; [eapply (rep_kind b r1 e A E [INTERFACE] m i R1 (named_lookup _ _ _ Hr)); auto|reflexivity].
    + intros m t o d Hm Ho Hr Has.
      assert (K : keeps r1 (exec r1 (AddInterfaces a ys))). { destruct (fold_quiet r1 (AddInterfaces a ys) I) as [E1 E2]. apply keeps_exec; assumption. }
      assert (Eqb : Nat.eqb a t = String.eqb n m).
      { destruct (rep_at b r1 e A E n a R1 H2) as (d0 & o0 & _ & Ho0 & Hr0). destruct Hr0 as [Hr0 _], Hr as [Hr _].
        destruct (Nat.eqb_spec a t) as [->|Hne]; destruct (String.eqb_spec n m) as [->|Hnm]; auto; exfalso; [apply Hnm; congruence|apply Hne; congruence]. }
      assert (Et : length (filter (Nat.eqb t) ys) = times m is).
      { unfold times. assert (Hx : forall x i, refers r1 (TNamed i) x -> Nat.eqb t x = String.eqb m i).
        { intros x i Hi. apply named_lookup in Hi. destruct (rep_at b r1 e A E i x R1 Hi) as (d0 & o0 & _ & Ho0 & Hr0). destruct Hr0 as [Hr0 _], Hr as [Hr _].
          destruct (Nat.eqb_spec t x) as [->|Hne]; destruct (String.eqb_spec m i) as [->|Hnm]; auto; exfalso; [apply Hnm; congruence|apply Hne; congruence]. }
        clear -P Hx. induction P as [|x y ys is H P IH]; [reflexivity|]. simpl. rewrite (Hx x y H). destruct (String.eqb m y); simpl; rewrite IH; reflexivity. }
      cbn [effect]. rewrite Eqb, Et.
      assert (Hra : forall k, Forall2 (fun x y => refers (exec r1 (AddInterfaces a ys)) (TNamed y) x) (repeat a k) (repeat n k)).
      { induction k as [|k IH]; constructor; auto. constructor. apply (proj2 K). exact H2. }
      assert (Hr' := type_keeps _ _ _ _ _ K Hr). destruct Hr' as (q1 & q2 & q3 & q4 & q5 & q6 & q7 & q8).
      assert (Hys : Forall2 (fun x y => refers (exec r1 (AddInterfaces a ys)) (TNamed y) x) ys is).
      { eapply forall2_imp; [|exact P]. intros x y. apply refers_keeps. exact K. }
      destruct (String.eqb n m); repeat split; auto; cbn [to_possible td_possible set_interfaces d_interfaces set_possible d_possible]; apply Forall2_app; auto.
  - apply on_kind_some in Es as (n & Ev & Hk & Ef). destruct (omap_all (a_field E A) xs) as [is|] eqn:Em; [|discriminate]. injection Ef as <-.
    destruct (rep_var _ _ _ _ _ v n R Ev) as (a & H1 & H2). destruct (eval_fields_ok b e A E r xs is R Em) as (r1 & ys & H3 & G & P).
    exists (exec r1 (AddFields a ys)). split; [cbn [run_stmt]; rewrite H1; simpl; rewrite H3; reflexivity|].
    assert (R1 := rep_grown _ _ _ _ _ _ R G). rewrite <- (grown_lookup b r r1 n G) in H2.
    apply (rep_one b r1 e A E (AddFields a ys) n a (d_fields is) R1); auto.
    + simpl. destruct (rep_kind b r1 e A E _ n a R1 H2 Hk) as (k & [<-|[<-|[]]] & Hk'); auto.
    + intros t o Ht. simpl. rewrite neq_eqb; auto.
    + intros o dd Hr. cbn [effect]. rewrite Nat.eqb_refl. destruct Hr as (q1 & q2 & q3 & q4 & q5 & q6 & q7 & q8).
      assert (K : keeps r1 (exec r1 (AddFields a ys))) by (apply keeps_exec; reflexivity). repeat split; auto. simpl.
      eapply forall2_imp; [|exact P]. intros x y. apply field_keeps. exact K.
  - destruct (omap_all (a_input E A) xs) as [is|] eqn:Em; [|discriminate]. injection Es as <-.
    destruct (eval_inputs_ok b e A E r xs is R Em) as (r1 & ys & H3 & G & P).
    exists (exec r1 (AddDirective (mkDirObj n d locs ys))). split; [cbn [run_stmt]; rewrite H3; reflexivity|].
    assert (K : keeps r1 (exec r1 (AddDirective (mkDirObj n d locs ys)))) by (apply keeps_exec; reflexivity).
    destruct (rep_grown _ _ _ _ _ _ R G) as [[h Ha] R2 R3 R4 R5 R6 R7 R8]. constructor; auto; try exact (root_keeps _ _ _ _ K R5); try exact (root_keeps _ _ _ _ K R6); try exact (root_keeps _ _ _ _ K R7).
    + exists (h ++ [AddDirective (mkDirObj n d locs ys)]). constructor; [exact Ha|exact I].
    + eapply forall2_imp; [|exact R2]. intros x y (E1 & o & Ho & Hr). split; [exact E1|]. exists o. split; [exact Ho|eapply type_keeps; eauto].
    + simpl. apply Forall2_app; [eapply forall2_imp; [|exact R8]; intros x y; apply directive_keeps; exact K|].
      constructor; [|constructor]. repeat split. simpl. eapply forall2_imp; [|exact P]. intros x y. apply input_keeps. exact K.
  - apply on_kind_some in Es as (n & Ev & Hk & Ef). injection Ef as <-. destruct (rep_var _ _ _ _ _ v n R Ev) as (a & H1 & H2).
    set (c := match op with OpQuery => AddQueryType a | OpMutation => AddMutationType a | OpSubscription => AddSubscriptionType a end).
    assert (Hko : kind_at r a OBJECT) by (eapply kind_one; [eapply rep_kind; eauto|reflexivity]).
    assert (K : keeps r (exec r c)) by (apply keeps_exec; destruct op; reflexivity).
    exists (exec r c). split; [cbn [run_stmt]; rewrite H1; reflexivity|].
    destruct R as [[h Ha] R2 R3 R4 R5 R6 R7 R8].
    assert (T2 : types_rep (exec r c) (types r) (ps_types A)).
    { eapply forall2_imp; [|exact R2]. intros x y (E1 & o & Ho & Hr). split; [exact E1|]. exists o. split; [destruct op; exact Ho|eapply type_keeps; eauto]. }
    assert (T4 : Forall2 (fun x y => fst x = fst y /\ lookup_type (exec r c) (snd y) = Ok (snd x)) e E) by (destruct op; exact R4).
    assert (T8 : Forall2 (directive_rep (exec r c)) (directives r) (ps_directives A)) by (eapply forall2_imp; [|exact R8]; intros x y; apply directive_keeps; exact K).
    assert (T5 := root_keeps _ _ _ _ K R5). assert (T6 := root_keeps _ _ _ _ K R6). assert (T7 := root_keeps _ _ _ _ K R7).
    assert (Tn : refers (exec r c) (TNamed n) a) by (constructor; apply (proj2 K); exact H2).
    assert (Ta : exists h', after b h' (exec r c)) by (exists (h ++ [c]); constructor; [exact Ha|destruct op; exact Hko]).
    destruct op; constructor; auto.
Qed.

Lemma a_stmts_ok enums b : forall l r e A E A' E', rep b r e A E -> a_stmts enums A E l = Some (A', E') ->
  exists r' e', run_stmts enums (r, e) l = Ok (r', e') /\ rep b r' e' A' E'.
Proof.
  intros l. remember (length l) as n eqn:En. assert (Hn : length l <= n) by lia. clear En. revert l Hn.
  induction n as [|n IH]; intros l Hn r e A E A' E' R Es.
  - destruct l; [|simpl in Hn; lia]. injection Es as <- <-. exists r, e. auto.
  - destruct l as [|s l]; [injection Es as <- <-; exists r, e; auto|]. simpl in Hn.
    assert (Hone : forall A1, a_stmt enums E A s = Some A1 -> a_stmts enums A1 E l = Some (A', E') ->
              exists r' e', run_stmts enums (r, e) (s :: l) = Ok (r', e') /\ rep b r' e' A' E').
    { intros A1 E1 E2. destruct (a_stmt_ok enums b r e A E s A1 R E1) as (r1 & H1 & R1).
      destruct (IH l ltac:(lia) r1 e A1 E A' E' R1 E2) as (r2 & e2 & H2 & R2). exists r2, e2. split; [|exact R2]. cbn [run_stmts]. rewrite H1. exact H2. }
    assert (Hmake : forall k v m d rest A1, s = SMake k v m d -> l = SAddType m v :: rest -> declare A k m d = Some A1 ->
              a_stmts enums A1 ((v, m) :: E) rest = Some (A', E') -> exists r' e', run_stmts enums (r, e) (s :: l) = Ok (r', e') /\ rep b r' e' A' E').
    { intros k v m d rest A1 -> -> Ed Er. simpl in Hn. destruct (declare_ok b r e A E k m d A1 R Ed) as [R1 Hl]. cbv zeta in R1, Hl.
      set (a := length (heap r)) in *. set (r1 := exec (exec r (Make k m d)) (AddType m a)) in *.
      assert (R1' : rep b r1 ((v, a) :: e) A1 ((v, m) :: E)).
      { destruct R1 as [T1 T2 T3 T4 T5 T6 T7 T8]. constructor; auto. }
      destruct (IH rest ltac:(lia) r1 _ A1 _ A' E' R1' Er) as (r2 & e2 & H2 & R2). exists r2, e2. split; [|exact R2].
      simpl. unfold eval_var. simpl. rewrite String.eqb_refl. simpl. exact H2. }
    destruct s; cbn [a_stmts] in Es;
      try (destruct (a_stmt enums E A _) as [A1|] eqn:E1 in Es; [apply (Hone A1 E1 Es)|discriminate]).
    destruct l as [|[] rest]; try discriminate.
    destruct (String.eqb_spec name name0) as [<-|]; [|discriminate]. destruct (String.eqb_spec v v0) as [<-|]; [|discriminate]. cbn [andb] in Es.
    destruct (declare A kind name desc) as [A1|] eqn:Ed; [|discriminate]. apply (Hmake kind v name desc rest A1 eq_refl eq_refl Ed Es).
Qed.

Lemma rep_new b : rep b (new_schema b) [] no_types [].
Proof. constructor; simpl; try constructor. exists []. constructor. Qed.
Lemma add_types_ok b p r A A' E' : rep b r [] A [] -> a_stmts (p_enums p) A [] (p_body p) = Some (A', E') -> exists r', add_types p r = Ok r' /\ rep b r' [] A' [].
Proof.
  intros R Es. destruct (a_stmts_ok _ b _ r [] A [] A' E' R Es) as (r' & e' & H & R'). exists r'. unfold add_types. rewrite H. simpl. split; [reflexivity|].
  destruct R'. constructor; auto.
Qed.
Definition complete_schema (b : bool) (A : pschema) (q : string) : schema :=
  mkSchema (ps_types A) q (ps_mutation A) (ps_subscription A) (ps_directives A) (negb b).
Lemma rep_represents b r e A E q : rep b r e A E -> ps_query A = Some q -> represents r (complete_schema b A q).
Proof.
  intros [[h H] R2 R3 _ R5 R6 R7 R8] Eq. constructor; simpl; auto.
  - rewrite (types_names _ _ _ R2). exact R3.
  - rewrite <- Eq. exact R5.
  - destruct (C30_roots b h r H) as (_ & _ & _ & _ & E1). exact E1.
Qed.
