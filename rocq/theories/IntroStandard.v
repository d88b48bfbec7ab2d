(** The standard introspection query on the schema's description. *)
From Verif Require Import Cpp Value Ast ErrorModel SchemaModel RegistryModel RegistrySpec ExecModel ExecSem ExecSpec ExecProofs4 ExecBigSpec ExecBigProps IntroModel IntroSpec.
From Coq Require Import Lia.
Local Open Scope string_scope.
Local Open Scope list_scope.

Lemma executes_mono : forall O (typenames : O -> list string) has_field ans vars e n m sels o p v errs, n <= m ->
  executes typenames has_field ans vars e n sels o p v errs -> executes typenames has_field ans vars e m sels o p v errs.
Proof.
  intros O typenames has_field ans vars e n. induction n as [|n IH]; intros m sels o p v errs L H; [destruct H|].
  destruct m as [|m]; [lia|]. destruct H as (items & outs & C & F & H). exists items, outs. split; auto. split; auto.
  clear C H. induction F as [|kc ve l outs Hf F IHF]; constructor; auto.
  inversion Hf as [Hu|ex Hu Hx|f v' errs' Hu Hx Hsh Hcm]; subst.
  - now apply fv_unknown.
  - eapply fv_throws; eauto.
  - eapply fv_result; eauto. eapply completed_mono; [|exact Hcm]. intros; apply IH; auto. lia.
Qed.

Section Standard.
  Variables (vars : entries) (e : env) (Sc : schema).
  Notation run := (executes d_types (d_has Sc) (d_ans Sc) vars e).

  Definition gives (sels : list selection) (s : sobj) (v : value) : Prop := exists n, forall p, run n sels s p v [].

  Inductive shown_value : option (list selection) -> shown -> value -> Prop :=
  | sv_null sub : shown_value sub Null VNull
  | sv_leaf v : shown_value None (Leaf v) v
  | sv_leaves vs : shown_value None (Leaves vs) (VList vs)
  | sv_one sub o v : gives sub o v -> shown_value (Some sub) (One o) v
  | sv_many sub os vs : Forall2 (gives sub) os vs -> shown_value (Some sub) (Many os) (VList vs).

  Inductive plain_field (s : sobj) : selection -> string * value -> Prop :=
  | pf loc name args avs sub x v : args_value vars args avs -> shows Sc s name avs = Some x -> shown_value (option_map snd sub) x v ->
      plain_field s (SField loc None name args [] sub) (name, v).

  Lemma shows_has : forall s f avs x, shows Sc s f avs = Some x -> d_has Sc s f = true.
  Proof.
    assert (G : forall A (f : string) (l l' : list (string * A)), map fst l = map fst l' -> is_some (assoc f l) = is_some (assoc f l')).
    { intros A f l. induction l as [|[k v] l IH]; intros [|[k' v'] l'] E; try discriminate; auto. simpl in E. injection E as -> E.
      simpl. destruct (String.eqb f k'); auto. }
    intros s f avs x H. unfold d_has. assert (E : is_some (shows Sc s f avs) = true) by now rewrite H. rewrite <- E.
    destruct s; unfold shows; apply G; reflexivity.
  Qed.

  Lemma items_ok : forall obj key loc (l : list (fres sobj)) vs p, Forall2 (fun f v => forall p, completed obj key loc f p v []) l vs ->
    completed obj key loc (FList (Ok l)) p (VList vs) [].
  Proof.
    intros obj key loc l vs p F.
    assert (G : forall i, completed_items obj key loc l p i (map (fun v => (v, [])) vs)).
    { induction F; intros i; simpl; constructor; auto. }
    pose proof (cp_list obj key loc l p _ (G 0%N)) as C. rewrite map_map in C. simpl in C. rewrite map_id in C.
    replace (flat_map snd (map (fun v : value => (v, @nil schema_error)) vs)) with (@nil schema_error) in C; [exact C|].
    clear. induction vs; simpl; auto.
  Qed.

  Lemma shape_objects : forall os, shape_ok true (FList (Ok (map (fun o : sobj => FDerived (Ok (Some o))) os))).
  Proof. intros os. simpl. induction os; simpl; auto. Qed.
  Lemma shape_leaves : forall vs, @shape_ok sobj false (FList (Ok (map (fun v => FLeaf true false (Ok v)) vs))).
  Proof. intros os. simpl. induction os; simpl; auto. Qed.

  Lemma gives_max : forall sub os vs, Forall2 (gives sub) os vs -> exists n, Forall2 (fun o v => forall p, run n sub o p v []) os vs.
  Proof.
    intros sub os vs F. induction F as [|o v os vs [n H] F [m IH]]; [exists 0; constructor|].
    exists (max n m). constructor.
    - intros p. eapply executes_mono; [|apply H]. lia.
    - clear -IH. induction IH; constructor; auto. intros p. eapply executes_mono; [|apply H]. lia.
  Qed.

  Lemma shown_ok : forall sub x v, shown_value (option_map (@snd schema_location _) sub) x v -> exists n f, answer_of x = AResult f /\
    shape_ok (match sub with Some _ => true | None => false end) f /\
    forall m key loc p, n <= m -> completed (run m (match sub with Some (_, l) => l | None => [] end)) key loc f p v [].
  Proof.
    intros sub x v H. inversion H as [sub'|v'|vs|sub' o v' [n G] E|sub' os vs F E]; subst.
    - exists 0. eexists. split; [reflexivity|]. split; [simpl; auto|]. intros. constructor.
    - destruct sub; [discriminate|]. exists 0. eexists. split; [reflexivity|]. split; [simpl; discriminate|]. intros. constructor.
    - destruct sub; [discriminate|]. exists 0. eexists. split; [reflexivity|]. split; [apply shape_leaves|].
      intros. apply items_ok. clear. induction vs; simpl; constructor; auto. intros. constructor.
    - destruct sub as [[l sub]|]; [|discriminate]. simpl in E. injection E as ->.
      exists n. eexists. split; [reflexivity|]. split; [reflexivity|]. intros. constructor. eapply executes_mono; [|apply G]. auto.
    - destruct sub as [[l sub]|]; [|discriminate]. simpl in E. injection E as ->. destruct (gives_max _ _ _ F) as [n G].
      exists n. eexists. split; [reflexivity|]. split; [apply shape_objects|]. intros. apply items_ok. clear -G H0.
      induction G; simpl; constructor; auto. intros. constructor. eapply executes_mono; [|apply H]. auto.
  Qed.

  Lemma firsts_distinct : forall A (l : list (string * A)), NoDup (map fst l) -> firsts l = l.
  Proof.
    intros A l. induction l as [|[k v] l IH]; simpl; auto. intros ND. inversion ND as [|? ? N ND']; subst. rewrite IH by auto. f_equal.
    clear -N. induction l as [|[k' v'] l IH]; simpl in *; auto. destruct (String.eqb_spec k' k) as [->|]; simpl; [tauto|]. f_equal. auto.
  Qed.

  Lemma fields_mono : forall n m s p cs outs, n <= m ->
    Forall2 (fun kc ve => field_value (d_has Sc) (d_ans Sc) e (run n) s p (fst kc) (snd kc) (fst ve) (snd ve)) cs outs ->
    Forall2 (fun kc ve => field_value (d_has Sc) (d_ans Sc) e (run m) s p (fst kc) (snd kc) (fst ve) (snd ve)) cs outs.
  Proof.
    intros n m s p cs outs L V. induction V as [|kc ve l outs Hf F IHF]; constructor; auto.
    inversion Hf as [Hu|ex Hu Hx|f v' errs' Hu Hx Hsh Hcm]; subst.
    - now apply fv_unknown.
    - eapply fv_throws; eauto.
    - eapply fv_result; eauto. eapply completed_mono; [|exact Hcm]. intros o q w errs Hq. eapply executes_mono; [|exact Hq]. lia.
  Qed.

  Lemma plain_gives : forall s sels kvs, Forall2 (plain_field s) sels kvs -> NoDup (map fst kvs) -> gives sels s (VMap kvs).
  Proof.
    intros s sels kvs F ND.
    assert (G : exists n cs, collects vars (e_frags e) (d_types s) (d_has Sc s) no_fdirs sels (map (fun kc => (fst kc, Some (snd kc))) cs) /\
              map fst cs = map fst kvs /\
              forall p, Forall2 (fun kc ve => field_value (d_has Sc) (d_ans Sc) e (run n) s p (fst kc) (snd kc) (fst ve) (snd ve)) cs (map (fun kv => (snd kv, [])) kvs)).
    { clear ND. induction F as [|sel kv sels kvs H F (n & cs & C & K & V)].
      - exists 0, []. split; [constructor|]. split; [reflexivity|]. constructor.
      - inversion H as [loc name args avs sub x v Ha Hs Hv]; subst. destruct (shown_ok _ _ _ Hv) as (m & f & A & Sh & Cm).
        exists (max n m), ((name, mkChosen loc name avs [] sub no_fdirs) :: cs). split; [|split].
        + simpl. change name with (response_key None name) at 2. eapply co_field; eauto. apply decided_none.
        + simpl. now f_equal.
        + intros p. constructor.
          * simpl. eapply fv_result.
            -- exact (shows_has _ _ _ _ Hs).
            -- unfold d_ans, called_with. cbn [p_args ch_args ch_name]. rewrite Hs. exact A.
            -- exact Sh.
            -- apply Cm. lia.
          * apply (fields_mono n); [lia|apply V]. }
    destruct G as (n & cs & C & K & V). exists (S n). intros p. exists (map (fun kc => (fst kc, Some (snd kc))) cs), (map (fun kv => (snd kv, [])) kvs).
    assert (E : first_chosen (map (fun kc => (fst kc, Some (snd kc))) cs) = cs).
    { unfold first_chosen. rewrite firsts_distinct.
      - clear. induction cs as [|[k c] cs IH]; simpl; auto. now f_equal.
      - rewrite map_map. simpl. rewrite <- K in ND. exact ND. }
    split; [exact C|]. rewrite E. split; [apply V|]. split.
    - f_equal. rewrite K, map_map. simpl. clear. induction kvs as [|[k v] l IH]; simpl; auto. now f_equal.
    - clear. induction kvs; simpl; auto.
  Qed.

  Variables (l : schema_location) (n : nat).
  Hypothesis Hnd : NoDup (map fst (s_types Sc)).

  Lemma no_args : args_value vars [] [].
  Proof. exists []. split; [constructor|reflexivity]. Qed.
  Lemma dep_args : args_value vars [(l, ("includeDeprecated", LBool l true))] [("includeDeprecated", VBool true)].
  Proof. exists [("includeDeprecated", VBool true)]. split; [|reflexivity]. constructor; [|constructor]. split; [reflexivity|]. constructor. Qed.

  Lemma leaf_field : forall s f x v, shows Sc s f [] = Some x -> shown_value None x v -> plain_field s (leaf_sel l f) (f, v).
  Proof. intros s f x v H V. eapply pf; [apply no_args|exact H|exact V]. Qed.
  Lemma object_field : forall s f sub x v, shows Sc s f [] = Some x -> shown_value (Some sub) x v -> plain_field s (object_sel l f sub) (f, v).
  Proof. intros s f sub x v H V. eapply pf; [apply no_args|exact H|exact V]. Qed.
  Lemma deprecated_field : forall s f sub x v, shows Sc s f [("includeDeprecated", VBool true)] = Some x -> shown_value (Some sub) x v ->
    plain_field s (deprecated_sel l f sub) (f, v).
  Proof. intros s f sub x v H V. eapply pf; [apply dep_args|exact H|exact V]. Qed.

  Lemma text_value : forall s, shown_value None (text s) (str s).
  Proof. intros. constructor. Qed.
  Lemma text_or_null_value : forall s, shown_value None (text_or_null s) (str_or_null s).
  Proof. intros. unfold text_or_null, str_or_null. destruct (String.eqb s ""); constructor. Qed.
  Lemma reason_shown : forall o, shown_value None (reason o) (reason_value o).
  Proof. intros [s|]; constructor. Qed.

  Lemma many_value : forall A (f : A -> sobj) (g : A -> value) sub xs, (forall x, In x xs -> gives sub (f x) (g x)) ->
    shown_value (Some sub) (Many (map f xs)) (VList (map g xs)).
  Proof. intros A f g sub xs H. constructor. induction xs; simpl in *; constructor; auto. Qed.

  Ltac distinct := repeat constructor; simpl; intros HH; repeat (destruct HH as [HH|HH]; [discriminate|]); exact HH.
  Ltac fields := apply plain_gives; [|distinct]; repeat apply Forall2_cons; try apply Forall2_nil.
  Ltac leaf := eapply leaf_field; [reflexivity|]; first [apply text_value|apply text_or_null_value|apply reason_shown|constructor].

  Lemma type_ref_gives : forall m t, gives (type_ref_sel l m) (DType t) (type_ref_value Sc m t).
  Proof.
    induction m as [|m IH]; intros t; simpl; fields; try leaf.
    eapply object_field; [reflexivity|]. destruct t; constructor; apply IH.
  Qed.
  Lemma input_gives : forall i, gives (input_sel l n) (DInput i) (input_json n Sc i).
  Proof. intros i. unfold input_sel, input_json. fields; try leaf. eapply object_field; [reflexivity|]. constructor. apply type_ref_gives. Qed.
  Lemma field_gives : forall f, gives (field_sel l n) (DField f) (field_json n Sc f).
  Proof.
    intros f. unfold field_sel, field_json. fields; try leaf.
    - eapply object_field; [reflexivity|]. apply many_value. intros. apply input_gives.
    - eapply object_field; [reflexivity|]. constructor. apply type_ref_gives.
  Qed.
  Lemma enum_gives : forall x, gives (enum_sel l) (DEnum x) (enum_json x).
  Proof. intros x. unfold enum_sel, enum_json. fields; try leaf. Qed.
  Lemma directive_gives : forall d, gives (directive_sel l n) (DDirective d) (directive_json n Sc d).
  Proof. intros d. unfold directive_sel, directive_json. fields; try leaf. eapply object_field; [reflexivity|]. apply many_value. intros. apply input_gives. Qed.

  Lemma assoc_in : forall A m (d : A) ts, NoDup (map fst ts) -> In (m, d) ts -> assoc m ts = Some d.
  Proof.
    intros A m d ts. induction ts as [|[k x] ts IH]; simpl; [tauto|]. intros ND [I|I].
    - injection I as -> ->. now rewrite String.eqb_refl.
    - inversion ND as [|? ? N ND']; subst. destruct (String.eqb_spec m k) as [->|]; auto. exfalso. apply N. apply in_map_iff. exists (k, d). auto.
  Qed.

  Lemma list_if_value : forall A (f : A -> sobj) (g : A -> value) sub xs t ks k, kind_of Sc t = k -> (forall x, gives sub (f x) (g x)) ->
    shown_value (Some sub) (of_kind Sc t ks (map f xs)) (list_if k ks (map g xs)).
  Proof. intros A f g sub xs t ks k <- H. unfold of_kind, list_if. destruct (existsb _ ks); [apply many_value; auto|constructor]. Qed.

  Lemma type_gives : forall m d, In (m, d) (s_types Sc) -> gives (type_sel l n) (DType (TNamed m)) (type_json n Sc (m, d)).
  Proof.
    intros m d I. assert (Hd : find_type Sc m = Some d) by (apply assoc_in; auto).
    assert (Hk : kind_of Sc (TNamed m) = td_kind d) by (simpl; now rewrite Hd).
    assert (Hdef : def_of Sc (TNamed m) = d) by (simpl; now rewrite Hd).
    unfold type_sel, type_json. fields.
    - eapply leaf_field; [reflexivity|]. rewrite Hk. constructor.
    - leaf.
    - eapply leaf_field; [reflexivity|]. rewrite Hdef. apply text_or_null_value.
    - eapply deprecated_field; [reflexivity|]. rewrite Hdef. unfold visible. simpl. apply list_if_value; [exact Hk|]. apply field_gives.
    - eapply object_field; [reflexivity|]. rewrite Hdef. apply list_if_value; [exact Hk|]. apply input_gives.
    - eapply object_field; [reflexivity|]. rewrite Hdef. apply list_if_value; [exact Hk|]. intros x. apply type_ref_gives.
    - eapply deprecated_field; [reflexivity|]. rewrite Hdef. unfold visible. simpl. apply list_if_value; [exact Hk|]. apply enum_gives.
    - eapply object_field; [reflexivity|]. rewrite Hdef. apply list_if_value; [exact Hk|]. intros x. apply type_ref_gives.
  Qed.

  Lemma root_gives : forall m, gives [leaf_sel l "name"] (named m) (root_json (Some m)).
  Proof. intros m. unfold root_json, named. fields. leaf. Qed.

  Lemma schema_gives : gives (schema_sel l n) DSchema (schema_json n Sc).
  Proof.
    unfold schema_sel, schema_json. fields.
    - eapply object_field; [reflexivity|]. constructor. apply root_gives.
    - eapply object_field; [reflexivity|]. destruct (s_mutation Sc); constructor. apply root_gives.
    - eapply object_field; [reflexivity|]. destruct (s_subscription Sc); constructor. apply root_gives.
    - eapply object_field; [reflexivity|]. apply many_value. intros [m d] I. apply type_gives. exact I.
    - eapply object_field; [reflexivity|]. apply many_value. intros d _. apply directive_gives.
  Qed.
End Standard.
