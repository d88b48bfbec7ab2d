(** What the generated program builds, in terms of what the loader kept (for C46). *)
From Verif Require Import Cpp Value Ast ModifiersModel SchemaModel LoaderModel LoaderSpec GenModel GenRun.
Local Open Scope string_scope.
Local Open Scope list_scope.

(** * The definitions that the loader's entries stand for *)
Fixpoint type_from (n : string) (ms : list modifier) (nonNull : bool) : tref :=
  match ms with
  | [] => if nonNull then TNonNull (TNamed n) else TNamed n
  | MNullable :: r => type_from n r false
  | MList :: r => let e := TListOf (type_from n r true) in if nonNull then TNonNull e else e
  end.
Lemma type_from_is E n ms : forall b, a_type E (introspection_type n ms b) = Some (type_from n ms b).
Proof. induction ms as [|[] ms IH]; intros b; simpl; [destruct b; reflexivity|apply IH|]. destruct b; simpl; rewrite IH; reflexivity. Qed.
Lemma type_from_base n ms : forall b, base_name (type_from n ms b) = n.
Proof. induction ms as [|[] ms IH]; intros b; simpl; [destruct b; reflexivity|apply IH|]. destruct b; simpl; apply IH. Qed.

Section Defs.
  Variable noIntrospection : bool.
  Local Notation desc s := (desc_of noIntrospection s).
  Definition in_def (f : in_field) : input_value := mkInput (in_name f) (desc (in_desc f)) (type_from (in_type f) (in_mods f) true) (in_default_text f).
  Definition out_def (f : out_field) : field_def :=
    mkFieldDef (out_name f) (desc (out_desc f)) (out_deprecated f) (type_from (out_type f) (out_mods f) true) (map in_def (out_args f)).
  Definition enum_def (v : enum_val) : enum_value_def := mkEnumValue (en_value v) (desc (en_desc v)) (en_deprecated v).
  Definition implementing (l : loader) (i : string) : list string := flat_map (fun o => repeat (ob_type o) (times i (ob_interfaces o))) (l_objects l).
  Definition scalar_entry (t : scalar_type) : string * type_def := (sc_type t, mkTypeDef SCALAR (desc (sc_desc t)) [] [] [] [] []).
  Definition enum_entry (t : enum_type) : string * type_def := (et_type t, mkTypeDef ENUM (desc (et_desc t)) [] [] [] (map enum_def (et_values t)) []).
  Definition input_entry (t : input_type) : string * type_def := (it_type t, mkTypeDef INPUT_OBJECT (desc (it_desc t)) [] [] [] [] (map in_def (it_fields t))).
  Definition union_entry (t : union_type) : string * type_def := (un_type t, mkTypeDef UNION (desc (un_desc t)) [] [] (un_options t) [] []).
  Definition interface_entry (l : loader) (t : interface_type) : string * type_def :=
    (if_type t, mkTypeDef INTERFACE (desc (if_desc t)) (map out_def (if_fields t)) [] (implementing l (if_type t)) [] []).
  Definition object_entry (t : object_type) : string * type_def :=
    (ob_type t, mkTypeDef OBJECT (desc (ob_desc t)) (map out_def (ob_fields t)) (ob_interfaces t) [] [] []).
  Definition loaded_types (l : loader) : list (string * type_def) :=
    map scalar_entry (l_scalars l) ++ map enum_entry (l_enums l) ++ map input_entry (l_inputs l) ++ map union_entry (l_unions l)
    ++ map (interface_entry l) (l_interfaces l) ++ map object_entry (l_objects l).
  Definition dir_def (d : loaded_directive) : directive_def := mkDirDef (ld_name d) (desc (ld_desc d)) (ld_locations d) (map in_def (ld_args d)).
End Defs.
Definition last_operation (op : operation_kind -> bool) (o : option string) (ops : list operation_type) : option string :=
  fold_left (fun o x => if op (ot_operation x) then Some (ot_type x) else o) ops o.
Definition is_q o := match o with OpQuery => true | _ => false end.
Definition is_m o := match o with OpMutation => true | _ => false end.
Definition is_s o := match o with OpSubscription => true | _ => false end.

Definition loaded_names (l : loader) : list string :=
  map sc_type (l_scalars l) ++ map et_type (l_enums l) ++ map it_type (l_inputs l) ++ map un_type (l_unions l) ++ map if_type (l_interfaces l)
  ++ map ob_type (l_objects l).
Definition loaded_vars (l : loader) : list string :=
  map et_cpp (l_enums l) ++ map it_cpp (l_inputs l) ++ map un_cpp (l_unions l) ++ map if_cpp (l_interfaces l) ++ map ob_cpp (l_objects l).

(** What the program needs of the loader. [base] are the names of the types that are there already. *)
Record good (base : list string) (l : loader) : Prop := mkGood {
  gd_names : NoDup (base ++ loaded_names l);
  gd_vars : NoDup (loaded_vars l);
  gd_if_cpp : forall t, In t (l_interfaces l) -> if_cpp t = safe_cpp_name (if_type t);
  gd_enums : forall t, In t (l_enums l) -> NoDup (map en_cpp (et_values t));
  gd_inputs : forall t f, In t (l_inputs l) -> In f (it_fields t) -> In (in_type f) (base ++ loaded_names l);
  gd_options : forall t n, In t (l_unions l) -> In n (un_options t) -> In n (base ++ loaded_names l);
  gd_interface_fields : forall t f, In t (l_interfaces l) -> In f (if_fields t) -> In (out_type f) (base ++ loaded_names l)
    /\ forall a, In a (out_args f) -> In (in_type a) (base ++ loaded_names l);
  gd_object_fields : forall t f, In t (l_objects l) -> In f (ob_fields t) -> In (out_type f) (base ++ loaded_names l)
    /\ forall a, In a (out_args f) -> In (in_type a) (base ++ loaded_names l);
  gd_interfaces : forall t n, In t (l_objects l) -> In n (ob_interfaces t) -> In n (map if_type (l_interfaces l));
  gd_directives : forall d f, In d (l_directives l) -> In f (ld_args d) -> In (in_type f) (base ++ loaded_names l);
  gd_operations : forall o, In o (l_operations l) -> exists t, In t (l_objects l) /\ ob_type t = ot_type o /\ ob_cpp t = ot_cpp o }.

(** * Sequences of statements *)
Lemma a_stmts_app enums : forall l1 l2 A E A1 E1, a_stmts enums A E l1 = Some (A1, E1) -> a_stmts enums A E (l1 ++ l2) = a_stmts enums A1 E1 l2.
Proof.
  intros l1. remember (length l1) as n eqn:En. assert (Hn : length l1 <= n) by lia. clear En. revert l1 Hn.
  induction n as [|n IH]; intros l1 Hn l2 A E A1 E1 Es.
  - destruct l1; [|simpl in Hn; lia]. injection Es as <- <-. reflexivity.
  - destruct l1 as [|s l1]; [injection Es as <- <-; reflexivity|]. simpl in Hn.
    destruct s; cbn [a_stmts app] in *;
      try (destruct (a_stmt enums E A _) as [A2|]; [|discriminate]; apply IH; [lia|exact Es]).
    destruct l1 as [|[] rest]; try discriminate. cbn [app]. destruct (String.eqb name name0 && String.eqb v v0); [|discriminate].
    destruct (declare A kind name desc); [|discriminate]. apply IH; [simpl in Hn; lia|exact Es].
Qed.
Lemma a_stmts_cons enums s l A E A1 : match s with SMake _ _ _ _ => False | _ => True end -> a_stmt enums E A s = Some A1 ->
  a_stmts enums A E (s :: l) = a_stmts enums A1 E l.
Proof. intros Hs Es. destruct s; cbn [a_stmts]; try contradiction; rewrite Es; reflexivity. Qed.

Lemma declare_new A k n d : ~ In n (map fst (ps_types A)) -> plain_kind k = true -> declare A k n d = Some (with_types A (ps_types A ++ [(n, new_def k d)])).
Proof. intros H Hk. unfold declare. destruct (has_type A n) eqn:E; [apply has_type_in in E; contradiction|]. rewrite Hk. reflexivity. Qed.
Lemma nodup_mid {X} (l1 : list X) x l2 : NoDup (l1 ++ x :: l2) -> ~ In x l1 /\ NoDup ((l1 ++ [x]) ++ l2).
Proof. intros H. split; [apply NoDup_remove_2 in H; intros Hi; apply H, in_or_app; auto|]. rewrite <- app_assoc. exact H. Qed.

Lemma run_scalars enums noI : forall l A E, NoDup (map fst (ps_types A) ++ map sc_type l) ->
  a_stmts enums A E (map (fun s => SAddScalar (sc_type s) (sc_type s) (desc_of noI (sc_desc s))) l)
  = Some (with_types A (ps_types A ++ map (fun s => (sc_type s, new_def SCALAR (desc_of noI (sc_desc s)))) l), E).
Proof.
  induction l as [|x l IH]; intros A E Hn; [simpl; rewrite app_nil_r; destruct A; reflexivity|]. cbn [map] in *. destruct (nodup_mid _ _ _ Hn) as [H1 H2].
  cbn [a_stmts a_stmt]. rewrite String.eqb_refl, (declare_new A SCALAR) by auto. rewrite IH; [|simpl; rewrite map_app; exact H2].
  simpl. rewrite <- app_assoc. reflexivity.
Qed.
Section Types.
  Context {X : Type} (enums : list (string * list (string * string))) (noI : bool) (kind : type_kind) (name cpp desc : X -> string).
  Hypothesis Hk : plain_kind kind = true.
  Lemma run_types : forall l A E, NoDup (map fst (ps_types A) ++ map name l) ->
    a_stmts enums A E (flat_map (fun t => gen_type noI kind (name t) (cpp t) (desc t)) l)
    = Some (with_types A (ps_types A ++ map (fun t => (name t, new_def kind (desc_of noI (desc t)))) l), rev (map (fun t => (type_var (cpp t), name t)) l) ++ E).
  Proof.
    induction l as [|x l IH]; intros A E Hn; [simpl; rewrite app_nil_r; destruct A; reflexivity|]. cbn [map] in *. destruct (nodup_mid _ _ _ Hn) as [H1 H2].
    cbn [flat_map gen_type app a_stmts]. rewrite !String.eqb_refl. cbn [andb]. rewrite declare_new by auto. rewrite IH; [|simpl; rewrite map_app; exact H2].
    simpl. rewrite <- !app_assoc. reflexivity.
  Qed.
End Types.

(** * Statements that change members *)
Definition signature (A : pschema) : list (string * type_kind) := map (fun e => (fst e, td_kind (snd e))) (ps_types A).
Lemma signature_names A : map fst (signature A) = map fst (ps_types A).
Proof. unfold signature. rewrite map_map. reflexivity. Qed.
Lemma has_type_sig A A' n : signature A = signature A' -> has_type A n = has_type A' n.
Proof. intros H. unfold has_type. rewrite <- !signature_names, H. reflexivity. Qed.
Lemma has_kind_sig A ks n : has_kind A ks n = match assoc n (signature A) with Some k => existsb (kind_eqb k) ks | None => false end.
Proof.
  unfold has_kind, signature. induction (ps_types A) as [|[m d] l IH]; simpl; [reflexivity|]. destruct (String.eqb n m); [reflexivity|exact IH].
Qed.

Definition updated (u : string -> type_def -> type_def) (ts : list (string * type_def)) : list (string * type_def) :=
  map (fun x => (fst x, u (fst x) (snd x))) ts.
Definition all_updates (us : list (string -> type_def -> type_def)) (n : string) (d : type_def) : type_def := fold_left (fun d u => u n d) us d.
(** A statement that does [u] to the types, whatever members they have. *)
Definition does enums E (sg : list (string * type_kind)) (s : stmt) (u : string -> type_def -> type_def) : Prop :=
  match s with SMake _ _ _ _ => False | _ => True end /\ (forall n d, td_kind (u n d) = td_kind d) /\
  forall A, signature A = sg -> a_stmt enums E A s = Some (with_types A (updated u (ps_types A))).
Lemma updated_sig u A : (forall n d, td_kind (u n d) = td_kind d) -> signature (with_types A (updated u (ps_types A))) = signature A.
Proof. intros H. unfold signature, updated. simpl. rewrite map_map. apply map_ext. intros [n d]. simpl. rewrite H. reflexivity. Qed.
Lemma run_updates enums E sg ss us : Forall2 (does enums E sg) ss us -> forall A, signature A = sg ->
  a_stmts enums A E ss = Some (with_types A (updated (all_updates us) (ps_types A)), E).
Proof.
  induction 1 as [|s u ss us (Hs & Hu & Hd) _ IH]; intros A HA.
  - cbn [a_stmts]. unfold updated, all_updates. simpl. f_equal. f_equal. rewrite (map_ext _ (fun x => x)), map_id by (intros []; reflexivity). destruct A; reflexivity.
  - rewrite (a_stmts_cons enums s ss A E _ Hs (Hd A HA)). rewrite IH by (rewrite updated_sig; auto). cbn [ps_types with_types]. f_equal. f_equal.
    unfold with_types. simpl. f_equal. unfold updated. rewrite map_map. reflexivity.
Qed.
Lemma all_updates_app us vs n d : all_updates (us ++ vs) n d = all_updates vs n (all_updates us n d).
Proof. apply fold_left_app. Qed.

(** Groups of statements, one group for each entry. *)
Lemma does_flat {X} enums E sg (stmts : X -> list stmt) (us : X -> list (string -> type_def -> type_def)) l :
  (forall x, In x l -> Forall2 (does enums E sg) (stmts x) (us x)) -> Forall2 (does enums E sg) (flat_map stmts l) (flat_map us l).
Proof. induction l as [|x l IH]; intros H; simpl; [constructor|]. apply Forall2_app; [apply H; left; reflexivity|apply IH; intros y Hy; apply H; right; exact Hy]. Qed.
Lemma updates_absent {X} (us : X -> list (string -> type_def -> type_def)) n d : forall l,
  (forall x, In x l -> all_updates (us x) n d = d) -> all_updates (flat_map us l) n d = d.
Proof.
  induction l as [|x l IH]; intros H; simpl; [reflexivity|]. rewrite all_updates_app, H by (left; reflexivity). apply IH. intros y Hy. apply H. right. exact Hy.
Qed.
Lemma updates_present {X} (name : X -> string) (us : X -> list (string -> type_def -> type_def)) n x d d' : forall l,
  NoDup (map name l) -> In x l -> name x = n -> all_updates (us x) n d = d' ->
  (forall y e, In y l -> name y <> n -> all_updates (us y) n e = e) -> all_updates (flat_map us l) n d = d'.
Proof.
  intros l Hn Hin <- Hx Hy. apply in_split in Hin as (l1 & l2 & ->). rewrite map_app in Hn. simpl in Hn. apply NoDup_remove_2 in Hn.
  rewrite flat_map_app. cbn [flat_map]. rewrite !all_updates_app.
  assert (H1 : all_updates (flat_map us l1) (name x) d = d).
  { apply updates_absent. intros y Hin. apply Hy; [apply in_or_app; auto|]. intros Ey. apply Hn. apply in_or_app. left. rewrite <- Ey. apply in_map. exact Hin. }
  rewrite H1, Hx. apply updates_absent. intros y Hin. apply Hy; [apply in_or_app; right; right; exact Hin|].
  intros Ey. apply Hn. apply in_or_app. right. rewrite <- Ey. apply in_map. exact Hin.
Qed.

(** * The statements of the generator *)
Definition u_one (n : string) (g : type_def -> type_def) : string -> type_def -> type_def := fun m d => if String.eqb n m then g d else d.
Definition u_implement (n : string) (is : list string) : string -> type_def -> type_def :=
  fun m d => let d' := u_one n (d_interfaces is) m d in d_possible (td_possible d' ++ repeat n (times m is)) d'.
Lemma assoc_nodup {X} n (l : list (string * X)) x : NoDup (map fst l) -> In (n, x) l -> assoc n l = Some x.
Proof.
  induction l as [|[m y] l IH]; simpl; [contradiction|]. intros Hn [E|Hin].
  - injection E as -> ->. rewrite String.eqb_refl. reflexivity.
  - inversion Hn as [|? ? Hx Hn']; subst. destruct (String.eqb_spec n m) as [->|]; [|auto]. exfalso. apply Hx. apply in_map_iff. exists (m, x). auto.
Qed.
Lemma omap_all_map {X Y Z} (g : Y -> option Z) (f : X -> Y) (h : X -> Z) l : (forall x, In x l -> g (f x) = Some (h x)) -> omap_all g (map f l) = Some (map h l).
Proof. induction l as [|x l IH]; intros H; simpl; [reflexivity|]. rewrite H by (left; reflexivity). rewrite IH; [reflexivity|]. intros y Hy. apply H. right. exact Hy. Qed.

Lemma unless_does {X} enums E sg (l : list X) s u : does enums E sg s u -> Forall2 (does enums E sg) (unless_nil l s) (unless_nil l u).
Proof. intros H. destruct l; [constructor|]. constructor; [exact H|constructor]. Qed.
Section Details.
  Variables (noI sep : bool) (enums : list (string * list (string * string))) (E : list (string * string)) (sg : list (string * type_kind)).
  Local Notation names := (map fst sg).
  Lemma known_ok A n ms : signature A = sg -> In n names -> a_known E A (introspection_type n ms true) = Some (type_from n ms true).
  Proof.
    intros HA Hn. unfold a_known. rewrite type_from_is, type_from_base. destruct (has_type A n) eqn:Eh; [reflexivity|].
    rewrite <- HA, signature_names, <- has_type_in in Hn. congruence.
  Qed.
  Lemma name_ok A n : signature A = sg -> In n names -> a_name E A (ELookup n) = Some n.
  Proof.
    intros HA Hn. unfold a_name, a_known. simpl. destruct (has_type A n) eqn:Eh; [reflexivity|]. rewrite <- HA, signature_names, <- has_type_in in Hn. congruence.
  Qed.
  Lemma gen_input_ok A f : signature A = sg -> In (in_type f) names -> a_input E A (gen_input noI f) = Some (in_def noI f).
  Proof. intros HA Hn. unfold a_input, gen_input, in_def. simpl. rewrite known_ok; auto. Qed.
  Lemma gen_inputs_ok A fs : signature A = sg -> (forall f, In f fs -> In (in_type f) names) ->
    omap_all (a_input E A) (map (gen_input noI) fs) = Some (map (in_def noI) fs).
  Proof. intros HA H. apply omap_all_map. intros f Hf. apply gen_input_ok; auto. Qed.
  Lemma gen_fields_ok A fs : signature A = sg -> (forall f, In f fs -> In (out_type f) names /\ forall a, In a (out_args f) -> In (in_type a) names) ->
    omap_all (a_field E A) (map (gen_field noI) fs) = Some (map (out_def noI) fs).
  Proof.
    intros HA H. apply omap_all_map. intros f Hf. destruct (H f Hf) as [H1 H2]. unfold a_field, gen_field, out_def. simpl. rewrite known_ok by auto.
    rewrite gen_inputs_ok by auto. reflexivity.
  Qed.
  Lemma on_kind_ok A ks v n k f : signature A = sg -> assoc v E = Some n -> assoc n sg = Some k -> existsb (kind_eqb k) ks = true -> on_kind E A ks v f = f n.
  Proof. intros HA Hv Hn Hk. unfold on_kind. rewrite Hv, has_kind_sig, HA, Hn, Hk. reflexivity. Qed.
  Lemma change_updated n g ts : change n g ts = updated (u_one n g) ts.
  Proof. unfold change, updated, u_one. apply map_ext. intros [m d]. simpl. destruct (String.eqb n m); reflexivity. Qed.
  Lemma one_kind n g : (forall d, td_kind (g d) = td_kind d) -> forall m d, td_kind (u_one n g m d) = td_kind d.
  Proof. intros H m d. unfold u_one. destruct (String.eqb n m); auto. Qed.

  Definition enum_updates (t : enum_type) := unless_nil (et_values t) (u_one (et_type t) (d_enums (map (enum_def noI) (et_values t)))).
  Lemma enum_does t entries : assoc (type_var (et_cpp t)) E = Some (et_type t) -> assoc (et_type t) sg = Some ENUM ->
    assoc (et_cpp t) enums = Some entries -> (forall v, In v (et_values t) -> assoc (en_cpp v) entries = Some (en_value v)) ->
    Forall2 (does enums E sg) (unless_nil (et_values t) (SEnumValues (type_var (et_cpp t)) (map (gen_enum_value noI (et_cpp t)) (et_values t)))) (enum_updates t).
  Proof.
    intros H1 H2 H3 H4. unfold enum_updates. assert (Hm : mapM (eval_enum enums) (map (gen_enum_value noI (et_cpp t)) (et_values t)) = Ok (map (enum_def noI) (et_values t))).
    { clear -H3 H4. induction (et_values t) as [|v vs IH]; [reflexivity|]. cbn [map mapM]. unfold eval_enum at 1, gen_enum_value at 1. simpl. rewrite H3, (H4 v) by (left; reflexivity). simpl.
      rewrite IH; [reflexivity|]. intros x Hx. apply H4. right. exact Hx. }
    apply unless_does. split; [exact I|]. split; [apply one_kind; reflexivity|].
    intros A HA. cbn [a_stmt]. rewrite (on_kind_ok A [ENUM] _ _ ENUM _ HA H1 H2 eq_refl), Hm, change_updated. reflexivity.
  Qed.
  Definition input_updates (t : input_type) := unless_nil (it_fields t) (u_one (it_type t) (d_inputs (map (in_def noI) (it_fields t)))).
  Lemma input_does t : assoc (type_var (it_cpp t)) E = Some (it_type t) -> assoc (it_type t) sg = Some INPUT_OBJECT -> (forall f, In f (it_fields t) -> In (in_type f) names) ->
    Forall2 (does enums E sg) (unless_nil (it_fields t) (SInputValues (type_var (it_cpp t)) (map (gen_input noI) (it_fields t)))) (input_updates t).
  Proof.
    intros H1 H2 H3. unfold input_updates. apply unless_does.
    split; [exact I|]. split; [apply one_kind; reflexivity|]. intros A HA. cbn [a_stmt]. rewrite (on_kind_ok A [INPUT_OBJECT] _ _ INPUT_OBJECT _ HA H1 H2 eq_refl).
    rewrite gen_inputs_ok by auto. simpl. rewrite change_updated. reflexivity.
  Qed.
  Definition union_updates (t : union_type) := unless_nil (un_options t) (u_one (un_type t) (d_possible (un_options t))).
  Lemma union_does t : assoc (type_var (un_cpp t)) E = Some (un_type t) -> assoc (un_type t) sg = Some UNION -> (forall n, In n (un_options t) -> In n names) ->
    Forall2 (does enums E sg) (unless_nil (un_options t) (SPossibleTypes (type_var (un_cpp t)) (map ELookup (un_options t)))) (union_updates t).
  Proof.
    intros H1 H2 H3. unfold union_updates. apply unless_does.
    split; [exact I|]. split; [apply one_kind; reflexivity|]. intros A HA. cbn [a_stmt]. rewrite (on_kind_ok A [UNION] _ _ UNION _ HA H1 H2 eq_refl).
    rewrite (omap_all_map _ _ (fun n => n)) by (intros n Hn; apply name_ok; auto). rewrite map_id. simpl. rewrite change_updated. reflexivity.
  Qed.
  Definition interface_updates (t : interface_type) := unless_nil (if_fields t) (u_one (if_type t) (d_fields (map (out_def noI) (if_fields t)))).
  Lemma interface_does t : assoc (type_var (if_cpp t)) E = Some (if_type t) -> assoc (if_type t) sg = Some INTERFACE ->
    (forall f, In f (if_fields t) -> In (out_type f) names /\ forall a, In a (out_args f) -> In (in_type a) names) ->
    Forall2 (does enums E sg) (unless_nil (if_fields t) (SFields (type_var (if_cpp t)) (map (gen_field noI) (if_fields t)))) (interface_updates t).
  Proof.
    intros H1 H2 H3. unfold interface_updates. apply unless_does.
    split; [exact I|]. split; [apply one_kind; reflexivity|]. intros A HA. cbn [a_stmt]. rewrite (on_kind_ok A [OBJECT; INTERFACE] _ _ INTERFACE _ HA H1 H2 eq_refl).
    rewrite gen_fields_ok by auto. simpl. rewrite change_updated. reflexivity.
  Qed.
  Definition object_updates (t : object_type) :=
    unless_nil (ob_interfaces t) (u_implement (ob_type t) (ob_interfaces t)) ++ unless_nil (ob_fields t) (u_one (ob_type t) (d_fields (map (out_def noI) (ob_fields t)))).
  Lemma object_does t : assoc (type_var (ob_cpp t)) E = Some (ob_type t) -> assoc (ob_type t) sg = Some OBJECT ->
    (forall i, In i (ob_interfaces t) -> assoc i sg = Some INTERFACE /\ assoc (type_var (safe_cpp_name i)) E = Some i) ->
    (forall f, In f (ob_fields t) -> In (out_type f) names /\ forall a, In a (out_args f) -> In (in_type a) names) ->
    Forall2 (does enums E sg) (gen_object noI sep t) (object_updates t).
  Proof.
    intros H1 H2 H3 H4. unfold gen_object, object_updates. apply Forall2_app.
    - apply unless_does.
      split; [exact I|]. split; [intros m d; unfold u_implement, u_one; destruct (String.eqb _ m); reflexivity|].
      intros A HA. cbn [a_stmt]. rewrite (on_kind_ok A [OBJECT] _ _ OBJECT _ HA H1 H2 eq_refl).
      rewrite (omap_all_map _ _ (fun n => n)).
      + rewrite map_id. assert (Hf : forallb (has_kind A [INTERFACE]) (ob_interfaces t) = true).
        { apply forallb_forall. intros i Hi. rewrite has_kind_sig, HA, (proj1 (H3 i Hi)). reflexivity. }
        rewrite Hf. unfold implement. rewrite change_map, map_map. reflexivity.
      + intros i Hi. destruct (H3 i Hi) as [Hs Hv]. assert (Hin : In i names) by (apply (in_map fst) with (x := (i, INTERFACE)), assoc_in'; exact Hs).
        destruct sep; [apply name_ok; auto|]. unfold a_name, a_known. simpl. rewrite Hv. simpl. destruct (has_type A i) eqn:Eh; [reflexivity|].
        rewrite <- HA, signature_names, <- has_type_in in Hin. congruence.
    - apply unless_does.
      split; [exact I|]. split; [apply one_kind; reflexivity|]. intros A HA. cbn [a_stmt]. rewrite (on_kind_ok A [OBJECT; INTERFACE] _ _ OBJECT _ HA H1 H2 eq_refl).
      rewrite gen_fields_ok by auto. simpl. rewrite change_updated. reflexivity.
  Qed.
  Lemma directives_run ds : (forall d f, In d ds -> In f (ld_args d) -> In (in_type f) names) -> forall A, signature A = sg ->
    a_stmts enums A E (map (fun d => SDirective (ld_name d) (desc_of noI (ld_desc d)) (ld_locations d) (map (gen_input noI) (ld_args d))) ds)
    = Some (mkPS (ps_types A) (ps_query A) (ps_mutation A) (ps_subscription A) (ps_directives A ++ map (dir_def noI) ds), E).
  Proof.
    induction ds as [|d ds IH]; intros Hd A HA; [simpl; rewrite app_nil_r; destruct A; reflexivity|]. cbn [map a_stmts a_stmt].
    rewrite gen_inputs_ok by (auto; intros f Hf; apply (Hd d f); simpl; auto). cbn [option_map]. rewrite IH; [| |exact HA].
    - simpl. rewrite <- app_assoc. reflexivity.
    - intros d' f Hd' Hf. apply (Hd d' f); simpl; auto.
  Qed.
  Lemma operations_run ops : (forall o, In o ops -> assoc (type_var (ot_cpp o)) E = Some (ot_type o) /\ assoc (ot_type o) sg = Some OBJECT) -> forall A, signature A = sg ->
    a_stmts enums A E (map (fun o => SOperation (ot_operation o) (type_var (ot_cpp o))) ops)
    = Some (mkPS (ps_types A) (last_operation is_q (ps_query A) ops) (last_operation is_m (ps_mutation A) ops) (last_operation is_s (ps_subscription A) ops) (ps_directives A), E).
  Proof.
    induction ops as [|o ops IH]; intros Ho A HA; [destruct A; reflexivity|]. cbn [map a_stmts a_stmt]. destruct (Ho o (or_introl eq_refl)) as [H1 H2].
    rewrite (on_kind_ok A [OBJECT] _ _ OBJECT _ HA H1 H2 eq_refl). rewrite IH; [unfold last_operation; cbn [fold_left]; destruct (ot_operation o); reflexivity| |destruct (ot_operation o); exact HA].
    intros o' Hin. apply Ho. right. exact Hin.
  Qed.
End Details.

Definition fresh_types (noI : bool) (l : loader) : list (string * type_def) :=
  map (fun s => (sc_type s, new_def SCALAR (desc_of noI (sc_desc s)))) (l_scalars l)
  ++ map (fun t => (et_type t, new_def ENUM (desc_of noI (et_desc t)))) (l_enums l)
  ++ map (fun t => (it_type t, new_def INPUT_OBJECT (desc_of noI (it_desc t)))) (l_inputs l)
  ++ map (fun t => (un_type t, new_def UNION (desc_of noI (un_desc t)))) (l_unions l)
  ++ map (fun t => (if_type t, new_def INTERFACE (desc_of noI (if_desc t)))) (l_interfaces l)
  ++ map (fun t => (ob_type t, new_def OBJECT (desc_of noI (ob_desc t)))) (l_objects l).
Definition variables (l : loader) : list (string * string) :=
  map (fun t => (type_var (et_cpp t), et_type t)) (l_enums l) ++ map (fun t => (type_var (it_cpp t), it_type t)) (l_inputs l)
  ++ map (fun t => (type_var (un_cpp t), un_type t)) (l_unions l) ++ map (fun t => (type_var (if_cpp t), if_type t)) (l_interfaces l)
  ++ map (fun t => (type_var (ob_cpp t), ob_type t)) (l_objects l).
Lemma nodup_app_l {X} (a b : list X) : NoDup (a ++ b) -> NoDup a.
Proof. induction a as [|x a IH]; simpl; intros H; [constructor|]. inversion H as [|? ? Hx H']; subst. constructor; [intros Hi; apply Hx, in_or_app; auto|auto]. Qed.
Lemma nodup_app_r {X} (a b : list X) : NoDup (a ++ b) -> NoDup b.
Proof. induction a as [|x a IH]; simpl; intros H; [exact H|]. inversion H; subst. auto. Qed.
Lemma nodup_app_disjoint {X} (a b : list X) : NoDup (a ++ b) -> forall x, In x a -> In x b -> False.
Proof.
  induction a as [|y a IH]; simpl; intros H x Ha Hb; [contradiction|]. inversion H as [|? ? Hx H']; subst. destruct Ha as [->|Ha]; [apply Hx, in_or_app; auto|eauto].
Qed.

Lemma declarations_run enums noI A l : NoDup (map fst (ps_types A) ++ loaded_names l) ->
  a_stmts enums A [] (gen_declarations noI false l) = Some (with_types A (ps_types A ++ fresh_types noI l), rev (variables l)).
Proof.
  intros Hn. unfold gen_declarations, loaded_names in *. cbn [app].
  set (n1 := map sc_type (l_scalars l)) in *. set (n2 := map et_type (l_enums l)) in *. set (n3 := map it_type (l_inputs l)) in *.
  set (n4 := map un_type (l_unions l)) in *. set (n5 := map if_type (l_interfaces l)) in *. set (n6 := map ob_type (l_objects l)) in *.
  rewrite !app_assoc in Hn.
  assert (H6 := Hn). assert (H5 := nodup_app_l _ _ H6). assert (H4 := nodup_app_l _ _ H5). assert (H3 := nodup_app_l _ _ H4).
  assert (H2 := nodup_app_l _ _ H3). assert (H1 := nodup_app_l _ _ H2).
  erewrite a_stmts_app; [|apply run_scalars; exact H1].
  erewrite a_stmts_app; [|apply (run_types enums noI ENUM et_type et_cpp et_desc eq_refl); cbn [ps_types with_types]; rewrite !map_app, !map_map; cbn [fst]; exact H2].
  erewrite a_stmts_app; [|apply (run_types enums noI INPUT_OBJECT it_type it_cpp it_desc eq_refl); cbn [ps_types with_types]; rewrite !map_app, !map_map; cbn [fst]; exact H3].
  erewrite a_stmts_app; [|apply (run_types enums noI UNION un_type un_cpp un_desc eq_refl); cbn [ps_types with_types]; rewrite !map_app, !map_map; cbn [fst]; exact H4].
  erewrite a_stmts_app; [|apply (run_types enums noI INTERFACE if_type if_cpp if_desc eq_refl); cbn [ps_types with_types]; rewrite !map_app, !map_map; cbn [fst]; exact H5].
  rewrite (run_types enums noI OBJECT ob_type ob_cpp ob_desc eq_refl); [|cbn [ps_types with_types]; rewrite !map_app, !map_map; cbn [fst]; exact H6].
  unfold with_types, fresh_types, variables. cbn [ps_types ps_query ps_mutation ps_subscription ps_directives]. rewrite !rev_app_distr, <- !app_assoc, app_nil_r. reflexivity.
Qed.

Lemma type_var_inj a b : type_var a = type_var b -> a = b.
Proof. unfold type_var. simpl. congruence. Qed.
Lemma var_lookup l v n : NoDup (loaded_vars l) -> In (type_var v, n) (variables l) -> assoc (type_var v) (rev (variables l)) = Some n.
Proof.
  intros Hn Hin. apply assoc_nodup; [|apply in_rev in Hin; exact Hin]. rewrite map_rev. apply NoDup_rev.
  assert (E : map fst (variables l) = map type_var (loaded_vars l)) by (unfold variables, loaded_vars; rewrite !map_app, !map_map; reflexivity).
  rewrite E. apply FinFun.Injective_map_NoDup; [exact type_var_inj|exact Hn].
Qed.
Lemma fresh_names noI l : map fst (fresh_types noI l) = loaded_names l.
Proof. unfold fresh_types, loaded_names. rewrite !map_app, !map_map. reflexivity. Qed.

(** An update of one entry's own members. *)
Lemma unless_one {X} (l : list X) n g m d : all_updates (unless_nil l (u_one n g)) m d = if String.eqb n m then match l with [] => d | _ => g d end else d.
Proof. destruct l; simpl; [destruct (String.eqb n m); reflexivity|]. unfold u_one. reflexivity. Qed.
Lemma times_absent m is : ~ In m is -> times m is = 0.
Proof.
  unfold times. induction is as [|x is IH]; simpl; intros H; [reflexivity|]. destruct (String.eqb_spec m x) as [->|]; [exfalso; apply H; auto|]. apply IH. tauto.
Qed.
Lemma possible_same d : d_possible (td_possible d ++ []) d = d.
Proof. rewrite app_nil_r. destruct d; reflexivity. Qed.
Lemma unless_implement n is m d : n <> m -> all_updates (unless_nil is (u_implement n is)) m d = d_possible (td_possible d ++ repeat n (times m is)) d.
Proof.
  intros Hne. destruct is as [|i is]; simpl; [rewrite possible_same; reflexivity|]. unfold u_implement, u_one. apply String.eqb_neq in Hne. rewrite Hne. reflexivity.
Qed.

Lemma nodup_concat {X} (L : list (list X)) : NoDup (concat L) -> forall i j x, In x (nth i L []) -> In x (nth j L []) -> i = j.
Proof.
  induction L as [|a L IH]; intros H i j x Hi Hj; [destruct i; simpl in Hi; contradiction|]. simpl in H.
  assert (Hc : forall k, In x (nth k L []) -> In x (concat L)).
  { intros k Hk. apply in_concat. exists (nth k L []). split; [|exact Hk]. destruct (Nat.lt_ge_cases k (length L)); [apply nth_In; assumption|].
    rewrite nth_overflow in Hk by assumption. contradiction. }
  destruct i as [|i], j as [|j]; simpl in Hi, Hj; auto.
  - exfalso. exact (nodup_app_disjoint _ _ H x Hi (Hc j Hj)).
  - exfalso. exact (nodup_app_disjoint _ _ H x Hj (Hc i Hi)).
  - f_equal. exact (IH (nodup_app_r _ _ H) i j x Hi Hj).
Qed.
Section Generated.
  Variables (noI sep : bool) (A : pschema) (l : loader).
  Local Notation base := (map fst (ps_types A)).
  Hypothesis G : good base l.
  Definition detail_updates : list (string -> type_def -> type_def) :=
    flat_map (enum_updates noI) (l_enums l) ++ flat_map (input_updates noI) (l_inputs l) ++ flat_map union_updates (l_unions l)
    ++ flat_map (interface_updates noI) (l_interfaces l) ++ flat_map (object_updates noI) (l_objects l).

  Lemma own m : In m base -> forall k, In k (loaded_names l) -> k <> m.
  Proof. intros Hm k Hk ->. exact (nodup_app_disjoint _ _ (gd_names _ _ G) m Hm Hk). Qed.
  (** Objects do not touch other types that are not interfaces. *)
  Lemma objects_absent m d : ~ In m (map ob_type (l_objects l)) -> ~ In m (map if_type (l_interfaces l)) -> all_updates (flat_map (object_updates noI) (l_objects l)) m d = d.
  Proof.
    intros H1 H2. apply updates_absent. intros t Ht. unfold object_updates. rewrite all_updates_app.
    assert (Hne : ob_type t <> m) by (intros <-; apply H1, in_map, Ht).
    rewrite unless_implement by exact Hne. rewrite times_absent by (intros Hi; apply H2; eapply (gd_interfaces _ _ G); eauto).
    simpl. rewrite possible_same, unless_one. apply String.eqb_neq in Hne. rewrite Hne. reflexivity.
  Qed.
  Lemma objects_interface m d : ~ In m (map ob_type (l_objects l)) ->
    all_updates (flat_map (object_updates noI) (l_objects l)) m d = d_possible (td_possible d ++ implementing l m) d.
  Proof.
    unfold implementing. intros H1. revert d. induction (l_objects l) as [|t ts IH]; intros d; simpl; [rewrite possible_same; reflexivity|].
    assert (Hne : ob_type t <> m) by (intros <-; apply H1; left; reflexivity).
    rewrite all_updates_app. unfold object_updates at 2. rewrite all_updates_app. rewrite unless_implement by exact Hne. rewrite unless_one.
    assert (Hb : String.eqb (ob_type t) m = false) by (apply String.eqb_neq; exact Hne). rewrite Hb, IH by (simpl in H1; tauto). unfold d_possible. simpl.
    rewrite app_assoc. reflexivity.
  Qed.
  Definition name_groups : list (list string) :=
    [base; map sc_type (l_scalars l); map et_type (l_enums l); map it_type (l_inputs l); map un_type (l_unions l); map if_type (l_interfaces l); map ob_type (l_objects l)].
  Lemma groups_nodup : NoDup (concat name_groups).
  Proof. assert (H := gd_names _ _ G). unfold loaded_names in H. simpl. rewrite app_nil_r. exact H. Qed.
  (** [m] is in group [i], and so in no other one. *)
  Lemma not_in_group m i : In m (nth i name_groups []) -> forall j, i <> j -> ~ In m (nth j name_groups []).
  Proof. intros Hi j Hne Hj. apply Hne. exact (nodup_concat _ groups_nodup i j m Hi Hj). Qed.
  Lemma group_nodup i : NoDup (nth i name_groups []).
  Proof.
    assert (H := groups_nodup). revert H. generalize name_groups. intros L. revert i. induction L as [|a L IH]; intros i H; [destruct i; constructor|]. simpl in H.
    destruct i as [|i]; simpl; [exact (nodup_app_l _ _ H)|apply IH; exact (nodup_app_r _ _ H)].
  Qed.
  Lemma enums_absent m d : ~ In m (nth 2 name_groups []) -> all_updates (flat_map (enum_updates noI) (l_enums l)) m d = d.
  Proof. simpl. intros H. apply updates_absent. intros t Ht. unfold enum_updates. rewrite unless_one. destruct (String.eqb_spec (et_type t) m) as [<-|]; [|reflexivity]. exfalso. apply H, in_map, Ht. Qed.
  Lemma inputs_absent m d : ~ In m (nth 3 name_groups []) -> all_updates (flat_map (input_updates noI) (l_inputs l)) m d = d.
  Proof. simpl. intros H. apply updates_absent. intros t Ht. unfold input_updates. rewrite unless_one. destruct (String.eqb_spec (it_type t) m) as [<-|]; [|reflexivity]. exfalso. apply H, in_map, Ht. Qed.
  Lemma unions_absent m d : ~ In m (nth 4 name_groups []) -> all_updates (flat_map union_updates (l_unions l)) m d = d.
  Proof. simpl. intros H. apply updates_absent. intros t Ht. unfold union_updates. rewrite unless_one. destruct (String.eqb_spec (un_type t) m) as [<-|]; [|reflexivity]. exfalso. apply H, in_map, Ht. Qed.
  Lemma interfaces_absent m d : ~ In m (nth 5 name_groups []) -> all_updates (flat_map (interface_updates noI) (l_interfaces l)) m d = d.
  Proof. simpl. intros H. apply updates_absent. intros t Ht. unfold interface_updates. rewrite unless_one. destruct (String.eqb_spec (if_type t) m) as [<-|]; [|reflexivity]. exfalso. apply H, in_map, Ht. Qed.

  Lemma updated_app u a b : updated u (a ++ b) = updated u a ++ updated u b.
  Proof. apply map_app. Qed.
  Lemma updated_map {X} u (f g : X -> string * type_def) ts : (forall t, In t ts -> (fst (f t), u (fst (f t)) (snd (f t))) = g t) -> updated u (map f ts) = map g ts.
  Proof. intros H. unfold updated. rewrite map_map. apply map_ext_in. exact H. Qed.
  Lemma one_present {X} (l0 : list X) n g d d' : (l0 = [] -> d' = d) -> (l0 <> [] -> g d = d') -> all_updates (unless_nil l0 (u_one n g)) n d = d'.
  Proof. intros H1 H2. rewrite unless_one, String.eqb_refl. destruct l0; [symmetry; auto|apply H2; discriminate]. Qed.

  Lemma final_types : updated (all_updates detail_updates) (ps_types A ++ fresh_types noI l) = ps_types A ++ loaded_types noI l.
  Proof.
    unfold detail_updates, fresh_types, loaded_types. rewrite !updated_app. f_equal; [|f_equal; [|f_equal; [|f_equal; [|f_equal; [|f_equal]]]]].
    - unfold updated. rewrite <- (map_id (ps_types A)) at 2. apply map_ext_in. intros [m d] Hin. cbn [fst snd]. f_equal.
      assert (Hm := not_in_group m 0 (in_map fst _ _ Hin)). rewrite !all_updates_app.
      rewrite enums_absent, inputs_absent, unions_absent, interfaces_absent, objects_absent; auto; try (apply Hm; discriminate);
        [apply (Hm 6); discriminate|apply (Hm 5); discriminate].
    - apply updated_map. intros t Ht. cbn [fst snd]. unfold scalar_entry. f_equal. assert (Hm := not_in_group (sc_type t) 1 (in_map sc_type _ _ Ht)). rewrite !all_updates_app.
      rewrite enums_absent, inputs_absent, unions_absent, interfaces_absent, objects_absent; auto; try (apply Hm; discriminate);
        [apply (Hm 6); discriminate|apply (Hm 5); discriminate].
    - apply updated_map. intros t Ht. cbn [fst snd]. unfold enum_entry. f_equal. assert (Hm := not_in_group (et_type t) 2 (in_map et_type _ _ Ht)). rewrite !all_updates_app.
      rewrite (updates_present et_type (enum_updates noI) (et_type t) t _ (snd (enum_entry noI t)) (l_enums l) (group_nodup 2) Ht eq_refl).
      + rewrite inputs_absent, unions_absent, interfaces_absent, objects_absent; auto; try (apply Hm; discriminate);
          [apply (Hm 6); discriminate|apply (Hm 5); discriminate].
      + apply one_present; [intros E; simpl; rewrite E; reflexivity|reflexivity].
      + intros y e _ Hne. unfold enum_updates. rewrite unless_one. apply String.eqb_neq in Hne. rewrite Hne. reflexivity.
    - apply updated_map. intros t Ht. cbn [fst snd]. unfold input_entry. f_equal. assert (Hm := not_in_group (it_type t) 3 (in_map it_type _ _ Ht)). rewrite !all_updates_app.
      rewrite enums_absent by (apply Hm; discriminate).
      rewrite (updates_present it_type (input_updates noI) (it_type t) t _ (snd (input_entry noI t)) (l_inputs l) (group_nodup 3) Ht eq_refl).
      + rewrite unions_absent, interfaces_absent, objects_absent; auto; try (apply Hm; discriminate); [apply (Hm 6); discriminate|apply (Hm 5); discriminate].
      + apply one_present; [intros E; simpl; rewrite E; reflexivity|reflexivity].
      + intros y e _ Hne. unfold input_updates. rewrite unless_one. apply String.eqb_neq in Hne. rewrite Hne. reflexivity.
    - apply updated_map. intros t Ht. cbn [fst snd]. unfold union_entry. f_equal. assert (Hm := not_in_group (un_type t) 4 (in_map un_type _ _ Ht)). rewrite !all_updates_app.
      rewrite enums_absent, inputs_absent by (apply Hm; discriminate).
      rewrite (updates_present un_type union_updates (un_type t) t _ (snd (union_entry noI t)) (l_unions l) (group_nodup 4) Ht eq_refl).
      + rewrite interfaces_absent, objects_absent; auto; try (apply Hm; discriminate); [apply (Hm 6); discriminate|apply (Hm 5); discriminate].
      + apply one_present; [intros E; simpl; rewrite E; reflexivity|reflexivity].
      + intros y e _ Hne. unfold union_updates. rewrite unless_one. apply String.eqb_neq in Hne. rewrite Hne. reflexivity.
    - apply updated_map. intros t Ht. cbn [fst snd]. unfold interface_entry. f_equal. assert (Hm := not_in_group (if_type t) 5 (in_map if_type _ _ Ht)). rewrite !all_updates_app.
      rewrite enums_absent, inputs_absent, unions_absent by (apply Hm; discriminate).
      rewrite (updates_present if_type (interface_updates noI) (if_type t) t _ (mkTypeDef INTERFACE (desc_of noI (if_desc t)) (map (out_def noI) (if_fields t)) [] [] [] []) (l_interfaces l) (group_nodup 5) Ht eq_refl).
      + rewrite objects_interface by (apply (Hm 6); discriminate). reflexivity.
      + apply one_present; [intros E; simpl; rewrite E; reflexivity|reflexivity].
      + intros y e _ Hne. unfold interface_updates. rewrite unless_one. apply String.eqb_neq in Hne. rewrite Hne. reflexivity.
    - apply updated_map. intros t Ht. cbn [fst snd]. unfold object_entry. f_equal. assert (Hm := not_in_group (ob_type t) 6 (in_map ob_type _ _ Ht)). rewrite !all_updates_app.
      rewrite enums_absent, inputs_absent, unions_absent, interfaces_absent by (apply Hm; discriminate).
      apply (updates_present ob_type (object_updates noI) (ob_type t) t _ (snd (object_entry noI t)) (l_objects l) (group_nodup 6) Ht eq_refl).
      + unfold object_updates. rewrite all_updates_app.
        assert (E1 : all_updates (unless_nil (ob_interfaces t) (u_implement (ob_type t) (ob_interfaces t))) (ob_type t) (new_def OBJECT (desc_of noI (ob_desc t)))
                     = mkTypeDef OBJECT (desc_of noI (ob_desc t)) [] (ob_interfaces t) [] [] []).
        { assert (Et : times (ob_type t) (ob_interfaces t) = 0).
          { apply times_absent. intros Hi. apply (Hm 5); [discriminate|]. eapply (gd_interfaces _ _ G); eauto. }
          destruct (ob_interfaces t) as [|i is] eqn:Ei; [reflexivity|]. unfold unless_nil, all_updates. cbn [fold_left]. unfold u_implement, u_one.
          rewrite String.eqb_refl, Et. reflexivity. }
        rewrite E1. apply one_present; [intros E; simpl; rewrite E; reflexivity|reflexivity].
      + intros y e Hy Hne. unfold object_updates. rewrite all_updates_app, unless_implement by exact Hne.
        rewrite times_absent by (intros Hi; apply (Hm 5); [discriminate|]; eapply (gd_interfaces _ _ G); eauto). simpl. rewrite possible_same, unless_one.
        apply String.eqb_neq in Hne. rewrite Hne. reflexivity.
  Qed.
End Generated.

Lemma entries_lookup (vs : list enum_val) v : NoDup (map en_cpp vs) -> In v vs -> assoc (en_cpp v) (map (fun v => (en_cpp v, en_value v)) vs) = Some (en_value v).
Proof. intros Hn Hv. apply assoc_nodup; [rewrite map_map; exact Hn|]. apply in_map_iff. exists v. auto. Qed.

Theorem generated_schema noI sep A l : good (map fst (ps_types A)) l ->
  exists E, a_stmts (gen_enums l) A [] (p_body (generate noI sep false l))
  = Some (mkPS (ps_types A ++ loaded_types noI l) (last_operation is_q (ps_query A) (l_operations l)) (last_operation is_m (ps_mutation A) (l_operations l))
            (last_operation is_s (ps_subscription A) (l_operations l)) (ps_directives A ++ map (dir_def noI) (l_directives l)), E).
Proof.
  intros G. exists (rev (variables l)). cbn [p_body generate]. erewrite a_stmts_app; [|apply declarations_run; exact (gd_names _ _ G)].
  set (A1 := with_types A (ps_types A ++ fresh_types noI l)). set (E := rev (variables l)).
  assert (Hnames : map fst (signature A1) = map fst (ps_types A) ++ loaded_names l).
  { rewrite signature_names. unfold A1. cbn [ps_types with_types]. rewrite map_app, fresh_names. reflexivity. }
  assert (Hsig : forall n k d, In (n, new_def k d) (fresh_types noI l) -> assoc n (signature A1) = Some k).
  { intros n k d Hin. apply assoc_nodup; [rewrite Hnames; exact (gd_names _ _ G)|]. unfold signature, A1. cbn [ps_types with_types]. apply in_map_iff. exists (n, new_def k d).
    split; [reflexivity|]. apply in_or_app. auto. }
  assert (Hvar : forall v n, In (type_var v, n) (variables l) -> assoc (type_var v) E = Some n) by (intros v n; apply var_lookup; exact (gd_vars _ _ G)).
  assert (Vif : forall t, In t (l_interfaces l) -> assoc (type_var (if_cpp t)) E = Some (if_type t) /\ assoc (if_type t) (signature A1) = Some INTERFACE).
  { intros t Ht. split; [apply Hvar|apply (Hsig _ _ (desc_of noI (if_desc t)))].
    - unfold variables. rewrite !in_app_iff. right. right. right. left. apply in_map_iff. exists t. auto.
    - unfold fresh_types. rewrite !in_app_iff. right. right. right. right. left. apply in_map_iff. exists t. auto. }
  assert (Vob : forall t, In t (l_objects l) -> assoc (type_var (ob_cpp t)) E = Some (ob_type t) /\ assoc (ob_type t) (signature A1) = Some OBJECT).
  { intros t Ht. split; [apply Hvar|apply (Hsig _ _ (desc_of noI (ob_desc t)))].
    - unfold variables. rewrite !in_app_iff. right. right. right. right. apply in_map_iff. exists t. auto.
    - unfold fresh_types. rewrite !in_app_iff. right. right. right. right. right. apply in_map_iff. exists t. auto. }
  assert (Hd : Forall2 (does (gen_enums l) E (signature A1))
    (flat_map (fun t => unless_nil (et_values t) (SEnumValues (type_var (et_cpp t)) (map (gen_enum_value noI (et_cpp t)) (et_values t)))) (l_enums l)
     ++ flat_map (fun t => unless_nil (it_fields t) (SInputValues (type_var (it_cpp t)) (map (gen_input noI) (it_fields t)))) (l_inputs l)
     ++ flat_map (fun t => unless_nil (un_options t) (SPossibleTypes (type_var (un_cpp t)) (map ELookup (un_options t)))) (l_unions l)
     ++ flat_map (fun t => unless_nil (if_fields t) (SFields (type_var (if_cpp t)) (map (gen_field noI) (if_fields t)))) (l_interfaces l)
     ++ flat_map (gen_object noI sep) (l_objects l)) (detail_updates noI l)).
  { unfold detail_updates. repeat apply Forall2_app; apply does_flat; intros t Ht.
    - apply (enum_does noI (gen_enums l) E (signature A1) t (map (fun v => (en_cpp v, en_value v)) (et_values t))).
      + apply Hvar. unfold variables. rewrite !in_app_iff. left. apply in_map_iff. exists t. auto.
      + apply (Hsig _ _ (desc_of noI (et_desc t))). unfold fresh_types. rewrite !in_app_iff. right. left. apply in_map_iff. exists t. auto.
      + apply assoc_nodup; [unfold gen_enums; rewrite map_map; cbn [fst]; exact (nodup_app_l _ _ (gd_vars _ _ G))|]. apply in_map_iff. exists t. auto.
      + intros v Hv. apply entries_lookup; [apply (gd_enums _ _ G t Ht)|exact Hv].
    - apply input_does.
      + apply Hvar. unfold variables. rewrite !in_app_iff. right. left. apply in_map_iff. exists t. auto.
      + apply (Hsig _ _ (desc_of noI (it_desc t))). unfold fresh_types. rewrite !in_app_iff. right. right. left. apply in_map_iff. exists t. auto.
      + intros f Hf. rewrite Hnames. exact (gd_inputs _ _ G t f Ht Hf).
    - apply union_does.
      + apply Hvar. unfold variables. rewrite !in_app_iff. right. right. left. apply in_map_iff. exists t. auto.
      + apply (Hsig _ _ (desc_of noI (un_desc t))). unfold fresh_types. rewrite !in_app_iff. right. right. right. left. apply in_map_iff. exists t. auto.
      + intros f Hf. rewrite Hnames. exact (gd_options _ _ G t f Ht Hf).
    - apply interface_does; [apply Vif; exact Ht|apply Vif; exact Ht|]. intros f Hf. rewrite Hnames. exact (gd_interface_fields _ _ G t f Ht Hf).
    - apply object_does; [apply Vob; exact Ht|apply Vob; exact Ht| |].
      + intros i Hi. assert (Hi' := gd_interfaces _ _ G t i Ht Hi). apply in_map_iff in Hi' as (x & <- & Hx). rewrite <- (gd_if_cpp _ _ G x Hx).
        destruct (Vif x Hx). auto.
      + intros f Hf. rewrite Hnames. exact (gd_object_fields _ _ G t f Ht Hf). }
  unfold gen_details. rewrite !app_assoc. rewrite <- !app_assoc. rewrite !app_assoc. 
  match goal with |- a_stmts _ _ _ ((?x ++ ?y) ++ ?z) = _ => set (details := x); set (dirs := y); set (ops := z) end.
  assert (Hd' : Forall2 (does (gen_enums l) E (signature A1)) details (detail_updates noI l)) by (unfold details; rewrite <- !app_assoc; exact Hd).
  rewrite <- app_assoc. erewrite a_stmts_app; [|apply (run_updates _ _ _ _ _ Hd' A1 eq_refl)].
  assert (Hs : signature (with_types A1 (updated (all_updates (detail_updates noI l)) (ps_types A1))) = signature A1).
  { apply updated_sig. intros n d. assert (Hk : forall ss us, Forall2 (does (gen_enums l) E (signature A1)) ss us -> forall d, td_kind (all_updates us n d) = td_kind d).
    { clear. induction 1 as [|s u ss us (_ & Hu & _) _ IH]; intros d; [reflexivity|]. unfold all_updates in *. cbn [fold_left]. rewrite IH. apply Hu. }
    eapply Hk; exact Hd'. }
  erewrite a_stmts_app; [|apply (directives_run noI _ _ (signature A1)); [|exact Hs]].
  - unfold ops. rewrite (operations_run _ _ (signature A1)); [| |exact Hs].
    + unfold A1 at 1 2. cbn [ps_types with_types ps_query ps_mutation ps_subscription ps_directives]. rewrite (final_types noI A l G). reflexivity.
    + intros o Ho. destruct (gd_operations _ _ G o Ho) as (t & Ht & <- & <-). apply Vob. exact Ht.
  - intros d f Hd1 Hf. rewrite Hnames. exact (gd_directives _ _ G d f Hd1 Hf).
Qed.
