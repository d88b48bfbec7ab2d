(** Validation does not see where things are: laid out differently, a document gets the same errors at other places (for C54). *)
From Verif Require Import Cpp Value Ast SchemaModel SortedMapModel ValidationModel ValidationHistory Layout.
Local Open Scope string_scope.
Local Open Scope list_scope.
Local Open Scope m_scope.

Notation same := (fun s : string => s).
Definition strip_err (e : schema_error) : schema_error := mkErr (message e) nowhere (path e).
Definition strip_errs : list schema_error -> list schema_error := map strip_err.
Fixpoint strip_aval (v : aval) : aval :=
  match v with
  | AVar _ n => AVar nowhere n
  | AInt _ z => AInt nowhere z
  | AFloat _ x => AFloat nowhere x
  | AString _ s => AString nowhere s
  | ABool _ b => ABool nowhere b
  | ANull _ => ANull nowhere
  | AEnum _ s => AEnum nowhere s
  | AList _ items => AList nowhere (map strip_aval items)
  | AMap _ fields => AMap nowhere (map (fun e => (fst e, strip_aval (snd e))) fields)
  end.
Definition on_snd {A B} (h : A -> B) (m : list (string * A)) : list (string * B) := map (fun e => (fst e, h (snd e))) m.
Definition strip_avals := on_snd strip_aval.
Definition strip_vfield (f : vfield) : vfield := mkVField (vf_type f) (vf_object f) (vf_name f) (strip_avals (vf_args f)).
Definition strip_state (st : vstate) : vstate :=
  mkSt (on_snd (strip_frag same) (fragmentDefinitions st)) (on_snd (strip_op same) (operationDefinitions st)) (referencedFragments st) (fragmentCycles st) (operationVariables st)
    (on_snd (strip_var same) (variableDefinitions st)) (referencedVariables st) (fragmentStack st) (fieldCount st) (typeFields st) (inputTypeFields st) (scopedType st)
    (on_snd strip_vfield (selectionFields st)).

(** * Maps *)
Section Maps.
  Context {A B : Type} (h : A -> B).
  Lemma assoc_on k m : assoc k (on_snd h m) = option_map h (assoc k m).
  Proof. induction m as [|[k' v] m IH]; [reflexivity|]. cbn [on_snd map assoc fst snd]. destruct (String.eqb k k'); [reflexivity|exact IH]. Qed.
  Lemma set_on k v m : m_set k (h v) (on_snd h m) = on_snd h (m_set k v m).
  Proof.
    induction m as [|[k' v'] m IH]; [reflexivity|]. cbn [on_snd map m_set fst snd]. destruct (String.eqb k k'); [reflexivity|]. destruct (shorter_or_less k k'); [reflexivity|].
    cbn [map fst snd]. f_equal. exact IH.
  Qed.
  Lemma emplace_on k v m : m_emplace k (h v) (on_snd h m) = (on_snd h (fst (m_emplace k v m)), snd (m_emplace k v m)).
  Proof. unfold m_emplace. rewrite assoc_on, set_on. destruct (assoc k m); reflexivity. Qed.
  Lemma erase_on k m : m_erase k (on_snd h m) = on_snd h (m_erase k m).
  Proof. induction m as [|[k' v'] m IH]; [reflexivity|]. cbn [on_snd map m_erase fst snd]. destruct (String.eqb k k'); [reflexivity|]. cbn [map fst snd]. f_equal. exact IH. Qed.
  Lemma erase_all_on ks : forall m, fold_left (fun m k => m_erase k m) ks (on_snd h m) = on_snd h (fold_left (fun m k => m_erase k m) ks m).
  Proof. induction ks as [|k ks IH]; intros m; [reflexivity|]. cbn [fold_left]. rewrite erase_on. apply IH. Qed.
  Lemma length_on m : length (on_snd h m) = length m.
  Proof. apply map_length. Qed.
End Maps.
Lemma map_app' {A B} (f : A -> B) l m : map f (l ++ m) = map f l ++ map f m.
Proof. apply map_app. Qed.

(** * Values *)
Definition strip_field (a : schema_location * (string * lit)) : schema_location * (string * lit) := (nowhere, (fst (snd a), strip_lit same (snd (snd a)))).
Lemma arg_items_strip (av : lit -> list schema_error * aval) items :
  (forall x, In x items -> av (strip_lit same x) = (strip_errs (fst (av x)), strip_aval (snd (av x)))) ->
  arg_items av (map (strip_lit same) items) = (strip_errs (fst (arg_items av items)), map strip_aval (snd (arg_items av items))).
Proof.
  induction items as [|x r IH]; intros H; [reflexivity|]. cbn [map arg_items]. rewrite H by (left; reflexivity). destruct (av x) as [e1 v].
  rewrite IH by (intros y Hy; apply H; right; exact Hy). destruct (arg_items av r) as [e2 vs]. unfold strip_errs. cbn [fst snd map]. rewrite map_app. reflexivity.
Qed.
Lemma arg_fields_strip (av : lit -> list schema_error * aval) fields :
  (forall x, In x fields -> av (strip_lit same (snd (snd x))) = (strip_errs (fst (av (snd (snd x)))), strip_aval (snd (av (snd (snd x)))))) ->
  forall m, arg_fields av (map strip_field fields) (strip_avals m) = (strip_errs (fst (arg_fields av fields m)), strip_avals (snd (arg_fields av fields m))).
Proof.
  induction fields as [|[fp [name x]] r IH]; intros H m; [reflexivity|]. cbn [map arg_fields strip_field fst snd].
  assert (H' : forall x, In x r -> av (strip_lit same (snd (snd x))) = (strip_errs (fst (av (snd (snd x)))), strip_aval (snd (av (snd (snd x)))))) by (intros y Hy; apply H; right; exact Hy).
  unfold strip_avals at 1. rewrite assoc_on. destruct (assoc name m) as [v|]; cbn [option_map].
  - rewrite (IH H' m). destruct (arg_fields av r m) as [e2 m']. reflexivity.
  - assert (Hx := H _ (or_introl eq_refl)). cbn [fst snd] in Hx. rewrite Hx. destruct (av x) as [e1 v]. cbn [fst snd]. unfold strip_avals at 1. rewrite set_on. fold strip_avals. rewrite (IH H' (m_set name v m)).
    destruct (arg_fields av r (m_set name v m)) as [e2 m']. unfold strip_errs. cbn [fst snd]. rewrite map_app. reflexivity.
Qed.
Lemma arg_value_strip l : arg_value (strip_lit same l) = (strip_errs (fst (arg_value l)), strip_aval (snd (arg_value l))).
Proof.
  induction l as [p n|p z|p x|p s|p b|p|p s|p items IH|p fields IH] using lit_ind'; try reflexivity; cbn [strip_lit arg_value]; rewrite Forall_forall in IH.
  - rewrite arg_items_strip by exact IH. destruct (arg_items arg_value items) as [es vs]. reflexivity.
  - assert (E := arg_fields_strip arg_value fields IH []). cbn [strip_avals on_snd map] in E. unfold strip_field in E. rewrite E. destruct (arg_fields arg_value fields []) as [es m]. reflexivity.
Qed.
Lemma aval_eqb_strip a : forall b, aval_eqb (strip_aval a) (strip_aval b) = aval_eqb a b.
Proof.
  induction a as [p n|p z|p x|p s|p y|p|p s|p items IH|p fields IH] using aval_ind'; intros b; destruct b as [q n'|q z'|q x'|q s'|q b'|q|q s'|q items'|q fields']; try reflexivity; cbn [strip_aval aval_eqb].
  - revert items'. induction IH as [|x xs Hx _ IHl]; intros [|y ys]; try reflexivity. cbn [map]. rewrite Hx, IHl. reflexivity.
  - revert fields'. induction IH as [|[k x] xs Hx _ IHl]; intros [|[k' y] ys]; try reflexivity. cbn [map fst snd] in *. rewrite Hx, IHl. reflexivity.
Qed.
Lemma args_eqb_strip xs : forall ys, args_eqb (strip_avals xs) (strip_avals ys) = args_eqb xs ys.
Proof. induction xs as [|[k x] xs IH]; intros [|[k' y] ys]; try reflexivity. cbn [strip_avals on_snd map args_eqb fst snd]. rewrite aval_eqb_strip. f_equal. apply IH. Qed.
Lemma vfield_eqb_strip a b : vfield_eqb (strip_vfield a) (strip_vfield b) = vfield_eqb a b.
Proof. unfold vfield_eqb, strip_vfield. cbn [vf_type vf_object vf_name vf_args]. rewrite args_eqb_strip. reflexivity. Qed.
Lemma is_null_strip v : is_null (strip_aval v) = is_null v.
Proof. destruct v; reflexivity. Qed.
Lemma a_pos_strip v : a_pos (strip_aval v) = nowhere.
Proof. destruct v; reflexivity. Qed.

(** * Steps *)
(** [m'] does to the stripped state what [m] does to the state. *)
Definition sim {A B} (h : A -> B) (m : M A) (m' : M B) : Prop :=
  forall st, m' (strip_state st) = (strip_errs (fst (fst (m st))), h (snd (fst (m st))), strip_state (snd (m st))).
Definition idt {A} (a : A) : A := a.
Lemma sim_ret {A B} (h : A -> B) a b : h a = b -> sim h (ret a) (ret b).
Proof. intros <- st. reflexivity. Qed.
Lemma sim_bind {A A' B B'} (h : A -> A') (g : B -> B') m m' k k' : sim h m m' -> (forall a, sim g (k a) (k' (h a))) -> sim g (mbind m k) (mbind m' k').
Proof.
  intros Hm Hk st. unfold mbind. rewrite Hm. destruct (m st) as [[e1 a] st1]. cbn [fst snd]. rewrite Hk. destruct (k a st1) as [[e2 b] st2]. unfold strip_errs. cbn [fst snd]. rewrite map_app. reflexivity.
Qed.
Lemma sim_emit msg loc loc' : loc' = nowhere -> sim (@idt unit) (emit msg loc) (emit msg loc').
Proof. intros -> st. reflexivity. Qed.
Lemma sim_emits es es' : es' = strip_errs es -> sim (@idt unit) (emits es) (emits es').
Proof. intros -> st. reflexivity. Qed.
Lemma sim_get : sim strip_state get get.
Proof. intros st. reflexivity. Qed.
Lemma sim_modify f f' : (forall st, f' (strip_state st) = strip_state (f st)) -> sim (@idt unit) (modify f) (modify f').
Proof. intros H st. unfold modify. rewrite H. reflexivity. Qed.
Lemma sim_fail msg loc loc' : loc' = nowhere -> sim (@idt bool) (fail msg loc) (fail msg loc').
Proof. intros ->. eapply (sim_bind (@idt unit)); [apply sim_emit; reflexivity|]. intros _. apply sim_ret. reflexivity. Qed.
Lemma sim_iter {A B} (h : A -> B) (f : A -> M unit) (f' : B -> M unit) l : (forall x, In x l -> sim (@idt unit) (f x) (f' (h x))) -> sim (@idt unit) (iter f l) (iter f' (map h l)).
Proof.
  induction l as [|x l IH]; intros H; [apply sim_ret; reflexivity|]. cbn [map iter]. apply (sim_bind (@idt unit)); [apply H; left; reflexivity|]. intros _. apply IH. intros y Hy. apply H. right. exact Hy.
Qed.
Lemma sim_iter_same {A} (f f' : A -> M unit) l : (forall x, In x l -> sim (@idt unit) (f x) (f' x)) -> sim (@idt unit) (iter f l) (iter f' l).
Proof. intros H. assert (E := sim_iter (@idt A) f f' l H). unfold idt in E at 2. rewrite map_id in E. exact E. Qed.

Section Visitor.
  Variable S : schema.
  Local Ltac tick := first [apply sim_ret; reflexivity|apply sim_emit; reflexivity|apply sim_fail; first [reflexivity|apply a_pos_strip]|apply sim_modify; intros ?; reflexivity|apply sim_get].

  Lemma scoped_sim : sim (@idt _) (get_scoped_type_fields S) (get_scoped_type_fields S).
  Proof.
    intros st. unfold get_scoped_type_fields. cbn [strip_state scopedType typeFields]. destruct (scopedType st) as [t|]; [|reflexivity].
    destruct (assoc (type_name t) (typeFields st)); [reflexivity|]. destruct (is_scalar_kind (kind_of S t)); reflexivity.
  Qed.
  Lemma input_fields_sim n : sim (@idt _) (get_input_type_fields S n) (get_input_type_fields S n).
  Proof.
    intros st. unfold get_input_type_fields. cbn [strip_state inputTypeFields]. destruct (assoc n (inputTypeFields st)); [reflexivity|].
    destruct (find_type S n) as [d|]; [|reflexivity]. destruct (kind_eqb (td_kind d) INPUT_OBJECT); reflexivity.
  Qed.
  Lemma variable_type_strip input : forall nn var pos, validate_variable_type S input nn var nowhere =
    (strip_errs (fst (validate_variable_type S input nn var pos)), snd (validate_variable_type S input nn var pos)).
  Proof.
    induction input as [n|t IH|t IH]; intros nn var; revert nn; induction var as [m|v IHv|v IHv]; intros nn pos; cbn [validate_variable_type];
      try (destruct (live S v); [exact (IHv true pos)|reflexivity]);
      try (destruct (kind_of S (TNamed n)); try reflexivity; destruct (kind_eqb _ _); try reflexivity; destruct (String.eqb _ ""); try reflexivity; destruct (String.eqb _ ""); try reflexivity;
           destruct (String.eqb _ _); reflexivity);
      try (destruct (negb nn); [reflexivity|]; destruct (live S t); [apply IH|reflexivity]); try reflexivity.
    destruct (live S v); [|reflexivity]. destruct (live S t); [apply IH|reflexivity].
  Qed.
  Lemma required_sim n pos subs fields : sim (@idt bool) (required_fields n pos subs fields) (required_fields n nowhere subs fields).
  Proof.
    induction fields as [|[k a] r IH]; [tick|]. cbn [required_fields]. destruct (va_default a || mem k subs); [exact IH|]. destruct (va_type a) as [[|t|t]|]; try tick; exact IH.
  Qed.
  Lemma scalar_sim n v : sim (@idt bool) (validate_scalar S n v) (validate_scalar S n (strip_aval v)).
  Proof.
    assert (D : sim (@idt bool) (if is_scalar_type S n then ret true else fail ("Undefined Scalar type name: " ++ n) (a_pos v))
                 (if is_scalar_type S n then ret true else fail ("Undefined Scalar type name: " ++ n) (a_pos (strip_aval v)))) by (destruct (is_scalar_type S n); tick).
    unfold validate_scalar. repeat (match goal with |- context [String.eqb n ?x] => destruct (String.eqb n x) end; [try (destruct v; first [exact D|tick]; fail); try tick|]); [|exact D].
    destruct v; try tick. cbn [strip_aval]. destruct (is_ok (Base64Model.fromBase64 s)); tick.
  Qed.
  Lemma enum_sim n v : sim (@idt bool) (validate_enum S n v) (validate_enum S n (strip_aval v)).
  Proof.
    unfold validate_enum. destruct (String.eqb n ""); [tick|]. destruct v; try tick. cbn [strip_aval]. destruct (match enum_values S n with Some vs => _ | None => false end); tick.
  Qed.
  Lemma variable_sim d pos n t : sim (@idt bool) (validate_variable S d pos n t) (validate_variable S d nowhere n t).
  Proof.
    unfold validate_variable. apply (sim_bind strip_state); [tick|]. intros st. cbn [strip_state operationVariables]. destruct (operationVariables st) as [vars|]; [|tick].
    destruct (assoc n vars) as [v|]; [|tick]. apply (sim_bind (@idt unit)); [tick|]. intros _. destruct (va_type v) as [vt|]; [|tick].
    rewrite (variable_type_strip t _ vt pos). destruct (validate_variable_type S t (d || va_nonnull_default v) vt pos) as [es b]. cbn [fst snd].
    apply (sim_bind (@idt unit)); [apply sim_emits; reflexivity|]. intros _. tick.
  Qed.
  Lemma items_sim (f f' : aval -> bool -> option tref -> M bool) t l : (forall x, In x l -> forall d o, sim (@idt bool) (f x d o) (f' (strip_aval x) d o)) ->
    sim (@idt bool) (validate_items f t l) (validate_items f' t (map strip_aval l)).
  Proof.
    induction l as [|x l IH]; intros H; [tick|]. cbn [map validate_items]. apply (sim_bind (@idt bool)); [apply H; left; reflexivity|]. intros []; [|tick]. apply IH. intros y Hy. apply H. right. exact Hy.
  Qed.
  Lemma entries_sim (f f' : aval -> bool -> option tref -> M bool) n pos l : (forall e, In e l -> forall d o, sim (@idt bool) (f (snd e) d o) (f' (strip_aval (snd e)) d o)) ->
    forall fields subs, sim (@idt bool) (validate_entries S f n pos l fields subs) (validate_entries S f' n nowhere (strip_avals l) fields subs).
  Proof.
    induction l as [|[k x] l IH]; intros H fields subs; [apply required_sim|]. cbn [strip_avals on_snd map validate_entries fst snd]. destruct (assoc k fields) as [a|]; [|tick].
    assert (H' : forall e, In e l -> forall d o, sim (@idt bool) (f (snd e) d o) (f' (strip_aval (snd e)) d o)) by (intros e He; apply H; right; exact He).
    rewrite is_null_strip. destruct (negb (is_null x) || negb (va_default a)); [|apply (IH H')].
    apply (sim_bind (@idt bool)); [apply (H (k, x)); left; reflexivity|]. intros []; [|tick]. apply (sim_bind (@idt _)); [apply input_fields_sim|]. intros o. unfold idt at 2. apply (IH H').
  Qed.
  Lemma unwrap_sim pos pos' (f g : tref -> M bool) t : pos' = nowhere -> (forall t, sim (@idt bool) (f t) (g t)) -> sim (@idt bool) (unwrap_nonnull S pos f t) (unwrap_nonnull S pos' g t).
  Proof. intros E H. induction t as [n|t IH|t IH]; cbn [unwrap_nonnull]; try apply H. destruct (live S t); [exact IH|apply sim_fail; exact E]. Qed.
  Lemma input_sim v : forall d o, sim (@idt bool) (validate_input S v d o) (validate_input S (strip_aval v) d o).
  Proof.
    induction v as [p n|p z|p z|p z|p z|p|p z|p items IH|p fields IH] using aval_ind'; intros d [t0|]; cbn [strip_aval validate_input]; try tick;
      try apply variable_sim; try (apply unwrap_sim; [reflexivity|]; intros [m|t|t]; try tick; destruct (kind_of S (TNamed m)); try tick; try (destruct (String.eqb m ""); tick);
        try apply (enum_sim m (AInt p z)); try apply (scalar_sim m (AInt p z)); try apply (enum_sim m (AFloat p z)); try apply (scalar_sim m (AFloat p z));
        try apply (enum_sim m (AString p z)); try apply (scalar_sim m (AString p z)); try apply (enum_sim m (ABool p z)); try apply (scalar_sim m (ABool p z));
        try apply (enum_sim m (AEnum p z)); try apply (scalar_sim m (AEnum p z)); fail).
    - destruct t0; try tick. destruct d; tick.
    - apply unwrap_sim; [reflexivity|]. intros [m|t|t]; try tick.
      + destruct (kind_of S (TNamed m)); try tick; try (destruct (String.eqb m ""); tick); [apply (scalar_sim m (AList p items))|apply (enum_sim m (AList p items))].
      + destruct (live S t); [|tick]. apply items_sim. rewrite Forall_forall in IH. exact IH.
    - apply unwrap_sim; [reflexivity|]. intros [m|t|t]; try tick.
      destruct (kind_of S (TNamed m)); try tick; [apply (scalar_sim m (AMap p fields))|apply (enum_sim m (AMap p fields))|].
      destruct (String.eqb m ""); [tick|]. apply (sim_bind (@idt _)); [apply input_fields_sim|]. intros [fs|]; [|tick]. cbn [idt]. apply (entries_sim (validate_input S) (validate_input S) m p fields).
      rewrite Forall_forall in IH. exact IH.
  Qed.
  Lemma collect_strip what args : forall m locs names,
    collect_args what (strip_args same args) (strip_avals m) (on_snd (fun _ => nowhere) locs) names =
    let '(es, (m', locs', names')) := collect_args what args m locs names in (strip_errs es, (strip_avals m', on_snd (fun _ => nowhere) locs', names')).
  Proof.
    induction args as [|a r IH]; intros m locs names; [reflexivity|]. cbn [strip_args map collect_args]. change (a_name (strip_arg same a)) with (a_name a).
    unfold strip_avals at 1. rewrite assoc_on. destruct (assoc (a_name a) m) as [v|]; cbn [option_map].
    - unfold strip_args in IH. rewrite IH. destruct (collect_args what r m locs names) as [es [[m' locs'] names']]. reflexivity.
    - change (a_value (strip_arg same a)) with (strip_lit same (a_value a)). rewrite arg_value_strip. destruct (arg_value (a_value a)) as [e1 v]. cbn [fst snd].
      assert (E1 := set_on strip_aval (a_name a) v m). assert (E2 := set_on (fun _ : schema_location => nowhere) (a_name a) (a_loc a) locs). fold strip_avals in E1.
      change (a_loc (strip_arg same a)) with nowhere. rewrite E1, E2. unfold strip_args in IH.
      rewrite (IH (m_set (a_name a) v m) (m_set (a_name a) (a_loc a) locs)).
      destruct (collect_args what r (m_set (a_name a) v m) (m_set (a_name a) (a_loc a) locs) (names ++ [a_name a])) as [es [[m' locs'] names']]. unfold strip_errs. rewrite map_app. reflexivity.
  Qed.
  Lemma loc_of_strip (locs : list (string * schema_location)) n : loc_of (on_snd (fun _ : schema_location => nowhere) locs) n = nowhere.
  Proof. unfold loc_of. rewrite assoc_on. destruct (assoc n locs); reflexivity. Qed.
  Lemma check_args_sim what pos defined m locs names :
    sim (@idt unit) (check_args S what pos defined m locs names) (check_args S what nowhere defined (strip_avals m) (on_snd (fun _ => nowhere) locs) names).
  Proof.
    unfold check_args. apply (sim_bind (@idt unit)).
    - apply sim_iter_same. intros n _. destruct (assoc n defined); [tick|]. apply sim_emit. apply loc_of_strip.
    - intros _. apply sim_iter_same. intros [n a] _. unfold strip_avals. rewrite assoc_on. destruct (assoc n m) as [v|]; cbn [option_map].
      + rewrite is_null_strip. destruct (is_null v); [destruct (va_default a); [tick|]; destruct (va_type a) as [[]|]; tick|].
        apply (sim_bind (@idt bool)); [apply input_sim|]. intros []; [tick|]. apply sim_emit. apply loc_of_strip.
      + destruct (va_default a); [tick|]. destruct (va_type a) as [[]|]; tick.
  Qed.
  Lemma directives_sim loc ds : forall seen, sim (@idt unit) (visit_directives S loc seen ds) (visit_directives S loc seen (strip_dirs same ds)).
  Proof.
    induction ds as [|d ds IH]; intros seen; [tick|]. cbn [strip_dirs map visit_directives]. change (d_name (strip_dir same d)) with (d_name d).
    destruct (mem (d_name d) seen); [apply (sim_bind (@idt unit)); [tick|intros _; apply IH]|]. apply (sim_bind (@idt unit)); [|intros _; apply IH].
    destruct (assoc (d_name d) (directive_map S)) as [[locs defined]|]; [|tick]. destruct (negb (existsb (dloc_eqb loc) locs)); [tick|].
    change (d_args (strip_dir same d)) with (strip_args same (d_args d)). destruct (d_args d) as [|a args]; [tick|].
    assert (E := collect_strip ("directive: " ++ d_name d) (a :: args) [] [] []). change (strip_avals []) with (@nil (string * aval)) in E.
    change (on_snd (fun _ : schema_location => nowhere) []) with (@nil (string * schema_location)) in E. cbv zeta in E |- *.
    cbn [strip_args map] in E |- *. rewrite E.
    destruct (collect_args _ (a :: args) [] [] []) as [es [[m alocs] names]]. apply (sim_bind (@idt unit)); [apply sim_emits; reflexivity|]. intros _. apply check_args_sim.
  Qed.
  Lemma visit_field_sim loc alias n args dirs sub sub' : match sub, sub' with Some f, Some g => sim (@idt unit) f g | None, None => True | _, _ => False end ->
    sim (@idt unit) (visit_field S loc alias n args dirs sub) (visit_field S nowhere alias n (strip_args same args) (strip_dirs same dirs) sub').
  Proof.
    intros Hs. unfold visit_field. apply (sim_bind (@idt unit)); [apply directives_sim|]. intros _. apply (sim_bind strip_state); [tick|]. intros st0. cbn [strip_state scopedType]. cbv zeta.
    apply (sim_bind (@idt _)); [apply scoped_sim|]. intros [fields|]; [|tick]. cbn [idt]. destruct (_ && negb _); [tick|].
    destruct (if kind_eqb _ UNION then _ else _) as [[inner wrapped]|]; [|tick].
    set (scoped := match scopedType st0 with Some t => t | None => TNamed "" end). set (what := ("type: " ++ type_name scoped ++ " field: " ++ n)%string).
    set (key := match alias with Some (String _ _ as a) => a | _ => n end).
    assert (E := collect_strip what args [] [] []). change (strip_avals []) with (@nil (string * aval)) in E.
    change (on_snd (fun _ : schema_location => nowhere) []) with (@nil (string * schema_location)) in E. rewrite E. clear E.
    destruct (collect_args what args [] [] []) as [es [[m alocs] names]]. apply (sim_bind (@idt unit)); [apply sim_emits; reflexivity|]. intros _.
    apply (sim_bind strip_state); [tick|]. intros st1. cbn [strip_state selectionFields].
    set (vf := mkVField (Some wrapped) _ n m).
    change (mkVField (Some wrapped) (if kind_eqb (kind_of S scoped) OBJECT then Some scoped else None) n (strip_avals m)) with (strip_vfield vf).
    rewrite assoc_on.
    replace (match option_map strip_vfield (assoc key (selectionFields st1)) with Some p => vfield_eqb p (strip_vfield vf) | None => false end)
      with (match assoc key (selectionFields st1) with Some p => vfield_eqb p vf | None => false end)
      by (destruct (assoc key (selectionFields st1)); [cbn [option_map]; rewrite vfield_eqb_strip|]; reflexivity).
    destruct (match assoc key (selectionFields st1) with Some p => _ | None => false end); [tick|].
    apply (sim_bind (@idt unit)); [destruct (assoc key (selectionFields st1)); tick|]. intros _.
    apply (sim_bind (@idt unit)); [destruct (assoc n fields); [apply check_args_sim|tick]|]. intros _.
    apply (sim_bind (@idt unit)).
    { apply sim_modify. intros st. cbn [strip_state selectionFields]. rewrite (emplace_on strip_vfield). reflexivity. }
    intros _. apply (sim_bind (@idt nat)).
    - destruct sub as [f|], sub' as [g|]; try contradiction; [|tick]. apply (sim_bind strip_state); [tick|]. intros outer. apply (sim_bind (@idt unit)); [tick|]. intros _.
      apply (sim_bind (@idt unit)); [exact Hs|]. intros _. apply (sim_bind strip_state); [tick|]. intros st2. apply (sim_bind (@idt unit)); [tick|]. intros _. tick.
    - intros count. unfold idt at 1. destruct (_ && negb _); tick.
  Qed.
  Lemma visit_spread_sim loc n dirs f g : (forall l, sim (@idt unit) (f l) (g (strip_sels same l))) ->
    sim (@idt unit) (visit_spread S loc n dirs f) (visit_spread S nowhere n (strip_dirs same dirs) g).
  Proof.
    intros H. unfold visit_spread. apply (sim_bind (@idt unit)); [apply directives_sim|]. intros _. apply (sim_bind strip_state); [tick|]. intros st.
    cbn [strip_state fragmentDefinitions fragmentStack fragmentCycles scopedType]. rewrite assoc_on. destruct (assoc n (fragmentDefinitions st)) as [d|]; cbn [option_map]; [|tick].
    destruct (mem n (fragmentStack st)); [destruct (mem n (fragmentCycles st)); [tick|apply (sim_bind (@idt unit)); [tick|intros _; tick]]|]. cbv zeta.
    change (f_cond (strip_frag same d)) with (f_cond d). destruct (match find_type S (f_cond d) with Some _ => _ | None => true end); [tick|].
    apply (sim_bind (@idt unit)); [tick|]. intros _. apply (sim_bind (@idt unit)); [apply H|]. intros _. tick.
  Qed.
  Lemma visit_inline_sim cond dirs (f g : M unit) : sim (@idt unit) f g -> sim (@idt unit) (visit_inline S cond dirs f) (visit_inline S (strip_cond cond) (strip_dirs same dirs) g).
  Proof.
    intros H. unfold visit_inline. apply (sim_bind (@idt unit)); [apply directives_sim|]. intros _. apply (sim_bind strip_state); [tick|]. intros st. cbn [strip_state scopedType]. cbv zeta.
    assert (B : forall t, sim (@idt unit) (modify (set_scoped t) ;;; f ;;; modify (set_scoped (scopedType st))) (modify (set_scoped t) ;;; g ;;; modify (set_scoped (scopedType st)))).
    { intros t. apply (sim_bind (@idt unit)); [tick|]. intros _. apply (sim_bind (@idt unit)); [exact H|]. intros _. tick. }
    destruct cond as [[loc [|c r]]|]; cbn [strip_cond]; try apply B. destruct (find_type S (String c r)) as [d|]; [|tick]. destruct (is_scalar_kind (td_kind d)); [tick|].
    destruct (negb _); [tick|apply B].
  Qed.
  Lemma visit_sel_sim : forall avail s, sim (@idt unit) (visit_sel S avail s) (visit_sel S avail (strip_sel same s)).
  Proof.
    induction avail as [|avail IHa]; (induction s as [loc alias n args dirs|loc alias n args dirs l sels IH|loc n dirs|loc cond dirs sels IH] using selection_ind'; cbn [visit_sel strip_sel];
      [apply visit_field_sim; exact I|apply visit_field_sim; apply sim_iter; rewrite Forall_forall in IH; exact IH
      |apply visit_spread_sim; intros l
      |apply visit_inline_sim; apply sim_iter; rewrite Forall_forall in IH; exact IH]).
    - tick.
    - apply sim_iter. intros x _. apply IHa.
  Qed.
  Lemma visit_sels_sim avail l : sim (@idt unit) (visit_sels S avail l) (visit_sels S avail (strip_sels same l)).
  Proof. apply sim_iter. intros x _. apply visit_sel_sim. Qed.
  Lemma visit_fragment_sim avail f : sim (@idt unit) (visit_fragment_definition S avail f) (visit_fragment_definition S avail (strip_frag same f)).
  Proof.
    unfold visit_fragment_definition. apply (sim_bind (@idt unit)); [apply directives_sim|]. intros _. cbn [strip_frag f_cond f_name f_cond_loc f_sel].
    destruct (find_type S (f_cond f)) as [d|]; [|tick]. destruct (is_scalar_kind (td_kind d)); [tick|].
    apply (sim_bind (@idt unit)); [tick|]. intros _. apply (sim_bind (@idt unit)); [apply visit_sels_sim|]. intros _. tick.
  Qed.
  Lemma visit_variable_sim n v : sim (@idt unit) (visit_variable S n v) (visit_variable S n (strip_var same v)).
  Proof.
    unfold visit_variable. apply (sim_bind strip_state); [tick|]. intros st. cbn [strip_state operationVariables strip_var v_name v_type v_loc v_type_loc v_default v_default_loc]. cbv zeta.
    assert (A : forall a, sim (@idt unit)
      (modify (fun st => set_op_vars (Some (fst (m_emplace (v_name v) a (match operationVariables st with Some m => m | None => [] end)))) (set_var_defs (fst (m_emplace (v_name v) v (variableDefinitions st))) st)))
      (modify (fun st => set_op_vars (Some (fst (m_emplace (v_name v) a (match operationVariables st with Some m => m | None => [] end)))) (set_var_defs (fst (m_emplace (v_name v) (strip_var same v) (variableDefinitions st))) st)))).
    { intros a. apply sim_modify. intros s. cbn [strip_state operationVariables variableDefinitions]. rewrite (emplace_on (strip_var same)). reflexivity. }
    destruct (assoc (v_name v) _); [tick|]. destruct (negb (is_input_type S (v_type v))); [tick|]. destruct (v_default v) as [l|]; cbn [option_map]; [|apply A].
    rewrite arg_value_strip. destruct (arg_value l) as [es a]. cbn [fst snd]. apply (sim_bind (@idt unit)); [apply sim_emits; reflexivity|]. intros _.
    apply (sim_bind (@idt bool)); [apply input_sim|]. intros []; cbn [idt]; [|tick]. rewrite is_null_strip. apply A.
  Qed.
  Lemma visit_operation_sim avail o : sim (@idt unit) (visit_operation_definition S avail o) (visit_operation_definition S avail (strip_op same o)).
  Proof.
    unfold visit_operation_definition. change (op_type_of (strip_op same o)) with (op_type_of o). change (op_name_of (strip_op same o)) with (op_name_of o). cbn [strip_op op_vars op_dirs op_sel op_loc].
    apply (sim_bind (@idt unit)); [tick|]. intros _. apply (sim_bind (@idt unit)); [apply sim_iter; intros v _; apply visit_variable_sim|]. intros _.
    apply (sim_bind (@idt unit)); [apply directives_sim|]. intros _. destruct (operation_type S (op_type_of o)) as [t|]; [|tick].
    apply (sim_bind (@idt unit)); [tick|]. intros _. apply (sim_bind (@idt unit)); [apply visit_sels_sim|]. intros _. apply (sim_bind strip_state); [tick|]. intros st.
    cbn [strip_state fieldCount referencedVariables variableDefinitions]. apply (sim_bind (@idt unit)); [destruct (_ && _); tick|]. intros _.
    apply (sim_bind (@idt unit)); [tick|]. intros _. apply (sim_bind (@idt unit)); [|intros _; tick].
    unfold on_snd. apply sim_iter. intros [k v] _. cbn [fst snd]. destruct (mem k (referencedVariables st)); tick.
  Qed.
  Lemma fragments_strip d : fragments (strip_doc same d) = map (strip_frag same) (fragments d).
  Proof. unfold fragments. induction d as [|[o|f|l] d IH]; [reflexivity|..]; cbn [strip_doc map strip_def flat_map app]; [exact IH|f_equal; exact IH|exact IH]. Qed.
  Lemma operations_strip d : operations (strip_doc same d) = map (strip_op same) (operations d).
  Proof. unfold operations. induction d as [|[o|f|l] d IH]; [reflexivity|..]; cbn [strip_doc map strip_def flat_map app]; [f_equal; exact IH|exact IH|exact IH]. Qed.
  Lemma visit_document_sim extra d : sim (@idt unit) (visit_document_at S extra d) (visit_document_at S extra (strip_doc same d)).
  Proof.
    unfold visit_document_at. rewrite fragments_strip, operations_strip. apply (sim_bind (@idt unit)).
    { apply sim_iter. intros f _. apply (sim_bind strip_state); [tick|]. intros st. cbn [strip_state fragmentDefinitions]. change (f_name (strip_frag same f)) with (f_name f).
      rewrite (emplace_on (strip_frag same)). destruct (m_emplace (f_name f) f (fragmentDefinitions st)) as [m inserted]. cbn [fst snd]. apply (sim_bind (@idt unit)); [tick|]. intros _. destruct inserted; tick. }
    intros _. apply (sim_bind (@idt unit)).
    { apply sim_iter. intros f _. apply (sim_bind strip_state); [tick|]. intros st. cbn [strip_state operationDefinitions]. change (op_name_of (strip_op same f)) with (op_name_of f).
      rewrite (emplace_on (strip_op same)). destruct (m_emplace (op_name_of f) f (operationDefinitions st)) as [m inserted]. cbn [fst snd]. apply (sim_bind (@idt unit)); [tick|]. intros _. destruct inserted; tick. }
    intros _. apply (sim_bind strip_state); [tick|]. intros st. cbn [strip_state operationDefinitions fragmentDefinitions]. rewrite !length_on, assoc_on.
    apply (sim_bind (@idt unit)); [destruct (Nat.ltb 1 _); [|tick]; destruct (assoc "" (operationDefinitions st)); tick|]. intros _.
    apply (sim_bind (@idt unit)).
    { apply sim_iter. intros [o|f|l] _; cbn [strip_def]; [apply visit_operation_sim|apply visit_fragment_sim|tick]. }
    intros _. apply (sim_bind strip_state); [tick|]. intros st'. cbn [strip_state referencedFragments fragmentDefinitions]. apply (sim_bind (@idt unit)); [tick|]. intros _.
    rewrite erase_all_on. unfold on_snd. apply sim_iter. intros [k f] _. tick.
  Qed.
  (** The errors of a document without its positions are the errors of the document, without their positions. *)
  Theorem validate_strip d st : validate S (strip_doc same d) (strip_state st) = (strip_errs (fst (validate S d st)), strip_state (snd (validate S d st))).
  Proof.
    unfold validate, visit_document. rewrite visit_document_sim. destruct (visit_document_at S 0 d st) as [[es u] st']. reflexivity.
  Qed.
  Theorem validate_same_layout d d' st : same_but_positions d d' -> strip_errs (fst (validate S d st)) = strip_errs (fst (validate S d' st)).
  Proof. intros E. assert (H := validate_strip d st). assert (H' := validate_strip d' st). rewrite E in H. rewrite H in H'. injection H' as H1 _. exact H1. Qed.
End Visitor.
