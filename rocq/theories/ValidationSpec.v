(** What it means for a document to be valid against a schema: a declarative reading of the rules of the GraphQL
    specification (June 2018, section 5) in the form in which the service applies them. It uses the schema and the
    document only, nothing of the visitor's state. The differences from the GraphQL rules are marked DEVIATION; the
    theorems named ..._refuted in ValidationProps.v show what they let through. *)
From Verif Require Import Cpp Value Ast SchemaModel Base64Spec.
Local Open Scope string_scope.
Local Open Scope list_scope.

Section Rules.
  Variable S : schema.

  (** ** Types *)
  Definition type_is (name : string) (k : type_kind) : Prop := exists d, find_type S name = Some d /\ td_kind d = k.
  Definition composite (name : string) : Prop := type_is name OBJECT \/ type_is name INTERFACE \/ type_is name UNION.
  Definition input_named (name : string) : Prop := type_is name SCALAR \/ type_is name ENUM \/ type_is name INPUT_OBJECT.
  Fixpoint named_type (t : tref) : string :=
    match t with TNamed n => n | TListOf t' | TNonNull t' => named_type t' end.
  Definition input_type (t : tref) : Prop := input_named (named_type t).

  (** the object types a composite type stands for *)
  Definition possible (t o : string) : Prop :=
    (type_is t OBJECT /\ o = t) \/
    (exists d d', find_type S t = Some d /\ (td_kind d = INTERFACE \/ td_kind d = UNION) /\ In o (td_possible d) /\ find_type S o = Some d').
  (** 5.5.2.3: a fragment on [b] can apply where the type is [a] *)
  Definition overlap (a b : string) : Prop := a = b \/ exists o, possible a o /\ possible b o.

  (** the fields that can be selected on a type, with their types and arguments *)
  Inductive field_of (T : string) : string -> tref -> list input_value -> Prop :=
  | field_declared d f : find_type S T = Some d -> (td_kind d = OBJECT \/ td_kind d = INTERFACE) -> In f (td_fields d) ->
      field_of T (fd_name f) (fd_type f) (fd_args f)
  | field_typename : composite T -> field_of T "__typename" (TNonNull (TNamed "String")) []
  | field_schema : s_introspection S = true -> T = s_query S ->
      field_of T "__schema" (TNonNull (TNamed "__Schema")) []
  | field_type : s_introspection S = true -> T = s_query S ->
      field_of T "__type" (TNamed "__Type") [mkInput "name" "" (TNonNull (TNamed "String")) ""].

  (** ** Values *)
  Definition has_default (a : input_value) : Prop := iv_default a <> "".
  Definition nonnull_default (a : input_value) : bool :=
    (negb (String.eqb (iv_default a) "") && negb (String.eqb (iv_default a) "null"))%bool.
  Definition required (a : input_value) : Prop := iv_default a = "" /\ exists t, iv_type a = TNonNull t.
  Definition var_nonnull_default (v : variable_def) : bool :=
    match v_default v with Some (LNull _) | None => false | Some _ => true end.

  (** 5.8.5 AreTypesCompatible and IsVariableUsageAllowed *)
  Inductive compatible : tref -> tref -> Prop :=      (* variable type, location type *)
  | compat_nonnull v l : compatible v l -> compatible (TNonNull v) (TNonNull l)
  | compat_strict v l : (forall l', l <> TNonNull l') -> compatible v l -> compatible (TNonNull v) l
  | compat_list v l : compatible v l -> compatible (TListOf v) (TListOf l)
  | compat_named n : compatible (TNamed n) (TNamed n).
  Definition usage_allowed (var : tref) (nonnull_default : bool) (loc : tref) : Prop :=
    compatible var loc \/ (nonnull_default = true /\ exists l, loc = TNonNull l /\ compatible var l).

  (** the text is an encoding of the bytes that the service decodes (C02) *)
  Definition decodes (text : string) (bytes : list ascii) : Prop :=
    exists k, text = (rfc4648_unpadded bytes ++ pad k)%string /\ k <= 2 /\ (List.length bytes mod 3 = 0 -> k <= 1).
  Definition builtin_scalar (n : string) : Prop := In n ["Int"; "Float"; "String"; "ID"; "Boolean"].
  Definition is_nonnull (t : tref) : Prop := exists t', t = TNonNull t'.

  (** 5.6.1 Values of correct type. [vars]: the variables of the operation; None in a fragment visited for itself, where
      any variable is accepted. [d]: the position has a default value that is not null. *)
  Inductive value_ok (vars : option (list variable_def)) : bool -> tref -> lit -> Prop :=
  | ok_any_var d t p n : vars = None -> value_ok vars d t (LVar p n)
  | ok_var d t p vs v : vars = Some vs -> In v vs -> usage_allowed (v_type v) (d || var_nonnull_default v) t ->
      value_ok vars d t (LVar p (v_name v))
  | ok_null d t p : d = true \/ ~ is_nonnull t -> value_ok vars d t (LNull p)
  | ok_nonnull d t l : (forall p, l <> LNull p) -> (forall p n, l <> LVar p n) -> value_ok vars d t l -> value_ok vars d (TNonNull t) l
  | ok_list d t p items : (forall x, In x items -> value_ok vars false t x) -> value_ok vars d (TListOf t) (LList p items)
  | ok_enum d n p x td : find_type S n = Some td -> td_kind td = ENUM -> In x (map ev_name (td_enums td)) ->
      value_ok vars d (TNamed n) (LEnum p x)
  | ok_int d p z : type_is "Int" SCALAR -> value_ok vars d (TNamed "Int") (LInt p z)
  | ok_float d p f : type_is "Float" SCALAR -> value_ok vars d (TNamed "Float") (LFloat p f)
  | ok_float_int d p z : type_is "Float" SCALAR -> value_ok vars d (TNamed "Float") (LInt p z)
  | ok_string d p s : type_is "String" SCALAR -> value_ok vars d (TNamed "String") (LString p s)
  | ok_id d p s bytes : type_is "ID" SCALAR -> decodes s bytes -> value_ok vars d (TNamed "ID") (LString p s)
  | ok_boolean d p b : type_is "Boolean" SCALAR -> value_ok vars d (TNamed "Boolean") (LBool p b)
  | ok_custom d n l : type_is n SCALAR -> ~ builtin_scalar n -> (forall p, l <> LNull p) -> (forall p n, l <> LVar p n) ->
      value_ok vars d (TNamed n) l                              (* DEVIATION: variables inside are not looked at *)
  | ok_object d n p fields td : find_type S n = Some td -> td_kind td = INPUT_OBJECT ->
      (forall fp k x, In (fp, (k, x)) fields ->
         exists a, In a (td_inputs td) /\ iv_name a = k /\
                   ((has_default a /\ exists q, x = LNull q)    (* DEVIATION: null for a non-null field with a default *)
                    \/ value_ok vars (nonnull_default a) (iv_type a) x)) ->
      (forall a, In a (td_inputs td) -> required a -> In (iv_name a) (map (fun f => fst (snd f)) fields)) ->
      value_ok vars d (TNamed n) (LObject p fields).

  (** 5.6.3 Input object field uniqueness, at every depth *)
  Inductive unique_fields : lit -> Prop :=
  | uf_list p items : Forall unique_fields items -> unique_fields (LList p items)
  | uf_object p fields : NoDup (map (fun f => fst (snd f)) fields) -> Forall (fun f => unique_fields (snd (snd f))) fields ->
      unique_fields (LObject p fields)
  | uf_leaf l : (forall p items, l <> LList p items) -> (forall p fields, l <> LObject p fields) -> unique_fields l.

  Definition find_input (k : string) (declared : list input_value) : option input_value :=
    find (fun a => String.eqb k (iv_name a)) declared.

  (** the variables that occur in a literal used at a type, not counting those inside a custom scalar *)
  Fixpoint lit_vars (l : lit) : tref -> list string :=
    match l with
    | LVar _ n => fun _ => [n]
    | _ =>
        fix at_type (t : tref) : list string :=
          match t, l with
          | TNonNull t', _ => at_type t'
          | TListOf t', LList _ items => flat_map (fun x => lit_vars x t') items
          | TNamed n, LObject _ fields =>
              match find_type S n with
              | Some d =>
                  match td_kind d with
                  | INPUT_OBJECT => flat_map (fun f => match find_input (fst (snd f)) (td_inputs d) with
                                                       | Some a => lit_vars (snd (snd f)) (iv_type a)
                                                       | None => []
                                                       end) fields
                  | _ => []
                  end
              | None => []
              end
          | _, _ => []
          end
    end.

  (** ** Arguments and directives *)
  Definition argument_ok (vars : option (list variable_def)) (a : input_value) (l : lit) : Prop :=
    (has_default a /\ exists p, l = LNull p)                    (* DEVIATION: null for a non-null argument with a default *)
    \/ value_ok vars (nonnull_default a) (iv_type a) l.
  (** 5.4.2 *)
  Definition arguments_unique (args : list argument) : Prop :=
    NoDup (map a_name args) /\ Forall (fun a => unique_fields (a_value a)) args.
  (** 5.4.1, 5.4.2.1, 5.6.1 *)
  Definition arguments_ok (vars : option (list variable_def)) (declared : list input_value) (args : list argument) : Prop :=
    (forall x, In x args -> exists a, In a declared /\ iv_name a = a_name x /\ argument_ok vars a (a_value x)) /\
    (forall a, In a declared -> required a -> In (iv_name a) (map a_name args)).
  Definition args_vars (declared : list input_value) (args : list argument) : list string :=
    flat_map (fun x => match find_input (a_name x) declared with Some a => lit_vars (a_value x) (iv_type a) | None => [] end) args.

  (** 5.7 *)
  Definition directives_ok (vars : option (list variable_def)) (loc : directive_location) (ds : list directive) : Prop :=
    NoDup (map d_name ds) /\
    (forall d, In d ds -> exists dd, In dd (s_directives S) /\ dd_name dd = d_name d /\ In loc (dd_locs dd) /\
       (d_args d = []                                           (* DEVIATION: required arguments may be missing *)
        \/ (arguments_unique (d_args d) /\ arguments_ok vars (dd_args dd) (d_args d)))).
  Definition find_directive (n : string) : option directive_def := find (fun dd => String.eqb n (dd_name dd)) (s_directives S).
  Definition dirs_vars (ds : list directive) : list string :=
    flat_map (fun d => match find_directive (d_name d) with Some dd => args_vars (dd_args dd) (d_args d) | None => [] end) ds.

  (** ** Selections *)
  (** A field as it is met when the fragments of a selection set are expanded: the fragments being expanded around it,
      the type it is selected on, and its parts. *)
  Record occurrence : Type := mkOcc {
    oc_stack : list string; oc_parent : string; oc_key : string; oc_name : string; oc_args : list argument;
    oc_sub : option (list selection) }.
  Inductive item : Type :=
  | IField (o : occurrence)
  | IDirs (loc : directive_location) (ds : list directive)
  | ISpread (name : string).

  Variable doc : document.
  Definition find_frag (n : string) : option fragment_def := find (fun f => String.eqb n (f_name f)) (fragments doc).

  (** Expanding the selections [sels] of type [T], in order; [stk] are the fragments being expanded. *)
  Inductive collect : list string -> string -> list selection -> list item -> Prop :=
  | col_nil stk T : collect stk T [] []
  | col_field stk T loc alias name args dirs sub r items :
      collect stk T r items ->
      collect stk T (SField loc alias name args dirs sub :: r)
        (IDirs FIELD dirs :: IField (mkOcc stk T (response_key alias name) name args (option_map snd sub)) :: items)
  | col_inline stk T loc cond dirs sels r T' i1 i2 :
      match cond with None => T' = T | Some (_, n) => T' = n /\ composite n /\ overlap T n end ->
      collect stk T' sels i1 -> collect stk T r i2 ->
      collect stk T (SInline loc cond dirs sels :: r) (IDirs INLINE_FRAGMENT dirs :: i1 ++ i2)
  | col_spread stk T loc name dirs r f i1 i2 :
      find_frag name = Some f -> ~ In name stk ->               (* 5.5.2.1, 5.5.2.2 *)
      find_type S (f_cond f) <> None -> overlap T (f_cond f) ->
      collect (name :: stk) (f_cond f) (f_sel f) i1 -> collect stk T r i2 ->
      collect stk T (SSpread loc name dirs :: r) (IDirs FRAGMENT_SPREAD dirs :: i1 ++ ISpread name :: i2).

  (** [o] is the first field of its response key *)
  Definition first_field (items : list item) (o : occurrence) : Prop :=
    exists pre post, items = pre ++ IField o :: post /\ forall o', In (IField o') pre -> oc_key o' <> oc_key o.

  (** literals that denote the same value; the fields of an object in any order *)
  Inductive same_value : lit -> lit -> Prop :=
  | same_var p q n : same_value (LVar p n) (LVar q n)
  | same_int p q z : same_value (LInt p z) (LInt q z)
  | same_float p q x y : double_eqb x y = true -> same_value (LFloat p x) (LFloat q y)
  | same_string p q s : same_value (LString p s) (LString q s)
  | same_bool p q b : same_value (LBool p b) (LBool q b)
  | same_null p q : same_value (LNull p) (LNull q)
  | same_enum p q s : same_value (LEnum p s) (LEnum q s)
  | same_list p q xs ys : Forall2 same_value xs ys -> same_value (LList p xs) (LList q ys)
  | same_object p q fs gs :
      length fs = length gs ->
      (forall fp k x, In (fp, (k, x)) fs -> exists gp y, In (gp, (k, y)) gs /\ same_value x y) ->
      same_value (LObject p fs) (LObject q gs).
  Definition same_args (xs ys : list argument) : Prop :=
    length xs = length ys /\
    forall x, In x xs -> exists y, In y ys /\ a_name y = a_name x /\ same_value (a_value x) (a_value y).

  (** 5.3.2 Field selection merging. DEVIATION: two fields on different object types may differ in everything but their
      type; a pair is compared only if one of the two is the first with its key; sub-selections are not merged. *)
  Definition mergeable (o o' : occurrence) : Prop :=
    exists ty args ty' args', field_of (oc_parent o) (oc_name o) ty args /\ field_of (oc_parent o') (oc_name o') ty' args' /\
      ty = ty' /\
      ((type_is (oc_parent o) OBJECT /\ type_is (oc_parent o') OBJECT /\ oc_parent o <> oc_parent o')
       \/ (oc_name o = oc_name o' /\ same_args (oc_args o) (oc_args o'))).

  (** A selection set of a composite type. DEVIATION: only the first field of each response key has its arguments and its
      sub-selection checked. *)
  Inductive scope_ok (vars : option (list variable_def)) (stk : list string) (T : string) (sels : list selection) : Prop :=
  | scope_intro items :
      collect stk T sels items ->
      (forall loc ds, In (IDirs loc ds) items -> directives_ok vars loc ds) ->
      (forall o, In (IField o) items -> arguments_unique (oc_args o) /\ exists ty args, field_of (oc_parent o) (oc_name o) ty args) ->
      (forall o ty args, first_field items o -> field_of (oc_parent o) (oc_name o) ty args ->
         arguments_ok vars args (oc_args o) /\ (composite (named_type ty) <-> oc_sub o <> None)) ->
      (forall o ty args sub, first_field items o -> field_of (oc_parent o) (oc_name o) ty args -> oc_sub o = Some sub ->
         scope_ok vars (oc_stack o) (named_type ty) sub) ->
      (forall o o' pre mid post, items = pre ++ IField o :: mid ++ IField o' :: post ->
         (forall x, In (IField x) pre -> oc_key x <> oc_key o) -> oc_key o' = oc_key o -> mergeable o o') ->
      scope_ok vars stk T sels.

  (** The variables and the spreads that are met on the way. *)
  Inductive scope_uses (stk : list string) (T : string) (sels : list selection) (v : string) : Prop :=
  | uses_dirs items loc ds : collect stk T sels items -> In (IDirs loc ds) items -> In v (dirs_vars ds) -> scope_uses stk T sels v
  | uses_args items o ty args : collect stk T sels items -> first_field items o -> field_of (oc_parent o) (oc_name o) ty args ->
      In v (args_vars args (oc_args o)) -> scope_uses stk T sels v
  | uses_sub items o ty args sub : collect stk T sels items -> first_field items o -> field_of (oc_parent o) (oc_name o) ty args ->
      oc_sub o = Some sub -> scope_uses (oc_stack o) (named_type ty) sub v -> scope_uses stk T sels v.
  Inductive scope_spreads (stk : list string) (T : string) (sels : list selection) (n : string) : Prop :=
  | spreads_here items : collect stk T sels items -> In (ISpread n) items -> scope_spreads stk T sels n
  | spreads_sub items o ty args sub : collect stk T sels items -> first_field items o -> field_of (oc_parent o) (oc_name o) ty args ->
      oc_sub o = Some sub -> scope_spreads (oc_stack o) (named_type ty) sub n -> scope_spreads stk T sels n.

  (** ** Operations and fragments *)
  (** 5.8.1, 5.8.2 and default values; [before] are the variables declared before. *)
  Fixpoint variables_ok (before : list variable_def) (vs : list variable_def) : Prop :=
    match vs with
    | [] => True
    | v :: r =>
        ~ In (v_name v) (map v_name before) /\ input_type (v_type v) /\
        (forall l, v_default v = Some l -> unique_fields l /\ value_ok (Some before) false (v_type v) l) /\
        variables_ok (before ++ [v]) r
    end.
  Definition default_vars (vs : list variable_def) : list string :=
    flat_map (fun v => match v_default v with Some l => lit_vars l (v_type v) | None => [] end) vs.

  Definition operation_kind (o : operation_def) : string := match op_type o with Some t => t | None => "query" end.
  Definition operation_name (o : operation_def) : string := match op_name o with Some n => n | None => "" end.
  Definition root_type (o : operation_def) : option string :=
    if String.eqb (operation_kind o) "query" then Some (s_query S)
    else if String.eqb (operation_kind o) "mutation" then s_mutation S
    else if String.eqb (operation_kind o) "subscription" then s_subscription S
    else None.
  Definition operation_location (o : operation_def) : directive_location :=
    if String.eqb (operation_kind o) "mutation" then MUTATION
    else if String.eqb (operation_kind o) "subscription" then SUBSCRIPTION else QUERY.

  Definition operation_ok (o : operation_def) : Prop :=
    variables_ok [] (op_vars o) /\
    directives_ok (Some (op_vars o)) (operation_location o) (op_dirs o) /\
    (exists T, root_type o = Some T /\ scope_ok (Some (op_vars o)) [] T (op_sel o) /\
       (* 5.2.3.1 *)
       (operation_kind o = "subscription" -> forall items, collect [] T (op_sel o) items ->
          forall x y, In (IField x) items -> In (IField y) items -> oc_key x = oc_key y) /\
       (* 5.8.4 *)
       (forall v, In v (op_vars o) ->
          In (v_name v) (default_vars (op_vars o)) \/ In (v_name v) (dirs_vars (op_dirs o)) \/ scope_uses [] T (op_sel o) (v_name v))).

  Definition fragment_ok (f : fragment_def) : Prop :=
    directives_ok None FRAGMENT_DEFINITION (f_dirs f) /\
    composite (f_cond f) /\                                     (* 5.5.1.2, 5.5.1.3 *)
    scope_ok None [f_name f] (f_cond f) (f_sel f).

  (** 5.5.1.4. DEVIATION: a spread in any fragment counts, also in an unused one. *)
  Definition fragment_used (n : string) : Prop :=
    (exists o T, In o (operations doc) /\ root_type o = Some T /\ scope_spreads [] T (op_sel o) n) \/
    (exists f, In f (fragments doc) /\ scope_spreads [f_name f] (f_cond f) (f_sel f) n).

  Definition valid_document : Prop :=
    (forall loc, ~ In (DOther loc) doc) /\                                          (* 5.1.1 *)
    NoDup (map f_name (fragments doc)) /\                                           (* 5.5.1.1 *)
    NoDup (map operation_name (operations doc)) /\                                  (* 5.2.1.1 *)
    (forall o, In o (operations doc) -> operation_name o = "" -> operations doc = [o]) /\   (* 5.2.2.1 *)
    (forall o, In o (operations doc) -> operation_ok o) /\
    (forall f, In f (fragments doc) -> fragment_ok f /\ fragment_used (f_name f)).
End Rules.

(** * Well-formed schemas and documents *)
Section WellFormed.
  Variable S : schema.
  (** no NonNull directly inside a NonNull *)
  Fixpoint proper (t : tref) : Prop :=
    match t with
    | TNamed _ => True
    | TListOf t' => proper t'
    | TNonNull t' => proper t' /\ forall t'', t' <> TNonNull t''
    end.
  Definition inputs_wf (l : list input_value) : Prop :=
    NoDup (map iv_name l) /\ forall a, In a l -> proper (iv_type a) /\ input_type S (iv_type a).
  (** What the schema generator produces: distinct non-empty names, type references that are defined and of the right
      kind, the built-in and (for introspection) the introspection types. *)
  Record schema_wf : Prop := {
    wf_names : forall n d, find_type S n = Some d -> n <> "" /\ td_kind d <> LIST /\ td_kind d <> NON_NULL;
    wf_fields : forall n d, find_type S n = Some d ->
      NoDup (map fd_name (td_fields d)) /\
      forall f, In f (td_fields d) ->
        ~ In (fd_name f) [""; "__typename"; "__schema"; "__type"] /\ proper (fd_type f) /\
        (exists d', find_type S (named_type (fd_type f)) = Some d' /\ td_kind d' <> INPUT_OBJECT) /\ inputs_wf (fd_args f);
    wf_union : forall n d, find_type S n = Some d -> td_kind d = UNION -> td_fields d = [];
    wf_inputs : forall n d, find_type S n = Some d -> td_kind d = INPUT_OBJECT -> inputs_wf (td_inputs d);
    wf_directives : NoDup (map dd_name (s_directives S)) /\ forall dd, In dd (s_directives S) -> inputs_wf (dd_args dd);
    wf_string : type_is S "String" SCALAR;
    wf_introspection : s_introspection S = true -> type_is S "__Schema" OBJECT /\ type_is S "__Type" OBJECT;
    wf_query : type_is S (s_query S) OBJECT;
    wf_mutation : forall t, s_mutation S = Some t -> type_is S t OBJECT;
    wf_subscription : forall t, s_subscription S = Some t -> type_is S t OBJECT }.

  (** What the grammar guarantees: selection sets are not empty, names are not empty, types are proper. *)
  Inductive sel_wf : selection -> Prop :=
  | swf_field loc alias name args dirs sub : name <> "" -> alias <> Some "" ->
      (forall l sels, sub = Some (l, sels) -> sels <> [] /\ Forall sel_wf sels) -> sel_wf (SField loc alias name args dirs sub)
  | swf_spread loc name dirs : sel_wf (SSpread loc name dirs)
  | swf_inline loc cond dirs sels : (forall l, cond <> Some (l, "")) -> sels <> [] -> Forall sel_wf sels ->
      sel_wf (SInline loc cond dirs sels).
  Record document_wf (doc : document) : Prop := {
    dwf_ops : forall o, In o (operations doc) ->
      op_sel o <> [] /\ Forall sel_wf (op_sel o) /\ op_name o <> Some "" /\ Forall (fun v => proper (v_type v)) (op_vars o);
    dwf_frags : forall f, In f (fragments doc) -> f_sel f <> [] /\ Forall sel_wf (f_sel f) }.
End WellFormed.
