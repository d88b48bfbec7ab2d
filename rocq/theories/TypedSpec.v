(** What it means for a service to be typed by its schema, and for values, arguments and response data to fit the types of
    the schema (C50). Independent of the validating and executing visitors. *)
From Verif Require Import Cpp Value Ast ErrorModel ExecModel ExecSpec ExecBigSpec SchemaModel ValidationSpec.
Local Open Scope string_scope.
Local Open Scope list_scope.

Section Types.
  Variable S : schema.

  (** A value given for a position of the type. An enum value that comes from JSON is a string. *)
  Inductive input_fits : tref -> value -> Prop :=
  | if_null t : ~ is_nonnull t -> input_fits t VNull
  | if_nonnull t v : v <> VNull -> input_fits t v -> input_fits (TNonNull t) v
  | if_list t vs : Forall (input_fits t) vs -> input_fits (TListOf t) (VList vs)
  | if_enum n td x : find_type S n = Some td -> td_kind td = ENUM -> In x (map ev_name (td_enums td)) -> input_fits (TNamed n) (VEnum x)
  | if_enum_json n td x : find_type S n = Some td -> td_kind td = ENUM -> In x (map ev_name (td_enums td)) -> input_fits (TNamed n) (VString x true)
  | if_int z : in_int_range z = true -> input_fits (TNamed "Int") (VInt z)
  | if_float f : input_fits (TNamed "Float") (VFloat f)
  | if_float_int z : in_int_range z = true -> input_fits (TNamed "Float") (VInt z)
  | if_string s b : input_fits (TNamed "String") (VString s b)
  | if_id s b bytes : decodes s bytes -> input_fits (TNamed "ID") (VString s b)
  | if_boolean b : input_fits (TNamed "Boolean") (VBool b)
  | if_custom n v : type_is S n SCALAR -> ~ builtin_scalar n -> v <> VNull -> input_fits (TNamed n) v
  | if_object n td kvs : find_type S n = Some td -> td_kind td = INPUT_OBJECT -> inputs_fit (td_inputs td) kvs -> input_fits (TNamed n) (VMap kvs)
  (** The entries of an arguments map or input object: each is declared and fits, or is null where there is a default;
      none that is required is missing. *)
  with inputs_fit : list input_value -> entries -> Prop :=
  | inputs_fit_intro declared kvs :
      (forall k v, lookup k kvs = Some v -> exists a, In a declared /\ iv_name a = k /\ position_fits a v) ->
      (forall a, In a declared -> required a -> lookup (iv_name a) kvs <> None) ->
      inputs_fit declared kvs
  with position_fits : input_value -> value -> Prop :=
  | pf_fits a v : input_fits (iv_type a) v -> position_fits a v
  | pf_default a : has_default a -> position_fits a VNull.

  (** The values of the variables of an operation. *)
  Definition variables_fit (vs : list variable_def) (es : entries) : Prop :=
    forall v, In v vs -> exists x, lookup (v_name v) es = Some x /\ input_fits (v_type v) x /\ (var_nonnull_default v = true -> x <> VNull).

  Definition leaf_type (n : string) : Prop := type_is S n SCALAR \/ type_is S n ENUM.

  (** An object type has the fields of its interfaces: of the same name, with a type that allows no more, with the same
      arguments and perhaps others that are not required. *)
  Definition covers (ty ty' : tref) (args args' : list input_value) : Prop :=
    (composite S (named_type ty') <-> composite S (named_type ty)) /\
    (forall o, possible S (named_type ty') o -> possible S (named_type ty) o) /\
    (forall a, In a args -> exists a', In a' args' /\ iv_name a' = iv_name a /\ iv_type a' = iv_type a /\ iv_default a' = iv_default a) /\
    (forall a', In a' args' -> required a' -> exists a, In a args /\ iv_name a = iv_name a').
  Definition interfaces_implemented : Prop := forall i di t dt f,
    find_type S i = Some di -> td_kind di = INTERFACE -> In t (td_possible di) -> find_type S t = Some dt -> In f (td_fields di) ->
    exists f', In f' (td_fields dt) /\ fd_name f' = fd_name f /\ covers (fd_type f) (fd_type f') (fd_args f) (fd_args f').

  (** directive @skip(if: Boolean!) and directive @include(if: Boolean!) *)
  Definition conditions_declared : Prop := type_is S "Boolean" SCALAR /\ forall dd, In dd (s_directives S) -> In (dd_name dd) ["skip"; "include"] ->
    exists desc, dd_args dd = [mkInput "if" desc (TNonNull (TNamed "Boolean")) ""].

  (** *** The service *)
  Context {O : Type}.
  Variables (typenames : O -> list string) (has_field : O -> string -> bool) (ans : O -> string -> fparams -> answer O).
  (** the object type of an object *)
  Variable otype : O -> string.

  (** What an accessor of a field of the given type may return. A leaf may be the exception of a future. *)
  Inductive result_fits : tref -> fres O -> Prop :=
  | rf_leaf n b fut v : leaf_type n -> match v with Ok x => input_fits (TNonNull (TNamed n)) x | Throw _ => True | UB => False end ->
      result_fits (TNonNull (TNamed n)) (FLeaf b fut v)
  | rf_object n fut o : composite S n -> possible S n (otype o) -> result_fits (TNonNull (TNamed n)) (FObject fut (Ok (Some o)))
  | rf_derived n o : composite S n -> possible S n (otype o) -> result_fits (TNonNull (TNamed n)) (FDerived (Ok (Some o)))
  | rf_no_object n fut : composite S n -> result_fits (TNamed n) (FObject fut (Ok None))
  | rf_no_derived n : composite S n -> result_fits (TNamed n) (FDerived (Ok None))
  | rf_list t fs : (forall f, In f fs -> result_fits t f) -> result_fits (TNonNull (TListOf t)) (FList (Ok fs))
  | rf_null t : ~ is_nonnull t -> result_fits t (FNullable (Ok None))
  | rf_nullable t f : ~ is_nonnull t -> result_fits (TNonNull t) f -> result_fits t (FNullable (Ok (Some f)))
  | rf_present t f : ~ is_nonnull t -> result_fits (TNonNull t) f -> result_fits t f.

  (** The objects have the fields of their types, and their accessors, called with arguments that fit, throw or return what
      fits the type of the field. *)
  Record typed_service : Prop := {
    ts_object : forall o, type_is S (otype o) OBJECT;
    ts_types : forall o t, In t (typenames o) <-> possible S t (otype o);
    ts_fields : forall o f ty args, field_of S (otype o) f ty args -> has_field o f = true;
    ts_answers : forall o f ty args p, field_of S (otype o) f ty args -> inputs_fit args (p_args p) ->
      match ans o f p with AThrow _ => True | AResult r => result_fits ty r end }.

  (** *** Failures of accessors *)
  (** [leaf_failure r indices ex]: the leaf of the result [r] at the given list indices is the exception [ex]. *)
  Inductive leaf_failure : fres O -> list N -> exn -> Prop :=
  | lf_leaf b fut ex : leaf_failure (FLeaf b fut (Throw ex)) [] ex
  | lf_nullable f is ex : leaf_failure f is ex -> leaf_failure (FNullable (Ok (Some f))) is ex
  | lf_list fs i f is ex : nth_error fs i = Some f -> leaf_failure f is ex -> leaf_failure (FList (Ok fs)) (N.of_nat i :: is) ex.

  (** A call of an accessor that a request can lead to: the field is one of the object's type, the arguments fit their declarations, and no value in
      them is a null scalar. *)
  Definition proper_call (o : O) (f : string) (q : fparams) : Prop :=
    (exists ty args, field_of S (otype o) f ty args /\ inputs_fit args (p_args q)) /\ has_null_scalar (VMap (p_args q)) = false.

  (** The accessor of the field [f] of an object of type [T] failed at the response path: it threw, or the leaf at the list indices that it returned
      is an exception. *)
  Inductive failed_at (T f : string) : list path_segment -> list N -> Prop :=
  | fa_throw o q ex : otype o = T -> proper_call o f q -> ans o f q = AThrow ex -> failed_at T f (p_path q) []
  | fa_leaf o q r is ex : otype o = T -> proper_call o f q -> ans o f q = AResult r -> leaf_failure r is ex -> failed_at T f (p_path q) is.

  (** The errors that tell of a failing accessor. *)
  Inductive accessor_error : schema_error -> Prop :=
  | ae_throw o f q ex loc x : proper_call o f q -> ans o f q = AThrow ex -> In x (located loc (p_path q) (p_name q) ex) -> accessor_error x
  | ae_leaf o f q r c w loc is : proper_call o f q -> ans o f q = AResult r -> leaf_failure r is (Exn c w) ->
      accessor_error (mkErr ("Field name: " ++ p_name q ++ " unknown error: " ++ w) loc (p_path q ++ map PIndex is))
  | ae_leaf_errors o f q r is errs x : proper_call o f q -> ans o f q = AResult r -> leaf_failure r is (SchemaEx errs) -> In x errs -> accessor_error x.

  (** The type at list indices of a value of a type. *)
  Inductive place : tref -> list N -> tref -> Prop :=
  | place_here t : place t [] t
  | place_nonnull t i is u : place t (i :: is) u -> place (TNonNull t) (i :: is) u
  | place_list t i is u : place t is u -> place (TListOf t) (i :: is) u.
  (** Accessors do not fail, or at least not where the type forbids null. *)
  Definition never_fails : Prop := forall T f p is, ~ failed_at T f p is.
  Definition fails_mildly : Prop := forall T f p is ty args u, failed_at T f p is -> field_of S T f ty args -> place ty is u -> ~ is_nonnull u.

  Variable doc : document.

  (** *** Response data *)
  (** [selects_field T sels key name sub]: a field [name] with response key [key] and sub-selection [sub] (empty if there is
      none) is in the selection set, directly or in a fragment that applies to the object type [T]. *)
  Inductive selects_field (T : string) : list selection -> string -> string -> list selection -> Prop :=
  | sf_here loc al n args dirs sub sels : In (SField loc al n args dirs sub) sels ->
      selects_field T sels (response_key al n) n (match sub with Some (_, l) => l | None => [] end)
  | sf_inline loc c dirs sel sels k n sub : In (SInline loc c dirs sel) sels -> (forall l t, c = Some (l, t) -> possible S t T) ->
      selects_field T sel k n sub -> selects_field T sels k n sub
  | sf_spread loc name dirs f sels k n sub : In (SSpread loc name dirs) sels -> find_frag doc name = Some f -> possible S (f_cond f) T ->
      selects_field T (f_sel f) k n sub -> selects_field T sels k n sub.

  (** Data for a selection set on a type, at list indices of the value at a response path of the field [f] of an object of type [T]. There may be null
      where the type does not allow it if the field [failed] there. *)
  Variable failed : string -> string -> list path_segment -> list N -> Prop.
  Inductive data_fits : string -> string -> list path_segment -> list N -> tref -> list selection -> value -> Prop :=
  | df_failed T f p is t sels : failed T f p is -> data_fits T f p is t sels VNull
  | df_null T f p is t sels : ~ is_nonnull t -> data_fits T f p is t sels VNull
  | df_nonnull T f p is t sels v : v <> VNull -> data_fits T f p is t sels v -> data_fits T f p is (TNonNull t) sels v
  | df_list T f p is t sels vs : (forall i v, nth_error vs i = Some v -> data_fits T f p (is ++ [N.of_nat i]) t sels v) -> data_fits T f p is (TListOf t) sels (VList vs)
  | df_leaf T f p is n v : leaf_type n -> input_fits (TNonNull (TNamed n)) v -> data_fits T f p is (TNamed n) [] v
  | df_object T f p is n T' sels kvs : possible S n T' -> object_fits (p ++ map PIndex is) T' sels kvs -> data_fits T f p is (TNamed n) sels (VMap kvs)
  with object_fits : list path_segment -> string -> list selection -> entries -> Prop :=
  | of_intro p T sels kvs : NoDup (map fst kvs) -> (forall k v, In (k, v) kvs -> entry_fits p T sels k v) -> object_fits p T sels kvs
  with entry_fits : list path_segment -> string -> list selection -> string -> value -> Prop :=
  | ef_intro p T sels k v name ty args sub : selects_field T sels k name sub -> field_of S T name ty args ->
      data_fits T name (p ++ [PName k]) [] ty sub v -> entry_fits p T sels k v.

  (** *** What the validation rules of this library do not look at *)
  (** Integers of 32 bits and declared variables only. *)
  Inductive plain (known : list string) : lit -> Prop :=
  | pl_var l n : In n known -> plain known (LVar l n)
  | pl_int l z : in_int_range z = true -> plain known (LInt l z)
  | pl_float l f : plain known (LFloat l f)
  | pl_string l s : plain known (LString l s)
  | pl_bool l b : plain known (LBool l b)
  | pl_null l : plain known (LNull l)
  | pl_enum l s : plain known (LEnum l s)
  | pl_list l is : Forall (plain known) is -> plain known (LList l is)
  | pl_object l fs : Forall (fun f => plain known (snd (snd f))) fs -> plain known (LObject l fs).
  Definition plain_args (known : list string) (args : list argument) : Prop := Forall (fun a => plain known (a_value a)) args.
  (** @skip and @include have their argument, and are not used both on one selection (C11). *)
  Definition plain_dirs (known : list string) (ds : list directive) : Prop :=
    Forall (fun d => d_name d <> "" /\ plain_args known (d_args d) /\ (In (d_name d) ["skip"; "include"] -> d_args d <> [])) ds /\
    ~ (In "skip" (map d_name ds) /\ In "include" (map d_name ds)).

  (** A selection set in which every field, not only the first of each response key, has been looked at. *)
  Inductive checked (vars : list variable_def) (known : list string) (stk : list string) (T : string) (sels : list selection) : Prop :=
  | checked_intro items :
      collect S doc stk T sels items ->
      (forall loc ds, In (IDirs loc ds) items -> directives_ok S (Some vars) loc ds /\ plain_dirs known ds) ->
      (forall o, In (IField o) items -> arguments_unique (oc_args o) /\ plain_args known (oc_args o) /\
         exists ty args, field_of S (oc_parent o) (oc_name o) ty args) ->
      (forall o ty args, In (IField o) items -> field_of S (oc_parent o) (oc_name o) ty args ->
         arguments_ok S (Some vars) args (oc_args o) /\ (composite S (named_type ty) <-> oc_sub o <> None)) ->
      (forall o ty args sub, In (IField o) items -> field_of S (oc_parent o) (oc_name o) ty args -> oc_sub o = Some sub ->
         checked vars known (oc_stack o) (named_type ty) sub) ->
      checked vars known stk T sels.
End Types.

(** Where nothing failed. *)
Definition nowhere (T f : string) (p : list path_segment) (is : list N) : Prop := False.
