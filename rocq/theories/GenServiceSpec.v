(** What schemagen's users are asked for, in terms of the schema (for C57): the values that their accessors return have the types of the fields. *)
From Verif Require Import RegistryModel IntroModel IntroSpec.
From Verif Require Import Cpp Value Ast Base64Spec ModifiersModel ModifiersSpec SchemaModel LoaderModel LoaderSpec GenSpec ExecModel ExecSem ValidationSpec TypedSpec ClientSpec VariablesSpec GenServiceModel.
Local Open Scope string_scope.
Local Open Scope list_scope.

(** ** C++ values of a type. As [typed], but a custom scalar may hold any value. *)
Inductive cpp_value : list modifier -> itype -> cppval -> Prop :=
| cv_none ms t : cpp_value (MNullable :: ms) t (XOpt None)
| cv_some ms t x : cpp_value ms t x -> cpp_value (MNullable :: ms) t (XOpt (Some x))
| cv_vec ms t l : (forall x, In x l -> cpp_value ms t x) -> cpp_value (MList :: ms) t (XVec l)
| cv_leaf k x : typed_leaf k x -> cpp_value [] (ILeaf k) x
| cv_custom v : cpp_value [] (ILeaf KValue) (XValue v)
| cv_struct fields xs : cpp_values fields xs -> cpp_value [] (IStruct fields) (XStruct xs)
with cpp_values : list field -> list cppval -> Prop :=
| cvs_nil : cpp_values [] []
| cvs_cons name ms t d fs x xs : cpp_value ms t x -> cpp_values fs xs -> cpp_values ((name, (ms, (t, d))) :: fs) (x :: xs).

Section Spec.
  Variable S : schema.
  Context {U : Type} (class : U -> string).

  (** An argument of the declared type. *)
  Definition argument_value (a : input_value) (x : cppval) : Prop :=
    exists ms t, stands_for (named_type (iv_type a)) ms (iv_type a) /\ input_cpp S (named_type (iv_type a)) t /\ cpp_value ms t x.

  (** What an accessor of a field of the type returns. A pointer that is not null points to an object of a class that is possible for the
      type; a pointer is null only where the type is nullable. *)
  Inductive returns : tref -> outval U -> Prop :=
  | rt_leaf n k x : leaf_type S n -> cpp_leaf S n k -> typed_leaf k x -> returns (TNonNull (TNamed n)) (OLeaf x)
  | rt_object n u : composite S n -> possible S n (class u) -> returns (TNonNull (TNamed n)) (OPtr (Some u))
  | rt_nullable_object n p : composite S n -> (forall u, p = Some u -> possible S n (class u)) -> returns (TNamed n) (OPtr p)
  | rt_list t vs : (forall v, In v vs -> returns t v) -> returns (TNonNull (TListOf t)) (OVec vs)
  | rt_null t : ~ is_nonnull t -> (forall n, t = TNamed n -> leaf_type S n) -> returns t (OOpt None)
  | rt_value t v : ~ is_nonnull t -> (forall n, t = TNamed n -> leaf_type S n) -> returns (TNonNull t) v -> returns t (OOpt (Some v)).

  (** The user's classes derive from those of the object types of the document. Their accessors, called with arguments of the declared types,
      throw or return what fits; a future may fail where the type is a leaf that is not null (C50 says what happens elsewhere). *)
  Record implements (ds : list sdl_def) (access : U -> string -> fparams -> list cppval -> accessed U) : Prop := {
    im_class : forall u, In (class u) (GenSpec.objects_of ds);
    im_access : forall u d f p xs, find_type S (class u) = Some d -> In f (td_fields d) -> Forall2 argument_value (fd_args f) xs ->
      match access u (fd_name f) p xs with
      | Thrown _ => True
      | Now v | Later v => returns (fd_type f) v
      | Failing _ => exists n, fd_type f = TNonNull (TNamed n) /\ leaf_type S n
      end }.
  (** The accessors throw only where the type of the field is nullable, and their futures do not fail. *)
  Definition careful (access : U -> string -> fparams -> list cppval -> accessed U) : Prop :=
    forall u d f p xs, find_type S (class u) = Some d -> In f (td_fields d) -> Forall2 argument_value (fd_args f) xs ->
      match access u (fd_name f) p xs with
      | Thrown _ => ~ is_nonnull (fd_type f)
      | Failing _ => False
      | Now _ | Later _ => True
      end.
End Spec.

(** ** Documents *)
(** The default values fit the types of their arguments. *)
Definition defaults_fit (S : schema) (ds : list sdl_def) : Prop := forall d i c text v, In d ds -> In i (inputs_in d) -> si_default i = Some (c, text) ->
  visit_default c = Ok v -> v <> VNull -> input_fits S (si_type i) v.
(** Arguments have built-in types or types of the document (not those of introspection: the generated code would not compile). *)
Definition own_types (ds : list sdl_def) : Prop := forall d i, In d ds -> In i (inputs_in d) -> In (base_name (si_type i)) (builtin_types ++ declared_names ds).

(** ** The introspection objects of the service: those that stand for something in its schema, with the answers of IntroModel. *)
Definition live (r : registry) (i : iobj) : Prop := exists s, irep r s i.
Notation iobject r := {i : iobj | live r i}.
Record hosted (r : registry) (ians : iobject r -> string -> fparams -> answer (iobject r)) (ischema : answer (iobject r)) (itype : fparams -> answer (iobject r)) : Prop := {
  hd_ans : forall i f p, i_has (proj1_sig i) f = true -> amap (@proj1_sig _ _) (ians i f p) = i_ans r (proj1_sig i) f p;
  hd_schema : amap (@proj1_sig _ _) ischema = query_schema_answer;
  hd_type : forall p, amap (@proj1_sig _ _) (itype p) = query_type_answer r p }.

(** The object type of an object. *)
Definition object_type_of {U : Type} (class : U -> string) (r : registry) (o : gobj U (iobject r)) : string :=
  match o with GUser u => class u | GIntro i => i_typename (proj1_sig i) end.

(** ** The values themselves *)
Section Values.
  Variables (S : schema) (l : loader) (six : spec_float -> spec_float).
  (** The default value as the generated code has it: the same value, except that numbers with a fraction have six digits. *)
  Inductive written : value -> value -> Prop :=
  | wr_null : written VNull VNull
  | wr_bool b : written (VBool b) (VBool b)
  | wr_int z : written (VInt z) (VInt z)
  | wr_float f : written (VFloat f) (VFloat (six f))
  | wr_string s j : written (VString s j) (VString s j)
  | wr_enum s : written (VEnum s) (VEnum s)
  | wr_scalar o o' : written_scalar o o' -> written (VScalar o) (VScalar o')
  | wr_list vs ws : written_all vs ws -> written (VList vs) (VList ws)
  | wr_map es fs : written_entries es fs -> written (VMap es) (VMap fs)
  with written_scalar : option value -> option value -> Prop :=
  | ws_none : written_scalar None None
  | ws_some v w : written v w -> written_scalar (Some v) (Some w)
  with written_all : list value -> list value -> Prop :=
  | wa_nil : written_all [] []
  | wa_cons v w vs ws : written v w -> written_all vs ws -> written_all (v :: vs) (w :: ws)
  with written_entries : entries -> entries -> Prop :=
  | we_nil : written_entries [] []
  | we_cons k v w es fs : written v w -> written_entries es fs -> written_entries ((k, v) :: es) ((k, w) :: fs).

  (** [gets n ms v x]: the value [v] given for a position of the type [n] under the modifiers [ms] is the C++ value [x]. The members of an input object are in the order of
      the document. In an input object that is null although the type is not (validation allows that where there is a default) all members have their defaults. *)
  Inductive gets : string -> list modifier -> value -> cppval -> Prop :=
  | gt_null n ms : gets n (MNullable :: ms) VNull (XOpt None)
  | gt_some n ms v x : v <> VNull -> gets n ms v x -> gets n (MNullable :: ms) v (XOpt (Some x))
  | gt_list n ms vs xs : gets_all n ms vs xs -> gets n (MList :: ms) (VList vs) (XVec xs)
  | gt_leaf n k v x : leaf_type S n -> cpp_leaf S n k -> coerces_leaf k v x -> gets n [] v x
  | gt_object t es xs : In t (l_inputs l) -> members (it_fields t) es xs -> gets (it_type t) [] (VMap es) (XStruct xs)
  | gt_no_object t xs : In t (l_inputs l) -> defaults (it_fields t) xs -> gets (it_type t) [] VNull (XStruct xs)
  with gets_all : string -> list modifier -> list value -> list cppval -> Prop :=
  | ga_nil n ms : gets_all n ms [] []
  | ga_cons n ms v vs x xs : gets n ms v x -> gets_all n ms vs xs -> gets_all n ms (v :: vs) (x :: xs)
  (** The arguments of a field, or the members of an input object, from what is given by name. *)
  with members : list in_field -> entries -> list cppval -> Prop :=
  | mb_nil es : members [] es []
  | mb_cons f fs es x xs : member f (lookup (in_name f) es) x -> members fs es xs -> members (f :: fs) es (x :: xs)
  with member : in_field -> option value -> cppval -> Prop :=
  | mb_given f v x : gets (in_type f) (in_mods f) v x -> member f (Some v) x
  | mb_none f ms : in_mods f = MNullable :: ms -> member f None (XOpt None)
  | mb_default f g d x : g = None \/ g = Some VNull -> (forall ms, in_mods f <> MNullable :: ms) -> in_default f <> VNull ->
      written (in_default f) d -> gets (in_type f) (in_mods f) d x -> member f g x
  with defaults : list in_field -> list cppval -> Prop :=
  | df_nil : defaults [] []
  | df_cons f fs d x xs : in_default f <> VNull -> written (in_default f) d -> gets (in_type f) (in_mods f) d x -> defaults fs xs -> defaults (f :: fs) (x :: xs).

  (** What is in the response for a C++ value. *)
  Inductive shown : scalar -> cppval -> value -> Prop :=
  | sh_int z : shown KInt (XInt z) (VInt z)
  | sh_float f : shown KFloat (XFloat f) (VFloat f)
  | sh_string s : shown KString (XString s) (VString s false)
  | sh_bool b : shown KBool (XBool b) (VBool b)
  | sh_id bytes : shown KId (XId bytes) (VString (rfc4648 bytes) false)
  | sh_value v : shown KValue (XValue v) v
  | sh_enum t names i s : nth_error names i = Some s -> shown (KEnum t names) (XEnum i) (VEnum s).

  (** [delivers ty v r]: the result of the field is what the accessor returned. *)
  Context {U I : Type}.
  Inductive delivers : tref -> outval U -> fres (gobj U I) -> Prop :=
  | dl_leaf n k x v b fut : leaf_type S n -> cpp_leaf S n k -> shown k x v -> delivers (TNonNull (TNamed n)) (OLeaf x) (FLeaf b fut (Ok v))
  | dl_object n u fut : composite S n -> delivers (TNonNull (TNamed n)) (OPtr (Some u)) (FObject fut (Ok (Some (GUser u))))
  | dl_derived n u : composite S n -> delivers (TNonNull (TNamed n)) (OPtr (Some u)) (FDerived (Ok (Some (GUser u))))
  | dl_no_object n : delivers (TNamed n) (OPtr None) (FNullable (Ok None))
  | dl_nullable_object n u r : delivers (TNonNull (TNamed n)) (OPtr (Some u)) r -> delivers (TNamed n) (OPtr (Some u)) (FNullable (Ok (Some r)))
  | dl_null t : ~ is_nonnull t -> delivers t (OOpt None) (FNullable (Ok None))
  | dl_value t v r : ~ is_nonnull t -> delivers (TNonNull t) v r -> delivers t (OOpt (Some v)) (FNullable (Ok (Some r)))
  | dl_list t vs rs : delivers_all t vs rs -> delivers (TNonNull (TListOf t)) (OVec vs) (FList (Ok rs))
  with delivers_all : tref -> list (outval U) -> list (fres (gobj U I)) -> Prop :=
  | da_nil t : delivers_all t [] []
  | da_cons t v vs r rs : delivers t v r -> delivers_all t vs rs -> delivers_all t (v :: vs) (r :: rs).
End Values.
