(** What a client generated for an operation should be (C52): a struct with one member for every response key, of the C++ type that
    belongs to the field's type, filled with the data of the response. Independent of RequestLoader and of the parsing code. *)
From Coq Require Import String List Bool NArith.
From Verif Require Import Cpp Value Ast SchemaModel ModifiersModel Base64Spec LoaderModel LoaderSpec ValidationSpec.
Import ListNotations.
Local Open Scope string_scope.
Local Open Scope list_scope.

Section Client.
Variable S : schema.
Variable doc : document.

(** ** The struct *)
(** The C++ type of a leaf. The texts of an enum are those of the schema. *)
Inductive cpp_leaf : string -> scalar -> Prop :=
| cl_int : cpp_leaf "Int" KInt
| cl_float : cpp_leaf "Float" KFloat
| cl_string : cpp_leaf "String" KString
| cl_boolean : cpp_leaf "Boolean" KBool
| cl_id : cpp_leaf "ID" KId
| cl_custom n : type_is S n SCALAR -> ~ builtin_scalar n -> cpp_leaf n KValue
| cl_enum n d cpp : find_type S n = Some d -> td_kind d = ENUM -> cpp_leaf n (KEnum cpp (map ev_name (td_enums d))).

(** [selected T sels key P name sub]: the selection set on [T] has, itself or in fragments, a field [name] of the type [P] with response
    key [key] and sub-selection [sub]. *)
Inductive selected : string -> list selection -> string -> string -> string -> list selection -> Prop :=
| sel_here T loc al n args dirs sub sels : In (SField loc al n args dirs sub) sels ->
    selected T sels (response_key al n) T n (match sub with Some (_, l) => l | None => [] end)
| sel_inline T loc c dirs sel sels k P n sub : In (SInline loc c dirs sel) sels ->
    selected (match c with Some (_, t) => t | None => T end) sel k P n sub -> selected T sels k P n sub
| sel_spread T loc name dirs f sels k P n sub : In (SSpread loc name dirs) sels -> find_frag doc name = Some f ->
    selected (f_cond f) (f_sel f) k P n sub -> selected T sels k P n sub.

(** The modifiers of a member are those of the field's type ([stands_for], C35). DEVIATION: __schema, of type __Schema!, is made optional. *)
Inductive member : string -> string -> tref -> list modifier -> Prop :=
| mb_field P name ty ms : stands_for (named_type ty) ms ty -> member P name ty ms
| mb_schema P : member P "__schema" (TNonNull (TNamed "__Schema")) [MNullable].

(** The type of a member: a leaf, or a struct for a composite type. *)
Inductive member_type : string -> list selection -> itype -> Prop :=
| mt_leaf n k : cpp_leaf n k -> member_type n [] (ILeaf k)
| mt_struct n sels fields : composite S n -> declares n sels fields -> member_type n sels (IStruct fields)
(** One member for each response key. *)
with declares : string -> list selection -> list field -> Prop :=
| declares_intro T sels fields : NoDup (map fst fields) ->
    (forall k ms t d, In (k, (ms, (t, d))) fields -> exists P name ty args sub, selected T sels k P name sub /\ field_of S P name ty args /\
       member P name ty ms /\ member_type (named_type ty) sub t) ->
    (forall k P name sub, selected T sels k P name sub -> In k (map fst fields)) ->
    declares T sels fields.

(** ** The data *)
(** The value of a member that is declared with {}: zero, empty, or a struct of such. *)
Inductive zero_leaf : scalar -> cppval -> Prop :=
| zl_int : zero_leaf KInt (XInt 0) | zl_float : zero_leaf KFloat (XFloat (S754_zero false)) | zl_string : zero_leaf KString (XString "")
| zl_boolean : zero_leaf KBool (XBool false) | zl_id : zero_leaf KId (XId []) | zl_custom : zero_leaf KValue (XValue VNull)
| zl_enum t names : zero_leaf (KEnum t names) (XEnum 0).
Inductive initialised : list modifier -> itype -> cppval -> Prop :=
| iv_nullable ms t : initialised (MNullable :: ms) t (XOpt None)
| iv_list ms t : initialised (MList :: ms) t (XVec [])
| iv_leaf k x : zero_leaf k x -> initialised [] (ILeaf k) x
| iv_struct fields xs : all_initialised fields xs -> initialised [] (IStruct fields) (XStruct xs)
with all_initialised : list field -> list cppval -> Prop :=
| ai_nil : all_initialised [] []
| ai_cons k ms t d fs x xs : initialised ms t x -> all_initialised fs xs -> all_initialised ((k, (ms, (t, d))) :: fs) (x :: xs).
(** A member that the response does not have (it was skipped, or its fragment did not apply) is as initialised. *)
Definition untouched (f : field) (x : cppval) : Prop := initialised (fst (snd f)) (fst (snd (snd f))) x.
Inductive leaf_shows : scalar -> value -> cppval -> Prop :=
| ls_int z : leaf_shows KInt (VInt z) (XInt z)
| ls_float f : leaf_shows KFloat (VFloat f) (XFloat f)
| ls_float_int z : leaf_shows KFloat (VInt z) (XFloat (int_to_double z))
| ls_string s j : leaf_shows KString (VString s j) (XString s)
| ls_boolean b : leaf_shows KBool (VBool b) (XBool b)
| ls_id s j bytes : decodes s bytes -> leaf_shows KId (VString s j) (XId bytes)
| ls_custom v : leaf_shows KValue v (XValue v)
| ls_enum t names s i : nth_error names i = Some s -> leaf_shows (KEnum t names) (VEnum s) (XEnum i)
| ls_enum_json t names s i : nth_error names i = Some s -> leaf_shows (KEnum t names) (VString s true) (XEnum i).
(** The C++ value shows the value of the response; an object is shown whole: each of its entries by a member, every other member
    untouched. *)
Inductive shows : list modifier -> itype -> value -> cppval -> Prop :=
| sh_null ms t : shows (MNullable :: ms) t VNull (XOpt None)
| sh_some ms t v x : v <> VNull -> shows ms t v x -> shows (MNullable :: ms) t v (XOpt (Some x))
| sh_list ms t vs xs : shows_all ms t vs xs -> shows (MList :: ms) t (VList vs) (XVec xs)
| sh_leaf k v x : leaf_shows k v x -> shows [] (ILeaf k) v x
| sh_struct fields kvs xs : (forall k, In k (map fst kvs) -> In k (map fst fields)) -> shows_fields fields kvs xs ->
    shows [] (IStruct fields) (VMap kvs) (XStruct xs)
with shows_all : list modifier -> itype -> list value -> list cppval -> Prop :=
| sa_nil ms t : shows_all ms t [] []
| sa_cons ms t v vs x xs : shows ms t v x -> shows_all ms t vs xs -> shows_all ms t (v :: vs) (x :: xs)
with shows_fields : list field -> list (string * value) -> list cppval -> Prop :=
| sfs_nil kvs : shows_fields [] kvs []
| sfs_there k ms t d fs kvs v x xs : lookup k kvs = Some v -> shows ms t v x -> shows_fields fs kvs xs ->
    shows_fields ((k, (ms, (t, d))) :: fs) kvs (x :: xs)
| sfs_absent f fs kvs x xs : lookup (fst f) kvs = None -> untouched f x -> shows_fields fs kvs xs -> shows_fields (f :: fs) kvs (x :: xs).

(** ** Conditions *)
(** 3.6.1 of the GraphQL specification: the type of a field may be a subtype of the type it has in the interface. *)
Inductive sub_type : tref -> tref -> Prop :=
| st_same n : sub_type (TNamed n) (TNamed n)
| st_possible n o : possible S n o -> type_is S o OBJECT -> sub_type (TNamed o) (TNamed n)
| st_list a b : sub_type a b -> sub_type (TListOf a) (TListOf b)
| st_nonnull a b : sub_type a b -> sub_type (TNonNull a) (TNonNull b)
| st_stronger a b : sub_type a b -> sub_type (TNonNull a) b.
Definition interfaces_covariant : Prop := forall i di t dt f f',
  find_type S i = Some di -> td_kind di = INTERFACE -> In t (td_possible di) -> find_type S t = Some dt -> In f (td_fields di) ->
  In f' (td_fields dt) -> fd_name f' = fd_name f -> sub_type (fd_type f') (fd_type f).
(** Enum values that are their own C++ names (C36). *)
Definition plain_enums : Prop := forall n d v, find_type S n = Some d -> td_kind d = ENUM -> In v (td_enums d) -> safe_cpp_name (ev_name v) = ev_name v.
(** The values of an enum are distinct, and no scalar type or enum is called like a built-in one. *)
Definition enums_distinct : Prop := forall n d, find_type S n = Some d -> td_kind d = ENUM -> NoDup (map ev_name (td_enums d)) /\ ~ builtin_scalar n.
End Client.
