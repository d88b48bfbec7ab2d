(** What argument coercion and the client/service conversions should do. *)
From Verif Require Import Cpp Value Base64Model ModifiersModel JSONSpec.
Local Open Scope list_scope.

(** ** GraphQL input coercion for a modifier stack, an input type and an argument that may be absent. *)
Inductive coerces_leaf : scalar -> value -> cppval -> Prop :=
| cl_int z : coerces_leaf KInt (VInt z) (XInt z)
| cl_float f : coerces_leaf KFloat (VFloat f) (XFloat f)
| cl_float_int z : coerces_leaf KFloat (VInt z) (XFloat (int_to_double z))
| cl_string s j : coerces_leaf KString (VString s j) (XString s)
| cl_bool b : coerces_leaf KBool (VBool b) (XBool b)
| cl_id s j bytes : fromBase64 s = Ok bytes -> coerces_leaf KId (VString s j) (XId bytes)
| cl_value v : coerces_leaf KValue v (XValue v)
| cl_enum t names s i : first_position s names i -> coerces_leaf (KEnum t names) (VEnum s) (XEnum i)
| cl_enum_json t names s i : first_position s names i -> coerces_leaf (KEnum t names) (VString s true) (XEnum i)
with first_position : string -> list string -> nat -> Prop :=
| fp_intro s names i : nth_error names i = Some s -> (forall j, j < i -> nth_error names j <> Some s) -> first_position s names i.

Inductive coerces : list modifier -> itype -> option value -> cppval -> Prop :=
| co_absent ms t : coerces (MNullable :: ms) t None (XOpt None)
| co_null ms t : coerces (MNullable :: ms) t (Some VNull) (XOpt None)
| co_some ms t v x : v <> VNull -> coerces ms t (Some v) x -> coerces (MNullable :: ms) t (Some v) (XOpt (Some x))
| co_list ms t l xs : coerces_all ms t l xs -> coerces (MList :: ms) t (Some (VList l)) (XVec xs)
| co_leaf k v x : coerces_leaf k v x -> coerces [] (ILeaf k) (Some v) x
| co_struct fields es xs : coerces_fields fields es xs -> coerces [] (IStruct fields) (Some (VMap es)) (XStruct xs)
with coerces_all : list modifier -> itype -> list value -> list cppval -> Prop :=
| ca_nil ms t : coerces_all ms t [] []
| ca_cons ms t v x l xs : coerces ms t (Some v) x -> coerces_all ms t l xs -> coerces_all ms t (v :: l) (x :: xs)
with coerces_fields : list field -> list (string * value) -> list cppval -> Prop :=
| cf_nil es : coerces_fields [] es []
| cf_cons name ms t d fs es x xs : coerces ms t (lookup name es) x -> coerces_fields fs es xs ->
    coerces_fields ((name, (ms, (t, d))) :: fs) es (x :: xs).

(** input types without default values, in which every struct has a field *)
Fixpoint plain (t : itype) : bool :=
  match t with
  | ILeaf _ => true
  | IStruct [] => false
  | IStruct fields => forallb (fun f : field => match snd (snd (snd f)) with None => plain (fst (snd (snd f))) | Some _ => false end) fields
  end.

(** ** Round trips *)

(** schemas the generators accept: distinct enum values, distinct field names, no optional directly inside optional *)
Fixpoint stack_ok (ms : list modifier) : bool :=
  match ms with
  | MNullable :: ((MNullable :: _) as r) => false
  | _ :: r => stack_ok r
  | [] => true
  end.
Fixpoint type_ok (t : itype) : bool :=
  match t with
  | ILeaf (KEnum _ names) => unique names && forallb no_nul names
  | ILeaf _ => true
  | IStruct fields => unique (map fst fields) &&
      forallb (fun f : field => no_nul (fst f) && stack_ok (fst (snd f)) && type_ok (fst (snd (snd f)))) fields
  end.

(** C++ values of a type. A custom scalar may hold any value except null (which is indistinguishable from an absent
    optional) and may not contain an unset Scalar. *)
Inductive typed_leaf : scalar -> cppval -> Prop :=
| tl_int z : in_int_range z = true -> typed_leaf KInt (XInt z)
| tl_float f : typed_leaf KFloat (XFloat f)
| tl_string s : typed_leaf KString (XString s)
| tl_bool b : typed_leaf KBool (XBool b)
| tl_id bytes : typed_leaf KId (XId bytes)
| tl_value v : v <> VNull -> has_null_scalar v = false -> typed_leaf KValue (XValue v)
| tl_enum t names i : i < length names -> typed_leaf (KEnum t names) (XEnum i).
Inductive typed : list modifier -> itype -> cppval -> Prop :=
| ty_none ms t : typed (MNullable :: ms) t (XOpt None)
| ty_some ms t x : typed ms t x -> typed (MNullable :: ms) t (XOpt (Some x))
| ty_vec ms t l : typed_all ms t l -> typed (MList :: ms) t (XVec l)
| ty_leaf k x : typed_leaf k x -> typed [] (ILeaf k) x
| ty_struct fields xs : typed_fields fields xs -> typed [] (IStruct fields) (XStruct xs)
with typed_all : list modifier -> itype -> list cppval -> Prop :=
| ta_nil ms t : typed_all ms t []
| ta_cons ms t x l : typed ms t x -> typed_all ms t l -> typed_all ms t (x :: l)
with typed_fields : list field -> list cppval -> Prop :=
| tf_nil : typed_fields [] []
| tf_cons name ms t d fs x xs : typed ms t x -> typed_fields fs xs -> typed_fields ((name, (ms, (t, d))) :: fs) (x :: xs).

(** values that JSON text can carry: no NUL in strings, floats that survive the text conversion, no custom scalars *)
Fixpoint json_safe (trip : spec_float -> spec_float) (x : cppval) : Prop :=
  match x with
  | XFloat f => is_nan f = false /\ is_inf f = false /\ trip f = f
  | XString s => no_nul s = true
  | XValue _ => False
  | XOpt (Some y) => json_safe trip y
  | XVec l => fold_right (fun y p => json_safe trip y /\ p) True l
  | XStruct l => fold_right (fun y p => json_safe trip y /\ p) True l
  | _ => True
  end.
