(** Abstract response values: what a user of [response::Value] observes. An object is an ordered list of entries;
    the sorted member index of the implementation (ResponseModel.v) is not visible. The refinement theorems in
    ResponseProps.v (C05) relate the two; every model above this layer uses this type. *)
From Verif Require Import Cpp.
From Coq Require Export Floats.SpecFloat.

(** include/graphqlservice/GraphQLResponse.h:32-43 [enum class Type]. *)
Inductive vtype : Type := TMap | TList | TString | TNull | TBoolean | TInt | TFloat | TEnumValue | TScalar.

(** GraphQLResponse.h:47-54 and 199-239. FloatType is an IEEE binary64, given by its specification [spec_float]
    (sign, mantissa, exponent); IntType is a [Z] (32 bit range where it matters). *)
Inductive value : Type :=
| VMap (entries : list (string * value))
| VList (items : list value)
| VString (s : string) (from_json : bool)
| VNull
| VBool (b : bool)
| VInt (z : Z)
| VFloat (f : spec_float)
| VEnum (s : string)
| VScalar (scalar : option value).

Definition type_of (v : value) : vtype :=
  match v with
  | VMap _ => TMap | VList _ => TList | VString _ _ => TString | VNull => TNull | VBool _ => TBoolean
  | VInt _ => TInt | VFloat _ => TFloat | VEnum _ => TEnumValue | VScalar _ => TScalar
  end.

(** induction over nested values *)
Section ValueInd.
  Variable P : value -> Prop.
  Hypothesis HMap : forall es, Forall (fun kv => P (snd kv)) es -> P (VMap es).
  Hypothesis HList : forall l, Forall P l -> P (VList l).
  Hypothesis HString : forall s j, P (VString s j).
  Hypothesis HNull : P VNull.
  Hypothesis HBool : forall b, P (VBool b).
  Hypothesis HInt : forall z, P (VInt z).
  Hypothesis HFloat : forall f, P (VFloat f).
  Hypothesis HEnum : forall s, P (VEnum s).
  Hypothesis HScalarNone : P (VScalar None).
  Hypothesis HScalar : forall v, P v -> P (VScalar (Some v)).
  Fixpoint value_ind' (v : value) : P v :=
    match v with
    | VMap es => HMap es ((fix go (es : list (string * value)) : Forall (fun kv => P (snd kv)) es :=
        match es with [] => Forall_nil _ | kv :: es' => Forall_cons kv (value_ind' (snd kv)) (go es') end) es)
    | VList l => HList l ((fix go (l : list value) : Forall P l :=
        match l with [] => Forall_nil _ | x :: l' => Forall_cons x (value_ind' x) (go l') end) l)
    | VString s j => HString s j
    | VNull => HNull
    | VBool b => HBool b
    | VInt z => HInt z
    | VFloat f => HFloat f
    | VEnum s => HEnum s
    | VScalar None => HScalarNone
    | VScalar (Some v') => HScalar v' (value_ind' v')
    end.
End ValueInd.

(** first entry with a given name *)
Fixpoint lookup (name : string) (es : list (string * value)) : option value :=
  match es with
  | [] => None
  | (k, v) :: es' => if String.eqb name k then Some v else lookup name es'
  end.

Definition has_key (name : string) (es : list (string * value)) : bool :=
  match lookup name es with Some _ => true | None => false end.

(** GraphQLResponse.cpp:593-619 [Value::emplace_back(std::string&&, Value&&)] as observed: append unless the name is
    present (refinement proved in ResponseProofs.v). *)
Definition map_emplace (es : list (string * value)) (name : string) (v : value) : list (string * value) * bool :=
  if has_key name es then (es, false) else (es ++ [(name, v)], true).

Definition int_min : Z := (-2147483648)%Z.
Definition int_max : Z := 2147483647%Z.
Definition in_int_range (z : Z) : bool := (Z.leb int_min z && Z.leb z int_max)%bool.

(** [static_cast<double>(int)]: exact for every integer of at most 53 bits. The mantissa is normalised to 53 bits. *)
Definition int_to_double (z : Z) : spec_float :=
  let norm (s : bool) (p : positive) :=
    let k := (53 - Z.of_N (N.size (Npos p)))%Z in
    S754_finite s (Pos.shiftl p (Z.to_N k)) (- k)%Z in
  match z with
  | Z0 => S754_zero false
  | Zpos p => norm false p
  | Zneg p => norm true p
  end.

(** C++ [==] on doubles. *)
Definition double_eqb (a b : spec_float) : bool := SFeqb a b.

(** GraphQLResponse.cpp:17-40 and 484-487 [Value::operator==]: std::variant equality (same alternative, equal
    contents); vectors compare element-wise in order; StringData also compares the from_json flag; a Scalar compares
    the pointed-to values or both pointers null. *)
Fixpoint value_eqb (a b : value) {struct a} : bool :=
  match a, b with
  | VMap e1, VMap e2 =>
      (fix go (e1 e2 : list (string * value)) : bool :=
         match e1, e2 with
         | [], [] => true
         | (k1, v1) :: e1', (k2, v2) :: e2' => String.eqb k1 k2 && value_eqb v1 v2 && go e1' e2'
         | _, _ => false
         end) e1 e2
  | VList l1, VList l2 =>
      (fix go (l1 l2 : list value) : bool :=
         match l1, l2 with
         | [], [] => true
         | v1 :: l1', v2 :: l2' => value_eqb v1 v2 && go l1' l2'
         | _, _ => false
         end) l1 l2
  | VString s1 j1, VString s2 j2 => Bool.eqb j1 j2 && String.eqb s1 s2
  | VNull, VNull => true
  | VBool b1, VBool b2 => Bool.eqb b1 b2
  | VInt z1, VInt z2 => Z.eqb z1 z2
  | VFloat f1, VFloat f2 => double_eqb f1 f2
  | VEnum s1, VEnum s2 => String.eqb s1 s2
  | VScalar (Some v1), VScalar (Some v2) => value_eqb v1 v2
  | VScalar None, VScalar None => true
  | _, _ => false
  end.

(** the value contains a [Value(Type::Scalar)] that was never set *)
Fixpoint has_null_scalar (v : value) : bool :=
  match v with
  | VMap es => existsb (fun kv => has_null_scalar (snd kv)) es
  | VList l => existsb has_null_scalar l
  | VScalar None => true
  | VScalar (Some x) => has_null_scalar x
  | _ => false
  end.

(** GraphQLResponse.cpp:397-472, the copy constructor as observed (C07_copy): identical, unless an unset Scalar occurs. *)
Definition vcopy (v : value) : result value :=
  if has_null_scalar v then Throw (Exn logic_error "Invalid call to Value::get for ScalarType") else Ok v.

(** GraphQLResponse.cpp:666-676 [Value::operator[](std::string_view)] as observed (C05_index). *)
Definition index_name (v : value) (name : string) : result value :=
  match v with
  | VMap es => match lookup name es with Some x => Ok x | None => Throw (Exn runtime_error "Missing Map member") end
  | _ => Throw (Exn logic_error "Invalid call to Value::find for MapType")
  end.
