(** Model of response::Value (include/graphqlservice/GraphQLResponse.h:117-239, src/GraphQLResponse.cpp) with its
    actual representation: a Map is a vector of entries plus [members], a vector of positions sorted by entry name. *)
From Verif Require Import Cpp Base64Model SortedMapModel Value.

(** GraphQLResponse.h:199-238 [TypeData]. *)
Inductive cvalue : Type :=
| CMap (map : list (string * cvalue)) (members : list nat)
| CList (items : list cvalue)
| CString (s : string) (from_json : bool)
| CNull
| CBool (b : bool)
| CInt (z : Z)
| CFloat (f : spec_float)
| CEnum (s : string)
| CScalar (scalar : option cvalue).

(** GraphQLResponse.cpp:494-532 [Value::type]. *)
Definition ctype (v : cvalue) : vtype :=
  match v with
  | CMap _ _ => TMap | CList _ => TList | CString _ _ => TString | CNull => TNull | CBool _ => TBoolean
  | CInt _ => TInt | CFloat _ => TFloat | CEnum _ => TEnumValue | CScalar _ => TScalar
  end.

(** GraphQLResponse.cpp:313-353 [Value::Value(Type)]. *)
Definition cnew (t : vtype) : cvalue :=
  match t with
  | TMap => CMap [] [] | TList => CList [] | TString => CString "" false | TNull => CNull | TBoolean => CBool false
  | TInt => CInt 0 | TFloat => CFloat (S754_zero false) | TEnumValue => CEnum "" | TScalar => CScalar None
  end.

Definition invalid_call {A} (what : string) : result A := Throw (Exn logic_error ("Invalid call to Value::" ++ what)).

(** [mapData.map[i].first]; the C++ operator[] is unchecked, see [members_ok]. *)
Definition member_name (map : list (string * cvalue)) (i : nat) : string :=
  match nth_error map i with Some (n, _) => n | None => EmptyString end.
(** the comparator dereferences only positions inside of [map]; otherwise it is undefined behaviour *)
Definition members_ok (map : list (string * cvalue)) (members : list nat) : bool :=
  forallb (fun i => Nat.ltb i (length map)) members.

(** GraphQLResponse.cpp:593-619 [Value::emplace_back(std::string&&, Value&&)]. *)
Definition c_emplace_back (v : cvalue) (name : string) (x : cvalue) : result (cvalue * bool) :=
  match v with
  | CMap map members =>
      if negb (members_ok map members) then UB
      else
        let (itr, itrEnd) := equal_range (member_name map) string_lt members name in
        if negb (Nat.eqb itr itrEnd) then Ok (v, false)
        else Ok (CMap (map ++ [(name, x)]) (insert_at members itr (length members)), true)
  | _ => invalid_call "emplace_back for MapType"
  end.

(** GraphQLResponse.cpp:621-644 [Value::find]: position of the entry, or the size of the map for end(). *)
Definition c_find (v : cvalue) (name : string) : result nat :=
  match v with
  | CMap map members =>
      if negb (members_ok map members) then UB
      else
        let (itr, itrEnd) := equal_range (member_name map) string_lt members name in
        if Nat.eqb itr itrEnd then Ok (length map)
        else match nth_error members itr with Some i => Ok i | None => UB end
  | _ => invalid_call "find for MapType"
  end.

(** GraphQLResponse.cpp:646-664 [begin]/[end]: the range of entries. *)
Definition c_entries (v : cvalue) : result (list (string * cvalue)) :=
  match v with CMap map _ => Ok map | _ => invalid_call "begin for MapType" end.

(** GraphQLResponse.cpp:666-676 [Value::operator[](std::string_view)]. *)
Definition c_index_name (v : cvalue) (name : string) : result cvalue :=
  i <- c_find v name ;;
  es <- c_entries v ;;
  match nth_error es i with
  | Some (_, x) => Ok x
  | None => Throw (Exn runtime_error "Missing Map member")
  end.

(** GraphQLResponse.cpp:574-591 [Value::size]. *)
Definition c_size (v : cvalue) : result nat :=
  match v with CMap map _ => Ok (length map) | CList l => Ok (length l) | _ => invalid_call "size" end.

(** GraphQLResponse.cpp:678-686 [Value::emplace_back(Value&&)]. *)
Definition c_emplace_back_list (v : cvalue) (x : cvalue) : result cvalue :=
  match v with CList l => Ok (CList (l ++ [x])) | _ => invalid_call "emplace_back for ListType" end.

(** GraphQLResponse.cpp:688-696 [Value::operator[](size_t)]; vector::at throws std::out_of_range. *)
Definition c_index_nat (v : cvalue) (i : nat) : result cvalue :=
  match v with
  | CList l => match nth_error l i with Some x => Ok x | None => Throw (Exn out_of_range "vector::at") end
  | _ => invalid_call "operator[] for ListType"
  end.

(** GraphQLResponse.cpp:534-548 [from_json], [maybe_enum]. *)
Definition c_from_json (v : cvalue) : cvalue := match v with CString s _ => CString s true | _ => v end.
Definition c_maybe_enum (v : cvalue) : bool :=
  match v with CEnum _ => true | CString _ j => j | _ => false end.

(** GraphQLResponse.cpp:42-119 [Value::set<...>]; the result is the value after the call. *)
Definition c_set_string (v : cvalue) (s : string) : result cvalue :=
  match v with CEnum _ => Ok (CEnum s) | CString _ j => Ok (CString s j) | _ => invalid_call "set for StringType" end.
Definition c_set_bool (v : cvalue) (b : bool) : result cvalue :=
  match v with CBool _ => Ok (CBool b) | _ => invalid_call "set for BooleanType" end.
Definition c_set_int (v : cvalue) (z : Z) : result cvalue :=
  match v with CFloat _ => Ok (CFloat (int_to_double z)) | CInt _ => Ok (CInt z) | _ => invalid_call "set for IntType" end.
Definition c_set_float (v : cvalue) (f : spec_float) : result cvalue :=
  match v with CFloat _ => Ok (CFloat f) | _ => invalid_call "set for FloatType" end.
Definition c_set_scalar (v : cvalue) (x : cvalue) : result cvalue :=
  match v with CScalar _ => Ok (CScalar (Some x)) | _ => invalid_call "set for ScalarType" end.
Definition c_set_id (v : cvalue) (id : list ascii) : result cvalue :=
  match v with CString _ j => s <- toBase64 id ;; Ok (CString s j) | _ => invalid_call "set for IdType" end.

(** GraphQLResponse.cpp:121-224 [Value::get<...>]. *)
Definition c_get_map (v : cvalue) : result (list (string * cvalue)) :=
  match v with CMap map _ => Ok map | _ => invalid_call "get for MapType" end.
Definition c_get_list (v : cvalue) : result (list cvalue) :=
  match v with CList l => Ok l | _ => invalid_call "get for ListType" end.
Definition c_get_string (v : cvalue) : result string :=
  match v with CEnum s => Ok s | CString s _ => Ok s | _ => invalid_call "get for StringType" end.
Definition c_get_bool (v : cvalue) : result bool :=
  match v with CBool b => Ok b | _ => invalid_call "get for BooleanType" end.
Definition c_get_int (v : cvalue) : result Z :=
  match v with CInt z => Ok z | _ => invalid_call "get for IntType" end.
Definition c_get_float (v : cvalue) : result spec_float :=
  match v with CInt z => Ok (int_to_double z) | CFloat f => Ok f | _ => invalid_call "get for FloatType" end.
Definition c_get_scalar (v : cvalue) : result cvalue :=
  match v with CScalar (Some x) => Ok x | _ => invalid_call "get for ScalarType" end.
Definition c_get_id (v : cvalue) : result (list ascii) :=
  match v with CString s _ => fromBase64 s | _ => invalid_call "get for IdType" end.

(** GraphQLResponse.cpp:226-311 [Value::release<...>]: the value after the call (also when it throws) and the
    outcome. A moved-from vector, unique_ptr is empty (guaranteed); a moved-from std::string is empty in every
    implementation the library supports (the standard only says valid but unspecified). *)
Definition c_release_map (v : cvalue) : cvalue * result (list (string * cvalue)) :=
  match v with CMap map _ => (CMap [] [], Ok map) | _ => (v, invalid_call "release for MapType") end.
Definition c_release_list (v : cvalue) : cvalue * result (list cvalue) :=
  match v with CList l => (CList [], Ok l) | _ => (v, invalid_call "release for ListType") end.
Definition c_release_string (v : cvalue) : cvalue * result string :=
  match v with
  | CEnum s => (CEnum "", Ok s)
  | CString s _ => (CString "" false, Ok s)
  | _ => (v, invalid_call "release for StringType")
  end.
Definition c_release_scalar (v : cvalue) : cvalue * result cvalue :=
  match v with
  | CScalar (Some x) => (CScalar None, Ok x)
  | CScalar None => (CScalar None, invalid_call "release for ScalarType")
  | _ => (v, invalid_call "release for ScalarType")
  end.
Definition c_release_id (v : cvalue) : cvalue * result (list ascii) :=
  match v with
  | CString s j => (CString "" j, fromBase64 s)
  | _ => (v, invalid_call "release for IdType")
  end.

(** GraphQLResponse.cpp:411-424: the copy's members: a std::map from name to position, iterated in order.
    [members[entry.first] = members.size()] evaluates the right side first (C++17 [expr.ass]).
    std::map<std::string_view, size_t> is modelled with the sorted vector under the same order. *)
Definition copy_members (map : list (string * cvalue)) : list nat :=
  List.map snd (fold_left (fun (m : list (string * nat)) (e : string * cvalue) =>
     smap_assign string_lt 0 m (fst e) (length m)) map []).

(** GraphQLResponse.cpp:397-472 [Value::Value(const Value&)]. *)
Fixpoint c_copy (v : cvalue) : result cvalue :=
  match v with
  | CMap map _ =>
      m <- (fix go (es : list (string * cvalue)) : result (list (string * cvalue)) :=
              match es with
              | [] => Ok []
              | (k, x) :: es' => x' <- c_copy x ;; r <- go es' ;; Ok ((k, x') :: r)
              end) map ;;
      Ok (CMap m (copy_members m))
  | CList l =>
      l' <- (fix go (l : list cvalue) : result (list cvalue) :=
               match l with
               | [] => Ok []
               | x :: l' => x' <- c_copy x ;; r <- go l' ;; Ok (x' :: r)
               end) l ;;
      Ok (CList l')
  | CString s j => Ok (CString s j)
  | CNull => Ok CNull
  | CBool b => Ok (CBool b)
  | CInt z => Ok (CInt z)
  | CFloat f => Ok (CFloat f)
  | CEnum s => Ok (CEnum s)
  | CScalar (Some x) => x' <- c_copy x ;; Ok (CScalar (Some x'))
  | CScalar None => invalid_call "get for ScalarType"
  end.

(** GraphQLResponse.cpp:392-395, 474-482 move construction and move assignment: the source's variant keeps its
    alternative with moved-from contents. *)
Definition c_moved_from (v : cvalue) : cvalue :=
  match v with
  | CMap _ _ => CMap [] []
  | CList _ => CList []
  | CString _ j => CString "" j
  | CEnum _ => CEnum ""
  | CScalar _ => CScalar None
  | _ => v
  end.

(** GraphQLResponse.cpp:17-40, 484-492 [operator==]; [members] is not compared. *)
Fixpoint c_eqb (a b : cvalue) {struct a} : bool :=
  match a, b with
  | CMap e1 _, CMap e2 _ =>
      (fix go (e1 e2 : list (string * cvalue)) : bool :=
         match e1, e2 with
         | [], [] => true
         | (k1, v1) :: e1', (k2, v2) :: e2' => String.eqb k1 k2 && c_eqb v1 v2 && go e1' e2'
         | _, _ => false
         end) e1 e2
  | CList l1, CList l2 =>
      (fix go (l1 l2 : list cvalue) : bool :=
         match l1, l2 with
         | [], [] => true
         | v1 :: l1', v2 :: l2' => c_eqb v1 v2 && go l1' l2'
         | _, _ => false
         end) l1 l2
  | CString s1 j1, CString s2 j2 => Bool.eqb j1 j2 && String.eqb s1 s2
  | CNull, CNull => true
  | CBool b1, CBool b2 => Bool.eqb b1 b2
  | CInt z1, CInt z2 => Z.eqb z1 z2
  | CFloat f1, CFloat f2 => double_eqb f1 f2
  | CEnum s1, CEnum s2 => String.eqb s1 s2
  | CScalar (Some v1), CScalar (Some v2) => c_eqb v1 v2
  | CScalar None, CScalar None => true
  | _, _ => false
  end.
