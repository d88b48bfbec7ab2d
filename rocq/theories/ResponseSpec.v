(** Which response values a program can construct, and the abstract view of a value. *)
From Verif Require Import Cpp Base64Model Value ResponseModel.

(** Every [response::Value] a program can obtain through the public API of GraphQLResponse.h, starting from the
    constructors, by any sequence of mutations, copies, moves and extractions. *)
Inductive built : cvalue -> Prop :=
| b_new t : built (cnew t)
| b_string s : built (CString s false)
| b_bool b : built (CBool b)
| b_int z : built (CInt z)
| b_float f : built (CFloat f)
| b_id id s : toBase64 id = Ok s -> built (CString s false)
| b_emplace v n x v' b : built v -> built x -> c_emplace_back v n x = Ok (v', b) -> built v'
| b_emplace_list v x v' : built v -> built x -> c_emplace_back_list v x = Ok v' -> built v'
| b_set_string v s v' : built v -> c_set_string v s = Ok v' -> built v'
| b_set_bool v b v' : built v -> c_set_bool v b = Ok v' -> built v'
| b_set_int v z v' : built v -> c_set_int v z = Ok v' -> built v'
| b_set_float v f v' : built v -> c_set_float v f = Ok v' -> built v'
| b_set_scalar v x v' : built v -> built x -> c_set_scalar v x = Ok v' -> built v'
| b_set_id v id v' : built v -> c_set_id v id = Ok v' -> built v'
| b_copy v v' : built v -> c_copy v = Ok v' -> built v'
| b_moved v : built v -> built (c_moved_from v)
| b_from_json v : built v -> built (c_from_json v)
| b_entry v es n x : built v -> c_get_map v = Ok es -> In (n, x) es -> built x
| b_item v l x : built v -> c_get_list v = Ok l -> In x l -> built x
| b_scalar v x : built v -> c_get_scalar v = Ok x -> built x
| b_after_release_map v : built v -> built (fst (c_release_map v))
| b_after_release_list v : built v -> built (fst (c_release_list v))
| b_after_release_string v : built v -> built (fst (c_release_string v))
| b_after_release_scalar v : built v -> built (fst (c_release_scalar v))
| b_after_release_id v : built v -> built (fst (c_release_id v)).

(** forgetting the member index *)
Fixpoint abs (v : cvalue) : value :=
  match v with
  | CMap map _ => VMap (List.map (fun kv => (fst kv, abs (snd kv))) map)
  | CList l => VList (List.map abs l)
  | CString s j => VString s j
  | CNull => VNull
  | CBool b => VBool b
  | CInt z => VInt z
  | CFloat f => VFloat f
  | CEnum s => VEnum s
  | CScalar o => VScalar (option_map abs o)
  end.

Fixpoint has_nan (v : value) : bool :=
  match v with
  | VMap es => existsb (fun kv => has_nan (snd kv)) es
  | VList l => existsb has_nan l
  | VFloat S754_nan => true
  | VScalar (Some x) => has_nan x
  | _ => false
  end.

(** keep the first entry for each name, in order *)
Fixpoint first_entries {A} (seen : list string) (es : list (string * A)) : list (string * A) :=
  match es with
  | [] => []
  | (k, v) :: es' => if in_dec string_dec k seen then first_entries seen es' else (k, v) :: first_entries (k :: seen) es'
  end.

(** [emplace_back] called for each pair in turn *)
Fixpoint emplace_all (v : cvalue) (ins : list (string * cvalue)) : result cvalue :=
  match ins with
  | [] => Ok v
  | (n, x) :: ins' => '(v', _) <- c_emplace_back v n x ;; emplace_all v' ins'
  end.

(** * Accessor typing (C06) *)
Local Open Scope string_scope.
Inductive accessor := AMap | AList | AString | ABoolean | AInt | AFloat | AScalar | AId.

(** Documented typing: which dynamic types an accessor may be used on. *)
Definition readable (a : accessor) (t : vtype) : bool :=
  match a, t with
  | AMap, TMap | AList, TList | AString, TString | AString, TEnumValue | ABoolean, TBoolean | AInt, TInt
  | AFloat, TFloat | AFloat, TInt | AScalar, TScalar | AId, TString => true
  | _, _ => false
  end.
Definition get_outcome (a : accessor) (v : cvalue) : result unit :=
  match a with
  | AMap => rmap (fun _ => tt) (c_get_map v)
  | AList => rmap (fun _ => tt) (c_get_list v)
  | AString => rmap (fun _ => tt) (c_get_string v)
  | ABoolean => rmap (fun _ => tt) (c_get_bool v)
  | AInt => rmap (fun _ => tt) (c_get_int v)
  | AFloat => rmap (fun _ => tt) (c_get_float v)
  | AScalar => rmap (fun _ => tt) (c_get_scalar v)
  | AId => rmap (fun _ => tt) (c_get_id v)
  end.
(** which types each set accepts; on every other type it throws std::logic_error *)
Definition writable (a : accessor) (t : vtype) : bool :=
  match a, t with
  | AString, TString | AString, TEnumValue | ABoolean, TBoolean | AInt, TInt | AInt, TFloat
  | AFloat, TFloat | AScalar, TScalar | AId, TString => true
  | _, _ => false
  end.
Definition set_outcome (a : accessor) (v : cvalue) (s : string) (b : bool) (z : Z) (f : spec_float) (x : cvalue) (id : list ascii) : result cvalue :=
  match a with
  | AMap | AList => invalid_call "no such overload"
  | AString => c_set_string v s | ABoolean => c_set_bool v b | AInt => c_set_int v z | AFloat => c_set_float v f
  | AScalar => c_set_scalar v x | AId => c_set_id v id
  end.
