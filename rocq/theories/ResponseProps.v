(** Properties C05, C06 and C07: response::Value. [built v] (ResponseSpec.v) says that [v] is obtainable by some
    sequence of calls to the public API; the theorems hold for every such history. *)
From Verif Require Import Cpp Base64Model Base64Spec Value ResponseModel ResponseSpec ResponseProofs.
Local Open Scope string_scope.

(** * C05 *)
Theorem C05_unique_keys : forall v entries, built v -> c_entries v = Ok entries -> NoDup (List.map fst entries).
Proof. exact c05_unique. Qed.
Print Assumptions C05_unique_keys.

Theorem C05_emplace_back_present : forall v entries name x,
  built v -> c_entries v = Ok entries -> In name (List.map fst entries) -> c_emplace_back v name x = Ok (v, false).
Proof. exact c05_emplace_present. Qed.
Print Assumptions C05_emplace_back_present.

Theorem C05_emplace_back_absent : forall v entries name x,
  built v -> c_entries v = Ok entries -> ~ In name (List.map fst entries) ->
  exists v', c_emplace_back v name x = Ok (v', true) /\ c_entries v' = Ok (entries ++ [(name, x)])%list.
Proof. exact c05_emplace_absent. Qed.
Print Assumptions C05_emplace_back_absent.

(** find returns the position of the entry with that name, or end(). *)
Theorem C05_find : forall v entries name, built v -> c_entries v = Ok entries ->
  (forall i x, nth_error entries i = Some (name, x) -> c_find v name = Ok i) /\
  (~ In name (List.map fst entries) -> c_find v name = Ok (length entries)).
Proof. exact c05_find. Qed.
Print Assumptions C05_find.

Theorem C05_index : forall v entries name, built v -> c_entries v = Ok entries ->
  (forall x, In (name, x) entries -> c_index_name v name = Ok x) /\
  (~ In name (List.map fst entries) -> c_index_name v name = Throw (Exn runtime_error "Missing Map member")).
Proof. exact c05_index. Qed.
Print Assumptions C05_index.

(** a whole history of insertions: the map holds, in order, the first entry given for each name *)
Theorem C05_insertion_history : forall insertions, (forall n x, In (n, x) insertions -> built x) ->
  exists v, emplace_all (cnew TMap) insertions = Ok v /\ c_entries v = Ok (first_entries [] insertions).
Proof. exact emplace_all_history. Qed.
Print Assumptions C05_insertion_history.

(** the abstract value used by the other models behaves like the implementation *)
Theorem C05_refines_abstract : forall v name x entries, built v -> c_entries v = Ok entries ->
  exists v' b, c_emplace_back v name x = Ok (v', b) /\
    exists aes, abs v = VMap aes /\ (let (aes', b') := map_emplace aes name (abs x) in abs v' = VMap aes' /\ b = b').
Proof. exact abs_emplace. Qed.
Print Assumptions C05_refines_abstract.

Definition ex_ins : list (string * cvalue) := [("z", CInt 1); ("a", CBool true); ("z", CInt 2); ("m", CNull)].
Example C05_example : exists v, emplace_all (cnew TMap) ex_ins = Ok v /\ built v /\
  c_entries v = Ok [("z", CInt 1); ("a", CBool true); ("m", CNull)] /\ c_find v "m" = Ok 2.
Proof.
  assert (Hb : forall n x, In (n, x) ex_ins -> built x).
  { intros n x H. simpl in H. repeat (destruct H as [H|H]; [injection H as <- <-; solve [constructor|apply (b_new TNull)]|]). contradiction. }
  eexists. split; [vm_compute; reflexivity|]. split; [|split; vm_compute; reflexivity].
  eapply (emplace_all_built ex_ins (cnew TMap)); [constructor|exact Hb|vm_compute; reflexivity].
Qed.

(** * C06 *)
(** [accessor], [readable], [writable], [get_outcome], [set_outcome] are in ResponseSpec.v *)
Theorem C06_get_wrong_type_throws : forall a v, readable a (ctype v) = false ->
  exists what, get_outcome a v = Throw (Exn logic_error what).
Proof. exact get_wrong_type. Qed.
Print Assumptions C06_get_wrong_type_throws.

Theorem C06_get_right_type : forall a v, readable a (ctype v) = true ->
  get_outcome a v = Ok tt \/
  (a = AScalar /\ v = CScalar None) \/
  (a = AId /\ exists text j, v = CString text j /\ ~ exists bytes, fromBase64 text = Ok bytes).
Proof. exact get_right_type. Qed.
Print Assumptions C06_get_right_type.

(** set then get returns what was set and never changes the dynamic type; an Int written to a Float is exact *)
Theorem C06_set_then_get :
  (forall v x v', c_set_string v x = Ok v' -> c_get_string v' = Ok x /\ ctype v' = ctype v) /\
  (forall v x v', c_set_bool v x = Ok v' -> c_get_bool v' = Ok x /\ ctype v' = ctype v) /\
  (forall v x v', c_set_int v x = Ok v' -> ctype v = TInt -> c_get_int v' = Ok x /\ ctype v' = TInt) /\
  (forall v x v', c_set_int v x = Ok v' -> in_int_range x = true ->
     exists f, c_get_float v' = Ok f /\ exact_double x f /\ ctype v' = ctype v) /\
  (forall v x v', c_set_float v x = Ok v' -> c_get_float v' = Ok x /\ ctype v' = ctype v) /\
  (forall v x v', c_set_scalar v x = Ok v' -> c_get_scalar v' = Ok x /\ ctype v' = ctype v) /\
  (forall v x v', c_set_id v x = Ok v' -> c_get_id v' = Ok x /\ ctype v' = ctype v).
Proof. exact set_get. Qed.
Print Assumptions C06_set_then_get.

(** each set accepts exactly the writable types; on every other type it throws std::logic_error *)
Theorem C06_set_iff_writable : forall a v s b z f x id,
  (writable a (ctype v) = true -> exists v', set_outcome a v s b z f x id = Ok v') /\
  (writable a (ctype v) = false -> exists what, set_outcome a v s b z f x id = Throw (Exn logic_error what)).
Proof. exact set_iff_writable. Qed.
Print Assumptions C06_set_iff_writable.

(** release returns what get returned and leaves an empty value of the same type; on a wrong type it throws and the
    value is unchanged *)
Theorem C06_release :
  (forall v, snd (c_release_map v) = match v with CMap m _ => Ok m | _ => invalid_call "release for MapType" end /\
             fst (c_release_map v) = match v with CMap _ _ => cnew TMap | _ => v end) /\
  (forall v, snd (c_release_list v) = match v with CList m => Ok m | _ => invalid_call "release for ListType" end /\
             fst (c_release_list v) = match v with CList _ => cnew TList | _ => v end) /\
  (forall v s, c_get_string v = Ok s -> c_release_string v = (cnew (ctype v), Ok s)) /\
  (forall v, readable AString (ctype v) = false -> c_release_string v = (v, invalid_call "release for StringType")) /\
  (forall v x, c_get_scalar v = Ok x -> c_release_scalar v = (cnew TScalar, Ok x)) /\
  (forall v x, c_get_id v = Ok x -> exists v', c_release_id v = (v', Ok x) /\ c_get_string v' = Ok "").
Proof. exact release_spec. Qed.
Print Assumptions C06_release.

(** A release that throws does not always leave the value unchanged: release<IdType> on text that is not Base64
    throws after the text has been moved out. *)
Theorem C06_release_throw_unchanged_refuted :
  ~ (forall v v' e, c_release_id v = (v', Throw e) -> v' = v).
Proof. exact (fun H => match H (CString "A" false) _ _ eq_refl in _ = w return match w with CString "" _ => True | _ => False end with eq_refl => I end). Qed.
Print Assumptions C06_release_throw_unchanged_refuted.

Example C06_example : readable AFloat (ctype (CInt 7)) = true /\ c_get_float (CInt 7) = Ok (S754_finite false 7881299347898368 (-50)).
Proof. split; vm_compute; reflexivity. Qed.

(** * C07 *)
Theorem C07_reflexive_iff_no_nan : forall v, c_eqb v v = negb (has_nan (abs v)).
Proof. exact (fun v => eq_trans (c_eqb_abs v v) (value_eqb_refl (abs v))). Qed.
Print Assumptions C07_reflexive_iff_no_nan.

Theorem C07_symmetric : forall v w, c_eqb v w = c_eqb w v.
Proof. exact (fun v w => eq_trans (c_eqb_abs v w) (eq_trans (value_eqb_sym _ _) (eq_sym (c_eqb_abs w v)))). Qed.
Print Assumptions C07_symmetric.

Theorem C07_transitive : forall u v w, c_eqb u v = true -> c_eqb v w = true -> c_eqb u w = true.
Proof. exact c_eqb_trans. Qed.
Print Assumptions C07_transitive.

Theorem C07_same_type : forall v w, c_eqb v w = true -> ctype v = ctype w.
Proof. exact c_eqb_type. Qed.
Print Assumptions C07_same_type.

(** Equality is observational: it coincides with equality of the observable (abstract) values and does not see the
    member index. *)
Theorem C07_observational : forall v w, c_eqb v w = value_eqb (abs v) (abs w).
Proof. exact c_eqb_abs. Qed.
Print Assumptions C07_observational.

(** A copy is identical to the original, except that copying a value containing a Value(Type::Scalar) that was never
    set throws std::logic_error. *)
Theorem C07_copy : forall v, built v ->
  c_copy v = if has_null_scalar (abs v) then Throw (Exn logic_error "Invalid call to Value::get for ScalarType") else Ok v.
Proof. exact copy_built. Qed.
Print Assumptions C07_copy.

Theorem C07_copy_equal : forall v v', built v -> c_copy v = Ok v' -> c_eqb v v' = negb (has_nan (abs v)).
Proof. exact copy_equal. Qed.
Print Assumptions C07_copy_equal.

(** "every value can be copied" is false *)
Theorem C07_copy_total_refuted : ~ (forall v, built v -> exists v', c_copy v = Ok v').
Proof. exact (fun H => match H (CScalar None) (b_new TScalar) with ex_intro _ v' E => match E in _ = r return match r with Throw _ => True | _ => False end with eq_refl => I end end). Qed.
Print Assumptions C07_copy_total_refuted.

Definition ex_nested : cvalue := CMap [("k", CList [CInt 1; CString "x" true]); ("j", CScalar (Some CNull))] [1; 0].
Example C07_example : c_copy ex_nested = Ok ex_nested /\ c_eqb ex_nested ex_nested = true.
Proof. split; vm_compute; reflexivity. Qed.
