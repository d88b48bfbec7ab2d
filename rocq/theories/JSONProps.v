(** C08 and C09: converting responses to and from JSON. *)
From Verif Require Import Cpp Value JSONModel JSONSpec JSONProofs.
Local Open Scope string_scope.

(** C08. Writing a representable response and reading the document back gives the same response, with enum values
    turned into JSON strings, custom scalars replaced by their payload and floats subject to RapidJSON's text
    conversion. [j] is the only document the writer's calls spell. *)
Theorem C08_roundtrip : forall trip big v, representable v = true ->
  exists es j, writeResponse v = Ok es /\ spells trip es j /\ (forall j', spells trip es j' -> j' = j) /\
               parse_events (reader_events big j) = Ok (through_json trip v).
Proof.
  intros trip big v R. destruct (write_spells trip v (representable_writable v R)) as (es & W & S).
  exists es, (doc trip v). repeat split; auto.
  - intros j' S'. eapply spells_det; eassumption.
  - rewrite parse_reader. now apply doc_value.
Qed.

(** When no enum, scalar, programmatic string occurs and RapidJSON's float conversion is exact, the value is
    unchanged, so that writing it again gives the same document. *)
Theorem C08_idempotent : forall trip v, through_json trip (through_json (fun f => f) v) = through_json trip v.
Proof.
  intros trip v. induction v as [es IH|l IH| | | | | | | |] using value_ind'; cbn; auto.
  - f_equal. rewrite map_map. apply map_ext_in. intros a H. cbn. f_equal. rewrite Forall_forall in IH. auto.
  - f_equal. rewrite map_map. apply map_ext_in. rewrite Forall_forall in IH. auto.
Qed.

(** Key order is kept. *)
Theorem C08_key_order : forall trip big es, representable (VMap es) = true ->
  exists ev j es', writeResponse (VMap es) = Ok ev /\ spells trip ev j /\ parse_events (reader_events big j) = Ok (VMap es') /\
    map fst es' = map fst es.
Proof.
  intros trip big es R. destruct (C08_roundtrip trip big _ R) as (ev & j & A & B & _ & D).
  cbn in D. exists ev, j. eexists. split; [exact A|]. split; [exact B|]. split; [exact D|].
  rewrite map_map. apply map_ext. reflexivity.
Qed.

(** Writing fails, with an exception and without output, only for a custom scalar that holds no value. *)
Theorem C08_write_fails_iff : forall v,
  (has_null_scalar v = false -> exists es, writeResponse v = Ok es) /\
  (has_null_scalar v = true -> writeResponse v = Throw (Exn logic_error "Invalid call to Value::release for ScalarType")).
Proof.
  induction v as [es IH|l IH| | | | | | | |] using value_ind'; try (split; [eexists; reflexivity|discriminate]).
  - rewrite writeResponse_map. cbn [has_null_scalar].
    assert (G : (existsb (fun kv => has_null_scalar (snd kv)) es = false -> exists e, write_members es = Ok e) /\
                (existsb (fun kv => has_null_scalar (snd kv)) es = true -> write_members es = Throw (Exn logic_error "Invalid call to Value::release for ScalarType"))).
    { induction IH as [|[k x] es [Hx1 Hx2] _ [IH1 IH2]]; cbn; [split; [eauto|discriminate]|]. cbn in *.
      destruct (has_null_scalar x); cbn.
      - split; [discriminate|]. intros _. now rewrite Hx2.
      - destruct (Hx1 eq_refl) as [e1 ->]. cbn. split; intros H; [destruct (IH1 H) as [e2 ->]; cbn; eauto|now rewrite (IH2 H)]. }
    destruct G as [G1 G2]. split; intros H; [destruct (G1 H) as [e ->]; cbn; eauto|now rewrite (G2 H)].
  - rewrite writeResponse_list. cbn [has_null_scalar].
    assert (G : (existsb has_null_scalar l = false -> exists e, write_items l = Ok e) /\
                (existsb has_null_scalar l = true -> write_items l = Throw (Exn logic_error "Invalid call to Value::release for ScalarType"))).
    { induction IH as [|x es [Hx1 Hx2] _ [IH1 IH2]]; cbn; [split; [eauto|discriminate]|]. cbn in *.
      destruct (has_null_scalar x); cbn.
      - split; [discriminate|]. intros _. now rewrite Hx2.
      - destruct (Hx1 eq_refl) as [e1 ->]. cbn. split; intros H; [destruct (IH1 H) as [e2 ->]; cbn; eauto|now rewrite (IH2 H)]. }
    destruct G as [G1 G2]. split; intros H; [destruct (G1 H) as [e ->]; cbn; eauto|now rewrite (G2 H)].
  - split; [discriminate|reflexivity].
  - cbn. exact IHv.
Qed.

(** Finding: a response string containing NUL does not survive; the text after the NUL is lost silently. *)
Theorem C08_all_strings_refuted : exists v es j, writeResponse v = Ok es /\ spells (fun f => f) es j /\
  parse_events (reader_events (fun _ => S754_nan) j) = Ok (VString "a" true) /\ v = VString (String "a" (String zero "b")) true.
Proof.
  exists (VString (String "a" (String zero "b")) true), [EString "a"], (JString "a").
  repeat split. constructor.
Qed.

(** C09. For every well formed document parseJSON returns the value the document denotes, or throws overflow_error
    exactly when the document has an integer that is not 32 bit (but is 64 bit). *)
Theorem C09_denotes : forall big j, parse_events (reader_events big j) = json_value big j.
Proof. intros. apply parse_reader. Qed.

(** For every sequence of callbacks the reader may deliver, including those cut short by a syntax error anywhere in a
    document: no undefined behaviour, and the outcome is a value or overflow_error. *)
Theorem C09_total : forall es, reader_may_deliver es -> (exists v, parse_events es = Ok v) \/ parse_events es = overflow.
Proof. apply parse_no_ub. Qed.

Theorem C09_prefixes_covered : forall big j es es', reader_events big j = (es ++ es')%list -> reader_may_deliver es.
Proof. apply prefix_delivered. Qed.

(** Every integer in every value returned, from complete or incomplete documents, is a 32 bit integer. *)
Theorem C09_ints_in_range : forall es v, Forall event_in_range es -> parse_events es = Ok v -> ints_ok v = true.
Proof. apply parse_ints. Qed.

(** Integers at nesting depth 0: exact boundary behaviour. *)
Theorem C09_int_boundary : forall big z,
  ((-2147483648 <= z <= 2147483647)%Z -> parse_events (reader_events big (JInt z)) = Ok (VInt z)) /\
  ((- 2 ^ 63 <= z < -2147483648)%Z \/ (2147483647 < z < 2 ^ 64)%Z -> parse_events (reader_events big (JInt z)) = overflow).
Proof.
  intros big z. rewrite parse_reader. cbn. unfold int_value, in_int_range, int_min, int_max. split; intros H.
  - destruct (Z.leb_spec (-2147483648) z), (Z.leb_spec z 2147483647); try lia. reflexivity.
  - destruct (Z.leb_spec (-2147483648) z), (Z.leb_spec z 2147483647); try lia; cbn;
    destruct (Z.leb_spec (-9223372036854775808) z), (Z.ltb_spec z 18446744073709551616); try lia; reflexivity.
Qed.

(** Finding: integers beyond 64 bits are not rejected, they become floats. *)
Theorem C09_huge_int_becomes_float : forall big z, (2 ^ 64 <= z \/ z < - 2 ^ 63)%Z ->
  parse_events (reader_events big (JInt z)) = Ok (VFloat (big z)).
Proof.
  intros big z H. rewrite parse_reader. cbn. unfold int_value, in_int_range, int_min, int_max.
  destruct (Z.leb_spec (-2147483648) z), (Z.leb_spec z 2147483647); try lia; cbn;
  destruct (Z.leb_spec (-9223372036854775808) z), (Z.ltb_spec z 18446744073709551616); try lia; reflexivity.
Qed.

(** A repeated key keeps its first value. *)
Theorem C09_duplicate_key_first : forall big k a b va vb, json_value big a = Ok va -> json_value big b = Ok vb ->
  parse_events (reader_events big (JObject [(k, a); (k, b)])) = Ok (VMap [(c_str k, va)]).
Proof.
  intros big k a b va vb A B. rewrite parse_reader, json_value_object. cbn. rewrite A. cbn. rewrite B. cbn.
  destruct (string_dec (c_str k) (c_str k)); [reflexivity|congruence].
Qed.

(** Finding: malformed documents are not reported. A document that ends inside an object returns that object, an empty
    text returns null, and text that ends inside a nested object returns only the innermost part. *)
Theorem C09_malformed_reported_refuted :
  parse_events [] = Ok VNull /\
  (exists es, reader_may_deliver es /\ ~ (exists big j, es = reader_events big j) /\ parse_events es = Ok (VMap [("b", VInt 1)])).
Proof.
  split; [reflexivity|]. exists [EStartObject; EKey "a"; EStartObject; EKey "b"; EUint 1]. repeat split.
  - exists [CObjKey; CObjVal; CTop]. reflexivity.
  - intros (big & j & E). pose proof (document_delivered_aux big j [CTop] [CDone] eq_refl) as R.
    rewrite <- E in R. discriminate.
Qed.

(** concrete, non-trivial cases *)
Example C08_example : representable (VMap [("a", VList [VInt 1; VEnum "RED"; VScalar (Some (VString "x" false))]); ("b", VNull)]) = true /\
  writeResponse (VMap [("a", VList [VInt 1; VEnum "RED"; VScalar (Some (VString "x" false))]); ("b", VNull)])
  = Ok [EStartObject; EKey "a"; EStartArray; EInt 1; EString "RED"; EString "x"; EEndArray; EKey "b"; ENull; EEndObject].
Proof. split; reflexivity. Qed.
Example C09_example : reader_may_deliver [EStartArray; EStartObject; EKey "k"] /\
  parse_events [EStartArray; EStartObject; EKey "k"] = Ok (VMap []) /\
  parse_events (reader_events (fun _ => S754_nan) (JObject [("a", JInt (-1)); ("b", JArray [JInt 7; JNull])]))
  = Ok (VMap [("a", VInt (-1)); ("b", VList [VInt 7; VNull])]).
Proof. split; [eexists; reflexivity|]. split; reflexivity. Qed.

Print Assumptions C08_roundtrip.
Print Assumptions C08_idempotent.
Print Assumptions C08_key_order.
Print Assumptions C08_write_fails_iff.
Print Assumptions C08_all_strings_refuted.
Print Assumptions C09_denotes.
Print Assumptions C09_total.
Print Assumptions C09_prefixes_covered.
Print Assumptions C09_ints_in_range.
Print Assumptions C09_int_boundary.
Print Assumptions C09_huge_int_becomes_float.
Print Assumptions C09_duplicate_key_first.
Print Assumptions C09_malformed_reported_refuted.
