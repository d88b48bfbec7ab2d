(** Executing a selection set, field by field (C45): what GraphQL's ExecuteSelectionSet asks for, as a relation. *)
From Verif Require Import Cpp Value Ast ErrorModel ExecModel ExecSpec.
Local Open Scope string_scope.
Local Open Scope list_scope.

(** A field that is not dropped: its location and name, the values of its arguments, its directives, its sub-selection and the
    directives of the fragments around it. *)
Record chosen : Type := mkChosen {
  ch_loc : schema_location; ch_name : string; ch_args : entries; ch_dirs : entries;
  ch_sub : option (schema_location * list selection); ch_around : fdirs }.

(** The entries of [inner], then those of [outer] with other names. *)
Definition overlaid (inner outer : entries) : entries :=
  inner ++ filter (fun kv => negb (existsb (String.eqb (fst kv)) (map fst inner))) (firsts outer).

(** The directives [dirs] have the value [ds] and keep ([b = true]) or drop their selection. *)
Definition decided (vars : entries) (dirs : list directive) (ds : entries) (b : bool) : Prop :=
  named_dirs dirs /\ dirs_value vars dirs ds /\ valid_conditions ds /\ one_condition ds /\ (b = false <-> excluded ds).

(** CollectFields: the fields of a selection set, with their response keys, in document order; None for a dropped field.
    [known]: the fields of the object. A dropped field that is not known is left out of this relation (it is reported). *)
Inductive collects (vars : entries) (frags : list (string * fragment)) (types : list string) (known : string -> bool) :
    fdirs -> list selection -> list (string * option chosen) -> Prop :=
| co_nil fd : collects vars frags types known fd [] []
| co_field fd loc al n args avs dirs ds sub rest items :
    decided vars dirs ds true -> args_value vars args avs -> collects vars frags types known fd rest items ->
    collects vars frags types known fd (SField loc al n args dirs sub :: rest)
      ((response_key al n, Some (mkChosen loc n avs ds sub fd)) :: items)
| co_field_dropped fd loc al n args dirs ds sub rest items :
    decided vars dirs ds false -> known n = true -> collects vars frags types known fd rest items ->
    collects vars frags types known fd (SField loc al n args dirs sub :: rest) ((response_key al n, None) :: items)
| co_spread fd loc n fr dirs ds rest i1 i2 :
    find_fragment n frags = Some fr -> In (fr_type fr) types -> decided vars dirs ds true ->
    collects vars frags types known (mkFD (overlaid (fr_dirs fr) (fd_def fd)) (overlaid ds (fd_spread fd)) (fd_inline fd)) (fr_sel fr) i1 ->
    collects vars frags types known fd rest i2 -> collects vars frags types known fd (SSpread loc n dirs :: rest) (i1 ++ i2)
| co_spread_dropped fd loc n fr dirs ds rest i2 :
    find_fragment n frags = Some fr -> ~ In (fr_type fr) types \/ decided vars dirs ds false ->
    collects vars frags types known fd rest i2 -> collects vars frags types known fd (SSpread loc n dirs :: rest) i2
| co_inline fd loc c dirs ds sel rest i1 i2 :
    (forall l t, c = Some (l, t) -> In t types) -> decided vars dirs ds true ->
    collects vars frags types known (mkFD (fd_def fd) (fd_spread fd) (overlaid ds (fd_inline fd))) sel i1 ->
    collects vars frags types known fd rest i2 -> collects vars frags types known fd (SInline loc c dirs sel :: rest) (i1 ++ i2)
| co_inline_dropped fd loc c dirs ds b sel rest i2 :
    decided vars dirs ds b -> b = false \/ (exists l t, c = Some (l, t) /\ ~ In t types) ->
    collects vars frags types known fd rest i2 -> collects vars frags types known fd (SInline loc c dirs sel :: rest) i2.

(** The first field of each response key, unless it is dropped. *)
Definition first_chosen (items : list (string * option chosen)) : list (string * chosen) :=
  flat_map (fun kc => match snd kc with Some c => [(fst kc, c)] | None => [] end) (firsts items).

Section Execute.
  Context {O : Type}.
  Variables (typenames : O -> list string) (has_field : O -> string -> bool) (ans : O -> string -> fparams -> answer O).
  Variables (vars : entries) (e : env).

  Definition sub_selections (c : chosen) : list selection := match ch_sub c with Some (_, l) => l | None => [] end.
  Definition called_with (p : list path_segment) (key : string) (c : chosen) : fparams :=
    mkParams (e_context e) (e_opdirs e) (ch_around c) (p ++ [PName key]) key (ch_args c) (ch_dirs c).

  (** ExecuteField: the value and the errors of one field of object [o] at path [p]; [obj] says how an object resolves the
      field's sub-selection. *)
  Inductive field_value (obj : list selection -> O -> list path_segment -> value -> list schema_error -> Prop)
      (o : O) (p : list path_segment) (key : string) (c : chosen) : value -> list schema_error -> Prop :=
  | fv_unknown : has_field o (ch_name c) = false ->
      field_value obj o p key c VNull [mkErr ("Unknown field name: " ++ ch_name c) (ch_loc c) p]
  | fv_throws ex : has_field o (ch_name c) = true -> ans o (ch_name c) (called_with p key c) = AThrow ex ->
      field_value obj o p key c VNull (located (ch_loc c) (p ++ [PName key]) key ex)
  | fv_result f v errs : has_field o (ch_name c) = true -> ans o (ch_name c) (called_with p key c) = AResult f ->
      shape_ok (match ch_sub c with Some _ => true | None => false end) f ->
      completed (obj (sub_selections c)) key (ch_loc c) f (p ++ [PName key]) v errs ->
      field_value obj o p key c v errs.

  (** ExecuteSelectionSet, for a nesting of at most [n] objects. *)
  Fixpoint executes (n : nat) (sels : list selection) (o : O) (p : list path_segment) (v : value) (errs : list schema_error) : Prop :=
    match n with
    | 0 => False
    | S m => exists items outs,
        collects vars (e_frags e) (typenames o) (has_field o) no_fdirs sels items /\
        Forall2 (fun kc ve => field_value (executes m) o p (fst kc) (snd kc) (fst ve) (snd ve)) (first_chosen items) outs /\
        v = VMap (combine (map fst (first_chosen items)) (map fst outs)) /\ errs = flat_map snd outs
    end.
End Execute.
