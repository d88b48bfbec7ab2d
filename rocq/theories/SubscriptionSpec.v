(** What the user of subscriptions expects, in terms of the calls made and what they answered. *)
From Coq Require Import Permutation Sorting.Sorted.
From Verif Require Import Cpp Value Ast ErrorModel SortedMapModel ExecModel ExecSem ExecSpec SubscriptionModel.
Local Open Scope string_scope.
Local Open Scope list_scope.

(** The directives map drops its selection: the first of skip and include that is present decides. *)
Definition dropped (ds : entries) : Prop := condition ds "skip" true \/ (lookup "skip" ds = None /\ condition ds "include" false).

(** Selections other than fields that contribute nothing: fragments that are dropped by a directive or are not for a
    type of the object. *)
Inductive no_effect (vars : entries) (frags : list (string * fragment)) (object : option (list string)) : selection -> Prop :=
| ne_spread_dropped loc n fr dirs ds types : find_fragment n frags = Some fr -> object = Some types -> In (fr_type fr) types ->
    dirs_value vars (named_only dirs) ds -> dropped ds -> no_effect vars frags object (SSpread loc n dirs)
| ne_spread_type loc n fr dirs types : find_fragment n frags = Some fr -> object = Some types -> ~ In (fr_type fr) types ->
    no_effect vars frags object (SSpread loc n dirs)
| ne_inline_dropped loc c dirs ds sel : dirs_value vars (named_only dirs) ds -> dropped ds -> no_effect vars frags object (SInline loc c dirs sel)
| ne_inline_type loc l t dirs ds sel types : dirs_value vars (named_only dirs) ds -> not_dropped ds -> object = Some types -> ~ In t types ->
    no_effect vars frags object (SInline loc (Some (l, t)) dirs sel)
| ne_spread_empty loc n fr dirs ds types : find_fragment n frags = Some fr -> object = Some types -> In (fr_type fr) types ->
    dirs_value vars (named_only dirs) ds -> not_dropped ds -> fr_sel fr = [] -> no_effect vars frags object (SSpread loc n dirs)
| ne_inline_empty loc c dirs ds types : dirs_value vars (named_only dirs) ds -> not_dropped ds ->
    (forall l t, c = Some (l, t) -> object = Some types /\ In t types) -> no_effect vars frags object (SInline loc c dirs []).

(** A field that a directive drops. *)
Definition dropped_field (vars : entries) (s : selection) : Prop :=
  exists loc al n args dirs sub ds, s = SField loc al n args dirs sub /\ dirs_value vars (named_only dirs) ds /\ dropped ds.

(** [root_field_is sels n es ds]: among the selections exactly one field counts; its name is [n], its arguments are [es],
    its directives [ds]. *)
Definition root_field_is (vars : entries) (frags : list (string * fragment)) (object : option (list string)) (sels : list selection)
    (n : string) (es ds : entries) : Prop :=
  exists before loc al args dirs sub after,
    sels = before ++ SField loc al n args dirs sub :: after /\
    Forall (fun s => dropped_field vars s \/ no_effect vars frags object s) before /\ Forall (no_effect vars frags object) after /\
    dirs_value vars (named_only dirs) ds /\ not_dropped ds /\ args_value vars args es.
Definition no_root_field_in (vars : entries) (frags : list (string * fragment)) (object : option (list string)) (sels : list selection) : Prop :=
  Forall (fun s => dropped_field vars s \/ no_effect vars frags object s) sels.

(** A subscription: what was passed to subscribe. *)
Record subscription (CB : Type) : Type := mkSub { s_doc : document; s_name : string; s_vars : value; s_callback : CB }.
Arguments mkSub {CB}. Arguments s_doc {CB}. Arguments s_name {CB}. Arguments s_vars {CB}. Arguments s_callback {CB}.
Arguments Subscribe {O CB}. Arguments SubscribeAsync {O CB}. Arguments Unsubscribe {O CB}. Arguments UnsubscribeAsync {O CB}. Arguments Deliver {O CB}.
Arguments GotKey {CB}. Arguments Returned {CB}. Arguments Failed {CB}. Arguments CalledBack {CB}.
Arguments i_key {CB}. Arguments i_callback {CB}. Arguments i_document {CB}. Arguments mkInv {CB}.

Section Spec.
  Context {O CB : Type}.

  (** The subscription [s] is for field [n] with arguments [es] and directives [ds]: its document has one operation, of
      which this is the root field. *)
  Definition listens (object : option (list string)) (s : subscription CB) (n : string) (es ds : entries) : Prop :=
    exists given op frags, s_vars s = VMap given /\ operations (s_doc s) = [op] /\ fragments_of given (s_doc s) frags /\
      root_field_is given frags object (op_sel op) n es ds.

  (** The subscriptions that were made and not removed, in the order in which they were made, with their keys. *)
  Definition after_call (subs : list (N * subscription CB)) (ca : call O CB * answered CB) : list (N * subscription CB) :=
    match ca with
    | (Subscribe doc name vars cb, GotKey k) => subs ++ [(k, mkSub doc name vars cb)]
    | (SubscribeAsync _ doc name vars cb, GotKey k) => subs ++ [(k, mkSub doc name vars cb)]
    | (Unsubscribe k, Returned) => filter (fun ks => negb (N.eqb (fst ks) k)) subs
    | (UnsubscribeAsync _ k, Returned) => filter (fun ks => negb (N.eqb (fst ks) k)) subs
    | _ => subs
    end.
  Definition live (h : list (call O CB * answered CB)) : list (N * subscription CB) := fold_left after_call h [].

  (** How many subscriptions were ever made. *)
  Definition made (h : list (call O CB * answered CB)) : N :=
    N.of_nat (length (filter (fun ca => match snd ca with GotKey _ => true | _ => false end) h)).

  (** Variables are passed as a map without empty scalars (C07), and the root fields have names (as in every parsed
      document). *)
  Definition named_root (sels : list selection) : Prop := forall loc al args dirs sub, ~ In (SField loc al "" args dirs sub) sels.
  Definition plain_sub (s : subscription CB) : Prop :=
    (exists given, s_vars s = VMap given /\ copyable given) /\ forall op, In op (operations (s_doc s)) -> named_root (op_sel op).
  Definition plain_call (ca : call O CB * answered CB) : Prop :=
    match fst ca with
    | Subscribe doc name vars cb => plain_sub (mkSub doc name vars cb)
    | SubscribeAsync _ doc name vars cb => plain_sub (mkSub doc name vars cb)
    | _ => True
    end.

  (** The filter accepts all of the entries. *)
  Definition accepts (f : filter_callback) (es : entries) : Prop := forall n v, In (n, v) es -> f n v = Ok true.
  (** [recipients h name f rs]: [rs] are the live subscriptions an event [name] filtered by [f] is for, in key order. *)
  Definition recipients (object : option (list string)) (h : list (call O CB * answered CB)) (name : string) (f : filters)
      (rs : list (N * subscription CB)) : Prop :=
    StronglySorted N.lt (map fst rs) /\
    forall k s, In (k, s) rs <-> In (k, s) (live h) /\
      exists es ds, listens object s name es ds /\ accepts (fst (filters_of f)) es /\ accepts (snd (filters_of f)) ds.

  (** Resolving the selections of the subscription's operation on [o] gives [r] in some schedule; [ctx] is what the accessors
      are told. The variables are the ones passed to subscribe. *)
  Definition resolves_to (typenames : O -> list string) (has_field : O -> string -> bool) (ans : O -> string -> fparams -> answer O) (fuel : nat)
      (ctx : resolver_context) (l : launch) (o : O) (s : subscription CB) (r : result rr) : Prop :=
    exists given op frags ds, s_vars s = VMap given /\ operations (s_doc s) = [op] /\ fragments_of given (s_doc s) frags /\
      dirs_value given (named_only (op_dirs op)) ds /\
      computes typenames has_field ans fuel (mkEnv ctx ds frags (VMap given) l) o [] (op_sel op) r.
  (** The document for an outcome: data and errors, or null data and the errors of the exception. *)
  Inductive document_for : result rr -> value -> Prop :=
  | df_result x : document_for (Ok x) (build_document x)
  | df_errors errs : document_for (Throw (SchemaEx errs)) (error_document errs).

  (** The object an event is resolved on: the one passed to deliver, or else the default one. *)
  Definition event_object (roots : list (string * option O)) (object : option O) (o : O) : Prop :=
    object = Some o \/ object = None /\ find_root O "subscription" roots = Some (Some o).
  (** the type names of the default subscription object *)
  Definition default_types (typenames : O -> list string) (roots : list (string * option O)) : option (list string) :=
    match find_root O "subscription" roots with Some (Some o) => Some (typenames o) | _ => None end.

  Definition who (i : invocation CB) : N * CB := (i_key i, i_callback i).
  Definition who_is (ks : N * subscription CB) : N * CB := (fst ks, s_callback (snd ks)).
End Spec.
