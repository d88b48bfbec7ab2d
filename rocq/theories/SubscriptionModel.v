(** Subscriptions: src/GraphQLService.cpp SubscriptionDefinitionVisitor, Request::subscribe, unsubscribe and deliver. *)
From Coq Require Import Permutation.
From Verif Require Import Cpp Value Ast ErrorModel SortedMapModel ExecModel ExecSem.
Local Open Scope string_scope.
Local Open Scope list_scope.

(** size_t arithmetic *)
Definition size_t_max : N := 18446744073709551616%N.
Definition size_t_succ (k : N) : N := ((k + 1) mod size_t_max)%N.

(** sorted_set<SubscriptionKey> and sorted_map<SubscriptionKey, ...> compare with std::less<size_t>,
    sorted_map<SubscriptionName, ...> with std::less<std::string>. *)
Definition key_add (k : N) (s : list N) : list N := fst (sv_emplace (fun x => x) N.ltb s k k).
Definition key_erase (k : N) (s : list N) : list N := fst (sv_erase (fun x => x) N.ltb s k).

Section Subscriptions.
  Variable O : Type.
  Variable typenames : O -> list string.
  Variable has_field : O -> string -> bool.
  Variable roots : list (string * option O).
  (** Identities of the callbacks (std::function objects) given to subscribe. *)
  Variable CB : Type.

  (** GraphQLService.h:855-871 [SubscriptionData] with its [OperationData]. The state pointer, the query and the
      operation name are kept by the code only to keep them alive; they are left out. *)
  Record registration : Type := mkReg {
    g_field : string; g_args : value; g_dirs : value;
    g_opdirs : entries; g_frags : list (string * fragment); g_vars : value; g_sel : list selection; g_callback : CB }.

  (** GraphQLService.h:964-966. *)
  Record registry : Type := mkRegistry { subscriptions : list (N * registration); listeners : list (string * list N); next_key : N }.
  Definition no_subscriptions : registry := mkRegistry [] [] 0.

  (** ** The visitor *)

  (** GraphQLService.cpp:1412-1414: _field, _arguments, _fieldDirectives; the values start out as null. *)
  Record root_field : Type := mkRF { rf_name : string; rf_args : value; rf_dirs : value }.
  Definition no_root_field : root_field := mkRF "" VNull VNull.

  (** GraphQLService.cpp:1487-1536 [visitField]. *)
  Definition sub_field (vars : value) (loc : schema_location) (name : string) (args : list argument) (dirs : list directive)
      (st : root_field) : result root_field :=
    if negb (String.eqb (rf_name st) "") then
      Throw (SchemaEx [mkErr ("Extra subscription root field name: " ++ name) loc []])
    else
      ds <- visit_directives vars dirs [] ;;
      skip <- should_skip ds ;;
      if skip then Ok st
      else
        es <- visit_arguments vars args [] ;;
        Ok (mkRF name (VMap es) (VMap ds)).

  (** GraphQLService.cpp:1572-1576 and 1602-1609: the selections of a fragment that applies are passed to [visit],
      which takes each of them for an operation definition: it makes the registration, moves the parameters, the
      fragments and the callback into it, and the caller goes on with what is left of them. The second registration
      then releases the first one together with the syntax tree that is being visited. *)
  Definition sub_inside (sel : list selection) (st : root_field) : result root_field :=
    match sel with [] => Ok st | _ => UB end.

  (** GraphQLService.cpp:1538-1577 [visitFragmentSpread]. The default subscription object may be null: calling
      matchesType on it is undefined. *)
  Definition sub_spread (object : option O) (vars : value) (frags : list (string * fragment)) (loc : schema_location) (name : string)
      (dirs : list directive) (st : root_field) : result root_field :=
    match find_fragment name frags with
    | None => Throw (SchemaEx [mkErr ("Unknown fragment name: " ++ name) loc []])
    | Some fr =>
        match object with
        | None => UB
        | Some o =>
            if matches_type O typenames o (fr_type fr) then
              ds <- visit_directives vars dirs [] ;;
              skip <- should_skip ds ;;
              if skip then Ok st else sub_inside (fr_sel fr) st
            else Ok st
        end
    end.

  (** GraphQLService.cpp:1579-1610 [visitInlineFragment]. *)
  Definition sub_inline (object : option O) (vars : value) (cond : option (schema_location * string)) (dirs : list directive)
      (sel : list selection) (st : root_field) : result root_field :=
    ds <- visit_directives vars dirs [] ;;
    skip <- should_skip ds ;;
    if skip then Ok st
    else
      match cond with
      | None => sub_inside sel st
      | Some (_, t) =>
          match object with
          | None => UB
          | Some o => if matches_type O typenames o t then sub_inside sel st else Ok st
          end
      end.

  (** GraphQLService.cpp:1447-1461: the loop over the selections of the operation. *)
  Fixpoint sub_selections (object : option O) (vars : value) (frags : list (string * fragment)) (sels : list selection)
      (st : root_field) : result root_field :=
    match sels with
    | [] => Ok st
    | s :: r =>
        st' <- match s with
               | SField loc _ name args dirs _ => sub_field vars loc name args dirs st
               | SSpread loc name dirs => sub_spread object vars frags loc name dirs st
               | SInline _ cond dirs sel => sub_inline object vars cond dirs sel st
               end ;;
        sub_selections object vars frags r st'
    end.

  (** GraphQLService.cpp:1443-1485 [visit]. *)
  Definition sub_visit (object : option O) (vars : value) (frags : list (string * fragment)) (cb : CB) (op : operation_def)
      : result registration :=
    f <- sub_selections object vars frags (op_sel op) no_root_field ;;
    ds <- visit_directives vars (op_dirs op) [] ;;
    Ok (mkReg (rf_name f) (rf_args f) (rf_dirs f) ds frags vars (op_sel op) cb).

  (** GraphQLService.cpp:1932-1988 [Request::subscribe] up to the registration. All operation definitions are visited
      with the same visitor (1983-1986): after the first one its parameters have been moved away, and finishing the
      second one releases the syntax tree that is being walked (see [sub_inside]). [validate doc] is the list of errors
      of Request::validate. *)
  Definition make_registration (validate : document -> list schema_error) (doc : document) (name : string) (vars : value) (cb : CB)
      : result registration :=
    match validate doc with
    | (_ :: _) as errs => Throw (SchemaEx errs)
    | [] =>
        frags <- mapM (make_fragment vars) (fragments doc) ;;
        match find_operation doc name with
        | None => Throw (SchemaEx [mkErr ("Missing subscription" ++ quoted_name name) (mkLoc 0 1) []])
        | Some op =>
            if negb (String.eqb (op_kind op) "subscription") then
              Throw (SchemaEx [mkErr ("Unexpected operation type: " ++ op_kind op ++ quoted_name name) (op_loc op) []])
            else
              match find_root O "subscription" roots with
              | None => UB
              | Some object =>
                  match operations doc with
                  | [] => UB
                  | [op1] => sub_visit object vars frags cb op1
                  | op1 :: _ => _ <- sub_visit object vars frags cb op1 ;; UB
                  end
              end
        end
    end.

  (** ** The registry *)

  (** GraphQLService.cpp:1990-1996: the key, and both indices. *)
  Definition add_registration (reg : registration) (r : registry) : N * registry :=
    let k := next_key r in
    let cur := match smap_find string_lt (listeners r) (g_field reg) with Some s => s | None => [] end in
    (k, mkRegistry (fst (smap_emplace N.ltb (subscriptions r) k reg))
                   (smap_assign string_lt [] (listeners r) (g_field reg) (key_add k cur))
                   (size_t_succ k)).

  (** GraphQLService.cpp:1932-1999 [Request::subscribe]. *)
  Definition subscribe (validate : document -> list schema_error) (doc : document) (name : string) (vars : value) (cb : CB)
      (r : registry) : result (N * registry) :=
    reg <- make_registration validate doc name vars cb ;;
    Ok (add_registration reg r).

  (** std::rbegin()->first *)
  Definition last_key (subs : list (N * registration)) : option N := match rev subs with [] => None | (k, _) :: _ => Some k end.

  (** GraphQLService.cpp:2050-2078 [Request::unsubscribe]. *)
  Definition unsubscribe (key : N) (r : registry) : result registry :=
    match smap_find N.ltb (subscriptions r) key with
    | None => Ok r
    | Some reg =>
        listener <- smap_at string_lt (listeners r) (g_field reg) ;;
        let s := key_erase key listener in
        let ls := smap_assign string_lt [] (listeners r) (g_field reg) s in
        let ls' := match s with [] => smap_erase string_lt ls (g_field reg) | _ => ls end in
        let subs := smap_erase N.ltb (subscriptions r) key in
        Ok (mkRegistry subs ls' (match last_key subs with None => 0%N | Some k => size_t_succ k end))
    end.

  (** ** Delivering *)

  (** GraphQLService.h:848 [SubscriptionFilterCallback]: user code, which may also throw. *)
  Definition filter_callback : Type := string -> value -> result bool.

  (** GraphQLService.cpp:2136-2158: the filters of the overload that takes maps. std::map keeps one value for a name. *)
  Definition match_arguments (arguments : entries) : filter_callback :=
    fun name required => Ok (match lookup name arguments with Some v => value_eqb v required | None => false end).
  (** GraphQLService.cpp:2164-2171: the filter of the overload without one for directives. *)
  Definition match_any : filter_callback := fun _ _ => Ok true.

  (** GraphQLService.cpp:2234-2245 and 2257-2264: all of the map's members are accepted. Anything but a map has no begin(). *)
  Fixpoint all_match (f : filter_callback) (es : entries) : result bool :=
    match es with
    | [] => Ok true
    | (k, v) :: r => b <- f k v ;; if b then all_match f r else Ok false
    end.
  Definition all_match_value (f : filter_callback) (v : value) : result bool :=
    match v with
    | VMap es => all_match f es
    | _ => Throw (Exn logic_error "Invalid call to Value::begin for MapType")
    end.

  (** GraphQLService.cpp:2226-2269: whether the event reaches the subscription. *)
  Definition reaches (applyArguments applyDirectives : filter_callback) (reg : registration) : result bool :=
    b <- all_match_value applyArguments (g_args reg) ;;
    if b then all_match_value applyDirectives (g_dirs reg) else Ok false.

  (** What a callback is called with: the key of the subscription, the callback, the document its future gives. *)
  Record invocation : Type := mkInv { i_key : N; i_callback : CB; i_document : value }.

  (** GraphQLService.cpp:2274-2316: resolving the selection on the object gave [r]; the document. A schema_exception is
      caught, any other leaves deliver. *)
  Definition event_document (r : result rr) : result value :=
    match r with
    | Ok x => Ok (build_document x)
    | Throw (SchemaEx errs) => Ok (error_document errs)
    | Throw e => Throw e
    | UB => UB
    end.

  Definition reg_env (ctx : resolver_context) (l : launch) (reg : registration) : env :=
    mkEnv ctx (g_opdirs reg) (g_frags reg) (g_vars reg) l.

  Section Deliver.
    (** [resolving o reg r]: some schedule of resolving the registered selection on [o] gives [r]. *)
    Variable resolving : O -> registration -> result rr -> Prop.

    (** GraphQLService.cpp:2222-2323: the loop over the keys of the listeners. It gives the callbacks that are to be
        called, in order, and an exception if one ended the loop. *)
    Inductive collects (applyArguments applyDirectives : filter_callback) (object : O) (subs : list (N * registration)) :
        list N -> list invocation -> result unit -> Prop :=
    | co_nil : collects applyArguments applyDirectives object subs [] [] (Ok tt)
    | co_missing k keys : smap_find N.ltb subs k = None -> collects applyArguments applyDirectives object subs (k :: keys) [] UB
    | co_filtered k keys reg is out :
        smap_find N.ltb subs k = Some reg -> reaches applyArguments applyDirectives reg = Ok false ->
        collects applyArguments applyDirectives object subs keys is out ->
        collects applyArguments applyDirectives object subs (k :: keys) is out
    | co_filter_throws k keys reg e :
        smap_find N.ltb subs k = Some reg -> reaches applyArguments applyDirectives reg = Throw e ->
        collects applyArguments applyDirectives object subs (k :: keys) [] (Throw e)
    | co_filter_undefined k keys reg :
        smap_find N.ltb subs k = Some reg -> reaches applyArguments applyDirectives reg = UB ->
        collects applyArguments applyDirectives object subs (k :: keys) [] UB
    | co_deliver k keys reg r d is out :
        smap_find N.ltb subs k = Some reg -> reaches applyArguments applyDirectives reg = Ok true ->
        resolving object reg r -> event_document r = Ok d ->
        collects applyArguments applyDirectives object subs keys is out ->
        collects applyArguments applyDirectives object subs (k :: keys) (mkInv k (g_callback reg) d :: is) out
    | co_resolve_throws k keys reg r e :
        smap_find N.ltb subs k = Some reg -> reaches applyArguments applyDirectives reg = Ok true ->
        resolving object reg r -> event_document r = Throw e ->
        collects applyArguments applyDirectives object subs (k :: keys) [] (Throw e)
    | co_resolve_undefined k keys reg r :
        smap_find N.ltb subs k = Some reg -> reaches applyArguments applyDirectives reg = Ok true ->
        resolving object reg r -> event_document r = UB ->
        collects applyArguments applyDirectives object subs (k :: keys) [] UB.

    (** A callback handed to std::async: whether it got its own thread, and the exception it throws, if any. Callbacks
        are user code: nothing is assumed about which ones throw. *)
    Record started : Type := mkStarted { st_async : bool; st_inv : invocation; st_throws : option exn }.

    (** GraphQLService.cpp:2325-2328: waiting for the callbacks in order. A deferred callback runs when it is waited
        for; the first exception ends the loop, and the deferred callbacks after it are dropped. *)
    Fixpoint waited (ss : list started) : list invocation * option exn :=
      match ss with
      | [] => ([], None)
      | s :: r =>
          let run := if st_async s then [] else [st_inv s] in
          match st_throws s with
          | Some e => (run, Some e)
          | None => let (is, e) := waited r in (run ++ is, e)
          end
      end.

    (** Some interleaving of two sequences. *)
    Inductive interleaved {A} : list A -> list A -> list A -> Prop :=
    | il_nil : interleaved [] [] []
    | il_left x a b c : interleaved a b c -> interleaved (x :: a) b (x :: c)
    | il_right x a b c : interleaved a b c -> interleaved a (x :: b) (x :: c).

    (** The callbacks that run and their order: the ones with their own thread run in any order, and all of them, also
        when deliver throws (the destructor of their future waits for them); if the collecting loop threw ([out]), the
        deferred ones are not waited for. *)
    Definition calls_back (l : launch) (is : list invocation) (out : result unit) (log : list invocation) (final : result unit) : Prop :=
      exists ss asyncs,
        map st_inv ss = is /\
        (forall s, In s ss -> (st_async s = true -> l <> LDeferred) /\ (st_async s = false -> l <> LAsync)) /\
        Permutation asyncs (map st_inv (filter st_async ss)) /\
        match out with
        | Ok _ => interleaved asyncs (fst (waited ss)) log /\
                  final = match snd (waited ss) with None => Ok tt | Some e => Throw e end
        | _ => log = asyncs /\ final = out
        end.

    (** GraphQLService.cpp:2194-2330 [Request::deliver]. [object] is the subscriptionObject parameter. *)
    Inductive delivers (l : launch) (name : string) (applyArguments applyDirectives : filter_callback) (object : option O)
        (r : registry) : list invocation -> result unit -> Prop :=
    | de_unsupported : find_root O "subscription" roots = None ->
        delivers l name applyArguments applyDirectives object r [] (Throw (Exn logic_error "Subscriptions not supported"))
    | de_no_object : find_root O "subscription" roots = Some None -> object = None ->
        delivers l name applyArguments applyDirectives object r [] (Throw (Exn invalid_argument "Missing subscriptionObject"))
    | de_no_listener default o : find_root O "subscription" roots = Some default ->
        match object with Some x => Some x | None => default end = Some o ->
        smap_find string_lt (listeners r) name = None ->
        delivers l name applyArguments applyDirectives object r [] (Ok tt)
    | de_listeners default o keys is out log final : find_root O "subscription" roots = Some default ->
        match object with Some x => Some x | None => default end = Some o ->
        smap_find string_lt (listeners r) name = Some keys ->
        collects applyArguments applyDirectives o (subscriptions r) keys is out ->
        calls_back l is out log final ->
        delivers l name applyArguments applyDirectives object r log final.
  End Deliver.

  (** GraphQLService.cpp:2113-2134 and 2160-2192: the overloads without a launch policy are deferred, without directives or
      arguments they pass empty maps, with a filter for arguments only they accept all directives. *)
  Inductive filters : Type :=
  | ByName                                                  (* deliver(name, object) *)
  | ByArguments (arguments : entries)                       (* deliver(name, arguments, object) *)
  | ByMaps (arguments directives : entries)                 (* deliver(name, arguments, directives, object) *)
  | ByFilter (applyArguments : filter_callback)             (* deliver(name, applyArguments, object) *)
  | ByFilters (applyArguments applyDirectives : filter_callback).
  Definition filters_of (f : filters) : filter_callback * filter_callback :=
    match f with
    | ByName => (match_arguments [], match_arguments [])
    | ByArguments a => (match_arguments a, match_arguments [])
    | ByMaps a d => (match_arguments a, match_arguments d)
    | ByFilter f => (f, match_any)
    | ByFilters f g => (f, g)
    end.

  (** ** A request over time *)
  Section Histories.
    (** What the accessors answer (they depend on their inputs only). *)
    Variable ans : O -> string -> fparams -> answer O.
    Variable fuel : nat.
    Variable validate : document -> list schema_error.

    (** Some schedule of resolving the registered selection on [o] ends with [r]. *)
    Definition resolving (ctx : resolver_context) (l : launch) (o : O) (reg : registration) (r : result rr) : Prop :=
      exists n evs t, steps (fun (s : unit) x f p => (s, ans x f p)) n tt
        (T [] (resolve O typenames has_field fuel (reg_env ctx l reg) o [] (g_sel reg) Ret)) evs tt t /\ ended t r.

    Inductive call : Type :=
    | Subscribe (doc : document) (name : string) (vars : value) (cb : CB)
    | SubscribeAsync (l : launch) (doc : document) (name : string) (vars : value) (cb : CB)   (* and get() *)
    | Unsubscribe (key : N)
    | UnsubscribeAsync (l : launch) (key : N)                                                (* and get() *)
    | Deliver (l : launch) (name : string) (f : filters) (object : option O).

    (** What the caller sees. *)
    Inductive answered : Type :=
    | GotKey (key : N)
    | Returned
    | Failed (e : exn)
    | CalledBack (log : list invocation) (final : result unit).

    (** catch (const std::exception& ex) { ... throw ex; } copies only the std::exception part; its what() is
        "std::exception" (libstdc++). *)
    Definition sliced (e : exn) : exn := Exn other_error "std::exception".

    (** One call. GraphQLService.cpp:1932-1999, 2001-2048, 2050-2078, 2080-2111, 2113-2330. A call that runs into
        undefined behaviour has no rule. The notifications resolve the registered selection on the default object; an
        empty entry in the operations map would be dereferenced. *)
    Inductive serves : registry -> call -> answered -> registry -> Prop :=
    | se_subscribe r doc name vars cb k r' : subscribe validate doc name vars cb r = Ok (k, r') ->
        serves r (Subscribe doc name vars cb) (GotKey k) r'
    | se_subscribe_fails r doc name vars cb e : subscribe validate doc name vars cb r = Throw e ->
        serves r (Subscribe doc name vars cb) (Failed e) r
    | se_async_fails r l doc name vars cb e : subscribe validate doc name vars cb r = Throw e ->
        serves r (SubscribeAsync l doc name vars cb) (Failed e) r
    | se_async_notified r l doc name vars cb k r' o reg x : subscribe validate doc name vars cb r = Ok (k, r') ->
        find_root O "subscription" roots = Some (Some o) -> smap_at N.ltb (subscriptions r') k = Ok reg ->
        resolving CNotifySubscribe l o reg (Ok x) ->
        serves r (SubscribeAsync l doc name vars cb) (GotKey k) r'
    | se_async_rejected r l doc name vars cb k r' o reg e r'' : subscribe validate doc name vars cb r = Ok (k, r') ->
        find_root O "subscription" roots = Some (Some o) -> smap_at N.ltb (subscriptions r') k = Ok reg ->
        resolving CNotifySubscribe l o reg (Throw e) -> unsubscribe k r' = Ok r'' ->
        serves r (SubscribeAsync l doc name vars cb) (Failed (sliced e)) r''
    | se_unsubscribe r k r' : unsubscribe k r = Ok r' -> serves r (Unsubscribe k) Returned r'
    | se_unsubscribe_throws r k e : unsubscribe k r = Throw e -> serves r (Unsubscribe k) (Failed e) r
    | se_unasync_unknown r l k e default : find_root O "subscription" roots = Some default -> smap_at N.ltb (subscriptions r) k = Throw e ->
        serves r (UnsubscribeAsync l k) (Failed e) r
    | se_unasync_notified r l k o reg x r' : find_root O "subscription" roots = Some (Some o) ->
        smap_at N.ltb (subscriptions r) k = Ok reg -> resolving CNotifyUnsubscribe l o reg (Ok x) -> unsubscribe k r = Ok r' ->
        serves r (UnsubscribeAsync l k) Returned r'
    | se_unasync_rejected r l k o reg e : find_root O "subscription" roots = Some (Some o) ->
        smap_at N.ltb (subscriptions r) k = Ok reg -> resolving CNotifyUnsubscribe l o reg (Throw e) ->
        serves r (UnsubscribeAsync l k) (Failed e) r
    | se_unasync_unsupported r l k r' : find_root O "subscription" roots = None -> unsubscribe k r = Ok r' ->
        serves r (UnsubscribeAsync l k) Returned r'
    | se_deliver r l name f object log final : final <> UB ->
        delivers (resolving CSubscription l) l name (fst (filters_of f)) (snd (filters_of f)) object r log final ->
        serves r (Deliver l name f object) (CalledBack log final) r.

    (** Any sequence of calls on a new Request. *)
    Inductive history : list (call * answered) -> registry -> Prop :=
    | hi_new : history [] no_subscriptions
    | hi_call h r c a r' : history h r -> serves r c a r' -> history (h ++ [(c, a)]) r'.
  End Histories.
End Subscriptions.
