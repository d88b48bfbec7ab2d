(** Execution: src/GraphQLService.cpp visitors, Object::resolve and the ModifiedResult converters, as programs that
    call accessors, start tasks and wait for futures. *)
From Verif Require Import Cpp Value Ast ErrorModel.
Local Open Scope string_scope.
Local Open Scope list_scope.

Definition entries : Type := list (string * value).

(** GraphQLService.cpp:257-275 [ValueVisitor::visitVariable]. *)
Definition visit_variable (vars : value) (loc : schema_location) (name : string) : result value :=
  match vars with
  | VMap es =>
      match lookup name es with
      | Some v => vcopy v
      | None => Throw (SchemaEx [mkErr ("Unknown variable name: " ++ name) loc []])
      end
  | _ => Throw (Exn logic_error "Invalid call to Value::find for MapType")
  end.

(** GraphQLService.cpp:217-336 [ValueVisitor]. std::atoi of an integer that is not representable is undefined. *)
Fixpoint visit_value (vars : value) (l : lit) : result value :=
  match l with
  | LVar loc name => visit_variable vars loc name
  | LInt _ z => if in_int_range z then Ok (VInt z) else UB
  | LFloat _ f => Ok (VFloat f)
  | LString _ s => Ok (VString s false)
  | LBool _ b => Ok (VBool b)
  | LNull _ => Ok VNull
  | LEnum _ s => Ok (VEnum s)
  | LList _ items => vs <- mapM (visit_value vars) items ;; Ok (VList vs)
  | LObject _ fields =>
      kvs <- mapM (fun a => v <- visit_value vars (snd (snd a)) ;; Ok (fst (snd a), v)) fields ;;
      Ok (VMap (fold_left (fun es kv => fst (map_emplace es (fst kv) (snd kv))) kvs []))
  end.

(** GraphQLService.cpp:381-392 and 895-904: building an arguments map; a repeated name is dropped by emplace_back. *)
Fixpoint visit_arguments (vars : value) (args : list argument) (es : entries) : result entries :=
  match args with
  | [] => Ok es
  | a :: r => v <- visit_value vars (a_value a) ;; visit_arguments vars r (fst (map_emplace es (a_name a) v))
  end.

(** GraphQLService.cpp:360-398 [DirectiveVisitor::visit]. *)
Fixpoint visit_directives (vars : value) (dirs : list directive) (es : entries) : result entries :=
  match dirs with
  | [] => Ok es
  | d :: r =>
      if String.eqb (d_name d) "" then visit_directives vars r es
      else
        args <- visit_arguments vars (d_args d) [] ;;
        visit_directives vars r (fst (map_emplace es (d_name d) (VMap args)))
  end.

(** GraphQLService.cpp:426-447: the loop over the arguments; the two flags as an option. *)
Fixpoint skip_argument (dname : string) (args : entries) (seen : option bool) : result (option bool) :=
  match args with
  | [] => Ok seen
  | (k, v) :: r =>
      match seen, v with
      | None, VBool b =>
          if String.eqb k "if" then skip_argument dname r (Some b)
          else Throw (SchemaEx [mkErr ("Invalid argument to directive: " ++ dname ++ " name: " ++ k) (mkLoc 0 1) []])
      | _, _ => Throw (SchemaEx [mkErr ("Invalid argument to directive: " ++ dname ++ " name: " ++ k) (mkLoc 0 1) []])
      end
  end.

(** GraphQLService.cpp:406-462 [DirectiveVisitor::shouldSkip]: the first of skip, include that is present decides. *)
Fixpoint should_skip_loop (names : list (bool * string)) (dirs : entries) : result bool :=
  match names with
  | [] => Ok false
  | (skip, dname) :: r =>
      match lookup dname dirs with
      | None => should_skip_loop r dirs
      | Some (VMap args) =>
          seen <- skip_argument dname args None ;;
          match seen with
          | Some true => Ok skip
          | Some false => Ok (negb skip)
          | None => Throw (SchemaEx [mkErr ("Missing argument directive: " ++ dname ++ " name: if") (mkLoc 0 1) []])
          end
      | Some _ => Throw (SchemaEx [mkErr ("Invalid arguments to directive: " ++ dname) (mkLoc 0 1) []])
      end
  end.
Definition should_skip (dirs : entries) : result bool := should_skip_loop [(true, "skip"); (false, "include")] dirs.

(** GraphQLService.cpp:475-485 [Fragment::Fragment]. *)
Record fragment : Type := mkFragment { fr_type : string; fr_dirs : entries; fr_sel : list selection }.
Definition make_fragment (vars : value) (f : fragment_def) : result (string * fragment) :=
  dirs <- visit_directives vars (f_dirs f) [] ;;
  Ok (f_name f, mkFragment (f_cond f) dirs (f_sel f)).

(** FragmentMap is a string_view_map; emplace keeps the first fragment of a name (C03), so does this search. *)
Fixpoint find_fragment (name : string) (frs : list (string * fragment)) : option fragment :=
  match frs with
  | [] => None
  | (n, f) :: r => if String.eqb name n then Some f else find_fragment name r
  end.

(** GraphQLService.cpp:732-741 [FragmentDirectives]. *)
Record fdirs : Type := mkFD { fd_def : entries; fd_spread : entries; fd_inline : entries }.
Definition no_fdirs : fdirs := mkFD [] [] [].

(** GraphQLService.cpp:1012-1020, 1025-1033, 1081-1090: merge the outer directives that do not conflict. *)
Fixpoint merge_dirs (inner outer : entries) : entries :=
  match outer with
  | [] => inner
  | (k, v) :: r => merge_dirs (fst (map_emplace inner k v)) r
  end.

(** GraphQLService.h:130-150 [ResolverContext]. *)
Inductive resolver_context : Type := CQuery | CMutation | CNotifySubscribe | CSubscription | CNotifyUnsubscribe.

(** std::launch. *)
Inductive launch : Type := LDeferred | LAsync | LEither.

(** GraphQLService.h:154-201, 246-274: what an accessor is given (FieldParams and the argument values). [state] is an
    opaque pointer that is passed along; it is left out, and so is the launch policy. *)
Record fparams : Type := mkParams {
  p_context : resolver_context; p_opdirs : entries; p_frdirs : fdirs; p_path : list path_segment;
  p_name : string; p_args : entries; p_dirs : entries }.

(** GraphQLService.h:279-283 [ResolverResult]. *)
Record rr : Type := mkRR { data : value; errors : list schema_error }.

Section Exec.
  (** Identities of service::Object instances. Objects may refer to each other in any way, also cyclically. *)
  Variable O : Type.

  (** What an accessor returns, seen through the chain of modifiers of the field's type (GraphQLService.h:495-760):
      - [FLeaf builtin fut v]: a scalar or enum; [fut] if it is a std::future, [v] what get() gives; [builtin] if the
        converter calls blockSubFields (all of GraphQLService.cpp:613-690 do, the ones generated for enums do not).
      - [FObject fut r]: FieldResult<shared_ptr<Object>>, a null pointer being None.
      - [FDerived r]: a shared_ptr to a subclass of Object.
      - [FNullable r]: std::optional, or a nullable shared_ptr.
      - [FList r]: std::vector. *)
  Inductive fres : Type :=
  | FLeaf (builtin fut : bool) (v : result value)
  | FObject (fut : bool) (r : result (option O))
  | FDerived (r : result (option O))
  | FNullable (r : result (option fres))
  | FList (r : result (list fres)).

  (** The resolver registered for a field throws or returns. For generated code this covers reading the arguments
      (C41), calling the accessor and handing its result to the converter. *)
  Inductive answer : Type := AThrow (e : exn) | AResult (f : fres).

  (** Callbacks into user code other than accessors, for the record. *)
  Inductive event : Type :=
  | EvCall (o : O) (field : string) (p : fparams)
  | EvAwait (p : list path_segment)              (* get() on a future the accessor returned *)
  | EvBegin (o : O) (p : list path_segment)      (* beginSelectionSet *)
  | EvEnd (o : O) (p : list path_segment).       (* endSelectionSet *)

  (** A program: what one thread does. Futures are numbered per thread in the order they are created.
      - [Spawn l c k]: std::async(l, c), continue with the number of the future.
      - [Get i k]: future i .get(). *)
  Inductive comp : Type :=
  | Ret (r : result rr)
  | Call (o : O) (field : string) (p : fparams) (k : answer -> comp)
  | Emit (e : event) (k : comp)
  | Spawn (l : launch) (c : comp) (k : nat -> comp)
  | Get (i : nat) (k : result rr -> comp).

  Definition M (A : Type) : Type := (A -> comp) -> comp.

  (** A std::future<ResolverResult>: from a promise that is already set, or from std::async. *)
  Inductive fut : Type := FReady (r : result rr) | FIdx (i : nat).
  Definition get_fut (f : fut) : M (result rr) :=
    fun k => match f with FReady r => k r | FIdx i => Get i k end.

  (** The parts of ResolverParams the converters use. *)
  Record rparams : Type := mkRP { rp_name : string; rp_loc : schema_location; rp_sub : option schema_location; rp_path : field_path }.
  Definition with_path (p : rparams) (fp : field_path) : rparams := mkRP (rp_name p) (rp_loc p) (rp_sub p) fp.

  (** GraphQLService.cpp:598-611 [blockSubFields], 692-706 [requireSubFields]. *)
  Definition block_sub_fields (p : rparams) : result unit :=
    match rp_sub p with
    | None => Ok tt
    | Some loc => Throw (SchemaEx [mkErr ("Field may not have sub-fields name: " ++ rp_name p) loc (build_error_path (rp_path p))])
    end.
  Definition require_sub_fields (p : rparams) : result unit :=
    match rp_sub p with
    | Some _ => Ok tt
    | None => Throw (SchemaEx [mkErr ("Field must have sub-fields name: " ++ rp_name p) (rp_loc p) (build_error_path (rp_path p))])
    end.

  (** GraphQLService.h:722-759 [ModifiedResult::resolve], the noexcept buildResult. *)
  Definition build_leaf (p : rparams) (v : result value) : result rr :=
    match v with
    | Ok x => Ok (mkRR x [])
    | Throw (SchemaEx errs) => Ok (mkRR VNull errs)
    | Throw (Exn _ w) =>
        Ok (mkRR VNull [mkErr ("Field name: " ++ rp_name p ++ " unknown error: " ++ w) (rp_loc p) (build_error_path (rp_path p))])
    | UB => UB
    end.

  (** GraphQLService.h:664-700: one iteration of the loop that collects a list's elements. *)
  Definition list_step (p : rparams) (i : N) (r : result rr) (acc : list value * list schema_error) : result (list value * list schema_error) :=
    match r with
    | Ok x => Ok (fst acc ++ [data x], snd acc ++ errors x)
    | Throw (SchemaEx errs) => Ok (fst acc, snd acc ++ errs)
    | Throw (Exn _ w) =>
        Ok (fst acc, snd acc ++ [mkErr ("Field error name: " ++ rp_name p ++ " unknown error: " ++ w) (rp_loc p)
                                       (build_error_path (PIndex i :: rp_path p))])
    | UB => UB
    end.
  Fixpoint collect_list (p : rparams) (i : N) (futs : list fut) (acc : list value * list schema_error) : M (result rr) :=
    fun k =>
      match futs with
      | [] => k (Ok (mkRR (VList (fst acc)) (snd acc)))
      | f :: r =>
          get_fut f (fun x =>
            match list_step p i x acc with
            | Ok acc' => collect_list p (N.succ i) r acc' k
            | Throw e => k (Throw e)
            | UB => k UB
            end)
      end.

  Section Convert.
    Variable lch : launch.
    (** resolve the sub-selection on an object, with the path of this field *)
    Variable robj : O -> field_path -> M (result rr).

    (** GraphQLService.cpp:713-729, the buildResult of ModifiedResult<Object>. *)
    Definition build_object (p : rparams) (r : result (option O)) : M (result rr) :=
      fun k =>
        match r with
        | Ok None => k (Ok (mkRR VNull []))
        | Ok (Some o) => robj o (rp_path p) k
        | Throw e => k (Throw e)
        | UB => k UB
        end.

    Definition awaited (b : bool) (p : rparams) (c : comp) : comp :=
      if b then Emit (EvAwait (build_error_path (rp_path p))) c else c.

    (** The chain of [ModifiedResult::convert] overloads: GraphQLService.h:531-561 (derived object: a deferred cast,
        so always a future), 563-625 (nullable: a deferred task), 627-715 (list: a task with the operation's launch
        policy), GraphQLService.cpp:613-690 (scalars), 708-744 (Object). A synchronous exception is the Throw result. *)
    Fixpoint convert (f : fres) (p : rparams) {struct f} : M (result fut) :=
      fun k =>
        match f with
        | FLeaf builtin isfut v =>
            match (if builtin then block_sub_fields p else Ok tt) with
            | Ok _ =>
                if isfut then
                  Spawn LDeferred (awaited true p (Ret (build_leaf p v))) (fun i => k (Ok (FIdx i)))
                else k (Ok (FReady (build_leaf p v)))
            | Throw e => k (Throw e)
            | UB => k UB
            end
        | FObject isfut r =>
            match require_sub_fields p with
            | Ok _ =>
                if isfut then Spawn lch (awaited true p (build_object p r Ret)) (fun i => k (Ok (FIdx i)))
                else build_object p r (fun x =>
                       match x with Ok v => k (Ok (FReady (Ok v))) | Throw e => k (Throw e) | UB => k UB end)
            | Throw e => k (Throw e)
            | UB => k UB
            end
        | FDerived r =>
            match require_sub_fields p with
            | Ok _ => Spawn lch (awaited true p (build_object p r Ret)) (fun i => k (Ok (FIdx i)))
            | Throw e => k (Throw e)
            | UB => k UB
            end
        | FNullable r =>
            Spawn LDeferred
              (awaited true p
                 match r with
                 | Ok None => Ret (Ok (mkRR VNull []))
                 | Ok (Some f') =>
                     convert f' p (fun x =>
                       match x with Ok fu => get_fut fu Ret | Throw e => Ret (Throw e) | UB => Ret UB end)
                 | Throw e => Ret (Throw e)
                 | UB => Ret UB
                 end)
              (fun i => k (Ok (FIdx i)))
        | FList r =>
            Spawn lch
              (awaited true p
                 match r with
                 | Ok l =>
                     (fix go (i : N) (l : list fres) (acc : list fut) {struct l} : comp :=
                        match l with
                        | [] => collect_list p 0 acc ([], []) Ret
                        | f' :: l' =>
                            convert f' (with_path p (PIndex i :: rp_path p)) (fun x =>
                              match x with
                              | Ok fu => go (N.succ i) l' (acc ++ [fu])
                              | Throw e => Ret (Throw e)
                              | UB => Ret UB
                              end)
                        end) 0%N l []
                 | Throw e => Ret (Throw e)
                 | UB => Ret UB
                 end)
              (fun i => k (Ok (FIdx i)))
        end.
  End Convert.

  (** Per operation: GraphQLService.h:154-180 SelectionSetParams, FragmentMap, variables. *)
  Record env : Type := mkEnv {
    e_context : resolver_context; e_opdirs : entries; e_frags : list (string * fragment); e_vars : value; e_launch : launch }.

  (** GraphQLService.cpp:486-497 Object: TypeNames and ResolverMap. *)
  Variable typenames : O -> list string.
  Variable has_field : O -> string -> bool.

  Definition matches_type (o : O) (t : string) : bool := existsb (String.eqb t) (typenames o).

  (** The members of SelectionVisitor that change while visiting (GraphQLService.cpp:776-778). *)
  Record vstate : Type := mkV { v_names : list string; v_values : list (string * fut) }.

  (** GraphQLService.cpp:943-973: the two catch clauses of visitField. *)
  Definition fill_error (loc : schema_location) (fp : field_path) (e : schema_error) : schema_error :=
    mkErr (message e)
          (if N.eqb (line (Cpp.location e)) 0 then loc else Cpp.location e)
          (match path e with [] => build_error_path fp | p => p end).
  Definition field_exception (loc : schema_location) (key : string) (fp : field_path) (e : exn) : exn :=
    match e with
    | SchemaEx errs => SchemaEx (map (fill_error loc fp) errs)
    | Exn _ w => SchemaEx [mkErr ("Field error name: " ++ key ++ " unknown error: " ++ w) loc (build_error_path fp)]
    end.

  Definition visitor : Type := O -> field_path -> fdirs -> selection -> vstate -> M (result vstate).

  Section VisitAll.
    Variable vis : selection -> vstate -> M (result vstate).
    (** the loops "for (const auto& selection : ...children) visit( *selection)" *)
    Fixpoint visit_all (sels : list selection) (st : vstate) : M (result vstate) :=
      fun k =>
        match sels with
        | [] => k (Ok st)
        | s :: r => vis s st (fun x => match x with Ok st' => visit_all r st' k | Throw e => k (Throw e) | UB => k UB end)
        end.
  End VisitAll.

  (** GraphQLService.cpp:1150-1201: one iteration of the loop that collects the fields of an object. *)
  Definition object_step (key : string) (r : result rr) (acc : entries * list schema_error) : result (entries * list schema_error) :=
    match r with
    | Ok x =>
        let (es, fresh) := map_emplace (fst acc) key (data x) in
        Ok (es, snd acc ++ (if fresh then [] else [mkErr ("Ambiguous field error name: " ++ key) (mkLoc 0 1) []]) ++ errors x)
    | Throw (SchemaEx errs) => Ok (fst (map_emplace (fst acc) key VNull), snd acc ++ errs)
    | Throw (Exn _ w) =>
        Ok (fst (map_emplace (fst acc) key VNull),
            snd acc ++ [mkErr ("Field error name: " ++ key ++ " unknown error: " ++ w) (mkLoc 0 1) []])
    | UB => UB
    end.
  Fixpoint collect_object (vals : list (string * fut)) (acc : entries * list schema_error) : M (result rr) :=
    fun k =>
      match vals with
      | [] => k (Ok (mkRR (VMap (fst acc)) (snd acc)))
      | (key, f) :: r =>
          get_fut f (fun x =>
            match object_step key x acc with
            | Ok acc' => collect_object r acc' k
            | Throw e => k (Throw e)
            | UB => k UB
            end)
      end.

  (** GraphQLService.cpp:1123-1204 [Object::resolve] and the get() that every caller applies to its result at once; the
      collecting task is therefore run in the same thread. When visiting throws, the futures created so far are
      dropped and endSelectionSet is not called. *)
  Definition resolve_with (vis : visitor) (o : O) (fp : field_path) (sels : list selection) : M (result rr) :=
    fun k =>
      Emit (EvBegin o (build_error_path fp))
        (visit_all (vis o fp no_fdirs) sels (mkV [] []) (fun x =>
           match x with
           | Ok st => Emit (EvEnd o (build_error_path fp)) (collect_object (v_values st) ([], []) k)
           | Throw e => k (Throw e)
           | UB => k UB
           end)).

  (** the promise with an exception that visitField stores *)
  Definition failed (e : exn) : fut := FReady (Throw e).

  (** GraphQLService.cpp:836-974 [visitField]. *)
  Definition visit_field (env : env) (rec : visitor) (o : O) (fp : field_path) (fd : fdirs)
      (loc : schema_location) (alias : option string) (name : string) (args : list argument) (dirs : list directive)
      (sub : option (schema_location * list selection)) (st : vstate) : M (result vstate) :=
    fun k =>
      let key := response_key alias name in
      if existsb (String.eqb key) (v_names st) then k (Ok st)
      else
        let names := v_names st ++ [key] in
        if negb (has_field o name) then
          k (Ok (mkV names (v_values st ++ [(key, failed (SchemaEx [mkErr ("Unknown field name: " ++ name) loc (build_error_path fp)]))])))
        else
          match (ds <- visit_directives (e_vars env) dirs [] ;; sk <- should_skip ds ;; Ok (ds, sk)) with
          | Ok (ds, true) => k (Ok (mkV names (v_values st)))
          | Ok (ds, false) =>
              match visit_arguments (e_vars env) args [] with
              | Ok avs =>
                  let fp' := PName key :: fp in
                  let p := mkParams (e_context env) (e_opdirs env) fd (build_error_path fp') key avs ds in
                  let rp := mkRP key loc (option_map fst sub) fp' in
                  let store x := k (Ok (mkV names (v_values st ++ [(key, x)]))) in
                  Call o name p (fun a =>
                    match a with
                    | AThrow e => store (failed (field_exception loc key fp' e))
                    | AResult f =>
                        convert (e_launch env)
                          (fun o' fp'' => resolve_with rec o' fp'' (match sub with Some (_, l) => l | None => [] end))
                          f rp (fun x =>
                            match x with
                            | Ok fu => store fu
                            | Throw e => store (failed (field_exception loc key fp' e))
                            | UB => k UB
                            end)
                    end)
              | Throw e => k (Throw e)
              | UB => k UB
              end
          | Throw e => k (Throw e)
          | UB => k UB
          end.

  (** GraphQLService.cpp:976-1053 [visitFragmentSpread]. *)
  Definition visit_spread (env : env) (rec : visitor) (o : O) (fp : field_path) (fd : fdirs)
      (loc : schema_location) (name : string) (dirs : list directive) (st : vstate) : M (result vstate) :=
    fun k =>
      match find_fragment name (e_frags env) with
      | None => k (Throw (SchemaEx [mkErr ("Unknown fragment name: " ++ name) loc (build_error_path fp)]))
      | Some fr =>
          if negb (matches_type o (fr_type fr)) then k (Ok st)
          else
            match (ds <- visit_directives (e_vars env) dirs [] ;; sk <- should_skip ds ;; Ok (ds, sk)) with
            | Ok (ds, true) => k (Ok st)
            | Ok (ds, false) =>
                let fd' := mkFD (merge_dirs (fr_dirs fr) (fd_def fd)) (merge_dirs ds (fd_spread fd)) (fd_inline fd) in
                visit_all (rec o fp fd') (fr_sel fr) st k
            | Throw e => k (Throw e)
            | UB => k UB
            end
      end.

  (** GraphQLService.cpp:1055-1115 [visitInlineFragment]. *)
  Definition visit_inline (env : env) (rec : visitor) (o : O) (fp : field_path) (fd : fdirs)
      (cond : option (schema_location * string)) (dirs : list directive) (sel : list selection) (st : vstate) : M (result vstate) :=
    fun k =>
      match (ds <- visit_directives (e_vars env) dirs [] ;; sk <- should_skip ds ;; Ok (ds, sk)) with
      | Ok (ds, true) => k (Ok st)
      | Ok (ds, false) =>
          if match cond with None => true | Some (_, t) => matches_type o t end then
            let fd' := mkFD (fd_def fd) (fd_spread fd) (merge_dirs ds (fd_inline fd)) in
            visit_all (rec o fp fd') sel st k
          else k (Ok st)
      | Throw e => k (Throw e)
      | UB => k UB
      end.

  (** GraphQLService.cpp:820-834 [SelectionVisitor::visit]. [fuel] bounds the depth of the call stack: running out of
      it is the stack overflow of an unbounded recursion. *)
  Fixpoint visit (fuel : nat) (env : env) (o : O) (fp : field_path) (fd : fdirs) (s : selection) (st : vstate) : M (result vstate) :=
    match fuel with
    | 0 => fun k => k UB
    | S n =>
        match s with
        | SField loc alias name args dirs sub => visit_field env (visit n env) o fp fd loc alias name args dirs sub st
        | SSpread loc name dirs => visit_spread env (visit n env) o fp fd loc name dirs st
        | SInline loc cond dirs sel => visit_inline env (visit n env) o fp fd cond dirs sel st
        end
    end.

  (** GraphQLService.cpp:1123-1204 [Object::resolve(...).get()]. *)
  Definition resolve (fuel : nat) (env : env) (o : O) (fp : field_path) (sels : list selection) : M (result rr) :=
    resolve_with (visit fuel env) o fp sels.

  (** ** Request *)

  Definition op_kind (op : operation_def) : string := match op_type op with Some t => t | None => "query" end.
  Definition op_named (name : string) (op : operation_def) : bool :=
    (String.eqb name "" || String.eqb (match op_name op with Some n => n | None => "" end) name)%bool.

  (** GraphQLService.cpp:1652-1675, 1786-1812 [findOperationDefinition], after validation. *)
  Definition find_operation (doc : document) (name : string) : option operation_def := find (op_named name) (operations doc).

  (** GraphQLService.cpp:1315-1345. *)
  Definition variable_value (vars : value) (v : variable_def) : result value :=
    match vars with
    | VMap es =>
        match lookup (v_name v) es with
        | Some x => vcopy x
        | None => match v_default v with Some d => visit_value vars d | None => Ok VNull end
        end
    | _ => Throw (Exn logic_error "Invalid call to Value::find for MapType")
    end.
  Fixpoint operation_variables (vars : value) (decls : list variable_def) (es : entries) : result entries :=
    match decls with
    | [] => Ok es
    | d :: r => x <- variable_value vars d ;; operation_variables vars r (fst (map_emplace es (v_name d) x))
    end.

  (** GraphQLService.cpp:1750-1762: the response document. *)
  Definition build_document (x : rr) : value :=
    let es := fst (map_emplace [] "data" (data x)) in
    VMap (match errors x with [] => es | errs => fst (map_emplace es "errors" (build_error_values errs)) end).
  (** GraphQLService.cpp:1766-1775. *)
  Definition error_document (errs : list schema_error) : value :=
    VMap (fst (map_emplace (fst (map_emplace [] "data" VNull)) "errors" (build_error_values errs))).

  (** What resolve() returns: a future that is already set (or an exception, when it throws), or a task. *)
  Inductive request : Type :=
  | RDone (r : result value)
  | RTask (l : launch) (c : comp).

  (** TypeMap: the root object of each operation type; a null shared_ptr is None. *)
  Variable roots : list (string * option O).
  Fixpoint find_root (t : string) (rs : list (string * option O)) : option (option O) :=
    match rs with
    | [] => None
    | (n, o) :: r => if String.eqb t n then Some o else find_root t r
    end.

  (** GraphQLService.cpp:1310-1386 [OperationDefinitionVisitor::visit]. Dereferencing end() or a null object is
      undefined. *)
  Definition visit_operation (fuel : nat) (ctx : resolver_context) (l : launch) (frags : list (string * fragment)) (vars : value)
      (op : operation_def) : result comp :=
    es <- operation_variables vars (op_vars op) [] ;;
    ds <- visit_directives (VMap es) (op_dirs op) [] ;;
    match find_root (op_kind op) roots with
    | Some (Some o) => Ok (resolve fuel (mkEnv ctx ds frags (VMap es) l) o [] (op_sel op) Ret)
    | _ => UB
    end.

  Definition quoted_name (name : string) : string := if String.eqb name "" then "" else " name: " ++ name.

  (** GraphQLService.cpp:1686-1776 [Request::resolve(launch, state, peg::ast&, ...)] and 1834-1930
      [resolveUnvalidated]. [validate doc] is the list of errors of Request::validate (C22-C28), empty for
      resolveUnvalidated. The launch policy of the operation is forced to deferred for a mutation. *)
  Definition start_operation (fuel : nat) (validate : document -> list schema_error) (l : launch) (doc : document) (name : string)
      (vars : value) : result (launch * comp) :=
    frags <- mapM (make_fragment vars) (fragments doc) ;;
    match validate doc with
    | (_ :: _) as errs => Throw (SchemaEx errs)
    | [] =>
        match find_operation doc name with
        | None => Throw (SchemaEx [mkErr ("Missing operation" ++ quoted_name name) (mkLoc 0 1) []])
        | Some op =>
            if String.eqb (op_kind op) "subscription" then
              Throw (SchemaEx [mkErr ("Unexpected subscription" ++ quoted_name name) (op_loc op) []])
            else
              let mutation := String.eqb (op_kind op) "mutation" in
              let l' := if mutation then LDeferred else l in
              c <- visit_operation fuel (if mutation then CMutation else CQuery) l' frags vars op ;;
              Ok (l', c)
        end
    end.
  Definition start_request (fuel : nat) (validate : document -> list schema_error) (l : launch) (doc : document) (name : string)
      (vars : value) : request :=
    match start_operation fuel validate l doc name vars with
    | Ok (l', c) => RTask l' c
    | Throw (SchemaEx errs) => RDone (Ok (error_document errs))
    | Throw e => RDone (Throw e)
    | UB => RDone UB
    end.

  (** The thread that waits for the task. *)
  Definition wait_task (l : launch) (c : comp) : comp := Spawn l c (fun i => Get i Ret).
  Definition finish (r : result rr) : result value := rmap build_document r.
End Exec.
