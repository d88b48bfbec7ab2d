(** What the user of the service expects of execution, independent of the visitors. *)
From Verif Require Import Cpp Value Ast ErrorModel ExecModel ExecSem.
Local Open Scope string_scope.
Local Open Scope list_scope.

(** Keep the first entry of each name, in order. *)
Fixpoint firsts {A} (es : list (string * A)) : list (string * A) :=
  match es with
  | [] => []
  | (k, v) :: r => (k, v) :: filter (fun kv => negb (String.eqb (fst kv) k)) (firsts r)
  end.

(** ** Values of literals (C40) *)

(** The response value of a literal, given the values of the operation's variables. Integers are 32 bit. *)
Inductive lit_value (vars : entries) : lit -> value -> Prop :=
| lv_var loc n v : lookup n vars = Some v -> lit_value vars (LVar loc n) v
| lv_int loc z : in_int_range z = true -> lit_value vars (LInt loc z) (VInt z)
| lv_float loc f : lit_value vars (LFloat loc f) (VFloat f)
| lv_string loc s : lit_value vars (LString loc s) (VString s false)
| lv_bool loc b : lit_value vars (LBool loc b) (VBool b)
| lv_null loc : lit_value vars (LNull loc) VNull
| lv_enum loc s : lit_value vars (LEnum loc s) (VEnum s)
| lv_list loc ls vs : Forall2 (lit_value vars) ls vs -> lit_value vars (LList loc ls) (VList vs)
| lv_object loc fs kvs :
    Forall2 (fun a kv => fst kv = fst (snd a) /\ lit_value vars (snd (snd a)) (snd kv)) fs kvs ->
    lit_value vars (LObject loc fs) (VMap (firsts kvs)).

(** An arguments map: each argument once. *)
Definition args_value (vars : entries) (args : list argument) (es : entries) : Prop :=
  exists kvs, Forall2 (fun a kv => fst kv = a_name a /\ lit_value vars (a_value a) (snd kv)) args kvs /\ es = firsts kvs.

(** A directives map: each directive once, with its arguments map. *)
Definition dirs_value (vars : entries) (dirs : list directive) (es : entries) : Prop :=
  exists kvs, Forall2 (fun d kv => fst kv = d_name d /\ exists a, args_value vars (d_args d) a /\ snd kv = VMap a) dirs kvs /\ es = firsts kvs.

(** Variables never hold a Scalar value without content (such a value cannot be copied, C07). *)
Definition copyable (vars : entries) : Prop := forall n v, lookup n vars = Some v -> has_null_scalar v = false.

(** The grammar gives every directive a name. *)
Definition named_dirs (dirs : list directive) : Prop := Forall (fun d => d_name d <> "") dirs.

(** ** @skip and @include (C11), on the directives map of a selection *)
Definition condition (es : entries) (dname : string) (b : bool) : Prop := lookup dname es = Some (VMap [("if", VBool b)]).
Definition valid_condition (es : entries) (dname : string) : Prop := lookup dname es = None \/ exists b, condition es dname b.
Definition valid_conditions (es : entries) : Prop := valid_condition es "skip" /\ valid_condition es "include".
Definition excluded (es : entries) : Prop := condition es "skip" true \/ condition es "include" false.
(** not both directives on one selection *)
Definition one_condition (es : entries) : Prop := lookup "skip" es = None \/ lookup "include" es = None.

(** ** Selections *)

(** The directives [dirs] have a value, are used properly, and keep ([b = true]) or drop the selection. *)
Definition decides (vars : entries) (dirs : list directive) (b : bool) : Prop :=
  exists es, named_dirs dirs /\ dirs_value vars dirs es /\ valid_conditions es /\ one_condition es /\ (b = false <-> excluded es).

(** An occurrence of a field after expanding fragments: response key, field name, whether it is kept. *)
Record occurrence : Type := mkOcc { oc_key : string; oc_name : string; oc_kept : bool }.

(** The occurrences of fields in a selection set for an object with the given type names (its own, its interfaces and
    unions), in document order. *)
Inductive expands (vars : entries) (frags : list (string * fragment)) (types : list string) : list selection -> list occurrence -> Prop :=
| ex_nil : expands vars frags types [] []
| ex_field loc al n args dirs sub b rest occs :
    decides vars dirs b -> expands vars frags types rest occs ->
    expands vars frags types (SField loc al n args dirs sub :: rest) (mkOcc (response_key al n) n b :: occs)
| ex_spread loc n fr dirs rest o1 o2 :
    find_fragment n frags = Some fr -> In (fr_type fr) types -> decides vars dirs true ->
    expands vars frags types (fr_sel fr) o1 -> expands vars frags types rest o2 ->
    expands vars frags types (SSpread loc n dirs :: rest) (o1 ++ o2)
| ex_spread_dropped loc n fr dirs rest o2 :
    find_fragment n frags = Some fr -> ~ In (fr_type fr) types \/ decides vars dirs false ->
    expands vars frags types rest o2 -> expands vars frags types (SSpread loc n dirs :: rest) o2
| ex_inline loc c dirs sel rest o1 o2 :
    (forall l t, c = Some (l, t) -> In t types) -> decides vars dirs true ->
    expands vars frags types sel o1 -> expands vars frags types rest o2 ->
    expands vars frags types (SInline loc c dirs sel :: rest) (o1 ++ o2)
| ex_inline_dropped loc c dirs sel rest b o2 :
    decides vars dirs b -> (b = false \/ exists l t, c = Some (l, t) /\ ~ In t types) ->
    expands vars frags types rest o2 -> expands vars frags types (SInline loc c dirs sel :: rest) o2.

(** The response keys of the kept occurrences, each once, in order of first appearance. *)
Definition kept_keys (occs : list occurrence) : list string :=
  map fst (firsts (map (fun o => (oc_key o, tt)) (filter oc_kept occs))).

(** ** Executions *)
Section Executions.
  Context {O : Type}.
  Variable typenames : O -> list string.
  Variable has_field : O -> string -> bool.

  (** Accessors whose answers depend on their inputs only. *)
  Definition stateless (ans : O -> string -> fparams -> answer O) : unit -> O -> string -> fparams -> unit * answer O :=
    fun s o f p => (s, ans o f p).

  (** Some schedule of resolving [sels] on object [o] ends with outcome [r]. *)
  Definition computes (ans : O -> string -> fparams -> answer O) (fuel : nat) (e : env) (o : O) (fp : field_path)
      (sels : list selection) (r : result rr) : Prop :=
    exists n evs t, steps (stateless ans) n tt (T [] (resolve O typenames has_field fuel e o fp sels Ret)) evs tt t /\ ended t r.

  (** Given enough stack, some schedule of resolving [sels] on [o] ends with the defined outcome [r]. *)
  Definition results (ans : O -> string -> fparams -> answer O) (e : env) (o : O) (fp : field_path) (sels : list selection)
      (r : result rr) : Prop :=
    r <> UB /\ exists fuel, computes ans fuel e o fp sels r.
End Executions.

(** ** Errors of a field (C13, C14) *)

(** The errors of an exception [e] raised by the field with response key [key] at [loc] and path [p]: location and path
    are filled in where they are missing. *)
Definition located (loc : schema_location) (p : list path_segment) (key : string) (e : exn) : list schema_error :=
  match e with
  | SchemaEx errs =>
      map (fun x => mkErr (message x) (if N.eqb (line (Cpp.location x)) 0 then loc else Cpp.location x)
                          (match path x with [] => p | q => q end)) errs
  | Exn _ w => [mkErr ("Field error name: " ++ key ++ " unknown error: " ++ w) loc p]
  end.

(** [a1] and [a2] answer alike wherever the path starts with [q]. *)
Definition same_answers {O} (q : list path_segment) (a1 a2 : O -> string -> fparams -> answer O) : Prop :=
  forall o f p rest, p_path p = q ++ rest -> a1 o f p = a2 o f p.

(** Accessors that do not look at the directives of the fragments around the field. *)
Definition ignores_fragment_directives {O} (ans : O -> string -> fparams -> answer O) : Prop := forall o f p fd,
  ans o f p = ans o f (mkParams (p_context p) (p_opdirs p) fd (p_path p) (p_name p) (p_args p) (p_dirs p)).

(** Selections that are fields with the given response keys. *)
Definition fields_with_keys (sels : list selection) (keys : list string) : Prop :=
  Forall2 (fun s k => match s with SField _ al n _ _ _ => response_key al n = k | _ => False end) sels keys.

(** Completing a value (C14): what the field result [f] of a field (key, location) at path [p] stands for, when every
    object in it resolves; [obj o p v errs] says that object [o] at path [p] resolves to [v] with errors [errs]. *)
Inductive completed {O} (obj : O -> list path_segment -> value -> list schema_error -> Prop) (key : string) (loc : schema_location) :
    fres O -> list path_segment -> value -> list schema_error -> Prop :=
| cp_leaf b fut v p : completed obj key loc (FLeaf b fut (Ok v)) p v []
| cp_leaf_error b fut c w p :
    completed obj key loc (FLeaf b fut (Throw (Exn c w))) p VNull [mkErr ("Field name: " ++ key ++ " unknown error: " ++ w) loc p]
| cp_leaf_errors b fut errs p : completed obj key loc (FLeaf b fut (Throw (SchemaEx errs))) p VNull errs
| cp_no_object fut p : completed obj key loc (FObject fut (Ok None)) p VNull []
| cp_object fut o p v errs : obj o p v errs -> completed obj key loc (FObject fut (Ok (Some o))) p v errs
| cp_no_derived p : completed obj key loc (FDerived (Ok None)) p VNull []
| cp_derived o p v errs : obj o p v errs -> completed obj key loc (FDerived (Ok (Some o))) p v errs
| cp_null p : completed obj key loc (FNullable (Ok None)) p VNull []
| cp_nullable f p v errs : completed obj key loc f p v errs -> completed obj key loc (FNullable (Ok (Some f))) p v errs
| cp_list fs p ves :
    completed_items obj key loc fs p 0%N ves ->
    completed obj key loc (FList (Ok fs)) p (VList (map fst ves)) (flat_map snd ves)
with completed_items {O} (obj : O -> list path_segment -> value -> list schema_error -> Prop) (key : string) (loc : schema_location) :
    list (fres O) -> list path_segment -> N -> list (value * list schema_error) -> Prop :=
| ci_nil p i : completed_items obj key loc [] p i []
| ci_cons f fs p i v errs ves :
    completed obj key loc f (p ++ [PIndex i]) v errs -> completed_items obj key loc fs p (N.succ i) ves ->
    completed_items obj key loc (f :: fs) p i ((v, errs) :: ves).

(** Leaves are given without sub-selection, objects with one. *)
Fixpoint shape_ok {O} (has_sub : bool) (f : fres O) : Prop :=
  match f with
  | FLeaf b _ _ => has_sub = true -> b = false
  | FObject _ _ | FDerived _ => has_sub = true
  | FNullable (Ok (Some f')) => shape_ok has_sub f'
  | FNullable _ => True
  | FList (Ok l) => (fix all (l : list (fres O)) : Prop := match l with [] => True | x :: r => shape_ok has_sub x /\ all r end) l
  | FList _ => True
  end.

(** ** Which accessor calls a document asks for (C40) *)

(** The directives of the grammar have names. *)
Definition named_only (dirs : list directive) : list directive := filter (fun d => negb (String.eqb (d_name d) "")) dirs.

(** The directives map does not drop its selection. *)
Definition not_dropped (ds : entries) : Prop :=
  ~ condition ds "skip" true /\ (lookup "skip" ds = None -> ~ condition ds "include" false).

(** [es] has the entries of [inner], and those of [outer] that are not in [inner]. *)
Definition overlay (inner outer es : entries) : Prop :=
  forall n, lookup n es = match lookup n inner with Some v => Some v | None => lookup n outer end.

(** [visible sels fd field fd']: for an object with type names [types], [field] is among the selections [sels], possibly
    in fragments that apply; [fd] are the directives of the fragments around [sels], [fd'] those around [field]. *)
Inductive visible (vars : entries) (frags : list (string * fragment)) (types : list string) :
    list selection -> fdirs -> selection -> fdirs -> Prop :=
| vi_field loc al n args dirs sub sels fd :
    In (SField loc al n args dirs sub) sels -> visible vars frags types sels fd (SField loc al n args dirs sub) fd
| vi_inline loc c dirs ds sel sels fd es s fd' :
    In (SInline loc c dirs sel) sels -> (forall l t, c = Some (l, t) -> In t types) ->
    dirs_value vars (named_only dirs) ds -> not_dropped ds -> overlay ds (fd_inline fd) es ->
    visible vars frags types sel (mkFD (fd_def fd) (fd_spread fd) es) s fd' ->
    visible vars frags types sels fd s fd'
| vi_spread loc n dirs ds fr sels fd es1 es2 s fd' :
    In (SSpread loc n dirs) sels -> find_fragment n frags = Some fr -> In (fr_type fr) types ->
    dirs_value vars (named_only dirs) ds -> not_dropped ds ->
    overlay (fr_dirs fr) (fd_def fd) es1 -> overlay ds (fd_spread fd) es2 ->
    visible vars frags types (fr_sel fr) (mkFD es1 es2 (fd_inline fd)) s fd' ->
    visible vars frags types sels fd s fd'.

Section Reached.
  Context {O : Type}.
  Variable typenames : O -> list string.
  Variables (vars : entries) (frags : list (string * fragment)).
  (** [reached root sels0 o path sels]: resolving [sels0] on [root] can lead to resolving [sels] on [o] at [path]. *)
  Inductive reached (root : O) (path0 : list path_segment) (sels0 : list selection) : O -> list path_segment -> list selection -> Prop :=
  | re_root : reached root path0 sels0 root path0 sels0
  | re_sub o path sels loc al n args dirs l sub fd o' indices :
      reached root path0 sels0 o path sels ->
      visible vars frags (typenames o) sels no_fdirs (SField loc al n args dirs (Some (l, sub))) fd ->
      reached root path0 sels0 o' (path ++ PName (response_key al n) :: map PIndex indices) sub.

  (** The call of field [f] of [o] with parameters [p] is one the selections ask for. *)
  Definition asked_for (ctx : resolver_context) (opdirs : entries) (root : O) (path0 : list path_segment) (sels0 : list selection)
      (o : O) (f : string) (p : fparams) : Prop :=
    exists path sels loc al args dirs sub,
      reached root path0 sels0 o path sels /\
      visible vars frags (typenames o) sels no_fdirs (SField loc al f args dirs sub) (p_frdirs p) /\
      p_name p = response_key al f /\ p_path p = path ++ [PName (response_key al f)] /\
      args_value vars args (p_args p) /\ dirs_value vars (named_only dirs) (p_dirs p) /\ not_dropped (p_dirs p) /\
      p_context p = ctx /\ p_opdirs p = opdirs.
End Reached.

(** ** Requests (C16-C19, C39) *)

(** Accessors may keep state (count calls, log), but what they answer depends on their inputs only. *)
Definition answers_alone {O St} (handler : St -> O -> string -> fparams -> St * answer O) (ans : O -> string -> fparams -> answer O) : Prop :=
  forall s o f p, snd (handler s o f p) = ans o f p.

(** The program of the thread that calls resolve(...).get(), when a task was started. *)
Definition waiting {O} (req : request O) : option (comp O) :=
  match req with RDone _ => None | RTask l c => Some (wait_task O l c) end.

(** Some schedule of the request ends with the response [d] (a document, or the exception get() throws). *)
Definition responds {O St} (handler : St -> O -> string -> fparams -> St * answer O) (s : St) (req : request O) (d : result value) : Prop :=
  match req with
  | RDone r => d = r
  | RTask l c => exists n evs s' t r, steps handler n s (T [] (wait_task O l c)) evs s' t /\ ended t r /\ d = finish r
  end.

(** The variables of an operation (C18), given the declared variables and the values provided. *)
Definition variables_of (decls : list variable_def) (given es : entries) : Prop :=
  map fst es = map v_name decls /\
  forall d, In d decls ->
    match lookup (v_name d) given, v_default d with
    | Some v, _ => lookup (v_name d) es = Some v
    | None, Some l => exists v, lit_value given l v /\ lookup (v_name d) es = Some v
    | None, None => lookup (v_name d) es = Some VNull
    end.

(** ** Termination (C26) *)

(** All integers in the literal fit an IntType (32 bits). *)
Inductive small : lit -> Prop :=
| sm_var l n : small (LVar l n)
| sm_int l z : in_int_range z = true -> small (LInt l z)
| sm_float l f : small (LFloat l f)
| sm_string l s : small (LString l s)
| sm_bool l b : small (LBool l b)
| sm_null l : small (LNull l)
| sm_enum l s : small (LEnum l s)
| sm_list l is : Forall small is -> small (LList l is)
| sm_object l fs : Forall (fun a => small (snd (snd a))) fs -> small (LObject l fs).
Definition small_args (args : list argument) : Prop := Forall (fun a => small (a_value a)) args.
Definition small_dirs (dirs : list directive) : Prop := Forall (fun d => small_args (d_args d)) dirs.
Inductive small_sel : selection -> Prop :=
| ss_field loc al n args dirs sub : small_args args -> small_dirs dirs ->
    (forall l sels, sub = Some (l, sels) -> Forall small_sel sels) -> small_sel (SField loc al n args dirs sub)
| ss_spread loc n dirs : small_dirs dirs -> small_sel (SSpread loc n dirs)
| ss_inline loc c dirs sel : small_dirs dirs -> Forall small_sel sel -> small_sel (SInline loc c dirs sel).

(** [spreads s n]: the selection [s] spreads fragment [n] somewhere inside. *)
Inductive spreads : selection -> string -> Prop :=
| sp_here loc n dirs : spreads (SSpread loc n dirs) n
| sp_field loc al nm args dirs l sub s n : In s sub -> spreads s n -> spreads (SField loc al nm args dirs (Some (l, sub))) n
| sp_inline loc c dirs sel s n : In s sel -> spreads s n -> spreads (SInline loc c dirs sel) n.

(** [leads frags a b]: the definition of fragment [a] spreads fragment [b], directly or through other fragments. *)
Inductive leads (frags : list (string * fragment)) : string -> string -> Prop :=
| ld_one a fr s b : find_fragment a frags = Some fr -> In s (fr_sel fr) -> spreads s b -> leads frags a b
| ld_more a b c : leads frags a b -> leads frags b c -> leads frags a c.
Definition acyclic (frags : list (string * fragment)) : Prop := forall n, ~ leads frags n n.

(** Accessors and their results do not run into undefined behaviour themselves. *)
Fixpoint defined_fres {O} (f : fres O) : Prop :=
  match f with
  | FLeaf _ _ v => v <> UB
  | FObject _ r | FDerived r => r <> UB
  | FNullable r => r <> UB /\ match r with Ok (Some f') => defined_fres f' | _ => True end
  | FList r => r <> UB /\ match r with
      | Ok l => (fix all (l : list (fres O)) : Prop := match l with [] => True | x :: r => defined_fres x /\ all r end) l
      | _ => True end
  end.
Definition defined_answers {O} (ans : O -> string -> fparams -> answer O) : Prop :=
  forall o f p, match ans o f p with AThrow _ => True | AResult r => defined_fres r end.

(** ** Which operation (C19), its fragments and its root fields (C17) *)

(** The first operation of a document, or the first one with the given name. *)
Definition selects (name : string) (ops : list operation_def) (op : operation_def) : Prop :=
  exists pre post, ops = pre ++ op :: post /\
    (name = "" -> pre = []) /\
    (name <> "" -> op_name op = Some name /\ forall o, In o pre -> op_name o <> Some name).

(** The fragments of a document; their definitions' directives see the variables [given]. *)
Definition fragments_of (given : entries) (doc : document) (frags : list (string * fragment)) : Prop :=
  Forall2 (fun d nf => fst nf = f_name d /\ fr_type (snd nf) = f_cond d /\ fr_sel (snd nf) = f_sel d /\
                       dirs_value given (named_only (f_dirs d)) (fr_dirs (snd nf))) (fragments doc) frags.

(** The response keys of the accessor calls on the root object, in the order of the calls. *)
Definition root_calls {O} (evs : list (event O)) : list string :=
  flat_map (fun e => match e with EvCall _ _ p => match p_path p with [PName _] => [p_name p] | _ => [] end | _ => [] end) evs.

(** No response key has an occurrence that is kept and one that is not. *)
Definition unmixed (occs : list occurrence) : Prop :=
  forall a b, In a occs -> In b occs -> oc_key a = oc_key b -> oc_kept a = oc_kept b.

(** ** The client's view of an error (C32) *)
Definition client_view (e : schema_error) : client_error :=
  mkCErr (message e)
    (if N.eqb (line (Cpp.location e)) 0 then [] else [mkCLoc (Z.of_N (line (Cpp.location e))) (Z.of_N (column (Cpp.location e)))])
    (map (fun s => match s with PName n => CName n | PIndex i => CIndex (Z.of_N i) end) (path e)).
(** positions and indices that fit an IntType *)
Definition fits_int (n : N) : Prop := (Z.of_N n <= int_max)%Z.
Definition plain_error (e : schema_error) : Prop :=
  fits_int (line (Cpp.location e)) /\ fits_int (column (Cpp.location e)) /\ Forall (fun s => match s with PIndex i => fits_int i | _ => True end) (path e).

(** ** Serial execution (C17) *)

(** The path an event belongs to, and the root field it belongs to. *)
Definition event_path {O} (e : event O) : list path_segment :=
  match e with EvCall _ _ p => p_path p | EvAwait p | EvBegin _ p | EvEnd _ p => p end.
Definition event_root {O} (e : event O) : option string :=
  match event_path e with PName k :: _ => Some k | _ => None end.

(** Whenever a root field's accessor is called, everything that belongs to the root fields called earlier is over. *)
Definition serial {O} (evs : list (event O)) : Prop :=
  forall before o f p after, evs = before ++ EvCall o f p :: after -> root_calls [EvCall o f p] <> [] ->
  forall e k, In e after -> event_root e = Some k -> ~ In k (root_calls before).

(** An answer that is complete when the accessor returns: an exception, a leaf value, or an object that is resolved in place. *)
Definition immediate {O} (a : answer O) : Prop :=
  match a with
  | AThrow _ => True
  | AResult (FLeaf _ fut _) => fut = false
  | AResult (FObject fut _) => fut = false
  | _ => False
  end.
