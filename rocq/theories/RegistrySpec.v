(** What the user of the schema registry expects (C30). *)
From Verif Require Import Cpp Ast SchemaModel RegistryModel.
Local Open Scope list_scope.

Definition kind_at (r : registry) (t : address) (k : type_kind) : Prop := exists o, object_at r t = Some o /\ to_kind o = k.
Definition is_wrapper (k : type_kind) : Prop := k = LIST \/ k = NON_NULL.
Definition plain_at (r : registry) (t : address) : Prop := exists o, object_at r t = Some o /\ ~ is_wrapper (to_kind o).
Definition known (r : registry) (t : address) : Prop := exists o, object_at r t = Some o.

(** What the C++ types of the parameters guarantee: the pointers are to objects of the right class. *)
Definition allowed (r : registry) (c : call) : Prop :=
  match c with
  | Make k _ _ => ~ is_wrapper k
  | AddType _ t => plain_at r t
  | AddQueryType t | AddMutationType t | AddSubscriptionType t => kind_at r t OBJECT
  | AddDirective d => True
  | AddInterfaces o is => kind_at r o OBJECT /\ forall i, In i is -> kind_at r i INTERFACE
  | AddFields t _ => kind_at r t OBJECT \/ kind_at r t INTERFACE
  | AddPossibleTypes t _ => kind_at r t UNION
  | AddEnumValues t _ => kind_at r t ENUM
  | AddInputValues t _ => kind_at r t INPUT_OBJECT
  | WrapType k t => is_wrapper k /\ known r t
  end.

(** [r] is the schema after the calls [h], the oldest first. *)
Inductive after (noIntrospection : bool) : list call -> registry -> Prop :=
| af_new : after noIntrospection [] (new_schema noIntrospection)
| af_call h r c : after noIntrospection h r -> allowed r c -> after noIntrospection (h ++ [c]) (exec r c).

(** The AddType calls. *)
Definition added (h : list call) : list (string * address) :=
  flat_map (fun c => match c with AddType n t => [(n, t)] | _ => [] end) h.

(** The argument of the last call that [f] picks. *)
Definition last_of {A} (f : call -> option A) (h : list call) : option A :=
  fold_left (fun a c => match f c with Some x => Some x | None => a end) h None.
Definition or_nil {A} (o : option (list A)) : list A := match o with Some l => l | None => [] end.

(** Which address a type expression stands for: the type with that name, or the wrapper of the wrapped type. *)
Inductive refers (r : registry) : tref -> address -> Prop :=
| rf_named n t : lookup_type r n = Ok t -> refers r (TNamed n) t
| rf_list e p w o : refers r e p -> object_at r w = Some o -> to_kind o = LIST -> to_of o = Some p -> refers r (TListOf e) w
| rf_nonnull e p w o : refers r e p -> object_at r w = Some o -> to_kind o = NON_NULL -> to_of o = Some p -> refers r (TNonNull e) w.

(** How often an object's AddInterfaces named an interface. *)
Definition implemented_by (t : address) (h : list call) : list address :=
  flat_map (fun c => match c with AddInterfaces a is => repeat a (length (filter (Nat.eqb t) is)) | _ => [] end) h.


(** The members a type object has after the calls: those that the last call of each kind gave. *)
Definition members (h : list call) (t : address) (o : type_obj) : Prop :=
  to_fields o = or_nil (last_of (fun c => match c with AddFields a fs => if Nat.eqb a t then Some fs else None | _ => None end) h)
  /\ to_interfaces o = or_nil (last_of (fun c => match c with AddInterfaces a is => if Nat.eqb a t then Some is else None | _ => None end) h)
  /\ to_enums o = or_nil (last_of (fun c => match c with AddEnumValues a vs => if Nat.eqb a t then Some vs else None | _ => None end) h)
  /\ to_inputs o = or_nil (last_of (fun c => match c with AddInputValues a vs => if Nat.eqb a t then Some vs else None | _ => None end) h)
  /\ (to_kind o = UNION -> to_possible o = or_nil (last_of (fun c => match c with AddPossibleTypes a ps => if Nat.eqb a t then Some ps else None | _ => None end) h))
  /\ (to_kind o = INTERFACE -> to_possible o = implemented_by t h).

