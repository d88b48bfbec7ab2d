(** What the GraphQL specification says introspection shows (C31), in terms of the schema: names and type expressions. *)
From Verif Require Import Cpp Value Ast ErrorModel SchemaModel RegistryModel RegistrySpec ExecModel ExecSem IntroModel.
Local Open Scope string_scope.
Local Open Scope list_scope.

(** The things introspection can show. *)
Inductive sobj : Type :=
| DSchema | DType (t : tref) | DField (f : field_def) | DInput (i : input_value) | DEnum (e : enum_value_def) | DDirective (d : directive_def).

Definition kind_text (k : type_kind) : string :=
  match k with
  | SCALAR => "SCALAR" | OBJECT => "OBJECT" | INTERFACE => "INTERFACE" | UNION => "UNION" | ENUM => "ENUM" | INPUT_OBJECT => "INPUT_OBJECT"
  | LIST => "LIST" | NON_NULL => "NON_NULL"
  end.
Definition location_text (l : directive_location) : string :=
  match l with
  | QUERY => "QUERY" | MUTATION => "MUTATION" | SUBSCRIPTION => "SUBSCRIPTION" | FIELD => "FIELD" | FRAGMENT_DEFINITION => "FRAGMENT_DEFINITION"
  | FRAGMENT_SPREAD => "FRAGMENT_SPREAD" | INLINE_FRAGMENT => "INLINE_FRAGMENT" | SCHEMA_LOC => "SCHEMA" | SCALAR_LOC => "SCALAR"
  | OBJECT_LOC => "OBJECT" | FIELD_DEFINITION => "FIELD_DEFINITION" | ARGUMENT_DEFINITION => "ARGUMENT_DEFINITION" | INTERFACE_LOC => "INTERFACE"
  | UNION_LOC => "UNION" | ENUM_LOC => "ENUM" | ENUM_VALUE => "ENUM_VALUE" | INPUT_OBJECT_LOC => "INPUT_OBJECT"
  | INPUT_FIELD_DEFINITION => "INPUT_FIELD_DEFINITION"
  end.

(** The value of a field of such a thing. *)
Inductive shown : Type := Null | Leaf (v : value) | Leaves (vs : list value) | One (o : sobj) | Many (os : list sobj).

Definition text (s : string) : shown := Leaf (VString s false).
Definition text_or_null (s : string) : shown := if String.eqb s "" then Null else text s.
Definition is_some {A} (o : option A) : bool := match o with Some _ => true | None => false end.
Definition reason (o : option string) : shown := match o with Some s => text s | None => Null end.

(** The argument includeDeprecated. *)
Definition wants_deprecated (args : entries) : bool := match lookup "includeDeprecated" args with Some (VBool b) => b | _ => false end.
Definition visible {A} (dep : A -> option string) (args : entries) (l : list A) : list A :=
  if wants_deprecated args then l else filter (fun x => negb (is_some (dep x))) l.

Section Shows.
  Variable S : schema.
  Definition named (n : string) : sobj := DType (TNamed n).
  Definition of_kind (t : tref) (ks : list type_kind) (l : list sobj) : shown :=
    if existsb (kind_eqb (kind_of S t)) ks then Many l else Null.
  Definition def_of (t : tref) : type_def :=
    match t with
    | TNamed n => match find_type S n with Some d => d | None => mkTypeDef SCALAR "" [] [] [] [] [] end
    | _ => mkTypeDef SCALAR "" [] [] [] [] []
    end.

  Definition shows (o : sobj) (f : string) (args : entries) : option shown :=
    match o with
    | DSchema => assoc f
        [("__typename", text "__Schema");
         ("types", Many (map (fun e => named (fst e)) (s_types S)));
         ("queryType", One (named (s_query S)));
         ("mutationType", match s_mutation S with Some n => One (named n) | None => Null end);
         ("subscriptionType", match s_subscription S with Some n => One (named n) | None => Null end);
         ("directives", Many (map DDirective (s_directives S)))]
    | DType t => assoc f
        [("__typename", text "__Type");
         ("kind", Leaf (VEnum (kind_text (kind_of S t))));
         ("name", text_or_null (type_name t));
         ("description", text_or_null (td_desc (def_of t)));
         ("fields", of_kind t [OBJECT; INTERFACE] (map DField (visible fd_deprecated args (td_fields (def_of t)))));
         ("interfaces", of_kind t [OBJECT] (map named (td_interfaces (def_of t))));
         ("possibleTypes", of_kind t [INTERFACE; UNION] (map named (td_possible (def_of t))));
         ("enumValues", of_kind t [ENUM] (map DEnum (visible ev_deprecated args (td_enums (def_of t)))));
         ("inputFields", of_kind t [INPUT_OBJECT] (map DInput (td_inputs (def_of t))));
         ("ofType", match t with TNamed _ => Null | TListOf e => One (DType e) | TNonNull e => One (DType e) end)]
    | DField x => assoc f
        [("__typename", text "__Field"); ("name", text (fd_name x)); ("description", text_or_null (fd_desc x));
         ("args", Many (map DInput (fd_args x))); ("type", One (DType (fd_type x)));
         ("isDeprecated", Leaf (VBool (is_some (fd_deprecated x)))); ("deprecationReason", reason (fd_deprecated x))]
    | DInput x => assoc f
        [("__typename", text "__InputValue"); ("name", text (iv_name x)); ("description", text_or_null (iv_desc x));
         ("type", One (DType (iv_type x))); ("defaultValue", text_or_null (iv_default x))]
    | DEnum x => assoc f
        [("__typename", text "__EnumValue"); ("name", text (ev_name x)); ("description", text_or_null (ev_desc x));
         ("isDeprecated", Leaf (VBool (is_some (ev_deprecated x)))); ("deprecationReason", reason (ev_deprecated x))]
    | DDirective x => assoc f
        [("__typename", text "__Directive"); ("name", text (dd_name x)); ("description", text_or_null (dd_desc x));
         ("locations", Leaves (map (fun l => VEnum (location_text l)) (dd_locs x))); ("args", Many (map DInput (dd_args x)))]
    end.

  (** A service that answers like this: what a selection set on it gives is said by ExecBigSpec.executes. *)
  Definition answer_of (x : shown) : answer sobj :=
    AResult match x with
            | Null => FNullable (Ok None)
            | Leaf v => FLeaf true false (Ok v)
            | Leaves vs => FList (Ok (map (fun v => FLeaf true false (Ok v)) vs))
            | One o => FDerived (Ok (Some o))
            | Many os => FList (Ok (map (fun o => FDerived (Ok (Some o))) os))
            end.
  Definition d_types (o : sobj) : list string :=
    [match o with DSchema => "__Schema" | DType _ => "__Type" | DField _ => "__Field" | DInput _ => "__InputValue" | DEnum _ => "__EnumValue"
     | DDirective _ => "__Directive" end].
  Definition d_has (o : sobj) (f : string) : bool := is_some (shows o f []).
  Definition d_ans (o : sobj) (f : string) (p : fparams) : answer sobj :=
    match shows o f (p_args p) with Some x => answer_of x | None => AThrow (Exn runtime_error "") end.
End Shows.

(** ** The registry holds the schema [S] *)
Definition input_rep (r : registry) (i : input_obj) (d : input_value) : Prop :=
  io_name i = iv_name d /\ io_desc i = iv_desc d /\ io_default i = iv_default d /\ refers r (iv_type d) (io_type i).
Definition field_rep (r : registry) (f : field_obj) (d : field_def) : Prop :=
  fo_name f = fd_name d /\ fo_desc f = fd_desc d /\ fo_deprecated f = fd_deprecated d /\ refers r (fd_type d) (fo_type f)
  /\ Forall2 (input_rep r) (fo_args f) (fd_args d).
Definition directive_rep (r : registry) (x : directive_obj) (d : directive_def) : Prop :=
  do_name x = dd_name d /\ do_desc x = dd_desc d /\ do_locs x = dd_locs d /\ Forall2 (input_rep r) (do_args x) (dd_args d).
Definition type_rep (r : registry) (n : string) (o : type_obj) (d : type_def) : Prop :=
  to_name o = n /\ to_kind o = td_kind d /\ to_desc o = td_desc d /\ Forall2 (field_rep r) (to_fields o) (td_fields d)
  /\ Forall2 (fun a m => refers r (TNamed m) a) (to_interfaces o) (td_interfaces d)
  /\ Forall2 (fun a m => refers r (TNamed m) a) (to_possible o) (td_possible d)
  /\ to_enums o = td_enums d /\ Forall2 (input_rep r) (to_inputs o) (td_inputs d).
Definition root_rep (r : registry) (t : option address) (n : option string) : Prop :=
  match t, n with Some t, Some n => refers r (TNamed n) t | None, None => True | _, _ => False end.

Record represents (r : registry) (S : schema) : Prop := mkRepresents {
  rp_types : Forall2 (fun e d => fst e = fst d /\ exists o, object_at r (snd e) = Some o /\ type_rep r (fst e) o (snd d)) (types r) (s_types S);
  rp_distinct : NoDup (map fst (types r));
  rp_query : root_rep r (query r) (Some (s_query S));
  rp_mutation : root_rep r (mutation r) (s_mutation S);
  rp_subscription : root_rep r (subscription r) (s_subscription S);
  rp_directives : Forall2 (directive_rep r) (directives r) (s_directives S);
  rp_introspection : supports_introspection r = s_introspection S }.

(** A schema that was built completely: every type was added once, under its own name, and every pointer is to a known type. *)
Definition input_known (r : registry) (i : input_obj) : Prop := known r (io_type i).
Definition field_known (r : registry) (f : field_obj) : Prop := known r (fo_type f) /\ forall i, In i (fo_args f) -> input_known r i.
Record complete (r : registry) : Prop := mkComplete {
  cm_added : forall t o, object_at r t = Some o -> ~ is_wrapper (to_kind o) -> In (to_name o, t) (types r);
  cm_names : forall n t, In (n, t) (types r) -> exists o, object_at r t = Some o /\ to_name o = n;
  cm_distinct : NoDup (map fst (types r));
  cm_fields : forall t o f, object_at r t = Some o -> In f (to_fields o) -> field_known r f;
  cm_inputs : forall t o i, object_at r t = Some o -> In i (to_inputs o) -> input_known r i;
  cm_interfaces : forall t o a, object_at r t = Some o -> In a (to_interfaces o) -> plain_at r a;
  cm_possible : forall t o a, object_at r t = Some o -> In a (to_possible o) -> plain_at r a;
  cm_directives : forall d i, In d (directives r) -> In i (do_args d) -> input_known r i;
  cm_query : exists t, query r = Some t /\ plain_at r t;
  cm_mutation : forall t, mutation r = Some t -> plain_at r t;
  cm_subscription : forall t, subscription r = Some t -> plain_at r t }.

(** Which of them an introspection object of the service stands for. *)
Definition irep (r : registry) (s : sobj) (i : iobj) : Prop :=
  match s, i with
  | DSchema, ISchema => True
  | DType t, IType a => refers r t a
  | DField d, IField f => field_rep r f d
  | DInput d, IInput x => input_rep r x d
  | DEnum d, IEnum e => e = d
  | DDirective d, IDirective x => directive_rep r x d
  | _, _ => False
  end.

(** ** The standard introspection query (introspection-query of graphql-js), with [n] nested ofType, and its response *)
Section Standard.
  Variables (l : schema_location) (n : nat).
  Definition leaf_sel (f : string) : selection := SField l None f [] [] None.
  Definition object_sel (f : string) (sub : list selection) : selection := SField l None f [] [] (Some (l, sub)).
  Definition deprecated_sel (f : string) (sub : list selection) : selection :=
    SField l None f [(l, ("includeDeprecated", LBool l true))] [] (Some (l, sub)).
  Fixpoint type_ref_sel (n : nat) : list selection :=
    leaf_sel "kind" :: leaf_sel "name" :: match n with 0 => [] | S m => [object_sel "ofType" (type_ref_sel m)] end.
  Definition input_sel : list selection :=
    [leaf_sel "name"; leaf_sel "description"; object_sel "type" (type_ref_sel n); leaf_sel "defaultValue"].
  Definition field_sel : list selection :=
    [leaf_sel "name"; leaf_sel "description"; object_sel "args" input_sel; object_sel "type" (type_ref_sel n); leaf_sel "isDeprecated";
     leaf_sel "deprecationReason"].
  Definition enum_sel : list selection := [leaf_sel "name"; leaf_sel "description"; leaf_sel "isDeprecated"; leaf_sel "deprecationReason"].
  Definition type_sel : list selection :=
    [leaf_sel "kind"; leaf_sel "name"; leaf_sel "description"; deprecated_sel "fields" field_sel; object_sel "inputFields" input_sel;
     object_sel "interfaces" (type_ref_sel n); deprecated_sel "enumValues" enum_sel; object_sel "possibleTypes" (type_ref_sel n)].
  Definition directive_sel : list selection :=
    [leaf_sel "name"; leaf_sel "description"; leaf_sel "locations"; object_sel "args" input_sel].
  Definition schema_sel : list selection :=
    [object_sel "queryType" [leaf_sel "name"]; object_sel "mutationType" [leaf_sel "name"]; object_sel "subscriptionType" [leaf_sel "name"];
     object_sel "types" type_sel; object_sel "directives" directive_sel].

  Variable Sc : schema.
  Definition str (s : string) : value := VString s false.
  Definition str_or_null (s : string) : value := if String.eqb s "" then VNull else str s.
  Definition reason_value (o : option string) : value := match o with Some s => str s | None => VNull end.
  Fixpoint type_ref_value (n : nat) (t : tref) : value :=
    VMap (("kind", VEnum (kind_text (kind_of Sc t))) :: ("name", str_or_null (type_name t)) ::
          match n with
          | 0 => []
          | S m => [("ofType", match t with TNamed _ => VNull | TListOf e => type_ref_value m e | TNonNull e => type_ref_value m e end)]
          end).
  Definition input_json (i : input_value) : value :=
    VMap [("name", str (iv_name i)); ("description", str_or_null (iv_desc i)); ("type", type_ref_value n (iv_type i));
          ("defaultValue", str_or_null (iv_default i))].
  Definition field_json (f : field_def) : value :=
    VMap [("name", str (fd_name f)); ("description", str_or_null (fd_desc f)); ("args", VList (map input_json (fd_args f)));
          ("type", type_ref_value n (fd_type f)); ("isDeprecated", VBool (is_some (fd_deprecated f)));
          ("deprecationReason", reason_value (fd_deprecated f))].
  Definition enum_json (e : enum_value_def) : value :=
    VMap [("name", str (ev_name e)); ("description", str_or_null (ev_desc e)); ("isDeprecated", VBool (is_some (ev_deprecated e)));
          ("deprecationReason", reason_value (ev_deprecated e))].
  Definition list_if (k : type_kind) (ks : list type_kind) (vs : list value) : value :=
    if existsb (kind_eqb k) ks then VList vs else VNull.
  Definition type_json (e : string * type_def) : value :=
    let (name, d) := e in
    VMap [("kind", VEnum (kind_text (td_kind d))); ("name", str_or_null name); ("description", str_or_null (td_desc d));
          ("fields", list_if (td_kind d) [OBJECT; INTERFACE] (map field_json (td_fields d)));
          ("inputFields", list_if (td_kind d) [INPUT_OBJECT] (map input_json (td_inputs d)));
          ("interfaces", list_if (td_kind d) [OBJECT] (map (fun m => type_ref_value n (TNamed m)) (td_interfaces d)));
          ("enumValues", list_if (td_kind d) [ENUM] (map enum_json (td_enums d)));
          ("possibleTypes", list_if (td_kind d) [INTERFACE; UNION] (map (fun m => type_ref_value n (TNamed m)) (td_possible d)))].
  Definition directive_json (d : directive_def) : value :=
    VMap [("name", str (dd_name d)); ("description", str_or_null (dd_desc d)); ("locations", VList (map (fun x => VEnum (location_text x)) (dd_locs d)));
          ("args", VList (map input_json (dd_args d)))].
  Definition root_json (o : option string) : value := match o with Some m => VMap [("name", str_or_null m)] | None => VNull end.
  Definition schema_json : value :=
    VMap [("queryType", root_json (Some (s_query Sc))); ("mutationType", root_json (s_mutation Sc)); ("subscriptionType", root_json (s_subscription Sc));
          ("types", VList (map type_json (s_types Sc))); ("directives", VList (map directive_json (s_directives Sc)))].
End Standard.

(** Schemas that a response with [n] nested ofType can show entirely: no type expression is deeper, and types only have the members that
    belong to their kind. *)
Fixpoint depth (t : tref) : nat := match t with TNamed _ => 0 | TListOf e => S (depth e) | TNonNull e => S (depth e) end.
Definition inputs_fit (n : nat) (l : list input_value) : Prop := forall i, In i l -> depth (iv_type i) <= n.
Definition only_in {A} (k : type_kind) (ks : list type_kind) (l : list A) : Prop := ~ In k ks -> l = [].
Record fits (n : nat) (Sc : schema) : Prop := mkFits {
  ft_kind : forall m d, In (m, d) (s_types Sc) -> ~ is_wrapper (td_kind d);
  ft_fields : forall m d, In (m, d) (s_types Sc) -> only_in (td_kind d) [OBJECT; INTERFACE] (td_fields d)
    /\ forall f, In f (td_fields d) -> depth (fd_type f) <= n /\ inputs_fit n (fd_args f);
  ft_inputs : forall m d, In (m, d) (s_types Sc) -> only_in (td_kind d) [INPUT_OBJECT] (td_inputs d) /\ inputs_fit n (td_inputs d);
  ft_interfaces : forall m d, In (m, d) (s_types Sc) -> only_in (td_kind d) [OBJECT] (td_interfaces d);
  ft_possible : forall m d, In (m, d) (s_types Sc) -> only_in (td_kind d) [INTERFACE; UNION] (td_possible d);
  ft_enums : forall m d, In (m, d) (s_types Sc) -> only_in (td_kind d) [ENUM] (td_enums d);
  ft_directives : forall d, In d (s_directives Sc) -> inputs_fit n (dd_args d) }.
