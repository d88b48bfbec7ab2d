(** C47: the schema documents that schemagen has to accept. *)
From Coq Require Import Relations.
From Verif Require Import Cpp Value Ast ModifiersModel SchemaModel ExecSpec LoaderModel LoaderSpec GenSpec.
Local Open Scope string_scope.
Local Open Scope list_scope.

(** [n] is declared as a type of kind [k]. *)
Definition is_a (ds : list sdl_def) (k : type_kind) (n : string) : Prop := exists d, In d ds /\ definition_of d = Some (k, n).
Definition builtin (n : string) : Prop := In n ["Int"; "Float"; "String"; "Boolean"; "ID"].
Definition input_name (ds : list sdl_def) (n : string) : Prop := builtin n \/ exists k, In k [SCALAR; ENUM; INPUT_OBJECT] /\ is_a ds k n.
Definition output_name (ds : list sdl_def) (n : string) : Prop := builtin n \/ exists k, In k [SCALAR; ENUM; UNION; INTERFACE; OBJECT] /\ is_a ds k n.

(** Default values: 32 bit integers; null only where null is allowed. *)
Fixpoint ints_fit (l : lit) : Prop :=
  match l with
  | LInt _ z => (-2147483648 <= z <= 2147483647)%Z
  | LList _ items => (fix go l := match l with [] => True | x :: r => ints_fit x /\ go r end) items
  | LObject _ fields => (fix go (l : list (schema_location * (string * lit))) := match l with [] => True | x :: r => ints_fit (snd (snd x)) /\ go r end) fields
  | _ => True
  end.
Definition no_value (l : lit) : Prop := match l with LNull _ | LVar _ _ => True | _ => False end.
Definition default_ok (i : sdl_input) : Prop :=
  match si_default i with None => True | Some (v, _) => ints_fit v /\ (no_value v -> nullable (si_type i)) end.

Definition input_members (d : sdl_def) : list sdl_input := match d with DefInput _ _ fs | ExtInput _ fs => fs | _ => [] end.
Definition implemented (d : sdl_def) : list string := match d with DefObject _ _ is _ | ExtObject _ is _ => is | _ => [] end.
Definition options_in (d : sdl_def) : list string := match d with DefUnion _ _ os | ExtUnion _ os => os | _ => [] end.
(** Input type [a] has a field whose type is, under any modifiers, the input type [b]. *)
Definition input_refers (ds : list sdl_def) (a b : string) : Prop :=
  exists i, In i (inputs_of ds a) /\ base_name (si_type i) = b /\ is_a ds INPUT_OBJECT b.

Record acceptable (ds : list sdl_def) : Prop := mkAcceptable {
  ac_definitions : forall d, In d ds -> d <> DefExecutable /\ forall n, d <> ExtScalar n;
  ac_defaults : forall d i, In d ds -> In i (inputs_in d) -> default_ok i;
  ac_builtin : forall n, In n (declared_names ds) -> ~ builtin n;
  ac_inputs : forall d i, In d ds -> In i (input_members d) -> input_name ds (base_name (si_type i));
  ac_fields : forall d f, In d ds -> In f (fields_in d) -> output_name ds (base_name (sf_type f));
  (* the arguments of fields with a built-in type are not looked at (C47_arguments_refuted) *)
  ac_arguments : forall d f a, In d ds -> In f (fields_in d) -> ~ builtin (base_name (sf_type f)) -> In a (sf_args f) -> input_name ds (base_name (si_type a));
  ac_interfaces : forall d i, In d ds -> In i (implemented d) -> is_a ds INTERFACE i;
  ac_options : forall d o, In d ds -> In o (options_in d) -> is_a ds OBJECT o;
  ac_operations : forall e, In e (schema_operations ds) -> is_a ds OBJECT (snd e);
  ac_query : exists q, declared_root ds OpQuery = Some q;
  (* stricter than GraphQL, which only forbids cycles of non-null fields (C34_recursive_refuted) *)
  ac_acyclic : ~ exists a, clos_trans string (input_refers ds) a a }.

(** Documents of which this is asked: different names for different types, extensions after the definition, type references of the grammar. *)
Record orderly (ds : list sdl_def) : Prop := mkOrderly {
  od_names : NoDup (declared_names ds);
  od_extensions : forall before d after k n, ds = before ++ d :: after -> extension_of d = Some (k, n) -> exists d', In d' before /\ definition_of d' = Some (k, n);
  od_fields : forall d f, In d ds -> In f (fields_in d) -> grammatical (sf_type f);
  od_inputs : forall d i, In d ds -> In i (inputs_in d) -> grammatical (si_type i);
  od_defaults : forall d i v text, In d ds -> In i (inputs_in d) -> si_default i = Some (v, text) -> text <> "" }.

(** What the loader tells the generator about a field. *)
Definition input_kind_is (ds : list sdl_def) (n : string) (k : input_kind) : Prop :=
  match k with InBuiltin => builtin n | InScalar => is_a ds SCALAR n | InEnum => is_a ds ENUM n | InInput => is_a ds INPUT_OBJECT n end.
Definition output_kind_is (ds : list sdl_def) (n : string) (k : output_kind) : Prop :=
  match k with
  | OutBuiltin => builtin n | OutScalar => is_a ds SCALAR n | OutEnum => is_a ds ENUM n | OutUnion => is_a ds UNION n | OutInterface => is_a ds INTERFACE n
  | OutObject => is_a ds OBJECT n
  end.

(** * What the loader keeps of an accepted document *)
Fixpoint no_variables (l : lit) : Prop :=
  match l with
  | LVar _ _ => False
  | LList _ items => (fix go l := match l with [] => True | x :: r => no_variables x /\ go r end) items
  | LObject _ fields => (fix go (l : list (schema_location * (string * lit))) := match l with [] => True | x :: r => no_variables (snd (snd x)) /\ go r end) fields
  | _ => True
  end.
(** A field of an input type or an argument; [checked]: the arguments of a field with a built-in type are not. The default is the value that the literal denotes (ExecSpec.v). *)
Record loaded_input (ds : list sdl_def) (checked : Prop) (i : sdl_input) (f : in_field) : Prop := mkLoadedInput {
  li_name : in_name f = si_name i;
  li_type : in_type f = base_name (si_type i);
  li_mods : stands_for (in_type f) (in_mods f) (si_type i);
  li_desc : in_desc f = si_desc i;
  li_kind : checked -> input_kind_is ds (in_type f) (in_kind f);
  li_default : match si_default i with
               | None => in_default_text f = "" /\ in_default f = VNull
               | Some (v, text) => in_default_text f = text /\ (no_variables v -> lit_value [] v (in_default f))
               end }.
Record loaded_output (ds : list sdl_def) (inherited : Prop) (accessor : string) (f : sdl_field) (x : out_field) : Prop := mkLoadedOutput {
  lo_name : out_name x = sf_name f;
  lo_type : out_type x = base_name (sf_type f);
  lo_mods : stands_for (out_type x) (out_mods x) (sf_type f);
  lo_desc : out_desc x = sf_desc f;
  lo_kind : output_kind_is ds (out_type x) (out_kind x);
  lo_args : Forall2 (loaded_input ds (~ builtin (out_type x))) (sf_args f) (out_args x);
  lo_inherited : out_inherited x = true <-> inherited;
  lo_accessor : out_accessor x = accessor }.
(** A field of an interface that the object implements. *)
Definition inherits (ds : list sdl_def) (object field : string) : Prop :=
  exists i g, In i (interfaces_of ds object) /\ In g (interface_fields_of ds i) /\ sf_name g = field.
