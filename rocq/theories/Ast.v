(** The executable document AST that execution and validation visit. *)
From Verif Require Import Cpp Value.

(** The parser produces a generic tree of peg::ast_node (include/graphqlservice/internal/SyntaxTree.h); the visitors
    pick the parts out of it by node type with on_first_child/for_each_child and children.front()/back(). This is the
    same information with those parts named, in document order. Every node carries the line and column of its
    [begin()]. Simplifications: an integer literal is its mathematical value, a float literal the double that atof
    gives for it, a string literal its unescaped_view (StringLiteral*.v models that function); lists that the grammar
    requires to be non-empty when present ([arguments], [directives], [variable_definitions]) are absent when empty. *)

(** Grammar.h: input_value, variable_value, list_value, object_value ... *)
Inductive lit : Type :=
| LVar (loc : schema_location) (name : string)
| LInt (loc : schema_location) (z : Z)
| LFloat (loc : schema_location) (f : spec_float)
| LString (loc : schema_location) (s : string)
| LBool (loc : schema_location) (b : bool)
| LNull (loc : schema_location)
| LEnum (loc : schema_location) (s : string)
| LList (loc : schema_location) (items : list lit)
| LObject (loc : schema_location) (fields : list (schema_location * (string * lit))).

(** Grammar.h: argument = location, name, value. *)
Definition argument : Type := (schema_location * (string * lit))%type.
Definition a_loc (a : argument) : schema_location := fst a.
Definition a_name (a : argument) : string := fst (snd a).
Definition a_value (a : argument) : lit := snd (snd a).

(** Grammar.h: directive. *)
Record directive : Type := mkDir { d_loc : schema_location; d_name : string; d_args : list argument }.

(** Grammar.h: field, fragment_spread, inline_fragment. A selection_set has a location and its selections. *)
Inductive selection : Type :=
| SField (loc : schema_location) (alias : option string) (name : string) (args : list argument) (dirs : list directive)
         (sub : option (schema_location * list selection))
| SSpread (loc : schema_location) (name : string) (dirs : list directive)
| SInline (loc : schema_location) (cond : option (schema_location * string)) (dirs : list directive) (sel : list selection).

(** Grammar.h: named_type, list_type, nonnull_type. *)
Inductive tref : Type := TNamed (name : string) | TListOf (t : tref) | TNonNull (t : tref).

(** Grammar.h: variable; [v_default_loc] is where the default_value (its [=]) begins. *)
Record variable_def : Type := mkVar {
  v_loc : schema_location; v_name : string; v_type : tref; v_type_loc : schema_location; v_default : option lit;
  v_default_loc : schema_location }.

(** Grammar.h: operation_definition; [op_type] is None for the short form of a query. *)
Record operation_def : Type := mkOp {
  op_loc : schema_location; op_type : option string; op_name : option string; op_vars : list variable_def;
  op_dirs : list directive; op_sel : list selection }.

(** Grammar.h: fragment_definition. *)
Record fragment_def : Type := mkFrag {
  f_loc : schema_location; f_name : string; f_cond : string; f_cond_loc : schema_location; f_dirs : list directive;
  f_sel : list selection }.

(** The children of the document root. *)
Inductive definition : Type :=
| DOp (o : operation_def)
| DFrag (f : fragment_def)
| DOther (loc : schema_location).   (* a type system definition, in a mixed document *)

Definition document : Type := list definition.

Definition operations (d : document) : list operation_def :=
  flat_map (fun x => match x with DOp o => [o] | _ => [] end) d.
Definition fragments (d : document) : list fragment_def :=
  flat_map (fun x => match x with DFrag f => [f] | _ => [] end) d.

(** The response key of a field. *)
Definition response_key (alias : option string) (name : string) : string :=
  match alias with Some a => a | None => name end.

Definition lit_loc (l : lit) : schema_location :=
  match l with
  | LVar l _ | LInt l _ | LFloat l _ | LString l _ | LBool l _ | LNull l | LEnum l _ | LList l _ | LObject l _ => l
  end.

Section LitInd.
  Variable P : lit -> Prop.
  Hypothesis HVar : forall l n, P (LVar l n).
  Hypothesis HInt : forall l z, P (LInt l z).
  Hypothesis HFloat : forall l f, P (LFloat l f).
  Hypothesis HString : forall l s, P (LString l s).
  Hypothesis HBool : forall l b, P (LBool l b).
  Hypothesis HNull : forall l, P (LNull l).
  Hypothesis HEnum : forall l s, P (LEnum l s).
  Hypothesis HList : forall l is, Forall P is -> P (LList l is).
  Hypothesis HObject : forall l fs, Forall (fun a => P (snd (snd a))) fs -> P (LObject l fs).
  Fixpoint lit_ind' (x : lit) : P x :=
    match x with
    | LVar l n => HVar l n
    | LInt l z => HInt l z
    | LFloat l f => HFloat l f
    | LString l s => HString l s
    | LBool l b => HBool l b
    | LNull l => HNull l
    | LEnum l s => HEnum l s
    | LList l is => HList l is ((fix go (is : list lit) : Forall P is :=
        match is with [] => Forall_nil _ | y :: r => Forall_cons y (lit_ind' y) (go r) end) is)
    | LObject l fs => HObject l fs ((fix go (fs : list (schema_location * (string * lit))) : Forall (fun a => P (snd (snd a))) fs :=
        match fs with [] => Forall_nil _ | y :: r => Forall_cons y (lit_ind' (snd (snd y))) (go r) end) fs)
    end.
End LitInd.

Section SelInd.
  Variable P : selection -> Prop.
  Hypothesis HField0 : forall loc al n args ds, P (SField loc al n args ds None).
  Hypothesis HField1 : forall loc al n args ds l sub, Forall P sub -> P (SField loc al n args ds (Some (l, sub))).
  Hypothesis HSpread : forall loc n ds, P (SSpread loc n ds).
  Hypothesis HInline : forall loc c ds sel, Forall P sel -> P (SInline loc c ds sel).
  Fixpoint selection_ind' (s : selection) : P s :=
    let go := fix go (l : list selection) : Forall P l :=
        match l with [] => Forall_nil _ | y :: r => Forall_cons y (selection_ind' y) (go r) end in
    match s with
    | SField loc al n args ds None => HField0 loc al n args ds
    | SField loc al n args ds (Some (l, sub)) => HField1 loc al n args ds l sub (go sub)
    | SSpread loc n ds => HSpread loc n ds
    | SInline loc c ds sel => HInline loc c ds sel (go sel)
    end.
End SelInd.
