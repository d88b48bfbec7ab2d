(** What the declarations of a client's variables should be (for C56). *)
From Coq Require Import String List Relations.
From Verif Require Import Cpp Value Ast SchemaModel ModifiersModel LoaderSpec JSONSpec ValidationSpec ClientSpec.
Import ListNotations.
Local Open Scope list_scope.

Section Spec.
Variable S : schema.
Definition input_object (n : string) : Prop := exists d, find_type S n = Some d /\ td_kind d = INPUT_OBJECT.
Definition enum_type (n : string) : Prop := exists d, find_type S n = Some d /\ td_kind d = ENUM.
(** A field of the input type [a] has, under any modifiers, the type [b]. *)
Definition has_field_of (a b : string) : Prop := exists d f, find_type S a = Some d /\ td_kind d = INPUT_OBJECT /\ In f (td_inputs d) /\ named_type (iv_type f) = b.
Definition contains (a b : string) : Prop := has_field_of a b /\ input_object b.
(** The types of the fields of input types are registered, and no input type contains itself, at any depth. Both are what the schema loader
    makes sure of (C47, C34). *)
Definition inputs_registered : Prop := forall a b, has_field_of a b -> exists d, find_type S b = Some d.
Definition not_recursive : Prop := forall a, ~ clos_trans string contains a a.

(** The input types and the enums that the types of some variables need. *)
Definition needed (types : list string) (b : string) : Prop := exists a, In a types /\ input_object a /\ clos_refl_trans string contains a b.
Definition needed_enum (types : list string) (e : string) : Prop := enum_type e /\ (In e types \/ exists b, needed types b /\ has_field_of b e).
(** Declarations in an order a C++ compiler accepts: each comes after those it mentions. *)
Definition declared_first (ts : list string) : Prop := forall before t after b, ts = before ++ t :: after -> contains t b -> In b before.
(** No list of an input type and no non-null input type inside an input type. *)
Definition only_nullable : Prop := forall a d f, find_type S a = Some d -> td_kind d = INPUT_OBJECT -> In f (td_inputs d) -> input_object (named_type (iv_type f)) -> iv_type f = TNamed (named_type (iv_type f)).
End Spec.

(** ** The C++ types *)
Section Types.
Variable S : schema.
(** The C++ type of an input type: a leaf, or a struct with a member for each field, of the type the field's type stands for (C35). The default
    values, which only the service's structs have, are not said. *)
Inductive input_cpp : string -> itype -> Prop :=
| ic_leaf n k : type_is S n SCALAR \/ type_is S n ENUM -> cpp_leaf S n k -> input_cpp n (ILeaf k)
| ic_struct n d fields : find_type S n = Some d -> td_kind d = INPUT_OBJECT -> inputs_cpp (td_inputs d) fields -> input_cpp n (IStruct fields)
with inputs_cpp : list input_value -> list field -> Prop :=
| ics_nil : inputs_cpp [] []
| ics_cons a l ms t d fs : stands_for (named_type (iv_type a)) ms (iv_type a) -> input_cpp (named_type (iv_type a)) t -> inputs_cpp l fs ->
    inputs_cpp (a :: l) ((iv_name a, (ms, (t, d))) :: fs).
(** Names without the character NUL, as the grammar makes sure of. *)
Definition names_clean : Prop := forall n d, find_type S n = Some d ->
  (td_kind d = ENUM -> forall v, In v (td_enums d) -> no_nul (ev_name v) = true) /\ (td_kind d = INPUT_OBJECT -> forall f, In f (td_inputs d) -> no_nul (iv_name f) = true).
End Types.
