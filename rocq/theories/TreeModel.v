(** How the visitors read a syntax tree: the parts they pick out of the nodes, as the documents of Ast.v. *)
From Verif Require Import Cpp Value Ast.
From Verif Require Export ParserModel.
Local Open Scope list_scope.
Local Open Scope string_scope.

Section Read.
(** Where the byte at an offset is, and the double that atof gives for a float literal. *)
Variable L : nat -> schema_location.
Variable atof : string -> spec_float.

(** Grammar.h:25-60 on_first_child, for_each_child. *)
Definition first_child (r : rule) (l : list (node rule)) : option (node rule) := List.find (is_type r) l.
Definition each_child (r : rule) (l : list (node rule)) : list (node rule) := List.filter (is_type r) l.

(** [children.front()], [children.back()] and [children[1]] are undefined when there is no such child: [None]. *)
Definition front (l : list (node rule)) : option (node rule) := match l with x :: _ => Some x | [] => None end.
Fixpoint back (l : list (node rule)) : option (node rule) :=
  match l with [] => None | [x] => Some x | _ :: r => back r end.
Definition second (l : list (node rule)) : option (node rule) := match l with _ :: x :: _ => Some x | _ => None end.

Notation "'let?' x ':=' a 'in' b" := (match a with Some x => b | None => None end) (at level 200, x pattern, a at level 100, b at level 200).

Fixpoint all {A B} (f : A -> option B) (l : list A) : option (list B) :=
  match l with
  | [] => Some []
  | x :: r => let? y := f x in let? ys := all f r in Some (y :: ys)
  end.

(** The number a decimal literal stands for. *)
Definition digit_value (c : ascii) : Z := Z.of_N (N_of_ascii c) - 48.
Fixpoint digits_value (acc : Z) (l : list ascii) : Z :=
  match l with [] => acc | c :: r => digits_value (acc * 10 + digit_value c) r end.
Definition int_value (l : list ascii) : Z :=
  match l with
  | c :: r => if Ascii.eqb c "-" then - digits_value 0 r else digits_value 0 l
  | [] => 0
  end%Z.

Definition without_first (l : list ascii) : string := string_of_list_ascii (tl l).

(** GraphQLService.cpp:217-335 ValueVisitor (the same dispatch in Validation.cpp:114-265 and GeneratorLoader.cpp:55-168):
    which literal a value node is. A node of another type, or an object field without children, is [None]. *)
Fixpoint read_value (x : node rule) : option lit :=
  match x with
  | Node t b c ks =>
    match t with
    | R_variable_value => Some (LVar (L b) (without_first c))
    | R_integer_value => Some (LInt (L b) (int_value c))
    | R_float_value => Some (LFloat (L b) (atof (string_of_list_ascii c)))
    | R_string_value => Some (LString (L b) (joined_view x))
    | R_true_keyword => Some (LBool (L b) true)
    | R_false_keyword => Some (LBool (L b) false)
    | R_null_keyword => Some (LNull (L b))
    | R_enum_value => Some (LEnum (L b) (string_of_list_ascii c))
    | R_list_value =>
      let? vs := (fix go (l : list (node rule)) : option (list lit) :=
                    match l with
                    | [] => Some []
                    | y :: r => let? v := read_value y in let? vs := go r in Some (v :: vs)
                    end) ks in
      Some (LList (L b) vs)
    | R_object_value =>
      let? fs := (fix go (l : list (node rule)) : option (list (schema_location * (string * lit))) :=
                    match l with
                    | [] => Some []
                    | Node _ b' _ ks' :: r =>
                      let? n := front ks' in
                      let? v := (fix last (k : list (node rule)) : option lit :=
                                   match k with [] => None | [y] => read_value y | _ :: k' => last k' end) ks' in
                      let? fs := go r in
                      Some ((L b', (text_of n, v)) :: fs)
                    end) ks in
      Some (LObject (L b) fs)
    | _ => None
    end
  end.

(** GraphQLService.cpp:895-904 the arguments of a field: the first and the last child of each argument. *)
Definition read_argument (x : node rule) : option argument :=
  let? n := front (n_children x) in
  let? y := back (n_children x) in
  let? v := read_value y in
  Some (L (n_begin x), (text_of n, v)).

(** on_first_child<arguments>. *)
Definition read_arguments (l : list (node rule)) : option (list argument) :=
  match first_child R_arguments l with
  | Some a => all read_argument (n_children a)
  | None => Some []
  end.

(** GraphQLService.cpp:360-400 DirectiveVisitor::visit. *)
Definition read_directive (x : node rule) : option directive :=
  let? n := first_child R_directive_name (n_children x) in
  let? a := read_arguments (n_children x) in
  Some (mkDir (L (n_begin x)) (text_of n) a).

(** on_first_child<directives>. *)
Definition read_directives (l : list (node rule)) : option (list directive) :=
  match first_child R_directives l with
  | Some d => all read_directive (n_children d)
  | None => Some []
  end.

(** GraphQLService.cpp:1055-1075 on_first_child<type_condition>, then the first child. *)
Definition read_condition (x : node rule) : option (schema_location * string) :=
  let? n := front (n_children x) in Some (L (n_begin x), text_of n).

(** GraphQLService.cpp:820-1115 SelectionVisitor: field, fragment_spread and inline_fragment. *)
Fixpoint read_selection (x : node rule) : option selection :=
  match x with
  | Node t b c ks =>
    match t with
    | R_field =>
      let? n := first_child R_field_name ks in
      let? args := read_arguments ks in
      let? dirs := read_directives ks in
      let? sub := (fix sets (l : list (node rule)) : option (option (schema_location * list selection)) :=
                     match l with
                     | [] => Some None
                     | Node t' b' _ ks' :: r =>
                       if rule_eqb t' R_selection_set then
                         let? ss := (fix go (k : list (node rule)) : option (list selection) :=
                                       match k with
                                       | [] => Some []
                                       | y :: k' => let? s := read_selection y in let? ss := go k' in Some (s :: ss)
                                       end) ks' in
                         Some (Some (L b', ss))
                       else sets r
                     end) ks in
      Some (SField (L b) (option_map text_of (first_child R_alias_name ks)) (text_of n) args dirs sub)
    | R_fragment_spread =>
      let? n := front ks in
      let? dirs := read_directives ks in
      Some (SSpread (L b) (text_of n) dirs)
    | R_inline_fragment =>
      let? cond := match first_child R_type_condition ks with
                   | Some y => let? c := read_condition y in Some (Some c)
                   | None => Some None
                   end in
      let? dirs := read_directives ks in
      let? sub := (fix sets (l : list (node rule)) : option (list selection) :=
                     match l with
                     | [] => None
                     | Node t' b' _ ks' :: r =>
                       if rule_eqb t' R_selection_set then
                         (fix go (k : list (node rule)) : option (list selection) :=
                            match k with
                            | [] => Some []
                            | y :: k' => let? s := read_selection y in let? ss := go k' in Some (s :: ss)
                            end) ks'
                       else sets r
                     end) ks in
      Some (SInline (L b) cond dirs sub)
    | _ => None
    end
  end.

(** Validation.cpp:289-350 ValidateVariableTypeVisitor: named_type, list_type, nonnull_type. *)
Fixpoint read_type (x : node rule) : option tref :=
  match x with
  | Node t _ c ks =>
    match t with
    | R_named_type => Some (TNamed (string_of_list_ascii c))
    | R_list_type => match ks with y :: _ => let? r := read_type y in Some (TListOf r) | [] => None end
    | R_nonnull_type => match ks with y :: _ => let? r := read_type y in Some (TNonNull r) | [] => None end
    | _ => None
    end
  end.

Definition is_type_node (x : node rule) : bool := is_type R_named_type x || is_type R_list_type x || is_type R_nonnull_type x.

(** Validation.cpp:651-770 the children of a variable: variable_name, the type, default_value. *)
Definition read_variable (x : node rule) : option variable_def :=
  let? n := first_child R_variable_name (n_children x) in
  let? ty := List.find is_type_node (n_children x) in
  let? t := read_type ty in
  let? d := match first_child R_default_value (n_children x) with
            | Some y => let? z := back (n_children y) in let? v := read_value z in Some (Some v, L (n_begin y))
            | None => Some (None, mkLoc 0 1)
            end in
  Some (mkVar (L (n_begin x)) (without_first (n_content n)) t (L (n_begin ty)) (fst d) (snd d)).

(** The children of a selection_set, which is the last child of an operation or fragment definition. *)
Definition read_last_set (l : list (node rule)) : option (list selection) :=
  let? s := back l in all read_selection (n_children s).

(** GraphQLService.cpp:1310-1400 OperationDefinitionVisitor, Validation.cpp:633-819. *)
Definition read_operation (x : node rule) : option operation_def :=
  let ks := n_children x in
  let? vars := all read_variable (each_child R_variable ks) in
  let? dirs := read_directives ks in
  let? sel := read_last_set ks in
  Some (mkOp (L (n_begin x)) (option_map text_of (first_child R_operation_type ks))
             (option_map text_of (first_child R_operation_name ks)) vars dirs sel).

(** GraphQLService.cpp:475-487 Fragment, Validation.cpp:595-631. *)
Definition read_fragment (x : node rule) : option fragment_def :=
  let ks := n_children x in
  let? n := front ks in
  let? c := second ks in
  let? cond := read_condition c in
  let? dirs := read_directives ks in
  let? sel := read_last_set ks in
  Some (mkFrag (L (n_begin x)) (text_of n) (snd cond) (fst cond) dirs sel).

Definition read_definition (x : node rule) : option definition :=
  match n_type x with
  | R_operation_definition => let? o := read_operation x in Some (DOp o)
  | R_fragment_definition => let? f := read_fragment x in Some (DFrag f)
  | _ => Some (DOther (L (n_begin x)))
  end.

(** Validation.cpp:473-593: the children of the root. *)
Definition read_document (l : list (node rule)) : option document := all read_definition l.

End Read.
