(** Model of src/Validation.cpp and include/Validation.h: ValidateExecutableVisitor. *)
From Verif Require Import Cpp Value Ast SchemaModel SortedMapModel Base64Model.
Local Open Scope string_scope.
Local Open Scope list_scope.

(** * internal::string_view_map / string_view_set
    A map is its vector of pairs in key order (shorter_or_less). Searching and inserting are written as linear walks;
    ValidationMaps.v proves that on a sorted vector they give the same as the bisection of SortedMap.h
    (SortedMapModel.v), which is what the code runs. *)
(** [operator[]] followed by an assignment: replaces or inserts in place. *)
Fixpoint m_set {A} (k : string) (v : A) (m : list (string * A)) : list (string * A) :=
  match m with
  | [] => [(k, v)]
  | (k', v') :: r =>
      if String.eqb k k' then (k', v) :: r
      else if shorter_or_less k k' then (k, v) :: (k', v') :: r
      else (k', v') :: m_set k v r
  end.
(** [emplace]: the map, and whether the key was new. *)
Definition m_emplace {A} (k : string) (v : A) (m : list (string * A)) : list (string * A) * bool :=
  match assoc k m with Some _ => (m, false) | None => (m_set k v m, true) end.
(** [erase] *)
Fixpoint m_erase {A} (k : string) (m : list (string * A)) : list (string * A) :=
  match m with
  | [] => []
  | (k', v') :: r => if String.eqb k k' then r else (k', v') :: m_erase k r
  end.
(** sets *)
Definition mem (k : string) (s : list string) : bool := existsb (String.eqb k) s.
Fixpoint s_add (k : string) (s : list string) : list string :=
  match s with
  | [] => [k]
  | k' :: r => if String.eqb k k' then s else if shorter_or_less k k' then k :: s else k' :: s_add k r
  end.
Fixpoint s_erase (k : string) (s : list string) : list string :=
  match s with
  | [] => []
  | k' :: r => if String.eqb k k' then r else k' :: s_erase k r
  end.

(** * Argument values *)
(** Validation.h:44-100 [ValidateArgumentValuePtr]: position and value; null is the empty pointer. *)
Inductive aval : Type :=
| AVar (loc : schema_location) (name : string)
| AInt (loc : schema_location) (z : Z)
| AFloat (loc : schema_location) (f : spec_float)
| AString (loc : schema_location) (s : string)
| ABool (loc : schema_location) (b : bool)
| ANull (loc : schema_location)
| AEnum (loc : schema_location) (s : string)
| AList (loc : schema_location) (items : list aval)
| AMap (loc : schema_location) (fields : list (string * aval)).

Definition a_pos (v : aval) : schema_location :=
  match v with
  | AVar l _ | AInt l _ | AFloat l _ | AString l _ | ABool l _ | ANull l | AEnum l _ | AList l _ | AMap l _ => l
  end.
Definition is_null (v : aval) : bool := match v with ANull _ => true | _ => false end.

(** Validation.cpp:30-60 operator==: the data, not the positions. *)
Fixpoint aval_eqb (a b : aval) {struct a} : bool :=
  match a, b with
  | AVar _ x, AVar _ y => String.eqb x y
  | AInt _ x, AInt _ y => Z.eqb x y
  | AFloat _ x, AFloat _ y => double_eqb x y
  | AString _ x, AString _ y => String.eqb x y
  | ABool _ x, ABool _ y => Bool.eqb x y
  | ANull _, ANull _ => true
  | AEnum _ x, AEnum _ y => String.eqb x y
  | AList _ xs, AList _ ys =>
      (fix go (xs ys : list aval) : bool :=
         match xs, ys with
         | [], [] => true
         | x :: xs', y :: ys' => aval_eqb x y && go xs' ys'
         | _, _ => false
         end) xs ys
  | AMap _ xs, AMap _ ys =>
      (fix go (xs ys : list (string * aval)) : bool :=
         match xs, ys with
         | [], [] => true
         | (k, x) :: xs', (k', y) :: ys' => String.eqb k k' && aval_eqb x y && go xs' ys'
         | _, _ => false
         end) xs ys
  | _, _ => false
  end.
(** sorted_map<string_view, ValidateArgumentValuePtr>::operator== *)
Fixpoint args_eqb (xs ys : list (string * aval)) : bool :=
  match xs, ys with
  | [], [] => true
  | (k, x) :: xs', (k', y) :: ys' => String.eqb k k' && aval_eqb x y && args_eqb xs' ys'
  | _, _ => false
  end.

Definition err (msg : string) (loc : schema_location) : schema_error := mkErr msg loc [].

(** The loops of Validation.cpp:217-264 over the elements of a list and the fields of an object; [av] visits one value. *)
Section ArgLoops.
  Variable av : lit -> list schema_error * aval.
  Fixpoint arg_items (items : list lit) : list schema_error * list aval :=
    match items with
    | [] => ([], [])
    | x :: r => let '(e1, v) := av x in let '(e2, vs) := arg_items r in (e1 ++ e2, v :: vs)
    end.
  Fixpoint arg_fields (fields : list (schema_location * (string * lit))) (m : list (string * aval))
      : list schema_error * list (string * aval) :=
    match fields with
    | [] => ([], m)
    | (fp, (name, x)) :: r =>
        match assoc name m with
        | Some _ => let '(e2, m') := arg_fields r m in (err ("Conflicting input field name: " ++ name) fp :: e2, m')
        | None => let '(e1, v) := av x in let '(e2, m') := arg_fields r (m_set name v m) in (e1 ++ e2, m')
        end
    end.
End ArgLoops.

(** Validation.cpp:98-264 [ValidateArgumentValueVisitor]: the value and the errors it pushes. Simplification: atoi of an
    integer literal is its mathematical value. *)
Fixpoint arg_value (l : lit) : list schema_error * aval :=
  match l with
  | LVar p n => ([], AVar p n)
  | LInt p z => ([], AInt p z)
  | LFloat p f => ([], AFloat p f)
  | LString p s => ([], AString p s)
  | LBool p b => ([], ABool p b)
  | LNull p => ([], ANull p)
  | LEnum p s => ([], AEnum p s)
  | LList p items => let '(es, vs) := arg_items arg_value items in (es, AList p vs)
  | LObject p fields => let '(es, m) := arg_fields arg_value fields [] in (es, AMap p m)
  end.

(** * The visitor's members *)
(** Validation.h:21-26 [ValidateArgument]. *)
Record vargument : Type := mkVArg { va_default : bool; va_nonnull_default : bool; va_type : option tref }.
(** Validation.h:30-34 [ValidateTypeField]. *)
Record vtype_field : Type := mkVTF { tf_type : tref; tf_args : list (string * vargument) }.
(** Validation.h:127-138 [ValidateField]. *)
Record vfield : Type := mkVField {
  vf_type : option tref; vf_object : option tref; vf_name : string; vf_args : list (string * aval) }.

(** Validation.h:232-258, the members that change. [_errors] is kept as the output of each step: getStructuredErrors
    moves it out after every visit. A member whose AST nodes or text belong to an earlier document is treated as if
    that document were still alive. *)
Record vstate : Type := mkSt {
  fragmentDefinitions : list (string * fragment_def);
  operationDefinitions : list (string * operation_def);
  referencedFragments : list string;
  fragmentCycles : list string;
  operationVariables : option (list (string * vargument));
  variableDefinitions : list (string * variable_def);
  referencedVariables : list string;
  fragmentStack : list string;
  fieldCount : nat;
  typeFields : list (string * list (string * vtype_field));
  inputTypeFields : list (string * list (string * vargument));
  scopedType : option tref;
  selectionFields : list (string * vfield) }.

Definition initial : vstate := mkSt [] [] [] [] None [] [] [] 0 [] [] None [].

Definition M (A : Type) : Type := vstate -> list schema_error * A * vstate.
Definition ret {A} (a : A) : M A := fun st => ([], a, st).
Definition mbind {A B} (m : M A) (k : A -> M B) : M B :=
  fun st => let '(e1, a, st1) := m st in let '(e2, b, st2) := k a st1 in (e1 ++ e2, b, st2).
Definition emit (msg : string) (loc : schema_location) : M unit := fun st => ([err msg loc], tt, st).
Definition emits (es : list schema_error) : M unit := fun st => (es, tt, st).
Definition get : M vstate := fun st => ([], st, st).
Definition modify (f : vstate -> vstate) : M unit := fun st => ([], tt, f st).
Declare Scope m_scope.
Notation "x <~ m ;; k" := (mbind m (fun x => k)) (at level 61, m at next level, right associativity) : m_scope.
Notation "m ;;; k" := (mbind m (fun _ => k)) (at level 61, right associativity) : m_scope.
Local Open Scope m_scope.

(* assignments to one member *)
Definition set_frags x st := mkSt x (operationDefinitions st) (referencedFragments st) (fragmentCycles st) (operationVariables st)
  (variableDefinitions st) (referencedVariables st) (fragmentStack st) (fieldCount st) (typeFields st) (inputTypeFields st) (scopedType st) (selectionFields st).
Definition set_ops x st := mkSt (fragmentDefinitions st) x (referencedFragments st) (fragmentCycles st) (operationVariables st)
  (variableDefinitions st) (referencedVariables st) (fragmentStack st) (fieldCount st) (typeFields st) (inputTypeFields st) (scopedType st) (selectionFields st).
Definition set_ref_frags x st := mkSt (fragmentDefinitions st) (operationDefinitions st) x (fragmentCycles st) (operationVariables st)
  (variableDefinitions st) (referencedVariables st) (fragmentStack st) (fieldCount st) (typeFields st) (inputTypeFields st) (scopedType st) (selectionFields st).
Definition set_cycles x st := mkSt (fragmentDefinitions st) (operationDefinitions st) (referencedFragments st) x (operationVariables st)
  (variableDefinitions st) (referencedVariables st) (fragmentStack st) (fieldCount st) (typeFields st) (inputTypeFields st) (scopedType st) (selectionFields st).
Definition set_op_vars x st := mkSt (fragmentDefinitions st) (operationDefinitions st) (referencedFragments st) (fragmentCycles st) x
  (variableDefinitions st) (referencedVariables st) (fragmentStack st) (fieldCount st) (typeFields st) (inputTypeFields st) (scopedType st) (selectionFields st).
Definition set_var_defs x st := mkSt (fragmentDefinitions st) (operationDefinitions st) (referencedFragments st) (fragmentCycles st) (operationVariables st)
  x (referencedVariables st) (fragmentStack st) (fieldCount st) (typeFields st) (inputTypeFields st) (scopedType st) (selectionFields st).
Definition set_ref_vars x st := mkSt (fragmentDefinitions st) (operationDefinitions st) (referencedFragments st) (fragmentCycles st) (operationVariables st)
  (variableDefinitions st) x (fragmentStack st) (fieldCount st) (typeFields st) (inputTypeFields st) (scopedType st) (selectionFields st).
Definition set_stack x st := mkSt (fragmentDefinitions st) (operationDefinitions st) (referencedFragments st) (fragmentCycles st) (operationVariables st)
  (variableDefinitions st) (referencedVariables st) x (fieldCount st) (typeFields st) (inputTypeFields st) (scopedType st) (selectionFields st).
Definition set_count x st := mkSt (fragmentDefinitions st) (operationDefinitions st) (referencedFragments st) (fragmentCycles st) (operationVariables st)
  (variableDefinitions st) (referencedVariables st) (fragmentStack st) x (typeFields st) (inputTypeFields st) (scopedType st) (selectionFields st).
Definition set_type_fields x st := mkSt (fragmentDefinitions st) (operationDefinitions st) (referencedFragments st) (fragmentCycles st) (operationVariables st)
  (variableDefinitions st) (referencedVariables st) (fragmentStack st) (fieldCount st) x (inputTypeFields st) (scopedType st) (selectionFields st).
Definition set_input_fields x st := mkSt (fragmentDefinitions st) (operationDefinitions st) (referencedFragments st) (fragmentCycles st) (operationVariables st)
  (variableDefinitions st) (referencedVariables st) (fragmentStack st) (fieldCount st) (typeFields st) x (scopedType st) (selectionFields st).
Definition set_scoped x st := mkSt (fragmentDefinitions st) (operationDefinitions st) (referencedFragments st) (fragmentCycles st) (operationVariables st)
  (variableDefinitions st) (referencedVariables st) (fragmentStack st) (fieldCount st) (typeFields st) (inputTypeFields st) x (selectionFields st).
Definition set_sel_fields x st := mkSt (fragmentDefinitions st) (operationDefinitions st) (referencedFragments st) (fragmentCycles st) (operationVariables st)
  (variableDefinitions st) (referencedVariables st) (fragmentStack st) (fieldCount st) (typeFields st) (inputTypeFields st) (scopedType st) x.

Section Visitor.
  Variable S : schema.

  (** Validation.cpp:865-877 [isScalarType]. *)
  Definition is_scalar_kind (k : type_kind) : bool :=
    match k with OBJECT | INTERFACE | UNION => false | _ => true end.

  (** Validation.cpp:389-424, the constructor's [_matchingTypes]: an object matches itself, an interface or a union its
      (live) possible types. *)
  Definition matching_types (name : string) : option (list string) :=
    match find_type S name with
    | Some d =>
        if is_scalar_kind (td_kind d) then None
        else Some (if kind_eqb (td_kind d) OBJECT then [name]
                   else filter (fun n => match find_type S n with Some _ => true | None => false end) (td_possible d))
    | None => None
    end.
  (** Validation.cpp:425-442 [_enumValues]. *)
  Definition enum_values (name : string) : option (list string) :=
    match find_type S name with
    | Some d => if kind_eqb (td_kind d) ENUM then Some (map ev_name (td_enums d)) else None
    | None => None
    end.
  (** Validation.cpp:443-446 [_scalarTypes]. *)
  Definition is_scalar_type (name : string) : bool :=
    match find_type S name with Some d => kind_eqb (td_kind d) SCALAR | None => false end.
  (** Validation.cpp:361-383 [_operationTypes]. *)
  Definition operation_type (op : string) : option string :=
    if String.eqb op "query" then Some (s_query S)
    else if String.eqb op "mutation" then s_mutation S
    else if String.eqb op "subscription" then s_subscription S
    else None.

  (** Validation.cpp:840-863 [getArguments]: a later argument of the same name replaces an earlier one. *)
  Definition make_argument (a : input_value) : vargument :=
    let has := negb (String.eqb (iv_default a) "") in
    mkVArg has (has && negb (String.eqb (iv_default a) "null")) (live S (iv_type a)).
  Definition get_arguments (args : list input_value) : list (string * vargument) :=
    fold_left (fun m a => m_set (iv_name a) (make_argument a) m) args [].

  (** Validation.cpp:451-470 [_directives]: a later directive of the same name replaces an earlier one. *)
  Definition directive_map : list (string * (list directive_location * list (string * vargument))) :=
    fold_left (fun m d => m_set (dd_name d) (dd_locs d, get_arguments (dd_args d)) m) (s_directives S) [].

  (** Validation.cpp:879-901 [matchesScopedType]. *)
  Definition matches_type (scoped name : string) : bool :=
    if String.eqb name scoped then true
    else match matching_types scoped, matching_types name with
         | Some a, Some b => existsb (fun x => mem x b) a
         | _, _ => false
         end.

  (** Validation.cpp:1401-1457 [getScopedTypeFields], the fields computed for a type that is not in the cache.
      Simplification: String, and for introspection __Schema and __Type, are registered (LookupType would throw); the
      generated AddTypesToSchema always registers them. *)
  Definition scoped_fields (t : tref) : list (string * vtype_field) :=
    let fields := match find_type S (type_name t) with Some d => td_fields d | None => [] end in
    let m0 := fold_left (fun m f =>
                match live S (fd_type f) with
                | Some ty => if String.eqb (fd_name f) "" then m
                             else m_set (fd_name f) (mkVTF ty (get_arguments (fd_args f))) m
                | None => m
                end) fields [] in
    let m1 := if s_introspection S && tref_eqb t (TNamed (s_query S))
              then m_set "__type" (mkVTF (TNamed "__Type") [("name", mkVArg false false (Some (TNonNull (TNamed "String"))))])
                     (m_set "__schema" (mkVTF (TNonNull (TNamed "__Schema")) []) m0)
              else m0 in
    m_set "__typename" (mkVTF (TNonNull (TNamed "String")) []) m1.

  (** Validation.cpp:1395-1460 [getScopedTypeFields]: the entry of the cache for the scoped type, adding it. *)
  Definition get_scoped_type_fields : M (option (list (string * vtype_field))) :=
    fun st =>
      match scopedType st with
      | None => ([], None, st)      (* unreachable: dereferences an empty optional *)
      | Some t =>
          match assoc (type_name t) (typeFields st) with
          | Some fs => ([], Some fs, st)
          | None =>
              if is_scalar_kind (kind_of S t) then ([], None, st)
              else let fs := scoped_fields t in
                   ([], Some fs, set_type_fields (m_set (type_name t) fs (typeFields st)) st)
          end
      end.

  (** Validation.cpp:1462-1481 [getInputTypeFields]. *)
  Definition get_input_type_fields (name : string) : M (option (list (string * vargument))) :=
    fun st =>
      match assoc name (inputTypeFields st) with
      | Some fs => ([], Some fs, st)
      | None =>
          match find_type S name with
          | Some d =>
              if kind_eqb (td_kind d) INPUT_OBJECT
              then let fs := get_arguments (td_inputs d) in
                   ([], Some fs, set_input_fields (m_set name fs (inputTypeFields st)) st)
              else ([], None, st)
          | None => ([], None, st)
          end
      end.

  (** Validation.cpp:1483-1503 [getFieldType]: unwraps down to the named type. *)
  Fixpoint inner_type (t : tref) : option tref :=
    match t with
    | TNamed _ => live S t
    | TListOf t' | TNonNull t' => inner_type t'
    end.

  (** Validation.cpp:289-353 [ValidateVariableTypeVisitor]: (isInputType, type). *)
  Fixpoint is_input_type (t : tref) : bool :=
    match t with
    | TNamed n => match find_type S n with
                  | Some d => match td_kind d with SCALAR | ENUM | INPUT_OBJECT => true | _ => false end
                  | None => false
                  end
    | TListOf t' | TNonNull t' => is_input_type t'
    end.

  (** Validation.cpp:1236-1393 [validateVariableType]. The types are live; a wrapped dangling type is null. *)
  Fixpoint validate_variable_type (input : tref) : bool -> tref -> schema_location -> list schema_error * bool :=
    fix strip (nonnull : bool) (var : tref) (pos : schema_location) {struct var} : list schema_error * bool :=
      match var with
      | TNonNull var' =>
          match live S var' with
          | None => ([err "Unknown Non-Null variable type" pos], false)
          | Some _ => strip true var' pos
          end
      | _ =>
          match input with
          | TNonNull input' =>
              if negb nonnull then ([err "Expected Non-Null variable type" pos], false)
              else match live S input' with
                   | None => ([err "Unknown Non-Null input type" pos], false)
                   | Some _ => validate_variable_type input' false var pos
                   end
          | TListOf input' =>
              match var with
              | TListOf var' =>
                  match live S var' with
                  | None => ([err "Unknown List variable type" pos], false)
                  | Some _ =>
                      match live S input' with
                      | None => ([err "Unknown List input type" pos], false)
                      | Some _ => validate_variable_type input' false var' pos
                      end
                  end
              | _ => ([err "Expected List variable type" pos], false)
              end
          | TNamed input_name =>
              let same := kind_eqb (kind_of S var) (kind_of S input) in
              let names :=
                if String.eqb (type_name var) "" then ([err "Unknown variable type" pos], false)
                else if String.eqb input_name "" then ([err "Unknown input type" pos], false)
                else if String.eqb (type_name var) input_name then ([], true)
                else ([err ("Incompatible variable type: " ++ type_name var ++ " name: " ++ input_name) pos], false) in
              match kind_of S input with
              | INPUT_OBJECT => if same then names else ([err "Expected Input Object variable type" pos], false)
              | ENUM => if same then names else ([err "Expected Enum variable type" pos], false)
              | SCALAR => if same then names else ([err "Expected Scalar variable type" pos], false)
              | _ => ([err "Unexpected input type" pos], false)
              end
          end
      end.

  Definition fail (msg : string) (loc : schema_location) : M bool := emit msg loc ;;; ret false.

  (** Validation.cpp:1077-1112: every field that is required must have been given. *)
  Fixpoint required_fields (name : string) (pos : schema_location) (subs : list string) (fields : list (string * vargument)) : M bool :=
    match fields with
    | [] => ret true
    | (k, a) :: r =>
        if va_default a || mem k subs then required_fields name pos subs r
        else match va_type a with
             | None => fail ("Unknown Input Object field type: " ++ name ++ " name: " ++ k) pos
             | Some (TNonNull _) => fail ("Missing Input Object field type: " ++ name ++ " name: " ++ k) pos
             | Some _ => required_fields name pos subs r
             end
    end.

  (** Validation.cpp:1151-1226: the SCALAR case of validateInputValue. *)
  Definition validate_scalar (name : string) (v : aval) : M bool :=
    let defined := if is_scalar_type name then ret true else fail ("Undefined Scalar type name: " ++ name) (a_pos v) in
    if String.eqb name "" then fail "Unknown Scalar value" (a_pos v)
    else if String.eqb name "Int" then match v with AInt _ _ => defined | _ => fail "Expected Int value" (a_pos v) end
    else if String.eqb name "Float" then
      match v with AFloat _ _ | AInt _ _ => defined | _ => fail "Expected Float value" (a_pos v) end
    else if String.eqb name "String" then match v with AString _ _ => defined | _ => fail "Expected String value" (a_pos v) end
    else if String.eqb name "ID" then
      match v with
      | AString _ s => if is_ok (fromBase64 s) then ret true else fail "Expected ID value" (a_pos v)
      | _ => fail "Expected ID value" (a_pos v)
      end
    else if String.eqb name "Boolean" then match v with ABool _ _ => defined | _ => fail "Expected Boolean value" (a_pos v) end
    else defined.

  (** Validation.cpp:1114-1149: the ENUM case. *)
  Definition validate_enum (name : string) (v : aval) : M bool :=
    if String.eqb name "" then fail "Unknown Enum value" (a_pos v)
    else match v with
         | AEnum _ x =>
             if match enum_values name with Some vs => mem x vs | None => false end then ret true
             else fail ("Undefined Enum value type: " ++ name ++ " name: " ++ x) (a_pos v)
         | _ => fail ("Expected Enum value name: " ++ name) (a_pos v)
         end.

  (** Validation.cpp:912-946: a variable. *)
  Definition validate_variable (has_default : bool) (pos : schema_location) (name : string) (t : tref) : M bool :=
    st <~ get ;;
    match operationVariables st with
    | Some vars =>
        match assoc name vars with
        | None => fail ("Undefined variable name: " ++ name) pos
        | Some v =>
            modify (fun st => set_ref_vars (s_add name (referencedVariables st)) st) ;;;
            match va_type v with
            | None => fail "Unknown variable type" pos
            | Some vt =>
                let '(es, b) := validate_variable_type t (has_default || va_nonnull_default v) vt pos in
                emits es ;;; ret b
            end
        end
    | None => ret true
    end.

  (** Validation.cpp:994-1005 and 1039-1075, the loops over the elements of a list and the entries of an input object;
      [vi] is validateInputValue. After the recursive call the fields are looked up again. *)
  Section InputLoops.
    Variable vi : aval -> bool -> option tref -> M bool.
    Variable t : tref.
    Fixpoint validate_items (items : list aval) : M bool :=
      match items with
      | [] => ret true
      | x :: r => b <~ vi x false (Some t) ;; if b then validate_items r else ret false
      end.
    Variable name : string.
    Variable pos : schema_location.
    Fixpoint validate_entries (values : list (string * aval)) (fields : list (string * vargument)) (subs : list string) : M bool :=
      match values with
      | [] => required_fields name pos subs fields
      | (k, x) :: r =>
          match assoc k fields with
          | None => fail ("Undefined Input Object field type: " ++ name ++ " name: " ++ k) (a_pos x)
          | Some f =>
              if negb (is_null x) || negb (va_default f)
              then b <~ vi x (va_nonnull_default f) (va_type f) ;;
                   if b
                   then again <~ get_input_type_fields name ;;
                        validate_entries r (match again with Some fs => fs | None => fields end) (s_add k subs)
                   else ret false
              else validate_entries r fields (s_add k subs)
          end
      end.
  End InputLoops.

  (** Validation.cpp:964-976: the NON_NULL case; [base] is the rest of the switch. *)
  Section Unwrap.
    Variable pos : schema_location.
    Variable base : tref -> M bool.
    Fixpoint unwrap_nonnull (t : tref) : M bool :=
      match t with
      | TNonNull t' =>
          match live S t' with
          | None => fail "Unknown Non-Null type" pos
          | Some _ => unwrap_nonnull t'
          end
      | _ => base t
      end.
  End Unwrap.

  (** Validation.cpp:903-1234 [validateInputValue]. *)
  Fixpoint validate_input (v : aval) : bool -> option tref -> M bool :=
    fun has_default ot =>
      match ot with
      | None => fail "Unknown input type" (a_pos v)
      | Some t0 =>
          match v with
          | AVar pos name => validate_variable has_default pos name t0
          | ANull pos =>
              match t0 with
              | TNonNull _ => if has_default then ret true else fail "Expected Non-Null value" pos
              | _ => ret true
              end
          | _ =>
              unwrap_nonnull (a_pos v) (fun t =>
                match t with
                | TNonNull _ => ret true      (* unreachable *)
                | TListOf t' =>
                    match v with
                    | AList pos items =>
                        match live S t' with
                        | None => fail "Unknown List type" pos
                        | Some _ => validate_items validate_input t' items
                        end
                    | _ => fail "Expected List value" (a_pos v)
                    end
                | TNamed name =>
                    match kind_of S t with
                    | INPUT_OBJECT =>
                        if String.eqb name "" then fail "Unknown Input Object type" (a_pos v)
                        else match v with
                             | AMap pos values =>
                                 found <~ get_input_type_fields name ;;
                                 match found with
                                 | None => fail ("Expected Input Object fields name: " ++ name) pos
                                 | Some fields => validate_entries validate_input name pos values fields []
                                 end
                             | _ => fail ("Expected Input Object value name: " ++ name) (a_pos v)
                             end
                    | ENUM => validate_enum name v
                    | SCALAR => validate_scalar name v
                    | _ => fail "Unexpected value type" (a_pos v)
                    end
                end) t0
          end
      end.

  Section Iter.
    Context {A : Type} (f : A -> M unit).
    Fixpoint iter (l : list A) : M unit :=
      match l with [] => ret tt | x :: r => f x ;;; iter r end.
  End Iter.

  (** Validation.cpp:1620-1651 and 2019-2042: the values and the locations of the arguments of a field or directive, by
      name, with the names in document order; [what] is the prefix of the conflict message. *)
  Fixpoint collect_args (what : string) (args : list argument) (m : list (string * aval)) (locs : list (string * schema_location))
      (names : list string) : list schema_error * (list (string * aval) * list (string * schema_location) * list string) :=
    match args with
    | [] => ([], (m, locs, names))
    | a :: r =>
        match assoc (a_name a) m with
        | Some _ =>
            let '(es, x) := collect_args what r m locs names in
            (err ("Conflicting argument " ++ what ++ " name: " ++ a_name a) (a_loc a) :: es, x)
        | None =>
            let '(e1, v) := arg_value (a_value a) in
            let '(es, x) := collect_args what r (m_set (a_name a) v m) (m_set (a_name a) (a_loc a) locs) (names ++ [a_name a]) in
            (e1 ++ es, x)
        end
    end.

  Definition loc_of (locs : list (string * schema_location)) (name : string) : schema_location :=
    match assoc name locs with Some l => l | None => mkLoc 0 1 end.

  (** Validation.cpp:1681-1746 and 2044-2103: check the given arguments against the defined ones. *)
  Definition check_args (what : string) (pos : schema_location) (defined : list (string * vargument)) (m : list (string * aval))
      (locs : list (string * schema_location)) (names : list string) : M unit :=
    iter (fun name => match assoc name defined with
                      | None => emit ("Undefined argument " ++ what ++ " name: " ++ name) (loc_of locs name)
                      | Some _ => ret tt
                      end) names ;;;
    iter (fun d : string * vargument =>
            let '(name, a) := d in
            let required (missing : bool) : M unit :=
              if va_default a then ret tt
              else match va_type a with
                   | Some (TNonNull _) =>
                       emit ((if missing then "Missing argument " else "Required non-null argument ") ++ what ++ " name: " ++ name) pos
                   | _ => ret tt
                   end in
            match assoc name m with
            | Some v =>
                if is_null v then required false
                else b <~ validate_input v (va_nonnull_default a) (va_type a) ;;
                     if b then ret tt
                     else emit ("Incompatible argument " ++ what ++ " name: " ++ name) (loc_of locs name)
            | None => required true
            end) defined.

  (** The names of the executable locations, Validation.cpp:1975-2007. *)
  Definition location_name (l : directive_location) : string :=
    match l with
    | QUERY => " name: QUERY" | MUTATION => " name: MUTATION" | SUBSCRIPTION => " name: SUBSCRIPTION" | FIELD => " name: FIELD"
    | FRAGMENT_DEFINITION => " name: FRAGMENT_DEFINITION" | FRAGMENT_SPREAD => " name: FRAGMENT_SPREAD"
    | INLINE_FRAGMENT => " name: INLINE_FRAGMENT" | _ => ""
    end.

  (** Validation.cpp:1927-2106 [visitDirectives]. The arguments are looked at only if the directive has an [arguments]
      child, i.e. a non-empty list. *)
  Fixpoint visit_directives (loc : directive_location) (seen : list string) (ds : list directive) : M unit :=
    match ds with
    | [] => ret tt
    | d :: r =>
        let name := d_name d in
        if mem name seen then emit ("Conflicting directive name: " ++ name) (d_loc d) ;;; visit_directives loc seen r
        else
          match assoc name directive_map with
          | None => emit ("Undefined directive name: " ++ name) (d_loc d)
          | Some (locs, defined) =>
              if negb (existsb (dloc_eqb loc) locs)
              then emit ("Unexpected location for directive: " ++ name ++ location_name loc) (d_loc d)
              else match d_args d with
                   | [] => ret tt
                   | args =>
                       let what := ("directive: " ++ name)%string in
                       let '(es, (m, alocs, names)) := collect_args what args [] [] [] in
                       emits es ;;; check_args what (d_loc d) defined m alocs names
                   end
          end ;;; visit_directives loc (s_add name seen) r
    end.

  Definition opt_tref_eqb (a b : option tref) : bool :=
    match a, b with Some x, Some y => tref_eqb x y | None, None => true | _, _ => false end.
  (** Validation.cpp:275-280 [ValidateField::operator==]. *)
  Definition vfield_eqb (a b : vfield) : bool :=
    opt_tref_eqb (vf_type a) (vf_type b)
    && (match vf_object a, vf_object b with Some x, Some y => negb (tref_eqb x y) | _, _ => false end
        || (String.eqb (vf_name a) (vf_name b) && args_eqb (vf_args a) (vf_args b))).

  (** Validation.cpp:1531-1790 [visitField]; [visit_sub] visits the selections of the sub-selection. *)
  Definition visit_field (loc : schema_location) (alias : option string) (name : string) (args : list argument)
      (dirs : list directive) (visit_sub : option (M unit)) : M unit :=
    visit_directives FIELD [] dirs ;;;
    st0 <~ get ;;
    let scoped := match scopedType st0 with Some t => t | None => TNamed "" end in
    found <~ get_scoped_type_fields ;;
    match found with
    | None => emit ("Field on scalar type: " ++ type_name scoped ++ " name: " ++ name) loc
    | Some fields =>
        let field := assoc name fields in
        let is_union := kind_eqb (kind_of S scoped) UNION in
        if is_union && negb (String.eqb name "__typename")
        then emit ("Field on union type: " ++ type_name scoped ++ " name: " ++ name) loc
        else
          let types := if is_union then Some (TNamed "String", TNonNull (TNamed "String"))
                       else match field with
                            | Some f => match inner_type (tf_type f) with Some i => Some (i, tf_type f) | None => None end
                            | None => None
                            end in
          match types with
          | None => emit ("Undefined field type: " ++ type_name scoped ++ " name: " ++ name) loc
          | Some (inner, wrapped) =>
              let key := match alias with Some (String _ _ as a) => a | _ => name end in
              let what := ("type: " ++ type_name scoped ++ " field: " ++ name)%string in
              let '(es, (m, alocs, names)) := collect_args what args [] [] [] in
              emits es ;;;
              let object := if kind_eqb (kind_of S scoped) OBJECT then Some scoped else None in
              let vf := mkVField (Some wrapped) object name m in
              st1 <~ get ;;
              let previous := assoc key (selectionFields st1) in
              if match previous with Some p => vfield_eqb p vf | None => false end then ret tt
              else
                match previous with
                | Some _ => emit ("Conflicting field type: " ++ type_name scoped ++ " name: " ++ name) loc
                | None => ret tt
                end ;;;
                match field with
                | Some f => check_args what loc (tf_args f) m alocs names
                | None => ret tt
                end ;;;
                modify (fun st => set_sel_fields (fst (m_emplace key vf (selectionFields st))) st) ;;;
                count <~ match visit_sub with
                         | Some sub =>
                             outer <~ get ;;
                             modify (fun st => set_scoped (Some inner) (set_sel_fields [] (set_count 0 st))) ;;;
                             sub ;;;
                             st2 <~ get ;;
                             modify (fun st => set_count (fieldCount outer) (set_sel_fields (selectionFields outer)
                                                 (set_scoped (scopedType outer) st))) ;;;
                             ret (fieldCount st2)
                         | None => ret 0
                         end ;;
                if Nat.eqb count 0 && negb (is_scalar_kind (kind_of S inner))
                then emit ("Missing fields on non-scalar type: " ++ type_name inner) loc
                else modify (fun st => set_count (fieldCount st + 1) st)
          end
    end.

  (** Validation.cpp:1792-1857 [visitFragmentSpread]; [visit_body] visits the selections of a fragment's body. *)
  Definition visit_spread (loc : schema_location) (name : string) (dirs : list directive) (visit_body : list selection -> M unit) : M unit :=
    visit_directives FRAGMENT_SPREAD [] dirs ;;;
    st <~ get ;;
    match assoc name (fragmentDefinitions st) with
    | None => emit ("Undefined fragment spread name: " ++ name) loc
    | Some f =>
        if mem name (fragmentStack st) then
          if mem name (fragmentCycles st) then ret tt
          else modify (fun st => set_cycles (s_add name (fragmentCycles st)) st) ;;;
               emit ("Cyclic fragment spread name: " ++ name) loc
        else
          let scoped := match scopedType st with Some t => t | None => TNamed "" end in
          if match find_type S (f_cond f) with Some _ => negb (matches_type (type_name scoped) (f_cond f)) | None => true end
          then emit ("Incompatible fragment spread target type: " ++ f_cond f ++ " name: " ++ name) loc
          else
            modify (fun st => set_scoped (Some (TNamed (f_cond f))) (set_stack (s_add name (fragmentStack st)) st)) ;;;
            visit_body (f_sel f) ;;;
            modify (fun st' => set_ref_frags (s_add name (referencedFragments st'))
                                 (set_stack (s_erase name (fragmentStack st')) (set_scoped (scopedType st) st')))
    end.

  (** Validation.cpp:1859-1925 [visitInlineFragment]. *)
  Definition visit_inline (cond : option (schema_location * string)) (dirs : list directive) (visit_body : M unit) : M unit :=
    visit_directives INLINE_FRAGMENT [] dirs ;;;
    st <~ get ;;
    let scoped := match scopedType st with Some t => t | None => TNamed "" end in
    let body (t : option tref) : M unit :=
      modify (set_scoped t) ;;; visit_body ;;; modify (set_scoped (scopedType st)) in
    match cond with
    | Some (loc, String c r) =>
        let inner := String c r in
        match find_type S inner with
        | None => emit ("Undefined target type on inline fragment name: " ++ inner) loc
        | Some d =>
            if is_scalar_kind (td_kind d) then emit ("Scalar target type on inline fragment name: " ++ inner) loc
            else if negb (matches_type (type_name scoped) inner) then emit ("Incompatible target type on inline fragment name: " ++ inner) loc
            else body (Some (TNamed inner))
        end
    | _ => body (scopedType st)
    end.

  (** Validation.cpp:821-838 [visitSelection], recursively. [avail] bounds the nesting of fragment spreads: a fragment on
      the stack is not entered again, so the number of fragment definitions is enough ([visit_fuel] in
      ValidationHistory.v: the result is the same for every larger bound). *)
  Fixpoint visit_sel (avail : nat) : selection -> M unit :=
    fix visit (s : selection) : M unit :=
      match s with
      | SField loc alias name args dirs sub =>
          visit_field loc alias name args dirs
            (match sub with
             | Some (_, sels) => Some (iter visit sels)
             | None => None
             end)
      | SSpread loc name dirs =>
          visit_spread loc name dirs
            (fun body => match avail with
                         | O => emit "out of fuel" loc
                         | Datatypes.S a => iter (visit_sel a) body
                         end)
      | SInline _ cond dirs sels =>
          visit_inline cond dirs
            (iter visit sels)
      end.
  Definition visit_sels (avail : nat) (l : list selection) : M unit := iter (visit_sel avail) l.

  (** Validation.cpp:595-631 [visitFragmentDefinition]. *)
  Definition visit_fragment_definition (avail : nat) (f : fragment_def) : M unit :=
    visit_directives FRAGMENT_DEFINITION [] (f_dirs f) ;;;
    match find_type S (f_cond f) with
    | None => emit ("Undefined target type on fragment definition: " ++ f_name f ++ " name: " ++ f_cond f) (f_cond_loc f)
    | Some d =>
        if is_scalar_kind (td_kind d)
        then emit ("Scalar target type on fragment definition: " ++ f_name f ++ " name: " ++ f_cond f) (f_cond_loc f)
        else
          modify (fun st => set_scoped (Some (TNamed (f_cond f))) (set_stack (s_add (f_name f) (fragmentStack st)) st)) ;;;
          visit_sels avail (f_sel f) ;;;
          modify (fun st => set_sel_fields [] (set_stack [] (set_scoped None st)))
    end.

  Definition op_suffix (op_name : string) : string := if String.eqb op_name "" then "" else (" operation: " ++ op_name)%string.

  (** Validation.cpp:651-751, one variable definition; [_operationVariables] was set just before. *)
  Definition visit_variable (op_name : string) (v : variable_def) : M unit :=
    st <~ get ;;
    let vars := match operationVariables st with Some m => m | None => [] end in
    let add (a : vargument) : M unit :=
      modify (fun st => set_op_vars (Some (fst (m_emplace (v_name v) a (match operationVariables st with Some m => m | None => [] end))))
                          (set_var_defs (fst (m_emplace (v_name v) v (variableDefinitions st))) st)) in
    match assoc (v_name v) vars with
    | Some _ => emit ("Conflicting variable" ++ op_suffix op_name ++ " name: " ++ v_name v) (v_loc v)
    | None =>
        if negb (is_input_type (v_type v))
        then emit ("Invalid variable type" ++ op_suffix op_name ++ " name: " ++ v_name v) (v_type_loc v)
        else match v_default v with
             | None => add (mkVArg false false (Some (v_type v)))
             | Some l =>
                 let '(es, a) := arg_value l in
                 emits es ;;;
                 b <~ validate_input a false (Some (v_type v)) ;;
                 if b then add (mkVArg true (negb (is_null a)) (Some (v_type v)))
                 else emit ("Incompatible variable default value" ++ op_suffix op_name ++ " name: " ++ v_name v) (v_default_loc v)
             end
    end.

  Definition op_type_of (o : operation_def) : string := match op_type o with Some t => t | None => "query" end.
  Definition op_name_of (o : operation_def) : string := match op_name o with Some n => n | None => "" end.

  (** Validation.cpp:633-819 [visitOperationDefinition]. *)
  Definition visit_operation_definition (avail : nat) (o : operation_def) : M unit :=
    modify (set_op_vars (Some [])) ;;;
    iter (visit_variable (op_name_of o)) (op_vars o) ;;;
    visit_directives (if String.eqb (op_type_of o) "mutation" then MUTATION
                      else if String.eqb (op_type_of o) "subscription" then SUBSCRIPTION else QUERY) [] (op_dirs o) ;;;
    match operation_type (op_type_of o) with
    | None => emit ("Unsupported operation type: " ++ op_type_of o) (op_loc o)
    | Some t =>
        modify (fun st => set_count 0 (set_scoped (Some (TNamed t)) st)) ;;;
        visit_sels avail (op_sel o) ;;;
        st <~ get ;;
        (if Nat.ltb 1 (fieldCount st) && String.eqb (op_type_of o) "subscription"
         then emit ("Subscription with more than one root field" ++
                    (if String.eqb (op_name_of o) "" then "" else " name: " ++ op_name_of o)) (op_loc o)
         else ret tt) ;;;
        modify (fun st => set_sel_fields [] (set_stack [] (set_scoped None st))) ;;;
        iter (fun d : string * variable_def =>
                if mem (fst d) (referencedVariables st) then ret tt
                else emit ("Unused variable name: " ++ fst d) (v_loc (snd d))) (variableDefinitions st) ;;;
        modify (fun st => set_ref_vars [] (set_var_defs [] (set_op_vars None st)))
    end.

  (** Validation.cpp:473-580 [visit]; [extra] is added to the bound on the nesting of fragments and makes no difference
      ([visit_extra] in ValidationHistory2.v). *)
  Definition visit_document_at (extra : nat) (d : document) : M unit :=
    iter (fun f => st <~ get ;;
                   let '(m, inserted) := m_emplace (f_name f) f (fragmentDefinitions st) in
                   modify (set_frags m) ;;;
                   if inserted then ret tt else emit ("Duplicate fragment name: " ++ f_name f) (f_loc f)) (fragments d) ;;;
    iter (fun o => st <~ get ;;
                   let '(m, inserted) := m_emplace (op_name_of o) o (operationDefinitions st) in
                   modify (set_ops m) ;;;
                   if inserted then ret tt else emit ("Duplicate operation name: " ++ op_name_of o) (op_loc o)) (operations d) ;;;
    st <~ get ;;
    (if Nat.ltb 1 (length (operationDefinitions st))
     then match assoc "" (operationDefinitions st) with
          | Some o => emit "Anonymous operation not alone" (op_loc o)
          | None => ret tt
          end
     else ret tt) ;;;
    iter (fun x => match x with
                   | DFrag f => visit_fragment_definition (extra + length (fragmentDefinitions st)) f
                   | DOp o => visit_operation_definition (extra + length (fragmentDefinitions st)) o
                   | DOther loc => emit "Unexpected type definition" loc
                   end) d ;;;
    st <~ get ;;
    modify (set_frags []) ;;;
    iter (fun e => emit ("Unused fragment definition name: " ++ fst e) (f_loc (snd e)))
         (fold_left (fun m name => m_erase name m) (referencedFragments st) (fragmentDefinitions st)).
  Definition visit_document : document -> M unit := visit_document_at 0.

  (** Validation.cpp:582-593 [getStructuredErrors], the members it resets. *)
  Definition reset (st : vstate) : vstate :=
    set_frags [] (set_ops [] (set_ref_frags [] (set_cycles [] st))).

  (** One document through the visitor and getStructuredErrors: the errors, and the state of the visitor for the next
      document. *)
  Definition validate (d : document) (st : vstate) : list schema_error * vstate :=
    let '(es, _, st') := visit_document d st in (es, reset st').

  (** GraphQLParse.h:29-36 [peg::ast]: the tree, and the flag that it was validated. *)
  Record ast : Type := mkAst { ast_doc : document; ast_validated : bool }.
  (** GraphQLService.cpp:1625-1637 [Request::validate]: the errors, the ast and the state of the visitor afterwards. *)
  Definition request_validate (a : ast) (st : vstate) : list schema_error * ast * vstate :=
    if ast_validated a then ([], a, st)
    else let '(es, st') := validate (ast_doc a) st in
         (es, mkAst (ast_doc a) (match es with [] => true | _ => false end), st').
End Visitor.
