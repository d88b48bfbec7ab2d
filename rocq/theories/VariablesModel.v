(** clientgen: the variables of a request and the C++ types that are generated for them. *)
From Coq Require Import String List Bool NArith.
From Verif Require Import Cpp Value Ast SchemaModel ModifiersModel ValidationModel ErrorModel ValidationSpec LoaderModel ClientModel.
Import ListNotations.
Local Open Scope string_scope.
Local Open Scope list_scope.

Section Variables_.
Variable S : schema.

(** RequestLoader.h:43-52 RequestVariable: the name, the type without modifiers, the modifiers. *)
Record request_variable : Type := mkRV { rv_name : string; rv_type : string; rv_mods : list modifier }.

(** RequestLoader.cpp:740-797 collectVariables, one variable. The function is noexcept: an exception (LookupType of an unknown type, the null
    default of a type that is not nullable) ends the program, UB here. *)
Definition collect_variable (v : variable_def) : result request_variable :=
  match match v_default v with Some l => visit_default l | None => Ok VNull end with
  | Ok d =>
      let '(n, ms) := visit_field_type (v_type v) in
      match find_type S n with
      | None => UB
      | Some _ =>
          if match v_default v with Some _ => true | None => false end && match d with VNull => true | _ => false end && match ms with MNullable :: _ => false | _ => true end
          then UB else Ok (mkRV (v_name v) n ms)
      end
  | _ => UB
  end.
Definition collect_variables (o : operation_def) : result (list request_variable) := mapM collect_variable (op_vars o).

(** _referencedInputTypes and _referencedEnums, by name; the sets _inputTypeNames and _enumNames have the same elements. *)
Record referenced : Type := mkRef { r_inputs : list string; r_enums : list string }.

(** RequestLoader.cpp:913-936 collectEnums; the cases of LIST and NON_NULL go on to the named type at the end. UB: a null pointer. *)
Definition collect_enum (n : string) (c : referenced) : result referenced :=
  match find_type S n with
  | None => UB
  | Some d => Ok match td_kind d with
                 | ENUM => if mem n (r_enums c) then c else mkRef (r_inputs c) (r_enums c ++ [n])
                 | _ => c
                 end
  end.
(** RequestLoader.cpp:799-831 collectInputTypes; likewise from the named type. Each call that goes on adds a type, so that the number of types
    is enough fuel. *)
Fixpoint collect_inputs (fuel : nat) (n : string) (c : referenced) : result referenced :=
  match fuel with
  | O => UB
  | Datatypes.S m =>
      match find_type S n with
      | None => UB
      | Some d =>
          match td_kind d with
          | INPUT_OBJECT =>
              if mem n (r_inputs c) then Ok c
              else (fix each (fs : list input_value) (c : referenced) : result referenced :=
                      match fs with
                      | [] => Ok c
                      | f :: r => c1 <- collect_inputs m (named_type (iv_type f)) c ;;
                                  c2 <- collect_enum (named_type (iv_type f)) c1 ;; each r c2
                      end) (td_inputs d) (mkRef (r_inputs c ++ [n]) (r_enums c))
          | _ => Ok c
          end
      end
  end.
(** RequestLoader.cpp:55-60. *)
Fixpoint collect_types (vs : list request_variable) (c : referenced) : result referenced :=
  match vs with
  | [] => Ok c
  | v :: r => c1 <- collect_inputs (Datatypes.S (length (s_types S))) (rv_type v) c ;; c2 <- collect_enum (rv_type v) c1 ;; collect_types r c2
  end.

(** RequestLoader.cpp:853-868: the dependencies of an input type: the types of the fields whose type itself, not what it wraps, is an input type. *)
Definition dependencies (n : string) : list string :=
  match find_type S n with
  | Some d => flat_map (fun f => match iv_type f with
                                 | TNamed m => match find_type S m with Some e => match td_kind e with INPUT_OBJECT => [m] | _ => [] end | None => [] end
                                 | _ => []
                                 end) (td_inputs d)
  | None => []
  end.
Definition ready (handled : list string) (n : string) : bool := forallb (fun d => mem d handled) (dependencies n).
(** RequestLoader.cpp:871-897: the loop; [rest] is what begins at itr. UB: it goes on for ever. *)
Fixpoint reorder_loop (fuel : nat) (handled done rest : list string) : result (list string * list string) :=
  match rest with
  | [] => Ok (handled, done)
  | _ =>
      match fuel with
      | O => UB
      | Datatypes.S m =>
          let front := filter (ready handled) rest in                             (* std::stable_partition *)
          let later := filter (fun t => negb (ready handled t)) rest in
          reorder_loop m (match later with [] => handled | _ => handled ++ front end) (done ++ front) later
      end
  end.
(** RequestLoader.cpp:833-911 reorderInputTypeDependencies. *)
Definition reorder_types (ts : list string) : result (list string) :=
  match ts with
  | [] => Ok []
  | _ => '(handled, done) <- reorder_loop (length ts) [] [] ts ;; Ok match handled with [] => ts | _ => done end
  end.

(** RequestLoader.cpp:53-63: the input types in the order in which ClientGenerator.cpp:250-278 declares them inside struct Variables, and the
    enums of the variables, which come first in _referencedEnums (those of the response come after them). *)
Definition variable_types (o : operation_def) : result (list request_variable * list string * list string) :=
  vs <- collect_variables o ;;
  c <- collect_types vs (mkRef [] []) ;;
  ts <- reorder_types (r_inputs c) ;;
  Ok (vs, ts, r_enums c).

(** ** The generated code *)

(** ClientGenerator.cpp:254-271: the struct of an input type, its members with the modifiers of RequestLoader.cpp:223-263 unwrapSchemaType; enums are
    as in ClientModel.leaf_scalar. Input types do not contain themselves (C34): the depth of nesting is less than the number of types. *)
Fixpoint input_struct (fuel : nat) (n : string) : option itype :=
  match fuel with
  | O => None
  | Datatypes.S m =>
      match find_type S n with
      | None => None
      | Some d =>
          match td_kind d with
          | INPUT_OBJECT =>
              option_map IStruct
                ((fix each (fs : list input_value) : option (list field) :=
                    match fs with
                    | [] => Some []
                    | f :: r => match input_struct m (snd (unwrap false (iv_type f))), each r with
                                | Some t, Some l => Some ((iv_name f, (fst (unwrap false (iv_type f)), (t, None))) :: l)
                                | _, _ => None
                                end
                    end) (td_inputs d))
          | _ => Some (ILeaf (leaf_scalar n d))
          end
      end
  end.
(** ClientGenerator.cpp:281-286: the members of struct Variables have the C++ type of the variable's type, without modifiers; the value is then
    passed to the serialize function for the modifiers (617-629), whose parameter is a std::optional for Nullable: the conversion is implicit. There is
    none to a std::vector: None, the code is not compiled. *)
Definition member_value (ms : list modifier) (x : cppval) : option cppval :=
  match ms with
  | [] => Some x
  | [MNullable] => Some (XOpt (Some x))
  | _ => None
  end.
(** ClientGenerator.cpp:606-633 serializeVariables. It has the form of the serialize function of an input type (539-557). *)
Definition variable_fields (fuel : nat) (vs : list request_variable) : option (list field) :=
  (fix each (vs : list request_variable) : option (list field) :=
     match vs with
     | [] => Some []
     | v :: r => match input_struct fuel (rv_type v), each r with
                 | Some t, Some l => Some ((rv_name v, (rv_mods v, (t, None))) :: l)
                 | _, _ => None
                 end
     end) vs.
Definition serialize_variables (fields : list field) (xs : list cppval) : result value := serialize_input (IStruct fields) (XStruct xs).
(** The whole: the members of struct Variables to the message. UB: the code is not generated or not compiled. *)
Fixpoint member_values (fields : list field) (xs : list cppval) : option (list cppval) :=
  match fields, xs with
  | [], [] => Some []
  | (_, (ms, _)) :: fs, x :: r => match member_value ms x, member_values fs r with Some y, Some ys => Some (y :: ys) | _, _ => None end
  | _, _ => None
  end.
Definition client_message (o : operation_def) (xs : list cppval) : result value :=
  vs <- collect_variables o ;;
  match variable_fields (Datatypes.S (length (s_types S))) vs with
  | Some fields => match member_values fields xs with Some ys => serialize_variables fields ys | None => UB end
  | None => UB
  end.
(** ClientGenerator.cpp:617-623: the names of types that serializeVariables uses; ClientGenerator.cpp:254-256: those that struct Variables declares. *)
Definition used_names (l : loader) (vs : list request_variable) : list string := map (fun v => get_cpp_type l (rv_type v)) vs.
(** ClientGenerator.cpp:543-557: the names, outside of struct Variables, that the serialize function of an input type uses for its fields; 486-523: those
    of the enums and of the scalars (C++ types of namespace response), which are declared there. *)
Definition field_names (l : loader) (ts : list string) : list string :=
  flat_map (fun t => match find_type S t with Some d => map (fun f => get_cpp_type l (named_type (iv_type f))) (td_inputs d) | None => [] end) ts.
Definition declared_names (l : loader) (ts : list string) : list string := map (get_cpp_type l) ts.
End Variables_.
