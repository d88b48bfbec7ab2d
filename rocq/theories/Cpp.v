(** Shared vocabulary for modelling C++ control flow. *)
From Coq Require Export String Ascii ZArith NArith Bool Lia List.
Export ListNotations.
Open Scope list_scope.

(** [service::path_segment] and [service::schema_error]
    (include/graphqlservice/GraphQLService.h:62 and 74-79): a path segment is either a field
    name or a list index; a schema error has a message, a location (line and column, line 0
    and column 1 when unset, GraphQLService.h:53-57) and a path ([error_path], line 70). *)
Inductive path_segment : Type :=
| PName (name : string)
| PIndex (index : N).

Record schema_location : Type := mkLoc { line : N; column : N }.
Record schema_error : Type := mkErr { message : string; location : schema_location; path : list path_segment }.

(** C++ exceptions that the modelled code raises or catches.  [Exn cls what] is an
    exception of a standard class derived from std::exception; [SchemaEx errs] is
    service::schema_exception (also derived from std::exception). *)
Inductive exn_class : Type :=
| logic_error | runtime_error | out_of_range | overflow_error | invalid_argument
| bad_variant_access | bad_function_call | future_error | other_error.

Inductive exn : Type :=
| Exn (cls : exn_class) (what : string)
| SchemaEx (errors : list schema_error).

(** Outcome of a C++ computation: a value, a thrown exception, or undefined behaviour. *)
Inductive result (A : Type) : Type :=
| Ok (a : A)
| Throw (e : exn)
| UB.
Arguments Ok {A} a.
Arguments Throw {A} e.
Arguments UB {A}.

Definition bind {A B} (x : result A) (f : A -> result B) : result B :=
  match x with Ok a => f a | Throw e => Throw e | UB => UB end.
Definition rmap {A B} (f : A -> B) (x : result A) : result B := bind x (fun a => Ok (f a)).
Notation "x <- e1 ;; e2" := (bind e1 (fun x => e2)) (at level 61, e1 at next level, right associativity).
Notation "' p <- e1 ;; e2" := (bind e1 (fun p => e2)) (at level 61, p pattern, e1 at next level, right associativity).

Definition is_ok {A} (r : result A) : bool := match r with Ok _ => true | _ => false end.

Section MapM.
  Context {A B : Type} (f : A -> result B).
  Fixpoint mapM (l : list A) : result (list B) :=
    match l with
    | [] => Ok []
    | x :: xs => y <- f x ;; ys <- mapM xs ;; Ok (y :: ys)
    end.
End MapM.
