(** Error values: building them in the service, parsing them in the client. *)
From Verif Require Import Cpp Value.
Local Open Scope string_scope.
Local Open Scope list_scope.

(** [static_cast<response::IntType>] of a size_t: reduction modulo 2^32 into the 32 bit range. *)
Definition to_int32 (n : N) : Z :=
  let m := (Z.of_N n mod 4294967296)%Z in
  if Z.leb m int_max then m else (m - 4294967296)%Z.

(** GraphQLService.cpp:16-19 [addErrorMessage]. *)
Definition add_error_message (msg : string) (entry : list (string * value)) : list (string * value) :=
  fst (map_emplace entry "message" (VString msg false)).

(** GraphQLService.cpp:21-42 [addErrorLocation]. *)
Definition add_error_location (loc : schema_location) (entry : list (string * value)) : list (string * value) :=
  if N.eqb (line loc) 0 then entry
  else
    let m0 := fst (map_emplace [] "line" (VInt (to_int32 (line loc)))) in
    let m1 := fst (map_emplace m0 "column" (VInt (to_int32 (column loc)))) in
    fst (map_emplace entry "locations" (VList [VMap m1])).

(** GraphQLService.cpp:44-69 [addErrorPath]. *)
Definition add_error_path (p : list path_segment) (entry : list (string * value)) : list (string * value) :=
  match p with
  | [] => entry
  | _ => fst (map_emplace entry "path" (VList (map (fun s => match s with
             | PName n => VString n false
             | PIndex i => VInt (to_int32 i)
             end) p)))
  end.

(** GraphQLService.h:64-68 [field_path] is a linked list from the leaf to the root: the head of the list is the
    innermost segment. GraphQLService.cpp:71-95 [buildErrorPath] pushes each segment to the front. *)
Definition field_path : Type := list path_segment.
Fixpoint push_front_all (p : field_path) (segments : list path_segment) : list path_segment :=
  match p with [] => segments | s :: parent => push_front_all parent (s :: segments) end.
Definition build_error_path (p : field_path) : list path_segment := push_front_all p [].

(** GraphQLService.cpp:97-116 [buildErrorValues]. *)
Definition build_error_entry (e : schema_error) : value :=
  VMap (add_error_path (path e) (add_error_location (Cpp.location e) (add_error_message (message e) []))).
Definition build_error_values (errs : list schema_error) : value := VList (map build_error_entry errs).

(** GraphQLService.cpp:140-150 [schema_exception::what]. *)
Definition exn_what (e : exn) : string :=
  match e with
  | Exn _ w => w
  | SchemaEx [] => "Unknown schema error"
  | SchemaEx (x :: _) => message x
  end.

(** ** Client *)

(** GraphQLClient.h:34-66. *)
Record client_location : Type := mkCLoc { c_line : Z; c_column : Z }.
Inductive client_segment : Type := CName (s : string) | CIndex (z : Z).
Record client_error : Type := mkCErr { c_message : string; c_locations : list client_location; c_path : list client_segment }.
Record service_response : Type := mkResp { r_data : value; r_errors : list client_error }.

(** GraphQLClient.cpp:10-40 [parseServiceErrorLocation]: [static_cast<size_t>] of the int and back is the identity. *)
Fixpoint parse_location_members (es : list (string * value)) (acc : client_location) : client_location :=
  match es with
  | [] => acc
  | (k, v) :: r =>
      parse_location_members r
        (if String.eqb k "line" then match v with VInt z => mkCLoc z (c_column acc) | _ => acc end
         else if String.eqb k "column" then match v with VInt z => mkCLoc (c_line acc) z | _ => acc end
         else acc)
  end.
Definition parse_location (v : value) : client_location :=
  match v with VMap es => parse_location_members es (mkCLoc 0 0) | _ => mkCLoc 0 0 end.

(** GraphQLClient.cpp:42-61 [parseServiceErrorPathSegment]. *)
Definition parse_segment (v : value) : client_segment :=
  match v with VInt z => CIndex z | VString s _ => CName s | _ => CIndex 0 end.

(** GraphQLClient.cpp:63-122 [parseServiceError]. *)
Fixpoint parse_error_members (es : list (string * value)) (acc : client_error) : client_error :=
  match es with
  | [] => acc
  | (k, v) :: r =>
      parse_error_members r
        (if String.eqb k "message" then
           match v with VString s _ => mkCErr s (c_locations acc) (c_path acc) | _ => acc end
         else if String.eqb k "locations" then
           match v with VList l => mkCErr (c_message acc) (c_locations acc ++ map parse_location l) (c_path acc) | _ => acc end
         else if String.eqb k "path" then
           match v with VList l => mkCErr (c_message acc) (c_locations acc) (c_path acc ++ map parse_segment l) | _ => acc end
         else acc)
  end.
Definition parse_error (v : value) : client_error :=
  match v with VMap es => parse_error_members es (mkCErr "" [] []) | _ => mkCErr "" [] [] end.

(** GraphQLClient.cpp:124-166 [parseServiceResponse]. *)
Fixpoint parse_response_members (es : list (string * value)) (acc : service_response) : service_response :=
  match es with
  | [] => acc
  | (k, v) :: r =>
      parse_response_members r
        (if String.eqb k "data" then mkResp v (r_errors acc)
         else if String.eqb k "errors" then
           match v with VList l => mkResp (r_data acc) (r_errors acc ++ map parse_error l) | _ => acc end
         else acc)
  end.
Definition parse_service_response (v : value) : service_response :=
  match v with VMap es => parse_response_members es (mkResp VNull []) | _ => mkResp VNull [] end.
