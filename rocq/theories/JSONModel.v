(** Model of src/JSONResponse.cpp at the level of RapidJSON SAX events.
    RapidJSON itself is not part of the repository; JSONSpec.v states the contract that is assumed of it. *)
From Verif Require Import Cpp Value.

(** SAX events: the calls made on rapidjson::Writer by writeResponse, and the calls rapidjson::Reader makes on the
    ResponseHandler. *)
Inductive event : Type :=
| ENull | EBool (b : bool) | EInt (z : Z) | EUint (z : Z) | EInt64 (z : Z) | EUint64 (z : Z) | EDouble (f : spec_float)
| EString (s : string) | EStartObject | EKey (s : string) | EEndObject | EStartArray | EEndArray.

(** [s.c_str()] passed to a function taking a NUL terminated string, and [std::string(const char* )]. *)
Fixpoint c_str (s : string) : string :=
  match s with
  | EmptyString => EmptyString
  | String c s' => if Ascii.eqb c zero then EmptyString else String c (c_str s')
  end.

(** JSONResponse.cpp:19-99 [writeResponse]. The response is consumed (release), which is only observable for a
    Scalar that holds no value: release<ScalarType> throws (GraphQLResponse.cpp:280-297). *)
Fixpoint writeResponse (v : value) : result (list event) :=
  match v with
  | VMap members =>
      es <- (fix go (ms : list (string * value)) : result (list event) :=
               match ms with
               | [] => Ok []
               | (k, x) :: ms' => ex <- writeResponse x ;; r <- go ms' ;; Ok (EKey (c_str k) :: ex ++ r)
               end) members ;;
      Ok (EStartObject :: es ++ [EEndObject])
  | VList elements =>
      es <- (fix go (l : list value) : result (list event) :=
               match l with
               | [] => Ok []
               | x :: l' => ex <- writeResponse x ;; r <- go l' ;; Ok (ex ++ r)
               end) elements ;;
      Ok (EStartArray :: es ++ [EEndArray])
  | VString s _ => Ok [EString (c_str s)]
  | VEnum s => Ok [EString (c_str s)]
  | VNull => Ok [ENull]
  | VBool b => Ok [EBool b]
  | VInt z => Ok [EInt z]
  | VFloat f => Ok [EDouble f]
  | VScalar (Some x) => writeResponse x
  | VScalar None => Throw (Exn logic_error "Invalid call to Value::release for ScalarType")
  end.

(** JSONResponse.cpp:237-238: the handler's two stacks, top first. *)
Record handler : Type := mkHandler { keyStack : list string; responseStack : list value }.

(** JSONResponse.cpp:112-116. *)
Definition handler_init : handler := mkHandler [] [VNull].

(** JSONResponse.cpp:218-235 [setValue]. back()/pop_back() on an empty vector is undefined behaviour. *)
Definition setValue (h : handler) (v : value) : result handler :=
  match responseStack h with
  | [] => UB
  | VMap es :: rest =>
      match keyStack h with
      | [] => UB
      | k :: ks => Ok (mkHandler ks (VMap (fst (map_emplace es k v)) :: rest))
      end
  | VList l :: rest => Ok (mkHandler (keyStack h) (VList (l ++ [v]) :: rest))
  | _ :: rest => Ok (mkHandler (keyStack h) (v :: rest))
  end.

(** JSONResponse.cpp:118-125 [getResponse]. *)
Definition getResponse (h : handler) : result (value * handler) :=
  match responseStack h with
  | [] => UB
  | v :: rest => Ok (v, mkHandler (keyStack h) rest)
  end.

Definition overflow {A} : result A := Throw (Exn overflow_error "GraphQL only supports 32-bit signed integers").

(** JSONResponse.cpp:127-215: the handler callbacks. *)
Definition handle (h : handler) (e : event) : result handler :=
  match e with
  | ENull => setValue h VNull
  | EBool b => setValue h (VBool b)
  | EInt z => setValue h (VInt z)
  | EUint z => if Z.ltb int_max z then overflow else setValue h (VInt z)
  | EInt64 _ => overflow
  | EUint64 _ => overflow
  | EDouble f => setValue h (VFloat f)
  | EString s => setValue h (VString (c_str s) true)
  | EStartObject => Ok (mkHandler (keyStack h) (VMap [] :: responseStack h))
  | EKey s => Ok (mkHandler (c_str s :: keyStack h) (responseStack h))
  | EStartArray => Ok (mkHandler (keyStack h) (VList [] :: responseStack h))
  | EEndObject | EEndArray => '(v, h') <- getResponse h ;; setValue h' v
  end.

Fixpoint handle_all (h : handler) (es : list event) : result handler :=
  match es with [] => Ok h | e :: es' => h' <- handle h e ;; handle_all h' es' end.

(** JSONResponse.cpp:241-250 [parseJSON], given the events the reader delivers. The result of reader.Parse (success or
    a parse error) is ignored by the code, so it is not an argument here. *)
Definition parse_events (es : list event) : result value :=
  h <- handle_all handler_init es ;;
  '(v, _) <- getResponse h ;;
  Ok v.
