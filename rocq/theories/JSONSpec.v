(** Contract assumed of RapidJSON, and what the user expects of toJSON / parseJSON. *)
From Verif Require Import Cpp Value JSONModel.

Definition is_nan (f : spec_float) : bool := match f with S754_nan => true | _ => false end.
Definition is_inf (f : spec_float) : bool := match f with S754_infinity _ => true | _ => false end.

(** JSON documents. A number token without fraction and exponent is [JInt], any other number is [JDouble]. *)
Inductive json : Type :=
| JNull | JBool (b : bool) | JInt (z : Z) | JDouble (f : spec_float) | JString (s : string)
| JObject (members : list (string * json)) | JArray (items : list json).

(** rapidjson::Reader's classification of an integer token (reader.h, ParseNumber): unsigned/signed 32 bit, then
    64 bit, and a double beyond that. The double's value is given by the (external) conversion [big]. *)
Definition number_event (big : Z -> spec_float) (z : Z) : event :=
  if (Z.leb 0 z && Z.ltb z (2 ^ 32))%bool then EUint z
  else if (Z.leb int_min z && Z.ltb z 0)%bool then EInt z
  else if (Z.leb 0 z && Z.ltb z (2 ^ 64))%bool then EUint64 z
  else if (Z.leb (- 2 ^ 63) z && Z.ltb z 0)%bool then EInt64 z
  else EDouble (big z).

(** The events the reader delivers for a well formed document. *)
Fixpoint reader_events (big : Z -> spec_float) (j : json) : list event :=
  match j with
  | JNull => [ENull]
  | JBool b => [EBool b]
  | JInt z => [number_event big z]
  | JDouble f => [EDouble f]
  | JString s => [EString s]
  | JObject ms => EStartObject :: flat_map (fun kv => EKey (fst kv) :: reader_events big (snd kv)) ms ++ [EEndObject]
  | JArray l => EStartArray :: flat_map (reader_events big) l ++ [EEndArray]
  end.

(** The document the writer's calls spell. [Writer::Double] writes nothing for NaN and infinities, so these have no
    document. [trip f] is the double the reader makes of the text written for [f]: the library uses the reader's
    default flags, for which RapidJSON promises a result within a few units in the last place only. *)
Inductive spells (trip : spec_float -> spec_float) : list event -> json -> Prop :=
| sp_null : spells trip [ENull] JNull
| sp_bool b : spells trip [EBool b] (JBool b)
| sp_int z : spells trip [EInt z] (JInt z)
| sp_double f : is_nan f = false -> is_inf f = false -> spells trip [EDouble f] (JDouble (trip f))
| sp_string s : spells trip [EString s] (JString s)
| sp_object es ms : spells_members trip es ms -> spells trip (EStartObject :: es ++ [EEndObject]) (JObject ms)
| sp_array es l : spells_items trip es l -> spells trip (EStartArray :: es ++ [EEndArray]) (JArray l)
with spells_members (trip : spec_float -> spec_float) : list event -> list (string * json) -> Prop :=
| spm_nil : spells_members trip [] []
| spm_cons k e1 j e2 ms : spells trip e1 j -> spells_members trip e2 ms -> spells_members trip (EKey k :: e1 ++ e2) ((k, j) :: ms)
with spells_items (trip : spec_float -> spec_float) : list event -> list json -> Prop :=
| spi_nil : spells_items trip [] []
| spi_cons e1 j e2 l : spells trip e1 j -> spells_items trip e2 l -> spells_items trip (e1 ++ e2) (j :: l).

(** Sequences of callbacks that rapidjson::Reader may deliver, complete or cut short by a syntax error: the open
    containers, innermost first; an object is waiting for a key or for the value of its last key. *)
Inductive ctx : Type := CObjKey | CObjVal | CArr | CTop | CDone.
Definition after_value (cs : list ctx) : option (list ctx) :=
  match cs with
  | CObjVal :: r => Some (CObjKey :: r)
  | CArr :: r => Some (CArr :: r)
  | CTop :: r => Some (CDone :: r)
  | _ => None
  end.
Definition reader_step (cs : list ctx) (e : event) : option (list ctx) :=
  match e with
  | EKey _ => match cs with CObjKey :: r => Some (CObjVal :: r) | _ => None end
  | EStartObject => match after_value cs with Some _ => Some (CObjKey :: cs) | None => None end
  | EStartArray => match after_value cs with Some _ => Some (CArr :: cs) | None => None end
  | EEndObject => match cs with CObjKey :: r => after_value r | _ => None end
  | EEndArray => match cs with CArr :: r => after_value r | _ => None end
  | _ => after_value cs
  end.
Fixpoint reader_run (cs : list ctx) (es : list event) : option (list ctx) :=
  match es with [] => Some cs | e :: es' => match reader_step cs e with Some cs' => reader_run cs' es' | None => None end end.
Definition reader_may_deliver (es : list event) : Prop := exists cs, reader_run [CTop] es = Some cs.

(** * What the user expects *)

(** entries with the first value for each key *)
Fixpoint dedup (seen : list string) (es : list (string * value)) : list (string * value) :=
  match es with
  | [] => []
  | (k, v) :: es' => if in_dec string_dec k seen then dedup seen es' else (k, v) :: dedup (k :: seen) es'
  end.

(** the value a JSON document denotes: strings are JSON-sourced, integers must be 32 bit, NUL ends a string *)
Definition int_value (big : Z -> spec_float) (z : Z) : result value :=
  if in_int_range z then Ok (VInt z)
  else if (Z.leb (- 2 ^ 63) z && Z.ltb z (2 ^ 64))%bool then overflow
  else Ok (VFloat (big z)).
Fixpoint json_value (big : Z -> spec_float) (j : json) : result value :=
  match j with
  | JNull => Ok VNull
  | JBool b => Ok (VBool b)
  | JInt z => int_value big z
  | JDouble f => Ok (VFloat f)
  | JString s => Ok (VString (c_str s) true)
  | JObject ms =>
      es <- (fix go (ms : list (string * json)) : result (list (string * value)) :=
               match ms with [] => Ok [] | (k, x) :: ms' => v <- json_value big x ;; r <- go ms' ;; Ok ((c_str k, v) :: r) end) ms ;;
      Ok (VMap (dedup [] es))
  | JArray l =>
      vs <- (fix go (l : list json) : result (list value) :=
               match l with [] => Ok [] | x :: l' => v <- json_value big x ;; r <- go l' ;; Ok (v :: r) end) l ;;
      Ok (VList vs)
  end.

(** the same response after a trip through JSON: enum values become JSON-sourced strings, custom scalars are replaced
    by their payload, floats are subject to [trip], everything else is the same *)
Fixpoint through_json (trip : spec_float -> spec_float) (v : value) : value :=
  match v with
  | VMap es => VMap (map (fun kv => (fst kv, through_json trip (snd kv))) es)
  | VList l => VList (map (through_json trip) l)
  | VString s _ => VString s true
  | VEnum s => VString s true
  | VScalar (Some x) => through_json trip x
  | VFloat f => VFloat (trip f)
  | _ => v
  end.

(** values representable in JSON *)
Fixpoint no_nul (s : string) : bool :=
  match s with EmptyString => true | String c s' => negb (Ascii.eqb c zero) && no_nul s' end.
Fixpoint unique (l : list string) : bool :=
  match l with [] => true | x :: l' => negb (existsb (String.eqb x) l') && unique l' end.
Fixpoint representable (v : value) : bool :=
  match v with
  | VMap es => unique (map fst es) && forallb (fun kv => no_nul (fst kv) && representable (snd kv)) es
  | VList l => forallb representable l
  | VString s _ => no_nul s
  | VEnum s => no_nul s
  | VInt z => in_int_range z
  | VFloat f => negb (is_nan f) && negb (is_inf f)
  | VScalar (Some x) => representable x
  | VScalar None => false
  | VNull | VBool _ => true
  end.
