(** Model of the default values that schemagen writes into the code it generates (src/SchemaGenerator.cpp: getArgumentDefaultValue and the lambdas
    around it), as text, and of how a C++ compiler reads that piece of the code and what it does when it runs. *)
From Coq Require Import ZArith NArith Ascii String List Bool Decimal DecimalString SpecFloat.
From Verif Require Import Cpp ParseSpec Value ResponseModel LoaderModel RequestTextModel.
Import ListNotations.
Local Open Scope string_scope.
Local Open Scope list_scope.

(** ** What is written *)

Definition digits_of (n : N) : text := list_ascii_of_string (NilEmpty.string_of_uint (N.to_uint n)).
(** operator<< for int. *)
Definition show_int (z : Z) : text :=
  match z with Zneg p => "-"%char :: digits_of (Npos p) | Z0 => digits_of 0 | Zpos p => digits_of (Npos p) end.

(** operator<< for double with the default format, %g with six significant digits ([ostream.formatted], C 7.21.6.1), in the C locale; rounding to the
    nearest decimal, ties to even (glibc). *)
Definition nearest (num den : N) : N :=
  let (q, r) := N.div_eucl num den in
  match N.compare (2 * r) den with Lt => q | Gt => (q + 1)%N | Eq => if N.even q then q else (q + 1)%N end.
(** the least k for which num * 10^k >= den *)
Fixpoint leading (fuel : nat) (num den : N) (k : Z) : Z :=
  match fuel with O => k | S f => if (den <=? num)%N then k else leading f (10 * num)%N den (k + 1)%Z end.
Definition exponent (num den : N) : Z :=
  (if (den <=? num)%N then Z.of_nat (List.length (digits_of (num / den)%N)) - 1 else - leading 400 num den 0)%Z.
Definition pow10 (z : Z) : N := (10 ^ Z.to_N z)%N.
(** six digits q and the exponent x: the value is about q * 10^(x-5) *)
Definition six_digits (num den : N) : N * Z :=
  let x := exponent num den in
  let q := nearest (num * pow10 (5 - x))%N (den * pow10 (x - 5))%N in
  if (1000000 <=? q)%N then ((q / 10)%N, (x + 1)%Z) else (q, x).
Fixpoint without_zeros (t : text) : text := match t with "0"%char :: r => without_zeros r | _ => t end.
Definition fraction (t : text) : text := match without_zeros (rev t) with [] => [] | r => "."%char :: rev r end.
Definition show_exponent (x : Z) : text :=
  let d := digits_of (Z.abs_N x) in "e"%char :: (if (x <? 0)%Z then "-"%char else "+"%char) :: (if Nat.ltb (List.length d) 2 then "0"%char :: d else d).
Definition show_positive (num den : N) : text :=
  let (q, x) := six_digits num den in let d := digits_of q in
  if (x <? -4)%Z || (6 <=? x)%Z then firstn 1 d ++ fraction (skipn 1 d) ++ show_exponent x
  else if (x <? 0)%Z then "0"%char :: fraction (repeat "0"%char (Z.to_nat (- x - 1)) ++ d)
  else firstn (S (Z.to_nat x)) d ++ fraction (skipn (S (Z.to_nat x)) d).
Definition show_sign (s : bool) : text := if s then ["-"%char] else [].
Definition show_float (f : spec_float) : text :=
  match f with
  | S754_zero s => show_sign s ++ ["0"%char]
  | S754_finite s m e => show_sign s ++ (if (0 <=? e)%Z then show_positive (Npos m * 2 ^ Z.to_N e)%N 1 else show_positive (Npos m) (2 ^ Z.to_N (- e))%N)
  | S754_infinity s => show_sign s ++ chars "inf"
  | S754_nan => chars "nan"
  end.

Definition padding (level : nat) : text := repeat tab_char level.
(** a line with its padding; [s] begins with the tabs that the generator writes *)
Definition line (level tabs : nat) (s : text) : text := padding level ++ padding tabs ++ s ++ [feed].

(** SchemaGenerator.cpp:1718-1850 [Generator::getArgumentDefaultValue]. Simplified: nothing for a scalar (the loader's visitor never makes one). *)
Fixpoint default_code (level : nat) (v : value) : text :=
  match v with
  | VMap members =>
      line level 2 (chars "entry = []()") ++ line level 2 (chars "{") ++ line level 3 (chars "response::Value members(response::Type::Map);")
      ++ line level 3 (chars "response::Value entry;") ++ [feed]
      ++ flat_map (fun entry => default_code (S level) (snd entry) ++ line level 3 (chars "members.emplace_back(""" ++ chars (fst entry) ++ chars """, std::move(entry));")) members
      ++ line level 3 (chars "return members;") ++ line level 2 (chars "}();")
  | VList elements =>
      line level 2 (chars "entry = []()") ++ line level 2 (chars "{") ++ line level 3 (chars "response::Value elements(response::Type::List);")
      ++ line level 3 (chars "response::Value entry;") ++ [feed]
      ++ flat_map (fun entry => default_code (S level) entry ++ line level 3 (chars "elements.emplace_back(std::move(entry));")) elements
      ++ line level 3 (chars "return elements;") ++ line level 2 (chars "}();")
  | VString s _ => line level 2 (chars "entry = response::Value(std::string(" ++ opening ++ chars s ++ closing ++ chars "));")
  | VNull => line level 2 (chars "entry = {};")
  | VBool b => line level 2 (chars "entry = response::Value(" ++ chars (if b then "true" else "false") ++ chars ");")
  | VInt z => line level 2 (chars "entry = response::Value(static_cast<response::IntType>(" ++ show_int z ++ chars "));")
  | VFloat f => line level 2 (chars "entry = response::Value(static_cast<response::FloatType>(" ++ show_float f ++ chars "));")
  | VEnum s => line level 2 (chars "entry = response::Value(response::Type::EnumValue);")
      ++ line 0 2 (chars "entry.set<response::StringType>(" ++ opening ++ chars s ++ closing ++ chars ");")
  | VScalar _ => []
  end.

(** SchemaGenerator.cpp:688-723 (input structs, [variable] is defaultValue) and 1483-1521 (arguments of a field, defaultArguments): the arguments whose default
    value is not null; without any there is no lambda. *)
Definition has_default (f : in_field) : bool := match in_default f with VNull => false | _ => true end.
Definition defaults_code (variable : string) (fs : list in_field) : text :=
  match filter has_default fs with
  | [] => []
  | given =>
      line 0 1 (chars "const auto " ++ chars variable ++ chars " = []()") ++ line 0 1 (chars "{") ++ line 0 2 (chars "response::Value values(response::Type::Map);")
      ++ line 0 2 (chars "response::Value entry;") ++ [feed]
      ++ flat_map (fun f => default_code 0 (in_default f) ++ line 0 2 (chars "values.emplace_back(""" ++ chars (in_name f) ++ chars """, std::move(entry));")) given
      ++ [feed] ++ line 0 2 (chars "return values;") ++ line 0 1 (chars "}();") ++ [feed]
  end.

(** ** How the compiler reads it *)

Inductive token : Type := Word (t : text) | Punct (c : ascii) | Str (t : text) | RawStr (t : text).
Definition is_letter (c : ascii) : bool := let n := nat_of_ascii c in (((65 <=? n) && (n <=? 90)) || ((97 <=? n) && (n <=? 122)) || (n =? 95))%nat.
Definition is_digit (c : ascii) : bool := let n := nat_of_ascii c in ((48 <=? n) && (n <=? 57))%nat.
Definition dquote : ascii := """"%char.
Definition backslash : ascii := code 92.

(** [lex.name], [lex.ppnumber]: an identifier goes on with letters and digits, a number also with a point, and with a sign after e or E. *)
Definition continues (w : text) (c : ascii) : bool :=
  is_letter c || is_digit c ||
  match w with d :: _ => is_digit d && (Ascii.eqb c "." || ((Ascii.eqb c "+" || Ascii.eqb c "-") && (Ascii.eqb (last w d) "e" || Ascii.eqb (last w d) "E"))) | [] => false end.

Inductive lexing : Type :=
| Between | InWord (w : text) | InString (s : text) | Opening (n : nat) | InRaw (s : text) | Closing (n : nat).
(** A character that does not go on with what was before it. What the generated code does not have is refused: comments, character literals, numbers that begin with a point... *)
Definition starts_token (c : ascii) (r : text) : option (list token * lexing) :=
  if isspace c then Some ([], Between)
  else if Ascii.eqb c dquote then Some ([], InString [])
  else if is_letter c || is_digit c then Some ([], InWord [c])
  else if Ascii.eqb c "." && match r with d :: _ => is_digit d | [] => false end then None
  else if Ascii.eqb c "/" || Ascii.eqb c "'" || Ascii.eqb c "#" || Ascii.eqb c backslash then None
  else Some ([Punct c], Between).
(** [lex.phases], [lex.pptoken], [lex.string]: the tokens that end with the character [c], and what goes on after it; [r] is what follows. *)
Definition lex_step (st : lexing) (c : ascii) (r : text) : option (list token * lexing) :=
  match st with
  | Between => starts_token c r
  | InWord w =>
      if continues w c then Some ([], InWord (w ++ [c]))
      else if Ascii.eqb c dquote then
        match w, without_prefix (chars "gql(") r with ["R"%char], Some _ => Some ([], Opening 4) | _, _ => None end
      else match starts_token c r with Some (ts, st') => Some (Word w :: ts, st') | None => None end
  | InString s =>
      if Ascii.eqb c dquote then Some ([Str s], Between)
      else if Ascii.eqb c backslash || Ascii.eqb c feed then None else Some ([], InString (s ++ [c]))
  | Opening n => Some ([], match n with S (S k) => Opening (S k) | _ => InRaw [] end)
  | InRaw s => match without_prefix closing (c :: r) with Some _ => Some ([RawStr s], Closing 4) | None => Some ([], InRaw (s ++ [c])) end
  | Closing n => Some ([], match n with S (S k) => Closing (S k) | _ => Between end)
  end.
Fixpoint lex (st : lexing) (t : text) : option (list token) :=
  match t with
  | [] => match st with Between => Some [] | InWord w => Some [Word w] | _ => None end
  | c :: r => match lex_step st c r with
              | Some (ts, st') => match lex st' r with Some ts' => Some (ts ++ ts') | None => None end
              | None => None
              end
  end.

(** ** What it does when it runs *)

Definition code_ (s : string) : list token := match lex Between (chars s) with Some ts => ts | None => [] end.
Fixpoint text_eqb (a b : text) : bool :=
  match a, b with [], [] => true | x :: a', y :: b' => Ascii.eqb x y && text_eqb a' b' | _, _ => false end.
Definition token_eqb (a b : token) : bool :=
  match a, b with
  | Word x, Word y | Str x, Str y | RawStr x, RawStr y => text_eqb x y
  | Punct x, Punct y => Ascii.eqb x y
  | _, _ => false
  end.
Fixpoint after (p ts : list token) : option (list token) :=
  match p, ts with
  | [], _ => Some ts
  | a :: p', b :: ts' => if token_eqb a b then after p' ts' else None
  | _ :: _, [] => None
  end.

(** [lex.icon]: a decimal literal. *)
Definition number (w : text) : option N :=
  match w with
  | "0"%char :: _ :: _ => None
  | _ => match NilEmpty.uint_of_string (string_of_list_ascii w) with Some d => Some (N.of_uint d) | None => None end
  end.
(** [expr.unary.op], [expr.static.cast]: the literal is an int or a long; the cast keeps the values of an int. *)
Definition int_value (ts : list token) : option (Z * list token) :=
  match ts with
  | Punct "-" :: Word w :: r => match number w with Some n => Some ((- Z.of_N n)%Z, r) | None => None end
  | Word w :: r => match number w with Some n => Some (Z.of_N n, r) | None => None end
  | _ => None
  end.

(** [lex.fcon]: a decimal literal of type double, or an integer literal that static_cast converts to double: the nearest double. *)
Fixpoint span (p : ascii -> bool) (t : text) : text * text :=
  match t with [] => ([], []) | c :: r => if p c then let (a, b) := span p r in (c :: a, b) else ([], t) end.
Definition decimal (ds : text) : N := match NilEmpty.uint_of_string (string_of_list_ascii ds) with Some d => N.of_uint d | None => 0%N end.
Definition nearest_double (n : N) (e : Z) : spec_float :=
  match n with
  | N0 => S754_zero false
  | Npos p =>
      let '(m, x, l) := SFdiv_core_binary 53 1024 (Z.pos p * Z.of_N (pow10 e)) 0 (Z.of_N (pow10 (- e))) 0 in
      binary_round_aux 53 1024 false m x l
  end.
Definition double_literal (w : text) : option spec_float :=
  let (i, r) := span is_digit w in
  let (f, r) := match r with "."%char :: r' => span is_digit r' | _ => ([], r) end in
  match i, r with
  | [], _ => None
  | _, [] => Some (nearest_double (decimal (i ++ f)) (- Z.of_nat (List.length f)))
  | _, "e"%char :: "+"%char :: d => let (x, r) := span is_digit d in
      match x, r with _ :: _, [] => Some (nearest_double (decimal (i ++ f)) (Z.of_N (decimal x) - Z.of_nat (List.length f))) | _, _ => None end
  | _, "e"%char :: "-"%char :: d => let (x, r) := span is_digit d in
      match x, r with _ :: _, [] => Some (nearest_double (decimal (i ++ f)) (- Z.of_N (decimal x) - Z.of_nat (List.length f))) | _, _ => None end
  | _, _ => None
  end.
Definition float_value (ts : list token) : option (spec_float * list token) :=
  match ts with
  | Punct "-" :: Word w :: r => match double_literal w with Some f => Some (SFopp f, r) | None => None end
  | Word w :: r => match double_literal w with Some f => Some (f, r) | None => None end
  | _ => None
  end.

(** The variables in scope: the lambda has a container ([f_name]: values, members or elements) and [entry]; it captures nothing. *)
Record frame := mkFrame { f_name : string; f_container : cvalue; f_entry : cvalue }.
Definition new_frame (name : string) (t : vtype) : frame := mkFrame name (cnew t) (cnew TNull).
Definition assign (fr : frame) (x : cvalue) : frame := mkFrame (f_name fr) (f_container fr) x.

(** The first statement, if there is one, and what comes after it. *)
Inductive statement : Type :=
| SLambda (container : string) (t : vtype)          (* entry = []() { response::Value container(t); response::Value entry; *)
| SAssign (x : cvalue)                              (* entry = ...; *)
| SSet (s : string)                                 (* entry.set<response::StringType>(...); *)
| SMember (container name : string)                 (* container.emplace_back("name", std::move(entry)); *)
| SElement (container : string).                    (* container.emplace_back(std::move(entry)); *)
Definition read_lambda (ts : list token) : option (statement * list token) :=
  match after (code_ "entry = []() { response::Value members(response::Type::Map); response::Value entry;") ts with
  | Some r => Some (SLambda "members" TMap, r)
  | None => match after (code_ "entry = []() { response::Value elements(response::Type::List); response::Value entry;") ts with
            | Some r => Some (SLambda "elements" TList, r)
            | None => None
            end
  end.
Definition read_text (ts : list token) : option (string * list token) :=
  match ts with RawStr s :: r => Some (string_of_list_ascii s, r) | _ => None end.
(** [before], what [read] reads, [behind] *)
Definition read_between {A} (before : string) (read : list token -> option (A * list token)) (behind : string) (ts : list token) : option (A * list token) :=
  match after (code_ before) ts with
  | Some r => match read r with Some (x, r') => match after (code_ behind) r' with Some r'' => Some (x, r'') | None => None end | None => None end
  | None => None
  end.
Definition nothing_read (ts : list token) : option (unit * list token) := Some (tt, ts).
Definition read_name (ts : list token) : option (string * list token) :=
  match ts with Str s :: r => Some (string_of_list_ascii s, r) | _ => None end.
Definition read_word (ts : list token) : option (string * list token) :=
  match ts with Word w :: r => Some (string_of_list_ascii w, r) | _ => None end.
Definition orelse {A} (a : option A) (b : option A) : option A := match a with Some _ => a | None => b end.
Definition made_by {A B} (f : A -> B) (x : option (A * list token)) : option (B * list token) := match x with Some (a, r) => Some (f a, r) | None => None end.
Definition read_statement (ts : list token) : option (statement * list token) :=
  orelse (read_lambda ts)
  (orelse (made_by (fun s => SAssign (CString s false)) (read_between "entry = response::Value(std::string(" read_text "));" ts))
  (orelse (made_by (fun _ => SAssign CNull) (read_between "entry = {}" nothing_read ";" ts))
  (orelse (made_by (fun _ => SAssign (CBool true)) (read_between "entry = response::Value(true" nothing_read ");" ts))
  (orelse (made_by (fun _ => SAssign (CBool false)) (read_between "entry = response::Value(false" nothing_read ");" ts))
  (orelse (match read_between "entry = response::Value(static_cast<response::IntType>(" int_value "));" ts with
           | Some (z, r) => if in_int_range z then Some (SAssign (CInt z), r) else None
           | None => None end)
  (orelse (made_by (fun f => SAssign (CFloat f)) (read_between "entry = response::Value(static_cast<response::FloatType>(" float_value "));" ts))
  (orelse (made_by (fun _ => SAssign (cnew TEnumValue)) (read_between "entry = response::Value(response::Type::EnumValue" nothing_read ");" ts))
  (orelse (made_by SSet (read_between "entry.set<response::StringType>(" read_text ");" ts))
  (match read_word ts with
   | Some (container, r) =>
       orelse (made_by (SMember container) (read_between ".emplace_back(" read_name ", std::move(entry));" r))
              (made_by (fun _ => SElement container) (read_between ".emplace_back(std::move(entry)" nothing_read ");" r))
   | None => None
   end))))))))).

(** Running the statements up to what is none. No result: the code does not compile, or throws. *)
Fixpoint exec (fuel : nat) (fr : frame) (ts : list token) : option (frame * list token) :=
  match fuel with
  | O => None
  | S f =>
      match read_statement ts with
      | None => Some (fr, ts)
      | Some (SLambda container t, body) =>
          match exec f (new_frame container t) body with
          | Some (fr', r) => match after (code_ "return" ++ [Word (chars container)] ++ code_ "; }();") r with
                             | Some r' => exec f (assign fr (f_container fr')) r'
                             | None => None
                             end
          | None => None
          end
      | Some (SAssign x, r) => exec f (assign fr x) r
      | Some (SSet s, r) => match c_set_string (f_entry fr) s with Ok x => exec f (assign fr x) r | _ => None end
      | Some (SMember container name, r) =>
          if String.eqb container (f_name fr) then
            match c_emplace_back (f_container fr) name (f_entry fr) with
            | Ok (c, _) => exec f (mkFrame (f_name fr) c (c_moved_from (f_entry fr))) r
            | _ => None
            end
          else None
      | Some (SElement container, r) =>
          if String.eqb container (f_name fr) then
            match c_emplace_back_list (f_container fr) (f_entry fr) with
            | Ok c => exec f (mkFrame (f_name fr) c (c_moved_from (f_entry fr))) r
            | _ => None
            end
          else None
      end
  end.
(** What the variable is when the generated code has run; the code must be the definition of the variable and nothing else. *)
Definition run_defaults (variable : string) (t : text) : option cvalue :=
  match lex Between t with
  | Some ts =>
      match after (code_ "const auto" ++ [Word (chars variable)] ++ code_ "= []() { response::Value values(response::Type::Map); response::Value entry;") ts with
      | Some body =>
          match exec (S (List.length body)) (new_frame "values" TMap) body with
          | Some (fr, r) => match after (code_ "return values; }();") r with Some [] => Some (f_container fr) | _ => None end
          | None => None
          end
      | None => None
      end
  | None => None
  end.
