(** Which texts spell which document: the grammar of executable documents (http://spec.graphql.org/June2018/), written
    as relations between an offset, a piece of the document and the text that spells it. Independent of the parser.

    Where the parser of this library is narrower than the specification, these relations follow the parser, and the
    difference is named here and exhibited by a theorem [C48_..._refuted] in ParseProps.v:
    - two items of a list (selections, arguments, directives, list entries ...) have something ignorable between them;
    - nothing may come between [$] or [@] and the name;
    - a float literal has a fraction or an exponent but not both;
    - a comment ends at a line feed, not at a lone carriage return;
    - a byte order mark is ignored only at the beginning of the document.
    It is wider in two places: vertical tab and form feed are ignored, and a lone carriage return may appear in a
    quoted string. *)
From Verif Require Import Cpp Value Ast.
From Coq Require Import String Ascii NArith ZArith Bool List.
Import ListNotations.
Local Open Scope list_scope.

Notation text := (list ascii).
Notation chars := list_ascii_of_string.
Notation str := string_of_list_ascii.
Local Open Scope char_scope.

Definition between (a b c : ascii) : Prop := (N_of_ascii a <= N_of_ascii c <= N_of_ascii b)%N.
Definition code (n : nat) : ascii := ascii_of_nat n.

(** http://spec.graphql.org/June2018/#sec-Names *)
Definition letter (c : ascii) : Prop := between "a" "z" c \/ between "A" "Z" c \/ c = "_".
Definition digit (c : ascii) : Prop := between "0" "9" c.
Definition hex_digit (c : ascii) : Prop := digit c \/ between "a" "f" c \/ between "A" "F" c.
Definition name (n : string) : Prop :=
  match chars n with
  | [] => False
  | c :: r => letter c /\ Forall (fun c => letter c \/ digit c) r
  end.

(** http://spec.graphql.org/June2018/#sec-Source-Text.Ignored-Tokens *)
Inductive blank : text -> Prop :=
| blank_char c : In c [" "; ","; code 9; code 10; code 11; code 12; code 13] -> blank [c]
| blank_comment body : ~ In (code 10) body -> blank ("#" :: body ++ [code 10]).
Inductive blanks : text -> Prop :=
| blanks_nil : blanks []
| blanks_cons b w : blank b -> blanks w -> blanks (b ++ w).
Definition some_blanks (w : text) : Prop := blanks w /\ w <> [].

(** http://spec.graphql.org/June2018/#sec-Source-Text: the UTF-8 encoding of a source character. *)
Definition utf8 (c : N) : text :=
  (if c <? 128 then [ascii_of_N c]
   else if c <? 2048 then [ascii_of_N (192 + c / 64); ascii_of_N (128 + c mod 64)]
   else [ascii_of_N (224 + c / 4096); ascii_of_N (128 + c / 64 mod 64); ascii_of_N (128 + c mod 64)])%N.
Definition source_code (c : N) : Prop := (32 <= c <= 65535 /\ ~ (55296 <= c <= 57343))%N.

(** http://spec.graphql.org/June2018/#sec-Int-Value, #sec-Float-Value *)
Definition int_text (t : text) : Prop :=
  exists sign ds, t = sign ++ ds /\ (sign = [] \/ sign = ["-"])
    /\ (ds = ["0"] \/ exists d r, ds = d :: r /\ between "1" "9" d /\ Forall digit r).
Definition fraction_text (t : text) : Prop := exists ds, t = "." :: ds /\ ds <> [] /\ Forall digit ds.
Definition exponent_text (t : text) : Prop :=
  exists e sign ds, t = e :: sign ++ ds /\ (e = "e" \/ e = "E") /\ (sign = [] \/ sign = ["+"] \/ sign = ["-"])
    /\ ds <> [] /\ Forall digit ds.

(** The integer that decimal digits, after an optional minus sign, stand for. *)
Definition decimal (ds : text) : Z := fold_left (fun z c => 10 * z + (Z.of_N (N_of_ascii c) - 48))%Z ds 0%Z.
Definition number (t : text) : Z :=
  match t with
  | c :: r => if Ascii.eqb c "-" then (- decimal r)%Z else decimal t
  | [] => 0%Z
  end.

(** http://spec.graphql.org/June2018/#sec-String-Value: the text between the quotes, and what the library delivers for
    it (C37 compares that with what the literal denotes). [after]: whether a unicode escape comes just before. *)
Inductive quoted : bool -> text -> text -> Prop :=
| q_nil after : quoted after [] []
| q_char after c t d : source_code c -> c <> 34%N -> c <> 92%N -> quoted false t d -> quoted after (utf8 c ++ t) (utf8 c ++ d)
| q_control after c t d : c = code 9 \/ c = code 13 -> quoted false t d -> quoted after (c :: t) (c :: d)
| q_escape after c t d : In c [""""; "\"; "/"; "b"; "f"; "n"; "r"; "t"] -> quoted false t d ->
    quoted after ("\" :: c :: t) (c :: d)
| q_unicode after h1 h2 h3 h4 t d : hex_digit h1 -> hex_digit h2 -> hex_digit h3 -> hex_digit h4 -> quoted true t d ->
    quoted after ("\" :: "u" :: h1 :: h2 :: h3 :: h4 :: t)
           ((if after then ["\"] else []) ++ "u" :: h1 :: h2 :: h3 :: h4 :: d).

(** The text between the triple quotes of a block string, which the library delivers unchanged. *)
Definition q3 : text := [""""; """"; """"].
Definition begins (p s : text) : Prop := exists r, s = p ++ r.
Inductive block_chars : text -> Prop :=
| bc_nil : block_chars []
| bc_char c t : source_code c \/ c = 9%N \/ c = 10%N \/ c = 13%N -> ~ begins q3 (utf8 c ++ t ++ q3) ->
    ~ begins ("\" :: q3) (utf8 c ++ t ++ q3) -> block_chars t -> block_chars (utf8 c ++ t)
| bc_escape t : block_chars t -> block_chars ("\" :: q3 ++ t).

(** Items one after the other with separators in between. *)
Inductive items {A} (sep : text -> Prop) (P : nat -> A -> text -> Prop) : nat -> list A -> text -> Prop :=
| items_one o x t : P o x t -> items sep P o [x] t
| items_more o x t w xs t' : P o x t -> sep w -> items sep P (o + length t + length w) xs t' ->
    items sep P o (x :: xs) (t ++ w ++ t').

(** Something optional that ignorable text may come before. *)
Inductive optional {A} (P : nat -> list A -> text -> Prop) : nat -> list A -> text -> Prop :=
| optional_none o : optional P o [] []
| optional_some o w xs t : blanks w -> P (o + length w) xs t -> optional P o xs (w ++ t).

(** Items between brackets. *)
Inductive bracketed {A} (l r : ascii) (P : nat -> A -> text -> Prop) : nat -> list A -> text -> Prop :=
| bracketed_items o w1 xs t w2 : blanks w1 -> items some_blanks P (o + 1 + length w1) xs t -> blanks w2 ->
    bracketed l r P o xs (l :: w1 ++ t ++ w2 ++ [r]).

Section Spells.
(** Where the byte at an offset is, and the double nearest to a float literal. *)
Variable L : nat -> schema_location.
Variable atof : string -> spec_float.

(** A name, a colon and what it names: an argument or an object field. *)
Inductive named (P : nat -> lit -> text -> Prop) : nat -> schema_location * (string * lit) -> text -> Prop :=
| named_value o n w1 w2 v t : name n -> blanks w1 -> blanks w2 ->
    P (o + length (chars n) + length w1 + 1 + length w2) v t ->
    named P o (L o, (n, v)) (chars n ++ w1 ++ ":" :: w2 ++ t).

(** http://spec.graphql.org/June2018/#sec-Input-Values *)
Inductive value : nat -> lit -> text -> Prop :=
| value_variable o n : name n -> value o (LVar (L o) n) ("$" :: chars n)
| value_int o t : int_text t -> value o (LInt (L o) (number t)) t
| value_float o i f : int_text i -> fraction_text f \/ exponent_text f ->
    value o (LFloat (L o) (atof (str (i ++ f)))) (i ++ f)
| value_string o t d : quoted false t d -> value o (LString (L o) (str d)) ("""" :: t ++ [""""])
| value_block o t : block_chars t -> value o (LString (L o) (str t)) (q3 ++ t ++ q3)
| value_true o : value o (LBool (L o) true) (chars "true")
| value_false o : value o (LBool (L o) false) (chars "false")
| value_null o : value o (LNull (L o)) (chars "null")
| value_enum o n : name n -> ~ In n ["true"; "false"; "null"]%string -> value o (LEnum (L o) n) (chars n)
| value_list_empty o w : blanks w -> value o (LList (L o) []) ("[" :: w ++ ["]"])
| value_list o vs t : bracketed "[" "]" value o vs t -> value o (LList (L o) vs) t
| value_object_empty o w : blanks w -> value o (LObject (L o) []) ("{" :: w ++ ["}"])
| value_object o fs t : bracketed "{" "}" (named value) o fs t -> value o (LObject (L o) fs) t.

(** http://spec.graphql.org/June2018/#sec-Type-References *)
Inductive type_ref : tref -> text -> Prop :=
| type_named n : name n -> type_ref (TNamed n) (chars n)
| type_list w1 t x w2 : blanks w1 -> type_ref t x -> blanks w2 -> type_ref (TListOf t) ("[" :: w1 ++ x ++ w2 ++ ["]"])
| type_non_null t x w : type_ref t x -> (forall u, t <> TNonNull u) -> blanks w -> type_ref (TNonNull t) (x ++ w ++ ["!"]).

(** http://spec.graphql.org/June2018/#sec-Language.Arguments *)
Definition arguments : nat -> list argument -> text -> Prop := bracketed "(" ")" (named value).

(** http://spec.graphql.org/June2018/#sec-Language.Directives *)
Inductive directive_use : nat -> directive -> text -> Prop :=
| directive_named o n a t : name n -> optional arguments (o + 1 + length (chars n)) a t ->
    directive_use o (mkDir (L o) n a) ("@" :: chars n ++ t).
Definition directives : nat -> list directive -> text -> Prop := items some_blanks directive_use.

(** [on] and the name of a type. *)
Inductive condition : nat -> schema_location * string -> text -> Prop :=
| condition_on o w n : some_blanks w -> name n -> condition o (L o, n) (chars "on" ++ w ++ chars n).

(** The alias of a field. *)
Inductive alias : option string -> text -> Prop :=
| alias_none : alias None []
| alias_some n w1 w2 : name n -> blanks w1 -> blanks w2 -> alias (Some n) (chars n ++ w1 ++ ":" :: w2).

(** http://spec.graphql.org/June2018/#sec-Selection-Sets *)
Inductive subfields (P : nat -> selection -> text -> Prop) : nat -> option (schema_location * list selection) -> text -> Prop :=
| subfields_none o : subfields P o None []
| subfields_some o w ss t : blanks w -> bracketed "{" "}" P (o + length w) ss t ->
    subfields P o (Some (L (o + length w), ss)) (w ++ t).
Inductive on_type : nat -> option (schema_location * string) -> text -> Prop :=
| on_type_none o : on_type o None []
| on_type_some o w c t : blanks w -> condition (o + length w) c t -> on_type o (Some c) (w ++ t).

Inductive selects : nat -> selection -> text -> Prop :=
| selects_field o al ta n args targs dirs tdirs sub tsub : alias al ta -> name n ->
    optional arguments (o + length ta + length (chars n)) args targs ->
    optional directives (o + length ta + length (chars n) + length targs) dirs tdirs ->
    subfields selects (o + length ta + length (chars n) + length targs + length tdirs) sub tsub ->
    selects o (SField (L o) al n args dirs sub) (ta ++ chars n ++ targs ++ tdirs ++ tsub)
| selects_spread o w n dirs tdirs : blanks w -> name n -> n <> "on"%string ->
    optional directives (o + 3 + length w + length (chars n)) dirs tdirs ->
    selects o (SSpread (L (o + 3)) n dirs) (chars "..." ++ w ++ chars n ++ tdirs)
| selects_inline o c tc dirs tdirs w ss t : on_type (o + 3) c tc ->
    optional directives (o + 3 + length tc) dirs tdirs -> blanks w ->
    bracketed "{" "}" selects (o + 3 + length tc + length tdirs + length w) ss t ->
    selects o (SInline (L (o + 3)) c dirs ss) (chars "..." ++ tc ++ tdirs ++ w ++ t).

Definition selection_set : nat -> list selection -> text -> Prop := bracketed "{" "}" selects.

(** http://spec.graphql.org/June2018/#sec-Language.Variables *)
Inductive default : nat -> option lit -> schema_location -> text -> Prop :=
| default_none o : default o None (mkLoc 0 1) []
| default_some o w1 w2 v t : blanks w1 -> blanks w2 -> value (o + length w1 + 1 + length w2) v t ->
    default o (Some v) (L (o + length w1)) (w1 ++ "=" :: w2 ++ t).
Inductive variable : nat -> variable_def -> text -> Prop :=
| variable_typed o n w1 w2 ty t d dl td : name n -> blanks w1 -> blanks w2 -> type_ref ty t ->
    default (o + 1 + length (chars n) + length w1 + 1 + length w2 + length t) d dl td ->
    variable o (mkVar (L o) n ty (L (o + 1 + length (chars n) + length w1 + 1 + length w2)) d dl)
             ("$" :: chars n ++ w1 ++ ":" :: w2 ++ t ++ td).

(** http://spec.graphql.org/June2018/#sec-Language.Operations *)
Inductive operation_name : option string -> text -> Prop :=
| operation_unnamed : operation_name None []
| operation_named w n : some_blanks w -> name n -> operation_name (Some n) (w ++ chars n).
Inductive operation : nat -> operation_def -> text -> Prop :=
| operation_short o ss t : selection_set o ss t -> operation o (mkOp (L o) None None [] [] ss) t
| operation_long o k n tn vars tv dirs td w ss t : In k ["query"; "mutation"; "subscription"]%string ->
    operation_name n tn ->
    optional (bracketed "(" ")" variable) (o + length (chars k) + length tn) vars tv ->
    optional directives (o + length (chars k) + length tn + length tv) dirs td -> blanks w ->
    selection_set (o + length (chars k) + length tn + length tv + length td + length w) ss t ->
    operation o (mkOp (L o) (Some k) n vars dirs ss) (chars k ++ tn ++ tv ++ td ++ w ++ t).

(** http://spec.graphql.org/June2018/#sec-Language.Fragments *)
Inductive fragment : nat -> fragment_def -> text -> Prop :=
| fragment_on o w1 n w2 lc c tc dirs td w ss t : some_blanks w1 -> name n -> n <> "on"%string -> some_blanks w2 ->
    condition (o + 8 + length w1 + length (chars n) + length w2) (lc, c) tc ->
    optional directives (o + 8 + length w1 + length (chars n) + length w2 + length tc) dirs td -> blanks w ->
    selection_set (o + 8 + length w1 + length (chars n) + length w2 + length tc + length td + length w) ss t ->
    fragment o (mkFrag (L o) n c lc dirs ss) (chars "fragment" ++ w1 ++ chars n ++ w2 ++ tc ++ td ++ w ++ t).

Inductive executable : nat -> definition -> text -> Prop :=
| executable_operation o d t : operation o d t -> executable o (DOp d) t
| executable_fragment o d t : fragment o d t -> executable o (DFrag d) t.

(** http://spec.graphql.org/June2018/#sec-Language.Document; the last comment need not end with a line feed. *)
Definition byte_order_mark : text := utf8 65279.
Inductive trailing : text -> Prop :=
| trailing_blanks w : blanks w -> trailing w
| trailing_comment w body : blanks w -> ~ In (code 10) body -> trailing (w ++ "#" :: body).

Inductive document : list definition -> text -> Prop :=
| document_of bom w ds t end_ : bom = [] \/ bom = byte_order_mark -> blanks w ->
    items blanks executable (length bom + length w) ds t -> trailing end_ ->
    document ds (bom ++ w ++ t ++ end_).
End Spells.
