(** RFC 4648 Base64, written from the RFC: bytes are concatenated to a bit string (most significant bit
    first), padded with zero bits to a multiple of 6, cut in 6 bit groups, each group indexes the alphabet,
    and '=' is appended until the length is a multiple of 4. *)
From Coq Require Import List String Ascii Arith.
Import ListNotations.
Local Open Scope string_scope.

Definition alphabet : string := "ABCDEFGHIJKLMNOPQRSTUVWXYZabcdefghijklmnopqrstuvwxyz0123456789+/".

Definition byte_bits (a : ascii) : list bool :=
  match a with Ascii b0 b1 b2 b3 b4 b5 b6 b7 => [b7; b6; b5; b4; b3; b2; b1; b0] end.

Definition sextet_index (b5 b4 b3 b2 b1 b0 : bool) : nat :=
  fold_left (fun n (b : bool) => 2 * n + (if b then 1 else 0)) [b5; b4; b3; b2; b1; b0] 0.

Definition sextet_char (b5 b4 b3 b2 b1 b0 : bool) : ascii :=
  match String.get (sextet_index b5 b4 b3 b2 b1 b0) alphabet with Some c => c | None => "000"%char end.

(** cut in groups of 6, padding the last group with zero bits *)
Fixpoint sextets (bits : list bool) : string :=
  match bits with
  | b5 :: b4 :: b3 :: b2 :: b1 :: b0 :: rest => String (sextet_char b5 b4 b3 b2 b1 b0) (sextets rest)
  | [b5; b4; b3; b2; b1] => String (sextet_char b5 b4 b3 b2 b1 false) ""
  | [b5; b4; b3; b2] => String (sextet_char b5 b4 b3 b2 false false) ""
  | [b5; b4; b3] => String (sextet_char b5 b4 b3 false false false) ""
  | [b5; b4] => String (sextet_char b5 b4 false false false false) ""
  | [b5] => String (sextet_char b5 false false false false false) ""
  | [] => ""
  end.

Fixpoint pad (k : nat) : string := match k with O => "" | S k' => String "="%char (pad k') end.

(** the encoding without its padding *)
Definition rfc4648_unpadded (bytes : list ascii) : string := sextets (flat_map byte_bits bytes).

(** number of '=' the RFC appends *)
Definition rfc4648_padding (bytes : list ascii) : nat :=
  match List.length bytes mod 3 with 0 => 0 | 1 => 2 | _ => 1 end.

Definition rfc4648 (bytes : list ascii) : string := rfc4648_unpadded bytes ++ pad (rfc4648_padding bytes).
