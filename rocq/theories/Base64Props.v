(** Properties C01 and C02. The specification is Base64Spec.v (RFC 4648 from bit strings). *)
From Verif Require Import Cpp Base64Model Base64Spec Base64Proofs.
Local Open Scope string_scope.

(** C01: toBase64 computes RFC 4648 for every byte sequence. *)
Theorem C01_encode_is_rfc4648 : forall bytes, toBase64 bytes = Ok (rfc4648 bytes).
Proof. exact toBase64_rfc. Qed.
Print Assumptions C01_encode_is_rfc4648.

(** C01: encoding never fails and decoding the text gives the bytes back. *)
Theorem C01_roundtrip : forall bytes, exists text, toBase64 bytes = Ok text /\ fromBase64 text = Ok bytes.
Proof. exact (fun bytes => ex_intro _ _ (conj (toBase64_rfc bytes) (roundtrip bytes))). Qed.
Print Assumptions C01_roundtrip.

(** C01: the text has 4 * ceil(n / 3) characters. *)
Theorem C01_length : forall bytes text,
  toBase64 bytes = Ok text -> String.length text = 4 * ((List.length bytes + 2) / 3).
Proof.
  exact toBase64_length.
Qed.
Print Assumptions C01_length.

(** C01: distinct byte sequences have distinct encodings. *)
Theorem C01_injective : forall b1 b2 text, toBase64 b1 = Ok text -> toBase64 b2 = Ok text -> b1 = b2.
Proof. exact toBase64_injective. Qed.
Print Assumptions C01_injective.

(** C02: exactly which texts are decoded, and to what. A text decodes to [bytes] iff it is the RFC 4648
    encoding of [bytes] with its own padding replaced by k padding characters where k <= 2, and k <= 1 when
    the number of bytes is a multiple of 3. *)
Definition accepted_padding (bytes : list ascii) (k : nat) : Prop :=
  k <= 2 /\ (List.length bytes mod 3 = 0 -> k <= 1).
Theorem C02_decode_iff : forall text bytes,
  fromBase64 text = Ok bytes <->
  exists k, text = rfc4648_unpadded bytes ++ pad k /\ accepted_padding bytes k.
Proof. exact fromBase64_iff'. Qed.
Print Assumptions C02_decode_iff.

(** C02: every other text makes fromBase64 throw std::logic_error; there is no undefined behaviour and
    no other exception. *)
Theorem C02_decode_total : forall text,
  (exists bytes, fromBase64 text = Ok bytes) \/ (exists what, fromBase64 text = Throw (Exn logic_error what)).
Proof. exact fromBase64_total. Qed.
Print Assumptions C02_decode_total.

(** C02: a text with a character outside of the alphabet and padding is never decoded. *)
Theorem C02_decode_alphabet : forall text bytes i c,
  fromBase64 text = Ok bytes -> String.get i text = Some c ->
  (exists j, String.get j alphabet = Some c) \/ c = "="%char.
Proof. exact decode_alphabet. Qed.
Print Assumptions C02_decode_alphabet.

(** The stricter reading "only canonical encodings are decoded" is false of the code. *)
Theorem C02_canonical_only_refuted :
  ~ (forall text bytes, fromBase64 text = Ok bytes -> text = rfc4648 bytes).
Proof. exact canonical_refuted. Qed.
Print Assumptions C02_canonical_only_refuted.

(** Concrete instances. *)
Example C01_example : toBase64 (list_ascii_of_string "Man!") = Ok "TWFuIQ==".
Proof. vm_compute. reflexivity. Qed.
Example C02_example_accept : fromBase64 "TWFuIQ" = Ok (list_ascii_of_string "Man!").
Proof. vm_compute. reflexivity. Qed.
Example C02_example_reject : fromBase64 "TWFuIR==" = Throw (Exn logic_error "invalid padding at the end of a base64 encoded string").
Proof. vm_compute. reflexivity. Qed.
