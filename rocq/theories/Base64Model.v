(** Model of src/Base64.cpp and include/graphqlservice/internal/Base64.h.
    A [std::uint8_t] and a [char] are both an [ascii] (8 bits); the arithmetic is done in [N]
    with the C++ masks and shifts written out.  [reserve] calls are not modelled. *)
From Verif Require Import Cpp.
Local Open Scope N_scope.
Local Open Scope char_scope.

Definition u8 (x : N) : ascii := ascii_of_N (x mod 256).  (* static_cast<std::uint8_t> *)
Definition u16 (x : N) : N := x mod 65536.                (* static_cast<uint16_t> *)

(** Base64.h:60 [padding]. *)
Definition padding : ascii := "=".

(** Base64.h:33-41 [Base64::fromBase64(char)]. The C++ compares signed chars; bytes above 127 are
    negative there and above 127 here, so in neither case in any range. *)
Definition from_char (ch : ascii) : N :=
  let c := N_of_ascii ch in
  if (N.leb (N_of_ascii "A") c && N.leb c (N_of_ascii "Z"))%bool then c - N_of_ascii "A"
  else if (N.leb (N_of_ascii "a") c && N.leb c (N_of_ascii "z"))%bool then c - N_of_ascii "a" + 26
  else if (N.leb (N_of_ascii "0") c && N.leb c (N_of_ascii "9"))%bool then c - N_of_ascii "0" + 52
  else if N.eqb c (N_of_ascii "+") then 62
  else if N.eqb c (N_of_ascii "/") then 63
  else 255.

(** Base64.h:47-54 [Base64::toBase64(std::uint8_t)]. *)
Definition to_char (i : N) : ascii :=
  if N.ltb i 26 then ascii_of_N (i + N_of_ascii "A")
  else if N.ltb i 52 then ascii_of_N (i - 26 + N_of_ascii "a")
  else if N.ltb i 62 then ascii_of_N (i - 52 + N_of_ascii "0")
  else if N.eqb i 62 then "+"
  else if N.eqb i 63 then "/"
  else padding.

(** Base64.cpp:11-21 [Base64::verifyFromBase64]. *)
Definition verify_from (ch : ascii) : result N :=
  let r := from_char ch in
  if N.ltb 63 r then Throw (Exn logic_error "invalid character in base64 encoded string") else Ok r.

(** Base64.cpp:93-103 [Base64::verifyToBase64]. *)
Definition verify_to (i : N) : result ascii :=
  let r := to_char i in
  if Ascii.eqb r padding then Throw (Exn logic_error "invalid 6-bit value") else Ok r.

Definition bad_padding {A} : result A :=
  Throw (Exn logic_error "invalid padding at the end of a base64 encoded string").

(** Base64.cpp:83-88: what is left must be 0 - 2 characters of padding. *)
Definition check_rest (s : string) : bool :=
  match s with
  | EmptyString => true
  | String a EmptyString => Ascii.eqb a padding
  | String a (String b EmptyString) => Ascii.eqb a padding && Ascii.eqb b padding
  | _ => false
  end.

(** Base64.cpp:49-90: the part after the loop over full segments. [acc] is the result so far. *)
Definition from_tail (acc : list ascii) (s : string) : result (list ascii) :=
  match s with
  | String a (String b rest) =>
      let third := match rest with String c _ => if Ascii.eqb padding c then None else Some c | EmptyString => None end in
      tail <- match third with Some c => verify_from c | None => Ok 0 end ;;
      va <- verify_from a ;;
      vb <- verify_from b ;;
      let segment := u16 (N.lor (N.lor (N.shiftl va 10) (N.shiftl vb 4)) (N.shiftr tail 2)) in
      match third with
      | Some _ =>
          if negb (N.eqb (N.land tail 3) 0) then bad_padding
          else
            let rest' := match rest with String _ r => r | EmptyString => EmptyString end in
            if check_rest rest'
            then Ok (acc ++ [u8 (N.shiftr (N.land segment 65280) 8); u8 (N.land segment 255)])%list
            else bad_padding
      | None =>
          if negb (N.eqb (N.land segment 255) 0) then bad_padding
          else
            if check_rest rest
            then Ok (acc ++ [u8 (N.shiftr (N.land segment 65280) 8)])%list
            else bad_padding
      end
  | _ => if check_rest s then Ok acc else bad_padding
  end.

(** Base64.cpp:34-47: the loop over full 4 character segments. *)
Fixpoint from_loop (acc : list ascii) (s : string) {struct s} : result (list ascii) :=
  match s with
  | String a (String b (String c (String d rest))) =>
      if Ascii.eqb d padding then from_tail acc s
      else
        va <- verify_from a ;;
        vb <- verify_from b ;;
        vc <- verify_from c ;;
        vd <- verify_from d ;;
        let segment := N.lor (N.lor (N.lor (N.shiftl va 18) (N.shiftl vb 12)) (N.shiftl vc 6)) vd in
        from_loop (acc ++ [u8 (N.shiftr (N.land segment 16711680) 16);
                           u8 (N.shiftr (N.land segment 65280) 8);
                           u8 (N.land segment 255)])%list rest
  | _ => from_tail acc s
  end.

(** Base64.cpp:23-91 [Base64::fromBase64(std::string_view)]. *)
Definition fromBase64 (encoded : string) : result (list ascii) :=
  match encoded with
  | EmptyString => Ok []
  | _ => from_loop [] encoded
  end.

(** Base64.cpp:134-147: the leftover of 0, 1 or 2 bytes. *)
Definition to_tail (acc : string) (bytes : list ascii) : result string :=
  match bytes with
  | [] => Ok acc
  | a :: rest =>
      let snd := match rest with b :: _ => Some b | [] => None end in
      let segment := u16 (N.lor (N.shiftl (N_of_ascii a) 8) (match snd with Some b => N_of_ascii b | None => 0 end)) in
      c0 <- verify_to (N_of_ascii (u8 (N.shiftr (N.land segment 64512) 10))) ;;
      c1 <- verify_to (N_of_ascii (u8 (N.shiftr (N.land segment 1008) 4))) ;;
      c2 <- match snd with
            | Some _ => verify_to (N_of_ascii (u8 (N.shiftl (N.land segment 15) 2)))
            | None => Ok padding
            end ;;
      Ok (acc ++ String c0 (String c1 (String c2 (String padding EmptyString))))%string
  end.

(** Base64.cpp:119-132: the loop over full 3 byte segments. *)
Fixpoint to_loop (acc : string) (bytes : list ascii) {struct bytes} : result string :=
  match bytes with
  | a :: b :: c :: rest =>
      let segment := N.lor (N.lor (N.shiftl (N_of_ascii a) 16) (N.shiftl (N_of_ascii b) 8)) (N_of_ascii c) in
      c0 <- verify_to (N_of_ascii (u8 (N.shiftr (N.land segment 16515072) 18))) ;;
      c1 <- verify_to (N_of_ascii (u8 (N.shiftr (N.land segment 258048) 12))) ;;
      c2 <- verify_to (N_of_ascii (u8 (N.shiftr (N.land segment 4032) 6))) ;;
      c3 <- verify_to (N_of_ascii (u8 (N.land segment 63))) ;;
      to_loop (acc ++ String c0 (String c1 (String c2 (String c3 EmptyString))))%string rest
  | _ => to_tail acc bytes
  end.

(** Base64.cpp:105-150 [Base64::toBase64(const std::vector<std::uint8_t>&)]. *)
Definition toBase64 (bytes : list ascii) : result string :=
  match bytes with
  | [] => Ok EmptyString
  | _ => to_loop EmptyString bytes
  end.
