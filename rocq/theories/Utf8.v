(** UTF-8, as core::str and core::char use it.  Definitions only. *)
From Verif Require Import Chars.

Definition bytes := list N.

(** Unicode scalar values: what a Rust [char] can be. *)
Definition scalar (c : char) : Prop := c < 1114112 /\ ~ (55296 <= c /\ c <= 57343).

(** char::encode_utf8 *)
Definition utf8_char (c : char) : bytes :=
  if c <? 128 then [c]
  else if c <? 2048 then [192 + c / 64; 128 + c mod 64]
  else if c <? 65536 then [224 + c / 4096; 128 + c / 64 mod 64; 128 + c mod 64]
  else [240 + c / 262144; 128 + c / 4096 mod 64; 128 + c / 64 mod 64; 128 + c mod 64].
(** str::as_bytes *)
Definition utf8 (s : str) : bytes := flat_map utf8_char s.

(** std::str::from_utf8, which String::read_to_string relies on: the well-formed sequences of the
    Unicode standard, table 3-7. *)
Definition cont (b : N) : bool := (128 <=? b) && (b <=? 191).
Definition valid3 (c : N) : bool := (2048 <=? c) && negb ((55296 <=? c) && (c <=? 57343)).
Definition valid4 (c : N) : bool := (65536 <=? c) && (c <? 1114112).
Definition put_char (c : char) (r : option str) : option str := option_map (cons c) r.
Fixpoint from_utf8 (b : bytes) : option str :=
  match b with
  | [] => Some []
  | b0 :: r =>
      if b0 <? 128 then put_char b0 (from_utf8 r)
      else if b0 <? 194 then None
      else if b0 <? 224 then
        match r with
        | b1 :: r => if cont b1 then put_char ((b0 - 192) * 64 + (b1 - 128)) (from_utf8 r) else None
        | _ => None
        end
      else if b0 <? 240 then
        match r with
        | b1 :: b2 :: r =>
            let c := (b0 - 224) * 4096 + (b1 - 128) * 64 + (b2 - 128) in
            if cont b1 && cont b2 && valid3 c then put_char c (from_utf8 r) else None
        | _ => None
        end
      else if b0 <? 245 then
        match r with
        | b1 :: b2 :: b3 :: r =>
            let c := (b0 - 240) * 262144 + (b1 - 128) * 4096 + (b2 - 128) * 64 + (b3 - 128) in
            if cont b1 && cont b2 && cont b3 && valid4 c then put_char c (from_utf8 r) else None
        | _ => None
        end
      else None
  end.
