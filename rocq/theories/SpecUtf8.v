(** UTF-8 as RFC 3629, section 3 describes it, and the Unicode property White_Space as a list. *)
From Verif Require Import Chars.

(** One character and its bytes: the bits of the character are spread over the bytes.  Every
    character has one form, the shortest; surrogates have none. *)
Inductive spelled_char : N -> list N -> Prop :=
| one_byte c : c <= 127 -> spelled_char c [c]
| two_bytes c x y : 128 <= c <= 2047 -> y < 64 -> c = 64 * x + y -> spelled_char c [192 + x; 128 + y]
| three_bytes c x y z : 2048 <= c <= 65535 -> ~ 55296 <= c <= 57343 -> y < 64 -> z < 64 ->
    c = 4096 * x + 64 * y + z -> spelled_char c [224 + x; 128 + y; 128 + z]
| four_bytes c x y z u : 65536 <= c <= 1114111 -> y < 64 -> z < 64 -> u < 64 ->
    c = 262144 * x + 4096 * y + 64 * z + u -> spelled_char c [240 + x; 128 + y; 128 + z; 128 + u].
Inductive spelled : str -> list N -> Prop :=
| spelled_nil : spelled [] []
| spelled_cons c s b r : spelled_char c b -> spelled s r -> spelled (c :: s) (b ++ r).

Definition white_space : list N :=
  [9; 10; 11; 12; 13; 32; 133; 160; 5760; 8192; 8193; 8194; 8195; 8196; 8197; 8198; 8199; 8200; 8201; 8202; 8232; 8233; 8239; 8287; 12288].
