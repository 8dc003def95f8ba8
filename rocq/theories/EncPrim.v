(** src/encode/primitives.rs.  Definitions only. *)
From Verif Require Import Chars Floats Json Shared.

(** src/encode/primitives.rs:85-93 *)
Definition format_number (x : f64) : str :=
  if f64_is_zero x then lit "0"
  else if negb (f64_is_finite x) then lit "null"
  else f64_to_string x.

(** src/encode/primitives.rs:20-25 *)
Definition encode_string_literal (s : str) (delimiter : char) : str :=
  if is_safe_unquoted s delimiter then s
  else cDQ :: escape_string s ++ [cDQ].

(** src/encode/primitives.rs:10-17 *)
Definition encode_primitive (p : prim) (delimiter : char) : str :=
  match p with
  | PNull => lit "null"
  | PBool true => lit "true"
  | PBool false => lit "false"
  | PNum x => format_number x
  | PStr s => encode_string_literal s delimiter
  end.

(** src/encode/primitives.rs:28-33 *)
Definition encode_key (key : str) : str :=
  if is_valid_unquoted_key key then key
  else cDQ :: escape_string key ++ [cDQ].

(** src/encode/primitives.rs:36-49 *)
Definition encode_and_join_primitives (values : list prim) (delimiter : char) : str :=
  join delimiter (map (fun p => encode_primitive p delimiter) values).

(** src/encode/primitives.rs:52-83.  [write!("{length}")] prints the decimal digits. *)
Definition format_header (len : nat) (key : option str) (fields : option (list str))
           (delimiter : char) : str :=
  (match key with Some k => encode_key k | None => [] end)
  ++ cLBRACK :: dec_of_N (N.of_nat len)
  ++ (if delimiter =? DEFAULT_DELIMITER then [] else [delimiter])
  ++ cRBRACK ::
  (match fields with
   | Some fs => cLBRACE :: join delimiter (map encode_key fs) ++ [cRBRACE]
   | None => []
   end)
  ++ [cCOLON].
