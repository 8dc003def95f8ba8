(** src/cli/json_stream.rs, src/cli/json_stringify.rs and src/cli/conversion.rs:27-79: JSON text of
    decoded values.  Definitions only.

    The text of a number is made by the library serde_json ([Number::to_string], locked at 1.0.151
    with the printer zmij).  It prints the shortest digits that read back as the number, always with
    a point or an exponent.  Which of two equally near decimals it takes, when it uses an exponent, whether a positive exponent gets a sign, and
    how many digits an exponent has at least, is left open: [num_style] is a parameter of every
    definition below, and every theorem holds for every style. *)
From Coq Require Import SpecFloat.
From Verif Require Import Chars Floats Json Shared Scanner Parser DecValidation Decoders EventBuilder Expand DecodeApi.

Notation cLU := 117.

Record num_style := NumStyle {
  ns_scientific : Z -> bool;   (* given the number of digits before the point *)
  ns_plus : bool;
  ns_width : nat;
  ns_half_up : Z -> bool       (* given the lower of two equally near decimals *)
}.

Definition exponent_text (st : num_style) (e : Z) : str :=
  cLE :: (if (e <? 0)%Z then [cMINUS] else if ns_plus st then [cPLUS] else [])
      ++ pad_left (ns_width st) (dec_of_N (Z.abs_N e)).
Definition scientific (st : num_style) (c : N) (p : Z) : str :=
  match dec_of_N c with
  | [] => []
  | d :: r => d :: (if is_empty r then [] else cDOT :: r) ++ exponent_text st (p + Z.of_nat (length r))
  end.
(** [serde_json::Number::from_f64(x)] printed; [None] for NaN and infinities. *)
Definition number_text (st : num_style) (x : f64) : option str :=
  match f64_sf x with
  | S754_zero s => Some (if s then lit "-0.0" else lit "0.0")
  | S754_finite s m e =>
      let (c, p) := shortest_by (ns_half_up st) m e in
      Some ((if s then [cMINUS] else []) ++
            if ns_scientific st (p + Z.of_nat (length (dec_of_N c))) then scientific st c p
            else if (p <? 0)%Z then format_fixed c p
            else format_fixed c p ++ lit ".0")
  | _ => None
  end.

(** [{:04x}] of a control character. *)
Definition hex_digit (d : N) : char := if d <? 10 then 48 + d else 87 + d.
Definition hex4 (c : char) : str :=
  [hex_digit (c / 4096 mod 16); hex_digit (c / 256 mod 16); hex_digit (c / 16 mod 16); hex_digit (c mod 16)].
Definition unicode_escape (c : char) : str := cBSLASH :: cLU :: hex4 c.

(** [char::is_control]: the general category Cc. *)
Definition is_control (c : char) : bool := (c <? 32) || ((127 <=? c) && (c <=? 159)).

(** src/cli/json_stringify.rs:149-166 *)
Definition push_char (c : char) : str :=
  if c =? cDQ then [cBSLASH; cDQ]
  else if c =? cBSLASH then [cBSLASH; cBSLASH]
  else if c =? cLF then [cBSLASH; cLN]
  else if c =? cCR then [cBSLASH; cLR]
  else if c =? cTAB then [cBSLASH; cLT]
  else if is_control c then unicode_escape c
  else [c].
Definition push_json_string (s : str) : str := cDQ :: flat_map push_char s ++ [cDQ].

(** [serde_json::to_string] of a string. *)
Definition serde_char (c : char) : str :=
  if c =? cDQ then [cBSLASH; cDQ]
  else if c =? cBSLASH then [cBSLASH; cBSLASH]
  else if c =? 8 then [cBSLASH; 98]
  else if c =? 12 then [cBSLASH; 102]
  else if c =? cLF then [cBSLASH; cLN]
  else if c =? cCR then [cBSLASH; cLR]
  else if c =? cTAB then [cBSLASH; cLT]
  else if c <? 32 then unicode_escape c
  else [c].
Definition serde_string (s : str) : str := cDQ :: flat_map serde_char s ++ [cDQ].

(** src/cli/json_stringify.rs:122-138 and src/cli/json_stream.rs:210-220 *)
Definition bool_text (b : bool) : str := if b then lit "true" else lit "false".
Definition stringify_primitive_to_buf (st : num_style) (p : prim) : str :=
  match p with
  | PNull => lit "null"
  | PBool b => bool_text b
  | PNum x => unwrap_or (number_text st x) (lit "null")
  | PStr s => push_json_string s
  end.
Definition stringify_primitive (st : num_style) (p : prim) : str :=
  match p with
  | PNull => lit "null"
  | PBool b => bool_text b
  | PNum x => unwrap_or (number_text st x) (lit "null")
  | PStr s => serde_string s
  end.

(** src/cli/json_stringify.rs:42-120.  A line break and the spaces after it, or nothing. *)
Definition break (indent depth : nat) : str :=
  match indent with O => [] | S _ => cLF :: spaces (depth * indent) end.
Definition comma_unless {A} (last : list A) : str := if is_empty last then [] else [cCOMMA].
Fixpoint stringify_value_to_buf (st : num_style) (indent depth : nat) (v : json) : str :=
  match v with
  | JPrim p => stringify_primitive_to_buf st p
  | JArr l =>
      if is_empty l then lit "[]"
      else cLBRACK
           :: (fix loop (l : list json) : str :=
                 match l with
                 | [] => []
                 | v :: r => break indent (S depth) ++ stringify_value_to_buf st indent (S depth) v
                             ++ comma_unless r ++ loop r
                 end) l
           ++ break indent depth ++ [cRBRACK]
  | JObj l =>
      if is_empty l then lit "{}"
      else cLBRACE
           :: (fix loop (l : list (str * json)) : str :=
                 match l with
                 | [] => []
                 | (k, v) :: r => break indent (S depth) ++ push_json_string k
                                  ++ (match indent with O => lit ":" | S _ => lit ": " end)
                                  ++ stringify_value_to_buf st indent (S depth) v
                                  ++ comma_unless r ++ loop r
                 end) l
           ++ break indent depth ++ [cRBRACE]
  end.

(** src/cli/json_stringify.rs:8-14; the size estimate only reserves memory. *)
Definition json_stringify_lines (st : num_style) (v : json) (indent : nat) : list str :=
  [stringify_value_to_buf st indent 0 v].

(** src/cli/json_stream.rs:5-13.  The top of the stack is the head of a list. *)
Inductive jctx :=
| CObj (needs_comma expect_value : bool)
| CArr (needs_comma : bool).

(** Chunks of src/cli/json_stream.rs:40-43 and alike. *)
Definition break_chunks (indent depth : nat) : list str :=
  match indent with O => [] | S _ => [[cLF]; spaces (depth * indent)] end.
Definition comma_chunks (needs_comma : bool) : list str := if needs_comma then [[cCOMMA]] else [].
(** src/cli/json_stream.rs:34-47, 89-102 and 164-174: what goes before a value. *)
Definition item_prefix (stack : list jctx) (indent depth : nat) : list str :=
  match stack with
  | CArr nc :: _ => comma_chunks nc ++ break_chunks indent depth
  | _ => []
  end.
(** src/cli/json_stream.rs:73-86 and 125-138 *)
Definition close_value (stack : list jctx) : list jctx :=
  match stack with
  | CObj _ _ :: r => CObj true false :: r
  | CArr _ :: r => CArr true :: r
  | [] => []
  end.

(** One event, src/cli/json_stream.rs:30-198: the chunks, the new stack and depth. *)
Definition stream_event (st : num_style) (indent : nat) (e : event) (stack : list jctx) (depth : nat)
  : result (list str * list jctx * nat) :=
  match e with
  | EvStartObject => Ok (item_prefix stack indent depth ++ [[cLBRACE]], CObj false false :: stack, S depth)
  | EvEndObject =>
      match stack with
      | CObj nc _ :: r =>
          let depth := pred depth in
          Ok ((if nc then break_chunks indent depth else []) ++ [[cRBRACE]], close_value r, depth)
      | _ => Err (EJsonStream OEndObject)
      end
  | EvStartArray _ => Ok (item_prefix stack indent depth ++ [[cLBRACK]], CArr false :: stack, S depth)
  | EvEndArray =>
      match stack with
      | CArr nc :: r =>
          let depth := pred depth in
          Ok ((if nc then break_chunks indent depth else []) ++ [[cRBRACK]], close_value r, depth)
      | _ => Err (EJsonStream OEndArray)
      end
  | EvKey key _ =>
      match stack with
      | CObj nc _ :: r =>
          Ok (comma_chunks nc ++ break_chunks indent depth ++ [serde_string key]
              ++ [match indent with O => lit ":" | S _ => lit ": " end], CObj true true :: r, depth)
      | _ => Err (EJsonStream OKey)
      end
  | EvPrim p =>
      match stack with
      | CObj nc ev :: r => if ev then Ok ([stringify_primitive st p], CObj nc false :: r, depth) else Err (EJsonStream OPrim)
      | CArr nc :: r => Ok (item_prefix stack indent depth ++ [stringify_primitive st p], CArr true :: r, depth)
      | [] => Ok ([stringify_primitive st p], [], depth)
      end
  end.
Fixpoint stream_loop (st : num_style) (indent : nat) (evs : list event) (stack : list jctx) (depth : nat) : result (list str) :=
  match evs with
  | [] => if is_empty stack then Ok [] else Err (EJsonStream OEnd)
  | e :: r =>
      let? (out, stack, depth) := stream_event st indent e stack depth in
      let? rest := stream_loop st indent r stack depth in
      Ok (out ++ rest)
  end.
(** src/cli/json_stream.rs:22-208 *)
Definition json_stream_from_events (st : num_style) (evs : list event) (indent : nat) : result (list str) :=
  stream_loop st indent evs [] 0.

(** src/cli/conversion.rs:44-57 *)
Definition cli_decode_events (input : str) (indent : nat) (strict : bool) : result (list event) :=
  decode_stream_sync (split_on cLF input) (Some (DStreamOpts (Some indent) (Some strict))).
(** src/cli/conversion.rs:59-71 *)
Definition decode_to_value (input : str) (o : rdec_options) : result json :=
  let? evs := cli_decode_events input (rd_indent o) (rd_strict o) in
  let? n := build_node_from_events evs in
  let? n := match rd_expand o with
            | EPSafe => expand_paths_safe n (rd_strict o)
            | EPOff => Ok n
            end in
  Ok (node_to_json n).
(** src/cli/conversion.rs:32-42 *)
Definition decode_to_json_chunks (st : num_style) (input : str) (options : option decode_options) : result (list str) :=
  let o := resolve_decode_options options in
  match rd_expand o with
  | EPSafe => let? v := decode_to_value input o in Ok (json_stringify_lines st v (rd_indent o))
  | EPOff => let? evs := cli_decode_events input (rd_indent o) (rd_strict o) in
             json_stream_from_events st evs (rd_indent o)
  end.
(** src/cli/conversion.rs:74-79 *)
Definition json_stringify_null (st : num_style) (indent : nat) : list str :=
  json_stringify_lines st (JPrim PNull) indent.
