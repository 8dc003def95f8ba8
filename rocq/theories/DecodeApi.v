(** src/decode/mod.rs.  Definitions only. *)
From Verif Require Import Chars Floats Json Decoders EventBuilder Expand.

(** src/decode/mod.rs:58-78 *)
Definition try_decode_from_lines (lines : list str) (options : option decode_options)
  : result json :=
  let o := resolve_decode_options options in
  let? evs := decode_stream_sync lines (Some (DStreamOpts (Some (rd_indent o))
                                                          (Some (rd_strict o)))) in
  let? n := build_node_from_events evs in
  let? n := match rd_expand o with
            | EPSafe => expand_paths_safe n (rd_strict o)
            | EPOff => Ok n
            end in
  Ok (node_to_json n).

(** src/decode/mod.rs:31-37 *)
Definition try_decode (input : str) (options : option decode_options) : result json :=
  try_decode_from_lines (split_on cLF input) options.

(** src/decode/mod.rs:45-48 and 87-92: the panicking variants. *)
Definition unwrap_result {A} (r : result A) : result A :=
  match r with Ok a => Ok a | Err _ => Err EPanic end.
Definition decode (input : str) (options : option decode_options) : result json :=
  unwrap_result (try_decode input options).
