(** src/encode/mod.rs.  Definitions only. *)
From Verif Require Import Chars Floats Json Shared EncPrim Normalize Folding Encoders Replacer.

(** The value handed to the encoder: normalised, then replaced
    (src/encode/mod.rs:29-34 and 48-53).  [fuel] is for the replacer only. *)
Definition prepare (fuel : nat) (v : json) (o : renc_options) : result json :=
  let normalized := normalize_json_value v in
  match ro_replacer o with
  | Some rep => match apply_replacer fuel normalized rep with
                | Some r => Ok r
                | None => Err EFuel
                end
  | None => Ok normalized
  end.

(** src/encode/mod.rs:27-36 *)
Definition encode_lines (fuel : nat) (v : json) (options : option encode_options)
  : result (list str) :=
  let o := resolve_encode_options options in
  let? r := prepare fuel v o in
  encode_json_value r o.

(** src/encode/mod.rs:22-25 *)
Definition encode (fuel : nat) (v : json) (options : option encode_options) : result str :=
  let? ls := encode_lines fuel v options in
  Ok (join cLF ls).

(** src/encode/mod.rs:60-84 *)
Fixpoint emit_events (v : json) : list event :=
  match v with
  | JPrim p => [EvPrim p]
  | JArr l => EvStartArray (N.of_nat (length l)) :: flat_map emit_events l ++ [EvEndArray]
  | JObj l =>
      EvStartObject ::
      flat_map (fun kv => EvKey (fst kv) (negb (is_valid_unquoted_key (fst kv)))
                          :: emit_events (snd kv)) l ++ [EvEndObject]
  end.

(** src/encode/mod.rs:43-58 *)
Definition encode_stream_events (fuel : nat) (v : json) (options : option encode_options)
  : result (list event) :=
  let o := resolve_encode_options options in
  let? r := prepare fuel v o in
  Ok (emit_events r).
