(** src/decode/decoders.rs.  Definitions only.

    [events: &mut Vec<_>] becomes the list of events a call appends; [cursor: &mut _] is returned.
    Recursion is on fuel; enough fuel is given by [decode_stream_sync] (DecTotal.v shows the
    [EFuel] answer is unreachable). *)
From Verif Require Import Chars Floats Json Shared Scanner Parser DecValidation.

(** src/decode/decoders.rs:18-22, plus the cursor's blank lines. *)
Record dctx := DCtx { dc_strict : bool; dc_blanks : list blank_line }.

(** src/decode/decoders.rs:479-501 *)
Fixpoint field_events (fields : list field_name) (primitives : list prim) : list event :=
  match fields with
  | [] => []
  | f :: fs =>
      EvKey (fn_name f) (fn_quoted f)
      :: EvPrim (match primitives with p :: _ => p | [] => PNull end)
      :: field_events fs (tl primitives)
  end.
Definition yield_object_from_fields (fields : list field_name) (primitives : list prim)
  : list event :=
  EvStartObject :: field_events fields primitives ++ [EvEndObject].

(** src/decode/decoders.rs:205-231 *)
Definition decode_inline_primitive_array (h : array_header) (inline_values : str) (cx : dctx)
  : result (list event) :=
  if is_empty (trim inline_values) then
    let? _ := assert_expected_count CInline 0 (ah_length h) (dc_strict cx) in Ok []
  else
    let values := parse_delimited_values inline_values (ah_delimiter h) in
    let? primitives := map_row_values_to_primitives values in
    let? _ := assert_expected_count CInline (N.of_nat (length primitives)) (ah_length h)
                                    (dc_strict cx) in
    Ok (map EvPrim primitives).

(** [start_line] / [end_line] bookkeeping: they are set together. *)
Definition extend_range (range : option (nat * nat)) (line : nat) : option (nat * nat) :=
  match range with Some (s, _) => Some (s, line) | None => Some (line, line) end.

(** The row loop of src/decode/decoders.rs:245-280. *)
Fixpoint decode_rows (rest : list parsed_line) (last : option parsed_line) (row_depth : nat)
         (h : array_header) (fields : list field_name) (cx : dctx) (count : N)
         (range : option (nat * nat))
  : result (list event * cursor * N * option (nat * nat)) :=
  match rest with
  | line :: r =>
      if ah_length h <=? count then Ok ([], Cursor rest last, count, range)
      else if Nat.eqb (pl_depth line) row_depth then
        let range := extend_range range (pl_line line) in
        let values := parse_delimited_values (pl_content line) (ah_delimiter h) in
        let? _ := assert_expected_count CRowValues (N.of_nat (length values)) (N.of_nat (length fields))
                                        (dc_strict cx) in
        let? primitives := map_row_values_to_primitives values in
        let? (evs, c, n, rg) := decode_rows r (Some line) row_depth h fields cx (count + 1) range in
        Ok (yield_object_from_fields fields primitives ++ evs, c, n, rg)
      else Ok ([], Cursor rest last, count, range)
  | [] => Ok ([], Cursor rest last, count, range)
  end.

(** src/decode/decoders.rs:233-298 *)
Definition decode_tabular_array (h : array_header) (fields : list field_name) (c : cursor)
           (base_depth : nat) (cx : dctx) : result (list event * cursor) :=
  let? (evs, c, count, range) :=
    decode_rows (cu_rest c) (cu_last c) (S base_depth) h fields cx 0 None in
  let? _ := assert_expected_count CRows count (ah_length h) (dc_strict cx) in
  let? _ := validate_blank_range CRows range (dc_blanks cx) (dc_strict cx) in
  let? _ := validate_no_extra_tabular_rows (peek c) (S base_depth) (ah_delimiter h) (ah_length h)
                                           (dc_strict cx) in
  Ok (evs, c).

(** src/decode/decoders.rs:321-322 *)
Definition is_list_item (content : str) : bool :=
  starts_with_str LIST_ITEM_PREFIX content || str_eqb content LIST_ITEM_MARKER.

Fixpoint decode_key_value (fuel : nat) (content : str) (c : cursor) (base_depth : nat)
         (cx : dctx) {struct fuel} : result (list event * cursor) :=
  (* src/decode/decoders.rs:92-138 *)
  match fuel with
  | O => Err EFuel
  | S fuel =>
      let? header := parse_array_header_line content DEFAULT_DELIMITER in
      let plain :=
        let? (key, e, is_quoted) := parse_key_token content 0 in
        let rest := trim (skipn e content) in
        if is_empty rest then
          let nested := match peek c with
                        | Some next => Nat.ltb base_depth (pl_depth next)
                        | None => false
                        end in
          if nested then
            let? (evs, c) := decode_object_fields fuel c (S base_depth) None cx in
            Ok (EvKey key is_quoted :: EvStartObject :: evs ++ [EvEndObject], c)
          else Ok ([EvKey key is_quoted; EvStartObject; EvEndObject], c)
        else
          let? p := parse_primitive_token rest in
          Ok ([EvKey key is_quoted; EvPrim p], c) in
      match header with
      | Some (h, inline_values) =>
          match ah_key h with
          | Some key =>
              let? (evs, c) := decode_array_from_header fuel h inline_values c base_depth cx in
              Ok (EvKey key (ah_quoted h) :: evs, c)
          | None => plain
          end
      | None => plain
      end
  end

with decode_object_fields (fuel : nat) (c : cursor) (base_depth : nat)
       (computed_depth : option nat) (cx : dctx) {struct fuel} : result (list event * cursor) :=
  (* src/decode/decoders.rs:140-170 *)
  match fuel with
  | O => Err EFuel
  | S fuel =>
      match peek c with
      | None => Ok ([], c)
      | Some line =>
          if Nat.ltb (pl_depth line) base_depth then Ok ([], c)
          else
            let depth := unwrap_or computed_depth (pl_depth line) in
            if Nat.eqb (pl_depth line) depth then
              let? (e1, c1) := decode_key_value fuel (pl_content line) (advance c)
                                                (pl_depth line) cx in
              let? (e2, c2) := decode_object_fields fuel c1 base_depth (Some depth) cx in
              Ok (e1 ++ e2, c2)
            else Ok ([], c)
      end
  end

with decode_array_from_header (fuel : nat) (h : array_header) (inline_values : option str)
       (c : cursor) (base_depth : nat) (cx : dctx) {struct fuel}
  : result (list event * cursor) :=
  (* src/decode/decoders.rs:172-203; decode_list_array_sync (300-367) inlined around its loop *)
  match fuel with
  | O => Err EFuel
  | S fuel =>
      let? (evs, c) :=
        match inline_values, ah_fields h with
        | Some iv, _ => let? evs := decode_inline_primitive_array h iv cx in Ok (evs, c)
        | None, Some (f :: fs) => decode_tabular_array h (f :: fs) c base_depth cx
        | None, _ =>
            let? (evs, c, count, range) :=
              decode_list_items fuel c (S base_depth) (ah_length h) 0 None cx in
            let? _ := assert_expected_count CItems count (ah_length h) (dc_strict cx) in
            let? _ := validate_blank_range CItems range (dc_blanks cx) (dc_strict cx) in
            let? _ := validate_no_extra_list_items (peek c) (S base_depth) (ah_length h) (dc_strict cx) in
            Ok (evs, c)
        end in
      Ok (EvStartArray (ah_length h) :: evs ++ [EvEndArray], c)
  end

with decode_list_items (fuel : nat) (c : cursor) (item_depth : nat) (len : N) (count : N)
       (range : option (nat * nat)) (cx : dctx) {struct fuel}
  : result (list event * cursor * N * option (nat * nat)) :=
  (* the loop of src/decode/decoders.rs:312-339 *)
  match fuel with
  | O => Err EFuel
  | S fuel =>
      match peek c with
      | None => Ok ([], c, count, range)
      | Some line =>
          if len <=? count then Ok ([], c, count, range)
          else if Nat.eqb (pl_depth line) item_depth && is_list_item (pl_content line) then
            let range := extend_range range (pl_line line) in
            let? (e1, c1) := decode_list_item fuel c item_depth cx in
            let range := match cu_last c1 with
                         | Some cur => extend_range range (pl_line cur)
                         | None => range
                         end in
            let? (e2, c2, n, rg) := decode_list_items fuel c1 item_depth len (count + 1) range cx in
            Ok (e1 ++ e2, c2, n, rg)
          else Ok ([], c, count, range)
      end
  end

with decode_list_item (fuel : nat) (c : cursor) (base_depth : nat) (cx : dctx) {struct fuel}
  : result (list event * cursor) :=
  (* src/decode/decoders.rs:369-477 *)
  match fuel with
  | O => Err EFuel
  | S fuel =>
      match peek c with
      | None => Err EExpectedListItem
      | Some line =>
          let c := advance c in
          if str_eqb (pl_content line) LIST_ITEM_MARKER then Ok ([EvStartObject; EvEndObject], c)
          else if negb (starts_with_str LIST_ITEM_PREFIX (pl_content line)) then
            Err EExpectedListItem
          else
            let after_hyphen := skipn 2 (pl_content line) in
            if is_empty (trim after_hyphen) then Ok ([EvStartObject; EvEndObject], c)
            else
              let? h1 := (if is_array_header_content after_hyphen
                          then parse_array_header_line after_hyphen DEFAULT_DELIMITER
                          else Ok None) in
              match h1 with
              | Some (h, iv) => decode_array_from_header fuel h iv c base_depth cx
              | None =>
                  let? h2 := parse_array_header_line after_hyphen DEFAULT_DELIMITER in
                  let rest :=
                    if is_key_value_content after_hyphen then
                      let? (e1, c1) := decode_key_value fuel after_hyphen c (S base_depth) cx in
                      let? (e2, c2) := decode_follow fuel c1 (S base_depth) cx in
                      Ok (EvStartObject :: e1 ++ e2 ++ [EvEndObject], c2)
                    else
                      let? p := parse_primitive_token after_hyphen in
                      Ok ([EvPrim p], c) in
                  match h2 with
                  | Some (h, iv) =>
                      match ah_key h, ah_fields h with
                      | Some key, Some _ =>
                          let? (e1, c1) := decode_array_from_header fuel h iv c (S base_depth) cx in
                          let? (e2, c2) := decode_follow fuel c1 (S base_depth) cx in
                          Ok (EvStartObject :: EvKey key (ah_quoted h) :: e1 ++ e2 ++ [EvEndObject],
                              c2)
                      | _, _ => rest
                      end
                  | None => rest
                  end
              end
      end
  end

with decode_follow (fuel : nat) (c : cursor) (follow_depth : nat) (cx : dctx) {struct fuel}
  : result (list event * cursor) :=
  (* the loops of src/decode/decoders.rs:427-442 and 452-467 *)
  match fuel with
  | O => Err EFuel
  | S fuel =>
      match peek c with
      | None => Ok ([], c)
      | Some line =>
          if Nat.eqb (pl_depth line) follow_depth
             && negb (starts_with_str LIST_ITEM_PREFIX (pl_content line)) then
            let? (e1, c1) := decode_key_value fuel (pl_content line) (advance c) follow_depth cx in
            let? (e2, c2) := decode_follow fuel c1 follow_depth cx in
            Ok (e1 ++ e2, c2)
          else Ok ([], c)
      end
  end.

(** The root loop of src/decode/decoders.rs:76-86. *)
Fixpoint decode_root_fields (fuel : nat) (c : cursor) (cx : dctx)
  : result (list event * cursor) :=
  match fuel with
  | O => Err EFuel
  | S fuel' =>
      match peek c with
      | None => Ok ([], c)
      | Some line =>
          if negb (Nat.eqb (pl_depth line) 0) then Ok ([], c)
          else
            let? (e1, c1) := decode_key_value fuel' (pl_content line) (advance c) 0 cx in
            let? (e2, c2) := decode_root_fields fuel' c1 cx in
            Ok (e1 ++ e2, c2)
      end
  end.

(** src/decode/decoders.rs:503-512 *)
Definition is_key_value_line (content : str) : bool :=
  if starts_with cDQ content then
    match find_closing_quote content 0 with
    | Some closing => contains cCOLON (skipn (S closing) content)
    | None => false
    end
  else contains cCOLON content.

(** src/decode/decoders.rs:47-89: everything after the scan.  The cursor is returned as well. *)
Definition dec_fuel (lines : list parsed_line) : nat := 5 * length lines + 8.
Definition decode_lines (lines : list parsed_line) (cx : dctx) : result (list event * cursor) :=
  match lines with
  | [] => Ok ([EvStartObject; EvEndObject], Cursor [] None)
  | first :: rest =>
      let fuel := dec_fuel lines in
      let c := Cursor rest (Some first) in
      let? h := (if is_array_header_content (pl_content first)
                 then parse_array_header_line (pl_content first) DEFAULT_DELIMITER
                 else Ok None) in
      match h with
      | Some (h, iv) => decode_array_from_header fuel h iv c 0 cx
      | None =>
          if at_end c && negb (is_key_value_line (pl_content first)) then
            let? p := parse_primitive_token (trim (pl_content first)) in
            Ok ([EvPrim p], c)
          else
            let? (e1, c1) := decode_key_value fuel (pl_content first) c 0 cx in
            let? (e2, c2) := decode_root_fields fuel c1 cx in
            Ok (EvStartObject :: e1 ++ e2 ++ [EvEndObject], c2)
      end
  end.

(** src/decode/decoders.rs:30-90 *)
Definition decode_stream_sync (source : list str) (options : option dstream_options)
  : result (list event) :=
  let o := unwrap_or options (DStreamOpts None None) in
  let indent := unwrap_or (dso_indent o) 2%nat in
  let strict := unwrap_or (dso_strict o) true in
  let? (lines, st) := parse_lines_sync source indent strict create_scan_state in
  let? (evs, _) := decode_lines lines (DCtx strict (ss_blanks st)) in
  Ok evs.
