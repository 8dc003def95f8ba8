(** src/encode/encoders.rs.  Definitions only.

    [out: &mut Vec<String>] becomes the list of lines a call appends.  A Rust panic is
    [Err EPanic].  Recursion is on fuel; [jsize] of the value is enough (EncTotal.v). *)
From Verif Require Import Chars Floats Json Shared EncPrim Normalize Folding.

(** src/encode/encoders.rs:482-484 *)
Fixpoint object_get (entries : list (str * json)) (key : str) : option json :=
  match entries with
  | [] => None
  | (k, v) :: r => if str_eqb k key then Some v else object_get r key
  end.

(** src/encode/encoders.rs:486-618: the line builders.  [saturating_mul] does not saturate for
    sizes that fit in memory. *)
Definition indented_line (depth : nat) (content : str) (indent : nat) : str :=
  spaces (indent * depth) ++ content.
Definition indented_key_value_line (depth : nat) (key value : str) (indent : nat) : str :=
  spaces (indent * depth) ++ key ++ [cCOLON; cSPACE] ++ value.
Definition indented_key_colon_line (depth : nat) (key : str) (indent : nat) : str :=
  spaces (indent * depth) ++ key ++ [cCOLON].
Definition indented_list_item (depth : nat) (content : str) (indent : nat) : str :=
  spaces (indent * depth) ++ [cMINUS; cSPACE] ++ content.
Definition indented_list_item_key_value (depth : nat) (key value : str) (indent : nat) : str :=
  spaces (indent * depth) ++ [cMINUS; cSPACE] ++ key ++ [cCOLON; cSPACE] ++ value.
Definition indented_list_item_key_colon (depth : nat) (key : str) (indent : nat) : str :=
  spaces (indent * depth) ++ [cMINUS; cSPACE] ++ key ++ [cCOLON].
Definition indented_list_item_key_header (depth : nat) (key header : str) (indent : nat) : str :=
  spaces (indent * depth) ++ [cMINUS; cSPACE] ++ key ++ header.

(** src/encode/encoders.rs:320-340 *)
Definition row_matches (header : list str) (row : json) : bool :=
  match row with
  | JObj entries =>
      Nat.eqb (length entries) (length header) &&
      forallb (fun key => match object_get entries key with
                          | Some v => is_json_primitive v
                          | None => false
                          end) header
  | _ => false
  end.
Definition is_tabular_array (rows : list json) (header : list str) : bool :=
  forallb (row_matches header) rows.

(** src/encode/encoders.rs:299-318 *)
Definition extract_tabular_header (rows : list json) : option (list str) :=
  match rows with
  | [] => None
  | JObj [] :: _ => None
  | JObj first :: _ =>
      let header := map fst first in
      if is_tabular_array rows header then Some header else None
  | _ :: _ => None
  end.

(** src/encode/encoders.rs:275-297.  Rows that are not objects are skipped by the
    [if let]; a missing key or a non-primitive cell panics. *)
Definition row_cells (header : list str) (entries : list (str * json)) : result (list prim) :=
  map_result (fun key => match object_get entries key with
                         | Some (JPrim p) => Ok p
                         | Some _ => Err EPanic
                         | None => Err EPanic
                         end) header.
Fixpoint write_tabular_rows_lines (rows : list json) (header : list str) (depth : nat)
         (o : renc_options) : result (list str) :=
  match rows with
  | [] => Ok []
  | JObj entries :: r =>
      let? cells := row_cells header entries in
      let joined := encode_and_join_primitives cells (ro_delimiter o) in
      let? rest := write_tabular_rows_lines r header depth o in
      Ok (indented_line depth joined (ro_indent o) :: rest)
  | _ :: r => write_tabular_rows_lines r header depth o
  end.

(** src/encode/encoders.rs:241-260 *)
Definition prims_of (l : list json) : list prim :=
  flat_map (fun v => match v with JPrim p => [p] | _ => [] end) l.
Definition encode_inline_array_line (values : list json) (delimiter : char) (key : option str)
  : str :=
  let primitives := prims_of values in
  let header := format_header (length values) key None delimiter in
  if is_empty primitives then header
  else header ++ cSPACE :: encode_and_join_primitives primitives delimiter.

(** src/encode/encoders.rs:262-273 *)
Definition encode_array_of_objects_as_tabular_lines (key : option str) (rows : list json)
           (header : list str) (depth : nat) (o : renc_options) : result (list str) :=
  let h := format_header (length rows) key (Some header) (ro_delimiter o) in
  let? rest := write_tabular_rows_lines rows header (S depth) o in
  Ok (indented_line depth h (ro_indent o) :: rest).

(** src/encode/encoders.rs:223-239 *)
Definition encode_array_of_arrays_as_list_items_lines (key : option str) (values : list json)
           (depth : nat) (o : renc_options) : list str :=
  indented_line depth (format_header (length values) key None (ro_delimiter o)) (ro_indent o)
  :: flat_map (fun item => match item with
                           | JArr items =>
                               [indented_list_item (S depth)
                                  (encode_inline_array_line items (ro_delimiter o) None)
                                  (ro_indent o)]
                           | _ => []
                           end) values.

(** Concatenate the output of a fallible call over a list. *)
Definition concat_results {A} (f : A -> result (list str)) : list A -> result (list str) :=
  fix go l :=
    match l with
    | [] => Ok []
    | x :: r => let? a := f x in let? b := go r in Ok (a ++ b)
    end.

Fixpoint encode_object_lines (fuel : nat) (value : list (str * json)) (depth : nat)
         (o : renc_options) (root_literal_keys : option (list str)) (path_prefix : option str)
         (remaining_depth : option N) {struct fuel} : result (list str) :=
  (* src/encode/encoders.rs:36-75 *)
  match fuel with
  | O => Err EFuel
  | S fuel =>
      let keys := map fst value in
      let root_literal_keys :=
        match depth, root_literal_keys with
        | O, None => Some (filter (contains cDOT) keys)
        | _, r => r
        end in
      let eff := unwrap_or remaining_depth (ro_flatten_depth o) in
      concat_results (fun kv => encode_key_value_pair_lines fuel (fst kv) (snd kv) depth o keys
                                  root_literal_keys path_prefix eff) value
  end

with encode_key_value_pair_lines (fuel : nat) (key : str) (value : json) (depth : nat)
       (o : renc_options) (siblings : list str) (root_literal_keys : option (list str))
       (path_prefix : option str) (flatten_depth : N) {struct fuel} : result (list str) :=
  (* src/encode/encoders.rs:78-179 *)
  match fuel with
  | O => Err EFuel
  | S fuel =>
      let current_path := path_join path_prefix key in
      let plain :=
        match value with
        | JPrim p =>
            Ok [indented_key_value_line depth (encode_key key)
                  (encode_primitive p (ro_delimiter o)) (ro_indent o)]
        | JArr items => encode_array_lines fuel (Some key) items depth o
        | JObj entries =>
            let first := indented_key_colon_line depth (encode_key key) (ro_indent o) in
            if is_empty entries then Ok [first]
            else
              let? rest := encode_object_lines fuel entries (S depth) o root_literal_keys
                             (Some current_path) (Some flatten_depth) in
              Ok (first :: rest)
        end in
      match try_fold_key_chain key value siblings o root_literal_keys path_prefix flatten_depth with
      | None => plain
      | Some fr =>
          let encoded_key := encode_key (fr_key fr) in
          match fr_remainder fr, fr_leaf fr with
          | None, JPrim p =>
              Ok [indented_key_value_line depth encoded_key
                    (encode_primitive p (ro_delimiter o)) (ro_indent o)]
          | None, JArr items => encode_array_lines fuel (Some (fr_key fr)) items depth o
          | None, JObj entries =>
              if is_empty entries then
                Ok [indented_key_colon_line depth encoded_key (ro_indent o)]
              else plain
          | Some (JObj entries), _ =>
              let remaining := flatten_depth - N.of_nat (fr_count fr) in
              let folded_path := path_join path_prefix (fr_key fr) in
              let? rest := encode_object_lines fuel entries (S depth) o root_literal_keys
                             (Some folded_path) (Some remaining) in
              Ok (indented_key_colon_line depth encoded_key (ro_indent o) :: rest)
          | Some _, _ => plain
          end
      end
  end

with encode_array_lines (fuel : nat) (key : option str) (value : list json) (depth : nat)
       (o : renc_options) {struct fuel} : result (list str) :=
  (* src/encode/encoders.rs:181-221; encode_mixed_array_as_list_items_lines (342-355) inlined *)
  match fuel with
  | O => Err EFuel
  | S fuel =>
      let mixed :=
        let h := format_header (length value) key None (ro_delimiter o) in
        let? rest := concat_results
                       (fun item => encode_list_item_value_lines fuel item (S depth) o) value in
        Ok (indented_line depth h (ro_indent o) :: rest) in
      if is_empty value then
        Ok [indented_line depth (format_header 0 key None (ro_delimiter o)) (ro_indent o)]
      else if is_array_of_primitives value then
        Ok [indented_line depth (encode_inline_array_line value (ro_delimiter o) key) (ro_indent o)]
      else if is_array_of_arrays value &&
              forallb (fun item => match item with
                                   | JArr items => is_array_of_primitives items
                                   | _ => false
                                   end) value then
        Ok (encode_array_of_arrays_as_list_items_lines key value depth o)
      else if is_array_of_objects value then
        match extract_tabular_header value with
        | Some header => encode_array_of_objects_as_tabular_lines key value header depth o
        | None => mixed
        end
      else mixed
  end

with encode_list_item_value_lines (fuel : nat) (value : json) (depth : nat)
       (o : renc_options) {struct fuel} : result (list str) :=
  (* src/encode/encoders.rs:453-480 *)
  match fuel with
  | O => Err EFuel
  | S fuel =>
      match value with
      | JPrim p =>
          Ok [indented_list_item depth (encode_primitive p (ro_delimiter o)) (ro_indent o)]
      | JArr items =>
          if is_array_of_primitives items then
            Ok [indented_list_item depth (encode_inline_array_line items (ro_delimiter o) None)
                  (ro_indent o)]
          else
            let h := format_header (length items) None None (ro_delimiter o) in
            let? rest := concat_results
                           (fun item => encode_list_item_value_lines fuel item (S depth) o) items in
            Ok (indented_list_item depth h (ro_indent o) :: rest)
      | JObj entries => encode_object_as_list_item_lines fuel entries depth o
      end
  end

with encode_object_as_list_item_lines (fuel : nat) (obj : list (str * json)) (depth : nat)
       (o : renc_options) {struct fuel} : result (list str) :=
  (* src/encode/encoders.rs:357-451 *)
  match fuel with
  | O => Err EFuel
  | S fuel =>
      match obj with
      | [] => Ok [indented_line depth [cMINUS] (ro_indent o)]
      | (first_key, first_value) :: rest =>
          let rest_lines :=
            if is_empty rest then Ok []
            else encode_object_lines fuel rest (S depth) o None None None in
          let encoded_key := encode_key first_key in
          let tabular :=
            match first_value with
            | JArr items =>
                if is_array_of_objects items then extract_tabular_header items else None
            | _ => None
            end in
          let? head :=
            match first_value, tabular with
            | JArr items, Some header =>
                let h := format_header (length items) (Some first_key) (Some header)
                           (ro_delimiter o) in
                let? rows := write_tabular_rows_lines items header (S (S depth)) o in
                Ok (indented_list_item depth h (ro_indent o) :: rows)
            | JPrim p, _ =>
                Ok [indented_list_item_key_value depth encoded_key
                      (encode_primitive p (ro_delimiter o)) (ro_indent o)]
            | JArr items, None =>
                if is_empty items then
                  Ok [indented_list_item_key_header depth encoded_key
                        (format_header 0 None None (ro_delimiter o)) (ro_indent o)]
                else if is_array_of_primitives items then
                  Ok [indented_list_item_key_header depth encoded_key
                        (encode_inline_array_line items (ro_delimiter o) None) (ro_indent o)]
                else
                  let h := format_header (length items) None None (ro_delimiter o) in
                  let? ls := concat_results
                               (fun item => encode_list_item_value_lines fuel item (S (S depth)) o)
                               items in
                  Ok (indented_list_item_key_header depth encoded_key h (ro_indent o) :: ls)
            | JObj entries, _ =>
                let first := indented_list_item_key_colon depth encoded_key (ro_indent o) in
                if is_empty entries then Ok [first]
                else
                  let? ls := encode_object_lines fuel entries (S (S depth)) o None None None in
                  Ok (first :: ls)
            end in
          let? tl := rest_lines in
          Ok (head ++ tl)
      end
  end.

(** src/encode/encoders.rs:16-34 *)
Definition enc_fuel (v : json) : nat := 3 * jsize v + 3.
Definition encode_json_value (v : json) (o : renc_options) : result (list str) :=
  match v with
  | JPrim p =>
      let encoded := encode_primitive p (ro_delimiter o) in
      if is_empty encoded then Ok [] else Ok [encoded]
  | JArr items => encode_array_lines (enc_fuel v) None items 0 o
  | JObj entries => encode_object_lines (enc_fuel v) entries 0 o None None None
  end.
