(** How deeply the calls of src/encode/encoders.rs nest.  Definitions only.

    The functions of Encoders.v once more, counting open calls as DecFrames.v does.  Counted are the
    functions of the file that call each other: [encode_json_value], [encode_object_lines],
    [encode_key_value_pair_lines], [encode_array_lines], [encode_mixed_array_as_list_items_lines],
    [encode_list_item_value_lines] and [encode_object_as_list_item_lines].  Key folding, the line
    builders, inline arrays and tables are not recursive and do not call back. *)
From Verif Require Import Chars Floats Json Shared EncPrim Normalize Folding Encoders Decoders DecFrames.

(** A loop that calls [f] on each element. *)
Definition concat_counted {A} (f : A -> counted (list str)) : list A -> counted (list str) :=
  fix go l :=
    match l with
    | [] => here (Ok [])
    | x :: r => let! a := call (f x) in let! b := go r in here (Ok (a ++ b))
    end.

Fixpoint object_lines_frames (fuel : nat) (value : list (str * json)) (depth : nat)
         (o : renc_options) (root_literal_keys : option (list str)) (path_prefix : option str)
         (remaining_depth : option N) {struct fuel} : counted (list str) :=
  (* src/encode/encoders.rs:36-75 *)
  match fuel with
  | O => here (Err EFuel)
  | S fuel =>
      let keys := map fst value in
      let root_literal_keys :=
        match depth, root_literal_keys with
        | O, None => Some (filter (contains cDOT) keys)
        | _, r => r
        end in
      let eff := unwrap_or remaining_depth (ro_flatten_depth o) in
      concat_counted (fun kv => pair_frames fuel (fst kv) (snd kv) depth o keys
                                  root_literal_keys path_prefix eff) value
  end

with pair_frames (fuel : nat) (key : str) (value : json) (depth : nat)
       (o : renc_options) (siblings : list str) (root_literal_keys : option (list str))
       (path_prefix : option str) (flatten_depth : N) {struct fuel} : counted (list str) :=
  (* src/encode/encoders.rs:78-179 *)
  match fuel with
  | O => here (Err EFuel)
  | S fuel =>
      let current_path := path_join path_prefix key in
      let plain :=
        match value with
        | JPrim p =>
            here (Ok [indented_key_value_line depth (encode_key key)
                  (encode_primitive p (ro_delimiter o)) (ro_indent o)])
        | JArr items => call (array_lines_frames fuel (Some key) items depth o)
        | JObj entries =>
            let first := indented_key_colon_line depth (encode_key key) (ro_indent o) in
            if is_empty entries then here (Ok [first])
            else
              let! rest := call (object_lines_frames fuel entries (S depth) o root_literal_keys
                                   (Some current_path) (Some flatten_depth)) in
              here (Ok (first :: rest))
        end in
      match try_fold_key_chain key value siblings o root_literal_keys path_prefix flatten_depth with
      | None => plain
      | Some fr =>
          let encoded_key := encode_key (fr_key fr) in
          match fr_remainder fr, fr_leaf fr with
          | None, JPrim p =>
              here (Ok [indented_key_value_line depth encoded_key
                    (encode_primitive p (ro_delimiter o)) (ro_indent o)])
          | None, JArr items => call (array_lines_frames fuel (Some (fr_key fr)) items depth o)
          | None, JObj entries =>
              if is_empty entries then
                here (Ok [indented_key_colon_line depth encoded_key (ro_indent o)])
              else plain
          | Some (JObj entries), _ =>
              let remaining := flatten_depth - N.of_nat (fr_count fr) in
              let folded_path := path_join path_prefix (fr_key fr) in
              let! rest := call (object_lines_frames fuel entries (S depth) o root_literal_keys
                                   (Some folded_path) (Some remaining)) in
              here (Ok (indented_key_colon_line depth encoded_key (ro_indent o) :: rest))
          | Some _, _ => plain
          end
      end
  end

with array_lines_frames (fuel : nat) (key : option str) (value : list json) (depth : nat)
       (o : renc_options) {struct fuel} : counted (list str) :=
  (* src/encode/encoders.rs:181-221; the [call] of [mixed] is that of
     encode_mixed_array_as_list_items_lines (342-355) *)
  match fuel with
  | O => here (Err EFuel)
  | S fuel =>
      let mixed :=
        let h := format_header (length value) key None (ro_delimiter o) in
        call
          (let! rest := concat_counted
                          (fun item => item_value_frames fuel item (S depth) o) value in
           here (Ok (indented_line depth h (ro_indent o) :: rest))) in
      if is_empty value then
        here (Ok [indented_line depth (format_header 0 key None (ro_delimiter o)) (ro_indent o)])
      else if is_array_of_primitives value then
        here (Ok [indented_line depth (encode_inline_array_line value (ro_delimiter o) key) (ro_indent o)])
      else if is_array_of_arrays value &&
              forallb (fun item => match item with
                                   | JArr items => is_array_of_primitives items
                                   | _ => false
                                   end) value then
        here (Ok (encode_array_of_arrays_as_list_items_lines key value depth o))
      else if is_array_of_objects value then
        match extract_tabular_header value with
        | Some header => here (encode_array_of_objects_as_tabular_lines key value header depth o)
        | None => mixed
        end
      else mixed
  end

with item_value_frames (fuel : nat) (value : json) (depth : nat)
       (o : renc_options) {struct fuel} : counted (list str) :=
  (* src/encode/encoders.rs:453-480 *)
  match fuel with
  | O => here (Err EFuel)
  | S fuel =>
      match value with
      | JPrim p =>
          here (Ok [indented_list_item depth (encode_primitive p (ro_delimiter o)) (ro_indent o)])
      | JArr items =>
          if is_array_of_primitives items then
            here (Ok [indented_list_item depth (encode_inline_array_line items (ro_delimiter o) None)
                  (ro_indent o)])
          else
            let h := format_header (length items) None None (ro_delimiter o) in
            let! rest := concat_counted
                           (fun item => item_value_frames fuel item (S depth) o) items in
            here (Ok (indented_list_item depth h (ro_indent o) :: rest))
      | JObj entries => call (object_item_frames fuel entries depth o)
      end
  end

with object_item_frames (fuel : nat) (obj : list (str * json)) (depth : nat)
       (o : renc_options) {struct fuel} : counted (list str) :=
  (* src/encode/encoders.rs:357-451 *)
  match fuel with
  | O => here (Err EFuel)
  | S fuel =>
      match obj with
      | [] => here (Ok [indented_line depth [cMINUS] (ro_indent o)])
      | (first_key, first_value) :: rest =>
          let rest_lines :=
            if is_empty rest then here (Ok [])
            else call (object_lines_frames fuel rest (S depth) o None None None) in
          let encoded_key := encode_key first_key in
          let tabular :=
            match first_value with
            | JArr items =>
                if is_array_of_objects items then extract_tabular_header items else None
            | _ => None
            end in
          let! head :=
            match first_value, tabular with
            | JArr items, Some header =>
                let h := format_header (length items) (Some first_key) (Some header)
                           (ro_delimiter o) in
                let! rows := here (write_tabular_rows_lines items header (S (S depth)) o) in
                here (Ok (indented_list_item depth h (ro_indent o) :: rows))
            | JPrim p, _ =>
                here (Ok [indented_list_item_key_value depth encoded_key
                      (encode_primitive p (ro_delimiter o)) (ro_indent o)])
            | JArr items, None =>
                if is_empty items then
                  here (Ok [indented_list_item_key_header depth encoded_key
                        (format_header 0 None None (ro_delimiter o)) (ro_indent o)])
                else if is_array_of_primitives items then
                  here (Ok [indented_list_item_key_header depth encoded_key
                        (encode_inline_array_line items (ro_delimiter o) None) (ro_indent o)])
                else
                  let h := format_header (length items) None None (ro_delimiter o) in
                  let! ls := concat_counted
                               (fun item => item_value_frames fuel item (S (S depth)) o)
                               items in
                  here (Ok (indented_list_item_key_header depth encoded_key h (ro_indent o) :: ls))
            | JObj entries, _ =>
                let first := indented_list_item_key_colon depth encoded_key (ro_indent o) in
                if is_empty entries then here (Ok [first])
                else
                  let! ls := call (object_lines_frames fuel entries (S (S depth)) o None None None) in
                  here (Ok (first :: ls))
            end in
          let! tl := rest_lines in
          here (Ok (head ++ tl))
      end
  end.

(** src/encode/encoders.rs:16-34, its own frame included. *)
Definition json_value_frames (v : json) (o : renc_options) : counted (list str) :=
  call
    match v with
    | JPrim p =>
        let encoded := encode_primitive p (ro_delimiter o) in
        if is_empty encoded then here (Ok []) else here (Ok [encoded])
    | JArr items => call (array_lines_frames (enc_fuel v) None items 0 o)
    | JObj entries => call (object_lines_frames (enc_fuel v) entries 0 o None None None)
    end.
