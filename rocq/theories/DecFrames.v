(** How deeply the calls of src/decode/decoders.rs nest.  Definitions only.

    The functions of Decoders.v once more, each result with the greatest number of calls that were
    open at one time below the function (its own frame not counted; [call] adds the frame of the
    function called).  Counted are the functions of the file that call each other:
    [decode_stream_sync], [decode_key_value_sync], [decode_object_fields_sync],
    [decode_array_from_header_sync], [decode_list_array_sync] and [decode_list_item_sync].  Every
    other function they call (parser, validation, cursor, inline arrays and tables) is not
    recursive and does not call back; its frames are left out.  A loop adds no frame. *)
From Verif Require Import Chars Floats Json Shared Scanner Parser DecValidation Decoders.

Definition counted (A : Type) : Type := (result A * nat)%type.
(** No counted call. *)
Definition here {A} (r : result A) : counted A := (r, O).
(** One counted call. *)
Definition call {A} (m : counted A) : counted A := (fst m, S (snd m)).
(** One after the other; an error ends the function. *)
Definition andthen {A B} (m : counted A) (f : A -> counted B) : counted B :=
  match fst m with
  | Ok a => (fst (f a), Nat.max (snd m) (snd (f a)))
  | Err e => (Err e, snd m)
  end.
Notation "'let!' x ':=' r 'in' k" := (andthen r (fun x => k))
  (at level 200, x pattern, r at level 100, k at level 200, right associativity).

Fixpoint key_value_frames (fuel : nat) (content : str) (c : cursor) (base_depth : nat)
         (cx : dctx) {struct fuel} : counted (list event * cursor) :=
  (* src/decode/decoders.rs:92-138 *)
  match fuel with
  | O => here (Err EFuel)
  | S fuel =>
      let! header := here (parse_array_header_line content DEFAULT_DELIMITER) in
      let plain :=
        let! (key, e, is_quoted) := here (parse_key_token content 0) in
        let rest := trim (skipn e content) in
        if is_empty rest then
          let nested := match peek c with
                        | Some next => Nat.ltb base_depth (pl_depth next)
                        | None => false
                        end in
          if nested then
            let! (evs, c) := call (object_fields_frames fuel c (S base_depth) None cx) in
            here (Ok (EvKey key is_quoted :: EvStartObject :: evs ++ [EvEndObject], c))
          else here (Ok ([EvKey key is_quoted; EvStartObject; EvEndObject], c))
        else
          let! p := here (parse_primitive_token rest) in
          here (Ok ([EvKey key is_quoted; EvPrim p], c)) in
      match header with
      | Some (h, inline_values) =>
          match ah_key h with
          | Some key =>
              let! (evs, c) := call (array_from_header_frames fuel h inline_values c base_depth cx) in
              here (Ok (EvKey key (ah_quoted h) :: evs, c))
          | None => plain
          end
      | None => plain
      end
  end

with object_fields_frames (fuel : nat) (c : cursor) (base_depth : nat)
       (computed_depth : option nat) (cx : dctx) {struct fuel} : counted (list event * cursor) :=
  (* src/decode/decoders.rs:140-170; the second call below is the next turn of the loop *)
  match fuel with
  | O => here (Err EFuel)
  | S fuel =>
      match peek c with
      | None => here (Ok ([], c))
      | Some line =>
          if Nat.ltb (pl_depth line) base_depth then here (Ok ([], c))
          else
            let depth := unwrap_or computed_depth (pl_depth line) in
            if Nat.eqb (pl_depth line) depth then
              let! (e1, c1) := call (key_value_frames fuel (pl_content line) (advance c)
                                                      (pl_depth line) cx) in
              let! (e2, c2) := object_fields_frames fuel c1 base_depth (Some depth) cx in
              here (Ok (e1 ++ e2, c2))
            else here (Ok ([], c))
      end
  end

with array_from_header_frames (fuel : nat) (h : array_header) (inline_values : option str)
       (c : cursor) (base_depth : nat) (cx : dctx) {struct fuel}
  : counted (list event * cursor) :=
  (* src/decode/decoders.rs:172-203; the [call] is that of decode_list_array_sync (300-367) *)
  match fuel with
  | O => here (Err EFuel)
  | S fuel =>
      let! (evs, c) :=
        match inline_values, ah_fields h with
        | Some iv, _ => let! evs := here (decode_inline_primitive_array h iv cx) in here (Ok (evs, c))
        | None, Some (f :: fs) => here (decode_tabular_array h (f :: fs) c base_depth cx)
        | None, _ =>
            call
              (let! (evs, c, count, range) :=
                 list_items_frames fuel c (S base_depth) (ah_length h) 0 None cx in
               let! _ := here (assert_expected_count CItems count (ah_length h) (dc_strict cx)) in
               let! _ := here (validate_blank_range CItems range (dc_blanks cx) (dc_strict cx)) in
               let! _ := here (validate_no_extra_list_items (peek c) (S base_depth) (ah_length h)
                                                            (dc_strict cx)) in
               here (Ok (evs, c)))
        end in
      here (Ok (EvStartArray (ah_length h) :: evs ++ [EvEndArray], c))
  end

with list_items_frames (fuel : nat) (c : cursor) (item_depth : nat) (len : N) (count : N)
       (range : option (nat * nat)) (cx : dctx) {struct fuel}
  : counted (list event * cursor * N * option (nat * nat)) :=
  (* the loop of src/decode/decoders.rs:312-339 *)
  match fuel with
  | O => here (Err EFuel)
  | S fuel =>
      match peek c with
      | None => here (Ok ([], c, count, range))
      | Some line =>
          if len <=? count then here (Ok ([], c, count, range))
          else if Nat.eqb (pl_depth line) item_depth && is_list_item (pl_content line) then
            let range := extend_range range (pl_line line) in
            let! (e1, c1) := call (list_item_frames fuel c item_depth cx) in
            let range := match cu_last c1 with
                         | Some cur => extend_range range (pl_line cur)
                         | None => range
                         end in
            let! (e2, c2, n, rg) := list_items_frames fuel c1 item_depth len (count + 1) range cx in
            here (Ok (e1 ++ e2, c2, n, rg))
          else here (Ok ([], c, count, range))
      end
  end

with list_item_frames (fuel : nat) (c : cursor) (base_depth : nat) (cx : dctx) {struct fuel}
  : counted (list event * cursor) :=
  (* src/decode/decoders.rs:369-477 *)
  match fuel with
  | O => here (Err EFuel)
  | S fuel =>
      match peek c with
      | None => here (Err EExpectedListItem)
      | Some line =>
          let c := advance c in
          if str_eqb (pl_content line) LIST_ITEM_MARKER then here (Ok ([EvStartObject; EvEndObject], c))
          else if negb (starts_with_str LIST_ITEM_PREFIX (pl_content line)) then
            here (Err EExpectedListItem)
          else
            let after_hyphen := skipn 2 (pl_content line) in
            if is_empty (trim after_hyphen) then here (Ok ([EvStartObject; EvEndObject], c))
            else
              let! h1 := here (if is_array_header_content after_hyphen
                               then parse_array_header_line after_hyphen DEFAULT_DELIMITER
                               else Ok None) in
              match h1 with
              | Some (h, iv) => call (array_from_header_frames fuel h iv c base_depth cx)
              | None =>
                  let! h2 := here (parse_array_header_line after_hyphen DEFAULT_DELIMITER) in
                  let rest :=
                    if is_key_value_content after_hyphen then
                      let! (e1, c1) := call (key_value_frames fuel after_hyphen c (S base_depth) cx) in
                      let! (e2, c2) := follow_frames fuel c1 (S base_depth) cx in
                      here (Ok (EvStartObject :: e1 ++ e2 ++ [EvEndObject], c2))
                    else
                      let! p := here (parse_primitive_token after_hyphen) in
                      here (Ok ([EvPrim p], c)) in
                  match h2 with
                  | Some (h, iv) =>
                      match ah_key h, ah_fields h with
                      | Some key, Some _ =>
                          let! (e1, c1) := call (array_from_header_frames fuel h iv c (S base_depth) cx) in
                          let! (e2, c2) := follow_frames fuel c1 (S base_depth) cx in
                          here (Ok (EvStartObject :: EvKey key (ah_quoted h) :: e1 ++ e2 ++ [EvEndObject],
                                    c2))
                      | _, _ => rest
                      end
                  | None => rest
                  end
              end
      end
  end

with follow_frames (fuel : nat) (c : cursor) (follow_depth : nat) (cx : dctx) {struct fuel}
  : counted (list event * cursor) :=
  (* the loops of src/decode/decoders.rs:427-442 and 452-467 *)
  match fuel with
  | O => here (Err EFuel)
  | S fuel =>
      match peek c with
      | None => here (Ok ([], c))
      | Some line =>
          if Nat.eqb (pl_depth line) follow_depth
             && negb (starts_with_str LIST_ITEM_PREFIX (pl_content line)) then
            let! (e1, c1) := call (key_value_frames fuel (pl_content line) (advance c) follow_depth cx) in
            let! (e2, c2) := follow_frames fuel c1 follow_depth cx in
            here (Ok (e1 ++ e2, c2))
          else here (Ok ([], c))
      end
  end.

(** The root loop of src/decode/decoders.rs:76-86. *)
Fixpoint root_fields_frames (fuel : nat) (c : cursor) (cx : dctx)
  : counted (list event * cursor) :=
  match fuel with
  | O => here (Err EFuel)
  | S fuel' =>
      match peek c with
      | None => here (Ok ([], c))
      | Some line =>
          if negb (Nat.eqb (pl_depth line) 0) then here (Ok ([], c))
          else
            let! (e1, c1) := call (key_value_frames fuel' (pl_content line) (advance c) 0 cx) in
            let! (e2, c2) := root_fields_frames fuel' c1 cx in
            here (Ok (e1 ++ e2, c2))
      end
  end.

(** src/decode/decoders.rs:47-89. *)
Definition lines_frames (lines : list parsed_line) (cx : dctx) : counted (list event * cursor) :=
  match lines with
  | [] => here (Ok ([EvStartObject; EvEndObject], Cursor [] None))
  | first :: rest =>
      let fuel := dec_fuel lines in
      let c := Cursor rest (Some first) in
      let! h := here (if is_array_header_content (pl_content first)
                      then parse_array_header_line (pl_content first) DEFAULT_DELIMITER
                      else Ok None) in
      match h with
      | Some (h, iv) => call (array_from_header_frames fuel h iv c 0 cx)
      | None =>
          if at_end c && negb (is_key_value_line (pl_content first)) then
            let! p := here (parse_primitive_token (trim (pl_content first))) in
            here (Ok ([EvPrim p], c))
          else
            let! (e1, c1) := call (key_value_frames fuel (pl_content first) c 0 cx) in
            let! (e2, c2) := root_fields_frames fuel c1 cx in
            here (Ok (EvStartObject :: e1 ++ e2 ++ [EvEndObject], c2))
      end
  end.

(** src/decode/decoders.rs:30-90, its own frame included. *)
Definition stream_frames (source : list str) (options : option dstream_options)
  : counted (list event) :=
  let o := unwrap_or options (DStreamOpts None None) in
  let indent := unwrap_or (dso_indent o) 2%nat in
  let strict := unwrap_or (dso_strict o) true in
  call
    (let! (lines, st) := here (parse_lines_sync source indent strict create_scan_state) in
     let! (evs, _) := lines_frames lines (DCtx strict (ss_blanks st)) in
     here (Ok evs)).
