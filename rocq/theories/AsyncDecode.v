(** src/decode/async_decode.rs.  Definitions only.

    [AsyncDecodeStream] is a state machine; its [poll_next] never returns [Pending].  A method
    that takes [&mut self] and returns a [Result] becomes a function from a state to an answer and
    the state it leaves behind, also when it fails.  [last_depth] and the depth bookkeeping are
    kept although the context stack never holds anything but the root. *)
From Verif Require Import Chars Floats Json Shared Scanner Parser DecValidation Decoders EventBuilder Expand DecodeApi.

(** src/decode/async_decode.rs:44-54.  [base_depth] is always 0 (line 182). *)
Inductive astate := SInitial | SSimple (base_depth : nat) | SArray | SFinished.

(** src/decode/async_decode.rs:71-94.  The line iterator is the list of lines not yet read; the
    event queue's front and the stack's top are the heads of lists.  [error] is never set. *)
Record adec := ADec {
  ad_lines : list str;
  ad_options : dstream_options;
  ad_scan : scan_state;
  ad_queue : list event;
  ad_state : astate;
  ad_stack : list nat;
  ad_buffer : list parsed_line;
  ad_exhausted : bool;
  ad_last : option nat
}.

(** src/decode/async_decode.rs:96-112 *)
Definition adec_new (lines : list str) (options : option dstream_options) : adec :=
  ADec lines (unwrap_or options (DStreamOpts None None)) create_scan_state [] SInitial [] [] false None.

(** src/decode/async_decode.rs:114-122 *)
Definition ad_indent (s : adec) : nat := unwrap_or (dso_indent (ad_options s)) 2%nat.
Definition ad_strict (s : adec) : bool := unwrap_or (dso_strict (ad_options s)) true.

(** Updates of single fields. *)
Definition set_lines l s := ADec l (ad_options s) (ad_scan s) (ad_queue s) (ad_state s) (ad_stack s) (ad_buffer s) (ad_exhausted s) (ad_last s).
Definition set_scan x s := ADec (ad_lines s) (ad_options s) x (ad_queue s) (ad_state s) (ad_stack s) (ad_buffer s) (ad_exhausted s) (ad_last s).
Definition set_queue q s := ADec (ad_lines s) (ad_options s) (ad_scan s) q (ad_state s) (ad_stack s) (ad_buffer s) (ad_exhausted s) (ad_last s).
Definition set_state x s := ADec (ad_lines s) (ad_options s) (ad_scan s) (ad_queue s) x (ad_stack s) (ad_buffer s) (ad_exhausted s) (ad_last s).
Definition set_stack x s := ADec (ad_lines s) (ad_options s) (ad_scan s) (ad_queue s) (ad_state s) x (ad_buffer s) (ad_exhausted s) (ad_last s).
Definition set_buffer b s := ADec (ad_lines s) (ad_options s) (ad_scan s) (ad_queue s) (ad_state s) (ad_stack s) b (ad_exhausted s) (ad_last s).
Definition set_exhausted s := ADec (ad_lines s) (ad_options s) (ad_scan s) (ad_queue s) (ad_state s) (ad_stack s) (ad_buffer s) true (ad_last s).
Definition set_last d s := ADec (ad_lines s) (ad_options s) (ad_scan s) (ad_queue s) (ad_state s) (ad_stack s) (ad_buffer s) (ad_exhausted s) d.

Definition push_event (e : event) (s : adec) : adec := set_queue (ad_queue s ++ [e]) s.
Definition push_line (l : parsed_line) (s : adec) : adec := set_buffer (ad_buffer s ++ [l]) s.

(** [Ok(self.event_queue.pop_front())] *)
Definition pop_queue (s : adec) : result (option event) * adec :=
  match ad_queue s with
  | [] => (Ok None, s)
  | e :: q => (Ok (Some e), set_queue q s)
  end.

(** A line read by the scanner; a failing line has been counted (src/decode/scanner.rs:48). *)
Definition read_line (raw : str) (s : adec) : result (option parsed_line) * adec :=
  match parse_line_incremental raw (ad_scan s) (ad_indent s) (ad_strict s) with
  | Ok (p, st) => (Ok p, set_scan st s)
  | Err e => (Err e, set_scan (ScanState (S (ss_line (ad_scan s))) (ss_blanks (ad_scan s))) s)
  end.

(** src/decode/async_decode.rs:242-281 *)
Definition process_key_value_line (line : parsed_line) (s : adec) : result unit * adec :=
  let content := pl_content line in
  if starts_with_str LIST_ITEM_PREFIX content then (Ok tt, push_line line (set_state SArray s))
  else
    match parse_key_token content 0 with
    | Err e => (Err e, s)
    | Ok (key, e, is_quoted) =>
        let rest := trim (skipn e content) in
        if is_empty rest then (Ok tt, push_line line (set_state SArray s))
        else
          let s := push_event (EvKey key is_quoted) s in
          match parse_primitive_token rest with
          | Err e => (Err e, s)
          | Ok p => (Ok tt, push_event (EvPrim p) s)
          end
    end.

(** src/decode/async_decode.rs:284-303 *)
Definition async_is_key_value_line (content : str) : bool :=
  if starts_with_str LIST_ITEM_PREFIX content then false
  else if starts_with cDQ content then
    match find_closing_quote content 0 with
    | Some closing => contains cCOLON (skipn (S closing) content)
    | None => false
    end
  else contains cCOLON content && is_key_value_content content.

(** Is the line an array header?  src/decode/async_decode.rs:173-175 and 223-225 *)
Definition is_header_line (content : str) : result bool :=
  if is_array_header_content content then
    let? h := parse_array_header_line content DEFAULT_DELIMITER in
    Ok (match h with Some _ => true | None => false end)
  else Ok false.

(** src/decode/async_decode.rs:170-198 *)
Definition process_initial_line (line : parsed_line) (s : adec) : result (option event) * adec :=
  match is_header_line (pl_content line) with
  | Err e => (Err e, s)
  | Ok true => (Ok None, push_line line (set_state SArray s))
  | Ok false =>
      if async_is_key_value_line (pl_content line) then
        let s := push_event EvStartObject (set_stack (0%nat :: ad_stack s) (set_state (SSimple 0) s)) in
        match process_key_value_line line s with
        | (Err e, s) => (Err e, s)
        | (Ok _, s) => pop_queue (set_last (Some (pl_depth line)) s)
        end
      else
        let s := set_state SFinished s in
        match parse_primitive_token (trim (pl_content line)) with
        | Err e => (Err e, s)
        | Ok p => (Ok (Some (EvPrim p)), s)
        end
  end.

(** The loop of src/decode/async_decode.rs:212-220. *)
Fixpoint close_contexts (stack : list nat) (current base : nat) : nat * list nat :=
  match stack with
  | d :: r => if Nat.leb current d && Nat.ltb base d
              then let (n, r) := close_contexts r current base in (S n, r)
              else (O, stack)
  | [] => (O, [])
  end.

(** src/decode/async_decode.rs:201-239 *)
Definition process_simple_object_line (line : parsed_line) (base_depth : nat) (s : adec)
  : result (option event) * adec :=
  let s := match ad_last s with
           | Some last => if Nat.ltb (pl_depth line) last then
                            let (n, stack) := close_contexts (ad_stack s) (pl_depth line) base_depth in
                            set_queue (ad_queue s ++ repeat EvEndObject n) (set_stack stack s)
                          else s
           | None => s
           end in
  match is_header_line (pl_content line) with
  | Err e => (Err e, s)
  | Ok true => pop_queue (push_line line (set_state SArray s))
  | Ok false =>
      match process_key_value_line line s with
      | (Err e, s) => (Err e, s)
      | (Ok _, s) => pop_queue (set_last (Some (pl_depth line)) s)
      end
  end.

(** The loop of src/decode/async_decode.rs:334-340. *)
Fixpoint scan_rest (raws : list str) (s : adec) : result unit * adec :=
  match raws with
  | [] => (Ok tt, set_lines [] s)
  | raw :: r =>
      match read_line raw (set_lines r s) with
      | (Err e, s) => (Err e, s)
      | (Ok (Some line), s) => scan_rest r (push_line line s)
      | (Ok None, s) => scan_rest r s
      end
  end.

(** src/decode/async_decode.rs:330-361 *)
Definition batch_decode_remaining (s : adec) : result (option event) * adec :=
  match scan_rest (ad_lines s) s with
  | (Err e, s) => (Err e, s)
  | (Ok _, s) =>
      match decode_stream_sync (map pl_raw (ad_buffer s)) (Some (ad_options s)) with
      | Err e => (Err e, s)
      | Ok events =>
          pop_queue (set_state SFinished (set_stack [] (set_buffer [] (set_queue (ad_queue s ++ events) s))))
      end
  end.

(** src/decode/async_decode.rs:306-327 *)
Definition finalize (s : adec) : result (option event) * adec :=
  if negb (is_empty (ad_buffer s)) || match ad_state s with SArray => true | _ => false end
  then batch_decode_remaining s
  else
    let s := set_stack [] (set_queue (ad_queue s ++ repeat EvEndObject (length (ad_stack s))) s) in
    match ad_state s with
    | SInitial => pop_queue (push_event EvEndObject (push_event EvStartObject (set_state SFinished s)))
    | _ => pop_queue (set_state SFinished s)
    end.

(** src/decode/async_decode.rs:125-167 *)
Definition process_next (s : adec) : result (option event) * adec :=
  match ad_queue s with
  | e :: q => (Ok (Some e), set_queue q s)
  | [] =>
      match ad_state s with
      | SFinished => (Ok None, s)
      | _ =>
          if ad_exhausted s then finalize s
          else
            match ad_lines s with
            | [] => finalize (set_exhausted s)
            | raw :: r =>
                match read_line raw (set_lines r s) with
                | (Err e, s) => (Err e, s)
                | (Ok None, s) => (Ok None, s)
                | (Ok (Some line), s) =>
                    match ad_state s with
                    | SInitial => process_initial_line line s
                    | SSimple base_depth => process_simple_object_line line base_depth s
                    | SArray => (Ok None, push_line line s)
                    | SFinished => (Ok None, s)
                    end
                end
            end
      end
  end.

(** The loop of poll_next, src/decode/async_decode.rs:364-382; [None] if it does not end in [fuel]
    rounds. *)
Fixpoint poll_loop (fuel : nat) (s : adec) : option (option (result event) * adec) :=
  match fuel with
  | O => None
  | S fuel =>
      match process_next s with
      | (Ok (Some e), s) => Some (Some (Ok e), s)
      | (Ok None, s) =>
          match ad_state s, ad_queue s with
          | SFinished, [] => Some (None, s)
          | _, _ => poll_loop fuel s
          end
      | (Err e, s) => Some (Some (Err e), s)
      end
  end.
Definition adec_poll (s : adec) : option (option (result event) * adec) := poll_loop (length (ad_lines s) + 2) s.

(** What a consumer sees: the answer to the poll after [n] earlier polls. *)
Fixpoint nth_poll (n : nat) (s : adec) : option (option (result event)) :=
  match adec_poll s with
  | None => None
  | Some (a, s) => match n with
                   | O => Some a
                   | S n => nth_poll n s
                   end
  end.

(** src/decode/async_decode.rs:393-410: the synchronous decoder behind a yield point. *)
Definition try_decode_stream_async (lines : list str) (options : option dstream_options) : result (list event) :=
  decode_stream_sync lines options.

(** src/decode/async_decode.rs:430-457 *)
Definition try_decode_async (input : str) (options : option decode_options) : result json :=
  let o := resolve_decode_options options in
  let? evs := try_decode_stream_async (split_on cLF input)
                (Some (DStreamOpts (Some (rd_indent o)) (Some (rd_strict o)))) in
  let? n := build_node_from_events evs in
  let? n := match rd_expand o with
            | EPSafe => expand_paths_safe n (rd_strict o)
            | EPOff => Ok n
            end in
  Ok (node_to_json n).
