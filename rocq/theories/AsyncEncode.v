(** src/encode/async_encode.rs.  Definitions only.

    The two streams are state machines whose [poll_next] never returns [Pending] and ignores its
    context; a poll is a function from a state to an item and the next state.  The construction
    ([try_new]) runs the synchronous pipeline. *)
From Verif Require Import Chars Floats Json Shared EncPrim Normalize Folding Encoders Replacer EncodeApi.

(** src/encode/async_encode.rs:38-43 *)
Record line_stream := LineStream { ls_lines : list str; ls_index : nat }.

(** src/encode/async_encode.rs:63-74 *)
Definition line_stream_new (fuel : nat) (v : json) (options : option encode_options) : result line_stream :=
  let o := resolve_encode_options options in
  let? r := prepare fuel v o in
  let? lines := encode_json_value r o in
  Ok (LineStream lines 0).

(** src/encode/async_encode.rs:78-86 *)
Definition line_stream_len (s : line_stream) : nat := length (ls_lines s).
Definition line_stream_is_empty (s : line_stream) : bool := is_empty (ls_lines s).

(** src/encode/async_encode.rs:89-101.  The index is in range when [lines] is read. *)
Definition line_stream_poll (s : line_stream) : option str * line_stream :=
  match nth_error (ls_lines s) (ls_index s) with
  | Some line => (Some line, LineStream (ls_lines s) (S (ls_index s)))
  | None => (None, s)
  end.

(** src/encode/async_encode.rs:119-129.  An iterator is the list of what it has not yet given. *)
Inductive frame :=
| FObj (entries : list (str * json)) (pending : option json)
| FArr (items : list json) (length : N) (emitted_start : bool).

(** src/encode/async_encode.rs:107-117.  The stack's last element is the head of the list; [options]
    is never read. *)
Record event_stream := EventStream { es_stack : list frame; es_started : bool; es_root : option json }.

(** src/encode/async_encode.rs:148-163 *)
Definition event_stream_new (fuel : nat) (v : json) (options : option encode_options) : result event_stream :=
  let? r := prepare fuel v (resolve_encode_options options) in
  Ok (EventStream [] false (Some r)).

(** src/encode/async_encode.rs:165-242: [next_event] and [start_value] call each other; [fuel] counts
    the calls of [next_event], two are enough (AsyncEncodeProof.v). *)
Fixpoint next_event (fuel : nat) (s : event_stream) : result (option event * event_stream) :=
  match fuel with
  | O => Err EFuel
  | S fuel =>
      (* src/encode/async_encode.rs:217-242 *)
      let start_value (value : json) (s : event_stream) : result (option event * event_stream) :=
        match value with
        | JPrim p => Ok (Some (EvPrim p), s)
        | JArr arr =>
            next_event fuel (EventStream (FArr arr (N.of_nat (length arr)) false :: es_stack s)
                                         (es_started s) (es_root s))
        | JObj obj =>
            Ok (Some EvStartObject, EventStream (FObj obj None :: es_stack s) (es_started s) (es_root s))
        end in
      (* src/encode/async_encode.rs:166-215 *)
      let continue (s : event_stream) : result (option event * event_stream) :=
        match es_stack s with
        | [] => Ok (None, s)
        | FObj entries pending :: below =>
            match pending with
            | Some value =>
                start_value value (EventStream (FObj entries None :: below) (es_started s) (es_root s))
            | None =>
                match entries with
                | (key, value) :: entries =>
                    Ok (Some (EvKey key (negb (is_valid_unquoted_key key))),
                        EventStream (FObj entries (Some value) :: below) (es_started s) (es_root s))
                | [] => Ok (Some EvEndObject, EventStream below (es_started s) (es_root s))
                end
            end
        | FArr items length emitted_start :: below =>
            if emitted_start then
              match items with
              | item :: items =>
                  start_value item (EventStream (FArr items length true :: below) (es_started s) (es_root s))
              | [] => Ok (Some EvEndArray, EventStream below (es_started s) (es_root s))
              end
            else
              Ok (Some (EvStartArray length), EventStream (FArr items length true :: below) (es_started s) (es_root s))
        end in
      if es_started s then continue s
      else match es_root s with
           | Some root => start_value root (EventStream (es_stack s) true None)
           | None => continue (EventStream (es_stack s) true None)
           end
  end.

(** src/encode/async_encode.rs:245-251 *)
Definition event_stream_poll (s : event_stream) : result (option event * event_stream) := next_event 2 s.

(** What a consumer sees: the answer to the poll after [n] earlier polls. *)
Fixpoint nth_event_poll (n : nat) (s : event_stream) : result (option event) :=
  let? r := event_stream_poll s in
  match n with
  | O => Ok (fst r)
  | S n => nth_event_poll n (snd r)
  end.
Fixpoint nth_line_poll (n : nat) (s : line_stream) : option str :=
  let r := line_stream_poll s in
  match n with
  | O => fst r
  | S n => nth_line_poll n (snd r)
  end.

(** src/encode/async_encode.rs:272-300: the lines are computed at once; counting a clone of them
    only yields to the scheduler. *)
Definition try_encode_lines_async (fuel : nat) (v : json) (options : option encode_options) : result (list str) :=
  let o := resolve_encode_options options in
  let? r := prepare fuel v o in
  encode_json_value r o.

(** src/encode/async_encode.rs:308-330 *)
Definition try_encode_async (fuel : nat) (v : json) (options : option encode_options) : result str :=
  let? ls := try_encode_lines_async fuel v options in
  Ok (join cLF ls).

(** src/encode/async_encode.rs:349-363: the [while let] loop of try_encode_events_async; [steps] bounds
    the number of events taken. *)
Fixpoint collect_events (steps : nat) (s : event_stream) : result (list event) :=
  match steps with
  | O => Err EFuel
  | S steps =>
      let? r := event_stream_poll s in
      match fst r with
      | None => Ok []
      | Some e => let? rest := collect_events steps (snd r) in Ok (e :: rest)
      end
  end.
Definition try_encode_events_async (steps fuel : nat) (v : json) (options : option encode_options)
  : result (list event) :=
  let? s := event_stream_new fuel v options in
  collect_events steps s.
