(** src/error.rs: the text of an error (its Display), for the errors of decoding and of handling events.  Definitions only. *)
From Verif Require Import Chars Floats Json Shared.

(** src/decode/decoders.rs:212, 222, 269, 282, 344: the [item_type] passed on *)
Definition counted_name (w : counted) : str :=
  match w with
  | CInline => lit "inline array items"
  | CRowValues => lit "tabular row values"
  | CRows => lit "tabular rows"
  | CItems => lit "list array items"
  end.
(** src/decode/decoders.rs:292, 356: the [context] passed on *)
Definition context_name (w : counted) : str :=
  match w with CRows => lit "tabular array" | _ => lit "list array" end.
(** src/decode/expand.rs:215-221 *)
Definition kind_name (k : nkind) : str :=
  match k with KPrim => lit "primitive" | KArr => lit "array" | KObj => lit "object" end.
(** [{n}] of a [usize] *)
Definition num (n : N) : str := dec_of_N n.
Definition nat_num (n : nat) : str := num (N.of_nat n).

(** src/error.rs:6-38.  A path and an error of the operating system are texts. *)
Inductive toon_error :=
| TParse (line : nat) (message : str)
| TValidation (line : nat) (message : str)
| TEventStream (message : str)
| TPathExpansion (path message : str)
| TIo (operation : str) (path : option str) (source : str)
| TJson (message : str)
| TMessage (message : str).
(** src/error.rs:8-37: the text of an error *)
Definition display (t : toon_error) : str :=
  match t with
  | TParse line message => lit "Line " ++ nat_num line ++ lit ": " ++ message
  | TValidation line message => lit "Validation error at line " ++ nat_num line ++ lit ": " ++ message
  | TEventStream message => lit "Event stream error: " ++ message
  | TPathExpansion path message => lit "Path expansion error for '" ++ path ++ lit "': " ++ message
  | TIo operation path source =>
      operation ++ match path with Some p => lit " '" ++ p ++ lit "'" | None => [] end ++ lit ": " ++ source
  | TJson message => lit "JSON error: " ++ message
  | TMessage message => message
  end.

(** src/error.rs:101-104 *)
Definition tabs_not_allowed (line : nat) : toon_error :=
  TValidation line (lit "Tabs are not allowed in indentation in strict mode").
(** src/error.rs:107-113 *)
Definition invalid_indentation (line expected found : nat) : toon_error :=
  TValidation line (lit "Indentation must be exact multiple of " ++ nat_num expected ++ lit ", but found " ++ nat_num found ++ lit " spaces").
(** src/error.rs:128-133 *)
Definition mismatched_end (expected found : str) : toon_error :=
  TEventStream (lit "Mismatched end event: expected " ++ expected ++ lit ", found " ++ found).
(** src/error.rs:136-139 *)
Definition unexpected_event (event context : str) : toon_error :=
  TEventStream (lit "Unexpected " ++ event ++ lit " event " ++ context).

(** What is raised, for the errors of decoding and of handling events. *)
Definition raised (e : err) : option toon_error :=
  match e with
  (* parser.rs:42, 289, 291; string_utils.rs:46-57; parser.rs:314, 334, 329 *)
  | EUnterminatedString => Some (TMessage (lit "Unterminated string: missing closing quote"))
  | ECharsAfterQuote => Some (TMessage (lit "Unexpected characters after closing quote"))
  | EInvalidEscape (Some c) => Some (TMessage (lit "Invalid escape sequence: \" ++ [c]))
  | EInvalidEscape None => Some (TMessage (lit "Invalid escape sequence: backslash at end of string"))
  | EMissingColon => Some (TMessage (lit "Missing colon after key"))
  | EUnterminatedKey => Some (TMessage (lit "Unterminated quoted key"))
  (* parser.rs:109 *)
  | ELengthCap n => Some (TMessage (lit "Declared array length " ++ num n ++ lit " exceeds maximum allowed (100000000)"))
  (* scanner.rs:82, 87, 95; error.rs:101-113 *)
  | ETabIndent n => Some (tabs_not_allowed n)
  | EIndentZero n k => Some (TValidation n (lit "Indentation not allowed when indent size is 0, but found " ++ nat_num k ++ lit " spaces"))
  | EIndentMultiple n s k => Some (invalid_indentation n s k)
  (* validation.rs:19, 42, 66, 94 *)
  | ECount w expected actual => Some (TMessage (lit "Expected " ++ num expected ++ lit " " ++ counted_name w ++ lit ", but got " ++ num actual))
  | EExtraItems n => Some (TMessage (lit "Expected " ++ num n ++ lit " list array items, but found more"))
  | EExtraRows n => Some (TMessage (lit "Expected " ++ num n ++ lit " tabular rows, but found more"))
  | EBlankInArray w n => Some (TMessage (lit "Line " ++ nat_num n ++ lit ": Blank lines inside " ++ context_name w ++ lit " are not allowed in strict mode"))
  (* expand.rs:13, 100, 149, 182 *)
  | EExpandDepth => Some (TMessage (lit "Path expansion exceeded maximum depth of 256"))
  | EExpandConflict (CSegment key found) =>
      Some (TMessage (lit "Path expansion conflict at segment """ ++ key ++ lit """: expected object but found " ++ kind_name found))
  | EExpandConflict (CKey key l r) =>
      Some (TMessage (lit "Path expansion conflict at key """ ++ key ++ lit """: cannot merge " ++ kind_name l ++ lit " with " ++ kind_name r))
  (* event_builder.rs:83, 91, 124, 127, 159, 105, 138, 182, 201, 208; error.rs:128-139 *)
  | EUnexpectedEvent o => Some (match o with
      | OEndObject => unexpected_event (lit "endObject") (lit "with empty stack")
      | OEndArray => unexpected_event (lit "endArray") (lit "with empty stack")
      | _ => unexpected_event (lit "Key") (lit "outside of object context")
      end)
  | EMismatchedEnd OEndObject => Some (mismatched_end (lit "Object") (lit "Array"))
  | EMismatchedEnd _ => Some (mismatched_end (lit "Array") (lit "Object"))
  | ENoKey OEndObject => Some (TMessage (lit "Object endObject event without preceding key"))
  | ENoKey OEndArray => Some (TMessage (lit "Array endArray event without preceding key"))
  | ENoKey _ => Some (TMessage (lit "Primitive event without preceding key in object"))
  | EIncomplete => Some (TEventStream (lit "Incomplete event stream: stack not empty at end"))
  | ENoRoot => Some (TEventStream (lit "No root value built from events"))
  (* json_stream.rs:58-203 *)
  | EJsonStream OEndObject => Some (TMessage (lit "Mismatched endObject event"))
  | EJsonStream OEndArray => Some (TMessage (lit "Mismatched endArray event"))
  | EJsonStream OKey => Some (TMessage (lit "Key event outside of object context"))
  | EJsonStream OPrim => Some (TMessage (lit "Primitive event in object without preceding key"))
  | EJsonStream OEnd => Some (TMessage (lit "Incomplete event stream: unclosed objects or arrays"))
  | _ => None
  end.
Definition message (e : err) : option str := option_map display (raised e).
