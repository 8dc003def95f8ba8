(** JSON values, stream events, options, errors.  Definitions only. *)
From Verif Require Import Chars Floats.

(** src/lib.rs:68-74 *)
Inductive prim :=
| PStr (s : str)
| PNum (x : f64)
| PBool (b : bool)
| PNull.

(** src/lib.rs:47-56 *)
Inductive json :=
| JPrim (p : prim)
| JArr (items : list json)
| JObj (entries : list (str * json)).

(** src/lib.rs:58-66.  Array lengths ([usize]) are [N]. *)
Inductive event :=
| EvStartObject
| EvEndObject
| EvStartArray (length : N)
| EvEndArray
| EvKey (key : str) (was_quoted : bool)
| EvPrim (value : prim).

(** src/options.rs:59-63 *)
Inductive path_segment :=
| PSKey (k : str)
| PSIndex (i : nat).

(** src/options.rs:6-7.  A replacer is a (pure) function. *)
Definition replacer := str -> json -> list path_segment -> option json.

(** src/options.rs:18-22 and 31-35 *)
Inductive key_folding_mode := KFOff | KFSafe.
Inductive expand_paths_mode := EPOff | EPSafe.

(** src/options.rs:9-16 *)
Record encode_options := EncOpts {
  eo_indent : option nat;
  eo_delimiter : option char;
  eo_key_folding : option key_folding_mode;
  eo_flatten_depth : option N;
  eo_replacer : option replacer
}.

(** src/options.rs:43-50 *)
Record renc_options := REncOpts {
  ro_indent : nat;
  ro_delimiter : char;
  ro_key_folding : key_folding_mode;
  ro_flatten_depth : N;
  ro_replacer : option replacer
}.

(** src/options.rs:24-29 *)
Record decode_options := DecOpts {
  do_indent : option nat;
  do_strict : option bool;
  do_expand : option expand_paths_mode
}.

(** src/options.rs:37-41 *)
Record dstream_options := DStreamOpts {
  dso_indent : option nat;
  dso_strict : option bool
}.

(** src/options.rs:52-57 *)
Record rdec_options := RDecOpts {
  rd_indent : nat;
  rd_strict : bool;
  rd_expand : expand_paths_mode
}.

(** [usize::MAX] on a 64-bit target. *)
Definition USIZE_MAX : N := 18446744073709551615%N.

Definition unwrap_or {A} (o : option A) (d : A) : A :=
  match o with Some x => x | None => d end.

(** src/options.rs:66-82 *)
Definition resolve_encode_options (o : option encode_options) : renc_options :=
  let o := unwrap_or o (EncOpts None None None None None) in
  REncOpts (unwrap_or (eo_indent o) 2%nat)
           (unwrap_or (eo_delimiter o) DEFAULT_DELIMITER)
           (unwrap_or (eo_key_folding o) KFOff)
           (unwrap_or (eo_flatten_depth o) USIZE_MAX)
           (eo_replacer o).

(** src/options.rs:85-97 *)
Definition resolve_decode_options (o : option decode_options) : rdec_options :=
  let o := unwrap_or o (DecOpts None None None) in
  RDecOpts (unwrap_or (do_indent o) 2%nat)
           (unwrap_or (do_strict o) true)
           (unwrap_or (do_expand o) EPOff).

(** Errors: one constructor per construction site of a [ToonError] in the modelled code
    (the values that messages report are carried; ErrText.v gives the wording).  [EPanic] is a Rust panic, [EFuel] is exhaustion of the
    model's recursion fuel; neither is a [ToonError]. *)
(** The [item_type] and [context] words of src/decode/validation.rs:12-101. *)
Inductive counted := CInline | CRowValues | CRows | CItems.
(** What a node is (expand.rs:215-221) and what a conflict names (expand.rs:100, 149, 182). *)
Inductive nkind := KPrim | KArr | KObj.
Inductive conflict :=
| CSegment (key : list char) (found : nkind)
| CKey (key : list char) (left right : nkind).

(** What an event of a sequence, or its end, has brought up. *)
Inductive occasion := OEndObject | OEndArray | OKey | OPrim | OEnd.

Inductive err :=
| EPanic
| EFuel
| EUnterminatedString        (* parser.rs:42, 289 *)
| ECharsAfterQuote           (* parser.rs:291 *)
| EInvalidEscape (other : option char)  (* string_utils.rs:46-57 *)
| EMissingColon              (* parser.rs:314, 334 *)
| EUnterminatedKey           (* parser.rs:329 *)
| EInvalidLength             (* parser.rs:181 *)
| ELengthCap (len : N)       (* parser.rs:109 *)
| ETabIndent (line : nat)    (* scanner.rs:82 *)
| EIndentZero (line found : nat)  (* scanner.rs:87 *)
| EIndentMultiple (line size found : nat)  (* scanner.rs:95 *)
| ECount (what : counted) (expected actual : N)  (* validation.rs:19 *)
| EExtraItems (expected : N) (* validation.rs:42 *)
| EExtraRows (expected : N)  (* validation.rs:66 *)
| EBlankInArray (what : counted) (line : nat)  (* validation.rs:94 *)
| EExpectedListItem          (* decoders.rs:377, 388 *)
| EMissingFields             (* decoders.rs:265 *)
| EUnexpectedEvent (o : occasion)  (* event_builder.rs:83, 124, 159 *)
| EMismatchedEnd (o : occasion)    (* event_builder.rs:91, 127 *)
| ENoKey (o : occasion)      (* event_builder.rs:105, 138, 182 *)
| EIncomplete                (* event_builder.rs:201 *)
| ENoRoot                    (* event_builder.rs:208 *)
| EExpandDepth               (* expand.rs:13 *)
| EExpandConflict (c : conflict)  (* expand.rs:100, 149, 182 *)
| EExpectedObject            (* expand.rs:208 *)
| EJsonStream (o : occasion) (* cli/json_stream.rs:58-203 *)
| EJsonParse.                (* lib.rs:31 *)

Inductive result (A : Type) :=
| Ok (a : A)
| Err (e : err).
Arguments Ok {A} a.
Arguments Err {A} e.

(** The [?] operator. *)
Definition bind {A B} (r : result A) (f : A -> result B) : result B :=
  match r with Ok a => f a | Err e => Err e end.
Notation "'let?' x ':=' r 'in' k" := (bind r (fun x => k))
  (at level 200, x pattern, r at level 100, k at level 200, right associativity).

(** [iter.map(f).collect::<Result<Vec<_>>>()] *)
Fixpoint map_result {A B} (f : A -> result B) (l : list A) : result (list B) :=
  match l with
  | [] => Ok []
  | x :: r => let? y := f x in let? ys := map_result f r in Ok (y :: ys)
  end.

(** Size of a value (used as recursion fuel). *)
Fixpoint jsize (v : json) : nat :=
  match v with
  | JPrim _ => 1
  | JArr l => S (list_sum (map jsize l))
  | JObj l => S (list_sum (map (fun kv => jsize (snd kv)) l))
  end.
