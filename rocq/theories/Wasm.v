(** src/wasm.rs: the bindings for JavaScript.  Definitions only.

    A JavaScript string arrives as a Rust string (wasm-bindgen replaces unpaired surrogates before the
    code sees it).  Of a JavaScript value the code sees only what js_sys and wasm_bindgen tell: its
    kind, and for an object the answer to each property access, which may throw.  On the target
    wasm32 a [usize] has 32 bits. *)
From Coq Require Import SpecFloat.
From Verif Require Import Chars Floats Json Shared EncPrim Normalize Folding Encoders Replacer EncodeApi
  Scanner Parser DecValidation Decoders EventBuilder Expand DecodeApi JsonText SpecJson Serde.

(** wasm_bindgen::JsValue; [JsOther] stands for functions, symbols and big integers.  The answer
    [None] of a property access means that it throws. *)
Inductive jsval :=
| JsUndefined
| JsNull
| JsBool (b : bool)
| JsNum (x : f64)
| JsStr (s : str)
| JsObj (get : str -> option jsval)
| JsOther.

(** What a call throws: src/wasm.rs:60, 80, 105, 126 and 173, 222.  [Trap] is a Rust panic. *)
Inductive thrown :=
| InvalidJson
| OptionsNotObject
| DecodeError (e : err)
| Trap.
Inductive js (A : Type) :=
| Returns (a : A)
| Throws (t : thrown).
Arguments Returns {A} a.
Arguments Throws {A} t.

(** The largest [usize] on wasm32. *)
Definition WASM_USIZE_MAX : N := 4294967295.
(** [x as usize]: towards zero, saturating, 0 for NaN. *)
Definition f64_as_usize (x : f64) : N :=
  match f64_sf x with
  | S754_nan | S754_zero _ | S754_infinity true => 0
  | S754_infinity false => WASM_USIZE_MAX
  | S754_finite true _ _ => 0
  | S754_finite false m e =>
      N.min WASM_USIZE_MAX (Z.to_N (if (e <? 0)%Z then (Z.pos m / 2 ^ (- e))%Z else (Z.pos m * 2 ^ e)%Z))
  end.

(** js_sys::Reflect::get(..).ok(), JsValue::as_f64, as_string, as_bool *)
Definition prop_f64 (get : str -> option jsval) (name : str) : option f64 :=
  match get name with Some (JsNum x) => Some x | _ => None end.
Definition prop_str (get : str -> option jsval) (name : str) : option str :=
  match get name with Some (JsStr s) => Some s | _ => None end.
Definition prop_bool (get : str -> option jsval) (name : str) : option bool :=
  match get name with Some (JsBool b) => Some b | _ => None end.

(** src/wasm.rs:163-210 *)
Definition parse_encode_options (options : jsval) : js (option encode_options) :=
  match options with
  | JsUndefined | JsNull => Returns None
  | JsObj get =>
      let indent := option_map (fun x => N.to_nat (f64_as_usize x)) (prop_f64 get (lit "indent")) in
      let delimiter := match prop_str get (lit "delimiter") with Some (c :: _) => Some c | _ => None end in
      let key_folding :=
        match prop_str get (lit "keyFolding") with
        | Some s => if str_eqb s (lit "off") then Some KFOff else if str_eqb s (lit "safe") then Some KFSafe else None
        | None => None
        end in
      let flatten_depth := option_map f64_as_usize (prop_f64 get (lit "flattenDepth")) in
      Returns (Some (EncOpts indent delimiter key_folding flatten_depth None))
  | _ => Throws OptionsNotObject
  end.

(** src/wasm.rs:217-252 *)
Definition parse_decode_options (options : jsval) : js (option decode_options) :=
  match options with
  | JsUndefined | JsNull => Returns None
  | JsObj get =>
      let indent := option_map (fun x => N.to_nat (f64_as_usize x)) (prop_f64 get (lit "indent")) in
      let strict := prop_bool get (lit "strict") in
      let expand_paths :=
        match prop_str get (lit "expandPaths") with
        | Some s => if str_eqb s (lit "off") then Some EPOff else if str_eqb s (lit "safe") then Some EPSafe else None
        | None => None
        end in
      Returns (Some (DecOpts indent strict expand_paths))
  | _ => Throws OptionsNotObject
  end.

Definition run_encode (v : json) (o : option encode_options) : js str :=
  match encode 0 v o with Ok text => Returns text | Err _ => Throws Trap end.

(** src/wasm.rs:58-62 *)
Definition wasm_encode (rf : str -> option f64) (json : str) : js str :=
  match serde_from_str rf json with
  | None => Throws InvalidJson
  | Some v => run_encode (from_serde v) None
  end.
(** src/wasm.rs:78-84 *)
Definition wasm_encode_with_options (rf : str -> option f64) (json : str) (options : jsval) : js str :=
  match serde_from_str rf json with
  | None => Throws InvalidJson
  | Some v =>
      match parse_encode_options options with
      | Throws t => Throws t
      | Returns o => run_encode (from_serde v) o
      end
  end.

(** serde_json::to_string_pretty: two spaces, empty containers without a line break. *)
Definition pretty_break (depth : nat) : str := cLF :: spaces (2 * depth).
Fixpoint serde_to_string_pretty (st : num_style) (depth : nat) (v : sval) : str :=
  match v with
  | SNull => lit "null"
  | SBool b => bool_text b
  | SNum n => snum_text st n
  | SStr s => serde_string s
  | SArr [] => lit "[]"
  | SArr l =>
      cLBRACK :: join cCOMMA (map (fun v => pretty_break (S depth) ++ serde_to_string_pretty st (S depth) v) l)
      ++ pretty_break depth ++ [cRBRACK]
  | SObj [] => lit "{}"
  | SObj l =>
      cLBRACE :: join cCOMMA (map (fun kv => pretty_break (S depth) ++ serde_string (fst kv) ++ lit ": "
                                             ++ serde_to_string_pretty st (S depth) (snd kv)) l)
      ++ pretty_break depth ++ [cRBRACE]
  end.

Definition run_decode (toon : str) (o : option decode_options) (print : sval -> str) : js str :=
  match try_decode toon o with
  | Ok v => Returns (print (to_serde v))
  | Err e => Throws (DecodeError e)
  end.

(** src/wasm.rs:103-108; serialising a [Value] does not fail. *)
Definition wasm_decode (st : num_style) (toon : str) : js str :=
  run_decode toon None (serde_to_string st).
(** src/wasm.rs:123-129 *)
Definition wasm_decode_with_options (st : num_style) (toon : str) (options : jsval) : js str :=
  match parse_decode_options options with
  | Throws t => Throws t
  | Returns o => run_decode toon o (serde_to_string st)
  end.
(** src/wasm.rs:141-147 *)
Definition wasm_decode_pretty (st : num_style) (toon : str) : js str :=
  run_decode toon None (serde_to_string_pretty st 0).
