(** src/lib.rs:23-45 and 77-190, src/cli/conversion.rs:12-25: conversion to and from the values of the
    library serde_json, and the text wrappers.  Definitions only.

    From serde_json (1.0.151, feature preserve_order, neither float_roundtrip nor
    arbitrary_precision) the model takes: the kinds of numbers, which literals become which kind, the
    insertion order of its maps, and the nesting limit.  Literals that are not read as integers are
    turned into doubles by a parameter [rf], because without float_roundtrip the library does not
    promise the nearest double; [None] is its error "number out of range". *)
From Coq Require Import SpecFloat.
From Verif Require Import Chars Floats Json Shared EncPrim Normalize Folding Encoders Replacer EncodeApi
  Scanner Parser DecValidation Decoders EventBuilder Expand DecodeApi JsonText SpecJson.

(** serde_json::Number: u64, negative i64, finite f64. *)
Inductive snum :=
| SPos (n : N)
| SNeg (z : Z)
| SFloat (x : f64).
(** serde_json::Value *)
Inductive sval :=
| SNull
| SBool (b : bool)
| SNum (n : snum)
| SStr (s : str)
| SArr (items : list sval)
| SObj (entries : list (str * sval)).

(** [as f64] of an integer: nearest, ties to even. *)
Definition f64_of_Z (z : Z) : f64 := mk_f64 (round_dec (z <? 0)%Z (Z.abs_N z) 0).
(** serde_json::Number::as_f64 *)
Definition as_f64 (n : snum) : f64 :=
  match n with
  | SPos n => f64_of_Z (Z.of_N n)
  | SNeg z => f64_of_Z z
  | SFloat x => x
  end.

(** src/lib.rs:77-87 *)
Definition from_f64 (x : f64) : prim :=
  if negb (f64_is_finite x) then PNull
  else if f64_is_zero x then PNum f64_zero
  else PNum x.
(** src/lib.rs:113-117 and 119-124 *)
Definition json_from_f64 (x : f64) : json := JPrim (from_f64 x).
Definition json_from_i64 (z : Z) : json := JPrim (PNum (f64_of_Z z)).

(** src/lib.rs:139-167 *)
Fixpoint from_serde (v : sval) : json :=
  match v with
  | SNull => JPrim PNull
  | SBool b => JPrim (PBool b)
  | SNum n => JPrim (from_f64 (as_f64 n))
  | SStr s => JPrim (PStr s)
  | SArr l => JArr (map from_serde l)
  | SObj l => JObj (map (fun kv => (fst kv, from_serde (snd kv))) l)
  end.

(** serde_json::Map::insert with preserve_order: a key that is present keeps its place. *)
Fixpoint map_insert {A} (m : list (str * A)) (k : str) (v : A) : list (str * A) :=
  match m with
  | [] => [(k, v)]
  | (k', w) :: r => if str_eqb k' k then (k', v) :: r else (k', w) :: map_insert r k v
  end.
(** src/lib.rs:181-187, and serde_json reading an object. *)
Definition map_of {A} (l : list (str * A)) : list (str * A) :=
  fold_left (fun m kv => map_insert m (fst kv) (snd kv)) l [].

(** src/lib.rs:169-190.  serde_json::Number::from_f64 refuses NaN and infinities. *)
Fixpoint to_serde (v : json) : sval :=
  match v with
  | JPrim (PStr s) => SStr s
  | JPrim (PNum x) => if f64_is_finite x then SNum (SFloat x) else SNull
  | JPrim (PBool b) => SBool b
  | JPrim PNull => SNull
  | JArr l => SArr (map to_serde l)
  | JObj l => SObj (map_of (map (fun kv => (fst kv, to_serde (snd kv))) l))
  end.

(** serde_json::to_string *)
Definition snum_text (st : num_style) (n : snum) : str :=
  match n with
  | SPos n => dec_of_N n
  | SNeg z => cMINUS :: dec_of_N (Z.abs_N z)
  | SFloat x => unwrap_or (number_text st x) (lit "null")
  end.
Fixpoint serde_to_string (st : num_style) (v : sval) : str :=
  match v with
  | SNull => lit "null"
  | SBool b => bool_text b
  | SNum n => snum_text st n
  | SStr s => serde_string s
  | SArr l => cLBRACK :: join cCOMMA (map (serde_to_string st) l) ++ [cRBRACK]
  | SObj l => cLBRACE :: join cCOMMA
                (map (fun kv => serde_string (fst kv) ++ cCOLON :: serde_to_string st (snd kv)) l) ++ [cRBRACE]
  end.

Section Read.
Variable rf : str -> option f64.

(** serde_json reading a number literal. *)
Definition is_integral (n : str) : bool :=
  negb (existsb (fun c => (c =? cDOT) || (c =? cLE) || (c =? cUE)) n).
Definition serde_number (n : str) : option snum :=
  if is_integral n then
    match n with
    | c :: r =>
        if c =? cMINUS then
          let m := dec_val r in
          if m =? 0 then Some (SFloat f64_neg_zero)
          else if m <=? 9223372036854775808 then Some (SNeg (- Z.of_N m))
          else if m <=? 18446744073709551615 then Some (SFloat (f64_of_Z (- Z.of_N m)))
          else option_map SFloat (rf n)
        else
          let m := dec_val n in
          if m <=? 18446744073709551615 then Some (SPos m) else option_map SFloat (rf n)
    | [] => None
    end
  else option_map SFloat (rf n).

(** serde_json reading a value: the nesting limit (128, one step is used up before it counts), and
    maps that keep the last value of a key at its first place. *)
Fixpoint serde_of_tree (remaining : nat) (t : jtree) : option sval :=
  match t with
  | TNull => Some SNull
  | TBool b => Some (SBool b)
  | TNum n => option_map SNum (serde_number n)
  | TStr s => Some (SStr s)
  | TArr l =>
      match remaining with
      | S (S r) => option_map SArr (map_option (serde_of_tree (S r)) l)
      | _ => None
      end
  | TObj l =>
      match remaining with
      | S (S r) => option_map (fun m => SObj (map_of m))
                     (map_option (fun kv => option_map (pair (fst kv)) (serde_of_tree (S r) (snd kv))) l)
      | _ => None
      end
  end.
Definition serde_from_str (s : str) : option sval :=
  match read_json s with Some t => serde_of_tree 128 t | None => None end.

(** src/lib.rs:29-33 *)
Definition json_to_toon (json : str) : result str :=
  match serde_from_str json with
  | None => Err EJsonParse
  | Some v => encode 0 (from_serde v) None
  end.
(** src/cli/conversion.rs:17-25; [fuel] is for a replacer only. *)
Definition encode_to_toon_lines (fuel : nat) (input_json : str) (options : option encode_options) : result (list str) :=
  match serde_from_str input_json with
  | None => Err EJsonParse
  | Some v => encode_lines fuel (from_serde v) options
  end.
End Read.

(** src/lib.rs:41-45 *)
Definition toon_to_json (st : num_style) (toon : str) : result str :=
  let? v := try_decode toon None in
  Ok (serde_to_string st (to_serde v)).
