(** What the settings of the JavaScript bindings mean.  Definitions only. *)
From Coq Require Import SpecFloat.
From Verif Require Import Chars Floats Json Spec Wasm.

(** The number is at least the integer. *)
Definition at_least (x : f64) (z : Z) : Prop :=
  match f64_sf x with
  | S754_nan | S754_infinity true => False
  | S754_infinity false => True
  | S754_zero _ => (z <= 0)%Z
  | S754_finite s m e => (z * 2 ^ Z.max 0 (- e) <= (if s then Zneg m else Zpos m) * 2 ^ Z.max 0 e)%Z
  end.
(** [n] is the largest number of 32 bits that [x] reaches, 0 if it reaches none. *)
Definition cut (x : f64) (n : N) : Prop :=
  n < 2 ^ 32 /\ (n = 0 \/ at_least x (Z.of_N n)) /\ forall k, n < k -> k < 2 ^ 32 -> ~ at_least x (Z.of_N k).

(** Where settings are looked up; nowhere for undefined and null. *)
Inductive settings : jsval -> (str -> option jsval) -> Prop :=
| set_undefined : settings JsUndefined (fun _ => None)
| set_null : settings JsNull (fun _ => None)
| set_object get : settings (JsObj get) get.

Section Says.
Variable get : str -> option jsval.
Definition number_there (name : str) (x : f64) : Prop := get name = Some (JsNum x).
Definition string_there (name : str) (s : str) : Prop := get name = Some (JsStr s).

(** The settings of the encoder; a setting of the wrong kind counts as absent. *)
Definition says_encode (r : renc_options) : Prop :=
  (forall x, number_there (lit "indent") x -> cut x (N.of_nat (ro_indent r))) /\
  ((forall x, ~ number_there (lit "indent") x) -> ro_indent r = 2%nat) /\
  (forall c s, string_there (lit "delimiter") (c :: s) -> ro_delimiter r = c) /\
  ((forall c s, ~ string_there (lit "delimiter") (c :: s)) -> ro_delimiter r = cCOMMA) /\
  (ro_key_folding r = KFSafe <-> string_there (lit "keyFolding") (lit "safe")) /\
  (forall x, number_there (lit "flattenDepth") x -> cut x (ro_flatten_depth r)) /\
  ((forall x, ~ number_there (lit "flattenDepth") x) -> ro_flatten_depth r = USIZE_MAX) /\
  ro_replacer r = None.
(** The settings of the decoder. *)
Definition says_decode (r : rdec_options) : Prop :=
  (forall x, number_there (lit "indent") x -> cut x (N.of_nat (rd_indent r))) /\
  ((forall x, ~ number_there (lit "indent") x) -> rd_indent r = 2%nat) /\
  (rd_strict r = false <-> get (lit "strict") = Some (JsBool false)) /\
  (rd_expand r = EPSafe <-> string_there (lit "expandPaths") (lit "safe")).
End Says.
