(** Decimal and binary numbers as rationals: what reading a number and printing one should do.
    Definitions only. *)
From Coq Require Import SpecFloat QArith Qabs.
From Verif Require Import Chars Floats Spec SpecText.

Local Open Scope Q_scope.

(** The rational a double stands for; none for infinities and NaN. *)
Definition fvalue (x : f64) : option Q :=
  match f64_sf x with
  | S754_zero _ => Some 0
  | S754_finite s m e => Some (inject_Z (if s then Zneg m else Zpos m) * 2 ^ e)
  | _ => None
  end.
(** The last bit of the significand is 0. *)
Definition even_last (x : f64) : Prop :=
  match f64_sf x with S754_finite _ m _ => Z.even (Zpos m) = true | _ => True end.

(** No double is nearer; if another one is as near, the last bit decides. *)
Definition nearest (q : Q) (x : f64) : Prop :=
  exists r, fvalue x = Some r /\
    forall y r', fvalue y = Some r' ->
      Qabs (q - r) <= Qabs (q - r') /\ (Qabs (q - r) == Qabs (q - r') -> r == r' \/ even_last x).

(** Half way between the largest double and the next power of 2: from there on infinity is nearer. *)
Definition overflow : Q := 2 ^ 1024 - 2 ^ 970.

(** Rounding to the nearest double, ties to even, as IEEE 754 has it. *)
Definition rounds_to (q : Q) (x : f64) : Prop :=
  (- overflow < q < overflow /\ nearest q x) \/
  (overflow <= q /\ f64_sf x = S754_infinity false) \/
  (q <= - overflow /\ f64_sf x = S754_infinity true).

(** The value of a decimal number as it is written. *)
Definition exponent_value (ep : str) (E : Z) : Prop :=
  (ep = [] /\ E = 0%Z) \/
  exists e sg ds, ep = e :: sg ++ ds /\ (e = cLE \/ e = cUE) /\ digits ds /\
    (((sg = [] \/ sg = [cPLUS]) /\ E = Z.of_N (digits_value ds)) \/ (sg = [cMINUS] /\ E = (- Z.of_N (digits_value ds))%Z)).
Definition fraction_digits (fp ds : str) : Prop := (fp = [] /\ ds = []) \/ (fp = cDOT :: ds /\ digits ds).
Definition writes_number (s : str) (neg : bool) (q : Q) : Prop :=
  exists ip fp ds ep E, s = (if neg then [cMINUS] else []) ++ ip ++ fp ++ ep /\
    digits ip /\ fraction_digits fp ds /\ exponent_value ep E /\
    q == (if neg then -1 else 1) * (inject_Z (Z.of_N (digits_value (ip ++ ds))) * 10 ^ (E - Z.of_nat (length ds))).

(** The sign, which zeros and infinities have too. *)
Definition signed (neg : bool) (x : f64) : Prop :=
  match f64_sf x with S754_zero s | S754_infinity s | S754_finite s _ _ => s = neg | S754_nan => False end.
(** The double a written number denotes. *)
Definition number_denotes (s : str) (x : f64) : Prop :=
  exists neg q, writes_number s neg q /\ rounds_to q x /\ signed neg x.
(** A function reading numbers as IEEE 754 asks. *)
Definition correctly_rounded (double : str -> option f64) : Prop :=
  forall s x, number_denotes s x -> double s = Some x.

(** [q] is a decimal with at most [j] significant digits. *)
Definition has_digits (j : Z) (q : Q) : Prop :=
  exists c p, (0 < c < 10 ^ j)%Z /\ Qabs q == inject_Z c * 10 ^ p.
(** [q] is nearer to [r] than [q'], or as near and not smaller. *)
Definition as_good (r q q' : Q) : Prop :=
  Qabs (q - r) < Qabs (q' - r) \/ (Qabs (q - r) == Qabs (q' - r) /\ Qabs q' <= Qabs q).
(** [q] is the shortest decimal that is read as the double, and the nearest to it of those; of two
    equally near ones the larger. *)
Definition shortest_decimal (x : f64) (q : Q) : Prop :=
  rounds_to q x /\
  forall j q', rounds_to q' x -> has_digits j q' ->
    has_digits j q /\ (~ has_digits (j - 1) q -> forall r, fvalue x = Some r -> as_good r q q').

(** The same, without saying which of two equally near ones. *)
Definition shortest_nearest (x : f64) (q : Q) : Prop :=
  rounds_to q x /\
  forall j q', rounds_to q' x -> has_digits j q' ->
    has_digits j q /\ (~ has_digits (j - 1) q -> forall r, fvalue x = Some r -> Qabs (q - r) <= Qabs (q' - r)).

(** A decimal written without an exponent and without zeros that could be left out. *)
Definition plain_decimal (s : str) (neg : bool) (q : Q) : Prop :=
  exists ip fp ds, s = (if neg then [cMINUS] else []) ++ ip ++ fp /\
    digits ip /\ (forall r, ip = cZERO :: r -> r = []) /\ fraction_digits fp ds /\ (forall r, ds <> r ++ [cZERO]) /\
    q == (if neg then -1 else 1) * (inject_Z (Z.of_N (digits_value (ip ++ ds))) * 10 ^ (- Z.of_nat (length ds))).
Definition prints (x : f64) (s : str) : Prop :=
  exists neg q, plain_decimal s neg q /\ signed neg x /\ shortest_decimal x q.
