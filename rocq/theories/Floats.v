(** IEEE-754 binary64 numbers: representation, correctly rounded decimal
    parsing ([str::parse::<f64>]) and shortest round-trip printing
    ([f64::to_string]).  Definitions only. *)
From Coq Require Import SpecFloat.
From Verif Require Import Chars.

Local Open Scope Z_scope.

Definition prec64 : Z := 53.
Definition emax64 : Z := 1024.

(** A binary64 value: a [spec_float] in canonical form.  There is one NaN. *)
Record f64 := F64 { f64_sf : spec_float; f64_ok : valid_binary prec64 emax64 f64_sf = true }.

Lemma valid_nan : valid_binary prec64 emax64 S754_nan = true.
Proof. reflexivity. Qed.
Definition f64_nan : f64 := F64 S754_nan valid_nan.

Definition mk_f64 (x : spec_float) : f64 :=
  match bool_dec (valid_binary prec64 emax64 x) true with
  | left H => F64 x H
  | right _ => f64_nan
  end.

Definition f64_zero : f64 := F64 (S754_zero false) eq_refl.
Definition f64_neg_zero : f64 := F64 (S754_zero true) eq_refl.
Definition f64_inf (s : bool) : f64 := F64 (S754_infinity s) eq_refl.

(** [f64::is_finite], [value == 0.0], [f64::is_sign_negative] on zeros. *)
Definition f64_is_finite (x : f64) : bool :=
  match f64_sf x with S754_zero _ | S754_finite _ _ _ => true | _ => false end.
Definition f64_is_zero (x : f64) : bool :=
  match f64_sf x with S754_zero _ => true | _ => false end.
Definition f64_is_neg_zero (x : f64) : bool :=
  match f64_sf x with S754_zero true => true | _ => false end.

(** Scaling by a power of two as a fraction: n/d * 2^e. *)
Definition pow2 (e : Z) : Z := if e <? 0 then 1 else 2 ^ e.

(** floor (log2 (n/d)) for n, d > 0. *)
Definition flog2_q (n d : Z) : Z :=
  let a := Z.log2 n - Z.log2 d in
  if d * pow2 a <=? n * pow2 (- a) then a else a - 1.

(** Integer quotient rounded to nearest, ties to even (n >= 0, d > 0). *)
Definition div_half_even (n d : Z) : Z :=
  let q := n / d in
  let r := n mod d in
  if 2 * r <? d then q
  else if d <? 2 * r then q + 1
  else if Z.even q then q else q + 1.

(** Correctly rounded binary64 value of (-1)^s * n/d  (n >= 0, d > 0). *)
Definition round_q (s : bool) (n d : Z) : spec_float :=
  if n =? 0 then S754_zero s
  else
    let e := Z.max (-1074) (flog2_q n d - 52) in
    let m := div_half_even (n * pow2 (- e)) (d * pow2 e) in
    let '(m, e) := if m =? 2 ^ 53 then (2 ^ 52, e + 1) else (m, e) in
    match m with
    | Zpos p => if 971 <? e then S754_infinity s else S754_finite s p e
    | _ => S754_zero s
    end.

(** Value of a decimal M * 10^E with sign. *)
Definition round_dec (s : bool) (M : N) (E : Z) : spec_float :=
  if E <? 0 then round_q s (Z.of_N M) (10 ^ (- E))
  else round_q s (Z.of_N M * 10 ^ E) 1.

(** Splitting off a maximal run of digits. *)
Fixpoint span_digits (s : str) : str * str :=
  match s with
  | [] => ([], [])
  | c :: r => if is_digit c then let '(a, b) := span_digits r in (c :: a, b) else ([], s)
  end.

(** [str::parse::<f64>] restricted to the grammar the code admits before calling it
    (src/shared/literal_utils.rs:85-145): -?digits(.digits)?([eE][+-]?digits)? .
    Text outside the grammar is [None]. *)
Definition parse_exp (s : str) : option Z :=
  match s with
  | [] => Some 0
  | c :: r =>
      if ((c =? cLE) || (c =? cUE))%N then
        let '(neg, r) := match r with
                         | x :: r' => if (x =? cPLUS)%N then (false, r')
                                      else if (x =? cMINUS)%N then (true, r') else (false, r)
                         | [] => (false, [])
                         end in
        let '(ds, rest) := span_digits r in
        if is_empty ds then None
        else if is_empty rest then
          Some (if (neg : bool) then - Z.of_N (dec_val ds) else Z.of_N (dec_val ds))
        else None
      else None
  end.

Definition parse_f64 (s : str) : option f64 :=
  let '(neg, s) := match s with
                   | c :: r => if (c =? cMINUS)%N then (true, r) else (false, s)
                   | [] => (false, [])
                   end in
  let '(ip, r) := span_digits s in
  if is_empty ip then None else
  let '(fp, r, bad) := match r with
                  | c :: r' => if (c =? cDOT)%N then
                                 let '(fp, r'') := span_digits r' in (fp, r'', is_empty fp)
                               else ([], r, false)
                  | [] => ([], [], false)
                  end in
  if (bad : bool) then None else
  match parse_exp r with
  | None => None
  | Some e => Some (mk_f64 (round_dec neg (dec_val (ip ++ fp)) (e - Z.of_nat (length fp))))
  end.

(** Decimal text c * 10^p without exponent. *)
Definition pad_left (k : nat) (s : str) : str := repeat cZERO (k - length s)%nat ++ s.
Definition format_fixed (c : N) (p : Z) : str :=
  if p <? 0 then
    let k := Z.to_N (- p) in
    dec_of_N (c / 10 ^ k)%N ++ cDOT :: pad_left (N.to_nat k) (dec_of_N (c mod 10 ^ k)%N)
  else dec_of_N (c * 10 ^ Z.to_N p)%N.

(** Number of decimal digits before the point of n/d: the least t with n/d < 10^t
    (estimated from the binary logarithm, then adjusted). *)
Fixpoint adjust_up (fuel : nat) (n d t : Z) : Z :=
  match fuel with
  | O => t
  | S f =>
      let ok := if t <? 0 then n * 10 ^ (- t) <? d else n <? d * 10 ^ t in
      if ok then t else adjust_up f n d (t + 1)
  end.
Definition dec_exponent (n d : Z) : Z :=
  let l := flog2_q n d in
  adjust_up 4 n d (l * 30103 / 100000).

(** |x| = n/d exactly. *)
Definition f64_frac (m : positive) (e : Z) : Z * Z :=
  (Z.pos m * pow2 e, pow2 (- e)).

Definition sf_eqb (a b : spec_float) : bool :=
  match a, b with
  | S754_zero s, S754_zero t => Bool.eqb s t
  | S754_infinity s, S754_infinity t => Bool.eqb s t
  | S754_nan, S754_nan => true
  | S754_finite s m e, S754_finite t n f => Bool.eqb s t && (m =? n)%positive && (e =? f)
  | _, _ => false
  end.

(** Shortest decimal (digits c, exponent p: c * 10^p) that rounds back to the
    number, nearest to it among those with the least digit count.  Rust prints
    these digits (core::num::flt2dec, shortest mode).  When the number is half way
    between two such decimals, [up] decides from the lower one which is taken;
    core::num::flt2dec takes the upper one.  The exact expansion is the fallback so
    that the function is total. *)
Fixpoint shortest_from (up : Z -> bool) (k : nat) (j : Z) (t n d : Z) (m : positive) (e : Z) : N * Z :=
  match k with
  | O =>
      (* exact expansion: m * 2^e = m * 5^(-e) * 10^e for e < 0 *)
      if e <? 0 then (Z.to_N (Z.pos m * 5 ^ (- e)), e) else (Z.to_N (Z.pos m * 2 ^ e), 0)
  | S k' =>
      (* j digits: unit 10^(t-j) *)
      let p := t - j in
      let nn := if p <? 0 then n * 10 ^ (- p) else n in
      let dd := if p <? 0 then d else d * 10 ^ p in
      let lo := nn / dd in
      let r := nn mod dd in
      let below := (2 * r <? dd) || ((2 * r =? dd) && negb (up lo)) in
      let norm c := if c =? 10 then (1%N, p + 1) else (Z.to_N c, p) in
      let ok cp := sf_eqb (round_dec false (fst cp) (snd cp)) (S754_finite false m e) in
      let first := norm (if below then lo else lo + 1) in
      let second := norm (if below then lo + 1 else lo) in
      if ok first then first
      else if ok second then second
      else shortest_from up k' (j + 1) t n d m e
  end.

Definition shortest_by (up : Z -> bool) (m : positive) (e : Z) : N * Z :=
  let '(n, d) := f64_frac m e in
  shortest_from up 17 1 (dec_exponent n d) n d m e.
Definition shortest : positive -> Z -> N * Z := shortest_by (fun _ => true).

(** [f64::to_string] for values that are finite and not zero (callers handle the rest,
    src/encode/primitives.rs:85-93); never uses an exponent. *)
Definition f64_to_string (x : f64) : str :=
  match f64_sf x with
  | S754_zero s => if s then lit "-0" else lit "0"
  | S754_infinity s => if s then lit "-inf" else lit "inf"
  | S754_nan => lit "NaN"
  | S754_finite s m e =>
      let '(c, p) := shortest m e in
      (if s then [cMINUS] else []) ++ format_fixed c p
  end.
