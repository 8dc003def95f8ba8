(** What converting documents to and from the values of serde_json should do.  Definitions only. *)
From Coq Require Import SpecFloat.
From Verif Require Import Chars Floats Json SpecJson Spec.

(** * Names that repeat: the last value, at the place of the first *)

Fixpoint first_names (ks : list str) : list str :=
  match ks with
  | [] => []
  | k :: r => k :: filter (fun x => negb (str_eqb x k)) (first_names r)
  end.
Fixpoint last_of {A} (l : list (str * A)) (k : str) : option A :=
  match l with
  | [] => None
  | (k', v) :: r => match last_of r k with
                    | Some w => Some w
                    | None => if str_eqb k' k then Some v else None
                    end
  end.
Definition unique_last {A} (l : list (str * A)) : list (str * A) :=
  flat_map (fun k => match last_of l k with Some v => [(k, v)] | None => [] end) (first_names (map fst l)).
Fixpoint last_wins (v : json) : json :=
  match v with
  | JPrim p => JPrim p
  | JArr l => JArr (map last_wins l)
  | JObj l => JObj (unique_last (map (fun kv => (fst kv, last_wins (snd kv))) l))
  end.

(** * Integers *)

(** The double is exactly the integer. *)
Definition denotes (x : f64) (z : Z) : Prop :=
  match f64_sf x with
  | S754_zero _ => z = 0%Z
  | S754_finite s m e => (z * 2 ^ Z.max 0 (- e) = (if s then Zneg m else Zpos m) * 2 ^ Z.max 0 e)%Z
  | _ => False
  end.

(** * Reading JSON *)

(** How deeply arrays and objects are nested. *)
Fixpoint nesting (t : jtree) : nat :=
  match t with
  | TArr l => S (fold_right Nat.max O (map nesting l))
  | TObj l => S (fold_right Nat.max O (map (fun kv => nesting (snd kv)) l))
  | _ => O
  end.
Fixpoint literals (t : jtree) : list str :=
  match t with
  | TNum n => [n]
  | TArr l => flat_map literals l
  | TObj l => flat_map (fun kv => literals (snd kv)) l
  | _ => []
  end.
(** The value with a given reading of number literals. *)
Fixpoint value_with (rd : str -> option f64) (t : jtree) : option json :=
  match t with
  | TNull => Some (JPrim PNull)
  | TBool b => Some (JPrim (PBool b))
  | TNum n => option_map (fun x => JPrim (PNum x)) (rd n)
  | TStr s => Some (JPrim (PStr s))
  | TArr l => option_map JArr (map_option (value_with rd) l)
  | TObj l => option_map JObj (map_option (fun kv => option_map (pair (fst kv)) (value_with rd (snd kv))) l)
  end.
(** Literals without fraction and exponent whose magnitude is below 2^64. *)
Definition word_literal (n : str) : bool :=
  let ds := match n with c :: r => if c =? cMINUS then r else n | [] => [] end in
  forallb is_digit ds && (dec_val ds <? 2 ^ 64).
(** Those are rounded to the nearest double, the others are read by [rf]. *)
Definition reading (rf : str -> option f64) (n : str) : option f64 :=
  if word_literal n then parse_f64 n else rf n.
