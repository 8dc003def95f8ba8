(** Characters and strings.

    A Rust [char] is a Unicode scalar value, modelled by its code point in [N];
    a [String] / [&str] is the list of its characters.  *)
From Coq Require Export String Ascii List Bool NArith ZArith Lia.
From Coq Require Export ZifyBool ZifyNat ZifyN.
Export ListNotations.

Open Scope N_scope.
Open Scope list_scope.

Notation char := N (only parsing).
Definition str := list char.

(** String literals of the source text (ASCII only). *)
Fixpoint lit (s : string) : str :=
  match s with
  | EmptyString => []
  | String a r => N_of_ascii a :: lit r
  end.

(** src/shared/constants.rs:4-23 (character constants). *)
Notation cTAB := 9.
Notation cLF := 10.
Notation cCR := 13.
Notation cSPACE := 32.
Notation cDQ := 34.
Notation cPLUS := 43.
Notation cCOMMA := 44.
Notation cMINUS := 45.
Notation cDOT := 46.
Notation cZERO := 48.
Notation cCOLON := 58.
Notation cUE := 69.
Notation cLBRACK := 91.
Notation cBSLASH := 92.
Notation cRBRACK := 93.
Notation cUNDER := 95.
Notation cLE := 101.
Notation cLN := 110.
Notation cLR := 114.
Notation cLT := 116.
Notation cLBRACE := 123.
Notation cPIPE := 124.
Notation cRBRACE := 125.

(** src/shared/constants.rs:25 *)
Definition DEFAULT_DELIMITER : char := cCOMMA.

(** [char::is_whitespace]: the Unicode property White_Space. *)
Definition is_ws (c : char) : bool :=
  ((9 <=? c) && (c <=? 13)) || (c =? 32) || (c =? 133) || (c =? 160) || (c =? 5760)
  || ((8192 <=? c) && (c <=? 8202)) || (c =? 8232) || (c =? 8233) || (c =? 8239)
  || (c =? 8287) || (c =? 12288).

(** [char::is_ascii_digit], [is_ascii_alphabetic], [is_ascii_alphanumeric]. *)
Definition is_digit (c : char) : bool := (48 <=? c) && (c <=? 57).
Definition is_alpha (c : char) : bool :=
  ((65 <=? c) && (c <=? 90)) || ((97 <=? c) && (c <=? 122)).
Definition is_alnum (c : char) : bool := is_alpha c || is_digit c.

(** Equality of strings. *)
Fixpoint str_eqb (a b : str) : bool :=
  match a, b with
  | [], [] => true
  | x :: a', y :: b' => (x =? y) && str_eqb a' b'
  | _, _ => false
  end.

(** [str::contains(char)]. *)
Definition contains (c : char) (s : str) : bool := existsb (N.eqb c) s.

(** [str::starts_with(char)] and [str::starts_with(&str)]. *)
Definition starts_with (c : char) (s : str) : bool :=
  match s with [] => false | x :: _ => x =? c end.
Fixpoint starts_with_str (p s : str) : bool :=
  match p, s with
  | [], _ => true
  | x :: p', y :: s' => (x =? y) && starts_with_str p' s'
  | _ :: _, [] => false
  end.

(** [str::find(char)]: index of the first occurrence. *)
Fixpoint find_char (c : char) (s : str) : option nat :=
  match s with
  | [] => None
  | x :: r => if x =? c then Some 0%nat else option_map S (find_char c r)
  end.

(** [str::trim_start], [str::trim_end], [str::trim]. *)
Fixpoint trim_start (s : str) : str :=
  match s with
  | [] => []
  | x :: r => if is_ws x then trim_start r else s
  end.
Definition trim_end (s : str) : str := rev (trim_start (rev s)).
Definition trim (s : str) : str := trim_end (trim_start s).

(** [str::is_empty]. *)
Definition is_empty {A} (s : list A) : bool := match s with [] => true | _ => false end.

(** [last char] ([str::ends_with(char)] and [String::pop]). *)
Definition ends_with (c : char) (s : str) : bool :=
  match rev s with [] => false | x :: _ => x =? c end.
Definition pop (s : str) : str := removelast s.

(** [str::split(char)] *)
Fixpoint split_on (c : char) (s : str) : list str :=
  match s with
  | [] => [[]]
  | x :: r =>
      if x =? c then [] :: split_on c r
      else match split_on c r with
           | [] => [[x]]
           | p :: ps => (x :: p) :: ps
           end
  end.

(** [<[String]>::join(sep)] with a one-character separator. *)
Fixpoint join (c : char) (l : list str) : str :=
  match l with
  | [] => []
  | [x] => x
  | x :: r => x ++ c :: join c r
  end.

(** [" ".repeat(n)] and the push loops of the encoder. *)
Definition spaces (n : nat) : str := repeat cSPACE n.

(** Unsigned decimal text of a number ([usize::to_string], [f64] digits). *)
Fixpoint digits_fuel (fuel : nat) (n : N) (acc : str) : str :=
  match fuel with
  | O => acc
  | S f =>
      let acc' := (48 + n mod 10) :: acc in
      if n / 10 =? 0 then acc' else digits_fuel f (n / 10) acc'
  end.
Definition dec_of_N (n : N) : str := digits_fuel (S (N.to_nat (N.size n))) n [].

(** Value of a string of decimal digits. *)
Definition dec_val (s : str) : N :=
  fold_left (fun acc c => acc * 10 + (c - 48)) s 0.

Global Arguments N.add : simpl never.
Global Arguments N.sub : simpl never.
Global Arguments N.mul : simpl never.
Global Arguments N.div : simpl never.
Global Arguments N.modulo : simpl never.
Global Arguments N.pow : simpl never.
