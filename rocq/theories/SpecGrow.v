(** How large a value is: what C73 says about path expansion. *)
From Verif Require Import Chars Json SpecReplace.

Local Open Scope nat_scope.

(** The number of values in a value, itself included. *)
Fixpoint places (v : json) : nat :=
  match v with
  | JPrim _ => 1
  | JArr l => S (list_sum (map places l))
  | JObj l => S (list_sum (map (fun kv => places (snd kv)) l))
  end.
(** All keys of a value, at all levels. *)
Fixpoint all_keys (v : json) : list str :=
  match v with
  | JPrim _ => []
  | JArr l => flat_map all_keys l
  | JObj l => flat_map (fun kv => fst kv :: all_keys (snd kv)) l
  end.
Definition key_chars (v : json) : nat := list_sum (map (@length char) (all_keys v)).
Definition key_dots (v : json) : nat := list_sum (map (fun k => count_occ N.eq_dec k cDOT) (all_keys v)).
(** Nesting, when each dot of a key is one level more. *)
Fixpoint reach (v : json) : nat :=
  match v with
  | JPrim _ => 0
  | JArr l => S (list_max (map reach l))
  | JObj l => S (list_max (map (fun kv => count_occ N.eq_dec (fst kv) cDOT + reach (snd kv)) l))
  end.
