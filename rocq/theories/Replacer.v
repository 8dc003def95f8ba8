(** src/encode/replacer.rs.  Definitions only.

    The Rust recursion follows the *replacement* values, so nothing bounds it; the model takes
    fuel and returns [None] when the fuel runs out. *)
From Verif Require Import Chars Floats Json Normalize.

(** The loop of transform_object, src/encode/replacer.rs:34-44. *)
Definition transform_entries (rec : json -> list path_segment -> option json)
           (rep : replacer) (path : list path_segment)
  : list (str * json) -> option (list (str * json)) :=
  fix go entries :=
    match entries with
    | [] => Some []
    | (key, value) :: r =>
        let next_path := path ++ [PSKey key] in
        match rep key value next_path with
        | None => go r
        | Some next_value =>
            match rec (normalize_json_value next_value) next_path with
            | None => None
            | Some t => option_map (cons (key, t)) (go r)
            end
        end
    end.

(** The loop of transform_array, src/encode/replacer.rs:56-67. *)
Definition transform_items (rec : json -> list path_segment -> option json)
           (rep : replacer) (path : list path_segment)
  : nat -> list json -> option (list json) :=
  fix go idx values :=
    match values with
    | [] => Some []
    | value :: r =>
        let next_path := path ++ [PSIndex idx] in
        match rep (dec_of_N (N.of_nat idx)) value next_path with
        | None => go (S idx) r
        | Some next_value =>
            match rec (normalize_json_value next_value) next_path with
            | None => None
            | Some t => option_map (cons t) (go (S idx) r)
            end
        end
    end.

(** src/encode/replacer.rs:15-70 *)
Fixpoint transform_children (fuel : nat) (rep : replacer) (value : json)
         (path : list path_segment) : option json :=
  match fuel with
  | O => None
  | S fuel =>
      match value with
      | JObj entries =>
          option_map JObj (transform_entries (transform_children fuel rep) rep path entries)
      | JArr values =>
          option_map JArr (transform_items (transform_children fuel rep) rep path 0 values)
      | JPrim p => Some (JPrim p)
      end
  end.

(** src/encode/replacer.rs:5-13 *)
Definition apply_replacer (fuel : nat) (root : json) (rep : replacer) : option json :=
  match rep [] root [] with
  | Some value => transform_children fuel rep (normalize_json_value value) []
  | None => transform_children fuel rep root []
  end.
