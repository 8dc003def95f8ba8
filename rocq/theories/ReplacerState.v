(** src/encode/replacer.rs once more, for replacers with a state of their own.  Definitions only.

    The type of replacers, [Arc<dyn Fn(..) + Send + Sync>] (src/options.rs:6-7), lets a closure keep
    interior state (counters, locks, a log).  Here the state, of any type, is passed in and returned
    by each call, so the order of the calls matters.  Fuel as in Replacer.v. *)
From Verif Require Import Chars Floats Json Shared EncPrim Normalize Folding Encoders Replacer EncodeApi.

Section State.
Context {A : Type}.
Definition state_replacer : Type := A -> str -> json -> list path_segment -> A * option json.

(** The loop of transform_object, src/encode/replacer.rs:34-44. *)
Definition transform_entries_state (rec : A -> json -> list path_segment -> option (A * json))
           (rep : state_replacer) (path : list path_segment)
  : A -> list (str * json) -> option (A * list (str * json)) :=
  fix go s entries :=
    match entries with
    | [] => Some (s, [])
    | (key, value) :: r =>
        let next_path := path ++ [PSKey key] in
        match rep s key value next_path with
        | (s1, None) => go s1 r
        | (s1, Some next_value) =>
            match rec s1 (normalize_json_value next_value) next_path with
            | None => None
            | Some (s2, t) => option_map (fun x => (fst x, (key, t) :: snd x)) (go s2 r)
            end
        end
    end.

(** The loop of transform_array, src/encode/replacer.rs:56-67. *)
Definition transform_items_state (rec : A -> json -> list path_segment -> option (A * json))
           (rep : state_replacer) (path : list path_segment)
  : A -> nat -> list json -> option (A * list json) :=
  fix go s idx values :=
    match values with
    | [] => Some (s, [])
    | value :: r =>
        let next_path := path ++ [PSIndex idx] in
        match rep s (dec_of_N (N.of_nat idx)) value next_path with
        | (s1, None) => go s1 (S idx) r
        | (s1, Some next_value) =>
            match rec s1 (normalize_json_value next_value) next_path with
            | None => None
            | Some (s2, t) => option_map (fun x => (fst x, t :: snd x)) (go s2 (S idx) r)
            end
        end
    end.

(** src/encode/replacer.rs:15-70 *)
Fixpoint transform_children_state (fuel : nat) (rep : state_replacer) (s : A) (value : json)
         (path : list path_segment) : option (A * json) :=
  match fuel with
  | O => None
  | S fuel =>
      match value with
      | JObj entries =>
          option_map (fun x => (fst x, JObj (snd x)))
            (transform_entries_state (transform_children_state fuel rep) rep path s entries)
      | JArr values =>
          option_map (fun x => (fst x, JArr (snd x)))
            (transform_items_state (transform_children_state fuel rep) rep path s 0 values)
      | JPrim p => Some (s, JPrim p)
      end
  end.

(** src/encode/replacer.rs:5-13 *)
Definition apply_replacer_state (fuel : nat) (rep : state_replacer) (s : A) (root : json) : option (A * json) :=
  match rep s [] root [] with
  | (s1, Some value) => transform_children_state fuel rep s1 (normalize_json_value value) []
  | (s1, None) => transform_children_state fuel rep s1 root []
  end.

(** src/encode/mod.rs:27-36 with such a replacer (that of the options is not used): the lines and
    the state the replacer is left in. *)
Definition encode_lines_state (fuel : nat) (rep : state_replacer) (s : A) (v : json) (options : option encode_options)
  : result (A * list str) :=
  let o := resolve_encode_options options in
  match apply_replacer_state fuel rep s (normalize_json_value v) with
  | Some (s', r) => let? ls := encode_json_value r o in Ok (s', ls)
  | None => Err EFuel
  end.

(** src/encode/mod.rs:43-58 *)
Definition encode_stream_events_state (fuel : nat) (rep : state_replacer) (s : A) (v : json) (options : option encode_options)
  : result (A * list event) :=
  match apply_replacer_state fuel rep s (normalize_json_value v) with
  | Some (s', r) => Ok (s', emit_events r)
  | None => Err EFuel
  end.
End State.
