(** src/encode/folding.rs.  Definitions only. *)
From Verif Require Import Chars Floats Json Shared Normalize.

(** src/encode/folding.rs:10-16 *)
Record fold_result := FoldResult {
  fr_key : str;
  fr_remainder : option json;
  fr_leaf : json;
  fr_count : nat
}.

(** src/encode/folding.rs:92-104, the loop; [segs] is the reversed list of segments so far. *)
Fixpoint collect_chain (segs : list str) (v : json) (max_depth : N) : list str * json :=
  if N.of_nat (length segs) <? max_depth then
    match v with
    | JObj [(k, v')] => collect_chain (k :: segs) v' max_depth
    | _ => (rev segs, v)
    end
  else (rev segs, v).

(** src/encode/folding.rs:84-117 *)
Definition collect_single_key_chain (start_key : str) (start_value : json) (max_depth : N)
  : list str * option json * json :=
  let '(segs, v) := collect_chain [start_key] start_value max_depth in
  match v with
  | JObj [] => (segs, None, v)
  | JObj _ => (segs, Some v, v)
  | _ => (segs, None, v)
  end.

(** [format!("{prefix}{DOT}{key}")] or the key itself
    (src/encode/folding.rs:65-68, src/encode/encoders.rs:89-90, 131-135). *)
Definition path_join (prefix : option str) (key : str) : str :=
  match prefix with Some p => p ++ cDOT :: key | None => key end.

Definition str_mem (k : str) (l : list str) : bool := existsb (str_eqb k) l.

(** src/encode/folding.rs:20-82 *)
Definition try_fold_key_chain (key : str) (value : json) (siblings : list str)
           (options : renc_options) (root_literal_keys : option (list str))
           (path_prefix : option str) (flatten_depth : N) : option fold_result :=
  match ro_key_folding options with
  | KFOff => None
  | KFSafe =>
      if negb (is_json_object value) then None
      else if flatten_depth <? 2 then None
      else
        let '(segments, tail, leaf) := collect_single_key_chain key value flatten_depth in
        if Nat.ltb (length segments) 2 then None
        else if negb (forallb is_identifier_segment segments) then None
        else
          let folded_key := join cDOT segments in
          if str_mem folded_key siblings then None
          else
            let absolute := path_join path_prefix folded_key in
            match root_literal_keys with
            | Some rk => if str_mem absolute rk then None
                         else Some (FoldResult folded_key tail leaf (length segments))
            | None => Some (FoldResult folded_key tail leaf (length segments))
            end
  end.
