(** A table with another name for one field. *)
From Verif Require Import Chars Floats Json Spec SpecText SpecParts.

(** The row [r] with the name [k] replaced by [k'], a name it did not have. *)
Definition row_renamed (k k' : str) (r r' : json) : Prop :=
  exists es es', r = JObj es /\ r' = JObj es' /\ ~ In k' (map fst es) /\
    Forall2 (fun m m' => snd m' = snd m /\ (fst m = k /\ fst m' = k' \/ fst m <> k /\ fst m' = fst m)) es es'.

(** [w] is [v] with the field [k] of one table, somewhere in it, renamed to [k'] in every row.  Other arrays
    on the way are tables neither before nor after; an item of an array is no table. *)
Inductive field_renamed (k k' : str) : json -> json -> Prop :=
| fr_table l m fields rows : table l fields rows -> NoDup fields -> In k fields -> Forall2 (row_renamed k k') l m ->
    field_renamed k k' (JArr l) (JArr m)
| fr_member a n v w b : field_renamed k k' v w -> field_renamed k k' (JObj (a ++ (n, v) :: b)) (JObj (a ++ (n, w) :: b))
| fr_item a v w b : ~ tabled (a ++ v :: b) -> ~ tabled (a ++ w :: b) -> (forall l, v = JArr l -> ~ tabled l) ->
    field_renamed k k' v w -> field_renamed k k' (JArr (a ++ v :: b)) (JArr (a ++ w :: b)).
