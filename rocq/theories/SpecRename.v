(** A member with another name. *)
From Verif Require Import Chars Floats Json Spec SpecText SpecParts.

(** [w] is [v] with the name [k] of one member, somewhere in it, replaced by [k'].  Arrays on the way to
    that member are tables neither before nor after. *)
Inductive renamed (k k' : str) : json -> json -> Prop :=
| rn_here a x b : renamed k k' (JObj (a ++ (k, x) :: b)) (JObj (a ++ (k', x) :: b))
| rn_member a n v w b : renamed k k' v w -> renamed k k' (JObj (a ++ (n, v) :: b)) (JObj (a ++ (n, w) :: b))
| rn_item a v w b : ~ tabled (a ++ v :: b) -> ~ tabled (a ++ w :: b) -> renamed k k' v w ->
    renamed k k' (JArr (a ++ v :: b)) (JArr (a ++ w :: b)).
