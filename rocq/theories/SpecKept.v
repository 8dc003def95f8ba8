(** Values that have lost members at the end of objects. *)
From Verif Require Import Chars Floats Json.

(** [kept w v]: [w] is [v] without some members, at the end of any of its objects.  What is left is in
    the same place: members with the same keys, in the same order, and arrays as long as they were. *)
Inductive kept : json -> json -> Prop :=
| kp_prim p : kept (JPrim p) (JPrim p)
| kp_arr l m : kept_items l m -> kept (JArr l) (JArr m)
| kp_obj l m : kept_members l m -> kept (JObj l) (JObj m)
with kept_items : list json -> list json -> Prop :=
| ki_nil : kept_items [] []
| ki_cons w v l m : kept w v -> kept_items l m -> kept_items (w :: l) (v :: m)
with kept_members : list (str * json) -> list (str * json) -> Prop :=
| km_end m : kept_members [] m
| km_cons k w v l m : kept w v -> kept_members l m -> kept_members ((k, w) :: l) ((k, v) :: m).
