(** What is left of a value when the end of its text is missing. *)
From Verif Require Import Chars Floats Json Spec SpecText SpecRead.

(** [shortened whole w v]: [w] is [v] without some members at its end: the last member or item that is
    left may itself be shortened.  With [whole], no array has lost an item. *)
Inductive shortened (whole : bool) : json -> json -> Prop :=
| sh_members a b : b <> [] -> shortened whole (JObj a) (JObj (a ++ b))
| sh_member a k w v b : shortened whole w v -> shortened whole (JObj (a ++ [(k, w)])) (JObj (a ++ (k, v) :: b))
| sh_items a b : whole = false -> b <> [] -> shortened whole (JArr a) (JArr (a ++ b))
| sh_item a w v b : (whole = true -> b = []) -> shortened whole w v ->
    shortened whole (JArr (a ++ [w])) (JArr (a ++ v :: b)).

(** The error for an array that is not complete: fewer items or rows than its header declares. *)
Definition missing (e : err) : Prop :=
  exists what n m, e = ECount what n m /\ (what = CItems \/ what = CRows) /\ (m < n)%N.

(** What decoding the lines [raws], the first ones of a text with value [v], can give.  Without any
    text it is an empty object. *)
Definition cut_outcome (strict : bool) (raws : list str) (w : result json) (v : json) : Prop :=
  (Forall blank raws /\ w = Ok (JObj [])) \/
  (exists v', w = Ok v' /\ shortened strict v' v) \/
  (strict = true /\ exists e, w = Err e /\ missing e).

(** No object in it. *)
Inductive no_object : json -> Prop :=
| no_prim p : no_object (JPrim p)
| no_arr l : Forall no_object l -> no_object (JArr l).
