(** Documents that differ in the order of their members. *)
From Coq Require Import Permutation.
From Verif Require Import Chars Floats Json Spec.

(** The same members, with keys quoted in the same places, in any order, at every level. *)
Inductive reordered : doc -> doc -> Prop :=
| re_prim p : reordered (DPrim p) (DPrim p)
| re_arr l m : Forall2 reordered l m -> reordered (DArr l) (DArr m)
| re_obj l l' m : Permutation l l' ->
    Forall2 (fun a b => fst a = fst b /\ reordered (snd a) (snd b)) l' m -> reordered (DObj l) (DObj m).
