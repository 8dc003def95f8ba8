(** Where a blank line is inside an array: between the first and the last line of the rows or items
    of an array that is not itself inside an array. *)
From Verif Require Import Chars Floats Json Spec SpecRead.

Local Open Scope nat_scope.

Section Bodies.
Variable double : str -> option f64.
Notation member := (member double true []).
Notation array := (array double true []).

(** [member_body d t ls used]: in the member that starts with the text [t] at depth [d] and goes on
    with the lines [ls], the lines [used] are the rows or items of an array. *)
Inductive member_body : nat -> str -> list tline -> list tline -> Prop :=
| mb_here d t ls h tail k v used rest : is_header t h tail -> hl_key h = Some k -> blank tail ->
    array d h tail ls v rest -> ls = used ++ rest -> member_body d t ls used
| mb_inside d t ls k q r l ls' used : plain t -> key_line t k q r -> blank r ->
    ls = l :: ls' -> d < tl_depth l -> members_body (tl_depth l) ls used -> member_body d t ls used
with members_body : nat -> list tline -> list tline -> Prop :=
| ms_first d l ls used : tl_depth l = d -> member_body d (tl_text l) ls used -> members_body d (l :: ls) used
| ms_later d l ls m ls1 used : tl_depth l = d -> member d (tl_text l) ls m ls1 ->
    members_body d ls1 used -> members_body d (l :: ls) used.

Definition root_array (l : tline) (h : head_line) (tail : str) : Prop :=
  begins cLBRACK (tl_text l) /\ unquoted cCOLON (tl_text l) /\ is_header (tl_text l) h tail.
Inductive body : list tline -> list tline -> Prop :=
| bo_array l ls h tail v used rest : root_array l h tail -> blank tail ->
    array 0 h tail ls v rest -> ls = used ++ rest -> body (l :: ls) used
| bo_first l ls used : (forall h tail, ~ root_array l h tail) ->
    member_body 0 (tl_text l) ls used -> body (l :: ls) used
| bo_later l ls m ls1 used : (forall h tail, ~ root_array l h tail) ->
    member 0 (tl_text l) ls m ls1 -> members_body 0 ls1 used -> body (l :: ls) used.
End Bodies.

Scheme member_body_ind' := Minimality for member_body Sort Prop
  with members_body_ind' := Minimality for members_body Sort Prop.
Combined Scheme body_mutind from member_body_ind', members_body_ind'.
