(** Faults that no further line can change. *)
From Verif Require Import Chars Floats Json Spec SpecText SpecRead SpecCut.

Local Open Scope nat_scope.

(** One line with text, and no colon where a key can end: by itself a primitive, with another line
    after it a member without a colon. *)
Definition lone (lines : list str) : Prop :=
  exists bl k t r, lines = bl ++ (repeat cSPACE k ++ t) :: r /\ Forall blank bl /\ Forall blank r /\
    ~ blank t /\ (forall u, t <> cSPACE :: u) /\ ~ has_colon t.
(** An error about the spaces before a line. *)
Definition of_indentation (e : err) : Prop :=
  match e with ETabIndent _ | EIndentZero _ _ | EIndentMultiple _ _ _ => True | _ => False end.
(** An error of path expansion, which starts when everything is read. *)
Definition of_expansion (e : err) : Prop :=
  match e with EExpandConflict _ | EExpandDepth => True | _ => False end.
(** Not about an array that is too short, and not about a blank line in a list (its last item may go on,
    and what follows is read before the blank lines are looked at), and not of path expansion. *)
Definition settled (e : err) : Prop := ~ missing e /\ ~ of_expansion e /\ forall n, e <> EBlankInArray CItems n.
