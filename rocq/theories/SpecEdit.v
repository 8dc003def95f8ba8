(** Replacing a word in a line of a text. *)
From Verif Require Import Chars Floats Json Spec SpecText SpecRead.

(** Characters that give a line its structure. *)
Definition brackets : list char := [cCOLON; cLBRACK; cRBRACK; cLBRACE; cRBRACE].
Definition marks : list char := cDQ :: cBSLASH :: cCOMMA :: cTAB :: cPIPE :: brackets.
(** A word: some text without them, not starting or ending with whitespace. *)
Definition word (c : str) : Prop :=
  c <> [] /\ (forall x, In x c -> ~ In x marks) /\
  (forall x r, c = x :: r -> is_ws x = false) /\ (forall x r, c = r ++ [x] -> is_ws x = false).
(** A text that starts the way an item of a list does. *)
Definition dashed (c : str) : Prop := c = [cMINUS] \/ exists r, c = cMINUS :: cSPACE :: r.

(** A word can be replaced between [x] and [y]: no backslash right before it, no colon, bracket or
    brace after it, and at the start of a line no word looking like an item of a list. *)
Definition place (x c c' y : str) : Prop :=
  word c /\ word c' /\ (forall r, x <> r ++ [cBSLASH]) /\ (forall k, In k y -> ~ In k brackets) /\
  (blank x -> ~ dashed c /\ ~ dashed c').

(** [p] is read from a token with the word [c] in it, [p'] from the same token with [c']: a part of
    the line that has the texts [x] and [y] around the word. *)
Definition rewritten (double : str -> option f64) (x c c' y : str) (p p' : prim) : Prop :=
  exists x0 x1 y1 y0, x = x0 ++ x1 /\ y = y1 ++ y0 /\
    prim_text double (x1 ++ c ++ y1) p /\ prim_text double (x1 ++ c' ++ y1) p'.

(** [w] is [v] with exactly one of its primitive values replaced, by one that is [R]-related. *)
Inductive one_value (R : prim -> prim -> Prop) : json -> json -> Prop :=
| ov_prim p p' : R p p' -> one_value R (JPrim p) (JPrim p')
| ov_item a v w b : one_value R v w -> one_value R (JArr (a ++ v :: b)) (JArr (a ++ w :: b))
| ov_member a k v w b : one_value R v w -> one_value R (JObj (a ++ (k, v) :: b)) (JObj (a ++ (k, w) :: b)).
