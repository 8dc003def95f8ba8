(** Replacing the key at the start of a line. *)
From Verif Require Import Chars Floats Json Spec SpecText SpecRead SpecEdit.

(** What can follow a key on its line: a colon and a rest without '[', or the header of an array. *)
Inductive after_key : str -> Prop :=
| ak_colon r : ~ In cLBRACK r -> after_key (cCOLON :: r)
| ak_array r h tail : is_header (cLBRACK :: r) h tail -> after_key (cLBRACK :: r).
(** Before a key: the indentation, and perhaps the mark of an item.  Without that mark no key looks
    like an item. *)
Inductive before_key (c c' : str) : str -> Prop :=
| bk_indent k : ~ dashed c -> ~ dashed c' -> before_key c c' (repeat cSPACE k)
| bk_item k : before_key c c' (repeat cSPACE k ++ [cMINUS; cSPACE]).
(** The key [c] of the line [x ++ c ++ y] can be replaced by [c']. *)
Definition key_place (x c c' y : str) : Prop :=
  word c /\ word c' /\ before_key c c' x /\ after_key y.

(** The name of the member: the key, or, where a hyphen does not start an item, all of the text. *)
Definition renames (c c' k k' : str) : Prop :=
  (k = c /\ k' = c') \/ (k = cMINUS :: cSPACE :: c /\ k' = cMINUS :: cSPACE :: c').
(** [w] is [v] with the name of exactly one member replaced. *)
Inductive one_name (R : str -> str -> Prop) : json -> json -> Prop :=
| on_here a k k' v b : R k k' -> one_name R (JObj (a ++ (k, v) :: b)) (JObj (a ++ (k', v) :: b))
| on_item a v w b : one_name R v w -> one_name R (JArr (a ++ v :: b)) (JArr (a ++ w :: b))
| on_member a k v w b : one_name R v w -> one_name R (JObj (a ++ (k, v) :: b)) (JObj (a ++ (k, w) :: b)).
