(** The text of a value, composed from the texts of its parts. *)
From Verif Require Import Chars Floats Json Spec SpecText.

Local Open Scope nat_scope.

Definition pushed (n : nat) (ls : list str) : list str := map (fun s => repeat cSPACE n ++ s) ls.
Definition dash (indent : nat) (s : str) : str := repeat cSPACE indent ++ cMINUS :: cSPACE :: s.
Definition tabled (l : list json) : Prop := exists fields rows, table l fields rows.

Section Parts.
(** Which lines are the text of a value. *)
Variable text : json -> list str -> Prop.
Variable indent : nat.
Variable dl : char.

(** The lines of a value as an item of an array that is written as a list: the first line after a
    hyphen, the other lines of an object two levels deeper, of an array one level. *)
Inductive block : json -> list str -> Prop :=
| bl_prim p t : text (JPrim p) [t] -> block (JPrim p) [dash indent t]
| bl_none : block (JObj []) [repeat cSPACE indent ++ [cMINUS]]
| bl_obj m l first rest : text (JObj (m :: l)) (first :: rest) ->
    block (JObj (m :: l)) (dash indent first :: pushed (indent * 2) rest)
| bl_arr l first rest : ~ tabled l -> text (JArr l) (first :: rest) ->
    block (JArr l) (dash indent first :: pushed indent rest)
(** An array that would be a table is a list of its own there. *)
| bl_table l h bs : tabled l -> header dl None (length l) None h -> Forall2 block l bs ->
    block (JArr l) (dash indent h :: pushed indent (concat bs)).
End Parts.
