(** Texts that stand one after the other. *)
From Verif Require Import Chars Floats Json Spec SpecText SpecRead.

Local Open Scope nat_scope.

(** The first line with text, if there is one, starts without a space. *)
Definition starts_unindented (lines : list str) : Prop :=
  forall bl l r, lines = bl ++ l :: r -> Forall blank bl -> ~ blank l -> forall s, l <> cSPACE :: s.

(** An error about a text that stands after [k] other lines. *)
Definition moved (k : nat) (e : err) : err :=
  match e with
  | ETabIndent n => ETabIndent (k + n)
  | EIndentZero n f => EIndentZero (k + n) f
  | EIndentMultiple n s f => EIndentMultiple (k + n) s f
  | EBlankInArray w n => EBlankInArray w (k + n)
  | _ => e
  end.

(** The lines have the value [v], and not without the last of them. *)
Definition needed (decode : list str -> result json) (lines : list str) (v : json) : Prop :=
  decode lines = Ok v /\ decode (removelast lines) <> Ok v.
