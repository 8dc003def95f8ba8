(** Induction over JSON values. *)
From Verif Require Import Chars Floats Json.

Section Ind.
Variable P : json -> Prop.
Hypothesis Hp : forall p, P (JPrim p).
Hypothesis Ha : forall l, Forall P l -> P (JArr l).
Hypothesis Ho : forall l, Forall (fun kv => P (snd kv)) l -> P (JObj l).
Fixpoint json_ind' (v : json) : P v :=
  match v with
  | JPrim p => Hp p
  | JArr l => Ha l ((fix go l := match l return Forall P l with
                                 | [] => Forall_nil _
                                 | x :: r => Forall_cons _ (json_ind' x) (go r)
                                 end) l)
  | JObj l => Ho l ((fix go l := match l return Forall (fun kv => P (snd kv)) l with
                                 | [] => Forall_nil _
                                 | x :: r => Forall_cons x (json_ind' (snd x)) (go r)
                                 end) l)
  end.
End Ind.
