(** What the exact forms of the round trip need: sizes that can exist, and rows in order. *)
From Verif Require Import Chars Floats Json Spec.

(** Every array has a number of items that a 64-bit machine can count. *)
Inductive fits : json -> Prop :=
| fi_prim p : fits (JPrim p)
| fi_arr l : (N.of_nat (length l) < 2 ^ 64)%N -> Forall fits l -> fits (JArr l)
| fi_obj l : Forall (fun kv => fits (snd kv)) l -> fits (JObj l).

(** The rows of every array that is written as a table list their fields in the same order.  The
    flag is that of [portable_at]. *)
Inductive ordered_at : bool -> json -> Prop :=
| or_prim t p : ordered_at t (JPrim p)
| or_list t l : (t = true -> forall fields, ~ tabular l fields) -> Forall (ordered_at false) l -> ordered_at t (JArr l)
| or_table l fields : tabular l fields -> Forall (fun v => exists es, v = JObj es /\ map fst es = fields) l ->
    ordered_at true (JArr l)
| or_obj t l : Forall (fun kv => ordered_at true (snd kv)) l -> ordered_at t (JObj l).
Definition ordered (v : json) : Prop := ordered_at true v.
