(** What makes the text of a value long. *)
From Verif Require Import Chars Floats Json JsonText.

Local Open Scope nat_scope.

(** Every number of the value is [P]. *)
Inductive numbers (P : f64 -> Prop) : json -> Prop :=
| nu_num x : P x -> numbers P (JPrim (PNum x))
| nu_prim p : (forall x, p <> PNum x) -> numbers P (JPrim p)
| nu_arr l : Forall (numbers P) l -> numbers P (JArr l)
| nu_obj l : Forall (fun kv => numbers P (snd kv)) l -> numbers P (JObj l).

(** No item of an array is an empty array. *)
Inductive filled : json -> Prop :=
| fi_prim p : filled (JPrim p)
| fi_arr l : Forall filled l -> ~ In (JArr []) l -> filled (JArr l)
| fi_obj l : Forall (fun kv => filled (snd kv)) l -> filled (JObj l).

(** The number, not zero, written out without an exponent is no longer than its JSON text. *)
Definition fits (st : num_style) (x : f64) : Prop :=
  f64_is_zero x = false -> forall t, number_text st x = Some t -> length (f64_to_string x) <= length t.
