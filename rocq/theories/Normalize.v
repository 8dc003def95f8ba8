(** src/encode/normalize.rs.  Definitions only. *)
From Verif Require Import Chars Floats Json.

(** src/encode/normalize.rs:19-32 *)
Definition normalize_primitive (p : prim) : prim :=
  match p with
  | PNum x => if negb (f64_is_finite x) then PNull
              else if f64_is_zero x then PNum f64_zero else PNum x
  | _ => p
  end.

(** src/encode/normalize.rs:3-16 *)
Fixpoint normalize_json_value (v : json) : json :=
  match v with
  | JPrim p => JPrim (normalize_primitive p)
  | JArr l => JArr (map normalize_json_value l)
  | JObj l => JObj (map (fun kv => (fst kv, normalize_json_value (snd kv))) l)
  end.

(** src/encode/normalize.rs:35-71 *)
Definition is_json_primitive (v : json) : bool := match v with JPrim _ => true | _ => false end.
Definition is_json_array (v : json) : bool := match v with JArr _ => true | _ => false end.
Definition is_json_object (v : json) : bool := match v with JObj _ => true | _ => false end.
Definition is_array_of_primitives (l : list json) : bool := forallb is_json_primitive l.
Definition is_array_of_arrays (l : list json) : bool := forallb is_json_array l.
Definition is_array_of_objects (l : list json) : bool := forallb is_json_object l.
