(** Sequences of events of any kind: which of them make sense, and where others go wrong.
    Definitions only. *)
From Verif Require Import Chars Floats Json Folding EventBuilder.

(** [loose]: in an object, arrays and objects need no key (they are lost).  A key that is followed by
    another key, or by the end of its object, is lost too. *)
Section Loose.
Variable loose : Prop.

Definition is_container (n : node) : Prop := match n with NPrim _ => False | _ => True end.
Definition remember (w : bool) (k : str) (quoted : list str) : list str := if w then k :: quoted else quoted.

(** The events of one value; of the items so far; of the members so far with the quoted keys, the
    latest first, and the key that waits for its value. *)
Inductive gives : list event -> node -> Prop :=
| gv_prim p : gives [EvPrim p] (NPrim p)
| gv_array n evs l : gives_items evs l -> gives (EvStartArray n :: evs ++ [EvEndArray]) (NArr l)
| gv_object evs es quoted key : gives_members evs es quoted key -> gives (EvStartObject :: evs ++ [EvEndObject]) (NObj es quoted)
with gives_items : list event -> list node -> Prop :=
| gi_nil : gives_items [] []
| gi_item evs l e v : gives_items evs l -> gives e v -> gives_items (evs ++ e) (l ++ [v])
with gives_members : list event -> list (str * node) -> list str -> option str -> Prop :=
| gm_nil : gives_members [] [] [] None
| gm_key evs es quoted key k w : gives_members evs es quoted key -> gives_members (evs ++ [EvKey k w]) es (remember w k quoted) (Some k)
| gm_value evs es quoted k e v : gives_members evs es quoted (Some k) -> gives e v -> gives_members (evs ++ e) (es ++ [(k, v)]) quoted None
| gm_lost evs es quoted e v : loose -> is_container v -> gives_members evs es quoted None -> gives e v -> gives_members (evs ++ e) es quoted None.

(** Where a sequence stands that makes sense so far: outside of all values, or within arrays and
    objects (the innermost first), with or without a key that waits. *)
Inductive place := InArray | InObject (keyed : bool).
Definition keyed_by (key : option str) : bool := match key with Some _ => true | None => false end.
Inductive within : list event -> list place -> Prop :=
| wi_outside evs l : gives_items evs l -> within evs []
| wi_array pre ps n evs l : within pre ps -> gives_items evs l -> within (pre ++ EvStartArray n :: evs) (InArray :: ps)
| wi_object pre ps evs es quoted key : within pre ps -> gives_members evs es quoted key ->
    within (pre ++ EvStartObject :: evs) (InObject (keyed_by key) :: ps).
End Loose.

(** What the builder refuses. *)
Inductive cannot_build : list place -> event -> err -> Prop :=
| cb_end_object_outside : cannot_build [] EvEndObject (EUnexpectedEvent OEndObject)
| cb_end_array_outside : cannot_build [] EvEndArray (EUnexpectedEvent OEndArray)
| cb_end_object ps : cannot_build (InArray :: ps) EvEndObject (EMismatchedEnd OEndObject)
| cb_end_array k ps : cannot_build (InObject k :: ps) EvEndArray (EMismatchedEnd OEndArray)
| cb_object k ps : cannot_build (InObject k :: InObject false :: ps) EvEndObject (ENoKey OEndObject)
| cb_array ps : cannot_build (InArray :: InObject false :: ps) EvEndArray (ENoKey OEndArray)
| cb_prim ps p : cannot_build (InObject false :: ps) (EvPrim p) (ENoKey OPrim)
| cb_key_outside k w : cannot_build [] (EvKey k w) (EUnexpectedEvent OKey)
| cb_key k w ps : cannot_build (InArray :: ps) (EvKey k w) (EUnexpectedEvent OKey).
(** What the writer refuses. *)
Inductive cannot_write : list place -> event -> occasion -> Prop :=
| cw_end_object_outside : cannot_write [] EvEndObject OEndObject
| cw_end_array_outside : cannot_write [] EvEndArray OEndArray
| cw_end_object ps : cannot_write (InArray :: ps) EvEndObject OEndObject
| cw_end_array k ps : cannot_write (InObject k :: ps) EvEndArray OEndArray
| cw_prim ps p : cannot_write (InObject false :: ps) (EvPrim p) OPrim
| cw_key_outside k w : cannot_write [] (EvKey k w) OKey
| cw_key k w ps : cannot_write (InArray :: ps) (EvKey k w) OKey.
