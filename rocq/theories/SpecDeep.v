(** A text one level deeper, under a key. *)
From Verif Require Import Chars Floats Json Spec SpecText SpecRead SpecJoin.

Local Open Scope nat_scope.

(** The lines with [size] more spaces before them. *)
Definition deeper (size : nat) (lines : list str) : list str := map (fun l => repeat cSPACE size ++ l) lines.
(** A line without indentation that is a key and a colon, and no header of an array. *)
Definition opens (t k : str) : Prop :=
  (exists q r, plain t /\ key_line t k q r /\ blank r) /\ ~ begins cLBRACK t /\
  (forall r, t <> cSPACE :: r) /\ (forall r, t <> cTAB :: r).
(** The path that the key [k] of such a line is, with path expansion. *)
Inductive opens_path (t k : str) : list str -> Prop :=
| op_dotted path : (forall r, t <> cDQ :: r) -> dotted k path -> opens_path t k path
| op_quoted r : t = cDQ :: r -> opens_path t k [k]
| op_key : (forall r, t <> cDQ :: r) -> (forall path, ~ dotted k path) -> opens_path t k [k].
(** A value at the end of a path of objects with one member each. *)
Definition along (path : list str) (v : json) : json := fold_right (fun s x => JObj [(s, x)]) v path.
(** The same error about a line that stands one line further down and [size] columns to the right. *)
Definition deeper_error (size : nat) (e : err) : err :=
  match e with
  | EIndentMultiple n s f => EIndentMultiple (1 + n) s (size + f)
  | _ => moved 1 e
  end.
(** The first line with text, if there is one, has a colon where a key can end, and is no array. *)
Definition starts_object (lines : list str) : Prop :=
  forall bl l r, lines = bl ++ l :: r -> Forall blank bl -> ~ blank l -> has_colon l /\ ~ begins cLBRACK l.
(** A text before a colon or a bracket that is the key [k]. *)
Inductive names : str -> str -> bool -> Prop :=
| na_word k : k <> [] -> ~ In cCOLON k -> ~ In cLBRACK k -> (forall r, k <> cDQ :: r) -> trims k k -> names k k false
| na_quoted t k : quotes t k -> names t k true.
(** The lines of an item: a text with a hyphen before its first line, the others [j] levels deeper. *)
Definition block (size j : nat) (t : str) (b : list str) : list str :=
  (repeat cSPACE size ++ cMINUS :: cSPACE :: t) :: deeper (j * size) b.
(** Texts without blank lines as items of a list, with their values: objects (the colon of the first
    key is not inside quotes, and no other line less than one level deep starts with a hyphen), arrays, primitives, and a
    lone hyphen. *)
Inductive item_lines (decode : list str -> result json) (size : nat) : list str -> json -> Prop :=
| il_object t b l : needed decode (t :: b) (JObj l) -> Forall (fun x => ~ blank x) (t :: b) ->
    (forall r, t <> cSPACE :: r) -> ~ begins cLBRACK t -> unquoted cCOLON t ->
    (forall k r, In (repeat cSPACE k ++ cMINUS :: cSPACE :: r) b -> size <= k) ->
    item_lines decode size (block size 2 t b) (JObj l)
| il_array t b l : needed decode (t :: b) (JArr l) -> Forall (fun x => ~ blank x) (t :: b) ->
    (forall r, t <> cSPACE :: r) -> item_lines decode size (block size 1 t b) (JArr l)
| il_prim t p : decode [t] = Ok (JPrim p) -> (forall r, t <> cSPACE :: r) -> ~ In cCOLON t -> ~ In cLBRACK t ->
    item_lines decode size (block size 1 t []) (JPrim p)
| il_hyphen : item_lines decode size [repeat cSPACE size ++ [cMINUS]] (JObj []).
