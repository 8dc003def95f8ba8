(** The JSON text of a value, line by line: what is on which line, and how far in. *)
From Verif Require Import Chars Floats Json JsonText.

(** One writer works on a finished value, the other on the events of a document. *)
Inductive writer := Buffered | Streamed.

(** The characters written as a backslash and a letter or sign. *)
Definition named (w : writer) : list (char * char) :=
  [(34, 34); (92, 92); (10, 110); (13, 114); (9, 116)] ++ match w with Buffered => [] | Streamed => [(8, 98); (12, 102)] end.
(** The characters written by number, if they have no name. *)
Definition numbered (w : writer) (c : char) : Prop :=
  c < 32 \/ match w with Buffered => 127 <= c <= 159 | Streamed => False end.

Inductive shown_char (w : writer) : char -> str -> Prop :=
| sc_name c x : In (c, x) (named w) -> shown_char w c [92; x]
| sc_number c hi lo a b :
    numbered w c -> ~ In c (map fst (named w)) -> c = 16 * N.of_nat hi + N.of_nat lo ->
    nth_error (lit "0123456789abcdef") hi = Some a -> nth_error (lit "0123456789abcdef") lo = Some b ->
    shown_char w c (lit "\u00" ++ [a; b])
| sc_itself c : ~ numbered w c -> ~ In c (map fst (named w)) -> shown_char w c [c].
Inductive shown_string (w : writer) (s : str) : str -> Prop :=
| shown_intro ts : Forall2 (shown_char w) s ts -> shown_string w s (34 :: concat ts ++ [34]).

Inductive jtoken (w : writer) (st : num_style) : prim -> str -> Prop :=
| tok_null : jtoken w st PNull (lit "null")
| tok_true : jtoken w st (PBool true) (lit "true")
| tok_false : jtoken w st (PBool false) (lit "false")
| tok_str s t : shown_string w s t -> jtoken w st (PStr s) t
| tok_num x t : number_text st x = Some t -> jtoken w st (PNum x) t
| tok_no_num x : number_text st x = None -> jtoken w st (PNum x) (lit "null").

(** How many levels in, and the text after the spaces. *)
Definition jline : Type := nat * str.
Definition inward (ls : list jline) : list jline := map (fun l => (S (fst l), snd l)) ls.

(** One after the other, a comma at the end of the last line of each but the last. *)
Inductive listed {A} (R : A -> list jline -> Prop) : list A -> list jline -> Prop :=
| ls_last x ls : R x ls -> listed R [x] ls
| ls_more x y l i d t ls : R x (i ++ [(d, t)]) -> listed R (y :: l) ls -> listed R (x :: y :: l) (i ++ (d, t ++ lit ",") :: ls).
(** The name of a member stands before the first line of its value. *)
Inductive named_lines (w : writer) (colon : str) (R : json -> list jline -> Prop) : str * json -> list jline -> Prop :=
| nl_intro k v name d t ls : shown_string w k name -> R v ((d, t) :: ls) ->
    named_lines w colon R (k, v) ((d, name ++ colon ++ t) :: ls).

Inductive written (w : writer) (st : num_style) (colon : str) : json -> list jline -> Prop :=
| wr_prim p t : jtoken w st p t -> written w st colon (JPrim p) [(0%nat, t)]
| wr_no_items : written w st colon (JArr []) [(0%nat, lit "[]")]
| wr_items l ls : listed (written w st colon) l ls ->
    written w st colon (JArr l) ((0%nat, lit "[") :: inward ls ++ [(0%nat, lit "]")])
| wr_no_members : written w st colon (JObj []) [(0%nat, lit "{}")]
| wr_members l ls : listed (named_lines w colon (written w st colon)) l ls ->
    written w st colon (JObj l) ((0%nat, lit "{") :: inward ls ++ [(0%nat, lit "}")]).

(** The lines as one text: with indentation 0 there are no line breaks. *)
Definition colon_for (indent : nat) : str := match indent with O => lit ":" | S _ => lit ": " end.
Definition indented (indent : nat) (l : jline) : str := repeat 32 (fst l * indent) ++ snd l.
Definition laid (indent : nat) (ls : list jline) : str :=
  match indent with
  | O => concat (map snd ls)
  | S _ => join 10 (map (indented indent) ls)
  end.
(** [text] is the JSON text of [v]. *)
Definition json_text (w : writer) (st : num_style) (indent : nat) (v : json) (text : str) : Prop :=
  exists ls, written w st (colon_for indent) v ls /\ text = laid indent ls.
