(** What a consumer of the incremental decoder sees, stated on the lines of the text: the answers in
    order, and what every later poll answers. *)
From Verif Require Import Chars Floats Json Spec SpecText SpecRead SpecError.

Local Open Scope nat_scope.

(** The [n]th answer, counting from 0, of one who sees [answers] and then for ever the end, or
    for ever the error [forever]. *)
Definition answer (answers : list (result event)) (forever : option err) (n : nat) : option (result event) :=
  match nth_error answers n with
  | Some a => Some a
  | None => option_map Err forever
  end.

Section Streaming.
Variable double : str -> option f64.
Variable strict : bool.
Variable size : nat.

(** Line [n] has the text [t], or an indentation that strict mode does not accept. *)
Definition seen (n : nat) (raw t : str) : Prop := exists d, scans strict size n [raw] [TLine n d t] [].
Definition refused (n : nat) (raw : str) (e : err) : Prop := strict = true /\ indent_fails size n [raw] e.

(** A line is looked at by itself.  The header of an array without a key: *)
Definition opens_array (t : str) : Prop :=
  begins cLBRACK t /\ unquoted cCOLON t /\ exists h tail, is_header t h tail.
Definition breaks_array (t : str) (e : err) : Prop := begins cLBRACK t /\ unquoted cCOLON t /\ bad_header t e.
Definition no_array (t : str) : Prop := ~ (begins cLBRACK t /\ unquoted cCOLON t) \/ no_header t.

(** The first line starts an object. *)
Definition opens_object (t : str) : Prop :=
  ~ hyphen t /\
  ((exists b r, t = cDQ :: b ++ cDQ :: r /\ quote_body b /\ In cCOLON r) \/
   ((forall r, t <> cDQ :: r) /\ unquoted cCOLON t)).

(** What a line of an object gives at once: events, and perhaps an error that is answered before
    them.  A hyphen or a key without a value gives nothing at all. *)
Inductive entry (t : str) : option (list event * option err) -> Prop :=
| en_item : hyphen t -> entry t None
| en_open k q r : ~ hyphen t -> key_line t k q r -> blank r -> entry t None
| en_key e : ~ hyphen t -> bad_key t e -> entry t (Some ([], Some e))
| en_quote r : t = cDQ :: r -> open_quote r -> entry t (Some ([], Some EUnterminatedKey))
| en_value k q r e : ~ hyphen t -> key_line t k q r -> ~ blank r -> bad_string r e ->
    entry t (Some ([EvKey k q], Some e))
| en_member k q r p : ~ hyphen t -> key_line t k q r -> ~ blank r -> prim_text double r p ->
    entry t (Some ([EvKey k q; EvPrim p], None)).
Definition gives (evs : list event) (fault : option err) : list (result event) :=
  match fault with Some e => [Err e] | None => [] end ++ map Ok evs.

(** Before the first line; within an object; or keeping lines to decode them at the end. *)
Inductive phase := Before | Within | Keeping (kept : list str).

Inductive answers : phase -> nat -> list str -> list (result event) -> option err -> Prop :=
| an_blank ph n raw raws a f : blank raw -> answers ph (S n) raws a f -> answers ph n (raw :: raws) a f
| an_refused ph n raw raws e a f : refused n raw e -> answers ph (S n) raws a f ->
    answers ph n (raw :: raws) (Err e :: a) f
(* the first line *)
| an_nothing n : answers Before n [] [Ok EvStartObject; Ok EvEndObject] None
| an_array n raw t raws a f : seen n raw t -> opens_array t -> answers (Keeping [raw]) (S n) raws a f ->
    answers Before n (raw :: raws) a f
| an_header n raw t raws e a f : seen n raw t -> breaks_array t e -> answers Before (S n) raws a f ->
    answers Before n (raw :: raws) (Err e :: a) f
| an_first n raw t raws evs fault a f : seen n raw t -> no_array t -> opens_object t ->
    entry t (Some (evs, fault)) -> answers Within (S n) raws a f ->
    answers Before n (raw :: raws) (gives (EvStartObject :: evs) fault ++ a) f
| an_first_open n raw t raws a f : seen n raw t -> no_array t -> opens_object t -> entry t None ->
    answers (Keeping [raw]) (S n) raws a f -> answers Before n (raw :: raws) (Ok EvStartObject :: a) f
| an_prim n raw t raws p : seen n raw t -> no_array t -> ~ opens_object t -> prim_text double t p ->
    answers Before n (raw :: raws) [Ok (EvPrim p)] None
| an_bad n raw t raws e : seen n raw t -> no_array t -> ~ opens_object t -> bad_string t e ->
    answers Before n (raw :: raws) [Err e] None
(* another line of an object *)
| an_end n : answers Within n [] [Ok EvEndObject] None
| an_later_array n raw t raws a f : seen n raw t -> opens_array t -> answers (Keeping [raw]) (S n) raws a f ->
    answers Within n (raw :: raws) a f
| an_later_header n raw t raws e a f : seen n raw t -> breaks_array t e -> answers Within (S n) raws a f ->
    answers Within n (raw :: raws) (Err e :: a) f
| an_later n raw t raws evs fault a f : seen n raw t -> no_array t -> entry t (Some (evs, fault)) ->
    answers Within (S n) raws a f -> answers Within n (raw :: raws) (gives evs fault ++ a) f
| an_later_open n raw t raws a f : seen n raw t -> no_array t -> entry t None ->
    answers (Keeping [raw]) (S n) raws a f -> answers Within n (raw :: raws) a f
(* lines kept, and decoded as a document of their own *)
| an_keep kept n raw t raws a f : seen n raw t -> answers (Keeping (kept ++ [raw])) (S n) raws a f ->
    answers (Keeping kept) n (raw :: raws) a f
| an_kept kept n ls bs v : scans strict size 1 kept ls bs -> root double strict bs ls v ->
    answers (Keeping kept) n [] (map Ok (tree_events v)) None
| an_kept_fails kept n e : lines_fail double strict size kept e -> answers (Keeping kept) n [] [] (Some e).

End Streaming.
