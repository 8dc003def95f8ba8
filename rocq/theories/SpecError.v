(** Why a text is rejected: the first thing wrong with it, and what the error reports about it.
    Stated, like SpecRead.v, on decompositions of the text. *)
From Verif Require Import Chars Floats Json Spec SpecText SpecRead.

Local Open Scope nat_scope.

(** * Tokens *)

(** [x] is the first character after a backslash that makes no escape. *)
Definition bad_escape (b : str) (x : char) : Prop :=
  exists a s r, b = a ++ cBSLASH :: x :: r /\ unescapes a s /\ forall c, ~ In (c, x) escapes.
(** No quote ends what [r] begins. *)
Definition open_quote (r : str) : Prop := forall b r', quote_body b -> r <> b ++ cDQ :: r'.

Inductive bad_string (t : str) : err -> Prop :=
| bs_open r : trims t (cDQ :: r) -> open_quote r -> bad_string t EUnterminatedString
| bs_after b r : trims t (cDQ :: b ++ cDQ :: r) -> quote_body b -> r <> [] -> bad_string t ECharsAfterQuote
| bs_escape b x : trims t (cDQ :: b ++ [cDQ]) -> quote_body b -> bad_escape b x ->
    bad_string t (EInvalidEscape (Some x)).

(** The first cell of [s] that is no token. *)
Definition bad_cell (dl : char) (s : str) (e : err) : Prop :=
  exists before t after, cells dl s (before ++ t :: after) /\
    (forall u x, In u before -> ~ bad_string u x) /\ bad_string t e.

(** * Headers *)

Inductive bad_header (s : str) : err -> Prop :=
| bh_open w r : s = w ++ cDQ :: r -> blank w -> open_quote r -> bad_header s EUnterminatedString
| bh_key k len fields tail e : frame s k len fields tail -> bad_string k e -> bad_header s e
| bh_length k len fields tail key n dl : frame s k len fields tail -> frame_key k key ->
    frame_length len n dl -> (100000000 < n)%N -> bad_header s (ELengthCap n)
| bh_field k len f tail key n dl e : frame s k len (Some f) tail -> frame_key k key ->
    frame_length len n dl -> (n <= 100000000)%N -> bad_cell dl f e -> bad_header s e.

(** * Keys *)

Inductive bad_key (s : str) : err -> Prop :=
| bk_bare : (forall r, s <> cDQ :: r) -> ~ In cCOLON s -> bad_key s EMissingColon
| bk_quoted b k r : s = cDQ :: b ++ cDQ :: r -> unescapes b k -> (forall r', r <> cCOLON :: r') ->
    bad_key s EMissingColon
| bk_escape b x r : s = cDQ :: b ++ cDQ :: r -> quote_body b -> bad_escape b x ->
    bad_key s (EInvalidEscape (Some x)).

(** * Lines *)

Section Failing.
Variable double : str -> option f64.
Variable strict : bool.
Variable blanks : list nat.

Notation member := (member double strict blanks).
Notation items := (items double strict blanks).
Notation item := (item double strict blanks).
Notation rows := (rows double strict).

(** [n] is the first blank line between the first and the last of these lines. *)
Definition first_gap (used : list tline) (n : nat) : Prop :=
  exists a m z b, used = a :: m /\ used = z ++ [b] /\
    exists before after, blanks = before ++ n :: after /\ tl_no a < n /\ n < tl_no b /\
      forall x, In x before -> ~ (tl_no a < x /\ x < tl_no b).

(** Among at most [n] rows. *)
Inductive row_fails (dl : char) (fs : list (str * bool)) (d : nat) : N -> list tline -> err -> Prop :=
| rf_width n l ls ts : strict = true -> tl_depth l = d -> cells dl (tl_text l) ts -> length ts <> length fs ->
    row_fails dl fs d (N.succ n) (l :: ls) (ECount CRowValues (N.of_nat (length fs)) (N.of_nat (length ts)))
| rf_cell n l ls ts e : tl_depth l = d -> cells dl (tl_text l) ts -> (strict = true -> length ts = length fs) ->
    bad_cell dl (tl_text l) e -> row_fails dl fs d (N.succ n) (l :: ls) e
| rf_later n l ls ps e : tl_depth l = d -> prims_text double dl (tl_text l) ps ->
    (strict = true -> length ps = length fs) -> row_fails dl fs d n ls e ->
    row_fails dl fs d (N.succ n) (l :: ls) e.

(** As in SpecRead.v, up to the first failure. *)
Inductive member_fails : nat -> str -> list tline -> err -> Prop :=
| mf_header d t ls e : bad_header t e -> member_fails d t ls e
| mf_array d t ls h tail e : is_header t h tail -> hl_key h <> None -> array_fails d h tail ls e ->
    member_fails d t ls e
| mf_key d t ls e : plain t -> bad_key t e -> member_fails d t ls e
| mf_value d t ls k q r e : plain t -> key_line t k q r -> bad_string r e -> member_fails d t ls e
| mf_object d t ls k q r l ls' e : plain t -> key_line t k q r -> blank r ->
    ls = l :: ls' -> d < tl_depth l -> members_fail false (tl_depth l) ls e -> member_fails d t ls e
with members_fail : bool -> nat -> list tline -> err -> Prop :=
| msf_here stop d l ls e : tl_depth l = d -> ~ (stop = true /\ hyphen (tl_text l)) ->
    member_fails d (tl_text l) ls e -> members_fail stop d (l :: ls) e
| msf_later stop d l ls m ls1 e : tl_depth l = d -> ~ (stop = true /\ hyphen (tl_text l)) ->
    member d (tl_text l) ls m ls1 -> members_fail stop d ls1 e -> members_fail stop d (l :: ls) e
with array_fails : nat -> head_line -> str -> list tline -> err -> Prop :=
| af_cell d h tail ls t e : trims tail t -> t <> [] -> bad_cell (hl_delimiter h) t e ->
    array_fails d h tail ls e
| af_count d h tail ls t ps : strict = true -> trims tail t -> t <> [] ->
    prims_text double (hl_delimiter h) t ps -> N.of_nat (length ps) <> hl_length h ->
    array_fails d h tail ls (ECount CInline (hl_length h) (N.of_nat (length ps)))
| af_row d h tail ls fs e : blank tail -> hl_fields h = Some fs -> fs <> [] ->
    row_fails (hl_delimiter h) fs (S d) (hl_length h) ls e -> array_fails d h tail ls e
| af_rows_count d h tail ls fs vs rest : strict = true -> blank tail -> hl_fields h = Some fs -> fs <> [] ->
    rows (hl_delimiter h) fs (S d) (hl_length h) ls vs rest -> N.of_nat (length vs) <> hl_length h ->
    array_fails d h tail ls (ECount CRows (hl_length h) (N.of_nat (length vs)))
| af_rows_gap d h tail ls fs vs used rest n : strict = true -> blank tail -> hl_fields h = Some fs -> fs <> [] ->
    rows (hl_delimiter h) fs (S d) (hl_length h) ls vs rest -> N.of_nat (length vs) = hl_length h ->
    ls = used ++ rest -> first_gap used n -> array_fails d h tail ls (EBlankInArray CRows n)
| af_rows_extra d h tail ls fs vs used l rest : strict = true -> blank tail -> hl_fields h = Some fs -> fs <> [] ->
    rows (hl_delimiter h) fs (S d) (hl_length h) ls vs (l :: rest) -> N.of_nat (length vs) = hl_length h ->
    ls = used ++ l :: rest -> no_gap blanks used ->
    tl_depth l = S d -> ~ hyphen (tl_text l) -> data_row (hl_delimiter h) (tl_text l) ->
    array_fails d h tail ls (EExtraRows (hl_length h))
| af_item d h tail ls e : blank tail -> (hl_fields h = None \/ hl_fields h = Some []) ->
    items_fail (S d) (hl_length h) ls e -> array_fails d h tail ls e
| af_items_count d h tail ls vs rest : strict = true -> blank tail -> (hl_fields h = None \/ hl_fields h = Some []) ->
    items (S d) (hl_length h) ls vs rest -> N.of_nat (length vs) <> hl_length h ->
    array_fails d h tail ls (ECount CItems (hl_length h) (N.of_nat (length vs)))
| af_items_gap d h tail ls vs used rest n : strict = true -> blank tail -> (hl_fields h = None \/ hl_fields h = Some []) ->
    items (S d) (hl_length h) ls vs rest -> N.of_nat (length vs) = hl_length h ->
    ls = used ++ rest -> first_gap used n -> array_fails d h tail ls (EBlankInArray CItems n)
| af_items_extra d h tail ls vs used l rest : strict = true -> blank tail -> (hl_fields h = None \/ hl_fields h = Some []) ->
    items (S d) (hl_length h) ls vs (l :: rest) -> N.of_nat (length vs) = hl_length h ->
    ls = used ++ l :: rest -> no_gap blanks used -> tl_depth l = S d -> hyphen (tl_text l) ->
    array_fails d h tail ls (EExtraItems (hl_length h))
with items_fail : nat -> N -> list tline -> err -> Prop :=
| if_here d n l ls e : tl_depth l = d -> item_fails d (tl_text l) ls e -> items_fail d (N.succ n) (l :: ls) e
| if_later d n l ls v ls1 e : tl_depth l = d -> item d (tl_text l) ls v ls1 -> items_fail d n ls1 e ->
    items_fail d (N.succ n) (l :: ls) e
with item_fails : nat -> str -> list tline -> err -> Prop :=
| itf_header d t ls e : ~ blank t -> bad_header t e -> item_fails d (cMINUS :: cSPACE :: t) ls e
| itf_array d t ls h tail e : begins cLBRACK t -> unquoted cCOLON t -> is_header t h tail ->
    array_fails d h tail ls e -> item_fails d (cMINUS :: cSPACE :: t) ls e
| itf_member d t ls e : ~ blank t ->
    (unquoted cCOLON t \/ exists h tail, is_header t h tail /\ hl_fields h <> None) ->
    (forall h tail, is_header t h tail -> hl_key h <> None) ->
    member_fails (S d) t ls e -> item_fails d (cMINUS :: cSPACE :: t) ls e
| itf_later d t ls m ls1 e : ~ blank t ->
    (unquoted cCOLON t \/ exists h tail, is_header t h tail /\ hl_fields h <> None) ->
    (forall h tail, is_header t h tail -> hl_key h <> None) ->
    member (S d) t ls m ls1 -> members_fail true (S d) ls1 e -> item_fails d (cMINUS :: cSPACE :: t) ls e
| itf_prim d t ls e : ~ unquoted cCOLON t ->
    (no_header t \/ exists h tail, is_header t h tail /\ (hl_key h = None \/ hl_fields h = None)) ->
    bad_string t e -> item_fails d (cMINUS :: cSPACE :: t) ls e.

Inductive root_fails : list tline -> err -> Prop :=
| rtf_header l ls e : begins cLBRACK (tl_text l) -> unquoted cCOLON (tl_text l) -> bad_header (tl_text l) e ->
    root_fails (l :: ls) e
| rtf_array l ls h tail e : begins cLBRACK (tl_text l) -> unquoted cCOLON (tl_text l) ->
    is_header (tl_text l) h tail -> array_fails 0 h tail ls e -> root_fails (l :: ls) e
| rtf_prim l e : ~ (begins cLBRACK (tl_text l) /\ unquoted cCOLON (tl_text l)) \/ no_header (tl_text l) ->
    ~ has_colon (tl_text l) -> bad_string (tl_text l) e -> root_fails [l] e
| rtf_here l ls e :
    ~ (begins cLBRACK (tl_text l) /\ unquoted cCOLON (tl_text l)) \/ no_header (tl_text l) ->
    ls <> [] \/ has_colon (tl_text l) -> member_fails 0 (tl_text l) ls e -> root_fails (l :: ls) e
| rtf_later l ls m ls1 e :
    ~ (begins cLBRACK (tl_text l) /\ unquoted cCOLON (tl_text l)) \/ no_header (tl_text l) ->
    ls <> [] \/ has_colon (tl_text l) ->
    member 0 (tl_text l) ls m ls1 -> members_fail false 0 ls1 e -> root_fails (l :: ls) e.

End Failing.

Scheme member_fails_ind' := Minimality for member_fails Sort Prop
  with members_fail_ind' := Minimality for members_fail Sort Prop
  with array_fails_ind' := Minimality for array_fails Sort Prop
  with items_fail_ind' := Minimality for items_fail Sort Prop
  with item_fails_ind' := Minimality for item_fails Sort Prop.
Combined Scheme fail_mutind from member_fails_ind', members_fail_ind', array_fails_ind', items_fail_ind', item_fails_ind'.

(** * From text to lines *)

(** The first line whose indentation strict mode does not accept. *)
Inductive indent_fails (size : nat) : nat -> list str -> err -> Prop :=
| inf_blank n raw raws e : blank raw -> indent_fails size (S n) raws e -> indent_fails size n (raw :: raws) e
| inf_line n k t d raws e : ~ blank t -> (forall r, t <> cSPACE :: r) -> depth_of true size k d ->
    (forall r, t <> cTAB :: r) -> indent_fails size (S n) raws e ->
    indent_fails size n ((repeat cSPACE k ++ t) :: raws) e
| inf_tab n k t raws : ~ blank t ->
    indent_fails size n ((repeat cSPACE k ++ cTAB :: t) :: raws) (ETabIndent n)
| inf_zero n k t raws : ~ blank t -> (forall r, t <> cSPACE :: r) -> (forall r, t <> cTAB :: r) ->
    size = 0 -> k <> 0 -> indent_fails size n ((repeat cSPACE k ++ t) :: raws) (EIndentZero n k)
| inf_multiple n k t raws : ~ blank t -> (forall r, t <> cSPACE :: r) -> (forall r, t <> cTAB :: r) ->
    size <> 0 -> (forall m, k <> m * size) ->
    indent_fails size n ((repeat cSPACE k ++ t) :: raws) (EIndentMultiple n size k).

(** A text, cut at line feeds, and the error it is rejected with. *)
Definition lines_fail (double : str -> option f64) (strict : bool) (size : nat) (raws : list str) (e : err) : Prop :=
  (strict = true /\ indent_fails size 1 raws e) \/
  exists ls bs, scans strict size 1 raws ls bs /\ root_fails double strict bs ls e.
Definition fails (double : str -> option f64) (strict : bool) (size : nat) (text : str) (e : err) : Prop :=
  exists raws, raws <> [] /\ text = join cLF raws /\ Forall (fun r => ~ In cLF r) raws /\
    lines_fail double strict size raws e.
