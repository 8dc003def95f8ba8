(** What a text means: which lines are members, headers, rows and items, how tokens are read, and
    which checks the strict mode adds.  Stated on decompositions of the text, without the functions
    of the model. *)
From Verif Require Import Chars Floats Json Spec SpecText.

Local Open Scope nat_scope.

(** * Characters and pieces of text *)

(** The first [c] of [s] stands between [a] and [b]. *)
Definition cut (c : char) (s a b : str) : Prop := s = a ++ c :: b /\ ~ In c a.
(** [t] is [s] without the whitespace around it. *)
Definition trims (s t : str) : Prop :=
  exists a b, s = a ++ t ++ b /\ blank a /\ blank b /\
    (forall c r, t = c :: r -> is_ws c = false) /\ (forall c r, t = r ++ [c] -> is_ws c = false).
(** After whitespace, the first character of [s] is [c]. *)
Definition begins (c : char) (s : str) : Prop := exists w r, s = w ++ c :: r /\ blank w.

(** What stands between two quotes: no quote, except after a backslash. *)
Inductive quote_body : str -> Prop :=
| qb_nil : quote_body []
| qb_plain c s : c <> cDQ -> c <> cBSLASH -> quote_body s -> quote_body (c :: s)
| qb_pair c s : quote_body s -> quote_body (cBSLASH :: c :: s).
(** The string it stands for. *)
Inductive unescapes : str -> str -> Prop :=
| ue_nil : unescapes [] []
| ue_plain c t s : c <> cDQ -> c <> cBSLASH -> unescapes t s -> unescapes (c :: t) (c :: s)
| ue_escape c e t s : In (c, e) escapes -> unescapes t s -> unescapes (cBSLASH :: e :: t) (c :: s).
Definition quotes (t s : str) : Prop := exists b, t = cDQ :: b ++ [cDQ] /\ unescapes b s.

(** Reading [s], starting outside ([false]) or inside ([true]) quotes, ends outside or inside. *)
Inductive quoting : bool -> str -> bool -> Prop :=
| qu_nil q : quoting q [] q
| qu_quote q s q' : quoting (negb q) s q' -> quoting q (cDQ :: s) q'
| qu_pair c s q' : quoting true s q' -> quoting true (cBSLASH :: c :: s) q'
| qu_last : quoting true [cBSLASH] true
| qu_plain q c s q' : c <> cDQ -> (q = true -> c <> cBSLASH) -> quoting q s q' -> quoting q (c :: s) q'.
(** The character [c] occurs outside quotes. *)
Definition unquoted (c : char) (s : str) : Prop := exists a b, s = a ++ c :: b /\ quoting false a false.

(** * Tokens *)

(** A string: in quotes, or any text not starting with a quote. *)
Definition string_text (t s : str) : Prop :=
  exists u, trims t u /\ ((s = u /\ forall r, u <> cDQ :: r) \/ quotes u s).

(** A number: no leading zeros. *)
Definition number_text (s : str) : Prop :=
  exists sg ip fp ep, s = sg ++ ip ++ fp ++ ep /\ (sg = [] \/ sg = [cMINUS]) /\
    digits ip /\ (forall r, ip = cZERO :: r -> r = []) /\ fraction fp /\ exponent ep.

Section Reading.
(** [str::parse::<f64>], supplied by the standard library. *)
Variable double : str -> option f64.

Definition numeric (s : str) (x : f64) : Prop :=
  number_text s /\ double s = Some x /\ f64_is_finite x = true.
Definition same_unless_negative_zero (x y : f64) : Prop :=
  (f64_sf x = SpecFloat.S754_zero true /\ y = f64_zero) \/ (f64_sf x <> SpecFloat.S754_zero true /\ y = x).

Inductive prim_text (t : str) : prim -> Prop :=
| pt_empty : blank t -> prim_text t (PStr [])
| pt_quoted u s : trims t u -> quotes u s -> prim_text t (PStr s)
| pt_true : trims t (lit "true") -> prim_text t (PBool true)
| pt_false : trims t (lit "false") -> prim_text t (PBool false)
| pt_null : trims t (lit "null") -> prim_text t PNull
| pt_number u x y : trims t u -> numeric u x -> same_unless_negative_zero x y -> prim_text t (PNum y)
| pt_string u : trims t u -> u <> [] -> (forall r, u <> cDQ :: r) ->
    ~ In u [lit "true"; lit "false"; lit "null"] -> (forall x, ~ numeric u x) ->
    prim_text t (PStr u).

(** The cells of a row: the text between delimiters that stand outside quotes. *)
Inductive pieces (dl : char) : str -> list str -> Prop :=
| pi_last p t : ~ unquoted dl p -> trims p t -> pieces dl p [t]
| pi_more p t r ts : ~ unquoted dl p -> quoting false p false -> trims p t -> pieces dl r ts ->
    pieces dl (p ++ dl :: r) (t :: ts).
Definition cells (dl : char) (s : str) (ts : list str) : Prop :=
  (s = [] /\ ts = []) \/ (s <> [] /\ pieces dl s ts).
Definition prims_text (dl : char) (s : str) (ps : list prim) : Prop :=
  exists ts, cells dl s ts /\ Forall2 prim_text ts ps.

(** * Headers *)

(** A text up to its first '[', not starting with a quote; or a quoted text followed by '['. *)
Inductive head (s : str) : str -> str -> Prop :=
| he_bare k r : ~ begins cDQ s -> cut cLBRACK s k r -> head s k r
| he_quoted w b r : s = w ++ cDQ :: b ++ cDQ :: cLBRACK :: r -> blank w -> quote_body b ->
    head s (w ++ cDQ :: b ++ [cDQ]) r.
(** After the ']': fields in braces before the colon, or just a colon. *)
Inductive tail_parts (s : str) : option str -> str -> Prop :=
| tp_fields m r1 f r2 x t : cut cLBRACE s m r1 -> ~ In cCOLON m -> cut cRBRACE r1 f r2 ->
    cut cCOLON r2 x t -> tail_parts s (Some f) t
| tp_plain m t : cut cCOLON s m t ->
    (~ In cLBRACE m \/ exists m1 r1, cut cLBRACE s m1 r1 /\ ~ In cRBRACE r1) -> tail_parts s None t.
(** key [ length ] fields : tail *)
Definition frame (s key len : str) (fields : option str) (tail : str) : Prop :=
  exists r after, head s key r /\ cut cRBRACK r len after /\ tail_parts after fields tail.

Inductive frame_key (k : str) : option (str * bool) -> Prop :=
| fk_none : blank k -> frame_key k None
| fk_bare t : trims k t -> t <> [] -> (forall r, t <> cDQ :: r) -> frame_key k (Some (t, false))
| fk_quoted t s : trims k t -> quotes t s -> frame_key k (Some (s, true)).
(** Digits, perhaps with a plus sign before and a delimiter other than the comma after. *)
Inductive frame_length : str -> N -> char -> Prop :=
| fl_intro sg ds dt dl : (sg = [] \/ sg = [cPLUS]) -> digits ds -> (digits_value ds < 2 ^ 64)%N ->
    (dt = [] /\ dl = cCOMMA \/ dt = [dl] /\ (dl = cTAB \/ dl = cPIPE)) ->
    frame_length (sg ++ ds ++ dt) (digits_value ds) dl.
Definition field_text (t : str) (f : str * bool) : Prop :=
  string_text t (fst f) /\ (snd f = true <-> begins cDQ t).

Record head_line := HeadLine {
  hl_key : option (str * bool); hl_length : N; hl_delimiter : char;
  hl_fields : option (list (str * bool))
}.
Inductive is_header (s : str) : head_line -> str -> Prop :=
| ih_intro k len fields tail key n dl fs :
    frame s k len fields tail -> frame_key k key -> frame_length len n dl -> (n <= 100000000)%N ->
    match fields, fs with
    | Some f, Some l => exists ts, cells dl f ts /\ Forall2 field_text ts l
    | None, None => True
    | _, _ => False
    end ->
    is_header s (HeadLine key n dl fs) tail.
(** Not a header, and no broken one either: a leading quote is closed, and where the shape of a
    header is there, the key can be read but the length cannot. *)
Definition no_header (s : str) : Prop :=
  (forall w r, s = w ++ cDQ :: r -> blank w -> exists b r', r = b ++ cDQ :: r' /\ quote_body b) /\
  (forall k len fields tail, frame s k len fields tail ->
     (exists key, frame_key k key) /\ forall n dl, ~ frame_length len n dl).

(** * Members *)

(** A key up to its colon. *)
Inductive key_line (s : str) : str -> bool -> str -> Prop :=
| kl_quoted b k r : s = cDQ :: b ++ cDQ :: cCOLON :: r -> unescapes b k -> key_line s k true r
| kl_bare t k r : (forall r', s <> cDQ :: r') -> cut cCOLON s t r -> trims t k -> key_line s k false r.

(** * Lines *)

(** A line with text: its number, its depth and the text after the indentation. *)
Record tline := TLine { tl_no : nat; tl_depth : nat; tl_text : str }.

(** A document read from lines: a tree that remembers declared lengths and quoted keys. *)
Inductive tree :=
| TPrim (p : prim)
| TArr (n : N) (items : list tree)
| TObj (members : list (str * bool * tree)).

Variable strict : bool.
(** The numbers of the blank lines. *)
Variable blanks : list nat.

Definition hyphen (t : str) : Prop := exists r, t = cMINUS :: cSPACE :: r.
(** No blank line between the first and the last of these lines. *)
Definition no_gap (used : list tline) : Prop :=
  forall a b m z, used = a :: m -> used = z ++ [b] -> forall n, In n blanks -> ~ (tl_no a < n /\ n < tl_no b).
(** No next line, or one that does not satisfy [P]. *)
Definition ends (P : tline -> Prop) (ls : list tline) : Prop := forall l r, ls = l :: r -> ~ P l.

(** A row of a table that has too few cells is filled with null; extra cells are dropped. *)
Fixpoint row_members (fs : list (str * bool)) (ps : list prim) : list (str * bool * tree) :=
  match fs, ps with
  | [], _ => []
  | f :: fs', [] => (f, TPrim PNull) :: row_members fs' []
  | f :: fs', p :: ps' => (f, TPrim p) :: row_members fs' ps'
  end.
(** At most [n] rows at depth [d]. *)
Inductive rows (dl : char) (fs : list (str * bool)) (d : nat) : N -> list tline -> list tree -> list tline -> Prop :=
| rw_full ls : rows dl fs d 0 ls [] ls
| rw_end n ls : ends (fun l => tl_depth l = d) ls -> rows dl fs d n ls [] ls
| rw_more n l ls ps vs rest : tl_depth l = d -> prims_text dl (tl_text l) ps ->
    (strict = true -> length ps = length fs) ->
    rows dl fs d n ls vs rest ->
    rows dl fs d (N.succ n) (l :: ls) (TObj (row_members fs ps) :: vs) rest.
(** A line that could be another row: a delimiter before the first colon, or no colon. *)
Definition data_row (dl : char) (t : str) : Prop :=
  ~ unquoted cCOLON t \/
  exists a b, t = a ++ dl :: b /\ quoting false a false /\ ~ unquoted cCOLON a.

(** Not the header of an array under a key. *)
Definition plain (t : str) : Prop :=
  no_header t \/ exists h tail, is_header t h tail /\ hl_key h = None.

(** [member d t ls m rest]: the text [t] at depth [d] with the following lines [ls] is the member
    [m], and leaves the lines [rest].  [members stop d ls ms rest]: as many members at depth [d] as
    there are; with [stop], a line starting with a hyphen is none. *)
Inductive member : nat -> str -> list tline -> str * bool * tree -> list tline -> Prop :=
| mb_array d t ls h tail k q v rest : is_header t h tail -> hl_key h = Some (k, q) ->
    array d h tail ls v rest -> member d t ls (k, q, v) rest
| mb_object d t ls k q r l ls' ms rest : plain t -> key_line t k q r -> blank r ->
    ls = l :: ls' -> d < tl_depth l -> members false (tl_depth l) ls ms rest ->
    member d t ls (k, q, TObj ms) rest
| mb_empty d t ls k q r : plain t -> key_line t k q r -> blank r -> ends (fun l => d < tl_depth l) ls ->
    member d t ls (k, q, TObj []) ls
| mb_prim d t ls k q r p : plain t -> key_line t k q r -> ~ blank r -> prim_text r p ->
    member d t ls (k, q, TPrim p) ls
with members : bool -> nat -> list tline -> list (str * bool * tree) -> list tline -> Prop :=
| ms_end stop d ls : ends (fun l => tl_depth l = d /\ ~ (stop = true /\ hyphen (tl_text l))) ls ->
    members stop d ls [] ls
| ms_more stop d l ls m ls1 ms rest : tl_depth l = d -> ~ (stop = true /\ hyphen (tl_text l)) ->
    member d (tl_text l) ls m ls1 -> members stop d ls1 ms rest ->
    members stop d (l :: ls) (m :: ms) rest
with array : nat -> head_line -> str -> list tline -> tree -> list tline -> Prop :=
| ar_inline d h tail ls t ps : trims tail t -> t <> [] -> prims_text (hl_delimiter h) t ps ->
    (strict = true -> N.of_nat (length ps) = hl_length h) ->
    array d h tail ls (TArr (hl_length h) (map TPrim ps)) ls
| ar_table d h tail ls fs vs used rest : blank tail -> hl_fields h = Some fs -> fs <> [] ->
    rows (hl_delimiter h) fs (S d) (hl_length h) ls vs rest -> ls = used ++ rest ->
    (strict = true -> N.of_nat (length vs) = hl_length h /\ no_gap used /\
       ends (fun l => tl_depth l = S d /\ ~ hyphen (tl_text l) /\ data_row (hl_delimiter h) (tl_text l)) rest) ->
    array d h tail ls (TArr (hl_length h) vs) rest
| ar_list d h tail ls vs used rest : blank tail -> (hl_fields h = None \/ hl_fields h = Some []) ->
    items (S d) (hl_length h) ls vs rest -> ls = used ++ rest ->
    (strict = true -> N.of_nat (length vs) = hl_length h /\ no_gap used /\
       ends (fun l => tl_depth l = S d /\ hyphen (tl_text l)) rest) ->
    array d h tail ls (TArr (hl_length h) vs) rest
with items : nat -> N -> list tline -> list tree -> list tline -> Prop :=
| is_full d ls : items d 0 ls [] ls
| is_end d n ls : ends (fun l => tl_depth l = d /\ (tl_text l = [cMINUS] \/ hyphen (tl_text l))) ls ->
    items d n ls [] ls
| is_more d n l ls v ls1 vs rest : tl_depth l = d -> item d (tl_text l) ls v ls1 ->
    items d n ls1 vs rest -> items d (N.succ n) (l :: ls) (v :: vs) rest
with item : nat -> str -> list tline -> tree -> list tline -> Prop :=
| im_bare d ls : item d [cMINUS] ls (TObj []) ls
| im_empty d t ls : blank t -> item d (cMINUS :: cSPACE :: t) ls (TObj []) ls
| im_array d t ls h tail v rest : begins cLBRACK t -> unquoted cCOLON t -> is_header t h tail ->
    array d h tail ls v rest -> item d (cMINUS :: cSPACE :: t) ls v rest
| im_object d t ls m ls1 ms rest : ~ blank t ->
    (unquoted cCOLON t \/ exists h tail, is_header t h tail /\ hl_fields h <> None) ->
    (forall h tail, is_header t h tail -> hl_key h <> None) ->
    member (S d) t ls m ls1 -> members true (S d) ls1 ms rest ->
    item d (cMINUS :: cSPACE :: t) ls (TObj (m :: ms)) rest
| im_prim d t ls p : ~ blank t -> ~ unquoted cCOLON t ->
    (no_header t \/ exists h tail, is_header t h tail /\ (hl_key h = None \/ hl_fields h = None)) ->
    prim_text t p -> item d (cMINUS :: cSPACE :: t) ls (TPrim p) ls.

(** A line of its own that is no member: no colon, or only inside the quotes it starts with. *)
Definition has_colon (t : str) : Prop :=
  (exists b r, t = cDQ :: b ++ cDQ :: r /\ quote_body b /\ In cCOLON r) \/
  ((forall r, t <> cDQ :: r) /\ In cCOLON t).

(** A whole document.  What follows a root array or the members of the root is not read. *)
Inductive root : list tline -> tree -> Prop :=
| ro_empty : root [] (TObj [])
| ro_array l ls h tail v rest : begins cLBRACK (tl_text l) -> unquoted cCOLON (tl_text l) ->
    is_header (tl_text l) h tail -> array 0 h tail ls v rest -> root (l :: ls) v
| ro_prim l p : ~ (begins cLBRACK (tl_text l) /\ unquoted cCOLON (tl_text l)) \/ no_header (tl_text l) ->
    ~ has_colon (tl_text l) -> prim_text (tl_text l) p -> root [l] (TPrim p)
| ro_object l ls m ls1 ms rest :
    ~ (begins cLBRACK (tl_text l) /\ unquoted cCOLON (tl_text l)) \/ no_header (tl_text l) ->
    ls <> [] \/ has_colon (tl_text l) ->
    member 0 (tl_text l) ls m ls1 -> members false 0 ls1 ms rest -> root (l :: ls) (TObj (m :: ms)).

End Reading.

Scheme member_ind' := Minimality for member Sort Prop
  with members_ind' := Minimality for members Sort Prop
  with array_ind' := Minimality for array Sort Prop
  with items_ind' := Minimality for items Sort Prop
  with item_ind' := Minimality for item Sort Prop.
Combined Scheme read_mutind from member_ind', members_ind', array_ind', items_ind', item_ind'.

(** * From text to lines *)

(** [k] spaces of indentation, [size] to a level, are depth [d]; in strict mode exactly. *)
Definition depth_of (strict : bool) (size k d : nat) : Prop :=
  (size = 0 -> d = 0) /\ (size <> 0 -> d * size <= k /\ k < S d * size) /\
  (strict = true -> k = d * size).
(** The lines with text and the numbers of the blank lines, counting from [n]. *)
Inductive scans (strict : bool) (size : nat) : nat -> list str -> list tline -> list nat -> Prop :=
| sc_nil n : scans strict size n [] [] []
| sc_blank n raw raws ls bs : blank raw -> scans strict size (S n) raws ls bs ->
    scans strict size n (raw :: raws) ls (n :: bs)
| sc_line n k t d raws ls bs : ~ blank t -> (forall r, t <> cSPACE :: r) ->
    depth_of strict size k d -> (strict = true -> forall r, t <> cTAB :: r) ->
    scans strict size (S n) raws ls bs ->
    scans strict size n ((repeat cSPACE k ++ t) :: raws) (TLine n d t :: ls) bs.

Definition reads (double : str -> option f64) (strict : bool) (size : nat) (text : str) (v : tree) : Prop :=
  exists raws ls bs, raws <> [] /\ text = join cLF raws /\ Forall (fun r => ~ In cLF r) raws /\
    scans strict size 1 raws ls bs /\ root double strict bs ls v.

(** * What is read: events, and a value *)
Fixpoint tree_events (v : tree) : list event :=
  match v with
  | TPrim p => [EvPrim p]
  | TArr n l => EvStartArray n :: flat_map tree_events l ++ [EvEndArray]
  | TObj l => EvStartObject :: flat_map (fun m => EvKey (fst (fst m)) (snd (fst m)) :: tree_events (snd m)) l
              ++ [EvEndObject]
  end.
Fixpoint tree_json (v : tree) : json :=
  match v with
  | TPrim p => JPrim p
  | TArr _ l => JArr (map tree_json l)
  | TObj l => JObj (map (fun m => (fst (fst m), tree_json (snd m))) l)
  end.
