(** The text of a JSON value in TOON, as a specification: which strings are quoted, how headers
    look, which arrays are written inline, as tables or as lists, which chains of keys are folded.
    Stated without the functions of the model. *)
From Verif Require Import Chars Floats Json Spec.

Local Open Scope nat_scope.

(** * Tokens *)

(** The five characters with an escape, and their escapes. *)
Definition escapes : list (char * char) :=
  [(cBSLASH, cBSLASH); (cDQ, cDQ); (cLF, cLN); (cCR, cLR); (cTAB, cLT)].
Inductive escaped : str -> str -> Prop :=
| es_nil : escaped [] []
| es_plain c s t : ~ In c (map fst escapes) -> escaped s t -> escaped (c :: s) (c :: t)
| es_escape c e s t : In (c, e) escapes -> escaped s t -> escaped (c :: s) (cBSLASH :: e :: t).
Definition quoted_text (s t : str) : Prop := exists b, escaped s b /\ t = cDQ :: b ++ [cDQ].

(** Text that starts with a zero and another digit, or is a JSON-like number. *)
Definition digits (s : str) : Prop := s <> [] /\ Forall digit s.
Definition fraction (s : str) : Prop := s = [] \/ exists ds, s = cDOT :: ds /\ digits ds.
Definition exponent (s : str) : Prop :=
  s = [] \/ exists e sg ds, s = e :: sg ++ ds /\ (e = cLE \/ e = cUE) /\
                            (sg = [] \/ sg = [cPLUS] \/ sg = [cMINUS]) /\ digits ds.
Definition number_like (s : str) : Prop :=
  exists sg b, s = sg ++ b /\ (sg = [] \/ sg = [cMINUS]) /\
    ((exists d r, b = cZERO :: d :: r /\ digit d) \/
     (exists ip fp ep, b = ip ++ fp ++ ep /\ digits ip /\ fraction fp /\ exponent ep)).

(** The characters that force quotes, besides the delimiter. *)
Definition structural : list char :=
  [cCOLON; cDQ; cBSLASH; cLBRACK; cRBRACK; cLBRACE; cRBRACE; cLF; cCR; cTAB].
Definition needs_quotes (dl : char) (s : str) : Prop :=
  s = [] \/
  (exists c r, s = c :: r /\ is_ws c = true) \/ (exists c r, s = r ++ [c] /\ is_ws c = true) \/
  In s [lit "true"; lit "false"; lit "null"] \/
  number_like s \/
  (exists c, In c s /\ In c (dl :: structural)) \/
  (exists r, s = cMINUS :: r).

(** The decimal digits of a natural number. *)
Definition decimal (n : nat) (s : str) : Prop :=
  digits s /\ digits_value s = N.of_nat n /\ (forall r, s = cZERO :: r -> r = []).

Definition key_text (k t : str) : Prop := (bare_key k /\ t = k) \/ (~ bare_key k /\ quoted_text k t).

(** What [f64::to_string] prints, supplied by the standard library. *)
Section Text.
Variable numeral : f64 -> str.
Variable dl : char.

Inductive token : prim -> str -> Prop :=
| tk_null : token PNull (lit "null")
| tk_true : token (PBool true) (lit "true")
| tk_false : token (PBool false) (lit "false")
| tk_zero x s : f64_sf x = SpecFloat.S754_zero s -> token (PNum x) (lit "0")
| tk_number x s m e : f64_sf x = SpecFloat.S754_finite s m e -> token (PNum x) (numeral x)
| tk_other x : f64_is_finite x = false -> token (PNum x) (lit "null")
| tk_bare s : ~ needs_quotes dl s -> token (PStr s) s
| tk_quoted s t : needs_quotes dl s -> quoted_text s t -> token (PStr s) t.

(** Texts separated by the delimiter. *)
Inductive separated : list str -> str -> Prop :=
| sp_nil : separated [] []
| sp_one t : separated [t] t
| sp_more t u l r : separated (u :: l) r -> separated (t :: u :: l) (t ++ dl :: r).
Definition row (ps : list prim) (t : str) : Prop := exists ts, Forall2 token ps ts /\ separated ts t.

(** key[N<delimiter>]{fields}: with the delimiter only if it is not the comma. *)
Inductive header : option str -> nat -> option (list str) -> str -> Prop :=
| hd_intro key n fields kt nt dt ft :
    (match key with Some k => key_text k kt | None => kt = [] end) ->
    decimal n nt ->
    (dl = cCOMMA /\ dt = [] \/ dl <> cCOMMA /\ dt = [dl]) ->
    (match fields with
     | Some fs => exists ts b, Forall2 key_text fs ts /\ separated ts b /\ ft = cLBRACE :: b ++ [cRBRACE]
     | None => ft = []
     end) ->
    header key n fields (kt ++ cLBRACK :: nt ++ dt ++ cRBRACK :: ft ++ [cCOLON]).

(** * Tables *)

(** The first member with key [k] has the value [v]. *)
Definition first_member (es : list (str * json)) (k : str) (v : json) : Prop :=
  exists a b, es = a ++ (k, v) :: b /\ ~ In k (map fst a).
(** The item is an object with as many members as there are fields, all fields among them, and
    primitive.  (With distinct keys: exactly these fields, in any order.) *)
Definition table_row (fields : list str) (v : json) (cells : list prim) : Prop :=
  exists es, v = JObj es /\ length es = length fields /\
    Forall2 (fun f p => first_member es f (JPrim p)) fields cells.
Definition table (items : list json) (fields : list str) (rows : list (list prim)) : Prop :=
  fields <> [] /\ (exists first r, items = JObj first :: r /\ map fst first = fields) /\
  Forall2 (table_row fields) items rows.

(** * Folding *)

(** Whether keys are folded at all, and the greatest number of keys in one folded key. *)
Variable folding : bool.
Variable flatten_depth : N.

(** Where an object stands: the keys with a dot at the root, the keys leading here as written, and
    how many keys may still be folded. *)
Record place := Place { pl_literals : list str; pl_path : list str; pl_budget : N }.
(** Inside arrays nothing of the surroundings is known. *)
Definition fresh : place := Place [] [] flatten_depth.

(** The member [k] with value [v], among members with keys [sibs], is folded along [ks] to [z]:
    the longest chain within the budget, at least two keys, all identifiers, and the folded key is
    no key of a sibling and its full path no dotted key of the root. *)
Definition folds (c : place) (sibs : list str) (k : str) (v : json) (ks : list str) (z : json) : Prop :=
  folding = true /\ ks <> [] /\ chain v ks z /\
  (N.of_nat (S (length ks)) <= pl_budget c)%N /\
  (N.of_nat (S (length ks)) = pl_budget c \/ forall k' v', z <> JObj [(k', v')]) /\
  Forall identifier (k :: ks) /\
  ~ In (join cDOT (k :: ks)) sibs /\
  ~ In (join cDOT (pl_path c ++ [join cDOT (k :: ks)])) (pl_literals c).

(** * Lines: depth and text *)

Definition dline : Type := nat * str.

Inductive member : place -> list str -> nat -> str * json -> list dline -> Prop :=
| me_folded c sibs d k v ks z ls : folds c sibs k v ks z ->
    value_of (Place (pl_literals c) (pl_path c ++ [join cDOT (k :: ks)])
                (pl_budget c - N.of_nat (S (length ks)))) d (join cDOT (k :: ks)) z ls ->
    member c sibs d (k, v) ls
| me_plain c sibs d k v ls : (forall ks z, ~ folds c sibs k v ks z) ->
    value_of (Place (pl_literals c) (pl_path c ++ [k]) (pl_budget c)) d k v ls ->
    member c sibs d (k, v) ls
with value_of : place -> nat -> str -> json -> list dline -> Prop :=
| vo_prim c d k p kt t : key_text k kt -> token p t ->
    value_of c d k (JPrim p) [(d, kt ++ cCOLON :: cSPACE :: t)]
| vo_obj c d k l kt ls : key_text k kt -> members c (map fst l) (S d) l ls ->
    value_of c d k (JObj l) ((d, kt ++ [cCOLON]) :: ls)
| vo_arr c d k l ls : array true (Some k) d l ls -> value_of c d k (JArr l) ls
with members : place -> list str -> nat -> list (str * json) -> list dline -> Prop :=
| ms_nil c sibs d : members c sibs d [] []
| ms_cons c sibs d kv l a b : member c sibs d kv a -> members c sibs d l b ->
    members c sibs d (kv :: l) (a ++ b)
(** The flag tells whether the array may be a table: it may not as an item of an array. *)
with array : bool -> option str -> nat -> list json -> list dline -> Prop :=
| ar_empty t key d h : header key 0 None h -> array t key d [] [(d, h)]
| ar_inline t key d p ps h r : header key (S (length ps)) None h -> row (p :: ps) r ->
    array t key d (map JPrim (p :: ps)) [(d, h ++ cSPACE :: r)]
| ar_table key d l fields rows h ts : table l fields rows ->
    header key (length l) (Some fields) h -> Forall2 row rows ts ->
    array true key d l ((d, h) :: map (fun t => (S d, t)) ts)
| ar_list t key d l h ls :
    (forall ps, l <> map JPrim ps) -> (t = true -> forall fields rows, ~ table l fields rows) ->
    header key (length l) None h -> items (S d) l ls ->
    array t key d l ((d, h) :: ls)
with items : nat -> list json -> list dline -> Prop :=
| is_nil d : items d [] []
| is_cons d v l a b : item d v a -> items d l b -> items d (v :: l) (a ++ b)
with item : nat -> json -> list dline -> Prop :=
| it_prim d p t : token p t -> item d (JPrim p) [(d, cMINUS :: cSPACE :: t)]
| it_arr d l t ls : array false None d l ((d, t) :: ls) ->
    item d (JArr l) ((d, cMINUS :: cSPACE :: t) :: ls)
| it_none d : item d (JObj []) [(d, [cMINUS])]
(** The first member stands on the line of the hyphen, one level deeper, and is not folded; the
    others follow. *)
| it_obj d k v l t a b : value_of fresh (S d) k v ((S d, t) :: a) ->
    members fresh (map fst l) (S d) l b ->
    item d (JObj ((k, v) :: l)) ((d, cMINUS :: cSPACE :: t) :: a ++ b).

Inductive document : json -> list dline -> Prop :=
| do_prim p t : token p t -> document (JPrim p) [(0, t)]
| do_arr l ls : array true None 0 l ls -> document (JArr l) ls
| do_obj l dotted_keys ls :
    (forall k, In k dotted_keys <-> In k (map fst l) /\ In cDOT k) ->
    members (Place dotted_keys [] flatten_depth) (map fst l) 0 l ls -> document (JObj l) ls.
End Text.

Scheme member_ind' := Minimality for member Sort Prop
  with value_of_ind' := Minimality for value_of Sort Prop
  with members_ind' := Minimality for members Sort Prop
  with array_ind' := Minimality for array Sort Prop
  with items_ind' := Minimality for items Sort Prop
  with item_ind' := Minimality for item Sort Prop.
Combined Scheme text_mutind from member_ind', value_of_ind', members_ind', array_ind', items_ind', item_ind'.

(** The lines of text: every level indented by [indent] spaces. *)
Definition shown (indent : nat) (l : dline) : str := repeat cSPACE (indent * fst l) ++ snd l.
