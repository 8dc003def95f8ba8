(** Specification vocabulary: what the theorems talk about, stated without the helpers of the
    model (only the data types of Json.v and the character constants of Chars.v are used). *)
From Verif Require Import Chars Floats Json.
From Coq Require Import Permutation.

Local Open Scope nat_scope.

(** The three delimiters of the format. *)
Definition std_delim (d : char) : Prop := d = cCOMMA \/ d = cTAB \/ d = cPIPE.

(** The number some decimal digits stand for. *)
Definition digits_value (s : str) : N := fold_left (fun acc c => acc * 10 + (c - 48))%N s 0%N.

(** A bracketed length as the format writes it: optional sign, digits, optional pipe; and it is a
    64-bit number. *)
Definition length_like (n : str) : Prop :=
  exists sign digits suffix,
    n = sign ++ digits ++ suffix /\ (sign = [] \/ sign = [cPLUS]) /\
    digits <> [] /\ Forall (fun c => (48 <= c /\ c <= 57)%N) digits /\
    (digits_value digits < 2 ^ 64)%N /\ (suffix = [] \/ suffix = [cPIPE]).

(** A colon that can end a header stands in this text: before any '{', or after the '}' that closes
    the first '{', or, if nothing closes it, anywhere. *)
Definition colon_follows (b : str) : Prop :=
  (exists m t, b = m ++ cCOLON :: t /\ ~ In cLBRACE m) \/
  (exists m f t, b = m ++ cLBRACE :: f ++ cRBRACE :: t /\ ~ In cLBRACE m /\ ~ In cRBRACE f /\ In cCOLON t) \/
  (exists m f, b = m ++ cLBRACE :: f /\ ~ In cLBRACE m /\ ~ In cRBRACE f /\ In cCOLON f).

(** A text that looks like an array header: the first '[' opens a length closed by ']', and the
    colon of a header follows. *)
Definition header_like (s : str) : Prop :=
  exists a n b, s = a ++ cLBRACK :: n ++ cRBRACK :: b /\
    ~ In cLBRACK a /\ length_like n /\ colon_follows b.

(** A key the format writes without quotes: a letter or underscore followed by letters, digits,
    underscores and dots. *)
Definition letter (c : char) : Prop := (65 <= c /\ c <= 90)%N \/ (97 <= c /\ c <= 122)%N.
Definition digit (c : char) : Prop := (48 <= c /\ c <= 57)%N.
Definition bare_key (k : str) : Prop :=
  exists c r, k = c :: r /\ (letter c \/ c = cUNDER) /\
    Forall (fun x => letter x \/ digit x \/ x = cUNDER \/ x = cDOT) r.

(** * Normal form of numbers *)

(** A double that JSON can express: finite and not negative zero. *)
Definition json_number (x : f64) : Prop :=
  f64_is_finite x = true /\ f64_sf x <> SpecFloat.S754_zero true.
Definition json_prim (p : prim) : Prop :=
  match p with PNum x => json_number x | _ => True end.

(** NaN and the infinities become null, negative zero becomes zero. *)
Inductive norm_prim : prim -> prim -> Prop :=
| np_same p : json_prim p -> norm_prim p p
| np_nonfinite x : f64_is_finite x = false -> norm_prim (PNum x) PNull
| np_negzero x : f64_sf x = SpecFloat.S754_zero true -> norm_prim (PNum x) (PNum f64_zero).

Inductive norm_json : json -> json -> Prop :=
| nj_prim p q : norm_prim p q -> norm_json (JPrim p) (JPrim q)
| nj_arr l m : Forall2 norm_json l m -> norm_json (JArr l) (JArr m)
| nj_obj l m : Forall2 (fun kv kw => fst kv = fst kw /\ norm_json (snd kv) (snd kw)) l m ->
    norm_json (JObj l) (JObj m).

(** * Event streams *)

(** [describes P evs v]: the events are exactly one complete value, namely [v]; for every array
    the declared length [n] and the number [k] of items present satisfy [P n k]. *)
Section Events.
Variable P : N -> nat -> Prop.

Inductive describes : list event -> json -> Prop :=
| de_prim p : describes [EvPrim p] (JPrim p)
| de_arr n evs items : describes_items evs items -> P n (length items) ->
    describes (EvStartArray n :: evs ++ [EvEndArray]) (JArr items)
| de_obj evs entries : describes_entries evs entries ->
    describes (EvStartObject :: evs ++ [EvEndObject]) (JObj entries)
with describes_items : list event -> list json -> Prop :=
| di_nil : describes_items [] []
| di_cons e1 v e2 l : describes e1 v -> describes_items e2 l -> describes_items (e1 ++ e2) (v :: l)
with describes_entries : list event -> list (str * json) -> Prop :=
| den_nil : describes_entries [] []
| den_cons k q e1 v e2 l : describes e1 v -> describes_entries e2 l ->
    describes_entries (EvKey k q :: e1 ++ e2) ((k, v) :: l).
End Events.

Scheme describes_ind' := Minimality for describes Sort Prop
  with describes_items_ind' := Minimality for describes_items Sort Prop
  with describes_entries_ind' := Minimality for describes_entries Sort Prop.
Combined Scheme describes_mutind from describes_ind', describes_items_ind', describes_entries_ind'.

(** A line is blank when it consists of whitespace. *)
Definition blank (s : str) : Prop := Forall (fun c => is_ws c = true) s.

(** * JSON values *)

(** The array is a table with these columns: a non-empty list of objects, each with the same set
    of fields as the first one, all fields primitive. *)
Definition tabular (l : list json) (fields : list str) : Prop :=
  fields <> [] /\
  (exists first r, l = JObj first :: r /\ map fst first = fields) /\
  Forall (fun v => exists es, v = JObj es /\ Permutation (map fst es) fields /\
                              Forall (fun kv => exists p, snd kv = JPrim p) es) l.

(** No object, at any level, has two members with the same key. *)
Inductive distinct_keys : json -> Prop :=
| dk_prim p : distinct_keys (JPrim p)
| dk_arr l : Forall distinct_keys l -> distinct_keys (JArr l)
| dk_obj l : NoDup (map fst l) -> Forall (fun kv => distinct_keys (snd kv)) l ->
    distinct_keys (JObj l).

(** What the format can carry, apart from distinct keys: arrays of at most 100,000,000 items, no
    '}' in a column name of a table, and, except in the cells of a table, no string that looks like
    an array header under a key written without quotes.  The flag tells whether an array in this
    position may be written as a table: everywhere but as an item of another array. *)
Inductive portable_at : bool -> json -> Prop :=
| po_prim t p : portable_at t (JPrim p)
| po_list t l : (N.of_nat (length l) <= 100000000)%N ->
    (t = true -> forall fields, ~ tabular l fields) ->
    Forall (portable_at false) l -> portable_at t (JArr l)
| po_table l fields : (N.of_nat (length l) <= 100000000)%N ->
    tabular l fields -> Forall (fun f => ~ In cRBRACE f) fields -> portable_at true (JArr l)
| po_obj t l :
    Forall (fun kv => forall s, snd kv = JPrim (PStr s) -> bare_key (fst kv) -> ~ header_like s) l ->
    Forall (fun kv => portable_at true (snd kv)) l -> portable_at t (JObj l).
Definition portable (v : json) : Prop := portable_at true v.

(** The same, but with strings only where their text does not matter: at the root, in lists, in
    cells of tables, and under keys that are written in quotes. *)
Inductive guarded_at : bool -> json -> Prop :=
| gu_prim t p : guarded_at t (JPrim p)
| gu_list t l : (N.of_nat (length l) <= 100000000)%N ->
    (t = true -> forall fields, ~ tabular l fields) ->
    Forall (guarded_at false) l -> guarded_at t (JArr l)
| gu_table l fields : (N.of_nat (length l) <= 100000000)%N ->
    tabular l fields -> Forall (fun f => ~ In cRBRACE f) fields -> guarded_at true (JArr l)
| gu_obj t l :
    Forall (fun kv => (exists s, snd kv = JPrim (PStr s)) -> ~ bare_key (fst kv)) l ->
    Forall (fun kv => guarded_at true (snd kv)) l -> guarded_at t (JObj l).
Definition guarded (v : json) : Prop := guarded_at true v.

(** The same value except for the text of its string values. *)
Inductive same_shape : json -> json -> Prop :=
| ss_prim p : same_shape (JPrim p) (JPrim p)
| ss_str s s' : same_shape (JPrim (PStr s)) (JPrim (PStr s'))
| ss_arr l m : Forall2 same_shape l m -> same_shape (JArr l) (JArr m)
| ss_obj l m : Forall2 (fun a b => fst a = fst b /\ same_shape (snd a) (snd b)) l m ->
    same_shape (JObj l) (JObj m).

(** Every number is one JSON can express. *)
Inductive canonical : json -> Prop :=
| ca_prim p : json_prim p -> canonical (JPrim p)
| ca_arr l : Forall canonical l -> canonical (JArr l)
| ca_obj l : Forall (fun kv => canonical (snd kv)) l -> canonical (JObj l).

(** The rows of every table list their fields in the same order. *)
Inductive uniform : json -> Prop :=
| un_prim p : uniform (JPrim p)
| un_arr l :
    (forall fields, tabular l fields -> Forall (fun v => exists es, v = JObj es /\ map fst es = fields) l) ->
    Forall uniform l -> uniform (JArr l)
| un_obj l : Forall (fun kv => uniform (snd kv)) l -> uniform (JObj l).

(** Equal up to the order of members of objects. *)
Inductive jequiv : json -> json -> Prop :=
| je_prim p : jequiv (JPrim p) (JPrim p)
| je_arr l m : Forall2 jequiv l m -> jequiv (JArr l) (JArr m)
| je_obj l l' m : Permutation l l' ->
    Forall2 (fun a b => fst a = fst b /\ jequiv (snd a) (snd b)) l' m -> jequiv (JObj l) (JObj m).

(** A key that may be a segment of a folded path. *)
Definition identifier (k : str) : Prop :=
  exists c r, k = c :: r /\ (letter c \/ c = cUNDER) /\
    Forall (fun x => letter x \/ digit x \/ x = cUNDER) r.

(** [chain v ks leaf]: following the single members named [ks] from [v] leads to [leaf]. *)
Inductive chain : json -> list str -> json -> Prop :=
| ch_nil v : chain v [] v
| ch_cons k v ks leaf : chain v ks leaf -> chain (JObj [(k, v)]) (k :: ks) leaf.

(** Equal except that the rows of tables list their fields in the order of the first row. *)
Inductive table_ordered : json -> json -> Prop :=
| to_prim p : table_ordered (JPrim p) (JPrim p)
| to_arr l m : Forall2 table_ordered l m -> table_ordered (JArr l) (JArr m)
| to_table l fields m : tabular l fields ->
    Forall2 (fun a b => exists es es', a = JObj es /\ b = JObj es' /\ Permutation es es' /\
                                       map fst es' = fields) l m ->
    table_ordered (JArr l) (JArr m)
| to_obj l m : Forall2 (fun a b => fst a = fst b /\ table_ordered (snd a) (snd b)) l m ->
    table_ordered (JObj l) (JObj m).

(** * Documents with quoted keys, and dotted paths *)

(** A document: a value that remembers which of its keys were quoted. *)
Inductive doc :=
| DPrim (p : prim)
| DArr (items : list doc)
| DObj (members : list (str * bool * doc)).

(** The events spell out the document. *)
Inductive spells : list event -> doc -> Prop :=
| sp_prim p : spells [EvPrim p] (DPrim p)
| sp_arr n evs items : spells_items evs items -> spells (EvStartArray n :: evs ++ [EvEndArray]) (DArr items)
| sp_obj evs ms : spells_members evs ms -> spells (EvStartObject :: evs ++ [EvEndObject]) (DObj ms)
with spells_items : list event -> list doc -> Prop :=
| spi_nil : spells_items [] []
| spi_cons e1 d e2 l : spells e1 d -> spells_items e2 l -> spells_items (e1 ++ e2) (d :: l)
with spells_members : list event -> list (str * bool * doc) -> Prop :=
| spm_nil : spells_members [] []
| spm_cons k q e1 d e2 l : spells e1 d -> spells_members e2 l ->
    spells_members (EvKey k q :: e1 ++ e2) ((k, q, d) :: l).

Scheme spells_ind' := Minimality for spells Sort Prop
  with spells_items_ind' := Minimality for spells_items Sort Prop
  with spells_members_ind' := Minimality for spells_members Sort Prop.
Combined Scheme spells_mutind from spells_ind', spells_items_ind', spells_members_ind'.

Fixpoint doc_json (d : doc) : json :=
  match d with
  | DPrim p => JPrim p
  | DArr l => JArr (map doc_json l)
  | DObj l => JObj (map (fun m => (fst (fst m), doc_json (snd m))) l)
  end.

(** A key that is a path of at least two identifiers. *)
Definition dotted (k : str) (segs : list str) : Prop :=
  k = join cDOT segs /\ 2 <= length segs /\ Forall identifier segs.

(** The path a member of an object denotes: a dotted key that was not quoted denotes the path of
    its segments, any other key itself. *)
Inductive key_path (ms : list (str * bool * doc)) (k : str) : list str -> Prop :=
| kp_quoted x : In (k, true, x) ms -> key_path ms k [k]
| kp_plain : (forall segs, ~ dotted k segs) -> key_path ms k [k]
| kp_dotted segs : (forall x, ~ In (k, true, x) ms) -> dotted k segs -> key_path ms k segs.

(** [doc_at d p x]: the value [x] stands at path [p] of the document. *)
Inductive doc_at : doc -> list str -> doc -> Prop :=
| da_here d : doc_at d [] d
| da_member ms k q x p r y : In (k, q, x) ms -> key_path ms k p -> doc_at x r y ->
    doc_at (DObj ms) (p ++ r) y.
(** The same for plain values, where a key is only itself. *)
Inductive at_path : json -> list str -> json -> Prop :=
| ap_here v : at_path v [] v
| ap_member es k x r y : In (k, x) es -> at_path x r y -> at_path (JObj es) (k :: r) y.

Definition doc_object (d : doc) : Prop := exists ms, d = DObj ms.
Definition is_object (v : json) : Prop := exists es, v = JObj es.

(** The value has exactly the primitives and arrays of the document, at the same paths; every
    object of the document is one of the value; and no object appears in the value from nowhere. *)
Inductive expands_to : doc -> json -> Prop :=
| ex_prim p : expands_to (DPrim p) (JPrim p)
| ex_arr l m : Forall2 expands_to l m -> expands_to (DArr l) (JArr m)
| ex_obj ms es :
    (forall p x, doc_at (DObj ms) p x -> ~ doc_object x ->
       exists y, at_path (JObj es) p y /\ ~ is_object y /\ expands_to x y) ->
    (forall p y, at_path (JObj es) p y -> ~ is_object y ->
       exists x, doc_at (DObj ms) p x /\ ~ doc_object x /\ expands_to x y) ->
    (forall p x, doc_at (DObj ms) p x -> doc_object x ->
       exists y, at_path (JObj es) p y /\ is_object y) ->
    (forall p y, at_path (JObj es) p y -> is_object y ->
       exists r x, doc_at (DObj ms) (p ++ r) x) ->
    expands_to (DObj ms) (JObj es).

(** The number of arrays and primitives. *)
Fixpoint doc_weight (d : doc) : nat :=
  match d with
  | DPrim _ => 1
  | DArr l => S (list_sum (map doc_weight l))
  | DObj l => list_sum (map (fun m => doc_weight (snd m)) l)
  end.
Fixpoint weight (v : json) : nat :=
  match v with
  | JPrim _ => 1
  | JArr l => S (list_sum (map weight l))
  | JObj l => list_sum (map (fun m => weight (snd m)) l)
  end.

(** Levels of nesting, objects counting twice. *)
Fixpoint levels (v : json) : nat :=
  match v with
  | JPrim _ => 1
  | JArr l => S (list_max (map levels l))
  | JObj l => S (S (list_max (map (fun m => levels (snd m)) l)))
  end.

(** No key is a dotted path. *)
Inductive undotted : json -> Prop :=
| ud_prim p : undotted (JPrim p)
| ud_arr l : Forall undotted l -> undotted (JArr l)
| ud_obj l : Forall (fun kv => forall segs, ~ dotted (fst kv) segs) l ->
    Forall (fun kv => undotted (snd kv)) l -> undotted (JObj l).

(** No array has an object as an item whose first key is a dotted path that another member of
    the object spells out as a chain of objects. *)
Inductive no_item_clash : json -> Prop :=
| ni_prim p : no_item_clash (JPrim p)
| ni_arr l :
    Forall (fun v => forall k x r k1 ks y z, v = JObj ((k, x) :: r) -> dotted k (k1 :: ks) ->
              In (k1, y) r -> ~ chain y ks z) l ->
    Forall no_item_clash l -> no_item_clash (JArr l)
| ni_obj l : Forall (fun kv => no_item_clash (snd kv)) l -> no_item_clash (JObj l).

(** No key of the document is an unquoted dotted path. *)
Inductive undotted_doc : doc -> Prop :=
| udd_prim p : undotted_doc (DPrim p)
| udd_arr l : Forall undotted_doc l -> undotted_doc (DArr l)
| udd_obj l : Forall (fun m => snd (fst m) = true \/ forall segs, ~ dotted (fst (fst m)) segs) l ->
    Forall (fun m => undotted_doc (snd m)) l -> undotted_doc (DObj l).
