(** What path expansion means: a document is the list of its entries, an entry is a path and what
    stands there, and the value is gathered from the entries.  Used by C48. *)
From Verif Require Import Chars Floats Json Spec SpecRead.

Local Open Scope nat_scope.

(** A path with a primitive or an array ([Some]) or an object ([None]). *)
Definition entry : Type := list str * option json.
Definition under (p : list str) (e : entry) : entry := (p ++ fst e, snd e).
(** The entries of a value, in order; an object comes before what is in it. *)
Fixpoint entries (v : json) : list entry :=
  match v with
  | JObj es => ([], None) :: flat_map (fun kv => map (under [fst kv]) (entries (snd kv))) es
  | _ => [([], Some v)]
  end.
(** The entries below the key [k], with the rest of their paths. *)
Definition below (k : str) (l : list entry) : list entry :=
  flat_map (fun e => match fst e with
                     | k' :: r => if list_eq_dec N.eq_dec k' k then [(r, snd e)] else []
                     | [] => []
                     end) l.
(** The first keys of the paths. *)
Definition heads (l : list entry) : list str :=
  flat_map (fun e => match fst e with k :: _ => [k] | [] => [] end) l.
(** [ks] are the different elements of a list in the order in which they occur first. *)
Inductive firsts : list str -> list str -> Prop :=
| fi_nil : firsts [] []
| fi_new hs ks k : firsts hs ks -> ~ In k hs -> firsts (hs ++ [k]) (ks ++ [k])
| fi_old hs ks k : firsts hs ks -> In k hs -> firsts (hs ++ [k]) ks.

(** The value that entries make together.  A primitive or array at the empty path is the value; in
    strict mode it must be the only entry, otherwise it overrides all entries before it.  Other
    entries make an object, whose keys stand in the order of their first entries. *)
Inductive gathers (strict : bool) : list entry -> json -> Prop :=
| ga_leaf l v : ~ is_object v -> (strict = true -> l = []) -> gathers strict (l ++ [([], Some v)]) v
| ga_object l0 l es :
    (l0 = [] \/ strict = false /\ exists l1 v, l0 = l1 ++ [([], Some v)]) ->
    l <> [] -> (forall v, ~ In ([], Some v) l) ->
    firsts (heads l) (map fst es) ->
    Forall (fun kv => gathers strict (below (fst kv) l) (snd kv)) es ->
    gathers strict (l0 ++ l) (JObj es).

(** Expansion goes from the inside to the outside: the entries of an object are those of its
    expanded members, each under the path of its key. *)
Inductive expands (strict : bool) : doc -> json -> Prop :=
| xp_prim p : expands strict (DPrim p) (JPrim p)
| xp_arr l m : Forall2 (expands strict) l m -> expands strict (DArr l) (JArr m)
| xp_obj ms ls v :
    Forall2 (fun m l => exists p x, key_path ms (fst (fst m)) p /\ expands strict (snd m) x /\ l = map (under p) (entries x)) ms ls ->
    gathers strict (([], None) :: concat ls) v ->
    expands strict (DObj ms) v.

(** * Conflicts *)

(** What an entry shows at a place, [r] being the rest of its path from there: what is deeper shows
    an object. *)
Definition shows (r : list str) (x : option json) : nkind :=
  match r, x with
  | [], Some (JPrim _) => KPrim
  | [], Some (JArr _) => KArr
  | _, _ => KObj
  end.
Definition stands (p : list str) (e : entry) (k : nkind) : Prop :=
  exists r, fst e = p ++ r /\ k = shows r (snd e).
(** Of the new entries [b] is the first that cannot join the old ones: at the path [p] it and an
    earlier entry [a] stand for different things, and not both for objects. *)
Definition clash (old new : list entry) (p : list str) (left right : nkind) : Prop :=
  exists a n1 b n2, new = n1 ++ b :: n2 /\ In a (old ++ n1) /\ (exists w, gathers true (old ++ n1) w) /\
    stands p a left /\ stands p b right /\ ~ (left = KObj /\ right = KObj).
(** What is said about a clash: its last key, as an inner segment of the member's own path (of
    length [m]) or as the key of a value. *)
Definition named (m : nat) (p : list str) (left right : nkind) : conflict :=
  if length p <? m then CSegment (last p []) left else CKey (last p []) left right.

Definition member_entries (ms : list (str * bool * doc)) (m : str * bool * doc) (l : list entry) : Prop :=
  exists p x, key_path ms (fst (fst m)) p /\ expands true (snd m) x /\ l = map (under p) (entries x).
(** The first conflict of a document. *)
Inductive conflicts : doc -> conflict -> Prop :=
| co_item before d after c : Forall (fun x => exists v, expands true x v) before -> conflicts d c ->
    conflicts (DArr (before ++ d :: after)) c
| co_inside ms before m after ls v c : ms = before ++ m :: after ->
    Forall2 (member_entries ms) before ls -> gathers true (([], None) :: concat ls) v -> conflicts (snd m) c ->
    conflicts (DObj ms) c
| co_between ms before m after ls p x q left right v : ms = before ++ m :: after ->
    Forall2 (member_entries ms) before ls -> gathers true (([], None) :: concat ls) v ->
    key_path ms (fst (fst m)) p -> expands true (snd m) x ->
    clash (([], None) :: concat ls) (map (under p) (entries x)) q left right ->
    conflicts (DObj ms) (named (length p) q left right).

(** A document read from lines, without its lengths. *)
Fixpoint tree_doc (t : tree) : doc :=
  match t with
  | TPrim p => DPrim p
  | TArr _ l => DArr (map tree_doc l)
  | TObj l => DObj (map (fun m => (fst m, tree_doc (snd m))) l)
  end.

(** Levels of nesting that expansion goes through.  A key with [n] dots can open [n] more. *)
Definition dots (k : str) : nat := count_occ N.eq_dec k cDOT.
Fixpoint doc_height (d : doc) : nat :=
  match d with
  | DObj ms => S (list_max (map (fun m => dots (fst (fst m)) + doc_height (snd m)) ms))
  | _ => 0
  end.
Fixpoint doc_levels (d : doc) : nat :=
  match d with
  | DPrim _ => 1
  | DArr l => S (list_max (map doc_levels l))
  | DObj ms => 2 + list_max (map (fun m => Nat.max (doc_levels (snd m)) (2 + dots (fst (fst m)) + doc_height (snd m))) ms)
  end.
(** Levels that expansion has to go through, even if no two members meet. *)
Inductive nested : doc -> nat -> Prop :=
| ne_prim p : nested (DPrim p) 1
| ne_arr l : nested (DArr l) 1
| ne_item l d n : In d l -> nested d n -> nested (DArr l) (1 + n)
| ne_obj ms : nested (DObj ms) 2
| ne_member ms m n : In m ms -> nested (snd m) n -> nested (DObj ms) (2 + n)
| ne_key ms m p : In m ms -> key_path ms (fst (fst m)) p -> nested (DObj ms) (2 + (if 1 <? length p then 1 + length p else 1)).
