(** What replacing means: specification used by C28-C30, independent of the model's functions. *)
From Verif Require Import Chars Floats Json Spec.

Local Open Scope nat_scope.

Section Replaced.
Variable rep : replacer.

(** [replaced path v w]: [w] is [v], which stands at [path], after its members (items) have been
    replaced.  The replacer is asked once for each, with its key (or the decimal index) and its
    path; [None] removes it; otherwise the answer, normalised, is itself processed in turn. *)
Inductive replaced : list path_segment -> json -> json -> Prop :=
| rp_prim path p : replaced path (JPrim p) (JPrim p)
| rp_arr path l m : replaced_items path 0 l m -> replaced path (JArr l) (JArr m)
| rp_obj path l m : replaced_members path l m -> replaced path (JObj l) (JObj m)
with replaced_items : list path_segment -> nat -> list json -> list json -> Prop :=
| rpi_nil path i : replaced_items path i [] []
| rpi_drop path i v l m : rep (dec_of_N (N.of_nat i)) v (path ++ [PSIndex i]) = None ->
    replaced_items path (S i) l m -> replaced_items path i (v :: l) m
| rpi_keep path i v x n w l m : rep (dec_of_N (N.of_nat i)) v (path ++ [PSIndex i]) = Some x ->
    norm_json x n -> replaced (path ++ [PSIndex i]) n w ->
    replaced_items path (S i) l m -> replaced_items path i (v :: l) (w :: m)
with replaced_members : list path_segment -> list (str * json) -> list (str * json) -> Prop :=
| rpm_nil path : replaced_members path [] []
| rpm_drop path k v l m : rep k v (path ++ [PSKey k]) = None ->
    replaced_members path l m -> replaced_members path ((k, v) :: l) m
| rpm_keep path k v x n w l m : rep k v (path ++ [PSKey k]) = Some x ->
    norm_json x n -> replaced (path ++ [PSKey k]) n w ->
    replaced_members path l m -> replaced_members path ((k, v) :: l) ((k, w) :: m).

(** The root is asked for with the empty key and path; [None] keeps it. *)
Inductive replaced_root : json -> json -> Prop :=
| rr_keep v w : rep [] v [] = None -> replaced [] v w -> replaced_root v w
| rr_new v x n w : rep [] v [] = Some x -> norm_json x n -> replaced [] n w -> replaced_root v w.

End Replaced.

Scheme replaced_ind' := Minimality for replaced Sort Prop
  with replaced_items_ind' := Minimality for replaced_items Sort Prop
  with replaced_members_ind' := Minimality for replaced_members Sort Prop.
Combined Scheme replaced_mutind from replaced_ind', replaced_items_ind', replaced_members_ind'.

(** What remains of a value when the positions (paths) that [keep] refuses are removed.  Indices
    count positions in the original value. *)
Fixpoint prune (keep : list path_segment -> bool) (path : list path_segment) (v : json) : json :=
  match v with
  | JPrim p => JPrim p
  | JArr l =>
      JArr ((fix go i l := match l with
                           | [] => []
                           | x :: r => if keep (path ++ [PSIndex i])
                                       then prune keep (path ++ [PSIndex i]) x :: go (S i) r
                                       else go (S i) r
                           end) 0 l)
  | JObj l =>
      JObj ((fix go l := match l with
                         | [] => []
                         | (k, x) :: r => if keep (path ++ [PSKey k])
                                          then (k, prune keep (path ++ [PSKey k]) x) :: go r
                                          else go r
                         end) l)
  end.

(** Every leaf changed by [f]. *)
Fixpoint map_leaves (f : prim -> prim) (v : json) : json :=
  match v with
  | JPrim p => JPrim (f p)
  | JArr l => JArr (map (map_leaves f) l)
  | JObj l => JObj (map (fun kv => (fst kv, map_leaves f (snd kv))) l)
  end.

(** The nesting of a value. *)
Fixpoint nesting (v : json) : nat :=
  match v with
  | JPrim _ => 0
  | JArr l => S (list_max (map nesting l))
  | JObj l => S (list_max (map (fun kv => nesting (snd kv)) l))
  end.

(** The values standing directly inside a value, with the key text and path segment they have. *)
Inductive child : json -> str -> path_segment -> json -> Prop :=
| ch_arr l i v : nth_error l i = Some v -> child (JArr l) (dec_of_N (N.of_nat i)) (PSIndex i) v
| ch_obj l k v : In (k, v) l -> child (JObj l) k (PSKey k) v.

(** [deep rep d path x]: replacing the value [x], which stands at [path], goes through at least [d]
    levels below it: there are [d] answers of the replacer, each given for a child of the one before. *)
Inductive deep (rep : replacer) : nat -> list path_segment -> json -> Prop :=
| dp_here path x : deep rep 0 path x
| dp_below d path x k s c y n : child x k s c -> rep k c (path ++ [s]) = Some y -> norm_json y n ->
    deep rep d (path ++ [s]) n -> deep rep (S d) path x.

(** The same for the whole value. *)
Inductive deep_root (rep : replacer) (d : nat) (v : json) : Prop :=
| dr_keep : rep [] v [] = None -> deep rep d [] v -> deep_root rep d v
| dr_new x n : rep [] v [] = Some x -> norm_json x n -> deep rep d [] n -> deep_root rep d v.
