(** Replacing as a conversation: which questions a replacer is asked, in which order, and what
    becomes of its answers.  Independent of the model and of any state of the replacer. *)
From Verif Require Import Chars Floats Json Spec SpecReplace.

Local Open Scope nat_scope.

(** A question (key, value, path) with its answer. *)
Record ask := Ask { ask_key : str; ask_value : json; ask_path : list path_segment; ask_answer : option json }.

(** [asked path v qs w]: the value [v], which stands at [path], becomes [w] by the conversation [qs]
    about what is inside it. *)
Inductive asked : list path_segment -> json -> list ask -> json -> Prop :=
| ak_prim path p : asked path (JPrim p) [] (JPrim p)
| ak_arr path l qs m : asked_items path 0 l qs m -> asked path (JArr l) qs (JArr m)
| ak_obj path l qs m : asked_members path l qs m -> asked path (JObj l) qs (JObj m)
with asked_items : list path_segment -> nat -> list json -> list ask -> list json -> Prop :=
| aki_nil path i : asked_items path i [] [] []
(** Removed: nothing inside it is asked for. *)
| aki_drop path i v l qs m : asked_items path (S i) l qs m ->
    asked_items path i (v :: l) (Ask (dec_of_N (N.of_nat i)) v (path ++ [PSIndex i]) None :: qs) m
(** Answered: next comes all that is inside the (normalised) answer, then the items after it. *)
| aki_keep path i v x n q w l qs m : norm_json x n -> asked (path ++ [PSIndex i]) n q w ->
    asked_items path (S i) l qs m ->
    asked_items path i (v :: l) (Ask (dec_of_N (N.of_nat i)) v (path ++ [PSIndex i]) (Some x) :: q ++ qs) (w :: m)
with asked_members : list path_segment -> list (str * json) -> list ask -> list (str * json) -> Prop :=
| akm_nil path : asked_members path [] [] []
| akm_drop path k v l qs m : asked_members path l qs m ->
    asked_members path ((k, v) :: l) (Ask k v (path ++ [PSKey k]) None :: qs) m
| akm_keep path k v x n q w l qs m : norm_json x n -> asked (path ++ [PSKey k]) n q w ->
    asked_members path l qs m ->
    asked_members path ((k, v) :: l) (Ask k v (path ++ [PSKey k]) (Some x) :: q ++ qs) ((k, w) :: m).

(** The whole value first, with an empty key and path; it cannot be removed. *)
Inductive asked_root : json -> list ask -> json -> Prop :=
| ar_keep v qs w : asked [] v qs w -> asked_root v (Ask [] v [] None :: qs) w
| ar_new v x n qs w : norm_json x n -> asked [] n qs w -> asked_root v (Ask [] v [] (Some x) :: qs) w.

(** The answers are those that the replacer gives, from the state [s] on, ending in [s']. *)
Inductive answers {A : Type} (rep : A -> str -> json -> list path_segment -> A * option json) : A -> list ask -> A -> Prop :=
| an_nil s : answers rep s [] s
| an_cons s k v path a s1 qs s2 : rep s k v path = (s1, a) -> answers rep s1 qs s2 ->
    answers rep s (Ask k v path a :: qs) s2.

(** Two conversations part: they are the same up to a question that is answered differently. *)
Definition part (qs qs' : list ask) : Prop :=
  exists c k v p a b r r', qs = c ++ Ask k v p a :: r /\ qs' = c ++ Ask k v p b :: r' /\ a <> b.

(** No answer has an object with a repeated key. *)
Definition answer_distinct (q : ask) : Prop :=
  match ask_answer q with Some x => distinct_keys x | None => True end.

(** What stands at a path inside a value. *)
Inductive stands : json -> list path_segment -> json -> Prop :=
| st_here v : stands v [] v
| st_in v k g c q x : child v k g c -> stands c q x -> stands v (g :: q) x.

(** The positions of a value in document order, with what stands there. *)
Fixpoint positions (path : list path_segment) (v : json) : list (str * json * list path_segment) :=
  match v with
  | JPrim _ => []
  | JArr l =>
      (fix go i l := match l with
                     | [] => []
                     | x :: r => (dec_of_N (N.of_nat i), x, path ++ [PSIndex i])
                                 :: positions (path ++ [PSIndex i]) x ++ go (S i) r
                     end) 0 l
  | JObj l =>
      (fix go l := match l with
                   | [] => []
                   | (k, x) :: r => (k, x, path ++ [PSKey k]) :: positions (path ++ [PSKey k]) x ++ go r
                   end) l
  end.

Scheme asked_ind' := Minimality for asked Sort Prop
  with asked_items_ind' := Minimality for asked_items Sort Prop
  with asked_members_ind' := Minimality for asked_members Sort Prop.
Combined Scheme asked_mutind from asked_ind', asked_items_ind', asked_members_ind'.
