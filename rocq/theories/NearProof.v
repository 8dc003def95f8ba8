(** Path expansion of two documents that differ in a few primitive values. *)
From Verif Require Import Chars Floats Json Shared Folding EventBuilder Expand Lex Spec SpecText SpecRead ReadProof SpecExpand ExpandProof ExpandProps SpecEdit EditProof.

Local Open Scope nat_scope.

Section Near.
Variable R : prim -> prim -> Prop.
Variable strict : bool.
(** Numbers of differences: exact in strict mode, where nothing is dropped, and bounds in lenient mode. *)
Definition fits (m n : nat) : Prop := if strict then m = n else m <= n.
Ltac fit := unfold fits in *; destruct strict; first [discriminate|lia].
(** The same shape, with exactly (in lenient mode: at most) [n] primitive values replaced. *)
Inductive near : nat -> node -> node -> Prop :=
| ne_prim n p : fits 0 n -> near n (NPrim p) (NPrim p)
| ne_diff n p p' : fits 1 n -> R p p' -> near n (NPrim p) (NPrim p')
| ne_arr n l l' : nears n l l' -> near n (NArr l) (NArr l')
| ne_obj n q l l' : nearm n l l' -> near n (NObj l q) (NObj l' q)
with nears : nat -> list node -> list node -> Prop :=
| nl_nil n : fits 0 n -> nears n [] []
| nl_cons a b n v v' l l' : near a v v' -> nears b l l' -> fits (a + b) n -> nears n (v :: l) (v' :: l')
with nearm : nat -> list (str * node) -> list (str * node) -> Prop :=
| nm_nil n : fits 0 n -> nearm n [] []
| nm_cons a b n k v v' l l' : near a v v' -> nearm b l l' -> fits (a + b) n -> nearm n ((k, v) :: l) ((k, v') :: l').
Scheme near_i := Minimality for near Sort Prop with nears_i := Minimality for nears Sort Prop with nearm_i := Minimality for nearm Sort Prop.
Combined Scheme near_mutind from near_i, nears_i, nearm_i.

Lemma near_mono :
  (forall n v w, near n v w -> forall m, fits n m -> near m v w) /\
  (forall n v w, nears n v w -> forall m, fits n m -> nears m v w) /\
  (forall n v w, nearm n v w -> forall m, fits n m -> nearm m v w).
Proof.
  apply near_mutind.
  - intros n p F m L. apply ne_prim. fit.
  - intros n p p' F H m L. apply ne_diff; [fit|exact H].
  - intros n l l' _ IH m L. constructor. auto.
  - intros n q l l' _ IH m L. constructor. auto.
  - intros n F m L. constructor. fit.
  - intros. econstructor; eauto. fit.
  - intros n F m L. constructor. fit.
  - intros. econstructor; eauto. fit.
Qed.
Lemma nearm_mono n m v w : nearm n v w -> fits n m -> nearm m v w.
Proof. intros H L. eapply (proj2 (proj2 near_mono)); eauto. Qed.
Lemma near_kind n v w : near n v w -> node_kind v = node_kind w.
Proof. destruct 1; reflexivity. Qed.
Lemma nearm_app a b l l' m m' : nearm a l l' -> nearm b m m' -> nearm (a + b) (l ++ m) (l' ++ m').
Proof.
  intros H Hm. induction H as [n F|c d n k v v' l l' Hv Hl IH L]; cbn [app].
  - eapply nearm_mono; [exact Hm|fit].
  - econstructor; [exact Hv|exact IH|fit].
Qed.
Lemma nearm_one a k v v' : near a v v' -> nearm a [(k, v)] [(k, v')].
Proof. intros H. apply (nm_cons a 0); [exact H|constructor; fit|fit]. Qed.
Lemma get_near n es es' key : nearm n es es' ->
  (entry_get es key = None /\ entry_get es' key = None) \/
  exists x x' a b, entry_get es key = Some x /\ entry_get es' key = Some x' /\ near a x x' /\ fits (a + b) n /\
    forall c y y', near c y y' -> nearm (c + b) (entry_set es key y) (entry_set es' key y').
Proof.
  induction 1 as [n F|a b n k v v' l l' Hv Hl IH L]; [now left|]. cbn [entry_get entry_set]. destruct (str_eqb k key).
  - right. exists v, v', a, b. do 3 (split; [easy|]). split; [exact L|]. intros c y y' H. apply (nm_cons c b); [exact H|exact Hl|fit].
  - destruct IH as [H|(x & x' & a' & b' & E1 & E2 & Hx & L' & Hs)]; [now left|right]. exists x, x', a', (a + b'). do 3 (split; [assumption|]).
    split; [fit|]. intros c y y' H. eapply (nm_cons a (c + b')); [exact Hv|now apply Hs|fit].
Qed.

(** Both fail in the same way, or both succeed. *)
Definition alike {A} (P : A -> A -> Prop) (r r' : result A) : Prop :=
  match r, r' with Ok x, Ok y => P x y | Err e, Err e' => e = e' | _, _ => False end.
Lemma alike_bind {A B} (P : A -> A -> Prop) (Q : B -> B -> Prop) r r' f g : alike P r r' -> (forall x y, P x y -> alike Q (f x) (g y)) -> alike Q (bind r f) (bind r' g).
Proof. destruct r as [x|e], r' as [y|e']; cbn; try contradiction; auto. Qed.

Lemma merge_near : forall left_ a b t t' s s', nearm a t t' -> nearm b s s' ->
  alike (nearm (a + b)) (merge_objects left_ strict t s) (merge_objects left_ strict t' s').
Proof.
  induction left_ as [|l IHl]; intros a b t t' s s' Ht Hs; [reflexivity|]. cbn [merge_objects]. revert a t t' Ht.
  induction Hs as [n F|c d n k v v' r r' Hv Hr IH L]; intros a t t' Ht.
  - cbn [alike]. eapply nearm_mono; [exact Ht|fit].
  - assert (Mono : forall m x y, fits m (a + n) -> alike (nearm m) x y -> alike (nearm (a + n)) x y).
    { intros m [x|] [y|] L0; cbn; try tauto. intros H. eapply nearm_mono; eauto. }
    destruct (get_near _ _ _ k Ht) as [(-> & ->)|(x & x' & a' & b' & -> & -> & Hx & La & Hset)].
    + eapply Mono; [|apply (IH (a + c)); apply nearm_app; [exact Ht|now apply nearm_one]]. fit.
    + assert (Other : alike (nearm (a + n))
        (if strict then Err (EExpandConflict (CKey k (node_kind x) (node_kind v)))
         else (fix go (target source : list (str * node)) {struct source} : result (list (str * node)) :=
           match source with
           | [] => Ok target
           | (key, value) :: r =>
             match entry_get target key with
             | None => go (target ++ [(key, value)]) r
             | Some existing =>
                 match existing, value with
                 | NObj eo eq, NObj so _ => let? m := merge_objects l strict eo so in go (entry_set target key (NObj m eq)) r
                 | _, _ => if strict then Err (EExpandConflict (CKey key (node_kind existing) (node_kind value))) else go (entry_set target key value) r
                 end
             end
           end) (entry_set t k v) r)
        (if strict then Err (EExpandConflict (CKey k (node_kind x') (node_kind v')))
         else (fix go (target source : list (str * node)) {struct source} : result (list (str * node)) :=
           match source with
           | [] => Ok target
           | (key, value) :: r =>
             match entry_get target key with
             | None => go (target ++ [(key, value)]) r
             | Some existing =>
                 match existing, value with
                 | NObj eo eq, NObj so _ => let? m := merge_objects l strict eo so in go (entry_set target key (NObj m eq)) r
                 | _, _ => if strict then Err (EExpandConflict (CKey key (node_kind existing) (node_kind value))) else go (entry_set target key value) r
                 end
             end
           end) (entry_set t' k v') r')).
      { rewrite (near_kind _ _ _ Hx), (near_kind _ _ _ Hv). destruct strict eqn:Es; [reflexivity|].
        eapply Mono; [|apply (IH (c + b')); now apply Hset]. fit. }
      destruct Hx as [n0 p Fp|n0 p p' Fp Hp|n0 q q' Hq|n0 q es es' He]; [exact Other|exact Other|exact Other|].
      destruct Hv as [n1 p Fq|n1 p p' Fq Hp|n1 q1 q' Hq|n1 q1 os os' Ho]; [exact Other|exact Other|exact Other|].
      eapply alike_bind; [apply (IHl n0 n1); [exact He|exact Ho]|]. intros m m' Hm.
      eapply Mono; [|apply (IH (n0 + n1 + b')); apply Hset; now constructor]. fit.
Qed.
Lemma literal_near left_ a b es es' key v v' : nearm a es es' -> near b v v' ->
  alike (nearm (a + b)) (insert_literal_entry left_ strict es key v) (insert_literal_entry left_ strict es' key v').
Proof.
  intros He Hv. destruct left_ as [|l]; [reflexivity|]. cbn [insert_literal_entry].
  destruct (get_near _ _ _ key He) as [(-> & ->)|(x & x' & a' & b' & -> & -> & Hx & La & Hset)].
  - cbn [alike]. apply nearm_app; [exact He|now apply nearm_one].
  - assert (Other : alike (nearm (a + b))
      (if strict then Err (EExpandConflict (CKey key (node_kind x) (node_kind v))) else Ok (entry_set es key v))
      (if strict then Err (EExpandConflict (CKey key (node_kind x') (node_kind v'))) else Ok (entry_set es' key v'))).
    { rewrite (near_kind _ _ _ Hx), (near_kind _ _ _ Hv). destruct strict eqn:Es; [reflexivity|]. cbn [alike]. eapply nearm_mono; [exact (Hset _ _ _ Hv)|fit]. }
    destruct Hx as [n0 p Fp|n0 p p' Fp Hp|n0 q q' Hq|n0 q os os' Ho]; [exact Other|exact Other|exact Other|].
    destruct Hv as [n1 p Fq|n1 p p' Fq Hp|n1 q1 q' Hq|n1 q1 ss ss' Hs]; [exact Other|exact Other|exact Other|].
    eapply alike_bind; [apply merge_near; [exact Ho|exact Hs]|]. intros m m' Hm. cbn [alike].
    eapply nearm_mono; [apply Hset; constructor; exact Hm|fit].
Qed.
Lemma path_near : forall left_ segs a b es es' v v', segs <> [] -> nearm a es es' -> near b v v' ->
  alike (nearm (a + b)) (insert_path_entries left_ strict es segs v) (insert_path_entries left_ strict es' segs v').
Proof.
  induction left_ as [|l IH]; intros segs a b es es' v v' Ns He Hv; [reflexivity|]. cbn [insert_path_entries].
  destruct segs as [|key [|key2 rest]]; [contradiction|now apply literal_near|].
  destruct (get_near _ _ _ key He) as [(-> & ->)|(x & x' & a' & b' & -> & -> & Hx & La & Hset)].
  - eapply alike_bind; [apply (IH (key2 :: rest) 0 b); [discriminate|constructor; fit|exact Hv]|]. intros m m' Hm. cbn [alike].
    apply nearm_app; [exact He|]. apply nearm_one. constructor. exact Hm.
  - assert (Other : alike (nearm (a + b))
      (if strict then Err (EExpandConflict (CSegment key (node_kind x)))
       else let? m := insert_path_entries l strict [] (key2 :: rest) v in Ok (entry_set es key (NObj m [])))
      (if strict then Err (EExpandConflict (CSegment key (node_kind x')))
       else let? m := insert_path_entries l strict [] (key2 :: rest) v' in Ok (entry_set es' key (NObj m [])))).
    { rewrite (near_kind _ _ _ Hx). destruct strict eqn:Es; [reflexivity|]. eapply alike_bind; [apply (IH (key2 :: rest) 0 b); [discriminate|constructor; fit|exact Hv]|].
      intros m m' Hm. cbn [alike]. eapply nearm_mono; [apply Hset; constructor; exact Hm|fit]. }
    destruct Hx as [n0 p Fp|n0 p p' Fp Hp|n0 q q' Hq|n0 q os os' Ho]; [exact Other|exact Other|exact Other|].
    eapply alike_bind; [apply (IH (key2 :: rest) n0 b); [discriminate|exact Ho|exact Hv]|]. intros m m' Hm. cbn [alike].
    eapply nearm_mono; [apply Hset; constructor; exact Hm|fit].
Qed.
Lemma expand_near : forall k left_, left_ <= k -> forall n v v', near n v v' -> alike (near n) (expand_inner left_ strict v) (expand_inner left_ strict v').
Proof.
  induction k as [|k IHk]; intros [|l] Lk n v v' H; try reflexivity; [lia|]. destruct H as [n p Fp|n p p' Fp Hp|n ls ls' Hl|n q es es' He]; cbn [expand_inner].
  - now constructor.
  - now constructor.
  - eapply (alike_bind (nears n)); [|intros x y Hx; now constructor]. induction Hl as [n F|a b n v v' ls ls' Hv Hl IH L]; cbn [map_result]; [now constructor|].
    eapply (alike_bind (near a)); [apply IHk; [lia|exact Hv]|]. intros x y Hx. eapply (alike_bind (nears b)); [exact IH|]. intros xs ys Hxs. econstructor; eauto.
  - destruct l as [|l']; [reflexivity|]. eapply (alike_bind (nearm n)); [|intros x y Hx; now constructor].
    assert (G : forall a acc acc', nearm a acc acc' -> alike (nearm (a + n))
      ((fix go (acc entries : list (str * node)) : result (list (str * node)) :=
                   match entries with
                   | [] => Ok acc
                   | (key, value) :: r =>
                       let? v := expand_inner l' strict value in
                       let? acc' := (if expandable key q then insert_path_entries l' strict acc (split_on cDOT key) v else insert_literal_entry l' strict acc key v) in
                       go acc' r
                   end) acc es)
      ((fix go (acc entries : list (str * node)) : result (list (str * node)) :=
                   match entries with
                   | [] => Ok acc
                   | (key, value) :: r =>
                       let? v := expand_inner l' strict value in
                       let? acc' := (if expandable key q then insert_path_entries l' strict acc (split_on cDOT key) v else insert_literal_entry l' strict acc key v) in
                       go acc' r
                   end) acc' es')).
    { induction He as [n F|c d n key v v' r r' Hv Hr IH L]; intros a acc acc' Ha; [cbn [alike]; eapply nearm_mono; [exact Ha|fit]|].
      eapply (alike_bind (near c)); [apply IHk; [lia|exact Hv]|]. intros x y Hx.
      eapply (alike_bind (nearm (a + c))); [destruct (expandable key q); [apply path_near; [apply split_on_not_nil|exact Ha|exact Hx]|now apply literal_near]|]. intros z w Hz.
      specialize (IH (a + c) z w Hz). revert IH. generalize (a + c + d) (Nat.add_assoc a c d). intros m Em.
      match goal with |- alike _ ?p ?r -> _ => destruct p, r; cbn [alike]; auto end. intros IH. eapply nearm_mono; [exact IH|fit]. }
    specialize (G 0 [] [] (nm_nil 0 ltac:(fit))). exact G.
Qed.

(** No difference, or exactly one; in lenient mode perhaps none instead of one. *)
Lemma near_json :
  (forall n v w, near n v w -> (n = 0 -> node_to_json w = node_to_json v) /\
     (n = 1 -> (strict = false /\ node_to_json w = node_to_json v) \/ one_value R (node_to_json v) (node_to_json w))) /\
  (forall n v w, nears n v w -> (n = 0 -> map node_to_json w = map node_to_json v) /\
     (n = 1 -> (strict = false /\ map node_to_json w = map node_to_json v) \/
        exists a x y b, map node_to_json v = a ++ x :: b /\ map node_to_json w = a ++ y :: b /\ one_value R x y)) /\
  (forall n v w, nearm n v w -> let f := map (fun kv : str * node => (fst kv, node_to_json (snd kv))) in (n = 0 -> f w = f v) /\
     (n = 1 -> (strict = false /\ f w = f v) \/ exists a k x y b, f v = a ++ (k, x) :: b /\ f w = a ++ (k, y) :: b /\ one_value R x y)).
Proof.
  apply near_mutind; cbn [node_to_json map fst snd]; cbv zeta.
  - intros n p F. split; [auto|]. intros ->. left. split; [|reflexivity]. revert F. unfold fits. destruct strict; [discriminate|auto].
  - intros n p p' F H. split; [intros ->; revert F; unfold fits; destruct strict; lia|]. intros _. right. now constructor.
  - intros n l l' _ (H0 & H1). split; [intros E; now rewrite H0|]. intros E. destruct (H1 E) as [(S & ->)|(a & x & y & b & -> & -> & H)]; [now left|right; now constructor].
  - intros n q l l' _ (H0 & H1). split; [intros E; now rewrite H0|]. intros E. destruct (H1 E) as [(S & ->)|(a & k & x & y & b & -> & -> & H)]; [now left|right; now constructor].
  - intros n F. split; [auto|]. intros ->. left. split; [|reflexivity]. revert F. unfold fits. destruct strict; [discriminate|auto].
  - intros a b n v v' l l' _ (V0 & V1) _ (L0 & L1) L. assert (Le : a + b <= n /\ (a + b < n -> strict = false)) by (revert L; unfold fits; destruct strict; lia).
    destruct Le as (Le & Ls). split.
    + intros E. rewrite V0, L0 by lia. reflexivity.
    + intros E. destruct a as [|[|a]]; [|destruct b as [|b]; [|lia]|lia].
      * rewrite V0 by reflexivity. assert (D : b = 0 \/ b = 1) by lia. destruct D as [D|D]; [left; rewrite L0 by exact D; split; [apply Ls; lia|reflexivity]|].
        destruct (L1 D) as [(S & ->)|(x1 & x & y & x2 & -> & -> & H)]; [now left|]. right. exists (node_to_json v :: x1), x, y, x2. auto.
      * rewrite L0 by reflexivity. destruct (V1 eq_refl) as [(S & ->)|H]; [now left|]. right. exists [], (node_to_json v), (node_to_json v'), (map node_to_json l). auto.
  - intros n F. split; [auto|]. intros ->. left. split; [|reflexivity]. revert F. unfold fits. destruct strict; [discriminate|auto].
  - intros a b n k v v' l l' _ (V0 & V1) _ (L0 & L1) L. assert (Le : a + b <= n /\ (a + b < n -> strict = false)) by (revert L; unfold fits; destruct strict; lia).
    destruct Le as (Le & Ls). split.
    + intros E. rewrite V0, L0 by lia. reflexivity.
    + intros E. destruct a as [|[|a]]; [|destruct b as [|b]; [|lia]|lia].
      * rewrite V0 by reflexivity. assert (D : b = 0 \/ b = 1) by lia. destruct D as [D|D]; [left; rewrite L0 by exact D; split; [apply Ls; lia|reflexivity]|].
        destruct (L1 D) as [(S & ->)|(x1 & k1 & x & y & x2 & -> & -> & H)]; [now left|]. right. exists ((k, node_to_json v) :: x1), k1, x, y, x2. auto.
      * rewrite L0 by reflexivity. destruct (V1 eq_refl) as [(S & ->)|H]; [now left|]. right. eexists [], k, (node_to_json v), (node_to_json v'), _. split; [reflexivity|]. split; [reflexivity|exact H].
Qed.

(** Documents that differ in one value. *)
Lemma near_refl d : near 0 (node_of d) (node_of d).
Proof.
  induction d as [p|l H|l H] using doc_ind'; cbn [node_of]; constructor; [fit| |].
  - induction H as [|x l Hx _ IH]; cbn [map]; [constructor; fit|]. apply (nl_cons 0 0); [exact Hx|exact IH|fit].
  - induction H as [|x l Hx _ IH]; cbn [map]; [constructor; fit|]. apply (nm_cons 0 0); [exact Hx|exact IH|fit].
Qed.
Lemma nears_refl l : nears 0 (map node_of l) (map node_of l).
Proof. induction l as [|x l IH]; cbn [map]; [constructor; fit|]. apply (nl_cons 0 0); [apply near_refl|exact IH|fit]. Qed.
Lemma leaf_near v w : one_leaf R v w -> near 1 (node_of (tree_doc v)) (node_of (tree_doc w)).
Proof.
  induction 1 as [p p' H|n a v w b _ IH|a k v w b _ IH]; cbn [tree_doc node_of]; [apply ne_diff; [fit|exact H]|constructor|].
  - rewrite !map_map, !map_app. cbn [map]. induction a as [|x a IHa]; cbn [map app].
    + apply (nl_cons 1 0); [exact IH| |fit]. rewrite <- map_map. apply nears_refl.
    + apply (nl_cons 0 1); [apply near_refl|exact IHa|fit].
  - match goal with |- near _ (NObj _ ?q) (NObj _ ?q') => assert (Eq : q = q') end.
    { f_equal. rewrite !map_app. cbn [map fst snd]. rewrite !filter_app, !map_app. cbn [filter fst snd]. destruct (snd k); reflexivity. }
    rewrite Eq. clear Eq. constructor. rewrite !map_map, !map_app. cbn [map fst snd]. induction a as [|x a IHa]; cbn [map app].
    + apply (nm_cons 1 0); [exact IH| |fit]. clear. induction b as [|x b IHb]; cbn [map]; [constructor; fit|]. apply (nm_cons 0 0); [apply near_refl|exact IHb|fit].
    + apply (nm_cons 0 1); [apply near_refl|exact IHa|fit].
Qed.
End Near.
