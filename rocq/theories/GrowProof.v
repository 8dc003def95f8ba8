(** Size and nesting under path expansion. *)
From Coq Require Import Psatz.
From Verif Require Import Chars Floats Json JsonInd Shared Folding EventBuilder Expand SpecReplace SpecGrow Lex.

Local Open Scope nat_scope.

(** * Lists of numbers *)
Lemma sum_app a b : list_sum (a ++ b) = list_sum a + list_sum b.
Proof. apply list_sum_app. Qed.
Lemma max_app a b : list_max (a ++ b) = Nat.max (list_max a) (list_max b).
Proof. apply list_max_app. Qed.

(** * Splitting *)
Lemma split_length c s : length (split_on c s) = S (count_occ N.eq_dec s c).
Proof.
  induction s as [|x s IH]; [reflexivity|]. cbn [split_on count_occ].
  destruct (N.eqb_spec x c) as [->|Hn].
  - destruct (N.eq_dec c c) as [_|K]; [|congruence]. cbn [length]. now rewrite IH.
  - destruct (N.eq_dec x c) as [K|_]; [congruence|]. destruct (split_on c s) as [|y r]; [discriminate IH|]. exact IH.
Qed.
Lemma split_chars c s : list_sum (map (@length char) (split_on c s)) + count_occ N.eq_dec s c = length s.
Proof.
  induction s as [|x s IH]; [reflexivity|]. cbn [split_on count_occ length].
  destruct (N.eqb_spec x c) as [->|Hn].
  - destruct (N.eq_dec c c) as [_|K]; [|congruence]. cbn [map list_sum fold_right length]. unfold list_sum in *. lia.
  - destruct (N.eq_dec x c) as [K|_]; [congruence|]. pose proof (split_length c s) as L. destruct (split_on c s) as [|y r]; [discriminate L|].
    cbn [map list_sum fold_right length] in *. unfold list_sum in *. lia.
Qed.

(** * Size of nodes, with a weight for keys *)
Section Size.
Variable f : str -> nat.
Fixpoint nsize (n : node) : nat :=
  match n with
  | NPrim _ => 1
  | NArr l => S (list_sum (map nsize l))
  | NObj l _ => S (list_sum (map (fun kv => f (fst kv) + nsize (snd kv)) l))
  end.
Definition esize (l : list (str * node)) : nat := list_sum (map (fun kv => f (fst kv) + nsize (snd kv)) l).
Lemma esize_app a b : esize (a ++ b) = esize a + esize b.
Proof. unfold esize. now rewrite map_app, sum_app. Qed.
Lemma esize_cons k v l : esize ((k, v) :: l) = f k + nsize v + esize l.
Proof. reflexivity. Qed.
Lemma esize_one k v : esize [(k, v)] = f k + nsize v.
Proof. rewrite esize_cons. cbn. lia. Qed.
Lemma nsize_obj l q : nsize (NObj l q) = S (esize l).
Proof. reflexivity. Qed.
Lemma nsize_pos n : 1 <= nsize n.
Proof. destruct n; cbn [nsize]; lia. Qed.

Lemma esize_set l k x v : entry_get l k = Some x -> esize (entry_set l k v) + nsize x = esize l + nsize v.
Proof.
  induction l as [|[k' w] l IH]; cbn [entry_get entry_set]; [discriminate|]. destruct (str_eqb k' k).
  - intros H. injection H as ->. rewrite !esize_cons. lia.
  - intros H. specialize (IH H). rewrite !esize_cons. lia.
Qed.

Lemma merge_size n : forall strict t s m, merge_objects n strict t s = Ok m -> esize m <= esize t + esize s.
Proof.
  induction n as [|n IH]; intros strict t s m H; [discriminate|]. cbn [merge_objects] in H. revert t H.
  induction s as [|[k v] s IHs]; intros t H; [injection H as <-; lia|]. rewrite esize_cons.
  destruct (entry_get t k) as [x|] eqn:G.
  - assert (P : forall v', nsize v' <= nsize x + nsize v -> esize (entry_set t k v') <= esize t + nsize v)
      by (intros v' L; pose proof (esize_set t k x v' G); lia).
    destruct x as [px|lx|eo eq]; try (destruct strict; [discriminate|]; apply IHs in H; specialize (P v ltac:(lia)); lia).
    destruct v as [pv|lv|so sq]; try (destruct strict; [discriminate|]; apply IHs in H; specialize (P _ (Nat.le_add_l _ _)); lia).
    destruct (merge_objects n strict eo so) as [m'|] eqn:M; [|discriminate]. cbn [bind] in H. apply IHs in H. apply IH in M.
    specialize (P (NObj m' eq)). rewrite !nsize_obj in P. specialize (P ltac:(lia)). rewrite nsize_obj. lia.
  - apply IHs in H. rewrite esize_app, esize_one in H. lia.
Qed.
Lemma literal_size n strict e k v m : insert_literal_entry n strict e k v = Ok m -> esize m <= esize e + f k + nsize v.
Proof.
  destruct n as [|n]; [discriminate|]. cbn [insert_literal_entry]. destruct (entry_get e k) as [x|] eqn:G.
  - intros H. assert (P : forall v', nsize v' <= nsize x + nsize v -> esize (entry_set e k v') <= esize e + nsize v)
      by (intros v' L; pose proof (esize_set e k x v' G); lia).
    assert (D : (if strict then Err (EExpandConflict (CKey k (node_kind x) (node_kind v))) else Ok (entry_set e k v)) = Ok m ->
                esize m <= esize e + f k + nsize v).
    { destruct strict; [discriminate|]. intros E. injection E as <-. specialize (P v ltac:(lia)). lia. }
    destruct x as [px|lx|eo eq]; try (exact (D H)). destruct v as [pv|lv|so sq]; try (exact (D H)).
    destruct (merge_objects n strict eo so) as [m'|] eqn:M; [|discriminate]. cbn [bind] in H. injection H as <-. apply merge_size in M.
    specialize (P (NObj m' eq)). rewrite !nsize_obj in *. specialize (P ltac:(lia)). lia.
  - intros H. injection H as <-. rewrite esize_app, esize_one. lia.
Qed.
Lemma path_size n : forall strict e segs v m, insert_path_entries n strict e segs v = Ok m ->
  esize m <= esize e + list_sum (map f segs) + (length segs - 1) + nsize v.
Proof.
  induction n as [|n IH]; intros strict e segs v m H; [discriminate|]. cbn [insert_path_entries] in H.
  destruct segs as [|k segs]; [injection H as <-; lia|]. destruct segs as [|k2 segs].
  { apply literal_size in H. cbn. lia. }
  set (rest := k2 :: segs) in *. assert (L : length (k :: rest) - 1 = S (length rest - 1)) by (cbn; lia). rewrite L.
  change (list_sum (map f (k :: rest))) with (f k + list_sum (map f rest)).
  destruct (entry_get e k) as [x|] eqn:G.
  - assert (D : forall r, (if strict then Err (EExpandConflict (CSegment k (node_kind x))) else r) = Ok m -> r = Ok m) by (destruct strict; [discriminate|auto]).
    assert (P : forall m' q, esize (entry_set e k (NObj m' q)) + nsize x = esize e + S (esize m'))
      by (intros m' q; pose proof (esize_set e k x (NObj m' q) G) as E; now rewrite nsize_obj in E).
    pose proof (nsize_pos x).
    destruct x as [px|lx|eo eq]; try (apply D in H);
      (destruct (insert_path_entries n strict _ rest v) as [m'|] eqn:M; [|discriminate]); cbn [bind] in H; injection H as <-; apply IH in M.
    + specialize (P m' []). change (esize []) with 0 in M. lia.
    + specialize (P m' []). change (esize []) with 0 in M. lia.
    + specialize (P m' eq). rewrite nsize_obj in P. lia.
  - destruct (insert_path_entries n strict [] rest v) as [m'|] eqn:M; [|discriminate]. cbn [bind] in H. injection H as <-. apply IH in M.
    rewrite esize_app, esize_one, nsize_obj. change (esize []) with 0 in M. lia.
Qed.
End Size.

(** The weight [g] of a whole key pays for the weight [f] of its segments and for the objects between them. *)
Lemma expand_size (f g : str -> nat) :
  (forall k, f k <= g k) -> (forall k, list_sum (map f (split_on cDOT k)) + count_occ N.eq_dec k cDOT <= g k) ->
  forall n strict v w, expand_inner n strict v = Ok w -> nsize f w <= nsize g v.
Proof.
  intros H1 H2 n. induction n as [n IH] using lt_wf_ind. intros strict v w H. destruct n as [|n]; [discriminate|].
  cbn [expand_inner] in H. destruct v as [p|l|l q].
  - injection H as <-. cbn. lia.
  - destruct (map_result _ l) as [xs|] eqn:M; [|discriminate]. cbn [bind] in H. injection H as <-. cbn [nsize]. apply le_n_S.
    revert xs M. induction l as [|x l IHl]; intros xs M; cbn [map_result] in M.
    { injection M as <-. cbn. lia. }
    destruct (expand_inner n strict x) as [y|] eqn:E; [|discriminate]. cbn [bind] in M.
    destruct (map_result _ l) as [ys|]; [|discriminate]. cbn [bind] in M. injection M as <-. specialize (IHl ys eq_refl).
    apply IH in E; [|lia]. unfold list_sum in *. cbn [map fold_right]. lia.
  - destruct n as [|n]; [discriminate|].
    match type of H with context [?F [] l] => set (go := F) in H end.
    assert (G : forall l acc es, go acc l = Ok es -> esize f es <= esize f acc + esize g l).
    { clear H l w. induction l as [|[k x] l IHl]; intros acc es H; cbn in H.
      { injection H as <-. cbn. lia. }
      destruct (expand_inner n strict x) as [y|] eqn:E; [|discriminate]. cbn [bind] in H. apply IH in E; [|lia].
      match type of H with bind ?r _ = _ => destruct r as [acc'|] eqn:I; [|discriminate] end. cbn [bind] in H. apply IHl in H.
      assert (A : esize f acc' <= esize f acc + g k + nsize f y).
      { destruct (expandable k q).
        - apply (path_size f) in I. specialize (H2 k). rewrite split_length in I. lia.
        - apply (literal_size f) in I. specialize (H1 k). lia. }
      rewrite (esize_cons g). lia. }
    destruct (go [] l) as [es|] eqn:E; [|discriminate]. cbn [bind] in H. injection H as <-. apply G in E.
    rewrite !nsize_obj. change (esize f []) with 0 in E. lia.
Qed.

(** * Nesting of nodes *)
Fixpoint nnest (n : node) : nat :=
  match n with
  | NPrim _ => 0
  | NArr l => S (list_max (map nnest l))
  | NObj l _ => S (list_max (map (fun kv => nnest (snd kv)) l))
  end.
Definition emax (l : list (str * node)) : nat := list_max (map (fun kv => nnest (snd kv)) l).
Lemma emax_app a b : emax (a ++ b) = Nat.max (emax a) (emax b).
Proof. unfold emax. now rewrite map_app, max_app. Qed.
Lemma emax_cons k v l : emax ((k, v) :: l) = Nat.max (nnest v) (emax l).
Proof. reflexivity. Qed.
Lemma emax_one k v : emax [(k, v)] = nnest v.
Proof. rewrite emax_cons. cbn. lia. Qed.
Lemma nnest_obj l q : nnest (NObj l q) = S (emax l).
Proof. reflexivity. Qed.
Lemma emax_get l k x : entry_get l k = Some x -> nnest x <= emax l.
Proof.
  induction l as [|[k' w] l IH]; cbn [entry_get]; [discriminate|]. rewrite emax_cons. destruct (str_eqb k' k); intros H.
  - injection H as ->. lia.
  - specialize (IH H). lia.
Qed.
Lemma emax_set l k v : emax (entry_set l k v) <= Nat.max (emax l) (nnest v).
Proof.
  induction l as [|[k' w] l IH]; cbn [entry_set]; [cbn; lia|]. destruct (str_eqb k' k); rewrite !emax_cons; lia.
Qed.
Lemma merge_nest n : forall strict t s m, merge_objects n strict t s = Ok m -> emax m <= Nat.max (emax t) (emax s).
Proof.
  induction n as [|n IH]; intros strict t s m H; [discriminate|]. cbn [merge_objects] in H. revert t H.
  induction s as [|[k v] s IHs]; intros t H; [injection H as <-; lia|]. rewrite emax_cons.
  destruct (entry_get t k) as [x|] eqn:G.
  - pose proof (emax_get t k x G) as Gx. pose proof (emax_set t k) as P.
    destruct x as [px|lx|eo eq]; try (destruct strict; [discriminate|]; apply IHs in H; specialize (P v); lia).
    destruct v as [pv|lv|so sq]; try (destruct strict; [discriminate|]; apply IHs in H;
      match type of H with context [entry_set t k ?v] => specialize (P v) end; lia).
    destruct (merge_objects n strict eo so) as [m'|] eqn:M; [|discriminate]. cbn [bind] in H. apply IHs in H. apply IH in M.
    specialize (P (NObj m' eq)). rewrite !nnest_obj in *. lia.
  - apply IHs in H. rewrite emax_app, emax_one in H. lia.
Qed.
Lemma literal_nest n strict e k v m : insert_literal_entry n strict e k v = Ok m -> emax m <= Nat.max (emax e) (nnest v) /\ 1 <= n.
Proof.
  destruct n as [|n]; [discriminate|]. cbn [insert_literal_entry]. intros H. split; [|lia].
  destruct (entry_get e k) as [x|] eqn:G.
  - pose proof (emax_get e k x G) as Gx. pose proof (emax_set e k) as P.
    assert (D : (if strict then Err (EExpandConflict (CKey k (node_kind x) (node_kind v))) else Ok (entry_set e k v)) = Ok m ->
                emax m <= Nat.max (emax e) (nnest v)).
    { destruct strict; [discriminate|]. intros E. injection E as <-. apply P. }
    destruct x as [px|lx|eo eq]; try (exact (D H)). destruct v as [pv|lv|so sq]; try (exact (D H)).
    destruct (merge_objects n strict eo so) as [m'|] eqn:M; [|discriminate]. cbn [bind] in H. injection H as <-. apply merge_nest in M.
    specialize (P (NObj m' eq)). rewrite !nnest_obj in *. lia.
  - injection H as <-. rewrite emax_app, emax_one. lia.
Qed.
Lemma path_nest n : forall strict e segs v m, insert_path_entries n strict e segs v = Ok m -> segs <> [] ->
  emax m <= Nat.max (emax e) (length segs - 1 + nnest v) /\ length segs < n.
Proof.
  induction n as [|n IH]; intros strict e segs v m H Hs; [discriminate|]. cbn [insert_path_entries] in H.
  destruct segs as [|k segs]; [congruence|]. destruct segs as [|k2 segs].
  { apply literal_nest in H. cbn [length]. lia. }
  set (rest := k2 :: segs) in *. assert (Hr : rest <> []) by discriminate. assert (L : length (k :: rest) = S (length rest)) by reflexivity.
  assert (L1 : 1 <= length rest) by (cbn; lia). rewrite L. clearbody rest.
  destruct (entry_get e k) as [x|] eqn:G.
  - pose proof (emax_get e k x G) as Gx. pose proof (emax_set e k) as P.
    assert (D : forall r, (if strict then Err (EExpandConflict (CSegment k (node_kind x))) else r) = Ok m -> r = Ok m) by (destruct strict; [discriminate|auto]).
    destruct x as [px|lx|eo eq]; try (apply D in H);
      (destruct (insert_path_entries n strict _ rest v) as [m'|] eqn:M; [|destruct rest; discriminate]);
      (assert (E : exists q, m = entry_set e k (NObj m' q)) by (destruct rest; [congruence|]; cbn [bind] in H; injection H as <-; eauto));
      destruct E as [q ->]; apply IH in M; auto; destruct M as [M1 M2]; specialize (P (NObj m' q)); rewrite !nnest_obj in *;
      try change (emax []) with 0 in M1; lia.
  - destruct (insert_path_entries n strict [] rest v) as [m'|] eqn:M; [|destruct rest; discriminate].
    assert (E : m = e ++ [(k, NObj m' [])]) by (destruct rest; [congruence|]; cbn [bind] in H; now injection H as <-). subst m.
    apply IH in M; auto. destruct M as [M1 M2]. rewrite emax_app, emax_one, nnest_obj. change (emax []) with 0 in M1. lia.
Qed.

(** How deep a value can be that is expanded with [n] levels left. *)
Fixpoint deepest (n : nat) : nat :=
  match n with
  | O => 0
  | S m => match m with
           | O => 1
           | S l => Nat.max (S (deepest m)) (Nat.max (l - 1) 1 + deepest l)
           end
  end.
Lemma deepest_step n : deepest (S (S n)) = Nat.max (S (deepest (S n))) (Nat.max (n - 1) 1 + deepest n).
Proof. reflexivity. Qed.

Fixpoint nreach (n : node) : nat :=
  match n with
  | NPrim _ => 0
  | NArr l => S (list_max (map nreach l))
  | NObj l _ => S (list_max (map (fun kv => count_occ N.eq_dec (fst kv) cDOT + nreach (snd kv)) l))
  end.
Definition ereach (l : list (str * node)) : nat := list_max (map (fun kv => count_occ N.eq_dec (fst kv) cDOT + nreach (snd kv)) l).

Lemma expand_nest n : forall strict v w, expand_inner n strict v = Ok w -> nnest w <= nreach v /\ nnest w <= deepest n.
Proof.
  induction n as [n IH] using lt_wf_ind. intros strict v w H. destruct n as [|n]; [discriminate|].
  cbn [expand_inner] in H. destruct v as [p|l|l q].
  - injection H as <-. cbn [nnest]. lia.
  - destruct (map_result _ l) as [xs|] eqn:M; [|discriminate]. cbn [bind] in H. injection H as <-. cbn [nnest nreach].
    assert (A : list_max (map nnest xs) <= list_max (map nreach l) /\ list_max (map nnest xs) <= deepest n /\ (xs = [] \/ 1 <= n)).
    { revert xs M. induction l as [|x l IHl]; intros xs M; cbn [map_result] in M.
      { injection M as <-. cbn. split; [lia|]. split; [lia|auto]. }
      destruct (expand_inner n strict x) as [y|] eqn:E; [|discriminate]. cbn [bind] in M.
      destruct (map_result _ l) as [ys|]; [|discriminate]. cbn [bind] in M. injection M as <-. specialize (IHl ys eq_refl) as (I1 & I2 & _).
      assert (1 <= n) by (destruct n; [discriminate|lia]).
      apply IH in E; [|lia]. unfold list_max in *. cbn [map fold_right]. lia. }
    destruct A as (A1 & A2 & A3). split; [lia|]. destruct n as [|n]; [|rewrite deepest_step; lia].
    destruct A3 as [->|A3]; [cbn; lia|lia].
  - destruct n as [|n]; [discriminate|].
    match type of H with context [?F [] l] => set (go := F) in H end.
    assert (G : forall l acc es, go acc l = Ok es ->
      emax es <= Nat.max (emax acc) (ereach l) /\
      S (emax es) <= Nat.max (S (emax acc)) (Nat.max (n - 1) 1 + deepest n)).
    { clear H l w. induction l as [|[k x] l IHl]; intros acc es H; cbn in H.
      { injection H as <-. lia. }
      destruct (expand_inner n strict x) as [y|] eqn:E; [|discriminate]. cbn [bind] in H. apply IH in E; [|lia].
      match type of H with bind ?r _ = _ => destruct r as [acc'|] eqn:I; [|discriminate] end. cbn [bind] in H. apply IHl in H.
      assert (A : emax acc' <= Nat.max (emax acc) (count_occ N.eq_dec k cDOT + nnest y) /\
                  S (emax acc') <= Nat.max (S (emax acc)) (Nat.max (n - 1) 1 + nnest y)).
      { destruct (expandable k q).
        - apply path_nest in I; [|intros Z; pose proof (split_length cDOT k) as L; rewrite Z in L; discriminate L].
          rewrite split_length in I. lia.
        - apply literal_nest in I. lia. }
      change (ereach ((k, x) :: l)) with (Nat.max (count_occ N.eq_dec k cDOT + nreach x) (ereach l)). lia. }
    destruct (go [] l) as [es|] eqn:E; [|discriminate]. cbn [bind] in H. injection H as <-. apply G in E.
    change (emax []) with 0 in E. rewrite nnest_obj. change (nreach (NObj l q)) with (S (ereach l)). rewrite deepest_step. lia.
Qed.

Lemma deepest_bound n : 4 * deepest n <= (n - 2) * (n - 2) + 12.
Proof.
  induction n as [n IH] using lt_wf_ind. destruct n as [|[|n]]; [cbn; lia|cbn; lia|].
  destruct (Nat.le_gt_cases n 3) as [L|L]; [destruct n as [|[|[|[|]]]]; cbn; lia|].
  rewrite deepest_step. pose proof (IH (S n) ltac:(lia)) as I1. pose proof (IH n ltac:(lia)) as I2.
  replace (S (S n) - 2) with n by lia. replace (S n - 2) with (n - 1) in I1 by lia.
  destruct (Nat.max_spec (S (deepest (S n))) (Nat.max (n - 1) 1 + deepest n)) as [[_ ->]|[_ ->]].
  - replace (Nat.max (n - 1) 1) with (n - 1) by lia. assert (E : exists m, n = m + 2) by (exists (n - 2); lia). destruct E as [m ->].
    replace (m + 2 - 2) with m in * by lia. replace (m + 2 - 1) with (m + 1) in * by lia. nia.
  - assert (E : exists m, n = m + 2) by (exists (n - 2); lia). destruct E as [m ->].
    replace (m + 2 - 1) with (m + 1) in * by lia. nia.
Qed.

(** * Nodes and values *)
Lemma nnest_json n : nesting (node_to_json n) = nnest n.
Proof.
  revert n. fix IH 1. intros [p|l|l q]; cbn [node_to_json nesting nnest]; [reflexivity| |]; f_equal; f_equal; rewrite map_map.
  - induction l as [|x l IHl]; [reflexivity|]. cbn [map]. now rewrite IH, IHl.
  - induction l as [|[k x] l IHl]; [reflexivity|]. cbn [map]. f_equal; [exact (IH x)|exact IHl].
Qed.
Lemma nreach_json n : reach (node_to_json n) = nreach n.
Proof.
  revert n. fix IH 1. intros [p|l|l q]; cbn [node_to_json reach nreach]; [reflexivity| |]; f_equal; f_equal; rewrite map_map.
  - induction l as [|x l IHl]; [reflexivity|]. cbn [map]. now rewrite IH, IHl.
  - induction l as [|[k x] l IHl]; [reflexivity|]. cbn [map]. f_equal; [cbn [fst snd]; f_equal; exact (IH x)|exact IHl].
Qed.
Lemma nsize_json f n : nsize f n = places (node_to_json n) + list_sum (map f (all_keys (node_to_json n))).
Proof.
  revert n. fix IH 1. intros [p|l|l q]; cbn [node_to_json places all_keys nsize]; [reflexivity| |]; cbn [Nat.add]; f_equal.
  - induction l as [|x l IHl]; [reflexivity|]. cbn [map flat_map]. rewrite map_app, sum_app.
    change (list_sum (nsize f x :: map (nsize f) l)) with (nsize f x + list_sum (map (nsize f) l)).
    change (list_sum (places (node_to_json x) :: map places (map node_to_json l))) with (places (node_to_json x) + list_sum (map places (map node_to_json l))).
    rewrite IHl, IH. lia.
  - assert (Z : forall ks u, fold_right Nat.add u (map f ks) = fold_right Nat.add 0 (map f ks) + u)
      by (induction ks as [|k' ks IHk]; intros u; cbn [map fold_right]; [reflexivity|rewrite IHk; lia]).
    induction l as [|[k x] l IHl]; [reflexivity|]. cbn [map flat_map fst snd].
    rewrite <- app_comm_cons. cbn [map]. rewrite map_app.
    unfold list_sum in *. cbn [fold_right]. rewrite fold_right_app, Z, IHl, IH. cbn [fst snd]. lia.
Qed.
