(** Path expansion: unfolding lemmas and what strict mode adds (C09, C25-C27). *)
From Verif Require Import Chars Floats Json Shared Folding EventBuilder Expand DecRel.

Local Open Scope nat_scope.

(** The inner loops as named functions. *)
Fixpoint merge_go (l : nat) (strict : bool) (target source : list (str * node))
  : result (list (str * node)) :=
  match source with
  | [] => Ok target
  | (key, value) :: r =>
      match entry_get target key with
      | None => merge_go l strict (target ++ [(key, value)]) r
      | Some existing =>
          match existing, value with
          | NObj eo eq, NObj so _ =>
              let? m := merge_objects l strict eo so in
              merge_go l strict (entry_set target key (NObj m eq)) r
          | _, _ => if strict then Err (EExpandConflict (CKey key (node_kind existing) (node_kind value)))
                    else merge_go l strict (entry_set target key value) r
          end
      end
  end.

Lemma merge_objects_S l strict target source :
  merge_objects (S l) strict target source = merge_go l strict target source.
Proof.
  revert target. induction source as [|[k v] r IH]; intros target; [reflexivity|].
  cbn [merge_objects merge_go].
  destruct (entry_get target k) as [[| |eo eq]|]; try (destruct strict; [reflexivity|]; apply IH).
  - destruct v; try (destruct strict; [reflexivity|]; apply IH).
    destruct (merge_objects l strict eo entries); [|reflexivity]. cbn [bind]. apply IH.
  - apply IH.
Qed.

Definition insert_entry (l : nat) (strict : bool) (quoted : list str) (acc : list (str * node))
  (key : str) (v : node) : result (list (str * node)) :=
  if expandable key quoted then insert_path_entries l strict acc (split_on cDOT key) v
  else insert_literal_entry l strict acc key v.

Fixpoint expand_go (l : nat) (strict : bool) (quoted : list str) (acc entries : list (str * node))
  : result (list (str * node)) :=
  match entries with
  | [] => Ok acc
  | (key, value) :: r =>
      let? v := expand_inner l strict value in
      let? acc' := insert_entry l strict quoted acc key v in
      expand_go l strict quoted acc' r
  end.

Lemma expand_obj l strict entries quoted :
  expand_inner (S (S l)) strict (NObj entries quoted) =
  let? es := expand_go l strict quoted [] entries in Ok (NObj es []).
Proof.
  assert (H : forall acc,
    (fix go (acc entries : list (str * node)) : result (list (str * node)) :=
       match entries with
       | [] => Ok acc
       | (key, value) :: r =>
           let? v := expand_inner l strict value in
           let? acc' :=
             (if expandable key quoted
              then insert_path_entries l strict acc (split_on cDOT key) v
              else insert_literal_entry l strict acc key v) in
           go acc' r
       end) acc entries = expand_go l strict quoted acc entries).
  { induction entries as [|[k v] r IH]; intros acc; [reflexivity|]. cbn [expand_go].
    destruct (expand_inner l strict v); [|reflexivity]. cbn [bind]. unfold insert_entry.
    destruct (if expandable k quoted then _ else _); [|reflexivity]. cbn [bind]. apply IH. }
  cbn [expand_inner]. rewrite H. reflexivity.
Qed.
Lemma expand_arr l strict items :
  expand_inner (S l) strict (NArr items) =
  let? xs := map_result (expand_inner l strict) items in Ok (NArr xs).
Proof. reflexivity. Qed.

(** * Strict success implies the same lenient result *)

Lemma merge_go_relax l :
  (forall t s m, merge_objects l true t s = Ok m -> merge_objects l false t s = Ok m) ->
  forall s t m, merge_go l true t s = Ok m -> merge_go l false t s = Ok m.
Proof.
  intros IHl. induction s as [|[k v] r IH]; intros t m H; cbn [merge_go] in *; auto.
  destruct (entry_get t k) as [[p|items|eo eq]|]; try discriminate; auto.
  destruct v as [p|items|so sq]; try discriminate.
  inv_bind H. apply IHl in E. rewrite E. cbn [bind]. auto.
Qed.

Lemma merge_relax l : forall t s m, merge_objects l true t s = Ok m -> merge_objects l false t s = Ok m.
Proof.
  induction l as [|l IH]; intros t s m H; [discriminate|]. rewrite merge_objects_S in *.
  apply merge_go_relax; auto.
Qed.

Lemma insert_literal_relax l t k v m :
  insert_literal_entry l true t k v = Ok m -> insert_literal_entry l false t k v = Ok m.
Proof.
  destruct l as [|l]; [discriminate|]. cbn [insert_literal_entry].
  destruct (entry_get t k) as [[p|items|eo eq]|]; try discriminate; auto.
  destruct v; try discriminate. intros H. inv_bind H. apply merge_relax in E. rewrite E. auto.
Qed.

Lemma insert_path_relax l : forall t segs v m,
  insert_path_entries l true t segs v = Ok m -> insert_path_entries l false t segs v = Ok m.
Proof.
  induction l as [|l IH]; intros t segs v m H; [discriminate|]. cbn [insert_path_entries] in *.
  destruct segs as [|k [|k' rest]]; auto using insert_literal_relax.
  destruct (entry_get t k) as [[p|items|eo eq]|]; try discriminate; inv_bind H;
    apply IH in E; rewrite E; auto.
Qed.

Lemma expand_relax n : forall l, l <= n -> forall v w,
  expand_inner l true v = Ok w -> expand_inner l false v = Ok w.
Proof.
  induction n as [|n IH]; intros l Hl v w H.
  { destruct l; [discriminate|lia]. }
  destruct l as [|l]; [discriminate|]. destruct v as [p|items|entries quoted]; [exact H| |].
  - rewrite expand_arr in *. inv_bind H. injection H as <-.
    assert (E' : map_result (expand_inner l false) items = Ok a).
    { revert a E. induction items as [|x r IHr]; intros a E; cbn [map_result] in *; auto.
      inv_bind E. injection E as <-. rewrite (IH l ltac:(lia) _ _ E0). cbn [bind].
      rewrite (IHr _ eq_refl). reflexivity. }
    rewrite E'. reflexivity.
  - destruct l as [|l]; [discriminate|]. rewrite expand_obj in *. inv_bind H. injection H as <-.
    assert (E' : expand_go l false quoted [] entries = Ok a).
    { revert E. generalize (@nil (str * node)).
      induction entries as [|[k x] r IHr]; intros acc E; cbn [expand_go] in *; auto.
      inv_bind E. rewrite (IH l ltac:(lia) _ _ E0). cbn [bind].
      assert (E2 : insert_entry l false quoted acc k a0 = Ok a1).
      { unfold insert_entry in *. destruct (expandable k quoted);
          auto using insert_path_relax, insert_literal_relax. }
      rewrite E2. cbn [bind]. now apply IHr. }
    rewrite E'. reflexivity.
Qed.

Lemma nf_expand_merge strict l : forall t s, nofuel (merge_objects l strict t s).
Proof.
  induction l as [|l IH]; intros t s; [unfold nofuel; discriminate|]. rewrite merge_objects_S.
  revert t. induction s as [|[k v] r IHs]; intros t; cbn [merge_go]; nf.
Qed.
Lemma nf_insert_literal strict l t k v : nofuel (insert_literal_entry l strict t k v).
Proof.
  destruct l; cbn [insert_literal_entry]; [unfold nofuel; discriminate|].
  pose proof nf_expand_merge. nf.
Qed.
Lemma nf_insert_path strict l : forall t segs v, nofuel (insert_path_entries l strict t segs v).
Proof.
  induction l as [|l IH]; intros t segs v; cbn [insert_path_entries]; [unfold nofuel; discriminate|].
  pose proof nf_insert_literal. nf.
Qed.
Lemma nf_expand strict n : forall l, l <= n -> forall v, nofuel (expand_inner l strict v).
Proof.
  induction n as [|n IH]; intros l Hl v.
  { destruct l; [unfold nofuel; discriminate|lia]. }
  destruct l as [|l]; [unfold nofuel; discriminate|].
  destruct v as [p|items|entries quoted]; [apply nofuel_ok| |].
  - rewrite expand_arr. apply nofuel_bind; [|intros; apply nofuel_ok].
    induction items as [|x r IHr]; cbn [map_result]; [apply nofuel_ok|].
    apply nofuel_bind; [apply IH; lia|]. intros. apply nofuel_bind; auto. intros. apply nofuel_ok.
  - destruct l as [|l]; [unfold nofuel; discriminate|]. rewrite expand_obj.
    apply nofuel_bind; [|intros; apply nofuel_ok]. generalize (@nil (str * node)).
    induction entries as [|[k x] r IHr]; intros acc; cbn [expand_go]; [apply nofuel_ok|].
    apply nofuel_bind; [apply IH; lia|]. intros. apply nofuel_bind; auto.
    unfold insert_entry. destruct (expandable k quoted); auto using nf_insert_path, nf_insert_literal.
Qed.

Lemma expand_safe_relax v w : expand_paths_safe v true = Ok w -> expand_paths_safe v false = Ok w.
Proof. unfold expand_paths_safe. apply (expand_relax MAX_EXPAND_DEPTH). apply Nat.le_refl. Qed.
Lemma nf_expand_safe strict v : nofuel (expand_paths_safe v strict).
Proof. unfold expand_paths_safe. apply (nf_expand _ MAX_EXPAND_DEPTH). apply Nat.le_refl. Qed.
