(** Path expansion: unique keys, nothing lost, identity without dotted keys (C25-C27). *)
From Verif Require Import Chars Floats Json JsonInd Shared EncodeApi Folding EventBuilder Expand DecRel Lex NumProof
  Spec DecProps ExpandProof.
From Coq Require Import Permutation.

Local Open Scope nat_scope.

Section NodeInd.
Variable P : node -> Prop.
Hypothesis Hp : forall p, P (NPrim p).
Hypothesis Ha : forall l, Forall P l -> P (NArr l).
Hypothesis Ho : forall l q, Forall (fun kv => P (snd kv)) l -> P (NObj l q).
Fixpoint node_ind' (v : node) : P v :=
  match v with
  | NPrim p => Hp p
  | NArr l => Ha l ((fix go l := match l return Forall P l with
                                 | [] => Forall_nil _
                                 | x :: r => Forall_cons _ (node_ind' x) (go r)
                                 end) l)
  | NObj l q => Ho l q ((fix go l := match l return Forall (fun kv => P (snd kv)) l with
                                 | [] => Forall_nil _
                                 | x :: r => Forall_cons x (node_ind' (snd x)) (go r)
                                 end) l)
  end.
End NodeInd.
Section DocInd.
Variable P : doc -> Prop.
Hypothesis Hp : forall p, P (DPrim p).
Hypothesis Ha : forall l, Forall P l -> P (DArr l).
Hypothesis Ho : forall l, Forall (fun kv => P (snd kv)) l -> P (DObj l).
Fixpoint doc_ind' (v : doc) : P v :=
  match v with
  | DPrim p => Hp p
  | DArr l => Ha l ((fix go l := match l return Forall P l with
                                 | [] => Forall_nil _
                                 | x :: r => Forall_cons _ (doc_ind' x) (go r)
                                 end) l)
  | DObj l => Ho l ((fix go l := match l return Forall (fun kv => P (snd kv)) l with
                                 | [] => Forall_nil _
                                 | x :: r => Forall_cons x (doc_ind' (snd x)) (go r)
                                 end) l)
  end.
End DocInd.

(** ** Entries *)

Lemma entry_get_In es k v : entry_get es k = Some v -> In (k, v) es.
Proof.
  induction es as [|[k' v'] es IH]; cbn; [discriminate|]. destruct (str_eqb k' k) eqn:E; [|auto].
  apply str_eqb_eq in E as ->. intros H. injection H as ->. now left.
Qed.
Lemma entry_get_None es k : entry_get es k = None -> ~ In k (map fst es).
Proof.
  induction es as [|[k' v'] es IH]; cbn; [auto|]. destruct (str_eqb k' k) eqn:E; [discriminate|].
  intros H [->|Hi]; [|now apply IH]. now rewrite str_eqb_refl in E.
Qed.
Lemma entry_get_fresh es k : ~ In k (map fst es) -> entry_get es k = None.
Proof.
  intros H. destruct (entry_get es k) eqn:E; auto. apply entry_get_In in E. exfalso. apply H.
  apply in_map_iff. now exists (k, n).
Qed.
Lemma entry_get_NoDup es k v : NoDup (map fst es) -> In (k, v) es -> entry_get es k = Some v.
Proof.
  induction es as [|[k' v'] es IH]; cbn; [tauto|]. intros Hn [E|Hi]; inversion Hn as [|? ? Hx Hy]; subst.
  - injection E as -> ->. now rewrite str_eqb_refl.
  - destruct (str_eqb k' k) eqn:E; [|auto]. apply str_eqb_eq in E as ->. exfalso. apply Hx.
    apply in_map_iff. now exists (k, v).
Qed.
Lemma entry_set_keys es k v : map fst (entry_set es k v) = map fst es.
Proof.
  induction es as [|[k' v'] es IH]; cbn; auto. destruct (str_eqb k' k); cbn; congruence.
Qed.
Lemma entry_get_set es k v k' e : entry_get es k = Some e ->
  entry_get (entry_set es k v) k' = if str_eqb k k' then Some v else entry_get es k'.
Proof.
  induction es as [|[a b] es IH]; cbn; [discriminate|]. destruct (str_eqb a k) eqn:E.
  - intros _. apply str_eqb_eq in E as ->. cbn. destruct (str_eqb k k'); auto.
  - intros H. cbn. destruct (str_eqb a k') eqn:E'; [|auto].
    apply str_eqb_eq in E' as ->. destruct (str_eqb k k') eqn:E''; auto.
    apply str_eqb_eq in E'' as ->. now rewrite str_eqb_refl in E.
Qed.
Lemma entry_get_app es k v k' : entry_get es k = None ->
  entry_get (es ++ [(k, v)]) k' = if str_eqb k k' then Some v else entry_get es k'.
Proof.
  intros H. induction es as [|[a b] es IH]; cbn; auto. cbn in H. destruct (str_eqb a k) eqn:E; [discriminate|].
  destruct (str_eqb a k') eqn:E'; [|auto].
  apply str_eqb_eq in E' as ->. destruct (str_eqb k k') eqn:E''; auto.
  apply str_eqb_eq in E'' as ->. now rewrite str_eqb_refl in E.
Qed.
Lemma entry_set_In es k v kv : In kv (entry_set es k v) -> kv = (k, v) \/ In kv es.
Proof.
  induction es as [|[a b] es IH]; cbn; auto. destruct (str_eqb a k) eqn:E.
  - apply str_eqb_eq in E as ->. intros [<-|H]; auto.
  - intros [<-|H]; auto. destruct (IH H); auto.
Qed.

(** ** Unique keys *)

Definition tojson (es : list (str * node)) : list (str * json) :=
  map (fun kv => (fst kv, node_to_json (snd kv))) es.
Lemma tojson_keys es : map fst (tojson es) = map fst es.
Proof. unfold tojson. rewrite map_map. apply map_ext. auto. Qed.

Definition uniq (n : node) : Prop := distinct_keys (node_to_json n).
Definition uniq_es (es : list (str * node)) : Prop :=
  NoDup (map fst es) /\ Forall (fun kv => uniq (snd kv)) es.

Lemma uniq_obj es q : uniq (NObj es q) <-> uniq_es es.
Proof.
  unfold uniq, uniq_es. cbn [node_to_json]. split.
  - intros H. inversion H as [| |? H1 H2]; subst. fold (tojson es) in *. rewrite tojson_keys in H1. split; auto.
    unfold tojson in H2. now rewrite Forall_map in H2.
  - intros [H1 H2]. constructor; fold (tojson es); [now rewrite tojson_keys|]. unfold tojson. now rewrite Forall_map.
Qed.

Lemma uniq_app es k v : uniq_es es -> uniq v -> entry_get es k = None -> uniq_es (es ++ [(k, v)]).
Proof.
  intros [H1 H2] Hv Hn. split.
  - rewrite map_app. cbn. apply entry_get_None in Hn.
    apply Permutation_NoDup with (k :: map fst es); [apply Permutation_cons_append|]. now constructor.
  - apply Forall_app. split; auto.
Qed.
Lemma uniq_set es k v : uniq_es es -> uniq v -> uniq_es (entry_set es k v).
Proof.
  intros [H1 H2] Hv. split; [now rewrite entry_set_keys|]. apply Forall_forall. intros kv Hi.
  apply entry_set_In in Hi as [->|Hi]; auto. rewrite Forall_forall in H2. auto.
Qed.
Lemma uniq_get es k v : uniq_es es -> entry_get es k = Some v -> uniq v.
Proof. intros [_ H] E. apply entry_get_In in E. rewrite Forall_forall in H. exact (H _ E). Qed.
Lemma uniq_nil : uniq_es [].
Proof. split; constructor. Qed.

Lemma merge_uniq l : forall strict t s m, merge_objects l strict t s = Ok m -> uniq_es t -> uniq_es s -> uniq_es m.
Proof.
  induction l as [|l IH]; intros strict t s m E Ht Hs; [discriminate|]. rewrite merge_objects_S in E.
  revert t m E Ht. induction s as [|[k v] r IHs]; intros t m E Ht; cbn [merge_go] in E.
  - now injection E as <-.
  - destruct Hs as [Hs1 Hs2]. inversion Hs1; inversion Hs2 as [|? ? Hv Hr]; subst. cbn [snd] in Hv.
    assert (Hs : uniq_es r) by now split. specialize (IHs Hs).
    destruct (entry_get t k) as [[p|items|eo eq]|] eqn:G.
    + destruct strict; [discriminate|]. eapply IHs; eauto. now apply uniq_set.
    + destruct strict; [discriminate|]. eapply IHs; eauto. now apply uniq_set.
    + destruct v as [p|items|so sq]; try (destruct strict; [discriminate|]; eapply IHs; eauto; now apply uniq_set).
      inv_bind E. eapply IHs; eauto. apply uniq_set; auto. apply uniq_obj. apply (IH _ _ _ _ E0).
      * apply (uniq_obj eo eq). eapply uniq_get; [|exact G]; auto.
      * now apply uniq_obj in Hv.
    + eapply IHs; eauto. now apply uniq_app.
Qed.
Lemma insert_literal_uniq l strict es k v m : insert_literal_entry l strict es k v = Ok m ->
  uniq_es es -> uniq v -> uniq_es m.
Proof.
  destruct l as [|l]; [discriminate|]. cbn [insert_literal_entry]. intros E Hes Hv.
  destruct (entry_get es k) as [[p|items|eo eq]|] eqn:G.
  - destruct strict; [discriminate|]. injection E as <-. now apply uniq_set.
  - destruct strict; [discriminate|]. injection E as <-. now apply uniq_set.
  - destruct v as [p|items|so sq]; try (destruct strict; [discriminate|]; injection E as <-; now apply uniq_set).
    inv_bind E. injection E as <-. apply uniq_set; auto. apply uniq_obj. apply (merge_uniq _ _ _ _ _ E0).
    + apply (uniq_obj eo eq). eapply uniq_get; [|exact G]; auto.
    + now apply uniq_obj in Hv.
  - injection E as <-. now apply uniq_app.
Qed.
Lemma insert_path_uniq l : forall strict es segs v m, insert_path_entries l strict es segs v = Ok m ->
  uniq_es es -> uniq v -> uniq_es m.
Proof.
  induction l as [|l IH]; intros strict es segs v m E Hes Hv; [discriminate|]. cbn [insert_path_entries] in E.
  destruct segs as [|k [|k' rest]].
  - now injection E as <-.
  - eapply insert_literal_uniq; eauto.
  - destruct (entry_get es k) as [[p|items|eo eq]|] eqn:G.
    + destruct strict; [discriminate|]. inv_bind E. injection E as <-. apply uniq_set; auto. apply uniq_obj.
      eapply IH; eauto using uniq_nil.
    + destruct strict; [discriminate|]. inv_bind E. injection E as <-. apply uniq_set; auto. apply uniq_obj.
      eapply IH; eauto using uniq_nil.
    + inv_bind E. injection E as <-. apply uniq_set; auto. apply uniq_obj. apply (IH _ _ _ _ _ E0); auto.
      apply (uniq_obj eo eq). eapply uniq_get; [|exact G]; auto.
    + inv_bind E. injection E as <-. apply uniq_app; auto. apply uniq_obj. eapply IH; eauto using uniq_nil.
Qed.

Lemma map_result_Forall2 {A B} (f : A -> result B) l m : map_result f l = Ok m ->
  Forall2 (fun a b => f a = Ok b) l m.
Proof.
  revert m. induction l as [|x l IH]; intros m E; cbn [map_result] in E.
  - injection E as <-. constructor.
  - inv_bind E. injection E as <-. constructor; auto.
Qed.

Lemma expand_uniq n : forall l strict v w, l <= n -> expand_inner l strict v = Ok w -> uniq w.
Proof.
  induction n as [|n IH]; intros l strict v w Hl E; (destruct l as [|l]; [discriminate|]); [lia|].
  destruct v as [p|items|entries quoted].
  - injection E as <-. constructor.
  - rewrite expand_arr in E. inv_bind E. injection E as <-. apply map_result_Forall2 in E0.
    unfold uniq. cbn [node_to_json]. constructor. apply Forall_map.
    induction E0; constructor; auto. eapply (IH l); eauto. lia.
  - destruct l as [|l]; [discriminate|]. rewrite expand_obj in E. inv_bind E. injection E as <-. apply uniq_obj.
    revert E0. pose proof uniq_nil as Hacc. revert Hacc. generalize (@nil (str * node)).
    induction entries as [|[k v] r IHr]; intros acc Hacc E; cbn [expand_go] in E.
    + now injection E as <-.
    + inv_bind E. eapply IHr; [|exact E]. assert (Hv : uniq a0) by (eapply (IH l); eauto; lia).
      unfold insert_entry in E1. destruct (expandable k quoted).
      * eapply insert_path_uniq; eauto.
      * eapply insert_literal_uniq; eauto.
Qed.
Lemma expand_safe_uniq v strict w : expand_paths_safe v strict = Ok w -> distinct_keys (node_to_json w).
Proof. unfold expand_paths_safe. apply (expand_uniq MAX_EXPAND_DEPTH). apply Nat.le_refl. Qed.

(** ** What strict expansion puts where *)

(** What stands at a path: an object, or a value that is none. *)
Definition kind (v : json) : option json := match v with JObj _ => None | _ => Some v end.
Definition hasn (v : node) (p : list str) (x : option json) : Prop :=
  exists y, at_path (node_to_json v) p y /\ x = kind y.
Definition has (es : list (str * node)) (p : list str) (x : option json) : Prop :=
  exists k r v, p = k :: r /\ In (k, v) es /\ hasn v r x.

Lemma hasn_obj es q p x : hasn (NObj es q) p x <-> (p = [] /\ x = None) \/ has es p x.
Proof.
  split.
  - intros (y & H & ->). cbn [node_to_json] in H. inversion H as [|? k z r ? Hi Hz]; subst; [left; auto|].
    right. apply in_map_iff in Hi as ([k' v] & E & Hi). cbn in E. injection E as -> <-.
    exists k, r, v. split; auto. split; auto. now exists y.
  - intros [[-> ->]|(k & r & v & -> & Hi & y & Hy & ->)].
    + exists (node_to_json (NObj es q)). split; [constructor|reflexivity].
    + exists y. split; auto. cbn [node_to_json]. econstructor; [|exact Hy].
      apply in_map_iff. now exists (k, v).
Qed.
Lemma hasn_leaf v p x : (forall es q, v <> NObj es q) -> hasn v p x <-> p = [] /\ x = Some (node_to_json v).
Proof.
  intros Hv. split.
  - intros (y & H & ->). destruct v as [a|l|es q]; [| |now destruct (Hv es q)]; inversion H; subst; auto.
  - intros [-> ->]. exists (node_to_json v). split; [constructor|]. destruct v as [a|l|es q]; auto. now destruct (Hv es q).
Qed.

Lemma has_app es es' p x : has (es ++ es') p x <-> has es p x \/ has es' p x.
Proof.
  unfold has. split.
  - intros (k & r & v & -> & Hi & H). apply in_app_iff in Hi as [Hi|Hi]; [left|right]; eauto 7.
  - intros [(k & r & v & -> & Hi & H)|(k & r & v & -> & Hi & H)]; exists k, r, v; rewrite in_app_iff; auto.
Qed.
Lemma has_one k v p x : has [(k, v)] p x <-> exists r, p = k :: r /\ hasn v r x.
Proof.
  unfold has. split.
  - intros (k' & r & v' & -> & [E|[]] & H). injection E as -> ->. eauto.
  - intros (r & -> & H). exists k, r, v. split; auto. split; auto. now left.
Qed.
Lemma has_cons k v es p x : has ((k, v) :: es) p x <-> (exists r, p = k :: r /\ hasn v r x) \/ has es p x.
Proof. change ((k, v) :: es) with ([(k, v)] ++ es). rewrite has_app, has_one. tauto. Qed.

(** Replacing the entry of a key, when the keys are distinct. *)
Lemma has_set es k v w p x : NoDup (map fst es) -> entry_get es k = Some v ->
  (has (entry_set es k w) p x <->
   (exists r, p = k :: r /\ hasn w r x) \/ (has es p x /\ forall r, p <> k :: r)).
Proof.
  intros Hn Hg. split.
  - intros (k' & r & v' & -> & Hi & H).
    apply entry_get_NoDup in Hi; [|now rewrite entry_set_keys]. rewrite (entry_get_set _ _ _ _ _ Hg) in Hi.
    destruct (str_eqb k k') eqn:E.
    + apply str_eqb_eq in E as ->. injection Hi as ->. left. eauto.
    + right. apply entry_get_In in Hi. split; [exists k', r, v'; auto|]. intros r' E'. injection E' as -> ->.
      now rewrite str_eqb_refl in E.
  - intros [(r & -> & H)|[(k' & r & v' & -> & Hi & H) Hne]].
    + exists k, r, w. split; auto. split; auto. apply entry_get_In. rewrite (entry_get_set _ _ _ _ _ Hg).
      now rewrite str_eqb_refl.
    + exists k', r, v'. split; auto. split; auto. apply entry_get_In. rewrite (entry_get_set _ _ _ _ _ Hg).
      apply entry_get_NoDup in Hi; auto. destruct (str_eqb k k') eqn:E; auto.
      apply str_eqb_eq in E as ->. now destruct (Hne r).
Qed.
Lemma has_get es k v r x : NoDup (map fst es) -> entry_get es k = Some v -> (has es (k :: r) x <-> hasn v r x).
Proof.
  intros Hn Hg. split.
  - intros (k' & r' & v' & E & Hi & H). injection E as <- <-. apply entry_get_NoDup in Hi; auto.
    rewrite Hg in Hi. now injection Hi as ->.
  - intros H. exists k, r, v. split; auto. split; auto. now apply entry_get_In.
Qed.

(** Putting an object that has more in place of an object. *)
Lemma has_grow es k eo eq m q p x (Q : list str -> option json -> Prop) :
  NoDup (map fst es) -> entry_get es k = Some (NObj eo eq) ->
  (forall p x, has m p x <-> has eo p x \/ Q p x) ->
  (has (entry_set es k (NObj m q)) p x <-> has es p x \/ (exists r, p = k :: r /\ Q r x)).
Proof.
  intros Hn Hg Hm. rewrite (has_set _ _ _ _ _ _ Hn Hg). split.
  - intros [(r & -> & H)|[H _]]; [|auto]. rewrite hasn_obj, Hm in H.
    destruct H as [[-> ->]|[H|H]]; [left|left|right; eauto].
    + apply (has_get _ _ _ _ _ Hn Hg). apply hasn_obj. auto.
    + apply (has_get _ _ _ _ _ Hn Hg). apply hasn_obj. auto.
  - intros [H|(r & -> & H)].
    + pose proof H as (k' & r & v' & -> & Hi & H'). destruct (str_eqb k k') eqn:E.
      * apply str_eqb_eq in E as ->. left. exists r. split; auto. apply (has_get _ _ _ _ _ Hn Hg) in H.
        rewrite hasn_obj in *. rewrite Hm. tauto.
      * right. split; auto. intros r' E'. injection E' as -> ->. now rewrite str_eqb_refl in E.
    + left. exists r. split; auto. rewrite hasn_obj, Hm. auto.
Qed.

Fixpoint nweight (n : node) : nat :=
  match n with
  | NPrim _ => 1
  | NArr l => S (list_sum (map nweight l))
  | NObj l _ => list_sum (map (fun kv => nweight (snd kv)) l)
  end.
Definition esweight (es : list (str * node)) : nat := list_sum (map (fun kv => nweight (snd kv)) es).
Lemma nweight_json n : weight (node_to_json n) = nweight n.
Proof.
  induction n using node_ind'; cbn [node_to_json weight nweight]; auto; [f_equal|]; rewrite map_map; f_equal;
    apply map_ext_in; intros a Ha; rewrite Forall_forall in H; [auto|exact (H a Ha)].
Qed.
Lemma esweight_app a b : esweight (a ++ b) = esweight a + esweight b.
Proof. unfold esweight. rewrite map_app. apply list_sum_app. Qed.
Lemma esweight_set es k v w : entry_get es k = Some v -> esweight (entry_set es k w) + nweight v = esweight es + nweight w.
Proof.
  induction es as [|[a b] es IH]; cbn [entry_get entry_set]; [discriminate|]. destruct (str_eqb a k).
  - intros H. injection H as ->. unfold esweight, list_sum. cbn [map fold_right snd]. lia.
  - intros H. specialize (IH H). unfold esweight, list_sum in *. cbn [map fold_right snd]. lia.
Qed.

Lemma esweight_cons k v es : esweight ((k, v) :: es) = nweight v + esweight es.
Proof. reflexivity. Qed.
Lemma nweight_obj es q : nweight (NObj es q) = esweight es.
Proof. reflexivity. Qed.

Lemma merge_strict l : forall t s m, merge_objects l true t s = Ok m -> uniq_es t -> uniq_es s ->
  (forall p x, has m p x <-> has t p x \/ has s p x) /\ esweight m = esweight t + esweight s.
Proof.
  induction l as [|l IH]; intros t s m E Ht Hs; [discriminate|]. rewrite merge_objects_S in E.
  revert t m E Ht. induction s as [|[k v] r IHs]; intros t m E Ht; cbn [merge_go] in E.
  - injection E as <-. split; [|unfold esweight, list_sum; cbn; lia]. intros p x. split; auto. intros [H|H]; auto.
    destruct H as (? & ? & ? & _ & [] & _).
  - destruct Hs as [Hs1 Hs2]. inversion Hs1; inversion Hs2 as [|? ? Hv Hr]; subst. cbn [snd] in Hv.
    assert (Hs : uniq_es r) by now split. specialize (IHs Hs).
    destruct (entry_get t k) as [[p|items|eo eq]|] eqn:G; try discriminate.
    + destruct v as [p|items|so sq]; try discriminate. inv_bind E.
      assert (Ueo : uniq_es eo) by (apply (uniq_obj eo eq); eapply uniq_get; [|exact G]; auto).
      apply uniq_obj in Hv.
      destruct (IH _ _ _ E0 Ueo Hv) as [Hm Wm].
      assert (Um : uniq_es a) by exact (merge_uniq _ _ _ _ _ E0 Ueo Hv).
      assert (Ut : uniq_es (entry_set t k (NObj a eq))) by (apply uniq_set; auto; now apply uniq_obj).
      destruct (IHs _ _ E Ut) as [H W]. split.
      * intros q x. rewrite H, (has_grow _ _ _ _ _ eq q x (has so) (proj1 Ht) G Hm), has_cons.
        split; [intros [[A|(r' & -> & A)]|A]|intros [A|[(r' & -> & A)|A]]]; auto.
        -- right. left. exists r'. split; auto. apply hasn_obj. auto.
        -- apply hasn_obj in A as [[-> ->]|A]; [|left; right; eauto].
           left. left. exists k, [], (NObj eo eq). split; auto. split; [now apply entry_get_In|]. apply hasn_obj. auto.
      * rewrite W. pose proof (esweight_set _ _ _ (NObj a eq) G) as Y. cbn [nweight] in Y. fold (esweight a) in Y. fold (esweight eo) in Y.
        rewrite esweight_cons, nweight_obj. lia.
    + assert (Ut : uniq_es (t ++ [(k, v)])) by now apply uniq_app.
      destruct (IHs _ _ E Ut) as [H W]. split.
      * intros q x. rewrite H, has_app, has_one, has_cons. tauto.
      * rewrite W, esweight_app. unfold esweight, list_sum. cbn [map fold_right snd]. lia.
Qed.

Lemma insert_literal_strict l es k v m : insert_literal_entry l true es k v = Ok m -> uniq_es es -> uniq v ->
  (forall p x, has m p x <-> has es p x \/ exists r, p = k :: r /\ hasn v r x) /\
  esweight m = esweight es + nweight v.
Proof.
  destruct l as [|l]; [discriminate|]. cbn [insert_literal_entry]. intros E Hes Hv.
  destruct (entry_get es k) as [[p|items|eo eq]|] eqn:G; try discriminate.
  - destruct v as [p|items|so sq]; try discriminate. inv_bind E. injection E as <-.
    assert (Ueo : uniq_es eo) by (apply (uniq_obj eo eq); eapply uniq_get; [|exact G]; auto).
    apply uniq_obj in Hv. destruct (merge_strict _ _ _ _ E0 Ueo Hv) as [Hm Wm]. split.
    + intros q x. rewrite (has_grow _ _ _ _ _ eq q x (has so) (proj1 Hes) G Hm).
      split; (intros [A|(r' & -> & A)]; [auto|]).
      * right. exists r'. split; auto. apply hasn_obj. auto.
      * apply hasn_obj in A as [[-> ->]|A]; [|right; eauto].
        left. exists k, [], (NObj eo eq). split; auto. split; [now apply entry_get_In|]. apply hasn_obj. auto.
    + pose proof (esweight_set _ _ _ (NObj a eq) G) as Y. cbn [nweight] in Y. fold (esweight a) in Y. fold (esweight eo) in Y.
      cbn [nweight]. fold (esweight so). lia.
  - injection E as <-. split.
    + intros q x. rewrite has_app, has_one. tauto.
    + rewrite esweight_app. unfold esweight, list_sum. cbn [map fold_right snd]. lia.
Qed.

Lemma insert_path_strict l : forall es segs v m, insert_path_entries l true es segs v = Ok m -> segs <> [] ->
  uniq_es es -> uniq v ->
  (forall p x, has m p x <-> has es p x \/ (exists r, p = segs ++ r /\ hasn v r x) \/
                             (x = None /\ p <> [] /\ exists r, r <> [] /\ segs = p ++ r)) /\
  esweight m = esweight es + nweight v.
Proof.
  induction l as [|l IH]; intros es segs v m E Hne Hes Hv; [discriminate|]. cbn [insert_path_entries] in E.
  destruct segs as [|k [|k' rest]]; [congruence| |].
  - destruct (insert_literal_strict _ _ _ _ _ E Hes Hv) as [H W]. split; auto. intros p x. rewrite H.
    split; [intros [A|(r & -> & A)]; [auto|right; left; exists r; auto]|]. intros [A|[(r & -> & B)|(_ & Hp & r & Hr & B)]]; [auto|right; exists r; auto|].
    destruct p as [|a [|b p]]; [congruence| |discriminate]. injection B as <- B0. congruence.
  - set (segs := k' :: rest) in *.
    assert (Hs : segs <> []) by (unfold segs; discriminate).
    assert (Step : forall p x, (exists r, p = k :: r /\ ((exists r', r = segs ++ r' /\ hasn v r' x) \/
           (x = None /\ r <> [] /\ exists r', r' <> [] /\ segs = r ++ r'))) \/ (p = [k] /\ x = None) <->
        (exists r, p = (k :: segs) ++ r /\ hasn v r x) \/
                             (x = None /\ p <> [] /\ exists r, r <> [] /\ k :: segs = p ++ r)).
    { clear - Hs. intros p x. split.
      - intros [(r & -> & [(r' & -> & A)|(-> & Hr & r' & Hr' & A)])|[-> ->]].
        + left. exists r'. auto.
        + right. split; auto. split; [discriminate|]. exists r'. split; auto. cbn. now rewrite A.
        + right. split; auto. split; [discriminate|]. exists segs. auto.
      - intros [(r & -> & A)|(-> & Hp & r & Hr & A)].
        + left. exists (segs ++ r). split; auto. left. exists r. auto.
        + destruct p as [|a p]; [congruence|]. cbn in A. injection A as <- A0. rename A0 into A.
          destruct p as [|b p]; [right; auto|]. left. exists (b :: p). split; auto. right. split; auto.
          split; [discriminate|]. exists r. auto. }
    destruct (entry_get es k) as [[p|items|eo eq]|] eqn:G; try discriminate; inv_bind E; injection E as <-.
    + assert (Ueo : uniq_es eo) by (apply (uniq_obj eo eq); eapply uniq_get; [|exact G]; auto).
      destruct (IH _ _ _ _ E0 Hs Ueo Hv) as [Hm Wm]. split.
      * intros p x. rewrite <- Step.
        rewrite (has_grow _ _ _ _ _ eq p x _ (proj1 Hes) G Hm). split; [intros [A|A]; auto|].
        intros [A|[A|[-> ->]]]; auto. left.
        exists k, [], (NObj eo eq). split; auto. split; [now apply entry_get_In|]. apply hasn_obj. auto.
      * pose proof (esweight_set _ _ _ (NObj a eq) G) as Y. cbn [nweight] in Y. fold (esweight a) in Y. fold (esweight eo) in Y. lia.
    + destruct (IH _ _ _ _ E0 Hs uniq_nil Hv) as [Hm Wm]. split.
      * intros p x. rewrite <- Step, has_app, has_one.
        split; [intros [A|(r & -> & A)]; auto|intros [A|[(r & -> & A)|[-> ->]]]; auto].
        -- apply hasn_obj in A as [[-> ->]|A]; [auto|]. apply Hm in A as [A|A]; [destruct A as (? & ? & ? & _ & [] & _)|].
           right. left. eauto.
        -- right. exists r. split; auto. apply hasn_obj. right. apply Hm. auto.
        -- right. exists []. split; auto. apply hasn_obj. auto.
      * rewrite esweight_app. rewrite esweight_cons, nweight_obj, Wm. change (esweight []) with 0. lia.
Qed.

(** ** Documents and nodes *)

Fixpoint node_of (d : doc) : node :=
  match d with
  | DPrim p => NPrim p
  | DArr l => NArr (map node_of l)
  | DObj l => NObj (map (fun m => (fst (fst m), node_of (snd m))) l)
                   (rev (map (fun m => fst (fst m)) (filter (fun m => snd (fst m)) l)))
  end.

Lemma node_of_json d : node_to_json (node_of d) = doc_json d.
Proof.
  induction d using doc_ind'; cbn [node_of node_to_json doc_json]; f_equal; auto; rewrite map_map;
    apply map_ext_in; intros a Ha; rewrite Forall_forall in H; cbn [fst snd]; f_equal; now apply H.
Qed.

Lemma spells_build :
  (forall e d, spells e d -> builds e (node_of d)) /\
  (forall e l, spells_items e l -> forall st root rest acc,
       apply_events (BState (BArr acc :: st) root) (e ++ rest)
       = apply_events (BState (BArr (acc ++ map node_of l) :: st) root) rest) /\
  (forall e l, spells_members e l -> forall q st root rest acc,
       apply_events (BState (BObj acc None q :: st) root) (e ++ rest)
       = apply_events (BState (BObj (acc ++ map (fun m => (fst (fst m), node_of (snd m))) l) None
           (rev (map (fun m => fst (fst m)) (filter (fun m => snd (fst m)) l)) ++ q) :: st) root) rest).
Proof.
  apply spells_mutind.
  - intros p st root rest. reflexivity.
  - intros n evs items _ H st root rest. cbn [app apply_events apply_event bind bs_stack bs_root].
    rewrite <- app_assoc, H. cbn [app apply_events apply_event bind bs_stack bs_root]. reflexivity.
  - intros evs ms _ H st root rest. cbn [app apply_events apply_event bind bs_stack bs_root].
    rewrite <- app_assoc, H. cbn [app apply_events apply_event bind bs_stack bs_root]. rewrite app_nil_r. reflexivity.
  - intros. cbn [map]. now rewrite app_nil_r.
  - intros e1 d e2 l _ Hn _ H st root rest acc. rewrite <- app_assoc, Hn. cbn [attach bind]. rewrite H.
    cbn [map]. now rewrite <- app_assoc.
  - intros. cbn [map filter rev app]. now rewrite app_nil_r.
  - intros k q e1 d e2 l _ Hn _ H q0 st root rest acc. cbn [app apply_events apply_event bind bs_stack bs_root].
    rewrite <- app_assoc, Hn. cbn [attach bind]. rewrite H. cbn [map filter fst snd].
    rewrite <- app_assoc. cbn [app]. do 4 f_equal. destruct q; cbn [map rev fst]; [now rewrite <- app_assoc|reflexivity].
Qed.

Lemma spells_node e d : spells e d -> build_node_from_events e = Ok (node_of d).
Proof.
  intros H. apply spells_build in H. unfold build_node_from_events. specialize (H [] None []).
  rewrite app_nil_r in H. rewrite H. reflexivity.
Qed.

(** Every well formed event stream spells a document. *)
Lemma describes_spells P :
  (forall e v, describes P e v -> exists d, spells e d /\ doc_json d = v) /\
  (forall e l, describes_items P e l -> exists ds, spells_items e ds /\ map doc_json ds = l) /\
  (forall e l, describes_entries P e l -> exists ms, spells_members e ms /\
     map (fun m => (fst (fst m), doc_json (snd m))) ms = l).
Proof.
  apply describes_mutind.
  - intros p. exists (DPrim p). split; constructor.
  - intros n evs items _ (ds & H & <-) _. exists (DArr ds). split; [now constructor|reflexivity].
  - intros evs entries _ (ms & H & <-). exists (DObj ms). split; [now constructor|reflexivity].
  - exists []. split; constructor.
  - intros e1 v e2 l _ (d & H & <-) _ (ds & H' & <-). exists (d :: ds). split; [now constructor|reflexivity].
  - exists []. split; constructor.
  - intros k q e1 v e2 l _ (d & H & <-) _ (ms & H' & <-). exists ((k, q, d) :: ms). split; [now constructor|reflexivity].
Qed.

(** ** Dotted keys *)

Lemma identifier_spec s : is_identifier_segment s = true <-> identifier s.
Proof.
  destruct s as [|c r]; cbn [is_identifier_segment].
  - split; [discriminate|]. intros (c & r & E & _). discriminate.
  - rewrite andb_true_iff, forallb_forall. unfold identifier, is_alnum, is_alpha, is_digit, letter, digit. split.
    + intros [H1 H2]. exists c, r. split; auto. split; [lia|]. apply Forall_forall. intros x Hx. specialize (H2 x Hx). lia.
    + intros (c' & r' & E & H1 & H2). injection E as <- <-. split; [lia|]. intros x Hx. rewrite Forall_forall in H2.
      specialize (H2 x Hx). lia.
Qed.

Lemma identifier_no_dot s : identifier s -> ~ In cDOT s.
Proof.
  intros (c & r & -> & Hc & Hr) [E|Hi].
  - subst c. destruct Hc as [[H|H]|H]; [lia|lia|discriminate].
  - rewrite Forall_forall in Hr. apply Hr in Hi. destruct Hi as [[H|H]|[H|H]]; try discriminate; unfold digit in *; lia.
Qed.

Lemma dotted_split k segs : dotted k segs -> split_on cDOT k = segs.
Proof.
  intros (-> & Hl & Hi). apply split_join; [intros ->; cbn in Hl; lia|].
  eapply Forall_impl; [|exact Hi]. apply identifier_no_dot.
Qed.
Lemma dotted_fun k a b : dotted k a -> dotted k b -> a = b.
Proof. intros H1 H2. apply dotted_split in H1, H2. congruence. Qed.

Lemma split_dotted k : contains cDOT k = true -> 2 <= length (split_on cDOT k).
Proof.
  intros H. destruct (split_on cDOT k) as [|a [|b l]] eqn:E; cbn; try lia.
  - now apply split_on_not_nil in E.
  - pose proof (join_split cDOT k) as J. rewrite E in J. cbn in J. pose proof (split_on_pieces cDOT k) as P. rewrite E in P.
    inversion P as [|? ? Ha]; subst. apply contains_In in H. congruence || now destruct Ha.
Qed.

Lemma dotted_contains k segs : dotted k segs -> contains cDOT k = true.
Proof.
  intros (-> & Hl & _). apply contains_In. destruct segs as [|a [|b l]]; cbn in Hl; try lia.
  rewrite join_cons by discriminate. apply in_app_iff. right. now left.
Qed.

Lemma str_mem_In k l : str_mem k l = true <-> In k l.
Proof.
  unfold str_mem. rewrite existsb_exists. split.
  - intros (x & Hx & E). apply str_eqb_eq in E as ->. auto.
  - intros H. exists k. split; auto. apply str_eqb_refl.
Qed.

Lemma expandable_true k quoted : expandable k quoted = true -> ~ In k quoted /\ dotted k (split_on cDOT k).
Proof.
  unfold expandable. rewrite !andb_true_iff, negb_true_iff. intros [[H1 H2] H3]. split.
  - intros Hi. apply str_mem_In in Hi. congruence.
  - split; [now rewrite join_split|]. split; [now apply split_dotted|]. apply Forall_forall. intros s Hs.
    rewrite forallb_forall in H3. now apply identifier_spec, H3.
Qed.
Lemma expandable_dotted k quoted segs : dotted k segs -> ~ In k quoted -> expandable k quoted = true.
Proof.
  intros H Hq. unfold expandable. rewrite (dotted_contains _ _ H), (dotted_split _ _ H).
  destruct (str_mem k quoted) eqn:E; [apply str_mem_In in E; now destruct Hq|]. cbn. apply forallb_forall.
  intros s Hs. destruct H as (_ & _ & H). rewrite Forall_forall in H. now apply identifier_spec, H.
Qed.

Definition path_of (k : str) (quoted : list str) : list str :=
  if expandable k quoted then split_on cDOT k else [k].

Lemma path_of_nonempty k q : path_of k q <> [].
Proof. unfold path_of. destruct (expandable k q); [apply split_on_not_nil|discriminate]. Qed.

Lemma quoted_In ms k : In k (rev (map (fun m : str * bool * doc => fst (fst m)) (filter (fun m => snd (fst m)) ms))) <->
  exists x, In (k, true, x) ms.
Proof.
  rewrite <- in_rev, in_map_iff. split.
  - intros ([[k' q] x] & <- & H). apply filter_In in H as [H E]. cbn in *. subst. eauto.
  - intros (x & H). exists (k, true, x). split; auto. apply filter_In. auto.
Qed.

Lemma key_path_of ms k p q : q = rev (map (fun m : str * bool * doc => fst (fst m)) (filter (fun m => snd (fst m)) ms)) ->
  (key_path ms k p <-> p = path_of k q).
Proof.
  intros ->. set (q := rev _). unfold path_of. split.
  - intros [x H|H|segs H1 H2].
    + destruct (expandable k q) eqn:E; auto. apply expandable_true in E as [E _]. exfalso. apply E, quoted_In. eauto.
    + destruct (expandable k q) eqn:E; auto. apply expandable_true in E as [_ E]. now apply H in E.
    + rewrite (expandable_dotted k q segs); auto; [symmetry; now apply dotted_split|].
      intros Hi. apply quoted_In in Hi as (x & Hi). now apply H1 in Hi.
  - destruct (expandable k q) eqn:E; intros ->.
    + apply expandable_true in E as [E1 E2]. apply kp_dotted; auto. intros x Hx. apply E1, quoted_In. eauto.
    + destruct (in_dec (list_eq_dec N.eq_dec) k q) as [Hi|Hi].
      * apply quoted_In in Hi as (x & Hi). eapply kp_quoted; eauto.
      * apply kp_plain. intros segs Hd. rewrite (expandable_dotted _ _ _ Hd Hi) in E. discriminate.
Qed.

(** ** Strict expansion *)

Definition contributes (pa : list str) (w : node) (p : list str) (x : option json) : Prop :=
  (exists r, p = pa ++ r /\ hasn w r x) \/ (x = None /\ p <> [] /\ exists r, r <> [] /\ pa = p ++ r).

Lemma insert_entry_strict l quoted acc k w m : insert_entry l true quoted acc k w = Ok m -> uniq_es acc -> uniq w ->
  (forall p x, has m p x <-> has acc p x \/ contributes (path_of k quoted) w p x) /\
  esweight m = esweight acc + nweight w.
Proof.
  unfold insert_entry, path_of. intros E Ha Hw. destruct (expandable k quoted).
  - eapply insert_path_strict; eauto. apply split_on_not_nil.
  - destruct (insert_literal_strict _ _ _ _ _ E Ha Hw) as [H W]. split; auto. intros p x. rewrite H. unfold contributes.
    split; [intros [A|(r & -> & A)]; [auto|right; left; exists r; auto]|].
    intros [A|[(r & -> & B)|(_ & Hp & r & Hr & B)]]; [auto|right; exists r; auto|].
    destruct p as [|a [|b p]]; [congruence| |discriminate]. injection B as <- B0. congruence.
Qed.

Lemma expand_go_strict l quoted : forall entries acc m, expand_go l true quoted acc entries = Ok m -> uniq_es acc ->
  exists ws, Forall2 (fun a b => fst a = fst b /\ expand_inner l true (snd a) = Ok (snd b)) entries ws /\
    (forall p x, has m p x <-> has acc p x \/ exists k w, In (k, w) ws /\ contributes (path_of k quoted) w p x) /\
    esweight m = esweight acc + esweight ws.
Proof.
  induction entries as [|[k v] r IH]; intros acc m E Ha; cbn [expand_go] in E.
  - injection E as <-. exists []. split; [constructor|]. split; [|unfold esweight, list_sum; cbn; lia].
    intros p x. split; auto. intros [H|(k & w & [] & _)]; auto.
  - inv_bind E. assert (Uw : uniq a) by (eapply (expand_uniq l); eauto).
    destruct (insert_entry_strict _ _ _ _ _ _ E1 Ha Uw) as [H W].
    assert (Ua : uniq_es a0).
    { unfold insert_entry in E1. destruct (expandable k quoted); [eapply insert_path_uniq|eapply insert_literal_uniq]; eauto. }
    destruct (IH _ _ E Ua) as (ws & F & H' & W'). exists ((k, a) :: ws). split; [constructor; auto|]. split.
    + intros p x. rewrite H', H. split.
      * intros [[A|A]|(k' & w' & Hi & A)]; [auto| |]; right; [exists k, a|exists k', w']; split; auto; [now left|now right].
      * intros [A|(k' & w' & [Ek|Hi] & A)]; auto; [injection Ek as <- <-; auto|]. right. eauto.
    + rewrite W', W, esweight_cons. lia.
Qed.

Lemma kind_none v : kind v = None <-> is_object v.
Proof. split; [destruct v; try discriminate; intros _; eexists; eauto|now intros (es & ->)]. Qed.
Lemma kind_some v y : kind v = Some y -> v = y /\ ~ is_object v.
Proof. destruct v; cbn; intros E; try discriminate; injection E as <-; split; auto; intros (es & X); discriminate. Qed.
Lemma kind_not v : ~ is_object v -> kind v = Some v.
Proof. destruct v as [p|l|l]; auto. intros H. exfalso. apply H. exists l. auto. Qed.

(** The four clauses hold for every value, object or not. *)
Lemma expands_parts d v : expands_to d v ->
    (forall p x, doc_at d p x -> ~ doc_object x -> exists y, at_path v p y /\ ~ is_object y /\ expands_to x y) /\
    (forall p y, at_path v p y -> ~ is_object y -> exists x, doc_at d p x /\ ~ doc_object x /\ expands_to x y) /\
    (forall p x, doc_at d p x -> doc_object x -> exists y, at_path v p y /\ is_object y) /\
    (forall p y, at_path v p y -> is_object y -> exists r x, doc_at d (p ++ r) x).
Proof.
  intros [p|l m F|ms es H1 H2 H3 H4]; [| |auto].
  - split; [|split; [|split]].
    + intros q x H _. inversion H; subst. exists (JPrim p). split; [constructor|]. split; [intros (? & ?); discriminate|constructor].
    + intros q y H _. inversion H; subst. exists (DPrim p). split; [constructor|]. split; [intros (? & ?); discriminate|constructor].
    + intros q x H (ms & ->). inversion H.
    + intros q y H (ms & ->). inversion H.
  - split; [|split; [|split]].
    + intros q x H _. inversion H; subst. exists (JArr m). split; [constructor|]. split; [intros (? & ?); discriminate|now constructor].
    + intros q y H _. inversion H; subst. exists (DArr l). split; [constructor|]. split; [intros (? & ?); discriminate|now constructor].
    + intros q x H (ms & ->). inversion H.
    + intros q y H (ms & ->). inversion H.
Qed.

Lemma Forall2_In_l {A B} (R : A -> B -> Prop) l m a : Forall2 R l m -> In a l -> exists b, In b m /\ R a b.
Proof.
  induction 1 as [|x y l m H _ IH]; [intros []|]. intros [->|Hi]; [exists y; split; [now left|auto]|].
  destruct (IH Hi) as (b & Hb & Hr). exists b. split; [now right|auto].
Qed.
Lemma Forall2_In_r {A B} (R : A -> B -> Prop) l m b : Forall2 R l m -> In b m -> exists a, In a l /\ R a b.
Proof.
  induction 1 as [|x y l m H _ IH]; [intros []|]. intros [->|Hi]; [exists x; split; [now left|auto]|].
  destruct (IH Hi) as (a & Ha & Hr). exists a. split; [now right|auto].
Qed.

Lemma strict_expands d : forall l w, expand_inner l true (node_of d) = Ok w ->
  expands_to d (node_to_json w) /\ doc_weight d = nweight w.
Proof.
  induction d using doc_ind'; intros n w E; (destruct n as [|n]; [discriminate|]).
  - injection E as <-. split; constructor.
  - cbn [node_of] in E. rewrite expand_arr in E. inv_bind E. injection E as <-. apply map_result_Forall2 in E0.
    assert (F : Forall2 (fun d w => expands_to d (node_to_json w) /\ doc_weight d = nweight w) l a).
    { revert a E0. induction H as [|d l Hd _ IH]; intros a F; inversion F; subst; constructor; eauto. }
    split.
    + cbn [node_to_json]. constructor. clear - F. induction F as [|? ? ? ? [A _]]; constructor; auto.
    + cbn [doc_weight nweight]. f_equal. clear - F. induction F as [|? ? ? ? [_ A]]; auto.
      cbn [map list_sum fold_right]. unfold list_sum in *. lia.
  - cbn [node_of] in E. destruct n as [|n]; [discriminate|]. rewrite expand_obj in E. inv_bind E. injection E as <-.
    rename l into ms, a into m. set (q := rev _) in E0.
    destruct (expand_go_strict _ _ _ _ _ E0 uniq_nil) as (ws & F & Hm & W). clear E0.
    assert (F' : Forall2 (fun (a : str * bool * doc) (b : str * node) => fst (fst a) = fst b /\
        expands_to (snd a) (node_to_json (snd b)) /\ doc_weight (snd a) = nweight (snd b)) ms ws).
    { clear - F H. revert ws F. induction H as [|a ms Ha _ IH]; intros ws F; inversion F as [|? b ? ? [E1 E2]]; subst; constructor; eauto. }
    clear F. split.
    + assert (Hin : forall p y, at_path (node_to_json (NObj m [])) p y <->
         (p = [] /\ y = node_to_json (NObj m [])) \/ (exists k r v, p = k :: r /\ In (k, v) m /\ at_path (node_to_json v) r y)).
      { intros p y. cbn [node_to_json]. split.
        - intros A. inversion A as [|? k z r ? Hi Hz]; subst; [left; auto|]. right.
          apply in_map_iff in Hi as ([k' v] & E & Hi). cbn in E. injection E as -> <-. eauto 7.
        - intros [[-> ->]|(k & r & v & -> & Hi & A)]; [constructor|]. econstructor; [|exact A].
          apply in_map_iff. now exists (k, v). }
      assert (Hm' : forall p x, has m p x <-> exists k w, In (k, w) ws /\ contributes (path_of k q) w p x).
      { intros p x. rewrite Hm. split; [intros [A|A]; [destruct A as (? & ? & ? & _ & [] & _)|auto]|auto]. }
      cbn [node_to_json]. constructor.
      * (* leaves of the document *)
        intros p x A Hx. inversion A as [|? k b d' p' r ? Hi Hk Hd]; subst; [exfalso; apply Hx; eexists; eauto|].
        apply (key_path_of ms k p' q eq_refl) in Hk as ->.
        destruct (Forall2_In_l _ _ _ _ F' Hi) as ([k' w'] & Hw & Ek & Hex & _). cbn [fst snd] in *. subst k'.
        apply expands_parts in Hex as (P1 & _). destruct (P1 _ _ Hd Hx) as (y & Hy & Hny & Hxy).
        assert (Hh : has m (path_of k q ++ r) (Some y)).
        { apply Hm'. exists k, w'. split; auto. left. exists r. split; auto. exists y. split; auto.
          symmetry. now apply kind_not. }
        destruct Hh as (k0 & r0 & v0 & Ep & Hi0 & y0 & Hy0 & Ey). symmetry in Ey. apply kind_some in Ey as [-> _].
        exists y. split; auto. rewrite Ep. apply Hin. right. exists k0, r0, v0. auto.
      * (* leaves of the value *)
        intros p y A Hy. apply Hin in A as [[-> ->]|(k & r & v & -> & Hi & A)]; [exfalso; apply Hy; eexists; reflexivity|].
        assert (Hh : has m (k :: r) (Some y)).
        { exists k, r, v. split; auto. split; auto. exists y. split; auto. symmetry. now apply kind_not. }
        apply Hm' in Hh as (k' & w' & Hw & [(r' & Ep & y' & Hy' & Ey)|[? _]]); [|discriminate].
        symmetry in Ey. apply kind_some in Ey as [-> _].
        destruct (Forall2_In_r _ _ _ _ F' Hw) as ([[k1 b] d'] & Hd & Ek & Hex & _). cbn [fst snd] in *. subst k1.
        apply expands_parts in Hex as (_ & P2 & _). destruct (P2 _ _ Hy' Hy) as (x & Hx & Hnx & Hxy).
        exists x. split; auto. rewrite Ep. econstructor; [exact Hd| |exact Hx]. now apply (key_path_of ms k' _ q eq_refl).
      * (* objects of the document *)
        intros p x A Hx. inversion A as [|? k b d' p' r ? Hi Hk Hd]; subst.
        { exists (node_to_json (NObj m [])). split; [constructor|eexists; reflexivity]. }
        apply (key_path_of ms k p' q eq_refl) in Hk as ->.
        destruct (Forall2_In_l _ _ _ _ F' Hi) as ([k' w'] & Hw & Ek & Hex & _). cbn [fst snd] in *. subst k'.
        apply expands_parts in Hex as (_ & _ & P3 & _). destruct (P3 _ _ Hd Hx) as (y & Hy & Hoy).
        assert (Hh : has m (path_of k q ++ r) None).
        { apply Hm'. exists k, w'. split; auto. left. exists r. split; auto. exists y. split; auto.
          symmetry. now apply kind_none. }
        destruct Hh as (k0 & r0 & v0 & Ep & Hi0 & y0 & Hy0 & Ey). symmetry in Ey. apply kind_none in Ey.
        exists y0. split; auto. rewrite Ep. apply Hin. right. exists k0, r0, v0. auto.
      * (* objects of the value *)
        intros p y A Hy. apply Hin in A as [[-> ->]|(k & r & v & -> & Hi & A)]; [exists [], (DObj ms); constructor|].
        assert (Hh : has m (k :: r) None).
        { exists k, r, v. split; auto. split; auto. exists y. split; auto. symmetry. now apply kind_none. }
        apply Hm' in Hh as (k' & w' & Hw & Hc).
        destruct (Forall2_In_r _ _ _ _ F' Hw) as ([[k1 b] d'] & Hd & Ek & Hex & _). cbn [fst snd] in *. subst k1.
        destruct Hc as [(r' & Ep & y' & Hy' & Ey)|(_ & _ & r' & Hr' & Ep)].
        -- symmetry in Ey. apply kind_none in Ey. apply expands_parts in Hex as (_ & _ & _ & P4).
           destruct (P4 _ _ Hy' Ey) as (r1 & x & Hx). exists r1, x. rewrite Ep, <- app_assoc.
           econstructor; [exact Hd| |exact Hx]. now apply (key_path_of ms k' _ q eq_refl).
        -- exists r', d'. rewrite <- Ep, <- (app_nil_r (path_of k' q)). econstructor; [exact Hd| |constructor].
           now apply (key_path_of ms k' _ q eq_refl).
    + cbn [doc_weight]. rewrite nweight_obj, W. change (esweight []) with 0. cbn [Nat.add]. clear - F'.
      induction F' as [|a b l m (_ & _ & E) _ IH]; auto. destruct b as [k w]. rewrite esweight_cons.
      cbn [map list_sum fold_right]. unfold list_sum in IH. cbn [snd] in E. lia.
Qed.

Lemma strict_expand_safe d w : expand_paths_safe (node_of d) true = Ok w ->
  expands_to d (node_to_json w) /\ doc_weight d = weight (node_to_json w).
Proof.
  unfold expand_paths_safe. generalize MAX_EXPAND_DEPTH. intros n H. rewrite nweight_json.
  exact (strict_expands d n w H).
Qed.
