(** Key folding and path expansion together: C13, C14, C26. *)
From Verif Require Import Chars Floats Json JsonInd JsonEq Shared EncPrim Normalize Folding Encoders EncodeApi
  EventBuilder Expand DecodeApi Decoders DecRel Lex NumProof PrimProof Spec DecProps Layout LayEnc LayFacts EncTotal
  WrittenProps RoundTrip ExpandProof ExpandProps.
From Coq Require Import Permutation.

Local Open Scope nat_scope.

Lemma list_max_in a l : In a l -> a <= list_max l.
Proof. intros H. pose proof (proj1 (list_max_le l (list_max l)) (le_n _)) as F. rewrite Forall_forall in F. auto. Qed.
Lemma levels_item x l : In x l -> S (levels x) <= levels (JArr l).
Proof. intros H. cbn [levels]. apply le_n_S, list_max_in. now apply in_map. Qed.
Lemma levels_member kv l : In kv l -> S (S (levels (snd kv))) <= levels (JObj l).
Proof. intros H. cbn [levels]. do 2 apply le_n_S. apply list_max_in. apply in_map_iff. now exists kv. Qed.
Lemma levels_pos v : 1 <= levels v.
Proof. destruct v; cbn; lia. Qed.

(** Going through the members when every insertion is at a fresh key. *)
Lemma insert_literal_fresh l strict acc k v : 1 <= l -> ~ In k (map fst acc) ->
  insert_literal_entry l strict acc k v = Ok (acc ++ [(k, v)]).
Proof.
  intros Hl Hf. destruct l as [|l]; [lia|]. cbn [insert_literal_entry]. now rewrite (entry_get_fresh _ _ Hf).
Qed.

Fixpoint wrap (ks : list str) (n : node) : node :=
  match ks with [] => n | k :: r => NObj [(k, wrap r n)] [] end.

Lemma insert_path_fresh strict v : forall ks l acc k, S (S (length ks)) <= l -> ~ In k (map fst acc) ->
  insert_path_entries l strict acc (k :: ks) v = Ok (acc ++ [(k, wrap ks v)]).
Proof.
  induction ks as [|k' ks IH]; intros l acc k Hl Hf; (destruct l as [|l]; [cbn in Hl; lia|]).
  - cbn [insert_path_entries wrap]. apply insert_literal_fresh; auto. cbn in Hl. lia.
  - cbn [insert_path_entries]. rewrite (entry_get_fresh _ _ Hf). rewrite IH; [|cbn in Hl; lia|intros []].
    cbn [bind app wrap]. reflexivity.
Qed.

(** ** C26 *)

Lemma expand_identity d : forall n strict, undotted_doc d -> distinct_keys (doc_json d) -> levels (doc_json d) <= n ->
  exists w, expand_inner n strict (node_of d) = Ok w /\ node_to_json w = doc_json d.
Proof.
  induction d using doc_ind'; intros n strict Hu Hd Hl.
  - destruct n as [|n]; [cbn in Hl; lia|]. exists (NPrim p). auto.
  - destruct n as [|n]; [cbn in Hl; lia|]. cbn [node_of doc_json] in *. rewrite expand_arr.
    inversion Hu as [|? Hu'|]; subst. inversion Hd as [|? Hd'|]; subst.
    assert (exists ws, map_result (expand_inner n strict) (map node_of l) = Ok ws /\ map node_to_json ws = map doc_json l)
      as (ws & -> & E).
    { assert (Hl' : Forall (fun x => levels (doc_json x) <= n) l).
      { apply Forall_forall. intros x Hx. pose proof (levels_item (doc_json x) (map doc_json l) (in_map _ _ _ Hx)). lia. }
      clear Hu Hd Hl. rewrite Forall_map in Hd'. induction H as [|x l Hx _ IH]; [exists []; auto|].
      inversion Hu'; inversion Hd'; inversion Hl'; subst. destruct IH as (ws & E1 & E2); auto.
      destruct (Hx n strict) as (w & E3 & E4); auto. exists (w :: ws). cbn [map map_result]. rewrite E3. cbn [bind].
      rewrite E1. cbn. now rewrite E4, E2. }
    eexists. split; [reflexivity|]. cbn [node_to_json]. now rewrite E.
  - destruct n as [|[|n]]; [cbn in Hl; lia|cbn in Hl; lia|]. cbn [node_of doc_json] in *. rewrite expand_obj.
    set (q := rev _). inversion Hu as [| |? Hk Hu']; subst. inversion Hd as [| |? Hn Hd']; subst.
    assert (Hx : Forall (fun m => expandable (fst (fst m)) q = false) l).
    { apply Forall_forall. intros [[k b] x] Hi. cbn. destruct (expandable k q) eqn:E; auto.
      apply expandable_true in E as [E1 E2]. rewrite Forall_forall in Hk. destruct (Hk _ Hi) as [Hb|Hb].
      - cbn in Hb. subst b. exfalso. apply E1, quoted_In. eauto.
      - now apply Hb in E2. }
    assert (Hl' : Forall (fun m => levels (doc_json (snd m)) <= n) l).
    { apply Forall_forall. intros m Hm.
      pose proof (levels_member (fst (fst m), doc_json (snd m)) (map (fun m => (fst (fst m), doc_json (snd m))) l)) as X.
      specialize (X ltac:(apply in_map_iff; now exists m)). cbn [snd] in X. lia. }
    assert (Go : forall acc, NoDup (map fst acc ++ map (fun m => fst (fst m)) l) ->
      exists ws, expand_go n strict q acc (map (fun m => (fst (fst m), node_of (snd m))) l) = Ok (acc ++ ws) /\
        tojson ws = map (fun m => (fst (fst m), doc_json (snd m))) l).
    { clear Hn. clear Hl Hu Hd Hk. rewrite Forall_map in Hd'. clearbody q.
      induction H as [|[[k b] x] l Hx0 _ IH]; intros acc Hn.
      - exists []. cbn. now rewrite app_nil_r.
      - inversion Hx as [|? ? Hx1 Hx2]; inversion Hu' as [|? ? Hu1 Hu2]; inversion Hd' as [|? ? Hd1 Hd2];
          inversion Hl' as [|? ? Hl1 Hl2]; subst. cbn [fst snd] in *.
        destruct (Hx0 n strict Hu1 Hd1 Hl1) as (w & E1 & E2).
        cbn [map expand_go fst snd]. rewrite E1. cbn [bind]. unfold insert_entry. rewrite Hx1.
        assert (Hf : ~ In k (map fst acc)).
        { intros Hi. cbn [map fst] in Hn. apply NoDup_remove_2 in Hn. apply Hn, in_app_iff. now left. }
        rewrite insert_literal_fresh; auto; [|pose proof (levels_pos (doc_json x)); lia]. cbn [bind].
        destruct (IH Hu2 Hd2 Hx2 Hl2 (acc ++ [(k, w)])) as (ws & E3 & E4).
        { rewrite map_app, <- app_assoc. exact Hn. }
        exists ((k, w) :: ws). rewrite E3, <- app_assoc. split; auto. cbn. now rewrite E2, <- E4. }
    destruct (Go []) as (ws & E & Ej).
    { cbn [map app]. rewrite map_map in Hn. exact Hn. }
    rewrite E. cbn [bind app]. eexists. split; [reflexivity|]. cbn [node_to_json]. fold (tojson ws). now rewrite Ej.
Qed.

Lemma expand_safe_identity d strict : undotted_doc d -> distinct_keys (doc_json d) -> levels (doc_json d) <= 256 ->
  exists w, expand_paths_safe (node_of d) strict = Ok w /\ node_to_json w = doc_json d.
Proof. unfold expand_paths_safe, MAX_EXPAND_DEPTH. generalize 256. intros n. apply expand_identity. Qed.

(** ** The document of a value *)

Fixpoint jdoc (v : json) : doc :=
  match v with
  | JPrim p => DPrim p
  | JArr l => DArr (map jdoc l)
  | JObj l => DObj (map (fun kv => (fst kv, negb (is_valid_unquoted_key (fst kv)), jdoc (snd kv))) l)
  end.
Lemma jdoc_json v : doc_json (jdoc v) = v.
Proof.
  induction v using json_ind'; cbn [jdoc doc_json]; f_equal; auto; rewrite map_map;
    (etransitivity; [|apply map_id]); apply map_ext_in; intros a Ha; rewrite Forall_forall in H; cbn [fst snd].
  - now apply H.
  - destruct a as [k v]. cbn [fst snd]. f_equal. exact (H _ Ha).
Qed.
Lemma emit_spells v : spells (emit_events v) (jdoc v).
Proof.
  induction v using json_ind'; cbn [emit_events jdoc]; constructor.
  - induction H; cbn [flat_map map]; constructor; auto.
  - induction H as [|[k v] l Hv _ IH]; cbn [flat_map map]; [constructor|]. cbn [fst snd app]. now constructor.
Qed.

Lemma dotted_valid k segs : dotted k segs -> is_valid_unquoted_key k = true.
Proof.
  intros (-> & Hl & Hi). destruct segs as [|a r]; [cbn in Hl; lia|].
  assert (Hc : Forall (fun x => letter x \/ digit x \/ x = cUNDER \/ x = cDOT) (join cDOT (a :: r))).
  { clear Hl. induction Hi as [|s l Hs Hl IH]; [constructor|].
    assert (Hs' : Forall (fun x => letter x \/ digit x \/ x = cUNDER \/ x = cDOT) s).
    { destruct Hs as (c & t & -> & Hc & Ht). constructor; [tauto|]. eapply Forall_impl; [|exact Ht]. cbn. tauto. }
    destruct l as [|b l]; [exact Hs'|]. rewrite join_cons by discriminate. apply Forall_app. split; auto. }
  pose proof (Forall_inv Hi) as (c & t & -> & Hc0 & _).
  assert (E : exists t', join cDOT ((c :: t) :: r) = c :: t').
  { destruct r; [eexists; reflexivity|]. rewrite join_cons by discriminate. eexists; reflexivity. }
  destruct E as (t' & E). unfold str in *. rewrite E in Hc |- *. cbn. inversion Hc as [|? ? _ Hc']; subst.
  apply andb_true_iff. split; [unfold letter, is_alpha in *; lia|]. apply forallb_forall. intros x Hx.
  rewrite Forall_forall in Hc'. specialize (Hc' x Hx). unfold letter, digit in Hc'.
  unfold is_alnum, is_alpha, is_digit. lia.
Qed.

Lemma undotted_jdoc v : undotted v -> undotted_doc (jdoc v).
Proof.
  induction v using json_ind'; intros Hu; inversion Hu; subst; cbn [jdoc]; constructor; rewrite ?Forall_map; cbn [fst snd];
    rewrite Forall_forall in *; auto.
Qed.

(** ** C13 *)

(** [chain] written as [wrap]. *)
Lemma written_wrap v ks leaf : chain v ks leaf -> forall r, written false true leaf (node_to_json r) ->
  written false true v (node_to_json (wrap ks r)).
Proof.
  induction 1 as [v|k v ks leaf _ IH]; intros r Hr; auto. cbn [wrap node_to_json map fst snd].
  constructor. constructor; [|constructor]. constructor. auto.
Qed.

Lemma levels_chain v ks leaf : chain v ks leaf -> 2 * length ks + levels leaf <= levels v.
Proof.
  induction 1 as [v|k v ks leaf _ IH]; [cbn; lia|].
  pose proof (levels_member (k, v) [(k, v)] (or_introl eq_refl)) as X. cbn [snd] in X. cbn [length]. lia.
Qed.
Lemma chain_undotted v ks leaf : chain v ks leaf -> undotted v -> undotted leaf.
Proof. induction 1; auto. intros Hu. inversion Hu as [| |? _ Hu']; subst. inversion Hu'; subst. auto. Qed.
Lemma chain_distinct v ks leaf : chain v ks leaf -> distinct_keys v -> distinct_keys leaf.
Proof. induction 1; auto. intros Hu. inversion Hu as [| |? _ Hu']; subst. inversion Hu'; subst. auto. Qed.

Lemma unexpandable k q : (forall segs, ~ dotted k segs) -> expandable k q = false.
Proof. intros H. destruct (expandable k q) eqn:E; auto. apply expandable_true in E as [_ E]. now apply H in E. Qed.

(** Expanding a member puts the original key at the end. *)
Definition member_expands (n : nat) (strict : bool) (a b : str * json) : Prop :=
  exists r u, expand_inner n strict (node_of (jdoc (snd b))) = Ok r /\
    (forall acc q, ~ In (fst a) (map fst acc) -> (forall segs, dotted (fst b) segs -> ~ In (fst b) q) ->
       insert_entry n strict q acc (fst b) r = Ok (acc ++ [(fst a, u)])) /\
    written false true (snd a) (node_to_json u).

Lemma members_expand n strict l m q : Forall2 (member_expands n strict) l m ->
  (forall b segs, In b m -> dotted (fst b) segs -> ~ In (fst b) q) -> forall acc, NoDup (map fst acc ++ map fst l) ->
  exists ws, expand_go n strict q acc (map (fun m => (fst (fst m), node_of (snd m)))
      (map (fun kv => (fst kv, negb (is_valid_unquoted_key (fst kv)), jdoc (snd kv))) m)) = Ok (acc ++ ws) /\
    Forall2 (fun a b => fst a = fst b /\ written false true (snd a) (snd b)) l (tojson ws).
Proof.
  intros F. induction F as [|a b l m (r & u & E1 & E2 & W) F IH]; intros Hq acc Hn.
  - exists []. cbn. rewrite app_nil_r. auto.
  - cbn [map expand_go fst snd]. rewrite E1. cbn [bind]. rewrite E2.
    + cbn [bind]. destruct (IH ltac:(intros; eapply Hq; eauto; now right) (acc ++ [(fst a, u)])) as (ws & E3 & F').
      { rewrite map_app, <- app_assoc. exact Hn. }
      exists ((fst a, u) :: ws). rewrite E3, <- app_assoc. split; auto. cbn. constructor; auto.
    + intros Hi. cbn [map] in Hn. apply NoDup_remove_2 in Hn. apply Hn, in_app_iff. now left.
    + intros segs Hs. eapply Hq; [now left|eauto].
Qed.

Lemma fields_of_pairs sibs l m : Forall2 (fun a b : str * json => fst a = fst b /\ written false true (snd a) (snd b)) l m ->
  written_fields false sibs l m.
Proof.
  induction 1 as [|[k v] [k' w] l m [E H] _ IH]; constructor; auto. cbn in *. subst. now constructor.
Qed.

(** The rows of a table come through unchanged. *)
Lemma row_json_distinct fields cells : NoDup fields -> distinct_keys (row_json fields cells).
Proof.
  intros Hn. unfold row_json. constructor.
  - revert cells. induction Hn as [|f fs Hf Hn IH]; intros cells; [constructor|]. destruct cells as [|c cells]; cbn; constructor.
    + intros Hi. apply Hf. clear - Hi. revert cells Hi.
      induction fs as [|g fs IH]; intros [|c cells]; cbn; try tauto. intros [->|H]; eauto.
    + apply IH.
  - apply Forall_forall. intros kv Hi. destruct kv as [k v]. apply in_combine_r, in_map_iff in Hi as (p & <- & _). constructor.
Qed.
Lemma row_json_undotted fields cells : Forall (fun k => forall segs, ~ dotted k segs) fields -> undotted (row_json fields cells).
Proof.
  intros H. unfold row_json. constructor; apply Forall_forall; intros [k v] Hi; cbn.
  - rewrite Forall_forall in H. apply H. now apply in_combine_l in Hi.
  - apply in_combine_r, in_map_iff in Hi as (p & <- & _). constructor.
Qed.
Lemma row_json_levels fields cells : levels (row_json fields cells) <= 3.
Proof.
  unfold row_json. cbn [levels]. do 2 apply le_n_S. apply list_max_le. apply Forall_map, Forall_forall.
  intros [k v] Hi. apply in_combine_r, in_map_iff in Hi as (p & <- & _). cbn. lia.
Qed.

Lemma fold_expand strict :
  (forall t v w, written true t v w -> forall n, distinct_keys v -> undotted v -> levels v <= n ->
     exists r, expand_inner n strict (node_of (jdoc w)) = Ok r /\ written false t v (node_to_json r)) /\
  (forall l m, written_items true l m -> forall n, Forall distinct_keys l -> Forall undotted l ->
     Forall (fun v => levels v <= n) l ->
     exists rs, map_result (expand_inner n strict) (map node_of (map jdoc m)) = Ok rs /\
       written_items false l (map node_to_json rs)) /\
  (forall sibs l m, written_fields true sibs l m -> forall n, Forall (fun kv => distinct_keys (snd kv)) l ->
     Forall (fun kv => undotted (snd kv)) l -> Forall (fun kv => forall segs, ~ dotted (fst kv) segs) l ->
     Forall (fun kv => levels (snd kv) <= n) l -> Forall2 (member_expands n strict) l m) /\
  (forall sibs a b, written_field true sibs a b -> forall n, distinct_keys (snd a) -> undotted (snd a) ->
     (forall segs, ~ dotted (fst a) segs) -> levels (snd a) <= n -> member_expands n strict a b).
Proof.
  assert (Obj : forall t l m n, Forall2 (member_expands n strict) l m -> NoDup (map fst l) ->
    exists r, expand_inner (S (S n)) strict (node_of (jdoc (JObj m))) = Ok r /\
      written false t (JObj l) (node_to_json r)).
  { intros t l m n F Hn. cbn [jdoc node_of]. rewrite expand_obj. set (q := rev _).
    destruct (members_expand n strict l m q F) with (acc := @nil (str * node)) as (ws & E & F'); auto.
    { intros b segs Hb Hs Hi. apply quoted_In in Hi as (x & Hi). apply in_map_iff in Hi as (kv & Ek & _).
      injection Ek as Ek1 Ek2 _. rewrite Ek1 in Ek2. apply dotted_valid in Hs. rewrite Hs in Ek2. discriminate. }
    rewrite E. cbn [bind app]. eexists. split; [reflexivity|]. cbn [node_to_json]. fold (tojson ws). constructor.
    now apply fields_of_pairs. }
  apply written_mutind.
  - intros t p n _ _ Hl. destruct n as [|n]; [cbn in Hl; lia|]. exists (NPrim p). split; constructor.
  - intros t l m Hn _ IH n Hd Hu Hl. destruct n as [|n]; [cbn in Hl; lia|]. inversion Hd as [|? Hd'|]; inversion Hu as [|? Hu'|]; subst.
    destruct (IH n Hd' Hu') as (rs & E & W).
    { apply Forall_forall. intros x Hx. pose proof (levels_item _ _ Hx). lia. }
    cbn [jdoc node_of]. rewrite expand_arr, E. cbn [bind]. eexists. split; [reflexivity|]. now constructor.
  - intros first r fields rows Hk Hne He HF n Hd Hu Hl. destruct n as [|n]; [cbn in Hl; lia|].
    assert (Hnf : NoDup fields).
    { inversion Hd as [|? Hd'|]; subst. inversion Hd' as [|? ? Hd1]; subst. now inversion Hd1. }
    assert (Huf : Forall (fun k => forall segs, ~ dotted k segs) fields).
    { inversion Hu as [|? Hu'|]; subst. inversion Hu' as [|? ? Hu1]; subst. inversion Hu1 as [| |? Hx _]; subst.
      now apply Forall_map. }
    assert (Hln : 3 <= n).
    { pose proof (levels_item (JObj first) (JObj first :: r) (or_introl eq_refl)) as X. destruct first as [|[k v] first]; [cbn in Hk; congruence|].
      pose proof (levels_member (k, v) ((k, v) :: first) (or_introl eq_refl)) as Y. cbn [snd] in Y. pose proof (levels_pos v). lia. }
    assert (E : exists rs, map_result (expand_inner n strict) (map node_of (map jdoc (map (row_json fields) rows))) = Ok rs /\
                  map node_to_json rs = map (row_json fields) rows).
    { clear HF. induction rows as [|c rows (rs & E1 & E2)]; [exists []; auto|].
      destruct (expand_identity (jdoc (row_json fields c)) n strict) as (w & E3 & E4).
      - apply undotted_jdoc. now apply row_json_undotted.
      - rewrite jdoc_json. now apply row_json_distinct.
      - rewrite jdoc_json. pose proof (row_json_levels fields c). lia.
      - rewrite jdoc_json in E4. exists (w :: rs). cbn [map map_result]. rewrite E3. cbn [bind]. rewrite E1. cbn [bind map].
        now rewrite E4, E2. }
    destruct E as (rs & E & Ej). cbn [jdoc node_of]. rewrite expand_arr, E. cbn [bind]. eexists. split; [reflexivity|].
    cbn [node_to_json]. rewrite Ej. now apply wr_table.
  - intros t l m _ IH n Hd Hu Hl. destruct n as [|[|n]]; [cbn in Hl; lia|cbn in Hl; lia|].
    inversion Hd as [| |? Hnd Hd']; inversion Hu as [| |? Hk Hu']; subst.
    apply Obj; auto. apply IH; auto. apply Forall_forall. intros x Hx. pose proof (levels_member _ _ Hx). lia.
  - intros k v l w m Hv IH1 Hf IH2 n Hd Hu Hl. destruct n as [|[|n]]; [cbn in Hl; lia|cbn in Hl; lia|].
    inversion Hd as [| |? Hnd Hd']; inversion Hu as [| |? Hk Hu']; subst.
    assert (Hl' : Forall (fun kv => levels (snd kv) <= n) ((k, v) :: l)).
    { apply Forall_forall. intros x Hx. pose proof (levels_member _ _ Hx). lia. }
    inversion Hd' as [|? ? Hd1 Hd2]; inversion Hu' as [|? ? Hu1 Hu2]; inversion Hk as [|? ? Hk1 Hk2]; inversion Hl' as [|? ? Hl1 Hl2]; subst.
    cbn [fst snd] in *. apply Obj; auto. constructor; [|now apply IH2].
    destruct (IH1 n Hd1 Hu1 Hl1) as (r & E & W). exists r, r. cbn [fst snd]. split; auto. split; auto.
    intros acc q Hf' _. unfold insert_entry. rewrite (unexpandable k q Hk1). apply insert_literal_fresh; auto.
    pose proof (levels_pos v). lia.
  - intros n _ _ _. exists []. split; constructor.
  - intros v w l m _ IH1 _ IH2 n Hd Hu Hl. inversion Hd; inversion Hu; inversion Hl; subst.
    destruct (IH1 n) as (r & E & W); auto. destruct (IH2 n) as (rs & E2 & W2); auto.
    exists (r :: rs). cbn [map map_result]. rewrite E. cbn [bind]. rewrite E2. cbn [bind map]. split; auto. now constructor.
  - intros sibs n _ _ _ _. constructor.
  - intros sibs a b l m _ IH1 _ IH2 n Hd Hu Hk Hl. inversion Hd; inversion Hu; inversion Hk; inversion Hl; subst. constructor; auto.
  - intros sibs k v w _ IH n Hd Hu Hk Hl. cbn [fst snd] in *. destruct (IH n Hd Hu Hl) as (r & E & W).
    exists r, r. cbn [fst snd]. split; auto. split; auto. intros acc q Hf _. unfold insert_entry.
    rewrite (unexpandable k q Hk). apply insert_literal_fresh; auto. pose proof (levels_pos v). lia.
  - intros sibs k v ks leaf w _ Hne Hc Hi _ _ IH n Hd Hu Hk Hl. cbn [fst snd] in *.
    pose proof (levels_chain _ _ _ Hc) as Hlc. pose proof (levels_pos leaf) as Hp.
    destruct (IH n) as (r & E & W); [eapply chain_distinct; eauto|eapply chain_undotted; eauto|lia|].
    assert (Hdot : dotted (join cDOT (k :: ks)) (k :: ks)).
    { split; auto. split; [destruct ks; [congruence|cbn; lia]|]. eapply Forall_impl; [|exact Hi]. intros s. apply identifier_spec. }
    exists r, (wrap ks r). cbn [fst snd]. split; auto. split; [|eapply written_wrap; eauto].
    intros acc q Hf Hq. unfold insert_entry. rewrite (expandable_dotted _ q _ Hdot (Hq _ Hdot)), (dotted_split _ _ Hdot).
    apply insert_path_fresh; auto. destruct ks; [congruence|]. cbn [length] in *. lia.
Qed.

Lemma fold_expand_safe v w strict : written true true v w -> distinct_keys v -> undotted v -> levels v <= 256 ->
  exists r, expand_paths_safe (node_of (jdoc w)) strict = Ok r /\ written false true v (node_to_json r).
Proof.
  unfold expand_paths_safe, MAX_EXPAND_DEPTH. generalize 256. intros n H. now apply fold_expand.
Qed.

Lemma norm_undotted v : forall w, norm_json v w -> undotted v -> undotted w.
Proof.
  induction v using json_ind'; intros w Hn Hu; inversion Hn as [|? ? F|? ? F]; subst; [constructor| |];
    inversion Hu as [|? U|? K U]; subst; constructor; clear Hn Hu.
  - induction F; constructor; inversion H; inversion U; subst; auto.
  - clear - F K. induction F as [|a b l m [E _] F IH]; constructor; inversion K; subst; auto. now rewrite <- E.
  - clear K. induction F as [|a b l m [E R] F IH]; constructor; inversion H; inversion U; subst; auto.
Qed.
Lemma norm_levels v : forall w, norm_json v w -> levels w = levels v.
Proof.
  induction v using json_ind'; intros w Hn; inversion Hn as [|? ? F|? ? F]; subst; [reflexivity| |];
    cbn [levels].
  - assert (E : map levels m = map levels l); [|now rewrite E].
    clear Hn. induction F as [|a b l m R F IH]; [reflexivity|]. inversion H; subst. cbn [map]. f_equal; auto.
  - assert (E : map (fun m => levels (snd m)) m = map (fun m => levels (snd m)) l); [|now rewrite E].
    clear Hn. induction F as [|a b l m [_ R] F IH]; [reflexivity|]. inversion H; subst. cbn [map]. f_equal; auto.
Qed.

(** ** C14 *)

Lemma join_first a ks b ls : identifier a -> identifier b -> join cDOT (a :: ks) = join cDOT (b :: ls) ->
  Forall identifier ks -> Forall identifier ls -> a :: ks = b :: ls.
Proof.
  intros Ha Hb E Hk Hl. rewrite <- (split_join cDOT (a :: ks)), <- (split_join cDOT (b :: ls)); [now rewrite E|discriminate| |discriminate|];
    constructor; auto using identifier_no_dot; eapply Forall_impl; try eassumption; apply identifier_no_dot.
Qed.

Lemma written_key sibs a b : written_field true sibs a b ->
  fst b = fst a \/ exists ks leaf, ks <> [] /\ chain (snd a) ks leaf /\ dotted (fst b) (fst a :: ks) /\ ~ In (fst b) sibs.
Proof.
  intros H. inversion H as [|? k v ks leaf w _ Hne Hc Hi Hs _]; subst; [now left|]. right. exists ks, leaf. cbn [fst snd].
  split; auto. split; auto. split; auto. split; auto. split; [destruct ks; [congruence|cbn; lia]|].
  eapply Forall_impl; [|exact Hi]. intros s. apply identifier_spec.
Qed.

Lemma folded_keys_distinct sibs l m : written_fields true sibs l m -> NoDup (map fst l) ->
  incl (map fst l) sibs -> NoDup (map fst m).
Proof.
  intros H Hn Hi.
  assert (F : Forall2 (written_field true sibs) l m) by (clear - H; induction H; constructor; auto).
  clear H. induction F as [|a b l m Hab F IH]; [constructor|]. cbn [map] in *.
  inversion Hn as [|? ? Ha Hn']; subst. constructor.
  - intros Hb. apply in_map_iff in Hb as (b' & Eb & Hb').
    destruct (Forall2_In_r _ _ _ _ F Hb') as (a' & Ha' & Hab').
    assert (Hne : fst a <> fst a') by (intros E; apply Ha; rewrite E; apply in_map; auto).
    apply written_key in Hab, Hab'.
    assert (S1 : In (fst a) sibs) by (apply Hi; now left).
    assert (S2 : In (fst a') sibs) by (apply Hi; right; apply in_map; auto).
    destruct Hab as [E1|(ks & lf & Hks & _ & D & N)], Hab' as [E2|(ks' & lf' & Hks' & _ & D' & N')]; try congruence.
    rewrite Eb in D'. pose proof (dotted_fun _ _ _ D D') as X. congruence.
  - apply IH; auto. intros x Hx. apply Hi. now right.
Qed.

Lemma fold_distinct :
  (forall t v w, written true t v w -> distinct_keys v -> no_item_clash v ->
     (t = false -> forall k x r k1 ks y z, v = JObj ((k, x) :: r) -> dotted k (k1 :: ks) ->
        In (k1, y) r -> ~ chain y ks z) -> distinct_keys w) /\
  (forall l m, written_items true l m -> Forall distinct_keys l -> Forall no_item_clash l ->
     Forall (fun v => forall k x r k1 ks y z, v = JObj ((k, x) :: r) -> dotted k (k1 :: ks) ->
              In (k1, y) r -> ~ chain y ks z) l -> Forall distinct_keys m) /\
  (forall sibs l m, written_fields true sibs l m -> Forall (fun kv => distinct_keys (snd kv)) l ->
     Forall (fun kv => no_item_clash (snd kv)) l -> Forall (fun kv => distinct_keys (snd kv)) m) /\
  (forall sibs a b, written_field true sibs a b -> distinct_keys (snd a) -> no_item_clash (snd a) -> distinct_keys (snd b)).
Proof.
  apply written_mutind.
  - constructor.
  - intros t l m _ _ IH Hd Hc _. inversion Hd; inversion Hc; subst. constructor. auto.
  - intros first r fields rows Hk Hne He HF Hd _ _. constructor. apply Forall_map, Forall_forall. intros c _.
    apply row_json_distinct. inversion Hd as [|? Hd'|]; subst. inversion Hd' as [|? ? Hd1]; subst. now inversion Hd1.
  - intros t l m Hf IH Hd Hc _. inversion Hd as [| |? Hn Hd']; inversion Hc; subst. constructor; auto.
    eapply folded_keys_distinct; eauto. apply incl_refl.
  - intros k v l w m Hv IH1 Hf IH2 Hd Hc Hx. inversion Hd as [| |? Hn Hd']; inversion Hc as [| |? Hc']; subst.
    inversion Hd' as [|? ? Hd1 Hd2]; inversion Hc' as [|? ? Hc1 Hc2]; subst. cbn [map fst snd] in *.
    inversion Hn as [|? ? Hk Hn']; subst. constructor.
    + cbn [map fst]. constructor; [|eapply folded_keys_distinct; eauto; apply incl_refl].
      intros Hi. apply in_map_iff in Hi as (b & Eb & Hb).
      assert (F : Forall2 (written_field true (map fst l)) l m) by (clear - Hf; induction Hf; constructor; auto).
      destruct (Forall2_In_r _ _ _ _ F Hb) as ([k1 y] & Ha & Hab). apply written_key in Hab as [E|(ks & lf & _ & Hch & D & _)].
      * cbn in E. apply Hk. rewrite <- Eb, E. apply in_map_iff. now exists (k1, y).
      * cbn [fst snd] in *. rewrite Eb in D. eapply (Hx eq_refl k v l k1 ks y lf); eauto.
    + constructor; [|now apply IH2]. cbn [snd]. apply IH1; auto. discriminate.
  - constructor.
  - intros v w l m _ IH1 _ IH2 Hd Hc Hx. inversion Hd; inversion Hc; inversion Hx; subst. constructor; auto.
  - constructor.
  - intros sibs a b l m _ IH1 _ IH2 Hd Hc. inversion Hd; inversion Hc; subst. constructor; auto.
  - intros sibs k v w _ IH Hd Hc. cbn [snd] in *. apply IH; auto. discriminate.
  - intros sibs k v ks leaf w _ _ Hch _ _ _ IH Hd Hc. cbn [snd] in *. apply IH; [eapply chain_distinct; eauto| |discriminate].
    clear - Hch Hc. induction Hch; auto. inversion Hc as [| |? Hc']; subst. inversion Hc'; subst. auto.
Qed.

Lemma norm_chain w ks z : chain w ks z -> forall v, norm_json v w -> exists z', chain v ks z'.
Proof.
  induction 1 as [w|k w ks z _ IH]; intros v Hn; [exists v; constructor|].
  inversion Hn as [| |l ? F]; subst. inversion F as [|a b l' m [E R] F']; subst. inversion F'; subst.
  destruct (IH _ R) as (z' & Hz). exists z'. destruct a as [k' v']. cbn in E. subst k'. now constructor.
Qed.
Lemma norm_no_clash v : forall w, norm_json v w -> no_item_clash v -> no_item_clash w.
Proof.
  induction v using json_ind'; intros w Hn Hu; inversion Hn as [|? ? F|? ? F]; subst; [constructor| |];
    inversion Hu as [|? K U|? U]; subst; constructor; clear Hn Hu.
  - clear - F K. induction F as [|a b l m R F IH]; constructor; inversion K as [|? ? Ka]; subst; auto.
    intros k x r k1 ks y z -> D Hi Hc. inversion R as [| |l' ? Fe]; subst.
    inversion Fe as [|[k0 x0] ? r' ? [E0 _] Fr]; subst. cbn in E0. subst k0.
    destruct (Forall2_In_r _ _ _ _ Fr Hi) as ([k2 y2] & Hi2 & E2 & R2). cbn in E2. subst k2. cbn in R2.
    destruct (norm_chain _ _ _ Hc _ R2) as (z' & Hz). eapply Ka; eauto.
  - clear K. induction F; constructor; inversion H; inversion U; subst; auto.
  - induction F as [|a b l m [E R] F IH]; constructor; inversion H; inversion U; subst; auto.
Qed.
