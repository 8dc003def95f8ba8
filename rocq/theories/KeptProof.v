(** Path expansion of a document that has lost members at its end. *)
From Verif Require Import Chars Floats Json Shared Folding EventBuilder Expand Lex Spec SpecText SpecRead SpecKept SpecCut SpecExpand ExpandProof ExpandProps CutProof.

Local Open Scope nat_scope.

(** [kept], for nodes. *)
Inductive kn : node -> node -> Prop :=
| kn_prim p : kn (NPrim p) (NPrim p)
| kn_arr l m : kns l m -> kn (NArr l) (NArr m)
| kn_obj l m q q' : knm l m -> kn (NObj l q) (NObj m q')
with kns : list node -> list node -> Prop :=
| kns_nil : kns [] []
| kns_cons w v l m : kn w v -> kns l m -> kns (w :: l) (v :: m)
with knm : list (str * node) -> list (str * node) -> Prop :=
| knm_end m : knm [] m
| knm_cons k w v l m : kn w v -> knm l m -> knm ((k, w) :: l) ((k, v) :: m).
Scheme kn_i := Minimality for kn Sort Prop with kns_i := Minimality for kns Sort Prop with knm_i := Minimality for knm Sort Prop.
Combined Scheme kn_mutind from kn_i, kns_i, knm_i.

Lemma kn_json :
  (forall w v, kn w v -> kept (node_to_json w) (node_to_json v)) /\
  (forall w v, kns w v -> kept_items (map node_to_json w) (map node_to_json v)) /\
  (forall w v, knm w v -> kept_members (tojson w) (tojson v)).
Proof. apply kn_mutind; intros; cbn [node_to_json map tojson fst snd]; constructor; auto. Qed.
Lemma kn_refl v : kn v v.
Proof.
  induction v using node_ind'; constructor.
  - induction H; constructor; auto.
  - induction H as [|[k x] l Hx _ IH]; constructor; auto.
Qed.
Lemma knm_refl l : knm l l. Proof. induction l as [|[k x] l IH]; constructor; auto using kn_refl. Qed.
Lemma kns_refl l : kns l l. Proof. induction l as [|x l IH]; constructor; auto using kn_refl. Qed.
Lemma kn_trans_all :
  (forall a b, kn a b -> forall c, kn b c -> kn a c) /\
  (forall a b, kns a b -> forall c, kns b c -> kns a c) /\
  (forall a b, knm a b -> forall c, knm b c -> knm a c).
Proof.
  apply kn_mutind.
  - intros p c H. exact H.
  - intros l m _ IH c H. inversion H; subst. constructor. auto.
  - intros l m q q' _ IH c H. inversion H; subst. constructor. auto.
  - intros c H. exact H.
  - intros w v l m _ IH1 _ IH2 c H. inversion H; subst. constructor; auto.
  - intros. constructor.
  - intros k w v l m _ IH1 _ IH2 c H. inversion H; subst. constructor; auto.
Qed.
Lemma knm_trans a b c : knm a b -> knm b c -> knm a c.
Proof. intros H. apply (proj2 (proj2 kn_trans_all) a b H). Qed.
Lemma knm_more l m : knm l (l ++ m). Proof. induction l as [|[k x] l IH]; cbn; constructor; auto using kn_refl. Qed.
Lemma knm_snoc l m k w v : knm l m -> map fst l = map fst m -> kn w v -> knm (l ++ [(k, w)]) (m ++ [(k, v)]).
Proof.
  intros H E Hw. induction H as [m|k0 x y l m Hx _ IH]; cbn [app map] in *.
  - destruct m; [|discriminate]. constructor; [exact Hw|constructor].
  - injection E as E. constructor; auto.
Qed.
Lemma knm_set l m k w v : knm l m -> kn w v -> knm (entry_set l k w) (entry_set m k v).
Proof.
  intros H Hw. induction H as [m|k0 x y l m Hx Hl IH]; cbn [entry_set]; [constructor|]. destruct (str_eqb k0 k); constructor; auto.
Qed.
Lemma knm_put l k w v : entry_get l k = Some w -> kn w v -> knm l (entry_set l k v).
Proof.
  induction l as [|[k0 x] l IH]; cbn; [discriminate|]. destruct (str_eqb k0 k); intros E H.
  - injection E as ->. constructor; [exact H|apply knm_refl].
  - constructor; [apply kn_refl|auto].
Qed.

(** ** Strict insertion only adds *)
Lemma merge_more : forall left_ t s r, merge_objects left_ true t s = Ok r -> knm t r.
Proof.
  induction left_ as [|l IHl]; intros t s r E; [discriminate|]. rewrite merge_objects_S in E. revert t E.
  induction s as [|[k v] s IH]; intros t E; cbn [merge_go] in E; [injection E as <-; apply knm_refl|].
  destruct (entry_get t k) as [x|] eqn:G; [|eapply knm_trans; [apply knm_more|exact (IH _ E)]].
  destruct x as [p|xs|eo eq]; [discriminate|discriminate|]. destruct v as [p|xs|so sq]; [discriminate|discriminate|].
  destruct (merge_objects l true eo so) as [m|] eqn:M; cbn [bind] in E; [|discriminate].
  eapply knm_trans; [|exact (IH _ E)]. eapply knm_put; [exact G|]. constructor. exact (IHl _ _ _ M).
Qed.
Lemma literal_more left_ es k v r : insert_literal_entry left_ true es k v = Ok r -> knm es r.
Proof.
  destruct left_ as [|l]; [discriminate|]. cbn [insert_literal_entry]. destruct (entry_get es k) as [x|] eqn:G; [|intros [= <-]; apply knm_more].
  destruct x as [p|xs|eo eq]; [discriminate|discriminate|]. destruct v as [p|xs|so sq]; [discriminate|discriminate|].
  destruct (merge_objects l true eo so) as [m|] eqn:M; cbn [bind]; [|discriminate]. intros [= <-].
  eapply knm_put; [exact G|]. constructor. exact (merge_more _ _ _ _ M).
Qed.
Lemma path_more : forall left_ segs es v r, insert_path_entries left_ true es segs v = Ok r -> knm es r.
Proof.
  induction left_ as [|l IH]; intros segs es v r E; [discriminate|]. cbn [insert_path_entries] in E.
  destruct segs as [|k [|k2 rest]]; [injection E as <-; apply knm_refl|exact (literal_more _ _ _ _ _ E)|].
  destruct (entry_get es k) as [x|] eqn:G.
  - destruct x as [p|xs|eo eq]; [discriminate|discriminate|].
    destruct (insert_path_entries l true eo (k2 :: rest) v) as [m|] eqn:M; cbn [bind] in E; [|discriminate]. injection E as <-.
    eapply knm_put; [exact G|]. constructor. exact (IH _ _ _ _ M).
  - destruct (insert_path_entries l true [] (k2 :: rest) v) as [m|] eqn:M; cbn [bind] in E; [|discriminate]. injection E as <-. apply knm_more.
Qed.
Lemma entry_more l q acc k v r : insert_entry l true q acc k v = Ok r -> knm acc r.
Proof. unfold insert_entry. destruct (expandable k q); [apply path_more|apply literal_more]. Qed.
Lemma go_more l q : forall es acc r, expand_go l true q acc es = Ok r -> knm acc r.
Proof.
  induction es as [|[k v] es IH]; intros acc r E; cbn [expand_go] in E; [injection E as <-; apply knm_refl|].
  destruct (expand_inner l true v) as [w|]; cbn [bind] in E; [|discriminate].
  destruct (insert_entry l true q acc k w) as [acc'|] eqn:Ei; cbn [bind] in E; [|discriminate].
  eapply knm_trans; [exact (entry_more _ _ _ _ _ _ Ei)|exact (IH _ _ E)].
Qed.

(** ** Inserting less gives less *)
Lemma merge_less : forall left_ t s s' r', uniq_es s' -> knm s s' -> merge_objects left_ true t s' = Ok r' ->
  exists r, merge_objects left_ true t s = Ok r /\ knm r r'.
Proof.
  induction left_ as [|l IHl]; intros t s s' r' U K E; [discriminate|]. rewrite merge_objects_S in *.
  assert (G : forall t', knm t t' -> map fst t = map fst t' -> (forall k, In k (map fst s') -> entry_get t k = entry_get t' k) ->
    merge_go l true t' s' = Ok r' -> exists r, merge_go l true t s = Ok r /\ knm r r').
  2: { apply (G t); [apply knm_refl|reflexivity|reflexivity|exact E]. }
  clear E. revert t U. induction K as [s'|k x y s s' Kx Ks IH]; intros t U t' Kt Ek Eg E.
  - exists t. split; [reflexivity|]. eapply knm_trans; [exact Kt|]. apply (merge_more (S l) t' s'). now rewrite merge_objects_S.
  - destruct U as [Nd Us]. cbn [map fst] in Nd, Eg. inversion Nd as [|? ? Nk Nd']; subst. inversion Us as [|? ? Ux Us']; subst. cbn [snd] in Ux.
    assert (U' : uniq_es s') by (split; assumption). cbn [merge_go] in *. assert (Eg0 := Eg k (or_introl eq_refl)). rewrite <- Eg0 in E.
    assert (Ne : forall k', In k' (map fst s') -> str_eqb k k' = false).
    { intros k' I. apply str_eqb_neq. intros ->. contradiction. }
    destruct (entry_get t k) as [e|] eqn:Et.
    + destruct e as [p|xs|eo eq]; [discriminate|discriminate|]. destruct y as [p|xs|so' sq']; [discriminate|discriminate|].
      inversion Kx as [| |so m0 sq q0 Kso]; subst. apply uniq_obj in Ux.
      destruct (merge_objects l true eo so') as [m'|] eqn:Em; cbn [bind] in E; [|discriminate].
      destruct (IHl eo so so' m' Ux Kso Em) as (m & -> & Km). cbn [bind].
      refine (IH _ U' _ _ _ _ E).
      * apply knm_set; [exact Kt|now constructor].
      * now rewrite !entry_set_keys.
      * intros k' I. rewrite (entry_get_set t k _ k' _ Et), (entry_get_set t' k _ k' _ (eq_sym Eg0)), (Ne k' I). apply Eg. now right.
    + refine (IH _ U' _ _ _ _ E).
      * now apply knm_snoc.
      * rewrite !map_app, Ek. reflexivity.
      * intros k' I. rewrite (entry_get_app t k _ k' Et), (entry_get_app t' k _ k' (eq_sym Eg0)), (Ne k' I). apply Eg. now right.
Qed.
Lemma literal_less left_ es k v v' r' : uniq v' -> kn v v' -> insert_literal_entry left_ true es k v' = Ok r' ->
  exists r, insert_literal_entry left_ true es k v = Ok r /\ knm r r'.
Proof.
  intros U K E. destruct left_ as [|l]; [discriminate|]. cbn [insert_literal_entry] in *.
  destruct (entry_get es k) as [x|] eqn:G.
  - destruct x as [p|xs|eo eq]; [discriminate|discriminate|]. destruct v' as [p|xs|so' sq']; [discriminate|discriminate|].
    inversion K as [| |so m0 sq q0 Kso]; subst. apply uniq_obj in U.
    destruct (merge_objects l true eo so') as [m'|] eqn:Em; cbn [bind] in E; [|discriminate]. injection E as <-.
    destruct (merge_less l eo so so' m' U Kso Em) as (m & -> & Km). cbn [bind]. eexists. split; [reflexivity|].
    apply knm_set; [apply knm_refl|now constructor].
  - injection E as <-. eexists. split; [reflexivity|]. apply knm_snoc; [apply knm_refl|reflexivity|exact K].
Qed.
Lemma path_less : forall left_ segs es v v' r', uniq v' -> kn v v' -> insert_path_entries left_ true es segs v' = Ok r' ->
  exists r, insert_path_entries left_ true es segs v = Ok r /\ knm r r'.
Proof.
  induction left_ as [|l IH]; intros segs es v v' r' U K E; [discriminate|]. cbn [insert_path_entries] in *.
  destruct segs as [|k [|k2 rest]]; [injection E as <-; exists es; split; [reflexivity|apply knm_refl]|exact (literal_less _ _ _ _ _ _ U K E)|].
  destruct (entry_get es k) as [x|] eqn:G.
  - destruct x as [p|xs|eo eq]; [discriminate|discriminate|].
    destruct (insert_path_entries l true eo (k2 :: rest) v') as [m'|] eqn:Em; cbn [bind] in E; [|discriminate]. injection E as <-.
    destruct (IH _ _ _ _ _ U K Em) as (m & -> & Km). cbn [bind]. eexists. split; [reflexivity|]. apply knm_set; [apply knm_refl|now constructor].
  - destruct (insert_path_entries l true [] (k2 :: rest) v') as [m'|] eqn:Em; cbn [bind] in E; [|discriminate]. injection E as <-.
    destruct (IH _ _ _ _ _ U K Em) as (m & -> & Km). cbn [bind]. eexists. split; [reflexivity|].
    apply knm_snoc; [apply knm_refl|reflexivity|now constructor].
Qed.
Lemma entry_less l q acc k v v' r' : uniq v' -> kn v v' -> insert_entry l true q acc k v' = Ok r' ->
  exists r, insert_entry l true q acc k v = Ok r /\ knm r r'.
Proof. unfold insert_entry. destruct (expandable k q); [apply path_less|apply literal_less]. Qed.

(** ** Quoted keys that are lost *)
Lemma go_app l strict q : forall a b acc, expand_go l strict q acc (a ++ b) = let? acc' := expand_go l strict q acc a in expand_go l strict q acc' b.
Proof.
  induction a as [|[k v] a IH]; intros b acc; cbn [app expand_go bind]; [reflexivity|].
  destruct (expand_inner l strict v) as [w|]; cbn [bind]; [|reflexivity]. destruct (insert_entry l strict q acc k w) as [acc'|]; cbn [bind]; auto.
Qed.
Lemma go_quoted l strict q q' : forall es, Forall (fun kv => expandable (fst kv) q = expandable (fst kv) q') es ->
  forall acc, expand_go l strict q acc es = expand_go l strict q' acc es.
Proof.
  induction 1 as [|[k v] es H _ IH]; intros acc; cbn [expand_go]; [reflexivity|]. destruct (expand_inner l strict v) as [w|]; cbn [bind]; [|reflexivity].
  cbn [fst] in H. unfold insert_entry. rewrite H. destruct (if expandable k q' then _ else _) as [acc'|]; cbn [bind]; auto.
Qed.
Notation quoted_of l := (rev (map (fun m : str * bool * doc => fst (fst m)) (filter (fun m => snd (fst m)) l))).
Lemma quoted_In k (l : list (str * bool * doc)) : In k (quoted_of l) <-> In (k, true) (map fst l).
Proof.
  rewrite <- in_rev, !in_map_iff. split.
  - intros (m & <- & I). apply filter_In in I as [I Q]. exists m. split; [|exact I]. destruct m as [[k q] d]. cbn in *. now subst.
  - intros (m & E & I). exists m. rewrite E. split; [reflexivity|]. apply filter_In. now rewrite E.
Qed.
Lemma lost_quotes k (l l' : list (str * bool * doc)) more : map fst l' = map fst l ++ more -> NoDup (map fst (map fst l')) -> In k (map fst (map fst l)) ->
  expandable k (quoted_of l) = expandable k (quoted_of l').
Proof.
  intros E Nd I. unfold expandable. f_equal. f_equal. f_equal. apply Bool.eq_true_iff_eq. rewrite !str_mem_In, !quoted_In, E, in_app_iff.
  split; [auto|]. intros [H|H]; [exact H|]. exfalso. rewrite E, map_app in Nd. apply (in_map fst) in H. cbn in H.
  clear - Nd I H. induction (map fst (map fst l)) as [|x xs IH]; [contradiction|]. cbn in Nd. inversion Nd as [|? ? N Nd']; subst.
  destruct I as [->|I]; [apply N; apply in_app_iff; now right|auto].
Qed.

Notation doc_entries l := (map (fun m : str * bool * doc => (fst (fst m), node_of (snd m))) l).
Lemma doc_keys (l : list (str * bool * doc)) : map fst (doc_entries l) = map fst (map fst l).
Proof. rewrite !map_map. reflexivity. Qed.
(** The members that are there in both are expanded alike. *)
Lemma go_common n strict (a l l' : list (str * bool * doc)) more : map fst l' = map fst l ++ more -> NoDup (map fst (map fst l')) ->
  (forall k, In k (map fst (map fst a)) -> In k (map fst (map fst l))) ->
  forall acc, expand_go n strict (quoted_of l) acc (doc_entries a) = expand_go n strict (quoted_of l') acc (doc_entries a).
Proof.
  intros E Nd Ia. apply go_quoted. apply Forall_forall. intros kv I. eapply lost_quotes; eauto. apply Ia.
  rewrite <- doc_keys. apply (in_map fst) in I. exact I.
Qed.

Lemma tree_members_keys (l : list (str * bool * tree)) : map fst (map (fun m => (fst m, tree_doc (snd m))) l) = map fst l.
Proof. rewrite map_map. reflexivity. Qed.
Lemma tree_json_keys (l : list (str * bool * tree)) : distinct_keys (tree_json (TObj l)) -> NoDup (map fst (map fst l)) /\ Forall (fun m => distinct_keys (tree_json (snd m))) l.
Proof.
  intros H. inversion H as [| |? H1 H2]; subst. rewrite map_map in H1. cbn [fst] in H1. rewrite map_map. split; [exact H1|]. now rewrite Forall_map in H2.
Qed.

Lemma expand_less : forall w v, tshort true w v -> forall n m', distinct_keys (tree_json v) ->
  expand_inner n true (node_of (tree_doc v)) = Ok m' -> exists m, expand_inner n true (node_of (tree_doc w)) = Ok m /\ kn m m'.
Proof.
  induction 1 as [a b N|a k w v b _ IH|n a b S N|n a w v b S _ IH]; intros n0 m' D E.
  - destruct n0 as [|[|n0]]; [discriminate|discriminate|]. apply tree_json_keys in D as [D _].
    cbn [tree_doc node_of] in *. rewrite expand_obj in *. rewrite !map_app, go_app in E.
    rewrite (go_common n0 true _ _ (map (fun m => (fst m, tree_doc (snd m))) (a ++ b)) (map fst b)).
    + rewrite map_app. set (q := quoted_of _) in *. destruct (expand_go n0 true q [] _) as [acc|] eqn:Ea; cbn [bind] in *; [|discriminate].
      destruct (expand_go n0 true q acc _) as [r|] eqn:Eb; cbn [bind] in E; [|discriminate]. injection E as <-. eexists. split; [reflexivity|].
      constructor. exact (go_more _ _ _ _ _ Eb).
    + rewrite !tree_members_keys, map_app. reflexivity.
    + now rewrite tree_members_keys.
    + auto.
  - destruct n0 as [|[|n0]]; [discriminate|discriminate|]. apply tree_json_keys in D as [D Dv].
    apply Forall_app in Dv as [_ Dv]. inversion Dv as [|? ? Dk _]; subst. cbn [snd] in Dk.
    cbn [tree_doc node_of] in *. rewrite expand_obj in *.
    rewrite (go_common n0 true _ _ (map (fun m => (fst m, tree_doc (snd m))) (a ++ (k, v) :: b)) (map fst b)).
    + set (q := quoted_of (map (fun m => (fst m, tree_doc (snd m))) (a ++ (k, v) :: b))) in *. clearbody q.
      rewrite !map_app, !go_app in *. cbn [map expand_go fst snd] in *.
      destruct (expand_go n0 true q [] _) as [acc|] eqn:Ea; cbn [bind] in *; [|discriminate].
      destruct (expand_inner n0 true (node_of (tree_doc v))) as [x'|] eqn:Ev; cbn [bind] in E; [|discriminate].
      destruct (IH n0 x' Dk Ev) as (x & -> & Kx). cbn [bind].
      assert (Ux : uniq x') by (eapply (expand_uniq n0); [apply le_n|exact Ev]).
      destruct (insert_entry n0 true q acc (fst k) x') as [acc1'|] eqn:Ei; cbn [bind] in E; [|discriminate].
      destruct (entry_less _ _ _ _ _ _ _ Ux Kx Ei) as (acc1 & -> & K1). cbn [bind].
      destruct (expand_go n0 true q acc1' _) as [r|] eqn:Eb; cbn [bind] in E; [|discriminate]. injection E as <-. eexists. split; [reflexivity|].
      constructor. eapply knm_trans; [exact K1|exact (go_more _ _ _ _ _ Eb)].
    + rewrite !tree_members_keys, !map_app. cbn [map fst]. rewrite <- app_assoc. reflexivity.
    + now rewrite tree_members_keys.
    + auto.
  - discriminate.
  - specialize (S eq_refl). subst b. destruct n0 as [|n0]; [discriminate|]. cbn [tree_doc node_of] in *. rewrite expand_arr in *.
    inversion D as [|? Dl|]; subst. rewrite map_app in Dl. apply Forall_app in Dl as [_ Dl]. inversion Dl as [|? ? Dv _]; subst.
    rewrite !map_app in *. cbn [map] in *. revert m' E. induction (map node_of (map tree_doc a)) as [|x xs IHa]; intros m' E; cbn [app map_result] in *.
    + destruct (expand_inner n0 true (node_of (tree_doc v))) as [y'|] eqn:Ev; cbn [bind] in E; [|discriminate]. injection E as <-.
      destruct (IH n0 y' Dv Ev) as (y & -> & Ky). cbn [bind]. eexists. split; [reflexivity|]. constructor. constructor; [exact Ky|constructor].
    + destruct (expand_inner n0 true x) as [y|]; cbn [bind] in *; [|discriminate].
      destruct (map_result (expand_inner n0 true) (xs ++ [node_of (tree_doc v)])) as [ys'|] eqn:Es; cbn [bind] in E; [|discriminate]. injection E as <-.
      destruct (IHa _ eq_refl) as (m & Em & Km). destruct (map_result (expand_inner n0 true) (xs ++ [node_of (tree_doc w)])) as [ys|]; cbn [bind] in *; [|discriminate].
      injection Em as <-. inversion Km; subst. eexists. split; [reflexivity|]. constructor. constructor; [apply kn_refl|assumption].
Qed.
