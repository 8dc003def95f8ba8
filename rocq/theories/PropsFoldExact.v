(** Which values come through folding and expansion, and which keys are left after expansion: C13, C25, C26. *)
From Verif Require Import Chars Floats Json JsonInd JsonEq Shared EncPrim Normalize Folding Encoders EncodeApi
  EventBuilder Expand DecodeApi Decoders Fixtures DecRel Lex NumProof PrimProof Spec SpecText SpecRead SpecExpand DecProps Layout LayEnc LayFacts
  EncTotal WrittenProps Checkers RoundTrip ExpandProof ExpandProps ExpandMean FoldProps PropsFold PropsExpand.
From Coq Require Import Permutation.

Local Open Scope nat_scope.

(** [key_in k v]: some object in [v] has the key [k]. *)
Inductive key_in (k : str) : json -> Prop :=
| ki_here l v : In (k, v) l -> key_in k (JObj l)
| ki_member l kv : In kv l -> key_in k (snd kv) -> key_in k (JObj l)
| ki_item l v : In v l -> key_in k v -> key_in k (JArr l).
(** [quoted_key k d]: some object of the document has the key [k] in quotes. *)
Inductive quoted_key (k : str) : doc -> Prop :=
| qk_here l x : In (k, true, x) l -> quoted_key k (DObj l)
| qk_member l m : In m l -> quoted_key k (snd m) -> quoted_key k (DObj l)
| qk_item l d : In d l -> quoted_key k d -> quoted_key k (DArr l).

(** * The keys of expanded values *)

Section Keys.
Variable P : str -> Prop.
Inductive keyed : node -> Prop :=
| kd_prim p : keyed (NPrim p)
| kd_arr l : Forall keyed l -> keyed (NArr l)
| kd_obj l q : Forall (fun kv => P (fst kv) /\ keyed (snd kv)) l -> keyed (NObj l q).
Definition keyed_es (l : list (str * node)) : Prop := Forall (fun kv => P (fst kv) /\ keyed (snd kv)) l.

Lemma get_keyed k v l : keyed_es l -> entry_get l k = Some v -> keyed v.
Proof.
  induction 1 as [|[k' w] l [_ H] _ IH]; cbn [entry_get]; [discriminate|]. destruct (str_eqb k' k); auto.
  intros E. injection E as <-. exact H.
Qed.
Lemma set_keyed k v l : keyed_es l -> keyed v -> keyed_es (entry_set l k v).
Proof.
  intros H Hv. induction H as [|[k' w] l [H1 H2] Hl IH]; cbn [entry_set]; [constructor|].
  destruct (str_eqb k' k); constructor; auto.
Qed.
Lemma add_keyed k v l : keyed_es l -> P k -> keyed v -> keyed_es (l ++ [(k, v)]).
Proof. intros H Hk Hv. apply Forall_app. split; [exact H|]. constructor; auto. Qed.
Lemma obj_keyed l q : keyed (NObj l q) -> keyed_es l.
Proof. intros H. inversion H. auto. Qed.

Lemma merge_keyed strict l : forall t s m, merge_objects l strict t s = Ok m -> keyed_es t -> keyed_es s -> keyed_es m.
Proof.
  induction l as [|l IH]; [discriminate|]. intros t s m. rewrite merge_objects_S. revert t.
  induction s as [|[k v] s IHs]; intros t E Ht Hs; cbn [merge_go] in E.
  - injection E as <-. exact Ht.
  - inversion Hs as [|? ? [Hk Hv] Hs']; subst. cbn [fst snd] in *.
    destruct (entry_get t k) as [x|] eqn:Eg; [|apply IHs in E; auto using add_keyed].
    pose proof (get_keyed _ _ _ Ht Eg) as Hx.
    assert (Other : (if strict then Err (EExpandConflict (CKey k (node_kind x) (node_kind v)))
                     else merge_go l strict (entry_set t k v) s) = Ok m -> keyed_es m).
    { destruct strict; [discriminate|]. intros E'. apply IHs in E'; auto using set_keyed. }
    destruct x as [p|xs|eo eq]; try exact (Other E). destruct v as [p|xs|so sq]; try exact (Other E).
    destruct (merge_objects l strict eo so) as [m'|] eqn:Em; [|discriminate]. cbn [bind] in E.
    apply IHs in E; auto. apply set_keyed; auto. constructor. eapply IH; eauto using obj_keyed.
Qed.
Lemma literal_keyed strict l t k v m : insert_literal_entry l strict t k v = Ok m ->
  keyed_es t -> P k -> keyed v -> keyed_es m.
Proof.
  destruct l as [|l]; [discriminate|]. cbn [insert_literal_entry]. intros E Ht Hk Hv.
  destruct (entry_get t k) as [x|] eqn:Eg; [|injection E as <-; auto using add_keyed].
  pose proof (get_keyed _ _ _ Ht Eg) as Hx.
  assert (Other : (if strict then Err (EExpandConflict (CKey k (node_kind x) (node_kind v)))
                   else Ok (entry_set t k v)) = Ok m -> keyed_es m).
  { destruct strict; [discriminate|]. intros E'. injection E' as <-. auto using set_keyed. }
  destruct x as [p|xs|eo eq]; try exact (Other E). destruct v as [p|xs|so sq]; try exact (Other E).
  destruct (merge_objects l strict eo so) as [m'|] eqn:Em; [|discriminate]. cbn [bind] in E. injection E as <-.
  apply set_keyed; auto. constructor. eapply merge_keyed; eauto using obj_keyed.
Qed.
Lemma path_keyed strict v : keyed v -> forall l t segs m, insert_path_entries l strict t segs v = Ok m ->
  keyed_es t -> Forall P segs -> keyed_es m.
Proof.
  intros Hv. induction l as [|l IH]; [discriminate|]. intros t segs m E Ht Hs. cbn [insert_path_entries] in E.
  destruct segs as [|k [|k2 r]]; [injection E as <-; auto| |].
  - inversion Hs; subst. eapply literal_keyed; eauto.
  - inversion Hs as [|? ? Hk Hr]; subst.
    assert (New : forall q g, (let? m0 := insert_path_entries l strict [] (k2 :: r) v in Ok (g (NObj m0 q))) = Ok m ->
      (forall n, keyed n -> keyed_es (g n)) -> keyed_es m).
    { intros q g E' Hg. destruct (insert_path_entries l strict [] (k2 :: r) v) as [m0|] eqn:Em; [|discriminate]. cbn [bind] in E'.
      injection E' as <-. apply Hg. constructor. eapply IH; eauto. constructor. }
    destruct (entry_get t k) as [x|] eqn:Eg.
    + pose proof (get_keyed _ _ _ Ht Eg) as Hx.
      destruct x as [p|xs|eo eq].
      * destruct strict; [discriminate|]. eapply (New [] (entry_set t k)); [exact E|]. auto using set_keyed.
      * destruct strict; [discriminate|]. eapply (New [] (entry_set t k)); [exact E|]. auto using set_keyed.
      * destruct (insert_path_entries l strict eo (k2 :: r) v) as [m0|] eqn:Em; [|discriminate]. cbn [bind] in E.
        injection E as <-. apply set_keyed; auto. constructor. eapply IH; eauto using obj_keyed.
    + eapply (New [] (fun n => t ++ [(k, n)])); [exact E|]. auto using add_keyed.
Qed.
End Keys.

Lemma keyed_json P n k : keyed P n -> key_in k (node_to_json n) -> P k.
Proof.
  induction n using node_ind'; intros Hk Hi; cbn [node_to_json] in Hi; inversion Hi as [? ? X|? ? X Y|? ? X Y]; subst; inversion Hk as [|? F|? ? F]; subst.
  - apply in_map_iff in X as (n & <- & Hn). rewrite Forall_forall in H, F. eauto.
  - apply in_map_iff in X as (n & E & Hn). injection E as <- _. rewrite Forall_forall in F. now apply F.
  - apply in_map_iff in X as (n & <- & Hn). rewrite Forall_forall in H, F. cbn [snd] in Y. eapply H; eauto. now apply F.
Qed.

Lemma segment_plain s : identifier s -> forall segs, ~ dotted s segs.
Proof.
  intros H segs D. apply dotted_contains in D. apply identifier_no_dot in H. apply H. now apply contains_In.
Qed.
Lemma expand_keyed (P : str -> Prop) strict : (forall k, (forall segs, ~ dotted k segs) -> P k) ->
  forall d n r, (forall k, quoted_key k d -> P k) -> expand_inner n strict (node_of d) = Ok r -> keyed P r.
Proof.
  intros Plain d. induction d using doc_ind'; intros n r Hq E.
  - destruct n; [discriminate|]. injection E as <-. constructor.
  - destruct n as [|n]; [discriminate|]. cbn [node_of] in E. rewrite expand_arr in E.
    destruct (map_result _ _) as [xs|] eqn:Ex; [|discriminate]. cbn [bind] in E. injection E as <-. constructor.
    assert (Hq' : Forall (fun d => forall k, quoted_key k d -> P k) l).
    { apply Forall_forall. intros d Hd k Hk. apply Hq. eapply qk_item; eauto. }
    clear Hq. revert xs Ex. induction H as [|d l Hd _ IH]; intros xs Ex; cbn [map map_result] in Ex.
    + injection Ex as <-. constructor.
    + inversion Hq'; subst. destruct (expand_inner n strict (node_of d)) as [x|] eqn:Ed; [|discriminate]. cbn [bind] in Ex.
      destruct (map_result _ _) as [xs'|] eqn:Exs; [|discriminate]. cbn [bind] in Ex. injection Ex as <-. constructor; eauto.
  - destruct n as [|[|n]]; [discriminate|discriminate|]. cbn [node_of] in E. rewrite expand_obj in E.
    set (q := rev _) in E. destruct (expand_go _ _ _ _ _) as [es|] eqn:Eg; [|discriminate]. cbn [bind] in E.
    injection E as <-. constructor.
    assert (Hk : Forall (fun m => expandable (fst (fst m)) q = false -> P (fst (fst m))) l).
    { apply Forall_forall. intros [[k b] x] Hi He. cbn [fst] in *.
      destruct (in_dec (list_eq_dec N.eq_dec) k q) as [I|I].
      - apply quoted_In in I as (y & I). apply Hq. eapply qk_here; eauto.
      - apply Plain. intros segs D. rewrite (expandable_dotted _ _ _ D I) in He. discriminate. }
    assert (Hq' : Forall (fun m => forall k, quoted_key k (snd m) -> P k) l).
    { apply Forall_forall. intros m Hm k Hk'. apply Hq. eapply qk_member; eauto. }
    clear Hq. clearbody q. assert (Ha : keyed_es P []) by constructor. fold (keyed_es P es).
    revert Eg Ha. generalize (@nil (str * node)) as acc.
    induction H as [|[[k b] x] l Hd _ IH]; intros acc Eg Ha; cbn [map expand_go fst snd] in Eg.
    + injection Eg as <-. exact Ha.
    + inversion Hq' as [|? ? Hq1 Hq2]; inversion Hk as [|? ? Hk1 Hk2]; subst. cbn [fst snd] in *.
      destruct (expand_inner n strict (node_of x)) as [v|] eqn:Ev; [|discriminate]. cbn [bind] in Eg.
      destruct (insert_entry n strict q acc k v) as [acc'|] eqn:Ei; [|discriminate]. cbn [bind] in Eg.
      apply IH in Eg; auto. pose proof (Hd _ _ Hq1 Ev) as Hv. unfold insert_entry in Ei.
      destruct (expandable k q) eqn:Ek.
      * eapply path_keyed; eauto. apply expandable_true in Ek as [_ (_ & _ & F)]. eapply Forall_impl; [|exact F].
        intros a Hi. apply Plain. now apply segment_plain.
      * eapply literal_keyed; eauto.
Qed.

Lemma safe_keyed (P : str -> Prop) strict d r : (forall k, (forall segs, ~ dotted k segs) -> P k) ->
  (forall k, quoted_key k d -> P k) -> expand_paths_safe (node_of d) strict = Ok r -> keyed P r.
Proof. unfold expand_paths_safe. generalize MAX_EXPAND_DEPTH. intros n H1 H2. exact (expand_keyed P strict H1 d n r H2). Qed.

(** ** C25 *)

(** A dotted path that is still a key after expansion was in quotes in the text. *)
Theorem C25_no_path_left :
  forall (text : str) (indent : option nat) (strict : option bool) (w : json),
    try_decode text (Some (DecOpts indent strict (Some EPSafe))) = Ok w ->
    exists tr, reads parse_f64 (unwrap_or strict true) (unwrap_or indent 2) text tr /\
      forall k segs, key_in k w -> dotted k segs -> quoted_key k (tree_doc tr).
Proof.
  intros text indent strict w E. pose proof (expanding_reads text indent strict) as H. rewrite E in H.
  destruct H as (tr & r & Hr & Er & ->). exists tr. split; [exact Hr|]. intros k segs Hi Hd.
  assert (K : keyed (fun k => (exists segs, dotted k segs) -> quoted_key k (tree_doc tr)) r).
  { refine (safe_keyed _ _ _ _ _ _ Er); cbv beta.
    - intros k' Hn (sg & D). now apply Hn in D.
    - intros k' Hq _. exact Hq. }
  apply (keyed_json _ _ _ K Hi). now exists segs.
Qed.
Print Assumptions C25_no_path_left.

Fixpoint key_inb (k : str) (v : json) : bool :=
  match v with
  | JPrim _ => false
  | JArr l => existsb (key_inb k) l
  | JObj l => existsb (fun kv => str_eqb (fst kv) k || key_inb k (snd kv)) l
  end.
Lemma key_inb_ok k v : key_in k v -> key_inb k v = true.
Proof.
  induction v using json_ind'; intros Hi; inversion Hi as [? x X|? kv X Y|? x X Y]; subst; cbn [key_inb]; apply existsb_exists.
  - exists x. split; [exact X|]. rewrite Forall_forall in H. auto.
  - exists (k, x). split; [exact X|]. cbn [fst]. now rewrite str_eqb_refl.
  - exists kv. split; [exact X|]. rewrite Forall_forall in H. rewrite (H _ X Y). apply orb_true_r.
Qed.
(** The same path in quotes and without, in different objects. *)
Example C25_path_left_case :
  exists w, try_decode (lit "x.y:
  ""a.b"": 1
  c.d: 2
a.b: 3") (Some (DecOpts None None (Some EPSafe))) = Ok w /\
    key_in (lit "a.b") w /\ ~ key_in (lit "c.d") w /\ ~ key_in (lit "x.y") w.
Proof.
  eexists. split; [vm_compute; reflexivity|]. split.
  - eapply ki_member; [left; reflexivity|]. eapply ki_member; [left; reflexivity|]. eapply ki_here. left. reflexivity.
  - split; intros H; apply key_inb_ok in H; vm_compute in H; discriminate.
Qed.

(** ** C13 *)

Lemma plain_undotted n : keyed (fun k => forall segs, ~ dotted k segs) n -> undotted (node_to_json n).
Proof.
  induction n using node_ind'; intros K; cbn [node_to_json]; inversion K as [|? F|? ? F]; subst; constructor;
    apply Forall_map; rewrite Forall_forall in *; cbn [fst snd]; try (intros x Hx; apply F in Hx as Hy); try tauto; firstorder.
Qed.
Lemma quoted_plain w k : quoted_key k (jdoc w) -> forall segs, ~ dotted k segs.
Proof.
  induction w using json_ind'; cbn [jdoc]; intros Hq; inversion Hq as [? x X|? m X Y|? d X Y]; subst.
  - apply in_map_iff in X as (d' & <- & X). rewrite Forall_forall in H. eauto.
  - apply in_map_iff in X as (kv & E & X). injection E as <- Ev _. intros segs D. apply dotted_valid in D. rewrite D in Ev. discriminate.
  - apply in_map_iff in X as (kv & <- & X). cbn [snd] in Y. rewrite Forall_forall in H. eauto.
Qed.
(** Whatever a value is, after encoding and expanding it no key is a path. *)
Lemma expanded_undotted w strict r : expand_paths_safe (node_of (jdoc w)) strict = Ok r -> undotted (node_to_json r).
Proof.
  intros E. apply plain_undotted. refine (safe_keyed _ strict _ _ _ _ E); auto. intros k. apply quoted_plain.
Qed.

Lemma jequiv_undotted v : forall w, jequiv v w -> undotted w -> undotted v.
Proof.
  induction v using json_ind'; intros w J U; inversion J as [|? m F|? l' m P F]; subst; [constructor| |]; inversion U as [|? Ul|? Uk Ul]; subst.
  - constructor. clear J U. induction F; constructor; inversion H; inversion Ul; subst; eauto.
  - clear J U. apply (Permutation_Forall P) in H.
    assert (Forall (fun kv => forall segs, ~ dotted (fst kv) segs) l' /\ Forall (fun kv => undotted (snd kv)) l') as [A B].
    { clear P. induction F as [|a b l' m [E R] F IH]; [split; constructor|]. inversion H; inversion Uk; inversion Ul; subst.
      destruct IH as [A B]; auto. split; constructor; eauto. now rewrite E. }
    symmetry in P. constructor; eapply Permutation_Forall; eauto.
Qed.
Lemma norm_undotted_inv v : forall w, norm_json v w -> undotted w -> undotted v.
Proof.
  induction v using json_ind'; intros w Hn Hu; inversion Hn as [|? ? F|? ? F]; subst; [constructor| |];
    inversion Hu as [|? U|? K U]; subst; constructor; clear Hn Hu.
  - induction F; constructor; inversion H; inversion U; subst; eauto.
  - clear - F K. induction F as [|a b l m [E _] F IH]; constructor; inversion K; subst; auto. now rewrite E.
  - clear K. induction F as [|a b l m [E R] F IH]; constructor; inversion H; inversion U; subst; eauto.
Qed.

Lemma expanding_text (ls : list str) (w : json) eo d : expanding_options eo d -> Forall (fun s => ~ In cLF s) ls ->
  (forall strict, decode_stream_sync ls (Some (DStreamOpts (Some (ro_indent (resolve_encode_options eo))) (Some strict)))
                   = Ok (emit_events w)) ->
  try_decode (join cLF ls) d =
  (let? m := expand_paths_safe (node_of (jdoc w)) (rd_strict (resolve_decode_options d)) in Ok (node_to_json m)).
Proof.
  intros [Hi He] Hlf D. unfold try_decode. rewrite decode_expanding by exact He. rewrite stream_text by exact Hlf.
  rewrite Hi, D. cbn [bind]. rewrite (spells_node _ _ (emit_spells w)). reflexivity.
Qed.

(** Among the portable values within the depth limit, folding and expanding gives the value back, up
    to the order of members, exactly for those where no key is a dotted path. *)
Theorem C13_fold_expand_exactly :
  forall (fuel : nat) (v : json) (eo : option encode_options) (d : option decode_options),
    folding_options eo -> expanding_options eo d -> distinct_keys v -> portable v -> levels v <= 256 ->
    (undotted v <->
     exists text n w, encode fuel v eo = Ok text /\ norm_json v n /\ try_decode text d = Ok w /\ jequiv n w).
Proof.
  intros fuel v eo d Ho He Hk Hp Hl. split.
  - intros Hu. destruct (C13_fold_expand_lossless fuel v eo d Ho He Hk Hp Hu Hl) as (text & n & w & H1 & H2 & H3 & H4).
    exists text, n, w. split; [exact H1|]. split; [exact H2|]. split; [exact H3|]. now apply table_ordered_jequiv.
  - intros (text & n & w & H1 & H2 & H3 & H4). destruct (encode_folded fuel v eo Ho Hk Hp) as (ls & x & E & Hlf & _ & D).
    unfold encode in H1. rewrite E in H1. injection H1 as <-. rewrite (expanding_text ls x eo d He Hlf D) in H3.
    destruct (expand_paths_safe _ _) as [r|] eqn:Er; [|discriminate]. cbn [bind] in H3. injection H3 as <-.
    apply expanded_undotted in Er. eapply norm_undotted_inv; [exact H2|]. eapply jequiv_undotted; eauto.
Qed.
Print Assumptions C13_fold_expand_exactly.

(** ** C26 *)

(** Expansion goes as deep as the document. *)
Lemma expand_needs_levels strict d : forall n r, expand_inner n strict (node_of d) = Ok r -> levels (doc_json d) <= n.
Proof.
  induction d using doc_ind'; intros n r E.
  - destruct n; [discriminate|]. cbn. lia.
  - destruct n as [|n]; [discriminate|]. cbn [node_of] in E. rewrite expand_arr in E.
    destruct (map_result _ _) as [xs|] eqn:Ex; [|discriminate]. cbn [doc_json levels]. apply le_n_S. apply list_max_le.
    rewrite map_map. apply Forall_map. clear E. revert xs Ex.
    induction H as [|d l Hd _ IH]; intros xs Ex; [constructor|]. cbn [map map_result] in Ex.
    destruct (expand_inner n strict (node_of d)) as [x|] eqn:Ed; [|discriminate]. cbn [bind] in Ex.
    destruct (map_result _ _) as [xs'|] eqn:Exs; [|discriminate]. constructor; eauto.
  - destruct n as [|[|n]]; [discriminate|discriminate|]. cbn [node_of] in E. rewrite expand_obj in E.
    set (q := rev _) in E. destruct (expand_go _ _ _ _ _) as [es|] eqn:Eg; [|discriminate]. clear E.
    cbn [doc_json levels]. do 2 apply le_n_S. apply list_max_le. rewrite map_map. apply Forall_map. cbn [snd].
    clearbody q. revert Eg. generalize (@nil (str * node)) as acc.
    induction H as [|[[k b] x] l Hd _ IH]; intros acc Eg; [constructor|]. cbn [map expand_go fst snd] in Eg.
    destruct (expand_inner n strict (node_of x)) as [v|] eqn:Ev; [|discriminate]. cbn [bind] in Eg.
    destruct (insert_entry n strict q acc k v) as [acc'|] eqn:Ei; [|discriminate]. cbn [bind] in Eg.
    constructor; [exact (Hd _ _ Ev)|]. eapply IH; eauto.
Qed.
Lemma safe_needs_levels strict d r : expand_paths_safe (node_of d) strict = Ok r -> levels (doc_json d) <= 256.
Proof. unfold expand_paths_safe, MAX_EXPAND_DEPTH. generalize 256. intros n. apply expand_needs_levels. Qed.

Lemma jequiv_levels v : forall w, jequiv v w -> levels w = levels v.
Proof.
  assert (M : forall a b, Permutation a b -> list_max a = list_max b).
  { induction 1; cbn [list_max fold_right]; unfold list_max in *; cbn [fold_right]; lia. }
  induction v using json_ind'; intros w J; inversion J as [|? m F|? l' m P F]; subst; [reflexivity| |]; cbn [levels].
  - f_equal. f_equal. clear J. induction F; [reflexivity|]. inversion H; subst. cbn [map]. f_equal; auto.
  - f_equal. f_equal. rewrite (M _ _ (Permutation_map (fun m => levels (snd m)) P)). f_equal. apply (Permutation_Forall P) in H.
    clear J P. induction F as [|a b l' m [_ R] F IH]; [reflexivity|]. inversion H; subst. cbn [map]. f_equal; auto.
Qed.
Lemma jequiv_distinct v : forall w, jequiv v w -> distinct_keys v -> distinct_keys w.
Proof.
  induction v using json_ind'; intros w J D; inversion J as [|? m F|? l' m P F]; subst; [constructor| |]; inversion D as [|? Dl|? Dk Dl]; subst; constructor.
  - clear J D. induction F; constructor; inversion H; inversion Dl; subst; auto.
  - apply (Permutation_NoDup (Permutation_map fst P)) in Dk. clear - F Dk.
    replace (map fst m) with (map fst l'); [exact Dk|]. clear Dk. induction F as [|a b l' m [E _] F IH]; [reflexivity|]. cbn [map]. f_equal; auto.
  - apply (Permutation_Forall P) in H. apply (Permutation_Forall P) in Dl. clear - F H Dl.
    induction F as [|a b l' m [_ R] F IH]; constructor; inversion H; inversion Dl; subst; auto.
Qed.

(** What is written without folding and read with expansion: the value comes back exactly when no key
    is a dotted path and the value is within the depth limit. *)
Theorem C26_unfolded_expand_exactly :
  forall (fuel : nat) (v : json) (eo : option encode_options) (d : option decode_options),
    plain_options eo -> expanding_options eo d -> distinct_keys v -> portable v ->
    (undotted v /\ levels v <= 256 <->
     exists text n w, encode fuel v eo = Ok text /\ norm_json v n /\ try_decode text d = Ok w /\ jequiv n w).
Proof.
  intros fuel v eo d Ho He Hk Hp. destruct (round_trip fuel v eo Ho Hk Hp) as (ls & x & E & Hlf & W & D).
  pose proof (normalize_spec v) as Hn. pose proof (norm_distinct _ _ Hn Hk) as Hkn. set (n := normalize_json_value v) in *.
  pose proof (expanding_text ls x eo d He Hlf D) as T.
  assert (J : jequiv n x) by (apply table_ordered_jequiv; eapply written_ordered; eauto). split.
  - intros [Hu Hl]. exists (join cLF ls), n.
    destruct (expand_safe_identity (jdoc x) (rd_strict (resolve_decode_options d))) as (r & Er & Ej).
    + apply undotted_jdoc. apply (jequiv_undotted x n); [now apply jequiv_sym|]. eapply norm_undotted; eauto.
    + rewrite jdoc_json. eapply jequiv_distinct; eauto.
    + rewrite jdoc_json, (jequiv_levels _ _ J), (norm_levels _ _ Hn). exact Hl.
    + exists x. split; [unfold encode; now rewrite E|]. split; [exact Hn|]. split; [|exact J].
      rewrite T, Er. cbn [bind]. now rewrite Ej, jdoc_json.
  - intros (text & n' & w & H1 & H2 & H3 & H4).
    unfold encode in H1. rewrite E in H1. injection H1 as <-. rewrite T in H3.
    destruct (expand_paths_safe _ _) as [r|] eqn:Er; [|discriminate]. cbn [bind] in H3. injection H3 as <-.
    pose proof (safe_needs_levels _ _ _ Er) as L. rewrite jdoc_json, (jequiv_levels _ _ J), (norm_levels _ _ Hn) in L.
    split; [|exact L]. apply expanded_undotted in Er. eapply norm_undotted_inv; [exact H2|]. eapply jequiv_undotted; eauto.
Qed.
Print Assumptions C26_unfolded_expand_exactly.

(** A literal path beside keys that are none: it comes back as nested objects, with folding or without. *)
Example C13_dotted_case :
  let eo := Some (EncOpts None None (Some KFSafe) None None) in
  let d := Some (DecOpts None None (Some EPSafe)) in
  let v := JObj [(lit "a.b", JPrim (PBool true)); (lit "1.2", JPrim PNull); (lit "c", JObj [(lit "d e", JObj [])])] in
  folding_options eo /\ expanding_options eo d /\ plain_options None /\ expanding_options None d /\
  distinct_keys v /\ portable v /\ levels v <= 256 /\ ~ undotted v /\
  (exists text, encode 0 v eo = Ok text /\ try_decode text d =
    Ok (JObj [(lit "a", JObj [(lit "b", JPrim (PBool true))]); (lit "1.2", JPrim PNull); (lit "c", JObj [(lit "d e", JObj [])])])).
Proof.
  cbv zeta. split; [repeat split; try discriminate; left; reflexivity|]. split; [split; reflexivity|].
  split; [repeat split; try discriminate; left; reflexivity|]. split; [split; reflexivity|].
  match goal with |- ?A /\ _ => assert (H : A) by (apply distinctb_ok; vm_compute; reflexivity) end.
  split; [exact H|]. split; [apply portableb_ok; [exact H|reflexivity]|]. split; [cbn; lia|]. split.
  - intros U. inversion U as [| |? K _]; subst. inversion K as [|? ? K1]; subst. cbn [fst] in K1.
    apply (K1 [lit "a"; lit "b"]). split; [reflexivity|]. split; [cbn; lia|].
    repeat constructor; apply identifier_spec; reflexivity.
  - eexists. split; [vm_compute; reflexivity|]. vm_compute. reflexivity.
Qed.
