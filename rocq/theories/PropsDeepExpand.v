(** C74: a text under a key, decoded with path expansion. *)
From Verif Require Import Chars Floats Json Shared Scanner Parser DecValidation Decoders EventBuilder Expand DecodeApi
  Lex Spec DecProps DecRel ParseProof SpecText SpecRead ReadLex ReadHead ReadLine ReadProof SpecError ErrLex ErrProof SpecCut PropsUnread CutProof
  SpecJoin JoinProof PropsJoin SpecDeep DeepProof KeyedProof ItemsProof PropsDeep
  SpecExpand ExpandProof ExpandProps ExpandMean PropsFold PropsExpand PropsEditExpand.

Local Open Scope nat_scope.

(** ** The depth limit *)
Definition lower {A} (r r' : result A) : Prop := r = Err EExpandDepth \/ r = r'.
Lemma lower_refl {A} (r : result A) : lower r r. Proof. now right. Qed.
Lemma lower_bind {A B} (r r' : result A) (f f' : A -> result B) : lower r r' -> (forall a, lower (f a) (f' a)) -> lower (let? a := r in f a) (let? a := r' in f' a).
Proof. intros [->| ->] H; [now left|]. destruct r' as [a|e]; cbn [bind]; [apply H|now right]. Qed.
Lemma lower_merge strict : forall l l', l <= l' -> forall t s, lower (merge_objects l strict t s) (merge_objects l' strict t s).
Proof.
  induction l as [|l IH]; intros l' L t s; [now left|]. destruct l' as [|l']; [lia|]. rewrite !merge_objects_S.
  revert t. induction s as [|[k v] r IHs]; intros t; cbn [merge_go]; [apply lower_refl|].
  destruct (entry_get t k) as [[p|items|eo eq]|]; try apply IHs; try (destruct strict; [apply lower_refl|apply IHs]).
  destruct v as [p|items|so sq]; try (destruct strict; [apply lower_refl|apply IHs]).
  apply lower_bind; [apply IH; lia|]. intros m. apply IHs.
Qed.
Lemma lower_literal strict l l' : l <= l' -> forall es k v, lower (insert_literal_entry l strict es k v) (insert_literal_entry l' strict es k v).
Proof.
  intros L es k v. destruct l as [|l]; [now left|]. destruct l' as [|l']; [lia|]. cbn [insert_literal_entry].
  destruct (entry_get es k) as [[p|items|eo eq]|]; try apply lower_refl.
  destruct v as [p|items|so sq]; try apply lower_refl. apply lower_bind; [apply lower_merge; lia|]. intros m. apply lower_refl.
Qed.
Lemma lower_path strict : forall l l', l <= l' -> forall segs es v, lower (insert_path_entries l strict es segs v) (insert_path_entries l' strict es segs v).
Proof.
  induction l as [|l IH]; intros l' L segs es v; [now left|]. destruct l' as [|l']; [lia|]. cbn [insert_path_entries].
  destruct segs as [|k [|k2 rest]]; [apply lower_refl|apply lower_literal; lia|].
  destruct (entry_get es k) as [[p|items|eo eq]|]; try (destruct strict; [apply lower_refl|]);
    (apply lower_bind; [apply IH; lia|intros m; apply lower_refl]).
Qed.
Lemma lower_entry strict l l' q : l <= l' -> forall es k v, lower (insert_entry l strict q es k v) (insert_entry l' strict q es k v).
Proof. intros L es k v. unfold insert_entry. destruct (expandable k q); [now apply lower_path|now apply lower_literal]. Qed.
Lemma lower_expand strict : forall l l', l <= l' -> forall x, lower (expand_inner l strict x) (expand_inner l' strict x).
Proof.
  intros l. induction l as [l IH] using lt_wf_ind. intros l' L x. destruct l as [|l]; [now left|]. destruct l' as [|l']; [lia|].
  destruct x as [p|items|es q]; [apply lower_refl| |].
  - rewrite !expand_arr. apply lower_bind; [|intros; apply lower_refl].
    induction items as [|x r IHr]; [apply lower_refl|]. cbn [map_result]. apply lower_bind; [apply IH; lia|]. intros y.
    apply lower_bind; [exact IHr|]. intros; apply lower_refl.
  - destruct l as [|l]; [now left|]. destruct l' as [|l']; [lia|]. rewrite !expand_obj. apply lower_bind; [|intros; apply lower_refl].
    generalize (@nil (str * node)). induction es as [|[k v] r IHr]; intros acc; cbn [expand_go]; [apply lower_refl|].
    apply lower_bind; [apply IH; lia|]. intros y. apply lower_bind; [apply lower_entry; lia|]. intros acc'. apply IHr.
Qed.

(** ** One member *)
Definition chain_of (segs : list str) (v : node) : node := fold_right (fun s x => NObj [(s, x)] []) v segs.
Lemma chain_json segs v : node_to_json (chain_of segs v) = along segs (node_to_json v).
Proof. induction segs as [|s r IH]; [reflexivity|]. change (JObj [(s, node_to_json (chain_of r v))] = JObj [(s, along r (node_to_json v))]). now rewrite IH. Qed.
Lemma literal_first l strict k v : lower (insert_literal_entry l strict [] k v) (Ok [(k, v)]).
Proof. destruct l as [|l]; [now left|now right]. Qed.
Lemma path_first strict v : forall l s segs, lower (let? es := insert_path_entries l strict [] (s :: segs) v in Ok (NObj es [])) (Ok (chain_of (s :: segs) v)).
Proof.
  induction l as [|l IH]; intros s segs; [now left|]. cbn [insert_path_entries]. destruct segs as [|s2 r].
  - destruct (literal_first l strict s v) as [-> | ->]; [now left|now right].
  - cbn [entry_get]. destruct (IH s2 r) as [E|E].
    + destruct (insert_path_entries l strict [] (s2 :: r) v); cbn [bind] in *; [discriminate|]. left. congruence.
    + destruct (insert_path_entries l strict [] (s2 :: r) v) as [m|]; cbn [bind] in *; [|discriminate]. injection E as E. right. rewrite E. reflexivity.
Qed.
Lemma one_member n strict k q x path : (q = false /\ dotted k path) \/ (path = [k] /\ (q = true \/ forall segs, ~ dotted k segs)) ->
  lower (let? m := expand_inner n strict (NObj [(k, x)] (if q then [k] else [])) in Ok (node_to_json m))
        (let? v := (let? m := expand_inner n strict x in Ok (node_to_json m)) in Ok (along path v)).
Proof.
  intros P. destruct n as [|[|n]]; [now left|now left|]. rewrite expand_obj. cbn [expand_go].
  destruct (lower_expand strict n (S (S n)) ltac:(lia) x) as [-> | ->]; [now left|].
  destruct (expand_inner (S (S n)) strict x) as [v|e]; cbn [bind]; [|now right].
  assert (G : lower (let? es := insert_entry n strict (if q then [k] else []) [] k v in Ok (NObj es [])) (Ok (chain_of path v))).
  { unfold insert_entry. destruct P as [[-> D]|[-> D]].
    - rewrite (expandable_dotted _ [] _ D) by tauto. rewrite (dotted_split _ _ D). destruct D as (_ & L & _). destruct path as [|s r]; [cbn in L; lia|]. apply path_first.
    - destruct (expandable k (if q then [k] else [])) eqn:X.
      + apply expandable_true in X as [X1 X2]. exfalso. destruct D as [-> |D]; [apply X1; now left|exact (D _ X2)].
      + destruct (literal_first n strict k v) as [-> | ->]; [now left|now right]. }
  destruct (insert_entry n strict _ [] k v) as [es|e]; cbn [bind] in *.
  - destruct G as [G|G]; [discriminate|]. injection G as ->. right. now rewrite chain_json.
  - destruct G as [G|G]; [|discriminate]. injection G as ->. now left.
Qed.
Lemma one_member_safe strict k q x path : (q = false /\ dotted k path) \/ (path = [k] /\ (q = true \/ forall segs, ~ dotted k segs)) ->
  lower (let? m := expand_paths_safe (NObj [(k, x)] (if q then [k] else [])) strict in Ok (node_to_json m))
        (let? v := (let? m := expand_paths_safe x strict in Ok (node_to_json m)) in Ok (along path v)).
Proof. unfold expand_paths_safe. apply one_member. Qed.

Lemma plain_err lines indent strict e : try_decode_from_lines lines (Some (DecOpts indent strict None)) = Err e ->
  forall expand, try_decode_from_lines lines (Some (DecOpts indent strict expand)) = Err e.
Proof.
  intros H expand. unfold try_decode_from_lines in *. cbv zeta in *.
  cbn [resolve_decode_options unwrap_or do_indent do_strict do_expand rd_indent rd_strict rd_expand] in *.
  destruct (decode_stream_sync _ _) as [evs|e'] eqn:E; cbn [bind] in *; [|exact H].
  apply stream_spec in E as (ls' & bs' & tr & _ & _ & ->).
  destruct (describes_build _ _ _ (tree_describes tr)) as (n & En & Ev). rewrite En in H. discriminate.
Qed.

(** With path expansion: the text is put at the path that the key before it is.  A key in quotes is a
    path of one key, and so is one that is not names with dots between them.  Only the limit on the depth can
    come in between. *)
Theorem C74_under_path :
  forall (t k : str) (path : list str) (b : list str) (indent : option nat) (strict : option bool),
    unwrap_or indent 2 <> 0 -> starts_unindented b -> starts_object b -> opens t k -> opens_path t k path ->
    let safe := fun lines => try_decode_from_lines lines (Some (DecOpts indent strict (Some EPSafe))) in
    let under := t :: deeper (unwrap_or indent 2) b in
    safe under = match safe b with Ok v => Ok (along path v) | Err e => Err (deeper_error (unwrap_or indent 2) e) end \/
    (safe under = Err EExpandDepth /\
     exists evs dc, decode_stream_sync under (Some (DStreamOpts (Some (unwrap_or indent 2)) (Some (unwrap_or strict true)))) = Ok evs /\
       spells evs dc /\ 256 < doc_levels dc).
Proof.
  intros t k path b indent strict Hz Ub Ob O P safe under.
  destruct (try_decode_from_lines b (Some (DecOpts indent strict None))) as [v0|e] eqn:Hb.
  2: { left. pose proof (plain_err _ _ _ _ Hb (Some EPSafe)) as Eb. unfold safe at 2. rewrite Eb.
       apply plain_err. exact (C74_faults t k b e indent strict None ltac:(discriminate) Hz Ub Ob O Hb). }
  destruct (lines_ok_inv _ (Some (DecOpts indent strict None)) _ eq_refl Hb) as (ls & bs & tr & Sb & R & _).
  cbn [resolve_decode_options unwrap_or do_indent do_strict do_expand rd_indent rd_strict rd_expand] in Sb, R.
  assert (First : forall l r, ls = l :: r -> tl_depth l = 0 /\ has_colon (tl_text l) /\ ~ begins cLBRACK (tl_text l)).
  { intros l r E. split; [exact (scans_depth _ _ _ _ _ _ Sb Ub _ _ E)|].
    destruct (first_line _ _ _ _ _ _ Sb Ub _ _ E) as (bl & rest & E1 & E2 & E3). exact (Ob _ _ _ E1 E2 E3). }
  assert (X : exists ms rest, tr = TObj ms /\ members parse_f64 (unwrap_or strict true) bs false 0 ls ms rest).
  { destruct R as [|x ls h tail v rest B Q Hh A|x p' N C _|x ls m ls1 ms rest N C M Rs].
    - exists [], []. split; [reflexivity|]. apply ms_end. intros ? ? [=].
    - exfalso. now apply (First _ _ eq_refl).
    - exfalso. apply C. now apply (First _ _ eq_refl).
    - exists (m :: ms), rest. split; [reflexivity|]. apply ms_more with ls1; [now apply (First _ _ eq_refl)|intros [[=] _]|exact M|exact Rs]. }
  destruct X as (ms & rest & -> & M).
  set (d := Some (DecOpts indent strict (Some EPSafe))).
  destruct (root_under d Hz b ls bs Sb Ub t k ms rest O M) as (q & r & K & Ru).
  pose proof (opens_scans d Hz t k b ls bs O Sb) as Su.
  assert (Pq : (q = false /\ dotted k path) \/ (path = [k] /\ (q = true \/ forall segs, ~ dotted k segs))).
  { assert (Kq : (q = true /\ exists b0, t = cDQ :: b0) \/ (q = false /\ forall b0, t <> cDQ :: b0)) by (destruct K; [left|right]; eauto).
    clear - P Kq. destruct Kq as [(-> & b0 & E)|(-> & N)]; destruct P as [path N' D|r' E'|N' D]; auto.
    - exfalso. exact (N' _ E).
    - exfalso. exact (N _ E'). }
  assert (Eb := stream_expanded _ indent strict _ _ _ Sb R). assert (Eu := stream_expanded _ indent strict _ _ _ Su Ru).
  assert (L := one_member_safe (unwrap_or strict true) k q (node_of (tree_doc (TObj ms))) path Pq).
  assert (En : node_of (tree_doc (TObj [(k, q, TObj ms)])) = NObj [(k, node_of (tree_doc (TObj ms)))] (if q then [k] else [])) by (destruct q; reflexivity).
  rewrite <- En in L. fold (safe b) in Eb. fold (safe under) in Eu.
  change (safe b = let? m := expand_paths_safe (node_of (tree_doc (TObj ms))) (unwrap_or strict true) in Ok (node_to_json m)) in Eb.
  change (safe under = let? m := expand_paths_safe (node_of (tree_doc (TObj [(k, q, TObj ms)]))) (unwrap_or strict true) in Ok (node_to_json m)) in Eu.
  destruct L as [L|L].
  - right. split; [exact (eq_trans Eu L)|]. exists (tree_events (TObj [(k, q, TObj ms)])), (tree_doc (TObj [(k, q, TObj ms)])).
    split; [apply stream_spec; eauto 7|]. split; [apply tree_spells|].
    destruct (Nat.lt_ge_cases 256 (doc_levels (tree_doc (TObj [(k, q, TObj ms)])))) as [G|G]; [exact G|]. exfalso.
    apply (safe_fine (unwrap_or strict true) _ G). clear - L. revert L. generalize (expand_paths_safe (node_of (tree_doc (TObj [(k, q, TObj ms)]))) (unwrap_or strict true)).
    intros [m|e] L; cbn [bind] in L; [discriminate|congruence].
  - left. rewrite Eu, L. rewrite Eb. pose proof (safe_verdict (unwrap_or strict true) (tree_doc (TObj ms))) as V. revert V.
    generalize (expand_paths_safe (node_of (tree_doc (TObj ms))) (unwrap_or strict true)). intros [m|e] V; cbn [bind]; [reflexivity|].
    destruct e; cbn in V; try contradiction; reflexivity.
Qed.
Print Assumptions C74_under_path.

(** A path before a text with paths; the same key in quotes; and a text with a conflict. *)
Definition paths_case : list str := [lit "a.b: true"; lit "a.c: true"].
Lemma opens_dotted : opens (lit "x.y:") (lit "x.y") /\ opens_path (lit "x.y:") (lit "x.y") [lit "x"; lit "y"].
Proof.
  split; [split; [|split; [|split; discriminate]]|].
  - exists false, []. split; [left; apply header_none; vm_compute; reflexivity|]. split; [|constructor].
    apply (kl_bare _ (lit "x.y")); [discriminate|split; [reflexivity|cbn; intuition discriminate]|]. apply trims_spec. reflexivity.
  - intros (w & r & E & Hw). destruct w as [|c w]; [discriminate|]. injection E as <- _. inversion Hw; subst. discriminate.
  - apply op_dotted; [discriminate|]. split; [reflexivity|]. split; [cbn; lia|].
    repeat apply Forall_cons; [| |apply Forall_nil]; apply identifier_spec; vm_compute; reflexivity.
Qed.
Lemma opens_dotted_quoted : opens (lit """x.y"":") (lit "x.y") /\ opens_path (lit """x.y"":") (lit "x.y") [lit "x.y"].
Proof.
  split; [split; [|split; [|split; discriminate]]|].
  - exists true, []. split; [left; apply header_none; vm_compute; reflexivity|]. split; [|constructor].
    apply (kl_quoted _ (lit "x.y") (lit "x.y")); [reflexivity|]. repeat (constructor; [discriminate|discriminate|]). constructor.
  - intros (w & r & E & Hw). destruct w as [|c w]; [discriminate|]. injection E as <- _. inversion Hw; subst. discriminate.
  - eapply op_quoted. reflexivity.
Qed.
Lemma paths_case_starts : starts_unindented paths_case /\ starts_object paths_case.
Proof.
  assert (H : forall bl l r, paths_case = bl ++ l :: r -> Forall blank bl -> ~ blank l -> l = lit "a.b: true").
  { intros [|x bl] l r E B _; [now injection E|]. exfalso. injection E as <- _. inversion B as [|? ? B' _]; subst. inversion B'; discriminate. }
  split; intros bl l r E B N; rewrite (H _ _ _ E B N).
  - discriminate.
  - split; [right; split; [discriminate|cbn; auto 10]|].
    intros (w & s & E' & Hw). destruct w as [|c w]; [discriminate|]. injection E' as <- _. inversion Hw; subst. discriminate.
Qed.
Example C74_under_path_case :
  let safe := fun lines => try_decode_from_lines lines (Some (DecOpts None None (Some EPSafe))) in
  let t := JPrim (PBool true) in let v := JObj [(lit "a", JObj [(lit "b", t); (lit "c", t)])] in
  let clash := [lit "a: true"; lit "a.b: true"] in
  safe paths_case = Ok v /\
  safe (lit "x.y:" :: deeper 2 paths_case) = Ok (JObj [(lit "x", JObj [(lit "y", v)])]) /\
  safe (lit """x.y"":" :: deeper 2 paths_case) = Ok (JObj [(lit "x.y", v)]) /\
  safe clash = Err (EExpandConflict (CSegment (lit "a") KPrim)) /\
  safe (lit "x.y:" :: deeper 2 clash) = Err (EExpandConflict (CSegment (lit "a") KPrim)).
Proof. cbv zeta. repeat split; vm_compute; reflexivity. Qed.

(** At the limit: objects inside objects that can just be expanded, but not any more under a key. *)
Definition deep_objects (n : nat) : list str := map (fun i => repeat cSPACE (2 * i) ++ lit "a:") (seq 0 n).
Example C74_under_path_limit :
  let safe := fun lines => try_decode_from_lines lines (Some (DecOpts None None (Some EPSafe))) in
  safe (deep_objects 127) = Ok (along (repeat (lit "a") 127) (JObj [])) /\
  safe (lit "x:" :: deeper 2 (deep_objects 127)) = Err EExpandDepth.
Proof. cbv zeta. split; vm_compute; reflexivity. Qed.
