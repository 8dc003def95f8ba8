(** Properties of key folding and path expansion: C13, C14, C25, C26, C27. *)
From Verif Require Import Chars Floats Json JsonInd JsonEq Shared EncPrim Normalize Folding Encoders EncodeApi
  EventBuilder Expand DecodeApi Decoders Fixtures DecRel Lex NumProof PrimProof Spec DecProps Layout LayEnc LayFacts
  EncTotal WrittenProps Checkers RoundTrip ExpandProof ExpandProps FoldProps.
From Coq Require Import Permutation.

Local Open Scope nat_scope.

(** Decoding with expansion, step by step. *)
Lemma steps_inv {A B C D : Type} (r : result A) (g : A -> result B) (f : B -> result C) (h : C -> D) w :
  (let? a := r in let? b := g a in let? c := f b in Ok (h c)) = Ok w ->
  exists a b c, r = Ok a /\ g a = Ok b /\ f b = Ok c /\ h c = w.
Proof.
  destruct r as [a|]; cbn [bind]; [|discriminate]. destruct (g a) as [b|] eqn:Eg; cbn [bind]; [|discriminate].
  destruct (f b) as [c|] eqn:Ef; cbn [bind]; [|discriminate]. intros H. injection H as <-. eauto 10.
Qed.
Lemma decode_expanding lines d : rd_expand (resolve_decode_options d) = EPSafe ->
  try_decode_from_lines lines d =
  (let? evs := decode_stream_sync lines (Some (DStreamOpts (Some (rd_indent (resolve_decode_options d)))
                                                           (Some (rd_strict (resolve_decode_options d))))) in
   let? n := build_node_from_events evs in
   let? m := expand_paths_safe n (rd_strict (resolve_decode_options d)) in Ok (node_to_json m)).
Proof. unfold try_decode_from_lines. cbv zeta. intros ->. reflexivity. Qed.
Lemma decode_expanding_inv lines d w : rd_expand (resolve_decode_options d) = EPSafe ->
  try_decode_from_lines lines d = Ok w ->
  exists evs n m,
    decode_stream_sync lines (Some (DStreamOpts (Some (rd_indent (resolve_decode_options d)))
                                                (Some (rd_strict (resolve_decode_options d))))) = Ok evs /\
    build_node_from_events evs = Ok n /\
    expand_paths_safe n (rd_strict (resolve_decode_options d)) = Ok m /\ node_to_json m = w.
Proof. intros He. rewrite (decode_expanding _ _ He). apply steps_inv. Qed.

(** ** C13: folding and expansion together lose nothing *)

(** Options with folding to any depth, without replacer, a standard delimiter, an indentation. *)
Definition folding_options (eo : option encode_options) : Prop :=
  let o := resolve_encode_options eo in
  ro_key_folding o = KFSafe /\ ro_replacer o = None /\ std_delim (ro_delimiter o) /\ ro_indent o <> 0.
Definition expanding_options (eo : option encode_options) (d : option decode_options) : Prop :=
  rd_indent (resolve_decode_options d) = ro_indent (resolve_encode_options eo) /\
  rd_expand (resolve_decode_options d) = EPSafe.

Lemma encode_folded fuel v eo : folding_options eo -> distinct_keys v -> portable v ->
  exists ls w, encode_lines fuel v eo = Ok ls /\ Forall (fun s => ~ In cLF s) ls /\
    written true true (normalize_json_value v) w /\
    forall strict, decode_stream_sync ls (Some (DStreamOpts (Some (ro_indent (resolve_encode_options eo))) (Some strict)))
                   = Ok (emit_events w).
Proof.
  intros (Hf & Hr & Hd & Hi) Hk Hp. unfold encode_lines, prepare. cbv zeta. rewrite Hr. cbn [bind].
  set (o := resolve_encode_options eo) in *.
  destruct (encode_json_value_total (normalize_json_value v) o) as [ls E]. rewrite E.
  assert (Hg : good True true (normalize_json_value v)).
  { intros _. pose proof (normalize_spec v) as Hn. split; [eapply norm_distinct; eauto|].
    split; [eapply norm_portable; eauto|eapply norm_canonical; eauto]. }
  destruct (json_value_lay True o _ _ E Hg Hd) as (w & abs & L & -> & W).
  unfold folding in W. rewrite Hf in W. eexists _, w. split; [reflexivity|]. split; [|split; auto].
  - apply render_no_lf. eapply lay_root_clean; eauto.
  - intros strict. eapply layout_decodes; eauto.
Qed.

Theorem C13_fold_expand_lossless :
  forall (fuel : nat) (v : json) (eo : option encode_options) (d : option decode_options),
    folding_options eo -> expanding_options eo d ->
    distinct_keys v -> portable v -> undotted v -> levels v <= 256 ->
    exists text n w,
      encode fuel v eo = Ok text /\ norm_json v n /\ try_decode text d = Ok w /\ table_ordered n w.
Proof.
  intros fuel v eo d Ho [Hi He] Hk Hp Hu Hl. destruct (encode_folded fuel v eo Ho Hk Hp) as (ls & w & E & Hlf & W & D).
  pose proof (normalize_spec v) as Hn. set (n := normalize_json_value v) in *.
  destruct (fold_expand_safe n w (rd_strict (resolve_decode_options d)) W) as (r & Er & Wr).
  { eapply norm_distinct; eauto. }
  { eapply norm_undotted; eauto. }
  { now rewrite (norm_levels _ _ Hn). }
  exists (join cLF ls), n, (node_to_json r). split; [unfold encode; now rewrite E|]. split; auto. split.
  - unfold try_decode, try_decode_from_lines. cbv zeta. rewrite stream_text by auto. rewrite Hi, D, He. cbn [bind].
    rewrite (spells_node _ _ (emit_spells w)). cbn [bind]. rewrite Er. reflexivity.
  - eapply written_ordered; eauto. eapply norm_distinct; eauto.
Qed.
Print Assumptions C13_fold_expand_lossless.

Theorem C13_fold_expand_exact :
  forall (fuel : nat) (v : json) (eo : option encode_options) (d : option decode_options),
    folding_options eo -> expanding_options eo d ->
    distinct_keys v -> portable v -> uniform v -> undotted v -> levels v <= 256 ->
    exists text n, encode fuel v eo = Ok text /\ norm_json v n /\ try_decode text d = Ok n.
Proof.
  intros fuel v eo d Ho He Hk Hp Hu Hd Hl.
  destruct (C13_fold_expand_lossless fuel v eo d Ho He Hk Hp Hd Hl) as (text & n & w & H1 & H2 & H3 & H4).
  exists text, n. split; auto. split; auto. rewrite H3. f_equal.
  apply table_ordered_uniform; eauto using norm_distinct, norm_uniform.
Qed.
Print Assumptions C13_fold_expand_exact.

(** Chains of several lengths, one of them colliding with nothing, one cut by the depth limit. *)
Definition chains : json :=
  JObj [(lit "a", JObj [(lit "b", JObj [(lit "c", jnum (lit "1"))])]);
        (lit "x", JObj [(lit "y", JArr [JObj [(lit "k", jnum (lit "2")); (lit "p", JObj [(lit "q", JObj [])])]])]);
        (lit "s", JObj [(lit "t", JObj [(lit "u", JObj [(lit "v", JPrim (PStr (lit "w")))])])]);
        (lit "two words", JObj [(lit "z", JPrim PNull)])].
Lemma not_dotted k : contains cDOT k = false -> forall segs, ~ dotted k segs.
Proof. intros H segs D. apply dotted_contains in D. congruence. Qed.
Fixpoint undottedb (v : json) : bool :=
  match v with
  | JPrim _ => true
  | JArr l => forallb undottedb l
  | JObj l => forallb (fun kv => negb (contains cDOT (fst kv)) && undottedb (snd kv)) l
  end.
Lemma undottedb_ok v : undottedb v = true -> undotted v.
Proof.
  induction v using json_ind'; cbn [undottedb]; intros E; constructor; rewrite forallb_forall in E; rewrite Forall_forall in *; auto.
  - intros kv Hi. apply E, andb_prop in Hi as [Hi _]. apply negb_true_iff in Hi. now apply not_dotted.
  - intros kv Hi. pose proof (E _ Hi) as Hj. apply andb_prop in Hj as [_ Hj]. auto.
Qed.
Example C13_case :
  let eo := Some (EncOpts None None (Some KFSafe) (Some 3%N) None) in
  let d := Some (DecOpts None None (Some EPSafe)) in
  folding_options eo /\ expanding_options eo d /\ distinct_keys chains /\ portable chains /\ undotted chains /\
  levels chains <= 256 /\
  encode 0 chains eo = Ok (lit "a.b.c: 1
x.y[1]:
  - k: 2
    p.q:
s.t.u:
  v: w
""two words"":
  z: null") /\ (let? t := encode 0 chains eo in try_decode t d) = Ok chains.
Proof.
  cbv zeta. assert (distinct_keys chains) by (apply distinctb_ok; vm_compute; reflexivity).
  split; [|split; [|split; [|split; [|split; [|split; [|split]]]]]]; auto.
  - repeat split; try discriminate. left; reflexivity.
  - split; reflexivity.
  - apply portableb_ok; auto.
  - apply undottedb_ok. vm_compute. reflexivity.
  - apply Nat.leb_le. vm_compute. reflexivity.
Qed.
(** Literal dotted keys are not kept apart from folded ones. *)
Example C13_undotted_needed :
  let v := JObj [(lit "a.b", JPrim PNull)] in
  (let? t := encode 0 v (Some (EncOpts None None (Some KFSafe) None None)) in
   try_decode t (Some (DecOpts None None (Some EPSafe)))) = Ok (JObj [(lit "a", JObj [(lit "b", JPrim PNull)])]).
Proof. vm_compute. reflexivity. Qed.

(** ** C14: folding and duplicate keys *)

(** An object that is a list item and whose first key is a dotted path can get a second member with
    that key. *)
Theorem C14_no_duplicates_refuted :
  exists (v : json) (eo : option encode_options) (text : str) (w : json),
    folding_options eo /\ distinct_keys v /\ portable v /\
    encode 0 v eo = Ok text /\ try_decode text None = Ok w /\ ~ distinct_keys w.
Proof.
  exists (JArr [JObj [(lit "a.b", JPrim (PBool true)); (lit "a", JObj [(lit "b", JPrim (PBool false))])]]).
  exists (Some (EncOpts None None (Some KFSafe) None None)).
  eexists _, _. split; [repeat split; try discriminate; left; reflexivity|].
  match goal with |- ?A /\ _ => assert (H : A) by (apply distinctb_ok; vm_compute; reflexivity) end.
  split; auto. split; [apply portableb_ok; auto|]. split; [vm_compute; reflexivity|]. split; [vm_compute; reflexivity|].
  intros D. inversion D as [|? D'|]; subst. inversion D' as [|? ? D1]; subst. inversion D1 as [| |? D2]; subst.
  inversion D2 as [|? ? D3]; subst. apply D3. now left.
Qed.
Print Assumptions C14_no_duplicates_refuted.

(** Everything else is safe. *)
Theorem C14_no_duplicates :
  forall (fuel : nat) (v : json) (eo : option encode_options) (d : option decode_options),
    folding_options eo -> matching_options eo d -> distinct_keys v -> portable v -> no_item_clash v ->
    exists text w, encode fuel v eo = Ok text /\ try_decode text d = Ok w /\ distinct_keys w.
Proof.
  intros fuel v eo d Ho Hm Hk Hp Hc. destruct (encode_folded fuel v eo Ho Hk Hp) as (ls & w & E & Hlf & W & D).
  pose proof (normalize_spec v) as Hn. exists (join cLF ls), w. split; [unfold encode; now rewrite E|].
  split; [eapply decode_plain_text; eauto|]. eapply fold_distinct; eauto; [eapply norm_distinct; eauto| |discriminate].
  eapply norm_no_clash; eauto.
Qed.
Print Assumptions C14_no_duplicates.

(** Folded paths next to literal keys with the same text. *)
Example C14_case :
  let eo := Some (EncOpts None None (Some KFSafe) None None) in
  let v := JObj [(lit "a.b", JPrim (PBool true)); (lit "a", JObj [(lit "b", JPrim (PBool false))])] in
  distinct_keys v /\ portable v /\ no_item_clash v /\ encode 0 v eo = Ok (lit "a.b: true
a:
  b: false").
Proof.
  cbv zeta. match goal with |- ?A /\ _ => assert (H : A) by (apply distinctb_ok; vm_compute; reflexivity) end.
  split; auto. split; [apply portableb_ok; auto|]. split; [repeat constructor|vm_compute; reflexivity].
Qed.

(** ** C25: unique keys after expansion *)

Theorem C25_expansion_unique_keys :
  forall (input : str) (d : option decode_options) (w : json),
    rd_expand (resolve_decode_options d) = EPSafe -> try_decode input d = Ok w -> distinct_keys w.
Proof.
  intros input d w He E. destruct (decode_expanding_inv _ _ _ He E) as (evs & n & m & _ & _ & Em & <-).
  exact (expand_safe_uniq _ _ _ Em).
Qed.
Print Assumptions C25_expansion_unique_keys.

(** Duplicate keys in the document, overlapping paths, lenient mode: one member each. *)
Example C25_case :
  try_decode (lit "a: 1
a.b: 2
a.c: 3
a.b: x") (Some (DecOpts None (Some false) (Some EPSafe)))
  = Ok (JObj [(lit "a", JObj [(lit "b", JPrim (PStr (lit "x"))); (lit "c", jnum (lit "3"))])]).
Proof. vm_compute. reflexivity. Qed.

(** ** C26: expansion without dotted keys *)

Theorem C26_expansion_identity :
  forall (lines : list str) (indent : nat) (strict : bool) (evs : list event) (dc : doc),
    decode_stream_sync lines (Some (DStreamOpts (Some indent) (Some strict))) = Ok evs ->
    spells evs dc -> undotted_doc dc -> distinct_keys (doc_json dc) -> levels (doc_json dc) <= 256 ->
    try_decode_from_lines lines (Some (DecOpts (Some indent) (Some strict) (Some EPSafe))) = Ok (doc_json dc) /\
    try_decode_from_lines lines (Some (DecOpts (Some indent) (Some strict) (Some EPOff))) = Ok (doc_json dc).
Proof.
  intros lines indent strict evs dc E Hs Hu Hd Hl. split.
  - rewrite decode_expanding by reflexivity.
    cbn [resolve_decode_options rd_indent rd_strict rd_expand do_indent do_strict do_expand unwrap_or].
    rewrite E. cbn [bind]. rewrite (spells_node _ _ Hs). cbn [bind].
    destruct (expand_safe_identity dc strict Hu Hd Hl) as (w & -> & Hw). cbn [bind]. now rewrite Hw.
  - unfold try_decode_from_lines. cbv zeta.
    cbn [resolve_decode_options rd_indent rd_strict rd_expand do_indent do_strict do_expand unwrap_or].
    rewrite E. cbn [bind]. rewrite (spells_node _ _ Hs). cbn [bind]. now rewrite node_of_json.
Qed.
Print Assumptions C26_expansion_identity.

(** The document [dc] of the theorem exists for every decoded stream. *)
Theorem C26_every_stream_is_a_document :
  forall (lines : list str) (o : option dstream_options) (evs : list event),
    decode_stream_sync lines o = Ok evs -> exists dc, spells evs dc.
Proof.
  intros lines o evs E. destruct (stream_grammar _ _ _ E) as [v H].
  destruct (proj1 (describes_spells _) _ _ H) as (d & Hd & _). eauto.
Qed.
Print Assumptions C26_every_stream_is_a_document.

(** The stream of a document. *)
Fixpoint doc_events (d : doc) : list event :=
  match d with
  | DPrim p => [EvPrim p]
  | DArr l => EvStartArray (N.of_nat (length l)) :: concat (map doc_events l) ++ [EvEndArray]
  | DObj l => EvStartObject :: concat (map (fun m => EvKey (fst (fst m)) (snd (fst m)) :: doc_events (snd m)) l) ++ [EvEndObject]
  end.
Lemma doc_events_spell d : spells (doc_events d) d.
Proof.
  induction d using doc_ind'; cbn [doc_events]; constructor.
  - induction H as [|x l H1 _ IH]; cbn [map concat]; constructor; auto.
  - induction H as [|[[k q] x] l H1 _ IH]; cbn [map concat fst snd app]; constructor; auto.
Qed.
Fixpoint undotted_docb (d : doc) : bool :=
  match d with
  | DPrim _ => true
  | DArr l => forallb undotted_docb l
  | DObj l => forallb (fun m => (snd (fst m) || negb (contains cDOT (fst (fst m)))) && undotted_docb (snd m)) l
  end.
Lemma undotted_docb_ok d : undotted_docb d = true -> undotted_doc d.
Proof.
  induction d using doc_ind'; cbn [undotted_docb]; intros E; constructor; rewrite forallb_forall in E;
    rewrite Forall_forall in *; auto; intros m Hm; pose proof (E _ Hm) as Hj; apply andb_prop in Hj as [Hj Hj']; auto.
  apply orb_prop in Hj as [Hj|Hj]; auto. right. apply negb_true_iff in Hj. now apply not_dotted.
Qed.

(** A quoted dotted key stays whole; keys whose segments are no identifiers stay whole. *)
Example C26_case :
  let lines := [lit """a.b"": true"; lit "a-b: null"; lit "x:"; lit "  y[1]:"; lit "    - z: w"] in
  exists evs dc,
    decode_stream_sync lines (Some (DStreamOpts (Some 2) (Some true))) = Ok evs /\
    spells evs dc /\ undotted_doc dc /\ distinct_keys (doc_json dc) /\ levels (doc_json dc) <= 256.
Proof.
  cbv zeta. set (dc := DObj [(lit "a.b", true, DPrim (PBool true)); (lit "a-b", false, DPrim PNull);
    (lit "x", false, DObj [(lit "y", false, DArr [DObj [(lit "z", false, DPrim (PStr (lit "w")))]])])]).
  exists (doc_events dc), dc. split; [vm_compute; reflexivity|]. split; [apply doc_events_spell|].
  split; [apply undotted_docb_ok; vm_compute; reflexivity|].
  split; [apply distinctb_ok; vm_compute; reflexivity|apply Nat.leb_le; vm_compute; reflexivity].
Qed.

(** ** C27: strict expansion loses nothing *)

Theorem C27_strict_expansion_lossless :
  forall (lines : list str) (indent : nat) (w : json),
    try_decode_from_lines lines (Some (DecOpts (Some indent) (Some true) (Some EPSafe))) = Ok w ->
    exists evs dc,
      decode_stream_sync lines (Some (DStreamOpts (Some indent) (Some true))) = Ok evs /\
      spells evs dc /\ expands_to dc w /\ doc_weight dc = weight w.
Proof.
  intros lines indent w E. apply decode_expanding_inv in E; [|reflexivity]. destruct E as (evs & n & r & Ed & En & Er & <-).
  destruct (C26_every_stream_is_a_document _ _ _ Ed) as [dc Hs].
  pose proof (spells_node _ _ Hs) as Hn. rewrite Hn in En. injection En as <-.
  destruct (strict_expand_safe dc r Er) as [H1 H2]. exists evs, dc. split; [exact Ed|]. split; [exact Hs|]. split; [exact H1|exact H2].
Qed.
Print Assumptions C27_strict_expansion_lossless.

(** Overlapping paths are merged and a conflict is an error. *)
Example C27_case :
  try_decode_from_lines [lit "a.b.c: 1"; lit "a:"; lit "  b.d: 2"; lit "  e: 3"]
    (Some (DecOpts (Some 2) (Some true) (Some EPSafe)))
  = Ok (JObj [(lit "a", JObj [(lit "b", JObj [(lit "c", jnum (lit "1")); (lit "d", jnum (lit "2"))]); (lit "e", jnum (lit "3"))])]) /\
  (exists e, try_decode_from_lines [lit "a.b: 1"; lit "a.b.c: 2"] (Some (DecOpts (Some 2) (Some true) (Some EPSafe))) = Err e) /\
  (exists e, try_decode_from_lines [lit "a.b: 1"; lit "a: 2"] (Some (DecOpts (Some 2) (Some true) (Some EPSafe))) = Err e).
Proof. split; [vm_compute; reflexivity|]. split; eexists; vm_compute; reflexivity. Qed.
