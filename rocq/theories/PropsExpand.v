(** C48: the meaning of a text when paths are expanded. *)
From Verif Require Import Chars Floats Json Shared Scanner Parser DecValidation Decoders EventBuilder Expand DecodeApi
  Fixtures Lex Spec DecProps SpecText SpecRead ReadProof SpecExpand ExpandProof ExpandProps ExpandMean PropsFold.

Local Open Scope nat_scope.

Lemma tree_ind' (P : tree -> Prop) (Hp : forall p, P (TPrim p)) (Ha : forall n l, Forall P l -> P (TArr n l))
  (Ho : forall l, Forall (fun m => P (snd m)) l -> P (TObj l)) : forall t, P t.
Proof.
  fix F 1. intros [p|n l|l].
  - apply Hp.
  - apply Ha. induction l as [|x l IH]; constructor; [apply F|exact IH].
  - apply Ho. induction l as [|x l IH]; constructor; [apply F|exact IH].
Qed.
Lemma tree_spells t : spells (tree_events t) (tree_doc t).
Proof.
  induction t using tree_ind'; cbn [tree_events tree_doc]; constructor.
  - induction H as [|x l H1 _ IH]; cbn [flat_map map]; constructor; auto.
  - induction H as [|[[k q] x] l H1 _ IH]; cbn [flat_map map fst snd app]; constructor; auto.
Qed.
(** Decoding with expansion: a document is read, then expanded. *)
Lemma expanding_reads text indent strict :
  match try_decode text (Some (DecOpts indent strict (Some EPSafe))) with
  | Ok v => exists tr w, reads parse_f64 (unwrap_or strict true) (unwrap_or indent 2) text tr /\
              expand_paths_safe (node_of (tree_doc tr)) (unwrap_or strict true) = Ok w /\ v = node_to_json w
  | Err e => (forall tr, ~ reads parse_f64 (unwrap_or strict true) (unwrap_or indent 2) text tr) \/
             exists tr, reads parse_f64 (unwrap_or strict true) (unwrap_or indent 2) text tr /\
               expand_paths_safe (node_of (tree_doc tr)) (unwrap_or strict true) = Err e
  end.
Proof.
  unfold try_decode. rewrite decode_expanding by reflexivity.
  cbn [resolve_decode_options unwrap_or do_indent do_strict do_expand rd_indent rd_strict rd_expand].
  destruct (decode_stream_sync _ _) as [evs|e] eqn:E; cbn [bind].
  - apply reads_stream in E as (tr & Hr & ->). rewrite (spells_node _ _ (tree_spells tr)). cbn [bind].
    destruct (expand_paths_safe (node_of (tree_doc tr)) (unwrap_or strict true)) as [w|e] eqn:Ew; cbn [bind]; [eauto|]. right. eauto.
  - left. intros tr Hr.
    rewrite (proj2 (reads_stream (unwrap_or strict true) (unwrap_or indent 2) text (tree_events tr))) in E by eauto. discriminate.
Qed.
Lemma safe_verdict strict d : verdict strict d (expand_paths_safe (node_of d) strict).
Proof. unfold expand_paths_safe. apply expand_verdict. Qed.
Lemma safe_fine strict d : doc_levels d <= 256 -> expand_paths_safe (node_of d) strict <> Err EExpandDepth.
Proof. unfold expand_paths_safe, MAX_EXPAND_DEPTH. intros H. now apply expand_fine. Qed.
Lemma safe_needs strict d k w : nested d k -> expand_paths_safe (node_of d) strict = Ok w -> k <= 256.
Proof. unfold expand_paths_safe, MAX_EXPAND_DEPTH. generalize 256. intros n H. now apply expand_needs. Qed.

(** What is returned is the expansion of the document that the text is. *)
Theorem C48_expanded_value :
  forall (text : str) (indent : option nat) (strict : option bool) (v : json),
    try_decode text (Some (DecOpts indent strict (Some EPSafe))) = Ok v ->
    exists tr, reads parse_f64 (unwrap_or strict true) (unwrap_or indent 2) text tr /\
      expands (unwrap_or strict true) (tree_doc tr) v.
Proof.
  intros text indent strict v E. pose proof (expanding_reads text indent strict) as H. rewrite E in H.
  destruct H as (tr & w & Hr & Ew & ->). exists tr. split; [exact Hr|].
  pose proof (safe_verdict (unwrap_or strict true) (tree_doc tr)) as V. rewrite Ew in V. exact V.
Qed.
Print Assumptions C48_expanded_value.

(** Every expansion of a document within the depth limit is returned. *)
Theorem C48_every_expansion_returned :
  forall (text : str) (indent : option nat) (strict : option bool) (tr : tree) (v : json),
    reads parse_f64 (unwrap_or strict true) (unwrap_or indent 2) text tr ->
    expands (unwrap_or strict true) (tree_doc tr) v -> doc_levels (tree_doc tr) <= 256 ->
    try_decode text (Some (DecOpts indent strict (Some EPSafe))) = Ok v.
Proof.
  intros text indent strict tr v Hr Hv Hl. pose proof (expanding_reads text indent strict) as H.
  pose proof (safe_verdict (unwrap_or strict true) (tree_doc tr)) as V.
  pose proof (safe_fine (unwrap_or strict true) (tree_doc tr) Hl) as L.
  destruct (try_decode _ _) as [v'|e].
  - destruct H as (tr' & w & Hr' & Ew & ->). rewrite (reads_fun _ _ _ _ _ Hr' Hr) in Ew. rewrite Ew in V. f_equal. eapply expands_fun; eassumption.
  - exfalso. destruct H as [H|(tr' & Hr' & Ew)]; [exact (H _ Hr)|]. rewrite (reads_fun _ _ _ _ _ Hr' Hr) in Ew. rewrite Ew in V, L.
    destruct e; try exact V; [now apply L|]. destruct V as [S V]. rewrite S in Hv. exact (conflicts_not _ _ V _ Hv).
Qed.
Print Assumptions C48_every_expansion_returned.

(** A text is rejected because it is no document, because its members contradict each other (strict
    mode only), or because it is too deep. *)
Theorem C48_rejected :
  forall (text : str) (indent : option nat) (strict : option bool) (e : err),
    try_decode text (Some (DecOpts indent strict (Some EPSafe))) = Err e ->
    (forall tr, ~ reads parse_f64 (unwrap_or strict true) (unwrap_or indent 2) text tr) \/
    exists tr, reads parse_f64 (unwrap_or strict true) (unwrap_or indent 2) text tr /\
      ((unwrap_or strict true = true /\ forall v, ~ expands true (tree_doc tr) v) \/ 256 < doc_levels (tree_doc tr)).
Proof.
  intros text indent strict e E. pose proof (expanding_reads text indent strict) as H. rewrite E in H.
  destruct H as [H|(tr & Hr & Ew)]; [now left|]. right. exists tr. split; [exact Hr|].
  pose proof (safe_verdict (unwrap_or strict true) (tree_doc tr)) as V. rewrite Ew in V.
  destruct (Nat.le_gt_cases (doc_levels (tree_doc tr)) 256) as [L|L]; [|now right]. left.
  pose proof (safe_fine (unwrap_or strict true) (tree_doc tr) L) as F. rewrite Ew in F.
  destruct e; try (now destruct V); try (now destruct F). destruct V as [S V]. split; [exact S|]. exact (conflicts_not _ _ V).
Qed.
Print Assumptions C48_rejected.

(** What goes deeper than the limit is refused: in lenient mode for this reason; in strict mode for
    this or for a contradiction. *)
Theorem C48_too_deep :
  forall (text : str) (indent : option nat) (strict : option bool) (tr : tree) (n : nat),
    reads parse_f64 (unwrap_or strict true) (unwrap_or indent 2) text tr ->
    nested (tree_doc tr) n -> 256 < n ->
    exists e, try_decode text (Some (DecOpts indent strict (Some EPSafe))) = Err e /\
      (e = EExpandDepth \/ unwrap_or strict true = true /\ exists c, e = EExpandConflict c /\ conflicts (tree_doc tr) c).
Proof.
  intros text indent strict tr n Hr Hn L. pose proof (expanding_reads text indent strict) as H.
  pose proof (safe_verdict (unwrap_or strict true) (tree_doc tr)) as V.
  destruct (try_decode _ _) as [v|e].
  - exfalso. destruct H as (tr' & w & Hr' & Ew & ->). rewrite (reads_fun _ _ _ _ _ Hr' Hr) in Ew.
    apply (Nat.lt_irrefl n). eapply Nat.le_lt_trans; [eapply safe_needs; eassumption|exact L].
  - exists e. split; [reflexivity|]. destruct H as [H|(tr' & Hr' & Ew)]; [now destruct (H _ Hr)|].
    rewrite (reads_fun _ _ _ _ _ Hr' Hr) in Ew. rewrite Ew in V. destruct e; try (now destruct V); auto.
    destruct V as [S V]. right. eauto.
Qed.
Print Assumptions C48_too_deep.
(** The two bounds are close: [doc_levels] also counts what members that meet may need. *)
Example C48_nested_case :
  let d k := DObj [(k, false, DObj [(lit "b", false, DPrim PNull)])] in
  nested (d (lit "a.c.d")) 6 /\ doc_levels (d (lit "a.c.d")) = 7 /\ nested (d (lit "a")) 5 /\ doc_levels (d (lit "a")) = 6.
Proof.
  cbv zeta. split; [|split; [reflexivity|split; [|reflexivity]]].
  - apply (ne_key [(lit "a.c.d", false, DObj [(lit "b", false, DPrim PNull)])] (lit "a.c.d", false, DObj [(lit "b", false, DPrim PNull)])
             [lit "a"; lit "c"; lit "d"]); [now left|]. eapply key_path_of; reflexivity.
  - apply (ne_member [(lit "a", false, DObj [(lit "b", false, DPrim PNull)])] (lit "a", false, DObj [(lit "b", false, DPrim PNull)]) 3); [now left|].
    apply (ne_key [(lit "b", false, DPrim PNull)] (lit "b", false, DPrim PNull) [lit "b"]); [now left|].
    eapply key_path_of; reflexivity.
Qed.

(** A document has at most one expansion; in lenient mode it has one; and a document that can be
    expanded in strict mode expands to the same value in lenient mode. *)
Theorem C48_expansion_is_a_function :
  forall (strict : bool) (d : doc) (v v' : json), expands strict d v -> expands strict d v' -> v = v'.
Proof. intros strict d v v'. apply expands_fun. Qed.
Print Assumptions C48_expansion_is_a_function.

Theorem C48_lenient_always_expands : forall (d : doc), exists v, expands false d v.
Proof.
  intros d. pose proof (expand_verdict false d (doc_levels d)) as V. pose proof (expand_fine false d (doc_levels d) (le_n _)) as F.
  destruct (expand_inner (doc_levels d) false (node_of d)) as [w|e]; [eexists; exact V|].
  exfalso. destruct e; try exact V; [now apply F|]. destruct V; discriminate.
Qed.
Print Assumptions C48_lenient_always_expands.

Theorem C48_strict_and_lenient : forall (d : doc) (v : json), expands true d v -> expands false d v.
Proof.
  intros d v H. pose proof (expand_verdict true d (doc_levels d)) as V. pose proof (expand_fine true d (doc_levels d) (le_n _)) as F.
  pose proof (expand_verdict false d (doc_levels d)) as V'.
  destruct (expand_inner (doc_levels d) true (node_of d)) as [w|e] eqn:E.
  - rewrite (expand_relax _ _ (le_n _) _ _ E) in V'. cbn [verdict] in V. now rewrite (expands_fun _ _ _ _ H V).
  - exfalso. destruct e; try exact V; [now apply F|]. destruct V as [_ V]. exact (conflicts_not _ _ V _ H).
Qed.
Print Assumptions C48_strict_and_lenient.

(** Paths that overlap, in strict and in lenient mode. *)
Definition paths_case : str := lit "a.b.c: 1
a:
  b.d: 2
  ""x.y"": 3
z: 0
a.e: 4".
Example C48_case :
  try_decode paths_case (Some (DecOpts None None (Some EPSafe))) =
  Ok (JObj [(lit "a", JObj [(lit "b", JObj [(lit "c", jnum (lit "1")); (lit "d", jnum (lit "2"))]);
                            (lit "x.y", jnum (lit "3")); (lit "e", jnum (lit "4"))]); (lit "z", jnum (lit "0"))]).
Proof. vm_compute. reflexivity. Qed.
(** In lenient mode the later value wins.  A member is expanded by itself first: in the second one
    [q: 2] gives way to [q.r: 3], and the result replaces the primitive of the first. *)
Definition override_case : str := lit "p.q: 1
p:
  q: 2
  q.r: 3
p.q.s: 4
p.t: 5
p.t: 6".
Example C48_override :
  try_decode override_case (Some (DecOpts None (Some false) (Some EPSafe))) =
  Ok (JObj [(lit "p", JObj [(lit "q", JObj [(lit "r", jnum (lit "3")); (lit "s", jnum (lit "4"))]); (lit "t", jnum (lit "6"))])]) /\
  (exists e, try_decode override_case (Some (DecOpts None (Some true) (Some EPSafe))) = Err e).
Proof. split; [vm_compute; reflexivity|]. eexists. vm_compute. reflexivity. Qed.
(** The levels of this document: far from the limit. *)
Example C48_levels :
  doc_levels (DObj [(lit "a.b.c", false, DPrim PNull);
    (lit "a", false, DObj [(lit "b.d", false, DPrim PNull); (lit "x.y", true, DPrim PNull)]);
    (lit "z", false, DPrim PNull); (lit "a.e", false, DPrim PNull)]) = 7.
Proof. reflexivity. Qed.
