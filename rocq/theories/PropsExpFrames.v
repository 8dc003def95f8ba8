(** C65: how deeply the calls of path expansion nest. *)
From Verif Require Import Chars Floats Json Shared Scanner Parser DecValidation Decoders EventBuilder Expand DecodeApi
  DecFrames ExpFrames Lex Spec DecProps SpecText SpecRead SpecExpand ExpandProps ExpandMean PropsExpand SpecError PropsError
  ExpFramesProof.

Local Open Scope nat_scope.

(** The calls open at one time while [expand_paths_safe] works on this document, its own included. *)
Definition expand_calls (d : doc) (strict : bool) : nat := snd (expand_frames (node_of d) strict).

Theorem C65_expand_same_outcome :
  forall (n : node) (strict : bool), fst (expand_frames n strict) = expand_paths_safe n strict.
Proof. intros. unfold expand_frames, expand_paths_safe. generalize MAX_EXPAND_DEPTH as top. intros top. cbn [call fst]. apply inner_same. Qed.
Print Assumptions C65_expand_same_outcome.

Lemma top_calls n strict : exists top, N.of_nat top = 256%N /\
  expand_paths_safe n strict = expand_inner top strict n /\ snd (expand_frames n strict) = S (S (snd (inner_frames top strict n))).
Proof.
  unfold expand_frames, expand_paths_safe. assert (H : N.of_nat MAX_EXPAND_DEPTH = 256%N) by reflexivity. revert H.
  generalize MAX_EXPAND_DEPTH as top. intros top H. exists top. split; [exact H|]. split; reflexivity.
Qed.

(** Expanded or not: never more than 258 calls, the outermost and the refusing one included; fewer
    for a document of fewer levels; and 258 exactly when the document is refused for its depth. *)
Theorem C65_expand_at_most :
  forall (d : doc) (strict : bool),
    expand_calls d strict <= 258 /\ expand_calls d strict <= 1 + doc_levels d /\
    (expand_calls d strict = 258 <-> expand_paths_safe (node_of d) strict = Err EExpandDepth).
Proof.
  intros d strict. unfold expand_calls. destruct (top_calls (node_of d) strict) as (top & T & Ei & Ec). rewrite Ei, Ec. clear Ei Ec.
  destruct (inner_at_most top strict d) as [H1 H2]. destruct (inner_tight top strict (node_of d)) as [_ H3].
  rewrite <- inner_same, H3. clear H3. assert (Ht : top = 256) by lia.
  generalize dependent (snd (inner_frames top strict (node_of d))). intros k H1 H2. repeat split; lia.
Qed.
Print Assumptions C65_expand_at_most.

(** A document that was expanded needed a call for each of its levels, and the outermost. *)
Theorem C65_expand_at_least :
  forall (d : doc) (strict : bool) (w : node) (k : nat),
    expand_paths_safe (node_of d) strict = Ok w -> nested d k -> 1 + k <= expand_calls d strict.
Proof.
  intros d strict w k E N. unfold expand_calls. destruct (top_calls (node_of d) strict) as (top & _ & Ei & Ec). rewrite Ei in E. rewrite Ec. clear Ei Ec.
  rewrite <- inner_same in E. pose proof (inner_at_least top strict d k w N E) as L. lia.
Qed.
Print Assumptions C65_expand_at_least.

(** Decoding with expansion reports the limit exactly for the texts that are read and whose
    expansion comes to 258 calls. *)
Theorem C65_expand_refused :
  forall (text : str) (indent : option nat) (strict : option bool),
    try_decode text (Some (DecOpts indent strict (Some EPSafe))) = Err EExpandDepth <->
    exists tr, reads parse_f64 (unwrap_or strict true) (unwrap_or indent 2) text tr /\
      expand_calls (tree_doc tr) (unwrap_or strict true) = 258.
Proof.
  intros text indent strict. rewrite expand_error. split.
  - intros [F|(tr & R & E)].
    + exfalso. apply (C53_decode_error text indent strict (Some EPOff)) in F; [|discriminate].
      apply C53_errors_name_the_fault in F as [F|[_ F]]; [contradiction F|inversion F|discriminate].
    + exists tr. split; [exact R|]. now apply C65_expand_at_most.
  - intros (tr & R & E). right. exists tr. split; [exact R|]. now apply C65_expand_at_most.
Qed.
Print Assumptions C65_expand_refused.

(** Nested lists, one in the other. *)
Fixpoint lists (n : nat) (d : doc) : doc := match n with O => d | S n => DArr [lists n d] end.
(** Levels: 255 lists and what is in them are 256 levels and open 257 calls. *)
Example C65_expand_attained :
  doc_levels (lists 255 (DPrim PNull)) = 256 /\ nested (lists 255 (DPrim PNull)) 256 /\
  expand_calls (lists 255 (DPrim PNull)) true = 257 /\
  (exists w, expand_paths_safe (node_of (lists 255 (DPrim PNull))) true = Ok w) /\
  doc_levels (lists 256 (DPrim PNull)) = 257 /\ expand_calls (lists 256 (DPrim PNull)) true = 258 /\
  expand_calls (lists 300 (DPrim PNull)) true = 258.
Proof.
  split; [vm_compute; reflexivity|]. split.
  { assert (H : forall n, nested (lists n (DPrim PNull)) (S n)).
    { induction n as [|n IH]; [constructor|]. cbn [lists]. apply (ne_item _ (lists n (DPrim PNull)) (S n)); [now left|exact IH]. }
    apply H. }
  split; [vm_compute; reflexivity|]. split; [eexists; vm_compute; reflexivity|]. repeat split; vm_compute; reflexivity.
Qed.
(** A name of several parts and members that meet. *)
Definition calls_doc : doc :=
  DObj [((lit "a.b.c", false), DObj [((lit "d", false), DPrim PNull)]); ((lit "a.b.c", false), DObj [((lit "e", false), DPrim PNull)])].
Example C65_expand_case :
  doc_levels calls_doc = 7 /\ nested calls_doc 6 /\ expand_calls calls_doc true = 8 /\
  exists w, expand_paths_safe (node_of calls_doc) true = Ok w.
Proof.
  split; [reflexivity|]. split.
  { apply (ne_key _ ((lit "a.b.c", false), DObj [((lit "d", false), DPrim PNull)]) [lit "a"; lit "b"; lit "c"]); [now left|].
    apply (key_path_of _ _ _ _ eq_refl). reflexivity. }
  split; [vm_compute; reflexivity|]. eexists. vm_compute. reflexivity.
Qed.
(** A text of one line that is read and refused. *)
Example C65_expand_refused_case :
  let text := join cDOT (repeat (lit "a") 254) ++ lit ": 1" in
  try_decode text (Some (DecOpts None None (Some EPSafe))) = Err EExpandDepth /\
  exists v, try_decode (skipn 2 text) (Some (DecOpts None None (Some EPSafe))) = Ok v.
Proof. split; [vm_compute; reflexivity|eexists; vm_compute; reflexivity]. Qed.
