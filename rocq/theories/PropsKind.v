(** C63: the kinds of errors. *)
From Verif Require Import Chars Floats Json Shared Scanner Decoders EventBuilder Expand DecodeApi Lex NumProof Spec SpecText SpecRead SpecError
  SpecEvents ReadLex ReadLine ReadProof ErrProof ErrText PropsError PropsErrText PropsEvents Fixtures.

Local Open Scope nat_scope.

(** A line that strict mode accepts: blank, or indented by whole levels of spaces. *)
Definition well_indented (size : nat) (line : str) : Prop :=
  blank line \/ exists level c rest, line = repeat cSPACE (level * size) ++ c :: rest /\ c <> cSPACE /\ c <> cTAB.
(** [n] is the number, from 1, of the first line that is not. *)
Definition first_misindented (size : nat) (lines : list str) (n : nat) : Prop :=
  exists before line after, lines = before ++ line :: after /\ n = S (length before) /\
    Forall (well_indented size) before /\ ~ well_indented size line.

Lemma spaces_unique k t k' t' : repeat cSPACE k ++ t = repeat cSPACE k' ++ t' -> (forall r, t <> cSPACE :: r) ->
  (forall r, t' <> cSPACE :: r) -> k = k' /\ t = t'.
Proof.
  intros E Hs Hs'. assert (X : k' = k) by (rewrite <- (count_spaces_at k' t' Hs'), <- E; now apply count_spaces_at).
  split; auto. subst k'. now apply app_inv_head in E.
Qed.
Lemma not_blank_spaces k t : ~ blank t -> ~ blank (repeat cSPACE k ++ t).
Proof. intros H B. apply H. apply Forall_app in B. tauto. Qed.
Lemma bad_line size k t : ~ blank t -> (forall r, t <> cSPACE :: r) ->
  (exists r, t = cTAB :: r) \/ (forall m, k <> m * size) -> ~ well_indented size (repeat cSPACE k ++ t).
Proof.
  intros Hb Hs Hx [B|(level & c & rest & E & Hc & Ht)]; [now apply not_blank_spaces in B|].
  apply spaces_unique in E as [Ek Et]; auto; [|intros r K; injection K as K _; auto].
  destruct Hx as [(r & ->)|Hm]; [injection Et as <- _; auto|exact (Hm _ Ek)].
Qed.
Lemma good_line size k t d : ~ blank t -> (forall r, t <> cSPACE :: r) -> (forall r, t <> cTAB :: r) ->
  depth_of true size k d -> well_indented size (repeat cSPACE k ++ t).
Proof.
  intros Hb Hs Ht (_ & _ & Hk). right. destruct t as [|c r]; [destruct Hb; constructor|].
  exists d, c, r. rewrite (Hk eq_refl). split; [reflexivity|]. split; intros ->; [now apply (Hs r)|now apply (Ht r)].
Qed.
Lemma scans_well size n raws ls bs : scans true size n raws ls bs -> Forall (well_indented size) raws.
Proof. induction 1; constructor; auto; [now left|eapply good_line; eauto]. Qed.

Definition line_named (e : err) : option nat :=
  match e with ETabIndent n | EIndentZero n _ | EIndentMultiple n _ _ => Some n | _ => None end.
Lemma named_kind e n : line_named e = Some n <-> exists m, raised e = Some (TValidation n m).
Proof.
  split.
  - destruct e; try discriminate; cbn [line_named]; intros H; injection H as <-; eexists; reflexivity.
  - intros (m & H). destruct e as [| |? |?|o| |?|?|?|?|?|?|?|?|?|?|?|?|o|o|o| |?|?|c| |o|]; cbn [raised] in H; try discriminate H;
      try (destruct o; discriminate H); try (destruct c; discriminate H); injection H as <- _; reflexivity.
Qed.
Lemma fails_first size raws e : forall n, indent_fails size n raws e ->
  exists m k, line_named e = Some (n + m) /\ k = S m /\ first_misindented size raws k.
Proof.
  intros n H. enough (exists m, line_named e = Some (n + m) /\ first_misindented size raws (S m)) as (m & A & B) by eauto.
  assert (More : forall x n raws, well_indented size x ->
    (exists m, line_named e = Some (S n + m) /\ first_misindented size raws (S m)) ->
    exists m, line_named e = Some (n + m) /\ first_misindented size (x :: raws) (S m)).
  { intros x n' raws' Hx (m & E & before & line & after & -> & Em & Hb & Hl). exists (S m). split; [rewrite E; f_equal; lia|].
    exists (x :: before), line, after. split; [reflexivity|]. split; [cbn; congruence|]. split; [now constructor|exact Hl]. }
  assert (Here : forall k t n raws, line_named e = Some n -> ~ blank t -> (forall r, t <> cSPACE :: r) ->
    (exists r, t = cTAB :: r) \/ (forall m, k <> m * size) ->
    exists m, line_named e = Some (n + m) /\ first_misindented size ((repeat cSPACE k ++ t) :: raws) (S m)).
  { intros k t n' raws' E Hb Hs Hx. exists 0. split; [rewrite E; f_equal; lia|]. exists [], (repeat cSPACE k ++ t), raws'.
    split; [reflexivity|]. split; [reflexivity|]. split; [constructor|]. now apply bad_line. }
  induction H as [n raw raws e Hb _ IH|n k t d raws e Hb Hs Hd Ht _ IH|n k t raws Ht|n k t raws Ht Hs Hn Hz Hk|n k t raws Ht Hs Hn Hz Hk].
  - apply More; auto. now left.
  - apply More; auto. eapply good_line; eauto.
  - apply Here; auto; [intros B; apply Ht; now inversion B|discriminate|left; eauto].
  - apply Here; auto. right. intros m. subst size. lia.
  - apply Here; auto.
Qed.
Lemma first_unique size lines n n' : first_misindented size lines n -> first_misindented size lines n' -> n = n'.
Proof.
  intros (b & l & a & E & -> & Hb & Hl) (b' & l' & a' & E' & -> & Hb' & Hl'). f_equal. rewrite E in E'. clear E lines.
  revert b' Hb' E'. induction b as [|x b IH]; intros [|y b'] Hb' E'; auto; cbn [app] in E'; injection E' as Ex E'; subst.
  - inversion Hb'; subst. contradiction.
  - inversion Hb; subst. contradiction.
  - cbn [length]. f_equal. inversion Hb; inversion Hb'; subst. apply IH; auto.
Qed.
Lemma root_not_named strict bs ls e : root_fails parse_f64 strict bs ls e -> line_named e = None.
Proof.
  intros H. apply root_known in H as [H|[_ H]]; destruct e; try contradiction; reflexivity.
Qed.
(** A list of lines fails with the number of a line exactly when it is the first misindented one. *)
Lemma lines_named strict size raws n :
  (exists e, lines_fail parse_f64 strict size raws e /\ line_named e = Some n) <-> strict = true /\ first_misindented size raws n.
Proof.
  split.
  - intros (e & [[Hs H]|(ls & bs & _ & H)] & E); [|apply root_not_named in H; congruence].
    split; auto. apply fails_first in H as (m & k & E' & -> & H). rewrite E in E'. injection E' as ->. exact H.
  - intros [-> H].
    assert (Bad : forall ls bs, ~ scans true size 1 raws ls bs).
    { intros ls bs Hsc. apply scans_well in Hsc. destruct H as (b & l & a & -> & _ & _ & Hl). apply Forall_app in Hsc as [_ F]. now inversion F. }
    destruct (decode_stream_sync raws (Some (DStreamOpts (Some size) (Some true)))) as [evs|e] eqn:E.
    + apply stream_spec in E as (ls & bs & v & Hsc & _). now apply Bad in Hsc.
    + apply stream_err in E. exists e. split; auto. destruct E as [[_ E]|(ls & bs & Hsc & _)]; [|now apply Bad in Hsc].
      apply fails_first in E as (m & k & E' & -> & H'). rewrite E'. f_equal. exact (first_unique _ _ _ _ H' H).
Qed.

(** Decoding reports a validation error exactly when strict mode meets a line whose indentation is
    not made of whole levels of spaces, whatever else is wrong with the text, and the error carries
    the number of the first such line. *)
Theorem C63_validation_errors :
  forall (lines : list str) (indent : option nat) (strict : option bool) (expand : option expand_paths_mode) (n : nat),
    lines <> [] -> Forall (fun line => ~ In cLF line) lines ->
    ((exists e m, try_decode (join cLF lines) (Some (DecOpts indent strict expand)) = Err e /\ raised e = Some (TValidation n m)) <->
     unwrap_or strict true = true /\ first_misindented (unwrap_or indent 2) lines n).
Proof.
  intros lines indent strict expand n Hne Hlf. rewrite <- lines_named.
  assert (Sp : split_on cLF (join cLF lines) = lines) by (now apply split_join).
  assert (F : forall e, fails parse_f64 (unwrap_or strict true) (unwrap_or indent 2) (join cLF lines) e <->
    lines_fail parse_f64 (unwrap_or strict true) (unwrap_or indent 2) lines e) by (intros e; now rewrite fails_split, Sp).
  assert (D : forall e, line_named e <> None ->
    (try_decode (join cLF lines) (Some (DecOpts indent strict expand)) = Err e <-> lines_fail parse_f64 (unwrap_or strict true) (unwrap_or indent 2) lines e)).
  { intros e He. rewrite <- F. assert (Off : expand <> Some EPSafe -> (try_decode (join cLF lines) (Some (DecOpts indent strict expand)) = Err e <->
      fails parse_f64 (unwrap_or strict true) (unwrap_or indent 2) (join cLF lines) e)) by (intros X; now apply C53_decode_error).
    destruct expand as [[|]|]; try (apply Off; discriminate). clear Off. split.
    - intros H. apply C53_expand_error in H as [H|(tr & _ & [(c & -> & _)|[-> _]])]; [exact H|now destruct He|now destruct He].
    - intros H. apply C53_expand_error_complete. exact H. }
  split.
  - intros (e & m & H & R). assert (E : line_named e = Some n) by (apply named_kind; eauto). exists e. split; [|exact E].
    apply D; [congruence|exact H].
  - intros (e & H & E). pose proof (proj1 (named_kind e n) E) as (m & R). exists e, m. split; [|exact R]. apply D; [congruence|exact H].
Qed.
Print Assumptions C63_validation_errors.

(** Every other error of decoding is a plain message. *)
Theorem C63_other_errors :
  forall (text : str) (o : option decode_options) (e : err),
    try_decode text o = Err e ->
    (exists n m, raised e = Some (TValidation n m)) \/ (exists m, raised e = Some (TMessage m)).
Proof.
  intros text o e H. apply reachable in H as [H|[(size & raws & H)|[->|(c & ->)]]].
  - right. destruct e as [| |? |?|[c|]| |?|?|?|?|?|?|?|?|?|?|?|?|o'|o'|o'| |?|?|c| |o'|]; try contradiction; eexists; reflexivity.
  - destruct e; try contradiction; (right; eexists; reflexivity) || (left; eexists _, _; reflexivity).
  - right. eexists. reflexivity.
  - right. destruct c; eexists; reflexivity.
Qed.
Print Assumptions C63_other_errors.

(** A value that ends in an object where no key waits for it. *)
Inductive keyless : list place -> event -> Prop :=
| kl_object k ps : keyless (InObject k :: InObject false :: ps) EvEndObject
| kl_array ps : keyless (InArray :: InObject false :: ps) EvEndArray
| kl_prim ps p : keyless (InObject false :: ps) (EvPrim p).
(** The builder reports a plain message exactly when such a value is the first fault, and an event
    stream error for every other fault. *)
Theorem C63_builder_errors :
  forall (evs : list event) (e : err), build_node_from_events evs = Err e ->
    ((exists m, raised e = Some (TMessage m)) /\ exists pre x post ps, evs = pre ++ x :: post /\ within False pre ps /\ keyless ps x) \/
    ((exists m, raised e = Some (TEventStream m)) /\ forall pre x post ps, evs = pre ++ x :: post -> within False pre ps -> ~ keyless ps x).
Proof.
  intros evs e H.
  assert (K : forall pre x post ps, evs = pre ++ x :: post -> within False pre ps -> keyless ps x -> exists o, e = ENoKey o).
  { intros pre x post ps E W Hk. assert (B : exists o, cannot_build ps x (ENoKey o)) by (destruct Hk; eexists; constructor).
    destruct B as (o & B). exists o. assert (X : build_node_from_events evs = Err (ENoKey o)) by (apply C60_build_fails; left; eauto 8). congruence. }
  assert (R : (exists m, raised e = Some (TMessage m)) /\ (exists o, e = ENoKey o) \/ (exists m, raised e = Some (TEventStream m)) /\ (forall o, e <> ENoKey o)).
  { clear K. apply C60_build_fails in H as [(pre & x & post & ps & _ & _ & H)|[(p & ps & _ & ->)|[_ ->]]];
      [inversion H; subst; try (left; split; [eexists; reflexivity|eexists; reflexivity]; fail)|..]; right; (split; [eexists; reflexivity|discriminate]). }
  destruct R as [[R (o & ->)]|[R N]]; [left|right]; (split; [exact R|]).
  - apply C60_build_fails in H as [(pre & x & post & ps & E & W & H)|[(p & ps & _ & H)|[_ H]]]; try discriminate.
    exists pre, x, post, ps. split; [exact E|]. split; [exact W|]. inversion H; constructor.
  - intros pre x post ps E W Hk. destruct (K _ _ _ _ E W Hk) as (o & ->). now apply (N o).
Qed.
Print Assumptions C63_builder_errors.

(** The second line has bad indentation and the first a string without end: the indentation is
    reported.  A blank line with a tab is no fault.  In lenient mode the string is reported. *)
Example C63_case :
  let lines := [lit "a: ""b"; [cTAB]; lit "   c: 1"; [cTAB; cTAB] ++ lit "d: 2"] in
  Forall (fun line => ~ In cLF line) lines /\ first_misindented 2 lines 3 /\
  try_decode (join cLF lines) None = Err (EIndentMultiple 3 2 3) /\
  raised (EIndentMultiple 3 2 3) = Some (TValidation 3 (lit "Indentation must be exact multiple of 2, but found 3 spaces")) /\
  try_decode (join cLF lines) (Some (DecOpts None (Some false) None)) = Err EUnterminatedString.
Proof.
  cbv zeta. split.
  - repeat constructor; intros H; cbn in H; repeat (destruct H as [H|H]; [discriminate H|]); exact H.
  - split; [|split; [vm_compute; reflexivity|split; [vm_compute; reflexivity|vm_compute; reflexivity]]].
    exists [lit "a: ""b"; [cTAB]], (lit "   c: 1"), [[cTAB; cTAB] ++ lit "d: 2"]. split; [reflexivity|]. split; [reflexivity|]. split.
    + constructor; [|constructor; [|constructor]].
      * right. exists 0, 97%N, (lit ": ""b"). split; [reflexivity|]. split; discriminate.
      * left. repeat constructor.
    + apply (bad_line 2 3 (lit "c: 1")); [intros B; inversion B; discriminate|discriminate|right; lia].
Qed.
(** A key missing in an object inside an array, and an object that is not closed. *)
Example C63_builder_case :
  (exists m, build_node_from_events [EvStartArray 1; EvStartObject; EvPrim PNull] = Err (ENoKey OPrim) /\ raised (ENoKey OPrim) = Some (TMessage m)) /\
  (exists m, build_node_from_events [EvStartArray 1; EvStartObject; EvKey (lit "k") false; EvPrim PNull] = Err EIncomplete /\ raised EIncomplete = Some (TEventStream m)).
Proof. split; eexists; (split; [vm_compute; reflexivity|reflexivity]). Qed.
