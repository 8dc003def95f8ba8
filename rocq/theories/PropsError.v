(** C53: what an error tells about the text. *)
From Verif Require Import Chars Floats Json Shared Scanner Parser DecValidation Decoders DecodeApi EventBuilder Lex NumProof PrimProof Spec DecNums
  ParseProof DecRel DecCost DecProps DecRelax SpecText TextProof SpecRead SpecError ReadLex ReadHead ReadLine ErrLex ReadProof ErrProof
  Fixtures Expand SpecExpand ExpandProof ExpandProps ExpandMean PropsFold PropsRead PropsExpand.

Local Open Scope nat_scope.

(** The line decoder fails exactly where, and for the reason, that SpecError.v gives. *)
Theorem C53_stream_error :
  forall (lines : list str) (indent : option nat) (strict : option bool) (e : err),
    decode_stream_sync lines (Some (DStreamOpts indent strict)) = Err e <->
    lines_fail parse_f64 (unwrap_or strict true) (unwrap_or indent 2) lines e.
Proof. intros lines indent strict e. exact (stream_err lines (unwrap_or strict true) (unwrap_or indent 2) e). Qed.
Print Assumptions C53_stream_error.

Lemma off_decode text indent strict expand : expand <> Some EPSafe ->
  try_decode text (Some (DecOpts indent strict expand)) =
  let? evs := decode_stream_sync (split_on cLF text) (Some (DStreamOpts (Some (unwrap_or indent 2)) (Some (unwrap_or strict true)))) in
  let? n := build_node_from_events evs in Ok (node_to_json n).
Proof.
  intros He. unfold try_decode, try_decode_from_lines. cbv zeta.
  cbn [resolve_decode_options unwrap_or do_indent do_strict do_expand rd_indent rd_strict rd_expand].
  replace (unwrap_or expand EPOff) with EPOff by (destruct expand as [[|]|]; cbn; congruence). reflexivity.
Qed.

(** The decoder, without path expansion. *)
Theorem C53_decode_error :
  forall (text : str) (indent : option nat) (strict : option bool) (expand : option expand_paths_mode) (e : err),
    expand <> Some EPSafe ->
    (try_decode text (Some (DecOpts indent strict expand)) = Err e <->
     fails parse_f64 (unwrap_or strict true) (unwrap_or indent 2) text e).
Proof.
  intros text indent strict expand e He. rewrite off_decode, fails_split by exact He.
  split.
  - intros H. apply bind_err in H as [H|(evs & Hs & H)]; [now apply stream_err|].
    apply reads_stream in Hs as (tr & _ & ->). destruct (describes_build _ _ _ (tree_describes tr)) as (n & En & _). rewrite En in H. discriminate.
  - intros H. apply stream_err in H. now rewrite H.
Qed.
Print Assumptions C53_decode_error.

(** A text has a meaning or a reason to be rejected, never both, and never two reasons. *)
Theorem C53_one_verdict :
  forall (strict : bool) (indent : nat) (text : str),
    ((exists tr, reads parse_f64 strict indent text tr) \/ (exists e, fails parse_f64 strict indent text e)) /\
    (forall tr e, reads parse_f64 strict indent text tr -> ~ fails parse_f64 strict indent text e) /\
    (forall e e', fails parse_f64 strict indent text e -> fails parse_f64 strict indent text e' -> e = e').
Proof.
  intros strict indent text.
  pose proof (fun e => C53_decode_error text (Some indent) (Some strict) (Some EPOff) e ltac:(discriminate)) as H.
  pose proof (fun v => C47_decoded_value text (Some indent) (Some strict) (Some EPOff) v ltac:(discriminate)) as H'. cbn [unwrap_or] in *.
  split; [|split].
  - destruct (try_decode _ _) as [v|e].
    + left. destruct (proj1 (H' v) eq_refl) as (tr & Hr & _). eauto.
    + right. exists e. now apply H.
  - intros tr e Hr Hf. apply H in Hf. assert (X : try_decode text (Some (DecOpts (Some indent) (Some strict) (Some EPOff))) = Ok (tree_json tr)) by (apply H'; eauto). congruence.
  - intros e e' H1 H2. apply H in H1, H2. congruence.
Qed.
Print Assumptions C53_one_verdict.

(** With path expansion: a text that cannot be read fails as without; one that can fails by a
    conflict among its members, in strict mode, or by the limit on depth. *)
Lemma expand_error text indent strict e :
    try_decode text (Some (DecOpts indent strict (Some EPSafe))) = Err e <->
    fails parse_f64 (unwrap_or strict true) (unwrap_or indent 2) text e \/
    exists tr, reads parse_f64 (unwrap_or strict true) (unwrap_or indent 2) text tr /\
      expand_paths_safe (node_of (tree_doc tr)) (unwrap_or strict true) = Err e.
Proof.
  unfold try_decode. rewrite decode_expanding by reflexivity. rewrite fails_split.
  cbn [resolve_decode_options unwrap_or do_indent do_strict do_expand rd_indent rd_strict rd_expand].
  destruct (decode_stream_sync _ _) as [evs|e0] eqn:E; cbn [bind].
  - apply reads_stream in E as (tr & Hr & ->). rewrite (spells_node _ _ (tree_spells tr)). cbn [bind].
    assert (N : ~ lines_fail parse_f64 (unwrap_or strict true) (unwrap_or indent 2) (split_on cLF text) e).
    { intros N. apply fails_split in N. apply (proj1 (proj2 (C53_one_verdict _ _ _)) tr) in N; auto. }
    destruct (expand_paths_safe (node_of (tree_doc tr)) (unwrap_or strict true)) as [w|e1] eqn:Ew; cbn [bind].
    + split; [discriminate|]. intros [H|(tr' & Hr' & H)]; [contradiction|]. rewrite (reads_fun _ _ _ _ _ Hr' Hr), Ew in H. discriminate.
    + split; [intros [= <-]; right; eauto|]. intros [H|(tr' & Hr' & H)]; [contradiction|]. rewrite (reads_fun _ _ _ _ _ Hr' Hr), Ew in H. congruence.
  - apply stream_err in E. split; [intros [= <-]; now left|]. intros [H|(tr & Hr & _)].
    + apply stream_err in H, E. congruence.
    + apply fails_split in E. now apply (proj1 (proj2 (C53_one_verdict _ _ _)) tr) in E.
Qed.

Theorem C53_expand_error :
  forall (text : str) (indent : option nat) (strict : option bool) (e : err),
    try_decode text (Some (DecOpts indent strict (Some EPSafe))) = Err e ->
    fails parse_f64 (unwrap_or strict true) (unwrap_or indent 2) text e \/
    exists tr, reads parse_f64 (unwrap_or strict true) (unwrap_or indent 2) text tr /\
      ((exists c, e = EExpandConflict c /\ unwrap_or strict true = true /\ conflicts (tree_doc tr) c) \/
       e = EExpandDepth /\ 256 < doc_levels (tree_doc tr)).
Proof.
  intros text indent strict e H. apply expand_error in H as [H|(tr & Hr & H)]; [now left|right].
  exists tr. split; [exact Hr|].
  pose proof (safe_verdict (unwrap_or strict true) (tree_doc tr)) as V. rewrite H in V. destruct e; try contradiction.
  - right. split; auto. destruct (Nat.le_gt_cases (doc_levels (tree_doc tr)) 256) as [L|L]; [|exact L]. now apply (safe_fine (unwrap_or strict true)) in L.
  - left. destruct V as [S V]. eauto.
Qed.
Print Assumptions C53_expand_error.

(** And conversely: the errors of reading are kept, and the first conflict among the members is
    reported as such. *)
Theorem C53_expand_error_complete :
  forall (text : str) (indent : option nat) (strict : option bool),
    (forall e, fails parse_f64 (unwrap_or strict true) (unwrap_or indent 2) text e ->
       try_decode text (Some (DecOpts indent strict (Some EPSafe))) = Err e) /\
    (forall tr c, reads parse_f64 (unwrap_or strict true) (unwrap_or indent 2) text tr -> unwrap_or strict true = true ->
       doc_levels (tree_doc tr) <= 256 -> conflicts (tree_doc tr) c ->
       try_decode text (Some (DecOpts indent strict (Some EPSafe))) = Err (EExpandConflict c)).
Proof.
  intros text indent strict. split; [intros e H; apply expand_error; now left|].
  intros tr c Hr Hs L H. apply expand_error. right. exists tr. split; [exact Hr|].
  pose proof (safe_verdict (unwrap_or strict true) (tree_doc tr)) as V. pose proof (safe_fine (unwrap_or strict true) _ L) as F.
  rewrite Hs in *. destruct (expand_paths_safe _ _) as [w|e]; [now apply (conflicts_not _ _ H) in V|]. destruct e; try contradiction.
  destruct V as [_ V]. now rewrite (conflicts_fun _ _ H _ V).
Qed.
Print Assumptions C53_expand_error_complete.

(** A document has an expansion or a first conflict, and not both, and no two first conflicts. *)
Theorem C53_conflict_or_expansion :
  forall (d : doc),
    ((exists v, expands true d v) \/ (exists c, conflicts d c)) /\
    (forall v c, expands true d v -> ~ conflicts d c) /\
    (forall c c', conflicts d c -> conflicts d c' -> c = c').
Proof.
  intros d. split; [|split].
  - pose proof (expand_verdict true d (doc_levels d)) as V. pose proof (expand_fine true d (doc_levels d) (le_n _)) as F.
    destruct (expand_inner (doc_levels d) true (node_of d)) as [w|e]; [left; eexists; exact V|right].
    destruct e; try contradiction. destruct V as [_ V]. eauto.
  - intros v c X C. exact (conflicts_not _ _ C _ X).
  - intros c c' C C'. exact (conflicts_fun _ _ C _ C').
Qed.
Print Assumptions C53_conflict_or_expansion.

(** Conflicts, as the texts that have them are reported. *)
Definition conflicting (s : list str) : option err :=
  match try_decode (join cLF s) (Some (DecOpts None None (Some EPSafe))) with Ok _ => None | Err e => Some e end.
Example conflict_segment : conflicting [lit "a.b: 1"; lit "a.b.c: 2"] = Some (EExpandConflict (CSegment (lit "b") KPrim)).
Proof. vm_compute. reflexivity. Qed.
Example conflict_key : conflicting [lit "a.b.c: 2"; lit "a.b[1]: 1"] = Some (EExpandConflict (CKey (lit "b") KObj KArr)).
Proof. vm_compute. reflexivity. Qed.
Example conflict_inside : conflicting [lit "x[2]:"; lit "  - 1"; lit "  - a.b: 1"; lit "    a: 2"; lit "y.z: 1"; lit "y: 1"] = Some (EExpandConflict (CKey (lit "a") KObj KPrim)).
Proof. vm_compute. reflexivity. Qed.
Example conflict_merge : conflicting [lit "a.b.c: 1"; lit "a:"; lit "  b:"; lit "    d: 1"; lit "    c:"; lit "      e: 2"] =
  Some (EExpandConflict (CKey (lit "c") KPrim KObj)).
Proof. vm_compute. reflexivity. Qed.

(** * Which errors there are *)

(** Errors about the writing of a line, possible in both modes. *)
Definition writing_error (e : err) : Prop :=
  match e with
  | EUnterminatedString | ECharsAfterQuote | EInvalidEscape (Some _) | EMissingColon => True
  | ELengthCap n => (100000000 < n)%N
  | _ => False
  end.
(** Errors about the arrangement of lines, raised in strict mode only; [raws] are the lines. *)
Definition line_is (raws : list str) (n : nat) (P : str -> Prop) : Prop := n <> 0 /\ exists raw, nth_error raws (n - 1) = Some raw /\ P raw.
Definition arrangement_error (size : nat) (raws : list str) (e : err) : Prop :=
  match e with
  | ECount _ expected actual => expected <> actual
  | EExtraItems _ | EExtraRows _ => True
  | EBlankInArray w n => (w = CRows \/ w = CItems) /\ line_is raws n blank
  | ETabIndent n => line_is raws n (fun raw => exists k t, raw = repeat cSPACE k ++ cTAB :: t /\ ~ blank t)
  | EIndentZero n k => size = 0 /\ k <> 0 /\ line_is raws n (fun raw => exists t, raw = repeat cSPACE k ++ t /\ ~ blank t /\ forall r, t <> cSPACE :: r)
  | EIndentMultiple n s k => s = size /\ size <> 0 /\ (forall m, k <> m * size) /\
      line_is raws n (fun raw => exists t, raw = repeat cSPACE k ++ t /\ ~ blank t /\ forall r, t <> cSPACE :: r)
  | _ => False
  end.

Lemma string_writing t e : bad_string t e -> writing_error e.
Proof. destruct 1; exact I. Qed.
Lemma cell_writing dl s e : bad_cell dl s e -> writing_error e.
Proof. intros (b & t & a & _ & _ & H). eapply string_writing; eauto. Qed.
Lemma header_writing s e : bad_header s e -> writing_error e.
Proof. destruct 1; [exact I|eapply string_writing; eauto|assumption|eapply cell_writing; eauto]. Qed.
Lemma key_writing s e : bad_key s e -> writing_error e.
Proof. destruct 1; exact I. Qed.

Section Arranged.
Variables (double : str -> option f64) (strict : bool) (blanks : list nat).
(** What the errors of the line structure can be, before the line numbers are looked up. *)
Definition arranged (e : err) : Prop :=
  match e with
  | ECount _ expected actual => expected <> actual
  | EExtraItems _ | EExtraRows _ => True
  | EBlankInArray w n => (w = CRows \/ w = CItems) /\ In n blanks
  | _ => False
  end.
Definition known (e : err) : Prop := writing_error e \/ strict = true /\ arranged e.

Lemma row_known dl fs d n ls e : row_fails double strict dl fs d n ls e -> known e.
Proof.
  induction 1; auto.
  - right. split; auto. cbn. intros E. apply Nat2N.inj in E. auto.
  - left. eapply cell_writing; eauto.
Qed.
Lemma gap_known w used n : strict = true -> w = CRows \/ w = CItems -> first_gap blanks used n -> known (EBlankInArray w n).
Proof. intros Hs Hw (a & m & z & b & _ & _ & p & q & H & _). right. split; auto. cbn. split; auto. rewrite H. apply in_app_iff. right. now left. Qed.
Lemma fails_known :
  (forall d t ls e, member_fails double strict blanks d t ls e -> known e) /\
  (forall stop d ls e, members_fail double strict blanks stop d ls e -> known e) /\
  (forall d h tail ls e, array_fails double strict blanks d h tail ls e -> known e) /\
  (forall d n ls e, items_fail double strict blanks d n ls e -> known e) /\
  (forall d t ls e, item_fails double strict blanks d t ls e -> known e).
Proof.
  apply fail_mutind; intros; auto;
    try (left; solve [eapply header_writing; eauto|eapply key_writing; eauto|eapply string_writing; eauto|eapply cell_writing; eauto]);
    try (eapply row_known; eassumption); try (eapply gap_known; eauto; fail); right; split; auto; cbn; auto.
Qed.
Lemma root_known ls e : root_fails double strict blanks ls e -> known e.
Proof.
  destruct fails_known as (Hm & Hms & Ha & _).
  destruct 1; eauto; left; solve [eapply header_writing; eauto|eapply string_writing; eauto].
Qed.
End Arranged.

Lemma scans_blanks strict size n raws ls bs : scans strict size n raws ls bs -> forall k, In k bs -> n <= k /\ exists raw, nth_error raws (k - n) = Some raw /\ blank raw.
Proof.
  induction 1 as [n|n raw raws ls bs Hb Hs IH|n k t d raws ls bs Ht Hsp Hd Htab Hs IH]; intros x Hx.
  - destruct Hx.
  - destruct Hx as [<-|Hx]; [split; auto; rewrite Nat.sub_diag; exists raw; auto|]. apply IH in Hx as (L & r & E & Hr). split; [lia|].
    exists r. split; auto. replace (x - n) with (S (x - S n)) by lia. exact E.
  - apply IH in Hx as (L & r & E & Hr). split; [lia|]. exists r. split; auto. replace (x - n) with (S (x - S n)) by lia. exact E.
Qed.
Lemma indent_lines size n raws e : indent_fails size n raws e ->
  match e with
  | ETabIndent k => n <= k /\ exists raw, nth_error raws (k - n) = Some raw /\ exists j t, raw = repeat cSPACE j ++ cTAB :: t /\ ~ blank t
  | EIndentZero k j => size = 0 /\ j <> 0 /\ n <= k /\ exists raw, nth_error raws (k - n) = Some raw /\
      exists t, raw = repeat cSPACE j ++ t /\ ~ blank t /\ forall r, t <> cSPACE :: r
  | EIndentMultiple k s j => s = size /\ size <> 0 /\ (forall m, j <> m * size) /\ n <= k /\ exists raw, nth_error raws (k - n) = Some raw /\
      exists t, raw = repeat cSPACE j ++ t /\ ~ blank t /\ forall r, t <> cSPACE :: r
  | _ => False
  end.
Proof.
  assert (S1 : forall (raw : str) raws n k, S n <= k -> nth_error (raw :: raws) (k - n) = nth_error raws (k - S n)).
  { intros raw raws' m k L. replace (k - m) with (S (k - S m)) by lia. reflexivity. }
  induction 1 as [n raw raws e Hb _ IH|n k t d raws e _ _ _ _ _ IH|n k t raws Ht|n k t raws Ht Hs Hn Hz Hk|n k t raws Ht Hs Hn Hz Hk].
  1-2: destruct e; auto.
  1,4: destruct IH as (L & IH); split; [lia|]; rewrite S1 by exact L; exact IH.
  1,3: destruct IH as (H1 & H2 & L & IH); split; auto; split; auto; split; [lia|]; rewrite S1 by exact L; exact IH.
  1,2: destruct IH as (H1 & H2 & H3 & L & IH); split; auto; split; auto; split; auto; split; [lia|]; rewrite S1 by exact L; exact IH.
  - split; auto. rewrite Nat.sub_diag. eexists. split; [reflexivity|]. eauto.
  - split; auto. split; auto. split; auto. rewrite Nat.sub_diag. eexists. split; [reflexivity|]. eauto.
  - split; auto. split; auto. split; auto. split; auto. rewrite Nat.sub_diag. eexists. split; [reflexivity|]. eauto.
Qed.

(** Errors raised in lenient mode are about the writing of a line; those that strict mode adds name
    the line, the indentation and the counts as they are in the text. *)
Theorem C53_errors_name_the_fault :
  forall (text : str) (indent : option nat) (strict : option bool) (expand : option expand_paths_mode) (e : err),
    expand <> Some EPSafe ->
    try_decode text (Some (DecOpts indent strict expand)) = Err e ->
    writing_error e \/ unwrap_or strict true = true /\ arrangement_error (unwrap_or indent 2) (split_on cLF text) e.
Proof.
  intros text indent strict expand e He H. apply C53_decode_error in H; auto. apply fails_split in H.
  set (size := unwrap_or indent 2) in *. set (st := unwrap_or strict true) in *. clearbody size st. set (raws := split_on cLF text) in *. clearbody raws.
  destruct H as [[Hs H]|(ls & bs & Hsc & H)].
  - right. split; auto. apply indent_lines in H. destruct e; try contradiction; cbn; unfold line_is.
    + destruct H as (L & H). split; [lia|exact H].
    + destruct H as (H1 & H2 & L & H). split; auto. split; auto. split; [lia|exact H].
    + destruct H as (H1 & H2 & H3 & L & H). split; auto. split; auto. split; auto. split; [lia|exact H].
  - apply root_known in H as [H|[Hs H]]; [now left|right]. split; auto. destruct e; try contradiction; auto.
    destruct H as [Hw H]. split; auto. apply (scans_blanks _ _ _ _ _ _ Hsc) in H as (L & H). split; [lia|exact H].
Qed.
Print Assumptions C53_errors_name_the_fault.

(** * Concrete texts *)

Definition failing (strict : bool) (s : list str) : option err :=
  match try_decode (join cLF s) (Some (DecOpts None (Some strict) None)) with Ok _ => None | Err e => Some e end.

Example first_of_two : failing true [lit "a: 1"; lit "b[2]: 1,2,3"; lit "c: ""x"] = Some (ECount CInline 2 3).
Proof. vm_compute. reflexivity. Qed.
Example the_other_one : failing false [lit "a: 1"; lit "b[2]: 1,2,3"; lit "c: ""x"] = Some EUnterminatedString.
Proof. vm_compute. reflexivity. Qed.
Example indentation_first : failing true [lit "b[2]: 1,2,3"; lit "c:"; lit "   d: 1"] = Some (EIndentMultiple 3 2 3).
Proof. vm_compute. reflexivity. Qed.
Example blank_named : failing true [lit "a[2]:"; lit "  - 1"; []; lit "  - 2"] = Some (EBlankInArray CItems 3).
Proof. vm_compute. reflexivity. Qed.
Example nested_row : failing true [lit "a:"; lit "  b[2]{x,y}:"; lit "    1,2"; lit "    3"] = Some (ECount CRowValues 2 1).
Proof. vm_compute. reflexivity. Qed.
Example escape_named : failing false [lit "a: ""\q"""] = Some (EInvalidEscape (Some (N.of_nat 113))).
Proof. vm_compute. reflexivity. Qed.
