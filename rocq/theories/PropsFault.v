(** Theorems: the first fault decides (C75). *)
From Verif Require Import Chars Floats Json Shared Scanner Parser DecValidation Decoders EventBuilder Expand DecodeApi
  Lex Spec DecProps DecRel EventProof ParseProof SpecText SpecRead ReadLex ReadHead ReadLine ReadProof SpecError ErrLex ErrProof SpecCut
  PropsUnread CutProof PropsCut SpecJoin JoinProof CliPath Expand SpecExpand ExpandProof ExpandProps ExpandMean PropsFold PropsRead PropsExpand PropsError SpecFault FaultProof.

Local Open Scope nat_scope.

Lemma decode_fails a d e : ~ of_expansion e -> try_decode_from_lines a d = Err e ->
  lines_fail parse_f64 (rd_strict (resolve_decode_options d)) (rd_indent (resolve_decode_options d)) a e.
Proof.
  intros Ne Hb. unfold try_decode_from_lines in Hb. cbv zeta in Hb. apply stream_err.
  destruct (decode_stream_sync _ _) as [evs|e'] eqn:E; cbn [bind] in Hb; [exfalso|congruence].
  apply stream_spec in E as (ls' & bs' & tr & _ & _ & ->).
  rewrite (spells_node _ _ (tree_spells tr)) in Hb. cbn [bind] in Hb.
  destruct (rd_expand (resolve_decode_options d)); [discriminate|].
  pose proof (safe_verdict (rd_strict (resolve_decode_options d)) (tree_doc tr)) as V.
  destruct (expand_paths_safe _ _) as [w|e1]; cbn [bind] in Hb; [discriminate|]. injection Hb as <-.
  destruct e1; try contradiction; now apply Ne.
Qed.

(** Whatever lines follow: the error of the first lines stays the error of the text, unless it is not about
    indentation and strict mode finds a fault in the indentation of the lines that follow. *)
Theorem C75_first_fault_decides :
  forall (a b : list str) (e : err) (indent : option nat) (strict : option bool) (expand : option expand_paths_mode),
    let decode := fun lines => try_decode_from_lines lines (Some (DecOpts indent strict expand)) in
    decode a = Err e -> settled e -> ~ lone a ->
    (of_indentation e -> decode (a ++ b) = Err e) /\
    (forall e', unwrap_or strict true = true -> indent_fails (unwrap_or indent 2) 1 b e' -> ~ of_indentation e ->
       decode (a ++ b) = Err (moved (length a) e')) /\
    (~ (unwrap_or strict true = true /\ exists e', indent_fails (unwrap_or indent 2) 1 b e') -> decode (a ++ b) = Err e).
Proof.
  intros a b e indent strict expand decode H St Lo. set (d := Some (DecOpts indent strict expand)) in *.
  change (unwrap_or strict true) with (rd_strict (resolve_decode_options d)).
  change (unwrap_or indent 2) with (rd_indent (resolve_decode_options d)).
  destruct (decode_fails a d e (proj1 (proj2 St)) H) as [[S F]|(ls & bs & Sa & F)].
  - destruct (indent_first _ _ _ _ F) as [O F']. assert (X : decode (a ++ b) = Err e) by (apply (lines_indent d); auto).
    split; [auto|]. split; [intros e' _ _ N; contradiction|auto].
  - pose proof (root_fails_other _ _ _ _ _ F) as NO. split; [intros O; exfalso; apply NO; now left|]. split.
    + intros e' S F' _. apply (lines_indent d); [exact S|]. rewrite S in Sa. eapply indent_app; [exact Sa|].
      rewrite Nat.add_comm. now apply indent_move.
    + intros NF. destruct (scans_total (rd_strict (resolve_decode_options d)) (rd_indent (resolve_decode_options d)) b) as [(S & X)|(ls' & bs' & Sb)];
        [exfalso; apply NF; auto|].
      assert (Sab : scans (rd_strict (resolve_decode_options d)) (rd_indent (resolve_decode_options d)) 1 (a ++ b)
                      (ls ++ map (sh (length a)) ls') (bs ++ map (Nat.add (length a)) bs')).
      { eapply scans_app; [exact Sa|]. rewrite Nat.add_comm. now apply scans_move. }
      apply (lines_err _ d _ _ _ Sab).
      destruct (scans_range _ _ _ _ _ _ Sa) as [Ra _]. destruct (scans_range _ _ _ _ _ _ Sb) as [_ Rb].
      apply (root_more parse_f64 _ bs (map (Nat.add (length a)) bs') (1 + length a)); auto.
      * apply Forall_map. eapply Forall_impl; [|exact Rb]. cbn. lia.
      * eapply Forall_impl; [|exact Ra]. cbn. lia.
      * intros l El. destruct (scans_one _ _ _ _ _ _ _ Sa El) as (bl & k & r & E1 & E2 & E3 & E4 & E5).
        destruct (is_key_value_line (tl_text l)) eqn:Ek; [now apply colon_line_spec|]. exfalso. apply Lo.
        exists bl, k, (tl_text l), r. repeat split; auto. now apply colon_line_not.
Qed.
Print Assumptions C75_first_fault_decides.

(** Also in the two cases left out, a text that starts with refused lines is refused, unless all that the first
    lines lack are items or rows. *)
Theorem C75_refused_stays_refused :
  forall (a b : list str) (e : err) (indent : option nat) (strict : option bool) (expand : option expand_paths_mode),
    let decode := fun lines => try_decode_from_lines lines (Some (DecOpts indent strict expand)) in
    decode a = Err e -> ~ missing e -> ~ of_expansion e -> exists e', decode (a ++ b) = Err e'.
Proof.
  intros a b e indent strict expand decode H Nm Ne. unfold decode in *. apply decode_fails in H; [|exact Ne].
  set (d := Some (DecOpts indent strict expand)) in *. set (d0 := Some (DecOpts indent strict (Some EPOff))).
  assert (Same : forall l x, lines_fail parse_f64 (rd_strict (resolve_decode_options d)) (rd_indent (resolve_decode_options d)) l x ->
            try_decode_from_lines l d = Err x /\ try_decode_from_lines l d0 = Err x).
  { intros l x F. apply stream_err in F. change (rd_strict (resolve_decode_options d)) with (unwrap_or strict true) in F.
    change (rd_indent (resolve_decode_options d)) with (unwrap_or indent 2) in F.
    split; unfold try_decode_from_lines; cbv zeta;
      [change (rd_strict (resolve_decode_options d)) with (unwrap_or strict true); change (rd_indent (resolve_decode_options d)) with (unwrap_or indent 2)
      |change (rd_strict (resolve_decode_options d0)) with (unwrap_or strict true); change (rd_indent (resolve_decode_options d0)) with (unwrap_or indent 2)];
      rewrite F; reflexivity. }
  destruct (try_decode_from_lines (a ++ b) d0) as [v|e'] eqn:E.
  - exfalso. destruct (C61_truncated_lines (a ++ b) indent strict (Some EPOff) v ltac:(discriminate) E) as (j & _ & K).
    destruct (K (length a)) as [K1 K2]. rewrite firstn_app, Nat.sub_diag, firstn_all, firstn_O, app_nil_r in *.
    fold d0 in K1, K2. rewrite (proj2 (Same _ _ H)) in *.
    destruct (Nat.lt_ge_cases (length a) j) as [L|L]; [|discriminate (K1 L)].
    destruct (K2 L) as [[_ X]|[(v' & X & _)|(_ & e' & X & M)]]; [discriminate|discriminate|].
    injection X as <-. contradiction.
  - exists e'. apply Same. apply (decode_fails _ d0); [|exact E]. intros O.
    unfold try_decode_from_lines in E. cbv zeta in E. change (rd_expand (resolve_decode_options d0)) with EPOff in E.
    destruct (decode_stream_sync _ _) as [evs|e1] eqn:Es; cbn [bind] in E.
    + apply stream_spec in Es as (ls' & bs' & tr & _ & _ & ->). rewrite (spells_node _ _ (tree_spells tr)) in E. discriminate.
    + injection E as ->. apply stream_err in Es. revert O. eapply lines_fail_other; eauto.
Qed.
Print Assumptions C75_refused_stays_refused.

(** The same for texts: what stands after a line feed. *)
Theorem C75_first_fault_of_text :
  forall (s t : str) (e : err) (indent : option nat) (strict : option bool) (expand : option expand_paths_mode),
    let decode := fun text => try_decode text (Some (DecOpts indent strict expand)) in
    decode s = Err e -> settled e -> ~ lone (split_on cLF s) ->
    ~ (unwrap_or strict true = true /\ exists e', indent_fails (unwrap_or indent 2) 1 (split_on cLF t) e') \/ of_indentation e ->
    decode (s ++ cLF :: t) = Err e.
Proof.
  intros s t e indent strict expand decode H St Lo Hb. unfold decode, try_decode in *. rewrite split_app.
  destruct (C75_first_fault_decides _ (split_on cLF t) _ _ _ _ H St Lo) as (H1 & _ & H3). destruct Hb as [Hb|Hb]; auto.
Qed.
Print Assumptions C75_first_fault_of_text.

(** A row of a table with a string that is not closed, inside a list: the error stays whatever follows. *)
Definition torn : list str := map lit ["name: report"; ""; "parts[2]:"; "  - rows[2]{a,b}:"; "      1,2"; "      3,""x"]%string.
Example C75_case :
  try_decode_from_lines torn None = Err EUnterminatedString /\ settled EUnterminatedString /\ ~ lone torn /\
  try_decode_from_lines (torn ++ map lit ["  - 7"; "more: 1"]%string) None = Err EUnterminatedString /\
  try_decode_from_lines (torn ++ map lit ["  - 7"; "   more: 1"]%string) None = Err (EIndentMultiple 8 2 3).
Proof.
  split; [vm_compute; reflexivity|]. split; [split; [intros (w & n & m & E & _); discriminate|split; [intros []|discriminate]]|].
  split; [|split; vm_compute; reflexivity].
  intros (bl & k & t & r & E & Hb & Hr & _). unfold torn in E. cbn [map] in E.
  assert (B : forall c x, is_ws c = false -> ~ blank (c :: x)) by (intros c x W X; inversion X; subst; congruence).
  destruct bl as [|x bl].
  - injection E as _ <-. inversion Hr as [|? ? _ Hr']; subst. inversion Hr' as [|? ? X _]; subst. revert X. apply B. reflexivity.
  - injection E as <- _. inversion Hb as [|? ? X _]; subst. revert X. apply B. reflexivity.
Qed.
(** An array that is too short can be completed; the last item of a list may go on, and be wrong before its blank
    lines are looked at; and a line that is alone is read as a primitive. *)
Example C75_needed :
  (try_decode_from_lines (map lit ["k[2]:"; "  - 1"]%string) None = Err (ECount CItems 2 1) /\
   exists v, try_decode_from_lines (map lit ["k[2]:"; "  - 1"; "  - 2"]%string) None = Ok v) /\
  (try_decode_from_lines (map lit ["k[1]:"; "  - a: 1"; ""; "    b: 2"]%string) None = Err (EBlankInArray CItems 3) /\
   try_decode_from_lines (map lit ["k[1]:"; "  - a: 1"; ""; "    b: 2"; "    c"]%string) None = Err EMissingColon) /\
  (try_decode_from_lines [lit """a"" b"] None = Err ECharsAfterQuote /\
   try_decode_from_lines (map lit ["""a"" b"; "c: 1"]%string) None = Err EMissingColon).
Proof. repeat split; try (eexists; vm_compute; reflexivity); vm_compute; reflexivity. Qed.
