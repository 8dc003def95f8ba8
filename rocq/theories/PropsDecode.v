(** Properties of the decoder: C09, C17 - C24, C40, C43 and C44. *)
From Verif Require Import Chars Floats Json Shared EncPrim Scanner Parser DecValidation Decoders
  EventBuilder Expand DecodeApi Lex Spec PrimProof ParseProof DecRel DecProps DecRelax PadProof FuelProof DecCost
  ExpandProof.

Local Open Scope nat_scope.

(** ** C09: what strict mode accepts, lenient mode reads in the same way *)

Theorem C09_strict_implies_lenient_events :
  forall (src : list str) (indent : option nat) (evs : list event),
    decode_stream_sync src (Some (DStreamOpts indent (Some true))) = Ok evs ->
    decode_stream_sync src (Some (DStreamOpts indent (Some false))) = Ok evs.
Proof. intros src indent evs. now apply stream_lenient. Qed.
Print Assumptions C09_strict_implies_lenient_events.

Theorem C09_strict_implies_lenient_value :
  forall (text : str) (indent : option nat) (expand : option expand_paths_mode) (v : json),
    try_decode text (Some (DecOpts indent (Some true) expand)) = Ok v ->
    try_decode text (Some (DecOpts indent (Some false) expand)) = Ok v.
Proof.
  intros text indent expand v. unfold try_decode, try_decode_from_lines. cbv zeta.
  cbn [resolve_decode_options unwrap_or do_indent do_strict do_expand rd_indent rd_strict rd_expand].
  intros H. inv_bind H. injection H as <-.
  apply C09_strict_implies_lenient_events in E. rewrite E. cbn [bind]. rewrite E0. cbn [bind].
  destruct (unwrap_or expand EPOff); [injection E1 as ->; reflexivity|].
  apply expand_safe_relax in E1. rewrite E1. reflexivity.
Qed.
Print Assumptions C09_strict_implies_lenient_value.

Example C09_example :
  let text := lit "a:
  b[2]{x,y}:
    1,2
    3,""4""
c[1]:
  - d: null" in
  (exists v, try_decode text (Some (DecOpts None (Some true) None)) = Ok v) /\
  (* the converse fails: lenient mode accepts more *)
  try_decode (lit "a[2]: 1") (Some (DecOpts None (Some true) None)) = Err (ECount CInline 2 1) /\
  (exists v, try_decode (lit "a[2]: 1") (Some (DecOpts None (Some false) None)) = Ok v).
Proof. split; [|split]; try eexists; vm_compute; reflexivity. Qed.

(** ** C17: the decoder terminates *)

(** The recursion of the decoder needs at most five steps per line plus eight ([dec_fuel]):
    the answer "out of fuel" is never given, whatever the text and the options. *)
Theorem C17_decode_terminates :
  forall (text : str) (o : option decode_options), try_decode text o <> Err EFuel.
Proof.
  intros text o. change (nofuel (try_decode text o)). unfold try_decode, try_decode_from_lines. cbv zeta.
  apply nofuel_bind.
  - unfold decode_stream_sync. cbv zeta. apply nofuel_bind.
    + generalize create_scan_state. induction (split_on cLF text) as [|raw r IH]; intros st;
        cbn [parse_lines_sync]; [apply nofuel_ok|].
      apply nofuel_bind.
      * rewrite parse_line_eq. destruct (nonblank raw); [|apply nofuel_ok].
        destruct (unwrap_or _ true); [|apply nofuel_ok]. unfold indent_error.
        destruct (contains cTAB _); [unfold nofuel; discriminate|].
        destruct (unwrap_or _ 2); destruct (Nat.ltb 0 _); cbn [andb]; try apply nofuel_ok;
          try (unfold nofuel; discriminate).
        destruct (Nat.eqb _ 0); cbn [negb]; [apply nofuel_ok|unfold nofuel; discriminate].
      * intros [p st1] _. apply nofuel_bind; auto. intros [ls st2] _. apply nofuel_ok.
    + intros [ls st] _. apply nofuel_bind; [apply decode_lines_nofuel|]. intros [evs c] _. apply nofuel_ok.
  - intros evs H. destruct (stream_grammar _ _ _ H) as [v Hv].
    destruct (describes_build _ _ _ Hv) as (n & -> & _). cbn [bind]. apply nofuel_bind.
    + destruct (rd_expand _); [apply nofuel_ok|]. apply nf_expand_safe.
    + intros. apply nofuel_ok.
Qed.
Print Assumptions C17_decode_terminates.

(** Five steps per line plus eight are enough: with more the decoder gives the same, so what the model
    computes is what the recursion without a bound computes. *)
Theorem C17_bound_plays_no_part :
  forall (lines : list parsed_line) (cx : dctx) (fuel : nat), 5 * length lines + 8 <= fuel ->
    decode_lines_with fuel lines cx = decode_lines lines cx.
Proof.
  intros lines cx fuel L. destruct (lines_more lines cx fuel L) as [E|E]; [|exact E].
  now destruct (decode_lines_nofuel cx lines).
Qed.
Print Assumptions C17_bound_plays_no_part.

(** ** C18: event streams are well formed *)

Theorem C18_events_well_formed :
  forall (src : list str) (o : option dstream_options) (evs : list event),
    decode_stream_sync src o = Ok evs ->
    exists v, describes (fun _ _ => True) evs v.
Proof.
  intros src o evs H. apply stream_grammar in H as [v H]. exists v.
  eapply describes_weaken; [|exact H]. auto.
Qed.
Print Assumptions C18_events_well_formed.

(** A grammatical stream is one value only: nothing can follow or be missing. *)
Theorem C18_grammar_is_unambiguous :
  forall evs v w, describes (fun _ _ => True) evs v -> describes (fun _ _ => True) evs w -> v = w.
Proof. intros evs v w. apply describes_fun. Qed.
Print Assumptions C18_grammar_is_unambiguous.

Example C18_example :
  (exists evs, decode_stream_sync [lit "a[1]:"; lit "  - b: 1"] None = Ok evs /\ length evs = 9) /\
  ~ (exists v, describes (fun _ _ => True) [EvStartObject; EvPrim PNull; EvEndObject] v).
Proof.
  split; [eexists; split; vm_compute; reflexivity|]. intros [v H]. apply describes_build in H as (n & H & _).
  vm_compute in H. discriminate.
Qed.

(** ** C19: building the value never fails *)

Theorem C19_build_total :
  forall (src : list str) (o : option dstream_options) (evs : list event),
    decode_stream_sync src o = Ok evs ->
    exists n, build_node_from_events evs = Ok n /\ describes (fun _ _ => True) evs (node_to_json n).
Proof.
  intros src o evs H. apply C18_events_well_formed in H as [v H].
  destruct (describes_build _ _ _ H) as (n & Hn & <-). eauto.
Qed.
Print Assumptions C19_build_total.

(** With path expansion off, decoding succeeds exactly when event decoding does, and gives the
    value the events describe. *)
Theorem C19_value_is_events :
  forall (text : str) (indent : option nat) (strict : option bool) (v : json),
    try_decode text (Some (DecOpts indent strict (Some EPOff))) = Ok v <->
    exists evs,
      decode_stream_sync (split_on cLF text) (Some (DStreamOpts indent strict)) = Ok evs /\
      describes (fun _ _ => True) evs v.
Proof.
  intros text indent strict v. unfold try_decode, try_decode_from_lines. cbv zeta.
  cbn [resolve_decode_options unwrap_or do_indent do_strict do_expand rd_indent rd_strict rd_expand].
  assert (Hopt : decode_stream_sync (split_on cLF text)
                   (Some (DStreamOpts (Some (unwrap_or indent 2)) (Some (unwrap_or strict true))))
                 = decode_stream_sync (split_on cLF text) (Some (DStreamOpts indent strict))) by reflexivity.
  rewrite Hopt. split.
  - intros H. inv_bind H. injection H as <-. exists a. split; auto.
    destruct (C19_build_total _ _ _ E) as (n & Hn & Hd). rewrite Hn in E0. now injection E0 as <-.
  - intros (evs & -> & Hd). cbn [bind]. destruct (describes_build _ _ _ Hd) as (n & -> & <-). reflexivity.
Qed.
Print Assumptions C19_value_is_events.

(** ** C20, C21: declared lengths *)

Theorem C20_strict_lengths :
  forall (src : list str) (indent : option nat) (evs : list event),
    decode_stream_sync src (Some (DStreamOpts indent (Some true))) = Ok evs ->
    exists v, describes (fun declared actual => declared = N.of_nat actual) evs v.
Proof.
  intros src indent evs H. apply stream_grammar in H as [v H]. exists v.
  eapply describes_weaken; [|exact H]. intros n k [_ Hn]. auto.
Qed.
Print Assumptions C20_strict_lengths.

(** Inside any table, at any depth: every row the strict decoder accepts has as many cells as
    the header has fields, and there are as many rows as declared. *)
Theorem C20_strict_row_widths :
  forall h fields c depth blanks evs c',
    decode_tabular_array h fields c depth (DCtx true blanks) = Ok (evs, c') ->
    exists rows, cu_rest c = rows ++ cu_rest c' /\ ah_length h = N.of_nat (length rows) /\
      Forall (fun line => length (parse_delimited_values (pl_content line) (ah_delimiter h))
                          = length fields) rows.
Proof.
  intros h fields c depth blanks evs c' H. apply decode_tabular_spec in H as (rows & Hc & _ & Hl & Hr).
  exists (map fst rows). rewrite map_length. split; [exact Hc|]. split; [now apply Hl|].
  apply Forall_map. eapply Forall_impl; [|exact Hr]. cbn. intros r (_ & _ & H). now apply H.
Qed.
Print Assumptions C20_strict_row_widths.

Example C20_example :
  (exists evs, decode_stream_sync [lit "t[2]{a,b}:"; lit "  1,2"; lit "  3,4"] None = Ok evs) /\
  decode_stream_sync [lit "t[2]{a,b}:"; lit "  1,2"] None = Err (ECount CRows 2 1) /\
  decode_stream_sync [lit "t[1]{a,b}:"; lit "  1,2"; lit "  3,4"] None = Err (EExtraRows 1) /\
  decode_stream_sync [lit "t[1]{a,b}:"; lit "  1"] None = Err (ECount CRowValues 2 1).
Proof. repeat apply conj; try eexists; vm_compute; reflexivity. Qed.

Theorem C21_length_cap :
  forall (src : list str) (o : option dstream_options) (evs : list event),
    decode_stream_sync src o = Ok evs ->
    exists v, describes (fun declared _ => (declared <= 100000000)%N) evs v.
Proof.
  intros src o evs H. apply stream_grammar in H as [v H]. exists v.
  eapply describes_weaken; [|exact H]. intros n k [Hn _]. auto.
Qed.
Print Assumptions C21_length_cap.

Example C21_example :
  let len := fun s => decode_stream_sync [s] (Some (DStreamOpts None (Some false))) in
  (exists evs, len (lit "[100000000]: 1") = Ok evs) /\ len (lit "[100000001]: 1") = Err (ELengthCap 100000001).
Proof. split; try eexists; vm_compute; reflexivity. Qed.

(** ** C22: strict indentation *)

Lemma count_spaces_head s : match skipn (count_spaces s) s with c :: _ => c <> cSPACE | [] => True end.
Proof.
  induction s as [|c s IH]; cbn [count_spaces]; [exact I|].
  destruct (N.eqb_spec c cSPACE); cbn [skipn]; auto.
Qed.

Lemma space_tab_prefix s : forall n rest, s = spaces n ++ cTAB :: rest ->
  contains cTAB (firstn (count_space_tab s) s) = true.
Proof.
  induction s as [|c s IH]; intros n rest E; [destruct n; discriminate|].
  destruct n as [|n]; cbn in E; injection E as -> E.
  - reflexivity.
  - change (count_space_tab (cSPACE :: s)) with (S (count_space_tab s)). cbn [firstn].
    unfold contains in *. cbn [existsb]. rewrite (IH _ _ E). now rewrite orb_true_r.
Qed.

Theorem C22_strict_indentation :
  forall (src : list str) (indent : nat) (evs : list event),
    decode_stream_sync src (Some (DStreamOpts (Some indent) (Some true))) = Ok evs ->
    Forall (fun line => blank line \/
      exists level c rest, line = repeat cSPACE (level * indent) ++ c :: rest /\
        c <> cSPACE /\ c <> cTAB) src.
Proof.
  intros src indent evs H. apply stream_ok in H as [H _]. specialize (H eq_refl).
  unfold opt_indent in H. cbn in H. eapply Forall_impl; [|exact H]. intros line Hl. cbn beta in Hl.
  destruct (nonblank line) eqn:En.
  2: { left. unfold nonblank in En. apply negb_false_iff in En. now apply all_ws_forallb. }
  right. specialize (Hl eq_refl 0). unfold indent_error in Hl.
  destruct (contains cTAB (firstn (count_space_tab line) line)) eqn:Et; [discriminate|].
  pose proof (count_spaces_head line) as Hh. pose proof (count_spaces_spec line) as Es.
  destruct (skipn (count_spaces line) line) as [|c rest] eqn:Ek.
  { exfalso. rewrite app_nil_r in Es. unfold nonblank in En. apply negb_true_iff in En.
    assert (Hw : all_ws line) by (rewrite Es; apply all_ws_spaces). apply all_ws_forallb in Hw. congruence. }
  assert (Hm : exists level, count_spaces line = level * indent).
  { destruct indent as [|i].
    - destruct (Nat.ltb_spec 0 (count_spaces line)); [discriminate|]. exists 0. lia.
    - destruct (Nat.ltb_spec 0 (count_spaces line)) as [Hz|Hz]; [|exists 0; lia].
      destruct (Nat.eqb_spec (Nat.modulo (count_spaces line) (S i)) 0) as [E|E]; [|discriminate].
      apply Nat.mod_divides in E as [k E]; [|lia]. exists k. lia. }
  destruct Hm as [level Hm]. exists level, c, rest. rewrite <- Hm. split; [exact Es|]. split; [exact Hh|].
  intros ->. rewrite (space_tab_prefix line (count_spaces line) rest Es) in Et. discriminate.
Qed.
Print Assumptions C22_strict_indentation.

Example C22_example :
  let strict n := Some (DStreamOpts (Some n) (Some true)) in
  (exists evs, decode_stream_sync [lit "a:"; lit "   b: 1"] (strict 3) = Ok evs) /\
  decode_stream_sync [lit "a:"; lit "   b: 1"] (strict 2) = Err (EIndentMultiple 2 2 3) /\
  decode_stream_sync [lit "a:"; cTAB :: lit "b: 1"] (strict 2) = Err (ETabIndent 2) /\
  decode_stream_sync [lit "a:"; lit "  b: 1"] (strict 0) = Err (EIndentZero 2 2).
Proof. repeat apply conj; try eexists; vm_compute; reflexivity. Qed.

(** ** C23: blank lines *)

(** The lines that are not blank, in order. *)
Definition content_lines (src : list str) : list str := filter (fun l => negb (forallb is_ws l)) src.

(** In lenient mode only they count: the events, the value and the error are the same. *)
Theorem C23_lenient_ignores_blank_lines :
  forall (src1 src2 : list str) (indent : option nat),
    content_lines src1 = content_lines src2 ->
    decode_stream_sync src1 (Some (DStreamOpts indent (Some false))) =
      decode_stream_sync src2 (Some (DStreamOpts indent (Some false))) /\
    forall expand : option expand_paths_mode,
      try_decode_from_lines src1 (Some (DecOpts indent (Some false) expand)) =
      try_decode_from_lines src2 (Some (DecOpts indent (Some false) expand)).
Proof.
  intros src1 src2 indent Hc.
  assert (E : forall ind, decode_stream_sync src1 (Some (DStreamOpts ind (Some false))) =
              decode_stream_sync src2 (Some (DStreamOpts ind (Some false)))).
  { intros ind. apply stream_content; [reflexivity|]. change (Forall2 padded (content_lines src2) (content_lines src1)). rewrite Hc.
    clear. induction (content_lines src2); constructor; auto. exists []. split; [constructor|]. now rewrite app_nil_r. }
  split; [apply E|]. intros expand. unfold try_decode_from_lines. cbv zeta. cbn [resolve_decode_options rd_strict rd_indent].
  now rewrite E.
Qed.
Print Assumptions C23_lenient_ignores_blank_lines.

(** Removing any blank lines from an accepted document. *)
Inductive blanks_removed : list str -> list str -> Prop :=
| br_nil : blanks_removed [] []
| br_keep x s t : blanks_removed s t -> blanks_removed (x :: s) (x :: t)
| br_drop x s t : blank x -> blanks_removed s t -> blanks_removed (x :: s) t.

Theorem C23_removing_blank_lines :
  forall (src1 src2 : list str) (o : option decode_options) (v : json),
    blanks_removed src1 src2 ->
    try_decode_from_lines src1 o = Ok v -> try_decode_from_lines src2 o = Ok v.
Proof.
  intros src1 src2 o v Hb. unfold try_decode_from_lines. cbv zeta.
  set (so := Some _). intros H. inv_bind H.
  assert (E' : decode_stream_sync src2 so = Ok a).
  { change src1 with ([] ++ src1) in E. change src2 with ([] ++ src2).
    revert E. generalize (@nil str). induction Hb as [|x s t _ IH|x s t Hx _ IH]; intros pre E; auto.
    - change (x :: s) with ([x] ++ s) in E. change (x :: t) with ([x] ++ t).
      rewrite app_assoc in *. now apply IH.
    - apply IH. eapply stream_remove; [|exact E]. unfold nonblank. apply negb_false_iff.
      now apply all_ws_forallb. }
  rewrite E'. cbn [bind]. rewrite E0. cbn [bind]. rewrite E1. exact H.
Qed.
Print Assumptions C23_removing_blank_lines.

(** Blank lines after the last line make no difference, in either mode; in particular a final line
    feed. *)
Theorem C23_blank_lines_at_the_end :
  forall (src blanks : list str), Forall blank blanks ->
    (forall o, decode_stream_sync (src ++ blanks) o = decode_stream_sync src o) /\
    (forall o, try_decode_from_lines (src ++ blanks) o = try_decode_from_lines src o).
Proof.
  intros src blanks Hb.
  assert (E : forall o, decode_stream_sync (src ++ blanks) o = decode_stream_sync src o).
  { intros o. apply stream_end. eapply Forall_impl; [|exact Hb]. intros x Hx. unfold nonblank. apply negb_false_iff. now apply all_ws_forallb. }
  split; [exact E|]. intros o. unfold try_decode_from_lines. now rewrite E.
Qed.
Print Assumptions C23_blank_lines_at_the_end.
Theorem C23_final_line_feed :
  forall (text : str) (o : option decode_options), try_decode (text ++ [cLF]) o = try_decode text o.
Proof.
  intros text o. unfold try_decode.
  assert (E : split_on cLF (text ++ [cLF]) = split_on cLF text ++ [[]]).
  { induction text as [|c text IH]; [reflexivity|]. cbn [app split_on]. rewrite IH. destruct (c =? cLF)%N; [reflexivity|].
    pose proof (split_on_not_nil cLF text) as Hn. destruct (split_on cLF text); [congruence|reflexivity]. }
  rewrite E. apply C23_blank_lines_at_the_end. repeat constructor.
Qed.
Print Assumptions C23_final_line_feed.

(** In strict mode a text gives what it gives without its blank lines, or the complaint that one of
    its blank lines is inside an array; errors of the indentation differ at most in the number of the
    line. *)
Definition bad_indentation (e : err) : Prop :=
  (exists n, e = ETabIndent n) \/ (exists n m, e = EIndentZero n m) \/ (exists n m k, e = EIndentMultiple n m k).
Theorem C23_strict_blank_lines :
  forall (src : list str) (indent : option nat) (expand : option expand_paths_mode),
    let decode ls := try_decode_from_lines ls (Some (DecOpts indent (Some true) expand)) in
    decode src = decode (content_lines src) \/
    (exists what n l, decode src = Err (EBlankInArray what (S n)) /\ nth_error src n = Some l /\ blank l) \/
    (exists e e', decode src = Err e /\ decode (content_lines src) = Err e' /\ bad_indentation e /\ bad_indentation e').
Proof.
  intros src indent expand. cbv zeta. unfold try_decode_from_lines. cbv zeta. cbn [resolve_decode_options].
  set (so := Some (DStreamOpts _ _)).
  destruct (stream_blanks src so eq_refl) as [(e & e' & E & E' & B & B')|H].
  - right. right. change (filter nonblank src) with (content_lines src) in E. rewrite E, E'. exists e', e. cbn. auto.
  - change (filter nonblank src) with (content_lines src) in H.
    destruct (decode_stream_sync src so) as [evs|e]; cbn [both] in H.
    + destruct (decode_stream_sync (content_lines src) so); [subst; now left|destruct H].
    + destruct H as [(what & n & l & -> & Hn & Hl)| ->]; [|now left]. right. left. exists what, n, l. split; [reflexivity|]. split; auto.
      apply all_ws_forallb. unfold nonblank in Hl. now apply negb_false_iff in Hl.
Qed.
Print Assumptions C23_strict_blank_lines.

Example C23_strict_case :
  let decode ls := try_decode_from_lines ls (Some (DecOpts None (Some true) None)) in
  decode [lit "a[2]:"; lit "  - 1"; []; lit "  - 2"] = Err (EBlankInArray CItems 3) /\
  decode [lit "a[3]:"; []; lit "  - 1"; lit "  - 2"] = Err (ECount CItems 3 2) /\
  decode [lit "a[3]:"; lit "  - 1"; lit "  - 2"] = Err (ECount CItems 3 2) /\
  decode [[]; lit "a:"; lit " b: 1"] = Err (EIndentMultiple 3 2 1) /\
  decode [lit "a:"; lit " b: 1"] = Err (EIndentMultiple 2 2 1).
Proof. cbv zeta. repeat split; vm_compute; reflexivity. Qed.

Example C23_example :
  let src1 := [lit "a:"; []; lit "  b: 1"; lit "   "; lit "c[1]:"; lit "  - x"; []] in
  let src2 := [lit "a:"; lit "  b: 1"; lit "c[1]:"; lit "  - x"; []] in
  blanks_removed src1 src2 /\ (exists v, try_decode_from_lines src1 None = Ok v) /\
  content_lines src1 = content_lines [lit "a:"; lit "  b: 1"; lit "c[1]:"; []; lit "  - x"].
Proof.
  cbv zeta. split; [|split; [eexists|]; vm_compute; reflexivity].
  apply br_keep, br_drop; [constructor|]. apply br_keep, br_drop.
  { vm_compute. repeat constructor. }
  repeat constructor.
Qed.

(** ** C24: blank lines inside arrays *)

(** At any depth: the strict decoder of table rows and list items rejects a blank line whose
    number lies between those of the first and the last line it consumed. *)
Theorem C24_no_blank_line_inside_array :
  forall fuel h c depth blanks evs c' first middle last b,
    decode_array_from_header fuel h None c depth (DCtx true blanks) = Ok (evs, c') ->
    cu_rest c = first :: middle ++ last :: cu_rest c' ->
    In b blanks -> ~ (pl_line first < bl_line b < pl_line last).
Proof.
  intros fuel h c depth blanks evs c' first middle last b H Hc Hb.
  apply dec_sound in H. eapply (array_blanks _ _ _ _ _ _ first (middle ++ [last])); eauto.
  - rewrite Hc. cbn. now rewrite <- app_assoc.
  - rewrite last_or_app. reflexivity.
Qed.
Print Assumptions C24_no_blank_line_inside_array.

Lemma items_consume cx c depth len count range evs c' n rg :
  items_rel cx c depth len count range evs c' n rg ->
  (N.to_nat n - N.to_nat count + length (cu_rest c') <= length (cu_rest c))%nat.
Proof.
  induction 1 as [c depth len count range Hst|c depth len count range line e1 c1 e2 c2 n rg Hp Hlt Hd Hi Hit _ IH].
  - lia.
  - apply dec_over in Hit as (pre & Ho & _). apply over_advance in Hp as [Hp _].
    rewrite Hp, Ho. cbn [app length]. rewrite app_length. lia.
Qed.

Lemma array_consume cx h c d evs c' : arr_rel cx h None c d evs c' -> dc_strict cx = true ->
  (N.to_nat (ah_length h) + length (cu_rest c') <= length (cu_rest c))%nat.
Proof.
  intros H Hs. inversion H; subst.
  - match goal with H : decode_tabular_array _ _ _ _ _ = _ |- _ =>
      apply decode_tabular_spec in H as (rows & Hc & _ & Hl & _) end.
    rewrite Hc, app_length, map_length, (Hl Hs). lia.
  - match goal with H : items_rel _ _ _ _ _ _ _ _ _ _ |- _ => apply items_consume in H end.
    match goal with H : assert_expected_count _ _ _ _ = Ok tt |- _ => apply count_ok in H; auto; subst end.
    lia.
Qed.

Lemma header_no_ws n fields d : skipn (count_spaces (format_header n None fields d)) (format_header n None fields d)
  = format_header n None fields d /\ nonblank (format_header n None fields d) = true.
Proof. split; reflexivity. Qed.

Lemma root_array_rel n fields d body o evs : std_delim d -> (N.of_nat n <= 100000000)%N ->
  no_rbrace fields ->
  decode_stream_sync (format_header n None fields d :: body) o = Ok evs ->
  exists first c', arr_rel (DCtx (opt_strict o) (snd (scan_from 1 (opt_indent o) body)))
     (Header None false (N.of_nat n) d (option_map (map field_of) fields)) None
     (Cursor (fst (scan_from 1 (opt_indent o) body)) (Some first)) 0 evs c'.
Proof.
  intros Hd Hn Hf H. apply stream_ok in H as [_ [c H]]. cbn [scan_from] in H.
  destruct (scan_from 1 (opt_indent o) body) as [ls bs]. 
  destruct (header_no_ws n fields d) as [H1 H2]. rewrite H2 in H. cbn [fst snd] in *.
  pose proof (header_is_header_content n fields d [] Hd) as Ha. rewrite app_nil_r in Ha.
  pose proof (parse_header_ok n None fields d [] Hd Hn Hf) as Hp. rewrite app_nil_r in Hp.
  cbn [key_quoted is_empty trim trim_start trim_end rev] in Hp.
  assert (Hpl : pl_content (scan_line (format_header n None fields d) (opt_indent o) 1) = format_header n None fields d)
    by exact H1.
  assert (Hna : ~ item_not_array (format_header n None fields d)).
  { intros [E|E]; [congruence|]. rewrite Hp in E. discriminate. }
  inversion H as [|first rest h iv e c' Hh Hpp Harr|first p Hn' Hk Hpr|first rest e1 c1 e2 c2 Hn' Hor Hkv Hrf]; subst;
    rewrite ?Hpl in *; try contradiction.
  rewrite Hp in Hpp. injection Hpp as <- <-. eauto.
Qed.

Lemma scan_length ind src : forall n, length (fst (scan_from n ind src)) = length (content_lines src).
Proof.
  induction src as [|raw r IH]; intros n; cbn [scan_from content_lines filter]; [reflexivity|].
  specialize (IH (S n)). destruct (scan_from (S n) ind r). unfold nonblank, content_lines in *.
  destruct (negb (forallb is_ws raw)); cbn [fst length] in *; auto.
Qed.

(** Whole documents: a root array declaring [n] items or rows; a blank line after the first and
    before the [n]th line of the body is rejected.  (Items that take more than one line are covered
    by the previous theorem.) *)
Theorem C24_blank_line_in_root_array :
  forall (n : nat) (fields : option (list str)) (d : char) (r1 : list str) (x : str) (r2 : list str)
         (indent : option nat),
    std_delim d -> (N.of_nat n <= 100000000)%N ->
    (forall fs f, fields = Some fs -> In f fs -> ~ In cRBRACE f) ->
    blank x -> 1 <= length (content_lines r1) < n ->
    forall evs, decode_stream_sync (format_header n None fields d :: r1 ++ x :: r2)
                  (Some (DStreamOpts indent (Some true))) <> Ok evs.
Proof.
  intros n fields d r1 x r2 indent Hd Hn Hf Hx Hl evs H.
  assert (Hb : no_rbrace fields).
  { destruct fields as [fs|]; cbn; auto. apply Forall_forall. eauto. }
  apply root_array_rel in H as (first & c' & H); auto.
  set (o := Some (DStreamOpts indent (Some true))) in *. set (ind := opt_indent o) in *.
  pose proof (array_consume _ _ _ _ _ _ H eq_refl) as Hc. cbn [ah_length cu_rest] in Hc.
  rewrite Nat2N.id in Hc.
  rewrite scan_app in H, Hc. cbn [fst snd] in *.
  assert (Hx' : nonblank x = false) by (unfold nonblank; apply negb_false_iff; now apply all_ws_forallb).
  cbn [scan_from] in H, Hc. rewrite Hx' in H, Hc.
  destruct (scan_from (S (1 + length r1)) ind r2) as [l2 b2] eqn:E2. cbn [fst snd] in *.
  pose proof (scan_numbers r1 1 ind) as [Hn1 _].
  pose proof (scan_numbers r2 (S (1 + length r1)) ind) as [Hn2 _]. rewrite E2 in Hn2. cbn [fst] in Hn2.
  rewrite app_length, scan_length in Hc.
  pose proof (scan_length ind r1 1) as Hlen1.
  destruct (fst (scan_from 1 ind r1)) as [|a t] eqn:E1; [cbn in Hlen1; lia|].
  pose proof H as H0. apply dec_over in H0 as (pre & [Ho _] & _). cbn [cu_rest] in Ho.
  assert (Hpre : length ((a :: t) ++ l2) = length pre + length (cu_rest c')).
  { rewrite Ho. apply app_length. }
  rewrite app_length, Hlen1 in Hpre.
  (* the last consumed line comes from r2 *)
  assert (Hsplit : exists mid z, pre = (a :: t) ++ mid ++ [z] /\ In z l2).
  { assert (Ep : pre = (a :: t) ++ firstn (length pre - length (a :: t)) l2).
    { rewrite <- (firstn_app_2 (length pre - length (a :: t)) (a :: t) l2).
      replace (length (a :: t) + (length pre - length (a :: t))) with (length pre) by (rewrite Hlen1; lia).
      rewrite Ho, firstn_app, firstn_all, Nat.sub_diag, firstn_O, app_nil_r. reflexivity. }
    assert (Hne : firstn (length pre - length (a :: t)) l2 <> []).
    { intros E0. rewrite E0, app_nil_r in Ep. rewrite Ep, Hlen1 in Hpre. lia. }
    destruct (exists_last Hne) as (mid & z & E0). exists mid, z. rewrite <- E0. split; auto.
    assert (Hin : In z (firstn (length pre - length (a :: t)) l2)) by (rewrite E0; apply in_app_iff; cbn; auto).
    rewrite <- (firstn_skipn (length pre - length (a :: t)) l2). apply in_app_iff. auto. }
  destruct Hsplit as (mid & z & Ep & Hz).
  set (b := BLine (S (1 + length r1)) (count_spaces x) (compute_depth_from_indent (count_spaces x) ind)) in H.
  eapply (array_blanks _ _ _ _ _ _ a (t ++ mid ++ [z]) z b); [exact H|reflexivity| | | |].
  - cbn [cu_rest]. rewrite Ho, Ep. reflexivity.
  - rewrite app_assoc, last_or_app. reflexivity.
  - cbn [dc_blanks]. apply in_app_iff. right. left. reflexivity.
  - inversion Hn1; subst. rewrite Forall_forall in Hn2. specialize (Hn2 _ Hz).
    unfold b. cbn [bl_line]. lia.
Qed.
Print Assumptions C24_blank_line_in_root_array.

Example C24_example :
  decode_stream_sync [lit "[2]{a}:"; lit "  1"; []; lit "  2"] None = Err (EBlankInArray CRows 3) /\
  decode_stream_sync [lit "k[2]:"; lit "  - a:"; lit "      b: 1"; []; lit "      c: 2"; lit "  - x"] None
    = Err (EBlankInArray CItems 4) /\
  (exists evs, decode_stream_sync [lit "[2]{a}:"; []; lit "  1"; lit "  2"; []] None = Ok evs) /\
  content_lines [lit "  1"] = [lit "  1"] /\ format_header 2 None (Some [lit "a"]) cCOMMA = lit "[2]{a}:".
Proof. repeat apply conj; try eexists; vm_compute; reflexivity. Qed.

(** ** C40: strict mode can leave lines undecoded *)

(** The property one would want: appending a line that is not blank to a document cannot leave
    the decoded events as they were. *)
Definition every_line_counts : Prop :=
  forall (src : list str) (line : str) (evs : list event),
    ~ blank line ->
    decode_stream_sync src (Some (DStreamOpts None (Some true))) = Ok evs ->
    decode_stream_sync (src ++ [line]) (Some (DStreamOpts None (Some true))) <> Ok evs.

Theorem C40_no_content_undecoded_refuted : ~ every_line_counts.
Proof.
  intros H. specialize (H [lit "[1]: x"] (lit "secret: 1")
    [EvStartArray 1; EvPrim (PStr (lit "x")); EvEndArray]).
  apply H; try (vm_compute; reflexivity). intros Hb. inversion Hb. discriminate.
Qed.
Print Assumptions C40_no_content_undecoded_refuted.

(** The same through an over-indented line in an object; it also hides the fields after it. *)
Theorem C40_over_indented_line_hides_rest :
  exists (src : list str) (evs : list event),
    decode_stream_sync src (Some (DStreamOpts None (Some true))) = Ok evs /\
    In (lit "c: 3") src /\ ~ In (EvKey (lit "c") false) evs.
Proof.
  exists [lit "a: 1"; lit "  b: 2"; lit "c: 3"].
  eexists. split; [vm_compute; reflexivity|]. split; [cbn; auto|].
  cbn [In]. intros H. repeat destruct H as [H|H]; try discriminate H; auto.
Qed.
Print Assumptions C40_over_indented_line_hides_rest.

(** ** C43: the number of events *)

Theorem C43_strict_events_linear :
  forall (src : list str) (indent : option nat) (evs : list event),
    decode_stream_sync src (Some (DStreamOpts indent (Some true))) = Ok evs ->
    length evs <= 2 * list_sum (map (@length char) src) + 6 * length src + 2.
Proof. intros src indent evs H. exact (stream_cost_strict _ _ _ H eq_refl). Qed.
Print Assumptions C43_strict_events_linear.

Theorem C43_lenient_events_quadratic :
  forall (src : list str) (o : option dstream_options) (L : nat) (evs : list event),
    (forall line, In line src -> length line <= L) ->
    decode_stream_sync src o = Ok evs ->
    length evs <= (2 * L + 6) * length src + 2.
Proof. intros src o L evs HL H. eapply stream_cost_lenient; eauto. now apply Forall_forall. Qed.
Print Assumptions C43_lenient_events_quadratic.

(** ** C44: table rows *)

Lemma row_entries_names fs : forall cells, map fst (row_entries fs cells) = map fn_name fs.
Proof. induction fs as [|f fs IH]; intros cells; cbn [row_entries map fst]; [reflexivity|]. now rewrite IH. Qed.
Lemma row_entries_nth fs : forall cells j, j < length fs ->
  option_map snd (nth_error (row_entries fs cells) j) = Some (JPrim (nth j cells PNull)).
Proof.
  induction fs as [|f fs IH]; intros cells j Hj; cbn [length] in Hj; [lia|]. destruct j as [|j]; cbn [row_entries nth_error].
  - destruct cells; reflexivity.
  - rewrite IH by lia. destruct cells as [|p cells]; [destruct j|]; reflexivity.
Qed.

(** The objects a table decodes to, given the cells of each row. *)
Definition row_of (names : list str) (cells : list prim) (row : json) : Prop :=
  exists entries, row = JObj entries /\ map fst entries = names /\
    forall j, j < length names -> option_map snd (nth_error entries j) = Some (JPrim (nth j cells PNull)).

Theorem C44_table_rows :
  forall h fields c depth cx evs c',
    decode_tabular_array h fields c depth cx = Ok (evs, c') ->
    exists (lines : list parsed_line) (cells : list (list prim)) (rows : list json),
      cu_rest c = lines ++ cu_rest c' /\
      Forall2 (fun line ps => map_row_values_to_primitives
                 (parse_delimited_values (pl_content line) (ah_delimiter h)) = Ok ps) lines cells /\
      describes_items (fun _ _ => True) evs rows /\
      Forall2 (row_of (map fn_name fields)) cells rows.
Proof.
  intros h fields c depth cx evs c' H. apply decode_tabular_spec in H as (rows & Hc & -> & _ & Hr).
  exists (map fst rows), (map snd rows), (map (fun r => JObj (row_entries fields (snd r))) rows).
  split; [exact Hc|]. split; [|split].
  - clear Hc. induction Hr as [|r rows (_ & H & _) _ IH]; cbn [map]; constructor; auto.
  - apply items_rows.
  - clear. induction rows as [|r rows IH]; cbn [map]; constructor; auto.
    eexists. split; [reflexivity|]. split; [apply row_entries_names|].
    intros j Hj. rewrite map_length in Hj. now apply row_entries_nth.
Qed.
Print Assumptions C44_table_rows.

(** Whole documents: a root table. *)
Theorem C44_root_table :
  forall (n : nat) (f : str) (fs : list str) (d : char) (body : list str) (o : option dstream_options)
         (evs : list event),
    std_delim d -> (N.of_nat n <= 100000000)%N -> (forall g, In g (f :: fs) -> ~ In cRBRACE g) ->
    decode_stream_sync (format_header n None (Some (f :: fs)) d :: body) o = Ok evs ->
    exists cells rows,
      describes (fun _ _ => True) evs (JArr rows) /\ Forall2 (row_of (f :: fs)) cells rows.
Proof.
  intros n f fs d body o evs Hd Hn Hf H. apply root_array_rel in H as (first & c' & H); auto.
  2: { cbn. apply Forall_forall. auto. }
  inversion H; subst.
  - match goal with H : decode_tabular_array _ _ _ _ _ = _ |- _ =>
      apply C44_table_rows in H as (lines & cells & rows & _ & _ & Hi & Hr) end.
    cbn [ah_fields option_map map] in *. match goal with H : Some _ = Some _ |- _ => injection H as <- <- end.
    exists cells, rows. split; [constructor; auto|].
    assert (Hm : map fn_name (field_of f :: map field_of fs) = f :: fs).
    { cbn. f_equal. rewrite map_map. cbn. apply map_id. }
    rewrite <- Hm. exact Hr.
  - cbn [ah_fields option_map map] in *. match goal with H : _ \/ _ |- _ => destruct H; discriminate end.
Qed.
Print Assumptions C44_root_table.

Example C44_example :
  let num s := JPrim (PNum (unwrap_or (parse_f64 s) f64_nan)) in
  try_decode (lit "[3]{a,b}:
  1
  2,3
  4,5,6") (Some (DecOpts None (Some false) None)) =
  Ok (JArr [JObj [(lit "a", num (lit "1")); (lit "b", JPrim PNull)];
            JObj [(lit "a", num (lit "2")); (lit "b", num (lit "3"))];
            JObj [(lit "a", num (lit "4")); (lit "b", num (lit "5"))]]).
Proof. vm_compute. reflexivity. Qed.
