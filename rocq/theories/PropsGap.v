(** C24 for whole documents: which blank lines the strict mode rejects. *)
From Verif Require Import Chars Floats Json Shared Scanner Parser DecValidation Decoders EventBuilder Expand DecodeApi Lex Spec DecRel DecProps DecRelax
  SpecRead ReadLex ReadHead ReadLine ReadProof SpecGap CutProof ExpandProof PropsStream PropsUnread PropsDecode GapProof.

Local Open Scope nat_scope.

(** A text with blank lines decodes exactly when the text without them does and no blank line stands
    between the first and the last line of the rows or items of an array; the value is the same. *)
Theorem C24_exactly :
  forall (src : list str) (indent : option nat) (expand : option expand_paths_mode) (ls : list tline) (blanks : list nat) (v : json),
    let o := Some (DecOpts indent (Some true) expand) in
    scans true (rd_indent (resolve_decode_options o)) 1 src ls blanks ->
    try_decode_from_lines src o = Ok v <->
    try_decode_from_lines (content_lines src) o = Ok v /\
      forall used, body parse_f64 ls used -> no_gap blanks used.
Proof.
  intros src indent expand ls bs v o Sc. set (size := rd_indent _) in Sc.
  assert (As : asc ls) by (eapply scans_asc; eauto).
  assert (Hs : forall raws evs, decode_stream_sync raws (Some (DStreamOpts (Some size) (Some true))) = Ok evs <->
    exists ls bs tr, scans true size 1 raws ls bs /\ root parse_f64 true bs ls tr /\ evs = tree_events tr) by (intros; apply stream_spec).
  split.
  - intros H. split.
    + eapply C23_removing_blank_lines; [|exact H]. clear. induction src as [|x src IH]; [constructor|]. unfold content_lines. cbn [filter].
      destruct (forallb is_ws x) eqn:E; cbn [negb]; constructor; auto. now apply all_ws_forallb.
    + intros used B. unfold try_decode_from_lines in H. cbv zeta in H.
      destruct (decode_stream_sync src _) as [evs|] eqn:E; [|discriminate]. apply Hs in E as (ls' & bs' & tr & Sc' & R & _).
      destruct (scans_fun _ _ _ _ _ _ _ Sc Sc') as [<- <-]. eapply root_gap; eauto.
  - intros [H G]. rewrite <- H. unfold try_decode_from_lines in H |- *. cbv zeta in H |- *.
    destruct (decode_stream_sync (content_lines src) _) as [evs|] eqn:E; [|discriminate]. apply Hs in E as (ls' & bs' & tr & Sc' & R & ->).
    destruct (scans_content _ _ _ _ _ _ Sc 1) as (ls2 & Sc2 & Sm). change (filter nonblank src) with (content_lines src) in Sc2.
    destruct (scans_fun _ _ _ _ _ _ _ Sc2 Sc') as [E1 E2]. subst ls' bs'.
    match goal with |- context [decode_stream_sync src ?x] =>
      change (decode_stream_sync src x) with (decode_stream_sync src (Some (DStreamOpts (Some size) (Some true)))) end.
    rewrite (proj2 (Hs src (tree_events tr))); [reflexivity|]. exists ls, bs, tr. split; [exact Sc|]. split; [|reflexivity].
    apply blanks_exactly; [exact As|]. split; [|exact G]. eapply root_moves; [exact R|]. clear - Sm. induction Sm as [|? ? ? ? [? ?]]; constructor; auto. now split.
Qed.
Print Assumptions C24_exactly.

(** Otherwise the error names a blank line. *)
Theorem C24_error :
  forall (src : list str) (indent : option nat) (expand : option expand_paths_mode) (ls : list tline) (blanks : list nat) (v : json) (used : list tline),
    let o := Some (DecOpts indent (Some true) expand) in
    scans true (rd_indent (resolve_decode_options o)) 1 src ls blanks ->
    try_decode_from_lines (content_lines src) o = Ok v ->
    body parse_f64 ls used -> ~ no_gap blanks used ->
    exists what n l, try_decode_from_lines src o = Err (EBlankInArray what (S n)) /\ nth_error src n = Some l /\ blank l.
Proof.
  intros src indent expand ls bs v used o Sc H B G. destruct (C23_strict_blank_lines src indent expand) as [E|[E|(e & e' & _ & E & _)]].
  - exfalso. apply G. change (try_decode_from_lines src o = try_decode_from_lines (content_lines src) o) in E.
    rewrite <- E in H. exact (proj2 (proj1 (C24_exactly src indent expand ls bs v Sc) H) used B).
  - exact E.
  - change (try_decode_from_lines (content_lines src) o = Err e') in E. congruence.
Qed.
Print Assumptions C24_error.

(** The two items are the body of the array; a blank line between them is refused, others are not. *)
Definition gap_lines : list tline := [TLine 4 1 (lit "- 1"); TLine 6 1 (lit "- 2")].
Example C24_case :
  let decode src := try_decode_from_lines src (Some (DecOpts None (Some true) None)) in
  let good := [lit "a[2]:"; []; lit "  - 1"; lit "  - 2"; []; lit "o:"; []; lit "  x: 1"] in
  let bad := [[]; []; lit "a[2]:"; lit "  - 1"; []; lit "  - 2"; lit "o:"; lit "  x: 1"] in
  (exists ls, scans true 2 1 bad ls [1; 2; 5] /\ body parse_f64 ls gap_lines) /\ ~ no_gap [1; 2; 5] gap_lines /\
  (exists v, decode good = Ok v /\ decode (content_lines bad) = Ok v) /\ decode bad = Err (EBlankInArray CItems 5).
Proof.
  cbv zeta. split; [|split; [|split; [eexists; split|]; vm_compute; reflexivity]].
  - destruct (parse_lines_sync [[]; []; lit "a[2]:"; lit "  - 1"; []; lit "  - 2"; lit "o:"; lit "  x: 1"] 2 true (ScanState 0 [])) as [[ls st]|] eqn:E;
      [|vm_compute in E; discriminate].
    destruct (ReadLine.scans_sound _ _ _ _ _ _ _ E) as (bs & Hs & Eb). vm_compute in E. injection E as <- <-. cbn in Eb. subst bs.
    eexists. split; [exact Hs|]. clear Hs.
    destruct (parse_array_header_line (lit "a[2]:") DEFAULT_DELIMITER) as [[[h iv]|]|] eqn:E; [|vm_compute in E; discriminate..].
    destruct (header_some_inv _ _ _ E) as (hl & tail & Hh & Eh & Ei). vm_compute in E. injection E as <- <-.
    apply bo_first.
    + intros h' tail' ((w & r & Ew & Bw) & _). destruct w as [|c w]; [discriminate|]. injection Ew as <- _. inversion Bw. discriminate.
    + set (c := Cursor (map parsed_of (gap_lines ++ [TLine 7 0 (lit "o:"); TLine 8 1 (lit "x: 1")])) None).
      destruct (decode_array_from_header 30 (to_header hl) (inline_of tail) c 0 (DCtx true [])) as [[evs c']|] eqn:Ed.
      * apply dec_sound in Ed as Er. destruct (proj1 (proj2 (proj2 (read_sound (DCtx true [])))) _ _ _ _ _ _ Er hl tail eq_refl eq_refl (header_delim _ _ _ Hh)) as (v & Hv & _).
        rewrite <- Eh, <- Ei in Ed. vm_compute in Ed. injection Ed as _ <-.
        destruct hl as [[k|] n dl fs]; [|discriminate]. eapply mb_here; [exact Hh|reflexivity|now apply inline_none|exact Hv|reflexivity].
      * exfalso. rewrite <- Eh, <- Ei in Ed. vm_compute in Ed. discriminate.
  - intros G. refine (G (TLine 4 1 (lit "- 1")) (TLine 6 1 (lit "- 2")) [TLine 6 1 (lit "- 2")] [TLine 4 1 (lit "- 1")] eq_refl eq_refl 5 _ _); cbn; [tauto|lia].
Qed.
