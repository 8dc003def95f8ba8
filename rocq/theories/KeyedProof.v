(** A key before an array or a primitive. *)
From Verif Require Import Chars Floats Json Shared Scanner Parser DecValidation Decoders EventBuilder Expand DecodeApi
  Lex Spec DecProps DecRel ParseProof SpecText SpecRead ReadLex ReadHead ReadLine ReadProof SpecError ErrLex ErrProof SpecCut PropsUnread CutProof
  SpecJoin JoinProof SpecDeep DeepProof.

Local Open Scope nat_scope.

Lemma names_start kt k q : names kt k q -> exists c r, kt = c :: r /\ is_ws c = false /\ c <> cLBRACK.
Proof.
  intros [k0 Hn _ Hb _ T|t k0 (b & -> & _)].
  - destruct k0 as [|c r]; [contradiction|]. exists c, r. split; [reflexivity|]. split.
    + destruct T as (a & z & _ & _ & _ & F & _). now apply (F c r).
    + intros ->. apply Hb. now left.
  - exists cDQ, (b ++ [cDQ]). repeat split; discriminate.
Qed.
Lemma begins_cons c x r : is_ws x = false -> begins c (x :: r) -> c = x.
Proof. intros W (w & s & E & B). destruct w as [|y w]; injection E as E1 E2; [now subst|]. subst. inversion B; subst. congruence. Qed.
Lemma names_header kt k q r h tail : names kt k q -> is_header (cLBRACK :: r) h tail ->
  is_header (kt ++ cLBRACK :: r) (HeadLine (Some (k, q)) (hl_length h) (hl_delimiter h) (hl_fields h)) tail.
Proof.
  intros N H. inversion H as [k0 len fields tl key n dl fs (r0 & after & Hh & Hc & Ht) Fk Fl Hn Hf]; subst. cbn [hl_length hl_delimiter hl_fields].
  assert (r0 = r) as ->.
  { inversion Hh as [k1 r1 Nq C|w b r1 E Hw Hb]; subst.
    - assert (C' : cut cLBRACK (cLBRACK :: r) [] r) by (split; [reflexivity|intros []]). apply (cut_fun _ _ _ _ _ _ C C').
    - exfalso. destruct w as [|c w]; [discriminate|]. cbn in E. injection E as <- _. inversion Hw; subst. discriminate. }
  apply (ih_intro _ kt len fields tail (Some (k, q)) n dl fs); auto.
  - exists r, after. split; [|split; [exact Hc|exact Ht]]. destruct N as [k1 N1 N2 N3 N4 T|t k1 (b & -> & U)].
    + apply he_bare; [|split; [reflexivity|exact N3]]. intros B. destruct k1 as [|c k1]; [contradiction|].
      assert (W : is_ws c = false) by (destruct T as (a & z & _ & _ & _ & F & _); now apply (F c k1)).
      apply (begins_cons _ _ _ W) in B. subst c. now apply (N4 k1).
    + rewrite <- app_comm_cons, <- app_assoc. cbn [app].
      apply (he_quoted _ [] b r); [reflexivity|constructor|eapply unescapes_body; eauto].
  - destruct N as [k1 N1 N2 N3 N4 T|t k1 Q]; [now apply fk_bare|]. apply (fk_quoted _ t); [|exact Q].
    destruct Q as (b & -> & _). exists [], []. rewrite app_nil_r. split; [reflexivity|]. split; [constructor|]. split; [constructor|]. split.
    + intros c r1 [= <- _]. reflexivity.
    + intros c r1 E. change (cDQ :: b ++ [cDQ]) with ((cDQ :: b) ++ [cDQ]) in E. apply app_inj_tail in E as [_ <-]. reflexivity.
Qed.
Lemma array_keyed double strict bs d h tail ls v rest kq : array double strict bs d h tail ls v rest ->
  array double strict bs d (HeadLine kq (hl_length h) (hl_delimiter h) (hl_fields h)) tail ls v rest.
Proof.
  inversion 1; subst.
  - eapply (ar_inline _ _ _ _ (HeadLine kq (hl_length h) (hl_delimiter h) (hl_fields h))); eauto.
  - eapply (ar_table _ _ _ _ (HeadLine kq (hl_length h) (hl_delimiter h) (hl_fields h))); eauto.
  - eapply (ar_list _ _ _ _ (HeadLine kq (hl_length h) (hl_delimiter h) (hl_fields h))); eauto.
Qed.
Lemma array_fails_keyed double strict bs d h tail ls e kq : array_fails double strict bs d h tail ls e ->
  array_fails double strict bs d (HeadLine kq (hl_length h) (hl_delimiter h) (hl_fields h)) tail ls e.
Proof.
  set (h' := HeadLine kq (hl_length h) (hl_delimiter h) (hl_fields h)). inversion 1; subst.
  - eapply (af_cell _ _ _ _ h'); eauto.
  - eapply (af_count _ _ _ _ h'); eauto.
  - eapply (af_row _ _ _ _ h'); eauto.
  - eapply (af_rows_count _ _ _ _ h'); eauto.
  - eapply (af_rows_gap _ _ _ _ h'); eauto.
  - eapply (af_rows_extra _ _ _ _ h'); eauto.
  - eapply (af_item _ _ _ _ h'); eauto.
  - eapply (af_items_count _ _ _ _ h'); eauto.
  - eapply (af_items_gap _ _ _ _ h'); eauto.
  - eapply (af_items_extra _ _ _ _ h'); eauto.
Qed.

Section Texts.
Variable d : option decode_options.
Notation strict := (rd_strict (resolve_decode_options d)).
Notation size := (rd_indent (resolve_decode_options d)).
Hypothesis He : rd_expand (resolve_decode_options d) = EPOff.

(** The first line with something before it. *)
Lemma scans_before t kt k q b ls bs : names kt k q -> (forall r, t <> cSPACE :: r) -> ~ blank t ->
  scans strict size 1 (t :: b) ls bs ->
  exists l0, ls = TLine 1 0 t :: l0 /\ scans strict size 1 ((kt ++ t) :: b) (TLine 1 0 (kt ++ t) :: l0) bs.
Proof.
  intros N Ns Nb Sc. destruct (names_start _ _ _ N) as (c & r & -> & W & _).
  inversion Sc as [|? ? ? ? bs0 B Sc'|? k0 t0 d0 ? ls0 ? B N1 D T Sc']; subst; [contradiction|].
  assert (k0 = 0) as ->. { destruct k0 as [|k0]; [reflexivity|]. exfalso. cbn in Ns. now apply (Ns (repeat cSPACE k0 ++ t0)). }
  cbn [repeat app]. assert (d0 = 0) as ->.
  { destruct D as (D1 & D2 & _). destruct size as [|sz]; [now apply D1|]. destruct D2 as [D2 _]; [discriminate|]. lia. }
  exists ls0. split; [reflexivity|]. apply (sc_line strict size 1 0 _ 0); auto.
  - intros X. inversion X; subst. congruence.
  - intros r' [= -> _]. discriminate.
  - intros _ r' [= -> _]. discriminate.
Qed.
Lemma names_no_bracket kt k q s : names kt k q -> ~ begins cLBRACK (kt ++ s).
Proof.
  intros N B. destruct (names_start _ _ _ N) as (c & r & -> & W & Hc). apply (begins_cons _ _ _ W) in B. congruence.
Qed.
Lemma array_named kt k q r b l : names kt k q -> needed (fun lines => try_decode_from_lines lines d) ((cLBRACK :: r) :: b) (JArr l) ->
  try_decode_from_lines ((kt ++ cLBRACK :: r) :: b) d = Ok (JObj [(k, JArr l)]).
Proof.
  intros N H. destruct (needed_read d He _ _ H) as (ls & bs & tr & Sc & R & E & _).
  destruct (scans_before (cLBRACK :: r) kt k q b ls bs N) as (l0 & -> & Sc'); [discriminate|intros B; inversion B; discriminate|exact Sc|].
  inversion R as [|x ls1 h tail v rest B Q Hh A|x p N' C P|x ls1 m ls2 ms rest N' M Ms]; subst; try discriminate.
  assert (G : root parse_f64 strict bs (TLine 1 0 (kt ++ cLBRACK :: r) :: l0) (TObj [(k, q, tr)])).
  { pose proof (names_header _ _ _ _ _ _ N Hh) as Hh'.
    assert (M : member parse_f64 strict bs 0 (kt ++ cLBRACK :: r) l0 (k, q, tr) [])
      by (eapply mb_array; [exact Hh'|reflexivity|apply array_keyed; exact A]).
    eapply ro_object; [left; intros [X _]; exact (names_no_bracket _ _ _ _ N X)|right; exact (member_has_colon _ _ _ _ _ _ _ _ M)|exact M|].
    apply ms_end. intros ? ? [=]. }
  rewrite (lines_ok _ _ _ _ _ He Sc' G). cbn [tree_json map fst snd]. now rewrite <- E.
Qed.
Lemma array_named_fails kt k q r b e h tail : names kt k q -> is_header (cLBRACK :: r) h tail -> unquoted cCOLON (cLBRACK :: r) ->
  try_decode_from_lines ((cLBRACK :: r) :: b) d = Err e -> try_decode_from_lines ((kt ++ cLBRACK :: r) :: b) d = Err e.
Proof.
  intros N Hh Q Hb.
  assert (L : lines_fail parse_f64 strict size ((cLBRACK :: r) :: b) e).
  { unfold try_decode_from_lines in Hb. cbv zeta in Hb. rewrite He in Hb. apply stream_err.
    destruct (decode_stream_sync _ _) as [evs|e'] eqn:E; cbn [bind] in Hb; [|congruence].
    apply stream_spec in E as (ls' & bs' & tr & _ & _ & ->).
    destruct (describes_build _ _ _ (tree_describes tr)) as (n & En & Ev). rewrite En in Hb. discriminate. }
  destruct (names_start _ _ _ N) as (c & r1 & Ek & W & _). destruct L as [[S F]|(ls & bs & Sc & F)].
  - apply lines_indent; [exact S|]. inversion F as [? ? ? ? B|? k0 t0 d0 ? ? B N1 D T F'|? k0 t0 ? B E0|? k0 t0 ? B N1 T Z K E0|? k0 t0 ? B N1 T Z K E0]; subst.
    + exfalso. inversion B; discriminate.
    + destruct k0 as [|k0]; [|discriminate]. apply (inf_line size 1 0 _ d0); auto.
      * intros X. inversion X; subst. congruence.
      * intros r' [= -> _]. discriminate.
      * intros r' [= -> _]. discriminate.
    + destruct k0; discriminate.
    + destruct k0; [contradiction|discriminate].
    + destruct k0; [|discriminate]. exfalso. now apply (K 0).
  - destruct (scans_before (cLBRACK :: r) kt k q b ls bs N) as (l0 & -> & Sc'); [discriminate|intros B; inversion B; discriminate|exact Sc|].
    apply (lines_err _ _ _ _ _ Sc'). assert (Bg : begins cLBRACK (cLBRACK :: r)) by (exists [], r; split; [reflexivity|constructor]).
    inversion F as [? ? ? B Q' Bh|? ? h' tail' ? B Q' Hh' Fa|? ? N' C Bs|? ? ? N' C M|? ? m ls1 ? N' C M Ms]; subst; cbn [tl_text] in *.
    + exfalso. apply header_some in Hh. apply header_err in Bh. congruence.
    + destruct (is_header_fun _ _ _ _ _ Hh Hh') as [<- <-]. pose proof (names_header _ _ _ _ _ _ N Hh) as Hk.
      eapply rtf_here; cbn [tl_text].
      * left. intros [X _]. exact (names_no_bracket _ _ _ _ N X).
      * right. inversion Hk; subst. eapply frame_has_colon; eauto.
      * eapply mf_array; [exact Hk|discriminate|]. now apply array_fails_keyed.
    + exfalso. destruct N' as [X|X]; [tauto|]. now apply (header_not_none _ _ _ Hh) in X.
    + exfalso. destruct N' as [X|X]; [tauto|]. now apply (header_not_none _ _ _ Hh) in X.
    + exfalso. destruct N' as [X|X]; [tauto|]. now apply (header_not_none _ _ _ Hh) in X.
Qed.
Lemma primitive_named kt k q t p : names kt k q -> ~ In cLBRACK (kt ++ t) ->
  (forall r, t <> cSPACE :: r) ->
  try_decode_from_lines [t] d = Ok (JPrim p) -> try_decode_from_lines [kt ++ cCOLON :: cSPACE :: t] d = Ok (JObj [(k, JPrim p)]).
Proof.
  intros N Nb Ns Hb. destruct (lines_ok_inv _ _ _ He Hb) as (ls & bs & tr & Sc & R & E).
  assert (Bt : ~ blank t).
  { intros B. inversion Sc as [|? ? ? ? ? _ Sc'|? ? ? ? ? ? ? B' ? ? ? Sc']; subst; inversion Sc'; subst.
    - inversion R; subst. discriminate.
    - apply B'. now apply blank_spaces in B. }
  assert (Sc' : scans strict size 1 [kt ++ cCOLON :: cSPACE :: t] [TLine 1 0 (kt ++ cCOLON :: cSPACE :: t)] []).
  { destruct (names_start _ _ _ N) as (c & r & -> & W & _). apply (sc_line strict size 1 0 _ 0); [| | | |constructor].
    - intros X. inversion X; subst. congruence.
    - intros r' [= -> _]. discriminate.
    - repeat split; intros; lia.
    - intros _ r' [= -> _]. discriminate. }
  assert (P : prim_text parse_f64 t p).
  { inversion Sc as [|? ? ? ? ? B Sc0|? k0 t0 d0 ? ? ? B' N1 ? ? Sc0]; subst; [contradiction|]. inversion Sc0; subst.
    assert (k0 = 0) as ->. { destruct k0 as [|k0]; [reflexivity|]. exfalso. cbn in Ns. now apply (Ns (repeat cSPACE k0 ++ t0)). }
    inversion R as [|x ls1 h tail v rest B Q Hh A|x p' N' C P|x ls1 m ls2 ms rest N' C M Ms]; subst; try discriminate.
    - exfalso. inversion A; subst; discriminate.
    - cbn in E. injection E as ->. exact P. }
  assert (Kl : key_line (kt ++ cCOLON :: cSPACE :: t) k q (cSPACE :: t)).
  { destruct N as [k1 N1 N2 N3 N4 T|s k1 (b & -> & U)].
    - apply (kl_bare _ k1); [|split; [reflexivity|exact N2]|exact T]. intros r' E'. destruct k1 as [|c k1]; [contradiction|].
      cbn in E'. injection E' as -> _. now apply (N4 k1).
    - apply (kl_quoted _ b); [|exact U]. rewrite <- app_comm_cons, <- app_assoc. reflexivity. }
  assert (Pl : plain (kt ++ cCOLON :: cSPACE :: t)).
  { left. split.
    - intros w r' Ew Bw. destruct (names_start _ _ _ N) as (c & r & Ek & W & _). subst kt. destruct w as [|y w].
      2: { exfalso. cbn in Ew. injection Ew as <- _. inversion Bw; subst. congruence. }
      cbn in Ew. injection Ew as -> <-. inversion N as [k1 N1 N2 N3 N4 T|s k1 (b & Eb & U)]; subst.
      + exfalso. now apply (N4 r).
      + injection Eb as ->. exists b, (cCOLON :: cSPACE :: t). rewrite <- app_assoc. split; [reflexivity|]. eapply unescapes_body; eauto.
    - intros k1 len fields tail (r1 & after & Hh & _). exfalso. apply Nb.
      assert (I : In cLBRACK (kt ++ cCOLON :: cSPACE :: t)).
      { destruct Hh as [k2 r2 _ [-> _]|w b r2 -> _ _]; repeat (rewrite in_app_iff; cbn [In]); tauto. }
      rewrite in_app_iff in *. cbn [In] in I. destruct I as [I|[[=]|[[=]|I]]]; auto. }
  assert (P' : prim_text parse_f64 (cSPACE :: t) p).
  { apply prim_trim. apply prim_trim in P. change (cSPACE :: t) with ([cSPACE] ++ t). rewrite trim_ws_l; [exact P|repeat constructor]. }
  assert (M : member parse_f64 strict [] 0 (kt ++ cCOLON :: cSPACE :: t) [] (k, q, TPrim p) []).
  { eapply mb_prim; eauto. intros X. inversion X; subst. contradiction. }
  assert (G : root parse_f64 strict [] [TLine 1 0 (kt ++ cCOLON :: cSPACE :: t)] (TObj [(k, q, TPrim p)])).
  { eapply ro_object; [left; intros [X _]; exact (names_no_bracket _ _ _ _ N X)|right; exact (member_has_colon _ _ _ _ _ _ _ _ M)|exact M|].
    apply ms_end. intros ? ? [=]. }
  now rewrite (lines_ok _ _ _ _ _ He Sc' G).
Qed.
End Texts.
