(** Facts about every line of a layout, and the scanner on a rendered layout. *)
From Verif Require Import Chars Floats Json Shared EncPrim Scanner Parser Decoders Lex NumProof PrimProof
  Spec ParseProof DecRel DecProps DecRelax Encoders EncodeApi Layout LayEnc.

Local Open Scope nat_scope.

(** A line content as the encoder writes it. *)
Definition clean (c : str) : Prop := c <> [] /\ tight c /\ ~ In cLF c /\ ~ In cCR c.

Lemma clean_ends c : clean c -> (exists x r, c = x :: r /\ is_ws x = false) /\
  (exists a y, c = a ++ [y] /\ is_ws y = false).
Proof.
  intros (Hn & Ht & _). apply tight_inv in Ht as [->|(H1 & H2)]; [congruence|]. split; auto.
Qed.

Lemma clean_sep a s b : clean a -> clean b -> ~ In cLF s -> ~ In cCR s -> clean (a ++ s ++ b).
Proof.
  intros Ha Hb H1 H2. pose proof (clean_ends _ Ha) as ((x & r & Ea & Hx) & _).
  pose proof (clean_ends _ Hb) as (_ & (l & y & Eb & Hy)). destruct Ha as (_ & _ & A1 & A2), Hb as (_ & _ & B1 & B2).
  split; [rewrite Ea; discriminate|]. split.
  - rewrite Ea, Eb. cbn [app]. rewrite !app_assoc. now apply tight_cons_snoc.
  - rewrite !in_app_iff. tauto.
Qed.
Lemma clean_app a b : clean a -> clean b -> clean (a ++ b).
Proof. intros Ha Hb. change (a ++ b) with (a ++ [] ++ b). apply clean_sep; auto. Qed.
Lemma clean_char c : is_ws c = false -> clean [c].
Proof.
  intros H. split; [discriminate|]. split.
  - apply tight_nonws. repeat constructor. auto.
  - split; intros [->|[]]; discriminate.
Qed.
Lemma clean_tok d t : tok d t -> clean t.
Proof.
  intros H. split; [eapply tok_nonempty; eauto|]. split; [eapply tok_tight; eauto|].
  split; eapply tok_no; eauto.
Qed.

Section Facts.
Variable dl : char.
Hypothesis Hdl : std_delim dl.

Lemma clean_key k : clean (encode_key k).
Proof. eapply clean_tok, (encode_key_tok k dl); auto. Qed.
Lemma clean_prim p : clean (encode_primitive p dl).
Proof. eapply clean_tok, encode_primitive_tok; auto. Qed.

Lemma dl_not_line : dl <> cLF /\ dl <> cCR.
Proof. destruct Hdl as [->|[->| ->]]; split; discriminate. Qed.

Lemma clean_join l : l <> [] -> Forall clean l -> clean (join dl l).
Proof.
  intros Hn H. induction H as [|x l Hx Hl IH]; [congruence|]. destruct l as [|y l]; [exact Hx|].
  rewrite join_cons by discriminate. change (x ++ dl :: join dl (y :: l)) with (x ++ [dl] ++ join dl (y :: l)).
  destruct dl_not_line. apply clean_sep; auto; [apply IH; discriminate| |]; intros [E|[]]; congruence.
Qed.
Lemma clean_row ps : ps <> [] -> clean (encode_and_join_primitives ps dl).
Proof.
  intros H. apply clean_join; [destruct ps; [congruence|discriminate]|].
  apply Forall_map, Forall_forall. intros. apply clean_prim.
Qed.

Lemma clean_header n key fields : (forall fs, fields = Some fs -> fs <> []) ->
  clean (format_header n key fields dl).
Proof.
  intros Hf. unfold format_header.
  assert (Hb : clean (cLBRACK :: dec_of_N (N.of_nat n) ++ (if (dl =? DEFAULT_DELIMITER)%N then [] else [dl])
    ++ [cRBRACK])).
  { rewrite app_assoc. change (cLBRACK :: ?a ++ ?b) with ([cLBRACK] ++ a ++ b).
    assert (Hd : forall c, c = cLF \/ c = cCR -> ~ In c (dec_of_N (N.of_nat n) ++ (if (dl =? DEFAULT_DELIMITER)%N then [] else [dl]))).
    { intros c Hc. rewrite in_app_iff. intros [Hi|Hi].
      - apply digits_in in Hi. destruct Hc as [->| ->]; discriminate.
      - destruct dl_not_line. destruct (dl =? DEFAULT_DELIMITER)%N; [destruct Hi|]. destruct Hi as [<-|[]].
        destruct Hc; congruence. }
    apply clean_sep; [now apply clean_char|now apply clean_char| |]; apply Hd; auto. }
  assert (Hr : clean (match fields with Some fs => cLBRACE :: join dl (map encode_key fs) ++ [cRBRACE]
                      | None => [] end ++ [cCOLON])).
  { destruct fields as [fs|]; [|now apply clean_char].
    apply clean_app; [|now apply clean_char].
    change (cLBRACE :: join dl (map encode_key fs) ++ [cRBRACE])
      with ([cLBRACE] ++ join dl (map encode_key fs) ++ [cRBRACE]).
    specialize (Hf fs eq_refl). apply clean_app; [now apply clean_char|]. apply clean_app; [|now apply clean_char].
    apply clean_join; [destruct fs; [congruence|discriminate]|].
    apply Forall_map, Forall_forall. intros. apply clean_key. }
  assert (Hall : clean ((cLBRACK :: dec_of_N (N.of_nat n) ++ (if (dl =? DEFAULT_DELIMITER)%N then [] else [dl])
    ++ [cRBRACK]) ++ match fields with Some fs => cLBRACE :: join dl (map encode_key fs) ++ [cRBRACE]
                      | None => [] end ++ [cCOLON])) by now apply clean_app.
  replace (cLBRACK :: dec_of_N (N.of_nat n) ++ (if (dl =? DEFAULT_DELIMITER)%N then [] else [dl])
    ++ cRBRACK :: match fields with Some fs => cLBRACE :: join dl (map encode_key fs) ++ [cRBRACE]
                      | None => [] end ++ [cCOLON])
    with ((cLBRACK :: dec_of_N (N.of_nat n) ++ (if (dl =? DEFAULT_DELIMITER)%N then [] else [dl])
    ++ [cRBRACK]) ++ match fields with Some fs => cLBRACE :: join dl (map encode_key fs) ++ [cRBRACE]
                      | None => [] end ++ [cCOLON]).
  2: { cbn [app]. rewrite <- !app_assoc. reflexivity. }
  destruct key as [k|]; [|exact Hall]. apply clean_app; [apply clean_key|exact Hall].
Qed.

Lemma clean_hyphen c : clean c -> clean (cMINUS :: cSPACE :: c).
Proof.
  intros H. change (cMINUS :: cSPACE :: c) with ([cMINUS] ++ [cSPACE] ++ c).
  apply clean_sep; auto; [now apply clean_char| |]; intros [E|[]]; discriminate.
Qed.

Definition clean_lines : list aline -> Prop := Forall (fun a => clean (snd a)).

Lemma lay_clean G :
  (forall d kv abs, lay_field G dl d kv abs -> clean_lines abs) /\
  (forall d l abs, lay_fields G dl d l abs -> clean_lines abs) /\
  (forall key d items abs, lay_arr G dl key d items abs -> clean_lines abs) /\
  (forall d l abs, lay_items G dl d l abs -> clean_lines abs) /\
  (forall d v abs, lay_item G dl d v abs -> clean_lines abs).
Proof.
  unfold clean_lines. apply lay_mutind.
  - intros d k p _. constructor; [|constructor]. cbn [snd]. apply clean_sep; [apply clean_key|apply clean_prim| |];
      intros [E|[E|[]]]; discriminate.
  - intros d k l ls _ IH. constructor; auto. cbn. apply clean_app; [apply clean_key|now apply clean_char].
  - auto.
  - constructor.
  - intros. apply Forall_app. auto.
  - intros key d ps Hn _ _. constructor; [|constructor]. cbn [snd].
    change (?a ++ cSPACE :: ?b) with (a ++ [cSPACE] ++ b).
    apply clean_sep; [apply clean_header; discriminate|now apply clean_row| |]; intros [E|[]]; discriminate.
  - intros key d fields rows Hn _ _ _ Hw. constructor.
    + cbn. apply clean_header. intros fs E. injection E as <-. exact Hn.
    + apply Forall_map. eapply Forall_impl; [|exact Hw]. cbn. intros r Hr. apply clean_row.
      intros ->. destruct fields; [congruence|discriminate].
  - intros key d items ls _ _ IH. constructor; auto. cbn. apply clean_header. discriminate.
  - constructor.
  - intros. apply Forall_app. auto.
  - intros d p _. constructor; [|constructor]. cbn. apply clean_hyphen, clean_prim.
  - intros d. constructor; [|constructor]. now apply clean_char.
  - intros d kv l c a b _ IH1 _ IH2. inversion IH1; subst. constructor; [now apply clean_hyphen|]. apply Forall_app. auto.
  - intros d items c a _ IH. inversion IH; subst. constructor; auto. now apply clean_hyphen.
Qed.

Lemma lay_root_clean G v abs : lay_root G dl v abs -> clean_lines abs.
Proof.
  intros [p _|items ls H|l ls H].
  - constructor; [apply clean_prim|constructor].
  - now apply lay_clean in H.
  - now apply lay_clean in H.
Qed.
End Facts.

(** * Scanning *)

Lemma count_spaces_app n c : (match c with x :: _ => x <> cSPACE | [] => True end) ->
  count_spaces (spaces n ++ c) = n.
Proof.
  intros H. induction n as [|n IH].
  - destruct c as [|x c]; [reflexivity|]. cbn. destruct (N.eqb_spec x cSPACE); congruence.
  - change (spaces (S n)) with (cSPACE :: spaces n). cbn [app count_spaces]. rewrite N.eqb_refl. now rewrite IH.
Qed.
Lemma count_space_tab_app n c : (match c with x :: _ => x <> cSPACE /\ x <> cTAB | [] => True end) ->
  count_space_tab (spaces n ++ c) = n.
Proof.
  intros H. induction n as [|n IH].
  - destruct c as [|x c]; [reflexivity|]. cbn. destruct H.
    destruct (N.eqb_spec x cSPACE), (N.eqb_spec x cTAB); try congruence. reflexivity.
  - change (spaces (S n)) with (cSPACE :: spaces n). cbn [app count_space_tab]. rewrite N.eqb_refl. cbn [orb].
    now rewrite IH.
Qed.

Lemma nonws_first x : is_ws x = false -> x <> cSPACE /\ x <> cTAB.
Proof. intros H. split; intros ->; discriminate. Qed.

Lemma render_scan ind d c n : clean c -> ind <> 0 ->
  nonblank (render ind (d, c)) = true /\ (forall num, indent_error num (render ind (d, c)) ind = None) /\
  line_is (scan_line (render ind (d, c)) ind n) (d, c).
Proof.
  intros Hc Hi. destruct (clean_ends _ Hc) as ((x & r & -> & Hx) & _). pose proof (nonws_first x Hx) as [Hs Ht].
  unfold render, indented_line. cbn [fst snd].
  assert (E1 : count_spaces (spaces (ind * d) ++ x :: r) = ind * d) by now apply count_spaces_app.
  split; [|split].
  - unfold nonblank. rewrite forallb_app. cbn [forallb]. rewrite Hx. cbn. now rewrite andb_false_r.
  - intros num. unfold indent_error. rewrite count_space_tab_app by auto. rewrite E1.
    rewrite firstn_app_exact by now rewrite length_spaces.
    assert (E2 : contains cTAB (spaces (ind * d)) = false).
    { apply contains_not_In. intros Hin. apply in_spaces in Hin. discriminate. }
    rewrite E2. destruct ind as [|ind]; [congruence|].
    rewrite (Nat.mul_comm (S ind) d), Nat.mod_mul by discriminate. cbn [Nat.eqb negb]. now rewrite andb_false_r.
  - unfold line_is, scan_line. cbn [pl_depth pl_content fst snd]. rewrite E1. split.
    + unfold compute_depth_from_indent. destruct ind as [|ind]; [congruence|].
      rewrite (Nat.mul_comm (S ind) d). apply Nat.div_mul. discriminate.
    + apply skipn_app_exact. now rewrite length_spaces.
Qed.

Lemma scan_render ind abs : clean_lines abs -> ind <> 0 -> forall n,
  lines_are (fst (scan_from n ind (map (render ind) abs))) abs /\
  snd (scan_from n ind (map (render ind) abs)) = [].
Proof.
  intros H Hi. induction H as [|[d c] abs Hc _ IH]; intros n; cbn [map scan_from].
  - split; [constructor|reflexivity].
  - specialize (IH (S n)). destruct (scan_from (S n) ind (map (render ind) abs)) as [ls bs].
    cbn [fst snd] in *. destruct IH as [IH1 ->]. destruct (render_scan ind d c (S n) Hc Hi) as (-> & _ & Hl).
    cbn [fst snd]. split; auto. constructor; auto.
Qed.

Lemma render_indent_clean ind abs : clean_lines abs -> ind <> 0 -> indent_clean ind (map (render ind) abs).
Proof.
  intros H Hi. apply Forall_map. eapply Forall_impl; [|exact H]. intros [d c] Hc _.
  now destruct (render_scan ind d c 0 Hc Hi) as (_ & E & _).
Qed.

(** The decoder on a rendered layout, in either mode. *)
Lemma layout_decodes dl ind v abs strict : std_delim dl -> ind <> 0 -> lay_root True dl v abs ->
  decode_stream_sync (map (render ind) abs) (Some (DStreamOpts (Some ind) (Some strict))) = Ok (emit_events v).
Proof.
  intros Hd Hi Hl. pose proof (lay_root_clean dl Hd _ _ _ Hl) as Hc. apply stream_ok. cbn.
  split; [intros _; now apply render_indent_clean|].
  destruct (scan_render ind abs Hc Hi 0) as [H1 H2]. rewrite H2.
  destruct (lay_root_read dl Hd (DCtx strict []) eq_refl v abs Hl _ H1) as (c & Hr & _). eauto.
Qed.

Lemma render_no_lf ind abs : clean_lines abs -> Forall (fun s => ~ In cLF s) (map (render ind) abs).
Proof.
  intros H. apply Forall_map. eapply Forall_impl; [|exact H]. intros [d c] (_ & _ & Hc & _).
  unfold render, indented_line. cbn in *. rewrite in_app_iff. intros [Hi|Hi]; [|auto].
  apply in_spaces in Hi. discriminate.
Qed.
