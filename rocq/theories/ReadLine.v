(** Lines: their indentation, and the tests the decoder makes on their text. *)
From Verif Require Import Chars Floats Json Shared Scanner Parser DecValidation Decoders Lex NumProof PrimProof Spec DecNums
  ParseProof DecRel DecProps DecRelax SpecText TextProof SpecRead ReadLex ReadHead.

Local Open Scope nat_scope.

(** * Headers: consequences of [header_cases] *)

Lemma is_header_fun s h t h' t' : is_header s h t -> is_header s h' t' -> h = h' /\ t = t'.
Proof.
  intros [k l f t1 key n dl fs Hf Hk Hl Hn Hc] [k' l' f' t2 key' n' dl' fs' Hf' Hk' Hl' Hn' Hc'].
  destruct (frame_fun _ _ _ _ _ _ _ _ _ Hf Hf') as (<- & <- & <- & <-).
  assert (E : n = n' /\ dl = dl').
  { pose proof (proj2 (frame_length_spec _ _ _) Hl) as E1. pose proof (proj2 (frame_length_spec _ _ _) Hl') as E2. rewrite E1 in E2. injection E2 as <- <-. auto. }
  destruct E as [<- <-].
  assert (E : key = key').
  { pose proof (frame_key_spec k []) as Hs. 
    assert (E1 : header_key (k ++ []) (length k) = Ok (option_map fst key, key_flag key)) by (apply Hs; eauto).
    assert (E2 : header_key (k ++ []) (length k) = Ok (option_map fst key', key_flag key')) by (apply Hs; eauto).
    rewrite E1 in E2. injection E2 as E2 E3. destruct key as [[a b]|], key' as [[a' b']|]; cbn in *; congruence. }
  subst key'. pose proof (frame_length_delim _ _ _ Hl) as Hd.
  destruct f as [f|], fs as [fs|], fs' as [fs'|]; try contradiction; auto.
  destruct Hc as (ts & H1 & H2), Hc' as (ts' & H1' & H2').
  assert (E1 : parse_fields f dl = Ok (map to_field fs)) by (apply fields_spec; eauto).
  assert (E2 : parse_fields f dl = Ok (map to_field fs')) by (apply fields_spec; eauto).
  rewrite E1 in E2. injection E2 as E2. assert (E3 : fs = fs').
  { revert E2. clear. revert fs'. induction fs as [|[a b] fs IH]; intros [|[a' b'] fs'] E; try discriminate; auto.
    cbn in E. injection E as -> -> E. f_equal. now apply IH. }
  subst. auto.
Qed.
Lemma header_some s h t : is_header s h t -> parse_array_header_line s DEFAULT_DELIMITER = Ok (Some (to_header h, inline_of t)).
Proof.
  intros H. pose proof (header_cases s) as C. destruct (parse_array_header_line s DEFAULT_DELIMITER) as [[[h' iv]|]|e].
  - destruct C as (_ & hl & tail & Hh & -> & ->). destruct (is_header_fun _ _ _ _ _ H Hh) as [<- <-]. reflexivity.
  - destruct C as [_ C]. now destruct (C h t).
  - destruct C as [_ C]. now destruct (C h t).
Qed.
Lemma header_some_inv s h iv : parse_array_header_line s DEFAULT_DELIMITER = Ok (Some (h, iv)) ->
  exists hl tail, is_header s hl tail /\ h = to_header hl /\ iv = inline_of tail.
Proof. intros E. pose proof (header_cases s) as C. rewrite E in C. apply C. Qed.
Lemma header_none s : parse_array_header_line s DEFAULT_DELIMITER = Ok None <-> no_header s.
Proof.
  pose proof (header_cases s) as C. destruct (parse_array_header_line s DEFAULT_DELIMITER) as [[[h' iv]|]|e].
  - split; [discriminate|]. intros H. now destruct C.
  - split; [intros _; apply C|reflexivity].
  - split; [discriminate|]. intros H. now destruct C.
Qed.
Lemma header_not_none s h t : is_header s h t -> ~ no_header s.
Proof. intros H Hn. apply header_none in Hn. rewrite (header_some _ _ _ H) in Hn. discriminate. Qed.
Lemma to_header_key h : ah_key (to_header h) = None <-> hl_key h = None.
Proof. destruct h as [[[k q]|] n dl fs]; cbn; split; congruence. Qed.
Lemma plain_spec t : plain t <-> plain_content t.
Proof.
  unfold plain, plain_content. rewrite <- header_none. split; intros [H|H]; [now left| |now left|].
  - right. destruct H as (h & tail & H & E). exists (to_header h), (inline_of tail). split; [now apply header_some|now apply to_header_key].
  - right. destruct H as (h & iv & H & E). apply header_some_inv in H as (hl & tail & H & -> & ->). exists hl, tail. split; auto. now apply to_header_key.
Qed.
(** The delimiters a header can declare. *)
Definition head_delim (h : head_line) : Prop := hl_delimiter h = cCOMMA \/ hl_delimiter h = cTAB \/ hl_delimiter h = cPIPE.
Lemma header_delim s h t : is_header s h t -> head_delim h.
Proof.
  intros [k l f t1 key n dl fs _ _ Hl _ _]. unfold head_delim. cbn. destruct Hl as [sg ds dt dl _ _ _ [[_ ->]|[_ [->| ->]]]]; auto.
Qed.
Lemma head_plain h : head_delim h -> plain_delim (hl_delimiter h).
Proof. intros [->|[->| ->]]; split; discriminate. Qed.

(** * Keys and the shape of a line *)

Lemma key_sound s k e q : parse_key_token s 0 = Ok (k, e, q) -> key_line s k q (skipn e s).
Proof.
  unfold parse_key_token. cbn [skipn]. destruct (starts_with cDQ s) eqn:Es.
  - apply starts_with_iff in Es as (r & ->). unfold parse_quoted_key. intros H.
    destruct (find_closing_quote (cDQ :: r) 0) as [n|] eqn:Ec; [|discriminate].
    apply closing_spec in Ec as (b & r' & -> & Hb & ->). 
    replace (slice 1 (S (length b)) (cDQ :: b ++ cDQ :: r')) with b in H.
    2: { unfold slice. cbn [skipn]. replace (S (length b) - 1) with (length b) by lia. rewrite firstn_app, Nat.sub_diag, firstn_all. cbn. now rewrite app_nil_r. }
    destruct (unescape_string b) as [key|] eqn:Eu; [|discriminate]. cbn [bind] in H.
    rewrite skip_quoted in H. destruct (starts_with cCOLON r') eqn:Er; [|discriminate].
    apply starts_with_iff in Er as (r2 & ->). cbn [bind] in H. injection H as <- <- <-.
    replace (skipn (S (S (S (length b)))) (cDQ :: b ++ cDQ :: cCOLON :: r2)) with r2.
    2: { change (cDQ :: b ++ cDQ :: cCOLON :: r2) with ([cDQ] ++ b ++ cDQ :: cCOLON :: r2).
         replace ([cDQ] ++ b ++ cDQ :: cCOLON :: r2) with (([cDQ] ++ b ++ [cDQ; cCOLON]) ++ r2) by (now rewrite <- !app_assoc).
         replace (S (S (S (length b)))) with (length ([cDQ] ++ b ++ [cDQ; cCOLON])) by (rewrite !app_length; cbn; lia).
         rewrite skipn_app, skipn_all, Nat.sub_diag. reflexivity. }
    apply kl_quoted with (b := b); auto. now apply unescape_spec.
  - unfold parse_unquoted_key, find_from. cbn [skipn]. intros H. destruct (find_char cCOLON s) as [i|] eqn:Ei; [|discriminate].
    apply find_cut in Ei as (a & r & Hc & <-). cbn [option_map bind] in H. 
    assert (E : s = (a ++ [cCOLON]) ++ r) by (destruct Hc as [-> _]; now rewrite <- app_assoc).
    rewrite Nat.add_0_l in H. injection H as <- <- <-.
    apply kl_bare with (t := a).
    + now apply starts_with_not.
    + replace (skipn (S (length a)) s) with r; auto. rewrite E. replace (S (length a)) with (length (a ++ [cCOLON])) by (rewrite app_length; cbn; lia).
      now rewrite skipn_app, skipn_all, Nat.sub_diag.
    + replace (slice 0 (length a) s) with a; [apply trims_trim|]. destruct Hc as [-> _]. unfold slice. cbn [skipn]. rewrite Nat.sub_0_r, firstn_app, Nat.sub_diag, firstn_all. cbn. now rewrite app_nil_r.
Qed.
Lemma key_complete s k q r : key_line s k q r -> exists e, parse_key_token s 0 = Ok (k, e, q) /\ skipn e s = r.
Proof.
  assert (X : forall s k e q, parse_key_token s 0 = Ok (k, e, q) -> forall r, key_line s k q r -> skipn e s = r).
  { clear. intros s k e q H r Hr. apply key_sound in H. destruct H as [b k r0 E Hu|t k r0 Hn Hc Ht].
    - inversion Hr as [b1 k1 r1 E1 Hu1|t1 k1 r1 Hn1 Hc1 Ht1]. subst k1 r1. rewrite E in E1. injection E1 as E1.
      apply quote_body_fun in E1 as [_ E1]; eauto using unescapes_body. congruence.
    - inversion Hr as [b1 k1 r1 E1 Hu1|t1 k1 r1 Hn1 Hc1 Ht1]. now destruct (cut_fun _ _ _ _ _ _ Hc Hc1). }
  intros H. assert (Y : exists e, parse_key_token s 0 = Ok (k, e, q)); [|destruct Y as [e Y]; exists e; eauto].
  unfold parse_key_token. cbn [skipn]. destruct H as [b k r -> Hu|t k r Hn Hc Ht].
  - change (starts_with cDQ (cDQ :: b ++ cDQ :: cCOLON :: r)) with true. cbv iota. unfold parse_quoted_key.
    rewrite (proj2 (closing_spec _ (S (length b)))).
    2: { exists b, (cCOLON :: r). split; auto. split; auto. eapply unescapes_body; eauto. }
    replace (slice 1 (S (length b)) (cDQ :: b ++ cDQ :: cCOLON :: r)) with b.
    2: { unfold slice. cbn [skipn]. replace (S (length b) - 1) with (length b) by lia. rewrite firstn_app, Nat.sub_diag, firstn_all. cbn. now rewrite app_nil_r. }
    rewrite (proj2 (unescape_spec b (unescapes_body _ _ Hu) k) Hu). cbn [bind]. rewrite skip_quoted. cbn [starts_with]. eexists. reflexivity.
  - apply starts_with_not in Hn. rewrite Hn. unfold parse_unquoted_key, find_from. cbn [skipn].
    rewrite (cut_find _ _ _ _ Hc). cbn [option_map bind]. eexists. repeat f_equal.
    apply trims_spec in Ht. rewrite Ht. f_equal. destruct Hc as [-> _]. unfold slice. cbn [skipn]. rewrite Nat.add_0_l, Nat.sub_0_r, firstn_app, Nat.sub_diag, firstn_all. cbn. now rewrite app_nil_r.
Qed.

Lemma array_content_spec s : is_array_header_content s = true <-> begins cLBRACK s /\ unquoted cCOLON s.
Proof. unfold is_array_header_content. rewrite andb_true_iff, key_value_spec, (begins_spec cLBRACK) by reflexivity. reflexivity. Qed.
Lemma array_content_not s : is_array_header_content s = false <-> ~ (begins cLBRACK s /\ unquoted cCOLON s).
Proof. rewrite <- array_content_spec. now rewrite not_true_iff_false. Qed.

(** A header without a key begins with the bracket. *)
Lemma begins_key s h t : is_header s h t -> (begins cLBRACK s <-> hl_key h = None).
Proof.
  intros [k l f t1 key n dl fs (r & a & Hh & _ & _) Hk _ _ _]. cbn.
  destruct Hh as [k r Hnb Hc|w b r -> Hw Hq].
  - split.
    + intros (w & r' & E & Hw). assert (E2 : cut cLBRACK s w r').
      { split; auto. intros Hi. unfold blank in Hw. rewrite Forall_forall in Hw. apply Hw in Hi. discriminate. }
      destruct (cut_fun _ _ _ _ _ _ Hc E2) as [-> _]. inversion Hk as [| t0 Ht Hn|t0 s0 Ht Hq]; subst; auto.
      * apply trims_spec in Ht. apply blank_trim in Hw. congruence.
      * apply trims_spec in Ht. apply blank_trim in Hw. rewrite Hw in Ht. subst. apply quotes_head in Hq as [? Hq]. discriminate.
    + intros ->. inversion Hk; subst. exists k, r. split; [apply Hc|auto].
  - split.
    + intros (w' & r' & E & Hw'). exfalso. clear - Hw E Hw'. revert w' E Hw'. induction Hw as [|c w Hc Hw IH]; intros w' E Hw'.
      * destruct w' as [|c' w']; [discriminate|]. injection E as <- _. inversion Hw'; subst. discriminate.
      * destruct w' as [|c' w']; [injection E as -> _; discriminate|]. injection E as <- E. inversion Hw'; subst. eapply IH; eauto.
    + intros ->. inversion Hk as [Hb| |]; subst. exfalso. unfold blank in Hb. rewrite Forall_forall in Hb.
      assert (X : is_ws cDQ = true) by (apply Hb; rewrite in_app_iff; right; now left). discriminate.
Qed.

Lemma hyphen_spec t : starts_with_str LIST_ITEM_PREFIX t = true <-> hyphen t.
Proof.
  unfold LIST_ITEM_PREFIX, hyphen. destruct t as [|a [|b t]]; cbn [starts_with_str].
  - split; [discriminate|]. intros (r & H). discriminate.
  - rewrite andb_false_r. split; [discriminate|]. intros (r & H). discriminate.
  - rewrite !andb_true_r, andb_true_iff, !N.eqb_eq. split.
    + intros [<- <-]. now exists t.
    + intros (r & H). now injection H as -> -> ->.
Qed.
Lemma hyphen_not t : starts_with_str LIST_ITEM_PREFIX t = false <-> ~ hyphen t.
Proof. rewrite <- hyphen_spec. now rewrite not_true_iff_false. Qed.
Lemma list_item_spec t : is_list_item t = true <-> t = [cMINUS] \/ hyphen t.
Proof.
  unfold is_list_item. rewrite orb_true_iff, hyphen_spec, str_eqb_eq. unfold LIST_ITEM_MARKER. tauto.
Qed.
Lemma list_item_not t : is_list_item t = false <-> ~ (t = [cMINUS] \/ hyphen t).
Proof. rewrite <- list_item_spec. now rewrite not_true_iff_false. Qed.

Lemma free_app c q a b : free c q (a ++ b) -> free c q a.
Proof. intros H x y ->. apply (H x (y ++ b)). now rewrite <- app_assoc. Qed.

Lemma data_row_spec dl t : dl = cCOMMA \/ dl = cTAB \/ dl = cPIPE -> (is_data_row t dl = true <-> data_row dl t).
Proof.
  intros Hd. assert (H1 : dl <> cDQ /\ dl <> cBSLASH /\ dl <> cCOLON /\ (dl < 128)%N) by (destruct Hd as [->|[->| ->]]; lia).
  destruct H1 as (H1 & H2 & H3 & H4). unfold is_data_row, find_unquoted_char.
  replace (128 <=? dl)%N with false by (symmetry; apply N.leb_gt; auto). change (128 <=? cCOLON)%N with false. cbv iota. cbn [skipn].
  unfold data_row. rewrite free_unquoted.
  destruct (scan_unquoted cCOLON t false 0) as [k|] eqn:Ec.
  2: { apply scan_none in Ec; try discriminate. tauto. }
  apply scan_some in Ec as (a & b & E & Hq & Hf & ->); try discriminate.
  assert (Hn : ~ free cCOLON false t) by (intros X; exact (X _ _ E Hq)).
  destruct (scan_unquoted dl t false 0) as [k|] eqn:Ed.
  - apply scan_some in Ed as (a' & b' & E' & Hq' & Hf' & ->); auto. cbn [plus]. rewrite Nat.ltb_lt. split.
    + intros L. right. exists a', b'. split; auto. split; auto. rewrite free_unquoted.
      assert (X : exists x, a = a' ++ x).
      { exists (skipn (length a') a). rewrite E in E'. clear - E' L. assert (Y : firstn (length a') (a ++ cCOLON :: b) = firstn (length a') (a' ++ dl :: b')) by now rewrite E'.
        rewrite !firstn_app, Nat.sub_diag, firstn_all in Y. cbn [firstn] in Y. rewrite app_nil_r in Y.
        replace (length a' - length a) with 0 in Y by lia. cbn [firstn] in Y. rewrite app_nil_r in Y. rewrite <- Y at 1. now rewrite firstn_skipn. }
      destruct X as [x ->]. eapply free_app; eauto.
    + intros [X|(x & y & Ex & Hx & Hfx)]; [contradiction|]. rewrite free_unquoted in Hfx.
      assert (L : length a' <= length x).
      { pose proof (scan_hit_first dl H1 H2 a' false 0 b' Hq' Hf') as S1. destruct (Nat.le_gt_cases (length a') (length x)) as [|L]; auto. exfalso.
        apply (Hf' x (firstn (length a' - S (length x)) y)); auto. rewrite Ex in E'. clear - E' L.
        assert (Y : firstn (length a') (x ++ dl :: y) = firstn (length a') (a' ++ dl :: b')) by now rewrite E'.
        rewrite !firstn_app, Nat.sub_diag, firstn_all in Y. cbn [firstn] in Y. rewrite app_nil_r in Y. rewrite <- Y at 1.
        rewrite firstn_all2 by lia. f_equal. replace (length a' - length x) with (S (length a' - S (length x))) by lia. reflexivity. }
      assert (L2 : length x < length a).
      { destruct (Nat.lt_trichotomy (length x) (length a)) as [|[L2|L2]]; auto; exfalso.
        - rewrite E in Ex. apply app_inv_length in Ex as [_ Ex]; auto. injection Ex as Ex _. congruence.
        - apply (Hfx a (firstn (length x - S (length a)) b)); auto. rewrite E in Ex. clear - Ex L2.
          assert (Y : firstn (length x) (a ++ cCOLON :: b) = firstn (length x) (x ++ dl :: y)) by now rewrite Ex.
          rewrite !firstn_app, Nat.sub_diag, firstn_all in Y. cbn [firstn] in Y. rewrite app_nil_r in Y. rewrite <- Y at 1.
          rewrite firstn_all2 by lia. f_equal. replace (length x - length a) with (S (length x - S (length a))) by lia. reflexivity. }
      lia.
  - apply scan_none in Ed; auto. split; [discriminate|]. intros [X|(x & y & Ex & Hx & _)]; [contradiction|]. exfalso. exact (Ed _ _ Ex Hx).
Qed.

Lemma colon_line_spec t : is_key_value_line t = true <-> has_colon t.
Proof.
  unfold is_key_value_line, has_colon. destruct (starts_with cDQ t) eqn:E.
  - apply starts_with_iff in E as (r & ->). destruct (find_closing_quote (cDQ :: r) 0) as [n|] eqn:Ec.
    + apply closing_spec in Ec as (b & r' & -> & Hb & ->). rewrite skip_quoted. rewrite contains_In. split.
      * intros H. left. exists b, r'. auto.
      * intros [(b' & r2 & E & Hb' & H)|[H _]]; [|now destruct (H (b ++ cDQ :: r'))]. injection E as E. apply quote_body_fun in E as [-> ->]; auto.
    + split; [discriminate|]. intros [(b' & r2 & E & Hb' & H)|[H _]]; [|now destruct (H r)].
      exfalso. rewrite (proj2 (closing_spec r (S (length b')))) in Ec; [discriminate|]. exists b', r2. injection E as E. auto.
  - pose proof (proj1 (starts_with_not _ _) E) as En. rewrite contains_In. split; [intros H; right; auto|]. intros [(b & r & -> & _)|[_ H]]; auto. now destruct (En (b ++ cDQ :: r)).
Qed.
Lemma colon_line_not t : is_key_value_line t = false <-> ~ has_colon t.
Proof. rewrite <- colon_line_spec. now rewrite not_true_iff_false. Qed.

(** * From text to lines *)

Definition tl_of (l : parsed_line) : tline := TLine (pl_line l) (pl_depth l) (pl_content l).

Lemma count_spaces_at k t : (forall r, t <> cSPACE :: r) -> count_spaces (repeat cSPACE k ++ t) = k.
Proof.
  intros H. induction k as [|k IH]; cbn [repeat app count_spaces].
  - destruct t as [|c t]; auto. cbn. destruct (N.eqb_spec c cSPACE) as [->|]; auto. now destruct (H t).
  - rewrite N.eqb_refl. now rewrite IH.
Qed.
Lemma skip_repeat k (t : str) : skipn k (repeat cSPACE k ++ t) = t.
Proof. induction k; cbn; auto. Qed.
Lemma nonblank_spec raw : nonblank raw = false <-> blank raw.
Proof. unfold nonblank, blank. rewrite negb_false_iff. rewrite forallb_forall, Forall_forall. tauto. Qed.
Lemma blank_spaces k t : blank (repeat cSPACE k ++ t) <-> blank t.
Proof. unfold blank. rewrite Forall_app. split; [tauto|]. intros H. split; auto. apply Forall_forall. intros x Hx. apply repeat_spec in Hx. now subst. Qed.

Lemma leading_tab k t : (forall r, t <> cSPACE :: r) ->
  (contains cTAB (firstn (count_space_tab (repeat cSPACE k ++ t)) (repeat cSPACE k ++ t)) = false <-> forall r, t <> cTAB :: r).
Proof.
  intros H. induction k as [|k IH].
  - cbn [repeat app]. destruct t as [|c t]; [cbn; split; auto; discriminate|]. cbn [count_space_tab].
    destruct (N.eqb_spec c cSPACE) as [->|]; [now destruct (H t)|]. destruct (N.eqb_spec c cTAB) as [->|Hn]; cbn [orb firstn].
    + split; [discriminate|]. intros X. now destruct (X t).
    + split; auto. intros _ r E. injection E as -> _. congruence.
  - cbn [repeat app count_space_tab]. rewrite N.eqb_refl. cbn [orb firstn]. rewrite <- IH. reflexivity.
Qed.
Lemma depth_spec strict size k d : depth_of strict size k d <->
  d = compute_depth_from_indent k size /\
  (strict = true -> match size with O => Nat.ltb 0 k = false | _ => Nat.ltb 0 k && negb (Nat.eqb (Nat.modulo k size) 0) = false end).
Proof.
  unfold depth_of, compute_depth_from_indent. destruct size as [|s].
  - split.
    + intros (H & _ & Hs). split; [now apply H|]. intros E. rewrite (Hs E). rewrite Nat.mul_0_r. reflexivity.
    + intros (-> & Hs). split; auto. split; [lia|]. intros E. apply Hs, Nat.ltb_ge in E. lia.
  - set (m := S s) in *. assert (Hm : m <> 0) by (unfold m; lia). split.
    + intros (_ & H & Hs). destruct (H Hm) as [H1 H2]. assert (Ed : d = k / m).
      { apply (Nat.div_unique k m d (k - d * m)); nia. }
      split; auto. intros E. apply Hs in E. subst k. rewrite Nat.mod_mul by auto. rewrite andb_false_r. reflexivity.
    + intros (-> & Hs). split; [lia|]. pose proof (Nat.div_mod k m Hm) as E. pose proof (Nat.mod_upper_bound k m Hm) as L. split; [nia|].
      intros Est. apply Hs in Est. apply andb_false_iff in Est as [Est|Est].
      * apply Nat.ltb_ge in Est. assert (k = 0) as -> by lia. rewrite Nat.div_0_l; lia.
      * apply negb_false_iff, Nat.eqb_eq in Est. nia.
Qed.

Lemma line_ok raw st size strict k t : raw = repeat cSPACE k ++ t -> ~ blank t -> (forall r, t <> cSPACE :: r) ->
  forall l st', parse_line_incremental raw st size strict = Ok (Some l, st') <->
    (exists d, depth_of strict size k d /\ (strict = true -> forall r, t <> cTAB :: r) /\ l = PLine raw k t d (S (ss_line st))) /\
    st' = ScanState (S (ss_line st)) (ss_blanks st).
Proof.
  intros -> Hb Hs l st'. rewrite parse_line_eq. destruct (nonblank (repeat cSPACE k ++ t)) eqn:En.
  2: { apply nonblank_spec, blank_spaces in En. contradiction. }
  clear En. unfold scan_line, indent_error. rewrite count_spaces_at, skip_repeat by auto.
  pose proof (leading_tab k t Hs) as Ht. split.
  - intros H. assert (X : strict = true -> (forall r, t <> cTAB :: r) /\ match size with O => Nat.ltb 0 k = false | _ => Nat.ltb 0 k && negb (Nat.eqb (Nat.modulo k size) 0) = false end).
    { intros ->. destruct (contains cTAB _); [discriminate|]. split; [now apply Ht|]. destruct size as [|s].
      - now destruct (Nat.ltb 0 k).
      - now destruct (Nat.ltb 0 k && _). }
    assert (H' : Ok (Some (PLine (repeat cSPACE k ++ t) k t (compute_depth_from_indent k size) (S (ss_line st))), ScanState (S (ss_line st)) (ss_blanks st)) = Ok (Some l, st')).
    { rewrite <- H. destruct strict; auto. destruct (X eq_refl) as [X1 X2]. apply Ht in X1. rewrite X1.
      destruct size as [|s]; [now rewrite X2|]. now rewrite X2. }
    injection H' as <- <-. split; auto. eexists. split; [|split; [|reflexivity]].
    + apply depth_spec. split; auto. intros E. apply X, E.
    + intros E. apply X, E.
  - intros [(d & Hd & Htab & ->) ->]. apply depth_spec in Hd as [-> Hd]. destruct strict; auto.
    rewrite (proj2 Ht (Htab eq_refl)). specialize (Hd eq_refl). destruct size as [|s]; [now rewrite Hd|now rewrite Hd].
Qed.
Lemma line_blank raw st size strict : blank raw -> exists i d,
  parse_line_incremental raw st size strict = Ok (None, ScanState (S (ss_line st)) (ss_blanks st ++ [BLine (S (ss_line st)) i d])).
Proof. intros H. rewrite parse_line_eq. apply nonblank_spec in H. rewrite H. eauto. Qed.
Lemma split_indent raw : ~ blank raw -> exists k t, raw = repeat cSPACE k ++ t /\ ~ blank t /\ (forall r, t <> cSPACE :: r).
Proof.
  intros H. exists (count_spaces raw), (skipn (count_spaces raw) raw). pose proof (count_spaces_spec raw) as E.
  unfold spaces in E. split; auto. split.
  - intros Hb. apply H. rewrite E. now apply blank_spaces.
  - clear. induction raw as [|c s IH]; [discriminate|]. cbn [count_spaces]. destruct (N.eqb_spec c cSPACE) as [->|Hn]; auto.
    cbn [skipn]. intros r E. injection E as -> _. congruence.
Qed.
Lemma blank_dec raw : blank raw \/ ~ blank raw.
Proof. rewrite <- nonblank_spec. destruct (nonblank raw); [right; discriminate|now left]. Qed.

Lemma scans_sound strict size raws : forall n bl ls st,
  parse_lines_sync raws size strict (ScanState n bl) = Ok (ls, st) ->
  exists bs, scans strict size (S n) raws (map tl_of ls) bs /\ map bl_line (ss_blanks st) = map bl_line bl ++ bs.
Proof.
  induction raws as [|raw raws IH]; intros n bl ls st H; cbn [parse_lines_sync] in H.
  - injection H as <- <-. exists []. split; [constructor|cbn; now rewrite app_nil_r].
  - destruct (blank_dec raw) as [Hb|Hb].
    + destruct (line_blank raw (ScanState n bl) size strict Hb) as (i & d & E). rewrite E in H. cbn [bind ss_line ss_blanks] in H.
      inv_bind H. injection H as <- <-. apply IH in E0 as (bs & Hs & E0). exists (S n :: bs). split; [now constructor|].
      rewrite E0, map_app. cbn [map bl_line]. now rewrite <- app_assoc.
    + destruct (split_indent _ Hb) as (k & t & -> & Ht & Hsp).
      destruct (parse_line_incremental (repeat cSPACE k ++ t) (ScanState n bl) size strict) as [[[l|] st1]|e] eqn:E; [| |discriminate].
      2: { rewrite parse_line_eq in E. destruct (nonblank (repeat cSPACE k ++ t)) eqn:En.
           - destruct (if strict then _ else _); discriminate.
           - apply nonblank_spec in En. contradiction. }
      apply (line_ok _ _ _ _ k t) in E as [(d & Hd & Htab & ->) ->]; auto. cbn [bind ss_line ss_blanks] in H.
      inv_bind H. injection H as <- <-. apply IH in E as (bs & Hs & E). exists bs. split; auto.
      cbn [map]. unfold tl_of at 1. cbn. now apply sc_line.
Qed.
Lemma scans_complete strict size n raws tls bs : scans strict size n raws tls bs -> forall m bl, n = S m ->
  exists ls st, parse_lines_sync raws size strict (ScanState m bl) = Ok (ls, st) /\ map tl_of ls = tls /\
    map bl_line (ss_blanks st) = map bl_line bl ++ bs.
Proof.
  induction 1 as [n|n raw raws ls bs Hb Hs IH|n k t d raws ls bs Ht Hsp Hd Htab Hs IH]; intros m bl ->; cbn [parse_lines_sync].
  - exists [], (ScanState m bl). repeat split; auto. cbn. now rewrite app_nil_r.
  - destruct (line_blank raw (ScanState m bl) size strict Hb) as (i & d & E). rewrite E. cbn [bind ss_line ss_blanks].
    destruct (IH (S m) (bl ++ [BLine (S m) i d]) eq_refl) as (ls' & st & E1 & E2 & E3). rewrite E1. cbn [bind].
    exists ls', st. repeat split; auto. rewrite E3, map_app. cbn [map bl_line]. now rewrite <- app_assoc.
  - assert (E : parse_line_incremental (repeat cSPACE k ++ t) (ScanState m bl) size strict =
      Ok (Some (PLine (repeat cSPACE k ++ t) k t d (S m)), ScanState (S m) bl)).
    { apply (line_ok _ _ _ _ k t); auto. split; [|reflexivity]. exists d. auto. }
    rewrite E. cbn [bind]. destruct (IH (S m) bl eq_refl) as (ls' & st & E1 & E2 & E3). rewrite E1. cbn [bind].
    exists (PLine (repeat cSPACE k ++ t) k t d (S m) :: ls'), st. repeat split; auto. cbn [map]. now rewrite E2.
Qed.
