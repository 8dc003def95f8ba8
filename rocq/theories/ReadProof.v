(** The decoder succeeds exactly on the documents of SpecRead.v, with their events. *)
From Verif Require Import Chars Floats Json Shared Scanner Parser DecValidation Decoders Lex NumProof PrimProof Spec DecNums
  ParseProof DecRel DecCost DecProps DecRelax SpecText TextProof SpecRead ReadLex ReadHead ReadLine.

Local Open Scope nat_scope.

Section Equiv.
Variable cx : dctx.
Notation strict := (dc_strict cx).
Notation blanks := (map bl_line (dc_blanks cx)).
Notation member := (member parse_f64 strict blanks).
Notation members := (members parse_f64 strict blanks).
Notation array := (array parse_f64 strict blanks).
Notation items := (items parse_f64 strict blanks).
Notation item := (item parse_f64 strict blanks).
Notation rows := (rows parse_f64 strict).

Definition lines (c : cursor) : list tline := map tl_of (cu_rest c).
Definition member_events (m : str * bool * tree) : list event := EvKey (fst (fst m)) (snd (fst m)) :: tree_events (snd m).

Lemma tree_events_obj ms : tree_events (TObj ms) = EvStartObject :: flat_map member_events ms ++ [EvEndObject].
Proof. reflexivity. Qed.

(** * Cursors *)

Lemma peek_lines c line : peek c = Some line -> lines c = tl_of line :: lines (advance c).
Proof. unfold peek, lines, advance. destruct (cu_rest c); [discriminate|]. now intros [= ->]. Qed.
Lemma peek_none c : peek c = None -> lines c = [].
Proof. unfold peek, lines. now destruct (cu_rest c). Qed.
Lemma lines_peek c l ls : lines c = l :: ls -> exists line, peek c = Some line /\ tl_of line = l /\ lines (advance c) = ls.
Proof. unfold peek, lines, advance. destruct (cu_rest c) as [|a r]; [discriminate|]. intros [= <- <-]. exists a. auto. Qed.
Lemma lines_nil c : lines c = [] -> peek c = None.
Proof. unfold peek, lines. now destruct (cu_rest c). Qed.

Lemma ends_peek (P : tline -> Prop) c : ends P (lines c) <-> match peek c with None => True | Some line => ~ P (tl_of line) end.
Proof.
  unfold ends. destruct (peek c) as [line|] eqn:E.
  - rewrite (peek_lines _ _ E). split.
    + intros H. eapply H; reflexivity.
    + intros H l r [= <- <-]. exact H.
  - rewrite (peek_none _ E). split; [auto|]. discriminate.
Qed.

(** * The checks of strict mode *)

Lemma count_spec w a b : assert_expected_count w a b strict = Ok tt <-> (strict = true -> a = b).
Proof.
  unfold assert_expected_count. destruct strict; cbn [andb]; [|split; auto; discriminate].
  destruct (N.eqb_spec a b); cbn [negb]; split; auto; try discriminate. intros H. now specialize (H eq_refl).
Qed.
Lemma gap_spec w pre : validate_blank_range w (range_over None pre) (dc_blanks cx) strict = Ok tt <->
  (strict = true -> no_gap blanks (map tl_of pre)).
Proof.
  destruct pre as [|a t]; cbn [range_over].
  { split; [|auto]. intros _ _ x b m z E. discriminate. }
  destruct (last_some a t) as [z Ez]. rewrite Ez. cbn [validate_blank_range]. unfold validate_no_blank_lines_in_range.
  destruct strict; cbn [andb]; [|split; auto; discriminate].
  assert (El : exists p, a :: t = p ++ [z]).
  { clear - Ez. unfold last_or in Ez. destruct (rev t) as [|y l] eqn:E.
    - injection Ez as <-. apply (f_equal (@rev _)) in E. rewrite rev_involutive in E. cbn in E. subst. now exists [].
    - injection Ez as <-. apply (f_equal (@rev _)) in E. rewrite rev_involutive in E. cbn in E. subst. now exists (a :: rev l). }
  destruct El as [p El]. split.
  - intros H _ x b m z' E1 E2 n Hn [L1 L2].
    destruct (existsb _ (dc_blanks cx)) eqn:Ex; [discriminate|]. apply not_true_iff_false in Ex. apply Ex.
    apply in_map_iff in Hn as (bl & <- & Hn). apply existsb_exists. exists bl. split; auto.
    cbn [map] in E1. injection E1 as <- _. rewrite El, map_app in E2. cbn [map] in E2. apply app_inj_tail in E2 as [_ <-].
    cbn in L1, L2. apply andb_true_intro. split; now apply Nat.ltb_lt.
  - intros H. specialize (H eq_refl). destruct (existsb _ (dc_blanks cx)) eqn:Ex; [|reflexivity]. exfalso.
    apply existsb_exists in Ex as (bl & Hin & Hb). apply andb_prop in Hb as [H1 H2]. apply Nat.ltb_lt in H1, H2.
    apply (H (tl_of a) (tl_of z) (map tl_of t) (map tl_of p)) with (n := bl_line bl); auto.
    + rewrite El, map_app. reflexivity.
    + now apply in_map.
Qed.
Lemma extra_items_spec c d n : validate_no_extra_list_items (peek c) d n strict = Ok tt <->
  (strict = true -> ends (fun l => tl_depth l = d /\ hyphen (tl_text l)) (lines c)).
Proof.
  rewrite ends_peek. unfold validate_no_extra_list_items. destruct (peek c) as [line|]; [|tauto].
  destruct strict; cbn [andb]; [|split; auto; discriminate]. cbn [tl_of tl_depth tl_text].
  destruct (Nat.eqb_spec (pl_depth line) d) as [Hd|Hd]; cbn [andb].
  - destruct (starts_with_str LIST_ITEM_PREFIX (pl_content line)) eqn:E.
    + apply hyphen_spec in E. split; [discriminate|]. intros H. exfalso. apply (H eq_refl). auto.
    + apply hyphen_not in E. split; auto. intros _ _ [_ H]. contradiction.
  - split; auto. intros _ _ [H _]. contradiction.
Qed.
Lemma extra_rows_spec c d dl n : dl = cCOMMA \/ dl = cTAB \/ dl = cPIPE ->
  (validate_no_extra_tabular_rows (peek c) d dl n strict = Ok tt <->
   (strict = true -> ends (fun l => tl_depth l = d /\ ~ hyphen (tl_text l) /\ data_row dl (tl_text l)) (lines c))).
Proof.
  intros Hdl. rewrite ends_peek. unfold validate_no_extra_tabular_rows. destruct (peek c) as [line|]; [|tauto].
  destruct strict; cbn [andb]; [|split; auto; discriminate]. cbn [tl_of tl_depth tl_text].
  destruct (Nat.eqb_spec (pl_depth line) d) as [Hd|Hd]; cbn [andb].
  2: { split; auto. intros _ _ [H _]. contradiction. }
  destruct (starts_with_str LIST_ITEM_PREFIX (pl_content line)) eqn:E; cbn [negb andb].
  { apply hyphen_spec in E. split; auto. intros _ _ (_ & H & _). contradiction. }
  apply hyphen_not in E. destruct (is_data_row (pl_content line) dl) eqn:Er.
  - apply data_row_spec in Er; auto. split; [discriminate|]. intros H. exfalso. apply (H eq_refl). auto.
  - split; auto. intros _ _ (_ & _ & H). apply data_row_spec in H; auto. congruence.
Qed.

(** * Rows *)

Lemma field_row_events fs : forall ps,
  yield_object_from_fields (map to_field fs) ps = tree_events (TObj (row_members fs ps)).
Proof.
  intros ps. rewrite tree_events_obj. unfold yield_object_from_fields. f_equal. f_equal. revert ps.
  induction fs as [|[k q] fs IH]; intros ps; [reflexivity|]. cbn [map field_events row_members]. 
  destruct ps as [|p ps]; cbn [tl flat_map member_events fst snd]; rewrite IH; reflexivity.
Qed.
Lemma prims_count dl s ps : plain_delim dl -> prims_text parse_f64 dl s ps -> length ps = length (parse_delimited_values s dl).
Proof.
  intros [H1 H2] (ts & Hc & HF). apply cells_spec in Hc as <-; auto. symmetry. clear - HF. induction HF; cbn; auto.
Qed.
Lemma rows_sound h fs d : head_delim h -> forall rest last count range evs c n rg,
  decode_rows rest last d (to_header h) (map to_field fs) cx count range = Ok (evs, c, n, rg) ->
  exists vs, rows (hl_delimiter h) fs d (hl_length h - count) (map tl_of rest) vs (lines c) /\
    evs = flat_map tree_events vs /\ n = (count + N.of_nat (length vs))%N.
Proof.
  intros Hd. induction rest as [|line r IH]; intros last count range evs c n rg H; cbn [decode_rows] in H.
  - injection H as <- <- <- <-. exists []. split; [|cbn; split; [auto|lia]]. apply rw_end. intros l r' E. discriminate.
  - change (ah_length (to_header h)) with (hl_length h) in H. change (ah_delimiter (to_header h)) with (hl_delimiter h) in H.
    destruct (N.leb_spec (hl_length h) count) as [L|L].
    { injection H as <- <- <- <-. exists []. split; [|cbn; split; [auto|lia]].
      replace (hl_length h - count)%N with 0%N by lia. apply rw_full. }
    destruct (Nat.eqb_spec (pl_depth line) d) as [E|E].
    2: { injection H as <- <- <- <-. exists []. split; [|cbn; split; [auto|lia]]. apply rw_end. intros l r' [= <- <-]. exact E. }
    cbv zeta in H. inv_bind H. injection H as <- <- <- <-. destruct a.
    apply IH in E2 as (vs & Hr & -> & ->). pose proof E1 as Hp.
    pose proof (proj2 (prims_spec _ _ _ (head_plain _ Hd)) E1) as Hp'. exists (TObj (row_members fs a0) :: vs). split; [|split].
    + replace (hl_length h - count)%N with (N.succ (hl_length h - (count + 1))) by lia. cbn [map].
      apply rw_more; auto. intros Hs. apply count_spec in E0; auto. rewrite (prims_count _ _ _ (head_plain _ Hd) Hp').
      rewrite map_length in E0. apply Nat2N.inj. rewrite E0; auto.
    + change (yield_object_from_fields (map to_field fs) a0 ++ flat_map tree_events vs = tree_events (TObj (row_members fs a0)) ++ flat_map tree_events vs).
      now rewrite field_row_events.
    + cbn [length]. lia.
Qed.
Lemma rows_complete h fs d n ls vs rest : head_delim h -> rows (hl_delimiter h) fs d n ls vs rest ->
  forall rest0 last count range, map tl_of rest0 = ls -> n = (hl_length h - count)%N ->
  exists c rg, decode_rows rest0 last d (to_header h) (map to_field fs) cx count range =
    Ok (flat_map tree_events vs, c, (count + N.of_nat (length vs))%N, rg) /\ lines c = rest.
Proof.
  intros Hd. induction 1 as [ls|n ls He|n l ls ps vs rest El Hp Hs Hr IH]; intros rest0 last count range Hm Hn.
  - exists (Cursor rest0 last), range. split; [|exact Hm]. cbn [flat_map length]. rewrite N.add_0_r.
    destruct rest0 as [|line r]; [reflexivity|]. cbn [decode_rows]. change (ah_length (to_header h)) with (hl_length h).
    destruct (N.leb_spec (hl_length h) count); [reflexivity|lia].
  - exists (Cursor rest0 last), range. split; [|exact Hm]. cbn [flat_map length]. rewrite N.add_0_r.
    destruct rest0 as [|line r]; [reflexivity|]. cbn [decode_rows].
    destruct (N.leb_spec (ah_length (to_header h)) count); [reflexivity|].
    destruct (Nat.eqb_spec (pl_depth line) d) as [E|E]; [|reflexivity]. exfalso. cbn in Hm. subst ls. eapply He; [reflexivity|exact E].
  - destruct rest0 as [|line r]; [discriminate|]. cbn [map] in Hm. injection Hm as <- Hm.
    destruct (IH r (Some line) (count + 1)%N (extend_range range (pl_line line)) Hm ltac:(lia)) as (c & rg & E & Hc).
    exists c, rg. split; [|exact Hc]. cbn [decode_rows]. change (ah_length (to_header h)) with (hl_length h). change (ah_delimiter (to_header h)) with (hl_delimiter h).
    destruct (N.leb_spec (hl_length h) count) as [L|L]; [lia|]. cbn [tl_of tl_depth] in El. rewrite El, Nat.eqb_refl. cbv zeta.
    cbn [tl_of tl_text] in Hp. rewrite (proj2 (count_spec _ _ _)).
    2: { intros E0. rewrite map_length, <- (Hs E0). now rewrite (prims_count _ _ _ (head_plain _ Hd) Hp). }
    cbn [bind]. rewrite (proj1 (prims_spec _ _ _ (head_plain _ Hd)) Hp). cbn [bind]. rewrite E. cbn [bind].
    cbn [flat_map length]. rewrite field_row_events. do 3 f_equal. lia.
Qed.

(** * Headers and what they introduce *)

Lemma inline_some tail iv : inline_of tail = Some iv -> iv <> [] /\ trims tail iv /\ trim iv = iv.
Proof.
  unfold inline_of. destruct (is_empty (trim tail)) eqn:E; [discriminate|]. intros [= <-]. apply is_empty_false in E.
  split; auto. split; [apply trims_trim|]. symmetry. apply trims_spec, trims_idem, trims_trim.
Qed.
Lemma inline_none tail : inline_of tail = None <-> blank tail.
Proof.
  unfold inline_of. rewrite ReadLex.blank_trim. destruct (is_empty (trim tail)) eqn:E.
  - apply is_empty_true in E. tauto.
  - apply is_empty_false in E. split; [discriminate|contradiction].
Qed.
Lemma fields_none h : (ah_fields (to_header h) = None \/ ah_fields (to_header h) = Some []) <-> (hl_fields h = None \/ hl_fields h = Some []).
Proof.
  destruct h as [k n dl [[|f fs]|]]; cbn; split; auto; intros [H|H]; discriminate.
Qed.
Lemma prim_trim r p : parse_primitive_token (trim r) = Ok p <-> prim_text parse_f64 r p.
Proof.
  rewrite <- prim_spec. assert (E : parse_primitive_token (trim r) = parse_primitive_token r); [|now rewrite E].
  unfold parse_primitive_token. replace (trim (trim r)) with (trim r); auto. apply trims_spec, trims_idem, trims_trim.
Qed.

(** * What the decoder accepts is a document *)

Lemma read_sound :
  (forall content c d evs c', kv_rel cx content c d evs c' ->
     exists m, member d content (lines c) m (lines c') /\ evs = member_events m) /\
  (forall c base computed evs c', of_rel cx c base computed evs c' -> forall dd, base <= dd ->
     match computed with Some x => x = dd | None => exists line, peek c = Some line /\ pl_depth line = dd end ->
     exists ms, members false dd (lines c) ms (lines c') /\ evs = flat_map member_events ms) /\
  (forall h iv c d evs c', arr_rel cx h iv c d evs c' -> forall hl tail, h = to_header hl -> iv = inline_of tail -> head_delim hl ->
     exists v, array d hl tail (lines c) v (lines c') /\ evs = tree_events v) /\
  (forall c depth len count range evs c' n rg, items_rel cx c depth len count range evs c' n rg ->
     exists vs, items depth (len - count) (lines c) vs (lines c') /\ evs = flat_map tree_events vs /\ n = (count + N.of_nat (length vs))%N) /\
  (forall line c d evs c', item_rel cx line c d evs c' ->
     exists v, item d (pl_content line) (lines c) v (lines c') /\ evs = tree_events v) /\
  (forall c d evs c', follow_rel cx c d evs c' ->
     exists ms, members true d (lines c) ms (lines c') /\ evs = flat_map member_events ms).
Proof.
  apply dec_mutind.
  - intros content c d h iv key evs c' Hp Hk _ IH. apply header_some_inv in Hp as (hl & tail & Hh & -> & ->).
    destruct (IH hl tail eq_refl eq_refl (header_delim _ _ _ Hh)) as (v & Hv & ->).
    destruct hl as [[[k q]|] n dl fs]; [|discriminate]. cbn in Hk. injection Hk as ->.
    exists (key, q, v). split; [|reflexivity]. eapply mb_array; eauto.
  - intros content c d key e q evs c' Hpl Hk Ht Hd _ IH. unfold deeper in Hd. destruct (peek c) as [next|] eqn:Ep; [|discriminate].
    apply Nat.ltb_lt in Hd. destruct (IH (pl_depth next)) as (ms & Hm & ->); [lia|eauto|].
    exists (key, q, TObj ms). split; [|reflexivity]. rewrite (peek_lines _ _ Ep) in Hm |- *.
    eapply mb_object; [now apply plain_spec|eapply key_sound; eassumption|now apply ReadLex.blank_trim|reflexivity|exact Hd|exact Hm].
  - intros content c d key e q Hpl Hk Ht Hd. exists (key, q, TObj []). split; [|reflexivity].
    eapply mb_empty; [now apply plain_spec|eapply key_sound; eassumption|now apply ReadLex.blank_trim|].
    apply ends_peek. unfold deeper in Hd. destruct (peek c); [|auto]. apply Nat.ltb_ge in Hd. cbn. lia.
  - intros content c d key e q p Hpl Hk Ht Hp. exists (key, q, TPrim p). split; [|reflexivity].
    eapply mb_prim; [now apply plain_spec|eapply key_sound; eassumption|now rewrite ReadLex.blank_trim|now apply prim_trim].
  - intros c base computed Hst dd Hb Hc. exists []. split; [|reflexivity]. apply ms_end. apply ends_peek.
    unfold fields_stop in Hst. destruct (peek c) as [line|]; [|auto]. cbn. intros [E _]. destruct Hst as [Hst|(x & -> & Hst)]; [lia|congruence].
  - intros c base computed line e1 c1 e2 c2 Hp Hb Hu _ (m & Hm & ->) _ IH dd Hbd Hc.
    assert (E : pl_depth line = dd).
    { destruct computed as [x|]; cbn in Hu; [congruence|]. destruct Hc as (l & Hl & E). congruence. }
    destruct (IH dd Hbd E) as (ms & Hms & ->). exists (m :: ms). split; [|reflexivity]. rewrite (peek_lines _ _ Hp).
    eapply ms_more; eauto; [intros [? _]; discriminate|]. cbn. now rewrite <- E.
  - intros h iv c d evs Hi hl tail -> Et Hd. destruct (inline_some _ _ (eq_sym Et)) as (Hn & Ht & Ett).
    unfold decode_inline_primitive_array in Hi. rewrite Ett in Hi. apply is_empty_false in Hn. rewrite Hn in Hi. apply is_empty_false in Hn.
    cbv zeta in Hi. inv_bind Hi. injection Hi as <-. destruct a0. exists (TArr (hl_length hl) (map TPrim a)). split.
    + eapply ar_inline; eauto.
      * apply prims_spec; auto. now apply head_plain.
      * intros Hs. now apply count_spec in E0.
    + cbn. do 2 f_equal. clear. induction a; cbn; congruence.
  - intros h f fs c d evs c' Hf Hdt hl tail -> Et Hd.
    assert (Ef : exists fs', hl_fields hl = Some fs' /\ f :: fs = map to_field fs' /\ fs' <> []).
    { destruct hl as [k n dl [l|]]; [|discriminate]. cbn in Hf. injection Hf as Hf. exists l. split; auto. split; auto. intros ->. discriminate. }
    destruct Ef as (fs' & Ef & E' & Hn). rewrite E' in Hdt. unfold decode_tabular_array in Hdt. inv_bind Hdt. injection Hdt as <- <-.
    repeat match goal with u : unit |- _ => destruct u end.
    pose proof E as Eo. apply rows_over in Eo as (pre & Ho & ->). apply rows_sound in E as (vs & Hr & -> & ->); auto.
    exists (TArr (hl_length hl) vs). split; [|reflexivity]. rewrite N.sub_0_r in Hr. rewrite N.add_0_l in E0.
    eapply ar_table with (used := map tl_of pre); eauto.
    + now apply inline_none.
    + unfold lines. destruct Ho as [Ho _]. cbn [cu_rest] in Ho. now rewrite Ho, map_app.
    + intros Hs. split; [now apply count_spec in E0|]. split; [now apply gap_spec in E1|]. now apply extra_rows_spec in E2.
  - intros h c d evs c' count range Hf Hir (vs & Hi & -> & ->) Hc Hb Hx hl tail -> Et Hd.
    apply dec_over in Hir as (pre & Ho & ->).
    exists (TArr (hl_length hl) vs). split; [|reflexivity]. rewrite N.sub_0_r in Hi. rewrite N.add_0_l in Hc.
    eapply ar_list with (used := map tl_of pre); eauto.
    + now apply inline_none.
    + now apply fields_none.
    + unfold lines. destruct Ho as [Ho _]. now rewrite Ho, map_app.
    + intros Hs. split; [now apply count_spec in Hc|]. split; [now apply gap_spec in Hb|]. now apply extra_items_spec in Hx.
  - intros c depth len count range Hst. exists []. split; [|cbn; split; [auto|lia]]. unfold items_stop in Hst.
    destruct (peek c) as [line|] eqn:Ep.
    + destruct Hst as [L|Hst].
      * replace (len - count)%N with 0%N by lia. apply is_full.
      * apply is_end, ends_peek. rewrite Ep. cbn. rewrite <- list_item_spec. intros [E1 E2]. destruct Hst; congruence.
    + apply is_end, ends_peek. now rewrite Ep.
  - intros c depth len count range line e1 c1 e2 c2 n rg Hp L Hd Hi _ (v & Hv & ->) _ (vs & Hvs & -> & ->).
    exists (v :: vs). split; [|split; [reflexivity|cbn [length]; lia]].
    replace (len - count)%N with (N.succ (len - (count + 1))) by lia. rewrite (peek_lines _ _ Hp).
    eapply is_more; eauto.
  - intros line c d [H|[H Ht]]; exists (TObj []); (split; [|reflexivity]).
    + rewrite H. apply im_bare.
    + apply hyphen_spec in H as (r & E). rewrite E in *. cbn [skipn] in Ht. apply im_empty. now apply ReadLex.blank_trim.
  - intros line c d h iv evs c' H Ht Ha Hh _ IH. apply hyphen_spec in H as (r & E). rewrite E in *. cbn [skipn] in *.
    apply header_some_inv in Hh as (hl & tail & Hh & -> & ->). destruct (IH hl tail eq_refl eq_refl (header_delim _ _ _ Hh)) as (v & Hv & ->).
    apply array_content_spec in Ha as [Ha1 Ha2]. exists v. split; [|reflexivity]. eapply im_array; eauto.
  - intros line c d h iv key fs e1 c1 e2 c2 H Ht Ha Hh Hk Hf _ IH _ (ms & Hms & ->). apply hyphen_spec in H as (r & E). rewrite E in *. cbn [skipn] in *.
    apply header_some_inv in Hh as (hl & tail & Hh & -> & ->). destruct (IH hl tail eq_refl eq_refl (header_delim _ _ _ Hh)) as (v & Hv & ->).
    destruct hl as [[[k q]|] n dl fs']; [|discriminate]. cbn in Hk. injection Hk as ->.
    exists (TObj ((key, q, v) :: ms)). split.
    + eapply im_object; eauto.
      * now rewrite ReadLex.blank_trim.
      * right. exists (HeadLine (Some (key, q)) n dl fs'), tail. split; auto. destruct fs'; [discriminate|]. discriminate.
      * intros h' t' H'. destruct (is_header_fun _ _ _ _ _ Hh H') as [<- _]. discriminate.
      * eapply mb_array; eauto.
    + rewrite tree_events_obj. cbn [flat_map]. rewrite <- app_assoc. reflexivity.
  - intros line c d e1 c1 e2 c2 H Ht Hna Hnt Hkv _ (m & Hm & ->) _ (ms & Hms & ->). apply hyphen_spec in H as (r & E). rewrite E in *. cbn [skipn] in *.
    apply key_value_spec in Hkv. exists (TObj (m :: ms)). split.
    + eapply im_object; eauto.
      * now rewrite ReadLex.blank_trim.
      * intros h' t' H' Hk. apply (begins_key _ _ _ H') in Hk. destruct Hna as [Hna|Hna].
        -- apply array_content_not in Hna. tauto.
        -- rewrite (header_some _ _ _ H') in Hna. discriminate.
    + rewrite tree_events_obj. cbn [flat_map]. now rewrite <- app_assoc.
  - intros line c d p H Ht Hna Hnt Hkv Hpp. apply hyphen_spec in H as (r & E). rewrite E in *. cbn [skipn] in *.
    exists (TPrim p). split; [|reflexivity]. apply im_prim.
    + now rewrite ReadLex.blank_trim.
    + now apply key_value_not.
    + destruct Hnt as [Hnt|(h & iv & Hh & Hor)]; [left; now apply header_none|]. right.
      apply header_some_inv in Hh as (hl & tail & Hh & -> & ->). exists hl, tail. split; auto.
      destruct Hor as [Hor|Hor]; [left; now apply to_header_key|right]. destruct hl as [k n dl [l|]]; [discriminate|reflexivity].
    + now apply prim_spec.
  - intros c d Hst. exists []. split; [|reflexivity]. apply ms_end, ends_peek. unfold follow_stop in Hst.
    destruct (peek c) as [line|]; auto. cbn. intros [E1 E2]. destruct Hst as [Hst|Hst]; [contradiction|]. apply hyphen_spec in Hst. tauto.
  - intros c d line e1 c1 e2 c2 Hp Hd Hh _ (m & Hm & ->) _ (ms & Hms & ->). exists (m :: ms). split; [|reflexivity].
    rewrite (peek_lines _ _ Hp). eapply ms_more; eauto. cbn. apply hyphen_not in Hh. tauto.
Qed.

(** * A document is accepted *)

Definition first_at (c : cursor) (d : nat) : Prop := exists line, peek c = Some line /\ pl_depth line = d.

Lemma used_over c c' pre used rest : over c pre c' -> lines c = used ++ rest -> lines c' = rest -> map tl_of pre = used.
Proof.
  intros [Ho _] H H'. unfold lines in *. rewrite Ho, map_app, H' in H. now apply app_inv_tail in H.
Qed.

Lemma read_complete :
  (forall d t ls m rest, member d t ls m rest -> forall c, lines c = ls ->
     exists c', kv_rel cx t c d (member_events m) c' /\ lines c' = rest) /\
  (forall stop d ls ms rest, members stop d ls ms rest -> forall c, lines c = ls ->
     if stop then exists c', follow_rel cx c d (flat_map member_events ms) c' /\ lines c' = rest
     else forall base computed, base <= d -> (computed = Some d \/ computed = None /\ first_at c d) ->
       exists c', of_rel cx c base computed (flat_map member_events ms) c' /\ lines c' = rest) /\
  (forall d h tail ls v rest, array d h tail ls v rest -> head_delim h -> forall c, lines c = ls ->
     exists c', arr_rel cx (to_header h) (inline_of tail) c d (tree_events v) c' /\ lines c' = rest) /\
  (forall d n ls vs rest, items d n ls vs rest -> forall c len count range, lines c = ls -> n = (len - count)%N ->
     exists c' rg, items_rel cx c d len count range (flat_map tree_events vs) c' (count + N.of_nat (length vs)) rg /\ lines c' = rest) /\
  (forall d t ls v rest, item d t ls v rest -> forall c line, lines c = ls -> pl_content line = t ->
     exists c', item_rel cx line c d (tree_events v) c' /\ lines c' = rest).
Proof.
  apply read_mutind.
  - intros d t ls h tail k q v rest Hh Hk _ IH c Hc. destruct (IH (header_delim _ _ _ Hh) c Hc) as (c' & Hr & Hc').
    exists c'. split; auto. destruct h as [key n dl fs]. cbn in Hk. subst key.
    exact (kv_header cx t c d _ _ k _ _ (header_some _ _ _ Hh) eq_refl Hr).
  - intros d t ls k q r l ls' ms rest Hpl Hk Hb -> Hd _ IH c Hc. apply key_complete in Hk as (e & Hk & <-).
    destruct (lines_peek _ _ _ Hc) as (line & Hp & <- & _).
    destruct (IH c Hc (S d) None) as (c' & Hr & Hc'); [exact Hd|right; split; [reflexivity|exists line; auto]|].
    exists c'. split; auto. eapply (kv_nested cx t c d k e q _ c'); auto.
    + now apply plain_spec.
    + now apply ReadLex.blank_trim.
    + unfold deeper. rewrite Hp. now apply Nat.ltb_lt.
  - intros d t ls k q r Hpl Hk Hb He c <-. apply key_complete in Hk as (e & Hk & <-). exists c. split; auto.
    eapply (kv_empty cx t c d k e q); auto.
    + now apply plain_spec.
    + now apply ReadLex.blank_trim.
    + apply ends_peek in He. unfold deeper. destruct (peek c); auto. cbn in He. apply Nat.ltb_ge. lia.
  - intros d t ls k q r p Hpl Hk Hb Hp c <-. apply key_complete in Hk as (e & Hk & <-). exists c. split; auto.
    eapply (kv_prim cx t c d k e q p); auto.
    + now apply plain_spec.
    + now rewrite <- ReadLex.blank_trim.
    + now apply prim_trim.
  - intros stop d ls He c <-. apply ends_peek in He. destruct stop.
    + exists c. split; auto. apply follow_end. unfold follow_stop. destruct (peek c) as [line|]; auto. cbn in He.
      destruct (Nat.eq_dec (pl_depth line) d) as [E|E]; [|now left]. right. apply hyphen_spec.
      destruct (starts_with_str LIST_ITEM_PREFIX (pl_content line)) eqn:Eh; [now apply hyphen_spec|]. apply hyphen_not in Eh.
      exfalso. apply He. split; auto. tauto.
    + intros base computed Hb Hcm. exists c. split; auto. apply of_end. unfold fields_stop. destruct (peek c) as [line|] eqn:Ep; auto. cbn in He.
      destruct Hcm as [->|[-> (line' & Ep' & E)]].
      * right. exists d. split; auto. intros E. apply He. split; auto. intros [? _]. discriminate.
      * exfalso. assert (line' = line) as -> by congruence. apply He. split; auto. intros [? _]. discriminate.
  - intros stop d l ls m ls1 ms rest Hd Hh _ IH1 _ IH2 c Hc. destruct (lines_peek _ _ _ Hc) as (line & Hp & <- & Ha).
    cbn in Hd, Hh, IH1. destruct (IH1 _ Ha) as (c1 & H1 & Hc1). destruct stop.
    + destruct (IH2 _ Hc1) as (c2 & H2 & Hc2). exists c2. split; auto. cbn [flat_map]. eapply follow_step; eauto.
      apply hyphen_not. tauto.
    + intros base computed Hb Hcm. destruct (IH2 _ Hc1 base (Some d) Hb (or_introl eq_refl)) as (c2 & H2 & Hc2). exists c2. split; auto.
      cbn [flat_map]. subst d. eapply of_step; eauto. destruct Hcm as [->|[-> _]]; reflexivity.
  - intros d h tail ls t ps Ht Hn Hp Hs Hd c <-. exists c. split; auto. apply trims_spec in Ht. 
    assert (Ei : inline_of tail = Some t).
    { unfold inline_of. rewrite <- Ht. apply is_empty_false in Hn. now rewrite Hn. }
    rewrite Ei. cbn [tree_events]. rewrite (flat_map_concat_map tree_events), map_map. cbn [tree_events].
    replace (concat (map (fun x => [EvPrim x]) ps)) with (map EvPrim ps) by (clear; induction ps; cbn; congruence).
    change (hl_length h) with (ah_length (to_header h)). apply arr_inline. unfold decode_inline_primitive_array.
    destruct (inline_some _ _ Ei) as (_ & _ & Ett). rewrite Ett. apply is_empty_false in Hn. rewrite Hn.
    change (ah_delimiter (to_header h)) with (hl_delimiter h). rewrite (proj1 (prims_spec _ _ _ (head_plain _ Hd)) Hp). cbn [bind].
    rewrite (proj2 (count_spec _ _ _)) by exact Hs. reflexivity.
  - intros d h tail ls fs vs used rest Hb Hf Hn Hr Hu Hs Hd c Hc.
    destruct (rows_complete h fs (S d) _ _ _ _ Hd Hr (cu_rest c) (cu_last c) 0%N None Hc) as (c' & rg & E & Hc'); [lia|].
    exists c'. split; auto. apply inline_none in Hb. rewrite Hb. cbn [tree_events]. change (hl_length h) with (ah_length (to_header h)).
    destruct fs as [|f fs]; [contradiction|].
    apply arr_table with (f := to_field f) (fs := map to_field fs).
    + unfold to_header. cbn. now rewrite Hf.
    + change (to_field f :: map to_field fs) with (map to_field (f :: fs)). unfold decode_tabular_array. rewrite E. cbn [bind].
      pose proof (rows_over _ _ _ _ _ _ _ _ _ _ _ _ E) as (pre & Ho & ->).
      assert (Eu : map tl_of pre = used).
      { apply (used_over c c' pre used rest); [destruct c; exact Ho|now rewrite Hc|exact Hc']. }
      change (ah_length (to_header h)) with (hl_length h). change (ah_delimiter (to_header h)) with (hl_delimiter h).
      rewrite (proj2 (count_spec _ _ _)) by (intros X; apply Hs in X as (X & _); rewrite N.add_0_l; exact X). cbn [bind].
      rewrite (proj2 (gap_spec _ _)) by (intros X; apply Hs in X as (_ & X & _); now rewrite Eu). cbn [bind].
      rewrite (proj2 (extra_rows_spec c' (S d) (hl_delimiter h) _ Hd)) by (intros X; apply Hs in X as (_ & _ & X); now rewrite Hc'). reflexivity.
  - intros d h tail ls vs used rest Hb Hf _ IH Hu Hs Hd c Hc.
    destruct (IH c (hl_length h) 0%N None Hc) as (c' & rg & Hi & Hc'); [lia|]. exists c'. split; auto.
    apply inline_none in Hb. rewrite Hb. cbn [tree_events]. change (hl_length h) with (ah_length (to_header h)).
    assert (Ho : exists pre, over c pre c' /\ rg = range_over None pre).
    { destruct (dec_over cx) as (_ & _ & _ & X & _). eapply X; eauto. }
    destruct Ho as (pre & Ho & ->).
    assert (Eu : map tl_of pre = used) by (apply (used_over c c' pre used rest); auto; now rewrite Hc).
    eapply arr_list; [now apply fields_none|exact Hi| | |]; change (ah_length (to_header h)) with (hl_length h).
    + apply count_spec. intros X. apply Hs in X as (X & _). now rewrite N.add_0_l.
    + apply gap_spec. intros X. apply Hs in X as (_ & X & _). now rewrite Eu.
    + apply extra_items_spec. intros X. apply Hs in X as (_ & _ & X). now rewrite Hc'.
  - intros d ls c len count range <- Hn. exists c, range. split; auto. cbn [flat_map length]. rewrite N.add_0_r. apply items_end.
    unfold items_stop. destruct (peek c); auto. left. lia.
  - intros d n ls He c len count range <- Hn. exists c, range. split; auto. cbn [flat_map length]. rewrite N.add_0_r. apply items_end.
    unfold items_stop. apply ends_peek in He. destruct (peek c) as [line|]; auto. right. cbn in He.
    destruct (Nat.eq_dec (pl_depth line) d) as [E|E]; [right|now left]. apply list_item_not. tauto.
  - intros d n l ls v ls1 vs rest Hd Hit IH1 _ IH2 c len count range Hc Hn. destruct (lines_peek _ _ _ Hc) as (line & Hp & <- & Ha).
    cbn in Hd, IH1, Hit. destruct (IH1 _ line Ha eq_refl) as (c1 & H1 & Hc1).
    destruct (IH2 c1 len (count + 1)%N (item_range range line c1) Hc1 ltac:(lia)) as (c2 & rg & H2 & Hc2).
    exists c2, rg. split; auto. cbn [flat_map length]. replace (count + N.of_nat (S (length vs)))%N with (count + 1 + N.of_nat (length vs))%N by lia.
    eapply items_step; eauto; [lia|]. apply list_item_spec. inversion Hit; auto; right; eexists; reflexivity.
  - intros d ls c line <- E. exists c. split; auto. apply item_marker. left. exact E.
  - intros d t ls Hb c line <- E. exists c. split; auto. apply item_marker. right. rewrite E. split; [reflexivity|]. cbn [skipn]. now apply ReadLex.blank_trim.
  - intros d t ls h tail v rest Hb Hu Hh _ IH c line Hc E. destruct (IH (header_delim _ _ _ Hh) c Hc) as (c' & Hr & Hc').
    exists c'. split; auto. eapply item_array; rewrite ?E; cbn [skipn]; eauto.
    + intros Ht. apply ReadLex.blank_trim in Ht. destruct Hb as (w & r & -> & _). apply Forall_app in Ht as [_ Ht]. inversion Ht. discriminate.
    + now apply array_content_spec.
    + now apply header_some.
  - intros d t ls m ls1 ms rest Hb Hor Hk Hm IH1 _ IH2 c line Hc E. destruct (IH1 _ Hc) as (c1 & H1 & Hc1). destruct (IH2 _ Hc1) as (c2 & H2 & Hc2).
    exists c2. split; auto. rewrite tree_events_obj. cbn [flat_map]. rewrite <- app_assoc.
    assert (Hna : is_array_header_content t = false \/ no_header t).
    { destruct (is_array_header_content t) eqn:Ea; auto. right. apply array_content_spec in Ea as [Ea _].
      pose proof (header_cases t) as C. destruct (parse_array_header_line t DEFAULT_DELIMITER) as [[[h iv]|]|e].
      - destruct C as (_ & hl & tl & Hh & _). apply (begins_key _ _ _ Hh) in Ea. now destruct (Hk _ _ Hh).
      - apply C.
      - exfalso. inversion Hm as [d0 t0 ls0 h tail k q v rest0 Hh| | |]; subst;
          [|match goal with H : plain _ |- _ => destruct H as [Hp|(h & tl & Hh & _)] end; [now destruct C|]..]; destruct C as [_ C]; exact (C _ _ Hh). }
    assert (Hpn : trim (skipn 2 (pl_content line)) <> []) by (rewrite E; cbn [skipn]; now rewrite <- ReadLex.blank_trim).
    assert (Hpre : starts_with_str LIST_ITEM_PREFIX (pl_content line) = true) by (rewrite E; reflexivity).
    assert (Hcase : (exists h tail, is_header t h tail /\ hl_fields h <> None) \/
      (unquoted cCOLON t /\ forall h tail, is_header t h tail -> hl_fields h = None)).
    { pose proof (header_cases t) as C. destruct (parse_array_header_line t DEFAULT_DELIMITER) as [[[h iv]|]|e].
      - destruct C as (_ & hl & tl & Hh & _). destruct (hl_fields hl) eqn:Ef.
        + left. exists hl, tl. split; auto. congruence.
        + right. split.
          * destruct Hor as [Hor|(h' & tl' & Hh' & X)]; auto. destruct (is_header_fun _ _ _ _ _ Hh Hh') as [<- _]. congruence.
          * intros h' tl' Hh'. destruct (is_header_fun _ _ _ _ _ Hh Hh') as [<- _]. exact Ef.
      - right. split; [|intros h tl Hh; destruct C as [_ C]; now destruct (C h tl)].
        destruct Hor as [Hor|(h' & tl' & Hh' & X)]; auto. destruct C as [_ C]. now destruct (C h' tl').
      - right. split; [|intros h tl Hh; destruct C as [_ C]; now destruct (C h tl)].
        destruct Hor as [Hor|(h' & tl' & Hh' & X)]; auto. destruct C as [_ C]. now destruct (C h' tl'). }
    destruct Hcase as [(h & tail & Hh & Hf)|[Hu Hf]].
    + assert (X : exists k q v, m = (k, q, v) /\ hl_key h = Some (k, q)).
      { inversion Hm as [d0 t0 ls0 h0 tail0 k q v rest0 Hh0 Hk0| | |]; subst.
        - destruct (is_header_fun _ _ _ _ _ Hh Hh0) as [<- _]. exists k, q, v. auto.
        - exfalso. match goal with H : plain _ |- _ => destruct H as [Hp|(h' & tl' & Hh' & X)] end; [exact (header_not_none _ _ _ Hh Hp)|exact (Hk _ _ Hh' X)].
        - exfalso. match goal with H : plain _ |- _ => destruct H as [Hp|(h' & tl' & Hh' & X)] end; [exact (header_not_none _ _ _ Hh Hp)|exact (Hk _ _ Hh' X)].
        - exfalso. match goal with H : plain _ |- _ => destruct H as [Hp|(h' & tl' & Hh' & X)] end; [exact (header_not_none _ _ _ Hh Hp)|exact (Hk _ _ Hh' X)]. }
      destruct X as (k & q & v & -> & Ek). pose proof (header_some _ _ _ Hh) as Hps.
      destruct h as [key n dl [fs|]]; [|now destruct Hf]. cbn in Ek. subst key.
      assert (Ha : arr_rel cx (to_header (HeadLine (Some (k, q)) n dl (Some fs))) (inline_of tail) c (S d) (tree_events v) c1).
      { assert (Hnp : ~ plain_content t).
        { intros [X|(h' & iv' & X & X2)]; rewrite Hps in X; [discriminate|]. injection X as <- <-. discriminate. }
        inversion H1 as [? ? ? h0 iv0 key0 evs0 c0 Hps' Hk' Hrel| | |]; subst; try contradiction.
        rewrite Hps in Hps'. assert (Ei : iv0 = inline_of tail) by congruence. subst iv0.
        match type of Hps' with Ok (Some (?x, _)) = _ => assert (Eh : x = h0) by congruence; rewrite Eh end. exact Hrel. }
      assert (Hna' : is_array_header_content t = false).
      { apply array_content_not. intros [X _]. apply (begins_key _ _ _ Hh) in X. discriminate. }
      apply (item_table cx line c d (to_header (HeadLine (Some (k, q)) n dl (Some fs))) (inline_of tail) k (map to_field fs) (tree_events v) c1 _ c2);
        rewrite ?E; cbn [skipn]; auto. now rewrite <- ReadLex.blank_trim.
    + eapply (item_object cx line c d _ c1 _ c2); rewrite ?E; cbn [skipn]; eauto.
      * now rewrite <- ReadLex.blank_trim.
      * unfold item_not_array. rewrite header_none. exact Hna.
      * unfold item_not_table. pose proof (header_cases t) as C. destruct (parse_array_header_line t DEFAULT_DELIMITER) as [[[h iv]|]|e] eqn:Ep; auto.
        -- destruct C as (_ & hl & tl & Hh & -> & ->). right. exists (to_header hl), (inline_of tl). split; auto. right.
           unfold to_header. cbn. now rewrite (Hf _ _ Hh).
        -- exfalso. inversion H1; subst; try congruence; match goal with H : plain_content _ |- _ => destruct H as [X|(h' & iv' & X & X2)]; congruence end.
      * now apply key_value_spec.
  - intros d t ls p Hb Hu Hnt Hp c line <- E. exists c. split; auto. eapply item_prim; rewrite ?E; cbn [skipn]; eauto.
    + now rewrite <- ReadLex.blank_trim.
    + left. apply array_content_not. tauto.
    + unfold item_not_table. rewrite header_none. destruct Hnt as [Hnt|(h & tail & Hh & Hor)]; auto. right.
      exists (to_header h), (inline_of tail). split; [now apply header_some|]. destruct Hor as [Hor|Hor]; [left; now apply to_header_key|right].
      unfold to_header. cbn. now rewrite Hor.
    + now apply key_value_not.
    + now apply prim_spec.
Qed.

(** * The root *)

Lemma root_fields_iff c evs c' : root_fields_rel cx c evs c' <-> of_rel cx c 0 (Some 0) evs c'.
Proof.
  split.
  - induction 1 as [c Hs|c line e1 c1 e2 c2 Hp Hd Hkv _ IH].
    + apply of_end. unfold fields_stop. destruct (peek c); auto. right. exists 0. auto.
    + apply (of_step cx c 0 (Some 0) line e1 c1 e2 c2 Hp); [lia|now rewrite Hd|rewrite Hd; exact Hkv|rewrite Hd; exact IH].
  - intros H. remember (Some 0) as computed eqn:E. remember 0 as base eqn:Eb in H. revert Eb E.
    induction H as [c base computed Hs|c base computed line e1 c1 e2 c2 Hp Hb Hu Hkv Hof IH]; intros -> ->.
    + apply rf_end. unfold fields_stop in Hs. destruct (peek c); auto. destruct Hs as [Hs|(x & [= <-] & Hs)]; [lia|exact Hs].
    + cbn in Hu. apply (rf_step cx c line e1 c1 e2 c2 Hp); [now rewrite <- Hu|rewrite <- Hu in Hkv; exact Hkv|]. apply IH; [reflexivity|now rewrite <- Hu].
Qed.
Lemma not_array_spec t : item_not_array t <-> ~ (begins cLBRACK t /\ unquoted cCOLON t) \/ no_header t.
Proof. unfold item_not_array. now rewrite array_content_not, header_none. Qed.

Lemma root_sound ls evs c' : lines_rel cx ls evs c' -> exists v, root parse_f64 strict blanks (map tl_of ls) v /\ evs = tree_events v.
Proof.
  destruct read_sound as (Hkv & Hof & Harr & _). intros H.
  destruct H as [|first rest h iv evs c' Ha Hh Hr|first p Hn Hk Hp|first rest e1 c1 e2 c2 Hn Hor H1 H2].
  - exists (TObj []). split; [constructor|reflexivity].
  - apply header_some_inv in Hh as (hl & tail & Hh & -> & ->). apply array_content_spec in Ha as [Ha1 Ha2].
    destruct (Harr _ _ _ _ _ _ Hr hl tail eq_refl eq_refl (header_delim _ _ _ Hh)) as (v & Hv & ->). exists v. split; [|reflexivity].
    cbn [map]. eapply ro_array; eauto.
  - exists (TPrim p). split; [|reflexivity]. apply ro_prim; [now apply not_array_spec|now apply colon_line_not|now apply prim_trim].
  - apply Hkv in H1 as (m & Hm & ->). apply root_fields_iff in H2. destruct (Hof _ _ _ _ _ H2 0) as (ms & Hms & ->); auto.
    exists (TObj (m :: ms)). split; [|rewrite tree_events_obj; cbn [flat_map]; now rewrite <- app_assoc].
    cbn [map]. eapply ro_object; eauto; [now apply not_array_spec|].
    destruct Hor as [Hor|Hor]; [left|right; now apply colon_line_spec]. destruct rest; [contradiction|discriminate].
Qed.
Lemma root_complete ls v : root parse_f64 strict blanks (map tl_of ls) v -> exists c', lines_rel cx ls (tree_events v) c'.
Proof.
  destruct read_complete as (Hkv & Hof & Harr & _). intros H. remember (map tl_of ls) as tls eqn:E.
  destruct H as [|l tls h tail v rest Hb Hu Hh Hr|l p Hn Hk Hp|l tls m ls1 ms rest Hn Hor H1 H2].
  - destruct ls; [|discriminate]. eexists. apply lr_empty.
  - destruct ls as [|first ls]; [discriminate|]. injection E as -> ->. cbn in *.
    destruct (Harr _ _ _ _ _ _ Hr (header_delim _ _ _ Hh) (Cursor ls (Some first)) eq_refl) as (c' & Ha & _). exists c'.
    eapply lr_array; [now apply array_content_spec|apply header_some; exact Hh|exact Ha].
  - destruct ls as [|first [|? ?]]; try discriminate. injection E as ->. cbn in *. eexists.
    apply lr_prim; [now apply not_array_spec|now apply colon_line_not|now apply prim_trim].
  - destruct ls as [|first ls]; [discriminate|]. injection E as -> ->. cbn [tl_of tl_text] in *.
    destruct (Hkv _ _ _ _ _ H1 (Cursor ls (Some first)) eq_refl) as (c1 & Hk1 & Hc1).
    destruct (Hof _ _ _ _ _ H2 c1 Hc1 0 (Some 0) (Nat.le_refl _) (or_introl eq_refl)) as (c2 & Hk2 & _). apply root_fields_iff in Hk2.
    exists c2. rewrite tree_events_obj. cbn [flat_map]. rewrite <- app_assoc.
    eapply lr_object; eauto; [now apply not_array_spec|]. destruct Hor as [Hor|Hor]; [left|right; now apply colon_line_spec].
    intros ->. contradiction.
Qed.

End Equiv.

(** * Whole texts *)

Lemma stream_spec raws strict size evs :
  decode_stream_sync raws (Some (DStreamOpts (Some size) (Some strict))) = Ok evs <->
  exists ls bs v, scans strict size 1 raws ls bs /\ root parse_f64 strict bs ls v /\ evs = tree_events v.
Proof.
  unfold decode_stream_sync. cbn [unwrap_or dso_indent dso_strict]. cbv zeta. unfold create_scan_state. split.
  - intros H. inv_bind H. injection H as <-. apply scans_sound in E as (bs & Hs & Eb). cbn in Eb.
    apply decode_lines_exact, root_sound in E0 as (v & Hv & ->). cbn [dc_strict dc_blanks] in Hv. rewrite Eb in Hv. eauto 7.
  - intros (ls & bs & v & Hs & Hv & ->). destruct (scans_complete _ _ _ _ _ _ Hs 0 [] eq_refl) as (pls & st & E & <- & Eb). cbn in Eb.
    rewrite E. cbn [bind]. rewrite <- Eb in Hv.
    apply (root_complete (DCtx strict (ss_blanks st))) in Hv as (c' & Hl). apply decode_lines_exact in Hl. rewrite Hl. reflexivity.
Qed.
Lemma reads_split strict size text v : reads parse_f64 strict size text v <->
  exists ls bs, scans strict size 1 (split_on cLF text) ls bs /\ root parse_f64 strict bs ls v.
Proof.
  unfold reads. split.
  - intros (raws & ls & bs & Hn & -> & Hf & Hs & Hr). rewrite split_join by auto. eauto.
  - intros (ls & bs & Hs & Hr). exists (split_on cLF text), ls, bs. split; [apply split_on_not_nil|]. split; [now rewrite join_split|].
    split; [apply split_on_pieces|auto].
Qed.
Lemma reads_stream strict size text evs :
  decode_stream_sync (split_on cLF text) (Some (DStreamOpts (Some size) (Some strict))) = Ok evs <->
  exists v, reads parse_f64 strict size text v /\ evs = tree_events v.
Proof.
  rewrite stream_spec. split.
  - intros (ls & bs & v & Hs & Hr & ->). exists v. split; auto. apply reads_split. eauto.
  - intros (v & Hr & ->). apply reads_split in Hr as (ls & bs & Hs & Hr). eauto 7.
Qed.

(** * Trees *)

Section TreeInd.
Variable P : tree -> Prop.
Hypothesis Hprim : forall p, P (TPrim p).
Hypothesis Harr : forall n l, Forall P l -> P (TArr n l).
Hypothesis Hobj : forall l, Forall (fun m => P (snd m)) l -> P (TObj l).
Fixpoint tree_induction (v : tree) : P v :=
  match v with
  | TPrim p => Hprim p
  | TArr n l => Harr n l ((fix go l : Forall P l := match l with [] => Forall_nil _ | x :: r => Forall_cons x (tree_induction x) (go r) end) l)
  | TObj l => Hobj l ((fix go l : Forall (fun m => P (snd m)) l := match l with [] => Forall_nil _ | x :: r => Forall_cons x (tree_induction (snd x)) (go r) end) l)
  end.
End TreeInd.

Lemma tree_describes v : describes (fun _ _ => True) (tree_events v) (tree_json v).
Proof.
  induction v as [p|n l IH|l IH] using tree_induction; cbn [tree_events tree_json].
  - constructor.
  - apply de_arr; [|exact I]. induction IH as [|x l Hx _ IH]; cbn [flat_map map]; [constructor|]. now apply di_cons.
  - apply de_obj. induction IH as [|[[k q] x] l Hx _ IH]; cbn [flat_map map fst snd]; [constructor|].
    change ((EvKey k q :: tree_events x) ++ ?r) with (EvKey k q :: tree_events x ++ r). now apply den_cons.
Qed.

Lemma events_start v : exists e r, tree_events v = e :: r /\ e <> EvEndArray /\ e <> EvEndObject.
Proof. destruct v; cbn; eexists; eexists; (split; [reflexivity|split; discriminate]). Qed.
Lemma events_inj v : forall w r r', tree_events v ++ r = tree_events w ++ r' -> v = w /\ r = r'.
Proof.
  induction v as [p|n l IH|l IH] using tree_induction; intros w r r' H.
  - destruct w; cbn in H; try discriminate. injection H as -> ->. auto.
  - destruct w as [|n' l'|]; cbn in H; try discriminate. injection H as -> H. rewrite <- !app_assoc in H.
    enough (l = l' /\ r = r') by (intuition congruence). revert l' H. induction IH as [|x l Hx _ IH]; intros [|y l'] H; cbn [flat_map app] in H.
    + injection H as ->. auto.
    + destruct (events_start y) as (e & t & E & He & _). rewrite E in H. cbn in H. injection H as H _. congruence.
    + destruct (events_start x) as (e & t & E & He & _). rewrite E in H. cbn in H. injection H as H _. congruence.
    + rewrite <- !app_assoc in H. apply Hx in H as [-> H]. cbn [app] in IH. apply IH in H as [-> ->]. auto.
  - destruct w as [| |l']; cbn in H; try discriminate. injection H as H. rewrite <- !app_assoc in H.
    enough (l = l' /\ r = r') by (intuition congruence). revert l' H. induction IH as [|[[k q] x] l Hx _ IH]; intros [|[[k' q'] y] l'] H; cbn [flat_map app fst snd] in H.
    + injection H as ->. auto.
    + discriminate.
    + discriminate.
    + injection H as -> -> H. rewrite <- !app_assoc in H. cbn [snd] in Hx. apply Hx in H as [Ex H]. subst y. cbn [app] in IH. apply IH in H as [-> ->]. auto.
Qed.
Lemma tree_events_inj v w : tree_events v = tree_events w -> v = w.
Proof. intros H. apply (events_inj v w [] []). now rewrite H. Qed.
Lemma reads_fun strict size text v w : reads parse_f64 strict size text v -> reads parse_f64 strict size text w -> v = w.
Proof.
  intros H1 H2. apply tree_events_inj.
  assert (E1 : decode_stream_sync (split_on cLF text) (Some (DStreamOpts (Some size) (Some strict))) = Ok (tree_events v)) by (apply reads_stream; eauto).
  assert (E2 : decode_stream_sync (split_on cLF text) (Some (DStreamOpts (Some size) (Some strict))) = Ok (tree_events w)) by (apply reads_stream; eauto).
  congruence.
Qed.
