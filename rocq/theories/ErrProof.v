(** The decoder fails exactly as SpecError.v says. *)
From Verif Require Import Chars Floats Json Shared Scanner Parser DecValidation Decoders Lex NumProof PrimProof Spec DecNums
  ParseProof DecRel DecCost DecProps DecRelax SpecText TextProof SpecRead SpecError ReadLex ReadHead ReadLine ErrLex ReadProof.

Local Open Scope nat_scope.

Lemma bind_err {A B} (r : result A) (k : A -> result B) e : bind r k = Err e -> r = Err e \/ exists a, r = Ok a /\ k a = Err e.
Proof. destruct r as [a|e']; cbn [bind]; [right; eauto|intros [= ->]; now left]. Qed.
Lemma find_first {A} (f : A -> bool) l b : find f l = Some b <->
  exists before after, l = before ++ b :: after /\ f b = true /\ forall x, In x before -> f x = false.
Proof.
  induction l as [|a l IH]; cbn [find].
  - split; [discriminate|]. intros (p & q & E & _). destruct p; discriminate.
  - destruct (f a) eqn:Ea.
    + split.
      * intros [= ->]. exists [], l. split; auto. split; auto. intros x [].
      * intros (p & q & E & Hb & Hp). destruct p as [|y p]; [injection E as -> _; reflexivity|]. injection E as <- _.
        rewrite (Hp a) in Ea by now left. discriminate.
    + rewrite IH. split.
      * intros (p & q & -> & Hb & Hp). exists (a :: p), q. split; auto. split; auto. intros x [<-|Hx]; auto.
      * intros (p & q & E & Hb & Hp). destruct p as [|y p]; [injection E as -> _; congruence|]. injection E as <- ->.
        exists p, q. split; auto. split; auto. intros x Hx. apply Hp. now right.
Qed.

Section Failing.
Variable cx : dctx.
Notation strict := (dc_strict cx).
Notation blanks := (map bl_line (dc_blanks cx)).
Notation member := (member parse_f64 strict blanks).
Notation members := (members parse_f64 strict blanks).
Notation array := (array parse_f64 strict blanks).
Notation items := (items parse_f64 strict blanks).
Notation item := (item parse_f64 strict blanks).
Notation rows := (rows parse_f64 strict).
Notation row_fails := (row_fails parse_f64 strict).
Notation member_fails := (member_fails parse_f64 strict blanks).
Notation members_fail := (members_fail parse_f64 strict blanks).
Notation array_fails := (array_fails parse_f64 strict blanks).
Notation items_fail := (items_fail parse_f64 strict blanks).
Notation item_fails := (item_fails parse_f64 strict blanks).

(** * The checks of strict mode *)

Lemma count_err w a b e : assert_expected_count w a b strict = Err e <-> strict = true /\ a <> b /\ e = ECount w b a.
Proof.
  unfold assert_expected_count. destruct strict; cbn [andb]; [|split; [discriminate|intros [? _]; discriminate]].
  destruct (N.eqb_spec a b); cbn [negb]; split; try discriminate; try tauto.
  - intros [= <-]. auto.
  - intros (_ & _ & ->). reflexivity.
Qed.
Lemma gap_err w pre e : validate_blank_range w (range_over None pre) (dc_blanks cx) strict = Err e <->
  strict = true /\ exists n, first_gap blanks (map tl_of pre) n /\ e = EBlankInArray w n.
Proof.
  destruct pre as [|a t]; cbn [range_over].
  { split; [discriminate|]. intros (_ & n & (a & m & z & b & E & _) & _). discriminate. }
  destruct (last_some a t) as [z Ez]. rewrite Ez. cbn [validate_blank_range]. unfold validate_no_blank_lines_in_range. cbv zeta.
  destruct strict; cbn [andb]; [|split; [discriminate|intros [? _]; discriminate]].
  assert (El : exists p, a :: t = p ++ [z]).
  { clear - Ez. unfold last_or in Ez. destruct (rev t) as [|y l] eqn:E.
    - injection Ez as <-. apply (f_equal (@rev _)) in E. rewrite rev_involutive in E. cbn in E. subst. now exists [].
    - injection Ez as <-. apply (f_equal (@rev _)) in E. rewrite rev_involutive in E. cbn in E. subst. now exists (a :: rev l). }
  destruct El as [p El]. set (f := fun b : blank_line => _). split.
  - intros H. split; auto. destruct (existsb f (dc_blanks cx)) eqn:Ex; [|discriminate]. injection H as <-.
    destruct (find f (dc_blanks cx)) as [b|] eqn:Ef.
    2: { apply existsb_exists in Ex as (b & Hin & Hb). apply (find_none _ _ Ef) in Hin. congruence. }
    exists (bl_line b). split; auto. apply find_first in Ef as (q & r & E & Hb & Hq).
    exists (tl_of a), (map tl_of t), (map tl_of p), (tl_of z). split; [reflexivity|]. split; [rewrite El, map_app; reflexivity|].
    exists (map bl_line q), (map bl_line r). split; [rewrite E, map_app; reflexivity|]. unfold f in Hb, Hq.
    apply andb_prop in Hb as [H1 H2]. apply Nat.ltb_lt in H1, H2. split; [exact H1|]. split; [exact H2|].
    intros x Hx [L1 L2]. apply in_map_iff in Hx as (b' & <- & Hx). apply Hq in Hx. apply andb_false_iff in Hx. cbn in L1, L2.
    apply Nat.ltb_lt in L1, L2. destruct Hx; congruence.
  - intros (_ & n & (a' & m & z' & b' & E1 & E2 & q & r & Eb & L1 & L2 & Hq) & ->).
    cbn [map] in E1. injection E1 as <- _. rewrite El, map_app in E2. cbn [map] in E2. apply app_inj_tail in E2 as [_ <-].
    cbn in L1, L2, Hq. apply map_eq_app in Eb as (q' & r1 & Eb & Eq & Er). destruct r1 as [|b r']; [discriminate|]. injection Er as <- Er.
    assert (Ef : find f (dc_blanks cx) = Some b).
    { apply find_first. exists q', r'. split; auto. unfold f. split.
      - apply andb_true_intro. split; now apply Nat.ltb_lt.
      - intros x Hx. apply andb_false_iff. destruct (Nat.ltb_spec (pl_line a) (bl_line x)); [right|now left]. apply Nat.ltb_ge.
        destruct (Nat.le_gt_cases (pl_line z) (bl_line x)); auto. exfalso. apply (Hq (bl_line x)); [|auto]. rewrite <- Eq. now apply in_map. }
    rewrite Ef. replace (existsb f (dc_blanks cx)) with true; [reflexivity|]. symmetry. apply existsb_exists. exists b.
    apply find_some in Ef. exact Ef.
Qed.
Lemma extra_items_err c d n e : validate_no_extra_list_items (peek c) d n strict = Err e <->
  strict = true /\ e = EExtraItems n /\ exists l r, lines c = l :: r /\ tl_depth l = d /\ hyphen (tl_text l).
Proof.
  unfold validate_no_extra_list_items. destruct (peek c) as [line|] eqn:Ep.
  2: { apply peek_none in Ep. rewrite Ep. split; [discriminate|]. intros (_ & _ & l & r & E & _). discriminate. }
  rewrite (peek_lines _ _ Ep). destruct strict; cbn [andb]; [|split; [discriminate|intros [? _]; discriminate]].
  destruct (Nat.eqb_spec (pl_depth line) d) as [Hd|Hd]; cbn [andb].
  2: { split; [discriminate|]. intros (_ & _ & l & r & [= <- _] & H & _). contradiction. }
  destruct (starts_with_str LIST_ITEM_PREFIX (pl_content line)) eqn:E.
  - apply hyphen_spec in E. split; [|intros (_ & -> & _); reflexivity]. intros [= <-]. split; auto. split; auto. eexists; eexists; eauto.
  - apply hyphen_not in E. split; [discriminate|]. intros (_ & _ & l & r & [= <- _] & _ & H). contradiction.
Qed.
Lemma extra_rows_err c d dl n e : dl = cCOMMA \/ dl = cTAB \/ dl = cPIPE ->
  (validate_no_extra_tabular_rows (peek c) d dl n strict = Err e <->
   strict = true /\ e = EExtraRows n /\ exists l r, lines c = l :: r /\ tl_depth l = d /\ ~ hyphen (tl_text l) /\ data_row dl (tl_text l)).
Proof.
  intros Hdl. unfold validate_no_extra_tabular_rows. destruct (peek c) as [line|] eqn:Ep.
  2: { apply peek_none in Ep. rewrite Ep. split; [discriminate|]. intros (_ & _ & l & r & E & _). discriminate. }
  rewrite (peek_lines _ _ Ep). destruct strict; cbn [andb]; [|split; [discriminate|intros [? _]; discriminate]].
  destruct (Nat.eqb_spec (pl_depth line) d) as [Hd|Hd]; cbn [andb].
  2: { split; [discriminate|]. intros (_ & _ & l & r & [= <- _] & H & _). contradiction. }
  destruct (starts_with_str LIST_ITEM_PREFIX (pl_content line)) eqn:E; cbn [negb andb].
  { apply hyphen_spec in E. split; [discriminate|]. intros (_ & _ & l & r & [= <- _] & _ & H & _). contradiction. }
  apply hyphen_not in E. destruct (is_data_row (pl_content line) dl) eqn:Er.
  - apply data_row_spec in Er; auto. split; [|intros (_ & -> & _); reflexivity]. intros [= <-]. split; auto. split; auto. eexists; eexists; eauto.
  - split; [discriminate|]. intros (_ & _ & l & r & [= <- _] & _ & _ & H). apply data_row_spec in H; auto. cbn in H. congruence.
Qed.

(** * Rows *)

Lemma cells_values dl s : plain_delim dl -> cells dl s (parse_delimited_values s dl).
Proof. intros [H1 H2]. now apply cells_spec. Qed.
Lemma rows_err_sound h fs d : head_delim h -> forall rest last count range e,
  decode_rows rest last d (to_header h) (map to_field fs) cx count range = Err e ->
  row_fails (hl_delimiter h) fs d (hl_length h - count) (map tl_of rest) e.
Proof.
  intros Hd. pose proof (head_plain _ Hd) as Hp. induction rest as [|line r IH]; intros last count range e H; cbn [decode_rows] in H; [discriminate|].
  change (ah_length (to_header h)) with (hl_length h) in H. change (ah_delimiter (to_header h)) with (hl_delimiter h) in H.
  destruct (N.leb_spec (hl_length h) count) as [L|L]; [discriminate|].
  destruct (Nat.eqb_spec (pl_depth line) d) as [E|E]; [|discriminate]. cbv zeta in H.
  replace (hl_length h - count)%N with (N.succ (hl_length h - (count + 1))) by lia. cbn [map].
  pose proof (cells_values _ (pl_content line) Hp) as Hc.
  apply bind_err in H as [H|([] & H0 & H)].
  { apply count_err in H as (Hs & Hn & ->). rewrite map_length in *. eapply rf_width; eauto. }
  assert (H0' : strict = true -> length (parse_delimited_values (pl_content line) (hl_delimiter h)) = length fs).
  { intros Hs. apply count_spec in H0; auto. rewrite map_length in H0. now apply Nat2N.inj. }
  apply bind_err in H as [H|(ps & H1 & H)].
  { apply row_err in H; auto. eapply rf_cell; eauto. }
  apply bind_err in H as [H|([[[evs c] n] rg] & H2 & H)]; [|discriminate].
  apply IH in H. apply prims_spec in H1; auto. eapply rf_later; eauto. intros Hs. rewrite (prims_count _ _ _ Hp H1). auto.
Qed.
Lemma rows_err_complete h fs d n ls e : head_delim h -> row_fails (hl_delimiter h) fs d n ls e ->
  forall rest last count range, map tl_of rest = ls -> n = (hl_length h - count)%N ->
  decode_rows rest last d (to_header h) (map to_field fs) cx count range = Err e.
Proof.
  intros Hd. pose proof (head_plain _ Hd) as Hp.
  assert (X : forall l ts, cells (hl_delimiter h) l ts -> ts = parse_delimited_values l (hl_delimiter h)) by (intros l ts H; destruct Hp; symmetry; now apply cells_spec in H).
  induction 1 as [n l ls ts Hs El Hc Hn|n l ls ts e El Hc Hs Hb|n l ls ps e El Hps Hs _ IH]; intros rest last count range Hm HN;
    (destruct rest as [|line r]; [discriminate|]); cbn [map] in Hm; injection Hm as <- Hm; cbn [tl_of tl_depth tl_text] in *;
    cbn [decode_rows]; change (ah_length (to_header h)) with (hl_length h); change (ah_delimiter (to_header h)) with (hl_delimiter h);
    (destruct (N.leb_spec (hl_length h) count) as [L|L]; [lia|]); rewrite El, Nat.eqb_refl; cbv zeta.
  - apply X in Hc as ->. rewrite map_length. assert (Hn' : N.of_nat (length (parse_delimited_values (pl_content line) (hl_delimiter h))) <> N.of_nat (length fs)) by (intros E; apply Nat2N.inj in E; auto).
    rewrite (proj2 (count_err CRowValues _ _ _) (conj Hs (conj Hn' eq_refl))). reflexivity.
  - apply X in Hc as ->. rewrite (proj2 (count_spec _ _ _ _)) by (intros E0; rewrite map_length; now rewrite Hs).
    cbn [bind]. now rewrite (proj2 (row_err _ _ _ Hp) Hb).
  - rewrite (proj2 (count_spec _ _ _ _)) by (intros E0; rewrite map_length, <- (Hs E0); now rewrite (prims_count _ _ _ Hp Hps)).
    cbn [bind]. rewrite (proj1 (prims_spec _ _ _ Hp) Hps). cbn [bind]. rewrite (IH r (Some line) (count + 1)%N _ Hm); [reflexivity|lia].
Qed.

(** * Arrays *)

Lemma inline_err hl tail iv d ls e : head_delim hl -> inline_of tail = Some iv ->
  decode_inline_primitive_array (to_header hl) iv cx = Err e -> array_fails d hl tail ls e.
Proof.
  intros Hd Ei. destruct (inline_some _ _ Ei) as (Hn & Ht & Ett). unfold decode_inline_primitive_array. rewrite Ett.
  apply is_empty_false in Hn as Hn'. rewrite Hn'. cbv zeta. intros H. pose proof (head_plain _ Hd) as Hp.
  apply bind_err in H as [H|(ps & H1 & H)].
  - apply row_err in H; auto. eapply af_cell; eauto.
  - apply prims_spec in H1; auto. apply bind_err in H as [H|(u & _ & H)]; [|discriminate]. apply count_err in H as (Hs & Hc & ->). eapply af_count; eauto.
Qed.
Lemma table_err hl tail fs c d e : head_delim hl -> blank tail -> hl_fields hl = Some fs -> fs <> [] ->
  decode_tabular_array (to_header hl) (map to_field fs) c d cx = Err e -> array_fails d hl tail (lines c) e.
Proof.
  intros Hd Hb Hf Hn H. unfold decode_tabular_array in H.
  apply bind_err in H as [H|([[[evs c'] n] rg] & H0 & H)].
  { apply rows_err_sound in H; auto. rewrite N.sub_0_r in H. eapply af_row; eauto. }
  pose proof H0 as Eo. apply rows_over in Eo as (pre & Ho & ->). apply rows_sound in H0 as (vs & Hr & -> & ->); auto.
  rewrite N.sub_0_r in Hr. rewrite N.add_0_l in H. change (map tl_of (cu_rest c)) with (lines c) in Hr.
  assert (Hu : lines c = map tl_of pre ++ lines c').
  { unfold lines. destruct Ho as [Ho _]. cbn [cu_rest] in Ho. now rewrite Ho, map_app. }
  apply bind_err in H as [H|([] & Hcount & H)].
  { apply count_err in H as (Hs & Hc & ->). eapply af_rows_count; eauto. }
  apply bind_err in H as [H|([] & Hgap & H)].
  { apply gap_err in H as (Hs & k & Hg & ->). apply count_spec in Hcount; auto. eapply af_rows_gap; eauto. }
  apply bind_err in H as [H|([] & _ & H)]; [|discriminate].
  apply extra_rows_err in H as (Hs & -> & l & r & El & Hdl & Hh & Hrow); auto. apply count_spec in Hcount; auto.
  rewrite El in *. eapply af_rows_extra; eauto. now apply gap_spec in Hgap.
Qed.

(** * What the decoder rejects *)

Lemma kv_reads fuel t c d evs c' : decode_key_value fuel t c d cx = Ok (evs, c') -> exists m, member d t (lines c) m (lines c').
Proof. intros H. apply dec_sound, read_sound in H as (m & Hm & _). eauto. Qed.

Lemma plain_fails fuel t c d e : 
  (forall c base computed e, decode_object_fields fuel c base computed cx = Err e -> forall dd, base <= dd ->
     match computed with Some x => x = dd | None => exists line, peek c = Some line /\ pl_depth line = dd end ->
     e = EFuel \/ members_fail false dd (lines c) e) ->
  plain t ->
  (let? (key, p, is_quoted) := parse_key_token t 0 in
   let rest := trim (skipn p t) in
   if is_empty rest then
     let nested := match peek c with Some next => Nat.ltb d (pl_depth next) | None => false end in
     if nested then
       let? (evs, c) := decode_object_fields fuel c (S d) None cx in
       Ok (EvKey key is_quoted :: EvStartObject :: evs ++ [EvEndObject], c)
     else Ok ([EvKey key is_quoted; EvStartObject; EvEndObject], c)
   else
     let? p := parse_primitive_token rest in
     Ok ([EvKey key is_quoted; EvPrim p], c)) = Err e ->
  e = EFuel \/ member_fails d t (lines c) e.
Proof.
  intros IHof Hpl H. apply bind_err in H as [H|([[k p] q] & Hk & H)].
  { right. apply key_err in H; [|now apply plain_closed]. now apply mf_key. }
  apply key_sound in Hk. cbv zeta in H. destruct (is_empty (trim (skipn p t))) eqn:Et.
  - apply is_empty_true in Et. destruct (peek c) as [next|] eqn:Ep; [|discriminate].
    destruct (Nat.ltb_spec d (pl_depth next)) as [L|L]; [|discriminate].
    apply bind_err in H as [H|([evs c'] & _ & H)]; [|discriminate].
    apply IHof with (dd := pl_depth next) in H as [H|H]; [now left| |lia|eauto]. right. rewrite (peek_lines _ _ Ep) in *.
    eapply mf_object; [exact Hpl|exact Hk|now apply ReadLex.blank_trim|reflexivity|exact L|exact H].
  - right. apply bind_err in H as [H|(pr & _ & H)]; [|discriminate]. apply prim_err_trim in H. eapply mf_value; eauto.
Qed.

Lemma err_sound fuel :
  (forall t c d e, decode_key_value fuel t c d cx = Err e -> e = EFuel \/ member_fails d t (lines c) e) /\
  (forall c base computed e, decode_object_fields fuel c base computed cx = Err e -> forall dd, base <= dd ->
     match computed with Some x => x = dd | None => exists line, peek c = Some line /\ pl_depth line = dd end ->
     e = EFuel \/ members_fail false dd (lines c) e) /\
  (forall hl tail c d e, decode_array_from_header fuel (to_header hl) (inline_of tail) c d cx = Err e -> head_delim hl ->
     e = EFuel \/ array_fails d hl tail (lines c) e) /\
  (forall c depth len count range e, decode_list_items fuel c depth len count range cx = Err e ->
     e = EFuel \/ items_fail depth (len - count) (lines c) e) /\
  (forall c line d e, decode_list_item fuel c d cx = Err e -> peek c = Some line -> is_list_item (pl_content line) = true ->
     e = EFuel \/ item_fails d (pl_content line) (lines (advance c)) e) /\
  (forall c d e, decode_follow fuel c d cx = Err e -> e = EFuel \/ members_fail true d (lines c) e).
Proof.
  induction fuel as [|fuel (IHkv & IHof & IHarr & IHitems & IHitem & IHfollow)].
  { repeat split; intros; left; cbn in *; congruence. }
  repeat apply conj.
  - intros t c d e H. cbn [decode_key_value] in H.
    apply bind_err in H as [H|(h & Hh & H)]; [right; apply header_err in H; now apply mf_header|].
    destruct h as [[h iv]|].
    + apply header_some_inv in Hh as (hl & tail & Hh & -> & ->). destruct (ah_key (to_header hl)) as [key|] eqn:Ek.
      * apply bind_err in H as [H|([evs c'] & _ & H)]; [|discriminate].
        apply IHarr in H as [H|H]; [now left| |eapply header_delim; eauto]. right. eapply mf_array; eauto.
        intros X. apply to_header_key in X. congruence.
      * eapply plain_fails; eauto. right. exists hl, tail. split; auto. now apply to_header_key.
    + apply header_none in Hh. eapply plain_fails; eauto. now left.
  - intros c base computed e H dd Hb Hc. cbn [decode_object_fields] in H. destruct (peek c) as [line|] eqn:Ep; [|discriminate].
    destruct (Nat.ltb_spec (pl_depth line) base); [discriminate|]. cbv zeta in H.
    assert (Eu : unwrap_or computed (pl_depth line) = dd).
    { destruct computed as [x|]; cbn; [exact Hc|]. destruct Hc as (l & Hl & E). congruence. }
    rewrite Eu in H. destruct (Nat.eqb_spec (pl_depth line) dd) as [E|E]; [|discriminate]. rewrite (peek_lines _ _ Ep).
    assert (Hh : ~ (false = true /\ hyphen (tl_text (tl_of line)))) by (intros [? _]; discriminate).
    apply bind_err in H as [H|([e1 c1] & H1 & H)].
    { apply IHkv in H as [H|H]; [now left|right]. rewrite E in H. apply msf_here; auto. }
    apply bind_err in H as [H|([e2 c2] & _ & H)]; [|discriminate].
    apply IHof with (dd := dd) in H as [H|H]; [now left|right|lia|reflexivity]. apply kv_reads in H1 as (m & Hm). rewrite E in Hm.
    eapply msf_later; eauto.
  - intros hl tail c d e H Hd. cbn [decode_array_from_header] in H. apply bind_err in H as [H|([evs c'] & _ & H)]; [|discriminate].
    destruct (inline_of tail) as [iv|] eqn:Ei.
    { right. apply bind_err in H as [H|(evs & _ & H)]; [|discriminate]. eapply inline_err; eauto. }
    apply inline_none in Ei.
    assert (Hl : (hl_fields hl = None \/ hl_fields hl = Some []) ->
      (let? (evs, c, count, range) := decode_list_items fuel c (S d) (ah_length (to_header hl)) 0 None cx in
       let? _ := assert_expected_count CItems count (ah_length (to_header hl)) (dc_strict cx) in
       let? _ := validate_blank_range CItems range (dc_blanks cx) (dc_strict cx) in
       let? _ := validate_no_extra_list_items (peek c) (S d) (ah_length (to_header hl)) (dc_strict cx) in
       Ok (evs, c)) = Err e -> e = EFuel \/ array_fails d hl tail (lines c) e).
    { clear H. intros Hf H. change (ah_length (to_header hl)) with (hl_length hl) in H.
      apply bind_err in H as [H|([[[evs c'] n] rg] & H0 & H)].
      { apply IHitems in H as [H|H]; [now left|right]. rewrite N.sub_0_r in H. eapply af_item; eauto. }
      right. apply dec_sound in H0. pose proof H0 as Eo. apply dec_over in Eo as (pre & Ho & ->).
      apply read_sound in H0 as (vs & Hr & -> & ->). rewrite N.sub_0_r in Hr. rewrite N.add_0_l in H.
      assert (Hu : lines c = map tl_of pre ++ lines c').
      { unfold lines. destruct Ho as [Ho _]. now rewrite Ho, map_app. }
      apply bind_err in H as [H|([] & Hcount & H)].
      { apply count_err in H as (Hs & Hc & ->). eapply af_items_count; eauto. }
      apply bind_err in H as [H|([] & Hgap & H)].
      { apply gap_err in H as (Hs & k & Hg & ->). apply count_spec in Hcount; auto. eapply af_items_gap; eauto. }
      apply bind_err in H as [H|([] & _ & H)]; [|discriminate].
      apply extra_items_err in H as (Hs & -> & l & r & El & Hdl & Hh); auto. apply count_spec in Hcount; auto.
      rewrite El in *. eapply af_items_extra; eauto. now apply gap_spec in Hgap. }
    destruct (hl_fields hl) as [[|f fs]|] eqn:Ef.
    + apply Hl; auto. destruct hl as [k n dl o]. cbn in Ef. subst o. exact H.
    + right. eapply table_err with (fs := f :: fs); eauto; [discriminate|]. destruct hl as [k n dl o]. cbn in Ef. subst o. exact H.
    + apply Hl; auto. destruct hl as [k n dl o]. cbn in Ef. subst o. exact H.
  - intros c depth len count range e H. cbn [decode_list_items] in H. destruct (peek c) as [line|] eqn:Ep; [|discriminate].
    destruct (N.leb_spec len count) as [L|L]; [discriminate|].
    destruct (Nat.eqb_spec (pl_depth line) depth) as [E|E]; cbn [andb] in H; [|discriminate].
    destruct (is_list_item (pl_content line)) eqn:Ei; [|discriminate]. cbv zeta in H. rewrite (peek_lines _ _ Ep).
    replace (len - count)%N with (N.succ (len - (count + 1))) by lia.
    apply bind_err in H as [H|([e1 c1] & H1 & H)].
    { eapply IHitem in H as [H|H]; eauto. right. apply if_here; auto. }
    apply bind_err in H as [H|([[[e2 c2] n] rg] & _ & H)]; [|discriminate].
    apply IHitems in H as [H|H]; [now left|right].
    apply dec_sound in H1 as (line' & Ep' & H1). assert (line' = line) as -> by congruence. apply read_sound in H1 as (v & Hv & _).
    eapply if_later; eauto.
  - intros c line d e H Ep Hli. cbn [decode_list_item] in H. rewrite Ep in H. cbv zeta in H.
    destruct (str_eqb (pl_content line) LIST_ITEM_MARKER) eqn:Em; [discriminate|].
    assert (Hpre : starts_with_str LIST_ITEM_PREFIX (pl_content line) = true).
    { unfold is_list_item in Hli. rewrite Em in Hli. now rewrite orb_false_r in Hli. }
    rewrite Hpre in H. cbn [negb] in H. apply hyphen_spec in Hpre as (t & Et). rewrite Et in *. cbn [skipn] in H.
    destruct (is_empty (trim t)) eqn:Eb; [discriminate|]. apply is_empty_false in Eb. assert (Hnb : ~ blank t) by now rewrite ReadLex.blank_trim.
    set (c0 := advance c) in *.
    destruct (parse_array_header_line t DEFAULT_DELIMITER) as [h|e'] eqn:Ehd.
    2: { assert (e = e').
         { destruct (is_array_header_content t); cbn [bind] in H; congruence. }
         subst e'. right. apply header_err in Ehd. now apply itf_header. }
    cbn [bind] in H.
    assert (Hmem : forall e1, member_fails (S d) t (lines c0) e1 -> 
       (unquoted cCOLON t \/ exists h tail, is_header t h tail /\ hl_fields h <> None) ->
       (forall h tail, is_header t h tail -> hl_key h <> None) -> item_fails d (cMINUS :: cSPACE :: t) (lines c0) e1).
    { intros e1 X Y Z. apply itf_member; auto. }
    assert (Hrest : ((forall h tail, is_header t h tail -> hl_key h <> None) \/ is_key_value_content t = false) ->
      (is_key_value_content t = false -> no_header t \/ exists h tail, is_header t h tail /\ (hl_key h = None \/ hl_fields h = None)) ->
      (if is_key_value_content t then
         let? (e1, c1) := decode_key_value fuel t c0 (S d) cx in
         let? (e2, c2) := decode_follow fuel c1 (S d) cx in
         Ok (EvStartObject :: e1 ++ e2 ++ [EvEndObject], c2)
       else let? p := parse_primitive_token t in Ok ([EvPrim p], c0)) = Err e ->
      e = EFuel \/ item_fails d (cMINUS :: cSPACE :: t) (lines c0) e).
    { clear H. intros Hk Hnt H. destruct (is_key_value_content t) eqn:Ekv.
      - destruct Hk as [Hk|Hk]; [|discriminate]. apply key_value_spec in Ekv. apply bind_err in H as [H|([e1 c1] & H1 & H)].
        + apply IHkv in H as [H|H]; [now left|right]. apply Hmem; auto.
        + apply bind_err in H as [H|([e2 c2] & _ & H)]; [|discriminate]. apply IHfollow in H as [H|H]; [now left|right].
          apply kv_reads in H1 as (m & Hm). eapply itf_later; eauto.
      - apply key_value_not in Ekv. apply bind_err in H as [H|(p & _ & H)]; [|discriminate]. apply prim_err in H. right. apply itf_prim; auto. }
    destruct (is_array_header_content t) eqn:Ea; cbn [bind] in H.
    + destruct h as [[h iv]|].
      * apply header_some_inv in Ehd as (hl & tail & Hh & -> & ->). apply array_content_spec in Ea as [Ea1 Ea2].
        apply IHarr in H as [H|H]; [now left|right|eapply header_delim; eauto]. eapply itf_array; eauto.
      * apply header_none in Ehd as Hno. apply Hrest; auto. left. intros h tail Hh. now apply header_not_none in Hh.
    + assert (Hk : (forall h tail, is_header t h tail -> hl_key h <> None) \/ is_key_value_content t = false).
      { destruct (is_key_value_content t) eqn:Ekv; auto. left. intros hl tail Hh X. apply (begins_key _ _ _ Hh) in X.
        apply array_content_not in Ea. apply key_value_spec in Ekv. tauto. }
      destruct h as [[h iv]|].
      * apply header_some_inv in Ehd as (hl & tail & Hh & -> & ->).
        destruct (ah_key (to_header hl)) as [key|] eqn:Ek.
        -- assert (Hkn : hl_key hl <> None) by (intros X; apply to_header_key in X; congruence).
           assert (Hk' : forall h tail, is_header t h tail -> hl_key h <> None).
           { intros h' tail' Hh'. destruct (is_header_fun _ _ _ _ _ Hh Hh') as [<- _]. exact Hkn. }
           destruct (ah_fields (to_header hl)) as [fs|] eqn:Ef.
           ++ assert (Hfn : hl_fields hl <> None).
              { intros X. destruct hl as [k n dl o]. cbn in X. subst o. discriminate. }
              apply bind_err in H as [H|([e1 c1] & H1 & H)].
              ** apply IHarr in H as [H|H]; [now left|right|eapply header_delim; eauto]. apply Hmem; eauto. eapply mf_array; eauto.
              ** apply bind_err in H as [H|([e2 c2] & _ & H)]; [|discriminate]. apply IHfollow in H as [H|H]; [now left|right].
                 apply dec_sound, read_sound with (hl := hl) (tail := tail) in H1 as (v & Hv & _); auto; [|eapply header_delim; eauto].
                 destruct (hl_key hl) as [[k q]|] eqn:Ehk; [|contradiction].
                 eapply itf_later; eauto. eapply mb_array; eauto.
           ++ apply Hrest; auto. intros _. right. exists hl, tail. split; auto. right. destruct hl as [k n dl [o|]]; [discriminate|reflexivity].
        -- apply Hrest; auto. intros _. right. exists hl, tail. split; auto. left. now apply to_header_key.
      * apply header_none in Ehd as Hno. apply Hrest; auto.
  - intros c d e H. cbn [decode_follow] in H. destruct (peek c) as [line|] eqn:Ep; [|discriminate].
    destruct (Nat.eqb_spec (pl_depth line) d) as [E|E]; cbn [andb] in H; [|discriminate].
    destruct (starts_with_str LIST_ITEM_PREFIX (pl_content line)) eqn:Es; cbn [negb] in H; [discriminate|]. apply hyphen_not in Es.
    rewrite (peek_lines _ _ Ep). assert (Hh : ~ (true = true /\ hyphen (tl_text (tl_of line)))) by (intros [_ ?]; auto).
    apply bind_err in H as [H|([e1 c1] & H1 & H)].
    { apply IHkv in H as [H|H]; [now left|right]. apply msf_here; auto. }
    apply bind_err in H as [H|([e2 c2] & _ & H)]; [|discriminate].
    apply IHfollow in H as [H|H]; [now left|right]. apply kv_reads in H1 as (m & Hm). eapply msf_later; eauto.
Qed.

(** * What is rejected is rejected with that error *)

Definition weak {A} (r : result A) (e : err) : Prop := r = Err EFuel \/ r = Err e.
Definition weakly {A} (r : result A) (x : A) : Prop := r = Err EFuel \/ r = Ok x.

Lemma weak_bind {A B} (r : result A) (k : A -> result B) e : weak r e -> weak (bind r k) e.
Proof. intros [->| ->]; [now left|now right]. Qed.
Lemma weakly_bind {A B} (r : result A) x (k : A -> result B) e : weakly r x -> weak (k x) e -> weak (bind r k) e.
Proof. intros [->| ->] H; [now left|exact H]. Qed.
Lemma weak_err {A} e : weak (@Err A e) e. Proof. now right. Qed.

Lemma kv_weakly d t ls m rest c fuel : member d t ls m rest -> lines c = ls ->
  exists evs c', weakly (decode_key_value fuel t c d cx) (evs, c') /\ lines c' = rest.
Proof.
  intros H Hc. apply (proj1 (read_complete cx)) with (c := c) in H as (c' & H & Hc'); auto. exists (member_events m), c'. split; auto.
  apply dec_complete in H as [n Hn]. destruct (dec_mono cx fuel (fuel + n) ltac:(lia)) as (Hm & _).
  destruct (Hm t c d) as [E|E]; [now left|right]. rewrite E. apply Hn. lia.
Qed.
Lemma items_weakly d n ls vs rest c fuel len count range : items d n ls vs rest -> lines c = ls -> n = (len - count)%N ->
  exists evs c' rg, weakly (decode_list_items fuel c d len count range cx) (evs, c', (count + N.of_nat (length vs))%N, rg) /\ lines c' = rest /\
    items_rel cx c d len count range evs c' (count + N.of_nat (length vs)) rg.
Proof.
  intros H Hc HN. destruct (read_complete cx) as (_ & _ & _ & X & _). destruct (X _ _ _ _ _ H c len count range Hc HN) as (c' & rg & Hr & Hc').
  eexists; exists c', rg. split; [|split; [exact Hc'|exact Hr]].
  apply dec_complete in Hr as [k Hn]. destruct (dec_mono cx fuel (fuel + k) ltac:(lia)) as (_ & _ & _ & Hm & _).
  destruct (Hm c d len count range) as [E|E]; [now left|right]. rewrite E. apply Hn. lia.
Qed.
Lemma item_weakly d t ls v rest c line fuel : item d t ls v rest -> peek c = Some line -> lines (advance c) = ls -> pl_content line = t ->
  exists evs c', weakly (decode_list_item fuel c d cx) (evs, c') /\ lines c' = rest.
Proof.
  intros H Hp Hc Ht. destruct (read_complete cx) as (_ & _ & _ & _ & X). destruct (X _ _ _ _ _ H _ line Hc Ht) as (c' & Hr & Hc').
  eexists; exists c'. split; [|exact Hc'].
  destruct (dec_complete cx) as (_ & _ & _ & _ & Y & _). destruct (Y _ _ _ _ _ Hr c Hp eq_refl) as [k Hn].
  destruct (dec_mono cx fuel (fuel + k) ltac:(lia)) as (_ & _ & _ & _ & Hm & _).
  destruct (Hm c d) as [E|E]; [now left|right]. rewrite E. apply Hn. lia.
Qed.

Lemma fail_begins t e : bad_string t e -> ~ blank t.
Proof. intros H Hb. apply bad_string_begins in H as (r & H). apply ReadLex.blank_trim in Hb. congruence. Qed.

(** The plain part of [decode_key_value]. *)
Lemma kv_plain fuel t c d : plain t -> decode_key_value (S fuel) t c d cx =
  (let? (key, p, is_quoted) := parse_key_token t 0 in
   let rest := trim (skipn p t) in
   if is_empty rest then
     let nested := match peek c with Some next => Nat.ltb d (pl_depth next) | None => false end in
     if nested then
       let? (evs, c) := decode_object_fields fuel c (S d) None cx in
       Ok (EvKey key is_quoted :: EvStartObject :: evs ++ [EvEndObject], c)
     else Ok ([EvKey key is_quoted; EvStartObject; EvEndObject], c)
   else
     let? p := parse_primitive_token rest in
     Ok ([EvKey key is_quoted; EvPrim p], c)).
Proof.
  intros H. cbn [decode_key_value]. destruct H as [H|(h & tail & H & Hk)].
  - apply header_none in H. rewrite H. reflexivity.
  - rewrite (header_some _ _ _ H). cbn [bind]. apply to_header_key in Hk. rewrite Hk. reflexivity.
Qed.
Lemma kv_keyed fuel t c d h tail : is_header t h tail -> hl_key h <> None -> exists key, ah_key (to_header h) = Some key /\
  decode_key_value (S fuel) t c d cx =
  (let? (evs, c) := decode_array_from_header fuel (to_header h) (inline_of tail) c d cx in Ok (EvKey key (ah_quoted (to_header h)) :: evs, c)).
Proof.
  intros H Hk. destruct (ah_key (to_header h)) as [key|] eqn:E; [|apply to_header_key in E; contradiction]. exists key. split; auto.
  cbn [decode_key_value]. rewrite (header_some _ _ _ H). cbn [bind]. rewrite E. reflexivity.
Qed.

(** An item that is an object. *)
Lemma item_kv fuel c line t d : peek c = Some line -> pl_content line = cMINUS :: cSPACE :: t -> ~ blank t ->
  (unquoted cCOLON t \/ exists h tail, is_header t h tail /\ hl_fields h <> None) ->
  (forall h tail, is_header t h tail -> hl_key h <> None) ->
  (exists e, bad_header t e /\ decode_list_item (S fuel) c d cx = Err e) \/
  (exists k, decode_list_item (S fuel) c d cx = (let? (e1, c1) := decode_key_value fuel t (advance c) (S d) cx in
     let? (e2, c2) := decode_follow fuel c1 (S d) cx in Ok (k e1 e2, c2))) \/
  (exists k, decode_list_item (S fuel) c d cx = (let? (e1, c1) := decode_key_value (S fuel) t (advance c) (S d) cx in
     let? (e2, c2) := decode_follow fuel c1 (S d) cx in Ok (k e1 e2, c2))).
Proof.
  intros Hp Ht Hnb Hor Hk. cbn [decode_list_item]. rewrite Hp, Ht. cbv zeta.
  change (str_eqb (cMINUS :: cSPACE :: t) LIST_ITEM_MARKER) with false. change (starts_with_str LIST_ITEM_PREFIX (cMINUS :: cSPACE :: t)) with true.
  cbn [negb skipn]. cbv iota. rewrite ReadLex.blank_trim in Hnb. apply is_empty_false in Hnb. rewrite Hnb.
  destruct (parse_array_header_line t DEFAULT_DELIMITER) as [h|e] eqn:E.
  2: { left. exists e. split; [now apply header_err|]. destruct (is_array_header_content t); reflexivity. }
  right. cbn [bind]. assert (E1 : (if is_array_header_content t then Ok h else Ok None) = @Ok (option (array_header * option str)) None).
  { destruct (is_array_header_content t) eqn:Ea; auto. destruct h as [[h iv]|]; auto. exfalso.
    apply header_some_inv in E as (hl & tail & Hh & _). apply array_content_spec in Ea as [Ea _]. apply (begins_key _ _ _ Hh) in Ea. now destruct (Hk _ _ Hh). }
  rewrite E1. cbn [bind]. destruct h as [[h iv]|].
  - apply header_some_inv in E as (hl & tail & Hh & -> & ->). pose proof (Hk _ _ Hh) as Hkk.
    destruct (kv_keyed fuel t (advance c) (S d) hl tail Hh Hkk) as (key & Ek & Ekv). rewrite Ek.
    destruct (ah_fields (to_header hl)) as [fs|] eqn:Ef.
    + right. exists (fun e1 e2 => EvStartObject :: e1 ++ e2 ++ [EvEndObject]). rewrite Ekv.
      destruct (decode_array_from_header fuel (to_header hl) (inline_of tail) (advance c) (S d) cx) as [[e1 c1]|]; cbn [bind]; reflexivity.
    + left. exists (fun e1 e2 => EvStartObject :: e1 ++ e2 ++ [EvEndObject]).
      assert (Eu : is_key_value_content t = true).
      { apply key_value_spec. destruct Hor as [Hor|(h' & tl' & Hh' & X)]; auto. destruct (is_header_fun _ _ _ _ _ Hh Hh') as [<- _].
        destruct hl as [k n dl [o|]]; [discriminate|now destruct X]. }
      rewrite Eu. reflexivity.
  - left. exists (fun e1 e2 => EvStartObject :: e1 ++ e2 ++ [EvEndObject]). apply header_none in E.
    assert (Eu : is_key_value_content t = true).
    { apply key_value_spec. destruct Hor as [Hor|(h' & tl' & Hh' & X)]; auto. now apply header_not_none in Hh'. }
    rewrite Eu. reflexivity.
Qed.

Lemma member_header d t ls m rest : member d t ls m rest -> forall e, ~ bad_header t e.
Proof.
  intros H e Hb. apply bad_header_not in Hb as [H1 H2].
  destruct H as [d t ls h tail k q v rest Hh|d t ls k q r l ls' ms rest Hp|d t ls k q r Hp|d t ls k q r p Hp];
    [exact (H2 _ _ Hh)|destruct Hp as [Hp|(h & tail & Hp & _)]; [contradiction|exact (H2 _ _ Hp)]..].
Qed.
Lemma member_fails_header d t ls e e' : member_fails d t ls e -> bad_header t e' -> e = e'.
Proof.
  intros H Hb. pose proof (bad_header_not _ _ Hb) as [H1 H2].
  assert (X : ~ plain t) by (intros [Hp|(h & tail & Hp & _)]; [contradiction|exact (H2 _ _ Hp)]).
  destruct H as [d t ls e Hx|d t ls h tail e Hh|d t ls e Hp|d t ls k q r e Hp|d t ls k q r l ls' e Hp]; try contradiction.
  - eapply bad_header_fun; eauto.
  - now destruct (H2 _ _ Hh).
Qed.

Lemma err_complete :
  (forall d t ls e, member_fails d t ls e -> forall c fuel, lines c = ls -> weak (decode_key_value fuel t c d cx) e) /\
  (forall stop d ls e, members_fail stop d ls e -> forall c fuel, lines c = ls ->
     if stop then weak (decode_follow fuel c d cx) e
     else forall base computed, base <= d -> (computed = Some d \/ computed = None /\ first_at c d) -> weak (decode_object_fields fuel c base computed cx) e) /\
  (forall d h tail ls e, array_fails d h tail ls e -> head_delim h -> forall c fuel, lines c = ls ->
     weak (decode_array_from_header fuel (to_header h) (inline_of tail) c d cx) e) /\
  (forall d n ls e, items_fail d n ls e -> forall c fuel len count range, lines c = ls -> n = (len - count)%N ->
     weak (decode_list_items fuel c d len count range cx) e) /\
  (forall d t ls e, item_fails d t ls e -> forall c line fuel, peek c = Some line -> lines (advance c) = ls -> pl_content line = t ->
     weak (decode_list_item fuel c d cx) e).
Proof.
  assert (Hinl : forall hl tail t, trims tail t -> t <> [] -> exists iv, inline_of tail = Some t /\ iv = t /\ trim t = t /\ forall c d fuel,
     decode_array_from_header (S fuel) (to_header hl) (inline_of tail) c d cx =
     let? primitives := map_row_values_to_primitives (parse_delimited_values t (hl_delimiter hl)) in
     let? _ := assert_expected_count CInline (N.of_nat (length primitives)) (hl_length hl) strict in
     Ok (EvStartArray (hl_length hl) :: map EvPrim primitives ++ [EvEndArray], c)).
  { intros hl tail t Ht Hn. exists t. apply trims_spec in Ht. assert (Ei : inline_of tail = Some t).
    { unfold inline_of. rewrite <- Ht. apply is_empty_false in Hn. now rewrite Hn. }
    destruct (inline_some _ _ Ei) as (_ & _ & Ett). repeat split; auto. intros c d fuel. cbn [decode_array_from_header]. rewrite Ei.
    unfold decode_inline_primitive_array. rewrite Ett. apply is_empty_false in Hn. rewrite Hn. cbv zeta.
    change (ah_delimiter (to_header hl)) with (hl_delimiter hl). change (ah_length (to_header hl)) with (hl_length hl).
    destruct (map_row_values_to_primitives _) as [ps|]; cbn [bind]; [|reflexivity]. destruct (assert_expected_count _ _ _ _); reflexivity. }
  assert (Htab : forall hl tail fs, blank tail -> hl_fields hl = Some fs -> fs <> [] -> forall c d fuel e,
     weak (decode_tabular_array (to_header hl) (map to_field fs) c d cx) e ->
     weak (decode_array_from_header (S fuel) (to_header hl) (inline_of tail) c d cx) e).
  { intros hl tail fs Hb Hf Hn c d fuel e H. apply inline_none in Hb. cbn [decode_array_from_header]. rewrite Hb.
    destruct hl as [k n dl o]. cbn in Hf. subst o. destruct fs as [|f fs]; [contradiction|]. cbn [to_header ah_fields hl_fields option_map map] in *.
    now apply weak_bind. }
  assert (Hlst : forall hl tail, blank tail -> (hl_fields hl = None \/ hl_fields hl = Some []) -> forall c d fuel e,
     weak (let? (evs, c, count, range) := decode_list_items fuel c (S d) (hl_length hl) 0 None cx in
           let? _ := assert_expected_count CItems count (hl_length hl) strict in
           let? _ := validate_blank_range CItems range (dc_blanks cx) strict in
           let? _ := validate_no_extra_list_items (peek c) (S d) (hl_length hl) strict in
           Ok (evs, c)) e ->
     weak (decode_array_from_header (S fuel) (to_header hl) (inline_of tail) c d cx) e).
  { intros hl tail Hb Hf c d fuel e H. apply inline_none in Hb. cbn [decode_array_from_header]. rewrite Hb.
    change (ah_length (to_header hl)) with (hl_length hl).
    destruct hl as [k n dl o]. cbn in Hf. destruct Hf as [-> | ->]; cbn [to_header ah_fields hl_fields option_map map] in *; now apply weak_bind. }
  apply fail_mutind.
  - intros d t ls e H c [|fuel] _; [now left|]. cbn [decode_key_value]. apply weak_bind. right. now apply header_err.
  - intros d t ls h tail e Hh Hk _ IH c [|fuel] Hc; [now left|]. destruct (kv_keyed fuel t c d h tail Hh Hk) as (key & _ & ->).
    apply weak_bind, IH; auto. eapply header_delim; eauto.
  - intros d t ls e Hp Hk c [|fuel] Hc; [now left|]. rewrite kv_plain by auto. apply weak_bind. right. apply key_err; auto. now apply plain_closed.
  - intros d t ls k q r e Hp Hk Hb c [|fuel] Hc; [now left|]. rewrite kv_plain by auto. apply key_complete in Hk as (p & Hk & Er). rewrite Hk. cbn [bind]. cbv zeta.
    rewrite Er. pose proof (fail_begins _ _ Hb) as Hn. rewrite ReadLex.blank_trim in Hn. apply is_empty_false in Hn. rewrite Hn.
    apply weak_bind. right. now apply prim_err_trim.
  - intros d t ls k q r l ls' e Hp Hk Hb -> Hd _ IH c [|fuel] Hc; [now left|]. rewrite kv_plain by auto. apply key_complete in Hk as (p & Hk & Er). rewrite Hk. cbn [bind]. cbv zeta.
    rewrite Er. apply ReadLex.blank_trim in Hb. rewrite Hb. cbn [is_empty]. destruct (lines_peek _ _ _ Hc) as (line & Hpk & <- & _). rewrite Hpk.
    replace (Nat.ltb d (pl_depth line)) with true by (symmetry; now apply Nat.ltb_lt). apply weak_bind. apply IH; auto.
    right. split; auto. exists line. auto.
  - intros stop d l ls e Hd Hh _ IH c fuel Hc. destruct (lines_peek _ _ _ Hc) as (line & Hp & <- & Ha). cbn in Hd, Hh, IH.
    destruct stop; [|intros base computed Hb Hcm]; (destruct fuel as [|fuel]; [now left|]).
    + cbn [decode_follow]. rewrite Hp, Hd, Nat.eqb_refl. rewrite (proj2 (hyphen_not _)) by tauto. cbn [negb andb]. apply weak_bind. now apply IH.
    + cbn [decode_object_fields]. rewrite Hp. destruct (Nat.ltb_spec (pl_depth line) base); [lia|]. cbv zeta.
      replace (unwrap_or computed (pl_depth line)) with d by (destruct Hcm as [->|[-> _]]; auto). rewrite Hd, Nat.eqb_refl. apply weak_bind. now apply IH.
  - intros stop d l ls m ls1 e Hd Hh Hm _ IH c fuel Hc. destruct (lines_peek _ _ _ Hc) as (line & Hp & <- & Ha). cbn in Hd, Hh, Hm.
    destruct stop; [|intros base computed Hb Hcm]; (destruct fuel as [|fuel]; [now left|]); destruct (kv_weakly _ _ _ _ _ _ fuel Hm Ha) as (evs & c' & Hw & Hc').
    + cbn [decode_follow]. rewrite Hp, Hd, Nat.eqb_refl. rewrite (proj2 (hyphen_not _)) by tauto. cbn [negb andb]. eapply weakly_bind; [exact Hw|].
      cbv beta iota. apply weak_bind. now apply IH.
    + cbn [decode_object_fields]. rewrite Hp. destruct (Nat.ltb_spec (pl_depth line) base); [lia|]. cbv zeta.
      replace (unwrap_or computed (pl_depth line)) with d by (destruct Hcm as [->|[-> _]]; auto). rewrite Hd, Nat.eqb_refl. eapply weakly_bind; [exact Hw|].
      cbv beta iota. apply weak_bind. apply IH; auto.
  - intros d h tail ls t e Ht Hn Hb Hd c [|fuel] Hc; [now left|]. destruct (Hinl h tail t Ht Hn) as (_ & _ & _ & _ & E). rewrite E. apply weak_bind. right.
    apply row_err; auto. now apply head_plain.
  - intros d h tail ls t ps Hs Ht Hn Hp Hl Hd c [|fuel] Hc; [now left|]. destruct (Hinl h tail t Ht Hn) as (_ & _ & _ & _ & E). rewrite E.
    apply prims_spec in Hp; [|now apply head_plain]. rewrite Hp. cbn [bind]. apply weak_bind. right. apply count_err. auto.
  - intros d h tail ls fs e Hb Hf Hn Hr Hd c [|fuel] Hc; [now left|]. apply (Htab _ _ fs); auto. unfold decode_tabular_array. apply weak_bind. right.
    eapply rows_err_complete; eauto. lia.
  - intros d h tail ls fs vs rest Hs Hb Hf Hn Hr Hl Hd c [|fuel] Hc; [now left|]. apply (Htab _ _ fs); auto. unfold decode_tabular_array.
    destruct (rows_complete cx h fs (S d) _ _ _ _ Hd Hr (cu_rest c) (cu_last c) 0%N None Hc) as (c' & rg & E & Hc'); [lia|]. rewrite E. cbn [bind].
    change (ah_length (to_header h)) with (hl_length h). rewrite N.add_0_l. apply weak_bind. right. apply count_err. auto.
  - intros d h tail ls fs vs used rest n Hs Hb Hf Hn Hr Hl Hu Hg Hd c [|fuel] Hc; [now left|]. apply (Htab _ _ fs); auto. unfold decode_tabular_array.
    destruct (rows_complete cx h fs (S d) _ _ _ _ Hd Hr (cu_rest c) (cu_last c) 0%N None Hc) as (c' & rg & E & Hc'); [lia|]. rewrite E. cbn [bind].
    pose proof (rows_over _ _ _ _ _ _ _ _ _ _ _ _ E) as (pre & Ho & ->).
    assert (Eu : map tl_of pre = used) by (apply (used_over c c' pre used rest); [destruct c; exact Ho|now rewrite Hc|exact Hc']).
    change (ah_length (to_header h)) with (hl_length h). rewrite N.add_0_l. rewrite (proj2 (count_spec _ _ _ _)) by auto. cbn [bind].
    apply weak_bind. right. apply gap_err. split; auto. exists n. rewrite Eu. auto.
  - intros d h tail ls fs vs used l rest Hs Hb Hf Hn Hr Hl Hu Hg Hdl Hh Hrow Hd c [|fuel] Hc; [now left|]. apply (Htab _ _ fs); auto. unfold decode_tabular_array.
    destruct (rows_complete cx h fs (S d) _ _ _ _ Hd Hr (cu_rest c) (cu_last c) 0%N None Hc) as (c' & rg & E & Hc'); [lia|]. rewrite E. cbn [bind].
    pose proof (rows_over _ _ _ _ _ _ _ _ _ _ _ _ E) as (pre & Ho & ->).
    assert (Eu : map tl_of pre = used) by (apply (used_over c c' pre used (l :: rest)); [destruct c; exact Ho|now rewrite Hc|exact Hc']).
    change (ah_length (to_header h)) with (hl_length h). change (ah_delimiter (to_header h)) with (hl_delimiter h). rewrite N.add_0_l. rewrite (proj2 (count_spec _ _ _ _)) by auto. cbn [bind].
    rewrite (proj2 (gap_spec _ _ _)) by (intros _; now rewrite Eu). cbn [bind]. apply weak_bind. right. apply extra_rows_err; [exact Hd|]. split; auto. split; auto.
    exists l, rest. auto.
  - intros d h tail ls e Hb Hf _ IH Hd c [|fuel] Hc; [now left|]. apply Hlst; auto. apply weak_bind. apply IH; auto. lia.
  - intros d h tail ls vs rest Hs Hb Hf Hr Hl Hd c [|fuel] Hc; [now left|]. apply Hlst; auto.
    destruct (items_weakly _ _ _ _ _ c fuel (hl_length h) 0%N None Hr Hc) as (evs & c' & rg & Hw & Hc' & _); [lia|]. eapply weakly_bind; [exact Hw|]. cbv beta iota.
    rewrite N.add_0_l. apply weak_bind. right. apply count_err. auto.
  - intros d h tail ls vs used rest n Hs Hb Hf Hr Hl Hu Hg Hd c [|fuel] Hc; [now left|]. apply Hlst; auto.
    destruct (items_weakly _ _ _ _ _ c fuel (hl_length h) 0%N None Hr Hc) as (evs & c' & rg & Hw & Hc' & Hi); [lia|]. eapply weakly_bind; [exact Hw|]. cbv beta iota.
    assert (Ho : exists pre, over c pre c' /\ rg = range_over None pre) by (destruct (dec_over cx) as (_ & _ & _ & X & _); eapply X; eauto).
    destruct Ho as (pre & Ho & ->). assert (Eu : map tl_of pre = used) by (apply (used_over c c' pre used rest); auto; now rewrite Hc).
    rewrite N.add_0_l. rewrite (proj2 (count_spec _ _ _ _)) by auto. cbn [bind]. apply weak_bind. right. apply gap_err. split; auto. exists n. rewrite Eu. auto.
  - intros d h tail ls vs used l rest Hs Hb Hf Hr Hl Hu Hg Hdl Hh Hd c [|fuel] Hc; [now left|]. apply Hlst; auto.
    destruct (items_weakly _ _ _ _ _ c fuel (hl_length h) 0%N None Hr Hc) as (evs & c' & rg & Hw & Hc' & Hi); [lia|]. eapply weakly_bind; [exact Hw|]. cbv beta iota.
    assert (Ho : exists pre, over c pre c' /\ rg = range_over None pre) by (destruct (dec_over cx) as (_ & _ & _ & X & _); eapply X; eauto).
    destruct Ho as (pre & Ho & ->). assert (Eu : map tl_of pre = used) by (apply (used_over c c' pre used (l :: rest)); auto; now rewrite Hc).
    rewrite N.add_0_l. rewrite (proj2 (count_spec _ _ _ _)) by auto. cbn [bind]. rewrite (proj2 (gap_spec _ _ _)) by (intros _; now rewrite Eu). cbn [bind].
    apply weak_bind. right. apply extra_items_err. split; auto. split; auto. exists l, rest. auto.
  - intros d n l ls e Hd Hi IH c [|fuel] len count range Hc HN; [now left|]. destruct (lines_peek _ _ _ Hc) as (line & Hp & <- & Ha). cbn in Hd, IH, Hi.
    cbn [decode_list_items]. rewrite Hp. destruct (N.leb_spec len count) as [L|L]; [lia|]. rewrite Hd, Nat.eqb_refl.
    rewrite (proj2 (list_item_spec _)) by (right; inversion Hi; subst; eexists; reflexivity). cbn [andb]. cbv zeta. apply weak_bind. now apply (IH c line).
  - intros d n l ls v ls1 e Hd Hi _ IH c [|fuel] len count range Hc HN; [now left|]. destruct (lines_peek _ _ _ Hc) as (line & Hp & <- & Ha). cbn in Hd, Hi.
    cbn [decode_list_items]. rewrite Hp. destruct (N.leb_spec len count) as [L|L]; [lia|]. rewrite Hd, Nat.eqb_refl.
    rewrite (proj2 (list_item_spec _)) by (inversion Hi; subst; auto; right; eexists; reflexivity). cbn [andb]. cbv zeta.
    destruct (item_weakly _ _ _ _ _ c line fuel Hi Hp Ha eq_refl) as (evs & c' & Hw & Hc'). eapply weakly_bind; [exact Hw|]. cbv beta iota. apply weak_bind. apply IH; auto. lia.
  - intros d t ls e Hnb Hb c line [|fuel] Hp Hc Ht; [now left|]. cbn [decode_list_item]. rewrite Hp, Ht. cbv zeta.
    change (str_eqb (cMINUS :: cSPACE :: t) LIST_ITEM_MARKER) with false. change (starts_with_str LIST_ITEM_PREFIX (cMINUS :: cSPACE :: t)) with true.
    cbn [negb skipn]. cbv iota. rewrite ReadLex.blank_trim in Hnb. apply is_empty_false in Hnb. rewrite Hnb. apply header_err in Hb. rewrite Hb.
    destruct (is_array_header_content t); now right.
  - intros d t ls h tail e Hb Hu Hh _ IH c line [|fuel] Hp Hc Ht; [now left|]. cbn [decode_list_item]. rewrite Hp, Ht. cbv zeta.
    change (str_eqb (cMINUS :: cSPACE :: t) LIST_ITEM_MARKER) with false. change (starts_with_str LIST_ITEM_PREFIX (cMINUS :: cSPACE :: t)) with true.
    cbn [negb skipn]. cbv iota. assert (Hnb : is_empty (trim t) = false).
    { apply is_empty_false. intros X. apply ReadLex.blank_trim in X. destruct Hb as (w & r & -> & _). apply Forall_app in X as [_ X]. inversion X. discriminate. }
    rewrite Hnb. rewrite (proj2 (array_content_spec t)) by auto. rewrite (header_some _ _ _ Hh). cbn [bind]. apply IH; auto. eapply header_delim; eauto.
  - intros d t ls e Hnb Hor Hk Hm IH c line [|fuel] Hp Hc Ht; [now left|].
    destruct (item_kv fuel c line t d Hp Ht Hnb Hor Hk) as [(e' & Hb & ->)|[(k & ->)|(k & ->)]].
    + right. f_equal. symmetry. eapply member_fails_header; eauto.
    + apply weak_bind. now apply IH.
    + apply weak_bind. now apply IH.
  - intros d t ls m ls1 e Hnb Hor Hk Hm _ IH c line [|fuel] Hp Hc Ht; [now left|].
    destruct (item_kv fuel c line t d Hp Ht Hnb Hor Hk) as [(e' & Hb & ->)|[(k & ->)|(k & ->)]].
    + exfalso. eapply member_header; eauto.
    + destruct (kv_weakly _ _ _ _ _ _ fuel Hm Hc) as (evs & c' & Hw & Hc'). eapply weakly_bind; [exact Hw|]. cbv beta iota. apply weak_bind. now apply IH.
    + destruct (kv_weakly _ _ _ _ _ _ (S fuel) Hm Hc) as (evs & c' & Hw & Hc'). eapply weakly_bind; [exact Hw|]. cbv beta iota. apply weak_bind. now apply IH.
  - intros d t ls e Hu Hnt Hb c line [|fuel] Hp Hc Ht; [now left|]. cbn [decode_list_item]. rewrite Hp, Ht. cbv zeta.
    change (str_eqb (cMINUS :: cSPACE :: t) LIST_ITEM_MARKER) with false. change (starts_with_str LIST_ITEM_PREFIX (cMINUS :: cSPACE :: t)) with true.
    cbn [negb skipn]. cbv iota. pose proof (fail_begins _ _ Hb) as Hnb. rewrite ReadLex.blank_trim in Hnb. apply is_empty_false in Hnb. rewrite Hnb.
    rewrite (proj2 (array_content_not t)) by tauto. cbn [bind]. apply key_value_not in Hu. rewrite Hu. apply prim_err in Hb.
    destruct Hnt as [Hnt|(h & tail & Hh & Hor)].
    + apply header_none in Hnt. rewrite Hnt. cbn [bind]. rewrite Hb. now right.
    + rewrite (header_some _ _ _ Hh). cbn [bind]. destruct Hor as [Hor|Hor].
      * apply to_header_key in Hor. rewrite Hor, Hb. now right.
      * destruct h as [hk n dl o]. cbn in Hor. subst o. cbn [to_header ah_fields hl_fields option_map]. destruct (ah_key _); rewrite Hb; now right.
Qed.

(** * The root *)

Notation root_fails := (root_fails parse_f64 strict blanks).

Lemma root_fields_err fuel : forall c e, decode_root_fields fuel c cx = Err e -> e = EFuel \/ members_fail false 0 (lines c) e.
Proof.
  induction fuel as [|fuel IH]; intros c e H; cbn [decode_root_fields] in H; [left; congruence|].
  destruct (peek c) as [line|] eqn:Ep; [|discriminate]. destruct (Nat.eqb_spec (pl_depth line) 0) as [E|E]; cbn [negb] in H; [|discriminate].
  rewrite (peek_lines _ _ Ep). assert (Hh : ~ (false = true /\ hyphen (tl_text (tl_of line)))) by (intros [? _]; discriminate).
  apply bind_err in H as [H|([e1 c1] & H1 & H)].
  { apply (proj1 (err_sound fuel)) in H as [H|H]; [now left|right]. apply msf_here; auto. }
  apply bind_err in H as [H|([e2 c2] & _ & H)]; [|discriminate].
  apply IH in H as [H|H]; [now left|right]. apply kv_reads in H1 as (m & Hm). eapply msf_later; eauto.
Qed.
Lemma root_fields_weak ls e : members_fail false 0 ls e -> forall c fuel, lines c = ls -> weak (decode_root_fields fuel c cx) e.
Proof.
  intros H. remember false as stop eqn:Es. remember 0 as d eqn:Ed in H. revert Es Ed.
  induction H as [stop d l ls e Hd Hh Hm|stop d l ls m ls1 e Hd Hh Hm Hms IH]; intros -> ->; intros c [|fuel] Hc; [now left| |now left|];
    destruct (lines_peek _ _ _ Hc) as (line & Hp & <- & Ha); cbn [tl_of tl_depth tl_text] in *; cbn [decode_root_fields]; rewrite Hp, Hd; cbn [Nat.eqb negb].
  - apply weak_bind. now apply (proj1 err_complete _ _ _ _ Hm).
  - destruct (kv_weakly _ _ _ _ _ _ fuel Hm Ha) as (evs & c' & Hw & Hc'). eapply weakly_bind; [exact Hw|]. cbv beta iota. apply weak_bind. now apply IH.
Qed.

Lemma root_err_sound ls e : decode_lines ls cx = Err e -> root_fails (map tl_of ls) e.
Proof.
  intros H0. pose proof (decode_lines_nofuel cx ls) as Hnf. rewrite H0 in Hnf. assert (Hf : e <> EFuel) by (intros ->; now apply Hnf).
  assert (H := H0). clear H0 Hnf. destruct ls as [|first rest]; [discriminate|]. unfold decode_lines in H. cbv zeta in H.
  set (fuel := dec_fuel (first :: rest)) in *. clearbody fuel. cbn [map].
  destruct (err_sound fuel) as (Hkv & _ & Harr & _).
  assert (Hrest : item_not_array (pl_content first) ->
    (if at_end (Cursor rest (Some first)) && negb (is_key_value_line (pl_content first)) then
       let? p := parse_primitive_token (trim (pl_content first)) in Ok ([EvPrim p], Cursor rest (Some first))
     else
       let? (e1, c1) := decode_key_value fuel (pl_content first) (Cursor rest (Some first)) 0 cx in
       let? (e2, c2) := decode_root_fields fuel c1 cx in
       Ok (EvStartObject :: e1 ++ e2 ++ [EvEndObject], c2)) = Err e -> root_fails (tl_of first :: map tl_of rest) e).
  { clear H. intros Hn H. apply not_array_spec in Hn.
    destruct (at_end (Cursor rest (Some first)) && negb (is_key_value_line (pl_content first))) eqn:Ee.
    - apply andb_prop in Ee as [E1 E2]. unfold at_end in E1. cbn [cu_rest] in E1. apply is_empty_true in E1. apply negb_true_iff in E2. subst rest.
      apply bind_err in H as [H|(p & _ & H)]; [|discriminate]. apply prim_err_trim in H. apply rtf_prim; auto. now apply colon_line_not.
    - assert (Hor : map tl_of rest <> [] \/ has_colon (tl_text (tl_of first))).
      { apply andb_false_iff in Ee as [Ee|Ee].
        - left. apply is_empty_false in Ee. cbn in Ee. destruct rest; [contradiction|discriminate].
        - right. apply colon_line_spec. now apply negb_false_iff. }
      apply bind_err in H as [H|([e1 c1] & H1 & H)].
      + apply Hkv in H as [H|H]; [contradiction|]. apply rtf_here; auto.
      + apply bind_err in H as [H|([e2 c2] & _ & H)]; [|discriminate]. apply root_fields_err in H as [H|H]; [contradiction|].
        apply kv_reads in H1 as (m & Hm). eapply rtf_later; eauto. }
  destruct (is_array_header_content (pl_content first)) eqn:Ea.
  - apply array_content_spec in Ea as Ea'. destruct Ea' as [Ea1 Ea2]. apply bind_err in H as [H|(h & Hh & H)].
    + apply header_err in H. apply rtf_header; auto.
    + destruct h as [[h iv]|].
      * apply header_some_inv in Hh as (hl & tail & Hh & -> & ->). apply Harr in H as [H|H]; [contradiction| |eapply header_delim; eauto].
        eapply rtf_array; eauto.
      * apply Hrest; auto. now right.
  - cbn [bind] in H. apply Hrest; auto. now left.
Qed.
Lemma root_err_complete ls e : root_fails (map tl_of ls) e -> decode_lines ls cx = Err e.
Proof.
  intros H. enough (W : weak (decode_lines ls cx) e) by (destruct W as [W|W]; [now apply decode_lines_nofuel in W|exact W]).
  destruct ls as [|first rest]; [inversion H|]. unfold decode_lines. cbv zeta. set (fuel := dec_fuel (first :: rest)). clearbody fuel.
  destruct err_complete as (Hkv & _ & Harr & _).
  assert (Hna : ~ (begins cLBRACK (pl_content first) /\ unquoted cCOLON (pl_content first)) \/ no_header (pl_content first) ->
    (if is_array_header_content (pl_content first) then parse_array_header_line (pl_content first) DEFAULT_DELIMITER else Ok None) = Ok None).
  { intros Hn. destruct (is_array_header_content (pl_content first)) eqn:Ea; auto. apply array_content_spec in Ea.
    destruct Hn as [Hn|Hn]; [contradiction|now apply header_none]. }
  remember (map tl_of (first :: rest)) as tls eqn:E. cbn [map] in E.
  destruct H as [l tls e Hb Hu Hh|l tls h tail e Hb Hu Hh Ha|l e Hn Hk Hp|l tls e Hn Hor Hm|l tls m ls1 e Hn Hor Hm Hms];
    injection E as -> E; cbn [tl_of tl_text] in *.
  - rewrite (proj2 (array_content_spec _)) by auto. apply weak_bind. right. now apply header_err.
  - rewrite (proj2 (array_content_spec _)) by auto. rewrite (header_some _ _ _ Hh). cbn [bind]. apply (Harr _ _ _ _ _ Ha); auto. eapply header_delim; eauto.
  - rewrite (Hna Hn). cbn [bind]. destruct rest; [|discriminate]. cbn [at_end cu_rest is_empty andb]. apply colon_line_not in Hk. rewrite Hk. cbn [negb].
    apply weak_bind. right. now apply prim_err_trim.
  - rewrite (Hna Hn). cbn [bind]. subst tls. replace (at_end _ && _) with false.
    2: { symmetry. apply andb_false_iff. destruct Hor as [Hor|Hor]; [left|right; apply negb_false_iff; now apply colon_line_spec].
         unfold at_end. cbn [cu_rest]. apply is_empty_false. intros ->. now apply Hor. }
    apply weak_bind. now apply (Hkv _ _ _ _ Hm).
  - rewrite (Hna Hn). cbn [bind]. subst tls. replace (at_end _ && _) with false.
    2: { symmetry. apply andb_false_iff. destruct Hor as [Hor|Hor]; [left|right; apply negb_false_iff; now apply colon_line_spec].
         unfold at_end. cbn [cu_rest]. apply is_empty_false. intros ->. now apply Hor. }
    destruct (kv_weakly _ _ _ _ _ (Cursor rest (Some first)) fuel Hm eq_refl) as (evs & c' & Hw & Hc'). eapply weakly_bind; [exact Hw|]. cbv beta iota.
    apply weak_bind. now apply (root_fields_weak ls1).
Qed.

End Failing.

(** * Indentation *)

Lemma line_err raw st size k t e : raw = repeat cSPACE k ++ t -> ~ blank t -> (forall r, t <> cSPACE :: r) -> forall strict,
  (parse_line_incremental raw st size strict = Err e <->
   strict = true /\ (((exists r, t = cTAB :: r) /\ e = ETabIndent (S (ss_line st))) \/
     ((forall r, t <> cTAB :: r) /\ ((size = 0 /\ k <> 0 /\ e = EIndentZero (S (ss_line st)) k) \/
        (size <> 0 /\ (forall m, k <> m * size) /\ e = EIndentMultiple (S (ss_line st)) size k))))).
Proof.
  intros -> Hb Hs strict. rewrite parse_line_eq. destruct (nonblank (repeat cSPACE k ++ t)) eqn:En.
  2: { apply nonblank_spec, blank_spaces in En. contradiction. }
  clear En. unfold scan_line, indent_error. rewrite count_spaces_at, skip_repeat by auto.
  pose proof (leading_tab k t Hs) as Ht. destruct strict; [|split; [discriminate|intros [? _]; discriminate]].
  destruct (contains cTAB _) eqn:Ec.
  - assert (X : exists r, t = cTAB :: r).
    { destruct t as [|x r]; [exfalso; apply Hb; constructor|].
      destruct (N.eq_dec x cTAB) as [->|Hx]; [eauto|]. assert (Y : true = false) by (apply Ht; congruence). discriminate. }
    split; [intros [= <-]; auto|]. intros (_ & [[_ ->]|[H _]]); [reflexivity|]. destruct X as [r X]. now destruct (H r).
  - pose proof (proj1 Ht eq_refl) as Hnt. destruct size as [|m].
    + destruct (Nat.ltb_spec 0 k) as [L|L].
      * split.
        -- intros [= <-]. split; auto. right. split; auto. left. split; auto. split; auto. lia.
        -- intros (_ & [[(r & ->) _]|[_ [(_ & _ & ->)|(H & _)]]]); [now destruct (Hnt r)|reflexivity|congruence].
      * split; [discriminate|]. intros (_ & [[(r & ->) _]|[_ [(_ & H & _)|(H & _)]]]); [now destruct (Hnt r)|lia|congruence].
    + set (size := S m) in *. assert (Hm : size <> 0) by (unfold size; lia).
      destruct (Nat.ltb 0 k && negb (Nat.eqb (Nat.modulo k size) 0)) eqn:Em.
      * apply andb_prop in Em as [L Em]. apply negb_true_iff, Nat.eqb_neq in Em. split.
        -- intros [= <-]. split; auto. right. split; auto. right. split; auto. split; auto. intros x ->. apply Em. now apply Nat.mod_mul.
        -- intros (_ & [[(r & ->) _]|[_ [(H & _)|(_ & _ & ->)]]]); [now destruct (Hnt r)|contradiction|reflexivity].
      * split; [discriminate|]. intros (_ & [[(r & ->) _]|[_ [(H & _)|(_ & H & _)]]]); [now destruct (Hnt r)|contradiction|].
        exfalso. apply andb_false_iff in Em as [Em|Em].
        -- apply Nat.ltb_ge in Em. apply (H 0). lia.
        -- apply negb_false_iff, Nat.eqb_eq in Em. apply (H (k / size)). pose proof (Nat.div_mod k size Hm). nia.
Qed.
Lemma indent_err size raws : forall n bl strict e, parse_lines_sync raws size strict (ScanState n bl) = Err e <->
  strict = true /\ indent_fails size (S n) raws e.
Proof.
  induction raws as [|raw raws IH]; intros n bl strict e; cbn [parse_lines_sync].
  - split; [discriminate|]. intros [_ H]. inversion H.
  - assert (Hinv : ~ blank raw -> forall k t, raw = repeat cSPACE k ++ t -> (forall r, t <> cSPACE :: r) -> forall k' t', raw = repeat cSPACE k' ++ t' ->
       (forall r, t' <> cSPACE :: r) -> k' = k /\ t' = t).
    { intros _ k t E Hs k' t' E' Hs'. assert (X : k' = k) by (rewrite <- (count_spaces_at k' t' Hs'), <- E', E; now apply count_spaces_at).
      split; auto. subst k'. rewrite E in E'. now apply app_inv_head in E'. }
    destruct (blank_dec raw) as [Hb|Hb].
    + destruct (line_blank raw (ScanState n bl) size strict Hb) as (i & d & E). rewrite E. cbn [bind ss_line ss_blanks]. split.
      * intros H. apply bind_err in H as [H|([ls st] & _ & H)]; [|discriminate]. apply IH in H as [-> H]. split; auto. now constructor.
      * intros [-> H]. assert (X : indent_fails size (S (S n)) raws e).
        { inversion H as [n0 r0 rs e0 _ X|n0 k t d0 rs e0 Ht _ _ _ _ E0|n0 k t rs Ht E0|n0 k t rs Ht _ _ _ _ E0|n0 k t rs Ht _ _ _ _ E0]; subst; auto;
            exfalso; rewrite blank_spaces in Hb; try contradiction. apply Ht. now inversion Hb. }
        rewrite (proj2 (IH _ _ true e)) by auto. reflexivity.
    + destruct (split_indent _ Hb) as (k & t & E & Ht & Hsp). pose proof (line_err raw (ScanState n bl) size k t) as Hle. cbn [ss_line] in Hle. split.
      * intros H. apply bind_err in H as [H|([p st] & H1 & H)].
        -- apply Hle in H as [-> [[(r & ->) ->]|[Hnt [(-> & Hk & ->)|(Hz & Hk & ->)]]]]; auto; (split; [reflexivity|]); subst raw.
           ++ apply inf_tab. intros X. apply Ht. now constructor.
           ++ now apply inf_zero.
           ++ now apply inf_multiple.
        -- apply bind_err in H as [H|([ls st'] & _ & H)]; [|discriminate]. destruct p as [l|].
           2: { subst raw. rewrite parse_line_eq in H1. destruct (nonblank (repeat cSPACE k ++ t)) eqn:En.
                - destruct (if strict then _ else _); discriminate.
                - apply nonblank_spec in En. contradiction. }
           apply (line_ok _ _ _ _ k t) in H1 as [(d & Hd & Htab & ->) ->]; auto. cbn [ss_line ss_blanks] in H. apply IH in H as [-> H]. split; auto.
           subst raw. eapply inf_line; eauto.
      * intros [-> H].
        remember (S n) as n0 eqn:En. remember (raw :: raws) as rr eqn:Er.
        destruct H as [n0 r0 rs e X _|n0 k' t' d0 rs e Ht' Hs' Hd Hnt Hrest|n0 k' t' rs Ht'|n0 k' t' rs Ht' Hs' Hnt Hz Hk|n0 k' t' rs Ht' Hs' Hnt Hz Hk];
          injection Er as E0 ->; subst n0; [now subst|..].
        -- destruct (Hinv Hb k t E Hsp k' t' (eq_sym E0) Hs') as [-> ->].
           assert (X : parse_line_incremental raw (ScanState n bl) size true = Ok (Some (PLine raw k t d0 (S n)), ScanState (S n) bl)).
           { apply (line_ok _ _ _ _ k t); auto. split; [|reflexivity]. exists d0. auto. }
           rewrite X. cbn [bind]. rewrite (proj2 (IH _ _ true e)) by auto. reflexivity.
        -- destruct (Hinv Hb k t E Hsp k' (cTAB :: t') (eq_sym E0)) as [-> Et]; [discriminate|]. erewrite (proj2 (Hle _ E Ht Hsp true)); [reflexivity|].
           split; auto. left. split; auto. exists t'. auto.
        -- destruct (Hinv Hb k t E Hsp k' t' (eq_sym E0) Hs') as [-> ->]. erewrite (proj2 (Hle _ E Ht Hsp true)); [reflexivity|]. split; [reflexivity|]. right. split; [exact Hnt|]. left. auto.
        -- destruct (Hinv Hb k t E Hsp k' t' (eq_sym E0) Hs') as [-> ->]. erewrite (proj2 (Hle _ E Ht Hsp true)); [reflexivity|]. split; [reflexivity|]. right. split; [exact Hnt|]. right. auto.
Qed.

(** * Whole texts *)

Lemma stream_err raws strict size e :
  decode_stream_sync raws (Some (DStreamOpts (Some size) (Some strict))) = Err e <-> lines_fail parse_f64 strict size raws e.
Proof.
  unfold decode_stream_sync, lines_fail. cbn [unwrap_or dso_indent dso_strict]. cbv zeta. unfold create_scan_state. split.
  - intros H. apply bind_err in H as [H|([ls st] & H1 & H)]; [left; now apply indent_err in H|].
    apply scans_sound in H1 as (bs & Hs & Eb). cbn in Eb. right. exists (map tl_of ls), bs. split; auto.
    apply bind_err in H as [H|([evs c] & _ & H)]; [|discriminate]. apply root_err_sound in H. cbn [dc_strict dc_blanks] in H. now rewrite Eb in H.
  - intros [H|(ls & bs & Hs & Hr)].
    + rewrite (proj2 (indent_err size raws 0 [] strict e)) by exact H. reflexivity.
    + destruct (scans_complete _ _ _ _ _ _ Hs 0 [] eq_refl) as (pls & st & E & <- & Eb). cbn in Eb. rewrite E. cbn [bind]. rewrite <- Eb in Hr.
      rewrite (root_err_complete (DCtx strict (ss_blanks st)) _ _ Hr). reflexivity.
Qed.
Lemma fails_split strict size text e : fails parse_f64 strict size text e <-> lines_fail parse_f64 strict size (split_on cLF text) e.
Proof.
  unfold fails. split.
  - intros (raws & Hn & -> & Hf & H). now rewrite split_join by auto.
  - intros H. exists (split_on cLF text). split; [apply split_on_not_nil|]. split; [now rewrite join_split|]. split; [apply split_on_pieces|auto].
Qed.
