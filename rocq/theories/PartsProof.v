(** For C70: texts of parts. *)
From Verif Require Import Chars Floats Json JsonInd Lex Spec Normalize JsonEq EncodeApi TextProof SpecText SpecParts FoldShort SizeProof PropsText.

Local Open Scope nat_scope.

Lemma normalize_table_inv l fields rows : table (map normalize_json_value l) fields rows -> exists rows', table l fields rows'.
Proof.
  intros (Hf & (first & r & E & Ef) & T). destruct l as [|v l]; [discriminate|]. cbn [map] in E. injection E as Ev El.
  destruct v as [| |es]; try discriminate. cbn in Ev. injection Ev as <-.
  assert (X : exists rows', Forall2 (table_row fields) (JObj es :: l) rows').
  { clear - T. generalize dependent rows. generalize (JObj es :: l) as m. induction m as [|v m IH]; intros rows T; inversion T as [|? cells ? rows2 R T2]; subst.
    - exists []. constructor.
    - destruct (IH _ T2) as (rs & F). destruct R as (fs & E & L & R). destruct v as [| |gs]; try discriminate. cbn in E. injection E as <-.
      rewrite map_length in L. assert (Y : exists cs, Forall2 (fun f p => first_member gs f (JPrim p)) fields cs).
      { clear - R. revert cells R. induction fields as [|f fields IH]; intros cells R; inversion R as [|? p ? ps (a & b & E & N) R2]; subst.
        - exists []. constructor.
        - destruct (IH _ R2) as (cs & C). apply map_eq_app in E as (g1 & g2 & -> & <- & E2). destruct g2 as [|[k x] g2]; [discriminate|].
          cbn in E2. injection E2 as <- Ex <-. destruct x as [q| |]; try discriminate. exists (q :: cs). constructor; [|exact C].
          exists g1, g2. split; [reflexivity|]. rewrite map_map in N. exact N. }
      destruct Y as (cs & C). exists (cs :: rs). constructor; [|exact F]. exists gs. auto. }
  destruct X as (rows' & F). exists rows'. split; [exact Hf|]. split; [|exact F]. exists es, l. split; [reflexivity|]. rewrite map_map in Ef. exact Ef.
Qed.
Lemma tabled_norm l : tabled (map normalize_json_value l) <-> tabled l.
Proof.
  split; intros (fields & rows & T).
  - apply normalize_table_inv in T as (r & T). now exists fields, r.
  - apply normalize_table in T as (r & T). now exists fields, r.
Qed.
Lemma tabled_dec l : tabled l \/ ~ tabled l.
Proof.
  destruct (Encoders.extract_tabular_header l) as [fields|] eqn:E.
  - left. apply table_spec in E as (rows & T). now exists fields, rows.
  - right. intros (fields & rows & T). exact (table_none l E fields rows T).
Qed.
Lemma prims_norm l : (forall ps, l <> map JPrim ps) -> forall ps, map normalize_json_value l <> map JPrim ps.
Proof.
  intros H ps E. assert (X : exists qs, l = map JPrim qs).
  { clear H. revert ps E. induction l as [|v l IH]; intros ps E; [now exists []|]. destruct ps as [|p ps]; [discriminate|]. cbn in E. injection E as Ev El.
    destruct (IH _ El) as (qs & ->). destruct v as [q| |]; try discriminate. now exists (q :: qs). }
  destruct X as (qs & ->). now apply (H qs).
Qed.
Lemma tabled_prims l ps : tabled l -> l <> map JPrim ps.
Proof. intros (fields & rows & T). eapply table_not_prims; eauto. Qed.

Section Text.
Variable indent : option nat.
Variable delimiter : option char.
Variable mode : option key_folding_mode.
Variable depth : option N.
Hypothesis Hmode : mode <> Some KFSafe.
Definition text (v : json) (ls : list str) : Prop := encode_lines 0 v (Some (EncOpts indent delimiter mode depth None)) = Ok ls.
Let dl := unwrap_or delimiter cCOMMA.
Let dp := unwrap_or depth 18446744073709551615%N.
Let ind := unwrap_or indent 2.
Let norm := normalize_json_value.
Notation document := (document f64_to_string dl false dp).
Notation value_of := (value_of f64_to_string dl false dp).
Notation members := (members f64_to_string dl false dp).
Notation array := (array f64_to_string dl false dp).
Notation items := (items f64_to_string dl false dp).
Notation item := (item f64_to_string dl false dp).
Notation block := (block text ind dl).

Lemma text_doc v ls : text v ls <-> exists doc, document (norm v) doc /\ ls = map (shown ind) doc.
Proof.
  unfold text. rewrite (C46_encoded_text v (norm v) indent delimiter mode depth ls (normalize_spec v)).
  replace (match mode with Some KFSafe => true | _ => false end) with false; [reflexivity|]. destruct mode as [[|]|]; congruence.
Qed.
Lemma text_exists v : exists ls, text v ls.
Proof. destruct (C46_one_text (norm v) dl false dp) as (doc & D & _). exists (map (shown ind) doc). apply text_doc. eauto. Qed.
Lemma text_unique v a b : text v a -> text v b -> a = b.
Proof. unfold text. congruence. Qed.

Lemma shown_deeper n ls : map (shown ind) (deeper n ls) = pushed (ind * n) (map (shown ind) ls).
Proof.
  unfold deeper, pushed. rewrite !map_map. apply map_ext. intros [d t]. unfold shown. cbn [fst snd].
  now rewrite Nat.mul_add_distr_l, repeat_app, app_assoc.
Qed.
Lemma shown_1 t : shown ind (1, t) = repeat cSPACE ind ++ t.
Proof. unfold shown. cbn [fst snd]. now rewrite Nat.mul_1_r. Qed.
Lemma shown_0 t : shown ind (0, t) = t.
Proof. unfold shown. cbn [fst snd]. now rewrite Nat.mul_0_r. Qed.

Lemma object_doc l doc : document (JObj l) doc <-> members (fresh dp) (map fst l) 0 l doc.
Proof.
  destruct (shifted f64_to_string dl dp 0) as (_ & _ & Ms & _).
  assert (D0 : forall ls, deeper 0 ls = ls) by (intros ls; unfold deeper; rewrite <- (map_id ls) at 2; apply map_ext; now intros [? ?]).
  split.
  - intros H. inversion H as [| |? dk ? _ M]; subst. apply Ms with (c' := fresh dp) (sibs' := map fst l) in M. now rewrite D0 in M.
  - intros M. assert (X : exists dk, forall k, In k dk <-> In k (map fst l) /\ In cDOT k).
    { exists (filter (fun k => existsb (N.eqb cDOT) k) (map fst l)). intros k. rewrite filter_In, existsb_exists. split; intros [A B]; (split; [exact A|]).
      - destruct B as (x & Hx & E). apply N.eqb_eq in E. now subst.
      - exists cDOT. now rewrite N.eqb_refl. }
    destruct X as (dk & X). apply do_obj with (dotted_keys := dk); [exact X|]. apply Ms with (c' := Place dk [] dp) (sibs' := map fst l) in M. now rewrite D0 in M.
Qed.

Lemma item_block v : exists a, item 1 (norm v) a /\ block v (map (shown ind) a).
Proof.
  destruct (shifted f64_to_string dl dp 1) as (_ & _ & _ & Ar1 & Is1 & _).
  destruct (shifted f64_to_string dl dp 2) as (_ & Vo2 & Ms2 & _).
  induction v as [p|l IH|l IH] using json_ind'.
  - destruct (C46_one_text (norm (JPrim p)) dl false dp) as (doc & D & _). cbn [norm normalize_json_value] in D. inversion D as [? t T| |]; subst.
    exists [(1, cMINUS :: cSPACE :: t)]. split; [now apply it_prim|]. cbn [map]. rewrite shown_1. apply bl_prim. apply text_doc. eexists. split; [exact D|].
    cbn [map]. now rewrite shown_0.
  - destruct (tabled_dec l) as [Tb|Tb].
    + assert (X : exists ls, items 1 (map norm l) ls /\ exists bs, Forall2 block l bs /\ map (shown ind) ls = concat bs).
      { clear Tb. induction IH as [|v l (a & Ia & Ba) _ (ls & Il & bs & Bl & E)].
        - exists []. split; [constructor|]. exists []. split; [constructor|reflexivity].
        - exists (a ++ ls). split; [now constructor|]. exists (map (shown ind) a :: bs). split; [now constructor|]. cbn [concat]. now rewrite map_app, E. }
      destruct X as (ls & Il & bs & Bl & E).
      set (h := EncPrim.format_header (length (map norm l)) None None dl). assert (Hh : header dl None (length (map norm l)) None h) by now apply header_spec.
      exists ((1, cMINUS :: cSPACE :: h) :: deeper 1 ls). split.
      * cbn [norm normalize_json_value]. apply it_arr. apply ar_list; [|discriminate|exact Hh|apply (Is1 _ _ _ Il)].
        intros ps. apply prims_norm. intros qs. now apply tabled_prims.
      * cbn [map]. rewrite shown_1, shown_deeper, E, Nat.mul_1_r. apply bl_table; [exact Tb| |exact Bl]. now rewrite map_length in Hh.
    + destruct (C46_one_text (norm (JArr l)) dl false dp) as (doc & D & _). cbn [norm normalize_json_value] in D. inversion D as [|? ? A|]; subst.
      assert (A' : array false None 0 (map norm l) doc).
      { inversion A as [|? ? ? p ps h r|? ? ? fields rows ? ? T|? ? ? ? h ls N1 N2]; subst; [now constructor|now constructor| |].
        - exfalso. apply Tb, tabled_norm. now exists fields, rows.
        - apply ar_list; auto; discriminate. }
      destruct (Ar1 _ _ _ _ _ A') as (kt & t & ls & -> & -> & H). specialize (H None [] eq_refl). cbn [app] in *.
      exists ((1, cMINUS :: cSPACE :: t) :: deeper 1 ls). split; [cbn [norm normalize_json_value]; now apply it_arr|].
      cbn [map]. rewrite shown_1, shown_deeper, Nat.mul_1_r. apply bl_arr; [exact Tb|]. apply text_doc. eexists. split; [exact D|]. cbn [map]. now rewrite shown_0.
  - destruct l as [|[k v] l].
    + exists [(1, [cMINUS])]. split; [apply it_none|]. cbn [map]. rewrite shown_1. apply bl_none.
    + destruct (C46_one_text (norm (JObj ((k, v) :: l))) dl false dp) as (doc & D & _). cbn [norm normalize_json_value map fst snd] in D.
      pose proof D as D'. apply object_doc in D'. inversion D' as [|? ? ? ? ? a b M Ms]; subst. inversion M as [? ? ? ? ? ? ? ? F|? ? ? ? ? ? _ V]; subst; [now apply no_folds in F|].
      destruct (Vo2 _ _ _ _ _ V) as (kt & t & ls & K & -> & H). specialize (H (fresh dp) k kt K). cbn [Nat.add] in H.
      exists ((1, cMINUS :: cSPACE :: kt ++ t) :: deeper 2 ls ++ deeper 2 b). split.
      * cbn [norm normalize_json_value map fst snd]. apply it_obj; [exact H|]. exact (Ms2 _ _ _ _ _ Ms (fresh dp) _).
      * cbn [map]. rewrite shown_1, map_app, !shown_deeper. unfold pushed. rewrite <- map_app. apply bl_obj. apply text_doc. eexists. split; [exact D|].
        cbn [map app]. now rewrite shown_0, map_app.
Qed.

Lemma block_unique v : forall a b, block v a -> block v b -> a = b.
Proof.
  induction v as [p|l IH|l IH] using json_ind'; intros a b A B.
  - inversion A as [? ? T| | | |]; inversion B as [? ? T'| | | |]; subst. pose proof (text_unique _ _ _ T T') as E. now injection E as ->.
  - inversion A as [| | |? f r N T|? h bs N H F]; inversion B as [| | |? f' r' N' T'|? h' bs' N' H' F']; subst; try contradiction.
    + pose proof (text_unique _ _ _ T T') as E. now injection E as -> ->.
    + apply header_spec in H, H'. subst. f_equal. f_equal. f_equal. clear - IH F F'. revert bs' F'. induction F as [|v bl l bs A F IHF]; intros bs' F'; inversion F' as [|? c ? cs B F2]; subst; [reflexivity|].
      inversion IH as [|? ? Hv Hl]; subst. f_equal; [now apply Hv|now apply IHF].
  - inversion A as [|A1|? ? ? ? T| |]; inversion B as [|B1|? ? ? ? T'| |]; subst; try discriminate; [reflexivity|].
    match goal with H : _ :: _ = _ :: _ |- _ => injection H as -> -> end. pose proof (text_unique _ _ _ T T') as E. now injection E as -> ->.
Qed.

(** ** The parts *)
Lemma members_app c sibs d l m la lb : members c sibs d l la -> members c sibs d m lb -> members c sibs d (l ++ m) (la ++ lb).
Proof.
  intros A B. revert la A. induction l as [|x l IH]; intros la A; inversion A as [|? ? ? ? ? y z M M2]; subst; [exact B|].
  rewrite <- app_assoc. cbn [app]. constructor; [exact M|]. now apply IH.
Qed.
Lemma members_one c sibs d k v ls : value_of (Place (pl_literals c) (pl_path c ++ [k]) (pl_budget c)) d k v ls -> members c sibs d [(k, v)] ls.
Proof. intros V. rewrite <- (app_nil_r ls). constructor; [|constructor]. apply me_plain; [intros; apply no_folds|exact V]. Qed.
Lemma parts_members a b la lb : text (JObj a) la -> text (JObj b) lb -> text (JObj (a ++ b)) (la ++ lb).
Proof.
  rewrite !text_doc. intros (da & Da & ->) (db & Db & ->). exists (da ++ db). split; [|now rewrite map_app].
  cbn [norm normalize_json_value] in *. rewrite map_app. apply object_doc in Da, Db. apply object_doc.
  destruct (shifted f64_to_string dl dp 0) as (_ & _ & Ms & _).
  assert (D0 : forall ls, deeper 0 ls = ls) by (intros ls; unfold deeper; rewrite <- (map_id ls) at 2; apply map_ext; now intros [? ?]).
  match goal with |- members _ ?s _ _ _ => apply Ms with (c' := fresh dp) (sibs' := s) in Da, Db end. rewrite D0 in Da, Db. cbn [Nat.add] in *.
  eapply members_app; eauto.
Qed.
Lemma parts_nested k kt l ls : key_text k kt -> text (JObj l) ls -> text (JObj [(k, JObj l)]) ((kt ++ [cCOLON]) :: pushed ind ls).
Proof.
  rewrite !text_doc. intros K (doc & D & ->). cbn [norm normalize_json_value map fst snd] in *. apply object_doc in D.
  exists ((0, kt ++ [cCOLON]) :: deeper 1 doc). split; [|cbn [map]; now rewrite shown_0, shown_deeper, Nat.mul_1_r].
  destruct (shifted f64_to_string dl dp 1) as (_ & _ & Ms & _).
  apply object_doc. apply members_one. apply vo_obj; [exact K|]. exact (Ms _ _ _ _ _ D _ _).
Qed.
Lemma parts_array k kt l ls : key_text k kt -> text (JArr l) ls ->
  exists first rest, ls = first :: rest /\ text (JObj [(k, JArr l)]) ((kt ++ first) :: rest).
Proof.
  intros K. rewrite text_doc. intros (doc & D & ->). cbn [norm normalize_json_value map fst snd] in *. inversion D as [|? ? A|]; subst.
  destruct (shifted f64_to_string dl dp 0) as (_ & _ & _ & Ar & _).
  assert (D0 : forall ls, deeper 0 ls = ls) by (intros ls; unfold deeper; rewrite <- (map_id ls) at 2; apply map_ext; now intros [? ?]).
  destruct (Ar _ _ _ _ _ A) as (k0 & t & ls & -> & -> & H). specialize (H (Some k) kt K). rewrite D0 in H. cbn [Nat.add app] in *.
  exists t, (map (shown ind) ls). split; [cbn [map]; now rewrite shown_0|]. apply text_doc. exists ((0, kt ++ t) :: ls). split; [|cbn [map]; now rewrite shown_0].
  cbn [norm normalize_json_value map fst snd]. apply object_doc. apply members_one. now apply vo_arr.
Qed.
Lemma parts_prim k kt p ls : key_text k kt -> text (JPrim p) ls -> exists t, ls = [t] /\ text (JObj [(k, JPrim p)]) [kt ++ cCOLON :: cSPACE :: t].
Proof.
  intros K. rewrite text_doc. intros (doc & D & ->). cbn [norm normalize_json_value] in D. inversion D as [? t T| |]; subst. exists t. split; [cbn [map]; now rewrite shown_0|].
  apply text_doc. exists [(0, kt ++ cCOLON :: cSPACE :: t)]. split; [|cbn [map]; now rewrite shown_0]. cbn [norm normalize_json_value map fst snd].
  apply object_doc. apply members_one. now apply vo_prim.
Qed.
Lemma blocks_exist l : exists ls bs, items 1 (map norm l) ls /\ Forall2 block l bs /\ map (shown ind) ls = concat bs.
Proof.
  induction l as [|v l (ls & bs & Il & Bl & E)].
  - exists [], []. repeat split; constructor.
  - destruct (item_block v) as (a & Ia & Ba). exists (a ++ ls), (map (shown ind) a :: bs). split; [now constructor|]. split; [now constructor|].
    cbn [concat]. now rewrite map_app, E.
Qed.
Lemma blocks_unique l a : Forall2 block l a -> forall b, Forall2 block l b -> a = b.
Proof.
  induction 1 as [|v x l a X _ IH]; intros b B; inversion B as [|? y ? b' Y B2]; subst; [reflexivity|]. f_equal; [eapply block_unique; eauto|now apply IH].
Qed.
Lemma parts_items l ls : (forall ps, l <> map JPrim ps) -> ~ tabled l ->
  (text (JArr l) ls <-> exists h bs, header dl None (length l) None h /\ Forall2 block l bs /\ ls = h :: concat bs).
Proof.
  intros N1 N2. destruct (blocks_exist l) as (is & bs & Il & Bl & E).
  set (h := EncPrim.format_header (length l) None None dl). assert (Hh : header dl None (length l) None h) by now apply header_spec.
  assert (T : text (JArr l) (h :: concat bs)).
  { apply text_doc. exists ((0, h) :: is). split; [|cbn [map]; now rewrite shown_0, E]. cbn [norm normalize_json_value]. apply do_arr. apply ar_list.
    - now apply prims_norm.
    - intros _ fields rows T. apply N2, tabled_norm. now exists fields, rows.
    - now rewrite map_length.
    - exact Il. }
  split.
  - intros X. rewrite (text_unique _ _ _ X T). eauto.
  - intros (h' & bs' & H' & B' & ->). apply header_spec in H'. subst h'. rewrite (blocks_unique _ _ B' _ Bl). exact T.
Qed.
Lemma parts_rows a b fields ra rb ha la hb lb h : table a fields ra -> table b fields rb ->
  text (JArr a) (ha :: la) -> text (JArr b) (hb :: lb) -> header dl None (length (a ++ b)) (Some fields) h ->
  text (JArr (a ++ b)) (h :: la ++ lb).
Proof.
  intros Ta Tb. rewrite !text_doc. intros (da & Da & Ea) (db & Db & Eb) Hh. cbn [norm normalize_json_value] in *.
  apply normalize_table in Ta as (ra' & Ta), Tb as (rb' & Tb).
  assert (X : forall l rows doc, table l fields rows -> array true None 0 l doc -> exists h ts, doc = (0, h) :: map (fun t => (1, t)) ts /\ Forall2 (row f64_to_string dl) rows ts).
  { intros l rows doc T A. inversion A as [|? ? ? p ps|? ? ? f' r' h' ts T'|? ? ? ? ? ? _ N]; subst.
    - destruct T as (_ & (? & ? & E & _) & _). discriminate.
    - exfalso. now apply (table_not_prims _ _ _ (p :: ps) T).
    - destruct (table_fun _ _ _ _ _ T T') as [-> ->]. eauto.
    - exfalso. now apply (N eq_refl fields rows). }
  inversion Da as [|? ? Aa|]; subst. inversion Db as [|? ? Ab|]; subst.
  destruct (X _ _ _ Ta Aa) as (h1 & t1 & -> & R1), (X _ _ _ Tb Ab) as (h2 & t2 & -> & R2). cbn [map] in Ea, Eb. injection Ea as _ ->. injection Eb as _ ->.
  exists ((0, h) :: map (fun t => (1, t)) (t1 ++ t2)). split; [|cbn [map]; now rewrite shown_0, !map_app]. rewrite map_app. apply do_arr.
  assert (T : table (map norm a ++ map norm b) fields (ra' ++ rb')).
  { destruct Ta as (Hf & (f1 & r1 & E1 & K1) & F1), Tb as (_ & _ & F2). split; [exact Hf|]. split; [|now apply Forall2_app]. unfold norm. rewrite E1. now exists f1, (r1 ++ map norm b). }
  eapply ar_table; [exact T| |now apply Forall2_app]. rewrite <- map_app, map_length. exact Hh.
Qed.
End Text.
