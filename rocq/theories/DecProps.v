(** Properties of every successful decode, by induction on the success relation. *)
From Verif Require Import Chars Floats Json Shared Scanner Parser DecValidation Decoders Lex Spec
  DecRel EventBuilder.

Local Open Scope nat_scope.

(** * Event grammar: C18, C20, C21 *)

Lemma items_app P e1 l1 e2 l2 :
  describes_items P e1 l1 -> describes_items P e2 l2 -> describes_items P (e1 ++ e2) (l1 ++ l2).
Proof.
  induction 1; intros H2; cbn [app]; auto. rewrite <- app_assoc. constructor; auto.
Qed.
Lemma entries_app P e1 l1 e2 l2 :
  describes_entries P e1 l1 -> describes_entries P e2 l2 -> describes_entries P (e1 ++ e2) (l1 ++ l2).
Proof.
  induction 1; intros H2; cbn [app]; auto. rewrite <- app_assoc. constructor; auto.
Qed.
Lemma items_one P e v : describes P e v -> describes_items P e [v].
Proof. intros H. rewrite <- (app_nil_r e). constructor; auto. constructor. Qed.
Lemma entries_one P k q e v : describes P e v -> describes_entries P (EvKey k q :: e) [(k, v)].
Proof. intros H. rewrite <- (app_nil_r e). constructor; auto. constructor. Qed.

Lemma items_prims P ps : describes_items P (map EvPrim ps) (map JPrim ps).
Proof.
  induction ps as [|p ps IH]; cbn [map]; [constructor|].
  change (EvPrim p :: map EvPrim ps) with ([EvPrim p] ++ map EvPrim ps). constructor; auto. constructor.
Qed.

(** The row object: one entry per field, missing cells null, surplus cells dropped. *)
Fixpoint row_entries (fields : list field_name) (cells : list prim) : list (str * json) :=
  match fields with
  | [] => []
  | f :: fs => (fn_name f, JPrim (match cells with p :: _ => p | [] => PNull end))
               :: row_entries fs (tl cells)
  end.

Lemma entries_row P fields : forall cells,
  describes_entries P (field_events fields cells) (row_entries fields cells).
Proof.
  induction fields as [|f fs IH]; intros cells; cbn [field_events row_entries]; [constructor|].
  match goal with |- describes_entries P (?k :: EvPrim ?p :: ?r) _ =>
    change (k :: EvPrim p :: r) with (k :: [EvPrim p] ++ r) end.
  constructor; auto. constructor.
Qed.

Lemma row_describes P fields cells :
  describes P (yield_object_from_fields fields cells) (JObj (row_entries fields cells)).
Proof. constructor. apply entries_row. Qed.

Definition lenok (strict : bool) (n : N) (k : nat) : Prop :=
  (n <= 100000000)%N /\ (strict = true -> n = N.of_nat k).

Lemma count_ok w a b s : assert_expected_count w a b s = Ok tt -> s = true -> a = b.
Proof.
  unfold assert_expected_count. intros H ->. cbn [andb] in H.
  destruct (N.eqb_spec a b); [auto|]. discriminate.
Qed.

Lemma inline_spec h iv cx evs : decode_inline_primitive_array h iv cx = Ok evs ->
  exists ps, evs = map EvPrim ps /\ (dc_strict cx = true -> ah_length h = N.of_nat (length ps)).
Proof.
  unfold decode_inline_primitive_array. destruct (is_empty (trim iv)).
  - intros H. inv_bind H. injection H as <-. destruct a. exists []. split; auto.
    intros Hs. symmetry. eapply count_ok; eauto.
  - intros H. cbv zeta in H. inv_bind H. injection H as <-. destruct a0. exists a. split; auto.
    intros Hs. symmetry. eapply count_ok; eauto.
Qed.

Lemma decode_rows_spec rest : forall last rd h fields cx count range evs c n rg,
  decode_rows rest last rd h fields cx count range = Ok (evs, c, n, rg) ->
  exists rows : list (parsed_line * list prim),
    rest = map fst rows ++ cu_rest c /\
    evs = flat_map (fun r => yield_object_from_fields fields (snd r)) rows /\
    n = (count + N.of_nat (length rows))%N /\
    Forall (fun r => pl_depth (fst r) = rd /\
      map_row_values_to_primitives (parse_delimited_values (pl_content (fst r)) (ah_delimiter h))
        = Ok (snd r) /\
      (dc_strict cx = true ->
       length (parse_delimited_values (pl_content (fst r)) (ah_delimiter h)) = length fields)) rows.
Proof.
  induction rest as [|line r IH]; intros last rd h fields cx count range evs c n rg H;
    cbn [decode_rows] in H.
  - injection H as <- <- <- <-. exists []. cbn. repeat split; auto; lia.
  - assert (Hend : Ok ([], Cursor (line :: r) last, count, range) = Ok (evs, c, n, rg) ->
      exists rows : list (parsed_line * list prim),
        line :: r = map fst rows ++ cu_rest c /\
        evs = flat_map (fun r => yield_object_from_fields fields (snd r)) rows /\
        n = (count + N.of_nat (length rows))%N /\
        Forall (fun r => pl_depth (fst r) = rd /\
          map_row_values_to_primitives (parse_delimited_values (pl_content (fst r)) (ah_delimiter h))
            = Ok (snd r) /\
          (dc_strict cx = true ->
           length (parse_delimited_values (pl_content (fst r)) (ah_delimiter h)) = length fields)) rows).
    { intros H'. injection H' as <- <- <- <-. exists []. cbn. repeat split; auto; lia. }
    destruct (ah_length h <=? count)%N; auto.
    destruct (Nat.eqb_spec (pl_depth line) rd); auto. clear Hend.
    cbv zeta in H. inv_bind H. injection H as <- <- <- <-.
    apply IH in E1 as (rows & -> & -> & -> & HF). exists ((line, a0) :: rows). cbn.
    repeat split; auto; try lia. constructor; auto. cbn. repeat split; auto.
    intros Hs. destruct a. apply count_ok in E; auto. lia.
Qed.

Lemma decode_tabular_spec h fields c d cx evs c' :
  decode_tabular_array h fields c d cx = Ok (evs, c') ->
  exists rows : list (parsed_line * list prim),
    cu_rest c = map fst rows ++ cu_rest c' /\
    evs = flat_map (fun r => yield_object_from_fields fields (snd r)) rows /\
    (dc_strict cx = true -> ah_length h = N.of_nat (length rows)) /\
    Forall (fun r => pl_depth (fst r) = S d /\
      map_row_values_to_primitives (parse_delimited_values (pl_content (fst r)) (ah_delimiter h))
        = Ok (snd r) /\
      (dc_strict cx = true ->
       length (parse_delimited_values (pl_content (fst r)) (ah_delimiter h)) = length fields)) rows.
Proof.
  unfold decode_tabular_array. intros H. inv_bind H. injection H as <- <-.
  apply decode_rows_spec in E as (rows & Ea & Eb & Ec & HF). exists rows. repeat split; auto.
  intros Hs. destruct a. apply count_ok in E0; auto. lia.
Qed.

Lemma items_rows P fields rows :
  describes_items P (flat_map (fun r : parsed_line * list prim => yield_object_from_fields fields (snd r)) rows)
    (map (fun r => JObj (row_entries fields (snd r))) rows).
Proof.
  induction rows as [|r rows IH]; cbn [flat_map map]; [constructor|]. constructor; auto.
  apply row_describes.
Qed.

(** A header that parses declares at most 100000000 items. *)
Lemma header_cap s d h iv : parse_array_header_line s d = Ok (Some (h, iv)) ->
  (ah_length h <= 100000000)%N.
Proof.
  unfold parse_array_header_line. intros H.
  repeat match type of H with
  | bind ?r _ = Ok _ => destruct r eqn:?; cbn [bind] in H; [|discriminate]
  | match ?x with _ => _ end = Ok _ => destruct x eqn:?; try discriminate
  end.
  injection H as <- <-. cbn [ah_length].
  match goal with E : (MAX_DECLARED_ARRAY_LENGTH <? _)%N = false |- _ => unfold MAX_DECLARED_ARRAY_LENGTH in E end.
  lia.
Qed.

Definition hcap (h : array_header) : Prop := (ah_length h <= 100000000)%N.

Lemma dec_grammar cx :
  let P := lenok (dc_strict cx) in
  (forall content c d evs c', kv_rel cx content c d evs c' -> exists es, describes_entries P evs es) /\
  (forall c base computed evs c', of_rel cx c base computed evs c' -> exists es, describes_entries P evs es) /\
  (forall h iv c d evs c', arr_rel cx h iv c d evs c' -> hcap h -> exists v, describes P evs v) /\
  (forall c depth len count range evs c' n rg,
     items_rel cx c depth len count range evs c' n rg ->
     exists l, describes_items P evs l /\ n = (count + N.of_nat (length l))%N) /\
  (forall line c d evs c', item_rel cx line c d evs c' -> exists v, describes P evs v) /\
  (forall c d evs c', follow_rel cx c d evs c' -> exists es, describes_entries P evs es).
Proof.
  intros P. apply dec_mutind.
  - intros content c d h iv key evs c' Hh Hk _ IH. apply header_cap in Hh.
    destruct (IH Hh) as [v Hv]. eexists. apply entries_one. eauto.
  - intros content c d key e q evs c' _ _ _ _ _ [es IH]. eexists.
    apply entries_one. constructor. eauto.
  - intros content c d key e q _ _ _ _. eexists.
    apply entries_one. apply (de_obj P []). constructor.
  - intros. eexists. apply entries_one. constructor.
  - intros. exists []. constructor.
  - intros c base computed line e1 c1 e2 c2 _ _ _ _ [l1 H1] _ [l2 H2]. eexists. apply entries_app; eauto.
  - intros h iv c d evs H Hc. apply inline_spec in H as (ps & -> & Hs). exists (JArr (map JPrim ps)).
    constructor; [apply items_prims|]. split; auto. now rewrite map_length.
  - intros h f fs c d evs c' Hf H Hc. apply decode_tabular_spec in H as (rows & _ & -> & Hs & _).
    eexists. constructor; [apply items_rows|]. split; auto. now rewrite map_length.
  - intros h c d evs c' count range Hf _ (l & Hl & ->) H1 _ _ Hc. exists (JArr l). constructor; auto.
    split; auto. intros Hs. symmetry. exact (count_ok _ _ _ _ H1 Hs).
  - intros. exists []. cbn. split; [constructor|lia].
  - intros c depth len count range line e1 c1 e2 c2 n rg _ _ _ _ _ [v Hv] _ (l & Hl & ->).
    exists (v :: l). split; [constructor; auto|]. cbn [length]. lia.
  - intros. exists (JObj []). apply (de_obj P []). constructor.
  - intros line c d h iv evs c' _ _ _ Hh _ IH. apply header_cap in Hh. auto.
  - intros line c d h iv key fs e1 c1 e2 c2 _ _ _ Hh _ _ _ IH1 _ [l2 H2]. apply header_cap in Hh.
    destruct (IH1 Hh) as [v Hv]. eexists (JObj ((key, v) :: l2)).
    replace (EvStartObject :: EvKey key (ah_quoted h) :: e1 ++ e2 ++ [EvEndObject])
      with (EvStartObject :: (EvKey key (ah_quoted h) :: e1 ++ e2) ++ [EvEndObject])
      by (cbn [app]; now rewrite <- app_assoc).
    constructor. constructor; auto.
  - intros line c d e1 c1 e2 c2 _ _ _ _ _ _ [l1 H1] _ [l2 H2]. exists (JObj (l1 ++ l2)).
    rewrite app_assoc. constructor. now apply entries_app.
  - intros. eexists. constructor.
  - intros. exists []. constructor.
  - intros c d line e1 c1 e2 c2 _ _ _ _ [l1 H1] _ [l2 H2]. eexists. apply entries_app; eauto.
Qed.

Lemma root_fields_grammar cx c evs c' : root_fields_rel cx c evs c' ->
  exists es, describes_entries (lenok (dc_strict cx)) evs es.
Proof.
  induction 1 as [c Hs|c line e1 c1 e2 c2 Hp Hd Hkv Hrf [l2 H2]].
  - exists []. constructor.
  - apply dec_grammar in Hkv as [l1 H1]. eexists. apply entries_app; eauto.
Qed.

Lemma lines_grammar cx lines evs c' : lines_rel cx lines evs c' ->
  exists v, describes (lenok (dc_strict cx)) evs v.
Proof.
  intros [|first rest h iv ? ? Hh Hp Ha|first p Hn Hk Hp|first rest e1 c1 e2 c2 Hn Hor Hkv Hrf].
  - exists (JObj []). apply (de_obj _ []). constructor.
  - apply dec_grammar in Ha; auto. apply header_cap in Hp. exact Hp.
  - eexists. constructor.
  - apply dec_grammar in Hkv as [l1 H1]. apply root_fields_grammar in Hrf as [l2 H2].
    exists (JObj (l1 ++ l2)). rewrite app_assoc. constructor. now apply entries_app.
Qed.

Lemma stream_lines source opts evs : decode_stream_sync source opts = Ok evs ->
  exists lines st c,
    parse_lines_sync source (unwrap_or (dso_indent (unwrap_or opts (DStreamOpts None None))) 2)
      (unwrap_or (dso_strict (unwrap_or opts (DStreamOpts None None))) true) create_scan_state
      = Ok (lines, st) /\
    lines_rel (DCtx (unwrap_or (dso_strict (unwrap_or opts (DStreamOpts None None))) true) (ss_blanks st))
      lines evs c.
Proof.
  unfold decode_stream_sync. cbv zeta. intros H. inv_bind H. injection H as <-.
  eexists _, _, _. split; [reflexivity|]. apply decode_lines_exact. eassumption.
Qed.

Lemma lines_stream source opts lines st evs c :
    parse_lines_sync source (unwrap_or (dso_indent (unwrap_or opts (DStreamOpts None None))) 2)
      (unwrap_or (dso_strict (unwrap_or opts (DStreamOpts None None))) true) create_scan_state
      = Ok (lines, st) ->
    lines_rel (DCtx (unwrap_or (dso_strict (unwrap_or opts (DStreamOpts None None))) true) (ss_blanks st))
      lines evs c ->
    decode_stream_sync source opts = Ok evs.
Proof.
  unfold decode_stream_sync. cbv zeta. intros H1 H2. rewrite H1. cbn [bind].
  apply decode_lines_exact in H2. rewrite H2. reflexivity.
Qed.

Lemma stream_grammar source opts evs : decode_stream_sync source opts = Ok evs ->
  exists v, describes (lenok (unwrap_or (dso_strict (unwrap_or opts (DStreamOpts None None))) true)) evs v.
Proof. intros H. apply stream_lines in H as (lines & st & c & _ & H). now apply lines_grammar in H. Qed.

Lemma describes_weaken (P Q : N -> nat -> Prop) : (forall n k, P n k -> Q n k) ->
  (forall e v, describes P e v -> describes Q e v) /\
  (forall e l, describes_items P e l -> describes_items Q e l) /\
  (forall e l, describes_entries P e l -> describes_entries Q e l).
Proof. intros H. apply describes_mutind; intros; constructor; auto. Qed.

(** * Building the value: C19 *)

(** [builds e n]: applied to any state, [e] attaches the node [n]. *)
Definition builds (e : list event) (n : node) : Prop :=
  forall st root rest,
    apply_events (BState st root) (e ++ rest)
    = let? s := attach st root n in apply_events s rest.

Lemma build_describes P :
  (forall e v, describes P e v -> exists n, builds e n /\ node_to_json n = v) /\
  (forall e l, describes_items P e l -> exists ns, map node_to_json ns = l /\
     forall st root rest acc,
       apply_events (BState (BArr acc :: st) root) (e ++ rest)
       = apply_events (BState (BArr (acc ++ ns) :: st) root) rest) /\
  (forall e l, describes_entries P e l -> exists ns,
     map (fun kv => (fst kv, node_to_json (snd kv))) ns = l /\
     forall q0, exists q1, forall st root rest acc,
       apply_events (BState (BObj acc None q0 :: st) root) (e ++ rest)
       = apply_events (BState (BObj (acc ++ ns) None q1 :: st) root) rest).
Proof.
  apply describes_mutind.
  - intros p. exists (NPrim p). split; auto. intros st root rest. reflexivity.
  - intros n evs items _ (ns & <- & H) _. exists (NArr ns). split; auto.
    intros st root rest. cbn [app apply_events apply_event bind bs_stack bs_root].
    rewrite <- app_assoc, H. cbn [app apply_events apply_event bind bs_stack bs_root]. reflexivity.
  - intros evs entries _ (ns & <- & H). destruct (H []) as [q1 H']. exists (NObj ns q1). split; auto.
    intros st root rest. cbn [app apply_events apply_event bind bs_stack bs_root].
    rewrite <- app_assoc, H'. cbn [app apply_events apply_event bind bs_stack bs_root]. reflexivity.
  - exists []. split; auto. intros. now rewrite app_nil_r.
  - intros e1 v e2 l _ (n & Hn & <-) _ (ns & <- & H). exists (n :: ns). split; auto.
    intros st root rest acc. rewrite <- app_assoc, Hn. cbn [attach bind]. rewrite H.
    now rewrite <- app_assoc.
  - exists []. split; auto. intros q0. exists q0. intros. now rewrite app_nil_r.
  - intros k q e1 v e2 l _ (n & Hn & <-) _ (ns & <- & H). exists ((k, n) :: ns). split; auto.
    intros q0. destruct (H (if q then k :: q0 else q0)) as [q1 H']. exists q1.
    intros st root rest acc. cbn [app apply_events apply_event bind bs_stack bs_root].
    rewrite <- app_assoc, Hn. cbn [attach bind]. rewrite H'. now rewrite <- app_assoc.
Qed.

Lemma describes_build P e v : describes P e v ->
  exists n, build_node_from_events e = Ok n /\ node_to_json n = v.
Proof.
  intros H. apply build_describes in H as (n & Hb & Hv). exists n. split; auto.
  unfold build_node_from_events. specialize (Hb [] None []). rewrite app_nil_r in Hb. rewrite Hb.
  reflexivity.
Qed.

(** The described value is unique. *)
Lemma describes_fun P Q e v w : describes P e v -> describes Q e w -> v = w.
Proof.
  intros H1 H2. apply describes_build in H1 as (n & E1 & <-). apply describes_build in H2 as (m & E2 & <-).
  congruence.
Qed.

