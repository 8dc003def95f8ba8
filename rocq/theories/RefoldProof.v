(** Encoding a decoded value again, with folding: C11, C12. *)
From Verif Require Import Chars Floats Json JsonInd JsonEq Shared EncPrim Normalize Folding Encoders EncodeApi Lex Spec DecProps Layout LayEnc LayFacts WrittenProps.

Local Open Scope nat_scope.

Lemma chain_written : forall v w segs md, written false true v w -> distinct_keys v ->
  exists s u u', collect_chain segs v md = (s, u) /\ collect_chain segs w md = (s, u') /\ written false true u u' /\ distinct_keys u.
Proof.
  induction v as [p|l _|l F] using json_ind'; intros w segs md Hw Hd.
  - inversion Hw; subst. exists (rev segs), (JPrim p), (JPrim p). cbn [collect_chain]. destruct (_ <? _)%N; auto.
  - destruct (arr_written _ _ Hw Hd) as (m & -> & _). exists (rev segs), (JArr l), (JArr m). cbn [collect_chain]. destruct (_ <? _)%N; auto.
  - pose proof Hw as Hw0. apply written_obj_pair in Hw0 as (m & -> & HF). cbn [collect_chain].
    destruct (_ <? _)%N; [|exists (rev segs), (JObj l), (JObj m); auto].
    destruct HF as [|[k x] [k' x'] l m [E Hx] HF]; [exists (rev segs), (JObj []), (JObj []); auto|]. cbn [fst snd] in E, Hx. subst k'.
    destruct HF as [|b c l m _ HF]; [|eexists (rev segs), _, _; eauto].
    inversion F as [|? ? F1 _]; subst. inversion Hd as [| |? _ D]; subst. inversion D; subst. cbn [snd] in *. apply F1; auto.
Qed.
Lemma fold_written o k v w sibs rl pp fd : written false true v w -> distinct_keys v ->
  (try_fold_key_chain k v sibs o rl pp fd = None /\ try_fold_key_chain k w sibs o rl pp fd = None) \/
  exists s t t' u u' c, try_fold_key_chain k v sibs o rl pp fd = Some (FoldResult s t u c) /\
    try_fold_key_chain k w sibs o rl pp fd = Some (FoldResult s t' u' c) /\ written false true u u' /\ distinct_keys u /\
    ((t = None /\ t' = None) \/ (t = Some u /\ t' = Some u')).
Proof.
  intros Hw Hd. unfold try_fold_key_chain. destruct (ro_key_folding o); [now left|].
  assert (Eo : is_json_object v = is_json_object w).
  { destruct v as [p|l|l]; [inversion Hw; subst; reflexivity| |].
    - destruct (arr_written _ _ Hw Hd) as (m & -> & _). reflexivity.
    - apply written_obj_pair in Hw as (m & -> & _). reflexivity. }
  rewrite Eo. destruct (negb (is_json_object w)); [now left|]. destruct (fd <? 2)%N; [now left|].
  unfold collect_single_key_chain. destruct (chain_written v w [k] fd Hw Hd) as (s & u & u' & -> & -> & Hu & Du).
  assert (T : exists t t', ((t = None /\ t' = None) \/ (t = Some u /\ t' = Some u')) /\
    match u with JObj [] => (s, None, u) | JObj _ => (s, Some u, u) | _ => (s, None, u) end = (s, t, u) /\
    match u' with JObj [] => (s, None, u') | JObj _ => (s, Some u', u') | _ => (s, None, u') end = (s, t', u')).
  { destruct u as [p|l|l]; [inversion Hu; subst; eauto 7| |].
    - destruct (arr_written _ _ Hu Du) as (m & -> & _). eauto 7.
    - apply written_obj_pair in Hu as (m & -> & HF). destruct HF; eauto 7. }
  destruct T as (t & t' & Ht & -> & ->). destruct (Nat.ltb (length s) 2); [now left|]. destruct (negb (forallb is_identifier_segment s)); [now left|].
  destruct (str_mem (join cDOT s) sibs); [now left|].
  destruct rl as [rk|]; [destruct (str_mem _ rk); [now left|]|]; right; exists (join cDOT s), t, t', u, u', (length s); auto 8.
Qed.

Section Re.
Variable o : renc_options.

Lemma re_encode fuel :
  (forall l m d rl pp rd, Forall2 (fun a b => fst a = fst b /\ written false true (snd a) (snd b)) l m ->
     Forall (fun kv => distinct_keys (snd kv)) l ->
     encode_object_lines fuel l d o rl pp rd = encode_object_lines fuel m d o rl pp rd) /\
  (forall k v w d sibs rl pp fd, written false true v w -> distinct_keys v ->
     encode_key_value_pair_lines fuel k v d o sibs rl pp fd = encode_key_value_pair_lines fuel k w d o sibs rl pp fd) /\
  (forall key l m d, written false true (JArr l) (JArr m) -> distinct_keys (JArr l) ->
     encode_array_lines fuel key l d o = encode_array_lines fuel key m d o) /\
  (forall v w d, written false false v w -> distinct_keys v ->
     encode_list_item_value_lines fuel v d o = encode_list_item_value_lines fuel w d o) /\
  (forall l m d, Forall2 (fun a b => fst a = fst b /\ written false true (snd a) (snd b)) l m ->
     Forall (fun kv => distinct_keys (snd kv)) l ->
     encode_object_as_list_item_lines fuel l d o = encode_object_as_list_item_lines fuel m d o).
Proof.
  induction fuel as [|fuel (IH1 & IH2 & IH3 & IH4 & IH5)]; [split; [|split; [|split; [|split]]]; reflexivity|].
  assert (Hitems : forall l m d, Forall2 (written false false) l m -> Forall distinct_keys l ->
     concat_results (fun item => encode_list_item_value_lines fuel item d o) l
     = concat_results (fun item => encode_list_item_value_lines fuel item d o) m).
  { intros l m d HF. induction HF as [|v w l m Hv _ IH]; intros Hd; cbn [concat_results]; auto.
    inversion Hd; subst. now rewrite (IH4 v w), IH. }
  assert (Hempty : forall A B (l : list A) (m : list B) R, Forall2 R l m -> is_empty l = is_empty m)
    by (intros A B l m R []; reflexivity).
  split; [|split; [|split; [|split]]].
  - intros l m d rl pp rd HF Hd. cbn [encode_object_lines]. cbv zeta.
    assert (Ek : map fst l = map fst m) by (clear - HF; induction HF as [|a b l m [E _] _ IH]; cbn [map]; congruence).
    rewrite Ek. generalize (map fst m). intros s.
    generalize (match d, rl with O, None => Some (filter (contains cDOT) s) | _, r => r end).
    intros r. clear Ek. induction HF as [|a b l m [E Hw] _ IH]; cbn [concat_results]; auto.
    inversion Hd; subst. rewrite E. erewrite IH2 by eauto. erewrite IH by auto. reflexivity.
  - intros k v w d sibs rl pp fd Hw Hd. cbn [encode_key_value_pair_lines]. cbv zeta.
    match goal with |- match _ with None => ?p | Some _ => _ end = match _ with None => ?p' | Some _ => _ end => assert (Ep : p = p') end.
    { destruct v as [p|l|l]; [inversion Hw; subst; reflexivity| |].
      + destruct (arr_written _ _ Hw Hd) as (m & -> & _). now apply IH3.
      + apply written_obj_pair in Hw as (m & -> & HF). rewrite (Hempty _ _ _ _ _ HF).
        inversion Hd; subst. erewrite IH1; eauto. }
    rewrite Ep. clear Ep. destruct (fold_written o k v w sibs rl pp fd Hw Hd) as [[-> ->]|(s & tl & tl' & u & u' & c & -> & -> & Hu & Du & Ht)]; [reflexivity|].
    cbn [fr_remainder fr_leaf fr_key fr_count]. destruct Ht as [[-> ->]|[-> ->]].
    + destruct u as [p|l|l]; [inversion Hu; subst; reflexivity| |].
      * destruct (arr_written _ _ Hu Du) as (m & -> & _). now apply IH3.
      * apply written_obj_pair in Hu as (m & -> & HF). now rewrite (Hempty _ _ _ _ _ HF).
    + destruct u as [p|l|l]; [inversion Hu; subst; reflexivity| |].
      * destruct (arr_written _ _ Hu Du) as (m & -> & _). reflexivity.
      * apply written_obj_pair in Hu as (m & -> & HF). inversion Du; subst. erewrite IH1; eauto.
  - intros key l m d Hw Hd. destruct (arr_written _ _ Hw Hd) as (m' & E & Hc). injection E as <-.
    cbn [encode_array_lines]. cbv zeta. inversion Hd as [|? D|]; subst. destruct Hc as [HF|Hc].
    + rewrite (Hempty _ _ _ _ _ HF), (Forall2_length _ _ _ HF), (inline_written _ _ _ _ HF), (extract_written _ _ HF).
      rewrite (Hitems _ _ _ HF D). destruct (class_written _ _ HF) as (E1 & E2 & E3).
      assert (E4 : forallb (fun item => match item with JArr items => is_array_of_primitives items | _ => false end) l
        = forallb (fun item => match item with JArr items => is_array_of_primitives items | _ => false end) m).
      { apply forallb_written; auto. intros v w Hvw. inversion Hvw as [|? a b _ Hi| | |]; subst; auto.
        apply items_class in Hi. now apply class_written in Hi. }
      rewrite E1, E2, E3, E4. destruct (is_empty m); auto. destruct (is_array_of_primitives m); auto.
      destruct (is_array_of_arrays m && _) eqn:Ea.
      * f_equal. unfold encode_array_of_arrays_as_list_items_lines. rewrite (Forall2_length _ _ _ HF). f_equal.
        clear - HF. induction HF as [|v w l m Hv _ IH]; cbn [flat_map]; auto.
        rewrite IH by auto. f_equal. inversion Hv as [|? a b _ Hi| | |]; subst; auto.
        apply items_class in Hi. now rewrite (inline_written _ _ _ _ Hi).
      * destruct (is_array_of_objects m); auto. destruct (extract_tabular_header m); auto.
        unfold encode_array_of_objects_as_tabular_lines. rewrite (Forall2_length _ _ _ HF).
        now rewrite (rows_written _ _ _ _ _ HF).
    + destruct Hc as (first & r & fields & rows & -> & -> & Hn & Hk & Hne & HF).
      destruct (table_rewrite _ _ _ _ Hn Hk Hne HF) as (X1 & X2 & X3 & X4).
      rewrite (objects_of_rows _ _ _ HF), objects_rows, X1, X2.
      unfold encode_array_of_objects_as_tabular_lines. rewrite X3, X4.
      inversion HF; subst. reflexivity.
  - intros v w d Hw Hd. cbn [encode_list_item_value_lines]. cbv zeta.
    destruct v as [p|l|l]; [inversion Hw; subst; reflexivity| |].
    + inversion Hw as [|? ? m _ Hi| | |]; subst. apply items_class in Hi. inversion Hd; subst.
      destruct (class_written _ _ Hi) as (E1 & _ & _).
      rewrite E1, (Forall2_length _ _ _ Hi), (inline_written _ _ _ _ Hi), (Hitems _ _ _ Hi) by auto. reflexivity.
    + apply written_obj_pair in Hw as (m & -> & HF). inversion Hd; subst. auto.
  - intros l m d HF Hd. cbn [encode_object_as_list_item_lines]. cbv zeta.
    destruct HF as [|[k v] [k' w] rest rest' [E Hw] HF]; [reflexivity|]. cbn [fst snd] in E, Hw. subst k'.
    inversion Hd as [|? ? Hdv Hdr]; subst. cbn [snd] in Hdv.
    rewrite (Hempty _ _ _ _ _ HF), (IH1 rest rest' (S d) None None None HF Hdr).
    match goal with |- bind ?a _ = bind ?b _ => assert (Eh : a = b) end; [|now rewrite Eh].
    destruct v as [p|l|l]; [inversion Hw; subst; reflexivity| |].
    + destruct (arr_written _ _ Hw Hdv) as (m & -> & Hc). inversion Hdv; subst. destruct Hc as [HA|Hc].
      * destruct (class_written _ _ HA) as (E1 & _ & E3).
        rewrite E1, E3, (extract_written _ _ HA), (Forall2_length _ _ _ HA), (Hempty _ _ _ _ _ HA),
          (inline_written _ _ _ _ HA), (Hitems _ _ _ HA) by auto.
        destruct (if is_array_of_objects m then extract_tabular_header m else None); [|reflexivity].
        now rewrite (rows_written _ _ _ _ _ HA).
      * destruct Hc as (first & r & fields & rows & -> & -> & Hn & Hk & Hne & HA).
        destruct (table_rewrite _ _ _ _ Hn Hk Hne HA) as (X1 & X2 & X3 & X4).
        rewrite (objects_of_rows _ _ _ HA), objects_rows, X1, X2, X3, X4. reflexivity.
    + apply written_obj_pair in Hw as (m & -> & HA). rewrite (Hempty _ _ _ _ _ HA).
      inversion Hdv; subst. erewrite IH1; eauto.
Qed.


(** The decoded value is written as the same lines. *)
Lemma re_encode_value v w : written false true v w -> distinct_keys v ->
  encode_json_value w o = encode_json_value v o.
Proof.
  intros Hw Hd.
  assert (Hs : jsize v = jsize w).
  { apply jequiv_size, table_ordered_jequiv. eapply written_ordered; eauto. }
  unfold encode_json_value. cbv zeta. destruct v as [p|l|l].
  - inversion Hw; subst. reflexivity.
  - destruct (arr_written _ _ Hw Hd) as (m & -> & _). unfold enc_fuel. rewrite <- Hs. symmetry. now apply re_encode.
  - pose proof Hw as Hw'. apply written_obj_pair in Hw' as (m & -> & HF). unfold enc_fuel. rewrite <- Hs. symmetry.
    inversion Hd; subst. now apply re_encode.
Qed.
End Re.
