(** Without key folding the document spells out the value up to the order of fields in tables;
    re-encoding writes the same lines. *)
From Verif Require Import Chars Floats Json JsonInd JsonEq Shared EncPrim Normalize Folding Encoders EncodeApi
  Lex NumProof Spec Layout LayEnc.
From Coq Require Import Permutation.

Local Open Scope nat_scope.

Lemma combine_keys fields (cells : list prim) : length cells = length fields ->
  @map (str * json) str fst (combine fields (map JPrim cells)) = fields.
Proof.
  revert cells. induction fields as [|f fs IH]; intros [|p cells] H; try discriminate; auto.
  cbn. f_equal. auto.
Qed.

Lemma row_perm fields es cells : NoDup fields -> length es = length fields ->
  Forall2 (fun f p => object_get es f = Some (JPrim p)) fields cells ->
  Permutation es (combine fields (map JPrim cells)).
Proof.
  intros Hn Hl Hf. assert (Hlen : length cells = length fields) by (symmetry; eapply Forall2_length; eauto).
  apply Permutation_sym. apply NoDup_Permutation_bis.
  - apply (NoDup_map_inv fst). now rewrite combine_keys.
  - rewrite combine_length, map_length. lia.
  - clear Hn Hl Hlen. induction Hf as [|f p fs ps Hp _ IH]; cbn; [intros x []|].
    intros x [<-|Hx]; [now apply object_get_in|auto].
Qed.

Lemma row_field_perm fields v cells : NoDup fields -> row_of_fields fields v cells ->
  exists es es', v = JObj es /\ row_json fields cells = JObj es' /\ Permutation es es' /\ map fst es' = fields.
Proof.
  intros Hn (es & -> & Hl & Hf). exists es. eexists. split; auto. split; [reflexivity|].
  split; [now apply row_perm|]. apply combine_keys. symmetry. eapply Forall2_length; eauto.
Qed.

Lemma row_in_fields fields es cells : length es = length fields -> NoDup (map fst es) -> NoDup fields ->
  Forall2 (fun f p => object_get es f = Some (JPrim p)) fields cells ->
  Permutation (map fst es) fields /\ Forall (fun kv => exists p, snd kv = JPrim p) es.
Proof.
  intros Hl Hn Hn' Hf. pose proof (row_perm _ _ _ Hn' Hl Hf) as P.
  assert (Hlen : length cells = length fields) by (symmetry; eapply Forall2_length; eauto).
  split.
  - apply (Permutation_map fst) in P. now rewrite combine_keys in P.
  - apply Forall_forall. intros [k v] Hi. eapply Permutation_in in Hi; [|exact P].
    apply in_combine_r in Hi. apply in_map_iff in Hi as (p & <- & _). cbn. eauto.
Qed.

Lemma written_ordered :
  (forall t v w, written false t v w -> distinct_keys v -> table_ordered v w) /\
  (forall l m, written_items false l m -> Forall distinct_keys l -> Forall2 table_ordered l m) /\
  (forall sibs l m, written_fields false sibs l m -> Forall (fun kv => distinct_keys (snd kv)) l ->
     Forall2 (fun a b => fst a = fst b /\ table_ordered (snd a) (snd b)) l m) /\
  (forall sibs a b, written_field false sibs a b -> distinct_keys (snd a) ->
     fst a = fst b /\ table_ordered (snd a) (snd b)).
Proof.
  apply written_mutind.
  - constructor.
  - intros t l m _ _ IH Hd. constructor. apply IH. now inversion Hd.
  - intros first r fields rows Hk Hne _ HF Hd. inversion Hd as [|? D|]; subst.
    assert (Hnf : NoDup (map fst first)) by (inversion D as [|? ? Hf]; subst; now inversion Hf).
    eapply (to_table _ (map fst first)).
    + split; auto. split; [eauto|]. clear Hne. revert HF D. generalize (JObj first :: r). intros l HF D.
      induction HF as [|v cells l rows Hr HF IH]; constructor; inversion D as [|? ? Dv]; subst; auto.
      destruct Hr as (es & -> & Hl & Hf). inversion Dv; subst. exists es. split; auto.
      eapply row_in_fields; eauto.
    + clear D Hd Hne. induction HF as [|v cells l rows Hr HF IH]; constructor; auto. now apply row_field_perm.
  - intros t l m _ IH Hd. constructor. apply IH. now inversion Hd.
  - intros k v l w m _ IH1 _ IH2 Hd. inversion Hd as [| |? ? D]; subst. inversion D; subst.
    constructor. constructor; auto.
  - constructor.
  - intros v w l m _ IH1 _ IH2 D. inversion D; subst. constructor; auto.
  - constructor.
  - intros sibs a b l m _ IH1 _ IH2 D. inversion D; subst. constructor; auto.
  - cbn. auto.
  - discriminate.
Qed.

(** * Re-encoding *)

(** Columns are looked up the same way. *)
Lemma object_get_combine fields cells : NoDup fields -> length cells = length fields ->
  Forall2 (fun f p => object_get (combine fields (map JPrim cells)) f = Some (JPrim p)) fields cells.
Proof.
  intros Hn Hl.
  assert (H : forall f p, In (f, p) (combine fields cells) ->
     object_get (combine fields (map JPrim cells)) f = Some (JPrim p)).
  { intros f p Hi. apply object_get_nodup; [now rewrite combine_keys|].
    clear - Hi. revert cells Hi. induction fields as [|x fs IH]; intros [|c cells]; cbn; try tauto.
    intros [E|Hi]; [left; congruence|right; auto]. }
  revert H. generalize (combine fields (map JPrim cells)) as es. clear Hn. revert cells Hl.
  induction fields as [|f fs IH]; intros [|p cells] Hl es H; try discriminate; constructor.
  - apply H. now left.
  - apply IH; auto. intros. apply H. now right.
Qed.

Lemma row_cells_of fields es cells :
  Forall2 (fun f p => object_get es f = Some (JPrim p)) fields cells -> row_cells fields es = Ok cells.
Proof.
  unfold row_cells. induction 1 as [|f p fs ps Hp _ IH]; cbn [map_result]; auto. rewrite Hp. cbn [bind].
  now rewrite IH.
Qed.
Lemma row_matches_of fields es cells : length es = length fields ->
  Forall2 (fun f p => object_get es f = Some (JPrim p)) fields cells -> row_matches fields (JObj es) = true.
Proof.
  intros Hl Hf. cbn [row_matches]. apply andb_true_intro. split; [now apply Nat.eqb_eq|].
  clear Hl. induction Hf as [|f p fs ps Hp _ IH]; cbn; auto. now rewrite Hp.
Qed.

Lemma table_rewrite first r fields rows : NoDup fields -> map fst first = fields -> fields <> [] ->
  Forall2 (row_of_fields fields) (JObj first :: r) rows ->
  extract_tabular_header (JObj first :: r) = Some fields /\
  extract_tabular_header (map (row_json fields) rows) = Some fields /\
  length (map (row_json fields) rows) = length (JObj first :: r) /\
  forall d o, write_tabular_rows_lines (map (row_json fields) rows) fields d o
              = write_tabular_rows_lines (JObj first :: r) fields d o.
Proof.
  intros Hn Hk Hne HF.
  assert (Hlen : length (JObj first :: r) = length rows) by (eapply Forall2_length; eauto).
  assert (H1 : is_tabular_array (JObj first :: r) fields = true).
  { clear - HF. unfold is_tabular_array. induction HF as [|v cells l rows Hr _ IH]; cbn [forallb]; auto. rewrite IH, andb_true_r.
    destruct Hr as (es & -> & Hl & Hf). eapply row_matches_of; eauto. }
  assert (H2 : is_tabular_array (map (row_json fields) rows) fields = true).
  { clear - HF Hn. unfold is_tabular_array. induction HF as [|v cells l rows Hr _ IH]; cbn [forallb map]; auto. rewrite IH, andb_true_r.
    destruct Hr as (es & -> & Hl & Hf). assert (E : length cells = length fields) by (symmetry; eapply Forall2_length; eauto).
    eapply row_matches_of; [|now apply object_get_combine].
    rewrite combine_length, map_length. lia. }
  split; [|split; [|split]].
  - unfold extract_tabular_header. destruct first as [|kv first]; [cbn in Hk; congruence|].
    rewrite Hk, H1. reflexivity.
  - inversion HF as [|? c ? rows' Hr HF']; subst rows. destruct Hr as (es & _ & _ & Hf).
    assert (E : length c = length fields) by (symmetry; eapply Forall2_length; eauto).
    pose proof (combine_keys fields c E) as Kc.
    cbn [map] in *. unfold row_json at 1. unfold extract_tabular_header.
    unfold row_json at 1 in H2.
    destruct (combine fields (map JPrim c)) as [|kv cs] eqn:Ec; [cbn in Kc; congruence|].
    rewrite Kc, H2. reflexivity.
  - now rewrite map_length.
  - intros d o. clear - HF Hn. induction HF as [|v cells l rows Hr _ IH]; cbn [map write_tabular_rows_lines]; auto.
    destruct Hr as (es & -> & Hl & Hf). assert (E : length cells = length fields) by (symmetry; eapply Forall2_length; eauto).
    unfold row_json at 1. rewrite (row_cells_of _ _ _ Hf), (row_cells_of _ _ _ (object_get_combine _ _ Hn E)).
    cbn [bind]. now rewrite IH.
Qed.

Lemma items_class l m : written_items false l m -> Forall2 (written false false) l m.
Proof. induction 1; constructor; auto. Qed.

Lemma written_prim_class t v w : written false t v w ->
  is_json_primitive v = is_json_primitive w /\ is_json_array v = is_json_array w /\ is_json_object v = is_json_object w.
Proof. intros []; auto. Qed.

Lemma forallb_written (f : json -> bool) l m : (forall v w, written false false v w -> f v = f w) ->
  Forall2 (written false false) l m -> forallb f l = forallb f m.
Proof. intros H. induction 1 as [|v w l m Hw _ IH]; cbn; auto. now rewrite IH, (H v w). Qed.

Lemma object_get_written l m : Forall2 (fun a b => fst a = fst b /\ written false true (snd a) (snd b)) l m ->
  forall k, match object_get l k, object_get m k with
            | Some v, Some w => written false true v w
            | None, None => True
            | _, _ => False
            end.
Proof.
  induction 1 as [|[k v] [k' w] l m [E Hw] _ IH]; intros x; cbn in *; auto. subst k'.
  destruct (str_eqb k x); auto. apply IH.
Qed.

Lemma written_fields_pair sibs l m : written_fields false sibs l m ->
  Forall2 (fun a b => fst a = fst b /\ written false true (snd a) (snd b)) l m.
Proof.
  induction 1 as [|sibs a b l m Hf _ IH]; constructor; auto. inversion Hf; subst; [cbn; auto|discriminate].
Qed.
Lemma written_obj_pair t l w : written false t (JObj l) w -> exists m, w = JObj m /\
  Forall2 (fun a b => fst a = fst b /\ written false true (snd a) (snd b)) l m.
Proof.
  intros H. inversion H as [| | |? ? m Hf|? k v l' w' m Hv Hf]; subst.
  - exists m. split; auto. eapply written_fields_pair; eauto.
  - eexists. split; [reflexivity|]. constructor; [cbn; auto|]. eapply written_fields_pair; eauto.
Qed.

Lemma row_matches_written t v w fields : written false t v w -> row_matches fields v = row_matches fields w.
Proof.
  intros H. destruct v as [p|l|l]; [inversion H; subst; reflexivity|inversion H; subst; reflexivity|].
  apply written_obj_pair in H as (m & -> & HF). cbn [row_matches].
  rewrite (Forall2_length _ _ _ HF). f_equal. pose proof (object_get_written _ _ HF) as Hg.
  induction fields as [|f fs IH]; cbn [forallb]; auto. rewrite IH. f_equal. specialize (Hg f).
  destruct (object_get l f), (object_get m f); try tauto. eapply written_prim_class; eauto.
Qed.

Lemma extract_written l m : Forall2 (written false false) l m -> extract_tabular_header l = extract_tabular_header m.
Proof.
  intros H. destruct H as [|v w l m Hv Hl]; [reflexivity|].
  assert (Ht : forall fields, is_tabular_array (v :: l) fields = is_tabular_array (w :: m) fields).
  { intros fields. apply forallb_written; [|constructor; auto]. intros. eapply row_matches_written; eauto. }
  destruct v as [p|l0|l0]; [inversion Hv; subst; reflexivity|inversion Hv; subst; reflexivity|].
  pose proof Hv as Hv'. apply written_obj_pair in Hv' as (m0 & -> & HF).
  destruct HF as [|a b l0 m0 [E _] HF]; [reflexivity|]. unfold extract_tabular_header.
  assert (Ek : map fst (a :: l0) = map fst (b :: m0)).
  { cbn. f_equal; auto. clear - HF. induction HF as [|x y l m [E _] _ IH]; cbn; congruence. }
  rewrite Ek. now rewrite Ht.
Qed.

Lemma row_cells_written fields l m : Forall2 (fun a b => fst a = fst b /\ written false true (snd a) (snd b)) l m ->
  row_cells fields l = row_cells fields m.
Proof.
  intros HF. pose proof (object_get_written _ _ HF) as Hg. unfold row_cells.
  induction fields as [|f fs IH]; cbn [map_result]; auto. rewrite IH. specialize (Hg f).
  destruct (object_get l f) as [v|], (object_get m f) as [w|]; try tauto. inversion Hg; subst; reflexivity.
Qed.
Lemma rows_written fields d o l m : Forall2 (written false false) l m ->
  write_tabular_rows_lines l fields d o = write_tabular_rows_lines m fields d o.
Proof.
  induction 1 as [|v w l m Hv _ IH]; cbn [write_tabular_rows_lines]; auto.
  destruct v as [p|l0|l0]; [inversion Hv; subst; auto|inversion Hv; subst; auto|].
  apply written_obj_pair in Hv as (m0 & -> & HF). now rewrite (row_cells_written _ _ _ HF), IH.
Qed.

Lemma prims_written l m : Forall2 (written false false) l m -> prims_of l = prims_of m.
Proof.
  unfold prims_of. induction 1 as [|v w l m Hv _ IH]; cbn [flat_map]; auto. rewrite IH.
  f_equal. inversion Hv; subst; reflexivity.
Qed.
Lemma inline_written l m dl key : Forall2 (written false false) l m ->
  encode_inline_array_line l dl key = encode_inline_array_line m dl key.
Proof.
  intros H. unfold encode_inline_array_line. now rewrite (prims_written _ _ H), (Forall2_length _ _ _ H).
Qed.

Lemma concat_written {A} (f : A -> result (list str)) (R : A -> A -> Prop) l m :
  (forall a b, R a b -> f a = f b) -> Forall2 R l m -> concat_results f l = concat_results f m.
Proof.
  intros H. induction 1 as [|a b l m Hab _ IH]; cbn [concat_results]; auto. now rewrite (H a b Hab), IH.
Qed.

Lemma arr_written l w : written false true (JArr l) w -> distinct_keys (JArr l) -> exists m, w = JArr m /\
  (Forall2 (written false false) l m \/
   exists first r fields rows, l = JObj first :: r /\ m = map (row_json fields) rows /\
     NoDup fields /\ map fst first = fields /\ fields <> [] /\ Forall2 (row_of_fields fields) l rows).
Proof.
  intros H Hd. inversion H as [|? ? m _ Hi|first r fields rows Hk Hne _ HF| |]; subst.
  - exists m. split; auto. left. now apply items_class.
  - eexists. split; [reflexivity|]. right. exists first, r, (map fst first), rows.
    inversion Hd as [|? D|]; subst. inversion D as [|? ? D0]; subst. inversion D0; subst. auto 10.
Qed.

Lemma class_written l m : Forall2 (written false false) l m ->
  is_array_of_primitives l = is_array_of_primitives m /\ is_array_of_arrays l = is_array_of_arrays m /\
  is_array_of_objects l = is_array_of_objects m.
Proof.
  intros H. split; [|split]; apply forallb_written; auto; intros v w Hvw; apply written_prim_class in Hvw; tauto.
Qed.

Lemma objects_rows fields rows : is_array_of_objects (map (row_json fields) rows) = true.
Proof. unfold is_array_of_objects. induction rows; cbn; auto. Qed.
Lemma objects_of_rows fields l rows : Forall2 (row_of_fields fields) l rows -> is_array_of_objects l = true.
Proof.
  unfold is_array_of_objects. induction 1 as [|v c l rows Hr _ IH]; cbn [forallb]; auto.
  destruct Hr as (es & -> & _). exact IH.
Qed.

Section Re.
Variable o : renc_options.
Hypothesis Hoff : ro_key_folding o = KFOff.

Lemma no_fold k v sibs rl pp fd : try_fold_key_chain k v sibs o rl pp fd = None.
Proof. unfold try_fold_key_chain. now rewrite Hoff. Qed.

Lemma re_encode fuel :
  (forall l m d rl rl' pp pp' rd rd', Forall2 (fun a b => fst a = fst b /\ written false true (snd a) (snd b)) l m ->
     Forall (fun kv => distinct_keys (snd kv)) l ->
     encode_object_lines fuel l d o rl pp rd = encode_object_lines fuel m d o rl' pp' rd') /\
  (forall k v w d sibs sibs' rl rl' pp pp' fd fd', written false true v w -> distinct_keys v ->
     encode_key_value_pair_lines fuel k v d o sibs rl pp fd = encode_key_value_pair_lines fuel k w d o sibs' rl' pp' fd') /\
  (forall key l m d, written false true (JArr l) (JArr m) -> distinct_keys (JArr l) ->
     encode_array_lines fuel key l d o = encode_array_lines fuel key m d o) /\
  (forall v w d, written false false v w -> distinct_keys v ->
     encode_list_item_value_lines fuel v d o = encode_list_item_value_lines fuel w d o) /\
  (forall l m d, Forall2 (fun a b => fst a = fst b /\ written false true (snd a) (snd b)) l m ->
     Forall (fun kv => distinct_keys (snd kv)) l ->
     encode_object_as_list_item_lines fuel l d o = encode_object_as_list_item_lines fuel m d o).
Proof.
  induction fuel as [|fuel (IH1 & IH2 & IH3 & IH4 & IH5)]; [split; [|split; [|split; [|split]]]; reflexivity|].
  assert (Hitems : forall l m d, Forall2 (written false false) l m -> Forall distinct_keys l ->
     concat_results (fun item => encode_list_item_value_lines fuel item d o) l
     = concat_results (fun item => encode_list_item_value_lines fuel item d o) m).
  { intros l m d HF. induction HF as [|v w l m Hv _ IH]; intros Hd; cbn [concat_results]; auto.
    inversion Hd; subst. now rewrite (IH4 v w), IH. }
  assert (Hempty : forall A B (l : list A) (m : list B) R, Forall2 R l m -> is_empty l = is_empty m)
    by (intros A B l m R []; reflexivity).
  split; [|split; [|split; [|split]]].
  - intros l m d rl rl' pp pp' rd rd' HF Hd. cbn [encode_object_lines]. cbv zeta.
    generalize (map fst l) (map fst m). intros s1 s2.
    generalize (match d, rl with O, None => Some (filter (contains cDOT) s1) | _, r => r end)
               (match d, rl' with O, None => Some (filter (contains cDOT) s2) | _, r => r end).
    intros r1 r2. induction HF as [|a b l m [E Hw] _ IH]; cbn [concat_results]; auto.
    inversion Hd; subst. rewrite E. erewrite IH2 by eauto. erewrite IH by auto. reflexivity.
  - intros k v w d sibs sibs' rl rl' pp pp' fd fd' Hw Hd. cbn [encode_key_value_pair_lines]. cbv zeta.
    rewrite !no_fold. destruct v as [p|l|l]; [inversion Hw; subst; reflexivity| |].
    + destruct (arr_written _ _ Hw Hd) as (m & -> & _). now apply IH3.
    + apply written_obj_pair in Hw as (m & -> & HF). rewrite (Hempty _ _ _ _ _ HF).
      inversion Hd; subst. erewrite IH1; eauto.
  - intros key l m d Hw Hd. destruct (arr_written _ _ Hw Hd) as (m' & E & Hc). injection E as <-.
    cbn [encode_array_lines]. cbv zeta. inversion Hd as [|? D|]; subst. destruct Hc as [HF|Hc].
    + rewrite (Hempty _ _ _ _ _ HF), (Forall2_length _ _ _ HF), (inline_written _ _ _ _ HF), (extract_written _ _ HF).
      rewrite (Hitems _ _ _ HF D). destruct (class_written _ _ HF) as (E1 & E2 & E3).
      assert (E4 : forallb (fun item => match item with JArr items => is_array_of_primitives items | _ => false end) l
        = forallb (fun item => match item with JArr items => is_array_of_primitives items | _ => false end) m).
      { apply forallb_written; auto. intros v w Hvw. inversion Hvw as [|? a b _ Hi| | |]; subst; auto.
        apply items_class in Hi. now apply class_written in Hi. }
      rewrite E1, E2, E3, E4. destruct (is_empty m); auto. destruct (is_array_of_primitives m); auto.
      destruct (is_array_of_arrays m && _) eqn:Ea.
      * f_equal. unfold encode_array_of_arrays_as_list_items_lines. rewrite (Forall2_length _ _ _ HF). f_equal.
        clear - HF. induction HF as [|v w l m Hv _ IH]; cbn [flat_map]; auto.
        rewrite IH by auto. f_equal. inversion Hv as [|? a b _ Hi| | |]; subst; auto.
        apply items_class in Hi. now rewrite (inline_written _ _ _ _ Hi).
      * destruct (is_array_of_objects m); auto. destruct (extract_tabular_header m); auto.
        unfold encode_array_of_objects_as_tabular_lines. rewrite (Forall2_length _ _ _ HF).
        now rewrite (rows_written _ _ _ _ _ HF).
    + destruct Hc as (first & r & fields & rows & -> & -> & Hn & Hk & Hne & HF).
      destruct (table_rewrite _ _ _ _ Hn Hk Hne HF) as (X1 & X2 & X3 & X4).
      rewrite (objects_of_rows _ _ _ HF), objects_rows, X1, X2.
      unfold encode_array_of_objects_as_tabular_lines. rewrite X3, X4.
      inversion HF; subst. reflexivity.
  - intros v w d Hw Hd. cbn [encode_list_item_value_lines]. cbv zeta.
    destruct v as [p|l|l]; [inversion Hw; subst; reflexivity| |].
    + inversion Hw as [|? ? m _ Hi| | |]; subst. apply items_class in Hi. inversion Hd; subst.
      destruct (class_written _ _ Hi) as (E1 & _ & _).
      rewrite E1, (Forall2_length _ _ _ Hi), (inline_written _ _ _ _ Hi), (Hitems _ _ _ Hi) by auto. reflexivity.
    + apply written_obj_pair in Hw as (m & -> & HF). inversion Hd; subst. auto.
  - intros l m d HF Hd. cbn [encode_object_as_list_item_lines]. cbv zeta.
    destruct HF as [|[k v] [k' w] rest rest' [E Hw] HF]; [reflexivity|]. cbn [fst snd] in E, Hw. subst k'.
    inversion Hd as [|? ? Hdv Hdr]; subst. cbn [snd] in Hdv.
    rewrite (Hempty _ _ _ _ _ HF), (IH1 rest rest' (S d) None None None None None None HF Hdr).
    match goal with |- bind ?a _ = bind ?b _ => assert (Eh : a = b) end; [|now rewrite Eh].
    destruct v as [p|l|l]; [inversion Hw; subst; reflexivity| |].
    + destruct (arr_written _ _ Hw Hdv) as (m & -> & Hc). inversion Hdv; subst. destruct Hc as [HA|Hc].
      * destruct (class_written _ _ HA) as (E1 & _ & E3).
        rewrite E1, E3, (extract_written _ _ HA), (Forall2_length _ _ _ HA), (Hempty _ _ _ _ _ HA),
          (inline_written _ _ _ _ HA), (Hitems _ _ _ HA) by auto.
        destruct (if is_array_of_objects m then extract_tabular_header m else None); [|reflexivity].
        now rewrite (rows_written _ _ _ _ _ HA).
      * destruct Hc as (first & r & fields & rows & -> & -> & Hn & Hk & Hne & HA).
        destruct (table_rewrite _ _ _ _ Hn Hk Hne HA) as (X1 & X2 & X3 & X4).
        rewrite (objects_of_rows _ _ _ HA), objects_rows, X1, X2, X3, X4. reflexivity.
    + apply written_obj_pair in Hw as (m & -> & HA). rewrite (Hempty _ _ _ _ _ HA).
      inversion Hdv; subst. erewrite IH1; eauto.
Qed.

(** Without folding, what is written is a function of the value. *)
Lemma written_fun :
  (forall t v w, written false t v w -> forall w', written false t v w' -> w' = w) /\
  (forall l m, written_items false l m -> forall m', written_items false l m' -> m' = m) /\
  (forall sibs l m, written_fields false sibs l m -> forall sibs' m', written_fields false sibs' l m' -> m' = m) /\
  (forall sibs a b, written_field false sibs a b -> forall sibs' b', written_field false sibs' a b' -> b' = b).
Proof.
  apply written_mutind.
  - intros t p w' H. inversion H; auto.
  - intros t l m Hn _ IH w' H. inversion H; subst; [f_equal; auto|].
    specialize (Hn eq_refl). congruence.
  - intros first r fields rows Hk Hne He HF w' H.
    inversion H as [|? ? m' Hn _|? ? fields' rows' Hk' _ _ HF'| |]; subst.
    + specialize (Hn eq_refl). congruence.
    + f_equal. f_equal. clear - HF HF'. revert rows' HF'.
      induction HF as [|v c l rows Hr _ IH]; intros rows' HF'; inversion HF' as [|? c' ? rows0 Hr' HF0]; subst; auto.
      f_equal; auto. destruct Hr as (es & -> & _ & F), Hr' as (es' & E & _ & F'). injection E as <-.
      clear - F F'. revert c' F'. induction F as [|f p fs ps E _ IH]; intros c' F'; inversion F'; subst; auto.
      f_equal; [congruence|auto].
  - intros t l m _ IH w' H. inversion H as [| | |? ? m' Hf|k v l' w m' Hv Hf]; subst; f_equal.
    + eapply IH; eauto.
    + eapply (IH (map fst ((k, v) :: l'))). constructor; [now constructor|].
      clear - Hf. revert Hf. generalize ((k, v) :: l') at 1. intros l Hf. induction Hf; constructor; auto.
      inversion H; subst; [now constructor|discriminate].
  - intros k v l w m Hv IH1 Hf IH2 w' H. inversion H as [| | |? ? m' Hf'|? ? ? w0 m' Hv' Hf']; subst; f_equal.
    + inversion Hf' as [|? ? b ? m0 Hb Hm]; subst. inversion Hb; subst; [|discriminate]. f_equal; [f_equal; auto|eauto].
    + f_equal; [f_equal; auto|eauto].
  - intros m' H. now inversion H.
  - intros v w l m _ IH1 _ IH2 m' H. inversion H; subst. f_equal; auto.
  - intros sibs sibs' m' H. now inversion H.
  - intros sibs a b l m _ IH1 _ IH2 sibs' m' H. inversion H; subst. f_equal; eauto.
  - intros sibs k v w _ IH sibs' b' H. inversion H; subst; [f_equal; auto|discriminate].
  - discriminate.
Qed.

Lemma jequiv_size v : forall w, jequiv v w -> jsize v = jsize w.
Proof.
  induction v using json_ind'; intros w Hw; inversion Hw as [|? ? F|? l' ? P F]; subst; auto; cbn [jsize]; f_equal.
  - clear Hw. induction F; cbn [map]; auto. inversion H; subst. cbn [list_sum fold_right]. unfold list_sum in IHF.
    rewrite IHF by auto. f_equal. auto.
  - transitivity (list_sum (map (fun kv => jsize (snd kv)) l')).
    + clear - P. induction P; cbn [map list_sum fold_right]; unfold list_sum in *; lia.
    + assert (H' : Forall (fun kv => forall w, jequiv (snd kv) w -> jsize (snd kv) = jsize w) l').
      { rewrite Forall_forall in *. intros x Hx. apply H. eapply Permutation_in; [apply Permutation_sym; eauto|auto]. }
      clear - F H'. induction F as [|a b l m [E R] F IH]; cbn [map]; auto. inversion H'; subst.
      cbn [list_sum fold_right]. unfold list_sum in IH. rewrite IH by auto. f_equal. auto.
Qed.

(** The decoded value is written as the same lines. *)
Lemma re_encode_value v w : written false true v w -> distinct_keys v ->
  encode_json_value w o = encode_json_value v o.
Proof.
  intros Hw Hd.
  assert (Hs : jsize v = jsize w).
  { apply jequiv_size, table_ordered_jequiv. eapply written_ordered; eauto. }
  unfold encode_json_value. cbv zeta. destruct v as [p|l|l].
  - inversion Hw; subst. reflexivity.
  - destruct (arr_written _ _ Hw Hd) as (m & -> & _). unfold enc_fuel. rewrite <- Hs. symmetry. now apply re_encode.
  - pose proof Hw as Hw'. apply written_obj_pair in Hw' as (m & -> & HF). unfold enc_fuel. rewrite <- Hs. symmetry.
    inversion Hd; subst. now apply re_encode.
Qed.
End Re.
