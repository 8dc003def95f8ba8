(** The encoder returns lines for every value: its fuel is enough and it reaches no panic. *)
From Verif Require Import Chars Floats Json JsonInd Shared EncPrim Normalize Folding Encoders EncodeApi
  Lex Spec LayEnc.

Local Open Scope nat_scope.

Lemma list_sum_in {A} (f : A -> nat) l x : In x l -> f x <= list_sum (map f l).
Proof.
  induction l as [|y l IH]; cbn [map list_sum fold_right]; [intros []|]. intros [->|H]; [lia|].
  apply IH in H. unfold list_sum in H. lia.
Qed.

Lemma size_item l v : In v l -> jsize v < jsize (JArr l).
Proof. intros H. apply (list_sum_in jsize) in H. cbn [jsize]. lia. Qed.
Lemma size_member l k v : In (k, v) l -> jsize v < jsize (JObj l).
Proof. intros H. apply (list_sum_in (fun kv => jsize (snd kv))) in H. cbn [jsize snd] in *. lia. Qed.
Lemma size_pos v : 1 <= jsize v.
Proof. destruct v; cbn; lia. Qed.
Lemma size_tail k v l : jsize (JObj l) < jsize (JObj ((k, v) :: l)).
Proof.
  pose proof (size_pos v). cbn [jsize map list_sum fold_right snd]. unfold list_sum. lia.
Qed.

Lemma size_chain v ks leaf : chain v ks leaf -> jsize leaf <= jsize v.
Proof.
  induction 1 as [|k v ks leaf _ IH]; auto. pose proof (size_member [(k, v)] k v (or_introl eq_refl)). lia.
Qed.

Lemma concat_total {A} (f : A -> result (list str)) l :
  (forall x, In x l -> exists ls, f x = Ok ls) -> exists ls, concat_results f l = Ok ls.
Proof.
  induction l as [|x l IH]; intros H; cbn [concat_results]; [eauto|].
  destruct (H x (or_introl eq_refl)) as [a ->]. cbn [bind].
  destruct IH as [b Hb]; [intros; apply H; now right|]. rewrite Hb. cbn [bind]. eauto.
Qed.

Lemma row_cells_total header es :
  forallb (fun key => match object_get es key with Some v => is_json_primitive v | None => false end) header = true ->
  exists cells, row_cells header es = Ok cells.
Proof.
  unfold row_cells. induction header as [|f fs IH]; intros H; cbn [map_result]; [eauto|].
  cbn [forallb] in H. apply andb_prop in H as [H1 H2].
  destruct (object_get es f) as [[p| |]|]; try discriminate. cbn [bind].
  destruct (IH H2) as [c Hc]. rewrite Hc. cbn [bind]. eauto.
Qed.

Lemma write_rows_total rows header depth o : is_tabular_array rows header = true ->
  exists ls, write_tabular_rows_lines rows header depth o = Ok ls.
Proof.
  unfold is_tabular_array. induction rows as [|row rows IH]; intros H; cbn [write_tabular_rows_lines]; [eauto|].
  cbn [forallb] in H. apply andb_prop in H as [H1 H2]. destruct row as [p|l|es]; try discriminate.
  cbn [row_matches] in H1. apply andb_prop in H1 as [_ H1]. destruct (row_cells_total _ _ H1) as [c ->].
  cbn [bind]. destruct (IH H2) as [r ->]. cbn [bind]. eauto.
Qed.

Lemma table_total rows header depth o : extract_tabular_header rows = Some header ->
  exists ls, write_tabular_rows_lines rows header depth o = Ok ls.
Proof. intros H. apply extract_header in H as (first & r & -> & _ & _ & H). now apply write_rows_total. Qed.

Lemma fold_chain k v sibs o rl pp fd fr : try_fold_key_chain k v sibs o rl pp fd = Some fr ->
  (exists ks, chain v ks (fr_leaf fr)) /\ (fr_remainder fr = None \/ fr_remainder fr = Some (fr_leaf fr)).
Proof.
  unfold try_fold_key_chain. destruct (ro_key_folding o); [discriminate|].
  destruct (negb (is_json_object v)); [discriminate|]. destruct (N.ltb fd 2); [discriminate|].
  unfold collect_single_key_chain. destruct (collect_chain [k] v fd) as [segs leaf] eqn:Ec.
  apply collect_chain_spec in Ec as (ks & -> & Hc).
  assert (Hcase : exists tail, (tail = None \/ tail = Some leaf) /\
       (match leaf with JObj [] => (rev [k] ++ ks, None, leaf) | JObj (_ :: _) => (rev [k] ++ ks, Some leaf, leaf)
        | _ => (rev [k] ++ ks, None, leaf) end) = (rev [k] ++ ks, tail, leaf)).
  { destruct leaf as [p|l|[|kv l]]; eauto. }
  destruct Hcase as (tail & Ht & ->).
  destruct (Nat.ltb _ 2); [discriminate|]. destruct (forallb _ _); [|discriminate]. cbn [negb].
  destruct (str_mem _ sibs); [discriminate|].
  intros E. assert (E' : fr = FoldResult (join cDOT (rev [k] ++ ks)) tail leaf (length (rev [k] ++ ks))).
  { destruct rl as [rk|]; [destruct (str_mem _ rk); [discriminate|]|]; congruence. }
  subst fr. cbn. eauto.
Qed.

Definition total {A} (r : result A) : Prop := exists a, r = Ok a.

Lemma enc_total o fuel :
  (forall l d rl pp rd, 3 * jsize (JObj l) <= fuel -> total (encode_object_lines fuel l d o rl pp rd)) /\
  (forall k v d sibs rl pp fd, 3 * jsize v + 1 <= fuel ->
     total (encode_key_value_pair_lines fuel k v d o sibs rl pp fd)) /\
  (forall key l d, 3 * jsize (JArr l) <= fuel -> total (encode_array_lines fuel key l d o)) /\
  (forall v d, 3 * jsize v + 2 <= fuel -> total (encode_list_item_value_lines fuel v d o)) /\
  (forall l d, 3 * jsize (JObj l) + 1 <= fuel -> total (encode_object_as_list_item_lines fuel l d o)).
Proof.
  induction fuel as [|fuel (IH1 & IH2 & IH3 & IH4 & IH5)].
  { split; [|split; [|split; [|split]]]; intros; exfalso;
      match goal with
      | H : 3 * jsize ?v <= 0 |- _ => pose proof (size_pos v); lia
      | H : _ <= 0 |- _ => lia
      end. }
  assert (Hitems : forall l d, 3 * jsize (JArr l) <= S fuel ->
      total (concat_results (fun item => encode_list_item_value_lines fuel item d o) l)).
  { intros l d Hf. apply concat_total. intros v Hv. apply IH4. apply size_item in Hv. lia. }
  split; [|split; [|split; [|split]]].
  - intros l d rl pp rd Hf. cbn [encode_object_lines]. cbv zeta. apply concat_total. intros [k v] Hv.
    apply IH2. cbn [snd]. apply size_member in Hv. lia.
  - intros k v d sibs rl pp fd Hf. cbn [encode_key_value_pair_lines]. cbv zeta.
    assert (Hobj : forall l rl pp rd s, jsize (JObj l) <= jsize v ->
       total (let? rest := encode_object_lines fuel l (S d) o rl pp rd in Ok (s :: rest))).
    { intros l rl' pp' rd' s Hs. destruct (IH1 l (S d) rl' pp' rd') as [r ->]; [lia|]. cbn [bind]. eexists; eauto. }
    assert (Hplain : total (match v with
          | JPrim p => Ok [indented_key_value_line d (encode_key k) (encode_primitive p (ro_delimiter o)) (ro_indent o)]
          | JArr items => encode_array_lines fuel (Some k) items d o
          | JObj entries => if is_empty entries then Ok [indented_key_colon_line d (encode_key k) (ro_indent o)]
              else let? rest := encode_object_lines fuel entries (S d) o rl (Some (path_join pp k)) (Some fd) in
                   Ok (indented_key_colon_line d (encode_key k) (ro_indent o) :: rest)
          end)).
    { destruct v as [p|l|l]; [eexists; eauto|apply IH3; lia|]. destruct (is_empty l); [eexists; eauto|]. now apply Hobj. }
    destruct (try_fold_key_chain k v sibs o rl pp fd) as [fr|] eqn:Ef; [|exact Hplain].
    apply fold_chain in Ef as ((ks & Hc) & Hrem). apply size_chain in Hc.
    destruct (fr_remainder fr) as [rem|].
    + destruct Hrem as [Hrem|Hrem]; [discriminate|]. injection Hrem as ->.
      destruct (fr_leaf fr) as [p|l|l]; auto.
    + destruct (fr_leaf fr) as [p|l|l]; [eexists; eauto|apply IH3; lia|].
      destruct (is_empty l); [eexists; eauto|exact Hplain].
  - intros key l d Hf. cbn [encode_array_lines]. cbv zeta.
    assert (Hmixed : total (let? rest := concat_results
                       (fun item => encode_list_item_value_lines fuel item (S d) o) l in
        Ok (indented_line d (format_header (length l) key None (ro_delimiter o)) (ro_indent o) :: rest))).
    { destruct (Hitems l (S d) Hf) as [r ->]. cbn [bind]. eexists; eauto. }
    destruct (is_empty l); [eexists; eauto|]. destruct (is_array_of_primitives l); [eexists; eauto|].
    destruct (is_array_of_arrays l && _); [eexists; eauto|]. destruct (is_array_of_objects l); [|exact Hmixed].
    destruct (extract_tabular_header l) as [h|] eqn:Eh; [|exact Hmixed].
    unfold encode_array_of_objects_as_tabular_lines. cbv zeta.
    destruct (table_total _ _ (S d) o Eh) as [r ->]. cbn [bind]. eexists; eauto.
  - intros v d Hf. cbn [encode_list_item_value_lines]. cbv zeta. destruct v as [p|l|l]; [eexists; eauto| |apply IH5; lia].
    destruct (is_array_of_primitives l); [eexists; eauto|].
    assert (Hc : total (concat_results (fun item => encode_list_item_value_lines fuel item (S d) o) l)).
    { apply Hitems. lia. }
    destruct Hc as [r ->]. cbn [bind]. eexists; eauto.
  - intros l d Hf. cbn [encode_object_as_list_item_lines]. cbv zeta.
    destruct l as [|[k v] rest]; [eexists; eauto|].
    pose proof (size_tail k v rest) as Ht. pose proof (size_member ((k, v) :: rest) k v (or_introl eq_refl)) as Hv.
    assert (Hrest : total (if is_empty rest then Ok [] else encode_object_lines fuel rest (S d) o None None None)).
    { destruct (is_empty rest); [eexists; eauto|]. apply IH1. lia. }
    destruct Hrest as [r ->].
    match goal with |- total (bind ?h _) => assert (Hh : total h) end.
    { destruct v as [p|l|l]; [eexists; eauto| |].
      - assert (Hc : total (concat_results (fun item => encode_list_item_value_lines fuel item (S (S d)) o) l)).
        { apply Hitems. lia. }
        destruct (if is_array_of_objects l then extract_tabular_header l else None) as [h|] eqn:Et.
        + destruct (is_array_of_objects l); [|discriminate].
          destruct (table_total _ _ (S (S d)) o Et) as [r' ->]. cbn [bind]. eexists; eauto.
        + destruct (is_empty l); [eexists; eauto|]. destruct (is_array_of_primitives l); [eexists; eauto|].
          destruct Hc as [r' ->]. cbn [bind]. eexists; eauto.
      - destruct (is_empty l); [eexists; eauto|].
        destruct (IH1 l (S (S d)) None None None) as [r' ->]; [lia|]. cbn [bind]. eexists; eauto. }
    destruct Hh as [h ->]. cbn [bind]. eexists; eauto.
Qed.

Lemma encode_json_value_total v o : exists ls, encode_json_value v o = Ok ls.
Proof.
  unfold encode_json_value, enc_fuel. cbv zeta. destruct v as [p|l|l].
  - destruct (is_empty _); eauto.
  - apply enc_total. lia.
  - apply enc_total. lia.
Qed.
