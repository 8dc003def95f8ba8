(** The encoder and the decoder composed, without key folding. *)
From Verif Require Import Chars Floats Json JsonInd JsonEq Shared EncPrim Normalize Folding Encoders EncodeApi
  Scanner Parser DecValidation Decoders EventBuilder Expand DecodeApi Lex NumProof Spec DecRel DecProps
  DecRelax Layout LayEnc LayFacts EncTotal WrittenProps.
From Coq Require Import Permutation.

Local Open Scope nat_scope.

Lemma emit_describes v : describes (fun n k => n = N.of_nat k) (emit_events v) v.
Proof.
  induction v using json_ind'; cbn [emit_events]; constructor; auto.
  - induction H; cbn [flat_map]; constructor; auto.
  - induction H as [|[k v] l Hv _ IH]; cbn [flat_map]; [constructor|]. cbn [fst snd app]. now constructor.
Qed.

Lemma emit_builds v : exists n, build_node_from_events (emit_events v) = Ok n /\ node_to_json n = v.
Proof. eapply describes_build, emit_describes. Qed.

(** The text of lines splits into the lines again, except that no line becomes one empty line. *)
Lemma split_lines ls : Forall (fun s => ~ In cLF s) ls ->
  split_on cLF (join cLF ls) = match ls with [] => [[]] | _ => ls end.
Proof. intros H. destruct ls; [reflexivity|]. apply split_join; [discriminate|auto]. Qed.

Lemma stream_empty_line o : decode_stream_sync [[]] o = decode_stream_sync [] o.
Proof.
  unfold decode_stream_sync. cbv zeta. cbn [parse_lines_sync]. rewrite parse_line_eq. reflexivity.
Qed.

Lemma stream_text ls o : Forall (fun s => ~ In cLF s) ls ->
  decode_stream_sync (split_on cLF (join cLF ls)) o = decode_stream_sync ls o.
Proof. intros H. rewrite split_lines by auto. destruct ls; [apply stream_empty_line|reflexivity]. Qed.

(** Options without folding and replacer, a standard delimiter, a positive indentation. *)
Definition plain_options (eo : option encode_options) : Prop :=
  let o := resolve_encode_options eo in
  ro_key_folding o = KFOff /\ ro_replacer o = None /\ std_delim (ro_delimiter o) /\ ro_indent o <> 0.
(** The decoder is told the indentation and does not expand paths. *)
Definition matching_options (eo : option encode_options) (d : option decode_options) : Prop :=
  rd_indent (resolve_decode_options d) = ro_indent (resolve_encode_options eo) /\
  rd_expand (resolve_decode_options d) = EPOff.

Lemma encode_layout fuel v eo : plain_options eo -> distinct_keys v -> portable v ->
  exists abs w, encode_lines fuel v eo = Ok (map (render (ro_indent (resolve_encode_options eo))) abs) /\
    lay_root True (ro_delimiter (resolve_encode_options eo)) w abs /\
    written false true (normalize_json_value v) w.
Proof.
  intros (Hf & Hr & Hd & Hi) Hk Hp. unfold encode_lines, prepare. cbv zeta. rewrite Hr. cbn [bind].
  set (o := resolve_encode_options eo) in *.
  destruct (encode_json_value_total (normalize_json_value v) o) as [ls E]. rewrite E.
  assert (Hg : good True true (normalize_json_value v)).
  { intros _. pose proof (normalize_spec v) as Hn. split; [eapply norm_distinct; eauto|].
    split; [eapply norm_portable; eauto|eapply norm_canonical; eauto]. }
  destruct (json_value_lay True o _ _ E Hg Hd) as (w & abs & L & -> & W).
  unfold folding in W. rewrite Hf in W. eauto.
Qed.

Lemma round_trip fuel v eo : plain_options eo -> distinct_keys v -> portable v ->
  exists ls w, encode_lines fuel v eo = Ok ls /\ Forall (fun s => ~ In cLF s) ls /\
    written false true (normalize_json_value v) w /\
    forall strict, decode_stream_sync ls (Some (DStreamOpts (Some (ro_indent (resolve_encode_options eo))) (Some strict)))
                   = Ok (emit_events w).
Proof.
  intros Ho Hk Hp. destruct (encode_layout fuel v eo Ho Hk Hp) as (abs & w & E & L & W).
  destruct Ho as (_ & _ & Hd & Hi). eexists _, w. split; [exact E|]. split; [|split; auto].
  - apply render_no_lf. eapply lay_root_clean; eauto.
  - intros strict. eapply layout_decodes; eauto.
Qed.

Lemma decode_plain ls w eo d : matching_options eo d ->
  (forall strict, decode_stream_sync ls (Some (DStreamOpts (Some (ro_indent (resolve_encode_options eo))) (Some strict)))
                   = Ok (emit_events w)) ->
  try_decode_from_lines ls d = Ok w.
Proof.
  intros [Hi He] H. unfold try_decode_from_lines. cbv zeta. rewrite Hi, He, H. cbn [bind].
  destruct (emit_builds w) as (n & -> & Hn). cbn [bind]. now rewrite Hn.
Qed.

Lemma decode_plain_text ls w eo d : matching_options eo d -> Forall (fun s => ~ In cLF s) ls ->
  (forall strict, decode_stream_sync ls (Some (DStreamOpts (Some (ro_indent (resolve_encode_options eo))) (Some strict)))
                   = Ok (emit_events w)) ->
  try_decode (join cLF ls) d = Ok w.
Proof.
  intros Hm Hl H. unfold try_decode. eapply decode_plain; eauto. intros strict. now rewrite stream_text.
Qed.

Lemma jequiv_canonical v : forall w, jequiv v w -> canonical v -> canonical w.
Proof.
  induction v using json_ind'; intros w Hw Hc; inversion Hw as [|? ? F|? l' ? P F]; subst;
    inversion Hc as [? C|? C|? C]; subst; constructor; auto.
  - clear Hw Hc. induction F; constructor; inversion H; inversion C; subst; auto.
  - assert (C' : Forall (fun kv => canonical (snd kv)) l').
    { rewrite Forall_forall in *. intros x Hx. apply C. eapply Permutation_in; [apply Permutation_sym; eauto|auto]. }
    assert (H' : Forall (fun kv => forall w, jequiv (snd kv) w -> canonical (snd kv) -> canonical w) l').
    { rewrite Forall_forall in *. intros x Hx. apply H. eapply Permutation_in; [apply Permutation_sym; eauto|auto]. }
    clear - F C' H'. induction F as [|a b l m [E R] F IH]; constructor; inversion H'; inversion C'; subst; auto.
Qed.

(** ** Values that differ in the text of strings only *)

Lemma shape_keys l m : Forall2 (fun a b : str * json => fst a = fst b /\ same_shape (snd a) (snd b)) l m ->
  map fst m = map fst l.
Proof. induction 1 as [|a b l m [E _] _ IH]; cbn; congruence. Qed.

Lemma shape_prim v w : same_shape v w -> is_json_primitive v = is_json_primitive w.
Proof. now intros []. Qed.

Lemma shape_get l m k : Forall2 (fun a b : str * json => fst a = fst b /\ same_shape (snd a) (snd b)) l m ->
  match object_get l k, object_get m k with
  | Some v, Some w => same_shape v w
  | None, None => True
  | _, _ => False
  end.
Proof.
  induction 1 as [|[k1 v1] [k2 v2] l m [E H] _ IH]; cbn in *; auto. subst k2. destruct (str_eqb k1 k); auto.
Qed.

Lemma shape_row fields v w : same_shape v w -> row_matches fields v = row_matches fields w.
Proof.
  intros [p|s s'|l m F|l m F]; auto. cbn [row_matches]. rewrite (Forall2_length _ _ _ F). f_equal.
  induction fields as [|f fs IH]; cbn [forallb]; auto. f_equal; auto.
  pose proof (shape_get l m f F) as H. destruct (object_get l f), (object_get m f); try tauto. now apply shape_prim.
Qed.

Lemma shape_header l m : Forall2 same_shape l m -> extract_tabular_header l = extract_tabular_header m.
Proof.
  intros F. destruct F as [|a b l m H F]; auto.
  assert (X : forall h, is_tabular_array (a :: l) h = is_tabular_array (b :: m) h).
  { intros h. unfold is_tabular_array. cbn [forallb]. rewrite (shape_row h a b H). f_equal. clear - F.
    induction F; cbn [forallb]; auto. f_equal; auto. now apply shape_row. }
  destruct H as [p|s s'|l' m' F'|l' m' F']; auto. destruct F' as [|x y l' m' E F']; auto.
  unfold extract_tabular_header. cbv zeta. rewrite X.
  assert (K : map fst (x :: l') = map fst (y :: m')) by (symmetry; apply shape_keys; now constructor). now rewrite K.
Qed.

Lemma shape_row_json fields a b c c' : same_shape a b -> row_of_fields fields a c -> row_of_fields fields b c' ->
  same_shape (row_json fields c) (row_json fields c').
Proof.
  intros H (es & -> & _ & F) (es' & -> & _ & F'). inversion H as [| | |? ? S]; subst. unfold row_json. constructor.
  clear H. revert c' F'. induction F as [|f p fs ps E _ IH]; intros c' F'; inversion F' as [|? p' ? ps' E' F0]; subst;
    cbn [map combine]; constructor; auto. cbn [fst snd]. split; auto.
  pose proof (shape_get _ _ f S) as X. now rewrite E, E' in X.
Qed.

Lemma written_shape :
  (forall t v w, written false t v w -> forall v' w', same_shape v v' -> written false t v' w' -> same_shape w w') /\
  (forall l m, written_items false l m -> forall l' m', Forall2 same_shape l l' -> written_items false l' m' ->
     Forall2 same_shape m m') /\
  (forall sibs l m, written_fields false sibs l m -> forall sibs' l' m',
     Forall2 (fun a b : str * json => fst a = fst b /\ same_shape (snd a) (snd b)) l l' ->
     written_fields false sibs' l' m' ->
     Forall2 (fun a b : str * json => fst a = fst b /\ same_shape (snd a) (snd b)) m m') /\
  (forall sibs a b, written_field false sibs a b -> forall sibs' a' b', fst a = fst a' -> same_shape (snd a) (snd a') ->
     written_field false sibs' a' b' -> fst b = fst b' /\ same_shape (snd b) (snd b')).
Proof.
  apply written_mutind.
  - intros t p v' w' Hs H. inversion Hs; subst; inversion H; subst; constructor.
  - intros t l m Hn _ IH v' w' Hs H. inversion Hs as [| |? l' F|]; subst. inversion H; subst; [constructor; eauto|].
    rewrite (shape_header _ _ F) in Hn. specialize (Hn eq_refl). congruence.
  - intros first r fields rows Hk Hne He HF v' w' Hs H. inversion Hs as [| |? l' F|]; subst.
    inversion H as [|? ? m' Hn _|first' r' fields' rows' Hk' Hne' He' HF'| |]; subst.
    + rewrite (shape_header _ _ F) in He. specialize (Hn eq_refl). congruence.
    + rewrite (shape_header _ _ F), He' in He. injection He as He. rewrite He in *.
      constructor. clear - F HF HF'. revert rows HF rows' HF'.
      induction F as [|a b l l' Hab _ IH]; intros rows HF rows' HF'; inversion HF; inversion HF'; subst;
        cbn [map]; constructor; auto. eapply shape_row_json; eauto.
  - intros t l m _ IH v' w' Hs H. inversion Hs as [| | |? l' F]; subst.
    inversion H as [| | |? ? m' Hf|k v l0 w m' Hv Hf]; subst; constructor.
    + eapply IH; eauto.
    + eapply (IH (map fst ((k, v) :: l0))); [exact F|]. constructor; [now constructor|].
      clear - Hf. revert Hf. generalize ((k, v) :: l0) at 1. intros l Hf. induction Hf; constructor; auto.
      inversion H; subst; [now constructor|discriminate].
  - intros k v l w m Hv IH1 Hf IH2 v' w' Hs H. inversion Hs as [| | |? l' F]; subst.
    inversion F as [|? [k' v'] ? l'' [Ek Hvv] F']; subst. cbn [fst snd] in *. subst k'.
    inversion H as [| | |? ? m' Hf'|? ? ? w0 m' Hv' Hf']; subst; constructor.
    + inversion Hf' as [|? ? b ? m0 Hb Hm]; subst. inversion Hb; subst; [|discriminate]. constructor; [cbn; eauto|eauto].
    + constructor; [cbn; eauto|eauto].
  - intros l' m' F H. inversion F; subst. inversion H; subst. constructor.
  - intros v w l m _ IH1 _ IH2 l' m' F H. inversion F; subst. inversion H; subst. constructor; eauto.
  - intros sibs sibs' l' m' F H. inversion F; subst. inversion H; subst. constructor.
  - intros sibs a b l m _ IH1 _ IH2 sibs' l' m' F H. inversion F as [|? ? ? ? [E1 E2]]; subst.
    inversion H; subst. constructor; eauto.
  - intros sibs k v w _ IH sibs' [k' v'] b' Ek Hs H. cbn [fst snd] in *. subst k'.
    inversion H; subst; [cbn [fst snd]; eauto|discriminate].
  - discriminate.
Qed.

Lemma shape_distinct v : forall w, same_shape v w -> distinct_keys v -> distinct_keys w.
Proof.
  induction v using json_ind'; intros w Hn Hd; inversion Hn as [| |? ? F|? ? F]; subst;
    inversion Hd as [|? D|? D0 D]; subst; constructor.
  - clear Hn Hd. induction F; constructor; inversion H; inversion D; subst; auto.
  - rewrite (shape_keys _ _ F). auto.
  - clear Hn Hd D0. induction F as [|a b l m [E R] F IH]; constructor; inversion H; inversion D; subst; auto.
Qed.

Lemma shape_norm v : forall w, same_shape v w -> same_shape (normalize_json_value v) (normalize_json_value w).
Proof.
  induction v using json_ind'; intros w Hs; inversion Hs as [| |? ? F|? ? F]; subst; cbn [normalize_json_value];
    try constructor; clear Hs; induction F as [|a b l m R F IH]; cbn [map]; constructor; inversion H; subst; auto.
  destruct R as [E R], a, b. cbn in *. auto.
Qed.

Lemma shape_tabular l m fields : Forall2 same_shape l m -> tabular l fields -> tabular m fields.
Proof.
  intros F (Hne & (first & r & -> & Hf) & Hall). split; auto. split.
  - inversion F as [|? a ? l0 Ha F0]; subst. inversion Ha as [| | |? es Fe]; subst. exists es, l0. split; auto.
    now apply shape_keys.
  - clear Hf Hne. induction F as [|a b l m Ha F IH]; [constructor|]. inversion Hall as [|? ? Hb Hall']; subst.
    constructor; auto. destruct Hb as (es & -> & P & A). inversion Ha as [| | |? es0 Fe]; subst.
    exists es0. split; auto. rewrite (shape_keys _ _ Fe). split; auto.
    clear - Fe A. induction Fe as [|x y l m [_ Hxy] _ IH]; constructor; inversion A as [|? ? [p Ep]]; subst; auto.
    rewrite Ep in Hxy. inversion Hxy; eauto.
Qed.

Lemma shape_sym v : forall w, same_shape v w -> same_shape w v.
Proof.
  induction v using json_ind'; intros w Hs; inversion Hs as [| |? ? F|? ? F]; subst; constructor; clear Hs.
  - induction F; constructor; inversion H; subst; auto.
  - induction F as [|a b l m [E R] F IH]; constructor; inversion H; subst; auto.
Qed.

Lemma guarded_shape v : forall t w, same_shape v w -> guarded_at t v -> guarded_at t w.
Proof.
  induction v using json_ind'; intros t w Hs Hg; inversion Hs as [| |? ? F|? ? F]; subst; [constructor|constructor| |].
  - assert (Hlen := Forall2_length _ _ _ F). inversion Hg as [|? ? Hl Hf Hi|? fields Hl Ht Hf|]; subst.
    + apply gu_list; [now rewrite <- Hlen| |].
      * intros E fields T. apply (Hf E fields). eapply shape_tabular; [|exact T].
        clear - F. induction F; constructor; auto using shape_sym.
      * clear Hs Hg Hl Hf Hlen. induction F; constructor; inversion H; inversion Hi; subst; auto.
    + apply (gu_table _ fields); auto; [now rewrite <- Hlen|]. eapply shape_tabular; eauto.
  - inversion Hg as [| | |? ? Hb Hi]; subst. constructor.
    + clear - F Hb. induction F as [|a b l m [E R] F IH]; constructor; inversion Hb as [|? ? Ha]; subst; auto.
      intros (s & Es). rewrite <- E. apply Ha. rewrite Es in R. inversion R; eauto.
    + clear Hs Hg Hb. induction F as [|a b l m [E R] F IH]; constructor; inversion H; inversion Hi; subst; auto.
Qed.

Lemma guarded_portable v : forall t, guarded_at t v -> portable_at t v.
Proof.
  induction v using json_ind'; intros t Hg; inversion Hg as [|? ? Hl Hf Hi|? fields Hl Ht Hf|? ? Hb Hi]; subst;
    [constructor| | |].
  - apply po_list; auto. rewrite Forall_forall in *. auto.
  - now apply (po_table _ fields).
  - constructor; rewrite Forall_forall in *; auto. intros kv Hk s Es Hbk. exfalso. eapply Hb; eauto.
Qed.
