(** The encoder writes layouts: what the value becomes on the way (rows of tables follow the
    header; folded keys), and that the lines are the rendering of a layout of that. *)
From Verif Require Import Chars Floats Json JsonInd Shared EncPrim Normalize Folding Encoders EncodeApi DecRel
  Lex NumProof PrimProof Spec ParseProof Layout.
From Coq Require Import Permutation.

Local Open Scope nat_scope.

Definition render (ind : nat) (a : aline) : str := indented_line (fst a) (snd a) ind.

(** Row [v] has exactly the fields [fields] (by number), with primitive values [cells]. *)
Definition row_of_fields (fields : list str) (v : json) (cells : list prim) : Prop :=
  exists es, v = JObj es /\ length es = length fields /\
    Forall2 (fun f p => object_get es f = Some (JPrim p)) fields cells.

Section Written.
Variable fold : bool.

(** The value the document spells out.  The flag tells whether the value is in a position where an
    array may be written as a table: not as an item of a list. *)
Inductive written : bool -> json -> json -> Prop :=
| wr_prim t p : written t (JPrim p) (JPrim p)
| wr_arr t l m : (t = true -> extract_tabular_header l = None) -> written_items l m ->
    written t (JArr l) (JArr m)
| wr_table first r fields rows :
    map fst first = fields -> fields <> [] -> extract_tabular_header (JObj first :: r) = Some fields ->
    Forall2 (row_of_fields fields) (JObj first :: r) rows ->
    written true (JArr (JObj first :: r)) (JArr (map (row_json fields) rows))
| wr_obj t l m : written_fields (map fst l) l m -> written t (JObj l) (JObj m)
| wr_item k v l w m : written true v w -> written_fields (map fst l) l m ->
    written false (JObj ((k, v) :: l)) (JObj ((k, w) :: m))
with written_items : list json -> list json -> Prop :=
| wi_nil : written_items [] []
| wi_cons v w l m : written false v w -> written_items l m -> written_items (v :: l) (w :: m)
with written_fields : list str -> list (str * json) -> list (str * json) -> Prop :=
| wf_nil sibs : written_fields sibs [] []
| wf_cons sibs a b l m : written_field sibs a b -> written_fields sibs l m ->
    written_fields sibs (a :: l) (b :: m)
with written_field : list str -> str * json -> str * json -> Prop :=
| wf_keep sibs k v w : written true v w -> written_field sibs (k, v) (k, w)
| wf_fold sibs k v ks leaf w : fold = true -> ks <> [] -> chain v ks leaf ->
    Forall (fun s => is_identifier_segment s = true) (k :: ks) ->
    ~ In (join cDOT (k :: ks)) sibs -> written true leaf w ->
    written_field sibs (k, v) (join cDOT (k :: ks), w).
End Written.

Scheme written_ind' := Minimality for written Sort Prop
  with written_items_ind' := Minimality for written_items Sort Prop
  with written_fields_ind' := Minimality for written_fields Sort Prop
  with written_field_ind' := Minimality for written_field Sort Prop.
Combined Scheme written_mutind from written_ind', written_items_ind', written_fields_ind',
  written_field_ind'.

(** * Helpers *)

Lemma Forall2_length {A B} (R : A -> B -> Prop) l m : Forall2 R l m -> length l = length m.
Proof. induction 1; cbn; congruence. Qed.

Lemma str_eqb_spec a b : reflect (a = b) (str_eqb a b).
Proof. apply iff_reflect. symmetry. apply str_eqb_eq. Qed.

Lemma object_get_in es k v : object_get es k = Some v -> In (k, v) es.
Proof.
  induction es as [|[k' v'] es IH]; cbn; [discriminate|].
  destruct (str_eqb_spec k' k) as [->|]; [|auto]. intros E. injection E as ->. now left.
Qed.
Lemma object_get_nodup es k v : NoDup (map fst es) -> In (k, v) es -> object_get es k = Some v.
Proof.
  induction es as [|[k' v'] es IH]; cbn; [tauto|]. intros Hnd [E|Hi].
  - injection E as -> ->. now rewrite str_eqb_refl.
  - inversion Hnd; subst. destruct (str_eqb_spec k' k) as [->|]; [|auto].
    exfalso. apply H1. apply in_map_iff. now exists (k, v).
Qed.

Lemma prims_of_map l : is_array_of_primitives l = true -> exists ps, l = map JPrim ps /\ prims_of l = ps.
Proof.
  induction l as [|[p| |] l IH]; cbn; intros H; try discriminate.
  - now exists [].
  - destruct IH as (ps & -> & E); auto. exists (p :: ps). split; auto. unfold prims_of in *. cbn. now rewrite E.
Qed.

Lemma collect_chain_spec v : forall segs max r leaf, collect_chain segs v max = (r, leaf) ->
  exists ks, r = rev segs ++ ks /\ chain v ks leaf.
Proof.
  induction v using json_ind'; intros segs max r leaf E; cbn [collect_chain] in E;
    destruct (N.ltb (N.of_nat (length segs)) max);
    try (injection E as <- <-; exists []; split; [now rewrite app_nil_r|constructor]).
  destruct l as [|[k v] [|kv' l]];
    try (injection E as <- <-; exists []; split; [now rewrite app_nil_r|constructor]).
  inversion H as [|? ? Hv _]; subst. cbn in Hv. apply Hv in E as (ks & -> & Hc).
  exists (k :: ks). split; [cbn [rev]; now rewrite <- app_assoc|now constructor].
Qed.

Lemma row_cells_ok header es cells : row_cells header es = Ok cells ->
  Forall2 (fun f p => object_get es f = Some (JPrim p)) header cells.
Proof.
  unfold row_cells. revert cells. induction header as [|f fs IH]; intros cells E; cbn [map_result] in E.
  - injection E as <-. constructor.
  - destruct (object_get es f) as [[p| |]|] eqn:Eg; cbn [bind] in E; try discriminate.
    destruct (map_result _ fs) as [ys|] eqn:E2; [|discriminate]. cbn [bind] in E. injection E as <-.
    constructor; auto.
Qed.

Lemma write_rows_ok rows header depth o : is_tabular_array rows header = true ->
  forall ls, write_tabular_rows_lines rows header depth o = Ok ls ->
  exists cells, Forall2 (row_of_fields header) rows cells /\
    ls = map (render (ro_indent o))
           (map (fun r => (depth, encode_and_join_primitives r (ro_delimiter o))) cells).
Proof.
  unfold is_tabular_array.
  induction rows as [|row rows IH]; intros Ht ls E; cbn [write_tabular_rows_lines] in E.
  - injection E as <-. exists []. split; [constructor|reflexivity].
  - cbn [forallb] in Ht. apply andb_prop in Ht as [Hr Ht]. destruct row as [p|l|es]; try discriminate.
    destruct (row_cells header es) as [c|] eqn:Ec; [|discriminate]. cbn [bind] in E.
    destruct (write_tabular_rows_lines rows header depth o) as [rest|] eqn:Er; [|discriminate].
    cbn [bind] in E. injection E as <-. destruct (IH Ht rest eq_refl) as (cells & Hc & ->).
    exists (c :: cells). split; [|reflexivity]. constructor; auto. exists es. split; auto.
    cbn in Hr. apply andb_prop in Hr as [Hl _]. apply Nat.eqb_eq in Hl. split; auto. now apply row_cells_ok.
Qed.

Lemma extract_header rows header : extract_tabular_header rows = Some header ->
  exists first r, rows = JObj first :: r /\ map fst first = header /\ header <> [] /\
    is_tabular_array rows header = true.
Proof.
  unfold extract_tabular_header. destruct rows as [|[p|l|[|kv first]] r]; try discriminate.
  cbv zeta. destruct (is_tabular_array _ _) eqn:E; [|discriminate]. intros H. injection H as <-.
  exists (kv :: first), r. repeat split; auto. discriminate.
Qed.

Lemma row_cells_length fields v cells : row_of_fields fields v cells -> length cells = length fields.
Proof. intros (es & _ & _ & H). symmetry. eapply Forall2_length; eauto. Qed.

Lemma NoDup_same_length (a b : list str) : NoDup a -> length b = length a -> incl a b -> Permutation b a.
Proof.
  intros Hn Hl Hi. apply Permutation_sym. apply NoDup_Permutation_bis; auto. lia.
Qed.

(** Rows accepted by the encoder are a table in the sense of the specification. *)
Lemma rows_tabular first r fields : Forall distinct_keys (JObj first :: r) -> map fst first = fields ->
  fields <> [] -> is_tabular_array (JObj first :: r) fields = true -> tabular (JObj first :: r) fields.
Proof.
  intros Hd <- Hne Ht. split; auto. split; [eauto|].
  assert (Hnd : NoDup (map fst first)) by (inversion Hd as [|? ? Hf]; subst; now inversion Hf).
  unfold is_tabular_array in Ht. rewrite forallb_forall in Ht. rewrite Forall_forall in *.
  intros v Hv. specialize (Ht v Hv). specialize (Hd v Hv). destruct v as [p|l|es]; try discriminate.
  exists es. split; auto. cbn in Ht. apply andb_prop in Ht as [Hl Hk]. apply Nat.eqb_eq in Hl.
  rewrite forallb_forall in Hk. inversion Hd as [| |? Hnd' _]; subst.
  assert (Hincl : incl (map fst first) (map fst es)).
  { intros k Hi. specialize (Hk k Hi). destruct (object_get es k) as [w|] eqn:E; [|discriminate].
    apply object_get_in in E. apply in_map_iff. now exists (k, w). }
  assert (Hp : Permutation (map fst es) (map fst first)).
  { apply NoDup_same_length; auto. now rewrite !map_length in *. }
  split; auto. apply Forall_forall. intros [k w] Hi.
  assert (Hin : In k (map fst first)).
  { eapply Permutation_in; [exact Hp|]. apply in_map_iff. now exists (k, w). }
  specialize (Hk k Hin). rewrite (object_get_nodup _ _ _ Hnd' Hi) in Hk. cbn.
  destruct w; try discriminate. eauto.
Qed.

Lemma tabular_rows l fields : Forall distinct_keys l -> tabular l fields ->
  extract_tabular_header l = Some fields.
Proof.
  intros Hd (Hne & (first & r & -> & Hf) & Hall). unfold extract_tabular_header.
  destruct first as [|kv first]; [cbn in Hf; congruence|]. rewrite Hf.
  assert (E : is_tabular_array (JObj (kv :: first) :: r) fields = true).
  { apply forallb_forall. intros v Hv. rewrite Forall_forall in *. specialize (Hall v Hv).
    destruct Hall as (es & -> & Hp & Hprim). specialize (Hd _ Hv). inversion Hd as [| |? Hnd _]; subst.
    cbn [row_matches]. apply andb_true_intro. split.
    - apply Nat.eqb_eq. apply Permutation_length in Hp. now rewrite map_length in Hp.
    - apply forallb_forall. intros k Hk. eapply Permutation_in in Hk; [|apply Permutation_sym; exact Hp].
      apply in_map_iff in Hk as ([k' w] & E & Hi). cbn in E. subst k'.
      rewrite (object_get_nodup _ _ _ Hnd Hi). rewrite Forall_forall in Hprim.
      destruct (Hprim _ Hi) as [p Ep]. cbn in Ep. now subst. }
  now rewrite E.
Qed.

(** * The encoder *)

Section Enc.
Variable G : Prop.
Variable o : renc_options.

Definition folding : bool := match ro_key_folding o with KFOff => false | KFSafe => true end.
Notation dl := (ro_delimiter o).
Notation ind := (ro_indent o).

Definition good (t : bool) (v : json) : Prop := G -> distinct_keys v /\ portable_at t v /\ canonical v.
Definition good_member (k : str) (v : json) : Prop :=
  good true v /\ (G -> forall s, v = JPrim (PStr s) -> bare_key k -> ~ header_like s).

Lemma good_items t l : (t = true -> extract_tabular_header l = None) -> good t (JArr l) -> Forall (good false) l.
Proof.
  intros Ht H. apply Forall_forall. intros v Hv HG. specialize (H HG) as (H1 & H2 & H3).
  inversion H1 as [|? A1|]; inversion H2 as [|? ? ? ? A2|? ? ? T|]; inversion H3 as [|? A3|]; subst.
  - rewrite Forall_forall in *. auto.
  - apply tabular_rows in T; auto. rewrite Ht in T; [discriminate|reflexivity].
Qed.
Lemma good_members t l : good t (JObj l) -> Forall (fun kv => good_member (fst kv) (snd kv)) l.
Proof.
  intros H. apply Forall_forall. intros kv Hv.
  assert (H' : G -> (distinct_keys (snd kv) /\ portable_at true (snd kv) /\ canonical (snd kv)) /\
      forall s, snd kv = JPrim (PStr s) -> bare_key (fst kv) -> ~ header_like s).
  { intros HG. specialize (H HG) as (H1 & H2 & H3).
    inversion H1 as [| |? ? A1]; inversion H2 as [| | |? ? B A2]; inversion H3 as [| |? A3]; subst.
    rewrite Forall_forall in *. split; [split; [|split]|]; auto. exact (B kv Hv). }
  split; intros HG; now apply H'.
Qed.
Lemma good_prim t p : good t (JPrim p) -> G -> json_prim p.
Proof. intros H HG. specialize (H HG) as (_ & _ & H). now inversion H. Qed.
Lemma good_prim_member k p : good_member k (JPrim p) -> G -> member_ok k p.
Proof.
  intros [H1 H2] HG. split; [now apply good_prim in H1|]. intros s -> Hk. eapply H2; eauto.
Qed.
Lemma good_tail t k v l : good t (JObj ((k, v) :: l)) -> good t (JObj l).
Proof.
  intros H HG. specialize (H HG) as (H1 & H2 & H3).
  inversion H1 as [| |? A0 A1]; inversion H2 as [| | |? ? B A2]; inversion H3 as [| |? A3]; subst.
  inversion A0; inversion A1; inversion A2; inversion A3; inversion B; subst. repeat split; now constructor.
Qed.

Lemma good_chain v ks leaf : chain v ks leaf -> good true v -> good true leaf.
Proof.
  induction 1; auto. intros Hg. apply good_members in Hg. inversion Hg as [|? ? Hv _]; subst. apply IHchain, Hv.
Qed.

Lemma identifier_bare k : is_identifier_segment k = true -> bare_key k.
Proof.
  destruct k as [|c r]; [discriminate|]. cbn. intros E. apply andb_prop in E as [E1 E2].
  exists c, r. split; auto. split.
  - unfold is_alpha in E1. unfold letter. lia.
  - apply Forall_forall. intros x Hx. rewrite forallb_forall in E2. apply E2 in Hx.
    unfold is_alnum, is_alpha, is_digit in Hx. unfold letter, digit. lia.
Qed.

(** The last segment of a folded key is an identifier, so the value under it is fine. *)
Lemma good_chain_member v ks leaf key : chain v ks leaf -> ks <> [] ->
  Forall (fun s => is_identifier_segment s = true) ks -> good true v -> good_member key leaf.
Proof.
  intros Hc Hne Hi Hg. split; [eapply good_chain; eauto|]. intros HG s E _.
  clear key. induction Hc as [v|k v ks leaf Hc IH]; [congruence|].
  apply good_members in Hg. inversion Hg as [|? ? [Hg1 Hg2] _]; subst. cbn in *.
  inversion Hi as [|? ? Hk Hks]; subst. destruct ks as [|k' ks].
  - inversion Hc; subst. eapply Hg2; eauto. now apply identifier_bare.
  - eapply IH; auto. discriminate.
Qed.

Lemma inline_line t l key : is_array_of_primitives l = true -> good t (JArr l) -> forall d,
  exists c, lay_arr G dl key d l [(d, c)] /\ encode_inline_array_line l dl key = c.
Proof.
  intros H Hg d. destruct (prims_of_map l H) as (ps & -> & Ep).
  unfold encode_inline_array_line. rewrite Ep. destruct ps as [|p ps].
  - cbn [map is_empty]. eexists. split; [|reflexivity]. apply la_list; [intros _; cbn; lia|constructor].
  - cbn [is_empty]. eexists. split; [|reflexivity]. rewrite map_length. apply la_inline; [discriminate| |].
    + intros HG. specialize (Hg HG) as (_ & Hp & _). assert (Hl : (N.of_nat (length (map JPrim (p :: ps))) <= 100000000)%N) by now inversion Hp.
      now rewrite <- (map_length JPrim (p :: ps)).
    + intros HG. apply good_items in Hg; [|reflexivity]. apply Forall_forall. intros q Hq. rewrite Forall_forall in Hg.
      apply (good_prim false q); auto. apply Hg. now apply in_map.
Qed.

Lemma good_cap t (l : list json) : good t (JArr l) -> cap G l.
Proof. intros Hg HG. specialize (Hg HG) as (_ & Hp & _). now inversion Hp. Qed.

Lemma table_lines key d l header ls : good true (JArr l) -> extract_tabular_header l = Some header ->
  write_tabular_rows_lines l header (S d) o = Ok ls ->
  exists m abs, lay_arr G dl key d m ((d, format_header (length l) key (Some header) dl) :: abs) /\
    ls = map (render ind) abs /\ forall f, written f true (JArr l) (JArr m).
Proof.
  intros Hg He Hw. pose proof He as He0. apply extract_header in He as (first & r & -> & Hf & Hne & Ht).
  apply write_rows_ok in Hw as (cells & Hc & ->); auto.
  eexists _, _. split; [|split; [reflexivity|intros f; eapply wr_table; eauto]].
  assert (Hlen : length (JObj first :: r) = length cells) by (eapply Forall2_length; eauto).
  rewrite Hlen. apply la_table; auto.
  - intros HG. apply good_cap in Hg. specialize (Hg HG). now rewrite <- Hlen.
  - intros HG. specialize (Hg HG) as (Hd & Hp & _). inversion Hd as [|? Hd'|]; subst.
    pose proof (rows_tabular first r _ Hd' eq_refl Hne Ht) as T.
    inversion Hp as [|? ? ? Hn|? fields ? (_ & (f' & r' & Ef & <-) & _) Hrb|]; subst.
    + now destruct (Hn eq_refl _ T).
    + now injection Ef as -> ->.
  - intros HG. specialize (Hg HG) as (_ & _ & Hg). inversion Hg as [|? Hg'|]; subst. clear - Hc Hg'.
    induction Hc as [|v c l cells Hr Hc IH]; constructor.
    + inversion Hg' as [|? ? Hv _]; subst. destruct Hr as (es & -> & _ & Hr). inversion Hv as [| |? Hv']; subst.
      clear - Hr Hv'. induction Hr as [|f p fs ps Hp Hr IH]; constructor; auto.
      apply object_get_in in Hp. rewrite Forall_forall in Hv'. apply Hv' in Hp. now inversion Hp.
    + inversion Hg'; subst. auto.
  - clear - Hc. induction Hc; constructor; auto. eapply row_cells_length; eauto.
Qed.

Lemma render_cons a abs : map (render ind) (a :: abs) = render ind a :: map (render ind) abs.
Proof. reflexivity. Qed.

Lemma items_of_concat f d l ls :
  Forall (fun v => good false v -> forall ls, f v = Ok ls ->
            exists w abs, lay_item G dl d w abs /\ ls = map (render ind) abs /\ written folding false v w) l ->
  Forall (good false) l -> concat_results f l = Ok ls ->
  exists m abs, lay_items G dl d m abs /\ ls = map (render ind) abs /\ written_items folding l m.
Proof.
  intros Hf. revert ls. induction Hf as [|v l Hv _ IH]; intros ls Hg E; cbn [concat_results] in E.
  - injection E as <-. exists [], []. repeat split; constructor.
  - inversion Hg; subst. destruct (f v) as [a|] eqn:Ea; [|discriminate]. cbn [bind] in E.
    destruct (concat_results f l) as [b|] eqn:Eb; [|discriminate]. cbn [bind] in E. injection E as <-.
    destruct (Hv H1 a eq_refl) as (w & abs1 & L1 & -> & W1).
    destruct (IH b H2 eq_refl) as (m & abs2 & L2 & -> & W2).
    exists (w :: m), (abs1 ++ abs2). rewrite map_app. repeat split; [econstructor; eauto|constructor; auto].
Qed.

Lemma written_items_length f l m : written_items f l m -> length l = length m.
Proof. induction 1; cbn; congruence. Qed.

Lemma list_arr t0 key d l m abs : good t0 (JArr l) -> lay_items G dl (S d) m abs -> written_items folding l m ->
  lay_arr G dl key d m ((d, format_header (length l) key None dl) :: abs) /\
  forall t, (t = true -> extract_tabular_header l = None) -> written folding t (JArr l) (JArr m).
Proof.
  intros Hg Hl Hw. pose proof (written_items_length _ _ _ Hw) as E. split; [|intros; now constructor].
  rewrite E. apply la_list; auto. intros HG. rewrite <- E. now apply (good_cap t0).
Qed.

Lemma written_same_prims f l : is_array_of_primitives l = true -> written_items f l l.
Proof.
  induction l as [|[p| |] l IH]; cbn; intros H; try discriminate; constructor; auto. constructor.
Qed.

Lemma extract_objects l fields : extract_tabular_header l = Some fields -> is_array_of_objects l = true.
Proof.
  intros H. apply extract_header in H as (first & r & -> & _ & _ & H). unfold is_tabular_array in H.
  apply forallb_forall. intros v Hv. rewrite forallb_forall in H. specialize (H v Hv). now destruct v.
Qed.
Lemma extract_none l : is_array_of_objects l = false -> extract_tabular_header l = None.
Proof.
  intros H. destruct (extract_tabular_header l) eqn:E; auto. apply extract_objects in E. congruence.
Qed.
Lemma extract_prims l : is_array_of_primitives l = true -> extract_tabular_header l = None.
Proof. destruct l as [|[p|a|a] l]; try discriminate; auto. Qed.
Lemma extract_arrays l : is_array_of_arrays l = true -> extract_tabular_header l = None.
Proof. destruct l as [|[p|a|a] l]; try discriminate; auto. Qed.

(** The plain (unfolded) writing of a member, given what the recursive calls do. *)
Section Step.
Variable fuel : nat.
Hypothesis IHobj : forall l d rl pp rd ls, encode_object_lines fuel l d o rl pp rd = Ok ls ->
  good true (JObj l) -> exists m abs, lay_fields G dl d m abs /\ ls = map (render ind) abs /\
    written_fields folding (map fst l) l m.
Hypothesis IHkv : forall k v d sibs rl pp fd ls,
  encode_key_value_pair_lines fuel k v d o sibs rl pp fd = Ok ls -> good_member k v ->
  exists kw abs, lay_field G dl d kw abs /\ ls = map (render ind) abs /\
    written_field folding sibs (k, v) kw.
Hypothesis IHarr : forall key l d ls, encode_array_lines fuel key l d o = Ok ls -> good true (JArr l) ->
  exists m abs, lay_arr G dl key d m abs /\ ls = map (render ind) abs /\
    written folding true (JArr l) (JArr m).
Hypothesis IHitem : forall v d ls, encode_list_item_value_lines fuel v d o = Ok ls -> good false v ->
  exists w abs, lay_item G dl d w abs /\ ls = map (render ind) abs /\ written folding false v w.
Hypothesis IHoitem : forall l d ls, encode_object_as_list_item_lines fuel l d o = Ok ls -> good false (JObj l) ->
  exists w abs, lay_item G dl d w abs /\ ls = map (render ind) abs /\ written folding false (JObj l) w.

Lemma items_step t d l ls : (t = true -> extract_tabular_header l = None) -> good t (JArr l) ->
  concat_results (fun item => encode_list_item_value_lines fuel item d o) l = Ok ls ->
  exists m abs, lay_items G dl d m abs /\ ls = map (render ind) abs /\ written_items folding l m.
Proof.
  intros Ht Hg E. eapply items_of_concat; [|eapply good_items; eauto|exact E].
  apply Forall_forall. intros v _ Hv ls' E'. eapply IHitem; eauto.
Qed.

Lemma step_obj l d rl pp rd ls : encode_object_lines (S fuel) l d o rl pp rd = Ok ls ->
  good true (JObj l) -> exists m abs, lay_fields G dl d m abs /\ ls = map (render ind) abs /\
    written_fields folding (map fst l) l m.
Proof.
  cbn [encode_object_lines]. intros E Hg. apply good_members in Hg. revert E.
  generalize (match d, rl with O, None => Some (filter (contains cDOT) (map fst l)) | _, r => r end).
  generalize (map fst l) as sibs. generalize (unwrap_or rd (ro_flatten_depth o)) as fd.
  intros fd sibs rl' E. revert ls E. induction Hg as [|[k v] l Hv _ IH]; intros ls E; cbn [concat_results] in E.
  - injection E as <-. exists [], []. repeat split; constructor.
  - cbn [fst snd] in E, Hv.
    destruct (encode_key_value_pair_lines fuel k v d o sibs rl' pp fd) as [a|] eqn:Ea; [|discriminate].
    cbn [bind] in E.
    match type of E with bind ?x _ = _ => destruct x as [b|] eqn:Eb; [|discriminate] end.
    cbn [bind] in E. injection E as <-.
    destruct (IHkv _ _ _ _ _ _ _ _ Ea Hv) as (kw & abs1 & L1 & -> & W1).
    destruct (IH b eq_refl) as (m & abs2 & L2 & -> & W2).
    exists (kw :: m), (abs1 ++ abs2). rewrite map_app. repeat split; [econstructor; eauto|constructor; auto].
Qed.

Definition plain_kv key value depth rl cp fd : result (list str) :=
  match value with
  | JPrim p => Ok [indented_key_value_line depth (encode_key key) (encode_primitive p dl) ind]
  | JArr items => encode_array_lines fuel (Some key) items depth o
  | JObj entries =>
      let first := indented_key_colon_line depth (encode_key key) ind in
      if is_empty entries then Ok [first]
      else let? rest := encode_object_lines fuel entries (S depth) o rl (Some cp) (Some fd) in
           Ok (first :: rest)
  end.

Lemma step_plain key value d rl cp fd ls : plain_kv key value d rl cp fd = Ok ls ->
  good_member key value ->
  exists w abs, lay_field G dl d (key, w) abs /\ ls = map (render ind) abs /\ written folding true value w.
Proof.
  intros E Hg. unfold plain_kv in E. destruct value as [p|l|l].
  - injection E as <-. exists (JPrim p). eexists. split; [apply lf_prim; now apply good_prim_member|].
    split; [reflexivity|constructor].
  - destruct Hg as [Hg _]. destruct (IHarr _ _ _ _ E Hg) as (m & abs & L & -> & W).
    exists (JArr m), abs. split; [now constructor|]. auto.
  - destruct Hg as [Hg _]. cbv zeta in E. destruct (is_empty l) eqn:El.
    + injection E as <-. apply is_empty_true in El as ->. exists (JObj []). eexists.
      split; [apply lf_obj; constructor|]. split; [reflexivity|]. repeat constructor.
    + inv_bind E. injection E as <-. destruct (IHobj _ _ _ _ _ _ E0 Hg) as (m & abs & L & -> & W).
      exists (JObj m). eexists. split; [apply lf_obj; exact L|]. split; [reflexivity|]. now constructor.
Qed.

Lemma step_kv k v d sibs rl pp fd ls :
  encode_key_value_pair_lines (S fuel) k v d o sibs rl pp fd = Ok ls -> good_member k v ->
  exists kw abs, lay_field G dl d kw abs /\ ls = map (render ind) abs /\
    written_field folding sibs (k, v) kw.
Proof.
  cbn [encode_key_value_pair_lines]. cbv zeta. intros E Hg.
  change (match v with
          | JPrim p => Ok [indented_key_value_line d (encode_key k) (encode_primitive p dl) ind]
          | JArr items => encode_array_lines fuel (Some k) items d o
          | JObj entries => if is_empty entries then Ok [indented_key_colon_line d (encode_key k) ind]
              else let? rest := encode_object_lines fuel entries (S d) o rl (Some (path_join pp k)) (Some fd) in
                   Ok (indented_key_colon_line d (encode_key k) ind :: rest)
          end) with (plain_kv k v d rl (path_join pp k) fd) in E.
  assert (Hplain : plain_kv k v d rl (path_join pp k) fd = Ok ls ->
    exists kw abs, lay_field G dl d kw abs /\ ls = map (render ind) abs /\ written_field folding sibs (k, v) kw).
  { intros E'. destruct (step_plain _ _ _ _ _ _ _ E' Hg) as (w & abs & L & -> & W).
    exists (k, w), abs. split; auto. split; auto. now constructor. }
  destruct (try_fold_key_chain k v sibs o rl pp fd) as [fr|] eqn:Ef; [|auto].
  assert (Hfr : folding = true /\ exists ks leaf, ks <> [] /\ chain v ks leaf /\
     Forall (fun s => is_identifier_segment s = true) (k :: ks) /\
     ~ In (join cDOT (k :: ks)) sibs /\ fr_key fr = join cDOT (k :: ks) /\ fr_leaf fr = leaf /\
     (fr_remainder fr = None \/ fr_remainder fr = Some leaf)).
  { unfold try_fold_key_chain in Ef. unfold folding. destruct (ro_key_folding o); [discriminate|].
    split; auto. destruct (negb (is_json_object v)); [discriminate|]. destruct (N.ltb fd 2); [discriminate|].
    unfold collect_single_key_chain in Ef. destruct (collect_chain [k] v fd) as [segs leaf] eqn:Ec.
    apply collect_chain_spec in Ec as (ks & -> & Hc). cbn [rev app] in Ef.
    assert (Hcase : exists tail, (tail = None \/ tail = Some leaf) /\
       (match leaf with JObj [] => (k :: ks, None, leaf) | JObj (_ :: _) => (k :: ks, Some leaf, leaf)
        | _ => (k :: ks, None, leaf) end) = (k :: ks, tail, leaf)).
    { destruct leaf as [p|l|[|kv l]]; eauto. }
    destruct Hcase as (tail & Ht & Ht2). rewrite Ht2 in Ef.
    destruct (Nat.ltb (length (k :: ks)) 2) eqn:El; [discriminate|].
    destruct (forallb is_identifier_segment (k :: ks)) eqn:Ei; [|discriminate]. cbn [negb] in Ef.
    destruct (str_mem (join cDOT (k :: ks)) sibs) eqn:Em; [discriminate|].
    assert (Hfr : fr = FoldResult (join cDOT (k :: ks)) tail leaf (length (k :: ks))).
    { destruct rl as [rk|]; [destruct (str_mem _ rk); [discriminate|]|]; congruence. }
    subst fr. exists ks, leaf. cbn [fr_key fr_leaf fr_remainder].
    split; [intros ->; discriminate|]. split; auto. split; [apply Forall_forall; now apply forallb_forall|].
    split; auto. intros Hi. unfold str_mem in Em.
    assert (Hx : existsb (str_eqb (join cDOT (k :: ks))) sibs = true).
    { apply existsb_exists. eexists. split; [exact Hi|apply str_eqb_refl]. }
    congruence. }
  destruct Hfr as (Hfold & ks & leaf & Hne & Hc & Hi & Hs & Ek & Eleaf & Erem).
  assert (Hwf : forall w, written folding true leaf w -> written_field folding sibs (k, v) (fr_key fr, w)).
  { intros w Hw. rewrite Ek. eapply wf_fold; eauto. }
  assert (Hgl : good_member (fr_key fr) leaf).
  { destruct Hg as [Hg _]. eapply good_chain_member; eauto. now inversion Hi. }
  rewrite Eleaf in E.
  destruct (fr_remainder fr) as [rem|] eqn:Er.
  - destruct Erem as [Erem|Erem]; [discriminate|]. injection Erem as ->.
    destruct leaf as [p|l|l]; auto. inv_bind E. injection E as <-.
    destruct Hgl as [Hgl _]. destruct (IHobj _ _ _ _ _ _ E0 Hgl) as (m & abs & L & -> & W).
    exists (fr_key fr, JObj m). eexists. split; [apply lf_obj; exact L|]. split; [reflexivity|].
    apply Hwf. now constructor.
  - destruct leaf as [p|l|l].
    + injection E as <-. exists (fr_key fr, JPrim p). eexists.
      split; [apply lf_prim; now apply good_prim_member|]. split; [reflexivity|]. apply Hwf. constructor.
    + destruct Hgl as [Hgl _]. destruct (IHarr _ _ _ _ E Hgl) as (m & abs & L & -> & W).
      exists (fr_key fr, JArr m), abs. split; [now constructor|]. split; auto.
    + destruct (is_empty l) eqn:El; auto. injection E as <-. apply is_empty_true in El as ->.
      exists (fr_key fr, JObj []). eexists. split; [apply lf_obj; constructor|]. split; [reflexivity|].
      apply Hwf. repeat constructor.
Qed.

Lemma step_arr key l d ls : encode_array_lines (S fuel) key l d o = Ok ls -> good true (JArr l) ->
  exists m abs, lay_arr G dl key d m abs /\ ls = map (render ind) abs /\
    written folding true (JArr l) (JArr m).
Proof.
  cbn [encode_array_lines]. cbv zeta. intros E Hg.
  assert (Hmixed : (let? rest := concat_results
                       (fun item => encode_list_item_value_lines fuel item (S d) o) l in
        Ok (indented_line d (format_header (length l) key None dl) ind :: rest)) = Ok ls ->
     extract_tabular_header l = None ->
     exists m abs, lay_arr G dl key d m abs /\ ls = map (render ind) abs /\ written folding true (JArr l) (JArr m)).
  { intros E' Hx. inv_bind E'. injection E' as <-. destruct (items_step true _ _ _ (fun _ => Hx) Hg E0) as (m & abs & L & -> & W).
    destruct (list_arr true key d _ _ _ Hg L W) as [L' W']. exists m. eexists. split; [exact L'|]. split; auto. }
  destruct (is_empty l) eqn:El.
  { injection E as <-. apply is_empty_true in El as ->. exists []. eexists.
    split; [apply la_list; [intros _; cbn; lia|constructor]|]. split; [reflexivity|]. repeat constructor. }
  destruct (is_array_of_primitives l) eqn:Ep.
  { injection E as <-. destruct (inline_line true l key Ep Hg d) as (c & L & <-). exists l. eexists.
    split; [exact L|]. split; [reflexivity|]. constructor; [intros _; now apply extract_prims|now apply written_same_prims]. }
  destruct (is_array_of_arrays l && _) eqn:Ea.
  { injection E as <-. apply andb_prop in Ea as [Ea0 Ea]. unfold encode_array_of_arrays_as_list_items_lines.
    assert (Hl : exists abs, lay_items G dl (S d) l abs /\ flat_map (fun item => match item with
                           | JArr items => [indented_list_item (S d) (encode_inline_array_line items dl None) ind]
                           | _ => [] end) l = map (render ind) abs /\ written_items folding l l).
    { apply good_items in Hg; [|intros _; now apply extract_arrays]. clear - Hg Ea. induction Hg as [|v l Hv _ IH]; [exists []; repeat constructor|].
      cbn [forallb] in Ea. apply andb_prop in Ea as [Hp Ea]. destruct v as [p|items|es]; try discriminate.
      destruct (IH Ea) as (abs & L & E & W). destruct (inline_line false items None Hp Hv (S d)) as (c & L1 & <-).
      eexists. split; [eapply lis_cons; [apply li_arr; exact L1|exact L]|]. cbn [flat_map]. rewrite E.
      split; [reflexivity|]. constructor; auto. constructor; [discriminate|now apply written_same_prims]. }
    destruct Hl as (abs & L & -> & W). destruct (list_arr true key d _ _ _ Hg L W) as [L' W'].
    exists l. eexists. split; [exact L'|]. split; [reflexivity|]. apply W'. intros _. now apply extract_arrays. }
  destruct (is_array_of_objects l) eqn:Eo; [|apply Hmixed; auto; now apply extract_none].
  destruct (extract_tabular_header l) as [header|] eqn:Eh; auto.
  unfold encode_array_of_objects_as_tabular_lines in E. cbv zeta in E. inv_bind E. injection E as <-.
  destruct (table_lines key d l header _ Hg Eh E0) as (m & abs & L & -> & W).
  exists m. eexists. split; [exact L|]. split; [reflexivity|auto].
Qed.

Lemma step_item v d ls : encode_list_item_value_lines (S fuel) v d o = Ok ls -> good false v ->
  exists w abs, lay_item G dl d w abs /\ ls = map (render ind) abs /\ written folding false v w.
Proof.
  cbn [encode_list_item_value_lines]. cbv zeta. intros E Hg. destruct v as [p|l|l].
  - injection E as <-. exists (JPrim p). eexists. split; [apply li_prim; now apply (good_prim false)|].
    split; [reflexivity|constructor].
  - destruct (is_array_of_primitives l) eqn:Ep.
    + injection E as <-. destruct (inline_line false l None Ep Hg d) as (c & L & <-). exists (JArr l). eexists.
      split; [apply li_arr; exact L|]. split; [reflexivity|]. constructor; [discriminate|now apply written_same_prims].
    + inv_bind E. injection E as <-. destruct (items_step false _ _ _ ltac:(discriminate) Hg E0) as (m & abs & L & -> & W).
      destruct (list_arr false None d _ _ _ Hg L W) as [L' W']. exists (JArr m). eexists.
      split; [apply li_arr; exact L'|]. split; [reflexivity|]. apply W'. discriminate.
  - eauto.
Qed.

Lemma step_oitem l d ls : encode_object_as_list_item_lines (S fuel) l d o = Ok ls -> good false (JObj l) ->
  exists w abs, lay_item G dl d w abs /\ ls = map (render ind) abs /\ written folding false (JObj l) w.
Proof.
  cbn [encode_object_as_list_item_lines]. cbv zeta. intros E Hg. destruct l as [|[k v] rest].
  { injection E as <-. exists (JObj []). eexists. split; [apply li_empty|]. split; [reflexivity|]. repeat constructor. }
  inv_bind E. injection E as <-. rename E0 into Eh, E1 into Er.
  match type of Eh with _ = Ok ?x => rename x into head end.
  match type of Er with _ = Ok ?x => rename x into tl end.
  assert (Hrest : exists m abs, lay_fields G dl (S d) m abs /\ tl = map (render ind) abs /\
                    written_fields folding (map fst rest) rest m).
  { assert (Hg' : good true (JObj rest)).
    { apply good_tail in Hg. intros HG. specialize (Hg HG) as (A & B & C). split; auto. split; auto.
      inversion B; subst. now constructor. }
    destruct (is_empty rest) eqn:El.
    - injection Er as <-. apply is_empty_true in El as ->. exists [], []. repeat constructor.
    - eapply IHobj; eauto. }
  destruct Hrest as (m & absr & Lr & -> & Wr). clear Er.
  apply good_members in Hg. inversion Hg as [|? ? Hv _]; subst. cbn [fst snd] in Hv. clear Hg.
  assert (Hhead : exists w c abs, lay_field G dl (S d) (k, w) ((S d, c) :: abs) /\
     head = map (render ind) ((d, cMINUS :: cSPACE :: c) :: abs) /\ written folding true v w).
  { destruct v as [p|l|l].
    - injection Eh as <-. exists (JPrim p). eexists _, _. split; [apply lf_prim; now apply good_prim_member|].
      split; [reflexivity|constructor].
    - destruct Hv as [Hv _].
      destruct (if is_array_of_objects l then extract_tabular_header l else None) as [header|] eqn:Et.
      + destruct (is_array_of_objects l); [|discriminate]. inv_bind Eh. injection Eh as <-.
        destruct (table_lines (Some k) (S d) l header _ Hv Et E) as (m' & abs & L & -> & W).
        exists (JArr m'). eexists _, _. split; [apply lf_arr; exact L|]. split; [reflexivity|auto].
      + destruct (is_empty l) eqn:El; [|destruct (is_array_of_primitives l) eqn:Ep].
        * injection Eh as <-. apply is_empty_true in El as ->. exists (JArr []). eexists _, _.
          split; [apply lf_arr, la_list; [intros _; cbn; lia|constructor]|]. split; [reflexivity|]. repeat constructor.
        * injection Eh as <-. destruct (inline_line true l (Some k) Ep Hv (S d)) as (c & L & <-).
          exists (JArr l). eexists _, _. split; [apply lf_arr; exact L|]. split.
          -- cbn [map]. unfold render, indented_list_item_key_header, indented_line. cbn [fst snd].
             do 2 f_equal. cbn [app]. do 2 f_equal. unfold encode_inline_array_line.
             destruct (is_empty (prims_of l)); [reflexivity|]. now rewrite app_assoc.
          -- constructor; [intros _; now apply extract_prims|now apply written_same_prims].
        * assert (Hx : extract_tabular_header l = None).
          { destruct (is_array_of_objects l) eqn:Eo; [auto|now apply extract_none]. }
          inv_bind Eh. injection Eh as <-. destruct (items_step true _ _ _ (fun _ => Hx) Hv E) as (m' & abs & L & -> & W).
          destruct (list_arr true (Some k) (S d) _ _ _ Hv L W) as [L' W']. exists (JArr m'). eexists _, _.
          split; [apply lf_arr; exact L'|]. split; [reflexivity|]. apply W'. auto.
    - destruct Hv as [Hv _]. destruct (is_empty l) eqn:El.
      + injection Eh as <-. apply is_empty_true in El as ->. exists (JObj []). eexists _, _.
        split; [apply lf_obj; constructor|]. split; [reflexivity|]. repeat constructor.
      + inv_bind Eh. injection Eh as <-. destruct (IHobj _ _ _ _ _ _ E Hv) as (m' & abs & L & -> & W).
        exists (JObj m'). eexists _, _. split; [apply lf_obj; exact L|]. split; [reflexivity|]. now constructor. }
  destruct Hhead as (w & c & abs & L & -> & W).
  exists (JObj ((k, w) :: m)). eexists. split; [eapply li_obj; eauto|]. split.
  - now rewrite !render_cons, map_app.
  - now constructor.
Qed.
End Step.

Lemma enc_lay fuel :
  (forall l d rl pp rd ls, encode_object_lines fuel l d o rl pp rd = Ok ls ->
    good true (JObj l) -> exists m abs, lay_fields G dl d m abs /\ ls = map (render ind) abs /\
      written_fields folding (map fst l) l m) /\
  (forall k v d sibs rl pp fd ls,
    encode_key_value_pair_lines fuel k v d o sibs rl pp fd = Ok ls -> good_member k v ->
    exists kw abs, lay_field G dl d kw abs /\ ls = map (render ind) abs /\
      written_field folding sibs (k, v) kw) /\
  (forall key l d ls, encode_array_lines fuel key l d o = Ok ls -> good true (JArr l) ->
    exists m abs, lay_arr G dl key d m abs /\ ls = map (render ind) abs /\
      written folding true (JArr l) (JArr m)) /\
  (forall v d ls, encode_list_item_value_lines fuel v d o = Ok ls -> good false v ->
    exists w abs, lay_item G dl d w abs /\ ls = map (render ind) abs /\ written folding false v w) /\
  (forall l d ls, encode_object_as_list_item_lines fuel l d o = Ok ls -> good false (JObj l) ->
    exists w abs, lay_item G dl d w abs /\ ls = map (render ind) abs /\ written folding false (JObj l) w).
Proof.
  induction fuel as [|fuel (H1 & H2 & H3 & H4 & H5)].
  - repeat split; intros; discriminate.
  - split; [|split; [|split; [|split]]].
    + intros. eapply step_obj; eauto.
    + intros. eapply step_kv; eauto.
    + intros. eapply step_arr; eauto.
    + intros. eapply step_item; eauto.
    + intros. eapply step_oitem; eauto.
Qed.

Lemma json_value_lay v ls : encode_json_value v o = Ok ls -> good true v -> std_delim dl ->
  exists w abs, lay_root G dl w abs /\ ls = map (render ind) abs /\ written folding true v w.
Proof.
  unfold encode_json_value. cbv zeta. intros E Hg Hd. destruct v as [p|l|l].
  - pose proof (tok_nonempty _ _ (encode_primitive_tok p dl Hd)) as Hn. apply is_empty_false in Hn.
    rewrite Hn in E. injection E as <-. exists (JPrim p). eexists.
    split; [apply lr_prim; now apply (good_prim true)|]. split; [|constructor].
    unfold render, indented_line. cbn [map fst snd]. now rewrite Nat.mul_0_r.
  - apply enc_lay in E as (m & abs & L & -> & W); auto. exists (JArr m), abs. split; [now constructor|auto].
  - apply enc_lay in E as (m & abs & L & -> & W); auto. exists (JObj m), abs. split; [now constructor|]. split; auto.
    now constructor.
Qed.
End Enc.
