(** C70 with folded keys: arrays from their items, tables from their rows. *)
From Verif Require Import Chars Floats Json JsonInd Lex Spec Normalize JsonEq EncodeApi TextProof SpecText SpecParts FoldShort SizeProof PropsText PartsProof PropsPartsFold.

Local Open Scope nat_scope.

(** A value whose text as an item of an array is that of the value by itself: the first member of an
    object is not folded in an item, so it must have nothing to fold, and dotted names count at the root
    only, so there must be none. *)
Inductive steady : json -> Prop :=
| sy_prim p : steady (JPrim p)
| sy_arr l : (tabled l -> Forall steady l) -> steady (JArr l)
| sy_obj l : Forall (fun kv => ~ In cDOT (fst kv)) l -> (forall k m r, l <> (k, JObj [m]) :: r) -> steady (JObj l).

Section Options.
Variable indent : option nat.
Variable delimiter : option char.
Variable mode : option key_folding_mode.
Variable depth : option N.
Let dl := unwrap_or delimiter cCOMMA.
Let dp := unwrap_or depth 18446744073709551615%N.
Let ind := unwrap_or indent 2.
Let fold := match mode with Some KFSafe => true | _ => false end.
Let norm := normalize_json_value.
Notation lines v := (encode_lines 0 v (Some (EncOpts indent delimiter mode depth None))).
Notation text := (text indent delimiter mode depth).
Notation document := (document f64_to_string dl fold dp).
Notation value_of := (value_of f64_to_string dl fold dp).
Notation members := (members f64_to_string dl fold dp).
Notation array := (array f64_to_string dl fold dp).
Notation items := (items f64_to_string dl fold dp).
Notation item := (item f64_to_string dl fold dp).
Notation block := (block text ind dl).

Lemma text_of v ls : text v ls <-> exists doc, document (norm v) doc /\ ls = map (shown ind) doc.
Proof. exact (C46_encoded_text v (norm v) indent delimiter mode depth ls (normalize_spec v)). Qed.
Lemma shown_push n ls : map (shown ind) (deeper n ls) = pushed (ind * n) (map (shown ind) ls).
Proof.
  unfold deeper, pushed. rewrite !map_map. apply map_ext. intros [d t]. unfold shown. cbn [fst snd].
  now rewrite Nat.mul_add_distr_l, repeat_app, app_assoc.
Qed.
Lemma shown_one t : shown ind (1, t) = repeat cSPACE ind ++ t.
Proof. unfold shown. cbn [fst snd]. now rewrite Nat.mul_1_r. Qed.
Lemma shown_none t : shown ind (0, t) = t.
Proof. unfold shown. cbn [fst snd]. now rewrite Nat.mul_0_r. Qed.

Lemma steady_block v : steady v -> exists a, item 1 (norm v) a /\ block v (map (shown ind) a).
Proof.
  destruct (shifted_fold dl fold dp 1) as (_ & _ & _ & Ar1 & Is1 & _).
  destruct (shifted_fold dl fold dp 2) as (_ & Vo2 & Ms2 & _).
  induction v as [p|l IH|l IH] using json_ind'; intros St; inversion St as [|? Sl|? U N1]; subst.
  - destruct (C46_one_text (norm (JPrim p)) dl fold dp) as (doc & D & _). cbn [norm normalize_json_value] in D. inversion D as [? t T| |]; subst.
    exists [(1, cMINUS :: cSPACE :: t)]. split; [now apply it_prim|]. cbn [map]. rewrite shown_one. apply bl_prim. apply text_of. eexists. split; [exact D|].
    cbn [map]. now rewrite shown_none.
  - destruct (tabled_dec l) as [Tb|Tb].
    + assert (X : exists ls, items 1 (map norm l) ls /\ exists bs, Forall2 block l bs /\ map (shown ind) ls = concat bs).
      { specialize (Sl Tb). clear Tb St. induction IH as [|v l Hv _ IHl]; [exists []; split; [constructor|]; exists []; split; [constructor|reflexivity]|].
        inversion Sl as [|? ? Sv Sl']; subst. destruct (Hv Sv) as (a & Ia & Ba). destruct (IHl Sl') as (ls & Il & bs & Bl & E).
        exists (a ++ ls). split; [now constructor|]. exists (map (shown ind) a :: bs). split; [now constructor|]. cbn [concat]. now rewrite map_app, E. }
      destruct X as (ls & Il & bs & Bl & E).
      set (h := EncPrim.format_header (length (map norm l)) None None dl). assert (Hh : header dl None (length (map norm l)) None h) by now apply header_spec.
      exists ((1, cMINUS :: cSPACE :: h) :: deeper 1 ls). split.
      * cbn [norm normalize_json_value]. apply it_arr. apply ar_list; [|discriminate|exact Hh|apply (Is1 _ _ _ Il)].
        intros ps. apply prims_norm. intros qs. now apply tabled_prims.
      * cbn [map]. rewrite shown_one, shown_push, E, Nat.mul_1_r. apply bl_table; [exact Tb| |exact Bl]. now rewrite map_length in Hh.
    + destruct (C46_one_text (norm (JArr l)) dl fold dp) as (doc & D & _). cbn [norm normalize_json_value] in D. inversion D as [|? ? A|]; subst.
      assert (A' : array false None 0 (map norm l) doc).
      { inversion A as [|? ? ? p ps h r|? ? ? fields rows ? ? T|? ? ? ? h ls N1 N2]; subst; [now constructor|now constructor| |].
        - exfalso. apply Tb, tabled_norm. now exists fields, rows.
        - apply ar_list; auto; discriminate. }
      destruct (Ar1 _ _ _ _ _ A') as (kt & t & ls & -> & -> & H). specialize (H None [] eq_refl). cbn [app] in *.
      exists ((1, cMINUS :: cSPACE :: t) :: deeper 1 ls). split; [cbn [norm normalize_json_value]; now apply it_arr|].
      cbn [map]. rewrite shown_one, shown_push, Nat.mul_1_r. apply bl_arr; [exact Tb|]. apply text_of. eexists. split; [exact D|]. cbn [map]. now rewrite shown_none.
  - destruct l as [|[k v] l].
    + exists [(1, [cMINUS])]. split; [apply it_none|]. cbn [map]. rewrite shown_one. apply bl_none.
    + destruct (C46_one_text (norm (JObj ((k, v) :: l))) dl fold dp) as (doc & D & _). cbn [norm normalize_json_value map fst snd] in D.
      assert (U' : dotless ((k, norm v) :: map (fun kv => (fst kv, norm (snd kv))) l)).
      { inversion U as [|? ? Uk Ul]; subst. constructor; [exact Uk|]. apply Forall_map. exact Ul. }
      pose proof D as D'. apply dotless_doc in D'; [|exact U']. inversion D' as [|? ? ? ? ? a b M Ms]; subst.
      assert (V : value_of (Place [] ([] ++ [k]) dp) 0 k (norm v) a).
      { inversion M as [? ? ? ? ? ks z ? F|? ? ? ? ? ? _ V]; subst; [|exact V]. exfalso. destruct F as (_ & Hne & C & _).
        inversion C as [|k2 v2 ? ? C' E]; subst; [congruence|]. destruct v as [p|lv|lv]; [destruct p; discriminate|discriminate|].
        destruct lv as [|m [|m2 lv]]; try discriminate. now apply (N1 k m l). }
      assert (Al : forall c : place, pl_literals c = [] -> pl_budget c = dp -> alike c (fresh dp)) by (intros c E1 E2; repeat split; auto).
      destruct (Vo2 _ _ _ _ _ V eq_refl) as (kt & t & ls & K & -> & H). specialize (H (fresh dp) k kt (Al (Place [] ([] ++ [k]) dp) eq_refl eq_refl) K). cbn [Nat.add] in H.
      exists ((1, cMINUS :: cSPACE :: kt ++ t) :: deeper 2 ls ++ deeper 2 b). split.
      * cbn [norm normalize_json_value map fst snd]. apply it_obj; [exact H|].
        apply (Ms2 _ _ _ _ _ (siblings_matter_not dl fold dp _ _ _ _ _ _ (dotless_keys _ U') (Forall_inv_tail (dotless_keys _ U')) Ms)). now apply Al.
      * cbn [map]. rewrite shown_one, map_app, !shown_push. unfold pushed. rewrite <- map_app. apply bl_obj. apply text_of. eexists. split; [exact D|].
        cbn [map app]. now rewrite shown_none, map_app.
Qed.

(** Arrays written as lists, folded or not: the header and the block of each item, if every item is steady. *)
Theorem C70_items_folded :
  forall (l : list json) (ls : list str),
    (forall ps, l <> map JPrim ps) -> ~ tabled l -> Forall steady l ->
    (lines (JArr l) = Ok ls <->
     exists h bs, header dl None (length l) None h /\
       Forall2 (SpecParts.block (fun v ls => lines v = Ok ls) ind dl) l bs /\ ls = h :: concat bs).
Proof.
  intros l ls N1 N2 St. change (text (JArr l) ls <-> exists h bs, header dl None (length l) None h /\ Forall2 block l bs /\ ls = h :: concat bs).
  assert (X : exists ls bs, items 1 (map norm l) ls /\ Forall2 block l bs /\ map (shown ind) ls = concat bs).
  { clear N1 N2. induction St as [|v l Sv _ (is & bs & Il & Bl & E)].
    - exists [], []. repeat split; constructor.
    - destruct (steady_block v Sv) as (a & Ia & Ba). exists (a ++ is), (map (shown ind) a :: bs). split; [now constructor|]. split; [now constructor|].
      cbn [concat]. now rewrite map_app, E. }
  destruct X as (is & bs & Il & Bl & E).
  set (h := EncPrim.format_header (length l) None None dl). assert (Hh : header dl None (length l) None h) by now apply header_spec.
  assert (T : text (JArr l) (h :: concat bs)).
  { apply text_of. exists ((0, h) :: is). split; [|cbn [map]; now rewrite shown_none, E]. cbn [norm normalize_json_value]. apply do_arr. apply ar_list.
    - now apply prims_norm.
    - intros _ fields rows T. apply N2, tabled_norm. now exists fields, rows.
    - now rewrite map_length.
    - exact Il. }
  split.
  - intros X. unfold PartsProof.text in X, T. rewrite X in T. injection T as ->. eauto.
  - intros (h' & bs' & H' & B' & ->). apply header_spec in H'. subst h'. rewrite (blocks_unique indent delimiter mode depth _ _ B' _ Bl). exact T.
Qed.

(** A member whose value is primitive or an array, with any name, folded or not. *)
Theorem C70_leaf_folded :
  forall (k kt : str) (v : json) (ls : list str), key_text k kt -> (forall l, v <> JObj l) -> lines v = Ok ls ->
    exists first rest, ls = first :: rest /\
      lines (JObj [(k, v)]) = Ok ((kt ++ match v with JPrim _ => cCOLON :: cSPACE :: first | _ => first end) :: rest).
Proof.
  intros k kt v ls K No H. change (text v ls) in H. apply text_of in H as (doc & D & ->).
  assert (One : forall w doc, (forall l, w <> JObj l) -> (forall c, value_of c 0 k w doc) -> document (JObj [(k, w)]) doc).
  { intros w d0 Nw V. assert (X : exists dk, forall q, In q dk <-> In q (map fst [(k, w)]) /\ In cDOT q).
    { exists (filter (fun q => existsb (N.eqb cDOT) q) (map fst [(k, w)])). intros q. rewrite filter_In, existsb_exists. split; intros [A B]; (split; [exact A|]).
      - destruct B as (x & Hx & E). apply N.eqb_eq in E. now subst.
      - exists cDOT. now rewrite N.eqb_refl. }
    destruct X as (dk & X). apply do_obj with dk; [exact X|]. rewrite <- (app_nil_r d0). constructor; [|constructor]. apply me_plain; [|apply V].
    intros ks z (_ & Hne & C & _). inversion C; subst; [congruence|]. now eapply Nw. }
  destruct v as [p|l|l]; [| |now destruct (No l)].
  - cbn [norm normalize_json_value] in D. inversion D as [? t T| |]; subst. exists t, []. split; [cbn [map]; now rewrite shown_none|].
    apply text_of. exists [(0, kt ++ cCOLON :: cSPACE :: t)]. split; [|cbn [map]; now rewrite shown_none].
    apply One; [discriminate|]. intros c. now apply vo_prim.
  - cbn [norm normalize_json_value] in D. inversion D as [|? ? A|]; subst.
    destruct (proj1 (proj2 (proj2 (proj2 (shifted_fold dl fold dp 0)))) _ _ _ _ _ A) as (k0 & t & r & K0 & -> & H). cbn in K0. subst k0.
    specialize (H (Some k) kt K). cbn [app Nat.add] in *. exists t, (map (shown ind) r). split; [cbn [map]; now rewrite shown_none|].
    apply text_of. exists ((0, kt ++ t) :: deeper 0 r). split; [|cbn [map]; rewrite shown_none, shown_push, Nat.mul_0_r; unfold pushed; cbn [repeat app]; now rewrite map_id].
    cbn [norm normalize_json_value map fst snd]. apply One; [discriminate|]. intros c. now apply vo_arr.
Qed.
(** Tables with the same fields: the rows one after the other, folded or not. *)
Theorem C70_rows_folded :
  forall (a b : list json) (fields : list str) ra rb (ha hb h : str) (la lb : list str),
    table a fields ra -> table b fields rb ->
    lines (JArr a) = Ok (ha :: la) -> lines (JArr b) = Ok (hb :: lb) ->
    header dl None (length (a ++ b)) (Some fields) h ->
    lines (JArr (a ++ b)) = Ok (h :: la ++ lb).
Proof.
  intros a b fields ra rb ha hb h la lb Ta Tb.
  change (text (JArr a) (ha :: la) -> text (JArr b) (hb :: lb) -> header dl None (length (a ++ b)) (Some fields) h -> text (JArr (a ++ b)) (h :: la ++ lb)).
  rewrite !text_of. intros (da & Da & Ea) (db & Db & Eb) Hh. cbn [norm normalize_json_value] in *.
  apply normalize_table in Ta as (ra' & Ta), Tb as (rb' & Tb).
  assert (X : forall l rows doc, table l fields rows -> array true None 0 l doc -> exists h ts, doc = (0, h) :: map (fun t => (1, t)) ts /\ Forall2 (row f64_to_string dl) rows ts).
  { intros l rows doc T A. inversion A as [|? ? ? p ps|? ? ? f' r' h' ts T'|? ? ? ? ? ? _ N]; subst.
    - destruct T as (_ & (? & ? & E & _) & _). discriminate.
    - exfalso. now apply (table_not_prims _ _ _ (p :: ps) T).
    - destruct (table_fun _ _ _ _ _ T T') as [-> ->]. eauto.
    - exfalso. now apply (N eq_refl fields rows). }
  inversion Da as [|? ? Aa|]; subst. inversion Db as [|? ? Ab|]; subst.
  destruct (X _ _ _ Ta Aa) as (h1 & t1 & -> & R1), (X _ _ _ Tb Ab) as (h2 & t2 & -> & R2). cbn [map] in Ea, Eb. injection Ea as _ ->. injection Eb as _ ->.
  exists ((0, h) :: map (fun t => (1, t)) (t1 ++ t2)). split; [|cbn [map]; now rewrite shown_none, !map_app]. rewrite map_app. apply do_arr.
  assert (T : table (map norm a ++ map norm b) fields (ra' ++ rb')).
  { destruct Ta as (Hf & (f1 & r1 & E1 & K1) & F1), Tb as (_ & _ & F2). split; [exact Hf|]. split; [|now apply Forall2_app]. unfold norm. rewrite E1. now exists f1, (r1 ++ map norm b). }
  eapply ar_table; [exact T| |now apply Forall2_app]. rewrite <- map_app, map_length. exact Hh.
Qed.
End Options.
Print Assumptions C70_items_folded.
Print Assumptions C70_leaf_folded.
Print Assumptions C70_rows_folded.

(** Items with something to fold in a later member; in the first member it is not folded, though it is in
    the text of the object by itself. *)
Definition fold_item (a b : string) : json := JObj [(lit a, JPrim PNull); (lit b, JObj [(lit "c", JArr [])])].
Example C70_items_folded_case :
  let lines := fun v => encode_lines 0 v (Some (EncOpts None None (Some KFSafe) None None)) in
  Forall steady [fold_item "a" "b"; JPrim PNull] /\
  lines (fold_item "a" "b") = Ok [lit "a: null"; lit "b.c[0]:"] /\
  lines (JArr [fold_item "a" "b"; JPrim PNull]) = Ok [lit "[2]:"; lit "  - a: null"; lit "    b.c[0]:"; lit "  - null"] /\
  lines (JObj [(lit "k.l", JArr [fold_item "a" "b"; JPrim PNull])]) = Ok [lit "k.l[2]:"; lit "  - a: null"; lit "    b.c[0]:"; lit "  - null"].
Proof.
  cbv zeta. split; [|repeat split; vm_compute; reflexivity]. constructor; [|constructor; constructor]. constructor; [|discriminate].
  assert (Nd : forall n : str, contains cDOT n = false -> ~ In cDOT n). { intros n H I. apply contains_In in I. congruence. }
  constructor; [apply Nd; vm_compute; reflexivity|]. constructor; [apply Nd; vm_compute; reflexivity|constructor].
Qed.
Example C70_items_folded_first :
  let lines := fun v => encode_lines 0 v (Some (EncOpts None None (Some KFSafe) None None)) in
  let v := JObj [(lit "b", JObj [(lit "c", JArr [])])] in
  lines v = Ok [lit "b.c[0]:"] /\ lines (JArr [v]) = Ok [lit "[1]:"; lit "  - b:"; lit "      c[0]:"].
Proof. split; vm_compute; reflexivity. Qed.
