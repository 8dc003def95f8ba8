(** C67 for the fields of tables: one field renamed, the header changed. *)
From Verif Require Import Chars Floats Json JsonInd Lex Spec Normalize JsonEq EncodeApi TextProof SpecText SpecParts FoldShort PropsText PartsProof SizeProof SpecField.

Local Open Scope nat_scope.

Lemma separated_at dl ta t tb b : separated dl (ta ++ t :: tb) b ->
  exists x y, b = x ++ t ++ y /\ forall t', separated dl (ta ++ t' :: tb) (x ++ t' ++ y).
Proof.
  revert b. induction ta as [|u ta IH]; intros b H; cbn [app] in *.
  - inversion H as [|?|? u l r H']; subst.
    + exists [], []. split; [now rewrite app_nil_r|]. intros t'. rewrite app_nil_r. constructor.
    + exists [], (dl :: r). split; [reflexivity|]. intros t'. now constructor.
  - destruct (ta ++ t :: tb) as [|z q] eqn:E; [destruct ta; discriminate|]. inversion H as [| |? ? ? r H']; subst.
    destruct (IH _ H') as (x & y & -> & Hx). exists (u ++ dl :: x), y. split; [now rewrite <- app_assoc|].
    intros t'. rewrite <- app_assoc. cbn [app]. specialize (Hx t'). destruct (ta ++ t' :: tb) as [|z' l'] eqn:E'; [destruct ta; discriminate|]. now constructor.
Qed.

Section Names.
Variables k k' : str.

Lemma row_cells fields fields' r r' cells : row_renamed k k' r r' ->
  Forall2 (fun f f' => f = k /\ f' = k' \/ f <> k /\ f' = f) fields fields' ->
  table_row fields r cells -> table_row fields' r' cells.
Proof.
  intros (es & es' & -> & -> & Nk & F) Ff (es0 & E & L & C). injection E as <-. exists es'. split; [reflexivity|].
  split; [rewrite (Forall2_length' _ _ _ F), L; symmetry; exact (Forall2_length' _ _ _ Ff)|]. clear L.
  revert cells C. induction Ff as [|f f' fs fs' Hf Ff IH]; intros cells C; inversion C as [|? p ? ps (a & b & E & Na) C']; subst; constructor; [|auto].
  apply Forall2_app_inv_l in F as (a' & b0 & Fa & Fb & ->). inversion Fb as [|? [n y] ? b' [Ey Hn] Fb']; subst. cbn [fst snd] in *. subst y.
  rewrite map_app in Nk. cbn [map fst] in Nk.
  assert (n = f') as ->. { destruct Hf as [[-> ->]|[Hf ->]], Hn as [[Hn ->]|[Hn ->]]; congruence. }
  exists a', b'. split; [reflexivity|]. intros I.
  assert (Hk : f <> k'). { intros ->. apply Nk, in_elt. }
  apply in_map_iff in I as ([n' x'] & <- & I). cbn [fst] in *.
  assert (X : exists n x, In (n, x) a /\ (n = k /\ n' = k' \/ n <> k /\ n' = n)).
  { clear - Fa I. induction Fa as [|[n x] [n2 x2] a a' [_ H] Fa IH]; [destruct I|]. cbn [fst] in H. destruct I as [I|I].
    - injection I as -> ->. exists n, x. split; [now left|exact H].
    - destruct (IH I) as (m & z & J & Hm). exists m, z. split; [now right|exact Hm]. }
  destruct X as (n & x & In' & Hn'). assert (Ia : In n (map fst a)) by (apply in_map_iff; now exists (n, x)).
  assert (n <> k'). { intros ->. apply Nk, in_or_app. now left. }
  destruct Hf as [[-> ->]|[Hf ->]], Hn' as [[-> E2]|[Hn' E2]]; subst; try congruence; contradiction.
Qed.
Lemma fields_swap fields : NoDup fields -> In k fields -> exists fa fb, fields = fa ++ k :: fb /\
  Forall2 (fun f f' => f = k /\ f' = k' \/ f <> k /\ f' = f) fields (fa ++ k' :: fb).
Proof.
  intros N I. apply in_split in I as (fa & fb & ->). exists fa, fb. split; [reflexivity|]. apply NoDup_remove_2 in N.
  assert (S : forall l, ~ In k l -> Forall2 (fun f f' => f = k /\ f' = k' \/ f <> k /\ f' = f) l l).
  { induction l as [|n l IH]; intros H; constructor; [right; split; [intros ->; apply H; now left|reflexivity]|]. apply IH. intros J. apply H. now right. }
  apply Forall2_app; [apply S; intros J; apply N, in_or_app; now left|]. constructor; [now left|]. apply S. intros J. apply N, in_or_app. now right.
Qed.
Lemma table_renamed l m fields rows : table l fields rows -> NoDup fields -> In k fields -> Forall2 (row_renamed k k') l m ->
  exists fa fb, fields = fa ++ k :: fb /\ table m (fa ++ k' :: fb) rows.
Proof.
  intros (Hne & (first & r & -> & Ef) & Fr) N I F. destruct (fields_swap _ N I) as (fa & fb & E & Ff). exists fa, fb. split; [exact E|].
  split; [destruct fa; discriminate|]. split.
  - inversion F as [|? y ? m' (es & es' & E1 & -> & _ & Fe) _]; subst. injection E1 as <-. exists es', m'. split; [reflexivity|]. clear - Ff Fe.
    revert Ff. generalize (fa ++ k' :: fb). induction Fe as [|x y l l' [_ H] Fe IH]; intros fs Ff; inversion Ff as [|? f ? fs' Hf Ff']; subst; [reflexivity|].
    cbn [map]. rewrite (IH _ Ff'). f_equal. destruct Hf as [[? ->]|[? ->]], H as [[? ->]|[? ->]]; congruence.
  - clear E N I Hne. remember (JObj first :: r) as l eqn:El. clear El. revert m F. induction Fr as [|x cells l rows Hx Fr IH]; intros m F;
      inversion F as [|? y ? m' Hy F']; subst; constructor; [|auto]. exact (row_cells _ _ _ _ _ Hy Ff Hx).
Qed.

Section Fold.
Variable dl : char.
Variable fold : bool.
Variable dp : N.
Notation document := (document f64_to_string dl fold dp).
Notation folds := (folds fold).
Notation member := (member f64_to_string dl fold dp).
Notation value_of := (value_of f64_to_string dl fold dp).
Notation members := (members f64_to_string dl fold dp).
Notation array := (array f64_to_string dl fold dp).
Notation items := (items f64_to_string dl fold dp).
Notation item := (item f64_to_string dl fold dp).

Definition changed (ls ls' : list dline) : Prop :=
  exists b d x kt kt' y a, key_text k kt /\ key_text k' kt' /\ ls = b ++ (d, x ++ kt ++ y) :: a /\ ls' = b ++ (d, x ++ kt' ++ y) :: a.
Lemma changed_around u v ls ls' : changed ls ls' -> changed (u ++ ls ++ v) (u ++ ls' ++ v).
Proof. intros (b & d & x & kt & kt' & y & a & K & K' & -> & ->). exists (u ++ b), d, x, kt, kt', y, (a ++ v). rewrite <- !app_assoc. auto. Qed.
Lemma changed_cons u ls ls' : changed ls ls' -> changed (u :: ls) (u :: ls').
Proof. intros H. apply (changed_around [u] []) in H. now rewrite !app_nil_r in H. Qed.
Lemma changed_app_r v ls ls' : changed ls ls' -> changed (ls ++ v) (ls' ++ v).
Proof. intros H. exact (changed_around [] v ls ls' H). Qed.
Lemma changed_app_l u ls ls' : changed ls ls' -> changed (u ++ ls) (u ++ ls').
Proof. intros H. apply (changed_around u []) in H. now rewrite !app_nil_r in H. Qed.
Lemma changed_first d d' u t ls ls' : changed ((d, t) :: ls) ls' ->
  exists t' r, ls' = (d, t') :: r /\ changed ((d', u ++ t) :: ls) ((d', u ++ t') :: r).
Proof.
  intros (b & e & x & kt & kt' & y & a & K & K' & E & ->). destruct b as [|l b]; cbn [app] in *.
  - injection E as -> -> ->. exists (x ++ kt' ++ y), a. split; [reflexivity|]. exists [], d', (u ++ x), kt, kt', y, a. rewrite <- !app_assoc. auto.
  - injection E as <- ->. exists t, (b ++ (e, x ++ kt' ++ y) :: a). split; [reflexivity|]. exists ((d', u ++ t) :: b), e, x, kt, kt', y, a. auto.
Qed.

Definition Vs (v w : json) : Prop := forall c d n ls, value_of c d n v ls -> exists ls', value_of c d n w ls' /\ changed ls ls'.
Definition Is (v w : json) : Prop := (forall l, v = JArr l -> ~ tabled l) -> forall d ls, item d v ls -> exists ls', item d w ls' /\ changed ls ls'.
Definition single (v : json) : Prop := exists n x, v = JObj [(n, x)].
Definition Cs (v w : json) : Prop := forall ks z, chain v ks z -> exists z', chain w ks z' /\ Vs z z' /\ (single z' -> single z).
Definition Bs (v w : json) : Prop := forall ks z, chain w ks z -> exists z', chain v ks z' /\ (single z' -> single z).

Lemma member_below c sibs d n v w ls : Vs v w -> Cs v w -> Bs v w -> member c sibs d (n, v) ls ->
  exists ls', member c sibs d (n, w) ls' /\ changed ls ls'.
Proof.
  intros Hv Hc Hb M. inversion M as [? ? ? ? ? ks z ? F V|? ? ? ? ? ? N V]; subst.
  - destruct F as (F1 & F2 & F3 & F4 & F5 & F6). destruct (Hc _ _ F3) as (z' & C & Hz & Sg). destruct (Hz _ _ _ _ V) as (ls' & V' & D).
    exists ls'. split; [|exact D]. apply me_folded with ks z'; [|exact V']. repeat (split; [assumption|]). split; [|exact F6].
    destruct F5 as [F5|F5]; [now left|right]. intros m x ->. destruct Sg as (m2 & x2 & E); [now exists m, x|]. now apply (F5 m2 x2).
  - destruct (Hv _ _ _ _ V) as (ls' & V' & D). exists ls'. split; [|exact D]. apply me_plain; [|exact V'].
    intros ks z (F1 & F2 & F3 & F4 & F5 & F6). destruct (Hb _ _ F3) as (z' & C & Sg). apply (N ks z'). repeat (split; [assumption|]). split; [|exact F6].
    destruct F5 as [F5|F5]; [now left|right]. intros m x ->. destruct Sg as (m2 & x2 & E); [now exists m, x|]. now apply (F5 m2 x2).
Qed.
Lemma members_below c sibs d a n v w b ls : Vs v w -> Cs v w -> Bs v w -> members c sibs d (a ++ (n, v) :: b) ls ->
  exists ls', members c sibs d (a ++ (n, w) :: b) ls' /\ changed ls ls'.
Proof.
  intros Hv Hc Hb. revert ls. induction a as [|m a IH]; intros ls M; cbn [app] in *; inversion M as [|? ? ? ? ? x y Hm Hr]; subst.
  - destruct (member_below _ _ _ _ _ _ _ Hv Hc Hb Hm) as (x' & M' & D). exists (x' ++ y). split; [now constructor|now apply changed_app_r].
  - destruct (IH _ Hr) as (y' & M' & D). exists (x ++ y'). split; [now constructor|now apply changed_app_l].
Qed.
Lemma items_below d a v w b ls : (forall ls, item d v ls -> exists ls', item d w ls' /\ changed ls ls') -> items d (a ++ v :: b) ls ->
  exists ls', items d (a ++ w :: b) ls' /\ changed ls ls'.
Proof.
  intros H. revert ls. induction a as [|m a IH]; intros ls M; cbn [app] in *; inversion M as [|? ? ? x y Hm Hr]; subst.
  - destruct (H _ Hm) as (x' & M' & D). exists (x' ++ y). split; [now constructor|now apply changed_app_r].
  - destruct (IH _ Hr) as (y' & M' & D). exists (x ++ y'). split; [now constructor|now apply changed_app_l].
Qed.

Lemma field_not_prim v w : field_renamed k k' v w -> (forall p, v <> JPrim p) /\ forall p, w <> JPrim p.
Proof. destruct 1; split; discriminate. Qed.
Lemma no_prims (a : list json) z b : (forall p, z <> JPrim p) -> forall ps, a ++ z :: b <> map JPrim ps.
Proof. intros H ps E. assert (I : In z (map JPrim ps)) by (rewrite <- E; apply in_elt). apply in_map_iff in I as (p & <- & _). now apply (H p). Qed.
Lemma array_below t key d a v w b ls : ~ tabled (a ++ v :: b) -> ~ tabled (a ++ w :: b) -> (forall l, v = JArr l -> ~ tabled l) ->
  field_renamed k k' v w -> Is v w ->
  array t key d (a ++ v :: b) ls -> exists h r r', ls = (d, h) :: r /\ array t key d (a ++ w :: b) ((d, h) :: r') /\ changed r r'.
Proof.
  intros T T' Na R Hi A. destruct (field_not_prim _ _ R) as [Nv Nw].
  inversion A as [? ? ? ? ? E|? ? ? p ps ? ? ? ? E|? ? ? f rows ? ? Ht|? ? ? ? h r N1 N2 Hh Hr]; subst.
  - destruct a; discriminate.
  - exfalso. apply (no_prims a v b Nv (p :: ps)). symmetry. assumption.
  - exfalso. apply T. now exists f, rows.
  - destruct (items_below _ _ _ w _ _ (Hi Na (S d)) Hr) as (r' & Hr' & D). exists h, r, r'. split; [reflexivity|]. split; [|exact D].
    apply ar_list; [now apply no_prims| |rewrite app_length in *; exact Hh|exact Hr']. intros _ f rows H. apply T'. now exists f, rows.
Qed.
Lemma table_below key d l m fields rows ls : table l fields rows -> NoDup fields -> In k fields -> Forall2 (row_renamed k k') l m ->
  array true key d l ls -> exists ls', array true key d m ls' /\ changed ls ls'.
Proof.
  intros T N I F A. pose proof T as (_ & (first & r & E & Ef) & _).
  inversion A as [? ? ? ? ? E0|? ? ? p ps ? ? ? ? E0|? ? ? f2 rows2 h ts Ht Hh Hr|? ? ? ? h r0 N1 N2 Hh Hr]; subst.
  - discriminate.
  - discriminate.
  - pose proof Ht as (_ & (first2 & r2 & E2 & Ef2) & _). injection E2 as <- <-. subst f2.
    destruct (table_renamed _ _ _ _ Ht N I F) as (fa & fb & Ef & Tm). rewrite Ef in Hh.
    inversion Hh as [? ? ? kt nt dt ft Hk Hn Hd Hft]; subst. destruct Hft as (tx & b & Hx & Sp & ->).
    apply Forall2_app_inv_l in Hx as (ta & tb0 & Fa & Fb & ->). inversion Fb as [|? t ? tb Kt Fb']; subst.
    destruct (separated_at _ _ _ _ _ Sp) as (x & y & -> & Hs). set (t' := EncPrim.encode_key k').
    assert (K' : key_text k' t') by apply key_text_ok.
    exists ((d, kt ++ cLBRACK :: nt ++ dt ++ cRBRACK :: (cLBRACE :: (x ++ t' ++ y) ++ [cRBRACE]) ++ [cCOLON]) :: map (fun t => (S d, t)) ts). split.
    + apply ar_table with (fa ++ k' :: fb) rows2; [exact Tm| |exact Hr]. rewrite (Forall2_length' _ _ _ F). constructor; [exact Hk|exact Hn|exact Hd|].
      exists (ta ++ t' :: tb), (x ++ t' ++ y). split; [|split; [apply Hs|reflexivity]]. apply Forall2_app; [exact Fa|]. now constructor.
    + exists [], d, (kt ++ cLBRACK :: nt ++ dt ++ cRBRACK :: cLBRACE :: x), t, t', (y ++ [cRBRACE] ++ [cCOLON]), (map (fun t => (S d, t)) ts).
      split; [exact Kt|]. split; [exact K'|]. cbn [app]. repeat (rewrite <- ?app_assoc; cbn [app]). split; reflexivity.
  - exfalso. now apply (N2 eq_refl (map fst first) rows).
Qed.

Lemma single_member n v w a b : single (JObj (a ++ (n, v) :: b)) -> single (JObj (a ++ (n, w) :: b)).
Proof. intros (m & x & E). injection E as E. destruct a as [|p a]; [|destruct a; discriminate]. cbn [app] in *. injection E as -> -> ->. now exists m, w. Qed.
Lemma field_all v w : field_renamed k k' v w -> Vs v w /\ Is v w /\ Cs v w /\ Bs v w.
Proof.
  assert (Na : forall l m, ~ single (JArr l) /\ ~ single (JArr m)) by (intros l m; split; intros (n & x & E); discriminate).
  assert (Ca : forall l m, Vs (JArr l) (JArr m) -> Cs (JArr l) (JArr m) /\ Bs (JArr l) (JArr m)).
  { intros l m H. split; intros ks z C; inversion C; subst.
    - exists (JArr m). split; [constructor|]. split; [exact H|]. intros S. now apply (Na m m) in S.
    - exists (JArr l). split; [constructor|]. intros S. now apply (Na l l) in S. }
  induction 1 as [l m fields rows T N I F|a n v w b R IH|a v w b T T' Nt R IH].
  - assert (Hv : Vs (JArr l) (JArr m)).
    { intros c d n ls V. inversion V as [| |? ? ? ? ? A]; subst. destruct (table_below _ _ _ _ _ _ _ T N I F A) as (ls' & A' & D).
      exists ls'. split; [now apply vo_arr|exact D]. }
    split; [exact Hv|]. split; [|now apply Ca]. intros H. exfalso. apply (H l eq_refl). now exists fields, rows.
  - destruct IH as (Vv & Iv & Cv & Bv).
    assert (Es : map fst (a ++ (n, w) :: b) = map fst (a ++ (n, v) :: b)) by (now rewrite !map_app).
    assert (Hv : Vs (JObj (a ++ (n, v) :: b)) (JObj (a ++ (n, w) :: b))).
    { intros c d n0 ls V. inversion V as [|? ? ? ? kt r K M|]; subst. destruct (members_below _ _ _ _ _ _ w _ _ Vv Cv Bv M) as (r' & M' & D).
      exists ((d, kt ++ [cCOLON]) :: r'). split; [constructor; [exact K|now rewrite Es]|now apply changed_cons]. }
    split; [exact Hv|]. split; [|split].
    + intros _ d ls I. destruct a as [|m a]; cbn [app] in *; inversion I as [| | |? n0 v0 ? t r lb V M]; subst.
      * destruct (Vv _ _ _ _ V) as (r' & V' & D).
        destruct (changed_first _ d [cMINUS; cSPACE] _ _ _ D) as (t' & r2 & -> & D'). eexists. split; [apply it_obj; [exact V'|exact M]|].
        exact (changed_app_r lb _ _ D').
      * injection Es as Es. destruct (members_below _ _ _ _ _ _ w _ _ Vv Cv Bv M) as (r' & M' & D).
        eexists. split; [apply it_obj; [exact V|rewrite Es; exact M']|]. apply changed_cons. now apply changed_app_l.
    + intros ks z C. inversion C as [|? ? ? ? C' E]; subst.
      * exists (JObj (a ++ (n, w) :: b)). split; [constructor|]. split; [exact Hv|]. apply single_member.
      * destruct a as [|p a]; [|destruct a; discriminate]. injection E as -> -> <-. destruct (Cv _ _ C') as (z' & C2 & Hz). exists z'. split; [now constructor|exact Hz].
    + intros ks z C. inversion C as [|? ? ? ? C' E]; subst.
      * exists (JObj (a ++ (n, v) :: b)). split; [constructor|]. apply single_member.
      * destruct a as [|p a]; [|destruct a; discriminate]. injection E as -> -> <-. destruct (Bv _ _ C') as (z' & C2 & Hz). exists z'. split; [now constructor|exact Hz].
  - destruct IH as (_ & Iv & _).
    assert (Hv : Vs (JArr (a ++ v :: b)) (JArr (a ++ w :: b))).
    { intros c d n ls V. inversion V as [| |? ? ? ? ? A]; subst. destruct (array_below _ _ _ _ _ _ _ _ T T' Nt R Iv A) as (h & r & r' & -> & A' & D).
      eexists. split; [apply vo_arr; exact A'|now apply changed_cons]. }
    split; [exact Hv|]. split; [|now apply Ca].
    intros _ d ls I. inversion I as [|? ? t r A| |]; subst. destruct (array_below _ _ _ _ _ _ _ _ T T' Nt R Iv A) as (h & r0 & r' & E & A' & D).
    injection E as -> ->. eexists. split; [apply it_arr; exact A'|now apply changed_cons].
Qed.
Lemma field_document v w doc : field_renamed k k' v w -> document v doc -> exists doc', document w doc' /\ changed doc doc'.
Proof.
  intros R D. destruct R as [l m fields rows T N I F|a n v w b R|a v w b T T' Nt R].
  - inversion D as [|? ? A|]; subst. destruct (table_below _ _ _ _ _ _ _ T N I F A) as (ls' & A' & D'). exists ls'. split; [now constructor|exact D'].
  - destruct (field_all _ _ R) as (Vv & Iv & Cv & Bv). inversion D as [| |? dk ? Hd M]; subst.
    assert (Es : map fst (a ++ (n, w) :: b) = map fst (a ++ (n, v) :: b)) by (now rewrite !map_app).
    destruct (members_below _ _ _ _ _ _ w _ _ Vv Cv Bv M) as (r' & M' & D'). exists r'. split; [|exact D']. apply do_obj with dk; [intros q; rewrite (Hd q), !map_app; reflexivity|rewrite map_app in *; exact M'].
  - destruct (field_all _ _ R) as (_ & Iv & _). inversion D as [|? ? A|]; subst.
    destruct (array_below _ _ _ _ _ _ _ _ T T' Nt R Iv A) as (h & r & r' & -> & A' & D'). eexists. split; [apply do_arr; exact A'|now apply changed_cons].
Qed.
End Fold.
End Names.

Section Options.
Variable indent : option nat.
Variable delimiter : option char.
Variable mode : option key_folding_mode.
Variable depth : option N.
Notation lines v := (encode_lines 0 v (Some (EncOpts indent delimiter mode depth None))).
Let norm := fun kv : str * json => (fst kv, normalize_json_value (snd kv)).

Lemma row_norm k k' r r' : row_renamed k k' r r' -> row_renamed k k' (normalize_json_value r) (normalize_json_value r').
Proof.
  intros (es & es' & -> & -> & N & F). exists (map norm es), (map norm es'). split; [reflexivity|]. split; [reflexivity|].
  split; [rewrite map_map; exact N|]. clear N. induction F as [|m m' es es' [E H] F IH]; cbn [map]; [constructor|]. constructor; [|exact IH].
  cbn [norm fst snd]. rewrite E. auto.
Qed.
Lemma table_norm_fields l fields rows : table l fields rows -> exists rows', table (map normalize_json_value l) fields rows'.
Proof.
  intros T. apply normalize_table in T as (r & T). now exists r.
Qed.
Lemma field_norm k k' v w : field_renamed k k' v w -> field_renamed k k' (normalize_json_value v) (normalize_json_value w).
Proof.
  assert (No : forall l, normalize_json_value (JObj l) = JObj (map norm l)) by reflexivity.
  assert (Na : forall l, normalize_json_value (JArr l) = JArr (map normalize_json_value l)) by reflexivity.
  induction 1 as [l m fields rows T N I F|a n v w b R IH|a v w b T T' Nt R IH]; rewrite ?No, ?Na, ?map_app; cbn [map].
  - destruct (table_norm_fields _ _ _ T) as (rows' & T2). apply fr_table with fields rows'; auto. clear T T2 N I.
    induction F as [|r r' l m H F IH]; cbn [map]; [constructor|]. constructor; [now apply row_norm|exact IH].
  - unfold norm at 2 5. cbn [fst snd]. now constructor.
  - rewrite <- tabled_norm, map_app in T, T'. cbn [map] in T, T'. constructor; auto.
    intros l E. destruct v as [p|lv|lv]; [destruct p; discriminate| |discriminate]. rewrite Na in E. injection E as <-. rewrite tabled_norm. now apply Nt.
Qed.

(** Rename a field of a table, in every row, to a name that no row has.  The text changes in one line, the
    header of the table, where the new name stands in place of the old one; with any options. *)
Theorem C67_renamed_field :
  forall (k k' : str) (v w : json) (ls : list str),
    field_renamed k k' v w -> lines v = Ok ls ->
    exists before x kt kt' y after,
      key_text k kt /\ key_text k' kt' /\
      ls = before ++ (x ++ kt ++ y) :: after /\ lines w = Ok (before ++ (x ++ kt' ++ y) :: after).
Proof.
  intros k k' v w ls R H. apply (C46_encoded_text _ _ _ _ _ _ _ (normalize_spec _)) in H as (doc & D & ->).
  destruct (field_document k k' _ _ _ _ _ _ (field_norm _ _ _ _ R) D) as (doc' & D' & b & d & x & kt & kt' & y & a & K & K' & -> & ->).
  assert (E : lines w = Ok (map (shown (unwrap_or indent 2)) (b ++ (d, x ++ kt' ++ y) :: a))).
  { apply (C46_encoded_text _ _ _ _ _ _ _ (normalize_spec _)). eexists. split; [exact D'|reflexivity]. }
  rewrite E, !map_app. cbn [map]. set (p := repeat cSPACE (unwrap_or indent 2 * d)).
  exists (map (shown (unwrap_or indent 2)) b), (p ++ x), kt, kt', y, (map (shown (unwrap_or indent 2)) a).
  rewrite <- !app_assoc. split; [exact K|]. split; [exact K'|]. split; reflexivity.
Qed.
End Options.
Print Assumptions C67_renamed_field.

(** A table below a folded key; the second row has its members in another order. *)
Definition people (name : string) : json :=
  JObj [(lit "a", JObj [(lit "b", JArr [JObj [(lit "id", JPrim PNull); (lit name, JPrim (PBool true))];
                                       JObj [(lit name, JPrim (PBool false)); (lit "id", JPrim PNull)]])])].
Example C67_renamed_field_case :
  field_renamed (lit "name") (lit "full name") (people "name") (people "full name") /\
  encode_lines 0 (people "name") (Some (EncOpts None None (Some KFSafe) None None)) =
    Ok [lit "a.b[2]{id,name}:"; lit "  null,true"; lit "  null,false"] /\
  encode_lines 0 (people "full name") (Some (EncOpts None None (Some KFSafe) None None)) =
    Ok [lit "a.b[2]{id,""full name""}:"; lit "  null,true"; lit "  null,false"].
Proof.
  split; [|split; vm_compute; reflexivity]. assert (D : lit "id" <> lit "name") by discriminate.
  apply (fr_member _ _ [] _ _ _ []). apply (fr_member _ _ [] _ _ _ []).
  apply fr_table with [lit "id"; lit "name"] [[PNull; PBool true]; [PNull; PBool false]].
  - split; [discriminate|]. split; [eexists _, _; split; reflexivity|]. repeat constructor.
    + eexists. split; [reflexivity|]. split; [reflexivity|]. constructor; [|constructor; [|constructor]].
      * exists [], [(lit "name", JPrim (PBool true))]. split; [reflexivity|intros []].
      * exists [(lit "id", JPrim PNull)], []. split; [reflexivity|]. intros [E|[]]. discriminate.
    + eexists. split; [reflexivity|]. split; [reflexivity|]. constructor; [|constructor; [|constructor]].
      * exists [(lit "name", JPrim (PBool false))], []. split; [reflexivity|]. intros [E|[]]. discriminate.
      * exists [], [(lit "id", JPrim PNull)]. split; [reflexivity|intros []].
  - constructor; [|constructor; [intros []|constructor]]. intros [E|[]]. discriminate.
  - right. now left.
  - constructor; [|constructor; [|constructor]].
    + eexists _, _. split; [reflexivity|]. split; [reflexivity|]. split; [intros [E|[E|[]]]; discriminate|].
      constructor; [split; [reflexivity|right; split; [discriminate|reflexivity]]|]. constructor; [split; [reflexivity|left; split; reflexivity]|constructor].
    + eexists _, _. split; [reflexivity|]. split; [reflexivity|]. split; [intros [E|[E|[]]]; discriminate|].
      constructor; [split; [reflexivity|left; split; reflexivity]|]. constructor; [split; [reflexivity|right; split; [discriminate|reflexivity]]|constructor].
Qed.
(** In an item of an array there are no tables: the name stands on many lines. *)
Example C67_renamed_field_item :
  encode_lines 0 (JArr [JArr [JObj [(lit "a", JPrim PNull)]; JObj [(lit "a", JPrim PNull)]]]) None =
    Ok [lit "[1]:"; lit "  - [2]:"; lit "    - a: null"; lit "    - a: null"].
Proof. vm_compute; reflexivity. Qed.
