(** C72: the lines of an array whose elements stand on one line each, in another order. *)
From Coq Require Import Permutation.
From Verif Require Import Chars Floats Json JsonInd JsonEq Shared Scanner Parser DecValidation Decoders EventBuilder Expand DecodeApi
  Fixtures Lex Spec DecProps DecRel ParseProof SpecText SpecRead ReadLex ReadHead ReadLine ReadProof SpecError ErrLex ErrProof SpecCut PropsUnread CutProof
  ExpandProof ExpandProps PropsFold SpecExpand ExpandMean PropsExpand PropsRead.

Local Open Scope nat_scope.

Section Order.
Variable double : str -> option f64.
Variable strict : bool.
Let flat (d : nat) (ls : list tline) := Forall (fun l => tl_depth l = d) ls.

Lemma flat_ends d (P : tline -> Prop) ls : flat d ls -> (forall l, tl_depth l = d -> ~ P l) -> ends P ls.
Proof. intros F H l r ->. inversion F; subst. auto. Qed.

Lemma rows_none dl fs d e n ls vs rest : d < e -> flat d ls -> rows double strict dl fs e n ls vs rest ->
  vs = [] /\ rest = ls /\ forall ls', flat d ls' -> rows double strict dl fs e n ls' [] ls'.
Proof.
  intros L F H. inversion H as [|n0 ls0 E|n0 l ls0 ps vs0 rest0 D P Sx R]; subst.
  - repeat split. intros. constructor.
  - repeat split. intros ls' F'. apply rw_end. eapply flat_ends; [exact F'|]. cbn. intros l0 E0 E1. lia.
  - inversion F; subst. lia.
Qed.
Lemma items_none d e n ls vs rest : d < e -> flat d ls -> items double strict [] e n ls vs rest ->
  vs = [] /\ rest = ls /\ forall ls', flat d ls' -> items double strict [] e n ls' [] ls'.
Proof.
  intros L F H. inversion H as [|e0 n0 ls0 E|e0 n0 l ls0 v ls1 vs0 rest0 D P R]; subst.
  - repeat split. intros. constructor.
  - repeat split. intros ls' F'. apply is_end. eapply flat_ends; [exact F'|]. cbn. intros l0 E0 E1. lia.
  - inversion F; subst. lia.
Qed.
Lemma no_gap_nil used : no_gap [] used.
Proof. intros a b m z _ _ n []. Qed.
Lemma array_none d e h tail ls v rest : d <= e -> flat d ls -> array double strict [] e h tail ls v rest ->
  rest = ls /\ forall ls', flat d ls' -> array double strict [] e h tail ls' v ls'.
Proof.
  intros L F H. inversion H as [e0 h0 t0 ls0 t ps T N P Sx|e0 h0 t0 ls0 fs vs used rest0 B Hf Hn R E Sx|e0 h0 t0 ls0 vs used rest0 B Hf R E Sx]; subst.
  - split; [reflexivity|]. intros. eapply ar_inline; eauto.
  - destruct (rows_none _ _ d (S e) _ _ _ _ ltac:(lia) F R) as (-> & Er & K). split; [exact Er|]. intros ls' F'.
    eapply (ar_table _ _ _ _ _ _ _ fs [] []); eauto. intros Hs. destruct (Sx Hs) as (A & _ & _). split; [exact A|]. split; [apply no_gap_nil|].
    eapply flat_ends; [exact F'|]. cbn. intros l0 E0 E1. lia.
  - destruct (items_none d (S e) _ _ _ _ ltac:(lia) F R) as (-> & Er & K). split; [exact Er|]. intros ls' F'.
    eapply (ar_list _ _ _ _ _ _ _ [] []); eauto. intros Hs. destruct (Sx Hs) as (A & _ & _). split; [exact A|]. split; [apply no_gap_nil|].
    eapply flat_ends; [exact F'|]. cbn. intros l0 E0 E1. lia.
Qed.
Lemma member_none d e t ls m rest : d <= e -> flat d ls -> member double strict [] e t ls m rest ->
  rest = ls /\ forall ls', flat d ls' -> member double strict [] e t ls' m ls'.
Proof.
  intros L F H. inversion H; subst.
  - match goal with A : array _ _ _ _ _ _ _ _ _ |- _ => destruct (array_none d _ _ _ _ _ _ L F A) as (Er & K) end.
    split; [exact Er|]. intros. eapply mb_array; eauto.
  - inversion F; subst. lia.
  - split; [reflexivity|]. intros ls' F'. eapply mb_empty; eauto. eapply flat_ends; [exact F'|]. cbn. intros l0 E0 E1. lia.
  - split; [reflexivity|]. intros ls' F'. eapply mb_prim; eauto.
Qed.
Lemma item_none d t ls v rest : flat d ls -> item double strict [] d t ls v rest ->
  rest = ls /\ forall ls', flat d ls' -> item double strict [] d t ls' v ls'.
Proof.
  intros F H. inversion H; subst.
  - split; [reflexivity|]. intros. constructor.
  - split; [reflexivity|]. intros. now constructor.
  - match goal with A : array _ _ _ _ _ _ _ _ _ |- _ => destruct (array_none d _ _ _ _ _ _ (le_n _) F A) as (Er & K) end.
    split; [exact Er|]. intros. eapply im_array; eauto.
  - match goal with A : member _ _ _ _ _ _ _ _ |- _ => destruct (member_none d (S d) _ _ _ _ ltac:(lia) F A) as (-> & K) end.
    match goal with A : members _ _ _ _ _ _ _ _ |- _ => inversion A as [st0 d0 ls0 E|st0 d0 l ls0 m0 ls1' ms0 rest0 D N M R]; subst end.
    + split; [reflexivity|]. intros ls' F'. eapply im_object; eauto. apply ms_end. eapply flat_ends; [exact F'|]. cbn. intros l E0 [E1 _]. lia.
    + inversion F; subst. lia.
  - split; [reflexivity|]. intros. now apply im_prim.
Qed.

(** A line that is one row, or one item, at depth 1. *)
Definition at_one (size : nat) (raw t : str) : Prop :=
  exists k, raw = repeat cSPACE k ++ t /\ ~ blank t /\ (forall r, t <> cSPACE :: r) /\ depth_of strict size k 1 /\
    (strict = true -> forall r, t <> cTAB :: r).
Definition row_line (dl : char) (fs : list (str * bool)) (t : str) (v : tree) : Prop :=
  exists ps, prims_text double dl t ps /\ (strict = true -> length ps = length fs) /\ v = TObj (row_members fs ps).
Definition item_line (t : str) (v : tree) : Prop :=
  forall ls, flat 1 ls -> item double strict [] 1 t ls v ls.

Lemma rows_lines size dl fs n raws ls bs : scans strict size n raws ls bs -> forall m vs rest,
  rows double strict dl fs 1 m ls vs rest -> length raws <= length vs ->
  bs = [] /\ rest = [] /\ (N.of_nat (length vs) <= m)%N /\ Forall2 (fun raw v => exists t, at_one size raw t /\ row_line dl fs t v) raws vs.
Proof.
  assert (Le : forall m ls vs rest, rows double strict dl fs 1 m ls vs rest -> length vs <= length ls).
  { intros m ls' vs rest R. induction R; cbn; lia. }
  induction 1 as [n|n raw raws ls bs B Sc IH|n k t d raws ls bs Hb Hs Hd Ht Sc IH]; intros m vs rest R L.
  - inversion R; subst; repeat split; try constructor; cbn; lia.
  - apply Le in R. apply scans_length in Sc. cbn in L. lia.
  - inversion R as [|n0 ls0 E|n0 l ls0 ps vs0 rest0 D P Sx R0]; subst; [cbn in L; lia|cbn in L; lia|].
    cbn in L. destruct (IH _ _ _ R0 ltac:(lia)) as (-> & -> & Lm & F). cbn [tl_depth tl_text] in *. subst d.
    repeat split; [cbn [length]; lia|]. constructor; [|exact F]. exists t. split; [now exists k|]. now exists ps.
Qed.
Lemma lines_rows size dl fs raws vs : Forall2 (fun raw v => exists t, at_one size raw t /\ row_line dl fs t v) raws vs ->
  forall n m, (N.of_nat (length vs) <= m)%N -> exists ls, scans strict size n raws ls [] /\ rows double strict dl fs 1 m ls vs [].
Proof.
  induction 1 as [|raw v raws vs (t & (k & -> & Hb & Hs & Hd & Ht) & (ps & P & Lp & ->)) _ IH]; intros n m L.
  - exists []. split; [constructor|]. apply rw_end. intros l r [=].
  - cbn [length] in L. destruct (IH (S n) (N.pred m)) as (ls & Sc & R); [lia|]. exists (TLine n 1 t :: ls). split; [now constructor|].
    rewrite <- (N.succ_pred m) by lia. now constructor.
Qed.

Lemma items_le d m ls vs rest : items double strict [] d m ls vs rest -> length vs <= length ls.
Proof.
  revert d m ls rest. induction vs as [|v vs IH]; intros d m ls rest H; [cbn; lia|].
  inversion H as [| |d0 n0 l ls0 v0 ls1 vs0 rest0 D I R]; subst.
  apply (read_uses double strict []) in I as (used & -> & _). apply IH in R. cbn. rewrite app_length. lia.
Qed.
Lemma items_lines size n raws ls bs : scans strict size n raws ls bs -> forall m vs rest,
  items double strict [] 1 m ls vs rest -> length raws <= length vs ->
  bs = [] /\ rest = [] /\ (N.of_nat (length vs) <= m)%N /\ flat 1 ls /\ Forall2 (fun raw v => exists t, at_one size raw t /\ item_line t v) raws vs.
Proof.
  induction 1 as [n|n raw raws ls bs B Sc IH|n k t d raws ls bs Hb Hs Hd Ht Sc IH]; intros m vs rest R L.
  - inversion R; subst; repeat split; try constructor; cbn; lia.
  - apply items_le in R. apply scans_length in Sc. cbn in L. lia.
  - inversion R as [| |d0 n0 l ls0 v ls1 vs0 rest0 D I R0]; subst; [cbn in L; lia|cbn in L; lia|].
    cbn in L. cbn [tl_depth tl_text] in *. subst d.
    assert (ls1 = ls) as ->.
    { destruct (proj2 (proj2 (proj2 (proj2 (read_uses double strict [])))) _ _ _ _ _ I) as (used & E & _).
      pose proof (items_le _ _ _ _ _ R0) as L1. apply scans_length in Sc. apply (f_equal (@length tline)) in E as E'.
      rewrite app_length in E'. destruct used; [now symmetry|cbn in E'; lia]. }
    destruct (IH _ _ _ R0 ltac:(lia)) as (-> & -> & Lm & Fl & F).
    repeat split; [cbn [length]; lia|constructor; [reflexivity|exact Fl]|]. constructor; [|exact F]. exists t. split; [now exists k|].
    exact (proj2 (item_none _ _ _ _ _ Fl I)).
Qed.
Lemma lines_items size raws vs : Forall2 (fun raw v => exists t, at_one size raw t /\ item_line t v) raws vs ->
  forall n m, (N.of_nat (length vs) <= m)%N -> exists ls, scans strict size n raws ls [] /\ flat 1 ls /\ items double strict [] 1 m ls vs [].
Proof.
  induction 1 as [|raw v raws vs (t & (k & -> & Hb & Hs & Hd & Ht) & I) _ IH]; intros n m L.
  - exists []. repeat split; [constructor|constructor|]. apply is_end. intros l r [=].
  - cbn [length] in L. destruct (IH (S n) (N.pred m)) as (ls & Sc & Fl & R); [lia|]. exists (TLine n 1 t :: ls). repeat split; [now constructor|now constructor|].
    rewrite <- (N.succ_pred m) by lia. eapply is_more; [reflexivity|now apply I|exact R].
Qed.

Lemma pairs_order (P : str -> tree -> Prop) (J : tree -> json -> Prop) (ps ps' : list (str * json)) vs :
  Forall2 P (map fst ps) vs -> Forall2 J vs (map snd ps) -> Permutation ps ps' ->
  exists vs', Forall2 P (map fst ps') vs' /\ Forall2 J vs' (map snd ps') /\ length vs' = length vs.
Proof.
  intros F E Pm.
  assert (A : Forall (fun p => exists v, P (fst p) v /\ J v (snd p)) ps).
  { clear Pm. revert vs F E. induction ps as [|p ps IH]; intros vs F E; [constructor|]. inversion F; subst. cbn in E. inversion E; subst. constructor; eauto. }
  apply (Permutation_Forall Pm) in A.
  assert (L : length vs = length ps') by (rewrite <- (Permutation_length Pm); rewrite <- (map_length fst ps); symmetry; clear - F; induction F; cbn; congruence).
  rewrite L. clear - A. induction A as [|p ps (v & Pv & Ev) _ (vs & F & E & Lv)]; [exists []; repeat split; constructor|].
  exists (v :: vs). cbn. repeat split; [now constructor|now constructor|congruence].
Qed.
End Order.

(** The lines of an array with one line for each element, not all of them primitives. *)
Lemma tree_order (J : tree -> json -> Prop) st size h (rows rows' : list (str * json)) ls bs n vs :
  scans st size 1 (h :: map fst rows) ls bs -> root parse_f64 st bs ls (TArr n vs) -> Forall2 J vs (map snd rows) ->
  (exists v, In v vs /\ forall p, v <> TPrim p) -> Permutation rows rows' ->
  exists ls' bs' n' vs', scans st size 1 (h :: map fst rows') ls' bs' /\ root parse_f64 st bs' ls' (TArr n' vs') /\
    Forall2 J vs' (map snd rows').
Proof.
  intros Sc R Ej Np Pm.
  inversion R as [|l ls0 hl tail v rest B Q Hh A|l p N C P|l ls0 m ls1 ms0 rest N M Rs]; subst.
  assert (E2 : length vs = length rows) by (rewrite <- (map_length snd rows); clear - Ej; induction Ej; cbn; congruence).
  inversion Sc as [|n0 raw raws ls' bs0 Bl Sc0|n0 k t d raws ls' bs0 Hb Hs Hd Ht Sc0]; subst.
  - (* the header cannot be further down *)
    exfalso. apply scans_length in Sc0. rewrite map_length in Sc0. cbn in Sc0.
    inversion A as [e0 h0 t0 ls2 t ps T Nn P Sx|e0 h0 t0 ls2 fs vs0 used rest0 Bt Hf Hn Rw E Sx|e0 h0 t0 ls2 vs0 used rest0 Bt Hf Rw E Sx]; subst.
    + destruct Np as (x & I & Hx). apply in_map_iff in I as (p & <- & _). now apply (Hx p).
    + assert (length vs <= length (used ++ rest)) by (clear - Rw; induction Rw; cbn; lia). lia.
    + assert (length vs <= length (used ++ rest)).
      { clear - Rw. remember (used ++ rest) as ls eqn:El. clear El used. revert Rw. generalize (hl_length hl), ls. induction vs as [|v vs IH]; intros n ls1 Hi; [cbn; lia|].
        inversion Hi as [| |d0 n0 l ls0 v0 ls2 vs0 rest0 D I R]; subst.
        apply (read_uses parse_f64 st (1 :: bs0)) in I as (u & -> & _). apply IH in R. cbn. rewrite app_length. lia. }
      lia.
  - cbn [tl_text] in *.
    inversion A as [e0 h0 t0 ls2 t' ps T Nn P Sx|e0 h0 t0 ls2 fs vs0 used rest0 Bt Hf Hn Rw E Sx|e0 h0 t0 ls2 vs0 used rest0 Bt Hf Rw E Sx]; subst.
    + exfalso. destruct Np as (x & I & Hx). apply in_map_iff in I as (p & <- & _). now apply (Hx p).
    + destruct (rows_lines _ _ _ _ _ _ _ _ _ Sc0 _ _ _ Rw) as (-> & -> & Lm & F); [rewrite map_length; lia|].
      destruct (pairs_order _ _ _ _ _ F Ej Pm) as (vs' & F' & Ej' & L').
      destruct (lines_rows _ _ _ _ _ _ _ F' 2 (hl_length hl)) as (ls' & Sc' & Rw'); [rewrite L'; exact Lm|].
      exists (TLine 1 d t :: ls'), [], (hl_length hl), vs'. split; [now constructor|]. split.
      * eapply ro_array; [exact B|exact Q|exact Hh|]. eapply (ar_table _ _ _ _ _ _ _ fs vs' ls'); eauto; [symmetry; apply app_nil_r|].
        intros Hst. destruct (Sx Hst) as (A1 & _ & _). split; [congruence|]. split; [apply no_gap_nil|intros ? ? [=]].
      * exact Ej'.
    + 
      assert (bs = []) as ->.
      { apply scans_length in Sc0. rewrite map_length in Sc0. assert (length vs <= length (used ++ rest)).
        { clear - Rw. remember (used ++ rest) as ls eqn:El. clear El used. revert Rw. generalize (hl_length hl), ls. induction vs as [|v vs IH]; intros n ls1 Hi; [cbn; lia|].
          inversion Hi as [| |d0 n0 l ls0 v0 ls2 vs0 rest0 D I R]; subst.
          apply (read_uses parse_f64 st bs) in I as (u & -> & _). apply IH in R. cbn. rewrite app_length. lia. }
        destruct bs; [reflexivity|cbn in Sc0; lia]. }
      destruct (items_lines _ _ _ _ _ _ _ Sc0 _ _ _ Rw) as (_ & -> & Lm & _ & F); [rewrite map_length; lia|].
      destruct (pairs_order _ _ _ _ _ F Ej Pm) as (vs' & F' & Ej' & L').
      destruct (lines_items _ _ _ _ _ F' 2 (hl_length hl)) as (ls' & Sc' & _ & Rw'); [rewrite L'; exact Lm|].
      exists (TLine 1 d t :: ls'), [], (hl_length hl), vs'. split; [now constructor|]. split.
      * eapply ro_array; [exact B|exact Q|exact Hh|]. eapply (ar_list _ _ _ _ _ _ _ vs' ls'); eauto; [symmetry; apply app_nil_r|].
        intros Hst. destruct (Sx Hst) as (A1 & _ & _). split; [congruence|]. split; [apply no_gap_nil|intros ? ? [=]].
      * exact Ej'.
Qed.

Lemma expand_kind l strict v w : expand_inner l strict (node_of (tree_doc v)) = Ok w ->
  match v with
  | TPrim p => w = NPrim p
  | TArr _ vs => exists l' ws, l = S l' /\ w = NArr ws /\ Forall2 (fun x y => expand_inner l' strict (node_of (tree_doc x)) = Ok y) vs ws
  | TObj _ => exists es q, w = NObj es q
  end.
Proof.
  destruct l as [|l]; [discriminate|]. destruct v as [p|n vs|ms]; cbn [tree_doc node_of].
  - cbn. congruence.
  - rewrite expand_arr. destruct (map_result _ _) as [xs|] eqn:E; [|discriminate]. cbn [bind]. intros H. injection H as <-.
    exists l, xs. repeat split. apply map_result_Forall2 in E. clear - E. rewrite map_map in E. revert xs E.
    induction vs as [|v vs IH]; intros xs E; inversion E; subst; constructor; auto.
  - intros H. destruct l as [|l]; [discriminate|]. rewrite expand_obj in H. destruct (expand_go _ _ _ _ _); [|discriminate]. cbn [bind] in H. injection H as <-. eauto.
Qed.
Lemma expand_elements l strict n vs ws : Forall2 (fun x y => expand_inner l strict (node_of (tree_doc x)) = Ok y) vs ws ->
  expand_inner (S l) strict (node_of (tree_doc (TArr n vs))) = Ok (NArr ws).
Proof.
  intros F. cbn [tree_doc node_of]. rewrite expand_arr.
  replace (map_result (expand_inner l strict) (map node_of (map tree_doc vs))) with (Ok ws); [reflexivity|].
  induction F as [|x y vs ws E _ IH]; [reflexivity|]. cbn [map map_result]. rewrite E. cbn [bind]. now rewrite <- IH.
Qed.

(** An array with one line for each element, not all of them primitives: the lines in another order,
    under the same header, give the elements in that order.  Each line decides its element, wherever
    it stands. *)
Theorem C72_row_order :
  forall (h : str) (rows rows' : list (str * json)) (d : option decode_options),
    (exists v, In v (map snd rows) /\ forall p, v <> JPrim p) -> Permutation rows rows' ->
    try_decode_from_lines (h :: map fst rows) d = Ok (JArr (map snd rows)) ->
    try_decode_from_lines (h :: map fst rows') d = Ok (JArr (map snd rows')).
Proof.
  intros h rows rows' d (j & Ij & Nj) Pm H.
  assert (paths_inner : forall n s, expand_paths_safe n s = expand_inner MAX_EXPAND_DEPTH s n) by (intros; reflexivity).
  destruct (rd_expand (resolve_decode_options d)) eqn:He.
  - destruct (lines_ok_inv _ _ _ He H) as (ls & bs & tr & Sc & R & Ev). destruct tr as [p|n vs|ms]; try discriminate.
    cbn [tree_json] in Ev. injection Ev as Ev.
    destruct (tree_order (fun v j => tree_json v = j) _ _ _ rows rows' _ _ _ _ Sc R) as (ls' & bs' & n' & vs' & Sc' & R' & F); [| |exact Pm|].
    + rewrite Ev. clear. induction vs; cbn [map]; constructor; auto.
    + rewrite Ev in Ij. apply in_map_iff in Ij as (v & Evj & I). exists v. split; [exact I|]. intros p ->. now apply (Nj p).
    + rewrite (lines_ok _ _ _ _ _ He Sc' R'). cbn [tree_json]. do 2 f_equal. clear - F. induction F; cbn [map]; congruence.
  - apply (decode_expanding_inv _ _ _ He) in H as (evs & nd & m & E1 & E2 & E3 & E4).
    apply C47_decoded_events in E1 as (ls & bs & tr & Sc & R & ->). cbn [unwrap_or] in Sc, R.
    rewrite (spells_node _ _ (tree_spells tr)) in E2. injection E2 as <-. rewrite paths_inner in E3.
    revert E3 paths_inner. generalize MAX_EXPAND_DEPTH. intros top E3 paths_inner. pose proof (expand_kind _ _ _ _ E3) as K.
    destruct tr as [p|n vs|ms]; [rewrite K in E4; discriminate E4| |destruct K as (es & q & K); rewrite K in E4; discriminate E4].
    destruct K as (l' & ws & El & K & F). rewrite K in E4. cbn [node_to_json] in E4. injection E4 as E4. clear K E3.
    pose (J := fun v j => exists w, expand_inner l' (rd_strict (resolve_decode_options d)) (node_of (tree_doc v)) = Ok w /\ node_to_json w = j).
    destruct (tree_order J _ _ _ rows rows' _ _ _ _ Sc R) as (ls' & bs' & n' & vs' & Sc' & R' & F'); [| |exact Pm|].
    + rewrite <- E4. clear - F. unfold J. induction F; cbn [map]; constructor; eauto.
    + rewrite <- E4 in Ij. clear - F Ij Nj. induction F as [|x y vs ws E _ IH]; [destruct Ij|]. cbn [map] in Ij. destruct Ij as [Ej|Ij].
      * exists x. split; [now left|]. intros p ->. apply expand_kind in E. subst y. cbn in Ej. apply (Nj p). congruence.
      * destruct (IH Ij) as (v & I & Hv). exists v. split; [now right|exact Hv].
    + rewrite (decode_expanding _ _ He).
      rewrite (proj2 (C47_decoded_events (h :: map fst rows') (Some (rd_indent (resolve_decode_options d))) (Some (rd_strict (resolve_decode_options d))) (tree_events (TArr n' vs')))) by (exists ls', bs', (TArr n' vs'); auto).
      cbn [bind]. rewrite (spells_node _ _ (tree_spells _)). cbn [bind].
      assert (exists ws', Forall2 (fun x y => expand_inner l' (rd_strict (resolve_decode_options d)) (node_of (tree_doc x)) = Ok y) vs' ws' /\ map node_to_json ws' = map snd rows') as (ws' & F2 & E2).
      { clear - F'. unfold J in F'. induction F' as [|x y a b (w & Ew & Ejw) _ (ws' & F2 & E2)]; [exists []; split; [constructor|reflexivity]|].
        exists (w :: ws'). split; [now constructor|]. cbn [map]. congruence. }
      rewrite paths_inner, El. rewrite (expand_elements _ _ _ _ _ F2). cbn [bind node_to_json]. now rewrite E2.
Qed.
Print Assumptions C72_row_order.

Example C72_row_order_case :
  let row := fun i n => JObj [(lit "id", JPrim (PStr (lit i))); (lit "name", JPrim (PStr (lit n)))] in
  let a := (lit "  u1,Ada", row "u1"%string "Ada"%string) in let b := (lit "  u2,Bob", row "u2"%string "Bob"%string) in
  try_decode_from_lines (lit "[2]{id,name}:" :: map fst [a; b]) None = Ok (JArr (map snd [a; b])) /\
  try_decode_from_lines (lit "[2]{id,name}:" :: map fst [b; a]) None = Ok (JArr (map snd [b; a])).
Proof. vm_compute. auto. Qed.
Example C72_row_order_items :
  let a := (lit "  - x", JPrim (PStr (lit "x"))) in let b := (lit "  - k:", JObj [(lit "k", JObj [])]) in
  let c := (lit "  - [2]: p,true", JArr [JPrim (PStr (lit "p")); JPrim (PBool true)]) in
  try_decode_from_lines (lit "[3]:" :: map fst [a; b; c]) None = Ok (JArr (map snd [a; b; c])) /\
  try_decode_from_lines (lit "[3]:" :: map fst [c; a; b]) None = Ok (JArr (map snd [c; a; b])).
Proof. vm_compute. auto. Qed.
Example C72_row_order_paths :
  let d := Some (DecOpts None None (Some EPSafe)) in
  let row := fun x => JObj [(lit "a", JObj [(lit "b", JPrim (PStr (lit x)))])] in
  let a := (lit "  x", row "x"%string) in let b := (lit "  y", row "y"%string) in
  try_decode_from_lines (lit "[2]{a.b}:" :: map fst [a; b]) d = Ok (JArr (map snd [a; b])) /\
  try_decode_from_lines (lit "[2]{a.b}:" :: map fst [b; a]) d = Ok (JArr (map snd [b; a])).
Proof. vm_compute. auto. Qed.
(** An inline array does not read the lines after it: there the condition on the elements is needed. *)
Theorem C72_row_order_inline_refuted :
  ~ (forall (h : str) (rows rows' : list (str * json)),
       Permutation rows rows' -> try_decode_from_lines (h :: map fst rows) None = Ok (JArr (map snd rows)) ->
       try_decode_from_lines (h :: map fst rows') None = Ok (JArr (map snd rows'))).
Proof.
  intros H. pose (a := (lit "  x", JPrim (PStr (lit "x")))). pose (b := (lit "  y", JPrim (PStr (lit "y")))).
  specialize (H (lit "[2]: x,y") [a; b] [b; a] (perm_swap _ _ _)). assert (E : try_decode_from_lines (lit "[2]: x,y" :: map fst [a; b]) None = Ok (JArr (map snd [a; b]))) by (vm_compute; reflexivity).
  apply H in E. vm_compute in E. discriminate.
Qed.
Print Assumptions C72_row_order_inline_refuted.
