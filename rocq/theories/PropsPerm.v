(** C72: the order of members and path expansion. *)
From Coq Require Import Permutation.
From Verif Require Import Chars Floats Json JsonInd JsonEq Shared Scanner Parser DecValidation Decoders EventBuilder Expand DecodeApi
  Fixtures Lex Spec DecProps DecRel ParseProof SpecText SpecRead ReadLex ReadHead ReadLine ReadProof SpecError ErrLex ErrProof SpecCut PropsUnread CutProof
  SpecJoin JoinProof ExpandProof ExpandProps PropsFold SpecExpand ExpandMean PropsExpand PropsRead SpecPerm PermProof.

Local Open Scope nat_scope.

(** In strict mode a document expands whenever the same members in another order do, and to the same
    value up to the order of members. *)
Theorem C72_expansion :
  forall (d d' : doc) (v : json),
    reordered d d' -> expands true d v -> exists v', expands true d' v' /\ jequiv v v'.
Proof. intros d d' v. apply reordered_expands. Qed.
Print Assumptions C72_expansion.

Lemma expand_reordered d d' w : reordered d d' -> expand_paths_safe (node_of d) true = Ok w ->
  (exists w', expand_paths_safe (node_of d') true = Ok w' /\ jequiv (node_to_json w) (node_to_json w')) \/
  expand_paths_safe (node_of d') true = Err EExpandDepth.
Proof.
  intros R E. pose proof (safe_verdict true d) as V. rewrite E in V.
  destruct (reordered_expands _ _ _ R V) as (v' & V' & J). pose proof (safe_verdict true d') as W.
  destruct (expand_paths_safe (node_of d') true) as [w'|e].
  - left. exists w'. split; [reflexivity|]. rewrite (expands_fun _ _ _ _ V' W) in J. exact J.
  - right. destruct e; try (now destruct W). destruct W as [_ W]. now destruct (conflicts_not _ _ W v').
Qed.

(** Two texts with the same members in a different order, read with paths expanded in strict mode:
    both are accepted, with the same value up to the order of members, or both rejected, unless the
    nesting comes near the limit. *)
Theorem C72_texts :
  forall (text text' : str) (indent : option nat) (tr tr' : tree) (v : json),
    let decode := fun text => try_decode text (Some (DecOpts indent None (Some EPSafe))) in
    reads parse_f64 true (unwrap_or indent 2) text tr -> reads parse_f64 true (unwrap_or indent 2) text' tr' ->
    reordered (tree_doc tr) (tree_doc tr') -> decode text = Ok v ->
    (exists v', decode text' = Ok v' /\ jequiv v v') \/ decode text' = Err EExpandDepth.
Proof.
  intros text text' indent tr tr' v decode H H' R E. unfold decode in *.
  pose proof (expanding_reads text indent None) as X. rewrite E in X. destruct X as (t & w & Ht & Ew & ->).
  rewrite (reads_fun _ _ _ _ _ Ht H) in Ew. pose proof (expanding_reads text' indent None) as X.
  destruct (try_decode text' _) as [v'|e].
  - destruct X as (t' & w' & Ht' & Ew' & ->). rewrite (reads_fun _ _ _ _ _ Ht' H') in Ew'. left. eexists. split; [reflexivity|].
    destruct (expand_reordered _ _ _ R Ew) as [(w2 & E2 & J)|E2]; cbn [unwrap_or] in *; congruence.
  - right. destruct X as [X|(t' & Ht' & Ew')]; [now destruct (X _ H')|]. rewrite (reads_fun _ _ _ _ _ Ht' H') in Ew'.
    destruct (expand_reordered _ _ _ R Ew) as [(w2 & E2 & J)|E2]; cbn [unwrap_or] in *; congruence.
Qed.
Print Assumptions C72_texts.

(** Away from the limit both are accepted or both rejected. *)
Theorem C72_both :
  forall (text text' : str) (indent : option nat) (tr tr' : tree),
    let decode := fun text => try_decode text (Some (DecOpts indent None (Some EPSafe))) in
    reads parse_f64 true (unwrap_or indent 2) text tr -> reads parse_f64 true (unwrap_or indent 2) text' tr' ->
    reordered (tree_doc tr) (tree_doc tr') -> doc_levels (tree_doc tr) <= 256 ->
    (exists v v', decode text = Ok v /\ decode text' = Ok v' /\ jequiv v v') \/
    (exists c c', decode text = Err (EExpandConflict c) /\ decode text' = Err (EExpandConflict c')).
Proof.
  assert (Dec : forall text indent tr, reads parse_f64 true (unwrap_or indent 2) text tr -> doc_levels (tree_doc tr) <= 256 ->
    (exists v, try_decode text (Some (DecOpts indent None (Some EPSafe))) = Ok v) \/
    exists c, try_decode text (Some (DecOpts indent None (Some EPSafe))) = Err (EExpandConflict c)).
  { intros text indent tr H L. pose proof (expanding_reads text indent None) as X. destruct (try_decode text _) as [v|e]; [eauto|]. right.
    destruct X as [X|(t & Ht & Ew)]; [now destruct (X _ H)|]. rewrite (reads_fun _ _ _ _ _ Ht H) in Ew.
    pose proof (safe_verdict true (tree_doc tr)) as V. pose proof (safe_fine true _ L) as F. cbn [unwrap_or] in Ew. rewrite Ew in V, F.
    destruct e; try (now destruct V); try (now destruct F). eauto. }
  intros text text' indent tr tr' decode H H' R L. assert (L' : doc_levels (tree_doc tr') <= 256) by (rewrite <- (reordered_levels _ _ R); exact L).
  unfold decode in *. destruct (Dec _ _ _ H L) as [(v & E)|(c & E)], (Dec _ _ _ H' L') as [(v' & E')|(c' & E')].
  - left. destruct (C72_texts _ _ _ _ _ _ H H' R E) as [(v2 & E2 & J)|E2]; [|congruence]. exists v, v'. repeat split; auto. congruence.
  - exfalso. destruct (C72_texts _ _ _ _ _ _ H H' R E) as [(v2 & E2 & J)|E2]; congruence.
  - exfalso. destruct (C72_texts _ _ _ _ _ _ H' H (reordered_sym _ _ R) E') as [(v2 & E2 & J)|E2]; congruence.
  - right. eauto.
Qed.
Print Assumptions C72_both.

(** Without path expansion, in both modes, the order of members is the only difference. *)
Lemma tree_json_doc t : tree_json t = (fix f (d : doc) : json := match d with
  | DPrim p => JPrim p | DArr l => JArr (map f l) | DObj l => JObj (map (fun m => (fst (fst m), f (snd m))) l) end) (tree_doc t).
Proof.
  induction t using tree_ind'; cbn [tree_json tree_doc]; [reflexivity| |]; f_equal; rewrite map_map.
  - apply map_ext_in. intros x I. rewrite Forall_forall in H. exact (H x I).
  - apply map_ext_in. intros [[k q] x] I. rewrite Forall_forall in H. cbn [fst snd]. f_equal. exact (H _ I).
Qed.
Theorem C72_unexpanded :
  forall (text text' : str) (indent : option nat) (strict : option bool) (expand : option expand_paths_mode) (tr tr' : tree),
    let decode := fun text => try_decode text (Some (DecOpts indent strict expand)) in
    expand <> Some EPSafe ->
    reads parse_f64 (unwrap_or strict true) (unwrap_or indent 2) text tr -> reads parse_f64 (unwrap_or strict true) (unwrap_or indent 2) text' tr' ->
    reordered (tree_doc tr) (tree_doc tr') ->
    exists v v', decode text = Ok v /\ decode text' = Ok v' /\ jequiv v v'.
Proof.
  intros text text' indent strict expand tr tr' decode He H H' R. exists (tree_json tr), (tree_json tr').
  split; [apply (C47_decoded_value text indent strict expand _ He); eauto|]. split; [apply (C47_decoded_value text' indent strict expand _ He); eauto|].
  rewrite !tree_json_doc. revert R. generalize (tree_doc tr), (tree_doc tr'). clear. set (f := fix f (d : doc) : json := _).
  intros d. induction d using doc_ind'; intros d' R; inversion R as [|? m F|? l' m P F]; subst.
  - constructor.
  - change (f (DArr l)) with (JArr (map f l)). change (f (DArr m)) with (JArr (map f m)). constructor.
    clear R. induction F as [|a b l m Hab _ IH]; cbn [map]; constructor; inversion H; subst; auto.
  - change (f (DObj l)) with (JObj (map (fun m => (fst (fst m), f (snd m))) l)). change (f (DObj m)) with (JObj (map (fun m => (fst (fst m), f (snd m))) m)).
    apply je_obj with (map (fun m => (fst (fst m), f (snd m))) l'); [now apply Permutation_map|].
    assert (H' : Forall (fun mm : str * bool * doc => forall d', reordered (snd mm) d' -> jequiv (f (snd mm)) (f d')) l').
    { rewrite Forall_forall in H |- *. intros x I. apply H. eapply Permutation_in; [apply Permutation_sym; exact P|exact I]. }
    clear - F H'. induction F as [|a b l' m [E Hr] _ IH]; cbn [map]; constructor; inversion H'; subst; auto. cbn [fst snd]. rewrite E. auto.
Qed.
Print Assumptions C72_unexpanded.

(** Lines: the text of one object before or after the text of another. *)
Lemma needed_members size a va : let d := Some (DecOpts size None None) in
  needed (fun lines => try_decode_from_lines lines d) a (JObj va) -> starts_unindented a ->
  exists ms ls bs, scans true (unwrap_or size 2) 1 a ls bs /\ members parse_f64 true bs false 0 ls ms [] /\
    forall b lsb bsb, scans true (unwrap_or size 2) 1 b lsb bsb -> starts_unindented b -> forall msb rest, members parse_f64 true bsb false 0 lsb msb rest ->
      exists ls' bs', scans true (unwrap_or size 2) 1 (a ++ b) ls' bs' /\ root parse_f64 true bs' ls' (TObj (ms ++ msb)).
Proof.
  intros d H U. destruct (needed_read d eq_refl _ _ H) as (ls & bs & tr & Sc & R & E & Hn).
  destruct tr as [|? ?|ms]; try discriminate. exists ms, ls, bs. split; [exact Sc|]. split.
  - inversion R as [|l ls0 h tail v rest B Q Hh A|l p N C P|l ls0 m ls1 ms0 rest N M Rs]; subst; [now destruct Hn|inversion A|].
    apply ms_more with ls1; [exact (scans_depth _ _ _ _ _ _ Sc U _ _ eq_refl)|intros [[=] _]|exact M|exact Rs].
  - intros b lsb bsb Sb Ub msb rest M. exists (ls ++ map (sh (length a)) lsb), (bs ++ map (Nat.add (length a)) bsb).
    destruct (scans_range _ _ _ _ _ _ Sc) as [R1 R2]. destruct (scans_range _ _ _ _ _ _ Sb) as [_ R4].
    split. { apply scans_app; [exact Sc|]. rewrite Nat.add_comm. now apply scans_move. }
    assert (Hq : forall l r, map (sh (length a)) lsb = l :: r -> tl_depth l = 0).
    { intros l r Em. pose proof (scans_depth _ _ _ _ _ _ Sb Ub) as Dp. clear - Em Dp.
      destruct lsb as [|l0 ls0]; [discriminate|]. injection Em as <- _. exact (Dp l0 ls0 eq_refl). }
    assert (Hb : forall n, In n (bs ++ map (Nat.add (length a)) bsb) -> In n bs \/ S (length a) <= n).
    { intros n I. apply in_app_or in I as [I|I]; [now left|right]. apply in_map_iff in I as (m & <- & I).
      rewrite Forall_forall in R4. apply R4 in I. lia. }
    assert (Ho : Forall (fun n => n <= length a) bs) by (eapply Forall_impl; [|exact R2]; cbn; lia).
    destruct (object_then _ _ _ _ _ Hq Hb _ _ R) as [Hm _]; [eapply Forall_impl; [|exact R1]; cbn; lia|exact Hn|].
    destruct (read_move parse_f64 true bsb bs (length a) Ho) as (_ & Ms & _).
    exact (Hm _ _ (Ms _ _ _ _ _ M)).
Qed.

Lemma lines_expanding lines indent :
  match try_decode_from_lines lines (Some (DecOpts indent None (Some EPSafe))) with
  | Ok v => exists ls bs tr w, scans true (unwrap_or indent 2) 1 lines ls bs /\ root parse_f64 true bs ls tr /\
              expand_paths_safe (node_of (tree_doc tr)) true = Ok w /\ v = node_to_json w
  | Err e => (forall ls bs tr, scans true (unwrap_or indent 2) 1 lines ls bs -> ~ root parse_f64 true bs ls tr) \/
             exists ls bs tr, scans true (unwrap_or indent 2) 1 lines ls bs /\ root parse_f64 true bs ls tr /\
              expand_paths_safe (node_of (tree_doc tr)) true = Err e
  end.
Proof.
  rewrite decode_expanding by reflexivity.
  cbn [resolve_decode_options unwrap_or do_indent do_strict do_expand rd_indent rd_strict rd_expand].
  destruct (decode_stream_sync _ _) as [evs|e] eqn:E; cbn [bind].
  - apply C47_decoded_events in E as (ls & bs & tr & Sc & R & ->). cbn [unwrap_or] in *. rewrite (spells_node _ _ (tree_spells tr)). cbn [bind].
    destruct (expand_paths_safe (node_of (tree_doc tr)) true) as [w|e] eqn:Ew; cbn [bind]; [exists ls, bs, tr, w; auto|]. right. exists ls, bs, tr. auto.
  - left. intros ls bs tr Sc R.
    rewrite (proj2 (C47_decoded_events lines (Some (unwrap_or indent 2)) (Some true) (tree_events tr))) in E by (exists ls, bs, tr; auto). discriminate.
Qed.
Lemma root_once size lines ls bs tr ls' bs' tr' : scans true size 1 lines ls bs -> root parse_f64 true bs ls tr ->
  scans true size 1 lines ls' bs' -> root parse_f64 true bs' ls' tr' -> tr = tr'.
Proof.
  intros H1 H2 H3 H4. apply tree_events_inj.
  pose proof (proj2 (C47_decoded_events lines (Some size) (Some true) (tree_events tr)) ltac:(exists ls, bs, tr; auto)) as E1.
  pose proof (proj2 (C47_decoded_events lines (Some size) (Some true) (tree_events tr')) ltac:(exists ls', bs', tr'; auto)) as E2. congruence.
Qed.

(** The lines of one object before or after the lines of another: with paths expanded in strict mode
    the order does not matter, either. *)
Theorem C72_lines :
  forall (a b : list str) (va vb : list (str * json)) (indent : option nat) (v : json),
    let plain := fun lines => try_decode_from_lines lines (Some (DecOpts indent None None)) in
    let decode := fun lines => try_decode_from_lines lines (Some (DecOpts indent None (Some EPSafe))) in
    starts_unindented a -> starts_unindented b -> needed plain a (JObj va) -> needed plain b (JObj vb) ->
    decode (a ++ b) = Ok v ->
    (exists v', decode (b ++ a) = Ok v' /\ jequiv v v') \/ decode (b ++ a) = Err EExpandDepth.
Proof.
  intros a b va vb indent v plain decode Ua Ub Ha Hb E. unfold decode in *.
  destruct (needed_members indent a va Ha Ua) as (ma & lsa & bsa & Sa & Ma & Aa).
  destruct (needed_members indent b vb Hb Ub) as (mb & lsb & bsb & Sb & Mb & Ab).
  destruct (Aa _ _ _ Sb Ub _ _ Mb) as (l1 & b1 & S1 & R1). destruct (Ab _ _ _ Sa Ua _ _ Ma) as (l2 & b2 & S2 & R2).
  assert (R : reordered (tree_doc (TObj (ma ++ mb))) (tree_doc (TObj (mb ++ ma)))).
  { cbn [tree_doc]. rewrite !map_app. eapply re_obj; [apply Permutation_app_comm|]. apply Forall2_refl_in. apply Forall_forall. intros x _.
    split; [reflexivity|]. generalize (snd x). clear. intros d. induction d using doc_ind'; [constructor|constructor; now apply Forall2_refl_in|].
    eapply re_obj; [reflexivity|]. apply Forall2_refl_in. eapply Forall_impl; [|exact H]. cbn. auto. }
  pose proof (lines_expanding (a ++ b) indent) as X. rewrite E in X. destruct X as (l1' & b1' & t & w & S1' & R1' & Ew & ->).
  rewrite (root_once _ _ _ _ _ _ _ _ S1' R1' S1 R1) in Ew. pose proof (lines_expanding (b ++ a) indent) as X.
  destruct (try_decode_from_lines (b ++ a) _) as [v'|e].
  - destruct X as (l2' & b2' & t' & w' & S2' & R2' & Ew' & ->). rewrite (root_once _ _ _ _ _ _ _ _ S2' R2' S2 R2) in Ew'.
    left. eexists. split; [reflexivity|]. destruct (expand_reordered _ _ _ R Ew) as [(w2 & E2 & J)|E2]; congruence.
  - right. destruct X as [X|(l2' & b2' & t' & S2' & R2' & Ew')]; [now destruct (X _ _ _ S2 R2)|]. rewrite (root_once _ _ _ _ _ _ _ _ S2' R2' S2 R2) in Ew'.
    destruct (expand_reordered _ _ _ R Ew) as [(w2 & E2 & J)|E2]; congruence.
Qed.
Print Assumptions C72_lines.

(** In lenient mode the order decides: the later member wins. *)
Theorem C72_lenient_refuted :
  ~ (forall (d d' : doc) (v : json), reordered d d' -> expands false d v -> exists v', expands false d' v' /\ jequiv v v').
Proof.
  intros H. set (x := (lit "a", false, DPrim PNull)). set (y := (lit "a.b", false, DPrim PNull)).
  assert (R : reordered (DObj [x; y]) (DObj [y; x])).
  { eapply re_obj; [apply perm_swap|]. repeat constructor. }
  pose proof (expand_verdict false (DObj [x; y]) 9) as V. pose proof (expand_verdict false (DObj [y; x]) 9) as W.
  vm_compute in (type of V). vm_compute in (type of W).
  destruct (H _ _ _ R V) as (v' & V' & J). rewrite (expands_fun _ _ _ _ V' W) in J.
  inversion J as [| |? l' m P F]; subst. apply Permutation_length_1_inv in P. subst l'.
  inversion F as [|? ? ? ? [_ G] _]; subst. inversion G.
Qed.
Print Assumptions C72_lenient_refuted.

(** The answer about nesting in [C72_lines] cannot be left out: two members that are accepted in one
    order and refused in the other. *)
Fixpoint steps_to (c : char) (n : nat) (rest : str) : str := match n with O => rest | S n => c :: cDOT :: steps_to c n rest end.
Definition early : list str :=
  [lit "a." ++ steps_to 120 98 (lit "x:"); lit "  " ++ steps_to 121 153 (lit "z: 2")].
Definition late : list str :=
  [lit "a:"; lit "  " ++ steps_to 120 98 (lit "x:"); lit "    " ++ steps_to 121 153 (lit "w: 1")].
Theorem C72_limit_refuted :
  ~ (forall (a b : list str) (va vb : list (str * json)) (v : json),
       let plain := fun lines => try_decode_from_lines lines (Some (DecOpts None None None)) in
       let decode := fun lines => try_decode_from_lines lines (Some (DecOpts None None (Some EPSafe))) in
       starts_unindented a -> starts_unindented b -> needed plain a (JObj va) -> needed plain b (JObj vb) ->
       decode (a ++ b) = Ok v -> exists v', decode (b ++ a) = Ok v').
Proof.
  intros H. cbv zeta in H.
  assert (U : forall c s r, c <> cSPACE -> ~ blank (c :: s) -> starts_unindented ((c :: s) :: r)).
  { intros c s r Hc Hb [|b bl] l r' E B N s' ->.
    - injection E as E1 _ _. congruence.
    - injection E as <- _. inversion B. contradiction. }
  assert (NB : forall s, ~ blank (97%N :: s)) by (intros s B; inversion B; discriminate).
  assert (Ha : exists va, needed (fun lines => try_decode_from_lines lines (Some (DecOpts None None None))) early (JObj va)).
  { eexists. split; [vm_compute; reflexivity|]. vm_compute. discriminate. }
  assert (Hb : exists vb, needed (fun lines => try_decode_from_lines lines (Some (DecOpts None None None))) late (JObj vb)).
  { eexists. split; [vm_compute; reflexivity|]. vm_compute. discriminate. }
  destruct Ha as [va Ha], Hb as [vb Hb].
  assert (E : exists v, try_decode_from_lines (early ++ late) (Some (DecOpts None None (Some EPSafe))) = Ok v) by (eexists; vm_compute; reflexivity).
  assert (F : try_decode_from_lines (late ++ early) (Some (DecOpts None None (Some EPSafe))) = Err EExpandDepth) by (vm_compute; reflexivity).
  destruct E as [v E]. destruct (H early late va vb v) as [v' E']; auto.
  - apply U; [discriminate|apply NB].
  - apply U; [discriminate|apply NB].
  - rewrite F in E'. discriminate.
Qed.
Print Assumptions C72_limit_refuted.

Example C72_case :
  let one := lit "a.b.c: 1
a:
  b.d: 2
x: y" in
  let other := lit "x: y
a:
  b.d: 2
a.b.c: 1" in
  let expanded := Some (DecOpts None None (Some EPSafe)) in
  try_decode one expanded = Ok (JObj [(lit "a", JObj [(lit "b", JObj [(lit "c", jnum (lit "1")); (lit "d", jnum (lit "2"))])]); (lit "x", JPrim (PStr (lit "y")))]) /\
  try_decode other expanded = Ok (JObj [(lit "x", JPrim (PStr (lit "y"))); (lit "a", JObj [(lit "b", JObj [(lit "d", jnum (lit "2")); (lit "c", jnum (lit "1"))])])]) /\
  (forall t, In t [[lit "a: 1"; lit "a.b: 2"]; [lit "a.b: 2"; lit "a: 1"]] ->
     exists c, try_decode_from_lines t expanded = Err (EExpandConflict c)).
Proof.
  cbv zeta. split; [vm_compute; reflexivity|]. split; [vm_compute; reflexivity|].
  intros t [<-|[<-|[]]]; eexists; vm_compute; reflexivity.
Qed.
