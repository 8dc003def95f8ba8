(** Reading one document after another. *)
From Coq Require Import Sorting.Sorted.
From Verif Require Import Chars Floats Json Shared Scanner Parser DecValidation Decoders EventBuilder Expand DecodeApi
  Lex Spec DecProps DecRel ParseProof SpecText SpecRead ReadLex ReadHead ReadLine ReadProof SpecError ErrLex ErrProof SpecCut PropsUnread CutProof SpecJoin.

Local Open Scope nat_scope.

(** ** Lines of two texts *)
Definition sh (k : nat) (l : tline) : tline := TLine (k + tl_no l) (tl_depth l) (tl_text l).

Lemma scans_app strict size n a ls bs : scans strict size n a ls bs -> forall b ls' bs',
  scans strict size (n + length a) b ls' bs' -> scans strict size n (a ++ b) (ls ++ ls') (bs ++ bs').
Proof.
  induction 1 as [n|n raw raws ls bs B Sc IH|n k0 t d raws ls bs B N D T Sc IH]; intros b ls' bs' H; cbn [length app] in *.
  - now rewrite Nat.add_0_r in H.
  - apply sc_blank; [exact B|]. apply IH. now rewrite Nat.add_succ_comm.
  - apply sc_line; auto. apply IH. now rewrite Nat.add_succ_comm.
Qed.
Lemma scans_move strict size n a ls bs k : scans strict size n a ls bs -> scans strict size (k + n) a (map (sh k) ls) (map (Nat.add k) bs).
Proof.
  induction 1 as [n|n raw raws ls bs B Sc IH|n k0 t d raws ls bs B N D T Sc IH]; cbn [map].
  - constructor.
  - apply sc_blank; [exact B|]. now rewrite Nat.add_succ_r in IH.
  - unfold sh at 1. cbn. apply sc_line; auto. now rewrite Nat.add_succ_r in IH.
Qed.
Lemma indent_move size n a e k : indent_fails size n a e -> indent_fails size (k + n) a (moved k e).
Proof.
  induction 1 as [n raw raws e B _ IH|n k0 t d raws e B N D T _ IH|n k0 t raws B|n k0 t raws B N T Z K|n k0 t raws B N T Z K]; cbn [moved].
  - apply inf_blank; [exact B|]. now rewrite Nat.add_succ_r in IH.
  - eapply inf_line; eauto. now rewrite Nat.add_succ_r in IH.
  - now apply inf_tab.
  - now apply inf_zero.
  - now apply inf_multiple.
Qed.
Lemma indent_app size n a ls bs e : scans true size n a ls bs -> forall b,
  indent_fails size (n + length a) b e -> indent_fails size n (a ++ b) e.
Proof.
  induction 1 as [n|n raw raws ls bs B Sc IH|n k0 t d raws ls bs B N D T Sc IH]; intros b H; cbn [length app] in *.
  - now rewrite Nat.add_0_r in H.
  - apply inf_blank; [exact B|]. apply IH. now rewrite Nat.add_succ_comm.
  - eapply inf_line; eauto. apply IH. now rewrite Nat.add_succ_comm.
Qed.
Lemma scans_total strict size raws : (strict = true /\ exists e, indent_fails size 1 raws e) \/ exists ls bs, scans strict size 1 raws ls bs.
Proof.
  destruct (parse_lines_sync raws size strict (ScanState 0 [])) as [[ls st]|e] eqn:E.
  - right. apply scans_sound in E as (bs & H & _). eauto.
  - left. apply indent_err in E as [E1 E2]. eauto.
Qed.
Lemma scans_range strict size n raws ls bs : scans strict size n raws ls bs ->
  Forall (fun l => n <= tl_no l < n + length raws) ls /\ Forall (fun m => n <= m < n + length raws) bs.
Proof.
  induction 1 as [n|n raw raws ls bs B Sc [I1 I2]|n k0 t d raws ls bs B N D T Sc [I1 I2]].
  - split; constructor.
  - cbn [length]. split; [eapply Forall_impl; [|exact I1]; cbn; lia|]. constructor; [lia|]. eapply Forall_impl; [|exact I2]; cbn; lia.
  - cbn [length]. split; [constructor; [cbn; lia|]; eapply Forall_impl; [|exact I1]; cbn; lia|]. eapply Forall_impl; [|exact I2]; cbn; lia.
Qed.
Lemma scans_depth strict size n raws ls bs : scans strict size n raws ls bs -> starts_unindented raws ->
  forall l r, ls = l :: r -> tl_depth l = 0.
Proof.
  induction 1 as [n|n raw raws ls bs B Sc IH|n k0 t d raws ls bs B N D T Sc IH]; intros U l r E.
  - discriminate.
  - apply (IH (fun bl x y E' Hb => U (raw :: bl) x y (f_equal (cons raw) E') (Forall_cons _ B Hb)) l r E).
  - injection E as <- _. cbn. assert (K : k0 = 0).
    { destruct k0 as [|k0]; [reflexivity|]. exfalso. eapply (U [] _ raws eq_refl); [constructor| |reflexivity].
      intros X. unfold blank in *. apply B. apply Forall_app in X. apply X. }
    subst k0. destruct D as (D1 & D2 & _). destruct size as [|size]; [now apply D1|]. destruct D2 as [D2 _]; [discriminate|]. lia.
Qed.

Section Join.
Variable double : str -> option f64.
Variable strict : bool.

(** ** A document with lines after it *)
Section Extend.
Variables (blanks bs' : list nat) (top : nat) (q : list tline).
Hypothesis Hq : forall l r, q = l :: r -> tl_depth l = 0.
Hypothesis Hb : forall n, In n bs' -> In n blanks \/ top <= n.

Definition below (ls : list tline) : Prop := Forall (fun l => tl_no l < top) ls.
Lemma below_suffix a b : below (a ++ b) -> below b. Proof. intros H. apply Forall_app in H. apply H. Qed.
Lemma below_prefix a b : below (a ++ b) -> below a. Proof. intros H. apply Forall_app in H. apply H. Qed.
Lemma gap_extend used : below used -> no_gap blanks used -> no_gap bs' used.
Proof.
  intros L G a b m z Ea Ez n Hn. destruct (Hb n Hn) as [I|T]; [eapply G; eauto|].
  intros [_ X]. unfold below in L. rewrite Ez in L. apply Forall_app in L as [_ L]. inversion L; subst. lia.
Qed.
Lemma ends_extend (P : tline -> Prop) ls : (forall l, tl_depth l = 0 -> ~ P l) -> ends P ls -> ends P (ls ++ q).
Proof.
  intros N H l r E. destruct ls as [|x ls]; cbn in E; [apply N; eapply Hq; eauto|]. injection E as -> _. eapply H. reflexivity.
Qed.
Lemma rows_extend dl fs d n ls vs rest : rows double strict dl fs (S d) n ls vs rest -> rows double strict dl fs (S d) n (ls ++ q) vs (rest ++ q).
Proof.
  induction 1 as [ls|n ls E|n l ls ps vs rest D P S R IH].
  - constructor.
  - apply rw_end. apply ends_extend; [|exact E]. intros l -> [=].
  - cbn [app]. now constructor.
Qed.
Lemma read_extend :
  (forall d t ls m rest, member double strict blanks d t ls m rest -> below ls -> member double strict bs' d t (ls ++ q) m (rest ++ q)) /\
  (forall stop d ls ms rest, members double strict blanks stop d ls ms rest -> below ls -> 0 < d -> members double strict bs' stop d (ls ++ q) ms (rest ++ q)) /\
  (forall d h tail ls v rest, array double strict blanks d h tail ls v rest -> below ls -> array double strict bs' d h tail (ls ++ q) v (rest ++ q)) /\
  (forall d n ls vs rest, items double strict blanks d n ls vs rest -> below ls -> 0 < d -> items double strict bs' d n (ls ++ q) vs (rest ++ q)) /\
  (forall d t ls v rest, item double strict blanks d t ls v rest -> below ls -> item double strict bs' d t (ls ++ q) v (rest ++ q)).
Proof.
  destruct (read_uses double strict blanks) as (Um & _ & _ & _ & Ui).
  apply read_mutind.
  - intros. eapply mb_array; eauto.
  - intros d t ls k qq r l ls' ms rest Hp Hk Hbl -> Hd M IH L. eapply mb_object; eauto; [reflexivity|]. apply IH; [exact L|lia].
  - intros d t ls k qq r Hp Hk Hbl He L. eapply mb_empty; eauto. apply ends_extend; [|exact He]. intros; lia.
  - intros. eapply mb_prim; eauto.
  - intros stop d ls He L Hd. constructor. apply ends_extend; [|exact He]. intros l E [X _]. lia.
  - intros stop d l ls m ls1 ms rest D N M IH1 _ IH2 L Hd. assert (L1 : below ls) by (inversion L; auto). cbn [app].
    eapply ms_more; eauto. apply IH2; [|exact Hd]. destruct (Um _ _ _ _ _ M) as (u & -> & _). eapply below_suffix; eauto.
  - intros. eapply ar_inline; eauto.
  - intros d h tail ls fs vs used rest Hbl Hf Hn R E Hs L.
    eapply (ar_table _ _ _ _ _ _ _ fs vs used); eauto using rows_extend; [rewrite E; symmetry; apply app_assoc|].
    intros S. destruct (Hs S) as (A & B & C). split; [exact A|]. split; [apply gap_extend; [|exact B]; rewrite E in L; eapply below_prefix; eauto|].
    apply ends_extend; [|exact C]. intros l -> [[=] _].
  - intros d h tail ls vs used rest Hbl Hf _ IH E Hs L.
    eapply (ar_list _ _ _ _ _ _ _ vs used); eauto; [apply IH; [exact L|lia]|rewrite E; symmetry; apply app_assoc|].
    intros S. destruct (Hs S) as (A & B & C). split; [exact A|]. split; [apply gap_extend; [|exact B]; rewrite E in L; eapply below_prefix; eauto|].
    apply ends_extend; [|exact C]. intros l -> [[=] _].
  - intros. constructor.
  - intros d n ls He L Hd. constructor. apply ends_extend; [|exact He]. intros l E [X _]. lia.
  - intros d n l ls v ls1 vs rest D M IH1 _ IH2 L Hd. assert (L1 : below ls) by (inversion L; auto). cbn [app].
    eapply is_more; eauto. apply IH2; [|exact Hd]. destruct (Ui _ _ _ _ _ M) as (u & -> & _). eapply below_suffix; eauto.
  - intros. constructor.
  - intros. now constructor.
  - intros. eapply im_array; eauto.
  - intros d t ls m ls1 ms rest Hbl Hu Hk M IH1 _ IH2 L. eapply im_object; eauto. apply IH2; [|lia].
    destruct (Um _ _ _ _ _ M) as (u & -> & _). eapply below_suffix; eauto.
  - intros. now apply im_prim.
Qed.
Lemma members_then ls ms : members double strict blanks false 0 ls ms [] -> below ls ->
  (forall mq rq, members double strict bs' false 0 q mq rq -> members double strict bs' false 0 (ls ++ q) (ms ++ mq) rq) /\
  (forall e, members_fail double strict bs' false 0 q e -> members_fail double strict bs' false 0 (ls ++ q) e).
Proof.
  destruct read_extend as (Em & _). clear Hq Hb.
  intros M. remember false as stop eqn:Es. remember 0 as d eqn:Ed. remember [] as rest eqn:Er. revert Es Ed Er.
  induction M as [stop d ls He|stop d l ls m ls1 ms rest D N M R IH]; intros -> -> -> L.
  - now split.
  - assert (L1 : below ls) by (inversion L; auto). destruct (read_uses double strict blanks) as (Um & _).
    assert (L2 : below ls1). { destruct (Um _ _ _ _ _ M) as (u & -> & _). eapply below_suffix; eauto. }
    destruct (IH eq_refl eq_refl eq_refl L2) as [I1 I2]. split; intros; cbn [app].
    + eapply ms_more; eauto.
    + eapply msf_later; eauto.
Qed.
End Extend.

(** ** The same lines under other numbers *)
Section Move.
Variables (blanks old : list nat) (k : nat).
Hypothesis Hold : Forall (fun n => n <= k) old.
Notation new := (old ++ map (Nat.add k) blanks).
Notation mv := (map (sh k)).

Lemma gap_move used : no_gap blanks used -> no_gap new (mv used).
Proof.
  intros G a b m z Ea Ez n Hn [H1 H2].
  destruct used as [|a0 m0]; [discriminate|]. cbn [map] in Ea. injection Ea as <- _.
  destruct (@exists_last _ (a0 :: m0)) as (z0 & b0 & E0); [discriminate|]. rewrite E0, map_app in Ez. apply app_inj_tail in Ez as [_ <-].
  apply in_app_or in Hn as [Hn|Hn].
  - rewrite Forall_forall in Hold. apply Hold in Hn. cbn in H1. lia.
  - apply in_map_iff in Hn as (n0 & <- & Hn). eapply (G a0 b0 m0 z0 eq_refl E0 n0 Hn). cbn in *. lia.
Qed.
Lemma first_gap_move used n : first_gap blanks used n -> first_gap new (mv used) (k + n).
Proof.
  intros (a & m & z & b & E1 & E2 & before & after & Eb & H1 & H2 & H3).
  exists (sh k a), (mv m), (mv z), (sh k b). split; [now rewrite E1|]. split; [rewrite E2, map_app; reflexivity|].
  exists (old ++ map (Nat.add k) before), (map (Nat.add k) after). split; [rewrite Eb, map_app, <- app_assoc; reflexivity|].
  split; [cbn; lia|]. split; [cbn; lia|]. intros x Hx [X1 X2]. cbn in X1, X2. apply in_app_or in Hx as [Hx|Hx].
  - rewrite Forall_forall in Hold. apply Hold in Hx. lia.
  - apply in_map_iff in Hx as (x0 & <- & Hx). apply (H3 x0 Hx). lia.
Qed.
Lemma ends_move (P : tline -> Prop) ls : (forall l, P (sh k l) -> P l) -> ends P ls -> ends P (mv ls).
Proof. intros H E l r El. destruct ls as [|x ls]; [discriminate|]. injection El as <- _. intros X. apply (E x ls eq_refl). auto. Qed.
Lemma rows_move dl fs d n ls vs rest : rows double strict dl fs d n ls vs rest -> rows double strict dl fs d n (mv ls) vs (mv rest).
Proof.
  induction 1 as [ls|n ls E|n l ls ps vs rest D P S R IH].
  - constructor.
  - apply rw_end. now apply ends_move.
  - cbn [map]. now constructor.
Qed.
Lemma read_move :
  (forall d t ls m rest, member double strict blanks d t ls m rest -> member double strict new d t (mv ls) m (mv rest)) /\
  (forall stop d ls ms rest, members double strict blanks stop d ls ms rest -> members double strict new stop d (mv ls) ms (mv rest)) /\
  (forall d h tail ls v rest, array double strict blanks d h tail ls v rest -> array double strict new d h tail (mv ls) v (mv rest)) /\
  (forall d n ls vs rest, items double strict blanks d n ls vs rest -> items double strict new d n (mv ls) vs (mv rest)) /\
  (forall d t ls v rest, item double strict blanks d t ls v rest -> item double strict new d t (mv ls) v (mv rest)).
Proof.
  apply read_mutind.
  - intros. eapply mb_array; eauto.
  - intros d t ls kk qq r l ls' ms rest Hp Hk Hbl -> Hd M IH. eapply mb_object; [exact Hp|exact Hk|exact Hbl|reflexivity|exact Hd|exact IH].
  - intros d t ls kk qq r Hp Hk Hbl He. eapply mb_empty; eauto. now apply ends_move.
  - intros. eapply mb_prim; eauto.
  - intros stop d ls He. constructor. now apply ends_move.
  - intros stop d l ls m ls1 ms rest D N M IH1 _ IH2. cbn [map]. eapply ms_more; eauto.
  - intros. eapply ar_inline; eauto.
  - intros d h tail ls fs vs used rest Hbl Hf Hn R E Hs.
    eapply (ar_table _ _ _ _ _ _ _ fs vs (mv used)); eauto using rows_move; [rewrite E; apply map_app|].
    intros S. destruct (Hs S) as (A & B & C). split; [exact A|]. split; [now apply gap_move|]. now apply ends_move.
  - intros d h tail ls vs used rest Hbl Hf _ IH E Hs.
    eapply (ar_list _ _ _ _ _ _ _ vs (mv used)); eauto; [rewrite E; apply map_app|].
    intros S. destruct (Hs S) as (A & B & C). split; [exact A|]. split; [now apply gap_move|]. now apply ends_move.
  - intros. constructor.
  - intros d n ls He. constructor. now apply ends_move.
  - intros d n l ls v ls1 vs rest D M IH1 _ IH2. cbn [map]. eapply is_more; eauto.
  - intros. constructor.
  - intros. now constructor.
  - intros. eapply im_array; eauto.
  - intros. eapply im_object; eauto.
  - intros. now apply im_prim.
Qed.

Lemma bad_string_moved t e : bad_string t e -> moved k e = e. Proof. destruct 1; reflexivity. Qed.
Lemma bad_cell_moved dl s e : bad_cell dl s e -> moved k e = e.
Proof. intros (b & t & a & _ & _ & H). eapply bad_string_moved; eauto. Qed.
Lemma bad_header_moved t e : bad_header t e -> moved k e = e.
Proof. destruct 1; eauto using bad_string_moved, bad_cell_moved. Qed.
Lemma bad_key_moved t e : bad_key t e -> moved k e = e. Proof. destruct 1; reflexivity. Qed.
Lemma row_fails_move dl fs d n ls e : row_fails double strict dl fs d n ls e -> row_fails double strict dl fs d n (mv ls) (moved k e).
Proof.
  induction 1; cbn [map].
  - cbn [moved]. now apply rf_width.
  - erewrite bad_cell_moved by eauto. eapply rf_cell; eauto.
  - eapply rf_later; eauto.
Qed.
Lemma fail_move :
  (forall d t ls e, member_fails double strict blanks d t ls e -> member_fails double strict new d t (mv ls) (moved k e)) /\
  (forall stop d ls e, members_fail double strict blanks stop d ls e -> members_fail double strict new stop d (mv ls) (moved k e)) /\
  (forall d h tail ls e, array_fails double strict blanks d h tail ls e -> array_fails double strict new d h tail (mv ls) (moved k e)) /\
  (forall d n ls e, items_fail double strict blanks d n ls e -> items_fail double strict new d n (mv ls) (moved k e)) /\
  (forall d t ls e, item_fails double strict blanks d t ls e -> item_fails double strict new d t (mv ls) (moved k e)).
Proof.
  destruct read_move as (Mm & Ms & Ma & Mi & Mt).
  apply fail_mutind.
  - intros d t ls e H. rewrite (bad_header_moved _ _ H). now apply mf_header.
  - intros. eapply mf_array; eauto.
  - intros d t ls e Hp H. rewrite (bad_key_moved _ _ H). now apply mf_key.
  - intros d t ls kk qq r e Hp Hk H. rewrite (bad_string_moved _ _ H). eapply mf_value; eauto.
  - intros d t ls kk qq r l ls' e Hp Hk Hb -> Hd _ IH. eapply mf_object; [exact Hp|exact Hk|exact Hb|reflexivity|exact Hd|exact IH].
  - intros. cbn [map]. apply msf_here; auto.
  - intros. cbn [map]. eapply msf_later; eauto.
  - intros d h tail ls t e Ht Hn H. rewrite (bad_cell_moved _ _ _ H). eapply af_cell; eauto.
  - intros. cbn [moved]. eapply af_count; eauto.
  - intros. eapply af_row; eauto using row_fails_move.
  - intros. cbn [moved]. eapply af_rows_count; eauto using rows_move.
  - intros d h tail ls fs vs used rest n S Hb Hf Hn R L -> G. cbn [moved]. eapply (af_rows_gap _ _ _ _ _ _ _ fs vs (mv used)); eauto using rows_move, first_gap_move. apply map_app.
  - intros d h tail ls fs vs used l rest S Hb Hf Hn R L -> G D Hy Hd. cbn [moved]. apply rows_move in R.
    eapply (af_rows_extra _ _ _ _ _ _ _ fs vs (mv used) (sh k l)); eauto using gap_move. apply map_app.
  - intros. eapply af_item; eauto.
  - intros. cbn [moved]. eapply af_items_count; eauto.
  - intros d h tail ls vs used rest n S Hb Hf R L -> G. cbn [moved]. eapply (af_items_gap _ _ _ _ _ _ _ vs (mv used)); eauto using first_gap_move. apply map_app.
  - intros d h tail ls vs used l rest S Hb Hf R L -> G D Hy. cbn [moved]. apply Mi in R.
    eapply (af_items_extra _ _ _ _ _ _ _ vs (mv used) (sh k l)); eauto using gap_move. apply map_app.
  - intros. cbn [map]. apply if_here; auto.
  - intros. cbn [map]. eapply if_later; eauto.
  - intros d t ls e Hb H. rewrite (bad_header_moved _ _ H). now apply itf_header.
  - intros. eapply itf_array; eauto.
  - intros. eapply itf_member; eauto.
  - intros. eapply itf_later; eauto.
  - intros d t ls e Hu Hh H. rewrite (bad_string_moved _ _ H). eapply itf_prim; eauto.
Qed.
End Move.
End Join.

(** ** Whole documents with lines after them *)
Section Roots.
Variables (strict : bool) (blanks bs' : list nat) (top : nat) (q : list tline).
Hypothesis Hq : forall l r, q = l :: r -> tl_depth l = 0.
Hypothesis Hb : forall n, In n bs' -> In n blanks \/ top <= n.
Notation double := parse_f64.

Lemma object_then ls ms : root_to double strict blanks ls (TObj ms) [] -> below top ls -> ls <> [] ->
  (forall mq rq, members double strict bs' false 0 q mq rq -> root double strict bs' (ls ++ q) (TObj (ms ++ mq))) /\
  (forall e, members_fail double strict bs' false 0 q e -> root_fails double strict bs' (ls ++ q) e).
Proof.
  intros R L Hn. destruct (read_extend double strict blanks bs' top q Hq Hb) as (Em & _). destruct (read_uses double strict blanks) as (Um & _ & Ua & _).
  inversion R as [|l ls0 h tail v rest B Q H A|l p N C P|l ls0 m ls1 ms0 rest N M Rs]; subst; [now destruct Hn| |].
  - exfalso. inversion A.
  - assert (L1 : below top ls0) by (inversion L; auto).
    assert (L2 : below top ls1). { destruct (Um _ _ _ _ _ M) as (u & -> & _). eapply below_suffix; eauto. }
    destruct (members_then double strict blanks bs' top q Hq Hb _ _ Rs L2) as [I1 I2].
    pose proof (member_has_colon _ _ _ _ _ _ _ _ M) as Hc. split; intros; cbn [app].
    + eapply ro_object; eauto.
    + eapply rtf_later; eauto.
Qed.
Lemma array_then ls n vs : root_to double strict blanks ls (TArr n vs) [] -> below top ls -> root double strict bs' (ls ++ q) (TArr n vs).
Proof.
  intros R L. destruct (read_extend double strict blanks bs' top q Hq Hb) as (_ & _ & Ea & _).
  inversion R as [|l ls0 h tail v rest B Q H A|l p N C P|l ls0 m ls1 ms0 rest N M Rs]; subst. cbn [app].
  eapply ro_array; eauto. apply Ea; [exact A|]. inversion L; auto.
Qed.
End Roots.

Lemma frame_has_colon t k len fields tail : frame t k len fields tail -> has_colon t.
Proof.
  intros (r & after & Hh & Hc & Ht).
  assert (I : In cCOLON after).
  { destruct Ht as [m r1 f r2 x t' [-> _] _ [-> _] [-> _]|m t' [-> _] _]; rewrite !in_app_iff; cbn;
      rewrite ?in_app_iff; cbn; rewrite ?in_app_iff; cbn; tauto. }
  assert (I' : In cCOLON r) by (destruct Hc as [-> _]; rewrite in_app_iff; cbn; auto).
  destruct Hh as [k0 r0 Hn [-> _]|w b r0 -> Hw Hb].
  - right. split; [|rewrite in_app_iff; cbn; auto]. intros r' E. apply Hn. exists [], r'. split; [exact E|constructor].
  - destruct w as [|c w].
    + left. exists b, (cLBRACK :: r0). cbn. auto.
    + right. split; [|repeat (rewrite in_app_iff; cbn [In]); tauto].
      intros r' E. cbn in E. injection E as -> _. inversion Hw; subst. discriminate.
Qed.
Lemma prim_text_good t p e : prim_text parse_f64 t p -> ~ bad_string t e.
Proof. intros P B. apply prim_trim in P. apply prim_err_trim in B. congruence. Qed.
(** A primitive that is not alone is a line without a colon. *)
Lemma prim_member_fails strict bs d t p q : ~ has_colon t -> prim_text parse_f64 t p ->
  member_fails parse_f64 strict bs d t q EMissingColon.
Proof.
  intros C P.
  assert (Nh : no_header t).
  { apply header_none. destruct (parse_array_header_line t DEFAULT_DELIMITER) as [[[h iv]|]|e] eqn:E; [| reflexivity |].
    - apply header_some_inv in E as (hl & tail & H & _). exfalso. apply C. inversion H; subst. eapply frame_has_colon; eauto.
    - exfalso. apply header_err in E. destruct E as [w r E Hw Ho|k len f tl e F _|k len f tl key n dl F _ _ _|k len f tl key n dl e F _ _ _ _];
        try (apply C; eapply frame_has_colon; eauto; fail).
      clear C. assert (T : exists s, trims t s) by (eexists; apply trims_trim). destruct T as (s & T).
      apply (prim_text_good t p EUnterminatedString P).
      destruct T as (a & b & Et & Ha & Hbl & F1 & F2).
      assert (X : exists r', s = cDQ :: r' /\ r = r' ++ b).
      { assert (D : is_ws cDQ = false) by reflexivity.
        destruct (proj1 (trims_begins cDQ t s D (ex_intro _ a (ex_intro _ b (conj Et (conj Ha (conj Hbl (conj F1 F2)))))))) as (r' & ->);
          [now exists w, r|]. exists r'. split; [reflexivity|].
        assert (Nw : forall x, blank x -> ~ In cDQ x).
        { intros x Hx I. unfold blank in Hx. rewrite Forall_forall in Hx. apply Hx in I. discriminate. }
        assert (C1 : cut cDQ t w r) by (split; auto). assert (C2 : cut cDQ t a (r' ++ b)) by (split; auto).
        apply (cut_fun _ _ _ _ _ _ C1 C2). }
      destruct X as (r' & -> & ->). apply bs_open with r'; [exists a, b; auto|].
      intros x y Hx ->. apply (Ho x (y ++ b) Hx). now rewrite <- app_assoc. }
  apply mf_key; [now left|].
  destruct t as [|c t]; [|destruct (N.eqb_spec c cDQ) as [->|Hc]].
  - apply bk_bare; [discriminate|intros []].
  - assert (D : is_ws cDQ = false) by reflexivity. assert (Bg : begins cDQ (cDQ :: t)) by (exists [], t; split; [reflexivity|constructor]).
    assert (K : forall u, trims (cDQ :: t) u -> exists r, u = cDQ :: r) by (intros u Hu; now apply (trims_begins cDQ _ u D Hu)).
    destruct P as [Bl|u s Tu Qu|Tu|Tu|Tu|u x y Tu Nu _|u Tu _ Nq _ _].
    + inversion Bl; subst. discriminate.
    + destruct Qu as (b & -> & U). destruct Tu as (a & z & E & Ha & Hz & _). destruct a as [|c a].
      * cbn in E. injection E as ->. rewrite <- app_assoc. apply (bk_quoted _ b s z); [reflexivity|exact U|].
        intros r' ->. inversion Hz; subst. discriminate.
      * cbn in E. injection E as <- _. inversion Ha; subst. discriminate.
    + destruct (K _ Tu) as (r & E). discriminate.
    + destruct (K _ Tu) as (r & E). discriminate.
    + destruct (K _ Tu) as (r & E). discriminate.
    + exfalso. destruct (K _ Tu) as (r & ->). destruct Nu as ((sg & ip & fp & ep & E & Hs & Hi & _) & _).
      destruct Hs as [-> | ->]; [|discriminate]. destruct Hi as [Hi Hd]. destruct ip as [|c ip]; [contradiction|].
      cbn in E. injection E as <- _. assert (X : digit cDQ) by (inversion Hd; auto).
      destruct X as [X _]. now apply X.
    + destruct (K _ Tu) as (r & ->). exfalso. now apply (Nq r).
  - apply bk_bare; [intros r [= -> _]; contradiction|]. intros I. apply C. right. split; [intros r [= -> _]; contradiction|exact I].
Qed.
Lemma primitive_then strict bs l p q : ~ (begins cLBRACK (tl_text l) /\ unquoted cCOLON (tl_text l)) \/ no_header (tl_text l) ->
  ~ has_colon (tl_text l) -> prim_text parse_f64 (tl_text l) p -> q <> [] ->
  root_fails parse_f64 strict bs (l :: q) EMissingColon.
Proof. intros N C P Hq. apply rtf_here; [exact N|now left|]. eapply prim_member_fails; eauto. Qed.

(** ** Texts *)
Definition x_line : parsed_line := PLine (lit "x: 1") 0 (lit "x: 1") 0 0.
Lemma x_header h t : ~ is_header (lit "x: 1") h t.
Proof. intros H. apply header_some in H. vm_compute in H. discriminate. Qed.
Lemma x_key k q r : key_line (lit "x: 1") k q r -> r = lit " 1".
Proof.
  intros [b k' r' E _|t k' r' _ C _]; [discriminate|].
  assert (C' : cut cCOLON (lit "x: 1") (lit "x") (lit " 1")) by (split; [reflexivity|intros [E|[]]; discriminate]).
  apply (cut_fun _ _ _ _ _ _ C C').
Qed.
Lemma x_value : ~ blank (lit " 1"). Proof. intros H. inversion H as [|? ? _ H']; inversion H'; discriminate. Qed.
Lemma x_colon : has_colon (lit "x: 1").
Proof. right. split; [discriminate|]. cbn. auto. Qed.

Lemma members_total strict size raws ls bs : scans strict size 1 raws ls bs ->
  (exists ms rest, members parse_f64 strict bs false 0 ls ms rest) \/ (exists e, members_fail parse_f64 strict bs false 0 ls e).
Proof.
  intros Sc. destruct (scans_complete _ _ _ _ _ _ Sc 0 [] eq_refl) as (pls & st & _ & <- & Eb). cbn in Eb.
  assert (Nb : ~ begins cLBRACK (lit "x: 1")).
  { intros (w & r & E & Hw). destruct w as [|c w]; [discriminate|]. injection E as <- _. inversion Hw; subst. discriminate. }
  destruct (decode_lines (x_line :: pls) (DCtx strict (ss_blanks st))) as [[evs c']|e] eqn:E.
  - left. apply decode_lines_exact, root_sound in E as (v & R & _). cbn [dc_strict dc_blanks map] in R. rewrite Eb in R.
    inversion R as [|l ls0 h tail v0 rest B Q H A|l p N C P|l ls0 m ls1 ms0 rest N C M Rs]; subst; cbn [tl_of x_line tl_text] in *.
    + contradiction.
    + exfalso. apply C. apply x_colon.
    + inversion M as [? ? ? ? ? ? ? ? ? H|? ? ? ? ? ? ? ? ? ? _ K B|? ? ? ? ? ? _ K B|? ? ? ? ? ? ? _ K B P]; subst.
      * exfalso. eapply x_header; eauto.
      * apply x_key in K as ->. now apply x_value in B.
      * apply x_key in K as ->. now apply x_value in B.
      * eauto.
  - right. apply root_err_sound in E. cbn [dc_strict dc_blanks map] in E. rewrite Eb in E.
    inversion E as [l ls0 e0 B|l ls0 h tail e0 B|l e0 N C Bs|l ls0 e0 N C M|l ls0 m ls1 e0 N C M Rs]; subst; cbn [tl_of x_line tl_text] in *.
    + contradiction.
    + contradiction.
    + exfalso. apply C. apply x_colon.
    + exfalso. inversion M as [? ? ? ? Hh|? ? ? ? ? ? Hh|? ? ? ? _ K|? ? ? ? ? ? ? _ K B|? ? ? ? ? ? ? ? ? _ K B]; subst.
      * apply header_err in Hh. vm_compute in Hh. discriminate.
      * eapply x_header; eauto.
      * inversion K as [_ N1|? ? ? E1|? ? ? E1]; subst; try discriminate. apply N1. cbn. auto.
      * apply x_key in K as ->. apply prim_err_trim in B. vm_compute in B. discriminate.
      * apply x_key in K as ->. now apply x_value in B.
    + inversion M as [? ? ? ? ? ? ? ? ? H|? ? ? ? ? ? ? ? ? ? _ K B|? ? ? ? ? ? _ K B|? ? ? ? ? ? ? _ K B P]; subst.
      * exfalso. eapply x_header; eauto.
      * apply x_key in K as ->. now apply x_value in B.
      * apply x_key in K as ->. now apply x_value in B.
      * eauto.
Qed.

Lemma scans_last strict size n raws x ls bs : scans strict size n (raws ++ [x]) ls bs ->
  (exists bs', scans strict size n raws ls bs' /\ incl bs' bs) \/ (exists l ls', ls = ls' ++ [l] /\ scans strict size n raws ls' bs).
Proof.
  revert n ls bs. induction raws as [|r raws IH]; intros n ls bs H; cbn [app] in H.
  - inversion H as [|? ? ? ? bs0 B Sc|? k t d ? ls0 ? B N D T Sc]; subst; inversion Sc; subst.
    + left. exists []. split; [constructor|intros ? []].
    + right. exists (TLine n d t), []. split; [reflexivity|constructor].
  - inversion H as [|? ? ? ? bs0 B Sc|? k t d ? ls0 ? B N D T Sc]; subst.
    + destruct (IH _ _ _ Sc) as [(bs' & S' & I)|(l & ls' & -> & S')].
      * left. exists (n :: bs'). split; [now constructor|]. intros y [->|Hy]; [now left|right; auto].
      * right. exists l, ls'. split; [reflexivity|now constructor].
    + destruct (IH _ _ _ Sc) as [(bs' & S' & I)|(l & ls' & -> & S')].
      * left. exists bs'. split; [now constructor|exact I].
      * right. exists l, (TLine n d t :: ls'). split; [reflexivity|now constructor].
Qed.

Section Texts.
Variable d : option decode_options.
Notation strict := (rd_strict (resolve_decode_options d)).
Notation size := (rd_indent (resolve_decode_options d)).
Notation decode := (fun lines => try_decode_from_lines lines d).
Hypothesis He : rd_expand (resolve_decode_options d) = EPOff.

(** If the last line is needed, everything is read. *)
Lemma needed_read a v : needed decode a v ->
  exists ls bs tr, scans strict size 1 a ls bs /\ root_to parse_f64 strict bs ls tr [] /\ v = tree_json tr /\ ls <> [].
Proof.
  intros [H1 H2]. destruct (lines_ok_inv _ _ _ He H1) as (ls & bs & tr & Sc & R & ->).
  apply root_root_to in R as (rest & R). destruct (root_keep _ _ _ _ _ _ R) as (used & E & Kp).
  destruct (list_last_cases a) as [->|(a' & x & ->)]; [contradiction|]. rewrite removelast_last in H2.
  destruct (scans_last _ _ _ _ _ _ _ Sc) as [(bs' & S' & I)|(l & ls' & El & S')].
  - exfalso. apply H2. apply (lines_ok _ _ _ _ _ He S'). rewrite E. apply (Kp bs' rest [] I). now rewrite app_nil_r.
  - exists ls, bs, tr. split; [exact Sc|]. split; [|split; [reflexivity|intros ->; now destruct ls']].
    destruct (list_last_cases rest) as [->|(r' & y & ->)]; [exact R|].
    exfalso. apply H2. apply (lines_ok _ _ _ _ _ He S'). rewrite app_assoc, El in E. apply app_inj_tail in E as [-> <-].
    apply (Kp bs r' [l] (incl_refl _) eq_refl).
Qed.

Lemma lines_indent a e : strict = true -> indent_fails size 1 a e -> try_decode_from_lines a d = Err e.
Proof.
  intros S H. unfold try_decode_from_lines. cbv zeta. rewrite (proj2 (stream_err a _ _ e)) by (left; auto). reflexivity.
Qed.
Lemma fault_moved a v b e : needed decode a v -> strict = true -> indent_fails size 1 b e ->
  try_decode_from_lines (a ++ b) d = Err (moved (length a) e).
Proof.
  intros H S F. destruct (needed_read _ _ H) as (ls & bs & _ & Sc & _). apply lines_indent; [exact S|].
  rewrite S in Sc. eapply indent_app; [exact Sc|]. rewrite Nat.add_comm. now apply indent_move.
Qed.

Section After.
Variables (b : list str) (ls : list tline) (bs : list nat).
Hypothesis Sb : scans strict size 1 b ls bs.
Hypothesis Ub : starts_unindented b.

Lemma after_scans a v : needed decode a v -> exists lsa bsa tr,
  scans strict size 1 (a ++ b) (lsa ++ map (sh (length a)) ls) (bsa ++ map (Nat.add (length a)) bs) /\
  root_to parse_f64 strict bsa lsa tr [] /\ v = tree_json tr /\ lsa <> [] /\ below (S (length a)) lsa /\
  Forall (fun n => n <= length a) bsa /\
  (forall l r, map (sh (length a)) ls = l :: r -> tl_depth l = 0) /\
  (forall n, In n (bsa ++ map (Nat.add (length a)) bs) -> In n bsa \/ S (length a) <= n).
Proof.
  intros H. destruct (needed_read _ _ H) as (lsa & bsa & tr & Sa & R & E & Hn). exists lsa, bsa, tr.
  destruct (scans_range _ _ _ _ _ _ Sa) as [R1 R2]. destruct (scans_range _ _ _ _ _ _ Sb) as [_ R4].
  split. { apply scans_app; [exact Sa|]. rewrite Nat.add_comm. now apply scans_move. }
  split; [exact R|]. split; [exact E|]. split; [exact Hn|].
  split; [eapply Forall_impl; [|exact R1]; cbn; lia|]. split; [eapply Forall_impl; [|exact R2]; cbn; lia|]. split.
  - intros l r Em. pose proof (scans_depth _ _ _ _ _ _ Sb Ub) as Dp. clear - Em Dp.
    destruct ls as [|l0 ls0]; [discriminate|]. injection Em as <- _. exact (Dp l0 ls0 eq_refl).
  - intros n I. apply in_app_or in I as [I|I]; [now left|right]. apply in_map_iff in I as (m & <- & I).
    rewrite Forall_forall in R4. apply R4 in I. lia.
Qed.
Lemma members_after ms rest : members parse_f64 strict bs false 0 ls ms rest ->
  forall a va, needed decode a (JObj va) -> try_decode_from_lines (a ++ b) d = Ok (JObj (va ++ map mj ms)).
Proof.
  intros M a va H. destruct (after_scans a _ H) as (lsa & bsa & tr & Sc & R & E & Hn & Bl & Ho & Hq & Hb).
  destruct tr as [|? ?|mva]; try discriminate. injection E as ->.
  destruct (object_then _ _ _ _ _ Hq Hb _ _ R Bl Hn) as [Hm _].
  destruct (read_move parse_f64 strict bs bsa (length a) Ho) as (_ & Ms & _).
  rewrite (lines_ok _ _ _ _ _ He Sc (Hm _ _ (Ms _ _ _ _ _ M))). cbn [tree_json]. now rewrite map_app.
Qed.
Lemma failure_after e : members_fail parse_f64 strict bs false 0 ls e ->
  forall a va, needed decode a (JObj va) -> try_decode_from_lines (a ++ b) d = Err (moved (length a) e).
Proof.
  intros M a va H. destruct (after_scans a _ H) as (lsa & bsa & tr & Sc & R & E & Hn & Bl & Ho & Hq & Hb).
  destruct tr as [|? ?|mva]; try discriminate.
  destruct (object_then _ _ _ _ _ Hq Hb _ _ R Bl Hn) as [_ Hm].
  destruct (fail_move parse_f64 strict bs bsa (length a) Ho) as (_ & Ms & _).
  exact (lines_err _ _ _ _ _ Sc (Hm _ (Ms _ _ _ _ M))).
Qed.
Lemma array_after a va : needed decode a (JArr va) -> try_decode_from_lines (a ++ b) d = Ok (JArr va).
Proof.
  intros H. destruct (after_scans a _ H) as (lsa & bsa & tr & Sc & R & E & Hn & Bl & Ho & Hq & Hb).
  destruct tr as [|n vs|]; try discriminate. rewrite E. apply (lines_ok _ _ _ _ _ He Sc). eapply array_then; eauto.
Qed.
End After.
Lemma primitive_after b ls bs a p : scans strict size 1 b ls bs -> ls <> [] ->
  needed decode a (JPrim p) -> try_decode_from_lines (a ++ b) d = Err EMissingColon.
Proof.
  intros Sb Hl H. destruct (needed_read _ _ H) as (lsa & bsa & tr & Sa & R & E & Hn).
  assert (Sc : scans strict size 1 (a ++ b) (lsa ++ map (sh (length a)) ls) (bsa ++ map (Nat.add (length a)) bs)).
  { apply scans_app; [exact Sa|]. rewrite Nat.add_comm. now apply scans_move. }
  destruct tr as [p'| |]; try discriminate.
  inversion R as [|l ls0 h tail v rest B Q Hh A|l p0 N C P|l ls0 m ls1 ms0 rest N M Rs]; subst; [inversion A|].
  apply (lines_err _ _ _ _ _ Sc). cbn [app]. eapply primitive_then; eauto. destruct ls; [contradiction|discriminate].
Qed.
End Texts.
