(** Texts as items of a list. *)
From Verif Require Import Chars Floats Json Shared Scanner Parser DecValidation Decoders EventBuilder Expand DecodeApi
  Lex Spec DecProps DecRel ParseProof SpecText SpecRead ReadLex ReadHead ReadLine ReadProof SpecError ErrLex ErrProof SpecCut PropsUnread CutProof
  SpecJoin JoinProof SpecDeep DeepProof KeyedProof.

Local Open Scope nat_scope.

(** ** Lines after what is read, not deeper than [e] *)
Section Before.
Variable double : str -> option f64.
Variable strict : bool.
Variables (blanks : list nat) (e : nat) (q : list tline).
Hypothesis Hq : forall l r, q = l :: r -> tl_depth l <= e.

Lemma ends_before (P : tline -> Prop) ls : (forall l, tl_depth l <= e -> ~ P l) -> ends P ls -> ends P (ls ++ q).
Proof.
  intros N H l r E. destruct ls as [|x ls]; cbn in E; [apply N; eapply Hq; eauto|]. injection E as -> _. eapply H. reflexivity.
Qed.
Ltac ends := apply ends_before; [intros ? ? ?; intuition lia|assumption].
Lemma rows_before dl fs d n ls vs rest : rows double strict dl fs d n ls vs rest -> e < d -> rows double strict dl fs d n (ls ++ q) vs (rest ++ q).
Proof.
  induction 1 as [ls|n ls E|n l ls ps vs rest D P S R IH]; intros He.
  - constructor.
  - apply rw_end. ends.
  - cbn [app]. constructor; auto.
Qed.
Lemma read_before :
  (forall d t ls m rest, member double strict blanks d t ls m rest -> e <= d -> member double strict blanks d t (ls ++ q) m (rest ++ q)) /\
  (forall stop d ls ms rest, members double strict blanks stop d ls ms rest -> e < d -> members double strict blanks stop d (ls ++ q) ms (rest ++ q)) /\
  (forall d h tail ls v rest, array double strict blanks d h tail ls v rest -> e <= d -> array double strict blanks d h tail (ls ++ q) v (rest ++ q)) /\
  (forall d n ls vs rest, items double strict blanks d n ls vs rest -> e < d -> items double strict blanks d n (ls ++ q) vs (rest ++ q)) /\
  (forall d t ls v rest, item double strict blanks d t ls v rest -> e <= d -> item double strict blanks d t (ls ++ q) v (rest ++ q)).
Proof.
  apply read_mutind.
  - intros. eapply mb_array; eauto.
  - intros d t ls k qq r l ls' ms rest Hp Hk Hbl -> Hd M IH L. eapply mb_object; eauto; [reflexivity|]. apply IH. lia.
  - intros d t ls k qq r Hp Hk Hbl He L. eapply mb_empty; eauto. ends.
  - intros. eapply mb_prim; eauto.
  - intros stop d ls He L. constructor. ends.
  - intros stop d l ls m ls1 ms rest D N M IH1 _ IH2 L. cbn [app]. eapply ms_more; eauto. apply IH1; lia.
  - intros. eapply ar_inline; eauto.
  - intros d h tail ls fs vs used rest Hbl Hf Hn R E Hs L.
    eapply (ar_table _ _ _ _ _ _ _ fs vs used); eauto; [apply rows_before; [exact R|lia]|rewrite E; symmetry; apply app_assoc|].
    intros S. destruct (Hs S) as (A & B & C). split; [exact A|]. split; [exact B|]. ends.
  - intros d h tail ls vs used rest Hbl Hf _ IH E Hs L.
    eapply (ar_list _ _ _ _ _ _ _ vs used); eauto; [apply IH; lia|rewrite E; symmetry; apply app_assoc|].
    intros S. destruct (Hs S) as (A & B & C). split; [exact A|]. split; [exact B|]. ends.
  - intros. constructor.
  - intros d n ls He L. constructor. ends.
  - intros d n l ls v ls1 vs rest D M IH1 _ IH2 L. cbn [app]. eapply is_more; eauto. apply IH1. lia.
  - intros. constructor.
  - intros. now constructor.
  - intros. eapply im_array; eauto.
  - intros d t ls m ls1 ms rest Hbl Hu Hk M IH1 _ IH2 L. eapply im_object; [exact Hbl|exact Hu|exact Hk|apply IH1; lia|apply IH2; lia].
  - intros. now apply im_prim.
Qed.
End Before.

(** ** Members of an item *)
Lemma members_stop double strict blanks stop d ls ms rest : members double strict blanks stop d ls ms rest ->
  Forall (fun l => tl_depth l = d -> ~ hyphen (tl_text l)) ls -> members double strict blanks true d ls ms rest.
Proof.
  destruct (read_uses double strict blanks) as (Um & _).
  induction 1 as [stop d ls He|stop d l ls m ls1 ms rest D N M R IH]; intros F.
  - constructor. intros l r E [D H]. apply (He l r E). split; [exact D|]. intros [_ X]. now apply H.
  - inversion F as [|? ? F1 F2]; subst. eapply ms_more; eauto.
    + intros [_ X]. now apply (F1 eq_refl).
    + apply IH. destruct (Um _ _ _ _ _ M) as (u & -> & _). apply Forall_app in F2. apply F2.
Qed.
Lemma depth_by strict size j k d : size <> 0 -> depth_of strict size k d -> depth_of strict size (j * size + k) (d + j).
Proof.
  intros Hz (D1 & D2 & D3). split; [tauto|]. destruct (D2 Hz). split; [intros _; split; nia|]. intros S. rewrite (D3 S). nia.
Qed.
Lemma scans_by strict size n raws ls bs k j : size <> 0 -> scans strict size n raws ls bs ->
  scans strict size (k + n) (deeper (j * size) raws) (map (dp k j) ls) (map (Nat.add k) bs).
Proof.
  intros Hz. induction 1 as [n|n raw raws ls bs B Sc IH|n k0 t d raws ls bs B N D T Sc IH]; cbn [deeper map].
  - constructor.
  - apply sc_blank; [apply blank_spaces; assumption|]. now rewrite Nat.add_succ_r in IH.
  - rewrite app_assoc, <- repeat_app. unfold dp at 1. cbn [tl_no tl_depth tl_text]. apply sc_line; auto; [now apply depth_by|].
    now rewrite Nat.add_succ_r in IH.
Qed.
Lemma scans_full strict size n raws ls bs : scans strict size n raws ls bs -> Forall (fun x => ~ blank x) raws -> bs = [].
Proof. induction 1 as [n|n raw raws ls bs B Sc IH|n k0 t d raws ls bs B N D T Sc IH]; intros F; inversion F; subst; auto. contradiction. Qed.
Lemma scans_hyphens strict size n raws ls bs : size <> 0 -> scans strict size n raws ls bs ->
  (forall k r, In (repeat cSPACE k ++ cMINUS :: cSPACE :: r) raws -> size <= k) ->
  Forall (fun l => tl_depth l = 0 -> ~ hyphen (tl_text l)) ls.
Proof.
  intros Hz. induction 1 as [n|n raw raws ls bs B Sc IH|n k0 t d raws ls bs B N D T Sc IH]; intros F.
  - constructor.
  - apply IH. intros k r I. apply (F k r). now right.
  - constructor; [|apply IH; intros k r I; apply (F k r); now right]. cbn. intros -> (r & ->).
    specialize (F k0 r (or_introl eq_refl)). destruct D as (_ & D2 & _). destruct (D2 Hz). nia.
Qed.

Section Texts.
Variable o : option decode_options.
Notation strict := (rd_strict (resolve_decode_options o)).
Notation size := (rd_indent (resolve_decode_options o)).
Notation decode := (fun lines => try_decode_from_lines lines o).
Hypothesis He : rd_expand (resolve_decode_options o) = EPOff.
Hypothesis Hz : size <> 0.

(** The lines of an item from line number [2 + k] on. *)
Definition reads (k : nat) (b : list str) (v : json) : Prop :=
  exists l ls tr, scans strict size (2 + k) b (l :: ls) [] /\ tl_depth l = 1 /\ v = tree_json tr /\
    forall q, (forall l r, q = l :: r -> tl_depth l <= 1) -> item parse_f64 strict [] 1 (tl_text l) (ls ++ q) tr q.

Lemma scans_first n t b ls bs : (forall r, t <> cSPACE :: r) -> ~ blank t -> scans strict size n (t :: b) ls bs ->
  exists l0, ls = TLine n 0 t :: l0 /\ scans strict size (S n) b l0 bs.
Proof.
  intros Ns Nb Sc. inversion Sc as [|? ? ? ? bs0 B Sc'|? k0 t0 d0 ? ls0 ? B N1 D T Sc']; subst; [contradiction|].
  assert (k0 = 0) as ->. { destruct k0 as [|k0]; [reflexivity|]. exfalso. cbn in Ns. now apply (Ns (repeat cSPACE k0 ++ t0)). }
  cbn [repeat app]. assert (d0 = 0) as ->. { destruct D as (_ & D2 & _). destruct (D2 Hz). nia. }
  exists ls0. auto.
Qed.
Lemma scans_hyphen n t : scans strict size n [repeat cSPACE size ++ cMINUS :: t] [TLine n 1 (cMINUS :: t)] [].
Proof.
  apply sc_line; [intros B; inversion B; discriminate|discriminate| |intros _ r [=]|constructor].
  repeat split; intros; nia.
Qed.
Lemma scans_block k t b l0 j : scans strict size 2 b l0 [] ->
  scans strict size (2 + k) (block size j t b) (TLine (2 + k) 1 (cMINUS :: cSPACE :: t) :: map (dp (S k) j) l0) [].
Proof.
  intros Sc. apply (scans_by _ _ _ _ _ _ (S k) j Hz) in Sc. cbn [map] in Sc.
  apply (scans_app strict size (2 + k) _ _ _ (scans_hyphen (2 + k) (cSPACE :: t)) (deeper (j * size) b) (map (dp (S k) j) l0) []).
  cbn [length]. replace (2 + k + 1) with (S k + 2) by lia. exact Sc.
Qed.
Lemma keyed_header t h tail : ~ begins cLBRACK t -> is_header t h tail -> hl_key h <> None.
Proof.
  intros Nb H E. inversion H as [k len fields tl key n dl fs F Fk _ _ _]; subst. cbn in E. subst key.
  inversion Fk as [B| |]; subst. apply Nb. destruct F as (r & after & Hh & _). inversion Hh as [k0 r0 Nq [-> _]|w b r0 E Hw _]; subst.
  - exists k, r. split; [reflexivity|exact B].
  - exfalso. unfold blank in B. rewrite Forall_app in B. destruct B as [_ B]. inversion B; discriminate.
Qed.

Lemma item_reads b v : item_lines decode size b v -> forall k, reads k b v.
Proof.
  intros [t b0 l H F Ns Nb Q Nh|t b0 l H F Ns|t p H Ns Nc Nb|] k.
  - destruct (needed_read o He _ _ H) as (ls & bs & tr & Sc & R & E & _). pose proof (scans_full _ _ _ _ _ _ Sc F). subst bs.
    inversion F as [|? ? F1 F2]; subst. destruct (scans_first _ _ _ _ _ Ns F1 Sc) as (l0 & -> & Sb).
    pose proof (scans_block k t b0 l0 2 Sb) as Sk. pose proof (scans_hyphens _ _ _ _ _ _ Hz Sb Nh) as Hh.
    inversion R as [|x ls1 h tail v0 rest B Q' Hh' A|x p N' C P|x ls1 m ls2 ms rest N' M Ms]; subst; try discriminate.
    { contradiction. }
    eexists _, _, (TObj (m :: ms)). split; [exact Sk|]. split; [reflexivity|]. split; [exact E|]. intros q Hq. cbn [tl_text] in *.
    destruct (read_uses parse_f64 strict []) as (Um & _). destruct (Um _ _ _ _ _ M) as (u & Eu & _).
    destruct (read_deep parse_f64 strict [] [] (S k) 2 (Forall_nil _)) as (Dm & Ds & _).
    destruct (read_before parse_f64 strict [] 1 q Hq) as (Bm & Bs & _).
    apply Dm in M. apply (members_stop _ _ _ _ _ _ _ _) in Ms; [|rewrite Eu in Hh; apply Forall_app in Hh; apply Hh].
    apply Ds in Ms. cbn [app map Nat.add] in M, Ms. apply Bm in M; [|lia]. apply Bs in Ms; [|lia]. cbn [app map] in Ms.
    eapply im_object; [exact F1|now left|intros; eapply keyed_header; eauto|exact M|exact Ms].
  - destruct (needed_read o He _ _ H) as (ls & bs & tr & Sc & R & E & _). pose proof (scans_full _ _ _ _ _ _ Sc F). subst bs.
    inversion F as [|? ? F1 F2]; subst. destruct (scans_first _ _ _ _ _ Ns F1 Sc) as (l0 & -> & Sb).
    pose proof (scans_block k t b0 l0 1 Sb) as Sk.
    inversion R as [|x ls1 h tail v0 rest B Q' Hh' A|x p N' C P|x ls1 m ls2 ms rest N' M Ms]; subst; try discriminate.
    eexists _, _, tr. split; [exact Sk|]. split; [reflexivity|]. split; [exact E|]. intros q Hq. cbn [tl_text] in *.
    destruct (read_deep parse_f64 strict [] [] (S k) 1 (Forall_nil _)) as (_ & _ & Da & _).
    destruct (read_before parse_f64 strict [] 1 q Hq) as (_ & _ & Ba & _).
    apply Da in A. cbn [app map Nat.add] in A. apply Ba in A; [|lia]. cbn [app] in A. eapply im_array; eauto.
  - destruct (lines_ok_inv _ _ _ He H) as (ls & bs & tr & Sc & R & E).
    assert (Bt : ~ blank t).
    { intros B. inversion Sc as [|? ? ? ? ? _ Sc'|? ? ? ? ? ? ? B' ? ? ? Sc']; subst; inversion Sc'; subst.
      - inversion R; subst. discriminate.
      - apply B'. now apply blank_spaces in B. }
    destruct (scans_first _ _ _ _ _ Ns Bt Sc) as (l0 & -> & Sb). inversion Sb; subst.
    pose proof (scans_block k t [] [] 1 Sb) as Sk.
    assert (Nu : ~ unquoted cCOLON t) by (intros (x & y & -> & _); apply Nc; rewrite in_app_iff; cbn; tauto).
    inversion R as [|x ls1 h tail v0 rest B Q' Hh' A|x p' N' C P|x ls1 m ls2 ms rest N' C M Ms]; subst; cbn [tl_text] in *.
    + contradiction.
    + cbn in E. injection E as ->. eexists _, _, (TPrim p'). split; [exact Sk|]. split; [reflexivity|]. split; [reflexivity|]. intros q Hq.
      cbn [map app tl_text]. apply im_prim; auto. left. split.
      * intros w r Ew Bw. assert (Bg : begins cDQ t) by (exists w, r; auto).
        assert (U : forall u, trims t u -> exists x, u = cDQ :: x) by (intros u Hu; exact (proj1 (trims_begins cDQ _ _ eq_refl Hu) Bg)).
        inversion P as [Bl|u s Ht (bb & Eu & Ub)|Ht|Ht|Ht|u x0 y Ht Nm Sm|u Ht U1 U2 U3 U4]; subst.
        -- contradiction.
        -- destruct Ht as (a & z & Ea & Wa & Wz & _). rewrite <- app_comm_cons in Ea.
           assert (w = a /\ r = (bb ++ [cDQ]) ++ z) as [-> ->].
           { clear -Ea Wa Bw. revert a Ea Wa. induction w as [|c w IH]; intros [|c' a] Ea Wa; cbn in Ea.
             - injection Ea as ->. auto.
             - exfalso. injection Ea as <- _. inversion Wa; subst. discriminate.
             - exfalso. injection Ea as -> _. inversion Bw; subst. discriminate.
             - injection Ea as -> Ea. inversion Bw as [|? ? _ B1]; inversion Wa as [|? ? _ B2]; subst. destruct (IH B1 _ Ea B2) as [-> ->]. auto. }
           exists bb, z. rewrite <- app_assoc. split; [reflexivity|eapply unescapes_body; eauto].
        -- destruct (U _ Ht) as (x & [=]).
        -- destruct (U _ Ht) as (x & [=]).
        -- destruct (U _ Ht) as (x & [=]).
        -- destruct (U _ Ht) as (x & ->). exfalso. destruct Nm as ((sg & ip & fp & ep & Es & [->| ->] & [Dn Df] & _) & _); [|discriminate]. destruct ip as [|c ip]; [contradiction|]. cbn in Es. injection Es as <- _. inversion Df as [|? ? Dg _]; subst. revert Dg. unfold digit. cbv. intuition discriminate.
        -- destruct (U _ Ht) as (x & Ex). now apply U2 in Ex.
      * intros k1 len fields tail (r1 & after & Hh & _). exfalso. apply Nb.
        destruct Hh as [k2 r2 _ [-> _]|w bb r2 -> _ _]; repeat (rewrite in_app_iff; cbn [In]); tauto.
    + discriminate.
  - eexists _, _, (TObj []). split; [exact (scans_hyphen (2 + k) [])|]. split; [reflexivity|]. split; [reflexivity|]. intros q Hq. apply im_bare.
Qed.

(** A header and its items. *)
Lemma blocks_read bs vs : Forall2 (item_lines decode size) bs vs -> forall k, exists ls trs,
  scans strict size (2 + k) (concat bs) ls [] /\ vs = map tree_json trs /\ (forall l r, ls = l :: r -> tl_depth l = 1) /\
  items parse_f64 strict [] 1 (N.of_nat (length vs)) ls trs [].
Proof.
  induction 1 as [|b v bs vs I _ IH]; intros k.
  - exists [], []. cbn. repeat split; try constructor. discriminate.
  - destruct (item_reads _ _ I k) as (l & ls & tr & Sc & D & -> & R).
    destruct (IH (k + length b)) as (ls' & trs & Sc' & -> & D' & Is).
    exists ((l :: ls) ++ ls'), (tr :: trs). cbn [concat map length]. split; [|split; [reflexivity|split]].
    + apply (scans_app _ _ _ _ _ _ Sc _ _ []). now rewrite <- Nat.add_assoc.
    + intros x r [= <- _]. exact D.
    + rewrite Nat2N.inj_succ. cbn [app]. eapply is_more; [exact D| |exact Is]. apply R. intros x r E. rewrite (D' _ _ E). lia.
Qed.
Lemma list_array h tail bs vs : blank tail -> (hl_fields h = None \/ hl_fields h = Some []) -> hl_length h = N.of_nat (length vs) ->
  Forall2 (item_lines decode size) bs vs ->
  exists ls tr, scans strict size 2 (concat bs) ls [] /\ tree_json tr = JArr vs /\ array parse_f64 strict [] 0 h tail ls tr [].
Proof.
  intros Bt Hf Hl H. destruct (blocks_read _ _ H 0) as (ls & trs & Sc & -> & _ & Is).
  exists ls, (TArr (hl_length h) trs). split; [exact Sc|]. split; [reflexivity|].
  eapply (ar_list _ _ _ _ _ _ _ _ ls []); auto; [now rewrite Hl|now rewrite app_nil_r|].
  intros _. split; [now rewrite Hl, map_length|]. split; [intros ? ? ? ? _ _ n []|intros ? ? [=]].
Qed.
Lemma list_read r h tail bs vs : unquoted cCOLON (cLBRACK :: r) ->
  is_header (cLBRACK :: r) h tail -> blank tail -> (hl_fields h = None \/ hl_fields h = Some []) -> hl_length h = N.of_nat (length vs) ->
  Forall2 (item_lines decode size) bs vs -> try_decode_from_lines ((cLBRACK :: r) :: concat bs) o = Ok (JArr vs).
Proof.
  intros Q Hh Bt Hf Hl H. destruct (list_array h tail bs vs Bt Hf Hl H) as (ls & tr & Sc & E & A).
  assert (Sc' : scans strict size 1 ((cLBRACK :: r) :: concat bs) (TLine 1 0 (cLBRACK :: r) :: ls) []).
  { apply (sc_line strict size 1 0 (cLBRACK :: r) 0); auto; try discriminate; [|repeat split; intros; nia].
    intros B. inversion B; discriminate. }
  assert (R : root parse_f64 strict [] (TLine 1 0 (cLBRACK :: r) :: ls) tr).
  { eapply (ro_array _ _ _ _ _ h tail _ []); auto. exists [], r. split; [reflexivity|constructor]. }
  rewrite (lines_ok _ _ _ _ _ He Sc' R). now rewrite E.
Qed.
Lemma list_read_named kt k q r h tail bs vs : names kt k q ->
  is_header (cLBRACK :: r) h tail -> blank tail -> (hl_fields h = None \/ hl_fields h = Some []) -> hl_length h = N.of_nat (length vs) ->
  Forall2 (item_lines decode size) bs vs -> try_decode_from_lines ((kt ++ cLBRACK :: r) :: concat bs) o = Ok (JObj [(k, JArr vs)]).
Proof.
  intros N Hh Bt Hf Hl H. destruct (list_array h tail bs vs Bt Hf Hl H) as (ls & tr & Sc & E & A).
  pose proof (names_header _ _ _ _ _ _ N Hh) as Hk.
  assert (Sc' : scans strict size 1 ((kt ++ cLBRACK :: r) :: concat bs) (TLine 1 0 (kt ++ cLBRACK :: r) :: ls) []).
  { destruct (names_start _ _ _ N) as (c & r1 & -> & W & _). apply (sc_line strict size 1 0 ((c :: r1) ++ cLBRACK :: r) 0); auto; [| | repeat split; intros; nia|].
    - intros B. inversion B; subst. congruence.
    - intros r' [= -> _]. discriminate.
    - intros _ r' [= -> _]. discriminate. }
  assert (M : member parse_f64 strict [] 0 (kt ++ cLBRACK :: r) ls (k, q, tr) [])
    by (eapply mb_array; [exact Hk|reflexivity|apply array_keyed; exact A]).
  assert (R : root parse_f64 strict [] (TLine 1 0 (kt ++ cLBRACK :: r) :: ls) (TObj [(k, q, tr)])).
  { eapply ro_object; [left; intros [X _]; exact (names_no_bracket _ _ _ _ N X)|right; exact (member_has_colon _ _ _ _ _ _ _ _ M)|exact M|].
    apply ms_end. intros ? ? [=]. }
  rewrite (lines_ok _ _ _ _ _ He Sc' R). cbn [tree_json map fst snd]. now rewrite E.
Qed.
End Texts.
