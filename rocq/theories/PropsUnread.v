(** C40, the true part: which lines of an accepted document can fail to contribute. *)
From Verif Require Import Chars Floats Json Shared Scanner Parser DecValidation Decoders EventBuilder Expand DecodeApi
  Lex Spec DecProps SpecText SpecRead ReadProof.

Local Open Scope nat_scope.

Section Counting.
Variable double : str -> option f64.
Variables (strict : bool) (blanks : list nat).

Definition size (v : tree) : nat := length (tree_events v).
Definition msize (m : str * bool * tree) : nat := S (size (snd m)).
Fixpoint total {A} (f : A -> nat) (l : list A) : nat := match l with [] => 0 | x :: r => f x + total f r end.
Lemma size_arr n l : size (TArr n l) = 2 + total size l.
Proof.
  unfold size. cbn [tree_events length]. rewrite app_length. cbn [length].
  enough (E : length (flat_map tree_events l) = total (fun v => length (tree_events v)) l) by (unfold size in *; lia).
  induction l as [|x l IH]; [reflexivity|]. cbn [flat_map total]. rewrite app_length. lia.
Qed.
Lemma size_obj l : size (TObj l) = 2 + total msize l.
Proof.
  unfold size. cbn [tree_events length]. rewrite app_length. cbn [length].
  enough (E : length (flat_map (fun m => EvKey (fst (fst m)) (snd (fst m)) :: tree_events (snd m)) l) = total msize l) by lia.
  induction l as [|x l IH]; [reflexivity|]. cbn [flat_map total]. rewrite app_length. unfold msize at 1, size. cbn [length]. lia.
Qed.

(** The lines [ls] without [rest] are at most [n]. *)
Definition uses (ls rest : list tline) (n : nat) : Prop := exists used, ls = used ++ rest /\ length used <= n.
Lemma uses_0 ls n : uses ls ls n. Proof. exists []. split; [reflexivity|cbn; lia]. Qed.
Lemma uses_le ls rest n m : uses ls rest n -> n <= m -> uses ls rest m.
Proof. intros (u & E & L) H. exists u. split; [exact E|lia]. Qed.
Lemma uses_app a b c n m : uses a b n -> uses b c m -> uses a c (n + m).
Proof. intros (u & -> & L) (w & -> & M). exists (u ++ w). rewrite app_assoc, app_length. split; [reflexivity|lia]. Qed.
Lemma uses_cons l a b n : uses a b n -> uses (l :: a) b (S n).
Proof. intros (u & -> & L). exists (l :: u). split; [reflexivity|cbn; lia]. Qed.

Lemma rows_uses dl fs d n ls vs rest : rows double strict dl fs d n ls vs rest -> uses ls rest (total size vs).
Proof.
  induction 1 as [|n ls E|n l ls ps vs rest D P S R IH]; [apply uses_0|apply uses_0|]. cbn [total].
  apply (uses_cons l) in IH. eapply uses_le; [exact IH|]. rewrite size_obj. lia.
Qed.
Lemma size_pos v : 1 <= size v.
Proof. destruct v; [cbn; lia|rewrite size_arr; lia|rewrite size_obj; lia]. Qed.

(** Besides the line it starts on, a member or an item uses fewer lines than it has events. *)
Lemma read_uses :
  (forall d t ls m rest, member double strict blanks d t ls m rest -> uses ls rest (size (snd m))) /\
  (forall stop d ls ms rest, members double strict blanks stop d ls ms rest -> uses ls rest (total msize ms)) /\
  (forall d h tail ls v rest, array double strict blanks d h tail ls v rest -> uses ls rest (size v - 1)) /\
  (forall d n ls vs rest, items double strict blanks d n ls vs rest -> uses ls rest (total size vs)) /\
  (forall d t ls v rest, item double strict blanks d t ls v rest -> uses ls rest (size v - 1)).
Proof.
  apply read_mutind; intros.
  - eapply uses_le; [eassumption|]. cbn [snd]. lia.
  - cbn [snd]. eapply uses_le; [eassumption|]. rewrite size_obj. lia.
  - apply uses_0.
  - apply uses_0.
  - apply uses_0.
  - cbn [total]. replace (msize m + total msize ms) with (S (size (snd m) + total msize ms)) by (unfold msize; lia).
    apply uses_cons. eapply uses_app; eassumption.
  - apply uses_0.
  - eapply uses_le; [eapply rows_uses; eassumption|]. rewrite size_arr. lia.
  - eapply uses_le; [eassumption|]. rewrite size_arr. lia.
  - apply uses_0.
  - apply uses_0.
  - cbn [total]. pose proof (size_pos v).
    replace (size v + total size vs) with (S ((size v - 1) + total size vs)) by lia.
    apply uses_cons. eapply uses_app; eassumption.
  - apply uses_0.
  - apply uses_0.
  - assumption.
  - rewrite size_obj. cbn [total]. unfold msize at 1. eapply uses_le; [eapply uses_app; eassumption|]. lia.
  - apply uses_0.
Qed.

(** A root array: what follows it.  Members of the root: what follows is deeper than the root. *)
Lemma root_uses ls v : root double strict blanks ls v ->
  exists used rest, ls = used ++ rest /\ length used <= size v /\
    ((exists n l, v = TArr n l) \/ rest = [] \/ exists l r, rest = l :: r /\ 0 < tl_depth l).
Proof.
  destruct read_uses as (Um & Us & Ua & _ & _). destruct 1 as [|l ls h tail v rest B Q H A|l p N C P|l ls m ls1 ms rest N C M R].
  - exists [], []. repeat split; [cbn; lia|auto].
  - pose proof (size_pos v). destruct (Ua _ _ _ _ _ _ A) as (u & -> & L). exists (l :: u), rest. split; [reflexivity|]. split; [cbn [length]; lia|].
    left. destruct A; eauto.
  - exists [l], []. repeat split; [cbn; lia|auto].
  - pose proof (uses_app _ _ _ _ _ (Um _ _ _ _ _ M) (Us _ _ _ _ _ R)) as (u & -> & L).
    exists (l :: u), rest. split; [reflexivity|]. split; [rewrite size_obj; cbn [length total]; unfold msize at 1; lia|].
    right. clear -R. remember false as stop eqn:Es. remember 0 as d eqn:Ed.
    induction R as [stop d ls E|stop d l ls m ls1 ms rest D H M R IH]; [|auto].
    destruct ls as [|l r]; [now left|]. right. exists l, r. split; [reflexivity|].
    specialize (E l r eq_refl). subst. destruct (tl_depth l) eqn:X; [|lia]. exfalso. apply E. split; [reflexivity|]. intros [Y _]. discriminate.
Qed.
End Counting.

Lemma scans_fun strict size raws ls bs ls' bs' : scans strict size 1 raws ls bs -> scans strict size 1 raws ls' bs' ->
  ls' = ls /\ bs' = bs.
Proof.
  intros H H'. destruct (ReadLine.scans_complete _ _ _ _ _ _ H 0 [] eq_refl) as (p & st & E & <- & Eb).
  destruct (ReadLine.scans_complete _ _ _ _ _ _ H' 0 [] eq_refl) as (p' & st' & E' & <- & Eb').
  rewrite E in E'. injection E' as <- <-. split; [reflexivity|]. rewrite Eb in Eb'. cbn in Eb'. congruence.
Qed.

(** ** The unread lines have no influence *)

Section Framing.
Variable double : str -> option f64.
Variables (strict : bool) (blanks : list nat).

Lemma gap_fewer blanks' used : incl blanks' blanks -> no_gap blanks used -> no_gap blanks' used.
Proof. intros I H a b m z E E' n Hn. eapply H; eauto. Qed.
Lemma ends_prefix P s r : ends P (s ++ r) -> ends P s.
Proof. intros H l t ->. now apply (H l (t ++ r)). Qed.

(** Of the lines that are left any number can go. *)
Definition frames (J : list nat -> list tline -> list tline -> Prop) (ls rest : list tline) : Prop :=
  exists used, ls = used ++ rest /\ forall bs s r, incl bs blanks -> rest = s ++ r -> J bs (used ++ s) s.
Lemma frames_0 (J : list nat -> list tline -> list tline -> Prop) ls :
  (forall bs s r, incl bs blanks -> ls = s ++ r -> J bs s s) -> frames J ls ls.
Proof. intros H. exists []. split; [reflexivity|]. intros bs s r I E. apply (H bs s r I E). Qed.
Lemma frames_seq (A B : list nat -> list tline -> list tline -> Prop) (J : list nat -> list tline -> list tline -> Prop) a b c :
  frames A a b -> frames B b c -> (forall bs x y z, A bs x y -> B bs y z -> J bs x z) -> frames J a c.
Proof.
  intros (u & -> & Hu) (w & -> & Hw) H. exists (u ++ w). split; [apply app_assoc|]. intros bs s r I ->.
  eapply H; [|now eapply Hw]. rewrite <- app_assoc. apply (Hu bs (w ++ s) r I). now rewrite app_assoc.
Qed.
Lemma frames_cons (A J : list nat -> list tline -> list tline -> Prop) l a b :
  frames A a b -> (forall bs x y, A bs x y -> J bs (l :: x) y) -> frames J (l :: a) b.
Proof. intros (u & -> & Hu) H. exists (l :: u). split; [reflexivity|]. intros bs s r I E. cbn. apply H. now apply (Hu bs s r). Qed.
Lemma frames_map (A J : list nat -> list tline -> list tline -> Prop) a b :
  frames A a b -> (forall bs x y, A bs x y -> J bs x y) -> frames J a b.
Proof. intros (u & -> & Hu) H. exists u. split; [reflexivity|]. intros bs s r I E. apply H. now apply (Hu bs s r). Qed.

Lemma rows_frames dl fs d n ls vs rest : rows double strict dl fs d n ls vs rest ->
  frames (fun _ x y => rows double strict dl fs d n x vs y) ls rest.
Proof.
  induction 1 as [ls|n ls E|n l ls ps vs rest D P S R IH].
  - apply frames_0. intros. constructor.
  - apply frames_0. intros bs s r I ->. constructor. eapply ends_prefix; eauto.
  - eapply frames_cons; [exact IH|]. cbn. intros. now constructor.
Qed.

Lemma read_frames :
  (forall d t ls m rest, member double strict blanks d t ls m rest ->
     frames (fun bs x y => member double strict bs d t x m y) ls rest) /\
  (forall stop d ls ms rest, members double strict blanks stop d ls ms rest ->
     frames (fun bs x y => members double strict bs stop d x ms y) ls rest) /\
  (forall d h tail ls v rest, array double strict blanks d h tail ls v rest ->
     frames (fun bs x y => array double strict bs d h tail x v y) ls rest) /\
  (forall d n ls vs rest, items double strict blanks d n ls vs rest ->
     frames (fun bs x y => items double strict bs d n x vs y) ls rest) /\
  (forall d t ls v rest, item double strict blanks d t ls v rest ->
     frames (fun bs x y => item double strict bs d t x v y) ls rest).
Proof.
  apply read_mutind.
  - intros. eapply frames_map; [eassumption|]. cbn. intros. econstructor; eauto.
  - intros d t ls k q r l ls' ms rest Hp Hk Hb -> Hd M (u & E & Hu). exists u. split; [exact E|].
    intros bs s r' I Hr. destruct u as [|l0 u].
    + exfalso. cbn in E. subst rest. destruct (read_uses double strict blanks) as (_ & Us & _).
      inversion M as [? ? ? En|? ? ? ? m ls1 ms' ? D N Mm Ms]; subst.
      * apply (En l ls' eq_refl). split; auto. intros [X _]. discriminate.
      * destruct (read_uses double strict blanks) as (Um & _). destruct (Um _ _ _ _ _ Mm) as (w1 & E1 & _).
        destruct (Us _ _ _ _ _ Ms) as (w2 & E2 & _). apply (f_equal (@length _)) in E1, E2.
        rewrite app_length in E1, E2. cbn [length] in E2. lia.
    + cbn in E. injection E as <- E. cbn [app]. eapply mb_object; eauto.
  - intros d t ls k q r Hp Hk Hb He. apply frames_0. intros bs s r' I ->. eapply mb_empty; eauto. eapply ends_prefix; eauto.
  - intros. apply frames_0. intros. eapply mb_prim; eauto.
  - intros stop d ls He. apply frames_0. intros bs s r I ->. constructor. eapply ends_prefix; eauto.
  - intros stop d l ls m ls1 ms rest D N _ IH1 _ IH2. eapply frames_cons; [|intros bs x y H; exact H].
    eapply frames_seq; [exact IH1|exact IH2|]. cbn. intros. econstructor; eauto.
  - intros. apply frames_0. intros. econstructor; eauto.
  - intros d h tail ls fs vs used rest Hb Hf Hn R -> Hs. destruct (rows_frames _ _ _ _ _ _ _ R) as (u & E & Hu).
    apply app_inv_tail in E as <-. exists used. split; [reflexivity|]. intros bs s r I ->.
    eapply ar_table; eauto. intros S. destruct (Hs S) as (A & B & C). split; auto. split; [now apply (gap_fewer bs)|].
    eapply ends_prefix; eauto.
  - intros d h tail ls vs used rest Hb Hf _ (u & E & Hu) -> Hs.
    apply app_inv_tail in E as <-. exists used. split; [reflexivity|]. intros bs s r I ->.
    eapply ar_list; eauto. intros S. destruct (Hs S) as (A & B & C). split; auto. split; [now apply (gap_fewer bs)|].
    eapply ends_prefix; eauto.
  - intros. apply frames_0. intros. constructor.
  - intros d n ls He. apply frames_0. intros bs s r I ->. constructor. eapply ends_prefix; eauto.
  - intros d n l ls v ls1 vs rest D _ IH1 _ IH2. eapply frames_cons; [|intros bs x y H; exact H].
    eapply frames_seq; [exact IH1|exact IH2|]. cbn. intros. econstructor; eauto.
  - intros. apply frames_0. intros. constructor.
  - intros. apply frames_0. intros. now constructor.
  - intros. eapply frames_map; [eassumption|]. cbn. intros. econstructor; eauto.
  - intros d t ls m ls1 ms rest Hb Hu Hk _ IH1 _ IH2. eapply frames_seq; [exact IH1|exact IH2|]. cbn. intros. eapply im_object; eauto.
  - intros. apply frames_0. intros. now apply im_prim.
Qed.

Lemma header_has_colon t h tail : is_header t h tail -> has_colon t \/ begins cDQ t.
Proof.
  intros H. inversion H as [k len fields tl key n dl fs F _ _ _ _]; subst. destruct F as (r & after & Hh & Hc & Ht).
  assert (I : In cCOLON after).
  { destruct Ht as [m r1 f r2 x t' [-> _] _ [-> _] [-> _]|m t' [-> _] _]; rewrite !in_app_iff; cbn;
      rewrite ?in_app_iff; cbn; rewrite ?in_app_iff; cbn; tauto. }
  assert (I' : In cCOLON r) by (destruct Hc as [-> _]; rewrite in_app_iff; cbn; auto).
  destruct Hh as [k0 r0 Hn [-> _]|w b r0 -> Hw Hb].
  - left. right. split; [|rewrite in_app_iff; cbn; auto]. intros r' E. apply Hn. exists [], r'. split; [exact E|constructor].
  - right. exists w, (b ++ cDQ :: cLBRACK :: r0). auto.
Qed.
Lemma begins_colon t h tail : is_header t h tail -> begins cDQ t -> has_colon t.
Proof.
  intros H. inversion H as [k len fields tl key n dl fs F _ _ _ _]; subst. destruct F as (r & after & Hh & Hc & Ht).
  assert (I : In cCOLON after).
  { destruct Ht as [m r1 f r2 x t' [-> _] _ [-> _] [-> _]|m t' [-> _] _]; rewrite !in_app_iff; cbn;
      rewrite ?in_app_iff; cbn; rewrite ?in_app_iff; cbn; tauto. }
  assert (I' : In cCOLON r) by (destruct Hc as [-> _]; rewrite in_app_iff; cbn; auto).
  intros B. destruct Hh as [k0 r0 Hn _|w b r0 -> Hw Hb]; [contradiction|]. destruct w as [|c w].
  - left. exists b, (cLBRACK :: r0). cbn. auto.
  - right. split; [|repeat (rewrite in_app_iff; cbn [In]); tauto].
    intros r' E. cbn in E. injection E as -> _. inversion Hw; subst. discriminate.
Qed.
Lemma member_has_colon d t ls m rest : member double strict blanks d t ls m rest -> has_colon t.
Proof.
  assert (K : forall k q r, key_line t k q r -> has_colon t).
  { intros k q r [b k' r' -> U|t' k' r' N [E _] _].
    - left. exists b, (cCOLON :: r'). split; [reflexivity|]. split; [eapply ReadLex.unescapes_body; eauto|now left].
    - right. split; [exact N|]. rewrite E, in_app_iff. cbn. auto. }
  destruct 1; eauto. destruct (header_has_colon _ _ _ H) as [C|B]; [exact C|]. eapply begins_colon; eauto.
Qed.

(** The lines read are a document by themselves. *)
Lemma root_frames ls v : root double strict blanks ls v ->
  exists used rest, ls = used ++ rest /\ (forall bs, incl bs blanks -> root double strict bs used v) /\ length used <= size v /\ (ls <> [] -> used <> []) /\
    ((exists n l, v = TArr n l) \/ rest = [] \/ exists l r, rest = l :: r /\ 0 < tl_depth l).
Proof.
  destruct read_frames as (Fm & Fs & Fa & _ & _). destruct (read_uses double strict blanks) as (Um & Us & Ua & _ & _).
  destruct 1 as [|l ls h tail v rest B Q H A|l p N C P|l ls m ls1 ms rest N C M R].
  - exists [], []. repeat split; [constructor|cbn; lia|auto|auto].
  - pose proof (size_pos v). destruct (Ua _ _ _ _ _ _ A) as (u & E & L). destruct (Fa _ _ _ _ _ _ A) as (u' & E' & Hu).
    rewrite E in E'. apply app_inv_tail in E' as <-. exists (l :: u), rest. subst ls.
    split; [reflexivity|]. split; [intros bs I; eapply ro_array; eauto; specialize (Hu bs [] rest I eq_refl); rewrite app_nil_r in Hu; exact Hu|].
    split; [cbn [length]; lia|]. split; [discriminate|]. left. destruct A; eauto.
  - exists [l], []. repeat split; [now constructor|cbn; lia|discriminate|auto].
  - pose proof (uses_app _ _ _ _ _ (Um _ _ _ _ _ M) (Us _ _ _ _ _ R)) as (u & E & L).
    destruct (Fm _ _ _ _ _ M) as (u1 & E1 & H1). destruct (Fs _ _ _ _ _ R) as (u2 & E2 & H2).
    assert (Eu : u = u1 ++ u2).
    { apply (app_inv_tail rest). rewrite <- E, E1, E2. apply app_assoc. }
    exists (l :: u), rest. split; [now rewrite E|]. split.
    { intros bs I. rewrite Eu. eapply ro_object; [exact N|right; eapply member_has_colon; eauto| |].
      - apply (H1 bs u2 rest I E2).
      - specialize (H2 bs [] rest I eq_refl). rewrite app_nil_r in H2. exact H2. }
    split; [rewrite size_obj; cbn [length total]; unfold msize at 1; lia|]. split; [discriminate|].
    right. clear -R. remember false as stop eqn:Es. remember 0 as d eqn:Ed.
    induction R as [stop d ls E|stop d l ls m ls1 ms rest D H M R IH]; [|auto].
    destruct ls as [|l r]; [now left|]. right. exists l, r. split; [reflexivity|].
    specialize (E l r eq_refl). subst. destruct (tl_depth l) eqn:X; [|lia]. exfalso. apply E. split; [reflexivity|]. intros [Y _]. discriminate.
Qed.
End Framing.

Lemma scans_prefix strict size used : forall n raws rest bs, scans strict size n raws (used ++ rest) bs ->
  exists k bs', scans strict size n (firstn k raws) used bs' /\ incl bs' bs.
Proof.
  intros n raws rest bs H. remember (used ++ rest) as ls eqn:E. revert used E.
  induction H as [n|n raw raws ls bs B Sc IH|n k t d raws ls bs B N D T Sc IH]; intros used E.
  - exists 0, []. destruct used; [|discriminate]. split; [constructor|apply incl_refl].
  - destruct (IH used E) as (k & bs' & H & I). exists (S k), (n :: bs'). cbn [firstn]. split; [now constructor|].
    intros x [->|Hx]; [now left|right; auto].
  - destruct used as [|l used].
    + exists 0, []. split; [constructor|intros x []].
    + cbn in E. injection E as <- E. destruct (IH used E) as (j & bs' & H & I). exists (S j), bs'. cbn [firstn].
      split; [now constructor|exact I].
Qed.

(** In either mode the lines with text of an accepted document are the lines read, then the lines
    not read.  The lines read are a document by themselves, with the same events; at least one is
    read, and there are at least as many events as lines read.  Lines are left unread in two cases
    only: after a root array, and from a line on that is deeper than the root although nothing
    above opened it. *)
Theorem C40_lines_read :
  forall (lines : list str) (indent : option nat) (strict : option bool) (evs : list event) (ls : list tline) (blanks : list nat),
    decode_stream_sync lines (Some (DStreamOpts indent strict)) = Ok evs ->
    scans (unwrap_or strict true) (unwrap_or indent 2) 1 lines ls blanks ->
    exists used rest k blanks', ls = used ++ rest /\
      scans (unwrap_or strict true) (unwrap_or indent 2) 1 (firstn k lines) used blanks' /\
      decode_stream_sync (firstn k lines) (Some (DStreamOpts indent strict)) = Ok evs /\
      length used <= length evs /\ (ls <> [] -> used <> []) /\
      ((exists n evs', evs = EvStartArray n :: evs') \/ rest = [] \/ exists l r, rest = l :: r /\ 0 < tl_depth l).
Proof.
  intros lines indent strict evs ls blanks E S.
  apply (stream_spec lines (unwrap_or strict true) (unwrap_or indent 2) evs) in E as (ls' & bs' & tr & S' & R & ->).
  assert (X : ls' = ls /\ bs' = blanks) by (eapply scans_fun; eassumption). destruct X as [-> ->].
  destruct (root_frames _ _ _ _ _ R) as (used & rest & -> & R' & L & Z & C).
  destruct (scans_prefix _ _ _ _ _ _ _ S) as (k & bs & Sk & I).
  exists used, rest, k, bs. split; [reflexivity|]. split; [exact Sk|]. split.
  { apply (stream_spec (firstn k lines) (unwrap_or strict true) (unwrap_or indent 2)). exists used, bs, tr. auto. }
  split; [exact L|]. split; [exact Z|].
  destruct C as [(n & l & ->)|C]; [left; cbn [tree_events]; eauto|right; exact C].
Qed.
Print Assumptions C40_lines_read.

(** So a document all of whose lines are at the root, and that is no array, is read to its end. *)
Theorem C40_flat_documents_read :
  forall (lines : list str) (indent : option nat) (strict : option bool) (evs : list event) (ls : list tline) (blanks : list nat),
    decode_stream_sync lines (Some (DStreamOpts indent strict)) = Ok evs ->
    scans (unwrap_or strict true) (unwrap_or indent 2) 1 lines ls blanks ->
    (forall l, In l ls -> tl_depth l = 0) -> (forall n evs', evs <> EvStartArray n :: evs') ->
    length ls <= length evs.
Proof.
  intros lines indent strict evs ls blanks E S D A.
  destruct (C40_lines_read _ _ _ _ _ _ E S) as (used & rest & k & bs & -> & _ & _ & L & _ & [(n & e & C)|[->|(l & r & -> & P)]]).
  - exfalso. exact (A n e C).
  - now rewrite app_nil_r.
  - exfalso. enough (tl_depth l = 0) by lia. apply D, in_or_app. right. now left.
Qed.
Print Assumptions C40_flat_documents_read.

(** Five lines with text.  The fourth is over-indented: it and the fifth leave no trace. *)
Definition unread_case : list str := [lit "a: 1"; lit ""; lit "b:"; lit "  c: 2"; lit "      d: 3"; lit "e: 4"].
Example unread_case_events :
  decode_stream_sync unread_case None =
  decode_stream_sync (firstn 4 unread_case) None /\
  exists evs, decode_stream_sync unread_case None = Ok evs /\ length evs = 9.
Proof. split; [vm_compute; reflexivity|]. eexists. split; [vm_compute; reflexivity|reflexivity]. Qed.
Example unread_case_scans : exists ls bs, scans true 2 1 unread_case ls bs /\ length ls = 5.
Proof.
  destruct (parse_lines_sync unread_case 2 true (ScanState 0 [])) as [[ls st]|] eqn:E; [|vm_compute in E; discriminate].
  assert (L : length ls = 5) by (vm_compute in E; injection E as <- _; reflexivity).
  destruct (ReadLine.scans_sound _ _ _ _ _ _ _ E) as (bs & S & _). exists (map ReadLine.tl_of ls), bs. split; [exact S|]. now rewrite map_length.
Qed.
