(** What is wrong with the first lines of a text is wrong with the text. *)
From Verif Require Import Chars Floats Json Shared Scanner Parser DecValidation Decoders EventBuilder Expand DecodeApi
  Lex Spec DecProps DecRel EventProof ParseProof SpecText SpecRead ReadLex ReadHead ReadLine ReadProof SpecError ErrLex ErrProof SpecCut
  PropsUnread CutProof SpecJoin JoinProof SpecFault.

Local Open Scope nat_scope.

Section More.
Variable double : str -> option f64.
Variable strict : bool.
Variables (blanks more : list nat) (top : nat) (q : list tline).
Hypothesis Hm : Forall (fun n => top <= n) more.
Notation bs' := (blanks ++ more).

Local Lemma later n : In n bs' -> In n blanks \/ top <= n.
Proof. intros H. apply in_app_or in H as [H|H]; [now left|right]. rewrite Forall_forall in Hm. auto. Qed.
Lemma gap_more used : below top used -> no_gap blanks used -> no_gap bs' used.
Proof.
  intros L G a b m z Ea Ez n Hn. destruct (later n Hn) as [I|T]; [eapply G; eauto|].
  intros [_ X]. unfold below in L. rewrite Ez in L. apply Forall_app in L as [_ L]. inversion L; subst. lia.
Qed.
Lemma first_gap_more used n : first_gap blanks used n -> first_gap bs' used n.
Proof.
  intros (a & m & z & b & E1 & E2 & before & after & Eb & H1 & H2 & H3).
  exists a, m, z, b. split; [exact E1|]. split; [exact E2|]. exists before, (after ++ more).
  split; [rewrite Eb, <- app_assoc; reflexivity|auto].
Qed.
Lemma ends_more (P : tline -> Prop) ls : ls <> [] -> ends P ls -> ends P (ls ++ q).
Proof. intros N H l r E. destruct ls as [|x ls]; [congruence|]. injection E as -> _. eapply H. reflexivity. Qed.
Lemma rows_more dl fs d n ls vs rest : rows double strict dl fs d n ls vs rest -> rest <> [] \/ N.of_nat (length vs) = n ->
  rows double strict dl fs d n (ls ++ q) vs (rest ++ q).
Proof.
  induction 1 as [ls|n ls E|n l ls ps vs rest D P S R IH]; intros H.
  - constructor.
  - destruct H as [H|H]; [apply rw_end; now apply ends_more|]. cbn in H. subst n. constructor.
  - cbn [app]. constructor; auto. apply IH. destruct H as [H|H]; [now left|right]. cbn [length] in H. lia.
Qed.
Lemma rows_at_most dl fs d n ls vs rest : rows double strict dl fs d n ls vs rest -> (N.of_nat (length vs) <= n)%N.
Proof. induction 1; cbn [length]; lia. Qed.
Lemma items_at_most d n ls vs rest : items double strict blanks d n ls vs rest -> (N.of_nat (length vs) <= n)%N.
Proof. induction 1; cbn [length]; lia. Qed.

(** What leaves a line behind is read the same when more lines follow. *)
Lemma read_more :
  (forall d t ls m rest, member double strict blanks d t ls m rest -> below top ls -> rest <> [] -> member double strict bs' d t (ls ++ q) m (rest ++ q)) /\
  (forall stop d ls ms rest, members double strict blanks stop d ls ms rest -> below top ls -> rest <> [] -> members double strict bs' stop d (ls ++ q) ms (rest ++ q)) /\
  (forall d h tail ls v rest, array double strict blanks d h tail ls v rest -> below top ls -> rest <> [] -> array double strict bs' d h tail (ls ++ q) v (rest ++ q)) /\
  (forall d n ls vs rest, items double strict blanks d n ls vs rest -> below top ls -> rest <> [] -> items double strict bs' d n (ls ++ q) vs (rest ++ q)) /\
  (forall d t ls v rest, item double strict blanks d t ls v rest -> below top ls -> rest <> [] -> item double strict bs' d t (ls ++ q) v (rest ++ q)).
Proof.
  destruct (read_uses double strict blanks) as (Um & Us & _ & Us' & Ui).
  assert (Nn : forall (u rest ls : list tline), ls = u ++ rest -> rest <> [] -> ls <> []).
  { intros u rest ls -> N E. apply app_eq_nil in E as [_ E]. now apply N. }
  apply read_mutind.
  - intros. eapply mb_array; eauto.
  - intros d t ls k qq r l ls' ms rest Hp Hk Hbl -> Hd M IH L Hr. eapply mb_object; eauto; reflexivity.
  - intros d t ls k qq r Hp Hk Hbl He L Hr. eapply mb_empty; eauto. now apply ends_more.
  - intros. eapply mb_prim; eauto.
  - intros stop d ls He L Hr. constructor. now apply ends_more.
  - intros stop d l ls m ls1 ms rest D N M IH1 Ms IH2 L Hr. assert (L1 : below top ls) by (inversion L; auto). cbn [app].
    destruct (Us _ _ _ _ _ Ms) as (u1 & E1 & _). destruct (Um _ _ _ _ _ M) as (u & Eu & _).
    eapply ms_more; eauto. apply IH2; [|exact Hr]. rewrite Eu in L1. eapply below_suffix; eauto.
  - intros. eapply ar_inline; eauto.
  - intros d h tail ls fs vs used rest Hbl Hf Hn R E Hs L Hr.
    eapply (ar_table _ _ _ _ _ _ _ fs vs used); eauto using rows_more; [rewrite E; symmetry; apply app_assoc|].
    intros S. destruct (Hs S) as (A & B & C). split; [exact A|]. split; [apply gap_more; [|exact B]; rewrite E in L; eapply below_prefix; eauto|].
    now apply ends_more.
  - intros d h tail ls vs used rest Hbl Hf _ IH E Hs L Hr.
    eapply (ar_list _ _ _ _ _ _ _ vs used); eauto; [rewrite E; symmetry; apply app_assoc|].
    intros S. destruct (Hs S) as (A & B & C). split; [exact A|]. split; [apply gap_more; [|exact B]; rewrite E in L; eapply below_prefix; eauto|].
    now apply ends_more.
  - intros. constructor.
  - intros d n ls He L Hr. constructor. now apply ends_more.
  - intros d n l ls v ls1 vs rest D M IH1 Is IH2 L Hr. assert (L1 : below top ls) by (inversion L; auto). cbn [app].
    destruct (Us' _ _ _ _ _ Is) as (u1 & E1 & _). destruct (Ui _ _ _ _ _ M) as (u & Eu & _).
    eapply is_more; eauto. apply IH2; [|exact Hr]. rewrite Eu in L1. eapply below_suffix; eauto.
  - intros. constructor.
  - intros. now constructor.
  - intros. eapply im_array; eauto.
  - intros d t ls m ls1 ms rest Hbl Hu Hk M IH1 Ms IH2 L Hr.
    destruct (Us _ _ _ _ _ Ms) as (u1 & E1 & _). destruct (Um _ _ _ _ _ M) as (u & Eu & _).
    eapply im_object; eauto. apply IH2; [|exact Hr]. rewrite Eu in L. eapply below_suffix; eauto.
  - intros. now apply im_prim.
Qed.

Lemma row_fails_more dl fs d n ls e : row_fails double strict dl fs d n ls e -> row_fails double strict dl fs d n (ls ++ q) e.
Proof. induction 1; cbn [app]; [now apply rf_width|eapply rf_cell; eauto|eapply rf_later; eauto]. Qed.

Lemma fail_nonempty :
  (forall d t ls e, member_fails double strict blanks d t ls e -> True) /\
  (forall stop d ls e, members_fail double strict blanks stop d ls e -> ls <> []) /\
  (forall d h tail ls e, array_fails double strict blanks d h tail ls e -> True) /\
  (forall d n ls e, items_fail double strict blanks d n ls e -> ls <> []) /\
  (forall d t ls e, item_fails double strict blanks d t ls e -> True).
Proof. apply fail_mutind; intros; try exact I; discriminate. Qed.

Lemma fail_more :
  (forall d t ls e, member_fails double strict blanks d t ls e -> below top ls -> settled e -> member_fails double strict bs' d t (ls ++ q) e) /\
  (forall stop d ls e, members_fail double strict blanks stop d ls e -> below top ls -> settled e -> members_fail double strict bs' stop d (ls ++ q) e) /\
  (forall d h tail ls e, array_fails double strict blanks d h tail ls e -> below top ls -> settled e -> array_fails double strict bs' d h tail (ls ++ q) e) /\
  (forall d n ls e, items_fail double strict blanks d n ls e -> below top ls -> settled e -> items_fail double strict bs' d n (ls ++ q) e) /\
  (forall d t ls e, item_fails double strict blanks d t ls e -> below top ls -> settled e -> item_fails double strict bs' d t (ls ++ q) e).
Proof.
  destruct read_more as (Mm & _ & _ & Mi & Mt). destruct fail_nonempty as (_ & Ns & _ & Ni & _).
  destruct (read_uses double strict blanks) as (Um & _ & _ & _ & Ui).
  assert (Short : forall what n m, (what = CItems \/ what = CRows) -> (m <= n)%N -> m <> n -> ~ settled (ECount what n m)).
  { intros what n m W H N [S _]. apply S. exists what, n, m. split; [reflexivity|]. split; [exact W|lia]. }
  apply fail_mutind.
  - intros. now apply mf_header.
  - intros. eapply mf_array; eauto.
  - intros. now apply mf_key.
  - intros. eapply mf_value; eauto.
  - intros d t ls kk qq r l ls' e Hp Hk Hb -> Hd _ IH L S. eapply mf_object; [exact Hp|exact Hk|exact Hb|reflexivity|exact Hd|now apply IH].
  - intros stop d l ls e D N _ IH L S. cbn [app]. apply msf_here; auto. apply IH; [now inversion L|exact S].
  - intros stop d l ls m ls1 e D N M Fs IH L S. cbn [app]. assert (L1 : below top ls) by (inversion L; auto).
    eapply msf_later; [exact D|exact N|apply Mm; eauto|]. apply IH; [|exact S].
    destruct (Um _ _ _ _ _ M) as (u & -> & _). eapply below_suffix; eauto.
  - intros. eapply af_cell; eauto.
  - intros. eapply af_count; eauto.
  - intros. eapply af_row; eauto using row_fails_more.
  - intros d h tail ls fs vs rest S Hb Hf Hn R Ne L St. exfalso. revert St. apply Short; auto. eapply rows_at_most; eauto.
  - intros d h tail ls fs vs used rest n S Hb Hf Hn R Ne -> G L St.
    eapply (af_rows_gap _ _ _ _ _ _ _ fs vs used); eauto using rows_more, first_gap_more. symmetry. apply app_assoc.
  - intros d h tail ls fs vs used l rest S Hb Hf Hn R Ne -> G D Hy Hd L St. apply rows_more in R; [|now right].
    eapply (af_rows_extra _ _ _ _ _ _ _ fs vs used l); eauto; [now rewrite <- app_assoc|]. apply gap_more; [|exact G]. eapply below_prefix; eauto.
  - intros. eapply af_item; eauto.
  - intros d h tail ls vs rest S Hb Hf R Ne L St. exfalso. revert St. apply Short; auto. eapply items_at_most; eauto.
  - intros d h tail ls vs used rest n S Hb Hf R Ne E G L (_ & _ & St). exfalso. now apply (St n).
  - intros d h tail ls vs used l rest S Hb Hf R Ne -> G D Hy L St. apply Mi in R; [|exact L|discriminate].
    eapply (af_items_extra _ _ _ _ _ _ _ vs used l); eauto; [now rewrite <- app_assoc|]. apply gap_more; [|exact G]. eapply below_prefix; eauto.
  - intros d n l ls e D _ IH L S. cbn [app]. apply if_here; auto. apply IH; [now inversion L|exact S].
  - intros d n l ls v ls1 e D M Fs IH L S. cbn [app]. assert (L1 : below top ls) by (inversion L; auto).
    eapply if_later; [exact D|apply Mt; eauto|]. apply IH; [|exact S].
    destruct (Ui _ _ _ _ _ M) as (u & -> & _). eapply below_suffix; eauto.
  - intros. now apply itf_header.
  - intros. eapply itf_array; eauto.
  - intros. eapply itf_member; eauto.
  - intros d t ls m ls1 e Hb Hu Hh M Fs IH L S. eapply itf_later; [exact Hb|exact Hu|exact Hh|apply Mm; eauto|].
    apply IH; [|exact S]. destruct (Um _ _ _ _ _ M) as (u & -> & _). eapply below_suffix; eauto.
  - intros. now apply itf_prim.
Qed.

Lemma root_more ls e : root_fails double strict blanks ls e -> below top ls -> settled e ->
  (forall l, ls = [l] -> has_colon (tl_text l)) -> root_fails double strict bs' (ls ++ q) e.
Proof.
  destruct read_more as (Mm & _). destruct fail_more as (Fm & Fs & Fa & _). destruct fail_nonempty as (_ & Ns & _).
  destruct (read_uses double strict blanks) as (Um & _).
  assert (Or : forall (ls : list tline) t, ls <> [] \/ has_colon t -> ls ++ q <> [] \/ has_colon t).
  { intros ls' t [H|H]; [left|now right]. intros E. apply app_eq_nil in E as [E _]. now apply H. }
  destruct 1 as [l ls e B Q F|l ls h tail e B Q H F|l e N C F|l ls e N C F|l ls m ls1 e N C M F]; intros L S Lo; cbn [app];
    try (assert (L1 : below top ls) by (inversion L; auto)).
  - now apply rtf_header.
  - eapply rtf_array; eauto.
  - exfalso. apply C. now apply Lo.
  - apply rtf_here; auto.
  - eapply rtf_later; [exact N|auto|apply Mm; eauto|]. apply Fs; auto. destruct (Um _ _ _ _ _ M) as (u & -> & _). eapply below_suffix; eauto.
Qed.
End More.

Lemma indent_first size n a e : indent_fails size n a e -> of_indentation e /\ forall b, indent_fails size n (a ++ b) e.
Proof.
  induction 1 as [n raw raws e B _ [I1 I2]|n k0 t d raws e B N D T _ [I1 I2]|n k0 t raws B|n k0 t raws B N T Z K|n k0 t raws B N T Z K];
    (split; [first [exact I1|exact I]|]); intros b; cbn [app].
  - now apply inf_blank.
  - eapply inf_line; eauto.
  - now apply inf_tab.
  - now apply inf_zero.
  - now apply inf_multiple.
Qed.
Definition early (e : err) : Prop := of_indentation e \/ of_expansion e.
Lemma fails_other double strict blanks :
  (forall d t ls e, member_fails double strict blanks d t ls e -> ~ early e) /\
  (forall stop d ls e, members_fail double strict blanks stop d ls e -> ~ early e) /\
  (forall d h tail ls e, array_fails double strict blanks d h tail ls e -> ~ early e) /\
  (forall d n ls e, items_fail double strict blanks d n ls e -> ~ early e) /\
  (forall d t ls e, item_fails double strict blanks d t ls e -> ~ early e).
Proof.
  assert (Bs : forall t e, bad_string t e -> ~ early e) by (destruct 1; unfold early; cbn; tauto).
  assert (Bc : forall dl t e, bad_cell dl t e -> ~ early e) by (intros dl t e (b & u & a & _ & _ & H); eauto).
  assert (Bh : forall t e, bad_header t e -> ~ early e) by (destruct 1; eauto; unfold early; cbn; tauto).
  assert (Br : forall dl fs d n ls e, row_fails double strict dl fs d n ls e -> ~ early e) by (induction 1; eauto; unfold early; cbn; tauto).
  apply fail_mutind; intros; eauto; try (unfold early; cbn; tauto).
  match goal with H : bad_key _ _ |- _ => destruct H; unfold early; cbn; tauto end.
Qed.
Lemma root_fails_other double strict blanks ls e : root_fails double strict blanks ls e -> ~ early e.
Proof.
  destruct (fails_other double strict blanks) as (Fm & Fs & Fa & _).
  destruct 1 as [l ls e B Q F|l ls h tail e B Q H F|l e N C F|l ls e N C F|l ls m ls1 e N C M F]; eauto.
  - destruct F; try (unfold early; cbn; tauto); [match goal with H : bad_string _ _ |- _ => destruct H; unfold early; cbn; tauto end|].
    match goal with H : bad_cell _ _ _ |- _ => destruct H as (? & ? & ? & _ & _ & H); destruct H; unfold early; cbn; tauto end.
  - destruct F; unfold early; cbn; tauto.
Qed.
(** A scanned text with one line is that line among blank ones. *)
Lemma scans_one strict size n raws ls bs l : scans strict size n raws ls bs -> ls = [l] ->
  exists bl k r, raws = bl ++ (repeat cSPACE k ++ tl_text l) :: r /\ Forall blank bl /\ Forall blank r /\
    ~ blank (tl_text l) /\ (forall u, tl_text l <> cSPACE :: u).
Proof.
  induction 1 as [n|n raw raws ls bs B Sc IH|n k t d raws ls bs B N D T Sc IH]; intros E; [discriminate| |].
  - destruct (IH E) as (bl & k & r & -> & H1 & H2). exists (raw :: bl), k, r. split; [reflexivity|]. split; [now constructor|exact H2].
  - injection E as <- ->. exists [], k, raws. split; [reflexivity|]. split; [constructor|]. split; [eapply scans_no_text; eauto|]. split; assumption.
Qed.
Lemma lines_fail_other strict size a e : lines_fail parse_f64 strict size a e -> ~ of_expansion e.
Proof.
  intros [[_ F]|(ls & bs & _ & F)] O.
  - apply indent_first in F as [F _]. destruct e; contradiction.
  - apply root_fails_other in F. apply F. now right.
Qed.
