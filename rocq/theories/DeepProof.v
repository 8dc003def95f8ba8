(** Reading the same lines one level deeper. *)
From Verif Require Import Chars Floats Json Shared Scanner Parser DecValidation Decoders EventBuilder Expand DecodeApi
  Lex Spec DecProps DecRel ParseProof SpecText SpecRead ReadLex ReadHead ReadLine ReadProof SpecError ErrLex ErrProof SpecCut PropsUnread CutProof SpecJoin JoinProof SpecDeep.

Local Open Scope nat_scope.

Definition dp (k j : nat) (l : tline) : tline := TLine (k + tl_no l) (tl_depth l + j) (tl_text l).

Section Deep.
Variable double : str -> option f64.
Variable strict : bool.

(** ** The same lines deeper, under other numbers *)
Section Move.
Variables (blanks old : list nat) (k j : nat).
Hypothesis Hold : Forall (fun n => n <= k) old.
Notation new := (old ++ map (Nat.add k) blanks).
Notation mv := (map (dp k j)).

Lemma gap_deep used : no_gap blanks used -> no_gap new (mv used).
Proof.
  intros G a b m z Ea Ez n Hn [H1 H2].
  destruct used as [|a0 m0]; [discriminate|]. cbn [map] in Ea. injection Ea as <- _.
  destruct (@exists_last _ (a0 :: m0)) as (z0 & b0 & E0); [discriminate|]. rewrite E0, map_app in Ez. apply app_inj_tail in Ez as [_ <-].
  apply in_app_or in Hn as [Hn|Hn].
  - rewrite Forall_forall in Hold. apply Hold in Hn. cbn in H1. lia.
  - apply in_map_iff in Hn as (n0 & <- & Hn). eapply (G a0 b0 m0 z0 eq_refl E0 n0 Hn). cbn in *. lia.
Qed.
Lemma first_gap_deep used n : first_gap blanks used n -> first_gap new (mv used) (k + n).
Proof.
  intros (a & m & z & b & E1 & E2 & before & after & Eb & H1 & H2 & H3).
  exists (dp k j a), (mv m), (mv z), (dp k j b). split; [now rewrite E1|]. split; [rewrite E2, map_app; reflexivity|].
  exists (old ++ map (Nat.add k) before), (map (Nat.add k) after). split; [rewrite Eb, map_app, <- app_assoc; reflexivity|].
  split; [cbn; lia|]. split; [cbn; lia|]. intros x Hx [X1 X2]. cbn in X1, X2. apply in_app_or in Hx as [Hx|Hx].
  - rewrite Forall_forall in Hold. apply Hold in Hx. lia.
  - apply in_map_iff in Hx as (x0 & <- & Hx). apply (H3 x0 Hx). lia.
Qed.
Lemma ends_deep (P P' : tline -> Prop) ls : (forall l, P' (dp k j l) -> P l) -> ends P ls -> ends P' (mv ls).
Proof. intros H E l r El. destruct ls as [|x ls]; [discriminate|]. injection El as <- _. intros X. apply (E x ls eq_refl). auto. Qed.
Ltac ends := eapply ends_deep; [|eassumption]; cbn [dp tl_depth tl_text]; intuition (lia || auto).
Lemma rows_deep dl fs d n ls vs rest : rows double strict dl fs d n ls vs rest -> rows double strict dl fs (d + j) n (mv ls) vs (mv rest).
Proof.
  induction 1 as [ls|n ls E|n l ls ps vs rest D P S R IH].
  - constructor.
  - apply rw_end. ends.
  - cbn [map]. constructor; cbn [dp tl_depth tl_text]; auto; lia.
Qed.
Lemma rows_deep' dl fs d n ls vs rest : rows double strict dl fs (S d) n ls vs rest -> rows double strict dl fs (S (d + j)) n (mv ls) vs (mv rest).
Proof. apply (rows_deep dl fs (S d)). Qed.
Lemma read_deep :
  (forall d t ls m rest, member double strict blanks d t ls m rest -> member double strict new (d + j) t (mv ls) m (mv rest)) /\
  (forall stop d ls ms rest, members double strict blanks stop d ls ms rest -> members double strict new stop (d + j) (mv ls) ms (mv rest)) /\
  (forall d h tail ls v rest, array double strict blanks d h tail ls v rest -> array double strict new (d + j) h tail (mv ls) v (mv rest)) /\
  (forall d n ls vs rest, items double strict blanks d n ls vs rest -> items double strict new (d + j) n (mv ls) vs (mv rest)) /\
  (forall d t ls v rest, item double strict blanks d t ls v rest -> item double strict new (d + j) t (mv ls) v (mv rest)).
Proof.
  apply read_mutind.
  - intros. eapply mb_array; eauto.
  - intros d t ls kk qq r l ls' ms rest Hp Hk Hbl -> Hd M IH. eapply mb_object; [exact Hp|exact Hk|exact Hbl|reflexivity|cbn; lia|exact IH].
  - intros d t ls kk qq r Hp Hk Hbl He. eapply mb_empty; eauto. ends.
  - intros. eapply mb_prim; eauto.
  - intros stop d ls He. constructor. ends.
  - intros stop d l ls m ls1 ms rest D N M IH1 _ IH2. cbn [map]. eapply ms_more; eauto; cbn; lia.
  - intros. eapply ar_inline; eauto.
  - intros d h tail ls fs vs used rest Hbl Hf Hn R E Hs.
    eapply (ar_table _ _ _ _ _ _ _ fs vs (mv used)); eauto using rows_deep'; [rewrite E; apply map_app|].
    intros S. destruct (Hs S) as (A & B & C). split; [exact A|]. split; [now apply gap_deep|]. ends.
  - intros d h tail ls vs used rest Hbl Hf _ IH E Hs.
    eapply (ar_list _ _ _ _ _ _ _ vs (mv used)); eauto; [rewrite E; apply map_app|].
    intros S. destruct (Hs S) as (A & B & C). split; [exact A|]. split; [now apply gap_deep|]. ends.
  - intros. constructor.
  - intros d n ls He. constructor. ends.
  - intros d n l ls v ls1 vs rest D M IH1 _ IH2. cbn [map]. eapply is_more; eauto; cbn; lia.
  - intros. constructor.
  - intros. now constructor.
  - intros. eapply im_array; eauto.
  - intros. eapply im_object; eauto.
  - intros. now apply im_prim.
Qed.

Lemma bad_string_stays t e : bad_string t e -> moved k e = e. Proof. destruct 1; reflexivity. Qed.
Lemma bad_cell_stays dl s e : bad_cell dl s e -> moved k e = e.
Proof. intros (b & t & a & _ & _ & H). eapply bad_string_stays; eauto. Qed.
Lemma bad_header_stays t e : bad_header t e -> moved k e = e.
Proof. destruct 1; eauto using bad_string_stays, bad_cell_stays. Qed.
Lemma bad_key_stays t e : bad_key t e -> moved k e = e. Proof. destruct 1; reflexivity. Qed.
Lemma row_fails_deep dl fs d n ls e : row_fails double strict dl fs d n ls e -> row_fails double strict dl fs (d + j) n (mv ls) (moved k e).
Proof.
  induction 1; cbn [map].
  - cbn [moved]. apply rf_width; cbn; auto; lia.
  - erewrite bad_cell_stays by eauto. eapply rf_cell; eauto; cbn; lia.
  - eapply rf_later; eauto; cbn; lia.
Qed.
Lemma row_fails_deep' dl fs d n ls e : row_fails double strict dl fs (S d) n ls e -> row_fails double strict dl fs (S (d + j)) n (mv ls) (moved k e).
Proof. apply (row_fails_deep dl fs (S d)). Qed.
Lemma fail_deep :
  (forall d t ls e, member_fails double strict blanks d t ls e -> member_fails double strict new (d + j) t (mv ls) (moved k e)) /\
  (forall stop d ls e, members_fail double strict blanks stop d ls e -> members_fail double strict new stop (d + j) (mv ls) (moved k e)) /\
  (forall d h tail ls e, array_fails double strict blanks d h tail ls e -> array_fails double strict new (d + j) h tail (mv ls) (moved k e)) /\
  (forall d n ls e, items_fail double strict blanks d n ls e -> items_fail double strict new (d + j) n (mv ls) (moved k e)) /\
  (forall d t ls e, item_fails double strict blanks d t ls e -> item_fails double strict new (d + j) t (mv ls) (moved k e)).
Proof.
  destruct read_deep as (Mm & Ms & Ma & Mi0 & Mt).
  assert (Mi : forall d n ls vs rest, items double strict blanks (S d) n ls vs rest -> items double strict new (S (d + j)) n (mv ls) vs (mv rest))
    by (intros d; apply (Mi0 (S d))).
  apply fail_mutind.
  - intros d t ls e H. rewrite (bad_header_stays _ _ H). now apply mf_header.
  - intros. eapply mf_array; eauto.
  - intros d t ls e Hp H. rewrite (bad_key_stays _ _ H). now apply mf_key.
  - intros d t ls kk qq r e Hp Hk H. rewrite (bad_string_stays _ _ H). eapply mf_value; eauto.
  - intros d t ls kk qq r l ls' e Hp Hk Hb -> Hd _ IH. eapply mf_object; [exact Hp|exact Hk|exact Hb|reflexivity|cbn; lia|exact IH].
  - intros. cbn [map]. apply msf_here; auto; cbn; lia.
  - intros. cbn [map]. eapply msf_later; eauto; cbn; lia.
  - intros d h tail ls t e Ht Hn H. rewrite (bad_cell_stays _ _ _ H). eapply af_cell; eauto.
  - intros. cbn [moved]. eapply af_count; eauto.
  - intros. eapply af_row; eauto using row_fails_deep'.
  - intros. cbn [moved]. eapply af_rows_count; eauto using rows_deep'.
  - intros d h tail ls fs vs used rest n S Hb Hf Hn R L -> G. cbn [moved]. eapply (af_rows_gap _ _ _ _ _ _ _ fs vs (mv used)); eauto using rows_deep', first_gap_deep. apply map_app.
  - intros d h tail ls fs vs used l rest S Hb Hf Hn R L -> G D Hy Hd. cbn [moved]. apply rows_deep' in R.
    eapply (af_rows_extra _ _ _ _ _ _ _ fs vs (mv used) (dp k j l)); eauto using gap_deep; [apply map_app|cbn; lia].
  - intros. eapply af_item; eauto.
  - intros. cbn [moved]. eapply af_items_count; eauto.
  - intros d h tail ls vs used rest n S Hb Hf R L -> G. cbn [moved]. eapply (af_items_gap _ _ _ _ _ _ _ vs (mv used)); eauto using first_gap_deep. apply map_app.
  - intros d h tail ls vs used l rest S Hb Hf R L -> G D Hy. cbn [moved]. apply Mi in R.
    eapply (af_items_extra _ _ _ _ _ _ _ vs (mv used) (dp k j l)); eauto using gap_deep; [apply map_app|cbn; lia].
  - intros. cbn [map]. apply if_here; auto; cbn; lia.
  - intros. cbn [map]. eapply if_later; eauto; cbn; lia.
  - intros d t ls e Hb H. rewrite (bad_header_stays _ _ H). now apply itf_header.
  - intros. eapply itf_array; eauto.
  - intros. eapply itf_member; eauto.
  - intros d t ls m ls1 e Hb Hu Hh M _ IH. eapply itf_later; [exact Hb|exact Hu|exact Hh|exact (Mm (S d) _ _ _ _ M)|exact IH].
  - intros d t ls e Hu Hh H. rewrite (bad_string_stays _ _ H). eapply itf_prim; eauto.
Qed.
End Move.
End Deep.

(** ** Lines *)
Lemma blank_spaces n s : blank (repeat cSPACE n ++ s) <-> blank s.
Proof.
  unfold blank. rewrite Forall_app. split; [tauto|]. intros H. split; [|exact H]. apply Forall_forall. intros c Hc.
  apply repeat_spec in Hc as ->. reflexivity.
Qed.
Lemma depth_deeper strict size k d : size <> 0 -> depth_of strict size k d -> depth_of strict size (size + k) (d + 1).
Proof.
  intros Hz (D1 & D2 & D3). split; [tauto|]. destruct (D2 Hz). split; [intros _; split; nia|]. intros S. rewrite (D3 S). nia.
Qed.
Lemma scans_deeper strict size n raws ls bs : size <> 0 -> scans strict size n raws ls bs ->
  scans strict size (1 + n) (deeper size raws) (map (dp 1 1) ls) (map (Nat.add 1) bs).
Proof.
  intros Hz. induction 1 as [n|n raw raws ls bs B Sc IH|n k t d raws ls bs B N D T Sc IH]; cbn [deeper map].
  - constructor.
  - apply sc_blank; [apply blank_spaces; assumption|exact IH].
  - rewrite app_assoc, <- repeat_app. unfold dp at 1. cbn [tl_no tl_depth tl_text]. apply sc_line; auto. now apply depth_deeper.
Qed.
Lemma indent_deeper size n raws e : size <> 0 -> indent_fails size n raws e ->
  indent_fails size (1 + n) (deeper size raws) (deeper_error size e).
Proof.
  intros Hz. induction 1 as [n raw raws e B _ IH|n k t d raws e B N D T _ IH|n k t raws B|n k t raws B N T Z K|n k t raws B N T Z K];
    cbn [deeper map]; try (rewrite app_assoc, <- repeat_app).
  - apply inf_blank; [apply blank_spaces; assumption|exact IH].
  - apply inf_line with (d := d + 1); auto using depth_deeper.
  - now apply inf_tab.
  - contradiction.
  - cbn [deeper_error]. apply inf_multiple; auto. intros m E. destruct m as [|m]; [lia|]. apply (K m). lia.
Qed.
Lemma deeper_other size e : match e with EIndentMultiple _ _ _ => False | _ => True end -> deeper_error size e = moved 1 e.
Proof. now destruct e. Qed.

(** Only the scanner speaks of indentation. *)
Definition no_multiple (e : err) : Prop := match e with EIndentMultiple _ _ _ => False | _ => True end.
Lemma bad_string_no t e : bad_string t e -> no_multiple e. Proof. destruct 1; exact I. Qed.
Lemma bad_cell_no dl s e : bad_cell dl s e -> no_multiple e.
Proof. intros (b & t & a & _ & _ & H). eapply bad_string_no; eauto. Qed.
Lemma bad_header_no t e : bad_header t e -> no_multiple e.
Proof. destruct 1; try exact I; eauto using bad_string_no, bad_cell_no. Qed.
Lemma bad_key_no t e : bad_key t e -> no_multiple e. Proof. destruct 1; exact I. Qed.
Lemma row_fails_no double strict dl fs d n ls e : row_fails double strict dl fs d n ls e -> no_multiple e.
Proof. induction 1; auto; try exact I. eapply bad_cell_no; eauto. Qed.
Lemma fail_no double strict blanks :
  (forall d t ls e, member_fails double strict blanks d t ls e -> no_multiple e) /\
  (forall stop d ls e, members_fail double strict blanks stop d ls e -> no_multiple e) /\
  (forall d h tail ls e, array_fails double strict blanks d h tail ls e -> no_multiple e) /\
  (forall d n ls e, items_fail double strict blanks d n ls e -> no_multiple e) /\
  (forall d t ls e, item_fails double strict blanks d t ls e -> no_multiple e).
Proof.
  apply fail_mutind; intros; try assumption; try exact I; eauto using bad_string_no, bad_cell_no, bad_header_no, bad_key_no, row_fails_no.
Qed.

(** ** Texts *)
Section Texts.
Variable d : option decode_options.
Notation strict := (rd_strict (resolve_decode_options d)).
Notation size := (rd_indent (resolve_decode_options d)).
Hypothesis He : rd_expand (resolve_decode_options d) = EPOff.
Hypothesis Hz : size <> 0.

Lemma opens_blank t k : opens t k -> ~ blank t.
Proof.
  intros ((q & r & _ & K & _) & _) B. unfold blank in B. rewrite Forall_forall in B.
  assert (I : In cCOLON t) by (destruct K as [b k' r' -> _|u k' r' _ [-> _] _]; cbn [In]; repeat (rewrite in_app_iff; cbn [In]); tauto).
  apply B in I. discriminate.
Qed.
Lemma opens_colon t k : opens t k -> has_colon t.
Proof.
  intros ((q & r & _ & K & _) & _). destruct K as [b k' r' -> U|u k' r' N [-> _] _].
  - left. exists b, (cCOLON :: r'). split; [reflexivity|]. split; [eapply unescapes_body; eauto|now left].
  - right. split; [exact N|]. rewrite in_app_iff. cbn. tauto.
Qed.
Lemma opens_scans t k raws ls bs : opens t k -> scans strict size 1 raws ls bs ->
  scans strict size 1 (t :: deeper size raws) (TLine 1 0 t :: map (dp 1 1) ls) (map (Nat.add 1) bs).
Proof.
  intros O Sc. pose proof (opens_blank _ _ O) as B. destruct O as (_ & _ & N1 & N2).
  apply (sc_line strict size 1 0 t 0); auto; [|apply scans_deeper; auto]. repeat split; intros; lia.
Qed.
Lemma deep_ends ls : ends (fun l => tl_depth l = 0 /\ ~ (false = true /\ hyphen (tl_text l))) (map (dp 1 1) ls).
Proof. intros l r E [D _]. destruct ls; [discriminate|]. injection E as <- _. cbn in D. lia. Qed.

Section Under.
Variables (b : list str) (ls : list tline) (bs : list nat).
Hypothesis Sb : scans strict size 1 b ls bs.
Hypothesis Ub : starts_unindented b.

Lemma root_under t k ms rest : opens t k -> members parse_f64 strict bs false 0 ls ms rest ->
  exists q r, key_line t k q r /\
    root parse_f64 strict (map (Nat.add 1) bs) (TLine 1 0 t :: map (dp 1 1) ls) (TObj [(k, q, TObj ms)]).
Proof.
  intros O M. pose proof (opens_colon _ _ O) as C.
  destruct O as ((q & r & P & K & B) & N & _). exists q, r. split; [exact K|].
  destruct (read_deep parse_f64 strict bs [] 1 1 (Forall_nil _)) as (_ & Ms & _). apply Ms in M. cbn [app Nat.add] in M.
  pose proof (scans_depth _ _ _ _ _ _ Sb Ub) as D. destruct ls as [|l0 ls0].
  - assert (ms = []) by (inversion M; auto). subst. eapply ro_object with (ls1 := []) (rest := []).
    + left. intros [X _]. contradiction.
    + now right.
    + eapply mb_empty; eauto. intros ? ? [=].
    + apply ms_end. intros ? ? [=].
  - eapply ro_object.
    + left. intros [X _]. contradiction.
    + now right.
    + eapply mb_object; eauto; [reflexivity| |]; cbn [dp tl_depth]; rewrite (D l0 ls0 eq_refl); [cbn; lia|exact M].
    + apply ms_end. apply deep_ends.
Qed.
Lemma members_under t k ms rest : opens t k -> members parse_f64 strict bs false 0 ls ms rest ->
  try_decode_from_lines (t :: deeper size b) d = Ok (JObj [(k, JObj (map mj ms))]).
Proof.
  intros O M. destruct (root_under _ _ _ _ O M) as (q & r & _ & R).
  now rewrite (lines_ok _ _ _ _ _ He (opens_scans _ _ _ _ _ O Sb) R).
Qed.
Lemma failure_under t k e : opens t k -> members_fail parse_f64 strict bs false 0 ls e ->
  try_decode_from_lines (t :: deeper size b) d = Err (deeper_error size e).
Proof.
  intros O M. pose proof (opens_colon _ _ O) as C. pose proof (opens_scans _ _ _ _ _ O Sb) as Sc.
  destruct O as ((q & r & P & K & B) & N & _).
  rewrite deeper_other by exact (proj1 (proj2 (fail_no _ _ _)) _ _ _ _ M).
  destruct (fail_deep parse_f64 strict bs [] 1 1 (Forall_nil _)) as (_ & Ms & _). apply Ms in M. cbn [app Nat.add] in M.
  apply (lines_err _ _ _ _ _ Sc). pose proof (scans_depth _ _ _ _ _ _ Sb Ub) as D.
  destruct ls as [|l0 ls0]; [inversion M|].
  eapply rtf_here; [left; intros [X _]; contradiction|now right|].
  eapply mf_object; eauto; [reflexivity| |]; cbn [dp tl_depth]; rewrite (D l0 ls0 eq_refl); [cbn; lia|exact M].
Qed.
End Under.
Lemma indent_under t k b e : opens t k -> strict = true -> indent_fails size 1 b e ->
  try_decode_from_lines (t :: deeper size b) d = Err (deeper_error size e).
Proof.
  intros O S F. apply lines_indent; [exact S|]. pose proof (opens_blank _ _ O) as B. destruct O as (_ & _ & N1 & N2).
  apply (inf_line size 1 0 t 0); auto; [repeat split; intros; lia|]. apply (indent_deeper size 1); auto.
Qed.
End Texts.
