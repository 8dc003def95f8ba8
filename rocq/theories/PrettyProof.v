(** The JSON text of both writers, line by line. *)
From Coq Require Import SpecFloat.
From Verif Require Import Chars Floats Json JsonInd NumProof Scanner Parser DecValidation Decoders EventBuilder Expand DecodeApi
  Lex Spec DecProps JsonText SpecJson JsonNumProof JsonTextProof SpecPretty.

(** * Strings *)

Definition quote (w : writer) : str -> str := match w with Buffered => push_json_string | Streamed => serde_string end.
Definition char_text (w : writer) : char -> str := match w with Buffered => push_char | Streamed => serde_char end.

Lemma hex_nth d : d < 16 -> nth_error (lit "0123456789abcdef") (N.to_nat d) = Some (hex_digit d).
Proof.
  intros H. assert (C : d = 0 \/ d = 1 \/ d = 2 \/ d = 3 \/ d = 4 \/ d = 5 \/ d = 6 \/ d = 7 \/ d = 8 \/ d = 9 \/ d = 10
    \/ d = 11 \/ d = 12 \/ d = 13 \/ d = 14 \/ d = 15) by lia.
  repeat (destruct C as [->|C]; [reflexivity|]). subst d. reflexivity.
Qed.
Lemma unicode_shown w c : numbered w c -> ~ In c (map fst (named w)) -> shown_char w c (unicode_escape c).
Proof.
  intros Hc Hn. assert (Hs : c < 256) by (destruct w, Hc; lia).
  assert (E : unicode_escape c = lit "\u00" ++ [hex_digit (c / 16); hex_digit (c mod 16)]).
  { unfold unicode_escape, hex4. rewrite (N.div_small c 4096), (N.div_small c 256) by lia.
    rewrite (N.mod_small (c / 16) 16) by (apply N.div_lt_upper_bound; lia). reflexivity. }
  rewrite E. apply sc_number with (hi := N.to_nat (c / 16)) (lo := N.to_nat (c mod 16)); auto.
  - rewrite !N2Nat.id. apply N.div_mod'.
  - apply hex_nth, N.div_lt_upper_bound; lia.
  - apply hex_nth, N.mod_lt. lia.
Qed.
Lemma char_shown w c : shown_char w c (char_text w c).
Proof.
  destruct w; cbn [char_text].
  - unfold push_char.
    destruct (N.eqb_spec c cDQ) as [->|N1]; [apply sc_name; cbn; tauto|].
    destruct (N.eqb_spec c cBSLASH) as [->|N2]; [apply sc_name; cbn; tauto|].
    destruct (N.eqb_spec c cLF) as [->|N3]; [apply sc_name; cbn; tauto|].
    destruct (N.eqb_spec c cCR) as [->|N4]; [apply sc_name; cbn; tauto|].
    destruct (N.eqb_spec c cTAB) as [->|N5]; [apply sc_name; cbn; tauto|].
    assert (Hn : ~ In c (map fst (named Buffered))) by (cbn; intros [|[|[|[|[|[]]]]]]; congruence).
    destruct (is_control c) eqn:E; unfold is_control in E.
    + apply unicode_shown; [unfold numbered; lia|exact Hn].
    + apply sc_itself; [unfold numbered; lia|exact Hn].
  - unfold serde_char.
    destruct (N.eqb_spec c cDQ) as [->|N1]; [apply sc_name; cbn; tauto|].
    destruct (N.eqb_spec c cBSLASH) as [->|N2]; [apply sc_name; cbn; tauto|].
    destruct (N.eqb_spec c 8) as [->|N6]; [apply sc_name; cbn; tauto|].
    destruct (N.eqb_spec c 12) as [->|N7]; [apply sc_name; cbn; tauto|].
    destruct (N.eqb_spec c cLF) as [->|N3]; [apply sc_name; cbn; tauto|].
    destruct (N.eqb_spec c cCR) as [->|N4]; [apply sc_name; cbn; tauto|].
    destruct (N.eqb_spec c cTAB) as [->|N5]; [apply sc_name; cbn; tauto|].
    assert (Hn : ~ In c (map fst (named Streamed))) by (cbn; intros [|[|[|[|[|[|[|[]]]]]]]]; congruence).
    destruct (c <? 32) eqn:E.
    + apply unicode_shown; [unfold numbered; lia|exact Hn].
    + apply sc_itself; [unfold numbered; lia|exact Hn].
Qed.
Lemma string_shown w s : shown_string w s (quote w s).
Proof.
  assert (E : quote w s = 34 :: concat (map (char_text w) s) ++ [34]).
  { destruct w; cbn [quote char_text]; unfold push_json_string, serde_string; now rewrite flat_map_concat_map. }
  rewrite E. constructor. clear E. induction s as [|c s IH]; cbn [map]; constructor; [apply char_shown|exact IH].
Qed.

Lemma named_one w c x y : In (c, x) (named w) -> In (c, y) (named w) -> x = y.
Proof.
  destruct w; cbn; intros H1 H2;
    repeat match goal with H : _ \/ _ |- _ => destruct H as [H|H] | H : False |- _ => destruct H | H : (_, _) = (_, _) |- _ => injection H; clear H; intros end;
    subst; first [reflexivity|congruence].
Qed.
Lemma nth_16 (n : nat) (a : char) : nth_error (lit "0123456789abcdef") n = Some a -> (n < 16)%nat.
Proof. intros H. change 16%nat with (length (lit "0123456789abcdef")). apply nth_error_Some. congruence. Qed.
Lemma char_one w c a b : shown_char w c a -> shown_char w c b -> a = b.
Proof.
  intros H1 H2. inversion H1 as [? x Hx|? hi lo p q Hc Hn E Ep Eq|? Hc Hn]; subst; inversion H2 as [? y Hy|? hi' lo' p' q' Hc' Hn' E' Ep' Eq'|? Hc' Hn'];
    subst; try reflexivity; try contradiction;
    try (match goal with Hx : In (?c, ?x) (named w), Hn : ~ In ?c (map fst (named w)) |- _ => elim Hn; exact (in_map fst _ _ Hx) end).
  - now rewrite (named_one w c x y Hx Hy).
  - pose proof (nth_16 _ _ Ep). pose proof (nth_16 _ _ Eq). pose proof (nth_16 _ _ Ep'). pose proof (nth_16 _ _ Eq').
    assert (hi' = hi) by lia. assert (lo' = lo) by lia. subst hi' lo'. congruence.
Qed.
Lemma string_one w s a b : shown_string w s a -> shown_string w s b -> a = b.
Proof.
  intros [ts Ha] [us Hb]. do 3 f_equal. revert us Hb. induction Ha as [|c t s ts Hc _ IH]; intros us Hb; inversion Hb; subst; [reflexivity|].
  f_equal; [eapply char_one; eauto|auto].
Qed.
Lemma jtoken_one w st p a b : jtoken w st p a -> jtoken w st p b -> a = b.
Proof. intros H1 H2. inversion H1; subst; inversion H2; subst; try reflexivity; try congruence. eapply string_one; eauto. Qed.

(** * One list of lines *)

Lemma listed_one {A} (R : A -> list jline -> Prop) l :
  Forall (fun x => forall a b, R x a -> R x b -> a = b) l -> forall a b, listed R l a -> listed R l b -> a = b.
Proof.
  induction 1 as [|x l Hx _ IH]; intros a b Ha Hb; [inversion Ha|].
  inversion Ha as [? la Hla|? y l' i d t la Hla Hra]; subst; inversion Hb as [? lb Hlb|? y' l'' i' d' t' lb Hlb Hrb]; subst; [auto|].
  pose proof (Hx _ _ Hla Hlb) as E. apply app_inj_tail in E as [-> E]. injection E as -> ->. do 2 f_equal. auto.
Qed.
Lemma written_one w st colon v : forall a b, written w st colon v a -> written w st colon v b -> a = b.
Proof.
  induction v as [p|l IH|l IH] using json_ind'; intros a b Ha Hb.
  - inversion Ha; subst. inversion Hb; subst. do 2 f_equal. eapply jtoken_one; eauto.
  - inversion Ha as [| |? la Hla| |]; subst; inversion Hb as [| |? lb Hlb| |]; subst; try reflexivity;
      try (match goal with H : listed _ [] _ |- _ => inversion H end). now rewrite (listed_one _ _ IH la lb Hla Hlb).
  - inversion Ha as [| | | |? la Hla]; subst; inversion Hb as [| | | |? lb Hlb]; subst; try reflexivity;
      try (match goal with H : listed _ [] _ |- _ => inversion H end). rewrite (listed_one (named_lines w colon (written w st colon)) l) with (a := la) (b := lb); auto.
    eapply Forall_impl; [|exact IH]. intros [k v] Hv x y Hx Hy. cbn [snd] in Hv.
    inversion Hx; subst. inversion Hy; subst.
    match goal with H1 : written _ _ _ _ ?a, H2 : written _ _ _ _ ?b |- _ => pose proof (Hv a b H1 H2) as E end.
    injection E as -> -> ->. do 3 f_equal. eapply string_one; eauto.
Qed.

(** * The text *)

Section Text.
Variable w : writer.
Variable st : num_style.
Variable n : nat.
Notation q := (quote w).
Notation wr := (written w st (colon_for n)).

Definition flat (d : nat) (ls : list jline) : str := flat_map (fun l : jline => break n (d + fst l) ++ snd l) ls.
Lemma flat_app d a b : flat d (a ++ b) = flat d a ++ flat d b.
Proof. apply flat_map_app. Qed.
Lemma flat_inward d ls : flat d (inward ls) = flat (S d) ls.
Proof. unfold flat, inward. rewrite flat_map_concat_map, map_map, flat_map_concat_map. f_equal. apply map_ext. intros [k t]. cbn [fst snd]. now rewrite Nat.add_succ_r. Qed.

Definition framed (ls : list jline) : Prop := (exists t r, ls = (0%nat, t) :: r) /\ (exists i t, ls = i ++ [(0%nat, t)]).

Lemma listed_text {A} (R : A -> list jline -> Prop) (f : nat -> A -> str) l : l <> [] ->
  Forall (fun x => exists ls, R x ls /\ framed ls /\ forall d, flat d ls = break n d ++ f d x) l ->
  exists ls, listed R l ls /\ forall d, flat d ls = list_text (f d) (break n d) l.
Proof.
  intros Hne H. induction H as [|x l (ls & Hr & Hf & Ht) Hl IH]; [congruence|]. destruct l as [|y l].
  - exists ls. split; [now constructor|]. intros d. cbn [list_text]. unfold comma_unless. cbn [is_empty]. rewrite Ht, !app_nil_r. reflexivity.
  - destruct IH as (ls' & Hr' & Ht'); [discriminate|]. destruct Hf as (_ & i & t & ->). exists (i ++ (0%nat, t ++ lit ",") :: ls').
    split; [now constructor|]. intros d. specialize (Ht d). rewrite flat_app in Ht |- *. cbn [flat flat_map] in Ht |- *. cbn [fst snd] in *. rewrite app_nil_r in Ht.
    change (flat_map _ ls') with (flat d ls'). rewrite Ht'. cbn [list_text]. rewrite (app_assoc (break n d) (f d x)), <- Ht.
    unfold comma_unless at 2. cbn [is_empty]. rewrite <- !app_assoc. reflexivity.
Qed.

Lemma ptoken p : jtoken w st p (ptext q st p).
Proof.
  destruct p as [s|x|b|]; cbn [ptext].
  - constructor. apply string_shown.
  - destruct (number_text st x) as [t|] eqn:E; cbn [unwrap_or]; now constructor.
  - destruct b; constructor.
  - constructor.
Qed.
Lemma bracket_text d o c ls body : flat (S d) ls = body ->
  flat d ((0%nat, [o]) :: inward ls ++ [(0%nat, [c])]) = break n d ++ o :: body ++ break n d ++ [c].
Proof.
  intros <-. change ((0%nat, [o]) :: inward ls ++ [(0%nat, [c])]) with ([(0%nat, [o])] ++ inward ls ++ [(0%nat, [c])]).
  rewrite !flat_app, flat_inward. unfold flat at 1 3. cbn [flat_map fst snd]. rewrite Nat.add_0_r, !app_nil_r, <- !app_assoc. reflexivity.
Qed.
Lemma bracket_framed o c ls : framed ((0%nat, [o]) :: inward ls ++ [(0%nat, [c])]).
Proof. split; [do 2 eexists; reflexivity|]. exists ((0%nat, [o]) :: inward ls), [c]. reflexivity. Qed.

Lemma single_framed t : framed [(0%nat, t)].
Proof. split; [exists t, []; reflexivity|exists [], t; reflexivity]. Qed.

Lemma written_text v : exists ls, wr v ls /\ framed ls /\ forall d, flat d ls = break n d ++ jtext q st n d v.
Proof.
  induction v as [p|l IH|l IH] using json_ind'.
  - exists [(0%nat, ptext q st p)]. split; [constructor; apply ptoken|]. split; [apply single_framed|].
    intros d. unfold flat. cbn [flat_map fst snd jtext]. now rewrite Nat.add_0_r, app_nil_r.
  - destruct l as [|v0 l0] eqn:El.
    { exists [(0%nat, lit "[]")]. split; [constructor|]. split; [apply single_framed|].
      intros d. unfold flat. cbn [flat_map fst snd]. now rewrite Nat.add_0_r, app_nil_r. }
    rewrite <- El in *. assert (Hne : l <> []) by (rewrite El; discriminate). clear El v0 l0.
    destruct (listed_text wr (jtext q st n) l Hne IH) as (ls & Hl & Ht).
    eexists. split; [exact (wr_items _ _ _ _ _ Hl)|]. split; [apply bracket_framed|]. intros d.
    rewrite jtext_arr by exact Hne. apply bracket_text, Ht.
  - destruct l as [|v0 l0] eqn:El.
    { exists [(0%nat, lit "{}")]. split; [constructor|]. split; [apply single_framed|].
      intros d. unfold flat. cbn [flat_map fst snd]. now rewrite Nat.add_0_r, app_nil_r. }
    rewrite <- El in *. assert (Hne : l <> []) by (rewrite El; discriminate). clear El v0 l0.
    destruct (listed_text (named_lines w (colon_for n) wr) (mtext q st n) l Hne) as (ls & Hl & Ht).
    { eapply Forall_impl; [|exact IH]. intros [k v] (ls & Hr & ((t & r & ->) & i & t' & E) & Ht). cbn [snd] in *.
      exists ((0%nat, q k ++ colon_for n ++ t) :: r). split; [constructor; [apply string_shown|exact Hr]|]. split; [split; [do 2 eexists; reflexivity|]|].
      - destruct i as [|x i].
        + injection E as -> ->. exists []. eexists. reflexivity.
        + injection E as <- ->. exists ((0%nat, q k ++ colon_for n ++ t) :: i). eexists. reflexivity.
      - intros d. specialize (Ht d). cbn [flat flat_map] in Ht |- *. cbn [fst snd] in *. rewrite Nat.add_0_r in Ht |- *. rewrite <- app_assoc in Ht.
        apply app_inv_head in Ht. unfold mtext. cbn [fst snd]. rewrite <- Ht, <- !app_assoc. reflexivity. }
    eexists. split; [exact (wr_members _ _ _ _ _ Hl)|]. split; [apply bracket_framed|]. intros d.
    rewrite jtext_obj by exact Hne. apply bracket_text, Ht.
Qed.

Lemma join_flat c x l : join c (x :: l) = x ++ flat_map (cons c) l.
Proof.
  revert x. induction l as [|y l IH]; intros x; [cbn [join flat_map]; now rewrite app_nil_r|].
  change (join c (x :: y :: l)) with (x ++ c :: join c (y :: l)). rewrite IH. reflexivity.
Qed.
Lemma laid_flat ls t r : ls = (0%nat, t) :: r -> laid n ls = t ++ flat 0 r.
Proof.
  intros ->. unfold laid, flat, break. destruct n as [|m].
  - cbn [map concat snd]. f_equal. rewrite flat_map_concat_map. reflexivity.
  - change t with (indented (S m) (0%nat, t)) at 2. cbn [map]. rewrite join_flat. f_equal.
    rewrite !flat_map_concat_map, map_map. reflexivity.
Qed.
Lemma text_laid v : json_text w st n v (jtext q st n 0 v).
Proof.
  destruct (written_text v) as (ls & Hw & ((t & r & E) & _) & Ht). exists ls. split; [exact Hw|].
  rewrite (laid_flat ls t r E). specialize (Ht 0%nat). rewrite E in Ht. cbn [flat flat_map fst snd] in Ht. rewrite Nat.add_0_r, <- app_assoc in Ht.
  apply app_inv_head in Ht. now rewrite <- Ht.
Qed.
End Text.

(** * What is on a line *)

Definition clean (l : jline) : Prop := ~ In 10 (snd l) /\ exists c r, snd l = c :: r /\ c <> 32.

Lemma shown_char_clean w c t : shown_char w c t -> ~ In 10 t.
Proof.
  intros H. inversion H as [? x Hx|? hi lo a b _ _ _ Ha Hb|? Hc Hn]; subst; intros Hi.
  - destruct Hi as [Hi|[Hi|[]]]; [discriminate|]. subst x.
    destruct w; cbn in Hx; repeat (destruct Hx as [Hx|Hx]; [discriminate Hx|]); exact Hx.
  - apply in_app_or in Hi as [Hi|[Hi|[Hi|[]]]].
    + cbn in Hi. repeat (destruct Hi as [Hi|Hi]; [discriminate Hi|]). exact Hi.
    + subst a. apply nth_error_In in Ha. cbn in Ha. repeat (destruct Ha as [Ha|Ha]; [discriminate Ha|]). exact Ha.
    + subst b. apply nth_error_In in Hb. cbn in Hb. repeat (destruct Hb as [Hb|Hb]; [discriminate Hb|]). exact Hb.
  - destruct Hi as [Hi|[]]. subst c. apply Hc. left. lia.
Qed.
Lemma shown_clean w s t : shown_string w s t -> ~ In 10 t /\ exists r, t = 34 :: r.
Proof.
  intros [ts H]. split; [|eauto]. intros Hi. destruct Hi as [Hi|Hi]; [discriminate|].
  apply in_app_or in Hi as [Hi|[Hi|[]]]; [|discriminate]. apply in_concat in Hi as (t' & Ht & Hi).
  revert Hi. induction H as [|c u s ts Hc _ IH]; [destruct Ht|]. destruct Ht as [->|Ht]; [exact (shown_char_clean w c t' Hc)|auto].
Qed.
Lemma jtoken_clean w st p t : jtoken w st p t -> clean (0%nat, t).
Proof.
  intros H. inversion H as [| | |s ? Hs|x ? Hx|]; subst; unfold clean; cbn [snd].
  - split; [cbn; lia|do 2 eexists; split; [reflexivity|discriminate]].
  - split; [cbn; lia|do 2 eexists; split; [reflexivity|discriminate]].
  - split; [cbn; lia|do 2 eexists; split; [reflexivity|discriminate]].
  - destruct (shown_clean w s t Hs) as (H1 & r & ->). split; [exact H1|]. do 2 eexists. split; [reflexivity|discriminate].
  - destruct (number_text_ok _ _ _ Hx) as (s & ip & fp & ex & E0 & Hn & _).
    destruct (numeral_chars _ _ _ _ _ _ Hn) as (Hall & c & r & Et & Hc). split.
    + intros Hi. rewrite Forall_forall in Hall. specialize (Hall _ Hi). discriminate Hall.
    + exists c, r. split; [exact Et|]. intros ->. destruct Hc as [Hc|Hc]; discriminate Hc.
  - split; [cbn; lia|do 2 eexists; split; [reflexivity|discriminate]].
Qed.
Lemma listed_clean {A} (R : A -> list jline -> Prop) l ls :
  Forall (fun x => forall ls, R x ls -> Forall clean ls) l -> listed R l ls -> Forall clean ls.
Proof.
  intros H Hl. induction Hl as [x ls Hx|x y l i d t ls Hx _ IH]; [inversion H; subst; auto|].
  inversion H as [|? ? H1 H2]; subst. specialize (H1 _ Hx). apply Forall_app in H1 as [H1 H3]. inversion H3 as [|? ? (H4 & c & r & E & Hc) _]; subst.
  apply Forall_app. split; [exact H1|]. constructor; [|auto]. cbn [snd] in *. split; cbn [snd].
  - rewrite in_app_iff. intros [Hi|[Hi|[]]]; [auto|discriminate].
  - rewrite E. exists c, (r ++ lit ","). auto.
Qed.
Lemma inward_clean ls : Forall clean ls -> Forall clean (inward ls).
Proof. intros H. unfold inward. apply Forall_map. eapply Forall_impl; [|exact H]. intros [k t] Hc. exact Hc. Qed.
Lemma sign_clean c : c <> 10 -> c <> 32 -> clean (0%nat, [c]).
Proof. intros H1 H2. split; cbn [snd]; [intros [H|[]]; auto|eauto]. Qed.
Lemma written_clean w st n v : forall ls, written w st (colon_for n) v ls -> Forall clean ls.
Proof.
  induction v as [p|l IH|l IH] using json_ind'; intros ls H.
  - inversion H; subst. constructor; [eapply jtoken_clean; eauto|constructor].
  - inversion H as [| |? la Hla| |]; subst.
    + repeat constructor; cbn [snd]; [cbn; lia|do 2 eexists; split; [reflexivity|discriminate]].
    + constructor; [apply sign_clean; discriminate|]. apply Forall_app. split; [|constructor; [apply sign_clean; discriminate|constructor]].
      apply inward_clean. eapply listed_clean; eauto.
  - inversion H as [| | | |? la Hla]; subst.
    + repeat constructor; cbn [snd]; [cbn; lia|do 2 eexists; split; [reflexivity|discriminate]].
    + constructor; [apply sign_clean; discriminate|]. apply Forall_app. split; [|constructor; [apply sign_clean; discriminate|constructor]].
      apply inward_clean. eapply listed_clean; [|eauto]. eapply Forall_impl; [|exact IH]. intros [k v] Hv ls Hn. cbn [snd] in Hv.
      inversion Hn as [? ? name d t r Hs Hw]; subst. apply Hv in Hw. inversion Hw as [|? ? (H1 & _) H2]; subst. cbn [snd] in H1.
      destruct (shown_clean _ _ _ Hs) as (H3 & r' & ->). constructor; [|exact H2]. split; cbn [snd].
      * rewrite !in_app_iff. intros [Hi|[Hi|Hi]]; [exact (H3 Hi)| |exact (H1 Hi)].
        unfold colon_for in Hi. destruct n; cbn in Hi; repeat (destruct Hi as [Hi|Hi]; [discriminate Hi|]); exact Hi.
      * do 2 eexists. split; [reflexivity|discriminate].
Qed.
