(** Errors in tokens, keys and headers: exactly those of SpecError.v. *)
From Verif Require Import Chars Floats Json Shared Scanner Parser DecValidation Decoders Lex NumProof PrimProof Spec DecNums
  ParseProof DecRel DecCost DecProps DecRelax SpecText TextProof SpecRead SpecError ReadLex ReadHead ReadLine.

Local Open Scope nat_scope.

(** * Tokens *)

Lemma bad_escape_not b x : bad_escape b x -> forall s, ~ unescapes b s.
Proof.
  intros (a & s0 & r & -> & Hu & Hn). induction Hu as [|c t s1 H1 H2 _ IH|c e t s1 Hi _ IH]; intros s H; cbn [app] in H.
  - inversion H; subst; [congruence|]. eapply Hn; eauto.
  - inversion H; subst; [|congruence]. eapply IH; eauto.
  - inversion H; subst; [congruence|]. eapply IH; eauto.
Qed.
Lemma unescape_err b : quote_body b -> forall e, unescape_string b = Err e <-> exists x, e = EInvalidEscape (Some x) /\ bad_escape b x.
Proof.
  assert (Hnil : forall x, ~ bad_escape [] x) by (intros x (a & s & r & E & _); destruct a; discriminate).
  induction 1 as [|c b Hc Hb Hq IH|c b Hq IH]; intros e; cbn [unescape_string].
  - split; [discriminate|]. intros (x & _ & H). now destruct (Hnil x).
  - apply N.eqb_neq in Hb as Hb'. rewrite Hb'. split.
    + destruct (unescape_string b) as [t|e'] eqn:E; [discriminate|]. cbn [bind]. intros H. injection H as ->.
      destruct (proj1 (IH e) eq_refl) as (x & -> & a & s & r & -> & Hu & Hn). exists x. split; auto.
      exists (c :: a), (c :: s), r. split; auto. split; auto. now constructor.
    + intros (x & -> & a & s & r & E & Hu & Hn). destruct Hu as [|c' t s1 H1 H2 Hu|c' e t s1 Hi Hu]; cbn [app] in E; try (injection E as E _; congruence).
      injection E as -> E. assert (X : unescape_string b = Err (EInvalidEscape (Some x))); [|now rewrite X].
      apply IH. exists x. split; auto. exists t, s1, r. auto.
  - change (cBSLASH =? cBSLASH)%N with true. cbv iota. split.
    + intros H. destruct (if (c =? cLN)%N then _ else _) as [out|e'] eqn:E1 in H; cbn [bind] in H.
      * destruct (unescape_string b) as [t|e'] eqn:E; [discriminate|]. cbn [bind] in H. injection H as ->.
        destruct (proj1 (IH e) eq_refl) as (x & -> & a & s & r & -> & Hu & Hn). apply escape_pairs in E1. exists x. split; auto.
        exists (cBSLASH :: c :: a), (out :: s), r. split; auto. split; auto. now constructor.
      * assert (E2 : e = EInvalidEscape (Some c)).
        { clear - H E1. repeat match type of E1 with (if ?x then _ else _) = _ => destruct x; [discriminate|] end. injection E1 as <-. now injection H as <-. }
        exists c. split; auto. exists [], [], b. split; auto. split; [constructor|]. intros d Hd. apply escape_pairs in Hd. congruence.
    + intros (x & -> & a & s & r & E & Hu & Hn). destruct Hu as [|c' t s1 H1 H2 Hu|c' e t s1 Hi Hu]; cbn [app] in E; try (injection E as E _; congruence).
      * injection E as -> ->. pose proof (fun d => proj2 (escape_pairs d x)) as Hd.
        destruct (if (x =? cLN)%N then _ else _) as [out|e'] eqn:E1.
        -- exfalso. eapply Hn. apply escape_pairs. exact E1.
        -- cbn [bind]. clear - E1. repeat match type of E1 with (if ?x then _ else _) = _ => destruct x; [discriminate|] end. injection E1 as <-. reflexivity.
      * injection E as -> ->. apply escape_pairs in Hi. rewrite Hi. cbn [bind].
        assert (X : unescape_string (t ++ cBSLASH :: x :: r) = Err (EInvalidEscape (Some x))); [|now rewrite X].
        apply IH. exists x. split; auto. exists t, s1, r. auto.
Qed.

Lemma open_quote_spec r : find_closing_quote (cDQ :: r) 0 = None <-> open_quote r.
Proof.
  split.
  - intros H b r' Hb ->. rewrite (proj2 (closing_spec _ (S (length b)))) in H; [discriminate|eauto].
  - intros H. destruct (find_closing_quote (cDQ :: r) 0) as [k|] eqn:E; auto. apply closing_spec in E as (b & r' & -> & Hb & _). now destruct (H b r').
Qed.
Lemma literal_err t e : parse_string_literal t = Err e <-> bad_string t e.
Proof.
  unfold parse_string_literal. pose proof (trims_trim t) as Hu. assert (F : forall v, trims t v -> v = trim t) by (intros v H; now apply trims_spec).
  set (u := trim t) in *. clearbody u. destruct (starts_with cDQ u) eqn:Es.
  - apply starts_with_true in Es as (r & ->). destruct (find_closing_quote (cDQ :: r) 0) as [k|] eqn:Ek.
    + apply closing_spec in Ek as (b & r' & -> & Hq & ->). cbn [length]. rewrite app_length. cbn [length].
      assert (Hsl : slice 1 (S (length b)) (cDQ :: b ++ cDQ :: r') = b).
      { unfold slice. cbn [skipn]. apply firstn_app_exact. lia. }
      rewrite Hsl. destruct (Nat.eqb_spec (S (length b)) (S (length b + S (length r')) - 1)) as [E|E]; cbn [negb].
      * destruct r'; [|cbn in E; lia]. rewrite unescape_err by auto. split.
        -- intros (x & -> & Hx). now apply (bs_escape _ b).
        -- destruct 1 as [r Hr Ho|b' r Hr Hb Hn|b' x Hr Hb Hx]; apply F in Hr; injection Hr as Hr.
           ++ exfalso. apply (Ho b []); auto.
           ++ exfalso. apply quote_body_fun in Hr as [_ ->]; auto.
           ++ apply quote_body_fun in Hr as [-> _]; auto. eauto.
      * assert (Hr' : r' <> []) by (intros ->; cbn in E; lia). split.
        -- intros [= <-]. now apply (bs_after _ b r').
        -- destruct 1 as [r Hr Ho|b' r Hr Hb Hn|b' x Hr Hb Hx]; apply F in Hr; injection Hr as Hr; auto.
           ++ exfalso. apply (Ho b r'); auto.
           ++ exfalso. apply quote_body_fun in Hr as [_ Hr]; auto.
    + apply open_quote_spec in Ek. split.
      * intros [= <-]. now apply (bs_open _ r).
      * destruct 1 as [r0 Hr Ho|b' r0 Hr Hb Hn|b' x Hr Hb Hx]; apply F in Hr; injection Hr as Hr; auto; exfalso; eapply Ek; eauto.
  - pose proof (proj1 (starts_with_not _ _) Es) as Hn. split; [discriminate|]. destruct 1 as [r0 Hr Ho|b' r0 Hr Hb Hx|b' x Hr Hb Hx]; apply F in Hr; now destruct (Hn _ (eq_sym Hr)).
Qed.
Lemma bad_string_begins t e : bad_string t e -> exists r, trim t = cDQ :: r.
Proof. destruct 1 as [r0 Hr Ho|b' r0 Hr Hb Hx|b' x Hr Hb Hx]; apply trims_spec in Hr; eauto. Qed.
Lemma literal_trim t : parse_string_literal (trim t) = parse_string_literal t.
Proof. unfold parse_string_literal. now rewrite trim_idem. Qed.
Lemma prim_err t e : parse_primitive_token t = Err e <-> bad_string t e.
Proof.
  unfold parse_primitive_token. destruct (is_empty (trim t)) eqn:Ee.
  { apply is_empty_true in Ee. split; [discriminate|]. intros H. apply bad_string_begins in H as (r & H). congruence. }
  destruct (starts_with cDQ (trim t)) eqn:Es.
  - rewrite literal_trim, <- literal_err. destruct (parse_string_literal t); cbn [bind]; split; congruence.
  - pose proof (proj1 (starts_with_not _ _) Es) as Hn. split.
    + destruct (is_boolean_or_null_literal _); [discriminate|]. destruct (is_numeric_literal _); discriminate.
    + intros H. apply bad_string_begins in H as (r & H). now destruct (Hn r).
Qed.
Lemma prim_err_trim r e : parse_primitive_token (trim r) = Err e <-> bad_string r e.
Proof.
  rewrite <- prim_err. unfold parse_primitive_token. now rewrite trim_idem.
Qed.
Lemma string_verdict t : (exists s, parse_string_literal t = Ok s) \/ exists e, bad_string t e.
Proof. destruct (parse_string_literal t) as [s|e] eqn:E; [eauto|]. right. exists e. now apply literal_err. Qed.

Lemma map_result_err {A B} (f : A -> result B) (R : A -> err -> Prop) : (forall a e, f a = Err e <-> R a e) ->
  forall l e, map_result f l = Err e <-> exists before t after, l = before ++ t :: after /\ (forall u x, In u before -> ~ R u x) /\ R t e.
Proof.
  intros H. induction l as [|a l IH]; intros e; cbn [map_result].
  - split; [discriminate|]. intros (b & t & r & E & _). destruct b; discriminate.
  - destruct (f a) as [y|e'] eqn:Ea; cbn [bind].
    + split.
      * destruct (map_result f l) as [ys|e'] eqn:El; [discriminate|]. cbn [bind]. intros [= ->].
        destruct (proj1 (IH e) eq_refl) as (b & t & r & -> & Hb & Ht). exists (a :: b), t, r. split; auto. split; auto.
        intros u x [<-|Hu]; [|now apply Hb]. intros Hx. apply H in Hx. congruence.
      * intros (b & t & r & E & Hb & Ht). destruct b as [|a' b].
        -- injection E as <- <-. apply H in Ht. congruence.
        -- injection E as <- ->. assert (X : map_result f (b ++ t :: r) = Err e); [|now rewrite X].
           apply IH. exists b, t, r. split; auto. split; auto. intros u x Hu. apply Hb. now right.
    + split.
      * intros [= <-]. exists [], a, l. split; auto. split; [intros u x []|]. now apply H.
      * intros (b & t & r & E & Hb & Ht). destruct b as [|a' b].
        -- injection E as <- <-. apply H in Ht. congruence.
        -- injection E as <- ->. exfalso. apply (Hb a e'); [now left|]. now apply H.
Qed.
Lemma row_err dl s e : plain_delim dl -> (map_row_values_to_primitives (parse_delimited_values s dl) = Err e <-> bad_cell dl s e).
Proof.
  intros [H1 H2]. unfold map_row_values_to_primitives, bad_cell. rewrite (map_result_err _ _ prim_err). split.
  - intros (b & t & r & E & H). exists b, t, r. split; auto. now apply cells_spec.
  - intros (b & t & r & E & H). exists b, t, r. split; auto. now apply cells_spec in E.
Qed.
Lemma fields_err dl s e : plain_delim dl -> (parse_fields s dl = Err e <-> bad_cell dl s e).
Proof.
  intros [H1 H2]. unfold parse_fields, bad_cell.
  rewrite (map_result_err _ bad_string).
  2: { intros a x. cbv zeta. rewrite literal_trim, <- literal_err. destruct (parse_string_literal a); cbn [bind]; split; congruence. }
  split.
  - intros (b & t & r & E & H). exists b, t, r. split; auto. now apply cells_spec.
  - intros (b & t & r & E & H). exists b, t, r. split; auto. now apply cells_spec in E.
Qed.

(** * Headers *)

Lemma closed_open s w r : closed s -> s = w ++ cDQ :: r -> blank w -> ~ open_quote r.
Proof. intros H E Hw Ho. destruct (H w r E Hw) as (b & r' & -> & Hb). now apply (Ho b r'). Qed.
Lemma frame_closed s k len f t : frame s k len f t -> closed s.
Proof.
  intros (r & a & Hh & _) w r' E Hw. destruct Hh as [k0 r0 H1 _|w' b r0 E' Hw' Hq].
  - destruct H1. exists w, r'. auto.
  - rewrite E in E'. apply blank_quote in E' as [<- ->]; auto. exists b, (cLBRACK :: r0). auto.
Qed.
Lemma header_key_err k rest e : header_key (k ++ rest) (length k) = Err e <-> bad_string k e.
Proof.
  assert (Hpos : forall A (x y : A), (k = [] -> x = y) -> (if Nat.ltb 0 (length k) then x else y) = x).
  { intros A x y H. destruct k; [cbn; symmetry; auto|reflexivity]. }
  unfold header_key. rewrite firstn_app_exact by reflexivity. rewrite Hpos; [|intros ->; reflexivity].
  destruct (starts_with cDQ (trim k)) eqn:Es.
  - rewrite literal_trim, <- literal_err. destruct (parse_string_literal k); cbn [bind]; split; congruence.
  - pose proof (proj1 (starts_with_not _ _) Es) as Hn. split.
    + destruct (negb _); discriminate.
    + intros H. apply bad_string_begins in H as (r & H). now destruct (Hn r).
Qed.
Lemma frame_key_bad k key e : frame_key k key -> ~ bad_string k e.
Proof.
  intros H Hb. apply (header_key_err k []) in Hb.
  assert (X : header_key (k ++ []) (length k) = Ok (option_map fst key, key_flag key)) by (apply frame_key_spec; eauto). congruence.
Qed.

Lemma header_err_sound s e : parse_array_header_line s DEFAULT_DELIMITER = Err e -> bad_header s e.
Proof.
  unfold parse_array_header_line. pose proof (bracket_spec s) as Hb.
  destruct (bracket_start_of s) as [[i|]|e'] eqn:Ebs; cbn [bind].
  2: discriminate.
  2: { intros [= ->]. unfold bracket_start_of in Ebs. destruct (starts_with cDQ (trim_start s)) eqn:Es; [|discriminate].
       destruct (trim_start_spec s) as (w & E & Hw & _). apply starts_with_true in Es as (r & Er). rewrite Er in *.
       destruct (find_closing_quote (cDQ :: r) 0) as [c|] eqn:Ec; [destruct (negb _); discriminate|]. injection Ebs as <-.
       apply (bh_open _ w r); auto. now apply open_quote_spec. }
  destruct Hb as (Hc & k & r & Hh & ->). pose proof (head_length _ _ _ Hh) as Es.
  assert (Ef : find_from cRBRACK (length k) s = option_map (fun j => S (length k + j)) (find_char cRBRACK r)).
  { rewrite Es, find_from_at. cbn [find_char]. change (cLBRACK =? cRBRACK)%N with false. cbv iota.
    destruct (find_char cRBRACK r); cbn; [f_equal; lia|reflexivity]. }
  rewrite Ef. destruct (cut_cases cRBRACK r) as [Nr|(len & after & Hcut)].
  { apply find_char_None in Nr as Fr. rewrite Fr. discriminate. }
  rewrite (cut_find _ _ _ _ Hcut). cbn [option_map].
  assert (Es2 : s = (k ++ cLBRACK :: len ++ [cRBRACK]) ++ after).
  { rewrite Es. destruct Hcut as [-> _]. rewrite <- !app_assoc. cbn [app]. now rewrite <- app_assoc. }
  assert (L : S (S (length k + length len)) = length (k ++ cLBRACK :: len ++ [cRBRACK])).
  { rewrite app_length. cbn [length]. rewrite app_length. cbn. lia. }
  pose proof (fun dl => colon_spec (k ++ cLBRACK :: len ++ [cRBRACK]) after (S (length k + length len)) dl L) as Hcol.
  rewrite <- Es2 in Hcol. destruct (header_colon s (S (length k + length len))) as [ci|]; [|discriminate].
  destruct (Hcol DEFAULT_DELIMITER) as (f & t & Htp & Et & _).
  assert (Hfr : frame s k len f t) by (exists r, after; auto).
  assert (Hff : forall dl, header_fields s (S (length k + length len)) ci dl =
     match f with Some f => let? fs := parse_fields f dl in Ok (Some fs) | None => Ok None end).
  { intros dl. destruct (Hcol dl) as (f' & t' & Htp' & _ & E). destruct (tail_parts_fun _ _ _ _ _ Htp Htp') as [<- _]. exact E. }
  assert (Eslice : slice (S (length k)) (S (length k + length len)) s = len).
  { replace s with ((k ++ [cLBRACK]) ++ len ++ cRBRACK :: after) by (rewrite Es2, <- !app_assoc; cbn [app]; now rewrite <- app_assoc).
    replace (S (length k)) with (length (k ++ [cLBRACK])) by (rewrite app_length; cbn; lia).
    replace (S (length k + length len)) with (length (k ++ [cLBRACK]) + length len) by (rewrite app_length; cbn; lia). apply slice_at. }
  rewrite Eslice. pose proof (frame_key_spec k (cLBRACK :: r)) as Hk. pose proof (header_key_err k (cLBRACK :: r)) as Hke. rewrite <- Es in Hk, Hke.
  destruct (header_key s (length k)) as [[o q]|e'] eqn:Ek; cbn [bind].
  2: { intros [= ->]. eapply bh_key; [exact Hfr|]. now apply Hke. }
  destruct (proj1 (Hk o q) eq_refl) as (key & Hkey & -> & ->).
  destruct (parse_bracket_segment len DEFAULT_DELIMITER) as [[n dl]|e'] eqn:El; [|discriminate].
  apply frame_length_spec in El. destruct (N.ltb_spec MAX_DECLARED_ARRAY_LENGTH n) as [Hbig|Hsmall].
  { intros [= <-]. eapply bh_length; eauto. }
  rewrite Hff. pose proof (frame_length_delim _ _ _ El) as Hpd. destruct f as [f|].
  - destruct (parse_fields f dl) as [fs|e'] eqn:Epf; cbn [bind]; [discriminate|]. intros [= ->].
    eapply bh_field; eauto. now apply fields_err.
  - discriminate.
Qed.
Lemma bad_header_not s e : bad_header s e -> ~ no_header s /\ forall h t, ~ is_header s h t.
Proof.
  destruct 1 as [w r E Hw Ho|k len f t e Hf Hk|k len f t key n dl Hf Hk Hl Hn|k len f t key n dl e Hf Hk Hl Hn Hb].
  - split.
    + intros [Hc _]. exact (closed_open _ _ _ Hc E Hw Ho).
    + intros h t [k l f t1 key n dl fs Hf _ _ _ _]. exact (closed_open _ _ _ (frame_closed _ _ _ _ _ Hf) E Hw Ho).
  - split.
    + intros [_ Hn]. destruct (Hn _ _ _ _ Hf) as [(key & Hkey) _]. exact (frame_key_bad _ _ _ Hkey Hk).
    + intros h t' [k' l' f' t1 key n dl fs Hf' Hkey _ _ _]. destruct (frame_fun _ _ _ _ _ _ _ _ _ Hf Hf') as (<- & _). exact (frame_key_bad _ _ _ Hkey Hk).
  - split.
    + intros [_ Hnn]. destruct (Hnn _ _ _ _ Hf) as [_ X]. exact (X _ _ Hl).
    + intros h t' [k' l' f' t1 key' n' dl' fs Hf' Hkey Hl' Hn' _]. destruct (frame_fun _ _ _ _ _ _ _ _ _ Hf Hf') as (<- & <- & _).
      apply frame_length_spec in Hl, Hl'. rewrite Hl in Hl'. injection Hl' as <- <-. lia.
  - split.
    + intros [_ Hnn]. destruct (Hnn _ _ _ _ Hf) as [_ X]. exact (X _ _ Hl).
    + intros h t' [k' l' f' t1 key' n' dl' fs Hf' Hkey Hl' Hn' Hm]. destruct (frame_fun _ _ _ _ _ _ _ _ _ Hf Hf') as (<- & <- & <- & <-).
      pose proof (frame_length_delim _ _ _ Hl) as Hpd.
      apply frame_length_spec in Hl, Hl'. rewrite Hl in Hl'. injection Hl' as <- <-. destruct fs as [l|]; [|exact Hm].
      destruct Hm as (ts & Hc & HF). assert (X : parse_fields f dl = Ok (map to_field l)) by (apply fields_spec; eauto).
      apply fields_err in Hb; auto. congruence.
Qed.
Lemma bad_string_fun t e e' : bad_string t e -> bad_string t e' -> e = e'.
Proof. rewrite <- !literal_err. congruence. Qed.
Lemma bad_cell_fun dl s e e' : plain_delim dl -> bad_cell dl s e -> bad_cell dl s e' -> e = e'.
Proof. intros H. rewrite <- !row_err by auto. congruence. Qed.
Lemma bad_header_fun s e e' : bad_header s e -> bad_header s e' -> e = e'.
Proof.
  assert (X : forall k l f t w r, frame s k l f t -> s = w ++ cDQ :: r -> blank w -> open_quote r -> False).
  { intros k l f t w r Hf E Hw Ho. exact (closed_open _ _ _ (frame_closed _ _ _ _ _ Hf) E Hw Ho). }
  assert (Y : forall l n dl n' dl', frame_length l n dl -> frame_length l n' dl' -> n = n' /\ dl = dl').
  { intros l n dl n' dl' H H'. apply frame_length_spec in H, H'. rewrite H in H'. injection H' as <- <-. auto. }
  destruct 1 as [w r E Hw Ho|k len f t e Hf Hk|k len f t key n dl Hf Hk Hl Hn|k len f t key n dl e Hf Hk Hl Hn Hb];
  destruct 1 as [w' r' E' Hw' Ho'|k' len' f' t' e' Hf' Hk'|k' len' f' t' key' n' dl' Hf' Hk' Hl' Hn'|k' len' f' t' key' n' dl' e' Hf' Hk' Hl' Hn' Hb'];
  auto; try (exfalso; eauto; fail); destruct (frame_fun _ _ _ _ _ _ _ _ _ Hf Hf') as (<- & <- & Ef & <-).
  - eapply bad_string_fun; eauto.
  - exfalso. exact (frame_key_bad _ _ _ Hk' Hk).
  - exfalso. exact (frame_key_bad _ _ _ Hk' Hk).
  - exfalso. exact (frame_key_bad _ _ _ Hk Hk').
  - destruct (Y _ _ _ _ _ Hl Hl') as [-> _]. reflexivity.
  - exfalso. destruct (Y _ _ _ _ _ Hl Hl') as [-> _]. lia.
  - exfalso. exact (frame_key_bad _ _ _ Hk Hk').
  - exfalso. destruct (Y _ _ _ _ _ Hl Hl') as [-> _]. lia.
  - injection Ef as <-. destruct (Y _ _ _ _ _ Hl Hl') as [-> ->]. eapply bad_cell_fun; eauto. eapply frame_length_delim; eauto.
Qed.
Lemma header_err s e : parse_array_header_line s DEFAULT_DELIMITER = Err e <-> bad_header s e.
Proof.
  split; [apply header_err_sound|]. intros H. destruct (bad_header_not _ _ H) as [H1 H2].
  pose proof (header_cases s) as C. destruct (parse_array_header_line s DEFAULT_DELIMITER) as [[[h iv]|]|e'] eqn:E.
  - destruct C as (_ & hl & tl & Hh & _). now destruct (H2 hl tl).
  - now destruct C.
  - apply header_err_sound in E. f_equal. eapply bad_header_fun; eauto.
Qed.

(** * Keys *)

Lemma plain_closed t : plain t -> closed t.
Proof.
  intros [[H _]|(h & tl & [k l f t1 key n dl fs Hf _ _ _ _] & _)]; [exact H|]. eapply frame_closed; eauto.
Qed.
Lemma key_err s e : closed s -> (parse_key_token s 0 = Err e <-> bad_key s e).
Proof.
  intros Hcl. unfold parse_key_token. cbn [skipn]. destruct (starts_with cDQ s) eqn:Es.
  - apply starts_with_iff in Es as (r & ->). unfold parse_quoted_key.
    destruct (Hcl [] r eq_refl ltac:(constructor)) as (b & r' & -> & Hb).
    rewrite (proj2 (closing_spec _ (S (length b)))) by eauto.
    replace (slice 1 (S (length b)) (cDQ :: b ++ cDQ :: r')) with b.
    2: { symmetry. unfold slice. cbn [skipn]. apply firstn_app_exact. lia. }
    rewrite skip_quoted. split.
    + destruct (unescape_string b) as [key|e'] eqn:Eu; cbn [bind].
      * destruct (starts_with cCOLON r') eqn:Er; [discriminate|]. cbn [bind]. intros [= <-].
        apply unescape_spec in Eu; auto. apply (bk_quoted _ b key r'); auto. now apply starts_with_not.
      * intros [= ->]. apply unescape_err in Eu as (x & -> & Hx); auto. now apply (bk_escape _ b x r').
    + destruct 1 as [Hn _|b' k r E Hu Hn|b' x r E Hb' Hx].
      * now destruct (Hn (b ++ cDQ :: r')).
      * injection E as E. apply quote_body_fun in E as [-> ->]; eauto using unescapes_body.
        rewrite (proj2 (unescape_spec _ Hb _) Hu). cbn [bind]. apply starts_with_not in Hn. now rewrite Hn.
      * injection E as E. apply quote_body_fun in E as [-> ->]; auto.
        rewrite (proj2 (unescape_err _ Hb (EInvalidEscape (Some x)))) by eauto. reflexivity.
  - pose proof (proj1 (starts_with_not _ _) Es) as Hn. unfold parse_unquoted_key, find_from. cbn [skipn].
    destruct (find_char cCOLON s) as [i|] eqn:Ei; cbn [option_map bind].
    + split; [discriminate|]. destruct 1 as [_ H|b' k r -> Hu H|b' x r -> Hb' Hx]; [|now destruct (Hn (b' ++ cDQ :: r))..].
      exfalso. apply find_cut in Ei as (a & b & [-> _] & _). apply H. rewrite in_app_iff. right. now left.
    + apply find_char_None in Ei. split; [intros [= <-]; now apply bk_bare|].
      destruct 1 as [_ H|b' k r -> Hu H|b' x r -> Hb' Hx]; [reflexivity|now destruct (Hn (b' ++ cDQ :: r))..].
Qed.
