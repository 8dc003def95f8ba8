(** Whitespace at the ends of lines: no function of the decoder sees it. *)
From Verif Require Import Chars Floats Json Shared Scanner Parser DecValidation Decoders Lex DecRelax.

Local Open Scope nat_scope.

(** Whitespace that is no delimiter. *)
Definition padding (w : str) : Prop := Forall (fun c => is_ws c = true /\ c <> cTAB) w.

Lemma padding_ws w : padding w -> all_ws w.
Proof. apply Forall_impl. now intros c []. Qed.
Lemma padding_tab w : padding w -> ~ In cTAB w.
Proof. intros P H. unfold padding in P. rewrite Forall_forall in P. now destruct (P _ H). Qed.
Lemma padding_not w c : padding w -> is_ws c = false -> ~ In c w.
Proof. intros P C H. unfold padding in P. rewrite Forall_forall in P. destruct (P _ H). congruence. Qed.
Lemma padding_tl x w : padding (x :: w) -> padding w.
Proof. inversion 1; auto. Qed.

(** * Searching *)

Lemma find_char_pad c a w : ~ In c w -> find_char c (a ++ w) = find_char c a.
Proof.
  intros H. induction a as [|x a IH]; cbn.
  - now apply find_char_None.
  - destruct (x =? c)%N; auto. now rewrite IH.
Qed.
Lemma skipn_pad {A} n (a w : list A) : n <= length a -> skipn n (a ++ w) = skipn n a ++ w.
Proof. intros H. rewrite skipn_app. replace (n - length a) with 0 by lia. reflexivity. Qed.
Lemma firstn_pad {A} n (a w : list A) : n <= length a -> firstn n (a ++ w) = firstn n a.
Proof. intros H. rewrite firstn_app. replace (n - length a) with 0 by lia. apply app_nil_r. Qed.
Lemma slice_pad n m a w : n <= length a -> m <= length a -> slice n m (a ++ w) = slice n m a.
Proof. intros H H'. unfold slice. rewrite skipn_pad by lia. apply firstn_pad. rewrite skipn_length. lia. Qed.
Lemma not_in_skipn {A} (c : A) n w : ~ In c w -> ~ In c (skipn n w).
Proof. intros H I. apply H. rewrite <- (firstn_skipn n w). apply in_or_app. now right. Qed.
Lemma find_from_pad c n a w : ~ In c w -> find_from c n (a ++ w) = find_from c n a.
Proof.
  intros H. unfold find_from. f_equal. rewrite skipn_app. apply find_char_pad. now apply not_in_skipn.
Qed.
Lemma find_from_lt c n a k : find_from c n a = Some k -> n <= k < length a.
Proof.
  unfold find_from. destruct (find_char c (skipn n a)) as [i|] eqn:E; [|discriminate]. cbn. injection 1 as <-.
  apply find_char_Some in E as (x & y & E & <- & _).
  assert (length (skipn n a) = length x + S (length y)) by (rewrite E, app_length; reflexivity).
  rewrite skipn_length in H. lia.
Qed.
Lemma find_char_lt c a k : find_char c a = Some k -> k < length a.
Proof. intros E. apply find_char_Some in E as (x & y & -> & <- & _). rewrite app_length. cbn. lia. Qed.

Lemma is_ws_dq : is_ws cDQ = false. Proof. reflexivity. Qed.
Lemma is_ws_bs : is_ws cBSLASH = false. Proof. reflexivity. Qed.

Lemma pad_head x w c : padding (x :: w) -> is_ws c = false -> (x =? c)%N = false.
Proof. intros P C. apply N.eqb_neq. intros ->. inversion P as [|? ? [H _]]. congruence. Qed.
Lemma bs_dq : (cBSLASH =? cDQ)%N = false. Proof. reflexivity. Qed.

Lemma scan_quote_none w : forall i, padding w -> scan_quote w i = None.
Proof.
  induction w as [|x w IH]; intros i P; [reflexivity|]. cbn.
  rewrite !(pad_head x w) by auto. destruct w as [|y w]; auto. apply IH. now apply padding_tl in P.
Qed.
Lemma scan_quote_eq c r i : scan_quote (c :: r) i =
  match r with
  | _ :: r' => if (c =? cBSLASH)%N then scan_quote r' (S (S i))
               else if (c =? cDQ)%N then Some i else scan_quote r (S i)
  | [] => if (c =? cDQ)%N then Some i else None
  end.
Proof. destruct r; reflexivity. Qed.
Lemma scan_quote_pad w : padding w -> forall n a i, length a <= n -> scan_quote (a ++ w) i = scan_quote a i.
Proof.
  intros P. induction n as [|n IH]; intros [|c a] i L; cbn in L; try lia; try (apply scan_quote_none; auto; fail).
  rewrite (scan_quote_eq c a). cbn [app]. rewrite scan_quote_eq. destruct a as [|x a]; cbn [app].
  - destruct w as [|y w]; auto. destruct (N.eqb_spec c cBSLASH) as [->|].
    + rewrite bs_dq. apply scan_quote_none. now apply padding_tl in P.
    + destruct (c =? cDQ)%N; auto. now apply scan_quote_none.
  - cbn in L. destruct (c =? cBSLASH)%N; [apply IH; lia|]. destruct (c =? cDQ)%N; auto.
    apply (IH (x :: a)). cbn. lia.
Qed.
Lemma scan_quote_lt n : forall a i k, length a <= n -> scan_quote a i = Some k -> i <= k < i + length a.
Proof.
  induction n as [|n IH]; intros [|c a] i k L; cbn in L; try lia; try discriminate.
  rewrite scan_quote_eq. destruct a as [|x a]; cbn [length] in *.
  - destruct (c =? cDQ)%N; [injection 1 as <-; lia|discriminate].
  - destruct (c =? cBSLASH)%N; [intros H; apply IH in H; lia|].
    destruct (c =? cDQ)%N; [injection 1 as <-; lia|]. intros H. apply IH in H; cbn in *; lia.
Qed.
Lemma closing_pad w a n : padding w -> find_closing_quote (a ++ w) n = find_closing_quote a n \/ length a <= n.
Proof.
  intros P. destruct (Nat.leb_spec (length a) n); [now right|left].
  unfold find_closing_quote. rewrite app_length.
  destruct (Nat.leb_spec (length a + length w) n); [lia|]. destruct (Nat.leb_spec (length a) n); [lia|].
  rewrite skipn_pad by lia. now apply (scan_quote_pad w P (length (skipn (S n) a))).
Qed.
Lemma closing_lt a n k : find_closing_quote a n = Some k -> n < k < length a.
Proof.
  unfold find_closing_quote. destruct (Nat.leb_spec (length a) n); [discriminate|].
  intros H'. apply (scan_quote_lt (length (skipn (S n) a))) in H'; auto. rewrite skipn_length in H'. lia.
Qed.

Lemma scan_unquoted_eq t c r q i : scan_unquoted t (c :: r) q i =
  match r with
  | _ :: r' => if q && (c =? cBSLASH)%N then scan_unquoted t r' q (S (S i))
               else if (c =? cDQ)%N then scan_unquoted t r (negb q) (S i)
                    else if (c =? t)%N && negb q then Some i else scan_unquoted t r q (S i)
  | [] => if (c =? cDQ)%N then scan_unquoted t r (negb q) (S i)
          else if (c =? t)%N && negb q then Some i else scan_unquoted t r q (S i)
  end.
Proof. destruct r; reflexivity. Qed.
Lemma scan_unquoted_none t w : ~ In t w -> forall q i, padding w -> scan_unquoted t w q i = None.
Proof.
  induction w as [|x w IH]; intros T q i P; [reflexivity|]. rewrite scan_unquoted_eq.
  pose proof (pad_head x w cDQ P eq_refl) as ->. pose proof (pad_head x w cBSLASH P eq_refl) as ->.
  rewrite andb_false_r.
  assert ((x =? t)%N = false) as -> by (apply N.eqb_neq; intros ->; apply T; now left).
  cbn [andb]. assert (E : scan_unquoted t w q (S i) = None) by (apply IH; [intros H; apply T; now right|now apply padding_tl in P]).
  destruct w; auto.
Qed.
Lemma scan_unquoted_pad t w : padding w -> ~ In t w -> forall n a q i, length a <= n ->
  scan_unquoted t (a ++ w) q i = scan_unquoted t a q i.
Proof.
  intros P T. induction n as [|n IH]; intros [|c a] q i L; cbn in L; try lia; try (apply scan_unquoted_none; auto; fail).
  rewrite (scan_unquoted_eq t c a). cbn [app]. rewrite scan_unquoted_eq. destruct a as [|x a]; cbn [app].
  - destruct w as [|y w]; auto.
    assert (P' : padding w) by (now apply padding_tl in P). assert (T' : ~ In t w) by (intros H; apply T; now right).
    pose proof (scan_unquoted_none t (y :: w) T) as N1. pose proof (scan_unquoted_none t w T') as N2.
    rewrite !N1, !N2 by auto. cbn [scan_unquoted].
    destruct (N.eqb_spec c cBSLASH) as [->|]; [rewrite bs_dq|]; destruct q; cbn [andb negb]; auto;
    rewrite ?andb_false_r; auto; now destruct (c =? cDQ)%N.
  - cbn in L. rewrite !(IH (x :: a)) by (cbn; lia). rewrite (IH a) by lia. reflexivity.
Qed.
Lemma unquoted_pad t w a : padding w -> ~ In t w -> find_unquoted_char (a ++ w) t 0 = find_unquoted_char a t 0.
Proof.
  intros P T. unfold find_unquoted_char. destruct (128 <=? t)%N; auto. cbn [skipn].
  now apply (scan_unquoted_pad t w P T (length a)).
Qed.

(** * Rows *)

Lemma pdv_rest d w : padding w -> ~ In d w -> forall q buf vals,
  pdv_loop d w q buf vals = pdv_loop d [] q (buf ++ w) vals.
Proof.
  induction w as [|x w IH]; intros P D q buf vals; [now rewrite app_nil_r|]. cbn [pdv_loop].
  rewrite !(pad_head x w) by auto. cbn [andb].
  assert ((x =? d)%N = false) as -> by (apply N.eqb_neq; intros ->; apply D; now left). cbn [andb].
  apply padding_tl in P as P'. rewrite IH; [|exact P'|intros H; apply D; now right].
  now rewrite <- app_assoc.
Qed.
Lemma pdv_finish d w : padding w -> ~ In d w -> forall q buf vals, buf <> [] \/ vals <> [] ->
  pdv_loop d w q buf vals = pdv_loop d [] q buf vals.
Proof.
  intros P D q buf vals H. rewrite pdv_rest by auto. cbn [pdv_loop].
  rewrite trim_ws_r by now apply padding_ws.
  assert (negb (is_empty (buf ++ w)) || negb (is_empty vals) = true) as ->.
  { destruct H; [destruct buf; [easy|reflexivity]|destruct vals; [easy|apply orb_true_r]]. }
  assert (negb (is_empty buf) || negb (is_empty vals) = true) as ->.
  { destruct H; [destruct buf; [easy|reflexivity]|destruct vals; [easy|apply orb_true_r]]. }
  reflexivity.
Qed.
Lemma app_not_nil {A} (a b : list A) : b <> [] -> a ++ b <> [].
Proof. intros H E. apply app_eq_nil in E as [_ E]. auto. Qed.
Lemma pdv_pad d w : padding w -> ~ In d w -> forall n a q buf vals, length a <= n ->
  a <> [] \/ buf <> [] \/ vals <> [] -> pdv_loop d (a ++ w) q buf vals = pdv_loop d a q buf vals.
Proof.
  intros P D. induction n as [|n IH]; intros [|c a] q buf vals L H; cbn in L; try lia.
  - cbn [app]. apply pdv_finish; auto. destruct H as [H|H]; [easy|auto].
  - cbn [app]. apply pdv_finish; auto. destruct H as [H|H]; [easy|auto].
  - cbn [app]. cbn [pdv_loop].
    destruct ((c =? cBSLASH)%N && q).
    + destruct a as [|x a]; cbn [app].
      * destruct w as [|y w]; auto. rewrite pdv_finish.
        -- cbn [pdv_loop]. assert (R : forall l : str, l <> [] -> is_empty l = false) by now intros [].
           rewrite !R by now apply app_not_nil. cbn [negb orb]. rewrite (app_assoc buf [c] [y] : buf ++ [c; y] = _).
           rewrite trim_ws_r; auto. apply padding_ws in P. inversion P; subst. constructor; auto.
        -- now apply padding_tl in P.
        -- intros H'. apply D. now right.
        -- left. now apply app_not_nil.
      * cbn in L. apply IH; [lia|]. right. left. now apply app_not_nil.
    + destruct (c =? cDQ)%N; [apply IH; [lia|right; left; now apply app_not_nil]|].
      destruct ((c =? d)%N && negb q); [apply IH; [lia|right; right; now apply app_not_nil]|].
      apply IH; [lia|right; left; now apply app_not_nil].
Qed.
Lemma row_pad d w a : padding w -> ~ In d w -> a <> [] -> parse_delimited_values (a ++ w) d = parse_delimited_values a d.
Proof. intros P D H. unfold parse_delimited_values. apply (pdv_pad d w P D (length a)); auto. Qed.

(** * Tokens *)

Lemma trim_start_pad a w : ~ all_ws a -> trim_start (a ++ w) = trim_start a ++ w.
Proof.
  induction a as [|x a IH]; intros H; [destruct H; constructor|]. cbn.
  destruct (is_ws x) eqn:E; auto. apply IH. intros H'. apply H. now constructor.
Qed.
Lemma starts_trim_pad c a w : padding w -> is_ws c = false -> starts_with c (trim_start (a ++ w)) = starts_with c (trim_start a).
Proof.
  intros P C. induction a as [|x a IH]; cbn.
  - rewrite trim_start_all_ws by now apply padding_ws. reflexivity.
  - destruct (is_ws x) eqn:E; auto.
Qed.
Lemma literal_pad a w : padding w -> parse_string_literal (a ++ w) = parse_string_literal a.
Proof. intros P. unfold parse_string_literal. now rewrite trim_ws_r by now apply padding_ws. Qed.
Lemma prim_pad a w : padding w -> parse_primitive_token (a ++ w) = parse_primitive_token a.
Proof. intros P. unfold parse_primitive_token. now rewrite trim_ws_r by now apply padding_ws. Qed.
Lemma key_value_pad a w : padding w -> is_key_value_content (a ++ w) = is_key_value_content a.
Proof. intros P. unfold is_key_value_content. now rewrite unquoted_pad by (auto; now apply padding_not). Qed.
Lemma header_content_pad a w : padding w -> is_array_header_content (a ++ w) = is_array_header_content a.
Proof. intros P. unfold is_array_header_content. now rewrite key_value_pad, starts_trim_pad by auto. Qed.
Lemma data_row_pad a w d : padding w -> ~ In d w -> is_data_row (a ++ w) d = is_data_row a d.
Proof. intros P D. unfold is_data_row. now rewrite !unquoted_pad by (auto; now apply padding_not). Qed.
Lemma contains_pad c a w : ~ In c w -> contains c (a ++ w) = contains c a.
Proof. intros H. rewrite contains_app. apply contains_not_In in H. rewrite H. apply orb_false_r. Qed.
Lemma starts_pad c a w : a <> [] -> starts_with c (a ++ w) = starts_with c a.
Proof. destruct a; [easy|reflexivity]. Qed.
Lemma key_value_line_pad a w : padding w -> a <> [] -> is_key_value_line (a ++ w) = is_key_value_line a.
Proof.
  intros P H. unfold is_key_value_line. rewrite starts_pad by auto.
  rewrite (contains_pad cCOLON a) by now apply padding_not. destruct (starts_with cDQ a); auto.
  destruct (closing_pad w a 0 P) as [->|L]; [|destruct a; [easy|cbn in L; lia]].
  destruct (find_closing_quote a 0) as [k|] eqn:E; auto. apply closing_lt in E.
  rewrite skipn_pad by lia. apply contains_pad. now apply padding_not.
Qed.

(** * Headers *)

Lemma bracket_start_pad a w : padding w -> bracket_start_of (a ++ w) = bracket_start_of a.
Proof.
  intros P. unfold bracket_start_of. rewrite starts_trim_pad by auto.
  rewrite (find_char_pad cLBRACK) by now apply padding_not.
  destruct (starts_with cDQ (trim_start a)) eqn:S0; auto.
  assert (W : ~ all_ws a) by (intros W; now rewrite (trim_start_all_ws a W) in S0).
  rewrite trim_start_pad by auto. apply starts_with_true in S0 as (r & E).
  destruct (closing_pad w (trim_start a) 0 P) as [->|L]; [|rewrite E in L; cbn in L; lia].
  destruct (find_closing_quote (trim_start a) 0) as [k|] eqn:C; auto. apply closing_lt in C.
  rewrite skipn_pad by lia.
  assert (starts_with cLBRACK (skipn (S k) (trim_start a) ++ w) = starts_with cLBRACK (skipn (S k) (trim_start a))) as ->.
  { destruct (skipn (S k) (trim_start a)); cbn; auto. destruct w as [|x w]; auto. cbn. now rewrite (pad_head x w) by auto. }
  destruct (starts_with cLBRACK (skipn (S k) (trim_start a))); cbn; auto.
  rewrite !app_length. replace (length a + length w - (length (trim_start a) + length w)) with (length a - length (trim_start a)) by lia.
  now rewrite find_from_pad by now apply padding_not.
Qed.
Lemma bracket_start_lt a k : bracket_start_of a = Ok (Some k) -> k < length a.
Proof.
  unfold bracket_start_of. destruct (starts_with cDQ (trim_start a)).
  - destruct (find_closing_quote (trim_start a) 0); [|discriminate].
    destruct (negb _); [discriminate|]. injection 1 as H. apply find_from_lt in H. lia.
  - injection 1 as H. now apply find_char_lt in H.
Qed.
Lemma header_colon_pad a w n : padding w -> header_colon (a ++ w) n = header_colon a n.
Proof.
  intros P. unfold header_colon. rewrite !(find_from_pad cLBRACE), !(find_from_pad cCOLON) by now apply padding_not.
  destruct (find_from cLBRACE (S n) a); [|reflexivity]. rewrite (find_from_pad cRBRACE) by now apply padding_not.
  destruct (find_from cCOLON (S n) a); [|reflexivity]. destruct (n0 <? n1); [|reflexivity].
  destruct (find_from cRBRACE n0 a); reflexivity.
Qed.
Lemma header_colon_lt a n k : header_colon a n = Some k -> k < length a.
Proof. unfold header_colon. intros H. apply find_from_lt in H. lia. Qed.
Lemma header_fields_pad a w n co d : padding w -> header_fields (a ++ w) n co d = header_fields a n co d.
Proof.
  intros P. unfold header_fields. rewrite find_from_pad by now apply padding_not.
  destruct (find_from cLBRACE (S n) a) as [b|] eqn:B; auto. destruct (b <? co); auto.
  rewrite find_from_pad by now apply padding_not. destruct (find_from cRBRACE b a) as [e|] eqn:E; auto.
  apply find_from_lt in B. apply find_from_lt in E. destruct (e <? co); auto. rewrite slice_pad by lia. reflexivity.
Qed.
Lemma header_key_pad a w n : n <= length a -> header_key (a ++ w) n = header_key a n.
Proof. intros H. unfold header_key. now rewrite firstn_pad by auto. Qed.

Lemma header_pad a w d : padding w -> parse_array_header_line (a ++ w) d = parse_array_header_line a d.
Proof.
  intros P. unfold parse_array_header_line. rewrite bracket_start_pad by auto.
  destruct (bracket_start_of a) as [[bs|]|e] eqn:B; auto. cbn [bind].
  apply bracket_start_lt in B. rewrite find_from_pad by now apply padding_not.
  destruct (find_from cRBRACK bs a) as [be|] eqn:E; auto. apply find_from_lt in E.
  rewrite header_colon_pad by auto. destruct (header_colon a be) as [co|] eqn:C; auto.
  apply header_colon_lt in C. rewrite header_key_pad by lia. destruct (header_key a bs) as [[k q]|e]; auto.
  rewrite slice_pad by lia. rewrite (skipn_pad (S co)) by lia.
  rewrite (trim_ws_r (skipn (S co) a)) by now apply padding_ws.
  destruct (parse_bracket_segment (slice (S bs) be a) d) as [[len dl]|e]; auto.
  cbn. destruct (MAX_DECLARED_ARRAY_LENGTH <? len)%N; auto. now rewrite header_fields_pad by auto.
Qed.

Lemma key_token_pad a w : padding w -> a <> [] -> parse_key_token (a ++ w) 0 = parse_key_token a 0.
Proof.
  intros P H. unfold parse_key_token. cbn [skipn]. rewrite starts_pad by auto.
  destruct (starts_with cDQ a).
  - assert (parse_quoted_key (a ++ w) 0 = parse_quoted_key a 0) as ->; auto. unfold parse_quoted_key.
    destruct (closing_pad w a 0 P) as [->|L]; [|destruct a; [easy|cbn in L; lia]].
    destruct (find_closing_quote a 0) as [k|] eqn:E; auto. apply closing_lt in E.
    rewrite slice_pad by lia. destruct (unescape_string (slice 1 k a)); auto. cbn [bind].
    rewrite skipn_pad by lia.
    assert (starts_with cCOLON (skipn (S k) a ++ w) = starts_with cCOLON (skipn (S k) a)) as ->; auto.
    destruct (skipn (S k) a); cbn; auto. destruct w as [|x w]; auto. cbn. now rewrite (pad_head x w) by auto.
  - assert (parse_unquoted_key (a ++ w) 0 = parse_unquoted_key a 0) as ->; auto. unfold parse_unquoted_key.
    rewrite find_from_pad by now apply padding_not. destruct (find_from cCOLON 0 a) as [k|] eqn:E; auto.
    apply find_from_lt in E. now rewrite slice_pad by lia.
Qed.
Lemma key_token_le a k e q : parse_key_token a 0 = Ok (k, e, q) -> e <= length a.
Proof.
  unfold parse_key_token. destruct (starts_with cDQ (skipn 0 a)).
  - unfold parse_quoted_key. destruct (find_closing_quote a 0) as [c|] eqn:E; [|discriminate]. apply closing_lt in E.
    destruct (unescape_string (slice 1 c a)); [|discriminate]. cbn [bind].
    destruct (starts_with cCOLON (skipn (S c) a)) eqn:T; [|discriminate]. cbn. injection 1 as <- <- <-.
    apply starts_with_true in T as (r & T). assert (L : length (skipn (S c) a) = S (length r)) by (rewrite T; reflexivity).
    rewrite skipn_length in L. lia.
  - unfold parse_unquoted_key. destruct (find_from cCOLON 0 a) as [c|] eqn:E; [|discriminate].
    cbn. injection 1 as <- <- <-. apply find_from_lt in E. lia.
Qed.

(** * The decoder *)

(** Two runs of a computation: the same outcome, or an error of the second run out of [ex]. *)
Definition both {A} (ex : err -> Prop) (R : A -> A -> Prop) (r r' : result A) : Prop :=
  match r' with
  | Ok b => match r with Ok a => R a b | Err _ => False end
  | Err e => ex e \/ r = Err e
  end.
Lemma both_bind {A B} ex (R : A -> A -> Prop) (S : B -> B -> Prop) r r' f f' :
  both ex R r r' -> (forall a b, R a b -> both ex S (f a) (f' b)) -> both ex S (bind r f) (bind r' f').
Proof. destruct r, r'; cbn; intros H K; auto; try easy. - destruct H as [H|H]; [now left|discriminate]. - destruct H as [H|H]; [now left|]. injection H as ->. now right. Qed.
Lemma both_same {A B} ex (S : B -> B -> Prop) (r : result A) f f' :
  (forall a, r = Ok a -> both ex S (f a) (f' a)) -> both ex S (bind r f) (bind r f').
Proof. destruct r; cbn; intros K; auto. Qed.
Definition none (e : err) : Prop := False.

(** Two runs over lines that say the same, in mode [st].  With [num] the lines have the same numbers;
    no line has a number above [M]. *)
Section Like.
Context (st num : bool) (M : nat) (ex : err -> Prop).

Record plike (l l' : parsed_line) : Prop := Plike {
  lk_line : num = true -> pl_line l' = pl_line l;
  lk_bound : pl_line l <= M;
  lk_depth : pl_depth l' = pl_depth l;
  lk_some : pl_content l <> [];
  lk_text : exists w, padding w /\ pl_content l' = pl_content l ++ w /\ (pl_content l = LIST_ITEM_MARKER -> w = [])
}.
Definition olike (l l' : option parsed_line) : Prop :=
  match l, l' with Some a, Some b => plike a b | None, None => True | _, _ => False end.
Definition clike (c c' : cursor) : Prop := Forall2 plike (cu_rest c) (cu_rest c') /\ olike (cu_last c) (cu_last c').

Definition elike (r r' : list event * cursor) : Prop := fst r = fst r' /\ clike (snd r) (snd r').
Definition glike (g g' : option (nat * nat)) : Prop :=
  (num = true -> g' = g) /\ match g with Some (_, e) => e <= M | None => True end.
Definition ilike (r r' : list event * cursor * N * option (nat * nat)) : Prop :=
  let '(e, c, n, g) := r in let '(e', c', n', g') := r' in e = e' /\ clike c c' /\ n = n' /\ glike g g'.

Lemma peek_like c c' : clike c c' -> olike (peek c) (peek c').
Proof. intros [H _]. unfold peek. inversion H; cbn; auto. Qed.
Lemma advance_like c c' : clike c c' -> clike (advance c) (advance c').
Proof. destruct c as [r la], c' as [r' la']. intros [H L]. cbn in H, L. unfold advance. destruct H; cbn; split; auto. constructor. Qed.

Lemma marker_like l l' : plike l l' -> str_eqb (pl_content l') LIST_ITEM_MARKER = str_eqb (pl_content l) LIST_ITEM_MARKER.
Proof.
  intros [_ _ _ N (w & P & -> & Mk)]. destruct (pl_content l) as [|c r]; [easy|]. unfold LIST_ITEM_MARKER in *. cbn [app str_eqb].
  destruct (N.eqb_spec c cMINUS) as [->|]; [|reflexivity]. destruct r as [|x r]; [|reflexivity]. now rewrite (Mk eq_refl).
Qed.
Lemma prefix_like l l' : plike l l' -> starts_with_str LIST_ITEM_PREFIX (pl_content l') = starts_with_str LIST_ITEM_PREFIX (pl_content l).
Proof.
  intros [_ _ _ N (w & P & -> & Mk)]. destruct (pl_content l) as [|c r]; [easy|]. unfold LIST_ITEM_MARKER, LIST_ITEM_PREFIX in *.
  destruct r as [|x r]; [|reflexivity]. cbn [app starts_with_str]. destruct (N.eqb_spec cMINUS c) as [<-|]; [|reflexivity]. now rewrite (Mk eq_refl).
Qed.
Lemma item_like l l' : plike l l' -> is_list_item (pl_content l') = is_list_item (pl_content l).
Proof. intros H. unfold is_list_item. now rewrite (prefix_like _ _ H), (marker_like _ _ H). Qed.

Definition safe_delimiter (d : char) : Prop := forall w, padding w -> ~ In d w.
Lemma header_delimiter a h iv : parse_array_header_line a DEFAULT_DELIMITER = Ok (Some (h, iv)) -> safe_delimiter (ah_delimiter h).
Proof.
  unfold parse_array_header_line. destruct (bracket_start_of a) as [[bs|]|]; try discriminate. cbn [bind].
  destruct (find_from cRBRACK bs a) as [be|]; [|discriminate]. destruct (header_colon a be); [|discriminate].
  destruct (header_key a bs) as [[k q]|]; [|discriminate]. cbn [bind]. unfold parse_bracket_segment.
  set (seg := slice (S bs) be a).
  assert (D : forall d, d = cTAB \/ d = cPIPE \/ d = DEFAULT_DELIMITER -> safe_delimiter d).
  { intros d [->|[->| ->]] w P; [now apply padding_tab|now apply padding_not|now apply padding_not]. }
  destruct (if ends_with cTAB seg then _ else _) as [ct dl] eqn:E.
  assert (Dl : safe_delimiter dl).
  { destruct (ends_with cTAB seg); [injection E as _ <-; auto|]. destruct (ends_with cPIPE seg); injection E as _ <-; auto. }
  destruct (parse_usize ct); [|discriminate]. cbn [bind]. destruct (_ <? _)%N; [discriminate|].
  destruct (header_fields a be _ dl); [|discriminate]. cbn. injection 1 as <- _. exact Dl.
Qed.

Lemma extra_rows_like o o' d dl n b : safe_delimiter dl -> olike o o' ->
  validate_no_extra_tabular_rows o' d dl n b = validate_no_extra_tabular_rows o d dl n b.
Proof.
  intros D. destruct o as [l|], o' as [l'|]; cbn [olike]; try easy. intros H. unfold validate_no_extra_tabular_rows. rewrite (prefix_like _ _ H).
  destruct H as [_ _ -> _ (w & P & -> & _)]. now rewrite data_row_pad by auto.
Qed.
Lemma extra_items_like o o' d n b : olike o o' ->
  validate_no_extra_list_items o' d n b = validate_no_extra_list_items o d n b.
Proof. destruct o as [l|], o' as [l'|]; cbn [olike]; try easy. intros H. unfold validate_no_extra_list_items. rewrite (prefix_like _ _ H). now destruct H as [_ _ -> _ _]. Qed.

(** The range of lines of an array grows by the lines read. *)
Lemma extend_like g g' l l' : glike g g' -> plike l l' -> glike (extend_range g (pl_line l)) (extend_range g' (pl_line l')).
Proof.
  intros [G B] [L Bl _ _ _]. split.
  - intros E. now rewrite (G E), (L E).
  - destruct g as [[s e]|]; cbn; auto.
Qed.

(** The blank lines count through their numbers only, and in strict mode only. *)
Section Contexts.
Context (cx cx' : dctx).
Hypothesis X : (dc_strict cx = st /\ dc_strict cx' = st) /\
  forall what g g', glike g g' -> both ex eq (validate_blank_range what g (dc_blanks cx) st) (validate_blank_range what g' (dc_blanks cx') st).
Lemma Xs : dc_strict cx = st. Proof. apply X. Qed.
Lemma Xs' : dc_strict cx' = st. Proof. apply X. Qed.

Lemma rows_like d h fs : safe_delimiter (ah_delimiter h) -> forall rest rest', Forall2 plike rest rest' ->
  forall last last' n g g', olike last last' -> glike g g' ->
  both ex ilike (decode_rows rest last d h fs cx n g) (decode_rows rest' last' d h fs cx' n g').
Proof.
  intros D. induction 1 as [|l l' r r' H F IH]; intros la la' n g g' L G; cbn [decode_rows].
  - cbn. split; [|split; [|split]]; auto. split; auto. constructor.
  - destruct (ah_length h <=? n)%N; [cbn; split; [|split; [|split]]; auto; split; auto; now constructor|].
    rewrite (lk_depth _ _ H). destruct (pl_depth l =? d); [|cbn; split; [|split; [|split]]; auto; split; auto; now constructor].
    assert (parse_delimited_values (pl_content l') (ah_delimiter h) = parse_delimited_values (pl_content l) (ah_delimiter h)) as ->.
    { destruct (lk_text _ _ H) as (w & P & -> & _). apply row_pad; auto. apply (lk_some _ _ H). }
    rewrite Xs, Xs'. apply both_same. intros _ _. apply both_same. intros ps _.
    eapply both_bind; [apply IH; [exact H|now apply extend_like]|]. intros [[[e c] n1] g1] [[[e' c'] n1'] g1'] (-> & C & -> & G1). cbn. auto.
Qed.
Lemma table_like h fs d c c' : safe_delimiter (ah_delimiter h) -> clike c c' ->
  both ex elike (decode_tabular_array h fs c d cx) (decode_tabular_array h fs c' d cx').
Proof.
  intros D [F L]. unfold decode_tabular_array. eapply both_bind; [apply rows_like; auto; now split|].
  intros [[[e c1] n1] g1] [[[e' c1'] n1'] g1'] (<- & C & <- & G).
  rewrite Xs, Xs'. apply both_same. intros _ _. eapply both_bind; [apply (proj2 X _ _ _ G)|]. intros _ _ _.
  rewrite (extra_rows_like (peek c1) (peek c1')) by (auto; now apply peek_like).
  apply both_same. intros _ _. now split.
Qed.

Lemma dec_like : forall fuel,
  (forall a w c c' d, padding w -> a <> [] -> clike c c' ->
     both ex elike (decode_key_value fuel a c d cx) (decode_key_value fuel (a ++ w) c' d cx')) /\
  (forall c c' d cd, clike c c' ->
     both ex elike (decode_object_fields fuel c d cd cx) (decode_object_fields fuel c' d cd cx')) /\
  (forall h iv c c' d, safe_delimiter (ah_delimiter h) -> clike c c' ->
     both ex elike (decode_array_from_header fuel h iv c d cx) (decode_array_from_header fuel h iv c' d cx')) /\
  (forall c c' d len n g g', clike c c' -> glike g g' ->
     both ex ilike (decode_list_items fuel c d len n g cx) (decode_list_items fuel c' d len n g' cx')) /\
  (forall c c' d, clike c c' ->
     both ex elike (decode_list_item fuel c d cx) (decode_list_item fuel c' d cx')) /\
  (forall c c' d, clike c c' ->
     both ex elike (decode_follow fuel c d cx) (decode_follow fuel c' d cx')).
Proof.
  induction fuel as [|fuel (Ikv & Iof & Iar & Iit & Ii & Ifo)]; [repeat split; intros; right; reflexivity|].
  assert (Bok : forall e c c', clike c c' -> both ex elike (Ok (e, c)) (Ok (e, c'))) by (intros; now split).
  assert (Iok : forall e c c' n g g', clike c c' -> glike g g' -> both ex ilike (Ok (e, c, n, g)) (Ok (e, c', n, g'))) by (intros; cbn; auto).
  split; [|split; [|split; [|split; [|split]]]].
  - intros a w c c' d P N C. cbn [decode_key_value]. rewrite header_pad by auto.
    apply both_same. intros hd Hh.
    match goal with |- both ex elike (match hd with None => ?x | Some _ => _ end) (match hd with None => ?y | Some _ => _ end) =>
      assert (Pl : both ex elike x y) end.
    { rewrite key_token_pad by auto. apply both_same. intros [[k e] q] K. apply key_token_le in K.
      rewrite skipn_pad by auto. rewrite (trim_ws_r (skipn e a)) by now apply padding_ws.
      destruct (is_empty (trim (skipn e a))).
      - pose proof (peek_like _ _ C) as Pk.
        replace (match peek c' with Some next => d <? pl_depth next | None => false end)
          with (match peek c with Some next => d <? pl_depth next | None => false end)
          by (destruct (peek c), (peek c'); try easy; cbn in Pk; now rewrite (lk_depth _ _ Pk)).
        destruct (match peek c with Some _ => _ | None => _ end); [|auto].
        eapply both_bind; [now apply Iof|]. intros [e1 c1] [e1' c1'] [E1 C1]. cbn in E1, C1. subst. auto.
      - apply both_same. auto. }
    destruct hd as [[h iv]|]; [|exact Pl]. apply header_delimiter in Hh. destruct (ah_key h); [|exact Pl].
    eapply both_bind; [now apply Iar|]. intros [e1 c1] [e1' c1'] [E1 C1]. cbn in E1, C1. subst. auto.
  - intros c c' d cd C. cbn [decode_object_fields]. pose proof (peek_like _ _ C) as Pk.
    destruct (peek c) as [l|], (peek c') as [l'|]; try easy; try (right; reflexivity). cbn in Pk. rewrite (lk_depth _ _ Pk).
    destruct (pl_depth l <? d); [auto|]. destruct (pl_depth l =? unwrap_or cd (pl_depth l)); [|auto].
    destruct (lk_text _ _ Pk) as (w & P & -> & _).
    eapply both_bind; [apply Ikv; auto using advance_like; apply (lk_some _ _ Pk)|].
    intros [e1 c1] [e1' c1'] [E1 C1]. cbn in E1, C1. subst.
    eapply both_bind; [now apply Iof|]. intros [e2 c2] [e2' c2'] [E2 C2]. cbn in E2, C2. subst. auto.
  - intros h iv c c' d D C. cbn [decode_array_from_header].
    eapply (both_bind ex elike).
    + destruct iv as [iv|]; [unfold decode_inline_primitive_array; rewrite Xs, Xs'; apply both_same; auto|].
      assert (Li : both ex elike
        (let? (evs, c0, count, range) := decode_list_items fuel c (S d) (ah_length h) 0 None cx in
         let? _ := assert_expected_count CItems count (ah_length h) (dc_strict cx) in
         let? _ := validate_blank_range CItems range (dc_blanks cx) (dc_strict cx) in
         let? _ := validate_no_extra_list_items (peek c0) (S d) (ah_length h) (dc_strict cx) in Ok (evs, c0))
        (let? (evs, c0, count, range) := decode_list_items fuel c' (S d) (ah_length h) 0 None cx' in
         let? _ := assert_expected_count CItems count (ah_length h) (dc_strict cx') in
         let? _ := validate_blank_range CItems range (dc_blanks cx') (dc_strict cx') in
         let? _ := validate_no_extra_list_items (peek c0) (S d) (ah_length h) (dc_strict cx') in Ok (evs, c0))).
      { eapply both_bind; [apply Iit; [exact C|now split]|]. intros [[[e1 c1] n1] g1] [[[e1' c1'] n1'] g1'] (<- & C1 & <- & G1).
        rewrite Xs, Xs'. apply both_same. intros _ _. eapply both_bind; [apply (proj2 X _ _ _ G1)|]. intros _ _ _.
        rewrite (extra_items_like (peek c1) (peek c1')) by now apply peek_like.
        apply both_same. auto. }
      destruct (ah_fields h) as [[|f fs]|]; auto. now apply table_like.
    + intros [e1 c1] [e1' c1'] [E1 C1]. cbn in E1, C1. subst. auto.
  - intros c c' d len n g g' C G. cbn [decode_list_items]. pose proof (peek_like _ _ C) as Pk.
    destruct (peek c) as [l|], (peek c') as [l'|]; try easy; try (right; reflexivity). cbn in Pk.
    destruct (len <=? n)%N; [auto|]. rewrite (item_like _ _ Pk), (lk_depth _ _ Pk).
    destruct ((pl_depth l =? d) && is_list_item (pl_content l)); [|auto].
    eapply both_bind; [now apply Ii|]. intros [e1 c1] [e1' c1'] [E1 C1]. cbn in E1, C1. subst.
    eapply both_bind.
    { apply Iit; [exact C1|]. apply (extend_like _ _ _ _ G) in Pk. destruct C1 as [_ L1].
      destruct (cu_last c1), (cu_last c1'); try easy. now apply extend_like. }
    intros [[[e2 c2] n2] g2] [[[e2' c2'] n2'] g2'] (<- & C2 & <- & G2). auto.
  - intros c c' d C. cbn [decode_list_item]. pose proof (peek_like _ _ C) as Pk. apply advance_like in C.
    destruct (peek c) as [l|], (peek c') as [l'|]; try easy; try (right; reflexivity). cbn in Pk.
    rewrite (marker_like _ _ Pk), (prefix_like _ _ Pk). destruct (str_eqb (pl_content l) LIST_ITEM_MARKER) eqn:Mk; [auto|].
    destruct (starts_with_str LIST_ITEM_PREFIX (pl_content l)) eqn:Pf; cbn [negb]; [|right; reflexivity].
    apply starts_with_str_true in Pf as (a & E). destruct (lk_text _ _ Pk) as (w & P & Ew & _).
    rewrite Ew, E. cbn [skipn LIST_ITEM_PREFIX app].
    rewrite (trim_ws_r a) by now apply padding_ws. destruct (is_empty (trim a)) eqn:Em; [auto|].
    assert (N : a <> []) by (intros ->; discriminate Em).
    rewrite header_content_pad, !header_pad by auto. apply both_same. intros h1 H1.
    destruct h1 as [[h iv]|].
    { apply Iar; auto. destruct (is_array_header_content a); [|discriminate]. now apply header_delimiter in H1. }
    apply both_same. intros h2 H2. rewrite key_value_pad, prim_pad by auto.
    match goal with |- both ex elike (match h2 with None => ?x | Some _ => _ end) (match h2 with None => ?y | Some _ => _ end) =>
      assert (Pl : both ex elike x y) end.
    { destruct (is_key_value_content a).
      - eapply both_bind; [apply Ikv; auto|]. intros [e1 c1] [e1' c1'] [E1 C1]. cbn in E1, C1. subst.
        eapply both_bind; [apply Ifo; auto|]. intros [e2 c2] [e2' c2'] [E2 C2]. cbn in E2, C2. subst. auto.
      - apply both_same. auto. }
    destruct h2 as [[h iv]|]; [|exact Pl]. apply header_delimiter in H2.
    destruct (ah_key h); [|exact Pl]. destruct (ah_fields h); [|exact Pl].
    eapply both_bind; [now apply Iar|]. intros [e1 c1] [e1' c1'] [E1 C1]. cbn in E1, C1. subst.
    eapply both_bind; [apply Ifo; auto|]. intros [e2 c2] [e2' c2'] [E2 C2]. cbn in E2, C2. subst. auto.
  - intros c c' d C. cbn [decode_follow]. pose proof (peek_like _ _ C) as Pk.
    destruct (peek c) as [l|], (peek c') as [l'|]; try easy; try (right; reflexivity). cbn in Pk.
    rewrite (prefix_like _ _ Pk), (lk_depth _ _ Pk). destruct ((pl_depth l =? d) && _); [|auto].
    destruct (lk_text _ _ Pk) as (w & P & -> & _).
    eapply both_bind; [apply Ikv; auto using advance_like; apply (lk_some _ _ Pk)|].
    intros [e1 c1] [e1' c1'] [E1 C1]. cbn in E1, C1. subst.
    eapply both_bind; [apply Ifo; auto|]. intros [e2 c2] [e2' c2'] [E2 C2]. cbn in E2, C2. subst. auto.
Qed.

Lemma root_fields_like : forall fuel c c', clike c c' ->
  both ex elike (decode_root_fields fuel c cx) (decode_root_fields fuel c' cx').
Proof.
  induction fuel as [|fuel IH]; intros c c' C; [right; reflexivity|]. cbn [decode_root_fields]. pose proof (peek_like _ _ C) as Pk.
  destruct (peek c) as [l|], (peek c') as [l'|]; try easy; try (right; reflexivity). cbn in Pk. rewrite (lk_depth _ _ Pk).
  destruct (negb (pl_depth l =? 0)); [now split|]. destruct (lk_text _ _ Pk) as (w & P & -> & _).
  destruct (dec_like fuel) as (Ikv & _).
  eapply both_bind; [apply Ikv; auto using advance_like; apply (lk_some _ _ Pk)|].
  intros [e1 c1] [e1' c1'] [E1 C1]. cbn in E1, C1. subst.
  eapply both_bind; [apply IH; auto|]. intros [e2 c2] [e2' c2'] [E2 C2]. cbn in E2, C2. subst. now split.
Qed.

Lemma decode_lines_like ls ls' : Forall2 plike ls ls' -> both ex elike (decode_lines ls cx) (decode_lines ls' cx').
Proof.
  intros F. assert (L : length ls = length ls') by (clear - F; induction F; cbn; congruence). destruct F as [|l l' r r' H F]; [cbn; repeat split; constructor|].
  assert (C : clike (Cursor r (Some l)) (Cursor r' (Some l'))) by now split.
  unfold decode_lines. replace (dec_fuel (l' :: r')) with (dec_fuel (l :: r)) by (unfold dec_fuel; now rewrite L).
  set (fuel := dec_fuel (l :: r)). destruct (lk_text _ _ H) as (w & P & -> & _).
  rewrite header_content_pad, header_pad by auto. apply both_same. intros h Hh.
  destruct (dec_like fuel) as (Ikv & _ & Iar & _).
  destruct h as [[h iv]|].
  - apply Iar; auto. destruct (is_array_header_content (pl_content l)); [|discriminate]. now apply header_delimiter in Hh.
  - assert (at_end (Cursor r' (Some l')) = at_end (Cursor r (Some l))) as -> by now destruct F.
    rewrite key_value_line_pad by (auto; apply (lk_some _ _ H)).
    destruct (at_end _ && _).
    + rewrite trim_ws_r by now apply padding_ws. apply both_same. intros p _. now split.
    + eapply both_bind; [apply Ikv; auto; apply (lk_some _ _ H)|].
      intros [e1 c1] [e1' c1'] [E1 C1]. cbn in E1, C1. subst.
      eapply both_bind; [apply root_fields_like; auto|]. intros [e2 c2] [e2' c2'] [E2 C2]. cbn in E2, C2. subst. now split.
Qed.

Lemma lines_both ls ls' : Forall2 plike ls ls' ->
  both ex eq (let? (evs, _) := decode_lines ls cx in Ok evs) (let? (evs, _) := decode_lines ls' cx' in Ok evs).
Proof.
  intros F. eapply both_bind; [now apply decode_lines_like|]. now intros [e c] [e' c'] [E _].
Qed.
End Contexts.
End Like.

Lemma both_none {A} (r r' : result A) : both none eq r r' -> r' = r.
Proof. destruct r, r'; cbn; intros H; try easy; try (now subst); destruct H as [[]|H]; congruence. Qed.
Lemma lines_events st num M cx cx' ls ls' :
  (dc_strict cx = st /\ dc_strict cx' = st) ->
  (forall what g g', glike num M g g' -> validate_blank_range what g' (dc_blanks cx') st = validate_blank_range what g (dc_blanks cx) st) ->
  Forall2 (plike num M) ls ls' ->
  (let? (evs, _) := decode_lines ls' cx' in Ok evs) = (let? (evs, _) := decode_lines ls cx in Ok evs).
Proof.
  intros S V F. apply both_none. eapply (lines_both st num M); [split; [exact S|]|exact F].
  intros what g g' G. rewrite (V what g g' G). destruct (validate_blank_range what g _ st); [reflexivity|now right].
Qed.

(** * The scanner *)

(** A line, and the same line with whitespace after it.  A hyphen alone stays as it is. *)
Definition padded (l l' : str) : Prop :=
  exists w, padding w /\ l' = l ++ w /\ (skipn (count_spaces l) l = LIST_ITEM_MARKER -> w = []).

Lemma count_spaces_pad l w : ~ all_ws l -> count_spaces (l ++ w) = count_spaces l.
Proof.
  induction l as [|c l IH]; intros H; [destruct H; constructor|]. cbn. destruct (N.eqb_spec c cSPACE) as [->|]; auto.
  rewrite IH; auto. intros H'. apply H. now constructor.
Qed.
Lemma count_tabs_pad l w : ~ all_ws l -> count_space_tab (l ++ w) = count_space_tab l.
Proof.
  induction l as [|c l IH]; intros H; [destruct H; constructor|]. cbn. destruct (_ || _)%bool eqn:E; auto.
  rewrite IH; auto. intros H'. apply H. constructor; auto.
  apply orb_true_iff in E as [E|E]; apply N.eqb_eq in E; subst; reflexivity.
Qed.
Lemma count_spaces_le l : count_spaces l <= length l.
Proof. induction l as [|c l IH]; cbn; [lia|]. destruct (c =? cSPACE)%N; cbn; lia. Qed.
Lemma count_tabs_le l : count_space_tab l <= length l.
Proof. induction l as [|c l IH]; cbn; [lia|]. destruct (_ || _)%bool; cbn; lia. Qed.

Definition slike (st st' : scan_state) : Prop := ss_line st' = ss_line st /\ map bl_line (ss_blanks st') = map bl_line (ss_blanks st).

Lemma line_pad l l' st st' size strict b M : padded l l' -> slike st st' -> ss_line st < M ->
  both none (fun r r' => olike b M (fst r) (fst r') /\ slike (snd r) (snd r') /\ ss_line (snd r) = S (ss_line st))
       (parse_line_incremental l st size strict) (parse_line_incremental l' st' size strict).
Proof.
  intros (w & P & -> & Mk) [Sl Sb] Lt. unfold parse_line_incremental. rewrite !blank_trim. rewrite Sl.
  destruct (nonblank l) eqn:B.
  - assert (W : ~ all_ws l).
    { intros W. unfold nonblank in B. apply all_ws_forallb in W. now rewrite W in B. }
    assert (nonblank (l ++ w) = true) as ->.
    { unfold nonblank in *. rewrite forallb_app. destruct (forallb is_ws l); [discriminate|reflexivity]. }
    cbn [negb]. rewrite count_spaces_pad, count_tabs_pad by auto. rewrite firstn_pad by apply count_tabs_le.
    apply both_same. intros _ _. cbn. split; [|split; [split|]; auto]. constructor; auto.
    + cbn. intros E. apply W. rewrite (count_spaces_spec l), E, app_nil_r. apply all_ws_spaces.
    + cbn [pl_content]. exists w. rewrite skipn_pad by apply count_spaces_le. auto.
  - assert (nonblank (l ++ w) = false) as ->.
    { unfold nonblank in *. apply negb_false_iff in B. rewrite forallb_app, B. cbn.
      apply negb_false_iff. apply all_ws_forallb. now apply padding_ws. }
    cbn. split; [exact I|split; [split|]; cbn; auto]. rewrite !map_app. cbn. now rewrite Sb.
Qed.
Lemma scan_pad size strict b M : forall ls ls', Forall2 padded ls ls' -> forall st st', slike st st' -> ss_line st + length ls <= M ->
  both none (fun r r' => Forall2 (plike b M) (fst r) (fst r') /\ slike (snd r) (snd r'))
       (parse_lines_sync ls size strict st) (parse_lines_sync ls' size strict st').
Proof.
  induction 1 as [|l l' r r' H F IH]; intros st st' S0 Lt; cbn [parse_lines_sync]; [cbn; split; auto|]. cbn [length] in Lt.
  eapply both_bind; [apply (line_pad l l' st st' size strict b M); auto; lia|]. intros [p st1] [p' st1'] (O1 & S1 & L1). cbn in O1, S1, L1.
  eapply both_bind; [apply IH; [exact S1|lia]|]. intros [q st2] [q' st2'] [O2 S2]. cbn in O2, S2. cbn. split; auto.
  destruct p, p'; try easy. constructor; [exact O1|exact O2].
Qed.
Lemma blank_range_lines what g b b' strict : map bl_line b' = map bl_line b ->
  validate_blank_range what g b' strict = validate_blank_range what g b strict.
Proof.
  intros H. destruct g as [[s e]|]; auto. unfold validate_blank_range, validate_no_blank_lines_in_range.
  set (f := fun x => (s <? bl_line x) && (bl_line x <? e)).
  assert (E : existsb f b' = existsb f b /\
    match find f b' with Some x => bl_line x | None => 0 end = match find f b with Some x => bl_line x | None => 0 end).
  { revert b H. induction b' as [|x b' IH]; intros [|y b] H; try discriminate; auto. injection H as H1 H2.
    destruct (IH b H2) as [I1 I2]. cbn. assert (f x = f y) as -> by (unfold f; now rewrite H1). rewrite I1.
    destruct (f y); auto. }
  destruct E as [-> ->]. reflexivity.
Qed.
(** In lenient mode the numbers count for nothing; in strict mode a blank line counts by its number. *)
Lemma blank_range_lenient what g g' b b' : validate_blank_range what g' b' false = validate_blank_range what g b false.
Proof. destruct g as [[]|], g' as [[]|]; reflexivity. Qed.
Lemma blank_range_past what g b b' M : Forall (fun x => M < bl_line x) b' -> match g with Some (_, e) => e <= M | None => True end ->
  validate_blank_range what g (b ++ b') true = validate_blank_range what g b true.
Proof.
  intros H. destruct g as [[s e]|]; auto. intros Le. unfold validate_blank_range, validate_no_blank_lines_in_range.
  set (f := fun x => (s <? bl_line x) && (bl_line x <? e)).
  assert (N : existsb f b' = false).
  { induction H as [|x r Hx _ IH]; auto. cbn. rewrite IH, orb_false_r. unfold f. apply andb_false_iff. right. apply Nat.ltb_ge. lia. }
  rewrite existsb_app, N, orb_false_r. destruct (existsb f b) eqn:E; auto.
  assert (find f (b ++ b') = find f b) as ->; auto.
  clear N. induction b as [|x b IH]; [discriminate|]. cbn in *. destruct (f x); auto.
Qed.

Theorem stream_pad ls ls' o : Forall2 padded ls ls' -> decode_stream_sync ls' o = decode_stream_sync ls o.
Proof.
  intros F. unfold decode_stream_sync. set (size := unwrap_or _ 2). set (strict := unwrap_or _ true).
  pose proof (scan_pad size strict strict (length ls) ls ls' F create_scan_state create_scan_state
    (conj eq_refl eq_refl) (le_n _)) as H.
  destruct (parse_lines_sync ls _ _ _) as [[p st]|], (parse_lines_sync ls' _ _ _) as [[p' st']|]; cbn [both fst snd] in H; try easy;
    try (destruct H as [[]|H]; congruence).
  - destruct H as [H [_ Hb]]. cbn [bind]. eapply lines_events; [now split| |exact H].
    intros what g g' [G _]. destruct strict; [|apply blank_range_lenient]. rewrite (G eq_refl). now apply blank_range_lines.
Qed.

(** In lenient mode the blank lines count for nothing at all. *)
Lemma padded_blank l l' : padded l l' -> nonblank l' = nonblank l.
Proof.
  intros (w & P & -> & _). unfold nonblank. rewrite forallb_app.
  apply padding_ws in P. apply all_ws_forallb in P. now rewrite P, andb_true_r.
Qed.
Lemma scan_content size M : forall ls ls', Forall2 padded (filter nonblank ls) (filter nonblank ls') -> forall st st', 
  ss_line st + length ls <= M ->
  both none (fun r r' => Forall2 (plike false M) (fst r) (fst r'))
       (parse_lines_sync ls size false st) (parse_lines_sync ls' size false st').
Proof.
  assert (Z : forall ls', filter nonblank ls' = [] -> forall st', exists st2, parse_lines_sync ls' size false st' = Ok ([], st2)).
  { induction ls' as [|l' ls' IH]; intros E st'; cbn [parse_lines_sync]; [eauto|]. cbn in E. rewrite parse_line_eq.
    destruct (nonblank l'); [discriminate|]. cbn [bind]. destruct (IH E (ScanState (S (ss_line st')) (ss_blanks st' ++
      [BLine (S (ss_line st')) (count_spaces l') (compute_depth_from_indent (count_spaces l') size)]))) as (st2 & ->). cbn. eauto. }
  induction ls as [|l ls IH]; intros ls' F st st' Lt.
  - cbn in F. inversion F as [E|]. destruct (Z ls' (eq_sym H) st') as (st2 & ->). cbn. constructor.
  - cbn [length] in Lt. cbn [filter] in F. destruct (nonblank l) eqn:B.
    + revert st'. induction ls' as [|l' ls' IH']; intros st'; [inversion F|]. cbn [filter] in F. destruct (nonblank l') eqn:B'.
      * inversion F as [|? ? ? ? P F']; subst. cbn [parse_lines_sync].
        pose proof (line_pad l l' (ScanState (ss_line st) []) (ScanState (ss_line st) []) size false false M P (conj eq_refl eq_refl)) as K.
        rewrite !parse_line_eq, B, B' in *. cbn in K. specialize (K ltac:(lia)). destruct K as [K _].
        cbn [bind]. eapply both_bind; [apply IH; [exact F'|cbn; lia]|]. intros [p s1] [p' s1'] Hp. cbn in Hp |- *. constructor; auto.
        destruct K as [K1 K2 K3 K4 K5]. constructor; auto; cbn in *; easy.
      * cbn [parse_lines_sync] in *. specialize (IH' F). rewrite (parse_line_eq l' st'), B'. cbn [bind].
        specialize (IH' (ScanState (S (ss_line st')) (ss_blanks st' ++
          [BLine (S (ss_line st')) (count_spaces l') (compute_depth_from_indent (count_spaces l') size)]))).
        match goal with |- both _ _ _ (bind ?x _) => destruct x as [[]|] end; exact IH'.
    + cbn [parse_lines_sync]. rewrite parse_line_eq, B. cbn [bind].
      pose proof (IH ls' F (ScanState (S (ss_line st)) (ss_blanks st ++
          [BLine (S (ss_line st)) (count_spaces l) (compute_depth_from_indent (count_spaces l) size)])) st' ltac:(cbn; lia)) as K.
      match goal with |- both _ _ (bind ?x _) _ => destruct x as [[]|] end; exact K.
Qed.
Theorem stream_content ls ls' o : unwrap_or (dso_strict (unwrap_or o (DStreamOpts None None))) true = false ->
  Forall2 padded (filter nonblank ls) (filter nonblank ls') ->
  decode_stream_sync ls' o = decode_stream_sync ls o.
Proof.
  intros St F. unfold decode_stream_sync. rewrite St. set (size := unwrap_or _ 2).
  pose proof (scan_content size (length ls) ls ls' F create_scan_state create_scan_state (le_n _)) as H.
  destruct (parse_lines_sync ls _ _ _) as [[p st]|], (parse_lines_sync ls' _ _ _) as [[p' st']|]; cbn [both fst snd] in H; try easy;
    try (destruct H as [[]|H]; congruence).
  - cbn [bind]. eapply lines_events; [now split| |exact H]. intros. apply blank_range_lenient.
Qed.

(** Blank lines after the last line. *)
Lemma parse_lines_app size strict : forall a b st,
  parse_lines_sync (a ++ b) size strict st =
  (let? (p, st1) := parse_lines_sync a size strict st in
   let? (q, st2) := parse_lines_sync b size strict st1 in Ok (p ++ q, st2)).
Proof.
  induction a as [|l a IH]; intros b st; cbn [app parse_lines_sync]; [cbn; now destruct (parse_lines_sync b size strict st) as [[]|]|].
  destruct (parse_line_incremental l st size strict) as [[p st1]|]; auto. cbn [bind]. rewrite IH.
  destruct (parse_lines_sync a size strict st1) as [[q st2]|]; auto. cbn [bind].
  destruct (parse_lines_sync b size strict st2) as [[u st3]|]; auto. cbn. now destruct p.
Qed.
Lemma plike_refl b M l : pl_content l <> [] -> pl_line l <= M -> plike b M l l.
Proof. intros N L. constructor; auto. exists []. split; [constructor|]. now rewrite app_nil_r. Qed.
Theorem stream_end ls bl o : Forall (fun x => nonblank x = false) bl ->
  decode_stream_sync (ls ++ bl) o = decode_stream_sync ls o.
Proof.
  intros B. unfold decode_stream_sync. set (size := unwrap_or _ 2). set (strict := unwrap_or _ true). rewrite parse_lines_app.
  assert (P0 : Forall2 padded ls ls).
  { clear. induction ls; constructor; auto. exists []. split; [constructor|]. now rewrite app_nil_r. }
  pose proof (scan_pad size strict strict (length ls) ls ls P0 create_scan_state create_scan_state
    (conj eq_refl eq_refl) (le_n _)) as H.
  assert (L : forall p st, parse_lines_sync ls size strict create_scan_state = Ok (p, st) -> length ls <= ss_line st).
  { intros p st E. apply parse_lines_scan in E as (_ & _ & ->). cbn. lia. }
  destruct (parse_lines_sync ls _ _ _) as [[p st]|]; auto. cbn [both fst snd] in H. destruct H as [H _]. cbn [bind].
  specialize (L p st eq_refl).
  assert (Q : exists b', Forall (fun x => length ls < bl_line x) b' /\
            exists n, parse_lines_sync bl size strict st = Ok ([], ScanState n (ss_blanks st ++ b'))).
  { clear - B L. revert st L. induction B as [|x bl Hx _ IH]; intros st L; cbn [parse_lines_sync].
    - exists []. split; auto. destruct st as [n bs]. exists n. cbn. now rewrite app_nil_r.
    - rewrite parse_line_eq, Hx. cbn [bind].
      destruct (IH (ScanState (S (ss_line st)) (ss_blanks st ++
          [BLine (S (ss_line st)) (count_spaces x) (compute_depth_from_indent (count_spaces x) size)])) ltac:(cbn; lia)) as (b' & F & n & E).
      rewrite E. cbn. eexists. split; [|exists n; rewrite <- app_assoc; reflexivity]. constructor; auto. cbn. lia. }
  destruct Q as (b' & F & n & ->). cbn [bind]. rewrite app_nil_r.
  eapply lines_events; [now split| |exact H].
  intros what g g' [G Gb]. destruct strict; [|apply blank_range_lenient]. rewrite (G eq_refl). eapply blank_range_past; eauto.
Qed.

Lemma existsb_find {A} (f : A -> bool) : forall l, existsb f l = true -> exists x, find f l = Some x /\ In x l.
Proof. induction l as [|x l IH]; cbn; [discriminate|]. destruct (f x); [eauto|]. intros H. destruct (IH H) as (y & ? & ?). eauto. Qed.
(** In strict mode: what the text without its blank lines gives, or a complaint about a blank line. *)
Definition about_blank (ls : list str) (e : err) : Prop :=
  exists what n l, e = EBlankInArray what (S n) /\ nth_error ls n = Some l /\ nonblank l = false.
Definition about_indent (e : err) : Prop :=
  (exists n, e = ETabIndent n) \/ (exists n m, e = EIndentZero n m) \/ (exists n m k, e = EIndentMultiple n m k).

Lemma scan_from_content size M : forall ls n m, m + length (filter nonblank ls) <= M ->
  Forall2 (plike false M) (fst (scan_from m size (filter nonblank ls))) (fst (scan_from n size ls)) /\
  snd (scan_from m size (filter nonblank ls)) = [].
Proof.
  induction ls as [|l ls IH]; intros n m Le; [split; [constructor|reflexivity]|]. cbn [filter scan_from] in *. destruct (nonblank l) eqn:B.
  - cbn [scan_from length] in *. rewrite B. destruct (IH (S n) (S m) ltac:(lia)) as [F E].
    destruct (scan_from (S m) size (filter nonblank ls)) as [ls1 bs1], (scan_from (S n) size ls) as [ls2 bs2]. cbn in *.
    split; auto. constructor; auto. constructor; cbn; auto; try easy; try lia.
    + intros E0. unfold nonblank in B. apply negb_true_iff in B.
      assert (W : all_ws l) by (rewrite (count_spaces_spec l), E0, app_nil_r; apply all_ws_spaces).
      apply all_ws_forallb in W. congruence.
    + exists []. split; [constructor|]. now rewrite app_nil_r.
  - destruct (IH (S n) m Le) as [F E]. destruct (scan_from (S n) size ls) as [ls2 bs2]. now split.
Qed.
Lemma scan_from_blanks size : forall ls n b, In b (snd (scan_from n size ls)) ->
  exists k l, bl_line b = S (n + k) /\ nth_error ls k = Some l /\ nonblank l = false.
Proof.
  induction ls as [|l ls IH]; intros n b; cbn [scan_from]; [easy|].
  specialize (IH (S n) b). destruct (scan_from (S n) size ls) as [ls1 bs1]. cbn [snd] in IH.
  assert (K : In b bs1 -> exists k l0, bl_line b = S (n + k) /\ nth_error (l :: ls) k = Some l0 /\ nonblank l0 = false).
  { intros H. destruct (IH H) as (k & l0 & E & N & B). exists (S k), l0. split; auto. lia. }
  destruct (nonblank l) eqn:B; cbn [snd]; [exact K|]. intros [<-|H]; [|auto]. exists 0, l. cbn. rewrite Nat.add_0_r. auto.
Qed.
Lemma parse_lines_indent size : forall ls st e, parse_lines_sync ls size true st = Err e -> about_indent e.
Proof.
  induction ls as [|l ls IH]; intros st e; cbn [parse_lines_sync]; [discriminate|]. rewrite parse_line_eq.
  destruct (nonblank l); cbn [bind].
  - unfold indent_error. destruct (contains _ _); [cbn; injection 1 as <-; left; eauto|].
    destruct size.
    + destruct (0 <? count_spaces l); [cbn; injection 1 as <-; right; left; eauto|]. cbn [bind].
      destruct (parse_lines_sync ls _ _ _) as [[]|] eqn:E; [discriminate|]. cbn. injection 1 as <-. eauto.
    + destruct (_ && _); [cbn; injection 1 as <-; right; right; eauto|]. cbn [bind].
      destruct (parse_lines_sync ls _ _ _) as [[]|] eqn:E; [discriminate|]. cbn. injection 1 as <-. eauto.
  - destruct (parse_lines_sync ls _ _ _) as [[]|] eqn:E; [discriminate|]. cbn. injection 1 as <-. eauto.
Qed.
Theorem stream_blanks ls o : unwrap_or (dso_strict (unwrap_or o (DStreamOpts None None))) true = true ->
  (exists e e', decode_stream_sync (filter nonblank ls) o = Err e /\ decode_stream_sync ls o = Err e' /\ about_indent e /\ about_indent e') \/
  both (about_blank ls) eq (decode_stream_sync (filter nonblank ls) o) (decode_stream_sync ls o).
Proof.
  intros St. unfold decode_stream_sync. rewrite St. set (size := unwrap_or _ 2).
  assert (I : indent_clean size ls <-> indent_clean size (filter nonblank ls)).
  { unfold indent_clean. rewrite !Forall_forall. split; intros H x Hx.
    - apply filter_In in Hx as []. auto.
    - intros Hn. apply H; auto. apply filter_In. auto. }
  destruct (parse_lines_sync ls _ _ _) as [[p st]|e] eqn:E, (parse_lines_sync (filter nonblank ls) _ _ _) as [[p0 st0]|e0] eqn:E0.
  - right. apply parse_lines_scan in E as (_ & -> & ->). apply parse_lines_scan in E0 as (_ & -> & ->). cbn [bind create_scan_state ss_line ss_blanks app].
    destruct (scan_from_content size (length (filter nonblank ls)) ls 0 0 (le_n _)) as [F N].
    eapply (lines_both true false); [|exact F]. cbn [dc_strict dc_blanks]. split; auto. intros what g g' _. rewrite N.
    assert (validate_blank_range what g [] true = Ok tt) as -> by (destruct g as [[]|]; reflexivity).
    destruct g' as [[s e]|]; [|reflexivity]. unfold validate_blank_range, validate_no_blank_lines_in_range.
    set (f := fun x => (s <? bl_line x) && (bl_line x <? e)). destruct (existsb f _) eqn:X; [left|reflexivity].
    apply existsb_find in X as (b & Hf & Hin). rewrite Hf. apply scan_from_blanks in Hin as (k & l & -> & Hk & Hb). exists what, k, l. auto.
  - exfalso. apply parse_lines_scan in E as (C & _ & _). specialize (C eq_refl). apply I in C.
    assert (K := proj2 (parse_lines_scan (filter nonblank ls) size true create_scan_state _ _) (conj (fun _ => C) (conj eq_refl eq_refl))). congruence.
  - exfalso. apply parse_lines_scan in E0 as (C & _ & _). specialize (C eq_refl). apply I in C.
    assert (K := proj2 (parse_lines_scan ls size true create_scan_state _ _) (conj (fun _ => C) (conj eq_refl eq_refl))). congruence.
  - left. exists e0, e. cbn. split; auto. split; auto. split; eapply parse_lines_indent; eauto.
Qed.
