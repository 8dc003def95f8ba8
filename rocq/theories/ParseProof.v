(** Rows, headers and key lines written by the encoder are read back by the line parser. *)
From Verif Require Import Chars Floats Json Shared EncPrim Normalize Parser Lex NumProof PrimProof Spec.

Local Open Scope nat_scope.

(** * Tokens *)

Definition special (c : char) : bool :=
  ((c =? cDQ) || (c =? cCOLON) || (c =? cLBRACK) || (c =? cRBRACK) || (c =? cLBRACE)
   || (c =? cRBRACE) || (c =? cLF) || (c =? cCR) || (c =? cTAB) || (c =? cBSLASH))%N.

Inductive tok (d : char) : str -> Prop :=
| tok_plain t : t <> [] -> tight t -> Forall (fun c => special c = false) t -> ~ In d t -> tok d t
| tok_quoted s : tok d (quoted s).

Lemma plain_not_in t c : Forall (fun c => special c = false) t -> special c = true -> ~ In c t.
Proof. rewrite Forall_forall. intros H Hc Hi. apply H in Hi. congruence. Qed.

Lemma special_false c :
  c <> cDQ -> c <> cCOLON -> c <> cLBRACK -> c <> cRBRACK -> c <> cLBRACE -> c <> cRBRACE ->
  c <> cLF -> c <> cCR -> c <> cTAB -> c <> cBSLASH -> special c = false.
Proof. unfold special. lia. Qed.

Lemma lit_tok d s : std_delim d ->
  negb (is_empty s) && forallb (fun c => negb (is_ws c) && negb (special c)
    && negb (c =? cCOMMA)%N && negb (c =? cPIPE)%N) s = true -> tok d s.
Proof.
  intros Hd H. apply andb_prop in H as [Hn H]. rewrite forallb_forall in H.
  apply tok_plain.
  - intros ->. discriminate.
  - apply tight_nonws. apply Forall_forall. intros c Hc. apply H in Hc. lia.
  - apply Forall_forall. intros c Hc. apply H in Hc. lia.
  - intros Hi. apply H in Hi. destruct Hd as [->|[->| ->]]; discriminate Hi.
Qed.

Lemma encode_primitive_tok p d : std_delim d -> tok d (encode_primitive p d).
Proof.
  intros Hd. destruct p as [s|x|b|]; cbn [encode_primitive].
  - unfold encode_string_literal. destruct (is_safe_unquoted s d) eqn:E; [|apply tok_quoted].
    apply safe_unquoted_inv in E as
      (H1 & H2 & _ & _ & H5 & H6 & H7 & H8 & H9 & H10 & H11 & H12 & H13 & H14 & H15 & _).
    apply tok_plain; auto. apply Forall_forall. intros c Hc.
    apply special_false; intros ->; contradiction.
  - destruct (f64_is_finite x) eqn:Hx.
    + destruct (format_number_shape x Hx) as (s & ip & fp & E & Hi & Hf & Hn & _).
      assert (Hc : Forall num_char (format_number x)) by (rewrite E; now apply fixed_chars).
      rewrite Forall_forall in Hc.
      apply tok_plain.
      * rewrite E. destruct ip; [congruence|]. destruct s; discriminate.
      * apply tight_nonws. apply Forall_forall. intros c H. apply Hc, num_char_facts in H. tauto.
      * apply Forall_forall. intros c H. apply Hc, num_char_facts in H. apply special_false; tauto.
      * intros H. apply Hc, num_char_facts in H. destruct Hd as [->|[->| ->]]; tauto.
    + unfold format_number. rewrite Hx. cbn [negb].
      destruct (f64_is_zero x); now apply lit_tok.
  - destruct b; now apply lit_tok.
  - now apply lit_tok.
Qed.

Lemma encode_key_tok k d : std_delim d -> tok d (encode_key k).
Proof.
  intros Hd. destruct (is_valid_unquoted_key k) eqn:E.
  - rewrite encode_key_plain by auto. pose proof (valid_key_chars k E) as [Hn Hf].
    rewrite Forall_forall in Hf. apply tok_plain; auto.
    + now apply valid_key_tight.
    + apply Forall_forall. intros c Hc. apply Hf, ident_char in Hc. apply special_false; tauto.
    + intros H. apply Hf, ident_char in H. destruct Hd as [->|[->| ->]]; tauto.
  - rewrite encode_key_quoted by auto. apply tok_quoted.
Qed.

Lemma tok_nonempty d t : tok d t -> t <> [].
Proof. intros [? ?|]; auto. discriminate. Qed.

Lemma tok_tight d t : tok d t -> tight t.
Proof. intros [? ?|]; auto. apply quoted_tight. Qed.

Lemma tok_no d t c : tok d t -> c = cLF \/ c = cCR \/ c = cTAB -> ~ In c t.
Proof.
  intros [t' H1 H2 H3 H4|s] Hc.
  - apply plain_not_in; auto. destruct Hc as [->|[->| ->]]; reflexivity.
  - unfold quoted. intros [H|H].
    + destruct Hc as [->|[->| ->]]; discriminate.
    + apply in_app_iff in H as [H|[H|[]]].
      * apply escape_in in H as (H1 & H2 & H3 & _). tauto.
      * destruct Hc as [->|[->| ->]]; discriminate.
Qed.

(** * Scanning over tokens *)

Lemma scan_quoted t s rest i :
  scan_unquoted t (quoted s ++ rest) false i
  = scan_unquoted t rest false (i + length (quoted s)).
Proof.
  unfold quoted. cbn [app]. rewrite <- app_assoc, scan_unquoted_dq. cbn [negb app].
  rewrite scan_unquoted_escape. cbn [length]. rewrite app_length. cbn [length]. f_equal. lia.
Qed.

Lemma scan_tok_colon d t rest i : tok d t ->
  scan_unquoted cCOLON (t ++ rest) false i = scan_unquoted cCOLON rest false (i + length t).
Proof.
  intros [t' H1 H2 H3 H4|s].
  - apply scan_unquoted_plain; apply plain_not_in; auto.
  - apply scan_quoted.
Qed.

Lemma scan_tok_delim d t rest i : tok d t ->
  scan_unquoted d (t ++ rest) false i = scan_unquoted d rest false (i + length t).
Proof.
  intros [t' H1 H2 H3 H4|s].
  - apply scan_unquoted_plain; auto. apply plain_not_in; auto.
  - apply scan_quoted.
Qed.

Lemma scan_char t c rest i : c <> cDQ -> c <> t ->
  scan_unquoted t (c :: rest) false i = scan_unquoted t rest false (S i).
Proof.
  intros H1 H2. change (c :: rest) with ([c] ++ rest). rewrite scan_unquoted_plain.
  - f_equal. simpl. lia.
  - intros [H|[]]; auto.
  - intros [H|[]]; auto.
Qed.

Lemma scan_join_colon d l rest i : std_delim d -> Forall (tok d) l ->
  scan_unquoted cCOLON (join d l ++ rest) false i
  = scan_unquoted cCOLON rest false (i + length (join d l)).
Proof.
  intros Hd. revert i. induction l as [|x l IH]; intros i H; [simpl; now rewrite Nat.add_0_r|].
  inversion H; subst. destruct l as [|y l].
  - simpl join. now apply scan_tok_colon with (d := d).
  - rewrite join_cons by discriminate. rewrite <- app_assoc. cbn [app].
    rewrite (scan_tok_colon d) by auto.
    rewrite scan_char by (destruct Hd as [->|[->| ->]]; discriminate).
    rewrite IH by auto. f_equal. rewrite app_length. simpl length. lia.
Qed.

Lemma scan_hit t rest i : t <> cDQ -> scan_unquoted t (t :: rest) false i = Some i.
Proof.
  intros H. cbn [scan_unquoted andb]. apply N.eqb_neq in H. rewrite H, N.eqb_refl. cbn [negb andb].
  destruct rest; reflexivity.
Qed.

Lemma find_unquoted_0 s : find_unquoted_char s cCOLON 0 = scan_unquoted cCOLON s false 0.
Proof. reflexivity. Qed.

Lemma tok_not_key_value d t : tok d t -> is_key_value_content t = false.
Proof.
  intros H. unfold is_key_value_content. rewrite find_unquoted_0, <- (app_nil_r t).
  rewrite (scan_tok_colon d) by auto. reflexivity.
Qed.

Lemma tok_not_header_content d t : tok d t -> is_array_header_content t = false.
Proof. intros H. unfold is_array_header_content. now rewrite (tok_not_key_value d), andb_false_r. Qed.

(** A key followed by a colon. *)
Lemma key_is_key_value k rest : is_key_value_content (encode_key k ++ cCOLON :: rest) = true.
Proof.
  unfold is_key_value_content. rewrite find_unquoted_0.
  rewrite (scan_tok_colon cCOMMA) by (apply encode_key_tok; left; reflexivity).
  now rewrite scan_hit.
Qed.

Lemma trim_start_key k rest : trim_start (encode_key k ++ rest) = encode_key k ++ rest.
Proof.
  pose proof (encode_key_tight k). pose proof (encode_key_nonempty k).
  destruct (encode_key k); [congruence|]. cbn [app]. apply trim_start_nonws. now destruct H.
Qed.

Lemma key_not_lbrack k rest : starts_with cLBRACK (encode_key k ++ rest) = false.
Proof.
  rewrite starts_with_app by apply encode_key_nonempty.
  destruct (is_valid_unquoted_key k) eqn:E.
  - rewrite encode_key_plain by auto. destruct (starts_with cLBRACK k) eqn:Es; auto.
    apply starts_with_true in Es as (r & ->). exfalso.
    eapply (valid_key_not_in _ cLBRACK); [exact E|reflexivity|now left].
  - now rewrite encode_key_quoted.
Qed.

Lemma key_not_header_content k rest : is_array_header_content (encode_key k ++ rest) = false.
Proof. unfold is_array_header_content. now rewrite trim_start_key, key_not_lbrack. Qed.

Lemma key_not_list_item k rest :
  starts_with_str [cMINUS; cSPACE] (encode_key k ++ cCOLON :: rest) = false /\
  starts_with_str [cMINUS; cSPACE] (encode_key k ++ cLBRACK :: rest) = false.
Proof.
  assert (H : forall r, starts_with_str [cMINUS; cSPACE] (encode_key k ++ r) = false).
  { intros r. destruct (is_valid_unquoted_key k) eqn:E.
    - rewrite encode_key_plain by auto. pose proof (valid_key_chars k E) as [Hn Hf].
      destruct k as [|c k]; [congruence|]. inversion Hf; subst. apply ident_char in H1.
      cbn [app starts_with_str]. replace (cMINUS =? c)%N with false; [reflexivity|].
      symmetry. apply N.eqb_neq. intros <-. tauto.
    - now rewrite encode_key_quoted. }
  auto.
Qed.

(** * Delimited values *)

Lemma pdv_quoted_tail d s rest buf vals :
  pdv_loop d (escape_string s ++ cDQ :: rest) true buf vals
  = pdv_loop d rest false (buf ++ escape_string s ++ [cDQ]) vals.
Proof.
  revert buf. induction s as [|c s IH]; intros buf; [reflexivity|].
  rewrite escape_cons, <- app_assoc.
  destruct (escape_char_cases c) as [(x & E & _)|(E & H1 & H2 & _)]; rewrite E; cbn [app].
  - cbn [pdv_loop]. rewrite N.eqb_refl. cbn [andb]. rewrite IH. now rewrite <- app_assoc.
  - cbn [pdv_loop]. apply N.eqb_neq in H1, H2. rewrite H1, H2. cbn [andb negb].
    rewrite andb_false_r, IH. now rewrite <- app_assoc.
Qed.

Lemma pdv_plain d t rest buf vals : ~ In cDQ t -> ~ In d t ->
  pdv_loop d (t ++ rest) false buf vals = pdv_loop d rest false (buf ++ t) vals.
Proof.
  revert buf. induction t as [|c t IH]; intros buf H1 H2; cbn [app]; [now rewrite app_nil_r|].
  simpl in H1, H2. cbn [pdv_loop]. rewrite andb_false_r.
  destruct (N.eqb_spec c cDQ); [exfalso; auto|]. destruct (N.eqb_spec c d); [exfalso; auto|].
  cbn [andb]. rewrite IH by tauto. now rewrite <- app_assoc.
Qed.

Lemma pdv_tok d t rest buf vals : tok d t ->
  pdv_loop d (t ++ rest) false buf vals = pdv_loop d rest false (buf ++ t) vals.
Proof.
  intros [t' H1 H2 H3 H4|s].
  - apply pdv_plain; auto. apply plain_not_in; auto.
  - unfold quoted. cbn [app]. rewrite <- app_assoc. cbn [pdv_loop app]. cbn [N.eqb Pos.eqb andb negb].
    rewrite pdv_quoted_tail. now rewrite <- app_assoc.
Qed.

Lemma pdv_join d l vals : std_delim d -> Forall (tok d) l -> l <> [] ->
  pdv_loop d (join d l) false [] vals = vals ++ l.
Proof.
  intros Hd. revert vals. induction l as [|x l IH]; intros vals H Hn; [congruence|].
  inversion H; subst. destruct l as [|y l].
  - cbn [join]. rewrite <- (app_nil_r x) at 1. rewrite pdv_tok by auto. cbn [app pdv_loop].
    pose proof (tok_nonempty _ _ H2). destruct x as [|c x]; [congruence|]. cbn [is_empty negb orb].
    rewrite trim_tight by now apply tok_tight with (d := d). reflexivity.
  - rewrite join_cons by discriminate. rewrite pdv_tok by auto. cbn [app pdv_loop].
    rewrite andb_false_r.
    replace (d =? cDQ)%N with false by (destruct Hd as [->|[->| ->]]; reflexivity).
    rewrite N.eqb_refl. cbn [andb negb]. rewrite trim_tight by now apply tok_tight with (d := d).
    rewrite IH by (auto; discriminate). now rewrite <- app_assoc.
Qed.

Lemma parse_delimited_join d l : std_delim d -> Forall (tok d) l ->
  parse_delimited_values (join d l) d = l.
Proof.
  intros Hd H. unfold parse_delimited_values. destruct l as [|x l]; [reflexivity|].
  now apply pdv_join.
Qed.

Lemma map_result_ok {A B} (f : A -> result B) (g : A -> B) l :
  (forall x, In x l -> f x = Ok (g x)) -> map_result f l = Ok (map g l).
Proof.
  induction l as [|x l IH]; intros H; [reflexivity|]. cbn [map_result map].
  rewrite H by now left. cbn [bind]. rewrite IH by (intros; apply H; now right). reflexivity.
Qed.

Lemma map_result_map {A B C} (f : B -> result C) (g : A -> B) l :
  map_result f (map g l) = map_result (fun x => f (g x)) l.
Proof. induction l as [|x l IH]; [reflexivity|]. cbn [map_result map]. now rewrite IH. Qed.

Lemma Forall_tok_prims ps d : std_delim d ->
  Forall (tok d) (map (fun p => encode_primitive p d) ps).
Proof. intros H. apply Forall_map, Forall_forall. intros. now apply encode_primitive_tok. Qed.

Lemma Forall_tok_keys ks d : std_delim d -> Forall (tok d) (map encode_key ks).
Proof. intros H. apply Forall_map, Forall_forall. intros. now apply encode_key_tok. Qed.

Lemma parse_row ps d : std_delim d ->
  parse_delimited_values (encode_and_join_primitives ps d) d
  = map (fun p => encode_primitive p d) ps.
Proof. intros H. apply parse_delimited_join; auto using Forall_tok_prims. Qed.

Lemma parse_row_prims ps d :
  map_row_values_to_primitives (map (fun p => encode_primitive p d) ps)
  = Ok (map normalize_primitive ps).
Proof.
  unfold map_row_values_to_primitives. rewrite map_result_map. apply map_result_ok.
  intros. apply parse_encode_primitive.
Qed.

(** * Headers *)

Lemma find_from_app c a b n : n = length a ->
  find_from c n (a ++ b) = option_map (fun i => n + i) (find_char c b).
Proof. intros ->. unfold find_from. now rewrite skipn_app_exact. Qed.

Definition field_of (f : str) : field_name := Field f (negb (is_valid_unquoted_key f)).

Lemma parse_fields_ok fs d : std_delim d ->
  parse_fields (join d (map encode_key fs)) d = Ok (map field_of fs).
Proof.
  intros Hd. unfold parse_fields. rewrite parse_delimited_join by auto using Forall_tok_keys.
  rewrite map_result_map. apply map_result_ok. intros f _.
  rewrite trim_tight by apply encode_key_tight.
  rewrite parse_string_literal_key, starts_with_dq_key. reflexivity.
Qed.

Definition delim_suffix (d : char) : str := if (d =? DEFAULT_DELIMITER)%N then [] else [d].

Lemma digits_in n c : In c (dec_of_N n) -> is_digit c = true.
Proof. pose proof (dec_of_N_digits n) as H. unfold all_digits in H. rewrite Forall_forall in H. auto. Qed.

Lemma bracket_in n d c : std_delim d -> In c (dec_of_N n ++ delim_suffix d) ->
  c <> cRBRACK /\ c <> cCOLON /\ c <> cLBRACK /\ c <> cDQ.
Proof.
  intros Hd H. apply in_app_iff in H as [H|H].
  - apply digits_in in H. unfold is_digit in H. repeat split; lia.
  - destruct Hd as [->|[->| ->]]; cbn in H; intuition; subst; discriminate.
Qed.

Lemma parse_usize_dec n : (n <= USIZE_MAX)%N -> parse_usize (dec_of_N n) = Some n.
Proof.
  intros H. unfold parse_usize. pose proof (dec_of_N_nonempty n). pose proof (digits_in n) as Hd.
  destruct (dec_of_N n) as [|c r] eqn:E; [congruence|].
  assert (Hc : is_digit c = true) by (apply Hd; now left).
  replace (c =? cPLUS)%N with false by (unfold is_digit in Hc; lia).
  rewrite <- E in *. replace (is_empty (dec_of_N n)) with false by now rewrite E.
  replace (forallb is_digit (dec_of_N n)) with true.
  2: { symmetry. apply forallb_forall. intros x Hx. apply Hd. exact Hx. }
  rewrite dec_of_N_val. apply N.leb_le in H. now rewrite H.
Qed.

Lemma ends_with_snoc c s x : ends_with c (s ++ [x]) = (x =? c)%N.
Proof. unfold ends_with. now rewrite rev_app_distr. Qed.

Lemma parse_bracket_ok n d : std_delim d -> (n <= USIZE_MAX)%N ->
  parse_bracket_segment (dec_of_N n ++ delim_suffix d) DEFAULT_DELIMITER = Ok (n, d).
Proof.
  intros Hd Hn. unfold parse_bracket_segment.
  destruct (N.eqb_spec d DEFAULT_DELIMITER) as [->|Hne].
  - unfold delim_suffix. rewrite N.eqb_refl, app_nil_r.
    destruct (list_last_cases (dec_of_N n)) as [E|(a & x & E)]; [now apply dec_of_N_nonempty in E|].
    assert (Hx : is_digit x = true) by (apply (digits_in n); rewrite E, in_app_iff; right; now left).
    assert (H1 : ends_with cTAB (dec_of_N n) = false)
      by (rewrite E, ends_with_snoc; unfold is_digit in Hx; lia).
    assert (H2 : ends_with cPIPE (dec_of_N n) = false)
      by (rewrite E, ends_with_snoc; unfold is_digit in Hx; lia).
    rewrite H1, H2. now rewrite parse_usize_dec.
  - unfold delim_suffix. apply N.eqb_neq in Hne. rewrite Hne. rewrite !ends_with_snoc.
    unfold pop. rewrite removelast_last.
    destruct Hd as [->|[->| ->]]; [discriminate| |]; cbn [N.eqb Pos.eqb];
      now rewrite parse_usize_dec.
Qed.

Definition key_text (key : option str) : str :=
  match key with Some k => encode_key k | None => [] end.
Definition fields_text (fields : option (list str)) (d : char) : str :=
  match fields with
  | Some fs => cLBRACE :: join d (map encode_key fs) ++ [cRBRACE]
  | None => []
  end.
Definition key_quoted (key : option str) : bool :=
  match key with Some k => negb (is_valid_unquoted_key k) | None => false end.
Definition no_rbrace (fields : option (list str)) : Prop :=
  match fields with Some fs => Forall (fun f => ~ In cRBRACE f) fs | None => True end.

Lemma format_header_eq n key fields d tail :
  format_header n key fields d ++ tail
  = key_text key ++ cLBRACK :: (dec_of_N (N.of_nat n) ++ delim_suffix d) ++ cRBRACK ::
    fields_text fields d ++ cCOLON :: tail.
Proof.
  unfold format_header, key_text, fields_text, delim_suffix.
  rewrite <- !app_assoc. cbn [app]. rewrite <- !app_assoc. cbn [app]. f_equal. f_equal.
  f_equal. f_equal. f_equal. rewrite <- app_assoc. reflexivity.
Qed.

Lemma bracket_start_key key b rest :
  bracket_start_of (key_text key ++ cLBRACK :: b ++ rest) = Ok (Some (length (key_text key))).
Proof.
  unfold bracket_start_of. destruct key as [k|]; cbn [key_text]; [|reflexivity].
  rewrite trim_start_key, starts_with_app, starts_with_dq_key by apply encode_key_nonempty.
  destruct (is_valid_unquoted_key k) eqn:E; cbn [negb].
  - rewrite find_char_app; [reflexivity|]. rewrite encode_key_plain by auto.
    apply valid_key_not_in; auto.
  - rewrite encode_key_quoted by auto.
    replace (find_closing_quote (quoted k ++ cLBRACK :: b ++ rest) 0)
      with (Some (S (length (escape_string k)))).
    2: { unfold quoted. cbn [app]. rewrite <- app_assoc. cbn [app]. now rewrite find_closing_quoted. }
    assert (HL : length (quoted k) = S (S (length (escape_string k)))).
    { unfold quoted. cbn [length]. rewrite app_length. cbn [length]. lia. }
    rewrite skipn_app_exact by lia. cbn [starts_with N.eqb Pos.eqb negb].
    rewrite find_from_app by lia. cbn [find_char N.eqb Pos.eqb option_map]. do 2 f_equal. lia.
Qed.

Lemma not_in_keys c d ks : std_delim d -> c <> d ->
  c <> cBSLASH -> c <> cLN -> c <> cLR -> c <> cLT -> c <> cDQ ->
  Forall (fun f => ~ In c f) ks -> ~ In c (join d (map encode_key ks)).
Proof.
  intros Hd Hcd H1 H2 H3 H4 H5 H Hi. apply in_join in Hi as [Hi|(s & Hs & Hi)]; [congruence|].
  apply in_map_iff in Hs as (k & <- & Hk). rewrite Forall_forall in H. specialize (H k Hk).
  unfold encode_key in Hi. destruct (is_valid_unquoted_key k); [contradiction|].
  destruct Hi as [Hi|Hi]; [congruence|]. apply in_app_iff in Hi as [Hi|[Hi|[]]]; [|congruence].
  revert Hi. now apply escape_not_in.
Qed.

Lemma find_char_ge c x s : x <> c -> match find_char c (x :: s) with Some i => 1 <= i | None => True end.
Proof.
  intros H. cbn [find_char]. apply N.eqb_neq in H. rewrite H.
  destruct (find_char c s); cbn; lia.
Qed.

Lemma header_colon_ok P fields d tail be :
  S be = length P -> std_delim d -> no_rbrace fields ->
  header_colon (P ++ fields_text fields d ++ cCOLON :: tail) be
  = Some (length P + length (fields_text fields d)).
Proof.
  intros HP Hd Hf. unfold header_colon. destruct fields as [fs|]; cbn [fields_text].
  - set (J := join d (map encode_key fs)).
    assert (HJ : ~ In cRBRACE J).
    { apply not_in_keys; auto; try discriminate. destruct Hd as [->|[->| ->]]; discriminate. }
    rewrite (find_from_app cLBRACE P _ (S be)), (find_from_app cCOLON P _ (S be)) by auto. cbn [app].
    assert (Hb : find_char cLBRACE (cLBRACE :: (J ++ [cRBRACE]) ++ cCOLON :: tail) = Some 0)
      by reflexivity.
    assert (Hc : exists j, find_char cCOLON (cLBRACE :: (J ++ [cRBRACE]) ++ cCOLON :: tail) = Some (S j)).
    { cbn [find_char N.eqb Pos.eqb].
      destruct (find_char cCOLON ((J ++ [cRBRACE]) ++ cCOLON :: tail)) as [j|] eqn:Ej.
      - exists j. reflexivity.
      - apply find_char_None in Ej. exfalso. apply Ej. rewrite in_app_iff. right. now left. }
    destruct Hc as (j & Hc). rewrite Hb, Hc. cbn [option_map].
    replace (Nat.ltb (S be + 0) (S be + S j)) with true by lia.
    rewrite (find_from_app cRBRACE P _ (S be + 0)) by lia.
    replace (find_char cRBRACE (cLBRACE :: (J ++ [cRBRACE]) ++ cCOLON :: tail))
      with (Some (S (length J))).
    2: { cbn [find_char N.eqb Pos.eqb]. rewrite <- app_assoc. cbn [app].
         rewrite find_char_app by auto. reflexivity. }
    cbn [option_map].
    replace (P ++ cLBRACE :: (J ++ [cRBRACE]) ++ cCOLON :: tail)
      with ((P ++ cLBRACE :: J ++ [cRBRACE]) ++ cCOLON :: tail)
      by (now rewrite <- app_assoc).
    rewrite find_from_app.
    2: { rewrite app_length. cbn [length]. rewrite app_length. cbn [length]. lia. }
    cbn [find_char N.eqb Pos.eqb option_map]. f_equal.
    cbn [length]. rewrite app_length. cbn [length]. lia.
  - cbn [app length].
    rewrite (find_from_app cLBRACE P _ (S be)), (find_from_app cCOLON P _ (S be)) by auto.
    assert (H : find_char cCOLON (cCOLON :: tail) = Some 0) by reflexivity. rewrite H.
    cbn [option_map].
    pose proof (find_char_ge cLBRACE cCOLON tail) as Hg.
    destruct (find_char cLBRACE (cCOLON :: tail)) as [i|]; cbn [option_map].
    + specialize (Hg ltac:(discriminate)).
      replace (Nat.ltb (S be + i) (S be + 0)) with false by lia.
      rewrite find_from_app by auto. rewrite H. cbn [option_map]. f_equal. lia.
    + rewrite find_from_app by auto. rewrite H. cbn [option_map]. f_equal. lia.
Qed.

Lemma header_fields_ok P fields d tail be :
  S be = length P -> std_delim d -> no_rbrace fields ->
  header_fields (P ++ fields_text fields d ++ cCOLON :: tail) be
    (length P + length (fields_text fields d)) d
  = Ok (option_map (map field_of) fields).
Proof.
  intros HP Hd Hf. unfold header_fields. rewrite find_from_app by auto.
  destruct fields as [fs|]; cbn [fields_text].
  - set (J := join d (map encode_key fs)).
    assert (HJ : ~ In cRBRACE J).
    { apply not_in_keys; auto; try discriminate. destruct Hd as [->|[->| ->]]; discriminate. }
    cbn [app find_char N.eqb Pos.eqb option_map].
    assert (HL : length (cLBRACE :: J ++ [cRBRACE]) = S (S (length J)))
      by (cbn [length]; rewrite app_length; cbn [length]; lia).
    rewrite HL.
    replace (Nat.ltb (S be + 0) (length P + S (S (length J)))) with true by lia.
    rewrite find_from_app by lia. cbn [find_char N.eqb Pos.eqb].
    rewrite <- app_assoc. cbn [app]. rewrite find_char_app by auto. cbn [option_map].
    replace (Nat.ltb (S be + 0 + S (length J)) (length P + S (S (length J)))) with true by lia.
    replace (slice (S (S be + 0)) (S be + 0 + S (length J)) (P ++ cLBRACE :: J ++ cRBRACE :: cCOLON :: tail))
      with J.
    + unfold J. rewrite parse_fields_ok by auto. reflexivity.
    + change (P ++ cLBRACE :: J ++ cRBRACE :: cCOLON :: tail)
        with (P ++ [cLBRACE] ++ J ++ cRBRACE :: cCOLON :: tail).
      rewrite app_assoc. symmetry. apply slice_app; rewrite app_length; cbn [length]; lia.
  - cbn [app length]. pose proof (find_char_ge cLBRACE cCOLON tail) as Hg.
    destruct (find_char cLBRACE (cCOLON :: tail)) as [i|]; cbn [option_map]; [|reflexivity].
    specialize (Hg ltac:(discriminate)).
    now replace (Nat.ltb (S be + i) (length P + 0)) with false by lia.
Qed.

Lemma header_key_ok key rest :
  header_key (key_text key ++ rest) (length (key_text key)) = Ok (key, key_quoted key).
Proof.
  unfold header_key. destruct key as [k|]; cbn [key_text key_quoted]; [|reflexivity].
  pose proof (encode_key_nonempty k) as Hn.
  replace (Nat.ltb 0 (length (encode_key k))) with true by (destruct (encode_key k); [congruence|reflexivity]).
  rewrite firstn_app_exact by auto. rewrite trim_tight by apply encode_key_tight.
  rewrite starts_with_dq_key, parse_string_literal_key.
  destruct (is_valid_unquoted_key k) eqn:E; cbn [negb bind]; [|reflexivity].
  rewrite encode_key_plain by auto. apply valid_key_chars in E as [E _].
  destruct k; [congruence|reflexivity].
Qed.

(** Every header the encoder writes is read back. *)
Lemma parse_header_ok n key fields d tail :
  std_delim d -> (N.of_nat n <= MAX_DECLARED_ARRAY_LENGTH)%N -> no_rbrace fields ->
  parse_array_header_line (format_header n key fields d ++ tail) DEFAULT_DELIMITER
  = Ok (Some (Header key (key_quoted key) (N.of_nat n) d (option_map (map field_of) fields),
              if is_empty (trim tail) then None else Some (trim tail))).
Proof.
  intros Hd Hn Hf. rewrite format_header_eq. unfold parse_array_header_line.
  set (K := key_text key). set (B := dec_of_N (N.of_nat n) ++ delim_suffix d).
  set (F := fields_text fields d).
  assert (EB : bracket_start_of (K ++ cLBRACK :: B ++ cRBRACK :: F ++ cCOLON :: tail)
               = Ok (Some (length K))) by apply bracket_start_key.
  rewrite EB. cbn [bind]. rewrite find_from_app by auto.
  assert (ER : find_char cRBRACK (cLBRACK :: B ++ cRBRACK :: F ++ cCOLON :: tail) = Some (S (length B))).
  { cbn [find_char N.eqb Pos.eqb]. rewrite find_char_app; [reflexivity|].
    intros H. apply bracket_in in H; tauto. }
  rewrite ER. cbn [option_map].
  set (P := K ++ cLBRACK :: B ++ [cRBRACK]).
  assert (HP : S (length K + S (length B)) = length P).
  { unfold P. rewrite app_length. cbn [length]. rewrite app_length. cbn [length]. lia. }
  assert (EP : K ++ cLBRACK :: B ++ cRBRACK :: F ++ cCOLON :: tail = P ++ F ++ cCOLON :: tail).
  { unfold P. rewrite <- app_assoc. cbn [app]. now rewrite <- app_assoc. }
  rewrite EP. unfold F. rewrite header_colon_ok by auto. fold F.
  rewrite <- EP at 1. unfold K. rewrite header_key_ok. fold K. cbn [bind].
  replace (slice (S (length K)) (length K + S (length B)) (P ++ F ++ cCOLON :: tail)) with B.
  2: { rewrite <- EP. change (K ++ cLBRACK :: B ++ cRBRACK :: F ++ cCOLON :: tail)
         with (K ++ [cLBRACK] ++ B ++ cRBRACK :: F ++ cCOLON :: tail).
       rewrite app_assoc. symmetry. apply slice_app; rewrite app_length; cbn [length]; lia. }
  unfold B. rewrite parse_bracket_ok.
  2: auto.
  2: { unfold MAX_DECLARED_ARRAY_LENGTH, USIZE_MAX in *. lia. }
  replace (MAX_DECLARED_ARRAY_LENGTH <? N.of_nat n)%N with false by lia.
  unfold F. rewrite header_fields_ok by auto. cbn [bind]. fold F.
  replace (skipn (S (length P + length F)) (P ++ F ++ cCOLON :: tail)) with tail; [reflexivity|].
  change (P ++ F ++ cCOLON :: tail) with (P ++ F ++ [cCOLON] ++ tail). rewrite !app_assoc.
  symmetry. apply skipn_app_exact. rewrite !app_length. cbn [length]. lia.
Qed.

Lemma header_is_header_content n fields d tail : std_delim d ->
  is_array_header_content (format_header n None fields d ++ tail) = true.
Proof.
  intros Hd. rewrite format_header_eq. cbn [key_text app]. unfold is_array_header_content.
  rewrite trim_start_nonws by reflexivity. cbn [starts_with]. rewrite N.eqb_refl. cbn [andb].
  unfold is_key_value_content. rewrite find_unquoted_0.
  set (B := dec_of_N (N.of_nat n) ++ delim_suffix d).
  rewrite scan_char by discriminate.
  rewrite scan_unquoted_plain.
  2,3: intros H; apply bracket_in in H; tauto.
  rewrite scan_char by discriminate.
  destruct fields as [fs|]; cbn [fields_text].
  - cbn [app]. rewrite scan_char by discriminate. rewrite <- app_assoc.
    rewrite scan_join_colon by auto using Forall_tok_keys. cbn [app].
    rewrite scan_char by discriminate. now rewrite scan_hit.
  - cbn [app]. now rewrite scan_hit.
Qed.

Lemma key_header_is_key_value n k fields d tail : std_delim d ->
  is_key_value_content (format_header n (Some k) fields d ++ tail) = true.
Proof.
  intros Hd. rewrite format_header_eq. cbn [key_text]. unfold is_key_value_content.
  rewrite find_unquoted_0. rewrite (scan_tok_colon d) by now apply encode_key_tok.
  set (B := dec_of_N (N.of_nat n) ++ delim_suffix d).
  rewrite scan_char by discriminate.
  rewrite scan_unquoted_plain.
  2,3: intros H; apply bracket_in in H; tauto.
  rewrite scan_char by discriminate.
  destruct fields as [fs|]; cbn [fields_text].
  - cbn [app]. rewrite scan_char by discriminate. rewrite <- app_assoc.
    rewrite scan_join_colon by auto using Forall_tok_keys. cbn [app].
    rewrite scan_char by discriminate. now rewrite scan_hit.
  - cbn [app]. now rewrite scan_hit.
Qed.

(** * Lines that are not headers *)

Definition not_header_under (k : str) (p : prim) : Prop :=
  match p with
  | PStr s => is_valid_unquoted_key k = false \/ ~ header_like s
  | _ => True
  end.

Lemma no_header_no_lbrack s d : starts_with cDQ (trim_start s) = false -> ~ In cLBRACK s ->
  parse_array_header_line s d = Ok None.
Proof.
  intros H1 H2. unfold parse_array_header_line, bracket_start_of. rewrite H1.
  apply find_char_None in H2. now rewrite H2.
Qed.

Lemma no_header_quoted s rest d : starts_with cLBRACK rest = false ->
  parse_array_header_line (quoted s ++ rest) d = Ok None.
Proof.
  intros H. unfold parse_array_header_line, bracket_start_of.
  assert (E : trim_start (quoted s ++ rest) = quoted s ++ rest) by reflexivity.
  rewrite E. unfold quoted at 1. cbn [app starts_with]. rewrite N.eqb_refl.
  replace (find_closing_quote (quoted s ++ rest) 0) with (Some (S (length (escape_string s)))).
  2: { unfold quoted. cbn [app]. rewrite <- app_assoc. cbn [app]. now rewrite find_closing_quoted. }
  assert (HL : length (quoted s) = S (S (length (escape_string s)))).
  { unfold quoted. cbn [length]. rewrite app_length. cbn [length]. lia. }
  rewrite skipn_app_exact by lia. rewrite H. reflexivity.
Qed.

Lemma no_header_tok d t dd : tok d t -> parse_array_header_line t dd = Ok None.
Proof.
  intros [t' H1 H2 H3 H4|s].
  - apply no_header_no_lbrack.
    + destruct t' as [|c r]; [congruence|]. destruct H2 as [H2 _]. rewrite trim_start_nonws by auto.
      cbn [starts_with]. apply N.eqb_neq. intros ->. inversion H3; subst. discriminate.
    + apply plain_not_in; auto.
  - rewrite <- (app_nil_r (quoted s)). now apply no_header_quoted.
Qed.

Lemma no_header_key k dd : parse_array_header_line (encode_key k ++ [cCOLON]) dd = Ok None.
Proof.
  destruct (is_valid_unquoted_key k) eqn:E.
  - apply no_header_no_lbrack.
    + rewrite trim_start_key, starts_with_app, starts_with_dq_key, E by apply encode_key_nonempty.
      reflexivity.
    + rewrite encode_key_plain by auto. rewrite in_app_iff. intros [H|[H|[]]]; [|discriminate].
      now apply valid_key_not_in in H.
  - rewrite encode_key_quoted by auto. now apply no_header_quoted.
Qed.

Lemma parse_usize_inv s n : parse_usize s = Some n ->
  exists sign digits, s = sign ++ digits /\ (sign = [] \/ sign = [cPLUS]) /\ digits <> [] /\
    Forall (fun c => (48 <= c /\ c <= 57)%N) digits /\ (digits_value digits < 2 ^ 64)%N.
Proof.
  unfold parse_usize. intros H.
  set (ds := match s with [] => [] | c :: r => if (c =? cPLUS)%N then r else s end) in *.
  assert (Hs : s = ds \/ s = cPLUS :: ds).
  { unfold ds. destruct s as [|c r]; auto. destruct (N.eqb_spec c cPLUS); subst; auto. }
  destruct (is_empty ds) eqn:E1; [discriminate|]. destruct (forallb is_digit ds) eqn:E2; [|discriminate].
  destruct (N.leb_spec (dec_val ds) USIZE_MAX) as [E3|]; [|discriminate].
  assert (Hv : (digits_value ds < 2 ^ 64)%N) by (change (digits_value ds) with (dec_val ds); unfold USIZE_MAX in E3; lia).
  apply is_empty_false in E1. rewrite forallb_forall in E2.
  assert (Hd : Forall (fun c => (48 <= c /\ c <= 57)%N) ds).
  { apply Forall_forall. intros x Hx. apply E2 in Hx. unfold is_digit in Hx. lia. }
  clearbody ds. destruct Hs as [->| ->].
  - exists [], ds. auto 6.
  - exists [cPLUS], ds. auto 6.
Qed.

Lemma parse_bracket_inv n d r : parse_bracket_segment (escape_string n) d = Ok r -> length_like n.
Proof.
  unfold parse_bracket_segment. intros H.
  destruct (list_last_cases (escape_string n)) as [E|(a & x & E)].
  { rewrite E in H. discriminate. }
  assert (Hx : x <> cTAB).
  { intros ->. assert (Hi : In cTAB (escape_string n)) by (rewrite E, in_app_iff; right; now left).
    apply escape_in in Hi. tauto. }
  rewrite E in H. rewrite !ends_with_snoc in H. apply N.eqb_neq in Hx. rewrite Hx in H.
  assert (HL : exists suffix m content, escape_string n = content ++ suffix /\
             (suffix = [] \/ suffix = [cPIPE]) /\ parse_usize content = Some m).
  { destruct (N.eqb x cPIPE) eqn:Hp.
    - apply N.eqb_eq in Hp. subst x. unfold pop in H. rewrite removelast_last in H. destruct (parse_usize a) eqn:Ea; [|discriminate].
      exists [cPIPE], n0, a. auto.
    - destruct (parse_usize (a ++ [x])) eqn:Ea; [|discriminate].
      exists [], n0, (a ++ [x]). rewrite app_nil_r. auto. }
  destruct HL as (suffix & m & content & E' & Hsuf & Hm).
  apply parse_usize_inv in Hm as (sign & digits & -> & Hsg & Hn & Hd & Hv).
  assert (En : escape_string n = n).
  { apply escape_no_bslash. rewrite E', !in_app_iff. intros [[Hi|Hi]|Hi].
    - destruct Hsg as [->| ->]; cbn in Hi; intuition discriminate.
    - rewrite Forall_forall in Hd. apply Hd in Hi. lia.
    - destruct Hsuf as [->| ->]; cbn in Hi; intuition discriminate. }
  exists sign, digits, suffix. rewrite <- En, E', app_assoc. auto 8.
Qed.

Lemma first_split c (s : str) : ~ In c s \/ exists a b, s = a ++ c :: b /\ ~ In c a.
Proof.
  destruct (find_char c s) eqn:E.
  - right. apply find_char_Some in E as (a & b & -> & _ & H). exists a, b. auto.
  - left. now apply find_char_None.
Qed.

Lemma find_from_none c n s : ~ In c (skipn n s) -> find_from c n s = None.
Proof. intros H. unfold find_from. apply find_char_None in H. now rewrite H. Qed.

Lemma skipn_incl {A} n (s : list A) x : In x (skipn n s) -> In x s.
Proof. rewrite <- (firstn_skipn n s) at 2. rewrite in_app_iff. auto. Qed.

Lemma header_colon_none content be :
  ~ In cCOLON (skipn (S be) content) -> header_colon content be = None.
Proof.
  intros H. unfold header_colon. rewrite (find_from_none cCOLON (S be)) by auto.
  destruct (find_from cLBRACE (S be) content); now apply find_from_none.
Qed.

(** Colons that stand only between the braces do not end a header. *)
Lemma header_colon_braces pre m f r be : S be = length pre ->
  ~ In cLBRACE m -> ~ In cCOLON m -> ~ In cRBRACE f -> In cCOLON f -> ~ In cCOLON r ->
  header_colon (pre ++ m ++ cLBRACE :: f ++ cRBRACE :: r) be = None.
Proof.
  intros L Hm Hmc Hf Hfc Hr. unfold header_colon. rewrite L.
  assert (E1 : find_from cLBRACE (length pre) (pre ++ m ++ cLBRACE :: f ++ cRBRACE :: r) = Some (length pre + length m)).
  { rewrite find_from_app by auto. now rewrite find_char_app by auto. }
  assert (E2 : exists i, find_from cCOLON (length pre) (pre ++ m ++ cLBRACE :: f ++ cRBRACE :: r) = Some (length pre + length m + S i)).
  { rewrite find_from_app by auto. apply in_split in Hfc as (x & y & Ef).
    destruct (first_split cCOLON f) as [Hn|(f1 & f2 & -> & Hf1)].
    - exfalso. apply Hn. rewrite Ef, in_app_iff. right. now left.
    - replace (m ++ cLBRACE :: (f1 ++ cCOLON :: f2) ++ cRBRACE :: r)
        with ((m ++ cLBRACE :: f1) ++ cCOLON :: f2 ++ cRBRACE :: r).
      2: { repeat (rewrite <- !app_assoc; cbn [app]). reflexivity. }
      rewrite find_char_app.
      + exists (length f1). cbn [option_map]. rewrite app_length. cbn [length]. f_equal. lia.
      + rewrite in_app_iff. intros [H|[H|H]]; [auto|discriminate|auto]. }
  destruct E2 as (i & E2). rewrite E1, E2.
  destruct (Nat.ltb_spec (length pre + length m) (length pre + length m + S i)); [|lia].
  assert (E3 : find_from cRBRACE (length pre + length m) (pre ++ m ++ cLBRACE :: f ++ cRBRACE :: r)
               = Some (length pre + length m + S (length f))).
  { rewrite app_assoc. rewrite find_from_app by (rewrite app_length; reflexivity).
    change (cLBRACE :: f ++ cRBRACE :: r) with ((cLBRACE :: f) ++ cRBRACE :: r).
    rewrite find_char_app; [reflexivity|]. intros [H0|H0]; [discriminate|auto]. }
  rewrite E3. apply find_from_none.
  replace (pre ++ m ++ cLBRACE :: f ++ cRBRACE :: r) with ((pre ++ m ++ cLBRACE :: f ++ [cRBRACE]) ++ r).
  2: { repeat (rewrite <- !app_assoc; cbn [app]). reflexivity. }
  rewrite skipn_app_exact; [exact Hr|]. rewrite !app_length. cbn [length]. rewrite app_length. cbn. lia.
Qed.

Lemma colon_follows_dec b : colon_follows b \/ ~ In cCOLON b \/
  exists m f r, b = m ++ cLBRACE :: f ++ cRBRACE :: r /\ ~ In cLBRACE m /\ ~ In cCOLON m /\
    ~ In cRBRACE f /\ In cCOLON f /\ ~ In cCOLON r.
Proof.
  destruct (in_dec N.eq_dec cCOLON b) as [Hc|Hc]; [|auto].
  destruct (first_split cLBRACE b) as [Hb|(m & r & -> & Hm)].
  { left. left. apply in_split in Hc as (m & t & ->). exists m, t. split; auto. rewrite in_app_iff in Hb. tauto. }
  destruct (in_dec N.eq_dec cCOLON m) as [Hcm|Hcm].
  { left. left. apply in_split in Hcm as (x & y & ->). exists x, (y ++ cLBRACE :: r). split.
    - now rewrite <- app_assoc.
    - rewrite in_app_iff in Hm. tauto. }
  apply in_app_iff in Hc as [Hc|[Hc|Hc]]; [tauto|discriminate|].
  destruct (first_split cRBRACE r) as [Hr|(f & t & -> & Hf)].
  { left. right. right. exists m, r. auto. }
  destruct (in_dec N.eq_dec cCOLON t) as [Hct|Hct].
  { left. right. left. exists m, f, t. auto. }
  apply in_app_iff in Hc as [Hc|[Hc|Hc]]; [|discriminate|tauto].
  right. right. exists m, f, t. auto 8.
Qed.

(** A key with a primitive that does not look like a header is not taken for one. *)
Lemma no_header_kv k p d dd : std_delim d -> not_header_under k p ->
  parse_array_header_line (encode_key k ++ [cCOLON; cSPACE] ++ encode_primitive p d) dd = Ok None.
Proof.
  intros Hd Hp. destruct (is_valid_unquoted_key k) eqn:E.
  2: { rewrite encode_key_quoted by auto. now apply no_header_quoted. }
  assert (Hst : starts_with cDQ (trim_start (encode_key k ++ [cCOLON; cSPACE] ++ encode_primitive p d)) = false).
  { rewrite trim_start_key, starts_with_app, starts_with_dq_key, E by apply encode_key_nonempty. reflexivity. }
  assert (Hk : forall t, ~ In cLBRACK t -> ~ In cLBRACK (encode_key k ++ [cCOLON; cSPACE] ++ t)).
  { intros t Ht. rewrite encode_key_plain by auto. rewrite !in_app_iff.
    intros [H|[H|H]]; [|cbn in H; intuition discriminate|auto].
    now apply valid_key_not_in in H. }
  pose proof (encode_primitive_tok p d Hd) as Ht. inversion Ht as [t H1 H2 H3 H4 H5|s H5].
  { apply no_header_no_lbrack; auto. apply Hk. apply plain_not_in; auto. }
  (* quoted: p is a string *)
  destruct p as [s'|x|b|]; cbn [encode_primitive] in *.
  2: { exfalso. unfold format_number in H5. destruct (f64_is_zero x) eqn:Ez; [discriminate|].
       destruct (f64_is_finite x) eqn:Ex; [|discriminate]. cbn [negb] in H5.
       destruct (f64_to_string_shape x Ex Ez) as (sg & ip & fp & Es & Hi & Hf & Hn & _).
       rewrite Es in H5. pose proof (fixed_chars sg ip fp Hi Hf) as Hc. rewrite <- H5 in Hc.
       inversion Hc; subst. apply num_char_facts in H1. tauto. }
  2: destruct b; discriminate.
  2: discriminate.
  unfold encode_string_literal in *. destruct (is_safe_unquoted s' d) eqn:Es.
  { apply safe_unquoted_inv in Es as (_ & _ & _ & _ & _ & Hq & _). exfalso. apply Hq.
    rewrite <- H5. now left. }
  rewrite H5. clear s H5. rename s' into s. cbn [not_header_under] in Hp. destruct Hp as [Hp|Hp]; [congruence|].
  fold (quoted s) in *.
  destruct (first_split cLBRACK s) as [Hno|(a & r & -> & Ha)].
  { apply no_header_no_lbrack; auto. apply Hk. unfold quoted. cbn [In]. rewrite in_app_iff.
    intros [H|[H|[H|[]]]]; try discriminate. revert H. apply escape_not_in; auto; discriminate. }
  set (A := encode_key k ++ [cCOLON; cSPACE; cDQ] ++ escape_string a).
  set (R := escape_string r ++ [cDQ]).
  assert (EC : encode_key k ++ [cCOLON; cSPACE] ++ quoted (a ++ cLBRACK :: r) = A ++ cLBRACK :: R).
  { unfold A, R, quoted. rewrite escape_app, escape_cons. rewrite <- !app_assoc. cbn [app].
    change (escape_char cLBRACK) with [cLBRACK]. cbn [app]. repeat (rewrite <- app_assoc; cbn [app]). reflexivity. }
  rewrite EC in *.
  assert (HA : ~ In cLBRACK A).
  { unfold A. apply Hk. intros [H|H]; [discriminate|]. revert H. apply escape_not_in; auto; discriminate. }
  unfold parse_array_header_line, bracket_start_of. rewrite Hst, find_char_app by auto. cbn [bind].
  rewrite find_from_app by auto.
  destruct (first_split cRBRACK r) as [Hno|(n & b & -> & Hn)].
  { replace (find_char cRBRACK (cLBRACK :: R)) with (@None nat); [reflexivity|].
    symmetry. apply find_char_None. intros [H|H]; [discriminate|]. unfold R in H.
    apply in_app_iff in H as [H|[H|[]]]; [|discriminate]. revert H.
    apply escape_not_in; auto; discriminate. }
  assert (ER : R = escape_string n ++ cRBRACK :: escape_string b ++ [cDQ]).
  { unfold R. rewrite escape_app, escape_cons. change (escape_char cRBRACK) with [cRBRACK].
    cbn [app]. repeat (rewrite <- app_assoc; cbn [app]). reflexivity. }
  rewrite ER.
  replace (find_char cRBRACK (cLBRACK :: escape_string n ++ cRBRACK :: escape_string b ++ [cDQ]))
    with (Some (S (length (escape_string n)))).
  2: { cbn [find_char N.eqb Pos.eqb]. rewrite find_char_app; [reflexivity|].
       apply escape_not_in; auto; discriminate. }
  cbn [option_map].
  set (P := A ++ cLBRACK :: escape_string n ++ [cRBRACK]).
  assert (EP : A ++ cLBRACK :: escape_string n ++ cRBRACK :: escape_string b ++ [cDQ]
               = P ++ escape_string b ++ [cDQ]).
  { unfold P. rewrite <- app_assoc. cbn [app]. now rewrite <- app_assoc. }
  assert (HPl : S (length A + S (length (escape_string n))) = length P).
  { unfold P. rewrite app_length. cbn [length]. rewrite app_length. cbn [length]. lia. }
  destruct (colon_follows_dec b) as [Hc|[Hc|(m0 & f0 & r0 & Eb0 & Hm0 & Hm1 & Hf0 & Hf1 & Hr0)]].
  3: { rewrite EP, Eb0, escape_app, escape_cons, escape_app, escape_cons.
       change (escape_char cLBRACE) with [cLBRACE]. change (escape_char cRBRACE) with [cRBRACE].
       replace ((escape_string m0 ++ [cLBRACE] ++ escape_string f0 ++ [cRBRACE] ++ escape_string r0) ++ [cDQ])
         with (escape_string m0 ++ cLBRACE :: escape_string f0 ++ cRBRACE :: (escape_string r0 ++ [cDQ]))
         by (repeat (rewrite <- !app_assoc; cbn [app]); reflexivity).
       rewrite header_colon_braces; auto; try (apply escape_not_in; auto; discriminate).
       - apply in_split in Hf1 as (x & y & ->). rewrite escape_app, in_app_iff. right. now left.
       - rewrite in_app_iff. intros [H|[H|[]]]; [|discriminate]. revert H. apply escape_not_in; auto; discriminate. }
  2: { rewrite header_colon_none; [reflexivity|]. rewrite EP, skipn_app_exact by auto.
       rewrite in_app_iff. intros [H|[H|[]]]; [|discriminate]. revert H.
       apply escape_not_in; auto; discriminate. }
  assert (Hnl : ~ length_like n).
  { intros Hl. apply Hp. exists a, n, b. auto. }
  destruct (header_colon (A ++ cLBRACK :: escape_string n ++ cRBRACK :: escape_string b ++ [cDQ])
             (length A + S (length (escape_string n)))) as [ci|]; [|reflexivity].
  replace (header_key (A ++ cLBRACK :: escape_string n ++ cRBRACK :: escape_string b ++ [cDQ]) (length A))
    with (Ok (Some (trim A), false)).
  2: { unfold header_key. rewrite firstn_app_exact by auto.
       destruct (trim_spec A) as (l & r & EA & Hl & Hr & _).
       assert (Hk0 : exists c0 k0, encode_key k = c0 :: k0 /\ is_ws c0 = false /\ c0 <> cDQ).
       { rewrite encode_key_plain by auto. pose proof (valid_key_chars k E) as [Hkn Hkf].
         destruct k as [|c0 k0]; [congruence|]. exists c0, k0. inversion Hkf; subst.
         apply ident_char in H1. tauto. }
       destruct Hk0 as (c0 & k0 & Ek & Hw & Hq).
       assert (HA0 : exists r0, A = c0 :: r0) by (unfold A; rewrite Ek; cbn [app]; eauto).
       destruct HA0 as (r0 & HA0).
       assert (Hl0 : l = []).
       { destruct l as [|c1 l]; [reflexivity|]. exfalso. rewrite HA0 in EA. cbn [app] in EA.
         injection EA as -> _. inversion Hl; subst. congruence. }
       subst l. cbn [app] in EA.
       assert (Ht0 : exists r1, trim A = c0 :: r1).
       { destruct (trim A) as [|c1 t1] eqn:Et.
         - exfalso. cbn [app] in EA. rewrite HA0 in EA. subst r. inversion Hr; subst. congruence.
         - rewrite HA0 in EA. cbn [app] in EA. injection EA as -> _. eauto. }
       destruct Ht0 as (r1 & Ht0). rewrite Ht0. cbn [starts_with is_empty negb].
       apply N.eqb_neq in Hq. rewrite Hq, HA0. reflexivity. }
  cbn [bind].
  replace (slice (S (length A)) (length A + S (length (escape_string n)))
             (A ++ cLBRACK :: escape_string n ++ cRBRACK :: escape_string b ++ [cDQ]))
    with (escape_string n).
  2: { change (A ++ cLBRACK :: escape_string n ++ cRBRACK :: escape_string b ++ [cDQ])
         with (A ++ [cLBRACK] ++ escape_string n ++ cRBRACK :: escape_string b ++ [cDQ]).
       rewrite app_assoc. symmetry. apply slice_app; rewrite app_length; cbn [length]; lia. }
  destruct (parse_bracket_segment (escape_string n) dd) as [r|] eqn:Eb; [|reflexivity].
  exfalso. apply Hnl. eapply parse_bracket_inv. exact Eb.
Qed.

