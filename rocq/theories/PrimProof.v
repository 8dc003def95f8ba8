(** Tokens: escaping, quoting, primitives and keys round trip; quote-aware scanning. *)
From Verif Require Import Chars Floats Json Shared EncPrim Normalize Parser Lex NumProof.

Local Open Scope nat_scope.

(** * Escaping *)

Lemma escape_cons c s : escape_string (c :: s) = escape_char c ++ escape_string s.
Proof. reflexivity. Qed.

Lemma escape_app a b : escape_string (a ++ b) = escape_string a ++ escape_string b.
Proof. unfold escape_string. apply flat_map_app. Qed.

(** The five escaped characters and the rest. *)
Lemma escape_char_cases c :
  (exists x, escape_char c = [cBSLASH; x] /\ (x = cBSLASH \/ x = cDQ \/ x = cLN \/ x = cLR \/ x = cLT) /\
             (c = cBSLASH \/ c = cDQ \/ c = cLF \/ c = cCR \/ c = cTAB) /\
             (forall r, unescape_string (cBSLASH :: x :: r) =
                        let? t := unescape_string r in Ok (c :: t))) \/
  (escape_char c = [c] /\ c <> cBSLASH /\ c <> cDQ /\ c <> cLF /\ c <> cCR /\ c <> cTAB).
Proof.
  unfold escape_char.
  destruct (N.eqb_spec c cBSLASH); [left; subst; exists cBSLASH; repeat split; auto|].
  destruct (N.eqb_spec c cDQ); [left; subst; exists cDQ; repeat split; auto|].
  destruct (N.eqb_spec c cLF); [left; subst; exists cLN; repeat split; auto|].
  destruct (N.eqb_spec c cCR); [left; subst; exists cLR; repeat split; auto|].
  destruct (N.eqb_spec c cTAB); [left; subst; exists cLT; repeat split; auto 6|].
  right. repeat split; auto.
Qed.

Lemma unescape_plain c r : c <> cBSLASH ->
  unescape_string (c :: r) = let? t := unescape_string r in Ok (c :: t).
Proof. intros H. simpl. destruct (N.eqb_spec c cBSLASH); [contradiction|]. reflexivity. Qed.

Lemma unescape_escape s : unescape_string (escape_string s) = Ok s.
Proof.
  induction s as [|c s IH]; [reflexivity|]. rewrite escape_cons.
  destruct (escape_char_cases c) as [(x & E & _ & _ & H)|(E & H & _)]; rewrite E; simpl app.
  - rewrite H, IH. reflexivity.
  - rewrite unescape_plain, IH by auto. reflexivity.
Qed.

Lemma escape_in c s : In c (escape_string s) ->
  c <> cLF /\ c <> cCR /\ c <> cTAB /\ (In c s \/ c = cBSLASH \/ c = cLN \/ c = cLR \/ c = cLT).
Proof.
  unfold escape_string. rewrite in_flat_map. intros (x & Hx & Hc).
  destruct (escape_char_cases x) as [(y & E & Hy & Hy' & _)|(E & Hn)]; rewrite E in Hc;
    simpl in Hc.
  - destruct Hc as [<-|[<-|[]]].
    + repeat split; try discriminate; auto.
    + destruct Hy as [->|[->|[->|[->| ->]]]]; repeat split; try discriminate; auto 6.
      unfold escape_char in E. destruct Hy' as [->|[->|[->|[->| ->]]]]; simpl in E; try discriminate E.
      auto.
  - destruct Hc as [<-|[]]. repeat split; try tauto.
Qed.

Lemma escape_not_in c s :
  c <> cBSLASH -> c <> cLN -> c <> cLR -> c <> cLT -> ~ In c s -> ~ In c (escape_string s).
Proof. intros H1 H2 H3 H4 H5 H. apply escape_in in H. tauto. Qed.

Lemma escape_no_bslash s : ~ In cBSLASH (escape_string s) -> escape_string s = s.
Proof.
  induction s as [|c s IH]; [reflexivity|]. rewrite escape_cons. intros H.
  destruct (escape_char_cases c) as [(x & E & _)|(E & _)]; rewrite E in *.
  - exfalso. apply H. left. reflexivity.
  - simpl. f_equal. apply IH. intros Hi. apply H. right. exact Hi.
Qed.

Lemma escape_no_dq_plain s :
  ~ In cDQ s -> ~ In cBSLASH s -> ~ In cLF s -> ~ In cCR s -> ~ In cTAB s -> escape_string s = s.
Proof.
  induction s as [|c s IH]; [reflexivity|]. simpl In. intros. rewrite escape_cons.
  destruct (escape_char_cases c) as [(x & _ & _ & Hc & _)|(E & _)].
  - exfalso. intuition.
  - rewrite E. simpl. f_equal. apply IH; intuition.
Qed.

Lemma escape_inj a b : escape_string a = escape_string b -> a = b.
Proof.
  intros H. pose proof (unescape_escape a) as Ha. rewrite H, unescape_escape in Ha. congruence.
Qed.

(** * Quote scanning over an escaped string *)

Lemma scan_quote_bslash x r i : scan_quote (cBSLASH :: x :: r) i = scan_quote r (S (S i)).
Proof. reflexivity. Qed.

Lemma scan_quote_plain c r i : c <> cBSLASH -> c <> cDQ -> scan_quote (c :: r) i = scan_quote r (S i).
Proof.
  intros H1 H2. simpl. destruct (N.eqb_spec c cBSLASH); [contradiction|].
  destruct (N.eqb_spec c cDQ); [contradiction|]. destruct r; reflexivity.
Qed.

Lemma scan_quote_escape s rest i :
  scan_quote (escape_string s ++ cDQ :: rest) i = Some (i + length (escape_string s)).
Proof.
  revert i. induction s as [|c s IH]; intros i.
  - simpl. rewrite Nat.add_0_r. destruct rest; reflexivity.
  - rewrite escape_cons, <- app_assoc, app_length.
    destruct (escape_char_cases c) as [(x & E & _)|(E & H1 & H2 & _)]; rewrite E; simpl app.
    + rewrite scan_quote_bslash, IH. simpl. f_equal. lia.
    + rewrite scan_quote_plain, IH by auto. simpl. f_equal. lia.
Qed.

Lemma find_closing_quoted s rest :
  find_closing_quote (cDQ :: escape_string s ++ cDQ :: rest) 0 = Some (S (length (escape_string s))).
Proof. unfold find_closing_quote. simpl length. cbn [Nat.leb skipn]. now rewrite scan_quote_escape. Qed.

Lemma scan_unquoted_bslash t x r i :
  scan_unquoted t (cBSLASH :: x :: r) true i = scan_unquoted t r true (S (S i)).
Proof. reflexivity. Qed.

Lemma scan_unquoted_inq t c r i : c <> cBSLASH -> c <> cDQ ->
  scan_unquoted t (c :: r) true i = scan_unquoted t r true (S i).
Proof.
  intros H1 H2. simpl. destruct (N.eqb_spec c cBSLASH); [contradiction|].
  destruct (N.eqb_spec c cDQ); [contradiction|]. rewrite andb_false_r. destruct r; reflexivity.
Qed.

Lemma scan_unquoted_dq t r q i :
  scan_unquoted t (cDQ :: r) q i = scan_unquoted t r (negb q) (S i).
Proof. destruct r; simpl; destruct q; reflexivity. Qed.

Lemma scan_unquoted_escape t s rest i :
  scan_unquoted t (escape_string s ++ cDQ :: rest) true i
  = scan_unquoted t rest false (S (i + length (escape_string s))).
Proof.
  revert i. induction s as [|c s IH]; intros i.
  - cbn [escape_string flat_map app]. rewrite scan_unquoted_dq. simpl. now rewrite Nat.add_0_r.
  - rewrite escape_cons, <- app_assoc, app_length.
    destruct (escape_char_cases c) as [(x & E & _)|(E & H1 & H2 & _)]; rewrite E; cbn [app].
    + rewrite scan_unquoted_bslash, IH. f_equal. simpl. lia.
    + rewrite scan_unquoted_inq, IH by auto. f_equal. simpl. lia.
Qed.

Lemma scan_unquoted_plain t a rest i :
  ~ In cDQ a -> ~ In t a ->
  scan_unquoted t (a ++ rest) false i = scan_unquoted t rest false (i + length a).
Proof.
  revert i. induction a as [|c a IH]; intros i H1 H2; cbn [app length].
  - now rewrite Nat.add_0_r.
  - simpl in H1, H2. cbn [scan_unquoted andb negb].
    destruct (N.eqb_spec c cDQ); [exfalso; auto|].
    destruct (N.eqb_spec c t); [exfalso; auto|]. cbn [andb].
    rewrite IH by tauto. replace (i + S (length a)) with (S i + length a) by lia.
    destruct (a ++ rest); reflexivity.
Qed.

(** * Characters of keys and numbers *)

Lemma ident_char c : is_alnum c || (c =? cUNDER)%N || (c =? cDOT)%N = true ->
  is_ws c = false /\ c <> cDQ /\ c <> cCOLON /\ c <> cLBRACK /\ c <> cRBRACK /\ c <> cLBRACE /\
  c <> cRBRACE /\ c <> cCOMMA /\ c <> cPIPE /\ c <> cTAB /\ c <> cLF /\ c <> cCR /\ c <> cMINUS /\
  c <> cBSLASH /\ c <> cSPACE.
Proof. unfold is_alnum, is_alpha, is_digit, is_ws. intros H. repeat split; lia. Qed.

Lemma valid_key_chars k : is_valid_unquoted_key k = true ->
  k <> [] /\ Forall (fun c => is_alnum c || (c =? cUNDER)%N || (c =? cDOT)%N = true) k.
Proof.
  destruct k as [|f r]; simpl; [discriminate|]. intros H. apply andb_prop in H as [H1 H2].
  split; [discriminate|]. constructor.
  - unfold is_alnum. destruct (is_alpha f); [reflexivity|]. simpl in *. rewrite H1.
    now rewrite orb_true_r.
  - now apply Forall_forall, forallb_forall.
Qed.

Lemma valid_key_tight k : is_valid_unquoted_key k = true -> tight k.
Proof.
  intros H. apply valid_key_chars in H as [_ H]. apply tight_nonws.
  eapply Forall_impl; [|exact H]. intros c Hc. now apply ident_char in Hc.
Qed.

Lemma valid_key_not_in k c : is_valid_unquoted_key k = true ->
  is_alnum c || (c =? cUNDER)%N || (c =? cDOT)%N = false -> ~ In c k.
Proof.
  intros H Hc Hi. apply valid_key_chars in H as [_ H]. rewrite Forall_forall in H.
  specialize (H _ Hi). congruence.
Qed.

(** * Quoted literals *)

Definition quoted (s : str) : str := cDQ :: escape_string s ++ [cDQ].

Lemma quoted_tight s : tight (quoted s).
Proof. unfold quoted. now apply tight_cons_snoc. Qed.

Lemma slice_app a b c n m : n = length a -> m = length a + length b -> slice n m (a ++ b ++ c) = b.
Proof.
  intros -> ->. unfold slice. rewrite skipn_app_exact by auto. apply firstn_app_exact. lia.
Qed.

Lemma parse_string_literal_quoted s : parse_string_literal (quoted s) = Ok s.
Proof.
  unfold parse_string_literal. rewrite trim_tight by apply quoted_tight.
  unfold quoted. cbn [starts_with]. rewrite N.eqb_refl.
  rewrite find_closing_quoted. cbn [length]. rewrite app_length. cbn [length].
  replace (S (length (escape_string s) + 1) - 1) with (S (length (escape_string s))) by lia.
  rewrite Nat.eqb_refl. cbn [negb].
  change (cDQ :: escape_string s ++ [cDQ]) with ([cDQ] ++ escape_string s ++ [cDQ]).
  rewrite slice_app; [apply unescape_escape | reflexivity | reflexivity].
Qed.

Lemma parse_string_literal_plain s : tight s -> starts_with cDQ s = false ->
  parse_string_literal s = Ok s.
Proof. intros H1 H2. unfold parse_string_literal. now rewrite trim_tight, H2. Qed.

(** * Keys *)

Lemma encode_key_quoted k : is_valid_unquoted_key k = false -> encode_key k = quoted k.
Proof. unfold encode_key. now intros ->. Qed.
Lemma encode_key_plain k : is_valid_unquoted_key k = true -> encode_key k = k.
Proof. unfold encode_key. now intros ->. Qed.

Lemma encode_key_nonempty k : encode_key k <> [].
Proof.
  unfold encode_key. destruct (is_valid_unquoted_key k) eqn:E; [|discriminate].
  now apply valid_key_chars in E.
Qed.

Lemma encode_key_tight k : tight (encode_key k).
Proof.
  unfold encode_key. destruct (is_valid_unquoted_key k) eqn:E.
  - now apply valid_key_tight.
  - apply quoted_tight.
Qed.

Lemma starts_with_dq_key k : starts_with cDQ (encode_key k) = negb (is_valid_unquoted_key k).
Proof.
  unfold encode_key. destruct (is_valid_unquoted_key k) eqn:E; [|reflexivity].
  pose proof (valid_key_chars k E) as [Hn Hf]. destruct k as [|c k]; [congruence|].
  simpl. inversion Hf; subst. apply ident_char in H1. apply N.eqb_neq. tauto.
Qed.

Lemma starts_with_app c a b : a <> [] -> starts_with c (a ++ b) = starts_with c a.
Proof. destruct a; [congruence|reflexivity]. Qed.

Lemma parse_string_literal_key k : parse_string_literal (encode_key k) = Ok k.
Proof.
  destruct (is_valid_unquoted_key k) eqn:E.
  - rewrite encode_key_plain by auto. apply parse_string_literal_plain.
    + now apply valid_key_tight.
    + pose proof (starts_with_dq_key k) as H. rewrite encode_key_plain, E in H; auto.
  - rewrite encode_key_quoted by auto. apply parse_string_literal_quoted.
Qed.

(** A key followed by a colon is read back (C06). *)
Lemma parse_key_token_ok k rest :
  parse_key_token (encode_key k ++ cCOLON :: rest) 0
  = Ok (k, S (length (encode_key k)), negb (is_valid_unquoted_key k)).
Proof.
  unfold parse_key_token. cbn [skipn].
  rewrite starts_with_app, starts_with_dq_key by apply encode_key_nonempty.
  destruct (is_valid_unquoted_key k) eqn:E; cbn [negb].
  - rewrite encode_key_plain by auto. unfold parse_unquoted_key, find_from. cbn [skipn].
    rewrite find_char_app by (apply valid_key_not_in; auto). cbn [option_map bind Nat.add].
    unfold slice. cbn [skipn]. rewrite Nat.sub_0_r, firstn_app_exact by auto.
    rewrite trim_tight by now apply valid_key_tight. reflexivity.
  - rewrite encode_key_quoted by auto. unfold parse_quoted_key.
    unfold quoted. cbn [app]. rewrite <- app_assoc. cbn [app]. rewrite find_closing_quoted.
    change (cDQ :: escape_string k ++ cDQ :: cCOLON :: rest)
      with ([cDQ] ++ escape_string k ++ cDQ :: cCOLON :: rest).
    rewrite slice_app, unescape_escape by reflexivity. cbn [bind].
    replace (skipn (S (S (length (escape_string k)))) ([cDQ] ++ escape_string k ++ cDQ :: cCOLON :: rest))
      with (cCOLON :: rest).
    + cbn [starts_with]. rewrite N.eqb_refl. cbn [length]. rewrite app_length.
      simpl. now rewrite Nat.add_1_r.
    + replace ([cDQ] ++ escape_string k ++ cDQ :: cCOLON :: rest)
        with (([cDQ] ++ escape_string k ++ [cDQ]) ++ cCOLON :: rest)
        by (cbn [app]; now rewrite <- app_assoc).
      symmetry. apply skipn_app_exact. cbn [app length]. rewrite app_length. cbn [length]. lia.
Qed.

(** * Primitive tokens *)

Lemma numeric_literal_like s : is_numeric_literal s = true -> is_numeric_like s = true.
Proof.
  unfold is_numeric_literal, is_numeric_like. destruct (trim s) as [|c t]; auto.
  set (body := if (c =? cMINUS)%N then t else c :: t).
  destruct body as [|d b] eqn:Eb; [discriminate|].
  destruct (N.eqb_spec d cZERO) as [->|Hd].
  - destruct b as [|x b'].
    + intros _. reflexivity.
    + destruct (is_digit x) eqn:Ex; [discriminate|].
      intros H. apply andb_prop in H as [H _]. cbn [span_digits].
      change (is_digit cZERO) with true. cbv iota. rewrite Ex. exact H.
  - destruct (is_digit d) eqn:Ed; [|discriminate].
    intros H. apply andb_prop in H as [H _]. cbn [span_digits] in *. rewrite Ed in *.
    destruct (span_digits b) as [ds r]. cbn [snd] in H.
    destruct (N.eqb_spec d cZERO); [contradiction|]. now rewrite andb_false_r.
Qed.

Lemma safe_unquoted_inv s d : is_safe_unquoted s d = true ->
  s <> [] /\ tight s /\ is_boolean_or_null_literal s = false /\ is_numeric_like s = false /\
  ~ In cCOLON s /\ ~ In cDQ s /\ ~ In cBSLASH s /\ ~ In cLBRACK s /\ ~ In cRBRACK s /\
  ~ In cLBRACE s /\ ~ In cRBRACE s /\ ~ In cLF s /\ ~ In cCR s /\ ~ In cTAB s /\ ~ In d s /\
  starts_with cMINUS s = false.
Proof.
  unfold is_safe_unquoted. intros H.
  repeat match type of H with
  | (if ?b then false else _) = true => destruct b eqn:?; [discriminate|]
  end.
  repeat match goal with
  | H : _ || _ = false |- _ => apply orb_false_iff in H as [? ?]
  | H : contains _ _ = false |- _ => apply contains_not_In in H
  | H : is_empty _ = false |- _ => apply is_empty_false in H
  | H : negb (str_eqb _ _) = false |- _ => apply negb_false_iff, str_eqb_eq, trim_eq_tight in H
  | H : negb _ = true |- _ => apply negb_true_iff in H
  end.
  repeat split; auto.
Qed.

Lemma format_number_shape x :
  f64_is_finite x = true ->
  exists (s : bool) ip fp,
    format_number x = (if s then [cMINUS] else []) ++ ip ++ (if is_empty fp then [] else cDOT :: fp) /\
    all_digits ip /\ all_digits fp /\ ip <> [] /\ (forall r, ip = cZERO :: r -> r = []) /\
    parse_f64 (format_number x) = Some (if f64_is_zero x then f64_zero else x).
Proof.
  intros H. unfold format_number. destruct (f64_is_zero x) eqn:Ez.
  - exists false, [cZERO], []. repeat split; try (repeat constructor); try discriminate.
    intros r Hr. now injection Hr as <-.
  - rewrite H. simpl negb. cbv iota. now apply f64_to_string_shape.
Qed.

(** Characters of a printed number. *)
Definition num_char (c : char) : Prop := is_digit c = true \/ c = cMINUS \/ c = cDOT.

Lemma num_char_facts c : num_char c ->
  is_ws c = false /\ c <> cDQ /\ c <> cCOLON /\ c <> cLBRACK /\ c <> cRBRACK /\ c <> cLBRACE /\
  c <> cRBRACE /\ c <> cCOMMA /\ c <> cPIPE /\ c <> cTAB /\ c <> cLF /\ c <> cCR /\ c <> cBSLASH.
Proof. unfold num_char, is_digit, is_ws. intros [H|[->| ->]]; repeat split; try lia; discriminate. Qed.

Lemma fixed_chars (s : bool) ip fp :
  all_digits ip -> all_digits fp ->
  Forall num_char ((if s then [cMINUS] else []) ++ ip ++ (if is_empty fp then [] else cDOT :: fp)).
Proof.
  unfold num_char. intros Hi Hf. apply Forall_app. split.
  - destruct s; [constructor; [auto|constructor]|constructor].
  - apply Forall_app. split.
    + eapply Forall_impl; [|exact Hi]. auto.
    + destruct (is_empty fp); constructor; auto. eapply Forall_impl; [|exact Hf]. auto.
Qed.

Lemma is_numeric_literal_fixed (s : bool) ip fp x :
  all_digits ip -> all_digits fp -> ip <> [] -> (forall r, ip = cZERO :: r -> r = []) ->
  let t := (if s then [cMINUS] else []) ++ ip ++ (if is_empty fp then [] else cDOT :: fp) in
  parse_f64 t = Some x -> f64_is_finite x = true -> is_numeric_literal t = true.
Proof.
  intros Hi Hf Hn Hz t Hp Hx.
  assert (Ht : tight t).
  { apply tight_nonws. eapply Forall_impl; [|apply fixed_chars; auto].
    intros c Hc. now apply num_char_facts in Hc. }
  unfold is_numeric_literal. rewrite trim_tight by auto.
  set (tail := if is_empty fp then [] else cDOT :: fp) in *.
  assert (Hbody : exists c r, t = c :: r /\ (if (c =? cMINUS)%N then r else t) = ip ++ tail).
  { unfold t. destruct ip as [|d ip]; [congruence|]. inversion Hi; subst.
    destruct s; simpl.
    - eexists _, _. split; reflexivity.
    - eexists _, _. split; [reflexivity|]. destruct (digit_not_special d) as [-> _]; auto. }
  destruct Hbody as (c & r & Et & Eb).
  assert (Hfin : match parse_f64 t with Some x => f64_is_finite x | None => false end = true)
    by now rewrite Hp.
  clearbody t. subst t. cbv zeta. rewrite Eb.
  assert (Htail : num_tail tail = true).
  { unfold tail. destruct fp as [|f fp]; simpl is_empty; cbv iota; [reflexivity|].
    unfold num_tail, num_frac. change (cDOT =? cDOT)%N with true. cbv iota.
    rewrite <- (app_nil_r (f :: fp)) at 1. rewrite span_digits_app by (auto; exact I).
    reflexivity. }
  assert (Hhd : match tail with [] => True | c :: _ => is_digit c = false end).
  { unfold tail. destruct fp; simpl; auto. }
  destruct ip as [|d ip]; [congruence|]. inversion Hi; subst. cbn [app].
  destruct (N.eqb_spec d cZERO) as [->|Hd].
  - rewrite (Hz ip) by reflexivity. cbn [app].
    destruct tail as [|x0 tl]; [|rewrite Hhd]; now rewrite Htail, Hfin.
  - rewrite H1. change (d :: ip ++ tail) with ((d :: ip) ++ tail).
    rewrite span_digits_app by auto. cbn [snd]. now rewrite Htail, Hfin.
Qed.

Lemma num_char_not_literal s : Forall num_char s -> is_boolean_or_null_literal s = false.
Proof.
  intros H. unfold is_boolean_or_null_literal.
  destruct (str_eqb s (lit "true")) eqn:E1; [|destruct (str_eqb s (lit "false")) eqn:E2;
    [|destruct (str_eqb s (lit "null")) eqn:E3; [|reflexivity]]].
  all: match goal with E : str_eqb _ _ = true |- _ => apply str_eqb_eq in E; subst end.
  all: inversion H as [|? ? Hc]; destruct Hc as [Hc|[Hc|Hc]]; discriminate Hc.
Qed.

Lemma parse_prim_number x : f64_is_finite x = true ->
  parse_primitive_token (format_number x) = Ok (PNum (if f64_is_zero x then f64_zero else x)).
Proof.
  intros Hx. destruct (format_number_shape x Hx) as (s & ip & fp & E & Hi & Hf & Hn & Hz & Hp).
  set (y := if f64_is_zero x then f64_zero else x) in *.
  assert (Hy : f64_is_finite y = true) by (unfold y; destruct (f64_is_zero x); auto).
  assert (Hny : f64_is_neg_zero y = false).
  { unfold y. destruct (f64_is_zero x) eqn:Ez; [reflexivity|].
    unfold f64_is_zero, f64_is_neg_zero in *. destruct (f64_sf x) as [[]| | |]; auto. }
  pose proof (is_numeric_literal_fixed s ip fp y Hi Hf Hn Hz) as Hl. cbv zeta in Hl.
  rewrite <- E in Hl. specialize (Hl Hp Hy).
  assert (Hc : Forall num_char (format_number x)) by (rewrite E; now apply fixed_chars).
  assert (Ht : tight (format_number x)).
  { apply tight_nonws. eapply Forall_impl; [|exact Hc]. intros c H. now apply num_char_facts in H. }
  unfold parse_primitive_token. rewrite trim_tight by auto.
  destruct (format_number x) as [|c r] eqn:En.
  { exfalso. destruct ip; [congruence|]. destruct s; discriminate E. }
  rewrite <- En in *. replace (is_empty (format_number x)) with false by now rewrite En.
  replace (starts_with cDQ (format_number x)) with false.
  2: { rewrite En. simpl. symmetry. apply N.eqb_neq. rewrite En in Hc. inversion Hc; subst.
       apply num_char_facts in H1. tauto. }
  rewrite num_char_not_literal, Hl, Hp by auto. cbn [unwrap_or]. now rewrite Hny.
Qed.

(** C03: a printed primitive is read back as the normalised primitive. *)
Lemma parse_encode_primitive p d :
  parse_primitive_token (encode_primitive p d) = Ok (normalize_primitive p).
Proof.
  destruct p as [s|x|b|]; cbn [encode_primitive normalize_primitive].
  - unfold encode_string_literal. destruct (is_safe_unquoted s d) eqn:E.
    + apply safe_unquoted_inv in E as (Hn & Ht & Hb & Hl & _ & Hq & _).
      unfold parse_primitive_token. rewrite trim_tight by auto.
      destruct s as [|c s]; [congruence|]. cbn [is_empty starts_with].
      destruct (N.eqb_spec c cDQ); [subst; exfalso; apply Hq; now left|].
      rewrite Hb. destruct (is_numeric_literal (c :: s)) eqn:El; [|reflexivity].
      apply numeric_literal_like in El. congruence.
    + fold (quoted s). unfold parse_primitive_token. rewrite trim_tight by apply quoted_tight.
      unfold quoted at 1 2. cbn [is_empty starts_with]. rewrite N.eqb_refl.
      now rewrite parse_string_literal_quoted.
  - destruct (f64_is_finite x) eqn:Hx; cbn [negb].
    + rewrite parse_prim_number by auto. destruct (f64_is_zero x); reflexivity.
    + unfold format_number. rewrite Hx.
      replace (f64_is_zero x) with false; [reflexivity|].
      unfold f64_is_finite, f64_is_zero in *. destruct (f64_sf x); auto; discriminate.
  - destruct b; reflexivity.
  - reflexivity.
Qed.
