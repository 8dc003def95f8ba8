(** C39: indices, slices and subtractions of the text-handling code, in bytes.

    A [str] of Rust is the UTF-8 encoding of a list of scalar values.  The theorems say for every
    such text: the byte-level code of ByteLevel.v does not panic (no index out of range, no slice
    outside the text or inside a character, no subtraction below zero) and its loops end; and it
    computes what the character-level model, which all other theorems are about, computes. *)
From Verif Require Import Chars Floats Json Shared Scanner Parser DecValidation Decoders Utf8 Utf8Proof ByteLevel ByteProof.

Local Open Scope nat_scope.

(** A text of Rust, as bytes. *)
Definition text_bytes (b : bytes) : Prop := exists s, b = utf8 s /\ Forall scalar s.
(** Runs to the end: no panic, no endless loop. *)
Definition runs {A} (r : result A) : Prop := r <> Err EPanic /\ r <> Err EFuel.

Lemma runs_ok {A} (a : A) : runs (Ok a). Proof. split; discriminate. Qed.
Lemma runs_on_ok {A B} (f : A -> B) r : runs r -> runs (on_ok f r).
Proof. intros [H1 H2]. destruct r as [a|e]; [apply runs_ok|]. split; intros [= ->]; [now apply H1|now apply H2]. Qed.
Lemma runs_bind {A B} (r : result A) (f : A -> result B) : runs r -> (forall a, runs (f a)) -> runs (bind r f).
Proof. intros [H1 H2] H. destruct r as [a|e]; [apply H|]. split; intros [= ->]; [now apply H1|now apply H2]. Qed.
Lemma runs_err {A} e : e <> EPanic -> e <> EFuel -> runs (A := A) (Err e).
Proof. intros H1 H2. split; intros [= ->]; [now apply H1|now apply H2]. Qed.
Ltac run := repeat first
  [ apply runs_ok | apply runs_err; discriminate
  | match goal with
    | |- runs (if ?b then _ else _) => destruct b
    | |- runs (match ?o with Some _ => _ | None => _ end) => destruct o
    | |- runs (let (_, _) := ?p in _) => destruct p
    | |- runs (bind _ _) => apply runs_bind; [|intros ?]
    end ].
Lemma unescape_runs : forall s, runs (unescape_string s).
Proof.
  intros s. remember (length s) as n eqn:Hn. revert s Hn. induction n as [n IH] using lt_wf_ind. intros s ->.
  destruct s as [|c r]; cbn [unescape_string]; [run|]. destruct (c =? cBSLASH)%N.
  - destruct r as [|e r]; [run|].
    assert (R : runs (unescape_string r)) by (apply (IH (length r)); [cbn; lia|reflexivity]). run; exact R.
  - assert (R : runs (unescape_string r)) by (apply (IH (length r)); [cbn; lia|reflexivity]). run; exact R.
Qed.
Lemma literal_runs s : runs (parse_string_literal s).
Proof. unfold parse_string_literal. cbv zeta. run. apply unescape_runs. Qed.
Lemma token_runs s : runs (parse_primitive_token s).
Proof. unfold parse_primitive_token. cbv zeta. run. apply literal_runs. Qed.
Lemma map_runs {A B} (f : A -> result B) l : (forall a, runs (f a)) -> runs (map_result f l).
Proof. intros H. induction l as [|x l IH]; cbn [map_result]; [run|]. run; auto. Qed.
Lemma segment_runs s d : runs (parse_bracket_segment s d).
Proof. unfold parse_bracket_segment. cbv zeta. run. Qed.
Lemma bracket_runs s : runs (bracket_start_of s).
Proof. unfold bracket_start_of. cbv zeta. run. Qed.
Lemma hkey_runs s k : runs (header_key s k).
Proof. unfold header_key. cbv zeta. run. apply literal_runs. Qed.
Lemma fields_runs s be ci d : runs (header_fields s be ci d).
Proof.
  unfold header_fields. cbv zeta. run. unfold parse_fields. apply map_runs. intros a. cbv zeta. run. apply literal_runs.
Qed.
Lemma header_runs s d : runs (parse_array_header_line s d).
Proof.
  unfold parse_array_header_line. cbv zeta. run; try apply bracket_runs; try apply hkey_runs.
  destruct (parse_bracket_segment _ d) as [[? ?]|]; run; apply fields_runs.
Qed.
Lemma key_runs s i : runs (parse_key_token s i).
Proof. unfold parse_key_token, parse_quoted_key, parse_unquoted_key. cbv zeta. run; try apply unescape_runs. Qed.
Lemma line_runs s st i strict : runs (parse_line_incremental s st i strict).
Proof. unfold parse_line_incremental. cbv zeta. run. Qed.

(** A line of the document, with any indentation size, in either mode. *)
Theorem C39_scanner_runs :
  forall (line : nat) (raw : bytes) (indent : nat) (strict : bool), text_bytes raw -> runs (bparse_line (S line) raw indent strict).
Proof.
  intros line raw indent strict (s & -> & H). change (S line) with (S (ss_line (ScanState line []))). rewrite (line_utf8 s _ indent strict H). apply runs_on_ok, line_runs.
Qed.
Print Assumptions C39_scanner_runs.

(** The header of an array. *)
Theorem C39_header_runs :
  forall (content : bytes) (delimiter : char), text_bytes content -> runs (bparse_array_header_line content delimiter).
Proof. intros content d (s & -> & H). rewrite header_line_utf8 by exact H. apply runs_on_ok, header_runs. Qed.
Print Assumptions C39_header_runs.

(** A primitive value: literal, number or string. *)
Theorem C39_primitive_runs :
  forall (token : bytes), text_bytes token -> runs (bparse_primitive_token token) /\ runs (bparse_string_literal token).
Proof.
  intros token (s & -> & H). rewrite primitive_token_utf8, string_literal_utf8 by exact H.
  split; apply runs_on_ok; [apply token_runs|apply literal_runs].
Qed.
Print Assumptions C39_primitive_runs.

(** The two tests for numbers, on the value to write and on the token read. *)
Theorem C39_numbers_run :
  forall (token : bytes), text_bytes token -> runs (bis_numeric_like token) /\ runs (bis_numeric_literal token).
Proof.
  intros token (s & -> & H). rewrite numeric_like_utf8, numeric_literal_utf8 by exact H. split; split; discriminate.
Qed.
Print Assumptions C39_numbers_run.
(** They say the same on bytes and on characters. *)
Theorem C39_number_tests :
  forall (s : str), Forall scalar s ->
    bis_numeric_like (utf8 s) = Ok (is_numeric_like s) /\ bis_numeric_literal (utf8 s) = Ok (is_numeric_literal s).
Proof. intros s H. now rewrite numeric_like_utf8, numeric_literal_utf8 by exact H. Qed.
Print Assumptions C39_number_tests.
Example C39_number_case :
  text_bytes (utf8 (8195%N :: lit "-07x")) /\ bis_numeric_like (utf8 (8195%N :: lit "-07x")) = Ok true /\
  bis_numeric_literal (utf8 (8195%N :: lit "-07x")) = Ok false /\ bis_numeric_like (utf8 [45; 8364]%N) = Ok false.
Proof.
  split; [|vm_compute; auto]. eexists. split; [reflexivity|]. unfold scalar. cbn. repeat constructor; lia.
Qed.

(** A key and what follows it. *)
Theorem C39_key_runs :
  forall (content : bytes), text_bytes content -> runs (bparse_key_token content 0) /\ runs (bkey_and_rest content).
Proof.
  intros content (s & -> & H). split.
  - pose proof (key_token_utf8 s 0 H) as K. rewrite off_0 in K. rewrite K. apply runs_on_ok, key_runs.
  - rewrite key_and_rest_utf8 by exact H. apply runs_on_ok, key_runs.
Qed.
Print Assumptions C39_key_runs.

(** The tests that choose how a line is read. *)
Theorem C39_classification_runs :
  forall (content : bytes) (delimiter : char), text_bytes content ->
    runs (bis_array_header_content content) /\ runs (bis_key_value_content content) /\
    runs (bis_key_value_line content) /\ runs (bis_data_row content delimiter) /\ runs (bafter_hyphen content).
Proof.
  intros content d (s & -> & H).
  rewrite array_header_content_utf8, key_value_content_utf8, key_value_line_utf8, data_row_utf8, after_hyphen_utf8 by exact H.
  split; [run|split; [run|split; [run|split; run]]].
Qed.
Print Assumptions C39_classification_runs.

(** The two searches, from the position of any character of the text. *)
Theorem C39_searches_run :
  forall (s : str) (i : nat) (target : char), Forall scalar s ->
    runs (bfind_closing_quote (utf8 s) (length (utf8 (firstn i s)))) /\
    runs (bfind_unquoted_char (utf8 s) target 0).
Proof.
  intros s i target H. split.
  - change (length (utf8 (firstn i s))) with (off s i). rewrite closing_utf8. run.
  - rewrite unquoted_utf8. run.
Qed.
Print Assumptions C39_searches_run.

(** What they compute is the encoding of what the character model computes. *)
Theorem C39_bytes_and_characters :
  forall (s : str), Forall scalar s ->
    (forall indent strict st,
       bparse_line (S (ss_line st)) (utf8 s) indent strict =
       on_ok (fun p => option_map (fun l => (pl_indent l, utf8 (pl_content l), pl_depth l)) (fst p))
             (parse_line_incremental s st indent strict)) /\
    (forall d, bparse_array_header_line (utf8 s) d =
       on_ok (option_map (fun p => (bheader_of (fst p), option_map utf8 (snd p)))) (parse_array_header_line s d)) /\
    bparse_primitive_token (utf8 s) = on_ok bprim_of (parse_primitive_token s) /\
    bkey_and_rest (utf8 s) =
      on_ok (fun p => (utf8 (fst (fst p)), snd p, utf8 (trim (skipn (snd (fst p)) s)))) (parse_key_token s 0) /\
    bis_array_header_content (utf8 s) = Ok (is_array_header_content s) /\
    bis_key_value_content (utf8 s) = Ok (is_key_value_content s) /\
    bis_key_value_line (utf8 s) = Ok (is_key_value_line s) /\
    (forall d, bis_data_row (utf8 s) d = Ok (is_data_row s d)) /\
    bafter_hyphen (utf8 s) =
      (if starts_with_str LIST_ITEM_PREFIX s then Ok (utf8 (skipn 2 s)) else Err EExpectedListItem).
Proof.
  intros s H. repeat apply conj; intros.
  - now apply line_utf8.
  - now apply header_line_utf8.
  - now apply primitive_token_utf8.
  - now apply key_and_rest_utf8.
  - now apply array_header_content_utf8.
  - apply key_value_content_utf8.
  - apply key_value_line_utf8.
  - apply data_row_utf8.
  - apply after_hyphen_utf8.
Qed.
Print Assumptions C39_bytes_and_characters.

Lemma utf8_tail c : exists h t, utf8_char c = h :: t /\ Forall (fun x => cont x = true) t.
Proof.
  assert (M : forall n, cont (128 + n mod 64)%N = true).
  { intros n. pose proof (N.mod_upper_bound n 64 ltac:(discriminate)). generalize dependent (n mod 64)%N. intros m L. unfold cont. lia. }
  unfold utf8_char. destruct (N.ltb_spec c 128); [|destruct (N.ltb_spec c 2048); [|destruct (N.ltb_spec c 65536)]]; eexists _, _;
    (split; [reflexivity|]); repeat (constructor; [apply M|]); constructor.
Qed.
Lemma boundary_inv s : forall i, boundary (utf8 s) i = true -> exists a b, s = a ++ b /\ i = length (utf8 a).
Proof.
  induction s as [|c s IH]; intros i H.
  - exists [], []. split; [reflexivity|]. unfold boundary, bat in H. destruct i; [reflexivity|]. now destruct i.
  - destruct i as [|i]; [now exists [], (c :: s)|]. destruct (utf8_tail c) as (h & t & E & T).
    destruct (Nat.ltb_spec i (length t)) as [L|L].
    + exfalso. unfold boundary, bat in H. rewrite utf8_cons, E in H. cbn [app nth_error length Nat.eqb orb] in H.
      rewrite app_length, (proj2 (Nat.eqb_neq _ _)) in H by lia. rewrite nth_error_app1 in H by exact L.
      destruct (nth_error t i) as [x|] eqn:N; [|discriminate]. apply nth_error_In in N. rewrite Forall_forall in T. rewrite (T x N) in H. discriminate.
    + destruct (IH (i - length t)) as (a & b & -> & Ea).
      * unfold boundary, bat in *. rewrite utf8_cons, E in H. cbn [app nth_error length Nat.eqb orb] in H. rewrite app_length in H.
        rewrite nth_error_app2 in H by exact L. apply orb_prop in H as [H|H]; [|rewrite H; apply orb_true_r].
        apply Nat.eqb_eq in H. replace (i - length t =? length (utf8 s)) with true by (symmetry; apply Nat.eqb_eq; lia). now rewrite orb_true_r.
      * exists (c :: a), b. split; [reflexivity|]. rewrite utf8_cons, E. cbn [app length]. rewrite app_length. lia.
Qed.
Lemma boundary_at a b : boundary (utf8 (a ++ b)) (length (utf8 a)) = true.
Proof. pose proof (boundary_off (a ++ b) (length a)) as H. unfold off in H. rewrite firstn_app, firstn_all, Nat.sub_diag, firstn_O, app_nil_r in H. exact H. Qed.

(** A slice of a text exists exactly between two characters, and is the text between them; any
    other index panics. *)
Theorem C39_slices :
  forall (s : str) (i j : nat) (t : bytes),
    (bslice (utf8 s) i j = Ok t <->
     exists a m b, s = a ++ m ++ b /\ i = length (utf8 a) /\ j = length (utf8 a) + length (utf8 m) /\ t = utf8 m) /\
    (forall e, bslice (utf8 s) i j = Err e -> e = EPanic).
Proof.
  intros s i j t. split; [|unfold bslice; intros e; destruct (_ && _ && _); now intros [= <-]]. split.
  - intros H. unfold bslice in H. destruct ((i <=? j) && boundary (utf8 s) i && boundary (utf8 s) j) eqn:B; [|discriminate].
    injection H as <-. apply andb_prop in B as [B Bj]. apply andb_prop in B as [B Bi]. apply Nat.leb_le in B.
    destruct (boundary_inv _ _ Bi) as (a & r & -> & Ea), (boundary_inv _ _ Bj) as (a2 & b & E2 & Ea2).
    assert (L : exists m, a2 = a ++ m /\ r = m ++ b).
    { clear Bi Bj. subst i j. revert a2 E2 B. induction a as [|c a IH]; intros a2 E2 B.
      - exists a2. auto.
      - destruct a2 as [|c2 a2]; cbn [app] in E2.
        + exfalso. rewrite utf8_cons, app_length in B. destruct (utf8_tail c) as (h & t & E & _). rewrite E in B. cbn in B. lia.
        + injection E2 as <- E2. destruct (IH a2 E2) as (m & -> & ->); [|now exists m]. rewrite !utf8_cons, !app_length in B. lia. }
    destruct L as (m & -> & ->). exists a, m, b. split; [reflexivity|]. split; [exact Ea|].
    rewrite utf8_app, app_length in Ea2. split; [exact Ea2|]. rewrite !utf8_app. subst i j.
    rewrite skipn_app, skipn_all, Nat.sub_diag. cbn [skipn app]. replace (_ + _ - _) with (length (utf8 m)) by lia.
    rewrite firstn_app, firstn_all, Nat.sub_diag. now rewrite firstn_O, app_nil_r.
  - intros (a & m & b & -> & -> & -> & ->). pose proof (boundary_at a (m ++ b)) as B1. pose proof (boundary_at (a ++ m) b) as B2.
    rewrite (utf8_app a m), app_length, <- app_assoc in B2. unfold bslice. rewrite B1, B2. destruct (Nat.leb_spec (length (utf8 a)) (length (utf8 a) + length (utf8 m))); [|lia].
    cbn [andb]. rewrite !utf8_app. rewrite skipn_app, skipn_all, Nat.sub_diag. cbn [skipn app]. replace (_ + _ - _) with (length (utf8 m)) by lia.
    rewrite firstn_app, firstn_all, Nat.sub_diag. now rewrite firstn_O, app_nil_r.
Qed.
Print Assumptions C39_slices.

(** A difference below zero panics. *)
Theorem C39_subtraction :
  forall a b n : nat, (usub a b = Ok n <-> a = n + b) /\ (a < b -> usub a b = Err EPanic).
Proof.
  intros a b n. unfold usub. destruct (Nat.leb_spec b a); (split; [split|]); intros; try lia; try congruence.
  - injection H0 as <-. lia.
  - f_equal. lia.
Qed.
Print Assumptions C39_subtraction.

(** The slices do panic on a wrong index: inside a character and outside the text. *)
Example slice_inside_a_character : bfrom (utf8 [233%N]) 1 = Err EPanic.
Proof. vm_compute. reflexivity. Qed.
Example slice_outside : bfrom (utf8 [233%N]) 3 = Err EPanic.
Proof. vm_compute. reflexivity. Qed.
(** A header whose key, fields and value have characters of two, three and four bytes; in the key
    a backslash stands directly before one of four bytes, where the loop for the closing quote
    jumps by two bytes into the middle of the character. *)
Definition wide : str := [cDQ; 8364; cBSLASH; 128512; cDQ; cLBRACK; 50; cRBRACK; cLBRACE; 233; cCOMMA; 8364; cRBRACE; cCOLON; cSPACE; 128512]%N.
Example wide_is_text : text_bytes (utf8 wide) /\ length (utf8 wide) = 27 /\ length wide = 16.
Proof.
  split; [|split; reflexivity]. exists wide. split; [reflexivity|]. unfold wide, scalar. repeat constructor; lia.
Qed.
Example wide_jump : bfind_closing_quote (utf8 wide) 0 = Ok (Some 9).
Proof. vm_compute. reflexivity. Qed.
Example wide_header : bparse_array_header_line (utf8 wide) cCOMMA = Err (EInvalidEscape (Some 128512%N)).
Proof. vm_compute. reflexivity. Qed.
Definition wide2 : str := [8364; cLBRACK; 50; cRBRACK; cLBRACE; 233; cCOMMA; 8364; cRBRACE; cCOLON; cSPACE; 128512]%N.
Example wide2_header : exists h, bparse_array_header_line (utf8 wide2) cCOMMA = Ok (Some (h, Some (utf8 [128512%N]))) /\
  bh_key h = Some (utf8 [8364%N]) /\ bh_fields h = Some [BField (utf8 [233%N]) false; BField (utf8 [8364%N]) false].
Proof. eexists. split; [vm_compute; reflexivity|]. split; reflexivity. Qed.
