(** C08, exactly: which field names of a table survive, and what happens to the others. *)
From Verif Require Import Chars Floats Json Shared EncPrim Normalize Parser Lex NumProof PrimProof
  Spec ParseProof SpecRead ReadLex SpecError ErrLex PropsTokens.

Local Open Scope nat_scope.

(** ** A name cut off at its brace *)

Lemma escape_open s : open_quote (escape_string s).
Proof.
  induction s as [|c s IH]; intros b r' Hb E; [now destruct b|]. rewrite escape_cons in E.
  destruct (escape_char_cases c) as [(x & Ex & _)|(Ex & H1 & H2 & _)]; rewrite Ex in E; cbn [app] in E;
    inversion Hb as [|y b' N1 N2 Hb' |y b' Hb']; subst b; cbn [app] in E; try discriminate E; injection E; intros; subst;
    try congruence; now apply (IH b' r').
Qed.
Lemma open_prefix a b : open_quote (a ++ b) -> open_quote a.
Proof. intros H d r Hd ->. apply (H d (r ++ b) Hd). now rewrite <- app_assoc. Qed.

Lemma cut_literal s : parse_string_literal (cDQ :: escape_string s) = Err EUnterminatedString.
Proof.
  assert (W : is_ws cDQ = false) by reflexivity.
  unfold parse_string_literal, trim. rewrite trim_start_nonws by auto.
  destruct (trim_end_spec (cDQ :: escape_string s)) as (r & E & _).
  destruct (trim_end_cons_nonws cDQ (escape_string s) W) as (t & Et). rewrite Et in *. cbn [starts_with].
  cbn [app] in E. injection E as E. rewrite N.eqb_refl.
  assert (O : open_quote t) by (apply (open_prefix t r); rewrite <- E; apply escape_open).
  apply open_quote_spec in O. now rewrite O.
Qed.

Lemma pdv_open d s : forall buf vals, pdv_loop d (escape_string s) true (cDQ :: buf) vals
  = vals ++ [trim (cDQ :: buf ++ escape_string s)].
Proof.
  induction s as [|c s IH]; intros buf vals; [cbn; now rewrite app_nil_r|]. rewrite escape_cons.
  destruct (escape_char_cases c) as [(x & E & _)|(E & H1 & H2 & _)]; rewrite E; cbn [app].
  - cbn [pdv_loop]. rewrite N.eqb_refl. cbn [andb app]. rewrite IH. now rewrite <- !app_assoc.
  - cbn [pdv_loop]. apply N.eqb_neq in H1, H2. rewrite H1, H2. cbn [andb negb].
    rewrite andb_false_r. cbn [app]. rewrite IH. now rewrite <- !app_assoc.
Qed.
Lemma pdv_join_more d l rest : std_delim d -> Forall (tok d) l -> forall vals,
  pdv_loop d (flat_map (fun x => x ++ [d]) l ++ rest) false [] vals = pdv_loop d rest false [] (vals ++ l).
Proof.
  intros Hd. induction 1 as [|x l Hx Hl IH]; intros vals; cbn [flat_map app]; [now rewrite app_nil_r|].
  rewrite <- !app_assoc, pdv_tok by auto. cbn [app pdv_loop]. rewrite andb_false_r.
  replace (d =? cDQ)%N with false by (destruct Hd as [->|[->| ->]]; reflexivity).
  rewrite N.eqb_refl. cbn [andb negb]. rewrite trim_tight by now apply tok_tight with (d := d).
  rewrite IH. now rewrite <- app_assoc.
Qed.
Lemma map_result_app {A B} (f : A -> result B) a b : map_result f (a ++ b) =
  (let? x := map_result f a in let? y := map_result f b in Ok (x ++ y)).
Proof.
  induction a as [|x a IH]; cbn [app map_result bind].
  - now destruct (map_result f b).
  - destruct (f x); cbn [bind]; auto. rewrite IH. destruct (map_result f a); cbn [bind]; auto.
    now destruct (map_result f b).
Qed.

Lemma cut_fields d pre s : std_delim d ->
  parse_fields (flat_map (fun x => x ++ [d]) (map encode_key pre) ++ cDQ :: escape_string s) d = Err EUnterminatedString.
Proof.
  intros Hd. unfold parse_fields, parse_delimited_values.
  rewrite pdv_join_more by auto using Forall_tok_keys. cbn [pdv_loop app]. rewrite andb_false_r, N.eqb_refl. cbn [negb].
  rewrite (pdv_open d s []). cbn [app]. rewrite map_result_app.
  replace (map_result _ (map encode_key pre)) with (@Ok (list field_name) (map field_of pre)).
  - cbn [bind map_result]. rewrite literal_trim, literal_trim, cut_literal. reflexivity.
  - symmetry. rewrite map_result_map. apply map_result_ok. intros f _.
    rewrite trim_tight by apply encode_key_tight. rewrite parse_string_literal_key, starts_with_dq_key. reflexivity.
Qed.

(** ** Where the brace is *)

Lemma first_in {A} (P : A -> Prop) (dec : forall a, {P a} + {~ P a}) l : (exists a, In a l /\ P a) ->
  exists pre a post, l = pre ++ a :: post /\ P a /\ Forall (fun x => ~ P x) pre.
Proof.
  intros (a & Hi & Ha). induction l as [|b l IH]; [easy|]. destruct (dec b) as [Hb|Hb].
  - exists [], b, l. auto.
  - destruct Hi as [->|Hi]; [contradiction|]. destruct (IH Hi) as (pre & c & post & -> & Hc & Hp).
    exists (b :: pre), c, post. auto.
Qed.
Lemma join_app d pre a post : join d (pre ++ a :: post) =
  flat_map (fun x => x ++ [d]) pre ++ join d (a :: post).
Proof.
  induction pre as [|x pre IH]; [reflexivity|]. cbn [app flat_map].
  rewrite join_cons by (destruct pre; discriminate). rewrite IH, <- !app_assoc. reflexivity.
Qed.
Lemma escape_app a b : escape_string (a ++ b) = escape_string a ++ escape_string b.
Proof. unfold escape_string. apply flat_map_app. Qed.
Lemma key_with_brace k : In cRBRACE k -> is_valid_unquoted_key k = false.
Proof.
  intros Hi. destruct (is_valid_unquoted_key k) eqn:E; auto. exfalso. apply valid_key_chars in E as [_ E].
  rewrite Forall_forall in E. specialize (E _ Hi). vm_compute in E. intuition discriminate.
Qed.
Lemma not_in_flat d ks : std_delim d -> Forall (fun f => ~ In cRBRACE f) ks ->
  ~ In cRBRACE (flat_map (fun x => x ++ [d]) (map encode_key ks)).
Proof.
  intros Hd Hk Hi. apply in_flat_map in Hi as (x & Hx & Hi). apply in_app_iff in Hi as [Hi|[Hi|[]]].
  - apply in_map_iff in Hx as (k & <- & Hx). rewrite Forall_forall in Hk. specialize (Hk _ Hx).
    unfold encode_key in Hi. destruct (is_valid_unquoted_key k); [contradiction|].
    destruct Hi as [Hi|Hi]; [discriminate|]. apply in_app_iff in Hi as [Hi|[Hi|[]]]; [|discriminate].
    revert Hi. apply escape_not_in; auto; discriminate.
  - destruct Hd as [->|[->| ->]]; discriminate.
Qed.

Lemma fields_with_brace d fs : std_delim d -> (exists f, In f fs /\ In cRBRACE f) ->
  exists pre s r, join d (map encode_key fs) =
      (flat_map (fun x => x ++ [d]) (map encode_key pre) ++ cDQ :: escape_string s) ++ cRBRACE :: r /\
    ~ In cRBRACE (flat_map (fun x => x ++ [d]) (map encode_key pre) ++ cDQ :: escape_string s).
Proof.
  intros Hd He. destruct (first_in (In cRBRACE) (fun a => in_dec N.eq_dec cRBRACE a) fs He) as (pre & f & post & -> & Hf & Hp).
  apply in_split in Hf as Hs. destruct (first_in (eq cRBRACE) (N.eq_dec cRBRACE) f) as (s & c & t & Ef & <- & Hs').
  { exists cRBRACE. auto. }
  exists pre, s, (escape_string t ++ [cDQ] ++ match post with [] => [] | _ => d :: join d (map encode_key post) end). split.
  - rewrite map_app. cbn [map]. rewrite join_app, <- !app_assoc. f_equal.
    rewrite (encode_key_quoted f) by now apply key_with_brace. unfold quoted. rewrite Ef, escape_app.
    change (escape_string (cRBRACE :: t)) with (cRBRACE :: escape_string t).
    destruct post as [|p post]; cbn [map].
    + cbn [join]. now rewrite <- !app_assoc.
    + rewrite join_cons by discriminate. cbn [app]. rewrite <- !app_assoc. reflexivity.
  - rewrite in_app_iff. intros [Hi|[Hi|Hi]]; [revert Hi; now apply not_in_flat|discriminate|].
    revert Hi. apply escape_not_in; try discriminate. intros Hi. rewrite Forall_forall in Hs'. now apply (Hs' _ Hi).
Qed.

Lemma brace_header n key fs d tail : std_delim d -> (N.of_nat n <= MAX_DECLARED_ARRAY_LENGTH)%N ->
  (exists f, In f fs /\ In cRBRACE f) ->
  parse_array_header_line (format_header n key (Some fs) d ++ tail) DEFAULT_DELIMITER = Err EUnterminatedString.
Proof.
  intros Hd Hn Hf. rewrite format_header_eq. unfold parse_array_header_line.
  set (K := key_text key). set (B := dec_of_N (N.of_nat n) ++ delim_suffix d).
  destruct (fields_with_brace d fs Hd Hf) as (pre & s & r & EJ & HJ).
  remember (flat_map _ _ ++ _) as J1 eqn:EJ1. cbn [fields_text]. rewrite EJ.
  set (F := cLBRACE :: (J1 ++ cRBRACE :: r) ++ [cRBRACE]).
  assert (EB : bracket_start_of (K ++ cLBRACK :: B ++ cRBRACK :: F ++ cCOLON :: tail)
               = Ok (Some (length K))) by apply bracket_start_key.
  rewrite EB. cbn [bind]. rewrite find_from_app by auto.
  assert (ER : find_char cRBRACK (cLBRACK :: B ++ cRBRACK :: F ++ cCOLON :: tail) = Some (S (length B))).
  { cbn [find_char N.eqb Pos.eqb]. rewrite find_char_app; [reflexivity|].
    intros H. apply bracket_in in H; tauto. }
  rewrite ER. cbn [option_map].
  set (P := K ++ cLBRACK :: B ++ [cRBRACK]).
  assert (HP : S (length K + S (length B)) = length P).
  { unfold P. rewrite app_length. cbn [length]. rewrite app_length. cbn [length]. lia. }
  assert (EP : K ++ cLBRACK :: B ++ cRBRACK :: F ++ cCOLON :: tail = P ++ F ++ cCOLON :: tail).
  { unfold P. rewrite <- app_assoc. cbn [app]. now rewrite <- app_assoc. }
  rewrite EP.
  assert (EF : F ++ cCOLON :: tail = cLBRACE :: J1 ++ cRBRACE :: r ++ cRBRACE :: cCOLON :: tail).
  { unfold F. cbn [app]. rewrite <- !app_assoc. reflexivity. }
  set (Q := P ++ cLBRACE :: J1 ++ [cRBRACE]).
  assert (EQ : P ++ F ++ cCOLON :: tail = Q ++ r ++ cRBRACE :: cCOLON :: tail).
  { rewrite EF. unfold Q. rewrite <- !app_assoc. cbn [app]. rewrite <- !app_assoc. reflexivity. }
  assert (HQ : length Q = S (length P + S (length J1))).
  { unfold Q. rewrite app_length. cbn [length]. rewrite app_length. cbn [length]. lia. }
  assert (Eb : find_from cLBRACE (length P) (P ++ F ++ cCOLON :: tail) = Some (length P)).
  { rewrite find_from_app, EF by auto. cbn. f_equal. lia. }
  assert (Er : find_from cRBRACE (length P) (P ++ F ++ cCOLON :: tail) = Some (length P + S (length J1))).
  { rewrite find_from_app, EF by auto. cbn [find_char N.eqb Pos.eqb]. now rewrite find_char_app. }
  assert (Ec1 : exists i, find_from cCOLON (length P) (P ++ F ++ cCOLON :: tail) = Some (length P + S i)).
  { rewrite find_from_app, EF by auto. cbn [find_char N.eqb Pos.eqb].
    destruct (find_char cCOLON _) as [j|] eqn:Ej; [exists j; reflexivity|]. apply find_char_None in Ej.
    exfalso. apply Ej. rewrite in_app_iff. right. right. rewrite in_app_iff. right. right. now left. }
  assert (Ec2 : exists i, find_from cCOLON (length Q) (P ++ F ++ cCOLON :: tail) = Some (length Q + i)).
  { rewrite EQ, find_from_app by auto.
    destruct (find_char cCOLON _) as [j|] eqn:Ej; [exists j; reflexivity|]. apply find_char_None in Ej.
    exfalso. apply Ej. rewrite in_app_iff. right. right. now left. }
  destruct Ec1 as (i1 & Ec1), Ec2 as (i2 & Ec2).
  unfold header_colon. rewrite HP, Eb, Ec1. replace (Nat.ltb (length P) (length P + S i1)) with true by lia.
  rewrite Er, <- HQ, Ec2.
  rewrite <- EP at 1. unfold K at 1 2. rewrite header_key_ok. cbn [bind].
  replace (slice (S (length K)) (length K + S (length B)) (P ++ F ++ cCOLON :: tail)) with B.
  2: { rewrite <- EP. change (K ++ cLBRACK :: B ++ cRBRACK :: F ++ cCOLON :: tail)
         with (K ++ [cLBRACK] ++ B ++ cRBRACK :: F ++ cCOLON :: tail).
       rewrite app_assoc. symmetry. apply slice_app; rewrite app_length; cbn [length]; lia. }
  unfold B at 1. rewrite parse_bracket_ok.
  2: auto.
  2: { unfold MAX_DECLARED_ARRAY_LENGTH, USIZE_MAX in *. lia. }
  replace (MAX_DECLARED_ARRAY_LENGTH <? N.of_nat n)%N with false by lia.
  unfold header_fields. rewrite HP, Eb. replace (Nat.ltb (length P) (length Q + i2)) with true by lia. rewrite Er.
  replace (Nat.ltb (length P + S (length J1)) (length Q + i2)) with true by lia.
  replace (slice (S (length P)) (length P + S (length J1)) (P ++ F ++ cCOLON :: tail)) with J1.
  2: { rewrite EF. change (P ++ cLBRACE :: J1 ++ cRBRACE :: r ++ cRBRACE :: cCOLON :: tail)
         with (P ++ [cLBRACE] ++ J1 ++ cRBRACE :: r ++ cRBRACE :: cCOLON :: tail).
       rewrite app_assoc. symmetry. apply slice_app; rewrite app_length; cbn [length]; lia. }
  rewrite EJ1. rewrite cut_fields by auto. reflexivity.
Qed.

(** ** C08 *)

(** The header of a table is read back, with its key, length, delimiter and names, exactly if no
    name contains a closing brace. *)
Theorem C08_field_names_exactly :
  forall (n : nat) (key : option str) (fs : list str) (d : char) (tail : str),
    std_delim d -> (N.of_nat n <= 100000000)%N ->
    ((forall f, In f fs -> ~ In cRBRACE f) <->
     exists h inline, parse_array_header_line (format_header n key (Some fs) d ++ tail) cCOMMA = Ok (Some (h, inline)) /\
       ah_key h = key /\ ah_length h = N.of_nat n /\ ah_delimiter h = d /\
       exists fields, ah_fields h = Some fields /\ map fn_name fields = fs /\
         Forall (fun f => fn_quoted f = false <-> bare_key (fn_name f)) fields).
Proof.
  intros n key fs d tail Hd Hn. split.
  - intros Hf. destruct (C08_field_names_survive n key fs d tail Hd Hn Hf) as (h & inline & E & R).
    exists h, inline. split; auto. rewrite parse_header_ok in E; auto; [|now apply Forall_forall].
    injection E as <- _. cbn. auto.
  - intros (h & inline & E & _) f Hf Hi. rewrite brace_header in E; eauto. discriminate.
Qed.
Print Assumptions C08_field_names_exactly.

(** Otherwise the header is refused: a wrong name is never read. *)
Theorem C08_other_headers_refused :
  forall (n : nat) (key : option str) (fs : list str) (d : char) (tail : str) (f : str),
    std_delim d -> (N.of_nat n <= 100000000)%N -> In f fs -> In cRBRACE f ->
    parse_array_header_line (format_header n key (Some fs) d ++ tail) cCOMMA = Err EUnterminatedString.
Proof. intros. apply brace_header; eauto. Qed.
Print Assumptions C08_other_headers_refused.

(** Braces, colons and quotes in names, also after the one that breaks the header. *)
Example C08_refused_case :
  format_header 2 (Some (lit "t")) (Some [lit "x"; lit "a} "" }: b"; lit "{c:"]) cTAB
    = lit "t[2	]{x	""a} \"" }: b""	""{c:""}:" /\
  parse_array_header_line (lit "t[2	]{x	""a} \"" }: b""	""{c:""}:") cCOMMA = Err EUnterminatedString.
Proof. split; vm_compute; reflexivity. Qed.
