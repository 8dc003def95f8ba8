(** JSON text written by the command line tool: C34, C35; numbers of decoded values: C28. *)
From Coq Require Import SpecFloat.
From Verif Require Import Chars Floats Json JsonInd NumProof Shared Scanner Parser DecValidation Decoders EventBuilder Expand DecodeApi
  Lex Spec DecRel DecProps ExpandProps DecNums JsonText SpecJson JsonNumProof JsonTextProof.

Lemma canonical_finite v : canonical v -> finite_json v = v.
Proof.
  induction v as [p|l IH|l IH] using json_ind'; intros H; inversion H as [? Hp|? Hl|? Hl]; subst; cbn [finite_json].
  - destruct p as [s|x|b|]; try reflexivity. cbn [finite_prim]. destruct Hp as [Hf _]. now rewrite Hf.
  - f_equal. clear H. induction IH as [|v r Hv _ IHr]; [reflexivity|]. inversion Hl; subst. cbn [map]. f_equal; auto.
  - f_equal. clear H. induction IH as [|[k v] r Hv _ IHr]; [reflexivity|]. inversion Hl; subst. cbn [map fst snd] in *.
    f_equal; auto. f_equal. auto.
Qed.

(** ** C28, the decoding side: what is decoded, expanded or not, has only finite numbers and no
    negative zero. *)
Theorem C28_decoded_numbers :
  forall (input : str) (o : option decode_options) (v : json), try_decode input o = Ok v -> canonical v.
Proof. intros input o v H. exact (decoded_canonical _ _ _ H). Qed.
Print Assumptions C28_decoded_numbers.

Example C28_decoded_case :
  exists v, try_decode (lit "a: -0
b.c: 1e400
b.d: 1e-400") (Some (DecOpts None None (Some EPSafe))) = Ok v /\
  v = JObj [(lit "a", JPrim (PNum f64_zero)); (lit "b", JObj [(lit "c", JPrim (PStr (lit "1e400"))); (lit "d", JPrim (PNum f64_zero))])].
Proof. eexists. split; vm_compute; reflexivity. Qed.

(** ** C34: what the tool prints is JSON, and it is the decoded value *)

(** Printing succeeds exactly when decoding does, and fails with the same error. *)
Theorem C34_prints_exactly_when_decoded :
  forall (st : num_style) (input : str) (o : option decode_options) (e : err),
    decode_to_json_chunks st input o = Err e <-> try_decode input o = Err e.
Proof.
  intros st input o e. unfold decode_to_json_chunks, decode_to_value, cli_decode_events, try_decode, try_decode_from_lines.
  cbv zeta. destruct (decode_stream_sync _ _) as [evs|e'] eqn:Ed; cbn [bind].
  2: { destruct (rd_expand _); cbn [bind]; split; intros H; injection H as <-; reflexivity. }
  destruct (stream_grammar _ _ _ Ed) as [w Hw]. destruct (describes_build _ _ _ Hw) as (n & En & _).
  rewrite En. cbn [bind]. destruct (rd_expand _).
  - destruct (stream_text _ st (rd_indent (resolve_decode_options o)) _ _ Hw) as (out & -> & _). cbn [bind]. split; discriminate.
  - destruct (expand_paths_safe _ _); cbn [bind]; split; try discriminate; intros H; injection H as <-; reflexivity.
Qed.
Print Assumptions C34_prints_exactly_when_decoded.

(** What is printed reads, as JSON, as exactly the decoded value. *)
Theorem C34_output_is_the_decoded_value :
  forall (st : num_style) (input : str) (o : option decode_options) (chunks : list str),
    decode_to_json_chunks st input o = Ok chunks ->
    exists v, try_decode input o = Ok v /\ json_value (concat chunks) = Some v.
Proof.
  intros st input o chunks H. destruct (try_decode input o) as [v|e] eqn:Ev.
  2: { apply (proj2 (C34_prints_exactly_when_decoded st input o e)) in Ev. congruence. }
  exists v. split; [reflexivity|]. pose proof (C28_decoded_numbers _ _ _ Ev) as Hc.
  rewrite <- (canonical_finite v Hc). revert H Ev.
  unfold decode_to_json_chunks, decode_to_value, cli_decode_events, try_decode, try_decode_from_lines. cbv zeta.
  destruct (decode_stream_sync _ _) as [evs|e'] eqn:Ed; cbn [bind].
  2: { destruct (rd_expand _); discriminate. }
  destruct (stream_grammar _ _ _ Ed) as [w Hw]. destruct (describes_build _ _ _ Hw) as (n & En & <-).
  rewrite En. cbn [bind]. destruct (rd_expand _); intros H Ev.
  - injection Ev as <-. destruct (stream_text _ st (rd_indent (resolve_decode_options o)) _ _ Hw) as (out & Eo & Ec).
    rewrite Eo in H. injection H as <-. rewrite Ec. apply json_value_text, serde_reads_back.
  - destruct (expand_paths_safe _ _); cbn [bind] in *; [|discriminate]. injection H as <-. injection Ev as <-.
    unfold json_stringify_lines. cbn [concat]. rewrite app_nil_r, stringify_text. apply json_value_text, push_reads_back.
Qed.
Print Assumptions C34_output_is_the_decoded_value.

(** Both writers on their own: any value, numbers that JSON cannot express become null. *)
Theorem C34_any_value_any_writer :
  forall (st : num_style) (v : json) (indent : nat),
    json_value (concat (json_stringify_lines st v indent)) = Some (finite_json v) /\
    forall evs, describes (fun _ _ => True) evs v ->
      exists chunks, json_stream_from_events st evs indent = Ok chunks /\ json_value (concat chunks) = Some (finite_json v).
Proof.
  intros st v indent. split.
  - unfold json_stringify_lines. cbn [concat]. rewrite app_nil_r, stringify_text. apply json_value_text, push_reads_back.
  - intros evs H. destruct (stream_text _ st indent _ _ H) as (out & Eo & Ec). exists out. split; [exact Eo|].
    rewrite Ec. apply json_value_text, serde_reads_back.
Qed.
Print Assumptions C34_any_value_any_writer.

(** Every finite number is printed as a JSON number that reads back as the same number, sign of zero
    included, whatever the conventions about exponents. *)
Theorem C34_numbers :
  forall (st : num_style) (x : f64),
    (f64_is_finite x = true <-> exists n, number_text st x = Some n) /\
    forall n, number_text st x = Some n -> json_numeral n = true /\ parse_f64 n = Some x.
Proof.
  intros st x. split; [apply number_text_finite|]. intros n H.
  destruct (number_text_ok _ _ _ H) as (s & ip & fp & ex & E & Hn & Hp). split; [|exact Hp]. eapply numeral_json; eauto.
Qed.
Print Assumptions C34_numbers.

(** The event writer also accepts streams that are no value, despite its comment, and then writes
    text that is not JSON. *)
Theorem C34_malformed_stream_rejected_refuted :
  ~ (forall st evs indent chunks, json_stream_from_events st evs indent = Ok chunks ->
       exists v, json_value (concat chunks) = Some v).
Proof.
  intros H. destruct (H (NumStyle (fun _ => false) false 0 (fun _ => true)) [EvStartObject; EvKey (lit "a") false; EvEndObject] 0%nat _ eq_refl) as [v Hv].
  vm_compute in Hv. discriminate.
Qed.
Print Assumptions C34_malformed_stream_rejected_refuted.

(** The style of the locked printer, as far as it is known: exponents outside 10^-5 .. 10^16. *)
Definition usual_style : num_style := NumStyle (fun k => (k <? -4)%Z || (16 <? k)%Z) true 2 Z.odd.

Example C34_case :
  (exists chunks, decode_to_json_chunks usual_style (lit "q: ""\t\""""
a.b[3]: 1e21,-0.5,42
rows[2]{x,y}:
  1,e
  true,null
e:
l[1]:
  - []") None = Ok chunks /\ concat chunks = lit "{
  ""q"": ""\t\"""",
  ""a.b"": [
    1e+21,
    -0.5,
    42.0
  ],
  ""rows"": [
    {
      ""x"": 1.0,
      ""y"": ""e""
    },
    {
      ""x"": true,
      ""y"": null
    }
  ],
  ""e"": {},
  ""l"": [
    ""[]""
  ]
}") /\
  (exists chunks, decode_to_json_chunks usual_style (lit "a.b: 1
a.c[1]: x") (Some (DecOpts (Some 2%nat) None (Some EPSafe))) = Ok chunks /\ concat chunks = lit "{
  ""a"": {
    ""b"": 1.0,
    ""c"": [
      ""x""
    ]
  }
}").
Proof. split; eexists; (split; [vm_compute; reflexivity|vm_compute; reflexivity]). Qed.

(** The reader is not too generous. *)
Example C34_reader_case :
  json_value (lit " [1, ""\u00e9\uD83D\ude00"" , {""a"":-0.0e-1}] ") =
    Some (JArr [JPrim (PNum (mk_f64 (S754_finite false 4503599627370496 (-52)))); JPrim (PStr [233; 128512]); JObj [(lit "a", JPrim (PNum f64_neg_zero))]]) /\
  Forall (fun s => json_value (lit s) = None)
    ["[1,]"%string; "{""a"":1,}"%string; "{a:1}"%string; "01"%string; "1."%string; ".5"%string; "+1"%string; "1e"%string; "nul"%string;
     "null x"%string; """\x"""%string; """\ud800"""%string; """a"%string; "[1 2]"%string; "{""a"" 1}"%string; ""%string; "'a'"%string; """
"""%string].
Proof. split; [vm_compute; reflexivity|]. repeat constructor. Qed.

(** ** C35: the two writers print the same text *)

(** Every string of a value, keys included. *)
Inductive every_string (P : str -> Prop) : json -> Prop :=
| es_str s : P s -> every_string P (JPrim (PStr s))
| es_prim p : (forall s, p <> PStr s) -> every_string P (JPrim p)
| es_arr l : Forall (every_string P) l -> every_string P (JArr l)
| es_obj l : Forall (fun kv => P (fst kv) /\ every_string P (snd kv)) l -> every_string P (JObj l).
(** No backspace, no form feed, no DEL, no C1 control. *)
Definition common_char (c : char) : Prop := c <> 8 /\ c <> 12 /\ ~ (127 <= c <= 159).
Definition common (s : str) : Prop := Forall common_char s.

Lemma char_same c : common_char c -> push_char c = serde_char c.
Proof.
  intros (H8 & H12 & H127). unfold push_char, serde_char. destruct (c =? cDQ); [reflexivity|].
  destruct (c =? cBSLASH); [reflexivity|].
  replace (c =? 8) with false by lia. replace (c =? 12) with false by lia.
  destruct (c =? cLF); [reflexivity|]. destruct (c =? cCR); [reflexivity|]. destruct (c =? cTAB); [reflexivity|].
  unfold is_control. replace (127 <=? c) with (160 <=? c) by lia.
  replace ((160 <=? c) && (c <=? 159)) with false by lia. rewrite orb_false_r. reflexivity.
Qed.
Lemma char_differs c x y : push_char c ++ x = serde_char c ++ y -> common_char c /\ x = y.
Proof.
  assert (Hd : common_char c \/ c = 8 \/ c = 12 \/ 127 <= c <= 159) by (unfold common_char; lia).
  destruct Hd as [Hc|Hd].
  { intros H. split; [exact Hc|]. rewrite char_same in H by exact Hc. now apply app_inv_head in H. }
  intros H. exfalso. destruct Hd as [->|[->|Hd]]; [discriminate H|discriminate H|].
  unfold push_char, serde_char, is_control in H.
  replace (c =? cDQ) with false in H by lia. replace (c =? cBSLASH) with false in H by lia.
  replace (c =? cLF) with false in H by lia. replace (c =? cCR) with false in H by lia.
  replace (c =? cTAB) with false in H by lia. replace (c =? 8) with false in H by lia. replace (c =? 12) with false in H by lia.
  replace (c <? 32) with false in H by lia. replace ((127 <=? c) && (c <=? 159)) with true in H by lia.
  cbn [orb app unicode_escape] in H. injection H as H _. lia.
Qed.
Lemma string_differs s x y : push_json_string s ++ x = serde_string s ++ y -> common s /\ x = y.
Proof.
  unfold push_json_string, serde_string. cbn [app]. intros H. injection H as H. rewrite <- !app_assoc in H. revert H.
  induction s as [|c s IH]; cbn [flat_map app]; intros H.
  - injection H as H. split; [constructor|exact H].
  - rewrite <- !app_assoc in H. apply char_differs in H as [Hc H]. destruct (IH H). split; [constructor|]; auto.
Qed.
Lemma string_same s : common s -> push_json_string s = serde_string s.
Proof.
  intros H. unfold push_json_string, serde_string. do 2 f_equal.
  induction H as [|c s Hc _ IH]; cbn [flat_map]; [reflexivity|]. now rewrite char_same, IH.
Qed.

Lemma text_differs st indent v : forall d x y,
  jtext push_json_string st indent d v ++ x = jtext serde_string st indent d v ++ y -> every_string common v /\ x = y.
Proof.
  induction v as [p|l IH|l IH] using json_ind'; intros d x y H.
  - destruct p as [s|n|b|]; cbn [jtext ptext] in H.
    + apply string_differs in H as [H1 H2]. split; [now constructor|exact H2].
    + apply app_inv_head in H. split; [constructor; discriminate|exact H].
    + apply app_inv_head in H. split; [constructor; discriminate|exact H].
    + apply app_inv_head in H. split; [constructor; discriminate|exact H].
  - cbn [jtext] in H. destruct (is_empty l) eqn:El.
    { apply app_inv_head in H. destruct l; [|discriminate]. split; [constructor; constructor|exact H]. }
    cbn [app] in H. injection H as H. rewrite <- !app_assoc in H.
    assert (G : forall x y, list_text (jtext push_json_string st indent (S d)) (break indent (S d)) l ++ x
               = list_text (jtext serde_string st indent (S d)) (break indent (S d)) l ++ y -> Forall (every_string common) l /\ x = y).
    { clear H El x y. induction IH as [|v r Hv _ IHr]; intros x y H; cbn [list_text] in H; [split; [constructor|exact H]|].
      rewrite <- !app_assoc in H. apply app_inv_head in H. apply Hv in H as [H1 H]. apply app_inv_head in H.
      destruct (IHr _ _ H). split; [constructor|]; auto. }
    apply G in H as [H1 H]. apply app_inv_head in H. injection H as H. split; [now constructor|exact H].
  - destruct l as [|kv0 l0] eqn:El.
    { apply app_inv_head in H. split; [constructor; constructor|exact H]. }
    rewrite <- El in *. rewrite !jtext_obj in H by (rewrite El; discriminate). clear El kv0 l0.
    cbn [app] in H. injection H as H. rewrite <- !app_assoc in H.
    assert (G : forall x y, list_text (mtext push_json_string st indent (S d)) (break indent (S d)) l ++ x
               = list_text (mtext serde_string st indent (S d)) (break indent (S d)) l ++ y ->
               Forall (fun kv => common (fst kv) /\ every_string common (snd kv)) l /\ x = y).
    { clear H x y. induction IH as [|[k v] r Hv _ IHr]; intros x y H; cbn [list_text] in H; [split; [constructor|exact H]|].
      cbn [snd] in Hv. unfold mtext at 1 3 in H. cbn [fst snd] in H.
      rewrite <- !app_assoc in H. apply app_inv_head in H. apply string_differs in H as [Hk H]. apply app_inv_head in H.
      apply Hv in H as [H1 H]. apply app_inv_head in H.
      destruct (IHr _ _ H). split; [constructor|]; auto. }
    apply G in H as [H1 H]. apply app_inv_head in H. injection H as H. split; [now constructor|exact H].
Qed.
Lemma text_same st indent v : every_string common v -> forall d,
  jtext push_json_string st indent d v = jtext serde_string st indent d v.
Proof.
  induction v as [p|l IH|l IH] using json_ind'; intros H d.
  - inversion H as [s Hs|p' Hp| |]; subst; cbn [jtext ptext]; [now apply string_same|].
    destruct p as [s| | |]; try reflexivity. now elim (Hp s).
  - inversion H as [| |? Hl|]; subst. cbn [jtext]. destruct (is_empty l); [reflexivity|]. do 2 f_equal.
    apply list_text_ext. apply Forall_forall. intros v Hv.
    exact (proj1 (Forall_forall _ _) IH v Hv (proj1 (Forall_forall _ _) Hl v Hv) (S d)).
  - inversion H as [| | |? Hl]; subst. destruct l as [|kv0 l0] eqn:El; [reflexivity|].
    rewrite <- El in *. rewrite !jtext_obj by (rewrite El; discriminate). do 2 f_equal.
    apply list_text_ext. apply Forall_forall. intros [k v] Hv. unfold mtext. cbn [fst snd].
    destruct (proj1 (Forall_forall _ _) Hl _ Hv) as [Hk Hvv]. cbn [fst snd] in *.
    rewrite (string_same k Hk). do 2 f_equal. exact (proj1 (Forall_forall _ _) IH _ Hv Hvv (S d)).
Qed.

(** The texts are equal exactly when no string has a character the two escape differently. *)
Theorem C35_writers_agree :
  forall (st : num_style) (v : json) (evs : list event) (indent : nat) (chunks : list str),
    describes (fun _ _ => True) evs v -> json_stream_from_events st evs indent = Ok chunks ->
    (concat chunks = concat (json_stringify_lines st v indent) <-> every_string common v).
Proof.
  intros st v evs indent chunks Hd He. destruct (stream_text _ st indent _ _ Hd) as (out & Eo & Ec).
  rewrite Eo in He. injection He as <-. rewrite Ec. unfold json_stringify_lines. cbn [concat]. rewrite app_nil_r, stringify_text. split.
  - intros H. apply (text_differs st indent v 0 [] []). now rewrite H.
  - intros H. symmetry. now apply text_same.
Qed.
Print Assumptions C35_writers_agree.

(** The two code paths of the tool: when expansion changes nothing, with and without it the same text
    is printed, up to those characters. *)
Theorem C35_code_paths_agree :
  forall (st : num_style) (input : str) (indent : nat) (strict : bool) (v : json) (a b : list str),
    try_decode input (Some (DecOpts (Some indent) (Some strict) (Some EPOff))) = Ok v ->
    try_decode input (Some (DecOpts (Some indent) (Some strict) (Some EPSafe))) = Ok v ->
    decode_to_json_chunks st input (Some (DecOpts (Some indent) (Some strict) (Some EPOff))) = Ok a ->
    decode_to_json_chunks st input (Some (DecOpts (Some indent) (Some strict) (Some EPSafe))) = Ok b ->
    (concat a = concat b <-> every_string common v).
Proof.
  intros st input indent strict v a b.
  unfold decode_to_json_chunks, decode_to_value, cli_decode_events, try_decode, try_decode_from_lines. cbv zeta.
  cbn [resolve_decode_options rd_indent rd_strict rd_expand do_indent do_strict do_expand unwrap_or].
  destruct (decode_stream_sync _ _) as [evs|e'] eqn:Ed; cbn [bind]; [|discriminate].
  destruct (stream_grammar _ _ _ Ed) as [w Hw]. destruct (describes_build _ _ _ Hw) as (n & En & <-). rewrite En. cbn [bind].
  intros H1. injection H1 as <-. destruct (expand_paths_safe n strict) as [m|]; cbn [bind]; [|discriminate].
  intros H2 Ha Hb. injection H2 as H2. injection Hb as <-. rewrite H2. eapply C35_writers_agree; eauto.
  eapply (describes_weaken _ (fun _ _ => True)); eauto.
Qed.
Print Assumptions C35_code_paths_agree.

Example C35_case :
  let v := JObj [(lit "k", JArr [JPrim (PStr (lit "a
	b")); JArr []; JObj []; JPrim (PStr [1; 233])])] in
  let w := JPrim (PStr [8]) in
  every_string common v /\ ~ every_string common w /\
  concat (json_stringify_lines usual_style v 1) = lit "{
 ""k"": [
  ""a\n\tb"",
  [],
  {},
  ""\u0001" ++ [233] ++ lit """
 ]
}" /\ json_stringify_lines usual_style w 0 = [lit """\u0008"""] /\
  json_stream_from_events usual_style [EvPrim (PStr [8])] 0 = Ok [lit """\b"""].
Proof.
  cbv zeta. split; [|split; [|vm_compute; auto]].
  - assert (Hc : forall s, forallb (fun c => negb (c =? 8) && negb (c =? 12) && negb ((127 <=? c) && (c <=? 159))) s = true -> common s).
    { intros s Hs. apply Forall_forall. intros c Hi. apply (proj1 (forallb_forall _ _) Hs) in Hi. unfold common_char. lia. }
    constructor. constructor; [|constructor]. split; [apply Hc; reflexivity|].
    cbn [snd]. constructor. repeat (constructor; [try (constructor; first [apply Hc; reflexivity | constructor])|]); constructor.

  - intros H. inversion H as [? Hs|? Hp| |]; subst; [|now elim (Hp [8])]. inversion Hs as [|? ? [Hc _] _]; subst. congruence.
Qed.
