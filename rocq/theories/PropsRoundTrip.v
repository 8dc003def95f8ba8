(** Properties of encoder and decoder together: C01, C02, C07, C10, C11, C12, C15, C16, C41, C42. *)
From Verif Require Import Chars Floats Json JsonInd JsonEq Shared EncPrim Normalize Folding Encoders EncodeApi
  Scanner Parser DecValidation Decoders EventBuilder Expand DecodeApi Fixtures Lex NumProof Spec DecRel DecProps
  DecRelax Layout LayEnc LayFacts EncTotal WrittenProps Checkers RoundTrip.
From Coq Require Import Permutation.

Local Open Scope nat_scope.

(** ** C01: strict round trip *)

Theorem C01_round_trip :
  forall (fuel : nat) (v : json) (eo : option encode_options) (d : option decode_options),
    plain_options eo -> matching_options eo d -> distinct_keys v -> portable v ->
    exists text n w,
      encode fuel v eo = Ok text /\ norm_json v n /\
      try_decode text d = Ok w /\ table_ordered n w.
Proof.
  intros fuel v eo d Ho Hm Hk Hp. destruct (round_trip fuel v eo Ho Hk Hp) as (ls & w & E & Hl & W & D).
  exists (join cLF ls), (normalize_json_value v), w.
  split; [unfold encode; now rewrite E|]. split; [apply normalize_spec|].
  split; [eapply decode_plain_text; eauto|].
  eapply written_ordered; eauto. eapply norm_distinct; eauto using normalize_spec.
Qed.
Print Assumptions C01_round_trip.

(** In particular it is the same value up to the order of members. *)
Theorem C01_round_trip_equiv :
  forall (fuel : nat) (v : json) (eo : option encode_options) (d : option decode_options),
    plain_options eo -> matching_options eo d -> distinct_keys v -> portable v ->
    exists text n w,
      encode fuel v eo = Ok text /\ norm_json v n /\ try_decode text d = Ok w /\ jequiv n w.
Proof.
  intros fuel v eo d Ho Hm Hk Hp. destruct (C01_round_trip fuel v eo d Ho Hm Hk Hp) as (text & n & w & H1 & H2 & H3 & H4).
  exists text, n, w. eauto using table_ordered_jequiv.
Qed.
Print Assumptions C01_round_trip_equiv.

(** ** C02: exact round trip *)

Theorem C02_exact_round_trip :
  forall (fuel : nat) (v : json) (eo : option encode_options) (d : option decode_options),
    plain_options eo -> matching_options eo d -> distinct_keys v -> portable v -> uniform v ->
    exists text n,
      encode fuel v eo = Ok text /\ norm_json v n /\ try_decode text d = Ok n.
Proof.
  intros fuel v eo d Ho Hm Hk Hp Hu.
  destruct (C01_round_trip fuel v eo d Ho Hm Hk Hp) as (text & n & w & H1 & H2 & H3 & H4).
  exists text, n. split; auto. split; auto. rewrite H3. f_equal.
  apply table_ordered_uniform; eauto using norm_distinct, norm_uniform.
Qed.
Print Assumptions C02_exact_round_trip.

(** A value whose numbers JSON can express comes back itself. *)
Theorem C02_exact_round_trip_canonical :
  forall (fuel : nat) (v : json) (eo : option encode_options) (d : option decode_options),
    plain_options eo -> matching_options eo d -> distinct_keys v -> portable v -> uniform v -> canonical v ->
    exists text, encode fuel v eo = Ok text /\ try_decode text d = Ok v.
Proof.
  intros fuel v eo d Ho Hm Hk Hp Hu Hc.
  destruct (round_trip fuel v eo Ho Hk Hp) as (ls & w & E & Hl & W & D). rewrite (normalize_canonical v Hc) in W.
  exists (join cLF ls). split; [unfold encode; now rewrite E|].
  rewrite (decode_plain_text ls w eo d Hm Hl D). f_equal.
  apply table_ordered_uniform; auto. eapply written_ordered; eauto.
Qed.
Print Assumptions C02_exact_round_trip_canonical.

(** A document using every construct: nested objects, tables, lists of lists, odd strings. *)
Definition sample : json :=
  JObj [(lit "name", JPrim (PStr (lit "a: b")));
        (lit "my key", JPrim (PStr (lit "x[1]: y")));
        (lit "tags", JArr [JPrim (PStr (lit "x[1]: y")); JPrim (PBool true); JPrim PNull]);
        (lit "rows", JArr [JObj [(lit "id", jnum (lit "1")); (lit "v", JPrim (PStr (lit "x[1]: y")))];
                           JObj [(lit "v", JPrim (PStr (lit "null"))); (lit "id", jnum (lit "-2.5"))]]);
        (lit "list", JArr [JObj [(lit "k", JObj [(lit "deep", JArr [])]); (lit "l", jnum (lit "3"))];
                           JArr [JArr [jnum (lit "1")]; JObj []]; JPrim (PStr (lit "- item"))]);
        (lit "empty", JObj [])].
Lemma sample_distinct : distinct_keys sample.
Proof. apply distinctb_ok. vm_compute. reflexivity. Qed.
Lemma sample_portable : portable sample.
Proof. apply portableb_ok; [apply sample_distinct|]. vm_compute. reflexivity. Qed.

Example C01_case : exists w,
  let eo := Some (EncOpts (Some 3) (Some cPIPE) None None None) in
  plain_options eo /\ matching_options eo (Some (DecOpts (Some 3) (Some true) None)) /\
  distinct_keys sample /\ portable sample /\
  (let? text := encode 0 sample eo in try_decode text (Some (DecOpts (Some 3) (Some true) None))) = Ok w /\ w <> sample.
Proof.
  eexists. cbv zeta. split; [|split; [|split; [apply sample_distinct|split; [apply sample_portable|split; [vm_compute; reflexivity|discriminate]]]]].
  - repeat split; try discriminate. right; right; reflexivity.
  - split; reflexivity.
Qed.

(** The hypotheses are needed: a string that looks like a header, two members with the same key. *)
Example C01_header_like_needed :
  (let? text := encode 0 (JObj [(lit "key", JPrim (PStr (lit "x[1]: y")))]) None in try_decode text None)
  = Ok (JObj [(lit "key: ""x", JArr [JPrim (PStr (lit "y"""))])]).
Proof. vm_compute. reflexivity. Qed.
Example C01_distinct_needed :
  (let? text := encode 0 (JArr [JObj [(lit "a", JPrim PNull); (lit "a", JPrim (PBool true))]]) None in try_decode text None)
  = Ok (JArr [JObj [(lit "a", JPrim PNull); (lit "a", JPrim PNull)]]).
Proof. vm_compute. reflexivity. Qed.
Example C01_delimiter_needed :
  (let? text := encode 0 (JArr [jnum (lit "1"); jnum (lit "2")]) (Some (EncOpts None (Some 59%N) None None None)) in
   try_decode text None) <> Ok (JArr [jnum (lit "1"); jnum (lit "2")]).
Proof. vm_compute. discriminate. Qed.
Example C01_indent_needed :
  let v := JObj [(lit "a", JObj [(lit "b", JPrim PNull)])] in
  (let? text := encode 0 v (Some (EncOpts (Some 0) None None None None)) in
   try_decode text (Some (DecOpts (Some 0) None None))) <> Ok v.
Proof. vm_compute. discriminate. Qed.

(** ** C07: the text of strings does not matter *)

(** Wherever strings stand except under unquoted keys, changing their text in any way leaves the
    structure of the decoded document alone. *)
Theorem C07_strings_keep_structure :
  forall (fuel : nat) (v v' : json) (eo : option encode_options) (d : option decode_options),
    plain_options eo -> matching_options eo d -> distinct_keys v -> guarded v -> same_shape v v' ->
    exists text w text' w',
      encode fuel v eo = Ok text /\ try_decode text d = Ok w /\
      encode fuel v' eo = Ok text' /\ try_decode text' d = Ok w' /\ same_shape w w'.
Proof.
  intros fuel v v' eo d Ho Hm Hk Hg Hs.
  assert (Hk' : distinct_keys v') by (eapply shape_distinct; eauto).
  assert (Hp : portable v) by now apply guarded_portable.
  assert (Hp' : portable v') by (apply guarded_portable; eapply guarded_shape; eauto).
  destruct (round_trip fuel v eo Ho Hk Hp) as (ls & w & E & Hl & W & D).
  destruct (round_trip fuel v' eo Ho Hk' Hp') as (ls' & w' & E' & Hl' & W' & D').
  exists (join cLF ls), w, (join cLF ls'), w'. unfold encode. rewrite E, E'.
  split; auto. split; [eapply decode_plain_text; eauto|]. split; auto. split; [eapply decode_plain_text; eauto|].
  eapply written_shape; [exact W| |exact W']. now apply shape_norm.
Qed.
Print Assumptions C07_strings_keep_structure.

Definition guarded_sample : json :=
  JObj [(lit "my key", JPrim (PStr (lit "x[1]: y")));
        (lit "tags", JArr [JPrim (PStr (lit "x[1]: y")); JPrim (PBool true)]);
        (lit "rows", JArr [JObj [(lit "id", jnum (lit "1")); (lit "v", JPrim (PStr (lit "x[1]: y")))]]);
        (lit "list", JArr [JPrim (PStr (lit "[2]: a,b")); JObj []])].
Example C07_case : distinct_keys guarded_sample /\ guarded guarded_sample.
Proof.
  assert (distinct_keys guarded_sample) by (apply distinctb_ok; vm_compute; reflexivity).
  split; auto. apply guardedb_ok; auto.
Qed.

(** Under an unquoted key the text matters: a string becomes an array under another key, or makes
    the document unreadable. *)
Theorem C07_strings_keep_structure_refuted :
  exists (v v' v'' w w' : json) (text text' text'' : str) (e : err),
    same_shape v v' /\ same_shape v v'' /\ distinct_keys v /\
    encode 0 v None = Ok text /\ encode 0 v' None = Ok text' /\ encode 0 v'' None = Ok text'' /\
    try_decode text None = Ok w /\ try_decode text' None = Ok w' /\ ~ same_shape w w' /\
    try_decode text'' None = Err e.
Proof.
  exists (JObj [(lit "key", JPrim (PStr (lit "x")))]), (JObj [(lit "key", JPrim (PStr (lit "x[1]: y")))]),
    (JObj [(lit "key", JPrim (PStr (lit "x[3]: y")))]).
  eexists _, _, _, _, _, _.
  split; [repeat constructor|]. split; [repeat constructor|]. split; [apply distinctb_ok; reflexivity|].
  split; [vm_compute; reflexivity|]. split; [vm_compute; reflexivity|]. split; [vm_compute; reflexivity|].
  split; [vm_compute; reflexivity|]. split; [vm_compute; reflexivity|]. split; [|vm_compute; reflexivity].
  intros H. inversion H as [| | |? ? F]; subst. inversion F as [|? ? ? ? [E _]]; subst. discriminate.
Qed.
Print Assumptions C07_strings_keep_structure_refuted.

(** ** C10: the two event streams agree *)

Theorem C10_events_agree :
  forall (fuel : nat) (v : json) (eo : option encode_options) (strict : bool),
    plain_options eo -> distinct_keys v -> portable v -> uniform v ->
    exists ls evs,
      encode_lines fuel v eo = Ok ls /\ encode_stream_events fuel v eo = Ok evs /\
      decode_stream_sync ls (Some (DStreamOpts (Some (ro_indent (resolve_encode_options eo))) (Some strict))) = Ok evs.
Proof.
  intros fuel v eo strict Ho Hk Hp Hu. destruct (round_trip fuel v eo Ho Hk Hp) as (ls & w & E & Hl & W & D).
  assert (w = normalize_json_value v).
  { apply table_ordered_uniform; [| |eapply written_ordered; eauto].
    - eapply norm_distinct; eauto using normalize_spec.
    - eapply norm_uniform; eauto using normalize_spec.
    - eapply norm_distinct; eauto using normalize_spec. }
  subst w. exists ls, (emit_events (normalize_json_value v)). split; auto. split; auto.
  destruct Ho as (_ & Hr & _). unfold encode_stream_events, prepare. cbv zeta. rewrite Hr. reflexivity.
Qed.
Print Assumptions C10_events_agree.

(** With rows that list their fields in different orders the streams differ. *)
Example C10_uniform_needed :
  let v := JArr [JObj [(lit "a", JPrim PNull); (lit "b", JPrim PNull)]; JObj [(lit "b", JPrim PNull); (lit "a", JPrim PNull)]] in
  (let? ls := encode_lines 0 v None in decode_stream_sync ls None) <> encode_stream_events 0 v None.
Proof. vm_compute. discriminate. Qed.

(** ** C11: re-encoding is stable *)

Lemma re_encode_text fuel v w eo : plain_options eo -> distinct_keys v ->
  written false true (normalize_json_value v) w -> encode_lines fuel w eo = encode_lines fuel v eo.
Proof.
  intros (Hf & Hr & _) Hk W. unfold encode_lines, prepare. cbv zeta. rewrite Hr. cbn [bind].
  assert (Hd : distinct_keys (normalize_json_value v)) by (eapply norm_distinct; eauto using normalize_spec).
  rewrite (normalize_canonical w).
  - now apply re_encode_value.
  - eapply jequiv_canonical; [eapply table_ordered_jequiv, written_ordered; eauto|].
    eapply norm_canonical, normalize_spec.
Qed.

Theorem C11_re_encoding_stable :
  forall (fuel : nat) (v : json) (eo : option encode_options) (d : option decode_options),
    plain_options eo -> matching_options eo d -> distinct_keys v -> portable v ->
    exists text w,
      encode fuel v eo = Ok text /\ try_decode text d = Ok w /\ encode fuel w eo = Ok text.
Proof.
  intros fuel v eo d Ho Hm Hk Hp. destruct (round_trip fuel v eo Ho Hk Hp) as (ls & w & E & Hl & W & D).
  exists (join cLF ls), w. unfold encode. rewrite (re_encode_text fuel v w eo Ho Hk W), E.
  split; auto. split; auto. eapply decode_plain_text; eauto.
Qed.
Print Assumptions C11_re_encoding_stable.

(** ** C12: encoding is injective up to the order of members *)

Theorem C12_injective :
  forall (fuel : nat) (v1 v2 : json) (eo : option encode_options) (text : str),
    plain_options eo -> distinct_keys v1 -> portable v1 -> distinct_keys v2 -> portable v2 ->
    encode fuel v1 eo = Ok text -> encode fuel v2 eo = Ok text ->
    exists n1 n2, norm_json v1 n1 /\ norm_json v2 n2 /\ jequiv n1 n2.
Proof.
  intros fuel v1 v2 eo text Ho K1 P1 K2 P2 E1 E2.
  pose (d := Some (DecOpts (Some (ro_indent (resolve_encode_options eo))) None None)).
  assert (Hm : matching_options eo d) by (split; reflexivity).
  destruct (C01_round_trip_equiv fuel v1 eo d Ho Hm K1 P1) as (t1 & n1 & w1 & A1 & A2 & A3 & A4).
  destruct (C01_round_trip_equiv fuel v2 eo d Ho Hm K2 P2) as (t2 & n2 & w2 & B1 & B2 & B3 & B4).
  exists n1, n2. split; auto. split; auto.
  assert (t1 = text) by congruence. assert (t2 = text) by congruence. subst.
  assert (w1 = w2) by congruence. subst. eapply jequiv_trans; [exact A4|]. now apply jequiv_sym.
Qed.
Print Assumptions C12_injective.

(** Values in table order with numbers JSON can express are equal when their texts are. *)
Theorem C12_injective_uniform :
  forall (fuel : nat) (v1 v2 : json) (eo : option encode_options) (text : str),
    plain_options eo ->
    distinct_keys v1 -> portable v1 -> uniform v1 -> canonical v1 ->
    distinct_keys v2 -> portable v2 -> uniform v2 -> canonical v2 ->
    encode fuel v1 eo = Ok text -> encode fuel v2 eo = Ok text -> v1 = v2.
Proof.
  intros fuel v1 v2 eo text Ho K1 P1 U1 C1 K2 P2 U2 C2 E1 E2.
  pose (d := Some (DecOpts (Some (ro_indent (resolve_encode_options eo))) None None)).
  assert (Hm : matching_options eo d) by (split; reflexivity).
  destruct (C02_exact_round_trip_canonical fuel v1 eo d Ho Hm K1 P1 U1 C1) as (t1 & A1 & A2).
  destruct (C02_exact_round_trip_canonical fuel v2 eo d Ho Hm K2 P2 U2 C2) as (t2 & B1 & B2).
  congruence.
Qed.
Print Assumptions C12_injective_uniform.

(** Members do not commute outside tables, and the hypothesis on strings is needed. *)
Example C12_order_matters :
  encode 0 (JObj [(lit "a", JPrim PNull); (lit "b", JPrim PNull)]) None <>
  encode 0 (JObj [(lit "b", JPrim PNull); (lit "a", JPrim PNull)]) None.
Proof. vm_compute. discriminate. Qed.

(** ** C15: the encoder returns for every value *)

Theorem C15_encoder_total :
  forall (fuel : nat) (v : json) (eo : option encode_options),
    ro_replacer (resolve_encode_options eo) = None ->
    exists ls evs,
      encode_lines fuel v eo = Ok ls /\ encode fuel v eo = Ok (join cLF ls) /\
      encode_stream_events fuel v eo = Ok evs.
Proof.
  intros fuel v eo Hr. unfold encode, encode_lines, encode_stream_events, prepare. cbv zeta. rewrite Hr. cbn [bind].
  destruct (encode_json_value_total (normalize_json_value v) (resolve_encode_options eo)) as (ls & E). rewrite E.
  eexists _, _. split; [|split]; reflexivity.
Qed.
Print Assumptions C15_encoder_total.

(** Ragged rows, duplicate keys, NaN, key folding, an odd delimiter, indentation 0. *)
Example C15_case :
  let eo := Some (EncOpts (Some 0) (Some 34%N) (Some KFSafe) (Some 1%N) None) in
  let v := JArr [JObj [(lit "a", JPrim (PNum f64_nan)); (lit "a", JArr [])]; JObj []; JPrim PNull] in
  ro_replacer (resolve_encode_options eo) = None /\
  encode 0 v eo = Ok (lit "[3""]:
- a: null
a[0""]:
-
- null").
Proof. vm_compute. split; reflexivity. Qed.

(** ** C16: lines are clean *)

Theorem C16_lines_clean :
  forall (fuel : nat) (v : json) (eo : option encode_options) (ls : list str),
    ro_replacer (resolve_encode_options eo) = None -> std_delim (ro_delimiter (resolve_encode_options eo)) ->
    encode_lines fuel v eo = Ok ls ->
    Forall (fun line => ~ In cLF line /\ ~ In cCR line /\ ~ blank line /\
      exists depth content, line = repeat cSPACE (ro_indent (resolve_encode_options eo) * depth) ++ content /\
        (exists c r, content = c :: r /\ is_ws c = false) /\
        (exists r c, content = r ++ [c] /\ is_ws c = false)) ls.
Proof.
  intros fuel v eo ls Hr Hd E. unfold encode_lines, prepare in E. cbv zeta in E. rewrite Hr in E. cbn [bind] in E.
  destruct (json_value_lay False _ _ _ E ltac:(intros []) Hd) as (w & abs & L & -> & _).
  pose proof (lay_root_clean _ Hd _ _ _ L) as Hc. apply Forall_forall. intros line Hl.
  apply in_map_iff in Hl as ([dep c] & <- & Hi). pose proof (proj1 (Forall_forall _ _) Hc _ Hi) as Hc0. clear Hc. rename Hc0 into Hc. cbn [snd] in Hc.
  pose proof (clean_ends _ Hc) as (Hs & Ht). destruct Hc as (_ & _ & H1 & H2).
  unfold render, indented_line, spaces. cbn [fst snd].
  assert (Hsp : forall x n, x <> cSPACE -> ~ In x (repeat cSPACE n)).
  { intros x n Hx Hin. apply repeat_spec in Hin. congruence. }
  split; [rewrite in_app_iff; intros [X|X]; [apply Hsp in X; [auto|discriminate]|auto]|].
  split; [rewrite in_app_iff; intros [X|X]; [apply Hsp in X; [auto|discriminate]|auto]|].
  split; [|exists dep, c; auto].
  intros Hb. apply Forall_app in Hb as [_ Hb]. destruct Hs as (x & r & -> & Hx). inversion Hb; congruence.
Qed.
Print Assumptions C16_lines_clean.

Example C16_case :
  let eo := Some (EncOpts (Some 3) (Some cTAB) (Some KFSafe) None None) in
  let v := JObj [([], JArr [JPrim (PStr [cLF; cSPACE]); JPrim (PStr [])]); (lit "a", JObj [(lit "b", JArr [JArr []; JObj [([cCR], JPrim PNull)]])])] in
  ro_replacer (resolve_encode_options eo) = None /\ std_delim (ro_delimiter (resolve_encode_options eo)) /\
  encode_lines 0 v eo = Ok [lit """""[2" ++ [cTAB] ++ lit "]: ""\n """ ++ [cTAB] ++ lit """"""; lit "a.b[2" ++ [cTAB] ++ lit "]:"; lit "   - [0" ++ [cTAB] ++ lit "]:";
                             lit "   - ""\r"": null"].
Proof. split; [reflexivity|]. split; [right; left; reflexivity|]. vm_compute. reflexivity. Qed.

(** ** C41: delimiter and indentation are presentation only *)

Theorem C41_presentation_only :
  forall (fuel : nat) (v : json) (eo1 eo2 : option encode_options) (d1 d2 : option decode_options),
    plain_options eo1 -> plain_options eo2 -> matching_options eo1 d1 -> matching_options eo2 d2 ->
    distinct_keys v -> portable v ->
    exists text1 text2 w,
      encode fuel v eo1 = Ok text1 /\ encode fuel v eo2 = Ok text2 /\
      try_decode text1 d1 = Ok w /\ try_decode text2 d2 = Ok w.
Proof.
  intros fuel v eo1 eo2 d1 d2 O1 O2 M1 M2 Hk Hp.
  destruct (round_trip fuel v eo1 O1 Hk Hp) as (ls1 & w1 & E1 & L1 & W1 & D1).
  destruct (round_trip fuel v eo2 O2 Hk Hp) as (ls2 & w2 & E2 & L2 & W2 & D2).
  assert (w2 = w1) by (eapply written_fun; eauto). subst w2.
  exists (join cLF ls1), (join cLF ls2), w1. unfold encode. rewrite E1, E2.
  split; auto. split; auto. split; eapply decode_plain_text; eauto.
Qed.
Print Assumptions C41_presentation_only.

(** The texts do differ. *)
Example C41_case :
  encode 0 sample None <> encode 0 sample (Some (EncOpts (Some 4) (Some cTAB) None None None)).
Proof. vm_compute. discriminate. Qed.

(** ** C42: line API and text API *)

Theorem C42_encode_is_joined_lines :
  forall (fuel : nat) (v : json) (eo : option encode_options),
    encode fuel v eo = match encode_lines fuel v eo with Ok ls => Ok (join cLF ls) | Err e => Err e end.
Proof. intros. unfold encode. destruct (encode_lines fuel v eo); reflexivity. Qed.
Print Assumptions C42_encode_is_joined_lines.

Theorem C42_decode_lines_is_text :
  forall (lines : list str) (d : option decode_options),
    Forall (fun s => ~ In cLF s) lines ->
    try_decode (join cLF lines) d = try_decode_from_lines lines d.
Proof. intros lines d H. unfold try_decode, try_decode_from_lines. cbv zeta. now rewrite stream_text. Qed.
Print Assumptions C42_decode_lines_is_text.

Theorem C42_text_is_decode_lines :
  forall (text : str) (d : option decode_options),
    exists lines, Forall (fun s => ~ In cLF s) lines /\ join cLF lines = text /\
      try_decode text d = try_decode_from_lines lines d.
Proof.
  intros text d. exists (split_on cLF text). split; [apply split_on_pieces|]. split; [apply join_split|reflexivity].
Qed.
Print Assumptions C42_text_is_decode_lines.

Example C42_case :
  Forall (fun s => ~ In cLF s) [lit "a[2]:"; lit "  - x"; []; lit "  - y"] /\
  try_decode_from_lines [lit "a[2]:"; lit "  - x"; []; lit "  - y"] (Some (DecOpts None (Some false) None)) =
    Ok (JObj [(lit "a", JArr [JPrim (PStr (lit "x")); JPrim (PStr (lit "y"))])]).
Proof.
  split; [|vm_compute; reflexivity].
  repeat constructor; intros H; repeat (destruct H as [H|H]; [discriminate|]); exact H.
Qed.
