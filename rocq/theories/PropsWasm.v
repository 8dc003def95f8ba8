(** C50: the bindings for JavaScript. *)
From Coq Require Import SpecFloat.
From Verif Require Import Chars Floats Json JsonInd JsonEq NumProof Shared EncPrim Normalize Folding Encoders Replacer EncodeApi
  Scanner Parser DecValidation Decoders EventBuilder Expand DecodeApi Fixtures Lex Spec DecRel DecProps Checkers RoundTrip PropsRoundTrip PropsFold
  DecNums JsonText SpecJson JsonNumProof JsonTextProof JsonGrammar PropsJson SpecSerde Serde SerdeProof SerdeNum SerdeRead PropsSerde
  Wasm SpecWasm.

(** * Numbers as settings *)

Lemma cut_unique x n m : cut x n -> cut x m -> n = m.
Proof.
  intros (A1 & A2 & A3) (B1 & B2 & B3). destruct (N.lt_trichotomy n m) as [H|[H|H]]; [|exact H|].
  - destruct B2 as [->|B2]; [lia|]. destruct (A3 m H B1 B2).
  - destruct A2 as [->|A2]; [lia|]. destruct (B3 n H A1 A2).
Qed.
Lemma cut_usize x : cut x (f64_as_usize x).
Proof.
  unfold cut, f64_as_usize, at_least, WASM_USIZE_MAX.
  destruct (f64_sf x) as [s|s| |s m e].
  - split; [lia|]. split; [now left|]. intros k H1 H2. lia.
  - destruct s.
    + split; [lia|]. split; [now left|]. auto.
    + split; [lia|]. split; [now right|]. intros k H1 H2. lia.
  - split; [lia|]. split; [now left|]. auto.
  - destruct s.
    + split; [lia|]. split; [now left|]. intros k H1 H2 H3.
      assert (0 < 2 ^ Z.max 0 (- e))%Z by (apply Z.pow_pos_nonneg; lia). assert (0 < 2 ^ Z.max 0 e)%Z by (apply Z.pow_pos_nonneg; lia). nia.
    + set (q := (if (e <? 0)%Z then (Z.pos m / 2 ^ (- e))%Z else (Z.pos m * 2 ^ e)%Z)).
      assert (Q : forall k, (0 <= k)%Z -> ((k * 2 ^ Z.max 0 (- e) <= Z.pos m * 2 ^ Z.max 0 e)%Z <-> (k <= q)%Z)).
      { intros k Hk. unfold q. destruct (e <? 0)%Z eqn:E.
        - rewrite Z.max_r, Z.max_l by lia. rewrite Z.pow_0_r, Z.mul_1_r.
          assert (P : (0 < 2 ^ (- e))%Z) by (apply Z.pow_pos_nonneg; lia). split; intros H.
          + apply Z.div_le_lower_bound; lia.
          + pose proof (Z.mul_div_le (Z.pos m) (2 ^ (- e)) P). transitivity ((Z.pos m / 2 ^ (- e)) * 2 ^ (- e))%Z; [apply Z.mul_le_mono_nonneg_r; lia|lia].
        - rewrite Z.max_l, Z.max_r by lia. rewrite Z.pow_0_r, Z.mul_1_r. reflexivity. }
      assert (q >= 0)%Z.
      { unfold q. destruct (e <? 0)%Z eqn:E; [apply Z.le_ge, Z.div_pos; [lia|apply Z.pow_pos_nonneg; lia]|].
        apply Z.le_ge, Z.mul_nonneg_nonneg; [lia|apply Z.pow_nonneg; lia]. }
      split; [lia|]. split.
      * right. apply Q; lia.
      * intros k H1 H2 H3. apply Q in H3; lia.
Qed.

(** * Settings *)

Lemma str_eqb_refl' s : str_eqb s s = true.
Proof. now apply str_eqb_eq. Qed.
Lemma parse_encode_says j get : settings j get ->
  exists o, parse_encode_options j = Returns o /\ says_encode get (resolve_encode_options o).
Proof.
  intros H. destruct H as [| |get]; cbn [parse_encode_options].
  1,2: exists None; split; [reflexivity|]; unfold says_encode, number_there, string_there; cbn;
    repeat apply conj; try discriminate; try reflexivity; intros; discriminate.
  eexists. split; [reflexivity|]. unfold says_encode, number_there, string_there, resolve_encode_options, prop_f64, prop_str.
  cbn [unwrap_or eo_indent eo_delimiter eo_key_folding eo_flatten_depth eo_replacer ro_indent ro_delimiter ro_key_folding ro_flatten_depth ro_replacer].
  repeat apply conj.
  - intros x ->. cbn [option_map unwrap_or]. rewrite N2Nat.id. apply cut_usize.
  - intros Hn. destruct (get (lit "indent")) as [[]|]; try reflexivity. destruct (Hn x eq_refl).
  - intros c s ->. reflexivity.
  - intros Hn. destruct (get (lit "delimiter")) as [[| | | |[|c s]| |]|]; try reflexivity. destruct (Hn c s eq_refl).
  - destruct (get (lit "keyFolding")) as [[| | | |s| |]|]; try (intros; discriminate).
    destruct (str_eqb s (lit "off")) eqn:E1; [intros; discriminate|].
    destruct (str_eqb s (lit "safe")) eqn:E2; cbn [unwrap_or]; [|intros; discriminate].
    apply str_eqb_eq in E2. now subst.
  - intros ->. reflexivity.
  - intros x ->. apply cut_usize.
  - intros Hn. destruct (get (lit "flattenDepth")) as [[]|]; try reflexivity. destruct (Hn x eq_refl).
  - reflexivity.
Qed.
Lemma parse_decode_says j get : settings j get ->
  exists o, parse_decode_options j = Returns o /\ says_decode get (resolve_decode_options o).
Proof.
  intros H. destruct H as [| |get]; cbn [parse_decode_options].
  1,2: exists None; split; [reflexivity|]; unfold says_decode, number_there, string_there; cbn;
    repeat apply conj; try discriminate; try reflexivity; intros; discriminate.
  eexists. split; [reflexivity|]. unfold says_decode, number_there, string_there, resolve_decode_options, prop_f64, prop_str, prop_bool.
  cbn [unwrap_or do_indent do_strict do_expand rd_indent rd_strict rd_expand].
  repeat apply conj.
  - intros x ->. cbn [option_map unwrap_or]. rewrite N2Nat.id. apply cut_usize.
  - intros Hn. destruct (get (lit "indent")) as [[]|]; try reflexivity. destruct (Hn x eq_refl).
  - intros E. destruct (get (lit "strict")) as [[| |[]| | | |]|]; try discriminate. reflexivity.
  - intros ->. reflexivity.
  - destruct (get (lit "expandPaths")) as [[| | | |s| |]|]; try (intros; discriminate).
    destruct (str_eqb s (lit "off")) eqn:E1; [intros; discriminate|].
    destruct (str_eqb s (lit "safe")) eqn:E2; cbn [unwrap_or]; [|intros; discriminate].
    apply str_eqb_eq in E2. now subst.
  - intros ->. reflexivity.
Qed.
Lemma says_encode_fun get r r' : says_encode get r -> says_encode get r' -> r = r'.
Proof.
  destruct r as [i d k f p], r' as [i' d' k' f' p']. unfold says_encode, number_there, string_there.
  cbn [ro_indent ro_delimiter ro_key_folding ro_flatten_depth ro_replacer].
  intros (A1 & A2 & A3 & A4 & A5 & A6 & A7 & ->) (B1 & B2 & B3 & B4 & B5 & B6 & B7 & ->). f_equal.
  - destruct (get (lit "indent")) as [[]|];
      try (rewrite A2, B2 by discriminate; reflexivity).
    apply Nat2N.inj. eapply cut_unique; [apply A1|apply B1]; reflexivity.
  - destruct (get (lit "delimiter")) as [[| | | |[|c s]| |]|]; try (rewrite A4, B4 by discriminate; reflexivity).
    now rewrite (A3 c s), (B3 c s).
  - destruct k, k'; try reflexivity; [apply A5, B5|symmetry; apply B5, A5]; reflexivity.
  - destruct (get (lit "flattenDepth")) as [[]|];
      try (rewrite A7, B7 by discriminate; reflexivity).
    eapply cut_unique; [apply A6|apply B6]; reflexivity.
Qed.
Lemma says_decode_fun get r r' : says_decode get r -> says_decode get r' -> r = r'.
Proof.
  destruct r as [i s p], r' as [i' s' p']. unfold says_decode, number_there, string_there. cbn [rd_indent rd_strict rd_expand].
  intros (A1 & A2 & A3 & A4) (B1 & B2 & B3 & B4). f_equal.
  - destruct (get (lit "indent")) as [[]|];
      try (rewrite A2, B2 by discriminate; reflexivity).
    apply Nat2N.inj. eapply cut_unique; [apply A1|apply B1]; reflexivity.
  - destruct s, s'; try reflexivity; [apply A3, B3|symmetry; apply B3, A3]; reflexivity.
  - destruct p, p'; try reflexivity; [apply A4, B4|symmetry; apply B4, A4]; reflexivity.
Qed.
Lemma encode_resolved fuel v o o' : resolve_encode_options o = resolve_encode_options o' -> encode fuel v o = encode fuel v o'.
Proof. intros E. unfold encode, encode_lines. now rewrite E. Qed.
Lemma decode_resolved text o o' : resolve_decode_options o = resolve_decode_options o' -> try_decode text o = try_decode text o'.
Proof. intros E. unfold try_decode, try_decode_from_lines. now rewrite E. Qed.

(** * Pretty printing *)

Lemma list_text_break {A} (f : A -> str) br l : list_text f br l = join cCOMMA (map (fun x => br ++ f x) l).
Proof.
  induction l as [|x l IH]; [reflexivity|]. cbn [list_text map app]. rewrite IH. unfold comma_unless.
  destruct l as [|y l]; cbn [is_empty map]; [cbn [join]; now rewrite !app_nil_r|]. rewrite app_assoc. reflexivity.
Qed.
Lemma pretty_break_break d : pretty_break d = break 2 d.
Proof. unfold pretty_break, break. now rewrite Nat.mul_comm. Qed.
Lemma pretty_text st v : forall d, serde_to_string_pretty st d (to_serde v) = jtext serde_string st 2 d (last_wins v).
Proof.
  induction v as [p|l IH|l IH] using json_ind'; intros d.
  - destruct p as [s|x|b|]; try reflexivity. cbn [last_wins to_serde jtext ptext].
    destruct (f64_is_finite x) eqn:E; [reflexivity|]. cbn [serde_to_string_pretty].
    destruct (number_text st x) as [n|] eqn:En; [|reflexivity].
    assert (f64_is_finite x = true) by (apply (number_text_finite st); eauto). congruence.
  - cbn [last_wins to_serde]. destruct (list_eq_nil l) as [->|Hne]; [reflexivity|].
    rewrite jtext_arr by (destruct l; [congruence|discriminate]). rewrite list_text_break, map_map, <- !pretty_break_break.
    transitivity (cLBRACK :: join cCOMMA (map (fun v => pretty_break (S d) ++ serde_to_string_pretty st (S d) v) (map to_serde l))
      ++ pretty_break d ++ [cRBRACK]); [destruct l; [congruence|reflexivity]|].
    rewrite map_map. f_equal. f_equal. f_equal. apply map_ext_in. intros x Hx. rewrite Forall_forall in IH. now rewrite IH.
  - rewrite last_wins_obj. cbn [to_serde]. rewrite map_of_map, map_of_spec.
    apply Forall_unique in IH. set (m := unique_last l) in *. clearbody m. clear l.
    destruct (list_eq_nil m) as [->|Hne]; [reflexivity|].
    rewrite jtext_obj by (destruct m; [congruence|discriminate]). rewrite list_text_break, map_map, <- !pretty_break_break.
    transitivity (cLBRACE :: join cCOMMA (map (fun kv => pretty_break (S d) ++ serde_string (fst kv) ++ lit ": " ++ serde_to_string_pretty st (S d) (snd kv))
      (map (fun kv => (fst kv, to_serde (snd kv))) m)) ++ pretty_break d ++ [cRBRACE]); [destruct m as [|[? ?] ?]; [congruence|reflexivity]|].
    rewrite map_map. f_equal. f_equal. f_equal. apply map_ext_in. intros [k x] Hx. rewrite Forall_forall in IH. unfold mtext.
    cbn [fst snd]. now rewrite (IH (k, x) Hx).
Qed.

(** * The theorems *)

Section Bindings.
Variable rf : str -> option f64.
Variable st : num_style.

(** Encoding throws exactly if the text is not JSON (of limited nesting, with numbers that can be
    read) or the settings are not an object, undefined or null; otherwise it returns the encoding of
    the value of the text under the settings.  It never traps. *)
Theorem C50_encode :
  forall (text : str) (j : jsval),
    match wasm_encode_with_options rf text j with
    | Returns toon =>
        exists t v n get o, json_document text t /\ (nesting t <= 127)%nat /\ value_with (reading rf) t = Some v /\
          norm_json (last_wins v) n /\ settings j get /\ says_encode get (resolve_encode_options o) /\ encode 0 n o = Ok toon
    | Throws InvalidJson => forall t v, json_document text t -> (nesting t <= 127)%nat -> value_with (reading rf) t <> Some v
    | Throws OptionsNotObject => forall get, ~ settings j get
    | Throws _ => False
    end.
Proof.
  intros text j. pose proof (serde_from_str_spec rf text) as H. unfold wasm_encode_with_options.
  destruct (serde_from_str rf text) as [s|].
  2: { intros t v Ht Hn E. rewrite (H t Ht Hn) in E. discriminate. }
  destruct H as (t & v & H1 & H2 & H3 & H4).
  assert (C : forall get, settings j get -> match (match parse_encode_options j with Throws t => Throws t | Returns o => run_encode (from_serde s) o end) with
    | Returns toon => exists t v n get o, json_document text t /\ (nesting t <= 127)%nat /\ value_with (reading rf) t = Some v /\
          norm_json (last_wins v) n /\ settings j get /\ says_encode get (resolve_encode_options o) /\ encode 0 n o = Ok toon
    | Throws _ => False end).
  { intros get Hs. destruct (parse_encode_says j get Hs) as (o & -> & Ho). unfold run_encode.
    assert (R : ro_replacer (resolve_encode_options o) = None) by apply Ho.
    destruct (C15_encoder_total 0 (from_serde s) o R) as (ls & _ & _ & E & _). rewrite E.
    exists t, v, (from_serde s), get, o. auto 10. }
  destruct j as [| |b|x|z|get|]; try (intros g Hg; inversion Hg; fail).
  - specialize (C _ set_undefined). destruct (parse_encode_options _) as [o|[]]; [destruct (run_encode _ _)|..]; tauto.
  - specialize (C _ set_null). destruct (parse_encode_options _) as [o|[]]; [destruct (run_encode _ _)|..]; tauto.
  - specialize (C _ (set_object get)). destruct (parse_encode_options _) as [o|[]]; [destruct (run_encode _ _)|..]; tauto.
Qed.

(** Decoding throws exactly if the settings are not an object, undefined or null, or decoding fails;
    otherwise it returns JSON that reads as the decoded value, with the last value of repeated names. *)
Theorem C50_decode :
  forall (toon : str) (j : jsval),
    match wasm_decode_with_options st toon j with
    | Returns text =>
        exists get o v, settings j get /\ says_decode get (resolve_decode_options o) /\ try_decode toon o = Ok v /\
          json_value text = Some (last_wins v)
    | Throws OptionsNotObject => forall get, ~ settings j get
    | Throws (DecodeError e) =>
        exists get o, settings j get /\ says_decode get (resolve_decode_options o) /\ try_decode toon o = Err e
    | Throws _ => False
    end.
Proof.
  intros toon j. unfold wasm_decode_with_options.
  assert (C : forall get, settings j get -> match (match parse_decode_options j with Throws t => Throws t | Returns o => run_decode toon o (serde_to_string st) end) with
    | Returns text => exists get o v, settings j get /\ says_decode get (resolve_decode_options o) /\ try_decode toon o = Ok v /\
          json_value text = Some (last_wins v)
    | Throws (DecodeError e) => exists get o, settings j get /\ says_decode get (resolve_decode_options o) /\ try_decode toon o = Err e
    | Throws _ => False end).
  { intros get Hs. destruct (parse_decode_says j get Hs) as (o & -> & Ho). unfold run_decode.
    destruct (try_decode toon o) as [v|e] eqn:E; [|eauto].
    exists get, o, v. split; [exact Hs|]. split; [exact Ho|]. split; [exact E|]. rewrite (serde_text st v 0), json_value_text by exact serde_reads_back.
    f_equal. apply canonical_finite, last_wins_canonical. eapply C28_decoded_numbers; eauto. }
  destruct j as [| |b|x|z|get|]; try (intros g Hg; inversion Hg; fail).
  - specialize (C _ set_undefined). destruct (parse_decode_options _) as [o|[]]; [destruct (run_decode _ _ _) as [|[]]|..]; tauto.
  - specialize (C _ set_null). destruct (parse_decode_options _) as [o|[]]; [destruct (run_decode _ _ _) as [|[]]|..]; tauto.
  - specialize (C _ (set_object get)). destruct (parse_decode_options _) as [o|[]]; [destruct (run_decode _ _ _) as [|[]]|..]; tauto.
Qed.

(** Settings that say nothing, or nothing that is understood, give the functions without settings;
    and the settings determine the options. *)
Theorem C50_settings :
  (forall (text : str) (j : jsval) get, settings j get -> says_encode get (resolve_encode_options None) ->
     wasm_encode_with_options rf text j = wasm_encode rf text) /\
  (forall (toon : str) (j : jsval) get, settings j get -> says_decode get (resolve_decode_options None) ->
     wasm_decode_with_options st toon j = wasm_decode st toon) /\
  (forall get r r', says_encode get r -> says_encode get r' -> r = r') /\
  (forall get r r', says_decode get r -> says_decode get r' -> r = r').
Proof.
  repeat apply conj; [| |exact says_encode_fun|exact says_decode_fun].
  - intros text j get Hs Hd. unfold wasm_encode_with_options, wasm_encode. destruct (serde_from_str rf text) as [s|]; [|reflexivity].
    destruct (parse_encode_says j get Hs) as (o & -> & Ho). unfold run_encode.
    now rewrite (encode_resolved 0 _ o None) by (eapply says_encode_fun; eauto).
  - intros toon j get Hs Hd. unfold wasm_decode_with_options, wasm_decode.
    destruct (parse_decode_says j get Hs) as (o & -> & Ho). unfold run_decode.
    now rewrite (decode_resolved _ o None) by (eapply says_decode_fun; eauto).
Qed.

(** The pretty text: the same success and the same value; and exactly the text the command line tool
    prints with its default indentation, if no object repeats a name. *)
Theorem C50_pretty :
  forall toon : str,
    match wasm_decode_pretty st toon, wasm_decode st toon with
    | Returns pretty, Returns text =>
        json_value pretty = json_value text /\
        (forall v chunks, try_decode toon None = Ok v -> distinct_keys v ->
           decode_to_json_chunks st toon None = Ok chunks -> pretty = concat chunks)
    | Throws (DecodeError e), Throws (DecodeError e') => e = e' /\ try_decode toon None = Err e
    | _, _ => False
    end.
Proof.
  intros toon. unfold wasm_decode_pretty, wasm_decode, run_decode. destruct (try_decode toon None) as [v|e] eqn:E; [|auto].
  split.
  - rewrite (pretty_text st v 0), (serde_text st v 0), !json_value_text by exact serde_reads_back. reflexivity.
  - intros v' chunks Ev Hd Hc. injection Ev as <-. rewrite (pretty_text st v 0), (last_wins_id v Hd).
    unfold decode_to_json_chunks in Hc. cbn [resolve_decode_options unwrap_or rd_expand do_expand] in Hc.
    unfold try_decode, try_decode_from_lines in E. cbv zeta in E. unfold cli_decode_events in Hc. 
    cbn [resolve_decode_options unwrap_or rd_expand do_expand] in E.
    cbv zeta in Hc. cbn [unwrap_or rd_expand do_expand] in Hc.
    destruct (decode_stream_sync _ _) as [evs|] eqn:Ed; [|discriminate]. cbn [bind] in E, Hc.
    destruct (stream_grammar _ _ _ Ed) as [w Hw]. destruct (describes_build _ _ _ Hw) as (n & En & Hn). rewrite En in E. cbn [bind] in E.
    injection E as <-. rewrite Hn in *. destruct (stream_text _ st 2 _ _ Hw) as (out & Eo & Ec).
    cbn [rd_indent do_indent unwrap_or] in Hc. change (json_stream_from_events st evs 2 = Ok chunks) in Hc. rewrite Eo in Hc. injection Hc as <-. now rewrite Ec.
Qed.

(** There and back, with settings on both sides. *)
Theorem C50_round_trip :
  forall (text : str) (t : jtree) (v : json) (j1 j2 : jsval) get1 get2 (r1 : renc_options) (r2 : rdec_options),
    json_document text t -> (nesting t <= 127)%nat -> value_with (reading rf) t = Some v -> portable (last_wins v) ->
    settings j1 get1 -> says_encode get1 r1 -> settings j2 get2 -> says_decode get2 r2 ->
    ro_key_folding r1 = KFOff -> std_delim (ro_delimiter r1) -> ro_indent r1 <> 0%nat ->
    rd_indent r2 = ro_indent r1 -> rd_expand r2 = EPOff ->
    exists toon text' n w,
      wasm_encode_with_options rf text j1 = Returns toon /\ wasm_decode_with_options st toon j2 = Returns text' /\
      norm_json (last_wins v) n /\ json_value text' = Some w /\ jequiv n w /\ (uniform n -> w = n).
Proof.
  intros text t v j1 j2 get1 get2 r1 r2 Ht Hn Hv Hp S1 Y1 S2 Y2 K D I M X.
  destruct (parse_encode_says j1 get1 S1) as (o1 & P1 & Z1). destruct (parse_decode_says j2 get2 S2) as (o2 & P2 & Z2).
  pose proof (says_encode_fun _ _ _ Y1 Z1) as E1. pose proof (says_decode_fun _ _ _ Y2 Z2) as E2. subst r1 r2.
  pose proof (serde_from_str_spec rf text) as H. unfold wasm_encode_with_options.
  destruct (serde_from_str rf text) as [s|]; [|rewrite (H t Ht Hn) in Hv; discriminate].
  destruct H as (t' & v' & Ht' & _ & Hv' & Hs). rewrite (json_document_fun _ _ _ Ht' Ht) in Hv'. rewrite Hv in Hv'. injection Hv' as <-.
  set (n := from_serde s) in *.
  assert (Hd : distinct_keys n) by (eapply norm_distinct; [exact Hs|apply last_wins_distinct]).
  assert (Hpn : portable n) by (eapply norm_portable; eauto).
  assert (R : ro_replacer (resolve_encode_options o1) = None) by apply Z1.
  destruct (C01_round_trip 0 n o1 o2 (conj K (conj R (conj D I))) (conj M X) Hd Hpn) as (toon & n' & w & E & Hn' & Dw & Hw).
  rewrite (norm_json_id n n' Hn' (proj1 (C38_from_serde_normal s))) in Hw. clear n' Hn'.
  pose proof (table_ordered_jequiv _ _ Hw) as Hj.
  assert (Hdw : distinct_keys w) by (eapply jequiv_distinct; eauto).
  rewrite P1. unfold run_encode. rewrite E. unfold wasm_decode_with_options. exists toon. rewrite P2. unfold run_decode. rewrite Dw.
  exists (serde_to_string st (to_serde w)), n, w. split; [reflexivity|]. split; [reflexivity|]. split; [exact Hs|].
  split; [|split; [exact Hj|]].
  - rewrite (serde_text st w 0), json_value_text by exact serde_reads_back. f_equal. rewrite (last_wins_id w Hdw).
    apply canonical_finite. eapply C28_decoded_numbers; eauto.
  - intros Hu. now apply table_ordered_uniform.
Qed.
End Bindings.
Print Assumptions C50_encode.
Print Assumptions C50_decode.
Print Assumptions C50_settings.
Print Assumptions C50_pretty.
Print Assumptions C50_round_trip.

(** A settings object: each name with its value, everything else undefined. *)
Definition object (l : list (str * jsval)) : jsval :=
  JsObj (fun name => match find (fun kv => str_eqb (fst kv) name) l with Some kv => Some (snd kv) | None => Some JsUndefined end).
Definition jsnum (s : str) : jsval := JsNum (match parse_f64 s with Some x => x | None => f64_nan end).

Definition example_json : str := lit "{""a"": {""b"": [{""x"": 1, ""y"": ""z""}, {""x"": -2, ""y"": null}]}, ""c"": ""d,e""}".
Definition example_encode : jsval :=
  object [(lit "indent", jsnum (lit "3.7")); (lit "delimiter", JsStr (lit "|;")); (lit "keyFolding", JsBool true)].
Definition example_decode : jsval := object [(lit "indent", jsnum (lit "3")); (lit "strict", JsBool true)].

Example C50_round_trip_case :
  wasm_encode_with_options (fun _ => None) example_json example_encode = Returns (lit "a:
   b[2|]{x|y}:
      1|z
      -2|null
c: d,e") /\
  (exists t v get1 get2 r1 r2,
    json_document example_json t /\ (nesting t <= 127)%nat /\ value_with (reading (fun _ => None)) t = Some v /\ portable (last_wins v) /\
    settings example_encode get1 /\ says_encode get1 r1 /\ settings example_decode get2 /\ says_decode get2 r2 /\
    ro_key_folding r1 = KFOff /\ std_delim (ro_delimiter r1) /\ ro_indent r1 <> 0%nat /\ rd_indent r2 = ro_indent r1 /\ rd_expand r2 = EPOff) /\
  match wasm_encode_with_options (fun _ => None) example_json example_encode with
  | Returns toon => wasm_decode_with_options usual_style toon example_decode
  | Throws t => Throws t
  end = Returns (lit "{""a"":{""b"":[{""x"":1.0,""y"":""z""},{""x"":-2.0,""y"":null}]},""c"":""d,e""}").
Proof.
  split; [vm_compute; reflexivity|]. split; [|vm_compute; reflexivity].
  do 2 eexists.
  destruct (parse_encode_says example_encode _ (set_object _)) as (o1 & E1 & H1).
  destruct (parse_decode_says example_decode _ (set_object _)) as (o2 & E2 & H2).
  do 4 eexists.
  split; [apply read_json_spec; vm_compute; reflexivity|]. split; [apply Nat.leb_le; vm_compute; reflexivity|].
  split; [vm_compute; reflexivity|]. split; [apply portableb_ok; [apply last_wins_distinct|vm_compute; reflexivity]|].
  split; [apply set_object|]. split; [exact H1|]. split; [apply set_object|]. split; [exact H2|].
  vm_compute in E1. injection E1 as <-. vm_compute in E2. injection E2 as <-.
  split; [reflexivity|]. split; [right; right; reflexivity|]. split; [discriminate|]. split; reflexivity.
Qed.

(** What is thrown, and the pretty text. *)
Example C50_other_cases :
  wasm_encode_with_options (fun _ => None) (lit "[1") JsNull = Throws InvalidJson /\
  wasm_encode_with_options (fun _ => None) (lit "[1]") (JsStr (lit "indent")) = Throws OptionsNotObject /\
  wasm_decode usual_style (lit "a: ""b") = Throws (DecodeError EUnterminatedString) /\
  wasm_decode_pretty usual_style (lit "a[2]: 1,x
b: []
c[0]:") = Returns (lit "{
  ""a"": [
    1.0,
    ""x""
  ],
  ""b"": ""[]"",
  ""c"": []
}").
Proof. repeat apply conj; vm_compute; reflexivity. Qed.

(** Negative numbers and NaN are taken for 0 without complaint, and a text written with indentation
    0 cannot be read back under the same settings. *)
Example C50_negative_indent :
  let j := object [(lit "indent", jsnum (lit "-4"))] in
  wasm_encode_with_options (fun _ => None) (lit "{""a"": {""b"": 1}}") j = Returns (lit "a:
b: 1") /\
  wasm_decode_with_options usual_style (lit "a:
b: 1") j = Returns (lit "{""a"":{},""b"":1.0}").
Proof. split; vm_compute; reflexivity. Qed.
