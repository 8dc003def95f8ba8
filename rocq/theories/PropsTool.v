(** Converting with the tool there and back: C49. *)
From Coq Require Import SpecFloat Permutation.
From Verif Require Import Chars Floats Json JsonInd JsonEq NumProof Shared EncPrim Normalize Folding Encoders Replacer EncodeApi
  Scanner Parser DecValidation Decoders EventBuilder Expand DecodeApi Fixtures Lex Spec DecRel DecProps Checkers RoundTrip PropsRoundTrip PropsDecode
  DecNums JsonText SpecJson JsonNumProof JsonTextProof JsonGrammar PropsJson SpecSerde Serde SerdeProof SerdeNum SerdeRead PropsSerde
  Utf8 Utf8Proof Cli SpecCli CliProof PropsCli SpecText TextProof PropsText CharsKept.
From Verif Require ReadChars SpecRead PropsRead PropsExpand.

Local Open Scope nat_scope.

(** ** What the encoded text is made of *)

(** Every character of the output is ASCII, the delimiter, or a character of the value. *)
Inductive occurs (c : char) : json -> Prop :=
| oc_str s : In c s -> occurs c (JPrim (PStr s))
| oc_item l v : In v l -> occurs c v -> occurs c (JArr l)
| oc_key l k v : In (k, v) l -> In c k -> occurs c (JObj l)
| oc_member l k v : In (k, v) l -> occurs c v -> occurs c (JObj l).
Lemma occurs_spelled v : spelled (fun c => occurs c v) v.
Proof.
  induction v as [p|l IH|l IH] using json_ind'; constructor.
  - intros s ->. apply Forall_forall. intros c Hc. now constructor.
  - rewrite Forall_forall in *. intros x Hx. eapply spelled_weaken; [|apply IH; exact Hx]. intros c Hc. econstructor; eauto.
  - rewrite Forall_forall in *. intros [k x] Hx. cbn [fst snd] in *. split.
    + apply Forall_forall. intros c Hc. eapply oc_key; eauto.
    + eapply spelled_weaken; [|apply (IH _ Hx)]. intros c Hc. eapply oc_member; eauto.
Qed.
Theorem C46_no_other_characters :
  forall (v n : json) (indent : option nat) (delimiter : option char) (mode : option key_folding_mode)
         (depth : option N) (ls : list str),
    norm_json v n ->
    encode_lines 0 v (Some (EncOpts indent delimiter mode depth None)) = Ok ls ->
    forall l c, In l ls -> In c l -> (c < 128)%N \/ delimiter = Some c \/ occurs c n.
Proof.
  intros v n indent delimiter mode depth ls Hn E.
  apply (proj1 (C46_encoded_text v n indent delimiter mode depth ls Hn)) in E as (doc & Hd & ->).
  set (P := fun c : char => (c < 128)%N \/ delimiter = Some c \/ occurs c n).
  assert (HP : forall c, (c < 128)%N -> P c) by (intros c Hc; now left).
  assert (Hdl : P (unwrap_or delimiter cCOMMA)) by (destruct delimiter; [right; now left|left; reflexivity]).
  assert (Hs : spelled P n).
  { eapply spelled_weaken; [|apply occurs_spelled]. intros c Hc. right. now right. }
  pose proof (document_ok P HP _ Hdl _ _ _ _ Hd Hs) as Hk.
  assert (Hl : Forall (Forall P) (map (shown (unwrap_or indent 2)) doc)) by (eapply shown_ok; eauto).
  intros l c Hin Hc. rewrite Forall_forall in Hl. specialize (Hl l Hin). rewrite Forall_forall in Hl. exact (Hl c Hc).
Qed.
Print Assumptions C46_no_other_characters.
Example C46_no_other_characters_case :
  encode_lines 0 (JObj [([955%N], JPrim (PStr [233%N; cCOLON; 128512%N]))]) None = Ok [cDQ :: 955%N :: cDQ :: cCOLON :: cSPACE :: [cDQ; 233%N; cCOLON; 128512%N; cDQ]].
Proof. vm_compute. reflexivity. Qed.

(** Every character of a decoded string or key stands in the text, or is a line feed, a carriage
    return or a tab (from an escape); whatever the options. *)
Lemma spelled_occurs P v c : spelled P v -> occurs c v -> P c.
Proof.
  intros Hs Ho. induction Ho as [s Hc|l v Hv _ IH|l k v Hv Hc|l k v Hv _ IH]; inversion Hs as [? Hp|? Hl|? Hl]; subst.
  - specialize (Hp s eq_refl). rewrite Forall_forall in Hp. auto.
  - rewrite Forall_forall in Hl. auto.
  - rewrite Forall_forall in Hl. destruct (Hl _ Hv) as [Hk _]. rewrite Forall_forall in Hk. auto.
  - rewrite Forall_forall in Hl. destruct (Hl _ Hv) as [_ Hx]. auto.
Qed.
Lemma decoded_spelled (P : char -> Prop) text o v : P cLF /\ P cCR /\ P cTAB -> try_decode text o = Ok v -> Forall P text -> spelled P v.
Proof.
  intros HP E Ht. assert (E' : exists i s x, try_decode text o = try_decode text (Some (DecOpts i s x))).
  { destruct o as [[i s x]|]; [do 3 eexists; reflexivity|exists None, None, None; reflexivity]. }
  destruct E' as (i & s & x & E'). rewrite E' in E. clear E'. destruct x as [[|]|].
  - apply (proj1 (PropsRead.C47_decoded_value text i s (Some EPOff) v ltac:(discriminate))) in E as (tr & Hr & ->).
    apply ReadChars.kept_spelled. eapply ReadChars.reads_ok; eauto.
  - apply PropsExpand.C48_expanded_value in E as (tr & Hr & He). eapply ReadChars.expands_ok; [exact He|]. eapply ReadChars.reads_ok; eauto.
  - apply (proj1 (PropsRead.C47_decoded_value text i s None v ltac:(discriminate))) in E as (tr & Hr & ->).
    apply ReadChars.kept_spelled. eapply ReadChars.reads_ok; eauto.
Qed.
Theorem C47_no_other_characters :
  forall (text : str) (o : option decode_options) (v : json) (c : char),
    try_decode text o = Ok v -> occurs c v -> In c text \/ c = cLF \/ c = cCR \/ c = cTAB.
Proof.
  intros text o v c E Hc.
  assert (Hs : spelled (fun c => In c text \/ c = cLF \/ c = cCR \/ c = cTAB) v).
  { eapply decoded_spelled; [|exact E|]; [auto 10|]. apply Forall_forall. intros x Hx. now left. }
  exact (spelled_occurs _ _ _ Hs Hc).
Qed.
Print Assumptions C47_no_other_characters.
Example C47_no_other_characters_case :
  try_decode (lit "k: ""a\nb""") None = Ok (JObj [(lit "k", JPrim (PStr [97%N; cLF; 98%N]))]).
Proof. vm_compute. reflexivity. Qed.

(** ** C49 *)

Lemma last_of_in {A} (l : list (str * A)) k v : last_of l k = Some v -> In (k, v) l.
Proof.
  induction l as [|[k' v'] l IH]; cbn [last_of]; [discriminate|]. destruct (last_of l k) as [w|].
  - intros H. right. apply IH. congruence.
  - destruct (str_eqb k' k) eqn:E; [|discriminate]. apply str_eqb_eq in E as ->. intros H. injection H as <-. now left.
Qed.
Lemma spelled_last P v : spelled P v -> spelled P (last_wins v).
Proof.
  induction v as [p|l IH|l IH] using json_ind'; intros H; cbn [last_wins]; [exact H| |]; inversion H as [|? Hl|? Hl]; subst; constructor.
  - apply Forall_forall. intros x Hx. apply in_map_iff in Hx as (y & <- & Hy). rewrite Forall_forall in *. auto.
  - apply Forall_forall. intros [k x] Hx. apply unique_last_in, last_of_in in Hx.
    apply in_map_iff in Hx as ([k' y] & Ek & Hy). cbn [fst snd] in Ek. injection Ek as <- <-.
    rewrite Forall_forall in IH, Hl. destruct (Hl _ Hy) as [Ha Hb]. cbn [fst snd] in *. split; [exact Ha|]. now apply (IH _ Hy).
Qed.

Section There.
Variable rf : str -> option f64.
Variable complaint : str -> str.
Variable st : num_style.
Variables file_cap line_cap : nat.
Notation main := (main rf complaint st file_cap line_cap).
Notation delivers := (delivers rf st).

(** The bytes are a JSON text with this value. *)
Definition json_file (b : bytes) (v : json) : Prop := exists text, from_utf8 b = Some text /\ json_value text = Some v.
(** The options under which nothing is folded or expanded, and the layout is the same. *)
Definition partners (a b : args) : Prop :=
  ~ decodes a /\ decodes b /\ std_delim (a_delimiter a) /\
  a_key_folding a = KFOff /\ a_expand_paths b = EPOff /\ a_indent a = a_indent b /\ a_indent a <> 0.

Lemma json_value_lf text v : json_value text = Some v -> json_value (text ++ [cLF]) = Some v.
Proof.
  unfold json_value. destruct (read_json text) as [t|] eqn:E; [|discriminate]. apply read_json_spec in E as (w1 & b & w2 & -> & H1 & Hb & H2).
  assert (E : read_json ((w1 ++ b ++ w2) ++ [cLF]) = Some t); [|now rewrite E].
  apply read_json_spec. exists w1, b, (w2 ++ [cLF]). rewrite <- !app_assoc. repeat split; auto.
  apply Forall_app. split; [exact H2|]. repeat constructor.
Qed.
Lemma delivered_back a b input t v :
  partners a b -> Forall scalar input ->
  json_document input t -> nesting t <= 127 -> value_with (reading rf) t = Some v -> portable (last_wins v) ->
  exists full toon full' n w, delivers a input full /\ from_utf8 full = Some toon /\ delivers b toon full' /\
    json_file full' w /\ norm_json (last_wins v) n /\ jequiv n w /\ (uniform n -> w = n).
Proof.
  intros (Ma & Mb & Hdl & Hkf & Hex & Hi & Hi0) Hsc Ht Hn Hv Hp.
  pose proof (serde_from_str_spec rf input) as H. destruct (serde_from_str rf input) as [s|] eqn:Es; [|rewrite (H t Ht Hn) in Hv; discriminate].
  destruct H as (t' & v' & Ht' & _ & Hv' & Hs). rewrite (json_document_fun _ _ _ Ht' Ht) in Hv'. rewrite Hv in Hv'. injection Hv' as <-.
  set (n := from_serde s) in *. set (eo := Some (EncOpts (Some (a_indent a)) (Some (a_delimiter a)) (Some (a_key_folding a)) (a_flatten_depth a) None)).
  set (d := Some (DecOpts (Some (a_indent b)) (Some (if a_no_strict b then false else true)) (Some (a_expand_paths b)))).
  assert (Hd : distinct_keys n) by (eapply norm_distinct; [exact Hs|apply last_wins_distinct]).
  assert (Hpn : portable n) by (eapply norm_portable; eauto).
  assert (Hpl : plain_options eo) by (unfold plain_options, eo; cbn; repeat split; auto).
  assert (Hm : matching_options eo d) by (unfold matching_options, eo, d; cbn; split; auto).
  destruct (C01_round_trip 0 n eo d Hpl Hm Hd Hpn) as (toon & n' & w & E & Hn' & D & Hw).
  assert (n' = n) by exact (norm_json_id n n' Hn' (proj1 (C38_from_serde_normal s))). subst n'.
  pose proof (table_ordered_jequiv _ _ Hw) as Hj.
  assert (Hdw : distinct_keys w) by (eapply jequiv_distinct; eauto).
  (* the text consists of scalar values *)
  assert (Hsn : spelled scalar n).
  { eapply spelled_norm; [exact Hs|]. apply spelled_last. apply (value_spelled scalar (reading rf) t v Hv).
    now apply (json_strings_scalars input). }
  assert (Hascii : forall c, (c < 128)%N -> scalar c) by (intros c Hc; unfold scalar; lia).
  unfold encode in E. destruct (encode_lines 0 n eo) as [ls|] eqn:El; [|discriminate]. cbn [bind] in E. injection E as <-.
  assert (Hls : Forall scalar (join cLF ls)).
  { apply (proj1 (C46_encoded_text n n _ _ _ _ ls Hn')) in El as (doc & Hdoc & ->).
    apply join_lines_ok; [now apply Hascii|]. eapply shown_ok; [exact Hascii|]. eapply document_ok; eauto.
    unfold unwrap_or. apply Hascii. destruct Hdl as [->|[->| ->]]; lia. }
  assert (Hfull : Forall scalar (join cLF ls ++ [cLF])).
  { apply Forall_app. split; [exact Hls|]. constructor; [now apply Hascii|constructor]. }
  exists (utf8 (join cLF ls ++ [cLF])), (join cLF ls ++ [cLF]).
  assert (D' : try_decode (join cLF ls ++ [cLF]) d = Ok w) by now rewrite C23_final_line_feed.
  destruct (decode_to_json_chunks st (join cLF ls ++ [cLF]) d) as [cs|e] eqn:Ec.
  2: { apply (proj1 (C34_prints_exactly_when_decoded _ _ _ _)) in Ec. congruence. }
  destruct (C34_output_is_the_decoded_value _ _ _ _ Ec) as (w' & Hw' & Hjv). assert (w' = w) by congruence. subst w'.
  exists (utf8 (concat cs ++ [cLF])), n, w.
  split. { left. split; [exact Ma|]. exists ls. split; [|reflexivity]. unfold encode_to_toon_lines. rewrite Es. exact El. }
  split; [now apply from_utf8_utf8|].
  split. { right. split; [exact Mb|]. exists cs. split; [exact Ec|reflexivity]. }
  split; [|split; [exact Hs|split; [exact Hj|intros Hu; now apply table_ordered_uniform]]].
  exists (concat cs ++ [cLF]). split; [|now apply json_value_lf].
  apply from_utf8_utf8. apply Forall_app. split; [|constructor; [now apply Hascii|constructor]].
  unfold json_value in Hjv. destruct (read_json (concat cs)) as [tc|] eqn:Etc; [|discriminate]. apply read_json_spec in Etc.
  eapply json_text_ok; [exact Hascii|exact Etc|]. rewrite <- value_with_parse in Hjv.
  apply (value_spelled scalar parse_f64 tc w Hjv). eapply spelled_equiv; eauto.
Qed.

(** Through a pipe, whatever the operating system does: if both processes report success, the output
    is a JSON text with the value of the input (last value of repeated names, numbers normalized), up
    to the order of members in rows of tables. *)
Theorem C49_pipe :
  forall (a b : args) (w1 w1' w2 w2' : world) (env1 env1' env2 env2' : list reply)
         (input : str) (t : jtree) (v : json),
    partners a b -> a_output a = None -> from_stdin b -> a_output b = None ->
    w_stdout w1 = [] -> w_stdin w2 = w_stdout w1' -> w_stdout w2 = [] ->
    main a w1 env1 = (Some 0%N, w1', env1') -> main b w2 env2 = (Some 0%N, w2', env2') ->
    reads a w1 input -> json_document input t -> nesting t <= 127 -> value_with (reading rf) t = Some v -> portable (last_wins v) ->
    exists n w, json_file (w_stdout w2') w /\ norm_json (last_wins v) n /\ jequiv n w /\ (uniform n -> w = n).
Proof.
  intros a b w1 w1' w2 w2' env1 env1' env2 env2' input t v Hab Oa Ib Ob W1 W2 W3 R1 R2 Hr Ht Hn Hv Hp.
  assert (Hsc : Forall scalar input) by (destruct Hr as (x & Hx & _); exact (proj1 (from_utf8_sound x input Hx))).
  destruct (delivered_back a b input t v Hab Hsc Ht Hn Hv Hp) as (full & toon & full' & n & w & D1 & U & D2 & J & Hnn & Hj & Hu).
  destruct (C36_success_is_complete _ _ _ _ _ a w1 w1' env1 env1' R1 (or_introl Oa)) as (i1 & f1 & Hr1 & Hd1 & O1).
  destruct (C36_output_determined _ _ _ _ _ _ _ _ Hr1 Hr Hd1 D1) as [-> ->].
  destruct (C36_success_is_complete _ _ _ _ _ b w2 w2' env2 env2' R2 (or_introl Ob)) as (i2 & f2 & Hr2 & Hd2 & O2).
  unfold output_is in O1, O2. rewrite Oa in O1. rewrite Ob in O2. destruct O1 as (_ & _ & O1). destruct O2 as (_ & _ & O2).
  rewrite W1 in O1. rewrite W3 in O2. cbn [app] in O1, O2.
  assert (Hr2' : reads b w2 toon).
  { exists full. split; [exact U|]. split; [congruence|]. intros p Hp1 Hp2. destruct Ib; congruence. }
  destruct (C36_output_determined _ _ _ _ _ _ _ _ Hr2 Hr2' Hd2 D2) as [-> ->].
  exists n, w. rewrite O2. auto.
Qed.

(** Through a file: if no call fails, both succeed and the same holds. *)
Theorem C49_files :
  forall (a b : args) (p q : str) (w : world) (input : str) (t : jtree) (v : json),
    partners a b -> a_output a = Some p -> a_input b = Some p -> p <> lit "-" -> a_output b = Some q ->
    reads a w input -> json_document input t -> nesting t <= 127 -> value_with (reading rf) t = Some v -> portable (last_wins v) ->
    exists calls, forall env1 env2, steady env1 -> steady env2 -> calls <= length env1 -> calls <= length env2 ->
    exists w' env1' w'' env2',
      main a w env1 = (Some 0%N, w', env1') /\ main b w' env2 = (Some 0%N, w'', env2') /\
      exists bytes n x, w_files w'' q = Some bytes /\ json_file bytes x /\ norm_json (last_wins v) n /\ jequiv n x /\ (uniform n -> x = n).
Proof.
  intros a b p q w input t v Hab Oa Ib Hp1 Ob Hr Ht Hn Hv Hp.
  assert (Hsc : Forall scalar input) by (destruct Hr as (x & Hx & _); exact (proj1 (from_utf8_sound x input Hx))).
  destruct (delivered_back a b input t v Hab Hsc Ht Hn Hv Hp) as (full & toon & full' & n & x & D1 & U & D2 & J & Hnn & Hj & Hu).
  destruct (C36_complete_without_failures rf complaint st file_cap line_cap a input full D1) as (c1 & H1).
  assert (Hreads : forall w', w_files w' p = Some full -> reads b w' toon).
  { intros w' Hw'. exists full. split; [exact U|]. split.
    - intros [K|K]; congruence.
    - intros p' Hp' _. congruence. }
  destruct (C36_complete_without_failures rf complaint st file_cap line_cap b toon full' D2) as (c2 & H2).
  exists (c1 + c2). intros env1 env2 S1 S2 L1 L2.
  destruct (H1 w env1 Hr S1 ltac:(lia)) as (w' & env1' & R1 & O1).
  unfold output_is in O1. rewrite Oa in O1. destruct O1 as (O1 & _).
  destruct (H2 w' env2 (Hreads w' O1) S2 ltac:(lia)) as (w'' & env2' & R2 & O2).
  unfold output_is in O2. rewrite Ob in O2. destruct O2 as (O2 & _).
  exists w', env1', w'', env2'. repeat (split; [assumption|]). exists full', n, x. auto.
Qed.

(** The other direction: a TOON text through JSON and back.  serde_json may misread the last digit of
    a fraction, so the numbers of the document must be read as they are printed. *)
Fixpoint nest (v : json) : nat :=
  match v with
  | JPrim _ => 0
  | JArr l => S (fold_right Nat.max 0 (map nest l))
  | JObj l => S (fold_right Nat.max 0 (map (fun kv => nest (snd kv)) l))
  end.
Inductive number_in (x : f64) : json -> Prop :=
| ni_here : number_in x (JPrim (PNum x))
| ni_item l v : In v l -> number_in x v -> number_in x (JArr l)
| ni_member l k v : In (k, v) l -> number_in x v -> number_in x (JObj l).

Lemma tree_of_nesting v : nesting (tree_of st v) = nest v.
Proof.
  induction v as [p|l IH|l IH] using json_ind'; cbn [tree_of nesting nest].
  - destruct p as [s|x|b|]; cbn [ptree]; try reflexivity. now destruct (number_text st x).
  - f_equal. induction IH as [|x l Hx _ IHl]; [reflexivity|]. cbn [map fold_right]. congruence.
  - f_equal. induction IH as [|[k x] l Hx _ IHl]; [reflexivity|]. cbn [map fold_right fst snd] in *. congruence.
Qed.
Lemma tree_of_read v : canonical v -> (forall x n, number_in x v -> number_text st x = Some n -> reading rf n = Some x) ->
  value_with (reading rf) (tree_of st v) = Some v.
Proof.
  induction v as [p|l IH|l IH] using json_ind'; intros Hc Hx; inversion Hc as [? Hp|? Hl|? Hl]; subst; cbn [tree_of value_with].
  - destruct p as [s|x|b|]; try reflexivity. cbn [ptree]. destruct Hp as [Hf _].
    destruct (proj1 (number_text_finite st x) Hf) as [n En]. rewrite En. cbn [value_with]. rewrite (Hx x n); [reflexivity|constructor|exact En].
  - replace (map_option _ (map _ l)) with (Some l); [reflexivity|]. clear Hc.
    induction IH as [|v r Hv _ IHr]; [reflexivity|]. inversion Hl; subst. cbn [map]. rewrite map_option_cons, <- IHr.
    + rewrite Hv; [reflexivity|assumption|]. intros x n H. apply Hx. econstructor; [now left|exact H].
    + intros x n H. apply Hx. inversion H; subst. econstructor; [right; eassumption|assumption].
    + assumption.
  - replace (map_option _ (map _ l)) with (Some l); [reflexivity|]. clear Hc.
    induction IH as [|[k v] r Hv _ IHr]; [reflexivity|]. inversion Hl; subst. cbn [map fst snd] in *. rewrite map_option_cons, <- IHr; cbn [fst snd].
    + rewrite Hv; [reflexivity|assumption|]. intros x n H. apply Hx. eapply ni_member; [now left|exact H].
    + intros x n H. apply Hx. inversion H; subst. eapply ni_member; [right; eassumption|assumption].
    + assumption.
Qed.
Lemma chunks_tree input o cs v : decode_to_json_chunks st input o = Ok cs -> try_decode input o = Ok v -> read_json (concat cs) = Some (tree_of st v).
Proof.
  unfold decode_to_json_chunks, decode_to_value, cli_decode_events, try_decode, try_decode_from_lines. cbv zeta.
  destruct (decode_stream_sync _ _) as [evs|e'] eqn:Ed; cbn [bind].
  2: { destruct (rd_expand _); discriminate. }
  destruct (stream_grammar _ _ _ Ed) as [w Hw]. destruct (describes_build _ _ _ Hw) as (n & En & <-).
  rewrite En. cbn [bind]. destruct (rd_expand _); intros H Ev.
  - injection Ev as <-. destruct (stream_text _ st (rd_indent (resolve_decode_options o)) _ _ Hw) as (out & Eo & Ec).
    rewrite Eo in H. injection H as <-. rewrite Ec. apply read_json_text, serde_reads_back.
  - destruct (expand_paths_safe _ _); cbn [bind] in *; [|discriminate]. injection H as <-. injection Ev as <-.
    unfold json_stringify_lines. cbn [concat]. rewrite app_nil_r, stringify_text. apply read_json_text, push_reads_back.
Qed.

Theorem C49_toon_pipe :
  forall (b a : args) (w1 w1' w2 w2' : world) (env1 env1' env2 env2' : list reply)
         (input : str) (v : json) (d : option decode_options),
    decodes b -> ~ decodes a -> std_delim (a_delimiter a) -> a_key_folding a = KFOff -> a_indent a <> 0 ->
    a_output b = None -> from_stdin a -> a_output a = None ->
    w_stdout w1 = [] -> w_stdin w2 = w_stdout w1' -> w_stdout w2 = [] ->
    main b w1 env1 = (Some 0%N, w1', env1') -> main a w2 env2 = (Some 0%N, w2', env2') ->
    reads b w1 input ->
    try_decode input (Some (DecOpts (Some (a_indent b)) (Some (if a_no_strict b then false else true)) (Some (a_expand_paths b)))) = Ok v ->
    (forall x n, number_in x v -> number_text st x = Some n -> reading rf n = Some x) -> nest v <= 127 -> portable (last_wins v) ->
    matching_options (Some (EncOpts (Some (a_indent a)) (Some (a_delimiter a)) (Some (a_key_folding a)) (a_flatten_depth a) None)) d ->
    exists toon w, from_utf8 (w_stdout w2') = Some toon /\ try_decode toon d = Ok w /\
      jequiv (last_wins v) w /\ (uniform (last_wins v) -> w = last_wins v).
Proof.
  intros b a w1 w1' w2 w2' env1 env1' env2 env2' input v d Mb Ma Hdl Hkf Hi0 Ob Ia Oa W1 W2 W3 R1 R2 Hr E Hx Hn Hp Hm.
  assert (Hsc : Forall scalar input) by (destruct Hr as (x & Hx' & _); exact (proj1 (from_utf8_sound x input Hx'))).
  assert (Hascii : forall c, (c < 128)%N -> scalar c) by (intros c Hc; unfold scalar; lia).
  pose proof (C28_decoded_numbers _ _ _ E) as Hc.
  destruct (C36_success_is_complete _ _ _ _ _ b w1 w1' env1 env1' R1 (or_introl Ob)) as (i1 & f1 & Hr1 & Hd1 & O1).
  destruct (C36_success_is_complete _ _ _ _ _ a w2 w2' env2 env2' R2 (or_introl Oa)) as (i2 & f2 & Hr2 & Hd2 & O2).
  unfold output_is in O1, O2. rewrite Ob in O1. rewrite Oa in O2. destruct O1 as (_ & _ & O1). destruct O2 as (_ & _ & O2).
  rewrite W1 in O1. rewrite W3 in O2. cbn [app] in O1, O2.
  pose proof (reads_fun _ _ _ _ Hr1 Hr) as ->.
  destruct Hd1 as [[K _]|[_ (cs & Ec & ->)]]; [contradiction|]. destruct Hd2 as [[_ (ls & El & ->)]|[K _]]; [|contradiction].
  pose proof (chunks_tree _ _ _ _ Ec E) as Et.
  assert (Hspv : spelled scalar v) by (eapply decoded_spelled; [|exact E|exact Hsc]; repeat split; apply Hascii; lia).
  assert (Hj : Forall scalar (concat cs ++ [cLF])).
  { apply Forall_app. split; [|constructor; [apply Hascii; lia|constructor]]. eapply json_text_ok; [exact Hascii|apply read_json_spec; exact Et|].
    apply (value_spelled scalar (reading rf) (tree_of st v) v); [now apply tree_of_read|exact Hspv]. }
  assert (i2 = concat cs ++ [cLF]).
  { destruct Hr2 as (y & U & Hin & _). rewrite (Hin Ia), W2, O1 in U. rewrite from_utf8_utf8 in U by exact Hj. congruence. }
  subst i2.
  assert (Et' : json_document (concat cs ++ [cLF]) (tree_of st v)).
  { apply read_json_spec in Et as (x1 & y & x2 & -> & H1 & Hb & H2). exists x1, y, (x2 ++ [cLF]). rewrite <- !app_assoc. repeat split; auto.
    apply Forall_app. split; [exact H2|]. repeat constructor. }
  pose proof (tree_of_read v Hc Hx) as Hv.
  destruct (C45_json_to_toon rf 0 (concat cs ++ [cLF]) (Some (EncOpts (Some (a_indent a)) (Some (a_delimiter a)) (Some (a_key_folding a)) (a_flatten_depth a) None))) as [(t' & v' & n & T1 & T2 & T3 & T4 & T5)|[T1 _]]; [|congruence].
  rewrite (json_document_fun _ _ _ T1 Et') in T3. rewrite Hv in T3. injection T3 as <-.
  assert (n = last_wins v) by (apply (norm_json_id _ _ T4); now apply last_wins_canonical). subst n.
  rewrite T5 in El.
  assert (Hpl : plain_options (Some (EncOpts (Some (a_indent a)) (Some (a_delimiter a)) (Some (a_key_folding a)) (a_flatten_depth a) None))) by (unfold plain_options; cbn; repeat split; auto).
  destruct (C01_round_trip 0 (last_wins v) _ d Hpl Hm (last_wins_distinct v) Hp) as (toon & n' & w & E1 & Hn' & D & Hw).
  assert (n' = last_wins v) by (apply (norm_json_id _ _ Hn'); now apply last_wins_canonical). subst n'.
  unfold encode in E1. rewrite El in E1. cbn [bind] in E1. injection E1 as <-.
  exists (join cLF ls ++ [cLF]), w. split; [|split; [now rewrite C23_final_line_feed|split; [now apply table_ordered_jequiv|]]].
  - rewrite O2. apply from_utf8_utf8. apply Forall_app. split; [|constructor; [apply Hascii; lia|constructor]].
    apply (proj1 (C46_encoded_text _ _ _ _ _ _ ls Hn')) in El as (doc & Hdoc & ->).
    apply join_lines_ok; [apply Hascii; lia|]. eapply shown_ok; [exact Hascii|]. eapply document_ok; eauto.
    + unfold unwrap_or. apply Hascii. destruct Hdl as [->|[->| ->]]; lia.
    + now apply spelled_last.
  - intros Hu. apply table_ordered_uniform; auto using last_wins_distinct.
Qed.
End There.
Print Assumptions C49_pipe.
Print Assumptions C49_files.
Print Assumptions C49_toon_pipe.

(** A file with a table, other scripts and a fraction-free number; a pipe that takes few bytes at a time. *)
Definition C49_world : world :=
  World (fun p => if str_eqb p (lit "in.json")
                  then Some (utf8 (lit "{""k"": [{""a"": 1, ""b"": """ ++ [233%N; 128512%N] ++ lit """}, {""b"": ""\n"", ""a"": -2}]}")) else None) [] [] [] [].
Definition C49_decoder : args := Args None None false true cCOMMA 2 false KFOff None EPOff false.
Definition C49_runs : option N * str * (option N * option json) :=
  let a := some_args (Some (lit "in.json")) None false in
  let '(o1, w1, _) := std_main a C49_world (repeat (RDone 5) 40) in
  let '(o2, w2, _) := std_main C49_decoder (World (w_files w1) (w_stdout w1) [] [] []) (repeat (RDone 7) 90) in
  (o1, unwrap_or (from_utf8 (w_stdout w1)) [], (o2, match from_utf8 (w_stdout w2) with Some t => json_value t | None => None end)).
Example C49_case :
  partners (some_args (Some (lit "in.json")) None false) C49_decoder /\
  C49_runs = (Some 0%N, lit "k[2]{a,b}:" ++ cLF :: lit "  1," ++ [233%N; 128512%N] ++ cLF :: lit "  -2,""\n""" ++ [cLF],
    (Some 0%N, Some (JObj [(lit "k", JArr [JObj [(lit "a", jnum (lit "1")); (lit "b", JPrim (PStr [233%N; 128512%N]))];
                                         JObj [(lit "a", jnum (lit "-2")); (lit "b", JPrim (PStr [cLF]))]])]))).
Proof.
  split; [|vm_compute; reflexivity]. split; [now apply encodes_mode|]. split; [now apply decodes_mode|]. cbn. unfold std_delim. repeat split; auto; discriminate.
Qed.
