(** Converting with the tool there and back, with folding and expansion: C49. *)
From Coq Require Import SpecFloat Permutation.
From Verif Require Import Chars Floats Json JsonInd JsonEq NumProof Shared EncPrim Normalize Folding Encoders Replacer EncodeApi
  Scanner Parser DecValidation Decoders EventBuilder Expand DecodeApi Fixtures Lex Spec DecRel DecProps Checkers RoundTrip PropsRoundTrip PropsDecode
  DecNums JsonText SpecJson JsonNumProof JsonTextProof JsonGrammar PropsJson SpecSerde Serde SerdeProof SerdeNum SerdeRead PropsSerde
  Utf8 Utf8Proof Cli SpecCli CliProof PropsCli SpecText TextProof PropsText CharsKept
  Layout LayEnc LayFacts EncTotal WrittenProps ExpandProof ExpandProps FoldProps PropsFold RefoldProof PropsRefold PropsTool.
From Verif Require ReadChars SpecRead PropsRead PropsExpand.

Local Open Scope nat_scope.

(** ** Nesting *)
Lemma last_wins_levels v : levels (last_wins v) <= levels v.
Proof.
  induction v as [p|l F|l F] using json_ind'; [apply le_n| |].
  - cbn [last_wins levels]. apply le_n_S. rewrite map_map. apply list_max_le, Forall_map. apply Forall_forall. intros x Hx.
    rewrite Forall_forall in F. etransitivity; [now apply F|].
    assert (G : Forall (fun y => y <= list_max (map levels l)) (map levels l)) by now apply list_max_le.
    rewrite Forall_forall in G. apply G. now apply in_map.
  - rewrite last_wins_obj. cbn [levels]. do 2 apply le_n_S. rewrite map_map. cbn [snd]. apply list_max_le, Forall_map. apply Forall_forall. intros x Hx.
    apply unique_last_sub in Hx. rewrite Forall_forall in F. etransitivity; [now apply F|].
    assert (G : Forall (fun y => y <= list_max (map (fun m => levels (snd m)) l)) (map (fun m => levels (snd m)) l)) by now apply list_max_le.
    rewrite Forall_forall in G. apply G. apply in_map_iff. eauto.
Qed.
Lemma some_map {A B} (f : A -> option B) (g : B -> nat) (h : A -> nat) : forall l m, Forall (fun x => forall y, f x = Some y -> g y <= 2 * h x + 1) l ->
  map_option f l = Some m -> list_max (map g m) <= 2 * fold_right Nat.max 0 (map h l) + 1.
Proof.
  induction l as [|x l IH]; intros m F E; cbn in E; [injection E as <-; cbn; lia|].
  inversion F as [|? ? Fx Fl]; subst. destruct (f x) as [y|] eqn:Ex; [|discriminate].
  fold (map_option f l) in E. destruct (map_option f l) as [ys|] eqn:El; [|discriminate]. injection E as <-.
  specialize (IH _ Fl eq_refl). specialize (Fx _ eq_refl). cbn [map fold_right]. cbn [list_max fold_right] in *. unfold list_max in *. cbn [fold_right]. lia.
Qed.
Lemma value_levels rd t : forall v, value_with rd t = Some v -> levels v <= 2 * nesting t + 1.
Proof.
  induction t as [|b|n|s|l F|l F] using jtree_ind'; intros v E; cbn [value_with] in E.
  - injection E as <-. cbn. lia.
  - injection E as <-. cbn. lia.
  - destruct (rd n); [|discriminate]. injection E as <-. cbn. lia.
  - injection E as <-. cbn. lia.
  - destruct (map_option _ l) as [m|] eqn:El; [|discriminate]. injection E as <-. cbn [levels nesting].
    pose proof (some_map _ levels nesting l m F El). lia.
  - destruct (map_option _ l) as [m|] eqn:El; [|discriminate]. injection E as <-. cbn [levels nesting].
    assert (G : list_max (map (fun m => levels (snd m)) m) <= 2 * fold_right Nat.max 0 (map (fun kv => nesting (snd kv)) l) + 1).
    { refine (some_map _ (fun m => levels (snd m)) (fun kv => nesting (snd kv)) l m _ El).
      eapply Forall_impl; [|exact F]. intros [k x] H y Ey. cbn [fst snd] in *. destruct (value_with rd x) as [w|]; [|discriminate].
      injection Ey as <-. cbn [snd]. now apply H. }
    lia.
Qed.

Section There.
Variable rf : str -> option f64.
Variable complaint : str -> str.
Variable st : num_style.
Variables file_cap line_cap : nat.
Notation main := (main rf complaint st file_cap line_cap).
Notation delivers := (delivers rf st).

(** The decoder expands paths; the encoder may fold keys or not. *)
Definition folding_partners (a b : args) : Prop :=
  ~ decodes a /\ decodes b /\ std_delim (a_delimiter a) /\
  a_expand_paths b = EPSafe /\ a_indent a = a_indent b /\ a_indent a <> 0.

Lemma delivered_back_folded a b input t v :
  folding_partners a b -> Forall scalar input ->
  json_document input t -> nesting t <= 127 -> value_with (reading rf) t = Some v -> portable (last_wins v) -> undotted (last_wins v) ->
  exists full toon full' n w, delivers a input full /\ from_utf8 full = Some toon /\ delivers b toon full' /\
    json_file full' w /\ norm_json (last_wins v) n /\ jequiv n w /\ (uniform n -> w = n).
Proof.
  intros (Ma & Mb & Hdl & Hex & Hi & Hi0) Hsc Ht Hn Hv Hp Hu0.
  pose proof (serde_from_str_spec rf input) as H. destruct (serde_from_str rf input) as [s|] eqn:Es; [|rewrite (H t Ht Hn) in Hv; discriminate].
  destruct H as (t' & v' & Ht' & _ & Hv' & Hs). rewrite (json_document_fun _ _ _ Ht' Ht) in Hv'. rewrite Hv in Hv'. injection Hv' as <-.
  set (n := from_serde s) in *. set (eo := Some (EncOpts (Some (a_indent a)) (Some (a_delimiter a)) (Some (a_key_folding a)) (a_flatten_depth a) None)).
  set (d := Some (DecOpts (Some (a_indent b)) (Some (if a_no_strict b then false else true)) (Some (a_expand_paths b)))).
  assert (Hd : distinct_keys n) by (eapply norm_distinct; [exact Hs|apply last_wins_distinct]).
  assert (Hpn : portable n) by (eapply norm_portable; eauto).
  assert (Hun : undotted n) by (eapply norm_undotted; eauto).
  assert (Hlv : levels n <= 256).
  { rewrite (norm_levels _ _ Hs). pose proof (last_wins_levels v). pose proof (value_levels _ _ _ Hv). lia. }
  assert (Hcc : carries eo d).
  { right. unfold plain_options, folding_options, expanding_options, eo, d. destruct (a_key_folding a); [left|right]; cbn; repeat split; auto. }
  destruct (carried 0 n eo d Hcc Hd Hpn Hun Hlv) as (toon & w & E & D & Wr).
  assert (Hn' : norm_json n n).
  { pose proof (normalize_spec n) as X. rewrite (norm_json_id n _ X (proj1 (C38_from_serde_normal s))) in X. exact X. }
  rewrite (norm_json_id n _ (normalize_spec n) (proj1 (C38_from_serde_normal s))) in Wr.
  assert (Hw : table_ordered n w) by (eapply written_ordered; eauto).
  pose proof (table_ordered_jequiv _ _ Hw) as Hj.
  assert (Hdw : distinct_keys w) by (eapply jequiv_distinct; eauto).
  (* the text consists of scalar values *)
  assert (Hsn : spelled scalar n).
  { eapply spelled_norm; [exact Hs|]. apply spelled_last. apply (value_spelled scalar (reading rf) t v Hv).
    now apply (json_strings_scalars input). }
  assert (Hascii : forall c, (c < 128)%N -> scalar c) by (intros c Hc; unfold scalar; lia).
  unfold encode in E. destruct (encode_lines 0 n eo) as [ls|] eqn:El; [|discriminate]. cbn [bind] in E. injection E as <-.
  assert (Hls : Forall scalar (join cLF ls)).
  { apply (proj1 (C46_encoded_text n n _ _ _ _ ls Hn')) in El as (doc & Hdoc & ->).
    apply join_lines_ok; [now apply Hascii|]. eapply shown_ok; [exact Hascii|]. eapply document_ok; eauto.
    unfold unwrap_or. apply Hascii. destruct Hdl as [->|[->| ->]]; lia. }
  assert (Hfull : Forall scalar (join cLF ls ++ [cLF])).
  { apply Forall_app. split; [exact Hls|]. constructor; [now apply Hascii|constructor]. }
  exists (utf8 (join cLF ls ++ [cLF])), (join cLF ls ++ [cLF]).
  assert (D' : try_decode (join cLF ls ++ [cLF]) d = Ok w) by now rewrite C23_final_line_feed.
  destruct (decode_to_json_chunks st (join cLF ls ++ [cLF]) d) as [cs|e] eqn:Ec.
  2: { apply (proj1 (C34_prints_exactly_when_decoded _ _ _ _)) in Ec. congruence. }
  destruct (C34_output_is_the_decoded_value _ _ _ _ Ec) as (w' & Hw' & Hjv). assert (w' = w) by congruence. subst w'.
  exists (utf8 (concat cs ++ [cLF])), n, w.
  split. { left. split; [exact Ma|]. exists ls. split; [|reflexivity]. unfold encode_to_toon_lines. rewrite Es. exact El. }
  split; [now apply from_utf8_utf8|].
  split. { right. split; [exact Mb|]. exists cs. split; [exact Ec|reflexivity]. }
  split; [|split; [exact Hs|split; [exact Hj|intros Hu; now apply table_ordered_uniform]]].
  exists (concat cs ++ [cLF]). split; [|now apply json_value_lf].
  apply from_utf8_utf8. apply Forall_app. split; [|constructor; [now apply Hascii|constructor]].
  unfold json_value in Hjv. destruct (read_json (concat cs)) as [tc|] eqn:Etc; [|discriminate]. apply read_json_spec in Etc.
  eapply json_text_ok; [exact Hascii|exact Etc|]. rewrite <- value_with_parse in Hjv.
  apply (value_spelled scalar parse_f64 tc w Hjv). eapply spelled_equiv; eauto.
Qed.

(** Through a pipe, whatever the operating system does: as without folding, if no key is a dotted path. *)
Theorem C49_pipe_folded :
  forall (a b : args) (w1 w1' w2 w2' : world) (env1 env1' env2 env2' : list reply)
         (input : str) (t : jtree) (v : json),
    folding_partners a b -> a_output a = None -> from_stdin b -> a_output b = None ->
    w_stdout w1 = [] -> w_stdin w2 = w_stdout w1' -> w_stdout w2 = [] ->
    main a w1 env1 = (Some 0%N, w1', env1') -> main b w2 env2 = (Some 0%N, w2', env2') ->
    reads a w1 input -> json_document input t -> nesting t <= 127 -> value_with (reading rf) t = Some v -> portable (last_wins v) -> undotted (last_wins v) ->
    exists n w, json_file (w_stdout w2') w /\ norm_json (last_wins v) n /\ jequiv n w /\ (uniform n -> w = n).
Proof.
  intros a b w1 w1' w2 w2' env1 env1' env2 env2' input t v Hab Oa Ib Ob W1 W2 W3 R1 R2 Hr Ht Hn Hv Hp Hu0.
  assert (Hsc : Forall scalar input) by (destruct Hr as (x & Hx & _); exact (proj1 (from_utf8_sound x input Hx))).
  destruct (delivered_back_folded a b input t v Hab Hsc Ht Hn Hv Hp Hu0) as (full & toon & full' & n & w & D1 & U & D2 & J & Hnn & Hj & Hu).
  destruct (C36_success_is_complete _ _ _ _ _ a w1 w1' env1 env1' R1 (or_introl Oa)) as (i1 & f1 & Hr1 & Hd1 & O1).
  destruct (C36_output_determined _ _ _ _ _ _ _ _ Hr1 Hr Hd1 D1) as [-> ->].
  destruct (C36_success_is_complete _ _ _ _ _ b w2 w2' env2 env2' R2 (or_introl Ob)) as (i2 & f2 & Hr2 & Hd2 & O2).
  unfold output_is in O1, O2. rewrite Oa in O1. rewrite Ob in O2. destruct O1 as (_ & _ & O1). destruct O2 as (_ & _ & O2).
  rewrite W1 in O1. rewrite W3 in O2. cbn [app] in O1, O2.
  assert (Hr2' : reads b w2 toon).
  { exists full. split; [exact U|]. split; [congruence|]. intros p Hp1 Hp2. destruct Ib; congruence. }
  destruct (C36_output_determined _ _ _ _ _ _ _ _ Hr2 Hr2' Hd2 D2) as [-> ->].
  exists n, w. rewrite O2. auto.
Qed.

(** Through a file: if no call fails, both succeed and the same holds. *)
Theorem C49_files_folded :
  forall (a b : args) (p q : str) (w : world) (input : str) (t : jtree) (v : json),
    folding_partners a b -> a_output a = Some p -> a_input b = Some p -> p <> lit "-" -> a_output b = Some q ->
    reads a w input -> json_document input t -> nesting t <= 127 -> value_with (reading rf) t = Some v -> portable (last_wins v) -> undotted (last_wins v) ->
    exists calls, forall env1 env2, steady env1 -> steady env2 -> calls <= length env1 -> calls <= length env2 ->
    exists w' env1' w'' env2',
      main a w env1 = (Some 0%N, w', env1') /\ main b w' env2 = (Some 0%N, w'', env2') /\
      exists bytes n x, w_files w'' q = Some bytes /\ json_file bytes x /\ norm_json (last_wins v) n /\ jequiv n x /\ (uniform n -> x = n).
Proof.
  intros a b p q w input t v Hab Oa Ib Hp1 Ob Hr Ht Hn Hv Hp Hu0.
  assert (Hsc : Forall scalar input) by (destruct Hr as (x & Hx & _); exact (proj1 (from_utf8_sound x input Hx))).
  destruct (delivered_back_folded a b input t v Hab Hsc Ht Hn Hv Hp Hu0) as (full & toon & full' & n & x & D1 & U & D2 & J & Hnn & Hj & Hu).
  destruct (C36_complete_without_failures rf complaint st file_cap line_cap a input full D1) as (c1 & H1).
  assert (Hreads : forall w', w_files w' p = Some full -> reads b w' toon).
  { intros w' Hw'. exists full. split; [exact U|]. split.
    - intros [K|K]; congruence.
    - intros p' Hp' _. congruence. }
  destruct (C36_complete_without_failures rf complaint st file_cap line_cap b toon full' D2) as (c2 & H2).
  exists (c1 + c2). intros env1 env2 S1 S2 L1 L2.
  destruct (H1 w env1 Hr S1 ltac:(lia)) as (w' & env1' & R1 & O1).
  unfold output_is in O1. rewrite Oa in O1. destruct O1 as (O1 & _).
  destruct (H2 w' env2 (Hreads w' O1) S2 ltac:(lia)) as (w'' & env2' & R2 & O2).
  unfold output_is in O2. rewrite Ob in O2. destruct O2 as (O2 & _).
  exists w', env1', w'', env2'. repeat (split; [assumption|]). exists full', n, x. auto.
Qed.

(** The other direction: a TOON text through JSON and back, folded. *)
Theorem C49_toon_pipe_folded :
  forall (b a : args) (w1 w1' w2 w2' : world) (env1 env1' env2 env2' : list reply)
         (input : str) (v : json) (d : option decode_options),
    decodes b -> ~ decodes a -> std_delim (a_delimiter a) -> a_indent a <> 0 ->
    a_output b = None -> from_stdin a -> a_output a = None ->
    w_stdout w1 = [] -> w_stdin w2 = w_stdout w1' -> w_stdout w2 = [] ->
    main b w1 env1 = (Some 0%N, w1', env1') -> main a w2 env2 = (Some 0%N, w2', env2') ->
    reads b w1 input ->
    try_decode input (Some (DecOpts (Some (a_indent b)) (Some (if a_no_strict b then false else true)) (Some (a_expand_paths b)))) = Ok v ->
    (forall x n, number_in x v -> number_text st x = Some n -> reading rf n = Some x) -> nest v <= 127 -> portable (last_wins v) -> undotted (last_wins v) ->
    expanding_options (Some (EncOpts (Some (a_indent a)) (Some (a_delimiter a)) (Some (a_key_folding a)) (a_flatten_depth a) None)) d ->
    exists toon w, from_utf8 (w_stdout w2') = Some toon /\ try_decode toon d = Ok w /\
      jequiv (last_wins v) w /\ (uniform (last_wins v) -> w = last_wins v).
Proof.
  intros b a w1 w1' w2 w2' env1 env1' env2 env2' input v d Mb Ma Hdl Hi0 Ob Ia Oa W1 W2 W3 R1 R2 Hr E Hx Hn Hp Hu0 Hm.
  assert (Hsc : Forall scalar input) by (destruct Hr as (x & Hx' & _); exact (proj1 (from_utf8_sound x input Hx'))).
  assert (Hascii : forall c, (c < 128)%N -> scalar c) by (intros c Hc; unfold scalar; lia).
  pose proof (C28_decoded_numbers _ _ _ E) as Hc.
  destruct (C36_success_is_complete _ _ _ _ _ b w1 w1' env1 env1' R1 (or_introl Ob)) as (i1 & f1 & Hr1 & Hd1 & O1).
  destruct (C36_success_is_complete _ _ _ _ _ a w2 w2' env2 env2' R2 (or_introl Oa)) as (i2 & f2 & Hr2 & Hd2 & O2).
  unfold output_is in O1, O2. rewrite Ob in O1. rewrite Oa in O2. destruct O1 as (_ & _ & O1). destruct O2 as (_ & _ & O2).
  rewrite W1 in O1. rewrite W3 in O2. cbn [app] in O1, O2.
  pose proof (reads_fun _ _ _ _ Hr1 Hr) as ->.
  destruct Hd1 as [[K _]|[_ (cs & Ec & ->)]]; [contradiction|]. destruct Hd2 as [[_ (ls & El & ->)]|[K _]]; [|contradiction].
  pose proof (chunks_tree _ _ _ _ _ Ec E) as Et.
  assert (Hspv : spelled scalar v) by (eapply decoded_spelled; [|exact E|exact Hsc]; repeat split; apply Hascii; lia).
  assert (Hj : Forall scalar (concat cs ++ [cLF])).
  { apply Forall_app. split; [|constructor; [apply Hascii; lia|constructor]]. eapply json_text_ok; [exact Hascii|apply read_json_spec; exact Et|].
    apply (value_spelled scalar (reading rf) (tree_of st v) v); [now apply tree_of_read|exact Hspv]. }
  assert (i2 = concat cs ++ [cLF]).
  { destruct Hr2 as (y & U & Hin & _). rewrite (Hin Ia), W2, O1 in U. rewrite from_utf8_utf8 in U by exact Hj. congruence. }
  subst i2.
  assert (Et' : json_document (concat cs ++ [cLF]) (tree_of st v)).
  { apply read_json_spec in Et as (x1 & y & x2 & -> & H1 & Hb & H2). exists x1, y, (x2 ++ [cLF]). rewrite <- !app_assoc. repeat split; auto.
    apply Forall_app. split; [exact H2|]. repeat constructor. }
  pose proof (tree_of_read rf st v Hc Hx) as Hv.
  destruct (C45_json_to_toon rf 0 (concat cs ++ [cLF]) (Some (EncOpts (Some (a_indent a)) (Some (a_delimiter a)) (Some (a_key_folding a)) (a_flatten_depth a) None))) as [(t' & v' & n & T1 & T2 & T3 & T4 & T5)|[T1 _]]; [|congruence].
  rewrite (json_document_fun _ _ _ T1 Et') in T3. rewrite Hv in T3. injection T3 as <-.
  assert (n = last_wins v) by (apply (norm_json_id _ _ T4); now apply last_wins_canonical). subst n.
  rewrite T5 in El.
  assert (Hlv : levels (last_wins v) <= 256).
  { pose proof (last_wins_levels v). pose proof (value_levels _ _ _ Hv). pose proof (tree_of_nesting st v). lia. }
  assert (Hcc : carries (Some (EncOpts (Some (a_indent a)) (Some (a_delimiter a)) (Some (a_key_folding a)) (a_flatten_depth a) None)) d).
  { right. unfold plain_options, folding_options. destruct (a_key_folding a); [left|right]; (split; [cbn; repeat split; auto|exact Hm]). }
  destruct (carried 0 (last_wins v) _ d Hcc (last_wins_distinct v) Hp Hu0 Hlv) as (toon & w & E1 & D & Wr).
  pose proof (normalize_spec (last_wins v)) as Hn'.
  assert (Hid : normalize_json_value (last_wins v) = last_wins v) by (apply (norm_json_id _ _ Hn'); now apply last_wins_canonical).
  rewrite Hid in Hn', Wr.
  assert (Hw : table_ordered (last_wins v) w) by (eapply written_ordered; eauto using last_wins_distinct).
  unfold encode in E1. rewrite El in E1. cbn [bind] in E1. injection E1 as <-.
  exists (join cLF ls ++ [cLF]), w. split; [|split; [now rewrite C23_final_line_feed|split; [now apply table_ordered_jequiv|]]].
  - rewrite O2. apply from_utf8_utf8. apply Forall_app. split; [|constructor; [apply Hascii; lia|constructor]].
    apply (proj1 (C46_encoded_text _ _ _ _ _ _ ls Hn')) in El as (doc & Hdoc & ->).
    apply join_lines_ok; [apply Hascii; lia|]. eapply shown_ok; [exact Hascii|]. eapply document_ok; eauto.
    + unfold unwrap_or. apply Hascii. destruct Hdl as [->|[->| ->]]; lia.
    + now apply spelled_last.
  - intros Hu. apply table_ordered_uniform; auto using last_wins_distinct.
Qed.
End There.
Print Assumptions C49_pipe_folded.
Print Assumptions C49_files_folded.
Print Assumptions C49_toon_pipe_folded.

(** Two levels of keys are folded, and no call takes more than five bytes. *)
Definition C49_fold_world : world :=
  World (fun p => if str_eqb p (lit "in.json") then Some (utf8 (lit "{""a"": {""b"": {""c"": [1, ""x.y""]}}, ""d"": 0}")) else None) [] [] [] [].
Definition C49_folder : args := Args (Some (lit "in.json")) None false false cCOMMA 2 false KFSafe None EPOff false.
Definition C49_expander : args := Args None None false true cCOMMA 2 false KFOff None EPSafe false.
Definition C49_folded_runs : option N * str * (option N * option json) :=
  let '(o1, w1, _) := std_main C49_folder C49_fold_world (repeat (RDone 5) 40) in
  let '(o2, w2, _) := std_main C49_expander (World (w_files w1) (w_stdout w1) [] [] []) (repeat (RDone 7) 90) in
  (o1, unwrap_or (from_utf8 (w_stdout w1)) [], (o2, match from_utf8 (w_stdout w2) with Some t => json_value t | None => None end)).
Example C49_folded_case :
  folding_partners C49_folder C49_expander /\
  C49_folded_runs = (Some 0%N, lit "a.b.c[2]: 1,x.y" ++ cLF :: lit "d: 0" ++ [cLF],
    (Some 0%N, Some (JObj [(lit "a", JObj [(lit "b", JObj [(lit "c", JArr [jnum (lit "1"); JPrim (PStr (lit "x.y"))])])]); (lit "d", jnum (lit "0"))]))).
Proof.
  split; [|vm_compute; reflexivity]. split; [now apply encodes_mode|]. split; [now apply decodes_mode|]. cbn. unfold std_delim. repeat split; auto; discriminate.
Qed.

(** A TOON text with a folded key comes back as it was. *)
Definition C49_toon_world : world := World (fun _ => None) (utf8 (lit "a.b: yes" ++ cLF :: lit "c: x" ++ [cLF])) [] [] [].
Definition C49_toon_folded_runs : option N * (option N * str) :=
  let '(o1, w1, _) := std_main C49_expander C49_toon_world (repeat (RDone 5) 40) in
  let '(o2, w2, _) := std_main (Args None None true false cCOMMA 2 false KFSafe None EPOff false) (World (w_files w1) (w_stdout w1) [] [] []) (repeat (RDone 7) 90) in
  (o1, (o2, unwrap_or (from_utf8 (w_stdout w2)) [])).
Example C49_toon_folded_case :
  C49_toon_folded_runs = (Some 0%N, (Some 0%N, lit "a.b: yes" ++ cLF :: lit "c: x" ++ [cLF])) /\
  undotted (last_wins (JObj [(lit "a", JObj [(lit "b", JPrim (PStr (lit "yes")))]); (lit "c", JPrim (PStr (lit "x")))])).
Proof.
  split; [vm_compute; reflexivity|]. apply undottedb_ok; reflexivity.
Qed.
