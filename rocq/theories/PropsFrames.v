(** C65: how deeply the calls of the decoder and of the encoder nest. *)
From Verif Require Import Chars Floats Json Shared Scanner Parser DecValidation Decoders EventBuilder Expand DecodeApi
  Normalize Folding Encoders EncodeApi DecFrames EncFrames Lex Spec DecProps SpecText SpecRead SpecReplace ReadProof PropsUnread
  RoundTrip PropsRead PropsRoundTrip PropsNest Checkers FramesProof EncFramesProof.

Local Open Scope nat_scope.

(** The calls open at one time while [decode_stream_sync] reads these lines, its own included. *)
Definition decode_calls (raws : list str) (indent : nat) (strict : bool) : nat :=
  snd (stream_frames raws (Some (DStreamOpts (Some indent) (Some strict)))).
(** The calls open at one time while [encode_json_value] writes this value, its own included. *)
Definition encode_calls (v : json) (o : renc_options) : nat := snd (json_value_frames v o).

(** The counted programs do what the programs do. *)
Theorem C65_same_outcome :
  (forall raws options, fst (stream_frames raws options) = decode_stream_sync raws options) /\
  (forall v o, fst (json_value_frames v o) = encode_json_value v o).
Proof. split; [apply stream_same|apply json_value_same]. Qed.
Print Assumptions C65_same_outcome.

(** ** The decoder *)

Lemma deepest_in ls l : In l ls -> tl_depth l <= list_max (map tl_depth ls).
Proof.
  intros H. apply (in_map tl_depth) in H. pose proof (proj1 (list_max_le (map tl_depth ls) _) (le_n _)) as F.
  rewrite Forall_forall in F. now apply F.
Qed.

(** Accepted or not: at most three calls for each level of the deepest indentation and five more
    (four, when nothing is indented), and at most four for each line with text. *)
Theorem C65_decode_at_most :
  forall (raws : list str) (indent : nat) (strict : bool) (ls : list tline) (blanks : list nat),
    scans strict indent 1 raws ls blanks ->
    let deepest := list_max (map tl_depth ls) in
    decode_calls raws indent strict <= 3 * deepest + (if Nat.eqb deepest 0 then 4 else 5) /\
    decode_calls raws indent strict <= Nat.max 1 (4 * length ls).
Proof.
  intros raws indent strict ls blanks S deepest. destruct (ReadLine.scans_complete _ _ _ _ _ _ S 0 [] eq_refl) as (pls & st & E & El & _).
  unfold decode_calls, stream_frames. cbn [unwrap_or dso_indent dso_strict]. cbv zeta. unfold create_scan_state, andthen.
  rewrite E. cbn [call here fst snd].
  assert (B : upto (3 * deepest + 3 + Nat.min 1 deepest) (post2 deepest) (lines_frames pls (DCtx strict (ss_blanks st)))).
  { apply lines_bound. apply Forall_forall. intros l Hi. change (pl_depth l) with (tl_depth (ReadLine.tl_of l)). apply deepest_in.
    rewrite <- El. now apply in_map. }
  pose proof (lines_lines_bound pls (DCtx strict (ss_blanks st))) as [C _].
  assert (Hl : length ls = length pls) by (rewrite <- El; apply map_length). rewrite Hl.
  destruct B as [B _]. clearbody deepest. destruct (lines_frames pls _) as [[[evs c]|e] n]; cbn [fst snd] in *;
    destruct (Nat.eqb_spec deepest 0) as [Hd|Hd]; split; cbn [here snd]; lia.
Qed.
Print Assumptions C65_decode_at_most.

(** When the indentation of a line is wrong no other call is made. *)
Theorem C65_decode_bad_indentation :
  forall (raws : list str) (indent : nat) (strict : bool),
    ~ (exists ls blanks, scans strict indent 1 raws ls blanks) -> decode_calls raws indent strict = 1.
Proof.
  intros raws indent strict H. unfold decode_calls, stream_frames. cbn [unwrap_or dso_indent dso_strict]. cbv zeta.
  unfold create_scan_state, andthen. destruct (parse_lines_sync raws indent strict (ScanState 0 [])) as [[ls st]|e] eqn:E; [|reflexivity].
  apply ReadLine.scans_sound in E as (bs & S & _). exfalso. apply H. eauto.
Qed.
Print Assumptions C65_decode_bad_indentation.

(** A decoded value was read by at least as many calls as it has levels. *)
Theorem C65_decode_at_least :
  forall (text : str) (indent : option nat) (strict : option bool) (expand : option expand_paths_mode) (v : json),
    expand <> Some EPSafe -> try_decode text (Some (DecOpts indent strict expand)) = Ok v ->
    nesting v <= decode_calls (split_on cLF text) (unwrap_or indent 2) (unwrap_or strict true).
Proof.
  intros text indent strict expand v He E. apply C47_decoded_value in E as (tr & R & ->); [|exact He].
  rewrite depth_nesting. apply reads_split in R as (ls & bs & S & R).
  pose proof (proj2 (stream_spec (split_on cLF text) _ _ (tree_events tr)) (ex_intro _ ls (ex_intro _ bs (ex_intro _ tr (conj S (conj R eq_refl)))))) as E.
  rewrite <- stream_same in E. unfold decode_calls, stream_frames in *. cbn [unwrap_or dso_indent dso_strict] in *. cbv zeta in *.
  unfold andthen in *. cbn [call here fst snd] in *. destruct (parse_lines_sync _ _ _ _) as [[pls st]|e]; [|discriminate].
  cbn [fst snd] in *. pose proof (lines_need pls (DCtx (unwrap_or strict true) (ss_blanks st))) as N. unfold least in N.
  destruct (lines_frames pls _) as [[[evs c]|e] n]; cbn [fst snd] in *; [|discriminate]. injection E as ->.
  destruct (N _ eq_refl) as (w & Ew & Hw). cbn [fst] in Ew. apply tree_events_inj in Ew as <-. lia.
Qed.
Print Assumptions C65_decode_at_least.

(** The decoder sets no limit: some text of [n] levels is accepted, and needs as many calls. *)
Fixpoint deep (n : nat) : json :=
  match n with O => JPrim PNull | S n => JObj [(lit "k", deep n)] end.
Lemma deep_nesting n : nesting (deep n) = n.
Proof. induction n as [|n IH]; [reflexivity|]. cbn [deep nesting map snd list_max fold_right]. lia. Qed.
Lemma deep_good n : distinct_keys (deep n) /\ (forall t, portable_at t (deep n)) /\ uniform (deep n) /\ canonical (deep n).
Proof.
  induction n as [|n (H1 & H2 & H3 & H4)]; cbn [deep].
  - repeat split; constructor; exact I.
  - split; [|split; [|split]]; intros; constructor; repeat constructor; auto. cbn [snd fst]. intros s Hs. destruct n; discriminate.
Qed.
Theorem C65_decode_no_limit :
  forall (n : nat), exists text, try_decode text None = Ok (deep n) /\ nesting (deep n) = n /\
    n <= decode_calls (split_on cLF text) 2 true.
Proof.
  intros n. destruct (deep_good n) as (H1 & H2 & H3 & H4).
  assert (P : plain_options None) by (split; [reflexivity|split; [reflexivity|split; [now left|discriminate]]]).
  assert (M : matching_options None None) by (split; reflexivity).
  destruct (C02_exact_round_trip_canonical 0 (deep n) None None P M H1 (H2 true) H3 H4) as (text & _ & E).
  exists text. split; [exact E|]. split; [apply deep_nesting|]. rewrite <- (deep_nesting n) at 1.
  apply (C65_decode_at_least text None None None); [discriminate|exact E].
Qed.
Print Assumptions C65_decode_no_limit.

(** ** The encoder *)
Theorem C65_encode_at_most :
  forall (v : json) (o : renc_options), encode_calls v o <= 3 * nesting v + 1.
Proof. apply json_value_bound. Qed.
Print Assumptions C65_encode_at_most.

(** Unless keys are folded, a value whose objects do not repeat keys needs as many calls as it has
    levels. *)
Theorem C65_encode_at_least :
  forall (v : json) (o : renc_options),
    ro_key_folding o = KFOff -> distinct_keys v -> nesting v <= encode_calls v o.
Proof. intros v o Ho Hd. now apply json_value_need. Qed.
Print Assumptions C65_encode_at_least.

(** ** Cases in which the bounds are attained *)
Definition calls_case : list str := [lit "k[1]:"; lit "  - [1]:"; lit "    - k[0]:"].
Example C65_indentation_attained :
  exists ls, scans true 2 1 calls_case ls [] /\ list_max (map tl_depth ls) = 2 /\
    decode_calls calls_case 2 true = 11 /\
    exists v, try_decode (join cLF calls_case) None = Ok v.
Proof.
  destruct (parse_lines_sync calls_case 2 true (ScanState 0 [])) as [[ls st]|] eqn:E; [|vm_compute in E; discriminate].
  destruct (ReadLine.scans_sound _ _ _ _ _ _ _ E) as (bs & Hs & Eb). vm_compute in E. injection E as <- <-.
  destruct bs; [|discriminate]. eexists. split; [exact Hs|]. split; [reflexivity|]. split; [vm_compute; reflexivity|].
  eexists. vm_compute. reflexivity.
Qed.
Definition calls_lines_case : list str := [lit "k[1]:"; lit "  - k[1]:"; lit "      - k[0]:"].
Example C65_lines_attained :
  exists ls, scans true 2 1 calls_lines_case ls [] /\ length ls = 3 /\ decode_calls calls_lines_case 2 true = 12.
Proof.
  destruct (parse_lines_sync calls_lines_case 2 true (ScanState 0 [])) as [[ls st]|] eqn:E; [|vm_compute in E; discriminate].
  destruct (ReadLine.scans_sound _ _ _ _ _ _ _ E) as (bs & Hs & Eb). vm_compute in E. injection E as <- <-.
  destruct bs; [|discriminate]. eexists. split; [exact Hs|]. split; [reflexivity|]. vm_compute. reflexivity.
Qed.
(** Refused, but only after the calls were made. *)
Example C65_refused_case :
  (exists e, try_decode (join cLF [lit "k[1]:"; lit "  - [1]:"; lit "    - k[2]:"]) None = Err e) /\
  decode_calls [lit "k[1]:"; lit "  - [1]:"; lit "    - k[2]:"] 2 true = 11.
Proof. split; [eexists; vm_compute; reflexivity|vm_compute; reflexivity]. Qed.
Definition calls_value : json :=
  JArr [JPrim PNull; JObj [(lit "a", JPrim PNull); (lit "b", JArr [JPrim PNull; JObj [(lit "a", JPrim PNull); (lit "b", JPrim PNull)]])]].
Example C65_encode_attained :
  nesting calls_value = 4 /\ distinct_keys calls_value /\ encode_calls calls_value (resolve_encode_options None) = 13.
Proof.
  split; [reflexivity|]. split; [|vm_compute; reflexivity].
  apply distinctb_ok. vm_compute. reflexivity.
Qed.
(** A table needs two calls for its two levels. *)
Example C65_encode_least :
  nesting (JArr [JObj [(lit "a", JPrim PNull)]]) = 2 /\
  encode_calls (JArr [JObj [(lit "a", JPrim PNull)]]) (resolve_encode_options None) = 2.
Proof. split; [reflexivity|vm_compute; reflexivity]. Qed.
(** Folded, levels are written without calls. *)
Example C65_encode_folded :
  nesting (deep 6) = 6 /\
  encode_calls (deep 6) (resolve_encode_options (Some (EncOpts None None (Some KFSafe) None None))) = 3.
Proof. split; [reflexivity|vm_compute; reflexivity]. Qed.
