(** C31: the asynchronous encoder streams give what the synchronous API gives. *)
From Verif Require Import Chars Floats Json JsonInd Shared EncPrim Normalize Folding Encoders Replacer EncodeApi
  AsyncEncode Fixtures Spec.

Local Open Scope nat_scope.

(** The events a stream has still to give. *)
Definition member_events (kv : str * json) : list event :=
  EvKey (fst kv) (negb (is_valid_unquoted_key (fst kv))) :: emit_events (snd kv).
Definition frame_events (f : frame) : list event :=
  match f with
  | FObj entries pending =>
      match pending with Some v => emit_events v | None => [] end ++ flat_map member_events entries ++ [EvEndObject]
  | FArr items n started =>
      (if started then [] else [EvStartArray n]) ++ flat_map emit_events items ++ [EvEndArray]
  end.
Definition left_over (s : event_stream) : list event :=
  (if es_started s then [] else match es_root s with Some v => emit_events v | None => [] end) ++
  flat_map frame_events (es_stack s).

Lemma poll_step s : exists s', event_stream_poll s = Ok (hd_error (left_over s), s') /\ left_over s' = tl (left_over s).
Proof.
  destruct s as [stack started root]. unfold event_stream_poll. cbn [next_event es_started es_stack es_root].
  assert (C : forall stack root, exists s', next_event 2 (EventStream stack true root)
      = Ok (hd_error (flat_map frame_events stack), s') /\ left_over s' = tl (flat_map frame_events stack)).
  { clear. intros [|[entries [v|]|items n []] below] root; cbn [next_event es_started es_stack es_root flat_map frame_events app].
    - eexists. split; reflexivity.
    - destruct v as [p|l|l]; cbn [next_event es_started es_stack es_root flat_map frame_events app emit_events]; eexists;
        (split; [reflexivity|]); cbn [left_over es_started es_stack flat_map frame_events app tl];
        unfold member_events; now rewrite <- ?app_assoc.
    - destruct entries as [|[k v] entries]; cbn [flat_map app fst snd member_events hd_error tl]; eexists;
        (split; [reflexivity|]); cbn [left_over es_started es_stack flat_map frame_events app]; now rewrite <- ?app_assoc.
    - destruct items as [|v items]; [cbn [flat_map app hd_error tl]; eexists; split; reflexivity|].
      destruct v as [p|l|l]; cbn [next_event es_started es_stack es_root flat_map frame_events app emit_events]; eexists;
        (split; [reflexivity|]); cbn [left_over es_started es_stack flat_map frame_events app tl];
        unfold member_events; now rewrite <- ?app_assoc.
    - eexists. split; [reflexivity|]. cbn [left_over es_started es_stack flat_map frame_events app tl]. reflexivity. }
  destruct started; [apply C|]. destruct root as [v|].
  - destruct v as [p|l|l]; cbn [next_event es_started es_stack es_root left_over emit_events app hd_error tl]; eexists;
      (split; [reflexivity|]); cbn [left_over es_started es_stack flat_map frame_events app];
      unfold member_events; now rewrite <- ?app_assoc.
  - apply C.
Qed.

Lemma nth_poll n : forall s, nth_event_poll n s = Ok (nth_error (left_over s) n).
Proof.
  induction n as [|n IH]; intros s; cbn [nth_event_poll]; destruct (poll_step s) as (s' & -> & H); cbn [bind fst snd].
  - now destruct (left_over s).
  - rewrite IH, H. destruct (left_over s); cbn; auto. now destruct n.
Qed.

(** The answer to the [n]-th poll is the [n]-th event of the synchronous API, and no event for every
    later poll. *)
Theorem C31_event_stream_agrees :
  forall (fuel : nat) (v : json) (eo : option encode_options) (evs : list event),
    encode_stream_events fuel v eo = Ok evs ->
    exists s, event_stream_new fuel v eo = Ok s /\ forall n, nth_event_poll n s = Ok (nth_error evs n).
Proof.
  intros fuel v eo evs E. unfold encode_stream_events, event_stream_new in *. cbv zeta in E.
  destruct (prepare _ _ _) as [r|]; [|discriminate]. cbn [bind] in *. injection E as <-.
  eexists. split; [reflexivity|]. intros n. rewrite nth_poll. f_equal.
  unfold left_over. cbn [es_started es_root es_stack flat_map]. now rewrite app_nil_r.
Qed.
Print Assumptions C31_event_stream_agrees.

(** The stream exists exactly when the synchronous call answers. *)
Theorem C31_event_stream_exists :
  forall (fuel : nat) (v : json) (eo : option encode_options) (s : event_stream),
    event_stream_new fuel v eo = Ok s -> exists evs, encode_stream_events fuel v eo = Ok evs.
Proof.
  intros fuel v eo s E. unfold encode_stream_events, event_stream_new in *. cbv zeta.
  destruct (prepare _ _ _) as [r|]; [|discriminate]. cbn [bind]. eauto.
Qed.
Print Assumptions C31_event_stream_exists.

(** Polling never needs more than one nested call, from any state a stream can have. *)
Theorem C31_poll_total : forall s : event_stream, exists r, event_stream_poll s = Ok r.
Proof. intros s. destruct (poll_step s) as (s' & E & _). eauto. Qed.
Print Assumptions C31_poll_total.

Lemma nth_line n : forall lines i, nth_line_poll n (LineStream lines i) = nth_error lines (i + n).
Proof.
  induction n as [|n IH]; intros lines i; cbn [nth_line_poll line_stream_poll ls_lines ls_index];
    unfold line_stream_poll; cbn [ls_lines ls_index].
  - rewrite Nat.add_0_r. destruct (nth_error lines i) eqn:E; auto.
  - destruct (nth_error lines i) eqn:E; cbn [snd]; rewrite IH.
    + now rewrite Nat.add_succ_r.
    + apply nth_error_None in E. rewrite (proj2 (nth_error_None _ _)) by lia. symmetry. apply nth_error_None. lia.
Qed.
Theorem C31_line_stream_agrees :
  forall (fuel : nat) (v : json) (eo : option encode_options) (lines : list str),
    encode_lines fuel v eo = Ok lines ->
    exists s, line_stream_new fuel v eo = Ok s /\ line_stream_len s = length lines /\
      (line_stream_is_empty s = true <-> lines = []) /\
      forall n, nth_line_poll n s = nth_error lines n.
Proof.
  intros fuel v eo lines E. unfold encode_lines, line_stream_new in *. cbv zeta in *.
  destruct (prepare _ _ _) as [r|]; [|discriminate]. cbn [bind] in *. rewrite E. cbn [bind].
  eexists. split; [reflexivity|]. split; auto. split; [|intros n; apply nth_line].
  unfold line_stream_is_empty. cbn [ls_lines]. destruct lines; cbn; split; congruence.
Qed.
Print Assumptions C31_line_stream_agrees.

(** The length is that of the whole text, however many lines were taken. *)
Theorem C31_line_count :
  forall s : line_stream,
    line_stream_len (snd (line_stream_poll s)) = line_stream_len s /\
    line_stream_is_empty (snd (line_stream_poll s)) = line_stream_is_empty s /\
    (line_stream_is_empty s = true <-> line_stream_len s = 0).
Proof.
  intros [lines i]. unfold line_stream_poll, line_stream_len, line_stream_is_empty. cbn [ls_lines ls_index].
  destruct (nth_error lines i); cbn [snd ls_lines]; (split; [reflexivity|]); (split; [reflexivity|]);
    destruct lines; cbn; split; congruence.
Qed.
Print Assumptions C31_line_count.
Example C31_line_count_case : exists s,
  line_stream_new 5 (JArr [JObj []; JPrim PNull]) None = Ok s /\
  line_stream_len (snd (line_stream_poll s)) = 3 /\ line_stream_is_empty (snd (line_stream_poll s)) = false /\
  (exists e, line_stream_new 5 (JObj []) None = Ok e /\ line_stream_is_empty e = true).
Proof. eexists. split; [vm_compute; reflexivity|]. split; [reflexivity|]. split; [reflexivity|]. eexists. split; vm_compute; reflexivity. Qed.

Lemma collect_left n : forall s, length (left_over s) < n -> collect_events n s = Ok (left_over s).
Proof.
  induction n as [|n IH]; intros s Hn; [lia|]. cbn [collect_events]. destruct (poll_step s) as (s' & -> & H). cbn [bind fst snd].
  destruct (left_over s) as [|e r]; cbn [hd_error tl length] in *; auto. rewrite IH, H by (rewrite H; lia). reflexivity.
Qed.

(** The collecting functions: lines, text, events. *)
Theorem C31_async_functions_agree :
  forall (fuel : nat) (v : json) (eo : option encode_options),
    try_encode_lines_async fuel v eo = encode_lines fuel v eo /\
    try_encode_async fuel v eo = encode fuel v eo /\
    exists steps, forall n, steps <= n -> try_encode_events_async n fuel v eo = encode_stream_events fuel v eo.
Proof.
  intros fuel v eo. split; [reflexivity|]. split; [reflexivity|].
  unfold try_encode_events_async, encode_stream_events, event_stream_new. cbv zeta.
  destruct (prepare _ _ _) as [r|]; cbn [bind]; [|exists 0; auto].
  exists (S (length (emit_events r))). intros n Hn. rewrite collect_left;
    unfold left_over; cbn [es_started es_root es_stack flat_map]; now rewrite app_nil_r.
Qed.
Print Assumptions C31_async_functions_agree.

(** A nested value: every event, then nothing. *)
Example C31_case :
  let v := JObj [(lit "a b", JArr [JObj []; JArr []; JPrim PNull]); (lit "c", JObj [(lit "d", JPrim (PBool true))])] in
  (let? s := event_stream_new 0 v None in map_result (fun n => nth_event_poll n s) (seq 0 16))
  = Ok [Some EvStartObject; Some (EvKey (lit "a b") true); Some (EvStartArray 3); Some EvStartObject; Some EvEndObject;
        Some (EvStartArray 0); Some EvEndArray; Some (EvPrim PNull); Some EvEndArray; Some (EvKey (lit "c") false);
        Some EvStartObject; Some (EvKey (lit "d") false); Some (EvPrim (PBool true)); Some EvEndObject; Some EvEndObject; None].
Proof. vm_compute. reflexivity. Qed.
