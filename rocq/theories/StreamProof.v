(** The asynchronous decoder stream answers as SpecStream.v says. *)
From Verif Require Import Chars Floats Json Shared Scanner Parser DecValidation Decoders EventBuilder Expand DecodeApi
  AsyncDecode Lex NumProof PrimProof Spec DecNums ParseProof DecRel DecCost DecProps DecRelax SpecText TextProof SpecRead SpecError SpecStream
  ReadLex ReadHead ReadLine ErrLex ReadProof ErrProof AsyncDecProof.

Local Open Scope nat_scope.

(** * Single lines *)

Lemma key_token_err s e : parse_key_token s 0 = Err e <->
  bad_key s e \/ (exists r, s = cDQ :: r /\ open_quote r /\ e = EUnterminatedKey).
Proof.
  destruct (starts_with cDQ s) eqn:Es.
  - apply starts_with_iff in Es as (r & ->). destruct (find_closing_quote (cDQ :: r) 0) as [k|] eqn:Ec.
    + apply closing_spec in Ec as (b & r' & -> & Hb & ->).
      rewrite key_err.
      * split; [now left|]. intros [H|(x & [= <-] & Ho & _)]; auto. now destruct (Ho b r').
      * intros w x E Hw. destruct w as [|c w].
        -- injection E as <-. exists b, r'. auto.
        -- exfalso. injection E as <- _. inversion Hw. discriminate.
    + apply open_quote_spec in Ec as Ho. unfold parse_key_token. cbn [skipn starts_with]. rewrite N.eqb_refl. unfold parse_quoted_key.
      rewrite Ec. cbn [bind]. split.
      * intros [= <-]. right. exists r. auto.
      * intros [H|(x & [= <-] & _ & ->)]; [|reflexivity].
        exfalso. destruct H as [H _|b k x E Hu _|b x y E Hb _].
        -- now apply (H r).
        -- injection E as ->. apply (Ho b x); auto. eauto using unescapes_body.
        -- injection E as ->. now apply (Ho b y).
  - pose proof (proj1 (starts_with_not _ _) Es) as Hn. rewrite or_comm.
    assert (X : (exists r, s = cDQ :: r /\ open_quote r /\ e = EUnterminatedKey) \/ bad_key s e <-> bad_key s e).
    { split; auto. intros [(r & -> & _)|H]; auto. now destruct (Hn r). }
    rewrite X. clear X. 
    unfold parse_key_token. cbn [skipn]. rewrite Es. unfold parse_unquoted_key, find_from. cbn [skipn].
    destruct (find_char cCOLON s) as [i|] eqn:Ei; cbn [option_map bind].
    + split; [discriminate|]. destruct 1 as [_ H|b' k r -> Hu H|b' x r -> Hb' Hx]; [|now destruct (Hn (b' ++ cDQ :: r))..].
      exfalso. apply find_cut in Ei as (a & b & [-> _] & _). apply H. rewrite in_app_iff. right. now left.
    + apply find_char_None in Ei. split; [intros [= <-]; now apply bk_bare|].
      destruct 1 as [_ H|b' k r -> Hu H|b' x r -> Hb' Hx]; [reflexivity|now destruct (Hn (b' ++ cDQ :: r))..].
Qed.

Lemma header_line_spec t :
  (is_header_line t = Ok true <-> opens_array t) /\ (is_header_line t = Ok false <-> no_array t) /\
  (forall e, is_header_line t = Err e <-> breaks_array t e).
Proof.
  unfold is_header_line, opens_array, no_array, breaks_array. destruct (is_array_header_content t) eqn:Ea.
  - pose proof (proj1 (array_content_spec _) Ea) as [B U].
    destruct (parse_array_header_line t DEFAULT_DELIMITER) as [[[h iv]|]|e] eqn:Eh; cbn [bind].
    + apply header_some_inv in Eh as (hl & tail & Hh & _). split; [split; eauto|]. split; [|split].
      * split; [discriminate|]. intros [H|H]; [tauto|]. now apply (header_not_none _ _ _ Hh) in H.
      * discriminate.
      * intros (_ & _ & H). now destruct (bad_header_not _ _ H) as [_ X]; destruct (X hl tail).
    + apply header_none in Eh. split; [split; [discriminate|]|split; [split; auto|split; [discriminate|]]].
      * intros (_ & _ & h & tail & H). now apply (header_not_none _ _ _ H) in Eh.
      * intros (_ & _ & H). now destruct (bad_header_not _ _ H).
    + apply header_err in Eh. split; [split; [discriminate|]|split; [split; [discriminate|]|split]].
      * intros (_ & _ & h & tail & H). now destruct (bad_header_not _ _ Eh) as [_ X]; destruct (X h tail).
      * intros [H|H]; [tauto|]. now destruct (bad_header_not _ _ Eh).
      * intros [= <-]. auto.
      * intros (_ & _ & H). f_equal. eapply bad_header_fun; eauto.
  - apply array_content_not in Ea. split; [split; [discriminate|tauto]|]. split; [split; auto|]. split; [discriminate|tauto].
Qed.

Lemma opens_spec t : async_is_key_value_line t = true <-> opens_object t.
Proof.
  unfold async_is_key_value_line, opens_object. destruct (starts_with_str LIST_ITEM_PREFIX t) eqn:Eh.
  { apply hyphen_spec in Eh. split; [discriminate|]. intros [H _]. contradiction. }
  apply hyphen_not in Eh. destruct (starts_with cDQ t) eqn:E.
  - apply starts_with_iff in E as (r & ->). destruct (find_closing_quote (cDQ :: r) 0) as [n|] eqn:Ec.
    + apply closing_spec in Ec as (b & r' & -> & Hb & ->). rewrite skip_quoted, contains_In. split.
      * intros H. split; auto. left. exists b, r'. auto.
      * intros [_ [(b' & r2 & E & Hb' & H)|[H _]]]; [|now destruct (H (b ++ cDQ :: r'))]. injection E as E. apply quote_body_fun in E as [-> ->]; auto.
    + split; [discriminate|]. intros [_ [(b' & r2 & E & Hb' & H)|[H _]]]; [|now destruct (H r)].
      exfalso. rewrite (proj2 (closing_spec r (S (length b')))) in Ec; [discriminate|]. exists b', r2. injection E as E. auto.
  - pose proof (proj1 (starts_with_not _ _) E) as En. rewrite andb_true_iff, contains_In, key_value_spec. split.
    + intros [_ H]. auto.
    + intros [_ [(b & r & -> & _)|[_ H]]]; [now destruct (En (b ++ cDQ :: r))|]. split; auto. destruct H as (a & b & -> & _). rewrite in_app_iff. right. now left.
Qed.
Lemma opens_not t : async_is_key_value_line t = false <-> ~ opens_object t.
Proof. rewrite <- opens_spec. now rewrite not_true_iff_false. Qed.

(** What [process_key_value_line] does, by the entry of its line. *)
Definition after_entry (line : parsed_line) (r : option (list event * option err)) (s : adec) : result unit * adec :=
  match r with
  | None => (Ok tt, push_line line (set_state SArray s))
  | Some (evs, None) => (Ok tt, set_queue (ad_queue s ++ evs) s)
  | Some (evs, Some e) => (Err e, set_queue (ad_queue s ++ evs) s)
  end.
Lemma set_queue_id s : set_queue (ad_queue s) s = s.
Proof. now destruct s. Qed.

Lemma entry_line line s r : entry parse_f64 (pl_content line) r -> process_key_value_line line s = after_entry line r s.
Proof.
  intros H. unfold process_key_value_line. cbv zeta.
  assert (Hop : forall r', pl_content line = cDQ :: r' -> ~ hyphen (pl_content line)).
  { intros r' E (x & E'). rewrite E in E'. discriminate. }
  destruct H as [H|k q r Hh Hk Hb|e Hh He|r E Ho|k q r e Hh Hk Hb He|k q r p Hh Hk Hb Hp].
  - apply hyphen_spec in H. now rewrite H.
  - apply hyphen_not in Hh. rewrite Hh. apply key_complete in Hk as (n & -> & ->). apply blank_trim in Hb. now rewrite Hb.
  - apply hyphen_not in Hh. rewrite Hh. rewrite (proj2 (key_token_err _ _) (or_introl He)).
    cbn [after_entry]. now rewrite app_nil_r, set_queue_id.
  - pose proof (Hop _ E) as Hh. apply hyphen_not in Hh. rewrite Hh.
    erewrite (proj2 (key_token_err _ EUnterminatedKey)) by (right; exists r; auto).
    cbn [after_entry]. now rewrite app_nil_r, set_queue_id.
  - apply hyphen_not in Hh. rewrite Hh. apply key_complete in Hk as (n & -> & ->). rewrite blank_trim in Hb.
    destruct (is_empty (trim r)) eqn:Ee; [apply is_empty_true in Ee; contradiction|]. apply prim_err_trim in He. now rewrite He.
  - apply hyphen_not in Hh. rewrite Hh. apply key_complete in Hk as (n & -> & ->). rewrite blank_trim in Hb.
    destruct (is_empty (trim r)) eqn:Ee; [apply is_empty_true in Ee; contradiction|]. apply prim_trim in Hp. rewrite Hp.
    unfold push_event. unset. cbn [after_entry]. now rewrite <- app_assoc.
Qed.
Lemma entry_exists t : exists r, entry parse_f64 t r.
Proof.
  destruct (starts_with_str LIST_ITEM_PREFIX t) eqn:Eh; [apply hyphen_spec in Eh; eexists; now apply en_item|].
  apply hyphen_not in Eh. destruct (parse_key_token t 0) as [[[k n] q]|e] eqn:Ek.
  - apply key_sound in Ek. set (r := skipn n t) in *. clearbody r. destruct (blank_dec r) as [Hb|Hb]; [eexists; eapply en_open; eauto|].
    destruct (parse_primitive_token (trim r)) as [p|e] eqn:Ep.
    + apply prim_trim in Ep. eexists. eapply en_member; eauto.
    + apply prim_err_trim in Ep. eexists. eapply en_value; eauto.
  - apply key_token_err in Ek as [Ek|(r & E & Ho & ->)]; eexists; [eapply en_key; eauto|eapply en_quote; eauto].
Qed.

(** * Reading one line *)

Lemma read_blank raw s : blank raw -> exists st, ss_line st = S (ss_line (ad_scan s)) /\ read_line raw s = (Ok None, set_scan st s).
Proof.
  intros Hb. unfold read_line. destruct (line_blank raw (ad_scan s) (ad_indent s) (ad_strict s) Hb) as (i & d & ->). eexists. split; [|reflexivity]. reflexivity.
Qed.
Lemma read_seen raw s t : seen (ad_strict s) (ad_indent s) (S (ss_line (ad_scan s))) raw t ->
  exists line st, read_line raw s = (Ok (Some line), set_scan st s) /\ pl_content line = t /\ pl_raw line = raw /\ ss_line st = S (ss_line (ad_scan s)).
Proof.
  intros (d & H). inversion H as [| |n k t' d' raws ls bs Ht Hsp Hd Htab Hs]; subst.
  assert (X : parse_line_incremental (repeat cSPACE k ++ t) (ad_scan s) (ad_indent s) (ad_strict s) =
    Ok (Some (PLine (repeat cSPACE k ++ t) k t d (S (ss_line (ad_scan s)))), ScanState (S (ss_line (ad_scan s))) (ss_blanks (ad_scan s)))).
  { apply (line_ok _ _ _ _ k t); auto. split; [|reflexivity]. exists d. auto. }
  unfold read_line. rewrite X. eexists _, _. split; [reflexivity|]. auto.
Qed.
Lemma read_refused raw s e : refused (ad_strict s) (ad_indent s) (S (ss_line (ad_scan s))) raw e ->
  exists st, read_line raw s = (Err e, set_scan st s) /\ ss_line st = S (ss_line (ad_scan s)).
Proof.
  intros H. destruct (ad_scan s) as [n bl] eqn:Es. cbn [ss_line] in *. apply (indent_err _ [raw] n bl) in H. cbn [parse_lines_sync] in H.
  apply bind_err in H as [H|([p st] & _ & H)]; [|cbn [bind] in H; discriminate].
  unfold read_line. rewrite Es, H. eexists. split; reflexivity.
Qed.
Lemma line_sort strict size n raw : blank raw \/ (exists t, seen strict size (S n) raw t) \/ (exists e, refused strict size (S n) raw e).
Proof.
  destruct (blank_dec raw) as [Hb|Hb]; [now left|right]. destruct (parse_lines_sync [raw] size strict (ScanState n [])) as [[ls st]|e] eqn:E.
  - left. apply scans_sound in E as (bs & H & _). inversion H as [|? ? ? ? ? Hb' Hs|m k t' d' raws ls' bs' Ht Hsp Hd Htab Hs]; subst; [contradiction|].
    exists t'. exists d'. constructor; auto. constructor.
  - right. exists e. now apply indent_err in E.
Qed.

(** * Answers *)

Definition shows (s : adec) (a : list (result event)) (f : option err) : Prop := forall n, nth_poll n s = Some (answer a f n).

Lemma shows_ok s s' e a f : inv s -> process_next s = (Ok (Some e), s') -> shows s' a f -> shows s (Ok e :: a) f.
Proof.
  intros Hi H Hy n. assert (E : adec_poll s = Some (Some (Ok e), s')).
  { apply (adec_poll_eq 1); auto. cbn [poll_loop]. now rewrite H. }
  destruct n as [|n]; cbn [nth_poll]; rewrite E; auto. apply Hy.
Qed.
Lemma shows_err s s' e a f : inv s -> process_next s = (Err e, s') -> shows s' a f -> shows s (Err e :: a) f.
Proof.
  intros Hi H Hy n. assert (E : adec_poll s = Some (Some (Err e), s')).
  { apply (adec_poll_eq 1); auto. cbn [poll_loop]. now rewrite H. }
  destruct n as [|n]; cbn [nth_poll]; rewrite E; auto. apply Hy.
Qed.
Lemma shows_quiet s s' a f : inv s -> inv s' -> process_next s = (Ok None, s') -> ~ finished s' -> shows s' a f -> shows s a f.
Proof.
  intros Hi Hi' H Hf Hy. assert (E : adec_poll s = adec_poll s').
  { destruct (adec_poll_total s' Hi') as (b & s2 & E' & _). rewrite E'. unfold adec_poll in E'.
    eapply (adec_poll_eq (S _)); auto. cbn [poll_loop]. rewrite H. unfold finished in Hf.
    destruct (ad_state s'); try exact E'. congruence. }
  intros n. specialize (Hy n). destruct n; cbn [nth_poll] in *; now rewrite E.
Qed.
Lemma shows_finished s q : inv s -> finished s -> ad_queue s = q -> shows s (map Ok q) None.
Proof.
  intros Hi Hf <- n. rewrite finished_polls by auto. unfold answer. rewrite nth_error_map.
  now destruct (nth_error (ad_queue s) n).
Qed.
Lemma shows_stuck s e : stuck s e -> shows s [] (Some e).
Proof. intros H n. rewrite (stuck_polls _ _ _ H). unfold answer. now destruct n. Qed.
Lemma set_queue_twice q q' s : set_queue q (set_queue q' s) = set_queue q s.
Proof. now destruct s. Qed.
Lemma inv_queue q s : inv s -> inv (set_queue q s).
Proof. intros H Hx. now apply H. Qed.
Lemma shows_queue q : forall s a f, inv s -> ad_queue s = q -> shows (set_queue [] s) a f -> shows s (map Ok q ++ a) f.
Proof.
  induction q as [|e q IH]; intros s a f Hi Hq H.
  - rewrite <- Hq, set_queue_id in H. exact H.
  - cbn [map app]. eapply shows_ok; [exact Hi|exact (process_queue _ _ _ Hq)|]. apply IH; auto using inv_queue.
Qed.
(** A step that leaves the queue and answers its first element. *)
Lemma shows_pop s s' q a f : inv s -> inv s' -> process_next s = pop_queue s' -> ad_queue s' = q -> ~ finished s' ->
  shows (set_queue [] s') a f -> shows s (map Ok q ++ a) f.
Proof.
  intros Hi Hi' H Hq Hf Hy. unfold pop_queue in H. destruct q as [|e q]; rewrite Hq in H.
  - rewrite <- Hq, set_queue_id in Hy. eapply shows_quiet; eauto.
  - cbn [map app]. eapply shows_ok; eauto. apply shows_queue; auto using inv_queue.
Qed.

(** * The stream follows the specification *)

Section Follow.
Variable o : dstream_options.
Notation strict := (unwrap_or (dso_strict o) true).
Notation size := (unwrap_or (dso_indent o) 2).

Definition at_phase (ph : phase) (s : adec) : Prop :=
  match ph with
  | Before => ad_state s = SInitial /\ ad_stack s = [] /\ ad_buffer s = []
  | Within => ad_state s = SSimple 0 /\ ad_stack s = [0] /\ ad_buffer s = []
  | Keeping kept => ad_state s = SArray /\ map pl_raw (ad_buffer s) = kept
  end.
Definition follows (ph : phase) (n : nat) (raws : list str) (s : adec) : Prop :=
  at_phase ph s /\ n = S (ss_line (ad_scan s)) /\ ad_lines s = raws /\ ad_options s = o /\ ad_queue s = [] /\ ad_exhausted s = false.

Lemma follows_inv ph n raws s : follows ph n raws s -> inv s.
Proof. intros (_ & _ & _ & _ & _ & E) H. congruence. Qed.
Lemma follows_waiting ph n raws s : follows ph n raws s -> waiting s.
Proof.
  intros (P & _ & _ & _ & Q & E). split; auto. split; auto. unfold finished. destruct ph; cbn in P; destruct P as [-> _]; discriminate.
Qed.
Lemma follows_opts ph n raws s : follows ph n raws s -> ad_strict s = strict /\ ad_indent s = size.
Proof. intros (_ & _ & _ & E & _). unfold ad_strict, ad_indent. now rewrite E. Qed.
(** The state after a line has been read. *)
Definition past (st : scan_state) (raws : list str) (s : adec) : adec := set_scan st (set_lines raws s).
Lemma follows_past ph n raw raws s st : follows ph n (raw :: raws) s -> ss_line st = S (ss_line (ad_scan s)) -> follows ph (S n) raws (past st raws s).
Proof.
  intros (P & N & L & O & Q & E) Hst. unfold follows, past. unset. rewrite Hst, <- N. split; [destruct ph; exact P|]. auto 10.
Qed.

Lemma step_blank ph n raw raws s : follows ph n (raw :: raws) s -> blank raw ->
  exists s', process_next s = (Ok None, s') /\ follows ph (S n) raws s'.
Proof.
  intros F Hb. pose proof F as (P & N & L & O & Q & E).
  destruct (read_blank raw (set_lines raws s) Hb) as (st & Hst & Hr). exists (past st raws s). split; [|now apply (follows_past ph n raw)].
  rewrite (process_waiting _ _ _ (follows_waiting _ _ _ _ F) L), Hr. reflexivity.
Qed.
Lemma step_refused ph n raw raws s e : follows ph n (raw :: raws) s -> refused strict size n raw e ->
  exists s', process_next s = (Err e, s') /\ follows ph (S n) raws s'.
Proof.
  intros F H. pose proof F as (P & N & L & O & Q & E). destruct (follows_opts _ _ _ _ F) as [Es Ei].
  assert (H' : refused (ad_strict (set_lines raws s)) (ad_indent (set_lines raws s)) (S (ss_line (ad_scan (set_lines raws s)))) raw e).
  { change (ad_strict (set_lines raws s)) with (ad_strict s). change (ad_indent (set_lines raws s)) with (ad_indent s).
    cbn [set_lines ad_scan]. now rewrite Es, Ei, <- N. }
  destruct (read_refused _ _ _ H') as (st & Hr & Hst). exists (past st raws s). split; [|now apply (follows_past ph n raw)].
  rewrite (process_waiting _ _ _ (follows_waiting _ _ _ _ F) L), Hr. reflexivity.
Qed.
Lemma step_seen ph n raw raws s t : follows ph n (raw :: raws) s -> seen strict size n raw t ->
  exists line s', pl_content line = t /\ pl_raw line = raw /\ follows ph (S n) raws s' /\
  process_next s = match ph with
                   | Before => process_initial_line line s'
                   | Within => process_simple_object_line line 0 s'
                   | Keeping _ => (Ok None, push_line line s')
                   end.
Proof.
  intros F H. pose proof F as (P & N & L & O & Q & E). destruct (follows_opts _ _ _ _ F) as [Es Ei].
  assert (H' : seen (ad_strict (set_lines raws s)) (ad_indent (set_lines raws s)) (S (ss_line (ad_scan (set_lines raws s)))) raw t).
  { change (ad_strict (set_lines raws s)) with (ad_strict s). change (ad_indent (set_lines raws s)) with (ad_indent s).
    cbn [set_lines ad_scan]. now rewrite Es, Ei, <- N. }
  destruct (read_seen _ _ _ H') as (line & st & Hr & Ht & Hraw & Hst). exists line, (past st raws s).
  split; auto. split; auto. split; [now apply (follows_past ph n raw)|].
  rewrite (process_waiting _ _ _ (follows_waiting _ _ _ _ F) L), Hr. unset.
  destruct ph; cbn in P; destruct P as [-> _]; reflexivity.
Qed.

(** Within an object nothing is ever closed by a change of depth. *)
Lemma simple_line line s : ad_stack s = [0] -> ad_queue s = [] ->
  process_simple_object_line line 0 s =
  match is_header_line (pl_content line) with
  | Err e => (Err e, s)
  | Ok true => pop_queue (push_line line (set_state SArray s))
  | Ok false =>
      match process_key_value_line line s with
      | (Err e, s) => (Err e, s)
      | (Ok _, s) => pop_queue (set_last (Some (pl_depth line)) s)
      end
  end.
Proof.
  intros Hs Hq. unfold process_simple_object_line. rewrite Hs. cbn [close_contexts]. rewrite andb_false_r.
  set (s' := match ad_last s with Some _ => _ | None => s end).
  assert (E : s' = s).
  { unfold s'. destruct (ad_last s); auto. destruct (Nat.ltb _ _); auto. rewrite Hq. cbn [repeat app]. destruct s. cbn in *. now subst. }
  now rewrite E.
Qed.

Lemma kept_spec raws : 
  decode_stream_sync raws (Some o) = decode_stream_sync raws (Some (DStreamOpts (Some size) (Some strict))).
Proof. reflexivity. Qed.
Lemma events_not_nil v : tree_events v <> [].
Proof. destruct (events_start v) as (e & r & -> & _). discriminate. Qed.

Lemma stream_follows ph n raws a f : answers parse_f64 strict size ph n raws a f -> forall s, follows ph n raws s -> shows s a f.
Proof.
  induction 1 as [ph n raw raws a f Hb _ IH|ph n raw raws e a f Hr _ IH|n|n raw t raws a f Hs Ha _ IH|n raw t raws e a f Hs He _ IH
    |n raw t raws evs fault a f Hs Hn Ho He _ IH|n raw t raws a f Hs Hn Ho He _ IH|n raw t raws p Hs Hn Ho Hp|n raw t raws e Hs Hn Ho Hp
    |n|n raw t raws a f Hs Ha _ IH|n raw t raws e a f Hs He _ IH|n raw t raws evs fault a f Hs Hn He _ IH|n raw t raws a f Hs Hn He _ IH
    |kept n raw t raws a f Hs _ IH|kept n ls bs v Hs Hv|kept n e He]; intros s F; pose proof (follows_inv _ _ _ _ F) as Hi.
  - destruct (step_blank _ _ _ _ _ F Hb) as (s' & E & F'). destruct (follows_waiting _ _ _ _ F') as (_ & _ & W).
    exact (shows_quiet _ _ _ _ Hi (follows_inv _ _ _ _ F') E W (IH _ F')).
  - destruct (step_refused _ _ _ _ _ _ F Hr) as (s' & E & F'). eapply shows_err; eauto.
  - pose proof F as ((P1 & P2 & P3) & N & L & O & Q & E).
    eapply (shows_ok _ (set_queue [EvEndObject] (set_state SFinished (set_stack [] (set_queue [] (set_exhausted s)))))); [exact Hi| |].
    + rewrite (process_waiting_end _ (follows_waiting _ _ _ _ F) L). unfold finalize. unset. rewrite P1, P2, P3. cbn [is_empty negb orb length repeat app].
      unfold pop_queue, push_event. unset. rewrite Q. reflexivity.
    + apply (shows_finished _ [EvEndObject]); [|reflexivity|reflexivity]. intros _. exact L.
  - destruct (step_seen _ _ _ _ _ _ F Hs) as (line & s' & Ht & Hraw & F' & E). pose proof F' as ((P1 & P2 & P3) & N & L & O & Q & X).
    unfold process_initial_line in E. rewrite Ht, (proj2 (proj1 (header_line_spec t)) Ha) in E.
    assert (F2 : follows (Keeping [raw]) (S n) raws (push_line line (set_state SArray s'))).
    { unfold follows, at_phase. unset. rewrite P3. cbn. rewrite Hraw. auto 10. }
    apply (shows_quiet _ _ _ _ Hi (follows_inv _ _ _ _ F2) E); auto. discriminate.
  - destruct (step_seen _ _ _ _ _ _ F Hs) as (line & s' & Ht & Hraw & F' & E).
    unfold process_initial_line in E. rewrite Ht, (proj2 (proj2 (proj2 (header_line_spec t)) e) He) in E. eapply shows_err; eauto.
  - destruct (step_seen _ _ _ _ _ _ F Hs) as (line & s' & Ht & Hraw & F' & E). pose proof F' as ((P1 & P2 & P3) & N & L & O & Q & X).
    unfold process_initial_line in E. rewrite Ht, (proj2 (proj1 (proj2 (header_line_spec t))) Hn), (proj2 (opens_spec t) Ho) in E.
    rewrite <- Ht in He. rewrite (entry_line _ _ _ He) in E. cbn [after_entry] in E. unfold push_event in E. unset. rewrite Q, P2 in E. cbn [app] in E.
    destruct fault as [e|]; unfold gives.
    + cbn [app]. eapply shows_err; [exact Hi|exact E|]. apply (shows_queue (EvStartObject :: evs)); [intros Hx; unset; congruence|reflexivity|]. rewrite set_queue_twice.
      apply IH. unfold follows, at_phase. unset. repeat split; auto.
    + cbn [app]. eapply (shows_pop _ _ (EvStartObject :: evs)); [exact Hi| |exact E|reflexivity|discriminate|]; [intros Hx; unset; congruence|].
      apply IH. unfold follows, at_phase. unset. repeat split; auto.
  - destruct (step_seen _ _ _ _ _ _ F Hs) as (line & s' & Ht & Hraw & F' & E). pose proof F' as ((P1 & P2 & P3) & N & L & O & Q & X).
    unfold process_initial_line in E. rewrite Ht, (proj2 (proj1 (proj2 (header_line_spec t))) Hn), (proj2 (opens_spec t) Ho) in E.
    rewrite <- Ht in He. rewrite (entry_line _ _ _ He) in E. cbn [after_entry] in E. unfold push_event in E. unset. rewrite Q in E. cbn [app] in E.
    apply (shows_pop _ _ [EvStartObject] a f Hi) in E; auto; [intros Hx; unset; congruence|discriminate|].
    apply IH. unfold follows, at_phase. unset. rewrite P3. cbn. rewrite Hraw. repeat split; auto.
  - destruct (step_seen _ _ _ _ _ _ F Hs) as (line & s' & Ht & Hraw & F' & E). pose proof F' as ((P1 & P2 & P3) & N & L & O & Q & X).
    unfold process_initial_line in E. rewrite Ht, (proj2 (proj1 (proj2 (header_line_spec t))) Hn), (proj2 (opens_not t) Ho) in E.
    apply prim_trim in Hp. rewrite Hp in E. eapply shows_ok; [exact Hi|exact E|]. apply (shows_finished _ []); [|reflexivity|exact Q].
    intros Hx. unset. congruence.
  - destruct (step_seen _ _ _ _ _ _ F Hs) as (line & s' & Ht & Hraw & F' & E). pose proof F' as ((P1 & P2 & P3) & N & L & O & Q & X).
    unfold process_initial_line in E. rewrite Ht, (proj2 (proj1 (proj2 (header_line_spec t))) Hn), (proj2 (opens_not t) Ho) in E.
    apply prim_err_trim in Hp. rewrite Hp in E. eapply shows_err; [exact Hi|exact E|]. apply (shows_finished _ []); [|reflexivity|exact Q].
    intros Hx. unset. congruence.
  - pose proof F as ((P1 & P2 & P3) & N & L & O & Q & E).
    eapply (shows_ok _ (set_queue [] (set_state SFinished (set_stack [] (set_queue [] (set_exhausted s)))))); [exact Hi| |].
    + rewrite (process_waiting_end _ (follows_waiting _ _ _ _ F) L). unfold finalize. unset. rewrite P1, P2, P3. cbn [is_empty negb orb length repeat app].
      unfold pop_queue. unset. rewrite Q. reflexivity.
    + apply (shows_finished _ []); [|reflexivity|reflexivity]. intros _. exact L.
  - destruct (step_seen _ _ _ _ _ _ F Hs) as (line & s' & Ht & Hraw & F' & E). pose proof F' as ((P1 & P2 & P3) & N & L & O & Q & X).
    rewrite simple_line in E by auto. rewrite Ht, (proj2 (proj1 (header_line_spec t)) Ha) in E.
    apply (shows_pop _ _ [] a f Hi) in E; auto; [intros Hx; unset; congruence|discriminate|].
    apply IH. unfold follows, at_phase. unset. rewrite P3. cbn. rewrite Hraw. auto 10.
  - destruct (step_seen _ _ _ _ _ _ F Hs) as (line & s' & Ht & Hraw & F' & E). pose proof F' as ((P1 & P2 & P3) & N & L & O & Q & X).
    rewrite simple_line in E by auto. rewrite Ht, (proj2 (proj2 (proj2 (header_line_spec t)) e) He) in E. eapply shows_err; eauto.
  - destruct (step_seen _ _ _ _ _ _ F Hs) as (line & s' & Ht & Hraw & F' & E). pose proof F' as ((P1 & P2 & P3) & N & L & O & Q & X).
    rewrite simple_line in E by auto. rewrite Ht, (proj2 (proj1 (proj2 (header_line_spec t))) Hn) in E.
    rewrite <- Ht in He. rewrite (entry_line _ _ _ He) in E. cbn [after_entry] in E. rewrite Q in E. cbn [app] in E.
    destruct fault as [e|]; unfold gives; cbn [app].
    + eapply shows_err; [exact Hi|exact E|]. apply (shows_queue evs); [intros Hx; unset; congruence|reflexivity|]. rewrite set_queue_twice.
      apply IH. unfold follows, at_phase. unset. repeat split; auto.
    + eapply (shows_pop _ _ evs); [exact Hi| |exact E|reflexivity|unfold finished; unset; congruence|]; [intros Hx; unset; congruence|].
      apply IH. unfold follows, at_phase. unset. repeat split; auto.
  - destruct (step_seen _ _ _ _ _ _ F Hs) as (line & s' & Ht & Hraw & F' & E). pose proof F' as ((P1 & P2 & P3) & N & L & O & Q & X).
    rewrite simple_line in E by auto. rewrite Ht, (proj2 (proj1 (proj2 (header_line_spec t))) Hn) in E.
    rewrite <- Ht in He. rewrite (entry_line _ _ _ He) in E. cbn [after_entry] in E.
    apply (shows_pop _ _ [] a f Hi) in E; auto; [intros Hx; unset; congruence|discriminate|].
    apply IH. unfold follows, at_phase. unset. rewrite P3. cbn. rewrite Hraw. auto 10.
  - destruct (step_seen _ _ _ _ _ _ F Hs) as (line & s' & Ht & Hraw & F' & E). pose proof F' as ((P1 & P2) & N & L & O & Q & X).
    assert (F2 : follows (Keeping (kept ++ [raw])) (S n) raws (push_line line s')).
    { unfold follows, at_phase. unset. rewrite map_app, P2. cbn [map]. rewrite Hraw. auto 10. }
    apply (shows_quiet _ _ _ _ Hi (follows_inv _ _ _ _ F2) E); auto. unfold finished. unset. rewrite P1. discriminate.
  - pose proof F as ((P1 & P2) & N & L & O & Q & E).
    assert (D : decode_stream_sync kept (Some o) = Ok (tree_events v)) by (rewrite kept_spec; apply stream_spec; eauto 7).
    pose proof (events_not_nil v) as Hne. destruct (tree_events v) as [|e evs]; [contradiction|]. cbn [map].
    eapply (shows_ok _ (set_queue evs (set_state SFinished (set_stack [] (set_buffer [] (set_queue (e :: evs) (set_exhausted s))))))); [exact Hi| |].
    + rewrite (process_waiting_end _ (follows_waiting _ _ _ _ F) L). unfold finalize. unset. rewrite P1, orb_true_r.
      unfold batch_decode_remaining. unset. rewrite L. cbn [scan_rest]. unset. rewrite P2, O, D, Q. cbn [app]. unfold pop_queue. unset. unfold set_queue, set_state, set_stack, set_buffer, set_exhausted. unset. now rewrite L, O.
    + apply (shows_finished _ evs); [|reflexivity|reflexivity]. intros _. exact L.
  - pose proof F as ((P1 & P2) & N & L & O & Q & E).
    assert (D : decode_stream_sync kept (Some o) = Err e) by (rewrite kept_spec; now apply stream_err).
    assert (Fin : finalize (set_exhausted s) = (Err e, set_exhausted s)).
    { unfold finalize. unset. rewrite P1, orb_true_r. unfold batch_decode_remaining. unset. rewrite L. cbn [scan_rest]. unset.
      rewrite P2, O, D. now rewrite set_lines_nil. }
    assert (St : stuck (set_exhausted s) e).
    { unfold stuck, finished. unset. rewrite P1. repeat split; auto. discriminate. }
    assert (X : adec_poll s = Some (Some (Err e), set_exhausted s)).
    { apply (adec_poll_eq 1 _ _ Hi). cbn [poll_loop]. now rewrite (process_waiting_end _ (follows_waiting _ _ _ _ F) L), Fin. }
    intros [|k]; cbn [nth_poll]; rewrite X; [reflexivity|].
    rewrite (stuck_polls _ _ _ St). unfold answer. now destruct k.
Qed.

(** Every sequence of lines has answers. *)
Lemma answers_exist raws : forall ph n, exists a f, answers parse_f64 strict size ph (S n) raws a f.
Proof.
  induction raws as [|raw raws IH]; intros ph n.
  - destruct ph as [| |kept]; [eexists _, _; apply an_nothing|eexists _, _; apply an_end|].
    destruct (decode_stream_sync kept (Some (DStreamOpts (Some size) (Some strict)))) as [evs|e] eqn:D.
    + apply stream_spec in D as (ls & bs & v & Hs & Hv & _). eexists _, _. eapply an_kept; eauto.
    + apply stream_err in D. eexists _, _. eapply an_kept_fails; eauto.
  - destruct (line_sort strict size n raw) as [Hb|[(t & Ht)|(e & He)]].
    + destruct (IH ph (S n)) as (a & f & H). eexists _, _. eapply an_blank; eauto.
    + destruct ph as [| |kept].
      * destruct (is_header_line t) as [[|]|e] eqn:Eh; apply header_line_spec in Eh.
        -- destruct (IH (Keeping [raw]) (S n)) as (a & f & H). eexists _, _. eapply an_array; eauto.
        -- destruct (async_is_key_value_line t) eqn:Ea.
           ++ apply opens_spec in Ea. destruct (entry_exists t) as ([[evs fault]|] & He).
              ** destruct (IH Within (S n)) as (a & f & H). eexists _, _. eapply an_first; eauto.
              ** destruct (IH (Keeping [raw]) (S n)) as (a & f & H). eexists _, _. eapply an_first_open; eauto.
           ++ apply opens_not in Ea. destruct (parse_primitive_token t) as [p|e] eqn:Ep.
              ** apply prim_spec in Ep. eexists _, _. eapply an_prim; eauto.
              ** apply prim_err in Ep. eexists _, _. eapply an_bad; eauto.
        -- destruct (IH Before (S n)) as (a & f & H). eexists _, _. eapply an_header; eauto.
      * destruct (is_header_line t) as [[|]|e] eqn:Eh; apply header_line_spec in Eh.
        -- destruct (IH (Keeping [raw]) (S n)) as (a & f & H). eexists _, _. eapply an_later_array; eauto.
        -- destruct (entry_exists t) as ([[evs fault]|] & He).
           ++ destruct (IH Within (S n)) as (a & f & H). eexists _, _. eapply an_later; eauto.
           ++ destruct (IH (Keeping [raw]) (S n)) as (a & f & H). eexists _, _. eapply an_later_open; eauto.
        -- destruct (IH Within (S n)) as (a & f & H). eexists _, _. eapply an_later_header; eauto.
      * destruct (IH (Keeping (kept ++ [raw])) (S n)) as (a & f & H). eexists _, _. eapply an_keep; eauto.
    + destruct (IH ph (S n)) as (a & f & H). eexists _, _. eapply an_refused; eauto.
Qed.

Lemma new_follows lines : follows Before 1 lines (adec_new lines (Some o)).
Proof. unfold follows, adec_new. cbn. auto 10. Qed.

End Follow.
