(** Proofs about the asynchronous decoder stream. *)
From Verif Require Import Chars Floats Json Shared Scanner Parser DecValidation Decoders EventBuilder Expand DecodeApi
  AsyncDecode Lex Spec DecRel DecProps DecRelax.

Local Open Scope nat_scope.

(** ** Polling always answers *)

Definition finished (s : adec) : Prop := ad_state s = SFinished.
Definition inv (s : adec) : Prop := ad_exhausted s = true -> ad_lines s = [].
(** A decode that failed at the end of the lines and will fail again. *)
Definition stuck (s : adec) (e : err) : Prop :=
  ad_queue s = [] /\ ~ finished s /\ ad_exhausted s = true /\ ad_lines s = [] /\ finalize s = (Err e, s).
Definition mu (s : adec) : nat := 4 * length (ad_lines s) + length (ad_queue s) + length (ad_stack s).

Ltac unset := cbn [set_lines set_scan set_queue set_state set_stack set_buffer set_exhausted set_last push_event push_line
  ad_lines ad_options ad_scan ad_queue ad_state ad_stack ad_buffer ad_exhausted ad_last] in *.

Lemma pop_queue_cases s r s' : pop_queue s = (r, s') ->
  (ad_queue s = [] /\ r = Ok None /\ s' = s) \/ (exists e q, ad_queue s = e :: q /\ r = Ok (Some e) /\ s' = set_queue q s).
Proof. unfold pop_queue. destruct (ad_queue s) as [|e q] eqn:E; intros H; injection H as <- <-; eauto 10. Qed.

Lemma read_line_keeps raw s r s' : read_line raw s = (r, s') ->
  ad_lines s' = ad_lines s /\ ad_queue s' = ad_queue s /\ ad_stack s' = ad_stack s /\ ad_state s' = ad_state s /\
  ad_buffer s' = ad_buffer s /\ ad_exhausted s' = ad_exhausted s /\ ad_options s' = ad_options s /\ ad_last s' = ad_last s.
Proof.
  unfold read_line. destruct (parse_line_incremental _ _ _ _) as [[p st]|e]; intros H; injection H as <- <-; unset; tauto.
Qed.

Lemma set_lines_id s : set_lines (ad_lines s) s = s.
Proof. now destruct s. Qed.

Lemma set_lines_nil s : ad_lines s = [] -> set_lines [] s = s.
Proof. intros <-. apply set_lines_id. Qed.

Lemma finalize_cases s r s' : ad_lines s = [] -> ad_queue s = [] -> ad_exhausted s = true -> ~ finished s ->
  finalize s = (r, s') -> (finished s' /\ ad_lines s' = [] /\ (r = Ok None -> ad_queue s' = []) /\ (forall e, r <> Err e)) \/
    (exists e, r = Err e /\ s' = s /\ stuck s e).
Proof.
  intros Hl Hq He Hf. unfold finalize. destruct (negb (is_empty (ad_buffer s)) || _) eqn:Eb.
  - unfold batch_decode_remaining. rewrite Hl. cbn [scan_rest]. rewrite (set_lines_nil s Hl).
    destruct (decode_stream_sync _ _) as [evs|e] eqn:Ed; intros H.
    + left. apply pop_queue_cases in H as [(Hq' & -> & ->)|(e & q & Hq' & -> & ->)]; unset; unfold finished; unset; (split; [auto|split; [auto|split; [auto; discriminate|discriminate]]]).
    + right. injection H as <- <-. exists e. split; auto. split; auto. unfold stuck. repeat split; auto.
      unfold finalize. rewrite Eb. unfold batch_decode_remaining. rewrite Hl. cbn [scan_rest].
      rewrite (set_lines_nil s Hl). now rewrite Ed.
  - intros H. left. cbv zeta in H. unset. destruct (ad_state s) eqn:Es;
      apply pop_queue_cases in H as [(Hq' & -> & ->)|(e & q & Hq' & -> & ->)]; unset; unfold finished; unset; (split; [auto|split; [auto|split; [auto; discriminate|discriminate]]]).
Qed.

Lemma close_contexts_length stack : forall cur base, fst (close_contexts stack cur base) + length (snd (close_contexts stack cur base)) = length stack.
Proof.
  induction stack as [|d r IH]; intros cur base; cbn [close_contexts]; auto.
  destruct (_ && _); [|reflexivity]. specialize (IH cur base). destruct (close_contexts r cur base). cbn in *. lia.
Qed.

Lemma kv_line_keeps line s r s' : process_key_value_line line s = (r, s') ->
  ad_lines s' = ad_lines s /\ ad_stack s' = ad_stack s /\ ad_exhausted s' = ad_exhausted s /\
  length (ad_queue s') <= length (ad_queue s) + match r with Ok _ => 2 | Err _ => 1 end.
Proof.
  unfold process_key_value_line. cbv zeta. destruct (starts_with_str _ _).
  { intros H; injection H as <- <-; unset; repeat split; auto; lia. }
  destruct (parse_key_token _ _) as [[[key e] q]|e]; [|intros H; injection H as <- <-; unset; repeat split; auto; lia].
  destruct (is_empty _). { intros H; injection H as <- <-; unset; repeat split; auto; lia. }
  destruct (parse_primitive_token _); intros H; injection H as <- <-; unset; rewrite ?app_length; cbn [length]; repeat split; auto; lia.
Qed.

(** One round of the loop. *)
Lemma process_step s r s' : inv s -> ad_queue s = [] -> ~ finished s -> process_next s = (r, s') ->
  inv s' /\
  ((finished s' /\ (r = Ok None -> ad_queue s' = [])) \/
   (length (ad_lines s') < length (ad_lines s) /\ mu s' < mu s) \/
   exists e, r = Err e /\ stuck s' e).
Proof.
  intros Hi Hq Hf. unfold process_next. rewrite Hq.
  set (body := if ad_exhausted s then _ else _).
  assert (Hb : match ad_state s with SFinished => (Ok None, s) | _ => body end = body).
  { destruct (ad_state s) eqn:E; auto. now destruct Hf. }
  rewrite Hb. clear Hb. unfold body. destruct (ad_exhausted s) eqn:Ee.
  { intros H. apply finalize_cases in H; auto.
    destruct H as [(H1 & H2 & H3 & _)|(e & -> & -> & H)].
    - split; [intros _; auto|left; auto].
    - split; [auto|right; right; eauto]. }
  destruct (ad_lines s) as [|raw rest] eqn:El.
  { intros H. apply finalize_cases in H; auto.
    destruct H as [(H1 & H2 & H3 & _)|(e & -> & -> & H)].
    - split; [intros _; auto|left; auto].
    - split; [intros _; auto|right; right; eauto]. }
  destruct (read_line raw (set_lines rest s)) as [p s1] eqn:Er.
  pose proof (read_line_keeps _ _ _ _ Er) as (K1 & K2 & K3 & K4 & K5 & K6 & K7 & K8). unset.
  assert (M : 4 * length (ad_lines s1) + length (ad_queue s1) + length (ad_stack s1) + 4 = mu s).
  { unfold mu. rewrite K1, K2, K3, Hq, El. cbn [length]. lia. }
  assert (N : length (ad_lines s1) = length rest) by now rewrite K1.
  assert (E1 : ad_exhausted s1 = false) by congruence.
  assert (Q1 : ad_queue s1 = []) by congruence.
  unfold mu in *. clear body. destruct p as [[line|]|e].
  2: { intros H; injection H as <- <-. split; [intros Hx; congruence|]. right; left. cbn [length]. rewrite Q1 in *. cbn [length] in *. lia. }
  2: { intros H; injection H as <- <-. split; [intros Hx; congruence|]. right; left. cbn [length]. rewrite Q1 in *. cbn [length] in *. lia. }
  assert (Hpop : forall t r s', ad_exhausted t = false -> ad_lines t = ad_lines s1 ->
            length (ad_queue t) + length (ad_stack t) <= length (ad_queue s1) + length (ad_stack s1) + 4 -> ad_queue t <> [] \/
            length (ad_queue t) + length (ad_stack t) <= length (ad_queue s1) + length (ad_stack s1) + 3 ->
            pop_queue t = (r, s') ->
            inv s' /\ (length (ad_lines s') < S (length rest) /\
              4 * length (ad_lines s') + length (ad_queue s') + length (ad_stack s') < 4 * length (ad_lines s) + length (ad_queue s) + length (ad_stack s))).
  { intros t r0 s0 Ht1 Ht2 Ht3 Ht4 Hp. apply pop_queue_cases in Hp as [(Hq' & -> & ->)|(e & q & Hq' & -> & ->)]; unset.
    - split; [intros Hx; congruence|]. rewrite Ht2. destruct Ht4 as [Ht4|Ht4]; [congruence|]. lia.
    - split; [intros Hx; unset; congruence|]. rewrite Ht2. rewrite Hq' in *. cbn [length] in *. lia. }
  destruct (ad_state s1) eqn:Es.
  - unfold process_initial_line. destruct (is_header_line (pl_content line)) as [[]|e].
    + intros H; injection H as <- <-. unset. split; [intros Hx; unset; congruence|]. right; left. cbn [length]. lia.
    + destruct (async_is_key_value_line _).
      * match goal with |- context [process_key_value_line line ?x] => set (t := x) end.
        destruct (process_key_value_line line t) as [[u|e] s2] eqn:Ek; apply kv_line_keeps in Ek as (J1 & J2 & J3 & J4);
          unfold t in *; unset; rewrite Q1 in *; cbn [length app] in *.
        -- intros H. apply Hpop in H; unset; rewrite ?J2; cbn [length]; try congruence; try lia.
           ++ destruct H as [H1 H2]. split; auto.
           ++ destruct (ad_queue s2) eqn:Eq; [right|left; discriminate]. cbn [length]. lia.
        -- intros H; injection H as <- <-. split; [intros Hx; congruence|]. right; left. rewrite J1, J2. cbn [length]. lia.
      * destruct (parse_primitive_token _); intros H; injection H as <- <-; unfold finished; unset;
          (split; [intros Hx; unset; congruence|]); left; split; auto; discriminate.
    + intros H; injection H as <- <-. split; [intros Hx; congruence|]. right; left. cbn [length]. lia.
  - unfold process_simple_object_line.
    match goal with |- context [process_key_value_line line ?x] => set (t := x) end.
    assert (T : ad_lines t = ad_lines s1 /\ ad_exhausted t = false /\
                length (ad_queue t) + length (ad_stack t) = length (ad_queue s1) + length (ad_stack s1)).
    { unfold t. destruct (ad_last s1) as [last|]; [|auto]. destruct (Nat.ltb (pl_depth line) last); [|auto].
      pose proof (close_contexts_length (ad_stack s1) (pl_depth line) base_depth) as Hc.
      destruct (close_contexts (ad_stack s1) (pl_depth line) base_depth) as [n st]. cbn [fst snd] in Hc. unset.
      rewrite app_length, repeat_length. repeat split; auto. lia. }
    destruct T as (T1 & T2 & T3). clearbody t.
    destruct (is_header_line (pl_content line)) as [[]|e].
    + intros H. apply Hpop in H; unset; auto; try lia. destruct H as [H1 H2]. split; auto.
    + destruct (process_key_value_line line t) as [[u|e] s2] eqn:Ek; apply kv_line_keeps in Ek as (J1 & J2 & J3 & J4).
      * intros H. apply Hpop in H; unset; rewrite ?J2; try congruence; try lia. destruct H as [H1 H2]. split; auto.
      * intros H; injection H as <- <-. split; [intros Hx; congruence|]. right; left. rewrite J1, J2, T1. cbn [length]. lia.
    + intros H; injection H as <- <-. split; [intros Hx; congruence|]. right; left. rewrite T1. cbn [length]. lia.
  - intros H; injection H as <- <-. unset. split; [intros Hx; unset; congruence|]. right; left. cbn [length]. lia.
  - exfalso. apply Hf. unfold finished. congruence.
Qed.

Lemma process_queue s e q : ad_queue s = e :: q -> process_next s = (Ok (Some e), set_queue q s).
Proof. unfold process_next. now intros ->. Qed.
Lemma process_finished s : finished s -> ad_queue s = [] -> process_next s = (Ok None, s).
Proof. unfold process_next, finished. now intros -> ->. Qed.

Lemma finished_dec s : finished s \/ ~ finished s.
Proof. unfold finished. destruct (ad_state s); (left; reflexivity) || (right; discriminate). Qed.

Definition outcome (s : adec) (a : option (result event)) (s' : adec) : Prop :=
  inv s' /\
  ((finished s /\ finished s' /\ a = option_map Ok (hd_error (ad_queue s)) /\ ad_queue s' = tl (ad_queue s)) \/
   (~ finished s /\ (finished s' \/ mu s' < mu s \/ exists e, a = Some (Err e) /\ stuck s' e))).

Lemma poll_total fuel : forall s, inv s -> length (ad_lines s) < fuel ->
  exists a s', poll_loop fuel s = Some (a, s') /\ outcome s a s'.
Proof.
  induction fuel as [|fuel IH]; intros s Hi Hl; [lia|]. cbn [poll_loop]. destruct (ad_queue s) as [|e q] eqn:Eq.
  - destruct (finished_dec s) as [Hf|Hf].
    + rewrite process_finished by auto. rewrite Hf, Eq. eexists _, _. split; [reflexivity|]. split; auto. left. rewrite Eq. auto.
    + destruct (process_next s) as [r s'] eqn:Ep. destruct (process_step _ _ _ Hi Eq Hf Ep) as [Hi' H].
      destruct r as [[e|]|e].
      * eexists _, _. split; [reflexivity|]. split; auto. right. split; auto. destruct H as [[H _]|[[_ H]|(e' & H & _)]]; auto. discriminate.
      * destruct H as [[H H']|[[H H']|(e' & H & _)]]; [| |discriminate].
        -- rewrite H, (H' eq_refl). eexists _, _. split; [reflexivity|]. split; auto.
        -- destruct (finished_dec s') as [Hf'|Hf'].
           ++ rewrite Hf'. destruct (ad_queue s') as [|e q] eqn:Eq'.
              ** eexists _, _. split; [reflexivity|]. split; auto.
              ** destruct (IH s' Hi') as (a & s2 & -> & Ho); [lia|]. eexists _, _. split; [reflexivity|].
                 destruct Ho as [Ho1 [(O1 & O2 & O3 & O4)|(O1 & _)]]; [|contradiction]. split; auto.
           ++ replace (match ad_state s' with SFinished => match ad_queue s' with [] => Some (None, s') | _ :: _ => poll_loop fuel s' end
                       | _ => poll_loop fuel s' end) with (poll_loop fuel s').
              2: { unfold finished in Hf'. destruct (ad_state s'); congruence. }
              destruct (IH s' Hi') as (a & s2 & -> & Ho); [lia|]. eexists _, _. split; [reflexivity|].
              destruct Ho as [Ho1 [(O1 & O2 & O3 & O4)|(O1 & O2)]]; [contradiction|]. split; auto. right. split; auto.
              destruct O2 as [O2|[O2|O2]]; auto. right; left. lia.
      * eexists _, _. split; [reflexivity|]. split; auto. right. split; auto.
        destruct H as [[H _]|[[_ H]|(e' & H & H')]]; auto. right; right. injection H as <-. eauto.
  - rewrite (process_queue _ _ _ Eq). eexists _, _. split; [reflexivity|]. split; [intros Hx; apply Hi in Hx; unset; auto|].
    destruct (finished_dec s) as [Hf|Hf].
    + left. rewrite Eq. repeat split; auto.
    + right. split; auto. right; left. unfold mu. unset. rewrite Eq. cbn [length]. lia.
Qed.

Lemma poll_mono n : forall m s r, n <= m -> poll_loop n s = Some r -> poll_loop m s = Some r.
Proof.
  induction n as [|n IH]; intros m s r Hm; cbn [poll_loop]; [discriminate|]. destruct m as [|m]; [lia|]. cbn [poll_loop].
  destruct (process_next s) as [[[e|]|e] s']; auto. destruct (ad_state s'); eauto using le_S_n. destruct (ad_queue s'); eauto using le_S_n.
Qed.
Lemma adec_poll_total s : inv s -> exists a s', adec_poll s = Some (a, s') /\ outcome s a s'.
Proof. intros Hi. apply poll_total; auto. lia. Qed.
Lemma adec_poll_eq n s r : inv s -> poll_loop n s = Some r -> adec_poll s = Some r.
Proof.
  intros Hi H. destruct (adec_poll_total s Hi) as (a & s' & E & _). rewrite E. unfold adec_poll in E.
  apply (poll_mono _ (n + (length (ad_lines s) + 2))) in E; [|lia].
  apply (poll_mono _ (n + (length (ad_lines s) + 2))) in H; [|lia]. congruence.
Qed.
Lemma new_inv lines o : inv (adec_new lines o).
Proof. intros H. discriminate. Qed.

(** ** Where polling ends *)

Lemma finished_polls n : forall s, inv s -> finished s -> nth_poll n s = Some (option_map Ok (nth_error (ad_queue s) n)).
Proof.
  induction n as [|n IH]; intros s Hi Hf; cbn [nth_poll]; destruct (adec_poll_total s Hi) as (a & s' & -> & Hi' & [(_ & H1 & -> & H2)|(H & _)]);
    try contradiction.
  - now destruct (ad_queue s).
  - rewrite IH, H2 by auto. destruct (ad_queue s); cbn; auto. now destruct n.
Qed.
Lemma stuck_polls n : forall s e, stuck s e -> nth_poll n s = Some (Some (Err e)).
Proof.
  induction n as [|n IH]; intros s e (H1 & H2 & H3 & H4 & H5); cbn [nth_poll]; unfold adec_poll; rewrite H4; cbn [length plus poll_loop];
    unfold process_next; rewrite H1, H3, H5; destruct (ad_state s) eqn:E; try (now destruct H2); auto;
    apply IH; unfold stuck, finished; rewrite E; repeat split; auto; discriminate.
Qed.
Lemma polls_end m : forall s, inv s -> mu s < m ->
  exists n0, (forall n, n0 <= n -> nth_poll n s = Some None) \/ (exists e, forall n, n0 <= n -> nth_poll n s = Some (Some (Err e))).
Proof.
  induction m as [|m IH]; intros s Hi Hm; [lia|]. destruct (finished_dec s) as [Hf|Hf].
  - exists (length (ad_queue s)). left. intros n Hn. rewrite finished_polls by auto. rewrite (proj2 (nth_error_None _ _)) by auto. reflexivity.
  - destruct (adec_poll_total s Hi) as (a & s' & E & Hi' & [(H & _)|(_ & H)]); [contradiction|].
    assert (Hn : exists n0, (forall n, n0 <= n -> nth_poll n s' = Some None) \/ (exists e, forall n, n0 <= n -> nth_poll n s' = Some (Some (Err e)))).
    { destruct H as [H|[H|(e & _ & H)]].
      - exists (length (ad_queue s')). left. intros n Hn. rewrite finished_polls by auto.
        rewrite (proj2 (nth_error_None _ _)) by auto. reflexivity.
      - apply IH; auto. lia.
      - exists 0. right. exists e. intros n _. now apply stuck_polls. }
    destruct Hn as [n0 Hn]. exists (S n0). destruct Hn as [Hn|(e & Hn)]; [left|right; exists e]; intros [|n] Hle; try lia;
      cbn [nth_poll]; rewrite E; apply Hn; lia.
Qed.

(** ** Agreement with the synchronous decoder *)

Definition yields (s : adec) (evs : list event) : Prop := forall n, nth_poll n s = Some (option_map Ok (nth_error evs n)).

Lemma yields_finished s : inv s -> finished s -> yields s (ad_queue s).
Proof. intros Hi Hf n. now apply finished_polls. Qed.
Lemma yields_cons s s' e evs : inv s -> process_next s = (Ok (Some e), s') -> yields s' evs -> yields s (e :: evs).
Proof.
  intros Hi H Hy n. assert (E : adec_poll s = Some (Some (Ok e), s')).
  { apply (adec_poll_eq 1); auto. cbn [poll_loop]. now rewrite H. }
  destruct n as [|n]; cbn [nth_poll]; rewrite E; auto. apply Hy.
Qed.
Lemma yields_quiet s s' evs : inv s -> inv s' -> process_next s = (Ok None, s') -> ~ finished s' -> yields s' evs -> yields s evs.
Proof.
  intros Hi Hi' H Hf Hy. assert (E : adec_poll s = adec_poll s').
  { destruct (adec_poll_total s' Hi') as (a & s2 & E' & _). rewrite E'. unfold adec_poll in E'.
    eapply (adec_poll_eq (S _)); auto. cbn [poll_loop]. rewrite H. unfold finished in Hf.
    destruct (ad_state s'); try exact E'. congruence. }
  intros n. specialize (Hy n). destruct n; cbn [nth_poll] in *; now rewrite E.
Qed.

Definition waiting (s : adec) : Prop := ad_queue s = [] /\ ad_exhausted s = false /\ ~ finished s.

Lemma process_waiting s raw rest : waiting s -> ad_lines s = raw :: rest ->
  process_next s =
  match read_line raw (set_lines rest s) with
  | (Err e, s) => (Err e, s)
  | (Ok None, s) => (Ok None, s)
  | (Ok (Some line), s) =>
      match ad_state s with
      | SInitial => process_initial_line line s
      | SSimple base_depth => process_simple_object_line line base_depth s
      | SArray => (Ok None, push_line line s)
      | SFinished => (Ok None, s)
      end
  end.
Proof.
  intros (H1 & H2 & H3) Hl. unfold process_next. rewrite H1, H2, Hl. unfold finished in H3. destruct (ad_state s); congruence.
Qed.
Lemma process_waiting_end s : waiting s -> ad_lines s = [] -> process_next s = finalize (set_exhausted s).
Proof.
  intros (H1 & H2 & H3) Hl. unfold process_next. rewrite H1, H2, Hl. unfold finished in H3. destruct (ad_state s); congruence.
Qed.

Definition scans (s : adec) (pls : list parsed_line) : Prop :=
  exists st, parse_lines_sync (ad_lines s) (ad_indent s) (ad_strict s) (ad_scan s) = Ok (pls, st).

Lemma scans_cons s raw rest pls : ad_lines s = raw :: rest -> scans s pls ->
  exists s1, ad_lines s1 = rest /\ ad_queue s1 = ad_queue s /\ ad_stack s1 = ad_stack s /\ ad_state s1 = ad_state s /\
  ad_buffer s1 = ad_buffer s /\ ad_exhausted s1 = ad_exhausted s /\ ad_options s1 = ad_options s /\ ad_last s1 = ad_last s /\
  ((read_line raw (set_lines rest s) = (Ok None, s1) /\ scans s1 pls) \/
   (exists line pls', read_line raw (set_lines rest s) = (Ok (Some line), s1) /\ pls = line :: pls' /\ scans s1 pls')).
Proof.
  intros El (st & H). rewrite El in H. cbn [parse_lines_sync] in H.
  unfold read_line. unset. cbn [ad_indent ad_strict].
  change (ad_indent (set_lines rest s)) with (ad_indent s). change (ad_strict (set_lines rest s)) with (ad_strict s).
  destruct (parse_line_incremental raw (ad_scan s) (ad_indent s) (ad_strict s)) as [[p st1]|] eqn:Ep; [|discriminate]. cbn [bind] in H.
  destruct (parse_lines_sync rest _ _ st1) as [[ls st2]|] eqn:Er; [|discriminate]. cbn [bind] in H. injection H as <- <-.
  exists (set_scan st1 (set_lines rest s)). unset. repeat split; auto. destruct p as [line|].
  - right. exists line, ls. split; auto. split; auto. exists st2. exact Er.
  - left. split; auto. exists st2. exact Er.
Qed.
Lemma scans_nil s pls : ad_lines s = [] -> scans s pls -> pls = [].
Proof. intros El (st & H). rewrite El in H. cbn in H. congruence. Qed.

Lemma yields_batch s evs pls : waiting s -> ad_state s = SArray -> scans s pls ->
  decode_stream_sync (map pl_raw (ad_buffer s ++ pls)) (Some (ad_options s)) = Ok evs -> evs <> [] -> yields s evs.
Proof.
  remember (ad_lines s) as lines eqn:El. revert s pls El. induction lines as [|raw rest IH]; intros s pls El Hw Hs Hsc Hd Hne.
  - symmetry in El. pose proof (scans_nil _ _ El Hsc) as ->. rewrite app_nil_r in Hd.
    destruct evs as [|e evs]; [congruence|]. destruct Hw as (W1 & W2 & W3).
    eapply yields_cons with (s' := set_queue evs (set_state SFinished (set_stack [] (set_buffer [] (set_queue (e :: evs) (set_exhausted s)))))).
    + intros Hx. congruence.
    + rewrite process_waiting_end by (repeat split; auto). unfold finalize. cbn [set_exhausted ad_buffer ad_state]. rewrite Hs, orb_true_r.
      unfold batch_decode_remaining. cbn [set_exhausted ad_lines]. rewrite El. cbn [scan_rest].
      cbn [set_lines ad_buffer ad_options set_exhausted ad_queue]. rewrite Hd, W1. cbn [app]. unfold pop_queue. unset. unfold set_queue, set_state, set_stack, set_buffer, set_exhausted. unset. now rewrite El.
    + apply (yields_finished (set_queue evs _)); unfold finished; unset; auto. intros _. unset. auto.
  - symmetry in El. destruct (scans_cons _ _ _ _ El Hsc) as (s1 & K1 & K2 & K3 & K4 & K5 & K6 & K7 & K8 & K). pose proof Hw as (W1 & W2 & W3).
    assert (Hi1 : forall t, ad_exhausted t = ad_exhausted s -> inv t) by (intros t Ht Hx; congruence).
    destruct K as [(Er & Hsc')|(line & pls' & Er & -> & Hsc')].
    + apply (yields_quiet s s1); auto.
      * rewrite (process_waiting _ _ _ Hw El), Er. reflexivity.
      * unfold finished. rewrite K4, Hs. discriminate.
      * apply (IH s1 pls); auto; [|congruence|congruence]. unfold waiting, finished. rewrite K2, K4, K6, Hs. repeat split; auto. discriminate.
    + apply (yields_quiet s (push_line line s1)); auto.
      * rewrite (process_waiting _ _ _ Hw El), Er, K4, Hs. reflexivity.
      * unfold finished. unset. rewrite K4, Hs. discriminate.
      * apply (IH (push_line line s1) pls'); unset; auto; [|congruence|now rewrite K5, K7, <- app_assoc].
        unfold waiting, finished. unset. rewrite K2, K4, K6, Hs. repeat split; auto. discriminate.
Qed.

Lemma scan_raws src : forall ind strict st pls st', parse_lines_sync src ind strict st = Ok (pls, st') ->
  map pl_raw pls = filter nonblank src.
Proof.
  induction src as [|raw src IH]; intros ind strict st pls st' H; cbn [parse_lines_sync] in H.
  - now injection H as <- <-.
  - rewrite parse_line_eq in H. cbn [filter]. destruct (nonblank raw).
    + destruct (if strict then _ else _); [discriminate|]. cbn [bind] in H.
      destruct (parse_lines_sync src _ _ _) as [[ls st2]|] eqn:Er; [|discriminate]. cbn [bind] in H. injection H as <- <-.
      cbn [map]. f_equal; eauto.
    + cbn [bind] in H. destruct (parse_lines_sync src _ _ _) as [[ls st2]|] eqn:Er; [|discriminate]. cbn [bind] in H. injection H as <- <-. eauto.
Qed.
Lemma stream_filter src o evs : decode_stream_sync src o = Ok evs -> decode_stream_sync (filter nonblank src) o = Ok evs.
Proof.
  change src with ([] ++ src) at 1. change (filter nonblank src) with ([] ++ filter nonblank src). generalize (@nil str).
  induction src as [|x src IH]; intros pre E; auto. cbn [filter]. destruct (nonblank x) eqn:Ex.
  - change (x :: src) with ([x] ++ src) in E. change (x :: filter nonblank src) with ([x] ++ filter nonblank src).
    rewrite app_assoc in *. auto.
  - apply IH. eapply stream_remove; eauto.
Qed.

(** *** Flat objects *)

Definition leaf_event (e : event) : Prop := match e with EvKey _ _ | EvPrim _ => True | _ => False end.
Definition flat_line (l : parsed_line) : Prop :=
  pl_depth l = 0 /\ starts_with_str LIST_ITEM_PREFIX (pl_content l) = false /\ starts_with cLBRACK (trim_start (pl_content l)) = false.

Lemma flat_kv cx content c d evs c' : kv_rel cx content c d evs c' -> Forall leaf_event evs ->
  c' = c /\ exists key e q p, parse_key_token content 0 = Ok (key, e, q) /\ trim (skipn e content) <> [] /\
    parse_primitive_token (trim (skipn e content)) = Ok p /\ evs = [EvKey key q; EvPrim p].
Proof.
  intros H Hl. inversion H; subst.
  - inversion Hl; subst. match goal with A : arr_rel _ _ _ _ _ _ _ |- _ => inversion A; subst end;
      match goal with L : Forall leaf_event (_ :: _) |- _ => inversion L; contradiction end.
  - inversion Hl; subst. match goal with L : Forall leaf_event (_ :: _) |- _ => inversion L; contradiction end.
  - inversion Hl; subst. match goal with L : Forall leaf_event (_ :: _) |- _ => inversion L; contradiction end.
  - split; auto. eauto 10.
Qed.
Lemma flat_not_header l : flat_line l -> is_header_line (pl_content l) = Ok false.
Proof. intros (_ & _ & H). unfold is_header_line, is_array_header_content. now rewrite H. Qed.
Lemma flat_process line s key e q p : flat_line line -> parse_key_token (pl_content line) 0 = Ok (key, e, q) ->
  trim (skipn e (pl_content line)) <> [] -> parse_primitive_token (trim (skipn e (pl_content line))) = Ok p ->
  process_key_value_line line s = (Ok tt, push_event (EvPrim p) (push_event (EvKey key q) s)).
Proof.
  intros (_ & H & _) E1 E2 E3. unfold process_key_value_line. cbv zeta. apply is_empty_false in E2. now rewrite H, E1, E2, E3.
Qed.

Lemma yields_flat cx s pls last evs c' : waiting s -> ad_state s = SSimple 0 -> ad_stack s = [0] -> ad_buffer s = [] -> ad_last s = Some 0 ->
  scans s pls -> Forall flat_line pls -> root_fields_rel cx (Cursor pls last) evs c' -> Forall leaf_event evs ->
  yields s (evs ++ [EvEndObject]).
Proof.
  remember (ad_lines s) as lines eqn:El. revert s pls last evs El.
  induction lines as [|raw rest IH]; intros s pls last evs El Hw Hs Hst Hb Hla Hsc Hfl Hr Hle; symmetry in El; pose proof Hw as (W1 & W2 & W3).
  - pose proof (scans_nil _ _ El Hsc) as ->. inversion Hr as [c H|c line e1 c1 e2 c2 Hp]; subst; [|discriminate]. cbn [app].
    eapply yields_cons; [intros Hx; congruence| |].
    + rewrite process_waiting_end by (repeat split; auto). unfold finalize. cbn [set_exhausted ad_buffer ad_state]. rewrite Hb, Hs.
      cbn [is_empty negb orb]. cbv zeta. cbn [set_stack set_queue set_exhausted ad_state ad_queue ad_stack]. rewrite Hst, W1, Hs. cbn [length repeat app].
      reflexivity.
    + match goal with |- yields ?s [] => apply (yields_finished s) end; [intros _; exact El|reflexivity].
  - destruct (scans_cons _ _ _ _ El Hsc) as (s1 & K1 & K2 & K3 & K4 & K5 & K6 & K7 & K8 & K).
    assert (Hi1 : forall t, ad_exhausted t = ad_exhausted s -> inv t) by (intros t Ht Hx; congruence).
    destruct K as [(Er & Hsc')|(line & pls' & Er & -> & Hsc')].
    + apply (yields_quiet s s1); auto.
      * rewrite (process_waiting _ _ _ Hw El), Er. reflexivity.
      * unfold finished. rewrite K4, Hs. discriminate.
      * apply (IH s1 pls last); auto; try congruence. unfold waiting, finished. rewrite K2, K4, K6, Hs. repeat split; auto. discriminate.
    + inversion Hfl as [|? ? Hline Hfl']; subst. pose proof Hline as (D & _).
      inversion Hr as [c H|c line0 e1 c1 e2 c2 Hp Hd Hkv Hrf]; subst; [cbn in H; congruence|]. cbn in Hp. injection Hp as <-.
      apply Forall_app in Hle as [L1 L2]. apply flat_kv in Hkv as (-> & key & e & q & p & E1 & E2 & E3 & ->); auto.
      cbn [app]. eapply yields_cons; [auto| |].
      * rewrite (process_waiting _ _ _ Hw El), Er, K4, Hs. unfold process_simple_object_line. rewrite K8, Hla, D. cbn [Nat.ltb Nat.leb].
        rewrite flat_not_header by auto. rewrite (flat_process _ _ _ _ _ _ Hline E1 E2 E3). unfold pop_queue.
        cbn [push_event set_queue set_last ad_queue]. rewrite K2, W1. cbn [app]. reflexivity.
      * eapply yields_cons; [apply Hi1; unset; auto|apply process_queue; reflexivity|]. unset.
        match goal with |- yields ?t _ => apply (IH t pls' (Some line) e2) end; unset; auto; try congruence.
        unfold waiting, finished. unset. rewrite K4, Hs. repeat split; auto; [congruence|discriminate].
Qed.

(** *** The first line *)

Definition open_key (content : str) : Prop :=
  starts_with cDQ content = true \/ exists k r, content = k ++ cCOLON :: r /\ ~ In cCOLON k /\ ~ In cDQ k.

Lemma scan_unquoted_out c r n : scan_unquoted cCOLON (c :: r) false n =
  if (c =? cDQ)%N then scan_unquoted cCOLON r true (S n)
  else if (c =? cCOLON)%N then Some n else scan_unquoted cCOLON r false (S n).
Proof. cbn [scan_unquoted negb]. rewrite andb_true_r. destruct r; reflexivity. Qed.
Lemma scan_unquoted_plain k r : forall n, ~ In cCOLON k -> ~ In cDQ k -> scan_unquoted cCOLON (k ++ cCOLON :: r) false n <> None.
Proof.
  induction k as [|c k IH]; intros n H1 H2; cbn [app]; rewrite scan_unquoted_out.
  - discriminate.
  - destruct (N.eqb_spec c cDQ); [subst; exfalso; apply H2; now left|].
    destruct (N.eqb_spec c cCOLON); [subst; exfalso; apply H1; now left|].
    apply IH; intros H; [apply H1|apply H2]; now right.
Qed.
Lemma open_key_async content key e q : open_key content -> starts_with_str LIST_ITEM_PREFIX content = false ->
  parse_key_token content 0 = Ok (key, e, q) -> async_is_key_value_line content = true.
Proof.
  intros Ho Hp Hk. unfold async_is_key_value_line. rewrite Hp. unfold parse_key_token in Hk. cbn [skipn] in Hk.
  destruct (starts_with cDQ content) eqn:Eq.
  - unfold parse_quoted_key in Hk. destruct (find_closing_quote content 0); [|discriminate].
    inv_bind Hk. inv_bind E. destruct (starts_with cCOLON _) eqn:Ec; [|discriminate]. apply starts_with_true in Ec as (r & ->). reflexivity.
  - destruct Ho as [Ho|(k & r & -> & H1 & H2)]; [congruence|]. apply andb_true_iff. split.
    + apply contains_In. apply in_or_app. right. now left.
    + unfold is_key_value_content, find_unquoted_char. cbn [skipn]. replace (128 <=? cCOLON)%N with false by reflexivity.
      pose proof (scan_unquoted_plain k r 0 H1 H2). destruct (scan_unquoted _ _ _ _); congruence.
Qed.
Lemma async_sync_kv content : async_is_key_value_line content = true -> is_key_value_line content = true.
Proof.
  unfold async_is_key_value_line, is_key_value_line. destruct (starts_with_str _ _); [discriminate|]. destruct (starts_with _ _); auto.
  intros H. now apply andb_prop in H as [H _].
Qed.

Lemma yields_skip_blank s raw rest evs : waiting s -> ad_lines s = raw :: rest -> nonblank raw = false ->
  (forall s1, ad_lines s1 = rest -> ad_queue s1 = ad_queue s -> ad_stack s1 = ad_stack s -> ad_state s1 = ad_state s ->
    ad_buffer s1 = ad_buffer s -> ad_exhausted s1 = ad_exhausted s -> ad_options s1 = ad_options s -> ad_last s1 = ad_last s -> yields s1 evs) ->
  yields s evs.
Proof.
  intros Hw El Hb H. pose proof Hw as (W1 & W2 & W3).
  assert (Er : exists s1, read_line raw (set_lines rest s) = (Ok None, s1)).
  { unfold read_line. rewrite parse_line_eq, Hb. eauto. }
  destruct Er as [s1 Er]. pose proof (read_line_keeps _ _ _ _ Er) as (K1 & K2 & K3 & K4 & K5 & K6 & K7 & K8). unset.
  apply (yields_quiet s s1); auto; try (intros Hx; congruence).
  rewrite (process_waiting _ _ _ Hw El), Er. reflexivity.
Qed.

Definition fresh (o : option dstream_options) (s : adec) : Prop :=
  ad_queue s = [] /\ ad_exhausted s = false /\ ad_state s = SInitial /\ ad_stack s = [] /\ ad_buffer s = [] /\ ad_last s = None /\
  ad_options s = unwrap_or o (DStreamOpts None None).
Lemma fresh_new lines o : fresh o (adec_new lines o).
Proof. repeat split; reflexivity. Qed.
Lemma fresh_waiting o s : fresh o s -> waiting s.
Proof. intros (H1 & H2 & H3 & _). repeat split; auto. unfold finished. congruence. Qed.

Lemma yields_blank o s : fresh o s -> Forall (fun raw => nonblank raw = false) (ad_lines s) -> yields s [EvStartObject; EvEndObject].
Proof.
  remember (ad_lines s) as lines eqn:El. revert s El. induction lines as [|raw rest IH]; intros s El Hf Hb; symmetry in El;
    pose proof Hf as (F1 & F2 & F3 & F4 & F5 & F6 & F7); pose proof (fresh_waiting _ _ Hf) as Hw.
  - eapply yields_cons; [intros Hx; congruence| |].
    + rewrite process_waiting_end by auto. unfold finalize. cbn [set_exhausted ad_buffer ad_state]. rewrite F5, F3.
      cbn [is_empty negb orb]. cbv zeta. cbn [set_stack set_queue set_exhausted ad_state ad_queue ad_stack]. rewrite F1, F4, F3. cbn [length repeat app].
      reflexivity.
    + match goal with |- yields ?s _ => apply (yields_finished s) end; [intros _; exact El|reflexivity].
  - inversion Hb; subst. eapply yields_skip_blank; eauto. intros s1 K1 K2 K3 K4 K5 K6 K7 K8. apply IH; auto. unfold fresh.
    rewrite K2, K3, K4, K5, K6, K7, K8. tauto.
Qed.

Lemma open_array o s pls evs line : fresh o s -> scans s (line :: pls) -> is_header_line (pl_content line) = Ok true ->
  decode_stream_sync (map pl_raw (line :: pls)) (Some (ad_options s)) = Ok evs -> evs <> [] -> yields s evs.
Proof.
  remember (ad_lines s) as lines eqn:El. revert s El. induction lines as [|raw rest IH]; intros s El Hf Hsc Hh Hd Hne; symmetry in El.
  - now apply scans_nil in Hsc.
  - pose proof Hf as (F1 & F2 & F3 & F4 & F5 & F6 & F7); pose proof (fresh_waiting _ _ Hf) as Hw.
    destruct (scans_cons _ _ _ _ El Hsc) as (s1 & K1 & K2 & K3 & K4 & K5 & K6 & K7 & K8 & K).
    assert (Hi1 : forall t, ad_exhausted t = ad_exhausted s -> inv t) by (intros t Ht Hx; congruence).
    destruct K as [(Er & Hsc')|(line' & pls' & Er & E & Hsc')].
    + apply (yields_quiet s s1); auto.
      * rewrite (process_waiting _ _ _ Hw El), Er. reflexivity.
      * unfold finished. rewrite K4, F3. discriminate.
      * apply IH; auto; [|congruence]. unfold fresh. rewrite K2, K3, K4, K5, K6, K7, K8. tauto.
    + injection E as <- <-. apply (yields_quiet s (push_line line (set_state SArray s1))); auto.
      * rewrite (process_waiting _ _ _ Hw El), Er, K4, F3. unfold process_initial_line. now rewrite Hh.
      * unfold finished. unset. discriminate.
      * apply (yields_batch _ _ pls); unset; auto.
        -- unfold waiting, finished. unset. repeat split; auto; [congruence|congruence|discriminate].
        -- rewrite K5, F5, K7. exact Hd.
Qed.

Lemma open_prim o s p line : fresh o s -> scans s [line] -> is_header_line (pl_content line) = Ok false ->
  async_is_key_value_line (pl_content line) = false -> parse_primitive_token (trim (pl_content line)) = Ok p -> yields s [EvPrim p].
Proof.
  remember (ad_lines s) as lines eqn:El. revert s El. induction lines as [|raw rest IH]; intros s El Hf Hsc Hh Hk Hp; symmetry in El.
  - now apply scans_nil in Hsc.
  - pose proof Hf as (F1 & F2 & F3 & F4 & F5 & F6 & F7); pose proof (fresh_waiting _ _ Hf) as Hw.
    destruct (scans_cons _ _ _ _ El Hsc) as (s1 & K1 & K2 & K3 & K4 & K5 & K6 & K7 & K8 & K).
    assert (Hi1 : forall t, ad_exhausted t = ad_exhausted s -> inv t) by (intros t Ht Hx; congruence).
    destruct K as [(Er & Hsc')|(line' & pls' & Er & E & Hsc')].
    + apply (yields_quiet s s1); auto.
      * rewrite (process_waiting _ _ _ Hw El), Er. reflexivity.
      * unfold finished. rewrite K4, F3. discriminate.
      * apply IH; auto. unfold fresh. rewrite K2, K3, K4, K5, K6, K7, K8. tauto.
    + injection E as <- <-. eapply yields_cons; auto.
      * rewrite (process_waiting _ _ _ Hw El), Er, K4, F3. unfold process_initial_line. rewrite Hh, Hk, Hp. reflexivity.
      * replace [] with (ad_queue (set_state SFinished s1)) by (unset; congruence). apply yields_finished; [auto|reflexivity].
Qed.

Lemma open_flat o s cx line pls e1 c1 e2 c2 : fresh o s -> scans s (line :: pls) -> Forall flat_line (line :: pls) -> open_key (pl_content line) ->
  kv_rel cx (pl_content line) (Cursor pls (Some line)) 0 e1 c1 -> root_fields_rel cx c1 e2 c2 -> Forall leaf_event (e1 ++ e2) ->
  yields s (EvStartObject :: e1 ++ e2 ++ [EvEndObject]).
Proof.
  remember (ad_lines s) as lines eqn:El. revert s El. induction lines as [|raw rest IH]; intros s El Hf Hsc Hfl Ho Hkv Hrf Hle; symmetry in El.
  - now apply scans_nil in Hsc.
  - pose proof Hf as (F1 & F2 & F3 & F4 & F5 & F6 & F7); pose proof (fresh_waiting _ _ Hf) as Hw.
    destruct (scans_cons _ _ _ _ El Hsc) as (s1 & K1 & K2 & K3 & K4 & K5 & K6 & K7 & K8 & K).
    assert (Hi1 : forall t, ad_exhausted t = ad_exhausted s -> inv t) by (intros t Ht Hx; congruence).
    destruct K as [(Er & Hsc')|(line' & pls' & Er & E & Hsc')].
    + apply (yields_quiet s s1); auto.
      * rewrite (process_waiting _ _ _ Hw El), Er. reflexivity.
      * unfold finished. rewrite K4, F3. discriminate.
      * apply IH; auto. unfold fresh. rewrite K2, K3, K4, K5, K6, K7, K8. tauto.
    + injection E as <- <-. inversion Hfl as [|? ? Hline Hfl']; subst. pose proof Hline as (D & Hpre & _).
      apply Forall_app in Hle as [L1 L2]. apply flat_kv in Hkv as (-> & key & e & q & p & E1 & E2 & E3 & ->); auto.
      eapply yields_cons; [auto| |].
      * rewrite (process_waiting _ _ _ Hw El), Er, K4, F3. unfold process_initial_line. rewrite flat_not_header by auto.
        rewrite (open_key_async _ _ _ _ Ho Hpre E1). cbv zeta. rewrite (flat_process _ _ _ _ _ _ Hline E1 E2 E3). unfold pop_queue.
        cbn [push_event set_queue set_last set_stack set_state ad_queue]. rewrite K2, F1. cbn [app]. reflexivity.
      * cbn [app]. do 2 (eapply yields_cons; [apply Hi1; unset; auto|apply process_queue; reflexivity|]). unset.
        match goal with |- yields ?t _ => apply (yields_flat cx t pls (Some line) e2 c2) end; unset; auto; try congruence.
        unfold waiting, finished. unset. repeat split; auto; [congruence|discriminate].
Qed.

Lemma fresh_scans lines o evs : decode_stream_sync lines o = Ok evs ->
  exists pls, scans (adec_new lines o) pls /\ map pl_raw pls = filter nonblank lines /\
    pls = fst (scan_from 0 (opt_indent o) lines) /\
    exists c, lines_rel (DCtx (opt_strict o) (snd (scan_from 0 (opt_indent o) lines))) pls evs c.
Proof.
  intros H. unfold decode_stream_sync in H. cbv zeta in H. fold (opt_indent o) (opt_strict o) in H. inv_bind H. injection H as <-.
  pose proof (scan_raws _ _ _ _ _ _ E) as Hr. pose proof E as Hs. apply parse_lines_scan in Hs as (_ & -> & ->).
  eexists. split; [eexists; exact E|]. split; [exact Hr|]. split; [reflexivity|]. exists c. now apply decode_lines_exact.
Qed.
