(** C57: what the command line tool says and how it exits. *)
From Coq Require Import QArith.
From Verif Require Import Chars Floats Json JsonText SpecJson Serde EncodeApi DecodeApi Utf8 Utf8Proof ErrText Cli SpecCli CliPath CliProof SayProof
  PropsJson PropsErrText PropsSerde PropsRoundTrip PropsCli.
Import SpecCli.

Local Open Scope nat_scope.

Section Say.
Variable rf : str -> option f64.
Variable complaint : str -> str.
Variable st : num_style.
Variables file_cap line_cap : nat.
Notation main := (main rf complaint st file_cap line_cap).
Notation delivers := (delivers rf st).
Notation happens := (happens rf complaint st file_cap).
(** No text is longer than memory. *)
Definition fits (a : args) (w : world) : Prop := forall input, reads a w input -> (N.of_nat (length input) < 2 ^ 64)%N.

Lemma input_text_reads a w input : reads a w input -> input_text a w = input.
Proof.
  intros H. apply reads_source in H as (b & Hb & E). unfold input_text. fold (source a w). now rewrite Hb, E.
Qed.
Lemma fails_message a w input e : reads a w input -> fails rf st a input e ->
  cannot_convert complaint rf a input (failure_text complaint (input_text a w) (FConvert e)).
Proof.
  intros Hr H. rewrite (input_text_reads _ _ _ Hr). unfold fails in H. destruct (detect_mode a) eqn:Em.
  - left. split; [now apply encodes_mode|].
    destruct (C45_json_to_toon rf 0 input (Some (cli_encode_options a))) as [(t & v & n & _ & _ & _ & _ & E)|[E Hn]].
    + exfalso. destruct (C15_encoder_total 0 n (Some (cli_encode_options a)) eq_refl) as (ls & _ & El & _). congruence.
    + split; [exact Hn|]. rewrite E in H. injection H as <-. reflexivity.
  - right. split; [now apply decodes_mode|]. exists e. apply (proj1 (C34_prints_exactly_when_decoded _ _ _ _)) in H.
    assert (E : Some (cli_decode_options a) = Some (DecOpts (Some (a_indent a)) (Some (if a_no_strict a then false else true)) (Some (a_expand_paths a))))
      by (unfold cli_decode_options; now destruct (a_no_strict a)).
    rewrite E in H. split; [exact H|]. destruct (C54_every_error_has_a_message _ _ _ H) as (m & Hm & _). rewrite Hm.
    clear - Hm. unfold message in Hm. destruct (raised e) as [t|] eqn:Er; [|discriminate]. injection Hm as <-. unfold failure_text.
    match goal with |- context [failure_error ?c ?i ?f] => replace (failure_error c i f) with (Some t); [reflexivity|] end.
    destruct e; try (symmetry; exact Er). discriminate Er.
Qed.

(** Everything that can happen, whatever the operating system does. *)
Theorem C57_everything :
  forall (a : args) (w w' : world) (env env' : list reply) (exit : option N),
    fits a w -> main a w env = (exit, w', env') -> happens a w env w' exit.
Proof.
  intros a w w' env env' x Hfit H. destruct (main_spec _ _ _ _ _ _ _ _ _ _ _ H) as (o & w1 & Hran & Ho).
  assert (Hnone : forall w2 more lost, unchanged w w1 -> w_pending w1 = [] -> w_pending w1 = more ++ lost -> only_stdout w1 w2 more -> unchanged w w2).
  { intros w2 more lost (A & B & C) Hp E (D1 & D2 & D3). rewrite Hp in E. symmetry in E. apply app_eq_nil in E as [-> _].
    split; [intros p; now rewrite D1|]. rewrite app_nil_r in D3. split; congruence. }
  destruct Hran as [|f Hf|input e Hr He|input full o w1 p Hr Hd Hu Hp Hs Ea Hk|input full out o w1 Hr Hd Hout Hpre Hs Hpn Hk|input text out s o w1 Hr Hd Hout Hpre Hp Hl Hc Hs Hsp Hse Hf].
  - destruct Ho as [-> ->]. apply hp_stopped; [repeat split|reflexivity].
  - destruct Hf as (op & why & -> & Hm & Hw). destruct Ho as (s & more & lost & E & Ho & Es & Hx).
    eapply hp_unread; [exact Hm|exact Hw|eapply Hnone; eauto; repeat split|exact Es|exact Hx].
  - destruct Ho as (s & more & lost & E & Ho & Es & Hx). eapply hp_unconverted; [exact Hr|exact (fails_message a w input e Hr He)|eapply Hnone; eauto; repeat split|exact Es|exact Hx].
  - destruct Hk as [->|(why & -> & R)].
    + destruct Ho as [-> ->]. now apply hp_stopped.
    + destruct Ho as (s & more & lost & E & Ho & Es & Hx).
      eapply (hp_uncreated _ _ _ _ _ _ _ _ input full why); [exact Hr|exact Hd| |exact R|eapply Hnone; eauto|rewrite Es; f_equal; exact Hs|exact Hx].
      exists p. split; [exact Ea|]. unfold failure_text; cbn [failure_error io_error display]. now rewrite <- !app_assoc.
  - destruct Hk as [->|(why & -> & R)].
    + destruct Ho as [-> ->]. eapply hp_stopped_writing; [exact Hr|exact Hd|exact Hout|eapply prefix_app_l; exact Hpre|exact Hs].
    + destruct Ho as (s & more & lost & E & (D1 & D2 & D3) & Es & Hx).
      eapply (hp_unwritten _ _ _ _ _ _ _ _ input full (out ++ more) why); [exact Hr|exact Hd| |exact R| | |rewrite Es; f_equal; exact Hs|exact Hx].
      * unfold cannot_write, place. destruct (a_output a) as [p|]; [right; exists p; split; [reflexivity|]|left; split; [reflexivity|]];
          unfold failure_text; cbn [failure_error writing io_error display]; now rewrite <- ?app_assoc.
      * unfold output_is in *. destruct (a_output a) as [p|].
        -- rewrite (Hpn ltac:(discriminate)) in E. symmetry in E. apply app_eq_nil in E as [-> _]. rewrite app_nil_r in *.
           destruct Hout as (K1 & K2 & K3 & K4). split; [now rewrite D1|]. split; [intros q Hq; rewrite D1; exact (K2 q Hq)|]. split; [now rewrite D2, K3|now rewrite D3, K4].
        -- destruct Hout as (K1 & K2 & K3). split; [intros q; rewrite D1; exact (K1 q)|]. split; [now rewrite D2, K2|]. rewrite D3, K3. now rewrite app_assoc.
      * rewrite E, app_assoc in Hpre. eapply prefix_app_l; exact Hpre.
  - assert (Hfull : a_output a = None \/ (a_stats a = true /\ ~ decodes a) -> out = utf8 (text ++ [cLF])).
    { intros [Ha|[Ha1 Ha2]]; [auto|]. apply encodes_mode in Ha2. unfold direct in Hl. rewrite Ha1, Ha2 in Hl. cbn [andb] in Hl.
      rewrite Nat.add_0_r in Hl. now apply prefix_full. }
    assert (Hl' : length (utf8 (text ++ [cLF])) <= length out + file_cap) by (destruct (direct a); lia).
    pose proof (messages_spec a input text (Hfit input Hr)) as Hmsg.
    destruct o as [[]|f|].
    + destruct Ho as [-> ->]. eapply hp_written; [exact Hr|exact Hd|exact Hout|exact Hpre|exact Hl'|exact Hfull|exact Hmsg|exact Hs|].
      split; [exact Hsp|]. split; [auto|]. now left.
    + destruct (Hf f eq_refl) as (-> & why & R). destruct Ho as [-> ->].
      eapply hp_written; [exact Hr|exact Hd|exact Hout|exact Hpre|exact Hl'|exact Hfull|exact Hmsg|exact Hs|].
      split; [exact Hsp|]. split; [discriminate|]. right. left. split; [reflexivity|]. now exists why.
    + destruct Ho as [-> ->]. eapply hp_written; [exact Hr|exact Hd|exact Hout|exact Hpre|exact Hl'|exact Hfull|exact Hmsg|exact Hs|].
      split; [exact Hsp|]. split; [discriminate|]. auto.
Qed.

(** Success: what was said are the messages, whole. *)
Theorem C57_success :
  forall (a : args) (w w' : world) (env env' : list reply),
    fits a w -> main a w env = (Some 0%N, w', env') ->
    exists input text ms, reads a w input /\ delivers a input (utf8 (text ++ [cLF])) /\ messages a input text ms /\ w_stderr w' = w_stderr w ++ said ms.
Proof.
  intros a w w' env env' Hfit H. apply C57_everything in H; [|exact Hfit].
  inversion H as [|? ? ? ? _ _ _ _ (_ & _ & K)|? ? ? ? _ _ _ _ (_ & _ & K)|? ? ? ? ? ? _ _ _ _ _ _ (_ & _ & K)|? ? ? ? ? ? ? _ _ _ _ _ _ _ (_ & _ & K)| |input text out ms s ? Hr Hd _ _ _ _ Hm Hs (_ & K & _)]; subst;
    try (destruct K as [K|[[K _]|K]]; discriminate K).
  exists input, text, ms. split; [exact Hr|]. split; [exact Hd|]. split; [exact Hm|]. now rewrite <- (K eq_refl).
Qed.
(** Failure: one line is said, naming what failed and why; the output is the beginning of the document. *)
Theorem C57_failure :
  forall (a : args) (w w' : world) (env env' : list reply),
    fits a w -> main a w env = (Some 1%N, w', env') ->
    exists m, w_stderr w' = w_stderr w ++ utf8 (m ++ [cLF]) /\
      ((unchanged w w' /\ exists why, cannot_read a why m /\ (refused env why \/ no_input a w why)) \/
       exists input, reads a w input /\
         ((unchanged w w' /\ cannot_convert complaint rf a input m) \/
          exists full, delivers a input full /\
            ((unchanged w w' /\ exists why, cannot_create a why m /\ refused env why) \/
             exists out why, output_is a w w' out /\ prefix out full /\ cannot_write a why m /\ refused env why))).
Proof.
  intros a w w' env env' Hfit H. apply C57_everything in H; [|exact Hfit].
  inversion H as [|why m s ? Hm Hw Hu Hs (_ & K & _)|input m s ? Hr Hm Hu Hs (_ & K & _)|input full why m s ? Hr Hd Hm Hw Hu Hs (_ & K & _)|input full out why m s ? Hr Hd Hm Hw Ho Hp Hs (_ & K & _)| |input text out ms s ? Hr Hd _ _ _ _ Hm Hs (_ & _ & K)]; subst;
    [| | | |destruct K as [K|[[K _]|K]]; discriminate K]; rewrite (K eq_refl), said_one in Hs; exists m; (split; [exact Hs|]).
  - left. split; [exact Hu|]. exists why. auto.
  - right. exists input. split; [exact Hr|]. left. auto.
  - right. exists input. split; [exact Hr|]. right. exists full. split; [exact Hd|]. left. split; [exact Hu|]. eauto.
  - right. exists input. split; [exact Hr|]. right. exists full. split; [exact Hd|]. right. exists out, why. auto.
Qed.
(** There are no other exit statuses but that of an abort, when something could not be said. *)
Theorem C57_statuses :
  forall (a : args) (w w' : world) (env env' : list reply) (n : N),
    fits a w -> main a w env = (Some n, w', env') -> n = 0%N \/ n = 1%N \/ (n = 134%N /\ exists why, refused env why).
Proof.
  intros a w w' env env' n Hfit H. apply C57_everything in H; [|exact Hfit].
  inversion H as [|? ? ? ? _ _ _ _ (_ & _ & K)|? ? ? ? _ _ _ _ (_ & _ & K)|? ? ? ? ? ? _ _ _ _ _ _ (_ & _ & K)|? ? ? ? ? ? ? _ _ _ _ _ _ _ (_ & _ & K)| |? ? ? ? ? ? _ _ _ _ _ _ _ _ (_ & _ & K)]; subst;
    destruct K as [K|[[K R]|K]]; try discriminate K; injection K as ->; auto.
Qed.
(** An input that is not there or cannot be converted is reported, if no call fails. *)
Lemma run_fails a w : (forall input full, reads a w input -> ~ delivers a input full) ->
  exists f, f <> FPanic /\ forall n env, run rf st file_cap line_cap a w (RDone n :: env) = (Raise f, w, env).
Proof.
  intros H.
  assert (Hread : (exists input, reads a w input /\ forall n env, read_input a w (RDone n :: env) = (Ret input, w, env)) \/
                  exists op why, forall n env, read_input a w (RDone n :: env) = (Raise (FIo op why), w, env)).
  { unfold read_input. fold (source a w). destruct (source a w) as [b|] eqn:E; [|right; eexists _, _; reflexivity].
    destruct (from_utf8 b) as [input|] eqn:Eb; [|right; eexists _, _; reflexivity]. left. exists input. split; [|reflexivity]. apply reads_source. eauto. }
  unfold run, run_encode, run_decode. destruct Hread as [(input & Hr & E)|(op & why & E)].
  - destruct (detect_mode a) eqn:Em.
    + destruct (encode_to_toon_lines rf 0 input (Some (cli_encode_options a))) as [ls|e] eqn:El.
      * exfalso. exact (H _ _ Hr (delivers_encoded rf st a input ls Em El)).
      * exists (FConvert e). split; [discriminate|]. intros n env. unfold ibind at 1. rewrite E. unfold ibind at 1. rewrite El. reflexivity.
    + destruct (decode_to_json_chunks st input (Some (cli_decode_options a))) as [cs|e] eqn:El.
      * exfalso. exact (H _ _ Hr (delivers_decoded rf st a input cs Em El)).
      * exists (FConvert e). split; [discriminate|]. intros n env. unfold ibind at 1. rewrite E. unfold ibind at 1. rewrite El. reflexivity.
  - exists (FIo op why). split; [discriminate|]. intros n env. destruct (detect_mode a); unfold ibind at 1; now rewrite E.
Qed.
Theorem C57_failures_are_reported :
  forall (a : args) (w : world),
    (forall input full, reads a w input -> ~ delivers a input full) ->
    exists calls, forall env, steady env -> calls <= length env -> exists w' env', main a w env = (Some 1%N, w', env').
Proof.
  intros a w H. destruct (run_fails a (with_pending w []) H) as (f & Hf & E).
  exists (1 + length (said [failure_text complaint (input_text a w) f])). intros env Hs Hl.
  destruct (steady_cons env Hs ltac:(lia)) as (n & env1 & -> & H1 & L1). unfold Cli.main. rewrite E.
  destruct (ss_say rf complaint (failure_text complaint (input_text a w) f) (with_pending w []) env1 H1 ltac:(cbn [length] in *; lia)) as (w2 & env2 & E2 & _).
  destruct (say_speaks _ _ _ _ _ _ E2) as (s & _ & Hp & _).
  destruct (leave 1 w2 env2) as [[x w3] env3] eqn:E3. exists w3, env3.
  assert (x = Some 1%N) as -> by (apply leave_spec in E3 as (? & ? & _ & _ & _ & _ & K); now apply K).
  destruct f; [rewrite E2, E3; reflexivity|rewrite E2, E3; reflexivity|congruence].
Qed.
(** The estimates of the statistics are determined by their description. *)
Theorem C57_estimates_determined : forall text n m, token_estimate text n -> token_estimate text m -> n = m.
Proof. exact estimate_fun. Qed.
Theorem C57_estimate : forall text, token_estimate text (estimate_tokens text).
Proof. exact estimate_spec. Qed.
End Say.
Print Assumptions C57_everything.
Print Assumptions C57_success.
Print Assumptions C57_failure.
Print Assumptions C57_statuses.
Print Assumptions C57_failures_are_reported.
Print Assumptions C57_estimates_determined.
Print Assumptions C57_estimate.

(** The statistics of a small table; a text that is not TOON; a directory that is not there. *)
Definition C57_world : world :=
  World (fun p => if str_eqb p (lit "in.json") then Some (utf8 (lit "[ { ""a"" : 1 , ""b"" : 2 } , { ""a"" : 3 , ""b"" : 4 } ]"))
                  else if str_eqb p (lit "bad.toon") then Some (utf8 (lit "k[2]: 1")) else None) [] [] [] [].
Definition C57_says (a : args) (env : list reply) : option N * option str :=
  let '(x, w', _) := std_main a C57_world env in (x, from_utf8 (w_stderr w')).
Example C57_example :
  C57_says (some_args (Some (lit "in.json")) None true) (repeat (RDone 50) 20)
    = (Some 0%N, Some (cLF :: lit "Token estimates: ~21 (JSON) " ++ [8594%N] ++ lit " ~3 (TOON)" ++ cLF :: lit "Saved ~18 tokens (-85.7%)" ++ [cLF])) /\
  C57_says (some_args (Some (lit "bad.toon")) None false) (repeat (RDone 50) 20)
    = (Some 1%N, Some (lit "Expected 2 inline array items, but got 1" ++ [cLF])) /\
  C57_says (some_args (Some (lit "in.json")) (Some (lit "no/x")) false) [RDone 1; RError (lit "No such file or directory (os error 2)"); RDone 9; RDone 200]
    = (Some 1%N, Some (lit "Failed to create file 'no/x': No such file or directory (os error 2)" ++ [cLF])) /\
  (* nowhere to complain: the process aborts *)
  C57_says (some_args (Some (lit "gone")) None false) [RDone 1; RDone 3; RError (lit "Broken pipe (os error 32)")] = (Some 134%N, Some (lit "Fai")).
Proof. repeat split; vm_compute; reflexivity. Qed.
