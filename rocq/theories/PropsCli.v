(** C36 and C37: the command line tool. *)
From Verif Require Import Chars Floats Json JsonInd Lex JsonText SpecJson Serde EncodeApi Utf8 Utf8Proof Cli SpecCli CliProof CliPath Spec PropsJson.

Local Open Scope nat_scope.

Section Tool.
Variable rf : str -> option f64.
Variable complaint : str -> str.
Variable st : num_style.
Variables file_cap line_cap : nat.
Notation main := (main rf complaint st file_cap line_cap).
Notation delivers := (delivers rf st).

(** What a run leaves behind: nothing, or the output, all of it but possibly the end. *)
Lemma main_output a w env x w' env' : main a w env = (x, w', env') ->
  (unchanged w w' /\ x <> Some 0%N) \/
  exists input full out, reads a w input /\ delivers a input full /\ output_is a w w' out /\ prefix out full /\
    (x = Some 0%N -> length full <= length out + (if direct a then 0 else file_cap) /\ (a_output a = None -> out = full)).
Proof.
  intros H. destruct (main_spec _ _ _ _ _ _ _ _ _ _ _ H) as (o & w1 & Hran & Ho).
  assert (Hnone : forall w2 more lost, unchanged w w1 -> w_pending w1 = [] -> w_pending w1 = more ++ lost -> only_stdout w1 w2 more -> unchanged w w2).
  { intros w2 more lost (A & B & C) Hp E (D1 & D2 & D3). rewrite Hp in E. symmetry in E. apply app_eq_nil in E as [-> _].
    split; [intros p; now rewrite D1|]. rewrite app_nil_r in D3. split; congruence. }
  assert (Hne : forall m env s, ends 1 m env x s -> x <> Some 0%N).
  { intros m e s (_ & _ & [K|[[K _]|K]]); congruence. }
  destruct Hran as [|f Hf|input e Hr He|input full o w1 p Hr Hd Hu Hp Hs Ea Hk|input full out o w1 Hr Hd Hout Hpre Hs Hpn Hk|input text out s o w1 Hr Hd Hout Hpre Hp Hl Hc Hs Hsp Hse Hf].
  - destruct Ho as [-> ->]. left. split; [repeat split|discriminate].
  - destruct Hf as (op & why & -> & _). destruct Ho as (s & more & lost & E & Ho & _ & Hx). left.
    split; [eapply Hnone; eauto; repeat split|eapply Hne; eauto].
  - destruct Ho as (s & more & lost & E & Ho & _ & Hx). left. split; [eapply Hnone; eauto; repeat split|eapply Hne; eauto].
  - left. destruct Hk as [->|(why & -> & _)].
    + destruct Ho as [-> ->]. split; [exact Hu|discriminate].
    + destruct Ho as (s & more & lost & E & Ho & _ & Hx). split; [eapply Hnone; eauto|eapply Hne; eauto].
  - right. exists input, full. destruct Hk as [->|(why & -> & _)].
    + destruct Ho as [-> ->]. exists out. split; [exact Hr|]. split; [exact Hd|]. split; [exact Hout|]. split; [eapply prefix_app_l; exact Hpre|discriminate].
    + destruct Ho as (s & more & lost & E & (D1 & D2 & D3) & _ & Hx).
      assert (Hxx : x <> Some 0%N) by (eapply Hne; exact Hx).
      exists (out ++ more). split; [exact Hr|]. split; [exact Hd|]. split; [|split; [rewrite E, app_assoc in Hpre; eapply prefix_app_l; exact Hpre|congruence]].
      unfold output_is in *. destruct (a_output a) as [p|].
      * rewrite (Hpn ltac:(discriminate)) in E. symmetry in E. apply app_eq_nil in E as [-> _]. rewrite app_nil_r in *.
        destruct Hout as (K1 & K2 & K3 & K4). split; [now rewrite D1|]. split; [intros q Hq; rewrite D1; exact (K2 q Hq)|]. split; [now rewrite D2, K3|now rewrite D3, K4].
      * destruct Hout as (K1 & K2 & K3). split; [intros q; rewrite D1; exact (K1 q)|]. split; [now rewrite D2, K2|]. rewrite D3, K3. now rewrite app_assoc.
  - right. exists input, (utf8 (text ++ [cLF])), out. split; [exact Hr|]. split; [exact Hd|]. destruct o as [[]|f|].
    + destruct Ho as [-> ->]. split; [exact Hout|]. split; [exact Hpre|auto].
    + destruct (Hf f eq_refl) as [-> _]. destruct Ho as [-> ->]. split; [exact Hout|]. split; [exact Hpre|discriminate].
    + destruct Ho as [-> ->]. split; [exact Hout|]. split; [exact Hpre|discriminate].
Qed.

(** Whatever the operating system answers and whenever the process is stopped: nothing is changed but
    the output, and what is there is the beginning of the converted document. *)
Theorem C36_output_is_a_prefix :
  forall (a : args) (w w' : world) (env env' : list reply) (exit : option N),
    main a w env = (exit, w', env') ->
    unchanged w w' \/
    exists input full out, reads a w input /\ delivers a input full /\ output_is a w w' out /\ prefix out full.
Proof.
  intros a w w' env env' x H. destruct (main_output _ _ _ _ _ _ H) as [[K _]|(input & full & out & H1 & H2 & H3 & H4 & _)]; [now left|].
  right. exists input, full, out. auto.
Qed.

(** An input that cannot be read or converted: no success, nothing has changed. *)
Theorem C36_failed_conversion_changes_nothing :
  forall (a : args) (w w' : world) (env env' : list reply) (exit : option N),
    main a w env = (exit, w', env') ->
    (forall input full, reads a w input -> ~ delivers a input full) ->
    unchanged w w' /\ exit <> Some 0%N.
Proof.
  intros a w w' env env' x H Hn. destruct (main_output _ _ _ _ _ _ H) as [K|(input & full & out & H1 & H2 & _)]; [exact K|].
  exfalso. eapply Hn; eauto.
Qed.

(** Success, to standard output or encoding with --stats: the whole output is there. *)
Theorem C36_success_is_complete :
  forall (a : args) (w w' : world) (env env' : list reply),
    main a w env = (Some 0%N, w', env') ->
    a_output a = None \/ (a_stats a = true /\ ~ decodes a) ->
    exists input full, reads a w input /\ delivers a input full /\ output_is a w w' full.
Proof.
  intros a w w' env env' H Ha.
  destruct (main_output _ _ _ _ _ _ H) as [[_ K]|(input & full & out & H1 & H2 & H3 & H4 & H5)]; [congruence|].
  destruct (H5 eq_refl) as [Hl He]. exists input, full. split; [exact H1|]. split; [exact H2|]. destruct Ha as [Ha|[Ha1 Ha2]].
  - now rewrite <- (He Ha).
  - apply encodes_mode in Ha2. unfold direct in Hl. rewrite Ha1, Ha2 in Hl. cbn [andb] in Hl. rewrite Nat.add_0_r in Hl. now rewrite <- (prefix_full out full H4 Hl).
Qed.

(** Success in general: all but at most a buffer full of bytes at the end. *)
Theorem C36_success_misses_at_most_a_buffer :
  forall (a : args) (w w' : world) (env env' : list reply),
    main a w env = (Some 0%N, w', env') ->
    exists input full out lost, reads a w input /\ delivers a input full /\ output_is a w w' out /\
      full = out ++ lost /\ length lost <= file_cap.
Proof.
  intros a w w' env env' H.
  destruct (main_output _ _ _ _ _ _ H) as [[_ K]|(input & full & out & H1 & H2 & H3 & [lost H4] & H5)]; [congruence|].
  destruct (H5 eq_refl) as [Hl _]. exists input, full, out, lost. do 4 (split; [assumption|]).
  rewrite H4, app_length in Hl. destruct (direct a); lia.
Qed.

(** If no call fails, the tool succeeds and everything is there, however few bytes each write takes. *)
Theorem C36_complete_without_failures :
  forall (a : args) (input : str) (full : bytes),
    delivers a input full ->
    exists calls, forall w env, reads a w input -> steady env -> calls <= length env ->
      exists w' env', main a w env = (Some 0%N, w', env') /\ output_is a w w' full.
Proof.
  exact (main_steady_calls rf complaint st file_cap line_cap).
Qed.

(** The output is determined by the input and the arguments. *)
Theorem C36_output_determined :
  forall (a : args) (w : world) (input input' : str) (full full' : bytes),
    reads a w input -> reads a w input' -> delivers a input full -> delivers a input' full' -> input = input' /\ full = full'.
Proof.
  intros a w input input' full full' Hr Hr' H H'. pose proof (reads_fun _ _ _ _ Hr Hr') as <-. split; [reflexivity|].
  destruct H as [[K (l & E & ->)]|[K (l & E & ->)]], H' as [[K' (l' & E' & ->)]|[K' (l' & E' & ->)]]; try contradiction; rewrite E in E'; now injection E' as ->.
Qed.
End Tool.
Print Assumptions C36_output_is_a_prefix.
Print Assumptions C36_failed_conversion_changes_nothing.
Print Assumptions C36_success_is_complete.
Print Assumptions C36_success_misses_at_most_a_buffer.
Print Assumptions C36_complete_without_failures.
Print Assumptions C36_output_determined.

Definition no_fractions : str -> option f64 := fun _ => None.
Definition std_file_cap : nat := N.to_nat 8192.
Definition std_line_cap : nat := N.to_nat 1024.
Definition some_args (input output : option str) (stats : bool) : args :=
  Args input output false false cCOMMA 2 false KFOff None EPOff stats.
Definition some_world : world :=
  World (fun p => if str_eqb p (lit "in.json") then Some (utf8 (lit "{""a"": [1, 2]}"))
                  else if str_eqb p (lit "in.toon") then Some (utf8 (lit "a[2]: 1,2")) else None) (utf8 (lit "null")) [] [] [].

(** ** The claim itself is false for buffered files *)

Lemma delivers_nonempty rf st a input : ~ delivers rf st a input [].
Proof.
  intros [[_ (ls & _ & H)]|[_ (ls & _ & H)]]; rewrite utf8_app in H; change (utf8 [cLF]) with [cLF] in H; symmetry in H;
    apply app_eq_nil in H as [_ H]; discriminate.
Qed.
Definition no_complaint : str -> str := fun _ => [].
Definition std_main := main no_fractions no_complaint usual_style std_file_cap std_line_cap.
Definition disk_full : reply := RError (lit "No space left on device (os error 28)").
(** Success is reported although the file is not complete: the error of the last write, made when the
    buffered writer goes out of scope, is ignored (disk full). *)
Theorem C36_success_is_complete_refuted :
  ~ (forall a w env w' env', std_main a w env = (Some 0%N, w', env') ->
      exists input full, reads a w input /\ delivers no_fractions usual_style a input full /\ output_is a w w' full).
Proof.
  intros H.
  specialize (H (some_args (Some (lit "in.json")) (Some (lit "out.toon")) false) some_world [RDone 1; RDone 1; disk_full; RDone 100]).
  destruct (std_main (some_args (Some (lit "in.json")) (Some (lit "out.toon")) false) some_world [RDone 1; RDone 1; disk_full; RDone 100]) as [[x w'] env'] eqn:E.
  assert (Ex : x = Some 0%N) by (pose proof (f_equal (fun x => fst (fst x)) E) as E1; cbn [fst] in E1; rewrite <- E1; vm_compute; reflexivity).
  assert (Ef : w_files w' (lit "out.toon") = Some []).
  { pose proof (f_equal (fun x => w_files (snd (fst x)) (lit "out.toon")) E) as E1. cbn [fst snd] in E1. rewrite <- E1. vm_compute. reflexivity. }
  subst x. destruct (H _ _ eq_refl) as (input & full & _ & Hd & Ho).
  unfold output_is in Ho. cbn [a_output some_args] in Ho. destruct Ho as (Ho & _). rewrite Ef in Ho. injection Ho as <-.
  exact (delivers_nonempty _ _ _ _ Hd).
Qed.
Print Assumptions C36_success_is_complete_refuted.

(** Converting a file in place is not safe: a process stopped at the wrong moment leaves neither the
    input nor the output. *)
Theorem C36_input_survives_refuted :
  ~ (forall a p w env x w' env', a_input a = Some p -> std_main a w env = (x, w', env') ->
      w_files w' p = w_files w p \/ exists input full, reads a w input /\ delivers no_fractions usual_style a input full /\ w_files w' p = Some full).
Proof.
  intros H.
  specialize (H (some_args (Some (lit "in.toon")) (Some (lit "in.toon")) false) (lit "in.toon") some_world [RDone 1; RDone 1]).
  destruct (std_main (some_args (Some (lit "in.toon")) (Some (lit "in.toon")) false) some_world [RDone 1; RDone 1]) as [[x w'] env'] eqn:E.
  specialize (H _ _ _ eq_refl eq_refl).
  assert (Ef : w_files w' (lit "in.toon") = Some []).
  { pose proof (f_equal (fun x => w_files (snd (fst x)) (lit "in.toon")) E) as E1. cbn [fst snd] in E1. rewrite <- E1. vm_compute. reflexivity. }
  rewrite Ef in H. destruct H as [H|(input & full & _ & Hd & Ho)]; [discriminate|]. injection Ho as <-.
  exact (delivers_nonempty _ _ _ _ Hd).
Qed.
Print Assumptions C36_input_survives_refuted.

Definition result_of (a : args) (env : list reply) : option N * option bytes * bytes * bytes :=
  let '(x, w', _) := std_main a some_world env in
  (x, match a_output a with Some p => w_files w' p | None => None end, w_stdout w', w_stderr w').
Example C36_example :
  (* everything is written in small pieces *)
  result_of (some_args (Some (lit "in.json")) None false) (repeat (RDone 3) 20) = (Some 0%N, None, utf8 (lit "a[2]: 1,2" ++ [cLF]), []) /\
  (* to a file, interrupted calls are repeated *)
  result_of (some_args (Some (lit "in.json")) (Some (lit "x")) false) (RDone 1 :: RDone 1 :: RInterrupted :: repeat (RDone 100) 9)
    = (Some 0%N, Some (utf8 (lit "a[2]: 1,2" ++ [cLF])), [], utf8 (lit "Encoded `in.json` " ++ [8594%N] ++ lit " `x`" ++ [cLF])) /\
  (* with --stats the failure is reported *)
  result_of (some_args (Some (lit "in.json")) (Some (lit "x")) true) [RDone 1; RDone 1; RDone 4; disk_full; RDone 100]
    = (Some 1%N, Some (utf8 (lit "a[2]")), [], utf8 (lit "Failed to write to file 'x': No space left on device (os error 28)" ++ [cLF])) /\
  (* decoding to standard output, killed on the way *)
  result_of (some_args (Some (lit "in.toon")) None false) [RDone 1; RDone 1] = (None, None, utf8 (lit "{"), []) /\
  (* standard output refuses a line and takes it at the end: the status is that of the error *)
  result_of (some_args (Some (lit "in.json")) None false) [RDone 1; RError (lit "busy"); RDone 100; RDone 100]
    = (Some 1%N, None, utf8 (lit "a[2]: 1,2" ++ [cLF]), utf8 (lit "Failed to write to stdout: busy" ++ [cLF])) /\
  (* no input file: nothing is created *)
  result_of (some_args (Some (lit "missing")) (Some (lit "x")) false) (repeat (RDone 100) 9)
    = (Some 1%N, None, [], utf8 (lit "Failed to read file 'missing': No such file or directory (os error 2)" ++ [cLF])).
Proof. repeat split; vm_compute; reflexivity. Qed.

(** ** C37 *)

(** Decoding is chosen by the flag, or by the extension toon in any mixture of upper and lower case
    unless the other flag is given; in all other cases encoding is. *)
Theorem C37_mode :
  forall a : args, detect_mode a = MDecode <->
    a_encode a = false /\
    (a_decode a = true \/ exists p e, a_input a = Some p /\ has_extension p e /\ Forall2 same_letter e (lit "toon")).
Proof. exact detect_mode_spec. Qed.
Print Assumptions C37_mode.

(** The extension of a path, as the standard library defines it. *)
Theorem C37_extension : forall path e : str, extension path = Some e <-> has_extension path e.
Proof. exact extension_spec. Qed.
Print Assumptions C37_extension.

Example C37_mode_example :
  map (fun p => detect_mode (some_args (Some (lit p)) None false))
    ["a.toon"; "dir.json/b.TooN"; "x.toon/"; "x.toon/./"; ".toon"; "a.toon.json"; "a.toon/b"; "toon"; "..toon"; "-"; "a.toon "]%string
  = [MDecode; MDecode; MDecode; MDecode; MEncode; MEncode; MEncode; MEncode; MDecode; MEncode; MEncode].
Proof. vm_compute. reflexivity. Qed.

(** The seven spellings of the three delimiters; nothing else is accepted. *)
Theorem C37_delimiter :
  forall (s : str) (d : char), parse_delimiter s = Some d <->
    In (s, d) [(lit ",", cCOMMA); (lit "comma", cCOMMA); (lit "|", cPIPE); (lit "pipe", cPIPE);
               (lit "\t", cTAB); ([cTAB], cTAB); (lit "tab", cTAB)].
Proof.
  intros s d. split.
  - unfold parse_delimiter.
    destruct (str_eqb s (lit ",")) eqn:E1; [apply str_eqb_eq in E1 as ->; intros H; injection H as <-; cbn; auto|].
    destruct (str_eqb s (lit "comma")) eqn:E2; [apply str_eqb_eq in E2 as ->; intros H; injection H as <-; cbn; auto|].
    destruct (str_eqb s (lit "|")) eqn:E3; [apply str_eqb_eq in E3 as ->; intros H; injection H as <-; cbn; auto|].
    destruct (str_eqb s (lit "pipe")) eqn:E4; [apply str_eqb_eq in E4 as ->; intros H; injection H as <-; cbn; auto|].
    destruct (str_eqb s (lit "\t")) eqn:E5; [apply str_eqb_eq in E5 as ->; intros H; injection H as <-; cbn; auto 10|].
    destruct (str_eqb s [cTAB]) eqn:E6; [apply str_eqb_eq in E6 as ->; intros H; injection H as <-; cbn; auto 10|].
    destruct (str_eqb s (lit "tab")) eqn:E7; [apply str_eqb_eq in E7 as ->; intros H; injection H as <-; cbn; auto 10|].
    discriminate.
  - intros H. cbn [In] in H. repeat destruct H as [H|H]; try contradiction; injection H as <- <-; reflexivity.
Qed.
Print Assumptions C37_delimiter.
Theorem C37_delimiter_standard : forall s d, parse_delimiter s = Some d -> std_delim d.
Proof.
  intros s d H. apply (proj1 (C37_delimiter s d)) in H. unfold std_delim.
  cbn [In] in H. repeat destruct H as [H|H]; try contradiction; injection H as <- <-; auto.
Qed.
Print Assumptions C37_delimiter_standard.

(** Options that are not given have their documented values: two spaces, a comma, no folding, no limit
    on the length of folded keys; strict, no expansion. *)
Definition given {A} (o : option A) (default : A) : option A := Some (match o with Some x => x | None => default end).
Theorem C37_encode_defaults :
  forall fuel v i dl kf fd r,
    encode fuel v (Some (EncOpts i dl kf fd r)) =
      encode fuel v (Some (EncOpts (given i 2) (given dl 44%N) (given kf KFOff) (given fd (2 ^ 64 - 1)%N) r)) /\
    encode fuel v None = encode fuel v (Some (EncOpts (Some 2) (Some 44%N) (Some KFOff) (Some (2 ^ 64 - 1)%N) None)).
Proof. intros fuel v i dl kf fd r. split; destruct i, dl, kf, fd; reflexivity. Qed.
Print Assumptions C37_encode_defaults.
Theorem C37_decode_defaults :
  forall text i s e,
    DecodeApi.try_decode text (Some (DecOpts i s e)) = DecodeApi.try_decode text (Some (DecOpts (given i 2) (given s true) (given e EPOff))) /\
    DecodeApi.try_decode text None = DecodeApi.try_decode text (Some (DecOpts (Some 2) (Some true) (Some EPOff))).
Proof. intros text i s e. split; destruct i, s, e; reflexivity. Qed.
Print Assumptions C37_decode_defaults.

(** Statistics do not change the output; options of one direction do not matter in the other. *)
Theorem C37_stats_only_adds_messages :
  forall rf st i o e d dl n ns kf fd ep s s' input full,
    delivers rf st (Args i o e d dl n ns kf fd ep s) input full <-> delivers rf st (Args i o e d dl n ns kf fd ep s') input full.
Proof. intros. reflexivity. Qed.
Print Assumptions C37_stats_only_adds_messages.
Theorem C37_other_direction :
  forall rf st i o e d dl n ns kf fd ep s dl' ns' kf' fd' ep' input full,
    let a := Args i o e d dl n ns kf fd ep s in
    (~ decodes a -> (delivers rf st a input full <-> delivers rf st (Args i o e d dl n ns' kf fd ep' s) input full)) /\
    (decodes a -> (delivers rf st a input full <-> delivers rf st (Args i o e d dl' n ns kf' fd' ep s) input full)).
Proof.
  intros rf st i o e d dl n ns kf fd ep s dl' ns' kf' fd' ep' input full a. unfold delivers.
  change (decodes (Args i o e d dl n ns' kf fd ep' s)) with (decodes a).
  change (decodes (Args i o e d dl' n ns kf' fd' ep s)) with (decodes a).
  split; intros K; (split; intros [[K' H]|[K' H]]; try contradiction; first [left; split; [exact K'|exact H]|right; split; [exact K'|exact H]]).
Qed.
Print Assumptions C37_other_direction.

(** The estimate used by the statistics is positive: the percentage is never a division by zero. *)
Theorem C37_estimate_positive : forall text, 1 <= estimate_tokens text.
Proof. intros text. unfold estimate_tokens. lia. Qed.
Print Assumptions C37_estimate_positive.
