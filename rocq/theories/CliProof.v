(** Input and output of the command line tool. *)
From Verif Require Import Chars Floats Json JsonInd Lex JsonText Serde EncodeApi Utf8 Utf8Proof ErrText Cli SpecCli CliPath.

Local Open Scope nat_scope.

(** * Writing *)

Definition opened (t : target) (w : world) : Prop :=
  match t with TFile p => exists c, w_files w p = Some c | _ => True end.
Definition wrote (t : target) (out : bytes) (w w' : world) : Prop :=
  w_pending w' = w_pending w /\
  match t with
  | TFile p => (exists c, w_files w p = Some c /\ only_file p w w' (c ++ out)) /\ w_stderr w' = w_stderr w
  | TStdout => only_stdout w w' out /\ w_stderr w' = w_stderr w
  | TStderr => unchanged w w' /\ w_stderr w' = w_stderr w ++ out
  end.
Lemma append_wrote t b w : opened t w -> wrote t b w (append t b w).
Proof.
  intros Ho. split; [destruct t; reflexivity|]. destruct t as [p| |]; cbn [opened append] in *.
  - split; [|reflexivity]. destruct Ho as [c Hc]. exists c. split; [exact Hc|]. unfold only_file, set_file. cbn [w_files w_stdin w_stdout]. rewrite Hc.
    split; [now rewrite str_eqb_refl|]. split; [|auto]. intros q Hq. now rewrite str_eqb_neq.
  - repeat split; reflexivity.
  - repeat split; reflexivity.
Qed.
Lemma wrote_nil t w : opened t w -> wrote t [] w w.
Proof.
  intros Ho. split; [reflexivity|]. destruct t as [p| |]; cbn [opened] in *.
  - split; [|reflexivity]. destruct Ho as [c Hc]. exists c. rewrite app_nil_r. repeat split; auto.
  - unfold only_stdout. rewrite app_nil_r. repeat split.
  - rewrite app_nil_r. repeat split.
Qed.
Lemma unchanged_refl w : unchanged w w.
Proof. repeat split. Qed.
Lemma unchanged_trans w1 w2 w3 : unchanged w1 w2 -> unchanged w2 w3 -> unchanged w1 w3.
Proof. intros (A & B & C) (D & E & F). split; [intros p; now rewrite D, A|split; congruence]. Qed.
Lemma wrote_trans t a b w1 w2 w3 : wrote t a w1 w2 -> wrote t b w2 w3 -> wrote t (a ++ b) w1 w3.
Proof.
  intros [P1 H1'] [P2 H2']. split; [congruence|]. destruct t as [p| |].
  - destruct H1' as [(c & Hc & H1 & H2 & H3 & H4) H5], H2' as [(d & Hd & G1 & G2 & G3 & G4) G5]. split; [|congruence]. exists c. split; [exact Hc|].
    rewrite H1 in Hd. injection Hd as <-. unfold only_file. rewrite app_assoc. split; [exact G1|]. split; [|split; congruence].
    intros q Hq. now rewrite G2, H2.
  - destruct H1' as [(H1 & H2 & H3) H4], H2' as [(G1 & G2 & G3) G4]. split; [|congruence]. unfold only_stdout. split; [intros p; now rewrite G1, H1|]. split; [congruence|].
    now rewrite G3, H3, app_assoc.
  - destruct H1' as [H1 H2], H2' as [G1 G2]. split; [eapply unchanged_trans; eauto|]. now rewrite G2, H2, app_assoc.
Qed.
Lemma wrote_opened t a w w' : wrote t a w w' -> opened t w'.
Proof. intros [_ H]. destruct t as [p| |]; cbn [opened] in *; auto. destruct H as [(c & _ & H & _) _]. eauto. Qed.
Lemma wrote_pending t a w w' : wrote t a w w' -> w_pending w' = w_pending w.
Proof. now intros [H _]. Qed.

Lemma drain_spec z t : forall env b w o rest w' env', drain z t b w env = (o, rest, w', env') -> opened t w ->
  exists out, b = out ++ rest /\ wrote t out w w' /\ (o = Ret tt -> rest = []).
Proof.
  induction env as [|r env IH]; intros b w o rest w' env' H Ho.
  - destruct b as [|x b]; cbn [drain] in H; injection H as <- <- <- <-; exists [];
      (split; [reflexivity|split; [now apply wrote_nil|try discriminate; auto]]).
  - destruct b as [|x b]; cbn [drain] in H.
    { injection H as <- <- <- <-. exists []. split; [reflexivity|split; [now apply wrote_nil|auto]]. }
    destruct r as [n| |why].
    + cbv zeta in H. destruct (Nat.eqb_spec (Nat.min n (length (x :: b))) 0) as [E|E].
      * injection H as <- <- <- <-. exists []. split; [reflexivity|split; [now apply wrote_nil|discriminate]].
      * set (k := Nat.min n (length (x :: b))) in *.
        pose proof (append_wrote t (firstn k (x :: b)) w Ho) as Hw.
        destruct (IH _ _ _ _ _ _ H (wrote_opened _ _ _ _ Hw)) as (out & E1 & E2 & E3).
        exists (firstn k (x :: b) ++ out). split; [|split; [eapply wrote_trans; eauto|exact E3]].
        rewrite <- app_assoc, <- E1. symmetry. apply firstn_skipn.
    + destruct (IH _ _ _ _ _ _ H Ho) as (out & E). exists out. exact E.
    + injection H as <- <- <- <-. exists []. split; [reflexivity|split; [now apply wrote_nil|discriminate]].
Qed.

(** What a write on a buffered writer does: [out] has left, the rest is still there, and unless
    there was an error nothing is lost. *)
Definition kept (o : outcome unit) (whole out buf : bytes) : Prop :=
  match o with
  | Ret _ => whole = out ++ buf
  | _ => exists lost, whole = out ++ buf ++ lost
  end.
Definition writes_well (wr : bytes -> buffered unit) (cap : nat) (t : target) : Prop :=
  forall b buf w env o buf' w' env', wr b buf w env = (o, buf', w', env') -> opened t w -> length buf <= cap ->
    length buf' <= cap /\ exists out, wrote t out w w' /\ kept o (buf ++ b) out buf'.

Lemma drain_kept z t b w env o rest w' env' : drain z t b w env = (o, rest, w', env') -> opened t w ->
  length rest <= length b /\ exists out, wrote t out w w' /\ kept o b out rest.
Proof.
  intros H Ho. destruct (drain_spec z t env b w o rest w' env' H Ho) as (out & E & Hw & Hr).
  split; [rewrite E, app_length; lia|]. exists out. split; [exact Hw|]. unfold kept. destruct o; [exact E| |]; exists []; now rewrite app_nil_r.
Qed.

Lemma buf_writes_well cap t : writes_well (buf_write_all cap t) cap t.
Proof.
  intros b buf w env o buf' w' env' H Ho Hl. unfold buf_write_all in H.
  destruct (Nat.ltb_spec (length b) (cap - length buf)) as [Hlt|Hge].
  { injection H as <- <- <- <-. split; [rewrite app_length; lia|]. exists []. split; [now apply wrote_nil|reflexivity]. }
  destruct (Nat.ltb_spec (cap - length buf) (length b)) as [Hgt|Hle].
  - destruct (drain zero_buffered t buf w env) as [[[o1 buf1] w1] env1] eqn:E1.
    destruct (drain_spec _ _ _ _ _ _ _ _ _ E1 Ho) as (out1 & Eb & Hw1 & Hr1).
    destruct o1 as [[]|e|].
    + rewrite (Hr1 eq_refl), app_nil_r in Eb. rewrite (Hr1 eq_refl) in H. clear E1. subst out1.
      destruct (Nat.leb_spec cap (length b)) as [Hc|Hc].
      * destruct (drain zero_whole t b w1 env1) as [[[o2 rest2] w2] env2] eqn:E2. injection H as <- <- <- <-.
        destruct (drain_spec _ _ _ _ _ _ _ _ _ E2 (wrote_opened _ _ _ _ Hw1)) as (out2 & E & Hw2 & Hr2).
        split; [cbn; lia|]. exists (buf ++ out2). split; [eapply wrote_trans; eauto|].
        unfold kept. destruct o2 as [[]| |].
        -- rewrite (Hr2 eq_refl), app_nil_r in E. subst out2. now rewrite app_nil_r.
        -- exists rest2. rewrite E, <- !app_assoc. reflexivity.
        -- exists rest2. rewrite E, <- !app_assoc. reflexivity.
      * injection H as <- <- <- <-. cbn [app]. split; [lia|]. exists buf. split; [exact Hw1|reflexivity].
    + injection H as <- <- <- <-. split; [rewrite Eb, app_length in Hl; lia|]. exists out1. split; [exact Hw1|]. exists b. rewrite Eb. now rewrite <- app_assoc.
    + injection H as <- <- <- <-. split; [rewrite Eb, app_length in Hl; lia|]. exists out1. split; [exact Hw1|]. exists b. rewrite Eb. now rewrite <- app_assoc.
  - destruct (Nat.leb_spec cap (length b)) as [Hc|Hc].
    + assert (buf = []) by (destruct buf; [reflexivity|cbn [length] in *; lia]). subst buf.
      destruct (drain zero_whole t b w env) as [[[o2 rest2] w2] env2] eqn:E2. injection H as <- <- <- <-.
      destruct (drain_spec _ _ _ _ _ _ _ _ _ E2 Ho) as (out2 & E & Hw2 & Hr2).
      split; [cbn; lia|]. exists out2. split; [exact Hw2|]. cbn [app]. unfold kept. destruct o2 as [[]| |].
      * rewrite (Hr2 eq_refl) in E. exact E.
      * exists rest2. exact E.
      * exists rest2. exact E.
    + injection H as <- <- <- <-. split; [rewrite app_length; lia|]. exists []. split; [now apply wrote_nil|reflexivity].
Qed.

Lemma split_last_lf_spec b : let (l, t) := split_last_lf b in b = l ++ t /\ ~ In cLF t /\ (l = [] \/ exists l', l = l' ++ [cLF]).
Proof.
  induction b as [|x b IH]; [repeat split; auto|]. cbn [split_last_lf]. destruct (split_last_lf b) as [l t]. destruct IH as (-> & Ht & Hl).
  destruct l as [|y l].
  - destruct (N.eqb_spec x cLF) as [->|Hx].
    + cbn [app]. split; [reflexivity|]. split; [exact Ht|]. right. now exists [].
    + cbn [app]. split; [reflexivity|]. split; [|now left]. intros [E|E]; [congruence|contradiction].
  - split; [reflexivity|]. split; [exact Ht|]. right. destruct Hl as [Hl|[l' Hl]]; [discriminate|]. exists (x :: l'). now rewrite Hl.
Qed.

Lemma line_writes_well cap t : writes_well (line_write_all cap t) cap t.
Proof.
  intros b buf w env o buf' w' env' H Ho Hl. unfold line_write_all in H.
  pose proof (split_last_lf_spec b) as Hs. destruct (split_last_lf b) as [lines tail]. destruct Hs as (-> & _ & _).
  destruct lines as [|x lines]; [change ([] ++ tail) with tail in *|].
  - assert (Hdr : forall o1 buf1 w1 env1, (match rev buf with
       | x :: _ => if (x =? cLF)%N then drain zero_buffered t buf w env else (Ret tt, buf, w, env) | [] => (Ret tt, buf, w, env) end) = (o1, buf1, w1, env1) ->
       length buf1 <= cap /\ exists out, wrote t out w w1 /\ kept o1 buf out buf1).
    { intros o1 buf1 w1 env1 E.
      assert (Hid : (Ret tt, buf, w, env) = (o1, buf1, w1, env1) -> length buf1 <= cap /\ exists out, wrote t out w w1 /\ kept o1 buf out buf1).
      { intros E'. injection E' as <- <- <- <-. split; [exact Hl|]. exists []. split; [now apply wrote_nil|reflexivity]. }
      destruct (rev buf) as [|x r]; [auto|]. destruct (x =? cLF)%N; [|auto].
      destruct (drain_kept _ _ _ _ _ _ _ _ _ E Ho) as [L K]. split; [lia|exact K]. }
    destruct (match rev buf with x :: _ => if (x =? cLF)%N then drain zero_buffered t buf w env else (Ret tt, buf, w, env) | [] => (Ret tt, buf, w, env) end) as [[[o1 buf1] w1] env1] eqn:E1.
    destruct (Hdr _ _ _ _ eq_refl) as (L1 & out1 & Hw1 & K1). destruct o1 as [[]|e|].
    + destruct (buf_writes_well cap t _ _ _ _ _ _ _ _ H (wrote_opened _ _ _ _ Hw1) L1) as (L2 & out2 & Hw2 & K2).
      split; [exact L2|]. exists (out1 ++ out2). split; [eapply wrote_trans; eauto|]. cbn [kept] in K1. subst buf. unfold kept in *.
      destruct o as [[]| |].
      * now rewrite <- !app_assoc, K2.
      * destruct K2 as [lost K2]. exists lost. now rewrite <- !app_assoc, K2.
      * destruct K2 as [lost K2]. exists lost. now rewrite <- !app_assoc, K2.
    + injection H as <- <- <- <-. split; [exact L1|]. exists out1. split; [exact Hw1|]. cbn [kept] in *. destruct K1 as [lost ->].
      exists (lost ++ tail). now rewrite <- !app_assoc.
    + injection H as <- <- <- <-. split; [exact L1|]. exists out1. split; [exact Hw1|]. cbn [kept] in *. destruct K1 as [lost ->].
      exists (lost ++ tail). now rewrite <- !app_assoc.
  - set (ls := x :: lines) in *. clearbody ls. clear x lines.
    assert (Hdr : forall o1 buf1 w1 env1,
       (if is_empty buf then let '(o, _, w, env) := drain zero_whole t ls w env in (o, buf, w, env)
        else let '(o, buf, w, env) := buf_write_all cap t ls buf w env in
             match o with Ret _ => drain zero_buffered t buf w env | o => (o, buf, w, env) end) = (o1, buf1, w1, env1) ->
       length buf1 <= cap /\ (o1 = Ret tt -> buf1 = []) /\ exists out, wrote t out w w1 /\ kept o1 (buf ++ ls) out buf1).
    { intros o1 buf1 w1 env1 E. destruct buf as [|y buf]; cbn [is_empty] in E.
      - destruct (drain zero_whole t ls w env) as [[[o2 rest] w2] env2] eqn:E2. injection E as <- <- <- <-.
        destruct (drain_spec _ _ _ _ _ _ _ _ _ E2 Ho) as (out & Eb & Hw & Hr). split; [cbn; lia|]. split; [auto|].
        exists out. split; [exact Hw|]. cbn [app]. unfold kept. destruct o2 as [[]| |].
        + rewrite (Hr eq_refl) in Eb. exact Eb.
        + exists rest. exact Eb.
        + exists rest. exact Eb.
      - destruct (buf_write_all cap t ls (y :: buf) w env) as [[[o2 buf2] w2] env2] eqn:E2.
        destruct (buf_writes_well cap t _ _ _ _ _ _ _ _ E2 Ho Hl) as (L2 & out2 & Hw2 & K2). destruct o2 as [[]| |].
        + destruct (drain_spec _ _ _ _ _ _ _ _ _ E (wrote_opened _ _ _ _ Hw2)) as (out3 & Eb & Hw3 & Hr3).
          split; [rewrite Eb, app_length in L2; lia|]. split; [exact Hr3|]. exists (out2 ++ out3). split; [eapply wrote_trans; eauto|].
          cbn [kept] in K2. rewrite K2, Eb. unfold kept. destruct o1; [now rewrite <- app_assoc| |]; exists []; now rewrite app_nil_r, <- app_assoc.
        + injection E as <- <- <- <-. split; [exact L2|]. split; [discriminate|]. eauto.
        + injection E as <- <- <- <-. split; [exact L2|]. split; [discriminate|]. eauto. }
    destruct (if is_empty buf then _ else _) as [[[o1 buf1] w1] env1] eqn:E1.
    destruct (Hdr _ _ _ _ eq_refl) as (L1 & Hn & out1 & Hw1 & K1). destruct o1 as [[]| |].
    + destruct (buf_writes_well cap t _ _ _ _ _ _ _ _ H (wrote_opened _ _ _ _ Hw1) L1) as (L2 & out2 & Hw2 & K2).
      split; [exact L2|]. exists (out1 ++ out2). split; [eapply wrote_trans; eauto|]. cbn [kept] in K1. rewrite app_assoc, K1. unfold kept in *.
      destruct o as [[]| |].
      * now rewrite <- !app_assoc, K2.
      * destruct K2 as [lost K2]. exists lost. now rewrite <- !app_assoc, K2.
      * destruct K2 as [lost K2]. exists lost. now rewrite <- !app_assoc, K2.
    + injection H as <- <- <- <-. split; [exact L1|]. exists out1. split; [exact Hw1|]. cbn [kept] in *. destruct K1 as [lost K1].
      exists (lost ++ tail). rewrite app_assoc, K1. now rewrite <- !app_assoc.
    + injection H as <- <- <- <-. split; [exact L1|]. exists out1. split; [exact Hw1|]. cbn [kept] in *. destruct K1 as [lost K1].
      exists (lost ++ tail). rewrite app_assoc, K1. now rewrite <- !app_assoc.
Qed.

(** A write that ends in a line feed leaves nothing in the buffer of standard output. *)
Lemma split_last_lf_end b : split_last_lf (b ++ [cLF]) = (b ++ [cLF], []).
Proof.
  pose proof (split_last_lf_spec (b ++ [cLF])) as H. destruct (split_last_lf (b ++ [cLF])) as [l t]. destruct H as (E & Ht & _).
  destruct (nil_or_not t) as [->|Hne]; [now rewrite app_nil_r in E; rewrite E|].
  exfalso. destruct (exists_last Hne) as (t' & x & ->). rewrite app_assoc in E. apply app_inj_tail in E as [_ <-].
  apply Ht. apply in_or_app. right. now left.
Qed.
Lemma line_ends_empty cap t b buf w env buf' w' env' : opened t w -> length buf <= cap ->
  line_write_all cap t (b ++ [cLF]) buf w env = (Ret tt, buf', w', env') -> buf' = [].
Proof.
  intros Ho Hl H. unfold line_write_all in H. rewrite split_last_lf_end in H.
  destruct (b ++ [cLF]) as [|x lines] eqn:Eb; [destruct b; discriminate|]. rewrite <- Eb in *. clear Eb x lines.
  set (ls := b ++ [cLF]) in *. clearbody ls. clear b.
  assert (Hdr : forall buf1 w1 env1,
     (if is_empty buf then let '(o, _, w, env) := drain zero_whole t ls w env in (o, buf, w, env)
      else let '(o, buf, w, env) := buf_write_all cap t ls buf w env in
           match o with Ret _ => drain zero_buffered t buf w env | o => (o, buf, w, env) end) = (Ret tt, buf1, w1, env1) -> buf1 = []).
  { intros buf1 w1 env1 E. destruct buf as [|y buf]; cbn [is_empty] in E.
    - destruct (drain zero_whole t ls w env) as [[[o2 rest] w2] env2]. injection E as _ <- _ _. reflexivity.
    - destruct (buf_write_all cap t ls (y :: buf) w env) as [[[o2 buf2] w2] env2] eqn:E2.
      destruct (buf_writes_well cap t _ _ _ _ _ _ _ _ E2 Ho Hl) as (L2 & out2 & Hw2 & K2). destruct o2 as [[]| |]; try discriminate.
      destruct (drain_spec _ _ _ _ _ _ _ _ _ E (wrote_opened _ _ _ _ Hw2)) as (out3 & Eb & Hw3 & Hr3). auto. }
  destruct (if is_empty buf then _ else _) as [[[o1 buf1] w1] env1] eqn:E1.
  destruct o1 as [[]| |]; try discriminate. rewrite (Hdr _ _ _ eq_refl) in H. unfold buf_write_all in H. cbn [length] in H.
  rewrite Nat.sub_0_r in H. destruct (0 <? cap).
  - injection H as <- _ _. reflexivity.
  - destruct (cap <? 0) eqn:Ec; [apply Nat.ltb_lt in Ec; lia|]. destruct (cap <=? 0).
    + destruct env1; cbn [drain] in H; injection H as <- _ _; reflexivity.
    + injection H as <- _ _. reflexivity.
Qed.

Lemma pieces_well wr cap t : writes_well wr cap t -> forall pieces buf w env o buf' w' env',
  write_pieces wr pieces buf w env = (o, buf', w', env') -> opened t w -> length buf <= cap ->
  length buf' <= cap /\ exists out, wrote t out w w' /\ kept o (buf ++ concat pieces) out buf'.
Proof.
  intros Hwr. induction pieces as [|b r IH]; intros buf w env o buf' w' env' H Ho Hl; cbn [write_pieces] in H.
  - injection H as <- <- <- <-. split; [exact Hl|]. exists []. split; [now apply wrote_nil|]. cbn [concat kept app]. now rewrite app_nil_r.
  - destruct (wr b buf w env) as [[[o1 buf1] w1] env1] eqn:E1.
    destruct (Hwr _ _ _ _ _ _ _ _ E1 Ho Hl) as (L1 & out1 & Hw1 & K1). cbn [concat]. destruct o1 as [[]| |].
    + destruct (IH _ _ _ _ _ _ _ H (wrote_opened _ _ _ _ Hw1) L1) as (L2 & out2 & Hw2 & K2).
      split; [exact L2|]. exists (out1 ++ out2). split; [eapply wrote_trans; eauto|]. cbn [kept] in K1. rewrite app_assoc, K1. unfold kept in *.
      destruct o as [[]| |].
      * now rewrite <- !app_assoc, K2.
      * destruct K2 as [lost K2]. exists lost. now rewrite <- !app_assoc, K2.
      * destruct K2 as [lost K2]. exists lost. now rewrite <- !app_assoc, K2.
    + injection H as <- <- <- <-. split; [exact L1|]. exists out1. split; [exact Hw1|]. cbn [kept] in *. destruct K1 as [lost K1].
      exists (lost ++ concat r). rewrite app_assoc, K1. now rewrite <- !app_assoc.
    + injection H as <- <- <- <-. split; [exact L1|]. exists out1. split; [exact Hw1|]. cbn [kept] in *. destruct K1 as [lost K1].
      exists (lost ++ concat r). rewrite app_assoc, K1. now rewrite <- !app_assoc.
Qed.

(** A whole buffered output: always a prefix; on success at most a buffer is missing. *)
Lemma drop_well wr cap t pieces w env o w' env' : writes_well wr cap t -> opened t w ->
  drop_into t (write_pieces wr pieces) w env = (o, w', env') ->
  exists out, wrote t out w w' /\ prefix out (concat pieces) /\
    (o = Ret tt -> length (concat pieces) <= length out + cap).
Proof.
  intros Hwr Ho H. unfold drop_into in H.
  destruct (write_pieces wr pieces [] w env) as [[[o1 buf1] w1] env1] eqn:E1.
  destruct (pieces_well wr cap t Hwr _ _ _ _ _ _ _ _ E1 Ho ltac:(cbn; lia)) as (L1 & out1 & Hw1 & K1). cbn [app] in K1.
  assert (Hp : exists lost, concat pieces = out1 ++ buf1 ++ lost).
  { unfold kept in K1. destruct o1; [exists []; now rewrite app_nil_r|exact K1|exact K1]. }
  assert (Hpre : forall out2 rest, buf1 = out2 ++ rest -> prefix (out1 ++ out2) (concat pieces)).
  { intros out2 rest E. destruct Hp as [lost ->]. exists (rest ++ lost). rewrite E. now rewrite <- !app_assoc. }
  destruct (drain zero_buffered t buf1 w1 env1) as [[[o2 rest] w2] env2] eqn:E2.
  destruct (drain_spec _ _ _ _ _ _ _ _ _ E2 (wrote_opened _ _ _ _ Hw1)) as (out2 & Eb & Hw2 & Hr2).
  assert (Hlen : o1 = Ret tt -> length (concat pieces) <= length (out1 ++ out2) + cap).
  { intros ->. cbn [kept] in K1. rewrite K1, !app_length. lia. }
  assert (Hall : wrote t (out1 ++ out2) w w2) by (eapply wrote_trans; eauto).
  assert (Hkill : (Killed, w1, env1) = (o, w', env') -> exists out, wrote t out w w' /\ prefix out (concat pieces) /\ (o = Ret tt -> length (concat pieces) <= length out + cap)).
  { intros E. injection E as <- <- <-. exists out1. split; [exact Hw1|]. split; [|discriminate]. destruct Hp as [lost ->]. exists (buf1 ++ lost). reflexivity. }
  destruct o1 as [[]|e|]; [| |auto].
  - destruct o2; injection H as <- <- <-; exists (out1 ++ out2); (split; [exact Hall|]); (split; [eapply Hpre; eauto|]); auto; discriminate.
  - destruct o2; injection H as <- <- <-; exists (out1 ++ out2); (split; [exact Hall|]); (split; [eapply Hpre; eauto|]); discriminate.
Qed.

(** Output through a buffer that starts empty on standard output: complete on success. *)
Lemma pieces_end_empty cap t init last : forall buf w env buf' w' env', opened t w -> length buf <= cap ->
  write_pieces (line_write_all cap t) (init ++ [last ++ [cLF]]) buf w env = (Ret tt, buf', w', env') -> buf' = [].
Proof.
  induction init as [|b r IH]; intros buf w env buf' w' env' Ho Hl H; cbn [app write_pieces] in H.
  - destruct (line_write_all cap t (last ++ [cLF]) buf w env) as [[[o1 buf1] w1] env1] eqn:E1. destruct o1 as [[]| |]; try discriminate.
    injection H as <- <- <-. eapply line_ends_empty; eauto.
  - destruct (line_write_all cap t b buf w env) as [[[o1 buf1] w1] env1] eqn:E1. destruct o1 as [[]| |]; try discriminate.
    destruct (line_writes_well cap t _ _ _ _ _ _ _ _ E1 Ho Hl) as (L1 & out1 & Hw1 & K1).
    eapply (IH buf1 w1 env1); eauto. eapply wrote_opened; eauto.
Qed.
Lemma line_drop_complete cap t init last w env buf' w' env' : opened t w ->
  write_pieces (line_write_all cap t) (init ++ [last ++ [cLF]]) [] w env = (Ret tt, buf', w', env') ->
  buf' = [] /\ wrote t (concat (init ++ [last ++ [cLF]])) w w'.
Proof.
  intros Ho H. pose proof (pieces_end_empty cap t init last [] w env buf' w' env' Ho (Nat.le_0_l cap) H) as ->. split; [reflexivity|].
  destruct (pieces_well _ cap t (line_writes_well cap t) _ _ _ _ _ _ _ _ H Ho ltac:(cbn; lia)) as (L1 & out1 & Hw1 & K1).
  cbn [app kept] in K1. rewrite app_nil_r in K1. now rewrite K1.
Qed.

(** * Failures are those of calls that were refused *)

Definition accounts {A} (t : target) (env env' : list reply) (o : outcome A) : Prop :=
  (exists used, env = used ++ env') /\ forall f, o = Raise f -> exists why, f = FIo (writing t) why /\ refused env why.
Lemma refused_app used env why : refused env why -> refused (used ++ env) why.
Proof. intros [H|[H K]]; [left|right; split; auto]; apply in_or_app; now right. Qed.
Lemma accounts_ret {A} t env (a : A) : accounts t env env (Ret a).
Proof. split; [now exists []|discriminate]. Qed.
Lemma accounts_killed {A} t env : accounts t env env (@Killed A).
Proof. split; [now exists []|discriminate]. Qed.
Lemma accounts_then {A B} t env env1 env2 (o1 : outcome A) (o2 : outcome B) : accounts t env env1 o1 -> accounts t env1 env2 o2 -> accounts t env env2 o2.
Proof.
  intros [[u ->] _] [[u' ->] H]. split; [exists (u ++ u'); apply app_assoc|]. intros f Hf. destruct (H f Hf) as (why & E & R).
  exists why. split; [exact E|]. now apply refused_app.
Qed.
Lemma accounts_as {A B} t env env' (o : outcome A) (o' : outcome B) :
  (forall f, o' = Raise f -> o = Raise f) -> accounts t env env' o -> accounts t env env' o'.
Proof. intros Hf [H1 H2]. split; [exact H1|]. auto. Qed.

Lemma drain_accounts z t : z = zero_whole \/ z = zero_buffered -> forall env b w o rest w' env',
  drain z t b w env = (o, rest, w', env') -> accounts t env env' o.
Proof.
  intros Hz. induction env as [|r env IH]; intros b w o rest w' env' H.
  - destruct b as [|x b]; cbn [drain] in H; injection H as <- <- <- <-; [apply accounts_ret|apply accounts_killed].
  - destruct b as [|x b]; cbn [drain] in H.
    { injection H as <- <- <- <-. apply accounts_ret. }
    destruct r as [n| |why].
    + cbv zeta in H. destruct (Nat.eqb_spec (Nat.min n (length (x :: b))) 0) as [E|E].
      * injection H as <- <- <- <-. split; [now exists [RDone n]|]. intros f Hf. injection Hf as <-. exists z. split; [reflexivity|].
        right. split; [|destruct Hz; auto]. left. f_equal. cbn [length] in E. lia.
      * eapply (accounts_then (A := unit) t _ env); [|eapply IH; exact H]. split; [now exists [RDone n]|]. instantiate (1 := Ret tt). discriminate.
    + eapply (accounts_then (A := unit) t _ env); [|eapply IH; exact H]. split; [now exists [RInterrupted]|]. instantiate (1 := Ret tt). discriminate.
    + injection H as <- <- <- <-. split; [now exists [RError why]|]. intros f Hf. injection Hf as <-. exists why. split; [reflexivity|]. left. now left.
Qed.
Lemma drain_whole t b w env o rest w' env' : drain zero_whole t b w env = (o, rest, w', env') -> accounts t env env' o.
Proof. apply drain_accounts. now left. Qed.
Lemma drain_buffered t b w env o rest w' env' : drain zero_buffered t b w env = (o, rest, w', env') -> accounts t env env' o.
Proof. apply drain_accounts. now right. Qed.

Definition accountable (wr : bytes -> buffered unit) (t : target) : Prop :=
  forall b buf w env o buf' w' env', wr b buf w env = (o, buf', w', env') -> accounts t env env' o.
Lemma buf_accounts cap t : accountable (buf_write_all cap t) t.
Proof.
  intros b buf w env o buf' w' env' H. unfold buf_write_all in H.
  destruct (length b <? cap - length buf); [injection H as <- <- <- <-; apply accounts_ret|].
  assert (Hd : forall o1 buf1 w1 env1, (if cap - length buf <? length b then drain zero_buffered t buf w env else (Ret tt, buf, w, env)) = (o1, buf1, w1, env1) ->
    accounts t env env1 o1).
  { intros o1 buf1 w1 env1 E. destruct (cap - length buf <? length b); [eapply drain_buffered; exact E|injection E as <- <- <- <-; apply accounts_ret]. }
  destruct (if cap - length buf <? length b then _ else _) as [[[o1 buf1] w1] env1] eqn:E1. specialize (Hd _ _ _ _ eq_refl).
  destruct o1 as [[]|f|]; [|injection H as <- <- <- <-; exact Hd|injection H as <- <- <- <-; exact Hd].
  destruct (cap <=? length b).
  - destruct (drain zero_whole t b w1 env1) as [[[o2 rest2] w2] env2] eqn:E2. injection H as <- <- <- <-.
    eapply accounts_then; [exact Hd|]. eapply drain_whole; exact E2.
  - injection H as <- <- <- <-. exact Hd.
Qed.
Lemma line_accounts cap t : accountable (line_write_all cap t) t.
Proof.
  intros b buf w env o buf' w' env' H. unfold line_write_all in H. destruct (split_last_lf b) as [[|x lines] tail].
  - assert (Hd : forall o1 buf1 w1 env1, (match rev buf with
       | x :: _ => if (x =? cLF)%N then drain zero_buffered t buf w env else (Ret tt, buf, w, env) | [] => (Ret tt, buf, w, env) end) = (o1, buf1, w1, env1) ->
       accounts t env env1 o1).
    { intros o1 buf1 w1 env1 E. destruct (rev buf) as [|x r]; [injection E as <- <- <- <-; apply accounts_ret|].
      destruct (x =? cLF)%N; [eapply drain_buffered; exact E|injection E as <- <- <- <-; apply accounts_ret]. }
    destruct (match rev buf with [] => _ | _ => _ end) as [[[o1 buf1] w1] env1] eqn:E1. specialize (Hd _ _ _ _ eq_refl).
    destruct o1 as [[]|f|]; [|injection H as <- <- <- <-; exact Hd|injection H as <- <- <- <-; exact Hd].
    eapply accounts_then; [exact Hd|]. eapply buf_accounts; exact H.
  - set (ls := x :: lines) in *. clearbody ls.
    assert (Hd : forall o1 buf1 w1 env1,
       (if is_empty buf then let '(o, _, w, env) := drain zero_whole t ls w env in (o, buf, w, env)
        else let '(o, buf, w, env) := buf_write_all cap t ls buf w env in
             match o with Ret _ => drain zero_buffered t buf w env | o => (o, buf, w, env) end) = (o1, buf1, w1, env1) ->
       accounts t env env1 o1).
    { intros o1 buf1 w1 env1 E. destruct (is_empty buf).
      - destruct (drain zero_whole t ls w env) as [[[o2 rest] w2] env2] eqn:E2. injection E as <- <- <- <-. eapply drain_whole; exact E2.
      - destruct (buf_write_all cap t ls buf w env) as [[[o2 buf2] w2] env2] eqn:E2. apply buf_accounts in E2.
        destruct o2 as [[]|f|]; [|injection E as <- <- <- <-; exact E2|injection E as <- <- <- <-; exact E2].
        eapply accounts_then; [exact E2|]. eapply drain_buffered; exact E. }
    destruct (if is_empty buf then _ else _) as [[[o1 buf1] w1] env1] eqn:E1. specialize (Hd _ _ _ _ eq_refl).
    destruct o1 as [[]|f|]; [|injection H as <- <- <- <-; exact Hd|injection H as <- <- <- <-; exact Hd].
    eapply accounts_then; [exact Hd|]. eapply buf_accounts; exact H.
Qed.
Lemma pieces_accounts wr t : accountable wr t -> forall pieces buf w env o buf' w' env',
  write_pieces wr pieces buf w env = (o, buf', w', env') -> accounts t env env' o.
Proof.
  intros Hwr. induction pieces as [|b r IH]; intros buf w env o buf' w' env' H; cbn [write_pieces] in H.
  - injection H as <- <- <- <-. apply accounts_ret.
  - destruct (wr b buf w env) as [[[o1 buf1] w1] env1] eqn:E1. apply Hwr in E1.
    destruct o1 as [[]|f|]; [|injection H as <- <- <- <-; exact E1|injection H as <- <- <- <-; exact E1].
    eapply accounts_then; [exact E1|]. eapply IH; exact H.
Qed.
Lemma drop_accounts wr t pieces w env o w' env' : accountable wr t ->
  drop_into t (write_pieces wr pieces) w env = (o, w', env') -> accounts t env env' o.
Proof.
  intros Hwr H. unfold drop_into in H. destruct (write_pieces wr pieces [] w env) as [[[o1 buf1] w1] env1] eqn:E1.
  apply (pieces_accounts _ _ Hwr) in E1.
  assert (Hk : forall o2 : outcome unit, (o2 = Killed \/ o2 = o1) -> (let '(o', _, w, env) := drain zero_buffered t buf1 w1 env1 in
     match o' with Killed => (Killed, w, env) | _ => (o1, w, env) end) = (o, w', env') -> accounts t env env' o).
  { intros _ _ E. destruct (drain zero_buffered t buf1 w1 env1) as [[[o3 rest] w3] env3] eqn:E3. apply drain_buffered in E3 as [E3 _].
    destruct E1 as [[u ->] E1]. destruct E3 as [u' ->].
    destruct o3 as [[]|f|]; injection E as <- <- <-; (split; [exists (u ++ u'); apply app_assoc|auto]); discriminate. }
  destruct o1 as [[]|f|]; [eapply (Hk Killed); auto|eapply (Hk Killed); auto|]. injection H as <- <- <-. exact E1.
Qed.

(** * Writing the output *)

Definition place (a : args) : target := match a_output a with Some p => TFile p | None => TStdout end.
Definition creates p (w : world) : world := World (set_file (w_files w) p []) (w_stdin w) (w_stdout w) (w_stderr w) (w_pending w).
Lemma creates_file p w w' out : wrote (TFile p) out (creates p w) w' ->
  only_file p w w' out /\ w_stderr w' = w_stderr w /\ w_pending w' = w_pending w.
Proof.
  intros (P & (c & Hc & (A & B & C & D)) & E). unfold creates in Hc. cbn [w_files] in Hc. unfold set_file in Hc. rewrite str_eqb_refl in Hc. injection Hc as <-.
  split; [|auto]. split; [exact A|]. split; [|auto]. intros q Hq. rewrite (B q Hq). cbn [creates w_files]. unfold set_file. now rewrite str_eqb_neq.
Qed.
Lemma creates_opened p w : opened (TFile p) (creates p w).
Proof. cbn [opened creates w_files]. unfold set_file. rewrite str_eqb_refl. eauto. Qed.

Lemma prefix_nil {A} (s : list A) : prefix [] s.
Proof. now exists s. Qed.
Lemma prefix_refl {A} (s : list A) : prefix s s.
Proof. exists []. now rewrite app_nil_r. Qed.
Lemma prefix_full {A} (p s : list A) : prefix p s -> length s <= length p -> p = s.
Proof. intros [r ->]. rewrite app_length. intros H. destruct r; [now rewrite app_nil_r|cbn in H; lia]. Qed.
Lemma prefix_app_l {A} (p q s : list A) : prefix (p ++ q) s -> prefix p s.
Proof. intros [r ->]. exists (q ++ r). apply eq_sym, app_assoc. Qed.

(** What a way of writing the output does: the file cannot be created, or a prefix is written; on
    success at most [cap] bytes of a file are missing and none of standard output. *)
Definition emits (cap : nat) (a : args) (m : io unit) (full : bytes) : Prop :=
  forall w env o w' env', m w env = (o, w', env') -> w_pending w = [] ->
    (exists used, env = used ++ env') /\ w_stderr w' = w_stderr w /\ (a_output a <> None -> w_pending w' = []) /\
    ((unchanged w w' /\ w_pending w' = [] /\ exists p, a_output a = Some p /\
        (o = Killed \/ exists why, o = Raise (FIo (OpCreateFile p) why) /\ refused env why)) \/
     exists out, output_is a w w' out /\ prefix (out ++ w_pending w') full /\
       (forall f, o = Raise f -> exists why, f = FIo (writing (place a)) why /\ refused env why) /\
       (o = Ret tt -> w_pending w' = [] /\ length full <= length out + cap /\ (a_output a = None -> out = full))).

Lemma write_all_wrote t b w env o w' env' : write_all t b w env = (o, w', env') -> opened t w ->
  exists out, wrote t out w w' /\ prefix out b /\ (o = Ret tt -> out = b).
Proof.
  unfold write_all. intros H Ho. destruct (drain zero_whole t b w env) as [[[o1 rest] w1] env1] eqn:E. injection H as <- <- <-.
  destruct (drain_spec _ _ _ _ _ _ _ _ _ E Ho) as (out & Eb & Hw & Hr). exists out. split; [exact Hw|]. split; [now exists rest|].
  intros Er. rewrite (Hr Er), app_nil_r in Eb. now symmetry.
Qed.
Lemma write_all_accounts t b w env o w' env' : write_all t b w env = (o, w', env') -> accounts t env env' o.
Proof.
  unfold write_all. intros H. destruct (drain zero_whole t b w env) as [[[o1 rest] w1] env1] eqn:E. injection H as <- <- <-.
  eapply drain_whole; exact E.
Qed.

(** Creating the file and writing to it. *)
Lemma create_emits cap a p m full : a_output a = Some p ->
  (forall w env o w' env', m w env = (o, w', env') -> opened (TFile p) w ->
     accounts (TFile p) env env' o /\ exists out, wrote (TFile p) out w w' /\ prefix out full /\
       (o = Ret tt -> length full <= length out + cap)) ->
  emits cap a (ibind (create p) (fun _ => m)) full.
Proof.
  intros Ea Hm w env o w' env' H Hp. unfold ibind, create in H. destruct env as [|r env].
  { injection H as <- <- <-. split; [now exists []|]. split; [reflexivity|]. split; [auto|]. left. split; [apply unchanged_refl|]. split; [exact Hp|]. exists p. auto. }
  assert (Hc : m (creates p w) env = (o, w', env') -> (exists used, r :: env = used ++ env') /\ w_stderr w' = w_stderr w /\ (a_output a <> None -> w_pending w' = []) /\
     exists out, output_is a w w' out /\ prefix (out ++ w_pending w') full /\
       (forall f, o = Raise f -> exists why, f = FIo (writing (place a)) why /\ refused (r :: env) why) /\
       (o = Ret tt -> w_pending w' = [] /\ length full <= length out + cap /\ (a_output a = None -> out = full))).
  { intros H'. destruct (Hm _ _ _ _ _ H' (creates_opened p w)) as ([[u Eu] Hf] & out & Hw & Hpre & Hl).
    destruct (creates_file p w w' out Hw) as (Ho & Hs & Hq). rewrite Hp in Hq.
    split; [exists (r :: u); now rewrite Eu|]. split; [exact Hs|]. split; [auto|]. exists out. unfold output_is, place. rewrite Ea, Hq, app_nil_r.
    split; [exact Ho|]. split; [exact Hpre|]. split.
    - intros f Ef. destruct (Hf f Ef) as (why & -> & R). exists why. split; [reflexivity|]. now apply (refused_app [r]).
    - intros Eo. split; [reflexivity|]. split; [auto|discriminate]. }
  destruct r as [n| |why].
  - destruct (Hc H) as (A & B & C & D). auto.
  - destruct (Hc H) as (A & B & C & D). auto.
  - injection H as <- <- <-. split; [now exists [RError why]|]. split; [reflexivity|]. split; [auto|]. left. split; [apply unchanged_refl|]. split; [exact Hp|].
    exists p. split; [exact Ea|]. right. exists why. split; [reflexivity|]. left. now left.
Qed.
(** Standard output. *)
Lemma stdout_emits cap a line_cap init : a_output a = None ->
  emits cap a (on_stdout (write_pieces (line_write_all line_cap TStdout) (init ++ [[cLF]]))) (concat (init ++ [[cLF]])).
Proof.
  intros Ea w env o w' env' H Hp. unfold on_stdout in H. rewrite Hp in H.
  destruct (write_pieces (line_write_all line_cap TStdout) (init ++ [[cLF]]) [] w env) as [[[o1 buf1] w1] env1] eqn:E1. injection H as <- <- <-.
  pose proof (pieces_accounts _ _ (line_accounts line_cap TStdout) _ _ _ _ _ _ _ _ E1) as [Hu Hf].
  destruct (pieces_well _ line_cap TStdout (line_writes_well _ _) _ _ _ _ _ _ _ _ E1 I ltac:(cbn; lia)) as (L1 & out & Hw & K). cbn [app] in K.
  split; [exact Hu|]. assert (Hw' := Hw). destruct Hw' as (_ & Ho & Hs). split; [exact Hs|]. split; [congruence|]. right.
  unfold output_is, place. rewrite Ea. exists out. split; [exact Ho|]. cbn [w_pending with_pending]. split.
  { unfold kept in K. destruct o1 as [[]|f|].
    - exists []. now rewrite app_nil_r.
    - destruct K as [lost K]. exists lost. now rewrite <- app_assoc.
    - destruct K as [lost K]. exists lost. now rewrite <- app_assoc. }
  split; [exact Hf|]. intros ->. destruct (line_drop_complete line_cap TStdout init [] w env buf1 w1 env1 I E1) as [-> Hc].
  split; [reflexivity|]. cbn [kept] in K. rewrite app_nil_r in K. change ([] ++ [cLF]) with [cLF] in *. rewrite <- K. split; [lia|auto].
Qed.

Lemma output_emits line_cap a data : emits 0 a (write_output line_cap a data) (data ++ [cLF]).
Proof.
  unfold write_output. destruct (a_output a) as [p|] eqn:Ea.
  - apply (create_emits 0 a p); [exact Ea|]. intros w env o w' env' H Ho. unfold ibind in H.
    destruct (write_all (TFile p) data w env) as [[o1 w1] env1] eqn:E1.
    pose proof (write_all_accounts _ _ _ _ _ _ _ E1) as A1.
    destruct (write_all_wrote _ _ _ _ _ _ _ E1 Ho) as (out1 & Hw1 & [r1 Hp1] & He1).
    destruct o1 as [[]| |].
    + destruct (write_all (TFile p) [cLF] w1 env1) as [[o2 w2] env2] eqn:E2. injection H as <- <- <-.
      split; [eapply accounts_then; [exact A1|]; eapply write_all_accounts; exact E2|].
      destruct (write_all_wrote _ _ _ _ _ _ _ E2 (wrote_opened _ _ _ _ Hw1)) as (out2 & Hw2 & [r2 Hp2] & He2).
      rewrite (He1 eq_refl) in *. exists (data ++ out2). split; [eapply wrote_trans; eauto|].
      split; [exists r2; now rewrite <- app_assoc, <- Hp2|]. intros Er. rewrite (He2 Er). lia.
    + injection H as <- <- <-. split; [exact A1|]. exists out1. split; [exact Hw1|].
      split; [exists (r1 ++ [cLF]); rewrite Hp1; now rewrite <- app_assoc|discriminate].
    + injection H as <- <- <-. split; [exact A1|]. exists out1. split; [exact Hw1|].
      split; [exists (r1 ++ [cLF]); rewrite Hp1; now rewrite <- app_assoc|discriminate].
  - exact (stdout_emits 0 a line_cap [data] Ea).
Qed.
Lemma buffered_emits file_cap line_cap a init : emits file_cap a (write_buffered file_cap line_cap a (init ++ [[cLF]])) (concat (init ++ [[cLF]])).
Proof.
  unfold write_buffered. destruct (a_output a) as [p|] eqn:Ea.
  - apply (create_emits file_cap a p); [exact Ea|]. intros w env o w' env' H Ho. split; [eapply drop_accounts; [apply buf_accounts|exact H]|].
    exact (drop_well _ file_cap (TFile p) _ _ _ _ _ _ (buf_writes_well _ _) Ho H).
  - exact (stdout_emits file_cap a line_cap init Ea).
Qed.

(** The pieces make up the text. *)
Lemma line_pieces_shape lines : forall i, exists init, line_pieces i lines = init ++ [[cLF]] /\
  concat init = match lines with [] => [] | _ => (if 0 <? i then [cLF] else []) ++ utf8 (join cLF lines) end.
Proof.
  induction lines as [|l r IH]; intros i; cbn [line_pieces].
  - exists []. split; reflexivity.
  - destruct (IH (S i)) as (init & E & C). exists ((if 0 <? i then [[cLF]] else []) ++ utf8 l :: init). split.
    + rewrite E, <- app_assoc. reflexivity.
    + rewrite concat_app. cbn [concat]. rewrite C. clear.
      assert (E1 : concat (if 0 <? i then [[cLF]] else []) = if 0 <? i then [cLF] else []) by (destruct (0 <? i); reflexivity).
      rewrite E1. f_equal. destruct r as [|m r].
      * cbn [join app]. now rewrite app_nil_r.
      * cbn [Nat.ltb Nat.leb]. change (join cLF (l :: m :: r)) with (l ++ cLF :: join cLF (m :: r)).
        rewrite utf8_app, utf8_cons. reflexivity.
Qed.
Lemma lines_text lines : exists init, line_pieces 0 lines = init ++ [[cLF]] /\ concat (init ++ [[cLF]]) = utf8 (join cLF lines ++ [cLF]).
Proof.
  destruct (line_pieces_shape lines 0) as (init & E & C). exists init. split; [exact E|]. rewrite concat_app, C, utf8_app.
  f_equal. destruct lines; reflexivity.
Qed.
Lemma utf8_concat l : concat (map utf8 l) = utf8 (concat l).
Proof. induction l as [|x l IH]; [reflexivity|]. cbn [map concat]. now rewrite utf8_app, IH. Qed.
Lemma chunks_text chunks : concat (map utf8 chunks ++ [[cLF]]) = utf8 (concat chunks ++ [cLF]).
Proof. rewrite concat_app, utf8_concat, utf8_app. reflexivity. Qed.

(** * Reading and speaking *)

Lemma is_stdin_spec a : is_stdin a = true <-> from_stdin a.
Proof.
  unfold is_stdin, from_stdin. destruct (a_input a) as [p|]; [|split; auto]. split.
  - intros H. apply str_eqb_eq in H as ->. now right.
  - intros [H|H]; [discriminate|]. injection H as ->. apply str_eqb_refl.
Qed.
Lemma not_stdin a : is_stdin a = false -> exists p, a_input a = Some p /\ p <> lit "-".
Proof.
  unfold is_stdin. destruct (a_input a) as [p|]; [|discriminate]. intros H. exists p. split; [reflexivity|]. intros ->.
  rewrite str_eqb_refl in H. discriminate.
Qed.
Definition source (a : args) (w : world) : option bytes :=
  if is_stdin a then Some (w_stdin w) else match a_input a with Some p => w_files w p | None => None end.
Lemma source_spec a w b : source a w = Some b <->
  (from_stdin a -> b = w_stdin w) /\ (forall p, a_input a = Some p -> p <> lit "-" -> w_files w p = Some b).
Proof.
  unfold source. destruct (is_stdin a) eqn:E.
  - apply is_stdin_spec in E. split.
    + intros H. injection H as <-. split; [auto|]. intros p Hp Hn. destruct E as [E|E]; congruence.
    + intros [H _]. now rewrite H.
  - destruct (not_stdin _ E) as (p & Ep & Hn). rewrite Ep. split.
    + intros H. split; [|intros q Hq _; congruence]. intros K. apply is_stdin_spec in K. congruence.
    + intros [_ H]. auto.
Qed.
Lemma source_none a w : source a w = None -> exists p, a_input a = Some p /\ p <> lit "-" /\ w_files w p = None.
Proof.
  unfold source. destruct (is_stdin a) eqn:E; [discriminate|]. destruct (not_stdin _ E) as (p & Ep & Hn). rewrite Ep. eauto.
Qed.
Lemma reads_source a w input : reads a w input <-> exists b, source a w = Some b /\ from_utf8 b = Some input.
Proof.
  split.
  - intros (b & Hb & H1 & H2). exists b. split; [now apply source_spec|exact Hb].
  - intros (b & H & Hb). exists b. split; [exact Hb|]. now apply source_spec.
Qed.
Lemma reads_fun a w input input' : reads a w input -> reads a w input' -> input = input'.
Proof. intros H H'. apply reads_source in H as (b & Hb & E), H' as (b' & Hb' & E'). congruence. Qed.

Definition read_failure (a : args) (w : world) (env : list reply) (f : failure) : Prop :=
  exists op why, f = FIo op why /\ cannot_read a why (display (io_error op why)) /\ (refused env why \/ no_input a w why).
Lemma read_input_spec a w env o w' env' : read_input a w env = (o, w', env') ->
  w' = w /\ (exists used, env = used ++ env') /\
  match o with
  | Ret s => reads a w s
  | Raise f => read_failure a w env f
  | Killed => True
  end.
Proof.
  unfold read_input. destruct env as [|r env]; [intros H; injection H as <- <- <-; split; [auto|]; split; [now exists []|auto]|].
  fold (source a w). set (op := if is_stdin a then OpReadStdin else _).
  assert (Hop : forall why, cannot_read a why (display (io_error op why))).
  { intros why. unfold op, cannot_read. destruct (is_stdin a) eqn:E.
    - left. split; [now apply is_stdin_spec|reflexivity].
    - destruct (not_stdin _ E) as (p & Ep & Hn). right. exists p. rewrite Ep. split; [intros K; apply is_stdin_spec in K; congruence|]. split; [reflexivity|].
      cbn [io_error display]. now rewrite <- ?app_assoc. }
  clearbody op. cbv zeta.
  assert (Hc : (match source a w with
    | None => (Raise (FIo op not_found), w, env)
    | Some b => match from_utf8 b with Some s => (Ret s, w, env) | None => (Raise (FIo op not_utf8), w, env) end
    end) = (o, w', env') -> w' = w /\ (exists used, r :: env = used ++ env') /\
       match o with Ret s => reads a w s | Raise f => read_failure a w (r :: env) f | Killed => True end).
  { destruct (source a w) as [b|] eqn:Eb.
    - destruct (from_utf8 b) as [s|] eqn:Es; intros H; injection H as <- <- <-; (split; [auto|]; split; [now exists [r]|]).
      + apply reads_source. eauto.
      + exists op, not_utf8. split; [reflexivity|]. split; [apply Hop|]. right. right. split; [reflexivity|]. exists b. split; [exact Es|]. now apply source_spec.
    - intros H; injection H as <- <- <-. split; [auto|]. split; [now exists [r]|]. exists op, not_found. split; [reflexivity|]. split; [apply Hop|]. right. left. split; [reflexivity|].
      now apply source_none. }
  destruct r as [n| |why]; auto. intros H; injection H as <- <- <-. split; [auto|]. split; [now exists [RError why]|].
  exists op, why. split; [reflexivity|]. split; [apply Hop|]. left. left. now left.
Qed.

(** What speaking does. *)
Definition speaks (m : io unit) (ms : list str) : Prop :=
  forall w env o w' env', m w env = (o, w', env') -> exists s, unchanged w w' /\ w_pending w' = w_pending w /\
    w_stderr w' = w_stderr w ++ s /\ prefix s (said ms) /\ (o = Ret tt -> s = said ms) /\ (exists used, env = used ++ env') /\
    (forall f, o = Raise f -> f = FPanic /\ exists why, refused env why).
Lemma said_one m : said [m] = utf8 (m ++ [cLF]).
Proof. unfold said. cbn [map concat]. apply app_nil_r. Qed.
Lemma said_app a b : said (a ++ b) = said a ++ said b.
Proof. unfold said. now rewrite map_app, concat_app. Qed.
Lemma say_speaks text : speaks (say text) [text].
Proof.
  intros w env o w' env' H. unfold say in H. destruct (write_all TStderr (utf8 (text ++ [cLF])) w env) as [[o1 w1] env1] eqn:E.
  destruct (write_all_accounts _ _ _ _ _ _ _ E) as [Hu Hf]. destruct (write_all_wrote _ _ _ _ _ _ _ E I) as (out & (Hp & Hn & Hs) & Hpre & He).
  exists out. rewrite said_one.
  assert (w' = w1 /\ env' = env1 /\ (o = Ret tt -> o1 = Ret tt) /\ (forall f, o = Raise f -> f = FPanic /\ exists f', o1 = Raise f')) as (-> & -> & K1 & K2).
  { destruct o1 as [[]|f|]; injection H as <- <- <-; (do 2 (split; [reflexivity|])); (split; [first [reflexivity|discriminate]|]); intros g Hg; first [discriminate Hg|injection Hg as <-; eauto]. }
  do 3 (split; [assumption|]). split; [exact Hpre|]. split; [auto|]. split; [exact Hu|].
  intros f Ef. destruct (K2 f Ef) as (-> & f' & Ef'). destruct (Hf f' Ef') as (why & _ & R). split; [reflexivity|]. now exists why.
Qed.
Lemma ret_speaks : speaks (iret tt) [].
Proof.
  intros w env o w' env' H. injection H as <- <- <-. exists []. rewrite app_nil_r. split; [apply unchanged_refl|]. do 2 (split; [reflexivity|]).
  split; [apply prefix_nil|]. split; [reflexivity|]. split; [now exists []|discriminate].
Qed.
Lemma bind_speaks p q ps qs : speaks p ps -> speaks q qs -> speaks (ibind p (fun _ => q)) (ps ++ qs).
Proof.
  intros Hp Hq w env o w' env' H. unfold ibind in H. destruct (p w env) as [[o1 w1] env1] eqn:E.
  destruct (Hp _ _ _ _ _ E) as (s & H1 & H2 & H3 & H4 & H5 & (u & Hu) & H7). rewrite said_app. destruct o1 as [[]|f|].
  - destruct (Hq _ _ _ _ _ H) as (s' & K1 & K2 & K3 & [r K4] & K5 & (u' & K6) & K7). rewrite (H5 eq_refl) in *.
    exists (said ps ++ s'). split; [eapply unchanged_trans; eauto|]. split; [congruence|]. split; [now rewrite K3, H3, app_assoc|].
    split; [exists r; now rewrite K4, app_assoc|]. split; [intros Eo; now rewrite K5|]. split; [exists (u ++ u'); now rewrite Hu, K6, app_assoc|].
    intros f Ef. destruct (K7 f Ef) as (-> & why & R). split; [reflexivity|]. exists why. rewrite Hu. now apply refused_app.
  - injection H as <- <- <-. exists s. do 3 (split; [assumption|]). split; [destruct H4 as [r H4]; exists (r ++ said qs); now rewrite H4, app_assoc|].
    split; [discriminate|]. split; [now exists u|]. intros g Hg. injection Hg as <-. now apply H7.
  - injection H as <- <- <-. exists s. do 3 (split; [assumption|]). split; [destruct H4 as [r H4]; exists (r ++ said qs); now rewrite H4, app_assoc|].
    split; [discriminate|]. split; [now exists u|]. discriminate.
Qed.

(** * The whole run *)

Lemma output_unchanged a w w1 w2 out : output_is a w w1 out -> unchanged w1 w2 -> output_is a w w2 out.
Proof.
  unfold output_is. intros H (A & B & C). destruct (a_output a) as [p|].
  - destruct H as (H1 & H2 & H3 & H4). split; [now rewrite A|]. split; [intros q Hq; rewrite A; auto|]. split; congruence.
  - destruct H as (H1 & H2 & H3). split; [intros q; now rewrite A|]. split; congruence.
Qed.

Section Whole.
Variable rf : str -> option f64.
Variable complaint : str -> str.
Variable st : num_style.
Variables file_cap line_cap : nat.

Definition direct (a : args) : bool := a_stats a && match detect_mode a with MEncode => true | MDecode => false end.
(** The messages after the output. *)
Definition stats_said (a : args) (input text : str) : list str :=
  if direct a then
    estimates_text (estimate_tokens input) (estimate_tokens text) ::
    if 0 <? estimate_tokens input - estimate_tokens text then [saved_text (estimate_tokens input - estimate_tokens text) (estimate_tokens input)] else []
  else [].
Definition done_said (a : args) : list str :=
  match a_output a with
  | Some p => [done_text (match detect_mode a with MEncode => lit "Encoded" | MDecode => lit "Decoded" end) a p]
  | None => []
  end.
Definition fails (a : args) (input : str) (e : err) : Prop :=
  match detect_mode a with
  | MEncode => encode_to_toon_lines rf 0 input (Some (cli_encode_options a)) = Err e
  | MDecode => decode_to_json_chunks st input (Some (cli_decode_options a)) = Err e
  end.

(** How a run ends. *)
Inductive ran (a : args) (w : world) (env : list reply) : outcome unit -> world -> Prop :=
| ran_stopped : ran a w env Killed w
| ran_unread f : read_failure a w env f -> ran a w env (Raise f) w
| ran_unconverted input e : reads a w input -> fails a input e -> ran a w env (Raise (FConvert e)) w
| ran_uncreated input full o w' p : reads a w input -> delivers rf st a input full ->
    unchanged w w' -> w_pending w' = [] -> w_stderr w' = w_stderr w -> a_output a = Some p ->
    (o = Killed \/ exists why, o = Raise (FIo (OpCreateFile p) why) /\ refused env why) -> ran a w env o w'
| ran_unwritten input full out o w' : reads a w input -> delivers rf st a input full ->
    output_is a w w' out -> prefix (out ++ w_pending w') full -> w_stderr w' = w_stderr w -> (a_output a <> None -> w_pending w' = []) ->
    (o = Killed \/ exists why, o = Raise (FIo (writing (place a)) why) /\ refused env why) -> ran a w env o w'
| ran_written input text out s o w' : reads a w input -> delivers rf st a input (utf8 (text ++ [cLF])) ->
    output_is a w w' out -> prefix out (utf8 (text ++ [cLF])) -> w_pending w' = [] ->
    length (utf8 (text ++ [cLF])) <= length out + (if direct a then 0 else file_cap) -> (a_output a = None -> out = utf8 (text ++ [cLF])) ->
    w_stderr w' = w_stderr w ++ s -> prefix s (said (stats_said a input text ++ done_said a)) ->
    (o = Ret tt -> s = said (stats_said a input text ++ done_said a)) ->
    (forall f, o = Raise f -> f = FPanic /\ exists why, refused env why) -> ran a w env o w'.

Lemma emitted a m k text input ms w env0 env o w' env' : (exists used, env0 = used ++ env) -> w_pending w = [] -> reads a w input -> delivers rf st a input (utf8 (text ++ [cLF])) ->
  emits (if direct a then 0 else file_cap) a m (utf8 (text ++ [cLF])) -> speaks k ms -> ms = stats_said a input text ++ done_said a ->
  ibind m (fun _ => k) w env = (o, w', env') -> ran a w env0 o w' /\ exists used, env0 = used ++ env'.
Proof.
  intros [u0 E0] Hp Hr Hd Hm Hk -> H. unfold ibind in H. destruct (m w env) as [[o1 w1] env1] eqn:E.
  destruct (Hm _ _ _ _ _ E Hp) as ([u Hu] & Hs & Hpn & [(Hn & Hp1 & p & Ea & Ho)|(out & Ho & Hpre & Hf & Hret)]).
  - assert (H' : o1 = o /\ w1 = w').
    { destruct Ho as [->|(why & -> & _)]; injection H as <- <- <-; auto. }
    assert (Hv : env1 = env') by (destruct Ho as [->|(why & -> & _)]; now injection H as _ _ <-). subst env1.
    destruct H' as [-> ->]. split; [|exists (u0 ++ u); now rewrite E0, Hu, app_assoc]. eapply ran_uncreated; eauto. destruct Ho as [->|(why & -> & R)]; [now left|right]. exists why. split; [reflexivity|].
    rewrite E0. now apply refused_app.
  - destruct o1 as [[]|f|].
    + destruct (Hret eq_refl) as (Hp1 & Hl & Hc). destruct (Hk _ _ _ _ _ H) as (s & K1 & K2 & K3 & K4 & K5 & [u' K6] & K7).
      rewrite Hp1, app_nil_r in Hpre. split; [|exists (u0 ++ u ++ u'); now rewrite E0, Hu, K6, !app_assoc].
      eapply ran_written; [exact Hr|exact Hd|eapply output_unchanged; eauto|exact Hpre|congruence|exact Hl|exact Hc|rewrite K3; f_equal; exact Hs|exact K4|exact K5|].
      intros f Ef. destruct (K7 f Ef) as (-> & why & R). split; [reflexivity|]. exists why. rewrite E0, Hu. now do 2 apply refused_app.
    + injection H as <- <- <-. destruct (Hf f eq_refl) as (why & -> & R). split; [|exists (u0 ++ u); now rewrite E0, Hu, app_assoc]. eapply ran_unwritten; eauto. right. exists why. split; [reflexivity|].
      rewrite E0. now apply refused_app.
    + injection H as <- <- <-. split; [|exists (u0 ++ u); now rewrite E0, Hu, app_assoc]. eapply ran_unwritten; eauto.
Qed.

Lemma bind_assoc (m : io unit) (p q : io unit) w env :
  ibind (ibind m (fun _ => p)) (fun _ => q) w env = ibind m (fun _ => ibind p (fun _ => q)) w env.
Proof. unfold ibind. destruct (m w env) as [[[[]| |] w1] env1]; reflexivity. Qed.
Lemma done_speaks a verb : verb = (match detect_mode a with MEncode => lit "Encoded" | MDecode => lit "Decoded" end) ->
  speaks (match a_output a with Some path => say (done_text verb a path) | None => iret tt end) (done_said a).
Proof. intros ->. unfold done_said. destruct (a_output a); [apply say_speaks|apply ret_speaks]. Qed.

Lemma encodes_mode a : detect_mode a = MEncode <-> ~ decodes a.
Proof.
  pose proof (detect_mode_spec a) as H. fold (decodes a) in H. split.
  - intros E K. apply H in K. congruence.
  - intros K. destruct (detect_mode a) eqn:E; [reflexivity|]. exfalso. apply K. now apply H.
Qed.
Lemma decodes_mode a : detect_mode a = MDecode <-> decodes a.
Proof. exact (detect_mode_spec a). Qed.
Lemma delivers_encoded a input ls : detect_mode a = MEncode -> encode_to_toon_lines rf 0 input (Some (cli_encode_options a)) = Ok ls ->
  delivers rf st a input (utf8 (join cLF ls ++ [cLF])).
Proof. intros E H. left. split; [now apply encodes_mode|]. exists ls. split; [exact H|reflexivity]. Qed.
Lemma delivers_decoded a input cs : detect_mode a = MDecode -> decode_to_json_chunks st input (Some (cli_decode_options a)) = Ok cs ->
  delivers rf st a input (utf8 (concat cs ++ [cLF])).
Proof.
  intros E H. right. split; [now apply decodes_mode|]. exists cs. split; [|reflexivity]. rewrite <- H. unfold cli_decode_options. now destruct (a_no_strict a).
Qed.
Lemma fails_delivers a input e full : fails a input e -> ~ delivers rf st a input full.
Proof.
  unfold fails. intros H [[K (ls & E & _)]|[K (cs & E & _)]].
  - apply encodes_mode in K. rewrite K in H. unfold cli_encode_options in H. congruence.
  - apply decodes_mode in K. rewrite K in H. unfold cli_decode_options in H. destruct (a_no_strict a); cbn [negb] in H; congruence.
Qed.

Lemma run_spec a w env o w' env' : run rf st file_cap line_cap a w env = (o, w', env') -> w_pending w = [] -> ran a w env o w' /\ exists used, env = used ++ env'.
Proof.
  intros H Hp. unfold run in H.
  assert (Hd : direct a = a_stats a && match detect_mode a with MEncode => true | MDecode => false end) by reflexivity.
  destruct (detect_mode a) eqn:Em; unfold run_encode, run_decode in H; unfold ibind at 1 in H;
    destruct (read_input a w env) as [[o1 w1] env1] eqn:E; destruct (read_input_spec _ _ _ _ _ _ E) as (-> & Hu & Hr);
    (destruct o1 as [input|f|]; [|injection H as <- <- <-; split; [now apply ran_unread|exact Hu]|injection H as <- <- <-; split; [apply ran_stopped|exact Hu]]).
  - rewrite Bool.andb_true_r in Hd. unfold ibind at 1 in H.
    destruct (encode_to_toon_lines rf 0 input (Some (cli_encode_options a))) as [ls|e] eqn:Ec; cbn [lift iret iraise] in H.
    2:{ injection H as <- <- <-. split; [|exact Hu]. eapply ran_unconverted; [exact Hr|]. unfold fails. now rewrite Em. }
    pose proof (delivers_encoded _ _ _ Em Ec) as Hdel. pose proof (done_speaks a (lit "Encoded") ltac:(now rewrite Em)) as Hdone.
    destruct (a_stats a).
    + cbv zeta in H. rewrite bind_assoc in H. eapply (emitted a _ _ (join cLF ls) input); [exact Hu|exact Hp|exact Hr|exact Hdel| | | |exact H].
      * rewrite Hd. rewrite utf8_app. apply output_emits.
      * apply bind_speaks; [|exact Hdone]. apply bind_speaks; [apply say_speaks|].
        instantiate (1 := if 0 <? estimate_tokens input - estimate_tokens (join cLF ls) then [saved_text (estimate_tokens input - estimate_tokens (join cLF ls)) (estimate_tokens input)] else []).
        destruct (0 <? _); [apply say_speaks|apply ret_speaks].
      * unfold stats_said. rewrite Hd. reflexivity.
    + eapply (emitted a _ _ (join cLF ls) input); [exact Hu|exact Hp|exact Hr|exact Hdel| | | |exact H].
      * rewrite Hd. unfold write_lines. destruct (lines_text ls) as (init & Ei & C). rewrite Ei, <- C. apply buffered_emits.
      * exact Hdone.
      * unfold stats_said. now rewrite Hd.
  - rewrite Bool.andb_false_r in Hd. unfold ibind at 1 in H.
    destruct (decode_to_json_chunks st input (Some (cli_decode_options a))) as [cs|e] eqn:Ec; cbn [lift iret iraise] in H.
    2:{ injection H as <- <- <-. split; [|exact Hu]. eapply ran_unconverted; [exact Hr|]. unfold fails. now rewrite Em. }
    pose proof (delivers_decoded _ _ _ Em Ec) as Hdel.
    eapply (emitted a _ _ (concat cs) input); [exact Hu|exact Hp|exact Hr|exact Hdel| | | |exact H].
    + rewrite Hd. unfold write_chunks. rewrite <- (chunks_text cs). apply buffered_emits.
    + apply done_speaks. now rewrite Em.
    + unfold stats_said. now rewrite Hd.
Qed.

(** * The end of the process *)

Lemma leave_spec status w env x w' env' : leave status w env = (x, w', env') ->
  exists more lost, w_pending w = more ++ lost /\ only_stdout w w' more /\ w_stderr w' = w_stderr w /\ (x = Some status \/ x = None) /\
    (w_pending w = [] -> x = Some status).
Proof.
  unfold leave. intros H. destruct (drain zero_buffered TStdout (w_pending w) w env) as [[[o rest] w1] env1] eqn:E.
  destruct (drain_spec _ _ _ _ _ _ _ _ _ E I) as (out & Eb & (Hp & Ho & Hs) & Hr). exists out, rest. split; [exact Eb|].
  assert (x = Some status \/ x = None) as Hx by (destruct o; injection H as <- <- <-; auto).
  assert (only_stdout w w' out /\ w_stderr w' = w_stderr w) as [K1 K2] by (destruct o; injection H as <- <- <-; auto).
  do 3 (split; [assumption|]). intros En. rewrite En in E. destruct env as [|r env]; cbn [drain] in E; injection E as <- <- <- <-; now injection H as <- _ _.
Qed.
Lemma unchanged_pending w b w' : unchanged (with_pending w b) w' <-> unchanged w w'.
Proof. reflexivity. Qed.
Lemma main_spec a w env x w' env' : main rf complaint st file_cap line_cap a w env = (x, w', env') ->
  exists o w1, ran a (with_pending w []) env o w1 /\
    match o with
    | Ret _ => x = Some 0%N /\ w' = with_pending w1 []
    | Raise FPanic => x = Some 134%N /\ w' = w1
    | Raise f => exists s more lost, w_pending w1 = more ++ lost /\ only_stdout w1 w' more /\ w_stderr w' = w_stderr w1 ++ s /\
        ends 1 [failure_text complaint (input_text a w) f] env x s
    | Killed => x = None /\ w' = w1
    end.
Proof.
  unfold main. intros H. destruct (run rf st file_cap line_cap a (with_pending w []) env) as [[o w1] env1] eqn:E.
  destruct (run_spec _ _ _ _ _ _ E eq_refl) as [Hran [u Hu]]. exists o, w1. split; [exact Hran|].
  assert (Hsay : forall f, (let '(o, w', env) := say (failure_text complaint (input_text a w) f) w1 env1 in
     match o with Ret _ => leave 1 w' env | Raise _ => (Some 134%N, w', env) | Killed => (None, w', env) end) = (x, w', env') ->
     exists s more lost, w_pending w1 = more ++ lost /\ only_stdout w1 w' more /\ w_stderr w' = w_stderr w1 ++ s /\
        ends 1 [failure_text complaint (input_text a w) f] env x s).
  { intros f K. destruct (say (failure_text complaint (input_text a w) f) w1 env1) as [[o2 w2] env2] eqn:E2.
    destruct (say_speaks _ _ _ _ _ _ E2) as (s & (K1 & K2 & K3) & Kp & Ks & Kpre & Kr & _ & Kf). exists s. destruct o2 as [[]|g|].
    - apply leave_spec in K as (more & lost & L1 & (L2 & L3 & L4) & L5 & L6 & _). exists more, lost. split; [now rewrite <- Kp|]. split.
      { split; [intros p; now rewrite L2|]. split; congruence. }
      split; [congruence|]. split; [exact Kpre|]. split; [auto|]. destruct L6; auto.
    - injection K as <- <- <-. exists [], (w_pending w1). split; [reflexivity|]. split; [split; [auto|]; split; [auto|now rewrite app_nil_r]|]. split; [exact Ks|].
      split; [exact Kpre|]. split; [discriminate|]. right. left. split; [reflexivity|]. destruct (Kf g eq_refl) as (_ & why & R). exists why.
      rewrite Hu. now apply refused_app.
    - injection K as <- <- <-. exists [], (w_pending w1). split; [reflexivity|]. split; [split; [auto|]; split; [auto|now rewrite app_nil_r]|]. split; [exact Ks|].
      split; [exact Kpre|]. split; [discriminate|]. auto. }
  destruct o as [[]|f|].
  - assert (Hp : w_pending w1 = []).
    { inversion Hran as [| | |? ? ? ? ? ? ? ? ? ? ? Ho|? ? ? ? ? ? ? ? ? ? ? Ho|]; subst; [| |assumption].
      - destruct Ho as [Ho|(? & Ho & _)]; discriminate.
      - destruct Ho as [Ho|(? & Ho & _)]; discriminate. }
    unfold leave in H. rewrite Hp in H. destruct env1; cbn [drain] in H; injection H as <- <- <-; auto.
  - destruct f; [now apply Hsay|now apply Hsay|]. injection H as <- <- <-. auto.
  - injection H as <- <- <-. auto.
Qed.

(** * When nothing goes wrong *)

Lemma drain_steady z t : forall env b w, steady env -> length b <= length env ->
  exists w' env', drain z t b w env = (Ret tt, [], w', env') /\ steady env' /\ length env <= length env' + length b.
Proof.
  induction env as [|r env IH]; intros b w Hs Hl.
  - destruct b; [|cbn in Hl; lia]. cbn. eauto.
  - destruct b as [|x b]; [cbn [drain]; exists w, (r :: env); split; [reflexivity|]; split; [exact Hs|lia]|].
    inversion Hs as [|? ? [n ->] Hs']; subst. cbn [drain]. cbv zeta.
    destruct (Nat.eqb_spec (Nat.min (S n) (length (x :: b))) 0) as [E|E]; [cbn [length] in E; lia|].
    set (k := Nat.min (S n) (length (x :: b))) in *.
    destruct (IH (skipn k (x :: b)) (append t (firstn k (x :: b)) w) Hs') as (w' & env' & E' & Hs'' & Hl').
    { rewrite skipn_length. cbn [length] in *. lia. }
    exists w', env'. split; [exact E'|]. split; [exact Hs''|]. rewrite skipn_length in Hl'. cbn [length] in *. lia.
Qed.

Definition steady_writer (wr : bytes -> buffered unit) : Prop := forall b buf w env, steady env -> length buf + length b <= length env ->
  exists buf' w' env', wr b buf w env = (Ret tt, buf', w', env') /\ steady env' /\ length env + length buf' <= length env' + length buf + length b.

Lemma buf_steady cap t : steady_writer (buf_write_all cap t).
Proof.
  intros b buf w env Hs Hl. unfold buf_write_all.
  destruct (length b <? cap - length buf).
  { exists (buf ++ b), w, env. split; [reflexivity|]. split; [exact Hs|]. rewrite app_length. lia. }
  assert (H1 : exists buf1 w1 env1, (if cap - length buf <? length b then drain zero_buffered t buf w env else (Ret tt, buf, w, env)) = (Ret tt, buf1, w1, env1) /\
    steady env1 /\ length env + length buf1 <= length env1 + length buf /\ length buf1 <= length buf).
  { destruct (cap - length buf <? length b).
    - destruct (drain_steady zero_buffered t env buf w Hs ltac:(lia)) as (w1 & env1 & E & Hs1 & Hl1). exists [], w1, env1. rewrite E. cbn [length]. repeat split; auto; lia.
    - exists buf, w, env. repeat split; auto; lia. }
  destruct H1 as (buf1 & w1 & env1 & H1 & Hs1 & Hl1 & Hl1'). unfold bytes in *. rewrite H1.
  destruct (cap <=? length b).
  - destruct (drain_steady zero_whole t env1 b w1 Hs1 ltac:(lia)) as (w2 & env2 & -> & Hs2 & Hl2). exists buf1, w2, env2. repeat split; auto. lia.
  - exists (buf1 ++ b), w1, env1. split; [reflexivity|]. split; [exact Hs1|]. rewrite app_length. lia.
Qed.
Lemma line_steady cap t : steady_writer (line_write_all cap t).
Proof.
  intros b buf w env Hs Hl. unfold line_write_all.
  pose proof (split_last_lf_spec b) as Hsp. destruct (split_last_lf b) as [lines tail]. destruct Hsp as (-> & _ & _).
  destruct lines as [|x lines]; [change ([] ++ tail) with tail in *|].
  - assert (H1 : exists buf1 w1 env1, (match rev buf with x :: _ => if (x =? cLF)%N then drain zero_buffered t buf w env else (Ret tt, buf, w, env) | [] => (Ret tt, buf, w, env) end) = (Ret tt, buf1, w1, env1) /\
      steady env1 /\ length env + length buf1 <= length env1 + length buf).
    { assert (Hid : exists buf1 w1 env1, (@Ret unit tt, buf, w, env) = (Ret tt, buf1, w1, env1) /\ steady env1 /\ length env + length buf1 <= length env1 + length buf)
        by (exists buf, w, env; repeat split; auto; lia).
      destruct (rev buf) as [|x r]; [exact Hid|]. destruct (x =? cLF)%N; [|exact Hid].
      destruct (drain_steady zero_buffered t env buf w Hs ltac:(lia)) as (w1 & env1 & E & Hs1 & Hl1). exists [], w1, env1. rewrite E. cbn [length]. repeat split; auto; lia. }
    destruct H1 as (buf1 & w1 & env1 & H1 & Hs1 & Hl1). unfold bytes in *. rewrite H1.
    destruct (buf_steady cap t tail buf1 w1 env1 Hs1) as (buf2 & w2 & env2 & E & Hs2 & Hl2); [lia|].
    exists buf2, w2, env2. split; [exact E|]. split; [exact Hs2|]. lia.
  - set (ls := x :: lines) in *. clearbody ls. rewrite app_length in *.
    assert (H1 : exists buf1 w1 env1, (if is_empty buf then let '(o, _, w, env) := drain zero_whole t ls w env in (o, buf, w, env)
        else let '(o, buf, w, env) := buf_write_all cap t ls buf w env in
             match o with Ret _ => drain zero_buffered t buf w env | o => (o, buf, w, env) end) = (Ret tt, buf1, w1, env1) /\
      steady env1 /\ length env + length buf1 <= length env1 + length buf + length ls).
    { destruct (is_empty buf).
      - destruct (drain_steady zero_whole t env ls w Hs ltac:(lia)) as (w1 & env1 & E & Hs1 & Hl1). exists buf, w1, env1. rewrite E. repeat split; auto; lia.
      - destruct (buf_steady cap t ls buf w env Hs ltac:(lia)) as (buf2 & w2 & env2 & -> & Hs2 & Hl2).
        destruct (drain_steady zero_buffered t env2 buf2 w2 Hs2 ltac:(lia)) as (w3 & env3 & -> & Hs3 & Hl3). exists [], w3, env3. cbn [length]. repeat split; auto; lia. }
    destruct H1 as (buf1 & w1 & env1 & H1 & Hs1 & Hl1). unfold bytes in *. rewrite H1.
    destruct (buf_steady cap t tail buf1 w1 env1 Hs1) as (buf2 & w2 & env2 & E & Hs2 & Hl2); [lia|].
    exists buf2, w2, env2. split; [exact E|]. split; [exact Hs2|]. lia.
Qed.
Lemma pieces_steady wr : steady_writer wr -> forall pieces buf w env, steady env -> length buf + length (concat pieces) <= length env ->
  exists buf' w' env', write_pieces wr pieces buf w env = (Ret tt, buf', w', env') /\ steady env' /\
    length env + length buf' <= length env' + length buf + length (concat pieces).
Proof.
  intros Hw. induction pieces as [|b r IH]; intros buf w env Hs Hl; cbn [write_pieces concat] in *.
  - exists buf, w, env. repeat split; auto. cbn [length]. lia.
  - rewrite app_length in *. destruct (Hw b buf w env Hs ltac:(lia)) as (buf1 & w1 & env1 & -> & Hs1 & Hl1).
    destruct (IH buf1 w1 env1 Hs1 ltac:(lia)) as (buf2 & w2 & env2 & E & Hs2 & Hl2). exists buf2, w2, env2. repeat split; auto. lia.
Qed.
Lemma drop_steady wr cap t pieces w env : steady_writer wr -> writes_well wr cap t -> opened t w -> steady env -> length (concat pieces) <= length env ->
  exists w' env', drop_into t (write_pieces wr pieces) w env = (Ret tt, w', env') /\ steady env' /\
    length env <= length env' + length (concat pieces) /\ wrote t (concat pieces) w w'.
Proof.
  intros Hst Hwr Ho Hs Hl. unfold drop_into.
  destruct (pieces_steady wr Hst pieces [] w env Hs) as (buf1 & w1 & env1 & E & Hs1 & Hl1); [cbn [length]; lia|]. rewrite E. cbn [length] in Hl1.
  destruct (pieces_well wr cap t Hwr _ _ _ _ _ _ _ _ E Ho ltac:(cbn; lia)) as (L1 & out1 & Hw1 & K1). cbn [app kept] in K1.
  destruct (drain_steady zero_buffered t env1 buf1 w1 Hs1 ltac:(lia)) as (w2 & env2 & E2 & Hs2 & Hl2). rewrite E2.
  destruct (drain_spec _ _ _ _ _ _ _ _ _ E2 (wrote_opened _ _ _ _ Hw1)) as (out2 & Eb & Hw2 & _). rewrite app_nil_r in Eb. subst out2.
  exists w2, env2. split; [reflexivity|]. split; [exact Hs2|]. split; [lia|]. rewrite K1. eapply wrote_trans; eauto.
Qed.

Lemma steady_cons env : steady env -> 1 <= length env -> exists n env', env = RDone (S n) :: env' /\ steady env' /\ length env = S (length env').
Proof. intros H Hl. destruct env as [|r env]; [cbn in Hl; lia|]. inversion H as [|? ? [n ->] H']; subst. exists n, env. auto. Qed.
Lemma write_all_steady t b w env : opened t w -> steady env -> length b <= length env ->
  exists w' env', write_all t b w env = (Ret tt, w', env') /\ steady env' /\ length env <= length env' + length b /\ wrote t b w w'.
Proof.
  intros Ho Hs Hl. unfold write_all. destruct (drain_steady zero_whole t env b w Hs Hl) as (w2 & env2 & E2 & Hs2 & Hl2). rewrite E2.
  destruct (drain_spec _ _ _ _ _ _ _ _ _ E2 Ho) as (out2 & Eb & Hw2 & _). rewrite app_nil_r in Eb. subst out2. exists w2, env2. auto.
Qed.

Definition emits_steady (a : args) (m : io unit) (full : bytes) : Prop := forall w env, w_pending w = [] -> steady env -> 1 + length full <= length env ->
  exists w' env', m w env = (Ret tt, w', env') /\ steady env' /\ length env <= length env' + 1 + length full /\ output_is a w w' full.
Definition speaks_steady (m : io unit) (ms : list str) : Prop := forall w env, steady env -> length (said ms) <= length env ->
  exists w' env', m w env = (Ret tt, w', env') /\ steady env' /\ length env <= length env' + length (said ms).
Lemma ss_say text : speaks_steady (say text) [text].
Proof.
  intros w env H Hl. rewrite said_one in *. unfold say. destruct (write_all_steady TStderr _ w env I H Hl) as (w' & env' & -> & H' & L' & _).
  exists w', env'. auto.
Qed.
Lemma ss_ret : speaks_steady (iret tt) [].
Proof. intros w env H Hl. exists w, env. repeat split; auto. lia. Qed.
Lemma ss_bind p q ps qs : speaks_steady p ps -> speaks_steady q qs -> speaks_steady (ibind p (fun _ => q)) (ps ++ qs).
Proof.
  intros Hp Hq w env H Hl. rewrite said_app, app_length in *. unfold ibind. destruct (Hp w env H ltac:(lia)) as (w1 & env1 & -> & H1 & L1).
  destruct (Hq w1 env1 H1 ltac:(lia)) as (w2 & env2 & E2 & H2 & L2). exists w2, env2. repeat split; auto. lia.
Qed.
Lemma stdout_steady a pieces : a_output a = None ->
  emits_steady a (on_stdout (write_pieces (line_write_all line_cap TStdout) (pieces ++ [[cLF]]))) (concat (pieces ++ [[cLF]])).
Proof.
  intros Ea w env Hp H Hl. unfold on_stdout, output_is. rewrite Ea, Hp.
  destruct (pieces_steady _ (line_steady line_cap TStdout) (pieces ++ [[cLF]]) [] w env H) as (buf1 & w1 & env1 & E & H1 & L1); [cbn [length]; lia|].
  rewrite E. destruct (line_drop_complete line_cap TStdout pieces [] w env buf1 w1 env1 I E) as [-> (_ & Ho & _)]. cbn [length] in L1.
  eexists _, env1. split; [reflexivity|]. split; [exact H1|]. split; [lia|]. exact Ho.
Qed.
Lemma buffered_steady a pieces : emits_steady a (write_buffered file_cap line_cap a (pieces ++ [[cLF]])) (concat (pieces ++ [[cLF]])).
Proof.
  unfold write_buffered. destruct (a_output a) as [p|] eqn:Ea; [|now apply stdout_steady].
  intros w env Hp H Hl. unfold output_is. rewrite Ea.
  destruct (steady_cons env H ltac:(lia)) as (n & env1 & -> & H1 & L1). unfold ibind, create. fold (creates p w).
  destruct (drop_steady _ file_cap (TFile p) (pieces ++ [[cLF]]) (creates p w) env1 (buf_steady _ _) (buf_writes_well _ _) (creates_opened p w) H1 ltac:(lia)) as (w2 & env2 & -> & H2 & L2 & W2).
  exists w2, env2. split; [reflexivity|]. split; [exact H2|]. split; [lia|]. now apply creates_file.
Qed.
Lemma output_steady a data : emits_steady a (write_output line_cap a data) (data ++ [cLF]).
Proof.
  unfold write_output. destruct (a_output a) as [p|] eqn:Ea; [|exact (stdout_steady a [data] Ea)].
  intros w env Hp H Hl. unfold output_is. rewrite Ea. rewrite app_length in *. cbn [length] in *.
  destruct (steady_cons env H ltac:(lia)) as (n & env1 & -> & H1 & L1). unfold ibind, create. fold (creates p w).
  destruct (write_all_steady (TFile p) data (creates p w) env1 (creates_opened p w) H1 ltac:(lia)) as (w2 & env2 & -> & H2 & L2 & W2).
  destruct (write_all_steady (TFile p) [cLF] w2 env2 (wrote_opened _ _ _ _ W2) H2 ltac:(cbn [length]; lia)) as (w3 & env3 & -> & H3 & L3 & W3).
  exists w3, env3. cbn [length] in *. split; [reflexivity|]. split; [exact H3|]. split; [lia|]. apply creates_file. eapply wrote_trans; eauto.
Qed.
Lemma done_steady a verb : verb = (match detect_mode a with MEncode => lit "Encoded" | MDecode => lit "Decoded" end) ->
  speaks_steady (match a_output a with Some path => say (done_text verb a path) | None => iret tt end) (done_said a).
Proof. intros ->. unfold done_said. destruct (a_output a); [apply ss_say|apply ss_ret]. Qed.
Lemma emitted_steady a m k full ms w env : w_pending w = [] -> emits_steady a m full -> speaks k ms -> speaks_steady k ms -> steady env ->
  1 + length full + length (said ms) <= length env ->
  exists w' env', ibind m (fun _ => k) w env = (Ret tt, w', env') /\ output_is a w w' full.
Proof.
  intros Hp Hm Hk Hks H Hl. unfold ibind. destruct (Hm w env Hp H ltac:(lia)) as (w1 & env1 & -> & H1 & L1 & O1).
  destruct (Hks w1 env1 H1 ltac:(lia)) as (w2 & env2 & E2 & H2 & L2). rewrite E2. exists w2, env2. split; [reflexivity|].
  destruct (Hk _ _ _ _ _ E2) as (s & K & _). eapply output_unchanged; eauto.
Qed.

Lemma run_steady a input full : delivers rf st a input full ->
  exists text, full = utf8 (text ++ [cLF]) /\ forall w env, w_pending w = [] -> reads a w input -> steady env ->
    length full + length (said (stats_said a input text ++ done_said a)) + 2 <= length env ->
    exists w' env', run rf st file_cap line_cap a w env = (Ret tt, w', env') /\ output_is a w w' full.
Proof.
  intros Hd.
  assert (E : forall w n env1, reads a w input -> read_input a w (RDone (S n) :: env1) = (Ret input, w, env1)).
  { intros w n env1 Hr. unfold read_input. fold (source a w). apply reads_source in Hr as (b & -> & ->). reflexivity. }
  assert (Hdir : direct a = a_stats a && match detect_mode a with MEncode => true | MDecode => false end) by reflexivity.
  unfold run. destruct Hd as [[Hm (ls & El & Et)]|[Hm (cs & Ec & Et)]].
  - apply encodes_mode in Hm. change (encode_to_toon_lines rf 0 input (Some (cli_encode_options a)) = Ok ls) in El. exists (join cLF ls). split; [exact Et|].
    intros w env Hp Hr Hs Hl. destruct (steady_cons env Hs ltac:(lia)) as (n & env1 & -> & H1 & L1).
    rewrite Hm. unfold run_encode, ibind at 1. rewrite (E w n env1 Hr). unfold ibind at 1. rewrite El. cbn [lift iret]. unfold stats_said in Hl. rewrite Hm, Bool.andb_true_r in Hdir. rewrite Hdir in Hl.
    pose proof (done_speaks a (lit "Encoded") ltac:(now rewrite Hm)) as Hd1. pose proof (done_steady a (lit "Encoded") ltac:(now rewrite Hm)) as Hd2.
    subst full. destruct (a_stats a).
    + cbv zeta. rewrite bind_assoc. rewrite utf8_app in *. change (utf8 [cLF]) with [cLF] in *. eapply emitted_steady; [exact Hp|apply output_steady| | |exact H1|].
      * apply bind_speaks; [|exact Hd1]. apply bind_speaks; [apply say_speaks|].
        instantiate (1 := if 0 <? estimate_tokens input - estimate_tokens (join cLF ls) then [saved_text (estimate_tokens input - estimate_tokens (join cLF ls)) (estimate_tokens input)] else []).
        destruct (0 <? _); [apply say_speaks|apply ret_speaks].
      * apply ss_bind; [|exact Hd2]. apply ss_bind; [apply ss_say|]. destruct (0 <? _); [apply ss_say|apply ss_ret].
      * change ([estimates_text (estimate_tokens input) (estimate_tokens (join cLF ls))] ++ ?x) with (estimates_text (estimate_tokens input) (estimate_tokens (join cLF ls)) :: x). lia.
    + unfold write_lines. destruct (lines_text ls) as (init & Ei & C). rewrite Ei, <- C in *.
      eapply emitted_steady; [exact Hp|apply buffered_steady|exact Hd1|exact Hd2|exact H1|]. cbn [app] in Hl. lia.
  - apply decodes_mode in Hm. assert (Ec' : decode_to_json_chunks st input (Some (cli_decode_options a)) = Ok cs).
    { rewrite <- Ec. unfold cli_decode_options. now destruct (a_no_strict a). }
    exists (concat cs). split; [exact Et|].
    intros w env Hp Hr Hs Hl. destruct (steady_cons env Hs ltac:(lia)) as (n & env1 & -> & H1 & L1).
    rewrite Hm. unfold run_decode, ibind at 1. rewrite (E w n env1 Hr). unfold ibind at 1. rewrite Ec'. cbn [lift iret]. unfold stats_said in Hl. rewrite Hm, Bool.andb_false_r in Hdir. rewrite Hdir in Hl.
    pose proof (done_speaks a (lit "Decoded") ltac:(now rewrite Hm)) as Hd1. pose proof (done_steady a (lit "Decoded") ltac:(now rewrite Hm)) as Hd2.
    subst full. unfold write_chunks. rewrite <- chunks_text in *.
    eapply emitted_steady; [exact Hp|apply buffered_steady|exact Hd1|exact Hd2|exact H1|]. cbn [app] in Hl. lia.
Qed.
Lemma main_steady a input full : delivers rf st a input full ->
  exists text, full = utf8 (text ++ [cLF]) /\ forall w env, reads a w input -> steady env ->
    length full + length (said (stats_said a input text ++ done_said a)) + 2 <= length env ->
    exists w' env', main rf complaint st file_cap line_cap a w env = (Some 0%N, w', env') /\ output_is a w w' full.
Proof.
  intros Hd. destruct (run_steady a input full Hd) as (text & Et & H). exists text. split; [exact Et|].
  intros w env Hr Hs Hl. destruct (H (with_pending w []) env eq_refl Hr Hs Hl) as (w1 & env1 & E & Ho).
  destruct (main rf complaint st file_cap line_cap a w env) as [[x w'] env'] eqn:Em. unfold main in Em. rewrite E in Em.
  destruct (run_spec _ _ _ _ _ _ E eq_refl) as [Hran _].
  assert (Hp : w_pending w1 = []).
  { inversion Hran as [| | |? ? ? ? ? ? ? ? ? ? ? Hx|? ? ? ? ? ? ? ? ? ? ? Hx|]; subst; [| |assumption].
    - destruct Hx as [Hx|(? & Hx & _)]; discriminate.
    - destruct Hx as [Hx|(? & Hx & _)]; discriminate. }
  unfold leave in Em. rewrite Hp in Em. exists w', env'. destruct env1; cbn [drain] in Em; injection Em as <- <- <-; auto.
Qed.
Lemma main_steady_calls a input full : delivers rf st a input full ->
  exists calls, forall w env, reads a w input -> steady env -> calls <= length env ->
    exists w' env', main rf complaint st file_cap line_cap a w env = (Some 0%N, w', env') /\ output_is a w w' full.
Proof. intros Hd. destruct (main_steady a input full Hd) as (text & _ & H). eexists. exact H. Qed.
End Whole.
