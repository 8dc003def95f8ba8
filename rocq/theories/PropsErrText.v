(** C54: the text of an error determines the error. *)
From Verif Require Import Chars Floats Json Shared DecodeApi Lex NumProof SpecRead SpecError ErrText SpecMessage MessageProof PropsError Fixtures.

Local Open Scope nat_scope.

(** A number at the start of a text that goes on with something else than a digit. *)
Definition halts (s : str) : Prop := match s with [] => True | c :: _ => is_digit c = false end.
Lemma num_split n m r r' : num n ++ r = num m ++ r' -> halts r -> halts r' -> n = m /\ r = r'.
Proof.
  unfold num. intros E H H'.
  assert (G : forall a b, all_digits a -> all_digits b -> a ++ r = b ++ r' -> a = b /\ r = r').
  { clear E. induction a as [|x a IH]; intros [|y b] Da Db E; cbn [app] in E; auto.
    - exfalso. subst r. inversion Db; subst. unfold halts in H. congruence.
    - exfalso. subst r'. inversion Da; subst. unfold halts in H'. congruence.
    - injection E as -> E. inversion Da; inversion Db; subst. destruct (IH b) as [-> ->]; auto. }
  apply G in E as [E ->]; auto using dec_of_N_digits. split; auto. now apply dec_of_N_inj.
Qed.
Lemma nat_num_split n m r r' : nat_num n ++ r = nat_num m ++ r' -> halts r -> halts r' -> n = m /\ r = r'.
Proof. intros E H H'. apply num_split in E as [E ->]; auto. split; auto. lia. Qed.
Lemma num_end n m : num n = num m -> n = m.
Proof. apply dec_of_N_inj. Qed.

Lemma segment_split k k' x x' : k ++ lit """: expected object but found " ++ kind_name x = k' ++ lit """: expected object but found " ++ kind_name x' -> k = k' /\ x = x'.
Proof.
  intros H. apply (f_equal (@rev _)) in H. rewrite !rev_app_distr in H. rewrite <- (rev_involutive k), <- (rev_involutive k').
  destruct x, x'; cbn in H; try discriminate; split; auto; f_equal; repeat (injection H as H); exact H.
Qed.
Lemma key_split k k' x x' y y' :
  k ++ lit """: cannot merge " ++ kind_name x ++ lit " with " ++ kind_name y = k' ++ lit """: cannot merge " ++ kind_name x' ++ lit " with " ++ kind_name y' ->
  k = k' /\ x = x' /\ y = y'.
Proof.
  intros H. apply (f_equal (@rev _)) in H. rewrite !rev_app_distr in H. rewrite <- (rev_involutive k), <- (rev_involutive k').
  destruct x, x'; try (exfalso; destruct y, y'; cbn in H; discriminate);
  destruct y, y'; cbn in H; try discriminate; split; auto; f_equal; repeat (injection H as H); exact H.
Qed.

Definition decode_error (e : err) : Prop :=
  writing_error e \/ (exists size raws, arrangement_error size raws e) \/ e = EExpandDepth \/ exists c, e = EExpandConflict c.
Lemma reachable text o e : try_decode text o = Err e -> decode_error e.
Proof.
  intros H. assert (H' : exists indent strict expand, try_decode text (Some (DecOpts indent strict expand)) = Err e).
  { destruct o as [[i s x]|]; [eauto|]. exists None, None, None. exact H. }
  clear H o. destruct H' as (indent & strict & expand & H).
  assert (F : forall indent strict expand, expand <> Some EPSafe -> try_decode text (Some (DecOpts indent strict expand)) = Err e -> decode_error e).
  { intros i s x Hx E. apply C53_errors_name_the_fault in E as [E|[_ E]]; auto; [now left|right; left; eauto]. }
  destruct expand as [[|]|]; try (eapply F; [|exact H]; discriminate).
  apply C53_expand_error in H as [H|(tr & _ & [(c & -> & _)|[-> _]])].
  - apply (C53_decode_error text indent strict (Some EPOff)) in H; [|discriminate]. eapply F; [|exact H]. discriminate.
  - right. right. right. eauto.
  - right. right. now left.
Qed.

(** No two errors of decoding have the same text, and every one has a text. *)
Ltac peel H :=
  repeat first
    [ discriminate H
    | apply app_inv_head in H
    | apply nat_num_split in H as [? H]; [|reflexivity|reflexivity]
    | apply num_split in H as [? H]; [|reflexivity|reflexivity]
    | injection H as H ].
Ltac shown H := unfold message in H; cbn [raised option_map display tabs_not_allowed invalid_indentation] in H.
Lemma message_inj e e' : decode_error e -> decode_error e' -> message e = message e' -> e = e'.
Proof.
  assert (W : forall e, decode_error e -> match e with
    | EUnterminatedString | ECharsAfterQuote | EInvalidEscape (Some _) | EMissingColon | ELengthCap _ | ETabIndent _ | EIndentZero _ _ | EIndentMultiple _ _ _
    | ECount _ _ _ | EExtraItems _ | EExtraRows _ | EBlankInArray CRows _ | EBlankInArray CItems _ | EExpandDepth | EExpandConflict _ => True | _ => False end).
  { clear. intros e [H|[(size & raws & H)|[->|(c & ->)]]]; auto; destruct e; cbn in H; try contradiction; auto.
    destruct H as [[->| ->] _]; exact I. }
  intros D D'. apply W in D, D'. clear W. intros H.
  destruct e; try contradiction; destruct e'; try contradiction; try reflexivity; try (exfalso; repeat match goal with x : option char |- _ => destruct x; try contradiction
    | x : conflict |- _ => destruct x | x : counted |- _ => destruct x; try contradiction end; shown H; injection H as H; peel H; fail).
  - destruct other, other0; try contradiction. shown H; injection H as H. congruence.
  - shown H; injection H as H. peel H. congruence.
  - shown H; injection H as H; peel H. congruence.
  - shown H; injection H as H; peel H. congruence.
  - shown H; injection H as H; peel H. congruence.
  - shown H; injection H as H. destruct what, what0; peel H; apply num_end in H; congruence.
  - shown H; injection H as H. peel H. congruence.
  - shown H; injection H as H. peel H. congruence.
  - destruct what, what0; try contradiction; shown H; injection H as H; peel H; congruence.
  - destruct c as [k x|k x y], c0 as [k' x'|k' x' y']; try discriminate H; shown H; injection H as H.
    + apply segment_split in H as [-> ->]. reflexivity.
    + apply key_split in H as (-> & -> & ->). reflexivity.
Qed.

Theorem C54_message_tells_error :
  forall (text text' : str) (o o' : option decode_options) (e e' : err),
    try_decode text o = Err e -> try_decode text' o' = Err e' ->
    message e = message e' -> e = e'.
Proof. intros text text' o o' e e' H H' M. eapply message_inj; eauto using reachable. Qed.
Print Assumptions C54_message_tells_error.

Theorem C54_every_error_has_a_message :
  forall (text : str) (o : option decode_options) (e : err),
    try_decode text o = Err e -> exists m, message e = Some m /\ m <> [].
Proof.
  intros text o e H. apply reachable in H as [H|[(size & raws & H)|[->|(c & ->)]]].
  - destruct e; try contradiction; repeat match goal with x : option char |- _ => destruct x; try contradiction end; eexists; split; try reflexivity; discriminate.
  - destruct e; try contradiction; eexists; split; try reflexivity; discriminate.
  - eexists; split; [reflexivity|discriminate].
  - destruct c; eexists; split; try reflexivity; discriminate.
Qed.
Print Assumptions C54_every_error_has_a_message.

(** The message tells the facts: the line, what was declared, what was found, in this order. *)
Theorem C54_message_tells_facts :
  forall (text : str) (o : option decode_options) (e : err),
    try_decode text o = Err e -> exists m, message e = Some m /\ facts e <> [] /\ tells (facts e) m.
Proof.
  intros text o e H. destruct (C54_every_error_has_a_message _ _ _ H) as (m & E & _). exists m. split; [exact E|].
  split; [|now apply message_tells]. apply reachable in H. intros F.
  destruct H as [H|[(size & raws & H)|[->|(c & ->)]]].
  - destruct e; try contradiction; try discriminate; repeat match goal with x : option char |- _ => destruct x end; discriminate.
  - destruct e; try contradiction; try discriminate; repeat match goal with x : counted |- _ => destruct x end; discriminate.
  - discriminate.
  - destruct c; discriminate.
Qed.
Print Assumptions C54_message_tells_facts.
(** So do the messages about sequences of events that are no value. *)
Theorem C54_event_messages :
  forall (e : err) (m : str), message e = Some m -> tells (facts e) m.
Proof. exact message_tells. Qed.
Print Assumptions C54_event_messages.
(** A wrong count told the other way round, or a wrong name, would not do. *)
Example C54_facts_case :
  tells (facts (ECount CRows 3 1)) (lit "Expected 3 tabular rows, but got 1") /\
  ~ tells (facts (EBlankInArray CRows 3)) (lit "Line 3: Blank lines inside list array are not allowed in strict mode").
Proof.
  split; [apply message_tells; reflexivity|]. intros H. destruct (tells_occurs _ _ H (lit "tabular array")) as (a & b & E); [cbn; tauto|].
  pose proof (after_some (lit "tabular array") a b) as N. rewrite <- E in N. apply N. vm_compute. reflexivity.
Qed.

(** What is said about some texts. *)
Definition said (o : option decode_options) (s : list str) : option str :=
  match try_decode (join cLF s) o with Ok _ => None | Err e => message e end.
Example said_indent : said None [lit "a:"; lit "   b: 1"] =
  Some (lit "Validation error at line 2: Indentation must be exact multiple of 2, but found 3 spaces").
Proof. vm_compute. reflexivity. Qed.
Example said_count : said None [lit "x:"; lit "  a[3]{p,q}:"; lit "    1,2"] = Some (lit "Expected 3 tabular rows, but got 1").
Proof. vm_compute. reflexivity. Qed.
Example said_blank : said None [lit "a[2]:"; lit "  - 1"; []; lit "  - 2"] =
  Some (lit "Line 3: Blank lines inside list array are not allowed in strict mode").
Proof. vm_compute. reflexivity. Qed.
Example said_conflict : said (Some (DecOpts None None (Some EPSafe))) [lit "a: 1"; lit "a.b: 2"] =
  Some (lit "Path expansion conflict at segment ""a"": expected object but found primitive").
Proof. vm_compute. reflexivity. Qed.
