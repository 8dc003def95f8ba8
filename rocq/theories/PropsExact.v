(** The exact forms of the round trip: C01 and C02 with equivalences. *)
From Verif Require Import Chars Floats Json JsonInd JsonEq Shared EncPrim Normalize Folding Encoders EncodeApi
  Scanner Parser DecValidation Decoders EventBuilder Expand DecodeApi Fixtures Lex NumProof Spec DecRel DecProps
  Checkers WrittenProps LayFacts TextProof RoundTrip PropsRoundTrip ReplaceProof SpecRound RoundExact OrderProof.
From Coq Require Import Permutation.

Local Open Scope nat_scope.

(** ** C01 *)

(** Among the values without duplicate keys, encoding and decoding gives the value back, up to the
    order of members, exactly for the portable ones: no other value survives, in either mode. *)
Theorem C01_round_trip_exactly :
  forall (fuel : nat) (v : json) (eo : option encode_options) (d : option decode_options),
    plain_options eo -> matching_options eo d -> distinct_keys v -> fits v ->
    (portable v <->
     exists text n w,
       encode fuel v eo = Ok text /\ norm_json v n /\ try_decode text d = Ok w /\ jequiv n w).
Proof.
  intros fuel v eo d Ho Hm Hk Hf. split.
  - now apply C01_round_trip_equiv.
  - intros (text & n & w & H1 & H2 & H3 & H4). eapply exact_converse; eauto.
Qed.
Print Assumptions C01_round_trip_exactly.

(** So whether a value survives depends neither on the delimiter nor on the indentation nor on the
    mode of the decoder. *)
Theorem C01_survival_same_for_all_options :
  forall (fuel fuel' : nat) (v : json) (eo eo' : option encode_options) (d d' : option decode_options),
    plain_options eo -> matching_options eo d -> plain_options eo' -> matching_options eo' d' ->
    distinct_keys v -> fits v ->
    forall text text' n w, encode fuel v eo = Ok text -> encode fuel' v eo' = Ok text' -> norm_json v n ->
      try_decode text d = Ok w -> jequiv n w ->
      exists w', try_decode text' d' = Ok w' /\ jequiv n w'.
Proof.
  intros fuel fuel' v eo eo' d d' Ho Hm Ho' Hm' Hk Hf text text' n w E E' Hn D J.
  assert (P : portable v) by (eapply exact_converse with (eo := eo); eauto).
  destruct (C01_round_trip_equiv fuel' v eo' d' Ho' Hm' Hk P) as (t & n' & w' & H1 & H2 & H3 & H4).
  apply norm_is in Hn, H2. subst n n'. exists w'. split; [congruence|auto].
Qed.
Print Assumptions C01_survival_same_for_all_options.

(** ** C02 *)

(** And it gives back the value itself exactly if, besides, the rows of its tables list their
    fields in the same order. *)
Theorem C02_round_trip_exactly :
  forall (fuel : nat) (v : json) (eo : option encode_options) (d : option decode_options),
    plain_options eo -> matching_options eo d -> distinct_keys v -> fits v ->
    (portable v /\ ordered v <->
     exists text n, encode fuel v eo = Ok text /\ norm_json v n /\ try_decode text d = Ok n).
Proof.
  intros fuel v eo d Ho Hm Hk Hf. split.
  - intros [Hp Hu]. destruct (round_trip fuel v eo Ho Hk Hp) as (ls & w & E & Hl & W & D).
    exists (join cLF ls), (normalize_json_value v). split; [unfold encode; now rewrite E|]. split; [apply normalize_spec|].
    rewrite (decode_plain_text ls w eo d Hm Hl D). f_equal.
    apply (proj1 written_same _ _ _ W); [eapply norm_distinct; eauto using normalize_spec|].
    now apply (norm_ordered v _ _ (normalize_spec v)).
  - intros (text & n & H1 & H2 & H3). assert (Hp : portable v) by (eapply exact_converse; eauto using jequiv_refl).
    split; auto. destruct (round_trip fuel v eo Ho Hk Hp) as (ls & w & E & Hl & W & D).
    unfold encode in H1. rewrite E in H1. injection H1 as <-. rewrite (decode_plain_text ls w eo d Hm Hl D) in H3.
    injection H3 as ->. apply norm_is in H2. subst n.
    apply (norm_ordered v _ _ (normalize_spec v)). apply (proj1 written_same _ _ _ W); auto.
    eapply norm_distinct; eauto using normalize_spec.
Qed.
Print Assumptions C02_round_trip_exactly.

(** ** C10 *)

(** The events that the encoder would send and those that the decoder finds in the text are the same
    exactly for these values, whatever the mode of the decoder. *)
Theorem C10_events_agree_exactly :
  forall (fuel : nat) (v : json) (eo : option encode_options) (strict : bool),
    plain_options eo -> distinct_keys v -> fits v ->
    (portable v /\ ordered v <->
     exists ls evs,
       encode_lines fuel v eo = Ok ls /\ encode_stream_events fuel v eo = Ok evs /\
       decode_stream_sync ls (Some (DStreamOpts (Some (ro_indent (resolve_encode_options eo))) (Some strict))) = Ok evs).
Proof.
  intros fuel v eo strict Ho Hk Hf.
  assert (Hv : encode_stream_events fuel v eo = Ok (emit_events (normalize_json_value v))).
  { destruct Ho as (_ & Hr & _). unfold encode_stream_events, prepare. cbv zeta. rewrite Hr. reflexivity. }
  rewrite Hv. split.
  - intros [Hp Hu]. destruct (round_trip fuel v eo Ho Hk Hp) as (ls & w & E & Hl & W & D).
    exists ls, (emit_events (normalize_json_value v)). split; auto. split; auto. rewrite D. do 2 f_equal.
    apply (proj1 written_same _ _ _ W); [eapply norm_distinct; eauto using normalize_spec|].
    now apply (norm_ordered v _ _ (normalize_spec v)).
  - intros (ls & evs & E & Ev & D). injection Ev as <-.
    set (d := Some (DecOpts (Some (ro_indent (resolve_encode_options eo))) (Some strict) None)).
    apply (proj2 (C02_round_trip_exactly fuel v eo d Ho (conj eq_refl eq_refl) Hk Hf)).
    exists (join cLF ls), (normalize_json_value v). split; [unfold encode; now rewrite E|]. split; [apply normalize_spec|].
    assert (Hlf : Forall (fun s => ~ In cLF s) ls).
    { destruct Ho as (_ & Hr & Hdl & _). unfold encode_lines, prepare in E. cbv zeta in E. rewrite Hr in E. cbn [bind] in E.
      destruct (value_text _ _ _ E) as (doc & Hdoc & ->). apply render_no_lf. eapply document_clean; eauto. }
    unfold try_decode, try_decode_from_lines. cbv zeta. cbn [d resolve_decode_options unwrap_or do_indent do_strict do_expand rd_indent rd_strict rd_expand].
    rewrite stream_text by exact Hlf. rewrite D. cbn [bind].
    destruct (emit_builds (normalize_json_value v)) as (n & -> & Hn). cbn [bind]. now rewrite Hn.
Qed.
Print Assumptions C10_events_agree_exactly.

(** The sample document survives but not unchanged: one row lists its fields in another order. *)
Lemma sample_fits : fits sample.
Proof. unfold sample. repeat (constructor; cbn [snd fst]; try reflexivity). Qed.
Example C01_exactly_case :
  plain_options None /\ matching_options None None /\ distinct_keys sample /\ fits sample /\
  portable sample /\ ~ ordered sample.
Proof.
  split; [repeat split; try discriminate; left; reflexivity|]. split; [split; reflexivity|].
  split; [apply sample_distinct|]. split; [apply sample_fits|]. split; [apply sample_portable|].
  intros H. assert (Hk := sample_distinct).
  destruct (C02_round_trip_exactly 0 sample None None) as [X _]; auto using sample_fits.
  - repeat split; try discriminate; left; reflexivity.
  - split; reflexivity.
  - destruct X as (text & n & H1 & H2 & H3); [split; [apply sample_portable|auto]|].
    apply norm_is in H2. subst n. vm_compute in H1. injection H1 as <-. vm_compute in H3. discriminate.
Qed.

(** A string after a bare key that looks like an array header; the same string in an array or under
    a key in quotes; a brace in a field of a table; the same brace in a field of a list of lists. *)
Example C01_not_portable_cases :
  ~ portable (JObj [(lit "k", JPrim (PStr (lit "a[1]: b")))]) /\
  portable (JObj [(lit "k 1", JPrim (PStr (lit "a[1]: b")))]) /\
  portable (JArr [JPrim (PStr (lit "a[1]: b"))]) /\
  ~ portable (JArr [JObj [(lit "}", JPrim PNull)]]) /\
  portable (JArr [JArr [JObj [(lit "}", JPrim PNull)]]]).
Proof.
  assert (Ho : plain_options None) by (repeat split; try discriminate; left; reflexivity).
  assert (Hm : matching_options None None) by (split; reflexivity).
  assert (N : forall v, distinctb v = true -> fits v ->
    (forall text w, encode 0 v None = Ok text -> try_decode text None = Ok w -> ~ jequiv (normalize_json_value v) w) -> ~ portable v).
  { intros v Hd Hf H Hp. apply distinctb_ok in Hd.
    destruct (proj1 (C01_round_trip_exactly 0 v None None Ho Hm Hd Hf) Hp) as (text & n & w & H1 & H2 & H3 & H4).
    apply norm_is in H2. subst n. eapply H; eauto. }
  split; [|split; [|split; [|split]]].
  - apply N; [reflexivity|repeat constructor|]. intros text w E D J. vm_compute in E. injection E as <-.
    vm_compute in D. injection D as <-. inversion J as [| |? l' m P F]; subst. apply Permutation_length_1_inv in P. subst l'.
    inversion F as [|? ? ? ? [_ X] _]; subst. inversion X.
  - apply portableb_ok; [apply distinctb_ok; reflexivity|reflexivity].
  - apply portableb_ok; [apply distinctb_ok; reflexivity|reflexivity].
  - apply N; [reflexivity|repeat constructor|]. intros text w E D. vm_compute in E. injection E as <-.
    vm_compute in D. discriminate.
  - apply portableb_ok; [apply distinctb_ok; reflexivity|reflexivity].
Qed.
