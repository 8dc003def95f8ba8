(** C10 with folded keys. *)
From Verif Require Import Chars Floats Json JsonInd JsonEq Normalize EncodeApi EventBuilder DecodeApi Decoders Spec SpecRound Checkers RoundTrip ReplaceProof PropsFold.

Local Open Scope nat_scope.

(** With folding the events of the encoder are those of the text exactly if the text means the value without path
    expansion, in either mode of the decoder. *)
Theorem C10_events_agree_folded :
  forall (fuel : nat) (v : json) (eo : option encode_options) (strict : bool),
    folding_options eo -> distinct_keys v -> portable v ->
    exists ls evs,
      encode_lines fuel v eo = Ok ls /\ encode_stream_events fuel v eo = Ok evs /\
      let indent := Some (ro_indent (resolve_encode_options eo)) in
      (decode_stream_sync ls (Some (DStreamOpts indent (Some strict))) = Ok evs <->
       exists n, norm_json v n /\ try_decode_from_lines ls (Some (DecOpts indent (Some strict) None)) = Ok n).
Proof.
  intros fuel v eo strict Ho Hk Hp. destruct (encode_folded fuel v eo Ho Hk Hp) as (ls & w & E & _ & _ & D).
  exists ls, (emit_events (normalize_json_value v)). split; [exact E|]. split.
  { destruct Ho as (_ & Hr & _). unfold encode_stream_events, prepare. cbv zeta. rewrite Hr. reflexivity. }
  cbv zeta. specialize (D strict).
  assert (Dv : try_decode_from_lines ls (Some (DecOpts (Some (ro_indent (resolve_encode_options eo))) (Some strict) None)) = Ok w).
  { unfold try_decode_from_lines. cbv zeta. cbn [resolve_decode_options unwrap_or do_indent do_strict do_expand rd_indent rd_strict rd_expand].
    rewrite D. cbn [bind]. destruct (emit_builds w) as (n & -> & Hn). cbn [bind]. now rewrite Hn. }
  rewrite D, Dv. split.
  - intros H. injection H as H. exists w. split; [|reflexivity].
    destruct (emit_builds w) as (n & En & Hn), (emit_builds (normalize_json_value v)) as (n' & En' & Hn'). rewrite H, En' in En. injection En as ->.
    rewrite <- Hn, Hn'. apply normalize_spec.
  - intros (n & N & H). injection H as ->. apply norm_is in N. now subst.
Qed.
Print Assumptions C10_events_agree_folded.

(** So the documented agreement fails as soon as something is folded: the text has other keys. *)
Theorem C10_folded_refuted :
  ~ (forall (v : json) (eo : option encode_options) (ls : list str) (evs : list event),
       folding_options eo -> distinct_keys v -> portable v -> ordered v ->
       encode_lines 0 v eo = Ok ls -> decode_stream_sync ls None = Ok evs -> encode_stream_events 0 v eo = Ok evs).
Proof.
  intros H. specialize (H (JObj [(lit "a", JObj [(lit "b", JPrim PNull)])]) (Some (EncOpts None None (Some KFSafe) None None))
    [lit "a.b: null"] [EvStartObject; EvKey (lit "a.b") false; EvPrim PNull; EvEndObject]).
  assert (X : encode_stream_events 0 (JObj [(lit "a", JObj [(lit "b", JPrim PNull)])]) (Some (EncOpts None None (Some KFSafe) None None))
    = Ok [EvStartObject; EvKey (lit "a.b") false; EvPrim PNull; EvEndObject]); [|vm_compute in X; discriminate].
  assert (Dk : distinct_keys (JObj [(lit "a", JObj [(lit "b", JPrim PNull)])])).
  { apply distinctb_ok. vm_compute. reflexivity. }
  apply H.
  - repeat split; try discriminate. now left.
  - exact Dk.
  - apply portableb_ok; [exact Dk|vm_compute; reflexivity].
  - repeat constructor.
  - vm_compute. reflexivity.
  - vm_compute. reflexivity.
Qed.
Print Assumptions C10_folded_refuted.

(** Nothing to fold: the events agree under folding too. *)
Example C10_nothing_folded :
  let v := JObj [(lit "a", JObj [(lit "b", JPrim PNull); (lit "c", JArr [JPrim PNull])]); (lit "d", JObj [])] in
  let eo := Some (EncOpts None None (Some KFSafe) None None) in
  (let? ls := encode_lines 0 v eo in decode_stream_sync ls None) = encode_stream_events 0 v eo /\
  (let? ls := encode_lines 0 v eo in try_decode_from_lines ls None) = Ok v.
Proof. split; vm_compute; reflexivity. Qed.
