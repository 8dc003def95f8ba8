(** C11 and C12 with key folding. *)
From Verif Require Import Chars Floats Json JsonInd JsonEq Shared EncPrim Normalize Folding Encoders EncodeApi
  EventBuilder Expand DecodeApi Decoders DecRel Lex NumProof PrimProof Spec DecProps Layout LayEnc LayFacts
  EncTotal WrittenProps Checkers RoundTrip ExpandProof ExpandProps FoldProps PropsFold RefoldProof.

Local Open Scope nat_scope.

(** A value written with folded keys, decoded with path expansion and written again: the same text. *)
Theorem C11_re_encoding_folded :
  forall (fuel : nat) (v : json) (eo : option encode_options) (d : option decode_options),
    folding_options eo -> expanding_options eo d ->
    distinct_keys v -> portable v -> undotted v -> levels v <= 256 ->
    exists text w, encode fuel v eo = Ok text /\ try_decode text d = Ok w /\ encode fuel w eo = Ok text.
Proof.
  intros fuel v eo d Ho [Hi He] Hk Hp Hu Hl. destruct (encode_folded fuel v eo Ho Hk Hp) as (ls & w & E & Hlf & W & D).
  pose proof (normalize_spec v) as Hn.
  assert (Hd : distinct_keys (normalize_json_value v)) by (eapply norm_distinct; eauto).
  destruct (fold_expand_safe (normalize_json_value v) w (rd_strict (resolve_decode_options d)) W Hd) as (r & Er & Wr).
  { eapply norm_undotted; eauto. }
  { now rewrite (norm_levels _ _ Hn). }
  exists (join cLF ls), (node_to_json r). unfold encode. rewrite E. split; [reflexivity|]. split.
  - unfold try_decode, try_decode_from_lines. cbv zeta. rewrite stream_text by auto. rewrite Hi, D, He. cbn [bind].
    rewrite (spells_node _ _ (emit_spells w)). cbn [bind]. rewrite Er. reflexivity.
  - destruct Ho as (_ & Hr & _). unfold encode_lines, prepare in *. cbv zeta in *. rewrite Hr in *. cbn [bind] in *.
    rewrite (normalize_canonical (node_to_json r)).
    + rewrite (RefoldProof.re_encode_value _ _ _ Wr Hd). now rewrite E.
    + eapply jequiv_canonical; [eapply table_ordered_jequiv, written_ordered; eauto|]. eapply norm_canonical; eauto.
Qed.
Print Assumptions C11_re_encoding_folded.

(** Values with the same text with folded keys are the same, up to the order of members; not
    even the depth of folding needs to be the same. *)
Theorem C12_injective_folded :
  forall (fuel1 fuel2 : nat) (v1 v2 : json) (eo1 eo2 : option encode_options) (text : str),
    folding_options eo1 -> folding_options eo2 ->
    ro_indent (resolve_encode_options eo1) = ro_indent (resolve_encode_options eo2) ->
    distinct_keys v1 -> portable v1 -> undotted v1 -> levels v1 <= 256 ->
    distinct_keys v2 -> portable v2 -> undotted v2 -> levels v2 <= 256 ->
    encode fuel1 v1 eo1 = Ok text -> encode fuel2 v2 eo2 = Ok text ->
    exists n1 n2, norm_json v1 n1 /\ norm_json v2 n2 /\ jequiv n1 n2.
Proof.
  intros fuel1 fuel2 v1 v2 eo1 eo2 text O1 O2 Ei K1 P1 U1 L1 K2 P2 U2 L2 E1 E2.
  pose (d := Some (DecOpts (Some (ro_indent (resolve_encode_options eo1))) None (Some EPSafe))).
  assert (M1 : expanding_options eo1 d) by (split; reflexivity).
  assert (M2 : expanding_options eo2 d) by (split; [exact Ei|reflexivity]).
  destruct (C13_fold_expand_lossless fuel1 v1 eo1 d O1 M1 K1 P1 U1 L1) as (t1 & n1 & w1 & A1 & A2 & A3 & A4).
  destruct (C13_fold_expand_lossless fuel2 v2 eo2 d O2 M2 K2 P2 U2 L2) as (t2 & n2 & w2 & B1 & B2 & B3 & B4).
  exists n1, n2. split; [exact A2|]. split; [exact B2|].
  assert (t1 = text) as -> by congruence. assert (t2 = text) as -> by congruence. assert (w1 = w2) as -> by congruence.
  eapply jequiv_trans; [apply table_ordered_jequiv; exact A4|]. apply jequiv_sym. now apply table_ordered_jequiv.
Qed.
Print Assumptions C12_injective_folded.

(** A table whose rows list their fields in two orders, under folded keys. *)
Definition refold_case : json :=
  let r := fun a b => JObj [(lit a, JPrim (PBool true)); (lit b, JPrim (PBool true))] in
  JObj [(lit "p", JObj [(lit "q", JObj [(lit "r", JArr [r "x" "y"; r "y" "x"])])]); (lit "s", JObj [(lit "t", JObj [(lit "u", JPrim PNull); (lit "v", JObj [])])])]%string.
Example C11_folded_case :
  let eo := Some (EncOpts None None (Some KFSafe) None None) in let d := Some (DecOpts None None (Some EPSafe)) in
  folding_options eo /\ expanding_options eo d /\ distinct_keys refold_case /\ portable refold_case /\ undotted refold_case /\ levels refold_case <= 256 /\
  encode 0 refold_case eo = Ok (lit "p.q.r[2]{x,y}:
  true,true
  true,true
s.t:
  u: null
  v:") /\
  exists w, (let? t := encode 0 refold_case eo in try_decode t d) = Ok w /\ w <> refold_case /\ encode 0 w eo = encode 0 refold_case eo.
Proof.
  cbv zeta. assert (D : distinct_keys refold_case) by (apply distinctb_ok; vm_compute; reflexivity).
  split; [repeat split; try discriminate; left; reflexivity|]. split; [split; reflexivity|]. split; [exact D|].
  split; [apply portableb_ok; auto|]. split; [apply undottedb_ok; vm_compute; reflexivity|].
  split; [apply Nat.leb_le; vm_compute; reflexivity|]. split; [vm_compute; reflexivity|].
  eexists. split; [vm_compute; reflexivity|]. split; [discriminate|vm_compute; reflexivity].
Qed.
(** Without path expansion the text can change: a depth of folding that was used up starts again. *)
Theorem C11_folded_unexpanded_refuted :
  exists (v w : json) (eo : option encode_options) (text : str),
    folding_options eo /\ distinct_keys v /\ portable v /\ undotted v /\
    encode 0 v eo = Ok text /\ try_decode text None = Ok w /\ encode 0 w eo <> Ok text.
Proof.
  exists (JObj [(lit "a", JObj [(lit "b", JObj [(lit "c", JObj [(lit "d", JPrim PNull)])])])]). eexists.
  exists (Some (EncOpts None None (Some KFSafe) (Some 2%N) None)). eexists.
  match goal with |- _ /\ ?A /\ _ => assert (D : A) by (apply distinctb_ok; vm_compute; reflexivity) end.
  split; [repeat split; try discriminate; left; reflexivity|]. split; [exact D|]. split; [apply portableb_ok; auto|].
  split; [apply undottedb_ok; vm_compute; reflexivity|]. split; [vm_compute; reflexivity|]. split; [vm_compute; reflexivity|vm_compute; discriminate].
Qed.
Print Assumptions C11_folded_unexpanded_refuted.

(** ** C41: folding is presentation, too *)
Lemma written_fold :
  (forall t v w, written false t v w -> written true t v w) /\
  (forall l m, written_items false l m -> written_items true l m) /\
  (forall sibs l m, written_fields false sibs l m -> written_fields true sibs l m) /\
  (forall sibs a b, written_field false sibs a b -> written_field true sibs a b).
Proof.
  apply written_mutind; intros; try discriminate.
  - apply wr_prim.
  - now apply wr_arr.
  - eapply wr_table; eauto.
  - now apply wr_obj.
  - now apply wr_item.
  - apply wi_nil.
  - now apply wi_cons.
  - apply wf_nil.
  - now apply wf_cons.
  - now apply wf_keep.
Qed.

(** Written without folding and decoded with or without path expansion, or written with folding, to any
    depth, and decoded with path expansion. *)
Definition carries (eo : option encode_options) (d : option decode_options) : Prop :=
  (plain_options eo /\ matching_options eo d) \/ (plain_options eo /\ expanding_options eo d) \/ (folding_options eo /\ expanding_options eo d).
Lemma carried fuel v eo d : carries eo d -> distinct_keys v -> portable v -> undotted v -> levels v <= 256 ->
  exists text w, encode fuel v eo = Ok text /\ try_decode text d = Ok w /\ written false true (normalize_json_value v) w.
Proof.
  intros C Hk Hp Hu Hl. pose proof (normalize_spec v) as Hn.
  assert (Hd : distinct_keys (normalize_json_value v)) by (eapply norm_distinct; eauto).
  assert (X : forall ls w, expanding_options eo d -> encode_lines fuel v eo = Ok ls -> Forall (fun s => ~ In cLF s) ls ->
    written true true (normalize_json_value v) w ->
    (forall strict, decode_stream_sync ls (Some (DStreamOpts (Some (ro_indent (resolve_encode_options eo))) (Some strict))) = Ok (emit_events w)) ->
    exists text w, encode fuel v eo = Ok text /\ try_decode text d = Ok w /\ written false true (normalize_json_value v) w).
  { intros ls w [Hi He] E Hlf W D.
    destruct (fold_expand_safe (normalize_json_value v) w (rd_strict (resolve_decode_options d)) W Hd) as (r & Er & Wr).
    { eapply norm_undotted; eauto. }
    { now rewrite (norm_levels _ _ Hn). }
    exists (join cLF ls), (node_to_json r). unfold encode. rewrite E. split; [reflexivity|]. split; [|exact Wr].
    unfold try_decode, try_decode_from_lines. cbv zeta. rewrite stream_text by auto. rewrite Hi, D, He. cbn [bind].
    rewrite (spells_node _ _ (emit_spells w)). cbn [bind]. rewrite Er. reflexivity. }
  destruct C as [[Ho Hm]|[[Ho He]|[Ho He]]].
  - destruct (round_trip fuel v eo Ho Hk Hp) as (ls & w & E & Hlf & W & D). exists (join cLF ls), w. unfold encode. rewrite E.
    split; [reflexivity|]. split; [eapply decode_plain_text; eauto|exact W].
  - destruct (round_trip fuel v eo Ho Hk Hp) as (ls & w & E & Hlf & W & D). eapply X; eauto. now apply written_fold.
  - destruct (encode_folded fuel v eo Ho Hk Hp) as (ls & w & E & Hlf & W & D). eapply X; eauto.
Qed.
Theorem C41_folding_is_presentation :
  forall (fuel1 fuel2 : nat) (v : json) (eo1 eo2 : option encode_options) (d1 d2 : option decode_options),
    carries eo1 d1 -> carries eo2 d2 -> distinct_keys v -> portable v -> undotted v -> levels v <= 256 ->
    exists text1 text2 w,
      encode fuel1 v eo1 = Ok text1 /\ encode fuel2 v eo2 = Ok text2 /\
      try_decode text1 d1 = Ok w /\ try_decode text2 d2 = Ok w.
Proof.
  intros fuel1 fuel2 v eo1 eo2 d1 d2 C1 C2 Hk Hp Hu Hl.
  destruct (carried fuel1 v eo1 d1 C1 Hk Hp Hu Hl) as (t1 & w1 & A1 & A2 & A3).
  destruct (carried fuel2 v eo2 d2 C2 Hk Hp Hu Hl) as (t2 & w2 & B1 & B2 & B3).
  assert (w2 = w1) as -> by (eapply (proj1 written_fun); eauto). exists t1, t2, w1. auto.
Qed.
Print Assumptions C41_folding_is_presentation.
Example C41_folding_case :
  let eo1 := Some (EncOpts None None (Some KFSafe) None None) in let d1 := Some (DecOpts None None (Some EPSafe)) in
  let eo2 := Some (EncOpts (Some 3) (Some cPIPE) None None None) in let d2 := Some (DecOpts (Some 3) (Some false) None) in
  carries eo1 d1 /\ carries eo2 d2 /\ encode 0 refold_case eo1 <> encode 0 refold_case eo2 /\
  (let? t := encode 0 refold_case eo1 in try_decode t d1) = (let? t := encode 0 refold_case eo2 in try_decode t d2).
Proof.
  cbv zeta. split; [right; right; split; [repeat split; try discriminate; left; reflexivity|split; reflexivity]|].
  split; [left; split; [repeat split; try discriminate; right; right; reflexivity|split; reflexivity]|].
  split; [vm_compute; discriminate|vm_compute; reflexivity].
Qed.
