(** C47: the meaning of a text. *)
From Verif Require Import Chars Floats Json Shared Scanner Parser DecValidation Decoders EventBuilder Expand DecodeApi
  Lex Spec DecProps SpecText SpecRead ReadProof.

Local Open Scope nat_scope.

(** The event decoder succeeds exactly on the documents of the specification, and reports the
    events of the tree it describes. *)
Theorem C47_decoded_events :
  forall (lines : list str) (indent : option nat) (strict : option bool) (evs : list event),
    decode_stream_sync lines (Some (DStreamOpts indent strict)) = Ok evs <->
    exists ls blanks tr,
      scans (unwrap_or strict true) (unwrap_or indent 2) 1 lines ls blanks /\
      root parse_f64 (unwrap_or strict true) blanks ls tr /\ evs = tree_events tr.
Proof. intros lines indent strict evs. exact (stream_spec lines (unwrap_or strict true) (unwrap_or indent 2) evs). Qed.
Print Assumptions C47_decoded_events.

(** The decoder, without path expansion, succeeds exactly on the texts that have a meaning, and
    returns it. *)
Theorem C47_decoded_value :
  forall (text : str) (indent : option nat) (strict : option bool) (expand : option expand_paths_mode) (v : json),
    expand <> Some EPSafe ->
    (try_decode text (Some (DecOpts indent strict expand)) = Ok v <->
     exists tr, reads parse_f64 (unwrap_or strict true) (unwrap_or indent 2) text tr /\ v = tree_json tr).
Proof.
  intros text indent strict expand v He. unfold try_decode, try_decode_from_lines. cbv zeta.
  cbn [resolve_decode_options unwrap_or do_indent do_strict do_expand rd_indent rd_strict rd_expand].
  replace (unwrap_or expand EPOff) with EPOff by (destruct expand as [[|]|]; cbn; congruence).
  split.
  - intros H. destruct (decode_stream_sync _ _) as [evs|] eqn:E; [|discriminate]. cbn [bind] in H.
    apply reads_stream in E as (tr & Hr & ->). exists tr. split; [exact Hr|].
    destruct (describes_build _ _ _ (tree_describes tr)) as (n & En & Ev). rewrite En in H. cbn [bind] in H. congruence.
  - intros (tr & Hr & ->). 
    rewrite (proj2 (reads_stream (unwrap_or strict true) (unwrap_or indent 2) text (tree_events tr))) by eauto. cbn [bind].
    destruct (describes_build _ _ _ (tree_describes tr)) as (n & En & Ev). rewrite En. cbn [bind]. congruence.
Qed.
Print Assumptions C47_decoded_value.

Theorem C47_decoded_value_default :
  forall (text : str) (v : json),
    try_decode text None = Ok v <-> exists tr, reads parse_f64 true 2 text tr /\ v = tree_json tr.
Proof. intros text v. apply (C47_decoded_value text None None None v). discriminate. Qed.
Print Assumptions C47_decoded_value_default.

(** A text has at most one meaning. *)
Theorem C47_one_meaning :
  forall (strict : bool) (indent : nat) (text : str) (tr tr' : tree),
    reads parse_f64 strict indent text tr -> reads parse_f64 strict indent text tr' -> tr = tr'.
Proof. intros strict indent text tr tr'. apply reads_fun. Qed.
Print Assumptions C47_one_meaning.

(** Every text without a meaning is rejected. *)
Theorem C47_rejected :
  forall (text : str) (indent : option nat) (strict : option bool) (expand : option expand_paths_mode),
    expand <> Some EPSafe ->
    ((exists e, try_decode text (Some (DecOpts indent strict expand)) = Err e) <->
     ~ exists tr, reads parse_f64 (unwrap_or strict true) (unwrap_or indent 2) text tr).
Proof.
  intros text indent strict expand He. assert (H := C47_decoded_value text indent strict expand). split.
  - intros (e & E) (tr & Hr). assert (X : try_decode text (Some (DecOpts indent strict expand)) = Ok (tree_json tr)) by (apply H; eauto). congruence.
  - intros Hn. destruct (try_decode text (Some (DecOpts indent strict expand))) as [v|e] eqn:E; [|eauto].
    exfalso. apply Hn. destruct (proj1 (H v He) eq_refl) as (tr & Hr & _). eauto.
Qed.
Print Assumptions C47_rejected.

(** A table with a quoted field, a list with an object and a nested array, a quoted key, an empty
    object, a blank line outside arrays. *)
Definition read_case : str := lit "t[2|]{x|""y z""}:
  true|p,q
  ""true""|05

l[3]:
  - k[1]: ""-""
    m:
  - [2]: -0,1.50
  -
""a:b"":
  c: x: y".
Example C47_case :
  try_decode read_case None = Ok (JObj
    [(lit "t", JArr [JObj [(lit "x", JPrim (PBool true)); (lit "y z", JPrim (PStr (lit "p,q")))];
                     JObj [(lit "x", JPrim (PStr (lit "true"))); (lit "y z", JPrim (PStr (lit "05")))]]);
     (lit "l", JArr [JObj [(lit "k", JArr [JPrim (PStr (lit "-"))]); (lit "m", JObj [])];
                     JArr [JPrim (PNum f64_zero); JPrim (PNum (match parse_f64 (lit "1.5") with Some x => x | None => f64_zero end))];
                     JObj []]);
     (lit "a:b", JObj [(lit "c", JPrim (PStr (lit "x: y")))])]).
Proof. vm_compute. reflexivity. Qed.
(** One cell too many; a blank line between rows; an unknown escape. *)
Example C47_rejected_case :
  (exists e, try_decode (lit "t[1]{x,y}:
  1,2,3") None = Err e) /\
  (exists e, try_decode (lit "t[2]{x}:
  1

  2") None = Err e) /\
  (exists e, try_decode (lit "a: ""\x""") None = Err e).
Proof. repeat split; eexists; vm_compute; reflexivity. Qed.
