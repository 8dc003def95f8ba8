(** How much path expansion makes of a value: C73. *)
From Verif Require Import Chars Floats Json Shared Folding Decoders EventBuilder Expand DecodeApi SpecReplace SpecGrow GrowProof.

Local Open Scope nat_scope.

Lemma both text indent strict w :
  try_decode text (Some (DecOpts indent strict (Some EPSafe))) = Ok w ->
  exists n m, try_decode text (Some (DecOpts indent strict (Some EPOff))) = Ok (node_to_json n) /\
    expand_paths_safe n (unwrap_or strict true) = Ok m /\ w = node_to_json m.
Proof.
  unfold try_decode, try_decode_from_lines. cbn [resolve_decode_options rd_indent rd_strict rd_expand unwrap_or do_indent do_strict do_expand].
  destruct (decode_stream_sync _ _) as [evs|]; [|discriminate]. cbn [bind].
  destruct (build_node_from_events evs) as [n|]; [|discriminate]. cbn [bind].
  change (do_strict (DecOpts indent strict (Some EPSafe))) with strict.
  destruct (expand_paths_safe n (unwrap_or strict true)) as [m|] eqn:E; [|discriminate]. cbn [bind]. intros H. injection H as <-.
  exists n, m. split; [reflexivity|]. split; [exact E|reflexivity].
Qed.
Lemma expand_paths_inner n strict m : expand_paths_safe n strict = Ok m -> exists k, N.of_nat k = 256%N /\ expand_inner k strict n = Ok m.
Proof. unfold expand_paths_safe, MAX_EXPAND_DEPTH. intros H. eexists. split; [|exact H]. reflexivity. Qed.

(** Expansion never makes a value larger, the characters of keys counted too; the number of values
    grows by the dots at most. *)
Theorem C73_size :
  forall (text : str) (indent : option nat) (strict : option bool) (w : json),
    try_decode text (Some (DecOpts indent strict (Some EPSafe))) = Ok w ->
    exists v, try_decode text (Some (DecOpts indent strict (Some EPOff))) = Ok v /\
      places w + key_chars w <= places v + key_chars v /\ places w <= places v + key_dots v.
Proof.
  intros text indent strict w H. apply both in H as (n & m & H & E & ->). apply expand_paths_inner in E as (d & _ & E). exists (node_to_json n). split; [exact H|]. split.
  - unfold key_chars. rewrite <- !(nsize_json (@length char)).
    eapply expand_size; [| |exact E]; [reflexivity|]. intros k. now rewrite split_chars.
  - unfold key_dots. assert (Z : forall ks : list str, list_sum (map (fun _ => 0) ks) = 0).
    { induction ks as [|k ks IH]; [reflexivity|]. exact IH. }
    assert (X : nsize (fun _ => 0) m <= nsize (fun k => count_occ N.eq_dec k cDOT) n).
    { eapply expand_size; [| |exact E]; intros k; cbv beta; [apply Nat.le_0_l|]. now rewrite Z. }
    rewrite !nsize_json, Z, Nat.add_0_r in X. exact X.
Qed.
Print Assumptions C73_size.

(** It makes a value deeper by the dots on the way at most. *)
Theorem C73_nesting :
  forall (text : str) (indent : option nat) (strict : option bool) (w : json),
    try_decode text (Some (DecOpts indent strict (Some EPSafe))) = Ok w ->
    exists v, try_decode text (Some (DecOpts indent strict (Some EPOff))) = Ok v /\ nesting w <= reach v.
Proof.
  intros text indent strict w H. apply both in H as (n & m & H & E & ->). apply expand_paths_inner in E as (d & _ & E). exists (node_to_json n). split; [exact H|].
  rewrite nnest_json, nreach_json. now apply (expand_nest _ _ _ _ E).
Qed.
Print Assumptions C73_nesting.

(** Whatever the text, the result has at most 16132 levels. *)
Theorem C73_limit :
  forall (text : str) (indent : option nat) (strict : option bool) (w : json),
    try_decode text (Some (DecOpts indent strict (Some EPSafe))) = Ok w -> (N.of_nat (nesting w) <= 16132)%N.
Proof.
  intros text indent strict w H. apply both in H as (n & m & _ & E & ->). apply expand_paths_inner in E as (k & K & E).
  rewrite nnest_json. apply expand_nest in E as [_ E]. pose proof (deepest_bound k) as B.
  assert (X : (4 * N.of_nat (deepest k) <= (N.of_nat k - 2) * (N.of_nat k - 2) + 12)%N) by lia.
  rewrite K in X. change ((256 - 2) * (256 - 2) + 12)%N with 64528%N in X. lia.
Qed.
Print Assumptions C73_limit.

(** [n + 1] segments *)
Fixpoint long_key (n : nat) : str := match n with O => [97%N] | S n => 97%N :: cDOT :: long_key n end.
(** [m] objects, one in the other, the first under a key of [k] segments, each under a key with two less; arrays inside. *)
Fixpoint tower (i m k : nat) : str :=
  match m with
  | O => []
  | S m => repeat cSPACE (2 * i) ++ long_key (k - 1) ++
           match m with
           | O => lit "[1]:" ++ [cLF] ++ repeat cSPACE (2 * i + 2) ++ lit "- [1]:" ++ [cLF] ++
                  repeat cSPACE (2 * i + 4) ++ lit "- [1]:" ++ [cLF] ++ repeat cSPACE (2 * i + 6) ++ lit "- [0]:"
           | S _ => [cCOLON; cLF] ++ tower (S i) m (k - 2)
           end
  end.
(** This bound is attained. *)
Theorem C73_limit_attained :
  exists text w, try_decode text (Some (DecOpts None None (Some EPSafe))) = Ok w /\ N.of_nat (nesting w) = 16132%N.
Proof.
  assert (H : match try_decode (tower 0 126 253) (Some (DecOpts None None (Some EPSafe))) with
              | Ok w => N.eqb (N.of_nat (nesting w)) 16132 | Err _ => false end = true) by (vm_compute; reflexivity).
  exists (tower 0 126 253). generalize dependent (try_decode (tower 0 126 253) (Some (DecOpts None None (Some EPSafe)))).
  intros [w|] H; [|discriminate]. exists w. split; [reflexivity|]. now apply N.eqb_eq.
Qed.
Print Assumptions C73_limit_attained.

(** So the limit of 256 on the depth of expansion is no limit on the depth of its result: two lines
    are enough to exceed it. *)
Definition two_lines : str := long_key 149 ++ [cCOLON; cLF; cSPACE; cSPACE] ++ long_key 149 ++ lit ": 1".
Theorem C73_limit_256_refuted :
  ~ (forall (text : str) (w : json), try_decode text (Some (DecOpts None None (Some EPSafe))) = Ok w -> nesting w <= 256).
Proof.
  intros H. specialize (H two_lines).
  assert (X : match try_decode two_lines (Some (DecOpts None None (Some EPSafe))) with
              | Ok w => 256 <? nesting w | Err _ => false end = true) by (vm_compute; reflexivity).
  revert H X. generalize (try_decode two_lines (Some (DecOpts None None (Some EPSafe)))). generalize 256.
  intros n [w|] H X; [|discriminate]. specialize (H w eq_refl). apply Nat.ltb_lt in X. lia.
Qed.
Print Assumptions C73_limit_256_refuted.

(** The bounds on size are attained, and members that meet make it smaller. *)
Example C73_case : exists v w v' w',
  try_decode (lit "a.b.c: 1") (Some (DecOpts None None (Some EPOff))) = Ok v /\
  try_decode (lit "a.b.c: 1") (Some (DecOpts None None (Some EPSafe))) = Ok w /\
  (places v, key_chars v, key_dots v, nesting v, reach v) = (2, 5, 2, 1, 3) /\ (places w, key_chars w, nesting w) = (4, 3, 3) /\
  try_decode (lit "a.b: 1" ++ [cLF] ++ lit "a.c: 2") (Some (DecOpts None None (Some EPOff))) = Ok v' /\
  try_decode (lit "a.b: 1" ++ [cLF] ++ lit "a.c: 2") (Some (DecOpts None None (Some EPSafe))) = Ok w' /\
  (places v', key_chars v', key_dots v') = (3, 6, 2) /\ (places w', key_chars w') = (4, 3).
Proof. do 4 eexists. repeat (split; [vm_compute; reflexivity|]). vm_compute; reflexivity. Qed.
