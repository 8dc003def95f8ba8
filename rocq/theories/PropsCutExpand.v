(** C61: texts whose end is missing, decoded with path expansion. *)
From Verif Require Import Chars Floats Json JsonInd Shared Scanner Parser Decoders EventBuilder Expand DecodeApi Lex Spec DecProps SpecText SpecRead
  ReadHead ReadLine ReadProof SpecError ErrProof SpecCut PropsUnread CutProof SpecKept SpecExpand ExpandProof ExpandProps KeptProof PropsFold PropsExpand PropsEditExpand PropsRoundTrip Checkers
  JsonEq Normalize Encoders EncodeApi Layout LayEnc EncTotal RoundTrip WrittenProps FoldProps.

Local Open Scope nat_scope.

Lemma expanded_less w v r : tshort true w v -> distinct_keys (tree_json v) ->
  (let? m := expand_paths_safe (node_of (tree_doc v)) true in Ok (node_to_json m)) = Ok r ->
  exists r', (let? m := expand_paths_safe (node_of (tree_doc w)) true in Ok (node_to_json m)) = Ok r' /\ kept r' r.
Proof.
  unfold expand_paths_safe. generalize MAX_EXPAND_DEPTH. intros n T D E.
  destruct (expand_inner n true (node_of (tree_doc v))) as [m'|] eqn:Em; cbn [bind] in E; [|discriminate]. injection E as <-.
  destruct (expand_less _ _ T n m' D Em) as (m & -> & K). cbn [bind]. exists (node_to_json m). split; [reflexivity|]. now apply (proj1 kn_json).
Qed.

(** A text whose members have different keys, in strict mode, with path expansion.  It is read up to
    some line; its first [k] lines give the same value if that line is among them.  Otherwise nothing
    but blank lines is left, and the value is an empty object; or what is there is where it was in the
    value of the whole text, with the same keys in the same order and every array as long as it was,
    and only members at the end of objects can be missing; or the error that an array is not
    complete.  In particular no new conflict between paths arises. *)
Theorem C61_truncated_expanded :
  forall (lines : list str) (indent : option nat) (strict : option bool) (v0 v : json),
    unwrap_or strict true = true ->
    try_decode_from_lines lines (Some (DecOpts indent strict None)) = Ok v0 -> distinct_keys v0 ->
    let safe := Some (DecOpts indent strict (Some EPSafe)) in
    try_decode_from_lines lines safe = Ok v ->
    exists j, j <= length lines /\ forall k,
      (j <= k -> try_decode_from_lines (firstn k lines) safe = Ok v) /\
      (k < j ->
        (Forall blank (firstn k lines) /\ try_decode_from_lines (firstn k lines) safe = Ok (JObj [])) \/
        (exists w, try_decode_from_lines (firstn k lines) safe = Ok w /\ kept w v) \/
        (exists e, try_decode_from_lines (firstn k lines) safe = Err e /\ missing e)).
Proof.
  intros lines indent strict v0 v S H D safe Hs.
  destruct (lines_ok_inv _ (Some (DecOpts indent strict None)) _ eq_refl H) as (ls & bs & tr & Sc & R & ->).
  cbn [resolve_decode_options unwrap_or do_indent do_strict do_expand rd_indent rd_strict rd_expand] in Sc, R.
  assert (Ew := stream_expanded _ indent strict _ _ _ Sc R). fold safe in Ew. rewrite Hs in Ew.
  assert (R0 := R). apply root_root_to in R as (rest & R). destruct (root_keep _ _ _ _ _ _ R) as (used & Eu & Kp).
  destruct (cut_where _ _ _ _ _ _ _ Sc Eu) as (j & Lj & _ & C). exists j. split; [exact Lj|].
  intros k. destruct (C k) as (c & bs' & Sk & I & Hle & Hlt). split; intros Hj.
  - destruct (Hle Hj) as (s & Ep & Er). rewrite Ep in Sk.
    assert (X := stream_expanded _ indent strict _ _ tr Sk). fold safe in X. rewrite X; [symmetry; exact Ew|]. eauto.
  - specialize (Hlt Hj).
    destruct (root_cut _ _ _ _ _ _ R (scans_asc _ _ _ _ _ _ Sc) bs' (firstn c ls) (skipn c ls) I (eq_sym (firstn_skipn c ls)))
      as [(s & Er & _)|[Z|[(w & Sh & Rc)|(_ & e & M & F)]]].
    + exfalso. apply (f_equal (@length _)) in Er. rewrite app_length in Er. lia.
    + left. split; [eapply scans_no_text; eauto|]. rewrite Z in Sk.
      assert (X := stream_expanded _ indent strict _ _ (TObj []) Sk). fold safe in X. rewrite X; [reflexivity|constructor].
    + right. left. assert (X := stream_expanded _ indent strict _ _ w Sk Rc). fold safe in X. rewrite X. rewrite S in *.
      exact (expanded_less _ _ _ Sh D (eq_sym Ew)).
    + right. right. exists e. split; [|exact M]. exact (lines_err _ safe _ _ _ Sk F).
Qed.
Print Assumptions C61_truncated_expanded.

(** Members that paths put into an object that is there already; an array in the last line. *)
Definition cut_paths : list str := [lit "a.b: true"; lit "c:"; lit "  d.e: true"; lit "a.f: true"; lit "c.g[2]: x,y"; lit "c.h[1]:"; lit "  - true"].
Example C61_truncated_expanded_case :
  let t := JPrim (PBool true) in let xy := JArr [JPrim (PStr (lit "x")); JPrim (PStr (lit "y"))] in
  let safe := fun k => try_decode_from_lines (firstn k cut_paths) (Some (DecOpts None None (Some EPSafe))) in
  let whole := JObj [(lit "a", JObj [(lit "b", t); (lit "f", t)]);
                     (lit "c", JObj [(lit "d", JObj [(lit "e", t)]); (lit "g", xy); (lit "h", JArr [t])])] in
  let left_3 := JObj [(lit "a", JObj [(lit "b", t)]); (lit "c", JObj [(lit "d", JObj [(lit "e", t)])])] in
  (exists v0, try_decode_from_lines cut_paths (Some (DecOpts None None None)) = Ok v0 /\ distinct_keys v0) /\
  safe 7 = Ok whole /\ safe 6 = Err (ECount CItems 1 0) /\
  safe 1 = Ok (JObj [(lit "a", JObj [(lit "b", t)])]) /\ safe 2 = Ok (JObj [(lit "a", JObj [(lit "b", t)]); (lit "c", JObj [])]) /\
  safe 3 = Ok left_3 /\ kept left_3 whole.
Proof.
  cbv zeta. split; [eexists; split; [vm_compute; reflexivity|apply distinctb_ok; vm_compute; reflexivity]|].
  repeat (split; [vm_compute; reflexivity|]). repeat constructor.
Qed.

(** A key that is there twice, once in quotes: without the last line a path is expanded that was not. *)
Example C61_expanded_twice :
  let lines := [lit "a.b:"; lit "  x: true"; lit """a.b"":"; lit "  y: true"] in
  let safe := fun k => try_decode_from_lines (firstn k lines) (Some (DecOpts None None (Some EPSafe))) in
  exists v w, safe 4 = Ok v /\ safe 2 = Ok w /\ ~ kept w v.
Proof.
  cbv zeta. eexists _, _. split; [vm_compute; reflexivity|]. split; [vm_compute; reflexivity|].
  intros K. inversion K as [| |l m Km]; subst. inversion Km.
Qed.
(** In lenient mode a later member can take the place of an earlier one. *)
Example C61_expanded_lenient :
  let lines := [lit "a.b: true"; lit "a: true"] in
  let safe := fun k => try_decode_from_lines (firstn k lines) (Some (DecOpts None (Some false) (Some EPSafe))) in
  exists v w, safe 2 = Ok v /\ safe 1 = Ok w /\ ~ kept w v.
Proof.
  cbv zeta. eexists _, _. split; [vm_compute; reflexivity|]. split; [vm_compute; reflexivity|].
  intros K. inversion K as [| |l m Km]; subst. inversion Km as [|k a b l m K2 _]; subst. inversion K2.
Qed.

(** ** The output of the encoder with folding *)
Lemma kept_refl v : kept v v.
Proof.
  induction v as [p|l F|l F] using json_ind'; constructor.
  - induction F; constructor; auto.
  - induction F as [|[k v] l H _ IH]; constructor; auto.
Qed.
Lemma undotted_no_clash v : undotted v -> no_item_clash v.
Proof.
  induction v as [p|l F|l F] using json_ind'; intros U; inversion U as [|? U1|? U1 U2]; subst; constructor.
  - apply Forall_forall. intros v Hv k x r k1 ks y z -> Hd. exfalso. pose proof (proj1 (Forall_forall _ _) U1 _ Hv) as Uv.
    inversion Uv as [| |? U3]; subst. inversion U3 as [|? ? U4]; subst. exact (U4 _ Hd).
  - rewrite Forall_forall in *. auto.
  - rewrite Forall_forall in *. auto.
Qed.

(** The lines of a value with folded keys; some of them, at the end, are missing.  Decoding with path
    expansion, in strict mode, gives the error that an array is not complete, or what is there of the
    value: members missing at the end of objects, and nothing else. *)
Theorem C61_truncated_folded :
  forall (fuel : nat) (v : json) (eo : option encode_options) (d : option decode_options) (lines : list str),
    folding_options eo -> expanding_options eo d -> rd_strict (resolve_decode_options d) = true ->
    distinct_keys v -> portable v -> undotted v -> levels v <= 256 ->
    encode_lines fuel v eo = Ok lines ->
    exists n w, norm_json v n /\ table_ordered n w /\ try_decode_from_lines lines d = Ok w /\
      forall k, 0 < k ->
        (exists u, try_decode_from_lines (firstn k lines) d = Ok u /\ kept u w) \/
        (exists e, try_decode_from_lines (firstn k lines) d = Err e /\ missing e).
Proof.
  intros fuel v eo d lines Ho He S Hk Hp Hu Hl E.
  destruct (C13_fold_expand_lossless fuel v eo d Ho He Hk Hp Hu Hl) as (text & n & w & Et & Hn & Hw & T).
  unfold encode in Et. rewrite E in Et. cbn [bind] in Et. injection Et as <-.
  assert (Cl := C16_lines_clean fuel v eo lines (proj1 (proj2 Ho)) (proj1 (proj2 (proj2 Ho))) E).
  assert (Lf : Forall (fun s => ~ In cLF s) lines) by (eapply Forall_impl; [|exact Cl]; intros l H; apply H).
  rewrite C42_decode_lines_is_text in Hw by exact Lf.
  exists n, w. split; [exact Hn|]. split; [exact T|]. split; [exact Hw|].
  destruct He as [Hi He]. destruct d as [[indent strict expand]|]; [|discriminate].
  assert (expand = Some EPSafe) as -> by (destruct expand as [[|]|]; cbn in He; congruence).
  destruct (C14_no_duplicates fuel v eo (Some (DecOpts indent strict None)) Ho) as (text & v0 & Et & H0 & D); auto.
  { split; [exact Hi|reflexivity]. }
  { now apply undotted_no_clash. }
  unfold encode in Et. rewrite E in Et. cbn [bind] in Et. injection Et as <-. rewrite C42_decode_lines_is_text in H0 by exact Lf.
  destruct (C61_truncated_expanded lines indent strict v0 w S H0 D Hw) as (j & _ & C). intros k Pk. destruct (C k) as [C1 C2].
  destruct (le_lt_dec j k) as [L|L]; [left; exists w; split; [now apply C1|apply kept_refl]|].
  destruct (C2 L) as [[B _]|C3]; [|exact C3]. destruct k as [|k]; [lia|]. destruct lines as [|l ls].
  - left. exists w. split; [exact Hw|apply kept_refl].
  - exfalso. cbn [firstn] in B. inversion B as [|? ? B1]; subst. inversion Cl as [|? ? Cl1]; subst. now apply Cl1.
Qed.
Print Assumptions C61_truncated_folded.

(** The value of C13_case, without its last line, without the item of its list. *)
Example C61_truncated_folded_case :
  let eo := Some (EncOpts None None (Some KFSafe) (Some 3%N) None) in let d := Some (DecOpts None None (Some EPSafe)) in
  let at_ := fun k => let? ls := encode_lines 0 chains eo in try_decode_from_lines (firstn k ls) d in
  folding_options eo /\ expanding_options eo d /\ rd_strict (resolve_decode_options d) = true /\
  distinct_keys chains /\ portable chains /\ undotted chains /\ levels chains <= 256 /\
  at_ 9 = Ok chains /\ at_ 2 = Err (ECount CItems 1 0) /\
  exists u, at_ 7 = Ok u /\ kept u chains /\ u <> chains.
Proof.
  cbv zeta. assert (D : distinct_keys chains) by (apply distinctb_ok; vm_compute; reflexivity).
  split; [repeat split; try discriminate; left; reflexivity|]. split; [split; reflexivity|]. split; [reflexivity|]. split; [exact D|].
  split; [apply portableb_ok; auto|]. split; [apply undottedb_ok; vm_compute; reflexivity|].
  split; [apply Nat.leb_le; vm_compute; reflexivity|]. split; [vm_compute; reflexivity|]. split; [vm_compute; reflexivity|].
  eexists. split; [vm_compute; reflexivity|]. split; [repeat constructor|discriminate].
Qed.
