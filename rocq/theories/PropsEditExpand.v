(** C66: replacing a word in a text that is decoded with path expansion. *)
From Verif Require Import Chars Floats Json Shared Scanner Parser Decoders EventBuilder Expand DecodeApi Lex Spec DecProps SpecText SpecRead
  ReadLex ReadHead ReadLine ReadProof SpecError ErrProof SpecCut PropsUnread CutProof SpecEdit EditText EditProof PropsEdit
  SpecExpand ExpandProof ExpandProps PropsFold PropsExpand NearProof.

Local Open Scope nat_scope.

Lemma stream_expanded raws indent strict ls bs tr :
  scans (unwrap_or strict true) (unwrap_or indent 2) 1 raws ls bs -> root parse_f64 (unwrap_or strict true) bs ls tr ->
  try_decode_from_lines raws (Some (DecOpts indent strict (Some EPSafe))) =
    (let? m := expand_paths_safe (node_of (tree_doc tr)) (unwrap_or strict true) in Ok (node_to_json m)).
Proof.
  intros Sc Ro. rewrite decode_expanding by reflexivity.
  cbn [resolve_decode_options unwrap_or do_indent do_strict do_expand rd_indent rd_strict rd_expand].
  rewrite (proj2 (stream_spec raws (unwrap_or strict true) (unwrap_or indent 2) (tree_events tr))) by eauto 7.
  cbn [bind]. now rewrite (spells_node _ _ (tree_spells tr)).
Qed.
Lemma expanded_alike strict (R : prim -> prim -> Prop) v v' : one_leaf R v v' ->
  alike (fun a b => (strict = false /\ b = a) \/ one_value R a b)
    (let? m := expand_paths_safe (node_of (tree_doc v)) strict in Ok (node_to_json m))
    (let? m := expand_paths_safe (node_of (tree_doc v')) strict in Ok (node_to_json m)).
Proof.
  intros H. apply (leaf_near R strict) in H. unfold expand_paths_safe. generalize MAX_EXPAND_DEPTH. intros n.
  eapply alike_bind; [apply (expand_near R strict n n (le_n n)); exact H|]. intros a b Hab. cbn [alike]. now apply (proj1 (near_json R strict) 1 a b Hab).
Qed.
Lemma alike_cases (P : json -> json -> Prop) r r' : alike P r r' ->
  (exists e, r = Err e /\ r' = Err e) \/ (exists v v', r = Ok v /\ r' = Ok v' /\ P v v').
Proof. destruct r as [a|e], r' as [b|e']; cbn [alike]; intros E; try contradiction; [|subst e']; eauto 7. Qed.

(** With path expansion a word is replaced in a text that can be read.  Either both texts are refused,
    for the same reason; or both are accepted, and the values differ in exactly one primitive value:
    the one read from the token with the word in it.  The exceptions are those without expansion, the
    line that is not read and, in lenient mode, a value that is dropped. *)
Theorem C66_word_replaced_expanded :
  forall (before after : list str) (x c c' y : str) (indent : option nat) (strict : option bool) (v0 : json),
    place x c c' y ->
    try_decode_from_lines (before ++ (x ++ c ++ y) :: after) (Some (DecOpts indent strict None)) = Ok v0 ->
    let safe := Some (DecOpts indent strict (Some EPSafe)) in
    (exists e, try_decode_from_lines (before ++ (x ++ c ++ y) :: after) safe = Err e /\
               try_decode_from_lines (before ++ (x ++ c' ++ y) :: after) safe = Err e) \/
    (exists v v', try_decode_from_lines (before ++ (x ++ c ++ y) :: after) safe = Ok v /\
                  try_decode_from_lines (before ++ (x ++ c' ++ y) :: after) safe = Ok v' /\
                  (one_value (rewritten parse_f64 x c c' y) v v' \/
                   (v' = v /\ (unwrap_or strict true = false \/ try_decode_from_lines before safe = Ok v)))).
Proof.
  intros before after x c c' y indent strict v0 Pl H safe.
  destruct (lines_ok_inv _ (Some (DecOpts indent strict None)) _ eq_refl H) as (ls & bs & tr & Sc & Ro & _).
  destruct (scans_root _ _ _ _ _ _ _ _ _ _ _ Pl Sc Ro) as (ls' & tr' & Sc' & Ro' & C).
  assert (E0 := stream_expanded _ indent strict _ _ _ Sc Ro). assert (E1 := stream_expanded _ indent strict _ _ _ Sc' Ro').
  destruct C as [C|(-> & C)].
  - apply (expanded_alike (unwrap_or strict true)) in C. rewrite <- E0, <- E1 in C.
    apply alike_cases in C as [C|(v & v' & F0 & F1 & D)]; [left; exact C|right]. exists v, v'. split; [exact F0|]. split; [exact F1|].
    destruct D as [(S & D)|D]; auto.
  - assert (Eb : unwrap_or strict true = false \/ try_decode_from_lines before safe = try_decode_from_lines (before ++ (x ++ c ++ y) :: after) safe).
    { destruct C as [C|(lsA & bsA & Sa & Ra)]; [now left|right]. assert (E2 := stream_expanded _ indent strict _ _ _ Sa Ra). exact (eq_trans E2 (eq_sym E0)). }
    assert (Ee := eq_trans E1 (eq_sym E0)). clear - Eb Ee. fold safe in Ee. revert Eb Ee.
    generalize (try_decode_from_lines (before ++ (x ++ c ++ y) :: after) safe). intros [v|e] Eb Ee; [right|left; eauto].
    exists v, v. split; [reflexivity|]. split; [exact Ee|]. right. auto.
Qed.
Print Assumptions C66_word_replaced_expanded.

(** A text whose paths are expanded is accepted or refused whatever the word is. *)
Theorem C66_accepted_alike_expanded :
  forall (before after : list str) (x c c' y : str) (indent : option nat) (strict : option bool),
    place x c c' y ->
    let safe := Some (DecOpts indent strict (Some EPSafe)) in
    ((exists v, try_decode_from_lines (before ++ (x ++ c ++ y) :: after) safe = Ok v) <->
     (exists v, try_decode_from_lines (before ++ (x ++ c' ++ y) :: after) safe = Ok v)).
Proof.
  enough (G : forall (before after : list str) (x c c' y : str) indent strict, place x c c' y ->
    let safe := Some (DecOpts indent strict (Some EPSafe)) in
    (exists v, try_decode_from_lines (before ++ (x ++ c ++ y) :: after) safe = Ok v) ->
    (exists v, try_decode_from_lines (before ++ (x ++ c' ++ y) :: after) safe = Ok v)).
  { intros before after x c c' y indent strict Pl safe. split; apply G; [exact Pl|now apply place_sym]. }
  intros before after x c c' y indent strict Pl safe (v & H).
  assert (H0 : exists v0, try_decode_from_lines (before ++ (x ++ c ++ y) :: after) (Some (DecOpts indent strict None)) = Ok v0).
  { unfold safe in H. destruct (decode_expanding_inv _ (Some (DecOpts indent strict (Some EPSafe))) _ eq_refl H) as (evs & n & m & E & _).
    apply (proj1 (stream_spec _ (unwrap_or strict true) (unwrap_or indent 2) evs)) in E as (ls & bs & tr & Sc & Ro & _).
    exists (tree_json tr). eapply (lines_ok _ (Some (DecOpts indent strict None))); eauto. }
  destruct H0 as (v0 & H0). destruct (C66_word_replaced_expanded _ _ _ _ _ _ _ _ _ Pl H0) as [(e & E & _)|(a & b & _ & E & _)].
  - assert (Z := eq_trans (eq_sym E) H). discriminate Z.
  - eauto.
Qed.
Print Assumptions C66_accepted_alike_expanded.

(** Replaced under a path; and a conflict that stays one. *)
Example C66_expanded_case :
  let safe := Some (DecOpts None None (Some EPSafe)) in
  place (lit "a.b: ") (lit "one") (lit "two") [] /\
  try_decode_from_lines ([lit "a.c: true"] ++ (lit "a.b: " ++ lit "one" ++ []) :: []) safe =
    Ok (JObj [(lit "a", JObj [(lit "c", JPrim (PBool true)); (lit "b", JPrim (PStr (lit "one")))])]) /\
  try_decode_from_lines ([lit "a.c: true"] ++ (lit "a.b: " ++ lit "two" ++ []) :: []) safe =
    Ok (JObj [(lit "a", JObj [(lit "c", JPrim (PBool true)); (lit "b", JPrim (PStr (lit "two")))])]) /\
  (exists e, try_decode_from_lines ([lit "a: true"] ++ (lit "a.b: " ++ lit "one" ++ []) :: []) safe = Err e /\
             try_decode_from_lines ([lit "a: true"] ++ (lit "a.b: " ++ lit "two" ++ []) :: []) safe = Err e).
Proof.
  cbv zeta. split; [|split; [vm_compute; reflexivity|split; [vm_compute; reflexivity|eexists; split; vm_compute; reflexivity]]]. show_place; [intros k []|].
  intros B. exfalso. inversion B; discriminate.
Qed.
