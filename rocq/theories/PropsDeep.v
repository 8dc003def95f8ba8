(** C74: a text one level deeper, under a key. *)
From Verif Require Import Chars Floats Json Shared Scanner Parser DecValidation Decoders EventBuilder Expand DecodeApi
  Lex Spec DecProps DecRel ParseProof SpecText SpecRead ReadLex ReadHead ReadLine ReadProof SpecError ErrLex ErrProof SpecCut PropsUnread CutProof
  SpecJoin JoinProof PropsJoin SpecDeep DeepProof KeyedProof ItemsProof.

Local Open Scope nat_scope.

(** Lines that start unindented mean the same under a key as after an object: the same members, or
    the same fault. *)
Theorem C74_as_after_an_object :
  forall (b : list str) (indent : option nat) (strict : option bool) (expand : option expand_paths_mode),
    expand <> Some EPSafe -> unwrap_or indent 2 <> 0 -> starts_unindented b ->
    let decode := fun lines => try_decode_from_lines lines (Some (DecOpts indent strict expand)) in
    let under := fun t => t :: deeper (unwrap_or indent 2) b in
    (exists vb, (forall t k, opens t k -> decode (under t) = Ok (JObj [(k, JObj vb)])) /\
       forall a va, needed decode a (JObj va) -> decode (a ++ b) = Ok (JObj (va ++ vb))) \/
    (exists e, (forall t k, opens t k -> decode (under t) = Err (deeper_error (unwrap_or indent 2) e)) /\
       forall a va, needed decode a (JObj va) -> decode (a ++ b) = Err (moved (length a) e)).
Proof.
  intros b indent strict expand He Hz Ub decode under. set (d := Some (DecOpts indent strict expand)) in *.
  assert (Ee : rd_expand (resolve_decode_options d) = EPOff) by (unfold d; destruct expand as [[|]|]; cbn; congruence).
  assert (Ez : rd_indent (resolve_decode_options d) <> 0) by exact Hz.
  destruct (scans_total (rd_strict (resolve_decode_options d)) (rd_indent (resolve_decode_options d)) b) as [(S & e & F)|(ls & bs & Sb)].
  - right. exists e. split; [intros t k O; exact (indent_under d Ez t k b e O S F)|]. intros a va H. eapply fault_moved; eauto.
  - destruct (members_total _ _ _ _ _ Sb) as [(ms & rest & M)|(e & F)].
    + left. exists (map mj ms). split; [intros t k O; exact (members_under d Ee Ez b ls bs Sb Ub t k ms rest O M)|].
      intros a va H. eapply members_after; eauto.
    + right. exists e. split; [intros t k O; exact (failure_under d Ez b ls bs Sb Ub t k e O F)|]. intros a va H. eapply failure_after; eauto.
Qed.
Print Assumptions C74_as_after_an_object.

(** What is read under the key: the object that the text is by itself.  A primitive is refused, and an
    array is taken for a member, as after an object. *)
Theorem C74_under_key :
  forall (t k : str) (b : list str) (vb : json) (indent : option nat) (strict : option bool) (expand : option expand_paths_mode),
    expand <> Some EPSafe -> unwrap_or indent 2 <> 0 -> starts_unindented b -> opens t k ->
    let decode := fun lines => try_decode_from_lines lines (Some (DecOpts indent strict expand)) in
    let under := t :: deeper (unwrap_or indent 2) b in
    decode b = Ok vb ->
    match vb with
    | JObj l => decode under = Ok (JObj [(k, JObj l)])
    | JPrim _ => decode under = Err EMissingColon
    | JArr _ => (exists s w l, decode under = Ok (JObj [(k, JObj ((cLBRACK :: s, w) :: l))])) \/ exists e, decode under = Err e
    end.
Proof.
  intros t k b vb indent strict expand He Hz Ub O decode under Hb. set (d := Some (DecOpts indent strict expand)) in *.
  assert (Ee : rd_expand (resolve_decode_options d) = EPOff) by (unfold d; destruct expand as [[|]|]; cbn; congruence).
  assert (Ez : rd_indent (resolve_decode_options d) <> 0) by exact Hz.
  destruct (lines_ok_inv _ _ _ Ee Hb) as (ls & bs & tr & Sb & R & E).
  destruct R as [|x ls h tail v rest B Q Hh A|x p' N C P|x ls m ls1 ms rest N C M Rs]; rewrite E.
  - cbn [tree_json map]. refine (members_under d Ee Ez b [] bs Sb Ub t k [] [] O _). apply ms_end. intros ? ? [=].
  - assert (X : exists n l, v = TArr n l) by (inversion A; subst; eauto). destruct X as (n & l & ->). cbn [tree_json].
    destruct (members_total _ _ _ _ _ Sb) as [(ms & rest' & M)|(e & F)].
    2: { right. eexists. exact (failure_under d Ez b _ bs Sb Ub t k e O F). }
    left. pose proof (members_under d Ee Ez b _ bs Sb Ub t k _ _ O M) as G. pose proof (scans_depth _ _ _ _ _ _ Sb Ub _ _ eq_refl) as D.
    inversion M as [? ? ? En|? ? ? ? m ls1 ms' ? D' N Mm Ms]; subst.
    + exfalso. apply (En x ls eq_refl). split; [exact D|]. intros [[=] _].
    + assert (K : exists s, fst (fst m) = cLBRACK :: s).
      { inversion Mm as [? ? ? ? ? ? ? ? ? H1 H2|? ? ? ? ? ? ? ? ? ? _ K _|? ? ? ? ? ? _ K _|? ? ? ? ? ? ? _ K _]; subst.
        - rewrite (bracket_header _ _ _ B H1) in H2. discriminate.
        - destruct (bracket_key _ _ _ _ B K) as (s & ->). now exists s.
        - destruct (bracket_key _ _ _ _ B K) as (s & ->). now exists s.
        - destruct (bracket_key _ _ _ _ B K) as (s & ->). now exists s. }
      destruct K as (s & K). exists s, (tree_json (snd m)), (map mj ms'). etransitivity; [exact G|]. cbn [map]. unfold mj at 1. now rewrite K.
  - cbn [tree_json]. refine (failure_under d Ez b _ bs Sb Ub t k EMissingColon O _).
    apply msf_here; [exact (scans_depth _ _ _ _ _ _ Sb Ub _ _ eq_refl)|intros [[=] _]|]. apply prim_member_fails with p'; auto.
  - cbn [tree_json]. refine (members_under d Ee Ez b _ bs Sb Ub t k (m :: ms) rest O _).
    apply ms_more with ls1; [exact (scans_depth _ _ _ _ _ _ Sb Ub _ _ eq_refl)|intros [[=] _]|exact M|exact Rs].
Qed.
Print Assumptions C74_under_key.

(** And its faults. *)
Lemma first_line strict size n raws ls bs : scans strict size n raws ls bs -> starts_unindented raws ->
  forall l r, ls = l :: r -> exists bl rest, raws = bl ++ tl_text l :: rest /\ Forall blank bl /\ ~ blank (tl_text l).
Proof.
  induction 1 as [n|n raw raws ls bs B Sc IH|n k0 t d raws ls bs B N D T Sc IH]; intros U l r E.
  - discriminate.
  - destruct (IH (fun bl x y E' Hb => U (raw :: bl) x y (f_equal (cons raw) E') (Forall_cons _ B Hb)) l r E) as (bl & rest & -> & H1 & H2).
    exists (raw :: bl), rest. split; [reflexivity|]. split; [now constructor|exact H2].
  - injection E as <- _. exists [], raws. cbn [tl_text app]. destruct k0 as [|k0]; [split; [reflexivity|]; split; [constructor|exact B]|].
    exfalso. eapply (U [] _ raws eq_refl); [constructor| |reflexivity].
    intros X. unfold blank in *. apply B. apply Forall_app in X. apply X.
Qed.
Theorem C74_faults :
  forall (t k : str) (b : list str) (e : err) (indent : option nat) (strict : option bool) (expand : option expand_paths_mode),
    expand <> Some EPSafe -> unwrap_or indent 2 <> 0 -> starts_unindented b -> starts_object b -> opens t k ->
    let decode := fun lines => try_decode_from_lines lines (Some (DecOpts indent strict expand)) in
    decode b = Err e -> decode (t :: deeper (unwrap_or indent 2) b) = Err (deeper_error (unwrap_or indent 2) e).
Proof.
  intros t k b e indent strict expand He Hz Ub Ob O decode Hb. set (d := Some (DecOpts indent strict expand)) in *.
  assert (Ee : rd_expand (resolve_decode_options d) = EPOff) by (unfold d; destruct expand as [[|]|]; cbn; congruence).
  assert (Ez : rd_indent (resolve_decode_options d) <> 0) by exact Hz.
  destruct (scans_total (rd_strict (resolve_decode_options d)) (rd_indent (resolve_decode_options d)) b) as [(S & e' & F)|(ls & bs & Sb)].
  - assert (e' = e) as ->. { pose proof (lines_indent d b e' S F) as X. unfold decode in Hb. congruence. }
    exact (indent_under d Ez t k b e O S F).
  - assert (L : lines_fail parse_f64 (rd_strict (resolve_decode_options d)) (rd_indent (resolve_decode_options d)) b e).
    { unfold decode, try_decode_from_lines in Hb. cbv zeta in Hb. rewrite Ee in Hb. apply stream_err.
      destruct (decode_stream_sync _ _) as [evs|e'] eqn:E; cbn [bind] in Hb; [|congruence].
      apply stream_spec in E as (ls' & bs' & tr & _ & _ & ->).
      destruct (describes_build _ _ _ (tree_describes tr)) as (n & En & Ev). rewrite En in Hb. discriminate. }
    destruct L as [[S F]|(ls' & bs' & Sb' & F)]; [exact (indent_under d Ez t k b e O S F)|]. clear ls bs Sb. rename ls' into ls, bs' into bs.
    refine (failure_under d Ez b ls bs Sb' Ub t k e O _).
    assert (First : forall l r, ls = l :: r -> tl_depth l = 0 /\ has_colon (tl_text l) /\ ~ begins cLBRACK (tl_text l)).
    { intros l r E. split; [exact (scans_depth _ _ _ _ _ _ Sb' Ub _ _ E)|].
      destruct (first_line _ _ _ _ _ _ Sb' Ub _ _ E) as (bl & rest & E1 & E2 & E3). exact (Ob _ _ _ E1 E2 E3). }
    destruct F as [l ls e B _ _|l ls h tail e B _ _ _|l e _ C _|l ls e _ _ M|l ls m ls1 e _ _ M F];
      destruct (First _ _ eq_refl) as (D & H1 & H2); try contradiction.
    + apply msf_here; [exact D|intros [[=] _]|exact M].
    + eapply msf_later; [exact D|intros [[=] _]|exact M|exact F].
Qed.
Print Assumptions C74_faults.

(** A key right before an array: the member of that name, with the same elements; and the same faults, on the
    same lines. *)
Theorem C74_array :
  forall (kt k : str) (q : bool) (r : str) (b : list str) (indent : option nat) (strict : option bool) (expand : option expand_paths_mode),
    expand <> Some EPSafe -> names kt k q ->
    let decode := fun lines => try_decode_from_lines lines (Some (DecOpts indent strict expand)) in
    let keyed := (kt ++ cLBRACK :: r) :: b in
    (forall l, needed decode ((cLBRACK :: r) :: b) (JArr l) -> decode keyed = Ok (JObj [(k, JArr l)])) /\
    (forall h tail e, is_header (cLBRACK :: r) h tail -> unquoted cCOLON (cLBRACK :: r) ->
       decode ((cLBRACK :: r) :: b) = Err e -> decode keyed = Err e).
Proof.
  intros kt k q r b indent strict expand He N decode keyed. set (d := Some (DecOpts indent strict expand)) in *.
  assert (Ee : rd_expand (resolve_decode_options d) = EPOff) by (unfold d; destruct expand as [[|]|]; cbn; congruence).
  split; [intros l; exact (array_named d Ee kt k q r b l N)|].
  intros h tail e Hh Q. exact (array_named_fails d Ee kt k q r b e h tail N Hh Q).
Qed.
Print Assumptions C74_array.

(** A key, a colon and a space before a primitive. *)
Theorem C74_primitive :
  forall (kt k : str) (q : bool) (t : str) (v : prim) (indent : option nat) (strict : option bool) (expand : option expand_paths_mode),
    expand <> Some EPSafe -> names kt k q -> ~ In cLBRACK (kt ++ t) -> (forall r, t <> cSPACE :: r) ->
    let decode := fun lines => try_decode_from_lines lines (Some (DecOpts indent strict expand)) in
    decode [t] = Ok (JPrim v) -> decode [kt ++ cCOLON :: cSPACE :: t] = Ok (JObj [(k, JPrim v)]).
Proof.
  intros kt k q t v indent strict expand He N Nb Ns decode. set (d := Some (DecOpts indent strict expand)) in *.
  assert (Ee : rd_expand (resolve_decode_options d) = EPOff) by (unfold d; destruct expand as [[|]|]; cbn; congruence).
  exact (primitive_named d Ee kt k q t v N Nb Ns).
Qed.
Print Assumptions C74_primitive.

(** Texts as items of a list: each keeps the value it has by itself. *)
Theorem C74_items :
  forall (r : str) (h : head_line) (tail : str) (blocks : list (list str)) (vs : list json)
    (indent : option nat) (strict : option bool) (expand : option expand_paths_mode),
    expand <> Some EPSafe -> unwrap_or indent 2 <> 0 ->
    is_header (cLBRACK :: r) h tail -> blank tail -> hl_fields h = None -> hl_length h = N.of_nat (length vs) ->
    let decode := fun lines => try_decode_from_lines lines (Some (DecOpts indent strict expand)) in
    Forall2 (item_lines decode (unwrap_or indent 2)) blocks vs ->
    (unquoted cCOLON (cLBRACK :: r) -> decode ((cLBRACK :: r) :: concat blocks) = Ok (JArr vs)) /\
    (forall kt k q, names kt k q -> decode ((kt ++ cLBRACK :: r) :: concat blocks) = Ok (JObj [(k, JArr vs)])).
Proof.
  intros r h tail blocks vs indent strict expand He Hz Hh Bt Hf Hl decode H. set (d := Some (DecOpts indent strict expand)) in *.
  assert (Ee : rd_expand (resolve_decode_options d) = EPOff) by (unfold d; destruct expand as [[|]|]; cbn; congruence).
  split; [intros Q; exact (list_read d Ee Hz r h tail blocks vs Q Hh Bt (or_introl Hf) Hl H)|].
  intros kt k q N. exact (list_read_named d Ee Hz kt k q r h tail blocks vs N Hh Bt (or_introl Hf) Hl H).
Qed.
Print Assumptions C74_items.

(** ** Cases *)
Lemma names_cases : names (lit "a") (lit "a") false /\ names (lit """a: b""") (lit "a: b") true.
Proof.
  split.
  - apply na_word; try discriminate; try (intros [[=]|[]]). apply trims_spec. reflexivity.
  - apply na_quoted. exists (lit "a: b"). split; [reflexivity|]. repeat (constructor; [discriminate|discriminate|]). constructor.
Qed.
Definition array_case : list str := [lit "[2|]:"; lit "  - x: 1"; lit "    y[2|]: 1|2"; lit "  - [0|]:"].
Example C74_array_case :
  exists l, try_decode_from_lines array_case None = Ok (JArr l) /\ length l = 2 /\
    try_decode_from_lines ((lit "a" ++ lit "[2|]:") :: tl array_case) None = Ok (JObj [(lit "a", JArr l)]) /\
    try_decode_from_lines ((lit """a: b""" ++ lit "[2|]:") :: tl array_case) None = Ok (JObj [(lit "a: b", JArr l)]) /\
    try_decode_from_lines (removelast array_case) None = Err (ECount CItems 2 1) /\
    try_decode_from_lines ((lit "a" ++ lit "[2|]:") :: tl (removelast array_case)) None = Err (ECount CItems 2 1).
Proof. eexists. repeat split; vm_compute; reflexivity. Qed.
Example C74_primitive_case :
  exists p, parse_f64 (lit "12") = Some p /\
  try_decode_from_lines [lit "12"] None = Ok (JPrim (PNum p)) /\
  try_decode_from_lines [lit "a" ++ lit ": 12"] None = Ok (JObj [(lit "a", JPrim (PNum p))]) /\
  try_decode_from_lines [lit """a: b""" ++ lit ": 12"] None = Ok (JObj [(lit "a: b", JPrim (PNum p))]).
Proof. eexists. repeat split; vm_compute; reflexivity. Qed.
Lemma opens_word : opens (lit "a:") (lit "a").
Proof.
  split; [|split; [|split; discriminate]].
  - exists false, []. split; [left; apply header_none; vm_compute; reflexivity|]. split; [|constructor].
    apply (kl_bare _ (lit "a")); [discriminate|split; [reflexivity|intros [[=]|[]]]|]. apply trims_spec. reflexivity.
  - intros (w & r & E & Hw). destruct w as [|c w]; [discriminate|]. injection E as <- _. inversion Hw; subst. discriminate.
Qed.
Lemma opens_quoted : opens (lit """a: b"": ") (lit "a: b").
Proof.
  split; [|split; [|split; discriminate]].
  - exists true, (lit " "). split; [left; apply header_none; vm_compute; reflexivity|]. split; [|repeat constructor].
    apply (kl_quoted _ (lit "a: b") (lit "a: b")); [reflexivity|]. repeat (constructor; [discriminate|discriminate|]). constructor.
  - intros (w & r & E & Hw). destruct w as [|c w]; [discriminate|]. injection E as <- _. inversion Hw; subst. discriminate.
Qed.
Definition deep_case : list str := [lit "x: 1"; []; lit "t[2]{p,q}:"; lit "  1,2"; lit "  3,4"; lit "o:"; lit "  l[2]:"; lit "    - k: v"; lit "      m: w"; lit "    - 7"].
Lemma deep_case_starts : starts_unindented deep_case /\ starts_object deep_case.
Proof.
  assert (H : forall bl l r, deep_case = bl ++ l :: r -> Forall blank bl -> ~ blank l -> l = lit "x: 1").
  { intros [|x bl] l r E B _; [now injection E|]. exfalso. injection E as <- _. inversion B as [|? ? B' _]; subst. inversion B'; discriminate. }
  split; intros bl l r E B N; rewrite (H _ _ _ E B N).
  - discriminate.
  - split; [right; split; [discriminate|cbn; auto]|].
    intros (w & s & E' & Hw). destruct w as [|c w]; [discriminate|]. injection E' as <- _. inversion Hw; subst. discriminate.
Qed.
Example C74_case :
  exists l, try_decode_from_lines deep_case None = Ok (JObj l) /\ length l = 3 /\
    try_decode_from_lines (lit "a:" :: deeper 2 deep_case) None = Ok (JObj [(lit "a", JObj l)]) /\
    try_decode_from_lines (lit """a: b"": " :: deeper 2 deep_case) None = Ok (JObj [(lit "a: b", JObj l)]).
Proof. eexists. repeat split; vm_compute; reflexivity. Qed.
(** The faults of line 3 and of line 2. *)
Example C74_fault_case :
  let wrong := [lit "x: 1"; lit "   y: 1"] in
  let short := [lit "t[2]{p,q}:"; lit "  1,2"; []; lit "  3,4"] in
  try_decode_from_lines wrong None = Err (EIndentMultiple 2 2 3) /\
  try_decode_from_lines (lit "a:" :: deeper 2 wrong) None = Err (EIndentMultiple 3 2 5) /\
  try_decode_from_lines short None = Err (EBlankInArray CRows 3) /\
  try_decode_from_lines (lit "a:" :: deeper 2 short) None = Err (EBlankInArray CRows 4).
Proof. repeat split; vm_compute; reflexivity. Qed.
(** A text that starts indented, and indentation of no width: the hypotheses are needed. *)
Example C74_needed :
  try_decode_from_lines [lit "  x: v"; lit "y: w"] None = Ok (JObj [(lit "x", JPrim (PStr (lit "v"))); (lit "y", JPrim (PStr (lit "w")))]) /\
  try_decode_from_lines (lit "a:" :: deeper 2 [lit "  x: v"; lit "y: w"]) None =
    Ok (JObj [(lit "a", JObj [(lit "x", JPrim (PStr (lit "v")))])]) /\
  try_decode_from_lines (lit "a:" :: deeper 0 [lit "x: v"]) (Some (DecOpts (Some 0) None None)) =
    Ok (JObj [(lit "a", JObj []); (lit "x", JPrim (PStr (lit "v")))]).
Proof. repeat split; vm_compute; reflexivity. Qed.
(** Four items: an object with a nested list, an array, a primitive and a lone hyphen. *)
Definition item_texts : list (list str) :=
  [ block 2 2 (lit "a:") [lit "  x: 1"; lit "b[1]:"; lit "  - 7"]; block 2 1 (lit "[2]:") [lit "  - u"; lit "  - v: w"];
    block 2 1 (lit "word") []; [lit "  -"] ].
Example C74_items_case :
  let decode := fun lines => try_decode_from_lines lines (Some (DecOpts None None None)) in
  exists vs, Forall2 (item_lines decode 2) item_texts vs /\ length vs = 4 /\
    decode (lit "[4]:" :: concat item_texts) = Ok (JArr vs) /\
    decode (lit "k[4]:" :: concat item_texts) = Ok (JObj [(lit "k", JArr vs)]).
Proof.
  cbv zeta. eexists. split; [|split; [|split; vm_compute; reflexivity]].
  - assert (B : forall s : str, forallb is_ws s = false -> ~ blank s).
    { intros s E B. rewrite (proj2 (forallb_forall is_ws s)) in E; [discriminate|]. unfold blank in B. now rewrite Forall_forall in B. }
    unfold item_texts. repeat apply Forall2_cons; [| | | |apply Forall2_nil].
    + eapply (il_object _ 2 (lit "a:") [lit "  x: 1"; lit "b[1]:"; lit "  - 7"]).
      * split; [vm_compute; reflexivity|vm_compute; discriminate].
      * repeat constructor; apply B; reflexivity.
      * discriminate.
      * intros (w & x & E & Bw). destruct w as [|c w]; [discriminate|]. injection E as <- _. inversion Bw; discriminate.
      * exists (lit "a"), []. split; [reflexivity|]. repeat constructor; discriminate.
      * intros k x I. destruct k as [|[|k]]; [exfalso|exfalso|lia]; cbn in I; repeat (destruct I as [I|I]; [discriminate|]); contradiction.
    + eapply (il_array _ 2 (lit "[2]:") [lit "  - u"; lit "  - v: w"]).
      * split; [vm_compute; reflexivity|vm_compute; discriminate].
      * repeat constructor; apply B; reflexivity.
      * discriminate.
    + eapply (il_prim _ 2 (lit "word")); try discriminate; [vm_compute; reflexivity| |]; cbn; intuition discriminate.
    + apply il_hyphen.
  - reflexivity.
Qed.
(** Why an item must not have a member that starts with a hyphen. *)
Example C74_items_needed :
  let t := [lit "a: b"; lit "- c: d"] in
  try_decode_from_lines t None = Ok (JObj [(lit "a", JPrim (PStr (lit "b"))); (lit "- c", JPrim (PStr (lit "d")))]) /\
  try_decode_from_lines (lit "[1]:" :: block 2 2 (lit "a: b") [lit "- c: d"]) None =
    Ok (JArr [JObj [(lit "a", JPrim (PStr (lit "b")))]]).
Proof. split; vm_compute; reflexivity. Qed.
