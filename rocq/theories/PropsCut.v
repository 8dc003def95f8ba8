(** C61: texts whose end is missing. *)
From Coq Require Import Permutation.
From Verif Require Import Chars Floats Json JsonInd JsonEq Shared EncPrim ParseProof Normalize Encoders EncodeApi Scanner Parser DecValidation
  Decoders EventBuilder Expand DecodeApi Lex Spec DecProps DecRel Layout LayEnc LayFacts EncTotal WrittenProps RoundTrip
  SpecText SpecRead ReadHead ReadLine ReadProof SpecError ErrProof SpecCut PropsUnread PropsRoundTrip CutProof Checkers.

Local Open Scope nat_scope.

(** An accepted text is read up to some line.  Its first [k] lines give the same value if that line
    is among them.  Otherwise something is lost, and this is what can happen: nothing but blank
    lines is left, and the value is an empty object; or the value is the value of the whole text
    without some members at its end; or, in strict mode, the error that an array is not complete.
    In strict mode no array that is accepted has lost an item; in lenient mode there is no error. *)
Theorem C61_truncated_lines :
  forall (lines : list str) (indent : option nat) (strict : option bool) (expand : option expand_paths_mode) (v : json),
    expand <> Some EPSafe ->
    try_decode_from_lines lines (Some (DecOpts indent strict expand)) = Ok v ->
    exists j, j <= length lines /\ forall k,
      (j <= k -> try_decode_from_lines (firstn k lines) (Some (DecOpts indent strict expand)) = Ok v) /\
      (k < j -> cut_outcome (unwrap_or strict true) (firstn k lines)
                  (try_decode_from_lines (firstn k lines) (Some (DecOpts indent strict expand))) v).
Proof.
  intros lines indent strict expand v He H.
  assert (Ee : rd_expand (resolve_decode_options (Some (DecOpts indent strict expand))) = EPOff) by (destruct expand as [[|]|]; cbn; congruence).
  destruct (lines_ok_inv _ _ _ Ee H) as (ls & bs & tr & Sc & R & ->). apply root_root_to in R as (rest & R).
  destruct (cut_lines _ _ _ _ _ _ Ee Sc R) as (j & Lj & _ & C). exists j. auto.
Qed.
Print Assumptions C61_truncated_lines.

(** The same for texts. *)
Theorem C61_truncated_text :
  forall (lines : list str) (indent : option nat) (strict : option bool) (expand : option expand_paths_mode) (v : json),
    expand <> Some EPSafe -> Forall (fun s => ~ In cLF s) lines ->
    try_decode (join cLF lines) (Some (DecOpts indent strict expand)) = Ok v ->
    exists j, j <= length lines /\ forall k,
      (j <= k -> try_decode (join cLF (firstn k lines)) (Some (DecOpts indent strict expand)) = Ok v) /\
      (k < j -> cut_outcome (unwrap_or strict true) (firstn k lines)
                  (try_decode (join cLF (firstn k lines)) (Some (DecOpts indent strict expand))) v).
Proof.
  intros lines indent strict expand v He Hl H. rewrite C42_decode_lines_is_text in H by exact Hl.
  destruct (C61_truncated_lines _ _ _ _ _ He H) as (j & Lj & C). exists j. split; [exact Lj|]. intros k.
  assert (Hk : Forall (fun s => ~ In cLF s) (firstn k lines)).
  { rewrite <- (firstn_skipn k lines) in Hl. apply Forall_app in Hl. apply Hl. }
  rewrite C42_decode_lines_is_text by exact Hk. apply C.
Qed.
Print Assumptions C61_truncated_text.

(** What is left is less: a shortened value differs from the value, whatever the order of members. *)
Lemma jsize_arr l : jsize (JArr l) = S (list_sum (map jsize l)). Proof. reflexivity. Qed.
Lemma jsize_obj l : jsize (JObj l) = S (list_sum (map (fun kv => jsize (snd kv)) l)). Proof. reflexivity. Qed.
Lemma jsize_pos v : 0 < jsize v. Proof. destruct v; cbn; lia. Qed.
Lemma sum_cons n l : list_sum (n :: l) = n + list_sum l. Proof. reflexivity. Qed.
Lemma sum_pos (l : list nat) : Forall (fun n => 0 < n) l -> l <> [] -> 0 < list_sum l.
Proof. intros F N. destruct F as [|x l P _]; [congruence|]. rewrite sum_cons. lia. Qed.
Lemma jequiv_size v : forall w, jequiv v w -> jsize v = jsize w.
Proof.
  induction v using json_ind'; intros w E; inversion E as [|? m F|? l' m P F]; subst; [reflexivity| |].
  - rewrite !jsize_arr. f_equal. clear E. revert H. induction F as [|x y l m R _ IH]; intros H; [reflexivity|]. inversion H; subst.
    cbn [map]. rewrite !sum_cons. f_equal; auto.
  - rewrite !jsize_obj. f_equal. assert (Ep : list_sum (map (fun kv => jsize (snd kv)) l) = list_sum (map (fun kv => jsize (snd kv)) l')).
    { clear -P. induction P; cbn [map]; rewrite ?sum_cons; lia. }
    rewrite Ep. assert (H' : Forall (fun kv => forall w, jequiv (snd kv) w -> jsize (snd kv) = jsize w) l').
    { rewrite Forall_forall in *. intros x Hx. apply H. eapply Permutation_in; [apply Permutation_sym; exact P|exact Hx]. }
    clear -F H'. revert H'. induction F as [|x y l m [_ R] _ IH]; intros H; [reflexivity|]. inversion H; subst.
    cbn [map]. rewrite !sum_cons. f_equal; auto.
Qed.
Lemma shortened_size whole w v : shortened whole w v -> jsize w < jsize v.
Proof.
  induction 1 as [a b N|a k w v b _ IH|a b _ N|a w v b _ _ IH].
  - rewrite !jsize_obj, map_app, list_sum_app. enough (0 < list_sum (map (fun kv => jsize (snd kv)) b)) by lia.
    apply sum_pos; [|destruct b; [congruence|discriminate]]. apply Forall_map, Forall_forall. intros x _. apply jsize_pos.
  - rewrite !jsize_obj, !map_app, !list_sum_app. cbn [map snd]. rewrite !sum_cons. cbn [list_sum fold_right]. lia.
  - rewrite !jsize_arr, map_app, list_sum_app. enough (0 < list_sum (map jsize b)) by lia.
    apply sum_pos; [|destruct b; [congruence|discriminate]]. apply Forall_map, Forall_forall. intros x _. apply jsize_pos.
  - rewrite !jsize_arr, !map_app, !list_sum_app. cbn [map]. rewrite !sum_cons. cbn [list_sum fold_right]. lia.
Qed.
Theorem C61_shortened_differs :
  forall (whole : bool) (w v : json), shortened whole w v -> ~ jequiv v w /\ w <> v.
Proof.
  intros whole w v H. apply shortened_size in H. split; [intros E; apply jequiv_size in E; lia|intros ->; lia].
Qed.
Print Assumptions C61_shortened_differs.

(** The encoder's output is needed to its last line: without it the value is never read in full. *)
Theorem C61_truncated_output :
  forall (fuel : nat) (v : json) (eo : option encode_options) (d : option decode_options) (lines : list str),
    plain_options eo -> matching_options eo d -> distinct_keys v -> portable v ->
    encode_lines fuel v eo = Ok lines ->
    exists n w, norm_json v n /\ jequiv n w /\ try_decode_from_lines lines d = Ok w /\
      forall k, k < length lines ->
        cut_outcome (rd_strict (resolve_decode_options d)) (firstn k lines) (try_decode_from_lines (firstn k lines) d) w /\
        (0 < k -> ~ Forall blank (firstn k lines)).
Proof.
  intros fuel v eo d lines Ho [Hi He] Hk Hp E. destruct (encode_layout fuel v eo Ho Hk Hp) as (abs & w & E' & L & W).
  assert (El : lines = map (render (ro_indent (resolve_encode_options eo))) abs) by congruence. destruct Ho as (_ & _ & Hd & Hn).
  destruct (layout_root_to _ _ _ _ (rd_strict (resolve_decode_options d)) Hd Hn L) as (ls & tr & Sc & R & Et & _). rewrite <- El, <- Hi in Sc.
  destruct (cut_lines _ d _ _ _ _ He Sc R) as (j & Lj & Fj & C). specialize (Fj eq_refl eq_refl).
  exists (normalize_json_value v), w. split; [apply normalize_spec|]. split.
  { apply table_ordered_jequiv, (proj1 written_ordered _ _ _ W). eapply norm_distinct; eauto using normalize_spec. }
  split. { rewrite <- Et, <- (firstn_all lines). apply C. lia. }
  intros k Lk. split; [rewrite <- Et; apply C; lia|].
  intros Pk F. destruct k as [|k]; [lia|]. apply (scans_first _ _ _ _ _ Sc) in F. rewrite F in Lk. cbn in Lk. lia.
Qed.
Print Assumptions C61_truncated_output.

(** A value without objects, in strict mode: every cut but the whole is an error. *)
Lemma no_object_shortened w v : shortened true w v -> ~ no_object v.
Proof.
  induction 1 as [a b N|a k w v b _ IH|a b X N|a w v b _ _ IH]; intros H; inversion H as [|l F]; subst; try discriminate.
  apply IH. apply Forall_app in F as [_ F]. now inversion F.
Qed.
Lemma norm_no_object v : forall n, norm_json v n -> no_object v -> no_object n.
Proof.
  induction v using json_ind'; intros n Hn Ho; inversion Hn as [|? m F|]; subst; inversion Ho as [|? F']; subst; constructor.
  clear Hn Ho. revert H F'. induction F as [|x y l m R _ IH]; intros H F'; constructor; inversion H; inversion F'; subst; auto.
Qed.
Lemma jequiv_no_object v : forall w, jequiv v w -> no_object v -> no_object w.
Proof.
  induction v using json_ind'; intros n Hn Ho; inversion Hn as [|? m F|]; subst; inversion Ho as [|? F']; subst; constructor.
  clear Hn Ho. revert H F'. induction F as [|x y l m R _ IH]; intros H F'; constructor; inversion H; inversion F'; subst; auto.
Qed.
Theorem C61_arrays_detected :
  forall (fuel : nat) (v : json) (eo : option encode_options) (d : option decode_options) (lines : list str),
    plain_options eo -> matching_options eo d -> rd_strict (resolve_decode_options d) = true ->
    distinct_keys v -> portable v -> no_object v ->
    encode_lines fuel v eo = Ok lines ->
    forall k, 0 < k < length lines -> exists e, try_decode_from_lines (firstn k lines) d = Err e /\ missing e.
Proof.
  intros fuel v eo d lines Ho Hm Hs Hk Hp Hno E k [Pk Lk].
  destruct (C61_truncated_output fuel v eo d lines Ho Hm Hk Hp E) as (n & w & Hn & Hj & _ & H). destruct (H k Lk) as [C B]. specialize (B Pk).
  destruct C as [[F _]|[(w' & _ & Sh)|(_ & C)]]; [contradiction| |exact C].
  exfalso. rewrite Hs in Sh. eapply no_object_shortened; eauto using jequiv_no_object, norm_no_object.
Qed.
Print Assumptions C61_arrays_detected.

(** A table, in strict mode: a header and a line for each row; every cut after the header is the error
    that so many rows are missing. *)
Theorem C61_tables_detected :
  forall (fuel : nat) (l : list json) (fields : list str) (eo : option encode_options) (d : option decode_options) (lines : list str),
    plain_options eo -> matching_options eo d -> rd_strict (resolve_decode_options d) = true ->
    distinct_keys (JArr l) -> portable (JArr l) -> tabular l fields ->
    encode_lines fuel (JArr l) eo = Ok lines ->
    length lines = S (length l) /\
    forall k, k < length l ->
      try_decode_from_lines (firstn (S k) lines) d = Err (ECount CRows (N.of_nat (length l)) (N.of_nat k)).
Proof.
  intros fuel l fields eo d lines (_ & Hr & Hd & Hn) [Hi He] Hs Hk Hp T E. unfold encode_lines, prepare in E. cbv zeta in E. rewrite Hr in E. cbn [bind] in E.
  set (o := resolve_encode_options eo) in *. pose proof (normalize_spec (JArr l)) as N. remember (normalize_json_value (JArr l)) as n eqn:En. clear En.
  inversion N as [|? m F|]; subst.
  assert (T' : tabular m fields) by (eapply norm_tabular_iff; eauto).
  assert (Hk' : distinct_keys (JArr m)) by (eapply norm_distinct; eauto).
  assert (Hp' : portable (JArr m)) by (eapply norm_portable; eauto).
  assert (Hx : extract_tabular_header m = Some fields) by (apply tabular_rows; [now inversion Hk'|exact T']).
  assert (Hg : good True true (JArr m)) by (intros _; split; [exact Hk'|]; split; [exact Hp'|eapply norm_canonical; eauto]).
  destruct (table_encoded o m fields lines E Hg Hx) as (m' & abs & L & El & W & Len).
  rewrite <- (Forall2_length _ _ _ F) in *. split; [exact Len|]. intros k Lk.
  destruct (layout_root_to _ _ _ _ true Hd Hn (lr_arr _ _ _ _ L)) as (ls & tr & Sc & R & Et & Em). rewrite <- El, <- Hi in Sc.
  destruct ls as [|l0 ls]; [discriminate|]. cbn [map] in Em. injection Em as Em _. cbn [snd] in Em.
  assert (A : exists h tail, begins cLBRACK (tl_text l0) /\ unquoted cCOLON (tl_text l0) /\ is_header (tl_text l0) h tail).
  { inversion R; subst; [eauto|discriminate..]. }
  destruct A as (h & tail & B & Q & Hh).
  pose proof (header_some _ _ _ Hh) as P. rewrite Em in P.
  pose proof (header_parse (ro_delimiter o) Hd l None (Some fields) []) as P'. rewrite app_nil_r in P'.
  assert (Hc : (N.of_nat (length l) <= 100000000)%N) by (inversion Hp; assumption).
  assert (Hb : Forall (fun f => ~ In cRBRACE f) fields).
  { inversion Hp as [|? ? ? Hnt|? fields' ? T2 Hb|]; subst; [exfalso; eapply Hnt; eauto|].
    destruct T as (_ & (f1 & r1 & E1 & <-) & _), T2 as (_ & (f2 & r2 & E2 & <-) & _). rewrite E1 in E2. now injection E2 as -> _. }
  assert (X : to_header h = Header None (key_quoted None) (N.of_nat (length l)) (ro_delimiter o) (Some (map field_of fields))).
  { specialize (P' Hc Hb). assert (X : Ok (Some (to_header h, inline_of tail)) = Ok (Some (Header None (key_quoted None) (N.of_nat (length l)) (ro_delimiter o)
      (option_map (map field_of) (Some fields)), if is_empty (trim []) then None else Some (trim [])))) by (etransitivity; [symmetry; exact P|exact P']).
    assert (Y : forall (X1 X2 : Type) (a a' : X1) (b b' : X2), Ok (Some (a, b)) = Ok (Some (a', b')) -> a = a') by (intros X1 X2 a a' b b' Z; now injection Z).
    exact (Y _ _ _ _ _ _ X). }
  assert (Xl : hl_length h = N.of_nat (length l)) by (apply (f_equal ah_length) in X; exact X).
  assert (Xf : exists fs, hl_fields h = Some fs /\ fs <> []).
  { apply (f_equal ah_fields) in X. cbn in X. destruct (hl_fields h) as [fs|]; [|discriminate]. exists fs. split; [reflexivity|]. intros ->.
    destruct T as (Hne & _). destruct fields; [congruence|discriminate]. }
  destruct Xf as (fs & Hf & Hne).
  destruct (cut_table _ d _ _ _ _ _ _ _ _ He Hs Sc R B Q Hh Hf Hne) as (j & Lj & Fj & C). specialize (Fj eq_refl eq_refl).
  destruct (C (S k)) as [_ C']. destruct C' as [Bl|(ls' & bs' & Sk & I & _ & Er)]; [lia| |].
  - exfalso. apply (scans_first _ _ _ _ _ Sc) in Bl. rewrite Bl in Len. discriminate.
  - rewrite Er, Xl. f_equal. f_equal. apply scans_length in Sk. rewrite firstn_length_le in Sk by lia.
    destruct bs' as [|b bs']; [|destruct (I b); now left]. cbn in Sk. lia.
Qed.
Print Assumptions C61_tables_detected.

(** A member, an object with a list of two items, an object that goes on after it. *)
Definition cut_case : list str :=
  [lit "a: x"; lit "b:"; lit "  l[2]:"; lit "    - y"; lit "    - k: u"; lit "      m: v"; lit "c: z"].
Definition s (x : string) : json := JPrim (PStr (lit x)).
Example C61_case :
  let full := JObj [(lit "a", s "x"); (lit "b", JObj [(lit "l", JArr [s "y"; JObj [(lit "k", s "u"); (lit "m", s "v")]])]); (lit "c", s "z")] in
  let short := JObj [(lit "a", s "x"); (lit "b", JObj [(lit "l", JArr [s "y"; JObj [(lit "k", s "u")]])])] in
  try_decode_from_lines cut_case None = Ok full /\
  try_decode_from_lines (firstn 2 cut_case) None = Ok (JObj [(lit "a", s "x"); (lit "b", JObj [])]) /\
  try_decode_from_lines (firstn 3 cut_case) None = Err (ECount CItems 2 0) /\
  try_decode_from_lines (firstn 4 cut_case) None = Err (ECount CItems 2 1) /\
  try_decode_from_lines (firstn 4 cut_case) (Some (DecOpts None (Some false) None)) =
    Ok (JObj [(lit "a", s "x"); (lit "b", JObj [(lit "l", JArr [s "y"])])]) /\
  try_decode_from_lines (firstn 5 cut_case) None = Ok short /\ shortened true short full.
Proof.
  cbv zeta. repeat (split; [vm_compute; reflexivity|]).
  apply (sh_member true [(lit "a", s "x")]). apply (sh_member true []). apply (sh_item true [s "y"]); [reflexivity|].
  apply (sh_members true [_]). discriminate.
Qed.

(** A table of three rows. *)
Definition cut_table_case : list json :=
  [JObj [(lit "id", s "a"); (lit "x,y", s "1")]; JObj [(lit "x,y", s ""); (lit "id", s "b")]; JObj [(lit "id", s "c"); (lit "x,y", s "d")]].
Example C61_table_case :
  let d := Some (DecOpts None None None) in
  plain_options None /\ matching_options None d /\ rd_strict (resolve_decode_options d) = true /\
  distinct_keys (JArr cut_table_case) /\ portable (JArr cut_table_case) /\ tabular cut_table_case [lit "id"; lit "x,y"] /\
  exists lines, encode_lines 0 (JArr cut_table_case) None = Ok lines /\
    try_decode_from_lines (firstn 3 lines) d = Err (ECount CRows 3 2).
Proof.
  cbv zeta. assert (D : distinct_keys (JArr cut_table_case)) by (apply distinctb_ok; vm_compute; reflexivity).
  split; [repeat split; try discriminate; left; reflexivity|]. split; [split; reflexivity|]. split; [reflexivity|]. split; [exact D|].
  split; [apply portableb_ok; [exact D|vm_compute; reflexivity]|]. split.
  - split; [discriminate|]. split; [eexists _, _; split; reflexivity|].
    repeat constructor; eexists; (split; [reflexivity|]); (split; [|repeat constructor; eexists; reflexivity]); cbn [map fst]; auto using perm_swap.
  - eexists. split; [vm_compute; reflexivity|]. vm_compute. reflexivity.
Qed.
(** An array of arrays: no cut goes unnoticed. *)
Example C61_arrays_case :
  let v := JArr [JArr [s "a"; s "b"]; JArr [JArr []; s "c"]; s "d"] in
  distinct_keys v /\ portable v /\ no_object v /\
  exists lines, encode_lines 0 v None = Ok lines /\ length lines = 6 /\
    try_decode_from_lines (firstn 4 lines) None = Err (ECount CItems 2 1).
Proof.
  cbv zeta. split; [repeat constructor|]. split; [apply portableb_ok; [repeat constructor|vm_compute; reflexivity]|].
  split; [repeat constructor|]. eexists. split; [vm_compute; reflexivity|]. split; [reflexivity|]. vm_compute. reflexivity.
Qed.
