(** The layout of a document as depth/content pairs, and: whatever is laid out this way is read
    back by the decoder. *)
From Verif Require Import Chars Floats Json Shared EncPrim Normalize EncodeApi Scanner Parser
  DecValidation Decoders Lex NumProof PrimProof Spec ParseProof DecRel DecProps.

Local Open Scope nat_scope.

(** A line: depth and content without indentation. *)
Definition aline : Type := nat * str.

Definition row_json (fields : list str) (cells : list prim) : json :=
  JObj (combine fields (map JPrim cells)).

(** A string member of a key written without quotes must not look like an array header. *)
Definition member_ok (k : str) (p : prim) : Prop :=
  json_prim p /\ (forall s, p = PStr s -> bare_key k -> ~ header_like s).

Section Lay.
(** Whether the conditions needed for reading back are demanded. *)
Variable G : Prop.
Variable dl : char.

Definition cap {A} (l : list A) : Prop := G -> (N.of_nat (length l) <= 100000000)%N.

Inductive lay_field : nat -> str * json -> list aline -> Prop :=
| lf_prim d k p : (G -> member_ok k p) ->
    lay_field d (k, JPrim p) [(d, encode_key k ++ [cCOLON; cSPACE] ++ encode_primitive p dl)]
| lf_obj d k l ls : lay_fields (S d) l ls ->
    lay_field d (k, JObj l) ((d, encode_key k ++ [cCOLON]) :: ls)
| lf_arr d k items ls : lay_arr (Some k) d items ls -> lay_field d (k, JArr items) ls
with lay_fields : nat -> list (str * json) -> list aline -> Prop :=
| lfs_nil d : lay_fields d [] []
| lfs_cons d kv l a b : lay_field d kv a -> lay_fields d l b -> lay_fields d (kv :: l) (a ++ b)
with lay_arr : option str -> nat -> list json -> list aline -> Prop :=
| la_inline key d ps : ps <> [] -> cap ps -> (G -> Forall json_prim ps) ->
    lay_arr key d (map JPrim ps)
      [(d, format_header (length ps) key None dl ++ cSPACE :: encode_and_join_primitives ps dl)]
| la_table key d fields rows : fields <> [] -> cap rows ->
    (G -> Forall (fun f => ~ In cRBRACE f) fields) ->
    (G -> Forall (Forall json_prim) rows) ->
    Forall (fun r => length r = length fields) rows ->
    lay_arr key d (map (row_json fields) rows)
      ((d, format_header (length rows) key (Some fields) dl)
       :: map (fun r => (S d, encode_and_join_primitives r dl)) rows)
| la_list key d items ls : cap items -> lay_items (S d) items ls ->
    lay_arr key d items ((d, format_header (length items) key None dl) :: ls)
with lay_items : nat -> list json -> list aline -> Prop :=
| lis_nil d : lay_items d [] []
| lis_cons d v l a b : lay_item d v a -> lay_items d l b -> lay_items d (v :: l) (a ++ b)
with lay_item : nat -> json -> list aline -> Prop :=
| li_prim d p : (G -> json_prim p) ->
    lay_item d (JPrim p) [(d, cMINUS :: cSPACE :: encode_primitive p dl)]
| li_empty d : lay_item d (JObj []) [(d, [cMINUS])]
| li_obj d kv l c a b : lay_field (S d) kv ((S d, c) :: a) -> lay_fields (S d) l b ->
    lay_item d (JObj (kv :: l)) ((d, cMINUS :: cSPACE :: c) :: a ++ b)
| li_arr d items c a : lay_arr None d items ((d, c) :: a) ->
    lay_item d (JArr items) ((d, cMINUS :: cSPACE :: c) :: a).

Inductive lay_root : json -> list aline -> Prop :=
| lr_prim p : (G -> json_prim p) -> lay_root (JPrim p) [(0, encode_primitive p dl)]
| lr_arr items ls : lay_arr None 0 items ls -> lay_root (JArr items) ls
| lr_obj l ls : lay_fields 0 l ls -> lay_root (JObj l) ls.
End Lay.

Scheme lay_field_ind' := Minimality for lay_field Sort Prop
  with lay_fields_ind' := Minimality for lay_fields Sort Prop
  with lay_arr_ind' := Minimality for lay_arr Sort Prop
  with lay_items_ind' := Minimality for lay_items Sort Prop
  with lay_item_ind' := Minimality for lay_item Sort Prop.
Combined Scheme lay_mutind from lay_field_ind', lay_fields_ind', lay_arr_ind', lay_items_ind',
  lay_item_ind'.

(** * Reading a layout back *)

Definition key_event (k : str) : event := EvKey k (negb (is_valid_unquoted_key k)).
Definition field_evs (kv : str * json) : list event := key_event (fst kv) :: emit_events (snd kv).

Definition line_is (l : parsed_line) (a : aline) : Prop := pl_depth l = fst a /\ pl_content l = snd a.
Definition lines_are : list parsed_line -> list aline -> Prop := Forall2 line_is.

(** The next line, if any, is at depth at most [d]. *)
Definition shallow (d : nat) (tail : list parsed_line) : Prop :=
  match tail with [] => True | l :: _ => pl_depth l <= d end.

Lemma shallow_mono d e tail : d <= e -> shallow d tail -> shallow e tail.
Proof. destruct tail; cbn; auto. lia. Qed.

Lemma encode_key_first k rest : exists c r, encode_key k ++ rest = c :: r /\ is_ws c = false.
Proof.
  pose proof (encode_key_tight k) as Ht. pose proof (encode_key_nonempty k) as Hn.
  destruct (encode_key k) as [|c r]; [congruence|]. exists c, (r ++ rest). split; auto. apply Ht.
Qed.

(** What the decoder checks on the first line of a field. *)
Definition key_content (c : str) : Prop :=
  is_key_value_content c = true /\ is_array_header_content c = false /\ trim c <> [] /\
  starts_with_str LIST_ITEM_PREFIX c = false.

Lemma nonws_trim c r : is_ws c = false -> trim (c :: r) <> [].
Proof. intros H E. apply trim_nil in E. inversion E; subst. congruence. Qed.

Lemma key_content_colon k rest : key_content (encode_key k ++ cCOLON :: rest).
Proof.
  split; [apply key_is_key_value|]. split; [apply key_not_header_content|]. split.
  - destruct (encode_key_first k (cCOLON :: rest)) as (c & r & -> & H). now apply nonws_trim.
  - apply key_not_list_item.
Qed.
Lemma key_content_header n k fields d tail : std_delim d ->
  key_content (format_header n (Some k) fields d ++ tail).
Proof.
  intros Hd. split; [now apply key_header_is_key_value|]. rewrite format_header_eq. cbn [key_text].
  split; [apply key_not_header_content|]. split.
  - match goal with |- trim (_ ++ ?r) <> [] => destruct (encode_key_first k r) as (c & s & -> & H) end.
    now apply nonws_trim.
  - apply key_not_list_item.
Qed.

Lemma not_header_member k p : member_ok k p -> not_header_under k p.
Proof.
  intros [_ H]. destruct p as [s|x|b|]; cbn; auto. destruct (is_valid_unquoted_key k) eqn:E; auto.
  right. apply H; auto. unfold bare_key.
  destruct k as [|c r]; [discriminate|]. exists c, r. split; auto. cbn in E.
  apply andb_prop in E as [E1 E2]. split.
  - unfold is_alpha in E1. unfold letter. lia.
  - apply Forall_forall. intros x Hx. rewrite forallb_forall in E2. apply E2 in Hx.
    unfold is_alnum, is_alpha, is_digit in Hx. unfold letter, digit. lia.
Qed.

Lemma normalize_json p : json_prim p -> normalize_primitive p = p.
Proof.
  destruct p as [s|x|b|]; cbn; auto. intros [H1 H2]. rewrite H1. cbn.
  destruct (f64_is_zero x) eqn:E; auto. f_equal. apply f64_eq.
  unfold f64_is_zero in E. destruct (f64_sf x) as [[]| | |]; cbn; congruence.
Qed.
Lemma normalize_map ps : Forall json_prim ps -> map normalize_primitive ps = ps.
Proof.
  induction 1; cbn [map]; auto. rewrite normalize_json by auto. congruence.
Qed.

Lemma encode_primitive_first p d : std_delim d -> exists c r, encode_primitive p d = c :: r /\ is_ws c = false.
Proof.
  intros Hd. pose proof (encode_primitive_tok p d Hd) as H.
  pose proof (tok_nonempty _ _ H). pose proof (tok_tight _ _ H) as Ht.
  destruct (encode_primitive p d) as [|c r]; [congruence|]. exists c, r. split; auto. apply Ht.
Qed.

Lemma join_toks_tight d l : Forall (tok d) l -> l <> [] -> tight (join d l) /\ join d l <> [].
Proof.
  intros H Hn.
  assert (Hf : exists c r, join d l = c :: r /\ is_ws c = false).
  { destruct l as [|x l]; [congruence|]. inversion H as [|? ? Hx]; subst. pose proof (tok_tight _ _ Hx) as Ht.
    pose proof (tok_nonempty _ _ Hx). destruct x as [|c x]; [congruence|]. exists c.
    destruct l; cbn [join app]; eexists; split; try reflexivity; apply Ht. }
  assert (Hl : exists a y, join d l = a ++ [y] /\ is_ws y = false).
  { clear Hf. induction l as [|x l IH]; [congruence|]. inversion H as [|? ? Hx Hl]; subst.
    destruct l as [|z l].
    - cbn [join]. pose proof (tok_tight _ _ Hx) as Ht. pose proof (tok_nonempty _ _ Hx).
      apply tight_inv in Ht as [->|((a & y & E & Hy) & _)]; [congruence|]. eauto.
    - rewrite join_cons by discriminate. destruct IH as (a & y & E & Hy); auto; [discriminate|].
      rewrite E. exists (x ++ d :: a), y. split; auto. now rewrite <- app_assoc. }
  destruct Hf as (c & r & E & Hc), Hl as (a & y & E' & Hy). rewrite E in *. split; [|discriminate].
  eapply tight_app_ends; eauto.
Qed.

Lemma row_text_tight ps d : std_delim d -> ps <> [] ->
  tight (encode_and_join_primitives ps d) /\ encode_and_join_primitives ps d <> [].
Proof.
  intros Hd Hn. apply join_toks_tight; [now apply Forall_tok_prims|]. destruct ps; [congruence|discriminate].
Qed.

Lemma field_events_combine fields : forall cells, length cells = length fields ->
  field_events (map field_of fields) cells = flat_map field_evs (combine fields (map JPrim cells)).
Proof.
  induction fields as [|f fs IH]; intros [|p cells] H; try discriminate; auto.
  cbn [map field_events combine flat_map field_evs fst snd emit_events app key_event fn_name fn_quoted field_of].
  cbn [tl]. rewrite IH by (cbn in H; congruence). reflexivity.
Qed.

Section Read.
Variable dl : char.
Hypothesis Hdl : std_delim dl.
Variable cx : dctx.
Hypothesis Hblanks : dc_blanks cx = [].

Lemma no_blank w r : validate_blank_range w r (dc_blanks cx) (dc_strict cx) = Ok tt.
Proof.
  rewrite Hblanks. unfold validate_blank_range, validate_no_blank_lines_in_range.
  destruct r as [[]|]; auto. cbn [existsb]. now rewrite andb_false_r.
Qed.
Lemma count_same w n s : assert_expected_count w n n s = Ok tt.
Proof. unfold assert_expected_count. rewrite N.eqb_refl. cbn. now rewrite andb_false_r. Qed.

Lemma header_parse {A} (l : list A) key fields tail :
  (N.of_nat (length l) <= 100000000)%N -> no_rbrace fields ->
  parse_array_header_line (format_header (length l) key fields dl ++ tail) DEFAULT_DELIMITER
  = Ok (Some (Header key (key_quoted key) (N.of_nat (length l)) dl (option_map (map field_of) fields),
              if is_empty (trim tail) then None else Some (trim tail))).
Proof. intros. now apply parse_header_ok. Qed.

Definition read_field (d : nat) (kv : str * json) (abs : list aline) : Prop :=
  exists c abs', abs = (d, c) :: abs' /\ key_content c /\
    forall ls tail last, lines_are ls abs' -> shallow d tail ->
      exists last', kv_rel cx c (Cursor (ls ++ tail) last) d (field_evs kv) (Cursor tail last').

(** A list of fields is read by each of the three loops. *)
Definition read_fields (d : nat) (l : list (str * json)) (abs : list aline) : Prop :=
  (l <> [] -> exists c abs', abs = (d, c) :: abs') /\ (l = [] -> abs = []) /\
  forall ls tail last, lines_are ls abs -> 
    (shallow (pred d) tail -> 0 < d ->
      (exists last', forall computed, (computed = None \/ computed = Some d) ->
          of_rel cx (Cursor (ls ++ tail) last) d computed (flat_map field_evs l) (Cursor tail last')) /\
      (exists last', follow_rel cx (Cursor (ls ++ tail) last) d (flat_map field_evs l) (Cursor tail last'))) /\
    (tail = [] -> d = 0 ->
      exists last', root_fields_rel cx (Cursor (ls ++ tail) last) (flat_map field_evs l) (Cursor tail last')).

Definition read_arr (key : option str) (d : nat) (items : list json) (abs : list aline) : Prop :=
  exists c abs' h iv, abs = (d, c) :: abs' /\
    parse_array_header_line c DEFAULT_DELIMITER = Ok (Some (h, iv)) /\
    ah_key h = key /\ ah_quoted h = key_quoted key /\
    (key = None -> is_array_header_content c = true) /\
    (forall k, key = Some k -> key_content c) /\ trim c <> [] /\
    forall ls tail last, lines_are ls abs' -> shallow d tail ->
      exists last', arr_rel cx h iv (Cursor (ls ++ tail) last) d (emit_events (JArr items)) (Cursor tail last').

Definition read_item (d : nat) (v : json) (abs : list aline) : Prop :=
  exists c abs', abs = (d, c) :: abs' /\ is_list_item c = true /\
    forall line ls tail last, pl_content line = c -> lines_are ls abs' -> shallow d tail ->
      exists last', item_rel cx line (Cursor (ls ++ tail) last) d (emit_events v) (Cursor tail last').

Definition read_items (d : nat) (l : list json) (abs : list aline) : Prop :=
  (l <> [] -> exists c abs', abs = (d, c) :: abs') /\ (l = [] -> abs = []) /\
  forall ls tail last count range, lines_are ls abs -> shallow (pred d) tail -> 0 < d ->
    exists last' rg, items_rel cx (Cursor (ls ++ tail) last) d (count + N.of_nat (length l)) count range
       (flat_map emit_events l) (Cursor tail last') (count + N.of_nat (length l)) rg.

Lemma lines_cons ls a abs : lines_are ls (a :: abs) ->
  exists l r, ls = l :: r /\ line_is l a /\ lines_are r abs.
Proof. intros H. inversion H; subst. eauto. Qed.

Lemma lines_app ls a b : lines_are ls (a ++ b) ->
  exists l r, ls = l ++ r /\ lines_are l a /\ lines_are r b.
Proof. intros H. apply Forall2_app_inv_r in H as (l & r & Hl & Hr & ->). eauto. Qed.

Lemma shallow_app d abs ls tail : lines_are ls abs -> shallow d tail ->
  (forall e c r, abs = (e, c) :: r -> e <= d) -> shallow d (ls ++ tail).
Proof.
  intros H Ht Hd. destruct H as [|l [e c] ls abs [H1 H2] _]; auto. cbn in *. rewrite H1. eauto.
Qed.

Lemma item_of_kv line c d e1 c1 e2 c2 content :
  pl_content line = cMINUS :: cSPACE :: content -> key_content content ->
  kv_rel cx content c (S d) e1 c1 -> follow_rel cx c1 (S d) e2 c2 ->
  item_rel cx line c d (EvStartObject :: e1 ++ e2 ++ [EvEndObject]) c2.
Proof.
  intros Hc (H1 & H2 & H3 & _) Hkv Hf.
  assert (Hs : skipn 2 (pl_content line) = content) by (rewrite Hc; reflexivity).
  assert (Hp : starts_with_str LIST_ITEM_PREFIX (pl_content line) = true) by (rewrite Hc; reflexivity).
  assert (Hobj : item_not_table content -> item_rel cx line c d (EvStartObject :: e1 ++ e2 ++ [EvEndObject]) c2).
  { intros Hnt. eapply item_object; rewrite ?Hs; eauto. now left. }
  assert (Hplain : plain_content content -> item_not_table content).
  { intros [E|(h & iv & E & Ek)]; [now left|right; eauto]. }
  inversion Hkv; subst; auto.
  destruct (ah_fields h) as [fs|] eqn:Ef.
  - cbn [app]. eapply item_table; rewrite ?Hs; eauto.
  - apply Hobj. right. eauto.
Qed.

Lemma trim_space s : trim (cSPACE :: s) = trim s.
Proof. change (cSPACE :: s) with ([cSPACE] ++ s). apply trim_ws_l. repeat constructor. Qed.

Lemma deeper_shallow d tail last : shallow d tail -> deeper (Cursor tail last) d = false.
Proof. unfold deeper, peek, shallow. destruct tail; cbn; auto. intros. now apply Nat.ltb_ge. Qed.

Lemma decode_rows_ok key fields rows : fields <> [] ->
  Forall (fun r => length r = length fields) rows -> Forall (Forall json_prim) rows ->
  forall ls tail last depth len count range,
    lines_are ls (map (fun r => (depth, encode_and_join_primitives r dl)) rows) ->
    len = (count + N.of_nat (length rows))%N ->
    exists last' rg,
      decode_rows (ls ++ tail) last depth (Header key (key_quoted key) len dl (Some (map field_of fields)))
        (map field_of fields) cx count range
      = Ok (flat_map emit_events (map (row_json fields) rows), Cursor tail last', len, rg).
Proof.
  intros Hf. induction rows as [|r rows IH]; intros Hw Hj ls tail last depth len count range Hls Hlen.
  - inversion Hls; subst. cbn [app length N.of_nat map flat_map]. rewrite N.add_0_r.
    exists last, range. destruct tail as [|l tail]; cbn [decode_rows ah_length]; [reflexivity|].
    rewrite N.leb_refl. reflexivity.
  - cbn [map] in Hls. apply lines_cons in Hls as (l & ls' & -> & [Hd Hc] & Hls). cbn [fst snd] in Hd, Hc.
    inversion Hw as [|? ? Hr Hw']; subst. inversion Hj as [|? ? Hjr Hj']; subst.
    cbn [app decode_rows ah_length ah_delimiter].
    destruct (N.leb_spec (count + N.of_nat (length (r :: rows))) count) as [Hle|_].
    { cbn [length] in Hle. lia. }
    rewrite Nat.eqb_refl, Hc. cbv zeta. rewrite parse_row by auto. rewrite parse_row_prims.
    rewrite map_length, map_length, Hr, count_same. cbn [bind]. rewrite normalize_map by auto.
    edestruct (IH Hw' Hj' ls' tail (Some l) (pl_depth l) (count + N.of_nat (length (r :: rows)))%N
      (count + 1)%N) as (last' & rg & E); [exact Hls|cbn [length]; lia|].
    rewrite E. exists last', rg. cbn [bind map flat_map row_json emit_events]. unfold yield_object_from_fields.
    rewrite field_events_combine by auto. reflexivity.
Qed.

Lemma lay_read :
  (forall d kv abs, lay_field True dl d kv abs -> read_field d kv abs) /\
  (forall d l abs, lay_fields True dl d l abs -> read_fields d l abs) /\
  (forall key d items abs, lay_arr True dl key d items abs -> read_arr key d items abs) /\
  (forall d l abs, lay_items True dl d l abs -> read_items d l abs) /\
  (forall d v abs, lay_item True dl d v abs -> read_item d v abs).
Proof.
  apply lay_mutind.
  - (* member with a primitive *)
    intros d k p Hp. specialize (Hp I). eexists _, _. split; [reflexivity|].
    split; [apply key_content_colon|].
    intros ls tail last Hls Ht. inversion Hls; subst. cbn [app]. exists last.
    unfold field_evs. cbn [fst snd emit_events].
    assert (Hsk : skipn (S (length (encode_key k))) (encode_key k ++ cCOLON :: cSPACE :: encode_primitive p dl)
                  = cSPACE :: encode_primitive p dl).
    { change (encode_key k ++ cCOLON :: cSPACE :: encode_primitive p dl)
        with (encode_key k ++ [cCOLON] ++ cSPACE :: encode_primitive p dl). rewrite app_assoc.
      apply skipn_app_exact. rewrite app_length. cbn. lia. }
    pose proof (encode_primitive_tok p dl Hdl) as Htok.
    eapply kv_prim.
    + left. apply no_header_kv; auto. now apply not_header_member.
    + apply parse_key_token_ok.
    + rewrite Hsk, trim_space, trim_tight by (eapply tok_tight; eauto). eapply tok_nonempty; eauto.
    + rewrite Hsk, trim_space, trim_tight by (eapply tok_tight; eauto).
      rewrite parse_encode_primitive. destruct Hp as [Hp _]. now rewrite normalize_json.
  - (* member with an object *)
    intros d k l ls _ (Hne & Hnil & IH). eexists _, _. split; [reflexivity|].
    split; [apply key_content_colon|].
    intros ls' tail last Hls Ht. unfold field_evs. cbn [fst snd emit_events].
    assert (Hsk : skipn (S (length (encode_key k))) (encode_key k ++ [cCOLON]) = []).
    { apply skipn_all2. rewrite app_length. cbn. lia. }
    change (fun kv : str * json => EvKey (fst kv) (negb (is_valid_unquoted_key (fst kv))) :: emit_events (snd kv))
      with field_evs.
    destruct l as [|kv l].
    + rewrite (Hnil eq_refl) in Hls. inversion Hls; subst. exists last. cbn [app flat_map].
      eapply kv_empty; [left; apply no_header_key|apply parse_key_token_ok|now rewrite Hsk|].
      now apply deeper_shallow.
    + destruct (Hne ltac:(discriminate)) as (c & abs' & ->).
      specialize (IH ls' tail last Hls) as [IH _]. specialize (IH Ht (Nat.lt_0_succ d)) as [[last' IH] _].
      specialize (IH None (or_introl eq_refl)). exists last'.
      eapply kv_nested; [left; apply no_header_key|apply parse_key_token_ok|now rewrite Hsk| |exact IH].
      apply lines_cons in Hls as (l1 & r1 & -> & [Hd _] & _). unfold deeper, peek. cbn. rewrite Hd. cbn.
      apply Nat.leb_le. lia.
  - (* member with an array *)
    intros d k items abs _ (c & abs' & h & iv & -> & Hp & Hk & Hq & _ & Hkc & _ & IH).
    exists c, abs'. split; [reflexivity|]. split; [now apply (Hkc k)|].
    intros ls tail last Hls Ht. destruct (IH ls tail last Hls Ht) as [last' H]. exists last'.
    unfold field_evs, key_event. cbn [fst snd]. cbn [key_quoted] in Hq. rewrite <- Hq. eapply kv_header; eauto.
  - (* no fields *)
    intros d. split; [congruence|]. split; [auto|]. intros ls tail last Hls. inversion Hls; subst.
    cbn [app flat_map]. split.
    + intros Ht Hd. split.
      * exists last. intros computed Hc. apply of_end. unfold fields_stop, peek. destruct tail; cbn in *; auto. lia.
      * exists last. apply follow_end. unfold follow_stop, peek. destruct tail; cbn in *; auto. lia.
    + intros -> ->. exists last. apply rf_end. cbn. exact I.
  - (* a field and more *)
    intros d kv l a b _ (c & abs' & -> & Hkc & IH1) Hlb (Hne & Hnil & IH2).
    split; [intros _; cbn [app]; eauto|]. split; [discriminate|].
    intros ls tail last Hls. cbn [app] in Hls. apply lines_cons in Hls as (l0 & ls0 & -> & [Hd Hc] & Hls).
    cbn [fst snd] in Hd, Hc. apply lines_app in Hls as (la & lb & -> & Hla & Hlb').
    assert (Hsh : shallow (pred d) tail -> shallow d (lb ++ tail)).
    { intros Ht. eapply shallow_app; [exact Hlb'| |].
      - eapply shallow_mono; [|exact Ht]. lia.
      - intros e c' r E. destruct l as [|kv' l]; [rewrite Hnil in E by auto; discriminate|].
        destruct (Hne ltac:(discriminate)) as (c1 & abs1 & E1). rewrite E1 in E. injection E as <- _ _. lia. }
    assert (Hfl : flat_map field_evs (kv :: l) = field_evs kv ++ flat_map field_evs l) by reflexivity.
    split.
    + intros Ht Hpos.
      destruct (IH1 la (lb ++ tail) (Some l0) Hla (Hsh Ht)) as [last1 H1].
      destruct (IH2 lb tail last1 Hlb') as [IH2' _]. destruct (IH2' Ht Hpos) as [[last2 H2] [last3 H3]].
      rewrite Hfl. split.
      * exists last2. intros computed Hcomp. cbn [app]. rewrite <- app_assoc.
        eapply of_step; [reflexivity| | |rewrite Hc, Hd; exact H1|rewrite Hd; apply H2; auto].
        -- rewrite Hd. auto.
        -- rewrite Hd. destruct Hcomp as [->| ->]; reflexivity.
      * exists last3. cbn [app]. rewrite <- app_assoc.
        eapply follow_step; [reflexivity|exact Hd| |rewrite Hc; exact H1|exact H3].
        rewrite Hc. apply Hkc.
    + intros -> ->.
      assert (Hsh0 : shallow 0 (lb ++ [])) by (apply Hsh; exact I).
      destruct (IH1 la (lb ++ []) (Some l0) Hla Hsh0) as [last1 H1].
      destruct (IH2 lb [] last1 Hlb') as [_ IH2']. destruct (IH2' eq_refl eq_refl) as [last2 H2].
      rewrite Hfl. exists last2. cbn [app]. rewrite <- app_assoc.
      eapply rf_step; [reflexivity|exact Hd|rewrite Hc; exact H1|exact H2].
  - (* inline array *)
    intros key d ps Hne Hcap Hj. specialize (Hcap I). specialize (Hj I).
    destruct (row_text_tight ps dl Hdl Hne) as [Ht Hn0].
    eexists _, _, _, _. split; [reflexivity|]. split; [now apply (header_parse ps)|].
    split; [reflexivity|]. split; [reflexivity|].
    split; [intros ->; now apply header_is_header_content|].
    split; [intros k ->; now apply key_content_header|].
    split.
    { destruct key as [k|]; [apply (key_content_header _ k); auto|].
      rewrite format_header_eq. cbn [key_text app]. now apply nonws_trim. }
    intros ls tail last Hls Hs. inversion Hls; subst. exists last. cbn [app].
    rewrite trim_space, trim_tight by auto.
    apply is_empty_false in Hn0. rewrite Hn0. apply is_empty_false in Hn0.
    replace (emit_events (JArr (map JPrim ps)))
      with (EvStartArray (N.of_nat (length ps)) :: map EvPrim ps ++ [EvEndArray]).
    2: { cbn [emit_events]. rewrite map_length. do 2 f_equal. induction ps as [|p ps' _]; [reflexivity|].
         clear. induction (p :: ps') as [|q qs IHq]; [reflexivity|]. cbn [map flat_map emit_events app]. now rewrite IHq. }
    change (N.of_nat (length ps)) with (ah_length (Header key (key_quoted key) (N.of_nat (length ps)) dl
      (option_map (map field_of) None))) at 2.
    apply arr_inline. unfold decode_inline_primitive_array. cbv zeta.
    rewrite trim_tight by auto. apply is_empty_false in Hn0. rewrite Hn0. cbn [ah_delimiter ah_length].
    rewrite parse_row by auto. rewrite parse_row_prims. cbn [bind].
    rewrite !map_length, count_same. cbn [bind]. now rewrite normalize_map.
  - (* table *)
    intros key d fields rows Hf Hcap Hr Hj Hw. specialize (Hcap I). specialize (Hr I). specialize (Hj I).
    pose proof (header_parse rows key (Some fields) [] Hcap Hr) as Hp. rewrite app_nil_r in Hp.
    cbn [trim trim_start trim_end rev is_empty option_map] in Hp.
    eexists _, _, _, _. split; [reflexivity|]. split; [exact Hp|].
    split; [reflexivity|]. split; [reflexivity|].
    split.
    { intros ->. pose proof (header_is_header_content (length rows) (Some fields) dl [] Hdl) as H.
      now rewrite app_nil_r in H. }
    assert (Hkc : forall k, key = Some k -> key_content (format_header (length rows) key (Some fields) dl)).
    { intros k ->. pose proof (key_content_header (length rows) k (Some fields) dl [] Hdl) as H.
      now rewrite app_nil_r in H. }
    split; [exact Hkc|].
    split.
    { destruct key as [k|]; [apply (Hkc k); auto|].
      rewrite <- (app_nil_r (format_header _ _ _ _)), format_header_eq. cbn [key_text app]. now apply nonws_trim. }
    intros ls tail last Hls Hs.
    destruct (decode_rows_ok key fields rows Hf Hw Hj ls tail last (S d) (N.of_nat (length rows)) 0%N None Hls)
      as (last' & rg & E); [lia|].
    exists last'. cbn [emit_events]. rewrite map_length.
    change (N.of_nat (length rows)) with (ah_length (Header key (key_quoted key) (N.of_nat (length rows)) dl
      (Some (map field_of fields)))) at 2.
    destruct fields as [|f0 fs0]; [congruence|]. cbn [map] in *.
    eapply arr_table; [reflexivity|]. unfold decode_tabular_array. cbn [cu_rest cu_last].
    rewrite E. cbn [bind ah_length]. rewrite count_same. cbn [bind]. rewrite no_blank. cbn [bind].
    cbn [ah_delimiter]. unfold peek. cbn [cu_rest].
    assert (Hx : validate_no_extra_tabular_rows (hd_error tail) (S d) dl (N.of_nat (length rows)) (dc_strict cx) = Ok tt).
    { unfold validate_no_extra_tabular_rows. destruct tail as [|t tail]; cbn [hd_error]; [reflexivity|].
      cbn in Hs. assert (E2 : Nat.eqb (pl_depth t) (S d) = false) by (apply Nat.eqb_neq; lia).
      rewrite E2. now rewrite andb_false_r. }
    rewrite Hx. reflexivity.
  - (* list *)
    intros key d items abs Hcap _ (Hne & Hnil & IH). specialize (Hcap I).
    pose proof (header_parse items key None [] Hcap I) as Hp. rewrite app_nil_r in Hp.
    cbn [trim trim_start trim_end rev is_empty option_map] in Hp.
    eexists _, _, _, _. split; [reflexivity|]. split; [exact Hp|].
    split; [reflexivity|]. split; [reflexivity|].
    split.
    { intros ->. pose proof (header_is_header_content (length items) None dl [] Hdl) as H.
      now rewrite app_nil_r in H. }
    assert (Hkc : forall k, key = Some k -> key_content (format_header (length items) key None dl)).
    { intros k ->. pose proof (key_content_header (length items) k None dl [] Hdl) as H.
      now rewrite app_nil_r in H. }
    split; [exact Hkc|].
    split.
    { destruct key as [k|]; [apply (Hkc k); auto|].
      rewrite <- (app_nil_r (format_header _ _ _ _)), format_header_eq. cbn [key_text app]. now apply nonws_trim. }
    intros ls tail last Hls Hs.
    destruct (IH ls tail last 0%N None Hls Hs (Nat.lt_0_succ d)) as (last' & rg & E).
    rewrite N.add_0_l in E. exists last'. cbn [emit_events].
    change (N.of_nat (length items)) with (ah_length (Header key (key_quoted key) (N.of_nat (length items)) dl None)) at 2.
    eapply arr_list; [now left|exact E|apply count_same|apply no_blank|].
    unfold validate_no_extra_list_items, peek. cbn [cu_rest]. destruct tail as [|t tail]; cbn [hd_error]; [reflexivity|].
    cbn in Hs. assert (E2 : Nat.eqb (pl_depth t) (S d) = false) by (apply Nat.eqb_neq; lia).
    rewrite E2. now rewrite andb_false_r.
  - (* no items *)
    intros d. split; [congruence|]. split; [auto|]. intros ls tail last count range Hls Ht Hd.
    inversion Hls; subst. cbn [app flat_map length N.of_nat]. rewrite N.add_0_r. exists last, range.
    apply items_end. unfold items_stop, peek. cbn [cu_rest]. destruct tail; cbn; auto. left. lia.
  - (* an item and more *)
    intros d v l a b _ (c & abs' & -> & Hi & IH1) _ (Hne & Hnil & IH2).
    split; [intros _; cbn [app]; eauto|]. split; [discriminate|].
    intros ls tail last count range Hls Ht Hpos. cbn [app] in Hls.
    apply lines_cons in Hls as (l0 & ls0 & -> & [Hd Hc] & Hls).
    cbn [fst snd] in Hd, Hc. apply lines_app in Hls as (la & lb & -> & Hla & Hlb).
    assert (Hsh : shallow d (lb ++ tail)).
    { eapply shallow_app; [exact Hlb| |].
      - eapply shallow_mono; [|exact Ht]. lia.
      - intros e c' r E. destruct l as [|v' l]; [rewrite Hnil in E by auto; discriminate|].
        destruct (Hne ltac:(discriminate)) as (c1 & abs1 & E1). rewrite E1 in E. injection E as <- _ _. lia. }
    destruct (IH1 l0 la (lb ++ tail) (Some l0) Hc Hla Hsh) as [last1 H1].
    destruct (IH2 lb tail last1 (count + 1)%N (item_range range l0 (Cursor (lb ++ tail) last1)) Hlb Ht Hpos)
      as (last2 & rg & H2).
    exists last2, rg. cbn [flat_map length]. cbn [app]. rewrite <- app_assoc.
    replace (count + N.of_nat (S (length l)))%N with (count + 1 + N.of_nat (length l))%N by lia.
    eapply items_step; [reflexivity|lia|exact Hd|now rewrite Hc|exact H1|exact H2].
  - (* primitive item *)
    intros d p Hp. specialize (Hp I). eexists _, _. split; [reflexivity|]. split; [reflexivity|].
    intros line ls tail last Hc Hls Ht. inversion Hls; subst. exists last. cbn [app emit_events].
    pose proof (encode_primitive_tok p dl Hdl) as Htok.
    eapply item_prim; rewrite Hc; cbn [skipn].
    + reflexivity.
    + rewrite trim_tight by (eapply tok_tight; eauto). eapply tok_nonempty; eauto.
    + left. eapply tok_not_header_content; eauto.
    + left. eapply no_header_tok; eauto.
    + eapply tok_not_key_value; eauto.
    + rewrite parse_encode_primitive. now rewrite normalize_json.
  - (* empty object *)
    intros d. eexists _, _. split; [reflexivity|]. split; [reflexivity|].
    intros line ls tail last Hc Hls Ht. inversion Hls; subst. exists last. cbn [app emit_events flat_map].
    apply item_marker. now left.
  - (* object item *)
    intros d kv l c a b _ (c' & abs' & E & Hkc & IH1) _ (Hne & Hnil & IH2). injection E as <- <-.
    eexists _, _. split; [reflexivity|]. split; [reflexivity|].
    intros line ls tail last Hc Hls Ht. apply lines_app in Hls as (la & lb & -> & Hla & Hlb).
    assert (Hsh : shallow (S d) (lb ++ tail)).
    { eapply shallow_app; [exact Hlb| |].
      - eapply shallow_mono; [|exact Ht]. lia.
      - intros e c' r E. destruct l as [|v' l]; [rewrite Hnil in E by auto; discriminate|].
        destruct (Hne ltac:(discriminate)) as (c1 & abs1 & E1). rewrite E1 in E. injection E as <- _ _. lia. }
    destruct (IH1 la (lb ++ tail) last Hla Hsh) as [last1 H1].
    destruct (IH2 lb tail last1 Hlb) as [IH2' _]. destruct (IH2' Ht (Nat.lt_0_succ d)) as [_ [last2 H2]].
    exists last2. rewrite <- app_assoc.
    change (emit_events (JObj (kv :: l))) with (EvStartObject :: (field_evs kv ++ flat_map field_evs l) ++ [EvEndObject]).
    rewrite <- app_assoc. eapply item_of_kv; eauto.
  - (* array item *)
    intros d items c a _ (c' & abs' & h & iv & E & Hp & Hk & Hq & Hh & _ & Htr & IH). injection E as <- <-.
    eexists _, _. split; [reflexivity|]. split; [reflexivity|].
    intros line ls tail last Hc Hls Ht. destruct (IH ls tail last Hls Ht) as [last' H]. exists last'.
    eapply item_array; rewrite ?Hc; cbn [skipn]; eauto.
Qed.

(** * Whole documents *)

Lemma key_value_line k rest : is_key_value_line (encode_key k ++ cCOLON :: rest) = true.
Proof.
  unfold is_key_value_line. rewrite starts_with_app, starts_with_dq_key by apply encode_key_nonempty.
  destruct (is_valid_unquoted_key k) eqn:E; cbn [negb].
  - apply contains_In, in_app_iff. right. now left.
  - rewrite encode_key_quoted by auto. unfold quoted. cbn [app]. rewrite <- app_assoc. cbn [app].
    rewrite find_closing_quoted. apply contains_In.
    replace (skipn (S (S (length (escape_string k)))) (cDQ :: escape_string k ++ cDQ :: cCOLON :: rest))
      with (cCOLON :: rest); [now left|]. symmetry.
    change (cDQ :: escape_string k ++ cDQ :: cCOLON :: rest)
      with ((cDQ :: escape_string k) ++ [cDQ] ++ cCOLON :: rest). rewrite app_assoc.
    apply skipn_app_exact. rewrite app_length. cbn. lia.
Qed.

Lemma key_value_line_header n k fields d tail :
  is_key_value_line (format_header n (Some k) fields d ++ tail) = true.
Proof.
  rewrite format_header_eq. cbn [key_text]. unfold is_key_value_line.
  rewrite starts_with_app, starts_with_dq_key by apply encode_key_nonempty.
  assert (Hin : forall a b : str, In cCOLON (a ++ cRBRACK :: b ++ cCOLON :: tail)).
  { intros a b. apply in_app_iff. right. right. apply in_app_iff. right. now left. }
  destruct (is_valid_unquoted_key k) eqn:E; cbn [negb].
  - apply contains_In, in_app_iff. right. right. apply Hin.
  - rewrite encode_key_quoted by auto. unfold quoted. cbn [app]. rewrite <- app_assoc. cbn [app].
    rewrite find_closing_quoted. apply contains_In.
    match goal with |- In _ (skipn _ (_ :: _ ++ _ :: ?r)) => set (R := r) end.
    replace (skipn (S (S (length (escape_string k)))) (cDQ :: escape_string k ++ cDQ :: R)) with R.
    + right. apply Hin.
    + symmetry. change (cDQ :: escape_string k ++ cDQ :: R) with ((cDQ :: escape_string k) ++ [cDQ] ++ R).
      rewrite app_assoc. apply skipn_app_exact. rewrite app_length. cbn. lia.
Qed.

Lemma tok_not_kv_line d t : tok d t -> is_key_value_line t = false.
Proof.
  intros [u H1 H2 H3 H4|s]; unfold is_key_value_line.
  - destruct (starts_with cDQ u) eqn:Ex.
    + apply starts_with_true in Ex as [r ->]. inversion H3; discriminate.
    + apply contains_not_In. now apply plain_not_in.
  - unfold quoted at 1. cbn [starts_with]. rewrite N.eqb_refl.
    unfold quoted at 1. change (cDQ :: escape_string s ++ [cDQ]) with (cDQ :: escape_string s ++ cDQ :: []).
    rewrite find_closing_quoted. unfold quoted. rewrite skipn_all2; [reflexivity|].
    cbn. rewrite app_length. cbn. lia.
Qed.

Lemma lay_field_line G d kv abs : lay_field G dl d kv abs ->
  exists c r, abs = (d, c) :: r /\ is_key_value_line c = true.
Proof.
  intros H. inversion H as [? k p Hp|? k l ls Hl|? k items ls Hl]; subst.
  - eexists _, _. split; [reflexivity|]. apply key_value_line.
  - eexists _, _. split; [reflexivity|]. apply key_value_line.
  - inversion Hl; subst; eexists _, _; (split; [reflexivity|]).
    + apply key_value_line_header.
    + rewrite <- (app_nil_r (format_header _ _ _ _)). apply key_value_line_header.
    + rewrite <- (app_nil_r (format_header _ _ _ _)). apply key_value_line_header.
Qed.

Lemma lay_root_read v abs : lay_root True dl v abs -> forall ls, lines_are ls abs ->
  exists c, lines_rel cx ls (emit_events v) c /\ cu_rest c = [].
Proof.
  intros H ls Hls. inversion H as [p Hp|items abs0 Ha|l abs0 Hl]; subst.
  - apply lines_cons in Hls as (l0 & r & -> & [_ Hc] & Hr). inversion Hr; subst. cbn [snd] in Hc.
    pose proof (encode_primitive_tok p dl Hdl) as Htok. eexists (Cursor [] _). split; [|reflexivity].
    apply DecRel.lr_prim; rewrite Hc.
    + left. eapply tok_not_header_content; eauto.
    + eapply tok_not_kv_line; eauto.
    + rewrite trim_tight by (eapply tok_tight; eauto). rewrite parse_encode_primitive.
      now rewrite normalize_json by auto.
  - apply lay_read in Ha as (c & abs' & h & iv & -> & Hp & Hk & Hq & Hh & _ & _ & IH).
    apply lines_cons in Hls as (l0 & r & -> & [_ Hc] & Hr). cbn [snd] in Hc.
    destruct (IH r [] (Some l0) Hr I) as [last' Hr']. rewrite app_nil_r in Hr'. eexists (Cursor [] _). split; [|reflexivity].
    eapply lr_array; rewrite ?Hc; eauto.
  - inversion Hl as [|? kv l' a b Hf Hfs]; subst.
    + inversion Hls; subst. eexists (Cursor [] None). split; [constructor|reflexivity].
    + destruct (lay_field_line _ _ _ _ Hf) as (c & r & -> & Hkv).
      apply lay_read in Hf as (c' & abs' & E & Hkc & IH1). injection E as <- <-.
      pose proof Hfs as Hfs'. apply lay_read in Hfs as (Hne & Hnil & IH2).
      cbn [app] in Hls. apply lines_cons in Hls as (l0 & ls0 & -> & [_ Hc] & Hls). cbn [snd] in Hc.
      apply lines_app in Hls as (la & lb & -> & Hla & Hlb).
      assert (Hsh : shallow 0 (lb ++ [])).
      { eapply shallow_app; [exact Hlb|exact I|].
        intros e c' r' E. destruct l' as [|kv' l']; [rewrite Hnil in E by auto; discriminate|].
        destruct (Hne ltac:(discriminate)) as (c1 & abs1 & E1). rewrite E1 in E. injection E as <- _ _. lia. }
      destruct (IH1 la (lb ++ []) (Some l0) Hla Hsh) as [last1 H1].
      destruct (IH2 lb [] last1 Hlb) as [_ IH2']. destruct (IH2' eq_refl eq_refl) as [last2 H2].
      rewrite app_nil_r in *. eexists (Cursor [] _). split; [|reflexivity].
      change (emit_events (JObj (kv :: l'))) with (EvStartObject :: (field_evs kv ++ flat_map field_evs l') ++ [EvEndObject]).
      rewrite <- app_assoc. eapply DecRel.lr_object; rewrite ?Hc; eauto.
      left. apply Hkc.
Qed.
End Read.
