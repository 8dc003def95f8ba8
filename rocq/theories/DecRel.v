(** The decoder without fuel: a big-step success relation, its equivalence with the fuelled
    functions, and termination (the fuel of [decode_lines] is always enough). *)
From Verif Require Import Chars Floats Json Shared Scanner Parser DecValidation Decoders Lex.

Local Open Scope nat_scope.

Definition deeper (c : cursor) (d : nat) : bool :=
  match peek c with Some next => Nat.ltb d (pl_depth next) | None => false end.

(** The content is not a keyed array header. *)
Definition plain_content (content : str) : Prop :=
  parse_array_header_line content DEFAULT_DELIMITER = Ok None \/
  exists h iv, parse_array_header_line content DEFAULT_DELIMITER = Ok (Some (h, iv)) /\ ah_key h = None.

(** The object loop stops. *)
Definition fields_stop (c : cursor) (base : nat) (computed : option nat) : Prop :=
  match peek c with
  | None => True
  | Some line => pl_depth line < base \/
                 (exists dd, computed = Some dd /\ pl_depth line <> dd)
  end.

Definition items_stop (c : cursor) (depth : nat) (len count : N) : Prop :=
  match peek c with
  | None => True
  | Some line => (len <= count)%N \/ pl_depth line <> depth \/ is_list_item (pl_content line) = false
  end.

Definition follow_stop (c : cursor) (depth : nat) : Prop :=
  match peek c with
  | None => True
  | Some line => pl_depth line <> depth \/ starts_with_str LIST_ITEM_PREFIX (pl_content line) = true
  end.

Definition item_range (range : option (nat * nat)) (line : parsed_line) (c1 : cursor)
  : option (nat * nat) :=
  match cu_last c1 with
  | Some cur => extend_range (extend_range range (pl_line line)) (pl_line cur)
  | None => extend_range range (pl_line line)
  end.

(** The rest of a hyphen line is not an array. *)
Definition item_not_array (after : str) : Prop :=
  is_array_header_content after = false \/
  parse_array_header_line after DEFAULT_DELIMITER = Ok None.

(** ... and not a keyed table header. *)
Definition item_not_table (after : str) : Prop :=
  parse_array_header_line after DEFAULT_DELIMITER = Ok None \/
  exists h iv, parse_array_header_line after DEFAULT_DELIMITER = Ok (Some (h, iv)) /\
               (ah_key h = None \/ ah_fields h = None).

Section Rel.
Variable cx : dctx.

Inductive kv_rel : str -> cursor -> nat -> list event -> cursor -> Prop :=
| kv_header content c d h iv key evs c' :
    parse_array_header_line content DEFAULT_DELIMITER = Ok (Some (h, iv)) ->
    ah_key h = Some key ->
    arr_rel h iv c d evs c' ->
    kv_rel content c d (EvKey key (ah_quoted h) :: evs) c'
| kv_nested content c d key e q evs c' :
    plain_content content -> parse_key_token content 0 = Ok (key, e, q) ->
    trim (skipn e content) = [] -> deeper c d = true ->
    of_rel c (S d) None evs c' ->
    kv_rel content c d (EvKey key q :: EvStartObject :: evs ++ [EvEndObject]) c'
| kv_empty content c d key e q :
    plain_content content -> parse_key_token content 0 = Ok (key, e, q) ->
    trim (skipn e content) = [] -> deeper c d = false ->
    kv_rel content c d [EvKey key q; EvStartObject; EvEndObject] c
| kv_prim content c d key e q p :
    plain_content content -> parse_key_token content 0 = Ok (key, e, q) ->
    trim (skipn e content) <> [] -> parse_primitive_token (trim (skipn e content)) = Ok p ->
    kv_rel content c d [EvKey key q; EvPrim p] c
with of_rel : cursor -> nat -> option nat -> list event -> cursor -> Prop :=
| of_end c base computed : fields_stop c base computed -> of_rel c base computed [] c
| of_step c base computed line e1 c1 e2 c2 :
    peek c = Some line -> base <= pl_depth line -> unwrap_or computed (pl_depth line) = pl_depth line ->
    kv_rel (pl_content line) (advance c) (pl_depth line) e1 c1 ->
    of_rel c1 base (Some (pl_depth line)) e2 c2 ->
    of_rel c base computed (e1 ++ e2) c2
with arr_rel : array_header -> option str -> cursor -> nat -> list event -> cursor -> Prop :=
| arr_inline h iv c d evs :
    decode_inline_primitive_array h iv cx = Ok evs ->
    arr_rel h (Some iv) c d (EvStartArray (ah_length h) :: evs ++ [EvEndArray]) c
| arr_table h f fs c d evs c' :
    ah_fields h = Some (f :: fs) ->
    decode_tabular_array h (f :: fs) c d cx = Ok (evs, c') ->
    arr_rel h None c d (EvStartArray (ah_length h) :: evs ++ [EvEndArray]) c'
| arr_list h c d evs c' count range :
    (ah_fields h = None \/ ah_fields h = Some []) ->
    items_rel c (S d) (ah_length h) 0 None evs c' count range ->
    assert_expected_count CItems count (ah_length h) (dc_strict cx) = Ok tt ->
    validate_blank_range CItems range (dc_blanks cx) (dc_strict cx) = Ok tt ->
    validate_no_extra_list_items (peek c') (S d) (ah_length h) (dc_strict cx) = Ok tt ->
    arr_rel h None c d (EvStartArray (ah_length h) :: evs ++ [EvEndArray]) c'
with items_rel : cursor -> nat -> N -> N -> option (nat * nat) -> list event -> cursor -> N ->
                 option (nat * nat) -> Prop :=
| items_end c depth len count range :
    items_stop c depth len count -> items_rel c depth len count range [] c count range
| items_step c depth len count range line e1 c1 e2 c2 n rg :
    peek c = Some line -> (count < len)%N -> pl_depth line = depth ->
    is_list_item (pl_content line) = true ->
    item_rel line (advance c) depth e1 c1 ->
    items_rel c1 depth len (count + 1) (item_range range line c1) e2 c2 n rg ->
    items_rel c depth len count range (e1 ++ e2) c2 n rg
with item_rel : parsed_line -> cursor -> nat -> list event -> cursor -> Prop :=
| item_marker line c d :
    (pl_content line = LIST_ITEM_MARKER \/
     starts_with_str LIST_ITEM_PREFIX (pl_content line) = true /\
     trim (skipn 2 (pl_content line)) = []) ->
    item_rel line c d [EvStartObject; EvEndObject] c
| item_array line c d h iv evs c' :
    starts_with_str LIST_ITEM_PREFIX (pl_content line) = true ->
    trim (skipn 2 (pl_content line)) <> [] ->
    is_array_header_content (skipn 2 (pl_content line)) = true ->
    parse_array_header_line (skipn 2 (pl_content line)) DEFAULT_DELIMITER = Ok (Some (h, iv)) ->
    arr_rel h iv c d evs c' ->
    item_rel line c d evs c'
| item_table line c d h iv key fs e1 c1 e2 c2 :
    starts_with_str LIST_ITEM_PREFIX (pl_content line) = true ->
    trim (skipn 2 (pl_content line)) <> [] ->
    is_array_header_content (skipn 2 (pl_content line)) = false ->
    parse_array_header_line (skipn 2 (pl_content line)) DEFAULT_DELIMITER = Ok (Some (h, iv)) ->
    ah_key h = Some key -> ah_fields h = Some fs ->
    arr_rel h iv c (S d) e1 c1 ->
    follow_rel c1 (S d) e2 c2 ->
    item_rel line c d (EvStartObject :: EvKey key (ah_quoted h) :: e1 ++ e2 ++ [EvEndObject]) c2
| item_object line c d e1 c1 e2 c2 :
    starts_with_str LIST_ITEM_PREFIX (pl_content line) = true ->
    trim (skipn 2 (pl_content line)) <> [] ->
    item_not_array (skipn 2 (pl_content line)) ->
    item_not_table (skipn 2 (pl_content line)) ->
    is_key_value_content (skipn 2 (pl_content line)) = true ->
    kv_rel (skipn 2 (pl_content line)) c (S d) e1 c1 ->
    follow_rel c1 (S d) e2 c2 ->
    item_rel line c d (EvStartObject :: e1 ++ e2 ++ [EvEndObject]) c2
| item_prim line c d p :
    starts_with_str LIST_ITEM_PREFIX (pl_content line) = true ->
    trim (skipn 2 (pl_content line)) <> [] ->
    item_not_array (skipn 2 (pl_content line)) ->
    item_not_table (skipn 2 (pl_content line)) ->
    is_key_value_content (skipn 2 (pl_content line)) = false ->
    parse_primitive_token (skipn 2 (pl_content line)) = Ok p ->
    item_rel line c d [EvPrim p] c
with follow_rel : cursor -> nat -> list event -> cursor -> Prop :=
| follow_end c d : follow_stop c d -> follow_rel c d [] c
| follow_step c d line e1 c1 e2 c2 :
    peek c = Some line -> pl_depth line = d ->
    starts_with_str LIST_ITEM_PREFIX (pl_content line) = false ->
    kv_rel (pl_content line) (advance c) d e1 c1 ->
    follow_rel c1 d e2 c2 ->
    follow_rel c d (e1 ++ e2) c2.

End Rel.

Scheme kv_ind' := Minimality for kv_rel Sort Prop
  with of_ind' := Minimality for of_rel Sort Prop
  with arr_ind' := Minimality for arr_rel Sort Prop
  with items_ind' := Minimality for items_rel Sort Prop
  with item_ind' := Minimality for item_rel Sort Prop
  with follow_ind' := Minimality for follow_rel Sort Prop.
Combined Scheme dec_mutind from kv_ind', of_ind', arr_ind', items_ind', item_ind', follow_ind'.

Ltac inv_bind H :=
  repeat match type of H with
  | bind ?r _ = Ok _ => let E := fresh "E" in destruct r eqn:E; cbn [bind] in H; [|discriminate H]
  | (let '(_, _) := ?p in _) = Ok _ => destruct p
  end.

(** * The fuelled functions compute the relation *)

Lemma dec_sound cx fuel :
  (forall content c d evs c', decode_key_value fuel content c d cx = Ok (evs, c') ->
     kv_rel cx content c d evs c') /\
  (forall c base computed evs c', decode_object_fields fuel c base computed cx = Ok (evs, c') ->
     of_rel cx c base computed evs c') /\
  (forall h iv c d evs c', decode_array_from_header fuel h iv c d cx = Ok (evs, c') ->
     arr_rel cx h iv c d evs c') /\
  (forall c depth len count range evs c' n rg,
     decode_list_items fuel c depth len count range cx = Ok (evs, c', n, rg) ->
     items_rel cx c depth len count range evs c' n rg) /\
  (forall c d evs c', decode_list_item fuel c d cx = Ok (evs, c') ->
     exists line, peek c = Some line /\ item_rel cx line (advance c) d evs c') /\
  (forall c d evs c', decode_follow fuel c d cx = Ok (evs, c') -> follow_rel cx c d evs c').
Proof.
  induction fuel as [|fuel (IHkv & IHof & IHarr & IHitems & IHitem & IHfollow)].
  { repeat split; intros; discriminate. }
  repeat apply conj.
  - intros content c d evs c' H. cbn [decode_key_value] in H.
    destruct (parse_array_header_line content DEFAULT_DELIMITER) as [header|] eqn:Eh; [|discriminate].
    cbn [bind] in H.
    set (plain := let? (key, e, is_quoted) := parse_key_token content 0 in _) in H.
    assert (HP : plain_content content -> plain = Ok (evs, c') -> kv_rel cx content c d evs c').
    { intros Hpl H'. unfold plain in H'. clear H.
      destruct (parse_key_token content 0) as [[[key e] q]|] eqn:Ek; [|discriminate].
      cbn [bind] in H'. destruct (is_empty (trim (skipn e content))) eqn:Et.
      - apply is_empty_true in Et. fold (deeper c d) in H'. destruct (deeper c d) eqn:Ed.
        + destruct (decode_object_fields fuel c (S d) None cx) as [[evs1 c1]|] eqn:Eo; [|discriminate].
          cbn [bind] in H'. injection H' as <- <-. eapply kv_nested; eauto.
        + injection H' as <- <-. eapply kv_empty; eauto.
      - apply is_empty_false in Et.
        destruct (parse_primitive_token (trim (skipn e content))) eqn:Ep; [|discriminate].
        cbn [bind] in H'. injection H' as <- <-. eapply kv_prim; eauto. }
    destruct header as [[h iv]|].
    + destruct (ah_key h) as [key|] eqn:Ekey.
      * destruct (decode_array_from_header fuel h iv c d cx) as [[evs1 c1]|] eqn:Ea; [|discriminate].
        cbn [bind] in H. injection H as <- <-. eapply kv_header; eauto.
      * apply HP; auto. right. eauto.
    + apply HP; auto. now left.
  - intros c base computed evs c' H. cbn [decode_object_fields] in H.
    destruct (peek c) as [line|] eqn:Ep.
    2: { injection H as <- <-. apply of_end. unfold fields_stop. now rewrite Ep. }
    destruct (Nat.ltb_spec (pl_depth line) base) as [Hl|Hl].
    { injection H as <- <-. apply of_end. unfold fields_stop. rewrite Ep. auto. }
    destruct (Nat.eqb_spec (pl_depth line) (unwrap_or computed (pl_depth line))) as [Hd|Hd].
    + inv_bind H. injection H as <- <-. eapply of_step; eauto.
      apply IHof. now rewrite Hd at 1.
    + injection H as <- <-. apply of_end. unfold fields_stop. rewrite Ep. right.
      destruct computed as [dd|]; [eauto|]. cbn in Hd. congruence.
  - intros h iv c d evs c' H. cbn [decode_array_from_header] in H.
    destruct iv as [iv|].
    + destruct (decode_inline_primitive_array h iv cx) eqn:Ei; [|discriminate].
      cbn [bind] in H. injection H as <- <-. now apply arr_inline.
    + assert (Hlist : forall evs0 c0,
        (let? (evs, c, count, range) := decode_list_items fuel c (S d) (ah_length h) 0 None cx in
         let? _ := assert_expected_count CItems count (ah_length h) (dc_strict cx) in
         let? _ := validate_blank_range CItems range (dc_blanks cx) (dc_strict cx) in
         let? _ := validate_no_extra_list_items (peek c) (S d) (ah_length h) (dc_strict cx) in
         Ok (evs, c)) = Ok (evs0, c0) -> ah_fields h = None \/ ah_fields h = Some [] ->
         arr_rel cx h None c d (EvStartArray (ah_length h) :: evs0 ++ [EvEndArray]) c0).
      { intros evs0 c0 H0 Hf. inv_bind H0. injection H0 as <- <-.
        repeat match goal with u : unit |- _ => destruct u end. eapply arr_list; eauto. }
      destruct (ah_fields h) as [[|f fs]|] eqn:Ef.
      * inv_bind H; injection H as <- <-; eapply Hlist; eauto.
      * inv_bind H; injection H as <- <-; eapply arr_table; eauto.
      * inv_bind H; injection H as <- <-; eapply Hlist; eauto.
  - intros c depth len count range evs c' n rg H. cbn [decode_list_items] in H.
    destruct (peek c) as [line|] eqn:Ep.
    2: { injection H as <- <- <- <-. apply items_end. unfold items_stop. now rewrite Ep. }
    destruct (N.leb_spec len count) as [Hl|Hl].
    { injection H as <- <- <- <-. apply items_end. unfold items_stop. rewrite Ep. auto. }
    destruct (Nat.eqb (pl_depth line) depth && is_list_item (pl_content line)) eqn:Ec.
    2: { injection H as <- <- <- <-. apply items_end. unfold items_stop. rewrite Ep. right.
         apply andb_false_iff in Ec as [Ec|Ec]; auto. left. now apply Nat.eqb_neq. }
    apply andb_prop in Ec as [Ed Ei]. apply Nat.eqb_eq in Ed.
    destruct (decode_list_item fuel c depth cx) as [[e1 c1]|] eqn:E1; [|discriminate].
    cbn [bind] in H. apply IHitem in E1 as (line' & Ep' & E1). rewrite Ep in Ep'.
    injection Ep' as <-. inv_bind H. injection H as <- <- <- <-.
    eapply items_step; eauto.
  - intros c d evs c' H. cbn [decode_list_item] in H.
    destruct (peek c) as [line|] eqn:Ep; [|discriminate]. exists line. split; auto.
    destruct (str_eqb (pl_content line) LIST_ITEM_MARKER) eqn:Em.
    { injection H as <- <-. apply str_eqb_eq in Em. apply item_marker. auto. }
    destruct (starts_with_str LIST_ITEM_PREFIX (pl_content line)) eqn:Es; [|discriminate].
    cbn [negb] in H. set (after := skipn 2 (pl_content line)) in *.
    destruct (is_empty (trim after)) eqn:Et.
    { injection H as <- <-. apply is_empty_true in Et. apply item_marker. auto. }
    apply is_empty_false in Et.
    destruct (is_array_header_content after) eqn:Eh.
    + destruct (parse_array_header_line after DEFAULT_DELIMITER) as [[[h iv]|]|] eqn:Ehd;
        cbn [bind] in H; [| |discriminate].
      * eapply item_array; eauto.
      * destruct (is_key_value_content after) eqn:Ekv.
        -- inv_bind H. injection H as <- <-. eapply item_object; eauto; fold after.
           ++ right. auto.
           ++ left. auto.
        -- inv_bind H. injection H as <- <-. eapply item_prim; eauto; fold after.
           ++ right. auto.
           ++ left. auto.
    + cbn [bind] in H.
      destruct (parse_array_header_line after DEFAULT_DELIMITER) as [h2|] eqn:Ehd;
        cbn [bind] in H; [|discriminate].
      set (rest := if is_key_value_content after then _ else _) in H.
      assert (HR : item_not_table after -> rest = Ok (evs, c') -> item_rel cx line (advance c) d evs c').
      { intros Hnt H'. unfold rest in H'. clear H. destruct (is_key_value_content after) eqn:Ekv.
        - inv_bind H'. injection H' as <- <-. eapply item_object; eauto. now left.
        - inv_bind H'. injection H' as <- <-. eapply item_prim; eauto. now left. }
      destruct h2 as [[h iv]|].
      * destruct (ah_key h) as [key|] eqn:Ek.
        -- destruct (ah_fields h) as [fs|] eqn:Ef.
           ++ inv_bind H. injection H as <- <-. eapply item_table; eauto.
           ++ apply HR; auto. right. eauto.
        -- apply HR; auto. right. eauto.
      * apply HR; auto. now left.
  - intros c d evs c' H. cbn [decode_follow] in H.
    destruct (peek c) as [line|] eqn:Ep.
    2: { injection H as <- <-. apply follow_end. unfold follow_stop. now rewrite Ep. }
    destruct (Nat.eqb (pl_depth line) d && negb (starts_with_str LIST_ITEM_PREFIX (pl_content line))) eqn:Ec.
    + apply andb_prop in Ec as [Ed Es]. apply Nat.eqb_eq in Ed. apply negb_true_iff in Es.
      inv_bind H. injection H as <- <-. eapply follow_step; eauto.
    + injection H as <- <-. apply follow_end. unfold follow_stop. rewrite Ep.
      apply andb_false_iff in Ec as [Ec|Ec].
      * left. now apply Nat.eqb_neq.
      * right. now apply negb_false_iff.
Qed.

(** * The decoder only consumes lines *)

Definition suffix_of (c' c : cursor) : Prop := exists pre, cu_rest c = pre ++ cu_rest c'.

Lemma suffix_refl c : suffix_of c c.
Proof. now exists []. Qed.
Lemma suffix_trans a b c : suffix_of a b -> suffix_of b c -> suffix_of a c.
Proof. intros [p Hp] [q Hq]. exists (q ++ p). now rewrite Hq, Hp, app_assoc. Qed.
Lemma suffix_advance c : suffix_of (advance c) c.
Proof. unfold advance. destruct (cu_rest c) as [|l r] eqn:E; [apply suffix_refl|]. exists [l]. now rewrite E. Qed.
Lemma suffix_length c' c : suffix_of c' c -> length (cu_rest c') <= length (cu_rest c).
Proof. intros [p ->]. rewrite app_length. lia. Qed.
Lemma advance_length c line : peek c = Some line -> length (cu_rest c) = S (length (cu_rest (advance c))).
Proof. unfold peek, advance. destruct (cu_rest c); [discriminate|]. reflexivity. Qed.

Lemma decode_rows_suffix rest : forall last rd h fields cx count range evs c n rg,
  decode_rows rest last rd h fields cx count range = Ok (evs, c, n, rg) ->
  suffix_of c (Cursor rest last).
Proof.
  induction rest as [|line r IH]; intros last rd h fields cx count range evs c n rg H;
    cbn [decode_rows] in H.
  - injection H as <- <- <- <-. apply suffix_refl.
  - destruct (ah_length h <=? count)%N; [injection H as <- <- <- <-; apply suffix_refl|].
    destruct (Nat.eqb (pl_depth line) rd); [|injection H as <- <- <- <-; apply suffix_refl].
    inv_bind H. injection H as <- <- <- <-. apply IH in E1.
    eapply suffix_trans; [exact E1|]. now exists [line].
Qed.

Lemma decode_tabular_suffix h fields c d cx evs c' :
  decode_tabular_array h fields c d cx = Ok (evs, c') -> suffix_of c' c.
Proof.
  unfold decode_tabular_array. intros H. inv_bind H. injection H as <- <-.
  apply decode_rows_suffix in E. destruct c; exact E.
Qed.

Lemma dec_suffix cx :
  (forall content c d evs c', kv_rel cx content c d evs c' -> suffix_of c' c) /\
  (forall c base computed evs c', of_rel cx c base computed evs c' -> suffix_of c' c) /\
  (forall h iv c d evs c', arr_rel cx h iv c d evs c' -> suffix_of c' c) /\
  (forall c depth len count range evs c' n rg,
     items_rel cx c depth len count range evs c' n rg -> suffix_of c' c) /\
  (forall line c d evs c', item_rel cx line c d evs c' -> suffix_of c' c) /\
  (forall c d evs c', follow_rel cx c d evs c' -> suffix_of c' c).
Proof.
  apply dec_mutind; intros; auto using suffix_refl;
    eauto using suffix_trans, suffix_advance, decode_tabular_suffix.
Qed.

(** * More fuel changes nothing *)

Definition le_res {A} (r1 r2 : result A) : Prop := r1 = Err EFuel \/ r1 = r2.

Lemma le_refl {A} (r : result A) : le_res r r.
Proof. now right. Qed.
Lemma bind_le {A B} (r1 r2 : result A) (k1 k2 : A -> result B) :
  le_res r1 r2 -> (forall x, le_res (k1 x) (k2 x)) -> le_res (bind r1 k1) (bind r2 k2).
Proof.
  intros [->| ->] H; [now left|]. destruct r2; [apply H|apply le_refl].
Qed.

Ltac le_step :=
  match goal with
  | |- le_res ?r ?r => apply le_refl
  | |- le_res (bind _ _) (bind _ _) => apply bind_le; [|intros]
  | |- le_res (match ?x with _ => _ end) (match ?x with _ => _ end) => destruct x eqn:?
  | |- le_res _ _ => solve [auto]
  end.

Lemma dec_mono cx fuel : forall fuel', fuel <= fuel' ->
  (forall content c d, le_res (decode_key_value fuel content c d cx) (decode_key_value fuel' content c d cx)) /\
  (forall c base computed, le_res (decode_object_fields fuel c base computed cx)
                                  (decode_object_fields fuel' c base computed cx)) /\
  (forall h iv c d, le_res (decode_array_from_header fuel h iv c d cx)
                           (decode_array_from_header fuel' h iv c d cx)) /\
  (forall c depth len count range, le_res (decode_list_items fuel c depth len count range cx)
                                          (decode_list_items fuel' c depth len count range cx)) /\
  (forall c d, le_res (decode_list_item fuel c d cx) (decode_list_item fuel' c d cx)) /\
  (forall c d, le_res (decode_follow fuel c d cx) (decode_follow fuel' c d cx)).
Proof.
  induction fuel as [|fuel IH]; intros fuel' Hle.
  { repeat split; intros; now left. }
  destruct fuel' as [|fuel']; [lia|].
  destruct (IH fuel' ltac:(lia)) as (IHkv & IHof & IHarr & IHitems & IHitem & IHfollow).
  repeat apply conj; intros.
  - cbn [decode_key_value]. repeat le_step.
  - cbn [decode_object_fields]. repeat le_step.
  - cbn [decode_array_from_header]. repeat le_step.
  - cbn [decode_list_items]. repeat le_step.
  - cbn [decode_list_item]. repeat le_step.
  - cbn [decode_follow]. repeat le_step.
Qed.

(** * The fuel is enough *)

Definition nofuel {A} (r : result A) : Prop := r <> Err EFuel.

Lemma nofuel_ok {A} (x : A) : nofuel (Ok x).
Proof. discriminate. Qed.
Lemma nofuel_bind {A B} (r : result A) (k : A -> result B) :
  nofuel r -> (forall x, r = Ok x -> nofuel (k x)) -> nofuel (bind r k).
Proof.
  unfold nofuel. intros H1 H2. destruct r as [x|e]; cbn [bind]; auto.
  intros E. injection E as ->. now apply H1.
Qed.

Ltac nf_step :=
  match goal with
  | |- nofuel (Ok _) => apply nofuel_ok
  | |- nofuel (Err _) => (unfold nofuel; discriminate)
  | |- nofuel (bind _ _) => apply nofuel_bind; [|intros]
  | |- nofuel (match ?x with _ => _ end) => destruct x eqn:?
  | |- nofuel _ => solve [auto]
  end.
Ltac nf := repeat nf_step.

Lemma nf_unescape n : forall s, length s < n -> nofuel (unescape_string s).
Proof.
  induction n as [|n IH]; intros s Hl; [lia|].
  destruct s as [|c r]; cbn [unescape_string]; [apply nofuel_ok|].
  cbn [length] in Hl. destruct (c =? cBSLASH)%N.
  - destruct r as [|d r]; [unfold nofuel; discriminate|]. cbn [length] in Hl.
    apply nofuel_bind.
    + repeat match goal with |- nofuel (if ?b then _ else _) => destruct b end;
        unfold nofuel; discriminate.
    + intros. apply nofuel_bind; [apply IH; lia|intros; apply nofuel_ok].
  - apply nofuel_bind; [apply IH; lia|intros; apply nofuel_ok].
Qed.
Lemma nf_unescape' s : nofuel (unescape_string s).
Proof. apply (nf_unescape (S (length s))). lia. Qed.
Global Hint Resolve nf_unescape' : core.

Lemma nf_string_literal s : nofuel (parse_string_literal s).
Proof. unfold parse_string_literal. cbv zeta. nf. Qed.
Global Hint Resolve nf_string_literal : core.
Lemma nf_primitive s : nofuel (parse_primitive_token s).
Proof. unfold parse_primitive_token. cbv zeta. nf. Qed.
Global Hint Resolve nf_primitive : core.
Lemma nf_map {A B} (f : A -> result B) l : (forall x, nofuel (f x)) -> nofuel (map_result f l).
Proof. intros H. induction l; cbn [map_result]; nf. Qed.
Lemma nf_row l : nofuel (map_row_values_to_primitives l).
Proof. apply nf_map. auto. Qed.
Global Hint Resolve nf_row : core.
Lemma nf_fields s d : nofuel (parse_fields s d).
Proof. apply nf_map. intros. cbv zeta. nf. Qed.
Global Hint Resolve nf_fields : core.
Lemma nf_header s d : nofuel (parse_array_header_line s d).
Proof.
  unfold parse_array_header_line, bracket_start_of, header_key, header_fields. cbv zeta. nf.
Qed.
Global Hint Resolve nf_header : core.
Lemma nf_key_token s n : nofuel (parse_key_token s n).
Proof. unfold parse_key_token, parse_quoted_key, parse_unquoted_key. cbv zeta. nf. Qed.
Global Hint Resolve nf_key_token : core.
Lemma nf_count w a b s : nofuel (assert_expected_count w a b s).
Proof. unfold assert_expected_count. nf. Qed.
Lemma nf_blank w r b s : nofuel (validate_blank_range w r b s).
Proof. unfold validate_blank_range, validate_no_blank_lines_in_range. nf. Qed.
Lemma nf_extra_items l d n s : nofuel (validate_no_extra_list_items l d n s).
Proof. unfold validate_no_extra_list_items. nf. Qed.
Lemma nf_extra_rows l d c n s : nofuel (validate_no_extra_tabular_rows l d c n s).
Proof. unfold validate_no_extra_tabular_rows. nf. Qed.
Global Hint Resolve nf_count nf_blank nf_extra_items nf_extra_rows : core.
Lemma nf_inline h iv cx : nofuel (decode_inline_primitive_array h iv cx).
Proof. unfold decode_inline_primitive_array. cbv zeta. nf. Qed.
Global Hint Resolve nf_inline : core.
Lemma nf_rows rest : forall last rd h fields cx count range,
  nofuel (decode_rows rest last rd h fields cx count range).
Proof. induction rest; intros; cbn [decode_rows]; cbv zeta; nf. Qed.
Global Hint Resolve nf_rows : core.
Lemma nf_tabular h fields c d cx : nofuel (decode_tabular_array h fields c d cx).
Proof. unfold decode_tabular_array. nf. Qed.
Global Hint Resolve nf_tabular : core.

Notation rem c := (length (cu_rest c)).

Lemma dec_nofuel cx fuel :
  (forall content c d, 5 * rem c + 3 <= fuel -> nofuel (decode_key_value fuel content c d cx)) /\
  (forall c base computed, 5 * rem c + 2 <= fuel -> nofuel (decode_object_fields fuel c base computed cx)) /\
  (forall h iv c d, 5 * rem c + 2 <= fuel -> nofuel (decode_array_from_header fuel h iv c d cx)) /\
  (forall c depth len count range, 5 * rem c + 1 <= fuel ->
     nofuel (decode_list_items fuel c depth len count range cx)) /\
  (forall c d, 5 * rem c <= fuel -> 1 <= fuel -> nofuel (decode_list_item fuel c d cx)) /\
  (forall c d, 5 * rem c + 1 <= fuel -> nofuel (decode_follow fuel c d cx)).
Proof.
  induction fuel as [|fuel (IHkv & IHof & IHarr & IHitems & IHitem & IHfollow)].
  { repeat split; intros; lia. }
  pose proof (dec_sound cx fuel) as (Skv & _ & Sarr & _ & Sitem & _).
  pose proof (dec_suffix cx) as (Xkv & _ & Xarr & _ & Xitem & _).
  repeat apply conj.
  - intros content c d H. cbn [decode_key_value].
    nf; try (apply IHof; lia); apply IHarr; lia.
  - intros c base computed H. cbn [decode_object_fields]. cbv zeta.
    destruct (peek c) eqn:Ep; [|apply nofuel_ok]. pose proof (advance_length _ _ Ep) as Hl.
    nf; try (apply IHkv; lia).
    apply IHof. match goal with E : decode_key_value _ _ _ _ _ = Ok _ |- _ => apply Skv, Xkv, suffix_length in E end.
    lia.
  - intros h iv c d H. cbn [decode_array_from_header]. nf; apply IHitems; lia.
  - intros c depth len count range H. cbn [decode_list_items]. cbv zeta.
    destruct (peek c) eqn:Ep; [|apply nofuel_ok]. pose proof (advance_length _ _ Ep) as Hl.
    nf; try (apply IHitem; lia);
    apply IHitems; match goal with E : decode_list_item _ _ _ _ = Ok _ |- _ =>
      apply Sitem in E as (line & _ & E); apply Xitem, suffix_length in E end; lia.
  - intros c d H H'. cbn [decode_list_item]. cbv zeta.
    destruct (peek c) eqn:Ep; [|unfold nofuel; discriminate]. pose proof (advance_length _ _ Ep) as Hl.
    nf; try (apply IHarr; lia); try (apply IHkv; lia);
    apply IHfollow; match goal with
      | E : decode_key_value _ _ _ _ _ = Ok _ |- _ => apply Skv, Xkv, suffix_length in E
      | E : decode_array_from_header _ _ _ _ _ _ = Ok _ |- _ => apply Sarr, Xarr, suffix_length in E
      end; lia.
  - intros c d H. cbn [decode_follow].
    destruct (peek c) eqn:Ep; [|apply nofuel_ok]. pose proof (advance_length _ _ Ep) as Hl.
    nf; try (apply IHkv; lia).
    apply IHfollow. match goal with E : decode_key_value _ _ _ _ _ = Ok _ |- _ => apply Skv, Xkv, suffix_length in E end.
    lia.
Qed.

(** * Completeness: whatever the relation derives, the functions compute with enough fuel *)

Definition eventually {A} (f : nat -> result A) (x : A) : Prop :=
  exists n, forall fuel, n <= fuel -> f fuel = Ok x.

Lemma plain_content_cases content {A} (a : array_header -> option str -> str -> A) (b : A) :
  plain_content content ->
  exists h, parse_array_header_line content DEFAULT_DELIMITER = Ok h /\
    match h with Some (h, iv) => match ah_key h with Some k => a h iv k | None => b end | None => b end = b.
Proof.
  intros [H|(h & iv & H & Hk)]; [exists None | exists (Some (h, iv))]; rewrite ?Hk; auto.
Qed.

Lemma dec_complete cx :
  (forall content c d evs c', kv_rel cx content c d evs c' ->
     eventually (fun fuel => decode_key_value fuel content c d cx) (evs, c')) /\
  (forall c base computed evs c', of_rel cx c base computed evs c' ->
     eventually (fun fuel => decode_object_fields fuel c base computed cx) (evs, c')) /\
  (forall h iv c d evs c', arr_rel cx h iv c d evs c' ->
     eventually (fun fuel => decode_array_from_header fuel h iv c d cx) (evs, c')) /\
  (forall c depth len count range evs c' n rg,
     items_rel cx c depth len count range evs c' n rg ->
     eventually (fun fuel => decode_list_items fuel c depth len count range cx) (evs, c', n, rg)) /\
  (forall line c d evs c', item_rel cx line c d evs c' ->
     forall c0, peek c0 = Some line -> advance c0 = c ->
     eventually (fun fuel => decode_list_item fuel c0 d cx) (evs, c')) /\
  (forall c d evs c', follow_rel cx c d evs c' ->
     eventually (fun fuel => decode_follow fuel c d cx) (evs, c')).
Proof.
  unfold eventually. apply dec_mutind.
  - intros content c d h iv key evs c' Hh Hk _ [n IH]. exists (S n). intros [|fuel] Hf; [lia|].
    cbn [decode_key_value]. rewrite Hh. cbn [bind]. rewrite Hk, IH by lia. reflexivity.
  - intros content c d key e q evs c' Hp Hk Ht Hd _ [n IH]. exists (S n). intros [|fuel] Hf; [lia|].
    cbn [decode_key_value].
    destruct Hp as [Hp|(h & iv & Hp & Hk')]; rewrite Hp; cbn [bind]; rewrite ?Hk', Hk; cbn [bind];
      rewrite Ht; cbn [is_empty]; fold (deeper c d); rewrite Hd, IH by lia; reflexivity.
  - intros content c d key e q Hp Hk Ht Hd. exists 1. intros [|fuel] Hf; [lia|].
    cbn [decode_key_value].
    destruct Hp as [Hp|(h & iv & Hp & Hk')]; rewrite Hp; cbn [bind]; rewrite ?Hk', Hk; cbn [bind];
      rewrite Ht; cbn [is_empty]; fold (deeper c d); rewrite Hd; reflexivity.
  - intros content c d key e q p Hp Hk Ht Hpp. exists 1. intros [|fuel] Hf; [lia|].
    cbn [decode_key_value]. apply is_empty_false in Ht.
    destruct Hp as [Hp|(h & iv & Hp & Hk')]; rewrite Hp; cbn [bind]; rewrite ?Hk', Hk; cbn [bind];
      rewrite Ht, Hpp; reflexivity.
  - intros c base computed Hs. exists 1. intros [|fuel] Hf; [lia|]. cbn [decode_object_fields].
    unfold fields_stop in Hs. destruct (peek c) as [line|]; [|reflexivity].
    destruct (Nat.ltb_spec (pl_depth line) base); [reflexivity|].
    destruct Hs as [Hs|(dd & -> & Hs)]; [lia|]. cbn [unwrap_or].
    apply Nat.eqb_neq in Hs. now rewrite Hs.
  - intros c base computed line e1 c1 e2 c2 Hp Hb Hc _ [n1 IH1] _ [n2 IH2].
    exists (S (n1 + n2)). intros [|fuel] Hf; [lia|]. cbn [decode_object_fields]. rewrite Hp.
    replace (Nat.ltb (pl_depth line) base) with false by lia. cbv zeta. rewrite Hc, Nat.eqb_refl.
    rewrite IH1 by lia. cbn [bind]. rewrite IH2 by lia. reflexivity.
  - intros h iv c d evs H. exists 1. intros [|fuel] Hf; [lia|]. cbn [decode_array_from_header].
    rewrite H. reflexivity.
  - intros h f fs c d evs c' Hf0 H. exists 1. intros [|fuel] Hf; [lia|]. cbn [decode_array_from_header].
    rewrite Hf0, H. reflexivity.
  - intros h c d evs c' count range Hf0 _ [n IH] H1 H2 H3. exists (S n). intros [|fuel] Hf; [lia|].
    cbn [decode_array_from_header].
    destruct Hf0 as [-> | ->]; rewrite IH by lia; cbn [bind]; rewrite H1; cbn [bind]; rewrite H2;
      cbn [bind]; rewrite H3; reflexivity.
  - intros c depth len count range Hs. exists 1. intros [|fuel] Hf; [lia|]. cbn [decode_list_items].
    unfold items_stop in Hs. destruct (peek c) as [line|]; [|reflexivity].
    destruct (N.leb_spec len count); [reflexivity|].
    destruct Hs as [Hs|[Hs|Hs]]; [lia| |].
    + apply Nat.eqb_neq in Hs. now rewrite Hs.
    + now rewrite Hs, andb_false_r.
  - intros c depth len count range line e1 c1 e2 c2 n rg Hp Hlt Hd Hi _ IH1 _ [n2 IH2].
    destruct (IH1 c Hp eq_refl) as [n1 IH1']. exists (S (n1 + n2)). intros [|fuel] Hf; [lia|].
    cbn [decode_list_items]. rewrite Hp. replace (len <=? count)%N with false by lia.
    rewrite Hd, Nat.eqb_refl, Hi. cbn [andb]. cbv zeta. rewrite IH1' by lia. cbn [bind].
    unfold item_range in IH2. destruct (cu_last c1); rewrite IH2 by lia; reflexivity.
  - intros line c d Hm c0 Hp Ha. exists 1. intros [|fuel] Hf; [lia|]. cbn [decode_list_item].
    rewrite Hp. cbv zeta. rewrite Ha.
    destruct (str_eqb (pl_content line) LIST_ITEM_MARKER) eqn:Em; [reflexivity|].
    destruct Hm as [Hm|[Hm1 Hm2]]; [apply str_eqb_neq in Em; contradiction|].
    rewrite Hm1, Hm2. reflexivity.
  - intros line c d h iv evs c' Hs Ht Hh Hp _ [n IH] c0 Hp0 Ha. exists (S n).
    intros [|fuel] Hf; [lia|]. cbn [decode_list_item]. rewrite Hp0. cbv zeta. rewrite Ha, Hs.
    destruct (str_eqb (pl_content line) LIST_ITEM_MARKER) eqn:Em.
    { apply str_eqb_eq in Em. rewrite Em in Hs. discriminate. }
    apply is_empty_false in Ht. cbn [negb]. rewrite Ht, Hh, Hp. cbn [bind]. apply IH. lia.
  - intros line c d h iv key fs e1 c1 e2 c2 Hs Ht Hh Hp Hk Hfs _ [n1 IH1] _ [n2 IH2] c0 Hp0 Ha.
    exists (S (n1 + n2)). intros [|fuel] Hf; [lia|]. cbn [decode_list_item]. rewrite Hp0. cbv zeta.
    rewrite Ha, Hs.
    destruct (str_eqb (pl_content line) LIST_ITEM_MARKER) eqn:Em.
    { apply str_eqb_eq in Em. rewrite Em in Hs. discriminate. }
    apply is_empty_false in Ht. cbn [negb]. rewrite Ht, Hh, Hp. cbn [bind]. rewrite Hk, Hfs.
    rewrite IH1 by lia. cbn [bind]. rewrite IH2 by lia. reflexivity.
  - intros line c d e1 c1 e2 c2 Hs Ht Hna Hnt Hkv _ [n1 IH1] _ [n2 IH2] c0 Hp0 Ha.
    exists (S (n1 + n2)). intros [|fuel] Hf; [lia|]. cbn [decode_list_item]. rewrite Hp0. cbv zeta.
    rewrite Ha, Hs.
    destruct (str_eqb (pl_content line) LIST_ITEM_MARKER) eqn:Em.
    { apply str_eqb_eq in Em. rewrite Em in Hs. discriminate. }
    apply is_empty_false in Ht. cbn [negb]. rewrite Ht.
    replace (if is_array_header_content (skipn 2 (pl_content line))
             then parse_array_header_line (skipn 2 (pl_content line)) DEFAULT_DELIMITER
             else Ok None) with (Ok (A := option (array_header * option str)) None).
    2: { destruct Hna as [->|Hna]; [reflexivity|]. rewrite Hna. now destruct (is_array_header_content _). }
    cbn [bind]. rewrite Hkv.
    assert (HR : (let? (e1, c1) := decode_key_value fuel (skipn 2 (pl_content line)) c (S d) cx in
                  let? (e2, c2) := decode_follow fuel c1 (S d) cx in
                  Ok (EvStartObject :: e1 ++ e2 ++ [EvEndObject], c2))
                 = Ok (EvStartObject :: e1 ++ e2 ++ [EvEndObject], c2)).
    { rewrite IH1 by lia. cbn [bind]. rewrite IH2 by lia. reflexivity. }
    destruct Hnt as [Hnt|(h & iv & Hnt & [Hk|Hfs])]; rewrite Hnt; cbn [bind]; rewrite ?Hk, ?Hfs; auto.
    destruct (ah_key h); auto.
  - intros line c d p Hs Ht Hna Hnt Hkv Hpp c0 Hp0 Ha.
    exists 1. intros [|fuel] Hf; [lia|]. cbn [decode_list_item]. rewrite Hp0. cbv zeta.
    rewrite Ha, Hs.
    destruct (str_eqb (pl_content line) LIST_ITEM_MARKER) eqn:Em.
    { apply str_eqb_eq in Em. rewrite Em in Hs. discriminate. }
    apply is_empty_false in Ht. cbn [negb]. rewrite Ht.
    replace (if is_array_header_content (skipn 2 (pl_content line))
             then parse_array_header_line (skipn 2 (pl_content line)) DEFAULT_DELIMITER
             else Ok None) with (Ok (A := option (array_header * option str)) None).
    2: { destruct Hna as [->|Hna]; [reflexivity|]. rewrite Hna. now destruct (is_array_header_content _). }
    cbn [bind]. rewrite Hkv, Hpp.
    destruct Hnt as [Hnt|(h & iv & Hnt & [Hk|Hfs])]; rewrite Hnt; cbn [bind]; rewrite ?Hk, ?Hfs; auto.
    destruct (ah_key h); auto.
  - intros c d Hs. exists 1. intros [|fuel] Hf; [lia|]. cbn [decode_follow].
    unfold follow_stop in Hs. destruct (peek c) as [line|]; [|reflexivity].
    destruct Hs as [Hs|Hs].
    + apply Nat.eqb_neq in Hs. now rewrite Hs.
    + now rewrite Hs, andb_false_r.
  - intros c d line e1 c1 e2 c2 Hp Hd Hs _ [n1 IH1] _ [n2 IH2].
    exists (S (n1 + n2)). intros [|fuel] Hf; [lia|]. cbn [decode_follow]. rewrite Hp.
    rewrite Hd, Nat.eqb_refl, Hs. cbn [andb negb]. rewrite IH1 by lia. cbn [bind].
    rewrite IH2 by lia. reflexivity.
Qed.

(** With the fuel the decoder supplies, relation and function agree. *)
Lemma kv_exact cx content c d evs c' fuel : 5 * rem c + 3 <= fuel ->
  kv_rel cx content c d evs c' <-> decode_key_value fuel content c d cx = Ok (evs, c').
Proof.
  intros Hf. split; [|apply dec_sound].
  intros H. apply dec_complete in H as [n Hn].
  destruct (dec_mono cx fuel (fuel + n) ltac:(lia)) as (Hm & _).
  destruct (Hm content c d) as [E|E].
  - exfalso. now apply (proj1 (dec_nofuel cx fuel)) in E.
  - rewrite E. apply Hn. lia.
Qed.

Lemma arr_exact cx h iv c d evs c' fuel : 5 * rem c + 2 <= fuel ->
  arr_rel cx h iv c d evs c' <-> decode_array_from_header fuel h iv c d cx = Ok (evs, c').
Proof.
  intros Hf. split; [|apply dec_sound].
  intros H. apply dec_complete in H as [n Hn].
  destruct (dec_mono cx fuel (fuel + n) ltac:(lia)) as (_ & _ & Hm & _).
  destruct (Hm h iv c d) as [E|E].
  - exfalso. now apply (proj1 (proj2 (proj2 (dec_nofuel cx fuel)))) in E.
  - rewrite E. apply Hn. lia.
Qed.

(** * The root *)

Inductive root_fields_rel (cx : dctx) : cursor -> list event -> cursor -> Prop :=
| rf_end c : match peek c with None => True | Some line => pl_depth line <> 0 end ->
    root_fields_rel cx c [] c
| rf_step c line e1 c1 e2 c2 :
    peek c = Some line -> pl_depth line = 0 ->
    kv_rel cx (pl_content line) (advance c) 0 e1 c1 ->
    root_fields_rel cx c1 e2 c2 ->
    root_fields_rel cx c (e1 ++ e2) c2.

Lemma root_fields_sound cx fuel : forall c evs c',
  decode_root_fields fuel c cx = Ok (evs, c') -> root_fields_rel cx c evs c'.
Proof.
  induction fuel as [|fuel IH]; intros c evs c' H; [discriminate|]. cbn [decode_root_fields] in H.
  destruct (peek c) as [line|] eqn:Ep.
  2: { injection H as <- <-. apply rf_end. now rewrite Ep. }
  destruct (Nat.eqb_spec (pl_depth line) 0) as [Hd|Hd]; cbn [negb] in H.
  - inv_bind H. injection H as <- <-. eapply rf_step; eauto. now apply dec_sound in E.
  - injection H as <- <-. apply rf_end. now rewrite Ep.
Qed.

Lemma root_fields_complete cx c evs c' : root_fields_rel cx c evs c' ->
  forall fuel, 5 * rem c + 1 <= fuel -> decode_root_fields fuel c cx = Ok (evs, c').
Proof.
  induction 1 as [c Hs|c line e1 c1 e2 c2 Hp Hd Hkv Hrf IH]; intros [|fuel] Hf; try lia;
    cbn [decode_root_fields].
  - destruct (peek c); [|reflexivity]. apply Nat.eqb_neq in Hs. now rewrite Hs.
  - rewrite Hp, Hd. cbn [Nat.eqb negb]. pose proof (advance_length _ _ Hp) as Hl.
    pose proof Hkv as Hkv'. apply dec_suffix, suffix_length in Hkv'.
    apply (kv_exact cx _ _ _ _ _ fuel) in Hkv; [|lia]. rewrite Hkv. cbn [bind].
    rewrite IH by lia. reflexivity.
Qed.

Lemma root_fields_nofuel cx fuel : forall c, 5 * rem c + 1 <= fuel -> nofuel (decode_root_fields fuel c cx).
Proof.
  induction fuel as [|fuel IH]; intros c Hf; [lia|]. cbn [decode_root_fields].
  destruct (peek c) eqn:Ep; [|apply nofuel_ok]. pose proof (advance_length _ _ Ep) as Hl.
  nf.
  - apply dec_nofuel. lia.
  - apply IH. match goal with E : decode_key_value _ _ _ _ _ = Ok _ |- _ =>
      apply dec_sound, dec_suffix, suffix_length in E end. lia.
Qed.

Inductive lines_rel (cx : dctx) : list parsed_line -> list event -> cursor -> Prop :=
| lr_empty : lines_rel cx [] [EvStartObject; EvEndObject] (Cursor [] None)
| lr_array first rest h iv evs c' :
    is_array_header_content (pl_content first) = true ->
    parse_array_header_line (pl_content first) DEFAULT_DELIMITER = Ok (Some (h, iv)) ->
    arr_rel cx h iv (Cursor rest (Some first)) 0 evs c' ->
    lines_rel cx (first :: rest) evs c'
| lr_prim first p :
    item_not_array (pl_content first) -> is_key_value_line (pl_content first) = false ->
    parse_primitive_token (trim (pl_content first)) = Ok p ->
    lines_rel cx [first] [EvPrim p] (Cursor [] (Some first))
| lr_object first rest e1 c1 e2 c2 :
    item_not_array (pl_content first) ->
    (rest <> [] \/ is_key_value_line (pl_content first) = true) ->
    kv_rel cx (pl_content first) (Cursor rest (Some first)) 0 e1 c1 ->
    root_fields_rel cx c1 e2 c2 ->
    lines_rel cx (first :: rest) (EvStartObject :: e1 ++ e2 ++ [EvEndObject]) c2.

Lemma decode_lines_exact cx lines evs c' :
  decode_lines lines cx = Ok (evs, c') <-> lines_rel cx lines evs c'.
Proof.
  destruct lines as [|first rest].
  { cbn. split; intros H.
    - injection H as <- <-. constructor.
    - inversion H; subst. reflexivity. }
  unfold decode_lines. cbv zeta.
  set (fuel := dec_fuel (first :: rest)).
  assert (Hfuel : fuel = 5 * length rest + 13) by (unfold fuel, dec_fuel; cbn [length]; lia).
  set (h0 := if is_array_header_content (pl_content first) then _ else _).
  assert (Hna : h0 = Ok None <-> item_not_array (pl_content first)).
  { unfold h0, item_not_array. destruct (is_array_header_content (pl_content first)); split; auto.
    intros [H|H]; [discriminate|auto]. }
  split.
  - intros H. destruct h0 as [[[h iv]|]|] eqn:Eh; cbn [bind] in H; [| |discriminate].
    + unfold h0 in Eh. destruct (is_array_header_content (pl_content first)) eqn:Ea; [|discriminate].
      apply dec_sound in H. eapply lr_array; eauto.
    + assert (Hn : item_not_array (pl_content first)) by now apply Hna.
      destruct (at_end (Cursor rest (Some first)) && negb (is_key_value_line (pl_content first))) eqn:Ee.
      * apply andb_prop in Ee as [E1 E2]. unfold at_end in E1. cbn [cu_rest] in E1.
        apply is_empty_true in E1. apply negb_true_iff in E2. subst rest.
        inv_bind H. injection H as <- <-. now apply lr_prim.
      * apply andb_false_iff in Ee. inv_bind H. injection H as <- <-.
        apply dec_sound in E. apply root_fields_sound in E0. eapply lr_object; eauto.
        destruct Ee as [Ee|Ee].
        -- left. now apply is_empty_false.
        -- right. now apply negb_false_iff.
  - intros H. inversion H as [|f r h iv ? ? Hh Hp Ha|f p Hn Hk Hp|f r e1 c1 e2 c2 Hn Hor Hkv Hrf]; subst.
    + assert (E : h0 = Ok (Some (h, iv))) by (unfold h0; now rewrite Hh).
      rewrite E. cbn [bind]. apply arr_exact; auto. cbn [cu_rest]. lia.
    + apply Hna in Hn. rewrite Hn. cbn [bind at_end cu_rest is_empty andb]. rewrite Hk. cbn [negb].
      rewrite Hp. reflexivity.
    + apply Hna in Hn. rewrite Hn. cbn [bind]. unfold at_end. cbn [cu_rest].
      replace (is_empty rest && negb (is_key_value_line (pl_content first))) with false.
      2: { symmetry. apply andb_false_iff. destruct Hor as [Hor|Hor].
           - left. now apply is_empty_false.
           - right. now rewrite Hor. }
      pose proof Hkv as Hsf. apply dec_suffix, suffix_length in Hsf. cbn [cu_rest] in Hsf.
      apply (kv_exact cx _ _ _ _ _ fuel) in Hkv; [|cbn [cu_rest]; lia]. rewrite Hkv. cbn [bind].
      rewrite (root_fields_complete cx _ _ _ Hrf) by lia. reflexivity.
Qed.

(** C17: decoding terminates: the fuel never runs out. *)
Lemma decode_lines_nofuel cx lines : nofuel (decode_lines lines cx).
Proof.
  destruct lines as [|first rest]; [unfold nofuel; discriminate|]. unfold decode_lines. cbv zeta.
  set (fuel := dec_fuel (first :: rest)).
  assert (Hfuel : fuel = 5 * length rest + 13) by (unfold fuel, dec_fuel; cbn [length]; lia).
  nf.
  - apply dec_nofuel. cbn [cu_rest]. lia.
  - apply dec_nofuel. cbn [cu_rest]. lia.
  - apply root_fields_nofuel. match goal with E : decode_key_value _ _ _ _ _ = Ok _ |- _ =>
      apply dec_sound, dec_suffix, suffix_length in E; cbn [cu_rest] in E end. lia.
Qed.
