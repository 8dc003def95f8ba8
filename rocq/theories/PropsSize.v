(** C69: the text beside the indented JSON text of the same value. *)
From Coq Require Import SpecFloat.
From Verif Require Import Chars Floats Json JsonInd Shared EncPrim Normalize Encoders EncodeApi EncTotal Lex Spec JsonEq JsonText NumProof ReplaceProof LayEnc
  TextProof SpecText SpecSize FoldShort SizeProof PropsText PropsShort Utf8 Utf8Proof.

Local Open Scope nat_scope.

Section Sizes.
Variable w : char -> nat.
Hypothesis w_ascii : forall c, (c < 128)%N -> w c = 1.
Hypothesis w_least : forall c, 1 <= w c.
Hypothesis w_most : forall c, w c <= 6.

Lemma least_weight s : length s <= weight w s.
Proof. induction s as [|c s IH]; [apply le_n|]. rewrite weight_cons. cbn [length]. pose proof (w_least c). lia. Qed.
Lemma ascii_weight s : Forall (fun c => (c < 128)%N) s -> weight w s = length s.
Proof. induction 1 as [|c s H _ IH]; [reflexivity|]. rewrite weight_cons, IH, w_ascii by assumption. reflexivity. Qed.
Lemma digits_ascii s : all_digits s -> Forall (fun c => (c < 128)%N) s.
Proof. apply Forall_impl. intros c H. unfold is_digit in H. lia. Qed.
Lemma numeral_weight x s m e : f64_sf x = S754_finite s m e -> weight w (f64_to_string x) = length (f64_to_string x).
Proof.
  intros E. apply ascii_weight. destruct (f64_to_string_shape x) as (s' & ip & fp & -> & Hi & Hp & _); [unfold f64_is_finite; now rewrite E|unfold f64_is_zero; now rewrite E|].
  rewrite !Forall_app. split; [|split].
  - destruct s'; repeat constructor.
  - now apply digits_ascii.
  - destruct (is_empty fp); constructor; [reflexivity|now apply digits_ascii].
Qed.
Lemma fits_weight st x s m e : f64_sf x = S754_finite s m e -> fits st x ->
  weight w (f64_to_string x) <= weight w (unwrap_or (number_text st x) (lit "null")).
Proof.
  intros E F. rewrite (numeral_weight _ _ _ _ E). etransitivity; [|apply least_weight]. unfold fits in F.
  assert (Z : f64_is_zero x = false) by (unfold f64_is_zero; now rewrite E).
  destruct (number_text st x) as [t|] eqn:Et; [now apply F|]. unfold number_text in Et. rewrite E in Et. now destruct (shortest_by _ _ _).
Qed.

Lemma written_size st dl fold k indent v doc : w dl = 1 -> 2 <= indent -> distinct_keys v -> filled v -> numbers (fits st) v ->
  (exists l, v = JObj l) \/ (exists p ps, v = JArr (map JPrim (p :: ps))) \/ (exists l fields rows, v = JArr l /\ table l fields rows) ->
  document f64_to_string dl fold k (normalize_json_value v) doc ->
  list_sum (map w (join cLF (map (shown indent) doc))) <= list_sum (map w (stringify_value_to_buf st indent 0 v)).
Proof.
  intros Hdl Hi Hd Hf Hn Shape D.
  assert (B : size w indent doc <= js st w indent 0 v + 1).
  { destruct (C46_one_text (normalize_json_value v) dl false k) as (doc0 & D0 & U).
    assert (Z : size w indent doc <= size w indent doc0).
    { destruct fold; [|rewrite (U _ D); apply le_n].
      assert (Sh : shorter w indent doc doc0).
      { apply (shorter_document f64_to_string dl k k w ltac:(now rewrite w_ascii) ltac:(now rewrite w_ascii) indent _ _ _ D D0).
        intros a b Da Db. now rewrite (U _ Da), (U _ Db). }
      destruct Sh as [->|[_ H]]; [apply le_n|lia]. }
    assert (G : good (fits st) (normalize_json_value v)). { apply normalize_good; [|easy]. intros H. discriminate. }
    pose proof (fits_weight st) as FW. unfold weight in FW.
    assert (Nl : js st w indent 0 (normalize_json_value v) <= js st w indent 0 v) by (eapply normalize_le; eauto).
    assert (size w indent doc0 <= js st w indent 0 (normalize_json_value v) + 1); [|lia].
    destruct Shape as [(l & ->)|[(p & ps & ->)|(l & fields & rows & -> & T)]]; cbn [normalize_json_value] in *.
    - assert (size w indent doc0 <= js st w indent 0 (JObj (map (fun kv => (fst kv, normalize_json_value (snd kv))) l))); [|lia].
      eapply document_le; eauto.
    - eapply root_le; eauto; [discriminate|]. left. exists (map normalize_primitive (p :: ps)). rewrite !map_map. now apply map_ext.
    - destruct (normalize_table _ _ _ T) as (rows' & T'). eapply root_le; eauto. destruct T as (_ & (f & r & -> & _) & _). discriminate. }
  destruct doc as [|l doc]; [apply Nat.le_0_l|].
  pose proof (total_size w indent (l :: doc) ltac:(now apply w_ascii) ltac:(now apply w_ascii) ltac:(discriminate)). unfold js, weight in B. lia.
Qed.
End Sizes.

Lemma char_bytes c : (c < 128)%N -> length (utf8_char c) = 1.
Proof. intros H. unfold utf8_char. now rewrite (proj2 (N.ltb_lt _ _) H). Qed.

(** The text of an object, of a list of primitives or of a table is never longer than its JSON text
    with the same indentation. *)
Theorem C69_not_longer_than_json :
  forall (st : num_style) (v : json) (indent : option nat) (delimiter : option char) (mode : option key_folding_mode) (depth : option N) (text : str),
    2 <= unwrap_or indent 2 -> (unwrap_or delimiter cCOMMA < 128)%N ->
    distinct_keys v -> filled v -> numbers (fits st) v ->
    (exists l, v = JObj l) \/ (exists p ps, v = JArr (map JPrim (p :: ps))) \/ (exists l fields rows, v = JArr l /\ table l fields rows) ->
    encode 0 v (Some (EncOpts indent delimiter mode depth None)) = Ok text ->
    length text <= length (concat (json_stringify_lines st v (unwrap_or indent 2))) /\
    length (utf8 text) <= length (utf8 (concat (json_stringify_lines st v (unwrap_or indent 2)))).
Proof.
  intros st v indent delimiter mode depth text Hi Hdl Hd Hf Hn Shape E. unfold encode in E.
  destruct (encode_lines 0 v _) as [ls|] eqn:El; [|discriminate]. injection E as <-.
  apply (C46_encoded_text v _ indent delimiter mode depth ls (normalize_spec v)) in El as (doc & D & ->).
  unfold json_stringify_lines. cbn [concat]. rewrite app_nil_r. split.
  - rewrite !char_size. eapply written_size; eauto. intros. lia.
  - rewrite !utf8_size. eapply (written_size (fun c => length (utf8_char c))); eauto using char_bytes.
    + intros c. unfold utf8_char. repeat match goal with |- context [if ?b then _ else _] => destruct b end; cbn; lia.
    + intros c. unfold utf8_char. repeat match goal with |- context [if ?b then _ else _] => destruct b end; cbn; lia.
Qed.
Print Assumptions C69_not_longer_than_json.

(** A number that the library prints without an exponent fits, when it takes the same one of two
    equally near decimals as Rust does. *)
Theorem C69_plain_numbers_fit :
  forall (scientific_from : Z -> bool) (plus : bool) (width : nat) (x : f64),
    (forall t, number_text (NumStyle scientific_from plus width (fun _ => true)) x = Some t -> ~ In cLE t) ->
    fits (NumStyle scientific_from plus width (fun _ => true)) x.
Proof.
  intros sc plus width x H Z t E. specialize (H t E). unfold number_text in E. unfold f64_to_string. unfold f64_is_zero in Z.
  destruct (f64_sf x) as [s|s| |s m e]; try discriminate. cbn [ns_half_up] in E. unfold shortest. destruct (shortest_by _ m e) as [c p].
  injection E as <-. rewrite !app_length. apply Nat.add_le_mono_l. cbn [ns_scientific] in *. destruct (sc _) eqn:Es.
  - exfalso. apply H. apply in_or_app. right. unfold scientific. destruct (dec_of_N_spec c) as (_ & _ & d & r & -> & _).
    right. apply in_or_app. right. now left.
  - destruct (p <? 0)%Z; [apply le_n|]. rewrite app_length. lia.
Qed.
Print Assumptions C69_plain_numbers_fit.

Definition plain_style : num_style := NumStyle (fun e => (16 <? e)%Z) true 2 (fun _ => true).
Definition number (s : str) : f64 := unwrap_or (parse_f64 s) f64_nan.
Definition one : f64 := number (lit "1").

(** An object with a table, a list and a quoted text: 68 characters instead of 171. *)
Example C69_case :
  let v := JObj [(lit "rows", JArr [JObj [(lit "id", JPrim (PNum one)); (lit "ok", JPrim (PBool true))];
                                   JObj [(lit "ok", JPrim PNull); (lit "id", JPrim (PStr (lit "x, y")))]]);
                 (lit "list", JArr [JPrim (PNum one); JObj []; JArr [JPrim (PStr (lit "a"))]])] in
  distinct_keys v /\ filled v /\ numbers (fits plain_style) v /\
  exists text, encode 0 v None = Ok text /\ length text = 68 /\ length (concat (json_stringify_lines plain_style v 2)) = 171.
Proof.
  assert (F : fits plain_style one) by (intros _ t E; vm_compute in E; injection E as <-; vm_compute; repeat constructor).
  cbv zeta. split; [|split; [|split]].
  - repeat first [apply dk_prim|apply dk_arr|apply dk_obj|apply Forall_nil|apply Forall_cons; cbn [snd]|apply NoDup_nil|apply NoDup_cons; [cbn; intuition discriminate|]|progress cbn [map fst]].
  - repeat first [apply fi_prim|apply fi_arr; [|cbn; intuition discriminate]|apply fi_obj|apply Forall_nil|apply Forall_cons; cbn [snd]].
  - repeat first [apply nu_num; exact F|apply nu_prim; discriminate|apply nu_arr|apply nu_obj|apply Forall_nil|apply Forall_cons; cbn [snd]].
  - eexists. split; [vm_compute; reflexivity|]. split; vm_compute; reflexivity.
Qed.

(** None of the conditions can be left out: empty arrays in an array, numbers written with an exponent,
    an array of values of several kinds at the root, no indentation (for one space the theorem says
    nothing). *)
Definition longer (st : num_style) (v : json) (indent : nat) : Prop :=
  exists text, encode 0 v (Some (EncOpts (Some indent) None None None None)) = Ok text /\
    length (concat (json_stringify_lines st v indent)) < length text.
Theorem C69_empty_arrays_refuted : longer plain_style (JObj [(lit "a", JArr (repeat (JArr []) 12))]) 2.
Proof. eexists. split; [vm_compute; reflexivity|]. vm_compute. repeat constructor. Qed.
Print Assumptions C69_empty_arrays_refuted.
Theorem C69_exponents_refuted : longer plain_style (JObj [(lit "a", JPrim (PNum (number (lit "1e30"))))]) 2.
Proof. eexists. split; [vm_compute; reflexivity|]. vm_compute. repeat constructor. Qed.
Print Assumptions C69_exponents_refuted.
Theorem C69_root_arrays_refuted : longer plain_style (JArr (JObj [] :: repeat (JPrim PNull) 12)) 2.
Proof. eexists. split; [vm_compute; reflexivity|]. vm_compute. repeat constructor. Qed.
Print Assumptions C69_root_arrays_refuted.
Theorem C69_no_indent_refuted : longer plain_style (JObj [(lit "a", JArr (JObj [] :: repeat (JPrim PNull) 12))]) 0.
Proof. eexists. split; [vm_compute; reflexivity|]. vm_compute. repeat constructor. Qed.
Print Assumptions C69_no_indent_refuted.
