(** Values of serde_json and the text wrappers: C38, C45; the grammar of the printed JSON: C34. *)
From Coq Require Import SpecFloat Permutation.
From Verif Require Import Chars Floats Json JsonInd JsonEq NumProof Shared EncPrim Normalize Folding Encoders Replacer EncodeApi
  Scanner Parser DecValidation Decoders EventBuilder Expand DecodeApi Fixtures Lex Spec DecRel DecProps Checkers RoundTrip PropsRoundTrip
  DecNums JsonText SpecJson JsonNumProof JsonTextProof JsonGrammar PropsJson SpecSerde Serde SerdeProof SerdeNum SerdeRead.

Local Open Scope nat_scope.

(** ** C34 again, against the grammar of RFC 8259 itself *)

Theorem C34_output_in_grammar :
  forall (st : num_style) (input : str) (o : option decode_options) (chunks : list str),
    decode_to_json_chunks st input o = Ok chunks ->
    exists t v, json_document (concat chunks) t /\ tree_value t = Some v /\ try_decode input o = Ok v.
Proof.
  intros st input o chunks H. destruct (C34_output_is_the_decoded_value st input o chunks H) as (v & Hv & Hj).
  unfold json_value in Hj. destruct (read_json (concat chunks)) as [t|] eqn:E; [|discriminate].
  exists t, v. split; [now apply read_json_spec|]. auto.
Qed.
Print Assumptions C34_output_in_grammar.

Example C34_grammar_case :
  let text := lit " { ""a"" : [ 1.5e1 , true ] }" in
  json_document text (TObj [(lit "a", TArr [TNum (lit "1.5e1"); TBool true])]) /\
  (forall t, ~ json_document (lit "[1,]") t) /\ (forall t, ~ json_document (lit "01") t) /\ (forall t, ~ json_document (lit "{a:1}") t).
Proof.
  split; [apply read_json_spec; vm_compute; reflexivity|].
  repeat apply conj; intros t H; apply read_json_spec in H; vm_compute in H; discriminate.
Qed.

(** ** C38: conversions *)

(** To serde_json and back: names that repeat keep the last value at the first place, numbers that
    JSON cannot express become null, negative zero becomes zero; nothing else changes. *)
Theorem C38_there_and_back : forall v : json, norm_json (last_wins v) (from_serde (to_serde v)).
Proof. exact to_from. Qed.
Print Assumptions C38_there_and_back.

Theorem C38_identity : forall v : json, canonical v -> distinct_keys v -> from_serde (to_serde v) = v.
Proof. intros v Hc Hd. pose proof (to_from v) as H. rewrite (last_wins_id v Hd) in H. now apply norm_json_id. Qed.
Print Assumptions C38_identity.

Example C38_identity_case :
  let v := JObj [(lit "b", jnum (lit "2.5")); (lit "a", JArr [JPrim PNull; JObj [(lit "b", JPrim (PStr (lit "x")))]])] in
  canonical v /\ distinct_keys v /\ from_serde (to_serde v) = v.
Proof.
  cbv zeta.
  assert (D : distinct_keys (JObj [(lit "b", jnum (lit "2.5")); (lit "a", JArr [JPrim PNull; JObj [(lit "b", JPrim (PStr (lit "x")))]])])).
  { apply distinctb_ok. vm_compute. reflexivity. }
  assert (C : canonical (JObj [(lit "b", jnum (lit "2.5")); (lit "a", JArr [JPrim PNull; JObj [(lit "b", JPrim (PStr (lit "x")))]])])).
  { constructor. constructor; [constructor; split; [reflexivity|discriminate]|]. constructor; [|constructor].
    constructor. constructor; [constructor; exact I|]. constructor; [|constructor]. constructor. constructor; [constructor; exact I|constructor]. }
  split; [exact C|]. split; [exact D|]. now apply C38_identity.
Qed.
(** Without the conditions it is not the identity: a repeated name, a negative zero. *)
Example C38_conditions_needed :
  from_serde (to_serde (JObj [(lit "a", JPrim PNull); (lit "b", JPrim (PBool true)); (lit "a", JPrim (PBool false))]))
    = JObj [(lit "a", JPrim (PBool false)); (lit "b", JPrim (PBool true))] /\
  from_serde (to_serde (JPrim (PNum f64_neg_zero))) = JPrim (PNum f64_zero).
Proof. split; vm_compute; reflexivity. Qed.

(** Names that repeat, spelled out. *)
Theorem C38_repeated_names :
  forall l : list (str * json), exists m, to_serde (JObj l) = SObj m /\
    NoDup (map fst m) /\ map fst m = first_names (map fst l) /\
    forall k s, In (k, s) m <-> exists v, last_of l k = Some v /\ s = to_serde v.
Proof.
  intros l. cbn [to_serde]. rewrite map_of_map, map_of_spec. eexists. split; [reflexivity|].
  rewrite map_pair_fst, unique_last_names. split; [apply first_names_nodup|]. split; [reflexivity|].
  intros k s. rewrite in_map_iff. split.
  - intros ([k' v] & E & H). injection E as -> <-. apply unique_last_in in H. eauto.
  - intros (v & H & ->). exists (k, v). split; [reflexivity|]. now apply unique_last_in.
Qed.
Print Assumptions C38_repeated_names.

(** Whatever serde_json value comes in, the result has only numbers JSON can express, and repeats a
    name only where the serde_json value did. *)
Theorem C38_from_serde_normal : forall s : sval, canonical (from_serde s) /\ normalize_json_value (from_serde s) = from_serde s.
Proof.
  assert (H : forall s, canonical (from_serde s)).
  { fix IH 1. intros [|b|n|t|l|l]; cbn [from_serde].
    - constructor; exact I.
    - constructor; exact I.
    - constructor. exact (norm_prim_json _ _ (from_f64_norm (as_f64 n))).
    - constructor; exact I.
    - constructor. induction l as [|x l IHl]; cbn [map]; constructor; [apply IH|exact IHl].
    - constructor. induction l as [|[k x] l IHl]; cbn [map]; constructor; [apply IH|exact IHl]. }
  intros s. split; [apply H|]. apply (norm_json_id (from_serde s)); [apply normalize_spec|apply H].
Qed.
Print Assumptions C38_from_serde_normal.

(** Integers: exact whenever there is a double that is the integer. *)
Theorem C38_integers_exact :
  forall (n : snum) (z : Z) (x : f64), n = SPos (Z.to_N z) /\ (0 <= z)%Z \/ n = SNeg z -> denotes x z ->
    exists y, from_serde (SNum n) = JPrim (PNum y) /\ denotes y z.
Proof.
  intros n z x Hn Hx. pose proof (denotes_exact x z Hx) as He.
  assert (E : as_f64 n = f64_of_Z z) by (destruct Hn as [[-> Hz]| ->]; cbn [as_f64]; [now rewrite Z2N.id by exact Hz|reflexivity]).
  cbn [from_serde]. rewrite E. unfold from_f64. rewrite (denotes_finite _ _ He). cbn [negb].
  destruct (f64_is_zero (f64_of_Z z)) eqn:Ez; [|eauto]. exists f64_zero. split; [reflexivity|].
  unfold f64_is_zero in Ez. unfold denotes in He. destruct (f64_sf (f64_of_Z z)); try discriminate. exact He.
Qed.
Print Assumptions C38_integers_exact.

Theorem C38_i64_exact : forall (z : Z) (x : f64), denotes x z -> exists y, json_from_i64 z = JPrim (PNum y) /\ denotes y z.
Proof. intros z x H. eexists. split; [reflexivity|]. eapply denotes_exact; eauto. Qed.
Print Assumptions C38_i64_exact.

(** A double becomes itself in normal form: null when it is not finite, one zero. *)
Theorem C38_f64 : forall x : f64, norm_json (JPrim (PNum x)) (json_from_f64 x) /\ canonical (json_from_f64 x).
Proof. intros x. split; constructor; [apply from_f64_norm|exact (norm_prim_json _ _ (from_f64_norm x))]. Qed.
Print Assumptions C38_f64.
Example C38_f64_case : json_from_f64 (f64_inf true) = JPrim PNull /\ json_from_f64 (f64_of_Z 5) = JPrim (PNum (f64_of_Z 5)).
Proof. split; vm_compute; reflexivity. Qed.

(** The double is the only one; and there is one for 53 bits with any shift that fits. *)
Theorem C38_integers_representable :
  (forall z : Z, (Z.abs z <= 2 ^ 53)%Z -> exists x, denotes x z) /\
  (forall (m k : Z) (s : bool), (0 < m < 2 ^ 53)%Z -> (0 <= k)%Z -> (Z.log2 m + k <= 1023)%Z ->
     exists x, denotes x ((if s then -1 else 1) * (m * 2 ^ k))) /\
  (forall x y z, denotes x z -> denotes y z -> z <> 0%Z -> x = y).
Proof.
  split; [exact representable_53|]. split; [|exact denotes_inj].
  intros m k s H1 H2 H3. exact (representable m k H1 H2 H3 s).
Qed.
Print Assumptions C38_integers_representable.

Example C38_integers_case :
  (exists x, denotes x 9007199254740992%Z) /\ (exists x, denotes x (-9223372036854775808)%Z) /\
  from_serde (SNum (SPos 9007199254740992)) = jnum (lit "9007199254740992") /\
  from_serde (SNum (SNeg (-9223372036854775808))) = jnum (lit "-9223372036854775808").
Proof.
  split; [apply representable_53; lia|]. split.
  - destruct (representable 1 63 ltac:(lia) ltac:(lia) ltac:(cbn; lia) true) as [x Hx]. exists x. exact Hx.
  - split; vm_compute; reflexivity.
Qed.

(** Not exact beyond: two integers that serde_json tells apart become one value, and the text of the
    second says so. *)
Theorem C38_large_integers_refuted :
  ~ (forall n m : N, from_serde (SNum (SPos n)) = from_serde (SNum (SPos m)) -> n = m) /\
  forall rf, json_to_toon rf (lit "9007199254740993") = Ok (lit "9007199254740992").
Proof.
  split; [|intros rf; vm_compute; reflexivity].
  intros H. assert (E : 9007199254740993%N = 9007199254740992%N) by (apply H; vm_compute; reflexivity). discriminate.
Qed.
Print Assumptions C38_large_integers_refuted.

(** ** C45: the text wrappers *)

Lemma jequiv_distinct v : forall w, jequiv v w -> distinct_keys v -> distinct_keys w.
Proof.
  induction v as [p|l IH|l IH] using json_ind'; intros w H Hd; inversion H as [|? m F|? l' m P F]; subst;
    inversion Hd as [|? Hl|? Hn Hl]; subst; constructor.
  - clear H Hd. revert IH Hl. induction F as [|a b l m Hab _ IHF]; intros IH Hl; constructor; inversion IH; inversion Hl; subst; auto.
  - assert (E : map fst m = map fst l').
    { clear - F. induction F as [|a b l' m [E _] _ IHF]; [reflexivity|]. cbn [map]. now rewrite E, IHF. }
    rewrite E. eapply Permutation_NoDup; [apply Permutation_map; exact P|exact Hn].
  - assert (IH' : Forall (fun kv => forall w, jequiv (snd kv) w -> distinct_keys w) l').
    { eapply Permutation_Forall; [exact P|]. rewrite Forall_forall in *. intros x Hx w Hw. eapply IH; eauto. }
    clear - F IH'. induction F as [|a b l' m [E Hab] _ IHF]; constructor; inversion IH'; subst; eauto.
Qed.

Section Wrappers.
Variable rf : str -> option f64.

(** JSON to TOON: accepted exactly if the text is JSON, nested at most 127 deep, with numbers that
    can be read; and then the output is the encoding of the value of the text. *)
Theorem C45_json_to_toon :
  forall (fuel : nat) (text : str) (eo : option encode_options),
    (exists t v n, json_document text t /\ nesting t <= 127 /\ value_with (reading rf) t = Some v /\
       norm_json (last_wins v) n /\ encode_to_toon_lines rf fuel text eo = encode_lines fuel n eo) \/
    (encode_to_toon_lines rf fuel text eo = Err EJsonParse /\
     forall t v, json_document text t -> nesting t <= 127 -> value_with (reading rf) t <> Some v).
Proof.
  intros fuel text eo. pose proof (serde_from_str_spec rf text) as H. unfold encode_to_toon_lines.
  destruct (serde_from_str rf text) as [s|].
  - left. destruct H as (t & v & H1 & H2 & H3 & H4). exists t, v, (from_serde s). auto.
  - right. split; [reflexivity|]. intros t v Ht Hn E. rewrite (H t Ht Hn) in E. discriminate.
Qed.
(** The library wrapper is the same with default options. *)
Theorem C45_wrapper_is_tool :
  forall text : str, json_to_toon rf text =
    match encode_to_toon_lines rf 0 text None with Ok ls => Ok (join cLF ls) | Err e => Err e end.
Proof. intros text. unfold json_to_toon, encode_to_toon_lines. destruct (serde_from_str rf text); [apply C42_encode_is_joined_lines|reflexivity]. Qed.

(** TOON to JSON: fails exactly if decoding fails; what is printed reads as the decoded value, with
    the last value of repeated names. *)
Theorem C45_toon_to_json :
  forall (st : num_style) (toon : str),
    match toon_to_json st toon with
    | Ok text => exists v, try_decode toon None = Ok v /\ json_value text = Some (last_wins v)
    | Err e => try_decode toon None = Err e
    end.
Proof.
  intros st toon. unfold toon_to_json. destruct (try_decode toon None) as [v|e] eqn:E; cbn [bind]; [|reflexivity].
  exists v. split; [reflexivity|]. rewrite (serde_text st v 0), json_value_text by exact serde_reads_back.
  f_equal. apply canonical_finite. apply last_wins_canonical. eapply C28_decoded_numbers; eauto.
Qed.

(** JSON to TOON to JSON: the same value, up to the order of members in rows of tables; exactly the
    same value if the rows of tables list their members in one order. *)
Theorem C45_json_round_trip :
  forall (st : num_style) (text : str) (t : jtree) (v : json),
    json_document text t -> nesting t <= 127 -> value_with (reading rf) t = Some v -> portable (last_wins v) ->
    exists toon text' n w,
      json_to_toon rf text = Ok toon /\ toon_to_json st toon = Ok text' /\
      norm_json (last_wins v) n /\ json_value text' = Some w /\ jequiv n w /\ (uniform n -> w = n).
Proof.
  intros st text t v Ht Hn Hv Hp. pose proof (serde_from_str_spec rf text) as H. unfold json_to_toon.
  destruct (serde_from_str rf text) as [s|]; [|rewrite (H t Ht Hn) in Hv; discriminate].
  destruct H as (t' & v' & Ht' & _ & Hv' & Hs). rewrite (json_document_fun _ _ _ Ht' Ht) in Hv'. rewrite Hv in Hv'. injection Hv' as <-.
  set (n := from_serde s) in *.
  assert (Hd : distinct_keys n) by (eapply norm_distinct; [exact Hs|apply last_wins_distinct]).
  assert (Hpn : portable n) by (eapply norm_portable; eauto).
  assert (Hpl : plain_options None) by (repeat split; try discriminate; left; reflexivity).
  assert (Hm : matching_options None None) by (split; reflexivity).
  destruct (C01_round_trip 0 n None None Hpl Hm Hd Hpn) as (toon & n' & w & E & Hn' & D & Hw).
  rewrite (norm_json_id n n' Hn' (proj1 (C38_from_serde_normal s))) in Hw. clear n' Hn'.
  pose proof (table_ordered_jequiv _ _ Hw) as Hj.
  assert (Hdw : distinct_keys w) by (eapply jequiv_distinct; eauto).
  unfold toon_to_json. exists toon. rewrite D. cbn [bind]. exists (serde_to_string st (to_serde w)), n, w.
  split; [exact E|]. split; [reflexivity|]. split; [exact Hs|].
  split; [|split; [exact Hj|]].
  - rewrite (serde_text st w 0), json_value_text by exact serde_reads_back. f_equal. rewrite (last_wins_id w Hdw).
    apply canonical_finite. eapply C28_decoded_numbers; eauto.
  - intros Hu. now apply table_ordered_uniform.
Qed.
End Wrappers.
Print Assumptions C45_json_to_toon.
Print Assumptions C45_wrapper_is_tool.
Print Assumptions C45_toon_to_json.
Print Assumptions C45_json_round_trip.

Example C45_round_trip_case :
  let text := lit "{""a"": [{""x"": 1, ""y"": ""z""}, {""x"": -2, ""y"": null}], ""a b"": {""k"": -0}}" in
  exists t v, json_document text t /\ nesting t <= 127 /\ value_with (reading (fun _ => None)) t = Some v /\ portable (last_wins v) /\
    (let? toon := json_to_toon (fun _ => None) text in toon_to_json usual_style toon)
    = Ok (lit "{""a"":[{""x"":1.0,""y"":""z""},{""x"":-2.0,""y"":null}],""a b"":{""k"":0.0}}").
Proof.
  cbv zeta. do 2 eexists. split; [apply read_json_spec; vm_compute; reflexivity|]. split; [apply Nat.leb_le; vm_compute; reflexivity|].
  split; [vm_compute; reflexivity|]. split; [apply portableb_ok; [apply last_wins_distinct|vm_compute; reflexivity]|]. vm_compute. reflexivity.
Qed.

(** The wrapper and the tool print the same value only if names do not repeat: the tool prints every
    member, the wrapper the last one. *)
Theorem C45_wrapper_and_tool_agree :
  forall (st : num_style) (toon text : str) (chunks : list str) (v : json),
    toon_to_json st toon = Ok text -> decode_to_json_chunks st toon None = Ok chunks -> try_decode toon None = Ok v ->
    (json_value text = json_value (concat chunks) <-> distinct_keys v).
Proof.
  intros st toon text chunks v Ht Hc Hv. pose proof (C45_toon_to_json st toon) as H. rewrite Ht in H. destruct H as (v1 & H1 & ->).
  destruct (C34_output_is_the_decoded_value st toon None chunks Hc) as (v2 & H2 & ->).
  assert (v1 = v) by congruence. assert (v2 = v) by congruence. subst. split.
  - intros E. injection E as E. rewrite <- E. apply last_wins_distinct.
  - intros Hd. now rewrite last_wins_id.
Qed.
Print Assumptions C45_wrapper_and_tool_agree.

Theorem C45_repeated_names_lost_refuted :
  ~ (forall st toon text v, toon_to_json st toon = Ok text -> try_decode toon None = Ok v -> json_value text = Some v).
Proof.
  intros H. specialize (H usual_style (lit "a: 1
a: 2") (lit "{""a"":2.0}") (JObj [(lit "a", jnum (lit "1")); (lit "a", jnum (lit "2"))])).
  assert (E : json_value (lit "{""a"":2.0}") = Some (JObj [(lit "a", jnum (lit "1")); (lit "a", jnum (lit "2"))])).
  { apply H; vm_compute; reflexivity. }
  vm_compute in E. discriminate.
Qed.
Print Assumptions C45_repeated_names_lost_refuted.
