(** Strings and the JavaScript bindings, with folding and expansion: C07, C50. *)
From Coq Require Import SpecFloat.
From Verif Require Import Chars Floats Json JsonInd JsonEq NumProof Shared EncPrim Normalize Folding Encoders Replacer EncodeApi
  Scanner Parser DecValidation Decoders EventBuilder Expand DecodeApi Fixtures Lex Spec DecRel DecProps Checkers RoundTrip PropsRoundTrip
  DecNums JsonText SpecJson JsonNumProof JsonTextProof JsonGrammar PropsJson SpecSerde Serde SerdeProof SerdeNum SerdeRead PropsSerde
  Wasm SpecWasm PropsWasm Layout LayEnc LayFacts EncTotal WrittenProps ExpandProof ExpandProps FoldProps PropsFold RefoldProof PropsRefold PropsTool PropsToolFold.
Local Open Scope nat_scope.

(** * C07 *)
Lemma shape_undotted v : forall v', same_shape v v' -> undotted v -> undotted v'.
Proof.
  induction v as [p|l F|l F] using json_ind'; intros v' S U; inversion S as [| |? m F2|? m F2]; subst; try constructor.
  - inversion U as [|? Ul|]; subst. clear U S. induction F2; inversion F; inversion Ul; subst; constructor; auto.
  - inversion U as [| |? Uk Ul]; subst. clear - F2 Uk. induction F2 as [|a b l m [E _]]; inversion Uk; subst; constructor; auto. now rewrite <- E.
  - inversion U as [| |? Uk Ul]; subst. clear - F F2 Ul. induction F2 as [|a b l m [_ E]]; inversion F; inversion Ul; subst; constructor; auto.
Qed.
Lemma shape_levels v : forall v', same_shape v v' -> levels v' = levels v.
Proof.
  induction v as [p|l F|l F] using json_ind'; intros v' S; inversion S as [| |? m F2|? m F2]; subst; try reflexivity; cbn [levels]; do 2 f_equal.
  - clear S. induction F2; inversion F; subst; cbn [map]; f_equal; auto.
  - f_equal. clear S. induction F2 as [|a b l m [_ E]]; inversion F; subst; cbn [map]; f_equal; auto.
Qed.
(** Changing strings only changes strings of what comes back, with folding and expansion too. *)
Theorem C07_strings_keep_structure_folded :
  forall (fuel : nat) (v v' : json) (eo : option encode_options) (d : option decode_options),
    folding_options eo -> expanding_options eo d -> distinct_keys v -> guarded v -> undotted v -> levels v <= 256 -> same_shape v v' ->
    exists text w text' w',
      encode fuel v eo = Ok text /\ try_decode text d = Ok w /\
      encode fuel v' eo = Ok text' /\ try_decode text' d = Ok w' /\ same_shape w w'.
Proof.
  intros fuel v v' eo d Ho Hm Hk Hg Hu Hl Hs.
  assert (Hk' : distinct_keys v') by (eapply shape_distinct; eauto).
  assert (Hp : portable v) by now apply guarded_portable.
  assert (Hp' : portable v') by (apply guarded_portable; eapply guarded_shape; eauto).
  assert (C : carries eo d) by (right; right; auto).
  destruct (carried fuel v eo d C Hk Hp Hu Hl) as (t & w & E & D & W).
  destruct (carried fuel v' eo d C Hk' Hp' (shape_undotted _ _ Hs Hu)) as (t' & w' & E' & D' & W').
  { now rewrite (shape_levels _ _ Hs). }
  exists t, w, t', w'. repeat (split; [assumption|]). eapply written_shape; [exact W| |exact W']. now apply shape_norm.
Qed.
Print Assumptions C07_strings_keep_structure_folded.

(** * C50 *)
Section Bindings.
Variable rf : str -> option f64.
Variable st : num_style.
Theorem C50_round_trip_folded :
  forall (text : str) (t : jtree) (v : json) (j1 j2 : jsval) get1 get2 (r1 : renc_options) (r2 : rdec_options),
    json_document text t -> nesting t <= 127 -> value_with (reading rf) t = Some v -> portable (last_wins v) -> undotted (last_wins v) ->
    settings j1 get1 -> says_encode get1 r1 -> settings j2 get2 -> says_decode get2 r2 ->
    std_delim (ro_delimiter r1) -> ro_indent r1 <> 0 -> rd_indent r2 = ro_indent r1 -> rd_expand r2 = EPSafe ->
    exists toon text' n w,
      wasm_encode_with_options rf text j1 = Returns toon /\ wasm_decode_with_options st toon j2 = Returns text' /\
      norm_json (last_wins v) n /\ json_value text' = Some w /\ jequiv n w /\ (uniform n -> w = n).
Proof.
  intros text t v j1 j2 get1 get2 r1 r2 Ht Hn Hv Hp Hu0 S1 Y1 S2 Y2 D I M X.
  destruct (parse_encode_says j1 get1 S1) as (o1 & P1 & Z1). destruct (parse_decode_says j2 get2 S2) as (o2 & P2 & Z2).
  pose proof (says_encode_fun _ _ _ Y1 Z1) as E1. pose proof (says_decode_fun _ _ _ Y2 Z2) as E2. subst r1 r2.
  pose proof (serde_from_str_spec rf text) as H. unfold wasm_encode_with_options.
  destruct (serde_from_str rf text) as [s|]; [|rewrite (H t Ht Hn) in Hv; discriminate].
  destruct H as (t' & v' & Ht' & _ & Hv' & Hs). rewrite (json_document_fun _ _ _ Ht' Ht) in Hv'. rewrite Hv in Hv'. injection Hv' as <-.
  set (n := from_serde s) in *.
  assert (Hd : distinct_keys n) by (eapply norm_distinct; [exact Hs|apply last_wins_distinct]).
  assert (Hpn : portable n) by (eapply norm_portable; eauto).
  assert (Hun : undotted n) by (eapply norm_undotted; eauto).
  assert (Hlv : levels n <= 256).
  { rewrite (norm_levels _ _ Hs). pose proof (last_wins_levels v). pose proof (value_levels _ _ _ Hv). lia. }
  assert (R : ro_replacer (resolve_encode_options o1) = None) by apply Z1.
  assert (Hc : carries o1 o2).
  { right. unfold plain_options, folding_options. destruct (ro_key_folding (resolve_encode_options o1)); [left|right]; repeat split; auto. }
  destruct (carried 0 n o1 o2 Hc Hd Hpn Hun Hlv) as (toon & w & E & Dw & Wr).
  rewrite (norm_json_id n _ (normalize_spec n) (proj1 (C38_from_serde_normal s))) in Wr.
  assert (Hw : table_ordered n w) by (eapply written_ordered; eauto).
  pose proof (table_ordered_jequiv _ _ Hw) as Hj.
  assert (Hdw : distinct_keys w) by (eapply jequiv_distinct; eauto).
  rewrite P1. unfold run_encode. rewrite E. unfold wasm_decode_with_options. exists toon. rewrite P2. unfold run_decode. rewrite Dw.
  exists (serde_to_string st (to_serde w)), n, w. split; [reflexivity|]. split; [reflexivity|]. split; [exact Hs|].
  split; [|split; [exact Hj|]].
  - rewrite (serde_text st w 0), json_value_text by exact serde_reads_back. f_equal. rewrite (last_wins_id w Hdw).
    apply canonical_finite. eapply C28_decoded_numbers; eauto.
  - intros Hu. now apply table_ordered_uniform.
Qed.
End Bindings.
Print Assumptions C50_round_trip_folded.

Definition shape_case (s1 s2 : str) : json :=
  JObj [(lit "a", JObj [(lit "b", JArr [JPrim (PStr s1); jnum (lit "1")])]); (lit "list", JArr [JPrim (PStr s2); JArr []])].
(** Strings that look like other parts of a text, below folded keys. *)
Example C07_folded_case :
  let eo := Some (EncOpts None None (Some KFSafe) None None) in let d := Some (DecOpts None None (Some EPSafe)) in
  let v := shape_case (lit "x") (lit "y") in let v' := shape_case (lit "c.d: [2]") (lit "- k: 1") in
  folding_options eo /\ expanding_options eo d /\ distinct_keys v /\ guarded v /\ undotted v /\ levels v <= 256 /\ same_shape v v' /\
  encode 0 v' eo = Ok (lit "a.b[2]: ""c.d: [2]"",1
list[2]:
  - ""- k: 1""
  - [0]:") /\
  (let? t := encode 0 v eo in try_decode t d) = Ok v /\ (let? t := encode 0 v' eo in try_decode t d) = Ok v'.
Proof.
  cbv zeta. split; [repeat split; try discriminate; left; reflexivity|]. split; [split; reflexivity|].
  assert (D : distinct_keys (shape_case (lit "x") (lit "y"))) by (apply distinctb_ok; vm_compute; reflexivity).
  split; [exact D|]. split; [apply guardedb_ok; auto|]. split; [apply undottedb_ok; reflexivity|]. split; [apply Nat.leb_le; vm_compute; reflexivity|].
  split; [repeat (constructor || split)|]. repeat split; vm_compute; reflexivity.
Qed.

Definition folding_settings : jsval := object [(lit "keyFolding", JsStr (lit "safe"))].
Definition expanding_settings : jsval := object [(lit "expandPaths", JsStr (lit "safe"))].
Definition folding_json : str := lit "{""a"": {""b"": {""c"": [""x.y"", null]}}, ""d"": {""e"": true}}".
Example C50_folded_case :
  (exists t v get1 get2 r1 r2,
    json_document folding_json t /\ nesting t <= 127 /\ value_with (reading (fun _ => None)) t = Some v /\ portable (last_wins v) /\ undotted (last_wins v) /\
    settings folding_settings get1 /\ says_encode get1 r1 /\ settings expanding_settings get2 /\ says_decode get2 r2 /\
    std_delim (ro_delimiter r1) /\ ro_indent r1 <> 0 /\ rd_indent r2 = ro_indent r1 /\ rd_expand r2 = EPSafe) /\
  wasm_encode_with_options (fun _ => None) folding_json folding_settings = Returns (lit "a.b.c[2]: x.y,null
d.e: true") /\
  wasm_decode_with_options usual_style (lit "a.b.c[2]: x.y,null
d.e: true") expanding_settings = Returns (lit "{""a"":{""b"":{""c"":[""x.y"",null]}},""d"":{""e"":true}}").
Proof.
  split; [|split; vm_compute; reflexivity].
  do 2 eexists.
  destruct (parse_encode_says folding_settings _ (set_object _)) as (o1 & E1 & H1).
  destruct (parse_decode_says expanding_settings _ (set_object _)) as (o2 & E2 & H2).
  do 4 eexists.
  split; [apply read_json_spec; vm_compute; reflexivity|]. split; [apply Nat.leb_le; vm_compute; reflexivity|].
  split; [vm_compute; reflexivity|]. split; [apply portableb_ok; [apply last_wins_distinct|vm_compute; reflexivity]|].
  split; [apply undottedb_ok; vm_compute; reflexivity|].
  split; [apply set_object|]. split; [exact H1|]. split; [apply set_object|]. split; [exact H2|].
  vm_compute in E1. injection E1 as <-. vm_compute in E2. injection E2 as <-.
  split; [left; reflexivity|]. split; [discriminate|]. split; reflexivity.
Qed.
