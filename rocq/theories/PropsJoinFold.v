(** Folded texts that stand one after the other: C62. *)
From Verif Require Import Chars Floats Json JsonInd JsonEq NumProof Shared EncPrim Normalize Folding Encoders Replacer EncodeApi
  Scanner Parser DecValidation Decoders EventBuilder Expand DecodeApi Fixtures Lex Spec DecRel DecProps Checkers RoundTrip PropsRoundTrip
  Layout LayEnc LayFacts EncTotal WrittenProps ExpandProof ExpandProps FoldProps PropsFold RefoldProof PropsRefold.
Local Open Scope nat_scope.

Lemma folded_layout fuel v eo : folding_options eo -> distinct_keys v -> portable v ->
  exists abs w, encode_lines fuel v eo = Ok (map (render (ro_indent (resolve_encode_options eo))) abs) /\
    lay_root True (ro_delimiter (resolve_encode_options eo)) w abs /\ written true true (normalize_json_value v) w.
Proof.
  intros (Hf & Hr & Hd & Hi) Hk Hp. unfold encode_lines, prepare. cbv zeta. rewrite Hr. cbn [bind].
  set (o := resolve_encode_options eo) in *.
  destruct (encode_json_value_total (normalize_json_value v) o) as [ls E]. rewrite E.
  assert (Hg : good True true (normalize_json_value v)).
  { intros _. pose proof (normalize_spec v) as Hn. split; [eapply norm_distinct; eauto|].
    split; [eapply norm_portable; eauto|eapply norm_canonical; eauto]. }
  destruct (json_value_lay True o _ _ E Hg Hd) as (w & abs & L & -> & W).
  unfold folding in W. rewrite Hf in W. exists abs, w. auto.
Qed.

Lemma lay_fields_app G dl d l2 ls2 : lay_fields G dl d l2 ls2 -> forall l1 ls1, lay_fields G dl d l1 ls1 -> lay_fields G dl d (l1 ++ l2) (ls1 ++ ls2).
Proof.
  intros H2. induction l1 as [|kv l1 IH]; intros ls1 H1; inversion H1; subst; [exact H2|].
  rewrite <- app_assoc. cbn [app]. constructor; auto.
Qed.
Lemma fields_app f sibs l2 m2 : written_fields f sibs l2 m2 -> forall l1 m1, written_fields f sibs l1 m1 -> written_fields f sibs (l1 ++ l2) (m1 ++ m2).
Proof. intros H2. induction l1 as [|a l1 IH]; intros m1 H1; inversion H1; subst; cbn [app]; [exact H2|]. constructor; auto. Qed.
(** A folded key is a dotted path, so no key of another object that is none is in its way. *)
Lemma fields_siblings sibs' : Forall (fun k => forall segs, ~ dotted k segs) sibs' ->
  forall sibs l m, written_fields true sibs l m -> written_fields true sibs' l m.
Proof.
  intros U sibs. induction l as [|a l IH]; intros m H; inversion H as [|? ? b ? m' Hf Hr]; subst; constructor; auto.
  inversion Hf as [|? k v ks leaf w F Hne Hc Hi Hs W]; subst; [now constructor|]. apply wf_fold with leaf; auto.
  intros I. rewrite Forall_forall in U. apply (U _ I (k :: ks)). split; auto. split; [destruct ks; [congruence|cbn; lia]|].
  eapply Forall_impl; [|exact Hi]. intros s. apply identifier_spec.
Qed.
Lemma fields_split f sibs sibs1 sibs2 : f = false -> forall l1 l2 m, written_fields f sibs (l1 ++ l2) m ->
  exists m1 m2, m = m1 ++ m2 /\ written_fields f sibs1 l1 m1 /\ written_fields f sibs2 l2 m2.
Proof.
  intros ->. assert (Any : forall s s' l m, written_fields false s l m -> written_fields false s' l m).
  { intros s s'. induction l as [|a l IH]; intros m H; inversion H as [|? ? b ? m' Hf Hr]; subst; constructor; auto.
    inversion Hf; subst; [now constructor|discriminate]. }
  induction l1 as [|a l1 IH]; intros l2 m H.
  - exists [], m. split; [reflexivity|]. split; [constructor|eauto].
  - cbn [app] in H. inversion H as [|? ? b ? m' Hf Hr]; subst. destruct (IH _ _ Hr) as (m1 & m2 & -> & H1 & H2).
    exists (b :: m1), m2. split; [reflexivity|]. split; [|exact H2]. constructor; [|exact H1]. inversion Hf; subst; [now constructor|discriminate].
Qed.

Lemma undotted_app a b : undotted (JObj (a ++ b)) -> undotted (JObj a) /\ undotted (JObj b).
Proof. intros H. inversion H as [| |? K U]; subst. apply Forall_app in K as [K1 K2]. apply Forall_app in U as [U1 U2]. split; constructor; auto. Qed.
Lemma nodup_app {A} (l m : list A) : NoDup (l ++ m) -> NoDup l /\ NoDup m.
Proof.
  induction l as [|x l IH]; cbn [app]; intros H; [split; [constructor|exact H]|]. inversion H as [|? ? N R]; subst. destruct (IH R) as [I1 I2].
  split; [|exact I2]. constructor; [|exact I1]. intros I. apply N, in_or_app. now left.
Qed.
Lemma distinct_app a b : distinct_keys (JObj (a ++ b)) -> distinct_keys (JObj a) /\ distinct_keys (JObj b).
Proof.
  intros H. inversion H as [| |? K U]; subst. apply Forall_app in U as [U1 U2]. rewrite map_app in K. apply nodup_app in K as [K1 K2].
  split; constructor; auto.
Qed.
Lemma levels_app a b : levels (JObj a) <= levels (JObj (a ++ b)) /\ levels (JObj b) <= levels (JObj (a ++ b)).
Proof. cbn [levels]. rewrite map_app, list_max_app. lia. Qed.

(** The folded texts of two objects without a common key, one after the other, expand to the members
    of the first and then those of the second. *)
Theorem C62_written_texts_folded :
  forall (fuel : nat) (a b : list (str * json)) (eo : option encode_options) (d : option decode_options) (la lb : list str),
    folding_options eo -> expanding_options eo d ->
    distinct_keys (JObj (a ++ b)) -> portable (JObj a) -> portable (JObj b) -> undotted (JObj (a ++ b)) -> levels (JObj (a ++ b)) <= 256 ->
    encode_lines fuel (JObj a) eo = Ok la -> encode_lines fuel (JObj b) eo = Ok lb ->
    exists wa wb, try_decode_from_lines la d = Ok (JObj wa) /\ try_decode_from_lines lb d = Ok (JObj wb) /\
      try_decode_from_lines (la ++ lb) d = Ok (JObj (wa ++ wb)).
Proof.
  intros fuel a b eo d la lb Ho [Hi He] Hk Pa Pb Hu Hl Ea Eb.
  destruct (distinct_app _ _ Hk) as [Ka Kb]. destruct (undotted_app _ _ Hu) as [Ua Ub]. destruct (levels_app a b) as [La Lb].
  destruct (folded_layout fuel _ eo Ho Ka Pa) as (absa & xa & Ea' & Ya & Wa). rewrite Ea in Ea'. injection Ea' as ->.
  destruct (folded_layout fuel _ eo Ho Kb Pb) as (absb & xb & Eb' & Yb & Wb). rewrite Eb in Eb'. injection Eb' as ->.
  destruct Ho as (_ & _ & Hd & H0).
  set (norm := fun kv : str * json => (fst kv, normalize_json_value (snd kv))).
  assert (Na : forall l, normalize_json_value (JObj l) = JObj (map norm l)).
  { reflexivity. }
  pose proof (normalize_spec (JObj (a ++ b))) as Hn. rewrite Na in Hn, Wa, Wb. rewrite map_app in Hn.
  assert (Hkn := norm_distinct _ _ Hn Hk). assert (Hun := norm_undotted _ _ Hn Hu). assert (Hln := norm_levels _ _ Hn). rewrite <- Hln in Hl.
  set (na := map norm a) in *. set (nb := map norm b) in *. clearbody na nb. clear Hn Hln Na norm.
  destruct (distinct_app _ _ Hkn) as [Kna Knb]. destruct (undotted_app _ _ Hun) as [Una Unb]. destruct (levels_app na nb) as [Lna Lnb].
  inversion Wa as [| | |? ? ma Fa|]; subst. inversion Wb as [| | |? ? mb Fb|]; subst.
  assert (Ks : Forall (fun k => forall segs, ~ dotted k segs) (map fst (na ++ nb))) by (inversion Hun; subst; now apply Forall_map).
  assert (W : written true true (JObj (na ++ nb)) (JObj (ma ++ mb))).
  { apply wr_obj. apply fields_app; eapply fields_siblings; eauto. }
  assert (Y : lay_root True (ro_delimiter (resolve_encode_options eo)) (JObj (ma ++ mb)) (absa ++ absb)).
  { inversion Ya; subst. inversion Yb; subst. apply lr_obj. now apply lay_fields_app. }
  assert (R : forall n m abs, lay_root True (ro_delimiter (resolve_encode_options eo)) (JObj m) abs -> written true true (JObj n) (JObj m) ->
    distinct_keys (JObj n) -> undotted (JObj n) -> levels (JObj n) <= 256 ->
    exists r, try_decode_from_lines (map (render (ro_indent (resolve_encode_options eo))) abs) d = Ok (JObj r) /\ written_fields false (map fst n) n r).
  { intros n m abs Y' W' K' U' L'. destruct (fold_expand_safe _ _ (rd_strict (resolve_decode_options d)) W' K' U' L') as (r & Er & Wr).
    remember (node_to_json r) as z eqn:Ez. inversion Wr as [| | |? ? w Fw|]; subst. exists w. split; [|exact Fw].
    unfold try_decode_from_lines. cbv zeta. rewrite Hi, He, (layout_decodes _ _ _ _ _ Hd H0 Y'). cbn [bind].
    rewrite (spells_node _ _ (emit_spells (JObj m))). cbn [bind]. rewrite Er. cbn [bind]. now f_equal. }
  destruct (R _ _ _ Ya Wa Kna Una ltac:(lia)) as (wa & Da & Ra). destruct (R _ _ _ Yb Wb Knb Unb ltac:(lia)) as (wb & Db & Rb).
  destruct (R _ _ _ Y W Hkn Hun Hl) as (w & Dw & Rw). rewrite map_app in Dw.
  destruct (fields_split false _ (map fst na) (map fst nb) eq_refl _ _ _ Rw) as (w1 & w2 & -> & R1 & R2).
  exists wa, wb. split; [exact Da|]. split; [exact Db|]. etransitivity; [exact Dw|]. do 2 f_equal.
  rewrite (proj1 (proj2 (proj2 written_fun)) _ _ _ Ra _ _ R1), (proj1 (proj2 (proj2 written_fun)) _ _ _ Rb _ _ R2). reflexivity.
Qed.
Print Assumptions C62_written_texts_folded.

(** The second object has a chain whose folded key starts like nothing in the first. *)
Example C62_folded_case :
  let eo := Some (EncOpts None None (Some KFSafe) None None) in let d := Some (DecOpts None None (Some EPSafe)) in
  let a := [(lit "a", JObj [(lit "b", JPrim PNull)]); (lit "x y", JPrim (PBool true))] in
  let b := [(lit "c", JObj [(lit "a", JObj [(lit "b", JArr [])])]); (lit "d", JObj [])] in
  folding_options eo /\ expanding_options eo d /\ distinct_keys (JObj (a ++ b)) /\ portable (JObj a) /\ portable (JObj b) /\
  undotted (JObj (a ++ b)) /\ levels (JObj (a ++ b)) <= 256 /\
  encode_lines 0 (JObj a) eo = Ok [lit "a.b: null"; lit """x y"": true"] /\ encode_lines 0 (JObj b) eo = Ok [lit "c.a.b[0]:"; lit "d:"] /\
  try_decode_from_lines [lit "a.b: null"; lit """x y"": true"; lit "c.a.b[0]:"; lit "d:"] d = Ok (JObj (a ++ b)).
Proof.
  cbv zeta. split; [repeat split; try discriminate; left; reflexivity|]. split; [split; reflexivity|].
  split; [apply distinctb_ok; vm_compute; reflexivity|].
  split; [apply portableb_ok; [apply distinctb_ok|]; vm_compute; reflexivity|]. split; [apply portableb_ok; [apply distinctb_ok|]; vm_compute; reflexivity|].
  split; [apply undottedb_ok; reflexivity|]. split; [apply Nat.leb_le; vm_compute; reflexivity|]. repeat split; vm_compute; reflexivity.
Qed.
(** Objects that share a key need not go together: in strict mode the texts contradict each other. *)
Example C62_folded_shared :
  try_decode_from_lines [lit "a.b: null"; lit "a: 1"] (Some (DecOpts None None (Some EPSafe))) = Err (EExpandConflict (CKey (lit "a") KObj KPrim)).
Proof. vm_compute. reflexivity. Qed.
