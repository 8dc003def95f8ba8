(** C62: texts that stand one after the other. *)
From Verif Require Import Chars Floats Json JsonInd JsonEq Shared EncPrim ParseProof LayEnc Normalize Encoders EncodeApi Scanner Parser DecValidation
  Decoders EventBuilder Expand DecodeApi Lex Spec DecProps DecRel EncTotal RoundTrip
  SpecText TextProof PropsText SpecRead ReadLex ReadHead ReadLine ReadProof SpecError ErrLex ErrProof SpecCut PropsUnread PropsRoundTrip CutProof SpecJoin JoinProof PropsCut Checkers.

Local Open Scope nat_scope.

(** What lines that start unindented give after an object does not depend on the object: either they
    are so many more members, after any object, or the same fault, with the number of its line
    counted from the start of the whole. *)
Theorem C62_what_follows :
  forall (b : list str) (indent : option nat) (strict : option bool) (expand : option expand_paths_mode),
    expand <> Some EPSafe -> starts_unindented b ->
    let decode := fun lines => try_decode_from_lines lines (Some (DecOpts indent strict expand)) in
    (exists vb, forall a va, needed decode a (JObj va) -> decode (a ++ b) = Ok (JObj (va ++ vb))) \/
    (exists e, forall a va, needed decode a (JObj va) -> decode (a ++ b) = Err (moved (length a) e)).
Proof.
  intros b indent strict expand He Ub decode. set (d := Some (DecOpts indent strict expand)) in *.
  assert (Ee : rd_expand (resolve_decode_options d) = EPOff) by (unfold d; destruct expand as [[|]|]; cbn; congruence).
  destruct (scans_total (rd_strict (resolve_decode_options d)) (rd_indent (resolve_decode_options d)) b) as [(S & e & F)|(ls & bs & Sb)].
  - right. exists e. intros a va H. eapply fault_moved; eauto.
  - destruct (members_total _ _ _ _ _ Sb) as [(ms & rest & M)|(e & F)].
    + left. exists (map mj ms). intros a va H. eapply members_after; eauto.
    + right. exists e. intros a va H. eapply failure_after; eauto.
Qed.
Print Assumptions C62_what_follows.

(** In particular the text of a second object gives its members. *)
Lemma objects_join d a b va vb : rd_expand (resolve_decode_options d) = EPOff -> starts_unindented b ->
  needed (fun lines => try_decode_from_lines lines d) a (JObj va) -> try_decode_from_lines b d = Ok (JObj vb) ->
  try_decode_from_lines (a ++ b) d = Ok (JObj (va ++ vb)).
Proof.
  intros Ee Ub H Hb. destruct (lines_ok_inv _ _ _ Ee Hb) as (ls & bs & tr & Sb & R & E).
  assert (M : exists ms rest, members parse_f64 (rd_strict (resolve_decode_options d)) bs false 0 ls ms rest /\ vb = map mj ms).
  { destruct R as [|l ls h tail v rest B Q Hh A|l p N C P|l ls m ls1 ms rest N C M Rs].
    - injection E as ->. exists [], []. split; [apply ms_end; intros ? ? [=]|reflexivity].
    - exfalso. inversion A; subst; discriminate.
    - discriminate.
    - injection E as ->. exists (m :: ms), rest. split; [|reflexivity].
      apply ms_more with ls1; [exact (scans_depth _ _ _ _ _ _ Sb Ub _ _ eq_refl)|intros [[=] _]|exact M|exact Rs]. }
  destruct M as (ms & rest & M & ->). eapply members_after; eauto.
Qed.
Theorem C62_objects :
  forall (a b : list str) (va vb : list (str * json)) (indent : option nat) (strict : option bool) (expand : option expand_paths_mode),
    expand <> Some EPSafe -> starts_unindented b ->
    let decode := fun lines => try_decode_from_lines lines (Some (DecOpts indent strict expand)) in
    needed decode a (JObj va) -> decode b = Ok (JObj vb) -> decode (a ++ b) = Ok (JObj (va ++ vb)).
Proof.
  intros a b va vb indent strict expand He Ub decode H Hb. apply objects_join; auto. destruct expand as [[|]|]; cbn; congruence.
Qed.
Print Assumptions C62_objects.

(** A second text that is no object is not read as what it is: a primitive is a line without a colon,
    and an array, where it is no error, a member whose key starts with a bracket. *)
Lemma bracket_header t h tail : begins cLBRACK t -> is_header t h tail -> hl_key h = None.
Proof.
  intros (w & r & -> & Hw) H. inversion H as [k len fields tl key n dl fs F Fk _ _ _]; subst. cbn.
  assert (Bk : blank k).
  { destruct F as (r' & after & Hh & _). assert (Nw : ~ In cLBRACK w).
    { intros I. unfold blank in Hw. rewrite Forall_forall in Hw. apply Hw in I. discriminate. }
    inversion Hh as [k0 r0 Nq C|w' b r0 E Hw' _]; subst.
    - assert (C' : cut cLBRACK (w ++ cLBRACK :: r) w r) by (split; auto). destruct (cut_fun _ _ _ _ _ _ C C') as [-> _]. exact Hw.
    - exfalso. assert (X : begins cDQ (w ++ cLBRACK :: r)) by (exists w', (b ++ cDQ :: cLBRACK :: r'); auto).
      assert (Y : begins cLBRACK (w ++ cLBRACK :: r)) by (exists w, r; auto).
      apply (trims_begins cDQ _ _ eq_refl (trims_trim _)) in X as (x & X). apply (trims_begins cLBRACK _ _ eq_refl (trims_trim _)) in Y as (y & Y). congruence. }
  assert (K : forall t, trims k t -> t = []).
  { intros t Ht. apply trims_spec in Ht as ->. now apply blank_trim. }
  destruct Fk as [_|t Ht Hn|t s Ht (b & E & _)]; [reflexivity| |].
  - now destruct (Hn (K _ Ht)).
  - rewrite (K _ Ht) in E. discriminate.
Qed.
Lemma bracket_key t k q r : begins cLBRACK t -> key_line t k q r -> exists s, k = cLBRACK :: s.
Proof.
  intros (w & r0 & Et & Hw) [b k' r' E _|u k' r' _ C Tk]; rewrite Et in *; clear Et t.
  - exfalso. destruct w as [|c w]; cbn in E; [discriminate|]. injection E as -> _. inversion Hw; subst. discriminate.
  - apply (trims_begins cLBRACK u k' eq_refl Tk). destruct C as [E N]. clear Tk.
    rename u into t. revert t E N. induction w as [|c w IH]; intros t E N.
    + destruct t as [|c t]; cbn in E; [discriminate|]. injection E as <- _. exists [], t. split; [reflexivity|constructor].
    + inversion Hw as [|? ? Hc Hw']; subst. destruct t as [|c' t]; cbn in E.
      * injection E as -> _. discriminate.
      * injection E as <- E. destruct (IH Hw' t E) as (w' & y & -> & H'); [intros X; apply N; now right|].
        exists (c :: w'), y. split; [reflexivity|now constructor].
Qed.
Theorem C62_other_texts :
  forall (a b : list str) (va : list (str * json)) (vb : json) (indent : option nat) (strict : option bool) (expand : option expand_paths_mode),
    expand <> Some EPSafe -> starts_unindented b ->
    let decode := fun lines => try_decode_from_lines lines (Some (DecOpts indent strict expand)) in
    needed decode a (JObj va) -> decode b = Ok vb ->
    match vb with
    | JObj l => decode (a ++ b) = Ok (JObj (va ++ l))
    | JPrim _ => decode (a ++ b) = Err EMissingColon
    | JArr _ => (exists k w l, decode (a ++ b) = Ok (JObj (va ++ (cLBRACK :: k, w) :: l))) \/ exists e, decode (a ++ b) = Err e
    end.
Proof.
  intros a b va vb indent strict expand He Ub decode H Hb. destruct vb as [p|l|l].
  - set (d := Some (DecOpts indent strict expand)) in *.
    assert (Ee : rd_expand (resolve_decode_options d) = EPOff) by (unfold d; destruct expand as [[|]|]; cbn; congruence).
    destruct (lines_ok_inv _ _ _ Ee Hb) as (ls & bs & tr & Sb & R & E).
    destruct R as [|l ls h tail v rest B Q Hh A|l p' N C P|l ls m ls1 ms rest N C M Rs]; [discriminate| | |discriminate].
    + exfalso. inversion A; subst; discriminate.
    + assert (F : members_fail parse_f64 (rd_strict (resolve_decode_options d)) bs false 0 [l] EMissingColon).
      { apply msf_here; [exact (scans_depth _ _ _ _ _ _ Sb Ub _ _ eq_refl)|intros [[=] _]|].
        apply prim_member_fails with p'; auto. }
      exact (failure_after d Ee _ _ _ Sb Ub _ F a va H).
  - set (d := Some (DecOpts indent strict expand)) in *.
    assert (Ee : rd_expand (resolve_decode_options d) = EPOff) by (unfold d; destruct expand as [[|]|]; cbn; congruence).
    destruct (lines_ok_inv _ _ _ Ee Hb) as (ls & bs & tr & Sb & R & E).
    destruct R as [|x ls h tail v rest B Q Hh A|x p' N C P|x ls m ls1 ms rest N C M Rs]; try discriminate.
    destruct (members_total _ _ _ _ _ Sb) as [(ms & rest' & M)|(e & F)]; [left|right; eexists; eapply failure_after; eauto].
    pose proof (scans_depth _ _ _ _ _ _ Sb Ub _ _ eq_refl) as D.
    inversion M as [? ? ? En|? ? ? ? m ls1 ms' ? D' N Mm Ms]; subst.
    + exfalso. apply (En x ls eq_refl). split; [exact D|]. intros [[=] _].
    + assert (K : exists k, fst (fst m) = cLBRACK :: k).
      { inversion Mm as [? ? ? ? ? ? ? ? ? H1 H2|? ? ? ? ? ? ? ? ? ? _ K _|? ? ? ? ? ? _ K _|? ? ? ? ? ? ? _ K _]; subst.
        - rewrite (bracket_header _ _ _ B H1) in H2. discriminate.
        - destruct (bracket_key _ _ _ _ B K) as (s & ->). now exists s.
        - destruct (bracket_key _ _ _ _ B K) as (s & ->). now exists s.
        - destruct (bracket_key _ _ _ _ B K) as (s & ->). now exists s. }
      destruct K as (k & K). exists k, (tree_json (snd m)), (map mj ms').
      etransitivity; [exact (members_after d Ee _ _ _ Sb Ub _ _ M a va H)|]. cbn [map]. unfold mj at 1. now rewrite K.
  - eapply C62_objects; eauto.
Qed.
Print Assumptions C62_other_texts.

(** After an array everything that starts unindented is passed over: only the indentation of its lines
    is looked at, in strict mode. *)
Theorem C62_after_array :
  forall (a b : list str) (va : list json) (indent : option nat) (strict : option bool) (expand : option expand_paths_mode),
    expand <> Some EPSafe -> starts_unindented b ->
    let decode := fun lines => try_decode_from_lines lines (Some (DecOpts indent strict expand)) in
    needed decode a (JArr va) ->
    (forall e, unwrap_or strict true = true -> indent_fails (unwrap_or indent 2) 1 b e -> decode (a ++ b) = Err (moved (length a) e)) /\
    (~ (unwrap_or strict true = true /\ exists e, indent_fails (unwrap_or indent 2) 1 b e) -> decode (a ++ b) = Ok (JArr va)).
Proof.
  intros a b va indent strict expand He Ub decode H. set (d := Some (DecOpts indent strict expand)) in *.
  assert (Ee : rd_expand (resolve_decode_options d) = EPOff) by (unfold d; destruct expand as [[|]|]; cbn; congruence).
  split.
  - intros e S F. eapply fault_moved; eauto.
  - intros N. destruct (scans_total (unwrap_or strict true) (unwrap_or indent 2) b) as [X|(ls & bs & Sb)]; [contradiction|].
    exact (array_after d Ee _ _ _ Sb Ub a va H).
Qed.
Print Assumptions C62_after_array.

(** After a primitive nothing may follow but blank lines. *)
Theorem C62_after_primitive :
  forall (a b : list str) (p : prim) (indent : option nat) (strict : option bool) (expand : option expand_paths_mode),
    expand <> Some EPSafe -> ~ Forall blank b ->
    let decode := fun lines => try_decode_from_lines lines (Some (DecOpts indent strict expand)) in
    needed decode a (JPrim p) ->
    (forall e, unwrap_or strict true = true -> indent_fails (unwrap_or indent 2) 1 b e -> decode (a ++ b) = Err (moved (length a) e)) /\
    (~ (unwrap_or strict true = true /\ exists e, indent_fails (unwrap_or indent 2) 1 b e) -> decode (a ++ b) = Err EMissingColon).
Proof.
  intros a b p indent strict expand He Nb decode H. set (d := Some (DecOpts indent strict expand)) in *.
  assert (Ee : rd_expand (resolve_decode_options d) = EPOff) by (unfold d; destruct expand as [[|]|]; cbn; congruence).
  split.
  - intros e S F. eapply fault_moved; eauto.
  - intros N. destruct (scans_total (unwrap_or strict true) (unwrap_or indent 2) b) as [X|(ls & bs & Sb)]; [contradiction|].
    apply (primitive_after d Ee b ls bs a p Sb); [|exact H]. intros ->. apply Nb. eapply scans_no_text; eauto.
Qed.
Print Assumptions C62_after_primitive.

(** The encoder writes the members of an object one after the other: without folding, the lines of
    [a ++ b] are the lines of [a] and the lines of [b]. *)
Section Unfolded.
Variables (dl : char) (depth : N).
Notation members := (SpecText.members f64_to_string dl false depth).
Notation value_of := (SpecText.value_of f64_to_string dl false depth).
Notation member := (SpecText.member f64_to_string dl false depth).
Lemma no_folds c sibs k v ks z : ~ folds false c sibs k v ks z. Proof. intros [[=] _]. Qed.
Lemma any_place :
  (forall c sibs d kv a, member c sibs d kv a -> forall c' sibs', member c' sibs' d kv a) /\
  (forall c d k v a, value_of c d k v a -> forall c', value_of c' d k v a) /\
  (forall c sibs d l a, members c sibs d l a -> forall c' sibs', members c' sibs' d l a) /\
  (forall (t : bool) (key : option str) (d : nat) (l : list json) (a : list dline), SpecText.array f64_to_string dl false depth t key d l a -> True) /\
  (forall (d : nat) (l : list json) (a : list dline), SpecText.items f64_to_string dl false depth d l a -> True) /\
  (forall (d : nat) (v : json) (a : list dline), SpecText.item f64_to_string dl false depth d v a -> True).
Proof.
  apply SpecText.text_mutind; auto.
  - intros c sibs d k v ks z ls F. now apply no_folds in F.
  - intros c sibs d k v ls _ _ IH c' sibs'. apply me_plain; [intros; apply no_folds|apply IH].
  - intros. now constructor.
  - intros c d k l kt ls Hk _ IH c'. apply vo_obj; [exact Hk|apply IH].
  - intros. now constructor.
  - intros. constructor.
  - intros c sibs d kv l a b _ IH1 _ IH2 c' sibs'. apply ms_cons; [apply IH1|apply IH2].
Qed.
Lemma members_app c sibs d l a : members c sibs d l a -> forall l' a', members c sibs d l' a' -> members c sibs d (l ++ l') (a ++ a').
Proof.
  intros H l' a' H'. revert a H. induction l as [|kv l IH]; intros a H; inversion H; subst; [exact H'|].
  cbn [app]. rewrite <- app_assoc. apply SpecText.ms_cons; auto.
Qed.
End Unfolded.
Theorem C62_encoded :
  forall (a b : list (str * json)) (indent : option nat) (delimiter : option char) (mode : option key_folding_mode) (depth : option N)
         (la lb : list str),
    mode <> Some KFSafe ->
    let encode := fun l => encode_lines 0 (JObj l) (Some (EncOpts indent delimiter mode depth None)) in
    encode a = Ok la -> encode b = Ok lb -> encode (a ++ b) = Ok (la ++ lb).
Proof.
  intros a b indent delimiter mode depth la lb Hm encode Ea Eb.
  pose proof (normalize_spec (JObj a)) as Na. pose proof (normalize_spec (JObj b)) as Nb. pose proof (normalize_spec (JObj (a ++ b))) as Nab.
  apply (C46_encoded_text _ _ indent delimiter mode depth la Na) in Ea as (da & Da & ->).
  apply (C46_encoded_text _ _ indent delimiter mode depth lb Nb) in Eb as (db & Db & ->).
  apply (C46_encoded_text _ _ indent delimiter mode depth _ Nab). exists (da ++ db). split; [|symmetry; apply map_app].
  replace (match mode with Some KFSafe => true | _ => false end) with false in * by (destruct mode as [[|]|]; congruence).
  cbn [normalize_json_value] in *. rewrite map_app.
  inversion Da as [| |? ? ? _ Ma]; subst. inversion Db as [| |? ? ? _ Mb]; subst.
  set (na := map _ a) in *. set (nb := map _ b) in *.
  apply do_obj with (filter (contains cDOT) (map fst (na ++ nb))).
  - intros k. rewrite filter_In. unfold contains. rewrite existsb_exists. split; intros [H1 H2]; split; auto.
    + destruct H2 as (x & Hx & E). apply N.eqb_eq in E. congruence.
    + exists cDOT. split; [exact H2|apply N.eqb_refl].
  - apply members_app; eapply (proj1 (proj2 (proj2 (any_place _ _)))); eauto.
Qed.
Print Assumptions C62_encoded.

(** So the lines written for two objects, one after the other, are read as the members of both: those of
    the first come first, also where both have a key. *)
Lemma key_text_start k t : key_text k t -> exists c s, t = c :: s /\ c <> cSPACE /\ is_ws c = false.
Proof.
  intros [[B ->]|[_ Q]].
  - destruct B as (c & r & -> & Hc & _). exists c, r. split; [reflexivity|].
    assert (W : is_ws c = false).
    { destruct Hc as [Hl|Hc]; [|rewrite Hc; reflexivity]. destruct (is_ws c) eqn:W; [|reflexivity]. exfalso.
      unfold letter in Hl. unfold is_ws in W. rewrite !orb_true_iff, !andb_true_iff, !N.leb_le, !N.eqb_eq in W. lia. }
    split; [|exact W]. intros ->. discriminate.
  - destruct Q as (b & _ & ->). exists cDQ, (b ++ [cDQ]). split; [reflexivity|]. split; [discriminate|reflexivity].
Qed.
Lemma first_line dl depth c sibs l a : SpecText.members f64_to_string dl false depth c sibs 0 l a -> l <> [] ->
  exists ch t r, a = (0, ch :: t) :: r /\ ch <> cSPACE /\ is_ws ch = false.
Proof.
  intros H Hn. inversion H as [|? ? ? kv l' x b M Ms]; subst; [contradiction|].
  assert (G : exists ch t r, x = (0, ch :: t) :: r /\ ch <> cSPACE /\ is_ws ch = false); [|destruct G as (ch & t & r & -> & G); cbn [app]; eauto].
  inversion M as [? ? ? k v ks z ls F|? ? ? k v ls _ V]; subst; [now apply no_folds in F|].
  assert (Hd : forall k n fs h, header dl (Some k) n fs h -> exists ch t, h = ch :: t /\ ch <> cSPACE /\ is_ws ch = false).
  { intros k0 n fs h Hh. inversion Hh as [? ? ? kt nt dt ft Hk _ _ _]; subst. destruct (key_text_start _ _ Hk) as (c1 & s1 & -> & H1). cbn. eauto. }
  inversion V as [? ? ? p kt t Hk _|? ? ? l0 kt ls0 Hk _|? ? ? l0 ls0 A]; subst.
  - destruct (key_text_start _ _ Hk) as (c1 & s1 & -> & H1). cbn. eauto.
  - destruct (key_text_start _ _ Hk) as (c1 & s1 & -> & H1). cbn. eauto.
  - inversion A as [? ? ? h Hh|? ? ? p ps h r Hh|? ? ? fs rs h ts _ Hh|? ? ? ? h ls0 _ _ Hh]; subst;
      destruct (Hd _ _ _ _ Hh) as (c1 & s1 & -> & H1); cbn; eauto.
Qed.
Lemma written_start fuel l eo lines : plain_options eo -> encode_lines fuel (JObj l) eo = Ok lines -> starts_unindented lines.
Proof.
  intros (Hf & Hr & _) E. unfold encode_lines, prepare in E. cbv zeta in E. rewrite Hr in E. cbn [bind] in E.
  destruct (value_text _ _ _ E) as (doc & D & ->). unfold folding in D. rewrite Hf in D.
  cbn [normalize_json_value] in D. inversion D as [| |? ? ? _ M]; subst. set (nl := map _ l) in *. clearbody nl.
  intros bl x r Ex Hbl Hx s Es. destruct nl as [|kv nl].
  - inversion M; subst. destruct bl; discriminate.
  - destruct (first_line _ _ _ _ _ _ M) as (ch & t & r' & -> & Hs & Hw); [discriminate|]. cbn [map] in Ex. unfold shown in Ex at 1. cbn [fst snd] in Ex.
    rewrite Nat.mul_0_r in Ex. cbn [repeat app] in Ex. destruct bl as [|y bl].
    + injection Ex as <- _. injection Es as E0 _. contradiction.
    + injection Ex as <- _. inversion Hbl as [|? ? B _]; subst. inversion B; subst. congruence.
Qed.
Theorem C62_written_texts :
  forall (fuel : nat) (a b : list (str * json)) (eo : option encode_options) (d : option decode_options) (la lb : list str),
    plain_options eo -> matching_options eo d -> a <> [] ->
    distinct_keys (JObj a) -> portable (JObj a) -> distinct_keys (JObj b) -> portable (JObj b) ->
    encode_lines fuel (JObj a) eo = Ok la -> encode_lines fuel (JObj b) eo = Ok lb ->
    exists wa wb, try_decode_from_lines la d = Ok (JObj wa) /\ try_decode_from_lines lb d = Ok (JObj wb) /\
      try_decode_from_lines (la ++ lb) d = Ok (JObj (wa ++ wb)).
Proof.
  intros fuel a b eo d la lb Ho Hm Ha Ka Pa Kb Pb Ea Eb.
  destruct (C61_truncated_output fuel _ eo d la Ho Hm Ka Pa Ea) as (na & wa & Na & Ja & Da & Ca).
  destruct (C61_truncated_output fuel _ eo d lb Ho Hm Kb Pb Eb) as (nb & wb & Nb & Jb & Db & _).
  inversion Na as [| |? ma Fa]; subst. inversion Ja as [| |? ma' wa' Pe Fa']; subst. inversion Nb as [| |? mb Fb]; subst. inversion Jb as [| |? mb' wb' Pe' Fb']; subst.
  exists wa', wb'. split; [exact Da|]. split; [exact Db|].
  assert (Nw : wa' <> []).
  { intros ->. inversion Fa'; subst. apply Permutation.Permutation_sym, Permutation.Permutation_nil in Pe. subst. inversion Fa; subst. contradiction. }
  destruct Hm as [Hi He]. assert (N : needed (fun lines => try_decode_from_lines lines d) la (JObj wa')).
  { split; [exact Da|]. intros Q. destruct (list_last_cases la) as [El|(la' & x & El)].
    - rewrite El in Da. rewrite (lines_ok [] d [] [] (TObj []) He) in Da by constructor. injection Da as <-. contradiction.
    - destruct (Ca (length la')) as [C _]; [rewrite El, app_length; cbn; lia|].
      assert (Ef : firstn (length la') la = removelast la).
      { rewrite El, removelast_last, firstn_app, Nat.sub_diag, firstn_all. cbn. apply app_nil_r. }
      rewrite Ef in C. destruct C as [[_ C]|[(w' & C & Sh)|(_ & e & C & _)]]; cbn beta in Q; rewrite Q in C; [|injection C as <-|discriminate].
      + injection C as ->. contradiction.
      + apply C61_shortened_differs in Sh as [_ Sh]. contradiction. }
  eapply objects_join; eauto using written_start.
Qed.
Print Assumptions C62_written_texts.

(** Two logs, the second behind a blank line: their members come together, also the repeated key. *)
Definition first_log : list str := map lit ["day: mon"; "runs[2]{id,ok}:"; "  p,true"; "  q,false"; "notes:"; "  by: ann"]%string.
Definition second_log : list str := map lit [""; "day: tue"; "tags[2]:"; "  - x"; "  - y: p"]%string.
Definition first_members : list (str * json) :=
  [(lit "day", s "mon");
   (lit "runs", JArr [JObj [(lit "id", s "p"); (lit "ok", JPrim (PBool true))];
                      JObj [(lit "id", s "q"); (lit "ok", JPrim (PBool false))]]);
   (lit "notes", JObj [(lit "by", s "ann")])].
Definition second_members : list (str * json) :=
  [(lit "day", s "tue"); (lit "tags", JArr [s "x"; JObj [(lit "y", s "p")]])].
Example C62_case :
  needed (fun l => try_decode_from_lines l None) first_log (JObj first_members) /\
  starts_unindented second_log /\
  try_decode_from_lines second_log None = Ok (JObj second_members) /\
  try_decode_from_lines (first_log ++ second_log) None = Ok (JObj (first_members ++ second_members)).
Proof.
  split; [split; [vm_compute; reflexivity|vm_compute; discriminate]|].
  split; [|split; vm_compute; reflexivity].
  intros bl l r E B N x ->. destruct bl as [|y bl]; [discriminate|]. injection E as <- E. destruct bl as [|y bl]; [discriminate|].
  injection E as <- _. inversion B as [|? ? _ B']; subst. inversion B' as [|? ? B2 _]; subst. inversion B2; subst. discriminate.
Qed.
(** After the first log an array is taken for a member, a primitive is refused, and a blank line in an
    array is reported where it stands in the whole; after an array the log is not read. *)
Example C62_other_case :
  try_decode_from_lines (first_log ++ [lit "[2]: a,b"]) None = Ok (JObj (first_members ++ [(lit "[2]", s "a,b")])) /\
  try_decode_from_lines (first_log ++ [lit "done"]) None = Err EMissingColon /\
  try_decode_from_lines (map lit ["k[2]:"; "  - 1"; ""; "  - 2"]%string) None = Err (EBlankInArray CItems 3) /\
  try_decode_from_lines (first_log ++ map lit ["k[2]:"; "  - 1"; ""; "  - 2"]%string) None = Err (EBlankInArray CItems 9) /\
  needed (fun l => try_decode_from_lines l None) [lit "[2]: a,b"] (JArr [s "a"; s "b"]) /\
  try_decode_from_lines (lit "[2]: a,b" :: first_log) None = Ok (JArr [s "a"; s "b"]) /\
  needed (fun l => try_decode_from_lines l None) [lit "done"] (s "done") /\
  try_decode_from_lines (lit "done" :: first_log) None = Err EMissingColon.
Proof. repeat match goal with |- needed _ _ _ => split | |- _ /\ _ => split end; vm_compute; solve [reflexivity|discriminate]. Qed.
Example C62_written_case :
  exists la lb, plain_options None /\ matching_options None None /\
    distinct_keys (JObj first_members) /\ portable (JObj first_members) /\ distinct_keys (JObj second_members) /\ portable (JObj second_members) /\
    encode_lines 0 (JObj first_members) None = Ok la /\ encode_lines 0 (JObj second_members) None = Ok lb /\
    length la = 6 /\ length lb = 4 /\ encode_lines 0 (JObj (first_members ++ second_members)) None = Ok (la ++ lb).
Proof.
  eexists. eexists. split; [split; [reflexivity|]; split; [reflexivity|]; split; [now left|discriminate]|].
  split; [split; reflexivity|]. split; [apply distinctb_ok; vm_compute; reflexivity|]. split; [apply portableb_ok; [apply distinctb_ok|]; vm_compute; reflexivity|].
  split; [apply distinctb_ok; vm_compute; reflexivity|]. split; [apply portableb_ok; [apply distinctb_ok|]; vm_compute; reflexivity|].
  split; [vm_compute; reflexivity|]. split; [vm_compute; reflexivity|]. repeat split; vm_compute; reflexivity.
Qed.
