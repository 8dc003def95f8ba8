(** The lexical functions of the decoder compute what SpecRead.v describes. *)
From Verif Require Import Chars Floats Json Shared Scanner Parser Lex NumProof PrimProof Spec DecNums ParseProof SpecText TextProof SpecRead.

Local Open Scope nat_scope.

(** * Trimming and cutting *)

Lemma tight_ends t : tight t <->
  (forall c r, t = c :: r -> is_ws c = false) /\ (forall c r, t = r ++ [c] -> is_ws c = false).
Proof.
  split.
  - intros H. apply tight_inv in H as [->|((a & c & E & Hc) & (c' & r & E' & Hc'))].
    + split; intros c r E; [discriminate|]. symmetry in E. apply app_eq_nil in E as [_ E]. discriminate.
    + split; intros d q Ed; [congruence|]. rewrite E in Ed. apply app_inj_tail in Ed as [_ <-]. auto.
  - intros [H1 H2]. destruct t as [|c r]; [exact I|]. split; [eauto|].
    destruct (list_last_cases (c :: r)) as [E|(a & x & E)]; [discriminate|]. rewrite E, last_last. eauto.
Qed.

Lemma trims_spec s t : trims s t <-> t = trim s.
Proof.
  split.
  - intros (a & b & -> & Ha & Hb & H1 & H2). symmetry. apply trim_mid; auto. apply tight_ends. auto.
  - intros ->. destruct (trim_spec s) as (l & r & E & Hl & Hr & Ht). exists l, r. apply tight_ends in Ht. tauto.
Qed.
Lemma trims_trim s : trims s (trim s).
Proof. now apply trims_spec. Qed.
Lemma blank_trim s : blank s <-> trim s = [].
Proof. symmetry. apply trim_nil. Qed.
Lemma trims_idem s t : trims (trim s) t <-> trims s t.
Proof. now rewrite !trims_spec, trim_idem. Qed.

Lemma begins_spec c s : is_ws c = false -> (begins c s <-> starts_with c (trim_start s) = true).
Proof.
  intros Hc. split.
  - intros (w & r & -> & Hw). rewrite trim_start_app_ws by exact Hw. rewrite trim_start_nonws by auto. cbn. apply N.eqb_refl.
  - intros H. destruct (trim_start_spec s) as (l & E & Hl & _). apply starts_with_true in H as (r & H).
    rewrite H in E. exists l, r. auto.
Qed.
Lemma starts_with_iff c s : starts_with c s = true <-> exists r, s = c :: r.
Proof. split; [apply starts_with_true|]. intros (r & ->). cbn. apply N.eqb_refl. Qed.
Lemma starts_with_not c s : starts_with c s = false <-> forall r, s <> c :: r.
Proof.
  rewrite <- not_true_iff_false, starts_with_iff. split; [intros H r ->; eauto|intros H (r & ->); now apply (H r)].
Qed.
Lemma trim_head c s : is_ws c = false -> starts_with c (trim s) = starts_with c (trim_start s).
Proof.
  intros Hc. unfold trim. destruct (trim_start_spec s) as (l & E & Hl & [->|(d & r & -> & Hd)]); [reflexivity|].
  destruct (trim_end_cons_nonws d r Hd) as (q & ->). reflexivity.
Qed.
Lemma trims_begins c s t : is_ws c = false -> trims s t -> (begins c s <-> exists r, t = c :: r).
Proof. intros Hc H. apply trims_spec in H as ->. rewrite begins_spec, <- starts_with_iff, trim_head by auto. tauto. Qed.

Lemma cut_find c s a b : cut c s a b -> find_char c s = Some (length a).
Proof. intros [-> H]. now apply find_char_app. Qed.
Lemma find_cut c s i : find_char c s = Some i -> exists a b, cut c s a b /\ length a = i.
Proof. intros H. apply find_char_Some in H as (a & b & E & L & N). exists a, b. repeat split; auto. Qed.
Lemma app_inv_length {A} (a : list A) : forall b c d, length a = length c -> a ++ b = c ++ d -> a = c /\ b = d.
Proof.
  induction a as [|x a IH]; intros b [|y c] d L E; cbn in L; try discriminate; [auto|].
  injection E as -> E. apply IH in E as [-> ->]; auto.
Qed.
Lemma cut_fun c s a b a' b' : cut c s a b -> cut c s a' b' -> a = a' /\ b = b'.
Proof.
  intros H H'. pose proof (cut_find _ _ _ _ H) as E. rewrite (cut_find _ _ _ _ H') in E. injection E as E.
  destruct H as [-> _], H' as [H' _]. apply app_inv_length in H' as [-> H']; auto. now injection H'.
Qed.

Lemma cut_cases c (s : str) : ~ In c s \/ exists a b, cut c s a b.
Proof. destruct (first_split c s) as [H|(a & b & H)]; [auto|right; exists a, b; exact H]. Qed.

(** * Quoted text *)

Lemma strong_list {A} (P : list A -> Prop) : (forall l, (forall m, length m < length l -> P m) -> P l) -> forall l, P l.
Proof.
  intros H. assert (G : forall n l, length l < n -> P l).
  { induction n as [|n IH]; intros l L; [lia|]. apply H. intros m Lm. apply IH. lia. }
  intros l. apply (G (S (length l))). lia.
Qed.

Lemma scan_quote_sound s : forall i k, scan_quote s i = Some k ->
  exists b r, s = b ++ cDQ :: r /\ quote_body b /\ k = i + length b.
Proof.
  induction s as [s IH] using strong_list. intros i k H. destruct s as [|c r]; [discriminate|].
  destruct r as [|x r]; cbn [scan_quote] in H.
  - destruct (N.eqb_spec c cDQ) as [->|]; [|discriminate]. injection H as <-. exists [], []. split; auto. split; [constructor|cbn; lia].
  - destruct (N.eqb_spec c cBSLASH) as [->|Hb].
    + apply IH in H as (b & r' & -> & Hq & ->); [|cbn; lia]. exists (cBSLASH :: x :: b), r'. split; auto.
      split; [now constructor|cbn; lia].
    + destruct (N.eqb_spec c cDQ) as [->|Hc].
      * injection H as <-. exists [], (x :: r). split; auto. split; [constructor|cbn; lia].
      * change (scan_quote (x :: r) (S i) = Some k) in H. apply IH in H as (b & r' & E & Hq & ->); [|cbn; lia].
        rewrite E. exists (c :: b), r'. split; auto. split; [now constructor|cbn; lia].
Qed.
Lemma scan_quote_complete b : quote_body b -> forall r i, scan_quote (b ++ cDQ :: r) i = Some (i + length b).
Proof.
  induction 1 as [|c s Hc Hb Hq IH|c s Hq IH]; intros r i.
  - cbn. rewrite Nat.add_0_r. destruct r; reflexivity.
  - cbn [app]. specialize (IH r (S i)). destruct (s ++ cDQ :: r) as [|y t] eqn:E; [destruct s; discriminate|].
    cbn [scan_quote]. apply N.eqb_neq in Hc, Hb. rewrite Hc, Hb.
    change (scan_quote (y :: t) (S i) = Some (i + S (length s))). rewrite IH. f_equal. lia.
  - cbn [app scan_quote]. change (cBSLASH =? cBSLASH)%N with true. cbv iota. rewrite IH. cbn. f_equal. lia.
Qed.
Lemma quote_body_fun b : quote_body b -> forall b' r r', quote_body b' -> b ++ cDQ :: r = b' ++ cDQ :: r' -> b = b' /\ r = r'.
Proof.
  intros H b' r r' H' E. pose proof (scan_quote_complete b H r 0) as E1. rewrite E, (scan_quote_complete b' H') in E1.
  injection E1 as E1. apply app_inv_length in E as [-> E]; auto. now injection E.
Qed.
Lemma closing_spec s k : find_closing_quote (cDQ :: s) 0 = Some k <->
  exists b r, s = b ++ cDQ :: r /\ quote_body b /\ k = S (length b).
Proof.
  unfold find_closing_quote. cbn [length Nat.leb skipn]. split.
  - intros H. apply scan_quote_sound in H as (b & r & -> & Hq & ->). exists b, r. auto.
  - intros (b & r & -> & Hq & ->). now rewrite scan_quote_complete.
Qed.

Lemma escape_pairs c e : In (c, e) escapes <->
  (if (e =? cLN)%N then Ok cLF else if (e =? cLT)%N then Ok cTAB else if (e =? cLR)%N then Ok cCR
   else if (e =? cBSLASH)%N then Ok cBSLASH else if (e =? cDQ)%N then Ok cDQ else Err (EInvalidEscape (Some e))) = Ok c.
Proof.
  cbn [escapes In]. split.
  - intros H. repeat destruct H as [H|H]; try (injection H as <- <-; reflexivity). destruct H.
  - intros H.
    destruct (N.eqb_spec e cLN) as [Ee|_]; [subst e; injection H as <-; tauto|].
    destruct (N.eqb_spec e cLT) as [Ee|_]; [subst e; injection H as <-; tauto|].
    destruct (N.eqb_spec e cLR) as [Ee|_]; [subst e; injection H as <-; tauto|].
    destruct (N.eqb_spec e cBSLASH) as [Ee|_]; [subst e; injection H as <-; tauto|].
    destruct (N.eqb_spec e cDQ) as [Ee|_]; [subst e; injection H as <-; tauto|]. discriminate.
Qed.
Lemma unescapes_body b s : unescapes b s -> quote_body b.
Proof. induction 1; [apply qb_nil|now apply qb_plain|now apply qb_pair]. Qed.
Lemma unescape_spec b : quote_body b -> forall s, unescape_string b = Ok s <-> unescapes b s.
Proof.
  induction 1 as [|c b Hc Hb Hq IH|c b Hq IH]; intros s; cbn [unescape_string].
  - split; [intros H; injection H as <-; constructor|]. inversion 1. reflexivity.
  - apply N.eqb_neq in Hb as Hb'. rewrite Hb'. split.
    + destruct (unescape_string b) as [t|] eqn:E; [|discriminate]. cbn [bind]. intros H. injection H as <-.
      constructor; auto. now apply IH.
    + inversion 1 as [|? ? t ? ? Hu|? ? ? t Hi Hu]; subst; [|congruence]. apply IH in Hu. now rewrite Hu.
  - change (cBSLASH =? cBSLASH)%N with true. cbv iota. split.
    + intros H.
      destruct (if (c =? cLN)%N then _ else _) as [out|] eqn:E1 in H; [|discriminate]. cbn [bind] in H.
      destruct (unescape_string b) as [t|] eqn:E; [|discriminate]. cbn [bind] in H. injection H as <-.
      apply escape_pairs in E1. econstructor; eauto. now apply IH.
    + inversion 1 as [|? ? t ? ? Hu|? ? ? t Hi Hu]; subst; [congruence|]. apply escape_pairs in Hi. rewrite Hi.
      apply IH in Hu. rewrite Hu. reflexivity.
Qed.

Lemma quotes_head u s : quotes u s -> exists r, u = cDQ :: r.
Proof. intros (b & -> & _). eauto. Qed.
Lemma literal_spec t s : parse_string_literal t = Ok s <-> string_text t s.
Proof.
  unfold parse_string_literal, string_text. set (u := trim t).
  assert (Hu : trims t u) by apply trims_trim.
  assert (Hx : forall P : str -> Prop, (exists v, trims t v /\ P v) <-> P u).
  { intros P. split; [intros (v & Hv & HP)|eauto]. apply trims_spec in Hv as ->. exact HP. }
  rewrite Hx. clear Hx Hu. clearbody u. destruct (starts_with cDQ u) eqn:Es.
  - apply starts_with_true in Es as (r & ->). split.
    + destruct (find_closing_quote (cDQ :: r) 0) as [k|] eqn:Ek; [|discriminate].
      apply closing_spec in Ek as (b & r' & -> & Hq & ->). cbn [length]. rewrite app_length. cbn [length].
      destruct (Nat.eqb_spec (S (length b)) (S (length b + S (length r')) - 1)) as [E|E]; [|discriminate].
      cbn [negb]. destruct r'; [|cbn in E; lia]. unfold slice. cbn [skipn].
      rewrite firstn_app_exact by (cbn; lia). intros H. right. exists b. split; auto. now apply unescape_spec.
    + intros [[_ H]|(b & E & Hu)]; [now destruct (H r)|]. injection E as ->. pose proof (unescapes_body _ _ Hu) as Hq.
      assert (E : find_closing_quote (cDQ :: b ++ [cDQ]) 0 = Some (S (length b))) by (apply closing_spec; exists b, []; auto).
      rewrite E. cbn [length]. rewrite app_length. cbn [length].
      replace (Nat.eqb _ _) with true by (symmetry; apply Nat.eqb_eq; lia). cbn [negb]. unfold slice. cbn [skipn].
      rewrite firstn_app_exact by (cbn; lia). now apply unescape_spec.
  - pose proof (proj1 (starts_with_not _ _) Es) as Hn. split.
    + intros H. injection H as <-. auto.
    + intros [[-> _]|H]; auto. apply quotes_head in H as (r & ->). now destruct (Hn r).
Qed.

(** * Numbers and primitives *)


Definition unsigned_rest (b : str) : option str :=
  match b with
  | [] => None
  | d :: b' => if (d =? cZERO)%N then match b' with x :: _ => if is_digit x then None else Some b' | [] => Some b' end
               else if is_digit d then Some (snd (span_digits b)) else None
  end.
Lemma unsigned_spec b :
  match unsigned_rest b with Some r => num_tail r | None => false end = true <->
  exists ip fp ep, b = ip ++ fp ++ ep /\ digits ip /\ (forall r, ip = cZERO :: r -> r = []) /\ fraction fp /\ exponent ep.
Proof.
  destruct b as [|d b]; cbn [unsigned_rest].
  { split; [discriminate|]. intros (ip & fp & ep & E & (Hne & _) & _). symmetry in E. apply app_eq_nil in E as [E _]. congruence. }
  split.
  - destruct (N.eqb_spec d cZERO) as [Ed|Hd].
    + subst d. intros H. assert (Ht : num_tail b = true).
      { destruct b as [|x b]; auto. destruct (is_digit x); [discriminate|auto]. }
      apply num_tail_spec in Ht as (fp & ep & -> & Hf & He). exists [cZERO], fp, ep. split; auto.
      split; [split; [discriminate|constructor; [unfold digit; lia|constructor]]|]. split; auto. intros r E. now injection E.
    + destruct (is_digit d) eqn:Edd; [|discriminate]. destruct (span_digits (d :: b)) as [ds r] eqn:Es. cbn [snd]. intros H.
      pose proof (span_digits_spec _ _ _ Es) as (E & Hds & Hr). apply num_tail_spec in H as (fp & ep & -> & Hf & He).
      destruct ds as [|d0 ds].
      { exfalso. cbn in E. rewrite <- E in Hr. congruence. }
      injection E as -> ->. exists (d0 :: ds), fp, ep. split; auto. split; [split; [discriminate|now apply digits_are]|].
      split; auto. intros r E. injection E as -> _. congruence.
  - intros (ip & fp & ep & E & (Hne & Hi) & Hz & Hf & He).
    assert (Hnd : no_digit (fp ++ ep)).
    { destruct Hf as [->|(x & -> & _)]; [now apply exponent_no_digit|reflexivity]. }
    assert (Ht : num_tail (fp ++ ep) = true) by (apply num_tail_spec; eauto).
    destruct ip as [|i ip]; [congruence|]. injection E as -> ->.
    destruct (N.eqb_spec i cZERO) as [Ei|Hi0].
    + subst i. rewrite (Hz ip eq_refl). cbn [app]. destruct (fp ++ ep) as [|x r]; auto. cbn in Hnd. now rewrite Hnd.
    + inversion Hi as [|? ? Hi1 Hi2]; subst. apply digit_is in Hi1 as Hi3. rewrite Hi3.
      change (i :: ip ++ fp ++ ep) with ((i :: ip) ++ fp ++ ep). rewrite span_digits_app; [exact Ht|now apply digits_are|exact Hnd].
Qed.

Lemma numeric_spec s : tight s -> forall x,
  numeric parse_f64 s x <-> is_numeric_literal s = true /\ parse_f64 s = Some x.
Proof.
  intros Ht x. unfold numeric, is_numeric_literal. rewrite (trim_tight s Ht). destruct s as [|c r].
  { split; [|intros [H _]; discriminate]. intros ((sg & ip & fp & ep & E & _ & (Hne & _) & _) & _).
    symmetry in E. apply app_eq_nil in E as [_ E]. apply app_eq_nil in E as [E _]. congruence. }
  set (b := if (c =? cMINUS)%N then r else c :: r).
  assert (Hn : number_text (c :: r) <-> match unsigned_rest b with Some r => num_tail r | None => false end = true).
  { rewrite unsigned_spec. unfold number_text, b. destruct (N.eqb_spec c cMINUS) as [Ec|Hc].
    - subst c. split.
      + intros (sg & ip & fp & ep & E & [Es|Es] & (Hne & Hi) & Hz & Hf & He); subst sg.
        * exfalso. destruct ip as [|i ip]; [congruence|]. injection E as <- _. inversion Hi as [|? ? Hx _]. unfold digit in Hx. lia.
        * injection E as ->. exists ip, fp, ep. split; auto. split; [split; auto|auto].
      + intros (ip & fp & ep & -> & H). exists [cMINUS], ip, fp, ep. split; auto.
    - split.
      + intros (sg & ip & fp & ep & E & [Es|Es] & H); subst sg; [|injection E as -> _; congruence]. exists ip, fp, ep. auto.
      + intros (ip & fp & ep & E & H). exists [], ip, fp, ep. split; auto. }
  rewrite Hn. clear Hn.
  assert (E : forall f : bool, match b with
     | [] => false
     | d :: b0 => match (if (d =? cZERO)%N then match b0 with [] => Some b0 | x :: _ => if is_digit x then None else Some b0 end
                         else if is_digit d then Some (snd (span_digits b)) else None) with
                  | Some rest => num_tail rest && f | None => false end
     end = match unsigned_rest b with Some r => num_tail r | None => false end && f).
  { intros f. unfold unsigned_rest. destruct b as [|d b0]; [reflexivity|].
    destruct (if (d =? cZERO)%N then _ else _) in |- *; reflexivity. }
  rewrite E, andb_true_iff. clear E. split.
  - intros (H1 & H2 & H3). rewrite H2. auto.
  - intros ((H1 & H2) & H3). rewrite H3 in H2. auto.
Qed.

Lemma negzero_spec x y : same_unless_negative_zero x y <-> y = if f64_is_neg_zero x then f64_zero else x.
Proof.
  unfold same_unless_negative_zero. assert (E : f64_is_neg_zero x = true <-> f64_sf x = SpecFloat.S754_zero true).
  { unfold f64_is_neg_zero. destruct (f64_sf x) as [[]| | |]; split; intros H; try discriminate; auto. }
  destruct (f64_is_neg_zero x).
  - split; [intros [[_ H]|[H _]]; auto; destruct H; now apply E|]. intros ->. left. split; auto. now apply E.
  - assert (N : f64_sf x <> SpecFloat.S754_zero true) by (intros H; apply E in H; discriminate).
    split; [intros [[H _]|[_ H]]; auto; contradiction|]. intros ->. now right.
Qed.

Lemma prim_spec t p : parse_primitive_token t = Ok p <-> prim_text parse_f64 t p.
Proof.
  unfold parse_primitive_token. destruct (is_empty (trim t)) eqn:Ee.
  { apply is_empty_true in Ee. split; [intros H; injection H as <-; apply pt_empty; now apply blank_trim|].
    assert (F : forall u, trims t u -> u = []) by (intros u Hu; apply trims_spec in Hu; congruence).
    destruct 1 as [Hb|u s Hu Hq|Hu|Hu|Hu|u x y Hu Hn Hs|u Hu Hne _ _ _]; auto; apply F in Hu; try discriminate Hu.
    - apply quotes_head in Hq as (r & ->). discriminate.
    - subst u. destruct Hn as ((sg & ip & fp & ep & E & _ & (Hne & _) & _) & _).
      symmetry in E. apply app_eq_nil in E as [_ E]. apply app_eq_nil in E as [E _]. congruence.
    - congruence. }
  apply is_empty_false in Ee. pose proof (trim_tight_out t) as Ht. pose proof (trims_trim t) as Htr.
  assert (F : forall u, trims t u -> u = trim t) by (intros u Hu; now apply trims_spec).
  assert (Fb : ~ blank t) by (rewrite blank_trim; auto).
  set (u := trim t) in *. clearbody u. destruct (starts_with cDQ u) eqn:Eq.
  { apply starts_with_true in Eq as (r & ->). split.
    - destruct (parse_string_literal (cDQ :: r)) as [s|] eqn:El; [|discriminate]. cbn [bind]. intros H. injection H as <-.
      apply literal_spec in El as (v & Hv & [[_ H]|H]).
      + apply trims_spec in Hv. rewrite (trim_tight _ Ht) in Hv. subst v. now destruct (H r).
      + apply trims_spec in Hv. rewrite (trim_tight _ Ht) in Hv. subst v. now apply (pt_quoted _ _ (cDQ :: r)).
    - destruct 1 as [Hb|v s Hu Hq|Hu|Hu|Hu|v x y Hu Hn Hs|v Hu Hne Hd _ _]; try contradiction; apply F in Hu; try discriminate Hu.
      + subst v. assert (El : parse_string_literal (cDQ :: r) = Ok s).
        { apply literal_spec. exists (cDQ :: r). split; [apply trims_spec; symmetry; now apply trim_tight|auto]. }
        rewrite El. reflexivity.
      + subst v. destruct Hn as ((sg & ip & fp & ep & E & [->| ->] & (Hne & Hi) & _) & _); [|discriminate].
        destruct ip as [|i ip]; [congruence|]. injection E as <- _. inversion Hi as [|? ? Hx _]. unfold digit in Hx. lia.
      + subst v. now destruct (Hd r). }
  pose proof (proj1 (starts_with_not _ _) Eq) as Hnq.
  assert (Hlit : is_boolean_or_null_literal u = true <-> In u [lit "true"; lit "false"; lit "null"]).
  { unfold is_boolean_or_null_literal. rewrite !orb_true_iff, !str_eqb_eq. cbn [In]. intuition. }
  destruct (is_boolean_or_null_literal u) eqn:Eb.
  { assert (Hi : In u [lit "true"; lit "false"; lit "null"]) by now apply Hlit.
    assert (Hnn : forall x, ~ numeric parse_f64 u x).
    { intros x Hn. apply (numeric_spec u Ht) in Hn as [Hn _]. cbn [In] in Hi. destruct Hi as [<-|[<-|[<-|[]]]]; discriminate. }
    split.
    - intros H. injection H as <-. cbn [In] in Hi. destruct Hi as [<-|[<-|[<-|[]]]]; cbn.
      + now apply pt_true.
      + now apply pt_false.
      + now apply pt_null.
    - destruct 1 as [Hb|v s Hu Hq|Hu|Hu|Hu|v x y Hu Hn Hs|v Hu Hne Hd Hl _]; try contradiction; apply F in Hu; try (rewrite <- Hu; reflexivity).
      + apply quotes_head in Hq as (r & ->). now destruct (Hnq r).
      + subst v. now destruct (Hnn x).
      + subst v. contradiction. }
  assert (Hnl : ~ In u [lit "true"; lit "false"; lit "null"]) by (intros H; apply Hlit in H; discriminate).
  destruct (is_numeric_literal u) eqn:En.
  - apply numeric_finite in En as Ef. rewrite (trim_tight u Ht) in Ef. destruct Ef as (x & Ex & Hf).
    rewrite Ex. cbn [unwrap_or].
    assert (Hnum : forall y, numeric parse_f64 u y <-> y = x).
    { intros y. rewrite (numeric_spec u Ht). rewrite En, Ex. split; [intros [_ H]; congruence|intros ->; auto]. }
    split.
    + intros H. injection H as <-. apply (pt_number _ _ u x); auto; [now apply Hnum|now apply negzero_spec].
    + destruct 1 as [Hb|v s Hu Hq|Hu|Hu|Hu|v y z Hu Hn Hs|v Hu Hne Hd Hl Hx]; try contradiction; apply F in Hu;
        try (exfalso; apply Hnl; rewrite <- Hu; cbn [In]; tauto).
      * apply quotes_head in Hq as (r & ->). now destruct (Hnq r).
      * subst v. apply Hnum in Hn as ->. apply negzero_spec in Hs as ->. reflexivity.
      * subst v. destruct (Hx x). now apply Hnum.
  - assert (Hnum : forall y, ~ numeric parse_f64 u y).
    { intros y. rewrite (numeric_spec u Ht). rewrite En. intros [H _]. discriminate. }
    split.
    + intros H. injection H as <-. apply pt_string; auto.
    + destruct 1 as [Hb|v s Hu Hq|Hu|Hu|Hu|v y z Hu Hn Hs|v Hu Hne Hd Hl Hx]; try contradiction; apply F in Hu;
        try (exfalso; apply Hnl; rewrite <- Hu; cbn [In]; tauto).
      * apply quotes_head in Hq as (r & ->). now destruct (Hnq r).
      * subst v. now destruct (Hnum y).
      * now subst v.
Qed.

(** * Outside quotes *)

Lemma quoting_quote q s q' : quoting q (cDQ :: s) q' <-> quoting (negb q) s q'.
Proof. split; [inversion 1; subst; auto; congruence|now constructor]. Qed.
Lemma quoting_pair c s q' : quoting true (cBSLASH :: c :: s) q' <-> quoting true s q'.
Proof.
  split; [|now constructor]. inversion 1 as [|? ? ? H1|? ? ? H1| |? ? ? ? H1 H2 H3]; subst; auto.
  now destruct (H2 eq_refl).
Qed.
Lemma quoting_plain q c s q' : c <> cDQ -> (q = true -> c <> cBSLASH) -> (quoting q (c :: s) q' <-> quoting q s q').
Proof.
  intros Hc Hb. split; [|now constructor]. inversion 1 as [|? ? ? H1|? ? ? H1| |? ? ? ? H1 H2 H3]; subst; auto; try congruence.
  - now destruct (Hb eq_refl).
  - now destruct (Hb eq_refl).
Qed.
Lemma quoting_bslash q' : quoting true [cBSLASH] q' -> q' = true.
Proof. inversion 1 as [|? ? ? H1|? ? ? H1| |? ? ? ? H1 H2 H3]; subst; auto. now destruct (H2 eq_refl). Qed.
Lemma quoting_fun s : forall q a b, quoting q s a -> quoting q s b -> a = b.
Proof.
  induction s as [s IH] using strong_list. intros q a b Ha Hb. destruct Ha as [q|q s q' H|c s q' H| |q c s q' Hc Hn H].
  - inversion Hb; auto.
  - apply quoting_quote in Hb. eapply IH; [|exact H|exact Hb]. cbn; lia.
  - apply quoting_pair in Hb. eapply IH; [|exact H|exact Hb]. cbn; lia.
  - symmetry. now apply quoting_bslash.
  - apply quoting_plain in Hb; auto. eapply IH; [|exact H|exact Hb]. cbn; lia.
Qed.

(** [c] does not occur outside quotes when reading starts in state [q]. *)
Definition free (c : char) (q : bool) (s : str) : Prop := forall a b, s = a ++ c :: b -> ~ quoting q a false.
Lemma free_unquoted c s : ~ unquoted c s <-> free c false s.
Proof. split; [intros H a b E Hq; apply H; exists a, b; auto|intros H (a & b & E & Hq); exact (H a b E Hq)]. Qed.

Section Free.
Variable t : char.
Hypothesis Hdq : t <> cDQ.
Hypothesis Hbs : t <> cBSLASH.

Lemma free_nil q : free t q [].
Proof. intros a b E. destruct a; discriminate. Qed.
Lemma free_quote q s : free t q (cDQ :: s) <-> free t (negb q) s.
Proof.
  split.
  - intros H a b -> Hq. apply (H (cDQ :: a) b eq_refl). now apply quoting_quote.
  - intros H a b E Hq. destruct a as [|x a]; [injection E as E _; congruence|]. injection E as <- E.
    apply quoting_quote in Hq. exact (H a b E Hq).
Qed.
Lemma free_pair c s : free t true (cBSLASH :: c :: s) <-> free t true s.
Proof.
  split.
  - intros H a b -> Hq. apply (H (cBSLASH :: c :: a) b eq_refl). now apply quoting_pair.
  - intros H a b E Hq. destruct a as [|x a]; [injection E as E _; congruence|]. injection E as <- E.
    destruct a as [|y a]; [now apply quoting_bslash in Hq|]. injection E as <- E.
    apply quoting_pair in Hq. exact (H a b E Hq).
Qed.
Lemma free_plain q c s : c <> cDQ -> (q = true -> c <> cBSLASH) ->
  (free t q (c :: s) <-> (q = true \/ c <> t) /\ free t q s).
Proof.
  intros Hc Hb. split.
  - intros H. split.
    + destruct q; auto. right. intros ->. apply (H [] s eq_refl). constructor.
    + intros a b -> Hq. apply (H (c :: a) b eq_refl). now apply quoting_plain.
  - intros [H1 H] a b E Hq. destruct a as [|x a].
    + injection E as -> ->. destruct H1 as [->|]; [inversion Hq|congruence].
    + injection E as <- E. apply quoting_plain in Hq; auto. exact (H a b E Hq).
Qed.
Lemma free_bslash : free t true [cBSLASH].
Proof. intros a b E. destruct a as [|x a]; [injection E as E; congruence|]. injection E as _ E. destruct a; discriminate. Qed.

Lemma scan_unquoted_quote q s i : scan_unquoted t (cDQ :: s) q i = scan_unquoted t s (negb q) (S i).
Proof. cbn [scan_unquoted]. destruct s as [|x r]; [reflexivity|]. destruct (q && (cDQ =? cBSLASH)%N) eqn:E; [|reflexivity]. rewrite andb_comm in E. discriminate. Qed.
Lemma scan_unquoted_pair c s i : scan_unquoted t (cBSLASH :: c :: s) true i = scan_unquoted t s true (S (S i)).
Proof. reflexivity. Qed.
Lemma scan_unquoted_bslash i : scan_unquoted t [cBSLASH] true i = None.
Proof. cbn. rewrite andb_comm. reflexivity. Qed.
Lemma scan_unquoted_plain q c s i : c <> cDQ -> (q = true -> c <> cBSLASH) ->
  scan_unquoted t (c :: s) q i = if (c =? t)%N && negb q then Some i else scan_unquoted t s q (S i).
Proof.
  intros Hc Hb. cbn [scan_unquoted]. apply N.eqb_neq in Hc. rewrite Hc. destruct s as [|x r]; [reflexivity|].
  destruct (q && (c =? cBSLASH)%N) eqn:E; [|reflexivity]. apply andb_true_iff in E as [-> E]. apply N.eqb_eq in E. now destruct (Hb eq_refl).
Qed.

Lemma quote_cases q s : s = [] \/ (exists r, s = cDQ :: r) \/ (q = true /\ exists c r, s = cBSLASH :: c :: r) \/
  (q = true /\ s = [cBSLASH]) \/ (exists c r, s = c :: r /\ c <> cDQ /\ (q = true -> c <> cBSLASH)).
Proof.
  destruct s as [|c r]; [now left|]. destruct (N.eq_dec c cDQ) as [->|H1]; [right; left; now exists r|].
  destruct q; [|right; right; right; right; exists c, r; repeat split; auto; discriminate].
  destruct (N.eq_dec c cBSLASH) as [->|H2]; [|right; right; right; right; exists c, r; auto].
  destruct r as [|x r]; [right; right; right; left; auto|]. right. right. left. split; auto. exists x, r. reflexivity.
Qed.

Lemma scan_none s : forall q i, scan_unquoted t s q i = None <-> free t q s.
Proof.
  induction s as [s IH] using strong_list. intros q i.
  destruct (quote_cases q s) as [->|[(r & ->)|[(-> & c & r & ->)|[(-> & ->)|(c & r & -> & Hc & Hb)]]]].
  - split; [intros _; apply free_nil|reflexivity].
  - rewrite scan_unquoted_quote, free_quote. apply IH. cbn; lia.
  - rewrite scan_unquoted_pair, free_pair. apply IH. cbn; lia.
  - split; [intros _; apply free_bslash|intros _; apply scan_unquoted_bslash].
  - rewrite scan_unquoted_plain, free_plain by auto. destruct ((c =? t)%N && negb q) eqn:E.
    + apply andb_true_iff in E as [E1 E2]. apply N.eqb_eq in E1. apply negb_true_iff in E2. subst. split; [discriminate|].
      intros [[H|H] _]; congruence.
    + rewrite IH by (cbn; lia). apply andb_false_iff in E as [E|E].
      * apply N.eqb_neq in E. tauto.
      * apply negb_false_iff in E. tauto.
Qed.
Lemma scan_some s : forall q i k, scan_unquoted t s q i = Some k ->
  exists a b, s = a ++ t :: b /\ quoting q a false /\ free t q a /\ k = i + length a.
Proof.
  induction s as [s IH] using strong_list. intros q i k.
  destruct (quote_cases q s) as [->|[(r & ->)|[(-> & c & r & ->)|[(-> & ->)|(c & r & -> & Hc & Hb)]]]].
  - discriminate.
  - rewrite scan_unquoted_quote. intros H. apply IH in H as (a & b & -> & Hq & Hf & ->); [|cbn; lia].
    exists (cDQ :: a), b. split; auto. split; [now apply quoting_quote|]. split; [now apply free_quote|cbn; lia].
  - rewrite scan_unquoted_pair. intros H. apply IH in H as (a & b & -> & Hq & Hf & ->); [|cbn; lia].
    exists (cBSLASH :: c :: a), b. split; auto. split; [now apply quoting_pair|]. split; [now apply free_pair|cbn; lia].
  - rewrite scan_unquoted_bslash. discriminate.
  - rewrite scan_unquoted_plain by auto. destruct ((c =? t)%N && negb q) eqn:E.
    + apply andb_true_iff in E as [E1 E2]. apply N.eqb_eq in E1. apply negb_true_iff in E2. subst. intros H. injection H as <-.
      exists [], r. split; auto. split; [constructor|]. split; [apply free_nil|cbn; lia].
    + intros H. apply IH in H as (a & b & -> & Hq & Hf & ->); [|cbn; lia].
      exists (c :: a), b. split; auto. split; [now apply quoting_plain|]. split; [|cbn; lia]. apply free_plain; auto.
      split; auto. apply andb_false_iff in E as [E|E]; [right; now apply N.eqb_neq|left; now apply negb_false_iff].
Qed.
Lemma scan_hit_first a : forall q i b, quoting q a false -> free t q a -> scan_unquoted t (a ++ t :: b) q i = Some (i + length a).
Proof.
  intros q i b Hq Hf. destruct (scan_unquoted t (a ++ t :: b) q i) as [k|] eqn:E.
  - apply scan_some in E as (a' & b' & E & Hq' & Hf' & ->). f_equal. f_equal.
    destruct (Nat.lt_trichotomy (length a) (length a')) as [L|[L|L]]; auto; exfalso.
    + assert (E2 : exists c, a' = a ++ t :: c).
      { clear - E L. revert a' E L. induction a as [|x a IH]; intros a' E L.
        - destruct a' as [|y a']; [cbn in L; lia|]. injection E as <- _. now exists a'.
        - destruct a' as [|y a']; [cbn in L; lia|]. injection E as <- E. apply IH in E as (c & ->); [now exists c|cbn in L; lia]. }
      destruct E2 as (c & ->). exact (Hf' a c eq_refl Hq).
    + assert (E2 : exists c, a = a' ++ t :: c).
      { symmetry in E. clear - E L. revert a E L. induction a' as [|x a' IH]; intros a E L.
        - destruct a as [|y a]; [cbn in L; lia|]. injection E as <- _. now exists a.
        - destruct a as [|y a]; [cbn in L; lia|]. injection E as <- E. apply IH in E as (c & ->); [now exists c|cbn in L; lia]. }
      destruct E2 as (c & ->). exact (Hf a' c eq_refl Hq').
  - apply scan_none in E. now destruct (E a b eq_refl).
Qed.
End Free.

Lemma unquoted_cases t s : t <> cDQ -> t <> cBSLASH ->
  ~ unquoted t s \/ exists a b, s = a ++ t :: b /\ quoting false a false /\ ~ unquoted t a.
Proof.
  intros H1 H2. rewrite free_unquoted. destruct (scan_unquoted t s false 0) as [k|] eqn:E.
  - right. apply scan_some in E as (a & b & -> & Hq & Hf & _); auto. exists a, b. rewrite free_unquoted. auto.
  - left. eapply scan_none; eauto.
Qed.
Lemma key_value_spec s : is_key_value_content s = true <-> unquoted cCOLON s.
Proof.
  unfold is_key_value_content. rewrite find_unquoted_0. destruct (scan_unquoted cCOLON s false 0) as [k|] eqn:E.
  - split; auto. intros _. apply scan_some in E as (a & b & -> & Hq & _); try discriminate. exists a, b. auto.
  - split; [discriminate|]. apply scan_none in E; try discriminate. apply free_unquoted in E. contradiction.
Qed.
Lemma key_value_not s : is_key_value_content s = false <-> ~ unquoted cCOLON s.
Proof. rewrite <- key_value_spec. now rewrite not_true_iff_false. Qed.

(** * Cells *)

Section Cells.
Variable t : char.
Hypothesis Hdq : t <> cDQ.
Hypothesis Hbs : t <> cBSLASH.

Lemma pdv_quote s q buf vals : pdv_loop t (cDQ :: s) q buf vals = pdv_loop t s (negb q) (buf ++ [cDQ]) vals.
Proof. destruct s; reflexivity. Qed.
Lemma pdv_pair c s buf vals : pdv_loop t (cBSLASH :: c :: s) true buf vals = pdv_loop t s true (buf ++ [cBSLASH; c]) vals.
Proof. reflexivity. Qed.
Lemma pdv_bslash buf vals : pdv_loop t [cBSLASH] true buf vals = pdv_loop t [] true (buf ++ [cBSLASH]) vals.
Proof. reflexivity. Qed.
Lemma pdv_plain_char q c s buf vals : c <> cDQ -> (q = true -> c <> cBSLASH) ->
  pdv_loop t (c :: s) q buf vals =
  if (c =? t)%N && negb q then pdv_loop t s q [] (vals ++ [trim buf]) else pdv_loop t s q (buf ++ [c]) vals.
Proof.
  intros Hc Hb. cbn [pdv_loop]. apply N.eqb_neq in Hc. rewrite Hc.
  destruct ((c =? cBSLASH)%N && q) eqn:E; [|reflexivity]. apply andb_true_iff in E as [E ->]. apply N.eqb_eq in E. now destruct (Hb eq_refl).
Qed.

Lemma pdv_piece_last p : forall q buf vals, free t q p ->
  pdv_loop t p q buf vals = if negb (is_empty (buf ++ p)) || negb (is_empty vals) then vals ++ [trim (buf ++ p)] else vals.
Proof.
  induction p as [p IH] using strong_list. intros q buf vals.
  destruct (quote_cases q p) as [->|[(r & ->)|[(-> & c & r & ->)|[(-> & ->)|(c & r & -> & Hc & Hb)]]]].
  - intros _. rewrite app_nil_r. reflexivity.
  - rewrite free_quote, pdv_quote by auto. intros H. rewrite IH by (cbn; auto; lia). now rewrite <- app_assoc.
  - rewrite free_pair, pdv_pair by auto. intros H. rewrite IH by (cbn; auto; lia). now rewrite <- app_assoc.
  - intros _. rewrite pdv_bslash. reflexivity.
  - rewrite free_plain, pdv_plain_char by auto. intros [H1 H].
    replace ((c =? t)%N && negb q) with false. 2: { symmetry. apply andb_false_iff. destruct H1 as [->|H1]; auto. left. now apply N.eqb_neq. }
    rewrite IH by (cbn; auto; lia). now rewrite <- app_assoc.
Qed.
Lemma pdv_piece p : forall q buf vals r, free t q p -> quoting q p false ->
  pdv_loop t (p ++ t :: r) q buf vals = pdv_loop t r false [] (vals ++ [trim (buf ++ p)]).
Proof.
  induction p as [p IH] using strong_list. intros q buf vals rest Hf Hq.
  destruct (quote_cases q p) as [->|[(r & ->)|[(-> & c & r & ->)|[(-> & ->)|(c & r & -> & Hc & Hb)]]]]; cbn [app].
  - inversion Hq; subst. rewrite app_nil_r. rewrite pdv_plain_char by (auto; discriminate). now rewrite N.eqb_refl.
  - apply free_quote in Hf; auto. apply quoting_quote in Hq. rewrite pdv_quote by auto. rewrite IH by (cbn; auto; lia).
    now rewrite <- app_assoc.
  - apply free_pair in Hf; auto. apply quoting_pair in Hq. rewrite pdv_pair by auto. rewrite IH by (cbn; auto; lia).
    now rewrite <- app_assoc.
  - apply quoting_bslash in Hq. discriminate.
  - apply free_plain in Hf as [H1 Hf]; auto. apply quoting_plain in Hq; auto. rewrite pdv_plain_char by auto.
    replace ((c =? t)%N && negb q) with false. 2: { symmetry. apply andb_false_iff. destruct H1 as [->|H1]; auto. left. now apply N.eqb_neq. }
    rewrite IH by (cbn; auto; lia). now rewrite <- app_assoc.
Qed.

Lemma pieces_parse s ts : pieces t s ts -> forall vals, (s <> [] \/ vals <> []) -> pdv_loop t s false [] vals = vals ++ ts.
Proof.
  induction 1 as [p u Hf Hu|p u r ts Hf Hq Hu Hp IH]; intros vals Hne; apply free_unquoted in Hf; apply trims_spec in Hu as ->.
  - rewrite pdv_piece_last by auto. cbn [app]. replace (negb _ || negb _) with true; [reflexivity|].
    symmetry. destruct Hne as [H|H]; apply is_empty_false in H; rewrite H; [reflexivity|apply orb_true_r].
  - rewrite pdv_piece by auto. cbn [app]. rewrite IH; [now rewrite <- app_assoc|]. right. destruct vals; discriminate.
Qed.
Lemma pieces_exist s : exists ts, pieces t s ts.
Proof.
  induction s as [s IH] using strong_list. destruct (unquoted_cases t s Hdq Hbs) as [H|(a & b & -> & Hq & H)].
  - exists [trim s]. constructor; auto. apply trims_trim.
  - destruct (IH b) as (ts & Hts); [rewrite app_length; cbn; lia|]. exists (trim a :: ts). constructor; auto. apply trims_trim.
Qed.
Lemma cells_spec s ts : cells t s ts <-> parse_delimited_values s t = ts.
Proof.
  unfold cells, parse_delimited_values. destruct s as [|c r].
  - cbn. split; [intros [[_ ->]|[H _]]; [reflexivity|congruence]|intros <-; auto].
  - split.
    + intros [[H _]|[_ H]]; [discriminate|]. rewrite (pieces_parse _ _ H); auto. left. discriminate.
    + intros <-. right. split; [discriminate|]. destruct (pieces_exist (c :: r)) as (ts & H).
      rewrite (pieces_parse _ _ H); auto. left. discriminate.
Qed.
End Cells.

Lemma map_result_iff {A B} (f : A -> result B) (R : A -> B -> Prop) : (forall a b, f a = Ok b <-> R a b) ->
  forall l m, map_result f l = Ok m <-> Forall2 R l m.
Proof.
  intros H. induction l as [|a l IH]; intros m; cbn [map_result].
  - split; [intros E; injection E as <-; constructor|]. inversion 1. reflexivity.
  - split.
    + destruct (f a) as [b|] eqn:Ea; [|discriminate]. cbn [bind]. destruct (map_result f l) as [m'|] eqn:El; [|discriminate].
      cbn [bind]. intros E. injection E as <-. constructor; [now apply H|now apply IH].
    + inversion 1 as [|? b ? m' Hab Hlm]; subst. apply H in Hab. apply IH in Hlm. rewrite Hab, Hlm. reflexivity.
Qed.

Definition plain_delim (t : char) : Prop := t <> cDQ /\ t <> cBSLASH.
Lemma prims_spec t s ps : plain_delim t ->
  (prims_text parse_f64 t s ps <-> map_row_values_to_primitives (parse_delimited_values s t) = Ok ps).
Proof.
  intros [H1 H2]. unfold map_row_values_to_primitives, prims_text. rewrite (map_result_iff _ _ prim_spec). split.
  - intros (ts & Hc & Hf). apply cells_spec in Hc as <-; auto.
  - intros H. exists (parse_delimited_values s t). split; auto. now apply cells_spec.
Qed.
