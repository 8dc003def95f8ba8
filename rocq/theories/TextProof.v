(** The encoder writes the text that SpecText.v specifies, and there is only one such text. *)
From Verif Require Import Chars Floats Json JsonInd Shared EncPrim Normalize Folding Encoders EncodeApi DecRel
  Lex NumProof PrimProof Spec ParseProof Layout LayEnc SpecText.
From Coq Require Import Permutation.

Local Open Scope nat_scope.

(** * Tokens *)

Lemma digit_is c : is_digit c = true <-> digit c.
Proof. unfold is_digit, digit. lia. Qed.
Lemma digits_are s : all_digits s <-> Forall digit s.
Proof.
  unfold all_digits. split; intros H; eapply Forall_impl; try exact H; intros c; cbv beta; apply digit_is.
Qed.

Lemma escape_escaped s : escaped s (escape_string s).
Proof.
  induction s as [|c s IH]; [constructor|]. rewrite escape_cons. unfold escape_char.
  destruct (N.eqb_spec c cBSLASH); [subst; now apply es_escape; [left|]|].
  destruct (N.eqb_spec c cDQ); [subst; apply es_escape; [right; left|]; auto|].
  destruct (N.eqb_spec c cLF); [subst; apply es_escape; [right; right; left|]; auto|].
  destruct (N.eqb_spec c cCR); [subst; apply es_escape; [do 3 right; left|]; auto|].
  destruct (N.eqb_spec c cTAB); [subst; apply es_escape; [do 4 right; left|]; auto|].
  apply es_plain; auto. cbn. intuition congruence.
Qed.
Lemma escaped_fun s t : escaped s t -> t = escape_string s.
Proof.
  induction 1 as [|c s t Hn _ IH|c e s t Hi _ IH]; auto; rewrite escape_cons, <- IH; clear IH.
  - assert (E : escape_char c = [c]); [|now rewrite E].
    unfold escape_char. cbn in Hn.
    repeat match goal with |- context [(c =? ?x)%N] => destruct (N.eqb_spec c x); [exfalso; intuition congruence|] end.
    reflexivity.
  - cbn in Hi. repeat destruct Hi as [Hi|Hi]; try contradiction; injection Hi as <- <-; reflexivity.
Qed.
Lemma quoted_text_spec s t : quoted_text s t <-> t = quoted s.
Proof.
  unfold quoted_text, quoted. split.
  - intros (b & H & ->). now rewrite (escaped_fun _ _ H).
  - intros ->. eexists. split; [apply escape_escaped|reflexivity].
Qed.

Definition no_digit (s : str) : Prop := match s with [] => True | c :: _ => is_digit c = false end.
Lemma exponent_no_digit s : exponent s -> no_digit s.
Proof. intros [->|(e & sg & ds & -> & [-> | ->] & _)]; cbn; auto. Qed.
Lemma span_all ds : all_digits ds -> span_digits ds = (ds, []).
Proof. intros H. rewrite <- (app_nil_r ds) at 1. now apply span_digits_app. Qed.

Lemma num_exp_spec s : num_exp s = Some [] <-> exponent s.
Proof.
  split.
  - destruct s as [|c r]; [now left|]. cbn [num_exp]. destruct ((c =? cLE)%N || (c =? cUE)%N) eqn:Ec; [|discriminate].
    intros H. right. exists c.
    assert (Hs : exists sg r', r = sg ++ r' /\ (sg = [] \/ sg = [cPLUS] \/ sg = [cMINUS]) /\
       match r with [] => [] | x :: r'0 => if (x =? cPLUS)%N || (x =? cMINUS)%N then r'0 else r end = r').
    { destruct r as [|x r]; [exists [], []; auto|].
      destruct (N.eqb_spec x cPLUS) as [->|]; [exists [cPLUS], r; auto|].
      destruct (N.eqb_spec x cMINUS) as [->|]; [exists [cMINUS], r; auto|].
      exists [], (x :: r); auto. }
    destruct Hs as (sg & r' & -> & Hsg & Er). rewrite Er in H. destruct (span_digits r') as [ds rest] eqn:E.
    destruct (is_empty ds) eqn:Ed; [discriminate|]. injection H as ->. apply span_digits_spec in E as (-> & Hd & _).
    rewrite app_nil_r in *. exists sg, ds. split; auto. split; [lia|]. split; auto.
    split; [now apply is_empty_false|now apply digits_are].
  - intros [->|(e & sg & ds & -> & He & Hsg & Hne & Hd)]; [reflexivity|]. cbn [num_exp].
    assert (Ee : ((e =? cLE)%N || (e =? cUE)%N) = true) by lia. rewrite Ee.
    assert (Er : match sg ++ ds with [] => [] | x :: r' => if (x =? cPLUS)%N || (x =? cMINUS)%N then r' else sg ++ ds end = ds).
    { destruct Hsg as [->|[->| ->]]; [|reflexivity|reflexivity]. cbn [app]. destruct ds as [|x ds]; auto.
      inversion Hd as [|? ? Hx _]; subst. unfold digit in Hx.
      destruct (N.eqb_spec x cPLUS) as [->|]; [lia|].
      destruct (N.eqb_spec x cMINUS) as [->|]; [lia|]. reflexivity. }
    rewrite Er, span_all by now apply digits_are. apply is_empty_false in Hne. now rewrite Hne.
Qed.

Lemma num_tail_spec s : num_tail s = true <-> exists fp ep, s = fp ++ ep /\ fraction fp /\ exponent ep.
Proof.
  assert (Hx : forall r, match num_exp r with Some r' => is_empty r' | None => false end = true <-> exponent r).
  { intros r. rewrite <- num_exp_spec. destruct (num_exp r) as [r'|]; [|split; discriminate].
    rewrite is_empty_true. split; [intros ->; auto|intros E; now injection E]. }
  unfold num_tail. split.
  - destruct (num_frac s) as [r|] eqn:E; [|discriminate]. intros H. apply Hx in H.
    destruct s as [|c s]; [cbn in E; injection E as <-; exists [], []; repeat split; auto; now left|].
    cbn [num_frac] in E. destruct (N.eqb_spec c cDOT) as [->|].
    + destruct (span_digits s) as [ds r'] eqn:Es. destruct (is_empty ds) eqn:Ed; [discriminate|]. injection E as <-.
      apply span_digits_spec in Es as (-> & Hd & _). exists (cDOT :: ds), r'. split; auto. split; auto. right.
      exists ds. split; auto. split; [now apply is_empty_false|now apply digits_are].
    + injection E as <-. exists [], (c :: s). repeat split; auto. now left.
  - intros (fp & ep & -> & Hf & He). assert (E : num_frac (fp ++ ep) = Some ep).
    { destruct Hf as [->|(ds & -> & Hne & Hd)].
      - cbn [app]. destruct ep as [|c r]; auto. cbn [num_frac].
        destruct He as [He|(e & sg & ds & He & Hc & _)]; [discriminate|]. injection He as -> _.
        destruct Hc as [-> | ->]; reflexivity.
      - cbn [app num_frac]. change (cDOT =? cDOT)%N with true. cbv iota.
        rewrite span_digits_app; [|now apply digits_are|now apply exponent_no_digit].
        apply is_empty_false in Hne. now rewrite Hne. }
    rewrite E. now apply Hx.
Qed.

Lemma number_like_spec s : tight s -> (is_numeric_like s = true <-> number_like s).
Proof.
  intros Ht. unfold is_numeric_like. rewrite (trim_tight s Ht). clear Ht.
  assert (Hbody : forall b, (let '(ds, rest) := span_digits b in
     match ds with [] => false | d :: ds' => if negb (is_empty ds') && (d =? cZERO)%N then true else num_tail rest end) = true <->
     ((exists d r, b = cZERO :: d :: r /\ digit d) \/
      (exists ip fp ep, b = ip ++ fp ++ ep /\ digits ip /\ fraction fp /\ exponent ep))).
  { intros b. destruct (span_digits b) as [ds rest] eqn:Eb. pose proof (span_digits_spec _ _ _ Eb) as (-> & Hd & Hr).
    assert (Hgram : (exists ip fp ep, ds ++ rest = ip ++ fp ++ ep /\ digits ip /\ fraction fp /\ exponent ep) <->
                    ds <> [] /\ num_tail rest = true).
    { split.
      - intros (ip & fp & ep & E & (Hne & Hi) & Hf & He).
        assert (E' : span_digits (ip ++ fp ++ ep) = (ip, fp ++ ep)).
        { apply span_digits_app; [now apply digits_are|]. destruct Hf as [->|(x & -> & _)]; [now apply exponent_no_digit|reflexivity]. }
        rewrite <- E, Eb in E'. injection E' as <- ->. split; auto. apply num_tail_spec. eauto.
      - intros [Hne H]. apply num_tail_spec in H as (fp & ep & -> & Hf & He). exists ds, fp, ep. repeat split; auto.
        now apply digits_are. }
    rewrite Hgram. clear Hgram. destruct ds as [|d ds].
    - split; [discriminate|]. intros [(d & r & E & _)|[H _]]; [|congruence]. cbn in E. subst rest. discriminate.
    - inversion Hd as [|? ? Hd0 Hds]; subst. destruct ds as [|d' ds]; cbn [is_empty negb andb app].
      + split; [intros H; right; split; [discriminate|auto]|]. intros [(x & r & E & Hx)|[_ H]]; auto.
        exfalso. injection E as -> ->. apply digit_is in Hx. congruence.
      + inversion Hds as [|? ? Hd1 _]; subst. destruct (N.eqb_spec d cZERO) as [->|Hz]; cbn [andb].
        * split; auto. intros _. left. do 2 eexists. split; [reflexivity|now apply digit_is].
        * split; [intros H; right; split; [discriminate|auto]|]. intros [(x & r & E & Hx)|[_ H]]; auto. injection E as -> _ _. congruence. }
  unfold number_like. destruct s as [|c r].
  { split; [discriminate|]. intros (sg & b & E & _ & H). symmetry in E. apply app_eq_nil in E as [-> ->].
    destruct H as [(? & ? & H & _)|(ip & fp & ep & H & (Hne & _) & _)]; [discriminate|].
    symmetry in H. apply app_eq_nil in H as [-> _]. congruence. }
  destruct (N.eqb_spec c cMINUS) as [->|Hc].
  - rewrite Hbody. split.
    + intros H. exists [cMINUS], r. auto.
    + intros (sg & b & E & [->| ->] & H); [|injection E as ->; exact H]. exfalso. cbn in E. subst b.
      destruct H as [(? & ? & H & _)|(ip & fp & ep & H & (Hne & Hi) & _)]; [discriminate|].
      destruct ip; [congruence|]. injection H as <- _. inversion Hi as [|? ? Hx _]. unfold digit in Hx. lia.
  - rewrite Hbody. split.
    + intros H. exists [], (c :: r). auto.
    + intros (sg & b & E & [->| ->] & H); [|injection E as -> _; congruence]. cbn in E. now subst b.
Qed.

Lemma tight_spec s : ~ tight s <-> (exists c r, s = c :: r /\ is_ws c = true) \/ (exists c r, s = r ++ [c] /\ is_ws c = true).
Proof.
  split.
  - intros H. destruct s as [|c r]; [destruct H; exact I|]. unfold tight in H.
    destruct (is_ws c) eqn:Ec; [left; eauto|]. right.
    destruct (list_last_cases (c :: r)) as [E|(a & x & E)]; [discriminate|]. rewrite E in H |- *.
    rewrite last_app_single in H. exists x, a. split; auto. destruct (is_ws x); auto.
  - intros [(c & r & -> & Hc)|(c & r & -> & Hc)] Ht.
    + destruct Ht as [Ht _]. congruence.
    + unfold tight in Ht. destruct (r ++ [c]) eqn:E; [now destruct r|]. rewrite <- E, last_app_single in Ht.
      destruct Ht. congruence.
Qed.
Lemma tight_dec s : {tight s} + {~ tight s}.
Proof.
  destruct s as [|c r]; [left; exact I|]. unfold tight. destruct (is_ws c), (is_ws (last (c :: r) 0%N)); try (left; now split); right; intros [? ?]; discriminate.
Qed.

Lemma safe_spec s dl : is_safe_unquoted s dl = false <-> needs_quotes dl s.
Proof.
  unfold needs_quotes. split.
  - intros H. unfold is_safe_unquoted in H. destruct (is_empty s) eqn:E0; [left; now apply is_empty_true|]. right.
    destruct (tight_dec s) as [Ht|Ht]; [|apply tight_spec in Ht as [Ht|Ht]; auto]. right; right.
    rewrite (proj2 (str_eqb_eq _ _) (trim_tight s Ht)) in H. cbn [negb] in H.
    destruct (is_boolean_or_null_literal s) eqn:Eb.
    { left. unfold is_boolean_or_null_literal in Eb.
      repeat (apply orb_prop in Eb as [Eb|Eb]); apply str_eqb_eq in Eb; subst; cbn; auto. }
    right. cbn [orb] in H. destruct (is_numeric_like s) eqn:En; [left; now apply number_like_spec|]. right.
    destruct (starts_with cMINUS s) eqn:Em; [right; now apply starts_with_true|]. left.
    assert (Hin : exists c, contains c s = true /\ In c (dl :: structural)).
    { repeat match type of H with
      | (if ?b then _ else _) = _ => destruct b eqn:?
      end; try discriminate;
      repeat match goal with
      | H : _ || _ = true |- _ => apply orb_prop in H as [?|?]
      end; try (eexists; split; [eassumption|]; cbn; tauto). }
    destruct Hin as (c & Hc & Hi). exists c. split; auto. now apply contains_In.
  - intros H. destruct (is_safe_unquoted s dl) eqn:E; auto. exfalso.
    apply safe_unquoted_inv in E as (Hne & Ht & Hb & Hn & H1 & H2 & H3 & H4 & H5 & H6 & H7 & H8 & H9 & H10 & H11 & Hm).
    destruct H as [->|[H|[H|[H|[H|[H|H]]]]]].
    + congruence.
    + apply (proj2 (tight_spec s)); auto.
    + apply (proj2 (tight_spec s)); auto.
    + cbn in H. destruct H as [<-|[<-|[<-|[]]]]; discriminate.
    + apply number_like_spec in H; auto. congruence.
    + destruct H as (c & Hc & Hi). cbn in Hi. repeat (destruct Hi as [<-|Hi]); try tauto.
    + destruct H as (r & ->). discriminate.
Qed.

Lemma valid_key_spec k : is_valid_unquoted_key k = true <-> bare_key k.
Proof.
  unfold bare_key. split.
  - destruct k as [|c r]; [discriminate|]. cbn. intros E. apply andb_prop in E as [E1 E2]. exists c, r. split; auto.
    unfold is_alpha in E1. unfold letter. split; [lia|]. apply Forall_forall. intros x Hx. rewrite forallb_forall in E2.
    apply E2 in Hx. unfold is_alnum, is_alpha, is_digit in Hx. unfold letter, digit. lia.
  - intros (c & r & -> & Hc & Hr). cbn. apply andb_true_intro. split; [unfold letter in Hc; unfold is_alpha; lia|].
    apply forallb_forall. intros x Hx. rewrite Forall_forall in Hr. apply Hr in Hx.
    unfold letter, digit in Hx. unfold is_alnum, is_alpha, is_digit. lia.
Qed.
Lemma identifier_spec k : is_identifier_segment k = true <-> identifier k.
Proof.
  unfold identifier. split.
  - destruct k as [|c r]; [discriminate|]. cbn. intros E. apply andb_prop in E as [E1 E2]. exists c, r. split; auto.
    unfold is_alpha in E1. unfold letter. split; [lia|]. apply Forall_forall. intros x Hx. rewrite forallb_forall in E2.
    apply E2 in Hx. unfold is_alnum, is_alpha, is_digit in Hx. unfold letter, digit. lia.
  - intros (c & r & -> & Hc & Hr). cbn. apply andb_true_intro. split; [unfold letter in Hc; unfold is_alpha; lia|].
    apply forallb_forall. intros x Hx. rewrite Forall_forall in Hr. apply Hr in Hx.
    unfold letter, digit in Hx. unfold is_alnum, is_alpha, is_digit. lia.
Qed.

Lemma key_text_spec k t : key_text k t <-> t = encode_key k.
Proof.
  unfold key_text, encode_key. destruct (is_valid_unquoted_key k) eqn:E.
  - pose proof (proj1 (valid_key_spec k) E). intuition congruence.
  - assert (~ bare_key k) by (intros H; apply valid_key_spec in H; congruence).
    rewrite quoted_text_spec. unfold quoted. tauto.
Qed.

Lemma token_spec dl p t : token f64_to_string dl p t <-> t = encode_primitive p dl.
Proof.
  split.
  - intros H. inversion H as [| | |x s E|x s m e E|x E|s Hn|s u Hn Hq]; subst; try reflexivity; cbn [encode_primitive].
    + unfold format_number, f64_is_zero. now rewrite E.
    + unfold format_number, f64_is_zero, f64_is_finite. now rewrite E.
    + unfold format_number, f64_is_zero. rewrite E. unfold f64_is_finite in E. now destruct (f64_sf x).
    + unfold encode_string_literal. destruct (is_safe_unquoted t dl) eqn:Es; auto. apply safe_spec in Es. contradiction.
    + unfold encode_string_literal. apply safe_spec in Hn. rewrite Hn. now apply quoted_text_spec.
  - intros ->. destruct p as [s|x|b|]; [| |destruct b|]; cbn [encode_primitive]; [| |constructor..].
    + unfold encode_string_literal. destruct (is_safe_unquoted s dl) eqn:E.
      * apply tk_bare. intros H. apply safe_spec in H. congruence.
      * apply tk_quoted; [now apply safe_spec|now apply quoted_text_spec].
    + unfold format_number, f64_is_zero, f64_is_finite. destruct (f64_sf x) eqn:E; cbn [negb].
      * eapply tk_zero; eauto.
      * apply tk_other. unfold f64_is_finite. now rewrite E.
      * apply tk_other. unfold f64_is_finite. now rewrite E.
      * eapply tk_number; eauto.
Qed.

Lemma separated_spec dl l t : separated dl l t <-> t = join dl l.
Proof.
  split.
  - induction 1 as [|x|x y l r H IH]; auto. subst. reflexivity.
  - revert t. induction l as [|x [|y l] IH]; intros t ->; [constructor|constructor|].
    apply (sp_more dl x y l (join dl (y :: l))). now apply IH.
Qed.

Lemma Forall2_map_iff {A B} (R : A -> B -> Prop) (f : A -> B) l m :
  (forall a b, R a b <-> b = f a) -> (Forall2 R l m <-> m = map f l).
Proof.
  intros H. split.
  - induction 1 as [|a b l m Hr _ IH]; cbn; auto. apply H in Hr. congruence.
  - revert m. induction l as [|a l IH]; intros m ->; constructor; [now apply H|now apply IH].
Qed.

Lemma row_spec dl ps t : row f64_to_string dl ps t <-> t = encode_and_join_primitives ps dl.
Proof.
  unfold row, encode_and_join_primitives. split.
  - intros (ts & H & Hs). apply separated_spec in Hs. subst.
    rewrite (Forall2_map_iff _ (fun p => encode_primitive p dl)) in H by (intros; apply token_spec). now subst.
  - intros ->. eexists. split; [apply Forall2_map_iff with (f := fun p => encode_primitive p dl); [intros; apply token_spec|reflexivity]|].
    now apply separated_spec.
Qed.

Lemma digits_value_spec s : digits_value s = dec_val s.
Proof. reflexivity. Qed.
Lemma dec_val_inj a : forall b, all_digits a -> all_digits b -> length a = length b -> dec_val a = dec_val b -> a = b.
Proof.
  induction a as [|c a IH]; intros [|d b] Ha Hb Hl Hv; try discriminate; auto.
  inversion Ha as [|? ? Hc Ha']; inversion Hb as [|? ? Hd Hb']; subst. cbn in Hl. injection Hl as Hl.
  rewrite !dec_val_cons in Hv. rewrite Hl in Hv.
  pose proof (dec_val_bound a Ha') as B1. pose proof (dec_val_bound b Hb') as B2. rewrite Hl in B1.
  unfold is_digit in Hc, Hd. assert (c = d) by nia. subst d. f_equal. apply IH; auto. nia.
Qed.
Lemma decimal_spec n s : decimal n s <-> s = dec_of_N (N.of_nat n).
Proof.
  unfold decimal, digits. rewrite digits_value_spec, <- digits_are. generalize (N.of_nat n) as m. clear n. intros m.
  destruct (dec_of_N_spec m) as (Hd & Hv & c & r & E & H0 & H1). split.
  - intros ((Hne & Hs) & Hm & Hz). destruct s as [|x s]; [congruence|].
    destruct (N.eq_dec m 0) as [->|Hnz].
    + rewrite (H0 eq_refl). destruct (N.eq_dec x cZERO) as [->|Hx]; [now rewrite (Hz s eq_refl)|].
      pose proof (dec_val_lower x s Hs Hx). exfalso. assert (10 ^ N.of_nat (length s) <> 0)%N by (apply N.pow_nonzero; lia). lia.
    + specialize (H1 Hnz). assert (Hx : x <> cZERO).
      { intros ->. rewrite (Hz s eq_refl) in Hm. cbn in Hm. lia. }
      rewrite E in *. pose proof (dec_val_lower x s Hs Hx) as L1. pose proof (dec_val_lower c r Hd H1) as L2.
      pose proof (dec_val_bound _ Hs) as U1. pose proof (dec_val_bound _ Hd) as U2.
      rewrite Hm in L1, U1. rewrite Hv in L2, U2. cbn [length] in U1, U2.
      apply dec_val_inj; auto; [|congruence]. cbn. f_equal.
      assert (A : (N.of_nat (length s) < N.of_nat (S (length r)))%N) by (apply (N.pow_lt_mono_r_iff 10); lia).
      assert (B : (N.of_nat (length r) < N.of_nat (S (length s)))%N) by (apply (N.pow_lt_mono_r_iff 10); lia). lia.
  - intros ->. split; [split; auto; rewrite E; discriminate|]. split; auto. intros t Et.
    destruct (N.eq_dec m 0) as [Ez|Ez]; [rewrite (H0 Ez) in Et; now injection Et as <-|].
    specialize (H1 Ez). rewrite E in Et. injection Et as -> _. congruence.
Qed.

Lemma header_spec dl key n fields h : header dl key n fields h <-> h = format_header n key fields dl.
Proof.
  unfold format_header. split.
  - intros H. inversion H as [? ? ? kt nt dt ft Hk Hn Hd Hf]; subst. apply decimal_spec in Hn. subst nt.
    assert (Ek : kt = match key with Some k => encode_key k | None => [] end)
      by (destruct key; [now apply key_text_spec|auto]).
    assert (Ed : dt = if (dl =? DEFAULT_DELIMITER)%N then [] else [dl]).
    { change DEFAULT_DELIMITER with cCOMMA. destruct (N.eqb_spec dl cCOMMA); intuition congruence. }
    assert (Ef : ft = match fields with Some fs => cLBRACE :: join dl (map encode_key fs) ++ [cRBRACE] | None => [] end).
    { destruct fields as [fs|]; auto. destruct Hf as (ts & b & Ht & Hs & ->). apply separated_spec in Hs. subst b.
      rewrite (Forall2_map_iff _ encode_key) in Ht by apply key_text_spec. now subst. }
    now subst.
  - intros ->. apply hd_intro.
    + destruct key; [now apply key_text_spec|auto].
    + now apply decimal_spec.
    + change DEFAULT_DELIMITER with cCOMMA. destruct (N.eqb_spec dl cCOMMA); auto.
    + destruct fields as [fs|]; auto. do 2 eexists. split; [|split; [|reflexivity]].
      * apply Forall2_map_iff with (f := encode_key); [apply key_text_spec|reflexivity].
      * now apply separated_spec.
Qed.

(** * Tables *)

Lemma first_member_spec es k v : first_member es k v <-> object_get es k = Some v.
Proof.
  unfold first_member. split.
  - intros (a & b & -> & Hn). induction a as [|[k' v'] a IH]; cbn [app object_get].
    + now rewrite str_eqb_refl.
    + cbn in Hn. rewrite (proj2 (str_eqb_neq k' k)) by tauto. apply IH. tauto.
  - induction es as [|[k' v'] es IH]; cbn [object_get]; [discriminate|]. destruct (str_eqb k' k) eqn:E.
    + intros H. injection H as ->. apply str_eqb_eq in E as ->. exists [], es. auto.
    + intros H. destruct (IH H) as (a & b & -> & Hn). exists ((k', v') :: a), b. split; auto. cbn.
      apply str_eqb_neq in E. tauto.
Qed.
Lemma table_row_spec fields v cells : table_row fields v cells <-> row_of_fields fields v cells.
Proof.
  unfold table_row, row_of_fields.
  assert (H : forall es, Forall2 (fun f p => first_member es f (JPrim p)) fields cells <->
                         Forall2 (fun f p => object_get es f = Some (JPrim p)) fields cells).
  { intros es. split; induction 1; constructor; auto; now apply first_member_spec. }
  split; intros (es & -> & Hl & Hf); exists es; split; auto; split; auto; now apply H.
Qed.

Lemma row_matches_cells fields v : row_matches fields v = true <-> exists cells, row_of_fields fields v cells.
Proof.
  unfold row_of_fields. split.
  - destruct v as [|l|es]; try discriminate. cbn [row_matches]. intros H. apply andb_prop in H as [Hl Hf].
    apply Nat.eqb_eq in Hl.
    assert (Hc : exists cells, Forall2 (fun f p => object_get es f = Some (JPrim p)) fields cells).
    { clear Hl. induction fields as [|f fs IH]; [exists []; constructor|]. cbn [forallb] in Hf. apply andb_prop in Hf as [H1 H2].
      destruct (IH H2) as [cells Hc]. destruct (object_get es f) as [[p| |]|] eqn:E; try discriminate.
      exists (p :: cells). constructor; auto. }
    destruct Hc as [cells Hc]. eauto.
  - intros (cells & es & -> & Hl & Hf). cbn [row_matches]. apply andb_true_intro. split; [now apply Nat.eqb_eq|].
    apply forallb_forall. intros f Hi. clear Hl. induction Hf as [|a p fs ps Ha _ IH]; [contradiction|].
    destruct Hi as [->|Hi]; auto. now rewrite Ha.
Qed.
Lemma table_spec l fields : (exists rows, table l fields rows) <-> extract_tabular_header l = Some fields.
Proof.
  unfold table. split.
  - intros (rows & Hne & (first & r & -> & Hf) & Hr). unfold extract_tabular_header.
    destruct first as [|kv first]; [cbn in Hf; congruence|]. rewrite Hf.
    assert (E : is_tabular_array (JObj (kv :: first) :: r) fields = true); [|now rewrite E].
    apply forallb_forall. intros v Hv. apply row_matches_cells. clear - Hr Hv.
    induction Hr as [|a b la lb Hab _ IH]; [contradiction|]. destruct Hv as [->|Hv]; [|auto].
    exists b. now apply table_row_spec.
  - intros H. apply extract_header in H as (first & r & -> & Hf & Hne & Ht). unfold is_tabular_array in Ht.
    assert (Hc : exists rows, Forall2 (table_row fields) (JObj first :: r) rows).
    { clear - Ht. induction (JObj first :: r) as [|v l IH]; [exists []; constructor|]. cbn [forallb] in Ht.
      apply andb_prop in Ht as [H1 H2]. destruct (IH H2) as [rows Hr]. apply row_matches_cells in H1 as [cells Hc].
      exists (cells :: rows). constructor; auto. now apply table_row_spec. }
    destruct Hc as [rows Hr]. exists rows. split; auto. split; eauto.
Qed.
Lemma table_none l : extract_tabular_header l = None -> forall fields rows, ~ table l fields rows.
Proof.
  intros H fields rows Ht. assert (E : extract_tabular_header l = Some fields) by (apply table_spec; eauto). congruence.
Qed.

(** * Folding *)

Lemma collect_chain_complete v ks z : chain v ks z -> forall segs max,
  (N.of_nat (length segs + length ks) <= max)%N ->
  (N.of_nat (length segs + length ks) = max \/ forall k' v', z <> JObj [(k', v')]) ->
  collect_chain segs v max = (rev segs ++ ks, z).
Proof.
  induction 1 as [v|k v ks z _ IH]; intros segs max Hle Hmax.
  - rewrite app_nil_r. cbn [length] in *. rewrite Nat.add_0_r in *.
    destruct v as [p|l|l]; cbn [collect_chain]; destruct (N.ltb_spec (N.of_nat (length segs)) max); auto.
    destruct l as [|[k x] [|kv' l]]; auto. exfalso. destruct Hmax as [Hm|Hm]; [lia|]. now eapply Hm.
  - cbn [length] in *. cbn [collect_chain]. destruct (N.ltb_spec (N.of_nat (length segs)) max) as [_|Hx]; [|lia].
    rewrite IH; [cbn [rev]; now rewrite <- app_assoc| |]; cbn [length].
    + lia.
    + destruct Hmax; [left; lia|now right].
Qed.
Lemma collect_chain_max v : forall segs max r z, collect_chain segs v max = (r, z) ->
  (N.of_nat (length segs) <= max)%N ->
  exists ks, r = rev segs ++ ks /\ chain v ks z /\ (N.of_nat (length segs + length ks) <= max)%N /\
    (N.of_nat (length segs + length ks) = max \/ forall k' v', z <> JObj [(k', v')]).
Proof.
  induction v using json_ind'; intros segs max r z E Hle; cbn [collect_chain] in E;
    destruct (N.ltb_spec (N.of_nat (length segs)) max) as [Hlt|Hge];
    try (injection E as <- <-; exists []; cbn [length]; rewrite app_nil_r, Nat.add_0_r;
         split; auto; split; [constructor|]; split; auto; right; discriminate);
    try (injection E as <- <-; exists []; cbn [length]; rewrite app_nil_r, Nat.add_0_r;
         split; auto; split; [constructor|]; split; auto; left; lia).
  destruct l as [|[k v] [|kv' l]];
    try (injection E as <- <-; exists []; cbn [length]; rewrite app_nil_r, Nat.add_0_r;
         split; auto; split; [constructor|]; split; auto; right; discriminate).
  inversion H as [|? ? Hv _]; subst. cbn in Hv. apply Hv in E as (ks & -> & Hc & Hl & Hm); [|cbn [length]; lia].
  cbn [length] in Hl, Hm. exists (k :: ks). cbn [length]. split; [cbn [rev]; now rewrite <- app_assoc|].
  split; [now constructor|]. split; [lia|]. destruct Hm; [left; lia|now right].
Qed.

Definition rest_of (z : json) : option json := match z with JObj (_ :: _) => Some z | _ => None end.

Section Enc.
Variable o : renc_options.
Notation dl := (ro_delimiter o).
Notation ind := (ro_indent o).
Notation fdepth := (ro_flatten_depth o).
Notation fold := (folding o).

(** The arguments of the encoder that tell where an object stands. *)
Definition standing (rl : option (list str)) (pp : option str) (fd : N) (c : place) : Prop :=
  pl_budget c = fd /\
  (forall k, In k (pl_literals c) <-> In k (match rl with Some l => l | None => [] end)) /\
  match pp with None => pl_path c = [] | Some p => pl_path c <> [] /\ p = join cDOT (pl_path c) end.

Lemma join_snoc (l : list str) k : join cDOT (l ++ [k]) = match l with [] => k | _ => join cDOT l ++ cDOT :: k end.
Proof.
  induction l as [|x l IH]; [reflexivity|]. destruct l as [|y l]; [reflexivity|].
  change ((x :: y :: l) ++ [k]) with (x :: (y :: l) ++ [k]). rewrite join_cons by discriminate. rewrite IH.
  rewrite (join_cons cDOT x (y :: l)) by discriminate. unfold str. rewrite <- app_assoc. reflexivity.
Qed.
Lemma standing_path rl pp fd c k : standing rl pp fd c -> path_join pp k = join cDOT (pl_path c ++ [k]).
Proof.
  intros (_ & _ & H). rewrite join_snoc. unfold path_join. destruct pp as [p|]; [|now rewrite H].
  destruct H as [Hn ->]. destruct (pl_path c); [congruence|reflexivity].
Qed.
Lemma standing_under rl pp fd fd' c k : standing rl pp fd c ->
  standing rl (Some (path_join pp k)) fd' (Place (pl_literals c) (pl_path c ++ [k]) fd').
Proof.
  intros H. pose proof (standing_path _ _ _ _ k H) as E. destruct H as (_ & Hl & _). split; [reflexivity|].
  split; [exact Hl|]. split; [|exact E]. cbn. now destruct (pl_path c).
Qed.
Lemma standing_fresh : standing None None fdepth (fresh fdepth).
Proof. split; [reflexivity|]. split; [|reflexivity]. intros k. reflexivity. Qed.

Lemma str_mem_spec k l : str_mem k l = true <-> In k l.
Proof.
  unfold str_mem. rewrite existsb_exists. split.
  - intros (x & Hx & E). apply str_eqb_eq in E. now subst.
  - intros H. exists k. split; auto. apply str_eqb_refl.
Qed.

Lemma folds_spec rl pp fd c sibs k v ks z : standing rl pp fd c ->
  (folds fold c sibs k v ks z <->
   try_fold_key_chain k v sibs o rl pp fd = Some (FoldResult (join cDOT (k :: ks)) (rest_of z) z (S (length ks)))
   /\ ks <> [] /\ chain v ks z).
Proof.
  intros Hs. pose proof (standing_path _ _ _ _ (join cDOT (k :: ks)) Hs) as Ep. destruct Hs as (Hb & Hl & _).
  unfold folds, folding, try_fold_key_chain, collect_single_key_chain. rewrite Hb. split.
  - intros (Hf & Hne & Hc & Hle & Hmax & Hid & Hsib & Hlit). split; auto.
    destruct (ro_key_folding o); [discriminate|].
    assert (Ev : is_json_object v = true) by (destruct Hc; [congruence|reflexivity]). rewrite Ev. cbn [negb].
    assert (Hlen : 1 <= length ks) by (destruct ks; [congruence|cbn; lia]).
    destruct (N.ltb_spec fd 2) as [Hx|_]; [lia|].
    rewrite (collect_chain_complete v ks z Hc [k] fd) by (cbn [length]; auto). cbn [rev app].
    assert (Et : (match z with JObj [] => (k :: ks, None, z) | JObj (_ :: _) => (k :: ks, Some z, z) | _ => (k :: ks, None, z) end)
                 = (k :: ks, rest_of z, z)) by (destruct z as [| |[|]]; reflexivity).
    rewrite Et. cbn [length]. destruct (Nat.ltb_spec (S (length ks)) 2) as [Hx|_]; [lia|].
    assert (Ei : forallb is_identifier_segment (k :: ks) = true).
    { apply forallb_forall. intros x Hx. apply identifier_spec. rewrite Forall_forall in Hid. auto. }
    rewrite Ei. cbn [negb]. destruct (str_mem _ sibs) eqn:Em; [apply str_mem_spec in Em; contradiction|].
    destruct rl as [rk|]; auto. rewrite Ep. destruct (str_mem _ rk) eqn:Er; auto. apply str_mem_spec in Er.
    exfalso. apply Hlit, Hl, Er.
  - intros (E & Hne & Hc). destruct (ro_key_folding o); [discriminate|]. split; auto. split; auto. split; auto.
    destruct (negb (is_json_object v)); [discriminate|]. destruct (N.ltb_spec fd 2) as [|Hfd]; [discriminate|].
    destruct (collect_chain [k] v fd) as [segs leaf] eqn:Ec.
    apply collect_chain_max in Ec as (ks' & -> & Hc' & Hle & Hmax); [|cbn [length]; lia]. cbn [rev app length] in *.
    assert (Et : (match leaf with JObj [] => (k :: ks', None, leaf) | JObj (_ :: _) => (k :: ks', Some leaf, leaf) | _ => (k :: ks', None, leaf) end)
                 = (k :: ks', rest_of leaf, leaf)) by (destruct leaf as [| |[|]]; reflexivity).
    rewrite Et in E. destruct (Nat.ltb _ 2); [discriminate|].
    destruct (forallb is_identifier_segment (k :: ks')) eqn:Ei; [|discriminate]. cbn [negb] in E.
    destruct (str_mem _ sibs) eqn:Em; [discriminate|].
    assert (Efr : FoldResult (join cDOT (k :: ks')) (rest_of leaf) leaf (S (length ks')) = FoldResult (join cDOT (k :: ks)) (rest_of z) z (S (length ks)) /\
              match rl with Some rk => str_mem (path_join pp (join cDOT (k :: ks'))) rk = false | None => True end).
    { destruct rl as [rk|]; [destruct (str_mem _ rk) eqn:?; [discriminate|]|]; (split; [cbn [length] in E; congruence|now auto]). }
    destruct Efr as [Efr Hrl]. injection Efr as Ej _ -> El.
    assert (Eks : ks' = ks).
    { clear - Hc Hc' El. revert ks Hc El. induction Hc' as [x|k0 x ks0 z0 _ IH]; intros ks Hc El.
      - destruct ks; auto; discriminate.
      - inversion Hc; subst; [discriminate|]. f_equal. apply IH; auto. }
    subst ks'. split; auto. split; auto. split.
    { apply Forall_forall. intros x Hx. apply identifier_spec. rewrite forallb_forall in Ei. auto. }
    split; [intros Hi; apply str_mem_spec in Hi; congruence|]. intros Hi. apply Hl in Hi.
    destruct rl as [rk|]; [|contradiction]. rewrite <- Ep in Hi. apply str_mem_spec in Hi. congruence.
Qed.

Lemma folds_some rl pp fd c sibs k v fr : standing rl pp fd c -> try_fold_key_chain k v sibs o rl pp fd = Some fr ->
  exists ks z, folds fold c sibs k v ks z /\ fr = FoldResult (join cDOT (k :: ks)) (rest_of z) z (S (length ks)).
Proof.
  intros Hs E.
  assert (H : exists ks z, ks <> [] /\ chain v ks z /\ fr = FoldResult (join cDOT (k :: ks)) (rest_of z) z (S (length ks))).
  { unfold try_fold_key_chain, collect_single_key_chain in E. destruct (ro_key_folding o); [discriminate|].
    destruct (negb (is_json_object v)); [discriminate|]. destruct (N.ltb_spec fd 2) as [|Hfd]; [discriminate|].
    destruct (collect_chain [k] v fd) as [segs leaf] eqn:Ec.
    apply collect_chain_max in Ec as (ks' & -> & Hc' & Hle & Hmax); [|cbn [length]; lia]. cbn [rev app length] in *.
    assert (Et : (match leaf with JObj [] => (k :: ks', None, leaf) | JObj (_ :: _) => (k :: ks', Some leaf, leaf) | _ => (k :: ks', None, leaf) end)
                 = (k :: ks', rest_of leaf, leaf)) by (destruct leaf as [| |[|]]; reflexivity).
    rewrite Et in E. destruct (Nat.ltb_spec (length (k :: ks')) 2) as [|Hlen]; [discriminate|]. cbn [length] in *.
    destruct (forallb is_identifier_segment (k :: ks')) eqn:Ei; [|discriminate]. cbn [negb] in E.
    destruct (str_mem _ sibs) eqn:Em; [discriminate|].
    exists ks', leaf. split; [intros ->; cbn in Hlen; lia|]. split; auto.
    destruct rl as [rk|]; [destruct (str_mem _ rk) eqn:?; [discriminate|]|]; congruence. }
  destruct H as (ks & z & Hne & Hc & ->). exists ks, z. split; auto. eapply folds_spec; eauto.
Qed.
Lemma folds_none rl pp fd c sibs k v : standing rl pp fd c -> try_fold_key_chain k v sibs o rl pp fd = None ->
  forall ks z, ~ folds fold c sibs k v ks z.
Proof. intros Hs E ks z H. apply (proj1 (folds_spec _ _ _ _ _ _ _ _ _ Hs)) in H as [H _]. congruence. Qed.

Notation member := (member f64_to_string dl fold fdepth).
Notation members := (members f64_to_string dl fold fdepth).
Notation value_of := (value_of f64_to_string dl fold fdepth).
Notation array := (array f64_to_string dl fold fdepth).
Notation items := (items f64_to_string dl fold fdepth).
Notation item := (item f64_to_string dl fold fdepth).

Lemma key_text_ok k : key_text k (encode_key k).
Proof. now apply key_text_spec. Qed.
Lemma token_ok p : token f64_to_string dl p (encode_primitive p dl).
Proof. now apply token_spec. Qed.
Lemma header_ok key n fields : header dl key n fields (format_header n key fields dl).
Proof. now apply header_spec. Qed.

Lemma inline_text t l key d : is_array_of_primitives l = true ->
  array t key d l [(d, encode_inline_array_line l dl key)].
Proof.
  intros H. destruct (prims_of_map l H) as (ps & -> & Ep). unfold encode_inline_array_line. rewrite Ep.
  destruct ps as [|p ps]; cbn [is_empty].
  - apply ar_empty. apply header_ok.
  - rewrite map_length. apply ar_inline; [apply header_ok|now apply row_spec].
Qed.
Lemma not_prims l : is_array_of_primitives l = false -> forall ps, l <> map JPrim ps.
Proof.
  intros H ps ->. assert (is_array_of_primitives (map JPrim ps) = true); [|congruence].
  unfold is_array_of_primitives. apply forallb_forall. intros v Hv. apply in_map_iff in Hv as (p & <- & _). reflexivity.
Qed.

Lemma table_text key d l fields ls : extract_tabular_header l = Some fields ->
  write_tabular_rows_lines l fields (S d) o = Ok ls ->
  exists abs, array true key d l ((d, format_header (length l) key (Some fields) dl) :: abs) /\
    ls = map (render ind) abs.
Proof.
  intros He Hw. pose proof (extract_header _ _ He) as (first & r & El & Hf & Hne & Ht).
  apply write_rows_ok in Hw as (cells & Hc & ->); auto. eexists. split; [|reflexivity].
  rewrite <- (map_map (fun r => encode_and_join_primitives r dl) (fun t => (S d, t))).
  apply (ar_table f64_to_string dl fold fdepth key d l fields cells).
  - split; auto. split; [eauto|]. clear - Hc. induction Hc; constructor; auto. now apply table_row_spec.
  - apply header_ok.
  - apply Forall2_map_iff with (f := fun r => encode_and_join_primitives r dl); [intros; apply row_spec|reflexivity].
Qed.

Section Step.
Variable fuel : nat.
Definition effective (d : nat) (rl : option (list str)) (l : list (str * json)) : option (list str) :=
  match d, rl with O, None => Some (filter (contains cDOT) (map fst l)) | _, r => r end.
Hypothesis IHobj : forall l d rl pp rd ls c, encode_object_lines fuel l d o rl pp rd = Ok ls ->
  standing (effective d rl l) pp (unwrap_or rd fdepth) c ->
  exists abs, members c (map fst l) d l abs /\ ls = map (render ind) abs.
Hypothesis IHkv : forall k v d sibs rl pp fd ls c,
  encode_key_value_pair_lines fuel k v d o sibs rl pp fd = Ok ls -> standing rl pp fd c ->
  exists abs, member c sibs d (k, v) abs /\ ls = map (render ind) abs.
Hypothesis IHarr : forall key l d ls, encode_array_lines fuel key l d o = Ok ls ->
  exists abs, array true key d l abs /\ ls = map (render ind) abs.
Hypothesis IHitem : forall v d ls, encode_list_item_value_lines fuel v d o = Ok ls ->
  exists abs, item d v abs /\ ls = map (render ind) abs.
Hypothesis IHoitem : forall l d ls, encode_object_as_list_item_lines fuel l d o = Ok ls ->
  exists abs, item d (JObj l) abs /\ ls = map (render ind) abs.

Lemma items_text d l ls : concat_results (fun item => encode_list_item_value_lines fuel item d o) l = Ok ls ->
  exists abs, items d l abs /\ ls = map (render ind) abs.
Proof.
  revert ls. induction l as [|v l IH]; intros ls E; cbn [concat_results] in E.
  - injection E as <-. exists []. split; constructor.
  - inv_bind E. injection E as <-. destruct (IHitem _ _ _ E0) as (xs & La & ->). destruct (IH _ eq_refl) as (ys & Lb & ->).
    exists (xs ++ ys). split; [now constructor|now rewrite map_app].
Qed.

Lemma text_obj l d rl pp rd ls c : encode_object_lines (S fuel) l d o rl pp rd = Ok ls ->
  standing (effective d rl l) pp (unwrap_or rd fdepth) c ->
  exists abs, members c (map fst l) d l abs /\ ls = map (render ind) abs.
Proof.
  cbn [encode_object_lines]. unfold effective.
  generalize (match d, rl with O, None => Some (filter (contains cDOT) (map fst l)) | _, r => r end).
  generalize (map fst l) as sibs. generalize (unwrap_or rd fdepth) as fd.
  intros fd sibs rl' E Hs. revert ls E. induction l as [|[k v] l IH]; intros ls E; cbn [concat_results] in E.
  - injection E as <-. exists []. split; constructor.
  - cbn [fst snd] in E. inv_bind E. injection E as <-. destruct (IHkv _ _ _ _ _ _ _ _ _ E0 Hs) as (xs & La & ->).
    destruct (IH _ eq_refl) as (ys & Lb & ->). exists (xs ++ ys). split; [now constructor|now rewrite map_app].
Qed.

Lemma text_plain k v d rl cp fd ls c : plain_kv o fuel k v d rl cp fd = Ok ls -> standing rl (Some cp) fd c ->
  exists abs, value_of c d k v abs /\ ls = map (render ind) abs.
Proof.
  intros E Hs. unfold plain_kv in E. destruct v as [p|l|l].
  - injection E as <-. eexists. split; [apply vo_prim; [apply key_text_ok|apply token_ok]|reflexivity].
  - destruct (IHarr _ _ _ _ E) as (abs & L & ->). eexists. split; [apply vo_arr; exact L|reflexivity].
  - cbv zeta in E. destruct (is_empty l) eqn:El.
    + injection E as <-. apply is_empty_true in El as ->. eexists.
      split; [apply vo_obj; [apply key_text_ok|constructor]|reflexivity].
    + inv_bind E. injection E as <-. destruct (IHobj _ _ _ _ _ _ c E0) as (abs & L & ->); [exact Hs|].
      eexists. split; [apply vo_obj; [apply key_text_ok|exact L]|reflexivity].
Qed.

Lemma text_kv k v d sibs rl pp fd ls c :
  encode_key_value_pair_lines (S fuel) k v d o sibs rl pp fd = Ok ls -> standing rl pp fd c ->
  exists abs, member c sibs d (k, v) abs /\ ls = map (render ind) abs.
Proof.
  cbn [encode_key_value_pair_lines]. cbv zeta. intros E Hs.
  change (match v with
          | JPrim p => Ok [indented_key_value_line d (encode_key k) (encode_primitive p dl) ind]
          | JArr items => encode_array_lines fuel (Some k) items d o
          | JObj entries => if is_empty entries then Ok [indented_key_colon_line d (encode_key k) ind]
              else let? rest := encode_object_lines fuel entries (S d) o rl (Some (path_join pp k)) (Some fd) in
                   Ok (indented_key_colon_line d (encode_key k) ind :: rest)
          end) with (plain_kv o fuel k v d rl (path_join pp k) fd) in E.
  destruct (try_fold_key_chain k v sibs o rl pp fd) as [fr|] eqn:Ef.
  2: { destruct (text_plain _ _ _ _ _ _ _ _ E (standing_under _ _ _ _ _ k Hs)) as (abs & L & ->).
       exists abs. split; auto. apply me_plain; [eapply folds_none; eauto|].
       destruct Hs as (-> & _). exact L. }
  destruct (folds_some _ _ _ _ _ _ _ _ Hs Ef) as (ks & z & Hf & ->). cbn [fr_key fr_remainder fr_leaf fr_count] in E.
  pose proof (standing_under _ _ _ (fd - N.of_nat (S (length ks)))%N _ (join cDOT (k :: ks)) Hs) as Hu.
  assert (Hgo : forall abs, value_of (Place (pl_literals c) (pl_path c ++ [join cDOT (k :: ks)]) (fd - N.of_nat (S (length ks)))) d
                  (join cDOT (k :: ks)) z abs -> member c sibs d (k, v) abs).
  { intros abs L. eapply me_folded; [exact Hf|]. destruct Hs as (-> & _). exact L. }
  destruct z as [p|l|[|kv l]]; cbn [rest_of] in E.
  - injection E as <-. eexists. split; [apply Hgo, vo_prim; [apply key_text_ok|apply token_ok]|reflexivity].
  - destruct (IHarr _ _ _ _ E) as (abs & L & ->). eexists. split; [apply Hgo, vo_arr; exact L|reflexivity].
  - injection E as <-. eexists. split; [apply Hgo, vo_obj; [apply key_text_ok|constructor]|reflexivity].
  - inv_bind E. injection E as <-. destruct (IHobj _ _ _ _ _ _ _ E0 Hu) as (abs & L & ->).
    eexists. split; [apply Hgo, vo_obj; [apply key_text_ok|exact L]|reflexivity].
Qed.

Lemma text_arr key l d ls : encode_array_lines (S fuel) key l d o = Ok ls ->
  exists abs, array true key d l abs /\ ls = map (render ind) abs.
Proof.
  cbn [encode_array_lines]. cbv zeta. intros E.
  assert (Hmixed : is_array_of_primitives l = false -> (let? rest := concat_results
                       (fun item => encode_list_item_value_lines fuel item (S d) o) l in
        Ok (indented_line d (format_header (length l) key None dl) ind :: rest)) = Ok ls ->
     extract_tabular_header l = None ->
     exists abs, array true key d l abs /\ ls = map (render ind) abs).
  { intros Hp E' Hx. inv_bind E'. injection E' as <-. destruct (items_text _ _ _ E0) as (abs & L & ->).
    eexists. split; [apply ar_list; [now apply not_prims|intros _; now apply table_none|apply header_ok|exact L]|reflexivity]. }
  destruct (is_empty l) eqn:El.
  { injection E as <-. apply is_empty_true in El as ->. eexists. split; [apply ar_empty; apply header_ok|reflexivity]. }
  destruct (is_array_of_primitives l) eqn:Ep.
  { injection E as <-. eexists. split; [apply inline_text; auto|reflexivity]. }
  destruct (is_array_of_arrays l && _) eqn:Ea.
  { injection E as <-. apply andb_prop in Ea as [Ea0 Ea]. unfold encode_array_of_arrays_as_list_items_lines.
    assert (Hl : exists abs, items (S d) l abs /\ flat_map (fun item => match item with
                           | JArr items => [indented_list_item (S d) (encode_inline_array_line items dl None) ind]
                           | _ => [] end) l = map (render ind) abs).
    { clear - Ea. induction l as [|v l IH]; [exists []; split; constructor|].
      cbn [forallb] in Ea. apply andb_prop in Ea as [Hp Ea]. destruct v as [p|its|es]; try discriminate.
      destruct (IH Ea) as (abs & L & E).
      eexists. split; [eapply is_cons; [apply it_arr, inline_text; exact Hp|exact L]|]. cbn [flat_map]. now rewrite E. }
    destruct Hl as (abs & L & ->). eexists.
    split; [apply ar_list; [now apply not_prims|intros _; now apply table_none, extract_arrays|apply header_ok|exact L]|reflexivity]. }
  destruct (is_array_of_objects l) eqn:Eo; [|apply Hmixed; auto; now apply extract_none].
  destruct (extract_tabular_header l) as [fields|] eqn:Eh; auto.
  unfold encode_array_of_objects_as_tabular_lines in E. cbv zeta in E. inv_bind E. injection E as <-.
  destruct (table_text key d l fields _ Eh E0) as (abs & L & ->). eexists. split; [exact L|reflexivity].
Qed.

Lemma text_item v d ls : encode_list_item_value_lines (S fuel) v d o = Ok ls ->
  exists abs, item d v abs /\ ls = map (render ind) abs.
Proof.
  cbn [encode_list_item_value_lines]. cbv zeta. intros E. destruct v as [p|l|l].
  - injection E as <-. eexists. split; [apply it_prim, token_ok|reflexivity].
  - destruct (is_array_of_primitives l) eqn:Ep.
    + injection E as <-. eexists. split; [apply it_arr, inline_text; exact Ep|reflexivity].
    + inv_bind E. injection E as <-. destruct (items_text _ _ _ E0) as (abs & L & ->).
      eexists. split; [apply it_arr, ar_list; [now apply not_prims|discriminate|apply header_ok|exact L]|reflexivity].
  - eauto.
Qed.

Lemma text_oitem l d ls : encode_object_as_list_item_lines (S fuel) l d o = Ok ls ->
  exists abs, item d (JObj l) abs /\ ls = map (render ind) abs.
Proof.
  cbn [encode_object_as_list_item_lines]. cbv zeta. intros E. destruct l as [|[k v] rest].
  { injection E as <-. eexists. split; [apply it_none|reflexivity]. }
  inv_bind E. injection E as <-. rename E0 into Eh, E1 into Er.
  match type of Eh with _ = Ok ?x => rename x into head end.
  match type of Er with _ = Ok ?x => rename x into tl end.
  assert (Hrest : exists abs, members (fresh fdepth) (map fst rest) (S d) rest abs /\ tl = map (render ind) abs).
  { destruct (is_empty rest) eqn:El.
    - injection Er as <-. apply is_empty_true in El as ->. exists []. split; constructor.
    - eapply IHobj; [exact Er|]. exact standing_fresh. }
  destruct Hrest as (absr & Lr & ->). clear Er.
  assert (Hhead : exists t abs, value_of (fresh fdepth) (S d) k v ((S d, t) :: abs) /\
     head = map (render ind) ((d, cMINUS :: cSPACE :: t) :: abs)).
  { destruct v as [p|l|l].
    - injection Eh as <-. eexists _, _. split; [apply vo_prim; [apply key_text_ok|apply token_ok]|reflexivity].
    - destruct (if is_array_of_objects l then extract_tabular_header l else None) as [fields|] eqn:Et.
      + destruct (is_array_of_objects l); [|discriminate]. inv_bind Eh. injection Eh as <-.
        destruct (table_text (Some k) (S d) l fields _ Et E) as (abs & L & ->).
        eexists _, _. split; [apply vo_arr; exact L|reflexivity].
      + destruct (is_empty l) eqn:El; [|destruct (is_array_of_primitives l) eqn:Ep].
        * injection Eh as <-. apply is_empty_true in El as ->. eexists _, _.
          split; [apply vo_arr, ar_empty, header_ok|reflexivity].
        * injection Eh as <-. eexists _, _. split; [apply vo_arr, inline_text; exact Ep|].
          cbn [map]. unfold render, indented_list_item_key_header, indented_line. cbn [fst snd].
          do 2 f_equal. cbn [app]. do 2 f_equal. unfold encode_inline_array_line.
          destruct (is_empty (prims_of l)); [reflexivity|]. now rewrite app_assoc.
        * assert (Hx : extract_tabular_header l = None).
          { destruct (is_array_of_objects l) eqn:Eo; [auto|now apply extract_none]. }
          inv_bind Eh. injection Eh as <-. destruct (items_text _ _ _ E) as (abs & L & ->). eexists _, _.
          split; [apply vo_arr, ar_list; [now apply not_prims|intros _; now apply table_none|apply header_ok|exact L]|reflexivity].
    - destruct (is_empty l) eqn:El.
      + injection Eh as <-. apply is_empty_true in El as ->. eexists _, _.
        split; [apply vo_obj; [apply key_text_ok|constructor]|reflexivity].
      + inv_bind Eh. injection Eh as <-. destruct (IHobj _ _ _ _ _ _ _ E standing_fresh) as (abs & L & ->).
        eexists _, _. split; [apply vo_obj; [apply key_text_ok|exact L]|reflexivity]. }
  destruct Hhead as (t & abs & L & ->).
  eexists. split; [eapply it_obj; eauto|]. cbn [map]. now rewrite map_app.
Qed.
End Step.

Lemma enc_text fuel :
  (forall l d rl pp rd ls c, encode_object_lines fuel l d o rl pp rd = Ok ls ->
    standing (effective d rl l) pp (unwrap_or rd fdepth) c ->
    exists abs, members c (map fst l) d l abs /\ ls = map (render ind) abs) /\
  (forall k v d sibs rl pp fd ls c,
    encode_key_value_pair_lines fuel k v d o sibs rl pp fd = Ok ls -> standing rl pp fd c ->
    exists abs, member c sibs d (k, v) abs /\ ls = map (render ind) abs) /\
  (forall key l d ls, encode_array_lines fuel key l d o = Ok ls ->
    exists abs, array true key d l abs /\ ls = map (render ind) abs) /\
  (forall v d ls, encode_list_item_value_lines fuel v d o = Ok ls ->
    exists abs, item d v abs /\ ls = map (render ind) abs) /\
  (forall l d ls, encode_object_as_list_item_lines fuel l d o = Ok ls ->
    exists abs, item d (JObj l) abs /\ ls = map (render ind) abs).
Proof.
  induction fuel as [|fuel (H1 & H2 & H3 & H4 & H5)].
  - repeat split; intros; discriminate.
  - split; [|split; [|split; [|split]]].
    + intros. eapply text_obj; eauto.
    + intros. eapply text_kv; eauto.
    + intros. eapply text_arr; eauto.
    + intros. eapply text_item; eauto.
    + intros. eapply text_oitem; eauto.
Qed.

Lemma encode_primitive_nonempty p : encode_primitive p dl <> [].
Proof.
  destruct p as [s|x|b|]; cbn [encode_primitive].
  - unfold encode_string_literal. destruct (is_safe_unquoted s dl) eqn:E; [|discriminate].
    apply safe_unquoted_inv in E. apply E.
  - destruct (f64_is_finite x) eqn:E.
    + destruct (format_number_shape x E) as (sg & ip & fp & Ex & _ & _ & Hn & _). rewrite Ex.
      destruct sg; [discriminate|]. destruct ip; [congruence|discriminate].
    + unfold format_number. rewrite E. destruct (f64_is_zero x); discriminate.
  - destruct b; discriminate.
  - discriminate.
Qed.

Lemma value_text v ls : encode_json_value v o = Ok ls ->
  exists abs, document f64_to_string dl fold fdepth v abs /\ ls = map (shown ind) abs.
Proof.
  change (map (shown ind)) with (map (render ind)).
  unfold encode_json_value. cbv zeta. intros E. destruct v as [p|l|l].
  - pose proof (encode_primitive_nonempty p) as Hn. apply is_empty_false in Hn. rewrite Hn in E. injection E as <-.
    eexists. split; [apply do_prim, token_ok|]. unfold render, indented_line. cbn [map fst snd]. now rewrite Nat.mul_0_r.
  - apply enc_text in E as (abs & L & ->). exists abs. split; [now constructor|auto].
  - destruct (proj1 (enc_text _) _ _ _ _ _ _ (Place (filter (contains cDOT) (map fst l)) [] fdepth) E) as (abs & L & ->).
    { split; [reflexivity|]. split; [reflexivity|reflexivity]. }
    exists abs. split; auto. eapply do_obj; [|exact L]. intros k. rewrite filter_In, contains_In. reflexivity.
Qed.

(** * There is only one text *)

Definition same_place (c c' : place) : Prop :=
  (forall k, In k (pl_literals c) <-> In k (pl_literals c')) /\ pl_path c = pl_path c' /\ pl_budget c = pl_budget c'.
Lemma same_place_under c c' p b : same_place c c' ->
  same_place (Place (pl_literals c) (pl_path c ++ p) b) (Place (pl_literals c') (pl_path c' ++ p) b).
Proof. intros (H1 & H2 & H3). split; [exact H1|]. cbn. split; congruence. Qed.
Lemma same_place_refl c : same_place c c.
Proof. now split. Qed.

Lemma folds_same c c' sibs k v ks z : same_place c c' -> folds fold c sibs k v ks z -> folds fold c' sibs k v ks z.
Proof.
  intros (H1 & H2 & H3) (A1 & A2 & A3 & A4 & A5 & A6 & A7 & A8). unfold folds. rewrite <- H2, <- H3.
  repeat (split; [assumption|]). intros Hi. apply H1 in Hi. contradiction.
Qed.
Lemma same_place_sym c c' : same_place c c' -> same_place c' c.
Proof. intros (H1 & H2 & H3). split; [intros k; now rewrite H1|now split]. Qed.
Lemma folds_fun c c' sibs k v ks z ks' z' : same_place c c' -> folds fold c sibs k v ks z -> folds fold c' sibs k v ks' z' ->
  ks = ks' /\ z = z'.
Proof.
  intros (_ & _ & Hb) (_ & _ & Hc & Hl & Hm & _) (_ & _ & Hc' & Hl' & Hm' & _). rewrite <- Hb in *.
  pose proof (collect_chain_complete v ks z Hc [k] (pl_budget c) Hl Hm) as E.
  pose proof (collect_chain_complete v ks' z' Hc' [k] (pl_budget c) Hl' Hm') as E'.
  rewrite E in E'. now injection E' as -> ->.
Qed.

Lemma table_fun l fields rows fields' rows' : table l fields rows -> table l fields' rows' -> fields = fields' /\ rows = rows'.
Proof.
  intros (_ & (f & r & -> & <-) & H) (_ & (f' & r' & E & <-) & H'). injection E as <- <-. split; auto.
  revert rows' H'. induction H as [|v c l cs Hv _ IH]; intros rows' H'; inversion H' as [|? c' ? cs' Hv' Hcs]; subst; auto.
  f_equal; auto. clear - Hv Hv'. apply table_row_spec in Hv as (es & -> & _ & H). apply table_row_spec in Hv' as (es' & E & _ & H').
  injection E as <-. revert c' H'. induction H as [|k p ks ps Hp _ IH]; intros c' H'; inversion H'; subst; auto.
  f_equal; [congruence|auto].
Qed.
Lemma map_prim_inj (a b : list prim) : map JPrim a = map JPrim b -> a = b.
Proof.
  revert b. induction a as [|x a IH]; intros [|y b] E; try discriminate; auto. cbn in E. injection E as -> E. f_equal. auto.
Qed.
Lemma table_not_prims l fields rows ps : table l fields rows -> l <> map JPrim ps.
Proof. intros (_ & (f & r & -> & _) & _). destruct ps; discriminate. Qed.

Ltac texts := repeat match goal with
  | H : key_text _ _ |- _ => apply key_text_spec in H
  | H : token _ _ _ _ |- _ => apply token_spec in H
  | H : header _ _ _ _ _ |- _ => apply header_spec in H
  | H : row _ _ _ _ |- _ => apply row_spec in H
  | H : Forall2 (row _ _) _ _ |- _ =>
      apply (proj1 (Forall2_map_iff _ (fun r => encode_and_join_primitives r dl) _ _ (row_spec dl))) in H
  end.

Lemma text_fun :
  (forall c sibs d kv a, member c sibs d kv a -> forall c' b, same_place c c' -> member c' sibs d kv b -> a = b) /\
  (forall c d k v a, value_of c d k v a -> forall c' b, same_place c c' -> value_of c' d k v b -> a = b) /\
  (forall c sibs d l a, members c sibs d l a -> forall c' b, same_place c c' -> members c' sibs d l b -> a = b) /\
  (forall t key d l a, array t key d l a -> forall b, array t key d l b -> a = b) /\
  (forall d l a, items d l a -> forall b, items d l b -> a = b) /\
  (forall d v a, item d v a -> forall b, item d v b -> a = b).
Proof.
  apply text_mutind.
  - intros c sibs d k v ks z ls Hf _ IH c' b Hs Hb. inversion Hb as [? ? ? ? ? ks' z' ? Hf' Hv|? ? ? ? ? ? Hn _]; subst.
    + destruct (folds_fun _ _ _ _ _ _ _ _ _ Hs Hf Hf') as [<- <-]. eapply IH; [|exact Hv].
      pose proof (same_place_under c c' [join cDOT (k :: ks)] (pl_budget c - N.of_nat (S (length ks))) Hs) as H.
      destruct Hs as (_ & _ & <-). exact H.
    + exfalso. eapply Hn, folds_same; eauto.
  - intros c sibs d k v ls Hn _ IH c' b Hs Hb. inversion Hb as [? ? ? ? ? ks' z' ? Hf' Hv|? ? ? ? ? ? _ Hv]; subst.
    + exfalso. eapply Hn, folds_same; [apply same_place_sym; exact Hs|exact Hf'].
    + eapply IH; [|exact Hv]. pose proof (same_place_under c c' [k] (pl_budget c) Hs) as H. destruct Hs as (_ & _ & <-). exact H.
  - intros c d k p kt t Hk Ht c' b Hs Hb. inversion Hb; subst. texts. now subst.
  - intros c d k l kt ls Hk _ IH c' b Hs Hb. inversion Hb as [|? ? ? ? ? ? Hk' Hm|]; subst. texts. subst. f_equal. eauto.
  - intros c d k l ls _ IH c' b Hs Hb. inversion Hb; subst. eauto.
  - intros c sibs d c' b Hs Hb. now inversion Hb.
  - intros c sibs d kv l a b _ IH1 _ IH2 c' x Hs Hb. inversion Hb; subst. f_equal; eauto.
  - intros t key d h Hh b Hb. inversion Hb as [| | ? ? ? ? ? ? ? Ht|? ? ? ? ? ? Hn]; subst.
    + texts. now subst.
    + destruct Ht as (_ & (? & ? & E & _) & _). discriminate.
    + now destruct (Hn []).
  - intros t key d p ps h r Hh Hr b Hb. inversion Hb as [|? ? ? p' ps' ? ? Hh' Hr'|? ? ? ? ? ? ? Ht|? ? ? ? ? ? Hn]; subst.
    + match goal with H : _ = map JPrim ps |- _ => apply map_prim_inj in H as -> end. texts. now subst.
    + now destruct (table_not_prims _ _ _ (p :: ps) Ht).
    + now destruct (Hn (p :: ps)).
  - intros key d l fields rows h ts Ht Hh Hr b Hb. inversion Hb as [|? ? ? p' ps' ? ? Hh' Hr'|? ? ? fields' rows' ? ts' Ht'|? ? ? ? ? ? Hn Hnt]; subst.
    + destruct Ht as (_ & (? & ? & E & _) & _). discriminate.
    + now destruct (table_not_prims _ _ _ (p' :: ps') Ht).
    + destruct (table_fun _ _ _ _ _ Ht Ht') as [-> ->]. texts. now subst.
    + now destruct (Hnt eq_refl fields rows).
  - intros t key d l h ls Hn Hnt Hh _ IH b Hb. inversion Hb as [|? ? ? p' ps' ? ? Hh' Hr'|? ? ? fields' rows' ? ts' Ht'|]; subst.
    + now destruct (Hn []).
    + now destruct (Hn (p' :: ps')).
    + now destruct (Hnt eq_refl fields' rows').
    + texts. subst. f_equal. auto.
  - intros d b Hb. now inversion Hb.
  - intros d v l a b _ IH1 _ IH2 x Hb. inversion Hb; subst. f_equal; auto.
  - intros d p t Ht b Hb. inversion Hb; subst. texts. now subst.
  - intros d l t ls _ IH b Hb. inversion Hb as [|? ? t' ls' Ha| |]; subst. specialize (IH _ Ha). now injection IH as -> ->.
  - intros d b Hb. now inversion Hb.
  - intros d k v l t a b _ IH1 _ IH2 x Hb. inversion Hb as [| | |? ? ? ? t' a' b' Hv Hm]; subst.
    specialize (IH1 _ _ (same_place_refl _) Hv). injection IH1 as -> ->. f_equal. f_equal. eapply IH2; eauto using same_place_refl.
Qed.

Lemma document_fun v a b : document f64_to_string dl fold fdepth v a -> document f64_to_string dl fold fdepth v b -> a = b.
Proof.
  intros Ha Hb. destruct Ha as [p t Ht|l ls Hl|l dk ls Hd Hm]; inversion Hb as [? t' Ht'|? ls' Hl'|? dk' ls' Hd' Hm']; subst.
  - texts. now subst.
  - eapply (proj1 (proj2 (proj2 (proj2 text_fun)))); eauto.
  - eapply (proj1 (proj2 (proj2 text_fun))); eauto. split; [|split; reflexivity]. intros k. cbn. now rewrite Hd, Hd'.
Qed.
End Enc.
