(** Number text printed by the JSON side: its shape, that it is a JSON number, and that it reads
    back as the number. *)
From Coq Require Import SpecFloat.
From Verif Require Import Chars Floats Json NumProof Scanner Parser DecValidation Decoders EventBuilder Expand DecodeApi JsonText SpecJson.

Local Open Scope Z_scope.

(** * Rounding does not depend on the fraction chosen *)

Lemma flog2_q_spec n d K : 0 < n -> 0 < d -> 0 <= K -> 1 <= K + (Z.log2 n - Z.log2 d) ->
  d * 2 ^ (K + flog2_q n d) <= n * 2 ^ K /\ n * 2 ^ K < d * 2 ^ (K + flog2_q n d + 1).
Proof.
  intros Hn Hd HK Ha. pose proof (Z.log2_spec n Hn) as [Ln1 Ln2]. pose proof (Z.log2_spec d Hd) as [Ld1 Ld2].
  pose proof (Z.log2_nonneg n). pose proof (Z.log2_nonneg d).
  unfold flog2_q. set (ln := Z.log2 n) in *. set (ld := Z.log2 d) in *.
  assert (U : n * 2 ^ K < d * 2 ^ (K + (ln - ld) + 1)).
  { apply Z.lt_le_trans with (2 ^ Z.succ ln * 2 ^ K).
    - apply Z.mul_lt_mono_pos_r; [apply Z.pow_pos_nonneg; lia|lia].
    - apply Z.le_trans with (2 ^ ld * 2 ^ (K + (ln - ld) + 1)).
      + rewrite <- !Z.pow_add_r by lia. apply Z.pow_le_mono_r; lia.
      + apply Z.mul_le_mono_nonneg_r; [apply Z.pow_nonneg; lia|lia]. }
  assert (L : d * 2 ^ (K + (ln - ld - 1)) <= n * 2 ^ K).
  { apply Z.le_trans with (2 ^ Z.succ ld * 2 ^ (K + (ln - ld - 1))).
    - apply Z.mul_le_mono_nonneg_r; [apply Z.pow_nonneg; lia|lia].
    - rewrite <- !Z.pow_add_r by lia. apply Z.le_trans with (2 ^ ln * 2 ^ K).
      + rewrite <- !Z.pow_add_r by lia. apply Z.pow_le_mono_r; lia.
      + apply Z.mul_le_mono_nonneg_r; [apply Z.pow_nonneg; lia|lia]. }
  destruct (Z.leb_spec (d * pow2 (ln - ld)) (n * pow2 (- (ln - ld)))) as [C|C].
  - apply (cmp_scale n d K) in C; [|lia|lia]. split; lia.
  - split; [exact L|]. replace (K + (ln - ld - 1) + 1) with (K + (ln - ld)) by lia.
    destruct (Z.lt_ge_cases (n * 2 ^ K) (d * 2 ^ (K + (ln - ld)))) as [D|D]; [exact D|].
    apply cmp_scale in D; lia.
Qed.

Lemma flog2_q_scale k n d : 0 < k -> 0 < n -> 0 < d -> flog2_q (k * n) (k * d) = flog2_q n d.
Proof.
  intros Hk Hn Hd.
  pose (K := Z.log2 n + Z.log2 d + Z.log2 (k * n) + Z.log2 (k * d) + 2).
  pose proof (Z.log2_nonneg n). pose proof (Z.log2_nonneg d).
  pose proof (Z.log2_nonneg (k * n)). pose proof (Z.log2_nonneg (k * d)).
  destruct (flog2_q_spec n d K) as [A B]; try (unfold K; lia).
  assert (0 <= K + flog2_q n d).
  { unfold flog2_q. destruct (_ <=? _); unfold K; lia. }
  apply (flog2_q_correct _ _ _ K); try (unfold K; nia); fold K; try nia.
Qed.

Lemma div_half_even_scale k n d : 0 < k -> 0 < d -> div_half_even (k * n) (k * d) = div_half_even n d.
Proof.
  intros Hk Hd. unfold div_half_even. rewrite Z.div_mul_cancel_l, Z.mul_mod_distr_l by lia.
  replace (2 * (k * (n mod d)) <? k * d) with (2 * (n mod d) <? d).
  2: { destruct (Z.ltb_spec (2 * (n mod d)) d), (Z.ltb_spec (2 * (k * (n mod d))) (k * d)); auto; nia. }
  replace (k * d <? 2 * (k * (n mod d))) with (d <? 2 * (n mod d)).
  2: { destruct (Z.ltb_spec d (2 * (n mod d))), (Z.ltb_spec (k * d) (2 * (k * (n mod d)))); auto; nia. }
  reflexivity.
Qed.

Lemma round_q_scale s k n d : 0 < k -> 0 <= n -> 0 < d -> round_q s (k * n) (k * d) = round_q s n d.
Proof.
  intros Hk Hn Hd. unfold round_q.
  destruct (Z.eqb_spec n 0) as [->|Hz]; [now rewrite Z.mul_0_r|].
  destruct (Z.eqb_spec (k * n) 0); [nia|].
  rewrite flog2_q_scale by lia. set (e := Z.max _ _).
  rewrite <- !Z.mul_assoc. rewrite div_half_even_scale; auto. pose proof (pow2_pos e). nia.
Qed.

Lemma round_dec_tenth s c p : 0 <= p -> round_dec s (c * 10 ^ Z.to_N p * 10) (-1) = round_dec s c p.
Proof.
  intros Hp. unfold round_dec. change (-1 <? 0) with true. cbv iota.
  destruct (Z.ltb_spec p 0); [lia|].
  rewrite !N2Z.inj_mul, N2Z.inj_pow, Z2N.id by lia. change (Z.of_N 10) with 10. change (10 ^ - -1) with (10 * 1).
  rewrite (Z.mul_comm (_ * _) 10). apply round_q_scale; try lia.
Qed.

(** * Numerals *)

(** An exponent part, and its value. *)
Definition exponent (ex : str) (E : Z) : Prop :=
  (ex = [] /\ E = 0) \/
  exists sg ds, ex = cLE :: sg ++ ds /\ all_digits ds /\ ds <> [] /\
    (((sg = [] \/ sg = [cPLUS]) /\ E = Z.of_N (dec_val ds)) \/ (sg = [cMINUS] /\ E = - Z.of_N (dec_val ds))).

(** What the printed text looks like. *)
Definition numeral (n : str) (s : bool) (ip fp ex : str) (E : Z) : Prop :=
  n = (if s then [cMINUS] else []) ++ ip ++ (if is_empty fp then [] else cDOT :: fp) ++ ex /\
  all_digits ip /\ all_digits fp /\ ip <> [] /\ (forall r, ip = cZERO :: r -> r = []) /\ exponent ex E.

Lemma digits_head ds r : all_digits ds -> ds <> [] -> exists c t, ds ++ r = c :: t /\ is_digit c = true.
Proof. intros H Hn. destruct ds as [|c t]; [congruence|]. inversion H; subst. exists c, (t ++ r); auto. Qed.

Lemma exponent_parse ex E : exponent ex E -> parse_exp ex = Some E.
Proof.
  intros [[-> ->]|(sg & ds & -> & Hd & Hn & H)]; [reflexivity|].
  unfold parse_exp. change (cLE =? cLE)%N with true. cbn [orb].
  assert (Hs : span_digits ds = (ds, [])).
  { rewrite <- (app_nil_r ds) at 1. now apply span_digits_app. }
  assert (He : is_empty ds = false) by (destruct ds; auto; congruence).
  destruct H as [[[->| ->] ->]|[-> ->]]; cbn [app].
  - destruct ds as [|c t]; [congruence|]. inversion Hd; subst.
    replace (c =? cPLUS)%N with false by (unfold is_digit in *; lia).
    replace (c =? cMINUS)%N with false by (unfold is_digit in *; lia).
    rewrite Hs. reflexivity.
  - change (cPLUS =? cPLUS)%N with true. cbv iota. now rewrite Hs, He.
  - change (cMINUS =? cPLUS)%N with false. change (cMINUS =? cMINUS)%N with true. cbv iota. now rewrite Hs, He.
Qed.

Lemma exponent_head ex E : exponent ex E -> ex = [] \/ exists t, ex = cLE :: t.
Proof. intros [[-> _]|(sg & ds & -> & _)]; eauto. Qed.

Lemma span_digits_sep ds ex E : all_digits ds -> exponent ex E -> span_digits (ds ++ ex) = (ds, ex).
Proof.
  intros Hd Hx. apply span_digits_app; auto. destruct (exponent_head ex E Hx) as [->|[t ->]]; [exact I|reflexivity].
Qed.

Lemma sign_match {A} (s : bool) ip r (f : bool -> str -> A) (d : A) :
  all_digits ip -> ip <> [] ->
  match (if s then [cMINUS] else []) ++ ip ++ r with
  | c :: r' => if (c =? cMINUS)%N then f true r' else f false ((if s then [cMINUS] else []) ++ ip ++ r)
  | [] => d
  end = f s (ip ++ r).
Proof.
  intros Hi Hn. destruct s; cbn [app]; [reflexivity|]. destruct ip as [|c ip]; [congruence|]. cbn [app].
  inversion Hi; subst. destruct (digit_not_special c) as [-> _]; auto.
Qed.

Lemma numeral_parse n s ip fp ex E : numeral n s ip fp ex E ->
  parse_f64 n = Some (mk_f64 (round_dec s (dec_val (ip ++ fp)) (E - Z.of_nat (length fp)))).
Proof.
  intros (-> & Hi & Hf & Hn & _ & Hx). unfold parse_f64.
  rewrite (sign_match s ip _ (fun a b => (a, b)) (false, [])) by auto.
  assert (Hie : is_empty ip = false) by (destruct ip; auto; congruence).
  destruct fp as [|f fp]; cbn [is_empty app].
  - rewrite (span_digits_sep ip ex E) by auto. rewrite Hie.
    destruct (exponent_head ex E Hx) as [->|[t ->]].
    + rewrite (exponent_parse _ _ Hx). reflexivity.
    + change (cLE =? cDOT)%N with false. cbv iota. rewrite (exponent_parse _ _ Hx). reflexivity.
  - rewrite span_digits_app by (auto; exact eq_refl). rewrite Hie.
    change (cDOT =? cDOT)%N with true. cbv iota.
    change (f :: fp ++ ex) with ((f :: fp) ++ ex). rewrite (span_digits_sep _ ex E) by auto.
    cbn [is_empty]. rewrite (exponent_parse _ _ Hx). reflexivity.
Qed.

Lemma forallb_digits ds : all_digits ds -> forallb is_digit ds = true.
Proof. intros H. apply forallb_forall. intros x Hx. exact (proj1 (Forall_forall _ _) H x Hx). Qed.

Lemma exponent_part ex E : exponent ex E -> exp_part ex = true.
Proof.
  intros [[-> ->]|(sg & ds & -> & Hd & Hn & H)]; [reflexivity|].
  unfold exp_part. change (cLE =? cLE)%N with true. cbn [orb andb].
  assert (He : is_empty ds = false) by (destruct ds; auto; congruence).
  assert (Hf := forallb_digits ds Hd).
  destruct H as [[[->| ->] _]|[-> _]]; cbn [app].
  - destruct ds as [|c t]; [congruence|]. inversion Hd; subst.
    replace (c =? cPLUS)%N with false by (unfold is_digit in *; lia).
    replace (c =? cMINUS)%N with false by (unfold is_digit in *; lia).
    cbn [orb]. now rewrite Hf.
  - change (cPLUS =? cPLUS)%N with true. cbn [orb]. now rewrite He, Hf.
  - change (cMINUS =? cMINUS)%N with true. rewrite orb_true_r. now rewrite He, Hf.
Qed.

Lemma numeral_json n s ip fp ex E : numeral n s ip fp ex E -> json_numeral n = true.
Proof.
  intros (-> & Hi & Hf & Hn & Hl & Hx). unfold json_numeral.
  rewrite (sign_match s ip _ (fun a b => b) []) by auto.
  assert (Hip : int_part ip = true).
  { destruct ip as [|c r]; [congruence|]. cbn [int_part]. destruct (N.eqb_spec c cZERO) as [->|]; [|reflexivity].
    now rewrite (Hl r eq_refl). }
  destruct fp as [|f fp]; cbn [is_empty app].
  - rewrite (span_digits_sep ip ex E) by auto. rewrite Hip. cbn [andb].
    destruct (exponent_head ex E Hx) as [->|[t ->]]; [reflexivity|].
    change (cLE =? cDOT)%N with false. cbv iota. exact (exponent_part _ _ Hx).
  - rewrite span_digits_app by (auto; exact eq_refl). rewrite Hip. cbn [andb].
    change (cDOT =? cDOT)%N with true. cbv iota.
    change (f :: fp ++ ex) with ((f :: fp) ++ ex). rewrite (span_digits_sep _ ex E) by auto.
    cbn [is_empty negb andb]. exact (exponent_part _ _ Hx).
Qed.

Lemma digits_number ds : all_digits ds -> Forall (fun c => number_char c = true) ds.
Proof. intros H. eapply Forall_impl; [|exact H]. intros c Hc. unfold number_char. cbv beta in Hc. now rewrite Hc. Qed.

Lemma numeral_chars n s ip fp ex E : numeral n s ip fp ex E ->
  Forall (fun c => number_char c = true) n /\
  exists c r, n = c :: r /\ (is_digit c = true \/ c = cMINUS).
Proof.
  intros (-> & Hi & Hf & Hn & _ & Hx). split.
  - apply Forall_app. split; [destruct s; repeat constructor|].
    apply Forall_app. split; [now apply digits_number|].
    apply Forall_app. split.
    + destruct fp; cbn [is_empty]; [constructor|]. constructor; [reflexivity|]. now apply digits_number.
    + destruct Hx as [[-> _]|(sg & ds & -> & Hd & _ & H)]; [constructor|].
      constructor; [reflexivity|]. apply Forall_app. split; [|now apply digits_number].
      destruct H as [[[->| ->] _]|[-> _]]; repeat constructor.
  - destruct s; cbn [app]; [eauto|].
    destruct (digits_head ip ((if is_empty fp then [] else cDOT :: fp) ++ ex) Hi Hn) as (c & t & -> & Hc). eauto.
Qed.

(** * The printed text *)

Lemma exponent_text_ok st e : exponent (exponent_text st e) e.
Proof.
  right. unfold exponent_text.
  set (ds := pad_left (ns_width st) (dec_of_N (Z.abs_N e))).
  assert (Hd : all_digits ds) by (apply pad_left_digits, dec_of_N_digits).
  assert (Hv : dec_val ds = Z.abs_N e) by (unfold ds, pad_left; rewrite dec_val_zeros; apply dec_of_N_val).
  assert (Hn : ds <> []).
  { unfold ds, pad_left. intros H. apply app_eq_nil in H as [_ H]. now apply dec_of_N_nonempty in H. }
  exists (if (e <? 0) then [cMINUS] else if ns_plus st then [cPLUS] else []), ds.
  split; [reflexivity|]. split; [auto|]. split; [auto|]. rewrite Hv.
  destruct (Z.ltb_spec e 0).
  - right. split; [reflexivity|lia].
  - left. split; [destruct (ns_plus st); auto|lia].
Qed.

Theorem number_text_ok st x n : number_text st x = Some n ->
  exists s ip fp ex E, numeral n s ip fp ex E /\ parse_f64 n = Some x.
Proof.
  unfold number_text. destruct x as [sf V] eqn:Ex. cbn [f64_sf].
  destruct sf as [s|s| |s m e]; try discriminate; intros H.
  - injection H as <-. exists s, (lit "0"), (lit "0"), [], 0.
    split; [|destruct s; vm_compute; f_equal; apply f64_eq; reflexivity].
    unfold numeral. split; [destruct s; reflexivity|].
    split; [repeat constructor|]. split; [repeat constructor|]. split; [discriminate|].
    split; [intros r Hr; injection Hr as <-; reflexivity|]. left. auto.
  - pose proof (shortest_by_ok (ns_half_up st) m e s V) as Hs. destruct (shortest_by (ns_half_up st) m e) as [c p]. injection H as <-.
    assert (Hx : mk_f64 (S754_finite s m e) = x).
    { subst x. apply f64_eq. now apply mk_f64_sf. }
    rewrite <- Ex, <- Hx.
    destruct (ns_scientific st _).
    + destruct (dec_of_N_spec c) as (Hd & Hv & d & r & E0 & _). unfold scientific. rewrite E0 in *.
      assert (Hnum : numeral ((if s then [cMINUS] else []) ++ d :: (if is_empty r then [] else cDOT :: r)
                        ++ exponent_text st (p + Z.of_nat (length r)))
                       s [d] r (exponent_text st (p + Z.of_nat (length r))) (p + Z.of_nat (length r))).
      { unfold numeral. split; [reflexivity|]. inversion Hd; subst.
        split; [constructor; auto|]. split; [auto|]. split; [discriminate|].
        split; [intros r' Hr; now injection Hr as _ <-|]. apply exponent_text_ok. }
      do 5 eexists. split; [exact Hnum|].
      rewrite (numeral_parse _ _ _ _ _ _ Hnum). cbn [app]. rewrite Hv.
      replace (p + Z.of_nat (length r) - Z.of_nat (length r)) with p by lia. now rewrite Hs.
    + destruct (Z.ltb_spec p 0).
      * destruct (format_fixed_spec c p) as (ip & fp & E & Hi & Hf & Hn & Hl & Hr).
        assert (Hnum : numeral ((if s then [cMINUS] else []) ++ format_fixed c p) s ip fp [] 0).
        { unfold numeral. rewrite E, app_nil_r. repeat (split; [auto|]). left. auto. }
        do 5 eexists. split; [exact Hnum|]. rewrite (numeral_parse _ _ _ _ _ _ Hnum). now rewrite Hr, Hs.
      * unfold format_fixed. destruct (Z.ltb_spec p 0); [lia|].
        destruct (dec_of_N_spec (c * 10 ^ Z.to_N p)) as (Hd & Hv & d & r & E0 & Hz0 & Hz1).
        assert (Hnum : numeral ((if s then [cMINUS] else []) ++ dec_of_N (c * 10 ^ Z.to_N p) ++ lit ".0")
                         s (dec_of_N (c * 10 ^ Z.to_N p)) (lit "0") [] 0).
        { unfold numeral. split; [reflexivity|]. split; [auto|]. split; [repeat constructor|].
          split; [apply dec_of_N_nonempty|]. split; [|left; auto].
          intros r' Hr'. destruct (N.eq_dec (c * 10 ^ Z.to_N p) 0) as [Hz|Hz].
          - rewrite Hz0 in Hr' by auto. now injection Hr' as <-.
          - rewrite E0 in Hr'. injection Hr' as -> ->. now elim (Hz1 Hz). }
        do 5 eexists. split; [exact Hnum|]. refine (eq_trans (numeral_parse _ _ _ _ _ _ Hnum) _).
        rewrite dec_val_app, dec_of_N_val. change (dec_val (lit "0")) with 0%N.
        change (10 ^ N.of_nat (length (lit "0")))%N with 10%N. rewrite N.add_0_r.
        change (0 - Z.of_nat (length (lit "0"))) with (-1). now rewrite round_dec_tenth, Hs by lia.
Qed.

Lemma number_text_finite st x : f64_is_finite x = true <-> exists n, number_text st x = Some n.
Proof.
  unfold f64_is_finite, number_text. destruct (f64_sf x) as [s|s| |s m e]; try (split; [discriminate|intros [n H]; discriminate]).
  - split; eauto.
  - destruct (shortest_by (ns_half_up st) m e). split; eauto.
Qed.
